(** Model of assignments to the exported field Name through pointers taken from a graph: g.Nodes.Lookup[a].Name = n (nodes.go:22-25)
    and g.SubGraphs.SubGraphs[s].Name = t (subgraphs.go:22-25).  Simplification: a missing entry leaves the graph as it is (the Go
    program would dereference a nil pointer in its own code). *)
From Verif Require Import Maps Graph.

(** The node is found both from Lookup and from the slice Nodes; the keys of Lookup do not change. *)
Definition assign_node_name (g : agraph) (a n : gostr) : agraph :=
  let ns := g_nodes g in
  match nodes_lookup ns !! a with
  | None => g
  | Some p => with_nodes g (Nodes (nodes_lookup ns) (nodes_list ns) (<[p := Node n (node_attrs (deref ns p))]> (nodes_heap ns)) (nodes_next ns))
  end.
Definition assign_sub_name (g : agraph) (s t : gostr) : agraph :=
  match g_subs g !! s with
  | None => g
  | Some sb => with_subs g (<[s := Sub (sub_attrs sb) t]> (g_subs g))
  end.
(** Several assignments, one after the other, such as a program makes that walks over g.Nodes.Nodes and g.SubGraphs.SubGraphs. *)
Inductive naming : Type := NameNode (key name : gostr) | NameSub (key name : gostr).
Definition assign_name (g : agraph) (c : naming) : agraph :=
  match c with NameNode a n => assign_node_name g a n | NameSub s t => assign_sub_name g s t end.
Definition assign_names (g : agraph) (l : list naming) : agraph := fold_left assign_name l g.
