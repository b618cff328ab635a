(** Specification for C72: a graph whose indices are right. *)
From Verif Require Import Maps Graph Ends.

(** m[x][y], for SrcToDsts and DstToSrcs *)
Definition entry (m : gmap gostr (gmap gostr (list edge))) (x y : gostr) : option (list edge) :=
  match m !! x with Some inner => inner !! y | None => None end.
(** The edges of a list, added one after the other to an empty set of edges. *)
Definition edges_of (l : list edge) : edges := fold_left edges_add l new_edges.
(** The same graph, with the indices of its edges made anew. *)
Definition reindexed (g : agraph) : agraph := with_edges g (edges_of (edges_list (g_edges g))).
(** The edge with other ends: ports, direction and attributes are as they were. *)
Definition other_ends (e : edge) (s d : gostr) : edge :=
  {| e_src := s; e_dst := d; e_src_port := e_src_port e; e_dst_port := e_dst_port e; e_dir := e_dir e; e_attrs := e_attrs e |}.
(** The assignment as it should be: the edge at index [i] is as if it had been added with the new ends. *)
Definition should (c : change) (g : agraph) : agraph * option err :=
  match c with
  | MCall o c => exec o c g
  | MEnds i s d =>
      match edges_list (g_edges g) !! i with
      | Some e => (with_edges g (edges_of (<[i := other_ends e s d]> (edges_list (g_edges g)))), None)
      | None => (g, None)
      end
  end.
Fixpoint should_all (cs : list change) (g : agraph) : agraph * list (option err) :=
  match cs with
  | [] => (g, [])
  | c :: cs' => let '(g1, r) := should c g in let '(g2, rs) := should_all cs' g1 in (g2, r :: rs)
  end.
