(** Specification for C87: one line of text for each call. *)
From Verif Require Import Base Maps Graph SpecGraph SpecAnalyse SpecAst LexPrint.
From Verif Require Ast SpecBody.
Notation newline := SpecBody.newline.

(** k=v, and [k=v, k=v] (nothing if there are no attributes). *)
Definition assign (kv : gostr * gostr) : gostr := kv.1 ++ lit "=" ++ kv.2.
Definition bracketed (l : list (gostr * gostr)) : gostr :=
  match l with
  | [] => []
  | kv :: l' => lit "[ " ++ assign kv ++ concat (map (fun kv => lit ", " ++ assign kv) l') ++ lit " ] "
  end.
Definition ids (l : list (gostr * gostr)) : Prop := Forall (fun kv => is_id kv.1 /\ is_id kv.2) l.
(** [t] inside the subgraphs [path], the outermost first. *)
Fixpoint inside (path : list gostr) (t : gostr) : gostr :=
  match path with [] => t | p :: path' => lit "subgraph " ++ p ++ lit " {" ++ inside path' t ++ newline ++ lit "}" end.
(** The subgraphs [path] exist in [s], each in the one before; the first one in [top]. *)
Fixpoint leads (s : sgraph) (top : gostr) (path : list gostr) : Prop :=
  match path with [] => True | p :: path' => is_child s top p /\ s_is_sub s p /\ leads s p path' end.
(** A node of the graph that (also) is directly in [top]. *)
Definition at_top (s : sgraph) (top n : gostr) : Prop := s_is_node s n /\ is_child s top n.
Definition arrow (directed : bool) : gostr := if directed then lit "->" else lit "--".

(** [t] is a way to write the call [c] on a graph with the name [top] and the content [s]. *)
Inductive line (top : gostr) (s : sgraph) : call -> gostr -> Prop :=
| L_node path n m l : leads s top path -> Forall is_id path -> is_id n -> l ≡ₚ map_to_list m -> ids l ->
    line top s (CAddNode (List.last path top) n m) (inside path (n ++ lit " " ++ bracketed l))
| L_edge a b directed m l : at_top s top a -> at_top s top b -> is_id a -> is_id b -> l ≡ₚ map_to_list m -> ids l ->
    line top s (CAddEdge a b directed m) (a ++ arrow directed ++ b ++ lit " " ++ bracketed l)
| L_port_edge a p b q directed m l : at_top s top a -> at_top s top b -> wf_node_id is_id (Ast.NodeID a p) -> wf_node_id is_id (Ast.NodeID b q) ->
    l ≡ₚ map_to_list m -> ids l ->
    line top s (CAddPortEdge a (port_text p) b (port_text q) directed m) (a ++ port_text p ++ arrow directed ++ b ++ port_text q ++ lit " " ++ bracketed l)
| L_attr path k v : leads s top path -> Forall is_id path -> is_id k -> is_id v ->
    line top s (CAddAttr (List.last path top) k v) (inside path (assign (k, v)))
| L_sub path n m l : leads s top path -> Forall is_id path -> is_id n -> l ≡ₚ map_to_list m -> ids l ->
    line top s (CAddSubGraph (List.last path top) n m)
      (inside path (lit "subgraph " ++ n ++ lit " {" ++ concat (map (fun kv => assign kv ++ newline) l) ++ newline ++ lit "}")).
(** The lines for a history of calls on the graph [g], each written for the graph as the earlier calls left it. *)
Inductive lines (top : gostr) : agraph -> list (oracle * call) -> gostr -> Prop :=
| Ls_nil g : lines top g [] []
| Ls_cons g o c h t t' : line top (view g) c t -> lines top (exec o c g).1 h t' -> lines top g ((o, c) :: h) (t ++ newline ++ t').

(** The graph with its flags and its name set, as the first line of a text does it. *)
Definition labelled (strict directed : bool) (name : gostr) (g : agraph) : agraph := set_name (set_dir (set_strict g strict) directed) name.
