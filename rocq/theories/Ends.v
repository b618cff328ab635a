(** Model of assignments to the exported fields Src and Dst of an edge: e := g.Edges.Edges[i]; e.Src, e.Dst = s, d (edges.go:22-29). *)
From Verif Require Import Maps Graph Direct.

Definition moved (e : edge) (s d : gostr) : edge := Edge s (e_src_port e) d (e_dst_port e) (e_dir e) (e_attrs e).
(** The edge is one *Edge in the slice and in the two indices (edges.go:32-36, 44-62); the keys under which the indices have it do not
    change.  This is for an edge that is in the indices under its ends; for one that was assigned to before, see [changes]. *)
Definition assign_ends (g : agraph) (i : nat) (s d : gostr) : agraph :=
  match edges_list (g_edges g) !! i with
  | None => g
  | Some e =>
      let j := length (List.filter (same_ends e) (take i (edges_list (g_edges g)))) in
      with_edges g (Edges (set2 (src_to_dsts (g_edges g)) (e_src e) (e_dst e) j (moved e s d))
                          (set2 (dst_to_srcs (g_edges g)) (e_dst e) (e_src e) j (moved e s d))
                          (<[i := moved e s d]> (edges_list (g_edges g))))
  end.

(** Histories of calls and of such assignments.  Simplification: what the indices show after an assignment is left open ([m1], [m2]
    are any maps), so the histories include those of the program, also if an edge is assigned to several times. *)
Inductive change := MCall (o : oracle) (c : call) | MEnds (i : nat) (s d : gostr).
Inductive changes : change -> agraph -> agraph -> option err -> Prop :=
| Ch_call o c g : changes (MCall o c) g (exec o c g).1 (exec o c g).2
| Ch_ends i s d e m1 m2 g : edges_list (g_edges g) !! i = Some e ->
    changes (MEnds i s d) g (with_edges g (Edges m1 m2 (<[i := moved e s d]> (edges_list (g_edges g))))) None.
Inductive changes_all : list change -> agraph -> agraph -> list (option err) -> Prop :=
| Cha_nil g : changes_all [] g g []
| Cha_cons c cs g g1 g2 r rs : changes c g g1 r -> changes_all cs g1 g2 rs -> changes_all (c :: cs) g g2 (r :: rs).
