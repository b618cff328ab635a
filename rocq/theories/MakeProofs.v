(** Proofs about the constructors. *)
From Verif Require Import Base Parser Maps AttrMap Walk RawTree SpecRaw RawMake SpecMake AstProofs RawProofs.
From Verif Require Ast.
Import Ast.

(** ** How calls end *)
Definition some {A} (x : option A) : bool := match x with Some _ => true | None => false end.
Lemma k_id a : of_kind KId a = some (to_id a). Proof. destruct a; reflexivity. Qed.
Lemma k_bool a : of_kind KBool a = some (to_bool a). Proof. destruct a; reflexivity. Qed.
Lemma k_type a : of_kind KType a = some (to_type a). Proof. destruct a; reflexivity. Qed.
Lemma k_op a : of_kind KOp a = some (to_op a). Proof. destruct a; reflexivity. Qed.
Lemma k_stmts a : of_kind KStmts a = some (to_stmts a). Proof. destruct a; reflexivity. Qed.
Lemma k_stmt a : of_kind KStmt a = some (to_stmt a). Proof. destruct a; reflexivity. Qed.
Lemma k_attrs a : of_kind KAttrList a = some (to_attr_list a). Proof. destruct a; reflexivity. Qed.
Lemma k_alist a : of_kind KAList a = some (to_alist a). Proof. destruct a; reflexivity. Qed.
Lemma k_attr a : of_kind KAttr a = some (to_attr a). Proof. destruct a; try reflexivity. destruct x; reflexivity. Qed.
Lemma k_loc a : of_kind KLoc a = some (to_loc a). Proof. destruct a; try reflexivity. destruct x; reflexivity. Qed.
Lemma k_rhs a : of_kind KRhs a = some (to_rhs a). Proof. destruct a; reflexivity. Qed.
Lemma k_node_id a : of_kind KNodeID a = some (to_node_id a). Proof. destruct a; reflexivity. Qed.
Lemma k_port a : of_kind KPort a = some (to_port a). Proof. destruct a; reflexivity. Qed.
Lemma t_just k a : takes (Just k) a = of_kind k a. Proof. destruct a; reflexivity. Qed.
Lemma t_maybe {A} (f : attrib -> option A) d k a : (forall x, of_kind k x = some (f x)) -> takes (Maybe k) a = some (unless_nil f d a).
Proof. intros H. destruct a; cbn [takes unless_nil]; try apply H. reflexivity. Qed.
Definition t_mid a := t_maybe to_id [] KId a k_id.
Definition t_mstmts a := t_maybe to_stmts [] KStmts a k_stmts.
Definition t_mattrs a := t_maybe to_attr_list [] KAttrList a k_attrs.
Definition t_mport a := t_maybe to_port (Port [] []) KPort a k_port.

Definition well (c : ctor) : bool := forallb (fun x => takes (fst x) (snd x)) (params c).
Definition ends_as (r : cres) (ref wel : bool) : Prop :=
  match r with CErr => ref = true | CPanic => ref = false /\ wel = false | COk _ => ref = false /\ wel = true end.
Lemma make_ends rnd o k c : ends_as (fst (make rnd o k c)) (refused c) (well c).
Proof.
  destruct c; unfold well; cbn [refused params forallb fst snd make].
  all: rewrite ?t_just, ?k_id, ?k_bool, ?k_type, ?k_op, ?k_stmts, ?k_stmt, ?k_attrs, ?k_attr, ?k_alist, ?k_loc, ?k_rhs, ?k_node_id, ?k_port, ?t_mid, ?t_mstmts, ?t_mattrs, ?t_mport.
  Ltac fin := repeat match goal with
    | |- context [obind (unless_nil ?f ?d ?a) _] => destruct (unless_nil f d a); cbn [obind some]
    | |- context [obind (?f ?a) _] => destruct (f a); cbn [obind some]
    | |- context [some (?f ?a)] => destruct (f a); cbn [some]
    end; cbn; auto.
  all: try (fin; fail).
  - (* NewSubGraph *) destruct (unless_nil to_stmts [] l); destruct id as [|[|i0 i]| | | | | | | | | | | | | ]; cbn; auto.
  - (* NewAttrList *) destruct a; cbn; auto.
  - (* AppendAttrList *) destruct (to_attr_list as_); cbn [obind some andb]; [destruct a; cbn; auto|cbn; auto].
  - (* NewAttr *) destruct (to_id f); cbn [some andb]; [destruct v; cbn; auto|cbn; auto].
  - (* NewID *) destruct id as [| |[l|]| | | | | | | | | | | | ]; cbn; auto.
Qed.
Lemma make_draws rnd o k c : snd (make rnd o k c) = if draws_random c then S k else k.
Proof. destruct c; try reflexivity. destruct id as [|[|i0 i]| | | | | | | | | | | | | ]; reflexivity. Qed.

(** ** What can be made *)
Definition good (a : attrib) : Prop :=
  match a with
  | ANil | AId _ | AToken (Some _) | ABool _ | AType _ | AOp _ | APort _ => True
  | AToken None | AOther => False
  | AStmts l => exists p, l = map raw_stmt p /\ Forall can_stmt p
  | AStmt x => exists p, x = raw_stmt p /\ can_stmt p
  | AAttrList a => exists b, a = raw_attrs b /\ can_attrs b
  | AAList l => exists b, l = map Some b /\ b <> []
  | ARhs l => exists p, l = map raw_erh p /\ p <> [] /\ Forall can_erh p
  | ANodeID n => exists m, n = Some m
  | AGraph g => exists p, g = raw_graph p /\ can_graph p
  end.
Lemma fold_Forall {A} (P : A -> Prop) l : fold_right (fun x acc => P x /\ acc) True l <-> Forall P l.
Proof. exact (fold_right_Forall P l). Qed.
Lemma raw_attr_inv x a : RAttr x = raw_stmt a -> exists b, x = Some b.
Proof. destruct a; cbn; try discriminate. intros [= ->]. eauto. Qed.
Lemma raw_sub_inv g p : RSub g = raw_stmt p -> exists q, g = raw_sub q /\ p = SSub q.
Proof. destruct p; cbn; try discriminate. intros [= ->]. eauto. Qed.
Lemma good_loc a l : good a -> to_loc a = Some l -> exists p, l = raw_loc p /\ can_loc p.
Proof.
  destruct a as [| | | | | | |x| | | |n| | |]; try discriminate.
  - intros (p & E & C) H. destruct x; try discriminate H. injection H as <-. destruct (raw_sub_inv _ _ E) as (q & -> & ->). exists (LSub q). split; [reflexivity|exact C].
  - intros [m ->] [= <-]. exists (LNode m). split; [reflexivity|exact I].
Qed.
Lemma good_attr a x : good a -> to_attr a = Some x -> exists b, x = Some b.
Proof. destruct a as [| | | | | | |y| | | | | | |]; try discriminate. intros (p & E & C) H. destruct y; try discriminate H. injection H as <-. exact (raw_attr_inv _ _ E). Qed.
Lemma good_stmt a x : good a -> to_stmt a = Some x -> exists p, x = raw_stmt p /\ can_stmt p.
Proof. destruct a; try discriminate. intros H [= <-]. exact H. Qed.
Lemma good_stmts a x : good a -> unless_nil to_stmts [] a = Some x -> exists p, x = map raw_stmt p /\ Forall can_stmt p.
Proof. destruct a; try discriminate; intros H [= <-]; [exists []; split; [reflexivity|constructor]|exact H]. Qed.
Lemma good_attrs a x : good a -> unless_nil to_attr_list [] a = Some x -> exists p, x = raw_attrs p /\ can_attrs p.
Proof. destruct a; try discriminate; intros H [= <-]; [exists []; split; [reflexivity|exact I]|exact H]. Qed.
Lemma good_attrs1 a x : good a -> to_attr_list a = Some x -> exists p, x = raw_attrs p /\ can_attrs p.
Proof. destruct a; try discriminate; intros H [= <-]; exact H. Qed.
Lemma good_alist a x : good a -> to_alist a = Some x -> exists p, x = map Some p /\ p <> [].
Proof. destruct a; try discriminate; intros H [= <-]; exact H. Qed.
Lemma good_rhs a x : good a -> to_rhs a = Some x -> exists p, x = map raw_erh p /\ p <> [] /\ Forall can_erh p.
Proof. destruct a; try discriminate; intros H [= <-]; exact H. Qed.
Lemma good_node_id a x : good a -> to_node_id a = Some x -> exists m, x = Some m.
Proof. destruct a; try discriminate; intros H [= <-]; exact H. Qed.
Lemma can_attrs_app a l : can_attrs a -> l <> [] -> can_attrs (a ++ [l]).
Proof. destruct a as [|x a]; cbn; intros H L; [constructor|]. apply Forall_app. split; [exact H|]. constructor; [exact L|constructor]. Qed.
Lemma anon_ne n : anon_name n <> []. Proof. discriminate. Qed.

Lemma ret_ok x a : ret x = COk a -> x = Some a. Proof. destruct x; [intros [= ->]; reflexivity|discriminate]. Qed.
Lemma obind_ok {A B} (x : option A) (f : A -> option B) b : obind x f = Some b -> exists y, x = Some y /\ f y = Some b.
Proof. destruct x; [eauto|discriminate]. Qed.
Ltac inv1 := repeat match goal with
  | H : ret _ = COk _ |- _ => apply ret_ok in H
  | H : obind _ _ = Some _ |- _ => apply obind_ok in H; destruct H as (? & ? & H)
  | H : Some _ = Some _ |- _ => injection H as <-
  end.

Lemma make_good rnd o k c a : (forall p x, In (p, x) (params c) -> good x) -> fst (make rnd o k c) = COk a -> good a.
Proof.
  intros G E. assert (G' : Forall (fun x : param * attrib => good x.2) (params c)) by (apply List.Forall_forall; intros [p x] H; exact (G p x H)). clear G.
  destruct c; cbn [params make fst] in *;
    repeat match goal with H : Forall _ (_ :: _) |- _ => apply Forall_cons in H; destruct H as [? H]; cbn [snd] in * | H : Forall _ [] |- _ => clear H end.
  - (* NewGraph *) inv1. destruct (good_stmts l _ ltac:(assumption) ltac:(eassumption)) as (p & -> & C).
    match goal with |- good (AGraph (Some (RGraph ?t ?b ?i _))) => exists (Graph t b i p) end. split; [reflexivity|exact C].
  - inv1. destruct (good_stmt s _ ltac:(assumption) ltac:(eassumption)) as (p & -> & C). exists [p]. split; [reflexivity|constructor; [exact C|constructor]].
  - inv1. destruct (good_stmt s _ ltac:(assumption) ltac:(eassumption)) as (p & -> & C).
    destruct ss; try discriminate. match goal with H : to_stmts _ = Some _ |- _ => injection H as <- end.
    match goal with H : good (AStmts _) |- _ => destruct H as (q & -> & D) end. exists (q ++ [p]). split; [rewrite map_app; reflexivity|].
    apply Forall_app. split; [exact D|]. constructor; [exact C|constructor].
  - (* NewSubGraph *)
    assert (R : forall i, i <> [] -> ret (obind (unless_nil to_stmts [] l) (fun ss => Some (AStmt (RSub (RSubGraph i ss))))) = COk a -> good a).
    { intros i Hi E1. inv1. destruct (good_stmts l _ ltac:(assumption) ltac:(eassumption)) as (p & -> & C). exists (SSub (SubGraph i p)). split; [reflexivity|].
      split; [exact Hi|]. apply fold_Forall. exact C. }
    destruct id as [|[|i0 i]| | | | | | | | | | | | | ]; cbn [fst] in E; try discriminate E.
    + exact (R _ (anon_ne _) E).
    + exact (R _ (anon_ne _) E).
    + exact (R (i0 :: i) ltac:(discriminate) E).
  - inv1. destruct (good_attrs1 a0 _ ltac:(assumption) ltac:(eassumption)) as (p & -> & C). exists (SEdgeAttrs p). split; [reflexivity|exact C].
  - inv1. destruct (good_attrs1 a0 _ ltac:(assumption) ltac:(eassumption)) as (p & -> & C). exists (SNodeAttrs p). split; [reflexivity|exact C].
  - inv1. destruct (good_attrs1 a0 _ ltac:(assumption) ltac:(eassumption)) as (p & -> & C). exists (SGraphAttrs p). split; [reflexivity|exact C].
  - (* NewAttrList *)
    assert (R : ret (obind (to_alist a0) (fun x => Some (AAttrList [x]))) = COk a -> good a).
    { intros E1. inv1. destruct (good_alist a0 _ ltac:(assumption) ltac:(eassumption)) as (p & -> & C). exists [p]. split; [reflexivity|constructor]. }
    destruct a0; try exact (R E). inv1. exists []. split; [reflexivity|exact I].
  - (* AppendAttrList *)
    inv1. destruct (good_attrs1 as_ _ ltac:(assumption) ltac:(eassumption)) as (p & -> & C).
    assert (R : obind (to_alist a0) (fun y => Some (AAttrList (raw_attrs p ++ [y]))) = Some a -> good a).
    { intros E1. inv1. destruct (good_alist a0 _ ltac:(assumption) ltac:(eassumption)) as (q & -> & D). exists (p ++ [q]).
      split; [unfold raw_attrs; rewrite map_app; reflexivity|]. apply can_attrs_app; assumption. }
    destruct a0; try exact (R E). inv1. exists p. split; [reflexivity|exact C].
  - (* PutMap *) injection E as <-. exists (put_map o 0 m). split; [reflexivity|]. constructor.
  - inv1. destruct (good_attr a0 _ ltac:(assumption) ltac:(eassumption)) as (p & ->). exists [p]. split; [reflexivity|discriminate].
  - inv1. destruct (good_attr a0 _ ltac:(assumption) ltac:(eassumption)) as (p & ->).
    destruct (good_alist as_ _ ltac:(assumption) ltac:(eassumption)) as (q & -> & D). exists (q ++ [p]). split; [rewrite map_app; reflexivity|]. destruct q; discriminate.
  - (* NewAttr *) destruct (to_id f) as [i|]; [|discriminate E]. destruct v; try discriminate E; injection E as <-; eexists; (split; [exact (eq_refl (raw_stmt (SAttr _)))|exact I]).
  - inv1. destruct (good_attrs a0 _ ltac:(assumption) ltac:(eassumption)) as (p & -> & C).
    destruct (good_loc id _ ltac:(assumption) ltac:(eassumption)) as (q & -> & D).
    destruct (good_rhs e _ ltac:(assumption) ltac:(eassumption)) as (r & -> & N & R). exists (SEdge q r p). split; [reflexivity|].
    cbn [can_stmt]. repeat split; try assumption. apply fold_Forall. exact R.
  - inv1. destruct (good_loc id _ ltac:(assumption) ltac:(eassumption)) as (q & -> & D).
    match goal with |- good (ARhs [RH ?b _]) => exists [EdgeRH b q] end. split; [reflexivity|]. split; [discriminate|constructor; [exact D|constructor]].
  - inv1. destruct (good_loc id _ ltac:(assumption) ltac:(eassumption)) as (q & -> & D).
    destruct (good_rhs e _ ltac:(assumption) ltac:(eassumption)) as (r & -> & N & R).
    match goal with |- good (ARhs (_ ++ [RH ?b _])) => exists (r ++ [EdgeRH b q]) end. split; [rewrite map_app; reflexivity|].
    split; [destruct r; discriminate|]. apply Forall_app. split; [exact R|]. constructor; [exact D|constructor].
  - inv1. destruct (good_attrs a0 _ ltac:(assumption) ltac:(eassumption)) as (p & -> & C).
    destruct (good_node_id id _ ltac:(assumption) ltac:(eassumption)) as (m & ->). exists (SNode m p). split; [reflexivity|exact C].
  - inv1. eexists. reflexivity.
  - injection E as <-. eexists. reflexivity.
  - inv1. exact I.
  - destruct id as [| |[l|]| | | | | | | | | | | | ]; try discriminate E; inv1; exact I.
Qed.
Lemma made_good a : made a -> good a.
Proof.
  induction 1 as [| | | | | |rnd o k c a k' F G IH E]; try exact I.
  apply (make_good rnd o k c a IH). rewrite E. reflexivity.
Qed.

(** ** The rebuilding program *)
Section Re.
  Variables (rnd : nat -> N) (o : oracle).
  Hypothesis F : fair o.
  Notation call_ := (call_ rnd o).
  Definition does_make (x : option attrib) (a : attrib) : Prop := x = Some a /\ made a.
  Lemma dm_call c a : (forall p x, In (p, x) (params c) -> made x) -> call_ c = Some a -> does_make (call_ c) a.
  Proof.
    intros G E. split; [exact E|]. unfold SpecMake.call_ in E. destruct (make rnd o 0 c) as [[b| |] k'] eqn:M; try discriminate E. injection E as <-.
    eapply M_call; eassumption.
  Qed.
  Ltac args := intros ? ? HIn; cbn [params In] in HIn; repeat (destruct HIn as [HIn|HIn]); try contradiction; injection HIn as <- <-; try assumption; try (constructor; fail).
  Lemma dm_attr a : does_make (mk_attr rnd o a) (AStmt (RAttr (Some a))).
  Proof. destruct a as [f v]. apply dm_call; [args|reflexivity]. Qed.
  Lemma dm_obind x a f b : does_make x a -> (made a -> does_make (f a) b) -> does_make (obind x f) b.
  Proof. intros [-> M] H. exact (H M). Qed.
  Lemma dm_chain {A} (next : attrib -> A -> option attrib) (shape : list A -> attrib) l :
    forall pre x, does_make x (shape pre) ->
    Forall (fun y => forall pre, made (shape pre) -> does_make (next (shape pre) y) (shape (pre ++ [y]))) l ->
    does_make (chain next l x) (shape (pre ++ l)).
  Proof.
    induction l as [|y l IH]; intros pre x D H; [rewrite app_nil_r; exact D|]. apply Forall_cons in H as [Hy H].
    unfold chain. cbn [fold_left]. change (does_make (chain next l (obind x (fun x => next x y))) (shape (pre ++ y :: l))).
    replace (pre ++ y :: l) with ((pre ++ [y]) ++ l) by (rewrite <- app_assoc; reflexivity). apply IH; [|exact H].
    eapply dm_obind; [exact D|]. exact (Hy pre).
  Qed.
  Lemma dm_alist l : l <> [] -> does_make (mk_alist rnd o l) (AAList (map Some l)).
  Proof.
    destruct l as [|a l]; [intros H; contradiction|intros _]. unfold mk_alist.
    apply (dm_chain _ (fun l => AAList (map Some l)) l [a]).
    - eapply dm_obind; [apply dm_attr|]. intros M. apply dm_call; [args|reflexivity].
    - apply List.Forall_forall. intros y _ pre Mp. eapply dm_obind; [apply dm_attr|]. intros M. apply dm_call; [args|]. rewrite map_app. reflexivity.
  Qed.
  Lemma put_map_empty : put_map o 0 ∅ = [[]].
  Proof.
    unfold put_map. f_equal. replace (o_names o 0 (keys ∅)) with (@nil gostr); [reflexivity|].
    symmetry. apply Permutation_nil. symmetry. rewrite (proj2 F 0 (keys ∅)). unfold keys. rewrite dom_empty_L, elements_empty. reflexivity.
  Qed.
  Lemma dm_attrs a : can_attrs a -> does_make (mk_attrs rnd o a) (AAttrList (raw_attrs a)).
  Proof.
    destruct a as [|l a]; intros C; [apply dm_call; [args|reflexivity]|]. unfold mk_attrs. cbn [can_attrs] in C.
    apply (dm_chain _ (fun a => AAttrList (raw_attrs a)) a [l]).
    - destruct l as [|x l].
      + apply dm_call; [args|]. unfold SpecMake.call_. cbn [make]. rewrite put_map_empty. reflexivity.
      + eapply dm_obind; [apply dm_alist; discriminate|]. intros M. apply dm_call; [args|reflexivity].
    - eapply Forall_impl; [exact C|]. intros y Hy pre Mp. eapply dm_obind; [apply dm_alist; exact Hy|]. intros M. apply dm_call; [args|].
      unfold raw_attrs. rewrite map_app. reflexivity.
  Qed.
  Lemma dm_node_id n : does_make (mk_node_id rnd o n) (ANodeID (Some n)).
  Proof.
    destruct n as [i [a b]]. unfold mk_node_id. eapply dm_obind; [apply dm_call; [args|reflexivity]|]. intros M. apply dm_call; [args|reflexivity].
  Qed.
  Definition loc_attrib (l : location) : attrib := match l with LNode n => ANodeID (Some n) | LSub g => AStmt (RSub (raw_sub g)) end.
  Lemma to_loc_attrib l : to_loc (loc_attrib l) = Some (raw_loc l). Proof. destruct l; reflexivity. Qed.
  Lemma dm_body b : Forall (fun x => can_stmt x -> does_make (mk_stmt rnd o x) (AStmt (raw_stmt x))) b -> Forall can_stmt b -> b <> [] ->
    does_make (match b with [] => Some ANil | x :: b' => chain (fun ss x => obind (mk_stmt rnd o x) (fun y => call_ (AppendStmtList ss y))) b'
                              (obind (mk_stmt rnd o x) (fun y => call_ (NewStmtList y))) end) (AStmts (map raw_stmt b)).
  Proof.
    intros H C N. destruct b as [|x b]; [contradiction|]. apply Forall_cons in H as [Hx H]. apply Forall_cons in C as [Cx C].
    apply (dm_chain _ (fun b => AStmts (map raw_stmt b)) b [x]).
    - eapply dm_obind; [exact (Hx Cx)|]. intros M. apply dm_call; [args|reflexivity].
    - apply List.Forall_forall. intros y Hy pre Mp. rewrite List.Forall_forall in H, C. eapply dm_obind; [exact (H y Hy (C y Hy))|]. intros M.
      apply dm_call; [args|]. rewrite map_app. reflexivity.
  Qed.
  Lemma dm_all :
    (forall x, can_stmt x -> does_make (mk_stmt rnd o x) (AStmt (raw_stmt x))) /\ (forall l, can_loc l -> does_make (mk_loc rnd o l) (loc_attrib l)) /\
    (forall g, can_sub g -> does_make (mk_sub rnd o g) (AStmt (RSub (raw_sub g)))).
  Proof.
    apply (stmt_all_ind (fun x => can_stmt x -> does_make (mk_stmt rnd o x) (AStmt (raw_stmt x))) (fun l => can_loc l -> does_make (mk_loc rnd o l) (loc_attrib l))
      (fun g => can_sub g -> does_make (mk_sub rnd o g) (AStmt (RSub (raw_sub g))))).
    - intros n a C. cbn [mk_stmt]. eapply dm_obind; [apply dm_node_id|]. intros M. eapply dm_obind; [apply dm_attrs; exact C|]. intros M2.
      apply dm_call; [args|reflexivity].
    - intros l r a Hl Hr (Cl & N & Cr & Ca). cbn [mk_stmt]. apply fold_Forall in Cr.
      eapply dm_obind; [exact (Hl Cl)|]. intros Ml.
      eapply (dm_obind _ (ARhs (map raw_erh r))).
      { destruct r as [|[op d] r]; [contradiction|]. apply Forall_cons in Hr as [Hd Hr]. apply Forall_cons in Cr as [Cd Cr].
        apply (dm_chain _ (fun r => ARhs (map raw_erh r)) r [EdgeRH op d]).
        - cbn [mk_erh]. eapply dm_obind; [exact (Hd Cd)|]. intros M. apply dm_call; [args|]. unfold SpecMake.call_. cbn [make to_op obind].
          rewrite to_loc_attrib. reflexivity.
        - apply List.Forall_forall. intros [op2 d2] Hy pre Mp. rewrite List.Forall_forall in Hr, Cr. cbn [mk_erh].
          eapply dm_obind; [exact (Hr _ Hy (Cr _ Hy))|]. intros M. apply dm_call; [args|]. unfold SpecMake.call_. cbn [make to_rhs to_op obind].
          rewrite to_loc_attrib, map_app. reflexivity. }
      intros Mr. eapply dm_obind; [apply dm_attrs; exact Ca|]. intros Ma. apply dm_call; [args|]. unfold SpecMake.call_. cbn [make unless_nil to_attr_list obind].
      rewrite to_loc_attrib. reflexivity.
    - intros a C. cbn [mk_stmt]. eapply dm_obind; [apply dm_attrs; exact C|]. intros M. apply dm_call; [args|reflexivity].
    - intros a C. cbn [mk_stmt]. eapply dm_obind; [apply dm_attrs; exact C|]. intros M. apply dm_call; [args|reflexivity].
    - intros a C. cbn [mk_stmt]. eapply dm_obind; [apply dm_attrs; exact C|]. intros M. apply dm_call; [args|reflexivity].
    - intros g H C. exact (H C).
    - intros a _. apply dm_attr.
    - intros n _. apply dm_node_id.
    - intros g H C. exact (H C).
    - intros i b Hb [Ni Cb]. apply fold_Forall in Cb. cbn [mk_sub].
      assert (E : forall l, to_stmts l = Some (map raw_stmt b) \/ (l = ANil /\ b = []) -> call_ (NewSubGraph (AId i) l) = Some (AStmt (RSub (raw_sub (SubGraph i b))))).
      { intros l Hl. destruct i as [|c i]; [contradiction|]. unfold SpecMake.call_. cbn [make].
        destruct Hl as [Hl|[-> ->]]; [|reflexivity]. destruct l; try discriminate Hl. cbn [to_stmts] in Hl. injection Hl as ->. reflexivity. }
      destruct b as [|x b].
      + eapply (dm_obind _ ANil); [split; [reflexivity|constructor]|]. intros M. apply dm_call; [args|]. apply E. right. auto.
      + eapply dm_obind; [apply (dm_body (x :: b) Hb Cb); discriminate|]. intros M. apply dm_call; [args|]. apply E. left. reflexivity.
  Qed.
  Lemma dm_graph g : can_graph g -> does_make (mk_graph rnd o g) (AGraph (raw_graph g)).
  Proof.
    destruct g as [t st i b]. unfold can_graph, mk_graph. cbn [g_stmts g_type g_strict g_id]. intros C.
    destruct b as [|x b].
    - eapply (dm_obind _ ANil); [split; [reflexivity|constructor]|]. intros M. apply dm_call; [args|reflexivity].
    - eapply dm_obind; [apply (dm_body (x :: b)); [|exact C|discriminate]|].
      + apply List.Forall_forall. intros y _. apply dm_all.
      + intros M. apply dm_call; [args|reflexivity].
  Qed.
End Re.
