(** C83: the tree that Parse returns shares nothing, with itself or with anything else; so a program may change it as if it were a value. *)
From Coq Require Import String List Ascii NArith ZArith Bool Lia Arith.
From Verif Require Import Base LexTables ParseTables Ast Lexer Parser TreeMem SpecTree TreeProofs TreeRun ParseFacts.
Import ListNotations.

(** [shows] is a function: what is in memory is one tree. *)
Theorem C83_shows_one h v t t' : shows h v t -> shows h v t' -> t = t'.
Proof.
  revert v t t'. fix IH 4. intros v t t' H.
  assert (L : forall vs ts, all_show h vs ts -> forall ts', all_show h vs ts' -> ts = ts').
  { fix IHl 3. intros vs ts A. destruct A as [|v1 t1 vs ts Hv A]; intros ts' A'; inversion A'; subst; [reflexivity|]. f_equal; [eapply IH; eassumption|eapply IHl; eassumption]. }
  destruct H as [l|k|k a fs ts E A|k a n cs ts E Ln A]; intros H'; inversion H'; subst; try reflexivity.
  - f_equal. assert (fs0 = fs) by congruence. subst. eapply L; eassumption.
  - f_equal. assert (cs0 = cs) by congruence. subst. eapply L; eassumption.
Qed.

(** Parse, with slices, arrays and pointers, and whatever room append leaves in a new array, gives the AST of Parser.v
    (on which all other theorems about parsing are), or the same error; and does not write to memory that was there before. *)
Theorem C83_parse grow rnd k0 h src :
  match parse_bytes rnd k0 src with
  | Ok (g, k) => exists v h', m_parse grow rnd k0 h src = Ok (v, h', k) /\ shows h' v (t_graph g) /\ firstn (length h) h' = h
  | Err e => m_parse grow rnd k0 h src = Err e
  | _ => False
  end.
Proof.
  pose proof (parse_sim grow rnd h k0 src) as P. pose proof (parse_total rnd k0 src) as T. destruct (parse_bytes rnd k0 src) as [[g k]|e| |].
  - destruct P as (v & h' & F & E & O & _ & _ & L & Fr). exists v, h'. split; [exact E|]. split; [exact (own_shows _ _ _ _ O)|].
    clear - L Fr. revert h' L Fr. induction h as [|x h IH]; intros h' L Fr; [reflexivity|]. destruct h' as [|y h']; cbn in L; [lia|]. cbn.
    pose proof (Fr 0 ltac:(cbn; lia)) as E0. cbn in E0. injection E0 as ->. f_equal. apply IH; [lia|]. intros a La. apply (Fr (S a)). cbn. lia.
  - exact P.
  - destruct T as [(g & k1 & E)|(e & E)]; discriminate.
  - destruct T as [(g & k1 & E)|(e & E)]; discriminate.
Qed.

(** So all trees that a program had keep what they show. *)
Lemma shows_prefix h h' : firstn (length h) h' = h -> forall v t, shows h v t -> shows h' v t.
Proof.
  intros E. assert (K : forall a x, nth_error h a = Some x -> nth_error h' a = Some x).
  { intros a x Ha. rewrite <- (firstn_skipn (length h) h'), E. rewrite nth_error_app1; [exact Ha|]. apply nth_error_Some. congruence. }
  fix IH 3. intros v t H.
  assert (L : forall vs ts, all_show h vs ts -> all_show h' vs ts).
  { fix IHl 3. intros vs ts A. destruct A as [|v1 t1 vs ts Hv A]; constructor; [apply IH, Hv|apply IHl, A]. }
  destruct H as [l|k|k a fs ts Ea A|k a n cs ts Ea Ln A].
  - constructor.
  - constructor.
  - econstructor; [apply K, Ea|apply L, A].
  - econstructor; [apply K, Ea|exact Ln|apply L, A].
Qed.
Theorem C83_parse_keeps grow rnd k0 h src v h' k w t :
  m_parse grow rnd k0 h src = Ok (v, h', k) -> shows h w t -> shows h' w t.
Proof.
  intros E H. pose proof (C83_parse grow rnd k0 h src) as P. destruct (parse_bytes rnd k0 src) as [[g k1]|e| |]; [|congruence|contradiction|contradiction].
  destruct P as (v1 & h1 & E1 & _ & Ef). rewrite E in E1. injection E1 as -> -> ->. exact (shows_prefix _ _ Ef _ _ H).
Qed.

(** Programs that parse texts, make structs and lists, assign to fields and elements anywhere in the trees, append to the lists
    in them and put trees into each other: whatever room append leaves, they do exactly what they would do if every variable
    held a tree of its own - the same panics, the same trees in the end - and memory that was there before is not written to. *)
Theorem C83_program grow rnd h0 k0 prog : Forall op_ok prog ->
  match t_run rnd prog ([], k0) with
  | Some (ts, k) => exists h vs, m_run grow rnd prog (h0, [], k0) = Some (h, vs, k) /\ all_show h vs ts /\
      (forall a, a < length h0 -> nth_error h a = nth_error h0 a)
  | None => m_run grow rnd prog (h0, [], k0) = None
  end.
Proof.
  intros H. pose proof (run_sim grow rnd h0 prog h0 [] [] k0 H (sinv_nil h0)) as R. destruct (t_run rnd prog ([], k0)) as [[ts k]|]; [|exact R].
  destruct R as (h & vs & E & (F & O & _) & _ & Fr). exists h, vs. split; [exact E|]. split; [exact (proj2 (own_shows_all h) _ _ _ O)|exact Fr].
Qed.

(** The room that append leaves cannot be observed by such programs. *)
Theorem C83_room_unseen grow grow' rnd h0 k0 prog h vs k : Forall op_ok prog -> m_run grow rnd prog (h0, [], k0) = Some (h, vs, k) ->
  exists h' vs' ts, m_run grow' rnd prog (h0, [], k0) = Some (h', vs', k) /\ all_show h vs ts /\ all_show h' vs' ts.
Proof.
  intros H E. pose proof (C83_program grow rnd h0 k0 prog H) as P. pose proof (C83_program grow' rnd h0 k0 prog H) as P'.
  destruct (t_run rnd prog ([], k0)) as [[ts k1]|]; [|congruence]. destruct P as (h1 & vs1 & E1 & S1 & _). destruct P' as (h2 & vs2 & E2 & S2 & _).
  rewrite E in E1. injection E1 as -> -> ->. exists h2, vs2, ts. auto.
Qed.

(** What the programs above do not do, and must not: append to the same list twice and keep both results.  If the array has room the second
    append overwrites the end of the first result. *)
Theorem C83_append_twice grow h k a n cs x y r1 h1 r2 h2 : nth_error h a = Some cs -> n <= length cs ->
  append grow (MSlice k a n) x h = Some (r1, h1) -> append grow (MSlice k a n) y h1 = Some (r2, h2) ->
  child h1 r1 n = Some x /\ child h2 r2 n = Some y /\ child h2 r1 n = Some (if Nat.ltb n (length cs) then y else x).
Proof.
  intros E L H1 H2. assert (La : a < length h) by (apply nth_error_Some; congruence).
  cbn [append] in H1. rewrite E in H1. destruct (Nat.ltb_spec n (length cs)) as [Hl|Hl]; injection H1 as <- <-.
  - cbn [append] in H2. rewrite set_at_same in H2 by exact La. rewrite set_at_length in H2.
    destruct (Nat.ltb_spec n (length cs)) as [_|Q]; [|lia]. injection H2 as <- <-.
    assert (Lf : length (firstn n cs) = n) by (rewrite firstn_length; lia).
    assert (Q : forall c1, length c1 = length cs -> nth_error (firstn (S n) (set_at n y c1)) n = Some y).
    { intros c1 Lc. rewrite set_at_firstn_S by lia. rewrite nth_error_app2; rewrite firstn_length, Lc, Nat.min_l by lia; [|lia]. rewrite Nat.sub_diag. reflexivity. }
    split; [|split].
    + cbn [child]. rewrite set_at_same by exact La. rewrite set_at_firstn_S by exact Hl. rewrite nth_error_app2 by lia. rewrite Lf, Nat.sub_diag. reflexivity.
    + cbn [child]. rewrite set_at_same by (rewrite set_at_length; exact La). apply Q. apply set_at_length.
    + cbn [child]. rewrite set_at_same by (rewrite set_at_length; exact La). apply Q. apply set_at_length.
  - cbn [append] in H2. rewrite nth_error_app1 in H2 by exact La. rewrite E in H2.
    destruct (Nat.ltb_spec n (length cs)) as [Q|_]; [lia|]. injection H2 as <- <-.
    assert (Lf : length (firstn n cs) = n) by (rewrite firstn_length; lia).
    assert (Q : forall z l, nth_error (firstn (S n) (firstn n cs ++ z :: l)) n = Some z).
    { intros z l. rewrite firstn_S_app by lia. rewrite nth_error_app2 by lia. rewrite Lf, Nat.sub_diag. reflexivity. }
    split; [|split].
    + cbn [child]. rewrite nth_app_new. apply Q.
    + cbn [child]. rewrite nth_app_new. apply Q.
    + cbn [child]. rewrite nth_error_app1 by (rewrite app_length; cbn; lia). rewrite nth_app_new. apply Q.
Qed.

(** ** Concrete cases *)
Definition twice (h : mem) (n : nat) : nat := n - 1.  (* a new array of size 2n *)
Definition tree_prog : list tree_op :=
  [OParse (lit "graph{a[k=v] b--c}"); OSet 0 [3; 0; 1; 0; 0; 1] (LStr (lit "w")); ONew KAttr [LStr (lit "x"); LStr (lit "y")];
   OAppend 0 [3; 0; 1; 0] 1; OParse (lit "graph{d}"); OPut 2 [3; 0; 0] 0].
Definition attr_tree (f v : string) : tree := TNode KAttr [TLeaf (LStr (lit f)); TLeaf (LStr (lit v))].
Example tree_prog_ok : Forall op_ok tree_prog.
Proof. repeat constructor; discriminate. Qed.
Example tree_prog_runs :
  t_run (fun _ => 0%N) (firstn 4 tree_prog) ([], 0) =
  Some ([TNode KGraph [TLeaf (LBool false); TLeaf (LBool false); TLeaf (LStr []);
          TNode KStmtList [
            TNode KNodeStmt [TNode KNodeID [TLeaf (LStr (lit "a")); TLeaf (LPort (Port [] []))];
                             TNode KAttrList [TNode KAList [attr_tree "k" "w"; attr_tree "x" "y"]]];
            TNode KEdgeStmt [TNode KNodeID [TLeaf (LStr (lit "b")); TLeaf (LPort (Port [] []))];
                             TNode KEdgeRHS [TNode KEdgeRH [TLeaf (LOp false); TNode KNodeID [TLeaf (LStr (lit "c")); TLeaf (LPort (Port [] []))]]];
                             TNode KAttrList []]]];
         TLeaf LNil], 0).
Proof. vm_compute. reflexivity. Qed.
Example tree_prog_all : match t_run (fun _ => 0%N) tree_prog ([], 0) with Some (ts, _) => length ts = 3 | None => False end.
Proof. vm_compute. reflexivity. Qed.

(** The list of the three statements of a text has room for a fourth: after b := append(g.StmtList, x); c := append(g.StmtList, y) the last
    statement of b is y.  (g itself does not change.) *)
Theorem C83_append_twice_parsed_refuted : ~ (forall grow rnd src v h k l x y r1 h1 r2 h2,
  m_parse grow rnd 0 [] src = Ok (v, h, k) -> child h v 3 = Some l ->
  append grow l x h = Some (r1, h1) -> append grow l y h1 = Some (r2, h2) -> forall n, child h2 r1 n = child h1 r1 n).
Proof.
  intros H.
  destruct (m_parse twice (fun _ => 0%N) 0 [] (lit "graph{a b c}")) as [[[v h] k]|e| |] eqn:E; try (vm_compute in E; discriminate).
  specialize (H twice (fun _ => 0%N) (lit "graph{a b c}") v h k). vm_compute in E. injection E as <- <- <-.
  specialize (H _ (MLeaf (LBool true)) (MLeaf (LBool false)) _ _ _ _ eq_refl eq_refl eq_refl eq_refl 3). vm_compute in H. discriminate.
Qed.

Print Assumptions C83_shows_one.
Print Assumptions C83_parse.
Print Assumptions C83_parse_keeps.
Print Assumptions C83_program.
Print Assumptions C83_room_unseen.
Print Assumptions C83_append_twice.
Print Assumptions C83_append_twice_parsed_refuted.
