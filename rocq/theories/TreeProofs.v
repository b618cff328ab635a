(** Proofs about TreeMem.v: who owns what. *)
From Coq Require Import List Ascii NArith ZArith Bool Lia Arith Permutation.
From Verif Require Import Base LexTables ParseTables Ast Lexer Parser TreeMem SpecTree.
Import ListNotations.

(** ** Lists *)
Lemma set_at_length {A} (x : A) l : forall i, length (set_at i x l) = length l.
Proof. induction l as [|y l IH]; intros i; [reflexivity|]. destruct i; cbn; [reflexivity|]. rewrite IH. reflexivity. Qed.
Lemma set_at_same {A} (x : A) l : forall i, i < length l -> nth_error (set_at i x l) i = Some x.
Proof. induction l as [|y l IH]; intros i L; cbn in L; [lia|]. destruct i; cbn; [reflexivity|]. apply IH. lia. Qed.
Lemma set_at_other {A} (x : A) l : forall i j, i <> j -> nth_error (set_at i x l) j = nth_error l j.
Proof.
  induction l as [|y l IH]; intros i j N; [reflexivity|]. destruct i, j; cbn; try reflexivity; [lia|]. apply IH. lia.
Qed.
Lemma set_at_firstn {A} (x : A) l : forall i n, n <= i -> firstn n (set_at i x l) = firstn n l.
Proof.
  induction l as [|y l IH]; intros i n L; [reflexivity|]. destruct n; [reflexivity|]. destruct i; [lia|]. cbn. rewrite IH by lia. reflexivity.
Qed.
Lemma set_at_firstn_S {A} (x : A) l : forall n, n < length l -> firstn (S n) (set_at n x l) = firstn n l ++ [x].
Proof.
  induction l as [|y l IH]; intros n L; cbn in L; [lia|]. destruct n; [reflexivity|]. cbn [set_at].
  change (firstn (S (S n)) (y :: set_at n x l)) with (y :: firstn (S n) (set_at n x l)). rewrite IH by lia. reflexivity.
Qed.
Lemma set_at_firstn_in {A} (x : A) l : forall i n, i < n -> firstn n (set_at i x l) = set_at i x (firstn n l).
Proof.
  induction l as [|y l IH]; intros i n L; [rewrite !firstn_nil; reflexivity|]. destruct n; [lia|]. destruct i; cbn; [reflexivity|].
  rewrite IH by lia. reflexivity.
Qed.

(** ** Ownership *)
Section Own.
  Variable h : mem.
  (** [v] is the tree and [F] lists the addresses of all that it refers to, once for each way to get there. *)
  Inductive own : mval -> tree -> list nat -> Prop :=
  | own_leaf l : own (MLeaf l) (TLeaf l) []
  | own_nil k : is_slice k = true -> own (MNil k) (TNode k []) []
  | own_ptr k a fs ts F : is_slice k = false -> nth_error h a = Some fs -> owns fs ts F -> own (MPtr k a) (TNode k ts) (a :: F)
  | own_slice k a n cs ts F : is_slice k = true -> nth_error h a = Some cs -> n <= length cs -> owns (firstn n cs) ts F ->
      own (MSlice k a n) (TNode k ts) (a :: F)
  with owns : list mval -> list tree -> list nat -> Prop :=
  | owns_nil : owns [] [] []
  | owns_cons v t F vs ts G : own v t F -> owns vs ts G -> owns (v :: vs) (t :: ts) (F ++ G).
End Own.
Scheme own_ind2 := Induction for own Sort Prop with owns_ind2 := Induction for owns Sort Prop.
Combined Scheme own_owns_ind from own_ind2, owns_ind2.

Lemma own_shows_all h : (forall v t F, own h v t F -> shows h v t) /\ (forall vs ts F, owns h vs ts F -> all_show h vs ts).
Proof. apply own_owns_ind; intros; econstructor; eauto. Qed.
Definition own_shows h v t F H := proj1 (own_shows_all h) v t F H.

Lemma own_frame_all h h' :
  (forall v t F, own h v t F -> (forall a, In a F -> nth_error h' a = nth_error h a) -> own h' v t F) /\
  (forall vs ts F, owns h vs ts F -> (forall a, In a F -> nth_error h' a = nth_error h a) -> owns h' vs ts F).
Proof.
  apply own_owns_ind.
  - constructor.
  - constructor. assumption.
  - intros k a fs ts F Hk E O IH H. eapply own_ptr; [exact Hk|rewrite H by (left; reflexivity); exact E|]. apply IH. intros b Hb. apply H. right. exact Hb.
  - intros k a n cs ts F Hk E L O IH H. eapply own_slice; [exact Hk|rewrite H by (left; reflexivity); exact E|exact L|]. apply IH. intros b Hb. apply H. right. exact Hb.
  - constructor.
  - intros v t F vs ts G O IH O' IH' H. constructor; [apply IH|apply IH']; intros a Ha; apply H, in_or_app; auto.
Qed.
Definition own_frame h h' v t F H := proj1 (own_frame_all h h') v t F H.
Definition owns_frame h h' vs ts F H := proj2 (own_frame_all h h') vs ts F H.

Lemma own_bound_all h : (forall v t F, own h v t F -> forall a, In a F -> a < length h) /\ (forall vs ts F, owns h vs ts F -> forall a, In a F -> a < length h).
Proof.
  apply own_owns_ind; try (intros; contradiction).
  - intros k a fs ts F Hk E O IH b [<-|Hb]; [apply nth_error_Some; congruence|apply IH; exact Hb].
  - intros k a n cs ts F Hk E L O IH b [<-|Hb]; [apply nth_error_Some; congruence|apply IH; exact Hb].
  - intros v t F vs ts G O IH O' IH' a Ha. apply in_app_or in Ha. destruct Ha; [apply IH|apply IH']; assumption.
Qed.
Definition own_bound h v t F H := proj1 (own_bound_all h) v t F H.
Definition owns_bound h vs ts F H := proj2 (own_bound_all h) vs ts F H.

Lemma owns_app h vs1 ts1 F1 vs2 ts2 F2 : owns h vs1 ts1 F1 -> owns h vs2 ts2 F2 -> owns h (vs1 ++ vs2) (ts1 ++ ts2) (F1 ++ F2).
Proof. intros H1 H2. induction H1 as [|v t F vs ts G O Os IH]; [exact H2|]. cbn. rewrite <- app_assoc. constructor; assumption. Qed.
Lemma owns_app_inv h vs1 : forall vs2 ts F, owns h (vs1 ++ vs2) ts F ->
  exists ts1 ts2 F1 F2, ts = ts1 ++ ts2 /\ F = F1 ++ F2 /\ owns h vs1 ts1 F1 /\ owns h vs2 ts2 F2.
Proof.
  induction vs1 as [|v vs1 IH]; intros vs2 ts F H.
  - exists [], ts, [], F. repeat split; [constructor|exact H].
  - cbn in H. inversion H as [|v' t F1 vs' ts1 G O Os]; subst. destruct (IH _ _ _ Os) as (t1 & t2 & G1 & G2 & -> & -> & A & B).
    exists (t :: t1), t2, (F1 ++ G1), G2. rewrite <- app_assoc. repeat split; [constructor; assumption|exact B].
Qed.
Lemma owns_length h vs ts F : owns h vs ts F -> length vs = length ts.
Proof. induction 1; cbn; congruence. Qed.
Lemma owns_nth h vs ts F : owns h vs ts F -> forall i v, nth_error vs i = Some v ->
  exists t Fi F1 F2, nth_error ts i = Some t /\ own h v t Fi /\ F = F1 ++ Fi ++ F2.
Proof.
  induction 1 as [|v t F vs ts G O Os IH]; intros i w E; [destruct i; discriminate|].
  destruct i as [|i]; cbn in E.
  - injection E as <-. exists t, F, [], G. auto.
  - destruct (IH i w E) as (t' & Fi & F1 & F2 & E1 & O1 & ->). exists t', Fi, (F ++ F1), F2. rewrite <- app_assoc. auto.
Qed.
(** The parts of a footprint *)
Lemma owns_parts h vs ts F : owns h vs ts F -> exists Gs, F = concat Gs /\ length Gs = length vs /\
  forall i v t, nth_error vs i = Some v -> nth_error ts i = Some t -> exists G, nth_error Gs i = Some G /\ own h v t G.
Proof.
  induction 1 as [|v t F vs ts G O Os (Gs & -> & L & IH)].
  - exists []. split; [reflexivity|]. split; [reflexivity|]. intros [|i] v t E; discriminate.
  - exists (F :: Gs). split; [reflexivity|]. split; [cbn; congruence|]. intros [|i] v' t' E E'; cbn in *.
    + injection E as <-. injection E' as <-. exists F. auto.
    + apply IH; assumption.
Qed.
Lemma NoDup_app_intro {A} (l1 l2 : list A) : NoDup l1 -> NoDup l2 -> (forall a, In a l1 -> ~ In a l2) -> NoDup (l1 ++ l2).
Proof.
  intros H1 H2 D. induction H1 as [|x l1 N H1 IH]; [exact H2|]. cbn. constructor.
  - intros H. apply in_app_or in H. destruct H as [H|H]; [contradiction|]. apply (D x); [left; reflexivity|exact H].
  - apply IH. intros a Ha. apply D. right. exact Ha.
Qed.
Lemma NoDup_app_elim {A} (l1 l2 : list A) : NoDup (l1 ++ l2) -> NoDup l1 /\ NoDup l2 /\ (forall a, In a l1 -> ~ In a l2).
Proof.
  induction l1 as [|x l1 IH]; intros H; cbn in H.
  - split; [constructor|]. split; [exact H|]. intros a [].
  - inversion H as [|y l N H']; subst. destruct (IH H') as (A1 & A2 & A3). split; [|split; [exact A2|]].
    + constructor; [|exact A1]. intros Hx. apply N, in_or_app. left. exact Hx.
    + intros a [<-|Ha] Hb; [apply N, in_or_app; right; exact Hb|exact (A3 a Ha Hb)].
Qed.
Lemma concat_part {A} (Gs : list (list A)) : forall i G, nth_error Gs i = Some G -> NoDup (concat Gs) -> NoDup G /\ incl G (concat Gs).
Proof.
  induction Gs as [|H Gs IH]; intros [|i] G E N; try discriminate; cbn in *; apply NoDup_app_elim in N; destruct N as (N1 & N2 & N3).
  - injection E as ->. split; [exact N1|]. intros a Ha. apply in_or_app. auto.
  - destruct (IH i G E N2) as [A1 A2]. split; [exact A1|]. intros a Ha. apply in_or_app. right. apply A2, Ha.
Qed.
Lemma concat_disjoint {A} (Gs : list (list A)) : forall i j G H, i <> j -> nth_error Gs i = Some G -> nth_error Gs j = Some H -> NoDup (concat Gs) ->
  forall a, In a G -> ~ In a H.
Proof.
  induction Gs as [|K Gs IH]; intros [|i] [|j] G H Nij E1 E2 N a Ha Hb; try discriminate; try lia; cbn in *; pose proof N as N'; apply NoDup_app_elim in N; destruct N as (N1 & N2 & N3).
  - injection E1 as ->. apply (N3 a Ha). apply (proj2 (concat_part Gs j H E2 N2)). exact Hb.
  - injection E2 as ->. apply (N3 a Hb). apply (proj2 (concat_part Gs i G E1 N2)). exact Ha.
  - exact (IH i j G H ltac:(lia) E1 E2 N2 a Ha Hb).
Qed.

(** Different arguments own different things. *)
Definition picks (X : list mval) (ts : list tree) (is : list nat) (vs : list mval) (us : list tree) : Prop :=
  Forall2 (fun i v => nth_error X i = Some v) is vs /\ Forall2 (fun i t => nth_error ts i = Some t) is us.
Lemma owns_pick h X ts F is vs us : owns h X ts F -> NoDup F -> NoDup is -> picks X ts is vs us ->
  exists G, owns h vs us G /\ NoDup G /\ incl G F.
Proof.
  intros O N Ni P. destruct (owns_parts _ _ _ _ O) as (Gs & -> & L & HG).
  assert (K : exists G, owns h vs us G /\ NoDup G /\ (forall a, In a G -> exists i Gi, In i is /\ nth_error Gs i = Some Gi /\ In a Gi)).
  { revert vs us P. induction Ni as [|i is Hi Ni IH]; intros vs us [P1 P2].
    - inversion P1; inversion P2; subst. exists []. split; [constructor|]. split; [constructor|]. intros a [].
    - inversion P1 as [|? v ? vs' E1 P1']; subst. inversion P2 as [|? t ? us' E2 P2']; subst.
      destruct (IH vs' us' (conj P1' P2')) as (G & A1 & A2 & A3). destruct (HG i v t E1 E2) as (Gi & E3 & Oi).
      exists (Gi ++ G). split; [constructor; assumption|]. split.
      + apply NoDup_app_intro; [apply (concat_part Gs i Gi E3 N)|exact A2|]. intros a Ha Hb. apply A3 in Hb. destruct Hb as (j & Gj & Hj & Ej & Hb).
        refine (concat_disjoint Gs i j Gi Gj _ E3 Ej N a Ha Hb). intros ->. contradiction.
      + intros a Ha. apply in_app_or in Ha. destruct Ha as [Ha|Ha].
        * exists i, Gi. split; [left; reflexivity|]. auto.
        * destruct (A3 a Ha) as (j & Gj & Hj & Ej & Hb). exists j, Gj. split; [right; exact Hj|]. auto. }
  destruct K as (G & A1 & A2 & A3). exists G. split; [exact A1|]. split; [exact A2|]. intros a Ha. destruct (A3 a Ha) as (i & Gi & _ & E & Hi).
  exact (proj2 (concat_part Gs i Gi E N) a Hi).
Qed.

(** ** Steps *)
Definition post (h : mem) (F : list nat) (h' : mem) (v : mval) (t : tree) : Prop :=
  exists F', own h' v t F' /\ NoDup F' /\ (forall a, In a F' -> In a F \/ length h <= a) /\ length h <= length h' /\
  (forall a, a < length h -> ~ In a F -> nth_error h' a = nth_error h a).
Lemma post_mono h F G h' v t : incl F G -> post h F h' v t -> post h G h' v t.
Proof.
  intros I (F' & A & B & C & D & E). exists F'. split; [exact A|]. split; [exact B|]. split; [|split; [exact D|]].
  - intros a Ha. destruct (C a Ha); auto.
  - intros a L N. apply E; [exact L|]. intros H. apply N, I, H.
Qed.
Lemma post_same h F v t : own h v t F -> NoDup F -> post h F h v t.
Proof. intros O N. exists F. repeat split; auto. Qed.
Lemma post_leaf h F l : post h F h (MLeaf l) (TLeaf l).
Proof. exists []. split; [constructor|]. split; [constructor|]. split; [intros a []|]. auto. Qed.
Lemma nth_app_old (h x : mem) a : a < length h -> nth_error (h ++ x) a = nth_error h a.
Proof. apply nth_error_app1. Qed.
Lemma nth_app_new (h : mem) x : nth_error (h ++ [x]) (length h) = Some x.
Proof. rewrite nth_error_app2 by lia. rewrite Nat.sub_diag. reflexivity. Qed.
Lemma owns_extend h x vs ts G : owns h vs ts G -> owns (h ++ x) vs ts G.
Proof. intros O. apply (owns_frame h); [exact O|]. intros a Ha. apply nth_app_old. exact (owns_bound _ _ _ _ O a Ha). Qed.
Lemma post_fresh h G x v t ts vs : owns h vs ts G -> NoDup G ->
  (owns (h ++ [x]) vs ts G -> own (h ++ [x]) v t (length h :: G)) -> post h G (h ++ [x]) v t.
Proof.
  intros O N K. exists (length h :: G). split; [apply K, owns_extend, O|]. split.
  - constructor; [|exact N]. intros H. apply (owns_bound _ _ _ _ O) in H. lia.
  - split; [intros a [<-|Ha]; auto|]. split; [rewrite app_length; lia|]. intros a L _. apply nth_app_old, L.
Qed.
Lemma post_struct k vs ts h G : is_slice k = false -> owns h vs ts G -> NoDup G ->
  post h G (snd (new_struct k vs h)) (fst (new_struct k vs h)) (TNode k ts).
Proof. intros Hk O N. apply (post_fresh h G vs _ _ ts vs O N). intros O'. eapply own_ptr; [exact Hk|apply nth_app_new|exact O']. Qed.
Lemma post_slice k vs ts h G : is_slice k = true -> owns h vs ts G -> NoDup G ->
  post h G (snd (new_slice k vs h)) (fst (new_slice k vs h)) (TNode k ts).
Proof.
  intros Hk O N. apply (post_fresh h G vs _ _ ts vs O N). intros O'. eapply own_slice; [exact Hk|apply nth_app_new|lia|]. rewrite firstn_all. exact O'.
Qed.
Lemma firstn_exact {A} (l l' : list A) n : length l = n -> firstn n (l ++ l') = l.
Proof. intros <-. rewrite firstn_app, Nat.sub_diag, firstn_all, firstn_O, app_nil_r. reflexivity. Qed.
Lemma firstn_S_app {A} (x : A) l cs n : n <= length cs -> firstn (S n) (firstn n cs ++ x :: l) = firstn n cs ++ [x].
Proof.
  intros L. change (firstn n cs ++ x :: l) with (firstn n cs ++ [x] ++ l). rewrite app_assoc. apply firstn_exact.
  rewrite app_length, firstn_length. cbn. lia.
Qed.
Lemma post_append grow s x k ts t h G : is_slice k = true -> owns h [s; x] [TNode k ts; t] G -> NoDup G ->
  exists r h', append grow s x h = Some (r, h') /\ post h G h' r (TNode k (ts ++ [t])).
Proof.
  intros Hk O N. inversion O as [|? ? Fs ? ? Fx0 Os O']; subst. inversion O' as [|? ? Fx ? ? F0 Ox O'']; subst. inversion O''; subst.
  rewrite app_nil_r in *. apply NoDup_app_elim in N. destruct N as (Ns & Nx & D).
  inversion Os as [|? _|k0 a fs ts0 F Hk'|k0 a n cs ts0 F _ E L Oc]; subst; [| congruence|].
  - cbn [append]. eexists _, _. split; [reflexivity|]. apply (post_mono h Fx); [intros a Ha; exact Ha|].
    apply (post_fresh h Fx _ _ _ [t] [x]); [rewrite <- (app_nil_r Fx); constructor; [exact Ox|constructor]|exact Nx|].
    intros Ox'. eapply own_slice; [exact Hk|apply nth_app_new|cbn; lia|exact Ox'].
  - cbn [append]. rewrite E. destruct (Nat.ltb_spec n (length cs)) as [Ln|Ln].
    + eexists _, _. split; [reflexivity|].
      set (h' := set_at a (set_at n x cs) h).
      assert (La : a < length h) by (apply nth_error_Some; congruence).
      assert (Na : ~ In a F) by (inversion Ns; assumption).
      assert (NF : NoDup F) by (inversion Ns; assumption).
      assert (Nax : ~ In a Fx) by (apply D; left; reflexivity).
      exists (a :: F ++ Fx). split; [|split; [|split; [|split]]].
      * eapply own_slice; [exact Hk|apply set_at_same; exact La|rewrite set_at_length; lia|]. rewrite set_at_firstn_S by exact Ln.
        apply owns_app.
        { apply (owns_frame h); [exact Oc|]. intros b Hb. apply set_at_other. intros ->. contradiction. }
        { rewrite <- (app_nil_r Fx). constructor; [|constructor]. apply (own_frame h); [exact Ox|]. intros b Hb. apply set_at_other. intros ->. contradiction. }
      * constructor; [intros H; apply in_app_or in H; tauto|]. apply NoDup_app_intro; [exact NF|exact Nx|]. intros b Hb. apply D. right. exact Hb.
      * intros b Hb. left. exact Hb.
      * unfold h'. rewrite set_at_length. lia.
      * intros b Lb Nb. apply set_at_other. intros ->. apply Nb. left. reflexivity.
    + eexists _, _. split; [reflexivity|]. apply (post_mono h (F ++ Fx)); [intros b Hb; right; exact Hb|].
      inversion Ns as [|? ? Na NF]; subst.
      apply (post_fresh h (F ++ Fx) _ _ _ (ts ++ [t]) (firstn n cs ++ [x])).
      * apply owns_app; [exact Oc|]. rewrite <- (app_nil_r Fx). constructor; [exact Ox|constructor].
      * apply NoDup_app_intro; [exact NF|exact Nx|]. intros b Hb. apply D. right. exact Hb.
      * intros O2. eapply own_slice; [exact Hk|apply nth_app_new|rewrite app_length, firstn_length; cbn; lia|]. rewrite firstn_S_app by lia. exact O2.
Qed.
(** What is left alone by a step. *)
Lemma post_rest h F1 h1 p t vs ts F2 : owns h vs ts F2 -> NoDup F2 -> (forall a, In a F1 -> ~ In a F2) -> post h F1 h1 p t ->
  exists G, owns h1 (p :: vs) (t :: ts) G /\ NoDup G /\ (forall a, In a G -> In a F1 \/ In a F2 \/ length h <= a) /\ length h <= length h1 /\
  (forall a, a < length h -> ~ In a F1 -> nth_error h1 a = nth_error h a).
Proof.
  intros O N D (F' & A & B & C & L & E). exists (F' ++ F2). split; [constructor; [exact A|]|].
  - apply (owns_frame h); [exact O|]. intros a Ha. apply E; [exact (owns_bound _ _ _ _ O a Ha)|]. intros H. exact (D a H Ha).
  - split; [|split; [|split; [exact L|exact E]]].
    + apply NoDup_app_intro; [exact B|exact N|]. intros a Ha Hb. destruct (C a Ha) as [H|H]; [exact (D a H Hb)|].
      apply (owns_bound _ _ _ _ O) in Hb. lia.
    + intros a Ha. apply in_app_or in Ha. destruct Ha as [Ha|Ha]; [|auto]. destruct (C a Ha); auto.
Qed.
Lemma post_trans h F h1 G h2 v t : length h <= length h1 -> (forall a, a < length h -> ~ In a F -> nth_error h1 a = nth_error h a) ->
  (forall a, In a G -> In a F \/ length h <= a) -> post h1 G h2 v t -> post h F h2 v t.
Proof.
  intros L E I (F' & A & B & C & L' & E'). exists F'. split; [exact A|]. split; [exact B|]. split; [|split; [lia|]].
  - intros a Ha. destruct (C a Ha) as [H|H]; [apply I, H|right; lia].
  - intros a La Na. rewrite <- (E a La Na). apply E'; [lia|]. intros H. destruct (I a H); [contradiction|lia].
Qed.

(** ** Values as trees *)
Definition enc (v : value) : tree :=
  match v with
  | VNil | VErr _ _ _ => TLeaf LNil
  | VTok t => TLeaf (LTok t)
  | VID i => TLeaf (LStr i)
  | VOp d => TLeaf (LOp d)
  | VPort p => TLeaf (LPort p)
  | VGraph g => t_graph g
  | VStmtList l => TNode KStmtList (map t_stmt l)
  | VNodeStmt n a => t_stmt (SNode n a)
  | VEdgeStmt s e a => t_stmt (SEdge s e a)
  | VEdgeAttrs a => t_attr_list KEdgeAttrs a
  | VNodeAttrs a => t_attr_list KNodeAttrs a
  | VGraphAttrs a => t_attr_list KGraphAttrs a
  | VAttrList a => t_attr_list KAttrList a
  | VAList a => t_alist a
  | VAttr a => t_attr a
  | VEdgeRHS e => TNode KEdgeRHS (map t_rh e)
  | VNodeID n => t_node_id n
  | VSub g => t_sub g
  end.
Lemma as_stmt_enc v s : as_stmt v = Some s -> enc v = t_stmt s.
Proof. destruct v; cbn; intros H; try discriminate; injection H as <-; reflexivity. Qed.
Lemma as_loc_enc v s : as_loc v = Some s -> enc v = t_loc s.
Proof. destruct v; cbn; intros H; try discriminate; injection H as <-; reflexivity. Qed.

Lemma own_leaf_inv h v l F : own h v (TLeaf l) F -> v = MLeaf l /\ F = [].
Proof. inversion 1; auto. Qed.
Lemma own_kind h v k ts F : own h v (TNode k ts) F -> kind_of v = Some k.
Proof. inversion 1; reflexivity. Qed.
Lemma kind_eqb_refl k : kind_eqb k k = true.
Proof. destruct k; reflexivity. Qed.
Lemma own_to_kind h v k ts F : own h v (TNode k ts) F -> to_kind k v = Some v.
Proof. intros O. unfold to_kind. rewrite (own_kind _ _ _ _ _ O), kind_eqb_refl. reflexivity. Qed.
Lemma own_not_nil h v k ts F : own h v (TNode k ts) F -> is_nil v = false.
Proof. inversion 1; reflexivity. Qed.
Lemma own_to_stmt h v s F : own h v (t_stmt s) F -> to_stmt v = Some v.
Proof.
  intros O. unfold to_stmt. destruct s as [n a|src rhs a|a|a|a|[id b]|a]; rewrite (own_kind _ _ _ _ _ O); reflexivity.
Qed.
Lemma own_to_loc h v s F : own h v (t_loc s) F -> to_loc v = Some v.
Proof. intros O. unfold to_loc. destruct s as [n|[id b]]; rewrite (own_kind _ _ _ _ _ O); reflexivity. Qed.
Lemma own_convert h v k k' ts F : is_slice k = true -> is_slice k' = true -> own h v (TNode k ts) F -> own h (convert k' v) (TNode k' ts) F.
Proof. intros Hk Hk' O. inversion O; subst; cbn [convert]; try congruence; econstructor; eauto. Qed.

(** ** One production *)
Section Sem.
  Variable grow : mem -> nat -> nat.
  Variable rnd : nat -> N.
  Variables (X : list value) (MX : list mval) (h : mem) (F : list nat).
  Hypothesis O : owns h MX (map enc X) F.
  Hypothesis N : NoDup F.

  Lemma get_all is xs : NoDup is -> Forall2 (fun i v => nth_error X i = Some v) is xs ->
    exists mvs G, Forall2 (fun i v => nth_error MX i = Some v) is mvs /\ owns h mvs (map enc xs) G /\ NoDup G /\ incl G F.
  Proof.
    intros Ni P.
    assert (K : exists mvs, Forall2 (fun i v => nth_error MX i = Some v) is mvs).
    { clear Ni. induction P as [|i x is xs E P [mvs IH]]; [exists []; constructor|].
      assert (L : i < length MX). { rewrite (owns_length _ _ _ _ O), map_length. apply nth_error_Some. congruence. }
      apply nth_error_Some in L. destruct (nth_error MX i) as [mv|] eqn:Em; [|congruence]. exists (mv :: mvs). constructor; assumption. }
    destruct K as [mvs K]. exists mvs.
    assert (Q : Forall2 (fun i t => nth_error (map enc X) i = Some t) is (map enc xs)).
    { clear - P. induction P as [|i x is xs E P IH]; cbn; constructor; [|exact IH]. rewrite nth_error_map, E. reflexivity. }
    destruct (owns_pick _ _ _ _ _ _ _ O N Ni (conj K Q)) as (G & A & B & C). exists G. auto.
  Qed.
  Lemma get1 i x : nth_error X i = Some x -> exists mv G, nth_error MX i = Some mv /\ own h mv (enc x) G /\ NoDup G /\ incl G F.
  Proof.
    intros E. destruct (get_all [i] [x]) as (mvs & G & A & B & C & D); [constructor; [intros []|constructor]|constructor; [exact E|constructor]|].
    inversion A as [|? mv ? ? E1 A']; subst. inversion A'; subst. inversion B as [|? ? G1 ? ? G2 B1 B2]; subst. inversion B2; subst.
    rewrite app_nil_r in *. exists mv, G1. auto.
  Qed.
  Lemma get2 i j x y : i <> j -> nth_error X i = Some x -> nth_error X j = Some y ->
    exists a b G1 G2, nth_error MX i = Some a /\ nth_error MX j = Some b /\ own h a (enc x) G1 /\ own h b (enc y) G2 /\
      NoDup (G1 ++ G2) /\ incl (G1 ++ G2) F.
  Proof.
    intros D E1 E2. destruct (get_all [i; j] [x; y]) as (mvs & G & A & B & C & I).
    - constructor; [intros [H|[]]; congruence|]. constructor; [intros []|constructor].
    - repeat (constructor; try assumption).
    - inversion A as [|? a ? ? Ea A1]; subst. inversion A1 as [|? b ? ? Eb A2]; subst. inversion A2; subst.
      inversion B as [|? ? G1 ? ? ? B1 B']; subst. inversion B' as [|? ? G2 ? ? ? B2 B'']; subst. inversion B''; subst.
      rewrite app_nil_r in *. exists a, b, G1, G2. auto 10.
  Qed.

  Lemma oget i x : (match i with Some i' => nth_error X i' | None => Some VNil end) = Some x ->
    exists mv G, omarg MX i = Some mv /\ own h mv (enc x) G /\ NoDup G /\ incl G F.
  Proof.
    destruct i as [i|]; intros E; [apply get1, E|]. injection E as <-. exists (MLeaf LNil), [].
    split; [reflexivity|]. split; [constructor|]. split; [constructor|intros a []].
  Qed.
  Lemma oget2 i j x y : Some i <> j -> nth_error X i = Some x -> (match j with Some j' => nth_error X j' | None => Some VNil end) = Some y ->
    exists a b G1 G2, nth_error MX i = Some a /\ omarg MX j = Some b /\ own h a (enc x) G1 /\ own h b (enc y) G2 /\
      NoDup (G1 ++ G2) /\ incl (G1 ++ G2) F.
  Proof.
    destruct j as [j|]; intros D E1 E2; [apply get2; congruence|]. injection E2 as <-. destruct (get1 i x E1) as (a & G & A & B & C & I).
    exists a, (MLeaf LNil), G, []. rewrite app_nil_r. repeat split; auto. constructor.
  Qed.
  Lemma oget3 i j l x y z : i <> j -> Some i <> l -> Some j <> l -> nth_error X i = Some x -> nth_error X j = Some y ->
    (match l with Some l' => nth_error X l' | None => Some VNil end) = Some z ->
    exists a b c G1 G2, nth_error MX i = Some a /\ nth_error MX j = Some b /\ omarg MX l = Some c /\
      owns h [a; b] [enc x; enc y] G1 /\ own h c (enc z) G2 /\ NoDup (G1 ++ G2) /\ incl (G1 ++ G2) F.
  Proof.
    destruct l as [l|]; intros D1 D2 D3 E1 E2 E3.
    - destruct (get_all [l; i; j] [z; x; y]) as (mvs & G & A & B & C & I).
      + constructor; [intros [H|[H|[]]]; congruence|]. constructor; [intros [H|[]]; congruence|]. constructor; [intros []|constructor].
      + repeat (constructor; try assumption).
      + inversion A as [|? c ? ? Ec A0]; subst. inversion A0 as [|? a ? ? Ea A1]; subst. inversion A1 as [|? b ? ? Eb A2]; subst. inversion A2; subst.
        inversion B as [|? ? G2 ? ? G1 B1 B']; subst. exists a, b, c, G1, G2.
        split; [exact Ea|]. split; [exact Eb|]. split; [exact Ec|]. split; [exact B'|]. split; [exact B1|]. split.
        * apply NoDup_app_elim in C. destruct C as (C1 & C2 & C3). apply NoDup_app_intro; [exact C2|exact C1|]. intros u H1 H2. exact (C3 u H2 H1).
        * intros u Hu. apply I. apply in_app_or in Hu. apply in_or_app. tauto.
    - injection E3 as <-. destruct (get2 i j x y D1 E1 E2) as (a & b & G1 & G2 & A1 & A2 & A3 & A4 & A5 & A6).
      exists a, b, (MLeaf LNil), (G1 ++ G2), []. rewrite app_nil_r. repeat split; auto; [|constructor].
      constructor; [exact A3|]. rewrite <- (app_nil_r G2). constructor; [exact A4|constructor].
  Qed.

  (** Different arguments *)
  Definition sem_ok (s : sem) : bool :=
    match s with
    | SemAppendStmtList i j | SemAppendAList i j => negb (Nat.eqb i j)
    | SemAppendAttrList l (Some a) => negb (Nat.eqb l a)
    | SemEdgeStmt i e None => negb (Nat.eqb i e)
    | SemEdgeStmt i e (Some a) => negb (Nat.eqb i e) && negb (Nat.eqb i a) && negb (Nat.eqb e a)
    | SemAppendEdgeRHS e o i => negb (Nat.eqb e i)
    | SemNodeStmt i (Some a) => negb (Nat.eqb i a)
    | _ => true
    end.

  Definition sim_out (r : option (mval * mem * nat)) (v : value) (k : nat) : Prop :=
    exists hv h', r = Some (hv, h', k) /\ post h F h' hv (enc v).

  (** A string or nil *)
  Lemma str_or x mv G (d s : gostr) : own h mv (enc x) G -> match x with VNil => Some d | _ => as_id x end = Some s ->
    (if is_nil mv then Some d else to_id mv) = Some s.
  Proof.
    destruct x; cbn; intros H E; try discriminate; apply own_leaf_inv in H; destruct H as [-> _]; exact E.
  Qed.
  Lemma id_of x mv G s : own h mv (enc x) G -> as_id x = Some s -> to_id mv = Some s.
  Proof. destruct x; cbn; intros H E; try discriminate; apply own_leaf_inv in H; destruct H as [-> _]; exact E. Qed.
  Lemma op_of x mv G s : own h mv (enc x) G -> as_op x = Some s -> to_op mv = Some s.
  Proof. destruct x; cbn; intros H E; try discriminate; apply own_leaf_inv in H; destruct H as [-> _]; exact E. Qed.
  Lemma port_or x mv G d s : own h mv (enc x) G -> match x with VNil => Some d | _ => as_port x end = Some s ->
    (if is_nil mv then Some d else to_port mv) = Some s.
  Proof. destruct x; cbn; intros H E; try discriminate; apply own_leaf_inv in H; destruct H as [-> _]; exact E. Qed.
  Lemma body_of x mv G b : own h mv (enc x) G -> NoDup G -> incl G F -> match x with VNil => Some [] | _ => as_stmts x end = Some b ->
    exists mb G', m_body mv = Some mb /\ own h mb (TNode KStmtList (map t_stmt b)) G' /\ NoDup G' /\ incl G' F.
  Proof.
    destruct x; cbn [enc as_stmts]; intros H Ng I E; try discriminate; injection E as <-.
    - apply own_leaf_inv in H. destruct H as [-> _]. exists (MNil KStmtList), []. split; [reflexivity|]. split; [constructor; reflexivity|].
      split; [constructor|intros a []].
    - exists mv, G. unfold m_body. rewrite (own_not_nil _ _ _ _ _ H), (own_to_kind _ _ _ _ _ H). auto.
  Qed.
  Lemma attrs_of x mv G1 G2 b a0 vs ts : own h mv (enc x) G2 -> owns h vs ts G1 -> NoDup (G1 ++ G2) -> incl (G1 ++ G2) F -> a0 = b -> opt_attrs x = Some b ->
    exists al h1 G, m_opt_attrs grow mv h = Some (al, h1) /\ owns h1 (vs ++ [al]) (ts ++ [t_attr_list KAttrList a0]) G /\ NoDup G /\
      (forall a, In a G -> In a F \/ length h <= a) /\ length h <= length h1 /\ (forall a, a < length h -> ~ In a F -> nth_error h1 a = nth_error h a).
  Proof.
    intros Ha Hv Nd I -> E. apply NoDup_app_elim in Nd. destruct Nd as (N1 & N2 & D).
    assert (P : exists al h1, m_opt_attrs grow mv h = Some (al, h1) /\ post h G2 h1 al (t_attr_list KAttrList b)).
    { destruct x; cbn [enc opt_attrs as_attr_list] in *; try discriminate; injection E as <-.
      - apply own_leaf_inv in Ha. destruct Ha as [-> ->]. eexists _, _. split; [reflexivity|].
        exact (post_slice KAttrList [] [] h [] eq_refl (owns_nil h) (NoDup_nil _)).
      - exists mv, h. unfold m_opt_attrs, t_attr_list in *. rewrite (own_not_nil _ _ _ _ _ Ha), (own_to_kind _ _ _ _ _ Ha).
        split; [reflexivity|]. apply post_same; assumption. }
    destruct P as (al & h1 & E1 & P). exists al, h1.
    destruct P as (F' & A & B & C & L & Fr). exists (G1 ++ F' ++ []). split; [exact E1|]. split.
    - apply owns_app; [|constructor; [exact A|constructor]]. apply (owns_frame h); [exact Hv|]. intros a Hin. apply Fr; [exact (owns_bound _ _ _ _ Hv a Hin)|apply D, Hin].
    - rewrite app_nil_r. split; [|split; [|split; [exact L|]]].
      + apply NoDup_app_intro; [exact N1|exact B|]. intros a Hin Hin'. destruct (C a Hin') as [H|H]; [exact (D a Hin H)|].
        apply (owns_bound _ _ _ _ Hv) in Hin. lia.
      + intros a Hin. apply in_app_or in Hin. destruct Hin as [Hin|Hin]; [left; apply I, in_or_app; auto|].
        destruct (C a Hin) as [H|H]; [left; apply I, in_or_app; auto|auto].
      + intros a La Na. apply Fr; [exact La|]. intros H. apply Na, I, in_or_app. auto.
  Qed.
  Lemma out_struct K vs ts G : is_slice K = false -> owns h vs ts G -> NoDup G -> incl G F -> forall v k, enc v = TNode K ts ->
    sim_out (with_k k (Some (new_struct K vs h))) v k.
  Proof.
    intros HK Ov Ng I v k Ev. eexists _, _. split; [reflexivity|]. rewrite Ev. apply (post_mono h G); [exact I|]. exact (post_struct K vs ts h G HK Ov Ng).
  Qed.
  Lemma out_slice K x t G : is_slice K = true -> own h x t G -> NoDup G -> incl G F -> forall v k, enc v = TNode K [t] ->
    sim_out (with_k k (Some (new_slice K [x] h))) v k.
  Proof.
    intros HK Ov Ng I v k Ev. eexists _, _. split; [reflexivity|]. rewrite Ev. apply (post_mono h G); [exact I|]. apply (post_slice K [x] [t] h G HK); [|exact Ng].
    rewrite <- (app_nil_r G). constructor; [exact Ov|constructor].
  Qed.
  Lemma out_append K s x ts t G1 G2 : is_slice K = true -> own h s (TNode K ts) G1 -> own h x t G2 -> NoDup (G1 ++ G2) -> incl (G1 ++ G2) F ->
    forall v k, enc v = TNode K (ts ++ [t]) -> sim_out (with_k k (append grow s x h)) v k.
  Proof.
    intros HK O1 O2 Nd I v k Ev.
    destruct (post_append grow s x K ts t h (G1 ++ G2) HK) as (r & h' & E & P); [constructor; [exact O1|]|exact Nd|].
    - rewrite <- (app_nil_r G2). constructor; [exact O2|constructor].
    - rewrite E. exists r, h'. split; [reflexivity|]. rewrite Ev. exact (post_mono _ _ _ _ _ _ I P).
  Qed.
  Lemma out_same v mv G k : own h mv (enc v) G -> NoDup G -> incl G F -> sim_out (with_k k (Some (mv, h))) v k.
  Proof. intros H Ng I. exists mv, h. split; [reflexivity|]. apply (post_mono h G); [exact I|]. apply post_same; assumption. Qed.
  Lemma out_leaf v l k : enc v = TLeaf l -> sim_out (with_k k (Some (MLeaf l, h))) v k.
  Proof. intros E. exists (MLeaf l), h. split; [reflexivity|]. rewrite E. apply post_leaf. Qed.

  Lemma pure_inv k (r : option value) v k' : pure k r = Some (v, k') -> r = Some v /\ k' = k.
  Proof. destruct r; cbn; intros H; [injection H as -> ->; auto|discriminate]. Qed.
  Lemma bind_inv {A B} (x : option A) (f : A -> option B) y : opt_bind x f = Some y -> exists a, x = Some a /\ f a = Some y.
  Proof. destruct x; cbn; [eauto|discriminate]. Qed.
  Ltac bi H a E := apply bind_inv in H; destruct H as (a & E & H).

  Lemma strs_own l : owns h (map (fun s => MLeaf s) l) (map TLeaf l) [].
  Proof. induction l as [|x l IH]; cbn; [constructor|]. change (@nil nat) with (@nil nat ++ []). constructor; [constructor|exact IH]. Qed.

  Lemma sem_sim s k v k' : sem_ok s = true -> run_sem rnd s X k = Some (v, k') -> sim_out (m_run_sem grow rnd s MX h k) v k'.
  Proof.
    intros K H. destruct s as [i|d|t st id l|i|i j|f w|i|i|i|a|l a|i|i j|i e a|o i|e o i|i a|i p|a b|i l|i]; cbn [run_sem m_run_sem sem_ok] in *;
      unfold arg, oarg, marg in *.
    - apply pure_inv in H. destruct H as [H ->]. destruct (get1 i v H) as (mv & G & E & Om & Ng & I). rewrite E. cbn [opt_bind].
      exact (out_same _ _ _ _ Om Ng I).
    - injection H as <- <-. apply (out_leaf (VOp d) (LOp d)). reflexivity.
    - apply pure_inv in H. destruct H as [H ->]. bi H x E1. bi H y E2. unfold new_graph in H. bi H s E3. bi H b E4. injection H as <-.
      destruct (oget id x E1) as (mx & Gx & Ex & Ox & Nx & Ix). destruct (oget l y E2) as (my & Gy & Ey & Oy & Ny & Iy).
      rewrite Ex, Ey. cbn [opt_bind]. rewrite (str_or x mx Gx [] s Ox E3). cbn [opt_bind].
      destruct (body_of y my Gy b Oy Ny Iy E4) as (mb & Gb & Eb & Ob & Nb & Ib). rewrite Eb. cbn [opt_bind].
      eapply out_struct; [reflexivity| |exact Nb|exact Ib|unfold enc, t_graph; reflexivity].
      refine (owns_app h [_; _; _] [_; _; _] [] [mb] _ Gb (strs_own [LBool t; LBool st; LStr s]) _).
      rewrite <- (app_nil_r Gb). constructor; [exact Ob|constructor].
    - apply pure_inv in H. destruct H as [H ->]. bi H x E1. bi H y E2. injection H as <-.
      destruct (get1 i x E1) as (mx & Gx & Ex & Ox & Nx & Ix). rewrite Ex. cbn [opt_bind]. rewrite (as_stmt_enc _ _ E2) in Ox.
      rewrite (own_to_stmt _ _ _ _ Ox). cbn [opt_bind]. apply (out_slice KStmtList mx _ _ eq_refl Ox Nx Ix). reflexivity.
    - apply pure_inv in H. destruct H as [H ->]. bi H x E1. bi H y E2. bi H z E3. bi H w E4. injection H as <-.
      apply negb_true_iff, Nat.eqb_neq in K. destruct (get2 i j x z K E1 E3) as (mx & mz & G1 & G2 & Ex & Ez & Ox & Oz & Ng & I).
      rewrite Ex, Ez. cbn [opt_bind]. rewrite (as_stmt_enc _ _ E4) in Oz. destruct x; try discriminate. injection E2 as <-. cbn [enc] in Ox.
      rewrite (own_to_kind _ _ _ _ _ Ox). cbn [opt_bind]. rewrite (own_to_stmt _ _ _ _ Oz). cbn [opt_bind].
      apply (out_append KStmtList mx mz _ _ _ _ eq_refl Ox Oz Ng I). cbn [enc]. rewrite map_app. reflexivity.
    - apply pure_inv in H. destruct H as [H ->]. bi H x E1. bi H y E2. unfold new_attr in H. bi H s E3. bi H b E4. injection H as <-.
      destruct (get1 f x E1) as (mx & Gx & Ex & Ox & Nx & Ix). destruct (oget w y E2) as (my & Gy & Ey & Oy & Ny & Iy).
      rewrite Ex, Ey. cbn [opt_bind]. rewrite (id_of x mx Gx s Ox E3). cbn [opt_bind]. rewrite (str_or y my Gy (lit "true") b Oy E4). cbn [opt_bind].
      apply (out_struct KAttr _ _ [] eq_refl (strs_own [LStr s; LStr b]) (NoDup_nil _)); [intros u []|reflexivity].
    - apply pure_inv in H. destruct H as [H ->]. bi H x E1. bi H y E2. injection H as <-. destruct x; try discriminate. injection E2 as <-.
      destruct (get1 i _ E1) as (mx & Gx & Ex & Ox & Nx & Ix). rewrite Ex. cbn [opt_bind enc] in *. unfold t_attr_list in *.
      rewrite (own_to_kind _ _ _ _ _ Ox). cbn [opt_bind]. apply (out_same (VGraphAttrs _) _ Gx); [|exact Nx|exact Ix]. apply (own_convert h mx KAttrList); [reflexivity|reflexivity|exact Ox].
    - apply pure_inv in H. destruct H as [H ->]. bi H x E1. bi H y E2. injection H as <-. destruct x; try discriminate. injection E2 as <-.
      destruct (get1 i _ E1) as (mx & Gx & Ex & Ox & Nx & Ix). rewrite Ex. cbn [opt_bind enc] in *. unfold t_attr_list in *.
      rewrite (own_to_kind _ _ _ _ _ Ox). cbn [opt_bind]. apply (out_same (VNodeAttrs _) _ Gx); [|exact Nx|exact Ix]. apply (own_convert h mx KAttrList); [reflexivity|reflexivity|exact Ox].
    - apply pure_inv in H. destruct H as [H ->]. bi H x E1. bi H y E2. injection H as <-. destruct x; try discriminate. injection E2 as <-.
      destruct (get1 i _ E1) as (mx & Gx & Ex & Ox & Nx & Ix). rewrite Ex. cbn [opt_bind enc] in *. unfold t_attr_list in *.
      rewrite (own_to_kind _ _ _ _ _ Ox). cbn [opt_bind]. apply (out_same (VEdgeAttrs _) _ Gx); [|exact Nx|exact Ix]. apply (own_convert h mx KAttrList); [reflexivity|reflexivity|exact Ox].
    - (* NewAttrList *)
      apply pure_inv in H. destruct H as [H ->]. bi H x E1. destruct (oget a x E1) as (mx & Gx & Ex & Ox & Nx & Ix). rewrite Ex. cbn [opt_bind].
      unfold m_new_attr_list. cbn [new_slice length].
      pose proof (post_slice KAttrList [] [] h [] eq_refl (owns_nil h) (NoDup_nil _)) as P. cbn [new_slice fst snd length] in P.
      unfold new_attr_list in H. destruct x; cbn [as_alist opt_bind] in H; try discriminate; injection H as <-; cbn [enc] in Ox.
      + apply own_leaf_inv in Ox. destruct Ox as [-> ->]. cbn [is_nil]. eexists _, _. split; [reflexivity|]. exact (post_mono h [] F _ _ _ ltac:(intros u []) P).
      + unfold t_alist in Ox. rewrite (own_not_nil _ _ _ _ _ Ox), (own_to_kind _ _ _ _ _ Ox). cbn [opt_bind].
        assert (Os : owns h [mx] [TNode KAList (map t_attr a0)] Gx) by (rewrite <- (app_nil_r Gx); constructor; [exact Ox|constructor]).
        destruct (post_rest h [] _ _ _ [mx] _ Gx Os Nx ltac:(intros u []) P) as (G & A & B & C & L & Fr).
        destruct (post_append grow _ _ KAttrList [] _ _ G eq_refl A B) as (r & h' & E & P2). rewrite E. exists r, h'. split; [reflexivity|].
        refine (post_trans h F _ G h' r _ L _ _ P2).
        * intros u Lu _. apply Fr; [exact Lu|intros []].
        * intros u Hu. destruct (C u Hu) as [[]|[Hu'|Hu']]; [left; apply Ix, Hu'|right; exact Hu'].
    - apply pure_inv in H. destruct H as [H ->]. bi H x E1. bi H y E2. unfold append_attr_list in H. bi H z E3. destruct x; try discriminate. injection E3 as <-.
      assert (D : Some l <> a). { destruct a as [a|]; [|discriminate]. apply negb_true_iff, Nat.eqb_neq in K. congruence. }
      destruct (oget2 l a _ y D E1 E2) as (mx & my & G1 & G2 & Ex & Ey & Ox & Oy & Ng & I). rewrite Ex, Ey. cbn [opt_bind enc] in *. unfold t_attr_list in Ox.
      rewrite (own_to_kind _ _ _ _ _ Ox). cbn [opt_bind].
      destruct y; cbn [as_alist opt_bind] in H; try discriminate; injection H as <-; cbn [enc] in Oy.
      + apply own_leaf_inv in Oy. destruct Oy as [-> ->]. cbn [is_nil]. rewrite app_nil_r in *. apply (out_same (VAttrList _) mx G1); assumption.
      + unfold t_alist in Oy. rewrite (own_not_nil _ _ _ _ _ Oy), (own_to_kind _ _ _ _ _ Oy). cbn [opt_bind].
        apply (out_append KAttrList mx my _ _ _ _ eq_refl Ox Oy Ng I). cbn [enc]. unfold t_attr_list. rewrite map_app. reflexivity.
    - apply pure_inv in H. destruct H as [H ->]. bi H x E1. bi H y E2. injection H as <-. destruct x; try discriminate. injection E2 as <-.
      destruct (get1 i _ E1) as (mx & Gx & Ex & Ox & Nx & Ix). rewrite Ex. cbn [opt_bind enc] in *. unfold t_attr in Ox.
      rewrite (own_to_kind _ _ _ _ _ Ox). cbn [opt_bind]. apply (out_slice KAList mx _ _ eq_refl Ox Nx Ix). reflexivity.
    - apply pure_inv in H. destruct H as [H ->]. bi H x E1. bi H y E2. bi H z E3. bi H w E4. injection H as <-.
      destruct x; try discriminate. injection E2 as <-. destruct z; try discriminate. injection E4 as <-.
      apply negb_true_iff, Nat.eqb_neq in K. destruct (get2 i j _ _ K E1 E3) as (mx & mz & G1 & G2 & Ex & Ez & Ox & Oz & Ng & I).
      rewrite Ex, Ez. cbn [opt_bind enc] in *. unfold t_attr, t_alist in *. rewrite (own_to_kind _ _ _ _ _ Ox). cbn [opt_bind].
      rewrite (own_to_kind _ _ _ _ _ Oz). cbn [opt_bind].
      apply (out_append KAList mx mz _ _ _ _ eq_refl Ox Oz Ng I). cbn [enc]. unfold t_alist. rewrite map_app. reflexivity.
    - (* NewEdgeStmt *)
      apply pure_inv in H. destruct H as [H ->]. bi H x E1. bi H lo E2. bi H y E3. bi H r E4. bi H z E5. bi H al E6. injection H as <-.
      destruct y; try discriminate. injection E4 as <-.
      assert (D : i <> e /\ Some i <> a /\ Some e <> a).
      { destruct a as [a|].
        - apply andb_true_iff in K. destruct K as [K K3]. apply andb_true_iff in K. destruct K as [K1 K2].
          apply negb_true_iff, Nat.eqb_neq in K1. apply negb_true_iff, Nat.eqb_neq in K2. apply negb_true_iff, Nat.eqb_neq in K3. repeat split; congruence.
        - apply negb_true_iff, Nat.eqb_neq in K. repeat split; [exact K|discriminate|discriminate]. }
      destruct D as (D1 & D2 & D3). destruct (oget3 i e a _ _ _ D1 D2 D3 E1 E3 E5) as (mx & my & mz & G1 & G2 & Ex & Ey & Ez & Oxy & Oz & Ng & I).
      rewrite Ex, Ey, Ez. cbn [opt_bind]. rewrite (as_loc_enc _ _ E2) in Oxy. cbn [enc] in Oxy.
      pose proof Oxy as Oxy'. inversion Oxy' as [|? ? Ga ? ? ? Oa Ob]; subst. rewrite (own_to_loc _ _ _ _ Oa). cbn [opt_bind].
      inversion Ob as [|? ? Gb ? ? ? Ob' _]; subst. rewrite (own_to_kind _ _ _ _ _ Ob'). cbn [opt_bind].
      destruct (attrs_of z mz _ G2 al al [mx; my] _ Oz Oxy Ng I eq_refl E6) as (ma & h1 & G & Ea & A & B & C & L & Fr). rewrite Ea. cbn [opt_bind].
      eexists _, _. split; [reflexivity|]. refine (post_trans h F h1 G _ _ _ L Fr C _). exact (post_struct KEdgeStmt _ _ h1 G eq_refl A B).
    - (* NewEdgeRHS *)
      apply pure_inv in H. destruct H as [H ->]. bi H x E1. bi H op E2. bi H y E3. bi H lo E4. injection H as <-.
      destruct (get1 o x E1) as (mx & Gx & Ex & Ox & Nx & Ix). destruct (get1 i y E3) as (my & Gy & Ey & Oy & Ny & Iy).
      rewrite Ex, Ey. cbn [opt_bind]. rewrite (op_of x mx Gx op Ox E2). cbn [opt_bind]. rewrite (as_loc_enc _ _ E4) in Oy.
      rewrite (own_to_loc _ _ _ _ Oy). cbn [opt_bind].
      assert (Os : owns h [MLeaf (LOp op); my] [TLeaf (LOp op); t_loc lo] Gy).
      { apply (owns_cons h (MLeaf (LOp op)) (TLeaf (LOp op)) [] [my] [t_loc lo] Gy); [constructor|]. rewrite <- (app_nil_r Gy). constructor; [exact Oy|constructor]. }
      pose proof (post_struct KEdgeRH _ _ h Gy eq_refl Os Ny) as P. cbn [new_struct fst snd] in P. cbn [new_struct].
      destruct (post_rest h Gy _ _ _ [] [] [] (owns_nil h) (NoDup_nil _) ltac:(intros u _ []) P) as (G & A & B & C & L & Fr).
      eexists _, _. split; [reflexivity|]. refine (post_trans h F _ G _ _ _ L _ _ (post_slice KEdgeRHS _ _ _ G eq_refl A B)).
      + intros u Lu Nu. apply Fr; [exact Lu|]. intros Hu. apply Nu, Iy, Hu.
      + intros u Hu. destruct (C u Hu) as [Hu'|[[]|Hu']]; [left; apply Iy, Hu'|right; exact Hu'].
    - (* AppendEdgeRHS *)
      apply pure_inv in H. destruct H as [H ->]. bi H x E1. bi H r E2. bi H y E3. bi H op E4. bi H z E5. bi H lo E6. injection H as <-.
      destruct x; try discriminate. injection E2 as <-. apply negb_true_iff, Nat.eqb_neq in K.
      destruct (get2 e i _ z K E1 E5) as (mx & mz & G1 & G2 & Ex & Ez & Ox & Oz & Ng & I). destruct (get1 o y E3) as (my & Gy & Ey & Oy & Ny & Iy).
      rewrite Ex, Ey, Ez. cbn [opt_bind enc] in *. rewrite (own_to_kind _ _ _ _ _ Ox). cbn [opt_bind]. rewrite (op_of y my Gy op Oy E4). cbn [opt_bind].
      rewrite (as_loc_enc _ _ E6) in Oz. rewrite (own_to_loc _ _ _ _ Oz). cbn [opt_bind new_struct].
      apply NoDup_app_elim in Ng. destruct Ng as (N1 & N2 & D).
      assert (Os : owns h [MLeaf (LOp op); mz] [TLeaf (LOp op); t_loc lo] G2).
      { apply (owns_cons h (MLeaf (LOp op)) (TLeaf (LOp op)) [] [mz] [t_loc lo] G2); [constructor|]. rewrite <- (app_nil_r G2). constructor; [exact Oz|constructor]. }
      pose proof (post_struct KEdgeRH _ _ h G2 eq_refl Os N2) as P. cbn [new_struct fst snd] in P.
      assert (Os1 : owns h [mx] [TNode KEdgeRHS (map t_rh e0)] G1) by (rewrite <- (app_nil_r G1); constructor; [exact Ox|constructor]).
      destruct (post_rest h G2 _ _ _ [mx] _ G1 Os1 N1 ltac:(intros u Hu Hv; exact (D u Hv Hu)) P) as (G & A & B & C & L & Fr).
      destruct (owns_pick _ _ _ _ [1; 0] [mx; MPtr KEdgeRH (length h)] [TNode KEdgeRHS (map t_rh e0); t_rh (EdgeRH op lo)] A B) as (G' & A' & B' & C').
      { constructor; [intros [Hu|[]]; discriminate|]. constructor; [intros []|constructor]. }
      { split; repeat constructor. }
      destruct (post_append grow _ _ KEdgeRHS _ _ _ G' eq_refl A' B') as (r & h' & E & P2). rewrite E. exists r, h'. split; [reflexivity|].
      cbn [enc]. rewrite map_app. refine (post_trans h F _ G' h' r _ L _ _ P2).
      + intros u Lu Nu. apply Fr; [exact Lu|]. intros Hu. apply Nu, I, in_or_app. auto.
      + intros u Hu. destruct (C u (C' u Hu)) as [Hu'|[Hu'|Hu']]; [left; apply I, in_or_app; auto|left; apply I, in_or_app; auto|right; exact Hu'].
    - (* NewNodeStmt *)
      apply pure_inv in H. destruct H as [H ->]. bi H x E1. bi H nn E2. bi H z E5. bi H al E6. injection H as <-.
      destruct x; try discriminate. injection E2 as <-.
      assert (D : Some i <> a). { destruct a as [a|]; [|discriminate]. apply negb_true_iff, Nat.eqb_neq in K. congruence. }
      destruct (oget2 i a _ z D E1 E5) as (mx & mz & G1 & G2 & Ex & Ez & Ox & Oz & Ng & I). rewrite Ex, Ez. cbn [opt_bind enc] in *.
      unfold t_node_id in Ox. rewrite (own_to_kind _ _ _ _ _ Ox). cbn [opt_bind].
      assert (Os : owns h [mx] [t_node_id n] G1). { rewrite <- (app_nil_r G1). constructor; [exact Ox|constructor]. }
      destruct (attrs_of z mz _ G2 al al [mx] _ Oz Os Ng I eq_refl E6) as (ma & h1 & G & Ea & A & B & C & L & Fr). rewrite Ea. cbn [opt_bind].
      eexists _, _. split; [reflexivity|]. refine (post_trans h F h1 G _ _ _ L Fr C _). exact (post_struct KNodeStmt _ _ h1 G eq_refl A B).
    - apply pure_inv in H. destruct H as [H ->]. bi H x E1. bi H s E2. bi H y E3. bi H pt E4. injection H as <-.
      destruct (get1 i x E1) as (mx & Gx & Ex & Ox & Nx & Ix). destruct (oget p y E3) as (my & Gy & Ey & Oy & Ny & Iy).
      rewrite Ex, Ey. cbn [opt_bind]. rewrite (id_of x mx Gx s Ox E2). cbn [opt_bind]. rewrite (port_or y my Gy _ pt Oy E4). cbn [opt_bind].
      apply (out_struct KNodeID _ _ [] eq_refl (strs_own [LStr s; LPort pt]) (NoDup_nil _)); [intros u []|reflexivity].
    - apply pure_inv in H. destruct H as [H ->]. bi H x E1. bi H s E2. bi H y E3. bi H s' E4. injection H as <-.
      destruct (oget a x E1) as (mx & Gx & Ex & Ox & Nx & Ix). destruct (oget b y E3) as (my & Gy & Ey & Oy & Ny & Iy).
      rewrite Ex, Ey. cbn [opt_bind]. rewrite (str_or x mx Gx [] s Ox E2). cbn [opt_bind]. rewrite (str_or y my Gy [] s' Oy E4). cbn [opt_bind].
      apply (out_leaf (VPort _)). reflexivity.
    - bi H x E1. bi H y E2. unfold new_subgraph in H. bi H b E3.
      destruct (oget i x E1) as (mx & Gx & Ex & Ox & Nx & Ix). destruct (oget l y E2) as (my & Gy & Ey & Oy & Ny & Iy).
      rewrite Ex, Ey. cbn [opt_bind].
      destruct (body_of y my Gy b Oy Ny Iy E3) as (mb & Gb & Eb & Ob & Nb & Ib). rewrite Eb. cbn [opt_bind].
      assert (Q : forall s, owns h [str s; mb] [TLeaf (LStr s); TNode KStmtList (map t_stmt b)] Gb).
      { intros s. apply (owns_cons h (str s) _ [] [mb] _ Gb); [constructor|]. rewrite <- (app_nil_r Gb). constructor; [exact Ob|constructor]. }
      destruct x as [|?|s| | | | | | | | | | | | | | | | ]; try discriminate; apply own_leaf_inv in Ox; destruct Ox as [-> _]; cbn [is_nil to_id].
      + injection H as <- <-. apply (out_struct KSub _ _ Gb eq_refl (Q _) Nb Ib (VSub _)); reflexivity.
      + destruct s as [|c s]; injection H as <- <-; apply (out_struct KSub _ _ Gb eq_refl (Q _) Nb Ib (VSub _)); reflexivity.
    - apply pure_inv in H. destruct H as [H ->]. bi H x E1. destruct (get1 i x E1) as (mx & Gx & Ex & Ox & Nx & Ix). rewrite Ex. cbn [opt_bind].
      destruct x; cbn [as_tok opt_bind] in H; try discriminate; injection H as <-; apply own_leaf_inv in Ox; destruct Ox as [-> _]; apply (out_leaf (VID _)); reflexivity.
  Qed.
End Sem.

Lemma prods_ok : forallb (fun p => sem_ok (p_sem p)) prod_tab = true.
Proof. vm_compute. reflexivity. Qed.

(** ** The loop *)
Lemma owns_rev h vs ts F : owns h vs ts F -> exists G, owns h (rev vs) (rev ts) G /\ Permutation F G.
Proof.
  induction 1 as [|v t F vs ts G O Os (G' & A & P)]; [exists []; split; [constructor|apply perm_nil]|].
  exists (G' ++ F). cbn. split.
  - apply owns_app; [exact A|]. rewrite <- (app_nil_r F). constructor; [exact O|constructor].
  - rewrite P. apply Permutation_app_comm.
Qed.
Lemma app_eq_len {A} (a b c d : list A) : length a = length c -> a ++ b = c ++ d -> a = c /\ b = d.
Proof.
  revert c. induction a as [|x a IH]; intros [|y c] L E; cbn in *; try lia; [auto|]. injection E as -> E. destruct (IH c ltac:(lia) E) as [-> ->]. auto.
Qed.

Section Loop.
  Variable grow : mem -> nat -> nat.
  Variable rnd : nat -> N.
  Variable h0 : mem.

  Definition minv (h : mem) (st : stack) (mst : m_stack) : Prop :=
    map fst mst = map fst st /\
    (exists F, owns h (map snd mst) (map enc (map snd st)) F /\ NoDup F /\ (forall a, In a F -> length h0 <= a)) /\
    length h0 <= length h /\ (forall a, a < length h0 -> nth_error h a = nth_error h0 a).

  Lemma minv_push h st mst n v l : minv h st mst -> enc v = TLeaf l -> minv h ((n, v) :: st) ((n, MLeaf l) :: mst).
  Proof.
    intros (A & (F & B & C & D) & E & G) El. split; [cbn; congruence|]. split; [|auto]. exists F. split; [|auto]. cbn. rewrite El.
    apply (owns_cons h _ _ [] _ _ F); [constructor|exact B].
  Qed.

  Lemma loop_sim : forall fuel st mst tok lx h k, minv h st mst ->
    match parse_loop fuel rnd st tok lx k with
    | Ok (v, k') => exists mv h' F, m_parse_loop grow fuel rnd mst tok lx h k = Ok (mv, h', k') /\ own h' mv (enc v) F /\ NoDup F /\
        (forall a, In a F -> length h0 <= a) /\ length h0 <= length h' /\ (forall a, a < length h0 -> nth_error h' a = nth_error h0 a)
    | Err e => m_parse_loop grow fuel rnd mst tok lx h k = Err e
    | _ => True
    end.
  Proof.
    induction fuel as [|fuel IH]; intros st mst tok lx h k Hi; [exact I|]. cbn [parse_loop m_parse_loop].
    destruct st as [|[s v] st]; [exact I|]. pose proof (proj1 Hi) as E0. destruct mst as [|[s' mv] mst]; [discriminate|]. cbn in E0. injection E0 as -> E0.
    destruct (negb (Nat.ltb s num_states)); [exact I|]. destruct (action_at s (tk_type tok)) as [a|]; [|reflexivity].
    destruct a as [|n|p].
    - destruct Hi as (_ & (F & O & N & B) & L & Fr). cbn in O. inversion O as [|? ? F1 ? ? F2 O1 _]; subst. exists mv, h, F1. split; [reflexivity|].
      split; [exact O1|]. split; [apply (NoDup_app_elim _ _ N)|]. split; [intros a Ha; apply B, in_or_app; auto|auto].
    - destruct (scan lx) as [[tok' lx']|]; [|exact I]. apply (IH ((n, VTok tok) :: (s, v) :: st) ((n, MLeaf (LTok tok)) :: (s, mv) :: mst) tok' lx' h k).
      apply minv_push; [exact Hi|reflexivity].
    - destruct (nth_error prod_tab p) as [pr|] eqn:Ep; [|exact I].
      set (ST := (s, v) :: st) in *. set (MST := (s, mv) :: mst) in *. cbv zeta.
      destruct Hi as (Ef & (F & O & N & B) & L & Fr).
      assert (Elen : length MST = length ST) by (rewrite <- (map_length fst MST), Ef, map_length; reflexivity).
      rewrite Elen. destruct (Nat.ltb_spec (length ST) (p_num pr)) as [Hl|Hl]; [exact I|].
      destruct (run_sem rnd (p_sem pr) (rev (map snd (firstn (p_num pr) ST))) k) as [[u k']|] eqn:Er; [|exact I].
      rewrite <- (firstn_skipn (p_num pr) ST), <- (firstn_skipn (p_num pr) MST), !map_app in O.
      destruct (owns_app_inv _ _ _ _ _ O) as (t1 & t2 & F1 & F2 & Et & -> & O1 & O2).
      apply app_eq_len in Et; [|pose proof (owns_length _ _ _ _ O1) as Q; rewrite !map_length, !firstn_length in *; lia].
      destruct Et as [<- <-]. apply NoDup_app_elim in N. destruct N as (N1 & N2 & D).
      destruct (owns_rev _ _ _ _ O1) as (G & OG & PG). rewrite <- (map_rev enc) in OG.
      assert (NG : NoDup G) by (apply (Permutation_NoDup PG), N1).
      assert (Hok : sem_ok (p_sem pr) = true).
      { pose proof prods_ok as Q. rewrite forallb_forall in Q. apply Q. exact (nth_error_In _ _ Ep). }
      destruct (sem_sim grow rnd _ _ h G OG NG (p_sem pr) k u k' Hok Er) as (hv & h' & Em & P). rewrite Em.
      assert (Es : map fst (skipn (p_num pr) MST) = map fst (skipn (p_num pr) ST)) by (rewrite <- !skipn_map, Ef; reflexivity).
      destruct (skipn (p_num pr) ST) as [|[s1 v1] st1]; [exact I|]. destruct (skipn (p_num pr) MST) as [|[s2 mv2] mst1]; [discriminate|].
      cbn [map fst] in Es. injection Es as -> Es. destruct (Z.ltb (goto_at s1 (p_nt pr)) 0); [exact I|]. apply IH.
      destruct (post_rest _ _ _ _ _ _ _ _ O2 N2 ltac:(intros a Ha; apply D; exact (Permutation_in _ (Permutation_sym PG) Ha)) P) as (H & A1 & A2 & A3 & A4 & A5).
      split; [cbn; congruence|]. split.
      + exists H. split; [exact A1|]. split; [exact A2|]. intros a Ha. destruct (A3 a Ha) as [Q|[Q|Q]].
        * apply B, in_or_app. left. exact (Permutation_in _ (Permutation_sym PG) Q).
        * apply B, in_or_app. right. exact Q.
        * lia.
      + split; [lia|]. intros a La. rewrite A5; [apply Fr, La|lia|]. intros Q. apply (Permutation_in _ (Permutation_sym PG)) in Q.
        assert (length h0 <= a) by (apply B, in_or_app; left; exact Q). lia.
  Qed.

  Lemma parse_sim k0 src :
    match parse_bytes rnd k0 src with
    | Ok (g, k) => exists mv h' F, m_parse grow rnd k0 h0 src = Ok (mv, h', k) /\ own h' mv (t_graph g) F /\ NoDup F /\
        (forall a, In a F -> length h0 <= a) /\ length h0 <= length h' /\ (forall a, a < length h0 -> nth_error h' a = nth_error h0 a)
    | Err e => m_parse grow rnd k0 h0 src = Err e
    | _ => True
    end.
  Proof.
    unfold parse_bytes, m_parse. destruct (scan (new_lexer src)) as [[tok lx]|]; [|exact I].
    assert (Hi : minv h0 [(0, VNil)] [(0, MLeaf LNil)]).
    { split; [reflexivity|]. split; [|auto]. exists []. split; [|split; [constructor|intros a []]]. apply (owns_cons h0 _ _ [] _ _ []); constructor. }
    pose proof (loop_sim (parse_fuel src) _ _ tok lx h0 k0 Hi) as H.
    destruct (parse_loop (parse_fuel src) rnd [(0, VNil)] tok lx k0) as [[v k]|e| |]; try exact I.
    - destruct v; try exact I. destruct H as (mv & h' & F & E & O & R). exists mv, h', F. rewrite E. cbn [enc] in O. unfold t_graph in O.
      rewrite (own_kind _ _ _ _ _ O). split; [reflexivity|]. split; [exact O|exact R].
    - rewrite H. reflexivity.
  Qed.
End Loop.
