(** Proofs about the programs of TreeMem.v that change trees. *)
From Coq Require Import List Ascii NArith ZArith Bool Lia Arith.
From Verif Require Import Base LexTables ParseTables Ast Lexer Parser TreeMem SpecTree TreeProofs ParseFacts.
Import ListNotations.

Lemma owns_split h vs ts F : owns h vs ts F -> forall i c, nth_error ts i = Some c ->
  exists l1 cv l2 t1 t2 A B C, vs = l1 ++ cv :: l2 /\ ts = t1 ++ c :: t2 /\ length l1 = i /\ length t1 = i /\ F = A ++ B ++ C /\
    owns h l1 t1 A /\ own h cv c B /\ owns h l2 t2 C.
Proof.
  induction 1 as [|v t F vs ts G O Os IH]; intros i c E; [destruct i; discriminate|].
  destruct i as [|i]; cbn in E.
  - injection E as ->. exists [], v, vs, [], ts, [], F, G. repeat split; auto. constructor.
  - destruct (IH i c E) as (l1 & cv & l2 & t1 & t2 & A & B & C & -> & -> & L1 & L2 & -> & H1 & H2 & H3).
    exists (v :: l1), cv, l2, (t :: t1), t2, (F ++ A), B, C. rewrite <- !app_assoc. cbn. repeat split; auto. constructor; assumption.
Qed.
Lemma set_at_app {A} (l1 : list A) x y l2 : set_at (length l1) x (l1 ++ y :: l2) = l1 ++ x :: l2.
Proof. induction l1 as [|z l1 IH]; cbn; [reflexivity|]. rewrite IH. reflexivity. Qed.
Lemma put_app (l1 : list tree) x y l2 : firstn (length l1) (l1 ++ y :: l2) ++ x :: skipn (S (length l1)) (l1 ++ y :: l2) = l1 ++ x :: l2.
Proof. rewrite firstn_app, Nat.sub_diag, firstn_all, firstn_O, app_nil_r. f_equal. f_equal. rewrite skipn_app. replace (S (length l1) - length l1) with 1 by lia.
  rewrite skipn_all2 by lia. reflexivity.
Qed.
Lemma nth_mid {A} (l1 : list A) x l2 : nth_error (l1 ++ x :: l2) (length l1) = Some x.
Proof. rewrite nth_error_app2 by lia. rewrite Nat.sub_diag. reflexivity. Qed.

(** The address and the visible cells of a struct or list. *)
Definition at_cells (h : mem) (v : mval) (a : nat) (vis : list mval) : Prop :=
  (exists k, v = MPtr k a /\ nth_error h a = Some vis) \/
  (exists k n cs, v = MSlice k a n /\ nth_error h a = Some cs /\ n <= length cs /\ vis = firstn n cs).
Lemma own_cells h v k ts F : own h v (TNode k ts) F ->
  (v = MNil k /\ ts = [] /\ F = []) \/ (exists a vis F1, at_cells h v a vis /\ F = a :: F1 /\ owns h vis ts F1).
Proof.
  inversion 1 as [|? _|? a fs ? F1 Hk E O|? a n cs ? F1 Hk E L O]; subst.
  - left. auto.
  - right. exists a, fs, F1. split; [left; exists k; auto|auto].
  - right. exists a, (firstn n cs), F1. split; [right; exists k, n, cs; auto|auto].
Qed.
Lemma cells_own h v k ts F h2 a vis vis2 ts2 F2 : own h v (TNode k ts) F -> at_cells h v a vis -> at_cells h2 v a vis2 -> owns h2 vis2 ts2 F2 ->
  own h2 v (TNode k ts2) (a :: F2).
Proof.
  intros O C C2 O2. destruct C2 as [(k2 & -> & E)|(k2 & n & cs & -> & E & L & ->)]; inversion O; subst.
  - eapply own_ptr; eauto.
  - eapply own_slice; eauto.
Qed.
Lemma cells_child h v a vis i : at_cells h v a vis -> child h v i = nth_error vis i.
Proof. intros [(k & -> & E)|(k & n & cs & -> & E & L & ->)]; cbn [child]; rewrite E; reflexivity. Qed.
Lemma cells_same h h' v a vis : at_cells h v a vis -> nth_error h' a = nth_error h a -> at_cells h' v a vis.
Proof. intros [(k & -> & E)|(k & n & cs & -> & E & L & ->)] H; rewrite <- H in E; [left; exists k; auto|right; exists k, n, cs; auto]. Qed.
Lemma cells_bound h v a vis : at_cells h v a vis -> a < length h.
Proof. intros [(k & -> & E)|(k & n & cs & -> & E & L & ->)]; apply nth_error_Some; congruence. Qed.
Lemma cells_assign h v a vis i w : at_cells h v a vis -> i < length vis ->
  exists h', assign h v i w = Some h' /\ at_cells h' v a (set_at i w vis) /\ length h' = length h /\ (forall b, b <> a -> nth_error h' b = nth_error h b).
Proof.
  intros C L. pose proof (cells_bound _ _ _ _ C) as La. pose proof (cells_child _ _ _ _ i C) as Ec. apply nth_error_Some in L as L'.
  unfold assign. rewrite Ec. destruct (nth_error vis i); [|congruence]. destruct C as [(k & -> & E)|(k & n & cs & -> & E & Ln & ->)]; rewrite E.
  - eexists. split; [reflexivity|]. split; [left; exists k; split; [reflexivity|apply set_at_same, La]|]. split; [apply set_at_length|]. intros b Hb. apply set_at_other. auto.
  - rewrite firstn_length in L. eexists. split; [reflexivity|]. split; [|split; [apply set_at_length|intros b Hb; apply set_at_other; auto]].
    right. exists k, n, (set_at i w cs). split; [reflexivity|]. split; [apply set_at_same, La|]. split; [rewrite set_at_length; exact Ln|].
    symmetry. apply set_at_firstn_in. lia.
Qed.

Lemma subtree_replaced p : forall t u x, subtree t p = Some x -> exists t', replaced t p u = Some t'.
Proof.
  induction p as [|i p IH]; intros t u x E; [eexists; reflexivity|]. destruct t as [|k ch]; cbn in *; [discriminate|].
  destruct (nth_error ch i) as [c|]; [|discriminate]. destruct (IH c u x E) as [c' ->]. eauto.
Qed.
Lemma subtree_none p : forall t u, subtree t p = None -> replaced t p u = None.
Proof.
  induction p as [|i p IH]; intros t u E; [discriminate|]. destruct t as [|k ch]; cbn in *; [reflexivity|].
  destruct (nth_error ch i) as [c|]; [|reflexivity]. rewrite (IH c u E). reflexivity.
Qed.
Lemma follow_none p : forall h v t F, own h v t F -> subtree t p = None -> follow h v p = None.
Proof.
  induction p as [|i p IH]; intros h v t F O E; [discriminate|]. cbn [follow]. destruct t as [l|k ts].
  - apply own_leaf_inv in O. destruct O as [-> _]. reflexivity.
  - cbn [subtree] in E. destruct (own_cells _ _ _ _ _ O) as [(-> & -> & ->)|(a & vis & F1 & C & -> & Os)].
    + reflexivity.
    + rewrite (cells_child _ _ _ _ i C). destruct (nth_error ts i) as [c|] eqn:Et.
      * destruct (owns_split _ _ _ _ Os i c Et) as (l1 & cv & l2 & t1 & t2 & A & B & D & -> & -> & L1 & L2 & -> & H1 & H2 & H3).
        rewrite <- L1, nth_mid. exact (IH h cv c B H2 E).
      * apply nth_error_None in Et. rewrite <- (owns_length _ _ _ _ Os) in Et. apply nth_error_None in Et. rewrite Et. reflexivity.
Qed.

Lemma some_inj {A} (x y : A) : Some x = Some y -> x = y.
Proof. congruence. Qed.
Lemma replaced_node k ch i p u : replaced (TNode k ch) (i :: p) u =
  match nth_error ch i with
  | None => None
  | Some c => match replaced c p u with Some c' => Some (TNode k (firstn i ch ++ c' :: skipn (S i) ch)) | None => None end
  end.
Proof. reflexivity. Qed.

(** A place in a tree, and what may be put there. *)
Lemma hole p : forall h v t F tx, own h v t F -> NoDup F -> subtree t p = Some tx ->
  exists x Fx, follow h v p = Some x /\ own h x tx Fx /\ NoDup Fx /\ incl Fx F /\
    forall h1 y ty W t', (forall a, In a W -> ~ In a F) -> (forall a, In a W -> a < length h) -> post h (Fx ++ W) h1 y ty -> replaced t p ty = Some t' ->
      exists v' h2, store h1 v p y = Some (v', h2) /\ (p <> [] -> v' = v) /\ post h (F ++ W) h2 v' t'.
Proof.
  induction p as [|i p IH]; intros h v t F tx O N E.
  - cbn in E. injection E as <-. exists v, F. split; [reflexivity|]. split; [exact O|]. split; [exact N|]. split; [intros a Ha; exact Ha|].
    intros h1 y ty W t' D Bw P Er. cbn in Er. injection Er as <-. exists y, h1. split; [reflexivity|]. split; [congruence|exact P].
  - destruct t as [l|k ts]; [discriminate|]. cbn [subtree] in E. destruct (nth_error ts i) as [c|] eqn:Et; [|discriminate].
    destruct (own_cells _ _ _ _ _ O) as [(-> & -> & ->)|(a & vis & F1 & C & -> & Os)]; [destruct i; discriminate|].
    destruct (owns_split _ _ _ _ Os i c Et) as (l1 & cv & l2 & t1 & t2 & A & B & D & -> & -> & L1 & L2 & -> & H1 & H2 & H3).
    inversion N as [|? ? Na N']; subst. apply NoDup_app_elim in N'. destruct N' as (NA & NBD & DA). apply NoDup_app_elim in NBD. destruct NBD as (NB & ND & DB).
    destruct (IH h cv c B tx H2 NB E) as (x & Fx & Ef & Ox & Nx & Ix & K).
    exists x, Fx. split; [cbn [follow]; rewrite (cells_child _ _ _ _ _ C), nth_mid; exact Ef|]. split; [exact Ox|]. split; [exact Nx|].
    split; [intros u Hu; right; apply in_or_app; right; apply in_or_app; left; apply Ix, Hu|].
    intros h1 y ty W t' Dw Bw P Er. rewrite replaced_node, Et in Er. destruct (replaced c p ty) as [c'|] eqn:Ec; [|discriminate]. apply some_inj in Er. subst t'.
    assert (DwB : forall u, In u W -> ~ In u B) by (intros u Hu Hb; apply (Dw u Hu); right; apply in_or_app; right; apply in_or_app; left; exact Hb).
    destruct (K h1 y ty W c' DwB Bw P Ec) as (cv' & h2 & Es & Ecv & (Fc & Oc & Nc & Cc & Lc & Frc)).
    assert (La : a < length h) by exact (cells_bound _ _ _ _ C).
    assert (NaA : ~ In a A) by (intros Hu; apply Na, in_or_app; auto).
    assert (NaB : ~ In a B) by (intros Hu; apply Na, in_or_app; right; apply in_or_app; auto).
    assert (NaD : ~ In a D) by (intros Hu; apply Na, in_or_app; right; apply in_or_app; auto).
    assert (NaW : ~ In a W) by (intros Hu; apply (Dw a Hu); left; reflexivity).
    assert (NaC : ~ In a Fc) by (intros Hu; destruct (Cc a Hu) as [Q|Q]; [apply in_app_or in Q; tauto|lia]).
    assert (Ea1 : forall hh, (forall u, u < length h -> ~ In u (Fx ++ W) -> nth_error hh u = nth_error h u) -> nth_error hh a = nth_error h a).
    { intros hh Q. apply Q; [exact La|]. intros R. apply in_app_or in R. destruct R as [R|R]; [apply NaB, Ix, R|contradiction]. }
    assert (Ch1 : at_cells h1 v a (l1 ++ cv :: l2)).
    { apply (cells_same h); [exact C|]. apply Ea1. destruct P as (? & _ & _ & _ & _ & Q). exact Q. }
    assert (Ch2 : at_cells h2 v a (l1 ++ cv :: l2)).
    { apply (cells_same h); [exact C|]. apply Frc; [exact La|]. intros R. apply in_app_or in R. tauto. }
    assert (Fin : forall h3, at_cells h3 v a (l1 ++ cv' :: l2) -> length h3 = length h2 -> (forall b, b <> a -> nth_error h3 b = nth_error h2 b) ->
      post h ((a :: A ++ B ++ D) ++ W) h3 v (TNode k (t1 ++ c' :: t2))).
    { intros h3 C3 L3 E3. exists (a :: A ++ Fc ++ D).
      assert (S1 : forall u, In u A -> nth_error h3 u = nth_error h u).
      { intros u Hu. rewrite E3 by (intros ->; contradiction). apply Frc; [exact (owns_bound _ _ _ _ H1 u Hu)|]. intros R. apply in_app_or in R. destruct R as [R|R].
        - apply (DA u Hu), in_or_app. auto.
        - apply (Dw u R). right. apply in_or_app. auto. }
      assert (S2 : forall u, In u D -> nth_error h3 u = nth_error h u).
      { intros u Hu. rewrite E3 by (intros ->; contradiction). apply Frc; [exact (owns_bound _ _ _ _ H3 u Hu)|]. intros R. apply in_app_or in R. destruct R as [R|R].
        - exact (DB u R Hu).
        - apply (Dw u R). right. apply in_or_app. right. apply in_or_app. auto. }
      assert (DFA : forall u, In u Fc -> ~ In u A).
      { intros u Hu Ha. destruct (Cc u Hu) as [R|R]; [apply in_app_or in R; destruct R as [R|R]|].
        - apply (DA u Ha), in_or_app. auto.
        - apply (Dw u R). right. apply in_or_app. auto.
        - apply (owns_bound _ _ _ _ H1) in Ha. lia. }
      assert (DFD : forall u, In u Fc -> ~ In u D).
      { intros u Hu Ha. destruct (Cc u Hu) as [R|R]; [apply in_app_or in R; destruct R as [R|R]|].
        - exact (DB u R Ha).
        - apply (Dw u R). right. apply in_or_app. right. apply in_or_app. auto.
        - apply (owns_bound _ _ _ _ H3) in Ha. lia. }
      split; [|split; [|split; [|split]]].
      - apply (cells_own h v k _ _ h3 a _ (l1 ++ cv' :: l2) _ _ O C C3). apply owns_app; [apply (owns_frame h); assumption|]. constructor.
        + apply (own_frame h2); [exact Oc|]. intros u Hu. apply E3. intros ->. contradiction.
        + apply (owns_frame h); assumption.
      - constructor.
        + intros R. apply in_app_or in R. destruct R as [R|R]; [contradiction|]. apply in_app_or in R. tauto.
        + apply NoDup_app_intro; [exact NA|apply NoDup_app_intro; assumption|]. intros u Hu R. apply in_app_or in R. destruct R as [R|R]; [exact (DFA u R Hu)|].
          apply (DA u Hu), in_or_app. auto.
      - intros u [<-|R]; [left; left; reflexivity|]. apply in_app_or in R. destruct R as [R|R]; [left; right; rewrite <- app_assoc; apply in_or_app; auto|].
        apply in_app_or in R. destruct R as [R|R].
        + destruct (Cc u R) as [Q|Q]; [|auto]. left. right. apply in_app_or in Q. rewrite <- !app_assoc. apply in_or_app. right.
          apply in_or_app. destruct Q as [Q|Q]; [auto|]. right. apply in_or_app. auto.
        + left. right. rewrite <- !app_assoc. apply in_or_app. right. apply in_or_app. right. apply in_or_app. auto.
      - lia.
      - intros u Lu Nu. assert (Hne : u <> a) by (intros ->; apply Nu; left; reflexivity). rewrite E3 by exact Hne. apply Frc; [exact Lu|].
        intros R. apply Nu. right. rewrite <- !app_assoc. apply in_app_or in R. apply in_or_app. right. apply in_or_app. destruct R as [R|R]; [auto|].
        right. apply in_or_app. auto. }
    assert (Et' : firstn (length l1) (t1 ++ c :: t2) ++ c' :: skipn (S (length l1)) (t1 ++ c :: t2) = t1 ++ c' :: t2) by (rewrite <- L2; apply put_app).
    rewrite Et'.
    destruct p as [|j p].
    + cbn [store] in Es. injection Es as -> ->. cbn [store].
      destruct (cells_assign _ _ _ _ (length l1) cv' Ch2) as (h3 & Ea & C3 & L3 & E3); [rewrite app_length; cbn; lia|]. rewrite set_at_app in C3.
      rewrite Ea. exists v, h3. split; [reflexivity|]. split; [auto|]. apply Fin; assumption.
    + change (store h1 v (length l1 :: j :: p) y) with
        (match child h1 v (length l1) with
         | Some c0 => match store h1 c0 (j :: p) y with Some (_, h') => Some (v, h') | None => None end
         | None => None
         end).
      rewrite (cells_child _ _ _ _ _ Ch1), nth_mid, Es. exists v, h2. split; [reflexivity|]. split; [auto|].
      rewrite Ecv in * by discriminate. apply Fin; auto.
Qed.

(** ** Programs *)
Section Run.
  Variable grow : mem -> nat -> nat.
  Variable rnd : nat -> N.
  Variable h0 : mem.

  Definition sinv (h : mem) (vs : list mval) (ts : list tree) : Prop :=
    (exists F, owns h vs ts F /\ NoDup F /\ (forall a, In a F -> length h0 <= a)) /\
    length h0 <= length h /\ (forall a, a < length h0 -> nth_error h a = nth_error h0 a).

  Lemma sinv_nil : sinv h0 [] [].
  Proof. split; [|auto]. exists []. split; [constructor|]. split; [constructor|intros a []]. Qed.

  (** A new variable *)
  Lemma sinv_new h vs ts h1 v t F : sinv h vs ts -> own h1 v t F -> NoDup F -> (forall a, In a F -> length h <= a) -> length h <= length h1 ->
    (forall a, a < length h -> nth_error h1 a = nth_error h a) -> sinv h1 (vs ++ [v]) (ts ++ [t]).
  Proof.
    intros ((G & O & N & B) & L & Fr) Ov Nv Bv Lv Frv. split; [|split; [lia|]].
    - exists (G ++ F ++ []). split; [|split].
      + apply owns_app; [|constructor; [exact Ov|constructor]]. apply (owns_frame h); [exact O|]. intros a Ha. apply Frv. exact (owns_bound _ _ _ _ O a Ha).
      + rewrite app_nil_r. apply NoDup_app_intro; [exact N|exact Nv|]. intros a Ha Hb. apply (owns_bound _ _ _ _ O) in Ha. apply Bv in Hb. lia.
      + rewrite app_nil_r. intros a Ha. apply in_app_or in Ha. destruct Ha as [Ha|Ha]; [apply B, Ha|]. apply Bv in Ha. lia.
    - intros a La. rewrite Frv by lia. apply Fr, La.
  Qed.

  (** Two variables and the rest *)
  Lemma owns_put h vs ts F : owns h vs ts F -> NoDup F -> forall r v t, nth_error vs r = Some v -> nth_error ts r = Some t ->
    exists Fr G, own h v t Fr /\ NoDup Fr /\ incl Fr F /\ (forall a, In a G -> ~ In a Fr) /\ incl G F /\
    owns h (set_at r (MLeaf LNil) vs) (put r (TLeaf LNil) ts) G /\ NoDup G.
  Proof.
    intros O N r v t Ev Et. destruct (owns_split _ _ _ _ O r t Et) as (l1 & cv & l2 & t1 & t2 & A & B & D & -> & -> & <- & L2 & -> & H1 & H2 & H3).
    rewrite nth_mid in Ev. injection Ev as ->. unfold put. rewrite set_at_app, <- L2, put_app.
    apply NoDup_app_elim in N. destruct N as (NA & NBD & DA). apply NoDup_app_elim in NBD. destruct NBD as (NB & ND & DB).
    exists B, (A ++ D). split; [exact H2|]. split; [exact NB|]. split; [intros a Ha; apply in_or_app; right; apply in_or_app; auto|]. split.
    { intros a Ha Hb. apply in_app_or in Ha. destruct Ha as [Ha|Ha]; [apply (DA a Ha), in_or_app; auto|exact (DB a Hb Ha)]. }
    split; [intros a Ha; apply in_app_or in Ha; apply in_or_app; destruct Ha; [auto|right; apply in_or_app; auto]|]. split.
    - apply owns_app; [exact H1|]. apply (owns_cons h _ _ [] _ _ D); [constructor|exact H3].
    - apply NoDup_app_intro; [exact NA|exact ND|]. intros a Ha Hb. apply (DA a Ha), in_or_app. auto.
  Qed.
  Lemma owns_set h vs ts G : owns h vs ts G -> NoDup G -> forall r v t Fv, r < length vs -> nth_error ts r = Some (TLeaf LNil) -> own h v t Fv -> NoDup Fv ->
    (forall a, In a Fv -> ~ In a G) ->
    exists K, owns h (set_at r v vs) (put r t ts) K /\ NoDup K /\ (forall a, In a K -> In a G \/ In a Fv).
  Proof.
    intros O N r v t Fv Lr Et Ov Nv D. destruct (owns_split _ _ _ _ O r _ Et) as (l1 & cv & l2 & t1 & t2 & A & B & C & -> & -> & <- & L2 & -> & H1 & H2 & H3).
    apply own_leaf_inv in H2. destruct H2 as [-> ->]. cbn [app] in *. unfold put. rewrite set_at_app, <- L2, put_app.
    apply NoDup_app_elim in N. destruct N as (NA & NC & DA). exists (A ++ Fv ++ C). split; [|split].
    - apply owns_app; [exact H1|]. constructor; assumption.
    - apply NoDup_app_intro; [exact NA|apply NoDup_app_intro; [exact Nv|exact NC|]|].
      + intros a Ha Hb. apply (D a Ha), in_or_app. auto.
      + intros a Ha Hb. apply in_app_or in Hb. destruct Hb as [Hb|Hb]; [apply (D a Hb), in_or_app; auto|exact (DA a Ha Hb)].
    - intros a Ha. apply in_app_or in Ha. destruct Ha as [Ha|Ha]; [left; apply in_or_app; auto|]. apply in_app_or in Ha. destruct Ha; [auto|left; apply in_or_app; auto].
  Qed.

  Lemma put_set n (t : tree) ts : n < length ts -> put n t ts = set_at n t ts.
  Proof.
    unfold put. revert n. induction ts as [|x ts IH]; intros n L; cbn in L; [lia|]. destruct n as [|n]; [reflexivity|]. cbn [firstn set_at app]. f_equal.
    change (skipn (S (S n)) (x :: ts)) with (skipn (S n) ts). apply IH. lia.
  Qed.
  Lemma set_twice {A} (x y : A) l : forall n, set_at n x (set_at n y l) = set_at n x l.
  Proof. induction l as [|z l IH]; intros [|n]; cbn; try reflexivity. rewrite IH. reflexivity. Qed.
  Lemma set_comm {A} (x y : A) l : forall n m, n <> m -> set_at n x (set_at m y l) = set_at m y (set_at n x l).
  Proof. induction l as [|z l IH]; intros [|n] [|m] D; cbn; try reflexivity; try lia. rewrite IH by lia. reflexivity. Qed.

  (** The variable [r] gets its new value. *)
  Lemma sinv_back h vs ts r v t F G : owns h (set_at r (MLeaf LNil) vs) (set_at r (TLeaf LNil) ts) G -> NoDup G -> r < length vs -> length vs = length ts ->
    (forall a, In a G -> length h0 <= a) -> (forall a, In a G -> ~ In a F) -> (forall a, In a F -> a < length h) ->
    (forall a, In a F -> length h0 <= a) -> length h0 <= length h -> (forall a, a < length h0 -> nth_error h a = nth_error h0 a) ->
    forall h2, post h F h2 v t -> sinv h2 (set_at r v vs) (set_at r t ts).
  Proof.
    intros O N Lr Ll B D Bf BF L Fr h2 (Fv & Ov & Nv & Cv & Lv & Frv).
    assert (O2 : owns h2 (set_at r (MLeaf LNil) vs) (set_at r (TLeaf LNil) ts) G).
    { apply (owns_frame h); [exact O|]. intros a Ha. apply Frv; [exact (owns_bound _ _ _ _ O a Ha)|apply D, Ha]. }
    destruct (owns_set h2 _ _ G O2 N r v t Fv) as (K & OK & NK & CK).
    - rewrite set_at_length. exact Lr.
    - apply set_at_same. lia.
    - exact Ov.
    - exact Nv.
    - intros a Ha Hg. destruct (Cv a Ha) as [Q|Q]; [exact (D a Hg Q)|]. apply (owns_bound _ _ _ _ O) in Hg. lia.
    - rewrite put_set in OK by (rewrite set_at_length; lia). rewrite !set_twice in OK. split; [|split; [lia|]].
      + exists K. split; [exact OK|]. split; [exact NK|]. intros a Ha. destruct (CK a Ha) as [Q|Q]; [apply B, Q|]. destruct (Cv a Q) as [R|R]; [apply BF, R|lia].
      + intros a La. rewrite Frv; [apply Fr, La|lia|]. intros Q. apply BF in Q. lia.
  Qed.

  Definition exec_out (ts' : option t_state) (s' : option m_state) : Prop :=
    match ts' with
    | Some (ts, k) => exists h vs, s' = Some (h, vs, k) /\ sinv h vs ts
    | None => s' = None
    end.

  Lemma nth_none {A B} (l : list A) (l' : list B) n : length l = length l' -> nth_error l n = None -> nth_error l' n = None.
  Proof. intros L E. apply nth_error_None in E. apply nth_error_None. lia. Qed.
  Lemma nth_some {A B} (l : list A) (l' : list B) n x : length l = length l' -> nth_error l n = Some x -> exists y, nth_error l' n = Some y.
  Proof.
    intros L E. assert (Ln : n < length l') by (rewrite <- L; apply nth_error_Some; congruence). apply nth_error_Some in Ln.
    destruct (nth_error l' n) as [y|]; [eauto|congruence].
  Qed.
  Lemma nth_lt {A} (l : list A) n x : nth_error l n = Some x -> n < length l.
  Proof. intros E. apply nth_error_Some. congruence. Qed.

  Lemma exec_sim o h vs ts k : op_ok o -> sinv h vs ts -> exec_out (t_exec rnd o (ts, k)) (m_exec grow rnd o (h, vs, k)).
  Proof.
    intros Hok Hi. pose proof Hi as ((F & O & N & B) & L & Fr). pose proof (owns_length _ _ _ _ O) as Ll.
    destruct o as [src|kd ls|kd|r p l|r p q|r p q]; cbn [t_exec m_exec op_ok] in *.
    - pose proof (parse_sim grow rnd h k src) as P. pose proof (parse_total rnd k src) as T. destruct (parse_bytes rnd k src) as [[g k']|e| |].
      + destruct P as (mv & h' & G & E & Og & Ng & Bg & Lg & Frg). rewrite E. exists h', (vs ++ [mv]). split; [reflexivity|].
        exact (sinv_new h vs ts h' mv (t_graph g) G Hi Og Ng Bg Lg Frg).
      + rewrite P. exists h, (vs ++ [MLeaf LNil]). split; [reflexivity|]. apply (sinv_new h vs ts h (MLeaf LNil) (TLeaf LNil) [] Hi); auto; [constructor|constructor|intros a []].
      + exfalso. destruct T as [(g & k1 & E)|(e & E)]; discriminate.
      + exfalso. destruct T as [(g & k1 & E)|(e & E)]; discriminate.
    - assert (P : forall v h', (if is_slice kd then new_slice else new_struct) kd (map MLeaf ls) h = (v, h') -> post h [] h' v (TNode kd (map TLeaf ls))).
      { intros v h' E. assert (Os : owns h (map MLeaf ls) (map TLeaf ls) []) by exact (strs_own h ls). destruct (is_slice kd) eqn:Ek.
        - pose proof (post_slice kd _ _ h [] Ek Os (NoDup_nil _)) as P. rewrite E in P. exact P.
        - pose proof (post_struct kd _ _ h [] Ek Os (NoDup_nil _)) as P. rewrite E in P. exact P. }
      destruct ((if is_slice kd then new_slice else new_struct) kd (map MLeaf ls) h) as [v h']. destruct (P v h' eq_refl) as (G & Og & Ng & Cg & Lg & Frg).
      exists h', (vs ++ [v]). split; [reflexivity|]. apply (sinv_new h vs ts h' v _ G Hi Og Ng); [|exact Lg|].
      + intros a Ha. destruct (Cg a Ha) as [[]|Q]; exact Q.
      + intros a La. apply Frg; [exact La|intros []].
    - exists h, (vs ++ [MNil kd]). split; [reflexivity|]. apply (sinv_new h vs ts h (MNil kd) (TNode kd []) [] Hi); auto; [constructor; exact Hok|constructor|intros a []].
    - destruct (nth_error ts r) as [t|] eqn:Et.
      2:{ rewrite (nth_none _ _ _ (eq_sym Ll) Et). reflexivity. }
      destruct (nth_some _ _ _ _ (eq_sym Ll) Et) as [v Ev]. rewrite Ev.
      destruct (owns_put h vs ts F O N r v t Ev Et) as (Fv & G & Ov & Nv & Iv & D & Ig & OG & NG). rewrite put_set in OG by exact (nth_lt _ _ _ Et).
      destruct (subtree t p) as [tx|] eqn:Es.
      2:{ rewrite (subtree_none _ _ _ Es), (follow_none _ _ _ _ _ Ov Es). reflexivity. }
      destruct (subtree_replaced p t (TLeaf l) tx Es) as [t' Er]. rewrite Er.
      destruct (hole p h v t Fv tx Ov Nv Es) as (x & Fx & Ef & Ox & Nx & Ix & K). rewrite Ef.
      destruct (K h (MLeaf l) (TLeaf l) [] t') as (v' & h2 & Est & _ & P); [intros a []|intros a []|apply post_leaf|exact Er|]. rewrite Est.
      exists h2, (set_at r v' vs). split; [reflexivity|]. rewrite put_set by exact (nth_lt _ _ _ Et). rewrite app_nil_r in P.
      apply (sinv_back h vs ts r v' t' Fv G); auto; [exact (nth_lt _ _ _ Ev)|exact (own_bound _ _ _ _ Ov)].
    - destruct (nth_error ts r) as [t|] eqn:Et.
      2:{ rewrite (nth_none _ _ _ (eq_sym Ll) Et). reflexivity. }
      destruct (nth_some _ _ _ _ (eq_sym Ll) Et) as [v Ev]. rewrite Ev.
      destruct (nth_error ts q) as [u|] eqn:Eu.
      2:{ rewrite (nth_none _ _ _ (eq_sym Ll) Eu). reflexivity. }
      destruct (nth_some _ _ _ _ (eq_sym Ll) Eu) as [w Ew]. rewrite Ew.
      destruct (owns_put h vs ts F O N r v t Ev Et) as (Fv & G & Ov & Nv & Iv & D & Ig & OG & NG). rewrite put_set in OG by exact (nth_lt _ _ _ Et).
      destruct (owns_put h _ _ G OG NG q w u) as (Fw & G2 & Ow & Nw & Iw & D2 & Ig2 & OG2 & NG2);
        [rewrite set_at_other by exact Hok; exact Ew|rewrite set_at_other by exact Hok; exact Eu|].
      rewrite put_set in OG2 by (rewrite set_at_length; exact (nth_lt _ _ _ Eu)).
      rewrite (set_comm (MLeaf LNil)) in OG2 by auto. rewrite (set_comm (TLeaf LNil)) in OG2 by auto.
      destruct (subtree t p) as [tx|] eqn:Es.
      2:{ rewrite (subtree_none _ _ _ Es), (follow_none _ _ _ _ _ Ov Es). reflexivity. }
      destruct (subtree_replaced p t u tx Es) as [t' Er]. rewrite Er.
      destruct (hole p h v t Fv tx Ov Nv Es) as (x & Fx & Ef & Ox & Nx & Ix & K). rewrite Ef.
      destruct (K h w u Fw t') as (v' & h2 & Est & _ & P); [intros a Ha; apply D, Iw, Ha|exact (own_bound _ _ _ _ Ow)| |exact Er|].
      { apply (post_mono h Fw); [intros a Ha; apply in_or_app; auto|]. apply post_same; assumption. }
      rewrite Est. eexists h2, _. split; [reflexivity|].
      rewrite (put_set r) by exact (nth_lt _ _ _ Et). rewrite (put_set q) by (rewrite set_at_length; exact (nth_lt _ _ _ Eu)).
      rewrite (set_comm (MLeaf LNil)), (set_comm (TLeaf LNil)) by auto.
      apply (sinv_back h _ _ r v' t' (Fv ++ Fw) G2); auto.
      + rewrite set_at_length. exact (nth_lt _ _ _ Ev).
      + rewrite !set_at_length. exact Ll.
      + intros a Ha Hb. apply in_app_or in Hb. destruct Hb as [Hb|Hb]; [exact (D a (Ig2 a Ha) Hb)|exact (D2 a Ha Hb)].
      + intros a Ha. apply in_app_or in Ha. destruct Ha as [Ha|Ha]; [exact (own_bound _ _ _ _ Ov a Ha)|exact (own_bound _ _ _ _ Ow a Ha)].
      + intros a Ha. apply in_app_or in Ha. destruct Ha as [Ha|Ha]; auto.
    - destruct (nth_error ts r) as [t|] eqn:Et.
      2:{ rewrite (nth_none _ _ _ (eq_sym Ll) Et). reflexivity. }
      destruct (nth_some _ _ _ _ (eq_sym Ll) Et) as [v Ev]. rewrite Ev.
      destruct (nth_error ts q) as [u|] eqn:Eu.
      2:{ rewrite (nth_none _ _ _ (eq_sym Ll) Eu). reflexivity. }
      destruct (nth_some _ _ _ _ (eq_sym Ll) Eu) as [w Ew]. rewrite Ew.
      destruct (owns_put h vs ts F O N r v t Ev Et) as (Fv & G & Ov & Nv & Iv & D & Ig & OG & NG). rewrite put_set in OG by exact (nth_lt _ _ _ Et).
      destruct (owns_put h _ _ G OG NG q w u) as (Fw & G2 & Ow & Nw & Iw & D2 & Ig2 & OG2 & NG2);
        [rewrite set_at_other by exact Hok; exact Ew|rewrite set_at_other by exact Hok; exact Eu|].
      rewrite put_set in OG2 by (rewrite set_at_length; exact (nth_lt _ _ _ Eu)).
      rewrite (set_comm (MLeaf LNil)) in OG2 by auto. rewrite (set_comm (TLeaf LNil)) in OG2 by auto.
      destruct (subtree t p) as [tx|] eqn:Es.
      2:{ rewrite (follow_none _ _ _ _ _ Ov Es). reflexivity. }
      destruct (hole p h v t Fv tx Ov Nv Es) as (x & Fx & Ef & Ox & Nx & Ix & K). rewrite Ef.
      destruct tx as [l|kd ch].
      { apply own_leaf_inv in Ox. destruct Ox as [-> _]. reflexivity. }
      destruct (is_slice kd) eqn:Ek.
      2:{ inversion Ox; subst; try congruence. reflexivity. }
      destruct (subtree_replaced p t (TNode kd (ch ++ [u])) _ Es) as [t' Er]. rewrite Er.
      destruct (post_append grow x w kd ch u h (Fx ++ Fw ++ []) Ek) as (y & h1 & Ea & P1).
      { constructor; [exact Ox|]. constructor; [exact Ow|constructor]. }
      { rewrite app_nil_r. apply NoDup_app_intro; [exact Nx|exact Nw|]. intros a Ha Hb. exact (D a (Iw a Hb) (Ix a Ha)). }
      rewrite Ea. rewrite app_nil_r in P1.
      destruct (K h1 y (TNode kd (ch ++ [u])) Fw t') as (v' & h2 & Est & _ & P); [intros a Ha; apply D, Iw, Ha|exact (own_bound _ _ _ _ Ow)|exact P1|exact Er|].
      rewrite Est. eexists h2, _. split; [reflexivity|].
      rewrite (put_set r) by exact (nth_lt _ _ _ Et). rewrite (put_set q) by (rewrite set_at_length; exact (nth_lt _ _ _ Eu)).
      rewrite (set_comm (MLeaf LNil)), (set_comm (TLeaf LNil)) by auto.
      apply (sinv_back h _ _ r v' t' (Fv ++ Fw) G2); auto.
      + rewrite set_at_length. exact (nth_lt _ _ _ Ev).
      + rewrite !set_at_length. exact Ll.
      + intros a Ha Hb. apply in_app_or in Hb. destruct Hb as [Hb|Hb]; [exact (D a (Ig2 a Ha) Hb)|exact (D2 a Ha Hb)].
      + intros a Ha. apply in_app_or in Ha. destruct Ha as [Ha|Ha]; [exact (own_bound _ _ _ _ Ov a Ha)|exact (own_bound _ _ _ _ Ow a Ha)].
      + intros a Ha. apply in_app_or in Ha. destruct Ha as [Ha|Ha]; auto.
  Qed.

  Lemma run_sim : forall l h vs ts k, Forall op_ok l -> sinv h vs ts -> exec_out (t_run rnd l (ts, k)) (m_run grow rnd l (h, vs, k)).
  Proof.
    induction l as [|o l IH]; intros h vs ts k Hok Hi; [exists h, vs; auto|]. inversion Hok as [|? ? Ho Hl]; subst. cbn [t_run m_run].
    pose proof (exec_sim o h vs ts k Ho Hi) as E. destruct (t_exec rnd o (ts, k)) as [[ts1 k1]|]; cbn [exec_out] in E.
    - destruct E as (h1 & vs1 & -> & Hi1). exact (IH h1 vs1 ts1 k1 Hl Hi1).
    - rewrite E. reflexivity.
  Qed.
End Run.
