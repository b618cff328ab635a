(** LR driver: completeness, by an LR(1) item certificate checked by computation. *)
From Coq Require Import List Ascii NArith ZArith Bool Lia Arith.
From Verif Require Import Base LexTables ParseTables Ast Lexer Parser ParserDefs LRCert ParserSound.
Import ListNotations.

(** ** The certificate *)
Definition items (s : nat) : list (nat * nat * list nat) := nth s items_cert [].
Definition has_item (s p d a : nat) : bool :=
  existsb (fun it : nat * nat * list nat =>
    let '(p', d', las) := it in Nat.eqb p p' && Nat.eqb d d' && memb a las) (items s).
Definition firsts (n : nat) : list nat := nth n first_cert [].
Definition first_of (Xs : list sym) (a : nat) : list nat :=
  match Xs with
  | [] => [a]
  | Tm t :: _ => [t]
  | Nt n :: _ => firsts n
  end.

Definition prods_of (n : nat) : list nat :=
  filter (fun p => match nth_error prod_tab p with Some pr => Nat.eqb (p_nt pr) n | None => false end)
         (seq 0 60).

Definition check_item (s : nat) (it : nat * nat * list nat) : bool :=
  let '(p, d, las) := it in
  match nth_error prod_tab p with
  | None => false
  | Some pr =>
      match nth_error (p_rhs pr) d with
      | None =>
          Nat.eqb d (length (p_rhs pr)) &&
          forallb (fun a => match action_at s a with
                            | Some Accept => Nat.eqb p 0
                            | Some (Reduce q) => Nat.eqb q p && negb (Nat.eqb p 0)
                            | _ => false
                            end) las
      | Some (Tm t) =>
          match action_at s t with
          | Some (Shift s') => forallb (has_item s' p (S d)) las
          | _ => false
          end
      | Some (Nt n) =>
          Z.leb 0 (goto_at s n) &&
          forallb (has_item (Z.to_nat (goto_at s n)) p (S d)) las &&
          forallb (fun a => forallb (fun b => forallb (fun q => has_item s q 0 b) (prods_of n))
                                    (first_of (skipn (S d) (p_rhs pr)) a)) las
      end
  end.

Definition check_firsts : bool :=
  forallb (fun pr => match p_rhs pr with [] => false | _ => true end &&
                     Nat.eqb (p_num pr) (length (p_rhs pr)) &&
                     forallb (fun b => memb b (firsts (p_nt pr))) (first_of (p_rhs pr) 0)) prod_tab.

Lemma cert_start : has_item 0 0 0 EOF = true.
Proof. vm_compute. reflexivity. Qed.
Lemma cert_firsts : check_firsts = true.
Proof. vm_compute. reflexivity. Qed.
Lemma cert_length : Nat.eqb (length items_cert) 128 = true.
Proof. vm_compute. reflexivity. Qed.
Lemma cert_items : forallb (fun s => forallb (check_item s) (items s)) (seq 0 128) = true.
Proof. vm_compute. reflexivity. Qed.

Lemma has_item_inv s p d a : has_item s p d a = true ->
  s < 128 /\ exists las, In (p, d, las) (items s) /\ In a las.
Proof.
  unfold has_item. intros H. apply existsb_exists in H. destruct H as ([[p' d'] las] & Hin & H).
  apply andb_true_iff in H. destruct H as [H Ha]. apply andb_true_iff in H. destruct H as [Hp Hd].
  apply Nat.eqb_eq in Hp, Hd. subst. apply memb_in in Ha.
  split; [|eauto].
  destruct (Nat.lt_ge_cases s 128) as [L|L]; [exact L|].
  unfold items in Hin. rewrite nth_overflow in Hin; [destruct Hin|].
  pose proof cert_length as C. apply Nat.eqb_eq in C. rewrite C. exact L.
Qed.

Lemma item_checked s p d a : has_item s p d a = true ->
  exists las, In a las /\ check_item s (p, d, las) = true.
Proof.
  intros H. apply has_item_inv in H. destruct H as (L & las & Hin & Ha).
  exists las. split; [exact Ha|].
  pose proof cert_items as C. rewrite forallb_forall in C.
  specialize (C s). rewrite forallb_forall in C. apply C; [apply in_seq; lia|exact Hin].
Qed.

Lemma prod_facts p pr : nth_error prod_tab p = Some pr ->
  p_rhs pr <> [] /\ p_num pr = length (p_rhs pr) /\
  (forall a b, In b (first_of (p_rhs pr) a) -> In b (firsts (p_nt pr))) /\
  In p (prods_of (p_nt pr)).
Proof.
  intros H.
  pose proof cert_firsts as C. unfold check_firsts in C. rewrite forallb_forall in C.
  specialize (C _ (nth_error_In _ _ H)). apply andb_true_iff in C. destruct C as [C Cf].
  apply andb_true_iff in C. destruct C as [Cn Cl]. apply Nat.eqb_eq in Cl.
  assert (Hne : p_rhs pr <> []) by (destruct (p_rhs pr); [discriminate|discriminate]).
  split; [exact Hne|]. split; [exact Cl|]. split.
  - intros a b Hb. rewrite forallb_forall in Cf. apply memb_in. apply Cf.
    destruct (p_rhs pr) as [|[t|n] l]; [contradiction Hne; reflexivity|exact Hb|exact Hb].
  - unfold prods_of. apply filter_In. split.
    + apply in_seq. assert (L : p < length prod_tab) by (apply nth_error_Some; congruence).
      change (length prod_tab) with 60 in L. lia.
    + rewrite H. apply Nat.eqb_refl.
Qed.

(** ** First tokens *)
Definition head_type (ts : list token) (a : nat) : Prop :=
  exists t ts', ts = t :: ts' /\ tk_type t = a.

Lemma head_type_app w rest a : head_type w a -> head_type (w ++ rest) a.
Proof. intros (t & ts' & -> & E). exists t, (ts' ++ rest). auto. Qed.

Lemma der_first rnd :
  (forall X w v k k', der rnd X w v k k' -> exists b, head_type w b /\ In b (first_of [X] 0)) /\
  (forall Xs w vs k k', ders rnd Xs w vs k k' -> forall rest a, head_type rest a ->
     exists b, head_type (w ++ rest) b /\ In b (first_of Xs a)).
Proof.
  apply der_ders_ind.
  - intros tok k. exists (tk_type tok). split; [exists tok, []; auto|left; reflexivity].
  - intros p pr w vs k k1 v k2 Hp Hd IH Hr.
    destruct (prod_facts _ _ Hp) as (Hne & _ & Hf & _).
    destruct w as [|t w].
    + exfalso. specialize (IH [Token 100 [] 0 0 0] 100 ltac:(exists (Token 100 [] 0 0 0), []; auto)).
      destruct IH as (b & (t & ts' & E & Eb) & Hb). cbn in E. injection E as <- <-. cbn in Eb. subst b.
      apply (Hf 100) in Hb.
      assert (C : forallb (forallb (fun x => Nat.ltb x 36)) first_cert = true) by (vm_compute; reflexivity).
      unfold firsts in Hb. rewrite forallb_forall in C.
      destruct (Nat.lt_ge_cases (p_nt pr) (length first_cert)) as [L|L].
      * specialize (C _ (nth_In first_cert [] L)). rewrite forallb_forall in C.
        specialize (C _ Hb). discriminate C.
      * rewrite nth_overflow in Hb by exact L. destruct Hb.
    + destruct (IH [Token 100 [] 0 0 0] 100 ltac:(exists (Token 100 [] 0 0 0), []; auto))
        as (b & (t' & ts' & E & Eb) & Hb).
      cbn in E. injection E as <- <-. exists b. split; [exists t, w; auto|].
      cbn. apply (Hf 100). exact Hb.
  - intros k rest a Ha. exists a. split; [exact Ha|left; reflexivity].
  - intros X Xs w v k k1 w' vs k2 Hd (b & Hb & Hin) Hds _ rest a Ha.
    exists b. split; [rewrite <- app_assoc; apply head_type_app; exact Hb|].
    destruct X; exact Hin.
Qed.

(** ** Runs of the driver *)
Inductive runs (rnd : nat -> N) : cfg -> cfg -> Prop :=
| runs_refl c : runs rnd c c
| runs_step c c1 c2 : pstep rnd c = Next c1 -> runs rnd c1 c2 -> runs rnd c c2.

Lemma runs_trans rnd a b c : runs rnd a b -> runs rnd b c -> runs rnd a c.
Proof. induction 1; eauto using runs_step. Qed.

Lemma runs_iter rnd c c' : runs rnd c c' -> forall f, exists f', iter f' rnd c = iter f rnd c'.
Proof.
  induction 1 as [c|c c1 c2 H _ IH]; intros f; [exists f; reflexivity|].
  destruct (IH f) as [f' E]. exists (S f'). cbn. rewrite H. exact E.
Qed.

Lemma nth_error_app_length {A} (pre : list A) X Xs : nth_error (pre ++ X :: Xs) (length pre) = Some X.
Proof. rewrite nth_error_app2, Nat.sub_diag by lia. reflexivity. Qed.

Lemma skipn_S_app {A} (pre : list A) X Xs : skipn (S (length pre)) (pre ++ X :: Xs) = Xs.
Proof. replace (S (length pre)) with (length (pre ++ [X])) by (rewrite app_length; cbn; lia).
  replace (pre ++ X :: Xs) with ((pre ++ [X]) ++ Xs) by (rewrite <- app_assoc; reflexivity).
  rewrite skipn_app, skipn_all, Nat.sub_diag. reflexivity. Qed.

Lemma ltb_128 s : s < 128 -> negb (Nat.ltb s num_states) = false.
Proof. intros H. apply negb_false_iff. apply Nat.ltb_lt. exact H. Qed.

Lemma sim rnd :
  (forall X w v k k', der rnd X w v k k' ->
     forall n, X = Nt n -> forall s v0 st rest a,
       head_type rest a ->
       (forall q, In q (prods_of n) -> has_item s q 0 a = true) -> (0 <= goto_at s n)%Z ->
       runs rnd ((s, v0) :: st, w ++ rest, k)
                ((Z.to_nat (goto_at s n), v) :: (s, v0) :: st, rest, k')) /\
  (forall Xs w vs k k', ders rnd Xs w vs k k' ->
     forall p pr pre s v0 st rest a,
       head_type rest a -> nth_error prod_tab p = Some pr -> p_rhs pr = pre ++ Xs ->
       has_item s p (length pre) a = true ->
       exists st', length st' = length Xs /\ map snd st' = rev vs /\
         runs rnd ((s, v0) :: st, w ++ rest, k) (st' ++ (s, v0) :: st, rest, k') /\
         exists s' v' st'', st' ++ (s, v0) :: st = (s', v') :: st'' /\
            has_item s' p (length (p_rhs pr)) a = true).
Proof.
  apply der_ders_ind.
  - intros tok k n E. discriminate E.
  - intros p pr w vs k k1 v k2 Hp Hds IH Hr n E s v0 st rest a Ha Hit Hg.
    injection E as <-.
    destruct (prod_facts _ _ Hp) as (Hne & Hnum & Hf & Hin).
    destruct (IH p pr [] s v0 st rest a Ha Hp eq_refl (Hit p Hin))
      as (st' & Hl & Hv & Hruns & s' & v' & st'' & Est & Hit').
    eapply runs_trans; [exact Hruns|].
    eapply runs_step; [|apply runs_refl].
    destruct (item_checked _ _ _ _ Hit') as (las & Hla & Hc).
    destruct (has_item_inv _ _ _ _ Hit') as (Ls' & _).
    unfold check_item in Hc. rewrite Hp in Hc.
    rewrite (proj2 (nth_error_None (p_rhs pr) (length (p_rhs pr)))) in Hc by lia.
    apply andb_true_iff in Hc. destruct Hc as [_ Hc]. rewrite forallb_forall in Hc. specialize (Hc _ Hla).
    destruct Ha as (t & ts' & -> & Et).
    unfold pstep. rewrite Est. rewrite (ltb_128 _ Ls'). rewrite Et.
    destruct (action_at s' a) as [[|n'|q]|]; try discriminate.
    + exfalso. apply Nat.eqb_eq in Hc. subst p.
      change (nth_error prod_tab 0) with (Some (Prod 0 1 [Nt 1] (SemProj 0))) in Hp. injection Hp as <-.
      cbn [p_nt] in Hg. (* goto on nonterminal 0 never exists *)
      destruct (goto_at_bounds _ _ Hg) as [L _].
      assert (C : forallb (fun s => Z.ltb (goto_at s 0) 0) (seq 0 128) = true) by (vm_compute; reflexivity).
      rewrite forallb_forall in C. specialize (C s). 
      assert (C' : (goto_at s 0 <? 0)%Z = true) by (apply C; apply in_seq; lia).
      apply Z.ltb_lt in C'. lia.
    + apply andb_true_iff in Hc. destruct Hc as [Hq _]. apply Nat.eqb_eq in Hq. subst q.
      rewrite Hp. rewrite <- Est, Hnum, <- Hl.
      assert (EL : Nat.ltb (length (st' ++ (s, v0) :: st)) (length st') = false).
      { apply Nat.ltb_ge. rewrite app_length. lia. }
      rewrite EL.
      rewrite firstn_app, firstn_all, Nat.sub_diag. cbn [firstn]. rewrite app_nil_r.
      rewrite Hv, rev_involutive, Hr.
      rewrite skipn_app, skipn_all, Nat.sub_diag. cbn [skipn app]. cbv zeta.
      replace (Z.ltb (goto_at s (p_nt pr)) 0) with false by (symmetry; apply Z.ltb_ge; exact Hg).
      reflexivity.
  - intros k p pr pre s v0 st rest a Ha Hp Erhs Hit.
    exists []. repeat split; [apply runs_refl|].
    exists s, v0, st. split; [reflexivity|].
    rewrite Erhs, app_nil_r. exact Hit.
  - intros X Xs w v k k1 w' vs k2 Hd IH Hds IHs p pr pre s v0 st rest a Ha Hp Erhs Hit.
    destruct (item_checked _ _ _ _ Hit) as (las & Hla & Hc).
    destruct (has_item_inv _ _ _ _ Hit) as (Ls & _).
    unfold check_item in Hc. rewrite Hp, Erhs, nth_error_app_length in Hc.
    assert (Hnext : exists s1, has_item s1 p (S (length pre)) a = true /\
              runs rnd ((s, v0) :: st, (w ++ w') ++ rest, k) ((s1, v) :: (s, v0) :: st, w' ++ rest, k1)).
    { destruct X as [t|n].
      - destruct (action_at s t) as [[|s1|q]|] eqn:Ea; try discriminate.
        rewrite forallb_forall in Hc. exists s1. split; [apply Hc; exact Hla|].
        inversion Hd as [tok k'|]; subst. cbn [app].
        eapply runs_step; [|apply runs_refl].
        unfold pstep. rewrite (ltb_128 _ Ls), Ea. reflexivity.
      - apply andb_true_iff in Hc. destruct Hc as [Hc Hcl]. apply andb_true_iff in Hc. destruct Hc as [Hg Hgo].
        apply Z.leb_le in Hg. rewrite forallb_forall in Hgo, Hcl.
        exists (Z.to_nat (goto_at s n)). split; [apply Hgo; exact Hla|].
        rewrite <- app_assoc.
        destruct (proj2 (der_first rnd) _ _ _ _ _ Hds rest a Ha) as (b & Hb & Hbf).
        apply (IH n eq_refl s v0 st (w' ++ rest) b Hb); [|exact Hg].
        intros q Hq. specialize (Hcl _ Hla). rewrite forallb_forall in Hcl.
        rewrite skipn_S_app in Hcl.
        specialize (Hcl _ Hbf). rewrite forallb_forall in Hcl. apply Hcl. exact Hq. }
    destruct Hnext as (s1 & Hit1 & Hr1).
    destruct (IHs p pr (pre ++ [X]) s1 v ((s, v0) :: st) rest a Ha Hp) as (st' & Hl & Hv & Hr2 & Htop).
    { rewrite Erhs, <- app_assoc. reflexivity. }
    { rewrite app_length. cbn. rewrite Nat.add_1_r. exact Hit1. }
    exists (st' ++ [(s1, v)]). rewrite <- (app_assoc st'). cbn [app].
    split; [rewrite app_length; cbn; lia|].
    split; [rewrite map_app, Hv; reflexivity|].
    split; [eapply runs_trans; [exact Hr1|exact Hr2]|exact Htop].
Qed.

Lemma complete_iter rnd w v k0 k t :
  der rnd (Nt 1) w v k0 k -> tk_type t = EOF ->
  exists f, iter f rnd ([(0, VNil)], w ++ [t], k0) = Ok (v, k).
Proof.
  intros Hd Ht.
  assert (Hds : ders rnd [Nt 1] w [v] k0 k).
  { rewrite <- (app_nil_r w). econstructor; [exact Hd|constructor]. }
  pose proof cert_start as H0.
  destruct (proj2 (sim rnd) _ _ _ _ _ Hds 0 (Prod 0 1 [Nt 1] (SemProj 0)) [] 0 VNil [] [t] EOF)
    as (st' & Hl & Hv & Hr & s' & v' & st'' & Est & Hit); auto.
  { exists t, []. auto. }
  destruct (runs_iter _ _ _ Hr 1) as (f & Ef). exists f. rewrite Ef.
  destruct st' as [|[s1 v1] [|? ?]]; cbn in Hl; try discriminate.
  cbn in Hv, Est. injection Hv as ->. injection Est as <- <- <-.
  cbn [iter app]. unfold pstep.
  destruct (has_item_inv _ _ _ _ Hit) as (Ls & _).
  rewrite (ltb_128 _ Ls), Ht.
  destruct (item_checked _ _ _ _ Hit) as (las & Hla & Hc).
  unfold check_item in Hc. cbn [nth_error p_rhs length] in Hc.
  change (nth_error prod_tab 0) with (Some (Prod 0 1 [Nt 1] (SemProj 0))) in Hc.
  cbn [p_rhs nth_error length] in Hc.
  apply andb_true_iff in Hc. destruct Hc as [_ Hc]. rewrite forallb_forall in Hc. specialize (Hc _ Hla).
  destruct (action_at s1 EOF) as [[|n|q]|]; try discriminate; [reflexivity|].
  exfalso. apply andb_true_iff in Hc. destruct Hc as [_ Hc]. discriminate Hc.
Qed.

(** With the fuel of the model (more than 11 per token) the result is the same. *)
Lemma complete_fuel rnd w v k0 k t fuel :
  der rnd (Nt 1) w v k0 k -> tk_type t = EOF -> forallb (fun t => negb (is_final t)) w = true ->
  11 * S (length w) < fuel ->
  iter fuel rnd ([(0, VNil)], w ++ [t], k0) = Ok (v, k).
Proof.
  intros Hd Ht Hw Hf.
  destruct (complete_iter _ _ _ _ _ _ Hd Ht) as (f & Ef).
  assert (Hne : iter fuel rnd ([(0, VNil)], w ++ [t], k0) <> OutOfFuel).
  { assert (Hfl : final_list (w ++ [t])).
    { exists w, t. split; [reflexivity|]. split; [unfold is_final; rewrite Ht; reflexivity|exact Hw]. }
    pose proof (iter_inv _ _ _ _ fuel _ (Inv_init rnd k0 _ Hfl)) as H.
    rewrite app_length in H. cbn [length] in H. specialize (H ltac:(lia)).
    intros E. rewrite E in H. exact H. }
  destruct (Nat.le_ge_cases f fuel) as [L|L].
  - rewrite (iter_mono rnd f fuel _ L); [exact Ef|rewrite Ef; discriminate].
  - rewrite <- Ef. symmetry. apply iter_mono; assumption.
Qed.
