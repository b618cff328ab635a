(** LR driver: exactness of error detection (viable prefixes, expected tokens). *)
From Coq Require Import List Ascii NArith ZArith Bool Lia Arith.
From Verif Require Import Base LexTables ParseTables Ast Lexer Parser ParserDefs LRCert ParserSound ParserComplete.
Import ListNotations.

Local Opaque prod_tab action_tab goto_tab items_cert first_cert all_edges.

(** ** Derivations at the level of token types *)
Inductive tder : sym -> list nat -> Prop :=
| tder_tm t : tder (Tm t) [t]
| tder_nt p pr w : nth_error prod_tab p = Some pr -> tders (p_rhs pr) w -> tder (Nt (p_nt pr)) w
with tders : list sym -> list nat -> Prop :=
| tders_nil : tders [] []
| tders_cons X Xs w w' : tder X w -> tders Xs w' -> tders (X :: Xs) (w ++ w').
Scheme tder_ind2 := Induction for tder Sort Prop
  with tders_ind2 := Induction for tders Sort Prop.
Combined Scheme tder_tders_ind from tder_ind2, tders_ind2.

Lemma tders_app Xs w Ys w' : tders Xs w -> tders Ys w' -> tders (Xs ++ Ys) (w ++ w').
Proof.
  intros H; revert w'. induction H as [|X Xs w w1 Hd Hs IH]; intros w' H'; [exact H'|].
  cbn. rewrite <- app_assoc. constructor; auto.
Qed.

Lemma der_tder rnd :
  (forall X w v k k', der rnd X w v k k' -> tder X (map tk_type w)) /\
  (forall Xs w vs k k', ders rnd Xs w vs k k' -> tders Xs (map tk_type w)).
Proof.
  apply der_ders_ind.
  - intros. cbn. constructor.
  - intros. econstructor; eauto.
  - constructor.
  - intros. rewrite map_app. constructor; auto.
Qed.

Lemma tder_der rnd :
  (forall X ws, tder X ws -> forall w k, map tk_type w = ws -> exists v k', der rnd X w v k k') /\
  (forall Xs ws, tders Xs ws -> forall w k, map tk_type w = ws -> exists vs k', ders rnd Xs w vs k k').
Proof.
  apply tder_tders_ind.
  - intros t w k E. destruct w as [|tok [|? ?]]; try discriminate. cbn in E. injection E as <-.
    do 2 eexists. constructor.
  - intros p pr ws Hp _ IH w k E. destruct (IH w k E) as (vs & k1 & Hd).
    destruct (run_sem_typed rnd p pr vs k1 Hp) as (v & k2 & Er & _).
    { eapply (proj2 (der_typed rnd)). exact Hd. }
    exists v, k2. econstructor; eauto.
  - intros w k E. destruct w; [|discriminate]. exists [], k. constructor.
  - intros X Xs ws ws' _ IH _ IHs w k E.
    apply map_eq_app in E. destruct E as (w1 & w2 & -> & E1 & E2).
    destruct (IH w1 k E1) as (v & k1 & H1). destruct (IHs w2 k1 E2) as (vs & k2 & H2).
    exists (v :: vs), k2. econstructor; eauto.
Qed.

(** Token-type strings ending in EOF accepted by the grammar. *)
Definition fullsent (x : list nat) : Prop := exists y, x = y ++ [EOF] /\ tder (Nt 1) y.

(** ** Every nonterminal is productive; FIRST sets are exact *)
Fixpoint prod_rounds (n : nat) : list nat :=
  match n with
  | O => []
  | S n' => let P := prod_rounds n' in
            map p_nt (filter (fun pr => forallb (fun X => match X with Tm _ => true | Nt m => memb m P end)
                                                (p_rhs pr)) prod_tab)
  end.

Lemma prod_rounds_S n : prod_rounds (S n) =
  map p_nt (filter (fun pr => forallb (fun X => match X with Tm _ => true | Nt m => memb m (prod_rounds n) end)
                                      (p_rhs pr)) prod_tab).
Proof. reflexivity. Qed.

Lemma prod_rounds_sound n : forall m, In m (prod_rounds n) -> exists w, tder (Nt m) w.
Proof.
  induction n as [|n IH]; intros m H; [destruct H|].
  rewrite prod_rounds_S in H. apply in_map_iff in H. destruct H as (pr & <- & H).
  apply filter_In in H. destruct H as [Hin Hf].
  apply In_nth_error in Hin. destruct Hin as [p Hp].
  assert (Hs : forall Xs, forallb (fun X => match X with Tm _ => true | Nt m => memb m (prod_rounds n) end) Xs = true ->
               exists w, tders Xs w).
  { clear - IH. induction Xs as [|X Xs IHX]; intros H; [exists []; constructor|].
    cbn in H. apply andb_true_iff in H. destruct H as [H1 H2].
    destruct (IHX H2) as (w' & Hw').
    destruct X as [t|m].
    - exists ([t] ++ w'). constructor; [constructor|exact Hw'].
    - apply memb_in in H1. destruct (IH _ H1) as (w & Hw). exists (w ++ w'). constructor; assumption. }
  destruct (Hs _ Hf) as (w & Hw). exists w. econstructor; eauto.
Qed.

Definition all_nts : list nat := seq 0 17.
Lemma all_productive : forallb (fun m => memb m (prod_rounds 12)) all_nts = true.
Proof. vm_compute. reflexivity. Qed.

Lemma rhs_nts p pr X : nth_error prod_tab p = Some pr -> In X (p_rhs pr) ->
  match X with Tm _ => True | Nt m => In m all_nts end.
Proof.
  intros H HX.
  assert (C : forallb (fun pr => forallb (fun X => match X with Tm _ => true | Nt m => memb m all_nts end) (p_rhs pr)) prod_tab = true)
    by (vm_compute; reflexivity).
  rewrite forallb_forall in C. specialize (C _ (nth_error_In _ _ H)).
  rewrite forallb_forall in C. specialize (C _ HX). destruct X; [exact I|apply memb_in; exact C].
Qed.

Lemma rhs_productive p pr : nth_error prod_tab p = Some pr ->
  forall Xs, incl Xs (p_rhs pr) -> exists w, tders Xs w.
Proof.
  intros Hp. induction Xs as [|X Xs IH]; intros Hi; [exists []; constructor|].
  destruct IH as (w' & Hw'). { intros x Hx. apply Hi. right. exact Hx. }
  pose proof (rhs_nts _ _ X Hp (Hi _ (or_introl eq_refl))) as HX.
  destruct X as [t|m].
  - exists ([t] ++ w'). constructor; [constructor|exact Hw'].
  - pose proof all_productive as C. rewrite forallb_forall in C. specialize (C _ HX).
    apply memb_in in C. destruct (prod_rounds_sound _ _ C) as (w & Hw).
    exists (w ++ w'). constructor; assumption.
Qed.

Fixpoint first_rounds (n : nat) (m : nat) : list nat :=
  match n with
  | O => []
  | S n' => flat_map (fun pr => if Nat.eqb (p_nt pr) m then
                                  match p_rhs pr with
                                  | Tm t :: _ => [t]
                                  | Nt m' :: _ => if Nat.eqb m m' then [] else first_rounds n' m'
                                  | [] => []
                                  end
                                else []) prod_tab
  end.

Lemma first_rounds_S n m : first_rounds (S n) m =
  flat_map (fun pr => if Nat.eqb (p_nt pr) m then
                                  match p_rhs pr with
                                  | Tm t :: _ => [t]
                                  | Nt m' :: _ => if Nat.eqb m m' then [] else first_rounds n m'
                                  | [] => []
                                  end
                                else []) prod_tab.
Proof. reflexivity. Qed.

Lemma first_rounds_sound n : forall m b, In b (first_rounds n m) -> exists w, tder (Nt m) (b :: w).
Proof.
  induction n as [|n IH]; intros m b H; [destruct H|].
  rewrite first_rounds_S in H. apply in_flat_map in H. destruct H as (pr & Hin & H).
  destruct (Nat.eqb_spec (p_nt pr) m) as [E|]; [|destruct H].
  apply In_nth_error in Hin. destruct Hin as [p Hp].
  destruct (p_rhs pr) as [|[t|m'] Xs] eqn:Er; [destruct H| |].
  - destruct H as [->|[]].
    destruct (rhs_productive _ _ Hp Xs) as (w & Hw). { rewrite Er. intros x Hx. right. exact Hx. }
    exists w. rewrite <- E. econstructor; [exact Hp|]. rewrite Er.
    change (b :: w) with ([b] ++ w). constructor; [constructor|exact Hw].
  - destruct (Nat.eqb m m'); [destruct H|].
    destruct (IH _ _ H) as (w1 & Hw1).
    destruct (rhs_productive _ _ Hp Xs) as (w & Hw). { rewrite Er. intros x Hx. right. exact Hx. }
    exists (w1 ++ w). rewrite <- E. econstructor; [exact Hp|]. rewrite Er.
    change (b :: w1 ++ w) with ((b :: w1) ++ w). constructor; assumption.
Qed.

Lemma firsts_ok : forallb (fun m => let F := first_rounds 8 m in forallb (fun b => memb b F) (firsts m)) all_nts = true.
Proof. vm_compute. reflexivity. Qed.

Lemma firsts_exact m b : In m all_nts -> In b (firsts m) -> exists w, tder (Nt m) (b :: w).
Proof.
  intros Hm Hb. pose proof firsts_ok as C. rewrite forallb_forall in C. specialize (C _ Hm). cbv zeta in C.
  rewrite forallb_forall in C. specialize (C _ Hb). apply memb_in in C.
  eapply first_rounds_sound. exact C.
Qed.

(** A string starting with [b] for every [b] in FIRST(Xs a). *)
Lemma first_of_exact p pr Xs a b : nth_error prod_tab p = Some pr -> incl Xs (p_rhs pr) ->
  In b (first_of Xs a) -> exists w z, tders Xs w /\ w ++ [a] = b :: z.
Proof.
  intros Hp Hi Hb. destruct Xs as [|X Xs].
  - destruct Hb as [->|[]]. exists [], []. split; [constructor|reflexivity].
  - destruct (rhs_productive _ _ Hp Xs) as (w & Hw). { intros x Hx. apply Hi. right. exact Hx. }
    pose proof (rhs_nts _ _ X Hp (Hi _ (or_introl eq_refl))) as HX.
    destruct X as [t|m].
    + destruct Hb as [->|[]]. exists ([b] ++ w), (w ++ [a]). split; [|reflexivity].
      constructor; [constructor|exact Hw].
    + destruct (firsts_exact _ _ HX Hb) as (w1 & Hw1).
      exists ((b :: w1) ++ w), ((w1 ++ w) ++ [a]). split; [constructor; assumption|reflexivity].
Qed.

(** ** Validity of the items of the certificate *)
Inductive tstk : list nat -> list sym -> list nat -> Prop :=
| tstk_nil : tstk [0] [] []
| tstk_push s st Xs w X s' u :
    tstk (s :: st) Xs w -> edge s X s' -> tder X u -> tstk (s' :: s :: st) (X :: Xs) (w ++ u).

Lemma stk_tstk rnd k0 st Xs w k : stk rnd k0 st Xs w k -> tstk (map fst st) Xs (map tk_type w).
Proof.
  induction 1 as [|s v0 st Xs w k X s' u v k' H IH He Hd]; [constructor|].
  rewrite map_app. cbn. cbn in IH. econstructor; eauto. eapply (proj1 (der_tder rnd)); eauto.
Qed.

Definition valid_item (Xs : list sym) (w : list nat) (p d a : nat) : Prop :=
  exists pr Xs0 w0 wa z,
    nth_error prod_tab p = Some pr /\ d <= length (p_rhs pr) /\
    Xs = rev (firstn d (p_rhs pr)) ++ Xs0 /\ w = w0 ++ wa /\ tders (firstn d (p_rhs pr)) wa /\
    forall u, tders (p_rhs pr) u -> fullsent (w0 ++ u ++ a :: z).

(** Groups (production, dot, lookaheads). *)
Definition group : Type := nat * nat * list nat.
Definition gvalid (Xs : list sym) (w : list nat) (g : group) : Prop :=
  let '(p, d, las) := g in forall a, In a las -> valid_item Xs w p d a.

Definition union (l1 l2 : list nat) : list nat :=
  fold_left (fun acc x => if memb x acc then acc else x :: acc) l1 l2.
Lemma union_in x l1 : forall l2, In x (union l1 l2) <-> In x l1 \/ In x l2.
Proof.
  induction l1 as [|y l1 IH]; intros l2; cbn; [tauto|].
  rewrite IH. destruct (memb y l2) eqn:E.
  - apply memb_in in E. split; [tauto|]. intros [[->|H]|H]; auto.
  - cbn. tauto.
Qed.

(** Lookaheads of the productions of [n] (with dot 0) generated by the groups [L]. *)
Definition gen_one (n : nat) (L : list group) : list nat :=
  fold_left (fun acc (g : group) =>
    let '(p, d, las) := g in
    match nth_error prod_tab p with
    | Some pr =>
        match nth_error (p_rhs pr) d with
        | Some (Nt m) =>
            if Nat.eqb m n then
              match las, skipn (S d) (p_rhs pr) with
              | [], _ => acc
              | _, [] => union las acc
              | a0 :: _, Xs => union (first_of Xs a0) acc
              end
            else acc
        | _ => acc
        end
    | None => acc
    end) L [].

Definition nt_of (q : nat) : nat := match nth_error prod_tab q with Some pr => p_nt pr | None => 99 end.

Definition kernel (s : nat) : list group :=
  filter (fun g : group => negb (Nat.eqb (snd (fst g)) 0)) (items s) ++
  (if Nat.eqb s 0 then [(0, 0, [EOF])] else []).
Definition closure_prods (s : nat) : list nat :=
  map (fun g : group => fst (fst g)) (filter (fun g : group => Nat.eqb (snd (fst g)) 0) (items s)).

Fixpoint closure_rounds (n : nat) (K : list group) (qs : list nat) (L : list group) : list group :=
  match n with
  | O => L
  | S n' => closure_rounds n' K qs (K ++ map (fun q => (q, 0, gen_one (nt_of q) L)) qs)
  end.

Definition check_kernel_edge (e : nat * sym * nat) : bool :=
  let '(s, X, s') := e in
  forallb (fun g : group =>
    let '(p, d, las) := g in
    match d with
    | O => true
    | S d' => match nth_error prod_tab p with
              | Some pr => match nth_error (p_rhs pr) d' with
                           | Some Y => sym_beq X Y && forallb (has_item s p d') las
                           | None => false
                           end
              | None => false
              end
    end) (items s').

Definition group_in (L : list group) (g : group) : bool :=
  let '(p, d, las) := g in
  forallb (fun a => existsb (fun g' : group =>
     let '(p', d', las') := g' in Nat.eqb p p' && Nat.eqb d d' && memb a las') L) las.

Definition check_closure (s : nat) : bool :=
  let K := kernel s in
  let L := closure_rounds 7 K (closure_prods s) K in
  forallb (group_in L) (items s).

Lemma kernel_ok : forallb check_kernel_edge all_edges = true.
Proof. vm_compute. reflexivity. Qed.
Lemma kernel0_ok : forallb (fun g : group => Nat.eqb (snd (fst g)) 0) (items 0) = true.
Proof. vm_compute. reflexivity. Qed.
Lemma closure_ok : forallb check_closure (seq 0 128) = true.
Proof. vm_compute. reflexivity. Qed.

Lemma valid_kernel Xs w p d X u a s :
  valid_item Xs w p d a -> tder X u ->
  (exists pr, nth_error prod_tab p = Some pr /\ nth_error (p_rhs pr) d = Some X) ->
  s = S d -> valid_item (X :: Xs) (w ++ u) p s a.
Proof.
  intros (pr & Xs0 & w0 & wa & z & Hp & Hd & EX & Ew & Hwa & Hz) Hu (pr' & Hp' & HX) ->.
  rewrite Hp in Hp'. injection Hp' as <-.
  assert (Ef : firstn (S d) (p_rhs pr) = firstn d (p_rhs pr) ++ [X]).
  { clear - HX. revert d HX. induction (p_rhs pr) as [|Y l IH]; intros d HX; [destruct d; discriminate|].
    destruct d; cbn in *; [injection HX as ->; reflexivity|]. f_equal. apply IH. exact HX. }
  exists pr, Xs0, w0, (wa ++ u), z. rewrite Ef, rev_app_distr. cbn [rev app].
  repeat split; auto.
  - assert (L : d < length (p_rhs pr)) by (apply nth_error_Some; congruence). lia.
  - rewrite EX. reflexivity.
  - rewrite Ew, app_assoc. reflexivity.
  - apply tders_app; [exact Hwa|]. rewrite <- (app_nil_r u). constructor; [exact Hu|constructor].
Qed.

Lemma nth_split_sym {A} (l : list A) d X : nth_error l d = Some X -> l = firstn d l ++ X :: skipn (S d) l.
Proof.
  revert d. induction l as [|Y l IH]; intros d H; [destruct d; discriminate|].
  destruct d; cbn in *; [injection H as ->; reflexivity|]. f_equal. apply IH. exact H.
Qed.

Lemma skipn_nth_cons {A} (l : list A) d X : nth_error l d = Some X -> skipn d l = X :: skipn (S d) l.
Proof.
  revert d. induction l as [|Y l IH]; intros d H; [destruct d; discriminate|].
  destruct d; [injection H as ->; reflexivity|]. apply IH. exact H.
Qed.

Lemma valid_closure Xs w p d a pr n q prq b :
  valid_item Xs w p d a -> nth_error prod_tab p = Some pr -> nth_error (p_rhs pr) d = Some (Nt n) ->
  nth_error prod_tab q = Some prq -> p_nt prq = n ->
  In b (first_of (skipn (S d) (p_rhs pr)) a) -> valid_item Xs w q 0 b.
Proof.
  intros (pr' & Xs0 & w0 & wa & z & Hp' & Hd & EX & Ew & Hwa & Hz) Hp HX Hq En Hb.
  rewrite Hp in Hp'. injection Hp' as <-.
  pose proof (nth_split_sym _ _ _ HX) as Esplit.
  destruct (first_of_exact p pr (skipn (S d) (p_rhs pr)) a b Hp) as (wr & z' & Hwr & Ez); auto.
  { intros x Hx. rewrite Esplit. apply in_or_app. right. right. exact Hx. }
  exists prq, Xs, w, [], (z' ++ z). cbn [firstn rev app].
  repeat split; auto; [lia|symmetry; apply app_nil_r|constructor|].
  intros u Hu.
  assert (Hfull : fullsent (w0 ++ (wa ++ u ++ wr) ++ a :: z)).
  { apply Hz. rewrite Esplit. apply tders_app; [exact Hwa|]. constructor; [|exact Hwr].
    rewrite <- En. econstructor; eauto. }
  replace (w ++ u ++ b :: z' ++ z) with (w0 ++ (wa ++ u ++ wr) ++ a :: z); [exact Hfull|].
  rewrite Ew. change (b :: z' ++ z) with ((b :: z') ++ z). rewrite <- Ez.
  rewrite <- !app_assoc. reflexivity.
Qed.

Lemma gen_one_in b n L : In b (gen_one n L) ->
  exists p d las pr a, In (p, d, las) L /\ nth_error prod_tab p = Some pr /\
    nth_error (p_rhs pr) d = Some (Nt n) /\
    In b (first_of (skipn (S d) (p_rhs pr)) a) /\ In a las.
Proof.
  unfold gen_one.
  assert (G : forall L acc, In b (fold_left (fun acc (g : group) =>
    let '(p, d, las) := g in
    match nth_error prod_tab p with
    | Some pr =>
        match nth_error (p_rhs pr) d with
        | Some (Nt m) =>
            if Nat.eqb m n then
              match las, skipn (S d) (p_rhs pr) with
              | [], _ => acc
              | _, [] => union las acc
              | a0 :: _, Xs => union (first_of Xs a0) acc
              end
            else acc
        | _ => acc
        end
    | None => acc
    end) L acc) -> In b acc \/
    exists p d las pr a, In (p, d, las) L /\ nth_error prod_tab p = Some pr /\
    nth_error (p_rhs pr) d = Some (Nt n) /\
    In b (first_of (skipn (S d) (p_rhs pr)) a) /\ In a las).
  { induction L0 as [|[[p d] las] L0 IH]; intros acc H; [left; exact H|].
    cbn [fold_left] in H. apply IH in H.
    destruct H as [H|(p' & d' & las' & pr' & a & Hin & Hr)];
      [|right; exists p', d', las', pr', a; split; [right; exact Hin|exact Hr]].
    destruct (nth_error prod_tab p) as [pr|] eqn:Ep; [|left; exact H].
    destruct (nth_error (p_rhs pr) d) as [[t|m]|] eqn:Ed; [left; exact H| |left; exact H].
    destruct (Nat.eqb_spec m n) as [->|]; [|left; exact H].
    destruct las as [|a0 las]; [left; exact H|].
    destruct (skipn (S d) (p_rhs pr)) as [|Y Ys] eqn:Es.
    - apply union_in in H. destruct H as [H|H]; [|left; exact H].
      right. exists p, d, (a0 :: las), pr, b. rewrite Es.
      split; [left; reflexivity|]. split; [exact Ep|]. split; [exact Ed|]. split; [left; reflexivity|exact H].
    - apply union_in in H. destruct H as [H|H]; [|left; exact H].
      right. exists p, d, (a0 :: las), pr, a0. rewrite Es.
      split; [left; reflexivity|]. split; [exact Ep|]. split; [exact Ed|]. split; [exact H|left; reflexivity]. }
  intros H. apply G in H. destruct H as [[]|H]. exact H.
Qed.

Lemma closure_rounds_valid Xs w K qs : Forall (gvalid Xs w) K ->
  Forall (fun q => nth_error prod_tab q <> None) qs ->
  forall n L, Forall (gvalid Xs w) L -> Forall (gvalid Xs w) (closure_rounds n K qs L).
Proof.
  intros HK Hqs. induction n as [|n IH]; intros L HL; [exact HL|].
  cbn [closure_rounds]. apply IH. apply Forall_app. split; [exact HK|].
  apply Forall_forall. intros g Hg. apply in_map_iff in Hg. destruct Hg as (q & <- & Hq).
  rewrite Forall_forall in Hqs. specialize (Hqs q Hq).
  destruct (nth_error prod_tab q) as [prq|] eqn:Eq; [|contradiction Hqs; reflexivity].
  intros b Hb. unfold nt_of in Hb. rewrite Eq in Hb.
  apply gen_one_in in Hb. destruct Hb as (p & d & las & pr & a & Hin & Hp & Hd & Hb & Ha).
  rewrite Forall_forall in HL. specialize (HL _ Hin a Ha).
  eapply valid_closure; eauto.
Qed.

Lemma items_prod p d las s : In (p, d, las) (items s) -> nth_error prod_tab p <> None.
Proof.
  intros H.
  assert (C : forallb (forallb (fun g : group => match nth_error prod_tab (fst (fst g)) with None => false | _ => true end)) items_cert = true)
    by (vm_compute; reflexivity).
  unfold items in H. destruct (Nat.lt_ge_cases s (length items_cert)) as [L|L].
  - rewrite forallb_forall in C. specialize (C _ (nth_In items_cert [] L)).
    rewrite forallb_forall in C. specialize (C _ H). cbn [fst] in C.
    destruct (nth_error prod_tab p); [discriminate|discriminate].
  - rewrite nth_overflow in H by exact L. destruct H.
Qed.

Lemma state_closure s Xs w : s < 128 -> Forall (gvalid Xs w) (kernel s) ->
  forall p d a, has_item s p d a = true -> valid_item Xs w p d a.
Proof.
  intros Ls HK p d a Hi.
  apply has_item_inv in Hi. destruct Hi as (_ & las & Hin & Ha).
  pose proof closure_ok as C. rewrite forallb_forall in C. specialize (C s).
  assert (C' : check_closure s = true) by (apply C; apply in_seq; lia). clear C.
  unfold check_closure in C'. cbv zeta in C'. rewrite forallb_forall in C'. specialize (C' _ Hin).
  unfold group_in in C'. rewrite forallb_forall in C'. specialize (C' _ Ha).
  apply existsb_exists in C'. destruct C' as ([[p' d'] las'] & Hin' & E).
  apply andb_true_iff in E. destruct E as [E Ea]. apply andb_true_iff in E. destruct E as [Ep Ed].
  apply Nat.eqb_eq in Ep, Ed. subst p' d'. apply memb_in in Ea.
  assert (HV : Forall (gvalid Xs w) (closure_rounds 7 (kernel s) (closure_prods s) (kernel s))).
  { apply closure_rounds_valid; auto.
    apply Forall_forall. intros q Hq. unfold closure_prods in Hq. apply in_map_iff in Hq.
    destruct Hq as ([[q' d'] l'] & <- & Hq). apply filter_In in Hq. destruct Hq as [Hq _].
    eapply items_prod. exact Hq. }
  rewrite Forall_forall in HV. exact (HV _ Hin' a Ea).
Qed.

Lemma kernel_cases g s : In g (kernel s) ->
  (In g (items s) /\ snd (fst g) <> 0) \/ (s = 0 /\ g = (0, 0, [EOF])).
Proof.
  unfold kernel. intros H. apply in_app_or in H. destruct H as [H|H].
  - left. apply filter_In in H. destruct H as [H1 H2]. split; [exact H1|].
    apply negb_true_iff, Nat.eqb_neq in H2. exact H2.
  - right. destruct (Nat.eqb s 0) eqn:E; [|destruct H]. apply Nat.eqb_eq in E. destruct H as [<-|[]]. auto.
Qed.

Lemma prod0 : nth_error prod_tab 0 = Some (Prod 0 1 [Nt 1] (SemProj 0)).
Proof. vm_compute. reflexivity. Qed.

Lemma items_valid st Xs w : tstk st Xs w ->
  forall s st', st = s :: st' -> s < 128 /\ forall p d a, has_item s p d a = true -> valid_item Xs w p d a.
Proof.
  induction 1 as [|s0 st Xs w X s' u H IH He Hu]; intros s st' E.
  - injection E as <- <-. split; [lia|]. apply state_closure; [lia|].
    apply Forall_forall. intros g Hg. apply kernel_cases in Hg. destruct Hg as [[Hin Hd]|[_ ->]].
    + exfalso. pose proof kernel0_ok as C. rewrite forallb_forall in C. specialize (C _ Hin).
      apply Nat.eqb_eq in C. contradiction.
    + intros a [<-|[]]. exists (Prod 0 1 [Nt 1] (SemProj 0)), [], [], [], [].
      split; [exact prod0|]. split; [cbn; lia|]. split; [reflexivity|]. split; [reflexivity|].
      split; [constructor|]. intros v Hv. cbn [p_rhs] in Hv.
      exists v. split; [reflexivity|].
      inversion Hv as [|X0 Xs0 w1 w2 H1 H2]; subst. inversion H2; subst. rewrite app_nil_r. exact H1.
  - injection E as <- <-. destruct (IH _ _ eq_refl) as [L0 IHv].
    pose proof (edge_bound _ _ _ He) as Ls. split; [exact Ls|].
    apply state_closure; [exact Ls|].
    apply Forall_forall. intros [[p d] las] Hg. apply kernel_cases in Hg.
    destruct Hg as [[Hin Hd]|[-> _]]; [|exfalso; exact (edge_not0 _ _ He)].
    cbn [fst snd] in Hd.
    pose proof kernel_ok as C. rewrite forallb_forall in C. specialize (C _ (edge_all _ _ _ He)).
    unfold check_kernel_edge in C. rewrite forallb_forall in C. specialize (C _ Hin). cbv beta iota in C.
    destruct d as [|d]; [contradiction Hd; reflexivity|].
    destruct (nth_error prod_tab p) as [pr|] eqn:Ep; [|discriminate].
    destruct (nth_error (p_rhs pr) d) as [Y|] eqn:Ed; [|discriminate].
    apply andb_true_iff in C. destruct C as [CX Cl]. apply internal_sym_dec_bl in CX. subst Y.
    rewrite forallb_forall in Cl.
    intros a Ha. eapply valid_kernel; eauto.
Qed.

(** A valid item tells how the input can go on. *)
Lemma valid_continue Xs w p d a : valid_item Xs w p d a ->
  exists pr, nth_error prod_tab p = Some pr /\
  forall wb, tders (skipn d (p_rhs pr)) wb -> exists z, fullsent (w ++ wb ++ a :: z).
Proof.
  intros (pr & Xs0 & w0 & wa & z & Hp & Hd & EX & Ew & Hwa & Hz).
  exists pr. split; [exact Hp|]. intros wb Hb. exists z.
  specialize (Hz (wa ++ wb)). rewrite Ew. rewrite <- !app_assoc in *. apply Hz.
  rewrite <- (firstn_skipn d (p_rhs pr)). apply tders_app; assumption.
Qed.

Definition check_action_items (s t : nat) : bool :=
  match action_at s t with
  | None => true
  | Some Accept => has_item s 0 1 t
  | Some (Reduce p) => match nth_error prod_tab p with
                       | Some pr => has_item s p (length (p_rhs pr)) t
                       | None => false
                       end
  | Some (Shift _) =>
      existsb (fun g : group =>
        let '(p, d, las) := g in
        match nth_error prod_tab p, las with
        | Some pr, a :: _ => match nth_error (p_rhs pr) d with
                             | Some (Tm t') => Nat.eqb t t' && has_item s p d a
                             | _ => false
                             end
        | _, _ => false
        end) (items s)
  end.
Lemma action_items_ok : forallb (fun s => forallb (check_action_items s) (seq 0 36)) (seq 0 128) = true.
Proof. vm_compute. reflexivity. Qed.

Theorem action_viable st Xs w s st' t :
  tstk st Xs w -> st = s :: st' -> action_at s t <> None -> exists z, fullsent (w ++ t :: z).
Proof.
  intros Hst -> Ha. destruct (action_at s t) as [act|] eqn:Ea; [|contradiction Ha; reflexivity].
  destruct (action_at_bounds _ _ _ Ea) as [Ls Lt].
  destruct (items_valid _ _ _ Hst _ _ eq_refl) as [_ Hv].
  pose proof action_items_ok as C. rewrite forallb_forall in C. specialize (C s).
  assert (C' : forallb (check_action_items s) (seq 0 36) = true) by (apply C; apply in_seq; lia). clear C.
  rewrite forallb_forall in C'. specialize (C' t).
  assert (C : check_action_items s t = true) by (apply C'; apply in_seq; lia). clear C'.
  unfold check_action_items in C. rewrite Ea in C. destruct act as [|n|p].
  - apply Hv in C. apply valid_continue in C. destruct C as (pr & Hp & C).
    rewrite prod0 in Hp. injection Hp as <-. cbn [p_rhs skipn] in C.
    destruct (C [] tders_nil) as (z & Hz). exists z. exact Hz.
  - apply existsb_exists in C. destruct C as ([[p d] las] & Hin & C).
    destruct (nth_error prod_tab p) as [pr|] eqn:Ep; [|discriminate].
    destruct las as [|a las]; [discriminate|].
    destruct (nth_error (p_rhs pr) d) as [[t'|m]|] eqn:Ed; try discriminate.
    apply andb_true_iff in C. destruct C as [Et C]. apply Nat.eqb_eq in Et. subst t'.
    apply Hv in C. apply valid_continue in C. destruct C as (pr' & Hp & C).
    rewrite Ep in Hp. injection Hp as <-.
    pose proof (nth_split_sym _ _ _ Ed) as Es.
    destruct (rhs_productive _ _ Ep (skipn (S d) (p_rhs pr))) as (wr & Hwr).
    { intros x Hx. rewrite Es. apply in_or_app. right. right. exact Hx. }
    destruct (C ([t] ++ wr)) as (z & Hz).
    { rewrite (skipn_nth_cons _ _ _ Ed). constructor; [constructor|exact Hwr]. }
    cbn [app] in Hz. eexists. exact Hz.
  - destruct (nth_error prod_tab p) as [pr|] eqn:Ep; [|discriminate].
    apply Hv in C. apply valid_continue in C. destruct C as (pr' & Hp & C).
    rewrite Ep in Hp. injection Hp as <-. rewrite skipn_all in C.
    destruct (C [] tders_nil) as (z & Hz). exists z. exact Hz.
Qed.

(** Every reachable stack is a viable prefix. *)
Lemma states_nonempty : forallb (fun s => match items s with (_, _, _ :: _) :: _ => true | _ => false end) (seq 0 128) = true.
Proof. vm_compute. reflexivity. Qed.

Theorem stack_viable st Xs w s st' : tstk st Xs w -> st = s :: st' -> exists z, fullsent (w ++ z).
Proof.
  intros Hst ->. destruct (items_valid _ _ _ Hst _ _ eq_refl) as [Ls Hv].
  pose proof states_nonempty as C. rewrite forallb_forall in C. specialize (C s).
  destruct (items s) as [|[[p d] [|a las]] l] eqn:Ei;
    try (discriminate C; apply in_seq; lia).
  assert (Hi : has_item s p d a = true).
  { unfold has_item. rewrite Ei. cbn [existsb]. rewrite !Nat.eqb_refl. cbn [memb existsb andb].
    unfold memb. cbn [existsb]. rewrite Nat.eqb_refl. reflexivity. }
  apply Hv in Hi. apply valid_continue in Hi. destruct Hi as (pr & Hp & Hi).
  destruct (rhs_productive _ _ Hp (skipn d (p_rhs pr))) as (wr & Hwr).
  { intros x Hx. rewrite <- (firstn_skipn d (p_rhs pr)). apply in_or_app. right. exact Hx. }
  destruct (Hi _ Hwr) as (z & Hz). eexists. exact Hz.
Qed.
