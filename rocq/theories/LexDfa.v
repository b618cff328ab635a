(** The DFA of transitiontable.go/acttab.go recognises exactly the lexemes of LexSpec.v.
    Method: Brzozowski derivatives; a finite relation between DFA states and (vectors of) regular
    expressions is computed and checked to be a bisimulation. *)
From Coq Require Import List Ascii NArith ZArith Bool Lia Arith.
From Verif Require Import Base LexTables Lexer LexSpec.
Import ListNotations.

(** ** Regular expressions: equality, normalising constructors, derivatives *)
Fixpoint re_eqb (a b : re) : bool :=
  match a, b with
  | Emp, Emp => true
  | Eps, Eps => true
  | Rng l h, Rng l' h' => N.eqb l l' && N.eqb h h'
  | Alt x y, Alt x' y' => re_eqb x x' && re_eqb y y'
  | Cat x y, Cat x' y' => re_eqb x x' && re_eqb y y'
  | Star x, Star x' => re_eqb x x'
  | _, _ => false
  end.

Lemma re_eqb_eq a : forall b, re_eqb a b = true -> a = b.
Proof.
  induction a; destruct b; cbn; try discriminate; intros H; auto;
    try (apply andb_true_iff in H; destruct H as [H1 H2]).
  - apply N.eqb_eq in H1, H2. congruence.
  - f_equal; auto.
  - f_equal; auto.
  - f_equal; auto.
Qed.

Fixpoint alt_mem (a b : re) : bool :=
  re_eqb a b || match b with Alt x y => re_eqb a x || alt_mem a y | _ => false end.

Fixpoint alt (a b : re) : re :=
  match a with
  | Emp => b
  | Alt x y => alt x (alt y b)
  | _ => match b with
         | Emp => a
         | _ => if alt_mem a b then b else Alt a b
         end
  end.

Fixpoint cat (a b : re) : re :=
  match a with
  | Emp => Emp
  | Eps => b
  | Cat x y => match b with Emp => Emp | _ => Cat x (cat y b) end
  | _ => match b with Emp => Emp | Eps => a | _ => Cat a b end
  end.

Fixpoint nullable (a : re) : bool :=
  match a with
  | Emp => false | Eps => true | Rng _ _ => false
  | Alt x y => nullable x || nullable y
  | Cat x y => nullable x && nullable y
  | Star _ => true
  end.

Fixpoint deriv (c : N) (a : re) : re :=
  match a with
  | Emp => Emp | Eps => Emp
  | Rng lo hi => if in_range lo hi c then Eps else Emp
  | Alt x y => alt (deriv c x) (deriv c y)
  | Cat x y => if nullable x then alt (cat (deriv c x) y) (deriv c y) else cat (deriv c x) y
  | Star x => cat (deriv c x) (Star x)
  end.

Lemma alt_mem_sound a b w : alt_mem a b = true -> matches a w -> matches b w.
Proof.
  induction b; cbn; intros H Hm; apply orb_true_iff in H; destruct H as [H|H];
    try discriminate; try (apply re_eqb_eq in H; subst; exact Hm).
  apply orb_true_iff in H. destruct H as [H|H].
  - apply re_eqb_eq in H. subst. constructor. exact Hm.
  - apply m_alt_r. auto.
Qed.

Lemma matches_alt a b w : matches (Alt a b) w <-> matches a w \/ matches b w.
Proof.
  split; [inversion 1; subst; auto|]. intros [H|H]; [apply m_alt_l|apply m_alt_r]; exact H.
Qed.
Lemma matches_emp w : ~ matches Emp w.
Proof. inversion 1. Qed.
Lemma matches_eps w : matches Eps w <-> w = [].
Proof. split; [inversion 1; auto|intros ->; constructor]. Qed.
Lemma matches_cat a b w : matches (Cat a b) w <-> exists w1 w2, w = w1 ++ w2 /\ matches a w1 /\ matches b w2.
Proof.
  split; [inversion 1; subst; eauto|]. intros (w1 & w2 & -> & H1 & H2). constructor; assumption.
Qed.
Lemma matches_star a w : matches (Star a) w <-> w = [] \/ exists w1 w2, w = w1 ++ w2 /\ matches a w1 /\ matches (Star a) w2.
Proof.
  split; [inversion 1; subst; eauto 6|]. intros [->|(w1 & w2 & -> & H1 & H2)]; constructor; assumption.
Qed.

Lemma alt_spec a : forall b w, matches (alt a b) w <-> matches a w \/ matches b w.
Proof.
  induction a as [| |lo hi|x IHx y IHy|x IHx y IHy|x IHx]; intros b w.
  - cbn. pose proof (matches_emp w). tauto.
  - cbn [alt]. destruct b; try (destruct (alt_mem _ _) eqn:E;
      [pose proof (alt_mem_sound _ _ w E); tauto|apply matches_alt]).
    pose proof (matches_emp w). tauto.
  - cbn [alt]. destruct b; try (destruct (alt_mem _ _) eqn:E;
      [pose proof (alt_mem_sound _ _ w E); tauto|apply matches_alt]).
    pose proof (matches_emp w). tauto.
  - cbn [alt]. rewrite IHx, IHy, (matches_alt x y). tauto.
  - cbn [alt]. destruct b; try (destruct (alt_mem _ _) eqn:E;
      [pose proof (alt_mem_sound _ _ w E); tauto|apply matches_alt]).
    pose proof (matches_emp w). tauto.
  - cbn [alt]. destruct b; try (destruct (alt_mem _ _) eqn:E;
      [pose proof (alt_mem_sound _ _ w E); tauto|apply matches_alt]).
    pose proof (matches_emp w). tauto.
Qed.

Lemma cat_emp_l b w : matches (Cat Emp b) w <-> False.
Proof. rewrite matches_cat. split; [intros (? & ? & _ & H & _); exact (matches_emp _ H)|tauto]. Qed.
Lemma cat_emp_r a w : matches (Cat a Emp) w <-> False.
Proof. rewrite matches_cat. split; [intros (? & ? & _ & _ & H); exact (matches_emp _ H)|tauto]. Qed.
Lemma cat_eps_l b w : matches (Cat Eps b) w <-> matches b w.
Proof.
  rewrite matches_cat. split.
  - intros (w1 & w2 & -> & H1 & H2). apply matches_eps in H1. subst. exact H2.
  - intros H. exists [], w. repeat split; [constructor|exact H].
Qed.
Lemma cat_eps_r a w : matches (Cat a Eps) w <-> matches a w.
Proof.
  rewrite matches_cat. split.
  - intros (w1 & w2 & -> & H1 & H2). apply matches_eps in H2. subst. rewrite app_nil_r. exact H1.
  - intros H. exists w, []. rewrite app_nil_r. repeat split; [exact H|constructor].
Qed.

Lemma cat_spec a : forall b w, matches (cat a b) w <-> matches (Cat a b) w.
Proof.
  induction a as [| |lo hi|x IHx y IHy|x IHx y IHy|x IHx]; intros b w; cbn [cat].
  - rewrite cat_emp_l. split; [apply matches_emp|tauto].
  - rewrite cat_eps_l. tauto.
  - destruct b; try tauto; [rewrite cat_emp_r; split; [apply matches_emp|tauto]|rewrite cat_eps_r; tauto].
  - destruct b; try tauto; [rewrite cat_emp_r; split; [apply matches_emp|tauto]|rewrite cat_eps_r; tauto].
  - assert (A : matches (Cat x (cat y b)) w <-> matches (Cat (Cat x y) b) w).
    { rewrite !matches_cat. split.
      - intros (w1 & w2 & -> & H1 & H2). apply IHy in H2. apply matches_cat in H2.
        destruct H2 as (w3 & w4 & -> & H3 & H4).
        exists (w1 ++ w3), w4. rewrite app_assoc. repeat split; [constructor; assumption|assumption].
      - intros (w1 & w2 & -> & H1 & H2). apply matches_cat in H1. destruct H1 as (w3 & w4 & -> & H3 & H4).
        exists w3, (w4 ++ w2). rewrite app_assoc. repeat split; [assumption|]. apply IHy. constructor; assumption. }
    destruct b; try exact A. rewrite cat_emp_r. split; [apply matches_emp|tauto].
  - destruct b; try tauto; [rewrite cat_emp_r; split; [apply matches_emp|tauto]|rewrite cat_eps_r; tauto].
Qed.

Lemma nullable_spec a : nullable a = true <-> matches a [].
Proof.
  induction a as [| |lo hi|x IHx y IHy|x IHx y IHy|x IHx]; cbn.
  - split; [discriminate|intros H; destruct (matches_emp _ H)].
  - split; [constructor|reflexivity].
  - split; [discriminate|inversion 1].
  - rewrite orb_true_iff, matches_alt. tauto.
  - rewrite andb_true_iff, IHx, IHy, matches_cat. split.
    + intros [H1 H2]. exists [], []. auto.
    + intros (w1 & w2 & E & H1 & H2). symmetry in E. apply app_eq_nil in E. destruct E as [-> ->]. auto.
  - split; [intros _; constructor|reflexivity].
Qed.

Lemma star_cons a c w : matches (Star a) (c :: w) ->
  exists w1 w2, w = w1 ++ w2 /\ matches a (c :: w1) /\ matches (Star a) w2.
Proof.
  intros H. remember (Star a) as r eqn:Er. remember (c :: w) as w0 eqn:Ew.
  revert Er c w Ew. induction H; intros Er c w0 Ew; try discriminate.
  injection Er as ->. destruct w1 as [|x w1].
  - cbn in Ew. apply IHmatches2; auto.
  - cbn in Ew. injection Ew as -> <-. exists w1, w2. auto.
Qed.

Lemma deriv_spec c a : forall w, matches (deriv c a) w <-> matches a (c :: w).
Proof.
  induction a as [| |lo hi|x IHx y IHy|x IHx y IHy|x IHx]; intros w; cbn [deriv].
  - split; intros H; destruct (matches_emp _ H).
  - split; [intros H; destruct (matches_emp _ H)|inversion 1].
  - destruct (in_range lo hi c) eqn:E.
    + rewrite matches_eps. split; [intros ->; constructor; exact E|inversion 1; reflexivity].
    + split; [intros H; destruct (matches_emp _ H)|inversion 1; congruence].
  - rewrite alt_spec, matches_alt, IHx, IHy. tauto.
  - assert (A : matches (cat (deriv c x) y) w <-> exists w1 w2, w = w1 ++ w2 /\ matches x (c :: w1) /\ matches y w2).
    { rewrite cat_spec, matches_cat. split; intros (w1 & w2 & E & H1 & H2); exists w1, w2; rewrite IHx in *; auto. }
    assert (B : matches (Cat x y) (c :: w) <->
                (exists w1 w2, w = w1 ++ w2 /\ matches x (c :: w1) /\ matches y w2) \/
                (matches x [] /\ matches y (c :: w))).
    { rewrite matches_cat. split.
      - intros (w1 & w2 & E & H1 & H2). destruct w1 as [|c' w1]; cbn in E.
        + right. subst w2. auto.
        + injection E as <- ->. left. eauto 6.
      - intros [(w1 & w2 & -> & H1 & H2)|[H1 H2]].
        + exists (c :: w1), w2. auto.
        + exists [], (c :: w). auto. }
    rewrite B. destruct (nullable x) eqn:En.
    + rewrite alt_spec, A, IHy. apply nullable_spec in En. tauto.
    + rewrite A. assert (~ matches x []) by (rewrite <- nullable_spec; congruence). tauto.
  - rewrite cat_spec, matches_cat. split.
    + intros (w1 & w2 & -> & H1 & H2). apply IHx in H1. apply (m_star_cons x (c :: w1)); assumption.
    + intros H. apply star_cons in H. destruct H as (w1 & w2 & -> & H1 & H2).
      exists w1, w2. rewrite IHx. auto.
Qed.

(** ** Vectors of labelled regular expressions *)
Definition class_eqb (a b : class) : bool :=
  match a, b with Skip, Skip => true | Tok x, Tok y => Nat.eqb x y | _, _ => false end.
Lemma class_eqb_eq a b : class_eqb a b = true <-> a = b.
Proof.
  destruct a, b; cbn; split; intros H; try discriminate; auto.
  - apply Nat.eqb_eq in H. congruence.
  - injection H as ->. apply Nat.eqb_refl.
Qed.

Definition vec : Type := list (class * re).
Definition vmatches (v : vec) (c : class) (w : list N) : Prop := exists r, In (c, r) v /\ matches r w.
Definition is_emp (r : re) : bool := match r with Emp => true | _ => false end.
Definition vderiv (c : N) (v : vec) : vec :=
  filter (fun p => negb (is_emp (snd p))) (map (fun p : class * re => (fst p, deriv c (snd p))) v).

Lemma vderiv_spec c v cl w : vmatches (vderiv c v) cl w <-> vmatches v cl (c :: w).
Proof.
  unfold vmatches, vderiv. split.
  - intros (r & Hin & Hm). apply filter_In in Hin. destruct Hin as [Hin _].
    apply in_map_iff in Hin. destruct Hin as ([cl' r'] & E & Hin). cbn in E. injection E as <- <-.
    exists r'. split; [exact Hin|]. apply deriv_spec. exact Hm.
  - intros (r & Hin & Hm). exists (deriv c r). split; [|apply deriv_spec; exact Hm].
    apply filter_In. split.
    + apply in_map_iff. exists (cl, r). auto.
    + cbn. apply deriv_spec in Hm. destruct (deriv c r); cbn; auto. destruct (matches_emp _ Hm).
Qed.

Definition spec_vec : vec :=
  (Skip, ignored) :: map (fun p : nat * re => (Tok (fst p), snd p)) reserved ++ [(Tok ID, lex_id)].

(** Classes whose regular expression accepts the empty string; the class ID is dropped when a
    reserved class is present. *)
Definition nulls (v : vec) : list class := map fst (filter (fun p : class * re => nullable (snd p)) v).
Definition is_reserved (c : class) : bool :=
  match c with Tok ty => existsb (fun p : nat * re => Nat.eqb (fst p) ty) reserved | Skip => false end.
Definition vlabels (v : vec) : list class :=
  let ns := nulls v in
  filter (fun c => negb (class_eqb c (Tok ID)) || negb (existsb is_reserved ns)) ns.

Lemma nulls_spec v c : In c (nulls v) <-> vmatches v c [].
Proof.
  unfold nulls, vmatches. rewrite in_map_iff. split.
  - intros ([c' r] & <- & H). apply filter_In in H. destruct H as [H1 H2]. exists r. split; [exact H1|].
    apply nullable_spec. exact H2.
  - intros (r & Hin & Hm). exists (c, r). split; [reflexivity|]. apply filter_In. split; [exact Hin|].
    apply nullable_spec. exact Hm.
Qed.

(** ** DFA *)
Fixpoint dfa_run (s : nat) (w : list N) : option nat :=
  match w with
  | [] => Some s
  | c :: w' => match trans s c with Some s' => dfa_run s' w' | None => None end
  end.
Definition label (s : nat) : list class :=
  let '(acc, ign) := act s in
  if Z.eqb acc (-1) then (if ign then [Skip] else [])
  else if Z.eqb acc 0 then [] else [Tok (Z.to_nat acc)].

(** ** Representatives of the runes *)
Definition row_bounds (row : trans_row) : list N :=
  flat_map (fun p : N * N * nat => [fst (fst p); N.succ (snd (fst p))]) (fst row).
Fixpoint re_bounds (r : re) : list N :=
  match r with
  | Rng lo hi => [lo; N.succ hi]
  | Alt a b | Cat a b => re_bounds a ++ re_bounds b
  | Star a => re_bounds a
  | _ => []
  end.
Definition bounds : list N :=
  Eval vm_compute in
  nodup N.eq_dec (0%N :: flat_map row_bounds trans_tab ++ flat_map (fun p : class * re => re_bounds (snd p)) spec_vec).
Definition nmemb (x : N) (l : list N) : bool := existsb (N.eqb x) l.
Lemma nmemb_in x l : nmemb x l = true <-> In x l.
Proof.
  unfold nmemb. rewrite existsb_exists. split.
  - intros (y & Hy & E). apply N.eqb_eq in E. subst. exact Hy.
  - intros H. exists x. split; [exact H|apply N.eqb_refl].
Qed.
Definition max_rune : N := 1114111.
Definition reps : list N := Eval vm_compute in filter (fun b => N.leb b max_rune) bounds.

Lemma rep_exists r : (r <= max_rune)%N ->
  exists b, In b reps /\ forall lo hi, In lo bounds -> In (N.succ hi) bounds -> in_range lo hi r = in_range lo hi b.
Proof.
  intros Hr.
  assert (G : forall l : list N, exists b, (b = 0%N \/ In b l) /\ (b <= r)%N /\ forall x, In x l -> (x <= r)%N -> (x <= b)%N).
  { induction l as [|y l (b & Hb & Hle & Hmax)].
    - exists 0%N. split; [auto|]. split; [lia|]. intros x [].
    - destruct (N.le_gt_cases y r) as [Hy|Hy].
      + destruct (N.le_gt_cases y b) as [Hyb|Hyb].
        * exists b. split; [destruct Hb; [auto|right; right; auto]|]. split; [exact Hle|].
          intros x [<-|Hx] Hxr; [exact Hyb|auto].
        * exists y. split; [right; left; reflexivity|]. split; [exact Hy|].
          intros x [<-|Hx] Hxr; [lia|]. specialize (Hmax x Hx Hxr). lia.
      + exists b. split; [destruct Hb; [auto|right; right; auto]|]. split; [exact Hle|].
        intros x [<-|Hx] Hxr; [lia|auto]. }
  destruct (G bounds) as (b & Hb & Hle & Hmax).
  exists b. split.
  - change reps with (filter (fun b => N.leb b max_rune) bounds). apply filter_In. split.
    + destruct Hb as [->|Hb]; [apply nmemb_in; vm_compute; reflexivity|exact Hb].
    + apply N.leb_le. lia.
  - intros lo hi Hlo Hhi. unfold in_range.
    pose proof (Hmax lo Hlo). pose proof (Hmax _ Hhi).
    destruct (N.leb_spec lo r), (N.leb_spec lo b), (N.leb_spec r hi), (N.leb_spec b hi); cbn; auto; exfalso; lia.
Qed.

Definition re_ok (r : re) : bool := forallb (fun x => nmemb x bounds) (re_bounds r).
Lemma deriv_rep r b : (forall lo hi, In lo bounds -> In (N.succ hi) bounds -> in_range lo hi r = in_range lo hi b) ->
  forall a, re_ok a = true -> deriv r a = deriv b a.
Proof.
  intros H. unfold re_ok. induction a as [| |lo hi|x IHx y IHy|x IHx y IHy|x IHx]; cbn [re_bounds deriv]; intros Ha; auto.
  - cbn [forallb] in Ha. rewrite !andb_true_iff in Ha. destruct Ha as (H1 & H2 & _). apply nmemb_in in H1, H2.
    rewrite (H lo hi H1 H2). reflexivity.
  - rewrite forallb_app, andb_true_iff in Ha. destruct Ha. rewrite IHx, IHy; auto.
  - rewrite forallb_app, andb_true_iff in Ha. destruct Ha. rewrite IHx, IHy; auto.
  - rewrite IHx; auto.
Qed.

Definition tables_ok : bool := forallb (fun row => forallb (fun x => nmemb x bounds) (row_bounds row)) trans_tab.
Lemma tables_ok_true : tables_ok = true.
Proof. vm_compute. reflexivity. Qed.

Lemma find_range_rep r b l : (forall lo hi, In lo bounds -> In (N.succ hi) bounds -> in_range lo hi r = in_range lo hi b) ->
  forallb (fun x => nmemb x bounds) (flat_map (fun p : N * N * nat => [fst (fst p); N.succ (snd (fst p))]) l) = true ->
  find_range l r = find_range l b.
Proof.
  intros H. induction l as [|[[lo hi] t] l IH]; cbn [find_range flat_map app]; intros Hl; [reflexivity|].
  cbn [forallb fst snd app] in Hl. rewrite !andb_true_iff in Hl. destruct Hl as (H1 & H2 & H3).
  apply nmemb_in in H1, H2. rewrite (H lo hi H1 H2), (IH H3). reflexivity.
Qed.

Lemma trans_rep r b s : (forall lo hi, In lo bounds -> In (N.succ hi) bounds -> in_range lo hi r = in_range lo hi b) ->
  trans s r = trans s b.
Proof.
  intros H. unfold trans. destruct (nth_error trans_tab s) as [[ranges d]|] eqn:E; [|reflexivity].
  pose proof tables_ok_true as C. unfold tables_ok in C. rewrite forallb_forall in C.
  specialize (C _ (nth_error_In _ _ E)). unfold row_bounds in C. cbn [fst] in C.
  rewrite (find_range_rep r b ranges H C). reflexivity.
Qed.

(** ** The bisimulation *)
Definition vec_eqb (a b : vec) : bool :=
  (fix go (a b : vec) : bool :=
     match a, b with
     | [], [] => true
     | (c, r) :: a', (c', r') :: b' => class_eqb c c' && re_eqb r r' && go a' b'
     | _, _ => false
     end) a b.
Lemma vec_eqb_eq a : forall b, vec_eqb a b = true -> a = b.
Proof.
  induction a as [|[c r] a IH]; intros [|[c' r'] b] H; try discriminate; auto.
  cbn in H. apply andb_true_iff in H. destruct H as [H1 H2]. apply andb_true_iff in H1. destruct H1 as [H1 H3].
  apply class_eqb_eq in H1. apply re_eqb_eq in H3. f_equal; [congruence|apply IH; exact H2].
Qed.

Definition pair_mem (s : nat) (v : vec) (R : list (nat * vec)) : bool :=
  existsb (fun p => Nat.eqb s (fst p) && vec_eqb v (snd p)) R.

Fixpoint explore (fuel : nat) (work R : list (nat * vec)) : list (nat * vec) :=
  match fuel, work with
  | O, _ => R
  | _, [] => R
  | S f, (s, v) :: work' =>
      if pair_mem s v R then explore f work' R
      else
        let succs := flat_map (fun c => match trans s c with
                                        | Some s' => [(s', vderiv c v)]
                                        | None => []
                                        end) reps in
        explore f (succs ++ work') ((s, v) :: R)
  end.

Definition bisim_set : list (nat * vec) := Eval vm_compute in explore (100 * 200) [(0, spec_vec)] [].

Definition labels_eqb (a b : list class) : bool :=
  match a, b with [], [] => true | [x], [y] => class_eqb x y | _, _ => false end.

Definition check_pair (p : nat * vec) : bool :=
  let '(s, v) := p in
  labels_eqb (label s) (vlabels v) &&
  forallb (fun q : class * re => re_ok (snd q)) v &&
  forallb (fun c => match trans s c, vderiv c v with
                    | None, [] => true
                    | Some s', v' => pair_mem s' v' bisim_set
                    | None, _ :: _ => false
                    end) reps.

Lemma bisim_ok : forallb check_pair bisim_set = true.
Proof. vm_compute. reflexivity. Qed.
Lemma bisim_start : pair_mem 0 spec_vec bisim_set = true.
Proof. vm_compute. reflexivity. Qed.

Lemma pair_mem_in s v R : pair_mem s v R = true -> In (s, v) R.
Proof.
  unfold pair_mem. intros H. apply existsb_exists in H. destruct H as ([s' v'] & Hin & H).
  apply andb_true_iff in H. destruct H as [H1 H2]. apply Nat.eqb_eq in H1. apply vec_eqb_eq in H2.
  cbn in *. subst. exact Hin.
Qed.

Local Opaque bisim_set spec_vec trans_tab act_tab bounds reps.

Definition small (w : list N) : Prop := Forall (fun r => (r <= max_rune)%N) w.

Lemma bisim_step s v c : In (s, v) bisim_set -> (c <= max_rune)%N ->
  match trans s c with
  | Some s' => In (s', vderiv c v) bisim_set
  | None => vderiv c v = []
  end.
Proof.
  intros Hin Hc. destruct (rep_exists c Hc) as (b & Hb & Heq).
  pose proof bisim_ok as C. rewrite forallb_forall in C. specialize (C _ Hin).
  unfold check_pair in C. apply andb_true_iff in C. destruct C as [C C3].
  apply andb_true_iff in C. destruct C as [_ C2].
  rewrite forallb_forall in C3. specialize (C3 _ Hb).
  assert (Ed : vderiv c v = vderiv b v).
  { unfold vderiv. f_equal. apply map_ext_in. intros [cl r] Hr. cbn [fst snd]. f_equal.
    apply deriv_rep; [exact Heq|]. rewrite forallb_forall in C2. exact (C2 _ Hr). }
  rewrite (trans_rep c b s Heq), Ed. destruct (trans s b) as [s'|].
  - apply pair_mem_in. exact C3.
  - destruct (vderiv b v); [reflexivity|discriminate].
Qed.

Lemma bisim_run w : forall s v, In (s, v) bisim_set -> small w ->
  match dfa_run s w with
  | Some s' => exists v', In (s', v') bisim_set /\ forall cl w', vmatches v cl (w ++ w') <-> vmatches v' cl w'
  | None => forall cl w', ~ vmatches v cl (w ++ w')
  end.
Proof.
  induction w as [|c w IH]; intros s v Hin Hw; cbn [dfa_run].
  - exists v. split; [exact Hin|]. intros; cbn; tauto.
  - inversion Hw as [|? ? Hc Hw']; subst. pose proof (bisim_step s v c Hin Hc) as Hs.
    destruct (trans s c) as [s'|].
    + specialize (IH s' _ Hs Hw'). destruct (dfa_run s' w) as [s''|].
      * destruct IH as (v' & Hin' & Hv'). exists v'. split; [exact Hin'|].
        intros cl w'. rewrite <- Hv'. rewrite vderiv_spec. cbn. tauto.
      * intros cl w' H. apply (IH cl w'). apply vderiv_spec. exact H.
    + intros cl w' H. cbn in H. apply vderiv_spec in H. rewrite Hs in H.
      destruct H as (r & [] & _).
Qed.

(** ** Lexemes and the DFA *)
Lemma spec_vec_eq : spec_vec = (Skip, ignored) :: map (fun p : nat * re => (Tok (fst p), snd p)) reserved ++ [(Tok ID, lex_id)].
Proof. reflexivity. Qed.

Lemma vm_skip w : vmatches spec_vec Skip w <-> matches ignored w.
Proof.
  unfold vmatches. rewrite spec_vec_eq. split.
  - intros (r & [E|Hin] & Hm); [injection E as <-; exact Hm|].
    apply in_app_or in Hin. destruct Hin as [Hin|[E|[]]]; [|discriminate].
    apply in_map_iff in Hin. destruct Hin as (p & E & _). discriminate.
  - intros H. exists ignored. split; [left; reflexivity|exact H].
Qed.
Lemma ID_not_reserved r : ~ In (ID, r) reserved.
Proof.
  intros H. assert (C : forallb (fun p : nat * re => negb (Nat.eqb (fst p) ID)) reserved = true) by reflexivity.
  rewrite forallb_forall in C. specialize (C _ H). discriminate.
Qed.
Lemma vm_tok w ty : ty <> ID -> vmatches spec_vec (Tok ty) w <-> exists r, In (ty, r) reserved /\ matches r w.
Proof.
  intros Hty. unfold vmatches. rewrite spec_vec_eq. split.
  - intros (r & [E|Hin] & Hm); [discriminate|].
    apply in_app_or in Hin. destruct Hin as [Hin|[E|[]]]; [|injection E as E; congruence].
    apply in_map_iff in Hin. destruct Hin as ([ty' r'] & E & Hin). cbn in E. injection E as <- <-. eauto.
  - intros (r & Hin & Hm). exists r. split; [|exact Hm]. right. apply in_or_app. left.
    apply in_map_iff. exists (ty, r). auto.
Qed.
Lemma vm_id w : vmatches spec_vec (Tok ID) w <-> matches lex_id w.
Proof.
  unfold vmatches. rewrite spec_vec_eq. split.
  - intros (r & [E|Hin] & Hm); [discriminate|].
    apply in_app_or in Hin. destruct Hin as [Hin|[E|[]]]; [|injection E as <-; exact Hm].
    apply in_map_iff in Hin. destruct Hin as ([ty' r'] & E & Hin). cbn in E. injection E as E1 <-.
    subst. exfalso. exact (ID_not_reserved _ Hin).
  - intros Hm. exists lex_id. split; [|exact Hm]. right. apply in_or_app. right. left. reflexivity.
Qed.

Lemma is_lexeme_vm w c : is_lexeme w c <->
  vmatches spec_vec c w /\ (c = Tok ID -> forall ty, ty <> ID -> ~ vmatches spec_vec (Tok ty) w).
Proof.
  split.
  - destruct 1 as [H|ty r Hin H|H Hn].
    + split; [apply vm_skip; exact H|discriminate].
    + assert (ty <> ID) by (intros ->; exact (ID_not_reserved _ Hin)).
      split; [apply vm_tok; eauto|]. intros E. injection E as E. congruence.
    + split; [apply vm_id; exact H|]. intros _ ty Hty Hv. apply vm_tok in Hv; [|exact Hty].
      destruct Hv as (r & Hin & Hm). exact (Hn _ _ Hin Hm).
  - intros [Hv Hn]. destruct c as [|ty].
    + apply lx_skip. apply vm_skip. exact Hv.
    + destruct (Nat.eq_dec ty ID) as [->|Hty].
      * apply lx_id; [apply vm_id; exact Hv|]. intros ty r Hin Hm.
        assert (Hne : ty <> ID) by (intros ->; exact (ID_not_reserved _ Hin)).
        apply (Hn eq_refl ty Hne). apply vm_tok; eauto.
      * apply vm_tok in Hv; [|exact Hty]. destruct Hv as (r & Hin & Hm). eapply lx_reserved; eauto.
Qed.

Lemma labels_eqb_eq a b : labels_eqb a b = true -> a = b.
Proof.
  destruct a as [|x [|? ?]], b as [|y [|? ?]]; cbn; try discriminate; auto.
  intros H. apply class_eqb_eq in H. congruence.
Qed.

Lemma is_reserved_spec ty : is_reserved (Tok ty) = true <-> exists r, In (ty, r) reserved.
Proof.
  cbn [is_reserved]. rewrite existsb_exists. split.
  - intros ([ty' r] & Hin & E). apply Nat.eqb_eq in E. cbn in E. subst. eauto.
  - intros (r & Hin). exists (ty, r). split; [exact Hin|]. apply Nat.eqb_refl.
Qed.

(** The main theorem: after reading [w] the DFA is in a state labelled with exactly the class of
    [w]; it is stuck exactly when no lexeme starts with [w]. *)
Theorem dfa_correct w c : small w ->
  (is_lexeme w c <-> exists s, dfa_run 0 w = Some s /\ label s = [c]).
Proof.
  intros Hw. pose proof (bisim_run w 0 spec_vec (pair_mem_in _ _ _ bisim_start) Hw) as H.
  destruct (dfa_run 0 w) as [s|].
  - destruct H as (v & Hin & Hv).
    pose proof bisim_ok as C. rewrite forallb_forall in C. specialize (C _ Hin).
    unfold check_pair in C. apply andb_true_iff in C. destruct C as [C _].
    apply andb_true_iff in C. destruct C as [C _]. 
    assert (Hshape : vlabels v = [] \/ exists b, vlabels v = [b]).
    { destruct (label s) as [|a [|? ?]], (vlabels v) as [|b [|? ?]]; try discriminate C; eauto. }
    apply labels_eqb_eq in C.
    assert (Hv' : forall cl, vmatches spec_vec cl w <-> In cl (nulls v)).
    { intros cl. rewrite nulls_spec, <- Hv, app_nil_r. tauto. }
    assert (Hlab : is_lexeme w c <-> In c (vlabels v)).
    { rewrite is_lexeme_vm, Hv'. unfold vlabels. rewrite filter_In, orb_true_iff, !negb_true_iff.
      split.
      - intros [H1 H2]. split; [exact H1|].
        destruct (class_eqb c (Tok ID)) eqn:Ec; [right|left; reflexivity].
        apply class_eqb_eq in Ec. specialize (H2 Ec).
        destruct (existsb is_reserved (nulls v)) eqn:Ee; [|reflexivity]. exfalso.
        apply existsb_exists in Ee. destruct Ee as ([|ty] & Hin' & Hr); [discriminate|].
        apply is_reserved_spec in Hr. destruct Hr as (r & Hr).
        assert (Hne : ty <> ID) by (intros ->; exact (ID_not_reserved _ Hr)).
        apply (H2 ty Hne). apply Hv'. exact Hin'.
      - intros [H1 H2]. split; [exact H1|]. intros -> ty Hty Hm.
        destruct H2 as [H2|H2]; [discriminate H2|].
        assert (E : existsb is_reserved (nulls v) = true); [|congruence].
        apply existsb_exists. exists (Tok ty). split; [apply Hv'; exact Hm|].
        apply is_reserved_spec. apply vm_tok in Hm; [|exact Hty]. destruct Hm as (r & Hr & _). eauto. }
    rewrite Hlab. split.
    + intros Hc. exists s. split; [reflexivity|]. rewrite C.
      destruct Hshape as [E|[b E]]; rewrite E in *; [destruct Hc|].
      destruct Hc as [<-|[]]. reflexivity.
    + intros (s' & Es & El). injection Es as <-. rewrite <- C, El. left. reflexivity.
  - split; [|intros (s & E & _); discriminate].
    intros Hl. exfalso. apply is_lexeme_vm in Hl. destruct Hl as [Hl _].
    apply (H c []). rewrite app_nil_r. exact Hl.
Qed.

(** Co-reachability: every live state can still reach a labelled one. *)
Definition targets (s : nat) : list nat :=
  match nth_error trans_tab s with
  | Some (ranges, d) => map snd ranges ++ match d with Some t => [t] | None => [] end
  | None => []
  end.
Lemma trans_targets s r s' : trans s r = Some s' -> In s' (targets s).
Proof.
  unfold trans, targets. destruct (nth_error trans_tab s) as [[ranges d]|]; [|discriminate].
  assert (F : forall l, find_range l r = Some s' -> In s' (map snd l)).
  { induction l as [|[[lo hi] t] l IH]; cbn; [discriminate|].
    destruct (in_range lo hi r); [intros [= ->]; auto|auto]. }
  destruct (find_range ranges r) as [t|] eqn:E.
  - intros [= ->]. apply in_or_app. left. apply F. exact E.
  - intros ->. apply in_or_app. right. left. reflexivity.
Qed.

Definition has_label (s : nat) : bool := match label s with [] => false | _ => true end.
Fixpoint coreach (n : nat) : list nat :=
  match n with
  | O => filter has_label (seq 0 141)
  | S n' => let L := coreach n' in
            filter (fun s => existsb (Nat.eqb s) L ||
                     existsb (fun c => match trans s c with Some s' => existsb (Nat.eqb s') L | None => false end) reps)
                   (seq 0 141)
  end.
Lemma coreach_0 : coreach 0 = filter has_label (seq 0 141).
Proof. reflexivity. Qed.
Lemma coreach_S n : coreach (S n) =
  filter (fun s => existsb (Nat.eqb s) (coreach n) ||
           existsb (fun c => match trans s c with Some s' => existsb (Nat.eqb s') (coreach n) | None => false end) reps)
         (seq 0 141).
Proof. reflexivity. Qed.
Lemma reps_small : forallb (fun c => N.leb c max_rune) reps = true.
Proof. vm_compute. reflexivity. Qed.
Lemma coreach_sound n : forall s, In s (coreach n) -> exists w s', small w /\ dfa_run s w = Some s' /\ has_label s' = true.
Proof.
  induction n as [|n IH]; intros s H.
  - rewrite coreach_0 in H. apply filter_In in H. destruct H as [_ H]. exists [], s. split; [constructor|]. auto.
  - rewrite coreach_S in H. apply filter_In in H. destruct H as [_ H].
    apply orb_true_iff in H. destruct H as [H|H].
    + apply existsb_exists in H. destruct H as (x & Hx & E). apply Nat.eqb_eq in E. subst. auto.
    + apply existsb_exists in H. destruct H as (c & Hc & H).
      destruct (trans s c) as [s1|] eqn:Et; [|discriminate].
      apply existsb_exists in H. destruct H as (x & Hx & E). apply Nat.eqb_eq in E. subst x.
      destruct (IH _ Hx) as (w & s' & Hw & Hr & Hl). exists (c :: w), s'.
      split; [constructor; [|exact Hw]|].
      * pose proof reps_small as C. rewrite forallb_forall in C. apply N.leb_le. apply C. exact Hc.
      * cbn [dfa_run]. rewrite Et. auto.
Qed.
Lemma coreach_all : (let L := coreach 6 in forallb (fun s => existsb (Nat.eqb s) L) (seq 0 141)) = true.
Proof. vm_compute. reflexivity. Qed.
Lemma targets_bound : forallb (fun s => forallb (fun t => Nat.ltb t 141) (targets s)) (seq 0 141) = true.
Proof. vm_compute. reflexivity. Qed.
Lemma trans_tab_length : length trans_tab = 141.
Proof. vm_compute. reflexivity. Qed.

Lemma trans_bound s r s' : trans s r = Some s' -> s < 141 /\ s' < 141.
Proof.
  intros H. assert (L : s < 141).
  { unfold trans in H. destruct (nth_error trans_tab s) eqn:E; [|discriminate].
    rewrite <- trans_tab_length. apply nth_error_Some. congruence. }
  split; [exact L|]. pose proof targets_bound as C. rewrite forallb_forall in C. specialize (C s).
  assert (C' : forallb (fun t => Nat.ltb t 141) (targets s) = true) by (apply C; apply in_seq; lia).
  rewrite forallb_forall in C'. apply Nat.ltb_lt. apply C'. apply (trans_targets _ _ _ H).
Qed.

Lemma dfa_run_bound w : forall s s', s < 141 -> dfa_run s w = Some s' -> s' < 141.
Proof.
  induction w as [|c w IH]; cbn; intros s s' L H; [injection H as <-; exact L|].
  destruct (trans s c) as [s1|] eqn:E; [|discriminate]. eapply IH; [|exact H]. apply (trans_bound _ _ _ E).
Qed.

Lemma dfa_run_app w1 w2 : forall s, dfa_run s (w1 ++ w2) = match dfa_run s w1 with Some s' => dfa_run s' w2 | None => None end.
Proof. induction w1 as [|c w1 IH]; intros s; cbn; [reflexivity|]. destruct (trans s c); auto. Qed.

Lemma small_app w1 w2 : small (w1 ++ w2) <-> small w1 /\ small w2.
Proof. unfold small. apply Forall_app. Qed.

Theorem dfa_viable w : small w -> (viable w <-> dfa_run 0 w <> None).
Proof.
  intros Hw. split.
  - intros (w' & c & H).
    pose proof (bisim_run w 0 spec_vec (pair_mem_in _ _ _ bisim_start) Hw) as B.
    destruct (dfa_run 0 w) as [s|]; [discriminate|].
    exfalso. apply is_lexeme_vm in H. destruct H as [H _]. exact (B _ _ H).
  - intros H. destruct (dfa_run 0 w) as [s|] eqn:E; [|congruence].
    assert (L : s < 141) by (apply (dfa_run_bound w 0 s); [lia|exact E]).
    pose proof coreach_all as C. cbv zeta in C. rewrite forallb_forall in C. specialize (C s).
    assert (C' : existsb (Nat.eqb s) (coreach 6) = true) by (apply C; apply in_seq; lia). clear C.
    apply existsb_exists in C'. destruct C' as (x & Hx & Ex). apply Nat.eqb_eq in Ex. subst x.
    destruct (coreach_sound _ _ Hx) as (w' & s' & Hw' & Hr & Hl).
    unfold has_label in Hl. destruct (label s') as [|c [|? ?]] eqn:El; [discriminate| |].
    + exists w', c. apply dfa_correct; [apply small_app; auto|]. exists s'.
      rewrite dfa_run_app, E. auto.
    + unfold label in El. destruct (act s') as [acc ign]. destruct (Z.eqb acc (-1)); [destruct ign; discriminate|].
      destruct (Z.eqb acc 0); discriminate.
Qed.

(** A labelled state leads only to labelled states with a token class, never to Skip; Skip states
    have no successor; state 0 has no label and no predecessor. *)
Definition check_labels (s : nat) : bool :=
  forallb (fun t => negb (Nat.eqb t 0) &&
     match label s with
     | [] => true
     | [Skip] => false
     | _ => match label t with [Tok _] => true | _ => false end
     end) (targets s).
Lemma labels_ok : forallb check_labels (seq 0 141) = true.
Proof. vm_compute. reflexivity. Qed.

Lemma label_shape s : label s = [] \/ exists c, label s = [c].
Proof.
  unfold label. destruct (act s) as [acc ign]. destruct (Z.eqb acc (-1)); [destruct ign; eauto|].
  destruct (Z.eqb acc 0); eauto.
Qed.
Lemma label_step s r s' : trans s r = Some s' ->
  s' <> 0 /\ match label s with [] => True | c :: _ => c <> Skip /\ exists ty, label s' = [Tok ty] end.
Proof.
  intros H. destruct (trans_bound _ _ _ H) as [L _]. pose proof labels_ok as C. rewrite forallb_forall in C.
  specialize (C s). assert (C' : check_labels s = true) by (apply C; apply in_seq; lia). clear C.
  unfold check_labels in C'. rewrite forallb_forall in C'. specialize (C' _ (trans_targets _ _ _ H)).
  apply andb_true_iff in C'. destruct C' as [C1 C2]. apply negb_true_iff, Nat.eqb_neq in C1.
  split; [exact C1|]. destruct (label_shape s) as [E|[c E]]; rewrite E in *; [exact I|].
  destruct c as [|ty]; [discriminate|]. split; [discriminate|].
  destruct (label s') as [|[|ty'] [|? ?]]; try discriminate. eauto.
Qed.
