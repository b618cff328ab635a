(** An exposed space is lost (C10): counting the bytes from 128 up.  Printing never adds one and
    loses one at every exposed space; parsing puts no more of them into the AST than the text has. *)
From Coq Require Import List Ascii NArith ZArith Bool Lia Arith.
From Verif Require Import Base Ast LexSpec LexDfa LexerProofs Tokens LexFacts SpecGrammar GrammarProofs ParseFacts
  Parser LexPrint TrimFacts SpecAst AstProofs AstFacts SpecSharp SharpProofs.
Import ListNotations.

(** ** Bytes from 128 up *)
Lemma nz_app s t : nz (s ++ t) = nz s + nz t.
Proof. unfold nz. rewrite filter_app, app_length. reflexivity. Qed.
Lemma nz_split k s : nz (firstn k s) + nz (skipn k s) = nz s.
Proof. rewrite <- nz_app, firstn_skipn. reflexivity. Qed.
Lemma ls_cons x l : list_sum (x :: l) = x + list_sum l.
Proof. reflexivity. Qed.
Ltac lsc := rewrite ?ls_cons in *; change (list_sum []) with 0 in *.
Lemma nz_concat l : nz (concat l) = list_sum (map nz l).
Proof. induction l as [|x l IH]; [reflexivity|]. cbn [concat map]. lsc. rewrite nz_app, IH. reflexivity. Qed.

Lemma nz_trim_left_f n : forall s, nz (trim_left_f n s) <= nz s.
Proof.
  induction n as [|n IH]; intros s; [apply le_n|]. destruct s as [|a s]; [apply le_n|]. cbn [trim_left_f].
  destruct (decode_rune (a :: s)) as [r k]. destruct (is_space r); [|lia].
  etransitivity; [apply IH|]. pose proof (nz_split k (a :: s)). lia.
Qed.
Lemma nz_trim_right_f n : forall s, nz (trim_right_f n s) <= nz s.
Proof.
  induction n as [|n IH]; intros s; [apply le_n|]. destruct s as [|a s]; [apply le_n|]. cbn [trim_right_f].
  destruct (decode_last_rune (a :: s)) as [r k]. destruct (is_space r); [|lia].
  etransitivity; [apply IH|]. pose proof (nz_split (length (a :: s) - k) (a :: s)). lia.
Qed.
Lemma nz_trim s : nz (trim_space s) <= nz s.
Proof. unfold trim_space, trim_right, trim_left. etransitivity; [apply nz_trim_right_f|apply nz_trim_left_f]. Qed.

(** ** An ID neither begins nor ends with an ASCII space *)
Fixpoint may_start (c : N) (r : re) : bool :=
  match r with
  | Emp | Eps => false
  | Rng lo hi => in_range lo hi c
  | Alt a b => may_start c a || may_start c b
  | Cat a b => may_start c a || nullable a && may_start c b
  | Star a => may_start c a
  end.
Fixpoint may_end (c : N) (r : re) : bool :=
  match r with
  | Emp | Eps => false
  | Rng lo hi => in_range lo hi c
  | Alt a b => may_end c a || may_end c b
  | Cat a b => may_end c b || nullable b && may_end c a
  | Star a => may_end c a
  end.
Lemma may_start_spec r w : matches r w -> forall c w', w = c :: w' -> may_start c r = true.
Proof.
  induction 1 as [|lo hi x Hx|a b w H IH|a b w H IH|a b w1 w2 H1 IH1 H2 IH2|a|a w1 w2 H1 IH1 H2 IH2]; intros c w' E; cbn [may_start].
  - discriminate.
  - injection E as -> _. exact Hx.
  - rewrite (IH c w' E). reflexivity.
  - rewrite (IH c w' E). apply orb_true_r.
  - destruct w1 as [|x w1].
    + rewrite (proj2 (nullable_spec a) H1), (IH2 c w' E). apply orb_true_r.
    + injection E as -> _. rewrite (IH1 c w1 eq_refl). reflexivity.
  - discriminate.
  - destruct w1 as [|x w1]; [exact (IH2 c w' E)|]. injection E as -> _. apply (IH1 c w1 eq_refl).
Qed.
Lemma may_end_spec r w : matches r w -> forall c w', w = w' ++ [c] -> may_end c r = true.
Proof.
  induction 1 as [|lo hi x Hx|a b w H IH|a b w H IH|a b w1 w2 H1 IH1 H2 IH2|a|a w1 w2 H1 IH1 H2 IH2]; intros c w' E; cbn [may_end].
  - destruct w'; discriminate.
  - destruct w' as [|y [|z w']]; [injection E as ->; exact Hx|discriminate|discriminate].
  - rewrite (IH c w' E). reflexivity.
  - rewrite (IH c w' E). apply orb_true_r.
  - destruct (snoc_case w2) as [->|(w3 & x & ->)].
    + rewrite app_nil_r in E. rewrite (proj2 (nullable_spec b) H2), (IH1 c w' E). apply orb_true_r.
    + rewrite app_assoc in E. apply app_inj_tail in E. destruct E as [_ ->]. rewrite (IH2 c w3 eq_refl). reflexivity.
  - destruct w'; discriminate.
  - destruct (snoc_case w2) as [->|(w3 & x & ->)].
    + rewrite app_nil_r in E. exact (IH1 c w' E).
    + rewrite app_assoc in E. apply app_inj_tail in E. destruct E as [_ ->]. apply (IH2 c w3 eq_refl).
Qed.
Lemma ascii_spaces c : (c < 128)%N -> is_space c = true -> In c [9; 10; 11; 12; 13; 32]%N.
Proof.
  unfold is_space, in_range. rewrite !orb_true_iff, !andb_true_iff, !N.leb_le, !N.eqb_eq. intros H1 H2.
  assert (c = 9 \/ c = 10 \/ c = 11 \/ c = 12 \/ c = 13 \/ c = 32)%N by lia. cbn. intuition lia.
Qed.
Lemma id_ends : forallb (fun c => negb (may_start c lex_id) && negb (may_end c lex_id)) [9; 10; 11; 12; 13; 32]%N = true.
Proof. vm_compute. reflexivity. Qed.
Lemma lex_id_of i : is_id i -> matches lex_id (runes_of (pieces i)).
Proof. intros H. inversion H as [|ty r Hin Hm|Hm]; subst; [|exact Hm]. destruct (ID_not_reserved r Hin). Qed.

(** A character is one ASCII byte, or has no ASCII byte. *)
Lemma piece_bytes s r k : s <> [] -> decode_rune s = (r, k) ->
  (k = 1 /\ exists a t, s = a :: t /\ r = bv a /\ (bv a < 128)%N) \/ forallb hi_byte (firstn k s) = true.
Proof.
  intros Hs. destruct s as [|a0 s1]; [congruence|]. unfold decode_rune, is_cont.
  destruct (N.ltb_spec (bv a0) 128) as [L|L].
  { intros [= <- <-]. left. split; [reflexivity|]. exists a0, s1. auto. }
  assert (A0 : hi_byte a0 = true) by (unfold hi_byte; apply N.leb_le; lia).
  assert (E1 : forallb hi_byte (firstn 1 (a0 :: s1)) = true) by (cbn; rewrite A0; reflexivity).
  assert (S2 : forall a1, second_ok (bv a0) a1 = true -> hi_byte a1 = true).
  { intros a1. unfold second_ok, is_cont, in_range, hi_byte. rewrite N.leb_le.
    destruct (N.eqb_spec (bv a0) 224), (N.eqb_spec (bv a0) 237), (N.eqb_spec (bv a0) 240), (N.eqb_spec (bv a0) 244); rewrite andb_true_iff, !N.leb_le; lia. }
  assert (SC : forall a1, in_range 128 191 (bv a1) = true -> hi_byte a1 = true).
  { intros a1. unfold in_range, hi_byte. rewrite andb_true_iff, !N.leb_le. lia. }
  intros H. right. revert H.
  destruct (in_range 194 223 (bv a0)).
  { destruct s1 as [|a1 s2]; [intros [= <- <-]; exact E1|].
    destruct (in_range 128 191 (bv a1)) eqn:C1; intros [= <- <-]; [|exact E1]. cbn. rewrite A0, (SC a1 C1). reflexivity. }
  destruct (in_range 224 239 (bv a0)).
  { destruct s1 as [|a1 [|a2 s3]]; try (intros [= <- <-]; exact E1).
    destruct (second_ok (bv a0) a1 && in_range 128 191 (bv a2)) eqn:C1; intros [= <- <-]; [|exact E1].
    apply andb_true_iff in C1. destruct C1 as [C1 C2]. cbn. rewrite A0, (S2 a1 C1), (SC a2 C2). reflexivity. }
  destruct (in_range 240 244 (bv a0)); [|intros [= <- <-]; exact E1].
  destruct s1 as [|a1 [|a2 [|a3 s4]]]; try (intros [= <- <-]; exact E1).
  destruct (second_ok (bv a0) a1 && in_range 128 191 (bv a2) && in_range 128 191 (bv a3)) eqn:C1; intros [= <- <-]; [|exact E1].
  rewrite !andb_true_iff in C1. destruct C1 as [[C1 C2] C3]. cbn. rewrite A0, (S2 a1 C1), (SC a2 C2), (SC a3 C3). reflexivity.
Qed.
Lemma last_piece : forall s j b, s = j ++ [b] -> (bv b < 128)%N -> exists ps, pieces s = ps ++ [(bv b, [b])].
Proof.
  intros s. induction s as [|s r k Hs E IH] using pieces_ind; intros j b Ej Hb; [destruct j; discriminate|].
  pose proof (decode_spec s Hs) as D. rewrite E in D. destruct D as [D _].
  rewrite (pieces_cons s r k Hs E). destruct (Nat.eq_dec k (length s)) as [->|Hk].
  - rewrite firstn_all, skipn_all. destruct (piece_bytes s r _ Hs E) as [(K & a & t & Ea & Er & _)|H].
    + rewrite Ea in K. destruct t; [|discriminate]. exists []. rewrite Ea, Er in *. destruct j as [|x [|y j]]; try discriminate.
      injection Ej as <-. reflexivity.
    + rewrite firstn_all, Ej, forallb_app in H. cbn in H. rewrite !andb_true_iff in H. destruct H as [_ [H _]].
      unfold hi_byte in H. apply N.leb_le in H. lia.
  - destruct (IH (skipn k j) b) as (ps & Ep); [|exact Hb|].
    + rewrite Ej, skipn_app. rewrite Ej, app_length in D, Hk. cbn [length] in D, Hk.
      replace (k - length j) with 0 by lia. reflexivity.
    + exists ((r, firstn k s) :: ps). rewrite Ep. reflexivity.
Qed.

Lemma starts_hi i : is_id i -> starts_space i = true -> exists a t, i = a :: t /\ hi_byte a = true.
Proof.
  intros H1 H2. pose proof (is_id_nonempty i H1) as Hn. destruct i as [|a t]; [congruence|]. exists a, t. split; [reflexivity|].
  unfold hi_byte. apply N.leb_le. destruct (N.ltb_spec (bv a) 128) as [L|L]; [exfalso|exact L].
  unfold starts_space, decode_rune in H2. pose proof (proj2 (N.ltb_lt _ _) L) as L'. rewrite L' in H2. cbn [fst] in H2.
  pose proof (lex_id_of _ H1) as M. rewrite pieces_ascii in M by exact L. cbn [runes_of map fst] in M.
  pose proof (may_start_spec _ _ M _ _ eq_refl) as F. pose proof id_ends as G. rewrite forallb_forall in G.
  specialize (G _ (ascii_spaces _ L H2)). rewrite F in G. discriminate.
Qed.
Lemma ends_hi i : is_id i -> ends_space i = true -> exists j b, i = j ++ [b] /\ hi_byte b = true.
Proof.
  intros H1 H2. pose proof (is_id_nonempty i H1) as Hn. destruct (snoc_case i) as [E|(j & b & E)]; [congruence|].
  exists j, b. split; [exact E|]. unfold hi_byte. apply N.leb_le. destruct (N.ltb_spec (bv b) 128) as [L|L]; [exfalso|exact L].
  unfold ends_space in H2. rewrite E, decode_last_ascii in H2 by exact L. cbn [fst] in H2.
  destruct (last_piece i j b E L) as (ps & Ep). pose proof (lex_id_of _ H1) as M.
  rewrite Ep, runes_of_app in M. pose proof (may_end_spec _ _ M _ _ eq_refl) as F. cbn [fst] in F.
  pose proof id_ends as G. rewrite forallb_forall in G.
  specialize (G _ (ascii_spaces _ L H2)). rewrite F, andb_false_r in G. discriminate.
Qed.

(** ** TrimSpace eats an exposed space *)
Lemma lose_left i t : is_id i -> starts_space i = true -> nz (trim_space (i ++ t)) < nz (i ++ t).
Proof.
  intros H1 H2. destruct (starts_hi i H1 H2) as (a & u & E & Ha).
  unfold trim_space, trim_right. eapply Nat.le_lt_trans; [apply nz_trim_right_f|].
  pose proof (is_id_nonempty i H1) as Hn. pose proof (is_id_clean i H1) as Hc.
  unfold starts_space in H2. destruct (decode_rune i) as [r k] eqn:D. cbn [fst] in H2.
  assert (Hr : r <> rune_error).
  { unfold clean in Hc. rewrite (pieces_cons i r k Hn D) in Hc. inversion Hc; subst. assumption. }
  pose proof (decode_valid_app i t r k Hn D Hr) as D'. pose proof (decode_spec i Hn) as K. rewrite D in K. destruct K as [K _].
  unfold trim_left. rewrite E in *. cbn [app length trim_left_f] in *. rewrite D', H2.
  eapply Nat.le_lt_trans; [apply nz_trim_left_f|]. pose proof (nz_split k (a :: u ++ t)) as S1.
  assert (1 <= nz (firstn k (a :: u ++ t))).
  { destruct k; [lia|]. cbn [firstn]. unfold nz. cbn [filter]. rewrite Ha. cbn. lia. }
  lia.
Qed.
Lemma lose_right_f n s i : length (s ++ i) <= n -> is_id i -> ends_space i = true -> nz (trim_right_f n (s ++ i)) < nz (s ++ i).
Proof.
  intros L H1 H2. destruct (ends_hi i H1 H2) as (j & b & E & Hb). pose proof (is_id_nonempty i H1) as Hn.
  destruct n as [|n]; [destruct s, i; try congruence; cbn in L; lia|].
  cbn [trim_right_f]. destruct (s ++ i) as [|a t] eqn:Es; [destruct s; cbn in Es; congruence|]. rewrite <- Es in *.
  pose proof (decode_last_app s i Hn (is_id_clean i H1)) as D. pose proof (decode_last_width (s ++ i) ltac:(rewrite Es; discriminate)) as W.
  unfold ends_space in H2. rewrite <- D in H2. destruct (decode_last_rune (s ++ i)) as [r k]. cbn [fst snd] in H2, W. rewrite H2.
  eapply Nat.le_lt_trans; [apply nz_trim_right_f|]. rewrite E, app_assoc.
  pose proof (nz_split (length ((s ++ j) ++ [b]) - k) ((s ++ j) ++ [b])) as S1.
  assert (1 <= nz (skipn (length ((s ++ j) ++ [b]) - k) ((s ++ j) ++ [b]))).
  { rewrite skipn_app, nz_app. rewrite app_length. cbn [length].
    replace (length (s ++ j) + 1 - k - length (s ++ j)) with 0 by lia. cbn [skipn]. unfold nz. cbn [filter]. rewrite Hb. cbn. lia. }
  lia.
Qed.
Lemma lose_right s i v : v = [] \/ v = lit " " -> vis_left (s ++ i) -> is_id i -> ends_space i = true ->
  nz (trim_space ((s ++ i) ++ v)) < nz (s ++ i).
Proof.
  intros Hv V H1 H2. unfold trim_space. rewrite trim_left_id by (apply vis_left_app; exact V). unfold trim_right.
  destruct Hv as [->| ->]; [rewrite app_nil_r; apply lose_right_f; auto|].
  rewrite app_length. change (length (lit " ")) with 1. rewrite Nat.add_1_r.
  assert (E : decode_last_rune ((s ++ i) ++ lit " ") = (32%N, 1)) by (apply (decode_last_ascii (s ++ i) " "%char); vm_compute; reflexivity).
  cbn [trim_right_f]. rewrite E. destruct ((s ++ i) ++ lit " ") as [|a l] eqn:El; [destruct (s ++ i); discriminate|]. rewrite <- El.
  change (is_space 32) with true. cbv iota.
  replace (firstn (length ((s ++ i) ++ lit " ") - 1) ((s ++ i) ++ lit " ")) with (s ++ i); [apply lose_right_f; auto|].
  rewrite app_length. change (length (lit " ")) with 1. rewrite Nat.add_sub, firstn_app, firstn_all, Nat.sub_diag. cbn. symmetry. apply app_nil_r.
Qed.

(** ** The bytes from 128 up in the IDs of an AST *)
Lemma nz_norm_attrs l : nz_attrs (norm_attrs l) = nz_attrs l.
Proof. unfold nz_attrs, norm_attrs. induction l as [|[|a al] l IH]; cbn [filter map]; lsc; rewrite ?IH; reflexivity. Qed.
Lemma nz_unkept s : keep s = false -> nz_stmt s = 0.
Proof.
  destruct s; cbn [keep nz_stmt]; try discriminate; rewrite <- nz_norm_attrs; destruct (norm_attrs a); try discriminate; reflexivity.
Qed.
Lemma nz_norm_body b : Forall (fun s => nz_stmt (norm_stmt s) = nz_stmt s) b ->
  list_sum (map nz_stmt (norm_stmts b)) = list_sum (map nz_stmt b).
Proof.
  induction 1 as [|s b Hs Hb IH]; [reflexivity|]. cbn [norm_stmts flat_map]. fold (norm_stmts b).
  rewrite map_app, list_sum_app, IH. change (list_sum (map nz_stmt (s :: b))) with (nz_stmt s + list_sum (map nz_stmt b)).
  destruct (keep s) eqn:E; cbn [map].
  - change (list_sum [nz_stmt (norm_stmt s)]) with (nz_stmt (norm_stmt s) + 0). rewrite Hs. lia.
  - rewrite (nz_unkept s E). reflexivity.
Qed.
Lemma nz_norm : (forall s, nz_stmt (norm_stmt s) = nz_stmt s) /\ (forall l, nz_loc (norm_loc l) = nz_loc l) /\
  (forall g, nz_sub (norm_sub g) = nz_sub g).
Proof.
  apply stmt_all_ind; try (intros; cbn [norm_stmt norm_loc nz_stmt nz_loc]; rewrite ?nz_norm_attrs; auto; fail).
  - intros l r a Hl Hr. cbn [norm_stmt nz_stmt]. rewrite nz_norm_attrs, Hl. f_equal. f_equal.
    induction Hr as [|[o d] r Hd Hr IH]; [reflexivity|]. cbn [map]. lsc. rewrite Hd. f_equal. exact IH.
  - intros i b Hb. cbn [norm_sub nz_sub]. fold (norm_stmts b). rewrite nz_norm_body by exact Hb. reflexivity.
Qed.
Lemma nz_norm_graph g : nz_graph (norm_graph g) = nz_graph g.
Proof.
  unfold nz_graph, norm_graph. cbn [g_id g_stmts]. rewrite nz_norm_body; [reflexivity|]. apply Forall_forall. intros s _. apply nz_norm.
Qed.

(** ** Printing *)
Lemma nz_alist l : nz (alist_str l) = list_sum (map nz_attr l).
Proof.
  assert (A : forall a, nz (attr_str [] a) = nz_attr a).
  { intros a. unfold attr_str, nz_attr. rewrite !nz_app. cbn [nz length filter]. change (nz (lit "=")) with 0. change (nz []) with 0. lia. }
  destruct l as [|a l]; [reflexivity|]. rewrite alist_str_cons, nz_app, nz_concat, A, map_map. cbn [map]. lsc. f_equal.
  f_equal. apply map_ext. intros x. rewrite nz_app, A. reflexivity.
Qed.
Lemma nz_attr_list a : nz (attr_list_str a) = nz_attrs a.
Proof.
  rewrite attr_list_str_eq, <- nz_norm_attrs, nz_concat, map_map. unfold nz_attrs. f_equal. apply map_ext. intros al.
  unfold brack. rewrite !nz_app, nz_alist. change (nz (lit "[ ")) with 0. change (nz (lit " ]")) with 0. change (nz (lit " ")) with 0. lia.
Qed.
Lemma nz_node_str n : nz (node_id_str n) <= nz_node n.
Proof.
  destruct n as [i [p q]]. unfold node_id_str, nz_node, port_str. cbn [nid_id nid_port port_id1 port_id2]. rewrite nz_app.
  destruct p as [|c p]; [cbn; lia|]. rewrite !nz_app. change (nz (lit ":")) with 0. destruct q as [|d q]; [cbn [nz filter length]; lia|].
  rewrite nz_app. change (nz (lit ":")) with 0. lia.
Qed.
Lemma nz_op o : nz (edge_op_str o) = 0.
Proof. destruct o; reflexivity. Qed.
Definition b2n (b : bool) : nat := if b then 0 else 1.

Lemma node_str_last n : wf_node_id is_id n -> exists x, node_id_str n = x ++ last_id n /\ is_id (last_id n).
Proof.
  destruct n as [i [p q]]. unfold wf_node_id, wf_port, node_id_str, port_str, last_id. cbn [nid_id nid_port port_id1 port_id2].
  intros [Hi Hp]. destruct p as [|c p]; [exists []; rewrite app_nil_r; auto|]. destruct q as [|d q].
  - exists (i ++ lit ":"). rewrite app_nil_r, <- app_assoc. auto.
  - exists (i ++ lit ":" ++ (c :: p) ++ lit ":"). rewrite <- !app_assoc. split; [reflexivity|apply Hp].
Qed.
Lemma node_str_first n : exists t, node_id_str n = nid_id n ++ t.
Proof. eexists. reflexivity. Qed.

Lemma nz_join ss : nz (stmt_list_join ss) = list_sum (map nz ss).
Proof.
  assert (E : nz (stmt_list_join ss ++ [nl]) = nz (stmt_list_join ss)) by (rewrite nz_app; change (nz [nl]) with 0; lia).
  rewrite <- E, join_nl. transitivity (list_sum (map nz (filter nonempty ss))).
  - destruct (filter nonempty ss) as [|x l] eqn:F; [reflexivity|]. rewrite nz_concat, map_map. f_equal. apply map_ext.
    intros y. rewrite !nz_app. change (nz (lit ";")) with 0. change (nz [nl]) with 0. lia.
  - clear E. induction ss as [|[|c s] ss IH]; cbn [filter nonempty map]; lsc; [reflexivity|exact IH|]. f_equal. exact IH.
Qed.

Lemma nz_body b ind : Forall (fun s => wf_stmt is_id s -> forall ind, nz ind = 0 -> nz (stmt_str ind s) + b2n (bare_stmt s) <= nz_stmt s) b ->
  Forall (wf_stmt is_id) b -> nz ind = 0 ->
  nz (stmt_list_join (map (stmt_str ind) b)) + b2n (forallb bare_stmt b) <= list_sum (map nz_stmt b).
Proof.
  intros H W Z. rewrite nz_join. induction H as [|s b Hs Hb IH]; [cbn; lia|]. inversion W as [|? ? Ws Wb]; subst.
  specialize (IH Wb). specialize (Hs Ws ind Z). cbn [map forallb]. lsc.
  destruct (bare_stmt s), (forallb bare_stmt b); cbn [andb b2n] in *; lia.
Qed.

Lemma nz_printed :
  (forall s, wf_stmt is_id s -> forall ind, nz ind = 0 -> nz (stmt_str ind s) + b2n (bare_stmt s) <= nz_stmt s) /\
  (forall l, wf_loc is_id l -> nz (location_str l) + b2n (bare_loc l) <= nz_loc l) /\
  (forall g, wf_sub is_id g -> forall ind, nz ind = 0 -> nz (subgraph_str ind g) + b2n (bare_sub g) <= nz_sub g).
Proof.
  assert (AS : forall kw a ind, nz kw = 0 -> nz ind = 0 -> nz (attrs_stmt_str kw ind a) <= nz_attrs a).
  { intros kw a ind Hk Hi. unfold attrs_stmt_str. pose proof (nz_attr_list a) as E. destruct (attr_list_str a); [cbn; lia|].
    rewrite !nz_app, Hk, Hi, E. lia. }
  apply stmt_all_ind.
  - intros n a [Wn Wa] ind Hi. cbn [stmt_str nz_stmt bare_stmt]. rewrite nz_app, Hi. cbn [plus].
    pose proof (nz_trim (node_id_str n ++ lit " " ++ attr_list_str a)) as T. rewrite !nz_app, nz_attr_list in T.
    change (nz (lit " ")) with 0 in T. pose proof (nz_node_str n) as N1.
    destruct (starts_space (nid_id n)) eqn:E1.
    { cbn [negb andb b2n]. destruct (node_str_first n) as (t & Et).
      pose proof (lose_left (nid_id n) (t ++ lit " " ++ attr_list_str a) (proj1 Wn) E1) as Lo.
      rewrite app_assoc, <- Et, !nz_app, nz_attr_list in Lo. change (nz (lit " ")) with 0 in Lo. lia. }
    destruct (has_attr a) eqn:E2; [cbn [negb andb orb b2n]; lia|].
    destruct (ends_space (last_id n)) eqn:E3; [|cbn [negb andb orb b2n]; lia].
    cbn [negb andb orb b2n]. destruct (node_str_last n Wn) as (x & Ex & Hl).
    assert (Ea : attr_list_str a = []).
    { apply wf_filter_cases. rewrite has_attr_norm in E2. destruct (norm_attrs a); [reflexivity|discriminate]. }
    rewrite Ea, app_nil_r.
    assert (V : vis_left (node_id_str n)) by (destruct (node_str_first n) as (t & ->); apply vis_left_app, sharp_left; [apply Wn|exact E1]).
    rewrite Ex in V |- *. pose proof (lose_right x (last_id n) (lit " ") (or_intror eq_refl) V Hl E3) as Lo. rewrite Ex in N1. lia.
  - intros l r a Hl Hr Hw ind Hi. apply wf_edge_iff in Hw. destruct Hw as (Wl & Wn & Wr & Wa).
    cbn [stmt_str nz_stmt bare_stmt]. rewrite nz_app, Hi. cbn [plus]. specialize (Hl Wl).
    replace (fold_left (fun acc e => acc ++ e) (map edge_rh_str r) []) with (concat (map edge_rh_str r))
      by (rewrite (fold_app (fun e => e)), map_id; reflexivity).
    assert (R : nz (concat (map edge_rh_str r)) + b2n (forallb (fun e => match e with EdgeRH _ d => dst_bare d && bare_loc d end) r)
      <= list_sum (map (fun e => match e with EdgeRH _ d => nz_loc d end) r)).
    { clear Wn. rewrite nz_concat, map_map. induction Hr as [|[o d] r Hd Hr IH]; [cbn; lia|]. inversion Wr as [|? ? Wd Wr']; subst. cbn in Wd.
      specialize (IH Wr'). specialize (Hd Wd). cbn [map forallb]. lsc.
      assert (D : nz (edge_rh_str (EdgeRH o d)) + b2n (dst_bare d && bare_loc d) <= nz_loc d).
      { cbn [edge_rh_str]. pose proof (nz_trim (edge_op_str o ++ location_str d)) as T. rewrite nz_app, nz_op in T.
        destruct d as [n|g]; cbn [dst_bare bare_loc andb] in *; [|lia].
        destruct (ends_space (last_id n)) eqn:E3; cbn [negb andb b2n] in *; [|lia].
        cbn [location_str nz_loc] in *. destruct (node_str_last n Wd) as (x & Ex & Hlast). rewrite Ex in *.
        assert (V : vis_left ((edge_op_str o ++ x) ++ last_id n)).
        { rewrite <- app_assoc. destruct o; apply vis_left_ascii; reflexivity. }
        pose proof (lose_right (edge_op_str o ++ x) (last_id n) [] (or_introl eq_refl) V Hlast E3) as Lo.
        rewrite app_nil_r, <- app_assoc, !nz_app, nz_op in Lo. rewrite nz_app in Hd. lia. }
      destruct (dst_bare d && bare_loc d), (forallb (fun e => match e with EdgeRH _ d => dst_bare d && bare_loc d end) r); cbn [andb b2n] in *; lia. }
    pose proof (nz_trim (concat (map edge_rh_str r))) as T1.
    pose proof (nz_trim (location_str l ++ trim_space (concat (map edge_rh_str r)) ++ lit " " ++ attr_list_str a)) as T.
    rewrite !nz_app, nz_attr_list in T. change (nz (lit " ")) with 0 in T.
    destruct (src_bare l) eqn:E1.
    + destruct (bare_loc l), (forallb (fun e => match e with EdgeRH _ d => dst_bare d && bare_loc d end) r); cbn [andb b2n] in *; lia.
    + destruct l as [n|g]; [|discriminate]. cbn [src_bare] in E1. apply negb_false_iff in E1. cbn [andb b2n].
      cbn [location_str nz_loc] in *. destruct (node_str_first n) as (t & Et).
      pose proof (lose_left (nid_id n) (t ++ trim_space (concat (map edge_rh_str r)) ++ lit " " ++ attr_list_str a) (proj1 Wl) E1) as Lo.
      rewrite app_assoc, <- Et, !nz_app, nz_attr_list in Lo. change (nz (lit " ")) with 0 in Lo. lia.
  - intros a Wa ind Hi. cbn [stmt_str nz_stmt bare_stmt b2n]. rewrite Nat.add_0_r. apply AS; [reflexivity|exact Hi].
  - intros a Wa ind Hi. cbn [stmt_str nz_stmt bare_stmt b2n]. rewrite Nat.add_0_r. apply AS; [reflexivity|exact Hi].
  - intros a Wa ind Hi. cbn [stmt_str nz_stmt bare_stmt b2n]. rewrite Nat.add_0_r. apply AS; [reflexivity|exact Hi].
  - intros g Hg Hw ind Hi. apply Hg; assumption.
  - intros a Wa ind Hi. cbn [stmt_str nz_stmt bare_stmt b2n]. unfold attr_str, nz_attr. rewrite !nz_app, Hi. change (nz (lit "=")) with 0. lia.
  - intros n Wn. cbn [location_str bare_loc nz_loc b2n]. pose proof (nz_node_str n). lia.
  - intros g Hg Hw. cbn [location_str bare_loc nz_loc]. apply Hg; [exact Hw|reflexivity].
  - intros i b Hb Hw ind Hi. apply wf_sub_iff in Hw. destruct Hw as [Wi Wb]. cbn [subgraph_str bare_sub nz_sub].
    assert (Z : nz (ind ++ [tab]) = 0) by (rewrite nz_app, Hi; reflexivity).
    pose proof (nz_body b (ind ++ [tab]) Hb Wb Z) as B. rewrite !nz_app, Hi.
    change (nz (lit "subgraph ")) with 0. change (nz (lit " {")) with 0. change (nz [nl]) with 0. change (nz (lit "}")) with 0. lia.
Qed.
Lemma nz_graph_str g : wf_graph is_id g -> nz (graph_str g) + b2n (bare_graph g) <= nz_graph g.
Proof.
  intros [Wi Wb]. unfold graph_str, bare_graph, nz_graph, stmts_str.
  pose proof (nz_body (g_stmts g) [tab]) as B. rewrite !nz_app.
  assert (Z : nz (if g_strict g then lit "strict " else []) = 0) by (destruct (g_strict g); reflexivity).
  assert (Z2 : nz (graph_type_str (g_type g)) = 0) by (destruct (g_type g); reflexivity). rewrite Z, Z2.
  change (nz (lit " ")) with 0. change (nz (lit " {")) with 0. change (nz [nl]) with 0. change (nz (lit "}")) with 0.
  specialize (B ltac:(apply Forall_forall; intros s _; apply nz_printed) Wb eq_refl). lia.
Qed.

(** ** Parsing *)
Definition nz_word (w : word) : nat := list_sum (map (fun x => nz (snd x)) w).
Lemma nz_word_app w w' : nz_word (w ++ w') = nz_word w + nz_word w'.
Proof. unfold nz_word. rewrite map_app, list_sum_app. reflexivity. Qed.
Lemma nz_word_cons ty l w : nz_word ((ty, l) :: w) = nz l + nz_word w.
Proof. reflexivity. Qed.
Lemma nz_anon r : nz (anon r) = 0.
Proof.
  pose proof (anon_ascii r) as A. rewrite forallb_forall in A. unfold nz. apply length_zero_iff_nil.
  destruct (filter hi_byte (anon r)) as [|c l] eqn:E; [reflexivity|].
  assert (H : In c (filter hi_byte (anon r))) by (rewrite E; left; reflexivity). apply filter_In in H. destruct H as [H1 H2].
  specialize (A c H1). unfold hi_byte in H2. apply N.ltb_lt in A. apply N.leb_le in H2. lia.
Qed.

Ltac nzw := repeat (rewrite nz_word_app || rewrite nz_word_cons); change (nz_word []) with 0.
Lemma nz_d_attr w a : d_attr w a -> nz_attr a <= nz_word w.
Proof. destruct 1; nzw; unfold nz_attr; cbn [at_field at_value]; [change (nz (lit "true")) with 0|]; lia. Qed.
Lemma nz_d_alist w l : d_alist w l -> list_sum (map nz_attr l) <= nz_word w.
Proof.
  induction 1 as [w a Ha|w a c w' l Ha Hc Hl IH]; apply nz_d_attr in Ha; nzw; cbn [map]; lsc; lia.
Qed.
Lemma nz_d_brack w l : d_brack w l -> nz_attrs l <= nz_word w.
Proof. destruct 1 as [a b|a w l b Hl]; nzw; unfold nz_attrs; cbn [map]; lsc; [cbn; lia|]. apply nz_d_alist in Hl. lia. Qed.
Lemma nz_attrs_app l l' : nz_attrs (l ++ l') = nz_attrs l + nz_attrs l'.
Proof. unfold nz_attrs. rewrite map_app, list_sum_app. reflexivity. Qed.
Lemma nz_d_attrs w l : d_attrs w l -> nz_attrs l <= nz_word w.
Proof.
  induction 1 as [w l Hb|w l w' l' Hb Hl IH]; apply nz_d_brack in Hb; [exact Hb|]. rewrite nz_attrs_app. nzw. lia.
Qed.
Lemma nz_d_opt_attrs w l : d_opt_attrs w l -> nz_attrs l <= nz_word w.
Proof. destruct 1 as [|w l H]; [cbn; lia|apply nz_d_attrs; exact H]. Qed.
Lemma nz_d_node w n : d_node_id w n -> nz_node n <= nz_word w.
Proof. destruct 1; nzw; unfold nz_node; cbn [nid_id nid_port port_id1 port_id2]; change (nz []) with 0; lia. Qed.

Section Der.
  Variable rnd : nat -> N.
  Lemma nz_derived :
    (forall w s k k', d_stmt rnd w s k k' -> nz_stmt s <= nz_word w) /\
    (forall w l k k', d_loc rnd w l k k' -> nz_loc l <= nz_word w) /\
    (forall w r k k', d_rhs rnd w r k k' -> list_sum (map (fun e => match e with EdgeRH _ d => nz_loc d end) r) <= nz_word w) /\
    (forall w g k k', d_sub rnd w g k k' -> nz_sub g <= nz_word w) /\
    (forall w l k k', d_body rnd w l k k' -> list_sum (map nz_stmt l) <= nz_word w) /\
    (forall w l k k', d_stmts rnd w l k k' -> list_sum (map nz_stmt l) <= nz_word w).
  Proof.
    apply d_mut.
    - intros f e v k. nzw. cbn [nz_stmt]. unfold nz_attr. cbn [at_field at_value]. lia.
    - intros w n wa a k Hn Ha. apply nz_d_node in Hn. apply nz_d_opt_attrs in Ha. nzw. cbn [nz_stmt]. lia.
    - intros w l w1 r wa a k k1 k2 _ IHl _ IHr Ha. apply nz_d_opt_attrs in Ha. nzw. cbn [nz_stmt]. lia.
    - intros s wa a k Ha. apply nz_d_attrs in Ha. nzw. cbn [nz_stmt]. lia.
    - intros s wa a k Ha. apply nz_d_attrs in Ha. nzw. cbn [nz_stmt]. lia.
    - intros s wa a k Ha. apply nz_d_attrs in Ha. nzw. cbn [nz_stmt]. lia.
    - intros w g k k1 _ IH. exact IH.
    - intros w n k Hn. apply nz_d_node in Hn. exact Hn.
    - intros w g k k1 _ IH. exact IH.
    - intros [ty o] b w l k k1 _ _ IH. nzw. cbn [map]. lsc. lia.
    - intros [ty o] b w l w' r k k1 k2 _ _ IH _ IHr. nzw. cbn [map]. lsc. lia.
    - intros a w l b k k1 _ IH. nzw. cbn [nz_sub]. rewrite nz_anon. lia.
    - intros s w l k k1 _ IH. nzw. cbn [nz_sub]. rewrite nz_anon. lia.
    - intros s i w l k k1 _ IH. nzw. cbn [nz_sub]. lia.
    - intros a b k. cbn. lia.
    - intros a w l b k k1 _ IH. nzw. lia.
    - intros w s c k k1 _ IH _. nzw. cbn [map]. lsc. lia.
    - intros w s c w' l k k1 k2 _ IH _ _ IHl. nzw. cbn [map]. lsc. lia.
  Qed.
  Lemma nz_derived_graph w g k k' : d_graph rnd w g k k' -> nz_graph g <= nz_word w.
  Proof.
    destruct 1 as [ws st [tt tl] ty wi i wb l k k1 _ _ Hi Hb]. apply nz_derived in Hb. unfold nz_graph. cbn [g_id g_stmts].
    assert (nz i <= nz_word wi) by (destruct Hi; nzw; [cbn; lia|lia]). nzw. lia.
  Qed.
End Der.

Lemma nz_lexes p ps ts : lexes p ps ts -> list_sum (map (fun x : stoken => nz (snd (fst x))) ts) <= nz (text ps).
Proof.
  induction 1 as [p|p ps u rest ts Hl H IH|p ps u rest ty ts Hl H IH|p u c rest H1 H2 H3|p u H1 H2 H3].
  - cbn. lia.
  - destruct Hl as (-> & _). rewrite text_app, nz_app. lia.
  - destruct Hl as (-> & _). rewrite text_app, nz_app. cbn [map fst snd]. lsc. lia.
  - cbn [map fst snd]. lsc. replace (u ++ c :: rest) with ((u ++ [c]) ++ rest) by (rewrite <- app_assoc; reflexivity).
    rewrite (text_app (u ++ [c]) rest), nz_app. lia.
  - cbn [map fst snd]. lsc. lia.
Qed.
Lemma nz_scans src w : scans_to src w -> nz_word w <= nz src.
Proof.
  intros (ts & p & H & <-). apply nz_lexes in H. rewrite text_pieces, map_app, list_sum_app in H.
  unfold nz_word. rewrite map_map. etransitivity; [|exact H]. apply Nat.le_add_r.
Qed.
Theorem nz_parse rnd k src g k' : parse_bytes rnd k src = Ok (g, k') -> nz_graph g <= nz src.
Proof.
  intros H. apply parse_ok_iff in H. destruct H as (w & Hs & Hd). apply nz_scans in Hs. apply nz_derived_graph in Hd. lia.
Qed.

(** ** Together *)
Theorem exposed_lost rnd k g g' k' : wf_graph is_id g -> bare_graph g = false ->
  parse_bytes rnd k (graph_str g) = Ok (g', k') -> nz_graph g' < nz_graph g.
Proof. intros W B H. apply nz_parse in H. pose proof (nz_graph_str g W) as L. rewrite B in L. cbn [b2n] in L. lia. Qed.
