(** Property C59: semicolons and commas are optional, and the spelling of keywords does not matter. *)
From Coq Require Import List Ascii NArith ZArith Bool Lia.
From Verif Require Import Base Ast Lexer LexSpec Parser ParserDefs LexerProofs Tokens LexFacts SpecGrammar GrammarProofs
  ParseFacts SpecSep PropsParse.
Import ListNotations.

Lemma thinner_app w1 w2 w' : thinner (w1 ++ w2) w' -> exists a b, w' = a ++ b /\ thinner w1 a /\ thinner w2 b.
Proof.
  revert w'. induction w1 as [|x w1 IH]; intros w' H.
  - exists [], w'. split; [reflexivity|]. split; [constructor|exact H].
  - cbn in H. inversion H; subst.
    + destruct (IH _ H3) as (a & b & -> & Ha & Hb). exists a, b. split; [reflexivity|]. split; [constructor; exact Ha|exact Hb].
    + destruct (IH _ H3) as (a & b & -> & Ha & Hb). exists a, b. split; [reflexivity|]. split; [constructor; exact Ha|exact Hb].
    + destruct (IH _ H3) as (a & b & -> & Ha & Hb). exists ((ID, i) :: a), b. split; [reflexivity|]. split; [constructor; exact Ha|exact Hb].
    + destruct (IH _ H4) as (a & b & -> & Ha & Hb). exists ((t, s') :: a), b. split; [reflexivity|]. split; [constructor; assumption|exact Hb].
Qed.
Lemma thinner_nil w : thinner [] w -> w = [].
Proof. intros H. inversion H. reflexivity. Qed.
Lemma thinner_id i w w' : thinner ((ID, i) :: w) w' -> exists b, w' = (ID, i) :: b /\ thinner w b.
Proof. intros H. inversion H; subst; [eauto|congruence]. Qed.
Lemma thinner_kw t s w w' : t <> T_semi -> t <> T_comma -> t <> ID -> thinner ((t, s) :: w) w' -> exists s' b, w' = (t, s') :: b /\ thinner w b.
Proof. intros H1 H2 H3 H. inversion H; subst; try congruence. eauto. Qed.
Ltac thin :=
  repeat match goal with
  | H : thinner [] _ |- _ => apply thinner_nil in H; subst
  | H : thinner (_ ++ _) _ |- _ => apply thinner_app in H; destruct H as (? & ? & -> & ? & ?)
  | H : thinner ((ID, _) :: _) _ |- _ => apply thinner_id in H; destruct H as (? & -> & ?)
  | H : thinner ((?t, _) :: _) _ |- _ => apply thinner_kw in H; [destruct H as (? & ? & -> & ?)|discriminate|discriminate|discriminate]
  end.
Lemma thin_attr w a w' : d_attr w a -> thinner w w' -> d_attr w' a.
Proof. intros H T. inversion H; subst; thin; constructor. Qed.
Lemma thin_comma c w' : d_comma c -> thinner c w' -> d_comma w'.
Proof.
  intros H T. inversion H; subst.
  - thin. constructor.
  - inversion T; subst; try (match goal with H : thinner [] _ |- _ => apply thinner_nil in H; subst end; constructor).
Qed.
Lemma thin_semi c w' : d_semi c -> thinner c w' -> d_semi w'.
Proof.
  intros H T. inversion H; subst.
  - thin. constructor.
  - inversion T; subst; try (match goal with H : thinner [] _ |- _ => apply thinner_nil in H; subst end; constructor).
Qed.
Lemma thin_alist w a : d_alist w a -> forall w', thinner w w' -> d_alist w' a.
Proof.
  induction 1 as [w a H|w a c w1 l H1 H2 H3 IH]; intros w' T.
  - constructor. exact (thin_attr _ _ _ H T).
  - thin. constructor; [eapply thin_attr; eassumption|eapply thin_comma; eassumption|auto].
Qed.
Lemma thin_brack w a w' : d_brack w a -> thinner w w' -> d_brack w' a.
Proof.
  intros H T. inversion H; subst; thin.
  - constructor.
  - constructor. eapply thin_alist; eassumption.
Qed.
Lemma thin_attrs w a : d_attrs w a -> forall w', thinner w w' -> d_attrs w' a.
Proof.
  induction 1 as [w l H|w l w1 l1 H1 H2 IH]; intros w' T.
  - constructor. exact (thin_brack _ _ _ H T).
  - thin. constructor; [eapply thin_brack; eassumption|auto].
Qed.
Lemma thin_opt_attrs w a w' : d_opt_attrs w a -> thinner w w' -> d_opt_attrs w' a.
Proof. intros H T. inversion H; subst; thin; [constructor|]. constructor 2. eapply thin_attrs; eassumption. Qed.
Lemma thin_node_id w a w' : d_node_id w a -> thinner w w' -> d_node_id w' a.
Proof. intros H T. inversion H; subst; thin; constructor. Qed.
Lemma thin_op o b w w' : d_op o b -> thinner (o :: w) w' -> exists o' u, w' = o' :: u /\ d_op o' b /\ thinner w u.
Proof. intros H T. inversion H; subst; thin; do 2 eexists; (split; [reflexivity|]); (split; [constructor|assumption]). Qed.
Lemma thin_all rnd :
  (forall w s k k', d_stmt rnd w s k k' -> forall w', thinner w w' -> d_stmt rnd w' s k k') /\
  (forall w s k k', d_loc rnd w s k k' -> forall w', thinner w w' -> d_loc rnd w' s k k') /\
  (forall w s k k', d_rhs rnd w s k k' -> forall w', thinner w w' -> d_rhs rnd w' s k k') /\
  (forall w s k k', d_sub rnd w s k k' -> forall w', thinner w w' -> d_sub rnd w' s k k') /\
  (forall w s k k', d_body rnd w s k k' -> forall w', thinner w w' -> d_body rnd w' s k k') /\
  (forall w s k k', d_stmts rnd w s k k' -> forall w', thinner w w' -> d_stmts rnd w' s k k').
Proof.
  apply d_mut; intros.
  all: try match goal with Ho : d_op ?o _, T : thinner (?o :: _) _ |- _ => destruct (thin_op _ _ _ _ Ho T) as (? & ? & -> & ? & ?) end.
  all: thin; econstructor; eauto using thin_node_id, thin_opt_attrs, thin_attrs, thin_semi.
Qed.
Lemma thinner_app_intro a b x y : thinner a x -> thinner b y -> thinner (a ++ b) (x ++ y).
Proof. induction 1; intros; cbn; try constructor; auto. Qed.
Lemma thin_graph rnd w g k k' w' : d_graph rnd w g k k' -> thinner w w' -> d_graph rnd w' g k k'.
Proof.
  intros H T. inversion H as [ws st t ty wi i wb l k0 k1 Hs Hk Hi Hb]; subst.
  apply thinner_app in T. destruct T as (ws' & w2 & -> & Ts & T).
  assert (exists t' u, w2 = t' :: u /\ d_kind t' ty /\ thinner (wi ++ wb) u) as (t' & u & -> & HK' & T').
  { inversion Hk; subst; (apply thinner_kw in T; [destruct T as (s' & b & -> & T)|discriminate|discriminate|discriminate]);
      do 2 eexists; (split; [reflexivity|]); (split; [constructor|exact T]). }
  apply thinner_app in T'. destruct T' as (wi' & wb' & -> & Ti & Tb).
  apply dg_graph; [|exact HK'| |exact (proj1 (proj2 (proj2 (proj2 (proj2 (thin_all rnd))))) _ _ _ _ Hb _ Tb)].
  - inversion Hs; subst; thin; constructor.
  - inversion Hi; subst; thin; constructor.
Qed.
Lemma thinner_essence w : thinner w (essence w).
Proof.
  induction w as [|(t & s) w IH]; [constructor|]. cbn [essence flat_map fst]. fold (essence w).
  destruct (Nat.eqb_spec t T_semi) as [->|H1]; [apply th_drop_semi; exact IH|].
  destruct (Nat.eqb_spec t T_comma) as [->|H2]; [apply th_drop_comma; exact IH|].
  destruct (Nat.eqb_spec t ID) as [->|H3]; cbn; constructor; assumption.
Qed.
Lemma essence_ids w : ids_nonempty w -> ids_nonempty (essence w).
Proof.
  unfold ids_nonempty. rewrite !Forall_forall. intros H x Hx. unfold essence in Hx. apply in_flat_map in Hx.
  destruct Hx as (y & Hy & Hx). destruct (_ || _); [contradiction|]. destruct (Nat.eqb_spec (fst y) ID) as [E|E];
    destruct Hx as [<-|[]]; [exact (H _ Hy)|]. cbn. congruence.
Qed.
Lemma essence_range w : Forall (fun x : nat * gostr => 2 <= fst x <= 18) w -> Forall (fun x : nat * gostr => 2 <= fst x <= 18) (essence w).
Proof.
  rewrite !Forall_forall. intros H x Hx. unfold essence in Hx. apply in_flat_map in Hx.
  destruct Hx as (y & Hy & Hx). destruct (_ || _); [contradiction|]. destruct (Nat.eqb (fst y) ID);
    destruct Hx as [<-|[]]; exact (H _ Hy).
Qed.

Lemma scans_to_range src w : scans_to src w -> Forall (fun x : nat * gostr => 2 <= fst x <= 18) w.
Proof.
  intros (ts & p & H & <-). destruct (lexes_shape _ _ _ H) as (ts0 & t & E & Hf & _).
  apply app_inj_tail in E. destruct E as [-> _]. apply Forall_map. exact Hf.
Qed.
Lemma scans_to_fun src w1 w2 : scans_to src w1 -> scans_to src w2 -> w1 = w2.
Proof.
  intros (ts & p & H & <-) (ts' & p' & H' & <-). apply tokens_spec in H. apply tokens_spec in H'. rewrite H in H'.
  apply app_inj_tail in H'. destruct H' as [-> _]. reflexivity.
Qed.

(** ** C59: leaving out semicolons and commas, and spelling keywords differently, does not change what Parse returns. *)
Theorem C59_leave_out : forall rnd k0 src src' w w' g k,
  scans_to src w -> scans_to src' w' -> thinner w w' ->
  parse_bytes rnd k0 src = Ok (g, k) -> parse_bytes rnd k0 src' = Ok (g, k).
Proof.
  intros rnd k0 src src' w w' g k H1 H2 T E. apply parse_ok_iff in E. destruct E as (w0 & Hs & Hd).
  assert (w0 = w) as -> by (eapply scans_to_fun; eassumption).
  apply parse_ok_iff. exists w'. split; [exact H2|]. exact (thin_graph _ _ _ _ _ _ Hd T).
Qed.
Print Assumptions C59_leave_out.
(** Two accepted texts that differ in semicolons, commas and spellings of keywords only have the same AST. *)
Theorem C59_separators : forall rnd k0 src1 src2 w1 w2 g1 k1 g2 k2,
  scans_to src1 w1 -> scans_to src2 w2 -> essence w1 = essence w2 ->
  parse_bytes rnd k0 src1 = Ok (g1, k1) -> parse_bytes rnd k0 src2 = Ok (g2, k2) -> g1 = g2 /\ k1 = k2.
Proof.
  intros rnd k0 src1 src2 w1 w2 g1 k1 g2 k2 H1 H2 E P1 P2.
  apply parse_ok_iff in P1. destruct P1 as (v1 & S1 & D1). assert (v1 = w1) as -> by (eapply scans_to_fun; eassumption).
  apply parse_ok_iff in P2. destruct P2 as (v2 & S2 & D2). assert (v2 = w2) as -> by (eapply scans_to_fun; eassumption).
  apply (d_graph_unique rnd (essence w1) g1 k1 g2 k2 k0).
  - apply essence_ids. exact (scans_to_ids _ _ H1).
  - apply essence_range. exact (scans_to_range _ _ H1).
  - exact (thin_graph _ _ _ _ _ _ D1 (thinner_essence w1)).
  - rewrite E. exact (thin_graph _ _ _ _ _ _ D2 (thinner_essence w2)).
Qed.
Print Assumptions C59_separators.

Definition ex_thick : gostr := lit "digraph G { a -> b [color=red, style=bold]; node [shape=box]; subgraph S { c; }; }".
Definition ex_thin : gostr := lit "DIGRAPH G { a -> b [color=red style=bold] Node [shape=box] SubGraph S { c } }".
Definition word_at (src : gostr) : word := removelast (map (fun t => (tk_type t, tk_lit t)) (tokens src)).
Lemma word_scans src : tk_type (last (tokens src) (Token 0 [] 0 0 0)) = EOF -> scans_to src (word_at src).
Proof.
  intros H. apply scans_to_tokens. destruct (tokens src) as [|t0 ts0] eqn:E.
  - discriminate H.
  - exists (removelast (t0 :: ts0)), (last (t0 :: ts0) (Token 0 [] 0 0 0)). split; [|split; [exact H|]].
    + apply app_removelast_last. discriminate.
    + unfold word_at. rewrite E. unfold word_of. clear. generalize (t0 :: ts0). intros l. induction l as [|x [|y l] IH]; [reflexivity..|].
      change (removelast (x :: y :: l)) with (x :: removelast (y :: l)). cbn [map]. rewrite IH. reflexivity.
Qed.
(** The hypotheses are met; a comma and four semicolons are left out, three keywords are spelt differently. *)
Example C59_example : exists g k,
  scans_to ex_thick (word_at ex_thick) /\ scans_to ex_thin (word_at ex_thin) /\ thinner (word_at ex_thick) (word_at ex_thin) /\
  length (word_at ex_thick) = 5 + length (word_at ex_thin) /\
  parse_bytes rnd0 0 ex_thick = Ok (g, k).
Proof.
  assert (E : exists g k, parse_bytes rnd0 0 ex_thick = Ok (g, k)) by (do 2 eexists; vm_compute; reflexivity).
  destruct E as (g & k & E). exists g, k.
  split; [apply word_scans; vm_compute; reflexivity|]. split; [apply word_scans; vm_compute; reflexivity|].
  split; [|split; [vm_compute; reflexivity|exact E]].
  let a := eval vm_compute in (word_at ex_thick) in let b := eval vm_compute in (word_at ex_thin) in
  replace (word_at ex_thick) with a by (vm_compute; reflexivity); replace (word_at ex_thin) with b by (vm_compute; reflexivity).
  repeat first [apply th_nil | apply th_id | (apply th_other; [discriminate|]) | apply th_drop_semi | apply th_drop_comma].
Qed.
(** Separators cannot be added everywhere. *)
Example C59_converse_refuted : exists e, parse_bytes rnd0 0 (lit "digraph G { a ; -> b }") = Err e.
Proof. eexists. vm_compute. reflexivity. Qed.
