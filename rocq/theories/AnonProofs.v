(** C11: names of anonymous subgraphs, read off the token sequence by a small machine. *)
From Coq Require Import List Ascii NArith ZArith Bool Lia Arith.
From Verif Require Import Base Ast LexSpec SpecGrammar.
Import ListNotations.

(** ** Specification *)
(** The headings of the braces, in the order in which the braces close: [Some i] for a brace opened
    after "subgraph i" (or after the graph's own heading with an ID), [None] for a brace without a
    name.  [pend] is the name seen since the last opening keyword, [open] the stack of open braces. *)
Inductive pending := PNo | PKw | PName (i : gostr).
Fixpoint closings (open : list (option gostr)) (pend : pending) (w : word) : list (option gostr) :=
  match w with
  | [] => []
  | (ty, l) :: w' =>
      if Nat.eqb ty T_subgraph then closings open PKw w'
      else if Nat.eqb ty T_lbrace then
        closings ((match pend with PName i => Some i | _ => None end) :: open) PNo w'
      else if Nat.eqb ty T_rbrace then
        match open with
        | h :: open' => h :: closings open' PNo w'
        | [] => closings [] PNo w'
        end
      else if Nat.eqb ty ID then
        closings open (match pend with PKw => PName l | _ => PNo end) w'
      else closings open PNo w'
  end.
(** Drop the last closing brace: it is the graph's. *)
Definition subgraph_headings (w : word) : list (option gostr) := removelast (closings [] PNo w).

(** Fill in names from the random source, starting with its value number [k]. *)
Fixpoint fill (rnd : nat -> N) (k : nat) (hs : list (option gostr)) : list gostr :=
  match hs with
  | [] => []
  | Some i :: hs' => i :: fill rnd k hs'
  | None :: hs' => anon (rnd k) :: fill rnd (S k) hs'
  end.
Definition anonymous (hs : list (option gostr)) : nat :=
  length (filter (fun h => match h with None => true | _ => false end) hs).

(** The names of the subgraphs of an AST, in the order in which they close. *)
Fixpoint stmt_subs (s : stmt) : list gostr :=
  match s with
  | SEdge src rhs _ => loc_subs src ++ flat_map rh_subs rhs
  | SSub g => sub_subs g
  | _ => []
  end
with loc_subs (l : location) : list gostr :=
  match l with LNode _ => [] | LSub g => sub_subs g end
with rh_subs (e : edge_rh) : list gostr :=
  match e with EdgeRH _ l => loc_subs l end
with sub_subs (g : subgraph) : list gostr :=
  match g with SubGraph id body => flat_map stmt_subs body ++ [id] end.

(** ** Proof *)
Lemma closings_node_id w n open rest : d_node_id w n -> closings open PNo (w ++ rest) = closings open PNo rest.
Proof. destruct 1; reflexivity. Qed.
Lemma closings_attr w a open rest : d_attr w a -> closings open PNo (w ++ rest) = closings open PNo rest.
Proof. destruct 1; reflexivity. Qed.
Lemma closings_comma c open rest : d_comma c -> closings open PNo (c ++ rest) = closings open PNo rest.
Proof. destruct 1; reflexivity. Qed.
Lemma closings_semi c open rest : d_semi c -> closings open PNo (c ++ rest) = closings open PNo rest.
Proof. destruct 1; reflexivity. Qed.
Lemma closings_alist w l : d_alist w l -> forall open rest, closings open PNo (w ++ rest) = closings open PNo rest.
Proof.
  induction 1 as [w a Ha|w a c w' l Ha Hc Hl IH]; intros open rest; [eapply closings_attr; eauto|].
  rewrite <- !app_assoc. rewrite (closings_attr _ _ _ _ Ha), (closings_comma _ _ _ Hc). apply IH.
Qed.
Lemma closings_brack w l open rest : d_brack w l -> closings open PNo (w ++ rest) = closings open PNo rest.
Proof.
  destruct 1 as [a b|a w l b Hl]; [reflexivity|]. cbn [app closings Nat.eqb T_subgraph T_lbrace T_rbrace ID T_lbrack].
  rewrite <- app_assoc, (closings_alist _ _ Hl). reflexivity.
Qed.
Lemma closings_attrs w l : d_attrs w l -> forall open rest, closings open PNo (w ++ rest) = closings open PNo rest.
Proof.
  induction 1 as [w l Hb|w l w' l' Hb Hl IH]; intros open rest; [eapply closings_brack; eauto|].
  rewrite <- app_assoc, (closings_brack _ _ _ _ Hb). apply IH.
Qed.
Lemma closings_opt_attrs w l open rest : d_opt_attrs w l -> closings open PNo (w ++ rest) = closings open PNo rest.
Proof. destruct 1; [reflexivity|]. eapply closings_attrs; eauto. Qed.

Lemma fill_app rnd hs : forall k hs', fill rnd k (hs ++ hs') = fill rnd k hs ++ fill rnd (k + anonymous hs) hs'.
Proof.
  induction hs as [|[i|] hs IH]; intros k hs'; cbn.
  - rewrite Nat.add_0_r. reflexivity.
  - rewrite IH. reflexivity.
  - rewrite IH. cbn. unfold anonymous. rewrite <- plus_n_Sm. reflexivity.
Qed.
Lemma anonymous_app a b : anonymous (a ++ b) = anonymous a + anonymous b.
Proof. unfold anonymous. rewrite filter_app, app_length. reflexivity. Qed.

Section An.
  Variable rnd : nat -> N.
  (** the construct contributes the headings [hs], which name the subgraphs [names] *)
  Definition contributes (w : word) (names : list gostr) (k k' : nat) : Prop :=
    exists hs, (forall open rest, closings open PNo (w ++ rest) = hs ++ closings open PNo rest) /\
               names = fill rnd k hs /\ k' = k + anonymous hs.

  Lemma contributes_nil w k : (forall open rest, closings open PNo (w ++ rest) = closings open PNo rest) -> contributes w [] k k.
  Proof. intros H. exists []. split; [exact H|]. split; [reflexivity|]. cbn. lia. Qed.
  Lemma contributes_app w1 n1 w2 n2 k k1 k2 : contributes w1 n1 k k1 -> contributes w2 n2 k1 k2 -> contributes (w1 ++ w2) (n1 ++ n2) k k2.
  Proof.
    intros (h1 & C1 & -> & ->) (h2 & C2 & -> & ->). exists (h1 ++ h2). split.
    - intros open rest. rewrite <- !app_assoc, C1, C2. reflexivity.
    - split; [rewrite fill_app; reflexivity|]. rewrite anonymous_app. lia.
  Qed.

  (** bodies: the heading [h] of the opening brace depends on [pend] *)
  Definition body_contributes (w : word) (names : list gostr) (k k' : nat) : Prop :=
    exists hs, (forall open pend rest, closings open pend (w ++ rest) =
        hs ++ (match pend with PName i => Some i | _ => None end) :: closings open PNo rest) /\
      names = fill rnd k hs /\ k' = k + anonymous hs.

  Lemma an_all :
    (forall w s k k', d_stmt rnd w s k k' -> contributes w (stmt_subs s) k k') /\
    (forall w l k k', d_loc rnd w l k k' -> contributes w (loc_subs l) k k') /\
    (forall w r k k', d_rhs rnd w r k k' -> contributes w (flat_map rh_subs r) k k') /\
    (forall w g k k', d_sub rnd w g k k' -> contributes w (sub_subs g) k k') /\
    (forall w l k k', d_body rnd w l k k' -> body_contributes w (flat_map stmt_subs l) k k') /\
    (forall w l k k', d_stmts rnd w l k k' -> contributes w (flat_map stmt_subs l) k k').
  Proof.
    apply d_mut.
    - intros. apply contributes_nil. reflexivity.
    - intros w n wa a k Hn Ha. apply contributes_nil. intros open rest.
      rewrite <- app_assoc, (closings_node_id _ _ _ _ Hn). eapply closings_opt_attrs; eauto.
    - intros w l w1 r wa a k k1 k2 _ IHl _ IHr Ha. cbn [stmt_subs]. rewrite <- (app_nil_r (flat_map rh_subs r)).
      eapply contributes_app; [exact IHl|]. eapply contributes_app; [exact IHr|].
      apply contributes_nil. intros. eapply closings_opt_attrs; eauto.
    - intros s wa a k Ha. apply contributes_nil. intros. exact (closings_attrs _ _ Ha _ _).
    - intros s wa a k Ha. apply contributes_nil. intros. exact (closings_attrs _ _ Ha _ _).
    - intros s wa a k Ha. apply contributes_nil. intros. exact (closings_attrs _ _ Ha _ _).
    - intros w g k k1 _ IH. exact IH.
    - intros w n k Hn. apply contributes_nil. intros. eapply closings_node_id; eauto.
    - intros w g k k1 _ IH. exact IH.
    - intros o b w l k k1 Ho _ IH. cbn [flat_map rh_subs]. rewrite app_nil_r.
      destruct IH as (hs & C & E1 & E2). exists hs. split; [|auto]. intros open rest.
      destruct Ho; apply C.
    - intros o b w l w' r k k1 k2 Ho _ IHl _ IHr. cbn [flat_map rh_subs].
      destruct (contributes_app _ _ _ _ _ _ _ IHl IHr) as (hs & C & E1 & E2). exists hs. split; [|auto]. intros open rest.
      destruct Ho; apply C.
    - intros a w l b k k1 _ (hs & C & E1 & E2). exists (hs ++ [None]). split.
      + intros open rest. cbn [app closings Nat.eqb T_subgraph T_lbrace]. rewrite <- !app_assoc, C. reflexivity.
      + cbn [sub_subs]. rewrite fill_app, anonymous_app, <- E1, <- E2. split; [reflexivity|]. cbn. lia.
    - intros s w l k k1 _ (hs & C & E1 & E2). exists (hs ++ [None]). split.
      + intros open rest. cbn [app closings Nat.eqb T_subgraph]. rewrite C, <- app_assoc. reflexivity.
      + cbn [sub_subs]. rewrite fill_app, anonymous_app, <- E1, <- E2. split; [reflexivity|]. cbn. lia.
    - intros s i w l k k1 _ (hs & C & E1 & E2). exists (hs ++ [Some i]). split.
      + intros open rest. cbn [app closings Nat.eqb T_subgraph T_lbrace T_rbrace ID]. rewrite C, <- app_assoc. reflexivity.
      + cbn [sub_subs]. rewrite fill_app, anonymous_app, <- E1. split; [reflexivity|]. cbn. lia.
    - intros a b k. exists []. split; [|split; [reflexivity|cbn; lia]]. intros open pend rest. reflexivity.
    - intros a w l b k k1 _ (hs & C & E1 & E2). exists hs. split; [|auto].
      intros open pend rest. cbn [app closings Nat.eqb T_subgraph T_lbrace]. rewrite <- app_assoc, C. reflexivity.
    - intros w s c k k1 _ IH Hc. cbn [flat_map].
      eapply contributes_app; [exact IH|]. apply contributes_nil. intros. apply closings_semi. exact Hc.
    - intros w s c w' l k k1 k2 _ IH Hc _ IHl. cbn [flat_map].
      eapply contributes_app; [exact IH|]. destruct IHl as (hs & C & E1 & E2). exists hs. split; [|auto].
      intros open rest. rewrite <- app_assoc, (closings_semi _ _ _ Hc). apply C.
  Qed.

  Theorem anon_graph w g k k' : d_graph rnd w g k k' ->
    flat_map stmt_subs (g_stmts g) = fill rnd k (subgraph_headings w) /\ k' = k + anonymous (subgraph_headings w).
  Proof.
    intros H. destruct H as [ws st t ty wi i wb l k k1 Hs Hk Hi Hb]. cbn [g_stmts].
    destruct (proj1 (proj2 (proj2 (proj2 (proj2 an_all)))) _ _ _ _ Hb) as (hs & C & E1 & E2).
    assert (E : exists h, closings [] PNo (ws ++ t :: wi ++ wb) = hs ++ [h]).
    { specialize (C [] PNo []). rewrite app_nil_r in C. cbn in C.
      destruct Hs, Hk, Hi; cbn [app closings Nat.eqb T_subgraph T_lbrace T_rbrace ID T_strict T_graph T_digraph]; eauto. }
    destruct E as (h & E). unfold subgraph_headings. rewrite E, removelast_last. auto.
  Qed.
End An.
