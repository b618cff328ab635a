(** Error recovery never happens, and the reduce functions return no errors. *)
From Coq Require Import List Ascii NArith ZArith Bool Lia.
From Verif Require Import Base LexTables ParseTables TokNames Ast Lexer Parser ParseFacts RecParser.
Import ListNotations.

Lemma no_state_recovers : forallb negb can_recover_tab = true.
Proof. vm_compute. reflexivity. Qed.
Lemma error_is_invalid : tok_type_of (lit "error") = 0.
Proof. vm_compute. reflexivity. Qed.
Lemma no_error_actions : forallb (fun row => match assoc_nat 0 row with None => true | Some _ => false end) action_tab = true.
Proof. vm_compute. reflexivity. Qed.
Local Opaque action_tab can_recover_tab prod_tab goto_tab.

Lemma can_recover_false s : can_recover s = false.
Proof.
  unfold can_recover. destruct (nth_in_or_default s can_recover_tab false) as [H|H]; [|exact H].
  pose proof no_state_recovers as A. rewrite forallb_forall in A. apply A in H. destruct (nth s can_recover_tab false); [discriminate|reflexivity].
Qed.
Lemma action_invalid s : action_at s 0 = None.
Proof.
  unfold action_at. destruct (nth_error action_tab s) as [row|] eqn:E; [|reflexivity].
  apply nth_error_In in E. pose proof no_error_actions as A. rewrite forallb_forall in A. apply A in E.
  destruct (assoc_nat 0 row); [discriminate|reflexivity].
Qed.
Lemma first_recovery_none l : snd (first_recovery l) = false.
Proof.
  induction l as [|s l IH]; [reflexivity|]. destruct l as [|s2 l]; [cbn; apply can_recover_false|].
  change (first_recovery (s :: s2 :: l)) with (if can_recover s then (length (s2 :: l), true) else first_recovery (s2 :: l)).
  rewrite can_recover_false. exact IH.
Qed.
Lemma recover_not fuel s v st tok lx : recover fuel ((s, v) :: st) tok lx = NotRecovered ((s, v) :: st) tok.
Proof.
  unfold recover, pop_non_recovery. pose proof (first_recovery_none (map fst ((s, v) :: st))) as H.
  destruct (first_recovery (map fst ((s, v) :: st))) as [rs ok]. cbn [snd] in H. subst ok.
  rewrite error_is_invalid, action_invalid. reflexivity.
Qed.

Definition with_nil {A} (r : res parse_error A) : res go_error A :=
  match r with Ok a => Ok a | Err e => Err (GoError None e) | Panic => Panic | OutOfFuel => OutOfFuel end.

Lemma rec_loop_eq show fuel : forall rnd st tok lx k,
  parse_loop fuel rnd st tok lx k <> Panic -> rec_loop show fuel rnd st tok lx k = with_nil (parse_loop fuel rnd st tok lx k).
Proof.
  induction fuel as [|fuel IH]; intros rnd st tok lx k; [reflexivity|].
  cbn [parse_loop rec_loop]. destruct st as [|[s v] st]; [congruence|].
  destruct (negb (Nat.ltb s num_states)); [congruence|]. cbv zeta.
  destruct (action_at s (tk_type tok)) as [[|n|p]|] eqn:E.
  - rewrite E. reflexivity.
  - rewrite E. destruct (scan lx) as [[tok' lx']|]; [|reflexivity]. apply IH.
  - rewrite E. destruct (nth_error prod_tab p) as [pr|]; [|congruence].
    destruct (Nat.ltb (length ((s, v) :: st)) (p_num pr)); [congruence|].
    destruct (run_sem rnd (p_sem pr) (rev (map snd (firstn (p_num pr) ((s, v) :: st)))) k) as [[v' k']|]; [|congruence].
    destruct (skipn (p_num pr) ((s, v) :: st)) as [|[s' v2] st']; [congruence|].
    destruct (Z.ltb (goto_at s' (p_nt pr)) 0); [congruence|]. apply IH.
  - rewrite recover_not. reflexivity.
Qed.

Theorem rec_parse_bytes_eq show rnd k0 src : rec_parse_bytes show rnd k0 src = with_nil (parse_bytes rnd k0 src).
Proof.
  pose proof (parse_total rnd k0 src) as T. unfold rec_parse_bytes, parse_bytes in *.
  destruct (scan (new_lexer src)) as [[tok lx]|]; [|reflexivity].
  rewrite (rec_loop_eq show).
  - destruct (parse_loop (parse_fuel src) rnd [(0, VNil)] tok lx k0) as [[[] k]|e| |]; reflexivity.
  - intros E. rewrite E in T. destruct T as [(g & k & T)|(e & T)]; discriminate.
Qed.
