(** Slices.v computes what Lexer.v and Parser.v compute. *)
From Coq Require Import List Ascii NArith ZArith Bool Lia.
From Verif Require Import Base LexTables ParseTables Ast Lexer Parser RecParser ErrText LexerProofs ParseFacts Maps Graph Analyse Slices.
Import ListNotations.
Local Open Scope nat_scope.
Local Opaque action_tab prod_tab goto_tab trans_tab act_tab.

Lemma skipn_skipn_nat {A} (n m : nat) (l : list A) : skipn n (skipn m l) = skipn (m + n) l.
Proof. revert l. induction m as [|m IH]; intros l; [reflexivity|]. destruct l as [|a l]; [destruct n; reflexivity|]. cbn [skipn Nat.add]. apply IH. Qed.

Section Buffer.
  Variable src : gostr.
  Definition lx_of (l : slexer) : lexer := Lexer (skipn (sx_pos l) src) (sx_pos l) (sx_line l) (sx_col l).
  Definition in_buf (t : stoken) : Prop := sl_lo t = sl_off t /\ sl_lo t <= sl_hi t <= length src.

  Lemma s_finish_eq pos line col start sline scol endp ty : start <= pos <= length src -> endp <= length src ->
    let '(t, l) := s_finish pos line col start sline scol endp ty in
    scan_finish (skipn pos src) pos line col (skipn start src) start sline scol endp ty = (look src t, lx_of l) /\
    in_buf t /\ sx_pos l <= length src.
  Proof.
    intros H1 H2. unfold s_finish, scan_finish. destruct (Nat.ltb_spec start endp) as [L|L].
    - unfold look, lx_of, in_buf, sub. cbn [sl_type sl_lo sl_hi sl_off sl_line sl_col sx_pos sx_line sx_col].
      rewrite skipn_skipn_nat. replace (start + (endp - start)) with endp by lia. repeat split; lia.
    - unfold look, lx_of, in_buf, sub. cbn [sl_type sl_lo sl_hi sl_off sl_line sl_col sx_pos sx_line sx_col].
      rewrite Nat.sub_diag. repeat split; lia.
  Qed.

  Definition scan_rel (x : option (stoken * slexer)) (y : option (token * lexer)) : Prop :=
    match x with
    | Some (t, l) => y = Some (look src t, lx_of l) /\ in_buf t /\ sx_pos l <= length src
    | None => y = None
    end.
  Lemma s_scan_loop_eq fuel : forall state pos line col start sline scol endp ty,
    start <= pos <= length src -> endp <= length src ->
    scan_rel (s_scan_loop src fuel state pos line col start sline scol endp ty)
             (scan_loop fuel state (skipn pos src) pos line col (skipn start src) start sline scol endp ty).
  Proof.
    induction fuel as [|fuel IH]; intros state pos line col start sline scol endp ty H1 H2; [reflexivity|].
    cbn [s_scan_loop scan_loop]. destruct (Nat.leb_spec (length src) pos) as [L|L].
    - assert (E : skipn pos src = []) by (apply skipn_all2; lia). rewrite E at 1.
      set (en := if Nat.eqb ty INVALID then pos else endp). assert (en <= length src) by (subst en; destruct (Nat.eqb _ _); lia).
      pose proof (s_finish_eq pos line col start sline scol en ty H1 ltac:(assumption)) as F.
      destruct (s_finish _ _ _ _ _ _ _ _) as [t l]. destruct F as (F1 & F2 & F3). cbn [scan_rel]. subst en. rewrite F1. auto.
    - destruct (skipn pos src) as [|b rest0] eqn:E; [apply (f_equal (@length _)) in E; rewrite skipn_length in E; cbn in E; lia|].
      rewrite <- E. assert (NE : skipn pos src <> []) by (rewrite E; discriminate).
      pose proof (decode_spec _ NE) as D. destruct (decode_rune (skipn pos src)) as [r n]. destruct D as [D _].
      rewrite skipn_length in D. rewrite skipn_skipn_nat. destruct (trans state r) as [st'|].
      + destruct (act st') as [acc ign]. destruct (negb (Z.eqb acc (-1))); [apply IH; lia|]. destruct ign; [|apply IH; lia].
        replace (match skipn (pos + n) src with [] => EOF | _ => ty end) with (if Nat.leb (length src) (pos + n) then EOF else ty); [apply IH; lia|].
        destruct (Nat.leb_spec (length src) (pos + n)) as [L'|L']; [rewrite skipn_all2 by lia; reflexivity|].
        destruct (skipn (pos + n) src) eqn:E2; [|reflexivity]. apply (f_equal (@length _)) in E2. rewrite skipn_length in E2. cbn in E2. lia.
      + set (en := if Nat.eqb ty INVALID then pos + n else endp). assert (en <= length src) by (subst en; destruct (Nat.eqb _ _); lia).
        pose proof (s_finish_eq (pos + n) line col start sline scol en ty ltac:(lia) ltac:(assumption)) as F.
        destruct (s_finish _ _ _ _ _ _ _ _) as [t l]. destruct F as (F1 & F2 & F3). cbn [scan_rel]. rewrite F1. auto.
  Qed.
  Lemma s_scan_eq l : sx_pos l <= length src -> scan_rel (s_scan src l) (scan (lx_of l)).
  Proof.
    intros H. unfold s_scan, scan. cbn [lx_of lx_rest lx_pos lx_line lx_col]. destruct (Nat.leb_spec (length src) (sx_pos l)) as [L|L].
    - assert (E : skipn (sx_pos l) src = []) by (apply skipn_all2; lia). rewrite E. cbn [scan_rel]. unfold look, lx_of, in_buf, sub.
      cbn [sl_type sl_lo sl_hi sl_off sl_line sl_col sx_pos sx_line sx_col]. rewrite Nat.sub_diag, E. cbn [firstn]. repeat split; lia.
    - destruct (skipn (sx_pos l) src) as [|b r] eqn:E; [apply (f_equal (@length _)) in E; rewrite skipn_length in E; cbn in E; lia|].
      rewrite <- E. rewrite skipn_length. apply s_scan_loop_eq; lia.
  Qed.

  Definition look_st (st : list (nat * sval)) : stack := map (fun x => (fst x, look_val src (snd x))) st.
  Definition res_rel (x : res (serror * nat) (sval * nat)) (y : res parse_error (value * nat)) : Prop :=
    match x with
    | Ok (v, k) => y = Ok (look_val src v, k)
    | Err (e, _) => y = Err (look_error src e) /\ in_buf (se_token e)
    | Panic => y = Panic
    | OutOfFuel => y = OutOfFuel
    end.
  Lemma s_sem_eq rnd s X k : run_sem rnd s (map (look_val src) X) k =
    match s_sem src rnd s X k with Some (v, k') => Some (look_val src v, k') | None => None end.
  Proof.
    unfold s_sem. destruct s.
    1: { unfold run_sem, arg. rewrite nth_error_map. destruct (nth_error X _); reflexivity. }
    all: match goal with |- run_sem ?r ?s ?X ?k = _ => destruct (run_sem r s X k) as [[v' k']|]; reflexivity end.
  Qed.
  Lemma s_parse_loop_eq rnd fuel : forall st tok lx k, in_buf tok -> sx_pos lx <= length src ->
    res_rel (s_parse_loop src fuel rnd st tok lx k) (parse_loop fuel rnd (look_st st) (look src tok) (lx_of lx) k).
  Proof.
    induction fuel as [|fuel IH]; intros st tok lx k B H; [reflexivity|]. cbn [s_parse_loop parse_loop].
    destruct st as [|[s v] st]; [reflexivity|]. cbn [look_st map fst snd].
    destruct (negb (Nat.ltb s num_states)); [reflexivity|]. change (tk_type (look src tok)) with (sl_type tok).
    generalize (action_at s (sl_type tok)). intros act0.
    destruct act0 as [[| n | p]|].
    { cbn [res_rel]. reflexivity. }
    3: { cbn [res_rel]. unfold look_error. cbn [se_token se_expected se_stack_top]. split; [reflexivity|exact B]. }
    - pose proof (s_scan_eq lx H) as F. destruct (s_scan src lx) as [[t l]|]; cbn [scan_rel] in F; [|rewrite F; reflexivity].
      destruct F as (F1 & F2 & F3). rewrite F1. apply (IH ((n, STok tok) :: (s, v) :: st) t l k F2 F3).
    - destruct (nth_error prod_tab p) as [pr|]; [|reflexivity].
      change ((s, look_val src v) :: map (fun x => (fst x, look_val src (snd x))) st) with (look_st ((s, v) :: st)).
      generalize ((s, v) :: st). intros stk. cbv zeta. unfold look_st at 1. rewrite map_length.
      destruct (Nat.ltb (length stk) (p_num pr)); [reflexivity|].
      assert (E1 : rev (map snd (firstn (p_num pr) (look_st stk))) = map (look_val src) (rev (map snd (firstn (p_num pr) stk)))).
      { unfold look_st. rewrite firstn_map, map_map, map_rev, map_map. reflexivity. }
      rewrite E1, s_sem_eq. destruct (s_sem src rnd (p_sem pr) _ k) as [[v' k']|]; [|reflexivity].
      assert (E2 : skipn (p_num pr) (look_st stk) = look_st (skipn (p_num pr) stk)) by (unfold look_st; apply skipn_map).
      rewrite E2. destruct (skipn (p_num pr) stk) as [|[s' w] st']; [reflexivity|]. cbn [look_st map fst snd].
      destruct (Z.ltb _ _); [reflexivity|]. apply (IH ((Z.to_nat (goto_at s' (p_nt pr)), v') :: (s', w) :: st') tok lx k' B H).
  Qed.

  Theorem s_parse_bytes_eq rnd k0 :
    match s_parse_bytes src rnd k0 with
    | Ok r => parse_bytes rnd k0 src = Ok r
    | Err (e, _) => parse_bytes rnd k0 src = Err (look_error src e) /\ in_buf (se_token e)
    | _ => False
    end.
  Proof.
    pose proof (parse_total rnd k0 src) as T. unfold s_parse_bytes, parse_bytes in *.
    assert (Z : sx_pos (SLexer 0 1 1) <= length src) by (cbn; lia). pose proof (s_scan_eq _ Z) as F.
    change (lx_of (SLexer 0 1 1)) with (new_lexer src) in F. destruct (s_scan src (SLexer 0 1 1)) as [[t l]|]; cbn [scan_rel] in F.
    2: { rewrite F in T. destruct T as [(g & k & T)|(e & T)]; discriminate. }
    destruct F as (F1 & F2 & F3). rewrite F1 in *. pose proof (s_parse_loop_eq rnd (parse_fuel src) [(0, SVal VNil)] t l k0 F2 F3) as R.
    change (look_st [(0, SVal VNil)]) with [(0, VNil)] in R.
    destruct (s_parse_loop src (parse_fuel src) rnd [(0, SVal VNil)] t l k0) as [[v k]|[e k]| |]; cbn [res_rel] in R.
    - rewrite R in *. destruct v as [t'|v]; cbn [look_val] in *; [destruct T as [(g & k' & T)|(e & T)]; discriminate|].
      destruct v; cbn iota beta in T |- *; try (destruct T as [(g' & k' & T)|(e' & T)]; discriminate T). reflexivity.
    - destruct R as [R1 R2]. rewrite R1. split; [reflexivity|exact R2].
    - rewrite R in T. destruct T as [(g & k & T)|(e & T)]; discriminate.
    - rewrite R in T. destruct T as [(g & k & T)|(e & T)]; discriminate.
  Qed.
End Buffer.
