(** Printing an AST and parsing the text again. *)
From Coq Require Import List Ascii NArith ZArith Bool Lia Arith.
From Verif Require Import Base Ast LexSpec LexDfa LexerProofs Tokens LexFacts SpecGrammar GrammarProofs ParseFacts
  Parser LexPrint TrimFacts SpecAst.
Import ListNotations.

(** ** Induction over the mutual type of statements *)
Section StmtInd.
  Variables (Ps : stmt -> Prop) (Pl : location -> Prop) (Pg : subgraph -> Prop).
  Hypotheses (Hnode : forall n a, Ps (SNode n a))
    (Hedge : forall l r a, Pl l -> Forall (fun e => match e with EdgeRH _ d => Pl d end) r -> Ps (SEdge l r a))
    (Hea : forall a, Ps (SEdgeAttrs a)) (Hna : forall a, Ps (SNodeAttrs a)) (Hga : forall a, Ps (SGraphAttrs a))
    (Hsub : forall g, Pg g -> Ps (SSub g)) (Hattr : forall a, Ps (SAttr a))
    (Hln : forall n, Pl (LNode n)) (Hls : forall g, Pg g -> Pl (LSub g))
    (Hg : forall i b, Forall Ps b -> Pg (SubGraph i b)).
  Let Pe (e : edge_rh) : Prop := match e with EdgeRH _ d => Pl d end.
  Fixpoint stmt_ind' (s : stmt) : Ps s :=
    match s with
    | SNode n a => Hnode n a
    | SEdge l r a => Hedge l r a (loc_ind' l)
        ((fix go (r : list edge_rh) : Forall Pe r :=
            match r with
            | [] => Forall_nil Pe
            | e :: r' => @Forall_cons _ Pe e r'
                (match e as e0 return Pe e0 with EdgeRH o d => loc_ind' d end) (go r')
            end) r)
    | SEdgeAttrs a => Hea a
    | SNodeAttrs a => Hna a
    | SGraphAttrs a => Hga a
    | SSub g => Hsub g (sub_ind' g)
    | SAttr a => Hattr a
    end
  with loc_ind' (l : location) : Pl l :=
    match l with LNode n => Hln n | LSub g => Hls g (sub_ind' g) end
  with sub_ind' (g : subgraph) : Pg g :=
    match g with
    | SubGraph i b => Hg i b
        ((fix go (b : list stmt) : Forall Ps b :=
            match b with [] => Forall_nil _ | s :: b' => Forall_cons s (stmt_ind' s) (go b') end) b)
    end.
  Lemma stmt_all_ind : (forall s, Ps s) /\ (forall l, Pl l) /\ (forall g, Pg g).
  Proof. split; [exact stmt_ind'|split; [exact loc_ind'|exact sub_ind']]. Qed.
End StmtInd.

Lemma fold_right_Forall {A} (P : A -> Prop) l : fold_right (fun x acc => P x /\ acc) True l <-> Forall P l.
Proof.
  induction l as [|x l IH]; cbn; [split; constructor|]. rewrite IH. split.
  - intros [H1 H2]. constructor; auto.
  - intros H. inversion H; auto.
Qed.
Definition wf_rh P (e : edge_rh) : Prop := match e with EdgeRH _ d => wf_loc P d end.
Lemma wf_edge_iff P l r a : wf_stmt P (SEdge l r a) <-> wf_loc P l /\ r <> [] /\ Forall (wf_rh P) r /\ wf_attrs P a.
Proof. cbn [wf_stmt]. rewrite <- (fold_right_Forall (wf_rh P)). reflexivity. Qed.
Lemma wf_sub_iff P i b : wf_sub P (SubGraph i b) <-> P i /\ Forall (wf_stmt P) b.
Proof. cbn [wf_sub]. rewrite <- (fold_right_Forall (wf_stmt P)). reflexivity. Qed.

(** ** Text that scans to a word *)
Definition lexp (t : gostr) (w : word) : Prop :=
  forall rest w', stop rest -> lexb rest w' -> lexb (t ++ rest) (w ++ w').
(** ... whatever follows *)
Definition lexc (t : gostr) (w : word) : Prop :=
  forall rest w', lexb rest w' -> lexb (t ++ rest) (w ++ w').

Lemma lexc_lexp t w : lexc t w -> lexp t w.
Proof. intros H rest w' _. apply H. Qed.
Lemma lexp_nil : lexp [] [].
Proof. intros rest w' _ H. exact H. Qed.
Lemma lexc_nil : lexc [] [].
Proof. intros rest w' H. exact H. Qed.
Lemma stop_app t rest : stop t -> stop rest -> stop (t ++ rest).
Proof. destruct t; cbn; auto. Qed.
Lemma lexp_app s w t w' : lexp s w -> stop t -> lexp t w' -> lexp (s ++ t) (w ++ w').
Proof. intros H1 Hs H2 rest wr Hr Hw. rewrite <- !app_assoc. apply H1; [apply stop_app; assumption|]. apply H2; assumption. Qed.
Lemma lexpc_app s w t w' : lexp s w -> t <> [] -> stop t -> lexc t w' -> lexc (s ++ t) (w ++ w').
Proof.
  intros H1 Hn Hs H2 rest wr Hw. rewrite <- !app_assoc. apply H1; [destruct t; [congruence|exact Hs]|]. apply H2; assumption.
Qed.
Lemma lexc_app s w t w' : lexc s w -> lexc t w' -> lexc (s ++ t) (w ++ w').
Proof. intros H1 H2 rest wr Hw. rewrite <- !app_assoc. apply H1. apply H2; assumption. Qed.
Lemma lexcp_app s w t w' : lexc s w -> lexp t w' -> lexp (s ++ t) (w ++ w').
Proof. intros H1 H2 rest wr Hr Hw. rewrite <- !app_assoc. apply H1. apply H2; assumption. Qed.
Lemma lexc_word x ty : In (x, ty) closed_words -> lexc x [(ty, x)].
Proof. intros H rest w' Hw. apply lexb_closed; assumption. Qed.
Lemma lexp_kw x ty : In (x, ty) kw_words -> lexp x [(ty, x)].
Proof. intros H rest w' Hr Hw. apply lexb_kw; assumption. Qed.
Lemma lexp_id i : is_id i -> lexp i [(ID, i)].
Proof. intros H rest w' Hr Hw. apply lexb_id; assumption. Qed.
Lemma lexc_blank b : forallb blank_byte b = true -> lexc b [].
Proof. intros H rest w' Hw. apply lexb_blanks; assumption. Qed.

Ltac inw := cbn; tauto.

(** ** Strings *)
Lemma fold_app {A} (f : A -> gostr) l : forall acc, fold_left (fun s x => s ++ f x) l acc = acc ++ concat (map f l).
Proof. induction l as [|x l IH]; intros acc; cbn; [symmetry; apply app_nil_r|]. rewrite IH, app_assoc. reflexivity. Qed.

Lemma alist_str_cons a l : alist_str (a :: l) = attr_str [] a ++ concat (map (fun x => lit ", " ++ attr_str [] x) l).
Proof. unfold alist_str. apply (fold_app (fun x => lit ", " ++ attr_str [] x)). Qed.
Lemma alist_str_nonempty a l : alist_str (a :: l) <> [].
Proof. rewrite alist_str_cons. unfold attr_str. destruct (at_field a); discriminate. Qed.

Definition brack (al : list attr) : gostr := lit "[ " ++ alist_str al ++ lit " ]".
Lemma attr_list_str_eq l : attr_list_str l = concat (map (fun al => brack al ++ lit " ") (norm_attrs l)).
Proof.
  unfold attr_list_str. rewrite <- (app_nil_l (concat _)). generalize (@nil ascii) as acc.
  induction l as [|al l IH]; intros acc; cbn [fold_left norm_attrs filter]; [symmetry; apply app_nil_r|].
  destruct al as [|a al]; [apply IH|]. fold (norm_attrs l). cbn [map concat].
  pose proof (alist_str_nonempty a al) as Hn. destruct (alist_str (a :: al)) as [|c s] eqn:E; [congruence|].
  rewrite IH. unfold brack. rewrite E, <- !app_assoc. reflexivity.
Qed.
Lemma norm_attrs_nonempty l : Forall (fun al => al <> []) (norm_attrs l).
Proof. unfold norm_attrs. apply Forall_forall. intros al H. apply filter_In in H. destruct H as [_ H]. destruct al; [discriminate|congruence]. Qed.
Lemma wf_norm_attrs P l : wf_attrs P l -> wf_attrs P (norm_attrs l).
Proof. unfold wf_attrs, norm_attrs. rewrite !Forall_forall. intros H al Hin. apply filter_In in Hin. apply H. apply Hin. Qed.

Lemma concat_snoc_sp {A} (f : A -> gostr) l x :
  concat (map (fun al => f al ++ lit " ") (l ++ [x])) = (concat (map (fun al => f al ++ lit " ") l) ++ f x) ++ lit " ".
Proof. rewrite map_app, concat_app. cbn. rewrite app_nil_r, !app_assoc. reflexivity. Qed.

(** the identifiers of printable ASTs *)
Definition good_id (i : gostr) : Prop := is_id i /\ trim_space i = i.

Lemma lexp_attr a : wf_attr good_id a -> exists w, lexp (attr_str [] a) w /\ d_attr w a /\ w = [(ID, at_field a); (T_eq, lit "="); (ID, at_value a)].
Proof.
  intros [[H1 _] [H2 _]]. exists [(ID, at_field a); (T_eq, lit "="); (ID, at_value a)]. split; [|split; [|reflexivity]].
  - unfold attr_str. cbn [app]. apply (lexp_app _ [(ID, at_field a)] _ [_; _]); [apply lexp_id; exact H1|reflexivity|].
    apply (lexcp_app (lit "=") [(8, lit "=")] _ [_]); [apply lexc_word; inw|]. apply lexp_id. exact H2.
  - destruct a as [f v]. constructor.
Qed.

Lemma lexp_alist : forall l, l <> [] -> Forall (wf_attr good_id) l -> exists w, lexp (alist_str l) w /\ d_alist w l.
Proof.
  intros [|a l]; [congruence|]. intros _. rewrite alist_str_cons. revert a.
  induction l as [|b l IH]; intros a H; inversion H as [|? ? Ha Hl]; subst.
  - destruct (lexp_attr a Ha) as (w & H1 & H2 & _). exists w. split; [cbn; rewrite app_nil_r; exact H1|constructor; exact H2].
  - destruct (IH b Hl) as (w & H1 & H2). destruct (lexp_attr a Ha) as (wa & Ha1 & Ha2 & _).
    exists (wa ++ [(T_comma, lit ",")] ++ w). split.
    + cbn [map concat]. rewrite <- app_assoc. apply lexp_app; [exact Ha1|reflexivity|].
      change (lit ", " ++ attr_str [] b ++ concat (map (fun x => lit ", " ++ attr_str [] x) l))
        with (lit "," ++ lit " " ++ attr_str [] b ++ concat (map (fun x => lit ", " ++ attr_str [] x) l)).
      apply lexcp_app; [apply lexc_word; inw|]. apply (lexcp_app _ []); [apply lexc_blank; reflexivity|exact H1].
    + apply dl_more; [exact Ha2|constructor|exact H2].
Qed.

Lemma lexc_brack l : l <> [] -> Forall (wf_attr good_id) l -> exists w, lexc (brack l) w /\ d_brack w [l].
Proof.
  intros Hn H. destruct (lexp_alist l Hn H) as (w & H1 & H2).
  exists ((T_lbrack, lit "[") :: w ++ [(T_rbrack, lit "]")]). split; [|constructor; exact H2].
  unfold brack. change (lit "[ ") with (lit "[" ++ lit " "). rewrite <- !app_assoc.
  apply (lexc_app (lit "[") [(T_lbrack, lit "[")]); [apply lexc_word; inw|].
  apply (lexc_app _ []); [apply lexc_blank; reflexivity|].
  apply lexpc_app; [exact H1|discriminate|reflexivity|].
  apply (lexc_app (lit " ") [] (lit "]")); [apply lexc_blank; reflexivity|]. apply lexc_word; inw.
Qed.

Lemma lexc_brackets l : l <> [] -> Forall (fun al => al <> []) l -> wf_attrs good_id l ->
  exists w, lexc (concat (map (fun al => brack al ++ lit " ") l)) w /\ d_attrs w l.
Proof.
  induction l as [|al l IH]; [congruence|]. intros _ H1 H2. inversion H1; subst. inversion H2; subst.
  destruct (lexc_brack al) as (w & Hw & Hd); auto.
  assert (Hb : lexc (brack al ++ lit " ") w).
  { rewrite <- (app_nil_r w). apply lexc_app; [exact Hw|]. apply lexc_blank. reflexivity. }
  destruct l as [|al' l].
  - exists w. split; [cbn [map concat]; rewrite app_nil_r; exact Hb|constructor; exact Hd].
  - destruct IH as (w' & Hw' & Hd'); [discriminate|assumption|assumption|].
    exists (w ++ w'). split; [cbn [map concat]; apply lexc_app; assumption|].
    apply (dal_more w [al]); assumption.
Qed.

Definition snoc_case {A} (l : list A) : l = [] \/ exists l' x, l = l' ++ [x].
Proof. destruct l as [|a l _] using rev_ind; [left; reflexivity|right; eauto]. Qed.

Lemma lexc_brackets' l x : Forall (fun al => al <> []) (l ++ [x]) -> wf_attrs good_id (l ++ [x]) ->
  exists w, lexc (concat (map (fun al => brack al ++ lit " ") l) ++ brack x) w /\ d_attrs w (l ++ [x]).
Proof.
  induction l as [|al l IH]; cbn [app]; intros H1 H2; inversion H1; subst; inversion H2; subst.
  - destruct (lexc_brack x) as (w & Hw & Hd); auto. exists w. split; [exact Hw|constructor; exact Hd].
  - destruct (lexc_brack al) as (w & Hw & Hd); auto. destruct IH as (w' & Hw' & Hd'); [assumption|assumption|].
    exists (w ++ w'). split; [|apply (dal_more w [al]); assumption].
    cbn [map concat]. rewrite <- !app_assoc. apply lexc_app; [exact Hw|].
    apply (lexc_app _ []); [apply lexc_blank; reflexivity|exact Hw'].
Qed.

(** What follows the endpoint(s) of a node or edge statement: " " and the attributes; up to a
    final blank, which TrimSpace removes. *)
Lemma attrs_tail a : wf_attrs good_id a ->
  exists X w, lit " " ++ attr_list_str a = X ++ lit " " /\ (X = [] \/ vis_right X) /\ stop X /\ lexp X w /\
    d_opt_attrs w (norm_attrs a).
Proof.
  intros H. rewrite attr_list_str_eq. pose proof (norm_attrs_nonempty a) as Hn. apply wf_norm_attrs in H.
  destruct (snoc_case (norm_attrs a)) as [E|(l & x & E)].
  - rewrite E. exists [], []. split; [reflexivity|]. split; [auto|]. split; [exact I|]. split; [apply lexp_nil|constructor].
  - rewrite E in Hn, H |- *. destruct (lexc_brackets' l x Hn H) as (w & Hw & Hd).
    exists (lit " " ++ concat (map (fun al => brack al ++ lit " ") l) ++ brack x), w.
    rewrite concat_snoc_sp. split; [rewrite <- !app_assoc; reflexivity|]. split; [right|].
    { do 2 apply vis_right_app. unfold brack. do 2 apply vis_right_app. apply (vis_right_ascii (lit " ")). reflexivity. }
    split; [reflexivity|]. split; [|constructor; exact Hd].
    apply (lexcp_app _ []); [apply lexc_blank; reflexivity|]. apply lexc_lexp. exact Hw.
Qed.

Lemma trim_tail N w a : wf_attrs good_id a -> vis_left N -> vis_right N -> lexp N w ->
  exists wa, lexp (trim_space (N ++ lit " " ++ attr_list_str a)) (w ++ wa) /\ d_opt_attrs wa (norm_attrs a) /\
    vis_left (trim_space (N ++ lit " " ++ attr_list_str a)).
Proof.
  intros Ha H1 H2 H3. destruct (attrs_tail a Ha) as (X & wa & E & HX & Hs & Hl & Hd).
  rewrite E, app_assoc. rewrite trim_space_sp.
  - exists wa. split; [apply lexp_app; assumption|]. split; [exact Hd|]. apply vis_left_app. exact H1.
  - apply vis_left_app. exact H1.
  - destruct HX as [->|HX]; [rewrite app_nil_r; exact H2|apply vis_right_app; exact HX].
Qed.

(** *** node IDs *)
Lemma good_vis i : good_id i -> vis_left i /\ vis_right i.
Proof. intros [H1 H2]. split; [apply vis_left_id|apply vis_right_id]; assumption. Qed.
Lemma lexp_node_id n : wf_node_id good_id n ->
  exists w, lexp (node_id_str n) w /\ d_node_id w n /\ vis_left (node_id_str n) /\ vis_right (node_id_str n).
Proof.
  destruct n as [i [p q]]. intros [Hi Hp]. cbn in Hi. unfold wf_port in Hp. cbn in Hp.
  destruct (good_vis i Hi) as [Hl Hr]. unfold node_id_str, port_str. cbn [nid_id nid_port port_id1 port_id2].
  destruct p as [|c p].
  - destruct q; [|contradiction]. exists [(ID, i)]. rewrite app_nil_r. split; [apply lexp_id; apply Hi|]. split; [constructor|auto].
  - set (p' := c :: p) in *. destruct q as [|d q].
    + exists [(ID, i); (T_colon, lit ":"); (ID, p')]. rewrite app_nil_r. split; [|split; [constructor|]].
      * apply (lexp_app i [(ID, i)] _ [_; _]); [apply lexp_id; apply Hi|reflexivity|].
        apply (lexcp_app (lit ":") [(T_colon, lit ":")] _ [_]); [apply lexc_word; inw|apply lexp_id; apply Hp].
      * split; [apply vis_left_app; exact Hl|]. do 2 apply vis_right_app. apply good_vis. exact Hp.
    + set (q' := d :: q) in *. destruct Hp as [Hp Hq].
      exists [(ID, i); (T_colon, lit ":"); (ID, p'); (T_colon, lit ":"); (ID, q')]. split; [|split; [constructor|]].
      * apply (lexp_app i [(ID, i)] _ [_; _; _; _]); [apply lexp_id; apply Hi|reflexivity|].
        apply (lexcp_app (lit ":") [(T_colon, lit ":")] _ [_; _; _]); [apply lexc_word; inw|].
        apply (lexp_app _ [_] _ [_; _]); [apply lexp_id; apply Hp|reflexivity|].
        apply (lexcp_app (lit ":") [(T_colon, lit ":")] _ [_]); [apply lexc_word; inw|apply lexp_id; apply Hq].
      * split; [apply vis_left_app; exact Hl|]. do 4 apply vis_right_app. apply good_vis. exact Hq.
Qed.

(** *** statement lists *)
Definition nonempty (s : gostr) : bool := match s with [] => false | _ => true end.
Lemma join_fold ss : forall acc,
  fold_left (fun s x => match x with [] => s | _ => s ++ x ++ lit ";" ++ [nl] end) ss acc =
  acc ++ concat (map (fun x => x ++ lit ";" ++ [nl]) (filter nonempty ss)).
Proof.
  induction ss as [|x ss IH]; intros acc; cbn [fold_left filter]; [cbn; symmetry; apply app_nil_r|].
  rewrite IH. destruct x as [|c x]; cbn [nonempty]; [reflexivity|]. cbn [map concat]. rewrite !app_assoc. reflexivity.
Qed.
Lemma has_suffix_snoc s a : has_suffix (s ++ [a]) [a] = true.
Proof. unfold has_suffix. rewrite rev_unit. cbn. rewrite Ascii.eqb_refl. destruct (rev s); reflexivity. Qed.
Lemma join_nl ss : stmt_list_join ss ++ [nl] =
  match filter nonempty ss with [] => [nl] | l => concat (map (fun x => x ++ lit ";" ++ [nl]) l) end.
Proof.
  unfold stmt_list_join. rewrite join_fold. cbn [app]. destruct (snoc_case (filter nonempty ss)) as [E|(l & x & E)].
  - rewrite E. reflexivity.
  - rewrite E. rewrite map_app, concat_app. cbn [map concat]. rewrite app_nil_r.
    replace (concat (map (fun x => x ++ lit ";" ++ [nl]) l) ++ x ++ lit ";" ++ [nl])
      with ((concat (map (fun x => x ++ lit ";" ++ [nl]) l) ++ x ++ lit ";") ++ [nl]) by (rewrite <- !app_assoc; reflexivity).
    set (B := concat (map (fun x => x ++ lit ";" ++ [nl]) l) ++ x ++ lit ";").
    unfold trim_suffix. rewrite has_suffix_snoc, app_length. cbn [length]. rewrite Nat.add_sub, firstn_app, Nat.sub_diag, firstn_all.
    cbn [firstn]. rewrite app_nil_r. assert (Hn : l ++ [x] <> []) by (destruct l; discriminate).
    transitivity (concat (map (fun x => x ++ lit ";" ++ [nl]) (l ++ [x]))); [|destruct (l ++ [x]); [congruence|reflexivity]].
    rewrite map_app, concat_app. cbn [map concat]. rewrite app_nil_r. unfold B. rewrite <- !app_assoc. reflexivity.
Qed.

Definition blanks (ind : gostr) : Prop := forallb blank_byte ind = true.
Lemma blanks_tab ind : blanks ind -> blanks (ind ++ [tab]).
Proof. unfold blanks. rewrite forallb_app. intros ->. reflexivity. Qed.

Lemma wf_filter_cases a : norm_attrs a = [] -> attr_list_str a = [].
Proof. intros E. rewrite attr_list_str_eq, E. reflexivity. Qed.

Section Main.
  Variable rnd : nat -> N.

  Definition S_ok (s : stmt) : Prop := wf_stmt good_id s -> forall ind, blanks ind ->
    if keep s then stmt_str ind s <> [] /\ exists w, lexp (stmt_str ind s) w /\ forall k, d_stmt rnd w (norm_stmt s) k k
    else stmt_str ind s = [].
  Definition L_ok (l : location) : Prop := wf_loc good_id l ->
    vis_left (location_str l) /\ vis_right (location_str l) /\
    exists w, lexp (location_str l) w /\ forall k, d_loc rnd w (norm_loc l) k k.
  Definition G_ok (g : subgraph) : Prop := wf_sub good_id g -> forall ind, blanks ind ->
    exists w, lexc (subgraph_str ind g) w /\ forall k, d_sub rnd w (norm_sub g) k k.

  Lemma body_ok b : Forall S_ok b -> Forall (wf_stmt good_id) b -> forall ind, blanks ind ->
    exists w, lexc (stmts_str ind b ++ [nl]) w /\
      forall k, (norm_stmts b = [] /\ w = []) \/ d_stmts rnd w (norm_stmts b) k k.
  Proof.
    intros Hb Hw ind Hi. unfold stmts_str. rewrite join_nl.
    assert (H : exists w, lexc (concat (map (fun x => x ++ lit ";" ++ [nl]) (filter nonempty (map (stmt_str ind) b)))) w /\
      ((norm_stmts b = [] /\ w = []) \/ forall k, d_stmts rnd w (norm_stmts b) k k)).
    { induction b as [|s b IH]; [exists []; split; [apply lexc_nil|auto]|].
      inversion Hb as [|? ? Hs Hb']; subst. inversion Hw as [|? ? Ws Wb]; subst.
      destruct (IH Hb' Wb) as (w & Hl & Hd). specialize (Hs Ws ind Hi). cbn [map filter norm_stmts flat_map].
      destruct (keep s).
      - destruct Hs as [Hne (ws & Hls & Hds)]. destruct (stmt_str ind s) as [|c t] eqn:E; [congruence|]. cbn [nonempty].
        rewrite <- E in *. cbn [map concat]. 
        exists (ws ++ [(T_semi, lit ";")] ++ w). split.
        + rewrite <- !app_assoc. intros rest w' Hr. rewrite <- !app_assoc. apply Hls; [reflexivity|].
          apply (lexc_word (lit ";") T_semi); [inw|]. apply (lexc_blank [nl]); [reflexivity|]. apply Hl. exact Hr.
        + right. intros k. cbn [app]. fold (norm_stmts b). destruct Hd as [[E1 E2]|Hd].
          * rewrite E1, E2. apply (dss_one rnd ws _ [(T_semi, lit ";")]); [apply Hds|constructor].
          * apply (dss_more rnd ws _ [(T_semi, lit ";")] w _ k k k); [apply Hds|constructor|apply Hd].
      - rewrite Hs. cbn [nonempty]. exists w. split; [exact Hl|exact Hd]. }
    destruct H as (w & Hl & Hd). exists w. split.
    - destruct (filter nonempty (map (stmt_str ind) b)) eqn:E; [|exact Hl].
      cbn in Hl. intros rest w' Hr. specialize (Hl rest w' Hr). cbn in Hl. apply (lexb_blank nl); [reflexivity|exact Hl].
    - intros k. destruct Hd as [Hd|Hd]; [left; exact Hd|right; apply Hd].
  Qed.

  Lemma lexc_body b : Forall S_ok b -> Forall (wf_stmt good_id) b -> forall ind tail, blanks ind -> blanks tail ->
    exists w, lexc (lit "{" ++ [nl] ++ stmts_str ind b ++ [nl] ++ tail ++ lit "}") w /\
      forall k, d_body rnd w (norm_stmts b) k k.
  Proof.
    intros Hb Hw ind tail Hi Ht. destruct (body_ok b Hb Hw ind Hi) as (w & Hl & Hd).
    exists ((T_lbrace, lit "{") :: w ++ [(T_rbrace, lit "}")]). split.
    - apply (lexc_app (lit "{") [(T_lbrace, lit "{")]); [apply lexc_word; inw|].
      apply (lexc_app _ []); [apply lexc_blank; reflexivity|]. rewrite app_assoc. apply lexc_app; [exact Hl|].
      apply (lexc_app _ []); [apply lexc_blank; exact Ht|]. apply lexc_word; inw.
    - intros k. destruct (Hd k) as [[-> ->]|H]; [constructor|constructor; exact H].
  Qed.

  Lemma rhs_ok r : r <> [] -> Forall (fun e => match e with EdgeRH _ d => L_ok d end) r -> Forall (wf_rh good_id) r ->
    vis_left (concat (map edge_rh_str r)) /\ vis_right (concat (map edge_rh_str r)) /\ stop (concat (map edge_rh_str r)) /\
    exists w, lexp (concat (map edge_rh_str r)) w /\
      forall k, d_rhs rnd w (map (fun e => match e with EdgeRH o d => EdgeRH o (norm_loc d) end) r) k k.
  Proof.
    intros Hn. induction r as [|[o d] r IH]; [congruence|]. clear Hn. intros Hl Hw.
    inversion Hl as [|? ? Hd Hr]; subst. inversion Hw as [|? ? Wd Wr]; subst. cbn in Wd.
    destruct (Hd Wd) as (V1 & V2 & w & Hlex & Hder).
    assert (E : edge_rh_str (EdgeRH o d) = edge_op_str o ++ location_str d).
    { cbn [edge_rh_str]. apply trim_space_id; [destruct o; apply vis_left_ascii; reflexivity|apply vis_right_app; exact V2]. }
    assert (Hop : exists ty, lexc (edge_op_str o) [(ty, edge_op_str o)] /\ d_op (ty, edge_op_str o) o).
    { destruct o; [exists T_arrow|exists T_line]; (split; [apply lexc_word; inw|constructor]). }
    destruct Hop as (ty & Ho1 & Ho2). cbn [map concat].
    destruct r as [|e r].
    - cbn [map concat]. rewrite app_nil_r, E. split; [destruct o; apply vis_left_ascii; reflexivity|].
      split; [apply vis_right_app; exact V2|]. split; [destruct o; reflexivity|].
      exists ((ty, edge_op_str o) :: w). split; [apply (lexcp_app _ [_]); assumption|]. intros k. constructor; auto.
    - destruct (IH ltac:(discriminate) Hr Wr) as (R1 & R2 & R3 & w' & Rl & Rd).
      rewrite E. split; [destruct o; apply vis_left_ascii; reflexivity|]. split; [apply vis_right_app; exact R2|].
      split; [destruct o; reflexivity|]. exists ((ty, edge_op_str o) :: w ++ w'). split.
      + rewrite <- app_assoc. apply (lexcp_app _ [_]); [exact Ho1|]. apply lexp_app; [exact Hlex|exact R3|exact Rl].
      + intros k. apply (dr_more rnd (ty, edge_op_str o) o w (norm_loc d) w' _ k k k); auto.
  Qed.

  Lemma attrs_stmt_ok kw ty a (C : list (list attr) -> stmt) :
    In (kw, ty) kw_words -> (forall wa l k, d_attrs wa l -> d_stmt rnd ((ty, kw) :: wa) (C l) k k) ->
    wf_attrs good_id a -> forall ind, blanks ind ->
    if match norm_attrs a with [] => false | _ => true end
    then attrs_stmt_str (kw ++ lit " ") ind a <> [] /\
         exists w, lexp (attrs_stmt_str (kw ++ lit " ") ind a) w /\ forall k, d_stmt rnd w (C (norm_attrs a)) k k
    else attrs_stmt_str (kw ++ lit " ") ind a = [].
  Proof.
    intros Hk Hc Ha ind Hi. unfold attrs_stmt_str. destruct (norm_attrs a) as [|al l] eqn:E.
    - rewrite wf_filter_cases by exact E. reflexivity.
    - rewrite attr_list_str_eq, E. destruct (lexc_brackets (al :: l)) as (w & Hw & Hd).
      { discriminate. } { rewrite <- E. apply norm_attrs_nonempty. } { rewrite <- E. apply wf_norm_attrs. exact Ha. }
      set (B := concat (map (fun al => brack al ++ lit " ") (al :: l))) in *.
      destruct B as [|c B'] eqn:EB.
      { unfold B in EB. cbn in EB. discriminate. }
      split.
      + intros F. apply app_eq_nil in F. destruct F as [_ F]. apply app_eq_nil in F. destruct F as [_ F]. discriminate.
      + exists ((ty, kw) :: w). split; [|intros k; apply Hc; exact Hd].
        apply (lexcp_app _ []); [apply lexc_blank; exact Hi|]. rewrite <- app_assoc.
        apply (lexp_app _ [_]); [apply lexp_kw; exact Hk|reflexivity|].
        apply (lexcp_app _ []); [apply lexc_blank; reflexivity|]. apply lexc_lexp. exact Hw.
  Qed.

  Lemma all_ok : (forall s, S_ok s) /\ (forall l, L_ok l) /\ (forall g, G_ok g).
  Proof.
    apply stmt_all_ind.
    - intros n a [Hn Ha] ind Hi. cbn [keep stmt_str norm_stmt].
      destruct (lexp_node_id n Hn) as (w & H1 & H2 & H3 & H4).
      destruct (trim_tail _ w a Ha H3 H4 H1) as (wa & T1 & T2 & T3). split.
      { intros F. apply app_eq_nil in F. destruct F as [_ F]. destruct T3 as [T3 _]. congruence. }
      exists (w ++ wa). split; [|intros k; constructor; assumption].
      apply (lexcp_app _ []); [apply lexc_blank; exact Hi|exact T1].
    - intros l r a Hl Hr Hw ind Hi. apply wf_edge_iff in Hw. destruct Hw as (Wl & Wn & Wr & Wa).
      destruct (Hl Wl) as (V1 & V2 & w & L1 & L2). destruct (rhs_ok r Wn Hr Wr) as (R1 & R2 & R3 & w' & R4 & R5).
      cbn [keep stmt_str norm_stmt].
      replace (fold_left (fun acc e => acc ++ e) (map edge_rh_str r) []) with (concat (map edge_rh_str r))
        by (rewrite (fold_app (fun e => e)), map_id; reflexivity).
      rewrite (trim_space_id (concat (map edge_rh_str r))) by assumption.
      rewrite app_assoc.
      destruct (trim_tail (location_str l ++ concat (map edge_rh_str r)) (w ++ w') a Wa) as (wa & T1 & T2 & T3).
      { apply vis_left_app; exact V1. } { apply vis_right_app; exact R2. } { apply lexp_app; assumption. }
      split.
      { intros F. apply app_eq_nil in F. destruct F as [_ F]. destruct T3 as [T3 _]. congruence. }
      exists ((w ++ w') ++ wa). split; [apply (lexcp_app _ []); [apply lexc_blank; exact Hi|exact T1]|].
      intros k. rewrite <- app_assoc. apply (ds_edge rnd w (norm_loc l) w' _ wa _ k k k); auto.
    - intros a Ha ind Hi. apply (attrs_stmt_ok (lit "edge") T_edge a SEdgeAttrs); auto; [inw|intros; constructor; assumption].
    - intros a Ha ind Hi. apply (attrs_stmt_ok (lit "node") T_node a SNodeAttrs); auto; [inw|intros; constructor; assumption].
    - intros a Ha ind Hi. apply (attrs_stmt_ok (lit "graph") T_graph a SGraphAttrs); auto; [inw|intros; constructor; assumption].
    - intros g Hg Hw ind Hi. cbn [keep stmt_str norm_stmt]. destruct (Hg Hw ind Hi) as (w & H1 & H2). split.
      { destruct g as [i b]. cbn [subgraph_str]. destruct ind; discriminate. }
      exists w. split; [apply lexc_lexp; exact H1|]. intros k. constructor. apply H2.
    - intros a Ha ind Hi. cbn [keep stmt_str norm_stmt]. destruct (lexp_attr a Ha) as (w & H1 & _ & Ew). split.
      { unfold attr_str. intros F. apply app_eq_nil in F. destruct F as [_ F]. apply app_eq_nil in F. destruct F as [_ F]. discriminate. }
      exists w. split; [|intros k; rewrite Ew; destruct a; constructor].
      change (attr_str ind a) with (ind ++ attr_str [] a). apply (lexcp_app _ []); [apply lexc_blank; exact Hi|exact H1].
    - intros n Hn. cbn [location_str norm_loc]. destruct (lexp_node_id n Hn) as (w & H1 & H2 & H3 & H4).
      split; [exact H3|]. split; [exact H4|]. exists w. split; [exact H1|]. intros k. constructor. exact H2.
    - intros g Hg Hw. cbn [location_str norm_loc]. destruct (Hg Hw [] eq_refl) as (w & H1 & H2).
      split; [|split].
      + destruct g as [i b]. apply vis_left_ascii. reflexivity.
      + destruct g as [i b]. cbn [subgraph_str]. cbn [app]. 
        change (vis_right (lit "subgraph " ++ i ++ lit " {" ++ [nl] ++ stmt_list_join (map (stmt_str [tab]) b) ++ [nl] ++ lit "}")).
        do 6 apply vis_right_app. apply (vis_right_ascii []). reflexivity.
      + exists w. split; [apply lexc_lexp; exact H1|]. intros k. constructor. apply H2.
    - intros i b Hb Hw ind Hi. apply wf_sub_iff in Hw. destruct Hw as [Wi Wb]. cbn [subgraph_str norm_sub].
      fold (stmts_str (ind ++ [tab]) b). fold (norm_stmts b).
      destruct (lexc_body b Hb Wb (ind ++ [tab]) ind (blanks_tab _ Hi) Hi) as (w & H1 & H2).
      exists ((T_subgraph, lit "subgraph") :: (ID, i) :: w). split; [|intros k; constructor; apply H2].
      apply (lexc_app _ []); [apply lexc_blank; exact Hi|].
      change (lit "subgraph ") with (lit "subgraph" ++ lit " "). change (lit " {") with (lit " " ++ lit "{"). rewrite <- !app_assoc.
      apply (lexpc_app (lit "subgraph") [(T_subgraph, lit "subgraph")]); [apply lexp_kw; inw|discriminate|reflexivity|].
      apply (lexc_app _ []); [apply lexc_blank; reflexivity|].
      apply (lexpc_app _ [(ID, i)]); [apply lexp_id; apply Wi|discriminate|reflexivity|].
      apply (lexc_app _ []); [apply lexc_blank; reflexivity|]. exact H1.
  Qed.

  Lemma graph_str_lex g : wf_graph good_id g -> exists w, lexb (graph_str g) w /\ forall k, d_graph rnd w (norm_graph g) k k.
  Proof.
    destruct g as [ty st i b]. intros [Wi Wb]. cbn [g_id g_stmts] in *. unfold graph_str, norm_graph. cbn [g_type g_strict g_id g_stmts].
    destruct (lexc_body b) with (ind := [tab]) (tail := @nil ascii) as (w & H1 & H2).
    { apply Forall_forall. intros s _. apply all_ok. } { exact Wb. } { reflexivity. } { reflexivity. }
    assert (Hst : exists ws, lexc (if st then lit "strict " else []) ws /\ d_strict ws st).
    { destruct st; [|exists []; split; [apply lexc_nil|constructor]].
      exists [(T_strict, lit "strict")]. split; [|constructor]. change (lit "strict ") with (lit "strict" ++ lit " ").
      apply (lexpc_app _ [_] _ []); [apply lexp_kw; inw|discriminate|reflexivity|apply lexc_blank; reflexivity]. }
    destruct Hst as (ws & S1 & S2).
    assert (Hk : exists t, lexp (graph_type_str ty) [t] /\ d_kind t ty).
    { destruct ty; [exists (T_digraph, lit "digraph")|exists (T_graph, lit "graph")]; (split; [apply lexp_kw; inw|constructor]). }
    destruct Hk as (t & K1 & K2).
    assert (Hid : exists wi, lexp i wi /\ d_opt_id wi i).
    { destruct i as [|c i]; [exists []; split; [apply lexp_nil|constructor]|].
      exists [(ID, c :: i)]. split; [apply lexp_id; apply Wi; discriminate|constructor]. }
    destruct Hid as (wi & I1 & I2).
    exists (ws ++ t :: wi ++ w). split; [|intros k; constructor; auto].
    replace (ws ++ t :: wi ++ w) with (ws ++ ([t] ++ wi ++ w) ++ []) by (rewrite app_nil_r; reflexivity).
    apply S1. rewrite <- !app_assoc. apply K1; [reflexivity|].
    apply (lexc_blank (lit " ")); [reflexivity|]. apply I1; [reflexivity|].
    change (lit " {") with (lit " " ++ lit "{"). rewrite <- !app_assoc. apply (lexc_blank (lit " ")); [reflexivity|].
    cbn [app] in H1. 
    replace (lit "{" ++ [nl] ++ stmts_str [tab] b ++ [nl] ++ lit "}" ++ [nl])
      with ((lit "{" ++ nl :: stmts_str [tab] b ++ nl :: lit "}") ++ [nl])
      by (rewrite <- !app_assoc; cbn [app]; rewrite <- !app_assoc; reflexivity).
    apply H1. apply (lexc_blank [nl]); [reflexivity|apply lexb_nil].
  Qed.
End Main.

Theorem ast_roundtrip rnd k g : wf_graph good_id g -> parse_bytes rnd k (graph_str g) = Ok (norm_graph g, k).
Proof.
  intros H. destruct (graph_str_lex rnd g H) as (w & H1 & H2). apply parse_ok_iff. exists w.
  split; [apply lexb_scans; exact H1|apply H2].
Qed.
