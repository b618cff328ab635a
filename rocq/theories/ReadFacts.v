(** More about the calls an AST stands for: names and values come from the AST, ports begin with a colon and
    sit on nodes, and subgraphs are opened in a chain from the main graph. *)
From Coq Require Import Ascii.
From Verif Require Import Base Parser Maps Graph AttrMap MapFacts SpecGraph GraphProofs Analyse SpecAnalyse AnalyseProofs ReadProofs SpecAst SpecRound.
From Verif Require Ast.

(** ** Ports *)
Lemma port_shape p : port_text p = [] \/ exists x, port_text p = colon :: x.
Proof. destruct p as [[|c i] [|d j]]; cbn; eauto. Qed.
Definition at_end (e : edge) (x port : gostr) : Prop := (x = e_src e /\ port = e_src_port e) \/ (x = e_dst e /\ port = e_dst_port e).
Lemma arrows_at m rhs : forall src e x port, e ∈ map (arrow_edge m) (arrows src rhs) -> at_end e x port ->
  exists lo, lo ∈ src :: map dst_of rhs /\ x = end_name lo /\ port = end_port lo.
Proof.
  induction rhs as [|[op dst] rhs IH]; intros src e x port H E; cbn in H; [inversion H|]. apply elem_of_cons in H. destruct H as [->|H].
  - destruct E as [(-> & ->)|(-> & ->)]; cbn; [exists src|exists dst]; (split; [set_solver|split; reflexivity]).
  - destruct (IH dst e x port H E) as (lo & K & E'). exists lo. split; [|exact E']. cbn. right. exact K.
Qed.
Definition port_ok (l : list call) (x port : gostr) : Prop := port = [] \/ ((exists y, port = colon :: y) /\ exists p, adds p x l).
Definition ports_in (l : list call) (Q : gostr -> gostr -> Prop) : Prop := forall e x port, e ∈ edges_result l -> at_end e x port -> Q x port.
Lemma port_ok_app l1 l2 x port : port_ok l1 x port \/ port_ok l2 x port -> port_ok (l1 ++ l2) x port.
Proof. unfold port_ok. setoid_rewrite adds_app. naive_solver. Qed.
Definition port_ok' (l : list call) (pre : list Ast.stmt) (x port : gostr) : Prop :=
  port = [] \/ ((exists y, port = colon :: y) /\ ((exists p, adds p x l) \/ x ∈ mentioned pre)).
Lemma calls_ports :
  (forall name nd ed pre s l, stmt_calls name nd ed pre s l -> ports_in l (port_ok' l pre)) /\
  (forall name nd ed pre ls l, locs_calls name nd ed pre ls l -> ports_in l (port_ok l)) /\
  (forall name nd ed pre g l, sub_calls name nd ed pre g l -> ports_in l (port_ok l)) /\
  (forall name nd ed pre body l, body_calls name nd ed pre body l -> ports_in l (port_ok' l pre)).
Proof.
  apply (calls_ind (fun name nd ed pre s l => ports_in l (port_ok' l pre))
    (fun name nd ed pre ls l => ports_in l (port_ok l)) (fun name nd ed pre g l => ports_in l (port_ok l))
    (fun name nd ed pre body l => ports_in l (port_ok' l pre)));
    try (intros; intros e x port H; inversion H; fail).
  - intros name nd ed pre src rhs a l HL IH e x port He Hx. rewrite edges_result_app in He. apply elem_of_app in He. destruct He as [He|He].
    + rewrite edges_result_app, endpoint_edges, arrow_edges in He. destruct (arrows_at _ _ _ _ _ _ He Hx) as (lo & HI & -> & ->).
      destruct lo as [n|sg]; [|left; reflexivity]. cbn [end_port]. destruct (port_shape (Ast.nid_port n)) as [->|K]; [left; reflexivity|]. right. split; [exact K|]. cbn [end_name].
      assert (HM : Ast.nid_id n ∈ mentions (Ast.SEdge src rhs a)).
      { cbn. apply elem_of_app. apply elem_of_cons in HI. destruct HI as [<-|HI]; [left; apply elem_of_list_singleton; reflexivity|right].
        apply elem_of_list_In, in_flat_map. apply elem_of_list_fmap in HI. destruct HI as (e0 & E0 & HI). exists e0. split; [apply elem_of_list_In; exact HI|]. rewrite <- E0. left. reflexivity. }
      destruct (stmt_adds name nd ed pre _ _ _ (Sc_edge _ _ _ _ _ _ _ _ HL) HM) as [D'|D']; [auto|]. left. eexists. exact D'.
    + destruct (IH e x port He Hx) as [K|(K & p & K')]; [left; exact K|right]. split; [exact K|]. left. exists p. rewrite adds_app. auto.
  - intros name nd ed pre a l _ e x port He. exfalso. clear -He. induction l as [|kv l IH]; cbn in He; [inversion He|auto].
  - intros name nd ed pre g l _ IH e x port He Hx. destruct (IH e x port He Hx) as [K|(K & K')]; [left; exact K|right; auto].
  - intros name nd ed pre n ls l _ IH e x port He Hx. eapply IH; eassumption.
  - intros name nd ed pre g ls l l' _ IH1 _ IH2 e x port He Hx. rewrite edges_result_app in He. apply port_ok_app. apply elem_of_app in He.
    destruct He as [He|He]; [left; eapply IH1|right; eapply IH2]; eassumption.
  - intros name nd ed pre id body l _ IH e x port He Hx. cbn in He. destruct (IH e x port He Hx) as [H|(H & [(p & H')|H'])]; [left; exact H| |inversion H'].
    right. split; [exact H|]. exists p. change (adds p x ([CAddSubGraph name id (graph_defaults ∅ pre)] ++ l)). rewrite adds_app. auto.
  - intros name nd ed pre s body l l' HS IH1 _ IH2 e x port He Hx. rewrite edges_result_app in He. apply elem_of_app in He. destruct He as [He|He].
    + destruct (IH1 e x port He Hx) as [K|(K & [(p & K')|K'])]; [left; exact K|right; split; [exact K|]; left; exists p; rewrite adds_app; auto|right; auto].
    + destruct (IH2 e x port He Hx) as [K|(K & [(p & K')|D])]; [left; exact K|right; split; [exact K|]; left; exists p; rewrite adds_app; auto|right; split; [exact K|]].
      rewrite mentioned_app in D. apply elem_of_app in D. destruct D as [D|D]; [auto|].
      cbn in D. rewrite app_nil_r in D. destruct (stmt_adds _ _ _ _ _ _ _ HS D) as [D'|D']; [auto|]. left. eexists. rewrite adds_app. left. exact D'.
Qed.
Lemma body_ports name nd ed body l : body_calls name nd ed [] body l -> ports_in l (port_ok l).
Proof. intros H e x port He Hx. destruct (proj2 (proj2 (proj2 calls_ports)) _ _ _ _ _ _ H e x port He Hx) as [K|(K & [K'|K'])]; [left; exact K|right; auto|inversion K']. Qed.

(** ** Subgraphs are opened in a chain *)
Definition opened_by (l : list call) (p c : gostr) : Prop := exists m, CAddSubGraph p c m ∈ l.
Definition chained (name : gostr) (l : list call) : Prop := forall p n m, CAddSubGraph p n m ∈ l -> tc (opened_by l) name n.
Lemma tc_mono {A} (R R' : A -> A -> Prop) x y : (forall a b, R a b -> R' a b) -> tc R x y -> tc R' x y.
Proof. intros H K. induction K as [x y K|x y z K _ IH]; [apply tc_once; auto|eapply tc_l; eauto]. Qed.
Lemma chained_app name l1 l2 : chained name l1 -> chained name l2 -> chained name (l1 ++ l2).
Proof.
  intros H1 H2 p n m K. apply elem_of_app in K. destruct K as [K|K]; [specialize (H1 _ _ _ K); eapply tc_mono; [|exact H1]|specialize (H2 _ _ _ K); eapply tc_mono; [|exact H2]];
    intros a b (m' & X); exists m'; apply elem_of_app; auto.
Qed.
Lemma chained_none name l : (forall p n m, CAddSubGraph p n m ∉ l) -> chained name l.
Proof. intros H p n m K. destruct (H _ _ _ K). Qed.
Lemma endpoint_no_sub name d seen lo p n m : CAddSubGraph p n m ∉ endpoint_call name d seen lo.
Proof. destruct lo; cbn; [|apply not_elem_of_nil]. destruct (decide _); intros H; [inversion H|]. apply elem_of_list_singleton in H. discriminate. Qed.
Lemma arrow_no_sub name d m rhs : forall seen src p n m', CAddSubGraph p n m' ∉ arrow_calls name d m seen src rhs.
Proof.
  induction rhs as [|[op dst] rhs IH]; intros seen src p n m' H; cbn in H; [inversion H|].
  apply elem_of_app in H. destruct H as [H|H]; [exact (endpoint_no_sub _ _ _ _ _ _ _ H)|]. apply elem_of_cons in H. destruct H as [H|H]; [discriminate|exact (IH _ _ _ _ _ H)].
Qed.
Lemma calls_chained :
  (forall name nd ed pre s l, stmt_calls name nd ed pre s l -> chained name l) /\
  (forall name nd ed pre ls l, locs_calls name nd ed pre ls l -> chained name l) /\
  (forall name nd ed pre g l, sub_calls name nd ed pre g l -> chained name l) /\
  (forall name nd ed pre body l, body_calls name nd ed pre body l -> chained name l).
Proof.
  apply (calls_ind (fun name _ _ _ _ l => chained name l) (fun name _ _ _ _ l => chained name l) (fun name _ _ _ _ l => chained name l) (fun name _ _ _ _ l => chained name l));
    try (intros; apply chained_none; intros p n' m' H; repeat (apply elem_of_cons in H; destruct H as [H|H]; [discriminate|]); inversion H; fail).
  - intros name nd ed pre src rhs a l _ IH. apply chained_app; [|exact IH]. apply chained_none. intros p n m H. apply elem_of_app in H.
    destruct H as [H|H]; [exact (endpoint_no_sub _ _ _ _ _ _ _ H)|exact (arrow_no_sub _ _ _ _ _ _ _ _ _ H)].
  - intros name nd ed pre a l _. apply chained_none. intros p n m H. apply elem_of_list_fmap in H. destruct H as (? & ? & _). discriminate.
  - intros name nd ed pre g l _ IH. exact IH.
  - intros name nd ed pre n ls l _ IH. exact IH.
  - intros name nd ed pre g ls l l' _ IH1 _ IH2. apply chained_app; assumption.
  - intros name nd ed pre id body l _ IH p n m H. apply elem_of_cons in H. destruct H as [H|H].
    + injection H as <- <- <-. apply tc_once. exists m. left.
    + eapply tc_l; [eexists; left|]. eapply tc_mono; [|exact (IH _ _ _ H)]. intros a b (m' & X). exists m'. right. exact X.
  - intros name nd ed pre s body l l' _ IH1 _ IH2. apply chained_app; assumption.
Qed.
Definition body_chained := proj2 (proj2 (proj2 calls_chained)).

(** ** Names and values come from the AST *)
Section Names.
  Variable P : gostr -> Prop.
  Definition vals (m : attrs) : Prop := forall k v, m !! k = Some v -> P v.
  Definition call_names (c : call) : Prop :=
    match c with
    | CAddNode _ n m => (exists i, wf_node_id P i /\ n = node_text i) /\ vals m
    | CAddSubGraph _ n m => P n /\ vals m
    | CAddPortEdge _ _ _ _ _ m => vals m
    | CAddAttr _ _ v => P v
    | CSetStrict _ | CSetDir _ | CSetName _ => True
    | _ => False
    end.
  Lemma vals_empty : vals ∅.
  Proof. intros k v H. rewrite lookup_empty in H. discriminate. Qed.
  Lemma vals_union a b : vals a -> vals b -> vals (a ∪ b).
  Proof. intros Ha Hb k v H. apply lookup_union_Some_raw in H. destruct H as [H|[_ H]]; eauto. Qed.
  Lemma vals_insert k v m : P v -> vals m -> vals (<[k := v]> m).
  Proof. intros Hv Hm k' v' H. apply lookup_insert_Some in H. destruct H as [[_ <-]|[_ H]]; eauto. Qed.
  Lemma vals_given a : wf_attrs P a -> vals (given a).
  Proof.
    rewrite <- get_map_given. unfold get_map. intros H. assert (G : forall m, vals m -> vals (fold_left (fun acc al => fold_left (fun acc a => <[Ast.at_field a := Ast.at_value a]> acc) al acc) a m)).
    { induction H as [|al a Hal _ IH]; intros m Hm; [exact Hm|]. cbn [fold_left]. apply IH. clear IH. revert m Hm. induction Hal as [|x al (_ & Hx) _ IH]; intros m Hm; [exact Hm|].
      cbn [fold_left]. apply IH. apply vals_insert; assumption. }
    apply G, vals_empty.
  Qed.
  Lemma vals_nd d pre : vals d -> Forall (wf_stmt P) pre -> vals (node_defaults d pre).
  Proof. intros Hd H. revert d Hd. induction H as [|s pre Hs _ IH]; intros d Hd; [exact Hd|]. destruct s; cbn [node_defaults]; try (apply IH; exact Hd). apply IH, vals_union; [apply vals_given; exact Hs|exact Hd]. Qed.
  Lemma vals_ed d pre : vals d -> Forall (wf_stmt P) pre -> vals (edge_defaults d pre).
  Proof. intros Hd H. revert d Hd. induction H as [|s pre Hs _ IH]; intros d Hd; [exact Hd|]. destruct s; cbn [edge_defaults]; try (apply IH; exact Hd). apply IH, vals_union; [apply vals_given; exact Hs|exact Hd]. Qed.
  Lemma vals_gd d pre : vals d -> Forall (wf_stmt P) pre -> vals (graph_defaults d pre).
  Proof. intros Hd H. revert d Hd. induction H as [|s pre Hs _ IH]; intros d Hd; [exact Hd|]. destruct s; cbn [graph_defaults]; try (apply IH; exact Hd). apply IH, vals_union; [apply vals_given; exact Hs|exact Hd]. Qed.
  Lemma endpoint_names name d seen lo : wf_loc P lo -> vals d -> Forall call_names (endpoint_call name d seen lo).
  Proof.
    intros H Hd. destruct lo as [n|g]; cbn; [|constructor]. destruct (decide _); [constructor|]. constructor; [|constructor]. split; [|exact Hd].
    exists (Ast.NodeID (Ast.nid_id n) (Ast.Port [] [])). split; [split; [apply H|exact I]|]. unfold node_text. cbn. rewrite app_nil_r. reflexivity.
  Qed.
  Lemma arrow_names name d m rhs : vals d -> vals m -> Forall (wf_loc P) (map dst_of rhs) -> forall seen src, Forall call_names (arrow_calls name d m seen src rhs).
  Proof.
    intros Hd Hm. induction rhs as [|[op dst] rhs IH]; intros W seen src; [constructor|]. cbn [arrow_calls map dst_of] in *. apply Forall_cons in W. destruct W as [W1 W2].
    apply Forall_app. split; [apply endpoint_names; assumption|]. constructor; [exact Hm|]. apply IH. exact W2.
  Qed.
  Lemma rhs_wf r : fold_right (fun e acc => (match e with Ast.EdgeRH _ d => wf_loc P d end) /\ acc) True r <-> Forall (wf_loc P) (map dst_of r).
  Proof. induction r as [|[op d] r IH]; cbn [fold_right map dst_of]; [split; constructor|]. rewrite Forall_cons, IH. reflexivity. Qed.
  Lemma body_wf b : fold_right (fun st acc => wf_stmt P st /\ acc) True b <-> Forall (wf_stmt P) b.
  Proof. induction b as [|x b IH]; cbn [fold_right]; [split; constructor|]. rewrite IH, Forall_cons. reflexivity. Qed.
  Lemma calls_names :
    (forall name nd ed pre s l, stmt_calls name nd ed pre s l -> vals nd -> vals ed -> Forall (wf_stmt P) pre -> wf_stmt P s -> Forall call_names l) /\
    (forall name nd ed pre ls l, locs_calls name nd ed pre ls l -> vals nd -> vals ed -> Forall (wf_stmt P) pre -> Forall (wf_loc P) ls -> Forall call_names l) /\
    (forall name nd ed pre g l, sub_calls name nd ed pre g l -> vals nd -> vals ed -> Forall (wf_stmt P) pre -> wf_sub P g -> Forall call_names l) /\
    (forall name nd ed pre body l, body_calls name nd ed pre body l -> vals nd -> vals ed -> Forall (wf_stmt P) pre -> Forall (wf_stmt P) body -> Forall call_names l).
  Proof.
    apply (calls_ind (fun name nd ed pre s l => vals nd -> vals ed -> Forall (wf_stmt P) pre -> wf_stmt P s -> Forall call_names l)
      (fun name nd ed pre ls l => vals nd -> vals ed -> Forall (wf_stmt P) pre -> Forall (wf_loc P) ls -> Forall call_names l)
      (fun name nd ed pre g l => vals nd -> vals ed -> Forall (wf_stmt P) pre -> wf_sub P g -> Forall call_names l)
      (fun name nd ed pre body l => vals nd -> vals ed -> Forall (wf_stmt P) pre -> Forall (wf_stmt P) body -> Forall call_names l)).
    - intros name nd ed pre n a Hn He Hp (H1 & H2). constructor; [|constructor]. split; [eauto|]. apply vals_union; [apply vals_given; exact H2|].
      destruct (decide _); [apply vals_empty|apply vals_nd; assumption].
    - intros name nd ed pre src rhs a l _ IH Hn He Hp W. cbn in W. destruct W as (W1 & _ & W2 & W3). apply rhs_wf in W2. apply Forall_app. split.
      + apply Forall_app. split; [apply endpoint_names; [exact W1|apply vals_nd; assumption]|]. apply arrow_names; [apply vals_nd; assumption| |exact W2].
        apply vals_union; [apply vals_given; exact W3|apply vals_ed; assumption].
      + apply IH; auto.
    - intros. constructor.
    - intros. constructor.
    - intros name nd ed pre a l Pm Hn He Hp W. cbn in W. apply Forall_forall. intros c Hc. apply elem_of_list_fmap in Hc. destruct Hc as ([k v] & -> & Hc). cbn.
      rewrite Pm in Hc. apply elem_of_map_to_list in Hc. exact (vals_given a W k v Hc).
    - intros name nd ed pre g l _ IH Hn He Hp W. apply IH; auto.
    - intros name nd ed pre a Hn He Hp (_ & W). constructor; [exact W|constructor].
    - intros. constructor.
    - intros name nd ed pre n ls l _ IH Hn He Hp W. apply Forall_cons in W. apply IH; tauto.
    - intros name nd ed pre g ls l l' _ IH1 _ IH2 Hn He Hp W. apply Forall_cons in W. apply Forall_app. split; [apply IH1|apply IH2]; tauto.
    - intros name nd ed pre id body l _ IH Hn He Hp W. cbn in W. destruct W as [W1 W2]. apply body_wf in W2. constructor; [split; [exact W1|apply vals_gd; [apply vals_empty|exact Hp]]|].
      apply IH; [apply vals_nd; assumption|apply vals_ed; assumption|constructor|exact W2].
    - intros. constructor.
    - intros name nd ed pre s body l l' _ IH1 _ IH2 Hn He Hp W. apply Forall_cons in W. destruct W as [W1 W2]. apply Forall_app. split; [apply IH1; assumption|].
      apply IH2; try assumption. apply Forall_app. split; [exact Hp|]. constructor; [exact W1|constructor].
  Qed.
  Lemma graph_names a l : wf_graph P a -> body_calls (Ast.g_id a) ∅ ∅ [] (Ast.g_stmts a) l -> Forall call_names l.
  Proof. intros (_ & W) H. apply (proj2 (proj2 (proj2 calls_names)) _ _ _ _ _ _ H); [apply vals_empty|apply vals_empty|constructor|exact W]. Qed.
End Names.

(** ** What is in the graph *)
Lemma node_result_in P cs n m : Forall (call_names P) cs -> node_result cs n = Some m -> (exists i, wf_node_id P i /\ n = node_text i) /\ vals P m.
Proof.
  unfold node_result. intros F. assert (G : forall acc, (forall m, acc = Some m -> (exists i, wf_node_id P i /\ n = node_text i) /\ vals P m) ->
    fold_left (fun acc c => match c with CAddNode _ n' m => if decide (n' = n) then Some (m ∪ default ∅ acc) else acc | _ => acc end) cs acc = Some m ->
    (exists i, wf_node_id P i /\ n = node_text i) /\ vals P m).
  { induction F as [|c cs Hc _ IH]; intros acc Ha H; [apply Ha; exact H|]. cbn [fold_left] in H. eapply IH; [|exact H]. clear H IH. intros m' E.
    destruct c; try (apply Ha; exact E). destruct (decide (name = n)) as [->|D]; [|apply Ha; exact E]. injection E as <-. destruct Hc as (H1 & H2). split; [exact H1|].
    apply vals_union; [exact H2|]. destruct acc as [x|]; cbn; [apply (Ha x eq_refl)|apply vals_empty]. }
  apply G. discriminate.
Qed.
Lemma attrs_result_in P cs n : Forall (call_names P) cs -> vals P (attrs_result cs n).
Proof.
  unfold attrs_result. intros F. assert (G : forall acc, vals P acc -> vals P (fold_left (fun acc c => match c with
    | CAddSubGraph _ n' m => if decide (n' = n) then m ∪ acc else acc
    | CAddAttr n' f v => if decide (n' = n) then {[f := v]} ∪ acc else acc
    | _ => acc end) cs acc)).
  { induction F as [|c cs Hc _ IH]; intros acc Ha; [exact Ha|]. cbn [fold_left]. apply IH. destruct c; try exact Ha; destruct (decide _); try exact Ha.
    - apply vals_union; [|exact Ha]. intros k v' H. apply lookup_singleton_Some in H. destruct H as [_ <-]. exact Hc.
    - apply vals_union; [apply Hc|exact Ha]. }
  apply G, vals_empty.
Qed.

Lemma edges_result_in P cs e : Forall (call_names P) cs -> e ∈ edges_result cs -> vals P (e_attrs e).
Proof.
  intros F H. apply elem_of_list_In, in_flat_map in H. destruct H as (c & H1 & H2). apply elem_of_list_In in H1. rewrite Forall_forall in F. specialize (F c H1).
  destruct c; cbn in H2, F; try tauto. destruct H2 as [<-|[]]. exact F.
Qed.
Lemma graph_calls_names P a cs : wf_graph P a -> graph_calls a cs -> Forall (call_names P) cs.
Proof. intros W (l & H & ->). repeat (constructor; [exact I|]). eapply graph_names; eassumption. Qed.
