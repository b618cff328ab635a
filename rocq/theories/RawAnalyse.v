(** Model of /repo/analyse.go on syntax trees with nils (RawTree.v). *)
From Verif Require Import Base Parser Maps Graph AttrMap Analyse Walk RawTree WalkAnalyse.
From Verif Require Ast.

Section RawVisitors.
  Variable S : Type.
  Variable step : S -> call -> S * option err.
  Variable ord : order.
  Notation vst := (vstate S).
  Notation vend := (ending vst (option visitor_value)).

  (** ast/ast.go:393-401 (GetMap): attr.Field of a nil pointer panics *)
  Definition rget_map (a : list (list (option Ast.attr))) : option attrs :=
    option_map get_map (oeach (oeach (fun x => x)) a).
  (** ast/ast.go:216-222, 657-663 (GetID, GetPort), 481-483 (IsNode) of a Location: on nils GetID panics, and it
      is called before the others *)
  Definition rloc_get (l : rloc) : option (gostr * Ast.port * bool) :=
    match l with
    | RLNil | RLNode None | RLSub RSNil => None
    | RLNode (Some n) => Some (Ast.nid_id n, Ast.nid_port n, true)
    | RLSub (RSubGraph id _) => Some (id, Ast.Port [] [], false)
    end.

  (** analyse.go:144-156: the loop of edgeStmt.  The second component tells whether it panicked. *)
  Fixpoint redge_loop (w : visitor) (st : istate S) (a : attrs) (src : gostr) (src_port : Ast.port) (rhs : list rerh)
    : visitor * istate S * bool :=
    match rhs with
    | [] => (w, st, false)
    | RHNil :: _ => (w, st, true)
    | RH op dst :: rhs' =>
        match rloc_get dst with
        | None => (w, st, true)
        | Some (id, port, is_node) =>
            let '(w1, st1) := if is_node : bool then add_node_from_edge S step w st id else (w, st) in
            let st2 := emit S step st1 (CAddPortEdge src (Ast.port_str src_port) id (Ast.port_str port) op a) in
            redge_loop w1 st2 a id port rhs'
        end
    end.
  (** analyse.go:135-158 (edgeStmt) *)
  Definition redge_stmt (w : visitor) (st : istate S) (src : rloc) (rhs : list rerh) (a : list (list (option Ast.attr)))
    : visitor * istate S * bool :=
    match rget_map a with
    | None => (w, st, true)
    | Some m0 =>
        let '(l, st1) := range S ord st (v_eattrs w) in
        let m := ammend m0 l in
        match rloc_get src with
        | None => (w, st1, true)
        | Some (id, port, is_node) =>
            let '(w2, st2) := if is_node : bool then add_node_from_edge S step w st1 id else (w, st1) in
            redge_loop w2 st2 m id port rhs
        end
    end.

  (** A changed stmtVisitor; [r] is what Visit returns unless it panicked. *)
  Definition rstore (p : nat) (x : visitor * istate S * bool) (h : list visitor) (r : visitor_value) : vend :=
    let s := VState S (snd (fst x)) (<[p := fst (fst x)]> h) in
    if snd x then Panics s else Returns s (Some r).
  (** The bodies of nodeStmt (analyse.go:122-133), nodeAttrs (160-163), edgeAttrs (165-168), graphAttrs (170-177)
      after the dereferences, of which Analyse.v has the rest; nothing is called on the Interface before them. *)
  Definition with_map (s : vst) (a : list (list (option Ast.attr))) (f : list (list Ast.attr) -> vend) : vend :=
    match oeach (oeach (fun x => x)) a with None => Panics s | Some a => f a end.
  Definition ralloc (x : visitor * istate S) (h : list visitor) : vend :=
    Returns (VState S (snd x) (h ++ [fst x])) (Some (VStmt (length h))).

  (** analyse.go:41-43 (nilVisitor.Visit), 48-58 (graphVisitor.Visit), 75-97 (stmtVisitor.Visit) *)
  Definition rvisit (s : vst) (v : visitor_value) (e : relem) : vend :=
    let st := vs_st S s in let h := vs_heap S s in
    match v with
    | VNil => Returns s (Some VNil)
    | VGraph =>
        match e with
        | REGraph None => Panics s                                           (* graph.Strict *)
        | REGraph (Some g) =>
            let st1 := emit S step st (CSetStrict (rg_strict g)) in
            let st2 := emit S step st1 (CSetDir (rg_type g)) in
            let st3 := emit S step st2 (CSetName (rg_id g)) in
            ralloc (new_stmt_visitor S ord st3 (rg_id g) ∅ ∅) h
        | _ => Returns s (Some VGraph)
        end
    | VStmt p =>
        match h !! p with
        | None => Returns s None                                             (* no such pointer: cannot happen *)
        | Some w =>
            match e with
            | RENodeStmt None _ => Panics s                                  (* stmt.NodeID.String() *)
            | RENodeStmt (Some n) a => with_map s a (fun a => rstore p (node_stmt S step ord w st n a, false) h VNil)
            | REEdgeStmt src rhs a => rstore p (redge_stmt w st src rhs a) h (VStmt p)
            | RENodeAttrs a => with_map s a (fun a => rstore p (node_attrs_stmt S ord w st a, false) h VNil)
            | REEdgeAttrs a => with_map s a (fun a => rstore p (edge_attrs_stmt S ord w st a, false) h VNil)
            | REGraphAttrs a => with_map s a (fun a => rstore p (graph_attrs_stmt S step ord w st a, false) h VNil)
            | RESub RSNil => Panics s                                        (* stmt.ID *)
            | RESub (RSubGraph id _) =>
                ralloc (new_stmt_visitor S ord (emit S step st (CAddSubGraph (v_graph w) id (v_gattrs w))) id (v_nattrs w) (v_eattrs w)) h
            | REAttr None => Panics s                                        (* stmt.Field *)
            | REAttr (Some a) =>
                Returns (VState S (emit S step st (CAddAttr (v_graph w) (Ast.at_field a) (Ast.at_value a))) h) (Some (VStmt p))
            | REAttrList _ => Returns s (Some VNil)
            | _ => Returns s (Some (VStmt p))
            end
        end
    end.

  (** analyse.go:31-36 (Analyse): the Interface it leaves and, if it returns, the error *)
  Definition ranalyse (g : option rgraph) (s0 : S) : ending S (option err) :=
    match rw_graph vst visitor_value rvisit g (Some VGraph) (VState S (IState s0 [] 0) []) with
    | Returns s _ => Returns (i_impl (vs_st S s)) (get_error (i_errs (vs_st S s)))
    | Panics s => Panics (i_impl (vs_st S s))
    end.
End RawVisitors.

(** analyse.go:22-28 (NewAnalysedGraph): [None] is a panic *)
Definition rnew_analysed_graph (os : nat -> oracle) (ord : order) (g : option rgraph) : option (agraph + err) :=
  match ranalyse _ (graph_step os) ord g (new_graph, 0) with
  | Returns (a, _) None => Some (inl a)
  | Returns _ (Some e) => Some (inr e)
  | Panics _ => None
  end.
