(** Model of the calls that only look at a graph (/repo/write.go, Sorted of edges.go, nodes.go and subgraphs.go, SortedChildren
    of relations.go, IsNode and IsSubGraph of graph.go) with the sharing of Go: programs that read, write and allocate single
    objects of the heap of HeapGraph.v, so that several goroutines can run them at the same time.  (Write.v models the same
    code by value.)  Simplifications: one step reads or writes one object (a map, an array, a struct; the struct Graph
    with the containers and their index maps is one object); a range loop reads the map in one step, its order is chosen by
    the runtime; the AST, slices of strings, the slices made by Nodes.Sorted and SubGraphs.Sorted and the map
    writtenLocations, none of which another call can refer to, are values.  Recursion is bounded by [fuel] as in Write.v. *)
From Verif Require Import Base Maps Graph HeapGraph.
From Verif Require Ast.

(** ** Programs *)
(** References to the objects of the heap. *)
Inductive cell : Type -> Type :=
| CGraph : cell hgraph               (* the struct Graph with its containers *)
| CMap (l : nat) : cell attrs
| CNode (p : nat) : cell nobj
| CEdge (p : nat) : cell eobj
| CSub (p : nat) : cell sobj
| CArr (a : nat) : cell (list nat).  (* the array of a []*Edge *)
(** A program that returns an [A]; [Fail]: it returns an error; [Crash]: panic; [Deep]: recursion beyond the fuel. *)
Inductive prog (A : Type) : Type :=
| Ret (a : A)
| Fail (e : err)
| Crash
| Deep
| Get {T} (c : cell T) (k : T -> prog A)
| Put {T} (c : cell T) (x : T) (k : prog A)
| NewMap (k : nat -> prog A)                             (* make(Attrs) *)
| NewArr (n : nat) (k : nat -> prog A)                   (* make([]*Edge, n) *)
| Pick {T} (l : list T) (k : list T -> prog A).          (* the order of a range loop over a map *)
Arguments Ret {A}. Arguments Fail {A}. Arguments Crash {A}. Arguments Deep {A}. Arguments Get {A T}. Arguments Put {A T}.
Arguments NewMap {A}. Arguments NewArr {A}. Arguments Pick {A T}.
Fixpoint bind {A B} (p : prog A) (f : A -> prog B) : prog B :=
  match p with
  | Ret a => f a
  | Fail e => Fail e
  | Crash => Crash
  | Deep => Deep
  | Get c k => Get c (fun x => bind (k x) f)
  | Put c x k => Put c x (bind k f)
  | NewMap k => NewMap (fun l => bind (k l) f)
  | NewArr n k => NewArr n (fun a => bind (k a) f)
  | Pick l k => Pick l (fun l' => bind (k l') f)
  end.
(** The error as a value. *)
Fixpoint catch {A} (p : prog A) : prog (A + err) :=
  match p with
  | Ret a => Ret (inl a)
  | Fail e => Ret (inr e)
  | Crash => Crash
  | Deep => Deep
  | Get c k => Get c (fun x => catch (k x))
  | Put c x k => Put c x (catch k)
  | NewMap k => NewMap (fun l => catch (k l))
  | NewArr n k => NewArr n (fun a => catch (k a))
  | Pick l k => Pick l (fun l' => catch (k l'))
  end.
Notation "'let!' x := p 'in' q" := (bind p (fun x => q)) (at level 200, x name, p at level 100, q at level 200).
Definition get {T} (c : cell T) : prog T := Get c Ret.

(** ** attrs.go *)
(** The range loop over the map at [l]: its entries, its keys. *)
Definition entries (l : nat) : prog (list (gostr * gostr)) := let! m := get (CMap l) in Pick (map_to_list m) Ret.
Definition keys_of (l : nat) : prog (list gostr) := let! m := get (CMap l) in Pick (elements (keys m)) Ret.
(** m[k] = v for the entries [es] *)
Fixpoint set_all (l : nat) (es : list (gostr * gostr)) : prog unit :=
  match es with
  | [] => Ret tt
  | (k, v) :: es' => let! m := get (CMap l) in Put (CMap l) (<[k := v]> m) (set_all l es')
  end.
(** attrs.go:93-99 (Copy), 65-71 (toMap) *)
Definition h_copy (l : nat) : prog nat :=
  let! n := NewMap Ret in let! es := entries l in let! _ := set_all n es in Ret n.
(** attrs.go:83-90 (sortedNames) *)
Definition h_sorted_names (l : nat) : prog (list gostr) := let! ks := keys_of l in Ret (sorted_keys ks).

(** ** edges.go *)
(** edges.go:110-116 *)
Fixpoint h_attrs_less (l l' : nat) (ks : list gostr) : prog bool :=
  match ks with
  | [] => Ret false
  | k :: ks' =>
      let! x := get (CMap l) in let! y := get (CMap l') in
      if str_ltb (default [] (x !! k)) (default [] (y !! k)) then Ret true
      else if str_ltb (default [] (y !! k)) (default [] (x !! k)) then Ret false
      else h_attrs_less l l' ks'
  end.
(** edges.go:76-119 (Less) on the slice with the array [a] *)
Definition h_less (a i j : nat) : prog bool :=
  let! es := get (CArr a) in
  match es !! i, es !! j with
  | Some p, Some q =>
      let! x := get (CEdge p) in let! y := get (CEdge q) in
      if str_ltb (eo_src x) (eo_src y) then Ret true else if str_ltb (eo_src y) (eo_src x) then Ret false
      else if str_ltb (eo_dst x) (eo_dst y) then Ret true else if str_ltb (eo_dst y) (eo_dst x) then Ret false
      else if str_ltb (eo_src_port x) (eo_src_port y) then Ret true else if str_ltb (eo_src_port y) (eo_src_port x) then Ret false
      else if str_ltb (eo_dst_port x) (eo_dst_port y) then Ret true else if str_ltb (eo_dst_port y) (eo_dst_port x) then Ret false
      else if negb (Bool.eqb (eo_dir x) (eo_dir y)) then Ret (eo_dir x)
      else
        let! n := h_copy (eo_attrs x) in
        let! more := entries (eo_attrs y) in
        let! _ := set_all n more in
        let! ks := h_sorted_names n in
        h_attrs_less (eo_attrs x) (eo_attrs y) ks
  | _, _ => Crash
  end.
(** edges.go:75 (Swap) *)
Definition h_swap (a i j : nat) : prog unit :=
  let! es := get (CArr a) in
  match es !! i, es !! j with
  | Some p, Some q => Put (CArr a) (<[j := p]> (<[i := q]> es)) (Ret tt)
  | _, _ => Crash
  end.
(** What sort.Sort does with its argument: it calls Less and Swap, which calls depends on the answers, and ends.  The
    algorithm is not modelled: [sort n] is any such sequence of calls for [n] elements. *)
Inductive strat :=
| SDone
| SLess (i j : nat) (k : bool -> strat)
| SSwap (i j : nat) (k : strat).
Fixpoint h_sort (a : nat) (s : strat) : prog unit :=
  match s with
  | SDone => Ret tt
  | SLess i j k => let! b := h_less a i j in h_sort a (k b)
  | SSwap i j k => let! _ := h_swap a i j in h_sort a k
  end.

Section Writer.
  Variable sort : nat -> strat.
  (** edges.go:65-70 (Edges.Sorted): the array of the slice that is returned *)
  Definition h_edges_sorted : prog nat :=
    let! g := get CGraph in
    let x := he_edges (hg_edges g) in
    let! a := NewArr (sl_len x) Ret in
    let! es := get (CArr (sl_arr x)) in
    Put (CArr a) (take (sl_len x) es) (let! _ := h_sort a (sort (sl_len x)) in Ret a).

  (** graph.go:182-185 (IsNode), 188-191 (IsSubGraph), 193-197 (isClusterSubGraph) *)
  Definition h_is_node (name : gostr) : prog bool :=
    let! g := get CGraph in Ret (bool_decide (is_Some (hn_lookup (hg_nodes g) !! name))).
  Definition h_is_subgraph (name : gostr) : prog bool :=
    let! g := get CGraph in Ret (bool_decide (is_Some (hg_subs g !! name))).
  Definition h_is_cluster (name : gostr) : prog bool :=
    let! b := h_is_subgraph name in Ret (b && has_prefix name (lit "cluster")).
  (** relations.go:57-64 (SortedChildren) *)
  Definition h_sorted_children (parent : gostr) : prog (list gostr) :=
    let! g := get CGraph in let! ks := Pick (elements (children (hg_rels g) parent)) Ret in Ret (sorted_keys ks).
  (** nodes.go:67-78 (Sorted): references to nodes; a key without entry cannot occur (nil) *)
  Definition h_nodes_sorted : prog (list nat) :=
    let! g := get CGraph in
    let! ks := Pick (elements (keys (hn_lookup (hg_nodes g)))) Ret in
    Ret (map (fun n => default 0 (hn_lookup (hg_nodes g) !! n)) (sorted_keys ks)).
  (** subgraphs.go:58-69 (Sorted) *)
  Definition h_subs_sorted : prog (list nat) :=
    let! g := get CGraph in
    let! ks := Pick (elements (keys (hg_subs g))) Ret in
    Ret (map (fun n => default 0 (hg_subs g !! n)) (sorted_keys ks)).

  (** write.go:32-41 (appendAttrs) *)
  Fixpoint h_append_loop (l : nat) (ks : list gostr) (acc : list Ast.stmt) : prog (list Ast.stmt) :=
    match ks with
    | [] => Ret acc
    | k :: ks' => let! m := get (CMap l) in h_append_loop l ks' (acc ++ [Ast.SAttr (Ast.Attr k (default [] (m !! k)))])
    end.
  Definition h_append_attrs (l : nat) : prog (list Ast.stmt) := let! ks := h_sorted_names l in h_append_loop l ks [].
  (** ast.PutMap(attrs.toMap()): attrs.go:65-71, ast/ast.go:378-391 *)
  Fixpoint h_put_loop (l : nat) (ks : list gostr) (acc : list Ast.attr) : prog (list Ast.attr) :=
    match ks with
    | [] => Ret acc
    | k :: ks' => let! m := get (CMap l) in h_put_loop l ks' (acc ++ [Ast.Attr k (default [] (m !! k))])
    end.
  Definition h_attr_list (l : nat) : prog (list (list Ast.attr)) :=
    let! n := h_copy l in let! ks := h_sorted_names n in let! al := h_put_loop n ks [] in Ret [al].

  (** write.go:71-79 (newNodeStmt); [wr] is writtenLocations *)
  Definition h_new_node_stmt (name : gostr) (wr : names) : prog (Ast.stmt * names) :=
    let! g := get CGraph in
    match hn_lookup (hg_nodes g) !! name with
    | None => Crash
    | Some p =>
        let! nd := get (CNode p) in
        let! al := h_attr_list (no_attrs nd) in
        Ret (Ast.SNode (Ast.make_node_id (no_name nd) []) al, {[no_name nd]} ∪ wr)
    end.
  (** write.go:50-62 *)
  Fixpoint h_children_loop (rec : gostr -> names -> prog (Ast.subgraph * names)) (cs : list gostr) (acc : list Ast.stmt) (wr : names)
      : prog (list Ast.stmt * names) :=
    match cs with
    | [] => Ret (acc, wr)
    | c :: cs' =>
        let! b := h_is_node c in
        if b : bool then let! r := h_new_node_stmt c wr in h_children_loop rec cs' (acc ++ [r.1]) r.2
        else
          let! b' := h_is_subgraph c in
          if b' : bool then let! r := rec c wr in h_children_loop rec cs' (acc ++ [Ast.SSub r.1]) r.2
          else Fail (c ++ lit " is not a node or a subgraph")
    end.
  (** write.go:43-64 (newSubGraph) *)
  Fixpoint h_new_sub (fuel : nat) (name : gostr) (wr : names) : prog (Ast.subgraph * names) :=
    match fuel with
    | O => Deep
    | S fuel' =>
        let! g := get CGraph in
        match hg_subs g !! name with
        | None => Crash
        | Some p =>
            let! sb := get (CSub p) in
            let! sa := h_append_attrs (so_attrs sb) in
            let! cs := h_sorted_children name in
            let! r := h_children_loop (h_new_sub fuel') cs sa ({[so_name sb]} ∪ wr) in
            Ret (Ast.SubGraph (so_name sb) r.1, r.2)
        end
    end.
  (** write.go:66-69 (newNodeID) *)
  Definition h_new_node_id (name port : gostr) : prog Ast.node_id :=
    let! g := get CGraph in
    match hn_lookup (hg_nodes g) !! name with
    | None => Crash
    | Some p => let! nd := get (CNode p) in Ret (Ast.make_node_id (no_name nd) port)
    end.
  (** write.go:81-96 (newLocation) *)
  Definition h_new_location (fuel : nat) (name port : gostr) (wr : names) : prog (Ast.location * names) :=
    let! b := h_is_node name in
    if b : bool then let! n := h_new_node_id name port in Ret (Ast.LNode n, wr)
    else
      let! b' := h_is_cluster name in
      if b' : bool then
        match port with
        | [] => Ret (Ast.LNode (Ast.make_node_id name port), wr)
        | _ => Fail (lit "subgraph cannot have a port: " ++ port)
        end
      else
        let! b'' := h_is_subgraph name in
        if b'' : bool then
          match port with
          | [] => let! r := h_new_sub fuel name wr in Ret (Ast.LSub r.1, r.2)
          | _ => Fail (lit "subgraph cannot have a port: " ++ port)
          end
        else Fail (name ++ lit " is not a node or a subgraph").
  (** write.go:98-118 (newEdgeStmt) *)
  Definition h_new_edge_stmt (fuel : nat) (p : nat) (wr : names) : prog (Ast.stmt * names) :=
    let! e := get (CEdge p) in
    let! src := h_new_location fuel (eo_src e) (eo_src_port e) wr in
    let! dst := h_new_location fuel (eo_dst e) (eo_dst_port e) src.2 in
    let! al := h_attr_list (eo_attrs e) in
    Ret (Ast.SEdge src.1 [Ast.EdgeRH (eo_dir e) dst.1] al, dst.2).
  (** write.go:128-134: the elements [i], [i+1], ... of the array [a], [n] of them *)
  Fixpoint h_edges_loop (fuel : nat) (a i n : nat) (acc : list Ast.stmt) (wr : names) : prog (list Ast.stmt * names) :=
    match n with
    | O => Ret (acc, wr)
    | S n' =>
        let! es := get (CArr a) in
        match es !! i with
        | None => Crash
        | Some p => let! r := h_new_edge_stmt fuel p wr in h_edges_loop fuel a (S i) n' (acc ++ [r.1]) r.2
        end
    end.
  (** write.go:136-147 *)
  Fixpoint h_subs_loop (fuel : nat) (ps : list nat) (acc : list Ast.stmt) (wr : names) : prog (list Ast.stmt * names) :=
    match ps with
    | [] => Ret (acc, wr)
    | p :: ps' =>
        let! s := get (CSub p) in
        if decide (so_name s ∈ wr) then h_subs_loop fuel ps' acc wr
        else
          let! g := get CGraph in
          if decide (so_name s ∈ children (hg_rels g) (hg_name g)) then
            let! r := h_new_sub fuel (so_name s) wr in h_subs_loop fuel ps' (acc ++ [Ast.SSub r.1]) r.2
          else h_subs_loop fuel ps' acc wr
    end.
  (** write.go:149-154 *)
  Fixpoint h_nodes_loop (ps : list nat) (acc : list Ast.stmt) (wr : names) : prog (list Ast.stmt * names) :=
    match ps with
    | [] => Ret (acc, wr)
    | p :: ps' =>
        let! nd := get (CNode p) in
        if decide (no_name nd ∈ wr) then h_nodes_loop ps' acc wr
        else let! r := h_new_node_stmt (no_name nd) wr in h_nodes_loop ps' (acc ++ [r.1]) r.2
    end.
  (** write.go:120-157 (Write), 159-163 (WriteAst) *)
  Definition h_write_ast (fuel : nat) : prog Ast.graph :=
    let! g := get CGraph in
    let! sa := h_append_attrs (hg_attrs g) in
    let! a := h_edges_sorted in
    let! r2 := h_edges_loop fuel a 0 (sl_len (he_edges (hg_edges g))) sa ∅ in
    let! ss := h_subs_sorted in
    let! r3 := h_subs_loop fuel ss r2.1 r2.2 in
    let! ns := h_nodes_sorted in
    let! r4 := h_nodes_loop ns r3.1 r3.2 in
    Ret (Ast.Graph (hg_directed g) (hg_strict g) (hg_name g) r4.1).

  (** ** The calls of a user who looks at the graph *)
  Inductive look_call :=
  | LString                     (* g.String() *)
  | LWriteAst                   (* g.WriteAst() *)
  | LEdges                      (* g.Edges.Sorted(), and reading the edges *)
  | LNodes                      (* g.Nodes.Sorted(), and reading the nodes *)
  | LSubs                       (* g.SubGraphs.Sorted(), and reading them *)
  | LChildren (parent : gostr)  (* g.Relations.SortedChildren(parent) *)
  | LIsNode (name : gostr)
  | LIsSubGraph (name : gostr).
  (** What is returned *)
  Inductive value :=
  | VText (t : gostr) | VAst (a : Ast.graph) | VError (e : err) | VEdges (l : list edge) | VNodes (l : list node)
  | VSubs (l : list sub) | VNames (l : list gostr) | VBool (b : bool).
  Fixpoint each {A B} (f : A -> prog B) (l : list A) : prog (list B) :=
    match l with [] => Ret [] | x :: l' => let! y := f x in let! ys := each f l' in Ret (y :: ys) end.
  Definition read_edge (p : nat) : prog edge :=
    let! e := get (CEdge p) in let! m := get (CMap (eo_attrs e)) in
    Ret (Edge (eo_src e) (eo_src_port e) (eo_dst e) (eo_dst_port e) (eo_dir e) m).
  Definition read_node (p : nat) : prog node :=
    let! n := get (CNode p) in let! m := get (CMap (no_attrs n)) in Ret (Node (no_name n) m).
  Definition read_sub (p : nat) : prog sub :=
    let! s := get (CSub p) in let! m := get (CMap (so_attrs s)) in Ret (Sub m (so_name s)).
  Definition run_look (fuel : nat) (c : look_call) : prog value :=
    match c with
    | LString =>   (* write.go:165-172 *)
        let! r := catch (h_write_ast fuel) in
        Ret (VText (match r with inl a => Ast.graph_str a | inr e => lit "error: " ++ e end))
    | LWriteAst => let! r := catch (h_write_ast fuel) in Ret (match r with inl a => VAst a | inr e => VError e end)
    | LEdges => let! a := h_edges_sorted in let! es := get (CArr a) in let! l := each read_edge es in Ret (VEdges l)
    | LNodes => let! ps := h_nodes_sorted in let! l := each read_node ps in Ret (VNodes l)
    | LSubs => let! ps := h_subs_sorted in let! l := each read_sub ps in Ret (VSubs l)
    | LChildren p => let! l := h_sorted_children p in Ret (VNames l)
    | LIsNode n => let! b := h_is_node n in Ret (VBool b)
    | LIsSubGraph n => let! b := h_is_subgraph n in Ret (VBool b)
    end.
  (** A goroutine that makes several calls, one after the other. *)
  Definition looker (fuel : nat) (cs : list look_call) : prog (list value) := each (run_look fuel) cs.
End Writer.

(** ** Running programs *)
Definition look {T} (w : world) (c : cell T) : option T :=
  match c with
  | CGraph => Some w.2
  | CMap l => cells (maps w.1) !! l
  | CNode p => cells (nobjs w.1) !! p
  | CEdge p => cells (eobjs w.1) !! p
  | CSub p => cells (sobjs w.1) !! p
  | CArr a => cells (earrs w.1) !! a
  end.
Definition store_at {T} (w : world) (c : cell T) : T -> world :=
  match c in cell T return T -> world with
  | CGraph => fun x => (w.1, x)
  | CMap l => fun x => (with_maps w.1 (put (maps w.1) l x), w.2)
  | CNode p => fun x => (with_nobjs w.1 (put (nobjs w.1) p x), w.2)
  | CEdge p => fun x => (with_eobjs w.1 (put (eobjs w.1) p x), w.2)
  | CSub p => fun x => (with_sobjs w.1 (put (sobjs w.1) p x), w.2)
  | CArr a => fun x => (with_earrs w.1 (put (earrs w.1) a x), w.2)
  end.
(** The object a step reads or writes. *)
Inductive object := BGraph | BMap (l : nat) | BNode (p : nat) | BEdge (p : nat) | BSub (p : nat) | BArr (a : nat).
Definition obj {T} (c : cell T) : object :=
  match c with CGraph => BGraph | CMap l => BMap l | CNode p => BNode p | CEdge p => BEdge p | CSub p => BSub p | CArr a => BArr a end.
Inductive access := Reads (b : object) | Writes (b : object) | Touches_nothing.
(** [act w p x w' p']: a program that is at [p] does its next step, with the access [x]. *)
Definition act {A} (w : world) (p : prog A) (x : access) (w' : world) (p' : prog A) : Prop :=
  match p with
  | Ret _ | Fail _ | Crash | Deep => False
  | Get c k => exists v, look w c = Some v /\ x = Reads (obj c) /\ w' = w /\ p' = k v
  | Put c v k => is_Some (look w c) /\ x = Writes (obj c) /\ w' = store_at w c v /\ p' = k
  | NewMap k => x = Touches_nothing /\ w' = ((new_map w.1 ∅).1, w.2) /\ p' = k (new_map w.1 ∅).2
  | NewArr n k => x = Touches_nothing /\ w' = (with_earrs w.1 (alloc (earrs w.1) (replicate n 0)).1, w.2) /\ p' = k (alloc (earrs w.1) (replicate n 0)).2
  | Pick l k => exists l', l' ≡ₚ l /\ x = Touches_nothing /\ w' = w /\ p' = k l'
  end.
(** Goroutines: one of them, whichever the scheduler likes, does a step. *)
Definition pool_step {A} (s s' : world * list (prog A)) : Prop :=
  exists i p p' x, s.2 !! i = Some p /\ act s.1 p x s'.1 p' /\ s'.2 = <[i := p']> s.2.
