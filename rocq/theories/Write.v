(** Model of /repo/write.go and of Edges.Sorted of /repo/edges.go: writing a graph as an AST and as text.
    Recursion is bounded by [fuel], the number of nested calls of newSubGraph: [OutOfFuel] at every fuel means
    that the Go program recurses without bound (until its stack overflows).  A dereferenced nil pointer
    is [Panic].  Range loops over maps: [o_attrs o t], [o_names o t], [t] the number of loops so far. *)
From Coq Require Import Sorting.Sorted.
From Verif Require Import Base Parser Maps Graph AttrMap.
From Verif Require Ast.

(** ** edges.go: the order on edges *)
(** edges.go:110-116: the loop over the sorted attribute names; a missing key of a Go map reads as "". *)
Definition attr_at (m : attrs) (k : gostr) : gostr := default [] (m !! k).
Fixpoint attrs_less (a b : attrs) (ks : list gostr) : bool :=
  match ks with
  | [] => false
  | k :: ks' =>
      if str_ltb (attr_at a k) (attr_at b k) then true
      else if str_ltb (attr_at b k) (attr_at a k) then false
      else attrs_less a b ks'
  end.
(** edges.go:76-119 (edgeSorter.Less); Attrs.Copy is attrs.go:93-99, sortedNames attrs.go:83-90.  The three
    range loops of one comparison are numbered 0, 1, 2. *)
Definition edge_less (o : oracle) (x y : edge) : bool :=
  if str_ltb (e_src x) (e_src y) then true else if str_ltb (e_src y) (e_src x) then false
  else if str_ltb (e_dst x) (e_dst y) then true else if str_ltb (e_dst y) (e_dst x) then false
  else if str_ltb (e_src_port x) (e_src_port y) then true else if str_ltb (e_src_port y) (e_src_port x) then false
  else if str_ltb (e_dst_port x) (e_dst_port y) then true else if str_ltb (e_dst_port y) (e_dst_port x) then false
  else if negb (Bool.eqb (e_dir x) (e_dir y)) then e_dir x
  else
    let m := copy_attrs (o_attrs o 0 (e_attrs x)) in
    let m := extend m (o_attrs o 1 (e_attrs y)) in
    attrs_less (e_attrs x) (e_attrs y) (sorted_keys (o_names o 2 (keys m))).

(** edges.go:64-75 (Edges.Sorted): sort.Sort, not modelled, is any function that returns a sorted
    permutation of its argument (that is what it promises when Less is a strict weak order).
    Simplification: all comparisons of one sort use the same iteration orders. *)
Definition sorts (less : edge -> edge -> bool) (srt : list edge -> list edge) : Prop :=
  forall l, srt l ≡ₚ l /\ StronglySorted (fun x y => less y x = false) (srt l).

(** ** write.go *)
Section Writer.
  Variable srt : list edge -> list edge.
  Variable o : oracle.
  Variable g : agraph.

  (** write.go:23-30 (writer; the graph is [g]), with the number of range loops so far *)
  Record wstate := WState { w_written : names; w_tick : nat }.
  Definition tick (n : nat) (st : wstate) : wstate := WState (w_written st) (n + w_tick st).
  Definition mark (n : gostr) (st : wstate) : wstate := WState ({[n]} ∪ w_written st) (w_tick st).

  (** write.go:32-41 (appendAttrs): what it appends, and the state *)
  Definition append_attrs (m : attrs) (st : wstate) : list Ast.stmt * wstate :=
    (map (fun k => Ast.SAttr (Ast.Attr k (default [] (m !! k)))) (sorted_keys (o_names o (w_tick st) (keys m))), tick 1 st).
  (** ast.PutMap(attrs.toMap()): attrs.go:65-71, ast/ast.go:378-391 *)
  Definition attr_list (m : attrs) (st : wstate) : list (list Ast.attr) * wstate :=
    (put_map o (1 + w_tick st) (copy_attrs (o_attrs o (w_tick st) m)), tick 2 st).

  (** write.go:71-79 (newNodeStmt) *)
  Definition new_node_stmt (name : gostr) (st : wstate) : res err (Ast.stmt * wstate) :=
    match nodes_lookup (g_nodes g) !! name with
    | None => Panic
    | Some p =>
        let node := deref (g_nodes g) p in
        let id := Ast.make_node_id (node_name node) [] in
        let '(a, st1) := attr_list (node_attrs node) (mark (node_name node) st) in
        Ok (Ast.SNode id a, st1)
    end.

  (** write.go:50-62: the loop over the children; [rec] is newSubGraph *)
  Fixpoint children_loop (rec : gostr -> wstate -> res err (Ast.subgraph * wstate)) (cs : list gostr)
      (acc : list Ast.stmt) (st : wstate) : res err (list Ast.stmt * wstate) :=
    match cs with
    | [] => Ok (acc, st)
    | c :: cs' =>
        if is_node g c then
          match new_node_stmt c st with
          | Ok (s, st1) => children_loop rec cs' (acc ++ [s]) st1
          | Err e => Err e | Panic => Panic | OutOfFuel => OutOfFuel
          end
        else if is_subgraph g c then
          match rec c st with
          | Ok (t, st1) => children_loop rec cs' (acc ++ [Ast.SSub t]) st1
          | Err e => Err e | Panic => Panic | OutOfFuel => OutOfFuel
          end
        else Err (c ++ lit " is not a node or a subgraph")
    end.
  (** write.go:43-64 (newSubGraph) *)
  Fixpoint new_sub (fuel : nat) (name : gostr) (st : wstate) : res err (Ast.subgraph * wstate) :=
    match fuel with
    | O => OutOfFuel
    | S fuel' =>
        match g_subs g !! name with
        | None => Panic
        | Some sb =>
            let '(sa, st1) := append_attrs (sub_attrs sb) (mark (sub_name sb) st) in
            let cs := sorted_children o (w_tick st1) (g_rels g) name in
            match children_loop (new_sub fuel') cs sa (tick 1 st1) with
            | Ok (body, st2) => Ok (Ast.SubGraph (sub_name sb) body, st2)
            | Err e => Err e | Panic => Panic | OutOfFuel => OutOfFuel
            end
        end
    end.

  (** write.go:66-69 (newNodeID) *)
  Definition new_node_id (name port : gostr) : res err Ast.node_id :=
    match nodes_lookup (g_nodes g) !! name with
    | None => Panic
    | Some p => Ok (Ast.make_node_id (node_name (deref (g_nodes g) p)) port)
    end.
  (** write.go:81-96 (newLocation) *)
  Definition new_location (fuel : nat) (name port : gostr) (st : wstate) : res err (Ast.location * wstate) :=
    if is_node g name then
      match new_node_id name port with
      | Ok n => Ok (Ast.LNode n, st) | Err e => Err e | Panic => Panic | OutOfFuel => OutOfFuel
      end
    else if is_cluster g name then
      match port with
      | [] => Ok (Ast.LNode (Ast.make_node_id name port), st)
      | _ => Err (lit "subgraph cannot have a port: " ++ port)
      end
    else if is_subgraph g name then
      match port with
      | [] => match new_sub fuel name st with
              | Ok (t, st1) => Ok (Ast.LSub t, st1) | Err e => Err e | Panic => Panic | OutOfFuel => OutOfFuel
              end
      | _ => Err (lit "subgraph cannot have a port: " ++ port)
      end
    else Err (name ++ lit " is not a node or a subgraph").
  (** write.go:98-118 (newEdgeStmt) *)
  Definition new_edge_stmt (fuel : nat) (e : edge) (st : wstate) : res err (Ast.stmt * wstate) :=
    match new_location fuel (e_src e) (e_src_port e) st with
    | Ok (src, st1) =>
        match new_location fuel (e_dst e) (e_dst_port e) st1 with
        | Ok (dst, st2) =>
            let '(a, st3) := attr_list (e_attrs e) st2 in
            Ok (Ast.SEdge src [Ast.EdgeRH (e_dir e) dst] a, st3)
        | Err e => Err e | Panic => Panic | OutOfFuel => OutOfFuel
        end
    | Err e => Err e | Panic => Panic | OutOfFuel => OutOfFuel
    end.

  (** write.go:128-134: the loop over the edges *)
  Fixpoint edges_loop (fuel : nat) (es : list edge) (acc : list Ast.stmt) (st : wstate) : res err (list Ast.stmt * wstate) :=
    match es with
    | [] => Ok (acc, st)
    | e :: es' =>
        match new_edge_stmt fuel e st with
        | Ok (s, st1) => edges_loop fuel es' (acc ++ [s]) st1
        | Err e => Err e | Panic => Panic | OutOfFuel => OutOfFuel
        end
    end.
  (** write.go:136-147: the loop over the subgraphs *)
  Fixpoint subs_loop (fuel : nat) (ss : list sub) (acc : list Ast.stmt) (st : wstate) : res err (list Ast.stmt * wstate) :=
    match ss with
    | [] => Ok (acc, st)
    | s :: ss' =>
        if decide (sub_name s ∈ w_written st) then subs_loop fuel ss' acc st
        else if decide (sub_name s ∈ children (g_rels g) (g_name g)) then
          match new_sub fuel (sub_name s) st with
          | Ok (t, st1) => subs_loop fuel ss' (acc ++ [Ast.SSub t]) st1
          | Err e => Err e | Panic => Panic | OutOfFuel => OutOfFuel
          end
        else subs_loop fuel ss' acc st
    end.
  (** write.go:149-154: the loop over the nodes *)
  Fixpoint nodes_loop (ns : list node) (acc : list Ast.stmt) (st : wstate) : res err (list Ast.stmt * wstate) :=
    match ns with
    | [] => Ok (acc, st)
    | n :: ns' =>
        if decide (node_name n ∈ w_written st) then nodes_loop ns' acc st
        else match new_node_stmt (node_name n) st with
             | Ok (s, st1) => nodes_loop ns' (acc ++ [s]) st1
             | Err e => Err e | Panic => Panic | OutOfFuel => OutOfFuel
             end
    end.
  (** write.go:120-157 (Write), 159-163 (WriteAst) *)
  Definition write_ast (fuel : nat) : res err Ast.graph :=
    let '(sa, st1) := append_attrs (g_attrs g) (WState ∅ 0) in
    match edges_loop fuel (srt (edges_list (g_edges g))) sa st1 with
    | Ok (l2, st2) =>
        let ss := subs_sorted o (w_tick st2) (g_subs g) in
        match subs_loop fuel ss l2 (tick 1 st2) with
        | Ok (l3, st3) =>
            let ns := nodes_sorted o (w_tick st3) (g_nodes g) in
            match nodes_loop ns l3 (tick 1 st3) with
            | Ok (l4, _) => Ok (Ast.Graph (g_directed g) (g_strict g) (g_name g) l4)
            | Err e => Err e | Panic => Panic | OutOfFuel => OutOfFuel
            end
        | Err e => Err e | Panic => Panic | OutOfFuel => OutOfFuel
        end
    | Err e => Err e | Panic => Panic | OutOfFuel => OutOfFuel
    end.
  (** write.go:165-172 (String) *)
  Definition graph_string (fuel : nat) : res err gostr :=
    match write_ast fuel with
    | Ok a => Ok (Ast.graph_str a)
    | Err e => Ok (lit "error: " ++ e)
    | Panic => Panic
    | OutOfFuel => OutOfFuel
    end.
End Writer.
