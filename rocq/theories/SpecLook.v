(** Specification for HeapWrite.v: data races, what a call returns when nobody else is there, what sort.Sort promises. *)
From Coq Require Import Sorting.Sorted.
From Verif Require Import Base Maps Graph Parser Write HeapGraph SpecHeap HeapWrite.

(** How a program has ended; [None] if it has not. *)
Definition outcome {A} (p : prog A) : option (res err A) :=
  match p with Ret a => Some (Ok a) | Fail e => Some (Err e) | Crash => Some Panic | Deep => Some OutOfFuel | _ => None end.

(** ** Data races *)
(** Two accesses to the same object, at least one of them writes. *)
Definition conflict (x y : access) : Prop :=
  match x, y with
  | Reads a, Writes b | Writes a, Reads b | Writes a, Writes b => a = b
  | _, _ => False
  end.
(** Two goroutines are about to do conflicting accesses. *)
Definition race {A} (s : world * list (prog A)) : Prop :=
  exists i j p q x y w1 w2 p' q',
    i <> j /\ s.2 !! i = Some p /\ s.2 !! j = Some q /\ act s.1 p x w1 p' /\ act s.1 q y w2 q' /\ conflict x y.

(** ** Sorting as a sequence of calls of Less and Swap *)
Definition swapped {A} (i j : nat) (l : list A) : list A :=
  match l !! i, l !! j with Some x, Some y => <[j := x]> (<[i := y]> l) | _, _ => l end.
Definition ask {A} (less : A -> A -> bool) (i j : nat) (l : list A) : bool :=
  match l !! i, l !! j with Some x, Some y => less x y | _, _ => false end.
Fixpoint sort_with {A} (less : A -> A -> bool) (s : strat) (l : list A) : list A :=
  match s with
  | SDone => l
  | SLess i j k => sort_with less (k (ask less i j l)) l
  | SSwap i j k => sort_with less k (swapped i j l)
  end.
(** No index outside a slice of length [n] is used (Go would panic). *)
Fixpoint in_range (n : nat) (s : strat) : Prop :=
  match s with
  | SDone => True
  | SLess i j k => i < n /\ j < n /\ forall b, in_range n (k b)
  | SSwap i j k => i < n /\ j < n /\ in_range n k
  end.
(** The documented contract: if Less is a strict weak order, the slice is sorted in the end. *)
Definition strict_weak {A} (less : A -> A -> bool) : Prop :=
  (forall x, less x x = false) /\
  (forall x y z, less x y = true -> less y z = true -> less x z = true) /\
  (forall x y z, less x y = false -> less y x = false -> less y z = false -> less z y = false -> less x z = false /\ less z x = false).
Definition good_sort (sort : nat -> strat) : Prop :=
  (forall n, in_range n (sort n)) /\
  forall (A : Type) (less : A -> A -> bool) l, strict_weak less ->
    StronglySorted (fun x y => less y x = false) (sort_with less (sort (length l)) l).
(** The insertion sort of the Go library (used by sort.Sort for short slices):
      for i := 1; i < n; i++ { for j := i; j > 0 && Less(j, j-1); j-- { Swap(j, j-1) } } *)
Fixpoint sift (j : nat) (k : strat) : strat :=
  match j with
  | 0 => k
  | S j' => SLess (S j') j' (fun b => if b then SSwap (S j') j' (sift j' k) else k)
  end.
Fixpoint sift_all (i m : nat) : strat := match m with 0 => SDone | S m' => sift i (sift_all (S i) m') end.
Definition insertion_sort (n : nat) : strat := sift_all 1 (n - 1).

(** ** What a call returns when nothing else happens, on the graph as a value *)
Section Alone.
  Variable sort : nat -> strat.
  Variable o : oracle.
  Definition sort_edges (l : list edge) : list edge := sort_with (edge_less o) (sort (length l)) l.
  Definition alone (fuel : nat) (g : agraph) (c : look_call) : res err value :=
    match c with
    | LString => match graph_string sort_edges o g fuel with
                 | Ok t => Ok (VText t) | Err e => Err e | Panic => Panic | OutOfFuel => OutOfFuel end
    | LWriteAst => match write_ast sort_edges o g fuel with
                   | Ok a => Ok (VAst a) | Err e => Ok (VError e) | Panic => Panic | OutOfFuel => OutOfFuel end
    | LEdges => Ok (VEdges (sort_edges (edges_list (g_edges g))))
    | LNodes => Ok (VNodes (nodes_sorted o 0 (g_nodes g)))
    | LSubs => Ok (VSubs (subs_sorted o 0 (g_subs g)))
    | LChildren p => Ok (VNames (sorted_children o 0 (g_rels g) p))
    | LIsNode n => Ok (VBool (is_node g n))
    | LIsSubGraph n => Ok (VBool (is_subgraph g n))
    end.
  Fixpoint alone_all (fuel : nat) (g : agraph) (cs : list look_call) : res err (list value) :=
    match cs with
    | [] => Ok []
    | c :: cs' =>
        match alone fuel g c with
        | Ok v => match alone_all fuel g cs' with
                  | Ok vs => Ok (v :: vs) | Err e => Err e | Panic => Panic | OutOfFuel => OutOfFuel end
        | Err e => Err e | Panic => Panic | OutOfFuel => OutOfFuel
        end
    end.
End Alone.
