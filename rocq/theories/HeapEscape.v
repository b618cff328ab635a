(** Model of /repo/escape.go:152-198 with maps by reference (Escape.v has them as values). *)
From Verif Require Import Base Maps Graph Escape HeapGraph.

Section HEscape.
  Variable uletter udigit : N -> bool.
  Notation esc := (esc uletter udigit). Notation esc_attrs := (esc_attrs uletter udigit).
  (** escape.go:152-158 (escAttrs) makes a new map (filled at once here: nobody else has it yet; the map that is left when
      the loop panics is not allocated), which is then given to the method of Graph. *)
  Definition with_esc (oe : oracle) (w : world) (m : option nat) (f : world -> option nat -> world * option err) : option (world * option err) :=
    bindo (esc_attrs oe (arg w.1 m)) (fun m' => let '(h1, l) := new_map w.1 m' in Some (f (h1, w.2) (Some l))).
  (** escape.go:160-188 *)
  Definition h_esc_exec (grow : nat -> nat) (oe o : oracle) (c : hcall) (w : world) : option (world * option err) :=
    match c with
    | HSetName n => bindo (esc n) (fun n' => Some (hexec grow o (HSetName n') w))
    | HAddPortEdge s sp d dp dir m => bindo (esc s) (fun s' => bindo (esc d) (fun d' =>
        with_esc oe w m (fun w1 m1 => hexec grow o (HAddPortEdge s' sp d' dp dir m1) w1)))
    | HAddEdge s d dir m => bindo (esc s) (fun s' => bindo (esc d) (fun d' =>
        with_esc oe w m (fun w1 m1 => hexec grow o (HAddPortEdge s' [] d' [] dir m1) w1)))
    | HAddNode p n m => bindo (esc p) (fun p' => bindo (esc n) (fun n' =>
        with_esc oe w m (fun w1 m1 => hexec grow o (HAddNode p' n' m1) w1)))
    | HAddAttr p f v => bindo (esc p) (fun p' => bindo (esc f) (fun f' => bindo (esc v) (fun v' => Some (hexec grow o (HAddAttr p' f' v') w))))
    | HAddSubGraph p n m => bindo (esc p) (fun p' => bindo (esc n) (fun n' =>
        with_esc oe w m (fun w1 m1 => hexec grow o (HAddSubGraph p' n' m1) w1)))
    | c => Some (hexec grow o c w)
    end.
  (** Histories as in HeapGraph.v, with the calls made on an Escape.  After a panic (result [None]) the caller goes on. *)
  Definition hesc_step (oe : oracle) (e : event) (st : world * list nat) : (world * list nat) * list (option (option err)) :=
    match e with
    | ECall grow o c =>
        match h_esc_exec grow oe o (with_refs (ref_of st.2) c) st.1 with
        | Some (w, r) => ((w, st.2), [Some r])
        | None => (st, [None])
        end
    | e => ((hstep e st).1, [])
    end.
  Fixpoint hesc_run (evs : list (oracle * event)) (st : world * list nat) : (world * list nat) * list (option (option err)) :=
    match evs with
    | [] => (st, [])
    | (oe, e) :: evs' => let '(st1, r) := hesc_step oe e st in let '(st2, rs) := hesc_run evs' st1 in (st2, r ++ rs)
    end.
End HEscape.

(** Escape as an implementation of Interface for HeapAnalyse.v: the graph with its memory, the number of calls so far, and
    whether a call panicked (after which nothing is called any more; the state is then that of the panic). *)
Definition hesc_new (s : (world * nat) * bool) (m : attrs) : ((world * nat) * bool) * nat :=
  let '(((h, g), i), b) := s in let '(h1, l) := new_map h m in ((((h1, g), i), b), l).
Definition hesc_get (s : (world * nat) * bool) (l : nat) : attrs := at_map s.1.1.1 l.
Definition hesc_set (s : (world * nat) * bool) (l : nat) (k v : gostr) : (world * nat) * bool :=
  let '(((h, g), i), b) := s in (((set_key h l k v, g), i), b).
Definition hesc_call (uletter udigit : N -> bool) (grow : nat -> nat) (oes os : nat -> oracle) (s : (world * nat) * bool) (c : hcall)
  : ((world * nat) * bool) * option err :=
  let '((w, i), b) := s in
  if b then (s, None)
  else match h_esc_exec uletter udigit grow (oes i) (os i) c w with
       | Some (w', r) => (((w', S i), false), r)
       | None => (((w, i), true), None)
       end.
