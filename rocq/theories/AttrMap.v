(** Model of the attribute maps of /repo/ast/ast.go: PutMap and GetMap. *)
From Verif Require Import Maps.
From Verif Require Ast.

(** ast/ast.go:378-391 (PutMap); [i] numbers the range loop *)
Definition put_map (o : oracle) (i : nat) (m : attrs) : list (list Ast.attr) :=
  [map (fun k => Ast.Attr k (default [] (m !! k))) (sorted_keys (o_names o i (keys m)))].
(** ast/ast.go:393-401 (GetMap) *)
Definition get_map (l : list (list Ast.attr)) : attrs :=
  fold_left (fun acc al => fold_left (fun acc a => <[Ast.at_field a := Ast.at_value a]> acc) al acc) l ∅.
