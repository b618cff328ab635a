(** GENERATED by tools/gen.py from /repo/internal/token/token.go and /repo/internal/parser/actiontable.go
    - do not edit by hand.

    [type_map], [id_map] : token.go:138-180 (TokMap).
    [can_recover_tab] : actiontable.go, decoded: the field canRecover of each row. *)
From Coq Require Import List.
From Verif Require Import Base.
Import ListNotations.

Definition type_map : list gostr := [
  lit "INVALID";
  lit "␚";
  lit "graphx";
  lit "{";
  lit "}";
  lit "strict";
  lit "digraph";
  lit ";";
  lit "=";
  lit "node";
  lit "edge";
  lit "[";
  lit "]";
  lit ",";
  lit ":";
  lit "subgraph";
  lit "->";
  lit "--";
  lit "id"
].

Definition id_map : list (gostr * nat) := [
  (lit "INVALID", 0);
  (lit "␚", 1);
  (lit "graphx", 2);
  (lit "{", 3);
  (lit "}", 4);
  (lit "strict", 5);
  (lit "digraph", 6);
  (lit ";", 7);
  (lit "=", 8);
  (lit "node", 9);
  (lit "edge", 10);
  (lit "[", 11);
  (lit "]", 12);
  (lit ",", 13);
  (lit ":", 14);
  (lit "subgraph", 15);
  (lit "->", 16);
  (lit "--", 17);
  (lit "id", 18)
].

Definition can_recover_tab : list bool := [
  false; false; false; false; false; false; false; false; false; false; false; false; false; false; false; false; false; false; false; false; false; false; false; false; false; false; false; false; false; false; false; false; false; false; false; false; false; false; false; false; false; false; false; false; false; false; false; false; false; false; false; false; false; false; false; false; false; false; false; false; false; false; false; false; false; false; false; false; false; false; false; false; false; false; false; false; false; false; false; false; false; false; false; false; false; false; false; false; false; false; false; false; false; false; false; false; false; false; false; false; false; false; false; false; false; false; false; false; false; false; false; false; false; false; false; false; false; false; false; false; false; false; false; false; false; false; false; false
].
