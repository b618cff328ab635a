(** GENERATED by tools/gen.py from /repo/internal/parser/{actiontable,gototable,productionstable}.go
    - do not edit by hand.

    [action_tab] : actiontable.go:20-152, after the gunzip + gob decoding that init() performs
      (tools/decode_tables.py).  Row s lists the non-nil entries of actionTab[s].actions as
      (token type, action).  canRecover is false in every row of the decoded table
      (checked by the generator).
    [goto_tab] : gototable.go:18-56, decoded likewise; -1 entries are kept.
    [prod_tab] : productionstable.go:22-622; (NTType, NumSymbols, right-hand side symbols as
      written in the String field, the call made by ReduceFunc). *)
From Coq Require Import List NArith ZArith.
Import ListNotations.

(** action.go:12-16 *)
Inductive action := Accept | Shift (n : nat) | Reduce (n : nat).

Inductive sym := Tm (t : nat) | Nt (n : nat).

(** What a ReduceFunc of productionstable.go returns; a natural [k] stands for [X[k]],
    [None] for [nil]. *)
Inductive sem :=
| SemProj (k : nat)                                       (* X[k], nil *)
| SemOp (directed : bool)                                 (* ast.DIRECTED / ast.UNDIRECTED, nil *)
| SemGraph (digraph strict : bool) (id l : option nat)    (* ast.NewGraph *)
| SemStmtList (s : nat) | SemAppendStmtList (ss s : nat)
| SemAttr (f : nat) (v : option nat)
| SemGraphAttrs (a : nat) | SemNodeAttrs (a : nat) | SemEdgeAttrs (a : nat)
| SemAttrList (a : option nat) | SemAppendAttrList (l : nat) (a : option nat)
| SemAList (a : nat) | SemAppendAList (l a : nat)
| SemEdgeStmt (id e : nat) (attrs : option nat)
| SemEdgeRHS (op id : nat) | SemAppendEdgeRHS (e op id : nat)
| SemNodeStmt (id : nat) (attrs : option nat)
| SemNodeID (id : nat) (port : option nat)
| SemPort (id1 id2 : option nat)
| SemSubGraph (id l : option nat)
| SemID (t : nat).

Record production := Prod { p_nt : nat; p_num : nat; p_rhs : list sym; p_sem : sem }.

Definition action_tab : list (list (nat * action)) := [
  (* 0 *) [(2, Shift 2); (5, Shift 3); (6, Shift 4)];
  (* 1 *) [(1, Accept)];
  (* 2 *) [(3, Shift 5); (18, Shift 7)];
  (* 3 *) [(2, Shift 8); (6, Shift 9)];
  (* 4 *) [(3, Shift 10); (18, Shift 7)];
  (* 5 *) [(2, Shift 12); (3, Shift 13); (4, Shift 14); (9, Shift 23); (10, Shift 24); (15, Shift 26); (18, Shift 27)];
  (* 6 *) [(3, Shift 28)];
  (* 7 *) [(3, Reduce 59)];
  (* 8 *) [(3, Shift 29); (18, Shift 7)];
  (* 9 *) [(3, Shift 31); (18, Shift 7)];
  (* 10 *) [(2, Shift 12); (3, Shift 13); (4, Shift 33); (9, Shift 23); (10, Shift 24); (15, Shift 26); (18, Shift 27)];
  (* 11 *) [(3, Shift 35)];
  (* 12 *) [(11, Shift 37)];
  (* 13 *) [(2, Shift 12); (3, Shift 13); (9, Shift 23); (10, Shift 24); (15, Shift 26); (18, Shift 27)];
  (* 14 *) [(1, Reduce 1)];
  (* 15 *) [(2, Reduce 48); (3, Reduce 48); (4, Reduce 48); (7, Reduce 48); (8, Shift 39); (9, Reduce 48); (10, Reduce 48); (11, Reduce 48); (14, Shift 41); (15, Reduce 48); (16, Reduce 48); (17, Reduce 48); (18, Reduce 48)];
  (* 16 *) [(2, Shift 12); (3, Shift 13); (4, Shift 42); (9, Shift 23); (10, Shift 24); (15, Shift 26); (18, Shift 27)];
  (* 17 *) [(2, Reduce 17); (3, Reduce 17); (4, Reduce 17); (9, Reduce 17); (10, Reduce 17); (15, Reduce 17); (18, Reduce 17)];
  (* 18 *) [(2, Reduce 19); (3, Reduce 19); (4, Reduce 19); (7, Shift 44); (9, Reduce 19); (10, Reduce 19); (15, Reduce 19); (18, Reduce 19)];
  (* 19 *) [(2, Reduce 22); (3, Reduce 22); (4, Reduce 22); (7, Reduce 22); (9, Reduce 22); (10, Reduce 22); (15, Reduce 22); (18, Reduce 22)];
  (* 20 *) [(2, Reduce 23); (3, Reduce 23); (4, Reduce 23); (7, Reduce 23); (9, Reduce 23); (10, Reduce 23); (15, Reduce 23); (18, Reduce 23)];
  (* 21 *) [(2, Reduce 24); (3, Reduce 24); (4, Reduce 24); (7, Reduce 24); (9, Reduce 24); (10, Reduce 24); (15, Reduce 24); (18, Reduce 24)];
  (* 22 *) [(2, Reduce 25); (3, Reduce 25); (4, Reduce 25); (7, Reduce 25); (9, Reduce 25); (10, Reduce 25); (15, Reduce 25); (16, Shift 47); (17, Shift 48); (18, Reduce 25)];
  (* 23 *) [(11, Shift 37)];
  (* 24 *) [(11, Shift 37)];
  (* 25 *) [(2, Reduce 46); (3, Reduce 46); (4, Reduce 46); (7, Reduce 46); (9, Reduce 46); (10, Reduce 46); (11, Shift 37); (15, Reduce 46); (16, Shift 47); (17, Shift 48); (18, Reduce 46)];
  (* 26 *) [(3, Shift 53); (18, Shift 7)];
  (* 27 *) [(2, Reduce 59); (3, Reduce 59); (4, Reduce 59); (7, Reduce 59); (8, Reduce 59); (9, Reduce 59); (10, Reduce 59); (11, Reduce 59); (14, Reduce 59); (15, Reduce 59); (16, Reduce 59); (17, Reduce 59); (18, Reduce 59)];
  (* 28 *) [(2, Shift 12); (3, Shift 13); (4, Shift 55); (9, Shift 23); (10, Shift 24); (15, Shift 26); (18, Shift 27)];
  (* 29 *) [(2, Shift 12); (3, Shift 13); (4, Shift 57); (9, Shift 23); (10, Shift 24); (15, Shift 26); (18, Shift 27)];
  (* 30 *) [(3, Shift 59)];
  (* 31 *) [(2, Shift 12); (3, Shift 13); (4, Shift 60); (9, Shift 23); (10, Shift 24); (15, Shift 26); (18, Shift 27)];
  (* 32 *) [(3, Shift 62)];
  (* 33 *) [(1, Reduce 9)];
  (* 34 *) [(2, Shift 12); (3, Shift 13); (4, Shift 63); (9, Shift 23); (10, Shift 24); (15, Shift 26); (18, Shift 27)];
  (* 35 *) [(2, Shift 12); (3, Shift 13); (4, Shift 64); (9, Shift 23); (10, Shift 24); (15, Shift 26); (18, Shift 27)];
  (* 36 *) [(2, Reduce 26); (3, Reduce 26); (4, Reduce 26); (7, Reduce 26); (9, Reduce 26); (10, Reduce 26); (11, Shift 66); (15, Reduce 26); (18, Reduce 26)];
  (* 37 *) [(12, Shift 68); (18, Shift 71)];
  (* 38 *) [(2, Shift 12); (3, Shift 13); (4, Shift 72); (9, Shift 23); (10, Shift 24); (15, Shift 26); (18, Shift 27)];
  (* 39 *) [(18, Shift 74)];
  (* 40 *) [(2, Reduce 49); (3, Reduce 49); (4, Reduce 49); (7, Reduce 49); (9, Reduce 49); (10, Reduce 49); (11, Reduce 49); (15, Reduce 49); (16, Reduce 49); (17, Reduce 49); (18, Reduce 49)];
  (* 41 *) [(18, Shift 76)];
  (* 42 *) [(1, Reduce 5)];
  (* 43 *) [(2, Reduce 18); (3, Reduce 18); (4, Reduce 18); (9, Reduce 18); (10, Reduce 18); (15, Reduce 18); (18, Reduce 18)];
  (* 44 *) [(2, Reduce 20); (3, Reduce 20); (4, Reduce 20); (9, Reduce 20); (10, Reduce 20); (15, Reduce 20); (18, Reduce 20)];
  (* 45 *) [(2, Reduce 40); (3, Reduce 40); (4, Reduce 40); (7, Reduce 40); (9, Reduce 40); (10, Reduce 40); (11, Shift 37); (15, Reduce 40); (16, Shift 47); (17, Shift 48); (18, Reduce 40)];
  (* 46 *) [(3, Shift 79); (15, Shift 83); (18, Shift 76)];
  (* 47 *) [(3, Reduce 57); (15, Reduce 57); (18, Reduce 57)];
  (* 48 *) [(3, Reduce 58); (15, Reduce 58); (18, Reduce 58)];
  (* 49 *) [(2, Reduce 27); (3, Reduce 27); (4, Reduce 27); (7, Reduce 27); (9, Reduce 27); (10, Reduce 27); (11, Shift 66); (15, Reduce 27); (18, Reduce 27)];
  (* 50 *) [(2, Reduce 28); (3, Reduce 28); (4, Reduce 28); (7, Reduce 28); (9, Reduce 28); (10, Reduce 28); (11, Shift 66); (15, Reduce 28); (18, Reduce 28)];
  (* 51 *) [(2, Reduce 47); (3, Reduce 47); (4, Reduce 47); (7, Reduce 47); (9, Reduce 47); (10, Reduce 47); (11, Shift 66); (15, Reduce 47); (18, Reduce 47)];
  (* 52 *) [(2, Reduce 38); (3, Reduce 38); (4, Reduce 38); (7, Reduce 38); (9, Reduce 38); (10, Reduce 38); (11, Shift 37); (15, Reduce 38); (16, Shift 47); (17, Shift 48); (18, Reduce 38)];
  (* 53 *) [(2, Shift 12); (3, Shift 13); (4, Shift 85); (9, Shift 23); (10, Shift 24); (15, Shift 26); (18, Shift 27)];
  (* 54 *) [(3, Shift 87)];
  (* 55 *) [(1, Reduce 3)];
  (* 56 *) [(2, Shift 12); (3, Shift 13); (4, Shift 88); (9, Shift 23); (10, Shift 24); (15, Shift 26); (18, Shift 27)];
  (* 57 *) [(1, Reduce 2)];
  (* 58 *) [(2, Shift 12); (3, Shift 13); (4, Shift 89); (9, Shift 23); (10, Shift 24); (15, Shift 26); (18, Shift 27)];
  (* 59 *) [(2, Shift 12); (3, Shift 13); (4, Shift 90); (9, Shift 23); (10, Shift 24); (15, Shift 26); (18, Shift 27)];
  (* 60 *) [(1, Reduce 10)];
  (* 61 *) [(2, Shift 12); (3, Shift 13); (4, Shift 92); (9, Shift 23); (10, Shift 24); (15, Shift 26); (18, Shift 27)];
  (* 62 *) [(2, Shift 12); (3, Shift 13); (4, Shift 93); (9, Shift 23); (10, Shift 24); (15, Shift 26); (18, Shift 27)];
  (* 63 *) [(1, Reduce 13)];
  (* 64 *) [(1, Reduce 11)];
  (* 65 *) [(2, Shift 12); (3, Shift 13); (4, Shift 95); (9, Shift 23); (10, Shift 24); (15, Shift 26); (18, Shift 27)];
  (* 66 *) [(12, Shift 96); (18, Shift 71)];
  (* 67 *) [(8, Shift 98); (12, Reduce 36); (13, Reduce 36); (18, Reduce 36)];
  (* 68 *) [(2, Reduce 29); (3, Reduce 29); (4, Reduce 29); (7, Reduce 29); (9, Reduce 29); (10, Reduce 29); (11, Reduce 29); (15, Reduce 29); (18, Reduce 29)];
  (* 69 *) [(12, Shift 99); (13, Shift 101); (18, Shift 71)];
  (* 70 *) [(12, Reduce 33); (13, Reduce 33); (18, Reduce 33)];
  (* 71 *) [(8, Reduce 59); (12, Reduce 59); (13, Reduce 59); (18, Reduce 59)];
  (* 72 *) [(2, Reduce 52); (3, Reduce 52); (4, Reduce 52); (7, Reduce 52); (9, Reduce 52); (10, Reduce 52); (15, Reduce 52); (16, Reduce 52); (17, Reduce 52); (18, Reduce 52)];
  (* 73 *) [(2, Reduce 21); (3, Reduce 21); (4, Reduce 21); (7, Reduce 21); (9, Reduce 21); (10, Reduce 21); (15, Reduce 21); (18, Reduce 21)];
  (* 74 *) [(2, Reduce 59); (3, Reduce 59); (4, Reduce 59); (7, Reduce 59); (9, Reduce 59); (10, Reduce 59); (15, Reduce 59); (18, Reduce 59)];
  (* 75 *) [(2, Reduce 50); (3, Reduce 50); (4, Reduce 50); (7, Reduce 50); (9, Reduce 50); (10, Reduce 50); (11, Reduce 50); (14, Shift 102); (15, Reduce 50); (16, Reduce 50); (17, Reduce 50); (18, Reduce 50)];
  (* 76 *) [(2, Reduce 59); (3, Reduce 59); (4, Reduce 59); (7, Reduce 59); (9, Reduce 59); (10, Reduce 59); (11, Reduce 59); (14, Reduce 59); (15, Reduce 59); (16, Reduce 59); (17, Reduce 59); (18, Reduce 59)];
  (* 77 *) [(2, Reduce 41); (3, Reduce 41); (4, Reduce 41); (7, Reduce 41); (9, Reduce 41); (10, Reduce 41); (11, Shift 66); (15, Reduce 41); (18, Reduce 41)];
  (* 78 *) [(3, Shift 79); (15, Shift 83); (18, Shift 76)];
  (* 79 *) [(2, Shift 12); (3, Shift 13); (9, Shift 23); (10, Shift 24); (15, Shift 26); (18, Shift 27)];
  (* 80 *) [(2, Reduce 48); (3, Reduce 48); (4, Reduce 48); (7, Reduce 48); (9, Reduce 48); (10, Reduce 48); (11, Reduce 48); (14, Shift 41); (15, Reduce 48); (16, Reduce 48); (17, Reduce 48); (18, Reduce 48)];
  (* 81 *) [(2, Reduce 43); (3, Reduce 43); (4, Reduce 43); (7, Reduce 43); (9, Reduce 43); (10, Reduce 43); (11, Reduce 43); (15, Reduce 43); (16, Reduce 43); (17, Reduce 43); (18, Reduce 43)];
  (* 82 *) [(2, Reduce 42); (3, Reduce 42); (4, Reduce 42); (7, Reduce 42); (9, Reduce 42); (10, Reduce 42); (11, Reduce 42); (15, Reduce 42); (16, Reduce 42); (17, Reduce 42); (18, Reduce 42)];
  (* 83 *) [(3, Shift 106); (18, Shift 7)];
  (* 84 *) [(2, Reduce 39); (3, Reduce 39); (4, Reduce 39); (7, Reduce 39); (9, Reduce 39); (10, Reduce 39); (11, Shift 66); (15, Reduce 39); (18, Reduce 39)];
  (* 85 *) [(2, Reduce 55); (3, Reduce 55); (4, Reduce 55); (7, Reduce 55); (9, Reduce 55); (10, Reduce 55); (15, Reduce 55); (16, Reduce 55); (17, Reduce 55); (18, Reduce 55)];
  (* 86 *) [(2, Shift 12); (3, Shift 13); (4, Shift 108); (9, Shift 23); (10, Shift 24); (15, Shift 26); (18, Shift 27)];
  (* 87 *) [(2, Shift 12); (3, Shift 13); (4, Shift 109); (9, Shift 23); (10, Shift 24); (15, Shift 26); (18, Shift 27)];
  (* 88 *) [(1, Reduce 6)];
  (* 89 *) [(1, Reduce 7)];
  (* 90 *) [(1, Reduce 4)];
  (* 91 *) [(2, Shift 12); (3, Shift 13); (4, Shift 111); (9, Shift 23); (10, Shift 24); (15, Shift 26); (18, Shift 27)];
  (* 92 *) [(1, Reduce 15)];
  (* 93 *) [(1, Reduce 12)];
  (* 94 *) [(2, Shift 12); (3, Shift 13); (4, Shift 112); (9, Shift 23); (10, Shift 24); (15, Shift 26); (18, Shift 27)];
  (* 95 *) [(1, Reduce 14)];
  (* 96 *) [(2, Reduce 31); (3, Reduce 31); (4, Reduce 31); (7, Reduce 31); (9, Reduce 31); (10, Reduce 31); (11, Reduce 31); (15, Reduce 31); (18, Reduce 31)];
  (* 97 *) [(12, Shift 113); (13, Shift 101); (18, Shift 71)];
  (* 98 *) [(18, Shift 115)];
  (* 99 *) [(2, Reduce 30); (3, Reduce 30); (4, Reduce 30); (7, Reduce 30); (9, Reduce 30); (10, Reduce 30); (11, Reduce 30); (15, Reduce 30); (18, Reduce 30)];
  (* 100 *) [(12, Reduce 34); (13, Reduce 34); (18, Reduce 34)];
  (* 101 *) [(18, Shift 71)];
  (* 102 *) [(18, Shift 118)];
  (* 103 *) [(2, Reduce 45); (3, Reduce 45); (4, Reduce 45); (7, Reduce 45); (9, Reduce 45); (10, Reduce 45); (11, Reduce 45); (15, Reduce 45); (16, Reduce 45); (17, Reduce 45); (18, Reduce 45)];
  (* 104 *) [(2, Reduce 44); (3, Reduce 44); (4, Reduce 44); (7, Reduce 44); (9, Reduce 44); (10, Reduce 44); (11, Reduce 44); (15, Reduce 44); (16, Reduce 44); (17, Reduce 44); (18, Reduce 44)];
  (* 105 *) [(2, Shift 12); (3, Shift 13); (4, Shift 119); (9, Shift 23); (10, Shift 24); (15, Shift 26); (18, Shift 27)];
  (* 106 *) [(2, Shift 12); (3, Shift 13); (4, Shift 120); (9, Shift 23); (10, Shift 24); (15, Shift 26); (18, Shift 27)];
  (* 107 *) [(3, Shift 122)];
  (* 108 *) [(2, Reduce 53); (3, Reduce 53); (4, Reduce 53); (7, Reduce 53); (9, Reduce 53); (10, Reduce 53); (15, Reduce 53); (16, Reduce 53); (17, Reduce 53); (18, Reduce 53)];
  (* 109 *) [(2, Reduce 56); (3, Reduce 56); (4, Reduce 56); (7, Reduce 56); (9, Reduce 56); (10, Reduce 56); (15, Reduce 56); (16, Reduce 56); (17, Reduce 56); (18, Reduce 56)];
  (* 110 *) [(2, Shift 12); (3, Shift 13); (4, Shift 123); (9, Shift 23); (10, Shift 24); (15, Shift 26); (18, Shift 27)];
  (* 111 *) [(1, Reduce 8)];
  (* 112 *) [(1, Reduce 16)];
  (* 113 *) [(2, Reduce 32); (3, Reduce 32); (4, Reduce 32); (7, Reduce 32); (9, Reduce 32); (10, Reduce 32); (11, Reduce 32); (15, Reduce 32); (18, Reduce 32)];
  (* 114 *) [(12, Reduce 37); (13, Reduce 37); (18, Reduce 37)];
  (* 115 *) [(12, Reduce 59); (13, Reduce 59); (18, Reduce 59)];
  (* 116 *) [(12, Reduce 35); (13, Reduce 35); (18, Reduce 35)];
  (* 117 *) [(2, Reduce 51); (3, Reduce 51); (4, Reduce 51); (7, Reduce 51); (9, Reduce 51); (10, Reduce 51); (11, Reduce 51); (15, Reduce 51); (16, Reduce 51); (17, Reduce 51); (18, Reduce 51)];
  (* 118 *) [(2, Reduce 59); (3, Reduce 59); (4, Reduce 59); (7, Reduce 59); (9, Reduce 59); (10, Reduce 59); (11, Reduce 59); (15, Reduce 59); (16, Reduce 59); (17, Reduce 59); (18, Reduce 59)];
  (* 119 *) [(2, Reduce 52); (3, Reduce 52); (4, Reduce 52); (7, Reduce 52); (9, Reduce 52); (10, Reduce 52); (11, Reduce 52); (15, Reduce 52); (16, Reduce 52); (17, Reduce 52); (18, Reduce 52)];
  (* 120 *) [(2, Reduce 55); (3, Reduce 55); (4, Reduce 55); (7, Reduce 55); (9, Reduce 55); (10, Reduce 55); (11, Reduce 55); (15, Reduce 55); (16, Reduce 55); (17, Reduce 55); (18, Reduce 55)];
  (* 121 *) [(2, Shift 12); (3, Shift 13); (4, Shift 124); (9, Shift 23); (10, Shift 24); (15, Shift 26); (18, Shift 27)];
  (* 122 *) [(2, Shift 12); (3, Shift 13); (4, Shift 125); (9, Shift 23); (10, Shift 24); (15, Shift 26); (18, Shift 27)];
  (* 123 *) [(2, Reduce 54); (3, Reduce 54); (4, Reduce 54); (7, Reduce 54); (9, Reduce 54); (10, Reduce 54); (15, Reduce 54); (16, Reduce 54); (17, Reduce 54); (18, Reduce 54)];
  (* 124 *) [(2, Reduce 53); (3, Reduce 53); (4, Reduce 53); (7, Reduce 53); (9, Reduce 53); (10, Reduce 53); (11, Reduce 53); (15, Reduce 53); (16, Reduce 53); (17, Reduce 53); (18, Reduce 53)];
  (* 125 *) [(2, Reduce 56); (3, Reduce 56); (4, Reduce 56); (7, Reduce 56); (9, Reduce 56); (10, Reduce 56); (11, Reduce 56); (15, Reduce 56); (16, Reduce 56); (17, Reduce 56); (18, Reduce 56)];
  (* 126 *) [(2, Shift 12); (3, Shift 13); (4, Shift 127); (9, Shift 23); (10, Shift 24); (15, Shift 26); (18, Shift 27)];
  (* 127 *) [(2, Reduce 54); (3, Reduce 54); (4, Reduce 54); (7, Reduce 54); (9, Reduce 54); (10, Reduce 54); (11, Reduce 54); (15, Reduce 54); (16, Reduce 54); (17, Reduce 54); (18, Reduce 54)]
].

Definition goto_tab : list (list Z) := [
  (* 0 *) [-1; 1; -1; -1; -1; -1; -1; -1; -1; -1; -1; -1; -1; -1; -1; -1; -1]%Z;
  (* 1 *) [-1; -1; -1; -1; -1; -1; -1; -1; -1; -1; -1; -1; -1; -1; -1; -1; -1]%Z;
  (* 2 *) [-1; -1; -1; -1; -1; -1; -1; -1; -1; -1; -1; -1; -1; -1; -1; -1; 6]%Z;
  (* 3 *) [-1; -1; -1; -1; -1; -1; -1; -1; -1; -1; -1; -1; -1; -1; -1; -1; -1]%Z;
  (* 4 *) [-1; -1; -1; -1; -1; -1; -1; -1; -1; -1; -1; -1; -1; -1; -1; -1; 11]%Z;
  (* 5 *) [-1; -1; 16; 17; 18; 21; -1; -1; -1; 20; -1; 19; 25; -1; 22; -1; 15]%Z;
  (* 6 *) [-1; -1; -1; -1; -1; -1; -1; -1; -1; -1; -1; -1; -1; -1; -1; -1; -1]%Z;
  (* 7 *) [-1; -1; -1; -1; -1; -1; -1; -1; -1; -1; -1; -1; -1; -1; -1; -1; -1]%Z;
  (* 8 *) [-1; -1; -1; -1; -1; -1; -1; -1; -1; -1; -1; -1; -1; -1; -1; -1; 30]%Z;
  (* 9 *) [-1; -1; -1; -1; -1; -1; -1; -1; -1; -1; -1; -1; -1; -1; -1; -1; 32]%Z;
  (* 10 *) [-1; -1; 34; 17; 18; 21; -1; -1; -1; 20; -1; 19; 25; -1; 22; -1; 15]%Z;
  (* 11 *) [-1; -1; -1; -1; -1; -1; -1; -1; -1; -1; -1; -1; -1; -1; -1; -1; -1]%Z;
  (* 12 *) [-1; -1; -1; -1; -1; -1; 36; -1; -1; -1; -1; -1; -1; -1; -1; -1; -1]%Z;
  (* 13 *) [-1; -1; 38; 17; 18; 21; -1; -1; -1; 20; -1; 19; 25; -1; 22; -1; 15]%Z;
  (* 14 *) [-1; -1; -1; -1; -1; -1; -1; -1; -1; -1; -1; -1; -1; -1; -1; -1; -1]%Z;
  (* 15 *) [-1; -1; -1; -1; -1; -1; -1; -1; -1; -1; -1; -1; -1; 40; -1; -1; -1]%Z;
  (* 16 *) [-1; -1; -1; 43; 18; 21; -1; -1; -1; 20; -1; 19; 25; -1; 22; -1; 15]%Z;
  (* 17 *) [-1; -1; -1; -1; -1; -1; -1; -1; -1; -1; -1; -1; -1; -1; -1; -1; -1]%Z;
  (* 18 *) [-1; -1; -1; -1; -1; -1; -1; -1; -1; -1; -1; -1; -1; -1; -1; -1; -1]%Z;
  (* 19 *) [-1; -1; -1; -1; -1; -1; -1; -1; -1; -1; -1; -1; -1; -1; -1; -1; -1]%Z;
  (* 20 *) [-1; -1; -1; -1; -1; -1; -1; -1; -1; -1; -1; -1; -1; -1; -1; -1; -1]%Z;
  (* 21 *) [-1; -1; -1; -1; -1; -1; -1; -1; -1; -1; -1; -1; -1; -1; -1; -1; -1]%Z;
  (* 22 *) [-1; -1; -1; -1; -1; -1; -1; -1; -1; -1; 45; -1; -1; -1; -1; 46; -1]%Z;
  (* 23 *) [-1; -1; -1; -1; -1; -1; 49; -1; -1; -1; -1; -1; -1; -1; -1; -1; -1]%Z;
  (* 24 *) [-1; -1; -1; -1; -1; -1; 50; -1; -1; -1; -1; -1; -1; -1; -1; -1; -1]%Z;
  (* 25 *) [-1; -1; -1; -1; -1; -1; 51; -1; -1; -1; 52; -1; -1; -1; -1; 46; -1]%Z;
  (* 26 *) [-1; -1; -1; -1; -1; -1; -1; -1; -1; -1; -1; -1; -1; -1; -1; -1; 54]%Z;
  (* 27 *) [-1; -1; -1; -1; -1; -1; -1; -1; -1; -1; -1; -1; -1; -1; -1; -1; -1]%Z;
  (* 28 *) [-1; -1; 56; 17; 18; 21; -1; -1; -1; 20; -1; 19; 25; -1; 22; -1; 15]%Z;
  (* 29 *) [-1; -1; 58; 17; 18; 21; -1; -1; -1; 20; -1; 19; 25; -1; 22; -1; 15]%Z;
  (* 30 *) [-1; -1; -1; -1; -1; -1; -1; -1; -1; -1; -1; -1; -1; -1; -1; -1; -1]%Z;
  (* 31 *) [-1; -1; 61; 17; 18; 21; -1; -1; -1; 20; -1; 19; 25; -1; 22; -1; 15]%Z;
  (* 32 *) [-1; -1; -1; -1; -1; -1; -1; -1; -1; -1; -1; -1; -1; -1; -1; -1; -1]%Z;
  (* 33 *) [-1; -1; -1; -1; -1; -1; -1; -1; -1; -1; -1; -1; -1; -1; -1; -1; -1]%Z;
  (* 34 *) [-1; -1; -1; 43; 18; 21; -1; -1; -1; 20; -1; 19; 25; -1; 22; -1; 15]%Z;
  (* 35 *) [-1; -1; 65; 17; 18; 21; -1; -1; -1; 20; -1; 19; 25; -1; 22; -1; 15]%Z;
  (* 36 *) [-1; -1; -1; -1; -1; -1; -1; -1; -1; -1; -1; -1; -1; -1; -1; -1; -1]%Z;
  (* 37 *) [-1; -1; -1; -1; -1; -1; -1; 69; 70; -1; -1; -1; -1; -1; -1; -1; 67]%Z;
  (* 38 *) [-1; -1; -1; 43; 18; 21; -1; -1; -1; 20; -1; 19; 25; -1; 22; -1; 15]%Z;
  (* 39 *) [-1; -1; -1; -1; -1; -1; -1; -1; -1; -1; -1; -1; -1; -1; -1; -1; 73]%Z;
  (* 40 *) [-1; -1; -1; -1; -1; -1; -1; -1; -1; -1; -1; -1; -1; -1; -1; -1; -1]%Z;
  (* 41 *) [-1; -1; -1; -1; -1; -1; -1; -1; -1; -1; -1; -1; -1; -1; -1; -1; 75]%Z;
  (* 42 *) [-1; -1; -1; -1; -1; -1; -1; -1; -1; -1; -1; -1; -1; -1; -1; -1; -1]%Z;
  (* 43 *) [-1; -1; -1; -1; -1; -1; -1; -1; -1; -1; -1; -1; -1; -1; -1; -1; -1]%Z;
  (* 44 *) [-1; -1; -1; -1; -1; -1; -1; -1; -1; -1; -1; -1; -1; -1; -1; -1; -1]%Z;
  (* 45 *) [-1; -1; -1; -1; -1; -1; 77; -1; -1; -1; -1; -1; -1; -1; -1; 78; -1]%Z;
  (* 46 *) [-1; -1; -1; -1; -1; -1; -1; -1; -1; -1; -1; -1; 82; -1; 81; -1; 80]%Z;
  (* 47 *) [-1; -1; -1; -1; -1; -1; -1; -1; -1; -1; -1; -1; -1; -1; -1; -1; -1]%Z;
  (* 48 *) [-1; -1; -1; -1; -1; -1; -1; -1; -1; -1; -1; -1; -1; -1; -1; -1; -1]%Z;
  (* 49 *) [-1; -1; -1; -1; -1; -1; -1; -1; -1; -1; -1; -1; -1; -1; -1; -1; -1]%Z;
  (* 50 *) [-1; -1; -1; -1; -1; -1; -1; -1; -1; -1; -1; -1; -1; -1; -1; -1; -1]%Z;
  (* 51 *) [-1; -1; -1; -1; -1; -1; -1; -1; -1; -1; -1; -1; -1; -1; -1; -1; -1]%Z;
  (* 52 *) [-1; -1; -1; -1; -1; -1; 84; -1; -1; -1; -1; -1; -1; -1; -1; 78; -1]%Z;
  (* 53 *) [-1; -1; 86; 17; 18; 21; -1; -1; -1; 20; -1; 19; 25; -1; 22; -1; 15]%Z;
  (* 54 *) [-1; -1; -1; -1; -1; -1; -1; -1; -1; -1; -1; -1; -1; -1; -1; -1; -1]%Z;
  (* 55 *) [-1; -1; -1; -1; -1; -1; -1; -1; -1; -1; -1; -1; -1; -1; -1; -1; -1]%Z;
  (* 56 *) [-1; -1; -1; 43; 18; 21; -1; -1; -1; 20; -1; 19; 25; -1; 22; -1; 15]%Z;
  (* 57 *) [-1; -1; -1; -1; -1; -1; -1; -1; -1; -1; -1; -1; -1; -1; -1; -1; -1]%Z;
  (* 58 *) [-1; -1; -1; 43; 18; 21; -1; -1; -1; 20; -1; 19; 25; -1; 22; -1; 15]%Z;
  (* 59 *) [-1; -1; 91; 17; 18; 21; -1; -1; -1; 20; -1; 19; 25; -1; 22; -1; 15]%Z;
  (* 60 *) [-1; -1; -1; -1; -1; -1; -1; -1; -1; -1; -1; -1; -1; -1; -1; -1; -1]%Z;
  (* 61 *) [-1; -1; -1; 43; 18; 21; -1; -1; -1; 20; -1; 19; 25; -1; 22; -1; 15]%Z;
  (* 62 *) [-1; -1; 94; 17; 18; 21; -1; -1; -1; 20; -1; 19; 25; -1; 22; -1; 15]%Z;
  (* 63 *) [-1; -1; -1; -1; -1; -1; -1; -1; -1; -1; -1; -1; -1; -1; -1; -1; -1]%Z;
  (* 64 *) [-1; -1; -1; -1; -1; -1; -1; -1; -1; -1; -1; -1; -1; -1; -1; -1; -1]%Z;
  (* 65 *) [-1; -1; -1; 43; 18; 21; -1; -1; -1; 20; -1; 19; 25; -1; 22; -1; 15]%Z;
  (* 66 *) [-1; -1; -1; -1; -1; -1; -1; 97; 70; -1; -1; -1; -1; -1; -1; -1; 67]%Z;
  (* 67 *) [-1; -1; -1; -1; -1; -1; -1; -1; -1; -1; -1; -1; -1; -1; -1; -1; -1]%Z;
  (* 68 *) [-1; -1; -1; -1; -1; -1; -1; -1; -1; -1; -1; -1; -1; -1; -1; -1; -1]%Z;
  (* 69 *) [-1; -1; -1; -1; -1; -1; -1; -1; 100; -1; -1; -1; -1; -1; -1; -1; 67]%Z;
  (* 70 *) [-1; -1; -1; -1; -1; -1; -1; -1; -1; -1; -1; -1; -1; -1; -1; -1; -1]%Z;
  (* 71 *) [-1; -1; -1; -1; -1; -1; -1; -1; -1; -1; -1; -1; -1; -1; -1; -1; -1]%Z;
  (* 72 *) [-1; -1; -1; -1; -1; -1; -1; -1; -1; -1; -1; -1; -1; -1; -1; -1; -1]%Z;
  (* 73 *) [-1; -1; -1; -1; -1; -1; -1; -1; -1; -1; -1; -1; -1; -1; -1; -1; -1]%Z;
  (* 74 *) [-1; -1; -1; -1; -1; -1; -1; -1; -1; -1; -1; -1; -1; -1; -1; -1; -1]%Z;
  (* 75 *) [-1; -1; -1; -1; -1; -1; -1; -1; -1; -1; -1; -1; -1; -1; -1; -1; -1]%Z;
  (* 76 *) [-1; -1; -1; -1; -1; -1; -1; -1; -1; -1; -1; -1; -1; -1; -1; -1; -1]%Z;
  (* 77 *) [-1; -1; -1; -1; -1; -1; -1; -1; -1; -1; -1; -1; -1; -1; -1; -1; -1]%Z;
  (* 78 *) [-1; -1; -1; -1; -1; -1; -1; -1; -1; -1; -1; -1; 104; -1; 103; -1; 80]%Z;
  (* 79 *) [-1; -1; 105; 17; 18; 21; -1; -1; -1; 20; -1; 19; 25; -1; 22; -1; 15]%Z;
  (* 80 *) [-1; -1; -1; -1; -1; -1; -1; -1; -1; -1; -1; -1; -1; 40; -1; -1; -1]%Z;
  (* 81 *) [-1; -1; -1; -1; -1; -1; -1; -1; -1; -1; -1; -1; -1; -1; -1; -1; -1]%Z;
  (* 82 *) [-1; -1; -1; -1; -1; -1; -1; -1; -1; -1; -1; -1; -1; -1; -1; -1; -1]%Z;
  (* 83 *) [-1; -1; -1; -1; -1; -1; -1; -1; -1; -1; -1; -1; -1; -1; -1; -1; 107]%Z;
  (* 84 *) [-1; -1; -1; -1; -1; -1; -1; -1; -1; -1; -1; -1; -1; -1; -1; -1; -1]%Z;
  (* 85 *) [-1; -1; -1; -1; -1; -1; -1; -1; -1; -1; -1; -1; -1; -1; -1; -1; -1]%Z;
  (* 86 *) [-1; -1; -1; 43; 18; 21; -1; -1; -1; 20; -1; 19; 25; -1; 22; -1; 15]%Z;
  (* 87 *) [-1; -1; 110; 17; 18; 21; -1; -1; -1; 20; -1; 19; 25; -1; 22; -1; 15]%Z;
  (* 88 *) [-1; -1; -1; -1; -1; -1; -1; -1; -1; -1; -1; -1; -1; -1; -1; -1; -1]%Z;
  (* 89 *) [-1; -1; -1; -1; -1; -1; -1; -1; -1; -1; -1; -1; -1; -1; -1; -1; -1]%Z;
  (* 90 *) [-1; -1; -1; -1; -1; -1; -1; -1; -1; -1; -1; -1; -1; -1; -1; -1; -1]%Z;
  (* 91 *) [-1; -1; -1; 43; 18; 21; -1; -1; -1; 20; -1; 19; 25; -1; 22; -1; 15]%Z;
  (* 92 *) [-1; -1; -1; -1; -1; -1; -1; -1; -1; -1; -1; -1; -1; -1; -1; -1; -1]%Z;
  (* 93 *) [-1; -1; -1; -1; -1; -1; -1; -1; -1; -1; -1; -1; -1; -1; -1; -1; -1]%Z;
  (* 94 *) [-1; -1; -1; 43; 18; 21; -1; -1; -1; 20; -1; 19; 25; -1; 22; -1; 15]%Z;
  (* 95 *) [-1; -1; -1; -1; -1; -1; -1; -1; -1; -1; -1; -1; -1; -1; -1; -1; -1]%Z;
  (* 96 *) [-1; -1; -1; -1; -1; -1; -1; -1; -1; -1; -1; -1; -1; -1; -1; -1; -1]%Z;
  (* 97 *) [-1; -1; -1; -1; -1; -1; -1; -1; 100; -1; -1; -1; -1; -1; -1; -1; 67]%Z;
  (* 98 *) [-1; -1; -1; -1; -1; -1; -1; -1; -1; -1; -1; -1; -1; -1; -1; -1; 114]%Z;
  (* 99 *) [-1; -1; -1; -1; -1; -1; -1; -1; -1; -1; -1; -1; -1; -1; -1; -1; -1]%Z;
  (* 100 *) [-1; -1; -1; -1; -1; -1; -1; -1; -1; -1; -1; -1; -1; -1; -1; -1; -1]%Z;
  (* 101 *) [-1; -1; -1; -1; -1; -1; -1; -1; 116; -1; -1; -1; -1; -1; -1; -1; 67]%Z;
  (* 102 *) [-1; -1; -1; -1; -1; -1; -1; -1; -1; -1; -1; -1; -1; -1; -1; -1; 117]%Z;
  (* 103 *) [-1; -1; -1; -1; -1; -1; -1; -1; -1; -1; -1; -1; -1; -1; -1; -1; -1]%Z;
  (* 104 *) [-1; -1; -1; -1; -1; -1; -1; -1; -1; -1; -1; -1; -1; -1; -1; -1; -1]%Z;
  (* 105 *) [-1; -1; -1; 43; 18; 21; -1; -1; -1; 20; -1; 19; 25; -1; 22; -1; 15]%Z;
  (* 106 *) [-1; -1; 121; 17; 18; 21; -1; -1; -1; 20; -1; 19; 25; -1; 22; -1; 15]%Z;
  (* 107 *) [-1; -1; -1; -1; -1; -1; -1; -1; -1; -1; -1; -1; -1; -1; -1; -1; -1]%Z;
  (* 108 *) [-1; -1; -1; -1; -1; -1; -1; -1; -1; -1; -1; -1; -1; -1; -1; -1; -1]%Z;
  (* 109 *) [-1; -1; -1; -1; -1; -1; -1; -1; -1; -1; -1; -1; -1; -1; -1; -1; -1]%Z;
  (* 110 *) [-1; -1; -1; 43; 18; 21; -1; -1; -1; 20; -1; 19; 25; -1; 22; -1; 15]%Z;
  (* 111 *) [-1; -1; -1; -1; -1; -1; -1; -1; -1; -1; -1; -1; -1; -1; -1; -1; -1]%Z;
  (* 112 *) [-1; -1; -1; -1; -1; -1; -1; -1; -1; -1; -1; -1; -1; -1; -1; -1; -1]%Z;
  (* 113 *) [-1; -1; -1; -1; -1; -1; -1; -1; -1; -1; -1; -1; -1; -1; -1; -1; -1]%Z;
  (* 114 *) [-1; -1; -1; -1; -1; -1; -1; -1; -1; -1; -1; -1; -1; -1; -1; -1; -1]%Z;
  (* 115 *) [-1; -1; -1; -1; -1; -1; -1; -1; -1; -1; -1; -1; -1; -1; -1; -1; -1]%Z;
  (* 116 *) [-1; -1; -1; -1; -1; -1; -1; -1; -1; -1; -1; -1; -1; -1; -1; -1; -1]%Z;
  (* 117 *) [-1; -1; -1; -1; -1; -1; -1; -1; -1; -1; -1; -1; -1; -1; -1; -1; -1]%Z;
  (* 118 *) [-1; -1; -1; -1; -1; -1; -1; -1; -1; -1; -1; -1; -1; -1; -1; -1; -1]%Z;
  (* 119 *) [-1; -1; -1; -1; -1; -1; -1; -1; -1; -1; -1; -1; -1; -1; -1; -1; -1]%Z;
  (* 120 *) [-1; -1; -1; -1; -1; -1; -1; -1; -1; -1; -1; -1; -1; -1; -1; -1; -1]%Z;
  (* 121 *) [-1; -1; -1; 43; 18; 21; -1; -1; -1; 20; -1; 19; 25; -1; 22; -1; 15]%Z;
  (* 122 *) [-1; -1; 126; 17; 18; 21; -1; -1; -1; 20; -1; 19; 25; -1; 22; -1; 15]%Z;
  (* 123 *) [-1; -1; -1; -1; -1; -1; -1; -1; -1; -1; -1; -1; -1; -1; -1; -1; -1]%Z;
  (* 124 *) [-1; -1; -1; -1; -1; -1; -1; -1; -1; -1; -1; -1; -1; -1; -1; -1; -1]%Z;
  (* 125 *) [-1; -1; -1; -1; -1; -1; -1; -1; -1; -1; -1; -1; -1; -1; -1; -1; -1]%Z;
  (* 126 *) [-1; -1; -1; 43; 18; 21; -1; -1; -1; 20; -1; 19; 25; -1; 22; -1; 15]%Z;
  (* 127 *) [-1; -1; -1; -1; -1; -1; -1; -1; -1; -1; -1; -1; -1; -1; -1; -1; -1]%Z
].

Definition prod_tab : list production := [
  (* 0, productionstable.go:26  S : DotGraph  --   *)
  Prod 0 1 [Nt 1] (SemProj 0);
  (* 1, productionstable.go:36  DotGraph : graphx `{` `}`  -- ast.NewGraph(ast.GRAPH, ast.FALSE, nil, nil)  *)
  Prod 1 3 [Tm 2; Tm 3; Tm 4] (SemGraph false false (None) (None));
  (* 2, productionstable.go:46  DotGraph : strict graphx `{` `}`  -- ast.NewGraph(ast.GRAPH, ast.TRUE, nil, nil)  *)
  Prod 1 4 [Tm 5; Tm 2; Tm 3; Tm 4] (SemGraph false true (None) (None));
  (* 3, productionstable.go:56  DotGraph : graphx Id `{` `}`  -- ast.NewGraph(ast.GRAPH, ast.FALSE, X[1], nil)  *)
  Prod 1 4 [Tm 2; Nt 16; Tm 3; Tm 4] (SemGraph false false (Some 1) (None));
  (* 4, productionstable.go:66  DotGraph : strict graphx Id `{` `}`  -- ast.NewGraph(ast.GRAPH, ast.TRUE, X[2], nil)  *)
  Prod 1 5 [Tm 5; Tm 2; Nt 16; Tm 3; Tm 4] (SemGraph false true (Some 2) (None));
  (* 5, productionstable.go:76  DotGraph : graphx `{` StmtList `}`  -- ast.NewGraph(ast.GRAPH, ast.FALSE, nil, X[2])  *)
  Prod 1 4 [Tm 2; Tm 3; Nt 2; Tm 4] (SemGraph false false (None) (Some 2));
  (* 6, productionstable.go:86  DotGraph : graphx Id `{` StmtList `}`  -- ast.NewGraph(ast.GRAPH, ast.FALSE, X[1], X[3])  *)
  Prod 1 5 [Tm 2; Nt 16; Tm 3; Nt 2; Tm 4] (SemGraph false false (Some 1) (Some 3));
  (* 7, productionstable.go:96  DotGraph : strict graphx `{` StmtList `}`  -- ast.NewGraph(ast.GRAPH, ast.TRUE, nil, X[3])  *)
  Prod 1 5 [Tm 5; Tm 2; Tm 3; Nt 2; Tm 4] (SemGraph false true (None) (Some 3));
  (* 8, productionstable.go:106  DotGraph : strict graphx Id `{` StmtList `}`  -- ast.NewGraph(ast.GRAPH, ast.TRUE, X[2], X[4])  *)
  Prod 1 6 [Tm 5; Tm 2; Nt 16; Tm 3; Nt 2; Tm 4] (SemGraph false true (Some 2) (Some 4));
  (* 9, productionstable.go:116  DotGraph : digraph `{` `}`  -- ast.NewGraph(ast.DIGRAPH, ast.FALSE, nil, nil)  *)
  Prod 1 3 [Tm 6; Tm 3; Tm 4] (SemGraph true false (None) (None));
  (* 10, productionstable.go:126  DotGraph : strict digraph `{` `}`  -- ast.NewGraph(ast.DIGRAPH, ast.TRUE, nil, nil)  *)
  Prod 1 4 [Tm 5; Tm 6; Tm 3; Tm 4] (SemGraph true true (None) (None));
  (* 11, productionstable.go:136  DotGraph : digraph Id `{` `}`  -- ast.NewGraph(ast.DIGRAPH, ast.FALSE, X[1], nil)  *)
  Prod 1 4 [Tm 6; Nt 16; Tm 3; Tm 4] (SemGraph true false (Some 1) (None));
  (* 12, productionstable.go:146  DotGraph : strict digraph Id `{` `}`  -- ast.NewGraph(ast.DIGRAPH, ast.TRUE, X[2], nil)  *)
  Prod 1 5 [Tm 5; Tm 6; Nt 16; Tm 3; Tm 4] (SemGraph true true (Some 2) (None));
  (* 13, productionstable.go:156  DotGraph : digraph `{` StmtList `}`  -- ast.NewGraph(ast.DIGRAPH, ast.FALSE, nil, X[2])  *)
  Prod 1 4 [Tm 6; Tm 3; Nt 2; Tm 4] (SemGraph true false (None) (Some 2));
  (* 14, productionstable.go:166  DotGraph : digraph Id `{` StmtList `}`  -- ast.NewGraph(ast.DIGRAPH, ast.FALSE, X[1], X[3])  *)
  Prod 1 5 [Tm 6; Nt 16; Tm 3; Nt 2; Tm 4] (SemGraph true false (Some 1) (Some 3));
  (* 15, productionstable.go:176  DotGraph : strict digraph `{` StmtList `}`  -- ast.NewGraph(ast.DIGRAPH, ast.TRUE, nil, X[3])  *)
  Prod 1 5 [Tm 5; Tm 6; Tm 3; Nt 2; Tm 4] (SemGraph true true (None) (Some 3));
  (* 16, productionstable.go:186  DotGraph : strict digraph Id `{` StmtList `}`  -- ast.NewGraph(ast.DIGRAPH, ast.TRUE, X[2], X[4])  *)
  Prod 1 6 [Tm 5; Tm 6; Nt 16; Tm 3; Nt 2; Tm 4] (SemGraph true true (Some 2) (Some 4));
  (* 17, productionstable.go:196  StmtList : Stmt1  -- ast.NewStmtList(X[0])  *)
  Prod 2 1 [Nt 3] (SemStmtList 0);
  (* 18, productionstable.go:206  StmtList : StmtList Stmt1  -- ast.AppendStmtList(X[0], X[1])  *)
  Prod 2 2 [Nt 2; Nt 3] (SemAppendStmtList 0 1);
  (* 19, productionstable.go:216  Stmt1 : Stmt  -- X[0], nil  *)
  Prod 3 1 [Nt 4] (SemProj 0);
  (* 20, productionstable.go:226  Stmt1 : Stmt `;`  -- X[0], nil  *)
  Prod 3 2 [Nt 4; Tm 7] (SemProj 0);
  (* 21, productionstable.go:236  Stmt : Id `=` Id  -- ast.NewAttr(X[0], X[2])  *)
  Prod 4 3 [Nt 16; Tm 8; Nt 16] (SemAttr 0 (Some 2));
  (* 22, productionstable.go:246  Stmt : NodeStmt  -- X[0], nil  *)
  Prod 4 1 [Nt 11] (SemProj 0);
  (* 23, productionstable.go:256  Stmt : EdgeStmt  -- X[0], nil  *)
  Prod 4 1 [Nt 9] (SemProj 0);
  (* 24, productionstable.go:266  Stmt : AttrStmt  -- X[0], nil  *)
  Prod 4 1 [Nt 5] (SemProj 0);
  (* 25, productionstable.go:276  Stmt : SubGraphStmt  -- X[0], nil  *)
  Prod 4 1 [Nt 14] (SemProj 0);
  (* 26, productionstable.go:286  AttrStmt : graphx AttrList  -- ast.NewGraphAttrs(X[1])  *)
  Prod 5 2 [Tm 2; Nt 6] (SemGraphAttrs 1);
  (* 27, productionstable.go:296  AttrStmt : node AttrList  -- ast.NewNodeAttrs(X[1])  *)
  Prod 5 2 [Tm 9; Nt 6] (SemNodeAttrs 1);
  (* 28, productionstable.go:306  AttrStmt : edge AttrList  -- ast.NewEdgeAttrs(X[1])  *)
  Prod 5 2 [Tm 10; Nt 6] (SemEdgeAttrs 1);
  (* 29, productionstable.go:316  AttrList : `[` `]`  -- ast.NewAttrList(nil)  *)
  Prod 6 2 [Tm 11; Tm 12] (SemAttrList (None));
  (* 30, productionstable.go:326  AttrList : `[` AList `]`  -- ast.NewAttrList(X[1])  *)
  Prod 6 3 [Tm 11; Nt 7; Tm 12] (SemAttrList (Some 1));
  (* 31, productionstable.go:336  AttrList : AttrList `[` `]`  -- ast.AppendAttrList(X[0], nil)  *)
  Prod 6 3 [Nt 6; Tm 11; Tm 12] (SemAppendAttrList 0 (None));
  (* 32, productionstable.go:346  AttrList : AttrList `[` AList `]`  -- ast.AppendAttrList(X[0], X[2])  *)
  Prod 6 4 [Nt 6; Tm 11; Nt 7; Tm 12] (SemAppendAttrList 0 (Some 2));
  (* 33, productionstable.go:356  AList : Attr  -- ast.NewAList(X[0])  *)
  Prod 7 1 [Nt 8] (SemAList 0);
  (* 34, productionstable.go:366  AList : AList Attr  -- ast.AppendAList(X[0], X[1])  *)
  Prod 7 2 [Nt 7; Nt 8] (SemAppendAList 0 1);
  (* 35, productionstable.go:376  AList : AList `,` Attr  -- ast.AppendAList(X[0], X[2])  *)
  Prod 7 3 [Nt 7; Tm 13; Nt 8] (SemAppendAList 0 2);
  (* 36, productionstable.go:386  Attr : Id  -- ast.NewAttr(X[0], nil)  *)
  Prod 8 1 [Nt 16] (SemAttr 0 (None));
  (* 37, productionstable.go:396  Attr : Id `=` Id  -- ast.NewAttr(X[0], X[2])  *)
  Prod 8 3 [Nt 16; Tm 8; Nt 16] (SemAttr 0 (Some 2));
  (* 38, productionstable.go:406  EdgeStmt : NodeId EdgeRHS  -- ast.NewEdgeStmt(X[0], X[1], nil)  *)
  Prod 9 2 [Nt 12; Nt 10] (SemEdgeStmt 0 1 (None));
  (* 39, productionstable.go:416  EdgeStmt : NodeId EdgeRHS AttrList  -- ast.NewEdgeStmt(X[0], X[1], X[2])  *)
  Prod 9 3 [Nt 12; Nt 10; Nt 6] (SemEdgeStmt 0 1 (Some 2));
  (* 40, productionstable.go:426  EdgeStmt : SubGraphStmt EdgeRHS  -- ast.NewEdgeStmt(X[0], X[1], nil)  *)
  Prod 9 2 [Nt 14; Nt 10] (SemEdgeStmt 0 1 (None));
  (* 41, productionstable.go:436  EdgeStmt : SubGraphStmt EdgeRHS AttrList  -- ast.NewEdgeStmt(X[0], X[1], X[2])  *)
  Prod 9 3 [Nt 14; Nt 10; Nt 6] (SemEdgeStmt 0 1 (Some 2));
  (* 42, productionstable.go:446  EdgeRHS : EdgeOp NodeId  -- ast.NewEdgeRHS(X[0], X[1])  *)
  Prod 10 2 [Nt 15; Nt 12] (SemEdgeRHS 0 1);
  (* 43, productionstable.go:456  EdgeRHS : EdgeOp SubGraphStmt  -- ast.NewEdgeRHS(X[0], X[1])  *)
  Prod 10 2 [Nt 15; Nt 14] (SemEdgeRHS 0 1);
  (* 44, productionstable.go:466  EdgeRHS : EdgeRHS EdgeOp NodeId  -- ast.AppendEdgeRHS(X[0], X[1], X[2])  *)
  Prod 10 3 [Nt 10; Nt 15; Nt 12] (SemAppendEdgeRHS 0 1 2);
  (* 45, productionstable.go:476  EdgeRHS : EdgeRHS EdgeOp SubGraphStmt  -- ast.AppendEdgeRHS(X[0], X[1], X[2])  *)
  Prod 10 3 [Nt 10; Nt 15; Nt 14] (SemAppendEdgeRHS 0 1 2);
  (* 46, productionstable.go:486  NodeStmt : NodeId  -- ast.NewNodeStmt(X[0], nil)  *)
  Prod 11 1 [Nt 12] (SemNodeStmt 0 (None));
  (* 47, productionstable.go:496  NodeStmt : NodeId AttrList  -- ast.NewNodeStmt(X[0], X[1])  *)
  Prod 11 2 [Nt 12; Nt 6] (SemNodeStmt 0 (Some 1));
  (* 48, productionstable.go:506  NodeId : Id  -- ast.NewNodeID(X[0], nil)  *)
  Prod 12 1 [Nt 16] (SemNodeID 0 (None));
  (* 49, productionstable.go:516  NodeId : Id Port  -- ast.NewNodeID(X[0], X[1])  *)
  Prod 12 2 [Nt 16; Nt 13] (SemNodeID 0 (Some 1));
  (* 50, productionstable.go:526  Port : `:` Id  -- ast.NewPort(X[1], nil), nil  *)
  Prod 13 2 [Tm 14; Nt 16] (SemPort (Some 1) (None));
  (* 51, productionstable.go:536  Port : `:` Id `:` Id  -- ast.NewPort(X[1], X[3]), nil  *)
  Prod 13 4 [Tm 14; Nt 16; Tm 14; Nt 16] (SemPort (Some 1) (Some 3));
  (* 52, productionstable.go:546  SubGraphStmt : `{` StmtList `}`  -- ast.NewSubGraph(nil, X[1])  *)
  Prod 14 3 [Tm 3; Nt 2; Tm 4] (SemSubGraph (None) (Some 1));
  (* 53, productionstable.go:556  SubGraphStmt : subgraph `{` StmtList `}`  -- ast.NewSubGraph(nil, X[2])  *)
  Prod 14 4 [Tm 15; Tm 3; Nt 2; Tm 4] (SemSubGraph (None) (Some 2));
  (* 54, productionstable.go:566  SubGraphStmt : subgraph Id `{` StmtList `}`  -- ast.NewSubGraph(X[1], X[3])  *)
  Prod 14 5 [Tm 15; Nt 16; Tm 3; Nt 2; Tm 4] (SemSubGraph (Some 1) (Some 3));
  (* 55, productionstable.go:576  SubGraphStmt : subgraph `{` `}`  -- ast.NewSubGraph(nil, nil)  *)
  Prod 14 3 [Tm 15; Tm 3; Tm 4] (SemSubGraph (None) (None));
  (* 56, productionstable.go:586  SubGraphStmt : subgraph Id `{` `}`  -- ast.NewSubGraph(X[1], nil)  *)
  Prod 14 4 [Tm 15; Nt 16; Tm 3; Tm 4] (SemSubGraph (Some 1) (None));
  (* 57, productionstable.go:596  EdgeOp : `->`  -- ast.DIRECTED, nil  *)
  Prod 15 1 [Tm 16] (SemOp true);
  (* 58, productionstable.go:606  EdgeOp : `--`  -- ast.UNDIRECTED, nil  *)
  Prod 15 1 [Tm 17] (SemOp false);
  (* 59, productionstable.go:616  Id : id  -- ast.NewID(X[0])  *)
  Prod 16 1 [Tm 18] (SemID 0)
].
