(** GENERATED by tools/gen_items.py: an LR(1) item-set certificate.  It is not trusted:
    [cert_ok] in ParserComplete.v checks it by computation. *)
From Coq Require Import List.
Import ListNotations.

Definition first_cert : list (list nat) := [
  [2; 5; 6];
  [2; 5; 6];
  [2; 3; 9; 10; 15; 18];
  [2; 3; 9; 10; 15; 18];
  [2; 3; 9; 10; 15; 18];
  [2; 9; 10];
  [11];
  [18];
  [18];
  [3; 15; 18];
  [16; 17];
  [18];
  [18];
  [14];
  [3; 15];
  [16; 17];
  [18]
].

(** per state: (production, dot position, lookahead tokens) *)
Definition items_cert : list (list (nat * nat * list nat)) := [
  (* 0 *) [(0,0,[1]); (1,0,[1]); (2,0,[1]); (3,0,[1]); (4,0,[1]); (5,0,[1]); (6,0,[1]); (7,0,[1]); (8,0,[1]); (9,0,[1]); (10,0,[1]); (11,0,[1]); (12,0,[1]); (13,0,[1]); (14,0,[1]); (15,0,[1]); (16,0,[1])];
  (* 1 *) [(0,1,[1])];
  (* 2 *) [(1,1,[1]); (3,1,[1]); (5,1,[1]); (6,1,[1]); (59,0,[3])];
  (* 3 *) [(2,1,[1]); (4,1,[1]); (7,1,[1]); (8,1,[1]); (10,1,[1]); (12,1,[1]); (15,1,[1]); (16,1,[1])];
  (* 4 *) [(9,1,[1]); (11,1,[1]); (13,1,[1]); (14,1,[1]); (59,0,[3])];
  (* 5 *) [(1,2,[1]); (5,2,[1]); (17,0,[2;3;4;9;10;15;18]); (18,0,[2;3;4;9;10;15;18]); (19,0,[2;3;4;9;10;15;18]); (20,0,[2;3;4;9;10;15;18]); (21,0,[2;3;4;7;9;10;15;18]); (22,0,[2;3;4;7;9;10;15;18]); (23,0,[2;3;4;7;9;10;15;18]); (24,0,[2;3;4;7;9;10;15;18]); (25,0,[2;3;4;7;9;10;15;18]); (26,0,[2;3;4;7;9;10;15;18]); (27,0,[2;3;4;7;9;10;15;18]); (28,0,[2;3;4;7;9;10;15;18]); (38,0,[2;3;4;7;9;10;15;18]); (39,0,[2;3;4;7;9;10;15;18]); (40,0,[2;3;4;7;9;10;15;18]); (41,0,[2;3;4;7;9;10;15;18]); (46,0,[2;3;4;7;9;10;15;18]); (47,0,[2;3;4;7;9;10;15;18]); (48,0,[2;3;4;7;9;10;11;15;16;17;18]); (49,0,[2;3;4;7;9;10;11;15;16;17;18]); (52,0,[2;3;4;7;9;10;15;16;17;18]); (53,0,[2;3;4;7;9;10;15;16;17;18]); (54,0,[2;3;4;7;9;10;15;16;17;18]); (55,0,[2;3;4;7;9;10;15;16;17;18]); (56,0,[2;3;4;7;9;10;15;16;17;18]); (59,0,[2;3;4;7;8;9;10;11;14;15;16;17;18])];
  (* 6 *) [(3,2,[1]); (6,2,[1])];
  (* 7 *) [(59,1,[3])];
  (* 8 *) [(2,2,[1]); (4,2,[1]); (7,2,[1]); (8,2,[1]); (59,0,[3])];
  (* 9 *) [(10,2,[1]); (12,2,[1]); (15,2,[1]); (16,2,[1]); (59,0,[3])];
  (* 10 *) [(9,2,[1]); (13,2,[1]); (17,0,[2;3;4;9;10;15;18]); (18,0,[2;3;4;9;10;15;18]); (19,0,[2;3;4;9;10;15;18]); (20,0,[2;3;4;9;10;15;18]); (21,0,[2;3;4;7;9;10;15;18]); (22,0,[2;3;4;7;9;10;15;18]); (23,0,[2;3;4;7;9;10;15;18]); (24,0,[2;3;4;7;9;10;15;18]); (25,0,[2;3;4;7;9;10;15;18]); (26,0,[2;3;4;7;9;10;15;18]); (27,0,[2;3;4;7;9;10;15;18]); (28,0,[2;3;4;7;9;10;15;18]); (38,0,[2;3;4;7;9;10;15;18]); (39,0,[2;3;4;7;9;10;15;18]); (40,0,[2;3;4;7;9;10;15;18]); (41,0,[2;3;4;7;9;10;15;18]); (46,0,[2;3;4;7;9;10;15;18]); (47,0,[2;3;4;7;9;10;15;18]); (48,0,[2;3;4;7;9;10;11;15;16;17;18]); (49,0,[2;3;4;7;9;10;11;15;16;17;18]); (52,0,[2;3;4;7;9;10;15;16;17;18]); (53,0,[2;3;4;7;9;10;15;16;17;18]); (54,0,[2;3;4;7;9;10;15;16;17;18]); (55,0,[2;3;4;7;9;10;15;16;17;18]); (56,0,[2;3;4;7;9;10;15;16;17;18]); (59,0,[2;3;4;7;8;9;10;11;14;15;16;17;18])];
  (* 11 *) [(11,2,[1]); (14,2,[1])];
  (* 12 *) [(26,1,[2;3;4;7;9;10;15;18]); (29,0,[2;3;4;7;9;10;11;15;18]); (30,0,[2;3;4;7;9;10;11;15;18]); (31,0,[2;3;4;7;9;10;11;15;18]); (32,0,[2;3;4;7;9;10;11;15;18])];
  (* 13 *) [(17,0,[2;3;4;9;10;15;18]); (18,0,[2;3;4;9;10;15;18]); (19,0,[2;3;4;9;10;15;18]); (20,0,[2;3;4;9;10;15;18]); (21,0,[2;3;4;7;9;10;15;18]); (22,0,[2;3;4;7;9;10;15;18]); (23,0,[2;3;4;7;9;10;15;18]); (24,0,[2;3;4;7;9;10;15;18]); (25,0,[2;3;4;7;9;10;15;18]); (26,0,[2;3;4;7;9;10;15;18]); (27,0,[2;3;4;7;9;10;15;18]); (28,0,[2;3;4;7;9;10;15;18]); (38,0,[2;3;4;7;9;10;15;18]); (39,0,[2;3;4;7;9;10;15;18]); (40,0,[2;3;4;7;9;10;15;18]); (41,0,[2;3;4;7;9;10;15;18]); (46,0,[2;3;4;7;9;10;15;18]); (47,0,[2;3;4;7;9;10;15;18]); (48,0,[2;3;4;7;9;10;11;15;16;17;18]); (49,0,[2;3;4;7;9;10;11;15;16;17;18]); (52,0,[2;3;4;7;9;10;15;16;17;18]); (52,1,[2;3;4;7;9;10;15;16;17;18]); (53,0,[2;3;4;7;9;10;15;16;17;18]); (54,0,[2;3;4;7;9;10;15;16;17;18]); (55,0,[2;3;4;7;9;10;15;16;17;18]); (56,0,[2;3;4;7;9;10;15;16;17;18]); (59,0,[2;3;4;7;8;9;10;11;14;15;16;17;18])];
  (* 14 *) [(1,3,[1])];
  (* 15 *) [(21,1,[2;3;4;7;9;10;15;18]); (48,1,[2;3;4;7;9;10;11;15;16;17;18]); (49,1,[2;3;4;7;9;10;11;15;16;17;18]); (50,0,[2;3;4;7;9;10;11;15;16;17;18]); (51,0,[2;3;4;7;9;10;11;15;16;17;18])];
  (* 16 *) [(5,3,[1]); (18,1,[2;3;4;9;10;15;18]); (19,0,[2;3;4;9;10;15;18]); (20,0,[2;3;4;9;10;15;18]); (21,0,[2;3;4;7;9;10;15;18]); (22,0,[2;3;4;7;9;10;15;18]); (23,0,[2;3;4;7;9;10;15;18]); (24,0,[2;3;4;7;9;10;15;18]); (25,0,[2;3;4;7;9;10;15;18]); (26,0,[2;3;4;7;9;10;15;18]); (27,0,[2;3;4;7;9;10;15;18]); (28,0,[2;3;4;7;9;10;15;18]); (38,0,[2;3;4;7;9;10;15;18]); (39,0,[2;3;4;7;9;10;15;18]); (40,0,[2;3;4;7;9;10;15;18]); (41,0,[2;3;4;7;9;10;15;18]); (46,0,[2;3;4;7;9;10;15;18]); (47,0,[2;3;4;7;9;10;15;18]); (48,0,[2;3;4;7;9;10;11;15;16;17;18]); (49,0,[2;3;4;7;9;10;11;15;16;17;18]); (52,0,[2;3;4;7;9;10;15;16;17;18]); (53,0,[2;3;4;7;9;10;15;16;17;18]); (54,0,[2;3;4;7;9;10;15;16;17;18]); (55,0,[2;3;4;7;9;10;15;16;17;18]); (56,0,[2;3;4;7;9;10;15;16;17;18]); (59,0,[2;3;4;7;8;9;10;11;14;15;16;17;18])];
  (* 17 *) [(17,1,[2;3;4;9;10;15;18])];
  (* 18 *) [(19,1,[2;3;4;9;10;15;18]); (20,1,[2;3;4;9;10;15;18])];
  (* 19 *) [(22,1,[2;3;4;7;9;10;15;18])];
  (* 20 *) [(23,1,[2;3;4;7;9;10;15;18])];
  (* 21 *) [(24,1,[2;3;4;7;9;10;15;18])];
  (* 22 *) [(25,1,[2;3;4;7;9;10;15;18]); (40,1,[2;3;4;7;9;10;15;18]); (41,1,[2;3;4;7;9;10;15;18]); (42,0,[2;3;4;7;9;10;11;15;16;17;18]); (43,0,[2;3;4;7;9;10;11;15;16;17;18]); (44,0,[2;3;4;7;9;10;11;15;16;17;18]); (45,0,[2;3;4;7;9;10;11;15;16;17;18]); (57,0,[3;15;18]); (58,0,[3;15;18])];
  (* 23 *) [(27,1,[2;3;4;7;9;10;15;18]); (29,0,[2;3;4;7;9;10;11;15;18]); (30,0,[2;3;4;7;9;10;11;15;18]); (31,0,[2;3;4;7;9;10;11;15;18]); (32,0,[2;3;4;7;9;10;11;15;18])];
  (* 24 *) [(28,1,[2;3;4;7;9;10;15;18]); (29,0,[2;3;4;7;9;10;11;15;18]); (30,0,[2;3;4;7;9;10;11;15;18]); (31,0,[2;3;4;7;9;10;11;15;18]); (32,0,[2;3;4;7;9;10;11;15;18])];
  (* 25 *) [(29,0,[2;3;4;7;9;10;11;15;18]); (30,0,[2;3;4;7;9;10;11;15;18]); (31,0,[2;3;4;7;9;10;11;15;18]); (32,0,[2;3;4;7;9;10;11;15;18]); (38,1,[2;3;4;7;9;10;15;18]); (39,1,[2;3;4;7;9;10;15;18]); (42,0,[2;3;4;7;9;10;11;15;16;17;18]); (43,0,[2;3;4;7;9;10;11;15;16;17;18]); (44,0,[2;3;4;7;9;10;11;15;16;17;18]); (45,0,[2;3;4;7;9;10;11;15;16;17;18]); (46,1,[2;3;4;7;9;10;15;18]); (47,1,[2;3;4;7;9;10;15;18]); (57,0,[3;15;18]); (58,0,[3;15;18])];
  (* 26 *) [(53,1,[2;3;4;7;9;10;15;16;17;18]); (54,1,[2;3;4;7;9;10;15;16;17;18]); (55,1,[2;3;4;7;9;10;15;16;17;18]); (56,1,[2;3;4;7;9;10;15;16;17;18]); (59,0,[3])];
  (* 27 *) [(59,1,[2;3;4;7;8;9;10;11;14;15;16;17;18])];
  (* 28 *) [(3,3,[1]); (6,3,[1]); (17,0,[2;3;4;9;10;15;18]); (18,0,[2;3;4;9;10;15;18]); (19,0,[2;3;4;9;10;15;18]); (20,0,[2;3;4;9;10;15;18]); (21,0,[2;3;4;7;9;10;15;18]); (22,0,[2;3;4;7;9;10;15;18]); (23,0,[2;3;4;7;9;10;15;18]); (24,0,[2;3;4;7;9;10;15;18]); (25,0,[2;3;4;7;9;10;15;18]); (26,0,[2;3;4;7;9;10;15;18]); (27,0,[2;3;4;7;9;10;15;18]); (28,0,[2;3;4;7;9;10;15;18]); (38,0,[2;3;4;7;9;10;15;18]); (39,0,[2;3;4;7;9;10;15;18]); (40,0,[2;3;4;7;9;10;15;18]); (41,0,[2;3;4;7;9;10;15;18]); (46,0,[2;3;4;7;9;10;15;18]); (47,0,[2;3;4;7;9;10;15;18]); (48,0,[2;3;4;7;9;10;11;15;16;17;18]); (49,0,[2;3;4;7;9;10;11;15;16;17;18]); (52,0,[2;3;4;7;9;10;15;16;17;18]); (53,0,[2;3;4;7;9;10;15;16;17;18]); (54,0,[2;3;4;7;9;10;15;16;17;18]); (55,0,[2;3;4;7;9;10;15;16;17;18]); (56,0,[2;3;4;7;9;10;15;16;17;18]); (59,0,[2;3;4;7;8;9;10;11;14;15;16;17;18])];
  (* 29 *) [(2,3,[1]); (7,3,[1]); (17,0,[2;3;4;9;10;15;18]); (18,0,[2;3;4;9;10;15;18]); (19,0,[2;3;4;9;10;15;18]); (20,0,[2;3;4;9;10;15;18]); (21,0,[2;3;4;7;9;10;15;18]); (22,0,[2;3;4;7;9;10;15;18]); (23,0,[2;3;4;7;9;10;15;18]); (24,0,[2;3;4;7;9;10;15;18]); (25,0,[2;3;4;7;9;10;15;18]); (26,0,[2;3;4;7;9;10;15;18]); (27,0,[2;3;4;7;9;10;15;18]); (28,0,[2;3;4;7;9;10;15;18]); (38,0,[2;3;4;7;9;10;15;18]); (39,0,[2;3;4;7;9;10;15;18]); (40,0,[2;3;4;7;9;10;15;18]); (41,0,[2;3;4;7;9;10;15;18]); (46,0,[2;3;4;7;9;10;15;18]); (47,0,[2;3;4;7;9;10;15;18]); (48,0,[2;3;4;7;9;10;11;15;16;17;18]); (49,0,[2;3;4;7;9;10;11;15;16;17;18]); (52,0,[2;3;4;7;9;10;15;16;17;18]); (53,0,[2;3;4;7;9;10;15;16;17;18]); (54,0,[2;3;4;7;9;10;15;16;17;18]); (55,0,[2;3;4;7;9;10;15;16;17;18]); (56,0,[2;3;4;7;9;10;15;16;17;18]); (59,0,[2;3;4;7;8;9;10;11;14;15;16;17;18])];
  (* 30 *) [(4,3,[1]); (8,3,[1])];
  (* 31 *) [(10,3,[1]); (15,3,[1]); (17,0,[2;3;4;9;10;15;18]); (18,0,[2;3;4;9;10;15;18]); (19,0,[2;3;4;9;10;15;18]); (20,0,[2;3;4;9;10;15;18]); (21,0,[2;3;4;7;9;10;15;18]); (22,0,[2;3;4;7;9;10;15;18]); (23,0,[2;3;4;7;9;10;15;18]); (24,0,[2;3;4;7;9;10;15;18]); (25,0,[2;3;4;7;9;10;15;18]); (26,0,[2;3;4;7;9;10;15;18]); (27,0,[2;3;4;7;9;10;15;18]); (28,0,[2;3;4;7;9;10;15;18]); (38,0,[2;3;4;7;9;10;15;18]); (39,0,[2;3;4;7;9;10;15;18]); (40,0,[2;3;4;7;9;10;15;18]); (41,0,[2;3;4;7;9;10;15;18]); (46,0,[2;3;4;7;9;10;15;18]); (47,0,[2;3;4;7;9;10;15;18]); (48,0,[2;3;4;7;9;10;11;15;16;17;18]); (49,0,[2;3;4;7;9;10;11;15;16;17;18]); (52,0,[2;3;4;7;9;10;15;16;17;18]); (53,0,[2;3;4;7;9;10;15;16;17;18]); (54,0,[2;3;4;7;9;10;15;16;17;18]); (55,0,[2;3;4;7;9;10;15;16;17;18]); (56,0,[2;3;4;7;9;10;15;16;17;18]); (59,0,[2;3;4;7;8;9;10;11;14;15;16;17;18])];
  (* 32 *) [(12,3,[1]); (16,3,[1])];
  (* 33 *) [(9,3,[1])];
  (* 34 *) [(13,3,[1]); (18,1,[2;3;4;9;10;15;18]); (19,0,[2;3;4;9;10;15;18]); (20,0,[2;3;4;9;10;15;18]); (21,0,[2;3;4;7;9;10;15;18]); (22,0,[2;3;4;7;9;10;15;18]); (23,0,[2;3;4;7;9;10;15;18]); (24,0,[2;3;4;7;9;10;15;18]); (25,0,[2;3;4;7;9;10;15;18]); (26,0,[2;3;4;7;9;10;15;18]); (27,0,[2;3;4;7;9;10;15;18]); (28,0,[2;3;4;7;9;10;15;18]); (38,0,[2;3;4;7;9;10;15;18]); (39,0,[2;3;4;7;9;10;15;18]); (40,0,[2;3;4;7;9;10;15;18]); (41,0,[2;3;4;7;9;10;15;18]); (46,0,[2;3;4;7;9;10;15;18]); (47,0,[2;3;4;7;9;10;15;18]); (48,0,[2;3;4;7;9;10;11;15;16;17;18]); (49,0,[2;3;4;7;9;10;11;15;16;17;18]); (52,0,[2;3;4;7;9;10;15;16;17;18]); (53,0,[2;3;4;7;9;10;15;16;17;18]); (54,0,[2;3;4;7;9;10;15;16;17;18]); (55,0,[2;3;4;7;9;10;15;16;17;18]); (56,0,[2;3;4;7;9;10;15;16;17;18]); (59,0,[2;3;4;7;8;9;10;11;14;15;16;17;18])];
  (* 35 *) [(11,3,[1]); (14,3,[1]); (17,0,[2;3;4;9;10;15;18]); (18,0,[2;3;4;9;10;15;18]); (19,0,[2;3;4;9;10;15;18]); (20,0,[2;3;4;9;10;15;18]); (21,0,[2;3;4;7;9;10;15;18]); (22,0,[2;3;4;7;9;10;15;18]); (23,0,[2;3;4;7;9;10;15;18]); (24,0,[2;3;4;7;9;10;15;18]); (25,0,[2;3;4;7;9;10;15;18]); (26,0,[2;3;4;7;9;10;15;18]); (27,0,[2;3;4;7;9;10;15;18]); (28,0,[2;3;4;7;9;10;15;18]); (38,0,[2;3;4;7;9;10;15;18]); (39,0,[2;3;4;7;9;10;15;18]); (40,0,[2;3;4;7;9;10;15;18]); (41,0,[2;3;4;7;9;10;15;18]); (46,0,[2;3;4;7;9;10;15;18]); (47,0,[2;3;4;7;9;10;15;18]); (48,0,[2;3;4;7;9;10;11;15;16;17;18]); (49,0,[2;3;4;7;9;10;11;15;16;17;18]); (52,0,[2;3;4;7;9;10;15;16;17;18]); (53,0,[2;3;4;7;9;10;15;16;17;18]); (54,0,[2;3;4;7;9;10;15;16;17;18]); (55,0,[2;3;4;7;9;10;15;16;17;18]); (56,0,[2;3;4;7;9;10;15;16;17;18]); (59,0,[2;3;4;7;8;9;10;11;14;15;16;17;18])];
  (* 36 *) [(26,2,[2;3;4;7;9;10;15;18]); (31,1,[2;3;4;7;9;10;11;15;18]); (32,1,[2;3;4;7;9;10;11;15;18])];
  (* 37 *) [(29,1,[2;3;4;7;9;10;11;15;18]); (30,1,[2;3;4;7;9;10;11;15;18]); (33,0,[12;13;18]); (34,0,[12;13;18]); (35,0,[12;13;18]); (36,0,[12;13;18]); (37,0,[12;13;18]); (59,0,[8;12;13;18])];
  (* 38 *) [(18,1,[2;3;4;9;10;15;18]); (19,0,[2;3;4;9;10;15;18]); (20,0,[2;3;4;9;10;15;18]); (21,0,[2;3;4;7;9;10;15;18]); (22,0,[2;3;4;7;9;10;15;18]); (23,0,[2;3;4;7;9;10;15;18]); (24,0,[2;3;4;7;9;10;15;18]); (25,0,[2;3;4;7;9;10;15;18]); (26,0,[2;3;4;7;9;10;15;18]); (27,0,[2;3;4;7;9;10;15;18]); (28,0,[2;3;4;7;9;10;15;18]); (38,0,[2;3;4;7;9;10;15;18]); (39,0,[2;3;4;7;9;10;15;18]); (40,0,[2;3;4;7;9;10;15;18]); (41,0,[2;3;4;7;9;10;15;18]); (46,0,[2;3;4;7;9;10;15;18]); (47,0,[2;3;4;7;9;10;15;18]); (48,0,[2;3;4;7;9;10;11;15;16;17;18]); (49,0,[2;3;4;7;9;10;11;15;16;17;18]); (52,0,[2;3;4;7;9;10;15;16;17;18]); (52,2,[2;3;4;7;9;10;15;16;17;18]); (53,0,[2;3;4;7;9;10;15;16;17;18]); (54,0,[2;3;4;7;9;10;15;16;17;18]); (55,0,[2;3;4;7;9;10;15;16;17;18]); (56,0,[2;3;4;7;9;10;15;16;17;18]); (59,0,[2;3;4;7;8;9;10;11;14;15;16;17;18])];
  (* 39 *) [(21,2,[2;3;4;7;9;10;15;18]); (59,0,[2;3;4;7;9;10;15;18])];
  (* 40 *) [(49,2,[2;3;4;7;9;10;11;15;16;17;18])];
  (* 41 *) [(50,1,[2;3;4;7;9;10;11;15;16;17;18]); (51,1,[2;3;4;7;9;10;11;15;16;17;18]); (59,0,[2;3;4;7;9;10;11;14;15;16;17;18])];
  (* 42 *) [(5,4,[1])];
  (* 43 *) [(18,2,[2;3;4;9;10;15;18])];
  (* 44 *) [(20,2,[2;3;4;9;10;15;18])];
  (* 45 *) [(29,0,[2;3;4;7;9;10;11;15;18]); (30,0,[2;3;4;7;9;10;11;15;18]); (31,0,[2;3;4;7;9;10;11;15;18]); (32,0,[2;3;4;7;9;10;11;15;18]); (40,2,[2;3;4;7;9;10;15;18]); (41,2,[2;3;4;7;9;10;15;18]); (44,1,[2;3;4;7;9;10;11;15;16;17;18]); (45,1,[2;3;4;7;9;10;11;15;16;17;18]); (57,0,[3;15;18]); (58,0,[3;15;18])];
  (* 46 *) [(42,1,[2;3;4;7;9;10;11;15;16;17;18]); (43,1,[2;3;4;7;9;10;11;15;16;17;18]); (48,0,[2;3;4;7;9;10;11;15;16;17;18]); (49,0,[2;3;4;7;9;10;11;15;16;17;18]); (52,0,[2;3;4;7;9;10;11;15;16;17;18]); (53,0,[2;3;4;7;9;10;11;15;16;17;18]); (54,0,[2;3;4;7;9;10;11;15;16;17;18]); (55,0,[2;3;4;7;9;10;11;15;16;17;18]); (56,0,[2;3;4;7;9;10;11;15;16;17;18]); (59,0,[2;3;4;7;9;10;11;14;15;16;17;18])];
  (* 47 *) [(57,1,[3;15;18])];
  (* 48 *) [(58,1,[3;15;18])];
  (* 49 *) [(27,2,[2;3;4;7;9;10;15;18]); (31,1,[2;3;4;7;9;10;11;15;18]); (32,1,[2;3;4;7;9;10;11;15;18])];
  (* 50 *) [(28,2,[2;3;4;7;9;10;15;18]); (31,1,[2;3;4;7;9;10;11;15;18]); (32,1,[2;3;4;7;9;10;11;15;18])];
  (* 51 *) [(31,1,[2;3;4;7;9;10;11;15;18]); (32,1,[2;3;4;7;9;10;11;15;18]); (47,2,[2;3;4;7;9;10;15;18])];
  (* 52 *) [(29,0,[2;3;4;7;9;10;11;15;18]); (30,0,[2;3;4;7;9;10;11;15;18]); (31,0,[2;3;4;7;9;10;11;15;18]); (32,0,[2;3;4;7;9;10;11;15;18]); (38,2,[2;3;4;7;9;10;15;18]); (39,2,[2;3;4;7;9;10;15;18]); (44,1,[2;3;4;7;9;10;11;15;16;17;18]); (45,1,[2;3;4;7;9;10;11;15;16;17;18]); (57,0,[3;15;18]); (58,0,[3;15;18])];
  (* 53 *) [(17,0,[2;3;4;9;10;15;18]); (18,0,[2;3;4;9;10;15;18]); (19,0,[2;3;4;9;10;15;18]); (20,0,[2;3;4;9;10;15;18]); (21,0,[2;3;4;7;9;10;15;18]); (22,0,[2;3;4;7;9;10;15;18]); (23,0,[2;3;4;7;9;10;15;18]); (24,0,[2;3;4;7;9;10;15;18]); (25,0,[2;3;4;7;9;10;15;18]); (26,0,[2;3;4;7;9;10;15;18]); (27,0,[2;3;4;7;9;10;15;18]); (28,0,[2;3;4;7;9;10;15;18]); (38,0,[2;3;4;7;9;10;15;18]); (39,0,[2;3;4;7;9;10;15;18]); (40,0,[2;3;4;7;9;10;15;18]); (41,0,[2;3;4;7;9;10;15;18]); (46,0,[2;3;4;7;9;10;15;18]); (47,0,[2;3;4;7;9;10;15;18]); (48,0,[2;3;4;7;9;10;11;15;16;17;18]); (49,0,[2;3;4;7;9;10;11;15;16;17;18]); (52,0,[2;3;4;7;9;10;15;16;17;18]); (53,0,[2;3;4;7;9;10;15;16;17;18]); (53,2,[2;3;4;7;9;10;15;16;17;18]); (54,0,[2;3;4;7;9;10;15;16;17;18]); (55,0,[2;3;4;7;9;10;15;16;17;18]); (55,2,[2;3;4;7;9;10;15;16;17;18]); (56,0,[2;3;4;7;9;10;15;16;17;18]); (59,0,[2;3;4;7;8;9;10;11;14;15;16;17;18])];
  (* 54 *) [(54,2,[2;3;4;7;9;10;15;16;17;18]); (56,2,[2;3;4;7;9;10;15;16;17;18])];
  (* 55 *) [(3,4,[1])];
  (* 56 *) [(6,4,[1]); (18,1,[2;3;4;9;10;15;18]); (19,0,[2;3;4;9;10;15;18]); (20,0,[2;3;4;9;10;15;18]); (21,0,[2;3;4;7;9;10;15;18]); (22,0,[2;3;4;7;9;10;15;18]); (23,0,[2;3;4;7;9;10;15;18]); (24,0,[2;3;4;7;9;10;15;18]); (25,0,[2;3;4;7;9;10;15;18]); (26,0,[2;3;4;7;9;10;15;18]); (27,0,[2;3;4;7;9;10;15;18]); (28,0,[2;3;4;7;9;10;15;18]); (38,0,[2;3;4;7;9;10;15;18]); (39,0,[2;3;4;7;9;10;15;18]); (40,0,[2;3;4;7;9;10;15;18]); (41,0,[2;3;4;7;9;10;15;18]); (46,0,[2;3;4;7;9;10;15;18]); (47,0,[2;3;4;7;9;10;15;18]); (48,0,[2;3;4;7;9;10;11;15;16;17;18]); (49,0,[2;3;4;7;9;10;11;15;16;17;18]); (52,0,[2;3;4;7;9;10;15;16;17;18]); (53,0,[2;3;4;7;9;10;15;16;17;18]); (54,0,[2;3;4;7;9;10;15;16;17;18]); (55,0,[2;3;4;7;9;10;15;16;17;18]); (56,0,[2;3;4;7;9;10;15;16;17;18]); (59,0,[2;3;4;7;8;9;10;11;14;15;16;17;18])];
  (* 57 *) [(2,4,[1])];
  (* 58 *) [(7,4,[1]); (18,1,[2;3;4;9;10;15;18]); (19,0,[2;3;4;9;10;15;18]); (20,0,[2;3;4;9;10;15;18]); (21,0,[2;3;4;7;9;10;15;18]); (22,0,[2;3;4;7;9;10;15;18]); (23,0,[2;3;4;7;9;10;15;18]); (24,0,[2;3;4;7;9;10;15;18]); (25,0,[2;3;4;7;9;10;15;18]); (26,0,[2;3;4;7;9;10;15;18]); (27,0,[2;3;4;7;9;10;15;18]); (28,0,[2;3;4;7;9;10;15;18]); (38,0,[2;3;4;7;9;10;15;18]); (39,0,[2;3;4;7;9;10;15;18]); (40,0,[2;3;4;7;9;10;15;18]); (41,0,[2;3;4;7;9;10;15;18]); (46,0,[2;3;4;7;9;10;15;18]); (47,0,[2;3;4;7;9;10;15;18]); (48,0,[2;3;4;7;9;10;11;15;16;17;18]); (49,0,[2;3;4;7;9;10;11;15;16;17;18]); (52,0,[2;3;4;7;9;10;15;16;17;18]); (53,0,[2;3;4;7;9;10;15;16;17;18]); (54,0,[2;3;4;7;9;10;15;16;17;18]); (55,0,[2;3;4;7;9;10;15;16;17;18]); (56,0,[2;3;4;7;9;10;15;16;17;18]); (59,0,[2;3;4;7;8;9;10;11;14;15;16;17;18])];
  (* 59 *) [(4,4,[1]); (8,4,[1]); (17,0,[2;3;4;9;10;15;18]); (18,0,[2;3;4;9;10;15;18]); (19,0,[2;3;4;9;10;15;18]); (20,0,[2;3;4;9;10;15;18]); (21,0,[2;3;4;7;9;10;15;18]); (22,0,[2;3;4;7;9;10;15;18]); (23,0,[2;3;4;7;9;10;15;18]); (24,0,[2;3;4;7;9;10;15;18]); (25,0,[2;3;4;7;9;10;15;18]); (26,0,[2;3;4;7;9;10;15;18]); (27,0,[2;3;4;7;9;10;15;18]); (28,0,[2;3;4;7;9;10;15;18]); (38,0,[2;3;4;7;9;10;15;18]); (39,0,[2;3;4;7;9;10;15;18]); (40,0,[2;3;4;7;9;10;15;18]); (41,0,[2;3;4;7;9;10;15;18]); (46,0,[2;3;4;7;9;10;15;18]); (47,0,[2;3;4;7;9;10;15;18]); (48,0,[2;3;4;7;9;10;11;15;16;17;18]); (49,0,[2;3;4;7;9;10;11;15;16;17;18]); (52,0,[2;3;4;7;9;10;15;16;17;18]); (53,0,[2;3;4;7;9;10;15;16;17;18]); (54,0,[2;3;4;7;9;10;15;16;17;18]); (55,0,[2;3;4;7;9;10;15;16;17;18]); (56,0,[2;3;4;7;9;10;15;16;17;18]); (59,0,[2;3;4;7;8;9;10;11;14;15;16;17;18])];
  (* 60 *) [(10,4,[1])];
  (* 61 *) [(15,4,[1]); (18,1,[2;3;4;9;10;15;18]); (19,0,[2;3;4;9;10;15;18]); (20,0,[2;3;4;9;10;15;18]); (21,0,[2;3;4;7;9;10;15;18]); (22,0,[2;3;4;7;9;10;15;18]); (23,0,[2;3;4;7;9;10;15;18]); (24,0,[2;3;4;7;9;10;15;18]); (25,0,[2;3;4;7;9;10;15;18]); (26,0,[2;3;4;7;9;10;15;18]); (27,0,[2;3;4;7;9;10;15;18]); (28,0,[2;3;4;7;9;10;15;18]); (38,0,[2;3;4;7;9;10;15;18]); (39,0,[2;3;4;7;9;10;15;18]); (40,0,[2;3;4;7;9;10;15;18]); (41,0,[2;3;4;7;9;10;15;18]); (46,0,[2;3;4;7;9;10;15;18]); (47,0,[2;3;4;7;9;10;15;18]); (48,0,[2;3;4;7;9;10;11;15;16;17;18]); (49,0,[2;3;4;7;9;10;11;15;16;17;18]); (52,0,[2;3;4;7;9;10;15;16;17;18]); (53,0,[2;3;4;7;9;10;15;16;17;18]); (54,0,[2;3;4;7;9;10;15;16;17;18]); (55,0,[2;3;4;7;9;10;15;16;17;18]); (56,0,[2;3;4;7;9;10;15;16;17;18]); (59,0,[2;3;4;7;8;9;10;11;14;15;16;17;18])];
  (* 62 *) [(12,4,[1]); (16,4,[1]); (17,0,[2;3;4;9;10;15;18]); (18,0,[2;3;4;9;10;15;18]); (19,0,[2;3;4;9;10;15;18]); (20,0,[2;3;4;9;10;15;18]); (21,0,[2;3;4;7;9;10;15;18]); (22,0,[2;3;4;7;9;10;15;18]); (23,0,[2;3;4;7;9;10;15;18]); (24,0,[2;3;4;7;9;10;15;18]); (25,0,[2;3;4;7;9;10;15;18]); (26,0,[2;3;4;7;9;10;15;18]); (27,0,[2;3;4;7;9;10;15;18]); (28,0,[2;3;4;7;9;10;15;18]); (38,0,[2;3;4;7;9;10;15;18]); (39,0,[2;3;4;7;9;10;15;18]); (40,0,[2;3;4;7;9;10;15;18]); (41,0,[2;3;4;7;9;10;15;18]); (46,0,[2;3;4;7;9;10;15;18]); (47,0,[2;3;4;7;9;10;15;18]); (48,0,[2;3;4;7;9;10;11;15;16;17;18]); (49,0,[2;3;4;7;9;10;11;15;16;17;18]); (52,0,[2;3;4;7;9;10;15;16;17;18]); (53,0,[2;3;4;7;9;10;15;16;17;18]); (54,0,[2;3;4;7;9;10;15;16;17;18]); (55,0,[2;3;4;7;9;10;15;16;17;18]); (56,0,[2;3;4;7;9;10;15;16;17;18]); (59,0,[2;3;4;7;8;9;10;11;14;15;16;17;18])];
  (* 63 *) [(13,4,[1])];
  (* 64 *) [(11,4,[1])];
  (* 65 *) [(14,4,[1]); (18,1,[2;3;4;9;10;15;18]); (19,0,[2;3;4;9;10;15;18]); (20,0,[2;3;4;9;10;15;18]); (21,0,[2;3;4;7;9;10;15;18]); (22,0,[2;3;4;7;9;10;15;18]); (23,0,[2;3;4;7;9;10;15;18]); (24,0,[2;3;4;7;9;10;15;18]); (25,0,[2;3;4;7;9;10;15;18]); (26,0,[2;3;4;7;9;10;15;18]); (27,0,[2;3;4;7;9;10;15;18]); (28,0,[2;3;4;7;9;10;15;18]); (38,0,[2;3;4;7;9;10;15;18]); (39,0,[2;3;4;7;9;10;15;18]); (40,0,[2;3;4;7;9;10;15;18]); (41,0,[2;3;4;7;9;10;15;18]); (46,0,[2;3;4;7;9;10;15;18]); (47,0,[2;3;4;7;9;10;15;18]); (48,0,[2;3;4;7;9;10;11;15;16;17;18]); (49,0,[2;3;4;7;9;10;11;15;16;17;18]); (52,0,[2;3;4;7;9;10;15;16;17;18]); (53,0,[2;3;4;7;9;10;15;16;17;18]); (54,0,[2;3;4;7;9;10;15;16;17;18]); (55,0,[2;3;4;7;9;10;15;16;17;18]); (56,0,[2;3;4;7;9;10;15;16;17;18]); (59,0,[2;3;4;7;8;9;10;11;14;15;16;17;18])];
  (* 66 *) [(31,2,[2;3;4;7;9;10;11;15;18]); (32,2,[2;3;4;7;9;10;11;15;18]); (33,0,[12;13;18]); (34,0,[12;13;18]); (35,0,[12;13;18]); (36,0,[12;13;18]); (37,0,[12;13;18]); (59,0,[8;12;13;18])];
  (* 67 *) [(36,1,[12;13;18]); (37,1,[12;13;18])];
  (* 68 *) [(29,2,[2;3;4;7;9;10;11;15;18])];
  (* 69 *) [(30,2,[2;3;4;7;9;10;11;15;18]); (34,1,[12;13;18]); (35,1,[12;13;18]); (36,0,[12;13;18]); (37,0,[12;13;18]); (59,0,[8;12;13;18])];
  (* 70 *) [(33,1,[12;13;18])];
  (* 71 *) [(59,1,[8;12;13;18])];
  (* 72 *) [(52,3,[2;3;4;7;9;10;15;16;17;18])];
  (* 73 *) [(21,3,[2;3;4;7;9;10;15;18])];
  (* 74 *) [(59,1,[2;3;4;7;9;10;15;18])];
  (* 75 *) [(50,2,[2;3;4;7;9;10;11;15;16;17;18]); (51,2,[2;3;4;7;9;10;11;15;16;17;18])];
  (* 76 *) [(59,1,[2;3;4;7;9;10;11;14;15;16;17;18])];
  (* 77 *) [(31,1,[2;3;4;7;9;10;11;15;18]); (32,1,[2;3;4;7;9;10;11;15;18]); (41,3,[2;3;4;7;9;10;15;18])];
  (* 78 *) [(44,2,[2;3;4;7;9;10;11;15;16;17;18]); (45,2,[2;3;4;7;9;10;11;15;16;17;18]); (48,0,[2;3;4;7;9;10;11;15;16;17;18]); (49,0,[2;3;4;7;9;10;11;15;16;17;18]); (52,0,[2;3;4;7;9;10;11;15;16;17;18]); (53,0,[2;3;4;7;9;10;11;15;16;17;18]); (54,0,[2;3;4;7;9;10;11;15;16;17;18]); (55,0,[2;3;4;7;9;10;11;15;16;17;18]); (56,0,[2;3;4;7;9;10;11;15;16;17;18]); (59,0,[2;3;4;7;9;10;11;14;15;16;17;18])];
  (* 79 *) [(17,0,[2;3;4;9;10;15;18]); (18,0,[2;3;4;9;10;15;18]); (19,0,[2;3;4;9;10;15;18]); (20,0,[2;3;4;9;10;15;18]); (21,0,[2;3;4;7;9;10;15;18]); (22,0,[2;3;4;7;9;10;15;18]); (23,0,[2;3;4;7;9;10;15;18]); (24,0,[2;3;4;7;9;10;15;18]); (25,0,[2;3;4;7;9;10;15;18]); (26,0,[2;3;4;7;9;10;15;18]); (27,0,[2;3;4;7;9;10;15;18]); (28,0,[2;3;4;7;9;10;15;18]); (38,0,[2;3;4;7;9;10;15;18]); (39,0,[2;3;4;7;9;10;15;18]); (40,0,[2;3;4;7;9;10;15;18]); (41,0,[2;3;4;7;9;10;15;18]); (46,0,[2;3;4;7;9;10;15;18]); (47,0,[2;3;4;7;9;10;15;18]); (48,0,[2;3;4;7;9;10;11;15;16;17;18]); (49,0,[2;3;4;7;9;10;11;15;16;17;18]); (52,0,[2;3;4;7;9;10;15;16;17;18]); (52,1,[2;3;4;7;9;10;11;15;16;17;18]); (53,0,[2;3;4;7;9;10;15;16;17;18]); (54,0,[2;3;4;7;9;10;15;16;17;18]); (55,0,[2;3;4;7;9;10;15;16;17;18]); (56,0,[2;3;4;7;9;10;15;16;17;18]); (59,0,[2;3;4;7;8;9;10;11;14;15;16;17;18])];
  (* 80 *) [(48,1,[2;3;4;7;9;10;11;15;16;17;18]); (49,1,[2;3;4;7;9;10;11;15;16;17;18]); (50,0,[2;3;4;7;9;10;11;15;16;17;18]); (51,0,[2;3;4;7;9;10;11;15;16;17;18])];
  (* 81 *) [(43,2,[2;3;4;7;9;10;11;15;16;17;18])];
  (* 82 *) [(42,2,[2;3;4;7;9;10;11;15;16;17;18])];
  (* 83 *) [(53,1,[2;3;4;7;9;10;11;15;16;17;18]); (54,1,[2;3;4;7;9;10;11;15;16;17;18]); (55,1,[2;3;4;7;9;10;11;15;16;17;18]); (56,1,[2;3;4;7;9;10;11;15;16;17;18]); (59,0,[3])];
  (* 84 *) [(31,1,[2;3;4;7;9;10;11;15;18]); (32,1,[2;3;4;7;9;10;11;15;18]); (39,3,[2;3;4;7;9;10;15;18])];
  (* 85 *) [(55,3,[2;3;4;7;9;10;15;16;17;18])];
  (* 86 *) [(18,1,[2;3;4;9;10;15;18]); (19,0,[2;3;4;9;10;15;18]); (20,0,[2;3;4;9;10;15;18]); (21,0,[2;3;4;7;9;10;15;18]); (22,0,[2;3;4;7;9;10;15;18]); (23,0,[2;3;4;7;9;10;15;18]); (24,0,[2;3;4;7;9;10;15;18]); (25,0,[2;3;4;7;9;10;15;18]); (26,0,[2;3;4;7;9;10;15;18]); (27,0,[2;3;4;7;9;10;15;18]); (28,0,[2;3;4;7;9;10;15;18]); (38,0,[2;3;4;7;9;10;15;18]); (39,0,[2;3;4;7;9;10;15;18]); (40,0,[2;3;4;7;9;10;15;18]); (41,0,[2;3;4;7;9;10;15;18]); (46,0,[2;3;4;7;9;10;15;18]); (47,0,[2;3;4;7;9;10;15;18]); (48,0,[2;3;4;7;9;10;11;15;16;17;18]); (49,0,[2;3;4;7;9;10;11;15;16;17;18]); (52,0,[2;3;4;7;9;10;15;16;17;18]); (53,0,[2;3;4;7;9;10;15;16;17;18]); (53,3,[2;3;4;7;9;10;15;16;17;18]); (54,0,[2;3;4;7;9;10;15;16;17;18]); (55,0,[2;3;4;7;9;10;15;16;17;18]); (56,0,[2;3;4;7;9;10;15;16;17;18]); (59,0,[2;3;4;7;8;9;10;11;14;15;16;17;18])];
  (* 87 *) [(17,0,[2;3;4;9;10;15;18]); (18,0,[2;3;4;9;10;15;18]); (19,0,[2;3;4;9;10;15;18]); (20,0,[2;3;4;9;10;15;18]); (21,0,[2;3;4;7;9;10;15;18]); (22,0,[2;3;4;7;9;10;15;18]); (23,0,[2;3;4;7;9;10;15;18]); (24,0,[2;3;4;7;9;10;15;18]); (25,0,[2;3;4;7;9;10;15;18]); (26,0,[2;3;4;7;9;10;15;18]); (27,0,[2;3;4;7;9;10;15;18]); (28,0,[2;3;4;7;9;10;15;18]); (38,0,[2;3;4;7;9;10;15;18]); (39,0,[2;3;4;7;9;10;15;18]); (40,0,[2;3;4;7;9;10;15;18]); (41,0,[2;3;4;7;9;10;15;18]); (46,0,[2;3;4;7;9;10;15;18]); (47,0,[2;3;4;7;9;10;15;18]); (48,0,[2;3;4;7;9;10;11;15;16;17;18]); (49,0,[2;3;4;7;9;10;11;15;16;17;18]); (52,0,[2;3;4;7;9;10;15;16;17;18]); (53,0,[2;3;4;7;9;10;15;16;17;18]); (54,0,[2;3;4;7;9;10;15;16;17;18]); (54,3,[2;3;4;7;9;10;15;16;17;18]); (55,0,[2;3;4;7;9;10;15;16;17;18]); (56,0,[2;3;4;7;9;10;15;16;17;18]); (56,3,[2;3;4;7;9;10;15;16;17;18]); (59,0,[2;3;4;7;8;9;10;11;14;15;16;17;18])];
  (* 88 *) [(6,5,[1])];
  (* 89 *) [(7,5,[1])];
  (* 90 *) [(4,5,[1])];
  (* 91 *) [(8,5,[1]); (18,1,[2;3;4;9;10;15;18]); (19,0,[2;3;4;9;10;15;18]); (20,0,[2;3;4;9;10;15;18]); (21,0,[2;3;4;7;9;10;15;18]); (22,0,[2;3;4;7;9;10;15;18]); (23,0,[2;3;4;7;9;10;15;18]); (24,0,[2;3;4;7;9;10;15;18]); (25,0,[2;3;4;7;9;10;15;18]); (26,0,[2;3;4;7;9;10;15;18]); (27,0,[2;3;4;7;9;10;15;18]); (28,0,[2;3;4;7;9;10;15;18]); (38,0,[2;3;4;7;9;10;15;18]); (39,0,[2;3;4;7;9;10;15;18]); (40,0,[2;3;4;7;9;10;15;18]); (41,0,[2;3;4;7;9;10;15;18]); (46,0,[2;3;4;7;9;10;15;18]); (47,0,[2;3;4;7;9;10;15;18]); (48,0,[2;3;4;7;9;10;11;15;16;17;18]); (49,0,[2;3;4;7;9;10;11;15;16;17;18]); (52,0,[2;3;4;7;9;10;15;16;17;18]); (53,0,[2;3;4;7;9;10;15;16;17;18]); (54,0,[2;3;4;7;9;10;15;16;17;18]); (55,0,[2;3;4;7;9;10;15;16;17;18]); (56,0,[2;3;4;7;9;10;15;16;17;18]); (59,0,[2;3;4;7;8;9;10;11;14;15;16;17;18])];
  (* 92 *) [(15,5,[1])];
  (* 93 *) [(12,5,[1])];
  (* 94 *) [(16,5,[1]); (18,1,[2;3;4;9;10;15;18]); (19,0,[2;3;4;9;10;15;18]); (20,0,[2;3;4;9;10;15;18]); (21,0,[2;3;4;7;9;10;15;18]); (22,0,[2;3;4;7;9;10;15;18]); (23,0,[2;3;4;7;9;10;15;18]); (24,0,[2;3;4;7;9;10;15;18]); (25,0,[2;3;4;7;9;10;15;18]); (26,0,[2;3;4;7;9;10;15;18]); (27,0,[2;3;4;7;9;10;15;18]); (28,0,[2;3;4;7;9;10;15;18]); (38,0,[2;3;4;7;9;10;15;18]); (39,0,[2;3;4;7;9;10;15;18]); (40,0,[2;3;4;7;9;10;15;18]); (41,0,[2;3;4;7;9;10;15;18]); (46,0,[2;3;4;7;9;10;15;18]); (47,0,[2;3;4;7;9;10;15;18]); (48,0,[2;3;4;7;9;10;11;15;16;17;18]); (49,0,[2;3;4;7;9;10;11;15;16;17;18]); (52,0,[2;3;4;7;9;10;15;16;17;18]); (53,0,[2;3;4;7;9;10;15;16;17;18]); (54,0,[2;3;4;7;9;10;15;16;17;18]); (55,0,[2;3;4;7;9;10;15;16;17;18]); (56,0,[2;3;4;7;9;10;15;16;17;18]); (59,0,[2;3;4;7;8;9;10;11;14;15;16;17;18])];
  (* 95 *) [(14,5,[1])];
  (* 96 *) [(31,3,[2;3;4;7;9;10;11;15;18])];
  (* 97 *) [(32,3,[2;3;4;7;9;10;11;15;18]); (34,1,[12;13;18]); (35,1,[12;13;18]); (36,0,[12;13;18]); (37,0,[12;13;18]); (59,0,[8;12;13;18])];
  (* 98 *) [(37,2,[12;13;18]); (59,0,[12;13;18])];
  (* 99 *) [(30,3,[2;3;4;7;9;10;11;15;18])];
  (* 100 *) [(34,2,[12;13;18])];
  (* 101 *) [(35,2,[12;13;18]); (36,0,[12;13;18]); (37,0,[12;13;18]); (59,0,[8;12;13;18])];
  (* 102 *) [(51,3,[2;3;4;7;9;10;11;15;16;17;18]); (59,0,[2;3;4;7;9;10;11;15;16;17;18])];
  (* 103 *) [(45,3,[2;3;4;7;9;10;11;15;16;17;18])];
  (* 104 *) [(44,3,[2;3;4;7;9;10;11;15;16;17;18])];
  (* 105 *) [(18,1,[2;3;4;9;10;15;18]); (19,0,[2;3;4;9;10;15;18]); (20,0,[2;3;4;9;10;15;18]); (21,0,[2;3;4;7;9;10;15;18]); (22,0,[2;3;4;7;9;10;15;18]); (23,0,[2;3;4;7;9;10;15;18]); (24,0,[2;3;4;7;9;10;15;18]); (25,0,[2;3;4;7;9;10;15;18]); (26,0,[2;3;4;7;9;10;15;18]); (27,0,[2;3;4;7;9;10;15;18]); (28,0,[2;3;4;7;9;10;15;18]); (38,0,[2;3;4;7;9;10;15;18]); (39,0,[2;3;4;7;9;10;15;18]); (40,0,[2;3;4;7;9;10;15;18]); (41,0,[2;3;4;7;9;10;15;18]); (46,0,[2;3;4;7;9;10;15;18]); (47,0,[2;3;4;7;9;10;15;18]); (48,0,[2;3;4;7;9;10;11;15;16;17;18]); (49,0,[2;3;4;7;9;10;11;15;16;17;18]); (52,0,[2;3;4;7;9;10;15;16;17;18]); (52,2,[2;3;4;7;9;10;11;15;16;17;18]); (53,0,[2;3;4;7;9;10;15;16;17;18]); (54,0,[2;3;4;7;9;10;15;16;17;18]); (55,0,[2;3;4;7;9;10;15;16;17;18]); (56,0,[2;3;4;7;9;10;15;16;17;18]); (59,0,[2;3;4;7;8;9;10;11;14;15;16;17;18])];
  (* 106 *) [(17,0,[2;3;4;9;10;15;18]); (18,0,[2;3;4;9;10;15;18]); (19,0,[2;3;4;9;10;15;18]); (20,0,[2;3;4;9;10;15;18]); (21,0,[2;3;4;7;9;10;15;18]); (22,0,[2;3;4;7;9;10;15;18]); (23,0,[2;3;4;7;9;10;15;18]); (24,0,[2;3;4;7;9;10;15;18]); (25,0,[2;3;4;7;9;10;15;18]); (26,0,[2;3;4;7;9;10;15;18]); (27,0,[2;3;4;7;9;10;15;18]); (28,0,[2;3;4;7;9;10;15;18]); (38,0,[2;3;4;7;9;10;15;18]); (39,0,[2;3;4;7;9;10;15;18]); (40,0,[2;3;4;7;9;10;15;18]); (41,0,[2;3;4;7;9;10;15;18]); (46,0,[2;3;4;7;9;10;15;18]); (47,0,[2;3;4;7;9;10;15;18]); (48,0,[2;3;4;7;9;10;11;15;16;17;18]); (49,0,[2;3;4;7;9;10;11;15;16;17;18]); (52,0,[2;3;4;7;9;10;15;16;17;18]); (53,0,[2;3;4;7;9;10;15;16;17;18]); (53,2,[2;3;4;7;9;10;11;15;16;17;18]); (54,0,[2;3;4;7;9;10;15;16;17;18]); (55,0,[2;3;4;7;9;10;15;16;17;18]); (55,2,[2;3;4;7;9;10;11;15;16;17;18]); (56,0,[2;3;4;7;9;10;15;16;17;18]); (59,0,[2;3;4;7;8;9;10;11;14;15;16;17;18])];
  (* 107 *) [(54,2,[2;3;4;7;9;10;11;15;16;17;18]); (56,2,[2;3;4;7;9;10;11;15;16;17;18])];
  (* 108 *) [(53,4,[2;3;4;7;9;10;15;16;17;18])];
  (* 109 *) [(56,4,[2;3;4;7;9;10;15;16;17;18])];
  (* 110 *) [(18,1,[2;3;4;9;10;15;18]); (19,0,[2;3;4;9;10;15;18]); (20,0,[2;3;4;9;10;15;18]); (21,0,[2;3;4;7;9;10;15;18]); (22,0,[2;3;4;7;9;10;15;18]); (23,0,[2;3;4;7;9;10;15;18]); (24,0,[2;3;4;7;9;10;15;18]); (25,0,[2;3;4;7;9;10;15;18]); (26,0,[2;3;4;7;9;10;15;18]); (27,0,[2;3;4;7;9;10;15;18]); (28,0,[2;3;4;7;9;10;15;18]); (38,0,[2;3;4;7;9;10;15;18]); (39,0,[2;3;4;7;9;10;15;18]); (40,0,[2;3;4;7;9;10;15;18]); (41,0,[2;3;4;7;9;10;15;18]); (46,0,[2;3;4;7;9;10;15;18]); (47,0,[2;3;4;7;9;10;15;18]); (48,0,[2;3;4;7;9;10;11;15;16;17;18]); (49,0,[2;3;4;7;9;10;11;15;16;17;18]); (52,0,[2;3;4;7;9;10;15;16;17;18]); (53,0,[2;3;4;7;9;10;15;16;17;18]); (54,0,[2;3;4;7;9;10;15;16;17;18]); (54,4,[2;3;4;7;9;10;15;16;17;18]); (55,0,[2;3;4;7;9;10;15;16;17;18]); (56,0,[2;3;4;7;9;10;15;16;17;18]); (59,0,[2;3;4;7;8;9;10;11;14;15;16;17;18])];
  (* 111 *) [(8,6,[1])];
  (* 112 *) [(16,6,[1])];
  (* 113 *) [(32,4,[2;3;4;7;9;10;11;15;18])];
  (* 114 *) [(37,3,[12;13;18])];
  (* 115 *) [(59,1,[12;13;18])];
  (* 116 *) [(35,3,[12;13;18])];
  (* 117 *) [(51,4,[2;3;4;7;9;10;11;15;16;17;18])];
  (* 118 *) [(59,1,[2;3;4;7;9;10;11;15;16;17;18])];
  (* 119 *) [(52,3,[2;3;4;7;9;10;11;15;16;17;18])];
  (* 120 *) [(55,3,[2;3;4;7;9;10;11;15;16;17;18])];
  (* 121 *) [(18,1,[2;3;4;9;10;15;18]); (19,0,[2;3;4;9;10;15;18]); (20,0,[2;3;4;9;10;15;18]); (21,0,[2;3;4;7;9;10;15;18]); (22,0,[2;3;4;7;9;10;15;18]); (23,0,[2;3;4;7;9;10;15;18]); (24,0,[2;3;4;7;9;10;15;18]); (25,0,[2;3;4;7;9;10;15;18]); (26,0,[2;3;4;7;9;10;15;18]); (27,0,[2;3;4;7;9;10;15;18]); (28,0,[2;3;4;7;9;10;15;18]); (38,0,[2;3;4;7;9;10;15;18]); (39,0,[2;3;4;7;9;10;15;18]); (40,0,[2;3;4;7;9;10;15;18]); (41,0,[2;3;4;7;9;10;15;18]); (46,0,[2;3;4;7;9;10;15;18]); (47,0,[2;3;4;7;9;10;15;18]); (48,0,[2;3;4;7;9;10;11;15;16;17;18]); (49,0,[2;3;4;7;9;10;11;15;16;17;18]); (52,0,[2;3;4;7;9;10;15;16;17;18]); (53,0,[2;3;4;7;9;10;15;16;17;18]); (53,3,[2;3;4;7;9;10;11;15;16;17;18]); (54,0,[2;3;4;7;9;10;15;16;17;18]); (55,0,[2;3;4;7;9;10;15;16;17;18]); (56,0,[2;3;4;7;9;10;15;16;17;18]); (59,0,[2;3;4;7;8;9;10;11;14;15;16;17;18])];
  (* 122 *) [(17,0,[2;3;4;9;10;15;18]); (18,0,[2;3;4;9;10;15;18]); (19,0,[2;3;4;9;10;15;18]); (20,0,[2;3;4;9;10;15;18]); (21,0,[2;3;4;7;9;10;15;18]); (22,0,[2;3;4;7;9;10;15;18]); (23,0,[2;3;4;7;9;10;15;18]); (24,0,[2;3;4;7;9;10;15;18]); (25,0,[2;3;4;7;9;10;15;18]); (26,0,[2;3;4;7;9;10;15;18]); (27,0,[2;3;4;7;9;10;15;18]); (28,0,[2;3;4;7;9;10;15;18]); (38,0,[2;3;4;7;9;10;15;18]); (39,0,[2;3;4;7;9;10;15;18]); (40,0,[2;3;4;7;9;10;15;18]); (41,0,[2;3;4;7;9;10;15;18]); (46,0,[2;3;4;7;9;10;15;18]); (47,0,[2;3;4;7;9;10;15;18]); (48,0,[2;3;4;7;9;10;11;15;16;17;18]); (49,0,[2;3;4;7;9;10;11;15;16;17;18]); (52,0,[2;3;4;7;9;10;15;16;17;18]); (53,0,[2;3;4;7;9;10;15;16;17;18]); (54,0,[2;3;4;7;9;10;15;16;17;18]); (54,3,[2;3;4;7;9;10;11;15;16;17;18]); (55,0,[2;3;4;7;9;10;15;16;17;18]); (56,0,[2;3;4;7;9;10;15;16;17;18]); (56,3,[2;3;4;7;9;10;11;15;16;17;18]); (59,0,[2;3;4;7;8;9;10;11;14;15;16;17;18])];
  (* 123 *) [(54,5,[2;3;4;7;9;10;15;16;17;18])];
  (* 124 *) [(53,4,[2;3;4;7;9;10;11;15;16;17;18])];
  (* 125 *) [(56,4,[2;3;4;7;9;10;11;15;16;17;18])];
  (* 126 *) [(18,1,[2;3;4;9;10;15;18]); (19,0,[2;3;4;9;10;15;18]); (20,0,[2;3;4;9;10;15;18]); (21,0,[2;3;4;7;9;10;15;18]); (22,0,[2;3;4;7;9;10;15;18]); (23,0,[2;3;4;7;9;10;15;18]); (24,0,[2;3;4;7;9;10;15;18]); (25,0,[2;3;4;7;9;10;15;18]); (26,0,[2;3;4;7;9;10;15;18]); (27,0,[2;3;4;7;9;10;15;18]); (28,0,[2;3;4;7;9;10;15;18]); (38,0,[2;3;4;7;9;10;15;18]); (39,0,[2;3;4;7;9;10;15;18]); (40,0,[2;3;4;7;9;10;15;18]); (41,0,[2;3;4;7;9;10;15;18]); (46,0,[2;3;4;7;9;10;15;18]); (47,0,[2;3;4;7;9;10;15;18]); (48,0,[2;3;4;7;9;10;11;15;16;17;18]); (49,0,[2;3;4;7;9;10;11;15;16;17;18]); (52,0,[2;3;4;7;9;10;15;16;17;18]); (53,0,[2;3;4;7;9;10;15;16;17;18]); (54,0,[2;3;4;7;9;10;15;16;17;18]); (54,4,[2;3;4;7;9;10;11;15;16;17;18]); (55,0,[2;3;4;7;9;10;15;16;17;18]); (56,0,[2;3;4;7;9;10;15;16;17;18]); (59,0,[2;3;4;7;8;9;10;11;14;15;16;17;18])];
  (* 127 *) [(54,5,[2;3;4;7;9;10;11;15;16;17;18])]
].
