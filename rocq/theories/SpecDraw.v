(** Specification for C75: the same text read with other random draws. *)
From Verif Require Import Base Maps LexSpec SpecGrammar SpecLabel.

(** The draws number [k] to [k + n - 1] are different, and no ID of the text is a name made from one of them. *)
Definition draws_clear (rnd : nat -> N) (k n : nat) (w : word) : Prop :=
  (forall i j, i < j < n -> rnd (k + i) <> rnd (k + j)) /\
  (forall i l, i < n -> (ID, l) ∈ w -> l <> anon (rnd (k + i))).
(** [nm] replaces the names made from the one draws by those made from the others, and no other names. *)
Definition swaps_draws (nm : gostr -> gostr) (rnd rnd' : nat -> N) (k k' n : nat) : Prop :=
  (forall x y, nm x = nm y -> x = y) /\
  (forall i, i < n -> nm (anon (rnd (k + i))) = anon (rnd' (k' + i))) /\
  (forall x, (forall i, i < n -> x <> anon (rnd (k + i)) /\ x <> anon (rnd' (k' + i))) -> nm x = x).
