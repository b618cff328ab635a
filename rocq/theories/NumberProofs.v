(** fmt.Sprintf("%d", n) is the number in decimal digits. *)
From Coq Require Import List Ascii NArith Bool Lia. Import ListNotations.
From Coq Require Import DecimalString Decimal DecimalFacts DecimalN.
From Verif Require Import Base SpecNumber AstFacts.
Local Open Scope N_scope.

Definition vacc (s : gostr) (a : N) : N := fold_left (fun n b => 10 * n + digit_value b) s a.
Lemma lit_cons c (s : String.string) : lit (String.String c s) = c :: lit s.
Proof. reflexivity. Qed.
Lemma vacc_cons c s a : vacc (c :: s) a = vacc s (10 * a + digit_value c).
Proof. reflexivity. Qed.
Lemma vacc_uint u : forall p, vacc (lit (NilEmpty.string_of_uint u)) (Npos p) = Npos (Pos.of_uint_acc u p).
Proof.
  induction u; intros p; [reflexivity|..]; cbn [NilEmpty.string_of_uint Pos.of_uint_acc]; rewrite lit_cons, vacc_cons, <- IHu; f_equal.
  all: match goal with |- 10 * N.pos _ + ?d = _ => let v := eval vm_compute in d in change d with v end; lia.
Qed.
Lemma value_uint u : value (lit (NilEmpty.string_of_uint u)) = N.of_uint u.
Proof.
  unfold N.of_uint. change (vacc (lit (NilEmpty.string_of_uint u)) 0 = Pos.of_uint u).
  induction u; [reflexivity|exact IHu|..]; cbn [NilEmpty.string_of_uint Pos.of_uint]; rewrite lit_cons, vacc_cons.
  all: match goal with |- vacc ?s ?d = _ => let v := eval vm_compute in d in change d with v end; apply vacc_uint.
Qed.
Lemma nzhead_front u v : nzhead u <> D0 v.
Proof. induction u; cbn; try discriminate. exact IHu. Qed.
Lemma dec_numeral n : numeral n (dec_of_N n).
Proof.
  unfold dec_of_N. assert (U : N.to_uint n = unorm (N.to_uint n)). { rewrite <- (DecimalN.Unsigned.of_to n) at 1. apply DecimalN.Unsigned.to_of. }
  split; [|split; [|split]].
  - rewrite U. unfold unorm. destruct (nzhead (N.to_uint n)); discriminate.
  - pose proof (string_of_uint_digits (N.to_uint n)) as D. rewrite forallb_forall in D. apply Forall_forall. intros b Hb. specialize (D b Hb). unfold digit_byte, in_range in D.
    apply andb_prop in D. destruct D as [D1 D2]. apply N.leb_le in D1, D2. split; assumption.
  - rewrite value_uint. apply DecimalN.Unsigned.of_to.
  - intros b t E Z. rewrite U in E. unfold unorm in E. pose proof (nzhead_front (N.to_uint n)) as F. destruct (nzhead (N.to_uint n)) as [|v|v|v|v|v|v|v|v|v|v]; cbn in E; injection E as <- <-; try (vm_compute in Z; discriminate).
    + reflexivity.
    + destruct (F v). reflexivity.
Qed.
