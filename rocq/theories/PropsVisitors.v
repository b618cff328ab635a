(** Property C24 for the visitors of analyse.go as they are run by the Walk methods of ast.go. *)
From Verif Require Import Base Parser Maps Graph AttrMap SpecGraph Analyse SpecAnalyse Walk WalkAnalyse PropsAnalyse.
From Verif Require Ast.

(** Walk with the visitors of analyse.go does not panic and does what Analyse.v says, on every implementation of
    Interface; hence the calls are those of C24_analyse. *)
Theorem C24_visitors : forall ord a, fair_order ord -> exists cs, graph_calls a cs /\
  forall S (step : S -> call -> S * option err) (s0 : S),
    let '(s', rs) := make_calls step cs s0 in exists r,
    analyse_walk S step ord a s0 = Some (s', r) /\ length rs = length cs /\
    (r = None <-> Forall (fun r => r = None) rs) /\
    (forall e, r = Some e -> e = lit "errors: [" ++ join (lit ",") (errors rs) ++ lit "]").
Proof.
  intros ord a F. destruct (C24_analyse ord a F) as (cs & H1 & H2). exists cs. split; [exact H1|].
  intros S step s0. specialize (H2 S step s0). rewrite analyse_walk_eq. destruct (make_calls step cs s0) as [s' rs].
  destruct (analyse S step ord a s0) as [s1 r]. cbn [fst snd] in H2. destruct H2 as (<- & H2). exists r. split; [reflexivity|exact H2].
Qed.
Print Assumptions C24_visitors.
Example C24_visitors_example : analyse_walk _ recorder ord_id ast1 [] = Some (analyse _ recorder ord_id ast1 []) /\
  option_map snd (analyse_walk _ recorder ord_id ast1 []) = Some (Some (lit "errors: [no,no,no,no,no,no]")).
Proof. split; vm_compute; reflexivity. Qed.
