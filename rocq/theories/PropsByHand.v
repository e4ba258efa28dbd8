(** PropsByHand: C60, completion by hand.  Proofs are in ByHand.v; calls and their answers
    are in Session.v. *)
From Coq Require Import List Arith Bool.
From Verif Require Import Base Vec2d Item Grammar BitMatrix DefaultGrammar Forest Recognizer CfgSpec ExampleGrammars Session PropsRecog.
From Verif Require ByHand.
Import ListNotations.
Local Open Scope res_scope.

(** C60.  In any state that is not exhausted, [complete_all_sums_entirely] followed by
    [advance_after_completion] is [end_earleme]: whatever is called afterwards gives the
    same answers and the same state, a panic included. *)
Theorem C60_in_two_steps : forall F N (fo : forest_ops F N) P g fuel (st : rstate F N) rest,
  is_exhausted st = Ret false ->
  run_calls fo P g fuel (CCompleteAll :: CAdvance :: rest) st =
  ('(l, st') <- run_calls fo P g fuel (CEnd :: rest) st ;; Ret (AUnit :: AUnit :: tl l, st')).
Proof. exact @ByHand.in_two_steps. Qed.
Print Assumptions C60_in_two_steps.

(** [end_earleme] answers true, with certain answers and a certain state after it, exactly
    if a client gets the same by asking [is_exhausted], accepting every group that
    [next_sum] offers until it offers none, clearing the hint and advancing. *)
Theorem C60_group_by_group : forall F N (fo : forest_ops F N) P g fuel (st : rstate F N) rest m st',
  run_calls fo P g fuel (CEnd :: rest) st = Ret (ABool true :: m, st') <->
  exists n l, n <= fuel /\ length l = n /\
    run_calls fo P g fuel (CExhausted :: repeat CAcceptSum n ++ CNextSum :: CClearHint :: CAdvance :: rest) st =
    Ret (ABool false :: l ++ AGroup None :: AUnit :: AUnit :: m, st').
Proof. exact @ByHand.group_by_group. Qed.
Print Assumptions C60_group_by_group.

Example C60_example : exists st, (st <- r_new amb_dg tt ;; '(_, st) <- run_calls null_forest default_perf amb_dg 50
    [CBegin; CScan 2 0; CEnd; CBegin; CScan 4 1; CEnd; CBegin; CScan 4 2] st ;; Ret st) = Ret st /\
  is_exhausted st = Ret false /\
  (exists m st', run_calls null_forest default_perf amb_dg 50 [CEnd; CExpected] st = Ret (ABool true :: m, st')) /\
  (exists o m st', run_calls null_forest default_perf amb_dg 50 [CNextSum; CAcceptSum; CAcceptSum; CNextSum] st = Ret (AGroup (Some o) :: m, st')).
Proof.
  eexists. split; [vm_compute; reflexivity|]. split; [vm_compute; reflexivity|].
  split; [do 2 eexists; vm_compute; reflexivity|do 3 eexists; vm_compute; reflexivity].
Qed.
