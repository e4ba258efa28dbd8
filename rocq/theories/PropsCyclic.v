(** PropsCyclic: user grammars in which a symbol may derive itself.  Proofs are in
    CyclicRun.v, Cyclic.v, CyclicLive.v, Decide.v, CyclicInput.v, CyclicUser.v and
    CyclicEnds.v, the example grammars in ExampleCycle.v. *)
From Coq Require Import List Arith Bool Lia.
From Verif Require Import Base Grammar DefaultGrammar Forest Recognizer Drive Parse Spec CfgSpec ForestSpec ClientSpec
  FromGrammar CrateSpec UserSpec CrateFacts Check ExampleGrammars ExampleCrate ExampleLong ExampleCycle.
From Verif Require CrateProcessed ReferenceCrate ReferenceFacts CyclicUser CyclicEnds Sim.
Import ListNotations.
Local Open Scope res_scope.

(** C51, C52.  Cycles or not: the recognizer is built, and whatever the tokens and however
    long it runs, parsing has not ended yet or has answered, and answered "accepted" exactly
    for the sentences of the user's grammar.  It never panics.  Missing: that it ends, which
    is the subject of the theorems below. *)
Theorem C51_returns_right_partial : forall X U start, user_grammar U start -> crate_contract X U start -> null_prefixes_visible U start ->
  forall F N (fo : forest_ops F N) f0 P, (exists ok, usable fo ok /\ ok Idle f0) -> LEO P = false ->
  exists k g, (forall fuel, k <= fuel -> from_grammar X fuel U = Ret g) /\
    forall tokens, Forall (token U start) tokens ->
    forall fuel, (st <- r_new g f0 ;; parse fo P g fuel st tokens) = NoFuel \/
      exists r st', (st <- r_new g f0 ;; parse fo P g fuel st tokens) = Ret (r, st') /\
        (r = POk true <-> derives (c_rules U) start tokens).
Proof. exact CyclicUser.P_returns_right. Qed.
Print Assumptions C51_returns_right_partial.

(** S ::= S p S | A, A ::= B | a, B ::= A | b has a cycle; inputs that are no sentences are
    still answered: p alone is refused, and the empty input is not accepted. *)
Example C51_returns_right_example : user_grammar U7 0 /\ crate_contract ReferenceCrate.reference U7 0 /\ null_prefixes_visible U7 0 /\
  derives_by_rule (c_rules U7) 1 [1] /\ usable null_forest (fun _ _ => True) /\
  run_parse (from_grammar ReferenceCrate.reference 20 U7) [5] = Ret (PErrParse [5] 0) /\
  run_parse (from_grammar ReferenceCrate.reference 20 U7) [] = Ret (POk false).
Proof.
  split; [exact U7_user|]. split; [exact (ReferenceFacts.reference_keeps U7 0 U7_user)|].
  split; [exact (CrateProcessed.no_nulling_prefixes U7 0 U7_visible)|]. split; [exact U7_cycle|]. split; [exact Sim.null_usable|].
  split; vm_compute; reflexivity.
Qed.

(** C52.  Every cycle that takes part in a sentence keeps the parser busy forever: if A
    derives itself by a rule, and the sentence x y z has A in the place of y, which is not
    empty, then parsing x y z does not end, however long it runs. *)
Theorem C52_cycle_never_ends : forall X U start, user_grammar U start -> crate_contract X U start -> null_prefixes_visible U start ->
  forall F N (fo : forest_ops F N) f0 P, (exists ok, usable fo ok /\ ok Idle f0) -> LEO P = false ->
  exists k g, (forall fuel, k <= fuel -> from_grammar X fuel U = Ret g) /\
    forall A x y z, derives_by_rule (c_rules U) A [A] -> derives (c_rules U) start (x ++ A :: z) -> derives (c_rules U) A y -> y <> [] ->
    Forall (terminal (c_rules U)) (x ++ y ++ z) ->
    forall fuel, (st <- r_new g f0 ;; parse fo P g fuel st (x ++ y ++ z)) = NoFuel.
Proof. exact CyclicUser.P_cycle_never_ends. Qed.
Print Assumptions C52_cycle_never_ends.

(** The sentence a p a of the same grammar, with A for its first symbol. *)
Example C52_cycle_example : user_grammar U7 0 /\ crate_contract ReferenceCrate.reference U7 0 /\ null_prefixes_visible U7 0 /\
  derives_by_rule (c_rules U7) 1 [1] /\ derives (c_rules U7) 0 ([] ++ 1 :: [5; 3]) /\ derives (c_rules U7) 1 [3] /\ [3] <> [] /\
  Forall (terminal (c_rules U7)) ([] ++ [3] ++ [5; 3]).
Proof.
  split; [exact U7_user|]. split; [exact (ReferenceFacts.reference_keeps U7 0 U7_user)|].
  split; [exact (CrateProcessed.no_nulling_prefixes U7 0 U7_visible)|]. split; [exact U7_cycle|]. split; [exact U7_form|].
  split; [exact U7_A|]. split; [discriminate|]. repeat constructor; apply U7_terminal; auto.
Qed.

(** C51.  Other inputs are not affected: if no cycle takes part in reading the tokens, parsing
    them ends, from some fuel on with the same answer, the right one.  A cycle takes part if
    a symbol that derives itself stands, in some sentence, for one or more of the tokens
    right after the tokens before them.  Missing: the condition on prefixes, without which
    [from_grammar] may panic (C52). *)
Theorem C51_input_language_partial : forall X U start, user_grammar U start -> crate_contract X U start -> null_prefixes_visible U start ->
  forall F N (fo : forest_ops F N) f0 P, (exists ok, usable fo ok /\ ok Idle f0) -> LEO P = false ->
  exists k g, (forall fuel, k <= fuel -> from_grammar X fuel U = Ret g) /\
    forall tokens, Forall (token U start) tokens -> no_cycle_on U start tokens ->
    exists n r, total n (fun fuel => st <- r_new g f0 ;; '(r, _) <- parse fo P g fuel st tokens ;; Ret r) r /\
      (r = POk true <-> derives (c_rules U) start tokens).
Proof. exact CyclicEnds.P_input_language. Qed.
Print Assumptions C51_input_language_partial.

(** S ::= S p S | a | q N, N ::= N | b: the cycle of N takes part in the sentence q b, which
    never ends, but not in a p a, which is accepted. *)
Example C51_input_example : user_grammar U9 0 /\ crate_contract ReferenceCrate.reference U9 0 /\ null_prefixes_visible U9 0 /\
  Forall (token U9 0) [2; 4; 2] /\ no_cycle_on U9 0 [2; 4; 2] /\ derives (c_rules U9) 0 [2; 4; 2] /\ cycle_after U9 0 [5] [3] /\
  run_parse (from_grammar ReferenceCrate.reference 20 U9) [2; 4; 2] = Ret (POk true).
Proof.
  split; [exact U9_user|]. split; [exact (ReferenceFacts.reference_keeps U9 0 U9_user)|].
  split; [exact (CrateProcessed.no_nulling_prefixes U9 0 U9_visible)|].
  split; [apply Forall_forall; intros t Ht; apply U9_token; cbn in Ht; intuition|]. split; [exact U9_clean|].
  split; [exact U9_sentence|]. split; [exact U9_cycle|]. vm_compute. reflexivity.
Qed.

(** C51.  Cycles do no harm where the start symbol does not reach them, or among symbols
    that derive the empty string only: without other cycles parsing ends on all inputs.
    Missing: the condition on prefixes. *)
Theorem C51_visible_language_partial : forall X U start, user_grammar U start -> crate_contract X U start ->
  null_prefixes_visible U start -> no_visible_cycles U start ->
  forall F N (fo : forest_ops F N) f0 P, (exists ok, usable fo ok /\ ok Idle f0) -> LEO P = false ->
  exists k g, (forall fuel, k <= fuel -> from_grammar X fuel U = Ret g) /\
    forall tokens, Forall (token U start) tokens ->
    exists n r, total n (fun fuel => st <- r_new g f0 ;; '(r, _) <- parse fo P g fuel st tokens ;; Ret r) r /\
      (r = POk true <-> derives (c_rules U) start tokens).
Proof. exact CyclicEnds.P_visible_language. Qed.
Print Assumptions C51_visible_language_partial.

(** S ::= S p S | a, N ::= N | b: there is a cycle, but nothing reaches N. *)
Example C51_visible_example : user_grammar U8 0 /\ crate_contract ReferenceCrate.reference U8 0 /\ null_prefixes_visible U8 0 /\
  no_visible_cycles U8 0 /\ ~ no_cycles U8 /\ Forall (token U8 0) [2; 4; 2] /\ derives (c_rules U8) 0 [2; 4; 2] /\
  run_parse (from_grammar ReferenceCrate.reference 20 U8) [2; 4; 2] = Ret (POk true).
Proof.
  split; [exact U8_user|]. split; [exact (ReferenceFacts.reference_keeps U8 0 U8_user)|].
  split; [exact (CrateProcessed.no_nulling_prefixes U8 0 U8_visible)|]. split; [exact U8_acyclic|]. split; [exact U8_cyclic|].
  split; [apply Forall_forall; intros t Ht; apply U8_token; cbn in Ht; intuition|]. split; [exact U8_sentence|]. vm_compute. reflexivity.
Qed.

(** C52.  So parsing ends on all inputs exactly if there is no such cycle: no symbol that
    derives itself stands for one or more tokens of a sentence. *)
Theorem C52_ends_exactly : forall X U start, user_grammar U start -> crate_contract X U start -> null_prefixes_visible U start ->
  forall F N (fo : forest_ops F N) f0 P, (exists ok, usable fo ok /\ ok Idle f0) -> LEO P = false ->
  exists k g, (forall fuel, k <= fuel -> from_grammar X fuel U = Ret g) /\
    ((forall tokens, Forall (token U start) tokens -> exists fuel, (st <- r_new g f0 ;; parse fo P g fuel st tokens) <> NoFuel) <->
     no_sentence_cycles U start).
Proof. exact CyclicEnds.P_ends_exactly. Qed.
Print Assumptions C52_ends_exactly.

(** The same with the reference crate.  Nothing is assumed of a crate. *)
Theorem C52_reference_ends_exactly : forall U start, user_grammar U start -> null_prefixes_visible U start ->
  forall F N (fo : forest_ops F N) f0 P, (exists ok, usable fo ok /\ ok Idle f0) -> LEO P = false ->
  exists k g, (forall fuel, k <= fuel -> from_grammar ReferenceCrate.reference fuel U = Ret g) /\
    ((forall tokens, Forall (token U start) tokens -> exists fuel, (st <- r_new g f0 ;; parse fo P g fuel st tokens) <> NoFuel) <->
     no_sentence_cycles U start).
Proof. exact CyclicEnds.P_reference_ends_exactly. Qed.
Print Assumptions C52_reference_ends_exactly.

(** Both cases occur. *)
Example C52_ends_example :
  (user_grammar U9 0 /\ null_prefixes_visible U9 0 /\ ~ no_sentence_cycles U9 0) /\
  (user_grammar U8 0 /\ null_prefixes_visible U8 0 /\ no_sentence_cycles U8 0).
Proof.
  split; [split; [exact U9_user|]; split; [exact (CrateProcessed.no_nulling_prefixes U9 0 U9_visible)|]|].
  - intros H. apply (H [5] [3]); [|exact U9_cycle]. apply Forall_forall. intros t Ht. apply U9_terminal. cbn in Ht. intuition.
  - split; [exact U8_user|]. split; [exact (CrateProcessed.no_nulling_prefixes U8 0 U8_visible)|].
    intros x y T (A & z & HA & Hs & _ & Dy & Ny). apply (U8_acyclic A x z Hs); [|exact HA]. exists y.
    split; [exact Ny|]. split; [|exact Dy]. apply Forall_app in T. apply T.
Qed.
