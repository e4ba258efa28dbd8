(** PropsLinear: what a parse costs for LR(1) grammars. *)
From Coq Require Import List Arith Bool Lia.
From Verif Require Import Base Vec2d Item Grammar BitMatrix DefaultGrammar Forest Recognizer Drive Parse Spec CfgSpec
  FromGrammar CrateSpec UserSpec ForestSpec ClientSpec SimpleBocage CompactGraph CompactBocage CostSpec LRSpec ExampleGrammars RightRec RightRecTop
  LinearProps NullRec NullRecTop.
From Verif Require ReferenceCrate LinearRef.
Import ListNotations.
Local Open Scope res_scope.

(** ** C56: linear for LR(1) grammars?

    README.md says: time O(n log n), and memory linear in the input length, for LR(1)
    grammars.  This is refuted for clients that set no hint, as [parse_tokenizing]: for the
    LR(1) grammar S ::= a S | a, the methods of the forest are called exactly
    2 n^2 + 6 n + 1 times when [n] tokens have been read, all of them accepted. *)
Theorem C56_calls_refuted : exists U start a g s, user_grammar U start /\ user_lr1 U start /\
  from_grammar ReferenceCrate.reference 20 U = Ret g /\ to_internal g a = Ret (Some s) /\
  forall F N (fo : forest_ops F N) ok f0 P, usable fo ok -> ok Idle f0 -> LEO P = false ->
  forall n fuel, 1 <= n -> n < fuel ->
  exists st, (st <- r_new g (f0, 0) ;; feed_all (counted fo) P g fuel (map plain ((g_sof_sym g, 0) :: repeat (s, 0) n)) st) = Ret (true, st) /\
    is_finished (counted fo) g st = Ret true /\ snd (r_forest st) = 2 * n ^ 2 + 6 * n + 1.
Proof.
  exists rr_user, 0, 1, rr_dg, 4. exact (conj rr_user_ok (conj rr_lr1 (conj rr_dg_eq (conj eq_refl P_rr_calls)))).
Qed.
Print Assumptions C56_calls_refuted.

(** So no constant [k] bounds the calls by k n (1 + log2 n). *)
Theorem C56_time_refuted : exists U start a g s, user_grammar U start /\ user_lr1 U start /\
  from_grammar ReferenceCrate.reference 20 U = Ret g /\ to_internal g a = Ret (Some s) /\
  forall F N (fo : forest_ops F N) ok f0 P, usable fo ok -> ok Idle f0 -> LEO P = false ->
  forall k, exists n fuel st,
    (st <- r_new g (f0, 0) ;; feed_all (counted fo) P g fuel (map plain ((g_sof_sym g, 0) :: repeat (s, 0) n)) st) = Ret (true, st) /\
    is_finished (counted fo) g st = Ret true /\ k * (n * S (Nat.log2 n)) < snd (r_forest st).
Proof.
  exists rr_user, 0, 1, rr_dg, 4. exact (conj rr_user_ok (conj rr_lr1 (conj rr_dg_eq (conj eq_refl P_rr_time)))).
Qed.
Print Assumptions C56_time_refuted.

(** And no constant bounds the nodes of the simple bocage, or the bytes of the compact
    one, by k n. *)
Theorem C56_memory_refuted : exists U start a g s, user_grammar U start /\ user_lr1 U start /\
  from_grammar ReferenceCrate.reference 20 U = Ret g /\ to_internal g a = Ret (Some s) /\
  forall P, LEO P = false -> forall k, exists n, 1 <= n /\ forall fuel, n < fuel ->
  (forall b0, bocage_new (g_forest_info g) = Ret b0 -> exists st,
    (st <- r_new g b0 ;; feed_all simple_forest P g fuel (map plain ((g_sof_sym g, 0) :: repeat (s, 0) n)) st) = Ret (true, st) /\
    is_finished simple_forest g st = Ret true /\ k * n < length (b_graph (r_forest st))) /\
  (forall b0, exists st,
    (st <- r_new g b0 ;; feed_all compact_forest P g fuel (map plain ((g_sof_sym g, 0) :: repeat (s, 0) n)) st) = Ret (true, st) /\
    is_finished compact_forest g st = Ret true /\ k * n < length (cb_graph (r_forest st))).
Proof.
  exists rr_user, 0, 1, rr_dg, 4. exact (conj rr_user_ok (conj rr_lr1 (conj rr_dg_eq (conj eq_refl P_rr_memory)))).
Qed.
Print Assumptions C56_memory_refuted.

(** The hypotheses are met: the forest that records nothing; and for this grammar the hints
    of [parse] avoid the loss: 54 calls instead of 261 for ten tokens. *)
Example C56_example :
  (st <- r_new rr_dg (tt, 0) ;; '(r, st) <- feed_all (counted null_forest) default_perf rr_dg 100 (map plain ((g_sof_sym rr_dg, 0) :: repeat (4, 0) 10)) st ;;
   Ret (r, snd (r_forest st))) = Ret (true, 261) /\
  (st <- r_new rr_dg (tt, 0) ;; '(r, st) <- parse (counted null_forest) default_perf rr_dg 100 st (repeat 1 10) ;;
   Ret (r, snd (r_forest st))) = Ret (POk true, 54) /\ LEO default_perf = false.
Proof. split; [|split]; vm_compute; reflexivity. Qed.

(** ** The part that holds

    [parse] (gearley-utils/src/parse.rs), which gives each token the hint of the one after it, makes
    at most k (n + 1) calls of the forest's methods and keeps at most k (n + 1) items, where
    [k] depends on the grammar only; and so it is whether the tokens are accepted or not.
    A call counts as one: the log of O(n log n) is in the heap, which is not counted here.

    What is missing for the claim of README.md: grammars with empty rules, and grammars with
    useless symbols; that the FOLLOW sets given by the cfg crate hold nothing but what
    follows is a hypothesis ([exact_contract]), shown for the reference crate below.  And by
    the refutations above, callers that set no hints have to be left out. *)
Theorem C56_linear_parse_partial : forall X U start,
  user_grammar U start -> exact_contract X U start -> user_lr1 U start -> no_empty_rules U -> reduced U start ->
  forall P, LEO P = false -> LOOKAHEAD P = true ->
  exists k g, (forall fuel, k <= fuel -> from_grammar X fuel U = Ret g) /\
  forall F N (fo : forest_ops F N) ok f0, usable fo ok -> ok Idle f0 ->
  forall fuel tokens r st, Forall (token U start) tokens ->
  (st <- r_new g (f0, 0) ;; parse (counted fo) P g fuel st tokens) = Ret (r, st) ->
  snd (r_forest st) <= k * S (length tokens) /\ v_item_count (r_medial st) <= k * S (length tokens).
Proof. exact P_linear_parse. Qed.
Print Assumptions C56_linear_parse_partial.

(** The same for the nodes of the simple bocage and for the bytes of the compact one. *)
Theorem C56_linear_memory_partial : forall X U start,
  user_grammar U start -> exact_contract X U start -> user_lr1 U start -> no_empty_rules U -> reduced U start ->
  forall P, LEO P = false -> LOOKAHEAD P = true ->
  exists k g, (forall fuel, k <= fuel -> from_grammar X fuel U = Ret g) /\
  forall fuel tokens r, Forall (token U start) tokens ->
  (forall b0 st, bocage_new (g_forest_info g) = Ret b0 -> (st <- r_new g b0 ;; parse simple_forest P g fuel st tokens) = Ret (r, st) ->
    length (b_graph (r_forest st)) <= length (b_graph b0) + k * S (length tokens)) /\
  (forall b0 st, (st <- r_new g b0 ;; parse compact_forest P g fuel st tokens) = Ret (r, st) ->
    length (cb_graph (r_forest st)) <= length (cb_graph b0) + k * S (length tokens)).
Proof. exact P_linear_bocage. Qed.
Print Assumptions C56_linear_memory_partial.

(** And for a forest of any other kind, of which a call makes the size grow by at most [a]. *)
Theorem C56_linear_size_partial : forall X U start,
  user_grammar U start -> exact_contract X U start -> user_lr1 U start -> no_empty_rules U -> reduced U start ->
  forall P, LEO P = false -> LOOKAHEAD P = true ->
  exists k g, (forall fuel, k <= fuel -> from_grammar X fuel U = Ret g) /\
  forall F N (fo : forest_ops F N) ok f0 size a, usable fo ok -> ok Idle f0 -> adds_at_most fo size a ->
  forall fuel tokens r st, Forall (token U start) tokens ->
  (st <- r_new g f0 ;; parse fo P g fuel st tokens) = Ret (r, st) ->
  size (r_forest st) <= size f0 + a * (k * S (length tokens)).
Proof. exact P_linear_size. Qed.
Print Assumptions C56_linear_size_partial.

(** Without hints, or with wrong ones, or in programs that drive the recognizer on their own,
    one token at a time, the calls are at most quadratic, and the items are still linear. *)
Theorem C56_square_partial : forall X U start,
  user_grammar U start -> exact_contract X U start -> user_lr1 U start -> no_empty_rules U -> reduced U start ->
  forall P, LEO P = false ->
  exists k g, (forall fuel, k <= fuel -> from_grammar X fuel U = Ret g) /\
  forall F N (fo : forest_ops F N) ok f0, usable fo ok -> ok Idle f0 ->
  forall fuel locs b st, (forall loc, In loc locs -> one_token U start g loc) ->
  (st <- r_new g (f0, 0) ;; feed_all (counted fo) P g fuel locs st) = Ret (b, st) ->
  snd (r_forest st) <= k * length locs ^ 2 /\ v_item_count (r_medial st) <= k * S (length locs).
Proof. exact P_square_run. Qed.
Print Assumptions C56_square_partial.

(** The reference crate keeps the contract, so that nothing is left to assume there. *)
Theorem C56_reference_partial : forall U start, user_grammar U start -> no_empty_rules U -> reduced U start ->
  exact_contract ReferenceCrate.reference U start.
Proof. exact LinearRef.reference_exact. Qed.
Print Assumptions C56_reference_partial.

(** The hypotheses are met by S ::= a S | a with the reference crate, the very grammar of the
    refutations above. *)
Example C56_linear_example :
  user_grammar rr_user 0 /\ exact_contract ReferenceCrate.reference rr_user 0 /\ user_lr1 rr_user 0 /\ no_empty_rules rr_user /\
  reduced rr_user 0 /\ token rr_user 0 1 /\ LEO default_perf = false /\ LOOKAHEAD default_perf = true /\ usable null_forest (fun _ _ => True).
Proof.
  assert (Hne : no_empty_rules rr_user) by (intros r [<-|[<-|[]]]; discriminate).
  assert (Hred : reduced rr_user 0) by exact rr_reduced.
  exact (conj rr_user_ok (conj (LinearRef.reference_exact _ _ rr_user_ok Hne Hred) (conj rr_lr1 (conj Hne (conj Hred
    (conj rr_token (conj eq_refl (conj eq_refl Sim.null_usable)))))))).
Qed.

(** ** Empty rules

    That there are no empty rules cannot be left out.  For the LR(1) grammar
    A ::= y A N | z B N, B ::= B t | t, N ::= (nothing), of which every symbol is useful,
    [parse], with its hints, calls the methods of the forest exactly 7 n^2 + 24 n + 17 times for the
    2 n + 2 tokens y ... y z t ... t, all of them accepted: with every [t], all [n] rules
    A ::= y A N are completed, for the recognizer does not check the hint where N is left
    out. *)
Theorem C56_hints_calls_refuted : exists U start y z t g, user_grammar U start /\ user_lr1 U start /\ reduced U start /\
  exact_contract ReferenceCrate.reference U start /\ from_grammar ReferenceCrate.reference 20 U = Ret g /\
  forall F N (fo : forest_ops F N) ok f0 P, usable fo ok -> ok Idle f0 -> LEO P = false ->
  forall n fuel, 2 * n + 4 <= fuel ->
  exists st, (st <- r_new g (f0, 0) ;; parse (counted fo) P g fuel st (repeat y n ++ z :: repeat t (S n))) = Ret (POk true, st) /\
    snd (r_forest st) = 7 * n ^ 2 + 24 * n + 17.
Proof.
  exists nr_user, 0, 1, 2, 3, nr_dg. exact (conj nr_user_ok (conj nr_lr1 (conj nr_reduced (conj nr_exact (conj nr_dg_eq P_nr_calls))))).
Qed.
Print Assumptions C56_hints_calls_refuted.

(** So no constant bounds the calls by k n (1 + log2 n), nor the memory by k n. *)
Theorem C56_hints_time_refuted : exists U start g, user_grammar U start /\ user_lr1 U start /\ reduced U start /\
  exact_contract ReferenceCrate.reference U start /\ from_grammar ReferenceCrate.reference 20 U = Ret g /\
  forall F N (fo : forest_ops F N) ok f0 P, usable fo ok -> ok Idle f0 -> LEO P = false ->
  forall k, exists tokens fuel st,
    (st <- r_new g (f0, 0) ;; parse (counted fo) P g fuel st tokens) = Ret (POk true, st) /\
    k * (length tokens * S (Nat.log2 (length tokens))) < snd (r_forest st).
Proof.
  exists nr_user, 0, nr_dg. exact (conj nr_user_ok (conj nr_lr1 (conj nr_reduced (conj nr_exact (conj nr_dg_eq P_nr_time))))).
Qed.
Print Assumptions C56_hints_time_refuted.

Theorem C56_hints_memory_refuted : exists U start g, user_grammar U start /\ user_lr1 U start /\ reduced U start /\
  exact_contract ReferenceCrate.reference U start /\ from_grammar ReferenceCrate.reference 20 U = Ret g /\
  forall P, LEO P = false -> forall k, exists tokens, forall fuel, length tokens + 2 <= fuel ->
  (forall b0, bocage_new (g_forest_info g) = Ret b0 -> exists st,
    (st <- r_new g b0 ;; parse simple_forest P g fuel st tokens) = Ret (POk true, st) /\ k * length tokens < length (b_graph (r_forest st))) /\
  (forall b0, exists st,
    (st <- r_new g b0 ;; parse compact_forest P g fuel st tokens) = Ret (POk true, st) /\ k * length tokens < length (cb_graph (r_forest st))).
Proof.
  exists nr_user, 0, nr_dg. exact (conj nr_user_ok (conj nr_lr1 (conj nr_reduced (conj nr_exact (conj nr_dg_eq P_nr_memory))))).
Qed.
Print Assumptions C56_hints_memory_refuted.

(** The hypotheses are met; 957 calls for 22 tokens. *)
Example C56_hints_example :
  (st <- r_new nr_dg (tt, 0) ;; '(r, st) <- parse (counted null_forest) default_perf nr_dg 24 st (repeat 1 10 ++ 2 :: repeat 3 11) ;;
   Ret (r, snd (r_forest st))) = Ret (POk true, 957) /\ LEO default_perf = false /\ LOOKAHEAD default_perf = true /\
  usable null_forest (fun _ _ => True) /\ exists b, bocage_new (g_forest_info nr_dg) = Ret b.
Proof.
  split; [vm_compute; reflexivity|]. split; [reflexivity|]. split; [reflexivity|]. split; [exact Sim.null_usable|].
  eexists. vm_compute. reflexivity.
Qed.
