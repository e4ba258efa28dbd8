(** PropsCost: what a parse costs. *)
From Coq Require Import List Arith Bool Lia.
From Verif Require Import Base Vec2d Item Grammar BitMatrix DefaultGrammar Forest Recognizer Drive Parse Spec CfgSpec
  ForestSpec ClientSpec TreeSpec SimpleBocage CompactGraph CompactBocage CostSpec CostTop ExampleGrammars PropsRecog PropsTrees PropsCompact.
Import ListNotations.
Local Open Scope res_scope.

(** ** C55: at most cubic

    For every grammar and every [s] there is a constant [k] such that, whatever client reads
    however many locations with at most [s] tokens each, with or without hints, and rejects
    whatever groups: when it has read [n] locations, the methods of its forest were called
    at most k n^3 times, and the recognizer holds at most k (n + 1)^2 items.

    [counted fo] (CostSpec.v) is the forest [fo] with a count of the calls. *)
Theorem C55_calls_cubic : forall P c nsyms w d0 g0 g, built c nsyms w d0 g0 g -> LEO P = false ->
  forall s, exists k, forall F N (fo : forest_ops F N) f0 fuel locs b st,
  (forall loc, In loc locs -> length (l_toks loc) <= s /\ forall t v, In (t, v) (l_toks loc) -> t < c_num_syms c) ->
  (st <- r_new g (f0, 0) ;; feed_all (counted fo) P g fuel locs st) = Ret (b, st) ->
  snd (r_forest st) <= k * length locs ^ 3 /\ v_item_count (r_medial st) <= k * S (length locs) ^ 2.
Proof. exact P_run_cost. Qed.
Print Assumptions C55_calls_cubic.

(** The same of [parse].  Whether [parse] succeeds or fails, it returns (C02), also over
    the counting forest. *)
Theorem C55_parse_cubic : forall P c nsyms w d0 g0 g, built c nsyms w d0 g0 g -> LEO P = false ->
  exists k, forall F N (fo : forest_ops F N) f0 fuel tokens syms r st,
  mapped g tokens syms -> (forall s, In s syms -> s < nsyms) ->
  (st <- r_new g (f0, 0) ;; parse (counted fo) P g fuel st tokens) = Ret (r, st) ->
  snd (r_forest st) <= k * S (length tokens) ^ 3 /\ v_item_count (r_medial st) <= k * S (length tokens) ^ 2.
Proof. exact P_parse_cost. Qed.
Print Assumptions C55_parse_cubic.

Theorem C55_counting_is_harmless : forall F N (fo : forest_ops F N) f0 P c nsyms w d0 g0 g,
  configured fo f0 P c nsyms w d0 g0 g -> configured (counted fo) (f0, 0) P c nsyms w d0 g0 g.
Proof. exact @P_counted_total. Qed.
Print Assumptions C55_counting_is_harmless.

(** A forest that grows by at most [a] with each call has grown by at most a k n^3 after
    [n] locations; [k] does not depend on the forest. *)
Theorem C55_forest_size : forall P c nsyms w d0 g0 g, built c nsyms w d0 g0 g -> LEO P = false ->
  forall s, exists k, forall F N (fo : forest_ops F N) size a, adds_at_most fo size a ->
  forall f0 fuel locs b st,
  (forall loc, In loc locs -> length (l_toks loc) <= s /\ forall t v, In (t, v) (l_toks loc) -> t < c_num_syms c) ->
  (st <- r_new g f0 ;; feed_all fo P g fuel locs st) = Ret (b, st) ->
  size (r_forest st) <= size f0 + a * (k * length locs ^ 3).
Proof. exact P_run_size. Qed.
Print Assumptions C55_forest_size.

(** The nodes of the simple bocage, and the bytes of the compact one. *)
Theorem C55_simple_size : forall P c nsyms w d0 g0 g, built c nsyms w d0 g0 g -> LEO P = false ->
  forall s, exists k, forall b0 fuel locs b st,
  (forall loc, In loc locs -> length (l_toks loc) <= s /\ forall t v, In (t, v) (l_toks loc) -> t < c_num_syms c) ->
  (st <- r_new g b0 ;; feed_all simple_forest P g fuel locs st) = Ret (b, st) ->
  length (b_graph (r_forest st)) <= length (b_graph b0) + k * length locs ^ 3.
Proof. exact P_simple_size. Qed.
Print Assumptions C55_simple_size.

Theorem C55_compact_size : forall P c nsyms w d0 g0 g, built c nsyms w d0 g0 g -> LEO P = false ->
  forall s, exists k, forall b0 fuel locs r,
  (forall loc, In loc locs -> length (l_toks loc) <= s /\ forall t v, In (t, v) (l_toks loc) -> t < c_num_syms c) ->
  (st <- r_new g b0 ;; parse_forest compact_forest P g fuel locs st) = Ret r ->
  length (cb_graph (snd r)) <= length (cb_graph b0) + k * length locs ^ 3.
Proof. exact P_compact_fits. Qed.
Print Assumptions C55_compact_size.

(** E ::= E E | a, on sof and a a a a a a: 149 calls and 28 items; with 12 a, 801 calls and 91 items. *)
Definition amb_cost (n : nat) : res (bool * nat * nat) :=
  st <- r_new amb_dg (tt, 0) ;;
  '(b, st) <- feed_all (counted null_forest) default_perf amb_dg 100 (read_start wrap :: map plain (repeat (4, 0) n)) st ;;
  Ret (b, snd (r_forest st), v_item_count (r_medial st)).
Example C55_example : built amb 5 wrap 0 5 amb_dg /\ configured (counted null_forest) (tt, 0) default_perf amb 5 wrap 0 5 amb_dg /\
  amb_cost 6 = Ret (true, 149, 28) /\ amb_cost 12 = Ret (true, 801, 91).
Proof.
  split; [exact (cf_grammar _ _ _ _ _ _ _ _ _ amb_configured)|]. split; [apply P_counted_total, amb_configured|].
  split; vm_compute; reflexivity.
Qed.

(** The two bocages of /repo meet the hypothesis of [C55_forest_size]. *)
Example C55_size_example :
  adds_at_most simple_forest (fun b => length (b_graph b)) 1 /\ adds_at_most compact_forest (fun b => length (cb_graph b)) 9 /\
  (st <- r_new amb_dg amb_b0 ;;
   '(_, st) <- feed_all simple_forest default_perf amb_dg 100 (read_start wrap :: map plain (repeat (4, 0) 6)) st ;;
   Ret (length (b_graph (r_forest st)))) = Ret 106.
Proof. split; [exact simple_adds|]. split; [exact compact_adds|]. vm_compute. reflexivity. Qed.
