(** PropsShort: the bounds on cost with their constants, and what they give for short inputs. *)
From Coq Require Import List Arith Bool Lia Permutation NArith.
From Verif Require Import Base Vec2d Item Grammar DefaultGrammar Forest Recognizer Drive Spec Chart CfgSpec
  ForestSpec ClientSpec TreeSpec SimpleBocage EvalSpec ForestProg CompactGraph CompactBocage CompactSpec CostSpec CostTop ShortInput
  ExampleGrammars PropsRecog PropsTrees PropsCompact PropsCost.
Import ListNotations.
Local Open Scope res_scope.

(** ** C55 with constants

    [cubic_factor] and [square_factor] (CostSpec.v) are computed from the rules, the number
    of tokens at a location and a ranking of the symbols; every grammar that can be built
    has a ranking. *)
Theorem C55_constants : forall P c nsyms w d0 g0 g, built c nsyms w d0 g0 g -> LEO P = false ->
  forall rank, ranks_units (c_rules c) rank ->
  forall s F N (fo : forest_ops F N) f0 fuel locs b st,
  (forall loc, In loc locs -> length (l_toks loc) <= s /\ forall t v, In (t, v) (l_toks loc) -> t < c_num_syms c) ->
  (st <- r_new g (f0, 0) ;; feed_all (counted fo) P g fuel locs st) = Ret (b, st) ->
  snd (r_forest st) <= cubic_factor (c_rules c) rank s * length locs ^ 3 /\
  v_item_count (r_medial st) <= square_factor (c_rules c) rank s * S (length locs) ^ 2.
Proof. exact run_cost_at. Qed.
Print Assumptions C55_constants.

Theorem C55_ranked : forall c nsyms w d0 g0 g, built c nsyms w d0 g0 g -> exists rank, ranks_units (c_rules c) rank.
Proof. exact built_ranked. Qed.
Print Assumptions C55_ranked.

(** The trees of an input have at most [tree_factor] inner nodes for each of its tokens and
    the start marker. *)
Theorem C55_tree_linear : forall c nsyms w d0 g0 g rank, built c nsyms w d0 g0 g -> ranks_units (c_rules c) rank ->
  forall xs t, input_tree c w g0 xs t -> inner_nodes t <= tree_factor c rank * S (length xs).
Proof. exact input_tree_size. Qed.
Print Assumptions C55_tree_linear.

(** ** C19 and C16 for short inputs

    [C19_same_trees] asks that the graph the compact bocage has built fit in 2^32 bytes.
    Here the condition is on the length of the input. *)
Theorem C19_short_trees : forall P c nsyms w d0 g0 g rank, LEO P = false -> built c nsyms w d0 g0 g -> ranks_units (c_rules c) rank ->
  forall s fi fi' b0 cb0, 0 < s -> bocage_new fi = Ret b0 -> cbocage_new fi' = Ret cb0 ->
  forall h0 rest, in_range c nsyms h0 rest -> (forall l, In l rest -> length (l_toks l) <= s) -> input_fits c rest ->
  u32 (length (cb_graph cb0) + 9 * cubic_factor (c_rules c) rank s * S (length rest) ^ 3) ->
  exists n r r' l l',
    total n (fun fuel => st <- r_new g b0 ;; parse_forest simple_forest P g fuel (from_start w h0 rest) st) r /\
    total n (fun fuel => st <- r_new g cb0 ;; parse_forest compact_forest P g fuel (from_start w h0 rest) st) r' /\
    (fst r = None <-> fst r' = None) /\ finished_trees r l /\ cfinished_trees r' l' /\ Permutation l l'.
Proof. exact short_trees. Qed.
Print Assumptions C19_short_trees.

Theorem C16_short_value : forall P c nsyms w d0 g0 g rank, LEO P = false -> built c nsyms w d0 g0 g -> ranks_units (c_rules c) rank ->
  forall cb0, cbocage_new (g_forest_info g) = Ret cb0 ->
  forall E (ev : evaluator E) nv nulls,
  pushes ev nv -> nulls_ok (g_forest_info g) nv nulls -> nulling_acyclic (g_forest_info g) ->
  forall use xs, (forall s v, In (s, v) xs -> user_terminal c nsyms w s) -> sorted_rules c ->
  forall t0, (forall t, input_tree c w g0 xs t <-> t = t0) -> input_fits c (hinted use 1 xs) ->
  forall times, u32 (length (cb_graph cb0) + 9 * cubic_factor (c_rules c) rank 1 * S (length xs) ^ 3 + times * (9 * tree_factor c rank * S (length xs))) ->
  exists n h b,
    total n (fun fuel => st <- r_new g cb0 ;; parse_forest compact_forest P g fuel (hinted use 0 ((w_sof w, 0) :: xs)) st) (Some h, b) /\
    exists fuel0 b', forall fuel, fuel0 <= fuel -> c_evaluate_each ev fuel (repeat h times) b =
      Ret (repeat (match t0 with
                   | Node _ [_; t] => value ev (g_forest_info g) nulls t
                   | _ => []
                   end) times, b').
Proof. exact short_value. Qed.
Print Assumptions C16_short_value.

Theorem C19_short_same_value : forall P c nsyms w d0 g0 g rank, LEO P = false -> built c nsyms w d0 g0 g -> ranks_units (c_rules c) rank ->
  forall b0 cb0, bocage_new (g_forest_info g) = Ret b0 -> cbocage_new (g_forest_info g) = Ret cb0 ->
  forall E (ev : evaluator E) nv nulls,
  pushes ev nv -> nulls_ok (g_forest_info g) nv nulls -> nulling_acyclic (g_forest_info g) ->
  forall use xs, xs <> [] -> (forall s v, In (s, v) xs -> user_terminal c nsyms w s) -> sorted_rules c ->
  forall t0, (forall t, input_tree c w g0 xs t <-> t = t0) -> input_fits c (hinted use 1 xs) ->
  forall times, u32 (length (cb_graph cb0) + 9 * cubic_factor (c_rules c) rank 1 * S (length xs) ^ 3 + times * (9 * tree_factor c rank * S (length xs))) ->
  exists n h b h' b',
    total n (fun fuel => st <- r_new g b0 ;; parse_forest simple_forest P g fuel (hinted use 0 ((w_sof w, 0) :: xs)) st) (Some h, b) /\
    total n (fun fuel => st <- r_new g cb0 ;; parse_forest compact_forest P g fuel (hinted use 0 ((w_sof w, 0) :: xs)) st) (Some h', b') /\
    exists fuel0 vs b1 b1', forall fuel, fuel0 <= fuel ->
      evaluate_each ev fuel (repeat h times) b = Ret (vs, b1) /\ c_evaluate_each ev fuel (repeat h' times) b' = Ret (vs, b1').
Proof. exact short_same_value. Qed.
Print Assumptions C19_short_same_value.

(** a ranks 1 in E ::= E E | a, the other symbols 0 *)
Definition amb_rank (s : sym) : nat := if s =? 4 then 1 else 0.

(** E ::= E E | a: 229 calls for each triple of locations; 149 calls were made for sof and
    six a, 801 for twelve (C55_example).  The trees of the two bocages agree for every
    input of at most 120 locations with at most one token each.  The grammar of a^n b^n has
    the hypotheses of the other two for every such input of at most 100 tokens, evaluated
    a hundred thousand times. *)
Example C19_short_example :
  built amb 5 wrap 0 5 amb_dg /\ ranks_units (c_rules amb) amb_rank /\
  cubic_factor (c_rules amb) amb_rank 1 = 229 /\ square_factor (c_rules amb) amb_rank 1 = 20 /\ tree_factor amb amb_rank = 4 /\
  (forall n, n <= 120 -> u32 (length (cb_graph amb_cb0) + 9 * cubic_factor (c_rules amb) amb_rank 1 * S n ^ 3)) /\
  ranks_units (c_rules anbn) (fun _ => 0) /\ cubic_factor (c_rules anbn) (fun _ => 0) 1 = 401 /\
  forall n, n <= 100 -> u32 (length (cb_graph anbn_cb0) + 9 * cubic_factor (c_rules anbn) (fun _ => 0) 1 * S n ^ 3 +
                             N.to_nat 100000 * (9 * tree_factor anbn (fun _ => 0) * S n)).
Proof.
  assert (E : cubic_factor (c_rules amb) amb_rank 1 = 229) by reflexivity.
  assert (E2 : cubic_factor (c_rules anbn) (fun _ => 0) 1 = 401) by reflexivity.
  split; [exact (cf_grammar _ _ _ _ _ _ _ _ _ amb_configured)|].
  split. { intros r B [<-|[<-|[<-|[<-|[]]]]] X; try discriminate. injection X as <-. cbn. lia. }
  split; [exact E|]. split; [reflexivity|]. split; [reflexivity|].
  split.
  { intros n Hn. rewrite E. unfold u32. rewrite Nat2N.inj_add, Nat2N.inj_mul, Nat2N.inj_pow.
    assert (X : (N.of_nat (S n) ^ N.of_nat 3 <= 121 ^ 3)%N) by (apply N.pow_le_mono_l; lia).
    assert (G : (N.of_nat (length (cb_graph amb_cb0)) <= 100)%N) by (vm_compute; discriminate). change (121 ^ 3)%N with 1771561%N in X. change (N.of_nat (9 * 229)) with 2061%N. lia. }
  split. { intros r B [<-|[<-|[<-|[<-|[<-|[]]]]]] X; discriminate. }
  split; [exact E2|].
  intros n Hn. rewrite E2. change (tree_factor anbn (fun _ => 0)) with 2. unfold u32. rewrite !Nat2N.inj_add, !Nat2N.inj_mul, Nat2N.inj_pow, N2Nat.id.
  assert (X : (N.of_nat (S n) ^ N.of_nat 3 <= 101 ^ 3)%N) by (apply N.pow_le_mono_l; lia).
  assert (G : (N.of_nat (length (cb_graph anbn_cb0)) <= 100)%N) by (vm_compute; discriminate). change (101 ^ 3)%N with 1030301%N in X. lia.
Qed.
