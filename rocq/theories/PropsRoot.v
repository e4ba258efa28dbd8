(** PropsRoot: what evaluation shows of the rule that wraps the start symbol. *)
From Coq Require Import List Arith Bool Lia Permutation NArith.
From Verif Require Import Base Item Grammar DefaultGrammar Forest ForestSpec Recognizer Drive Spec CfgSpec ClientSpec SimpleBocage
  EvalSpec TreeSpec ForestProg CompactGraph CompactBocage CompactSpec CompactEval CompactForestSpec
  FromGrammar CrateSpec UserSpec UserTreeSpec ExampleGrammars Check PropsRecog PropsTrees PropsGroups PropsOrder PropsCompact PropLemmas3 CompactWhole RootTop.
From Verif Require ReferenceCrate ReferenceFacts ExampleCrate.
Import ListNotations.
Local Open Scope res_scope.

(** ** C58: the evaluator does not see the start-of-input marker *)

(** If symbols are in order ([ordered_grammar]) and the client offers different tokens, two
    evaluators that differ in [leaf] only, and not on any token offered, return the same
    values over the simple bocage.  Missing: grammars whose symbols are not in order. *)
Theorem C58_simple_partial : forall P c nsyms w d0 g0 g, LEO P = false -> built c nsyms w d0 g0 g ->
  forall E (nv : sym -> E) nulls, nulls_ok (g_forest_info g) nv nulls -> nulling_acyclic (g_forest_info g) ->
  forall ev1 ev2 : evaluator E, pushes ev1 nv -> pushes ev2 nv ->
  (forall id args, ev_product ev1 id args = ev_product ev2 id args) ->
  ordered_grammar c -> (exists d, wrapped_once c w g0 d) ->
  forall b0, bocage_new (g_forest_info g) = Ret b0 ->
  forall h0 rest, in_range c nsyms h0 rest -> rest <> [] -> distinct_tokens c rest ->
  (forall l s v, In l rest -> In (s, v) (l_toks l) -> ev_leaf ev1 s v = ev_leaf ev2 s v) ->
  exists n r, total n (fun fuel => st <- r_new g b0 ;; parse_forest simple_forest P g fuel (from_start w h0 rest) st) r /\
    forall h, fst r = Some h ->
    exists fuel0 vs b1 b2, forall fuel, fuel0 <= fuel ->
      evaluate ev1 fuel (snd r) h = Ret (vs, b1) /\ evaluate ev2 fuel (snd r) h = Ret (vs, b2).
Proof. exact @marker_simple. Qed.
Print Assumptions C58_simple_partial.

(** Over the compact bocage no order is needed. *)
Theorem C58_compact : forall P c nsyms w d0 g0 g, LEO P = false -> built c nsyms w d0 g0 g ->
  forall E (nv : sym -> E) nulls, nulls_ok (g_forest_info g) nv nulls -> nulling_acyclic (g_forest_info g) ->
  forall ev1 ev2 : evaluator E, pushes ev1 nv -> pushes ev2 nv ->
  (forall id args, ev_product ev1 id args = ev_product ev2 id args) ->
  forall cb0, cbocage_new (g_forest_info g) = Ret cb0 ->
  forall h0 rest, in_range c nsyms h0 rest -> rest <> [] -> input_fits c rest ->
  (forall l s v, In l rest -> In (s, v) (l_toks l) -> ev_leaf ev1 s v = ev_leaf ev2 s v) ->
  exists n r, total n (fun fuel => st <- r_new g cb0 ;; parse_forest compact_forest P g fuel (from_start w h0 rest) st) r /\
    forall h, fst r = Some h -> graph_fits (snd r) 0 ->
    exists l, cfinished_trees r l /\ (graph_fits (snd r) (9 * all_inner_nodes l) ->
      exists fuel0 vs b1 b2, forall fuel, fuel0 <= fuel ->
        c_evaluate ev1 fuel (snd r) h = Ret (vs, b1) /\ c_evaluate ev2 fuel (snd r) h = Ret (vs, b2)).
Proof. exact @marker_compact. Qed.
Print Assumptions C58_compact.

(** an evaluator that writes 99 in place of the marker's value *)
Definition marking (m : sym) : evaluator syntax :=
  mkEval (fun s v => if s =? m then XLeaf s 99 else ev_leaf syntax_eval s v) (ev_product syntax_eval) (ev_nulling syntax_eval) (ev_default syntax_eval).


(** what the two bocages return with an evaluator *)
Definition simple_values {E} (ev : evaluator E) (g : dgrammar) (locs : list location) : res (list E) :=
  b0 <- bocage_new (g_forest_info g) ;; st <- r_new g b0 ;;
  '(o, b) <- parse_forest simple_forest default_perf g 100 locs st ;;
  match o with None => Ret [] | Some h => '(vs, _) <- evaluate ev 100 b h ;; Ret vs end.
Definition compact_values {E} (ev : evaluator E) (g : dgrammar) (locs : list location) : res (list E) :=
  b0 <- cbocage_new (g_forest_info g) ;; st <- r_new g b0 ;;
  '(o, b) <- parse_forest compact_forest default_perf g 100 locs st ;;
  match o with None => Ret [] | Some h => '(vs, _) <- c_evaluate ev 100 b h ;; Ret vs end.

Lemma amb_in_order : ordered_grammar amb.
Proof. exact (proj1 (proj2 C11_example)). Qed.

Lemma amb_wrapped_once : wrapped_once amb wrap 5 3.
Proof.
  intros d. split.
  - intros (r & Hd & Hl & _). destruct d as [|[|[|[|d]]]]; cbn in Hd; try (injection Hd as <-; discriminate); [reflexivity|destruct d; discriminate].
  - intros ->. eexists. split; [reflexivity|]. split; reflexivity.
Qed.

Lemma amb_no_nulls : nulls_ok (g_forest_info amb_dg) XNull (fun s => [XNull s]) /\ nulling_acyclic (g_forest_info amb_dg).
Proof. split; [intros s; reflexivity|]. exists (fun _ => 0). intros ? ? ? []. Qed.

Lemma amb_three : in_range amb 5 None [tok 4 7; tok 4 8; tok 4 9] /\ distinct_tokens amb [tok 4 7; tok 4 8; tok 4 9] /\
  input_fits amb [tok 4 7; tok 4 8; tok 4 9].
Proof.
  split; [exact (proj1 (proj2 (proj2 C14_example)))|]. split; [|exact (proj1 (proj2 C19_trees_example))].
  intros l Hl. assert (E : exists v, l = tok 4 v) by (cbn in Hl; intuition eauto). destruct E as (v & ->).
  split; [repeat constructor; auto|]. intros s v' [X|[]]. injection X as <- _. apply is_terminal_spec. reflexivity.
Qed.

(** E ::= E E | a, on a a a: neither evaluation asks about the marker *)
Example C58_example :
  built amb 5 wrap 0 5 amb_dg /\ ordered_grammar amb /\ wrapped_once amb wrap 5 3 /\
  nulls_ok (g_forest_info amb_dg) XNull (fun s => [XNull s]) /\ nulling_acyclic (g_forest_info amb_dg) /\
  pushes syntax_eval XNull /\ pushes (marking 2) XNull /\
  (forall s v, s <> 2 -> ev_leaf syntax_eval s v = ev_leaf (marking 2) s v) /\ ev_leaf syntax_eval 2 0 <> ev_leaf (marking 2) 2 0 /\
  in_range amb 5 None [tok 4 7; tok 4 8; tok 4 9] /\ distinct_tokens amb [tok 4 7; tok 4 8; tok 4 9] /\
  input_fits amb [tok 4 7; tok 4 8; tok 4 9] /\
  let x s := XRule 1 [XLeaf 4 s] in
  simple_values (marking 2) amb_dg (from_start wrap None [tok 4 7; tok 4 8; tok 4 9]) =
    Ret [XRule 0 [x 7; XRule 0 [x 8; x 9]]; XRule 0 [XRule 0 [x 7; x 8]; x 9]] /\
  compact_values (marking 2) amb_dg (from_start wrap None [tok 4 7; tok 4 8; tok 4 9]) =
    Ret [XRule 0 [XRule 0 [x 7; x 8]; x 9]; XRule 0 [x 7; XRule 0 [x 8; x 9]]].
Proof.
  split; [exact (built_of _ _ _ _ _ _ _ _ _ _ _ amb_configured)|]. split; [exact amb_in_order|]. split; [exact amb_wrapped_once|].
  split; [apply amb_no_nulls|]. split; [apply amb_no_nulls|].
  split; [intros s rs; exists []; reflexivity|]. split; [intros s rs; exists []; reflexivity|].
  split; [intros s v H; cbn; destruct (Nat.eqb_spec s 2); [contradiction|reflexivity]|]. split; [discriminate|].
  split; [apply amb_three|]. split; [apply amb_three|]. split; [apply amb_three|].
  split; vm_compute; reflexivity.
Qed.

(** Where symbols are not in order, the simple bocage shows the marker, once for each time
    the start symbol was completed.  The compact one keeps only one of the two readings. *)
Theorem C58_refuted : exists c nsyms w d0 g0 g xs ev1 ev2 vs1 vs2 vs t1 t2,
  built c nsyms w d0 g0 g /\ sorted_rules c /\ (forall s v, In (s, v) xs -> user_terminal c nsyms w s) /\
  (forall id args, ev_product ev1 id args = ev_product ev2 id args) /\
  (forall s rs, ev_nulling ev1 s rs = ev_nulling ev2 s rs) /\
  (forall s v, s <> w_sof w -> ev_leaf ev1 s v = ev_leaf ev2 s v) /\
  simple_values ev1 g (hinted (fun _ => true) 0 ((w_sof w, 0) :: xs)) = Ret vs1 /\
  simple_values ev2 g (hinted (fun _ => true) 0 ((w_sof w, 0) :: xs)) = Ret vs2 /\ vs1 <> vs2 /\
  In (XLeaf (w_sof w) 0) vs1 /\
  input_tree c w g0 xs t1 /\ input_tree c w g0 xs t2 /\ t1 <> t2 /\
  compact_values ev1 g (hinted (fun _ => true) 0 ((w_sof w, 0) :: xs)) = Ret vs /\ length vs = 1.
Proof.
  exists updown, 6, updown_wrap, 0, 6, updown_dg, [(5, 7)], syntax_eval, (marking 2). do 3 eexists.
  exists (Node 4 [Leaf 2 0; Node 2 [Node 1 [Leaf 5 7]]]), (Node 4 [Leaf 2 0; Node 3 [Leaf 5 7]]).
  split; [exact (proj1 C15_unordered_example)|]. split; [exact (proj1 (proj2 C15_unordered_example))|].
  split; [intros s v [E|[]]; injection E as <- _; exact (proj1 (proj2 (proj2 (proj2 C15_unordered_example))))|].
  split; [reflexivity|]. split; [reflexivity|].
  split; [intros s v H; cbn; destruct (Nat.eqb_spec s 2); [contradiction|reflexivity]|].
  split; [vm_compute; reflexivity|]. split; [vm_compute; reflexivity|]. split; [discriminate|]. split; [now left|].
  split; [|split; [|split; [discriminate|split; [vm_compute; reflexivity|reflexivity]]]].
  - apply (it_inner updown updown_wrap 6 4 (rule 6 [2; 4] None) (Node 2 [Node 1 [Leaf 5 7]])); try reflexivity.
    apply (pt_node (c_rules updown) 2 (rule 4 [3] (Some 1))); [reflexivity|]. cbn. constructor; [|constructor].
    apply (pt_node (c_rules updown) 1 (rule 3 [5] (Some 0))); [reflexivity|]. cbn. constructor; [apply pt_leaf|constructor].
  - apply (it_inner updown updown_wrap 6 4 (rule 6 [2; 4] None) (Node 3 [Leaf 5 7])); try reflexivity.
    apply (pt_node (c_rules updown) 3 (rule 4 [5] (Some 2))); [reflexivity|]. cbn. constructor; [apply pt_leaf|constructor].
Qed.
Print Assumptions C58_refuted.

Definition early : pcfg := {|
  c_rules := [rule 1 [2] (Some 0); rule 1 [0] (Some 1); rule 0 [2] (Some 2)];
  c_num_syms := 3; c_roots := [1]; c_wrapped := [] |}.
Definition early_dg : dgrammar := Eval vm_compute in the PropsRecog.opt_dg (from_grammar ReferenceCrate.numbered 20 early).

Lemma early_user : user_grammar early 1.
Proof.
  split; [|cbn; lia|reflexivity|].
  - intros s (r & Hr & Hs). ExampleCrate.in_cases Hr; cbn in Hs; cbn; intuition lia.
  - intros r Hr. ExampleCrate.in_cases Hr; discriminate.
Qed.
Lemma early_acyclic : no_cycles early.
Proof.
  intros s (r & Hr & El & Hd). ExampleCrate.in_cases Hr; cbn [p_rhs p_lhs rule] in *.
  1,3: apply ExampleCrate.seq_terminal in Hd; [|apply ExampleCrate.terminal_by; reflexivity]; destruct Hd as (y & Ey & _); congruence.
  apply ExampleCrate.seq_cons in Hd. destruct Hd as (y & z & E & H & Hz). inversion Hz; subst. rewrite app_nil_r in E. subst y.
  inversion H as [|r x Hr Hx E1 E2]. subst x. ExampleCrate.in_cases Hr; cbn [p_rhs p_lhs rule] in *; try discriminate.
  apply ExampleCrate.seq_terminal in Hx; [|apply ExampleCrate.terminal_by; reflexivity]. destruct Hx as (y & Ey & _). discriminate.
Qed.
Lemma early_token : token early 1 2.
Proof.
  split; [cbn; lia|]. split; [apply ExampleCrate.terminal_by; reflexivity|]. right. exists (rule 1 [2] (Some 0)). split; [cbn; auto|].
  split; [|cbn; auto]. split; [exists [], []; constructor|]. intros s [<-|[]]. exists [2]. split; [|constructor].
  repeat constructor. apply ExampleCrate.terminal_by. reflexivity.
Qed.

(** This happens to users.  A crate that keeps the contract for every grammar, and sorts the
    symbols as gearley asks, numbers them so in S ::= a | A, A ::= a with A declared before S:
    the evaluator is shown the marker twice on a. *)
Theorem C58_user_refuted : exists X U start f g t1 t2,
  (forall U start, user_grammar U start -> crate_apart X U start) /\ user_grammar U start /\ no_cycles U /\ (forall r, In r (c_rules U) -> p_rhs r <> []) /\
  from_grammar X 20 U = Ret g /\ to_internal g 2 = Ret (Some (f 2)) /\ token U start 2 /\
  user_tree U start t1 /\ user_tree U start t2 /\ t1 <> t2 /\ uyield t1 = [(2, 7)] /\ uyield t2 = [(2, 7)] /\
  simple_values syntax_eval g (hinted (fun _ => true) 0 [(g_sof_sym g, 0); (f 2, 7)]) =
    Ret [XLeaf (g_sof_sym g) 0; XRule 1 [XRule 2 [XLeaf (f 2) 7]]; XLeaf (g_sof_sym g) 0; XRule 0 [XLeaf (f 2) 7]] /\
  compact_values syntax_eval g (hinted (fun _ => true) 0 [(g_sof_sym g, 0); (f 2, 7)]) = Ret [XRule 0 [XLeaf (f 2) 7]].
Proof.
  exists ReferenceCrate.numbered, early, 1, (fun _ => 3), early_dg, (UNode 1 [UNode 2 [ULeaf 2 7]]), (UNode 0 [ULeaf 2 7]).
  assert (L : user_tree early 2 (ULeaf 2 7)) by (apply ut_leaf, ExampleCrate.terminal_by; reflexivity).
  split; [exact ReferenceFacts.numbered_apart|]. split; [exact early_user|]. split; [exact early_acyclic|].
  split; [intros r Hr; ExampleCrate.in_cases Hr; discriminate|].
  split; [vm_compute; reflexivity|]. split; [reflexivity|]. split; [exact early_token|].
  split; [|split; [|split; [discriminate|split; [reflexivity|split; [reflexivity|split; vm_compute; reflexivity]]]]].
  - apply (ut_node early (rule 1 [0] (Some 1)) 1); [cbn; auto|reflexivity| |discriminate]. constructor; [|constructor].
    apply (ut_node early (rule 0 [2] (Some 2)) 2); [cbn; auto|reflexivity| |discriminate]. constructor; [exact L|constructor].
  - apply (ut_node early (rule 1 [2] (Some 0)) 0); [cbn; auto|reflexivity| |discriminate]. constructor; [exact L|constructor].
Qed.
Print Assumptions C58_user_refuted.

(** ** C17 and C19 for whole parses

    If symbols are in order and the readings of the input differ in the rule of the start
    symbol or in where it splits the input, evaluation returns the values of all readings,
    one after the other, over either bocage.  Missing: readings that differ further down. *)
Theorem C17_parse_partial : forall P c nsyms w d0 g0 g, LEO P = false -> built c nsyms w d0 g0 g ->
  forall E (nv : sym -> E) nulls, nulls_ok (g_forest_info g) nv nulls -> nulling_acyclic (g_forest_info g) ->
  forall ev : evaluator E, pushes ev nv -> ordered_grammar c -> (exists d, wrapped_once c w g0 d) ->
  forall b0 cb0, bocage_new (g_forest_info g) = Ret b0 -> cbocage_new (g_forest_info g) = Ret cb0 ->
  forall use xs, xs <> [] -> (forall s v, In (s, v) xs -> user_terminal c nsyms w s) ->
  (exists t, parse_tree (c_rules c) (w_inner w) t /\ yield t = xs) ->
  (forall t t', parse_tree (c_rules c) (w_inner w) t -> yield t = xs -> parse_tree (c_rules c) (w_inner w) t' -> yield t' = xs ->
     root_split t = root_split t' -> t = t') ->
  exists n h b us,
    total n (fun fuel => st <- r_new g b0 ;; parse_forest simple_forest P g fuel (hinted use 0 ((w_sof w, 0) :: xs)) st) (Some h, b) /\
    NoDup us /\ (forall t, In t us <-> parse_tree (c_rules c) (w_inner w) t /\ yield t = xs) /\
    (exists fuel0 b1, forall fuel, fuel0 <= fuel ->
       evaluate ev fuel b h = Ret (concat (map (value ev (g_forest_info g) nulls) us), b1)) /\
    (input_fits c (hinted use 1 xs) -> exists h' b' us', Permutation us us' /\
      total n (fun fuel => st <- r_new g cb0 ;; parse_forest compact_forest P g fuel (hinted use 0 ((w_sof w, 0) :: xs)) st) (Some h', b') /\
      (graph_fits b' (9 * (length us + list_sum (map inner_nodes us))) -> exists fuel0 b1, forall fuel, fuel0 <= fuel ->
         c_evaluate ev fuel b' h' = Ret (concat (map (value ev (g_forest_info g) nulls) us'), b1))).
Proof. exact @root_readings. Qed.
Print Assumptions C17_parse_partial.

(** a a a is read as a (a a) and as (a a) a; the values are in [C58_example] *)
Example C17_parse_example :
  (forall s v, In (s, v) [(4, 7); (4, 8); (4, 9)] -> user_terminal amb 5 wrap s) /\
  (exists t, parse_tree (c_rules amb) (w_inner wrap) t /\ yield t = [(4, 7); (4, 8); (4, 9)]) /\
  (forall t t', parse_tree (c_rules amb) (w_inner wrap) t -> yield t = [(4, 7); (4, 8); (4, 9)] ->
     parse_tree (c_rules amb) (w_inner wrap) t' -> yield t' = [(4, 7); (4, 8); (4, 9)] -> root_split t = root_split t' -> t = t').
Proof.
  assert (Hu : forall s v, In (s, v) [(4, 7); (4, 8); (4, 9)] -> user_terminal amb 5 wrap s).
  { intros s v H. assert (s = 4) as -> by (cbn in H; intuition congruence).
    split; [lia|]. split; [apply is_terminal_spec; reflexivity|split; discriminate]. }
  assert (HT : forall t, input_tree amb wrap 5 [(4, 7); (4, 8); (4, 9)] t <-> In [t] [[amb_right]; [amb_left]]).
  { eapply (trees_found amb 5 wrap 0 5 amb_dg amb_b0); [exact (built_of _ _ _ _ _ _ _ _ _ _ _ amb_configured)|reflexivity|exact Hu| |vm_compute; reflexivity|].
    - exact (proj1 amb_in_order).
    - cbn [b_graph]. follow. }
  split; [exact Hu|]. split.
  - assert (H : input_tree amb wrap 5 [(4, 7); (4, 8); (4, 9)] amb_left) by (apply HT; cbn; auto).
    inversion H; eauto.
  - assert (K : forall t, parse_tree (c_rules amb) (w_inner wrap) t -> yield t = [(4, 7); (4, 8); (4, 9)] ->
      Node 3 [Leaf 2 0; t] = amb_left \/ Node 3 [Leaf 2 0; t] = amb_right).
    { intros t Ht Hy. assert (H : input_tree amb wrap 5 [(4, 7); (4, 8); (4, 9)] (Node 3 [Leaf 2 0; t])).
      { rewrite <- Hy. apply (it_inner amb wrap 5 3 (rule 5 [2; 3] None) t); try reflexivity. exact Ht. }
      apply HT in H. cbn in H. destruct H as [H|[H|[]]]; apply (f_equal (hd (Leaf 0 0))) in H; cbn [hd] in H; auto. }
    intros t t' A B C D S. destruct (K t A B) as [E|E]; destruct (K t' C D) as [E'|E']; injection E as ->; injection E' as ->; try reflexivity; vm_compute in S; discriminate.
Qed.

(** An evaluator that does not care about the order of its arguments gets the same values
    from both bocages, in another order, if symbols are in order: whatever tokens, hints and
    rejected groups the client chose.  Missing: other evaluators ([C19_refuted]) and
    grammars ([C58_refuted]). *)
Theorem C19_parse_unordered_partial : forall P c nsyms w d0 g0 g, LEO P = false -> built c nsyms w d0 g0 g ->
  forall E (nv : sym -> E) nulls, nulls_ok (g_forest_info g) nv nulls -> nulling_acyclic (g_forest_info g) ->
  forall ev : evaluator E, pushes ev nv -> unordered ev -> ordered_grammar c -> (exists d, wrapped_once c w g0 d) ->
  forall b0 cb0, bocage_new (g_forest_info g) = Ret b0 -> cbocage_new (g_forest_info g) = Ret cb0 ->
  forall h0 rest, in_range c nsyms h0 rest -> rest <> [] -> distinct_tokens c rest -> input_fits c rest ->
  exists n r r' l,
    total n (fun fuel => st <- r_new g b0 ;; parse_forest simple_forest P g fuel (from_start w h0 rest) st) r /\
    total n (fun fuel => st <- r_new g cb0 ;; parse_forest compact_forest P g fuel (from_start w h0 rest) st) r' /\
    finished_trees r l /\ (fst r = None <-> fst r' = None) /\
    forall h h', fst r = Some h -> fst r' = Some h' -> graph_fits (snd r') (9 * all_inner_nodes l) ->
      exists fuel0 vs vs' b1 b2, Permutation vs vs' /\ forall fuel, fuel0 <= fuel ->
        evaluate ev fuel (snd r) h = Ret (vs, b1) /\ c_evaluate ev fuel (snd r') h' = Ret (vs', b2).
Proof. exact @both_values. Qed.
Print Assumptions C19_parse_unordered_partial.

(** counting leaves; the other hypotheses hold by [C58_example] *)
Example C19_parse_unordered_example :
  pushes count_eval (fun _ => 0) /\ unordered count_eval /\
  simple_values count_eval amb_dg (from_start wrap None [tok 4 7; tok 4 8; tok 4 9]) = Ret [3; 3] /\
  compact_values count_eval amb_dg (from_start wrap None [tok 4 7; tok 4 8; tok 4 9]) = Ret [3; 3].
Proof. split; [apply count_eval_fine|]. split; [apply count_eval_fine|]. split; vm_compute; reflexivity. Qed.
