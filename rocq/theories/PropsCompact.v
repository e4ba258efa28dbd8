(** PropsCompact: the compact bocage compared with the simple one. *)
From Coq Require Import List Arith Lia Permutation NArith.
From Verif Require Import Base Vec2d Item Grammar DefaultGrammar Forest ForestSpec Recognizer Drive Spec CfgSpec ClientSpec SimpleBocage SimpleProofs EvalSpec
  TreeSpec ForestProg Session CompactGraph CompactBocage CompactSpec CompactForestSpec CompactProofs CompactTop CompactMore CompactWhole ExampleGrammars Check PropLemmas3 PropLemmas4 PropsRecog PropsTrees.
Import ListNotations.
Local Open Scope res_scope.

(** ** C19: the compact bocage and the simple one

    A recognizer gives the same answers over both, panics included, for any sequence of
    calls; for any grammar, input, and forest information the bocages were made from. *)
Theorem C19_same_answers : forall fi fi' b0 cb0, bocage_new fi = Ret b0 -> cbocage_new fi' = Ret cb0 ->
  forall P g fuel cs, answers simple_forest P g fuel b0 cs = answers compact_forest P g fuel cb0 cs.
Proof. exact both_answers. Qed.
Print Assumptions C19_same_answers.

Definition new_cbocage (fi : forest_info) : cbocage := match cbocage_new fi with Ret b => b | _ => mkCBocage [] fi None 0 0 end.
Definition amb_cb0 : cbocage := new_cbocage (g_forest_info amb_dg).
Definition opt_cb0 : cbocage := new_cbocage (g_forest_info opt_dg).
Definition anbn_cb0 : cbocage := new_cbocage (g_forest_info anbn_dg).

Example C19_answers_example :
  bocage_new (g_forest_info amb_dg) = Ret amb_b0 /\ cbocage_new (g_forest_info amb_dg) = Ret amb_cb0 /\
  exists l, answers compact_forest default_perf amb_dg 50 amb_cb0 (tk 2 ++ tk 4 ++ tk 4 ++ tk 4 ++ [CFinished; CTrace; CBegin; CMedial]) = Ret l /\
    In (ABool true) l.
Proof. split; [reflexivity|]. split; [reflexivity|]. eexists. split; [vm_compute; reflexivity|]. cbn. tauto. Qed.

(** Whatever tokens, hints and rejected groups the client chose, the two parses take the
    same number of steps and either both have a finished node or none has.  The trees
    under the two nodes are the same, each as often, as long as the numbers involved fit
    in 32 bits. *)
Theorem C19_same_trees : forall P c nsyms w d0 g0 g, LEO P = false -> built c nsyms w d0 g0 g ->
  forall fi fi' b0 cb0, bocage_new fi = Ret b0 -> cbocage_new fi' = Ret cb0 ->
  forall h0 rest, in_range c nsyms h0 rest ->
  exists n r r' l,
    total n (fun fuel => st <- r_new g b0 ;; parse_forest simple_forest P g fuel (from_start w h0 rest) st) r /\
    total n (fun fuel => st <- r_new g cb0 ;; parse_forest compact_forest P g fuel (from_start w h0 rest) st) r' /\
    (fst r = None <-> fst r' = None) /\ finished_trees r l /\
    (input_fits c rest -> graph_fits (snd r') 0 -> exists l', cfinished_trees r' l' /\ Permutation l l').
Proof. exact both_trees. Qed.
Print Assumptions C19_same_trees.

Definition amb_crun (locs : list location) : res (option nat * cbocage) :=
  st <- r_new amb_dg amb_cb0 ;; parse_forest compact_forest default_perf amb_dg 100 locs st.
Lemma crepresents_conv : forall g h l l', crepresents g h l -> l = l' -> crepresents g h l'.
Proof. intros. now subst. Qed.
Ltac look := vm_compute; reflexivity.
Ltac cwalk := first
  [ eapply cr_leaf; look
  | eapply cr_rule; [look|cwalk|cwalk]
  | eapply cr_begin; [look|cwalk]
  | eapply cr_summand; [look|cwalk]
  | eapply cr_end; look
  | eapply cr_more; [look|cwalk|look|cwalk] ].
Ltac cfollow := eapply crepresents_conv; [cwalk|vm_compute; reflexivity].

(** E ::= E E | a, on a a a: two trees, in the other order *)
Example C19_trees_example :
  built amb 5 wrap 0 5 amb_dg /\ input_fits amb [tok 4 7; tok 4 8; tok 4 9] /\
  exists h b, amb_crun (from_start wrap None [tok 4 7; tok 4 8; tok 4 9]) = Ret (Some h, b) /\
     graph_fits b 0 /\ cfinished_trees (Some h, b) [[amb_left]; [amb_right]].
Proof.
  split; [exact (built_of _ _ _ _ _ _ _ _ _ _ _ amb_configured)|]. split.
  - split; [reflexivity|]. split; [reflexivity|]. intros l s v [<-|[<-|[<-|[]]]] [E|[]]; injection E as _ <-; reflexivity.
  - do 2 eexists. split; [vm_compute; reflexivity|]. split; [reflexivity|]. unfold cfinished_trees. cbn [fst snd cb_graph]. cfollow.
Qed.

(** An input that is not empty and has one parse tree evaluates to the same values over
    both, for any evaluator, any number of times, as long as the numbers involved fit in 32
    bits.  Every evaluation appends to the compact graph, at most nine bytes for each inner
    node of the tree.  Missing: ambiguous inputs, see [C19_unordered_values] and
    [C19_refuted] below, and the empty input. *)
Theorem C19_same_value_partial : forall P c nsyms w d0 g0 g, LEO P = false -> built c nsyms w d0 g0 g ->
  forall b0 cb0, bocage_new (g_forest_info g) = Ret b0 -> cbocage_new (g_forest_info g) = Ret cb0 ->
  forall E (ev : evaluator E) nv nulls,
  pushes ev nv -> nulls_ok (g_forest_info g) nv nulls -> nulling_acyclic (g_forest_info g) ->
  forall use xs, xs <> [] -> (forall s v, In (s, v) xs -> user_terminal c nsyms w s) -> sorted_rules c ->
  forall t0, (forall t, input_tree c w g0 xs t <-> t = t0) -> input_fits c (hinted use 1 xs) ->
  exists n h b h' b',
    total n (fun fuel => st <- r_new g b0 ;; parse_forest simple_forest P g fuel (hinted use 0 ((w_sof w, 0) :: xs)) st) (Some h, b) /\
    total n (fun fuel => st <- r_new g cb0 ;; parse_forest compact_forest P g fuel (hinted use 0 ((w_sof w, 0) :: xs)) st) (Some h', b') /\
    forall k, graph_fits b' (k * (9 * inner_nodes t0)) ->
      exists fuel0 vs b1 b1', forall fuel, fuel0 <= fuel ->
        evaluate_each ev fuel (repeat h k) b = Ret (vs, b1) /\ c_evaluate_each ev fuel (repeat h' k) b' = Ret (vs, b1').
Proof. exact @same_value. Qed.
Print Assumptions C19_same_value_partial.

(** The values themselves: that of the tree below the wrapper; none for the empty input. *)
Theorem C16_compact_value : forall P c nsyms w d0 g0 g, LEO P = false -> built c nsyms w d0 g0 g ->
  forall cb0, cbocage_new (g_forest_info g) = Ret cb0 ->
  forall E (ev : evaluator E) nv nulls,
  pushes ev nv -> nulls_ok (g_forest_info g) nv nulls -> nulling_acyclic (g_forest_info g) ->
  forall use xs, (forall s v, In (s, v) xs -> user_terminal c nsyms w s) -> sorted_rules c ->
  forall t0, (forall t, input_tree c w g0 xs t <-> t = t0) -> input_fits c (hinted use 1 xs) ->
  exists n h b,
    total n (fun fuel => st <- r_new g cb0 ;; parse_forest compact_forest P g fuel (hinted use 0 ((w_sof w, 0) :: xs)) st) (Some h, b) /\
    forall k, graph_fits b (k * (9 * inner_nodes t0)) ->
      exists fuel0 b', forall fuel, fuel0 <= fuel -> c_evaluate_each ev fuel (repeat h k) b =
        Ret (repeat (match t0 with
                     | Node _ [_; t] => value ev (g_forest_info g) nulls t
                     | _ => []
                     end) k, b').
Proof. exact @compact_value. Qed.
Print Assumptions C16_compact_value.

Definition c_evaluate_parse (g : dgrammar) (b0 : cbocage) (xs : list (sym * nat)) : res (list syntax) :=
  st <- r_new g b0 ;;
  '(o, b) <- parse_forest compact_forest default_perf g 100 (hinted (fun _ => true) 0 ((2, 0) :: xs)) st ;;
  match o with
  | None => Ret []
  | Some h => '(vs, _) <- c_evaluate syntax_eval 100 b h ;; Ret vs
  end.

(** The other hypotheses hold for these inputs by [C16_parse_example]. *)
Example C19_value_example :
  cbocage_new (g_forest_info anbn_dg) = Ret anbn_cb0 /\ cbocage_new (g_forest_info opt_dg) = Ret opt_cb0 /\
  input_fits anbn (hinted (fun _ => true) 1 [(4, 7); (4, 8); (5, 9); (5, 10)]) /\
  c_evaluate_parse anbn_dg anbn_cb0 [(4, 7); (4, 8); (5, 9); (5, 10)] =
    Ret [XRule 0 [XLeaf 4 7; XRule 1 [XLeaf 4 8; XLeaf 5 9]; XLeaf 5 10]] /\
  c_evaluate_parse opt_dg opt_cb0 [(4, 7)] = Ret [XRule 0 [XLeaf 4 7; XNull 3]].
Proof.
  split; [reflexivity|]. split; [reflexivity|]. split; [|split; vm_compute; reflexivity].
  split; [reflexivity|]. split; [reflexivity|]. intros l s v H. cbn in H.
  intuition (subst; cbn in *; intuition (try congruence)); match goal with X : (_, _) = (_, _) |- _ => injection X as _ <-; reflexivity end.
Qed.

(** Where the values differ: an ambiguous input, for the alternatives come in another
    order; and the empty input, for which only the simple bocage asks the evaluator about
    the nulled start symbol. *)
Theorem C19_refuted :
  (exists c nsyms w d0 g0 g b0 cb0 xs vs vs', built c nsyms w d0 g0 g /\
     bocage_new (g_forest_info g) = Ret b0 /\ cbocage_new (g_forest_info g) = Ret cb0 /\ xs <> [] /\
     evaluate_parse g b0 xs = Ret vs /\ c_evaluate_parse g cb0 xs = Ret vs' /\ vs <> vs') /\
  (exists c nsyms w d0 g0 g b0 cb0 v, built c nsyms w d0 g0 g /\
     bocage_new (g_forest_info g) = Ret b0 /\ cbocage_new (g_forest_info g) = Ret cb0 /\
     evaluate_parse g b0 [] = Ret [v] /\ c_evaluate_parse g cb0 [] = Ret []).
Proof.
  split.
  - exists amb, 5, wrap, 0, 5, amb_dg, amb_b0, amb_cb0, [(4, 7); (4, 8); (4, 9)]. do 2 eexists.
    split; [exact (built_of _ _ _ _ _ _ _ _ _ _ _ amb_configured)|]. split; [reflexivity|]. split; [reflexivity|]. split; [discriminate|].
    split; [vm_compute; reflexivity|]. split; [vm_compute; reflexivity|]. discriminate.
  - exists opt, 5, wrap, 0, 5, opt_dg, opt_b0, opt_cb0. eexists.
    split; [exact (built_of _ _ _ _ _ _ _ _ _ _ _ opt_configured)|]. split; [reflexivity|]. split; [reflexivity|].
    split; vm_compute; reflexivity.
Qed.
Print Assumptions C19_refuted.

(** For an evaluator that does not care in which order a rule's arguments come, the two
    bocages give the same values up to order, ambiguous or not, for a forest built by any
    calls, read from the node below the wrapper. *)
Theorem C19_unordered_values : forall E (ev : evaluator E) fi nv nulls,
  pushes ev nv -> nulls_ok fi nv nulls -> nulling_acyclic fi -> unordered ev ->
  forall b0 cb0 calls i r, bocage_new fi = Ret b0 -> cbocage_new fi = Ret cb0 ->
  calls_fine (length (fi_nulling_eliminated fi)) calls -> calls_small calls -> wraps fi calls i r ->
  exists hs b h hs' b' h',
    build simple_forest calls b0 = Ret (hs, b) /\ nth_error hs i = Some h /\
    build compact_forest calls cb0 = Ret (hs', b') /\ nth_error hs' i = Some h' /\
    (graph_fits b' (nth r (call_costs calls) 0) ->
     exists fuel0 vs b1 vs' b1', Permutation vs vs' /\
       forall fuel, fuel0 <= fuel -> evaluate ev fuel b h = Ret (vs, b1) /\ c_evaluate ev fuel b' h' = Ret (vs', b1')).
Proof. exact unordered_values. Qed.
Print Assumptions C19_unordered_values.

(** the inner node of [amb_calls] has two alternatives with two leaves each *)
Example C19_unordered_example :
  pushes count_eval (fun _ => 0) /\ unordered count_eval /\
  calls_fine (length (fi_nulling_eliminated ex_info)) amb_calls /\ calls_small amb_calls /\ wraps ex_info amb_calls 9 7 /\
  (exists cb0 hs b h b', cbocage_new ex_info = Ret cb0 /\ build compact_forest amb_calls cb0 = Ret (hs, b) /\
     nth_error hs 9 = Some h /\ graph_fits b (nth 7 (call_costs amb_calls) 0) /\ c_evaluate count_eval 100 b h = Ret ([5], b')).
Proof.
  split; [exact (proj1 count_eval_fine)|]. split; [exact (proj2 count_eval_fine)|].
  split; [exact amb_calls_fine|]. split; [apply amb_calls_small|]. split; [exists 8, 0, 8, 0, 0; repeat split|].
  do 5 eexists. split; [vm_compute; reflexivity|]. split; [vm_compute; reflexivity|]. split; [reflexivity|].
  split; [vm_compute; reflexivity|]. vm_compute. reflexivity.
Qed.

(** ** C17, C20 over the compact bocage

    Any number of roots of complete parses, possibly the same or sharing nodes, evaluated
    one after the other on a forest built by any calls, ambiguous or not.  Every evaluation
    gives the values of [c_call_values], as long as the graph, with what the evaluations
    append to it, has less than 2^32 bytes. *)
Theorem C20_compact_restored : forall E (ev : evaluator E) fi nulls nv,
  pushes ev nv -> nulls_ok fi nv nulls -> nulling_acyclic fi ->
  forall cb0 calls (roots : list (nat * nat)),
  cbocage_new fi = Ret cb0 -> calls_fine (length (fi_nulling_eliminated fi)) calls -> calls_small calls ->
  (forall i r, In (i, r) roots -> wraps fi calls i r) ->
  exists hs b handles,
    build compact_forest calls cb0 = Ret (hs, b) /\
    Forall2 (fun ir h => nth_error hs (fst ir) = Some h) roots handles /\
    (graph_fits b (list_sum (map (fun ir => nth (snd ir) (call_costs calls) 0) roots)) ->
     exists fuel0 b', forall fuel, fuel0 <= fuel ->
       c_evaluate_each ev fuel handles b = Ret (map (fun ir => nth (snd ir) (c_call_values ev fi nulls calls) []) roots, b')).
Proof. exact @C20_compact_lemma. Qed.
Print Assumptions C20_compact_restored.

Example C20_compact_example :
  wraps ex_info ex_calls 9 7 /\ calls_fine (length (fi_nulling_eliminated ex_info)) ex_calls /\ calls_small ex_calls /\
  nth 7 (c_call_values syntax_eval ex_info ex_nulls ex_calls) [] =
    [XRule 10 [XLeaf 1 11; XRule 40 [XLeaf 1 11; XNull 4; XNull 5]; XLeaf 2 12]] /\
  (exists cb0 hs b h b',
     cbocage_new ex_info = Ret cb0 /\ build compact_forest ex_calls cb0 = Ret (hs, b) /\ nth_error hs 9 = Some h /\
     graph_fits b (3 * nth 7 (call_costs ex_calls) 0) /\
     c_evaluate_each syntax_eval 100 [h; h; h] b =
       Ret (repeat [XRule 10 [XLeaf 1 11; XRule 40 [XLeaf 1 11; XNull 4; XNull 5]; XLeaf 2 12]] 3, b')).
Proof.
  split; [exists 8, 0, 8, 0, 0; repeat split|]. split; [exact ex_calls_fine|]. split; [apply amb_calls_small|]. split; [vm_compute; reflexivity|].
  do 5 eexists. split; [vm_compute; reflexivity|]. split; [vm_compute; reflexivity|]. split; [reflexivity|].
  split; [vm_compute; reflexivity|]. vm_compute. reflexivity.
Qed.

(** If only the root is ambiguous, the values of its trees are returned, one after the
    other, in the order of the alternatives.  Missing: ambiguity further down. *)
Theorem C17_compact_root_partial : forall E (ev : evaluator E) fi nv nulls,
  pushes ev nv -> nulls_ok fi nv nulls -> nulling_acyclic fi ->
  forall cb0 calls i r s alts ts,
  cbocage_new fi = Ret cb0 -> calls_fine (length (fi_nulling_eliminated fi)) calls -> calls_small calls -> wraps fi calls i r ->
  nth_error calls r = Some (CallSum s alts) ->
  nth_error (represented calls) r = Some (map (fun t => [t]) ts) -> length ts = length alts ->
  exists hs b root, build compact_forest calls cb0 = Ret (hs, b) /\ nth_error hs i = Some root /\
    (graph_fits b (nth r (call_costs calls) 0) -> exists fuel0 b', forall fuel, fuel0 <= fuel ->
       c_evaluate ev fuel b root = Ret (concat (map (value ev fi nulls) ts), b')).
Proof. exact C17_compact_lemma. Qed.
Print Assumptions C17_compact_root_partial.

Example C17_compact_example :
  calls_fine (length (fi_nulling_eliminated ex_info)) amb_root_calls /\ calls_small amb_root_calls /\
  wraps ex_info amb_root_calls 6 4 /\
  nth_error amb_root_calls 4 = Some (CallSum 3 [(1, 3); (2, 3)]) /\
  nth_error (represented amb_root_calls) 4 =
    Some (map (fun t => [t]) [Node 1 [Leaf 1 11; Leaf 2 12]; Node 2 [Leaf 1 11; Leaf 2 12]]) /\
  (exists cb0 hs b h b', cbocage_new ex_info = Ret cb0 /\ build compact_forest amb_root_calls cb0 = Ret (hs, b) /\
     nth_error hs 6 = Some h /\ graph_fits b (nth 4 (call_costs amb_root_calls) 0) /\
     c_evaluate syntax_eval 100 b h = Ret ([XRule 10 [XLeaf 1 11; XLeaf 2 12]; XRule 20 [XLeaf 1 11; XLeaf 2 12]], b')).
Proof.
  split; [exact amb_root_calls_fine|]. split; [apply amb_calls_small|]. split; [exists 8, 0, 5, 0, 0; repeat split|].
  split; [reflexivity|]. split; [vm_compute; reflexivity|].
  do 5 eexists. split; [vm_compute; reflexivity|]. split; [vm_compute; reflexivity|]. split; [reflexivity|].
  split; [vm_compute; reflexivity|]. vm_compute. reflexivity.
Qed.

(** Whatever tokens, hints and rejected groups the client chose, ambiguous or not: the
    finished node of a parse of at least one token can be evaluated any number of times,
    always with the same result, without panic.  One evaluation appends at most nine bytes
    for each inner node of each tree under the node. *)
Theorem C20_compact_parse_evaluates : forall P c nsyms w d0 g0 g, LEO P = false -> built c nsyms w d0 g0 g ->
  forall cb0, cbocage_new (g_forest_info g) = Ret cb0 ->
  forall E (ev : evaluator E) nv nulls,
  pushes ev nv -> nulls_ok (g_forest_info g) nv nulls -> nulling_acyclic (g_forest_info g) ->
  forall h0 rest, in_range c nsyms h0 rest -> rest <> [] -> input_fits c rest ->
  exists n r, total n (fun fuel => st <- r_new g cb0 ;; parse_forest compact_forest P g fuel (from_start w h0 rest) st) r /\
    forall h, fst r = Some h -> graph_fits (snd r) 0 ->
      exists l vs, cfinished_trees r l /\ forall k, graph_fits (snd r) (k * (9 * all_inner_nodes l)) ->
        exists fuel0 b', forall fuel, fuel0 <= fuel -> c_evaluate_each ev fuel (repeat h k) (snd r) = Ret (repeat vs k, b').
Proof. exact @compact_evaluates. Qed.
Print Assumptions C20_compact_parse_evaluates.

(** E ::= E E | a, on a a a: both readings, three times *)
Example C20_compact_parse_example :
  exists h b b', amb_crun (from_start wrap None [tok 4 7; tok 4 8; tok 4 9]) = Ret (Some h, b) /\
    cfinished_trees (Some h, b) [[amb_left]; [amb_right]] /\
    graph_fits b (3 * (9 * all_inner_nodes [[amb_left]; [amb_right]])) /\
    exists v1 v2, v1 <> v2 /\ c_evaluate_each syntax_eval 100 [h; h; h] b = Ret ([[v1; v2]; [v1; v2]; [v1; v2]], b').
Proof.
  do 3 eexists. split; [vm_compute; reflexivity|]. split; [unfold cfinished_trees; cbn [fst snd cb_graph]; cfollow|].
  split; [vm_compute; reflexivity|]. do 2 eexists. split; [|vm_compute; reflexivity]. discriminate.
Qed.

(** C08 for the compact bocage, an instance of [C08_dropping_sets]: its handles do not
    depend on the positions given to [Forest::leaf]. *)
Example C08_compact_example : position_blind compact_forest.
Proof. exact compact_blind. Qed.
