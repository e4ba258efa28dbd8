(** PropsReuse: a forest can be used again after it was evaluated. *)
From Coq Require Import List Arith NArith Lia.
From Verif Require Import Base Item Grammar DefaultGrammar Forest Recognizer Drive ClientSpec ChartSpec CfgSpec Spec SimpleBocage EvalSpec ForestProg PropLemmas3
  CompactBocage CompactSpec CompactForestSpec ReuseSpec Reuse ReuseCompact
  TreeSpec ExampleGrammars Check PropsRecog PropsTrees ReuseParseSpec ReuseParse.
Import ListNotations.

(** ** C61: evaluation does not disturb the forest

    A client makes nodes and evaluates roots in any order, each time with an evaluator of
    its choice; nodes made after an evaluation may use nodes made before it.  Every
    evaluation gives the values of the calls made so far ([call_values]), as if none of
    the evaluations before it had happened. *)
Theorem C61_any_order : forall E fi b0 (ms : list (move E)) out,
  nulling_acyclic fi -> bocage_new fi = Ret b0 ->
  calls_fine (length (fi_nulling_eliminated fi)) (made ms) -> answers fi [] ms out ->
  exists fuel0, forall fuel, fuel0 <= fuel -> simple_moves fuel ms b0 = Ret out.
Proof. intros E fi b0 ms out H. exact (P_moves fi H b0 ms out). Qed.
Print Assumptions C61_any_order.

(** The calls of C16's example; the root is evaluated, then nodes are made over a node in
    which a nulled child was restored meanwhile; the new root is evaluated by another
    evaluator, then the old root once more. *)
Definition other_eval : evaluator syntax :=
  mkEval (fun s v => XLeaf s (S v)) (fun id args => XRule id (rev args)) (fun s results => results ++ [XNull (S s)]) XDefault.
Definition other_nulls (s : sym) : list syntax := if s =? 6 then [XNull 5; XNull 6] else [XNull (S s)].
Definition reuse_more : list call := [CallSum 7 [(2, 6)]; CallProduct 0 10; CallSum 8 [(0, 11)]].
Definition reuse_moves : list (move syntax) :=
  map Make ex_calls ++ [Ask syntax_eval 9] ++ map Make reuse_more ++ [Ask other_eval 12; Ask syntax_eval 9].
Definition reuse_out : list (list syntax) :=
  [[XRule 10 [XLeaf 1 11; XRule 40 [XLeaf 1 11; XNull 4; XNull 5]; XLeaf 2 12]];
   [XRule 20 [XLeaf 2 13; XRule 40 [XNull 6; XNull 5; XLeaf 1 12]; XLeaf 1 12]];
   [XRule 10 [XLeaf 1 11; XRule 40 [XLeaf 1 11; XNull 4; XNull 5]; XLeaf 2 12]]].

Lemma reuse_calls_fine : calls_fine 5 (ex_calls ++ reuse_more).
Proof.
  assert (Fine : forall i c, nth_error (ex_calls ++ reuse_more) i = Some c -> i < 13).
  { intros i c H. change 13 with (length (ex_calls ++ reuse_more)). apply nth_error_Some. congruence. }
  intros i c H. pose proof (Fine _ _ H) as L.
  do 13 (destruct i as [|i]; [injection H as <-; cbn;
    repeat match goal with
           | |- _ /\ _ => split
           | |- _ <> _ => discriminate
           | |- forall _ _, _ -> _ => let X := fresh in intros ? ? [X|[]]; injection X as <- <-; cbn; eexists; split; [reflexivity|cbn; intros; try discriminate]
           end; auto; lia|]).
  lia.
Qed.

Lemma answers_makes : forall fi (cs : list call) before (ms : list (move syntax)) out,
  answers fi (before ++ cs) ms out -> answers fi before (map Make cs ++ ms) out.
Proof.
  intros fi cs. induction cs as [|c cs IH]; intros before ms out H; [now rewrite app_nil_r in H|].
  cbn. constructor. apply IH. now rewrite <- app_assoc.
Qed.

Example C61_example :
  nulling_acyclic ex_info /\ calls_fine (length (fi_nulling_eliminated ex_info)) (made reuse_moves) /\
  answers ex_info [] reuse_moves reuse_out /\
  exists b0, bocage_new ex_info = Ret b0 /\ simple_moves 100 reuse_moves b0 = Ret reuse_out.
Proof.
  assert (P : pushes syntax_eval XNull) by (intros s rs; now exists []).
  assert (Q : pushes other_eval (fun s => XNull (S s))) by (intros s rs; now exists []).
  assert (Q' : nulls_ok ex_info (fun s => XNull (S s)) other_nulls).
  { intros s. unfold nulled_rhs, other_nulls. cbn. destruct s as [|[|[|[|[|[|[|s]]]]]]]; reflexivity. }
  split; [exact ex_acyclic|]. split; [exact reuse_calls_fine|]. split.
  - unfold reuse_moves. apply answers_makes. cbn [app].
    refine (answers_ask _ _ _ _ _ 9 7 _ _ P ex_nulls_ok _ _); [left; exists 8, 0, 8, 0, 0; repeat split|].
    apply (answers_makes _ reuse_more).
    refine (answers_ask _ _ _ _ _ 12 10 _ _ Q Q' _ _); [left; exists 8, 0, 11, 0, 0; repeat split|].
    refine (answers_ask _ _ _ _ _ 9 7 _ _ P ex_nulls_ok _ _); [left; exists 8, 0, 8, 0, 0; repeat split|].
    constructor.
  - eexists. split; vm_compute; reflexivity.
Qed.

(** What is claimed is claimed of roots only, and the code needs that: a node below a root
    is evaluated by [evaluate] before the root is, and makes it panic once the root has
    been evaluated, since a nulled child has been restored in it by then. *)
Theorem C61_inner_node_refuted : exists fi b0 calls root r i vs ws,
  nulling_acyclic fi /\ bocage_new fi = Ret b0 /\ calls_fine (length (fi_nulling_eliminated fi)) calls /\ evaluated fi calls root r /\
  simple_moves 100 (map Make calls ++ [Ask syntax_eval root]) b0 = Ret [ws] /\
  simple_moves 100 (map Make calls ++ [Ask syntax_eval i]) b0 = Ret [vs] /\
  simple_moves 100 (map Make calls ++ [Ask syntax_eval root; Ask syntax_eval i]) b0 = Panic.
Proof.
  eexists ex_info, _, ex_calls, 9, 7, 3, _, _. split; [exact ex_acyclic|]. split; [vm_compute; reflexivity|].
  split; [exact ex_calls_fine|]. split; [left; exists 8, 0, 8, 0, 0; repeat split|].
  split; [vm_compute; reflexivity|]. split; vm_compute; reflexivity.
Qed.
Print Assumptions C61_inner_node_refuted.

(** The same for the compact bocage and roots of complete parses, as long as the graph,
    with the most that the calls and the evaluations append, has less than 2^32 bytes. *)
Theorem C61_compact_any_order : forall E fi cb0 (ms : list (move E)) out bytes,
  nulling_acyclic fi -> cbocage_new fi = Ret cb0 ->
  calls_fine (length (fi_nulling_eliminated fi)) (made ms) -> calls_small (made ms) ->
  c_answers fi [] ms out bytes -> graph_fits cb0 bytes ->
  exists fuel0, forall fuel, fuel0 <= fuel -> compact_moves fuel ms cb0 = Ret out.
Proof. intros E fi cb0 ms out bytes Hac H0. exact (P_compact_moves fi Hac cb0 H0 ms out bytes). Qed.
Print Assumptions C61_compact_any_order.

Lemma c_answers_makes : forall fi (cs : list call) before (ms : list (move syntax)) out bytes,
  c_answers fi (before ++ cs) ms out bytes -> c_answers fi before (map Make cs ++ ms) out (list_sum (map call_bytes cs) + bytes).
Proof.
  intros fi cs. induction cs as [|c cs IH]; intros before ms out bytes H; [now rewrite app_nil_r in H|].
  change (map Make (c :: cs) ++ ms) with (Make c :: (map (@Make syntax) cs ++ ms)).
  change (list_sum (map call_bytes (c :: cs))) with (call_bytes c + list_sum (map call_bytes cs)). rewrite <- Nat.add_assoc.
  constructor. apply IH. now rewrite <- app_assoc.
Qed.

Example C61_compact_example :
  calls_small (made reuse_moves) /\
  exists cb0 bytes, cbocage_new ex_info = Ret cb0 /\ c_answers ex_info [] reuse_moves reuse_out bytes /\ graph_fits cb0 bytes /\
    compact_moves 100 reuse_moves cb0 = Ret reuse_out.
Proof.
  assert (P : pushes syntax_eval XNull) by (intros s rs; now exists []).
  assert (Q : pushes other_eval (fun s => XNull (S s))) by (intros s rs; now exists []).
  assert (Q' : nulls_ok ex_info (fun s => XNull (S s)) other_nulls).
  { intros s. unfold nulled_rhs, other_nulls. cbn. destruct s as [|[|[|[|[|[|[|s]]]]]]]; reflexivity. }
  split.
  - intros c Hc. cbn in Hc. repeat destruct Hc as [<-|Hc]; try contradiction;
      first [exact I | split; reflexivity | intros d i [X|[]]; injection X as <- <-; reflexivity].
  - eexists _, _. split; [vm_compute; reflexivity|]. split.
    { unfold reuse_moves. apply c_answers_makes. cbn [app].
      refine (c_answers_ask _ _ _ _ _ 9 7 _ _ _ P ex_nulls_ok _ _); [exists 8, 0, 8, 0, 0; repeat split|].
      apply (c_answers_makes _ reuse_more).
      refine (c_answers_ask _ _ _ _ _ 12 10 _ _ _ Q Q' _ _); [exists 8, 0, 11, 0, 0; repeat split|].
      refine (c_answers_ask _ _ _ _ _ 9 7 _ _ _ P ex_nulls_ok _ _); [exists 8, 0, 8, 0, 0; repeat split|].
      constructor. }
    split; vm_compute; reflexivity.
Qed.

(** ** One forest for several parses

    A client parses any inputs one after the other with the same forest, handed from each
    recognizer to the next ([into_forest], [with_forest]), and evaluates the finished
    nodes of earlier parses in between.  Every evaluation gives what it gives alone: after
    one parse of its input with a new forest.  Inputs may be rejected or ambiguous, hints
    may be wrong.  Missing ([evaluable]): the finished node of the empty input, for
    evaluators that leave something else for the nulled start symbol alone than for one
    that stands in a rule. *)
Theorem C61_parses_partial : forall P c nsyms w d0 g0 g, LEO P = false -> built c nsyms w d0 g0 g ->
  nulling_acyclic (g_forest_info g) ->
  forall E b0, bocage_new (g_forest_info g) = Ret b0 ->
  forall (ms : list (use E)) out, as_alone P g w c nsyms (fun _ _ => True) [] ms out ->
  exists fuel0, forall fuel, fuel0 <= fuel -> uses P g w fuel ms b0 = Ret out.
Proof. exact P_uses_acyclic. Qed.
Print Assumptions C61_parses_partial.

(** S ::= a S | (nothing): two inputs in which the nulled S is restored, a rejected one,
    and the empty one *)
Definition parse_uses : list (use syntax) :=
  [Parse None [tok 4 7]; Value syntax_eval 0; Parse (Some 4) [tok 4 8; tok 4 9]; Parse None [tok 2 1];
   Value other_eval 1; Value syntax_eval 0; Parse None []; Value other_eval 3; Value syntax_eval 1; Value syntax_eval 3].
Definition parse_out : list (list syntax) :=
  [[XRule 0 [XLeaf 4 7; XNull 3]];
   [XRule 0 [XRule 0 [XNull 4; XLeaf 4 10]; XLeaf 4 9]];
   [XRule 0 [XLeaf 4 7; XNull 3]];
   [XNull 4];
   [XRule 0 [XLeaf 4 8; XRule 0 [XLeaf 4 9; XNull 3]]];
   [XNull 3]].
Example C61_parses_example :
  built opt 5 wrap 0 5 opt_dg /\ nulling_acyclic (g_forest_info opt_dg) /\
  as_alone default_perf opt_dg wrap opt 5 (fun _ _ => True) [] parse_uses parse_out /\
  exists b0, bocage_new (g_forest_info opt_dg) = Ret b0 /\ uses default_perf opt_dg wrap 100 parse_uses b0 = Ret parse_out.
Proof.
  assert (P : pushes syntax_eval XNull) by (intros s rs; now exists []).
  assert (Q : pushes other_eval (fun s => XNull (S s))) by (intros s rs; now exists []).
  assert (N1 : nulls_ok (g_forest_info opt_dg) XNull (fun s => [XNull s])) by (intros s; reflexivity).
  assert (N2 : nulls_ok (g_forest_info opt_dg) (fun s => XNull (S s)) (fun s => [XNull (S s)])) by (intros s; reflexivity).
  assert (Al : forall (ev : evaluator syntax) h0 rest vs, alone default_perf opt_dg wrap 100 ev h0 rest = Ret vs ->
    exists n, forall fuel, n <= fuel -> alone default_perf opt_dg wrap fuel ev h0 rest = Ret vs).
  { intros ev h0 rest vs H. exists 100. intros fuel Hf. eapply alone_up; eauto. }
  assert (Left : start_left_out opt wrap).
  { intros r Hr. cbn in Hr. repeat destruct Hr as [<-|Hr]; try contradiction; cbn; intros; first [discriminate | now left | now right]. }
  split; [exact (built_of _ _ _ _ _ _ _ _ _ _ _ opt_configured)|]. split; [exists (fun _ => 0); intros ? ? ? []|]. split.
  - unfold parse_uses, parse_out.
    apply as_parse; [ | exact I | ].
    { split; [intros [|[|[|k]]] s H; discriminate|]. intros l s v [<-|[]] [X|[]]. injection X as <- _. cbn. lia. }
    eapply (as_value _ _ _ _ _ _ _ _ _ _ 0 None [tok 4 7] _ _ _ P N1); [reflexivity|left; discriminate|apply Al; vm_compute; reflexivity|].
    apply as_parse; [ | exact I | ].
    { split; [intros [|[|[|[|k]]]] s H; try discriminate; cbn in H; try injection H as <-; try discriminate; lia|].
      intros l s v [<-|[<-|[]]] [X|[]]; injection X as <- _; cbn; lia. }
    apply as_parse; [ | exact I | ].
    { split; [intros [|[|[|k]]] s H; discriminate|]. intros l s v [<-|[]] [X|[]]. injection X as <- _. cbn. lia. }
    eapply (as_value _ _ _ _ _ _ _ _ _ _ 1 (Some 4) [tok 4 8; tok 4 9] _ _ _ Q N2); [reflexivity|left; discriminate|apply Al; vm_compute; reflexivity|].
    eapply (as_value _ _ _ _ _ _ _ _ _ _ 0 None [tok 4 7] _ _ _ P N1); [reflexivity|left; discriminate|apply Al; vm_compute; reflexivity|].
    apply as_parse; [ | exact I | ].
    { split; [intros [|[|k]] s H; discriminate|]. intros l s v []. }
    eapply (as_value _ _ _ _ _ _ _ _ _ _ 3 None [] _ _ _ Q N2); [reflexivity|right; split; [exact Left|reflexivity]|apply Al; vm_compute; reflexivity|].
    eapply (as_value _ _ _ _ _ _ _ _ _ _ 1 (Some 4) [tok 4 8; tok 4 9] _ _ _ P N1); [reflexivity|left; discriminate|apply Al; vm_compute; reflexivity|].
    eapply (as_value _ _ _ _ _ _ _ _ _ _ 3 None [] _ _ _ P N1); [reflexivity|right; split; [exact Left|reflexivity]|apply Al; vm_compute; reflexivity|].
    apply as_nil.
  - eexists. split; vm_compute; reflexivity.
Qed.

(** Likewise for a grammar whose unit rules form a cycle, as long as the building of the
    nodes ends for each of the inputs alone. *)
Theorem C61_cyclic_parses_partial : forall P c nsyms w d0 g0 g, LEO P = false -> shaped_built c nsyms w d0 g0 g ->
  nulling_acyclic (g_forest_info g) ->
  forall E b0, bocage_new (g_forest_info g) = Ret b0 ->
  forall (ms : list (use E)) out, as_alone P g w c nsyms (parse_ends P g w) [] ms out ->
  exists fuel0, forall fuel, fuel0 <= fuel -> uses P g w fuel ms b0 = Ret out.
Proof. exact P_uses_ending. Qed.
Print Assumptions C61_cyclic_parses_partial.

(** S ::= a | A, A ::= A | b.  0 eof, 1 root, 2 sof, 3 S, 4 a, 5 A, 6 b, 7 g0 *)
Definition cyc : pcfg := {|
  c_rules := [rule 1 [7; 0] None; rule 3 [4] (Some 0); rule 3 [5] (Some 1); rule 5 [5] (Some 2); rule 5 [6] (Some 3); rule 7 [2; 3] None];
  c_num_syms := 8;
  c_roots := [1];
  c_wrapped := [wrap] |}.
Definition cyc_first : list (sym * list sym) := [(1, [2]); (3, [4; 6]); (5, [6]); (7, [2])].
Definition cyc_follow : list (sym * list sym) := [(2, [4; 6]); (3, [0]); (4, [0]); (5, [0]); (6, [0]); (7, [0])].
Definition cyc_dg : dgrammar := Eval vm_compute in
  match from_processed_grammars 10 cyc no_maps [] cyc_first cyc_follow with Ret g => g | _ => opt_dg end.

Lemma cyc_built : shaped_built cyc 7 wrap 0 7 cyc_dg.
Proof.
  split.
  - constructor; try (cbn; lia); try reflexivity; try discriminate.
    + apply (wf_check_ok _ _ _ (fun _ => 0)). vm_compute. reflexivity.
    + eexists. repeat split.
    + intros [|[|[|[|[|[|[|d]]]]]]] r H; try discriminate; injection H as <-; try reflexivity; discriminate.
    + intros r Hr. cbn in Hr. repeat destruct Hr as [<-|Hr]; try contradiction; cbn; intros; try discriminate. now left.
    + intros r Hr. cbn in Hr. repeat destruct Hr as [<-|Hr]; try contradiction; cbn; intuition discriminate.
    + apply is_terminal_spec. reflexivity.
    + apply is_terminal_spec. reflexivity.
    + intros [|[|[|[|[|[|[|d]]]]]]] r C H; try discriminate; injection H as <-; cbn; intros X; try discriminate; injection X as <-; first [now right | left; lia].
  - exists 10, no_maps, [], cyc_first, cyc_follow. split; [vm_compute; reflexivity|].
    set (ft := table (firsts 8 (c_rules cyc)) 8). set (lt := table (lasts 8 (c_rules cyc)) 8). set (qt := adjacent 8 (c_rules cyc)).
    split; [apply (first_check_ok _ ft lt qt) | apply (follow_check_ok _ _ ft lt qt)]; vm_compute; reflexivity.
Qed.

(** the first input ends although the grammar has a cycle; the input "b" does not *)
Definition cyc_uses : list (use syntax) :=
  [Parse None [tok 4 7]; Value syntax_eval 0; Parse (Some 4) [tok 4 8]; Value other_eval 1; Value syntax_eval 0].
Definition cyc_out : list (list syntax) := [[XRule 0 [XLeaf 4 7]]; [XRule 0 [XLeaf 4 9]]; [XRule 0 [XLeaf 4 7]]].
Example C61_cyclic_example :
  shaped_built cyc 7 wrap 0 7 cyc_dg /\ nulling_acyclic (g_forest_info cyc_dg) /\
  as_alone default_perf cyc_dg wrap cyc 7 (parse_ends default_perf cyc_dg wrap) [] cyc_uses cyc_out /\
  (exists b0, bocage_new (g_forest_info cyc_dg) = Ret b0 /\ uses default_perf cyc_dg wrap 100 cyc_uses b0 = Ret cyc_out /\
     uses default_perf cyc_dg wrap 100 [@Parse syntax None [tok 6 7]] b0 = NoFuel).
Proof.
  assert (P : pushes syntax_eval XNull) by (intros s rs; now exists []).
  assert (Q : pushes other_eval (fun s => XNull (S s))) by (intros s rs; now exists []).
  assert (N1 : nulls_ok (g_forest_info cyc_dg) XNull (fun s => [XNull s])) by (intros s; reflexivity).
  assert (N2 : nulls_ok (g_forest_info cyc_dg) (fun s => XNull (S s)) (fun s => [XNull (S s)])) by (intros s; reflexivity).
  assert (Al : forall (ev : evaluator syntax) h0 rest vs, alone default_perf cyc_dg wrap 100 ev h0 rest = Ret vs ->
    exists n, forall fuel, n <= fuel -> alone default_perf cyc_dg wrap fuel ev h0 rest = Ret vs).
  { intros ev h0 rest vs H. exists 100. intros fuel Hf. eapply alone_up; eauto. }
  split; [exact cyc_built|]. split; [exists (fun _ => 0); intros ? ? ? []|]. split.
  - unfold cyc_uses, cyc_out.
    apply as_parse; [ |exists 100; vm_compute; discriminate| ].
    { split; [intros [|[|[|k]]] s H; discriminate|]. intros l s v [<-|[]] [X|[]]. injection X as <- _. cbn. lia. }
    eapply (as_value _ _ _ _ _ _ _ _ _ _ 0 None [tok 4 7] _ _ _ P N1); [reflexivity|left; discriminate|apply Al; vm_compute; reflexivity|].
    apply as_parse; [ |exists 100; vm_compute; discriminate| ].
    { split; [intros [|[|[|k]]] s H; try discriminate; cbn in H; try injection H as <-; try discriminate; lia|].
      intros l s v [<-|[]] [X|[]]. injection X as <- _. cbn. lia. }
    eapply (as_value _ _ _ _ _ _ _ _ _ _ 1 (Some 4) [tok 4 8] _ _ _ Q N2); [reflexivity|left; discriminate|apply Al; vm_compute; reflexivity|].
    eapply (as_value _ _ _ _ _ _ _ _ _ _ 0 None [tok 4 7] _ _ _ P N1); [reflexivity|left; discriminate|apply Al; vm_compute; reflexivity|].
    apply as_nil.
  - eexists. split; [vm_compute; reflexivity|]. split; vm_compute; reflexivity.
Qed.
