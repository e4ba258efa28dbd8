(** PropsMath: properties of the client that parses and evaluates, and of the example
    calculators. *)
From Coq Require Import String Ascii List Arith Bool ZArith.
From Verif Require Import Base Item Grammar DefaultGrammar Forest Recognizer Parse SimpleBocage Spec CfgSpec ClientSpec EvalSpec TreeSpec
  ExampleMath MathTables MathSpec PropLemmas7 MathProofs.
Import ListNotations.
Local Open Scope list_scope.

(** ** C45: what [leaf] is given

    For an input with one parse tree, [leaf] is called for every token, from left to
    right, with its number as value and with the symbol it is mapped to.  Missing: it
    should be the symbol the user gave ([C45_refuted]); ambiguous inputs. *)
Theorem C45_leaves_partial : forall P c nsyms w d0 g0 g, LEO P = false -> built c nsyms w d0 g0 g -> sorted_rules c ->
  nulling_acyclic (g_forest_info g) -> forall b0, bocage_new (g_forest_info g) = Ret b0 ->
  forall tokens syms, mapped g tokens syms -> (forall s : sym, In s syms -> user_terminal c nsyms w s) ->
  (exists t0, forall t, input_tree c w g0 (combine syms (seq 0 (length syms))) t <-> t = t0) ->
  exists fuel0 vs, concat vs = combine syms (seq 0 (length syms)) /\
    forall fuel, fuel0 <= fuel -> parse_and_evaluate collect P g fuel tokens = Ret vs.
Proof. exact P_client_leaves. Qed.
Print Assumptions C45_leaves_partial.

(** Token 11 of the calculator (a digit) reaches [leaf] as 12. *)
Theorem C45_refuted : exists tokens vs,
  mapped prec_dg tokens [12] /\ user_terminal prec 23 prec_wrap 12 /\
  parse_and_evaluate collect default_perf prec_dg 200 tokens = Ret vs /\
  concat vs <> combine tokens (seq 0 (length tokens)) /\ concat vs = [(12, 0)].
Proof. exact P_leaf_refuted. Qed.
Print Assumptions C45_refuted.

Example C45_example :
  built prec 23 prec_wrap 28 23 prec_dg /\ sorted_rules prec /\ nulling_acyclic (g_forest_info prec_dg) /\
  (exists b0, bocage_new (g_forest_info prec_dg) = Ret b0) /\ mapped prec_dg [11; 4; 12] [12; 5; 13] /\
  (forall t, input_tree prec prec_wrap 23 (combine [12; 5; 13] (seq 0 3)) t <->
     t = Node 29 [Leaf 22 0; sum_tree (Plus (Prod (Fact (Number [1]))) (Fact (Number [2]))) 0]) /\
  parse_and_evaluate collect default_perf prec_dg 200 [11; 4; 12] = Ret [[(12, 0); (5, 1); (13, 2)]].
Proof.
  split; [exact prec_built|]. split; [exact prec_sorted|]. split; [exact calc_acyclic|].
  split; [eexists; vm_compute; reflexivity|]. split; [repeat constructor|]. split; [|vm_compute; reflexivity].
  apply (expression_tree (Plus (Prod (Fact (Number [1]))) (Fact (Number [2])))).
  cbn. unfold digits_ok. repeat split; try discriminate; repeat constructor.
Qed.

(** ** C46: the example calculator

    Every expression has the value that the evaluator's reading of numbers gives it.
    Missing: that a number of three or more digits is read as the decimal number. *)
Theorem C46_value_partial : forall P s, LEO P = false -> expression s -> exists fuel0, forall fuel, fuel0 <= fuel ->
  calculate prec_tokenize (with_external prec_dg prec_eval None) P prec_dg fuel (text s) = Ret [sum_value weighted s].
Proof. exact P_calculate. Qed.
Print Assumptions C46_value_partial.

(** With numbers of one or two digits this is the arithmetic value. *)
Theorem C46_arithmetic_partial : forall P s, LEO P = false -> sum_numbers (fun ds => digits_ok ds /\ length ds <= 2) s ->
  exists fuel0, forall fuel, fuel0 <= fuel ->
    calculate prec_tokenize (with_external prec_dg prec_eval None) P prec_dg fuel (text s) = Ret [arithmetic_value s].
Proof. exact P_calculate_small. Qed.
Print Assumptions C46_arithmetic_partial.

(** Anything else is rejected, by any evaluator: the client panics. *)
Theorem C46_rejects : forall E (ev : evaluator E) P input, LEO P = false -> (forall s, expression s -> text s <> input) ->
  exists fuel0, forall fuel, fuel0 <= fuel -> calculate prec_tokenize ev P prec_dg fuel input = Panic.
Proof. exact (@P_calculate_rejects). Qed.
Print Assumptions C46_rejects.

(** The number 123 is read as 33. *)
Theorem C46_refuted : let s := Prod (Fact (Number [1; 2; 3])) in
  expression s /\ text s = "123"%string /\ arithmetic_value s = Some 123%Z /\
  calculate prec_tokenize (with_external prec_dg prec_eval None) default_perf prec_dg 200 (text s) = Ret [Some 33%Z].
Proof.
  split; [split; [discriminate|repeat constructor]|]. split; [reflexivity|]. split; [reflexivity|]. vm_compute. reflexivity.
Qed.
Print Assumptions C46_refuted.

(** The evaluator as it is, without mapping symbols back, reads 7 as 8, and panics on 9. *)
Theorem C46_evaluator_refuted :
  calculate prec_tokenize prec_eval default_perf prec_dg 200 "7" = Ret [Some 8%Z] /\
  calculate prec_tokenize prec_eval default_perf prec_dg 200 "9" = Ret [None].
Proof. split; vm_compute; reflexivity. Qed.
Print Assumptions C46_evaluator_refuted.

(** the input of the test *)
Definition test_input : string := "1+(2*3-4)/(55)-(54)*55+62-13-((36))".
Example C46_example :
  let n ds := Fact (Number ds) in
  let s := Minus (Minus (Plus (Minus (Plus (Prod (n [1])) (Over (Fact (Paren (Minus (Prod (Times (n [2]) (Number [3]))) (n [4])))) (Paren (Prod (n [5; 5])))))
             (Times (Fact (Paren (Prod (n [5; 4])))) (Number [5; 5]))) (n [6; 2])) (n [1; 3])) (Fact (Paren (Prod (Fact (Paren (Prod (n [3; 6]))))))) in
  text s = test_input /\ sum_numbers (fun ds => digits_ok ds /\ length ds <= 2) s /\ arithmetic_value s = Some (-2956)%Z /\
  LEO default_perf = false /\
  calculate prec_tokenize (with_external prec_dg prec_eval None) default_perf prec_dg 2000 test_input = Ret [Some (-2956)%Z].
Proof.
  cbn zeta. split; [reflexivity|]. split.
  { cbn. unfold digits_ok. repeat split; try discriminate; repeat constructor. }
  split; [reflexivity|]. split; [reflexivity|]. vm_compute. reflexivity.
Qed.
Example C46_rejected_example :
  (forall s, expression s -> text s <> "1+"%string) /\
  calculate prec_tokenize prec_eval default_perf prec_dg 200 "1+" = Panic.
Proof.
  split; [exact not_an_expression|]. vm_compute. reflexivity.
Qed.

(** ** C17: the ambiguous example grammar

    2-0*3+1 has five readings, with the values 2, 1, 3, 7 and 8; three values come out,
    and one of them is the result of a panic. *)
Theorem C17_example_grammar_refuted : exists ts : list tree, NoDup ts /\ length ts = 5 /\
  (forall t, In t ts -> parse_tree (c_rules amath) (w_inner amath_wrap) t /\
     yield t = combine [10; 5; 8; 6; 11; 4; 9] (seq 0 7)) /\
  map (value (with_external amath_dg amath_eval None) (g_forest_info amath_dg) (fun _ => [])) ts = map (fun v => [Some v]) [2; 1; 3; 7; 8]%Z /\
  calculate amath_tokenize (with_external amath_dg amath_eval None) default_perf amath_dg 400 "2-0*3+1" = Ret [Some 2%Z; None; Some 8%Z].
Proof. exact P_readings. Qed.
Print Assumptions C17_example_grammar_refuted.
