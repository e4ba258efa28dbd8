(** PropsReading: properties of the ambiguous example calculator. *)
From Coq Require Import String Ascii List Arith Bool ZArith.
From Verif Require Import Base Item Grammar DefaultGrammar Forest Recognizer Parse SimpleBocage Spec CfgSpec ClientSpec EvalSpec TreeSpec
  ExampleMath MathTables MathSpec ReadingSpec ReadingProofs.
Import ListNotations.
Local Open Scope list_scope.

(** ** C59: the ambiguous example calculator

    A text with at most two operators: the values returned are those of its readings, one
    for each reading, if numbers are read as the evaluator reads them.  Missing: that a
    number of three or more digits is read as the decimal number ([C46_refuted] is the same
    fault); more operators ([C59_refuted], [C17_example_grammar_refuted]). *)
Theorem C59_values_partial : forall P e, LEO P = false -> reading_ok e -> operators e <= 2 ->
  exists fuel0 es, NoDup es /\ (forall e', In e' es <-> reading_ok e' /\ reading_text e' = reading_text e) /\
    forall fuel, fuel0 <= fuel ->
      calculate amath_tokenize (with_external amath_dg amath_eval None) P amath_dg fuel (reading_text e) =
        Ret (map (reading_value weighted) es).
Proof. exact P_ambiguous. Qed.
Print Assumptions C59_values_partial.

(** With numbers of one or two digits these are the arithmetic values. *)
Theorem C59_arithmetic_partial : forall P e, LEO P = false ->
  reading_numbers (fun ds => digits_ok ds /\ length ds <= 2) e -> operators e <= 2 ->
  exists fuel0 es, NoDup es /\ (forall e', In e' es <-> reading_ok e' /\ reading_text e' = reading_text e) /\
    forall fuel, fuel0 <= fuel ->
      calculate amath_tokenize (with_external amath_dg amath_eval None) P amath_dg fuel (reading_text e) =
        Ret (map (reading_value (fun ds => fit32 (decimal ds))) es).
Proof. exact P_ambiguous_small. Qed.
Print Assumptions C59_arithmetic_partial.

(** With any number of operators, the parse trees of a text are its readings, and the value
    of a reading's tree is the value of the reading. *)
Theorem C59_trees : forall e, reading_ok e -> exists syms,
  (exists tokens, amath_tokenize (reading_text e) = Ret tokens /\ mapped amath_dg tokens syms) /\
  (forall s, In s syms -> user_terminal amath 20 amath_wrap s) /\
  exists tree_of : reading -> tree,
    (forall t, parse_tree (c_rules amath) (w_inner amath_wrap) t /\ yield t = combine syms (seq 0 (length syms)) <->
       exists e', reading_ok e' /\ reading_text e' = reading_text e /\ t = tree_of e') /\
    (forall e1 e2, reading_ok e1 -> reading_ok e2 -> tree_of e1 = tree_of e2 -> e1 = e2) /\
    forall e', reading_ok e' ->
      value (with_external amath_dg amath_eval None) (g_forest_info amath_dg) (fun _ => [None]) (tree_of e') = [reading_value weighted e'].
Proof. exact P_reading_trees. Qed.
Print Assumptions C59_trees.

(** Anything else is rejected, by any evaluator: the client panics. *)
Theorem C59_rejects : forall E (ev : evaluator E) P input, LEO P = false -> (forall e, reading_ok e -> reading_text e <> input) ->
  exists fuel0, forall fuel, fuel0 <= fuel -> calculate amath_tokenize ev P amath_dg fuel input = Panic.
Proof. exact (@P_ambiguous_rejects). Qed.
Print Assumptions C59_rejects.

(** 1-0-1*5 has five readings, with the values 6, 6, -4, 10 and 0.  Three values come out,
    and 4 is none of theirs: it is (1-(0-1)), and the value 0 of the other reading of 1-0-1
    is taken for the operator +, and * for the number 2. *)
Theorem C59_refuted : let e := Op (Op (Op (Num [1]) Sub (Num [0])) Sub (Num [1])) Mul (Num [5]) in
  reading_ok e /\ reading_text e = "1-0-1*5"%string /\
  calculate amath_tokenize (with_external amath_dg amath_eval None) default_perf amath_dg 600 (reading_text e) = Ret [Some 6; Some 4; Some (-4)]%Z /\
  forall e', reading_ok e' -> reading_text e' = reading_text e -> reading_value (fun ds => fit32 (decimal ds)) e' <> Some 4%Z.
Proof. exact P_wrong_value. Qed.
Print Assumptions C59_refuted.

(** The evaluator as it is, without mapping symbols back, reads 7 as 8, and panics on 9. *)
Theorem C59_evaluator_refuted :
  calculate amath_tokenize amath_eval default_perf amath_dg 200 "7" = Ret [Some 8%Z] /\
  calculate amath_tokenize amath_eval default_perf amath_dg 200 "9" = Ret [None].
Proof. split; vm_compute; reflexivity. Qed.
Print Assumptions C59_evaluator_refuted.

(** 12-3*2 is read as 12-(3*2) and as (12-3)*2 *)
Example C59_example :
  let a := Op (Num [1; 2]) Sub (Op (Num [3]) Mul (Num [2])) in
  let b := Op (Op (Num [1; 2]) Sub (Num [3])) Mul (Num [2]) in
  reading_numbers (fun ds => digits_ok ds /\ length ds <= 2) a /\ operators a = 2 /\ LEO default_perf = false /\
  reading_text a = "12-3*2"%string /\ reading_ok b /\ reading_text b = reading_text a /\
  reading_value (fun ds => fit32 (decimal ds)) a = Some 6%Z /\ reading_value (fun ds => fit32 (decimal ds)) b = Some 18%Z /\
  calculate amath_tokenize (with_external amath_dg amath_eval None) default_perf amath_dg 400 "12-3*2" = Ret [Some 6; Some 18]%Z.
Proof.
  cbn zeta. split; [cbn; unfold digits_ok; repeat split; try discriminate; repeat constructor|].
  split; [reflexivity|]. split; [reflexivity|]. split; [reflexivity|].
  split; [cbn; unfold digits_ok; repeat split; try discriminate; repeat constructor|].
  split; [reflexivity|]. split; [reflexivity|]. split; [reflexivity|]. vm_compute. reflexivity.
Qed.
Example C59_rejected_example :
  (forall e, reading_ok e -> reading_text e <> "1+"%string) /\
  calculate amath_tokenize amath_eval default_perf amath_dg 200 "1+" = Panic.
Proof. split; [exact not_a_reading|]. vm_compute. reflexivity. Qed.
