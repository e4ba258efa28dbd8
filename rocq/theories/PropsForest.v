(** PropsForest: properties of the simple bocage and of its evaluation. *)
From Coq Require Import List Arith NArith.
From Verif Require Import Base Item Grammar Forest Spec SimpleBocage EvalSpec ForestProg PropLemmas3.
Import ListNotations.

(** ** C16: an unambiguous root evaluates to the value of its tree

    For any forest built by calls of the trait in which call [i] represents exactly one
    tree, the wrapper rule [d] over the start of file and a tree [t]. *)
Theorem C16_unambiguous : forall E (ev : evaluator E) fi nv nulls,
  pushes ev nv -> nulls_ok fi nv nulls -> nulling_acyclic fi ->
  forall b0 calls i d v t,
  bocage_new fi = Ret b0 -> calls_fine (length (fi_nulling_eliminated fi)) calls ->
  nth_error (represented calls) i = Some [[Node d [Leaf (fi_sof fi) v; t]]] ->
  exists hs b root fuel0 b',
    build simple_forest calls b0 = Ret (hs, b) /\ nth_error hs i = Some root /\
    forall fuel, fuel0 <= fuel -> evaluate ev fuel b root = Ret (value ev fi nulls t, b').
Proof. exact (@C16_lemma). Qed.
Print Assumptions C16_unambiguous.

(** Rule 1 has a leaf and a node of rule 3 as children; rule 3 has no external origin
    and is spliced; below it, rule 4 lost its right child 6, which stands for 4 and 5. *)
Example C16_example :
  pushes syntax_eval XNull /\ nulls_ok ex_info XNull ex_nulls /\ nulling_acyclic ex_info /\
  (exists b0, bocage_new ex_info = Ret b0) /\ calls_fine (length (fi_nulling_eliminated ex_info)) ex_calls /\
  (let t := Node 1 [Leaf 1 11; Node 3 [Node 4 [Leaf 1 11]; Leaf 2 12]] in
   nth_error (represented ex_calls) 9 = Some [[Node 0 [Leaf (fi_sof ex_info) 0; t]]] /\
   value syntax_eval ex_info ex_nulls t =
     [XRule 10 [XLeaf 1 11; XRule 40 [XLeaf 1 11; XNull 4; XNull 5]; XLeaf 2 12]]) /\
  build_and_evaluate syntax_eval 100 ex_info ex_calls =
    Ret [XRule 10 [XLeaf 1 11; XRule 40 [XLeaf 1 11; XNull 4; XNull 5]; XLeaf 2 12]].
Proof.
  split; [intros s rs; exists []; reflexivity|]. split; [exact ex_nulls_ok|]. split; [exact ex_acyclic|].
  split; [eexists; vm_compute; reflexivity|]. split; [exact ex_calls_fine|]. vm_compute. repeat split; reflexivity.
Qed.

(** ** C17: ambiguous nodes *)

(** Ambiguity below the root is not kept apart: both readings of the inner node
    become arguments of the outer one, and a single value is returned. *)
Theorem C17_refuted : exists fi calls t1 t2,
  calls_fine (length (fi_nulling_eliminated fi)) calls /\
  nth_error (represented calls) (length calls - 3) = Some [[t1]; [t2]] /\ t1 <> t2 /\
  wraps fi calls (length calls - 1) (length calls - 3) /\
  (forall ts, length ts = 2 -> build_and_evaluate syntax_eval 100 fi calls <> Ret ts) /\
  (exists x y z, build_and_evaluate syntax_eval 100 fi calls = Ret [XRule 20 [XRule 20 [x; y]; XRule 10 [x; y]; z]]).
Proof. exact C17_refuted_lemma. Qed.
Print Assumptions C17_refuted.

(** If only the root is ambiguous, the values of its trees are returned, one after the
    other, the first alternative last.  Missing: ambiguity further down. *)
Theorem C17_root_partial : forall E (ev : evaluator E) fi nv nulls,
  pushes ev nv -> nulls_ok fi nv nulls -> nulling_acyclic fi ->
  forall b0 calls i r s alts ts,
  bocage_new fi = Ret b0 -> calls_fine (length (fi_nulling_eliminated fi)) calls -> evaluated fi calls i r ->
  nth_error calls r = Some (CallSum s alts) ->
  nth_error (represented calls) r = Some (map (fun t => [t]) ts) -> length ts = length alts ->
  exists hs b root fuel0 b',
    build simple_forest calls b0 = Ret (hs, b) /\ nth_error hs i = Some root /\
    forall fuel, fuel0 <= fuel ->
      evaluate ev fuel b root = Ret (concat (first_last (map (value ev fi nulls) ts)), b').
Proof. exact (@C17_root_lemma). Qed.
Print Assumptions C17_root_partial.

Example C17_example :
  calls_fine (length (fi_nulling_eliminated ex_info)) amb_root_calls /\
  evaluated ex_info amb_root_calls 6 4 /\
  nth_error amb_root_calls 4 = Some (CallSum 3 [(1, 3); (2, 3)]) /\
  nth_error (represented amb_root_calls) 4 =
    Some (map (fun t => [t]) [Node 1 [Leaf 1 11; Leaf 2 12]; Node 2 [Leaf 1 11; Leaf 2 12]]) /\
  build_and_evaluate syntax_eval 100 ex_info amb_root_calls =
    Ret [XRule 20 [XLeaf 1 11; XLeaf 2 12]; XRule 10 [XLeaf 1 11; XLeaf 2 12]].
Proof.
  split; [exact amb_root_calls_fine|]. split; [left; exists 8, 0, 5, 0, 0; repeat split|]. vm_compute. repeat split; reflexivity.
Qed.

(** ** C20: nulled children are restored, however often the forest is evaluated

    Any number of roots, possibly the same or sharing nodes, are evaluated one after
    the other on a forest built by any calls.  Every evaluation gives the values of
    [call_values], in which an alternative with a single factor gets the nulled symbol's
    values on the recorded side ([restore]). *)
Theorem C20_restored : forall E (ev : evaluator E) fi nv nulls,
  pushes ev nv -> nulls_ok fi nv nulls -> nulling_acyclic fi ->
  forall b0 calls (roots : list (nat * nat)),
  bocage_new fi = Ret b0 -> calls_fine (length (fi_nulling_eliminated fi)) calls ->
  (forall i r, In (i, r) roots -> evaluated fi calls i r) ->
  exists hs b handles fuel0 b',
    build simple_forest calls b0 = Ret (hs, b) /\
    Forall2 (fun ir h => nth_error hs (fst ir) = Some h) roots handles /\
    forall fuel, fuel0 <= fuel ->
      evaluate_each ev fuel handles b = Ret (map (fun ir => nth (snd ir) (call_values ev fi nulls calls) []) roots, b').
Proof. exact (@C20_lemma). Qed.
Print Assumptions C20_restored.

Example C20_example :
  evaluated ex_info ex_calls 9 7 /\
  nth 7 (call_values syntax_eval ex_info ex_nulls ex_calls) [] =
    [XRule 10 [XLeaf 1 11; XRule 40 [XLeaf 1 11; XNull 4; XNull 5]; XLeaf 2 12]] /\
  (exists b0 hs b h b',
     bocage_new ex_info = Ret b0 /\ build simple_forest ex_calls b0 = Ret (hs, b) /\ nth_error hs 9 = Some h /\
     evaluate_each syntax_eval 100 [h; h; h] b =
       Ret (repeat [XRule 10 [XLeaf 1 11; XRule 40 [XLeaf 1 11; XNull 4; XNull 5]; XLeaf 2 12]] 3, b')).
Proof.
  split; [left; exists 8, 0, 8, 0, 0; repeat split|]. split; [vm_compute; reflexivity|].
  do 5 eexists. split; [vm_compute; reflexivity|]. split; [vm_compute; reflexivity|]. split; [reflexivity|].
  vm_compute. reflexivity.
Qed.

(** ** C35: nulling handles *)

(** A bocage can be made iff the largest nulled symbol is below 2^20. *)
Theorem C35_new : forall fi,
  (exists b0, bocage_new fi = Ret b0) <-> (N.of_nat (nulling_symbol_count fi) < 1048576)%N.
Proof. exact bocage_new_iff. Qed.
Print Assumptions C35_new.

(** The handle of a nulled symbol is in range; as a child it contributes the values of
    the symbol. *)
Theorem C35_handles_partial : forall E (ev : evaluator E) fi nv nulls,
  pushes ev nv -> nulls_ok fi nv nulls -> nulling_acyclic fi ->
  forall b0 s d v w, bocage_new fi = Ret b0 -> mentioned fi s ->
  f_nulling simple_forest s b0 = Ret s /\ s < length (b_graph b0) /\
  exists root b fuel0 b', wrapped_nulling s d v w b0 = Ret (root, b) /\
    forall fuel, fuel0 <= fuel -> evaluate ev fuel b root = Ret (nulls s, b').
Proof. exact C35_lemma. Qed.
Print Assumptions C35_handles_partial.

(** As a root, the handle of a symbol that stands for two others makes evaluation panic. *)
Theorem C35_root_refuted : forall E (ev : evaluator E) fi b0 s a b fuel,
  bocage_new fi = Ret b0 -> mentioned fi s -> nulling_acyclic fi ->
  nulled_rhs fi s = Some (a, b) -> evaluate ev fuel b0 s = Panic.
Proof. exact C35_direct_lemma. Qed.
Print Assumptions C35_root_refuted.

Example C35_example :
  (N.of_nat (nulling_symbol_count ex_info) < 1048576)%N /\
  mentioned ex_info 6 /\ nulled_rhs ex_info 6 = Some (4, 5) /\ ex_nulls 6 = [XNull 4; XNull 5] /\
  (exists b0 root b b', bocage_new ex_info = Ret b0 /\ wrapped_nulling 6 0 0 8 b0 = Ret (root, b) /\
     evaluate syntax_eval 100 b root = Ret ([XNull 4; XNull 5], b') /\
     evaluate syntax_eval 100 b0 6 = Panic).
Proof.
  split; [vm_compute; reflexivity|]. split; [left; exists 4, true; reflexivity|]. split; [reflexivity|]. split; [reflexivity|].
  do 4 eexists. split; [vm_compute; reflexivity|]. split; [vm_compute; reflexivity|]. split; vm_compute; reflexivity.
Qed.

(** ** C39: how many values [nulling] may push *)

(** None: evaluation panics. *)
Theorem C39_refuted : exists fi calls,
  calls_fine (length (fi_nulling_eliminated fi)) calls /\ nulling_acyclic fi /\
  (forall s results, ev_nulling pushes_none s results = results) /\
  (forall fuel, 100 <= fuel -> build_and_evaluate pushes_none fuel fi calls = Panic).
Proof. exact C39_refuted_lemma. Qed.
Print Assumptions C39_refuted.

(** More than one: only the first is used.  (Missing: evaluators that push none.) *)
Theorem C39_first_partial : forall E (ev1 ev2 : evaluator E) fi nv nulls,
  (forall s results, ev_nulling ev1 s results = results ++ [nv s]) ->
  (forall s results, exists more, ev_nulling ev2 s results = results ++ nv s :: more) ->
  ev_leaf ev1 = ev_leaf ev2 -> ev_product ev1 = ev_product ev2 ->
  nulls_ok fi nv nulls -> nulling_acyclic fi ->
  forall b0 calls i r, bocage_new fi = Ret b0 -> calls_fine (length (fi_nulling_eliminated fi)) calls ->
  evaluated fi calls i r ->
  exists hs b root fuel0 vs b1 b2,
    build simple_forest calls b0 = Ret (hs, b) /\ nth_error hs i = Some root /\
    forall fuel, fuel0 <= fuel ->
      evaluate ev1 fuel b root = Ret (vs, b1) /\ evaluate ev2 fuel b root = Ret (vs, b2).
Proof. exact C39_first_lemma. Qed.
Print Assumptions C39_first_partial.

Example C39_example :
  (forall s results, exists more, ev_nulling pushes_two s results = results ++ XNull s :: more) /\
  build_and_evaluate pushes_two 100 ex_info ex_calls = build_and_evaluate syntax_eval 100 ex_info ex_calls.
Proof. split; [intros s rs; exists [XNull s]; reflexivity|vm_compute; reflexivity]. Qed.
