(** ReuseSpec: a client that uses a forest in any order: makes nodes, evaluates, makes
    more nodes, evaluates again, possibly with other evaluators. *)
From Coq Require Import List Arith Bool.
From Verif Require Import Base Item Grammar Forest Spec SimpleBocage CompactBocage EvalSpec ForestProg CompactSpec CompactForestSpec.
Import ListNotations.
Local Open Scope res_scope.

Inductive move (E : Type) :=
| Make (c : call)
| Ask (ev : evaluator E) (i : nat).   (* evaluate the node of call [i] *)
Arguments Make {E}.
Arguments Ask {E}.

(** the calls among the moves *)
Definition made {E} (ms : list (move E)) : list call :=
  flat_map (fun m => match m with Make c => [c] | Ask _ _ => [] end) ms.

(** simple-bocage/src/bocage.rs:109-178 and traverse.rs:24-164, in the order of the moves;
    the values of every evaluation are collected *)
Definition simple_move {E} (fuel : nat) (st : list nat * bocage * list (list E)) (m : move E) :
  res (list nat * bocage * list (list E)) :=
  let '(hs, b, out) := st in
  match m with
  | Make c => '(hs, b) <- build_call simple_forest (hs, b) c ;; Ret (hs, b, out)
  | Ask ev i =>
      h <- idx hs i ;;
      '(vs, b) <- evaluate ev fuel b h ;;
      Ret (hs, b, out ++ [vs])
  end.
Definition simple_moves {E} (fuel : nat) (ms : list (move E)) (b : bocage) : res (list (list E)) :=
  '(_, _, out) <- foldM (simple_move fuel) ms ([], b, []) ;; Ret out.

(** [answers fi before ms out]: after the calls [before], the evaluations among [ms]
    give [out].  Every evaluation of a root gives the values that the calls made so far
    give to it ([call_values]); earlier evaluations do not count. *)
Inductive answers {E} (fi : forest_info) : list call -> list (move E) -> list (list E) -> Prop :=
| answers_nil : forall before, answers fi before [] []
| answers_make : forall before c ms out,
    answers fi (before ++ [c]) ms out -> answers fi before (Make c :: ms) out
| answers_ask : forall before ev nv nulls i r ms out,
    pushes ev nv -> nulls_ok fi nv nulls -> evaluated fi before i r ->
    answers fi before ms out ->
    answers fi before (Ask ev i :: ms) (nth r (call_values ev fi nulls before) [] :: out).

(** ** The same for the compact bocage
    compact-bocage/src/bocage.rs:139-200 and traverse.rs:24-165 *)
Definition compact_move {E} (fuel : nat) (st : list nat * cbocage * list (list E)) (m : move E) :
  res (list nat * cbocage * list (list E)) :=
  let '(hs, b, out) := st in
  match m with
  | Make c => '(hs, b) <- build_call compact_forest (hs, b) c ;; Ret (hs, b, out)
  | Ask ev i =>
      h <- idx hs i ;;
      '(vs, b) <- c_evaluate ev fuel b h ;;
      Ret (hs, b, out ++ [vs])
  end.
Definition compact_moves {E} (fuel : nat) (ms : list (move E)) (b : cbocage) : res (list (list E)) :=
  '(_, _, out) <- foldM (compact_move fuel) ms ([], b, []) ;; Ret out.

(** the most bytes that one call appends to the graph *)
Definition call_bytes (c : call) : nat :=
  match c with
  | CallLeaf _ _ | CallProduct _ _ => 9
  | CallSum _ alts => 2 + 9 * length alts
  end.

(** as [answers], for roots of complete parses; with the most bytes that the moves append *)
Inductive c_answers {E} (fi : forest_info) : list call -> list (move E) -> list (list E) -> nat -> Prop :=
| c_answers_nil : forall before, c_answers fi before [] [] 0
| c_answers_make : forall before c ms out bytes,
    c_answers fi (before ++ [c]) ms out bytes -> c_answers fi before (Make c :: ms) out (call_bytes c + bytes)
| c_answers_ask : forall before ev nv nulls i r ms out bytes,
    pushes ev nv -> nulls_ok fi nv nulls -> wraps fi before i r ->
    c_answers fi before ms out bytes ->
    c_answers fi before (Ask ev i :: ms) (nth r (c_call_values ev fi nulls before) [] :: out)
      (nth r (call_costs before) 0 + bytes).
