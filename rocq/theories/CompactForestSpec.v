(** CompactForestSpec: forests built by calls, evaluated over the compact bocage. *)
From Coq Require Import List Arith Bool NArith Permutation.
From Verif Require Import Base Item Grammar Forest Spec SimpleBocage EvalSpec ForestProg CompactGraph CompactBocage CompactSpec.
Import ListNotations.

(** something computed for each call from what was computed for the earlier ones *)
Definition each_call {A} (f : list (call * A) -> call -> A) (calls : list call) : list A :=
  map snd (fold_left (fun before c => before ++ [(c, f before c)]) calls []).

Definition earlier {A} (d : A) (before : list (call * A)) (i : nat) : A :=
  match nth_error before i with Some (_, x) => x | None => d end.

(** The values evaluation over the compact bocage gives to each call's node.  It differs
    from [call_value] of ForestProg.v in the order: the alternatives of a sum are strung
    together as they were added. *)
Section CallValues.
  Context {E : Type}.
  Variable ev : evaluator E.
  Variable fi : forest_info.
  Variable nulls : sym -> list E.

  Definition c_call_value (before : list (call * list E)) (c : call) : list E :=
    match c with
    | CallLeaf s v => [ev_leaf ev s v]
    | CallProduct l r => earlier [] before l ++ earlier [] before r
    | CallSum s alts =>
        concat (map (fun a : nat * nat =>
          let '(d, i) := a in
          reduce ev fi d
            (match nth_error before i with
             | Some (CallProduct _ _, vs) => vs
             | Some (_, vs) => restore fi nulls d vs
             | None => []
             end)) alts)
    end.
  Definition c_call_values (calls : list call) : list (list E) := each_call c_call_value calls.
End CallValues.

(** What one evaluation of a call's node may append to the graph: nine bytes whenever it
    passes an alternative.  Shared nodes are passed again each time. *)
Definition call_cost (before : list (call * nat)) (c : call) : nat :=
  match c with
  | CallLeaf _ _ => 0
  | CallProduct l r => earlier 0 before l + earlier 0 before r
  | CallSum s alts => list_sum (map (fun a : nat * nat => 9 + earlier 0 before (snd a)) alts)
  end.
Definition call_costs (calls : list call) : list nat := each_call call_cost calls.

(** what the calls are given fits into the fields of a node: symbols and values of leaves
    in 32 bits; rules too, without the number that stands for none *)
Definition calls_small (calls : list call) : Prop :=
  forall c, In c calls ->
    match c with
    | CallLeaf s v => u32 s /\ u32 v
    | CallProduct _ _ => True
    | CallSum _ alts => forall d i, In (d, i) alts -> (N.of_nat d < C_NULL_ACTION)%N
    end.

(** the evaluator does not care in which order a rule's arguments come *)
Definition unordered {E} (ev : evaluator E) : Prop :=
  forall id args args', Permutation args args' -> ev_product ev id args = ev_product ev id args'.

(** inner nodes of all trees together *)
Definition all_inner_nodes (l : list (list tree)) : nat :=
  list_sum (map (fun ts => list_sum (map inner_nodes ts)) l).
