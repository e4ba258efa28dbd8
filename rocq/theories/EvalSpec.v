(** EvalSpec: the value of a parse tree, independently of any forest. *)
From Coq Require Import List Arith Bool.
From Verif Require Import Base Grammar Forest Spec SimpleBocage.
Import ListNotations.

(** The right-hand side that a nulled intermediate symbol stands for; the last record
    of a symbol counts. *)
Definition nulled_rhs (fi : forest_info) (s : sym) : option (sym * sym) :=
  fold_left (fun o r => let '(lhs, a, b) := r in if lhs =? s then Some (a, b) else o)
            (fi_nulling_intermediate fi) None.

(** Intermediate nulled symbols are not circular. *)
Definition nulling_acyclic (fi : forest_info) : Prop :=
  exists rank : sym -> nat, forall lhs a b, In (lhs, a, b) (fi_nulling_intermediate fi) ->
    rank a < rank lhs /\ rank b < rank lhs.

Section Value.
  Context {E : Type}.
  Variable ev : evaluator E.
  Variable fi : forest_info.
  (** the value an evaluator gives to a nulled symbol *)
  Variable nv : sym -> E.

  (** For a nulled symbol [s] the evaluator pushes [nv s], and possibly more. *)
  Definition pushes : Prop := forall s results, exists more, ev_nulling ev s results = results ++ nv s :: more.

  (** [nulls s] lists the values of nulled symbol [s]: its own, or those of the two
      symbols it stands for. *)
  Definition nulls_ok (nulls : sym -> list E) : Prop :=
    forall s, nulls s = match nulled_rhs fi s with
                        | Some (a, b) => nulls a ++ nulls b
                        | None => [nv s]
                        end.

  Variable nulls : sym -> list E.

  (** A rule with an external origin makes one value out of its arguments; a rule
      without one passes them on to its parent. *)
  Definition reduce (d : nat) (args : list E) : list E :=
    match fi_external_origin fi d with
    | Some (Some id) => [ev_product ev id args]
    | _ => args
    end.

  (** A unary rule may record that a nulled symbol stood to the right ([true]) or to
      the left ([false]) of its symbol. *)
  Definition restore (d : nat) (args : list E) : list E :=
    match nth_error (fi_nulling_eliminated fi) d with
    | Some (Some (s, true)) => args ++ nulls s
    | Some (Some (s, false)) => nulls s ++ args
    | _ => args
    end.

  (** The values a tree contributes to the arguments of the rule above it, bottom-up
      and left to right. *)
  Fixpoint value (t : tree) : list E :=
    match t with
    | Leaf s v => [ev_leaf ev s v]
    | Node d kids =>
        let args := flat_map value kids in
        reduce d (match kids with
                  | [_] => restore d args
                  | _ => args
                  end)
    end.
End Value.
