(** UserTreeSpec: the parse trees of the user's own grammar, and their values. *)
From Coq Require Import List Arith Bool.
From Verif Require Import Base Grammar Forest Spec SimpleBocage EvalSpec CrateSpec.
Import ListNotations.

(** A leaf is a token with its value.  A symbol that derives the empty string where it
    stands is not taken apart.  An inner node carries the identifier of a rule. *)
Inductive utree :=
| ULeaf (s : sym) (v : nat)
| UNull (s : sym)
| UNode (id : nat) (children : list utree).

(** the tokens from left to right *)
Fixpoint uyield (t : utree) : list (sym * nat) :=
  match t with
  | ULeaf s v => [(s, v)]
  | UNull _ => []
  | UNode _ ts => flat_map uyield ts
  end.

(** the number of nodes *)
Fixpoint usize (t : utree) : nat :=
  match t with
  | UNode _ ts => S (list_sum (map usize ts))
  | _ => 1
  end.

(** the rule on top of a tree and the number of tokens before the last symbol of its right
    side; none for a token *)
Definition top_split (u : utree) : option (nat * nat) :=
  match u with
  | UNode id ts => Some (id, length (flat_map uyield (removelast ts)))
  | _ => None
  end.

(** [user_tree U s t]: [t] is a parse tree for symbol [s] *)
Inductive user_tree (U : pcfg) : sym -> utree -> Prop :=
| ut_leaf : forall s v, terminal (c_rules U) s -> user_tree U s (ULeaf s v)
| ut_null : forall s, nullable (c_rules U) s -> user_tree U s (UNull s)
| ut_node : forall r id ts, In r (c_rules U) -> p_origin r = Some id -> Forall2 (user_tree U) (p_rhs r) ts ->
    uyield (UNode id ts) <> [] -> user_tree U (p_lhs r) (UNode id ts).

(** [u] is a parse tree of the tokens [xs] *)
Definition user_parse (U : pcfg) (start : sym) (xs : list (sym * nat)) (u : utree) : Prop :=
  user_tree U start u /\ uyield u = xs.

(** different rules have different identifiers *)
Definition distinct_ids (U : pcfg) : Prop := NoDup (map p_origin (c_rules U)).

(** The value of a tree, bottom-up; [nv] is the value of a nulled symbol.  Evaluators are
    told the numbers [f s] that [to_internal] gives to the symbols (see C45). *)
Section Value.
  Context {E : Type}.
  Variable ev : evaluator E.
  Variable nv : sym -> E.
  Variable f : sym -> sym.
  Fixpoint uvalue (t : utree) : E :=
    match t with
    | ULeaf s v => ev_leaf ev (f s) v
    | UNull s => nv (f s)
    | UNode id ts => ev_product ev id (map uvalue ts)
    end.
End Value.

(** What evaluation leaves for the root: its value; for the empty input, whatever the
    evaluator pushes for the nulled start symbol. *)
Definition uresult {E} (ev : evaluator E) (nv : sym -> E) (f : sym -> sym) (u : utree) : list E :=
  match u with
  | UNull s => ev_nulling ev (f s) []
  | _ => [uvalue ev nv f u]
  end.

(** A tree of the processed grammar, below the wrapper [g0 ::= sof inner], reads as [u]:
    evaluated by the tables of the grammar they have the same value, whatever the
    evaluator. *)
Definition reads_as (fi : forest_info) (f : sym -> sym) (ts : list tree) (u : utree) : Prop :=
  forall E (ev : evaluator E) (nv : sym -> E), exists nulls, nulls_ok fi nv nulls /\
    match ts with
    | [Node _ [_; t]] => value ev fi nulls t = [uvalue ev nv f u]
    | _ => exists s, u = UNull s
    end.
