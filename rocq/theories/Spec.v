(** Spec: what users of gearley mean by "grammar", "sentence", "parse tree".

    Nothing here refers to the recognizer or its tables: a grammar is a list of
    rules, a sentence is what the start symbol derives. *)
From Coq Require Import List Arith.
From Verif Require Import Grammar.
Import ListNotations.

(** ** Derivation *)

(** [derives R A w]: symbol [A] derives the symbol string [w].  A symbol derives
    itself; a nonterminal derives what the right-hand side of one of its rules
    derives. *)
Inductive derives (R : list prule) : sym -> list sym -> Prop :=
| derives_self : forall s, derives R s [s]
| derives_rule : forall r w, In r R -> derives_seq R (p_rhs r) w -> derives R (p_lhs r) w
with derives_seq (R : list prule) : list sym -> list sym -> Prop :=
| derives_nil : derives_seq R [] []
| derives_cons : forall s ss w1 w2,
    derives R s w1 -> derives_seq R ss w2 -> derives_seq R (s :: ss) (w1 ++ w2).

(** ** Parse trees *)

(** A leaf carries the scanned symbol and the value given to [scan]; an inner node
    carries the number of the rule (its position in the grammar). *)
Inductive tree :=
| Leaf (s : sym) (value : nat)
| Node (rule : nat) (children : list tree).

(** [parse_tree R s t]: [t] is a parse tree for symbol [s]. *)
Inductive parse_tree (R : list prule) : sym -> tree -> Prop :=
| pt_leaf : forall s v, parse_tree R s (Leaf s v)
| pt_node : forall d r ts, nth_error R d = Some r -> parse_trees R (p_rhs r) ts ->
    parse_tree R (p_lhs r) (Node d ts)
with parse_trees (R : list prule) : list sym -> list tree -> Prop :=
| pts_nil : parse_trees R [] []
| pts_cons : forall s ss t ts, parse_tree R s t -> parse_trees R ss ts ->
    parse_trees R (s :: ss) (t :: ts).

(** The leaves from left to right. *)
Fixpoint yield (t : tree) : list (sym * nat) :=
  match t with
  | Leaf s v => [(s, v)]
  | Node _ ts => flat_map yield ts
  end.

Scheme derives_mut := Induction for derives Sort Prop
  with derives_seq_mut := Induction for derives_seq Sort Prop.
Combined Scheme derives_both from derives_mut, derives_seq_mut.
Scheme parse_tree_mut := Induction for parse_tree Sort Prop
  with parse_trees_mut := Induction for parse_trees Sort Prop.
Combined Scheme parse_both from parse_tree_mut, parse_trees_mut.

(** ** Prefixes *)

(** [w] can be continued to a sentence derived from [s]. *)
Definition viable_prefix (R : list prule) (s : sym) (w : list sym) : Prop :=
  exists rest, derives R s (w ++ rest).

(** terminals: symbols that no rule defines *)
Definition terminal (R : list prule) (s : sym) : Prop := forall r, In r R -> p_lhs r <> s.

(** every symbol derives some string of terminals *)
Definition productive (R : list prule) : Prop :=
  forall s, exists w, derives R s w /\ Forall (terminal R) w.

(** [w] can be continued, by terminals, to something derived from [s] *)
Definition viable_terminal_prefix (R : list prule) (s : sym) (w : list sym) : Prop :=
  exists rest, Forall (terminal R) rest /\ derives R s (w ++ rest).

(** ** Constituents

    [constituents_ok R P i t]: in the tree [t], whose first leaf is at location [i],
    every inner node built by a rule for symbol [A] and ending at location [j]
    satisfies [P j A]. *)
Fixpoint constituents_ok (R : list prule) (P : nat -> sym -> bool) (i : nat) (t : tree) : Prop :=
  match t with
  | Leaf _ _ => True
  | Node d ts =>
      match nth_error R d with
      | Some r => P (i + length (yield t)) (p_lhs r) = true
      | None => False
      end /\
      (fix children (i : nat) (ts : list tree) : Prop :=
         match ts with
         | [] => True
         | t :: ts' => constituents_ok R P i t /\ children (i + length (yield t)) ts'
         end) i ts
  end.

(** ** Choosing one token per location *)

(** [choice W w]: the string [w] picks one of the offered tokens at each location. *)
Definition choice (W : list (list (sym * nat))) (w : list (sym * nat)) : Prop :=
  Forall2 (fun offered tok => In tok offered) W w.
