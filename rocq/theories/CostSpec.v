(** CostSpec: counting what a parse costs.  The forest is written by the client, so the
    client can count the calls of its methods. *)
From Coq Require Import List Arith.
From Verif Require Import Base Item Grammar Forest.
Import ListNotations.
Local Open Scope res_scope.

(** The forest [fo], with the number of calls of the methods that build nodes. *)
Definition counted {F N} (fo : forest_ops F N) : forest_ops (F * nat) N := {|
  f_begin_sum := fun f => f' <- f_begin_sum fo (fst f) ;; Ret (f', S (snd f));
  f_push_summand := fun it f => f' <- f_push_summand fo it (fst f) ;; Ret (f', S (snd f));
  f_sum := fun s o f => '(n, f') <- f_sum fo s o (fst f) ;; Ret (n, (f', S (snd f)));
  f_product := fun l r f => '(n, f') <- f_product fo l r (fst f) ;; Ret (n, (f', S (snd f)));
  f_leaf := fun s p v f => '(n, f') <- f_leaf fo s p v (fst f) ;; Ret (n, (f', S (snd f)));
  f_nulling := fun s f => f_nulling fo s (fst f)
|}.

(** Every call lets the forest grow by at most [a], where [size] is its size. *)
Record adds_at_most {F N} (fo : forest_ops F N) (size : F -> nat) (a : nat) : Prop := {
  aa_begin : forall f f', f_begin_sum fo f = Ret f' -> size f' <= size f + a;
  aa_push : forall it f f', f_push_summand fo it f = Ret f' -> size f' <= size f + a;
  aa_sum : forall s o f n f', f_sum fo s o f = Ret (n, f') -> size f' <= size f + a;
  aa_product : forall l r f n f', f_product fo l r f = Ret (n, f') -> size f' <= size f + a;
  aa_leaf : forall s p v f n f', f_leaf fo s p v f = Ret (n, f') -> size f' <= size f + a
}.

(** The constants of the bounds.  [rank] ranks the symbols so that a rule with one symbol on
    its right-hand side leads upwards; for every grammar that can be built there is one.
    For a grammar without such rules every rank will do, and the constants depend on the
    number of rules only. *)
Definition ranks_units (R : list prule) (rank : sym -> nat) : Prop :=
  forall r B, In r R -> p_rhs r = [B] -> rank (p_lhs r) < rank B.
Definition unit_weight (R : list prule) (rank : sym -> nat) : nat :=
  list_sum (map (fun r => S (length R) ^ rank (p_lhs r)) R).
(** items of one origin in one set, when a location has at most [s] tokens *)
Definition square_factor (R : list prule) (rank : sym -> nat) (s : nat) : nat := length R * (s + unit_weight R rank).
(** calls made at a location, for each pair of locations before it *)
Definition cubic_factor (R : list prule) (rank : sym -> nat) (s : nat) : nat :=
  s * (1 + 2 * square_factor R rank s + length R) + unit_weight R rank * (2 + 2 * square_factor R rank s + length R).
(** inner nodes of a tree, for each token *)
Definition tree_factor (c : pcfg) (rank : sym -> nat) : nat := 2 * S (list_max (map rank (seq 0 (c_num_syms c)))).
