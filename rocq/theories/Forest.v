(** Forest: model of the trait in /repo/gearley-forest/src/forest.rs and of the
    implementation in null_forest.rs; plus a free (symbolic) implementation used
    only in proofs. *)
From Coq Require Import List Arith.
From Verif Require Import Base Item Grammar.
Import ListNotations.

(** forest.rs:7-25 trait [Forest]: [F] is the type implementing the trait, [N] is
    [NodeRef].  Methods may panic. *)
Record forest_ops (F N : Type) := mkForest {
  f_begin_sum : F -> res F;
  f_push_summand : item N -> F -> res F;
  f_sum : sym -> nat -> F -> res (N * F);
  f_product : N -> N -> F -> res (N * F);
  f_leaf : sym -> nat -> nat -> F -> res (N * F);
  f_nulling : sym -> F -> res N
}.
Arguments mkForest {F N}.
Arguments f_begin_sum {F N}.
Arguments f_push_summand {F N}.
Arguments f_sum {F N}.
Arguments f_product {F N}.
Arguments f_leaf {F N}.
Arguments f_nulling {F N}.

(** null_forest.rs:10-34 [NullForest] *)
Definition null_forest : forest_ops unit unit := {|
  f_begin_sum := fun _ => Ret tt;
  f_push_summand := fun _ _ => Ret tt;
  f_sum := fun _ _ _ => Ret (tt, tt);
  f_product := fun _ _ _ => Ret (tt, tt);
  f_leaf := fun _ _ _ _ => Ret (tt, tt);
  f_nulling := fun _ _ => Ret tt
|}.

(** A symbolic forest whose node references are the nodes themselves.  It models
    no Rust code; implementations are compared with it. *)
Inductive fnode :=
| FLeaf (s : sym) (value : nat)
| FNull (s : sym)
| FProd (l r : fnode)
| FSum (lhs : sym) (alts : list (nat * fnode)).

Definition free_forest : forest_ops (list (nat * fnode)) fnode := {|
  f_begin_sum := fun _ => Ret [];
  f_push_summand := fun it p => Ret (p ++ [(it_dot it, it_node it)]);
  f_sum := fun s _ p => match p with [] => Panic | _ => Ret (FSum s p, []) end;
  f_product := fun l r p => Ret (FProd l r, p);
  f_leaf := fun s _ v p => Ret (FLeaf s v, p);
  f_nulling := fun s _ => Ret (FNull s)
|}.
