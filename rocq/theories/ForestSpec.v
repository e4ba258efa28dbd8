(** ForestSpec: what the recognizer needs of a forest implementation.

    The recognizer uses a forest in a fixed protocol: between two sums it may make
    leaves, products and nulling nodes; a sum is begun, given at least one summand,
    and finished. *)
From Coq Require Import List Arith Bool.
From Verif Require Import Base Item Grammar Forest.
Import ListNotations.

(** where the forest is in the protocol; [Summing true]: a summand was pushed *)
Inductive phase := Idle | Summing (nonempty : bool).

(** [usable fo ok]: with [ok ph f] meaning "[f] can be used in phase [ph]", no
    method panics when used according to the protocol. *)
Record usable {F N} (fo : forest_ops F N) (ok : phase -> F -> Prop) : Prop := {
  u_begin : forall f, ok Idle f -> exists f', f_begin_sum fo f = Ret f' /\ ok (Summing false) f';
  u_push : forall b it f, ok (Summing b) f -> exists f', f_push_summand fo it f = Ret f' /\ ok (Summing true) f';
  u_sum : forall s o f, ok (Summing true) f -> exists n f', f_sum fo s o f = Ret (n, f') /\ ok Idle f';
  u_product : forall l r f, ok Idle f -> exists n f', f_product fo l r f = Ret (n, f') /\ ok Idle f';
  u_leaf : forall s p v f, ok Idle f -> exists n f', f_leaf fo s p v f = Ret (n, f') /\ ok Idle f';
  u_nulling : forall s f, ok Idle f -> exists n, f_nulling fo s f = Ret n
}.

(** A forest whose nodes do not depend on the positions in the input: the position of a
    leaf, the origin of a summand and the origin of a sum are ignored.  All forests of /repo
    are such. *)
Record position_blind {F N} (fo : forest_ops F N) : Prop := {
  pb_leaf : forall s p p' v f, f_leaf fo s p v f = f_leaf fo s p' v f;
  pb_push : forall d o o' n f, f_push_summand fo (mkItem d o n) f = f_push_summand fo (mkItem d o' n) f;
  pb_sum : forall s o o' f, f_sum fo s o f = f_sum fo s o' f
}.
