(** CartesianSpec: what enumerating a cartesian product means. *)
From Coq Require Import List Arith.
From Verif Require Import Cartesian.
Import ListNotations.

(** All combinations of one element per factor, first factor fastest. *)
Fixpoint combinations {V} (factors : list (list V)) : list (list V) :=
  match factors with
  | [] => [[]]
  | f :: rest => flat_map (fun tail => map (fun x => x :: tail) f) (combinations rest)
  end.

(** How many there are. *)
Definition combination_count {V} (factors : list (list V)) : nat :=
  fold_right (fun f n => length f * n) 1 factors.

(** The product obtained by pushing slices one by one on a new object. *)
Definition pushed {V} (slices : list (slice V)) : cartesian V :=
  fold_left cp_push slices cp_new.
