(** Base: results of Rust functions, and the list operations that can panic.

    Models the effects shared by every function of /repo: a Rust function
    returns a value, panics, or (for the loops that are not structurally
    bounded) needs more iterations than the [fuel] given to the model. *)
From Coq Require Import List Arith.
Import ListNotations.

(** Outcome of a call. [Panic]: any Rust panic (index out of range, [unwrap] on
    [None], failed assertion, [todo!], [unreachable!]).  [NoFuel]: the loop bound
    of the model was reached; it corresponds to no Rust behaviour, and theorems
    state explicitly when it cannot occur. *)
Inductive res (A : Type) : Type :=
| Ret (a : A)
| Panic
| NoFuel.
Arguments Ret {A} a.
Arguments Panic {A}.
Arguments NoFuel {A}.

Definition bind {A B} (x : res A) (f : A -> res B) : res B :=
  match x with
  | Ret a => f a
  | Panic => Panic
  | NoFuel => NoFuel
  end.

Declare Scope res_scope.
Delimit Scope res_scope with res.
Notation "x <- e ;; k" := (bind e (fun x => k))
  (at level 61, e at next level, right associativity) : res_scope.
Notation "' p <- e ;; k" := (bind e (fun p => k))
  (at level 61, p pattern, e at next level, right associativity) : res_scope.
Notation "e ;;; k" := (bind e (fun _ => k))
  (at level 61, right associativity) : res_scope.

(** [option::unwrap]. *)
Definition unwrap {A} (o : option A) : res A :=
  match o with Some a => Ret a | None => Panic end.

(** [assert!], [debug_assert!]. *)
Definition assert (b : bool) : res unit := if b then Ret tt else Panic.

(** Slice or [Vec] indexing [l[i]]. *)
Definition idx {A} (l : list A) (i : nat) : res A := unwrap (nth_error l i).

(** Replacement of the [i]-th element; out of range leaves the list alone. *)
Fixpoint set_nth {A} (l : list A) (i : nat) (v : A) : list A :=
  match l, i with
  | [], _ => []
  | _ :: t, 0 => v :: t
  | h :: t, S i' => h :: set_nth t i' v
  end.

(** Indexed assignment [l[i] = v]. *)
Definition upd {A} (l : list A) (i : nat) (v : A) : res (list A) :=
  if i <? length l then Ret (set_nth l i v) else Panic.

(** [for x in l { acc = f(acc, x)? }]. *)
Fixpoint foldM {A B} (f : B -> A -> res B) (l : list A) (b : B) : res B :=
  match l with
  | [] => Ret b
  | a :: t => bind (f b a) (foldM f t)
  end.

(** [l.iter().map(f).collect()] for an [f] that may panic. *)
Fixpoint mapM {A B} (f : A -> res B) (l : list A) : res (list B) :=
  match l with
  | [] => Ret []
  | a :: t => bind (f a) (fun b => bind (mapM f t) (fun bs => Ret (b :: bs)))
  end.

(** [l.iter().take_while(p)]. *)
Fixpoint take_while {A} (p : A -> bool) (l : list A) : list A :=
  match l with
  | [] => []
  | a :: t => if p a then a :: take_while p t else []
  end.

(** [slice::binary_search_by] of the Rust standard library (1.82 and later).
    [cmp a] is the ordering of the element relative to the target. [inl i] is
    [Ok(i)], [inr i] is [Err(i)].  The loop runs while [size > 1]; [n] bounds the
    iterations structurally and [length l] always suffices. *)
Fixpoint bs_loop {A} (cmp : A -> comparison) (l : list A) (n base size : nat) : nat :=
  match n with
  | 0 => base
  | S n' =>
      if 1 <? size then
        let half := size / 2 in
        let mid := base + half in
        let base' := match nth_error l mid with
                     | Some a => match cmp a with Gt => base | _ => mid end
                     | None => base
                     end in
        bs_loop cmp l n' base' (size - half)
      else base
  end.

Definition binary_search_by {A} (cmp : A -> comparison) (l : list A) : nat + nat :=
  let base := bs_loop cmp l (length l) 0 (length l) in
  match nth_error l base with
  | None => inr 0
  | Some a =>
      match cmp a with
      | Eq => inl base
      | Lt => inr (base + 1)
      | Gt => inr base
      end
  end.

(** [slice::sort_by], [sort_by_key], [sort_unstable_by_key]: modelled by (stable)
    insertion sort; [leb x y] says that [x] may stay before [y].  Proofs use only
    that the result is a sorted permutation. *)
Fixpoint insert_by {A} (leb : A -> A -> bool) (x : A) (l : list A) : list A :=
  match l with
  | [] => [x]
  | y :: t => if leb x y then x :: l else y :: insert_by leb x t
  end.

Fixpoint sort_by {A} (leb : A -> A -> bool) (l : list A) : list A :=
  match l with
  | [] => []
  | x :: t => insert_by leb x (sort_by leb t)
  end.
