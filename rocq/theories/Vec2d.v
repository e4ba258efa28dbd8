(** Vec2d: model of /repo/gearley-vec2d/src/lib.rs.

    A [Vec2d<I>] is a flat vector [chart] and a vector [indices] of set starts.
    Capacities are not modelled (they have no observable effect).
    [last_mut] is modelled by [v_set_last], which stores a new last set. *)
From Coq Require Import List Arith.
From Verif Require Import Base.
Import ListNotations.
Local Open Scope res_scope.

(** lib.rs:9-12 *)
Record vec2d (A : Type) := mkV { chart : list A; indices : list nat }.
Arguments mkV {A} chart indices.
Arguments chart {A} _.
Arguments indices {A} _.

Section Vec2d.
  Context {A : Type}.
  Implicit Type v : vec2d A.

  (** lib.rs:21-33 [new], [with_capacity]; lib.rs:132-139 [default]. *)
  Definition v_new : vec2d A := mkV [] [0].

  (** lib.rs:35-42 [clear]. *)
  Definition v_clear v : vec2d A := mkV [] [0].

  (** [self.indices.last().unwrap()], used at lib.rs:52, 54, 64, 69. *)
  Definition v_last_index v : res nat :=
    match indices v with
    | [] => Panic
    | i :: t => Ret (last t i)
    end.

  (** lib.rs:46-56 [truncate].  [copy_within(src.., dest)] panics unless
      [src <= len] and [dest <= len - (len - src)]. *)
  Definition v_truncate v (new_len : nat) : res (vec2d A) :=
    new_start <- idx (indices v) new_len ;;
    li <- v_last_index v ;;
    let len := length (chart v) in
    assert (li <=? len) ;;;
    let count := len - li in
    assert (new_start <=? len - count) ;;;
    let chart1 := firstn new_start (chart v) ++ skipn li (chart v)
                    ++ skipn (new_start + count) (chart v) in
    Ret (mkV (firstn (len + new_start - li) chart1)
             (firstn (new_len + 1) (indices v))).

  (** lib.rs:58-60 [truncate_chart]. *)
  Definition v_truncate_chart v (new_len : nat) : vec2d A :=
    mkV (firstn new_len (chart v)) (indices v).

  (** lib.rs:62-65 [last]. *)
  Definition v_last v : res (list A) :=
    li <- v_last_index v ;;
    assert (li <=? length (chart v)) ;;;
    Ret (skipn li (chart v)).

  (** lib.rs:67-70 [last_mut], as replacement of the last set by [l]
      (the caller provides a list of the same length). *)
  Definition v_set_last v (l : list A) : res (vec2d A) :=
    li <- v_last_index v ;;
    assert (li <=? length (chart v)) ;;;
    Ret (mkV (firstn li (chart v) ++ l) (indices v)).

  (** lib.rs:72-75 [last_item]. *)
  Definition v_last_item v : option A :=
    match chart v with
    | [] => None
    | a :: t => Some (last t a)
    end.

  (** lib.rs:77-80 [get_item]. *)
  Definition v_get_item v (i : nat) : option A := nth_error (chart v) i.

  (** lib.rs:82-85 [push_item]. *)
  Definition v_push_item v (a : A) : vec2d A := mkV (chart v ++ [a]) (indices v).

  (** lib.rs:87-90 [pop_item]. *)
  Definition v_pop_item v : option A * vec2d A :=
    (v_last_item v, mkV (removelast (chart v)) (indices v)).

  (** lib.rs:92-95 [item_count]. *)
  Definition v_item_count v : nat := length (chart v).

  (** lib.rs:97-99 [index_at]. *)
  Definition v_index_at v (i : nat) : res nat := idx (indices v) i.

  (** lib.rs:106-108 [next_set]. *)
  Definition v_next_set v : vec2d A := mkV (chart v) (indices v ++ [length (chart v)]).

  (** lib.rs:101-104 [extend_with_set]. *)
  Definition v_extend_with_set v (s : list A) : vec2d A :=
    v_next_set (mkV (chart v ++ s) (indices v)).

  (** lib.rs:110-112 [len]. *)
  Definition v_len v : nat := length (indices v).

  (** lib.rs:115-121 [index]. *)
  Definition v_index v (i : nat) : res (list A) :=
    a <- idx (indices v) i ;;
    b <- idx (indices v) (i + 1) ;;
    assert ((a <=? b) && (b <=? length (chart v))) ;;;
    Ret (firstn (b - a) (skipn a (chart v))).

  (** lib.rs:141-147 [extend]. *)
  Definition v_extend v (sets : list (list A)) : vec2d A :=
    fold_left v_extend_with_set sets v.

  (** lib.rs:123-129 [from_iter]. *)
  Definition v_from_iter (sets : list (list A)) : vec2d A := v_extend v_new sets.
End Vec2d.
