(** Heap: model of /repo/gearley-recognizer/src/binary_heap.rs.

    The heap is the field [complete : BinaryHeap<Item<_>>] of the recognizer, a
    vector.  The [while] loops of [sift_up] and [sift_down_range] carry a
    structural bound [n]; the length of the vector is used, and [NoFuel] is
    returned should it be too small (proved impossible). *)
From Coq Require Import List Arith Bool.
From Verif Require Import Base Item.
Import ListNotations.
Local Open Scope res_scope.

Section Heap.
  Context {N : Type}.
  Implicit Type h : list (item N).

  (** binary_heap.rs:35-37 [heap_peek]. *)
  Definition heap_peek h : option (item N) := nth_error h 0.

  (** binary_heap.rs:182-195 [sift_up], loop body and final store. *)
  Fixpoint sift_up_loop (n : nat) (element : item N) (start pos : nat) h : res (list (item N)) :=
    if start <? pos then
      match n with
      | 0 => NoFuel
      | S n' =>
          let parent := (pos - 1) / 2 in
          parent_item <- idx h parent ;;
          if item_leb element parent_item then upd h pos element
          else
            h' <- upd h pos parent_item ;;
            sift_up_loop n' element start parent h'
      end
    else upd h pos element.

  Definition sift_up (start pos : nat) h : res (list (item N)) :=
    element <- idx h pos ;;
    sift_up_loop (length h) element start pos h.

  (** binary_heap.rs:174-178 [heap_push]. *)
  Definition heap_push (x : item N) h : res (list (item N)) :=
    sift_up 0 (length h) (h ++ [x]).

  (** binary_heap.rs:59-77 [sift_down_range]. *)
  Fixpoint sift_down_loop (n : nat) (element : item N) (pos child end_ : nat) h
    : res (list (item N)) :=
    if child <? end_ then
      match n with
      | 0 => NoFuel
      | S n' =>
          let right := child + 1 in
          child' <- (if right <? end_ then
                       l <- idx h child ;;
                       r <- idx h right ;;
                       Ret (if negb (item_gtb l r) then right else child)
                     else Ret child) ;;
          c <- idx h child' ;;
          if item_geb element c then upd h pos element
          else
            h' <- upd h pos c ;;
            sift_down_loop n' element child' (2 * child' + 1) end_ h'
      end
    else upd h pos element.

  Definition sift_down_range (pos end_ : nat) h : res (list (item N)) :=
    element <- idx h pos ;;
    sift_down_loop (length h) element pos (2 * pos + 1) end_ h.

  (** binary_heap.rs:79-82 [sift_down]. *)
  Definition sift_down (pos : nat) h : res (list (item N)) :=
    sift_down_range pos (length h) h.

  (** binary_heap.rs:46-55 [heap_pop]: pop the last element, swap it with the
      first unless the vector became empty, and sift down. *)
  Definition heap_pop h : res (option (item N) * list (item N)) :=
    match h with
    | [] => Ret (None, [])
    | x :: t =>
        let lst := last t x in
        let rest := removelast h in
        match rest with
        | [] => Ret (Some lst, [])
        | top :: _ =>
            h1 <- upd rest 0 lst ;;
            h2 <- sift_down 0 h1 ;;
            Ret (Some top, h2)
        end
    end.
End Heap.
