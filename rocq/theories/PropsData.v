(** PropsData: properties C10, C13, C36 (data structures).  Proofs are in
    HeapProofs.v, Vec2dProofs.v and DataProofs.v. *)
From Coq Require Import List Arith Lia Permutation.
From Verif Require Import Base Item Heap Vec2d BaseProofs HeapProofs Vec2dProofs DataProofs.
Import ListNotations.

(** C10.  Whatever the sequence of pushes and pops, starting from an empty heap: no
    panic; every pop returns a stored item with the greatest (origin, dot) key, or
    nothing if the heap is empty ([bag_run]); and the items that came out together
    with those still stored are exactly those pushed. *)
Theorem C10_heap_is_priority_queue : forall N (ops : list (heap_op N)),
  exists outs h, run_heap ops [] = Ret (outs, h) /\ bag_run ops [] outs h /\
    Permutation (pushed ops) (somes outs ++ h).
Proof.
  intros N ops. destruct (heap_refines_bag N ops [] heap_ok_nil) as (outs & h & E & B).
  exists outs, h. repeat split; auto.
  rewrite <- (bag_conserves _ _ _ _ _ B). now rewrite app_nil_r.
Qed.
Print Assumptions C10_heap_is_priority_queue.

Example C10_example :
  run_heap [Push (mkItem 1 0 tt); Push (mkItem 0 2 tt); Push (mkItem 5 1 tt); Pop;
            Push (mkItem 6 1 tt); Pop; Pop; Pop; Pop] []
  = Ret ([Some (mkItem 0 2 tt); Some (mkItem 6 1 tt); Some (mkItem 5 1 tt); Some (mkItem 1 0 tt); None], []).
Proof. reflexivity. Qed.

(** C13.  A new Vec2d, or one made from given sets, put through any sequence of
    operations that stays within the contract of the abstract value (closed sets
    [cs], open set [o]) runs without panic and leaves a Vec2d whose answers are those
    of the abstract value; truncating to more sets than there are, or reading a set
    that is not closed, panics. *)
Theorem C13_vec2d_refines_sets : forall A (ops : list (vec_op A)),
  (forall cs o, abs_run ops ([], []) = Some (cs, o) ->
     exists v, foldM vec_step ops v_new = Ret v /\ vec_answers v cs o) /\
  (forall sets cs o, abs_run ops (sets, []) = Some (cs, o) ->
     exists v, foldM vec_step ops (v_from_iter sets) = Ret v /\ vec_answers v cs o).
Proof.
  intros A ops. split.
  - intros cs o H. destruct (vec_run_refines A ops v_new [] [] cs o rep_new H) as (v & E & R).
    exists v. split; auto. now apply rep_answers.
  - intros sets cs o H. destruct (vec_run_refines A ops (v_from_iter sets) sets [] cs o (rep_from_iter A sets) H) as (v & E & R).
    exists v. split; auto. now apply rep_answers.
Qed.
Print Assumptions C13_vec2d_refines_sets.

Example C13_example :
  abs_run [VPush 1; VPush 2; VNext; VPush 3; VNext; VNext; VPush 4; VPush 5; VTruncate 1; VPop] ([], [])
  = Some ([[1; 2]], [4]) /\
  abs_run [VPush 4; VNext; VTruncate 2] ([[1; 2]; [3]], []) = Some ([[1; 2]; [3]], []).
Proof. split; reflexivity. Qed.

(** C36.  Comparison of items is the lexicographic order of (origin, dot): a total
    order whose equality is the equality of keys; nodes do not matter. *)
Theorem C36_item_order : forall N,
  (forall a b : item N, item_cmp a b =
     match Nat.compare (it_origin a) (it_origin b) with Eq => Nat.compare (it_dot a) (it_dot b) | c => c end) /\
  (forall a b : item N, item_eqb a b = true <-> it_origin a = it_origin b /\ it_dot a = it_dot b) /\
  (forall a b : item N, item_cmp a b = Eq <-> item_eqb a b = true) /\
  (forall a b : item N, item_cmp b a = CompOpp (item_cmp a b)) /\
  (forall a b c : item N, item_cmp a b = Lt -> item_cmp b c = Lt -> item_cmp a c = Lt) /\
  (forall a b : item N, item_leb a b = true <-> key_le a b) /\
  (forall a a' b b' : item N, it_dot a = it_dot a' -> it_origin a = it_origin a' ->
     it_dot b = it_dot b' -> it_origin b = it_origin b' -> item_cmp a b = item_cmp a' b').
Proof. exact item_order. Qed.
Print Assumptions C36_item_order.

Example C36_example : item_cmp (mkItem 7 1 true) (mkItem 0 2 false) = Lt.
Proof. reflexivity. Qed.
