(** Item: model of /repo/gearley-forest/src/item.rs. *)
From Coq Require Import Arith Bool.

(** item.rs:6-17 [Item]; [dot] and [origin] are [u32] in Rust. *)
Record item (N : Type) := mkItem { it_dot : nat; it_origin : nat; it_node : N }.
Arguments mkItem {N} it_dot it_origin it_node.
Arguments it_dot {N} _.
Arguments it_origin {N} _.
Arguments it_node {N} _.

Section Item.
  Context {N : Type}.
  Implicit Types a b : item N.

  (** item.rs:19-23 [PartialEq::eq]: compares [(origin, dot)] only. *)
  Definition item_eqb a b : bool :=
    (it_origin a =? it_origin b) && (it_dot a =? it_dot b).

  (** item.rs:29-33 [Ord::cmp] (and 27-31 [partial_cmp]): tuples
      [(origin, dot)] compared lexicographically. *)
  Definition item_cmp a b : comparison :=
    match Nat.compare (it_origin a) (it_origin b) with
    | Eq => Nat.compare (it_dot a) (it_dot b)
    | c => c
    end.

  (** The derived operators [<=], [>=], [>]. *)
  Definition item_leb a b : bool := match item_cmp a b with Gt => false | _ => true end.
  Definition item_geb a b : bool := match item_cmp a b with Lt => false | _ => true end.
  Definition item_gtb a b : bool := match item_cmp a b with Gt => true | _ => false end.
End Item.
