(** CompactGraph: model of /repo/compact-bocage/src/node.rs and graph.rs.

    Bytes and 32-bit fields are binary naturals.  [bytemuck::from_bytes] is modelled
    as reading a little-endian [u32]; its alignment check is not modelled. *)
From Coq Require Import List NArith Arith Bool.
From Verif Require Import Base.
Import ListNotations.
Local Open Scope res_scope.

(** compact-bocage/src/node.rs:7-34 [Node] *)
Inductive cnode : Type :=
| CBeginSum
| CEndSum
| CSummand (action factors : N)
| CProduct (action factors : N)
| CRule (left_factor right_factor : N)
| CLeaf (symbol values : N)
| CNullingLeaf (symbol : N).

(** compact-bocage/src/node.rs:36 [NULL_ACTION] *)
Definition C_NULL_ACTION : N := 4294967295.

(** graph.rs:7-10 [Graph] *)
Definition graph := list N.

(** graph.rs:25-42 and 117-134: discriminant and the two fields *)
Definition fields (n : cnode) : option (N * N * N) :=
  match n with
  | CBeginSum => None
  | CEndSum => None
  | CProduct action factors => Some (2, action, factors)
  | CSummand action factors => Some (3, action, factors)
  | CRule left_factor right_factor => Some (4, left_factor, right_factor)
  | CLeaf symbol values => Some (5, symbol, values)
  | CNullingLeaf symbol => Some (6, symbol, 0)
  end%N.

Local Open Scope N_scope.

(** [u32::to_le_bytes] *)
Definition le_bytes (x : N) : list N :=
  [x mod 256; x / 256 mod 256; x / 65536 mod 256; x / 16777216 mod 256].

(** graph.rs:45-49: [while x != 0 { i += 1; x >>= 8 }]; a [u32] takes at most four
    iterations *)
Fixpoint shifts (n : nat) (x : N) : nat :=
  match n with
  | O => O
  | S n' => if x =? 0 then O else S (shifts n' (x / 256))
  end.

(** graph.rs:43-51: the closure [f], first component *)
Definition byte_len (x : N) : nat := Nat.max (shifts 4 x) 1.

(** graph.rs:24-61 [push] *)
Definition g_push (v : graph) (n : cnode) : graph :=
  match n with
  | CBeginSum => v ++ [0]
  | CEndSum => v ++ [1]
  | _ =>
      match fields n with
      | None => v
      | Some (discr, l, r) =>
          let l_len := byte_len l in
          let r_len := byte_len r in
          let head := N.lor discr (N.lor (N.shiftl (N.of_nat (l_len - 1)) 3)
                                         (N.shiftl (N.of_nat (r_len - 1)) 5)) in
          v ++ head :: firstn l_len (le_bytes l) ++ firstn r_len (le_bytes r)
      end
  end.

(** graph.rs:63-65 [len]: [self.vect.len() as u32] *)
Definition g_len (v : graph) : N := N.of_nat (length v) mod 4294967296.

(** [&v[a..b]] *)
Definition slice_range (v : graph) (a b : nat) : res (list N) :=
  if ((a <=? b) && (b <=? length v))%nat then Ret (firstn (b - a) (skipn a v)) else Panic.

(** a zero-padded little-endian [u32] *)
Definition le_value (bs : list N) : N := fold_right (fun b acc => b + 256 * acc) 0 bs.

(** graph.rs:67-103 [get] *)
Definition g_get (v : graph) (index : N) : res cnode :=
  let index := N.to_nat index in
  head <- idx v index ;;
  let discr := N.land head 7 in
  let one := if 1 <? discr then 1%nat else 0%nat in
  let l_len := (N.to_nat (N.land (N.shiftr head 3) 3) + one)%nat in
  let r_len := (N.to_nat (N.land (N.shiftr head 5) 3) + one)%nat in
  let mid := (index + 1 + l_len)%nat in
  ls <- slice_range v (index + 1) mid ;;
  rs <- slice_range v mid (mid + r_len) ;;
  let l := le_value ls in
  let r := le_value rs in
  match discr with
  | 0 => Ret CBeginSum
  | 1 => Ret CEndSum
  | 2 => Ret (CProduct l r)
  | 3 => Ret (CSummand l r)
  | 4 => Ret (CRule l r)
  | 5 => Ret (CLeaf l r)
  | 6 => Ret (CNullingLeaf l)
  | _ => Panic
  end.

(** graph.rs:105-114 [get_node_size] *)
Definition g_node_size (v : graph) (index : N) : res N :=
  head <- idx v (N.to_nat index) ;;
  let discr := N.land head 7 in
  if discr <? 2 then Ret 1
  else
    let l_len := N.land (N.shiftr head 3) 3 + 1 in
    let r_len := N.land (N.shiftr head 5) 3 + 1 in
    Ret (1 + l_len + r_len).

(** graph.rs:116-138 [push_expanded] *)
Definition g_push_expanded (v : graph) (n : cnode) : graph :=
  match n with
  | CBeginSum => v ++ [0]
  | CEndSum => v ++ [1]
  | _ =>
      match fields n with
      | None => v
      | Some (discr, l, r) =>
          v ++ N.lor discr 120 :: le_bytes l ++ le_bytes r
      end
  end.
