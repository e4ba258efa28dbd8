(** Cartesian: model of /repo/gearley-utils/src/cartesian_product.rs.

    Raw pointers are modelled by the slice they were taken from and an offset into
    it.  Reading a pointer that is not inside its slice is undefined behaviour in
    Rust and [Panic] here.  Elements are assumed not to be zero-sized (for a
    zero-sized type the address of the end of a slice is that of its start). *)
From Coq Require Import List Arith Bool.
From Verif Require Import Base.
Import ListNotations.
Local Open Scope res_scope.

Section Cartesian.
  Context {V : Type}.

  (** A [&'a [V]]: where it lives in memory, and its elements. *)
  Record slice := mkSlice { s_addr : nat; s_elems : list V }.

  (** A [&'a V] obtained from a slice. *)
  Record ptr := mkPtr { p_slice : slice; p_off : nat }.

  (** cartesian_product.rs:3-7 [Factor], 10-19 [Factor::new]: [start] is offset 0
      and [end] is offset [len] of the slice. *)
  Definition factor := slice.

  (** [ptr as *const _ == self.end] *)
  Definition at_end (f : factor) (p : ptr) : bool :=
    (s_addr (p_slice p) =? s_addr f) && (p_off p =? length (s_elems f)).

  (** cartesian_product.rs:21-31 [Factor::advance] *)
  Definition factor_advance (f : factor) (p : ptr) : bool * ptr :=
    let p' := mkPtr (p_slice p) (p_off p + 1) in
    if at_end f p' then (true, mkPtr f 0) else (false, p').

  (** cartesian_product.rs:34-37 [CartesianProduct] *)
  Record cartesian := mkCart { c_ptrs : list ptr; c_ranges : list factor }.

  (** cartesian_product.rs:40-45 [new]; the capacities are not modelled *)
  Definition cp_new : cartesian := mkCart [] [].

  (** cartesian_product.rs:47-50 [clear] *)
  Definition cp_clear (c : cartesian) : cartesian := mkCart [] [].

  (** cartesian_product.rs:53-59 [push] *)
  Definition cp_push (c : cartesian) (s : slice) : cartesian :=
    let ranges := c_ranges c ++ [s] in
    mkCart (c_ptrs c ++ [mkPtr s 0]) ranges.

  (** cartesian_product.rs:62-72 [extend] (with its "FIXME wrong range") *)
  Definition cp_extend (c : cartesian) (product : list slice) : cartesian :=
    let ranges := c_ranges c ++ product in
    mkCart (c_ptrs c ++ map (fun f => mkPtr f 0) ranges) ranges.

  (** cartesian_product.rs:74-76 [as_slice], together with reading the elements *)
  Definition cp_read (c : cartesian) : res (list V) :=
    mapM (fun p => idx (s_elems (p_slice p)) (p_off p)) (c_ptrs c).

  (** cartesian_product.rs:79: [ptrs.iter_mut().zip(&mut ranges)]; pointers without
      a range are not touched. *)
  Fixpoint advance_zip (ps : list ptr) (fs : list factor) : bool * list ptr :=
    match ps, fs with
    | p :: ps', f :: fs' =>
        let '(carry, p') := factor_advance f p in
        if negb carry then (true, p' :: ps')
        else let '(b, ps'') := advance_zip ps' fs' in (b, p' :: ps'')
    | _, _ => (false, ps)
    end.

  (** cartesian_product.rs:78-85 [advance] *)
  Definition cp_advance (c : cartesian) : bool * cartesian :=
    let '(b, ps) := advance_zip (c_ptrs c) (c_ranges c) in
    (b, mkCart ps (c_ranges c)).

  (** The client loop of the module's test (cartesian_product.rs:96-104): read,
      advance, stop when [advance] returns false.  Returns what was read and the
      final iterator. *)
  Fixpoint cp_loop (fuel : nat) (c : cartesian) : res (list (list V) * cartesian) :=
    match fuel with
    | 0 => NoFuel
    | S fuel' =>
        vs <- cp_read c ;;
        let '(more, c') := cp_advance c in
        if more then
          '(rest, last) <- cp_loop fuel' c' ;;
          Ret (vs :: rest, last)
        else Ret ([vs], c')
    end.
End Cartesian.
Arguments slice : clear implicits.
Arguments cartesian : clear implicits.
Arguments ptr : clear implicits.
