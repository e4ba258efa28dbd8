(** BitMatrix: the operations of the external crate [bit-matrix] used by /repo,
    on lists of rows of Booleans.  The crate is not part of /repo; these
    definitions are part of the trusted base. *)
From Coq Require Import List Arith Bool.
From Verif Require Import Base.
Import ListNotations.
Local Open Scope res_scope.

Definition bitrow := list bool.
Definition bitmatrix := list bitrow.

(** [BitMatrix::new(rows, cols)] *)
Definition bm_new (rows cols : nat) : bitmatrix := repeat (repeat false cols) rows.

(** [matrix[row].get(col)], [matrix[(row, col)]] *)
Definition bm_get (m : bitmatrix) (r c : nat) : res bool :=
  row <- idx m r ;; idx row c.

(** [matrix.set(row, col, true)] *)
Definition bm_set (m : bitmatrix) (r c : nat) : res bitmatrix :=
  row <- idx m r ;;
  row' <- upd row c true ;;
  upd m r row'.

(** [for (dst, src) in dst.iter_blocks_mut().zip(src.iter_blocks()) { *dst |= src }] *)
Fixpoint row_or (dst src : bitrow) : bitrow :=
  match dst, src with
  | d :: dt, s :: st => (d || s) :: row_or dt st
  | _, _ => dst
  end.

(** [BitMatrix::transitive_closure]: Warshall's algorithm, one pass per column. *)
Definition tc_step (m : bitmatrix) (k : nat) : bitmatrix :=
  match nth_error m k with
  | None => m
  | Some rk => map (fun row => if nth k row false then row_or row rk else row) m
  end.

Definition transitive_closure (m : bitmatrix) : bitmatrix :=
  fold_left tc_step (seq 0 (length m)) m.

(** [BitMatrix::reflexive_closure]: set the diagonal. *)
Fixpoint refl_rows (i : nat) (m : bitmatrix) : bitmatrix :=
  match m with
  | [] => []
  | row :: t => set_nth row i true :: refl_rows (S i) t
  end.

Definition reflexive_closure (m : bitmatrix) : bitmatrix := refl_rows 0 m.

(** [BitMatrix::grow(1, false)] for a matrix with [cols] columns *)
Definition bm_grow1 (cols : nat) (m : bitmatrix) : bitmatrix := m ++ [repeat false cols].

(** [BitMatrix::truncate(rows)] *)
Definition bm_truncate (m : bitmatrix) (rows : nat) : bitmatrix := firstn rows m.
