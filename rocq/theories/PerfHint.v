(** PerfHint: model of /repo/gearley-recognizer/src/perf_hint.rs on a 64-bit
    target.  Arithmetic is checked as in a debug build: overflow is [Panic]. *)
From Coq Require Import ZArith Bool.
From Verif Require Import Base.
Local Open Scope Z_scope.
Local Open Scope res_scope.

(** perf_hint.rs:6-9 *)
Definition ITEMS_PER_SET : Z := 16.
Definition DEFAULT_TOKEN_LIMIT : Z := 64.
Definition DEFAULT_NUM_SYMS : Z := 128.
Definition FOREST_BYTES_PER_RECOGNIZER_BYTE : Z := 2.

(** [mem::size_of] of [Item<()>] (two [u32]s), of [usize], and of [Item<usize>]
    (gearley-forest/src/item.rs:7-16, [Dot] and [Origin] are [u32]). *)
Definition size_of_item_unit : Z := 8.
Definition size_of_usize : Z := 8.
Definition size_of_item_usize : Z := 16.

(** perf_hint.rs:30-34 [DefaultPerfHint] *)
Record perf_hint := mkHint {
  memory_limit : Z;
  token_limit : option Z;
  num_syms : option Z
}.

(** [usize] arithmetic with overflow checks *)
Definition usize (x : Z) : res Z := if (0 <=? x) && (x <? 2 ^ 64) then Ret x else Panic.
(** [isize] arithmetic with overflow checks *)
Definition isize (x : Z) : res Z := if (- 2 ^ 63 <=? x) && (x <? 2 ^ 63) then Ret x else Panic.
(** [x as isize] for a [usize] *)
Definition as_isize (x : Z) : Z := if x <? 2 ^ 63 then x else x - 2 ^ 64.
(** [x as usize] for an [isize] *)
Definition as_usize (x : Z) : Z := if 0 <=? x then x else x + 2 ^ 64.

Definition unwrap_or (o : option Z) (d : Z) : Z := match o with Some x => x | None => d end.

(** perf_hint.rs:67-69 [indices_capacity] *)
Definition indices_capacity (h : perf_hint) : res Z :=
  usize (unwrap_or (token_limit h) DEFAULT_TOKEN_LIMIT + 1).

(** perf_hint.rs:71-74 [bytes_per_set] *)
Definition bytes_per_set (h : perf_hint) : res Z :=
  n <- usize (unwrap_or (num_syms h) DEFAULT_NUM_SYMS + 31) ;;
  bits <- usize (n / 32 * 4) ;;
  items <- usize (ITEMS_PER_SET * size_of_item_unit) ;;
  usize (bits + items).

(** perf_hint.rs:76-79 [forest_use] *)
Definition forest_use (h : perf_hint) : res Z :=
  m <- usize (memory_limit h * FOREST_BYTES_PER_RECOGNIZER_BYTE) ;;
  Ret (m / (FOREST_BYTES_PER_RECOGNIZER_BYTE + 1)).

(** perf_hint.rs:98-105 [completion_capacity] *)
Definition completion_capacity (h : perf_hint) : Z :=
  if memory_limit h <=? 999 then 16
  else if memory_limit h <=? 499999 then 32
  else if memory_limit h <=? 2000000 then 64
  else 128.

(** perf_hint.rs:81-86 [chart_use] *)
Definition chart_use (h : perf_hint) : res Z :=
  fu <- forest_use h ;;
  a <- isize (as_isize (memory_limit h) - as_isize fu) ;;
  ic <- indices_capacity h ;;
  iu <- usize (ic * size_of_usize) ;;
  b <- isize (a - as_isize iu) ;;
  cu <- usize (completion_capacity h * size_of_item_usize) ;;
  isize (b - as_isize cu).

(** perf_hint.rs:88-90 [set_use]; Rust's [/] on [isize] truncates *)
Definition set_use (h : perf_hint) : res Z :=
  cu <- chart_use h ;;
  bs <- bytes_per_set h ;;
  (if as_isize bs =? 0 then Panic else Ret tt) ;;;
  Ret (as_usize (Z.max (Z.quot cu (as_isize bs)) 32)).

(** perf_hint.rs:107-112 [medial_capacity]: (chart_capacity, indices_capacity) *)
Definition medial_capacity (h : perf_hint) : res (Z * Z) :=
  s1 <- set_use h ;;
  c <- usize (s1 * ITEMS_PER_SET) ;;
  s2 <- set_use h ;;
  Ret (c, s2).
