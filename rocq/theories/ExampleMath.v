(** ExampleMath: model of /repo/gearley-example-grammars/src/precedenced_math/mod.rs and
    ambiguous_math/mod.rs, and of the client of /repo/gearley/tests/tests.rs:14-25 and
    /repo/gearley/benches/benches.rs:35-43 that parses and evaluates.

    An [i32] is an integer; [None] stands for a computation that panicked (overflow,
    division by zero, index out of range, [unreachable!]), and a value computed from
    such a one is again [None].  [println!] is left out. *)
From Coq Require Import List Arith Bool ZArith Ascii String.
From Verif Require Import Base Vec2d Item Grammar DefaultGrammar Forest Recognizer Parse SimpleBocage.
Import ListNotations.
Local Open Scope res_scope.
Local Open Scope list_scope.

(** [i32] arithmetic with overflow checks *)
Definition i32 (z : Z) : option Z := if ((-2147483648 <=? z) && (z <=? 2147483647))%Z then Some z else None.
Definition i32_op (f : Z -> Z -> Z) (x y : option Z) : option Z :=
  match x, y with Some x, Some y => i32 (f x y) | _, _ => None end.
Definition i32_div (x y : option Z) : option Z :=
  match y with Some 0%Z => None | _ => i32_op Z.quot x y end.

(** [args.next().copied().unwrap_or(!0)], [i] arguments later *)
Definition arg (args : list (option Z)) (i : nat) : option Z := nth i args (Some (-1)%Z).

(** precedenced_math/mod.rs:54-79, ambiguous_math/mod.rs:36-66: all arguments have been
    evaluated before *)
Definition strictly (args : list (option Z)) (v : option Z) : option Z :=
  if forallb (fun a => match a with Some _ => true | None => false end) args then v else None.

(** precedenced_math/mod.rs:75, ambiguous_math/mod.rs:61: [a0 * 10 + a1] *)
Definition digit_number (a0 a1 : option Z) : option Z := i32_op Z.add (i32_op Z.mul a0 (Some 10%Z)) a1.

(** precedenced_math/mod.rs:50-52 [leaf] *)
Definition prec_leaf (terminal : sym) (_ : nat) : option Z :=
  nth_error [0; 0; 0; 0; 0; 0; 0; 0; 0; 0; 0; 1; 2; 3; 4; 5; 6; 7; 8; 9]%Z terminal.

(** precedenced_math/mod.rs:54-79 [product] *)
Definition prec_product (action : nat) (args : list (option Z)) : option Z :=
  let a0 := arg args 0 in
  let a1 := arg args 1 in
  let a2 := arg args 2 in
  strictly args
    match action with
    | 0 => i32_op Z.add a0 a2
    | 1 => i32_op Z.sub a0 a2
    | 2 => a0
    | 3 => i32_op Z.mul a0 a2
    | 4 => i32_div a0 a2
    | 5 => a0
    | 6 => a1
    | 7 => a0
    | 8 | 10 | 12 | 14 | 16 | 18 | 20 | 22 | 24 | 26 => digit_number a0 a1
    | 9 | 11 | 13 | 15 | 17 | 19 | 21 | 23 | 25 | 27 => a0
    | _ => None
    end.

(** precedenced_math/mod.rs:45-84 [Evaluator]; [nulling] is [unreachable!] *)
Definition prec_eval : evaluator (option Z) :=
  mkEval prec_leaf prec_product (fun _ results => results ++ [None]) (Some 0%Z).

(** ambiguous_math/mod.rs:31-34 [leaf] *)
Definition amath_leaf (terminal : sym) (_ : nat) : option Z :=
  nth_error [0; 0; 0; 0; 1; 2; 3; 0; 1; 2; 3; 4; 5; 6; 7; 8; 9]%Z terminal.

(** ambiguous_math/mod.rs:36-66 [product] *)
Definition amath_product (action : nat) (args : list (option Z)) : option Z :=
  let a0 := arg args 0 in
  let a1 := arg args 1 in
  let a2 := arg args 2 in
  strictly args
    match action with
    | 0 =>
        match a1 with
        | Some 0%Z => i32_op Z.add a0 a2
        | Some 1%Z => i32_op Z.sub a0 a2
        | Some 2%Z => i32_op Z.mul a0 a2
        | Some 3%Z => i32_div a0 a2
        | _ => None
        end
    | 1 => a0
    | 2 => Some 0%Z
    | 3 => Some 1%Z
    | 4 => Some 2%Z
    | 5 => Some 3%Z
    | 6 | 8 | 10 | 12 | 14 | 16 | 18 | 20 | 22 | 24 => digit_number a0 a1
    | 7 | 9 | 11 | 13 | 15 | 17 | 19 | 21 | 23 | 25 => a0
    | _ => None
    end.

(** ambiguous_math/mod.rs:26-71 [Evaluator] *)
Definition amath_eval : evaluator (option Z) :=
  mkEval amath_leaf amath_product (fun _ results => results ++ [None]) (Some 0%Z).

(** [str::find] of a character, in a string of one-byte characters *)
Fixpoint find_char (chars : list ascii) (ch : ascii) : option nat :=
  match chars with
  | [] => None
  | a :: chars => if Ascii.eqb a ch then Some 0 else option_map S (find_char chars ch)
  end.

(** precedenced_math/mod.rs:86-101 and ambiguous_math/mod.rs:73-88 [tokenize]; [offset]
    is 4 resp. 3; the symbols are 0, 1, 2, ... *)
Definition tokenize_math (chars : string) (offset : nat) (input : string) : res (list sym) :=
  mapM (fun ch => pos <- unwrap (find_char (list_ascii_of_string chars) ch) ;;
                  idx (seq 0 (String.length chars + offset)) (pos + offset))
       (list_ascii_of_string input).
Definition prec_tokenize : string -> res (list sym) := tokenize_math "+-*/()0123456789" 4.
Definition amath_tokenize : string -> res (list sym) := tokenize_math "+-*/0123456789" 3.

(** The client: tests.rs:19-25, benches.rs:36-41.  [expect] and the assertion that the
    parse succeeded panic otherwise. *)
Definition parse_and_evaluate {E} (ev : evaluator E) (P : perf) (g : dgrammar) (fuel : nat) (tokens : list sym)
  : res (list E) :=
  b0 <- bocage_new (g_forest_info g) ;;
  st <- r_new g b0 ;;
  '(r, st) <- parse simple_forest P g fuel st tokens ;;
  match r with
  | POk true =>
      o <- finished_node simple_forest g st ;;
      h <- unwrap o ;;
      '(vs, _) <- evaluate ev fuel (r_forest st) h ;;
      Ret vs
  | _ => Panic
  end.

(** tests.rs:16-25: tokenise, parse, evaluate *)
Definition calculate {E} (tokenize : string -> res (list sym)) (ev : evaluator E) (P : perf) (g : dgrammar) (fuel : nat)
  (input : string) : res (list E) :=
  tokens <- tokenize input ;;
  parse_and_evaluate ev P g fuel tokens.

(** An evaluator that notes what [leaf] is given *)
Definition collect : evaluator (list (sym * nat)) :=
  mkEval (fun s v => [(s, v)]) (fun _ args => List.concat args) (fun _ results => results ++ [[]]) [].

(** An evaluator that maps the terminals it is given back to the user's symbols (with
    [Grammar::to_external]) before it hands them to [ev]. *)
Definition with_external {E} (g : dgrammar) (ev : evaluator E) (unknown : E) : evaluator E :=
  mkEval (fun s v => match to_external g s with Ret t => ev_leaf ev t v | _ => unknown end)
         (ev_product ev) (ev_nulling ev) (ev_default ev).

(** ** The grammars

    precedenced_math/mod.rs:12-43 and ambiguous_math/mod.rs:12-24 [grammar], as they look
    after [DefaultGrammar::from_grammar] has wrapped, binarised and renumbered them.  The
    end of input gets the smallest number (default-grammar lib.rs:263); the others keep
    their order: the user's symbols, then the root and the start of input, then the
    generated symbols. *)
Definition no_event : rule_dot := mkDot (None, None) None.
Definition plain_rule (l : sym) (r : list sym) (origin : option nat) : prule :=
  mkRule l r origin None [Some no_event; Some no_event; Some no_event].

(** 0 eof, 1 sum, 2 product, 3 factor, 4 number, 5 plus, 6 minus, 7 mul, 8 div,
    9 lparen, 10 rparen, 11-20 digits, 21 root, 22 sof, 23-28 generated *)
Definition prec : pcfg := {|
  c_rules :=
    [ plain_rule 1 [24; 2] (Some 0); plain_rule 1 [25; 2] (Some 1); plain_rule 1 [2] (Some 2);
      plain_rule 2 [26; 3] (Some 3); plain_rule 2 [27; 3] (Some 4); plain_rule 2 [3] (Some 5);
      plain_rule 3 [28; 10] (Some 6); plain_rule 3 [4] (Some 7) ] ++
    flat_map (fun i => [plain_rule 4 [11 + i; 4] (Some (8 + 2 * i)); plain_rule 4 [11 + i] (Some (9 + 2 * i))]) (seq 0 10) ++
    [ plain_rule 21 [23; 0] None;
      plain_rule 23 [22; 1] None;
      plain_rule 24 [1; 5] None; plain_rule 25 [1; 6] None;
      plain_rule 26 [2; 7] None; plain_rule 27 [2; 8] None;
      plain_rule 28 [9; 1] None ];
  c_num_syms := 29;
  c_roots := [21];
  c_wrapped := [mkWrapped 21 22 0 1] |}.
Definition prec_maps : mapping := mkMapping (map (fun i => Some (i + 1)) (seq 0 20)) (22 :: seq 0 22).

(** 0 eof, 1 expr, 2 op, 3 num, 4 plus, 5 minus, 6 mul, 7 div, 8-17 digits, 18 root,
    19 sof, 20, 21 generated *)
Definition amath : pcfg := {|
  c_rules :=
    [ plain_rule 1 [21; 1] (Some 0); plain_rule 1 [3] (Some 1);
      plain_rule 2 [4] (Some 2); plain_rule 2 [5] (Some 3); plain_rule 2 [6] (Some 4); plain_rule 2 [7] (Some 5) ] ++
    flat_map (fun i => [plain_rule 3 [8 + i; 3] (Some (6 + 2 * i)); plain_rule 3 [8 + i] (Some (7 + 2 * i))]) (seq 0 10) ++
    [ plain_rule 18 [20; 0] None;
      plain_rule 20 [19; 1] None;
      plain_rule 21 [1; 2] None ];
  c_num_syms := 22;
  c_roots := [18];
  c_wrapped := [mkWrapped 18 19 0 1] |}.
Definition amath_maps : mapping := mkMapping (map (fun i => Some (i + 1)) (seq 0 17)) (19 :: seq 0 19).
