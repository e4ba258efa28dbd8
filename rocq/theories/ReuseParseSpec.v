(** ReuseParseSpec: one forest used for several parses, with evaluations in between. *)
From Coq Require Import List Arith Bool.
From Verif Require Import Base Item Grammar DefaultGrammar Forest Recognizer Drive ClientSpec Spec ChartSpec SimpleBocage EvalSpec TreeSpec.
Import ListNotations.
Local Open Scope res_scope.

Inductive use (E : Type) :=
| Parse (h0 : option sym) (rest : list location)   (* hint after the start, then the locations *)
| Value (ev : evaluator E) (i : nat).              (* evaluate the finished node of parse [i] *)
Arguments Parse {E}.
Arguments Value {E}.

(** gearley-recognizer/src/recognizer.rs:85-88 [with_forest], then the parse, 383-385
    [into_forest]; simple-bocage/src/traverse.rs:24-164 [evaluate].  The finished nodes of
    all parses are kept, with none for a rejected input. *)
Definition use_step {E} (P : perf) (g : dgrammar) (w : wrapped_root) (fuel : nat)
  (st : list (option nat) * bocage * list (list E)) (m : use E) : res (list (option nat) * bocage * list (list E)) :=
  let '(hs, b, out) := st in
  match m with
  | Parse h0 rest =>
      '(o, b) <- (st <- r_new g b ;; parse_forest simple_forest P g fuel (from_start w h0 rest) st) ;;
      Ret (hs ++ [o], b, out)
  | Value ev i =>
      o <- idx hs i ;;
      h <- unwrap o ;;
      '(vs, b) <- evaluate ev fuel b h ;;
      Ret (hs, b, out ++ [vs])
  end.
Definition uses {E} (P : perf) (g : dgrammar) (w : wrapped_root) (fuel : nat) (ms : list (use E)) (b : bocage) : res (list (list E)) :=
  '(_, _, out) <- foldM (use_step P g w fuel) ms ([], b, []) ;; Ret out.

(** one parse with a new forest, and one evaluation of its finished node *)
Definition alone {E} (P : perf) (g : dgrammar) (w : wrapped_root) (fuel : nat) (ev : evaluator E)
  (h0 : option sym) (rest : list location) : res (list E) :=
  b <- bocage_new (g_forest_info g) ;;
  '(o, b) <- (st <- r_new g b ;; parse_forest simple_forest P g fuel (from_start w h0 rest) st) ;;
  h <- unwrap o ;;
  '(vs, _) <- evaluate ev fuel b h ;;
  Ret vs.

(** The rule of the empty input, [g0 ::= sof], comes from [g0 ::= sof start]: what was
    left out of it stands on the right and is the start symbol.
    gearley-default-grammar/src/lib.rs:97 [wrap_input] wraps the start symbol in that way,
    and the elimination of nulling rules after it notes what it leaves out. *)
Definition start_left_out (c : pcfg) (w : wrapped_root) : Prop :=
  forall r, In r (c_rules c) -> p_rhs r = [w_sof w] -> p_nullable r = None \/ p_nullable r = Some (w_inner w, true).

(** The evaluation of the finished node of an input is claimed for every input but the
    empty one, and for the empty one if what [nulling] leaves for the start symbol are the
    values of the start symbol elsewhere. *)
Definition evaluable {E} (c : pcfg) (w : wrapped_root) (ev : evaluator E) (nulls : sym -> list E) (rest : list location) : Prop :=
  rest <> [] \/ (start_left_out c w /\ ev_nulling ev (w_inner w) [] = nulls (w_inner w)).

(** with a new forest, building the nodes for an input ends *)
Definition parse_ends (P : perf) (g : dgrammar) (w : wrapped_root) (h0 : option sym) (rest : list location) : Prop :=
  exists fuel, (b <- bocage_new (g_forest_info g) ;; st <- r_new g b ;; parse_forest simple_forest P g fuel (from_start w h0 rest) st) <> NoFuel.

(** [as_alone P g w c nsyms given before ms out]: after parses of the inputs [before], the
    evaluations among [ms] give [out]: each what it gives alone.  All inputs are [given]. *)
Inductive as_alone {E} (P : perf) (g : dgrammar) (w : wrapped_root) (c : pcfg) (nsyms : nat)
  (given : option sym -> list location -> Prop) :
  list (option sym * list location) -> list (use E) -> list (list E) -> Prop :=
| as_nil : forall before, as_alone P g w c nsyms given before [] []
| as_parse : forall before h0 rest ms out,
    in_range c nsyms h0 rest -> given h0 rest -> as_alone P g w c nsyms given (before ++ [(h0, rest)]) ms out ->
    as_alone P g w c nsyms given before (Parse h0 rest :: ms) out
| as_value : forall before ev nv nulls i h0 rest vs ms out,
    pushes ev nv -> nulls_ok (g_forest_info g) nv nulls ->
    nth_error before i = Some (h0, rest) -> evaluable c w ev nulls rest ->
    (exists n, forall fuel, n <= fuel -> alone P g w fuel ev h0 rest = Ret vs) ->
    as_alone P g w c nsyms given before ms out ->
    as_alone P g w c nsyms given before (Value ev i :: ms) (vs :: out).
