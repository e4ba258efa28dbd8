(** ForestProg: building a forest by calls of the trait, and the trees each of the
    returned nodes represents. *)
From Coq Require Import List Arith Bool.
From Verif Require Import Base Item Grammar Forest Spec SimpleBocage EvalSpec.
Import ListNotations.
Local Open Scope res_scope.

(** A call of gearley-forest/src/forest.rs:7-25.  Nodes are named by the number of
    the call that returned them.  [CallSum s alts] is [begin_sum], one [push_summand]
    for each [(dot, node)] of [alts], then [sum]. *)
Inductive call :=
| CallLeaf (s : sym) (value : nat)
| CallProduct (left_call right_call : nat)
| CallSum (s : sym) (alts : list (nat * nat)).

Section Build.
  Context {F N : Type}.
  Variable fo : forest_ops F N.

  Definition build_call (st : list N * F) (c : call) : res (list N * F) :=
    let '(ns, f) := st in
    match c with
    | CallLeaf s v => '(n, f) <- f_leaf fo s 0 v f ;; Ret (ns ++ [n], f)
    | CallProduct l r =>
        l <- idx ns l ;;
        r <- idx ns r ;;
        '(n, f) <- f_product fo l r f ;;
        Ret (ns ++ [n], f)
    | CallSum s alts =>
        f <- f_begin_sum fo f ;;
        f <- foldM (fun f a => n <- idx ns (snd a) ;; f_push_summand fo (mkItem (fst a) 0 n) f) alts f ;;
        '(n, f) <- f_sum fo s 0 f ;;
        Ret (ns ++ [n], f)
    end.
  Definition build (calls : list call) (f : F) : res (list N * F) := foldM build_call calls ([], f).
End Build.

(** The sequences of trees represented by each call's node, with repetitions: a product
    represents two (or more) consecutive trees, other nodes one. *)
Definition call_trees (before : list (list (list tree))) (c : call) : list (list tree) :=
  match c with
  | CallLeaf s v => [[Leaf s v]]
  | CallProduct l r => flat_map (fun xs => map (fun ys => xs ++ ys) (nth r before [])) (nth l before [])
  | CallSum s alts => flat_map (fun a => map (fun xs => [Node (fst a) xs]) (nth (snd a) before [])) alts
  end.
Definition represented (calls : list call) : list (list (list tree)) :=
  fold_left (fun before c => before ++ [call_trees before c]) calls [].

Definition is_product (c : call) : bool := match c with CallProduct _ _ => true | _ => false end.

(** Calls refer to earlier calls, a sum has an alternative, and the rule of an
    alternative with a single factor is one of the [rules] the forest has records for. *)
Definition call_fine (rules : nat) (before : list call) (c : call) : Prop :=
  match c with
  | CallLeaf _ _ => True
  | CallProduct l r => l < length before /\ r < length before
  | CallSum s alts => alts <> [] /\ forall d i, In (d, i) alts ->
      exists c', nth_error before i = Some c' /\ (is_product c' = false -> d < rules)
  end.
Definition calls_fine (rules : nat) (calls : list call) : Prop :=
  forall i c, nth_error calls i = Some c -> call_fine rules (firstn i calls) c.

(** The values evaluation gives to each call's node, ambiguous or not: the values of
    the alternatives of a sum are strung together, the first alternative last. *)
Section CallValues.
  Context {E : Type}.
  Variable ev : evaluator E.
  Variable fi : forest_info.
  Variable nulls : sym -> list E.

  Definition first_last {A} (l : list A) : list A :=
    match l with
    | [] => []
    | x :: l => l ++ [x]
    end.

  (** [before] are the earlier calls with their values *)
  Definition call_value (before : list (call * list E)) (c : call) : list E :=
    let value_of i := match nth_error before i with Some (_, vs) => vs | None => [] end in
    match c with
    | CallLeaf s v => [ev_leaf ev s v]
    | CallProduct l r => value_of l ++ value_of r
    | CallSum s alts =>
        concat (first_last (map (fun a : nat * nat =>
          let '(d, i) := a in
          reduce ev fi d
            (match nth_error before i with
             | Some (CallProduct _ _, vs) => vs
             | Some (_, vs) => restore fi nulls d vs
             | None => []
             end)) alts))
    end.
  Definition call_values (calls : list call) : list (list E) :=
    map snd (fold_left (fun before c => before ++ [(c, call_value before c)]) calls []).
End CallValues.

(** Call [i] is the root of a complete parse: the wrapper rule applied to the start of
    file and to the node of call [r]. *)
Definition wraps (fi : forest_info) (calls : list call) (i r : nat) : Prop :=
  exists s d p l v, nth_error calls i = Some (CallSum s [(d, p)]) /\
    nth_error calls p = Some (CallProduct l r) /\ nth_error calls l = Some (CallLeaf (fi_sof fi) v).

(** A client that evaluates several roots, one after the other. *)
Definition evaluate_each {E} (ev : evaluator E) (fuel : nat) (roots : list nat) (b : bocage) : res (list (list E) * bocage) :=
  foldM (fun st root => let '(out, b) := st in '(vs, b) <- evaluate ev fuel b root ;; Ret (out ++ [vs], b)) roots ([], b).

(** Evaluating call [i] gives the values of call [r]: either [i] is the root of a
    complete parse and [r] the node below it, or [i] is a sum of several alternatives. *)
Definition evaluated (fi : forest_info) (calls : list call) (i r : nat) : Prop :=
  wraps fi calls i r \/
  (i = r /\ exists s alts, nth_error calls i = Some (CallSum s alts) /\ length alts <> 1).

(** Symbols in the nulling records. *)
Definition mentioned (fi : forest_info) (s : sym) : Prop :=
  (exists d dir, nth_error (fi_nulling_eliminated fi) d = Some (Some (s, dir))) \/
  (exists l a b, In (l, a, b) (fi_nulling_intermediate fi) /\ (s = l \/ s = a \/ s = b)).

(** A client that puts a nulled symbol below the root of a complete parse. *)
Definition wrapped_nulling (s : sym) (d v : nat) (w : sym) (b : bocage) : res (nat * bocage) :=
  '(l, b) <- f_leaf simple_forest (fi_sof (b_info b)) 0 v b ;;
  n <- f_nulling simple_forest s b ;;
  '(p, b) <- f_product simple_forest l n b ;;
  b <- f_begin_sum simple_forest b ;;
  b <- f_push_summand simple_forest (mkItem d 0 p) b ;;
  f_sum simple_forest w 0 b.

(** build, then evaluate the last node *)
Definition build_and_evaluate {E} (ev : evaluator E) (fuel : nat) (fi : forest_info) (calls : list call) : res (list E) :=
  b0 <- bocage_new fi ;;
  '(hs, b) <- build simple_forest calls b0 ;;
  root <- unwrap (hd_error (rev hs)) ;;
  '(vs, _) <- evaluate ev fuel b root ;;
  Ret vs.

