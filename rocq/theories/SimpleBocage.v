(** SimpleBocage: model of /repo/simple-bocage/src/node.rs, bocage.rs and
    traverse.rs, and of /repo/gearley-forest/src/evaluate.rs.

    Handles, counts and actions are naturals: a graph has fewer than 2^32 nodes and
    a grammar fewer than 2^32 - 1 dots.  The action [NULL_ACTION] is [None]. *)
From Coq Require Import List Arith Bool NArith.
From Verif Require Import Base Item Grammar Forest.
Import ListNotations.
Local Open Scope res_scope.

(** node.rs:7-34 [Node] *)
Inductive snode : Type :=
| SSum (nonterminal : sym) (count : nat)
| SProduct (action : option nat) (factors : nat)
| SRule (left_factor right_factor : nat)
| SLeaf (symbol : sym) (values : nat)
| SNulling (symbol : sym).

(** bocage.rs:11-15 [Bocage] *)
Record bocage := mkBocage {
  b_graph : list snode;
  b_info : forest_info;
  b_count : nat
}.

Definition with_graph (b : bocage) (g : list snode) : bocage := mkBocage g (b_info b) (b_count b).

(** bocage.rs:57-59 [nulling_symbol_count] *)
Definition nulling_symbol_count (fi : forest_info) : nat :=
  match max_nulling_symbol fi with Some m => m | None => 0 end.

(** bocage.rs:43-54: one iteration of the loop over the nulling intermediate rules;
    gearley-forest/src/node_handle.rs:10-12 [NodeHandle::nulling] is the symbol. *)
Definition nulling_rule (g : list snode) (r : sym * sym * sym) : res (list snode) :=
  let '(lhs, rhs0, rhs1) := r in
  let g := g ++ [SRule rhs0 rhs1] in
  let factors := length g - 1 in
  upd g lhs (SProduct None factors).

(** bocage.rs:32-55 [initialize_nulling], 18-30 [new]; [SymbolSource::generate_fresh]
    yields the symbols 0, 1, 2, ... *)
Definition bocage_new (fi : forest_info) : res bocage :=
  let n := nulling_symbol_count fi in
  assert (N.of_nat n <? 1048576)%N ;;;
  let g := map SNulling (seq 0 (n + 1)) in
  g <- foldM nulling_rule (fi_nulling_intermediate fi) g ;;
  Ret (mkBocage g fi 0).

(** bocage.rs:129-139 [product] *)
Definition b_product (l r : nat) (b : bocage) : res (nat * bocage) :=
  let g := b_graph b ++ [SRule l r] in
  Ret (length g - 1, with_graph b g).

(** bocage.rs:142-162 [sum] *)
Definition b_sum (lhs_sym : sym) (b : bocage) : res (nat * bocage) :=
  let g := b_graph b in
  match b_count b with
  | 0 => Panic
  | 1 => Ret (length g - 1, mkBocage g (b_info b) 0)
  | count =>
      assert (count <=? length g) ;;;
      let first_summand_idx := length g - count in
      first_summand <- idx g first_summand_idx ;;
      let g := g ++ [first_summand] in
      g <- upd g first_summand_idx (SSum lhs_sym count) ;;
      Ret (first_summand_idx, mkBocage g (b_info b) 0)
  end.

(** bocage.rs:109-178 [impl Forest for Bocage] *)
Definition simple_forest : forest_ops bocage nat := {|
  f_begin_sum := fun b => Ret b;
  f_push_summand := fun it b =>
    Ret (mkBocage (b_graph b ++ [SProduct (Some (it_dot it)) (it_node it)]) (b_info b) (b_count b + 1));
  f_sum := fun lhs_sym _ b => b_sum lhs_sym b;
  f_product := b_product;
  f_leaf := fun token _ value b =>
    Ret (length (b_graph b), with_graph b (b_graph b ++ [SLeaf token value]));
  f_nulling := fun token _ => Ret token
|}.

(** bocage.rs:79-106 [postprocess_product_tree_node] *)
Definition postprocess (node : snode) (b : bocage) : res (snode * bocage) :=
  match node with
  | SProduct action factors =>
      fnode <- idx (b_graph b) factors ;;
      match fnode with
      | SRule _ _ => Ret (node, b)
      | _ =>
          match action with
          | None => Ret (node, b)
          | Some a =>
              e <- idx (fi_nulling_eliminated (b_info b)) a ;;
              match e with
              | Some (s, dir) =>
                  let '(l, r) := if dir : bool then (factors, s) else (s, factors) in
                  '(rule, b) <- b_product l r b ;;
                  Ret (SProduct action rule, b)
              | None => Ret (node, b)
              end
          end
      end
  | _ => Ret (node, b)
  end.

(** gearley-forest/src/evaluate.rs:3-11 trait [Evaluate].  [ev_nulling] is given the
    result vector and returns it as it leaves it; [ev_default] is [Elem::default]. *)
Record evaluator (E : Type) := mkEval {
  ev_leaf : sym -> nat -> E;
  ev_product : nat -> list E -> E;
  ev_nulling : sym -> list E -> list E;
  ev_default : E
}.
Arguments mkEval {E}.
Arguments ev_leaf {E}.
Arguments ev_product {E}.
Arguments ev_nulling {E}.
Arguments ev_default {E}.

(** traverse.rs:13-18 [WorkNode] *)
Record work := mkWork { w_node : nat; w_child : nat; w_parent : nat; w_results : list nat }.
Definition new_work (node parent : nat) : work := mkWork node 0 parent [].
Definition next_child (w : work) : work := mkWork (w_node w) (w_child w + 1) (w_parent w) (w_results w).

(** [Vec::pop] *)
Definition pop_last {A} (l : list A) : option (list A * A) :=
  match l with
  | [] => None
  | x :: t => Some (removelast l, last t x)
  end.

(** [work_stack[parent].results.extend(more)] *)
Definition give (stack : list work) (parent : nat) (more : list nat) : res (list work) :=
  w <- idx stack parent ;;
  upd stack parent (mkWork (w_node w) (w_child w) (w_parent w) (w_results w ++ more)).

(** traverse.rs:130-134: the external origin that is not null *)
Definition origin_of (fi : forest_info) (action : option nat) : option nat :=
  match action with
  | None => None
  | Some a => match fi_external_origin fi a with Some (Some id) => Some id | _ => None end
  end.

Section Evaluate.
  Context {E : Type}.
  Variable ev : evaluator E.

  (** traverse.rs:67-156: one iteration of the loop *)
  Definition eval_step (s : bocage * list E * list work) : res (bocage * list E * list work) :=
    let '(b, results, stack) := s in
    '(stack, w) <- unwrap (pop_last stack) ;;
    b <- (if w_child w =? 0 then
            node <- idx (b_graph b) (w_node w) ;;
            '(node', b) <- postprocess node b ;;
            g <- upd (b_graph b) (w_node w) node' ;;
            Ret (with_graph b g)
          else Ret b) ;;
    node <- idx (b_graph b) (w_node w) ;;
    match node with
    | SSum _ count =>
        if w_child w <? count then
          Ret (b, results, stack ++ [next_child w; new_work (w_node w + w_child w + 1) (w_parent w)])
        else Ret (b, results, stack)
    | SRule l r =>
        match w_child w with
        | 0 => Ret (b, results, stack ++ [next_child w; new_work l (w_parent w)])
        | 1 => Ret (b, results, stack ++ [next_child w; new_work r (w_parent w)])
        | _ => Ret (b, results, stack)
        end
    | SLeaf symbol values =>
        let results := results ++ [ev_leaf ev symbol values] in
        stack <- give stack (w_parent w) [length results - 1] ;;
        Ret (b, results, stack)
    | SProduct action factors =>
        match w_child w with
        | 0 => Ret (b, results, stack ++ [next_child w; new_work factors (length stack)])
        | _ =>
            match origin_of (b_info b) action with
            | Some id =>
                args <- mapM (idx results) (w_results w) ;;
                let results := results ++ [ev_product ev id args] in
                stack <- give stack (w_parent w) [length results - 1] ;;
                Ret (b, results, stack)
            | None =>
                stack <- give stack (w_parent w) (w_results w) ;;
                Ret (b, results, stack)
            end
        end
    | SNulling symbol =>
        let values := length results in
        let results := ev_nulling ev symbol results in
        stack <- give stack (w_parent w) [values] ;;
        Ret (b, results, stack)
    end.

  (** traverse.rs:66 [while work_stack.len() > 1] *)
  Fixpoint eval_loop (fuel : nat) (s : bocage * list E * list work) : res (bocage * list E * list work) :=
    let '(_, _, stack) := s in
    if 1 <? length stack then
      match fuel with
      | 0 => NoFuel
      | S fuel' => s <- eval_step s ;; eval_loop fuel' s
      end
    else Ret s.

  (** traverse.rs:158-163: take the values, leaving defaults *)
  Fixpoint take_values (is : list nat) (results : list E) : res (list E) :=
    match is with
    | [] => Ret []
    | i :: is =>
        v <- idx results i ;;
        results <- upd results i (ev_default ev) ;;
        vs <- take_values is results ;;
        Ret (v :: vs)
    end.

  (** traverse.rs:26-47: the node below the wrapper; [inl] if evaluation continues *)
  Definition skip_wrapper (b : bocage) (root : nat) : res (nat + list E) :=
    node <- idx (b_graph b) root ;;
    match node with
    | SProduct _ factors =>
        fnode <- idx (b_graph b) factors ;;
        match fnode with
        | SRule l r =>
            lnode <- idx (b_graph b) l ;;
            match lnode with
            | SLeaf symbol _ => assert (symbol =? fi_sof (b_info b)) ;;; Ret (inl r)
            | _ => Panic
            end
        | _ => Ret (inr (ev_nulling ev (fi_start (b_info b)) []))
        end
    | _ => Ret (inl root)
    end.

  (** traverse.rs:24-164 [evaluate]; [NULL_HANDLE] is represented by 0 (it is never
      read).  Returns the values and the bocage, whose graph evaluation changes. *)
  Definition evaluate (fuel : nat) (b : bocage) (root_node : nat) : res (list E * bocage) :=
    root <- skip_wrapper b root_node ;;
    match root with
    | inr start_results => Ret (start_results, b)
    | inl root =>
        '(b, results, stack) <- eval_loop fuel (b, [], [new_work 0 0; new_work root 0]) ;;
        bottom <- idx stack 0 ;;
        vs <- take_values (w_results bottom) results ;;
        Ret (vs, b)
    end.
End Evaluate.
