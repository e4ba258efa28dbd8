(** CompactBocage: model of /repo/compact-bocage/src/bocage.rs and traverse.rs.

    Handles are naturals; the arithmetic on them is that of [u32], with overflow wrapping
    around (a debug build panics instead).  Nodes are stored as bytes, see
    CompactGraph.v.  The evaluator, its work nodes and [pop_last], [give], [origin_of] and
    [take_values] are those of SimpleBocage.v: the two traverse.rs share this code.
    [println!] in traverse.rs:109 and 176 is left out. *)
From Coq Require Import List Arith Bool NArith.
From Verif Require Import Base Item Grammar Forest SimpleBocage CompactGraph.
Import ListNotations.
Local Open Scope res_scope.

(** [as u32] *)
Definition wrap32 (n : nat) : nat := N.to_nat (N.of_nat n mod 4294967296).

(** gearley-forest/src/node_handle.rs:14-16 [NodeHandle::mul] *)
Definition h_mul (h : nat) : nat := N.to_nat (N.of_nat h * 9 mod 4294967296).

(** bocage.rs:9-16 [Bocage] *)
Record cbocage := mkCBocage {
  cb_graph : graph;
  cb_info : forest_info;
  cb_sum : option nat;
  cb_num_summands : nat;
  cb_nulling_limit : nat
}.

Definition with_cgraph (b : cbocage) (g : graph) : cbocage :=
  mkCBocage g (cb_info b) (cb_sum b) (cb_num_summands b) (cb_nulling_limit b).

(** bocage.rs:134-136 [get] *)
Definition cget (g : graph) (h : nat) : res cnode := g_get g (N.of_nat h).

(** graph.rs:63-65 [len], as a handle *)
Definition clen (g : graph) : nat := N.to_nat (g_len g).

(** bocage.rs:45-56: one iteration of the loop over the nulling intermediate rules *)
Definition c_nulling_rule (v : list cnode) (r : sym * sym * sym) : res (list cnode) :=
  let '(lhs, rhs0, rhs1) := r in
  let v := v ++ [CRule (N.of_nat rhs0) (N.of_nat rhs1)] in
  let factors := length v - 1 in
  upd v lhs (CProduct C_NULL_ACTION (N.of_nat factors)).

(** bocage.rs:57-79: a node of the temporary vector, written in nine bytes with the
    handles multiplied *)
Definition push_nulling (g : graph) (node : cnode) : res graph :=
  match node with
  | CProduct action factors => Ret (g_push_expanded g (CProduct action (N.of_nat (h_mul (N.to_nat factors)))))
  | CRule l r => Ret (g_push_expanded g (CRule (N.of_nat (h_mul (N.to_nat l))) (N.of_nat (h_mul (N.to_nat r)))))
  | CNullingLeaf _ => Ret (g_push_expanded g node)
  | _ => Panic
  end.

(** bocage.rs:19-33 [new], 35-81 [initialize_nulling] *)
Definition cbocage_new (fi : forest_info) : res cbocage :=
  let n := nulling_symbol_count fi in
  assert (N.of_nat n <? 1048576)%N ;;;
  let v := map (fun s => CNullingLeaf (N.of_nat s)) (seq 0 (n + 1)) in
  v <- foldM c_nulling_rule (fi_nulling_intermediate fi) v ;;
  g <- foldM push_nulling v [] ;;
  Ret (mkCBocage g fi None 0 (clen g)).

(** bocage.rs:161-172 [product] *)
Definition c_product (l r : nat) (b : cbocage) : res (nat * cbocage) :=
  let result := clen (cb_graph b) in
  Ret (result, with_cgraph b (g_push (cb_graph b) (CRule (N.of_nat l) (N.of_nat r)))).

(** bocage.rs:139-200 [impl Forest for Bocage] *)
Definition compact_forest : forest_ops cbocage nat := {|
  f_begin_sum := fun b =>
    Ret (mkCBocage (g_push (cb_graph b) CBeginSum) (cb_info b) (Some (clen (cb_graph b))) 0 (cb_nulling_limit b));
  f_push_summand := fun it b =>
    Ret (mkCBocage (g_push (cb_graph b) (CSummand (N.of_nat (it_dot it)) (N.of_nat (it_node it))))
           (cb_info b) (cb_sum b) (cb_num_summands b + 1) (cb_nulling_limit b));
  f_sum := fun _ _ b =>
    result <- unwrap (cb_sum b) ;;
    let g := g_push (cb_graph b) CEndSum in
    let b' := mkCBocage g (cb_info b) None (cb_num_summands b) (cb_nulling_limit b) in
    if cb_num_summands b =? 1 then Ret (wrap32 (result + 1), b') else Ret (result, b');
  f_product := c_product;
  f_leaf := fun token _ value b =>
    Ret (clen (cb_graph b), with_cgraph b (g_push (cb_graph b) (CLeaf (N.of_nat token) (N.of_nat value))));
  f_nulling := fun token _ => Ret (wrap32 (token * 9))
|}.

(** bocage.rs:104-132 [postprocess_product_tree_node] *)
Definition c_postprocess (node : cnode) (b : cbocage) : res (cnode * cbocage) :=
  match node with
  | CProduct action factors | CSummand action factors =>
      fnode <- cget (cb_graph b) (N.to_nat factors) ;;
      match fnode with
      | CRule _ _ => Ret (node, b)
      | _ =>
          if (action =? C_NULL_ACTION)%N then Ret (node, b)
          else
            e <- idx (fi_nulling_eliminated (cb_info b)) (N.to_nat action) ;;
            match e with
            | Some (s, dir) =>
                let '(l, r) := if dir : bool then (N.to_nat factors, h_mul s) else (h_mul s, N.to_nat factors) in
                '(rule, b) <- c_product l r b ;;
                Ret (CProduct action (N.of_nat rule), b)
            | None => Ret (node, b)
            end
      end
  | _ => Ret (node, b)
  end.

(** the action as [origin_of] of SimpleBocage.v takes it *)
Definition c_action (action : N) : option nat :=
  if (action =? C_NULL_ACTION)%N then None else Some (N.to_nat action).

Section Evaluate.
  Context {E : Type}.
  Variable ev : evaluator E.

  (** traverse.rs:93-191: one iteration of the loop *)
  Definition c_eval_step (s : cbocage * list E * list work) : res (cbocage * list E * list work) :=
    let '(b, results, stack) := s in
    '(stack, w) <- unwrap (pop_last stack) ;;
    node <- cget (cb_graph b) (w_node w) ;;
    '(node, b) <- (if w_child w =? 0 then c_postprocess node b else Ret (node, b)) ;;
    match node with
    | CBeginSum => Ret (b, results, stack ++ [new_work (wrap32 (w_node w + 1)) (w_parent w)])
    | CEndSum => Ret (b, results, stack)
    | CRule l r =>
        match w_child w with
        | 0 => Ret (b, results, stack ++ [next_child w; new_work (N.to_nat l) (w_parent w)])
        | 1 => Ret (b, results, stack ++ [next_child w; new_work (N.to_nat r) (w_parent w)])
        | _ => Ret (b, results, stack)
        end
    | CLeaf symbol values =>
        let results := results ++ [ev_leaf ev (N.to_nat symbol) (N.to_nat values)] in
        stack <- give stack (w_parent w) [length results - 1] ;;
        Ret (b, results, stack)
    | CProduct action factors | CSummand action factors =>
        match w_child w with
        | 0 => Ret (b, results, stack ++ [next_child w; new_work (N.to_nat factors) (length stack)])
        | _ =>
            '(results, stack) <-
              match origin_of (cb_info b) (c_action action) with
              | Some id =>
                  args <- mapM (idx results) (w_results w) ;;
                  let results := results ++ [ev_product ev id args] in
                  stack <- give stack (w_parent w) [length results - 1] ;;
                  Ret (results, stack)
              | None =>
                  stack <- give stack (w_parent w) (w_results w) ;;
                  Ret (results, stack)
              end ;;
            match node with
            | CSummand _ _ =>
                size <- g_node_size (cb_graph b) (N.of_nat (w_node w)) ;;
                Ret (b, results, stack ++ [new_work (wrap32 (w_node w + N.to_nat size)) (w_parent w)])
            | _ => Ret (b, results, stack)
            end
        end
    | CNullingLeaf symbol =>
        let values := length results in
        let results := ev_nulling ev (N.to_nat symbol) results in
        stack <- give stack (w_parent w) [values] ;;
        Ret (b, results, stack)
    end.

  (** traverse.rs:92 [while work_stack.len() > 1] *)
  Fixpoint c_eval_loop (fuel : nat) (s : cbocage * list E * list work) : res (cbocage * list E * list work) :=
    let '(_, _, stack) := s in
    if 1 <? length stack then
      match fuel with
      | 0 => NoFuel
      | S fuel' => s <- c_eval_step s ;; c_eval_loop fuel' s
      end
    else Ret s.

  (** traverse.rs:36-47 and 52-63: the right factor of a wrapper rule *)
  Definition below_sof (b : cbocage) (l r : N) : res nat :=
    lnode <- cget (cb_graph b) (N.to_nat l) ;;
    match lnode with
    | CLeaf symbol _ => assert (N.to_nat symbol =? fi_sof (cb_info b)) ;;; Ret (N.to_nat r)
    | _ => Panic
    end.

  (** traverse.rs:34-71: the node below the wrapper; [None] if there is nothing to
      evaluate *)
  Definition c_skip_wrapper (b : cbocage) (root : nat) : res (option nat) :=
    node <- cget (cb_graph b) root ;;
    match node with
    | CSummand _ factors =>
        fnode <- cget (cb_graph b) (N.to_nat factors) ;;
        match fnode with
        | CRule l r => x <- below_sof b l r ;; Ret (Some x)
        | _ => Ret None
        end
    | CBeginSum =>
        snode <- cget (cb_graph b) (wrap32 (root + 1)) ;;
        match snode with
        | CSummand _ factors =>
            fnode <- cget (cb_graph b) (N.to_nat factors) ;;
            match fnode with
            | CRule l r => x <- below_sof b l r ;; Ret (Some x)
            | _ => Panic
            end
        | _ => Panic
        end
    | _ => Panic
    end.

  (** traverse.rs:24-199 [evaluate]; [NULL_HANDLE] is represented by 0 (it is never
      read).  Returns the values and the bocage, whose graph evaluation extends. *)
  Definition c_evaluate (fuel : nat) (b : cbocage) (root_node : nat) : res (list E * cbocage) :=
    root <- c_skip_wrapper b root_node ;;
    match root with
    | None => Ret ([], b)
    | Some root =>
        '(b, results, stack) <- c_eval_loop fuel (b, [], [new_work 0 0; new_work root 0]) ;;
        bottom <- idx stack 0 ;;
        vs <- take_values ev (w_results bottom) results ;;
        Ret (vs, b)
    end.
End Evaluate.
