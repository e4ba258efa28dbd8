(** CompactSpec: the trees found under a node of the compact bocage, and what fits into
    it, for the statements about it. *)
From Coq Require Import List Arith Bool NArith.
From Verif Require Import Base Grammar DefaultGrammar Forest Recognizer Drive Spec SimpleBocage CompactGraph CompactBocage.
Import ListNotations.
Local Open Scope res_scope.

(** ** The trees under a node

    [crepresents g h l]: following the nodes of the graph [g] from handle [h] one finds
    the sequences of trees [l], in this order, with repetitions.  A [Rule] puts what its
    factors give side by side in all combinations.  The alternatives of a sum are the
    [Summand]s that follow a [BeginSum] up to the next [EndSum]; a [Summand] puts its rule
    number on top of what its factors give.  A handle may also point at a [Summand]: it stands
    for the alternatives from there on. *)
Inductive crepresents (g : graph) : nat -> list (list tree) -> Prop :=
| cr_leaf : forall h s v, cget g h = Ret (CLeaf s v) -> crepresents g h [[Leaf (N.to_nat s) (N.to_nat v)]]
| cr_rule : forall h a b xs ys, cget g h = Ret (CRule a b) -> crepresents g (N.to_nat a) xs -> crepresents g (N.to_nat b) ys ->
    crepresents g h (flat_map (fun x => map (fun y => x ++ y) ys) xs)
| cr_begin : forall h xs, cget g h = Ret CBeginSum -> crepresents_from g (h + 1) xs -> crepresents g h xs
| cr_summand : forall h d f xs, cget g h = Ret (CSummand d f) -> crepresents_from g h xs -> crepresents g h xs
(** the alternatives from a handle up to the next [EndSum] *)
with crepresents_from (g : graph) : nat -> list (list tree) -> Prop :=
| cr_end : forall h, cget g h = Ret CEndSum -> crepresents_from g h []
| cr_more : forall h d f k xs ys, cget g h = Ret (CSummand d f) -> crepresents g (N.to_nat f) xs ->
    g_node_size g (N.of_nat h) = Ret k -> crepresents_from g (h + N.to_nat k) ys ->
    crepresents_from g h (map (fun x => [Node (N.to_nat d) x]) xs ++ ys).

Scheme crepresents_mut := Induction for crepresents Sort Prop
  with crepresents_from_mut := Induction for crepresents_from Sort Prop.
Combined Scheme crepresents_both from crepresents_mut, crepresents_from_mut.

(** it is a function *)
Lemma crepresents_fun : forall g,
  (forall h xs, crepresents g h xs -> forall ys, crepresents g h ys -> ys = xs) /\
  (forall h xs, crepresents_from g h xs -> forall ys, crepresents_from g h ys -> ys = xs).
Proof.
  intros g. apply crepresents_both.
  - intros h s v E ys H. inversion H; congruence.
  - intros h a b xs ys E _ IHx _ IHy zs H. inversion H as [|h' a' b' xs' ys' E' Hx Hy| |]; subst; try congruence.
    rewrite E in E'. injection E' as <- <-. now rewrite (IHx _ Hx), (IHy _ Hy).
  - intros h xs E _ IH zs H. inversion H as [| |h' xs' E' Hx|]; subst; try congruence. auto.
  - intros h d f xs E _ IH zs H. inversion H as [| | |h' d' f' xs' E' Hx]; subst; try congruence. auto.
  - intros h E zs H. inversion H; subst; congruence.
  - intros h d f k xs ys E _ IHx Ek _ IHy zs H. inversion H as [|h' d' f' k' xs' ys' E' Hx Ek' Hy]; subst; try congruence.
    rewrite E in E'. injection E' as <- <-. rewrite Ek in Ek'. injection Ek' as <-. now rewrite (IHx _ Hx), (IHy _ Hy).
Qed.

(** the trees of the finished node, none if there is no such node *)
Definition cfinished_trees (r : option nat * cbocage) (l : list (list tree)) : Prop :=
  match fst r with
  | Some h => crepresents (cb_graph (snd r)) h l
  | None => l = []
  end.

(** ** What fits

    [u32 n]: [n] is less than 2^32. *)
Definition u32 (n : nat) : Prop := (N.of_nat n < 4294967296)%N.

(** the grammar's symbols and rules and the values of the tokens fit in 32 bits *)
Definition input_fits (c : pcfg) (rest : list location) : Prop :=
  u32 (c_num_syms c) /\ u32 (length (c_rules c)) /\
  forall l s v, In l rest -> In (s, v) (l_toks l) -> u32 v.

(** the graph has less than 2^32 bytes, also if [more] are added *)
Definition graph_fits (b : cbocage) (more : nat) : Prop := u32 (length (cb_graph b) + more).

(** the number of inner nodes of a tree *)
Fixpoint inner_nodes (t : tree) : nat :=
  match t with
  | Leaf _ _ => 0
  | Node _ kids => 1 + list_sum (map inner_nodes kids)
  end.

(** A client that evaluates several roots, one after the other. *)
Definition c_evaluate_each {E} (ev : evaluator E) (fuel : nat) (roots : list nat) (b : cbocage) : res (list (list E) * cbocage) :=
  foldM (fun st root => let '(out, b) := st in '(vs, b) <- c_evaluate ev fuel b root ;; Ret (out ++ [vs], b)) roots ([], b).
