(** TreeSpec: the parse trees of an input, and the trees found under a node of the
    simple bocage, for the statements of the forest properties. *)
From Coq Require Import List Arith Bool.
From Verif Require Import Base Grammar DefaultGrammar Forest Recognizer Drive Spec CfgSpec SimpleBocage.
Import ListNotations.
Local Open Scope res_scope.

(** ** The parse trees of an input

    [input_tree c w g0 xs t]: [t] is a parse tree of the tokens [xs] (symbols with the
    values given to [scan]) for the start symbol, below the wrapper [g0 ::= sof inner] (or
    [g0 ::= sof] if the start symbol is nullable and there are no tokens). *)
Inductive input_tree (c : pcfg) (w : wrapped_root) (g0 : sym) : list (sym * nat) -> tree -> Prop :=
| it_inner : forall d r t, nth_error (c_rules c) d = Some r -> p_lhs r = g0 -> p_rhs r = [w_sof w; w_inner w] ->
    parse_tree (c_rules c) (w_inner w) t ->
    input_tree c w g0 (yield t) (Node d [Leaf (w_sof w) 0; t])
| it_empty : forall d r, nth_error (c_rules c) d = Some r -> p_lhs r = g0 -> p_rhs r = [w_sof w] ->
    input_tree c w g0 [] (Node d [Leaf (w_sof w) 0]).

(** ** The trees under a node

    [represents g h l]: following the nodes of the graph [g] from handle [h] one finds
    the sequences of trees [l], in this order, with repetitions.  A [Product] puts the
    rule number on top of what its factors give; a [Rule] puts what its factors give side
    by side in all combinations; the alternatives of a [Sum] of [n] are the [n] nodes that
    follow it. *)
Inductive represents (g : list snode) : nat -> list (list tree) -> Prop :=
| rp_leaf : forall h s v, nth_error g h = Some (SLeaf s v) -> represents g h [[Leaf s v]]
| rp_rule : forall h a b xs ys, nth_error g h = Some (SRule a b) -> represents g a xs -> represents g b ys ->
    represents g h (flat_map (fun x => map (fun y => x ++ y) ys) xs)
| rp_product : forall h d f xs, nth_error g h = Some (SProduct (Some d) f) -> represents g f xs ->
    represents g h (map (fun x => [Node d x]) xs)
| rp_sum : forall h s n xs, nth_error g h = Some (SSum s n) -> represents_all g (h + 1) n xs ->
    represents g h xs
(** what [n] consecutive nodes represent together *)
with represents_all (g : list snode) : nat -> nat -> list (list tree) -> Prop :=
| rp_none : forall h, represents_all g h 0 []
| rp_more : forall h n xs ys, represents g h xs -> represents_all g (h + 1) n ys ->
    represents_all g h (S n) (xs ++ ys).

Scheme represents_mut := Induction for represents Sort Prop
  with represents_all_mut := Induction for represents_all Sort Prop.
Combined Scheme represents_both from represents_mut, represents_all_mut.

(** it is a function *)
Lemma represents_fun : forall g,
  (forall h xs, represents g h xs -> forall ys, represents g h ys -> ys = xs) /\
  (forall h n xs, represents_all g h n xs -> forall ys, represents_all g h n ys -> ys = xs).
Proof.
  intros g. apply represents_both.
  - intros h s v E ys H. inversion H; congruence.
  - intros h a b xs ys E _ IHx _ IHy zs H. inversion H as [|h' a' b' xs' ys' E' Hx Hy| |]; subst; try congruence.
    rewrite E in E'. injection E' as <- <-. now rewrite (IHx _ Hx), (IHy _ Hy).
  - intros h d f xs E _ IH zs H. inversion H as [| |h' d' f' xs' E' Hx|]; subst; try congruence.
    rewrite E in E'. injection E' as <- <-. now rewrite (IH _ Hx).
  - intros h s n xs E _ IH zs H. inversion H as [| | |h' s' n' xs' E' Hx]; subst; try congruence.
    rewrite E in E'. injection E' as <- <-. auto.
  - intros h zs H. now inversion H.
  - intros h n xs ys _ IHx _ IHy zs H. inversion H as [|h' n' xs' ys' Hx Hy]; subst. now rewrite (IHx _ Hx), (IHy _ Hy).
Qed.

(** ** A whole parse

    Read the locations and take the finished node, together with the forest it is in;
    no node if reading stopped early. *)
Definition parse_forest {F N} (fo : forest_ops F N) (P : perf) (g : dgrammar) (fuel : nat) (locs : list location)
  (st : rstate F N) : res (option N * F) :=
  '(ok, st) <- feed_all fo P g fuel locs st ;;
  if ok then n <- finished_node fo g st ;; Ret (n, r_forest st) else Ret (None, r_forest st).

(** the trees of the finished node, none if there is no such node *)
Definition finished_trees (r : option nat * bocage) (l : list (list tree)) : Prop :=
  match fst r with
  | Some h => represents (b_graph (snd r)) h l
  | None => l = []
  end.

(** the rule on top of a tree and the number of tokens below its first child; none for a
    token *)
Definition root_split (t : tree) : option (nat * nat) :=
  match t with
  | Leaf _ _ => None
  | Node d kids => Some (d, match kids with k :: _ => length (yield k) | [] => 0 end)
  end.

(** ** Sorted and ordered grammars

    Rules are sorted by left-hand side, as [sort_rules_by_lhs] leaves them
    (gearley-default-grammar/src/lib.rs:127, 283-285). *)
Definition sorted_rules (c : pcfg) : Prop :=
  forall d1 d2 r1 r2, d1 <= d2 -> nth_error (c_rules c) d1 = Some r1 -> nth_error (c_rules c) d2 = Some r2 ->
     p_lhs r1 <= p_lhs r2.

(** Also, rules with one symbol lead from smaller to larger nonterminals. *)
Definition ordered_grammar (c : pcfg) : Prop :=
  sorted_rules c /\
  (forall r B, In r (c_rules c) -> p_rhs r = [B] -> ~ terminal (c_rules c) B -> p_lhs r < B).

(** The wrapper puts the start-of-input marker before the start symbol in one rule, number
    [d1] (a nullable start symbol leaves another rule with the marker alone). *)
Definition wrapped_once (c : pcfg) (w : wrapped_root) (g0 : sym) (d1 : nat) : Prop :=
  forall d, (exists r, nth_error (c_rules c) d = Some r /\ p_lhs r = g0 /\ p_rhs r = [w_sof w; w_inner w]) <-> d = d1.

(** ** What a client did

    The client reads the start-of-input marker with hint [h0], then the locations
    [rest].  Location 1 lies after the marker, location [k + 2] after the [k]th of
    [rest]. *)
Definition from_start (w : wrapped_root) (h0 : option sym) (rest : list location) : list location :=
  mkLoc h0 [(w_sof w, 0)] keep_all :: rest.

(** the client accepts the group of symbol [s] at location [j] *)
Definition kept (rest : list location) (j : nat) (s : sym) : bool :=
  match j with
  | S (S k) => match nth_error rest k with Some l => l_keep l s | None => true end
  | _ => true
  end.

(** [trees_read c w g0 rest t]: [t] is a parse tree of a choice of one of the tokens
    offered at each location, and the client accepted all its constituents *)
Definition tree_read (c : pcfg) (w : wrapped_root) (g0 : sym) (rest : list location) (t : tree) : Prop :=
  exists ys, choice (map l_toks rest) ys /\ input_tree c w g0 ys t /\ constituents_ok (c_rules c) (kept rest) 0 t.

(** the hint given before the [k]th token *)
Definition hint_before (h0 : option sym) (rest : list location) (k : nat) : option sym :=
  match k with
  | 0 => h0
  | S k => match nth_error rest k with Some l => l_hint l | None => None end
  end.

(** hints are symbols of the grammar; tokens have symbols of the grammar *)
Definition in_range (c : pcfg) (nsyms : nat) (h0 : option sym) (rest : list location) : Prop :=
  (forall k s, hint_before h0 rest k = Some s -> s < nsyms) /\
  (forall l s v, In l rest -> In (s, v) (l_toks l) -> s < c_num_syms c).

(** every hint names the symbol of the next leaf of [t]; after the last one, the
    end-of-input marker *)
Definition hints_match (c : pcfg) (nsyms : nat) (w : wrapped_root) (h0 : option sym) (rest : list location) (t : tree) : Prop :=
  forall k s, hint_before h0 rest k = Some s ->
    s < nsyms /\ terminal (c_rules c) s /\ nth_error (map fst (yield t) ++ [w_eof w]) (S k) = Some s.

(** the tokens offered at a location are different terminals *)
Definition distinct_tokens (c : pcfg) (rest : list location) : Prop :=
  forall l, In l rest -> NoDup (map fst (l_toks l)) /\ forall s v, In (s, v) (l_toks l) -> terminal (c_rules c) s.
