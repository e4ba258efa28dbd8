(** Chart: an inductive description of the Earley chart, with absolute input
    positions, parse trees, lookahead hints, rejected groups and extra
    predictions.  It is a proof device connecting the recognizer with Spec.v. *)
From Coq Require Import List Arith Bool Lia Relations.
From Verif Require Import Base Grammar DefaultGrammar Spec.
Import ListNotations.

Section GrammarRelations.
  Variable R : list prule.
  Variable nsyms : nat.

  (** climbing from a generated symbol to the ordinary symbol that predicts it *)
  Inductive topr : sym -> sym -> Prop :=
  | top_here : forall A, A < nsyms -> topr A A
  | top_up : forall A r T, nsyms <= A -> In r R -> nth_error (p_rhs r) 0 = Some A ->
      topr (p_lhs r) T -> topr A T.

  (** one left-corner step between ordinary symbols *)
  Definition lc (A B : sym) : Prop :=
    exists r, In r R /\ nth_error (p_rhs r) 0 = Some B /\ B < nsyms /\ topr (p_lhs r) A.

  Definition pred : sym -> sym -> Prop := clos_refl_trans sym lc.
End GrammarRelations.

Section Chart.
  Variable R : list prule.
  Variable nsyms : nat.
  Variable root : sym.
  (** tokens (with values) scanned between position [j] and [S j] *)
  Variable W : nat -> list (sym * nat).
  (** lookahead hint while building the set at position [j] *)
  Variable hint : nat -> option sym.
  Variable FIRST FOLLOW : sym -> sym -> bool.
  Variable la : bool.
  (** groups accepted by the client, by end position and symbol *)
  Variable keep : nat -> sym -> bool.
  (** extra predictions (left over from earlier parses) *)
  Variable seed : nat -> sym -> Prop.

  (** lookahead test against a set of symbols, under the hint [h] *)
  Definition check (h : option sym) (set : sym -> bool) : bool :=
    negb la || match h with None => true | Some t => set t end.

  (** lookahead test for a completed rule with left-hand side [A] *)
  Definition ok_lhs (h : option sym) (A : sym) : bool := (nsyms <=? A) || check h (FOLLOW A).
  (** the same for a rule [A ::= B] *)
  Definition ok_unary (h : option sym) (B A : sym) : bool := (nsyms <=? B) || ok_lhs h A.
  (** lookahead test for a rule with the dot between [B] and [C] *)
  Definition ok_medial (h : option sym) (B C : sym) : bool :=
    (nsyms <=? B) || (nsyms <=? C) || check h (FIRST C).

  Inductive Sym : sym -> nat -> nat -> tree -> Prop :=
  | Sym_scan : forall s v j, In (s, v) (W j) -> Sym s j (S j) (Leaf s v)
  | Sym_group : forall d r i j ts, nth_error R d = Some r -> Comp d i j ts ->
      keep j (p_lhs r) = true -> Sym (p_lhs r) i j (Node d ts)
  with Comp : nat -> nat -> nat -> list tree -> Prop :=
  | Comp_unary : forall d r B i j t T, nth_error R d = Some r -> p_rhs r = [B] ->
      Sym B i j t -> topr R nsyms (p_lhs r) T -> Pred T i -> ok_unary (hint j) B (p_lhs r) = true ->
      Comp d i j [t]
  | Comp_binary : forall d r B C i m j t1 t2, nth_error R d = Some r -> p_rhs r = [B; C] ->
      Med d i m t1 -> Sym C m j t2 -> ok_lhs (hint j) (p_lhs r) = true ->
      Comp d i j [t1; t2]
  with Med : nat -> nat -> nat -> tree -> Prop :=
  | Med_intro : forall d r B C i j t T, nth_error R d = Some r -> p_rhs r = [B; C] ->
      Sym B i j t -> topr R nsyms (p_lhs r) T -> Pred T i -> ok_medial (hint j) B C = true ->
      Med d i j t
  with Pred : sym -> nat -> Prop :=
  | Pred_start : forall s, pred R nsyms root s -> Pred s 0
  | Pred_med : forall d r B C i j t s, nth_error R d = Some r -> p_rhs r = [B; C] ->
      Med d i j t -> pred R nsyms C s -> Pred s j
  | Pred_seed : forall s s' j, seed j s -> pred R nsyms s s' -> Pred s' j.

  Scheme Sym_mut := Induction for Sym Sort Prop
    with Comp_mut := Induction for Comp Sort Prop
    with Med_mut := Induction for Med Sort Prop
    with Pred_mut := Induction for Pred Sort Prop.
  Combined Scheme chart_ind from Sym_mut, Comp_mut, Med_mut, Pred_mut.
End Chart.

(** ** Well-formed processed grammars

    What the cfg crate's transformations (make_proper, wrap_input, binarisation,
    nulling elimination) and [remap_symbols] are expected to deliver.  [nsyms] is
    the number of ordinary (not generated) symbols. *)
Record wf_rules (R : list prule) (nsyms nall : nat) : Prop := {
  (* right-hand sides have one or two symbols *)
  wf_arity : forall r, In r R -> length (p_rhs r) = 1 \/ length (p_rhs r) = 2;
  (* symbols are below the number of symbols *)
  wf_lhs_range : forall r, In r R -> p_lhs r < nall;
  wf_rhs_range : forall r s, In r R -> In s (p_rhs r) -> s < nall;
  (* generated symbols never stand second *)
  wf_rhs1 : forall r s, In r R -> nth_error (p_rhs r) 1 = Some s -> s < nsyms;
  (* every generated symbol is used, by at most one unary and one binary rule,
     both with the same left-hand side *)
  wf_gen_used : forall s, nsyms <= s -> s < nall ->
    exists r, In r R /\ nth_error (p_rhs r) 0 = Some s;
  wf_gen_unique : forall d1 d2 r1 r2 s, nsyms <= s ->
    nth_error R d1 = Some r1 -> nth_error R d2 = Some r2 ->
    nth_error (p_rhs r1) 0 = Some s -> nth_error (p_rhs r2) 0 = Some s ->
    p_lhs r1 = p_lhs r2 /\ (length (p_rhs r1) = length (p_rhs r2) -> d1 = d2);
  (* chains of generated symbols end in an ordinary symbol *)
  wf_gen_chain : exists rank : sym -> nat, forall r s, In r R -> nth_error (p_rhs r) 0 = Some s ->
    nsyms <= s -> nsyms <= p_lhs r -> rank (p_lhs r) < rank s
}.

(** No cycle of unary rules: they can be ranked. *)
Definition unary_acyclic (R : list prule) : Prop :=
  exists rank : sym -> nat, forall r B, In r R -> p_rhs r = [B] -> rank (p_lhs r) < rank B.

(** Symbol numbers respect unary rules (what completion order relies on). *)
Definition unary_ordered (R : list prule) : Prop :=
  forall r B, In r R -> p_rhs r = [B] -> p_lhs r < B.

(** Rules are sorted by left-hand side (sort_rules_by_lhs). *)
Definition rules_sorted (R : list prule) : Prop :=
  forall d1 d2 r1 r2, d1 <= d2 -> nth_error R d1 = Some r1 -> nth_error R d2 = Some r2 ->
    p_lhs r1 <= p_lhs r2.
