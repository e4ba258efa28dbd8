(** LRSpec: LR(1) grammars, after Knuth (On the translation of languages from left to
    right, 1965), by rightmost derivations. *)
From Coq Require Import List Arith.
From Verif Require Import Base Item Grammar DefaultGrammar Forest Recognizer Drive Spec FromGrammar CrateSpec UserSpec.
Import ListNotations.

Section LR.
  Variable R : list prule.
  Variable start : sym.

  (** one step of a rightmost derivation: what follows the replaced symbol are terminals *)
  Inductive rm : list sym -> list sym -> Prop :=
  | rm_step : forall r u w, In r R -> Forall (terminal R) w -> rm (u ++ p_lhs r :: w) (u ++ p_rhs r ++ w).

  (** right-sentential forms *)
  Inductive sentential : list sym -> Prop :=
  | sen_start : sentential [start]
  | sen_step : forall x y, sentential x -> rm x y -> sentential y.

  (** LR(1): reading a right-sentential form from the left, the end of its handle, one symbol
      more, and nothing else tells what to reduce.  If [u1 rhs1 w1] comes from [u1 lhs1 w1],
      and [u1 rhs1 y], with the same first symbol of [y] and [w1], comes from [u2 lhs2 w2] by
      the rule [r2], then these are the same reductions. *)
  Definition lr1 : Prop := forall r1 u1 w1 r2 u2 w2 y, In r1 R -> In r2 R ->
    Forall (terminal R) w1 -> Forall (terminal R) w2 -> Forall (terminal R) y ->
    sentential (u1 ++ p_lhs r1 :: w1) -> sentential (u2 ++ p_lhs r2 :: w2) ->
    u2 ++ p_rhs r2 ++ w2 = u1 ++ p_rhs r1 ++ y -> hd_error w1 = hd_error y ->
    u2 = u1 /\ p_lhs r2 = p_lhs r1 /\ w2 = y.
End LR.

(** A user's grammar, with a new start symbol, as the definition presupposes. *)
Definition augmented (U : pcfg) (start : sym) : list prule := mkRule (c_num_syms U) [start] None None [] :: c_rules U.
Definition user_lr1 (U : pcfg) (start : sym) : Prop := lr1 (augmented U start) (c_num_syms U).

(** A forest that grows with every summand, and does not shrink otherwise. *)
Record grows_by_summands {F N} (fo : forest_ops F N) (size : F -> nat) : Prop := {
  gs_begin : forall f f', f_begin_sum fo f = Ret f' -> size f <= size f';
  gs_push : forall it f f', f_push_summand fo it f = Ret f' -> size f < size f';
  gs_sum : forall s o f n f', f_sum fo s o f = Ret (n, f') -> size f <= size f';
  gs_product : forall l r f n f', f_product fo l r f = Ret (n, f') -> size f <= size f';
  gs_leaf : forall s p v f n f', f_leaf fo s p v f = Ret (n, f') -> size f <= size f'
}.

(** FOLLOW sets that hold nothing but symbols that do follow. *)
Definition follow_sets_sound (c : pcfg) (root : sym) (follow : list (sym * list sym)) : Prop :=
  forall A l t, In (A, l) follow -> In t l -> exists u v, derives (c_rules c) root (u ++ A :: t :: v).

(** The contract of CrateSpec.v, and FOLLOW sets that are not too large. *)
Definition exact_contract (X : cfg_crate) (U : pcfg) (start : sym) : Prop :=
  exists W B E c w m head nulling origin maps f, elaborates X U start W B E c w m head nulling origin maps f /\
    follow_sets_sound (sort_rules_by_lhs c) (f (w_root w)) (x_follow X (sort_rules_by_lhs c)).

(** Reduced grammars: every symbol that occurs in a rule occurs in something derived from the
    start symbol, and derives a string of terminals. *)
Definition reduced (U : pcfg) (start : sym) : Prop := forall s, used (c_rules U) s ->
  productive_sym (c_rules U) s /\ exists u v, derives (c_rules U) start (u ++ s :: v).

Definition no_empty_rules (U : pcfg) : Prop := forall r, In r (c_rules U) -> p_rhs r <> [].

(** A client reads at most one token at a location, and gives a hint or none. *)
Definition token_symbol (U : pcfg) (start : sym) (g : dgrammar) (s : sym) : Prop :=
  exists t, token U start t /\ to_internal g t = Ret (Some s).
Definition one_token (U : pcfg) (start : sym) (g : dgrammar) (loc : location) : Prop :=
  length (l_toks loc) <= 1 /\
  (forall s v, In (s, v) (l_toks loc) -> s = g_sof_sym g \/ token_symbol U start g s) /\
  match l_hint loc with None => True | Some s => token_symbol U start g s end.
