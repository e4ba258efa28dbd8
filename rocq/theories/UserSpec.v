(** UserSpec: what a user can ask about [from_grammar] and the parsers made from it. *)
From Coq Require Import List Arith Bool.
From Verif Require Import Base Grammar DefaultGrammar Spec CfgSpec FromGrammar CrateSpec.
Import ListNotations.

(** a terminal of the user's grammar that occurs in a useful rule *)
Definition token (U : pcfg) (start t : sym) : Prop :=
  t < c_num_syms U /\ terminal (c_rules U) t /\ known U start t.

(** [x] can be continued by terminals to a sentence of the user's grammar *)
Definition viable_input (U : pcfg) (start : sym) (x : list sym) : Prop :=
  exists y, Forall (terminal (c_rules U)) y /\ derives (c_rules U) start (x ++ y).

(** no symbol derives the empty string only *)
Definition no_nulling_only (U : pcfg) : Prop := forall s, nullable (c_rules U) s -> visible (c_rules U) s.

(** symbols that derive the empty string only stand in useful rules of at most two symbols,
    and the start symbol is not one of them *)
Definition nulling_only_short (U : pcfg) (start : sym) : Prop :=
  (nullable (c_rules U) start -> visible (c_rules U) start) /\
  forall r s, In r (c_rules U) -> useful (c_rules U) start r -> 3 <= length (p_rhs r) -> In s (p_rhs r) ->
    nullable (c_rules U) s -> visible (c_rules U) s.

(** symbols that derive the empty string only do not stand in a nullable beginning of two or
    more symbols of a longer useful rule; this follows from [nulling_only_short] *)
Definition null_prefixes_visible (U : pcfg) (start : sym) : Prop :=
  forall r u v, In r (c_rules U) -> useful (c_rules U) start r -> p_rhs r = u ++ v -> 2 <= length u -> v <> [] ->
    Forall (nullable (c_rules U)) u -> Forall (visible (c_rules U)) u.

(** If the nullable symbols but one are left out of a useful rule, or of its first two or
    more symbols, what remains is not a nonterminal; and a useful rule has no nullable symbol
    after the second but in the last place.  This is so if no rule is empty and none
    consists of one nonterminal. *)
Definition no_unit_steps (U : pcfg) (start : sym) : Prop :=
  forall r u v, In r (c_rules U) -> useful (c_rules U) start r -> p_rhs r = u ++ v ->
    (forall l1 s l2, v = [] \/ 2 <= length u -> u = l1 ++ s :: l2 -> Forall (nullable (c_rules U)) (l1 ++ l2) -> terminal (c_rules U) s) /\
    (forall u' s, v <> [] -> u = u' ++ [s] -> 2 <= length u' -> ~ nullable (c_rules U) s).

(** no rule is empty, and none consists of one nonterminal *)
Definition plain_grammar (U : pcfg) : Prop :=
  forall r, In r (c_rules U) -> p_rhs r <> [] /\ forall s, p_rhs r = [s] -> terminal (c_rules U) s.

(** no symbol derives itself in one or more steps *)
Definition no_cycles (U : pcfg) : Prop := forall s, ~ derives_by_rule (c_rules U) s [s].

(** no symbol that can be reached from the start symbol and can stand for a token or more
    derives itself in one or more steps *)
Definition no_visible_cycles (U : pcfg) (start : sym) : Prop :=
  forall s u v, derives (c_rules U) start (u ++ s :: v) -> visible (c_rules U) s -> ~ derives_by_rule (c_rules U) s [s].

(** a symbol that derives itself in one or more steps stands for the tokens [y] right after
    the tokens [x] in some sentence *)
Definition cycle_after (U : pcfg) (start : sym) (x y : list sym) : Prop :=
  exists A z, derives_by_rule (c_rules U) A [A] /\ derives (c_rules U) start (x ++ A :: z) /\ Forall (terminal (c_rules U)) z /\
    derives (c_rules U) A y /\ y <> [].

(** this happens nowhere in the input *)
Definition no_cycle_on (U : pcfg) (start : sym) (tokens : list sym) : Prop :=
  forall x y z, tokens = x ++ y ++ z -> ~ cycle_after U start x y.

(** nor in any input *)
Definition no_sentence_cycles (U : pcfg) (start : sym) : Prop :=
  forall x y, Forall (terminal (c_rules U)) (x ++ y) -> ~ cycle_after U start x y.

(** what [from_grammar] makes of a user's grammar; [f] numbers the symbols anew *)
Record user_built (U : pcfg) (start : sym) (c : pcfg) (nsyms : nat) (w : wrapped_root) (d0 : nat) (g0 : sym)
  (g : dgrammar) (f : sym -> sym) : Prop := {
  ub_built : built c nsyms w d0 g0 g;
  ub_known : forall t, token U start t ->
    to_internal g t = Ret (Some (f t)) /\ user_terminal c nsyms w (f t);
  ub_unknown : forall t, t < c_num_syms U -> terminal (c_rules U) t -> ~ known U start t -> to_internal g t = Ret None;
  ub_sentence : forall x, (forall t, In t x -> token U start t) ->
    (sentence c w g0 (map f x) <-> derives (c_rules U) start x);
  ub_productive : productive (c_rules c);
  ub_viable : productive_sym (c_rules U) start -> forall x, (forall t, In t x -> token U start t) ->
    (viable c nsyms w g0 (map f x) <-> viable_input U start x)
}.
