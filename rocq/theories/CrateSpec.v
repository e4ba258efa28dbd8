(** CrateSpec: what [DefaultGrammar::from_grammar] expects of the cfg crate.

    Each relation describes one transformation in terms of the grammar before and the
    grammar after it.  Nothing here refers to gearley's tables; [find_gensyms] enters only
    through the comparison that [remap_symbols] passes on. *)
From Coq Require Import List Arith Bool.
From Verif Require Import Base Grammar BitMatrix DefaultGrammar Spec CfgSpec FromGrammar.
Import ListNotations.

(** ** The user's grammar *)

(** [s] derives the empty string *)
Definition nullable (R : list prule) (s : sym) : Prop := derives R s [].
(** [s] derives a string of terminals *)
Definition productive_sym (R : list prule) (s : sym) : Prop := exists x, Forall (terminal R) x /\ derives R s x.
(** [s] derives a string of terminals that is not empty *)
Definition visible (R : list prule) (s : sym) : Prop := exists x, x <> [] /\ Forall (terminal R) x /\ derives R s x.
(** [s] derives [x] and a rule is used for it *)
Definition derives_by_rule (R : list prule) (s : sym) (x : list sym) : Prop :=
  exists r, In r R /\ p_lhs r = s /\ derives_seq R (p_rhs r) x.
(** [s] occurs in a rule *)
Definition used (R : list prule) (s : sym) : Prop := exists r, In r R /\ (p_lhs r = s \/ In s (p_rhs r)).

(** A user's grammar: symbols are below the number of symbols, there is one start symbol,
    and every rule has an identifier, by which evaluators know it. *)
Record user_grammar (U : pcfg) (start : sym) : Prop := {
  ug_range : forall s, used (c_rules U) s -> s < c_num_syms U;
  ug_start : start < c_num_syms U;
  ug_roots : c_roots U = [start];
  ug_origin : forall r, In r (c_rules U) -> p_origin r <> None
}.

(** ** [make_proper]: useless rules are removed *)
Definition useful (R : list prule) (start : sym) (r : prule) : Prop :=
  (exists u v, derives R start (u ++ p_lhs r :: v)) /\ forall s, In s (p_rhs r) -> productive_sym R s.

Record made_proper (start : sym) (U U' : pcfg) : Prop := {
  mp_filter : exists keep, c_rules U' = filter keep (c_rules U);
  mp_rules : forall r, In r (c_rules U') <-> In r (c_rules U) /\ useful (c_rules U) start r;
  mp_syms : c_num_syms U' = c_num_syms U
}.

(** [t] is the start symbol or occurs in a useful rule *)
Definition known (U : pcfg) (start t : sym) : Prop :=
  t = start \/ exists r, In r (c_rules U) /\ useful (c_rules U) start r /\ In t (p_rhs r).

(** ** [wrap_input]: a rule [root ::= sof start eof] of new symbols is added *)
Record wrapped (start : sym) (U' W : pcfg) (w : wrapped_root) : Prop := {
  wr_rules : exists l1 l2 r0, c_rules U' = l1 ++ l2 /\ c_rules W = l1 ++ r0 :: l2 /\
    p_lhs r0 = w_root w /\ p_rhs r0 = [w_sof w; start; w_eof w] /\ p_origin r0 = None;
  wr_new : Forall (fun s => c_num_syms U' <= s < c_num_syms W) [w_root w; w_sof w; w_eof w];
  wr_distinct : NoDup [w_root w; w_sof w; w_eof w];
  wr_inner : w_inner w = start;
  wr_wrapped : c_wrapped W = [w];
  wr_roots : c_roots W = [w_root w]
}.

(** ** Binarisation

    Long right-hand sides [A ::= x1 ... xn] are cut: [A ::= g xn], [g ::= g' xn-1], ...,
    where the generated symbols stand for prefixes.  [m s] lists the symbols that [s]
    stands for; [head d] is the place of the rule that remains of rule [d]. *)
Record binarized (W B : pcfg) (m : sym -> list sym) (head : nat -> nat) : Prop := {
  bz_syms : c_num_syms W <= c_num_syms B;
  bz_range : forall s, used (c_rules B) s -> s < c_num_syms B;
  bz_old : forall s, s < c_num_syms W -> m s = [s];
  bz_new : forall s, c_num_syms W <= s -> 2 <= length (m s);
  (* the rules of the symbols of [W] *)
  bz_head : forall d r, nth_error (c_rules W) d = Some r -> exists r', nth_error (c_rules B) (head d) = Some r' /\
    p_lhs r' = p_lhs r /\ p_origin r' = p_origin r /\ flat_map m (p_rhs r') = p_rhs r;
  bz_head_only : forall b r', nth_error (c_rules B) b = Some r' -> p_lhs r' < c_num_syms W ->
    exists d, d < length (c_rules W) /\ head d = b;
  bz_head_once : forall d d', d < length (c_rules W) -> d' < length (c_rules W) -> head d = head d' -> d = d';
  (* each generated symbol has one rule and is used once, in front *)
  bz_gen_rule : forall r, In r (c_rules B) -> c_num_syms W <= p_lhs r ->
    p_origin r = None /\ length (p_rhs r) = 2 /\ flat_map m (p_rhs r) = m (p_lhs r);
  bz_gen_one : forall g, c_num_syms W <= g -> g < c_num_syms B -> exists b r, nth_error (c_rules B) b = Some r /\ p_lhs r = g /\
    forall b' r', nth_error (c_rules B) b' = Some r' -> p_lhs r' = g -> b' = b;
  bz_gen_use : forall g, c_num_syms W <= g -> g < c_num_syms B -> exists b r y, nth_error (c_rules B) b = Some r /\ p_rhs r = [g; y] /\
    forall b' r', nth_error (c_rules B) b' = Some r' -> In g (p_rhs r') -> b' = b;
  bz_second : forall r s, In r (c_rules B) -> nth_error (p_rhs r) 1 = Some s -> s < c_num_syms W;
  bz_length : forall r, In r (c_rules B) -> length (p_rhs r) <= 2;
  bz_wrapped : c_wrapped B = c_wrapped W;
  bz_roots : c_roots B = c_roots W
}.

(** ** Elimination of nulling rules

    From each rule some nullable symbols are struck out, in every possible way that leaves
    something.  [mask] has [true] for each symbol that is left. *)
Fixpoint left_over (mask : list bool) (l : list sym) : list sym :=
  match mask, l with
  | b :: mask, s :: l => if b then s :: left_over mask l else left_over mask l
  | _, _ => []
  end.
Definition struck_out (mask : list bool) (l : list sym) : list sym := left_over (map negb mask) l.

(** What a rule records about a struck out symbol: the symbol, and whether it stood to the
    right of the one that is left. *)
Definition symbol_struck (mask : list bool) (l : list sym) : option (sym * bool) :=
  match mask, l with
  | [true; false], [_; y] => Some (y, true)
  | [false; true], [x; _] => Some (x, false)
  | _, _ => None
  end.

(** [origin d]: the place of the rule from which rule [d] is made, and its mask.  Rules in
    which a symbol derives nothing but the empty string need not be made. *)
Record eliminated (B E : pcfg) (nulling : list prule) (origin : nat -> nat * list bool) : Prop := {
  el_rule : forall d r, nth_error (c_rules E) d = Some r ->
    let (b, mask) := origin d in
    exists r', nth_error (c_rules B) b = Some r' /\ length mask = length (p_rhs r') /\
      p_lhs r = p_lhs r' /\ p_origin r = p_origin r' /\ p_rhs r = left_over mask (p_rhs r') /\ p_rhs r <> [] /\
      Forall (nullable (c_rules B)) (struck_out mask (p_rhs r'));
  el_nullable : forall d r r', nth_error (c_rules E) d = Some r -> nth_error (c_rules B) (fst (origin d)) = Some r' ->
    p_nullable r = symbol_struck (snd (origin d)) (p_rhs r');
  el_once : forall d d' r r', nth_error (c_rules E) d = Some r -> nth_error (c_rules E) d' = Some r' ->
    origin d = origin d' -> d = d';
  el_all : forall b r' mask, nth_error (c_rules B) b = Some r' -> length mask = length (p_rhs r') ->
    Forall (nullable (c_rules B)) (struck_out mask (p_rhs r')) ->
    left_over mask (p_rhs r') <> [] -> Forall (visible (c_rules B)) (left_over mask (p_rhs r')) ->
    exists d r, nth_error (c_rules E) d = Some r /\ origin d = (b, mask);
  (* the nulling grammar has the rules all of whose symbols are nullable *)
  el_nulling : forall r, In r nulling <-> In r (c_rules B) /\ Forall (nullable (c_rules B)) (p_rhs r);
  (* every rule keeps the dots that the event columns ask for *)
  el_dots : forall r, In r (c_rules E) -> column_dot 1 r <> None /\ column_dot 2 r <> None;
  el_syms : c_num_syms E = c_num_syms B;
  el_wrapped : c_wrapped E = c_wrapped B;
  el_roots : c_roots E = c_roots B
}.

(** ** Renumbering

    [f] numbers the used symbols from 0 on, as the comparison demands.  The comparison is
    not a strict weak order (C53), so that sorting need not respect each of its answers.
    But when it puts every symbol of one kind before every symbol of the other kind, then
    so does the numbering. *)
Definition renamed (f : sym -> sym) (r r' : prule) : Prop :=
  p_lhs r' = f (p_lhs r) /\ p_rhs r' = map f (p_rhs r) /\ p_origin r' = p_origin r /\ p_dots r' = p_dots r /\
  p_nullable r' = option_map (fun e => (f (fst e), snd e)) (p_nullable r).

Record remapped (cmp : sym -> sym -> res comparison) (E c : pcfg) (maps : mapping) (f : sym -> sym) : Prop := {
  rm_rules : Forall2 (renamed f) (c_rules E) (c_rules c);
  rm_injective : forall a b, used (c_rules E) a -> used (c_rules E) b -> f a = f b -> a = b;
  rm_range : forall a, used (c_rules E) a -> f a < c_num_syms c;
  rm_onto : forall t, t < c_num_syms c -> exists a, used (c_rules E) a /\ f a = t;
  rm_order : forall low : sym -> Prop,
    (forall a b, used (c_rules E) a -> used (c_rules E) b -> low a -> ~ low b -> cmp a b = Ret Lt) ->
    forall a b, used (c_rules E) a -> used (c_rules E) b -> low a -> ~ low b -> f a < f b;
  rm_internal : forall a, used (c_rules E) a -> map_to_internal maps a = Ret (Some (f a));
  rm_external : forall a, used (c_rules E) a -> map_to_external maps (f a) = Ret a;
  rm_unused : forall a, a < c_num_syms E -> ~ used (c_rules E) a -> map_to_internal maps a = Ret None;
  rm_wrapped : forall w, c_wrapped E = [w] -> exists w', c_wrapped c = [w'] /\
    w_root w' = f (w_root w) /\ w_sof w' = f (w_sof w) /\ w_eof w' = f (w_eof w) /\
    (used (c_rules E) (w_inner w) -> w_inner w' = f (w_inner w));
  rm_roots : c_roots c = map f (c_roots E)
}.

(** ** All together: the crate does this on the way from [U] to [c] *)
Record elaborates (X : cfg_crate) (U : pcfg) (start : sym)
  (W B E c : pcfg) (w : wrapped_root) (m : sym -> list sym) (head : nat -> nat) (nulling : list prule)
  (origin : nat -> nat * list bool) (maps : mapping) (f : sym -> sym) : Prop := {
  eb_proper : made_proper start U (x_make_proper X U);
  eb_wrap : x_wrap_input X (x_make_proper X U) = W /\ wrapped start (x_make_proper X U) W w;
  eb_binarize : binarized W B m head;
  eb_eliminate : x_binarize_and_eliminate X W = (E, nulling) /\ eliminated B E nulling origin;
  eb_remap : forall order, remap_order E (w_eof w) = Ret order ->
    x_remap X (remap_cmp order) E = Ret (c, maps) /\ remapped (remap_cmp order) E c maps f;
  eb_first : first_sets_cover (sort_rules_by_lhs c) (x_first X (sort_rules_by_lhs c));
  eb_follow : follow_sets_cover (sort_rules_by_lhs c) (f (w_root w)) (x_follow X (sort_rules_by_lhs c))
}.

(** the crate treats the user's grammar as described above *)
Definition crate_contract (X : cfg_crate) (U : pcfg) (start : sym) : Prop :=
  exists W B E c w m head nulling origin maps f, elaborates X U start W B E c w m head nulling origin maps f.

(** and it makes no rule with a symbol that derives nothing but the empty string *)
Definition drops_invisible (B E : pcfg) : Prop := forall r s, In r (c_rules E) -> In s (p_rhs r) -> visible (c_rules B) s.
Definition crate_drops (X : cfg_crate) (U : pcfg) (start : sym) : Prop :=
  exists W B E c w m head nulling origin maps f, elaborates X U start W B E c w m head nulling origin maps f /\ drops_invisible B E.

(** The numbers that stand for the symbols left out are not those of others, and the start
    symbol is reported under its number even if it is left out. *)
Definition numbers_apart (B E : pcfg) (f : sym -> sym) : Prop :=
  forall s t, used (c_rules B) s -> ~ used (c_rules E) s -> used (c_rules E) t -> f s <> f t.
Definition crate_apart (X : cfg_crate) (U : pcfg) (start : sym) : Prop :=
  exists W B E c w m head nulling origin maps f, elaborates X U start W B E c w m head nulling origin maps f /\
    numbers_apart B E f /\ map w_inner (c_wrapped c) = [f start].
