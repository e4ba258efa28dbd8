(** FromGrammar: model of [DefaultGrammar::from_grammar], gearley-default-grammar/src/lib.rs.

    The transformations of the user's grammar are done by the cfg crate, which is not part
    of /repo: they are the fields of [cfg_crate].  CrateSpec.v says what is expected of
    them. *)
From Coq Require Import List Arith Bool.
From Verif Require Import Base Grammar BitMatrix DefaultGrammar.
Import ListNotations.
Local Open Scope res_scope.

(** What lib.rs calls: [Cfg::make_proper], [Cfg::wrap_input],
    [Cfg::binarize_and_eliminate_nulling_rules] (the rewritten grammar and the rules of the
    nulling grammar), [Remap::reorder_symbols] with a comparison, then
    [remove_unused_symbols] and [get_mapping]; [FirstSets] and [FollowSets]. *)
Record cfg_crate := mkCrate {
  x_make_proper : pcfg -> pcfg;
  x_wrap_input : pcfg -> pcfg;
  x_binarize_and_eliminate : pcfg -> pcfg * list prule;
  x_remap : (sym -> sym -> res comparison) -> pcfg -> res (pcfg * mapping);
  x_first : pcfg -> list (sym * list sym);
  x_follow : pcfg -> list (sym * list sym)
}.

(** lib.rs:231-281 [remap_symbols] *)
Definition remap_symbols (X : cfg_crate) (c : pcfg) : res (pcfg * mapping) :=
  assert (length (c_wrapped c) =? 1) ;;;
  w <- idx (c_wrapped c) 0 ;;
  order <- remap_order c (w_eof w) ;;
  x_remap X (remap_cmp order) c.

(** lib.rs:93-229 [from_grammar].  The second computation of the prediction matrix
    (lib.rs:129-145) only serves the trace; the messages themselves are omitted. *)
Definition from_grammar (X : cfg_crate) (fuel : nat) (grammar : pcfg) : res dgrammar :=
  let c := x_make_proper X grammar in
  let c := x_wrap_input X c in
  let '(c, nulling) := x_binarize_and_eliminate X c in
  '(c, maps) <- remap_symbols X c ;;
  let c := sort_rules_by_lhs c in
  gens <- num_gensyms c ;;
  by_rhs0 <- compute_rules_by_rhs0 c ;;
  populate_prediction_matrix fuel (c_num_syms c - gens) c by_rhs0 ;;;
  from_processed_grammars fuel c maps nulling (x_first X c) (x_follow X c).
