(** Grammar: data types shared by the grammar, the recognizer and the forests.

    [pcfg] is the input of [DefaultGrammar::from_processed_grammars]: the value of
    type [cfg::Cfg] after make_proper, wrap_input, binarisation, nulling
    elimination, remapping and sorting.  The [cfg] crate itself is not part of
    /repo; only the queries made by gearley-default-grammar are represented. *)
From Coq Require Import List Arith Bool.
From Verif Require Import Base.
Import ListNotations.

(** Symbols are small integers (cfg_symbol::Symbol). *)
Definition sym := nat.

(** cfg history types: event id, minimal distance and external dotted rule;
    [None] is the null value of each. *)
Definition event_and_distance := (option nat * option nat)%type.
Definition dotted_rule := option (nat * nat).
Record rule_dot := mkDot { rd_event : event_and_distance; rd_trace : dotted_rule }.

(** A rule of the processed grammar.
    - [p_origin]: [rule.history.origin()], [None] if null ([id == !0]);
    - [p_nullable]: [rule.history.nullable()], the eliminated nulling symbol and its
      direction ([true]: it followed the remaining symbol);
    - [p_dots n]: [column(n)]'s [dot.earley]. *)
Record prule := mkRule {
  p_lhs : sym;
  p_rhs : list sym;
  p_origin : option nat;
  p_nullable : option (sym * bool);
  p_dots : list (option rule_dot)
}.

(** cfg::WrappedRoot: the rules [root ::= (sof inner_root) eof]. *)
Record wrapped_root := mkWrapped {
  w_root : sym;
  w_sof : sym;
  w_eof : sym;
  w_inner : sym
}.

Record pcfg := mkCfg {
  c_rules : list prule;
  c_num_syms : nat;
  c_roots : list sym;
  c_wrapped : list wrapped_root
}.

(** cfg_symbol::intern::Mapping *)
Record mapping := mkMapping {
  m_to_internal : list (option sym);
  m_to_external : list sym
}.

(** gearley-grammar/src/lib.rs:11-17 [PredictionTransition] *)
Record ptrans := mkPT { pt_symbol : sym; pt_dot : nat; pt_unary : bool }.

(** gearley-grammar/src/lib.rs:190-200 [ForestInfo].  An external origin is
    [Some id], or [None] if null. *)
Record forest_info := mkFI {
  fi_eval : list (option nat);
  fi_nulling_intermediate : list (sym * sym * sym);
  fi_nulling_eliminated : list (option (sym * bool));
  fi_sof : sym;
  fi_eof : sym;
  fi_start : sym
}.

(** [Iterator::max] over naturals. *)
Definition list_max_opt (l : list nat) : option nat :=
  match l with
  | [] => None
  | x :: t => Some (fold_left Nat.max t x)
  end.

(** gearley-grammar/src/lib.rs:203-214 [max_nulling_symbol]. *)
Definition max_nulling_symbol (fi : forest_info) : option nat :=
  list_max_opt
    (flat_map (fun o : option (sym * bool) =>
                 match o with Some (s, _) => [s] | None => [] end)
       (fi_nulling_eliminated fi)
     ++ flat_map (fun r : sym * sym * sym => let '(l, r0, r1) := r in [l; r0; r1])
          (fi_nulling_intermediate fi)).

(** gearley-grammar/src/lib.rs:216-218 [external_origin]: outer [None] if the dot
    is out of range, inner [None] if the origin is null. *)
Definition fi_external_origin (fi : forest_info) (dot : nat) : option (option nat) :=
  nth_error (fi_eval fi) dot.
