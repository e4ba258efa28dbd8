(** CfgSpec: what a processed grammar looks like.

    [DefaultGrammar::from_grammar] hands the user's grammar to the external cfg
    crate, which wraps the start symbol, binarises, eliminates nulling symbols and
    renumbers symbols; the result is the input of [from_processed_grammars].
    [processed] states, without reference to gearley's tables, what that result has
    to satisfy.  It is an assumption about the cfg crate and [remap_symbols]. *)
From Coq Require Import List Arith Bool.
From Verif Require Import Base Grammar DefaultGrammar Spec Chart.
Import ListNotations.

(** [nsyms]: number of ordinary (not generated) symbols; [w]: the wrapper;
    [d0], [g0]: the rule [root ::= g0 eof]. *)
Record processed (c : pcfg) (nsyms : nat) (w : wrapped_root) (d0 : nat) (g0 : sym) : Prop := {
  pr_wf : wf_rules (c_rules c) nsyms (c_num_syms c);
  pr_le : nsyms <= c_num_syms c;
  (* the generated symbols recognised by [find_gensyms] are those from [nsyms] on *)
  pr_gens : num_gensyms c = Ret (c_num_syms c - nsyms);
  pr_acyclic : unary_acyclic (c_rules c);
  pr_wrapped : nth_error (c_wrapped c) 0 = Some w;
  pr_root_range : w_root w < nsyms;
  pr_sof_range : w_sof w < nsyms;
  pr_eof_range : w_eof w < nsyms;
  (* the only rule of the root is [root ::= g0 eof] *)
  pr_root_rule : exists r, nth_error (c_rules c) d0 = Some r /\ p_lhs r = w_root w /\ p_rhs r = [g0; w_eof w];
  pr_root_only : forall d r, nth_error (c_rules c) d = Some r -> p_lhs r = w_root w -> d = d0;
  (* [g0 ::= sof inner], or [g0 ::= sof] once a nullable [inner] is eliminated *)
  pr_g0_rules : forall r, In r (c_rules c) -> p_lhs r = g0 ->
    p_rhs r = [w_sof w; w_inner w] \/ p_rhs r = [w_sof w];
  (* the root is used nowhere; sof and eof are terminals *)
  pr_root_top : forall r, In r (c_rules c) -> ~ In (w_root w) (p_rhs r);
  pr_sof_terminal : terminal (c_rules c) (w_sof w);
  pr_eof_terminal : terminal (c_rules c) (w_eof w);
  (* eof stands only in the root's rule, and is the smallest symbol in second position *)
  pr_eof_min : forall d r C, nth_error (c_rules c) d = Some r -> rhs1 r = Some C ->
    w_eof w < C \/ d = d0;
  pr_g0_sof : g0 <> w_sof w
}.

(** the same, but unary rules may form a cycle *)
Record shaped (c : pcfg) (nsyms : nat) (w : wrapped_root) (d0 : nat) (g0 : sym) : Prop := {
  sh_wf : wf_rules (c_rules c) nsyms (c_num_syms c);
  sh_le : nsyms <= c_num_syms c;
  (* the generated symbols recognised by [find_gensyms] are those from [nsyms] on *)
  sh_gens : num_gensyms c = Ret (c_num_syms c - nsyms);
  sh_wrapped : nth_error (c_wrapped c) 0 = Some w;
  sh_root_range : w_root w < nsyms;
  sh_sof_range : w_sof w < nsyms;
  sh_eof_range : w_eof w < nsyms;
  (* the only rule of the root is [root ::= g0 eof] *)
  sh_root_rule : exists r, nth_error (c_rules c) d0 = Some r /\ p_lhs r = w_root w /\ p_rhs r = [g0; w_eof w];
  sh_root_only : forall d r, nth_error (c_rules c) d = Some r -> p_lhs r = w_root w -> d = d0;
  (* [g0 ::= sof inner], or [g0 ::= sof] once a nullable [inner] is eliminated *)
  sh_g0_rules : forall r, In r (c_rules c) -> p_lhs r = g0 ->
    p_rhs r = [w_sof w; w_inner w] \/ p_rhs r = [w_sof w];
  (* the root is used nowhere; sof and eof are terminals *)
  sh_root_top : forall r, In r (c_rules c) -> ~ In (w_root w) (p_rhs r);
  sh_sof_terminal : terminal (c_rules c) (w_sof w);
  sh_eof_terminal : terminal (c_rules c) (w_eof w);
  (* eof stands only in the root's rule, and is the smallest symbol in second position *)
  sh_eof_min : forall d r C, nth_error (c_rules c) d = Some r -> rhs1 r = Some C ->
    w_eof w < C \/ d = d0;
  sh_g0_sof : g0 <> w_sof w
}.

(** [x] is a sentence: the user's start symbol [w_inner w] derives it; the empty
    string is one if the wrapper has the rule [g0 ::= sof] left by the elimination
    of a nullable start symbol. *)
Definition sentence (c : pcfg) (w : wrapped_root) (g0 : sym) (x : list sym) : Prop :=
  (x = [] /\ exists r, In r (c_rules c) /\ p_lhs r = g0 /\ p_rhs r = [w_sof w]) \/
  ((exists r, In r (c_rules c) /\ p_lhs r = g0 /\ p_rhs r = [w_sof w; w_inner w]) /\
   derives (c_rules c) (w_inner w) x).

(** terminals other than the internal markers *)
Definition user_terminal (c : pcfg) (nsyms : nat) (w : wrapped_root) (s : sym) : Prop :=
  s < nsyms /\ terminal (c_rules c) s /\ s <> w_sof w /\ s <> w_eof w.

(** [x] can be continued by terminals to a sentence *)
Definition viable (c : pcfg) (nsyms : nat) (w : wrapped_root) (g0 : sym) (x : list sym) : Prop :=
  exists y, Forall (terminal (c_rules c)) y /\ sentence c w g0 (x ++ y).

(** the FIRST and FOLLOW sets computed by the cfg crate miss nothing *)
Definition first_sets_cover (c : pcfg) (first : list (sym * list sym)) : Prop :=
  forall r t v, In r (c_rules c) -> terminal (c_rules c) t -> derives (c_rules c) (p_lhs r) (t :: v) ->
    exists l, In (p_lhs r, l) first /\ In t l.
Definition follow_sets_cover (c : pcfg) (root : sym) (follow : list (sym * list sym)) : Prop :=
  forall r t u v, In r (c_rules c) -> terminal (c_rules c) t ->
    derives (c_rules c) root (u ++ p_lhs r :: t :: v) ->
    exists l, In (p_lhs r, l) follow /\ In t l.

(** a grammar object built from a processed grammar, with FIRST and FOLLOW sets that
    miss nothing *)
Record built (c : pcfg) (nsyms : nat) (w : wrapped_root) (d0 : nat) (g0 : sym) (g : dgrammar) : Prop := {
  b_processed : processed c nsyms w d0 g0;
  b_tables : exists fuel maps nulling first follow,
    from_processed_grammars fuel c maps nulling first follow = Ret g /\
    first_sets_cover c first /\ follow_sets_cover c (w_root w) follow
}.

(** the same for a grammar whose unary rules may form a cycle *)
Record shaped_built (c : pcfg) (nsyms : nat) (w : wrapped_root) (d0 : nat) (g0 : sym) (g : dgrammar) : Prop := {
  sb_shaped : shaped c nsyms w d0 g0;
  sb_tables : exists fuel maps nulling first follow,
    from_processed_grammars fuel c maps nulling first follow = Ret g /\
    first_sets_cover c first /\ follow_sets_cover c (w_root w) follow
}.
