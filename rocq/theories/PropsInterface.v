(** PropsInterface: what the [Grammar] interface says about the grammar.  Proofs are in
    PropLemmas11.v. *)
From Coq Require Import List Arith Bool Lia.
From Verif Require Import Base Grammar BitMatrix DefaultGrammar Spec CfgSpec FromGrammar CrateSpec UserSpec PropLemmas3 PropLemmas11
  Check ExampleGrammars ExampleCrate ExampleLong.
From Verif Require ClientSpec ProbeSpec PropsRecog PropsProbe.
Import ListNotations.

(** C57.  The accessors say what the processed grammar has: its sizes, the symbols of the
    wrapper, and for each rule its left-hand side, second symbol, identifier and eliminated
    symbol.  The dot before the end of input is the place of the only rule with the end of
    input, which is the only rule of the root.  Places where there is no rule are a panic,
    except for [nulling]. *)
Theorem C57_rules : forall c nsyms w d0 g0 g, built c nsyms w d0 g0 g ->
  g_num_rules g = length (c_rules c) /\ g_syms g = nsyms /\ g_syms g + g_gensyms g = c_num_syms c /\
  g_start_sym g = w_root w /\ g_sof_sym g = w_sof w /\ g_eof_sym g = w_eof w /\
  (forall d r, nth_error (c_rules c) d = Some r ->
    (nth_error (p_rhs r) 1 = Some (w_eof w) <-> d = g_dot_before_eof g) /\
    (p_lhs r = w_root w <-> d = g_dot_before_eof g) /\
    get_lhs g d = Ret (p_lhs r) /\ get_rhs1 g d = Ret (nth_error (p_rhs r) 1) /\
    rhs1_or_lhs g d = Ret (match nth_error (p_rhs r) 1 with Some s => s | None => p_lhs r end) /\
    g_external_origin g d = Ret (p_origin r) /\ g_nulling g d = p_nullable r) /\
  (forall d, length (c_rules c) <= d ->
    get_lhs g d = Panic /\ get_rhs1 g d = Panic /\ rhs1_or_lhs g d = Panic /\ g_external_origin g d = Panic /\ g_nulling g d = None).
Proof. exact P_interface. Qed.
Print Assumptions C57_rules.

(** C57.  [events] and [trace] have what the grammar attaches to the places in its rules:
    for each rule the events and records of its second and third place, and for each symbol
    the record at the start of its last rule that has one. *)
Theorem C57_records : forall c nsyms w d0 g0 g, built c nsyms w d0 g0 g ->
  exists e1 e2 t0 t1 t2, g_events g = (e1, e2) /\ g_trace g = (t0, t1, t2) /\
    (forall s, s < c_num_syms c -> exists t, nth_error t0 s = Some t /\ ProbeSpec.prediction_record c s t) /\
    (forall d r, nth_error (c_rules c) d = Some r -> exists x1 x2, ProbeSpec.attached 1 r x1 /\ ProbeSpec.attached 2 r x2 /\
       nth_error e1 d = Some (rd_event x1) /\ nth_error e2 d = Some (rd_event x2) /\
       nth_error t1 d = Some (rd_trace x1) /\ nth_error t2 d = Some (rd_trace x2)).
Proof. exact P_records. Qed.
Print Assumptions C57_records.

(** C57.  In terms of the user's own grammar, whenever [from_grammar] succeeds: the symbols
    that derive something are translated; translating back gives the same symbol; every
    internal symbol is the translation of something; the reported start symbol is the
    user's; every rule has the identifier and the left-hand side of a useful rule of the
    user, or no identifier and a left-hand side that is not a symbol of the user; and every
    useful rule in which some symbol derives something is there. *)
Theorem C57_user : forall X U start fuel g, user_grammar U start -> crate_contract X U start -> from_grammar X fuel U = Ret g ->
  (forall s, known U start s -> visible (c_rules U) s -> exists t, to_internal g s = Ret (Some t)) /\
  (forall s t, s < c_num_syms U -> to_internal g s = Ret (Some t) -> t < g_syms g /\ to_external g t = Ret s) /\
  (forall t, t < g_syms g + g_gensyms g -> exists s, to_external g t = Ret s /\ to_internal g s = Ret (Some t)) /\
  (visible (c_rules U) start -> externalized_start_sym g = Ret start) /\
  (forall d, d < g_num_rules g -> exists l s, get_lhs g d = Ret l /\ to_external g l = Ret s /\
    ((exists r, In r (c_rules U) /\ useful (c_rules U) start r /\ p_lhs r = s /\ g_external_origin g d = Ret (p_origin r)) \/
     (c_num_syms U <= s /\ g_external_origin g d = Ret None))) /\
  (forall r s, In r (c_rules U) -> useful (c_rules U) start r -> In s (p_rhs r) -> visible (c_rules U) s ->
    exists d l, d < g_num_rules g /\ get_lhs g d = Ret l /\ to_external g l = Ret (p_lhs r) /\ g_external_origin g d = Ret (p_origin r)).
Proof. exact P_user_interface. Qed.
Print Assumptions C57_user.

(** C57.  [max_nulling_symbol] is the greatest symbol that the forests are told about as an
    eliminated one. *)
Theorem C57_max_nulling : forall fi s,
  let occurs t := (exists pos b, nth_error (fi_nulling_eliminated fi) pos = Some (Some (t, b))) \/
    exists l a b, In (l, a, b) (fi_nulling_intermediate fi) /\ (t = l \/ t = a \/ t = b) in
  (max_nulling_symbol fi = Some s <-> occurs s /\ forall t, occurs t -> t <= s) /\
  (max_nulling_symbol fi = None <-> forall t, ~ occurs t).
Proof. exact P_forest_info. Qed.
Print Assumptions C57_max_nulling.

(** a N b, with N always empty; and A ::= A | a, which has a cycle *)
Example C57_example :
  (user_grammar U5 0 /\ crate_contract X5 U5 0 /\ exists g, from_grammar X5 20 U5 = Ret g /\
    map (to_internal g) [0; 1; 2; 3] = [Ret (Some 1); Ret None; Ret (Some 3); Ret (Some 6)] /\
    map (to_external g) [1; 3; 6] = [Ret 0; Ret 2; Ret 3] /\ externalized_start_sym g = Ret 0) /\
  (user_grammar U3 0 /\ crate_contract X3 U3 0 /\ exists g, from_grammar X3 20 U3 = Ret g) /\
  max_nulling_symbol ex_info = Some 6.
Proof.
  split; [|split; [|reflexivity]].
  - split; [exact U5_user|]. split; [exact X5_contract|]. eexists. split; [vm_compute; reflexivity|]. vm_compute. auto.
  - split; [exact U3_user|]. split; [exact X3_contract|]. eexists. vm_compute. reflexivity.
Qed.

(** S ::= a S | (nothing): in S ::= a, at place 2, the S to the right was eliminated *)
Example C57_rules_example : built opt 5 PropsRecog.wrap 0 5 PropsRecog.opt_dg /\
  map (get_lhs PropsRecog.opt_dg) [0; 2; 4; 5] = [Ret 1; Ret 3; Ret 5; Panic] /\
  map (get_rhs1 PropsRecog.opt_dg) [0; 1; 2] = [Ret (Some 0); Ret (Some 3); Ret None] /\
  map (g_nulling PropsRecog.opt_dg) [1; 2; 5] = [None; Some (3, true); None].
Proof. split; [exact (ClientSpec.cf_grammar _ _ _ _ _ _ _ _ _ PropsRecog.opt_configured)|]. vm_compute. auto. Qed.

(** S ::= a S b | a b | b a, with a record and an event at every place *)
Example C57_records_example : built PropsProbe.traced 6 PropsRecog.wrap 0 6 PropsProbe.traced_dg /\
  nth_error (fst (g_events PropsProbe.traced_dg)) 2 = Some (Some 21, Some 1) /\
  nth_error (snd (g_events PropsProbe.traced_dg)) 2 = Some (Some 22, Some 2) /\
  let '(t0, t1, t2) := g_trace PropsProbe.traced_dg in
  nth_error t0 3 = Some (Some (3, 0)) /\ nth_error t1 2 = Some (Some (2, 1)) /\ nth_error t2 2 = Some (Some (2, 2)).
Proof. split; [exact (ClientSpec.cf_grammar _ _ _ _ _ _ _ _ _ PropsProbe.traced_configured)|]. vm_compute. auto 8. Qed.
