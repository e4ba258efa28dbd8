(** PropsUser: what holds of the user's own grammar.  [from_grammar] hands it to the cfg
    crate, which is assumed to keep the contract of CrateSpec.v; everything after that is
    proved.  Proofs are in PropLemmas9.v and PropLemmas10.v. *)
From Coq Require Import List Arith Bool Lia.
From Verif Require Import Base Vec2d Item Grammar BitMatrix DefaultGrammar Forest Recognizer Drive Parse Spec CfgSpec ForestSpec ClientSpec
  EvalSpec TreeSpec SimpleBocage SimpleEval ForestProg CompactBocage CompactEval CompactSpec Sim PropLemmas PropLemmas3 PropLemmas4 FromGrammar CrateSpec UserSpec UserTreeSpec CrateFacts
  PropLemmas9 PropLemmas10 Check ExampleGrammars ExampleCrate ExampleShort ExampleLong Cycle.
From Verif Require ReferenceCrate ReferenceFacts Asymmetric CrateOrder CrateProcessed CratePanic.
Import ListNotations.
Local Open Scope res_scope.

(** C51.  [from_grammar] succeeds and the grammar it makes satisfies the hypotheses of the
    other theorems; terminals are translated as [to_internal] says.  Missing: grammars with
    cycles ([C52_cycle_refuted]), and grammars in which a rule begins with two or more
    symbols that may all be empty, one of them always, and goes on after them ([C52_refuted],
    [C52_exactly]). *)
Theorem C51_built_partial : forall X U start, user_grammar U start -> crate_contract X U start ->
  null_prefixes_visible U start -> no_cycles U ->
  exists k g c nsyms w d0 g0 f, (forall fuel, k <= fuel -> from_grammar X fuel U = Ret g) /\
    user_built U start c nsyms w d0 g0 g f.
Proof. exact P_user_built. Qed.
Print Assumptions C51_built_partial.

(** C51.  [parse] ends without a panic and answers true exactly for the sentences of the
    user's grammar. *)
Theorem C51_language_partial : forall X U start, user_grammar U start -> crate_contract X U start ->
  null_prefixes_visible U start -> no_cycles U ->
  forall F N (fo : forest_ops F N) f0 P, (exists ok, usable fo ok /\ ok Idle f0) -> LEO P = false ->
  exists k g, (forall fuel, k <= fuel -> from_grammar X fuel U = Ret g) /\
    forall tokens, Forall (token U start) tokens ->
    exists n r, total n (fun fuel => st <- r_new g f0 ;; '(r, _) <- parse fo P g fuel st tokens ;; Ret r) r /\
      (r = POk true <-> derives (c_rules U) start tokens).
Proof. exact P_user_language. Qed.
Print Assumptions C51_language_partial.

(** C51.  Reading tokens one by one, the recognizer goes on exactly as long as what was read
    can be continued to a sentence of the user's grammar. *)
Theorem C51_viable_partial : forall X U start, user_grammar U start -> crate_contract X U start ->
  null_prefixes_visible U start -> no_cycles U -> productive_sym (c_rules U) start ->
  forall F N (fo : forest_ops F N) f0 P, (exists ok, usable fo ok /\ ok Idle f0) -> LEO P = false ->
  exists k g f w, (forall fuel, k <= fuel -> from_grammar X fuel U = Ret g) /\
    (forall t, token U start t -> to_internal g t = Ret (Some (f t))) /\ g_sof_sym g = w_sof w /\
    forall xs : list (sym * nat), Forall (fun x => token U start (fst x)) xs ->
    exists n b, total n (fun fuel => st <- r_new g f0 ;;
        '(b, _) <- feed_all fo P g fuel (read_start w :: map (fun x => plain (f (fst x), snd x)) xs) st ;; Ret b) b /\
      (b = true <-> viable_input U start (map fst xs)).
Proof. exact P_user_viable. Qed.
Print Assumptions C51_viable_partial.

(** C51.  When [parse] reports an error at token [i], the tokens before it can be continued
    to a sentence, and the tokens up to the one after it cannot. *)
Theorem C51_error_partial : forall X U start, user_grammar U start -> crate_contract X U start ->
  null_prefixes_visible U start -> no_cycles U -> productive_sym (c_rules U) start ->
  forall F N (fo : forest_ops F N) f0 P, (exists ok, usable fo ok /\ ok Idle f0) -> LEO P = false ->
  exists k g, (forall fuel, k <= fuel -> from_grammar X fuel U = Ret g) /\
    forall tokens fuel st0 err i st', Forall (token U start) tokens -> r_new g f0 = Ret st0 ->
    parse fo P g fuel st0 tokens = Ret (PErrParse err i, st') ->
    (exists tok, nth_error tokens i = Some tok /\ err = [tok]) /\
    viable_input U start (firstn i tokens) /\ ~ viable_input U start (firstn (i + 2) tokens).
Proof. exact P_user_error. Qed.
Print Assumptions C51_error_partial.

(** The grammar S ::= a S b | | x N, N ::= b N and a crate for it meet the hypotheses; a b
    is a sentence, and the model of [parse] says so; a alone is a viable prefix. *)
Example C51_example : user_grammar U1 0 /\ crate_contract X1 U1 0 /\ null_prefixes_visible U1 0 /\ no_cycles U1 /\
  productive_sym (c_rules U1) 0 /\ (exists ok, usable null_forest ok /\ ok Idle tt) /\
  Forall (token U1 0) [1; 2] /\ derives (c_rules U1) 0 [1; 2] /\ viable_input U1 0 [1] /\
  (run_parse (from_grammar X1 20 U1) [1; 2] = Ret (POk true)) /\ (run_parse (from_grammar X1 20 U1) [1] = Ret (POk false)) /\
  (run_parse (from_grammar X1 20 U1) [1; 2; 2; 1] = Ret (PErrParse [2] 2)).
Proof.
  split; [exact U1_user|]. split; [exact X1_contract|]. split; [exact (CrateProcessed.no_nulling_prefixes U1 0 U1_visible)|]. split; [exact U1_acyclic|].
  split; [exact U1_productive|]. split; [exists (fun _ _ => True); split; [exact null_usable|exact I]|].
  split; [|split; [exact U1_ab|split; [exists [2]; split; [repeat constructor; apply terminal_by; reflexivity|exact U1_ab]|vm_compute; auto]]].
  assert (K : forall t, t = 1 \/ t = 2 -> token U1 0 t).
  { intros t D. split; [cbn; lia|]. split; [apply terminal_by; destruct D; subst; reflexivity|].
    right. exists (rule 0 [1; 0; 2] (Some 0)). split; [cbn; auto|].
    split; [apply (mp_rules _ _ _ X1_proper); cbn; auto|destruct D; subst; cbn; auto]. }
  constructor; [apply K; auto|]. constructor; [apply K; auto|constructor].
Qed.

(** C51.  The contract of CrateSpec.v asks for nothing impossible: the crate written out in
    ReferenceCrate.v keeps it for every grammar, also for those with cycles and with symbols
    that derive the empty string only. *)
Theorem C51_contract_kept : forall U start, user_grammar U start -> crate_contract ReferenceCrate.reference U start.
Proof. exact ReferenceFacts.reference_keeps. Qed.
Print Assumptions C51_contract_kept.

(** C51.  With this crate nothing is assumed: [from_grammar] and [parse] decide the language
    of every grammar without cycles in which no rule begins with two or more symbols that may
    all be empty, one of them always, and goes on after them. *)
Theorem C51_reference_language_partial : forall U start, user_grammar U start -> null_prefixes_visible U start -> no_cycles U ->
  forall F N (fo : forest_ops F N) f0 P, (exists ok, usable fo ok /\ ok Idle f0) -> LEO P = false ->
  exists k g, (forall fuel, k <= fuel -> from_grammar ReferenceCrate.reference fuel U = Ret g) /\
    forall tokens, Forall (token U start) tokens ->
    exists n r, total n (fun fuel => st <- r_new g f0 ;; '(r, _) <- parse fo P g fuel st tokens ;; Ret r) r /\
      (r = POk true <-> derives (c_rules U) start tokens).
Proof. intros U start HU. exact (P_user_language ReferenceCrate.reference U start HU (ReferenceFacts.reference_keeps U start HU)). Qed.
Print Assumptions C51_reference_language_partial.

Example C51_reference_example : user_grammar U1 0 /\ null_prefixes_visible U1 0 /\ no_cycles U1 /\
  (run_parse (from_grammar ReferenceCrate.reference 20 U1) [1; 2] = Ret (POk true)) /\
  (run_parse (from_grammar ReferenceCrate.reference 20 U1) [1] = Ret (POk false)) /\
  (run_parse (from_grammar ReferenceCrate.reference 20 U1) [1; 2; 2; 1] = Ret (PErrParse [2] 2)).
Proof. split; [exact U1_user|]. split; [exact (CrateProcessed.no_nulling_prefixes U1 0 U1_visible)|]. split; [exact U1_acyclic|]. vm_compute. auto. Qed.

(** So does the grammar S ::= S p S | a N, N ::= (nothing), in which N derives the empty
    string only. *)
Example C51_short_example : user_grammar U4 0 /\ null_prefixes_visible U4 0 /\ no_cycles U4 /\ ~ no_nulling_only U4 /\
  Forall (token U4 0) [1; 3; 1] /\ derives (c_rules U4) 0 [1; 3; 1] /\
  (run_parse (from_grammar ReferenceCrate.reference 20 U4) [1; 3; 1] = Ret (POk true)) /\
  (run_parse (from_grammar ReferenceCrate.reference 20 U4) [1; 3] = Ret (POk false)) /\
  (run_parse (from_grammar ReferenceCrate.reference 20 U4) [1; 1] = Ret (PErrParse [1] 0)).
Proof.
  split; [exact U4_user|]. split; [exact (CrateProcessed.short_prefixes U4 0 U4_short)|]. split; [exact U4_acyclic|].
  split; [intros H; exact (U4_only (H 2 U4_N))|].
  split; [repeat (apply Forall_cons; [apply U4_token; auto|]); apply Forall_nil|]. split; [exact U4_apa|]. vm_compute. auto.
Qed.

(** And so does S ::= a N b, N ::= (nothing), with a crate that makes no rule with N in it
    and with the crate of ReferenceCrate.v, which does. *)
Example C51_long_example : user_grammar U5 0 /\ crate_contract X5 U5 0 /\ null_prefixes_visible U5 0 /\ no_cycles U5 /\
  ~ nulling_only_short U5 0 /\ Forall (token U5 0) [2; 3] /\ derives (c_rules U5) 0 [2; 3] /\
  (run_parse (from_grammar X5 20 U5) [2; 3] = Ret (POk true)) /\
  (run_parse (from_grammar X5 20 U5) [2] = Ret (POk false)) /\
  (run_parse (from_grammar ReferenceCrate.reference 20 U5) [2; 3] = Ret (POk true)) /\
  (run_parse (from_grammar ReferenceCrate.reference 20 U5) [2] = Ret (POk false)).
Proof.
  split; [exact U5_user|]. split; [exact X5_contract|]. split; [exact U5_prefixes|]. split; [exact U5_acyclic|]. split; [exact U5_not_short|].
  split; [repeat (apply Forall_cons; [apply U5_token; auto|]); apply Forall_nil|]. split; [exact U5_ab|]. vm_compute. auto.
Qed.

(** And so does a grammar that has the empty sentence only: S ::= N N | A C, N ::= (nothing),
    A ::= a, C ::= a C. *)
Example C51_empty_example : user_grammar U6 0 /\ crate_contract ReferenceCrate.reference U6 0 /\ null_prefixes_visible U6 0 /\ no_cycles U6 /\
  ~ visible (c_rules U6) 0 /\ token U6 0 3 /\ derives (c_rules U6) 0 [] /\
  (run_parse (from_grammar ReferenceCrate.reference 20 U6) [] = Ret (POk true)) /\
  (run_parse (from_grammar ReferenceCrate.reference 20 U6) [3] = Ret (PErrParse [3] 0)).
Proof.
  split; [exact U6_user|]. split; [exact (ReferenceFacts.reference_keeps U6 0 U6_user)|]. split; [exact U6_prefixes|]. split; [exact U6_acyclic|].
  split; [exact U6_only|]. split; [exact U6_token|]. split; [exact U6_empty|]. vm_compute. auto.
Qed.

(** C52.  A terminal that stands only in rules [make_proper] removes is not known to the
    recognizer; giving it to [parse] is a panic, not a parse error. *)
Theorem C52_unknown_token_panics : forall X U start, user_grammar U start -> crate_contract X U start ->
  null_prefixes_visible U start -> no_cycles U -> productive_sym (c_rules U) start ->
  forall F N (fo : forest_ops F N) f0 P, (exists ok, usable fo ok /\ ok Idle f0) -> LEO P = false ->
  exists k g, (forall fuel, k <= fuel -> from_grammar X fuel U = Ret g) /\
    forall t rest, t < c_num_syms U -> terminal (c_rules U) t -> ~ known U start t ->
    exists n, forall fuel, n <= fuel -> (st <- r_new g f0 ;; parse fo P g fuel st (t :: rest)) = Panic.
Proof. exact P_user_unknown. Qed.
Print Assumptions C52_unknown_token_panics.

Lemma U1_x_unknown : ~ known U1 0 3.
Proof.
  intros [H|(r & Hr & Hu & Hin)]; [discriminate|].
  assert (Hr' : In r (c_rules U1')) by (apply (mp_rules _ _ _ X1_proper); auto). in_cases Hr'; cbn in Hin; intuition discriminate.
Qed.
Example C52_example : 3 < c_num_syms U1 /\ terminal (c_rules U1) 3 /\ ~ known U1 0 3 /\
  run_parse (from_grammar X1 20 U1) [3; 1] = Panic.
Proof.
  split; [cbn; lia|]. split; [apply terminal_by; reflexivity|]. split; [exact U1_x_unknown|]. vm_compute. reflexivity.
Qed.

(** C52 refuted: with a crate that keeps the contract, [from_grammar] panics on the grammar
    S ::= N N a, N ::= (nothing), which has no cycles and has the sentence a. *)
Theorem C52_refuted : exists X U start, user_grammar U start /\ crate_contract X U start /\ no_cycles U /\
  productive_sym (c_rules U) start /\ (forall r, In r (c_rules U) -> useful (c_rules U) start r) /\
  exists k, forall fuel, k <= fuel -> from_grammar X fuel U = Panic.
Proof.
  exists X2, U2, 0. split; [exact U2_user|]. split; [exact X2_contract|]. split; [exact U2_acyclic|]. split; [exact U2_productive|].
  split.
  - destruct X2_contract as (W & B & E & c & w & m & head & nulling & origin & maps & f & H). intros r Hr.
    apply (proj1 (mp_rules _ _ _ (eb_proper _ _ _ _ _ _ _ _ _ _ _ _ _ _ H) r)). exact Hr.
  - exists 20. intros fuel Hf. do 20 (destruct fuel as [|fuel]; [lia|]). vm_compute. reflexivity.
Qed.
Print Assumptions C52_refuted.

(** C52.  Which grammars these are, with cycles or without, with a crate that makes no rule with a
    symbol that is always empty: [from_grammar] succeeds exactly if no rule (that can be
    used at all) begins with two or more symbols that may all be empty, one of them always,
    and goes on after them. *)
Theorem C52_exactly : forall X U start, user_grammar U start -> crate_drops X U start ->
  ((exists fuel g, from_grammar X fuel U = Ret g) <->
   forall r u v, In r (c_rules U) -> useful (c_rules U) start r -> p_rhs r = u ++ v -> 2 <= length u -> v <> [] ->
     Forall (nullable (c_rules U)) u -> Forall (visible (c_rules U)) u).
Proof. exact CratePanic.P_user_exactly. Qed.
Print Assumptions C52_exactly.

(** Both cases occur: S ::= a N b is built and S ::= N N a is not. *)
Example C52_exactly_example :
  (user_grammar U5 0 /\ crate_drops X5 U5 0 /\
    exists g, from_grammar X5 20 U5 = Ret g) /\
  (user_grammar U2 0 /\ crate_drops X2 U2 0 /\
    from_grammar X2 20 U2 = Panic).
Proof.
  split.
  - split; [exact U5_user|]. split; [exact X5_drops|]. eexists. vm_compute. reflexivity.
  - split; [exact U2_user|]. split; [exact X2_drops|]. vm_compute. reflexivity.
Qed.

(** C52 refuted for cycles: A ::= A | a is accepted, and parsing the sentence a does not
    end, however long it runs. *)
Theorem C52_cycle_refuted : exists X U start t g, user_grammar U start /\ crate_contract X U start /\ no_nulling_only U /\
  token U start t /\ derives (c_rules U) start [t] /\
  (exists k, forall fuel, k <= fuel -> from_grammar X fuel U = Ret g) /\
  forall fuel, (st <- r_new g tt ;; parse null_forest default_perf g fuel st [t]) = NoFuel.
Proof.
  exists X3, U3, 0, 1, cycle_g. split; [exact U3_user|]. split; [exact X3_contract|]. split; [exact U3_visible|].
  split; [exact U3_token|]. split; [exact U3_a|]. split; [exists 20; exact cycle_g_ok|exact cycle_parse].
Qed.
Print Assumptions C52_cycle_refuted.

(** C53 refuted: the comparison by which [remap_symbols] has the symbols sorted does not
    order them.  Being equal is not transitive, as sorting demands: b c and c d compare
    equal, but b comes before d.  (The grammar has the rules b ::= d and c ::= d d, and
    end of input 0.) *)
Theorem C53_refuted : exists c order b' c' d', remap_order c 0 = Ret order /\
  remap_cmp order b' c' = Ret Eq /\ remap_cmp order c' d' = Ret Eq /\ remap_cmp order b' d' = Ret Lt.
Proof.
  exists {| c_rules := [rule 1 [3] (Some 0); rule 2 [3; 3] (Some 1)]; c_num_syms := 4; c_roots := [1]; c_wrapped := [] |}.
  eexists. exists 1, 2, 3. split; [vm_compute; reflexivity|]. vm_compute. auto.
Qed.
Print Assumptions C53_refuted.

(** C53 refuted once more: on the way from the user's grammar S ::= p q x N, x ::= | p,
    N ::= (nothing), which has no cycles, two symbols are each put before the other. *)
Theorem C53_both_before_refuted : exists U start U' W B E w m head nulling origin order a b,
  user_grammar U start /\ made_proper start U U' /\ wrapped start U' W w /\ binarized W B m head /\ eliminated B E nulling origin /\
  used (c_rules E) a /\ used (c_rules E) b /\ a <> b /\
  remap_order E (w_eof w) = Ret order /\ remap_cmp order a b = Ret Lt /\ remap_cmp order b a = Ret Lt.
Proof. exact Asymmetric.both_before. Qed.
Print Assumptions C53_both_before_refuted.

(** C53.  What does hold: if no rule of three or more symbols has a symbol that derives the
    empty string only, and the start symbol is none, the comparison gives opposite answers in the two directions, and being before is
    transitive.  Missing: being equal is not transitive ([C53_refuted]). *)
Theorem C53_strict_partial : forall X U start W B E c w m head nulling origin maps f, user_grammar U start ->
  elaborates X U start W B E c w m head nulling origin maps f -> nulling_only_short U start ->
  exists order, remap_order E (w_eof w) = Ret order /\
    (forall a b, used (c_rules E) a -> used (c_rules E) b -> a <> b ->
       exists o, remap_cmp order a b = Ret o /\ remap_cmp order b a = Ret (CompOpp o)) /\
    (forall a b c, used (c_rules E) a -> used (c_rules E) b -> used (c_rules E) c ->
       remap_cmp order a b = Ret Lt -> remap_cmp order b c = Ret Lt -> remap_cmp order a c = Ret Lt).
Proof. exact CrateOrder.order_strict. Qed.
Print Assumptions C53_strict_partial.

Example C53_example : user_grammar U1 0 /\ nulling_only_short U1 0 /\
  (exists W B E c w m head nulling origin maps f, elaborates X1 U1 0 W B E c w m head nulling origin maps f) /\
  exists order, remap_order E1 7 = Ret order /\ remap_cmp order 7 0 = Ret Lt /\ remap_cmp order 0 8 = Ret Lt /\ remap_cmp order 8 0 = Ret Gt.
Proof.
  split; [exact U1_user|]. split; [exact (CrateProcessed.no_nulling_short U1 0 U1_visible)|]. split; [exact X1_contract|]. eexists. split; [vm_compute; reflexivity|]. vm_compute. auto.
Qed.

(** C54.  The parse trees of the user's own grammar, which knows nothing of wrapping,
    binarising or eliminated rules.  An input that has one such tree is evaluated to the
    value of this tree, as often as the client asks.  (Different rules must have different
    identifiers.)  A symbol that derives only the empty string may have no number in the
    grammar that is built; then the crate still tells the evaluator some number for it where
    it was left out, which is assumed not to be the number of another symbol ([crate_apart]).
    Missing: as for C51, and crates that do not keep these numbers apart. *)
Theorem C54_value_partial : forall X U start, user_grammar U start -> crate_apart X U start ->
  null_prefixes_visible U start -> no_cycles U -> distinct_ids U -> forall P, LEO P = false ->
  exists k g f, (forall fuel, k <= fuel -> from_grammar X fuel U = Ret g) /\
    (forall s, known U start s -> visible (c_rules U) s -> to_internal g s = Ret (Some (f s))) /\
    (forall s t, known U start s -> known U start t -> visible (c_rules U) t -> s <> t -> f s <> f t) /\
    forall b0, bocage_new (g_forest_info g) = Ret b0 ->
    forall E (ev : evaluator E) nv, pushes ev nv ->
    forall use xs u, Forall (fun x => token U start (fst x)) xs -> (forall u', user_parse U start xs u' <-> u' = u) ->
    exists n h b, total n (fun fuel => st <- r_new g b0 ;;
        parse_forest simple_forest P g fuel (hinted use 0 ((g_sof_sym g, 0) :: map (fun x => (f (fst x), snd x)) xs)) st) (Some h, b) /\
      forall k, exists fuel0 b', forall fuel, fuel0 <= fuel ->
        evaluate_each ev fuel (repeat h k) b = Ret (repeat (uresult ev nv f u) k, b').
Proof. exact P_user_value. Qed.
Print Assumptions C54_value_partial.

(** C54, with the compact bocage.  For the empty input it gives no value. *)
Theorem C54_compact_value_partial : forall X U start, user_grammar U start -> crate_apart X U start ->
  null_prefixes_visible U start -> no_cycles U -> distinct_ids U -> forall P, LEO P = false ->
  exists k g f, (forall fuel, k <= fuel -> from_grammar X fuel U = Ret g) /\
    (forall s, known U start s -> visible (c_rules U) s -> to_internal g s = Ret (Some (f s))) /\
    (forall s t, known U start s -> known U start t -> visible (c_rules U) t -> s <> t -> f s <> f t) /\
    (u32 (g_syms g + g_gensyms g) -> u32 (length (g_col0 g)) ->
    forall b0, cbocage_new (g_forest_info g) = Ret b0 ->
    forall E (ev : evaluator E) nv, pushes ev nv ->
    forall use xs u, Forall (fun x => token U start (fst x)) xs -> Forall (fun x => u32 (snd x)) xs ->
    (forall u', user_parse U start xs u' <-> u' = u) ->
    exists n h b more, total n (fun fuel => st <- r_new g b0 ;;
        parse_forest compact_forest P g fuel (hinted use 0 ((g_sof_sym g, 0) :: map (fun x => (f (fst x), snd x)) xs)) st) (Some h, b) /\
      forall k, graph_fits b (k * more) -> exists fuel0 b', forall fuel, fuel0 <= fuel ->
        c_evaluate_each ev fuel (repeat h k) b = Ret (repeat (match xs with [] => [] | _ => [uvalue ev nv f u] end) k, b')).
Proof. exact P_user_compact. Qed.
Print Assumptions C54_compact_value_partial.

(** C54.  Ambiguous or not: the trees under the finished node are, one for one, the parse
    trees of the input in the user's grammar; for an input that has none there are none. *)
Theorem C54_trees_partial : forall X U start, user_grammar U start -> crate_apart X U start ->
  null_prefixes_visible U start -> no_cycles U -> distinct_ids U -> forall P, LEO P = false ->
  exists k g f, (forall fuel, k <= fuel -> from_grammar X fuel U = Ret g) /\
    (forall s, known U start s -> visible (c_rules U) s -> to_internal g s = Ret (Some (f s))) /\
    (forall s t, known U start s -> known U start t -> visible (c_rules U) t -> s <> t -> f s <> f t) /\
    forall b0, bocage_new (g_forest_info g) = Ret b0 ->
    forall use xs, Forall (fun x => token U start (fst x)) xs ->
    exists n r l us, total n (fun fuel => st <- r_new g b0 ;;
        parse_forest simple_forest P g fuel (hinted use 0 ((g_sof_sym g, 0) :: map (fun x => (f (fst x), snd x)) xs)) st) r /\
      finished_trees r l /\ Forall2 (reads_as (g_forest_info g) f) l us /\ NoDup us /\ (forall u, In u us <-> user_parse U start xs u).
Proof. exact P_user_trees. Qed.
Print Assumptions C54_trees_partial.

(** [crate_apart] asks no more than the contract when no symbol derives only the empty
    string, and the reference crate keeps it for every grammar. *)
Theorem C54_apart_kept : forall U start, user_grammar U start ->
  crate_apart ReferenceCrate.reference U start /\
  (no_nulling_only U -> null_prefixes_visible U start /\ forall X, crate_contract X U start -> crate_apart X U start).
Proof.
  intros U start HU. split; [exact (ReferenceFacts.reference_apart U start HU)|]. intros Hvis.
  split; [exact (CrateProcessed.no_nulling_prefixes U start Hvis)|]. intros X. exact (CrateProcessed.no_nulling_apart X U start HU Hvis).
Qed.
Print Assumptions C54_apart_kept.

Lemma leaf_tree : forall U s u, terminal (c_rules U) s -> user_tree U s u -> exists v, u = ULeaf s v.
Proof.
  intros U s u T H. inversion H as [s' v Ht|s' Hnull|r id ts Hr Eo HF Hy]; subst; [eauto| |].
  - apply (terminal_derives _ _ _ T) in Hnull. discriminate.
  - exfalso. now apply (T r).
Qed.

Definition evaluate_user (X : cfg_crate) (U : pcfg) (xs : list (sym * nat)) : res (list (list syntax)) :=
  g <- from_grammar X 20 U ;; b0 <- bocage_new (g_forest_info g) ;; st <- r_new g b0 ;;
  ys <- mapM (fun x => o <- to_internal g (fst x) ;; s <- unwrap o ;; Ret (s, snd x)) xs ;;
  '(o, b) <- parse_forest simple_forest default_perf g 60 (hinted (fun _ => true) 0 ((g_sof_sym g, 0) :: ys)) st ;;
  match o with
  | None => Ret []
  | Some h => '(vs, _) <- evaluate_each syntax_eval 60 [h; h] b ;; Ret vs
  end.

(** a S b with S nulled, in the grammar of [C51_example]: its only tree, and what the model
    of the whole way from [from_grammar] to two evaluations says. *)
Example C54_example : user_grammar U1 0 /\ crate_apart X1 U1 0 /\ null_prefixes_visible U1 0 /\ no_cycles U1 /\ distinct_ids U1 /\ pushes syntax_eval XNull /\
  (forall u, user_parse U1 0 [(1, 7); (2, 8)] u <-> u = UNode 0 [ULeaf 1 7; UNull 0; ULeaf 2 8]) /\
  uresult syntax_eval XNull f1 (UNode 0 [ULeaf 1 7; UNull 0; ULeaf 2 8]) = [XRule 0 [XLeaf 2 7; XNull 1; XLeaf 3 8]] /\
  evaluate_user X1 U1 [(1, 7); (2, 8)] = Ret (repeat [XRule 0 [XLeaf 2 7; XNull 1; XLeaf 3 8]] 2) /\
  evaluate_user X1 U1 [(2, 8)] = Ret [].
Proof.
  split; [exact U1_user|]. split; [exact (CrateProcessed.no_nulling_apart X1 U1 0 U1_user U1_visible X1_contract)|].
  split; [exact (CrateProcessed.no_nulling_prefixes U1 0 U1_visible)|]. split; [exact U1_acyclic|].
  split; [|split; [intros s rs; exists []; reflexivity|split; [|split; [reflexivity|vm_compute; auto]]]].
  - unfold distinct_ids. cbn. repeat constructor; cbn; intuition discriminate.
  - intros u. split.
    + intros [H Hy]. inversion H as [s' v Ht E1|s' Hnull|r id ts Hr Eo HF Hne E1]; subst.
      * exfalso. apply (Ht (rule 0 [] (Some 1))); [cbn; auto|reflexivity].
      * discriminate Hy.
      * in_cases Hr; try discriminate E1; cbn [p_rhs rule p_origin] in *; injection Eo as <-.
        -- inversion HF as [|? t1 ? l1 F1 F2]; subst. inversion F2 as [|? t2 ? l2 F3 F4]; subst. inversion F4 as [|? t3 ? l3 F5 F6]; subst. inversion F6; subst.
           destruct (leaf_tree U1 1 _ ltac:(apply terminal_by; reflexivity) F1) as (v1 & ->).
           destruct (leaf_tree U1 2 _ ltac:(apply terminal_by; reflexivity) F5) as (v3 & ->). cbn in Hy.
           injection Hy as -> Hy. inversion F3 as [s' v Ht E2|s' Hnull|r id ts Hr Eo HF2 Hne2 E2]; subst.
           ++ exfalso. apply (Ht (rule 0 [] (Some 1))); [cbn; auto|reflexivity].
           ++ cbn in Hy. injection Hy as ->. reflexivity.
           ++ exfalso. destruct (uyield (UNode id ts)) as [|a l]; [now apply Hne2|]. cbn in Hy. injection Hy as _ Hy. destruct l; discriminate Hy.
        -- inversion HF; subst. discriminate Hy.
        -- inversion HF as [|? t1 ? l1 F1 F2]; subst. destruct (leaf_tree U1 3 _ ltac:(apply terminal_by; reflexivity) F1) as (v1 & ->). discriminate Hy.
    + intros ->. split; [|reflexivity]. apply (ut_node U1 (rule 0 [1; 0; 2] (Some 0)) 0); [cbn; auto|reflexivity| |discriminate].
      cbn [p_rhs rule]. constructor; [constructor; apply terminal_by; reflexivity|]. constructor.
      * constructor. apply (derives_rule (c_rules U1) (rule 0 [] (Some 1)) []); [cbn; auto|constructor].
      * constructor; [constructor; apply terminal_by; reflexivity|constructor].
Qed.

(** a N b, in a grammar where N derives only the empty string and has no number, with a
    crate that leaves N out (of [C51_long_example]): its tree says that N was nulled, and so
    does the value. *)
Example C54_long_example : user_grammar U5 0 /\ crate_apart X5 U5 0 /\ null_prefixes_visible U5 0 /\ no_cycles U5 /\ ~ no_nulling_only U5 /\
  distinct_ids U5 /\ known U5 0 1 /\ ~ visible (c_rules U5) 1 /\
  (forall u, user_parse U5 0 [(2, 7); (3, 8)] u <-> u = UNode 0 [ULeaf 2 7; UNull 1; ULeaf 3 8]) /\
  uresult syntax_eval XNull f5 (UNode 0 [ULeaf 2 7; UNull 1; ULeaf 3 8]) = [XRule 0 [XLeaf 3 7; XNull 8; XLeaf 6 8]] /\
  evaluate_user X5 U5 [(2, 7); (3, 8)] = Ret (repeat [XRule 0 [XLeaf 3 7; XNull 8; XLeaf 6 8]] 2) /\
  evaluate_user X5 U5 [(2, 7)] = Ret [].
Proof.
  split; [exact U5_user|]. split; [exact X5_apart|]. split; [exact U5_prefixes|]. split; [exact U5_acyclic|]. split; [intros H; exact (U5_only (H 1 U5_N))|].
  split; [unfold distinct_ids; cbn; repeat constructor; cbn; intuition discriminate|].
  split; [right; exists (rule 0 [2; 1; 3] (Some 0)); split; [cbn; auto|split; [exact U5_useful|cbn; auto]]|]. split; [exact U5_only|].
  split; [|split; [reflexivity|vm_compute; auto]].
  intros u. split.
  - intros [H Hy]. inversion H as [s' v Ht E1|s' Hnull|r id ts Hr Eo HF Hne E1]; subst.
    + exfalso. apply (Ht (rule 0 [2; 1; 3] (Some 0))); [cbn; auto|reflexivity].
    + discriminate Hy.
    + in_cases Hr; try discriminate E1; cbn [p_rhs rule p_origin] in *; injection Eo as <-.
      inversion HF as [|? t1 ? l1 F1 F2]; subst. inversion F2 as [|? t2 ? l2 F3 F4]; subst. inversion F4 as [|? t3 ? l3 F5 F6]; subst. inversion F6; subst.
      destruct (leaf_tree U5 2 _ ltac:(apply terminal_by; reflexivity) F1) as (v1 & ->).
      destruct (leaf_tree U5 3 _ ltac:(apply terminal_by; reflexivity) F5) as (v3 & ->). cbn in Hy.
      injection Hy as -> Hy. inversion F3 as [s' v Ht E2|s' Hnull|r id ts Hr Eo HF2 Hne2 E2]; subst.
      * exfalso. apply (Ht (rule 1 [] (Some 1))); [cbn; auto|reflexivity].
      * cbn in Hy. injection Hy as ->. reflexivity.
      * exfalso. destruct (uyield (UNode id ts)) as [|a l]; [now apply Hne2|]. cbn in Hy. injection Hy as _ Hy. destruct l; discriminate Hy.
  - intros ->. split; [|reflexivity]. apply (ut_node U5 (rule 0 [2; 1; 3] (Some 0)) 0); [cbn; auto|reflexivity| |discriminate].
    cbn [p_rhs rule]. constructor; [constructor; apply terminal_by; reflexivity|]. constructor; [constructor; exact U5_N|].
    constructor; [constructor; apply terminal_by; reflexivity|constructor].
Qed.
