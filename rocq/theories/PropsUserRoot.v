(** PropsUserRoot: ambiguous input, the marker and the two bocages, for the user's own
    grammar.  The conditions on the grammar ([no_unit_steps] and [nulling_only_short] of
    UserSpec.v) put the symbols in order however the cfg crate numbers them.  Proofs are in
    CrateOrdered.v and UserRoot.v. *)
From Coq Require Import List Arith Bool Lia Permutation.
From Verif Require Import Base Vec2d Item Grammar BitMatrix DefaultGrammar Forest Recognizer Drive Parse Spec SpecFacts CfgSpec ForestSpec ClientSpec
  EvalSpec TreeSpec SimpleBocage SimpleEval ForestProg CompactBocage CompactEval CompactSpec CompactForestSpec Sim PropLemmas PropLemmas3 PropLemmas4
  FromGrammar CrateSpec UserSpec UserTreeSpec CrateFacts
  PropLemmas9 PropLemmas10 UserRoot Check ExampleGrammars ExampleCrate.
From Verif Require ReferenceCrate ReferenceFacts PropsRoot.
Import ListNotations.
Local Open Scope res_scope.

(** The conditions hold of every grammar without empty rules and without rules of one
    nonterminal. *)
Theorem C58_plain : forall U start, plain_grammar U -> nulling_only_short U start /\ no_unit_steps U start /\ no_cycles U.
Proof. exact plain_steps. Qed.
Print Assumptions C58_plain.

(** C17 and C54: if the trees of the input differ in the rule of the start symbol or in the
    number of tokens before the rule's last symbol, evaluation returns the values of all
    trees of the user's grammar, each once, over either bocage.
    Missing: trees that differ further down only, the grammars left out by the conditions,
    evaluators that push nothing, crates that do not number symbols apart. *)
Theorem C54_values_partial : forall X U start, user_grammar U start -> crate_apart X U start ->
  nulling_only_short U start -> no_unit_steps U start -> no_cycles U -> distinct_ids U -> forall P, LEO P = false ->
  exists k g f, (forall fuel, k <= fuel -> from_grammar X fuel U = Ret g) /\
    (forall s, known U start s -> visible (c_rules U) s -> to_internal g s = Ret (Some (f s))) /\
    (forall s t, known U start s -> known U start t -> visible (c_rules U) t -> s <> t -> f s <> f t) /\
    forall b0 cb0, bocage_new (g_forest_info g) = Ret b0 -> cbocage_new (g_forest_info g) = Ret cb0 ->
    forall E (ev : evaluator E) nv, pushes ev nv ->
    forall use xs, xs <> [] -> Forall (fun x => token U start (fst x)) xs ->
    (exists u, user_parse U start xs u) ->
    (forall u u', user_parse U start xs u -> user_parse U start xs u' -> top_split u = top_split u' -> u = u') ->
    exists n h b us, total n (fun fuel => st <- r_new g b0 ;;
        parse_forest simple_forest P g fuel (hinted use 0 ((g_sof_sym g, 0) :: map (fun x => (f (fst x), snd x)) xs)) st) (Some h, b) /\
      NoDup us /\ (forall u, In u us <-> user_parse U start xs u) /\
      (exists fuel0 b1, forall fuel, fuel0 <= fuel -> evaluate ev fuel b h = Ret (map (uvalue ev nv f) us, b1)) /\
      (u32 (g_syms g + g_gensyms g) -> u32 (length (g_col0 g)) -> Forall (fun x => u32 (snd x)) xs ->
       exists h' b' us', Permutation us us' /\ total n (fun fuel => st <- r_new g cb0 ;;
           parse_forest compact_forest P g fuel (hinted use 0 ((g_sof_sym g, 0) :: map (fun x => (f (fst x), snd x)) xs)) st) (Some h', b') /\
         (graph_fits b' (9 * list_sum (map usize us)) -> exists fuel0 b1, forall fuel, fuel0 <= fuel ->
            c_evaluate ev fuel b' h' = Ret (map (uvalue ev nv f) us', b1))).
Proof. exact P_user_values. Qed.
Print Assumptions C54_values_partial.

(** C58: two evaluators that differ in [leaf] only, and not on the tokens of the input,
    return the same values over the simple bocage.  Missing: as above; see
    [C58_user_refuted] for what happens in other grammars. *)
Theorem C58_user_partial : forall X U start, user_grammar U start -> crate_apart X U start ->
  nulling_only_short U start -> no_unit_steps U start -> no_cycles U -> forall P, LEO P = false ->
  exists k g f, (forall fuel, k <= fuel -> from_grammar X fuel U = Ret g) /\
    (forall s, known U start s -> visible (c_rules U) s -> to_internal g s = Ret (Some (f s))) /\
    forall b0, bocage_new (g_forest_info g) = Ret b0 ->
    forall E (ev1 ev2 : evaluator E) nv, pushes ev1 nv -> pushes ev2 nv ->
    (forall id args, ev_product ev1 id args = ev_product ev2 id args) ->
    forall use xs, xs <> [] -> Forall (fun x => token U start (fst x)) xs ->
    (forall s v, In (s, v) xs -> ev_leaf ev1 (f s) v = ev_leaf ev2 (f s) v) ->
    exists n r, total n (fun fuel => st <- r_new g b0 ;;
        parse_forest simple_forest P g fuel (hinted use 0 ((g_sof_sym g, 0) :: map (fun x => (f (fst x), snd x)) xs)) st) r /\
      forall h, fst r = Some h -> exists fuel0 vs b1 b2, forall fuel, fuel0 <= fuel ->
        evaluate ev1 fuel (snd r) h = Ret (vs, b1) /\ evaluate ev2 fuel (snd r) h = Ret (vs, b2).
Proof. exact P_user_marker. Qed.
Print Assumptions C58_user_partial.

(** C19: an evaluator that does not care about the order of a rule's arguments gets the same
    values from both bocages, in another order, however ambiguous the input. *)
Theorem C19_user_values_partial : forall X U start, user_grammar U start -> crate_apart X U start ->
  nulling_only_short U start -> no_unit_steps U start -> no_cycles U -> forall P, LEO P = false ->
  exists k g f, (forall fuel, k <= fuel -> from_grammar X fuel U = Ret g) /\
    (forall s, known U start s -> visible (c_rules U) s -> to_internal g s = Ret (Some (f s))) /\
    (u32 (g_syms g + g_gensyms g) -> u32 (length (g_col0 g)) ->
    forall b0 cb0, bocage_new (g_forest_info g) = Ret b0 -> cbocage_new (g_forest_info g) = Ret cb0 ->
    forall E (ev : evaluator E) nv, pushes ev nv -> unordered ev ->
    forall use xs, xs <> [] -> Forall (fun x => token U start (fst x)) xs -> Forall (fun x => u32 (snd x)) xs ->
    exists n r r' l, total n (fun fuel => st <- r_new g b0 ;;
        parse_forest simple_forest P g fuel (hinted use 0 ((g_sof_sym g, 0) :: map (fun x => (f (fst x), snd x)) xs)) st) r /\
      total n (fun fuel => st <- r_new g cb0 ;;
        parse_forest compact_forest P g fuel (hinted use 0 ((g_sof_sym g, 0) :: map (fun x => (f (fst x), snd x)) xs)) st) r' /\
      finished_trees r l /\ (fst r = None <-> fst r' = None) /\
      forall h h', fst r = Some h -> fst r' = Some h' -> graph_fits (snd r') (9 * all_inner_nodes l) ->
        exists fuel0 vs vs' b1 b2, Permutation vs vs' /\ forall fuel, fuel0 <= fuel ->
          evaluate ev fuel (snd r) h = Ret (vs, b1) /\ c_evaluate ev fuel (snd r') h' = Ret (vs', b2)).
Proof. exact P_user_both. Qed.
Print Assumptions C19_user_values_partial.

(** E ::= E E | a *)
Definition U7 : pcfg := {|
  c_rules := [rule 0 [0; 0] (Some 0); rule 0 [1] (Some 1)];
  c_num_syms := 2; c_roots := [0]; c_wrapped := [] |}.
Definition dg7 : dgrammar := Eval vm_compute in the PropsRecog.opt_dg (from_grammar ReferenceCrate.reference 20 U7).

Lemma U7_user : user_grammar U7 0.
Proof.
  split; [|cbn; lia|reflexivity|].
  - intros s (r & Hr & Hs). in_cases Hr; cbn in Hs; cbn; intuition lia.
  - intros r Hr. in_cases Hr; discriminate.
Qed.
Lemma U7_plain : plain_grammar U7.
Proof.
  intros r Hr. in_cases Hr; (split; [discriminate|]); intros s E; cbn in E; [discriminate|]. injection E as <-. apply terminal_by. reflexivity.
Qed.
Lemma U7_token : token U7 0 1.
Proof.
  split; [cbn; lia|]. split; [apply terminal_by; reflexivity|]. right. exists (rule 0 [1] (Some 1)). split; [cbn; auto|].
  split; [|cbn; auto]. split; [exists [], []; constructor|]. intros s [<-|[]]. exists [1]. split; [|constructor].
  repeat constructor. apply terminal_by. reflexivity.
Qed.

Definition one7 (v : nat) : utree := UNode 1 [ULeaf 1 v].
Lemma U7_trees : forall u, user_tree U7 0 u -> (exists v, u = one7 v) \/ exists t1 t2, user_tree U7 0 t1 /\ user_tree U7 0 t2 /\ u = UNode 0 [t1; t2].
Proof.
  intros u H. inversion H as [s' v Ht E1|s' Hnull|r id ts Hr Eo HF Hne E1]; subst.
  - exfalso. apply (Ht (rule 0 [1] (Some 1))); [cbn; auto|reflexivity].
  - exfalso. exact (proj1 (plain_nonempty U7 U7_plain) _ _ Hnull eq_refl).
  - in_cases Hr; cbn [p_rhs rule p_origin] in *; injection Eo as <-.
    + right. inversion HF as [|? t1 ? l1 F1 F2]; subst. inversion F2 as [|? t2 ? l2 F3 F4]; subst. inversion F4; subst. eauto.
    + left. inversion HF as [|? t1 ? l1 F1 F2]; subst. inversion F2; subst. inversion F1 as [s' v Ht E3|s' Hnull|r id ts Hr Eo HF2 Hne2 E2]; subst.
      * exists v. reflexivity.
      * exfalso. exact (proj1 (plain_nonempty U7 U7_plain) _ _ Hnull eq_refl).
      * exfalso. in_cases Hr; discriminate E2.
Qed.
Lemma U7_yield : forall u, user_tree U7 0 u -> uyield u <> [].
Proof.
  intros u H. inversion H as [s' v Ht E1|s' Hnull|r id ts Hr Eo HF Hne E1]; subst; [discriminate| |exact Hne].
  exfalso. exact (proj1 (plain_nonempty U7 U7_plain) _ _ Hnull eq_refl).
Qed.
Lemma U7_one : forall u a, user_parse U7 0 [a] u -> u = one7 (snd a).
Proof.
  intros u a [H Hy]. destruct (U7_trees u H) as [(v & ->)|(t1 & t2 & H1 & H2 & ->)].
  - cbn in Hy. injection Hy as <-. reflexivity.
  - exfalso. pose proof (U7_yield t1 H1). pose proof (U7_yield t2 H2). cbn in Hy. rewrite app_nil_r in Hy.
    destruct (uyield t1) as [|? [|]]; [contradiction| |discriminate Hy]. injection Hy as _ Hy. contradiction.
Qed.
Lemma U7_two : forall u a b, user_parse U7 0 [a; b] u -> u = UNode 0 [one7 (snd a); one7 (snd b)].
Proof.
  intros u a b [H Hy]. destruct (U7_trees u H) as [(v & ->)|(t1 & t2 & H1 & H2 & ->)]; [discriminate Hy|].
  pose proof (U7_yield t1 H1). pose proof (U7_yield t2 H2). cbn in Hy. rewrite app_nil_r in Hy.
  destruct (uyield t1) as [|x [|y l]] eqn:E1; [contradiction| |].
  - injection Hy as <- Hy. now rewrite (U7_one t1 x (conj H1 E1)), (U7_one t2 b (conj H2 Hy)).
  - injection Hy as _ _ Hy. destruct l; [|discriminate Hy]. contradiction.
Qed.

Definition left7 (a b c : nat) : utree := UNode 0 [UNode 0 [one7 a; one7 b]; one7 c].
Definition right7 (a b c : nat) : utree := UNode 0 [one7 a; UNode 0 [one7 b; one7 c]].
Lemma U7_three : forall u, user_parse U7 0 [(1, 7); (1, 8); (1, 9)] u <-> u = left7 7 8 9 \/ u = right7 7 8 9.
Proof.
  intros u. split.
  - intros [H Hy]. destruct (U7_trees u H) as [(v & ->)|(t1 & t2 & H1 & H2 & ->)]; [discriminate Hy|].
    pose proof (U7_yield t1 H1). pose proof (U7_yield t2 H2). cbn in Hy. rewrite app_nil_r in Hy.
    destruct (uyield t1) as [|x [|y [|z l]]] eqn:E1; [contradiction| | |].
    + right. injection Hy as -> Hy. now rewrite (U7_one t1 _ (conj H1 E1)), (U7_two t2 _ _ (conj H2 Hy)).
    + left. injection Hy as -> -> Hy. now rewrite (U7_two t1 _ _ (conj H1 E1)), (U7_one t2 _ (conj H2 Hy)).
    + injection Hy as _ _ _ Hy. destruct l; [|discriminate Hy]. contradiction.
  - assert (One : forall v, user_tree U7 0 (one7 v)).
    { intros v. apply (ut_node U7 (rule 0 [1] (Some 1)) 1); [cbn; auto|reflexivity| |discriminate]. constructor; [|constructor]. constructor. apply terminal_by. reflexivity. }
    assert (Two : forall t1 t2, user_tree U7 0 t1 -> user_tree U7 0 t2 -> user_tree U7 0 (UNode 0 [t1; t2])).
    { intros t1 t2 H1 H2. apply (ut_node U7 (rule 0 [0; 0] (Some 0)) 0); [cbn; auto|reflexivity|repeat constructor; auto|].
      cbn. intros K. apply app_eq_nil in K. exact (U7_yield t1 H1 (proj1 K)). }
    intros [->| ->]; (split; [apply Two; auto|reflexivity]).
Qed.

(** a a a is read as (a a) a and as a (a a): the user's trees, the hypotheses of the three
    theorems, and the values the model returns from [from_grammar] on. *)
Example C54_values_example :
  user_grammar U7 0 /\ crate_apart ReferenceCrate.reference U7 0 /\ plain_grammar U7 /\ distinct_ids U7 /\ pushes syntax_eval XNull /\
  token U7 0 1 /\ (forall u, user_parse U7 0 [(1, 7); (1, 8); (1, 9)] u <-> u = left7 7 8 9 \/ u = right7 7 8 9) /\
  (forall u u', user_parse U7 0 [(1, 7); (1, 8); (1, 9)] u -> user_parse U7 0 [(1, 7); (1, 8); (1, 9)] u' -> top_split u = top_split u' -> u = u') /\
  from_grammar ReferenceCrate.reference 20 U7 = Ret dg7 /\
  exists f, to_internal dg7 1 = Ret (Some (f 1)) /\
    let v := uvalue syntax_eval XNull f in let xs := [(g_sof_sym dg7, 0); (f 1, 7); (f 1, 8); (f 1, 9)] in
    PropsRoot.simple_values syntax_eval dg7 (hinted (fun _ => true) 0 xs) = Ret [v (right7 7 8 9); v (left7 7 8 9)] /\
    PropsRoot.simple_values (PropsRoot.marking (g_sof_sym dg7)) dg7 (hinted (fun _ => true) 0 xs) = Ret [v (right7 7 8 9); v (left7 7 8 9)] /\
    PropsRoot.compact_values syntax_eval dg7 (hinted (fun _ => true) 0 xs) = Ret [v (left7 7 8 9); v (right7 7 8 9)].
Proof.
  split; [exact U7_user|]. split; [exact (ReferenceFacts.reference_apart U7 0 U7_user)|]. split; [exact U7_plain|].
  split; [unfold distinct_ids; cbn; repeat constructor; cbn; intuition discriminate|].
  split; [intros s rs; exists []; reflexivity|]. split; [exact U7_token|]. split; [exact U7_three|]. split.
  - intros u u' H H' K. apply U7_three in H, H'. destruct H as [->| ->], H' as [->| ->]; try reflexivity; discriminate K.
  - split; [vm_compute; reflexivity|]. exists (fun _ => match to_internal dg7 1 with Ret (Some s) => s | _ => 0 end).
    split; [vm_compute; reflexivity|]. vm_compute. auto.
Qed.

(** The conditions also hold of grammars with nullable symbols, such as that of
    [C51_example] with S ::= a S b and an empty rule for S. *)
Example C58_nullable_example : nullable (c_rules U1) 0 /\ no_unit_steps U1 0 /\ nulling_only_short U1 0.
Proof.
  assert (T : forall s, In s [1; 2; 3] -> terminal (c_rules U1) s) by (intros s Hs; apply terminal_by; destruct Hs as [<-|[<-|[<-|[]]]]; reflexivity).
  split; [apply (derives_rule (c_rules U1) (rule 0 [] (Some 1))); [cbn; auto|constructor]|]. split.
  - intros r u v Hr _ Er.
    assert (Hl : length (p_rhs r) <= 3) by (in_cases Hr; cbn; lia).
    assert (Hh : forall s l, p_rhs r = s :: l -> terminal (c_rules U1) s) by (in_cases Hr; intros s l E; try discriminate E; injection E as <- _; apply T; cbn; auto).
    split.
    + intros l1 s l2 _ -> Hn. destruct l1 as [|a l1]; [exact (Hh s (l2 ++ v) Er)|]. exfalso. apply Forall_inv in Hn.
      apply (terminal_derives _ _ _ (Hh a _ Er)) in Hn. discriminate Hn.
    + intros u' s Hv -> Hu. exfalso. apply (f_equal (@length sym)) in Er. rewrite !app_length in Er. destruct v; [contradiction|]. cbn in Er. unfold sym in *. lia.
  - split; [intros; apply U1_visible; auto|]. intros r s _ _ _ _ H. now apply U1_visible.
Qed.
