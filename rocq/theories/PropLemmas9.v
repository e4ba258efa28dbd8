(** PropLemmas9: [from_grammar] on the user's grammar, from the lemmas about the cfg crate's
    transformations. *)
From Coq Require Import List Arith Bool Lia.
From Verif Require Import Base BaseProofs Grammar BitMatrix DefaultGrammar Forest Recognizer Drive Parse Spec Chart CfgSpec
  ForestSpec ClientSpec TablesProofs ParseFacts PropLemmas FromGrammar CrateSpec UserSpec CrateFacts CrateProcessed.
Import ListNotations.
Local Open Scope res_scope.

Lemma user_built_of : forall X U start W B E c0 w m head nulling origin maps f, user_grammar U start ->
  elaborates X U start W B E c0 w m head nulling origin maps f ->
  null_prefixes_visible U start ->
  (forall s, ~ derives_by_rule (c_rules U) s [s]) ->
  exists k g nsyms w' d0 h0 order, (forall fuel, k <= fuel -> from_grammar X fuel U = Ret g) /\
    user_built U start (sort_rules_by_lhs c0) nsyms w' d0 (f h0) g f /\
    remapped (remap_cmp order) E c0 maps f /\ (c_num_syms W <= h0 < c_num_syms B) /\
    w_sof w' = f (w_sof w) /\ (used (c_rules E) start -> w_inner w' = f start) /\
    (exists r, In r (c_rules B) /\ p_lhs r = h0 /\ p_rhs r = [w_sof w; start]) /\
    from_processed_grammars k (sort_rules_by_lhs c0) maps nulling (x_first X (sort_rules_by_lhs c0)) (x_follow X (sort_rules_by_lhs c0)) = Ret g /\
    w_root w' = f (w_root w) /\ (forall s, used (c_rules E) s -> (kept_gen W B E s <-> nsyms <= f s)).
Proof.
  intros X U start W B E c0 w m head nulling origin maps f HU HX Hvis Hcyc.
  destruct (order_exists _ _ _ _ _ _ _ _ _ _ _ _ _ _ HX) as (order & Hord & Hmap & HR).
  destruct (c_processed _ _ _ _ _ _ _ _ _ _ _ _ _ _ HU HX Hvis Hcyc order Hord HR)
    as (nsyms & w' & d0 & g0 & Hp & Hg0 & Hw & Eroot & Esof & Eeof & Einner & Hn & H1 & H2 & H3 & HgB).
  destruct (tables_total _ _ _ _ _ _ _ _ _ _ _ _ _ _ HU HX Hvis order HR nsyms w' d0 (f g0)
    (x_first X (sort_rules_by_lhs c0)) (x_follow X (sort_rules_by_lhs c0)) (TablesTotal.processed_shaped _ _ _ _ _ Hp)) as (k & g & Hk).
  exists k, g, nsyms, w', d0, g0, order.
  split; [intros fuel Hf; exact (from_grammar_tables _ _ _ _ _ _ _ _ _ _ _ _ _ _ HX order Hord fuel g Hmap (Hk fuel Hf))|].
  pose proof (Hk k (le_n _)) as HT. destruct (from_processed_inv _ _ _ _ _ _ _ HT) as (? & ? & ? & ? & ? & Hinv).
  destruct (used_root_E _ _ _ _ _ _ _ _ _ _ _ _ _ _ HU HX Hvis) as (Ur & Us & Ue & Ui).
  assert (Em : g_maps g = maps) by (decompose [and] Hinv; auto).
  assert (Hdist : forall t, t < c_num_syms U -> t <> w_sof w /\ t <> w_eof w).
  { intros t Lt. pose proof (wr_new _ _ _ _ (proj2 (eb_wrap _ _ _ _ _ _ _ _ _ _ _ _ _ _ HX))) as Hnew.
    rewrite (mp_syms _ _ _ (eb_proper _ _ _ _ _ _ _ _ _ _ _ _ _ _ HX)) in Hnew.
    inversion Hnew as [|? ? _ Hnew' E1]; inversion Hnew' as [|? ? Hs Hnew'' E2]; inversion Hnew'' as [|? ? He _ E3]; subst.
    split; intros ->; lia. }
  assert (Hterm : forall t, token U start t -> terminal (c_rules (sort_rules_by_lhs c0)) (f t)).
  { intros t (Lt & Ht & Kt). apply (remap_terminal _ _ _ _ _ HR t); [|exact (known_terminal _ _ _ _ _ _ _ _ _ _ _ _ _ _ HU HX t Lt Ht)].
    now apply (known_used _ _ _ _ _ _ _ _ _ _ _ _ _ _ HU HX Hvis t Lt Ht). }
  assert (Hsent : forall x, (forall t, In t x -> token U start t) ->
    (sentence (sort_rules_by_lhs c0) w' (f g0) (map f x) <-> derives (c_rules U) start x)).
  {intros y Hx. apply (language _ _ _ _ _ _ _ _ _ _ _ _ _ _ HU HX Hvis order HR w' g0 y); auto.
    - apply Forall_forall. intros t Hin. apply (Hx t Hin).
    - intros t Hin. destruct (Hx t Hin) as (Lt & Ht & Hk'). split; [auto|].
      now apply (known_used _ _ _ _ _ _ _ _ _ _ _ _ _ _ HU HX Hvis t Lt Ht). }
  split; [split|].
  - split; [exact Hp|]. exists k, maps, nulling, (x_first X (sort_rules_by_lhs c0)), (x_follow X (sort_rules_by_lhs c0)).
    split; [exact HT|]. split; [exact (eb_first _ _ _ _ _ _ _ _ _ _ _ _ _ _ HX)|].
    rewrite Eroot. exact (eb_follow _ _ _ _ _ _ _ _ _ _ _ _ _ _ HX).
  - intros t (Lt & Ht & Hk'). pose proof (proj1 (known_used _ _ _ _ _ _ _ _ _ _ _ _ _ _ HU HX Hvis t Lt Ht) Hk') as Hu.
    split; [unfold to_internal; rewrite Em; exact (rm_internal _ _ _ _ _ HR t Hu)|].
    split; [destruct (Nat.lt_ge_cases (f t) nsyms) as [L|L]; [auto|]; apply (Hn t Hu) in L; destruct L as ([L _] & _);
      pose proof (U_W _ _ _ _ _ _ _ _ _ _ _ _ _ _ HX); lia|].
    split; [|destruct (Hdist t Lt) as [N1 N2]; split;
      [rewrite Esof|rewrite Eeof]; intros Heq; apply (rm_injective _ _ _ _ _ HR) in Heq; auto].
    apply (remap_terminal _ _ _ _ _ HR t Hu). exact (known_terminal _ _ _ _ _ _ _ _ _ _ _ _ _ _ HU HX t Lt Ht).
  - intros t Lt Ht Hk'. unfold to_internal. rewrite Em. apply (rm_unused _ _ _ _ _ HR).
    + rewrite (el_syms _ _ _ _ (proj2 (eb_eliminate _ _ _ _ _ _ _ _ _ _ _ _ _ _ HX))).
      pose proof (bz_syms _ _ _ _ (eb_binarize _ _ _ _ _ _ _ _ _ _ _ _ _ _ HX)). pose proof (U_W _ _ _ _ _ _ _ _ _ _ _ _ _ _ HX). lia.
    + intros Hu. apply Hk'. now apply (known_used _ _ _ _ _ _ _ _ _ _ _ _ _ _ HU HX Hvis t Lt Ht).
  - exact Hsent.
  - exact (c_productive _ _ _ _ _ _ _ _ _ _ _ _ _ _ HU HX Hvis Hcyc order HR).
  - intros Hps y Hy. split.
    + intros (z & Hz & Hs).
      destruct Hs as [(Enil & Hr)|(Hr & Hd)].
      * exists []. rewrite app_nil_r. split; [constructor|]. apply Hsent; [auto|]. left. apply app_eq_nil in Enil. destruct Enil as [-> _]. auto.
      * assert (Uu : used (c_rules E) start).
        { destruct Hr as (r' & Hr' & El & Er). apply (remap_in _ _ _ _ _ HR) in Hr'. destruct Hr' as (r & Hr0 & (A1 & A2 & _) & _).
          assert (Eg : p_lhs r = g0) by (apply (rm_injective _ _ _ _ _ HR); [exists r; auto|exact (gen_used _ _ _ _ _ _ _ _ _ _ _ _ _ _ HU HX Hvis g0 Hg0)|congruence]).
          destruct (H1 r Hr0 Eg) as [K|(K & _)]; [exists r; rewrite K; simpl; auto|]. rewrite A2, K in Er. discriminate Er. }
        rewrite (Einner Uu) in Hd. apply (sentence_back _ _ _ _ _ _ _ _ _ _ _ _ _ _ HU HX Hvis order HR y z); auto.
        intros t Hin. destruct (Hy t Hin) as (Lt & T & Kt). split; [auto|]. split; [auto|].
        now apply (known_used _ _ _ _ _ _ _ _ _ _ _ _ _ _ HU HX Hvis t Lt T).
    + intros (z & Hz & Hd). assert (Ty : Forall (terminal (c_rules U)) (y ++ z)).
      { apply Forall_app. split; [|auto]. apply Forall_forall. intros t Hin. apply (Hy t Hin). }
      assert (Tz : forall t, In t (y ++ z) -> token U start t).
      { intros t Hin. destruct (derived_known _ _ _ _ _ _ _ _ _ _ _ _ _ _ HU HX (y ++ z) Ty Hd t Hin) as [Lt K].
        split; [auto|]. split; [|auto]. rewrite Forall_forall in Ty. auto. }
      exists (map f z). split.
      * apply Forall_forall. intros t Ht. apply in_map_iff in Ht. destruct Ht as (s & <- & Hin). apply Hterm, Tz, in_app_iff. auto.
      * rewrite <- map_app. apply Hsent; auto.
  - repeat (split; [assumption|]). assumption.
Qed.

Lemma user_built_full : forall X U start, user_grammar U start -> crate_contract X U start ->
  null_prefixes_visible U start ->
  (forall s, ~ derives_by_rule (c_rules U) s [s]) ->
  exists k g c nsyms w d0 g0 f, (forall fuel, k <= fuel -> from_grammar X fuel U = Ret g) /\
    user_built U start c nsyms w d0 g0 g f /\
    exists W B E c0 w0 m head nulling origin maps order h0,
      elaborates X U start W B E c0 w0 m head nulling origin maps f /\ remapped (remap_cmp order) E c0 maps f /\
      c = sort_rules_by_lhs c0 /\ g0 = f h0 /\ (c_num_syms W <= h0 < c_num_syms B) /\
      w_sof w = f (w_sof w0) /\ (used (c_rules E) start -> w_inner w = f start) /\
      (exists r, In r (c_rules B) /\ p_lhs r = h0 /\ p_rhs r = [w_sof w0; start]) /\
      from_processed_grammars k c maps nulling (x_first X c) (x_follow X c) = Ret g.
Proof.
  intros X U start HU (W & B & E & c0 & w & m & head & nulling & origin & maps & f & HX) Hvis Hcyc.
  destruct (user_built_of _ _ _ _ _ _ _ _ _ _ _ _ _ _ HU HX Hvis Hcyc) as (k & g & nsyms & w' & d0 & h0 & order & H1 & H2 & H3 & H4 & H5 & H6 & H7 & H8 & _).
  exists k, g, (sort_rules_by_lhs c0), nsyms, w', d0, (f h0), f. split; [auto|]. split; [auto|].
  exists W, B, E, c0, w, m, head, nulling, origin, maps, order, h0. auto 15.
Qed.

Lemma P_user_built : forall X U start, user_grammar U start -> crate_contract X U start ->
  null_prefixes_visible U start ->
  (forall s, ~ derives_by_rule (c_rules U) s [s]) ->
  exists k g c nsyms w d0 g0 f, (forall fuel, k <= fuel -> from_grammar X fuel U = Ret g) /\
    user_built U start c nsyms w d0 g0 g f.
Proof.
  intros X U start HU HX Hv Hc. destruct (user_built_full X U start HU HX Hv Hc) as (k & g & c & nsyms & w & d0 & g0 & f & H1 & H2 & _).
  exists k, g, c, nsyms, w, d0, g0, f. auto.
Qed.

Lemma P_user_language : forall X U start, user_grammar U start -> crate_contract X U start ->
  null_prefixes_visible U start -> no_cycles U ->
  forall F N (fo : forest_ops F N) f0 P, (exists ok, usable fo ok /\ ok Idle f0) -> LEO P = false ->
  exists k g, (forall fuel, k <= fuel -> from_grammar X fuel U = Ret g) /\
    forall tokens, Forall (token U start) tokens ->
    exists n r, total n (fun fuel => st <- r_new g f0 ;; '(r, _) <- parse fo P g fuel st tokens ;; Ret r) r /\
      (r = POk true <-> derives (c_rules U) start tokens).
Proof.
  intros X U start HU HX Hvis Hcyc F N fo f0 P Hfo HP.
  destruct (P_user_built X U start HU HX Hvis Hcyc) as (k & g & c & nsyms & w & d0 & g0 & f & Hk & HB).
  exists k, g. split; [exact Hk|]. intros tokens Ht. rewrite Forall_forall in Ht.
  assert (HC : configured fo f0 P c nsyms w d0 g0 g) by (split; [exact Hfo|exact HP|exact (ub_built _ _ _ _ _ _ _ _ _ HB)]).
  destruct (P_parse_decides fo f0 P c nsyms w d0 g0 g HC tokens (map f tokens)) as (n & r & Hn & Hr).
  - unfold mapped. clear - HB Ht. induction tokens as [|t tokens IH]; [constructor|]. constructor.
    + apply (ub_known _ _ _ _ _ _ _ _ _ HB t). apply Ht. now left.
    + apply IH. intros u Hu. apply Ht. now right.
  - intros s Hs. apply in_map_iff in Hs. destruct Hs as (t & <- & Hin).
    apply (ub_known _ _ _ _ _ _ _ _ _ HB t). now apply Ht.
  - exists n, r. split; [exact Hn|]. rewrite Hr. apply (ub_sentence _ _ _ _ _ _ _ _ _ HB). exact Ht.
Qed.

Lemma P_user_viable : forall X U start, user_grammar U start -> crate_contract X U start ->
  null_prefixes_visible U start -> no_cycles U -> productive_sym (c_rules U) start ->
  forall F N (fo : forest_ops F N) f0 P, (exists ok, usable fo ok /\ ok Idle f0) -> LEO P = false ->
  exists k g f w, (forall fuel, k <= fuel -> from_grammar X fuel U = Ret g) /\
    (forall t, token U start t -> to_internal g t = Ret (Some (f t))) /\ g_sof_sym g = w_sof w /\
    forall xs : list (sym * nat), Forall (fun x => token U start (fst x)) xs ->
    exists n b, total n (fun fuel => st <- r_new g f0 ;;
        '(b, _) <- feed_all fo P g fuel (read_start w :: map (fun x => plain (f (fst x), snd x)) xs) st ;; Ret b) b /\
      (b = true <-> viable_input U start (map fst xs)).
Proof.
  intros X U start HU HX Hvis Hcyc Hps F N fo f0 P Hfo HP.
  destruct (P_user_built X U start HU HX Hvis Hcyc) as (k & g & c & nsyms & w & d0 & g0 & f & Hk & HB).
  assert (HC : configured fo f0 P c nsyms w d0 g0 g) by (split; [exact Hfo|exact HP|exact (ub_built _ _ _ _ _ _ _ _ _ HB)]).
  exists k, g, f, w. split; [exact Hk|]. split; [intros t Ht; apply (ub_known _ _ _ _ _ _ _ _ _ HB t Ht)|]. split.
  { destruct (b_tables _ _ _ _ _ _ (ub_built _ _ _ _ _ _ _ _ _ HB)) as (fuel & maps & nulling & first & follow & HT & _).
    destruct (from_processed_inv _ _ _ _ _ _ _ HT) as (gens & w0 & dbe & by0 & comps & Hinv). decompose [and] Hinv.
    pose proof (pr_wrapped _ _ _ _ _ (b_processed _ _ _ _ _ _ (ub_built _ _ _ _ _ _ _ _ _ HB))). congruence. }
  intros xs Hxs. rewrite Forall_forall in Hxs.
  destruct (P_viable_prefix fo f0 P c nsyms w d0 g0 g HC (map (fun x => (f (fst x), snd x)) xs)) as (n & b & Hn & Hb).
  - exact (ub_productive _ _ _ _ _ _ _ _ _ HB).
  - intros s v Hin. apply in_map_iff in Hin. destruct Hin as (x & Ex & Hin). injection Ex as <- _.
    apply (ub_known _ _ _ _ _ _ _ _ _ HB). auto.
  - exists n, b. rewrite map_map in Hn. split; [exact Hn|]. rewrite Hb.
    rewrite map_map. cbn [fst]. rewrite <- (map_map fst f). apply (ub_viable _ _ _ _ _ _ _ _ _ HB Hps).
    intros t Ht. apply in_map_iff in Ht. destruct Ht as (x & <- & Hin). auto.
Qed.

Lemma mapped_tokens : forall U start c nsyms w d0 g0 g f tokens, user_built U start c nsyms w d0 g0 g f ->
  (forall t, In t tokens -> token U start t) -> mapped g tokens (map f tokens).
Proof.
  intros U start c nsyms w d0 g0 g f tokens HB Ht. unfold mapped. induction tokens as [|t tokens IH]; [constructor|]. constructor.
  - apply (ub_known _ _ _ _ _ _ _ _ _ HB t). apply Ht. now left.
  - apply IH. intros u Hu. apply Ht. now right.
Qed.

Lemma built_nonempty : forall U start c nsyms w d0 g0 g f, user_built U start c nsyms w d0 g0 g f ->
  productive_sym (c_rules U) start -> nonempty_language c w g0.
Proof.
  intros U start c nsyms w d0 g0 g f HB Hps.
  assert (V : viable c nsyms w g0 (map f [])).
  { apply (ub_viable _ _ _ _ _ _ _ _ _ HB Hps); [intros t []|]. destruct Hps as (x & Hx & Hd). exists x. auto. }
  destruct V as (y & Hy & Hs). exists y. auto.
Qed.

Lemma P_user_error : forall X U start, user_grammar U start -> crate_contract X U start ->
  null_prefixes_visible U start -> no_cycles U -> productive_sym (c_rules U) start ->
  forall F N (fo : forest_ops F N) f0 P, (exists ok, usable fo ok /\ ok Idle f0) -> LEO P = false ->
  exists k g, (forall fuel, k <= fuel -> from_grammar X fuel U = Ret g) /\
    forall tokens fuel st0 err i st', Forall (token U start) tokens -> r_new g f0 = Ret st0 ->
    parse fo P g fuel st0 tokens = Ret (PErrParse err i, st') ->
    (exists tok, nth_error tokens i = Some tok /\ err = [tok]) /\
    viable_input U start (firstn i tokens) /\ ~ viable_input U start (firstn (i + 2) tokens).
Proof.
  intros X U start HU HX Hvis Hcyc Hps F N fo f0 P Hfo HP.
  destruct (P_user_built X U start HU HX Hvis Hcyc) as (k & g & c & nsyms & w & d0 & g0 & f & Hk & HB).
  assert (HC : configured fo f0 P c nsyms w d0 g0 g) by (split; [exact Hfo|exact HP|exact (ub_built _ _ _ _ _ _ _ _ _ HB)]).
  exists k, g. split; [exact Hk|]. intros tokens fuel st0 err i st' Ht Hnew Hparse. rewrite Forall_forall in Ht.
  destruct (P_error_index fo f0 P c nsyms w d0 g0 g HC tokens (map f tokens) fuel st0 err i st') as (H1 & H2 & H3); auto.
  - exact (ub_productive _ _ _ _ _ _ _ _ _ HB).
  - exact (built_nonempty _ _ _ _ _ _ _ _ _ HB Hps).
  - exact (mapped_tokens _ _ _ _ _ _ _ _ _ _ HB Ht).
  - intros s Hs. apply in_map_iff in Hs. destruct Hs as (t & <- & Hin).
    apply (ub_known _ _ _ _ _ _ _ _ _ HB t). now apply Ht.
  - split; [exact H1|]. rewrite !firstn_map in *.
    assert (Hf : forall n t, In t (firstn n tokens) -> token U start t).
    { intros n t Hin. apply Ht. rewrite <- (firstn_skipn n tokens). apply in_app_iff. auto. }
    split; [apply (ub_viable _ _ _ _ _ _ _ _ _ HB Hps); eauto|].
    intros V. apply H3. apply (ub_viable _ _ _ _ _ _ _ _ _ HB Hps); eauto.
Qed.

(** a token that occurs in no useful rule *)
Lemma P_user_unknown : forall X U start, user_grammar U start -> crate_contract X U start ->
  null_prefixes_visible U start -> no_cycles U -> productive_sym (c_rules U) start ->
  forall F N (fo : forest_ops F N) f0 P, (exists ok, usable fo ok /\ ok Idle f0) -> LEO P = false ->
  exists k g, (forall fuel, k <= fuel -> from_grammar X fuel U = Ret g) /\
    forall t rest, t < c_num_syms U -> terminal (c_rules U) t -> ~ known U start t ->
    exists n, forall fuel, n <= fuel -> (st <- r_new g f0 ;; parse fo P g fuel st (t :: rest)) = Panic.
Proof.
  intros X U start HU HX Hvis Hcyc Hps F N fo f0 P Hfo HP.
  destruct (P_user_built X U start HU HX Hvis Hcyc) as (k & g & c & nsyms & w & d0 & g0 & f & Hk & HB).
  assert (HC : configured fo f0 P c nsyms w d0 g0 g) by (split; [exact Hfo|exact HP|exact (ub_built _ _ _ _ _ _ _ _ _ HB)]).
  exists k, g. split; [exact Hk|]. intros t rest Lt Ht Hk'.
  pose proof (ub_unknown _ _ _ _ _ _ _ _ _ HB t Lt Ht Hk') as Hint.
  assert (Es : g_sof_sym g = w_sof w).
  { destruct (b_tables _ _ _ _ _ _ (ub_built _ _ _ _ _ _ _ _ _ HB)) as (fuel & maps & nulling & first & follow & HT & _).
    destruct (from_processed_inv _ _ _ _ _ _ _ HT) as (gens & w0 & dbe & by0 & comps & Hinv). decompose [and] Hinv.
    pose proof (pr_wrapped _ _ _ _ _ (b_processed _ _ _ _ _ _ (ub_built _ _ _ _ _ _ _ _ _ HB))). congruence. }
  destruct (P_viable_prefix fo f0 P c nsyms w d0 g0 g HC []) as (n & b & Hn & Hb).
  { exact (ub_productive _ _ _ _ _ _ _ _ _ HB). }
  { intros s v []. }
  assert (b = true).
  { apply Hb. destruct (built_nonempty _ _ _ _ _ _ _ _ _ HB Hps) as (y & Hy & Hx). exists y. auto. }
  subst b. exists n. intros fuel Hf. specialize (Hn fuel). replace (fuel <? n) with false in Hn by (symmetry; apply Nat.ltb_ge; auto).
  destruct (r_new g f0) as [st| |] eqn:Enew; cbn [bind] in *; try discriminate.
  unfold parse. rewrite read_sof_feed. rewrite Es.
  assert (Eh : r_hint st = None).
  { unfold r_new in Enew. repeat match type of Enew with (bind ?x _ = _) => destruct x; cbn [bind] in Enew; try discriminate end.
    now injection Enew as <-. }
  rewrite Eh. unfold read_start in Hn. cbn [map feed_all] in Hn.
  destruct (feed fo P g fuel {| l_hint := None; l_toks := [(w_sof w, 0)]; l_keep := keep_all |} st) as [[ok st']| |]; cbn [bind] in *; try discriminate.
  destruct ok; [|discriminate]. cbn [parse_loop]. destruct rest as [|u rest].
  - cbn [bind]. rewrite Hint. reflexivity.
  - destruct (to_internal g u) as [[s|]| |] eqn:Eu; cbn [bind unwrap]; try reflexivity; [rewrite Hint; reflexivity|].
    unfold to_internal, map_to_internal in Eu. destruct (m_to_internal (g_maps g)); [discriminate|]. unfold idx in Eu.
    destruct (nth_error _ u); discriminate.
Qed.
