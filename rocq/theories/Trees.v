(** Trees: the trees under the finished node. *)
From Coq Require Import List Arith Bool Lia Permutation Relations.
From Verif Require Import Base BaseProofs Vec2d Vec2dProofs Item Grammar DefaultGrammar Forest ForestSpec Recognizer Drive
  ClientSpec Spec SpecFacts Chart ChartFacts ChartSpec CfgSpec Tables TablesProofs Den Core1 Core2 Core3 Core4 Core5 Uniq Core6
  Recog Sim RecogAny RecogFacts SimpleBocage TreeSpec EvalSpec ForestProg SimpleEval SimpleProofs SimpleValue ForestValue.
From Verif Require CyclicRun Shaped TablesTotal.
Import ListNotations.
Local Open Scope res_scope.

Lemma NoDup_map_inj : forall A B (f : A -> B) l x y, NoDup (map f l) -> In x l -> In y l -> f x = f y -> x = y.
Proof.
  induction l as [|a l IH]; cbn; intros x y H Hx Hy E; [contradiction|].
  inversion H as [|? ? Hn Hl]; subst. destruct Hx as [<- | Hx], Hy as [<- | Hy]; auto.
  - exfalso. apply Hn. rewrite E. now apply in_map.
  - exfalso. apply Hn. rewrite <- E. now apply in_map.
Qed.

(** ** The finished node of the symbolic forest *)
Section Free.
  Variable P : perf.
  Variable c : pcfg.
  Variable nsyms : nat.
  Variable w : wrapped_root.
  Variable d0 : nat.
  Variable g0 : sym.
  Variable fuel0 : nat.
  Variable maps : mapping.
  Variable nulling : list prule.
  Variables first follow : list (sym * list sym).
  Variable g : dgrammar.
  Hypothesis Hleo : LEO P = false.
  Hypothesis HP : shaped c nsyms w d0 g0.
  Hypothesis Hg : from_processed_grammars fuel0 c maps nulling first follow = Ret g.
  Notation R := (c_rules c).
  Notation nall := (c_num_syms c).
  Notation root := (w_root w).
  Notation FI := (first_of first).
  Notation FO := (follow_of follow).
  Notation eMed := (Core3.eMed P R nsyms FI FO root).
  Notation Inv := (Core4.Inv P R nsyms FI FO root).
  Notation state := (rstate (list (nat * fnode)) fnode).

  Lemma finished_uniq : forall E (Z : sym -> Prop) k pos (st : state) T, Inv E Z k pos st -> uniq_state d0 st -> 0 < k ->
    nth_error pos 0 = Some 0 -> (forall j s, eseed E (S j) s -> s <> root) ->
    finished_node free_forest g st = Ret (Some T) ->
    NoDup (trees T) /\ forall t, eMed E d0 0 k t -> den T [t].
  Proof.
    intros E Z k pos st T [(cs & O & Hrep & HL & Hx) Hlast Hrows Hheap] HU Hk Hp0 Hs Hfin.
    destruct (proj1 (uniq_rep d0 _ _ _ Hrep) HU) as [Hu Hone].
    pose proof (Hu O ltac:(apply in_app_iff; right; now left)) as HuO.
    destruct Hx as (HLx & Hinc & Hset & _).
    assert (Hcs : 0 < length cs).
    { destruct cs; [|simpl; lia]. simpl in HL. rewrite <- HL, Nat.sub_diag, Hp0 in Hlast. injection Hlast. lia. }
    assert (Ee : earleme st = Some (length cs - 1)).
    { unfold earleme. rewrite (rep_len _ _ _ Hrep). destruct (length cs) as [|n]; [lia|]. f_equal. lia. }
    unfold finished_node in Hfin. rewrite Ee in Hfin. cbn [is_null] in Hfin. rewrite andb_false_r in Hfin.
    rewrite (rep_last _ _ _ Hrep) in Hfin. cbn [bind] in Hfin.
    assert (HO : nth_error (cs ++ [O]) (length pos - 1) = Some O).
    { rewrite <- HL. rewrite nth_error_app2 by lia. replace (S (length cs) - 1 - length cs) with 0 by lia. reflexivity. }
    destruct (Hset _ _ _ Hlast HO) as ([Hsort Hdot] & Hsnd & Hcomp).
    destruct O as [|it O']; [discriminate|].
    destruct (Shaped.g_facts c nsyms w d0 g0 fuel0 maps nulling first follow g HP Hg) as (Es & _ & _ & Edb & _).
    rewrite Edb in Hfin. destruct (Nat.eqb_spec (it_dot it) d0) as [Ed|Ed]; [|discriminate].
    injection Hfin as <-. split; [eapply uniq_set_item; [exact HuO|now left]|].
    intros t Ht. destruct (Hcomp _ _ _ Ht) as (it' & Hin & Ed' & Hp' & Hd').
    assert (it = it') by (apply Hone; [now left|auto|auto|auto]).
    now subst it'.
  Qed.

  Lemma fresh_uniq : forall Z (st : state), fresh P c nsyms w first follow Z st -> uniq_state d0 st.
  Proof.
    intros Z st [(cs & O & Hrep & HL & (_ & _ & Hset & _)) Hlast _ _]. cbn in HL.
    destruct cs as [|]; [|cbn in HL; lia]. apply uniq_start.
    destruct (Hset 0 0 O eq_refl eq_refl) as (_ & Hsnd & _).
    destruct O as [|it O]; [exact Hrep|]. destruct (Hsnd it (or_introl eq_refl)). lia.
  Qed.

  Hypothesis HFI : first_sets_cover c first.
  Hypothesis HFO : follow_sets_cover c root follow.

  (** the finished node after a run that ends, [None] if the run stopped *)
  Theorem run_trees_any : forall rm, remove_ok rm -> forall Z (st : state) locs, fresh P c nsyms w first follow Z st ->
    (forall s, Z s -> s <> root) -> locs_ok nsyms nall locs -> locs <> [] -> (exists fuel, steps P g rm fuel locs st <> NoFuel) ->
    exists n b st' o,
      (forall fuel, steps P g rm fuel locs st = if fuel <? n then NoFuel else Ret (b, st')) /\
      (b = true -> finished_node free_forest g st' = Ret o) /\ (b = false -> o = None) /\
      (forall T, o = Some T -> (exists ts, den T ts) /\ forall ts, den T ts -> exists t, ts = [t] /\ accepted c g0 locs t) /\
      (forall t, accepted c g0 locs t -> truthful c nsyms w locs t -> o <> None) /\
      (rules_sorted R -> (forall l, In l locs -> toks_ok R (l_toks l)) ->
         (forall T, o = Some T -> NoDup (trees T)) /\
         forall T t, o = Some T -> accepted c g0 locs t -> truthful c nsyms w locs t -> den T [t]).
  Proof.
    intros rm Hrm Z st locs Hf HZ Hok Hne (fuel & Hends). pose proof HP as HP'. destruct HP'.
    destruct sh_root_rule as (r & Hr & El & Er).
    destruct (Shaped.g_facts c nsyms w d0 g0 fuel0 maps nulling first follow g HP Hg) as (Es & _ & _ & Edb & _).
    pose proof (Shaped.tok c nsyms w d0 g0 fuel0 maps nulling first follow g HP Hg) as Htab.
    destruct (CyclicRun.steps_any P g R nsyms nall FI FO root Hleo sh_wf Htab rm Hrm fuel st Z no_seed Hf locs Hok)
      as [Hno|(n & b & st' & sd & pos & _ & Hsd0 & HsdZ & Hrun & Hb & Hfl & Hinv)]; [contradiction|].
    assert (HsdR : forall j s, sd (S j) s -> s <> root) by (intros; eauto).
    assert (Alive : forall t, accepted c g0 locs t -> truthful c nsyms w locs t ->
       b = true /\ eMed (env_of locs sd) d0 0 (length locs) t).
    { intros t Ha Ht. pose proof (Shaped.accepted_med P c nsyms w d0 g0 first follow HP HFI HFO locs sd t Ha Ht) as HM.
      split; [|exact HM]. apply Hb. intros j Hj. exact (med_alive P c nsyms w d0 first follow locs sd t HM j Hj). }
    destruct b.
    2:{ exists n, false, st', None. split; [exact Hrun|]. split; [discriminate|]. split; [auto|]. split; [discriminate|].
        assert (No : forall t, accepted c g0 locs t -> truthful c nsyms w locs t -> False).
        { intros t Ha Ht. destruct (Alive t Ha Ht). discriminate. }
        split; [intros t Ha Ht; now elim (No t)|]. intros _ _. split; [discriminate|]. discriminate. }
    destruct (Hinv eq_refl) as (HI & Hp0 & _).
    assert (Hlen : 0 < length locs) by (destruct locs; [congruence|simpl; lia]).
    destruct (finished_spec P g R nsyms nall FI FO root sh_wf sh_root_range Es sh_root_top d0 r g0 (w_eof w) Edb Hr Er El sh_eof_min
                _ _ _ _ _ HI) as (o & Eo & Hn & Hs); auto.
    exists n, true, st', o. split; [exact Hrun|]. split; [auto|]. split; [discriminate|].
    split.
    { intros T ET. destruct (Hs T ET) as [A B]. split; [auto|]. intros ts Hts. destruct (B ts Hts) as (t & -> & HM).
      exists t. split; [auto|]. eapply (Shaped.med_accepted P c nsyms w d0 g0 first follow); eauto. }
    split.
    { intros t Ha Ht Ho. destruct (Alive t Ha Ht) as [_ HM]. now apply (Hn Ho 0 t). }
    intros Hord Htok.
    assert (HU : uniq_state d0 st').
    { eapply (steps_uniq P g R nsyms nall FI FO root Hleo sh_wf Htab d0 g0 (w_sof w) (w_eof w) r Hord
         sh_root_range sh_root_top Hr El Er sh_root_only
         ltac:(intros q Hq Eq; destruct (sh_g0_rules q Hq Eq) as [-> | ->]; reflexivity) sh_sof_terminal
         rm Hrm st Z no_seed Hf (fresh_uniq Z st Hf) ltac:(intros ? []) HZ locs Hok Htok n).
      rewrite Hrun, Nat.ltb_irrefl. reflexivity. }
    assert (G : forall T, o = Some T -> NoDup (trees T) /\ forall t, eMed (env_of locs sd) d0 0 (length locs) t -> den T [t]).
    { intros T ->. eapply finished_uniq; eauto. }
    split; [intros T ET; apply (G T ET)|]. intros T t ET Ha Ht. apply (G T ET). apply (Alive t Ha Ht).
  Qed.
End Free.

Section Acyclic.
  Variable P : perf.
  Variables (c : pcfg) (nsyms : nat) (w : wrapped_root) (d0 : nat) (g0 : sym).
  Variables (fuel0 : nat) (maps : mapping) (nulling : list prule) (first follow : list (sym * list sym)).
  Variable g : dgrammar.
  Hypothesis Hleo : LEO P = false.
  Hypothesis HP : processed c nsyms w d0 g0.
  Hypothesis Hg : from_processed_grammars fuel0 c maps nulling first follow = Ret g.
  Hypothesis HFI : first_sets_cover c first.
  Hypothesis HFO : follow_sets_cover c (w_root w) follow.
  Notation R := (c_rules c).

  Lemma run_ends : forall rm, remove_ok rm -> forall Z st locs, fresh P c nsyms w first follow Z st ->
    locs_ok nsyms (c_num_syms c) locs -> exists fuel, steps P g rm fuel locs st <> NoFuel.
  Proof.
    intros rm Hrm Z st locs Hf Hok. pose proof HP as HP'. destruct HP'.
    destruct (steps_exact P g R nsyms (c_num_syms c) (first_of first) (follow_of follow) (w_root w) Hleo pr_wf
      (tok c nsyms w d0 g0 fuel0 maps nulling first follow g HP Hg) pr_acyclic rm Hrm st Z no_seed Hf locs Hok)
      as (n & b & st' & sd & pos & _ & _ & Hrun & _).
    exists n. rewrite Hrun, Nat.ltb_irrefl. discriminate.
  Qed.

  Theorem run_trees : forall rm, remove_ok rm -> forall Z (st : rstate (list (nat * fnode)) fnode) locs, fresh P c nsyms w first follow Z st ->
    (forall s, Z s -> s <> w_root w) -> locs_ok nsyms (c_num_syms c) locs -> locs <> [] ->
    exists n b st' o,
      (forall fuel, steps P g rm fuel locs st = if fuel <? n then NoFuel else Ret (b, st')) /\
      (b = true -> finished_node free_forest g st' = Ret o) /\ (b = false -> o = None) /\
      (forall T, o = Some T -> (exists ts, den T ts) /\ forall ts, den T ts -> exists t, ts = [t] /\ accepted c g0 locs t) /\
      (forall t, accepted c g0 locs t -> truthful c nsyms w locs t -> o <> None) /\
      (rules_sorted R -> (forall l, In l locs -> toks_ok R (l_toks l)) ->
         (forall T, o = Some T -> NoDup (trees T)) /\
         forall T t, o = Some T -> accepted c g0 locs t -> truthful c nsyms w locs t -> den T [t]).
  Proof.
    intros rm Hrm Z st locs Hf HZ Hok Hne.
    exact (run_trees_any P c nsyms w d0 g0 fuel0 maps nulling first follow g Hleo (TablesTotal.processed_shaped _ _ _ _ _ HP) Hg HFI HFO
      rm Hrm Z st locs Hf HZ Hok Hne (run_ends rm Hrm Z st locs Hf Hok)).
  Qed.
End Acyclic.

(** ** Trees of nodes in the graph *)
Lemma represents_snoc : forall g n a xs ys, represents_all g a n xs -> represents g (a + n) ys ->
  represents_all g a (S n) (xs ++ ys).
Proof.
  induction n as [|n IH]; intros a xs ys H1 H2.
  - inversion H1; subst. rewrite Nat.add_0_r in H2. cbn. rewrite <- (app_nil_r ys). constructor; [auto|constructor].
  - inversion H1 as [|? ? x1 x2 Hx Hy]; subst. rewrite <- app_assoc. constructor; [auto|].
    apply IH; [auto|]. now replace (a + 1 + n) with (a + S n) by lia.
Qed.

Lemma srep_represents : forall g T h, shape T -> srep g T h ->
  exists l, represents g h l /\ Permutation l (trees T).
Proof.
  intros g T. induction T as [s v|s|l r IHl IHr|s alts IH] using fnode_ind2; intros h Hs Hr.
  - exists [[Leaf s v]]. split; [now constructor|apply Permutation_refl].
  - contradiction.
  - destruct Hs as [S1 S2]. destruct Hr as (a & b & E & Ha & Hb).
    destruct (IHl a S1 Ha) as (xs & X1 & X2). destruct (IHr b S2 Hb) as (ys & Y1 & Y2).
    exists (flat_map (fun x => map (fun y => x ++ y) ys) xs). split; [econstructor; eauto|]. cbn [trees].
    eapply Permutation_trans; [apply Permutation_flat_map; exact X2|].
    clear - Y2. induction (trees l) as [|x xs IH]; cbn; [constructor|]. apply Permutation_app; [now apply Permutation_map|exact IH].
  - apply shape_sum in Hs. destruct Hs as [Hne HF]. apply srep_sum in Hr. destruct Hr as [Hsum HA].
    assert (Alt : forall d T i, In (d, T) alts -> alt_rep g (d, T) i ->
       exists l, represents g i l /\ Permutation l (map (fun xs => [Node d xs]) (trees T))).
    { intros d T i Hin (f & E & Hf). rewrite Forall_forall in IH, HF. cbn [fst snd] in *.
      destruct (IH _ Hin f (HF _ Hin) Hf) as (xs & X1 & X2). eexists. split; [eapply rp_product; eauto|]. now apply Permutation_map. }
    assert (Alts : forall l a, (forall x, In x l -> In x alts) -> Forall2 (alt_rep g) l (seq a (length l)) ->
       exists xs, represents_all g a (length l) xs /\
         Permutation xs (flat_map (fun a => map (fun xs => [Node (fst a) xs]) (trees (snd a))) l)).
    { induction l as [|[d T] l IHl]; intros a Hsub H2.
      - exists []. split; constructor.
      - cbn [length seq] in H2. inversion H2 as [|? ? ? ? Hx Hy]; subst.
        destruct (Alt d T a) as (xs & X1 & X2); [apply Hsub; now left|auto|].
        destruct (IHl (S a)) as (ys & Y1 & Y2); [intros; apply Hsub; now right|auto|].
        exists (xs ++ ys). split.
        + cbn [length]. constructor; [auto|]. now rewrite Nat.add_1_r.
        + cbn [flat_map fst snd]. now apply Permutation_app. }
    destruct alts as [|[d1 T1] rest]; [congruence|]. cbn [trees flat_map fst snd].
    destruct rest as [|a2 rest].
    + cbn [length places flat_map] in *. inversion HA as [|? ? ? ? Hx _]; subst.
      destruct (Alt d1 T1 h) as (xs & X1 & X2); [now left|auto|]. exists xs. split; [auto|]. now rewrite app_nil_r.
    + set (k := length ((d1, T1) :: a2 :: rest)) in *.
      change (places h k) with ((h + k) :: seq (h + 1) (k - 1)) in HA.
      inversion HA as [|? ? ? ? Hx Hy]; subst.
      destruct (Alt d1 T1 (h + k)) as (xs & X1 & X2); [now left|auto|].
      destruct (Alts (a2 :: rest) (h + 1)) as (ys & Y1 & Y2); [intros; now right|exact Hy|].
      exists (ys ++ xs). split.
      * eapply rp_sum; [apply Hsum; unfold k; cbn; lia|]. change k with (S (length (a2 :: rest))).
        apply represents_snoc; [auto|]. now replace (h + 1 + length (a2 :: rest)) with (h + k) by (unfold k; cbn; lia).
      * eapply Permutation_trans; [apply Permutation_app_comm|]. now apply Permutation_app.
Qed.

(** ** More fuel does not change a result *)
Section Mono.
  Context {F N : Type}.
  Variable fo : forest_ops F N.
  Variable P : perf.
  Variable g : dgrammar.

  Lemma complete_sums_mono : forall keep fuel fuel' st st', fuel <= fuel' ->
    complete_sums fo P g keep fuel st = Ret st' -> complete_sums fo P g keep fuel' st = Ret st'.
  Proof.
    induction fuel as [|fuel IH]; intros fuel' st st' Hle H.
    - destruct fuel'; [exact H|]. cbn [complete_sums] in *.
      destruct (next_sum g st) as [[[o s]|]| |]; cbn [bind] in *; try discriminate. exact H.
    - destruct fuel' as [|fuel']; [lia|]. cbn [complete_sums] in *.
      destruct (next_sum g st) as [[[o s]|]| |]; cbn [bind] in *; try discriminate; [|exact H].
      match goal with |- context [bind ?x _] => destruct x as [st1| |] end; cbn [bind] in *; try discriminate.
      apply IH; [lia|exact H].
  Qed.

  Lemma feed_mono : forall fuel fuel' loc st x, fuel <= fuel' ->
    feed fo P g fuel loc st = Ret x -> feed fo P g fuel' loc st = Ret x.
  Proof.
    intros fuel fuel' loc st x Hle. unfold feed, end_filtered.
    destruct (scan_list fo P g _ _) as [st1| |]; cbn [bind]; try discriminate.
    destruct (is_exhausted st1) as [[|]| |]; cbn [bind]; try discriminate; auto.
    destruct (complete_sums fo P g (l_keep loc) fuel st1) as [st2| |] eqn:E; cbn [bind]; try discriminate.
    now rewrite (complete_sums_mono _ _ _ _ _ Hle E).
  Qed.

  Lemma feed_all_mono : forall fuel fuel' locs st x, fuel <= fuel' ->
    feed_all fo P g fuel locs st = Ret x -> feed_all fo P g fuel' locs st = Ret x.
  Proof.
    intros fuel fuel' locs st x Hle. revert st. induction locs as [|loc locs IH]; intros st; cbn [feed_all]; [auto|].
    destruct (feed fo P g fuel loc st) as [[b st1]| |] eqn:E; cbn [bind]; try discriminate.
    rewrite (feed_mono _ _ _ _ _ Hle E). cbn [bind]. destruct b; auto.
  Qed.
End Mono.

(** ** The simple bocage *)
Notation shapeJ := (fun ph (p p' : list (nat * fnode)) => p = p' /\ match ph with
     | Idle => True
     | Summing ne => Forall (fun a : nat * fnode => shape (snd a)) p /\ (ne = true -> p <> []) end).
Notation shapeQ := (fun (_ _ : list (nat * fnode)) (T T' : fnode) => T = T' /\ shape T).

Lemma shape_finished : forall g st T, srel shapeJ shapeQ Idle st st -> finished_node free_forest g st = Ret (Some T) ->
  (exists ts, den T ts) -> shape T.
Proof.
  intros g st T [_ (_ & _ & Hm & _)] Hf [ts Hts]. unfold finished_node in Hf.
  destruct (g_has_trivial_derivation g && is_null (earleme st)).
  - destruct (externalized_start_sym g) as [s| |]; try discriminate. cbn in Hf. injection Hf as <-. inversion Hts.
  - pose proof (rres_v_last _ _ _ Hm) as HL. destruct (v_last (r_medial st)) as [l| |]; try discriminate.
    destruct HL as (l' & El & HL). injection El as <-. cbn [bind] in Hf.
    destruct l as [|it l]; [discriminate|]. inversion HL as [|? ? ? ? X _]; subst. destruct X as (_ & _ & _ & X).
    destruct (it_dot it =? g_dot_before_eof g); [|discriminate]. now injection Hf as <-.
Qed.

Section Simple.
  Variable P : perf.
  Variables (c : pcfg) (nsyms : nat) (w : wrapped_root) (d0 : nat) (g0 : sym).
  Variable g : dgrammar.
  Hypothesis Hleo : LEO P = false.
  Hypothesis HB : shaped_built c nsyms w d0 g0 g.
  Variable b0 : bocage.
  Hypothesis Hb0 : b_count b0 = 0.
  Notation R := (c_rules c).
  Notation nall := (c_num_syms c).
  Notation root := (w_root w).

  Theorem simple_trees_any : forall locs, locs_ok nsyms nall locs -> locs <> [] ->
    (exists fuel, (st <- r_new g b0 ;; parse_forest simple_forest P g fuel locs st) <> NoFuel) ->
    exists n o b T l, total n (fun fuel => st <- r_new g b0 ;; parse_forest simple_forest P g fuel locs st) (o, b) /\
      b_info b = b_info b0 /\ b_count b = 0 /\ (exists x, b_graph b = b_graph b0 ++ x) /\ finished_trees (o, b) l /\
      match o with
      | Some h => srep (b_graph b) T h /\ shape T /\ Permutation l (trees T) /\ l <> []
      | None => True
      end /\
      (forall ts, In ts l -> exists t, ts = [t] /\ accepted c g0 locs t) /\
      (forall t, accepted c g0 locs t -> truthful c nsyms w locs t -> o <> None) /\
      (rules_sorted R -> (forall l, In l locs -> toks_ok R (l_toks l)) ->
         NoDup l /\ forall t, accepted c g0 locs t -> truthful c nsyms w locs t -> In [t] l).
  Proof.
    intros locs Hok Hne (fuel1 & Hends). destruct HB as [HP (fuel0 & maps & nulling & first & follow & Hg & HFI & HFO)].
    destruct (Shaped.new_fresh P c nsyms w d0 g0 fuel0 maps nulling first follow g HP Hg) as (st0 & En & Hf & _).
    (* the simple bocage *)
    set (J := sJ (b_info b0) (b_graph b0)).
    assert (HJ : J Idle [] b0).
    { split; [reflexivity|]. split; [|exact Hb0]. exists []. rewrite app_nil_r. now apply done_idle. }
    pose proof (simple_sim (b_info b0) (b_graph b0)) as HS. fold J in HS.
    pose proof (sim_new (N1 := fnode) (N2 := nat) J sQ g [] b0 HJ) as HN. rewrite En in HN. destruct HN as (s0 & En2 & HN).
    assert (Hends' : exists fuel, steps P g (remove_unreachable_sets P) fuel locs st0 <> NoFuel).
    { exists fuel1. intros K. apply Hends. rewrite En2. cbn [bind]. unfold parse_forest.
      pose proof (sim_feed_all _ _ _ _ HS P g fuel1 locs _ _ HN) as HX. rewrite feed_all_steps, K in HX. cbn in HX. rewrite HX. reflexivity. }
    destruct (run_trees_any P c nsyms w d0 g0 fuel0 maps nulling first follow g Hleo HP Hg HFI HFO
       (remove_unreachable_sets P) (remove_spec P Hleo) _ st0 locs Hf ltac:(intros ? []) Hok Hne Hends')
      as (n & b & st' & o & Hrun & Ho1 & Ho2 & Hsnd & Hcomp & Huniq).
    assert (HR : exists s', (forall fuel, feed_all simple_forest P g fuel locs s0 = if fuel <? n then NoFuel else Ret (b, s')) /\
       srel J sQ Idle st' s').
    { pose proof (fun fuel => sim_feed_all _ _ _ _ HS P g fuel locs _ _ HN) as HX.
      pose proof (HX n) as HX1. rewrite feed_all_steps, Hrun, Nat.ltb_irrefl in HX1.
      destruct HX1 as ([b' s'] & E1 & Eb & HR). cbn [fst snd] in *. subst b'. exists s'. split; [|exact HR].
      intros fuel. specialize (HX fuel). rewrite feed_all_steps, Hrun in HX. destruct (Nat.ltb_spec fuel n) as [Hl|Hl]; [exact HX|].
      eapply feed_all_mono; eauto. }
    destruct HR as (s' & Hrun2 & HR).
    (* shapes *)
    assert (HSh : srel shapeJ shapeQ Idle st' st').
    { pose proof (sim_new (N1 := fnode) (N2 := fnode) shapeJ shapeQ g [] [] ltac:(split; auto)) as HX. rewrite En in HX.
      destruct HX as (st1 & E1 & HX). injection E1 as <-.
      pose proof (sim_feed_all _ _ _ _ free_shape P g n locs _ _ HX) as HY.
      rewrite feed_all_steps, Hrun, Nat.ltb_irrefl in HY. destruct HY as ([b' st1] & E1 & _ & HY). injection E1 as <- <-. exact HY. }
    assert (Tot : forall o', (b = true -> finished_node simple_forest g s' = Ret o') -> (b = false -> o' = None) ->
      total n (fun fuel => st <- r_new g b0 ;; parse_forest simple_forest P g fuel locs st) (o', r_forest s')).
    { intros o' H1 H2 fuel. rewrite En2. cbn [bind]. unfold parse_forest. rewrite Hrun2.
      destruct (fuel <? n); [reflexivity|]. cbn [bind]. destruct b; [now rewrite H1|now rewrite H2]. }
    assert (HJ' : J Idle (r_forest st') (r_forest s')) by apply HR. destruct HJ' as (Hi & Hx & Hc).
    assert (Hx' : exists x, b_graph (r_forest s') = b_graph b0 ++ x).
    { destruct Hx as (x & Hx). rewrite done_idle in Hx by exact Hc. eauto. }
    clear Hx.
    destruct o as [T|].
    - assert (Eb : b = true) by (destruct b; [auto|now specialize (Ho2 eq_refl)]). subst b.
      specialize (Ho1 eq_refl). clear Ho2.
      pose proof (sim_finished _ _ _ _ HS g I _ _ HR) as HF. rewrite Ho1 in HF.
      destruct HF as ([h|] & Eh & HF); [|contradiction]. unfold sQ in HF. rewrite done_idle in HF by exact Hc.
      destruct (Hsnd T eq_refl) as [Hex Hall]. pose proof (shape_finished _ _ _ HSh Ho1 Hex) as Hsh.
      destruct (srep_represents _ _ _ Hsh HF) as (l & Hl & Pl).
      exists n, (Some h), (r_forest s'), T, l. split; [apply Tot; [auto|discriminate]|].
      split; [exact Hi|]. split; [exact Hc|]. split; [exact Hx'|]. split; [exact Hl|].
      assert (Mem : forall ts, In ts l <-> den T ts).
      { intros ts. rewrite <- trees_den. split; apply Permutation_in; [auto|now apply Permutation_sym]. }
      split; [split; [auto|]; split; [auto|]; split; [auto|]; intros ->; destruct Hex as [ts Hts]; now apply Mem in Hts|].
      split; [intros ts Hts; apply Hall; now apply Mem|]. split; [discriminate|].
      intros Hord Htok. destruct (Huniq Hord Htok) as [A B]. split.
      + eapply Permutation_NoDup; [apply Permutation_sym; exact Pl|]. now apply A.
      + intros t Ha Ht. apply Mem. now apply B.
    - exists n, None, (r_forest s'), (FNull 0), [].
      split.
      { apply Tot; [|auto]. intros Eb. specialize (Ho1 Eb). pose proof (sim_finished _ _ _ _ HS g I _ _ HR) as HF. rewrite Ho1 in HF.
        destruct HF as ([h|] & Eh & HF); [contradiction|]. exact Eh. }
      split; [exact Hi|]. split; [exact Hc|]. split; [exact Hx'|]. split; [reflexivity|]. split; [exact I|]. split; [intros ts []|].
      split; [intros t Ha Ht; now elim (Hcomp t Ha Ht)|].
      intros _ _. split; [constructor|]. intros t Ha Ht. now elim (Hcomp t Ha Ht).
  Qed.
End Simple.

Lemma built_shaped : forall c nsyms w d0 g0 g, built c nsyms w d0 g0 g -> shaped_built c nsyms w d0 g0 g.
Proof. intros c nsyms w d0 g0 g [HP HT]. split; [now apply TablesTotal.processed_shaped|exact HT]. Qed.

Coercion TablesTotal.processed_shaped : processed >-> shaped.
Coercion built_shaped : built >-> shaped_built.

Section SimpleAcyclic.
  Variable P : perf.
  Variables (c : pcfg) (nsyms : nat) (w : wrapped_root) (d0 : nat) (g0 : sym).
  Variable g : dgrammar.
  Hypothesis Hleo : LEO P = false.
  Hypothesis HB : built c nsyms w d0 g0 g.
  Variable b0 : bocage.
  Hypothesis Hb0 : b_count b0 = 0.
  Notation R := (c_rules c).
  Notation nall := (c_num_syms c).

  Lemma simple_ends : forall locs, locs_ok nsyms nall locs -> locs <> [] ->
    exists fuel, (st <- r_new g b0 ;; parse_forest simple_forest P g fuel locs st) <> NoFuel.
  Proof.
    intros locs Hok Hne.
    destruct HB as [HP (fuel0 & maps & nulling & first & follow & Hg & HFI & HFO)].
    destruct (new_fresh P c nsyms w d0 g0 fuel0 maps nulling first follow g HP Hg) as (st0 & En & Hf & _).
    destruct (run_spec P c nsyms w d0 g0 fuel0 maps nulling first follow g Hleo HP Hg _ st0 locs Hf ltac:(intros ? []) Hok Hne)
      as (n & b & st' & sd & Hrun & _ & _ & _ & _ & _ & Hfin).
    set (J := sJ (b_info b0) (b_graph b0)).
    assert (HJ : J Idle [] b0).
    { split; [reflexivity|]. split; [|exact Hb0]. exists []. rewrite app_nil_r. now apply done_idle. }
    pose proof (simple_sim (b_info b0) (b_graph b0)) as HS. fold J in HS.
    pose proof (sim_new (N1 := fnode) (N2 := nat) J sQ g [] b0 HJ) as HN. rewrite En in HN. destruct HN as (s0 & En2 & HN).
    exists n. rewrite En2. cbn [bind]. unfold parse_forest.
    pose proof (sim_feed_all _ _ _ _ HS P g n locs _ _ HN) as HX. rewrite Hrun, Nat.ltb_irrefl in HX.
    destruct HX as ([b' s'] & E1 & Eb & HR). rewrite E1. cbn [bind fst snd] in *. subst b'. destruct b; [|discriminate].
    destruct (Hfin eq_refl) as (o & Eo & _). pose proof (sim_finished _ _ _ _ HS g I _ _ HR) as HF. rewrite Eo in HF.
    destruct HF as (o' & E' & _). rewrite E'. discriminate.
  Qed.


  Theorem simple_trees : forall locs, locs_ok nsyms nall locs -> locs <> [] ->
    exists n o b T l, total n (fun fuel => st <- r_new g b0 ;; parse_forest simple_forest P g fuel locs st) (o, b) /\
      b_info b = b_info b0 /\ b_count b = 0 /\ (exists x, b_graph b = b_graph b0 ++ x) /\ finished_trees (o, b) l /\
      match o with
      | Some h => srep (b_graph b) T h /\ shape T /\ Permutation l (trees T) /\ l <> []
      | None => True
      end /\
      (forall ts, In ts l -> exists t, ts = [t] /\ accepted c g0 locs t) /\
      (forall t, accepted c g0 locs t -> truthful c nsyms w locs t -> o <> None) /\
      (rules_sorted R -> (forall l, In l locs -> toks_ok R (l_toks l)) ->
         NoDup l /\ forall t, accepted c g0 locs t -> truthful c nsyms w locs t -> In [t] l).
  Proof.
    intros locs Hok Hne. exact (simple_trees_any P c nsyms w d0 g0 g Hleo HB b0 Hb0 locs Hok Hne (simple_ends locs Hok Hne)).
  Qed.
End SimpleAcyclic.
