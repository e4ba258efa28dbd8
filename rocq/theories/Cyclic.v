(** Cyclic: recognition with a grammar whose unary rules may form a cycle. *)
From Coq Require Import List Arith Bool Lia Relations.
From Verif Require Import Base BaseProofs Vec2d Item Grammar DefaultGrammar Forest ForestSpec Recognizer Drive ClientSpec
  Spec SpecFacts Chart ChartFacts ChartSpec CfgSpec Tables TablesProofs Den Core1 Core2 Core3 Core4 Core5 Core6
  Recog Sim RecogAny RecogFacts Parse ParseFacts CompactSpec CrateSpec.
From Verif Require CyclicRun Shaped.
Import ListNotations.
Local Open Scope res_scope.

(** ** The trees of a node have bounded size *)
Definition weight (ts : list tree) : nat := list_sum (map inner_nodes ts).

Lemma den_bound : forall T, exists n, forall ts, den T ts -> weight ts <= n.
Proof.
  intros T. exists (list_max (map weight (trees T))). intros ts H. apply trees_den in H.
  pose proof (proj1 (list_max_le (map weight (trees T)) _) (le_n _)) as X.
  rewrite Forall_forall in X. apply X. apply in_map_iff. eauto.
Qed.

Lemma items_bound : forall its : list (item fnode), exists n, forall it ts, In it its -> den (it_node it) ts -> weight ts <= n.
Proof.
  induction its as [|it its (n & IH)].
  - exists 0. intros ? ? [].
  - destruct (den_bound (it_node it)) as (m & Hm). exists (Nat.max n m). intros it' ts [<-|Hin] H.
    + specialize (Hm _ H). lia.
    + specialize (IH _ _ Hin H). lia.
Qed.

Lemma inv_bound : forall P R nsyms FI FO root E Z k pos st,
  Core4.Inv P R nsyms FI FO root E Z k pos st ->
  exists n, forall d i t, Core3.eMed P R nsyms FI FO root E d i k t -> inner_nodes t <= n.
Proof.
  intros P R nsyms FI FO root E Z k pos st HI. destruct HI as [(cs & O & _ & HL & HX) Hlast _ _].
  destruct HX as (_ & _ & Hset & _).
  assert (HO : nth_error (cs ++ [O]) (length pos - 1) = Some O).
  { rewrite <- HL. replace (S (length cs) - 1) with (length cs) by lia. rewrite nth_error_app2, Nat.sub_diag; auto. }
  destruct (Hset _ _ _ Hlast HO) as (_ & _ & Hcomp).
  destruct (items_bound O) as (n & Hn). exists n. intros d i t Ht.
  destruct (Hcomp d i t Ht) as (it & Hin & _ & _ & Hden). specialize (Hn _ _ Hin Hden).
  unfold weight in Hn. cbn in Hn. lia.
Qed.

(** ** Runs over any usable forest *)
Section Any.
  Context {F N : Type}.
  Variable fo : forest_ops F N.
  Variable ok : phase -> F -> Prop.
  Hypothesis HU : usable fo ok.
  Variable P : perf.
  Variables (c : pcfg) (nsyms : nat) (w : wrapped_root) (d0 : nat) (g0 : sym).
  Variable g : dgrammar.
  Hypothesis Hleo : LEO P = false.
  Hypothesis HB : shaped_built c nsyms w d0 g0 g.
  Notation R := (c_rules c).
  Notation nall := (c_num_syms c).
  Notation root := (w_root w).
  Notation start_state := (start_state ok P c nsyms w g).

  Lemma new_start : forall f0, ok Idle f0 -> exists st0 : rstate F N, r_new g f0 = Ret st0 /\ start_state (fun _ => False) st0 /\
    r_hint st0 = None.
  Proof.
    intros f0 Hf0. destruct HB as [HP (fuel & maps & nulling & first & follow & Hg & HFI & HFO)].
    destruct (Shaped.new_fresh P c nsyms w d0 g0 fuel maps nulling first follow g HP Hg) as (st1 & E1 & Hf1 & Hh & Hff).
    pose proof (sim_new (F1 := list (nat * fnode)) (N1 := fnode) (N2 := N)
      (fun ph f1 f2 => (ph = Summing true -> f1 <> []) /\ ok ph f2) (fun _ _ _ _ => True) g [] f0) as HX.
    rewrite E1 in HX. destruct HX as (st0 & E0 & HX); [split; [discriminate|auto]|].
    exists st0. split; [auto|]. split.
    - exists st1, first, follow. split; [auto|]. split; [auto|]. split; [eauto|]. auto.
    - destruct HX as [_ (X & _)]. congruence.
  Qed.

  Theorem verdict_spec : forall Z st locs, start_state Z st -> (forall s, Z s -> s <> root) ->
    locs_ok nsyms nall locs -> locs <> [] ->
    forall fuel, verdict fo P g fuel locs st = NoFuel \/ exists v, verdict fo P g fuel locs st = Ret v /\
      (v = true -> exists t, accepted c g0 locs t) /\
      (forall t, accepted c g0 locs t -> truthful c nsyms w locs t -> v = true) /\
      (exists n, forall t, accepted c g0 locs t -> truthful c nsyms w locs t -> inner_nodes t <= n).
  Proof.
    intros Z st locs (st1 & first & follow & HFI & HFO & (fuel0 & maps & nulling & Hg) & Hf & Hm) HZ Hok Hne fuel.
    pose proof (sb_shaped _ _ _ _ _ _ HB) as HP.
    pose proof (sim_feed_all _ _ _ _ (free_fo fo ok HU) P g fuel locs _ _ Hm) as HS. unfold verdict.
    destruct (Shaped.shaped_run P c nsyms w d0 g0 fuel0 maps nulling first follow g Hleo HP Hg Z st1 locs Hf HZ Hok Hne fuel)
      as [Hno|(b & st1' & sd & Hrun & Hb & HsdZ & Hsd0 & Hrf & HI & Hfin)].
    { left. rewrite Hno in HS. cbn in HS. rewrite HS. reflexivity. }
    right. rewrite Hrun in HS. destruct HS as ([b' st'] & E & Hbb & Hm'). cbn [fst snd] in *. subst b'.
    rewrite E. cbn [bind].
    assert (HM : forall t, accepted c g0 locs t -> truthful c nsyms w locs t ->
       Core3.eMed P R nsyms (first_of first) (follow_of follow) root (env_of locs sd) d0 0 (length locs) t).
    { intros t Ha Ht. apply (Shaped.accepted_med P c nsyms w d0 g0 first follow HP HFI HFO); auto. }
    assert (HA : forall t, accepted c g0 locs t -> truthful c nsyms w locs t -> b = true).
    { intros t Ha Ht. apply Hb. intros j Hj. exact (med_alive P c nsyms w d0 first follow locs sd t (HM t Ha Ht) j Hj). }
    destruct b.
    - destruct (Hfin eq_refl) as (o & Eo & Hn & Hs). destruct (HI eq_refl) as (_ & pos & HInv).
      exists (match o with Some _ => true | None => false end).
      split.
      { pose proof (sim_is_finished _ _ _ _ (free_fo fo ok HU) g I _ _ Hm') as Y. unfold is_finished in Y at 1. rewrite Eo in Y.
        cbn [bind] in Y. destruct Y as (y & E' & <-). destruct o; exact E'. }
      split; [|split].
      + destruct o as [T|]; [|discriminate]. intros _. destruct (Hs T eq_refl) as [(ts & Hts) Hall].
        destruct (Hall ts Hts) as (t & _ & Ht). exists t. eapply (Shaped.med_accepted P c nsyms w d0 g0 first follow); eauto.
      + intros t Ha Ht. destruct o; [reflexivity|]. elim (Hn eq_refl t). auto.
      + destruct (inv_bound _ _ _ _ _ _ _ _ _ _ _ HInv) as (n & Hbd). exists n. intros t Ha Ht. eapply Hbd. apply HM; auto.
    - exists false. split; [reflexivity|]. split; [discriminate|]. split; [exact HA|].
      exists 0. intros t Ha Ht. discriminate (HA t Ha Ht).
  Qed.

  Lemma sof_sym : g_sof_sym g = w_sof w.
  Proof.
    destruct HB as [HP (fuel & maps & nulling & first & follow & Hg & HFI & HFO)].
    now destruct (Shaped.g_facts c nsyms w d0 g0 fuel maps nulling first follow g HP Hg) as (_ & X & _).
  Qed.

  Theorem parse_spec : forall Z st tokens syms, start_state Z st -> (forall s, Z s -> s <> root) -> r_hint st = None ->
    mapped g tokens syms -> (forall s, In s syms -> user_terminal c nsyms w s) ->
    forall fuel, parse fo P g fuel st tokens = NoFuel \/ exists r st', parse fo P g fuel st tokens = Ret (r, st') /\
      (r = POk true <-> sentence c w g0 syms) /\
      (exists n, forall t, parse_tree R g0 t -> yield t = (w_sof w, 0) :: numbered 0 syms -> inner_nodes t <= n).
  Proof.
    intros Z st tokens syms Hst HZ Hh Hm Hs fuel. pose proof (sb_shaped _ _ _ _ _ _ HB) as HP.
    pose proof (parse_feed fo P g fuel tokens syms st Hm Hh) as X. cbn zeta in X. rewrite sof_sym in X.
    set (ys := (w_sof w, 0) :: numbered 0 syms) in *.
    assert (Hin : forall s v, In (s, v) (numbered 0 syms) -> s < nsyms /\ terminal R s).
    { intros s v Hi. destruct (Hs s) as (A & B & _); [eapply numbered_in; eauto|]. auto. }
    assert (Hok : locs_ok nsyms nall (hinted after0 0 ys)).
    { apply (Shaped.hinted_ok c nsyms w d0 g0 HP). intros s v [E|Hi]; [|apply (Hin s v Hi)].
      injection E as <- <-. now destruct HP. }
    assert (Hne : hinted after0 0 ys <> []) by discriminate.
    pose proof (Shaped.accepted_hinted c nsyms w d0 g0 HP after0 0 (numbered 0 syms)) as Hacc. fold ys in Hacc.
    rewrite numbered_fst in Hacc.
    pose proof (fun t => Shaped.truthful_hinted c nsyms w d0 g0 HP after0 0 (numbered 0 syms) t Hin) as Htr. fold ys in Htr.
    destruct (verdict_spec Z st (hinted after0 0 ys) Hst HZ Hok Hne fuel) as [Hv|(v & Hv & Hv1 & Hv2 & n & Hbd)];
      unfold verdict in Hv.
    - left. destruct (feed_all fo P g fuel _ st) as [[[] st2]| |]; cbn [bind] in Hv; try discriminate; [|exact X].
      rewrite Hv in X. exact X.
    - right.
      assert (Hn : exists n, forall t, parse_tree R g0 t -> yield t = ys -> inner_nodes t <= n).
      { exists n. intros t Ht Hy. assert (Ha : accepted c g0 (hinted after0 0 ys) t); [|apply Hbd; auto].
        split; [auto|]. split.
        - rewrite hinted_length, Hy. apply (reads_self _ ys 0). intros k x Hk. rewrite hinted_W with (x := x); [simpl; auto|auto].
        - eapply cok_all; eauto. intros. apply hinted_keep. }
      assert (Hvs : v = true <-> sentence c w g0 syms).
      { rewrite <- Hacc. split; [exact Hv1|]. intros (t & Ha). eapply Hv2; eauto. }
      destruct (feed_all fo P g fuel _ st) as [[[] st2]| |]; cbn [bind] in Hv; try discriminate.
      + rewrite Hv in X. cbn [bind] in X. exists (POk v), st2. split; [exact X|]. split; [|exact Hn].
        rewrite <- Hvs. split; [congruence|intros ->; reflexivity].
      + injection Hv as <-. destruct X as [(X & _)|(k & tok & _ & X & _)]; rewrite X;
          (eexists _, st2; split; [reflexivity|]; split; [|exact Hn]; rewrite <- Hvs; split; discriminate).
  Qed.
End Any.

(** ** Trees below a sentential form *)
Lemma weight_app : forall a b, weight (a ++ b) = weight a + weight b.
Proof. intros a b. unfold weight. rewrite map_app. apply list_sum_app. Qed.

Lemma trees_app : forall R a b ts us, parse_trees R a ts -> parse_trees R b us -> parse_trees R (a ++ b) (ts ++ us).
Proof. intros R a b ts us H K. induction H; cbn; [auto|constructor; auto]. Qed.

Lemma trees_split : forall R a b ts, parse_trees R (a ++ b) ts ->
  exists us vs, ts = us ++ vs /\ parse_trees R a us /\ parse_trees R b vs.
Proof.
  intros R a. induction a as [|s a IH]; intros b ts H; cbn [app] in H.
  - exists [], ts. split; [auto|]. split; [constructor|auto].
  - inversion H as [|? ? t ts' H1 H2]; subst. destruct (IH _ _ H2) as (us & vs & -> & A & B).
    exists (t :: us), vs. split; [auto|]. split; [now constructor|auto].
Qed.

Lemma graft : forall R,
  (forall s x, derives R s x -> forall ts, parse_trees R x ts ->
     exists t, parse_tree R s t /\ yield t = flat_map yield ts /\ weight ts <= inner_nodes t) /\
  (forall a x, derives_seq R a x -> forall ts, parse_trees R x ts ->
     exists us, parse_trees R a us /\ flat_map yield us = flat_map yield ts /\ weight ts <= weight us).
Proof.
  intros R. apply derives_both.
  - intros s ts H. inversion H as [|? ? t ts' H1 H2]; subst. inversion H2; subst. exists t. split; [auto|].
    cbn [flat_map]. rewrite app_nil_r. split; [auto|]. unfold weight. cbn. lia.
  - intros r x Hr _ IH ts H. destruct (IH ts H) as (us & A & B & C). apply In_nth_error in Hr. destruct Hr as (d & Hd).
    exists (Node d us). split; [econstructor; eauto|]. split; [auto|]. unfold weight in *. cbn [inner_nodes]. lia.
  - intros ts H. inversion H; subst. exists []. split; [constructor|auto].
  - intros s ss w1 w2 _ IH1 _ IH2 ts H. destruct (trees_split _ _ _ _ H) as (us & vs & -> & A & B).
    destruct (IH1 us A) as (t & H1 & H2 & H3). destruct (IH2 vs B) as (ts' & K1 & K2 & K3).
    exists (t :: ts'). split; [now constructor|]. rewrite flat_map_app. cbn [flat_map]. rewrite H2, K2. split; [auto|].
    rewrite weight_app. unfold weight in *. cbn [map list_sum fold_right]. unfold list_sum in *. lia.
Qed.

(** a symbol that derives itself by a rule has trees of any size over the same leaves *)
Lemma pump : forall R A t0, derives_by_rule R A [A] -> parse_tree R A t0 ->
  forall n, exists t, parse_tree R A t /\ yield t = yield t0 /\ n <= inner_nodes t.
Proof.
  intros R A t0 (r & Hr & El & Hs) H0. induction n as [|n (t & Ht & Ey & Hn)]; [exists t0; auto with arith|].
  destruct (proj2 (graft R) _ _ Hs [t]) as (us & A1 & A2 & A3); [repeat constructor; auto|].
  apply In_nth_error in Hr. destruct Hr as (d & Hd). exists (Node d us). split; [rewrite <- El; econstructor; eauto|].
  cbn [yield]. cbn [flat_map] in A2. rewrite app_nil_r in A2. split; [rewrite <- Ey; exact A2|].
  unfold weight in A3. cbn [map list_sum fold_right] in A3. cbn [inner_nodes]. unfold list_sum in *. lia.
Qed.

Lemma leaves : forall R xs, parse_trees R (map fst xs) (map (fun x => Leaf (fst x) (snd x)) xs) /\
  flat_map yield (map (fun x : sym * nat => Leaf (fst x) (snd x)) xs) = xs.
Proof.
  intros R. induction xs as [|[s v] xs [A B]]; cbn; [split; constructor|]. split; [constructor; [constructor|auto]|].
  unfold sym in *. now rewrite B.
Qed.

Lemma large_trees : forall R s x A z ys1 ys2 ys3, derives R s (x ++ A :: z) -> derives_by_rule R A [A] -> derives R A (map fst ys2) ->
  map fst ys1 = x -> map fst ys3 = z ->
  forall n, exists t, parse_tree R s t /\ yield t = ys1 ++ ys2 ++ ys3 /\ n <= inner_nodes t.
Proof.
  intros R s x A z ys1 ys2 ys3 Hs HA Hy <- <- n.
  destruct (proj1 (derives_tree R) _ _ Hy ys2 eq_refl) as (t0 & H0 & E0).
  destruct (pump R A t0 HA H0 n) as (t & Ht & Et & Hn).
  destruct (leaves R ys1) as [L1 L1']. destruct (leaves R ys3) as [L3 L3'].
  destruct (proj1 (graft R) _ _ Hs (map (fun x => Leaf (fst x) (snd x)) ys1 ++ t :: map (fun x => Leaf (fst x) (snd x)) ys3))
    as (T & HT & ET & HN).
  { apply trees_app; [auto|]. now constructor. }
  exists T. split; [auto|]. split.
  - rewrite ET, flat_map_app. cbn [flat_map]. now rewrite L1', L3', Et, E0.
  - rewrite weight_app in HN. unfold weight in HN at 2. cbn [map list_sum fold_right] in HN. lia.
Qed.

(** ** A cycle: the parse does not end *)
Lemma numbered_app : forall a b i, numbered i (a ++ b) = numbered i a ++ numbered (i + length a) b.
Proof.
  induction a as [|s a IH]; intros b i; cbn [app numbered length]; [now rewrite Nat.add_0_r|].
  rewrite IH. f_equal. f_equal. f_equal. lia.
Qed.

Section Never.
  Context {F N : Type}.
  Variable fo : forest_ops F N.
  Variable ok : phase -> F -> Prop.
  Hypothesis HU : usable fo ok.
  Variable P : perf.
  Variables (c : pcfg) (nsyms : nat) (w : wrapped_root) (d0 : nat) (g0 : sym).
  Variable g : dgrammar.
  Hypothesis Hleo : LEO P = false.
  Hypothesis HB : shaped_built c nsyms w d0 g0 g.
  Notation R := (c_rules c).

  Theorem never_ends : forall st tokens x A y z, start_state ok P c nsyms w g (fun _ => False) st -> r_hint st = None ->
    mapped g tokens (x ++ y ++ z) -> (forall s, In s (x ++ y ++ z) -> user_terminal c nsyms w s) ->
    derives R g0 (w_sof w :: x ++ A :: z) -> derives_by_rule R A [A] -> derives R A y ->
    forall fuel, parse fo P g fuel st tokens = NoFuel.
  Proof.
    intros st tokens x A y z Hst Hh Hm Hs Hg HA Hy fuel.
    destruct (parse_spec fo ok HU P c nsyms w d0 g0 g Hleo HB _ st tokens (x ++ y ++ z) Hst ltac:(contradiction) Hh Hm Hs fuel)
      as [H|(r & st' & _ & _ & n & Hn)]; [exact H|exfalso].
    destruct (large_trees R g0 (w_sof w :: x) A z ((w_sof w, 0) :: numbered 0 x) (numbered (length x) y)
       (numbered (length x + length y) z) Hg HA) with (n := S n) as (t & Ht & Ey & Hl).
    - now rewrite numbered_fst.
    - cbn. now rewrite numbered_fst.
    - apply numbered_fst.
    - specialize (Hn t Ht). rewrite Ey in Hn. rewrite !numbered_app in Hn. specialize (Hn eq_refl). lia.
  Qed.
End Never.
