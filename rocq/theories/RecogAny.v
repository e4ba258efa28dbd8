(** RecogAny: what the recognizer accepts, over any usable forest. *)
From Coq Require Import List Arith Bool Lia Relations.
From Verif Require Import Base BaseProofs Vec2d Item Grammar DefaultGrammar Forest ForestSpec Recognizer Drive ClientSpec
  Spec SpecFacts Chart ChartFacts ChartSpec CfgSpec Tables TablesProofs Den Core1 Core2 Core3 Core4 Core5 Core6
  Recog Sim.
Import ListNotations.
Local Open Scope res_scope.

(** ** Sentences and the wrapper *)
Section Wrap.
  Variables (c : pcfg) (nsyms : nat) (w : wrapped_root) (d0 : nat) (g0 : sym).
  Hypothesis HP : processed c nsyms w d0 g0.
  Notation R := (c_rules c).

  Lemma terminal_derives : forall s x, terminal R s -> derives R s x -> x = [s].
  Proof. intros s x Ht H. inversion H as [|r ? Hin]; subst; auto. now elim (Ht r Hin). Qed.

  Lemma root_not_terminal : ~ terminal R (w_root w).
  Proof.
    intros H. destruct HP. destruct pr_root_rule as (r & Hr & El & _).
    apply (H r); [eapply nth_error_In; eauto|auto].
  Qed.

  Lemma derives_seq2_inv : forall A B x, derives_seq R [A; B] x ->
    exists u v, x = u ++ v /\ derives R A u /\ derives R B v.
  Proof.
    intros A B x H. inversion H as [|? ? w1 w2 H1 H2]; subst. inversion H2 as [|? ? w3 w4 H3 H4]; subst.
    inversion H4; subst. rewrite app_nil_r. eauto.
  Qed.

  Lemma derives_seq1_inv : forall A x, derives_seq R [A] x -> derives R A x.
  Proof. intros A x H. inversion H as [|? ? w1 w2 H1 H2]; subst. inversion H2; subst. now rewrite app_nil_r. Qed.

  Lemma root_inv : forall x, derives R (w_root w) x -> x = [w_root w] \/ exists u, x = u ++ [w_eof w] /\ derives R g0 u.
  Proof.
    intros x H. destruct HP. destruct pr_root_rule as (r & Hr & El & Er).
    inversion H as [|r' ? Hin Hs El']; subst; auto. right.
    destruct (In_nth_error _ _ Hin) as (d & Hd). pose proof (pr_root_only _ _ Hd El') as ->.
    rewrite Hr in Hd. injection Hd as <-. rewrite Er in Hs. apply derives_seq2_inv in Hs.
    destruct Hs as (u & v & -> & Hu & Hv). apply terminal_derives in Hv; auto. subst v. eauto.
  Qed.

  Lemma g0_inv : forall x, derives R g0 (w_sof w :: x) -> sentence c w g0 x.
  Proof.
    intros x H. destruct HP. inversion H as [|r y Hin Hs El]; subst; [congruence|].
    destruct (pr_g0_rules r Hin eq_refl) as [Er|Er]; rewrite Er in Hs.
    - apply derives_seq2_inv in Hs. destruct Hs as (u & v & E & Hu & Hv). apply terminal_derives in Hu; auto.
      subst u. injection E as ->. right. split; [eauto|auto].
    - apply derives_seq1_inv in Hs. apply terminal_derives in Hs; auto. injection Hs as ->. left. split; eauto.
  Qed.

  Lemma sentence_g0 : forall x, sentence c w g0 x -> derives R g0 (w_sof w :: x).
  Proof.
    intros x [(-> & r & Hin & El & Er)|((r & Hin & El & Er) & Hd)].
    - rewrite <- El. apply derives_rule; [auto|]. rewrite Er. apply derives_seq_self.
    - rewrite <- El. apply derives_rule; [auto|]. rewrite Er.
      change (w_sof w :: x) with ([w_sof w] ++ x). constructor; [constructor|].
      rewrite <- (app_nil_r x). constructor; [auto|constructor].
  Qed.

  Lemma g0_root : forall u, derives R g0 u -> derives R (w_root w) (u ++ [w_eof w]).
  Proof.
    intros u H. destruct HP. destruct pr_root_rule as (r & Hr & El & Er). rewrite <- El.
    apply derives_rule; [eapply nth_error_In; eauto|]. rewrite Er. constructor; [auto|].
    change [w_eof w] with ([w_eof w] ++ []) at 2. constructor; constructor.
  Qed.

  Lemma sof_not_root : w_sof w <> w_root w.
  Proof. intros E. apply root_not_terminal. rewrite <- E. now destruct HP. Qed.

  (** viable prefixes in terms of the wrapper *)
  Lemma viable_root : forall x, ~ In (w_eof w) x ->
    (viable c nsyms w g0 x <-> viable_terminal_prefix R (w_root w) (w_sof w :: x)).
  Proof.
    intros x Hx. split.
    - intros (y & Hy & Hs). exists (y ++ [w_eof w]). split.
      + apply Forall_app. split; [auto|]. constructor; [|constructor]. now destruct HP.
      + apply sentence_g0, g0_root in Hs. cbn in *. now rewrite app_assoc.
    - intros (y & Hy & Hd). destruct (root_inv _ Hd) as [E|(u & E & Hu)].
      + injection E as E _. now elim sof_not_root.
      + destruct (exists_last (l := y)) as (y' & e & Ey).
        { intros ->. rewrite app_nil_r in E. destruct u as [|a u]; injection E as E1 E2.
          - apply root_not_terminal. exfalso. destruct HP.
            assert (w_sof w = w_eof w) by auto. subst.
            apply derives_nonempty in Hu; [congruence|].
            intros r Hin X. destruct (wf_arity _ _ _ pr_wf r Hin) as [Y|Y]; rewrite X in Y; discriminate.
          - apply Hx. rewrite E2. apply in_app_iff. simpl; auto. }
        subst y. apply Forall_app in Hy. destruct Hy as [Hy _].
        assert (E' : (w_sof w :: x ++ y') ++ [e] = u ++ [w_eof w]) by (rewrite <- E; cbn; now rewrite app_assoc).
        apply app_inj_tail in E'. destruct E' as [E1 _]. exists y'. split; [auto|]. apply g0_inv. cbn in E1. now rewrite E1.
  Qed.
End Wrap.

(** ** Runs over any usable forest *)

Section Any.
  Context {F N : Type}.
  Variable fo : forest_ops F N.
  Variable ok : phase -> F -> Prop.
  Hypothesis HU : usable fo ok.
  Variable P : perf.
  Variables (c : pcfg) (nsyms : nat) (w : wrapped_root) (d0 : nat) (g0 : sym).
  Variable g : dgrammar.
  Hypothesis Hleo : LEO P = false.
  Hypothesis HB : built c nsyms w d0 g0 g.
  Notation R := (c_rules c).
  Notation nall := (c_num_syms c).
  Notation root := (w_root w).

  (** related free and real states *)
  Definition mate (st1 : rstate (list (nat * fnode)) fnode) (st : rstate F N) : Prop :=
    srel (fun ph f1 f2 => (ph = Summing true -> f1 <> []) /\ ok ph f2) (fun _ _ _ _ => True) Idle st1 st.

  Lemma free_fo : fsim free_forest fo (fun ph f1 f2 => (ph = Summing true -> f1 <> []) /\ ok ph f2) (fun _ _ _ _ => True).
  Proof. exact (usable_sim _ _ _ _ free_forest fo (fun ph p => ph = Summing true -> p <> []) ok free_usable HU). Qed.

  (** a state from which a parse can start: new, or reset *)
  Definition start_state (Z : sym -> Prop) (st : rstate F N) : Prop :=
    exists st1 first follow, first_sets_cover c first /\ follow_sets_cover c root follow /\
      (exists fuel maps nulling, from_processed_grammars fuel c maps nulling first follow = Ret g) /\
      fresh P c nsyms w first follow Z st1 /\ mate st1 st.

  Lemma new_start : forall f0, ok Idle f0 -> exists st0, r_new g f0 = Ret st0 /\ start_state (fun _ => False) st0 /\
    r_hint st0 = None.
  Proof.
    intros f0 Hf0. destruct HB as [HP (fuel & maps & nulling & first & follow & Hg & HFI & HFO)].
    destruct (new_fresh P c nsyms w d0 g0 fuel maps nulling first follow g HP Hg) as (st1 & E1 & Hf1 & Hh & Hff).
    pose proof (sim_new (F1 := list (nat * fnode)) (N1 := fnode) (N2 := N)
      (fun ph f1 f2 => (ph = Summing true -> f1 <> []) /\ ok ph f2) (fun _ _ _ _ => True) g [] f0) as HX.
    rewrite E1 in HX. destruct HX as (st0 & E0 & HX); [split; [discriminate|auto]|].
    exists st0. split; [auto|]. split.
    - exists st1, first, follow. split; [auto|]. split; [auto|]. split; [eauto|]. auto.
    - destruct HX as [_ (X & _)]. congruence.
  Qed.

  Theorem run_any : forall Z st locs, start_state Z st -> (forall s, Z s -> s <> root) ->
    locs_ok nsyms nall locs -> locs <> [] ->
    exists n b (sd : nat -> sym -> Prop) first follow,
      first_sets_cover c first /\ follow_sets_cover c root follow /\
      (forall j s, sd (S j) s -> Z s) /\ (forall s, ~ sd 0 s) /\
      (b = true <-> forall j, j < length locs ->
         alive_at R nsyms root (eW (env_of locs sd)) (ehint (env_of locs sd)) (first_of first) (follow_of follow)
           (LOOKAHEAD P) (ekeep (env_of locs sd)) (eseed (env_of locs sd)) (S j)) /\
      (forall fuel, fuel < n -> feed_all fo P g fuel locs st = NoFuel) /\
      exists fin,
      (b = true -> (fin = true <-> exists t, Chart.Med R nsyms root (eW (env_of locs sd)) (ehint (env_of locs sd))
         (first_of first) (follow_of follow)
           (LOOKAHEAD P) (ekeep (env_of locs sd)) (eseed (env_of locs sd)) d0 0 (length locs) t)) /\
      (forall fuel, n <= fuel -> exists st1 st', feed_all fo P g fuel locs st = Ret (b, st') /\
        mate st1 st' /\ rows_fine R nsyms root st1 /\
        (b = true -> r_hint st' = None /\ is_finished fo g st' = Ret fin /\
          exists pos, Core4.Inv P R nsyms (first_of first) (follow_of follow) root (env_of locs sd) Z (length locs) pos st1)).
  Proof.
    intros Z st locs (st1 & first & follow & HFI & HFO & (fuel0 & maps & nulling & Hg) & Hf & Hm) HZ Hok Hne.
    destruct HB as [HP _].
    destruct (run_spec P c nsyms w d0 g0 fuel0 maps nulling first follow g Hleo HP Hg Z st1 locs Hf HZ Hok Hne)
      as (n & b & st1' & sd & Hrun & Hb & HsdZ & Hsd0 & Hrf & HI & Hfin).
    exists n, b, sd, first, follow. split; [auto|]. split; [auto|]. split; [auto|]. split; [auto|].
    split; [exact Hb|].
    pose proof (fun fuel => sim_feed_all _ _ _ _ free_fo P g fuel locs _ _ Hm) as HS.
    split.
    { intros fuel Hlt. specialize (HS fuel). rewrite Hrun in HS. apply Nat.ltb_lt in Hlt. rewrite Hlt in HS. exact HS. }
    assert (HX : exists fin, b = true ->
       (fin = true <-> exists t, Chart.Med R nsyms root (eW (env_of locs sd)) (ehint (env_of locs sd))
         (first_of first) (follow_of follow)
           (LOOKAHEAD P) (ekeep (env_of locs sd)) (eseed (env_of locs sd)) d0 0 (length locs) t) /\
       is_finished free_forest g st1' = Ret fin).
    { destruct b; [|exists true; discriminate]. destruct (Hfin eq_refl) as (o & Eo & Hn & Hs).
      exists (match o with Some _ => true | None => false end). intros _. split.
      - destruct o as [T|].
        + split; [intros _|auto]. destruct (Hs T eq_refl) as [(ts & Hts) Hall]. destruct (Hall ts Hts) as (t & _ & Ht).
          exists t. exact Ht.
        + split; [discriminate|]. intros (t & Ht). now elim (Hn eq_refl t).
      - unfold is_finished. rewrite Eo. destruct o; reflexivity. }
    destruct HX as (fin & HX). exists fin. split; [intros Eb; apply (HX Eb)|].
    intros fuel Hge. specialize (HS fuel). rewrite Hrun in HS. apply Nat.ltb_ge in Hge. rewrite Hge in HS.
    destruct HS as ([b' st'] & E & Hbb & Hm'). cbn [fst snd] in *. subst b'.
    exists st1', st'. split; [auto|]. split; [exact Hm'|]. split; [auto|]. intros Eb.
    destruct (HI Eb) as [Hh Hpos]. split; [destruct Hm' as [_ (X & _)]; congruence|].
    split; [|exact Hpos]. destruct (HX Eb) as [_ Ef].
    pose proof (sim_is_finished _ _ _ _ free_fo g I _ _ Hm') as Y. rewrite Ef in Y. destruct Y as (y & E' & <-). exact E'.
  Qed.

  (** *** The final answer *)
  Theorem verdict_spec : forall Z st locs, start_state Z st -> (forall s, Z s -> s <> root) ->
    locs_ok nsyms nall locs -> locs <> [] ->
    exists n v, (forall fuel, verdict fo P g fuel locs st = if fuel <? n then NoFuel else Ret v) /\
      (v = true -> exists t, accepted c g0 locs t) /\
      (forall t, accepted c g0 locs t -> truthful c nsyms w locs t -> v = true).
  Proof.
    intros Z st locs Hst HZ Hok Hne. pose proof Hst as (st1 & first' & follow' & _ & _ & (fuel0 & maps & nulling & Hg) & _).
    destruct (run_any Z st locs Hst HZ Hok Hne) as (n & b & sd & first & follow & HFI & HFO & _ & _ & Hb & Hlow & fin & Hfin & Hhigh).
    pose proof (b_processed _ _ _ _ _ _ HB) as HP.
    exists n, (b && fin). split; [|split].
    - intros fuel. unfold verdict. destruct (Nat.ltb_spec fuel n) as [Hl|Hl].
      + now rewrite Hlow.
      + destruct (Hhigh fuel Hl) as (st1' & st' & -> & _ & _ & Hx). cbn [bind]. destruct b; [|reflexivity].
        destruct (Hx eq_refl) as (_ & -> & _). reflexivity.
    - intros Hv. apply andb_true_iff in Hv. destruct Hv as [-> ->]. destruct (Hfin eq_refl) as [X _].
      destruct (X eq_refl) as (t & Ht). exists t. eapply (med_accepted P c nsyms w d0 g0 first follow); eauto.
    - intros t Ha Ht.
      assert (HM : Core3.eMed P R nsyms (first_of first) (follow_of follow) root (env_of locs sd) d0 0 (length locs) t).
      { apply (accepted_med P c nsyms w d0 g0 first follow HP HFI HFO); auto. }
      assert (b = true).
      { apply Hb. intros j Hj. exact (med_alive P c nsyms w d0 first follow locs sd t HM j Hj). }
      subst b. cbn. apply Hfin; auto. exists t. exact HM.
  Qed.

  (** a viable prefix, read with truthful hints, keeps the chart alive *)
  Lemma viable_alive : forall locs first follow sd ys v, first_sets_cover c first -> follow_sets_cover c root follow ->
    locs <> [] ->
    (forall l s, In l locs -> l_keep l s = true) ->
    reads (eW (env_of locs no_seed)) 0 ys (length locs) ->
    derives R root (map fst ys ++ v) ->
    (forall s v', In (s, v') (match locs with l :: _ => l_toks l | [] => [] end) -> s <> root) ->
    (forall j s, ehint (env_of locs no_seed) j = Some s -> s < nsyms /\ terminal R s /\
       nth_error (map fst ys ++ v) j = Some s) ->
    forall j, j < length locs ->
      alive_at R nsyms root (eW (env_of locs sd)) (ehint (env_of locs sd)) (first_of first) (follow_of follow)
           (LOOKAHEAD P) (ekeep (env_of locs sd)) (eseed (env_of locs sd)) (S j).
  Proof.
    intros locs first follow sd ys v HFI HFO Hne Hk Hrd Hd Hroot Hh j Hj.
    pose proof (b_processed _ _ _ _ _ _ HB) as HP.
    destruct (proj1 (derives_tree R) _ _ Hd (ys ++ map (fun s => (s, 0)) v)) as (t & Ht & Hy).
    { rewrite map_app, map_map. cbn. now rewrite map_id. }
    assert (Hly : length ys = length locs) by (apply reads_length in Hrd; lia).
    destruct HP.
    assert (Hkeep : forall j s, ekeep (env_of locs sd) j s = true).
    { intros [|j'] s; [reflexivity|]. cbn. destruct (nth_error locs j') as [l|] eqn:El; [|reflexivity].
      apply Hk. eapply nth_error_In; eauto. }
    destruct (proj1 (chart_alive R nsyms nall root (eW (env_of locs sd)) (ehint (env_of locs sd)) (first_of first)
        (follow_of follow) (LOOKAHEAD P) (ekeep (env_of locs sd)) (eseed (env_of locs sd)) pr_wf
        (FI_complete c nsyms first HFI) (FO_complete c nsyms w follow HFO)
        ltac:(intros j' s' X; destruct (Hh j' s' X) as (A & B & _); auto)
        (map fst ys ++ v) (length locs) ltac:(intros j' s' _ X; apply (Hh j' s' X)) Hkeep)
        root t Ht root [] [] j) as [(y & ->)|X]; auto.
    + now apply top_here.
    + apply Pred_start, rt_refl.
    + lia.
    + rewrite Hy, map_app, map_map. cbn. now rewrite map_id, app_nil_r.
    + simpl. constructor.
    + simpl. rewrite Hy, app_length. unfold sym in *. lia.
    + cbn [length]. rewrite Nat.sub_0_r, Hy. rewrite firstn_app.
      replace (S j - length ys) with 0 by lia. rewrite firstn_O, app_nil_r.
      rewrite <- (firstn_skipn (S j) ys) in Hrd. apply reads_split in Hrd. destruct Hrd as [Hrd _].
      rewrite firstn_length_le in Hrd by lia. exact Hrd.
    + exfalso. destruct ys as [|y0 ys]; [destruct locs; [congruence|discriminate]|].
      destruct locs as [|l0 locs']; [congruence|]. injection Hy as Hy0 _.
      inversion Hrd as [|? ? ? ? Hin _]; subst. cbn in Hin.
      now apply (Hroot root y).
  Qed.

  (** *** Intermediate answers *)
  Theorem answer_spec : forall Z st locs, start_state Z st -> (forall s, Z s -> s <> root) ->
    locs_ok nsyms nall locs -> locs <> [] ->
    exists n b, (forall fuel, fuel < n -> feed_all fo P g fuel locs st = NoFuel) /\
      (forall fuel, n <= fuel -> exists st', feed_all fo P g fuel locs st = Ret (b, st')) /\
      ((forall s, ~ Z s) -> b = true ->
         exists ys v, reads (eW (env_of locs no_seed)) 0 ys (length locs) /\ derives R root (map fst ys ++ v)) /\
      (forall ys v, (forall l s, In l locs -> l_keep l s = true) ->
         reads (eW (env_of locs no_seed)) 0 ys (length locs) ->
         derives R root (map fst ys ++ v) ->
         (forall s v', In (s, v') (match locs with l :: _ => l_toks l | [] => [] end) -> s <> root) ->
         (forall j s, ehint (env_of locs no_seed) j = Some s -> s < nsyms /\ terminal R s /\
            nth_error (map fst ys ++ v) j = Some s) -> b = true).
  Proof.
    intros Z st locs Hst HZ Hok Hne.
    destruct (run_any Z st locs Hst HZ Hok Hne) as (n & b & sd & first & follow & HFI & HFO & HsdZ & Hsd0 & Hb & Hlow & fin & _ & Hhigh).
    pose proof (b_processed _ _ _ _ _ _ HB) as HP.
    exists n, b. split; [auto|]. split.
    { intros fuel Hl. destruct (Hhigh fuel Hl) as (_ & st' & E & _). eauto. }
    split.
    - intros HZ0 ->. assert (Hl : length locs - 1 < length locs) by (destruct locs; [congruence|simpl; lia]).
      pose proof (proj1 Hb eq_refl (length locs - 1) Hl) as Ha.
      replace (S (length locs - 1)) with (length locs) in Ha by lia.
      eapply alive_viable in Ha; [exact Ha|]. intros [|j] s X; [now apply (Hsd0 s)|]. apply HsdZ in X. now apply (HZ0 s).
    - intros ys v Hk Hrd Hd Hroot Hh. apply Hb. eapply viable_alive; eauto.
  Qed.
End Any.
