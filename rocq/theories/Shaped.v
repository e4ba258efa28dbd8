(** Shaped: what the recognizer accepts when the unary rules may form a cycle.  Each lemma
    is the one of Recog.v, RecogAny.v or RecogFacts.v without the hypothesis that they do not. *)
From Coq Require Import List Arith Bool Lia Relations.
From Verif Require Import Base BaseProofs Vec2d Item Grammar DefaultGrammar Forest ForestSpec Recognizer Drive ClientSpec
  Spec SpecFacts Chart ChartFacts ChartSpec CfgSpec Tables TablesProofs Den Core1 Core2 Core3 Core4 Core5 Core6 CyclicRun.
From Verif Require Import Recog Sim RecogAny RecogFacts.
Import ListNotations.
Local Open Scope res_scope.

Section Run.
  Variable P : perf.
  Variable c : pcfg.
  Variable nsyms : nat.
  Variable w : wrapped_root.
  Variable d0 : nat.
  Variable g0 : sym.
  Variable fuel0 : nat.
  Variable maps : mapping.
  Variable nulling : list prule.
  Variables first follow : list (sym * list sym).
  Variable g : dgrammar.
  Hypothesis Hleo : LEO P = false.
  Hypothesis HP : shaped c nsyms w d0 g0.
  Hypothesis Hg : from_processed_grammars fuel0 c maps nulling first follow = Ret g.

  Notation R := (c_rules c).
  Notation nall := (c_num_syms c).
  Notation root := (w_root w).
  Notation FI := (first_of first).
  Notation FO := (follow_of follow).
  Notation eSym := (Core3.eSym P R nsyms FI FO root).
  Notation eComp := (Core3.eComp P R nsyms FI FO root).
  Notation eMed := (Core3.eMed P R nsyms FI FO root).
  Notation ePred := (Core3.ePred P R nsyms FI FO root).
  Notation Inv := (Core4.Inv P R nsyms FI FO root).
  Notation alive := (Core4.alive P R nsyms FI FO root).
  Notation fresh := (Recog.fresh P c nsyms w first follow).
  Notation accepted := (Recog.accepted c g0).
  Notation truthful := (Recog.truthful c nsyms w).
  Notation state := (rstate (list (nat * fnode)) fnode).

  Lemma tok : tables_ok g R nsyms nall FI FO.
  Proof. destruct HP. eapply tables_correct; eauto. Qed.

  Lemma g_facts : g_start_sym g = root /\ g_sof_sym g = w_sof w /\ g_eof_sym g = w_eof w /\
    g_dot_before_eof g = d0 /\ g_maps g = maps /\ g_original_start_sym g = w_inner w /\
    g_has_trivial_derivation g = match nulling with [] => false | _ => true end.
  Proof.
    pose proof (from_processed_inv _ _ _ _ _ _ _ Hg) as
      (gens & w' & dbe & by0 & comps & Egens & Ew & Edbe & Eby & Es & Eo & Esof & Eeof & Edb & _ & _ & Et & Em & _).
    destruct HP. rewrite sh_wrapped in Ew. injection Ew as <-.
    assert (dbe = d0); [|subst; repeat (split; [solve [auto]|]); auto].
    destruct sh_root_rule as (r & Hr & El & Er). clear -Edbe Hr Er sh_eof_min.
    assert (X : forall l i dbe, position (fun r => eqb_opt (rhs1 r) (Some (w_eof w))) l = Some dbe ->
      (forall d, nth_error l d = nth_error R (i + d)) ->
      exists r', nth_error R (i + dbe) = Some r' /\ rhs1 r' = Some (w_eof w)).
    { induction l as [|a l IH]; intros i dbe' H Hl; simpl in H; [discriminate|].
      destruct (eqb_opt (rhs1 a) (Some (w_eof w))) eqn:Ea.
      - injection H as <-. exists a. rewrite <- Hl. split; [reflexivity|]. unfold eqb_opt in Ea.
        destruct (rhs1 a); [|discriminate]. apply Nat.eqb_eq in Ea. congruence.
      - destruct (position _ l) as [k|] eqn:Ep; [|discriminate]. injection H as <-.
        destruct (IH (S i) k eq_refl) as (r' & Hr' & E).
        { intros d. specialize (Hl (S d)). simpl in Hl. rewrite Hl. f_equal. lia. }
        exists r'. split; [|auto]. rewrite <- Hr'. f_equal. simpl. lia. }
    destruct (X R 0 dbe Edbe) as (r' & Hr' & Er'); [reflexivity|].
    destruct (sh_eof_min _ _ _ Hr' Er') as [X1|X1]; [lia|auto].
  Qed.

  Lemma root_pr : root < nsyms. Proof. now destruct HP. Qed.

  Lemma new_fresh : exists st0, r_new g [] = Ret st0 /\ fresh (fun _ => False) st0 /\ r_hint st0 = None /\ r_forest st0 = [].
  Proof.
    destruct g_facts as (Es & _).
    destruct (r_new_spec P g R nsyms nall FI FO root (proj1 (conj tok I)) root_pr Es []) as (st0 & A & B & C & D).
    exists st0. auto.
  Qed.

  Hypothesis HFI : first_sets_cover c first.
  Hypothesis HFO : follow_sets_cover c root follow.

  Lemma g0_range : g0 < nall.
  Proof.
    destruct HP. destruct sh_root_rule as (r & Hr & _ & Er).
    apply (wf_rhs_range _ _ _ sh_wf r); [eapply nth_error_In; eauto|]. rewrite Er. simpl; auto.
  Qed.

  Lemma accepted_med : forall locs sd t, accepted locs t -> truthful locs t ->
    eMed (env_of locs sd) d0 0 (length locs) t.
  Proof.
    intros locs sd t (Hpt & Hrd & Hc) Hh. destruct HP. destruct sh_root_rule as (r & Hr & El & Er).
    assert (Hlen : length locs = length (yield t)) by (apply reads_length in Hrd; lia).
    assert (Htop : topr R nsyms root root) by now apply top_here.
    assert (HPr : ePred (env_of locs sd) root 0) by (apply Pred_start, rt_refl).
    assert (Hd : derives R root [g0; w_eof w]).
    { rewrite <- El. apply derives_rule; [eapply nth_error_In; eauto|]. rewrite Er. apply derives_seq_self. }
    assert (Hh0 : forall j s, ehint (env_of locs sd) j = Some s -> s < nsyms /\ terminal R s).
    { intros j s X. destruct (Hh j s X) as (A & B & _). auto. }
    assert (HS : eSym (env_of locs sd) g0 0 (length locs) t).
    { rewrite Hlen.
      apply (in_chart_sub R nsyms nall root (eW (env_of locs sd)) (ehint (env_of locs sd)) FI FO (LOOKAHEAD P)
         (ekeep (env_of locs sd)) (eseed (env_of locs sd))
         (map fst (yield t) ++ [w_eof w]) (length locs)) with (B := g0) (t := t) (r := r) (T := root)
          (u := @nil sym) (v := [w_eof w]); auto.
      - apply chart_complete with (1 := sh_wf); auto using (FI_complete c nsyms first HFI), (FO_complete c nsyms w follow HFO).
        intros j s _ X. apply (Hh j s X).
      - eapply nth_error_In; eauto.
      - now rewrite Er.
      - now rewrite El.
      - apply g0_range.
      - simpl. lia.
      - simpl. rewrite <- Hlen. auto. }
    eapply Med_intro; eauto.
    - now rewrite El.
    - unfold ok_medial. apply orb_true_iff. right. unfold check.
      destruct (ehint (env_of locs sd) (length locs)) as [s|] eqn:Eh; [|apply orb_true_r].
      destruct (Hh _ _ Eh) as (Hs & Ht & Hn). rewrite nth_error_app2 in Hn by (rewrite map_length; lia).
      rewrite map_length, Hlen, Nat.sub_diag in Hn. injection Hn as <-.
      apply orb_true_iff. right. unfold first_of. now rewrite Nat.eqb_refl.
  Qed.

  Lemma med_accepted : forall locs sd t,
    eMed (env_of locs sd) d0 0 (length locs) t -> accepted locs t.
  Proof.
    intros locs sd t H. destruct HP. destruct sh_root_rule as (r & Hr & El & Er).
    destruct (proj1 (proj2 (proj2 (chart_sound R nsyms root _ _ FI FO _ _ _))) _ _ _ _ H)
      as (r' & B & C & Hr' & Er' & Hpt & Hrd & Hc).
    rewrite Hr in Hr'. injection Hr' as <-. rewrite Er in Er'. injection Er' as <- <-. split; [auto|]. split; auto.
  Qed.

  (** a run: out of fuel, or exact *)
  Theorem shaped_run_rm : forall rm, remove_ok rm -> forall (Z : sym -> Prop) st locs, fresh Z st -> (forall s, Z s -> s <> root) ->
    locs_ok nsyms nall locs -> locs <> [] ->
    forall fuel, steps P g rm fuel locs st = NoFuel \/ exists b st' (sd : nat -> sym -> Prop),
      steps P g rm fuel locs st = Ret (b, st') /\
      (b = true <-> forall j, j < length locs -> alive (env_of locs sd) (S j)) /\
      (forall j s, sd (S j) s -> Z s) /\ (forall s, ~ sd 0 s) /\
      rows_fine R nsyms root st' /\
      (b = true -> r_hint st' = None /\ exists pos, Inv (env_of locs sd) Z (length locs) pos st') /\
      (b = true -> exists o, finished_node free_forest g st' = Ret o /\
         (o = None -> forall t, ~ eMed (env_of locs sd) d0 0 (length locs) t) /\
         (forall T, o = Some T -> (exists ts, den T ts) /\
            forall ts, den T ts -> exists t, ts = [t] /\ eMed (env_of locs sd) d0 0 (length locs) t)).
  Proof.
    intros rm Hrm Z st locs Hf HZ Hok Hne fuel. pose proof HP as HP'. destruct HP'.
    destruct sh_root_rule as (r & Hr & El & Er). destruct g_facts as (Es & _ & _ & Edb & _).
    destruct (steps_any P g R nsyms nall FI FO root Hleo sh_wf tok rm
        Hrm fuel st Z no_seed Hf locs Hok)
      as [Hno|(n & b & st' & sd & pos & Hnf & Hsd0 & HsdZ & Hrun & Hb & Hfl & Hinv)]; [left; exact Hno|right].
    exists b, st', sd.
    assert (HsdR : forall j s, sd (S j) s -> s <> root) by (intros; eauto).
    split; [rewrite Hrun; destruct (Nat.ltb_spec fuel n); [lia|reflexivity]|].
    split; [auto|]. split; [auto|]. split. { intros s X. apply Hsd0 in X. exact X. }
    split.
    { destruct b.
      - destruct (Hinv eq_refl) as (HI & Hp0 & _).
        exact (Inv_rows_fine P g R nsyms FI FO root sh_root_range Es sh_root_top (env_of locs sd) Z _ pos st' HZ HsdR Hp0 HI).
      - destruct (Hfl eq_refl) as (l0 & k0 & pos0 & st1 & HI & Hp0 & Ep).
        unfold rows_fine. rewrite Ep.
        exact (Inv_rows_fine P g R nsyms FI FO root sh_root_range Es sh_root_top (env_of l0 sd) Z _ pos0 st1 HZ HsdR Hp0 HI). }
    split.
    { intros ->. destruct (Hinv eq_refl) as (HI & Hp0 & Hh). split; eauto. }
    intros ->. destruct (Hinv eq_refl) as (HI & Hp0 & _).
    destruct (finished_spec P g R nsyms nall FI FO root sh_wf sh_root_range Es sh_root_top d0 r g0 (w_eof w) Edb Hr Er El sh_eof_min
                _ _ _ _ _ HI) as (o & Eo & Hn & Hs); auto.
    { destruct locs; [congruence|simpl; lia]. }
    exists o. split; [auto|]. split; [|auto]. intros Ho t. now apply Hn.
  Qed.


  Theorem shaped_run : forall (Z : sym -> Prop) st locs, fresh Z st -> (forall s, Z s -> s <> root) ->
    locs_ok nsyms nall locs -> locs <> [] ->
    forall fuel, feed_all free_forest P g fuel locs st = NoFuel \/ exists b st' (sd : nat -> sym -> Prop),
      feed_all free_forest P g fuel locs st = Ret (b, st') /\
      (b = true <-> forall j, j < length locs -> alive (env_of locs sd) (S j)) /\
      (forall j s, sd (S j) s -> Z s) /\ (forall s, ~ sd 0 s) /\
      rows_fine R nsyms root st' /\
      (b = true -> r_hint st' = None /\ exists pos, Inv (env_of locs sd) Z (length locs) pos st') /\
      (b = true -> exists o, finished_node free_forest g st' = Ret o /\
         (o = None -> forall t, ~ eMed (env_of locs sd) d0 0 (length locs) t) /\
         (forall T, o = Some T -> (exists ts, den T ts) /\
            forall ts, den T ts -> exists t, ts = [t] /\ eMed (env_of locs sd) d0 0 (length locs) t)).
  Proof.
    intros Z st locs Hf HZ Hok Hne fuel. rewrite feed_all_steps.
    exact (shaped_run_rm (remove_unreachable_sets P) (remove_spec P Hleo) Z st locs Hf HZ Hok Hne fuel).
  Qed.
End Run.

Section Wrap.
  Variables (c : pcfg) (nsyms : nat) (w : wrapped_root) (d0 : nat) (g0 : sym).
  Hypothesis HP : shaped c nsyms w d0 g0.
  Notation R := (c_rules c).

  Lemma terminal_derives : forall s x, terminal R s -> derives R s x -> x = [s].
  Proof. intros s x Ht H. inversion H as [|r ? Hin]; subst; auto. now elim (Ht r Hin). Qed.

  Lemma root_not_terminal : ~ terminal R (w_root w).
  Proof.
    intros H. destruct HP. destruct sh_root_rule as (r & Hr & El & _).
    apply (H r); [eapply nth_error_In; eauto|auto].
  Qed.

  Lemma derives_seq2_inv : forall A B x, derives_seq R [A; B] x ->
    exists u v, x = u ++ v /\ derives R A u /\ derives R B v.
  Proof.
    intros A B x H. inversion H as [|? ? w1 w2 H1 H2]; subst. inversion H2 as [|? ? w3 w4 H3 H4]; subst.
    inversion H4; subst. rewrite app_nil_r. eauto.
  Qed.

  Lemma derives_seq1_inv : forall A x, derives_seq R [A] x -> derives R A x.
  Proof. intros A x H. inversion H as [|? ? w1 w2 H1 H2]; subst. inversion H2; subst. now rewrite app_nil_r. Qed.

  Lemma root_inv : forall x, derives R (w_root w) x -> x = [w_root w] \/ exists u, x = u ++ [w_eof w] /\ derives R g0 u.
  Proof.
    intros x H. destruct HP. destruct sh_root_rule as (r & Hr & El & Er).
    inversion H as [|r' ? Hin Hs El']; subst; auto. right.
    destruct (In_nth_error _ _ Hin) as (d & Hd). pose proof (sh_root_only _ _ Hd El') as ->.
    rewrite Hr in Hd. injection Hd as <-. rewrite Er in Hs. apply derives_seq2_inv in Hs.
    destruct Hs as (u & v & -> & Hu & Hv). apply terminal_derives in Hv; auto. subst v. eauto.
  Qed.

  Lemma g0_inv : forall x, derives R g0 (w_sof w :: x) -> sentence c w g0 x.
  Proof.
    intros x H. destruct HP. inversion H as [|r y Hin Hs El]; subst; [congruence|].
    destruct (sh_g0_rules r Hin eq_refl) as [Er|Er]; rewrite Er in Hs.
    - apply derives_seq2_inv in Hs. destruct Hs as (u & v & E & Hu & Hv). apply terminal_derives in Hu; auto.
      subst u. injection E as ->. right. split; [eauto|auto].
    - apply derives_seq1_inv in Hs. apply terminal_derives in Hs; auto. injection Hs as ->. left. split; eauto.
  Qed.

End Wrap.

Section Facts.
  Variable P : perf.
  Variables (c : pcfg) (nsyms : nat) (w : wrapped_root) (d0 : nat) (g0 : sym).
  Hypothesis HP : shaped c nsyms w d0 g0.
  Notation R := (c_rules c).
  Notation nall := (c_num_syms c).
  Notation root := (w_root w).

  Lemma hinted_ok : forall use xs, (forall s v, In (s, v) xs -> s < nsyms) -> locs_ok nsyms nall (hinted use 0 xs).
  Proof.
    intros use xs H l Hl. apply In_nth_error in Hl. destruct Hl as [k Hk]. rewrite hinted_nth in Hk. unfold sym in *.
    destruct (nth_error xs k) as [x|] eqn:Ex; [|discriminate]. apply (f_equal (fun o => match o with Some l => l | None => l end)) in Hk. cbv beta iota in Hk. rewrite <- Hk. cbn [l_hint l_toks]. split.
    - destruct (use (0 + k)); [|exact I].
      destruct (nth_error xs (S k)) as [[s v]|] eqn:E; [|exact I]. cbn. apply (H s v). eapply nth_error_In. exact E.
    - intros s v [->|[]]. pose proof (sh_le _ _ _ _ _ HP).
      assert (s < nsyms); [|lia]. apply (H s v). eapply nth_error_In; eauto.
  Qed.

  Lemma accepted_hinted : forall use v0 xs,
    (exists t, accepted c g0 (hinted use 0 ((w_sof w, v0) :: xs)) t) <-> sentence c w g0 (map fst xs).
  Proof.
    intros use v0 xs. set (ys := (w_sof w, v0) :: xs). split.
    - intros (t & Hpt & Hrd & _). rewrite hinted_length in Hrd.
      pose proof (reads_single _ ys 0 (hinted_W use ys no_seed) _ _ Hrd eq_refl) as Hy.
      apply (g0_inv c nsyms w d0 g0 HP). change (w_sof w :: map fst xs) with (map fst ys). rewrite <- Hy.
      now apply tree_derives.
    - intros Hs. apply sentence_g0 in Hs. change (w_sof w :: map fst xs) with (map fst ys) in Hs.
      destruct (proj1 (derives_tree R) _ _ Hs ys eq_refl) as (t & Ht & Hy).
      exists t. split; [auto|]. split.
      + rewrite hinted_length, Hy. apply (reads_self _ ys 0). intros k x Hk. rewrite hinted_W with (x := x); [simpl; auto|auto].
      + eapply cok_all; eauto. intros. apply hinted_keep.
  Qed.

  Lemma truthful_hinted : forall use v0 xs t, (forall s v, In (s, v) xs -> s < nsyms /\ terminal R s) ->
    accepted c g0 (hinted use 0 ((w_sof w, v0) :: xs)) t -> truthful c nsyms w (hinted use 0 ((w_sof w, v0) :: xs)) t.
  Proof.
    intros use v0 xs t Hx (Hpt & Hrd & _) j s Hh. set (ys := (w_sof w, v0) :: xs) in *.
    rewrite hinted_length in Hrd.
    pose proof (reads_single _ ys 0 (hinted_W use ys no_seed) _ _ Hrd eq_refl) as Hy.
    apply hinted_hint in Hh. destruct Hh as (v & Hn).
    assert (X : s < nsyms /\ terminal R s).
    { apply nth_error_In in Hn. destruct Hn as [E|Hn]; [injection E as <- <-; destruct HP; auto|]. eapply Hx; eauto. }
    split; [apply X|]. split; [apply X|]. rewrite Hy, nth_error_app1.
    - rewrite nth_error_map, Hn. reflexivity.
    - rewrite map_length. apply nth_error_Some. unfold sym in *. congruence.
  Qed.
End Facts.

