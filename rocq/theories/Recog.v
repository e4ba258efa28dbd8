(** Recog: what the recognizer accepts, over the symbolic forest. *)
From Coq Require Import List Arith Bool Lia Relations.
From Verif Require Import Base BaseProofs Vec2d Item Grammar DefaultGrammar Forest Recognizer Drive
  Spec SpecFacts Chart ChartFacts ChartSpec CfgSpec Tables TablesProofs Den Core1 Core2 Core3 Core4 Core5 Core6.
Import ListNotations.
Local Open Scope res_scope.

(** positions crossed by a completed rule are alive *)
Lemma comp_alive : forall R nsyms root W hint FIRST FOLLOW la keep seed,
  let alive_at := alive_at R nsyms root W hint FIRST FOLLOW la keep seed in
  (forall s i j t, Chart.Sym R nsyms root W hint FIRST FOLLOW la keep seed s i j t ->
     (exists v, t = Leaf s v /\ j = S i) \/ forall k, i < k -> k <= j -> alive_at k) /\
  (forall d i j ts, Chart.Comp R nsyms root W hint FIRST FOLLOW la keep seed d i j ts ->
     forall k, i < k -> k <= j -> alive_at k) /\
  (forall d i j t, Chart.Med R nsyms root W hint FIRST FOLLOW la keep seed d i j t ->
     forall k, i < k -> k <= j -> alive_at k) /\
  (forall s j, Chart.Pred R nsyms root W hint FIRST FOLLOW la keep seed s j -> True).
Proof.
  intros R nsyms root W hint FIRST FOLLOW la keep seed alive_at. apply chart_ind; intros; auto.
  - left. eauto.
  - destruct (Nat.eq_dec k j) as [->|]; [left; eexists; eexists; eexists; eapply Comp_unary; eauto|].
    destruct H as [(v & _ & ->)|H]; [lia|]. apply H; lia.
  - destruct (Nat.eq_dec k j) as [->|]; [left; eexists; eexists; eexists; eapply Comp_binary; eauto|].
    destruct (le_lt_dec k m) as [|].
    + apply H; lia.
    + destruct H0 as [(v & _ & ->)|H0]; [lia|]. apply H0; lia.
  - destruct (Nat.eq_dec k j) as [->|]; [right; eexists; eexists; eexists; eapply Med_intro; eauto|].
    destruct H as [(v & _ & ->)|H]; [lia|]. apply H; lia.
Qed.

Section Recog.
  Variable P : perf.
  Variable c : pcfg.
  Variable nsyms : nat.
  Variable w : wrapped_root.
  Variable d0 : nat.
  Variable g0 : sym.
  Variable fuel0 : nat.
  Variable maps : mapping.
  Variable nulling : list prule.
  Variables first follow : list (sym * list sym).
  Variable g : dgrammar.
  Hypothesis Hleo : LEO P = false.
  Hypothesis HP : processed c nsyms w d0 g0.
  Hypothesis Hg : from_processed_grammars fuel0 c maps nulling first follow = Ret g.

  Notation R := (c_rules c).
  Notation nall := (c_num_syms c).
  Notation root := (w_root w).
  Notation FI := (first_of first).
  Notation FO := (follow_of follow).
  Notation eSym := (Core3.eSym P R nsyms FI FO root).
  Notation eComp := (Core3.eComp P R nsyms FI FO root).
  Notation eMed := (Core3.eMed P R nsyms FI FO root).
  Notation ePred := (Core3.ePred P R nsyms FI FO root).
  Notation Inv := (Core4.Inv P R nsyms FI FO root).
  Notation alive := (Core4.alive P R nsyms FI FO root).
  Notation state := (rstate (list (nat * fnode)) fnode).

  Lemma tok : tables_ok g R nsyms nall FI FO.
  Proof. destruct HP. eapply tables_correct; eauto. Qed.

  Lemma g_facts : g_start_sym g = root /\ g_sof_sym g = w_sof w /\ g_eof_sym g = w_eof w /\
    g_dot_before_eof g = d0 /\ g_maps g = maps /\ g_original_start_sym g = w_inner w /\
    g_has_trivial_derivation g = match nulling with [] => false | _ => true end.
  Proof.
    pose proof (from_processed_inv _ _ _ _ _ _ _ Hg) as
      (gens & w' & dbe & by0 & comps & Egens & Ew & Edbe & Eby & Es & Eo & Esof & Eeof & Edb & _ & _ & Et & Em & _).
    destruct HP. rewrite pr_wrapped in Ew. injection Ew as <-.
    assert (dbe = d0); [|subst; repeat (split; [solve [auto]|]); auto].
    destruct pr_root_rule as (r & Hr & El & Er). clear -Edbe Hr Er pr_eof_min.
    assert (X : forall l i dbe, position (fun r => eqb_opt (rhs1 r) (Some (w_eof w))) l = Some dbe ->
      (forall d, nth_error l d = nth_error R (i + d)) ->
      exists r', nth_error R (i + dbe) = Some r' /\ rhs1 r' = Some (w_eof w)).
    { induction l as [|a l IH]; intros i dbe' H Hl; simpl in H; [discriminate|].
      destruct (eqb_opt (rhs1 a) (Some (w_eof w))) eqn:Ea.
      - injection H as <-. exists a. rewrite <- Hl. split; [reflexivity|]. unfold eqb_opt in Ea.
        destruct (rhs1 a); [|discriminate]. apply Nat.eqb_eq in Ea. congruence.
      - destruct (position _ l) as [k|] eqn:Ep; [|discriminate]. injection H as <-.
        destruct (IH (S i) k eq_refl) as (r' & Hr' & E).
        { intros d. specialize (Hl (S d)). simpl in Hl. rewrite Hl. f_equal. lia. }
        exists r'. split; [|auto]. rewrite <- Hr'. f_equal. simpl. lia. }
    destruct (X R 0 dbe Edbe) as (r' & Hr' & Er'); [reflexivity|].
    destruct (pr_eof_min _ _ _ Hr' Er') as [X1|X1]; [lia|auto].
  Qed.

  Lemma env_chart : forall locs sd s i j t,
    eSym (env_of locs sd) s i j t <->
    Chart.Sym R nsyms root (eW (env_of locs sd)) (ehint (env_of locs sd)) FI FO (LOOKAHEAD P)
       (ekeep (env_of locs sd)) (eseed (env_of locs sd)) s i j t.
  Proof. reflexivity. Qed.

  (** ** Runs from a new or reset recognizer *)
  Definition fresh (Z : sym -> Prop) (st : state) : Prop := Inv (env_of [] no_seed) Z 0 [0] st.

  Lemma root_pr : root < nsyms. Proof. now destruct HP. Qed.

  Lemma new_fresh : exists st0, r_new g [] = Ret st0 /\ fresh (fun _ => False) st0 /\ r_hint st0 = None /\ r_forest st0 = [].
  Proof.
    destruct g_facts as (Es & _).
    destruct (r_new_spec P g R nsyms nall FI FO root (proj1 (conj tok I)) root_pr Es []) as (st0 & A & B & C & D).
    exists st0. auto.
  Qed.

  (** what happens in a whole run *)
  Definition accepted (locs : list location) (t : tree) : Prop :=
    let E := env_of locs no_seed in
    parse_tree R g0 t /\ reads (eW E) 0 (yield t) (length locs) /\ constituents_ok R (ekeep E) 0 t.

  (** hints name the next symbol of the tokens read, followed by eof *)
  Definition truthful (locs : list location) (t : tree) : Prop :=
    forall j s, ehint (env_of locs no_seed) j = Some s ->
      s < nsyms /\ terminal R s /\ nth_error (map fst (yield t) ++ [w_eof w]) j = Some s.

  Hypothesis HFI : first_sets_cover c first.
  Hypothesis HFO : follow_sets_cover c root follow.

  Lemma in_sets_true : forall sets A t, (exists l, In (A, l) sets /\ In t l) -> in_sets sets A t = true.
  Proof.
    intros sets A t (l & H1 & H2). unfold in_sets. apply existsb_exists. exists (A, l). split; [auto|]. cbn.
    rewrite Nat.eqb_refl. apply existsb_exists. exists t. split; [auto|apply Nat.eqb_refl].
  Qed.

  Lemma FI_complete : first_complete R nsyms FI.
  Proof.
    intros A t v HA Ht Hterm Hd. unfold first_of. inversion Hd as [s E1 E2|r w' Hin Hs E1]; subst.
    - now rewrite Nat.eqb_refl.
    - apply orb_true_iff. right. apply in_sets_true. eapply HFI; eauto.
  Qed.

  Lemma FO_complete : follow_complete R root nsyms FO.
  Proof. intros r t u v Hin Hl Ht Hterm Hd. apply in_sets_true. eapply HFO; eauto. Qed.

  Lemma g0_range : g0 < nall.
  Proof.
    destruct HP. destruct pr_root_rule as (r & Hr & _ & Er).
    apply (wf_rhs_range _ _ _ pr_wf r); [eapply nth_error_In; eauto|]. rewrite Er. simpl; auto.
  Qed.

  Lemma accepted_med : forall locs sd t, accepted locs t -> truthful locs t ->
    eMed (env_of locs sd) d0 0 (length locs) t.
  Proof.
    intros locs sd t (Hpt & Hrd & Hc) Hh. destruct HP. destruct pr_root_rule as (r & Hr & El & Er).
    assert (Hlen : length locs = length (yield t)) by (apply reads_length in Hrd; lia).
    assert (Htop : topr R nsyms root root) by now apply top_here.
    assert (HPr : ePred (env_of locs sd) root 0) by (apply Pred_start, rt_refl).
    assert (Hd : derives R root [g0; w_eof w]).
    { rewrite <- El. apply derives_rule; [eapply nth_error_In; eauto|]. rewrite Er. apply derives_seq_self. }
    assert (Hh0 : forall j s, ehint (env_of locs sd) j = Some s -> s < nsyms /\ terminal R s).
    { intros j s X. destruct (Hh j s X) as (A & B & _). auto. }
    assert (HS : eSym (env_of locs sd) g0 0 (length locs) t).
    { rewrite Hlen.
      apply (in_chart_sub R nsyms nall root (eW (env_of locs sd)) (ehint (env_of locs sd)) FI FO (LOOKAHEAD P)
         (ekeep (env_of locs sd)) (eseed (env_of locs sd))
         (map fst (yield t) ++ [w_eof w]) (length locs)) with (B := g0) (t := t) (r := r) (T := root)
          (u := @nil sym) (v := [w_eof w]); auto.
      - apply chart_complete with (1 := pr_wf); auto using FI_complete, FO_complete.
        intros j s _ X. apply (Hh j s X).
      - eapply nth_error_In; eauto.
      - now rewrite Er.
      - now rewrite El.
      - apply g0_range.
      - simpl. lia.
      - simpl. rewrite <- Hlen. auto. }
    eapply Med_intro; eauto.
    - now rewrite El.
    - unfold ok_medial. apply orb_true_iff. right. unfold check.
      destruct (ehint (env_of locs sd) (length locs)) as [s|] eqn:Eh; [|apply orb_true_r].
      destruct (Hh _ _ Eh) as (Hs & Ht & Hn). rewrite nth_error_app2 in Hn by (rewrite map_length; lia).
      rewrite map_length, Hlen, Nat.sub_diag in Hn. injection Hn as <-.
      apply orb_true_iff. right. unfold first_of. now rewrite Nat.eqb_refl.
  Qed.

  Lemma med_accepted : forall locs sd t,
    eMed (env_of locs sd) d0 0 (length locs) t -> accepted locs t.
  Proof.
    intros locs sd t H. destruct HP. destruct pr_root_rule as (r & Hr & El & Er).
    destruct (proj1 (proj2 (proj2 (chart_sound R nsyms root _ _ FI FO _ _ _))) _ _ _ _ H)
      as (r' & B & C & Hr' & Er' & Hpt & Hrd & Hc).
    rewrite Hr in Hr'. injection Hr' as <-. rewrite Er in Er'. injection Er' as <- <-. split; [auto|]. split; auto.
  Qed.

  Lemma med_alive : forall locs sd t, eMed (env_of locs sd) d0 0 (length locs) t ->
    forall j, j < length locs -> alive (env_of locs sd) (S j).
  Proof.
    intros locs sd t H j Hj.
    destruct (proj1 (proj2 (proj2 (comp_alive R nsyms root (eW (env_of locs sd)) (ehint (env_of locs sd)) FI FO (LOOKAHEAD P)
         (ekeep (env_of locs sd)) (eseed (env_of locs sd))))) _ _ _ _ H (S j)) as [X|X]; try lia.
    - left. exact X.
    - right. exact X.
  Qed.

  (** the outcome of a run: [b] and, if [b], the finished node *)
  Theorem run_spec_rm : forall rm, remove_ok rm -> forall (Z : sym -> Prop) st locs, fresh Z st -> (forall s, Z s -> s <> root) ->
    locs_ok nsyms nall locs -> locs <> [] ->
    exists n b st' (sd : nat -> sym -> Prop),
      (forall fuel, steps P g rm fuel locs st = if fuel <? n then NoFuel else Ret (b, st')) /\
      (b = true <-> forall j, j < length locs -> alive (env_of locs sd) (S j)) /\
      (forall j s, sd (S j) s -> Z s) /\ (forall s, ~ sd 0 s) /\
      rows_fine R nsyms root st' /\
      (b = true -> r_hint st' = None /\ exists pos, Inv (env_of locs sd) Z (length locs) pos st') /\
      (b = true -> exists o, finished_node free_forest g st' = Ret o /\
         (o = None -> forall t, ~ eMed (env_of locs sd) d0 0 (length locs) t) /\
         (forall T, o = Some T -> (exists ts, den T ts) /\
            forall ts, den T ts -> exists t, ts = [t] /\ eMed (env_of locs sd) d0 0 (length locs) t)).
  Proof.
    intros rm Hrm Z st locs Hf HZ Hok Hne. pose proof HP as HP'. destruct HP'.
    destruct pr_root_rule as (r & Hr & El & Er). destruct g_facts as (Es & _ & _ & Edb & _).
    destruct (steps_exact P g R nsyms nall FI FO root Hleo pr_wf tok pr_acyclic rm
        Hrm st Z no_seed Hf locs Hok)
      as (n & b & st' & sd & pos & Hsd0 & HsdZ & Hrun & Hb & Hfl & Hinv).
    exists n, b, st', sd.
    assert (HsdR : forall j s, sd (S j) s -> s <> root) by (intros; eauto).
    split; [exact Hrun|].
    split; [auto|]. split; [auto|]. split. { intros s X. apply Hsd0 in X. exact X. }
    split.
    { destruct b.
      - destruct (Hinv eq_refl) as (HI & Hp0 & _).
        exact (Inv_rows_fine P g R nsyms FI FO root pr_root_range Es pr_root_top (env_of locs sd) Z _ pos st' HZ HsdR Hp0 HI).
      - destruct (Hfl eq_refl) as (l0 & k0 & pos0 & st1 & HI & Hp0 & Ep).
        unfold rows_fine. rewrite Ep.
        exact (Inv_rows_fine P g R nsyms FI FO root pr_root_range Es pr_root_top (env_of l0 sd) Z _ pos0 st1 HZ HsdR Hp0 HI). }
    split.
    { intros ->. destruct (Hinv eq_refl) as (HI & Hp0 & Hh). split; eauto. }
    intros ->. destruct (Hinv eq_refl) as (HI & Hp0 & _).
    destruct (finished_spec P g R nsyms nall FI FO root pr_wf pr_root_range Es pr_root_top d0 r g0 (w_eof w) Edb Hr Er El pr_eof_min
                _ _ _ _ _ HI) as (o & Eo & Hn & Hs); auto.
    { destruct locs; [congruence|simpl; lia]. }
    exists o. split; [auto|]. split; [|auto]. intros Ho t. now apply Hn.
  Qed.

  Theorem run_spec : forall (Z : sym -> Prop) st locs, fresh Z st -> (forall s, Z s -> s <> root) ->
    locs_ok nsyms nall locs -> locs <> [] ->
    exists n b st' (sd : nat -> sym -> Prop),
      (forall fuel, feed_all free_forest P g fuel locs st = if fuel <? n then NoFuel else Ret (b, st')) /\
      (b = true <-> forall j, j < length locs -> alive (env_of locs sd) (S j)) /\
      (forall j s, sd (S j) s -> Z s) /\ (forall s, ~ sd 0 s) /\
      rows_fine R nsyms root st' /\
      (b = true -> r_hint st' = None /\ exists pos, Inv (env_of locs sd) Z (length locs) pos st') /\
      (b = true -> exists o, finished_node free_forest g st' = Ret o /\
         (o = None -> forall t, ~ eMed (env_of locs sd) d0 0 (length locs) t) /\
         (forall T, o = Some T -> (exists ts, den T ts) /\
            forall ts, den T ts -> exists t, ts = [t] /\ eMed (env_of locs sd) d0 0 (length locs) t)).
  Proof.
    intros Z st locs Hf HZ Hok Hne.
    destruct (run_spec_rm (remove_unreachable_sets P) (remove_spec P Hleo) Z st locs Hf HZ Hok Hne)
      as (n & b & st' & sd & Hrun & H). exists n, b, st', sd. split; [|exact H].
    intros fuel. rewrite feed_all_steps. apply Hrun.
  Qed.

  (** the same for a recognizer that never drops a set *)
  Theorem run_spec_keeping : forall (Z : sym -> Prop) st locs, fresh Z st -> (forall s, Z s -> s <> root) ->
    locs_ok nsyms nall locs -> locs <> [] ->
    exists n b st' (sd : nat -> sym -> Prop),
      (forall fuel, feed_all_keeping_sets free_forest P g fuel locs st = if fuel <? n then NoFuel else Ret (b, st')) /\
      (b = true <-> forall j, j < length locs -> alive (env_of locs sd) (S j)) /\
      (forall j s, sd (S j) s -> Z s) /\ (forall s, ~ sd 0 s) /\
      rows_fine R nsyms root st' /\
      (b = true -> r_hint st' = None /\ exists pos, Inv (env_of locs sd) Z (length locs) pos st') /\
      (b = true -> exists o, finished_node free_forest g st' = Ret o /\
         (o = None -> forall t, ~ eMed (env_of locs sd) d0 0 (length locs) t) /\
         (forall T, o = Some T -> (exists ts, den T ts) /\
            forall ts, den T ts -> exists t, ts = [t] /\ eMed (env_of locs sd) d0 0 (length locs) t)).
  Proof.
    intros Z st locs Hf HZ Hok Hne.
    destruct (run_spec_rm (fun st => Ret st) keep_sets_ok Z st locs Hf HZ Hok Hne)
      as (n & b & st' & sd & Hrun & H). exists n, b, st', sd. split; [|exact H].
    intros fuel. rewrite feed_keeping_steps. apply Hrun.
  Qed.
End Recog.
