(** SessionProofs: facts about arbitrary call sequences. *)
From Coq Require Import List Arith Bool Lia Relations.
From Verif Require Import Base BaseProofs Vec2d Vec2dProofs Item Heap Grammar BitMatrix DefaultGrammar Forest ForestSpec
  Recognizer Session Chart ChartFacts Tables Core1 Core3 Core6 Sim.
Import ListNotations.
Local Open Scope res_scope.

Section Calls.
  Context {F1 N1 F2 N2 : Type}.
  Variable fo1 : forest_ops F1 N1.
  Variable fo2 : forest_ops F2 N2.
  Variable J : phase -> F1 -> F2 -> Prop.
  Variable Q : F1 -> F2 -> N1 -> N2 -> Prop.
  Hypothesis HS : fsim fo1 fo2 J Q.
  Variable P : perf.
  Variable g : dgrammar.
  Notation srel := (srel J Q).

  Definition arel {A} (x : A * rstate F1 N1) (y : A * rstate F2 N2) : Prop :=
    fst x = fst y /\ srel Idle (snd x) (snd y).

  Lemma arel_ret : forall A (a : A) s1 s2, srel Idle s1 s2 -> rres arel (Ret (a, s1)) (Ret (a, s2)).
  Proof. intros. apply rres_ret. split; auto. Qed.

  Lemma arel_unit : forall A (a : A) x y, rres (srel Idle) x y ->
    rres arel (st <- x ;; Ret (a, st)) (st <- y ;; Ret (a, st)).
  Proof. intros. eapply rres_bind; eauto. intros. now apply arel_ret. Qed.

  Lemma arel_obs : forall A B (f : A -> B) x y s1 s2, rres eq x y -> srel Idle s1 s2 ->
    rres arel (a <- x ;; Ret (f a, s1)) (a <- y ;; Ret (f a, s2)).
  Proof. intros. eapply rres_bind; eauto. intros a ? <-. now apply arel_ret. Qed.

  Lemma sim_predicted : forall s1 s2, srel Idle s1 s2 -> rres eq (predicted_symbols s1) (predicted_symbols s2).
  Proof.
    intros s1 s2 Hs. unfold predicted_symbols. rewrite <- (rel_earleme _ _ _ _ _ Hs).
    replace (r_predicted s2) with (r_predicted s1) by apply Hs. apply rres_same.
  Qed.

  Lemma sim_medial : forall s1 s2, srel Idle s1 s2 ->
    rres (Forall2 (irel (Q (r_forest s1) (r_forest s2)))) (medial_items s1) (medial_items s2).
  Proof.
    intros s1 s2 Hs. unfold medial_items. rewrite <- (rel_earleme _ _ _ _ _ Hs).
    eapply rres_bind; [apply rres_same|]. intros e ? <-. apply rres_v_index, Hs.
  Qed.

  Lemma mapM_eq : forall A B C (T : A -> B -> Prop) (f : A -> res C) h l l',
    (forall a b, T a b -> rres eq (f a) (h b)) -> Forall2 T l l' -> rres eq (mapM f l) (mapM h l').
  Proof.
    intros A B C T f h l l' K H. eapply rres_weaken; [|eapply rres_mapM; eauto].
    intros x y E. induction E; subst; auto.
  Qed.

  Lemma sim_events : forall s1 s2, srel Idle s1 s2 -> rres eq (events g s1) (events g s2).
  Proof.
    intros s1 s2 Hs. unfold events. destruct (g_events g) as [ep ef].
    eapply rres_bind; [apply sim_predicted; eauto|]. intros syms ? <-.
    eapply rres_bind; [apply rres_same|]. intros a ? <-.
    eapply rres_bind; [apply sim_medial; eauto|]. intros l l' Hl.
    eapply rres_bind; [eapply mapM_eq; [|exact Hl]|].
    - intros x y (E & _). rewrite E. apply rres_same.
    - intros b ? <-. now apply rres_ret.
  Qed.

  Lemma sim_call : forall fuel c s1 s2, srel Idle s1 s2 ->
    rres arel (run_call fo1 P g fuel c s1) (run_call fo2 P g fuel c s2).
  Proof.
    intros fuel c s1 s2 Hs. destruct c; cbn [run_call].
    - apply arel_ret. now apply sim_begin_earleme.
    - apply arel_ret. now apply srel_hint.
    - apply arel_ret. now apply srel_hint.
    - apply arel_unit. eapply sim_scan; eauto.
    - unfold end_earleme. eapply rres_bind; [eapply sim_end; eauto|]. intros [b1 t1] [b2 t2] [E H]. cbn [fst snd] in *.
      subst b2. now apply arel_ret.
    - rewrite <- (sim_next_sum _ _ g _ _ _ Hs). apply arel_obs; auto. apply rres_same.
    - rewrite <- (sim_next_sum _ _ g _ _ _ Hs). destruct (next_sum g s1) as [[[o l]|]| |] eqn:E; cbn [bind]; try (simpl; auto; fail).
      + apply arel_unit. eapply sim_complete_entire_sum; eauto.
      + now apply arel_ret.
    - rewrite <- (sim_next_sum _ _ g _ _ _ Hs). destruct (next_sum g s1) as [[[o l]|]| |] eqn:E; cbn [bind]; try (simpl; auto; fail).
      + apply arel_unit. unfold skip_entire_sum. replace (length (r_complete s2)) with (length (r_complete s1)).
        * now apply sim_skip_loop.
        * destruct Hs as [_ (_ & _ & _ & _ & X)]. eapply Forall2_length2; eauto.
      + now apply arel_ret.
    - apply arel_unit. eapply sim_complete_sums; eauto.
    - apply arel_unit. now apply sim_advance.
    - apply arel_unit. now apply sim_reset.
    - apply arel_obs; auto. eapply sim_is_finished; eauto.
    - apply arel_obs; auto. eapply sim_exhausted; eauto.
    - rewrite <- (rel_earleme _ _ _ _ _ Hs). now apply arel_ret.
    - apply arel_obs; auto. now apply sim_predicted.
    - eapply rres_bind; [apply sim_medial; eauto|]. intros l l' Hl.
      replace (map (fun it => (it_dot it, it_origin it)) l') with (map (fun it => (it_dot it, it_origin it)) l).
      + now apply arel_ret.
      + induction Hl as [|a b l l' (E1 & E2 & _) _ IH]; simpl; auto. now rewrite E1, E2, IH.
    - apply arel_obs; auto. unfold trace, g_trace. rewrite <- (rel_earleme _ _ _ _ _ Hs).
      eapply rres_bind; [apply rres_same|]. intros e ? <-.
      eapply rres_bind; [apply sim_predicted; eauto|]. intros syms ? <-.
      eapply rres_bind; [apply rres_same|]. intros a ? <-.
      eapply rres_bind; [apply sim_medial; eauto|]. intros l l' Hl.
      eapply rres_bind; [eapply mapM_eq; [|exact Hl]|].
      + intros x y (E1 & E2 & _). rewrite E1, E2. apply rres_same.
      + intros b ? <-. now apply rres_ret.
    - apply arel_obs; auto. now apply sim_events.
    - apply arel_obs; auto. unfold minimal_distances. eapply rres_bind; [apply sim_events; eauto|]. intros l ? <-.
      now apply rres_ret.
    - apply arel_obs; auto. unfold expected_terminals. eapply rres_bind; [apply sim_medial; eauto|]. intros l l' Hl.
      eapply mapM_eq; [|exact Hl]. intros x y (E1 & _). rewrite E1. apply rres_same.
  Qed.

  Lemma sim_calls : forall fuel cs s1 s2, srel Idle s1 s2 ->
    rres arel (run_calls fo1 P g fuel cs s1) (run_calls fo2 P g fuel cs s2).
  Proof.
    intros fuel. induction cs as [|c cs IH]; intros s1 s2 Hs; cbn [run_calls].
    - now apply arel_ret.
    - eapply rres_bind; [apply sim_call; eauto|]. intros [a1 t1] [a2 t2] [E Ht]. cbn [fst snd] in *. subst a2.
      eapply rres_bind; [apply IH; eauto|]. intros [l1 u1] [l2 u2] [E Hu]. cbn [fst snd] in *. subst l2.
      now apply arel_ret.
  Qed.

  Lemma sim_session : forall fuel f1 f2 cs, J Idle f1 f2 ->
    rres arel (session fo1 P g fuel f1 cs) (session fo2 P g fuel f2 cs).
  Proof.
    intros fuel f1 f2 cs HJ. unfold session. eapply rres_bind; [apply (sim_new J Q g f1 f2 HJ)|].
    intros. now apply sim_calls.
  Qed.
End Calls.

(** both directions give equality *)
Lemma rres_both : forall A (x y : res A), rres eq x y -> rres eq y x -> x = y.
Proof.
  intros A [a| |] [b| |] H1 H2; simpl in *; auto; try discriminate;
    try (destruct H1 as (? & ? & ?); congruence); try (destruct H2 as (? & ? & ?); congruence).
Qed.

Lemma answers_independent : forall F1 N1 F2 N2 (fo1 : forest_ops F1 N1) (fo2 : forest_ops F2 N2) ok1 ok2 f1 f2 P g fuel cs,
  usable fo1 ok1 -> usable fo2 ok2 -> ok1 Idle f1 -> ok2 Idle f2 ->
  answers fo1 P g fuel f1 cs = answers fo2 P g fuel f2 cs.
Proof.
  intros F1 N1 F2 N2 fo1 fo2 ok1 ok2 f1 f2 P g fuel cs U1 U2 H1 H2. apply rres_both; unfold answers.
  - eapply rres_bind; [eapply (sim_session _ _ _ _ (usable_sim _ _ _ _ _ _ _ _ U1 U2)); auto|].
    intros [l1 t1] [l2 t2] [E _]. cbn [fst] in E. subst. now apply rres_ret.
  - eapply rres_bind; [eapply (sim_session _ _ _ _ (usable_sim _ _ _ _ _ _ _ _ U2 U1)); auto|].
    intros [l1 t1] [l2 t2] [E _]. cbn [fst] in E. subst. now apply rres_ret.
Qed.

(** *** The forest stays usable *)
Lemma srel_self : forall F N (fo : forest_ops F N) (ok : phase -> F -> Prop) (st : rstate F N), ok Idle (r_forest st) ->
  srel (fun ph f1 f2 => ok ph f1 /\ ok ph f2) (fun _ _ _ _ => True) Idle st st.
Proof.
  intros F N fo ok st H. split; [auto|].
  assert (X : forall l : list (item N), Forall2 (irel (fun _ _ => True)) l l).
  { induction l; constructor; auto. split; auto. }
  split; [auto|]. split; [auto|]. split; [split; auto|]. split; [split; auto|auto].
Qed.

Lemma calls_usable : forall F N (fo : forest_ops F N) ok P g fuel cs st l st', usable fo ok -> ok Idle (r_forest st) ->
  run_calls fo P g fuel cs st = Ret (l, st') -> ok Idle (r_forest st').
Proof.
  intros F N fo ok P g fuel cs st l st' U H E.
  pose proof (sim_calls _ _ _ _ (usable_sim _ _ _ _ _ _ _ _ U U) P g fuel cs st st (srel_self _ _ fo ok st H)) as X.
  rewrite E in X. destruct X as (y & _ & _ & [[X _] _]). exact X.
Qed.
