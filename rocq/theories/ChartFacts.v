(** ChartFacts: basic facts about the chart relations. *)
From Coq Require Import List Arith Bool Lia Relations.
From Verif Require Import Base Grammar DefaultGrammar Spec Chart.
Import ListNotations.

(** ** Positions increase *)
Section Bounds.
  Variable R : list prule.
  Variable nsyms : nat.
  Variable root : sym.
  Variable W : nat -> list (sym * nat).
  Variable hint : nat -> option sym.
  Variable FIRST FOLLOW : sym -> sym -> bool.
  Variable la : bool.
  Variable keep : nat -> sym -> bool.
  Variable seed : nat -> sym -> Prop.
  Notation Sym := (Sym R nsyms root W hint FIRST FOLLOW la keep seed).
  Notation Comp := (Comp R nsyms root W hint FIRST FOLLOW la keep seed).
  Notation Med := (Med R nsyms root W hint FIRST FOLLOW la keep seed).
  Notation Pred := (Pred R nsyms root W hint FIRST FOLLOW la keep seed).

  Lemma chart_bounds :
    (forall s i j t, Sym s i j t -> i < j) /\
    (forall d i j ts, Comp d i j ts -> i < j) /\
    (forall d i j t, Med d i j t -> i < j) /\
    (forall s j, Pred s j -> True).
  Proof. apply chart_ind; intros; auto; lia. Qed.

  Lemma Sym_lt : forall s i j t, Sym s i j t -> i < j.
  Proof. apply chart_bounds. Qed.
  Lemma Comp_lt : forall d i j t, Comp d i j t -> i < j.
  Proof. apply chart_bounds. Qed.
  Lemma Med_lt : forall d i j t, Med d i j t -> i < j.
  Proof. apply chart_bounds. Qed.

  Lemma Med_rule : forall d i j t, Med d i j t -> exists r B C, nth_error R d = Some r /\ p_rhs r = [B; C].
  Proof. intros d i j t H. inversion H; subst. eauto. Qed.
  Lemma Comp_rule : forall d i j t, Comp d i j t -> exists r, nth_error R d = Some r.
  Proof. intros d i j t H. inversion H; subst; eauto. Qed.

  Lemma Pred_pred : forall s s' j, Pred s j -> pred R nsyms s s' -> Pred s' j.
  Proof.
    intros s s' j H P. inversion H; subst.
    - apply Pred_start. eapply rt_trans; eauto.
    - eapply Pred_med; eauto. eapply rt_trans; eauto.
    - eapply Pred_seed; eauto. eapply rt_trans; eauto.
  Qed.

  (** If anything completes or advances at [S k], something does so directly from a
      scanned token. *)
  Lemma chart_from_scan : forall k,
    (forall s i j t, Sym s i j t -> j = S k ->
       (exists v, In (s, v) (W k) /\ i = k) \/ (exists d i ts, Comp d i (S k) ts)) /\
    (forall d i j ts, Comp d i j ts -> j = S k -> exists d i ts, Comp d i (S k) ts) /\
    (forall d i j t, Med d i j t -> True) /\
    (forall s j, Pred s j -> True).
  Proof.
    intros k. apply chart_ind; intros; auto; subst.
    - injection H as <-. left; eauto.
    - eexists _, _, _. eapply Comp_unary; eauto.
    - eexists _, _, _. eapply Comp_binary; eauto.
  Qed.
End Bounds.

(** ** The chart up to position [k] depends on the parameters up to [k] *)
Section Congruence.
  Variable R : list prule.
  Variable nsyms : nat.
  Variable root : sym.
  Variable FIRST FOLLOW : sym -> sym -> bool.
  Variable la : bool.
  Variables W1 W2 : nat -> list (sym * nat).
  Variables hint1 hint2 : nat -> option sym.
  Variables keep1 keep2 : nat -> sym -> bool.
  Variables seed1 seed2 : nat -> sym -> Prop.
  Variable k : nat.
  Hypothesis HW : forall j, j < k -> W1 j = W2 j.
  Hypothesis Hhint : forall j, j <= k -> hint1 j = hint2 j.
  Hypothesis Hkeep : forall j s, j <= k -> keep1 j s = keep2 j s.
  Hypothesis Hseed : forall j s, j <= k -> (seed1 j s <-> seed2 j s).
  Notation Sym1 := (Sym R nsyms root W1 hint1 FIRST FOLLOW la keep1 seed1).
  Notation Comp1 := (Comp R nsyms root W1 hint1 FIRST FOLLOW la keep1 seed1).
  Notation Med1 := (Med R nsyms root W1 hint1 FIRST FOLLOW la keep1 seed1).
  Notation Pred1 := (Pred R nsyms root W1 hint1 FIRST FOLLOW la keep1 seed1).
  Notation Sym2 := (Sym R nsyms root W2 hint2 FIRST FOLLOW la keep2 seed2).
  Notation Comp2 := (Comp R nsyms root W2 hint2 FIRST FOLLOW la keep2 seed2).
  Notation Med2 := (Med R nsyms root W2 hint2 FIRST FOLLOW la keep2 seed2).
  Notation Pred2 := (Pred R nsyms root W2 hint2 FIRST FOLLOW la keep2 seed2).

  Lemma chart_congr_1 :
    (forall s i j t, Sym1 s i j t -> j <= k -> Sym2 s i j t) /\
    (forall d i j ts, Comp1 d i j ts -> j <= k -> Comp2 d i j ts) /\
    (forall d i j t, Med1 d i j t -> j <= k -> Med2 d i j t) /\
    (forall s j, Pred1 s j -> j <= k -> Pred2 s j).
  Proof.
    apply chart_ind; intros.
    - apply Sym_scan. rewrite <- HW by lia. auto.
    - eapply Sym_group; eauto. rewrite <- Hkeep by lia. auto.
    - pose proof (Sym_lt _ _ _ _ _ _ _ _ _ _ _ _ _ _ s).
      eapply Comp_unary; eauto. apply H0; lia. rewrite <- Hhint by lia. auto.
    - pose proof (Sym_lt _ _ _ _ _ _ _ _ _ _ _ _ _ _ s).
      eapply Comp_binary; eauto. apply H; lia. rewrite <- Hhint by lia. auto.
    - pose proof (Sym_lt _ _ _ _ _ _ _ _ _ _ _ _ _ _ s).
      eapply Med_intro; eauto. apply H0; lia. rewrite <- Hhint by lia. auto.
    - now apply Pred_start.
    - eapply Pred_med; eauto.
    - eapply Pred_seed; eauto. apply Hseed; auto.
  Qed.
End Congruence.

Section Congruence2.
  Variable R : list prule.
  Variable nsyms : nat.
  Variable root : sym.
  Variable FIRST FOLLOW : sym -> sym -> bool.
  Variable la : bool.
  Variables W1 W2 : nat -> list (sym * nat).
  Variables hint1 hint2 : nat -> option sym.
  Variables keep1 keep2 : nat -> sym -> bool.
  Variables seed1 seed2 : nat -> sym -> Prop.
  Variable k : nat.
  Hypothesis HW : forall j, j < k -> W1 j = W2 j.
  Hypothesis Hhint : forall j, j <= k -> hint1 j = hint2 j.
  Hypothesis Hkeep : forall j s, j <= k -> keep1 j s = keep2 j s.
  Hypothesis Hseed : forall j s, j <= k -> (seed1 j s <-> seed2 j s).
  Let HW' : forall j, j < k -> W2 j = W1 j.
  Proof. intros; symmetry; auto. Qed.
  Let Hhint' : forall j, j <= k -> hint2 j = hint1 j.
  Proof. intros; symmetry; auto. Qed.
  Let Hkeep' : forall j s, j <= k -> keep2 j s = keep1 j s.
  Proof. intros; symmetry; auto. Qed.
  Let Hseed' : forall j s, j <= k -> (seed2 j s <-> seed1 j s).
  Proof. intros; symmetry; auto. Qed.
  Lemma Sym_congr : forall s i j t, j <= k ->
    (Sym R nsyms root W1 hint1 FIRST FOLLOW la keep1 seed1 s i j t <->
     Sym R nsyms root W2 hint2 FIRST FOLLOW la keep2 seed2 s i j t).
  Proof.
    intros s i j t Hj; split; intro H.
    - exact (proj1 (chart_congr_1 R nsyms root FIRST FOLLOW la W1 W2 hint1 hint2 keep1 keep2 seed1 seed2 k HW Hhint Hkeep Hseed) s i j t H Hj).
    - exact (proj1 (chart_congr_1 R nsyms root FIRST FOLLOW la W2 W1 hint2 hint1 keep2 keep1 seed2 seed1 k HW' Hhint' Hkeep' Hseed') s i j t H Hj).
  Qed.
  Lemma Comp_congr : forall s i j t, j <= k ->
    (Comp R nsyms root W1 hint1 FIRST FOLLOW la keep1 seed1 s i j t <->
     Comp R nsyms root W2 hint2 FIRST FOLLOW la keep2 seed2 s i j t).
  Proof.
    intros s i j t Hj; split; intro H.
    - exact (proj1 (proj2 (chart_congr_1 R nsyms root FIRST FOLLOW la W1 W2 hint1 hint2 keep1 keep2 seed1 seed2 k HW Hhint Hkeep Hseed)) s i j t H Hj).
    - exact (proj1 (proj2 (chart_congr_1 R nsyms root FIRST FOLLOW la W2 W1 hint2 hint1 keep2 keep1 seed2 seed1 k HW' Hhint' Hkeep' Hseed')) s i j t H Hj).
  Qed.
  Lemma Med_congr : forall s i j t, j <= k ->
    (Med R nsyms root W1 hint1 FIRST FOLLOW la keep1 seed1 s i j t <->
     Med R nsyms root W2 hint2 FIRST FOLLOW la keep2 seed2 s i j t).
  Proof.
    intros s i j t Hj; split; intro H.
    - exact (proj1 (proj2 (proj2 (chart_congr_1 R nsyms root FIRST FOLLOW la W1 W2 hint1 hint2 keep1 keep2 seed1 seed2 k HW Hhint Hkeep Hseed))) s i j t H Hj).
    - exact (proj1 (proj2 (proj2 (chart_congr_1 R nsyms root FIRST FOLLOW la W2 W1 hint2 hint1 keep2 keep1 seed2 seed1 k HW' Hhint' Hkeep' Hseed'))) s i j t H Hj).
  Qed.
  Lemma Pred_congr : forall s j, j <= k ->
    (Pred R nsyms root W1 hint1 FIRST FOLLOW la keep1 seed1 s j <->
     Pred R nsyms root W2 hint2 FIRST FOLLOW la keep2 seed2 s j).
  Proof.
    intros s j Hj; split; intro H.
    - exact (proj2 (proj2 (proj2 (chart_congr_1 R nsyms root FIRST FOLLOW la W1 W2 hint1 hint2 keep1 keep2 seed1 seed2 k HW Hhint Hkeep Hseed))) s j H Hj).
    - exact (proj2 (proj2 (proj2 (chart_congr_1 R nsyms root FIRST FOLLOW la W2 W1 hint2 hint1 keep2 keep1 seed2 seed1 k HW' Hhint' Hkeep' Hseed'))) s j H Hj).
  Qed.
End Congruence2.

(** ** Climbing *)
Section Climb.
  Variable R : list prule.
  Variable nsyms nall : nat.
  Hypothesis wf : wf_rules R nsyms nall.

  Lemma topr_range : forall A T, topr R nsyms A T -> T < nsyms.
  Proof. induction 1; auto. Qed.

  Lemma topr_fun : forall A T1, topr R nsyms A T1 -> forall T2, topr R nsyms A T2 -> T1 = T2.
  Proof.
    induction 1 as [A Hl|A r T Hg Hin H0 Ht IH]; intros T2 H2.
    - inversion H2; subst; auto. lia.
    - inversion H2 as [|A' r' T' Hg' Hin' H0' Ht']; subst; [lia|].
      apply In_nth_error in Hin. destruct Hin as [d1 E1].
      apply In_nth_error in Hin'. destruct Hin' as [d2 E2].
      destruct (wf_gen_unique _ _ _ wf _ _ _ _ _ Hg E1 E2 H0 H0') as [E _].
      apply IH. rewrite E. auto.
  Qed.

  Lemma topr_total : forall A, A < nall -> exists T, topr R nsyms A T.
  Proof.
    destruct (wf_gen_chain _ _ _ wf) as [rank Hr].
    assert (X : forall n A, rank A < n -> A < nall -> exists T, topr R nsyms A T).
    { induction n; intros A Hn HA; [lia|].
      destruct (le_lt_dec nsyms A) as [Hge|Hlt].
      - destruct (wf_gen_used _ _ _ wf A Hge HA) as (r & Hin & H0).
        destruct (le_lt_dec nsyms (p_lhs r)) as [Hg|Hl].
        + destruct (IHn (p_lhs r)) as [T HT].
          * specialize (Hr r A Hin H0 Hge Hg). lia.
          * eapply wf_lhs_range; eauto.
          * exists T. eapply top_up; eauto.
        + exists (p_lhs r). eapply top_up; eauto. constructor; auto.
      - exists A. constructor; auto. }
    intros A HA. apply (X (S (rank A)) A); auto.
  Qed.

  (** the ordinary symbol above a rule predicts the first symbol of the rule *)
  Lemma topr_pred : forall r B T, In r R -> nth_error (p_rhs r) 0 = Some B ->
    topr R nsyms (p_lhs r) T -> B < nsyms -> pred R nsyms T B.
  Proof. intros. apply rt_step. exists r. auto. Qed.
  Lemma topr_gen : forall r B T, In r R -> nth_error (p_rhs r) 0 = Some B ->
    topr R nsyms (p_lhs r) T -> nsyms <= B -> topr R nsyms B T.
  Proof. intros. eapply top_up; eauto. Qed.

  Lemma rhs_cases : forall r, In r R ->
    (exists B, p_rhs r = [B] /\ B < nall) \/
    (exists B C, p_rhs r = [B; C] /\ B < nall /\ C < nsyms).
  Proof.
    intros r Hin. pose proof (wf_rhs_range _ _ _ wf r) as Hr.
    pose proof (wf_rhs1 _ _ _ wf r) as H1.
    destruct (wf_arity _ _ _ wf r Hin) as [E|E]; destruct (p_rhs r) as [|B [|C [|]]]; try discriminate.
    - left. exists B. split; auto. apply Hr; simpl; auto.
    - right. exists B, C. repeat split; auto. apply Hr; simpl; auto.
  Qed.
End Climb.
