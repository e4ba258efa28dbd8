(** ChartSpec: the chart relation against derivations and parse trees. *)
From Coq Require Import List Arith Bool Lia Relations.
From Verif Require Import Base Grammar DefaultGrammar Spec SpecFacts Chart ChartFacts.
Import ListNotations.

(** [ys] picks one scanned token at each location from [i] to [j] *)
Inductive reads (W : nat -> list (sym * nat)) : nat -> list (sym * nat) -> nat -> Prop :=
| reads_nil : forall i, reads W i [] i
| reads_cons : forall i y ys j, In y (W i) -> reads W (S i) ys j -> reads W i (y :: ys) j.

Lemma reads_app : forall W i ys m zs j, reads W i ys m -> reads W m zs j -> reads W i (ys ++ zs) j.
Proof. induction 1; simpl; auto. intros. constructor; auto. Qed.

Lemma reads_length : forall W i ys j, reads W i ys j -> j = i + length ys.
Proof. induction 1; simpl; lia. Qed.

Lemma reads_split : forall W ys zs i j, reads W i (ys ++ zs) j ->
  reads W i ys (i + length ys) /\ reads W (i + length ys) zs j.
Proof.
  induction ys as [|y ys IH]; simpl; intros zs i j H.
  - rewrite Nat.add_0_r. split; [constructor|auto].
  - inversion H; subst. destruct (IH zs (S i) j H5) as [A B].
    replace (i + S (length ys)) with (S i + length ys) by lia. split; [constructor; auto|auto].
Qed.

Section Sound.
  Variable R : list prule.
  Variable nsyms : nat.
  Variable root : sym.
  Variable W : nat -> list (sym * nat).
  Variable hint : nat -> option sym.
  Variable FIRST FOLLOW : sym -> sym -> bool.
  Variable la : bool.
  Variable keep : nat -> sym -> bool.
  Variable seed : nat -> sym -> Prop.
  Notation Sym := (Sym R nsyms root W hint FIRST FOLLOW la keep seed).
  Notation Comp := (Comp R nsyms root W hint FIRST FOLLOW la keep seed).
  Notation Med := (Med R nsyms root W hint FIRST FOLLOW la keep seed).
  Notation Pred := (Pred R nsyms root W hint FIRST FOLLOW la keep seed).
  Notation cok := (constituents_ok R keep).

  (** every constituent of the chart is a parse tree of the scanned tokens *)
  Lemma chart_sound :
    (forall s i j t, Sym s i j t -> parse_tree R s t /\ reads W i (yield t) j /\ cok i t) /\
    (forall d i j ts, Comp d i j ts -> exists r, nth_error R d = Some r /\ parse_trees R (p_rhs r) ts /\
       reads W i (flat_map yield ts) j /\ constituents_list R keep i ts) /\
    (forall d i j t, Med d i j t -> exists r B C, nth_error R d = Some r /\ p_rhs r = [B; C] /\
       parse_tree R B t /\ reads W i (yield t) j /\ cok i t) /\
    (forall s j, Pred s j -> True).
  Proof.
    apply chart_ind; intros; auto.
    - simpl. split; [constructor|]. split; [|auto]. constructor; [auto|constructor].
    - destruct H as (r' & Hr' & Hpt & Hrd & Hc). rewrite e in Hr'. injection Hr' as <-.
      split; [econstructor; eauto|]. split; [exact Hrd|].
      apply constituents_node. split; [|auto]. exists r. split; [auto|].
      apply reads_length in Hrd. now rewrite <- Hrd.
    - destruct H as (Hpt & Hrd & Hc). exists r. split; [auto|]. rewrite e0.
      split; [constructor; [auto|constructor]|]. simpl. rewrite app_nil_r. auto.
    - destruct H as (r' & B' & C' & Hr' & Er & Hpt1 & Hrd1 & Hc1). rewrite e in Hr'. injection Hr' as <-.
      rewrite e0 in Er. injection Er as <- <-. destruct H0 as (Hpt2 & Hrd2 & Hc2).
      exists r. split; [auto|]. rewrite e0. split.
      { constructor; [auto|]. constructor; [auto|constructor]. }
      simpl. rewrite app_nil_r. split; [eapply reads_app; eauto|].
      apply reads_length in Hrd1. rewrite <- Hrd1. auto.
    - destruct H as (Hpt & Hrd & Hc). exists r, B, C. auto.
  Qed.

  Lemma topr_derives : forall A T, topr R nsyms A T -> exists v, derives R T (A :: v).
  Proof.
    induction 1 as [A Hl|A r T Hg Hin H0 Ht (v & IH)].
    - exists []. constructor.
    - destruct (p_rhs r) as [|B rest] eqn:Er; [discriminate|]. injection H0 as ->.
      exists (rest ++ v). change (A :: rest ++ v) with ((A :: rest) ++ v).
      eapply derives_trans1; [exact IH|]. apply derives_rule; [auto|]. rewrite Er. apply derives_seq_self.
  Qed.

  Lemma lc_derives : forall A B, lc R nsyms A B -> exists v, derives R A (B :: v).
  Proof.
    intros A B (r & Hin & H0 & _ & Ht). destruct (topr_derives _ _ Ht) as (v & Hv).
    destruct (p_rhs r) as [|B' rest] eqn:Er; [discriminate|]. injection H0 as ->.
    exists (rest ++ v). change (B :: rest ++ v) with ((B :: rest) ++ v).
    eapply derives_trans1; [exact Hv|]. apply derives_rule; [auto|]. rewrite Er. apply derives_seq_self.
  Qed.

  Lemma pred_derives : forall A B, pred R nsyms A B -> exists v, derives R A (B :: v).
  Proof.
    intros A B H. induction H as [A B H|A|A B C _ (v1 & H1) _ (v2 & H2)].
    - now apply lc_derives.
    - exists []. constructor.
    - exists (v2 ++ v1). change (C :: v2 ++ v1) with ((C :: v2) ++ v1). eapply derives_trans1; eauto.
  Qed.

  (** predictions are justified by the tokens read so far *)
  Hypothesis Hseed : forall j s, ~ seed j s.

  Lemma chart_context :
    (forall s i j t, Sym s i j t -> True) /\
    (forall d i j ts, Comp d i j ts -> exists r ys v, nth_error R d = Some r /\ reads W 0 ys i /\
       derives R root (map fst ys ++ p_lhs r :: v)) /\
    (forall d i j t, Med d i j t -> exists r ys v, nth_error R d = Some r /\ reads W 0 ys i /\
       derives R root (map fst ys ++ p_lhs r :: v)) /\
    (forall s j, Pred s j -> exists ys v, reads W 0 ys j /\ derives R root (map fst ys ++ s :: v)).
  Proof.
    assert (X : forall A T i, topr R nsyms A T ->
      (exists ys v, reads W 0 ys i /\ derives R root (map fst ys ++ T :: v)) ->
      exists ys v, reads W 0 ys i /\ derives R root (map fst ys ++ A :: v)).
    { intros A T i Ht (ys & v & Hrd & Hd). destruct (topr_derives _ _ Ht) as (v' & Hv').
      exists ys, (v' ++ v). split; [auto|]. exact (derives_replace R _ _ _ _ _ Hd Hv'). }
    apply chart_ind; intros; auto.
    - destruct (X _ _ _ t0 H0) as (ys & v & Hrd & Hd). exists r, ys, v. auto.
    - destruct (X _ _ _ t0 H0) as (ys & v & Hrd & Hd). exists r, ys, v. auto.
    - destruct (pred_derives _ _ p) as (v & Hv). exists [], v. split; [constructor|auto].
    - destruct H as (r' & ys & v & Hr' & Hrd & Hd). rewrite e in Hr'. injection Hr' as <-.
      destruct (proj1 (proj2 (proj2 chart_sound)) _ _ _ _ m) as (r' & B' & C' & Hr' & Er & Hpt & Hrd2 & _).
      rewrite e in Hr'. injection Hr' as <-. rewrite e0 in Er. injection Er as <- <-.
      destruct (pred_derives _ _ p) as (v2 & Hv2).
      exists (ys ++ yield t), (v2 ++ v). split; [eapply reads_app; eauto|].
      rewrite map_app, <- app_assoc.
      change (map fst (yield t) ++ s :: v2 ++ v) with (map fst (yield t) ++ (s :: v2) ++ v).
      rewrite (app_assoc (map fst (yield t))).
      apply (derives_replace R _ _ _ _ _ Hd). apply derives_rule; [eapply nth_error_In; eauto|].
      rewrite e0. constructor; [now apply tree_derives|].
      replace (s :: v2) with ((s :: v2) ++ []) by apply app_nil_r.
      constructor; [auto|constructor].
    - destruct (Hseed _ _ s0).
  Qed.

  (** a non-empty set means a viable prefix *)
  Lemma alive_viable : forall j,
    ((exists d i ts, Comp d i j ts) \/ (exists d i t, Med d i j t)) ->
    exists ys v, reads W 0 ys j /\ derives R root (map fst ys ++ v).
  Proof.
    intros j [(d & i & ts & H)|(d & i & t & H)].
    - destruct (proj1 (proj2 chart_context) _ _ _ _ H) as (r & ys & v & Hr & Hrd & Hd).
      destruct (proj1 (proj2 chart_sound) _ _ _ _ H) as (r' & Hr' & Hpt & Hrd2 & _).
      rewrite Hr in Hr'. injection Hr' as <-.
      exists (ys ++ flat_map yield ts), v. split; [eapply reads_app; eauto|].
      rewrite map_app, <- app_assoc. apply (derives_replace R _ _ _ _ _ Hd).
      apply derives_rule; [eapply nth_error_In; eauto|]. now apply tree_derives.
    - destruct (proj1 (proj2 (proj2 chart_context)) _ _ _ _ H) as (r & ys & v & Hr & Hrd & Hd).
      destruct (proj1 (proj2 (proj2 chart_sound)) _ _ _ _ H) as (r' & B & C & Hr' & Er & Hpt & Hrd2 & _).
      rewrite Hr in Hr'. injection Hr' as <-.
      exists (ys ++ yield t), (C :: v). split; [eapply reads_app; eauto|].
      rewrite map_app, <- app_assoc.
      change (map fst (yield t) ++ C :: v) with (map fst (yield t) ++ [C] ++ v). rewrite (app_assoc (map fst (yield t))).
      apply (derives_replace R _ _ _ _ _ Hd).
      apply derives_rule; [eapply nth_error_In; eauto|]. rewrite Er.
      constructor; [now apply tree_derives|]. replace [C] with ([C] ++ @nil sym) by reflexivity.
      constructor; constructor.
  Qed.
End Sound.

(** ** FIRST and FOLLOW sets that miss nothing *)
Definition first_complete (R : list prule) (nsyms : nat) (FIRST : sym -> sym -> bool) : Prop :=
  forall A t v, A < nsyms -> t < nsyms -> terminal R t -> derives R A (t :: v) -> FIRST A t = true.
Definition follow_complete (R : list prule) (root : sym) (nsyms : nat) (FOLLOW : sym -> sym -> bool) : Prop :=
  forall r t u v, In r R -> p_lhs r < nsyms -> t < nsyms -> terminal R t ->
    derives R root (u ++ p_lhs r :: t :: v) -> FOLLOW (p_lhs r) t = true.

Section Complete.
  Variable R : list prule.
  Variables nsyms nall : nat.
  Variable root : sym.
  Variable W : nat -> list (sym * nat).
  Variable hint : nat -> option sym.
  Variable FIRST FOLLOW : sym -> sym -> bool.
  Variable la : bool.
  Variable keep : nat -> sym -> bool.
  Variable seed : nat -> sym -> Prop.
  Hypothesis wf : wf_rules R nsyms nall.
  Hypothesis HFI : first_complete R nsyms FIRST.
  Hypothesis HFO : follow_complete R root nsyms FOLLOW.
  Hypothesis Hhint : forall j t, hint j = Some t -> t < nsyms /\ terminal R t.
  Notation Sym := (Sym R nsyms root W hint FIRST FOLLOW la keep seed).
  Notation Comp := (Comp R nsyms root W hint FIRST FOLLOW la keep seed).
  Notation Med := (Med R nsyms root W hint FIRST FOLLOW la keep seed).
  Notation Pred := (Pred R nsyms root W hint FIRST FOLLOW la keep seed).
  Notation cok := (constituents_ok R keep).

  (** the sentence (or sentential form) being read, and hints that name its next
      symbol *)
  Variable full : list sym.
  Variable N : nat.
  Hypothesis Htrue : forall j t, j <= N -> hint j = Some t -> nth_error full j = Some t.

  Lemma nth_full : forall u v t, full = u ++ v -> nth_error full (length u) = Some t ->
    exists v', v = t :: v'.
  Proof.
    intros u v t -> H. rewrite nth_error_app2 in H by lia. rewrite Nat.sub_diag in H.
    destruct v as [|a v]; [discriminate|]. injection H as ->. eauto.
  Qed.

  Lemma ok_lhs_true : forall r u v j, In r R -> derives R root (u ++ p_lhs r :: v) ->
    (exists w, full = u ++ w ++ v /\ j = length (u ++ w)) -> j <= N ->
    ok_lhs nsyms FOLLOW la (hint j) (p_lhs r) = true.
  Proof.
    intros r u v j HA Hd (w & Ef & Ej) Hj. unfold ok_lhs.
    destruct (Nat.leb_spec nsyms (p_lhs r)) as [|HAn]; [reflexivity|]. simpl. unfold check.
    destruct (hint j) as [t|] eqn:Eh; [|apply orb_true_r].
    apply orb_true_iff. right.
    pose proof (Htrue _ _ Hj Eh) as Hn. rewrite Ej in Hn. rewrite app_assoc in Ef.
    destruct (nth_full _ _ _ Ef Hn) as (v' & ->).
    destruct (Hhint _ _ Eh). eapply HFO; eauto.
  Qed.

  Lemma nonempty_rhs : forall r, In r R -> p_rhs r <> [].
  Proof. intros r Hin E. destruct (wf_arity _ _ _ wf r Hin) as [X|X]; rewrite E in X; discriminate. Qed.

  (** parse trees of parts of the sentence, in a context derived from the start
      symbol, are in the chart *)
  Definition in_chart (A : sym) (t : tree) : Prop :=
    forall T u v, topr R nsyms A T -> Pred T (length u) -> A < nall ->
       full = u ++ map fst (yield t) ++ v -> derives R root (u ++ A :: v) ->
       length u + length (yield t) <= N ->
       reads W (length u) (yield t) (length u + length (yield t)) -> cok (length u) t ->
       Sym A (length u) (length u + length (yield t)) t.

  Lemma in_chart_sub : forall B t r T u v, in_chart B t -> In r R -> nth_error (p_rhs r) 0 = Some B ->
    topr R nsyms (p_lhs r) T -> Pred T (length u) -> B < nall ->
    full = u ++ map fst (yield t) ++ v -> derives R root (u ++ B :: v) ->
    length u + length (yield t) <= N ->
    reads W (length u) (yield t) (length u + length (yield t)) -> cok (length u) t ->
    Sym B (length u) (length u + length (yield t)) t.
  Proof.
    intros B t r T u v HQ Hin H0 Htop HP HB. destruct (le_lt_dec nsyms B) as [Hg|Hl].
    - apply (HQ T); auto. eapply topr_gen; eauto.
    - apply (HQ B); auto; [now apply top_here|]. eapply Pred_pred; eauto. eapply topr_pred; eauto.
  Qed.

  Lemma chart_complete :
    (forall A t, parse_tree R A t -> in_chart A t) /\
    (forall ss ts, parse_trees R ss ts -> Forall2 in_chart ss ts).
  Proof.
    apply parse_both.
    - intros s v0 T u v _ _ _ _ _ _ Hrd _. cbn in *.
      replace (length u + 1) with (S (length u)) by lia. apply Sym_scan. inversion Hrd; subst. auto.
    - intros d r ts Hd Hpts IH T u v Htop HP HA Ef Hder HN Hrd Hc.
      pose proof (nth_error_In _ _ Hd) as Hin.
      apply constituents_node in Hc. destruct Hc as [(r' & Hr' & Hk) Hcs].
      rewrite Hd in Hr'. injection Hr' as <-.
      cbn [yield] in *. apply Sym_group; auto.
      assert (Hlhs : ok_lhs nsyms FOLLOW la (hint (length u + length (flat_map yield ts))) (p_lhs r) = true).
      { apply (ok_lhs_true r u v); auto. exists (map fst (flat_map yield ts)). split; [auto|].
        rewrite app_length, map_length. auto. }
      destruct (rhs_cases R nsyms nall wf r Hin) as [(B & Er & HB)|(B & C & Er & HB & HC)];
        rewrite Er in *.
      + inversion Hpts as [|? ? t ts' Ht Hnil]; subst. inversion Hnil; subst.
        inversion IH as [|? ? ? ? IH1 _]; subst. cbn [flat_map] in *. rewrite app_nil_r in *.
        assert (H0 : nth_error (p_rhs r) 0 = Some B) by now rewrite Er.
        eapply Comp_unary; eauto.
        * eapply (in_chart_sub B t r T u v); eauto.
          -- change (u ++ B :: v) with (u ++ [B] ++ v). apply (derives_replace R _ _ _ _ _ Hder).
             apply derives_rule; [auto|]. rewrite Er. apply derives_seq_self.
          -- cbn in Hcs. tauto.
        * unfold ok_unary. rewrite Hlhs. apply orb_true_r.
      + inversion Hpts as [|? ? t1 ts' Ht1 Hpts']; subst. inversion Hpts' as [|? ? t2 ts'' Ht2 Hnil]; subst.
        inversion Hnil; subst. inversion IH as [|? ? ? ? IH1 IHt]; subst. inversion IHt as [|? ? ? ? IH2 _]; subst. cbn [flat_map] in *. rewrite app_nil_r in *.
        rewrite map_app, <- app_assoc in Ef. rewrite app_length in *.
        set (m := length u + length (yield t1)) in *.
        apply reads_split in Hrd. destruct Hrd as [Hrd1 Hrd2]. fold m in Hrd1, Hrd2.
        cbn in Hcs. destruct Hcs as (Hc1 & Hc2 & _).
        assert (H0 : nth_error (p_rhs r) 0 = Some B) by now rewrite Er.
        assert (Hder1 : derives R root (u ++ B :: map fst (yield t2) ++ v)).
        { change (u ++ B :: map fst (yield t2) ++ v) with (u ++ ([B] ++ map fst (yield t2)) ++ v).
          apply (derives_replace R _ _ _ _ _ Hder). apply derives_rule; [auto|]. rewrite Er.
          constructor; [constructor|]. rewrite <- (app_nil_r (map fst (yield t2))).
          constructor; [now apply tree_derives|constructor]. }
        assert (Hder2 : derives R root ((u ++ map fst (yield t1)) ++ C :: v)).
        { rewrite <- app_assoc. change (map fst (yield t1) ++ C :: v) with (map fst (yield t1) ++ [C] ++ v).
          rewrite (app_assoc (map fst (yield t1))).
          apply (derives_replace R _ _ _ _ _ Hder). apply derives_rule; [auto|]. rewrite Er.
          constructor; [now apply tree_derives|]. apply derives_seq_self. }
        assert (Em : length (u ++ map fst (yield t1)) = m) by (rewrite app_length, map_length; reflexivity).
        assert (HM : Med d (length u) m t1).
        { eapply Med_intro; eauto.
          - eapply (in_chart_sub B t1 r T u); eauto. unfold m in *. lia.
          - unfold ok_medial. apply orb_true_iff. right. unfold check.
            destruct (hint m) as [t|] eqn:Eh; [|apply orb_true_r]. apply orb_true_iff. right.
            assert (HmN : m <= N) by lia.
            pose proof (Htrue _ _ HmN Eh) as Hn. rewrite <- Em in Hn.
            rewrite app_assoc in Ef. destruct (nth_full _ _ _ Ef Hn) as (v' & Ev).
            pose proof (proj1 (tree_derives R) _ _ Ht2) as Hd2.
            pose proof (proj1 (yield_nonempty R nonempty_rhs) _ _ Ht2) as Hne.
            destruct (yield t2) as [|y ys]; [congruence|]. cbn in Ev, Hd2. injection Ev as E1 _.
            destruct (Hhint _ _ Eh). eapply HFI; eauto. rewrite <- E1. exact Hd2. }
        replace (length u + (length (yield t1) + length (yield t2))) with (m + length (yield t2)) in * by (unfold m; lia).
        eapply Comp_binary; eauto. rewrite <- Em.
        apply (IH2 C _ v); auto.
        * now apply top_here.
        * rewrite Em. eapply Pred_med; eauto. apply rt_refl.
        * apply (wf_rhs_range _ _ _ wf r); [auto|]. rewrite Er. simpl; auto.
        * now rewrite <- app_assoc.
        * rewrite Em. auto.
        * rewrite Em. auto.
        * rewrite Em. auto.
    - constructor.
    - intros s ss t ts _ IH1 _ IH2. now constructor.
  Qed.

  (** ** Prefixes of sentences keep the chart alive *)
  Hypothesis Hkeep : forall j s, keep j s = true.
  Definition alive_at (j : nat) : Prop := (exists d i ts, Comp d i j ts) \/ (exists d i t, Med d i j t).

  Definition progresses (A : sym) (t : tree) : Prop :=
    forall T u v k, topr R nsyms A T -> Pred T (length u) -> A < nall ->
      full = u ++ map fst (yield t) ++ v -> derives R root (u ++ A :: v) ->
      length u <= k < length u + length (yield t) -> S k <= N ->
      reads W (length u) (firstn (S k - length u) (yield t)) (S k) ->
      (exists y, t = Leaf A y) \/ alive_at (S k).

  Lemma firstn_whole : forall X (l : list X) n, length l <= n -> firstn n l = l.
  Proof. intros X l. induction l; intros [|n] H; simpl in *; try lia; auto. f_equal. apply IHl. lia. Qed.

  Lemma chart_alive :
    (forall A t, parse_tree R A t -> progresses A t) /\
    (forall ss ts, parse_trees R ss ts -> Forall2 progresses ss ts).
  Proof.
    apply parse_both.
    - intros s v0 T u v k _ _ _ _ _ _ _ _. left. eauto.
    - intros d r ts Hd Hpts IH T u v k Htop HP HA Ef Hder Hk HN Hrd. right.
      pose proof (nth_error_In _ _ Hd) as Hin.
      cbn [yield] in *.
      destruct (rhs_cases R nsyms nall wf r Hin) as [(B & Er & HB)|(B & C & Er & HB & HC)]; rewrite Er in *.
      + inversion Hpts as [|? ? t ts' Ht Hnil]; subst. inversion Hnil; subst.
        inversion IH as [|? ? ? ? IH1 _]; subst. cbn [flat_map] in *. rewrite app_nil_r in *.
        assert (H0 : nth_error (p_rhs r) 0 = Some B) by now rewrite Er.
        assert (Hder1 : derives R root (u ++ B :: v)).
        { change (u ++ B :: v) with (u ++ [B] ++ v). apply (derives_replace R _ _ _ _ _ Hder).
          apply derives_rule; [auto|]. rewrite Er. apply derives_seq_self. }
        assert (HX : (exists y, t = Leaf B y) \/ alive_at (S k)).
        { destruct (le_lt_dec nsyms B) as [Hg|Hl].
          - apply (IH1 T u v k); auto. eapply topr_gen; eauto.
          - apply (IH1 B u v k); auto; [now apply top_here|]. eapply Pred_pred; eauto. eapply topr_pred; eauto. }
        destruct HX as [(y & ->)|X]; [|auto]. cbn [yield map fst length app] in *.
        assert (k = length u) by lia. subst k.
        replace (S (length u) - length u) with 1 in Hrd by lia. cbn in Hrd.
        left. exists d, (length u), [Leaf B y]. eapply Comp_unary; eauto.
        * apply Sym_scan. inversion Hrd; auto.
        * unfold ok_unary. rewrite (ok_lhs_true r u v); auto; [apply orb_true_r|].
          exists [B]. split; [auto|]. rewrite app_length. simpl. unfold sym in *. lia.
      + inversion Hpts as [|? ? t1 ts' Ht1 Hpts']; subst. inversion Hpts' as [|? ? t2 ts'' Ht2 Hnil]; subst.
        inversion Hnil; subst. inversion IH as [|? ? ? ? IH1 IHt]; subst.
        inversion IHt as [|? ? ? ? IH2 _]; subst. cbn [flat_map] in *. rewrite app_nil_r in *.
        rewrite map_app, <- app_assoc in Ef. rewrite app_length in *.
        set (m := length u + length (yield t1)) in *.
        assert (H0 : nth_error (p_rhs r) 0 = Some B) by now rewrite Er.
        assert (Hder1 : derives R root (u ++ B :: map fst (yield t2) ++ v)).
        { change (u ++ B :: map fst (yield t2) ++ v) with (u ++ ([B] ++ map fst (yield t2)) ++ v).
          apply (derives_replace R _ _ _ _ _ Hder). apply derives_rule; [auto|]. rewrite Er.
          constructor; [constructor|]. rewrite <- (app_nil_r (map fst (yield t2))).
          constructor; [now apply tree_derives|constructor]. }
        assert (Hder2 : derives R root ((u ++ map fst (yield t1)) ++ C :: v)).
        { rewrite <- app_assoc. change (map fst (yield t1) ++ C :: v) with (map fst (yield t1) ++ [C] ++ v).
          rewrite (app_assoc (map fst (yield t1))).
          apply (derives_replace R _ _ _ _ _ Hder). apply derives_rule; [auto|]. rewrite Er.
          constructor; [now apply tree_derives|]. apply derives_seq_self. }
        assert (Em : length (u ++ map fst (yield t1)) = m) by (rewrite app_length, map_length; reflexivity).
        assert (Hmed : m <= N -> Sym B (length u) m t1 -> Med d (length u) m t1).
        { intros HmN HS. eapply Med_intro; eauto.
          unfold ok_medial. apply orb_true_iff. right. unfold check.
          destruct (hint m) as [t|] eqn:Eh; [|apply orb_true_r]. apply orb_true_iff. right.
          pose proof (Htrue _ _ HmN Eh) as Hn. rewrite <- Em in Hn.
          rewrite app_assoc in Ef. destruct (nth_full _ _ _ Ef Hn) as (v' & Ev).
          pose proof (proj1 (tree_derives R) _ _ Ht2) as Hd2.
          pose proof (proj1 (yield_nonempty R nonempty_rhs) _ _ Ht2) as Hne.
          destruct (yield t2) as [|y ys]; [congruence|]. cbn in Ev, Hd2. injection Ev as E1 _.
          destruct (Hhint _ _ Eh). eapply HFI; eauto. rewrite <- E1. exact Hd2. }
        destruct (le_lt_dec (S k) m) as [Hle|Hgt].
        * (* inside the first child *)
          assert (Hrd1 : reads W (length u) (firstn (S k - length u) (yield t1)) (S k)).
          { rewrite firstn_app in Hrd. replace (S k - length u - length (yield t1)) with 0 in Hrd by (unfold m in *; lia).
            cbn in Hrd. now rewrite app_nil_r in Hrd. }
          assert (HX : (exists y, t1 = Leaf B y) \/ alive_at (S k)).
          { destruct (le_lt_dec nsyms B) as [Hg|Hl].
            - apply (IH1 T u (map fst (yield t2) ++ v) k); auto; [eapply topr_gen; eauto|unfold m in *; lia].
            - apply (IH1 B u (map fst (yield t2) ++ v) k); auto; [now apply top_here| |unfold m in *; lia].
              eapply Pred_pred; eauto. eapply topr_pred; eauto. }
          destruct HX as [(y & ->)|X]; [|auto]. cbn [yield length] in m, Hrd1.
          assert (k = length u) by (unfold m in *; lia). subst k.
          replace (S (length u) - length u) with 1 in Hrd1 by lia. cbn in Hrd1.
          right. exists d, (length u), (Leaf B y). replace (S (length u)) with m by (unfold m; lia).
          apply Hmed; [unfold m in *; lia|]. replace m with (S (length u)) by (unfold m; lia).
          apply Sym_scan. inversion Hrd1; auto.
        * (* inside the second child *)
          assert (Hrd12 : reads W (length u) (yield t1) m /\
                          reads W m (firstn (S k - m) (yield t2)) (S k)).
          { rewrite firstn_app in Hrd. rewrite firstn_whole in Hrd by (unfold m in *; lia).
            apply reads_split in Hrd. fold m in Hrd.
            replace (S k - length u - length (yield t1)) with (S k - m) in Hrd by (unfold m; lia). auto. }
          destruct Hrd12 as [Hrd1 Hrd2].
          assert (HM : Med d (length u) m t1).
          { apply Hmed; [lia|]. unfold m. eapply (in_chart_sub B t1 r T u); eauto.
            - now apply chart_complete.
            - fold m. lia.
            - now apply constituents_all with (s := B). }
          assert (HPC : Pred C m). { eapply Pred_med; eauto. apply rt_refl. }
          assert (HX : (exists y, t2 = Leaf C y) \/ alive_at (S k)).
          { apply (IH2 C (u ++ map fst (yield t1)) v k); rewrite ?Em; auto.
            - now apply top_here.
            - apply (wf_rhs_range _ _ _ wf r); [auto|]. rewrite Er. simpl; auto.
            - now rewrite <- app_assoc.
            - unfold m in *. lia. }
          destruct HX as [(y & ->)|X]; [|auto]. cbn [yield map fst length app] in Hk, Ef, Hrd2.
          assert (k = m) by (unfold m in *; lia). subst k.
          replace (S m - m) with 1 in Hrd2 by lia. cbn in Hrd2.
          left. exists d, (length u), [t1; Leaf C y]. eapply Comp_binary; eauto.
          -- apply Sym_scan. inversion Hrd2; auto.
          -- apply (ok_lhs_true r u v); auto. exists (map fst (yield t1) ++ [C]). split.
             ++ rewrite <- app_assoc. exact Ef.
             ++ rewrite !app_length, map_length. simpl. unfold m, sym in *. lia.
    - constructor.
    - intros s ss t ts _ IH1 _ IH2. now constructor.
  Qed.
End Complete.
