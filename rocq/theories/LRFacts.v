(** LRFacts: rightmost derivations and LR(1) grammars. *)
From Coq Require Import List Arith Lia.
From Verif Require Import Base Item Grammar Forest Spec SpecFacts LRSpec.
Import ListNotations.

Section LR.
  Variable R : list prule.
  Notation term := (Forall (terminal R)).

  (** [n] steps *)
  Inductive rmn : nat -> list sym -> list sym -> Prop :=
  | rmn_0 : forall x, rmn 0 x x
  | rmn_S : forall n x y z, rm R x y -> rmn n y z -> rmn (S n) x z.

  Lemma rmn_trans : forall n m x y z, rmn n x y -> rmn m y z -> rmn (n + m) x z.
  Proof. induction 1; cbn; intros; [auto|]. econstructor; eauto. Qed.
  Lemma rmn_split : forall n m x z, rmn (n + m) x z -> exists y, rmn n x y /\ rmn m y z.
  Proof.
    induction n as [|n IH]; intros m x z H; [exists x; split; [constructor|auto]|].
    cbn in H. inversion H as [|? ? y ? Hs Hr]; subst. destruct (IH _ _ _ Hr) as (y' & A & B).
    exists y'. split; [econstructor; eauto|auto].
  Qed.
  Lemma rmn_last : forall n x z, rmn (S n) x z -> exists y, rmn n x y /\ rm R y z.
  Proof.
    intros n x z H. replace (S n) with (n + 1) in H by lia. apply rmn_split in H. destruct H as (y & A & B).
    exists y. split; [auto|]. inversion B as [|? ? ? ? Hs Hr]; subst. inversion Hr; subst. auto.
  Qed.
  Lemma rm_context : forall x y u w, rm R x y -> term w -> rm R (u ++ x ++ w) (u ++ y ++ w).
  Proof.
    intros x y u w [r a b Hr Hb] Hw. rewrite <- !app_assoc. cbn. rewrite !(app_assoc u a).
    apply (rm_step R r (u ++ a) (b ++ w)); auto. apply Forall_app; auto.
  Qed.
  Lemma rmn_context : forall n x y u w, rmn n x y -> term w -> rmn n (u ++ x ++ w) (u ++ y ++ w).
  Proof. induction 1; intros; [constructor|]. econstructor; [apply rm_context; eauto|auto]. Qed.

  Lemma terminal_no_step : forall x y, term x -> ~ rm R x y.
  Proof.
    intros x y Hx H. destruct H as [r u w Hr _]. apply Forall_app in Hx. destruct Hx as [_ Hx]. inversion Hx as [|? ? Ht _]; subst.
    now apply (Ht r).
  Qed.

  (** derivations, by rightmost steps *)
  Lemma derives_rm :
    (forall s w, derives R s w -> term w -> exists n, rmn n [s] w) /\
    (forall ss w, derives_seq R ss w -> term w -> exists n, rmn n ss w).
  Proof.
    apply derives_both.
    - intros s _. exists 0. constructor.
    - intros r w Hr _ IH Hw. destruct (IH Hw) as (n & H). exists (S n). econstructor; [|exact H].
      pose proof (rm_step R r [] [] Hr (Forall_nil _)) as X. cbn in X. rewrite app_nil_r in X. exact X.
    - intros _. exists 0. constructor.
    - intros s ss w1 w2 _ IH1 _ IH2 Hw. apply Forall_app in Hw. destruct Hw as [H1 H2].
      destruct (IH1 H1) as (n & A), (IH2 H2) as (m & B). exists (m + n). eapply rmn_trans.
      + pose proof (rmn_context _ _ _ [s] [] B (Forall_nil _)) as X. rewrite !app_nil_r in X. exact X.
      + exact (rmn_context _ _ _ [] w2 A H2).
  Qed.

  Lemma app_cons_split : forall (w1 w2 xs v : list sym) A, w1 ++ w2 = xs ++ A :: v ->
    (exists v1, w1 = xs ++ A :: v1 /\ v = v1 ++ w2) \/ (exists xs2, w2 = xs2 ++ A :: v /\ xs = w1 ++ xs2).
  Proof.
    induction w1 as [|a w1 IH]; intros w2 xs v A H; cbn in H.
    - right. exists xs. auto.
    - destruct xs as [|b xs]; cbn in H; injection H as -> H.
      + left. exists w1. split; [auto|auto].
      + destruct (IH _ _ _ _ H) as [(v1 & -> & ->)|(xs2 & -> & ->)]; [left; exists v1; auto|right; exists xs2; auto].
  Qed.

  Lemma derives_rm_context :
    (forall s w, derives R s w -> forall xs A v, w = xs ++ A :: v -> term v ->
       exists n g, rmn n [s] (g ++ A :: v) /\ derives_seq R g xs) /\
    (forall ss w, derives_seq R ss w -> forall xs A v, w = xs ++ A :: v -> term v ->
       exists n g, rmn n ss (g ++ A :: v) /\ derives_seq R g xs).
  Proof.
    apply derives_both.
    - intros s xs A v E _. destruct xs as [|x [|]]; try discriminate. injection E as <- <-. exists 0, []. split; constructor.
    - intros r w Hr _ IH xs A v E Hv. destruct (IH _ _ _ E Hv) as (n & g & H1 & H2). exists (S n), g. split; [|auto].
      econstructor; [|exact H1]. pose proof (rm_step R r [] [] Hr (Forall_nil _)) as X. cbn in X. rewrite app_nil_r in X. exact X.
    - intros xs A v E _. destruct xs; discriminate.
    - intros s ss w1 w2 Hd1 IH1 Hd2 IH2 xs A v E Hv. apply app_cons_split in E. destruct E as [(v1 & -> & ->)|(xs2 & -> & ->)].
      + apply Forall_app in Hv. destruct Hv as [Hv1 Hw2]. destruct (IH1 _ _ _ eq_refl Hv1) as (n & g & H1 & H2).
        destruct (proj2 derives_rm _ _ Hd2 Hw2) as (m & H3). exists (m + n), g. split; [|auto]. eapply rmn_trans.
        * pose proof (rmn_context _ _ _ [s] [] H3 (Forall_nil _)) as X. rewrite !app_nil_r in X. exact X.
        * pose proof (rmn_context _ _ _ [] w2 H1 Hw2) as X. cbn in X. rewrite <- app_assoc in X. exact X.
      + destruct (IH2 _ _ _ eq_refl Hv) as (n & g & H1 & H2). exists n, (s :: g). split.
        * pose proof (rmn_context _ _ _ [s] [] H1 (Forall_nil _)) as X. rewrite !app_nil_r in X. exact X.
        * constructor; auto.
  Qed.

  (** and back *)
  Lemma derives_seq_app_inv : forall a b w, derives_seq R (a ++ b) w -> exists u v, w = u ++ v /\ derives_seq R a u /\ derives_seq R b v.
  Proof.
    induction a as [|s a IH]; intros b w H; [exists [], w; split; [auto|split; [constructor|auto]]|].
    cbn in H. inversion H as [|? ? w1 w2 H1 H2]; subst. destruct (IH _ _ H2) as (u & v & -> & Hu & Hv).
    exists (w1 ++ u), v. rewrite app_assoc. split; [auto|]. split; [constructor; auto|auto].
  Qed.
  Lemma derives_seq_one : forall s w, derives_seq R [s] w -> derives R s w.
  Proof. intros s w H. inversion H as [|? ? w1 w2 H1 H2]; subst. inversion H2; subst. now rewrite app_nil_r. Qed.
  Lemma rmn_derives : forall n x y, rmn n x y -> derives_seq R x y.
  Proof.
    induction 1 as [x|n x y z [r u w Hr Hw] _ IH]; [apply derives_seq_self|].
    apply derives_seq_app_inv in IH. destruct IH as (a & b & -> & Ha & Hb).
    apply derives_seq_app_inv in Hb. destruct Hb as (b1 & b2 & -> & Hb1 & Hb2).
    apply derives_seq_app; [auto|]. constructor; [|auto]. now apply derives_rule.
  Qed.
End LR.

Section LR1.
  Variable R : list prule.
  Variable start : sym.
  Notation term := (Forall (terminal R)).
  Notation rmn := (rmn R).
  Notation sen := (sentential R start).
  Hypothesis Hlr : lr1 R start.
  Hypothesis Hroot : forall r, In r R -> ~ In start (p_rhs r).
  Hypothesis Hne : forall r, In r R -> p_rhs r <> [].

  Lemma sen_rmn : forall n x y, rmn n x y -> sen x -> sen y.
  Proof. induction 1; intros; auto. apply IHrmn. eapply sen_step; eauto. Qed.

  Lemma sen_back : forall p q s, sen p -> sen q -> rm R p s -> rm R q s -> p = q.
  Proof.
    intros p q s Hp Hq H1 H2. destruct H1 as [r1 u1 w1 R1 W1]. inversion H2 as [r2 u2 w2 R2 W2 Eq Es]; subst.
    destruct (Hlr r1 u1 w1 r2 u2 w2 w1) as (-> & -> & ->); auto.
  Qed.

  Lemma same_height : forall m p q s, sen p -> sen q -> rmn m p s -> rmn m q s -> p = q.
  Proof.
    induction m as [|m IH]; intros p q s Hp Hq H1 H2.
    - inversion H1; inversion H2; subst; auto.
    - apply rmn_last in H1, H2. destruct H1 as (y1 & A1 & B1), H2 as (y2 & A2 & B2).
      assert (y1 = y2) as <-. { eapply sen_back; eauto using sen_rmn. }
      eapply IH; eauto.
  Qed.

  Lemma transfer1 : forall r u w y, In r R -> term w -> term y -> sen (u ++ p_lhs r :: w) -> sen (u ++ p_rhs r ++ y) ->
    hd_error w = hd_error y -> sen (u ++ p_lhs r :: y).
  Proof.
    intros r u w y Hr Hw Hy Hs Hs' Hh. inversion Hs' as [E|x s' Hx Hrm Es]; subst.
    - exfalso. destruct u as [|a u].
      + cbn in E. destruct (p_rhs r) as [|b l] eqn:Er; [now apply (Hne r)|]. injection E as -> _.
        apply (Hroot r Hr). rewrite Er. now left.
      + cbn in E. injection E as _ E. destruct u; [|discriminate]. cbn in E. destruct (p_rhs r) as [|b l] eqn:Er; [now apply (Hne r)|discriminate].
    - inversion Hrm as [r2 u2 w2 R2 W2 Ex Es]; subst.
      destruct (Hlr r u w r2 u2 w2 y) as (E1 & E2 & E3); auto. rewrite E1, E2, E3 in Hx. exact Hx.
  Qed.

  Lemma hd_app : forall (w a b : list sym), hd_error a = hd_error b -> hd_error (w ++ a) = hd_error (w ++ b).
  Proof. destruct w; auto. Qed.

  Lemma transfer : forall n s0 s, rmn n s0 s -> forall w1 w2, term w1 -> term w2 -> hd_error w1 = hd_error w2 ->
    sen (s0 ++ w1) -> sen (s ++ w2) -> sen (s0 ++ w2).
  Proof.
    induction 1 as [x|n x y z Hs Hr IH]; intros w1 w2 H1 H2 Hh S1 S2; [auto|].
    assert (Sy : sen (y ++ w1)). { eapply sen_step; [exact S1|]. exact (rm_context R x y [] w1 Hs H1). }
    pose proof (IH w1 w2 H1 H2 Hh Sy S2) as Sy2. destruct Hs as [r u w Hr' Hw].
    rewrite <- app_assoc in *. cbn [app] in *. rewrite <- app_assoc in *. apply (transfer1 r u (w ++ w1)); auto.
    - apply Forall_app; auto.
    - apply Forall_app; auto.
    - now apply hd_app.
  Qed.

  Lemma rm_length : forall x y, rm R x y -> length x <= length y.
  Proof.
    intros x y [r u w Hr _]. rewrite !app_length. cbn. pose proof (Hne r Hr). destruct (p_rhs r); [congruence|]. cbn. lia.
  Qed.

  Lemma derives_sen : forall x A v, derives R start (x ++ A :: v) -> term x -> term v ->
    exists g n, sen (g ++ A :: v) /\ rmn n g x.
  Proof.
    intros x A v H Hx Hv. destruct (proj1 (derives_rm_context R) _ _ H x A v eq_refl Hv) as (n & g & H1 & H2).
    destruct (proj2 (derives_rm R) _ _ H2 Hx) as (m & H3). exists g, m. split; [|auto]. eapply sen_rmn; [exact H1|constructor].
  Qed.

  Lemma suffix_terminal : forall (a c u z : list sym) A, c ++ z = a ++ A :: u -> ~ terminal R A -> term z -> exists c', c = a ++ A :: c' /\ u = c' ++ z.
  Proof.
    intros a c u z A E HA Hz. apply app_cons_split in E. destruct E as [(v1 & -> & ->)|(xs & -> & ->)]; [eauto|].
    exfalso. apply HA. apply Forall_app in Hz. destruct Hz as [_ Hz]. now inversion Hz.
  Qed.

  Lemma lhs_nonterminal : forall r, In r R -> ~ terminal R (p_lhs r).
  Proof. intros r Hr H. now apply (H r). Qed.

  (** no step inside what stands left of the dot leads to a form in which the rest of the rule has just been derived *)
  Lemma no_inner_step : forall r beta gamma z g v n, In r R -> p_rhs r = beta ++ gamma -> rmn n gamma z -> z <> [] -> term z -> term v ->
    sen (g ++ p_lhs r :: v) -> forall p, rm R p (g ++ beta) -> ~ sen (p ++ z ++ v).
  Proof.
    intros r beta gamma z g v n Hr Er Hg Hz Tz Tv Hs p Hp Sp.
    assert (Tzv : term (z ++ v)) by (apply Forall_app; auto).
    assert (St : rm R (p ++ z ++ v) (g ++ beta ++ z ++ v)).
    { pose proof (rm_context R p (g ++ beta) [] (z ++ v) Hp Tzv) as X. cbn in X. rewrite <- (app_assoc g beta) in X. exact X. }
    assert (S1 : sen (g ++ beta ++ gamma ++ v)).
    { eapply sen_step; [exact Hs|]. pose proof (rm_step R r g v Hr Tv) as X. rewrite Er, <- app_assoc in X. exact X. }
    assert (E : exists a' A' b', rm R (a' ++ A' :: b' ++ v) (g ++ beta ++ z ++ v) /\ sen (a' ++ A' :: b' ++ v) /\ ~ terminal R A' /\ length b' < length z).
    { destruct n as [|n].
      - inversion Hg; subst. exists g, (p_lhs r), []. cbn [app]. split; [|split; [auto|split; [now apply lhs_nonterminal|destruct z; [congruence|cbn; lia]]]].
        pose proof (rm_step R r g v Hr Tv) as X. rewrite Er, <- app_assoc in X. exact X.
      - apply rmn_last in Hg. destruct Hg as (y & Hy & Hst).
        assert (Sy : sen (g ++ beta ++ y ++ v)).
        { eapply sen_rmn; [|exact S1]. pose proof (rmn_context R _ _ _ (g ++ beta) v Hy Tv) as X. rewrite <- !(app_assoc g) in X. exact X. }
        assert (Sz : rm R (g ++ beta ++ y ++ v) (g ++ beta ++ z ++ v)).
        { pose proof (rm_context R _ _ (g ++ beta) v Hst Tv) as X. rewrite <- !(app_assoc g) in X. exact X. }
        destruct Hst as [r2 a2 b2 R2 T2]. exists (g ++ beta ++ a2), (p_lhs r2), b2.
        assert (Ey : (g ++ beta ++ a2) ++ p_lhs r2 :: b2 ++ v = g ++ beta ++ (a2 ++ p_lhs r2 :: b2) ++ v) by (rewrite <- !app_assoc; reflexivity).
        rewrite Ey. split; [auto|]. split; [auto|]. split; [now apply lhs_nonterminal|].
        rewrite !app_length. pose proof (Hne r2 R2). destruct (p_rhs r2); [congruence|cbn; lia]. }
    destruct E as (a' & A' & b' & St' & Sen' & NT & Hl).
    pose proof (sen_back _ _ _ Sp Sen' St St') as Ex.
    destruct (suffix_terminal _ _ _ _ _ Ex NT Tzv) as (c' & _ & E2). apply (f_equal (@length sym)) in E2. rewrite !app_length in E2. lia.
  Qed.

  Lemma compare_forms : forall r beta gamma z m g1 v1 n1 g2 v2 n2 x, In r R -> p_rhs r = beta ++ gamma -> rmn m gamma z -> z <> [] -> term z ->
    term v1 -> term v2 -> sen (g1 ++ p_lhs r :: v1) -> sen (g2 ++ p_lhs r :: v2) -> term x ->
    rmn n1 (g1 ++ beta) x -> rmn n2 (g2 ++ beta) x -> n2 <= n1 -> g1 = g2.
  Proof.
    intros r beta gamma z m g1 v1 n1 g2 v2 n2 x Hr Er Hg Hz Tz T1 T2 S1 S2 Tx H1 H2 Hn.
    assert (X : forall g v, sen (g ++ p_lhs r :: v) -> term v -> sen ((g ++ beta) ++ z ++ v)).
    { intros g v Hs Tv. assert (Y : sen (g ++ beta ++ gamma ++ v)).
      { eapply sen_step; [exact Hs|]. pose proof (rm_step R r g v Hr Tv) as X. rewrite Er, <- app_assoc in X. exact X. }
      eapply sen_rmn; [|exact Y]. pose proof (rmn_context R _ _ _ (g ++ beta) v Hg Tv) as X. rewrite <- (app_assoc g beta (gamma ++ v)) in X. exact X. }
    pose proof (X _ _ S1 T1) as F1. pose proof (X _ _ S2 T2) as F2.
    assert (Tz1 : term (z ++ v1)) by (apply Forall_app; auto). assert (Tz2 : term (z ++ v2)) by (apply Forall_app; auto).
    assert (Hh : hd_error (z ++ v1) = hd_error (z ++ v2)) by (destruct z; [congruence|reflexivity]).
    assert (G2 : sen (x ++ z ++ v2)). { eapply sen_rmn; [|exact F2]. exact (rmn_context R _ _ _ [] (z ++ v2) H2 Tz2). }
    assert (G1 : sen ((g1 ++ beta) ++ z ++ v2)) by (eapply (transfer n1); [exact H1|exact Tz1|exact Tz2|exact Hh|exact F1|exact G2]).
    replace n1 with ((n1 - n2) + n2) in H1 by lia. apply rmn_split in H1. destruct H1 as (d & D1 & D2).
    assert (Ed : d = g2 ++ beta).
    { apply (app_inv_tail (z ++ v2)). apply (same_height n2 _ _ (x ++ z ++ v2)); auto.
      - eapply sen_rmn; [|exact G1]. exact (rmn_context R _ _ _ [] (z ++ v2) D1 Tz2).
      - exact (rmn_context R _ _ _ [] (z ++ v2) D2 Tz2).
      - exact (rmn_context R _ _ _ [] (z ++ v2) H2 Tz2). }
    subst d. destruct (n1 - n2) as [|k].
    - inversion D1; subst. eapply app_inv_tail; eauto.
    - exfalso. apply rmn_last in D1. destruct D1 as (p & P1 & P2).
      apply (no_inner_step r beta gamma z g2 v2 m Hr Er Hg Hz Tz T2 S2 p P2).
      eapply sen_rmn; [|exact G1]. exact (rmn_context R _ _ _ [] (z ++ v2) P1 Tz2).
  Qed.

  Lemma sen_level : forall x, sen x -> exists n, rmn n [start] x.
  Proof.
    induction 1 as [|x y _ (n & IH) Hs]; [exists 0; constructor|]. exists (n + 1). eapply rmn_trans; [exact IH|].
    econstructor; [exact Hs|constructor].
  Qed.

  Lemma no_cycle : forall n s, sen s -> ~ rmn (S n) s s.
  Proof.
    intros n s Hs H. destruct (sen_level s Hs) as (a & Ha).
    assert (X : rmn (S n + a) [start] s) by (rewrite Nat.add_comm; eapply rmn_trans; eauto).
    apply rmn_split in X. destruct X as (q & H1 & H2).
    assert (q = [start]) as ->. { eapply same_height; eauto; [|constructor]. eapply sen_rmn; [exact H1|constructor]. }
    apply rmn_last in H1. destruct H1 as (y & _ & St). inversion St as [r u w Hr _ E1 E2]; subst.
    destruct u as [|a' u].
    - cbn in E2. destruct (p_rhs r) as [|b l] eqn:Er; [now apply (Hne r)|]. injection E2 as -> _.
      apply (Hroot r Hr). rewrite Er. now left.
    - cbn in E2. injection E2 as _ E2. destruct u; [|discriminate]. cbn in E2. destruct (p_rhs r) as [|b l] eqn:Er; [now apply (Hne r)|discriminate].
  Qed.

  Lemma same_level : forall n m p s, sen p -> rmn n p s -> rmn m p s -> n = m.
  Proof.
    assert (X : forall n m p s, sen p -> rmn n p s -> rmn m p s -> ~ n < m).
    { intros n m p s Hp H1 H2 Hl. replace m with (S (m - n - 1) + n) in H2 by lia. apply rmn_split in H2. destruct H2 as (q & A & B).
      assert (q = p) as ->. { eapply same_height; [|exact Hp|exact B|exact H1]. eapply sen_rmn; eauto. }
      eapply no_cycle; eauto. }
    intros n m p s Hp H1 H2. pose proof (X n m p s Hp H1 H2). pose proof (X m n p s Hp H2 H1). lia.
  Qed.

  Lemma terminal_stuck : forall n x y, term x -> rmn n x y -> x = y.
  Proof. intros n x y Hx H. inversion H as [|? ? ? ? Hs]; subst; [auto|]. now apply terminal_no_step in Hs. Qed.

  Lemma compare_parts : forall g beta u y1 y2 n1 n2 x1 x2 m1 m2, sen (g ++ beta ++ u) -> term u -> term y1 -> term y2 ->
    rmn n1 beta y1 -> rmn n2 beta y2 -> rmn m1 g x1 -> rmn m2 g x2 -> x1 ++ y1 = x2 ++ y2 -> n1 <= n2 -> y1 = y2.
  Proof.
    intros g beta u y1 y2 n1 n2 x1 x2 m1 m2 S Tu T1 T2 B1 B2 G1 G2 E Hn.
    assert (K : forall n b y m x, rmn n b y -> term y -> rmn m g x ->
      rmn n (g ++ b ++ u) (g ++ y ++ u) /\ rmn m (g ++ y ++ u) (x ++ y ++ u)).
    { intros n b y m x H1 Ty H2. split; [now apply rmn_context|]. apply (rmn_context R _ _ _ [] (y ++ u)); [auto|]. apply Forall_app; auto. }
    destruct (K _ _ _ _ _ B1 T1 G1) as [C1 D1]. destruct (K _ _ _ _ _ B2 T2 G2) as [C2 D2].
    rewrite (app_assoc x1), E, <- (app_assoc x2) in D1.
    assert (L : n1 + m1 = n2 + m2). { eapply same_level; [exact S| |]; eapply rmn_trans; eauto. }
    replace n2 with (n1 + (n2 - n1)) in B2 by lia. apply rmn_split in B2. destruct B2 as (b & H1 & H2).
    assert (Eb : g ++ b ++ u = g ++ y1 ++ u).
    { apply (same_height m1 _ _ (x2 ++ y2 ++ u)).
      - eapply sen_rmn; [apply rmn_context; [exact H1|exact Tu]|exact S].
      - eapply sen_rmn; [exact C1|exact S].
      - replace m1 with ((n2 - n1) + m2) by lia. destruct (K _ _ _ _ _ H2 T2 G2) as [C D]. eapply rmn_trans; eauto.
      - exact D1. }
    apply app_inv_head, app_inv_tail in Eb. subst b. eapply terminal_stuck; eauto.
  Qed.

  (** Where the part of a rule left of the dot begins is determined by the rule, the dot and the text read. *)
  Lemma unique_origin : forall r beta gamma z x1 y1 v1 x2 y2 v2, In r R -> p_rhs r = beta ++ gamma -> gamma <> [] ->
    derives_seq R gamma z -> term z ->
    term x1 -> term y1 -> term v1 -> derives R start (x1 ++ p_lhs r :: v1) -> derives_seq R beta y1 ->
    term x2 -> term y2 -> term v2 -> derives R start (x2 ++ p_lhs r :: v2) -> derives_seq R beta y2 ->
    x1 ++ y1 = x2 ++ y2 -> x1 = x2.
  Proof.
    intros r beta gamma z x1 y1 v1 x2 y2 v2 Hr Er Hg Hz Tz Tx1 Ty1 Tv1 D1 B1 Tx2 Ty2 Tv2 D2 B2 E.
    destruct (derives_sen _ _ _ D1 Tx1 Tv1) as (g1 & m1 & S1 & G1). destruct (derives_sen _ _ _ D2 Tx2 Tv2) as (g2 & m2 & S2 & G2).
    destruct (proj2 (derives_rm R) _ _ B1 Ty1) as (n1 & N1). destruct (proj2 (derives_rm R) _ _ B2 Ty2) as (n2 & N2).
    destruct (proj2 (derives_rm R) _ _ Hz Tz) as (k & Nz).
    assert (Zn : z <> []).
    { destruct gamma as [|c gamma]; [congruence|]. inversion Hz as [|? ? w1 w2 Hc _]; subst. apply (derives_nonempty R Hne) in Hc.
      destruct w1; [congruence|discriminate]. }
    assert (K : forall g m x n y, rmn m g x -> rmn n beta y -> term y -> rmn (n + m) (g ++ beta) (x ++ y)).
    { intros g m x n y H1 H2 Ty. eapply rmn_trans.
      - pose proof (rmn_context R _ _ _ g [] H2 (Forall_nil _)) as X. rewrite !app_nil_r in X. exact X.
      - exact (rmn_context R _ _ _ [] y H1 Ty). }
    pose proof (K _ _ _ _ _ G1 N1 Ty1) as K1. pose proof (K _ _ _ _ _ G2 N2 Ty2) as K2. rewrite <- E in K2.
    assert (Tx : term (x1 ++ y1)) by (apply Forall_app; auto).
    assert (g1 = g2) as <-.
    { destruct (le_lt_dec (n2 + m2) (n1 + m1)) as [Hl|Hl].
      - eapply (compare_forms r beta gamma z k g1 v1 (n1 + m1) g2 v2 (n2 + m2)); eauto.
      - symmetry. eapply (compare_forms r beta gamma z k g2 v2 (n2 + m2) g1 v1 (n1 + m1)); eauto. lia. }
    assert (S3 : sen (g1 ++ beta ++ z ++ v1)).
    { pose proof (rmn_context R _ _ _ (g1 ++ beta) v1 Nz Tv1) as X. rewrite <- !(app_assoc g1) in X.
      eapply sen_rmn; [exact X|]. eapply sen_step; [exact S1|]. pose proof (rm_step R r g1 v1 Hr Tv1) as Y. rewrite Er, <- app_assoc in Y. exact Y. }
    assert (Tu : term (z ++ v1)) by (apply Forall_app; auto).
    assert (y1 = y2) as <-; [|eapply app_inv_tail; eauto].
    destruct (le_lt_dec n1 n2) as [Hl|Hl].
    - eapply (compare_parts g1 beta (z ++ v1) y1 y2 n1 n2 x1 x2 m1 m2); eauto.
    - symmetry. eapply (compare_parts g1 beta (z ++ v1) y2 y1 n2 n1 x2 x1 m2 m1); eauto. lia.
  Qed.

  (** If [A] can be followed by [t], and after something derived from [A] the symbol [t] can go on with [A], then
      by left recursion. *)
  Lemma left_recursion : forall A t u v x z, terminal R t -> term u -> term v -> term x -> term z -> x <> [] ->
    derives R start (u ++ A :: t :: v) -> derives R A x -> derives R A (x ++ t :: z) -> derives R A (A :: t :: z).
  Proof.
    intros A t u v x z Tt Tu Tv Tx Tz Hx D D1 D2.
    assert (Ttv : term (t :: v)) by (constructor; auto).
    assert (Ttz : term (t :: z ++ t :: v)) by (constructor; [auto|apply Forall_app; auto]).
    destruct (derives_sen _ _ _ D Tu Ttv) as (g & _ & S & _).
    destruct (proj1 (derives_rm R) _ _ D1 Tx) as (k & K).
    assert (Txz : term (x ++ t :: z)) by (apply Forall_app; split; [auto|constructor; auto]).
    destruct (proj1 (derives_rm R) _ _ D2 Txz) as (m & M).
    change (g ++ A :: t :: v) with (g ++ [A] ++ t :: v) in S.
    assert (F2 : rmn m (g ++ [A] ++ t :: v) (g ++ x ++ t :: z ++ t :: v)).
    { pose proof (rmn_context R _ _ _ g (t :: v) M Ttv) as X. rewrite <- app_assoc in X. exact X. }
    assert (S2 : sen (g ++ x ++ t :: z ++ t :: v)) by (eapply sen_rmn; eauto).
    assert (K1 : rmn k (g ++ [A]) (g ++ x)).
    { pose proof (rmn_context R _ _ _ g [] K (Forall_nil _)) as X. rewrite !app_nil_r in X. exact X. }
    assert (S3 : sen ((g ++ [A]) ++ t :: z ++ t :: v)).
    { eapply (transfer k); [exact K1|exact Ttv|exact Ttz|reflexivity| |]; rewrite <- app_assoc; auto. }
    assert (F3 : rmn k ((g ++ [A]) ++ t :: z ++ t :: v) (g ++ x ++ t :: z ++ t :: v)).
    { pose proof (rmn_context R _ _ _ [] (t :: z ++ t :: v) K1 Ttz) as X. cbn [app] in X. rewrite <- (app_assoc g x) in X. exact X. }
    destruct (le_lt_dec k m) as [Hl|Hl].
    - replace m with ((m - k) + k) in M by lia. apply rmn_split in M. destruct M as (d & M1 & M2).
      assert (E : g ++ d ++ t :: v = (g ++ [A]) ++ t :: z ++ t :: v).
      { apply (same_height k _ _ (g ++ x ++ t :: z ++ t :: v)); auto.
        - eapply sen_rmn; [exact (rmn_context R _ _ _ g (t :: v) M1 Ttv)|exact S].
        - pose proof (rmn_context R _ _ _ g (t :: v) M2 Ttv) as X. rewrite <- (app_assoc x) in X. exact X. }
      rewrite <- app_assoc in E. apply app_inv_head in E.
      change ([A] ++ t :: z ++ t :: v) with ((A :: t :: z) ++ t :: v) in E. apply app_inv_tail in E. subst d.
      apply rmn_derives in M1. now apply derives_seq_one.
    - exfalso. replace k with ((k - m) + m) in K by lia. apply rmn_split in K. destruct K as (d & M1 & M2).
      assert (E : (g ++ d) ++ t :: z ++ t :: v = g ++ [A] ++ t :: v).
      { apply (same_height m _ _ (g ++ x ++ t :: z ++ t :: v)); auto.
        - eapply sen_rmn; [|exact S3]. pose proof (rmn_context R _ _ _ g (t :: z ++ t :: v) M1 Ttz) as X. rewrite !(app_assoc g) in X. exact X.
        - pose proof (rmn_context R _ _ _ g (t :: z ++ t :: v) M2 Ttz) as X. rewrite (app_assoc g d) in X. exact X. }
      rewrite <- app_assoc in E. apply app_inv_head in E. apply (f_equal (@length sym)) in E. rewrite !app_length in E. cbn in E.
      rewrite app_length in E. cbn in E. destruct d; cbn in E; [|lia]. apply Hx. inversion M2 as [|? ? ? ? Q]; subst; [auto|].
      inversion Q as [r a b ? ? E1]. destruct a; discriminate.
  Qed.
End LR1.
