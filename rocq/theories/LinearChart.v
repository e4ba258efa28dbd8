(** LinearChart: the chart of an LR(1) grammar. *)
From Coq Require Import List Arith Bool Lia Relations.
From Verif Require Import Base Grammar DefaultGrammar Spec SpecFacts Chart ChartFacts ChartSpec LRSpec LRFacts.
Import ListNotations.

Lemma reads_unique : forall W, (forall j, length (W j) <= 1) -> forall i ys j, reads W i ys j -> forall zs, reads W i zs j -> ys = zs.
Proof.
  intros W H1 i ys j H. induction H as [i|i y ys j Hin H IH]; intros zs Hz.
  - inversion Hz as [|? z zs' ? Hi Hr]; subst; [auto|]. apply reads_length in Hr. lia.
  - inversion Hz as [|? z zs' ? Hi Hr]; subst; [apply reads_length in H; lia|].
    rewrite (IH _ Hr). f_equal. specialize (H1 i). destruct (W i) as [|a [|b l]]; cbn in H1; [destruct Hin| |lia].
    destruct Hin as [<-|[]], Hi as [<-|[]]. reflexivity.
Qed.

Lemma reads_forall : forall W (Q : sym -> Prop), (forall j y, In y (W j) -> Q (fst y)) -> forall i ys j, reads W i ys j -> Forall Q (map fst ys).
Proof. intros W Q H i ys j Hr. induction Hr; cbn; constructor; eauto. Qed.

(** What the charts of LR(1) grammars rest on: the part of a rule with two symbols left of the dot has one beginning, and ... *)
Definition one_origin (R : list prule) (nsyms : nat) (root : sym) : Prop := forall r B C T x1 y1 v1 x2 y2 v2, In r R -> p_rhs r = [B; C] -> topr R nsyms (p_lhs r) T ->
  Forall (terminal R) x1 -> Forall (terminal R) y1 -> Forall (terminal R) v1 -> derives R root (x1 ++ T :: v1) -> derives R B y1 ->
  Forall (terminal R) x2 -> Forall (terminal R) y2 -> Forall (terminal R) v2 -> derives R root (x2 ++ T :: v2) -> derives R B y2 ->
  x1 ++ y1 = x2 ++ y2 -> x1 = x2.
(** ... what can be followed by [t] and can also go on with it goes on by left recursion *)
Definition goes_on (R : list prule) (nsyms : nat) (root : sym) : Prop := forall A t u v x z, A < nsyms -> terminal R t ->
  Forall (terminal R) u -> Forall (terminal R) v -> Forall (terminal R) x -> Forall (terminal R) z -> x <> [] ->
  derives R root (u ++ A :: t :: v) -> derives R A x -> derives R A (x ++ t :: z) -> derives R A (A :: t :: z).

Lemma lr1_one_origin : forall R nsyms nall root, wf_rules R nsyms nall -> lr1 R root -> (forall r, In r R -> ~ In root (p_rhs r)) -> productive R ->
  one_origin R nsyms root.
Proof.
  intros R nsyms nall root wf Hlr Hroot Hprod r B C T x1 y1 v1 x2 y2 v2 Hin Er HT X1 Y1 V1 D1 B1 X2 Y2 V2 D2 B2 E.
  destruct (topr_derives R nsyms _ _ HT) as (l & Dl).
  assert (Ctx : forall x v, Forall (terminal R) v -> derives R root (x ++ T :: v) -> exists v', Forall (terminal R) v' /\ derives R root (x ++ p_lhs r :: v')).
  { intros x v Tv D. pose proof (derives_replace R _ _ _ _ _ D Dl) as D'. destruct (productive_seq R Hprod l) as (l' & Dl' & Tl').
    exists (l' ++ v). split; [apply Forall_app; auto|]. pose proof (derives_replace_seq R l l' Dl' root (x ++ [p_lhs r]) v) as X.
    rewrite <- !app_assoc in X. apply X. exact D'. }
  destruct (Ctx _ _ V1 D1) as (v1' & V1' & D1'). destruct (Ctx _ _ V2 D2) as (v2' & V2' & D2').
  destruct (productive_seq R Hprod [C]) as (z & Dz & Tz).
  assert (K : forall y, derives R B y -> derives_seq R [B] y).
  { intros y Hy. rewrite <- (app_nil_r y). constructor; [auto|constructor]. }
  eapply (unique_origin R root Hlr Hroot (nonempty_rhs R nsyms nall wf) r [B] [C] z x1 y1 v1' x2 y2 v2'); auto. discriminate.
Qed.

Lemma lr1_goes_on : forall R nsyms nall root, wf_rules R nsyms nall -> lr1 R root -> (forall r, In r R -> ~ In root (p_rhs r)) -> goes_on R nsyms root.
Proof.
  intros R nsyms nall root wf Hlr Hroot A t u v x z _. exact (left_recursion R root Hlr Hroot (nonempty_rhs R nsyms nall wf) A t u v x z).
Qed.

Section LinearChart.
  Variable R : list prule.
  Variables nsyms nall : nat.
  Variable root : sym.
  Variable W : nat -> list (sym * nat).
  Variable hint : nat -> option sym.
  Variable FIRST FOLLOW : sym -> sym -> bool.
  Variable la : bool.
  Variable keep : nat -> sym -> bool.
  Variable seed : nat -> sym -> Prop.
  Hypothesis wf : wf_rules R nsyms nall.
  Hypothesis Horigin : one_origin R nsyms root.
  Hypothesis Hprod : productive R.
  Hypothesis Hone : forall j, length (W j) <= 1.
  Hypothesis Hterm : forall j y, In y (W j) -> terminal R (fst y).
  Hypothesis Hseed : forall j s, ~ seed j s.
  Notation Sym := (Sym R nsyms root W hint FIRST FOLLOW la keep seed).
  Notation Comp := (Comp R nsyms root W hint FIRST FOLLOW la keep seed).
  Notation Med := (Med R nsyms root W hint FIRST FOLLOW la keep seed).
  Notation Pred := (Pred R nsyms root W hint FIRST FOLLOW la keep seed).
  Notation term := (Forall (terminal R)).

  Let Hne : forall r, In r R -> p_rhs r <> [].
  Proof. exact (nonempty_rhs R nsyms nall wf). Qed.

  Lemma close_right : forall s u v, derives R s (u ++ v) -> exists v', term v' /\ derives R s (u ++ v').
  Proof. intros s u v H. destruct (viable_close R Hprod s u v H) as (v' & T & D). eauto. Qed.

  Lemma close_context : forall s u A v, derives R s (u ++ A :: v) -> term u -> exists v', term v' /\ derives R s (u ++ A :: v').
  Proof.
    intros s u A v H _. change (A :: v) with ([A] ++ v) in H. rewrite app_assoc in H. destruct (close_right _ _ _ H) as (v' & T & D).
    exists v'. split; [auto|]. now rewrite <- app_assoc in D.
  Qed.

  Lemma med_context : forall d i j t, Med d i j t -> exists r T ys v, nth_error R d = Some r /\ topr R nsyms (p_lhs r) T /\ reads W 0 ys i /\
    derives R root (map fst ys ++ T :: v).
  Proof.
    intros d i j t H. inversion H as [d' r B C i' j' t' T Hr Er HS HT HP Hok]; subst.
    destruct (proj2 (proj2 (proj2 (chart_context R nsyms root W hint FIRST FOLLOW la keep seed Hseed))) _ _ HP) as (ys & v & A1 & A2).
    exists r, T, ys, v. auto.
  Qed.

  (** a rule with the dot in the middle has one origin *)
  Lemma med_unique : forall d i1 i2 j t1 t2, Med d i1 j t1 -> Med d i2 j t2 -> i1 = i2.
  Proof.
    intros d i1 i2 j t1 t2 M1 M2.
    destruct (med_context _ _ _ _ M1) as (r & T & x1 & v1 & Hr & HT & X1 & D1).
    destruct (med_context _ _ _ _ M2) as (r' & T' & x2 & v2 & Hr' & HT' & X2 & D2).
    rewrite Hr in Hr'. injection Hr' as <-. pose proof (topr_fun R nsyms nall wf _ _ HT _ HT') as <-.
    destruct (proj1 (proj2 (proj2 (chart_sound R nsyms root W hint FIRST FOLLOW la keep seed))) _ _ _ _ M1) as (r' & B & C & Hr' & Er & T1 & Y1 & _).
    rewrite Hr in Hr'. injection Hr' as <-.
    destruct (proj1 (proj2 (proj2 (chart_sound R nsyms root W hint FIRST FOLLOW la keep seed))) _ _ _ _ M2) as (r' & B' & C' & Hr' & Er' & T2 & Y2 & _).
    rewrite Hr in Hr'. injection Hr' as <-. rewrite Er in Er'. injection Er' as <- <-.
    pose proof (reads_forall _ _ Hterm _ _ _ X1) as Tx1. pose proof (reads_forall _ _ Hterm _ _ _ X2) as Tx2.
    pose proof (reads_forall _ _ Hterm _ _ _ Y1) as Ty1. pose proof (reads_forall _ _ Hterm _ _ _ Y2) as Ty2.
    destruct (close_context _ _ _ _ D1 Tx1) as (w1 & Tw1 & D1'). destruct (close_context _ _ _ _ D2 Tx2) as (w2 & Tw2 & D2').
    assert (Ex : map fst x1 = map fst x2).
    { apply (Horigin r B C T (map fst x1) (map fst (yield t1)) w1 (map fst x2) (map fst (yield t2)) w2); auto; try now apply tree_derives.
      - eapply nth_error_In; eauto.
      - rewrite <- !map_app. f_equal. eapply reads_unique; [exact Hone| |]; eapply reads_app; eauto. }
    apply (f_equal (@length _)) in Ex. rewrite !map_length in Ex. apply reads_length in X1. apply reads_length in X2. lia.
  Qed.

  (** ** Left recursion through a rule with two symbols *)
  Lemma spine : forall A w, derives R A w -> forall X t z, w = X :: t :: z ->
    exists r B C v z', In r R /\ p_rhs r = [B; C] /\ derives R A (p_lhs r :: v) /\ derives R B [X] /\ derives R C (t :: z').
  Proof.
    assert (K : (forall A w, derives R A w -> forall X t z, w = X :: t :: z ->
        exists r B C v z', In r R /\ p_rhs r = [B; C] /\ derives R A (p_lhs r :: v) /\ derives R B [X] /\ derives R C (t :: z')) /\
      (forall ss w, derives_seq R ss w -> match ss with
         | [B] => forall X t z, w = X :: t :: z -> exists r B' C v z', In r R /\ p_rhs r = [B'; C] /\ derives R B (p_lhs r :: v) /\ derives R B' [X] /\ derives R C (t :: z')
         | [B; C] => forall X t z, w = X :: t :: z -> (derives R B [X] /\ exists z', derives R C (t :: z')) \/
             exists r B' C' v z', In r R /\ p_rhs r = [B'; C'] /\ derives R B (p_lhs r :: v) /\ derives R B' [X] /\ derives R C' (t :: z')
         | _ => True end)).
    { apply derives_both.
      - intros s X t z E. discriminate.
      - intros r w Hin Hd IH X t z E.
        destruct (rhs_cases R nsyms nall wf r Hin) as [(B & Er & _)|(B & C & Er & _)]; rewrite Er in *.
        + destruct (IH X t z E) as (r0 & B' & C & v & z' & I1 & E1 & D1 & D2 & D3). exists r0, B', C, v, z'.
          split; [auto|]. split; [auto|]. split; [|auto]. apply derives_rule; [auto|]. rewrite Er.
          rewrite <- (app_nil_r (p_lhs r0 :: v)). constructor; [auto|constructor].
        + destruct (IH X t z E) as [(D1 & z' & D2)|(r0 & B' & C' & v & z' & I1 & E1 & D1 & D2 & D3)].
          * exists r, B, C, [], z'. split; [auto|]. split; [auto|]. split; [constructor|auto].
          * exists r0, B', C', (v ++ [C]), z'. split; [auto|]. split; [auto|]. split; [|auto]. apply derives_rule; [auto|]. rewrite Er.
            change (p_lhs r0 :: v ++ [C]) with ((p_lhs r0 :: v) ++ [C]). constructor; [auto|]. apply derives_seq_self.
      - exact I.
      - intros s ss w1 w2 H1 IH1 H2 IH2. destruct ss as [|C [|? ?]]; [| |exact I].
        + intros X t z E. inversion H2; subst. rewrite app_nil_r in E. exact (IH1 X t z E).
        + intros X t z E. pose proof (derives_nonempty R Hne _ _ H1) as Hn. destruct w1 as [|a [|b w1]]; [congruence| |].
          * cbn in E. injection E as -> ->. left. split; [auto|]. exists z. now apply derives_seq_one.
          * cbn in E. injection E as -> -> _. right. exact (IH1 X t w1 eq_refl). }
    exact (proj1 K).
  Qed.

  (** predictions go down the left edge *)
  Lemma left_edge : forall A w, derives R A w -> forall X v, w = X :: v -> forall T i, topr R nsyms A T -> Pred T i ->
    exists T', topr R nsyms X T' /\ Pred T' i.
  Proof.
    assert (K : (forall A w, derives R A w -> forall X v, w = X :: v -> forall T i, topr R nsyms A T -> Pred T i ->
        exists T', topr R nsyms X T' /\ Pred T' i) /\
      (forall ss w, derives_seq R ss w -> forall B ss', ss = B :: ss' -> forall X v, w = X :: v -> forall T i, topr R nsyms B T -> Pred T i ->
        exists T', topr R nsyms X T' /\ Pred T' i)).
    { apply derives_both.
      - intros s X v [= <- _] T i HT HP. eauto.
      - intros r w Hin Hd IH X v E T i HT HP.
        destruct (p_rhs r) as [|B ss'] eqn:Er; [exfalso; eapply Hne; eauto|].
        assert (H0 : nth_error (p_rhs r) 0 = Some B) by now rewrite Er.
        assert (HB : exists T', topr R nsyms B T' /\ Pred T' i).
        { destruct (le_lt_dec nsyms B) as [Hg|Hl].
          - exists T. split; [|auto]. eapply topr_gen; eauto.
          - exists B. split; [now apply top_here|]. eapply Pred_pred; eauto. eapply topr_pred; eauto. }
        destruct HB as (T' & H1 & H2). exact (IH B ss' eq_refl X v E T' i H1 H2).
      - intros B ss' E. discriminate.
      - intros s ss w1 w2 H1 IH1 H2 _ B ss' [= <- _] X v E T i HT HP.
        pose proof (derives_nonempty R Hne _ _ H1) as Hn. destruct w1 as [|a w1]; [congruence|].
        cbn in E. injection E as -> _. eapply (IH1 X w1); eauto. }
    exact (proj1 K).
  Qed.

  Lemma comp_pred : forall d i j ts r, Comp d i j ts -> nth_error R d = Some r -> exists T, topr R nsyms (p_lhs r) T /\ Pred T i.
  Proof.
    intros d i j ts r H Hr. inversion H as [d' r' B i' j' t T Hr' Er _ HT HP _|d' r' B C i' m j' t1 t2 Hr' Er HM _ _]; subst.
    - rewrite Hr in Hr'. injection Hr' as <-. eauto.
    - rewrite Hr in Hr'. injection Hr' as <-. inversion HM as [d' r' B' C' i' j' t T Hr' Er' _ HT HP _]; subst.
      rewrite Hr in Hr'. injection Hr' as <-. eauto.
  Qed.

  (** ** With true hints, what is completed twice from the same origin goes on *)
  Hypothesis Hrec : goes_on R nsyms root.
  Hypothesis HFI : first_complete R nsyms FIRST.
  Hypothesis HFO : follow_complete R root nsyms FOLLOW.
  Hypothesis HFS : forall A t, FOLLOW A t = true -> exists u v, derives R root (u ++ A :: t :: v).
  Hypothesis Hla : negb la = false.
  Hypothesis Hkeep : forall j s, keep j s = true.
  Hypothesis Hhint : forall j t, hint j = Some t -> t < nsyms /\ terminal R t.
  Hypothesis Htrue : forall j y, In y (W j) -> hint j = Some (fst y) \/ (hint j = None /\ j < 2).
  (** generated symbols have a rule with two symbols *)
  Hypothesis Hgen : forall s, nsyms <= s -> s < nall -> exists r C, In r R /\ p_rhs r = [s; C].

  (** a generated symbol just read *)
  Lemma gen_med : forall s i j t T, nsyms <= s -> s < nall -> Sym s i j t -> topr R nsyms s T -> Pred T i -> exists d t', Med d i j t'.
  Proof.
    intros s i j t T Hs Hr HS HT HP. destruct (Hgen s Hs Hr) as (r & C & Hin & Er). apply In_nth_error in Hin. destruct Hin as (d & Hd).
    exists d, t. eapply Med_intro; eauto.
    - inversion HT as [A Hl|A r' T' Hg Hin' H0 Ht]; subst; [lia|]. apply In_nth_error in Hin'. destruct Hin' as (d' & Hd').
      assert (H1 : nth_error (p_rhs r) 0 = Some s) by now rewrite Er.
      destruct (wf_gen_unique _ _ _ wf d d' r r' s Hs Hd Hd' H1 H0) as [El _]. now rewrite El.
    - unfold ok_medial. apply Nat.leb_le in Hs. now rewrite Hs.
  Qed.

  Lemma comp_continues : forall d i j j' ts ts', Comp d i j ts -> Comp d i j' ts' -> 2 <= j -> j < j' -> exists d' t, Med d' i j t.
  Proof.
    intros d i j j' ts ts' H1 H2 Hj2 Hlt.
    destruct (proj1 (proj2 (chart_sound R nsyms root W hint FIRST FOLLOW la keep seed)) _ _ _ _ H1) as (r & Hr & P1 & Y1 & _).
    destruct (proj1 (proj2 (chart_sound R nsyms root W hint FIRST FOLLOW la keep seed)) _ _ _ _ H2) as (r' & Hr' & P2 & Y2 & _).
    rewrite Hr in Hr'. injection Hr' as <-.
    pose proof (nth_error_In _ _ Hr) as Hin. pose proof (wf_lhs_range _ _ _ wf r Hin) as Hrange.
    destruct (comp_pred _ _ _ _ _ H1 Hr) as (T & HT & HP).
    destruct (le_lt_dec nsyms (p_lhs r)) as [Hg|Hl].
    { eapply (gen_med (p_lhs r)); eauto. eapply Sym_group; eauto. }
    assert (Hok : ok_lhs nsyms FOLLOW la (hint j) (p_lhs r) = true \/ exists d' t, Med d' i j t).
    { inversion H1 as [d' r' B i' j0 t T' Hr' Er HS HT' HP' Hok|d' r' B C i' m j0 t1 t2 Hr' Er HM HS Hok]; subst.
      - rewrite Hr in Hr'. injection Hr' as <-. unfold ok_unary in Hok. destruct (Nat.leb_spec nsyms B) as [HB|HB]; [|left; exact Hok].
        right. eapply (gen_med B); eauto; [apply (wf_rhs_range _ _ _ wf r B Hin); rewrite Er; simpl; auto|].
        eapply top_up; eauto. now rewrite Er.
      - rewrite Hr in Hr'. injection Hr' as <-. now left. }
    destruct Hok as [Hok|]; [|auto].
    set (ys := flat_map yield ts) in *. set (ys' := flat_map yield ts') in *.
    (* what was read after [j] *)
    assert (Hys' : exists y zs, ys' = ys ++ y :: zs /\ In y (W j) /\ reads W (S j) zs j').
    { pose proof (reads_length _ _ _ _ Y1) as L1. pose proof (reads_length _ _ _ _ Y2) as L2.
      assert (Y2' : reads W i (firstn (length ys) ys' ++ skipn (length ys) ys') j') by now rewrite firstn_skipn.
      apply reads_split in Y2'. rewrite firstn_length_le in Y2' by lia. replace (i + length ys) with j in Y2' by lia.
      destruct Y2' as [Ya Yb]. pose proof (reads_unique _ Hone _ _ _ Ya _ Y1) as Ea.
      inversion Yb as [? E1 E2|? y zs ? Hy Hz]; subst; [lia|]. exists y, zs. split; [|auto].
      rewrite <- Ea at 1. match goal with X : _ :: _ = skipn _ _ |- _ => rewrite X end. now rewrite firstn_skipn. }
    destruct Hys' as (y & zs & Eys & Hy & Hz).
    assert (Hj : i < j) by (eapply Comp_lt; eauto).
    destruct j as [|j]; [lia|]. destruct (Htrue _ _ Hy) as [Eh|[_ ?]]; [|lia]. set (t := fst y) in *.
    destruct (Hhint _ _ Eh) as [Htn Tt].
    assert (HF : FOLLOW (p_lhs r) t = true).
    { unfold ok_lhs in Hok. apply Nat.leb_gt in Hl. rewrite Hl in Hok. cbn in Hok. unfold check in Hok. now rewrite Hla, Eh in Hok. }
    destruct (HFS _ _ HF) as (u0 & v0 & D0).
    assert (D0' : exists u v, term u /\ term v /\ derives R root (u ++ p_lhs r :: t :: v)).
    { destruct (productive_seq R Hprod u0) as (u & Du & Tu). destruct (productive_seq R Hprod v0) as (v & Dv & Tv).
      exists u, v. split; [auto|]. split; [auto|]. pose proof (derives_replace_seq R u0 u Du root [] _ D0) as X. cbn [app] in X.
      pose proof (derives_replace_seq R v0 v Dv root (u ++ [p_lhs r; t]) []) as X2. rewrite !app_nil_r, <- !app_assoc in X2. exact (X2 X). }
    destruct D0' as (u & v & Tu & Tv & Duv).
    assert (Dx : derives R (p_lhs r) (map fst ys)) by (apply derives_rule; [auto|now apply tree_derives]).
    assert (Dxz : derives R (p_lhs r) (map fst ys ++ t :: map fst zs)).
    { apply derives_rule; [auto|]. pose proof (proj2 (tree_derives R) _ _ P2) as X. fold ys' in X. rewrite Eys, map_app in X. exact X. }
    pose proof (reads_forall _ _ Hterm _ _ _ Y1) as Tx. pose proof (reads_forall _ _ Hterm _ _ _ Hz) as Tz.
    assert (Hnx : map fst ys <> []) by exact (derives_nonempty R Hne _ _ Dx).
    pose proof (Hrec (p_lhs r) t u v (map fst ys) (map fst zs) Hl Tt Tu Tv Tx Tz Hnx Duv Dx Dxz) as DL.
    destruct (spine _ _ DL _ _ _ eq_refl) as (r0 & B & C & v1 & z1 & Hin0 & Er0 & DA & DB & DC).
    destruct (left_edge _ _ DA _ _ eq_refl T i HT HP) as (T0 & HT0 & HP0).
    destruct (proj1 (proj2 (chart_context R nsyms root W hint FIRST FOLLOW la keep seed Hseed)) _ _ _ _ H1) as (r' & xs & vx & Hr' & Hxs & Dr).
    rewrite Hr in Hr'. injection Hr' as <-.
    assert (DBx : derives R B (map fst ys)).
    { pose proof (derives_replace R B [] _ [] _ DB Dx) as X. cbn [app] in X. now rewrite app_nil_r in X. }
    destruct (proj1 (derives_tree R) _ _ DBx ys eq_refl) as (tb & Htb & Ytb).
    apply In_nth_error in Hin0. destruct Hin0 as (d0 & Hd0). exists d0, tb.
    pose proof (nth_error_In _ _ Hd0) as Hin0.
    set (rest := t :: z1 ++ v1 ++ vx).
    assert (Dctx : derives R root (map fst xs ++ B :: rest)).
    { pose proof (derives_replace R root _ _ _ _ Dr DA) as X1. cbn [app] in X1.
      assert (X2 : derives R (p_lhs r0) (B :: t :: z1)).
      { apply derives_rule; [auto|]. rewrite Er0. change (B :: t :: z1) with ([B] ++ t :: z1). constructor; [constructor|].
        rewrite <- (app_nil_r (t :: z1)). constructor; [auto|constructor]. }
      pose proof (derives_replace R root _ _ _ _ X1 X2) as X3. cbn [app] in X3. exact X3. }
    pose proof (reads_length _ _ _ _ Hxs) as Lx. cbn in Lx. pose proof (reads_length _ _ _ _ Y1) as Ly.
    assert (Lx' : length (map fst xs) = i) by (rewrite map_length; lia).
    assert (HTr : forall k s, k <= S j -> hint k = Some s -> nth_error (map fst xs ++ map fst ys ++ rest) k = Some s).
    { intros k s Hk Hs.
        assert (Hall : reads W 0 (xs ++ ys ++ y :: zs) j').
        { eapply reads_app; [exact Hxs|]. eapply reads_app; [exact Y1|]. now constructor. }
        assert (Hny : exists x, nth_error (xs ++ ys ++ y :: zs) k = Some x).
        { destruct (nth_error (xs ++ ys ++ y :: zs) k) eqn:Z; [eauto|]. apply nth_error_None in Z.
          apply reads_length in Hall. lia. }
        destruct Hny as (x & Hx). assert (Hw : In x (W (0 + k))).
        { clear -Hall Hx. revert Hx. generalize k. revert Hall. generalize (xs ++ ys ++ y :: zs). generalize 0.
          intros a l H. induction H as [|a x0 l j'' Hin H IH]; intros n Hx; [destruct n; discriminate|].
          destruct n as [|n]; cbn in Hx; [injection Hx as <-; now rewrite Nat.add_0_r|].
          replace (a + S n) with (S a + n) by lia. auto. }
        cbn in Hw. destruct (Htrue _ _ Hw) as [Hs'|[Hs' _]]; rewrite Hs in Hs'; [|discriminate]. injection Hs' as ->.
        assert (Hlt' : k < length (xs ++ ys ++ [y])) by (rewrite !app_length; cbn; lia).
        unfold rest. change (t :: z1 ++ v1 ++ vx) with ([fst y] ++ z1 ++ v1 ++ vx).
        rewrite (app_assoc (map fst ys)), (app_assoc (map fst xs)).
        replace (map fst xs ++ map fst ys ++ [fst y]) with (map fst (xs ++ ys ++ [y])) by (now rewrite !map_app).
        rewrite nth_error_app1 by (now rewrite map_length). apply map_nth_error.
        change (y :: zs) with ([y] ++ zs) in Hx. rewrite (app_assoc ys), (app_assoc xs) in Hx. rewrite nth_error_app1 in Hx by auto. exact Hx. }
    assert (HSym : Sym B i (S j) tb).
    { replace (S j) with (length (map fst xs) + length (yield tb)) by (rewrite Lx', Ytb; lia).
      assert (H0 : nth_error (p_rhs r0) 0 = Some B) by now rewrite Er0.
      rewrite <- Lx' at 1.
      eapply (in_chart_sub R nsyms nall root W hint FIRST FOLLOW la keep seed (map fst xs ++ map fst ys ++ rest) (S j)) with (r := r0) (T := T0) (v := rest); auto.
      - apply (proj1 (chart_complete R nsyms nall root W hint FIRST FOLLOW la keep seed wf HFI HFO Hhint (map fst xs ++ map fst ys ++ rest) (S j) HTr) _ _ Htb).
      - now rewrite Lx'.
      - apply (wf_rhs_range _ _ _ wf r0); [auto|]. rewrite Er0. simpl; auto.
      - now rewrite Ytb.
      - rewrite Lx', Ytb. lia.
      - rewrite Lx', Ytb, <- Ly. exact Y1.
      - eapply (proj1 (constituents_all R keep Hkeep)); eauto. }
    eapply Med_intro; eauto.
    unfold ok_medial, check. rewrite Hla, Eh. cbn [negb orb]. apply orb_true_iff. right.
    eapply HFI; eauto. apply (wf_rhs1 _ _ _ wf r0); [auto|]. now rewrite Er0.
  Qed.
End LinearChart.
