(** Core6: initial states, reset, and the finished node. *)
From Coq Require Import List Arith Bool Lia Permutation Sorted Relations.
From Verif Require Import Base BaseProofs Vec2d Vec2dProofs Item Heap HeapProofs Grammar BitMatrix
  DefaultGrammar Forest Recognizer Drive Spec Chart ChartFacts Tables Den Core1 Core2 Core3 Core4 Core5.
Import ListNotations.
Local Open Scope res_scope.

Definition no_seed : nat -> sym -> Prop := fun _ _ => False.

Section Core6.
  Variable P : perf.
  Variable g : dgrammar.
  Variable R : list prule.
  Variables nsyms nall : nat.
  Variables FIRST FOLLOW : sym -> sym -> bool.
  Variable root : sym.
  Hypothesis Hleo : LEO P = false.
  Hypothesis wf : wf_rules R nsyms nall.
  Hypothesis tok : tables_ok g R nsyms nall FIRST FOLLOW.
  Hypothesis Hroot : root < nsyms.
  Hypothesis Hstart : g_start_sym g = root.

  Notation state := (rstate (list (nat * fnode)) fnode).
  Notation eSym := (eSym P R nsyms FIRST FOLLOW root).
  Notation eComp := (eComp P R nsyms FIRST FOLLOW root).
  Notation eMed := (eMed P R nsyms FIRST FOLLOW root).
  Notation ePred := (ePred P R nsyms FIRST FOLLOW root).
  Notation Inv := (Inv P R nsyms FIRST FOLLOW root).
  Notation alive := (alive P R nsyms FIRST FOLLOW root).
  Notation row_ok := (row_ok R nsyms).

  Lemma feed_all_steps : forall fuel locs (st : state),
    feed_all free_forest P g fuel locs st = steps P g (remove_unreachable_sets P) fuel locs st.
  Proof.
    induction locs as [|l locs IH]; intros st; [reflexivity|].
    cbn [feed_all steps]. change (feed free_forest P g fuel l st) with
      (steploc P g (remove_unreachable_sets P) fuel l st).
    destruct (steploc P g (remove_unreachable_sets P) fuel l st) as [[[|] st']| |]; cbn [bind]; auto.
  Qed.

  Lemma feed_keeping_steps : forall fuel locs (st : state),
    feed_all_keeping_sets free_forest P g fuel locs st = steps P g (fun st => Ret st) fuel locs st.
  Proof.
    induction locs as [|l locs IH]; intros st; [reflexivity|].
    cbn [feed_all_keeping_sets steps]. change (feed_keeping_sets free_forest P g fuel l st) with
      (steploc P g (fun st => Ret st) fuel l st).
    destruct (steploc P g (fun st => Ret st) fuel l st) as [[[|] st']| |]; cbn [bind]; auto.
  Qed.

  Lemma Inv_weaken : forall E (Z Z' : sym -> Prop) k pos st, (forall s, Z s -> Z' s) ->
    Inv E Z k pos st -> Inv E Z' k pos st.
  Proof.
    intros E Z Z' k pos st HZ [A B C D]. constructor; auto.
    intros idx row Hrow. destruct (C idx row Hrow) as [X Y]. split; auto.
  Qed.

  Lemma zero_row_ok : row_ok (repeat false nsyms).
  Proof.
    split; [apply repeat_length|]. intros A B X. apply nth_error_In in X.
    apply repeat_spec in X. discriminate.
  Qed.

  (** states with an empty chart *)
  Lemma Inv_start : forall (Z : sym -> Prop) (st : state) row0 rows,
    rep (r_medial st) [] [] -> r_complete st = [] -> r_predicted st = row0 :: rows ->
    row_ok row0 -> (forall s, nth_error row0 s = Some true <-> s < nsyms /\ pred R nsyms root s) ->
    (forall row, In row rows -> row_ok row /\ forall s, nth_error row s = Some true -> Z s) ->
    Inv (env_of [] no_seed) Z 0 [0] st.
  Proof.
    intros Z st row0 rows Hrep Hc Hp Hok0 Hb Hrows. constructor; auto.
    - exists [], []. split; [auto|]. split; [auto|].
      split; [auto|]. split; [|split].
      + intros [|a] [|b] x y Hab Ha Hb'; try lia; destruct b; discriminate.
      + intros [|idx] p set Hp' Hset; [|destruct idx; discriminate]. injection Hp' as <-. injection Hset as <-.
        split; [split; [constructor|intros it []]|]. split; [intros it []|].
        intros d i t X. apply Med_lt in X. lia.
      + intros [|idx] p Hp'; [|destruct idx; discriminate]. injection Hp' as <-.
        exists row0. rewrite Hp. split; [reflexivity|]. split; [apply Hok0|].
        intros s. rewrite Hb. split; intros [Hs X]; split; auto.
        * now apply Pred_start.
        * inversion X as [s0 Hpr|d r B C i j t s0 Hr E HM Hpr|s0 s1 j Hsd Hpr]; subst; auto.
          -- apply Med_lt in HM. lia.
          -- destruct Hsd.
    - intros idx row Hrow. rewrite Hp in Hrow. destruct idx as [|idx]; simpl in Hrow.
      + injection Hrow as <-. split; [auto|]. simpl. lia.
      + apply nth_error_In in Hrow. destruct (Hrows row Hrow). split; auto.
  Qed.

  Lemma start_row : forall row0, length row0 = nsyms -> (forall s, nth_error row0 s <> Some true) ->
    exists src row0', prediction_row g root = Ret src /\ predict row0 root src = Ret row0' /\
      row_ok row0' /\ forall s, nth_error row0' s = Some true <-> s < nsyms /\ pred R nsyms root s.
  Proof.
    intros row0 Hl Hz.
    destruct (t_row _ _ _ _ _ _ tok root Hroot) as (src & Esrc & Hlsrc & Hsrc).
    exists src, (row_or row0 src). split; [auto|]. split.
    - unfold predict. destruct (idx_lt _ row0 root) as (b & Eb & Nb); [lia|]. rewrite Eb. cbn [bind].
      destruct b; [now apply Hz in Nb|reflexivity].
    - assert (Hb : forall s, nth_error (row_or row0 src) s = Some true <-> s < nsyms /\ pred R nsyms root s).
      { intros s. rewrite row_or_nth by lia. rewrite Hsrc. split; [|auto]. intros [X|X]; [now apply Hz in X|auto]. }
      split; [|exact Hb]. split; [now rewrite row_or_length|].
      intros A B HA HP HB. apply Hb in HA. apply Hb. split; [auto|]. eapply rt_trans; [apply HA|auto].
  Qed.

  Lemma r_new_spec : forall (f : list (nat * fnode)), exists st0, r_new g f = Ret st0 /\
    Inv (env_of [] no_seed) (fun _ => False) 0 [0] st0 /\ r_hint st0 = None /\ r_forest st0 = f.
  Proof.
    intros f. unfold r_new. rewrite (t_syms _ _ _ _ _ _ tok), Hstart.
    assert (Hz : forall s, nth_error (repeat false nsyms) s <> Some true).
    { intros s X. apply nth_error_In in X. apply repeat_spec in X. discriminate. }
    destruct (start_row (repeat false nsyms)) as (src & row0' & Esrc & Epr & Hok & Hb); [apply repeat_length|auto|].
    change (idx (bm_new 8 nsyms) 0) with (Ret (repeat false nsyms)). cbn [bind].
    rewrite Esrc. cbn [bind]. rewrite Epr. cbn [bind].
    change (upd (bm_new 8 nsyms) 0 row0') with (Ret (row0' :: repeat (repeat false nsyms) 7)). cbn [bind].
    eexists. split; [reflexivity|]. split; [|auto].
    eapply Inv_start with (row0 := row0') (rows := repeat (repeat false nsyms) 7); cbn; auto.
    - apply rep_new.
    - intros row Hrow.
      assert (row = repeat false nsyms).
      { apply (repeat_spec 7 _ row). exact Hrow. }
      subst row. split; [apply zero_row_ok|]. intros s X. now apply Hz in X.
  Qed.

  (** *** The start symbol is predicted at the beginning only *)
  Hypothesis Hrtop : forall r, In r R -> ~ In root (p_rhs r).

  Lemma pred_root : forall s, pred R nsyms s root -> s = root.
  Proof.
    assert (X : forall x y, pred R nsyms x y -> y = root -> x = root).
    { intros x y H. apply clos_rt_rtn1 in H. destruct H as [|y z (r & Hin & Hr & _) _]; [auto|]. intros Ez.
      exfalso. apply (Hrtop r Hin). rewrite <- Ez. eapply nth_error_In; eauto. }
    intros s H. now apply (X s root).
  Qed.

  Lemma Pred_root : forall E k, (forall j s, eseed E (S j) s -> s <> root) -> ePred E root k -> k = 0.
  Proof.
    intros E k0 Hs. clear Hstart.
    assert (X : forall x k, ePred E x k -> x = root -> k = 0).
    { intros x k H. inversion H as [s0 Hpr|d r B C i j t s0 Hr Er HM Hpr|s0 s1 j Hsd Hpr]; subst; intros Ex; auto.
      - exfalso. rewrite Ex in Hpr. apply pred_root in Hpr. apply (Hrtop r); [eapply nth_error_In; eauto|].
        rewrite Er, Hpr. simpl; auto.
      - rewrite Ex in Hpr. apply pred_root in Hpr. destruct k; [auto|]. exfalso. eapply Hs; eauto. }
    intros H. now apply (X root).
  Qed.

  (** rows other than the first never predict the start symbol *)
  Definition rows_fine (st : state) : Prop :=
    0 < length (r_predicted st) /\
    forall idx row, nth_error (r_predicted st) idx = Some row ->
      row_ok row /\ (0 < idx -> forall s, nth_error row s = Some true -> s <> root).

  Lemma Inv_rows_fine : forall E (Z : sym -> Prop) k pos st, (forall s, Z s -> s <> root) ->
    (forall j s, eseed E (S j) s -> s <> root) -> nth_error pos 0 = Some 0 ->
    Inv E Z k pos st -> rows_fine st.
  Proof.
    intros E Z k pos st HZ Hs Hp0 [(cs & O & Hrep & HL & Hx) Hlast Hrows Hheap].
    destruct Hx as (HLx & Hinc & _ & Hr). split.
    - destruct (Hr 0 0 Hp0) as (row & Hrow & _).
      assert (0 < length (r_predicted st)) by (apply nth_error_Some; congruence). lia.
    - intros idx row Hrow. destruct (Hrows idx row Hrow) as [Hok HZrow]. split; [auto|].
      intros Hi s Hsr ->. destruct (le_lt_dec (length pos) idx) as [Hge|Hlt].
      + apply (HZ root); auto.
      + destruct (nth_error pos idx) as [p|] eqn:Ep; [|apply nth_error_None in Ep; lia].
        destruct (Hr idx p Ep) as (row' & Hrow' & _ & Hb). rewrite Hrow in Hrow'. injection Hrow' as <-.
        apply Hb in Hsr. destruct Hsr as [_ X]. apply Pred_root in X; [|auto].
        assert (0 < p); [|lia]. apply (Hinc 0 idx); auto.
  Qed.

  Lemma reset_spec : forall st, rows_fine st ->
    exists st', reset g st = Ret st' /\ r_hint st' = r_hint st /\ r_forest st' = r_forest st /\
      Inv (env_of [] no_seed) (fun s => s <> root) 0 [0] st'.
  Proof.
    intros st [Hlen Hf]. unfold reset. cbn [r_predicted set_complete set_medial r_medial r_complete].
    destruct (r_predicted st) as [|row0 rows] eqn:Ep; [simpl in Hlen; lia|].
    change (idx (row0 :: rows) 0) with (Ret row0). cbn [bind]. rewrite Hstart.
    destruct (Hf 0 row0 eq_refl) as [Hok0 _].
    destruct (start_row (row_clear row0)) as (src & row0' & Esrc & Epr & Hok & Hb).
    { unfold row_clear. rewrite map_length. apply Hok0. }
    { intros s X. unfold row_clear in X. rewrite nth_error_map in X.
      destruct (nth_error row0 s); discriminate. }
    rewrite Esrc. cbn [bind]. rewrite Epr. cbn [bind].
    change (upd (row0 :: rows) 0 row0') with (Ret (row0' :: rows)). cbn [bind].
    eexists. split; [reflexivity|]. split; [reflexivity|]. split; [reflexivity|].
    eapply Inv_start with (row0 := row0') (rows := rows); cbn; auto.
    - eapply rep_clear.
    - intros row Hrow. apply In_nth_error in Hrow. destruct Hrow as [idx Hrow].
      destruct (Hf (S idx) row Hrow) as [A B]. split; [auto|]. apply B. lia.
  Qed.

  (** *** The finished node *)
  Variable dbe : nat.
  Variable r0 : prule.
  Variables g0 eof : sym.
  Hypothesis Hdbe : g_dot_before_eof g = dbe.
  Hypothesis Hr0 : nth_error R dbe = Some r0.
  Hypothesis Er0 : p_rhs r0 = [g0; eof].
  Hypothesis El0 : p_lhs r0 = root.
  Hypothesis Heof_min : forall d r C, nth_error R d = Some r -> rhs1 r = Some C -> eof < C \/ d = dbe.

  Lemma Med_dbe_start : forall E i j t, (forall j s, eseed E (S j) s -> s <> root) ->
    eMed E dbe i j t -> i = 0.
  Proof.
    intros E i j t Hs H. generalize El0, Pred_root. clear El0 Hstart Hdbe.
    inversion H as [d r B C i' j' t' T Hr Er HS Ht HP Hok]; subst. intros El0 Pred_root'.
    rewrite Hr0 in Hr. injection Hr as <-. rewrite El0 in Ht.
    assert (ET : T = root).
    { eapply (topr_fun R nsyms nall wf); eauto. now apply top_here. }
    rewrite ET in HP. eapply Pred_root'; eauto.
  Qed.

  Lemma finished_spec : forall E (Z : sym -> Prop) k pos st, Inv E Z k pos st -> 0 < k ->
    nth_error pos 0 = Some 0 -> (forall j s, eseed E (S j) s -> s <> root) ->
    exists o, finished_node free_forest g st = Ret o /\
      (o = None -> forall i t, ~ eMed E dbe i k t) /\
      (forall T, o = Some T -> (exists ts, den T ts) /\
         forall ts, den T ts -> exists t, ts = [t] /\ eMed E dbe 0 k t).
  Proof.
    intros E Z k pos st [(cs & O & Hrep & HL & Hx) Hlast Hrows Hheap] Hk Hp0 Hs.
    destruct Hx as (HLx & Hinc & Hset & _).
    assert (Hcs : 0 < length cs).
    { destruct cs; [|simpl; lia]. simpl in HL. rewrite <- HL, Nat.sub_diag, Hp0 in Hlast. injection Hlast. lia. }
    assert (Ee : earleme st = Some (length cs - 1)).
    { unfold earleme. rewrite (rep_len _ _ _ Hrep). destruct (length cs) as [|n]; [lia|]. f_equal. lia. }
    unfold finished_node. rewrite Ee. cbn [is_null]. rewrite andb_false_r.
    rewrite (rep_last _ _ _ Hrep). cbn [bind].
    assert (HO : nth_error (cs ++ [O]) (length pos - 1) = Some O).
    { rewrite <- HL. rewrite nth_error_app2 by lia. replace (S (length cs) - 1 - length cs) with 0 by lia. reflexivity. }
    destruct (Hset _ _ _ Hlast HO) as ([Hsort Hdot] & Hsnd & Hcomp).
    eexists. split; [reflexivity|].
    destruct O as [|it O'].
    - split; [|discriminate]. intros _ i t X. destruct (Hcomp _ _ _ X) as (it & [] & _).
    - rewrite Hdbe. destruct (Nat.eqb_spec (it_dot it) dbe) as [Ed|Ed].
      + split; [discriminate|]. intros T ET. injection ET as <-.
        destruct (Hsnd it (or_introl eq_refl)) as (_ & i & Hi & Hex & Hall). split; [auto|].
        intros ts Hts. destruct (Hall ts Hts) as (t & -> & X). exists t. split; [auto|].
        rewrite Ed in X. pose proof (Med_dbe_start _ _ _ _ Hs X). now subst i.
      + split; [|discriminate]. intros _ i t X. destruct (Hcomp _ _ _ X) as (it' & Hit' & Ed' & _).
        destruct Hit' as [<-|Hit']; [auto|].
        inversion Hsort as [|? ? _ Hall]; subst. rewrite Forall_forall in Hall. specialize (Hall it' Hit').
        destruct (Hdot it (or_introl eq_refl)) as (r & B & C & Hr & Er).
        assert (E1 : r1 R it = C). { unfold r1, rhs1_of. rewrite Hr. unfold rhs1. now rewrite Er. }
        assert (E2 : r1 R it' = eof). { unfold r1, rhs1_of. rewrite Ed', Hr0. unfold rhs1. now rewrite Er0. }
        unfold med_le in Hall. rewrite E1, E2 in Hall.
        destruct (Heof_min _ _ C Hr) as [Hlt|Heq]; [unfold rhs1; now rewrite Er| |auto].
        destruct Hall as [X1|[X1 _]]; lia.
  Qed.
End Core6.
