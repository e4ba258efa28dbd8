(** Probe: proofs about inspecting the recognizer between locations. *)
From Coq Require Import List Arith Bool Lia Relations Sorted.
From Verif Require Import Base BaseProofs Vec2d Vec2dProofs Item Grammar BitMatrix DefaultGrammar Forest ForestSpec Recognizer Drive ClientSpec
  Spec SpecFacts Chart ChartFacts ChartSpec CfgSpec Tables TablesProofs Den Core1 Core2 Core3 Core4 Core5 Core6
  Recog Sim RecogAny RecogFacts PredFacts ProbeSpec.
Import ListNotations.
Local Open Scope res_scope.

(** *** The tracing tables *)
Lemma column_dot_attached : forall n r d, column_dot n r = Some d <-> attached n r d.
Proof.
  intros n r d. unfold column_dot, attached. destruct (nth_error (p_dots r) n) as [o|]; split; congruence.
Qed.

Lemma mapM_nth : forall A B (f : A -> res B) l l', mapM f l = Ret l' ->
  length l' = length l /\ forall i a, nth_error l i = Some a -> exists b, f a = Ret b /\ nth_error l' i = Some b.
Proof.
  induction l as [|a l IH]; intros l' H; simpl in H.
  - injection H as <-. split; [reflexivity|]. intros [|i] a X; discriminate.
  - apply bind_Ret in H. destruct H as (b & Hb & H). apply bind_Ret in H. destruct H as (bs & Hbs & H).
    injection H as <-. destruct (IH _ Hbs) as [L X]. split; [simpl; congruence|].
    intros [|i] a' E; simpl in *; [injection E as <-; eauto|eauto].
Qed.

Lemma column_record : forall T (f : rule_dot -> T) n c l,
  mapM (fun r => d <- unwrap (column_dot n r) ;; Ret (f d)) (c_rules c) = Ret l ->
  forall i r, nth_error (c_rules c) i = Some r -> exists d, attached n r d /\ nth_error l i = Some (f d).
Proof.
  intros T f n c l H i r Hr. destruct (mapM_nth _ _ _ _ _ H) as [_ X]. destruct (X _ _ Hr) as (b & Hb & Hn).
  destruct (column_dot n r) as [d|] eqn:E; [|discriminate]. cbn in Hb. injection Hb as <-.
  exists d. split; [now apply column_dot_attached|auto].
Qed.

Lemma prediction_table : forall n c ev tr, prediction_events n c = Ret (ev, tr) ->
  length tr = n /\ forall s, s < n -> exists t, nth_error tr s = Some t /\ prediction_record c s t.
Proof.
  intros n c ev tr H. unfold prediction_events in H.
  set (I := fun (done : list prule) (et : list event_and_distance * list dotted_rule) =>
    length (snd et) = n /\ forall s, s < n -> exists t, nth_error (snd et) s = Some t /\
      ((exists l1 r l2 d, done = l1 ++ r :: l2 /\ p_lhs r = s /\ attached 0 r d /\ t = rd_trace d /\
         forall r' d', In r' l2 -> p_lhs r' = s -> ~ attached 0 r' d') \/
       ((forall r d, In r done -> p_lhs r = s -> ~ attached 0 r d) /\ t = None))).
  assert (X : forall l done et et', I done et ->
    foldM (fun et r =>
           match column_dot 0 r with
           | None => Ret et
           | Some d =>
               e <- upd (fst et) (p_lhs r) (rd_event d) ;;
               t <- upd (snd et) (p_lhs r) (rd_trace d) ;;
               Ret (e, t)
           end) l et = Ret et' -> I (done ++ l) et').
  { induction l as [|r l IH]; intros done et et' HI E.
    - simpl in E. injection E as <-. now rewrite app_nil_r.
    - simpl in E. apply bind_Ret in E. destruct E as (et1 & E1 & E).
      replace (done ++ r :: l) with ((done ++ [r]) ++ l) by (now rewrite <- app_assoc).
      apply (IH _ et1); [|exact E]. destruct HI as [HL HI]. destruct (column_dot 0 r) as [d|] eqn:Ed.
      + apply bind_Ret in E1. destruct E1 as (e & _ & E1). apply bind_Ret in E1. destruct E1 as (t & Et & E1).
        injection E1 as <-. cbn [snd]. apply upd_inv in Et. destruct Et as [Hlt ->].
        split; [cbn; now rewrite set_nth_length|]. intros s Hs. cbn [snd].
        destruct (Nat.eq_dec (p_lhs r) s) as [<-|Hne].
        * rewrite set_nth_same by auto. eexists. split; [reflexivity|]. left. exists done, r, [], d.
          split; [auto|]. split; [auto|]. split; [now apply column_dot_attached|]. split; [auto|]. intros ? ? [].
        * rewrite set_nth_other by auto. destruct (HI s Hs) as (t & Hn & [(l1 & r1 & l2 & d1 & -> & A & B & C & D)|[A B]]);
            exists t; (split; [auto|]).
          -- left. exists l1, r1, (l2 ++ [r]), d1. rewrite <- app_assoc. split; [auto|]. split; [auto|].
             split; [auto|]. split; [auto|]. intros r' d' Hin El. apply in_app_iff in Hin.
             destruct Hin as [Hin|[<-|[]]]; [now apply (D r' d')|congruence].
          -- right. split; [|auto]. intros r' d' Hin El. apply in_app_iff in Hin.
             destruct Hin as [Hin|[<-|[]]]; [now apply (A r' d')|congruence].
      + injection E1 as <-. split; [auto|]. intros s Hs.
        assert (Hno : forall d', ~ attached 0 r d').
        { intros d' Y. apply column_dot_attached in Y. congruence. }
        destruct (HI s Hs) as (t & Hn & [(l1 & r1 & l2 & d1 & -> & A & B & C & D)|[A B]]);
            exists t; (split; [auto|]).
        * left. exists l1, r1, (l2 ++ [r]), d1. rewrite <- app_assoc. split; [auto|]. split; [auto|].
          split; [auto|]. split; [auto|]. intros r' d' Hin El. apply in_app_iff in Hin.
          destruct Hin as [Hin|[<-|[]]]; [now apply (D r' d')|apply Hno].
        * right. split; [|auto]. intros r' d' Hin El. apply in_app_iff in Hin.
          destruct Hin as [Hin|[<-|[]]]; [now apply (A r' d')|apply Hno]. }
  assert (I0 : I [] (repeat (None, None) n, repeat None n)).
  { split; [apply repeat_length|]. intros s Hs. exists None. split; [|right; split; [intros ? ? []|auto]].
    cbn [snd]. clear - Hs. revert s Hs. induction n as [|m IH]; intros s Hs; [lia|]. destruct s; [auto|]. simpl. apply IH. lia. }
  pose proof (X _ _ _ _ I0 H) as [HL HI]. cbn [snd app] in *. split; [auto|]. exact HI.
Qed.

Lemma held_sorted : forall (pos : list nat), (forall a b x y, a < b -> nth_error pos a = Some x -> nth_error pos b = Some y -> x < y) ->
  StronglySorted lt pos.
Proof.
  induction pos as [|p pos IH]; intros H; constructor.
  - apply IH. intros a b x y Hab Ha Hb. apply (H (S a) (S b)); auto. lia.
  - apply Forall_forall. intros q Hq. apply In_nth_error in Hq. destruct Hq as (b & Hb).
    apply (H 0 (S b)); auto. lia.
Qed.

(** If only the token [A] is scanned at [k] and anything advances, the symbol that
    predicts [A] was predicted. *)
Lemma scanned_predicted_top : forall R nsyms nall root W hint FIRST FOLLOW la keep seed k A v T,
  wf_rules R nsyms nall -> W k = [(A, v)] -> topr R nsyms A T ->
  (forall d i j t, Sym R nsyms root W hint FIRST FOLLOW la keep seed d i j t -> j = S k ->
     (d = A /\ i = k) \/ Pred R nsyms root W hint FIRST FOLLOW la keep seed T k) /\
  (forall d i j ts, Comp R nsyms root W hint FIRST FOLLOW la keep seed d i j ts -> j = S k ->
     Pred R nsyms root W hint FIRST FOLLOW la keep seed T k) /\
  (forall d i j t, Med R nsyms root W hint FIRST FOLLOW la keep seed d i j t -> j = S k ->
     Pred R nsyms root W hint FIRST FOLLOW la keep seed T k) /\
  (forall s j, Pred R nsyms root W hint FIRST FOLLOW la keep seed s j -> True).
Proof.
  intros R nsyms nall root W hint FIRST FOLLOW la keep seed k A v T wf HW Ht.
  assert (Hfirst : forall d r B i T', nth_error R d = Some r -> nth_error (p_rhs r) 0 = Some B ->
    topr R nsyms (p_lhs r) T' -> Pred R nsyms root W hint FIRST FOLLOW la keep seed T' i -> B = A -> i = k ->
    Pred R nsyms root W hint FIRST FOLLOW la keep seed T k).
  { intros d r B i T' Hr H0 Ht' HPr -> ->. pose proof (nth_error_In _ _ Hr) as Hin.
    destruct (le_lt_dec nsyms A) as [Hg|Hl].
    - assert (T' = T) as <-; [|auto].
      eapply (topr_fun R nsyms nall wf); [|exact Ht]. eapply topr_gen; eauto.
    - assert (T = A) as -> by (inversion Ht; subst; [auto|lia]).
      eapply Pred_pred; [exact HPr|]. eapply topr_pred; eauto. }
  apply chart_ind; intros; subst; auto.
  - injection H as ->. rewrite HW in i. destruct i as [E|[]]. injection E as <- _. auto.
  - destruct (H eq_refl) as [[-> ->]|X]; [|auto]. eapply (Hfirst d r); eauto. now rewrite e0.
  - destruct (H0 eq_refl) as [[-> ->]|X]; [|auto].
    assert (Hl : A < nsyms).
    { apply (wf_rhs1 _ _ _ wf r); [eapply nth_error_In; eauto|]. now rewrite e0. }
    assert (T = A) as -> by (inversion Ht; subst; [auto|lia]).
    eapply Pred_med; eauto. apply rt_refl.
  - destruct (H eq_refl) as [[-> ->]|X]; [|auto]. eapply (Hfirst d r); eauto. now rewrite e0.
Qed.

Section Any.
  Context {F N : Type}.
  Variable fo : forest_ops F N.
  Variable ok : phase -> F -> Prop.
  Hypothesis HU : usable fo ok.
  Variable P : perf.
  Variables (c : pcfg) (nsyms : nat) (w : wrapped_root) (d0 : nat) (g0 : sym).
  Variable g : dgrammar.
  Hypothesis Hleo : LEO P = false.
  Hypothesis HB : built c nsyms w d0 g0 g.
  Notation R := (c_rules c).
  Notation nall := (c_num_syms c).
  Notation root := (w_root w).
  Notation start_state := (start_state ok P c nsyms w g).

  (** the tables *)
  Lemma trace_tables : forall d r, nth_error R d = Some r ->
    exists x, attached 1 r x /\ nth_error (g_tracing1 g) d = Some (rd_trace x).
  Proof.
    destruct HB as [HP (fuel & maps & nulling & first & follow & Hg & _)].
    apply from_processed_inv in Hg.
    destruct Hg as (gens & w' & dbe & by0 & comps & _ & _ & _ & _ & _ & _ & _ & _ & _ & _ & _ & _ & _ & _ & _ & _ & _ & _ & _ & _ &
      _ & _ & E & _).
    exact (column_record _ rd_trace 1 c _ E).
  Qed.

  Lemma trace_tables2 : forall d r, nth_error R d = Some r ->
    exists x, attached 2 r x /\ nth_error (g_tracing2 g) d = Some (rd_trace x).
  Proof.
    destruct HB as [HP (fuel & maps & nulling & first & follow & Hg & _)].
    apply from_processed_inv in Hg.
    destruct Hg as (gens & w' & dbe & by0 & comps & _ & _ & _ & _ & _ & _ & _ & _ & _ & _ & _ & _ & _ & _ & _ & _ & _ & _ & _ & _ &
      _ & _ & _ & E & _).
    exact (column_record _ rd_trace 2 c _ E).
  Qed.

  Lemma predict_tables : forall s, s < nall -> exists t, nth_error (g_tracing0 g) s = Some t /\ prediction_record c s t.
  Proof.
    destruct HB as [HP (fuel & maps & nulling & first & follow & Hg & _)].
    apply from_processed_inv in Hg.
    destruct Hg as (gens & w' & dbe & by0 & comps & Eg & _ & _ & _ & _ & _ & _ & _ & _ & Es & _ & _ & _ & _ & _ & _ & _ & _ & _ & E & _).
    destruct HP. rewrite pr_gens in Eg. injection Eg as <-. rewrite Es in E.
    intros s Hs. apply (proj2 (prediction_table _ _ _ _ E)). unfold sym in *. lia.
  Qed.

  (** the state between two locations, seen after the next one is begun *)
  Lemma probe : forall FI FO E Z k pos st1 (st : rstate F N),
    Core4.Inv P R nsyms FI FO root E Z k pos st1 -> mate ok st1 st ->
    exists preds items, held pos k /\ earleme (begin_earleme P st) = Some (length pos - 1) /\
      predicted_symbols (begin_earleme P st) = Ret preds /\
      medial_items (begin_earleme P st) = Ret items /\
      (forall s, In s preds <-> s < nsyms /\ ePred P R nsyms FI FO root E s k) /\
      (forall d o, (exists it, In it items /\ it_dot it = d /\ it_origin it = o) <->
         exists i, nth_error pos o = Some i /\ exists t, eMed P R nsyms FI FO root E d i k t) /\
      (forall d i t, eMed P R nsyms FI FO root E d i k t -> exists o, nth_error pos o = Some i).
  Proof.
    intros FI FO E Z k pos st1 st HI Hm.
    destruct (predicted_row ok P c nsyms w Hleo FI FO E Z k pos st1 st HI Hm) as (preds & Ep & Hp).
    destruct HI as [(cs & O & Hrep & HL & (HLx & Hinc & Hset & Hrows)) Hlast _ _].
    assert (Hlp : length pos - 1 = length cs) by lia. rewrite Hlp in *.
    assert (Elen : v_len (r_medial st) = S (length cs)).
    { destruct Hm as (_ & _ & _ & [Hi _] & _). unfold v_len. rewrite <- Hi. apply (rep_len _ _ _ Hrep). }
    assert (Ee : earleme (begin_earleme P st) = Some (length cs)).
    { unfold begin_earleme. rewrite Hleo. unfold earleme, v_len. cbn. rewrite app_length. cbn [length].
      unfold v_len in Elen. rewrite Elen. replace (S (length cs) + 1) with (S (S (length cs))) by lia. reflexivity. }
    assert (Hm' : mate ok (begin_earleme P st1) (begin_earleme P st)) by (apply sim_begin_earleme; exact Hm).
    assert (Eb1 : r_medial (begin_earleme P st1) = v_next_set (r_medial st1)) by (unfold begin_earleme; rewrite Hleo; reflexivity).
    assert (Ei1 : v_index (r_medial (begin_earleme P st1)) (length cs) = Ret O).
    { rewrite Eb1. eapply rep_index; [apply rep_next_set; exact Hrep|]. apply nth_error_app_last. }
    destruct Hm' as [HJ (_ & _ & Hv & _)].
    pose proof (rres_v_index _ _ _ (length cs) Hv) as Y. rewrite Ei1 in Y. destruct Y as (items & Ei & HF).
    exists preds, items. split; [split; [now apply held_sorted|rewrite Hlp; auto]|]. split; [auto|]. split; [auto|]. split.
    { unfold medial_items. rewrite Ee. exact Ei. }
    split; [auto|].
    destruct (Hset (length cs) k O) as (Hok & Hsnd & Hcomp); [auto|apply nth_error_app_last|].
    assert (HK : map (fun it => (it_dot it, it_origin it)) items = map (fun it => (it_dot it, it_origin it)) O).
    { clear - HF. induction HF as [|a b l l' (A & B & _) _ IH]; [reflexivity|]. cbn. rewrite A, B, IH. reflexivity. }
    assert (HX : forall d o, (exists it, In it items /\ it_dot it = d /\ it_origin it = o) <->
       (exists it, In it O /\ it_dot it = d /\ it_origin it = o)).
    { assert (G : forall M (l : list (item M)) d o, (exists it, In it l /\ it_dot it = d /\ it_origin it = o) <->
        In (d, o) (map (fun it => (it_dot it, it_origin it)) l)).
      { intros M l d o. rewrite in_map_iff. split.
        - intros (it & H1 & H2 & H3). exists it. split; [congruence|auto].
        - intros (it & H1 & H2). injection H1 as H3 H4. eauto. }
      intros d o. rewrite !G, HK. reflexivity. }
    split; [|intros d i t Ht; destruct (Hcomp _ _ _ Ht) as (it & _ & _ & Ho & _); eauto].
    intros d o. rewrite HX. split.
    - intros (it & Hin & <- & <-). destruct (Hsnd it Hin) as (_ & i & Hi & (ts & Hts) & Hall).
      exists i. split; [auto|]. destruct (Hall ts Hts) as (t & _ & Ht). eauto.
    - intros (i & Hi & t & Ht). destruct (Hcomp _ _ _ Ht) as (it & Hin & Hd & Ho & _).
      exists it. split; [auto|]. split; [auto|].
      assert (H1 := Hinc (it_origin it) o i i). assert (H2 := Hinc o (it_origin it) i i).
      destruct (Nat.lt_trichotomy (it_origin it) o) as [L|[E'|L]]; [specialize (H1 L Ho Hi); lia|auto|specialize (H2 L Hi Ho); lia].
  Qed.

  Lemma trace_spec : forall (st : rstate F N) e preds items, earleme st = Some e -> predicted_symbols st = Ret preds ->
    medial_items st = Ret items -> (forall s, In s preds -> s < nsyms) ->
    (forall it, In it items -> exists r, nth_error R (it_dot it) = Some r) ->
    exists l1 l2, trace g st = Ret (l1 ++ l2) /\
      Forall2 (fun s x => prediction_record c s (fst x) /\ snd x = e) preds l1 /\
      Forall2 (fun it x => medial_record c (it_dot it) (fst x) /\ snd x = it_origin it) items l2.
  Proof.
    intros st e preds items Ee Ep Ei Hp Hi. unfold trace, g_trace. rewrite Ee. cbn [unwrap bind]. rewrite Ep. cbn [bind].
    assert (X1 : exists l1, mapM (fun s => t <- idx (g_tracing0 g) s ;; Ret (t, e)) preds = Ret l1 /\
      Forall2 (fun s x => prediction_record c s (fst x) /\ snd x = e) preds l1).
    { clear Ep. induction preds as [|s preds IH]; [exists []; split; [reflexivity|constructor]|].
      destruct IH as (l1 & E1 & F1); [intros; apply Hp; now right|].
      destruct (predict_tables s) as (t & Ht & Hr).
      { pose proof (pr_le _ _ _ _ _ (b_processed _ _ _ _ _ _ HB)). specialize (Hp s (or_introl eq_refl)). unfold sym in *. lia. }
      exists ((t, e) :: l1). split; [|constructor; auto]. cbn [mapM]. rewrite (idx_some _ _ _ _ Ht). cbn [bind]. rewrite E1. reflexivity. }
    assert (X2 : exists l2, mapM (fun it => t <- idx (g_tracing1 g) (it_dot it) ;; Ret (t, it_origin it)) items = Ret l2 /\
      Forall2 (fun it x => medial_record c (it_dot it) (fst x) /\ snd x = it_origin it) items l2).
    { clear Ei. induction items as [|it items IH]; [exists []; split; [reflexivity|constructor]|].
      destruct IH as (l2 & E2 & F2); [intros; apply Hi; now right|].
      destruct (Hi it (or_introl eq_refl)) as (r & Hr). destruct (trace_tables _ _ Hr) as (x & Hx & Ht).
      exists ((rd_trace x, it_origin it) :: l2). split; [|constructor; [|auto]].
      - cbn [mapM]. rewrite (idx_some _ _ _ _ Ht). cbn [bind]. rewrite E2. reflexivity.
      - split; [|reflexivity]. exists r, x. auto. }
    destruct X1 as (l1 & E1 & F1). destruct X2 as (l2 & E2 & F2).
    exists l1, l2. rewrite E1. cbn [bind]. rewrite Ei. cbn [bind]. rewrite E2. auto.
  Qed.

  Lemma event_tables : (forall d r, nth_error R d = Some r -> exists x, attached 1 r x /\ nth_error (g_events1 g) d = Some (rd_event x)) /\
    (forall d r, nth_error R d = Some r -> exists x, attached 2 r x /\ nth_error (g_events2 g) d = Some (rd_event x)).
  Proof.
    destruct HB as [HP (fuel & maps & nulling & first & follow & Hg & _)].
    apply from_processed_inv in Hg.
    destruct Hg as (gens & w' & dbe & by0 & comps & _ & _ & _ & _ & _ & _ & _ & _ & _ & _ & _ & _ & _ & _ & _ & _ & _ & _ & _ & _ &
      E1 & E2 & _).
    split; [exact (column_record _ rd_event 1 c _ E1)|exact (column_record _ rd_event 2 c _ E2)].
  Qed.

  Lemma events_spec : forall (st : rstate F N) preds items, predicted_symbols st = Ret preds ->
    medial_items st = Ret items -> (forall s, In s preds -> s < length R) ->
    (forall it, In it items -> exists r, nth_error R (it_dot it) = Some r) ->
    exists l1 l2, events g st = Ret (l1 ++ l2) /\
      Forall2 (event_record c 1) preds l1 /\ Forall2 (fun it => event_record c 2 (it_dot it)) items l2.
  Proof.
    intros st preds items Ep Ei Hp Hi. unfold events, g_events. rewrite Ep. cbn [bind]. destruct event_tables as [T1 T2].
    assert (X1 : exists l1, mapM (fun s => idx (g_events1 g) s) preds = Ret l1 /\ Forall2 (event_record c 1) preds l1).
    { clear Ep. induction preds as [|s preds IH]; [exists []; split; [reflexivity|constructor]|].
      destruct IH as (l1 & E1 & F1); [intros; apply Hp; now right|].
      destruct (nth_error R s) as [r|] eqn:Hr.
      2: { apply nth_error_None in Hr. specialize (Hp s (or_introl eq_refl)). unfold sym in *. lia. }
      destruct (T1 _ _ Hr) as (x & Hx & Ht).
      exists (rd_event x :: l1). split; [|constructor; [exists r, x; auto|auto]].
      cbn [mapM]. rewrite (idx_some _ _ _ _ Ht). cbn [bind]. rewrite E1. reflexivity. }
    assert (X2 : exists l2, mapM (fun it => idx (g_events2 g) (it_dot it)) items = Ret l2 /\
      Forall2 (fun it => event_record c 2 (it_dot it)) items l2).
    { clear Ei. induction items as [|it items IH]; [exists []; split; [reflexivity|constructor]|].
      destruct IH as (l2 & E2 & F2); [intros; apply Hi; now right|].
      destruct (Hi it (or_introl eq_refl)) as (r & Hr). destruct (T2 _ _ Hr) as (x & Hx & Ht).
      exists (rd_event x :: l2). split; [|constructor; [exists r, x; auto|auto]].
      cbn [mapM]. rewrite (idx_some _ _ _ _ Ht). cbn [bind]. rewrite E2. reflexivity. }
    destruct X1 as (l1 & E1 & F1). destruct X2 as (l2 & E2 & F2).
    exists l1, l2. rewrite E1. cbn [bind]. rewrite Ei. cbn [bind]. rewrite E2. auto.
  Qed.

  Lemma expected_spec : forall (st : rstate F N) items, medial_items st = Ret items ->
    (forall it, In it items -> exists r B C, nth_error R (it_dot it) = Some r /\ p_rhs r = [B; C]) ->
    exists l, expected_terminals g st = Ret l /\
      Forall2 (fun it s => exists r B, nth_error R (it_dot it) = Some r /\ p_rhs r = [B; s]) items l.
  Proof.
    intros st items Ei Hi. unfold expected_terminals. rewrite Ei. cbn [bind]. clear Ei.
    assert (Ec : g_col1 g = map rhs1 R).
    { destruct HB as [HP (fuel & maps & nulling & first & follow & Hg & _)].
      apply from_processed_inv in Hg.
      destruct Hg as (gens & w' & dbe & by0 & comps & _ & _ & _ & _ & _ & _ & _ & _ & _ & _ & _ & _ & _ & _ & _ & _ & _ & _ & E & _). exact E. }
    induction items as [|it items IH]; [exists []; split; [reflexivity|constructor]|].
    destruct IH as (l & El & HF); [intros; apply Hi; now right|].
    destruct (Hi it (or_introl eq_refl)) as (r & B & C & Hr & Er).
    exists (C :: l). split; [|constructor; eauto].
    cbn [mapM]. rewrite Ec. erewrite idx_some; [|apply map_nth_error; exact Hr]. cbn [bind]. unfold rhs1 at 1. rewrite Er. cbn [nth_error unwrap bind].
    rewrite <- Ec, El. reflexivity.
  Qed.

  (** *** Exactness for inputs without hints *)
  Lemma over_W : forall Us sd k ts, nth_error Us k = Some ts -> eW (env_of (map overlapping Us) sd) (0 + k) = ts.
  Proof. intros Us sd k ts H. cbn. now rewrite nth_error_map, H. Qed.

  Lemma over_hint : forall Us sd j, ehint (env_of (map overlapping Us) sd) j = None.
  Proof. intros Us sd [|j]; [reflexivity|]. cbn. rewrite nth_error_map. destruct (nth_error Us j); reflexivity. Qed.

  Lemma over_keep : forall Us sd j s, ekeep (env_of (map overlapping Us) sd) j s = true.
  Proof. intros Us sd [|j] s; [reflexivity|]. cbn. rewrite nth_error_map. destruct (nth_error Us j); reflexivity. Qed.

  Section Exact.
    Variables first follow : list (sym * list sym).
    Hypothesis HFI : first_sets_cover c first.
    Hypothesis HFO : follow_sets_cover c root follow.
    Notation ePred := (ePred P R nsyms (first_of first) (follow_of follow) root).
    Notation eMed := (eMed P R nsyms (first_of first) (follow_of follow) root).
    Notation eSym := (eSym P R nsyms (first_of first) (follow_of follow) root).

    Lemma awaited_top : forall Us sd A T xs v,
      (forall ts s v, In ts Us -> In (s, v) ts -> s <> root) ->
      topr R nsyms A T -> choice Us xs ->
      derives R root (map fst xs ++ A :: v) ->
      ePred (env_of (map overlapping Us) sd) T (length Us).
    Proof.
      intros Us sd A T xs v Hx Ht Hch Hd. pose proof (b_processed _ _ _ _ _ _ HB) as HP.
      destruct (list_eq_dec Nat.eq_dec (map fst xs ++ [A]) [root]) as [E0|Hne].
      { destruct xs as [|x xs]; [|destruct xs; discriminate]. inversion Hch; subst. injection E0 as ->.
        assert (T = root) as ->.
        { inversion Ht; subst; [auto|]. pose proof (pr_root_range _ _ _ _ _ HP). lia. }
        apply Pred_start, rt_refl. }
      set (locs := map overlapping Us). set (loc := overlapping [(A, 0)]).
      assert (El : length locs = length Us) by apply map_length.
      pose proof (env_of_agree locs [loc] sd sd ltac:(reflexivity)) as Hag.
      assert (Halive : alive_at R nsyms root (eW (env_of (locs ++ [loc]) sd)) (ehint (env_of (locs ++ [loc]) sd))
         (first_of first) (follow_of follow) (LOOKAHEAD P) (ekeep (env_of (locs ++ [loc]) sd)) (eseed (env_of (locs ++ [loc]) sd)) (S (length locs))).
      { assert (Eo : locs ++ [loc] = map overlapping (Us ++ [[(A, 0)]])).
        { unfold locs, loc. now rewrite map_app. }
        rewrite Eo.
        apply (viable_alive P c nsyms w d0 g0 g HB) with (ys := xs ++ [(A, 0)]) (v := v); auto.
        - rewrite map_app. destruct (map overlapping Us); discriminate.
        - intros l0 s0 Hl0. apply in_map_iff in Hl0. destruct Hl0 as (x & <- & _). reflexivity.
        - rewrite map_length. apply (reads_choice _ _ 0 (over_W _ _)).
          apply Forall2_app; [exact Hch|]. constructor; [simpl; auto|constructor].
        - rewrite map_app, <- app_assoc. exact Hd.
        - intros s0 v' Hin. destruct Us as [|ts Us]; cbn in Hin.
          + destruct Hin as [E|[]]. injection E as <- _. inversion Hch; subst. cbn in Hne. congruence.
          + eapply Hx; [left; reflexivity|exact Hin].
        - intros j s0 X. rewrite over_hint in X. discriminate.
        - rewrite <- Eo, app_length. simpl. lia. }
      assert (HWk : eW (env_of (locs ++ [loc]) sd) (length locs) = [(A, 0)]).
      { cbn. rewrite nth_error_app2, Nat.sub_diag by lia. reflexivity. }
      destruct (env_congr P R nsyms (first_of first) (follow_of follow) root (length locs) _ _ Hag (length locs) (le_n _)) as (_ & _ & _ & HPc).
      rewrite <- El. apply HPc.
      destruct (scanned_predicted_top R nsyms nall root _ (ehint (env_of (locs ++ [loc]) sd)) (first_of first) (follow_of follow) (LOOKAHEAD P)
        (ekeep (env_of (locs ++ [loc]) sd)) (eseed (env_of (locs ++ [loc]) sd)) (length locs) A 0 T
        (pr_wf _ _ _ _ _ HP) HWk Ht) as (_ & HC & HM & _).
      destruct Halive as [(d & i & ts & X)|(d & i & t & X)]; [eapply HC|eapply HM]; eauto.
    Qed.

    Lemma over_pred : forall Us sd s, (forall j s, ~ sd j s) ->
      (forall ts s v, In ts Us -> In (s, v) ts -> s <> root) -> s < nsyms ->
      (ePred (env_of (map overlapping Us) sd) s (length Us) <-> awaited c w Us s).
    Proof.
      intros Us sd s Hsd Hx Hs. split.
      - intros H. destruct (proj2 (proj2 (proj2 (chart_context R nsyms root _ _ _ _ _ _ _
          (fun j s X => Hsd j s X)))) s (length Us) H) as (ys & v & Hrd & Hd).
        exists ys, v. split; [|auto]. apply (reads_choice _ _ 0 (over_W Us sd)). exact Hrd.
      - intros (xs & v & Hch & Hd). apply (awaited_top Us sd s s xs v); auto. now apply top_here.
    Qed.

    Lemma over_med : forall Us sd d i, (forall j s, ~ sd j s) ->
      (forall ts s v, In ts Us -> In (s, v) ts -> s <> root) ->
      ((exists t, eMed (env_of (map overlapping Us) sd) d i (length Us) t) <-> begun c w Us d i).
    Proof.
      intros Us sd d i Hsd Hx. pose proof (b_processed _ _ _ _ _ _ HB) as HP. destruct HP. split.
      - intros (t & H).
        destruct (proj1 (proj2 (proj2 (chart_context R nsyms root _ _ _ _ _ _ _
          (fun j s X => Hsd j s X)))) _ _ _ _ H) as (r & xs & v & Hr & Hrd & Hd).
        destruct (proj1 (proj2 (proj2 (chart_sound R nsyms root _ _ _ _ _ _ _))) _ _ _ _ H) as (r' & B & C & Hr' & Er & Hpt & Hrd2 & _).
        rewrite Hr in Hr'. injection Hr' as <-.
        exists r, B, C, xs, (yield t), v. split; [auto|]. split; [auto|]. split.
        { apply (reads_choice _ _ 0 (over_W Us sd)). cbn [plus]. eapply reads_app; eauto. }
        split; [apply reads_length in Hrd; lia|]. split; [auto|]. now apply tree_derives.
      - intros (r & B & C & xs & ys & v & Hr & Er & Hch & Hl & Hd & HdB). subst i.
        pose proof (nth_error_In _ _ Hr) as Hin.
        destruct (proj1 (derives_tree R) _ _ HdB ys eq_refl) as (t & Ht & Hy). exists t.
        assert (HlU : length Us = length xs + length ys).
        { rewrite (Forall2_length2 _ _ _ _ _ Hch). apply app_length. }
        destruct (topr_total R nsyms nall pr_wf (p_lhs r)) as (T & HT); [now apply (wf_lhs_range _ _ _ pr_wf)|].
        set (E := env_of (map overlapping Us) sd).
        assert (HPr : ePred E T (length xs)).
        { set (Us1 := firstn (length xs) Us). set (Us2 := skipn (length xs) Us).
          assert (EU : Us = Us1 ++ Us2) by (symmetry; apply firstn_skipn).
          assert (L1 : length Us1 = length xs) by (unfold Us1; rewrite firstn_length; lia).
          assert (Hch1 : choice Us1 xs).
          { apply Forall2_app_inv_r in Hch. destruct Hch as (A1 & A2 & F1 & F2 & EA).
            assert (LA : length A1 = length xs) by (apply (Forall2_length2 _ _ _ _ _ F1)).
            unfold Us1. rewrite EA, <- LA, firstn_app, Nat.sub_diag, firstn_all, firstn_O, app_nil_r. exact F1. }
          assert (Hx1 : forall ts s v, In ts Us1 -> In (s, v) ts -> s <> root).
          { intros ts s v' A. apply Hx. rewrite EU. apply in_app_iff; auto. }
          pose proof (awaited_top Us1 sd (p_lhs r) T xs v Hx1 HT Hch1 Hd) as X. rewrite L1 in X.
          pose proof (env_of_agree (map overlapping Us1) (map overlapping Us2) sd sd ltac:(reflexivity)) as Hag.
          rewrite <- map_app, <- EU, map_length, L1 in Hag.
          destruct (env_congr P R nsyms (first_of first) (follow_of follow) root (length xs) _ _ Hag (length xs) (le_n _)) as (_ & _ & _ & HPc).
          now apply HPc. }
        assert (Hrd : reads (eW E) 0 (xs ++ ys) (0 + length Us)).
        { apply (reads_choice _ _ 0 (over_W Us sd)). exact Hch. }
        apply reads_split in Hrd. cbn [plus] in Hrd. destruct Hrd as [_ Hrd].
        assert (HB0 : B < nall) by (apply (wf_rhs_range _ _ _ pr_wf r); [auto|rewrite Er; simpl; auto]).
        assert (HS : eSym E B (length (map fst xs)) (length (map fst xs) + length (yield t)) t).
        { apply (in_chart_sub R nsyms nall root (eW E) (ehint E) (first_of first) (follow_of follow) (LOOKAHEAD P)
            (ekeep E) (eseed E) (map fst xs ++ map fst (yield t) ++ C :: v) (length Us) B t r T (map fst xs) (C :: v)); auto.
          - apply (chart_complete R nsyms nall root (eW E) (ehint E) (first_of first) (follow_of follow) (LOOKAHEAD P)
              (ekeep E) (eseed E) pr_wf (FI_complete c nsyms first HFI) (FO_complete c nsyms w follow HFO)).
            + intros j s X. unfold E in X. rewrite over_hint in X. discriminate.
            + intros j s _ X. unfold E in X. rewrite over_hint in X. discriminate.
            + exact Ht.
          - now rewrite Er.
          - rewrite map_length. exact HPr.
          - change (map fst xs ++ B :: C :: v) with (map fst xs ++ [B; C] ++ v).
            apply (derives_replace R _ _ _ _ _ Hd). apply derives_rule; [auto|]. rewrite Er. apply derives_seq_self.
          - rewrite map_length, Hy. unfold sym in *. lia.
          - rewrite map_length, Hy, <- HlU. exact Hrd.
          - rewrite map_length. apply (cok_all c _ _ B); [|exact Ht]. intros j s. apply over_keep. }
        rewrite map_length, Hy, <- HlU in HS.
        eapply Med_intro; eauto.
        unfold ok_medial, check. unfold E. rewrite over_hint. rewrite !orb_true_r. reflexivity.
    Qed.
  End Exact.
End Any.
