(** Dead: what happens after [end_earleme] has answered false. *)
From Coq Require Import List Arith Bool Lia.
From Verif Require Import Base BaseProofs Vec2d Vec2dProofs Item Heap Grammar BitMatrix DefaultGrammar Forest Recognizer Drive ProbeSpec.
Import ListNotations.
Local Open Scope res_scope.

Section Dead.
  Context {F N : Type}.
  Variable fo : forest_ops F N.
  Variable P : perf.
  Variable g : dgrammar.
  Notation state := (rstate F N).

  (** reading tokens changes neither the prediction rows nor the set boundaries *)
  Definition same (a b : state) : Prop := r_predicted b = r_predicted a /\ indices (r_medial b) = indices (r_medial a).

  Lemma same_refl : forall a, same a a.
  Proof. split; reflexivity. Qed.
  Lemma same_trans : forall a b c, same a b -> same b c -> same a c.
  Proof. intros a b c [A1 A2] [B1 B2]. split; congruence. Qed.

  Lemma foldM_same : forall A B (proj : B -> state) (f : B -> A -> res B) l b b',
    (forall b a b', f b a = Ret b' -> same (proj b) (proj b')) ->
    foldM f l b = Ret b' -> same (proj b) (proj b').
  Proof.
    intros A B proj f l. induction l as [|a l IH]; intros b b' Hf H; simpl in H.
    - injection H as <-. apply same_refl.
    - apply bind_Ret in H. destruct H as (b1 & H1 & H). eapply same_trans; [eapply Hf; eauto|]. eapply IH; eauto.
  Qed.

  Lemma medial_item_same : forall link st it st', complete_medial_item fo P g link st it = Ret st' -> same st st'.
  Proof.
    intros link st it st' H. unfold complete_medial_item in H. apply bind_Ret in H. destruct H as (u & _ & H).
    destruct (negb (LOOKAHEAD P) || u).
    - apply bind_Ret in H. destruct H as ([n f] & _ & H). apply bind_Ret in H. destruct H as (q & _ & H).
      injection H as <-. split; reflexivity.
    - injection H as <-. apply same_refl.
  Qed.

  Lemma prediction_same : forall id link acc t acc', complete_prediction P g id link acc t = Ret acc' -> same (fst acc) (fst acc').
  Proof.
    intros id link [st b] t acc' H. unfold complete_prediction in H. apply bind_Ret in H. destruct H as (wp & _ & H).
    apply bind_Ret in H. destruct H as (u & _ & H). destruct (wp && _); injection H as <-; split; reflexivity.
  Qed.

  Lemma push_same : forall (st : state) it st', push_complete st it = Ret st' -> same st st'.
  Proof.
    intros st it st' H. unfold push_complete in H. apply bind_Ret in H. destruct H as (q & _ & H). injection H as <-. split; reflexivity.
  Qed.

  Lemma complete_same : forall st id s link st', complete fo P g st id s link = Ret st' -> same st st'.
  Proof.
    intros st id s link st' H. unfold complete in H. destruct (g_syms g <=? s).
    - unfold complete_generated_binary_predictions in H. apply bind_Ret in H. destruct H as ([bo uo] & _ & H).
      apply bind_Ret in H. destruct H as (st1 & H1 & H). apply same_trans with st1.
      + destruct uo as [t|]; [|injection H1 as <-; apply same_refl].
        apply bind_Ret in H1. destruct H1 as (b & _ & H1). destruct b; [eapply push_same; eauto|injection H1 as <-; apply same_refl].
      + destruct bo as [t|]; [|injection H as <-; apply same_refl].
        apply bind_Ret in H. destruct H as (b & _ & H). destruct b; injection H as <-; split; reflexivity.
    - apply bind_Ret in H. destruct H as (p & _ & H). destruct p; [|injection H as <-; apply same_refl].
      apply bind_Ret in H. destruct H as (leo & _ & H). destruct leo; [injection H as <-; apply same_refl|].
      apply bind_Ret in H. destruct H as (st1 & H1 & H). apply same_trans with st1.
      + unfold complete_medial_items in H1. apply bind_Ret in H1. destruct H1 as (set & _ & H1).
        apply bind_Ret in H1. destruct H1 as (keyed & _ & H1).
        apply (foldM_same _ _ (fun x => x)) in H1; [exact H1|]. intros a b c0. apply medial_item_same.
      + unfold complete_predictions in H. apply bind_Ret in H. destruct H as (l0 & _ & H).
        apply bind_Ret in H. destruct H as (tr & _ & H). apply bind_Ret in H. destruct H as ([st2 b] & H2 & H).
        apply bind_Ret in H. destruct H as (l & _ & H). apply bind_Ret in H. destruct H as (st3 & H3 & H).
        apply bind_Ret in H. destruct H as (l' & _ & H). apply bind_Ret in H. destruct H as ([] & _ & H).
        apply bind_Ret in H. destruct H as ([] & _ & H). injection H as <-.
        apply (foldM_same _ _ fst) in H2; [|intros a b0 c0; apply prediction_same].
        apply (foldM_same _ _ (fun x => x)) in H3; [|intros a b0 c0; apply push_same].
        eapply same_trans; [exact H2|]. eapply same_trans; [exact H3|]. split; reflexivity.
  Qed.

  Lemma scan_same : forall st s v st', scan fo P g st s v = Ret st' -> same st st'.
  Proof.
    intros st s v st' H. unfold scan in H. apply bind_Ret in H. destruct H as (e & _ & H).
    apply bind_Ret in H. destruct H as ([n f] & _ & H). apply complete_same in H. exact H.
  Qed.

  Lemma scan_list_same : forall ws st st', scan_list fo P g ws st = Ret st' -> same st st'.
  Proof.
    intros ws st st' H. apply (foldM_same _ _ (fun x => x)) in H; [exact H|]. intros a b c0. apply scan_same.
  Qed.

  (** no prediction from row [m] on *)
  Definition blank (m : nat) (st : state) : Prop :=
    forall idx row s, m <= idx -> nth_error (r_predicted st) idx = Some row -> nth_error row s <> Some true.

  Record dead (m : nat) (st : state) : Prop := {
    dead_heap : r_complete st = [];
    dead_last : v_last (r_medial st) = Ret [];
    dead_len : m < v_len (r_medial st);
    dead_rows : blank m st
  }.

  Lemma blank_get : forall m st id s b, blank m st -> m <= id -> bm_get (r_predicted st) id s = Ret b -> b = false.
  Proof.
    intros m st id s b Hb Hid H. unfold bm_get in H. apply bind_Ret in H. destruct H as (row & Hr & H).
    apply idx_Ret in Hr. apply idx_Ret in H. destruct b; [|auto]. now elim (Hb _ _ s Hid Hr).
  Qed.

  Lemma dead_complete : forall m st id s link st', blank m st -> m <= id -> complete fo P g st id s link = Ret st' -> st' = st.
  Proof.
    intros m st id s link st' Hb Hid H. unfold complete in H. destruct (g_syms g <=? s).
    - unfold complete_generated_binary_predictions in H. apply bind_Ret in H. destruct H as ([bo uo] & _ & H).
      apply bind_Ret in H. destruct H as (st1 & H1 & H). assert (st1 = st) as ->.
      { destruct uo as [t|]; [|now injection H1].
        apply bind_Ret in H1. destruct H1 as (b & Eb & H1). rewrite (blank_get _ _ _ _ _ Hb Hid Eb) in H1. now injection H1. }
      destruct bo as [t|]; [|now injection H].
      apply bind_Ret in H. destruct H as (b & Eb & H). rewrite (blank_get _ _ _ _ _ Hb Hid Eb) in H. now injection H.
    - apply bind_Ret in H. destruct H as (b & Eb & H). rewrite (blank_get _ _ _ _ _ Hb Hid Eb) in H. now injection H.
  Qed.

  Lemma dead_scans : forall m ws st st', blank m st -> S m < v_len (r_medial st) -> scan_list fo P g ws st = Ret st' ->
    r_medial st' = r_medial st /\ r_complete st' = r_complete st /\ r_predicted st' = r_predicted st.
  Proof.
    induction ws as [|[s v] ws IH]; intros st st' Hb Hl H; unfold scan_list in H; simpl in H.
    - injection H as <-. auto.
    - apply bind_Ret in H. destruct H as (st1 & H1 & H). fold (scan_list fo P g ws st1) in H.
      unfold scan in H1. apply bind_Ret in H1. destruct H1 as (e & Ee & H1).
      apply bind_Ret in H1. destruct H1 as ([n f] & _ & H1).
      assert (He : m <= e).
      { unfold earleme in Ee. destruct (v_len (r_medial st)) as [|[|k]] eqn:El; try discriminate. injection Ee as <-. lia. }
      apply (dead_complete m) in H1; [|exact Hb|exact He]. subst st1.
      destruct (IH (set_forest st f) st' Hb Hl H) as (A1 & A2 & A3). auto.
  Qed.

  Lemma v_last_next : forall A (v : vec2d A), v_last (v_next_set v) = Ret [].
  Proof.
    intros A v. unfold v_last, v_last_index, v_next_set. cbn [indices chart].
    destruct (indices v) as [|i t] eqn:E; cbn [app].
    - cbn [last bind]. rewrite Nat.leb_refl. cbn. now rewrite skipn_all.
    - rewrite last_last. cbn [bind]. rewrite Nat.leb_refl. cbn. now rewrite skipn_all.
  Qed.

  Lemma dead_feed : forall m fuel loc st b st', LEO P = false -> dead m st -> feed fo P g fuel loc st = Ret (b, st') -> b = false /\ dead m st'.
  Proof.
    intros m fuel loc st b st' Hleo [D1 D2 D3 D4] H. unfold feed in H. apply bind_Ret in H. destruct H as (st1 & H1 & H).
    unfold begin_earleme in H1. rewrite Hleo in H1.
    assert (Elen : v_len (v_next_set (r_medial st)) = S (v_len (r_medial st))).
    { unfold v_len, v_next_set. cbn. rewrite app_length. cbn. lia. }
    apply (dead_scans m) in H1; [|exact D4|change (S m < v_len (v_next_set (r_medial st))); rewrite Elen; lia].
    destruct H1 as (A1 & A2 & A3). cbn in A1, A2, A3.
    unfold end_filtered in H. apply bind_Ret in H. destruct H as (ex & Ex & H).
    unfold is_exhausted in Ex. rewrite A1, v_last_next in Ex. cbn [bind] in Ex. rewrite A2, D1 in Ex. injection Ex as <-.
    injection H as <- <-. split; [auto|]. split.
    - congruence.
    - rewrite A1. apply v_last_next.
    - rewrite A1, Elen. lia.
    - intros idx row s. rewrite A3. apply D4.
  Qed.

  Lemma dead_feed_on : forall m fuel locs st l st', LEO P = false -> dead m st -> feed_on fo P g fuel locs st = Ret (l, st') ->
    Forall (fun b => b = false) l /\ dead m st'.
  Proof.
    induction locs as [|loc locs IH]; intros st l st' Hleo HD H; simpl in H.
    - injection H as <- <-. auto.
    - apply bind_Ret in H. destruct H as ([b st1] & H1 & H). apply bind_Ret in H. destruct H as ([l1 st2] & H2 & H).
      injection H as <- <-. destruct (dead_feed _ _ _ _ _ _ Hleo HD H1) as [-> HD1].
      destruct (IH _ _ _ Hleo HD1 H2) as [A B]. auto.
  Qed.

  Lemma dead_start : forall m fuel loc st st', LEO P = false -> blank m st -> m <= v_len (r_medial st) ->
    feed fo P g fuel loc st = Ret (false, st') -> dead m st'.
  Proof.
    intros m fuel loc st st' Hleo Hb Hm H. unfold feed in H. apply bind_Ret in H. destruct H as (st1 & H1 & H).
    unfold begin_earleme in H1. rewrite Hleo in H1. apply scan_list_same in H1. destruct H1 as [A1 A2]. cbn in A1, A2.
    unfold end_filtered in H. apply bind_Ret in H. destruct H as (ex & Ex & H).
    destruct ex.
    - injection H as <-. unfold is_exhausted in Ex. apply bind_Ret in Ex. destruct Ex as (l & El & Ex).
      destruct l; [|discriminate]. destruct (r_complete st1) eqn:Ec; [|discriminate].
      split; auto.
      + unfold v_len in *. rewrite A2, app_length. cbn. lia.
      + intros idx row s. rewrite A1. apply Hb.
    - apply bind_Ret in H. destruct H as (st2 & _ & H). apply bind_Ret in H. destruct H as (st3 & _ & H). discriminate.
  Qed.

  Lemma dead_unfinished : forall m st, dead m st -> 0 < m -> is_finished fo g st = Ret false.
  Proof.
    intros m st [D1 D2 D3 D4] Hm. unfold is_finished, finished_node.
    assert (Ee : is_null (earleme st) = false).
    { unfold earleme. destruct (v_len (r_medial st)) as [|[|k]]; [lia|lia|reflexivity]. }
    rewrite Ee, andb_false_r, D2. reflexivity.
  Qed.

  Lemma feed_all_false : forall fuel locs st st', feed_all fo P g fuel locs st = Ret (false, st') ->
    exists pre loc post mid, locs = pre ++ loc :: post /\ feed_all fo P g fuel pre st = Ret (true, mid) /\
      feed fo P g fuel loc mid = Ret (false, st').
  Proof.
    induction locs as [|loc locs IH]; intros st st' H; simpl in H; [discriminate|].
    apply bind_Ret in H. destruct H as ([b st1] & H1 & H). destruct b.
    - destruct (IH _ _ H) as (pre & loc' & post & mid & -> & A & B). exists (loc :: pre), loc', post, mid.
      split; [auto|]. split; [|auto]. simpl. rewrite H1. exact A.
    - injection H as <-. exists [], loc, locs, st. auto.
  Qed.
End Dead.
