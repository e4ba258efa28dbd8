(** Position: the positions given to [Forest::leaf]. *)
From Coq Require Import List Arith Bool Lia.
From Verif Require Import Base BaseProofs Vec2d Vec2dProofs Item Heap Grammar BitMatrix DefaultGrammar Forest Recognizer Drive ProbeSpec ForestSpec CfgSpec Spec Cost Dead
  ClientSpec GroupSpec PropLemmas6 LinearRun.
From Coq Require Import Sorted.
Import ListNotations.
Local Open Scope res_scope.

Section Kept.
  Context {F N X : Type}.
  Variable fo : forest_ops F N.
  Variable P : perf.
  Variable g : dgrammar.
  Hypothesis Hleo : LEO P = false.
  Notation state := (rstate F N).
  (** a part of the forest that only [leaf] changes *)
  Variable K : F -> X.
  Hypothesis Kb : forall f f', f_begin_sum fo f = Ret f' -> K f' = K f.
  Hypothesis Kp : forall it f f', f_push_summand fo it f = Ret f' -> K f' = K f.
  Hypothesis Ks : forall s o f n f', f_sum fo s o f = Ret (n, f') -> K f' = K f.
  Hypothesis Kr : forall a b f n f', f_product fo a b f = Ret (n, f') -> K f' = K f.
  Definition k (st : state) : X := K (r_forest st).

  Lemma foldM_k : forall A B (proj : B -> state) (f : B -> A -> res B) l b b',
    (forall b a b', f b a = Ret b' -> k (proj b') = k (proj b)) -> foldM f l b = Ret b' -> k (proj b') = k (proj b).
  Proof.
    intros A B proj f l. induction l as [|a l IH]; intros b b' Hf H; cbn [foldM] in H; [now injection H as <-|].
    inv H. rewrite (IH _ _ Hf H). eapply Hf; eauto.
  Qed.
  Lemma item_k : forall link st it st', complete_medial_item fo P g link st it = Ret st' -> k st' = k st.
  Proof.
    intros link st it st' H. unfold complete_medial_item in H. inv H. destruct (negb (LOOKAHEAD P) || a); [|now injection H as <-].
    inv H. destruct a0 as [n f]. inv H. injection H as <-. cbn. eapply Kr; eauto.
  Qed.
  Lemma prediction_k : forall id (link : N) acc t acc', complete_prediction P g id link acc t = Ret acc' -> k (fst acc') = k (fst acc).
  Proof.
    intros id link [st b] t acc' H. unfold complete_prediction in H. inv H. inv H. destruct (a && _); injection H as <-; reflexivity.
  Qed.
  Lemma push_k : forall (st : state) it st', push_complete st it = Ret st' -> k st' = k st.
  Proof. intros st it st' H. unfold push_complete in H. inv H. injection H as <-. reflexivity. Qed.

  Lemma complete_k : forall st id s link st', complete fo P g st id s link = Ret st' -> k st' = k st.
  Proof.
    intros st id s link st' H. unfold complete in H. destruct (g_syms g <=? s).
    - unfold complete_generated_binary_predictions in H. inv H. destruct a as [bo uo]. inv H. rename a into st1, E0 into H1. transitivity (k st1).
      + destruct bo as [t|]; [|now injection H as <-]. inv H. destruct a; injection H as <-; reflexivity.
      + destruct uo as [t|]; [|now injection H1 as <-]. inv H1. destruct a; [eapply push_k; eauto|now injection H1 as <-].
    - inv H. destruct a; [|now injection H as <-]. rewrite Hleo in H. cbn [negb bind] in H.
      inv H. rename a into st1, E0 into H1. transitivity (k st1).
      + unfold complete_predictions in H. inv H. inv H. inv H. destruct a1 as [st2 b]. inv H. inv H. rename a2 into st3. inv H. inv H. inv H. injection H as <-.
        cbn. transitivity (k st2); [|eapply (foldM_k _ _ (fun x : state * nat => fst x)) in E2; [exact E2|intros x y z; apply prediction_k]].
        eapply (foldM_k _ _ (fun x => x)) in E4; [exact E4|intros x y z; apply push_k].
      + unfold complete_medial_items in H1. inv H1. inv H1. eapply (foldM_k _ _ (fun x => x)) in H1; [exact H1|intros x y z; apply item_k].
  Qed.

  Lemma next_summand_k : forall o s st r st', next_summand g o s st = Ret (r, st') -> k st' = k st.
  Proof.
    intros o s st r st' H. unfold next_summand in H. destruct (heap_peek _) as [it|]; [|now injection H as <- <-]. inv H.
    destruct (_ && _); [|now injection H as <- <-]. inv H. destruct a0. injection H as <- <-. reflexivity.
  Qed.
  Lemma summands_k : forall n o s st st', summand_loop fo g n o s st = Ret st' -> k st' = k st.
  Proof.
    induction n as [|n IH]; intros o s st st' H; cbn [summand_loop] in H; inv H; destruct a as [r st1]; pose proof (next_summand_k _ _ _ _ _ E) as K1;
      (destruct r as [it|]; [|now injection H as <-]); inv H; try discriminate.
    unfold push_summand in E0. inv E0. injection E0 as <-. rewrite (IH _ _ _ _ H), <- K1. cbn. eapply Kp; eauto.
  Qed.
  Lemma skip_k : forall n o s st st', skip_loop g n o s st = Ret st' -> k st' = k st.
  Proof.
    induction n as [|n IH]; intros o s st st' H; cbn [skip_loop] in H; inv H; destruct a as [r st1]; pose proof (next_summand_k _ _ _ _ _ E) as K1;
      (destruct r as [it|]; [|now injection H as <-]); try discriminate. rewrite (IH _ _ _ _ H). exact K1.
  Qed.
  Lemma sums_k : forall fuel keep st st', complete_sums fo P g keep fuel st = Ret st' -> k st' = k st.
  Proof.
    induction fuel as [|fuel IH]; intros keep st st' H; cbn [complete_sums] in H; inv H; (destruct a as [[o s]|]; [|now injection H as <-]); [discriminate|].
    inv H. rewrite (IH _ _ _ H). destruct (keep s).
    - unfold complete_entire_sum in E0. inv E0. inv E0. unfold complete_sum in E0. inv E0. destruct a2 as [n f]. rewrite (complete_k _ _ _ _ _ E0). unfold k at 1. cbn [r_forest set_forest].
      rewrite (Ks _ _ _ _ _ E3). change (k a1 = k st). rewrite (summands_k _ _ _ _ _ E2). exact (Kb _ _ E1).
    - unfold skip_entire_sum in E0. eapply skip_k; eauto.
  Qed.
  Lemma advance_k : forall (st st' : state), advance_after_completion P g st = Ret st' -> k st' = k st.
  Proof.
    intros st st' H. unfold advance_after_completion in H. rewrite Hleo in H. cbn [bind] in H. inv H. inv H. cbn [bind] in H.
    transitivity (k a0).
    - unfold prediction_pass in H. inv H. inv H. inv H. inv H. inv H. injection H as <-. reflexivity.
    - transitivity (k a).
      + unfold remove_unreachable_sets in E0. inv E0. inv E0. destruct (_ && _); [|now injection E0 as <-]. rewrite Hleo in E0.
        cbv zeta in E0. inv E0. cbn [bind] in E0. inv E0. inv E0. injection E0 as <-. reflexivity.
      + unfold sort_medial_items in E. inv E. inv E. inv E. injection E as <-. reflexivity.
  Qed.
  Lemma end_k : forall fuel keep st b st', end_filtered fo P g keep fuel st = Ret (b, st') -> k st' = k st.
  Proof.
    intros fuel keep st b st' H. unfold end_filtered in H. inv H. destruct a; [now injection H as _ <-|]. inv H. inv H. injection H as _ <-.
    rewrite (advance_k _ _ E1). eapply sums_k; eauto.
  Qed.
End Kept.

Section Noting.
  Context {F N : Type}.
  Variable fo : forest_ops F N.
  Notation no := (noting fo).
  Notation state := (rstate (F * list nat) N).

  Lemma noting_usable : forall ok, usable fo ok -> usable no (fun ph f => ok ph (fst f)).
  Proof.
    intros ok U. split; intros.
    - destruct (u_begin _ _ U _ H) as (f' & E & H'). cbn. rewrite E. cbn. eexists. split; [reflexivity|]. exact H'.
    - destruct (u_push _ _ U b it _ H) as (f' & E & H'). cbn. rewrite E. cbn. eexists. split; [reflexivity|]. exact H'.
    - destruct (u_sum _ _ U s o _ H) as (n & f' & E & H'). cbn. rewrite E. cbn. eexists _, _. split; [reflexivity|]. exact H'.
    - destruct (u_product _ _ U l r _ H) as (n & f' & E & H'). cbn. rewrite E. cbn. eexists _, _. split; [reflexivity|]. exact H'.
    - destruct (u_leaf _ _ U s p v _ H) as (n & f' & E & H'). cbn. rewrite E. cbn. eexists _, _. split; [reflexivity|]. exact H'.
    - destruct (u_nulling _ _ U s _ H) as (n & E). cbn. rewrite E. eauto.
  Qed.

  Lemma nb : forall f f' : F * list nat, f_begin_sum no f = Ret f' -> snd f' = snd f.
  Proof. intros f f' H. cbn in H. inv H. now injection H as <-. Qed.
  Lemma np : forall it (f f' : F * list nat), f_push_summand no it f = Ret f' -> snd f' = snd f.
  Proof. intros it f f' H. cbn in H. inv H. now injection H as <-. Qed.
  Lemma ns : forall s o (f : F * list nat) n f', f_sum no s o f = Ret (n, f') -> snd f' = snd f.
  Proof. intros s o f n f' H. cbn in H. inv H. destruct a. now injection H as _ <-. Qed.
  Lemma nr : forall a b (f : F * list nat) n f', f_product no a b f = Ret (n, f') -> snd f' = snd f.
  Proof. intros x y f n f' H. cbn in H. inv H. destruct a. now injection H as _ <-. Qed.

  Variable P : perf.
  Variable g : dgrammar.
  Hypothesis Hleo : LEO P = false.

  Lemma scans_note : forall ws (st st' : state) e, earleme st = Some e -> scan_list no P g ws st = Ret st' ->
    snd (r_forest st') = snd (r_forest st) ++ repeat (S e) (length ws).
  Proof.
    induction ws as [|[s v] ws IH]; intros st st' e He H; unfold scan_list in H; cbn [foldM] in H.
    - injection H as <-. cbn. now rewrite app_nil_r.
    - inv H. fold (scan_list no P g ws a) in H. assert (Ea : earleme a = Some e).
      { destruct (scan_same _ _ _ _ _ _ _ E) as [_ L]. unfold earleme, v_len in *. now rewrite L. }
      rewrite (IH _ _ _ Ea H). unfold scan in E. rewrite He in E. cbn [unwrap bind] in E. inv E. destruct a0 as [n f].
      pose proof (complete_k no P g Hleo snd nr _ _ _ _ _ E) as Y. unfold k in Y. cbn [r_forest set_forest] in Y. rewrite Y.
      cbn in E0. inv E0. destruct a0. injection E0 as _ <-. cbn [snd]. rewrite <- app_assoc. cbn [length repeat app]. now rewrite Nat.add_1_r.
  Qed.

  Lemma feed_note : forall fuel loc (st : state) b st' e, earleme (begin_earleme P st) = Some e -> feed no P g fuel loc st = Ret (b, st') ->
    snd (r_forest st') = snd (r_forest st) ++ repeat (S e) (length (l_toks loc)).
  Proof.
    intros fuel loc st b st' e He H. unfold feed in H. inv H.
    pose proof (end_k no P g Hleo snd nb np ns nr _ _ _ _ _ H) as Y. unfold k in Y. rewrite Y.
    apply scans_note with (e := e) in E; [|unfold begin_earleme in *; rewrite Hleo in *; exact He].
    rewrite E. unfold begin_earleme. rewrite Hleo. reflexivity.
  Qed.
End Noting.

Lemma sorted_full : forall (pos : list nat) n, held pos n -> length pos = S n -> pos = seq 0 (S n).
Proof.
  intros pos n [Hs Hn] Hl.
  assert (G : forall (l : list nat) a, StronglySorted lt l -> Forall (le a) l -> nth_error l (length l - 1) = Some (a + (length l - 1)) -> l = seq a (length l)).
  { induction l as [|x l IH]; intros a S Fa H; [reflexivity|]. inversion S as [|? ? S1 S2]; subst. inversion Fa as [|? ? F1 F2]; subst.
    destruct l as [|y l].
    - cbn in H. injection H as ->. cbn. f_equal. lia.
    - assert (Fx : Forall (le (Datatypes.S x)) (y :: l)) by exact S2.
      assert (Hge : nth_error (y :: l) (length (y :: l) - 1) = Some (a + length (y :: l))).
      { cbn [length] in H |- *. replace (Datatypes.S (Datatypes.S (length l)) - 1) with (Datatypes.S (Datatypes.S (length l) - 1)) in H by lia. cbn [nth_error] in H. rewrite H. f_equal. lia. }
      assert (Hx : x = a).
      { pose proof (sorted_index (y :: l) (Datatypes.S x) _ _ Fx S1 Hge) as K. cbn [length] in K. lia. }
      subst x. cbn [seq length]. f_equal. change (Datatypes.S (length l)) with (length (y :: l)). apply IH; auto. rewrite Hge. f_equal. cbn [length]. lia. }
  rewrite <- Hl. apply G; auto; [apply Forall_forall; intros; lia|]. rewrite Hn. f_equal. lia.
Qed.

Lemma combine_app : forall A B (a a' : list A) (b b' : list B), length a = length b -> combine (a ++ a') (b ++ b') = combine a b ++ combine a' b'.
Proof. induction a as [|x a IH]; intros a' [|y b] b' H; try discriminate; [reflexivity|]. cbn. f_equal. apply IH. now injection H. Qed.

Lemma P_positions : forall F N (fo : forest_ops F N) f0 P c nsyms w d0 g0 g, configured fo f0 P c nsyms w d0 g0 g ->
  forall locs, (forall l, In l locs -> acceptable c nsyms l) ->
  forall fuel st0 st', r_new g (f0, []) = Ret st0 -> feed_all (noting fo) P g fuel locs st0 = Ret (true, st') ->
  exists ps, length ps = length locs /\
    snd (r_forest st') = flat_map (fun lp => repeat (snd lp) (length (l_toks (fst lp)))) (combine locs ps) /\
    forall j p, nth_error ps j = Some p -> exists pos, held pos j /\ p = length pos /\ 1 <= p <= S j /\ (p = S j <-> pos = seq 0 (S j)).
Proof.
  intros F N fo f0 P c nsyms w d0 g0 g HC. pose proof (cf_leo _ _ _ _ _ _ _ _ _ HC) as Hleo.
  assert (HC' : configured (noting fo) (f0, []) P c nsyms w d0 g0 g).
  { destruct HC as [(ok & U & H0) HL HB]. split; auto. exists (fun ph f => ok ph (fst f)). split; [now apply noting_usable|exact H0]. }
  induction locs as [|loc locs IH] using rev_ind; intros Ha fuel st0 st' En H.
  - cbn in H. injection H as <-. exists []. split; [reflexivity|]. split; [|intros [|j]; discriminate].
    unfold r_new in En. inv En. inv En. inv En. inv En. injection En as <-. reflexivity.
  - rewrite feed_all_snoc in H. inv H. destruct a as [b st1]. destruct b; [|discriminate].
    destruct (IH ltac:(intros; apply Ha, in_app_iff; auto) fuel st0 st1 En E) as (ps & L & S & Hp).
    destruct (P_earleme _ _ _ _ _ _ _ _ _ HC' locs ltac:(intros; apply Ha, in_app_iff; auto) fuel st0 st1 En E) as (pos & Hh & Ee & Hle).
    assert (Hne : 0 < length pos).
    { destruct Hh as [_ Hn]. destruct pos; [discriminate|cbn; lia]. }
    exists (ps ++ [length pos]). split; [rewrite !app_length; cbn; lia|]. split.
    + rewrite (feed_note fo P g Hleo _ _ _ _ _ _ Ee H), S. rewrite (combine_app _ _ _ _ _ _ (eq_sym L)). rewrite flat_map_app. cbn. rewrite app_nil_r. f_equal. f_equal. lia.
    + intros j p Hj. destruct (Nat.lt_ge_cases j (length ps)) as [K|K].
      * rewrite nth_error_app1 in Hj by auto. auto.
      * rewrite nth_error_app2 in Hj by auto. destruct (j - length ps) as [|i] eqn:Ej; [|destruct i; discriminate]. injection Hj as <-.
        assert (j = length locs) as -> by lia. exists pos. split; [auto|]. split; [auto|]. split; [lia|]. split.
        -- now apply sorted_full.
        -- intros ->. now rewrite seq_length.
Qed.
