(** Drop: a run that drops unreachable Earley sets and a run that keeps all of them
    proceed in lockstep; they differ in the numbering of the sets only. *)
From Coq Require Import List Arith Bool Lia.
From Verif Require Import Base BaseProofs Vec2d Vec2dProofs Item Heap Grammar BitMatrix DefaultGrammar Forest ForestSpec
  Recognizer Drive Sim Core4.
Import ListNotations.
Local Open Scope res_scope.

(** ** The heap, for any relation that preserves comparisons *)
Section H.
  Context {N1 N2 : Type}.
  Variable R : item N1 -> item N2 -> Prop.
  Hypothesis Rcmp : forall a b a' b', R a a' -> R b b' -> item_cmp a b = item_cmp a' b'.

  Lemma ren_sift_up_loop : forall n e e' start pos h h', R e e' -> Forall2 R h h' ->
    rres (Forall2 R) (sift_up_loop n e start pos h) (sift_up_loop n e' start pos h').
  Proof.
    induction n as [|n IH]; intros e e' start pos h h' He Hh; simpl; destruct (start <? pos);
      try (apply rres_upd; auto); try (simpl; auto; fail).
    eapply rres_bind; [apply rres_idx; eauto|]. intros p p' Hp.
    unfold item_leb. rewrite (Rcmp _ _ _ _ He Hp). destruct (item_cmp e' p').
    1,2: apply rres_upd; auto.
    eapply rres_bind; [apply rres_upd; eauto|]. auto.
  Qed.

  Lemma ren_heap_push : forall x x' h h', R x x' -> Forall2 R h h' ->
    rres (Forall2 R) (heap_push x h) (heap_push x' h').
  Proof.
    intros x x' h h' Hx Hh. unfold heap_push, sift_up.
    assert (H2 : Forall2 R (h ++ [x]) (h' ++ [x'])) by (apply Forall2_app; auto).
    rewrite <- (Forall2_length2 _ _ _ _ _ Hh), <- (Forall2_length2 _ _ _ _ _ H2).
    eapply rres_bind; [apply rres_idx; eauto|]. intros. now apply ren_sift_up_loop.
  Qed.

  Lemma ren_sift_down_loop : forall n e e' pos child end_ h h', R e e' -> Forall2 R h h' ->
    rres (Forall2 R) (sift_down_loop n e pos child end_ h) (sift_down_loop n e' pos child end_ h').
  Proof.
    induction n as [|n IH]; intros e e' pos child end_ h h' He Hh; simpl; destruct (child <? end_);
      try (apply rres_upd; auto); try (simpl; auto; fail).
    eapply rres_bind with (T := eq).
    { destruct (child + 1 <? end_); [|apply rres_same].
      eapply rres_bind; [apply rres_idx; eauto|]. intros l l' Hl.
      eapply rres_bind; [apply rres_idx; eauto|]. intros r r' Hr.
      unfold item_gtb. rewrite (Rcmp _ _ _ _ Hl Hr). apply rres_same. }
    intros ch ? <-. eapply rres_bind; [apply rres_idx; eauto|]. intros c c' Hc.
    unfold item_geb. rewrite (Rcmp _ _ _ _ He Hc). destruct (item_cmp e' c').
    1,3: apply rres_upd; auto.
    eapply rres_bind; [apply rres_upd; eauto|]. auto.
  Qed.

  Lemma Forall2_last' : forall l l' d d', Forall2 R l l' -> R d d' -> R (last l d) (last l' d').
  Proof.
    intros l l' d d' H Hd. induction H as [|a b l l' Hab Hl IH]; simpl; auto. destruct Hl; auto.
  Qed.

  Lemma Forall2_removelast' : forall l l', Forall2 R l l' -> Forall2 R (removelast l) (removelast l').
  Proof.
    intros l l' H. induction H as [|a b l l' Hab Hl IH]; simpl; auto. destruct Hl; auto.
  Qed.

  Definition hrel (o : option (item N1)) (o' : option (item N2)) : Prop :=
    match o, o' with Some a, Some b => R a b | None, None => True | _, _ => False end.

  Lemma ren_heap_pop : forall h h', Forall2 R h h' ->
    rres (fun x y => hrel (fst x) (fst y) /\ Forall2 R (snd x) (snd y)) (heap_pop h) (heap_pop h').
  Proof.
    intros h h' H. unfold heap_pop. pose proof (Forall2_removelast' _ _ H) as HR.
    destruct H as [|a b t t' Hab Ht].
    - apply rres_ret. simpl. auto.
    - pose proof (Forall2_last' _ _ _ _ Ht Hab) as HL.
      destruct HR as [|top top' r r' Htop Hr].
      + apply rres_ret. simpl. auto.
      + eapply rres_bind; [apply rres_upd; [constructor; eauto|exact HL]|]. intros h1 h1' H1.
        eapply rres_bind with (T := Forall2 R).
        * unfold sift_down, sift_down_range. rewrite <- (Forall2_length2 _ _ _ _ _ H1).
          eapply rres_bind; [apply rres_idx; eauto|]. intros. now apply ren_sift_down_loop.
        * intros h2 h2' H2. apply rres_ret. simpl. auto.
  Qed.


  Lemma ren_heap_peek : forall h h', Forall2 R h h' -> hrel (heap_peek h) (heap_peek h').
  Proof. intros h h' H. destruct H; simpl; auto. Qed.
End H.

(** ** One location: renumbered sets *)
Section Mid.
  Context {F N : Type}.
  Variable fo : forest_ops F N.
  Hypothesis PB : position_blind fo.
  Variable P : perf.
  Hypothesis HLEO : LEO P = false.
  Variable g : dgrammar.
  Notation state := (rstate F N).

  Section Fixed.
  (** [pos]: the number in the second run of each set of the first run *)
  Variable pos : list nat.
  Variables cs1 cs2 : list (list (item N)).
  Variables p1 p2 : bitmatrix.

  Definition iren (pos : list nat) (a b : item N) : Prop :=
    it_dot a = it_dot b /\ it_node a = it_node b /\ nth_error pos (it_origin a) = Some (it_origin b).

  Definition increasing (pos : list nat) : Prop :=
    forall i j p q, i < j -> nth_error pos i = Some p -> nth_error pos j = Some q -> p < q.

  Hypothesis Hinc : increasing pos.
  Hypothesis Hclosed : forall i p, nth_error pos i = Some p ->
    exists l1 l2, nth_error cs1 i = Some l1 /\ nth_error cs2 p = Some l2 /\ Forall2 (iren pos) l1 l2.
  Hypothesis Hrows : forall i p, nth_error pos i = Some p -> nth_error p1 i = nth_error p2 p.
  Hypothesis Hne : cs1 <> [] /\ cs2 <> [].
  Hypothesis Hlast : nth_error pos (length cs1 - 1) = Some (length cs2 - 1).

  Lemma pos_compare : forall i j p q, nth_error pos i = Some p -> nth_error pos j = Some q ->
    Nat.compare i j = Nat.compare p q.
  Proof.
    intros i j p q Hi Hj. destruct (Nat.compare_spec i j) as [E|E|E].
    - subst j. assert (p = q) by congruence. subst q. symmetry. now apply Nat.compare_eq_iff.
    - symmetry. apply Nat.compare_lt_iff. eapply Hinc; eauto.
    - symmetry. apply Nat.compare_gt_iff. eapply Hinc; eauto.
  Qed.

  Lemma pos_eqb : forall i j p q, nth_error pos i = Some p -> nth_error pos j = Some q -> (i =? j) = (p =? q).
  Proof. intros i j p q Hi Hj. pose proof (pos_compare _ _ _ _ Hi Hj) as X. rewrite !Nat.eqb_compare. now rewrite X. Qed.

  Lemma pos_leb : forall i j p q, nth_error pos i = Some p -> nth_error pos j = Some q -> (i <=? j) = (p <=? q).
  Proof. intros i j p q Hi Hj. pose proof (pos_compare _ _ _ _ Hi Hj) as X. rewrite !Nat.leb_compare. now rewrite X. Qed.

  Lemma iren_cmp : forall a b a' b', iren pos a a' -> iren pos b b' -> item_cmp a b = item_cmp a' b'.
  Proof.
    intros a b a' b' (H1 & _ & H2) (H3 & _ & H4). unfold item_cmp.
    now rewrite (pos_compare _ _ _ _ H2 H4), H1, H3.
  Qed.

  Definition mid (s1 s2 : state) : Prop :=
    r_forest s1 = r_forest s2 /\ r_hint s1 = r_hint s2 /\ r_predicted s1 = p1 /\ r_predicted s2 = p2 /\
    (exists O1 O2, rep (r_medial s1) cs1 O1 /\ rep (r_medial s2) cs2 O2 /\ Forall2 (iren pos) O1 O2) /\
    Forall2 (iren pos) (r_complete s1) (r_complete s2).

  Lemma mid_forest : forall s1 s2 f, mid s1 s2 -> mid (set_forest s1 f) (set_forest s2 f).
  Proof. intros s1 s2 f (A & B & C & D & E & G). split; [reflexivity|]. auto. Qed.

  Lemma mid_hint : forall s1 s2 f, mid s1 s2 -> mid (set_hint_field s1 f) (set_hint_field s2 f).
  Proof. intros s1 s2 f (A & B & C & D & E & G). split; [auto|]. split; [reflexivity|]. auto. Qed.

  Lemma mid_complete : forall s1 s2 c1 c2, mid s1 s2 -> Forall2 (iren pos) c1 c2 ->
    mid (set_complete s1 c1) (set_complete s2 c2).
  Proof. intros s1 s2 c1 c2 (A & B & C & D & E & G) H. split; [auto|]. split; [auto|]. split; [auto|]. split; [auto|]. split; auto. Qed.

  Lemma mid_medial : forall s1 s2 m1 m2 O1 O2, mid s1 s2 -> rep m1 cs1 O1 -> rep m2 cs2 O2 ->
    Forall2 (iren pos) O1 O2 -> mid (set_medial s1 m1) (set_medial s2 m2).
  Proof.
    intros s1 s2 m1 m2 O1 O2 (A & B & C & D & E & G) H1 H2 H3. split; [auto|]. split; [auto|]. split; [auto|]. split; [auto|].
    split; [exists O1, O2; auto|exact G].
  Qed.

  Lemma mid_hint_check : forall s1 s2 f, mid s1 s2 -> hint_check s1 f = hint_check s2 f.
  Proof. intros s1 s2 f (_ & B & _). unfold hint_check. now rewrite B. Qed.

  Lemma mid_bm_get : forall s1 s2 i p s, mid s1 s2 -> nth_error pos i = Some p ->
    bm_get (r_predicted s1) i s = bm_get (r_predicted s2) p s.
  Proof.
    intros s1 s2 i p s (_ & _ & C & D & _) Hi. unfold bm_get, idx. rewrite C, D, (Hrows _ _ Hi). reflexivity.
  Qed.

  Lemma mid_last : forall s1 s2, mid s1 s2 -> exists O1 O2, v_last (r_medial s1) = Ret O1 /\
    v_last (r_medial s2) = Ret O2 /\ Forall2 (iren pos) O1 O2 /\ rep (r_medial s1) cs1 O1 /\ rep (r_medial s2) cs2 O2.
  Proof.
    intros s1 s2 (_ & _ & _ & _ & (O1 & O2 & H1 & H2 & H3) & _). exists O1, O2.
    split; [eapply rep_last; eauto|]. split; [eapply rep_last; eauto|]. auto.
  Qed.

  Lemma drop_complete_medial_item : forall r s1 s2 i1 i2, mid s1 s2 -> iren pos i1 i2 ->
    rres mid (complete_medial_item fo P g r s1 i1) (complete_medial_item fo P g r s2 i2).
  Proof.
    intros r s1 s2 i1 i2 Hs (Hd & Hn & Ho). unfold complete_medial_item.
    rewrite <- (mid_hint_check _ _ _ Hs), Hd, Hn.
    eapply rres_bind; [apply rres_same|]. intros useful ? <-.
    destruct (negb (LOOKAHEAD P) || useful); [|apply rres_ret; auto].
    replace (r_forest s2) with (r_forest s1) by apply Hs.
    eapply rres_bind; [apply rres_same|]. intros [n f] ? <-.
    eapply rres_bind; [apply (ren_heap_push _ iren_cmp) with (h' := r_complete s2)|].
    - split; [reflexivity|]. split; [reflexivity|]. exact Ho.
    - apply Hs.
    - intros c1 c2 Hc. apply rres_ret. apply mid_complete; auto. now apply mid_forest.
  Qed.

  Lemma drop_complete_medial_items : forall s1 s2 i p s r, mid s1 s2 -> nth_error pos i = Some p ->
    rres mid (complete_medial_items fo P g s1 i s r) (complete_medial_items fo P g s2 p s r).
  Proof.
    intros s1 s2 i p s r Hs Hi. unfold complete_medial_items.
    destruct (Hclosed _ _ Hi) as (l1 & l2 & E1 & E2 & Hl).
    destruct (mid_last _ _ Hs) as (O1 & O2 & _ & _ & _ & R1 & R2).
    rewrite (rep_index _ _ _ _ _ R1 E1), (rep_index _ _ _ _ _ R2 E2). cbn [bind].
    eapply rres_bind with (T := Forall2 (fun x y => fst x = fst y /\ iren pos (snd x) (snd y))).
    { eapply rres_mapM; [|exact Hl]. intros a b Hab. rewrite (proj1 Hab).
      eapply rres_bind; [apply rres_same|]. intros o ? <-. apply rres_ret. auto. }
    intros k k' Hk. rewrite (search_fst _ _ k k' s).
    2:{ eapply Forall2_impl2; [|exact Hk]. intros a b [X _]. exact X. }
    eapply rres_foldM with (T := iren pos); auto.
    - intros c d a b Hcd Hab. now apply drop_complete_medial_item.
    - apply (take_while_fst _ _ (iren pos) (fun o => eqb_opt o (Some s))). now apply Forall2_skipn.
  Qed.

  Lemma drop_push_complete : forall s1 s2 i1 i2, mid s1 s2 -> iren pos i1 i2 ->
    rres mid (push_complete s1 i1) (push_complete s2 i2).
  Proof.
    intros s1 s2 i1 i2 Hs Hi. unfold push_complete.
    eapply rres_bind; [apply (ren_heap_push _ iren_cmp); [exact Hi|apply Hs]|].
    intros c1 c2 Hc. apply rres_ret. now apply mid_complete.
  Qed.

  Lemma drop_complete_predictions : forall s1 s2 i p s r, mid s1 s2 -> nth_error pos i = Some p ->
    rres mid (complete_predictions P g s1 i s r) (complete_predictions P g s2 p s r).
  Proof.
    intros s1 s2 i p s r Hs Hi. unfold complete_predictions.
    destruct (mid_last _ _ Hs) as (O1 & O2 & E1 & E2 & HO & R1 & R2). rewrite E1, E2. cbn [bind].
    rewrite <- (Forall2_length2 _ _ _ _ _ HO).
    eapply rres_bind; [apply rres_same|]. intros trans ? <-.
    eapply rres_bind with (T := fun x y => mid (fst x) (fst y) /\ snd x = snd y).
    { eapply rres_foldM with (T := eq); [|apply Forall2_refl_eq|cbn; auto].
      intros [t1 b1] [t2 b2] t ? [Ht Hb] <-. cbn [fst snd] in *. subst b2. unfold complete_prediction.
      rewrite (mid_bm_get _ _ _ _ _ Ht Hi). eapply rres_bind; [apply rres_same|]. intros wp ? <-.
      rewrite (mid_hint_check _ _ _ Ht). eapply rres_bind; [apply rres_same|]. intros u ? <-.
      destruct (wp && (negb (LOOKAHEAD P) || u)); apply rres_ret; cbn [fst snd]; auto.
      split; [|auto]. destruct (mid_last _ _ Ht) as (Q1 & Q2 & _ & _ & HQ & S1 & S2).
      eapply mid_medial; [exact Ht|apply rep_push; exact S1|apply rep_push; exact S2|].
      apply Forall2_app; [exact HQ|]. constructor; [|constructor]. split; [reflexivity|]. split; [reflexivity|]. exact Hi. }
    intros [t1 b1] [t2 b2] [Ht Hb]. cbn [fst snd] in *. subst b2.
    destruct (mid_last _ _ Ht) as (Q1 & Q2 & F1 & F2 & HQ & S1 & S2). rewrite F1, F2. cbn [bind].
    eapply rres_bind with (T := mid).
    { eapply rres_foldM with (T := iren pos); [|now apply Forall2_skipn|exact Ht].
      intros c d a b Hcd Hab. now apply drop_push_complete. }
    intros u1 u2 Hu. destruct (mid_last _ _ Hu) as (U1 & U2 & G1 & G2 & HU & T1 & T2). rewrite G1, G2. cbn [bind].
    rewrite <- (Forall2_length2 _ _ _ _ _ HU), (rep_item_count _ _ _ T1), (rep_item_count _ _ _ T2).
    rewrite <- (Forall2_length2 _ _ _ _ _ HU).
    rewrite !(proj2 (Nat.leb_le (length U1 - b1) _)) by lia. cbn [assert bind].
    destruct (b1 <=? length U1) eqn:Eb; cbn [assert bind]; [|exact I]. apply Nat.leb_le in Eb.
    apply rres_ret.
    eapply mid_medial; [exact Hu|apply rep_truncate_chart; [exact T1|lia]|apply rep_truncate_chart; [exact T2|lia]|].
    replace (length (concat cs1) + length U1 - (length U1 - b1) - length (concat cs1)) with b1 by lia.
    replace (length (concat cs2) + length U1 - (length U1 - b1) - length (concat cs2)) with b1 by lia.
    now apply Forall2_firstn.
  Qed.

  Lemma drop_complete_gen : forall s1 s2 i p s r, mid s1 s2 -> nth_error pos i = Some p ->
    rres mid (complete_generated_binary_predictions g s1 i s r) (complete_generated_binary_predictions g s2 p s r).
  Proof.
    intros s1 s2 i p s r Hs Hi. unfold complete_generated_binary_predictions.
    eapply rres_bind; [apply rres_same|]. intros [bo uo] ? <-.
    eapply rres_bind with (T := mid).
    { destruct uo as [t|]; [|apply rres_ret; auto]. rewrite (mid_bm_get _ _ _ _ _ Hs Hi).
      eapply rres_bind; [apply rres_same|]. intros wp ? <-. destruct wp; [|apply rres_ret; auto].
      apply drop_push_complete; auto. split; [reflexivity|]. split; [reflexivity|]. exact Hi. }
    intros t1 t2 Ht. destruct bo as [t|]; [|apply rres_ret; auto]. rewrite (mid_bm_get _ _ _ _ _ Ht Hi).
    eapply rres_bind; [apply rres_same|]. intros wp ? <-. destruct wp; apply rres_ret; auto.
    destruct (mid_last _ _ Ht) as (Q1 & Q2 & _ & _ & HQ & S1 & S2).
    eapply mid_medial; [exact Ht|apply rep_push; exact S1|apply rep_push; exact S2|].
    apply Forall2_app; [exact HQ|]. constructor; [|constructor]. split; [reflexivity|]. split; [reflexivity|]. exact Hi.
  Qed.

  Lemma drop_complete : forall s1 s2 i p s r, mid s1 s2 -> nth_error pos i = Some p ->
    rres mid (complete fo P g s1 i s r) (complete fo P g s2 p s r).
  Proof.
    intros s1 s2 i p s r Hs Hi. unfold complete.
    destruct (g_syms g <=? s); [now apply drop_complete_gen|].
    rewrite (mid_bm_get _ _ _ _ _ Hs Hi). eapply rres_bind; [apply rres_same|]. intros b ? <-.
    destruct b; [|apply rres_ret; auto]. rewrite HLEO. cbn [negb bind].
    eapply rres_bind; [now apply drop_complete_medial_items|]. intros t1 t2 Ht.
    now apply drop_complete_predictions.
  Qed.

  Lemma mid_earleme : forall s1 s2, mid s1 s2 ->
    earleme s1 = Some (length cs1 - 1) /\ earleme s2 = Some (length cs2 - 1).
  Proof.
    intros s1 s2 Hs. destruct (mid_last _ _ Hs) as (O1 & O2 & _ & _ & _ & R1 & R2). unfold earleme.
    rewrite (rep_len _ _ _ R1), (rep_len _ _ _ R2). destruct Hne as [H1 H2].
    assert (length cs1 <> 0) by (intros X; apply length_zero_iff_nil in X; auto).
    assert (length cs2 <> 0) by (intros X; apply length_zero_iff_nil in X; auto).
    destruct (length cs1), (length cs2); try lia. split; f_equal; lia.
  Qed.

  Lemma drop_scan : forall s1 s2 symbol value, mid s1 s2 ->
    rres mid (scan fo P g s1 symbol value) (scan fo P g s2 symbol value).
  Proof.
    intros s1 s2 symbol value Hs. unfold scan. destruct (mid_earleme _ _ Hs) as [-> ->]. cbn [unwrap bind].
    replace (r_forest s2) with (r_forest s1) by apply Hs.
    rewrite (pb_leaf _ PB symbol (length cs1 - 1 + 1) (length cs2 - 1 + 1)).
    eapply rres_bind; [apply rres_same|]. intros [n f] ? <-. apply drop_complete; [now apply mid_forest|exact Hlast].
  Qed.

  Lemma mid_heads : forall s1 s2, mid s1 s2 -> (r_complete s1 = [] /\ r_complete s2 = []) \/
    exists a b t t', r_complete s1 = a :: t /\ r_complete s2 = b :: t' /\ iren pos a b.
  Proof.
    intros s1 s2 (_ & _ & _ & _ & _ & H). destruct H as [|a b t t' Hab Ht]; [auto|]. right. exists a, b, t, t'. auto.
  Qed.

  Definition grel (x y : option (nat * sym)) : Prop :=
    match x, y with
    | Some a, Some b => nth_error pos (fst a) = Some (fst b) /\ snd a = snd b
    | None, None => True
    | _, _ => False
    end.

  Lemma drop_next_sum : forall s1 s2, mid s1 s2 -> rres grel (next_sum g s1) (next_sum g s2).
  Proof.
    intros s1 s2 Hs. unfold next_sum. destruct (mid_heads _ _ Hs) as [[-> ->]|(a & b & t & t' & -> & -> & E1 & _ & E2)]; cbn [heap_peek nth_error].
    - apply rres_ret. exact I.
    - rewrite E1. eapply rres_bind; [apply rres_same|]. intros lhs ? <-. apply rres_ret. cbn. auto.
  Qed.

  Lemma drop_next_summand : forall s1 s2 o o' l, mid s1 s2 -> nth_error pos o = Some o' ->
    rres (fun x y => hrel (iren pos) (fst x) (fst y) /\ mid (snd x) (snd y))
         (next_summand g o l s1) (next_summand g o' l s2).
  Proof.
    intros s1 s2 o o' l Hs Ho. unfold next_summand.
    assert (Hc : Forall2 (iren pos) (r_complete s1) (r_complete s2)) by apply Hs.
    pose proof (ren_heap_peek _ _ _ Hc) as X. unfold hrel in X.
    destruct (heap_peek (r_complete s1)) as [i1|], (heap_peek (r_complete s2)) as [i2|]; try contradiction.
    - pose proof X as (A & B & C). rewrite <- A. eapply rres_bind; [apply rres_same|]. intros lhs ? <-.
      rewrite (pos_eqb _ _ _ _ Ho C). destruct ((o' =? it_origin i2) && (l =? lhs)).
      + eapply rres_bind; [apply (ren_heap_pop _ iren_cmp); exact Hc|]. intros [o1 c1] [o2 c2] [_ H2]. cbn [fst snd] in *.
        apply rres_ret. cbn. split; [exact X|]. now apply mid_complete.
      + apply rres_ret. cbn. auto.
    - apply rres_ret. cbn. auto.
  Qed.

  Lemma drop_push_summand : forall s1 s2 i1 i2, mid s1 s2 -> iren pos i1 i2 ->
    rres mid (push_summand fo s1 i1) (push_summand fo s2 i2).
  Proof.
    intros s1 s2 [d1 o1 n1] [d2 o2 n2] Hs (E1 & E2 & _). cbn in E1, E2. subst. unfold push_summand.
    rewrite (pb_push _ PB d2 o1 o2). replace (r_forest s2) with (r_forest s1) by apply Hs.
    eapply rres_bind; [apply rres_same|]. intros f ? <-. apply rres_ret. now apply mid_forest.
  Qed.

  Lemma drop_summand_loop : forall n s1 s2 o o' l, mid s1 s2 -> nth_error pos o = Some o' ->
    rres mid (summand_loop fo g n o l s1) (summand_loop fo g n o' l s2).
  Proof.
    induction n as [|n IH]; intros s1 s2 o o' l Hs Ho; cbn [summand_loop];
      (eapply rres_bind; [apply drop_next_summand; eauto|]);
      intros [o1 t1] [o2 t2] [Hi Ht]; cbn [fst snd] in *;
      destruct o1 as [i1|], o2 as [i2|]; try contradiction; try (apply rres_ret; exact Ht);
      (eapply rres_bind; [apply drop_push_summand; eauto|]); intros u1 u2 Hu; [simpl; auto|now apply IH].
  Qed.

  Lemma drop_skip_loop : forall n s1 s2 o o' l, mid s1 s2 -> nth_error pos o = Some o' ->
    rres mid (skip_loop g n o l s1) (skip_loop g n o' l s2).
  Proof.
    induction n as [|n IH]; intros s1 s2 o o' l Hs Ho; cbn [skip_loop];
      (eapply rres_bind; [apply drop_next_summand; eauto|]);
      intros [o1 t1] [o2 t2] [Hi Ht]; cbn [fst snd] in *;
      destruct o1 as [i1|], o2 as [i2|]; try contradiction; try (apply rres_ret; exact Ht); [simpl; auto|now apply IH].
  Qed.

  Lemma drop_complete_entire_sum : forall s1 s2 o o' l, mid s1 s2 -> nth_error pos o = Some o' ->
    rres mid (complete_entire_sum fo P g o l s1) (complete_entire_sum fo P g o' l s2).
  Proof.
    intros s1 s2 o o' l Hs Ho. unfold complete_entire_sum.
    replace (r_forest s2) with (r_forest s1) by apply Hs.
    eapply rres_bind; [apply rres_same|]. intros f ? <-. cbn zeta.
    pose proof (mid_forest _ _ f Hs) as Hs'.
    replace (length (r_complete (set_forest s2 f))) with (length (r_complete (set_forest s1 f))).
    2:{ eapply Forall2_length2. apply Hs'. }
    eapply rres_bind; [apply drop_summand_loop; eauto|]. intros t1 t2 Ht. unfold complete_sum.
    replace (r_forest t2) with (r_forest t1) by apply Ht. rewrite (pb_sum _ PB l o o').
    eapply rres_bind; [apply rres_same|]. intros [n h] ? <-. apply drop_complete; auto. now apply mid_forest.
  Qed.

  (** the completed runs, with empty heaps *)
  Definition done (s1 s2 : state) : Prop := mid s1 s2 /\ r_complete s1 = [] /\ r_complete s2 = [].

  Lemma drop_complete_sums : forall keep fuel s1 s2, mid s1 s2 ->
    rres done (complete_sums fo P g keep fuel s1) (complete_sums fo P g keep fuel s2).
  Proof.
    intros keep. induction fuel as [|fuel IH]; intros s1 s2 Hs; cbn [complete_sums].
    - pose proof (drop_next_sum _ _ Hs) as X.
      destruct (next_sum g s1) as [o1| |] eqn:E1; cbn [bind]; [|exact I|].
      2:{ simpl in X. rewrite X. reflexivity. }
      simpl in X. destruct X as (o2 & E2 & X). rewrite E2. cbn [bind].
      destruct o1 as [[o l]|], o2 as [[o' l']|]; try contradiction; [reflexivity|].
      apply rres_ret. split; [now apply mid_hint|].
      unfold next_sum in E1. destruct (mid_heads _ _ Hs) as [X'|(a & b & t & t' & Ea & _)]; [exact X'|].
      rewrite Ea in E1. cbn in E1. destruct (get_lhs g (it_dot a)); discriminate.
    - pose proof (drop_next_sum _ _ Hs) as X.
      destruct (next_sum g s1) as [o1| |] eqn:E1; cbn [bind]; [|exact I|].
      2:{ simpl in X. rewrite X. reflexivity. }
      simpl in X. destruct X as (o2 & E2 & X). rewrite E2. cbn [bind].
      destruct o1 as [[o l]|], o2 as [[o' l']|]; try contradiction.
      + cbn in X. destruct X as [Ho ->]. eapply rres_bind with (T := mid); [|intros; now apply IH].
        destruct (keep l'); [now apply drop_complete_entire_sum|]. unfold skip_entire_sum.
        replace (length (r_complete s2)) with (length (r_complete s1)).
        2:{ eapply Forall2_length2. apply Hs. }
        now apply drop_skip_loop.
      + apply rres_ret. split; [now apply mid_hint|].
        unfold next_sum in E1. destruct (mid_heads _ _ Hs) as [X'|(a & b & t & t' & Ea & _)]; [exact X'|].
        rewrite Ea in E1. cbn in E1. destruct (get_lhs g (it_dot a)); discriminate.
  Qed.

  Lemma drop_sort : forall s1 s2, done s1 s2 -> rres done (sort_medial_items g s1) (sort_medial_items g s2).
  Proof.
    intros s1 s2 (Hs & C1 & C2). unfold sort_medial_items.
    destruct (mid_last _ _ Hs) as (O1 & O2 & E1 & E2 & HO & R1 & R2). rewrite E1, E2. cbn [bind].
    eapply rres_bind with (T := Forall2 (fun x y => fst x = fst y /\ iren pos (snd x) (snd y))).
    { eapply rres_mapM; [|exact HO]. intros a b Hab. rewrite (proj1 Hab).
      eapply rres_bind; [apply rres_same|]. intros o ? <-. eapply rres_bind; [apply rres_same|]. intros r ? <-.
      apply rres_ret. auto. }
    intros k k' Hk.
    destruct (rep_set_last _ _ _ (map snd (sort_by medial_key_leb k)) R1) as (m1 & M1 & S1).
    destruct (rep_set_last _ _ _ (map snd (sort_by medial_key_leb k')) R2) as (m2 & M2 & S2).
    rewrite M1, M2. cbn [bind]. apply rres_ret. split; [|auto].
    eapply mid_medial; [exact Hs|exact S1|exact S2|].
    assert (X : Forall2 (fun x y => fst x = fst y /\ iren pos (snd x) (snd y))
                  (sort_by medial_key_leb k) (sort_by medial_key_leb k')).
    { apply sort_rel; auto. intros a b a' b' [A1 (A2 & _ & A3)] [B1 (B2 & _ & B3)].
      unfold medial_key_leb. rewrite A1, A2, B1, B2. now rewrite (pos_leb _ _ _ _ A3 B3). }
    clear -X. induction X as [|a b l l' [_ H] _ IH]; simpl; auto.
  Qed.

  Lemma drop_exhausted : forall s1 s2, mid s1 s2 -> rres eq (is_exhausted s1) (is_exhausted s2).
  Proof.
    intros s1 s2 Hs. unfold is_exhausted. destruct (mid_last _ _ Hs) as (O1 & O2 & -> & -> & HO & _). cbn [bind].
    apply rres_ret. assert (Hc : Forall2 (iren pos) (r_complete s1) (r_complete s2)) by apply Hs.
    destruct HO, Hc; auto.
  Qed.

  Lemma drop_scan_list : forall ws s1 s2, mid s1 s2 ->
    rres mid (scan_list fo P g ws s1) (scan_list fo P g ws s2).
  Proof.
    intros ws s1 s2 Hs. unfold scan_list. eapply rres_foldM with (T := eq); [|apply Forall2_refl_eq|auto].
    intros c d a ? Hcd <-. now apply drop_scan.
  Qed.
  End Fixed.

  (** ** Between two locations *)
  Definition zero_from (k : nat) (m : bitmatrix) : Prop :=
    forall i row, k <= i -> nth_error m i = Some row -> row = repeat false (g_syms g).

  (** the closed sets of both runs *)
  Record closed (pos : list nat) (cs1 cs2 : list (list (item N))) (p1 p2 : bitmatrix) : Prop := {
    cl_len : length pos = length cs1;
    cl_inc : increasing pos;
    cl_sets : forall i p, nth_error pos i = Some p ->
      exists l1 l2, nth_error cs1 i = Some l1 /\ nth_error cs2 p = Some l2 /\ Forall2 (iren (firstn i pos)) l1 l2;
    cl_rows : forall i p, nth_error pos i = Some p -> nth_error p1 i = nth_error p2 p;
    cl_empty : cs1 = [] <-> cs2 = []
  }.

  Definition between (s1 s2 : state) : Prop :=
    exists pos cs1 cs2 O1 O2, closed pos cs1 cs2 (r_predicted s1) (r_predicted s2) /\
      r_forest s1 = r_forest s2 /\ r_hint s1 = r_hint s2 /\
      rep (r_medial s1) cs1 O1 /\ rep (r_medial s2) cs2 O2 /\ Forall2 (iren pos) O1 O2 /\
      r_complete s1 = [] /\ r_complete s2 = [] /\
      nth_error (r_predicted s1) (length cs1) = nth_error (r_predicted s2) (length cs2) /\
      length cs1 < length (r_predicted s1) /\ length cs2 < length (r_predicted s2) /\
      zero_from (S (length cs1)) (r_predicted s1) /\ zero_from (S (length cs2)) (r_predicted s2).

  Lemma iren_more : forall pos pos' a b, (forall i p, nth_error pos i = Some p -> nth_error pos' i = Some p) ->
    iren pos a b -> iren pos' a b.
  Proof. intros pos pos' a b H (A & B & C). split; [auto|]. split; auto. Qed.

  Lemma nth_firstn_some : forall A (l : list A) k i a, nth_error (firstn k l) i = Some a <-> i < k /\ nth_error l i = Some a.
  Proof.
    intros A l k. revert l. induction k as [|k IH]; intros l i a; simpl.
    - destruct i; simpl; split; intros H; try discriminate; destruct H; lia.
    - destruct l as [|x l]; [destruct i; simpl; split; intros H; try discriminate; destruct H; discriminate|].
      destruct i as [|i]; simpl; [split; [intros H; split; [lia|auto]|intros [_ H]; auto]|].
      rewrite IH. split; intros [H1 H2]; split; auto; lia.
  Qed.

  Lemma nth_snoc : forall A (l : list A) a i x, nth_error (l ++ [a]) i = Some x <->
    (i < length l /\ nth_error l i = Some x) \/ (i = length l /\ x = a).
  Proof.
    intros A l a i x. destruct (lt_eq_lt_dec i (length l)) as [[H|H]|H].
    - rewrite nth_error_app1 by auto. split; [auto|]. intros [[_ X]|[X _]]; [auto|lia].
    - subst i. rewrite nth_error_app2, Nat.sub_diag by auto. simpl. split; [intros X; right; split; congruence|].
      intros [[X _]|[_ X]]; [lia|congruence].
    - split; [intros X|intros [[X _]|[X _]]; lia].
      assert (nth_error (l ++ [a]) i = None) by (apply nth_error_None; rewrite app_length; simpl; lia). congruence.
  Qed.

  (** what holds inside a location, besides [mid] *)
  Record inside (pos : list nat) (cs1 cs2 : list (list (item N))) (p1 p2 : bitmatrix) : Prop := {
    in_closed : closed pos cs1 cs2 p1 p2;
    in_ne : cs1 <> [] /\ cs2 <> [];
    in_last : nth_error pos (length cs1 - 1) = Some (length cs2 - 1);
    in_len1 : length cs1 <= length p1;
    in_len2 : length cs2 <= length p2;
    in_zero1 : zero_from (length cs1) p1;
    in_zero2 : zero_from (length cs2) p2
  }.

  Lemma inside_sets : forall pos cs1 cs2 p1 p2, inside pos cs1 cs2 p1 p2 ->
    forall i p, nth_error pos i = Some p ->
      exists l1 l2, nth_error cs1 i = Some l1 /\ nth_error cs2 p = Some l2 /\ Forall2 (iren pos) l1 l2.
  Proof.
    intros pos cs1 cs2 p1 p2 H i p Hi. destruct (cl_sets _ _ _ _ _ (in_closed _ _ _ _ _ H) _ _ Hi) as (l1 & l2 & A & B & C).
    exists l1, l2. split; [auto|]. split; [auto|]. eapply Forall2_impl2; [|exact C]. intros a b. apply iren_more.
    intros j q Hj. apply nth_firstn_some in Hj. apply Hj.
  Qed.

  Lemma between_begin : forall s1 s2 h, between s1 s2 ->
    exists pos cs1 cs2 p1 p2, inside pos cs1 cs2 p1 p2 /\
      mid pos cs1 cs2 p1 p2 (set_hint_field (begin_earleme P s1) h) (set_hint_field (begin_earleme P s2) h).
  Proof.
    intros s1 s2 h (pos & cs1 & cs2 & O1 & O2 & HC & Hf & Hh & R1 & R2 & HO & C1 & C2 & Hrow & L1 & L2 & Z1 & Z2).
    exists (pos ++ [length cs2]), (cs1 ++ [O1]), (cs2 ++ [O2]), (r_predicted s1), (r_predicted s2).
    assert (Hlt : forall i p, nth_error pos i = Some p -> p < length cs2).
    { intros i p Hi. destruct (cl_sets _ _ _ _ _ HC _ _ Hi) as (_ & l2 & _ & X & _). apply nth_error_Some. congruence. }
    pose proof (cl_len _ _ _ _ _ HC) as HL.
    assert (Hmore : forall i p, nth_error pos i = Some p -> nth_error (pos ++ [length cs2]) i = Some p).
    { intros i p Hi. apply nth_snoc. left. split; [|exact Hi]. apply nth_error_Some. congruence. }
    split.
    - constructor.
      + constructor.
        * rewrite !app_length, HL. reflexivity.
        * intros i j p q Hij Hi Hj. apply nth_snoc in Hi, Hj.
          destruct Hi as [[Hi1 Hi]|[Hi1 Hi]], Hj as [[Hj1 Hj]|[Hj1 Hj]]; try lia.
          -- exact (cl_inc _ _ _ _ _ HC i j p q Hij Hi Hj).
          -- subst q. eauto.
        * intros i p Hi. apply nth_snoc in Hi. destruct Hi as [[Hi1 Hi]|[Hi1 Hi]].
          -- destruct (cl_sets _ _ _ _ _ HC _ _ Hi) as (l1 & l2 & A & B & C). exists l1, l2.
             split; [rewrite nth_error_app1; [auto|apply nth_error_Some; congruence]|].
             split; [rewrite nth_error_app1; [auto|apply nth_error_Some; congruence]|].
             eapply Forall2_impl2; [|exact C]. intros a b. apply iren_more. intros j q Hj.
             apply nth_firstn_some in Hj. apply nth_firstn_some. split; [apply Hj|apply Hmore, Hj].
          -- subst i p. exists O1, O2. split; [rewrite HL; apply nth_snoc; auto|]. split; [apply nth_snoc; auto|].
             rewrite firstn_app, firstn_all, Nat.sub_diag. simpl. rewrite app_nil_r. exact HO.
        * intros i p Hi. apply nth_snoc in Hi. destruct Hi as [[Hi1 Hi]|[Hi1 Hi]].
          -- now apply (cl_rows _ _ _ _ _ HC).
          -- subst i p. rewrite HL. exact Hrow.
        * split; intros X; apply (f_equal (@length _)) in X; rewrite app_length in X; simpl in X; lia.
      + split; intros X; apply (f_equal (@length _)) in X; rewrite app_length in X; simpl in X; lia.
      + rewrite !app_length. simpl. replace (length cs1 + 1 - 1) with (length pos) by lia.
        replace (length cs2 + 1 - 1) with (length cs2) by lia. apply nth_snoc. auto.
      + rewrite app_length. simpl. lia.
      + rewrite app_length. simpl. lia.
      + intros i row Hi. apply Z1. rewrite app_length in Hi. simpl in Hi. lia.
      + intros i row Hi. apply Z2. rewrite app_length in Hi. simpl in Hi. lia.
    - unfold begin_earleme. rewrite HLEO. cbn. split; [exact Hf|]. split; [reflexivity|]. split; [reflexivity|]. split; [reflexivity|].
      cbn. split; [|rewrite C1, C2; constructor]. exists [], [].
      split; [now apply rep_next_set|]. split; [now apply rep_next_set|constructor].
  Qed.


  (** *** The end of a location: the first run may drop sets *)
  Lemma closed_firstn : forall pos cs1 cs2 p1 p2 k, closed pos cs1 cs2 p1 p2 -> 0 < k ->
    closed (firstn k pos) (firstn k cs1) cs2 (firstn k p1) p2.
  Proof.
    intros pos cs1 cs2 p1 p2 k [HL HI HS HR HE] Hk. constructor.
    - rewrite !firstn_length. now rewrite HL.
    - intros i j p q Hij Hi Hj. apply nth_firstn_some in Hi, Hj. eapply HI; [exact Hij|apply Hi|apply Hj].
    - intros i p Hi. apply nth_firstn_some in Hi. destruct Hi as [Hik Hi]. destruct (HS _ _ Hi) as (l1 & l2 & A & B & C).
      exists l1, l2. split; [apply nth_firstn_some; auto|]. split; [auto|]. rewrite firstn_firstn.
      replace (Nat.min i k) with i by lia. exact C.
    - intros i p Hi. apply nth_firstn_some in Hi. destruct Hi as [Hik Hi]. rewrite <- (HR _ _ Hi).
      destruct (nth_error p1 i) as [r|] eqn:E; [apply nth_firstn_some; auto|].
      apply nth_error_None. apply nth_error_None in E. rewrite firstn_length. lia.
    - rewrite <- HE. destruct k; [lia|]. destruct cs1; simpl; split; intros X; auto; discriminate.
  Qed.

  (** both runs before the prediction pass; the first one with its last set not
      necessarily paired *)
  Definition sorted_rel (s1 s2 : state) : Prop :=
    exists pos cs1 cs2 O1 O2, closed pos cs1 cs2 (r_predicted s1) (r_predicted s2) /\ cs1 <> [] /\ cs2 <> [] /\
      r_forest s1 = r_forest s2 /\ r_hint s1 = r_hint s2 /\
      rep (r_medial s1) cs1 O1 /\ rep (r_medial s2) cs2 O2 /\ Forall2 (iren pos) O1 O2 /\
      r_complete s1 = [] /\ r_complete s2 = [] /\
      length cs1 <= length (r_predicted s1) /\ length cs2 <= length (r_predicted s2) /\
      zero_from (length cs1) (r_predicted s1) /\ zero_from (length cs2) (r_predicted s2).

  Lemma done_sorted : forall pos cs1 cs2 p1 p2 s1 s2, inside pos cs1 cs2 p1 p2 -> done pos cs1 cs2 p1 p2 s1 s2 ->
    sorted_rel s1 s2.
  Proof.
    intros pos cs1 cs2 p1 p2 s1 s2 [HC [N1 N2] HL L1 L2 Z1 Z2] [(Hf & Hh & E1 & E2 & (O1 & O2 & R1 & R2 & HO) & _) [C1 C2]].
    exists pos, cs1, cs2, O1, O2. rewrite E1, E2. repeat (split; [assumption|]). assumption.
  Qed.

  Lemma drop_remove : forall s1 s2, sorted_rel s1 s2 ->
    rres sorted_rel (remove_unreachable_sets P s1) (Ret s2).
  Proof.
    intros s1 s2 H.
    pose proof H as (pos & cs1 & cs2 & O1 & O2 & HC & N1 & N2 & Hf & Hh & R1 & R2 & HO & C1 & C2 & L1 & L2 & Z1 & Z2).
    unfold remove_unreachable_sets. rewrite (rep_last _ _ _ R1). cbn [bind].
    destruct (unwrap (earleme s1)) as [e| |] eqn:Ee; cbn [bind]; [|exact I|].
    2:{ destruct (earleme s1); discriminate. }
    set (ne := match list_max_opt (map it_origin O1) with Some m => m | None => e end).
    destruct ((ne <? e) && (0 <? ne)) eqn:Eb; [|apply rres_ret; exact H].
    apply andb_true_iff in Eb. destruct Eb as [Eb1 Eb2]. apply Nat.ltb_lt in Eb1, Eb2.
    rewrite HLEO. cbn zeta. cbn [set_predicted r_medial].
    destruct (v_truncate (r_medial s1) (ne + 1)) as [m| |] eqn:Em; cbn [bind]; [|exact I|].
    2:{ exfalso. destruct (le_lt_dec (ne + 1) (length cs1)) as [X|X].
        - destruct (rep_truncate _ _ _ _ R1 X) as (? & Y & _). congruence.
        - rewrite (rep_truncate_oob _ _ _ _ R1 X) in Em. discriminate. }
    set (st := set_medial _ m).
    destruct (v_len (r_medial st) =? ne + 2); cbn [assert bind]; [|exact I].
    destruct (eqb_opt (earleme st) (Some ne)); cbn [assert bind]; [|exact I].
    apply rres_ret.
    assert (X : ne + 1 <= length cs1).
    { destruct (le_lt_dec (ne + 1) (length cs1)) as [X|X]; [exact X|]. rewrite (rep_truncate_oob _ _ _ _ R1 X) in Em. discriminate. }
    destruct (rep_truncate _ _ _ _ R1 X) as (m' & Em' & Rm). rewrite Em in Em'. injection Em' as <-.
    exists (firstn (ne + 1) pos), (firstn (ne + 1) cs1), cs2, O1, O2. unfold st. cbn [set_medial set_predicted r_predicted r_forest r_hint r_medial r_complete].
    unfold bm_truncate.
    split; [apply closed_firstn; [exact HC|lia]|].
    split. { replace (ne + 1) with (S ne) by lia. destruct cs1; [congruence|discriminate]. }
    split; [exact N2|]. split; [exact Hf|]. split; [exact Hh|]. split; [exact Rm|]. split; [exact R2|].
    split.
    { assert (Hle : forall a, In a O1 -> it_origin a <= ne).
      { unfold ne. destruct (list_max_opt (map it_origin O1)) as [mm|] eqn:Emm.
        - apply list_max_opt_spec in Emm. intros a Ha. apply Emm. now apply in_map.
        - destruct O1; [intros a []|discriminate]. }
      clearbody ne. clear - HO Hle. induction HO as [|a b l l' (A & B & C) _ IH]; constructor.
      - split; [auto|]. split; [auto|]. apply nth_firstn_some. split; [|exact C].
        specialize (Hle a (or_introl eq_refl)). lia.
      - apply IH. intros x Hx. apply Hle. now right. }
    split; [exact C1|]. split; [exact C2|]. split; [rewrite !firstn_length; lia|]. split; [exact L2|].
    split; [|exact Z2]. intros i row Hi Hrow. apply nth_firstn_some in Hrow. destruct Hrow as [Hrow _]. rewrite firstn_length in Hi. lia.
  Qed.

  Lemma grow_row : forall m k, k <= length m -> zero_from k m ->
    nth_error (bm_grow1 (g_syms g) m) k = Some (repeat false (g_syms g)).
  Proof.
    intros m k Hk HZ. unfold bm_grow1. apply nth_snoc. unfold bitmatrix, bitrow in *. destruct (Nat.eq_dec k (length m)) as [E|E]; [auto|].
    left. split; [lia|]. destruct (nth_error m k) as [row|] eqn:Er.
    - f_equal. apply (HZ k); [lia|exact Er].
    - apply nth_error_None in Er. lia.
  Qed.

  Lemma nth_set_other : forall A (l : list A) i j v, i <> j -> nth_error (set_nth l i v) j = nth_error l j.
  Proof. induction l as [|a l IH]; intros [|i] [|j] v H; simpl; auto; congruence. Qed.

  Lemma nth_set_same : forall A (l : list A) i v, i < length l -> nth_error (set_nth l i v) i = Some v.
  Proof. induction l as [|a l IH]; intros [|i] v H; simpl in *; auto; try lia. apply IH. lia. Qed.

  Lemma len_set : forall A (l : list A) i v, length (set_nth l i v) = length l.
  Proof. induction l as [|a l IH]; intros [|i] v; simpl; auto. Qed.

  Lemma grow_rows : forall m k i row v, k <= length m -> zero_from k m ->
    nth_error (set_nth (bm_grow1 (g_syms g) m) k v) i = Some row -> k < i -> row = repeat false (g_syms g).
  Proof.
    intros m k i row v Hk HZ Hi Hki. rewrite nth_set_other in Hi by lia. apply nth_snoc in Hi.
    destruct Hi as [[_ Hi]|[_ Hi]]; [|exact Hi]. apply (HZ i); [lia|exact Hi].
  Qed.

  Lemma drop_prediction_pass : forall s1 s2, sorted_rel s1 s2 ->
    rres between (prediction_pass g s1) (prediction_pass g s2).
  Proof.
    intros s1 s2 (pos & cs1 & cs2 & O1 & O2 & HC & N1 & N2 & Hf & Hh & R1 & R2 & HO & C1 & C2 & L1 & L2 & Z1 & Z2).
    unfold prediction_pass. rewrite (rep_last _ _ _ R1), (rep_last _ _ _ R2). cbn [bind].
    assert (E1 : earleme s1 = Some (length cs1 - 1)).
    { unfold earleme. rewrite (rep_len _ _ _ R1). destruct cs1; [congruence|]. cbn. f_equal. lia. }
    assert (E2 : earleme s2 = Some (length cs2 - 1)).
    { unfold earleme. rewrite (rep_len _ _ _ R2). destruct cs2; [congruence|]. cbn. f_equal. lia. }
    rewrite E1, E2. cbn [unwrap bind].
    replace (length cs1 - 1 + 1) with (length cs1) by (destruct cs1; [congruence|simpl; lia]).
    replace (length cs2 - 1 + 1) with (length cs2) by (destruct cs2; [congruence|simpl; lia]).
    rewrite (idx_some _ _ _ _ (grow_row _ _ L1 Z1)), (idx_some _ _ _ _ (grow_row _ _ L2 Z2)). cbn [bind].
    eapply rres_bind with (T := eq).
    { eapply rres_foldM; [|exact HO|reflexivity]. intros c ? a b <- Hab. rewrite (proj1 Hab). apply rres_same. }
    intros row ? <-. unfold upd.
    assert (G1 : length cs1 < length (bm_grow1 (g_syms g) (r_predicted s1))) by (unfold bm_grow1; rewrite app_length; simpl; lia).
    assert (G2 : length cs2 < length (bm_grow1 (g_syms g) (r_predicted s2))) by (unfold bm_grow1; rewrite app_length; simpl; lia).
    rewrite (proj2 (Nat.ltb_lt _ _) G1), (proj2 (Nat.ltb_lt _ _) G2). cbn [bind]. apply rres_ret.
    exists pos, cs1, cs2, O1, O2. cbn [set_predicted r_predicted r_forest r_hint r_medial r_complete].
    destruct HC as [HL HI HS HR HE].
    split.
    { constructor; auto. intros i p Hi.
      assert (Hi1 : i < length cs1) by (rewrite <- HL; apply nth_error_Some; congruence).
      assert (Hp : p < length cs2).
      { destruct (HS _ _ Hi) as (_ & l2 & _ & X & _). apply nth_error_Some. congruence. }
      rewrite !nth_set_other by lia. unfold bm_grow1. rewrite !nth_error_app1 by lia. now apply HR. }
    repeat (split; [assumption|]).
    split; [now rewrite !nth_set_same by assumption|].
    rewrite !len_set. split; [exact G1|]. split; [exact G2|].
    split; intros i r Hi Hr; eapply grow_rows; try exact Hr; auto; lia.
  Qed.

  (** the answer of one location *)
  Definition fin_rel (s1 s2 : state) : Prop :=
    r_forest s1 = r_forest s2 /\ is_null (earleme s1) = is_null (earleme s2) /\
    exists O1 O2, v_last (r_medial s1) = Ret O1 /\ v_last (r_medial s2) = Ret O2 /\
      Forall2 (fun a b => it_dot a = it_dot b /\ it_node a = it_node b) O1 O2.

  Definition loc_rel (x y : bool * state) : Prop :=
    fst x = fst y /\ fin_rel (snd x) (snd y) /\ (fst x = true -> between (snd x) (snd y)).

  Lemma between_fin : forall s1 s2, between s1 s2 -> fin_rel s1 s2.
  Proof.
    intros s1 s2 (pos & cs1 & cs2 & O1 & O2 & HC & Hf & Hh & R1 & R2 & HO & _). split; [exact Hf|]. split.
    - unfold earleme. rewrite (rep_len _ _ _ R1), (rep_len _ _ _ R2). pose proof (cl_empty _ _ _ _ _ HC) as E.
      destruct cs1, cs2; try reflexivity; destruct E as [X Y]; [discriminate (X eq_refl)|discriminate (Y eq_refl)].
    - exists O1, O2. split; [eapply rep_last; eauto|]. split; [eapply rep_last; eauto|].
      eapply Forall2_impl2; [|exact HO]. intros a b (A & B & _). auto.
  Qed.

  Lemma drop_feed : forall fuel loc s1 s2, between s1 s2 ->
    rres loc_rel (feed fo P g fuel loc s1) (feed_keeping_sets fo P g fuel loc s2).
  Proof.
    intros fuel loc s1 s2 H. unfold feed, feed_keeping_sets, end_filtered.
    destruct (between_begin _ _ (l_hint loc) H) as (pos & cs1 & cs2 & p1 & p2 & HI & HM).
    pose proof (cl_inc _ _ _ _ _ (in_closed _ _ _ _ _ HI)) as Hinc.
    pose proof (inside_sets _ _ _ _ _ HI) as Hsets.
    pose proof (cl_rows _ _ _ _ _ (in_closed _ _ _ _ _ HI)) as Hrows.
    pose proof (in_ne _ _ _ _ _ HI) as Hne. pose proof (in_last _ _ _ _ _ HI) as Hlast.
    eapply rres_bind; [eapply drop_scan_list with (pos := pos); eauto|].
    intros t1 t2 Ht. eapply rres_bind; [eapply drop_exhausted; eauto|]. intros ex ? <-. destruct ex.
    - apply rres_ret. split; [reflexivity|]. split; [|discriminate].
      destruct (mid_earleme pos cs1 cs2 p1 p2 Hne Hlast _ _ Ht) as [X Y]. split; [apply Ht|]. split; [cbn [snd]; now rewrite X, Y|].
      destruct (mid_last _ _ _ _ _ _ _ Ht) as (O1 & O2 & A & B & C & _). exists O1, O2. split; [exact A|]. split; [exact B|].
      eapply Forall2_impl2; [|exact C]. intros a b (U & V & _). auto.
    - eapply rres_bind; [eapply drop_complete_sums with (pos := pos); eauto|]. intros u1 u2 Hu.
      unfold advance_after_completion, advance_keeping_sets. rewrite HLEO.
      eapply rres_bind with (T := between).
      + eapply rres_bind; [eapply drop_sort with (pos := pos); eauto|]. intros v1 v2 Hv.
        eapply rres_bind; [apply drop_remove; eapply done_sorted; eauto|]. intros w1 w2 Hw. cbn [bind].
        apply drop_prediction_pass. exact Hw.
      + intros v1 v2 Hv. apply rres_ret. split; [reflexivity|]. split; [apply between_fin; exact Hv|auto].
  Qed.

  Lemma drop_feed_all : forall fuel locs s1 s2, between s1 s2 ->
    rres loc_rel (feed_all fo P g fuel locs s1) (feed_all_keeping_sets fo P g fuel locs s2).
  Proof.
    intros fuel. induction locs as [|loc locs IH]; intros s1 s2 H; cbn [feed_all feed_all_keeping_sets].
    - apply rres_ret. split; [reflexivity|]. split; [apply between_fin; exact H|auto].
    - eapply rres_bind; [apply drop_feed; exact H|]. intros [b1 t1] [b2 t2] (Hb & Hf & Ht). cbn [fst snd] in *. subst b2.
      destruct b1; [apply IH; auto|]. apply rres_ret. split; [reflexivity|]. split; [exact Hf|discriminate].
  Qed.

  Lemma between_new : forall f0 st0, r_new g f0 = Ret st0 -> between st0 st0.
  Proof.
    intros f0 st0 H. unfold r_new in H. cbn zeta in H.
    destruct (idx (bm_new 8 (g_syms g)) 0) as [row0| |] eqn:E0; cbn [bind] in H; try discriminate.
    destruct (prediction_row g (g_start_sym g)) as [src| |]; cbn [bind] in H; try discriminate.
    destruct (predict row0 (g_start_sym g) src) as [row| |]; cbn [bind] in H; try discriminate.
    unfold upd in H. cbn [bm_new repeat length] in H.
    change (0 <? 8) with true in H. cbn [bind set_nth] in H. injection H as <-.
    exists [], [], [], [], []. cbn [r_predicted r_forest r_hint r_medial r_complete].
    split. { constructor; auto; [intros i j p q Hij Hi; destruct i; discriminate|intros i p Hi; destruct i; discriminate|
      intros i p Hi; destruct i; discriminate|split; auto]. }
    split; [reflexivity|]. split; [reflexivity|]. split; [apply rep_new|]. split; [apply rep_new|]. split; [constructor|].
    split; [reflexivity|]. split; [reflexivity|]. split; [reflexivity|]. split; [simpl; lia|]. split; [simpl; lia|].
    assert (Z : zero_from 1 (row :: repeat (repeat false (g_syms g)) 7)).
    { intros i r Hi Hr. destruct i as [|i]; [lia|]. cbn [nth_error] in Hr. apply nth_error_In, repeat_spec in Hr. exact Hr. }
    split; exact Z.
  Qed.

  Lemma fin_node : forall s1 s2, fin_rel s1 s2 -> finished_node fo g s1 = finished_node fo g s2.
  Proof.
    intros s1 s2 (Hf & He & O1 & O2 & A & B & C). unfold finished_node. rewrite He, Hf, A, B. cbn [bind].
    destruct C as [|a b l l' [Hd Hn] _]; [reflexivity|]. now rewrite Hd, Hn.
  Qed.

  (** The two runs from a new recognizer. *)
  Theorem drop_run : forall fuel locs f0 st0, r_new g f0 = Ret st0 ->
    rres (fun x y => fst x = fst y /\ r_forest (snd x) = r_forest (snd y) /\
            finished_node fo g (snd x) = finished_node fo g (snd y))
      (feed_all fo P g fuel locs st0) (feed_all_keeping_sets fo P g fuel locs st0).
  Proof.
    intros fuel locs f0 st0 H. eapply rres_weaken; [|apply drop_feed_all; eapply between_new; eauto].
    intros x y (Hb & Hf & _). split; [exact Hb|]. split; [apply Hf|]. now apply fin_node.
  Qed.
End Mid.
