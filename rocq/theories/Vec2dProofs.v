(** Vec2dProofs: [Vec2d] refines "closed sets and one open set". *)
From Coq Require Import List Arith Bool Lia.
From Verif Require Import Base BaseProofs Vec2d.
Import ListNotations.
Local Open Scope res_scope.

Section Vec2dProofs.
  Context {A : Type}.
  Implicit Types (v : vec2d A) (cs : list (list A)) (o : list A).

  Fixpoint starts (n : nat) (cs : list (list A)) : list nat :=
    n :: match cs with [] => [] | c :: t => starts (n + length c) t end.

  Definition rep v cs o := chart v = concat cs ++ o /\ indices v = starts 0 cs.

  Lemma starts_length : forall cs n, length (starts n cs) = S (length cs).
  Proof. induction cs; simpl; auto. Qed.

  Lemma starts_nth : forall cs n i, i <= length cs ->
    nth_error (starts n cs) i = Some (n + length (concat (firstn i cs))).
  Proof.
    induction cs; intros n i H; simpl in *.
    - assert (i = 0) by lia; subst; simpl. f_equal; lia.
    - destruct i; simpl. f_equal; lia. rewrite IHcs by lia. rewrite app_length. f_equal; lia.
  Qed.

  Lemma starts_app : forall cs n c, starts n (cs ++ [c]) = starts n cs ++ [n + length (concat (cs ++ [c]))].
  Proof.
    induction cs; intros; simpl.
    - rewrite app_nil_r. auto.
    - f_equal. rewrite IHcs. f_equal. f_equal. rewrite app_length. lia.
  Qed.

  Lemma starts_firstn : forall cs n i, i <= length cs -> firstn (S i) (starts n cs) = starts n (firstn i cs).
  Proof.
    induction cs; intros n i H; simpl in *.
    - assert (i = 0) by lia; subst; auto.
    - destruct i; auto. simpl firstn at 2. simpl starts. f_equal.
      apply (IHcs (n + length a) i). lia.
  Qed.

  Lemma last_cons_default : forall (B : Type) (l : list B) a d, last (a :: l) d = last l a.
  Proof.
    induction l as [|b l IH]; intros a d; auto.
    change (last (a :: b :: l) d) with (last (b :: l) d). rewrite (IH b d), (IH b a). auto.
  Qed.

  Lemma starts_last : forall cs n d, last (starts n cs) d = n + length (concat cs).
  Proof.
    induction cs; intros n d.
    - simpl. lia.
    - simpl starts. rewrite last_cons_default.
      destruct cs.
      + simpl. rewrite app_nil_r. auto.
      + rewrite IHcs. simpl concat. rewrite !app_length. lia.
  Qed.

  Lemma rep_last_index : forall v cs o, rep v cs o -> v_last_index v = Ret (length (concat cs)).
  Proof.
    intros v cs o [_ H]. unfold v_last_index. rewrite H.
    destruct cs; simpl starts; cbv iota beta; auto.
    f_equal. rewrite <- last_cons_default with (d := 0).
    exact (starts_last (l :: cs) 0 0).
  Qed.

  Lemma rep_new : rep v_new [] [].
  Proof. split; auto. Qed.

  Lemma rep_clear : forall v, rep (v_clear v) [] [].
  Proof. split; auto. Qed.

  Lemma rep_len : forall v cs o, rep v cs o -> v_len v = S (length cs).
  Proof. intros v cs o [_ H]. unfold v_len. rewrite H. apply starts_length. Qed.

  Lemma rep_item_count : forall v cs o, rep v cs o -> v_item_count v = length (concat cs) + length o.
  Proof. intros v cs o [H _]. unfold v_item_count. rewrite H, app_length; auto. Qed.

  Lemma rep_last : forall v cs o, rep v cs o -> v_last v = Ret o.
  Proof.
    intros v cs o H. unfold v_last. rewrite (rep_last_index v cs o H). simpl.
    destruct H as [H _]. rewrite H, app_length.
    rewrite (proj2 (Nat.leb_le _ _)) by lia. simpl.
    rewrite skipn_app, skipn_all2, Nat.sub_diag by lia. auto.
  Qed.

  Lemma rep_set_last : forall v cs o o', rep v cs o ->
    exists v', v_set_last v o' = Ret v' /\ rep v' cs o'.
  Proof.
    intros v cs o o' H. unfold v_set_last. rewrite (rep_last_index v cs o H). simpl.
    destruct H as [H H']. rewrite H, app_length.
    rewrite (proj2 (Nat.leb_le _ _)) by lia. simpl.
    eexists; split; [reflexivity|]. split; simpl; auto.
    rewrite firstn_app, firstn_all2, Nat.sub_diag by lia. simpl. rewrite app_nil_r; auto.
  Qed.

  Lemma rep_push : forall v cs o a, rep v cs o -> rep (v_push_item v a) cs (o ++ [a]).
  Proof.
    intros v cs o a [H H']. split; simpl; auto. rewrite H, app_assoc; auto.
  Qed.

  Lemma rep_next_set : forall v cs o, rep v cs o -> rep (v_next_set v) (cs ++ [o]) [].
  Proof.
    intros v cs o [H H']. split; simpl.
    - rewrite concat_app; simpl. rewrite !app_nil_r; auto.
    - rewrite H', H, starts_app. simpl. do 2 f_equal.
      rewrite concat_app; simpl. rewrite app_nil_r; auto.
  Qed.

  Lemma rep_extend_with_set : forall v cs o s, rep v cs o -> rep (v_extend_with_set v s) (cs ++ [o ++ s]) [].
  Proof.
    intros v cs o s [H H']. unfold v_extend_with_set. apply rep_next_set.
    split; simpl; auto. rewrite H, app_assoc; auto.
  Qed.

  Lemma rep_extend : forall ss v cs, rep v cs [] -> rep (v_extend v ss) (cs ++ ss) [].
  Proof.
    induction ss; intros; simpl.
    - rewrite app_nil_r; auto.
    - unfold v_extend; simpl. 
      apply (rep_extend_with_set v cs [] a) in H. simpl in H.
      apply IHss in H. rewrite <- app_assoc in H. auto.
  Qed.

  Lemma rep_truncate_chart : forall v cs o n, rep v cs o -> length (concat cs) <= n ->
    rep (v_truncate_chart v n) cs (firstn (n - length (concat cs)) o).
  Proof.
    intros v cs o n [H H'] Hn. split; simpl; auto.
    rewrite H, firstn_app, firstn_all2 by lia. auto.
  Qed.

  Lemma concat_split_nth : forall cs i c, nth_error cs i = Some c ->
    concat cs = concat (firstn i cs) ++ c ++ concat (skipn (S i) cs).
  Proof.
    induction cs; intros i c H; destruct i; simpl in *; try discriminate.
    - inversion H; subst; auto.
    - rewrite (IHcs _ _ H). rewrite <- app_assoc. auto.
  Qed.

  Lemma firstn_S_nth : forall (B : Type) (l : list B) i c, nth_error l i = Some c ->
    firstn (S i) l = firstn i l ++ [c].
  Proof.
    induction l; intros i c H; destruct i; simpl in *; try discriminate.
    - inversion H; auto.
    - f_equal. apply IHl; auto.
  Qed.

  Lemma rep_index : forall v cs o i c, rep v cs o -> nth_error cs i = Some c -> v_index v i = Ret c.
  Proof.
    intros v cs o i c [H H'] Hi. unfold v_index. rewrite H'.
    assert (i < length cs) by (apply nth_error_Some; congruence).
    rewrite (idx_some _ _ i _ (starts_nth cs 0 i ltac:(lia))). simpl.
    rewrite (idx_some _ _ (i+1) _ (starts_nth cs 0 (i+1) ltac:(lia))). simpl.
    rewrite H. rewrite Nat.add_1_r. rewrite (firstn_S_nth _ _ _ _ Hi).
    rewrite concat_app; simpl concat. rewrite app_nil_r.
    rewrite (concat_split_nth cs i c Hi). rewrite !app_length.
    rewrite (proj2 (Nat.leb_le _ _)) by lia.
    rewrite (proj2 (Nat.leb_le _ _)) by lia. simpl.
    f_equal. rewrite <- !app_assoc.
    rewrite skipn_app, skipn_all2, Nat.sub_diag by lia. simpl.
    rewrite firstn_app, firstn_all2 by lia.
    replace (length (concat (firstn i cs)) + length c - length (concat (firstn i cs)) - length c) with 0 by lia.
    simpl. rewrite app_nil_r; auto.
  Qed.

  Lemma rep_truncate : forall v cs o n, rep v cs o -> n <= length cs ->
    exists v', v_truncate v n = Ret v' /\ rep v' (firstn n cs) o.
  Proof.
    intros v cs o n H Hn. unfold v_truncate.
    rewrite (rep_last_index v cs o H). destruct H as [H H'].
    rewrite H'. rewrite (idx_some _ _ n _ (starts_nth cs 0 n Hn)). simpl.
    rewrite H, app_length.
    rewrite (proj2 (Nat.leb_le _ _)) by lia. simpl.
    assert (Hc: concat cs = concat (firstn n cs) ++ concat (skipn n cs)).
    { rewrite <- concat_app, firstn_skipn; auto. }
    assert (Hl: length (concat (firstn n cs)) <= length (concat cs)).
    { rewrite Hc, app_length; lia. }
    rewrite (proj2 (Nat.leb_le _ _)) by lia. simpl.
    eexists; split; [reflexivity|]. split; simpl.
    - set (a := concat (firstn n cs)) in *. set (b := concat cs) in *.
      assert (E: firstn (length a) (b ++ o) = a).
      { rewrite Hc. rewrite <- app_assoc. rewrite firstn_app, firstn_all2, Nat.sub_diag by lia.
        simpl; rewrite app_nil_r; auto. }
      rewrite E. rewrite skipn_app, skipn_all2, Nat.sub_diag by lia. simpl.
      replace (length b + length o + length a - length b) with (length (a ++ o))
        by (rewrite app_length; lia).
      rewrite app_assoc. rewrite firstn_app, firstn_all2, Nat.sub_diag by lia.
      simpl; rewrite app_nil_r; auto.
    - rewrite Nat.add_1_r. apply starts_firstn; auto.
  Qed.

  Lemma rep_index_oob : forall v cs o i, rep v cs o -> length cs <= i -> v_index v i = Panic.
  Proof.
    intros v cs o i [H H'] Hi. unfold v_index. rewrite H'.
    assert (nth_error (starts 0 cs) (i + 1) = None) as E.
    { apply nth_error_None. rewrite starts_length. lia. }
    unfold idx at 2. rewrite E. destruct (idx (starts 0 cs) i) eqn:E1; simpl; auto.
    unfold idx, unwrap in E1. destruct (nth_error (starts 0 cs) i); discriminate.
  Qed.

  Lemma rep_truncate_oob : forall v cs o n, rep v cs o -> length cs < n -> v_truncate v n = Panic.
  Proof.
    intros v cs o n [H H'] Hn. unfold v_truncate. rewrite H'.
    assert (nth_error (starts 0 cs) n = None) as E.
    { apply nth_error_None. rewrite starts_length. lia. }
    unfold idx. rewrite E. auto.
  Qed.

  Lemma rep_index_at : forall v cs o i, rep v cs o -> i <= length cs ->
    v_index_at v i = Ret (length (concat (firstn i cs))).
  Proof.
    intros v cs o i [H H'] Hi. unfold v_index_at. rewrite H'.
    apply idx_some. rewrite starts_nth; auto.
  Qed.

  Lemma rep_index_at_oob : forall v cs o i, rep v cs o -> length cs < i -> v_index_at v i = Panic.
  Proof.
    intros v cs o i [H H'] Hi. unfold v_index_at. rewrite H'.
    assert (nth_error (starts 0 cs) i = None) as E.
    { apply nth_error_None. rewrite starts_length. lia. }
    unfold idx. rewrite E. auto.
  Qed.

  Lemma rep_pop : forall v cs o a, rep v cs (o ++ [a]) ->
    v_pop_item v = (Some a, snd (v_pop_item v)) /\ rep (snd (v_pop_item v)) cs o.
  Proof.
    intros v cs o a [H H']. unfold v_pop_item, v_last_item; simpl.
    rewrite H. split.
    - f_equal. rewrite app_assoc. destruct ((concat cs ++ o) ++ [a]) eqn:E.
      + destruct (concat cs ++ o); discriminate.
      + f_equal. rewrite <- last_cons_default with (d := a). rewrite <- E. apply last_last.
    - split; simpl; auto. rewrite app_assoc. apply removelast_last.
  Qed.

  Lemma rep_get_item : forall v cs o i, rep v cs o -> v_get_item v i = nth_error (concat cs ++ o) i.
  Proof. intros v cs o i [H _]. unfold v_get_item. rewrite H; auto. Qed.
End Vec2dProofs.
