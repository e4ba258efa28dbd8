(** Sim: the recognizer treats forest nodes parametrically.  Runs over two forest
    implementations related by a simulation make the same decisions. *)
From Coq Require Import List Arith Bool Lia.
From Verif Require Import Base BaseProofs Vec2d Item Heap Grammar BitMatrix DefaultGrammar Forest ForestSpec
  Recognizer Drive Parse.
Import ListNotations.
Local Open Scope res_scope.

(** ** Related outcomes *)
Definition rres {A B} (T : A -> B -> Prop) (x : res A) (y : res B) : Prop :=
  match x with
  | Ret a => exists b, y = Ret b /\ T a b
  | Panic => True
  | NoFuel => y = NoFuel
  end.

Lemma rres_ret : forall A B (T : A -> B -> Prop) a b, T a b -> rres T (Ret a) (Ret b).
Proof. intros. simpl. eauto. Qed.

Lemma rres_bind : forall A B C D (T : A -> B -> Prop) (U : C -> D -> Prop) x y f h,
  rres T x y -> (forall a b, T a b -> rres U (f a) (h b)) -> rres U (bind x f) (bind y h).
Proof.
  intros A B C D T U [a| |] y f h H K; simpl in *; auto.
  - destruct H as (b & -> & H). simpl. auto.
  - subst y. reflexivity.
Qed.

Lemma rres_same : forall A (x : res A), rres eq x x.
Proof. intros A [a| |]; simpl; eauto. Qed.

Lemma rres_weaken : forall A B (T U : A -> B -> Prop) x y, (forall a b, T a b -> U a b) -> rres T x y -> rres U x y.
Proof. intros A B T U [a| |] y K H; simpl in *; auto. destruct H as (b & E & H). eauto. Qed.

Lemma rres_foldM : forall A B C D (T : A -> B -> Prop) (U : C -> D -> Prop) f h l l' c d,
  (forall c d a b, U c d -> T a b -> rres U (f c a) (h d b)) ->
  Forall2 T l l' -> U c d -> rres U (foldM f l c) (foldM h l' d).
Proof.
  intros A B C D T U f h l l' c d K H. revert c d. induction H as [|a b l l' Hab _ IH]; intros c d HU; simpl.
  - eauto.
  - eapply rres_bind; [apply K; eauto|]. auto.
Qed.

Lemma rres_mapM : forall A B C D (T : A -> B -> Prop) (U : C -> D -> Prop) f h l l',
  (forall a b, T a b -> rres U (f a) (h b)) -> Forall2 T l l' -> rres (Forall2 U) (mapM f l) (mapM h l').
Proof.
  intros A B C D T U f h l l' K H. induction H as [|a b l l' Hab _ IH]; cbn [mapM].
  - apply rres_ret. constructor.
  - eapply rres_bind; [apply K; eauto|]. intros c d Hcd.
    eapply rres_bind; [exact IH|]. intros cs ds Hcs. apply rres_ret. now constructor.
Qed.

Lemma Forall2_refl_eq : forall A (l : list A), Forall2 eq l l.
Proof. induction l; auto. Qed.

Lemma Forall2_impl2 : forall A B (T U : A -> B -> Prop) l l', (forall a b, T a b -> U a b) ->
  Forall2 T l l' -> Forall2 U l l'.
Proof. induction 2; auto. Qed.

Lemma Forall2_length2 : forall A B (T : A -> B -> Prop) l l', Forall2 T l l' -> length l = length l'.
Proof. induction 1; simpl; auto. Qed.

Lemma Forall2_skipn : forall A B (T : A -> B -> Prop) n l l', Forall2 T l l' -> Forall2 T (skipn n l) (skipn n l').
Proof. induction n; intros l l' H; simpl; auto. destruct H; auto. Qed.

Lemma Forall2_firstn : forall A B (T : A -> B -> Prop) n l l', Forall2 T l l' -> Forall2 T (firstn n l) (firstn n l').
Proof. induction n; intros l l' H; simpl; auto. destruct H; auto. Qed.

Lemma Forall2_set_nth : forall A B (T : A -> B -> Prop) l l' i a b, Forall2 T l l' -> T a b ->
  Forall2 T (set_nth l i a) (set_nth l' i b).
Proof. intros A B T l l' i a b H. revert i. induction H; intros [|i] Hab; simpl; auto. Qed.

Lemma Forall2_nth : forall A B (T : A -> B -> Prop) l l' i, Forall2 T l l' ->
  match nth_error l i, nth_error l' i with
  | Some a, Some b => T a b
  | None, None => True
  | _, _ => False
  end.
Proof. intros A B T l l' i H. revert i. induction H; intros [|i]; simpl; auto. apply IHForall2. Qed.

Lemma rres_idx : forall A B (T : A -> B -> Prop) l l' i, Forall2 T l l' -> rres T (idx l i) (idx l' i).
Proof.
  intros A B T l l' i H. pose proof (Forall2_nth _ _ _ _ _ i H) as X. unfold idx.
  destruct (nth_error l i), (nth_error l' i); simpl; try contradiction; eauto.
Qed.

Lemma rres_upd : forall A B (T : A -> B -> Prop) l l' i a b, Forall2 T l l' -> T a b ->
  rres (Forall2 T) (upd l i a) (upd l' i b).
Proof.
  intros A B T l l' i a b H Hab. unfold upd. rewrite <- (Forall2_length2 _ _ _ _ _ H).
  destruct (i <? length l); simpl; auto. eexists. split; [reflexivity|]. now apply Forall2_set_nth.
Qed.

Lemma rres_assert : forall b, rres eq (assert b) (assert b).
Proof. intros. apply rres_same. Qed.

(** ** Vec2d *)
Section V.
  Context {A B : Type}.
  Variable T : A -> B -> Prop.
  Definition vrel (v : vec2d A) (v' : vec2d B) : Prop :=
    indices v = indices v' /\ Forall2 T (chart v) (chart v').

  Lemma vrel_len : forall v v', vrel v v' -> length (chart v) = length (chart v').
  Proof. intros v v' [_ H]. eapply Forall2_length2; eauto. Qed.

  Lemma vrel_last_index : forall v v', vrel v v' -> v_last_index v = v_last_index v'.
  Proof. intros v v' [H _]. unfold v_last_index. now rewrite H. Qed.

  Lemma vrel_next_set : forall v v', vrel v v' -> vrel (v_next_set v) (v_next_set v').
  Proof. intros v v' H. pose proof (vrel_len _ _ H) as L. destruct H as [H1 H2]. split; simpl; auto. now rewrite H1, L. Qed.

  Lemma vrel_clear : forall v v', vrel (v_clear v) (v_clear v').
  Proof. intros. split; simpl; auto. Qed.

  Lemma vrel_new : vrel v_new v_new.
  Proof. split; simpl; auto. Qed.

  Lemma vrel_push : forall v v' a b, vrel v v' -> T a b -> vrel (v_push_item v a) (v_push_item v' b).
  Proof. intros v v' a b [H1 H2] Hab. split; simpl; auto. apply Forall2_app; auto. Qed.

  Lemma vrel_truncate_chart : forall v v' n, vrel v v' -> vrel (v_truncate_chart v n) (v_truncate_chart v' n).
  Proof. intros v v' n [H1 H2]. split; simpl; auto. now apply Forall2_firstn. Qed.

  Lemma rres_v_last : forall v v', vrel v v' -> rres (Forall2 T) (v_last v) (v_last v').
  Proof.
    intros v v' H. unfold v_last. rewrite <- (vrel_last_index _ _ H), <- (vrel_len _ _ H).
    eapply rres_bind; [apply rres_same|]. intros i ? <-. eapply rres_bind; [apply rres_assert|]. intros _ _ _.
    apply rres_ret. apply Forall2_skipn, H.
  Qed.

  Lemma rres_v_set_last : forall v v' l l', vrel v v' -> Forall2 T l l' ->
    rres vrel (v_set_last v l) (v_set_last v' l').
  Proof.
    intros v v' l l' H Hl. unfold v_set_last. rewrite <- (vrel_last_index _ _ H), <- (vrel_len _ _ H).
    eapply rres_bind; [apply rres_same|]. intros i ? <-. eapply rres_bind; [apply rres_assert|]. intros _ _ _.
    apply rres_ret. destruct H as [H1 H2]. split; simpl; auto. apply Forall2_app; auto. now apply Forall2_firstn.
  Qed.

  Lemma rres_v_index : forall v v' i, vrel v v' -> rres (Forall2 T) (v_index v i) (v_index v' i).
  Proof.
    intros v v' i H. unfold v_index. rewrite <- (vrel_len _ _ H), <- (proj1 H).
    eapply rres_bind; [apply rres_same|]. intros a ? <-. eapply rres_bind; [apply rres_same|]. intros b ? <-.
    eapply rres_bind; [apply rres_assert|]. intros _ _ _. apply rres_ret. apply Forall2_firstn, Forall2_skipn, H.
  Qed.

  Lemma rres_v_truncate : forall v v' n, vrel v v' -> rres vrel (v_truncate v n) (v_truncate v' n).
  Proof.
    intros v v' n H. unfold v_truncate. rewrite <- (vrel_last_index _ _ H), <- (vrel_len _ _ H), <- (proj1 H).
    eapply rres_bind; [apply rres_same|]. intros a ? <-. eapply rres_bind; [apply rres_same|]. intros b ? <-.
    eapply rres_bind; [apply rres_assert|]. intros _ _ _. eapply rres_bind; [apply rres_assert|]. intros _ _ _.
    apply rres_ret. destruct H as [H1 H2]. split; cbn [indices chart]; auto.
    apply Forall2_firstn. apply Forall2_app; [now apply Forall2_firstn|].
    apply Forall2_app; now apply Forall2_skipn.
  Qed.
End V.

(** ** Heap *)
Section H.
  Context {N1 N2 : Type}.
  Variable Q : N1 -> N2 -> Prop.
  Definition irel (a : item N1) (b : item N2) : Prop :=
    it_dot a = it_dot b /\ it_origin a = it_origin b /\ Q (it_node a) (it_node b).

  Lemma irel_cmp : forall a b a' b', irel a a' -> irel b b' -> item_cmp a b = item_cmp a' b'.
  Proof. intros a b a' b' (H1 & H2 & _) (H3 & H4 & _). unfold item_cmp. now rewrite H1, H2, H3, H4. Qed.

  Lemma rres_sift_up_loop : forall n e e' start pos h h', irel e e' -> Forall2 irel h h' ->
    rres (Forall2 irel) (sift_up_loop n e start pos h) (sift_up_loop n e' start pos h').
  Proof.
    induction n as [|n IH]; intros e e' start pos h h' He Hh; simpl; destruct (start <? pos);
      try (apply rres_upd; auto); try (simpl; auto; fail).
    eapply rres_bind; [apply rres_idx; eauto|]. intros p p' Hp.
    unfold item_leb. rewrite (irel_cmp _ _ _ _ He Hp). destruct (item_cmp e' p').
    1,2: apply rres_upd; auto.
    eapply rres_bind; [apply rres_upd; eauto|]. auto.
  Qed.

  Lemma rres_heap_push : forall x x' h h', irel x x' -> Forall2 irel h h' ->
    rres (Forall2 irel) (heap_push x h) (heap_push x' h').
  Proof.
    intros x x' h h' Hx Hh. unfold heap_push, sift_up.
    assert (H2 : Forall2 irel (h ++ [x]) (h' ++ [x'])) by (apply Forall2_app; auto).
    rewrite <- (Forall2_length2 _ _ _ _ _ Hh), <- (Forall2_length2 _ _ _ _ _ H2).
    eapply rres_bind; [apply rres_idx; eauto|]. intros. now apply rres_sift_up_loop.
  Qed.

  Lemma rres_sift_down_loop : forall n e e' pos child end_ h h', irel e e' -> Forall2 irel h h' ->
    rres (Forall2 irel) (sift_down_loop n e pos child end_ h) (sift_down_loop n e' pos child end_ h').
  Proof.
    induction n as [|n IH]; intros e e' pos child end_ h h' He Hh; simpl; destruct (child <? end_);
      try (apply rres_upd; auto); try (simpl; auto; fail).
    eapply rres_bind with (T := eq).
    { destruct (child + 1 <? end_); [|apply rres_same].
      eapply rres_bind; [apply rres_idx; eauto|]. intros l l' Hl.
      eapply rres_bind; [apply rres_idx; eauto|]. intros r r' Hr.
      unfold item_gtb. rewrite (irel_cmp _ _ _ _ Hl Hr). apply rres_same. }
    intros ch ? <-. eapply rres_bind; [apply rres_idx; eauto|]. intros c c' Hc.
    unfold item_geb. rewrite (irel_cmp _ _ _ _ He Hc). destruct (item_cmp e' c').
    1,3: apply rres_upd; auto.
    eapply rres_bind; [apply rres_upd; eauto|]. auto.
  Qed.

  Lemma Forall2_last : forall l l' d d', Forall2 irel l l' -> irel d d' -> irel (last l d) (last l' d').
  Proof.
    intros l l' d d' H Hd. induction H as [|a b l l' Hab Hl IH]; simpl; auto. destruct Hl; auto.
  Qed.

  Lemma Forall2_removelast : forall l l', Forall2 irel l l' -> Forall2 irel (removelast l) (removelast l').
  Proof.
    intros l l' H. induction H as [|a b l l' Hab Hl IH]; simpl; auto. destruct Hl; auto.
  Qed.

  Definition orel (o : option (item N1)) (o' : option (item N2)) : Prop :=
    match o, o' with Some a, Some b => irel a b | None, None => True | _, _ => False end.

  Lemma rres_heap_pop : forall h h', Forall2 irel h h' ->
    rres (fun x y => orel (fst x) (fst y) /\ Forall2 irel (snd x) (snd y)) (heap_pop h) (heap_pop h').
  Proof.
    intros h h' H. unfold heap_pop. pose proof (Forall2_removelast _ _ H) as HR.
    destruct H as [|a b t t' Hab Ht].
    - apply rres_ret. simpl. auto.
    - pose proof (Forall2_last _ _ _ _ Ht Hab) as HL.
      destruct HR as [|top top' r r' Htop Hr].
      + apply rres_ret. simpl. auto.
      + eapply rres_bind; [apply rres_upd; [constructor; eauto|exact HL]|]. intros h1 h1' H1.
        eapply rres_bind with (T := Forall2 irel).
        * unfold sift_down, sift_down_range. rewrite <- (Forall2_length2 _ _ _ _ _ H1).
          eapply rres_bind; [apply rres_idx; eauto|]. intros. now apply rres_sift_down_loop.
        * intros h2 h2' H2. apply rres_ret. simpl. auto.
  Qed.

  Lemma heap_peek_rel : forall h h', Forall2 irel h h' -> orel (heap_peek h) (heap_peek h').
  Proof. intros h h' H. destruct H; simpl; auto. Qed.
End H.

(** ** Forest simulations *)

Section Sim.
  Context {F1 N1 F2 N2 : Type}.
  Variable fo1 : forest_ops F1 N1.
  Variable fo2 : forest_ops F2 N2.
  Variable J : phase -> F1 -> F2 -> Prop.
  Variable Q : F1 -> F2 -> N1 -> N2 -> Prop.

  Definition grows (f1 : F1) (f2 : F2) (f1' : F1) (f2' : F2) : Prop :=
    forall n1 n2, Q f1 f2 n1 n2 -> Q f1' f2' n1 n2.

  (** [nul]: whether nulling nodes are related too *)
  Record fsim_if (nul : Prop) : Prop := {
    sim_begin : forall f1 f2, J Idle f1 f2 ->
      rres (fun f1' f2' => J (Summing false) f1' f2' /\ grows f1 f2 f1' f2')
           (f_begin_sum fo1 f1) (f_begin_sum fo2 f2);
    sim_push : forall b f1 f2 i1 i2, J (Summing b) f1 f2 -> irel (Q f1 f2) i1 i2 ->
      rres (fun f1' f2' => J (Summing true) f1' f2' /\ grows f1 f2 f1' f2')
           (f_push_summand fo1 i1 f1) (f_push_summand fo2 i2 f2);
    sim_sum : forall s o f1 f2, J (Summing true) f1 f2 ->
      rres (fun x y => J Idle (snd x) (snd y) /\ grows f1 f2 (snd x) (snd y) /\ Q (snd x) (snd y) (fst x) (fst y))
           (f_sum fo1 s o f1) (f_sum fo2 s o f2);
    sim_product : forall l1 l2 r1 r2 f1 f2, J Idle f1 f2 -> Q f1 f2 l1 l2 -> Q f1 f2 r1 r2 ->
      rres (fun x y => J Idle (snd x) (snd y) /\ grows f1 f2 (snd x) (snd y) /\ Q (snd x) (snd y) (fst x) (fst y))
           (f_product fo1 l1 r1 f1) (f_product fo2 l2 r2 f2);
    sim_leaf : forall s pos v f1 f2, J Idle f1 f2 ->
      rres (fun x y => J Idle (snd x) (snd y) /\ grows f1 f2 (snd x) (snd y) /\ Q (snd x) (snd y) (fst x) (fst y))
           (f_leaf fo1 s pos v f1) (f_leaf fo2 s pos v f2);
    sim_nulling : nul -> forall s f1 f2, J Idle f1 f2 -> rres (Q f1 f2) (f_nulling fo1 s f1) (f_nulling fo2 s f2)
  }.
  Definition fsim : Prop := fsim_if True.
  Context {nul : Prop}.
  Hypothesis HS : fsim_if nul.
  Variable P : perf.
  Variable g : dgrammar.

  (** parts of the state other than the forest *)
  Definition body (T : N1 -> N2 -> Prop) (s1 : rstate F1 N1) (s2 : rstate F2 N2) : Prop :=
    r_hint s1 = r_hint s2 /\ r_predicted s1 = r_predicted s2 /\
    vrel (irel T) (r_medial s1) (r_medial s2) /\ vrel (irel T) (r_leo s1) (r_leo s2) /\
    Forall2 (irel T) (r_complete s1) (r_complete s2).
  Definition srel (ph : phase) (s1 : rstate F1 N1) (s2 : rstate F2 N2) : Prop :=
    J ph (r_forest s1) (r_forest s2) /\ body (Q (r_forest s1) (r_forest s2)) s1 s2.

  Lemma irel_mono : forall (T U : N1 -> N2 -> Prop) a b, (forall x y, T x y -> U x y) -> irel T a b -> irel U a b.
  Proof. intros T U a b H (A & B & C). split; [auto|]. split; auto. Qed.

  Lemma body_mono : forall (T U : N1 -> N2 -> Prop) s1 s2, (forall x y, T x y -> U x y) -> body T s1 s2 -> body U s1 s2.
  Proof.
    intros T U s1 s2 H (A & B & [C1 C2] & [D1 D2] & E).
    assert (X : forall l l', Forall2 (irel T) l l' -> Forall2 (irel U) l l').
    { intros l l'. apply Forall2_impl2. intros. eapply irel_mono; eauto. }
    split; [auto|]. split; [auto|]. split; [split; auto|]. split; [split; auto|auto].
  Qed.

  Lemma srel_forest : forall ph ph' s1 s2 f1 f2, srel ph s1 s2 -> J ph' f1 f2 ->
    grows (r_forest s1) (r_forest s2) f1 f2 -> srel ph' (set_forest s1 f1) (set_forest s2 f2).
  Proof.
    intros ph ph' s1 s2 f1 f2 [_ H2] HJ HG. split; [exact HJ|].
    apply (body_mono _ (Q f1 f2)) in H2; [exact H2|exact HG].
  Qed.

  Lemma srel_complete : forall ph s1 s2 c1 c2, srel ph s1 s2 ->
    Forall2 (irel (Q (r_forest s1) (r_forest s2))) c1 c2 -> srel ph (set_complete s1 c1) (set_complete s2 c2).
  Proof. intros ph s1 s2 c1 c2 [H1 (A & B & C & D & E)] H. repeat (split; [assumption|]). exact H. Qed.

  Lemma srel_medial : forall ph s1 s2 c1 c2, srel ph s1 s2 ->
    vrel (irel (Q (r_forest s1) (r_forest s2))) c1 c2 -> srel ph (set_medial s1 c1) (set_medial s2 c2).
  Proof. intros ph s1 s2 c1 c2 [H1 (A & B & C & D & E)] H. repeat (split; [assumption|]). exact E. Qed.

  Lemma srel_leo : forall ph s1 s2 c1 c2, srel ph s1 s2 ->
    vrel (irel (Q (r_forest s1) (r_forest s2))) c1 c2 -> srel ph (set_leo s1 c1) (set_leo s2 c2).
  Proof. intros ph s1 s2 c1 c2 [H1 (A & B & C & D & E)] H. repeat (split; [assumption|]). exact E. Qed.

  Lemma srel_predicted : forall ph s1 s2 m, srel ph s1 s2 -> srel ph (set_predicted s1 m) (set_predicted s2 m).
  Proof. intros ph s1 s2 m [H1 (A & B & C & D & E)]. repeat (split; [assumption || reflexivity|]). exact E. Qed.

  Lemma srel_hint : forall ph s1 s2 h, srel ph s1 s2 -> srel ph (set_hint_field s1 h) (set_hint_field s2 h).
  Proof. intros ph s1 s2 m [H1 (A & B & C & D & E)]. repeat (split; [assumption || reflexivity|]). exact E. Qed.

  Lemma rel_earleme : forall ph s1 s2, srel ph s1 s2 -> earleme s1 = earleme s2.
  Proof. intros ph s1 s2 [_ (_ & _ & [A _] & _)]. unfold earleme, v_len. now rewrite A. Qed.

  Lemma rel_hint_check : forall ph s1 s2 f, srel ph s1 s2 -> hint_check s1 f = hint_check s2 f.
  Proof. intros ph s1 s2 f [_ (A & _)]. unfold hint_check. now rewrite A. Qed.

  Lemma sim_complete_medial_item : forall r1 r2 s1 s2 i1 i2, srel Idle s1 s2 ->
    Q (r_forest s1) (r_forest s2) r1 r2 -> irel (Q (r_forest s1) (r_forest s2)) i1 i2 ->
    rres (fun s1' s2' => srel Idle s1' s2' /\ grows (r_forest s1) (r_forest s2) (r_forest s1') (r_forest s2'))
         (complete_medial_item fo1 P g r1 s1 i1) (complete_medial_item fo2 P g r2 s2 i2).
  Proof.
    intros r1 r2 s1 s2 i1 i2 Hs Hr (Hd & Ho & Hn). unfold complete_medial_item.
    rewrite <- (rel_hint_check _ _ _ _ Hs). rewrite Hd.
    eapply rres_bind; [apply rres_same|]. intros useful ? <-.
    destruct (negb (LOOKAHEAD P) || useful).
    - eapply rres_bind; [apply (sim_product _ HS); eauto; apply Hs|].
      intros [n1 f1] [n2 f2] (HJ & HG & HQ). cbn [fst snd] in *.
      pose proof (srel_forest _ _ _ _ _ _ Hs HJ HG) as Hs'.
      eapply rres_bind; [apply rres_heap_push with (Q := Q f1 f2)|].
      + split; [auto|]. split; auto.
      + apply Hs'.
      + intros c1 c2 Hc. apply rres_ret. split; [now apply srel_complete|exact HG].
    - apply rres_ret. split; [auto|]. intros n1 n2; auto.
  Qed.

  Lemma search_fst : forall A B (l : list (option sym * A)) (l' : list (option sym * B)) s,
    Forall2 (fun x y => fst x = fst y) l l' ->
    binary_search_by (fun x => search_cmp s (fst x)) l = binary_search_by (fun x => search_cmp s (fst x)) l'.
  Proof.
    intros A B l l' s H.
    assert (X : forall n base size,
      bs_loop (fun x => search_cmp s (fst x)) l n base size = bs_loop (fun x => search_cmp s (fst x)) l' n base size).
    { induction n as [|n IH]; intros base size; [reflexivity|]. rewrite !bs_loop_S.
      destruct (1 <? size); [|reflexivity]. pose proof (Forall2_nth _ _ _ _ _ (base + size / 2) H) as Y.
      destruct (nth_error l (base + size / 2)), (nth_error l' (base + size / 2)); try contradiction; [rewrite Y|]; apply IH. }
    unfold binary_search_by. rewrite <- (Forall2_length2 _ _ _ _ _ H), X.
    set (b := bs_loop _ l' _ _ _). pose proof (Forall2_nth _ _ _ _ _ b H) as Y.
    destruct (nth_error l b), (nth_error l' b); try contradiction; [now rewrite Y|reflexivity].
  Qed.

  Lemma take_while_fst : forall A B (T : A -> B -> Prop) (p : option sym -> bool)
    (l : list (option sym * A)) (l' : list (option sym * B)),
    Forall2 (fun x y => fst x = fst y /\ T (snd x) (snd y)) l l' ->
    Forall2 T (map snd (take_while (fun x => p (fst x)) l)) (map snd (take_while (fun x => p (fst x)) l')).
  Proof.
    intros A B T p l l' H. induction H as [|x y l l' [Hf Hs] _ IH]; simpl; auto. rewrite Hf.
    destruct (p (fst y)); simpl; auto.
  Qed.

  Lemma sim_fold : forall A B (T : F1 -> F2 -> A -> B -> Prop) f h l l' s1 s2,
    (forall s1 s2 a b, srel Idle s1 s2 -> T (r_forest s1) (r_forest s2) a b ->
       rres (fun s1' s2' => srel Idle s1' s2' /\ grows (r_forest s1) (r_forest s2) (r_forest s1') (r_forest s2'))
            (f s1 a) (h s2 b)) ->
    (forall f1 f2 f1' f2' a b, grows f1 f2 f1' f2' -> T f1 f2 a b -> T f1' f2' a b) ->
    Forall2 (T (r_forest s1) (r_forest s2)) l l' -> srel Idle s1 s2 ->
    rres (fun s1' s2' => srel Idle s1' s2' /\ grows (r_forest s1) (r_forest s2) (r_forest s1') (r_forest s2'))
         (foldM f l s1) (foldM h l' s2).
  Proof.
    intros A B T f h l l' s1 s2 K M H HR.
    eapply rres_weaken; [|eapply rres_foldM with
      (U := fun s1' s2' => srel Idle s1' s2' /\ grows (r_forest s1) (r_forest s2) (r_forest s1') (r_forest s2'))
      (T := T (r_forest s1) (r_forest s2))]; eauto.
    - intros c d a b [HR' HG] HT. eapply rres_weaken; [|apply K; eauto].
      cbn. intros x y [H1 H2]. split; [auto|]. intros n1 n2 X. auto.
    - split; [auto|]. intros n1 n2; auto.
  Qed.

  Lemma sim_complete_medial_items : forall s1 s2 id s r1 r2, srel Idle s1 s2 ->
    Q (r_forest s1) (r_forest s2) r1 r2 ->
    rres (fun s1' s2' => srel Idle s1' s2' /\ grows (r_forest s1) (r_forest s2) (r_forest s1') (r_forest s2'))
         (complete_medial_items fo1 P g s1 id s r1) (complete_medial_items fo2 P g s2 id s r2).
  Proof.
    intros s1 s2 id s r1 r2 Hs Hr. unfold complete_medial_items.
    eapply rres_bind; [apply (rres_v_index (irel (Q (r_forest s1) (r_forest s2)))); apply Hs|].
    intros l l' Hl.
    eapply rres_bind with (T := Forall2 (fun x y => fst x = fst y /\ irel (Q (r_forest s1) (r_forest s2)) (snd x) (snd y))).
    { eapply rres_mapM; [|exact Hl]. intros a b Hab. rewrite (proj1 Hab).
      eapply rres_bind; [apply rres_same|]. intros o ? <-. apply rres_ret. auto. }
    intros k k' Hk. rewrite (search_fst _ _ k k' s).
    2:{ eapply Forall2_impl2; [|exact Hk]. intros a b [X _]. exact X. }
    apply sim_fold with (T := fun f1 f2 a b => irel (Q f1 f2) a b /\ Q f1 f2 r1 r2); auto.
    - intros x y a b Hxy [Hi Hq]. now apply sim_complete_medial_item.
    - intros f1 f2 f1' f2' a b HG [Hi Hq]. split; [eapply irel_mono; eauto|auto].
    - eapply Forall2_impl2; [|apply (take_while_fst _ _ (irel (Q (r_forest s1) (r_forest s2)))
          (fun o => eqb_opt o (Some s)))].
      + cbn. auto.
      + now apply Forall2_skipn.
  Qed.

  (** computations that keep the forests *)
  Definition keeps (ph : phase) (s1 : rstate F1 N1) (s2 : rstate F2 N2) (s1' : rstate F1 N1) (s2' : rstate F2 N2) : Prop :=
    srel ph s1' s2' /\ r_forest s1' = r_forest s1 /\ r_forest s2' = r_forest s2.

  Lemma sim_push_complete : forall ph s1 s2 i1 i2, srel ph s1 s2 -> irel (Q (r_forest s1) (r_forest s2)) i1 i2 ->
    rres (keeps ph s1 s2) (push_complete s1 i1) (push_complete s2 i2).
  Proof.
    intros ph s1 s2 i1 i2 Hs Hi. unfold push_complete.
    eapply rres_bind; [apply rres_heap_push with (Q := Q (r_forest s1) (r_forest s2)); auto; apply Hs|].
    intros c1 c2 Hc. apply rres_ret. split; [now apply srel_complete|auto].
  Qed.

  Lemma sim_fold_keeps : forall A B (T : A -> B -> Prop) f h l l' ph s1 s2,
    (forall t1 t2 a b, keeps ph s1 s2 t1 t2 -> T a b -> rres (keeps ph s1 s2) (f t1 a) (h t2 b)) ->
    Forall2 T l l' -> srel ph s1 s2 -> rres (keeps ph s1 s2) (foldM f l s1) (foldM h l' s2).
  Proof.
    intros A B T f h l l' ph s1 s2 K H HR. eapply rres_foldM; eauto. split; auto.
  Qed.

  Lemma sim_complete_predictions : forall s1 s2 id s r1 r2, srel Idle s1 s2 ->
    Q (r_forest s1) (r_forest s2) r1 r2 ->
    rres (keeps Idle s1 s2) (complete_predictions P g s1 id s r1) (complete_predictions P g s2 id s r2).
  Proof.
    intros s1 s2 id s r1 r2 Hs Hr. unfold complete_predictions.
    eapply rres_bind; [apply (rres_v_last (irel (Q (r_forest s1) (r_forest s2)))); apply Hs|]. intros l l' Hl.
    eapply rres_bind; [apply rres_same|]. intros trans ? <-.
    rewrite <- (Forall2_length2 _ _ _ _ _ Hl).
    eapply rres_bind with (T := fun x y => keeps Idle s1 s2 (fst x) (fst y) /\ snd x = snd y).
    { eapply rres_foldM with (T := eq); [|apply Forall2_refl_eq|split; [split; auto|auto]].
      intros [t1 b1] [t2 b2] a ? [Hk Hb] <-. cbn [fst snd] in *. subst b2. unfold complete_prediction.
      destruct Hk as (Hk & Ef1 & Ef2).
      rewrite <- (rel_hint_check _ _ _ _ Hk). replace (r_predicted t2) with (r_predicted t1) by apply Hk.
      eapply rres_bind; [apply rres_same|]. intros wp ? <-. eapply rres_bind; [apply rres_same|]. intros us ? <-.
      destruct (wp && (negb (LOOKAHEAD P) || us)); apply rres_ret; cbn; split; auto; [|split; auto].
      split; [|auto]. apply srel_medial; auto. apply vrel_push; [apply Hk|].
      split; [auto|]. split; [auto|]. cbn. rewrite Ef1, Ef2. auto. }
    intros [t1 b1] [t2 b2] [(Hk & Ef1 & Ef2) Hb]. cbn [fst snd] in *. subst b2.
    eapply rres_bind; [apply (rres_v_last (irel (Q (r_forest t1) (r_forest t2)))); apply Hk|]. intros m m' Hm.
    eapply rres_bind with (T := keeps Idle t1 t2).
    { apply sim_fold_keeps with (T := irel (Q (r_forest t1) (r_forest t2))); auto; [|now apply Forall2_skipn].
      intros u1 u2 a b (Hu & E1 & E2) Hab. rewrite <- E1, <- E2 in Hab.
      eapply rres_weaken; [|apply sim_push_complete; eauto]. intros x y (X1 & X2 & X3). split; [auto|]. split; congruence. }
    intros u1 u2 (Hu & E1 & E2).
    eapply rres_bind; [apply (rres_v_last (irel (Q (r_forest u1) (r_forest u2)))); apply Hu|]. intros k k' Hk'.
    rewrite <- (Forall2_length2 _ _ _ _ _ Hk').
    assert (Hv : vrel (irel (Q (r_forest u1) (r_forest u2))) (r_medial u1) (r_medial u2)) by apply Hu.
    unfold v_item_count. rewrite <- (vrel_len _ _ _ Hv).
    eapply rres_bind; [apply rres_assert|]. intros _ _ _. eapply rres_bind; [apply rres_assert|]. intros _ _ _.
    apply rres_ret. split; [|cbn; split; congruence]. apply srel_medial; auto. now apply vrel_truncate_chart.
  Qed.

  Lemma sim_complete_gen : forall s1 s2 id s r1 r2, srel Idle s1 s2 ->
    Q (r_forest s1) (r_forest s2) r1 r2 ->
    rres (keeps Idle s1 s2) (complete_generated_binary_predictions g s1 id s r1)
                            (complete_generated_binary_predictions g s2 id s r2).
  Proof.
    intros s1 s2 id s r1 r2 Hs Hr. unfold complete_generated_binary_predictions.
    eapply rres_bind; [apply rres_same|]. intros [bo uo] ? <-.
    eapply rres_bind with (T := keeps Idle s1 s2).
    { destruct uo as [t|]; [|apply rres_ret; split; auto].
      replace (r_predicted s2) with (r_predicted s1) by apply Hs.
      eapply rres_bind; [apply rres_same|]. intros wp ? <-. destruct wp; [|apply rres_ret; split; auto].
      apply sim_push_complete; auto. split; auto. }
    intros t1 t2 (Ht & E1 & E2). destruct bo as [t|]; [|apply rres_ret; split; auto].
    replace (r_predicted t2) with (r_predicted t1) by apply Ht.
    eapply rres_bind; [apply rres_same|]. intros wp ? <-. destruct wp; apply rres_ret; split; auto.
    apply srel_medial; auto. apply vrel_push; [apply Ht|]. split; [auto|]. split; [auto|]. cbn. rewrite E1, E2. auto.
  Qed.

  Notation step_rel s1 s2 := (fun s1' s2' => srel Idle s1' s2' /\
    grows (r_forest s1) (r_forest s2) (r_forest s1') (r_forest s2')).

  Lemma keeps_step : forall s1 s2 a b, keeps Idle s1 s2 a b -> step_rel s1 s2 a b.
  Proof. intros s1 s2 a b (H & E1 & E2). split; [auto|]. rewrite E1, E2. intros n1 n2; auto. Qed.

  Lemma sim_complete : forall s1 s2 id s r1 r2, srel Idle s1 s2 ->
    Q (r_forest s1) (r_forest s2) r1 r2 ->
    rres (step_rel s1 s2) (complete fo1 P g s1 id s r1) (complete fo2 P g s2 id s r2).
  Proof.
    intros s1 s2 id s r1 r2 Hs Hr. unfold complete.
    destruct (g_syms g <=? s).
    - eapply rres_weaken; [|apply sim_complete_gen; eauto]. apply keeps_step.
    - replace (r_predicted s2) with (r_predicted s1) by apply Hs.
      eapply rres_bind; [apply rres_same|]. intros p ? <-. destruct p.
      2:{ apply rres_ret. split; [auto|]. intros n1 n2; auto. }
      eapply rres_bind with (T := eq).
      { destruct (negb (LEO P)); [apply rres_same|]. simpl. auto. }
      intros leo ? <-. destruct leo; [apply rres_ret; split; [auto|]; intros n1 n2; auto|].
      eapply rres_bind; [apply sim_complete_medial_items; eauto|]. intros t1 t2 [Ht HG].
      eapply rres_weaken; [|apply sim_complete_predictions; eauto].
      intros a b (H & E1 & E2). split; [auto|]. rewrite E1, E2. auto.
  Qed.

  Lemma sim_scan : forall s1 s2 symbol value, srel Idle s1 s2 ->
    rres (srel Idle) (scan fo1 P g s1 symbol value) (scan fo2 P g s2 symbol value).
  Proof.
    intros s1 s2 symbol value Hs. unfold scan. rewrite <- (rel_earleme _ _ _ Hs).
    eapply rres_bind; [apply rres_same|]. intros e ? <-.
    eapply rres_bind; [apply (sim_leaf _ HS); apply Hs|]. intros [n1 f1] [n2 f2] (HJ & HG & HQ). cbn [fst snd] in *.
    eapply rres_weaken; [|apply sim_complete; auto; eapply srel_forest; eauto]. intros a b [X _]. exact X.
  Qed.

  Lemma sim_next_sum : forall ph s1 s2, srel ph s1 s2 -> next_sum g s1 = next_sum g s2.
  Proof.
    intros ph s1 s2 [_ (_ & _ & _ & _ & H)]. unfold next_sum. pose proof (heap_peek_rel _ _ _ H) as X.
    unfold orel in X. destruct (heap_peek (r_complete s1)), (heap_peek (r_complete s2)); try contradiction; auto.
    destruct X as (A & B & _). now rewrite A, B.
  Qed.

  Lemma sim_next_summand : forall ph s1 s2 o l, srel ph s1 s2 ->
    rres (fun x y => orel (Q (r_forest s1) (r_forest s2)) (fst x) (fst y) /\ keeps ph s1 s2 (snd x) (snd y))
         (next_summand g o l s1) (next_summand g o l s2).
  Proof.
    intros ph s1 s2 o l Hs. unfold next_summand.
    assert (Hc : Forall2 (irel (Q (r_forest s1) (r_forest s2))) (r_complete s1) (r_complete s2)) by apply Hs.
    pose proof (heap_peek_rel _ _ _ Hc) as X. unfold orel in X.
    destruct (heap_peek (r_complete s1)) as [i1|], (heap_peek (r_complete s2)) as [i2|]; try contradiction.
    - pose proof X as (A & B & C). rewrite <- A, <- B. eapply rres_bind; [apply rres_same|]. intros lhs ? <-.
      destruct ((o =? it_origin i1) && (l =? lhs)).
      + eapply rres_bind; [apply rres_heap_pop; exact Hc|]. intros [o1 c1] [o2 c2] [_ H2]. cbn [fst snd] in *.
        apply rres_ret. cbn. split; [exact X|]. split; [now apply srel_complete|auto].
      + apply rres_ret. cbn. split; [auto|split; auto].
    - apply rres_ret. cbn. split; [auto|split; auto].
  Qed.

  Definition sum_rel (b : bool) (s1' : rstate F1 N1) (s2' : rstate F2 N2) : Prop := srel (Summing b) s1' s2'.

  Lemma sim_summand_loop : forall n o l s1 s2 b, srel (Summing b) s1 s2 ->
    rres (fun s1' s2' => srel (Summing b) s1' s2' \/ srel (Summing true) s1' s2')
         (summand_loop fo1 g n o l s1) (summand_loop fo2 g n o l s2).
  Proof.
    induction n as [|n IH]; intros o l s1 s2 b Hs; cbn [summand_loop];
      (eapply rres_bind; [apply sim_next_summand; eauto|]);
      intros [o1 t1] [o2 t2] [Ho (Ht & E1 & E2)]; cbn [fst snd] in *;
      destruct o1 as [i1|], o2 as [i2|]; try contradiction; try (apply rres_ret; auto).
    - eapply rres_bind with (T := fun _ _ => True); [|simpl; auto].
      unfold push_summand. eapply rres_bind; [eapply (sim_push _ HS); [apply Ht|]|].
      + rewrite E1, E2. exact Ho.
      + intros. apply rres_ret. auto.
    - unfold push_summand. eapply rres_bind with (T := srel (Summing true)).
      + eapply rres_bind; [eapply (sim_push _ HS); [apply Ht|]|].
        * rewrite E1, E2. exact Ho.
        * intros f1 f2 [HJ HG]. apply rres_ret. eapply srel_forest; eauto.
      + intros u1 u2 Hu. eapply rres_weaken; [|apply (IH o l _ _ true); auto]. intros a c [X|X]; auto.
  Qed.

  (** a group named by [next_sum] has at least one summand *)
  Lemma sim_summand_loop_true : forall n o l s1 s2 b, srel (Summing b) s1 s2 ->
    next_sum g s1 = Ret (Some (o, l)) ->
    rres (srel (Summing true)) (summand_loop fo1 g n o l s1) (summand_loop fo2 g n o l s2).
  Proof.
    intros n o l s1 s2 b Hs Hn.
    pose proof (sim_next_summand _ _ _ o l Hs) as HX.
    assert (HY : forall x, next_summand g o l s1 = Ret x -> fst x <> None).
    { intros x Hx. unfold next_sum in Hn. unfold next_summand in Hx.
      destruct (heap_peek (r_complete s1)) as [i|]; [|discriminate].
      destruct (get_lhs g (it_dot i)) as [lhs| |]; cbn [bind] in *; try discriminate. injection Hn as Hn1 Hn2. subst.
      rewrite !Nat.eqb_refl in Hx. cbn [andb] in Hx. destruct (heap_pop (r_complete s1)) as [[a c]| |]; cbn [bind] in Hx; try discriminate.
      injection Hx as <-. discriminate. }
    destruct n as [|n]; cbn [summand_loop].
    - eapply rres_bind with (T := fun x y => (orel (Q (r_forest s1) (r_forest s2)) (fst x) (fst y) /\
          keeps (Summing b) s1 s2 (snd x) (snd y)) /\ fst x <> None).
      { destruct (next_summand g o l s1) as [x| |] eqn:E; simpl in *; auto.
        destruct HX as (y & -> & HX). exists y. split; [auto|]. split; [auto|]. now apply HY. }
      intros [o1 t1] [o2 t2] [[Ho (Ht & E1 & E2)] Hne]; cbn [fst snd] in *.
      destruct o1 as [i1|], o2 as [i2|]; try contradiction; try congruence.
      eapply rres_bind with (T := fun _ _ => True); [|simpl; auto].
      unfold push_summand. eapply rres_bind; [eapply (sim_push _ HS); [apply Ht|]|].
      + rewrite E1, E2. exact Ho.
      + intros. apply rres_ret. auto.
    - eapply rres_bind with (T := fun x y => (orel (Q (r_forest s1) (r_forest s2)) (fst x) (fst y) /\
          keeps (Summing b) s1 s2 (snd x) (snd y)) /\ fst x <> None).
      { destruct (next_summand g o l s1) as [x| |] eqn:E; simpl in *; auto.
        destruct HX as (y & -> & HX). exists y. split; [auto|]. split; [auto|]. now apply HY. }
      intros [o1 t1] [o2 t2] [[Ho (Ht & E1 & E2)] Hne]; cbn [fst snd] in *.
      destruct o1 as [i1|], o2 as [i2|]; try contradiction; try congruence.
      unfold push_summand. eapply rres_bind with (T := srel (Summing true)).
      + eapply rres_bind; [eapply (sim_push _ HS); [apply Ht|]|].
        * rewrite E1, E2. exact Ho.
        * intros f1 f2 [HJ HG]. apply rres_ret. eapply srel_forest; eauto.
      + intros u1 u2 Hu. eapply rres_weaken; [|apply (sim_summand_loop n o l _ _ true); auto]. intros a c [X|X]; auto.
  Qed.

  Lemma sim_complete_entire_sum : forall o l s1 s2, srel Idle s1 s2 ->
    next_sum g s1 = Ret (Some (o, l)) ->
    rres (srel Idle) (complete_entire_sum fo1 P g o l s1) (complete_entire_sum fo2 P g o l s2).
  Proof.
    intros o l s1 s2 Hs Hn. unfold complete_entire_sum.
    eapply rres_bind; [apply (sim_begin _ HS); apply Hs|]. intros f1 f2 [HJ HG].
    pose proof (srel_forest _ _ _ _ _ _ Hs HJ HG) as Hs'. cbn zeta.
    assert (HL : length (r_complete (set_forest s1 f1)) = length (r_complete (set_forest s2 f2))).
    { eapply Forall2_length2. apply Hs'. }
    rewrite <- HL. eapply rres_bind; [eapply sim_summand_loop_true; eauto|].
    intros t1 t2 Ht. unfold complete_sum. eapply rres_bind; [apply (sim_sum _ HS); apply Ht|].
    intros [n1 h1] [n2 h2] (HJ' & HG' & HQ'). cbn [fst snd] in *.
    eapply rres_weaken; [|apply sim_complete; auto; eapply srel_forest; eauto]. intros a b [X _]. exact X.
  Qed.

  Lemma sim_skip_loop : forall n o l s1 s2, srel Idle s1 s2 ->
    rres (srel Idle) (skip_loop g n o l s1) (skip_loop g n o l s2).
  Proof.
    induction n as [|n IH]; intros o l s1 s2 Hs; cbn [skip_loop];
      (eapply rres_bind; [apply sim_next_summand; eauto|]);
      intros [o1 t1] [o2 t2] [Ho (Ht & E1 & E2)]; cbn [fst snd] in *;
      destruct o1 as [i1|], o2 as [i2|]; try contradiction; try (apply rres_ret; auto).
    - simpl. auto.
    - apply IH. auto.
  Qed.

  Lemma sim_complete_sums : forall keep fuel s1 s2, srel Idle s1 s2 ->
    rres (srel Idle) (complete_sums fo1 P g keep fuel s1) (complete_sums fo2 P g keep fuel s2).
  Proof.
    intros keep. induction fuel as [|fuel IH]; intros s1 s2 Hs; cbn [complete_sums];
      rewrite <- (sim_next_sum _ _ _ Hs); destruct (next_sum g s1) as [[[o l]|]| |] eqn:En; cbn [bind]; simpl; auto.
    - eexists. split; [reflexivity|]. now apply srel_hint.
    - eapply rres_bind with (T := srel Idle); [|auto].
      destruct (keep l); [now apply sim_complete_entire_sum|].
      unfold skip_entire_sum. assert (HL : length (r_complete s1) = length (r_complete s2)).
      { eapply Forall2_length2. apply Hs. }
      rewrite <- HL. now apply sim_skip_loop.
    - eexists. split; [reflexivity|]. now apply srel_hint.
  Qed.

  (** *** Sorting, dropping sets, predicting *)
  Lemma sort_rel : forall A B (T : A -> B -> Prop) leb leb',
    (forall a b a' b', T a a' -> T b b' -> leb a b = leb' a' b') ->
    forall l l', Forall2 T l l' -> Forall2 T (sort_by leb l) (sort_by leb' l').
  Proof.
    intros A B T leb leb' K l l' H. induction H as [|a b l l' Hab _ IH]; simpl; auto.
    remember (sort_by leb l) as m. remember (sort_by leb' l') as m'. clear Heqm Heqm'.
    induction IH as [|x y m m' Hxy Hm IHm]; simpl; auto. rewrite (K _ _ _ _ Hab Hxy).
    destruct (leb' b y); auto.
  Qed.

  Lemma sim_sort : forall s1 s2, srel Idle s1 s2 ->
    rres (srel Idle) (sort_medial_items g s1) (sort_medial_items g s2).
  Proof.
    intros s1 s2 Hs. unfold sort_medial_items.
    assert (Hv : vrel (irel (Q (r_forest s1) (r_forest s2))) (r_medial s1) (r_medial s2)) by apply Hs.
    eapply rres_bind; [apply (rres_v_last _ _ _ Hv)|]. intros l l' Hl.
    eapply rres_bind with (T := Forall2 (fun x y => fst x = fst y /\ irel (Q (r_forest s1) (r_forest s2)) (snd x) (snd y))).
    { eapply rres_mapM; [|exact Hl]. intros a b Hab. rewrite (proj1 Hab).
      eapply rres_bind; [apply rres_same|]. intros o ? <-. eapply rres_bind; [apply rres_same|]. intros r ? <-.
      apply rres_ret. auto. }
    intros k k' Hk. eapply rres_bind.
    { apply (rres_v_set_last _ _ _ (map snd (sort_by medial_key_leb k)) (map snd (sort_by medial_key_leb k')) Hv).
      assert (X : Forall2 (fun x y => fst x = fst y /\ irel (Q (r_forest s1) (r_forest s2)) (snd x) (snd y))
                   (sort_by medial_key_leb k) (sort_by medial_key_leb k')).
      { apply sort_rel; auto. intros a b a' b' [A1 (A2 & A3 & _)] [B1 (B2 & B3 & _)].
        unfold medial_key_leb. now rewrite A1, A2, A3, B1, B2, B3. }
      clear -X. induction X as [|a b l l' [_ H] _ IH]; simpl; auto. }
    intros m m' Hm. apply rres_ret. now apply srel_medial.
  Qed.

  Lemma map_origin_rel : forall (T : N1 -> N2 -> Prop) l l', Forall2 (irel T) l l' -> map it_origin l = map it_origin l'.
  Proof. intros T l l' H. induction H as [|a b l l' (_ & E & _) _ IH]; simpl; auto. now rewrite E, IH. Qed.

  Lemma sim_remove : forall s1 s2, srel Idle s1 s2 ->
    rres (srel Idle) (remove_unreachable_sets P s1) (remove_unreachable_sets P s2).
  Proof.
    intros s1 s2 Hs. unfold remove_unreachable_sets.
    assert (Hv : vrel (irel (Q (r_forest s1) (r_forest s2))) (r_medial s1) (r_medial s2)) by apply Hs.
    eapply rres_bind; [apply (rres_v_last _ _ _ Hv)|]. intros l l' Hl.
    rewrite <- (rel_earleme _ _ _ Hs), <- (map_origin_rel _ _ _ Hl).
    eapply rres_bind; [apply rres_same|]. intros e ? <-.
    set (ne := match list_max_opt (map it_origin l) with Some m => m | None => e end).
    destruct ((ne <? e) && (0 <? ne)); [|apply rres_ret; auto].
    replace (r_predicted s2) with (r_predicted s1) by apply Hs.
    pose proof (srel_predicted _ _ _ (bm_truncate (r_predicted s1) (ne + 1)) Hs) as Hs1. cbn zeta.
    set (t1 := set_predicted s1 _) in *. set (t2 := set_predicted s2 _) in *.
    eapply rres_bind; [apply (rres_v_truncate (irel (Q (r_forest t1) (r_forest t2)))); apply Hs1|]. intros m m' Hm.
    pose proof (srel_medial _ _ _ _ _ Hs1 Hm) as Hs2.
    set (u1 := set_medial t1 m) in *. set (u2 := set_medial t2 m') in *.
    eapply rres_bind with (T := srel Idle).
    { destruct (LEO P); [|apply rres_ret; auto].
      eapply rres_bind; [apply (rres_v_truncate (irel (Q (r_forest u1) (r_forest u2)))); apply Hs2|]. intros lv lv' Hlv.
      apply rres_ret. now apply srel_leo. }
    intros x1 x2 Hx. replace (v_len (r_medial x2)) with (v_len (r_medial x1)).
    2:{ destruct Hx as [_ (_ & _ & [X _] & _)]. unfold v_len. now rewrite X. }
    eapply rres_bind; [apply rres_assert|]. intros _ _ _. rewrite <- (rel_earleme _ _ _ Hx).
    eapply rres_bind; [apply rres_assert|]. intros _ _ _. apply rres_ret. auto.
  Qed.

  Lemma sim_prediction_pass : forall s1 s2, srel Idle s1 s2 ->
    rres (srel Idle) (prediction_pass g s1) (prediction_pass g s2).
  Proof.
    intros s1 s2 Hs. unfold prediction_pass. replace (r_predicted s2) with (r_predicted s1) by apply Hs. cbn zeta.
    assert (Hv : vrel (irel (Q (r_forest s1) (r_forest s2))) (r_medial s1) (r_medial s2)) by apply Hs.
    eapply rres_bind; [apply (rres_v_last _ _ _ Hv)|]. intros l l' Hl. rewrite <- (rel_earleme _ _ _ Hs).
    eapply rres_bind; [apply rres_same|]. intros e ? <-. eapply rres_bind; [apply rres_same|]. intros row ? <-.
    eapply rres_bind with (T := eq).
    { eapply rres_foldM; [|exact Hl|reflexivity]. intros c ? a b <- Hab. rewrite (proj1 Hab). apply rres_same. }
    intros row' ? <-. eapply rres_bind; [apply rres_same|]. intros rows' ? <-.
    apply rres_ret. now apply srel_predicted.
  Qed.

  Lemma sim_advance : forall s1 s2, srel Idle s1 s2 ->
    rres (srel Idle) (advance_after_completion P g s1) (advance_after_completion P g s2).
  Proof.
    intros s1 s2 Hs. unfold advance_after_completion.
    eapply rres_bind; [apply sim_sort; eauto|]. intros a b Hab.
    eapply rres_bind; [apply sim_remove; eauto|]. intros c d Hcd.
    eapply rres_bind with (T := srel Idle); [destruct (LEO P); simpl; eauto|]. intros e f Hef.
    now apply sim_prediction_pass.
  Qed.

  Lemma sim_advance_keeping : forall s1 s2, srel Idle s1 s2 ->
    rres (srel Idle) (advance_keeping_sets P g s1) (advance_keeping_sets P g s2).
  Proof.
    intros s1 s2 Hs. unfold advance_keeping_sets.
    eapply rres_bind; [apply sim_sort; eauto|]. intros a b Hab.
    eapply rres_bind with (T := srel Idle); [destruct (LEO P); simpl; eauto|]. intros e f Hef.
    now apply sim_prediction_pass.
  Qed.

  Lemma sim_exhausted : forall ph s1 s2, srel ph s1 s2 -> rres eq (is_exhausted s1) (is_exhausted s2).
  Proof.
    intros ph s1 s2 Hs. unfold is_exhausted.
    eapply rres_bind; [apply (rres_v_last (irel (Q (r_forest s1) (r_forest s2)))); apply Hs|]. intros l l' Hl.
    apply rres_ret. assert (Hc : Forall2 (irel (Q (r_forest s1) (r_forest s2))) (r_complete s1) (r_complete s2)) by apply Hs.
    destruct Hl, Hc; auto.
  Qed.

  Definition brel (x : bool * rstate F1 N1) (y : bool * rstate F2 N2) : Prop :=
    fst x = fst y /\ srel Idle (snd x) (snd y).

  Lemma sim_end : forall keep fuel s1 s2, srel Idle s1 s2 ->
    rres brel (end_filtered fo1 P g keep fuel s1) (end_filtered fo2 P g keep fuel s2).
  Proof.
    intros keep fuel s1 s2 Hs. unfold end_filtered.
    eapply rres_bind; [eapply sim_exhausted; eauto|]. intros ex ? <-.
    destruct ex; [apply rres_ret; split; auto|].
    eapply rres_bind; [apply sim_complete_sums; eauto|]. intros a b Hab.
    eapply rres_bind; [apply sim_advance; eauto|]. intros c d Hcd. apply rres_ret. split; auto.
  Qed.

  Lemma sim_begin_earleme : forall s1 s2, srel Idle s1 s2 -> srel Idle (begin_earleme P s1) (begin_earleme P s2).
  Proof.
    intros s1 s2 Hs. unfold begin_earleme.
    assert (H1 : srel Idle (set_medial s1 (v_next_set (r_medial s1))) (set_medial s2 (v_next_set (r_medial s2)))).
    { apply srel_medial; auto. apply vrel_next_set, Hs. }
    cbn zeta. destruct (LEO P); auto. apply srel_leo; auto. apply vrel_next_set, H1.
  Qed.

  Lemma sim_scan_list : forall ws s1 s2, srel Idle s1 s2 ->
    rres (srel Idle) (scan_list fo1 P g ws s1) (scan_list fo2 P g ws s2).
  Proof.
    intros ws s1 s2 Hs. unfold scan_list. eapply rres_foldM with (T := eq); [|apply Forall2_refl_eq|auto].
    intros c d a ? Hcd <-. now apply sim_scan.
  Qed.

  Lemma sim_feed : forall fuel loc s1 s2, srel Idle s1 s2 ->
    rres brel (feed fo1 P g fuel loc s1) (feed fo2 P g fuel loc s2).
  Proof.
    intros fuel loc s1 s2 Hs. unfold feed.
    eapply rres_bind; [apply sim_scan_list, srel_hint, sim_begin_earleme, Hs|]. intros a b Hab. now apply sim_end.
  Qed.

  Lemma sim_feed_all : forall fuel locs s1 s2, srel Idle s1 s2 ->
    rres brel (feed_all fo1 P g fuel locs s1) (feed_all fo2 P g fuel locs s2).
  Proof.
    intros fuel. induction locs as [|loc locs IH]; intros s1 s2 Hs; cbn [feed_all].
    - apply rres_ret. split; auto.
    - eapply rres_bind; [apply sim_feed; eauto|]. intros [b1 t1] [b2 t2] [Hb Ht]. cbn [fst snd] in *. subst b2.
      destruct b1; [auto|apply rres_ret; split; auto].
  Qed.

  Lemma sim_feed_all_keeping : forall fuel locs s1 s2, srel Idle s1 s2 ->
    rres brel (feed_all_keeping_sets fo1 P g fuel locs s1) (feed_all_keeping_sets fo2 P g fuel locs s2).
  Proof.
    intros fuel. induction locs as [|loc locs IH]; intros s1 s2 Hs; cbn [feed_all_keeping_sets].
    - apply rres_ret. split; auto.
    - eapply rres_bind with (T := brel).
      + unfold feed_keeping_sets.
        eapply rres_bind; [apply sim_scan_list, srel_hint, sim_begin_earleme, Hs|]. intros a b Hab.
        eapply rres_bind; [eapply sim_exhausted; eauto|]. intros ex ? <-.
        destruct ex; [apply rres_ret; split; auto|].
        eapply rres_bind; [apply sim_complete_sums; eauto|]. intros x y Hxy.
        eapply rres_bind; [apply sim_advance_keeping; eauto|]. intros c d Hcd. apply rres_ret. split; auto.
      + intros [b1 t1] [b2 t2] [Hb Ht]. cbn [fst snd] in *. subst b2.
        destruct b1; [auto|apply rres_ret; split; auto].
  Qed.

  Lemma sim_reset : forall s1 s2, srel Idle s1 s2 -> rres (srel Idle) (reset g s1) (reset g s2).
  Proof.
    intros s1 s2 Hs. unfold reset. cbn zeta.
    assert (H1 : srel Idle (set_complete (set_medial s1 (v_clear (r_medial s1))) [])
                           (set_complete (set_medial s2 (v_clear (r_medial s2))) [])).
    { apply srel_complete; [|constructor]. apply srel_medial; auto. apply vrel_clear. }
    set (t1 := set_complete _ _) in *. set (t2 := set_complete (set_medial s2 _) _) in *.
    replace (r_predicted t2) with (r_predicted t1) by apply H1.
    eapply rres_bind; [apply rres_same|]. intros r0 ? <-. eapply rres_bind; [apply rres_same|]. intros src ? <-.
    eapply rres_bind; [apply rres_same|]. intros r0' ? <-. eapply rres_bind; [apply rres_same|]. intros m ? <-.
    apply rres_ret. now apply srel_predicted.
  Qed.

  Hypothesis Hnul : nul.

  Lemma sim_finished : forall s1 s2, srel Idle s1 s2 ->
    rres (fun o o' => match o, o' with Some a, Some b => Q (r_forest s1) (r_forest s2) a b
                                     | None, None => True | _, _ => False end)
         (finished_node fo1 g s1) (finished_node fo2 g s2).
  Proof.
    intros s1 s2 Hs. unfold finished_node. rewrite <- (rel_earleme _ _ _ Hs).
    destruct (g_has_trivial_derivation g && is_null (earleme s1)).
    - eapply rres_bind; [apply rres_same|]. intros s ? <-.
      eapply rres_bind; [apply (sim_nulling _ HS Hnul); apply Hs|]. intros n1 n2 Hn. apply rres_ret. auto.
    - eapply rres_bind; [apply (rres_v_last (irel (Q (r_forest s1) (r_forest s2)))); apply Hs|]. intros l l' Hl.
      apply rres_ret. destruct Hl as [|a b l l' (E1 & E2 & E3) _]; auto. rewrite <- E1.
      destruct (it_dot a =? g_dot_before_eof g); auto.
  Qed.

  Lemma sim_is_finished : forall s1 s2, srel Idle s1 s2 ->
    rres eq (is_finished fo1 g s1) (is_finished fo2 g s2).
  Proof.
    intros s1 s2 Hs. unfold is_finished. eapply rres_bind; [apply sim_finished; eauto|].
    intros [a|] [b|] H; try contradiction; apply rres_ret; auto.
  Qed.

  Lemma sim_new : forall f1 f2, J Idle f1 f2 -> rres (srel Idle) (r_new g f1) (r_new g f2).
  Proof.
    intros f1 f2 HJ. unfold r_new. cbn zeta.
    eapply rres_bind; [apply rres_same|]. intros r0 ? <-. eapply rres_bind; [apply rres_same|]. intros src ? <-.
    eapply rres_bind; [apply rres_same|]. intros r0' ? <-. eapply rres_bind; [apply rres_same|]. intros m ? <-.
    apply rres_ret. split; [exact HJ|]. repeat (split; [reflexivity || apply vrel_new|]). constructor.
  Qed.
End Sim.

(** ** Usable forests simulate each other *)
Lemma usable_sim : forall F1 N1 F2 N2 (fo1 : forest_ops F1 N1) (fo2 : forest_ops F2 N2) ok1 ok2,
  usable fo1 ok1 -> usable fo2 ok2 ->
  fsim fo1 fo2 (fun ph f1 f2 => ok1 ph f1 /\ ok2 ph f2) (fun _ _ _ _ => True).
Proof.
  intros F1 N1 F2 N2 fo1 fo2 ok1 ok2 U1 U2. constructor.
  - intros f1 f2 [H1 H2]. destruct (u_begin _ _ U1 f1 H1) as (x & -> & X). destruct (u_begin _ _ U2 f2 H2) as (y & -> & Y).
    apply rres_ret. split; [auto|]. intros n1 n2; auto.
  - intros b f1 f2 i1 i2 [H1 H2] _. destruct (u_push _ _ U1 b i1 f1 H1) as (x & -> & X).
    destruct (u_push _ _ U2 b i2 f2 H2) as (y & -> & Y). apply rres_ret. split; [auto|]. intros n1 n2; auto.
  - intros s o f1 f2 [H1 H2]. destruct (u_sum _ _ U1 s o f1 H1) as (x & x' & -> & X).
    destruct (u_sum _ _ U2 s o f2 H2) as (y & y' & -> & Y). apply rres_ret. cbn. repeat split; auto.
  - intros l1 l2 r1 r2 f1 f2 [H1 H2] _ _. destruct (u_product _ _ U1 l1 r1 f1 H1) as (x & x' & -> & X).
    destruct (u_product _ _ U2 l2 r2 f2 H2) as (y & y' & -> & Y). apply rres_ret. cbn. repeat split; auto.
  - intros s p v f1 f2 [H1 H2]. destruct (u_leaf _ _ U1 s p v f1 H1) as (x & x' & -> & X).
    destruct (u_leaf _ _ U2 s p v f2 H2) as (y & y' & -> & Y). apply rres_ret. cbn. repeat split; auto.
  - intros _ s f1 f2 [H1 H2]. destruct (u_nulling _ _ U1 s f1 H1) as (x & ->).
    destruct (u_nulling _ _ U2 s f2 H2) as (y & ->). apply rres_ret. auto.
Qed.

Lemma free_usable : usable free_forest (fun ph p => ph = Summing true -> p <> []).
Proof.
  constructor; cbn.
  - intros f _. eexists. split; [reflexivity|discriminate].
  - intros b it f _. eexists. split; [reflexivity|]. intros _ H. symmetry in H. now apply app_cons_not_nil in H.
  - intros s o f H. destruct f; [now elim H|]. do 2 eexists. split; [reflexivity|discriminate].
  - intros. do 2 eexists. split; [reflexivity|discriminate].
  - intros. do 2 eexists. split; [reflexivity|discriminate].
  - eauto.
Qed.

Lemma null_usable : usable null_forest (fun _ _ => True).
Proof. constructor; cbn; eauto. Qed.
