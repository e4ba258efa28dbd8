(** TablesProofs: the tables built by [from_processed_grammars] are the ones the
    recognizer needs. *)
From Coq Require Import List Arith Bool Lia Relations.
From Verif Require Import Base BaseProofs Vec2d Vec2dProofs Grammar BitMatrix DefaultGrammar
  Spec Chart ChartFacts Tables.
Import ListNotations.
Local Open Scope res_scope.

(** ** Folds that succeed *)
Lemma foldM_inv : forall A B (f : B -> A -> res B) (I : list A -> B -> Prop) l b b',
  foldM f l b = Ret b' -> I [] b ->
  (forall done a rest x y, l = done ++ a :: rest -> I done x -> f x a = Ret y -> I (done ++ [a]) y) ->
  I l b'.
Proof.
  intros A B f I l b b' Hf H0 Hs.
  assert (X : forall rest done x, l = done ++ rest -> I done x -> foldM f rest x = Ret b' -> I l b').
  { induction rest as [|a rest IH]; intros done x El HI Hx; simpl in Hx.
    - injection Hx as <-. rewrite app_nil_r in El. now subst.
    - apply bind_Ret in Hx. destruct Hx as (y & Hy & Hx).
      apply (IH (done ++ [a]) y); auto.
      + now rewrite <- app_assoc.
      + eapply Hs; eauto. }
  apply (X l [] b); auto.
Qed.

(** ** Bit matrices *)
Definition bit (m : bitmatrix) (i j : nat) : bool := nth j (nth i m []) false.
Definition square (n : nat) (m : bitmatrix) : Prop := length m = n /\ forall row, In row m -> length row = n.

Lemma bit_row : forall n m i row j, square n m -> nth_error m i = Some row ->
  (nth_error row j = Some true <-> bit m i j = true).
Proof.
  intros n m i row j _ Hr. unfold bit. rewrite (nth_error_nth _ _ _ Hr). split; intro H.
  - now apply nth_error_nth.
  - destruct (nth_error row j) as [b|] eqn:E.
    + rewrite (nth_error_nth _ _ _ E) in H. congruence.
    + apply nth_error_None in E. rewrite nth_overflow in H; [discriminate|auto].
Qed.

Lemma bit_range : forall n m i j, square n m -> bit m i j = true -> i < n /\ j < n.
Proof.
  intros n m i j [HL Hr] H. unfold bit in H.
  destruct (le_lt_dec n i) as [X|X].
  - rewrite (nth_overflow m) in H by lia. destruct j; discriminate.
  - split; [auto|]. destruct (le_lt_dec n j) as [Y|Y]; [|auto].
    rewrite nth_overflow in H; [discriminate|]. rewrite Hr; [auto|]. apply nth_In. lia.
Qed.

Lemma square_new : forall n, square n (bm_new n n).
Proof.
  intros n. unfold bm_new. split; [apply repeat_length|]. intros row H. apply repeat_spec in H.
  subst. apply repeat_length.
Qed.

Lemma nth_repeat_false : forall n k, nth k (repeat false n) false = false.
Proof. induction n; intros [|k]; simpl; auto. Qed.

Lemma bit_new : forall n i j, bit (bm_new n n) i j = false.
Proof.
  intros n i j. unfold bit, bm_new. destruct (nth_error (repeat (repeat false n) n) i) as [row|] eqn:E.
  - rewrite (nth_error_nth _ _ _ E). apply nth_error_In, repeat_spec in E. subst. apply nth_repeat_false.
  - apply nth_error_None in E. rewrite (nth_overflow (repeat _ n)) by auto. now destruct j.
Qed.

Lemma set_nth_In : forall A (l : list A) i v x, In x (set_nth l i v) -> x = v \/ In x l.
Proof.
  induction l as [|a l IH]; intros [|i] v x H; simpl in *; auto.
  - destruct H; auto.
  - destruct H as [H|H]; auto. destruct (IH i v x H); auto.
Qed.

Lemma nth_set_nth : forall A (l : list A) i v j d, i < length l ->
  nth j (set_nth l i v) d = if i =? j then v else nth j l d.
Proof.
  induction l as [|a l IH]; intros [|i] v [|j] d H; simpl in *; auto; try lia. apply IH. lia.
Qed.

Lemma bm_set_spec : forall n m i j m', square n m -> bm_set m i j = Ret m' ->
  square n m' /\ i < n /\ j < n /\
  forall x y, bit m' x y = bit m x y || ((x =? i) && (y =? j)).
Proof.
  intros n m i j m' [HL Hr] H. unfold bm_set in H.
  apply bind_Ret in H. destruct H as (row & H1 & H). apply bind_Ret in H. destruct H as (row' & H2 & H3).
  apply idx_Ret in H1. apply upd_inv in H2. destruct H2 as [Hj ->]. apply upd_inv in H3. destruct H3 as [Hi ->].
  assert (length row = n) by (apply Hr; eapply nth_error_In; eauto).
  split; [|split; [lia|split; [lia|]]].
  - split; [rewrite set_nth_length; auto|]. intros r Hin. apply set_nth_In in Hin. destruct Hin as [->|Hin]; auto.
    now rewrite set_nth_length.
  - intros x y. unfold bit. rewrite nth_set_nth by auto.
    rewrite (Nat.eqb_sym x i), (Nat.eqb_sym y j). destruct (Nat.eqb_spec i x) as [<-|N]; simpl.
    + rewrite nth_set_nth by auto. rewrite (nth_error_nth _ _ _ H1).
      destruct (j =? y); [now rewrite orb_true_r|now rewrite orb_false_r].
    + now rewrite orb_false_r.
Qed.

Lemma bm_set_total : forall n m i j, square n m -> i < n -> j < n -> exists m', bm_set m i j = Ret m'.
Proof.
  intros n m i j [HL Hr] Hi Hj. unfold bm_set.
  destruct (idx_lt _ m i) as (row & E & E2); [lia|]. rewrite E. cbn [bind].
  assert (length row = n) by (apply Hr; eapply nth_error_In; eauto).
  rewrite upd_Ret by lia. cbn [bind]. rewrite upd_Ret by lia. eauto.
Qed.

(** *** Warshall's algorithm *)
Lemma row_or_len : forall a b, length (row_or a b) = length a.
Proof. induction a as [|x a IH]; intros [|y b]; simpl; auto. Qed.

Lemma nth_row_or : forall a b j, length a = length b -> nth j (row_or a b) false = nth j a false || nth j b false.
Proof.
  induction a as [|x a IH]; intros [|y b] [|j] H; simpl in *; try lia; auto.
Qed.

Lemma tc_step_spec : forall n m k, square n m -> k < n ->
  square n (tc_step m k) /\
  forall i j, bit (tc_step m k) i j = bit m i j || (bit m i k && bit m k j).
Proof.
  intros n m k [HL Hr] Hk. unfold tc_step.
  destruct (nth_error m k) as [rk|] eqn:Ek; [|apply nth_error_None in Ek; lia].
  pose proof (Hr rk (nth_error_In _ _ Ek)) as Hlk.
  split.
  - split; [now rewrite map_length|]. intros row H. apply in_map_iff in H. destruct H as (x & <- & Hin).
    destruct (nth k x false); [rewrite row_or_len|]; auto.
  - intros i j. unfold bit. rewrite (nth_error_nth m k [] Ek).
    destruct (nth_error m i) as [row|] eqn:Ei.
    + rewrite (nth_error_nth _ _ _ Ei).
      assert (E2 : nth_error (map (fun row => if nth k row false then row_or row rk else row) m) i =
                   Some (if nth k row false then row_or row rk else row)) by (exact (map_nth_error _ _ _ Ei)).
      rewrite (nth_error_nth _ _ _ E2). destruct (nth k row false); simpl.
      * apply nth_row_or. rewrite (Hr row (nth_error_In _ _ Ei)). auto.
      * now rewrite orb_false_r.
    + apply nth_error_None in Ei. rewrite (nth_overflow m) by auto. rewrite (nth_overflow (map _ m)) by (rewrite map_length; auto).
      now destruct j, k.
Qed.

Lemma tc_fold : forall n m, square n m -> forall k, k <= n ->
  let b := fold_left tc_step (seq 0 k) m in
  square n b /\
  (forall i j, bit m i j = true -> bit b i j = true) /\
  (forall i j, bit b i j = true -> clos_trans nat (fun i j => bit m i j = true) i j) /\
  (forall x i j, x < k -> bit b i x = true -> bit b x j = true -> bit b i j = true).
Proof.
  intros n m Hm. induction k as [|k IH]; intros Hk.
  - simpl. split; [auto|]. split; [auto|]. split; [intros; now apply t_step|]. intros; lia.
  - destruct IH as (Hs & Hinc & Hsnd & Htr); [lia|].
    rewrite seq_S, fold_left_app. cbn [fold_left plus].
    set (b := fold_left tc_step (seq 0 k) m) in *.
    destruct (tc_step_spec n b k Hs) as [Hs' Hb]; [lia|]. cbv zeta.
    split; [auto|]. split; [|split].
    + intros i j H. rewrite Hb, (Hinc _ _ H). reflexivity.
    + intros i j H. rewrite Hb in H. apply orb_true_iff in H. destruct H as [H|H]; [auto|].
      apply andb_true_iff in H. destruct H. eapply t_trans; eauto.
    + intros x i j Hx H1 H2. rewrite Hb in H1, H2 |- *.
      apply orb_true_iff in H1. apply orb_true_iff in H2. apply orb_true_iff. rewrite andb_true_iff in *.
      destruct (Nat.eq_dec x k) as [->|Nx].
      * right. split; [destruct H1 as [|[]]|destruct H2 as [|[]]]; auto.
      * assert (x < k) by lia.
        destruct H1 as [H1|[H1 H1']], H2 as [H2|[H2 H2']]; eauto.
Qed.

Lemma transitive_closure_spec : forall n m, square n m ->
  square n (transitive_closure m) /\
  forall i j, bit (transitive_closure m) i j = true <-> clos_trans nat (fun i j => bit m i j = true) i j.
Proof.
  intros n m Hm. destruct (tc_fold n m Hm n) as (Hs & Hinc & Hsnd & Htr); [auto|].
  unfold transitive_closure. rewrite (proj1 Hm). split; [auto|]. intros i j. split; [auto|].
  intro H. induction H as [x y H|x y z _ IH1 _ IH2]; [auto|]. eapply Htr; eauto.
  apply (bit_range _ _ _ _ Hs IH1).
Qed.

Lemma refl_rows_spec : forall m i0, (forall row, In row m -> i0 + length m <= length row) ->
  length (refl_rows i0 m) = length m /\
  (forall n, (forall row, In row m -> length row = n) -> forall row, In row (refl_rows i0 m) -> length row = n) /\
  forall i j, bit (refl_rows i0 m) i j = bit m i j || ((i0 + i =? j) && (i <? length m)).
Proof.
  induction m as [|row m IH]; intros i0 H; simpl.
  - split; [auto|]. split; [intros n _ row []|]. intros [|i] j; unfold bit; simpl; rewrite andb_false_r; now destruct j.
  - destruct (IH (S i0)) as (A & B & C).
    { intros r Hr. specialize (H r (or_intror Hr)). simpl in H. lia. }
    split; [now rewrite A|]. split.
    + intros n Hn r [<-|Hr]; [rewrite set_nth_length; auto|]. eapply B; eauto.
    + specialize (H row (or_introl eq_refl)). simpl in H. intros [|i] j.
      * unfold bit. simpl. rewrite nth_set_nth by lia. rewrite Nat.add_0_r. rewrite andb_true_r.
        destruct (i0 =? j); [now rewrite orb_true_r|now rewrite orb_false_r].
      * change (bit (set_nth row i0 true :: refl_rows (S i0) m) (S i) j) with (bit (refl_rows (S i0) m) i j).
        change (bit (row :: m) (S i) j) with (bit m i j). rewrite C.
        replace (i0 + S i) with (S i0 + i) by lia. reflexivity.
Qed.

Lemma reflexive_closure_spec : forall n m, square n m ->
  square n (reflexive_closure m) /\
  forall i j, bit (reflexive_closure m) i j = bit m i j || ((i =? j) && (i <? n)).
Proof.
  intros n m [HL Hr]. unfold reflexive_closure.
  destruct (refl_rows_spec m 0) as (A & B & C).
  { intros row H. specialize (Hr row H). unfold bitrow in *. lia. }
  split; [split; [now rewrite A|eauto]|]. intros i j. rewrite C. cbn [plus]. unfold bitmatrix, bitrow in *. now rewrite HL.
Qed.

Lemma square_idx : forall n m i, square n m -> i < n -> exists row, idx m i = Ret row /\ length row = n /\
  nth_error m i = Some row /\ forall j, nth_error row j = Some true <-> bit m i j = true.
Proof.
  intros n m i Hs Hi. destruct (idx_lt _ m i) as (row & E & E2); [destruct Hs; lia|].
  exists row. split; [auto|]. split; [apply Hs; eapply nth_error_In; eauto|]. split; [auto|].
  intros j. eapply bit_row; eauto.
Qed.

(** ** Climbing *)
Section Climb.
  Variable R : list prule.
  Variables nsyms nall : nat.
  Hypothesis wf : wf_rules R nsyms nall.

  Lemma rhs0_wf : forall r, In r R -> exists s, nth_error (p_rhs r) 0 = Some s /\ rhs0 r = Ret s /\ rhs0d r = s /\ s < nall.
  Proof.
    intros r Hin. unfold rhs0, rhs0d.
    destruct (rhs_cases R nsyms nall wf r Hin) as [(B & E & HB)|(B & C & E & HB & HC)]; rewrite E; simpl; eauto 6.
  Qed.

  Lemma climb_sound : forall by_rhs0, (forall r, In r by_rhs0 -> In r R) ->
    forall fuel lhs T, climb fuel nsyms by_rhs0 lhs = Ret T -> topr R nsyms lhs T.
  Proof.
    intros L HL. induction fuel as [|fuel IH]; intros lhs T H; simpl in H;
      destruct (Nat.leb_spec nsyms lhs) as [Hg|Hl]; try discriminate;
      try (injection H as <-; now apply top_here).
    destruct (binary_search_by (fun r => Nat.compare (rhs0d r) lhs) L) as [i|i] eqn:Eb; [|discriminate].
    apply bind_Ret in H. destruct H as (r & Hr & H). apply idx_Ret in Hr.
    assert (E : Nat.compare (rhs0d r) lhs = Eq).
    { unfold binary_search_by in Eb. set (b := bs_loop _ _ _ _ _) in Eb.
      destruct (nth_error L b) as [x|] eqn:En; [|discriminate].
      destruct (Nat.compare (rhs0d x) lhs) eqn:Ec; try discriminate. injection Eb as <-. congruence. }
    apply Nat.compare_eq in E. pose proof (HL r (nth_error_In _ _ Hr)) as Hin.
    destruct (rhs0_wf r Hin) as (s & E0 & _ & Ed & _).
    apply top_up with (r := r); auto. rewrite E0, <- E, Ed. reflexivity.
  Qed.

  (** the rules sorted by first symbol *)
  Lemma by_rhs0_in : forall (R' : list prule) r,
    In r (sort_by (fun a b => rhs0d a <=? rhs0d b) R') <-> In r R'.
  Proof.
    intros R' r. pose proof (sort_by_perm _ (fun a b => rhs0d a <=? rhs0d b) R') as HP. split; intro H.
    - eapply Permutation.Permutation_in; [apply Permutation.Permutation_sym, HP|auto].
    - eapply Permutation.Permutation_in; eauto.
  Qed.

  Lemma by_rhs0_mono : forall (R' : list prule) s,
    mono (fun r => Nat.compare (rhs0d r) s) (sort_by (fun a b => rhs0d a <=? rhs0d b) R').
  Proof.
    intros R' s. pose proof (sort_by_sorted _ (fun a b => rhs0d a <=? rhs0d b)) as HS.
    assert (X : Sorted.StronglySorted (fun a b => (rhs0d a <=? rhs0d b) = true) (sort_by (fun a b => rhs0d a <=? rhs0d b) R')).
    { apply HS.
      - intros a b. destruct (Nat.leb_spec (rhs0d a) (rhs0d b)); [auto|right]. apply Nat.leb_le. lia.
      - intros a b c H1 H2. apply Nat.leb_le in H1. apply Nat.leb_le in H2. apply Nat.leb_le. lia. }
    intros i j a b Hij Ha Hb.
    assert (Hle : rhs0d a <= rhs0d b).
    { destruct (Nat.eq_dec i j) as [->|Nij]; [rewrite Ha in Hb; injection Hb as <-; auto|].
      apply Nat.leb_le. apply (StronglySorted_nth _ _ _ i j a b X); auto. lia. }
    split; intro H.
    - apply Nat.compare_gt_iff in H. apply Nat.compare_gt_iff. lia.
    - apply Nat.compare_eq in H. intro Y. apply Nat.compare_lt_iff in Y. lia.
  Qed.

  Lemma climb_total : exists fuel0, forall fuel lhs, fuel0 <= fuel -> lhs < nall ->
    exists T, climb fuel nsyms (sort_by (fun a b => rhs0d a <=? rhs0d b) R) lhs = Ret T.
  Proof.
    destruct (wf_gen_chain _ _ _ wf) as [rank Hrank].
    assert (X : forall n fuel lhs, n <= fuel -> lhs < nall -> (nsyms <= lhs -> rank lhs < n) ->
      exists T, climb fuel nsyms (sort_by (fun a b => rhs0d a <=? rhs0d b) R) lhs = Ret T).
    { induction n as [|n IH]; intros fuel lhs Hf Hl Hn.
      - destruct fuel; simpl; (destruct (Nat.leb_spec nsyms lhs) as [Hg|]; [specialize (Hn Hg); lia|eauto]).
      - destruct fuel as [|fuel]; [lia|]. simpl.
        destruct (Nat.leb_spec nsyms lhs) as [Hg|]; [|eauto].
        destruct (wf_gen_used _ _ _ wf lhs Hg Hl) as (r & Hin & H0).
        assert (Hin' := Hin). apply by_rhs0_in in Hin'. apply In_nth_error in Hin'. destruct Hin' as [k Hk].
        destruct (rhs0_wf r Hin) as (s & E0 & _ & Ed & _). assert (s = lhs) by congruence. subst s.
        destruct (binary_search_found _ _ _ k r (by_rhs0_mono R lhs) Hk) as (p & b & Eb & Hb & Hc).
        { rewrite H. apply Nat.compare_refl. }
        rewrite Eb. rewrite (idx_some _ _ _ _ Hb). cbn [bind].
        apply Nat.compare_eq in Hc. pose proof (nth_error_In _ _ Hb) as Hbin. apply (by_rhs0_in R b) in Hbin.
        destruct (rhs0_wf b Hbin) as (s & E1 & _ & Ed1 & _). assert (s = lhs) by congruence. subst s.
        apply IH; [lia| |].
        + now apply (wf_lhs_range _ _ _ wf).
        + intros Hg2. rewrite Hc in E1. specialize (Hrank b lhs Hbin E1 Hg Hg2). specialize (Hn Hg). lia. }
    (* rank bound over all symbols *)
    assert (Y : exists n, forall s, s < nall -> rank s < n).
    { clear -nall. induction nall as [|m [n IH]]; [exists 0; lia|].
      exists (S (n + rank m)). intros s Hs. destruct (Nat.eq_dec s m) as [->|]; [lia|].
      assert (rank s < n) by (apply IH; lia). lia. }
    destruct Y as [n Hn]. exists n. intros fuel lhs Hf Hl. apply (X n); auto.
  Qed.
End Climb.

(** ** Prediction matrix *)
Section Build.
  Variable R : list prule.
  Variables nsyms nall : nat.
  Hypothesis wf : wf_rules R nsyms nall.
  Notation by_rhs0 := (sort_by (fun a b => rhs0d a <=? rhs0d b) R).

  Lemma by_in : forall r, In r by_rhs0 -> In r R.
  Proof. intros r. apply by_rhs0_in. Qed.

  Lemma prediction_fold : forall fuel m,
    foldM (prediction_rule fuel nsyms by_rhs0) R (bm_new nsyms nsyms) = Ret m ->
    square nsyms m /\ forall A B, bit m A B = true <-> lc R nsyms A B.
  Proof.
    intros fuel m H.
    enough (X : square nsyms m /\ forall A B, bit m A B = true <->
      exists r, In r R /\ nth_error (p_rhs r) 0 = Some B /\ B < nsyms /\ topr R nsyms (p_lhs r) A) by exact X.
    apply (foldM_inv _ _ _ (fun done m => square nsyms m /\ forall A B, bit m A B = true <->
      exists r, In r done /\ nth_error (p_rhs r) 0 = Some B /\ B < nsyms /\ topr R nsyms (p_lhs r) A) _ _ _ H).
    - split; [apply square_new|]. intros A B. rewrite bit_new. split; [discriminate|]. intros (r & [] & _).
    - intros done r rest x y El [Hs Hb] Hy.
      assert (Hin : In r R) by (rewrite El; apply in_or_app; simpl; auto).
      unfold prediction_rule in Hy. destruct (rhs0_wf R nsyms nall wf r Hin) as (s & E0 & E1 & _ & _).
      rewrite E1 in Hy. cbn [bind] in Hy.
      destruct (Nat.ltb_spec s nsyms) as [Hl|Hg].
      + apply bind_Ret in Hy. destruct Hy as (T & HT & Hy). apply (climb_sound R nsyms nall wf _ by_in) in HT.
        destruct (bm_set_spec nsyms _ _ _ _ Hs Hy) as (Hs' & _ & _ & Hb'). split; [auto|].
        intros A B. rewrite Hb', orb_true_iff, Hb, andb_true_iff, !Nat.eqb_eq. split.
        * intros [(r' & Hr' & X)|[-> ->]].
          -- exists r'. split; [apply in_or_app; auto|auto].
          -- exists r. split; [apply in_or_app; simpl; auto|auto].
        * intros (r' & Hr' & H0 & HB & Ht). apply in_app_or in Hr'. destruct Hr' as [Hr'|[<-|[]]]; [left; eauto|].
          right. split; [|congruence]. eapply (topr_fun R nsyms nall wf); eauto.
      + injection Hy as <-. split; [auto|]. intros A B. rewrite Hb. split; intros (r' & Hr' & H0 & HB & Ht).
        * exists r'. split; [apply in_or_app; auto|auto].
        * apply in_app_or in Hr'. destruct Hr' as [Hr'|[<-|[]]]; [eauto|].
          assert (s = B) by congruence. lia.
  Qed.

  Lemma clos_trans_congr : forall (P Q : nat -> nat -> Prop), (forall i j, P i j <-> Q i j) ->
    forall i j, clos_trans nat P i j -> clos_trans nat Q i j.
  Proof.
    intros P Q H i j X. induction X as [x y X|x y z _ IH1 _ IH2]; [apply t_step; now apply H|eapply t_trans; eauto].
  Qed.

  Lemma prediction_matrix_spec : forall fuel c m, c_rules c = R ->
    populate_prediction_matrix fuel nsyms c by_rhs0 = Ret m ->
    square nsyms m /\ forall A B, A < nsyms -> (bit m A B = true <-> B < nsyms /\ pred R nsyms A B).
  Proof.
    intros fuel c m Ec H. unfold populate_prediction_matrix in H. rewrite Ec in H.
    apply bind_Ret in H. destruct H as (m0 & H0 & H). injection H as <-.
    destruct (prediction_fold fuel m0 H0) as [Hs Hb].
    destruct (transitive_closure_spec _ _ Hs) as [Hs1 Hb1].
    destruct (reflexive_closure_spec _ _ Hs1) as [Hs2 Hb2]. split; [auto|].
    intros A B HA. rewrite Hb2, orb_true_iff, Hb1, andb_true_iff, Nat.eqb_eq, Nat.ltb_lt. split.
    - intros [X|[-> X]].
      + split.
        * destruct (bit_range _ _ A B Hs1) as [_ Y]; [now apply Hb1|auto].
        * apply (clos_trans_congr _ _ Hb) in X. clear -X.
          induction X as [x y X|x y z _ IH1 _ IH2]; [now apply rt_step|eapply rt_trans; eauto].
      + split; [auto|apply rt_refl].
    - intros [HB X]. apply clos_rt_rt1n in X. destruct X as [|y z Hxy X].
      + right. auto.
      + left. apply (clos_trans_congr (lc R nsyms) _ (fun i j => iff_sym (Hb i j))).
        clear -Hxy X. revert A Hxy. induction X as [|y y' z H _ IH]; intros A Hxy; [now apply t_step|].
        eapply t_trans; [apply t_step; exact Hxy|]. now apply IH.
  Qed.

  (** ** Completion tables *)
  Lemma Forall2_nth_l : forall A B (P : A -> B -> Prop) l l' i a, Forall2 P l l' ->
    nth_error l i = Some a -> exists b, nth_error l' i = Some b /\ P a b.
  Proof.
    intros A B P l l' i a H. revert i. induction H; intros [|i] Hi; simpl in *; try discriminate; eauto.
    injection Hi as <-. eauto.
  Qed.
  Lemma Forall2_nth_r : forall A B (P : A -> B -> Prop) l l' i b, Forall2 P l l' ->
    nth_error l' i = Some b -> exists a, nth_error l i = Some a /\ P a b.
  Proof.
    intros A B P l l' i b H. revert i. induction H; intros [|i] Hi; simpl in *; try discriminate; eauto.
    injection Hi as <-. eauto.
  Qed.

  Lemma Forall2_len : forall A B (P : A -> B -> Prop) l l', Forall2 P l l' -> length l = length l'.
  Proof. induction 1; simpl; auto. Qed.

  Lemma combine_seq_nth : forall A (l : list A) k i, nth_error (combine l (seq k (length l))) i =
    match nth_error l i with Some a => Some (a, k + i) | None => None end.
  Proof.
    induction l as [|a l IH]; intros k [|i]; simpl; auto.
    - now rewrite Nat.add_0_r.
    - rewrite IH. replace (S k + i) with (k + S i) by lia. reflexivity.
  Qed.

  Definition transitions_ok (all : list (sym * ptrans)) : Prop :=
    NoDup (map (fun x => pt_dot (snd x)) all) /\
    forall s t, In (s, t) all <-> exists r, nth_error R (pt_dot t) = Some r /\
      nth_error (p_rhs r) 0 = Some s /\ pt_unary t = is_null (rhs1 r) /\ topr R nsyms (p_lhs r) (pt_symbol t).

  Lemma all_transitions : forall fuel all,
    mapM (transition fuel nsyms by_rhs0) (combine R (seq 0 (length R))) = Ret all ->
    transitions_ok all.
  Proof.
    intros fuel all H. apply mapM_inv in H.
    assert (X : forall d r x, nth_error R d = Some r ->
      transition fuel nsyms by_rhs0 (r, d) = Ret x ->
      pt_dot (snd x) = d /\ nth_error (p_rhs r) 0 = Some (fst x) /\ pt_unary (snd x) = is_null (rhs1 r) /\
      topr R nsyms (p_lhs r) (pt_symbol (snd x))).
    { intros d r x Hd Hx. pose proof (nth_error_In _ _ Hd) as Hin.
      destruct (rhs0_wf R nsyms nall wf r Hin) as (s & E0 & E1 & _ & _).
      unfold transition in Hx. rewrite E1 in Hx. cbn [bind] in Hx.
      apply bind_Ret in Hx. destruct Hx as (T & HT & Hx). injection Hx as <-. cbn.
      apply (climb_sound R nsyms nall wf _ by_in) in HT. auto. }
    split.
    - assert (E : map (fun x => pt_dot (snd x)) all = seq 0 (length R)).
      { apply nth_ext with (d := 0) (d' := 0).
        - rewrite map_length, seq_length. apply Forall2_len in H. rewrite combine_length, seq_length in H. lia.
        - intros n Hn. rewrite map_length in Hn. 
          destruct (nth_error all n) as [x|] eqn:Ex; [|apply nth_error_None in Ex; lia].
          destruct (Forall2_nth_r _ _ _ _ _ _ _ H Ex) as ([r d] & Hrd & Ht).
          rewrite combine_seq_nth in Hrd. destruct (nth_error R n) as [r'|] eqn:Er; [|discriminate].
          injection Hrd as -> <-. destruct (X _ _ _ Er Ht) as (Ed & _).
          rewrite seq_nth by (apply nth_error_Some; congruence).
          erewrite (nth_error_nth (map _ all)); [|apply map_nth_error; exact Ex]. auto. }
      rewrite E. apply seq_NoDup.
    - intros s t. split.
      + intros Hin. apply In_nth_error in Hin. destruct Hin as [n Hn].
        destruct (Forall2_nth_r _ _ _ _ _ _ _ H Hn) as ([r d] & Hrd & Ht).
        rewrite combine_seq_nth in Hrd. destruct (nth_error R n) as [r'|] eqn:Er; [|discriminate].
        injection Hrd as -> <-. destruct (X _ _ _ Er Ht) as (Ed & E0 & Eu & Htop). cbn in *.
        exists r. rewrite Ed. auto.
      + intros (r & Hr & E0 & Eu & Htop).
        assert (Hn : nth_error (combine R (seq 0 (length R))) (pt_dot t) = Some (r, pt_dot t)).
        { rewrite combine_seq_nth, Hr. reflexivity. }
        destruct (Forall2_nth_l _ _ _ _ _ _ _ H Hn) as ([s' t'] & Hx & Ht).
        destruct (X _ _ _ Hr Ht) as (Ed & E0' & Eu' & Htop'). cbn in *.
        apply nth_error_In in Hx.
        assert (s' = s) by congruence.
        pose proof (topr_fun R nsyms nall wf _ _ Htop _ Htop').
        destruct t, t'; cbn in *. subst. auto.
  Qed.

  Definition pick_unary (b : bool) (o : option ptrans * option ptrans) := if b then snd o else fst o.

  Lemma nth_error_set_nth : forall A (l : list A) i v j, i < length l ->
    nth_error (set_nth l i v) j = if i =? j then Some v else nth_error l j.
  Proof.
    induction l as [|a l IH]; intros [|i] v [|j] H; simpl in *; auto; try lia. apply IH. lia.
  Qed.

  Lemma place_fold : forall gens L comps gcomps,
    foldM (place_transition nsyms) L (repeat [] nsyms, repeat (None, None) gens) = Ret (comps, gcomps) ->
    length comps = nsyms /\ length gcomps = gens /\
    (forall s, s < nsyms -> nth_error comps s = Some (map snd (filter (fun x => fst x =? s) L))) /\
    (forall k o, nth_error gcomps k = Some o -> forall u,
       (forall t, pick_unary u o = Some t -> In (nsyms + k, t) L /\ pt_unary t = u) /\
       (pick_unary u o = None -> forall t, In (nsyms + k, t) L -> pt_unary t <> u)).
  Proof.
    intros gens L comps gcomps H.
    apply (foldM_inv _ _ _ (fun done cg => 
      length (fst cg) = nsyms /\ length (snd cg) = gens /\
      (forall s, s < nsyms -> nth_error (fst cg) s = Some (map snd (filter (fun x => fst x =? s) done))) /\
      (forall k o, nth_error (snd cg) k = Some o -> forall u,
         (forall t, pick_unary u o = Some t -> In (nsyms + k, t) done /\ pt_unary t = u) /\
         (pick_unary u o = None -> forall t, In (nsyms + k, t) done -> pt_unary t <> u))) _ _ _ H).
    - cbn. rewrite !repeat_length. split; [auto|]. split; [auto|]. split.
      + intros s Hs. now rewrite nth_error_repeat.
      + intros k o Ho u. apply nth_error_In, repeat_spec in Ho. subst o. destruct u; cbn; split; try discriminate; auto.
    - intros done [s t] rest [c gc] [c' gc'] El (H1 & H2 & H3 & H4) Hy. cbn [fst snd] in *.
      unfold place_transition in Hy. destruct (Nat.leb_spec nsyms s) as [Hg|Hl].
      + apply bind_Ret in Hy. destruct Hy as (old & Hold & Hy). apply bind_Ret in Hy. destruct Hy as (gc2 & Hg2 & Hy).
        injection Hy as <- <-. apply idx_Ret in Hold. apply upd_inv in Hg2. destruct Hg2 as [Hlt ->].
        split; [auto|]. split; [now rewrite set_nth_length|]. split.
        * intros s' Hs'. rewrite filter_app, map_app. cbn. destruct (Nat.eqb_spec s s'); [lia|].
          cbn. rewrite app_nil_r. auto.
        * intros k o Ho u. rewrite nth_error_set_nth in Ho by auto.
          destruct (Nat.eqb_spec (s - nsyms) k) as [<-|Nk].
          -- replace (nsyms + (s - nsyms)) with s by lia.
             injection Ho as <-. destruct (H4 _ _ Hold u) as [A B].
             replace (nsyms + (s - nsyms)) with s in A, B by lia.
             destruct (Bool.bool_dec (pt_unary t) u) as [Eu|Nu].
             ++ subst u. assert (Ep : pick_unary (pt_unary t) (if pt_unary t then (fst old, Some t) else (Some t, snd old)) = Some t)
                  by (destruct (pt_unary t); reflexivity). rewrite Ep. split; [|discriminate].
                intros t' Et. injection Et as <-. split; [apply in_or_app; simpl; auto|auto].
             ++ assert (Ep : pick_unary u (if pt_unary t then (fst old, Some t) else (Some t, snd old)) = pick_unary u old)
                  by (destruct (pt_unary t), u; try congruence; reflexivity). rewrite Ep. split.
                ** intros t' Et. destruct (A t' Et). split; [apply in_or_app; auto|auto].
                ** intros En t' Hin. apply in_app_or in Hin. destruct Hin as [Hin|[Eq|[]]]; [auto|congruence].
          -- destruct (H4 _ _ Ho u) as [A B]. split.
             ++ intros t' Et. destruct (A t' Et). split; [apply in_or_app; auto|auto].
             ++ intros En t' Hin. apply in_app_or in Hin. destruct Hin as [Hin|[Eq|[]]]; [auto|].
                injection Eq as Es _. exfalso. unfold sym in *. lia.
      + apply bind_Ret in Hy. destruct Hy as (old & Hold & Hy). apply bind_Ret in Hy. destruct Hy as (c2 & Hc2 & Hy).
        injection Hy as <- <-. apply idx_Ret in Hold. apply upd_inv in Hc2. destruct Hc2 as [Hlt ->].
        split; [now rewrite set_nth_length|]. split; [auto|]. split.
        * intros s' Hs'. rewrite nth_error_set_nth by auto. rewrite filter_app, map_app. cbn.
          destruct (Nat.eqb_spec s s') as [->|N].
          -- rewrite (H3 s') in Hold by auto. injection Hold as <-. reflexivity.
          -- cbn. rewrite app_nil_r. auto.
        * intros k o Ho u. destruct (H4 _ _ Ho u) as [A B]. split.
          -- intros t' Et. destruct (A t' Et). split; [apply in_or_app; auto|auto].
          -- intros En t' Hin. apply in_app_or in Hin. destruct Hin as [Hin|[Eq|[]]]; [auto|].
             injection Eq as Es _. exfalso. unfold sym in *. lia.
  Qed.

  Lemma NoDup_filter_map : forall A B (f : A -> B) (p : A -> bool) l, NoDup (map f l) -> NoDup (map f (filter p l)).
  Proof.
    induction l as [|a l IH]; simpl; intros H; [constructor|]. inversion H; subst.
    destruct (p a); simpl; auto. constructor; auto. intro X. apply in_map_iff in X. destruct X as (b & E & Hb).
    apply filter_In in Hb. apply H2. rewrite <- E. apply in_map. tauto.
  Qed.

  Lemma trans_ok_filter : forall all s u, transitions_ok all ->
    trans_ok R nsyms s u (map snd (filter (fun x => fst x =? s) (filter (fun x => Bool.eqb (pt_unary (snd x)) u) all))).
  Proof.
    intros all s u [HN Hall]. split.
    - rewrite map_map. apply NoDup_filter_map. now apply NoDup_filter_map.
    - intros t. rewrite in_map_iff. split.
      + intros ([s' t'] & E & Hin). cbn in E. subst t'. apply filter_In in Hin. destruct Hin as [Hin E].
        apply filter_In in Hin. destruct Hin as [Hin Eu]. cbn in *. apply Nat.eqb_eq in E. subst s'.
        apply eqb_prop in Eu. split; [auto|]. apply Hall in Hin. destruct Hin as (r & Hr & E0 & Eu' & Ht).
        exists r. rewrite <- Eu, Eu'. auto.
      + intros (Eu & r & Hr & E0 & Eu' & Ht). exists (s, t). split; [auto|].
        apply filter_In. split; [|cbn; apply Nat.eqb_refl]. apply filter_In. cbn. rewrite Eu, eqb_reflx. split; [|auto].
        apply Hall. exists r. rewrite Eu. auto.
  Qed.

  Lemma completion_table_spec : forall fuel gens c comps gcomps, c_rules c = R -> gens = nall - nsyms ->
    compute_completion_table fuel nsyms gens c by_rhs0 = Ret (comps, gcomps) ->
    length comps = nsyms /\
    (forall s, s < nsyms -> exists lb lu, nth_error comps s = Some (lb ++ lu) /\
       trans_ok R nsyms s false lb /\ trans_ok R nsyms s true lu) /\
    (forall s, nsyms <= s -> s < nall -> exists bo uo, nth_error gcomps (s - nsyms) = Some (bo, uo) /\
       trans_ok R nsyms s false (opt_list bo) /\ trans_ok R nsyms s true (opt_list uo)).
  Proof.
    intros fuel gens c comps gcomps Ec Eg H. unfold compute_completion_table in H. rewrite Ec in H.
    apply bind_Ret in H. destruct H as (all & Hall & H). apply all_transitions in Hall.
    destruct (place_fold _ _ _ _ H) as (L1 & L2 & Hc & Hg). split; [auto|]. clear H.
    assert (F1 : filter (fun x : sym * ptrans => pt_unary (snd x)) all = filter (fun x => Bool.eqb (pt_unary (snd x)) true) all).
    { apply filter_ext. intros x. now destruct (pt_unary (snd x)). }
    assert (F2 : filter (fun x : sym * ptrans => negb (pt_unary (snd x))) all = filter (fun x => Bool.eqb (pt_unary (snd x)) false) all).
    { apply filter_ext. intros x. now destruct (pt_unary (snd x)). }
    rewrite F1, F2 in *. split.
    - intros s Hs. eexists; eexists. split; [|split].
      + rewrite (Hc s Hs). rewrite filter_app, map_app. reflexivity.
      + now apply trans_ok_filter.
      + now apply trans_ok_filter.
    - intros s Hs Hn. destruct (nth_error gcomps (s - nsyms)) as [[bo uo]|] eqn:Eo.
      2:{ apply nth_error_None in Eo. lia. }
      exists bo, uo. split; [auto|].
      assert (X : forall u, trans_ok R nsyms s u (opt_list (pick_unary u (bo, uo)))).
      { intros u. destruct (Hg _ _ Eo u) as [A B]. replace (nsyms + (s - nsyms)) with s in A, B by lia.
        assert (Hin : forall t, In (s, t) (filter (fun x : sym * ptrans => Bool.eqb (pt_unary (snd x)) false) all ++
             filter (fun x : sym * ptrans => Bool.eqb (pt_unary (snd x)) true) all) <-> In (s, t) all).
        { intros t. rewrite in_app_iff, !filter_In. cbn. destruct (pt_unary t); cbn; tauto. }
        split.
        - destruct (pick_unary u (bo, uo)); cbn; repeat constructor; auto.
        - intros t. split.
          + intros Ht. destruct (pick_unary u (bo, uo)) as [t'|]; [|destruct Ht].
            destruct Ht as [<-|[]]. destruct (A t' eq_refl) as [Hi Eu]. apply Hin in Hi.
            split; [auto|]. apply (proj2 Hall) in Hi. destruct Hi as (r & Hr & E0 & Eu' & Ht).
            exists r. rewrite <- Eu, Eu'. auto.
          + intros (Eu & r & Hr & E0 & Eu' & Ht).
            assert (Hi : In (s, t) all). { apply (proj2 Hall). exists r. rewrite Eu. auto. }
            destruct (pick_unary u (bo, uo)) as [t'|]; cbn.
            * left. destruct (A t' eq_refl) as [Hi' Eu2]. apply Hin in Hi'. apply (proj2 Hall) in Hi'.
              destruct Hi' as (r' & Hr' & E0' & Eu'' & Ht').
              destruct (wf_gen_unique _ _ _ wf _ _ _ _ s Hs Hr Hr' E0 E0') as [El Ed].
              rewrite El in Ht. pose proof (topr_fun R nsyms nall wf _ _ Ht _ Ht') as ET.
              assert (Elen : length (p_rhs r) = length (p_rhs r')).
              { assert (Eq : is_null (rhs1 r) = is_null (rhs1 r')) by congruence. unfold rhs1 in Eq.
                destruct (wf_arity _ _ _ wf r (nth_error_In _ _ Hr)), (wf_arity _ _ _ wf r' (nth_error_In _ _ Hr'));
                  destruct (p_rhs r) as [|? [|? [|]]], (p_rhs r') as [|? [|? [|]]]; cbn in *; try lia; discriminate. }
              specialize (Ed Elen). destruct t, t'; cbn in *. subst. congruence.
            * exfalso. apply (B eq_refl t); auto. now apply Hin. }
      split; [exact (X false)|exact (X true)].
  Qed.

  (** ** FIRST and FOLLOW rows *)
  Definition in_sets (sets : list (sym * list sym)) (A t : sym) : bool :=
    existsb (fun os => (fst os =? A) && existsb (Nat.eqb t) (snd os)) sets.

  Lemma fill_sets_spec : forall sets m0 m, square nsyms m0 -> fill_sets nsyms sets m0 = Ret m ->
    square nsyms m /\ forall A t, A < nsyms -> t < nsyms -> bit m A t = bit m0 A t || in_sets sets A t.
  Proof.
    intros sets m0 m Hs0 H.
    apply (foldM_inv _ _ _ (fun done m => square nsyms m /\
      forall A t, A < nsyms -> t < nsyms -> bit m A t = bit m0 A t || in_sets done A t) _ _ _ H).
    - split; [auto|]. intros. now rewrite orb_false_r.
    - intros done [o l] rest x y _ [Hs Hb] Hy. cbn [fst snd] in Hy.
      assert (X : square nsyms y /\ forall A t, A < nsyms -> t < nsyms ->
        bit y A t = bit x A t || ((o =? A) && existsb (Nat.eqb t) l)).
      { apply (foldM_inv _ _ _ (fun done m => square nsyms m /\ forall A t, A < nsyms -> t < nsyms ->
           bit m A t = bit x A t || ((o =? A) && existsb (Nat.eqb t) done)) _ _ _ Hy).
        - split; [auto|]. intros. rewrite andb_false_r, orb_false_r. auto.
        - intros done' a rest' z z' _ [Hz Hbz] Hz'.
          destruct ((o <? nsyms) && (a <? nsyms)) eqn:Eoa.
          + destruct (bm_set_spec nsyms _ _ _ _ Hz Hz') as (Hs' & _ & _ & Hb'). split; [auto|].
            intros A t HA Ht. rewrite Hb', Hbz by auto. rewrite existsb_app. cbn. rewrite orb_false_r.
            rewrite (Nat.eqb_sym A o). destruct (o =? A), (existsb (Nat.eqb t) done'), (t =? a), (bit x A t); auto.
          + injection Hz' as <-. split; [auto|]. intros A t HA Ht. rewrite Hbz by auto. rewrite existsb_app. cbn.
            rewrite orb_false_r. destruct (Nat.eqb_spec o A) as [->|]; [|auto].
            destruct (Nat.eqb_spec t a) as [->|]; [|now rewrite orb_false_r].
            apply Nat.ltb_lt in HA. apply Nat.ltb_lt in Ht. rewrite HA, Ht in Eoa. discriminate. }
      destruct X as [Hsy Hby]. split; [auto|]. intros A t HA Ht. rewrite Hby, Hb by auto.
      unfold in_sets. rewrite existsb_app. cbn. rewrite orb_false_r, orb_assoc. auto.
  Qed.

  Definition first_of (first : list (sym * list sym)) (A t : sym) : bool := (A =? t) || in_sets first A t.
  Definition follow_of (follow : list (sym * list sym)) (A t : sym) : bool := in_sets follow A t.

  Lemma nth_error_concat2 : forall A (rows : list (list A)) i a b, (forall r, In r rows -> length r = 2) ->
    nth_error rows i = Some [a; b] ->
    nth_error (concat rows) (i * 2) = Some a /\ nth_error (concat rows) (i * 2 + 1) = Some b.
  Proof.
    induction rows as [|r rows IH]; intros [|i] a b Hr H; cbn in H; try discriminate.
    - injection H as ->. cbn. auto.
    - assert (Hl : length r = 2) by (apply Hr; simpl; auto).
      destruct r as [|x [|y [|]]]; try discriminate. cbn [concat app].
      destruct (IH i a b) as [A1 A2]; [intros; apply Hr; simpl; auto|auto|].
      replace (S i * 2) with (S (S (i * 2))) by lia. cbn [nth_error plus]. auto.
  Qed.

  Lemma lr_sets_spec : forall first follow lr, populate_lr_sets nsyms first follow = Ret lr ->
    forall A, A < nsyms ->
      (exists row, idx lr (A * 2) = Ret row /\ forall t, t < nsyms -> nth_error row t = Some (first_of first A t)) /\
      (exists row, idx lr (A * 2 + 1) = Ret row /\ forall t, t < nsyms -> nth_error row t = Some (follow_of follow A t)).
  Proof.
    intros first follow lr H A HA. unfold populate_lr_sets in H.
    apply bind_Ret in H. destruct H as (fm & Hf & H). apply bind_Ret in H. destruct H as (wm & Hw & H).
    apply bind_Ret in H. destruct H as (rows & Hrows & H). injection H as <-.
    destruct (fill_sets_spec _ _ _ (square_new nsyms) Hf) as [Hsf Hbf].
    destruct (fill_sets_spec _ _ _ (square_new nsyms) Hw) as [Hsw Hbw].
    destruct (reflexive_closure_spec _ _ Hsf) as [Hsf' Hbf'].
    apply mapM_inv in Hrows.
    assert (HA' : nth_error (seq 0 nsyms) A = Some A).
    { rewrite (nth_error_nth' _ 0) by (rewrite seq_length; auto). rewrite seq_nth by auto. auto. }
    destruct (Forall2_nth_l _ _ _ _ _ _ _ Hrows HA') as (fw & Hfw & Efw).
    apply bind_Ret in Efw. destruct Efw as (f & Ef & Efw). apply bind_Ret in Efw. destruct Efw as (w & Ew & Efw).
    injection Efw as <-.
    destruct (nth_error_concat2 _ rows A f w) as [X Y]; [|auto|].
    { intros r Hr. apply In_nth_error in Hr. destruct Hr as [i Hi].
      destruct (Forall2_nth_r _ _ _ _ _ _ _ Hrows Hi) as (a & _ & Ea).
      apply bind_Ret in Ea. destruct Ea as (f' & _ & Ea). apply bind_Ret in Ea. destruct Ea as (w' & _ & Ea).
      injection Ea as <-. reflexivity. }
    assert (Z : forall m row t, square nsyms m -> idx m A = Ret row -> t < nsyms -> nth_error row t = Some (bit m A t)).
    { intros m row t Hs Hr Ht. destruct (square_idx _ _ _ Hs HA) as (row' & Hr' & Hl & Hn & _).
      assert (row' = row) by congruence. subst row'. unfold bit. rewrite (nth_error_nth _ _ _ Hn).
      apply nth_error_nth'. lia. }
    split.
    - exists f. split; [now apply idx_Ret|]. intros t Ht. rewrite (Z _ _ _ Hsf' Ef Ht), Hbf', Hbf, bit_new by auto.
      unfold first_of. cbn [orb]. apply Nat.ltb_lt in HA. rewrite HA, andb_true_r. f_equal. apply orb_comm.
    - exists w. split; [now apply idx_Ret|]. intros t Ht. rewrite (Z _ _ _ Hsw Ew Ht), Hbw, bit_new by auto. auto.
  Qed.
End Build.

(** ** All tables *)
Lemma from_processed_inv : forall fuel c maps nulling first follow g,
  from_processed_grammars fuel c maps nulling first follow = Ret g ->
  exists gens w dbe by_rhs0 comps,
    num_gensyms c = Ret gens /\ nth_error (c_wrapped c) 0 = Some w /\
    position (fun r => eqb_opt (rhs1 r) (Some (w_eof w))) (c_rules c) = Some dbe /\
    compute_rules_by_rhs0 c = Ret by_rhs0 /\
    g_start_sym g = w_root w /\ g_original_start_sym g = w_inner w /\
    g_sof_sym g = w_sof w /\ g_eof_sym g = w_eof w /\ g_dot_before_eof g = dbe /\
    g_syms g = c_num_syms c - gens /\ g_gensyms g = gens /\
    g_has_trivial_derivation g = match nulling with [] => false | _ => true end /\
    g_maps g = maps /\
    populate_prediction_matrix fuel (g_syms g) c by_rhs0 = Ret (g_prediction_matrix g) /\
    compute_completion_table fuel (g_syms g) gens c by_rhs0 = Ret (comps, g_gen_completions g) /\
    g_completions g = v_extend v_new comps /\
    populate_lr_sets (g_syms g) first follow = Ret (g_lr_sets g) /\
    g_col0 g = map (fun r => Some (p_lhs r)) (c_rules c) /\
    g_col1 g = map rhs1 (c_rules c) /\
    prediction_events (g_syms g + gens + 1) c = Ret (g_events0 g, g_tracing0 g) /\
    column_events 1 c = Ret (g_events1 g) /\ column_events 2 c = Ret (g_events2 g) /\
    column_tracing 1 c = Ret (g_tracing1 g) /\ column_tracing 2 c = Ret (g_tracing2 g) /\
    nulling_intermediate maps nulling = Ret (fi_nulling_intermediate (g_forest_info g)) /\
    fi_eval (g_forest_info g) = map p_origin (c_rules c) /\
    fi_nulling_eliminated (g_forest_info g) = map p_nullable (c_rules c) /\
    fi_sof (g_forest_info g) = w_sof w /\ fi_eof (g_forest_info g) = w_eof w /\
    fi_start (g_forest_info g) = w_inner w.
Proof.
  intros fuel c maps nulling first follow g H. unfold from_processed_grammars in H.
  apply bind_Ret in H. destruct H as (gens & Egens & H).
  apply bind_Ret in H. destruct H as (u & _ & H).
  apply bind_Ret in H. destruct H as (w & Ew & H). apply idx_Ret in Ew.
  apply bind_Ret in H. destruct H as (dbe & Edbe & H).
  apply bind_Ret in H. destruct H as (ev1 & Eev1 & H).
  apply bind_Ret in H. destruct H as (ev2 & Eev2 & H).
  apply bind_Ret in H. destruct H as (tr1 & Etr1 & H).
  apply bind_Ret in H. destruct H as (tr2 & Etr2 & H).
  apply bind_Ret in H. destruct H as (by0 & Eby & H).
  apply bind_Ret in H. destruct H as (pm & Epm & H).
  apply bind_Ret in H. destruct H as ([ev0 tr0] & Ep & H).
  apply bind_Ret in H. destruct H as ([comps gcomps] & Ecomp & H).
  apply bind_Ret in H. destruct H as (lr & Elr & H).
  apply bind_Ret in H. destruct H as (ni & Eni & H).
  injection H as <-. cbn.
  exists gens, w, dbe, by0, comps.
  assert (Edbe' : position (fun r => eqb_opt (rhs1 r) (Some (w_eof w))) (c_rules c) = Some dbe).
  { destruct (position _ _); [injection Edbe as ->; auto|discriminate]. }
  repeat (split; [assumption || reflexivity|]). reflexivity.
Qed.

Lemma by_rhs0_eq : forall c by0, compute_rules_by_rhs0 c = Ret by0 ->
  by0 = sort_by (fun a b => rhs0d a <=? rhs0d b) (c_rules c).
Proof.
  intros c by0 H. unfold compute_rules_by_rhs0 in H. apply bind_Ret in H. destruct H as (l & _ & H).
  now injection H as <-.
Qed.

Theorem tables_correct : forall fuel c maps nulling first follow g nsyms,
  wf_rules (c_rules c) nsyms (c_num_syms c) -> nsyms <= c_num_syms c ->
  num_gensyms c = Ret (c_num_syms c - nsyms) ->
  from_processed_grammars fuel c maps nulling first follow = Ret g ->
  tables_ok g (c_rules c) nsyms (c_num_syms c) (first_of first) (follow_of follow).
Proof.
  intros fuel c maps nulling first follow g nsyms wf Hle Hgen H.
  apply from_processed_inv in H.
  destruct H as (gens & w & dbe & by0 & comps & Egens & Ew & Edbe & Eby & _ & _ & _ & _ & _ & Esyms & _ & _ & _ &
                 Epm & Ecomp & Ec & Elr & Ec0 & Ec1 & _).
  rewrite Hgen in Egens. injection Egens as Egens. subst gens.
  replace (c_num_syms c - (c_num_syms c - nsyms)) with nsyms in Esyms by lia.
  rewrite Esyms in *. apply by_rhs0_eq in Eby. subst by0.
  destruct (prediction_matrix_spec _ _ _ wf _ _ _ eq_refl Epm) as [Hsq Hbit].
  destruct (completion_table_spec _ _ _ wf _ _ _ _ _ eq_refl eq_refl Ecomp) as (Hlc & Hcs & Hgs).
  pose proof (lr_sets_spec _ _ _ _ Elr) as Hlr.
  constructor; auto.
  - intros d r Hd. unfold get_lhs. rewrite Ec0. erewrite idx_some; [|apply map_nth_error; exact Hd]. reflexivity.
  - intros d r Hd. unfold get_rhs1. rewrite Ec1. erewrite idx_some; [|apply map_nth_error; exact Hd]. reflexivity.
  - intros A HA. unfold prediction_row. destruct (square_idx _ _ _ Hsq HA) as (row & Hr & Hl & _ & Hb).
    exists row. split; [auto|]. split; [auto|]. intros B. rewrite Hb. now apply Hbit.
  - intros s Hs. destruct (Hcs s Hs) as (lb & lu & Hn & X). exists lb, lu. split; [|auto].
    unfold completions. rewrite Ec. eapply rep_index; [|exact Hn].
    apply (rep_extend comps v_new []). apply rep_new.
  - intros s Hs Hn. destruct (Hgs s Hs Hn) as (bo & uo & Ho & X). exists bo, uo. split; [|auto].
    unfold gen_completion. rewrite Esyms. now apply idx_some.
  - intros A t HA Ht. unfold lhs_lr_set. destruct (Hlr A HA) as [_ (row & Hr & Hn)]. eauto.
  - intros d r t Hd Hr1 Hl Ht. unfold lookahead_set, rhs1_or_lhs, get_rhs1, get_lhs. rewrite Ec1, Ec0.
    erewrite idx_some; [|apply map_nth_error; exact Hd]. cbn [bind]. rewrite Hr1. 
    erewrite idx_some; [|apply map_nth_error; exact Hd]. cbn [bind unwrap is_null].
    destruct (Hlr _ Hl) as [_ (row & Hr & Hn)]. eauto.
  - intros d r C t Hd Hr1 Hl Ht. unfold lookahead_set, rhs1_or_lhs, get_rhs1. rewrite Ec1.
    erewrite idx_some; [|apply map_nth_error; exact Hd]. cbn [bind]. rewrite Hr1. cbn [bind is_null].
    destruct (Hlr _ Hl) as [(row & Hr & Hn) _]. rewrite Nat.add_0_r. eauto.
Qed.
