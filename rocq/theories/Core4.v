(** Core4: one step (begin, hint, scans, end) preserves the exactness of the chart. *)
From Coq Require Import List Arith Bool Lia Permutation Sorted.
From Verif Require Import Base BaseProofs Vec2d Vec2dProofs Item Heap HeapProofs Grammar BitMatrix
  DefaultGrammar Forest Recognizer Drive Spec Chart ChartFacts Tables Den Core1 Core2 Core3.
Import ListNotations.
Local Open Scope res_scope.

Lemma row_or_length : forall a b, length (row_or a b) = length a.
Proof. induction a; destruct b; simpl; auto. Qed.

Lemma row_or_nth : forall a b s, length a = length b ->
  (nth_error (row_or a b) s = Some true <-> nth_error a s = Some true \/ nth_error b s = Some true).
Proof.
  induction a as [|x a IH]; destruct b as [|y b]; simpl; intros s Hl; try discriminate.
  - destruct s; simpl; intuition discriminate.
  - destruct s as [|s]; simpl.
    + destruct x, y; simpl; intuition congruence.
    + apply IH. lia.
Qed.

Lemma list_max_opt_spec : forall l m, list_max_opt l = Some m -> In m l /\ forall x, In x l -> x <= m.
Proof.
  destruct l as [|x l]; intros m H; [discriminate|]. injection H as <-.
  assert (X : forall l x, (In (fold_left Nat.max l x) (x :: l)) /\ x <= fold_left Nat.max l x /\
                forall y, In y l -> y <= fold_left Nat.max l x).
  { clear. induction l as [|a l IH]; intros x; simpl; [repeat split; auto|]. intros y [].
    destruct (IH (Nat.max x a)) as (A & B & C). simpl in A. split; [|split].
    - destruct A as [A|A]; [|auto]. rewrite <- A. destruct (Nat.max_spec x a) as [[_ ->]|[_ ->]]; auto.
    - lia.
    - intros y [<-|Hy]; [lia|auto]. }
  destruct (X l x) as (A & B & C). split; [auto|]. intros y [<-|Hy]; auto.
Qed.

Section Core4.
  Variable P : perf.
  Variable g : dgrammar.
  Variable R : list prule.
  Variables nsyms nall : nat.
  Variables FIRST FOLLOW : sym -> sym -> bool.
  Variable root : sym.
  Hypothesis Hleo : LEO P = false.
  Hypothesis wf : wf_rules R nsyms nall.
  Hypothesis tok : tables_ok g R nsyms nall FIRST FOLLOW.
  Hypothesis Hacyc : unary_acyclic R.

  Notation la := (LOOKAHEAD P).
  Notation fitem := (item fnode).
  Notation state := (rstate (list (nat * fnode)) fnode).
  Notation pred := (pred R nsyms).
  Notation eComp := (eComp P R nsyms FIRST FOLLOW root).
  Notation eMed := (eMed P R nsyms FIRST FOLLOW root).
  Notation ePred := (ePred P R nsyms FIRST FOLLOW root).
  Notation exact := (exact P R nsyms FIRST FOLLOW root).
  Notation exact_set := (exact_set P R nsyms FIRST FOLLOW root).
  Notation exact_row := (exact_row P R nsyms FIRST FOLLOW root).
  Notation sound_med := (sound_med P R nsyms FIRST FOLLOW root).

  (** ** Sorting *)
  Lemma sort_medial_spec : forall (st : state) cs O, rep (r_medial st) cs O ->
    (forall it, In it O -> med_dot R it) ->
    exists st' O', sort_medial_items g st = Ret st' /\ rep (r_medial st') cs O' /\ Permutation O O' /\
      set_ok R O' /\ r_predicted st' = r_predicted st /\ r_hint st' = r_hint st /\
      r_complete st' = r_complete st /\ r_forest st' = r_forest st.
  Proof.
    intros st cs O Hrep Hd. unfold sort_medial_items. rewrite (rep_last _ _ _ Hrep). cbn [bind].
    assert (Ek : mapM (fun it : fitem => o <- get_rhs1 g (it_dot it);; r1 <- unwrap o;; Ret (r1, it)) O
                 = Ret (map (fun it => (r1 R it, it)) O)).
    { apply mapM_Ret. intros it Hit. destruct (Hd it Hit) as (r & B & C & Hr & Erhs).
      rewrite (t_rhs1 _ _ _ _ _ _ tok _ _ Hr). cbn [bind]. unfold r1, rhs1_of. rewrite Hr.
      unfold rhs1. rewrite Erhs. reflexivity. }
    rewrite Ek. cbn [bind].
    set (keyed := map (fun it => (r1 R it, it)) O).
    set (sorted := sort_by medial_key_leb keyed).
    assert (Psort : Permutation keyed sorted) by apply sort_by_perm.
    destruct (rep_set_last _ _ _ (map snd sorted) Hrep) as (m & Em & Rm). rewrite Em. cbn [bind].
    assert (PO : Permutation O (map snd sorted)).
    { rewrite <- Psort. unfold keyed. rewrite map_map. cbn. now rewrite map_id. }
    eexists _, (map snd sorted). split; [reflexivity|]. split; [exact Rm|]. split; [exact PO|].
    split; [|repeat split; auto].
    split.
    2:{ intros it Hit. apply Hd. eapply Permutation_in; [symmetry; eauto|auto]. }
    assert (Hs : StronglySorted (fun a b => medial_key_leb a b = true) sorted).
    { apply sort_by_sorted.
      - intros [ka a] [kb b]. unfold medial_key_leb. cbn.
        rewrite (Nat.compare_antisym kb ka), (Nat.compare_antisym (it_dot b) (it_dot a)).
        destruct (Nat.compare_spec kb ka); cbn; auto.
        destruct (Nat.compare_spec (it_dot b) (it_dot a)); cbn; auto.
        rewrite !Nat.leb_le. lia.
      - intros [ka a] [kb b] [kc c]. unfold medial_key_leb. cbn.
        destruct (Nat.compare_spec ka kb), (Nat.compare_spec kb kc), (Nat.compare_spec ka kc);
          intros; try lia; try discriminate; auto.
        destruct (Nat.compare_spec (it_dot a) (it_dot b)), (Nat.compare_spec (it_dot b) (it_dot c)),
          (Nat.compare_spec (it_dot a) (it_dot c)); try lia; try discriminate; auto.
        rewrite Nat.leb_le in *. lia. }
    assert (Hkey : forall x, In x sorted -> fst x = r1 R (snd x)).
    { intros x Hx. apply (Permutation_in _ (Permutation_sym Psort)) in Hx.
      unfold keyed in Hx. apply in_map_iff in Hx. destruct Hx as (it & <- & _). reflexivity. }
    clear - Hs Hkey. induction sorted as [|x l IH]; simpl; [constructor|].
    inversion Hs as [|? ? Hs' Hall]; subst. constructor.
    - apply IH; auto. intros; apply Hkey; simpl; auto.
    - rewrite Forall_forall in *. intros it Hit. apply in_map_iff in Hit. destruct Hit as (y & <- & Hy).
      specialize (Hall y Hy). pose proof (Hkey x (or_introl eq_refl)) as Kx.
      pose proof (Hkey y (or_intror Hy)) as Ky.
      destruct x as [kx x], y as [ky y]. unfold medial_key_leb in Hall. cbn in *. subst kx ky.
      unfold med_le.
      destruct (Nat.compare_spec (r1 R x) (r1 R y)); try discriminate; [right|left; auto].
      split; [auto|]. destruct (Nat.compare_spec (it_dot x) (it_dot y)); try discriminate; [right|left; auto].
      split; [auto|]. now apply Nat.leb_le.
  Qed.

  (** ** Dropping unreachable sets *)
  (** what the step proof needs from the function that drops sets *)
  Definition remove_ok (rm : state -> res state) : Prop :=
    forall (st : state) cs O, rep (r_medial st) cs O -> 0 < length cs ->
    length cs <= length (r_predicted st) ->
    (forall it, In it O -> it_origin it < length cs) ->
    exists st' n, rm st = Ret st' /\ 0 < n <= length cs /\
      rep (r_medial st') (firstn n cs) O /\
      (n = length cs /\ r_predicted st' = r_predicted st \/
       n < length cs /\ r_predicted st' = firstn n (r_predicted st)) /\
      (forall it, In it O -> it_origin it < n) /\
      r_hint st' = r_hint st /\ r_complete st' = r_complete st /\ r_forest st' = r_forest st.

  Lemma keep_sets_ok : remove_ok (fun st => Ret st).
  Proof.
    intros st cs O Hrep Hcs Hrows Horig. exists st, (length cs). rewrite firstn_all.
    split; [reflexivity|]. split; [lia|]. split; [auto|]. split; [left; auto|].
    split; [auto|]. auto.
  Qed.

  Lemma remove_spec : remove_ok (remove_unreachable_sets P).
  Proof.
    intros st cs O Hrep Hcs Hrows Horig. unfold remove_unreachable_sets.
    rewrite (rep_last _ _ _ Hrep). cbn [bind].
    assert (Ee : earleme st = Some (length cs - 1)).
    { unfold earleme. rewrite (rep_len _ _ _ Hrep). destruct (length cs) as [|n]; [lia|]. f_equal. lia. }
    rewrite Ee. cbn [unwrap bind].
    set (ne := match list_max_opt (map it_origin O) with Some m => m | None => length cs - 1 end).
    assert (Hne : ne < length cs /\ forall it, In it O -> it_origin it <= ne).
    { unfold ne. destruct (list_max_opt (map it_origin O)) as [m|] eqn:Em.
      - apply list_max_opt_spec in Em. destruct Em as [Hin Hmax]. apply in_map_iff in Hin.
        destruct Hin as (it & <- & Hit). split; [auto|]. intros x Hx. apply Hmax. now apply in_map.
      - split; [lia|]. intros it Hit. specialize (Horig it Hit). lia. }
    destruct Hne as [Hne Hle].
    destruct (Nat.ltb_spec ne (length cs - 1)), (Nat.ltb_spec 0 ne); cbn [andb].
    2,3,4: exists st, (length cs); rewrite firstn_all;
      (split; [reflexivity|]); (split; [lia|]); (split; [auto|]); (split; [left; auto|]);
      (split; [intros it Hit; specialize (Horig it Hit); lia|]); auto.
    destruct (rep_truncate _ _ _ (ne + 1) Hrep) as (m & Em & Rm); [lia|].
    cbn [r_medial set_predicted]. rewrite Em. cbn [bind]. rewrite Hleo. cbn [bind].
    assert (Hlen : length (firstn (ne + 1) cs) = ne + 1) by (rewrite firstn_length; lia).
    assert (E1 : v_len m = ne + 2). { rewrite (rep_len _ _ _ Rm), Hlen. lia. }
    cbn [r_medial set_medial]. rewrite E1, Nat.eqb_refl. cbn [assert bind].
    unfold earleme. cbn [r_medial set_medial]. rewrite E1.
    replace (ne + 2) with (S (S ne)) by lia. cbn [eqb_opt]. rewrite Nat.eqb_refl. cbn [assert bind].
    eexists _, (ne + 1). split; [reflexivity|]. split; [lia|]. split; [exact Rm|].
    split; [right; split; [lia|reflexivity]|].
    split; [|auto]. intros it Hit. specialize (Hle it Hit). lia.
  Qed.

  (** ** Prediction *)
  Definition row_ok (row : bitrow) : Prop := length row = nsyms /\ row_closed R nsyms row.

  Lemma predict_fold : forall O row, row_ok row -> (forall it, In it O -> med_dot R it) ->
    exists row', foldM (fun row it => o <- get_rhs1 g (it_dot it) ;; postdot <- unwrap o ;;
                      src <- prediction_row g postdot ;; predict row postdot src) O row = Ret row' /\
      row_ok row' /\
      forall s, nth_error row' s = Some true <-> nth_error row s = Some true \/
        (s < nsyms /\ exists (it : fitem) C, In it O /\ rhs1_of R (it_dot it) = Some C /\ pred C s).
  Proof.
    induction O as [|it O IH]; intros row Hrow Hd; cbn [foldM].
    - exists row. split; [reflexivity|]. split; [auto|]. intros s. split; [auto|].
      intros [H|(_ & it & C & [] & _)]; auto.
    - destruct (Hd it (or_introl eq_refl)) as (r & B & C & Hr & Erhs).
      assert (HC : C < nsyms).
      { apply (wf_rhs1 _ _ _ wf r); [eapply nth_error_In; eauto|]. now rewrite Erhs. }
      rewrite (t_rhs1 _ _ _ _ _ _ tok _ _ Hr). unfold rhs1 at 1. rewrite Erhs. cbn [nth_error unwrap bind].
      destruct (t_row _ _ _ _ _ _ tok C HC) as (src & Esrc & Hlsrc & Hsrc). rewrite Esrc. cbn [bind].
      assert (Er1 : rhs1_of R (it_dot it) = Some C). { unfold rhs1_of. rewrite Hr. unfold rhs1. now rewrite Erhs. }
      assert (S1 : exists row1, predict row C src = Ret row1 /\ row_ok row1 /\
                forall s, nth_error row1 s = Some true <-> nth_error row s = Some true \/ (s < nsyms /\ pred C s)).
      { unfold predict. destruct Hrow as [Hl Hcl].
        destruct (idx_lt _ row C) as (b & Eb & Nb); [lia|]. rewrite Eb. cbn [bind].
        destruct b; cbn [negb].
        - exists row. split; [reflexivity|]. split; [now split|]. intros s. split; [auto|].
          intros [X|[Hs Hp]]; [auto|]. now apply (Hcl C).
        - exists (row_or row src). split; [reflexivity|].
          assert (Hbits : forall s, nth_error (row_or row src) s = Some true <->
                     nth_error row s = Some true \/ (s < nsyms /\ pred C s)).
          { intros s. rewrite row_or_nth by lia. rewrite Hsrc. reflexivity. }
          split; [|exact Hbits]. split; [now rewrite row_or_length|].
          intros A B' HA HP HB. apply Hbits in HA. apply Hbits. destruct HA as [HA|[_ HA]].
          + left. now apply (Hcl A).
          + right. split; [auto|]. eapply Relation_Operators.rt_trans; eauto. }
      destruct S1 as (row1 & E1 & Hrow1 & Hb1). rewrite E1. cbn [bind].
      destruct (IH row1 Hrow1) as (row2 & E2 & Hrow2 & Hb2).
      { intros; apply Hd; simpl; auto. }
      exists row2. split; [exact E2|]. split; [auto|]. intros s. rewrite Hb2, Hb1. split.
      + intros [[X|[Hs Hp]]|(Hs & it' & C' & Hit' & HC' & Hp)].
        * auto.
        * right. split; [auto|]. exists it, C. simpl; auto.
        * right. split; [auto|]. exists it', C'. simpl; auto.
      + intros [X|(Hs & it' & C' & [<-|Hit'] & HC' & Hp)].
        * auto.
        * left. right. split; [auto|]. congruence.
        * right. split; [auto|]. eauto.
  Qed.

  Lemma prediction_pass_spec : forall (st : state) cs O row, rep (r_medial st) cs O -> 0 < length cs ->
    nth_error (bm_grow1 nsyms (r_predicted st)) (length cs) = Some row -> row_ok row ->
    (forall it, In it O -> med_dot R it) ->
    exists st' row', prediction_pass g st = Ret st' /\
      r_predicted st' = set_nth (bm_grow1 nsyms (r_predicted st)) (length cs) row' /\ row_ok row' /\
      (forall s, nth_error row' s = Some true <-> nth_error row s = Some true \/
        (s < nsyms /\ exists (it : fitem) C, In it O /\ rhs1_of R (it_dot it) = Some C /\ pred C s)) /\
      r_medial st' = r_medial st /\ r_hint st' = r_hint st /\ r_complete st' = r_complete st /\
      r_forest st' = r_forest st.
  Proof.
    intros st cs O row Hrep Hcs Hrow Hok Hd. unfold prediction_pass.
    rewrite (t_syms _ _ _ _ _ _ tok), (rep_last _ _ _ Hrep). cbn [bind].
    assert (Ee : earleme st = Some (length cs - 1)).
    { unfold earleme. rewrite (rep_len _ _ _ Hrep). destruct (length cs) as [|n]; [lia|]. f_equal. lia. }
    rewrite Ee. cbn [unwrap bind]. replace (length cs - 1 + 1) with (length cs) by lia.
    rewrite (idx_some _ _ _ _ Hrow). cbn [bind].
    destruct (predict_fold O row Hok Hd) as (row' & E & Hok' & Hb). rewrite E. cbn [bind].
    rewrite upd_Ret by (apply nth_error_Some; congruence). cbn [bind].
    eexists _, row'. split; [reflexivity|]. split; [reflexivity|]. split; [auto|]. split; [auto|]. auto.
  Qed.

  (** ** The invariant between steps *)
  Record Inv (E : env) (Z : sym -> Prop) (k : nat) (pos : list nat) (st : state) : Prop := {
    inv_sets : exists cs O, rep (r_medial st) cs O /\ S (length cs) = length pos /\
      exact E pos (cs ++ [O]) (r_predicted st);
    inv_last : nth_error pos (length pos - 1) = Some k;
    inv_rows : forall idx row, nth_error (r_predicted st) idx = Some row ->
      row_ok row /\ (length pos <= idx -> forall s, nth_error row s = Some true -> Z s);
    inv_heap : r_complete st = []
  }.

  Lemma exact_congr : forall k E1 E2 pos sets rows, env_agree k E1 E2 ->
    (forall idx p, nth_error pos idx = Some p -> p <= k) ->
    exact E1 pos sets rows -> exact E2 pos sets rows.
  Proof.
    intros k E1 E2 pos sets rows Ha Hk (HL & Hinc & Hs & Hr).
    split; [auto|]. split; [auto|]. split.
    - intros idx p set Hp Hset. destruct (Hs _ _ _ Hp Hset) as (Hok & Hsnd & Hcomp).
      destruct (env_congr P R nsyms FIRST FOLLOW root k E1 E2 Ha p (Hk _ _ Hp)) as (_ & _ & HM & _).
      split; [auto|]. split.
      + intros it Hit. destruct (Hsnd it Hit) as (Ho & i & Hi & Hne & Hall).
        split; [auto|]. exists i. split; [auto|]. split; [auto|]. intros ts Hts.
        destruct (Hall ts Hts) as (t & -> & X). exists t. split; auto. now apply HM.
      + intros d i t X. apply Hcomp. now apply HM.
    - intros idx p Hp. destruct (Hr _ _ Hp) as (row & Hrow & Hl & Hb).
      destruct (env_congr P R nsyms FIRST FOLLOW root k E1 E2 Ha p (Hk _ _ Hp)) as (_ & _ & _ & HP).
      exists row. split; [auto|]. split; [auto|]. intros s. rewrite Hb, HP. reflexivity.
  Qed.

  Lemma Inv_pos_le : forall E Z k pos st, Inv E Z k pos st ->
    forall idx p, nth_error pos idx = Some p -> p <= k.
  Proof.
    intros E Z k pos st [(cs & O & _ & HL & (_ & Hinc & _)) Hlast _ _] idx p Hp.
    assert (idx < length pos) by (apply nth_error_Some; congruence).
    destruct (Nat.eq_dec idx (length pos - 1)) as [->|Hne].
    - rewrite Hlast in Hp. injection Hp as <-. lia.
    - assert (p < k); [|lia]. apply (Hinc idx (length pos - 1)); auto. lia.
  Qed.

  Lemma Inv_congr : forall E1 E2 Z k pos st, env_agree k E1 E2 -> Inv E1 Z k pos st -> Inv E2 Z k pos st.
  Proof.
    intros E1 E2 Z k pos st Ha HI. pose proof (Inv_pos_le _ _ _ _ _ HI) as Hle.
    destruct HI as [(cs & O & Hrep & HL & Hx) Hlast Hrows Hheap].
    constructor; auto. exists cs, O. split; [auto|]. split; [auto|].
    eapply exact_congr; eauto.
  Qed.

  (** one step as seen from the API, for either way of dropping sets *)
  Section Step.
  Variable rm : state -> res state.
  Hypothesis Hrm : remove_ok rm.
  Definition step (kp : sym -> bool) (fuel : nat) (h : option sym) (ws : list (sym * nat)) (st : state)
    : res (bool * state) :=
    st <- scans P g ws (set_hint_field (begin_earleme P st) h) ;;
    ex <- is_exhausted st ;;
    if ex then Ret (false, st)
    else
      st <- complete_sums free_forest P g kp fuel st ;;
      st <- (st <- sort_medial_items g st ;;
             st <- rm st ;;
             st <- (if LEO P then add_leo_items st else Ret st) ;;
             prediction_pass g st) ;;
      Ret (true, st).

  Lemma nth_error_snoc_cases : forall A (l : list A) a i x, nth_error (l ++ [a]) i = Some x ->
    (i < length l /\ nth_error l i = Some x) \/ (i = length l /\ x = a).
  Proof.
    intros A l a i x H. destruct (lt_dec i (length l)) as [Hl|Hl].
    - left. rewrite nth_error_app1 in H by auto. auto.
    - right. rewrite nth_error_app2 in H by lia.
      destruct (i - length l) as [|n] eqn:E; cbn in H.
      + split; [lia|congruence].
      + destruct n; discriminate.
  Qed.

  Lemma nth_error_firstn_some : forall A n (l : list A) i, i < n -> nth_error (firstn n l) i = nth_error l i.
  Proof.
    induction n as [|n IH]; intros l i Hi; [lia|].
    destruct l as [|a l]; [destruct i; reflexivity|]. destruct i; simpl; auto. apply IH. lia.
  Qed.

  Lemma nth_error_firstn_inv : forall A n (l : list A) i x, nth_error (firstn n l) i = Some x ->
    i < n /\ nth_error l i = Some x.
  Proof.
    induction n as [|n IH]; intros l i x H; [destruct i; discriminate|].
    destruct l as [|a l]; [destruct i; discriminate|]. destruct i; simpl in *.
    - split; [lia|auto].
    - apply IH in H. split; [lia|tauto].
  Qed.

  (** the chart has something at position [j] *)
  Definition alive (E : env) (j : nat) : Prop :=
    (exists d i ts, eComp E d i j ts) \/ (exists d i t, eMed E d i j t).

  (** a step is exact if completion ends *)
  Theorem step_exact_given : forall E Z k pos st, Inv E Z k pos st ->
    hint_ok nsyms (ehint E (S k)) ->
    (forall s v, In (s, v) (eW E k) -> s < nall) ->
    (forall cs st1 O1, scans P g (eW E k) (set_hint_field (begin_earleme P st) (ehint E (S k))) = Ret st1 ->
      cstate R cs (r_predicted st) (ehint E (S k)) st1 O1 -> sets_static R nsyms cs (r_predicted st) ->
      exact E pos cs (r_predicted st) ->
      (forall x, In x (r_complete st1) -> sound_heap P R nsyms FIRST FOLLOW root E pos (S k) x) ->
      exists n st2 O2, cstate R cs (r_predicted st) (ehint E (S k)) st2 O2 /\ r_complete st2 = [] /\
        csteps P R nsyms FIRST FOLLOW cs (r_predicted st) (ehint E (S k)) (ekeep E (S k)) n (r_complete st1) O1 [] O2 /\ r_leo st2 = r_leo st1 /\
        forall fuel, complete_sums free_forest P g (ekeep E (S k)) fuel st1 = if fuel <? n then NoFuel else Ret (clear_hint st2)) ->
    exists n b st' (sd : sym -> Prop),
      (forall fuel, step (ekeep E (S k)) fuel (ehint E (S k)) (eW E k) st =
         if fuel <? n then NoFuel else Ret (b, st')) /\
      (b = true <-> alive E (S k)) /\
      (forall s, sd s -> Z s) /\
      (b = false -> r_predicted st' = r_predicted st) /\
      (b = true -> r_hint st' = None /\
       exists pos' n', (0 < n' <= length pos /\ pos' = firstn n' pos ++ [S k]) /\
       forall E', (forall j, j < S k -> eW E' j = eW E j) ->
        (forall j, j <= S k -> ehint E' j = ehint E j) ->
        (forall j s, j <= S k -> ekeep E' j s = ekeep E j s) ->
        (forall j s, j <= k -> (eseed E' j s <-> eseed E j s)) ->
        (forall s, eseed E' (S k) s <-> sd s) ->
        Inv E' Z (S k) pos' st').
  Proof.
    intros E Z k pos st HI Hh HW Hterm.
    destruct HI as [(cs0 & O0 & Hrep0 & HL0 & Hx0) Hlast0 Hrows0 Hheap0].
    set (cs := cs0 ++ [O0]) in *.
    assert (HLc : length cs = length pos). { unfold cs. rewrite app_length. simpl. lia. }
    assert (Hcs : 0 < length cs) by lia.
    set (rows := r_predicted st) in *.
    set (st0 := set_hint_field (begin_earleme P st) (ehint E (S k))).
    assert (Hrep1 : rep (r_medial st0) cs []).
    { unfold st0, begin_earleme. rewrite Hleo. cbn. now apply rep_next_set. }
    assert (C0 : cstate R cs rows (ehint E (S k)) st0 []).
    { unfold st0, begin_earleme. rewrite Hleo. split; [|cbn; split; [auto|]].
      - cbn. now apply rep_next_set.
      - split; [auto|]. rewrite Hheap0. split; [apply heap_ok_nil|]. intros it []. }
    assert (Hlast : nth_error pos (length cs - 1) = Some k) by now rewrite HLc.
    (* scanning *)
    destruct (scans_spec P g R nsyms nall FIRST FOLLOW root Hleo wf tok E pos cs rows k Hx0 Hlast Hcs Hh
                (eW E k) st0 [] []) as (st1 & O1 & D1 & E1 & C1 & L1 & SH1 & SO1 & HD1 & CD1 & _ & HI1).
    { exact C0. }
    { intros s v Hsv. split; [eapply HW; eauto|auto]. }
    { unfold st0, begin_earleme. rewrite Hleo. cbn. rewrite Hheap0. intros x []. }
    { intros x []. }
    { intros s o T []. }
    { intros s o T []. }
    destruct C1 as (Hrep2 & Hrows2 & Hh2 & Hk2 & Hv2) eqn:EC1. clear EC1.
    unfold step. fold st0. rewrite E1. cbn [bind].
    unfold is_exhausted. rewrite (rep_last _ _ _ Hrep2). cbn [bind].
    assert (Hcase : (O1 = [] /\ r_complete st1 = []) \/
      (match O1, r_complete st1 with [], [] => true | _, _ => false end) = false).
    { destruct O1, (r_complete st1); auto. }
    destruct Hcase as [[-> Eh]|Enot].
    - (* exhausted *)
      rewrite Eh. exists 0, false, st1, (fun _ => False). split; [reflexivity|]. split; [|split; [intros s []|split; [auto|discriminate]]].
      split; [discriminate|]. intros Hal. exfalso.
      rewrite Eh in CD1.
      destruct (scan_dead P R nsyms FIRST FOLLOW root E pos cs rows k Hx0 Hlast D1) as (_ & X1 & X2 & _); auto.
      destruct Hal as [(d & i & ts & X)|(d & i & t & X)].
      + eapply X1; eauto.
      + eapply X2; eauto.
    - rewrite Enot.
      (* completion *)
      destruct (Hterm cs st1 O1 E1) as (n & st2 & O2 & C2 & Hh0 & Hsteps & L2 & E2).
      { split; [auto|]. split; [auto|]. split; [auto|]. split; auto. }
      { exact (exact_static _ _ _ _ _ _ _ wf _ _ _ _ Hx0). }
      { exact Hx0. }
      { exact SH1. }
      assert (HC1 : cinv P R nsyms FIRST FOLLOW root E pos cs rows k D1 (r_complete st1) O1).
      { split; [auto|]. split; [auto|]. split.
        - intros s o T HT. destruct (HD1 _ _ _ HT) as (-> & v & -> & Hv).
          exists k. split; [auto|]. split; [exists [Leaf s v]; constructor|].
          intros ts Hts. inversion Hts; subst. exists (Leaf s v). split; auto. now apply Sym_scan.
        - intros s o T HT. destruct (CD1 _ _ _ HT) as (set & row & A1 & A2 & A3 & A4).
          exists set, row. split; [auto|]. split; [auto|]. split; [|auto]. intros x Hx. left. now apply A3. }
      destruct (csteps_cinv P R nsyms FIRST FOLLOW root E pos cs rows k Hx0 _ _ _ _ _ Hsteps _ HC1)
        as (D2 & HC2 & I2).
      destruct (cinv_complete P R nsyms FIRST FOLLOW root E pos cs rows k Hx0 Hlast D2 O2 HC2)
        as (_ & Ccomp & Cmed & _).
      { intros s v Hsv. apply I2. now apply HI1. }
      destruct HC2 as (_ & SO2 & _ & _).
      destruct C2 as (Hrep3 & Hrows3 & Hh3 & _ & _).
      set (st3 := clear_hint st2).
      assert (Hd2 : forall it, In it O2 -> med_dot R it).
      { intros it Hit. destruct (SO2 it Hit) as (i & _ & [ts Hts] & Hall).
        destruct (Hall ts Hts) as (t & _ & HM). apply (Med_rule _ _ _ _ _ _ _ _ _ _ _ _ _ _ HM). }
      (* sorting *)
      destruct (sort_medial_spec st3 cs O2 Hrep3 Hd2) as (st4 & O4 & E4 & Hrep4 & P4 & Hok4 & Hp4 & Hh4 & Hc4 & Hf4).
      assert (Hd4 : forall it, In it O4 -> med_dot R it).
      { intros it Hit. apply Hd2. eapply Permutation_in; [symmetry; eauto|auto]. }
      assert (SO4 : forall it, In it O4 -> sound_med E pos (S k) it).
      { intros it Hit. apply SO2. eapply Permutation_in; [symmetry; eauto|auto]. }
      assert (Ho4 : forall it, In it O4 -> it_origin it < length cs).
      { intros it Hit. destruct (SO4 it Hit) as (i & Hi & _). rewrite HLc. apply nth_error_Some. congruence. }
      (* dropping sets *)
      assert (Hrows4 : r_predicted st4 = rows). { rewrite Hp4. cbn. rewrite Hrows3. reflexivity. }
      assert (Hrl : length cs <= length rows).
      { destruct Hx0 as (_ & _ & _ & Hr0). destruct (Hr0 (length cs - 1) k Hlast) as (row & Hrow & _).
        assert (length cs - 1 < length rows) by (apply nth_error_Some; congruence). lia. }
      destruct (Hrm st4 cs O4 Hrep4 Hcs) as (st5 & m & E5 & Hm & Hrep5 & Hp5 & Ho5 & Hh5 & Hc5 & Hf5).
      { now rewrite Hrows4. }
      { auto. }
      rewrite Hrows4 in Hp5.
      (* prediction *)
      assert (Hlen5 : length (firstn m cs) = m) by (rewrite firstn_length; lia).
      assert (Hrow5 : exists row, nth_error (bm_grow1 nsyms (r_predicted st5)) m = Some row /\ row_ok row /\
                (forall s, nth_error row s = Some true -> Z s)).
      { assert (Hzero : row_ok (repeat false nsyms) /\ (forall s, nth_error (repeat false nsyms) s = Some true -> Z s)).
        { assert (Hz : forall s, nth_error (repeat false nsyms) s <> Some true).
          { intros s X. apply nth_error_In in X. apply repeat_spec in X. discriminate. }
          split; [|intros s X; now apply Hz in X]. split; [apply repeat_length|]. intros A B X. now apply Hz in X. }
        unfold bm_grow1. destruct Hp5 as [[-> ->]|[Hlt ->]].
        - destruct (nth_error rows (length cs)) as [row|] eqn:Er.
          + exists row. rewrite nth_error_app1 by (apply nth_error_Some; congruence).
            split; [auto|]. destruct (Hrows0 _ _ Er) as [A B]. split; [auto|]. apply B. lia.
          + apply nth_error_None in Er. exists (repeat false nsyms).
            rewrite nth_error_app2 by lia. replace (length cs - length rows) with 0 by lia. split; [auto|apply Hzero].
        - exists (repeat false nsyms). split; [|apply Hzero].
          rewrite nth_error_app2; rewrite firstn_length; [|lia].
          replace (m - Nat.min m (length rows)) with 0 by lia. reflexivity. }
      destruct Hrow5 as (row & Hrow5 & Hrok & Hrz).
      destruct (prediction_pass_spec st5 (firstn m cs) O4 row Hrep5) as
        (st6 & row' & E6 & Hp6 & Hrok' & Hb6 & Hm6 & Hh6 & Hc6 & Hf6); [lia| |auto|auto|].
      { now rewrite Hlen5. }
      exists n, true, st6, (fun s => nth_error row s = Some true).
      split.
      { intros fuel. rewrite E2. destruct (fuel <? n); [reflexivity|]. cbn [bind].
        fold st3. rewrite E4. cbn [bind]. rewrite E5. cbn [bind].
        rewrite Hleo. cbn [bind]. rewrite E6. reflexivity. }
      split.
      { split; [intros _|auto].
        destruct O1 as [|x O1'].
        - destruct (r_complete st1) as [|y H1] eqn:Eh1; [discriminate|].
          destruct (SH1 y (or_introl eq_refl)) as (i & _ & [ts Hts] & Hall).
          left. exists (it_dot y), i, ts. now apply Hall.
        - destruct (SO1 x (or_introl eq_refl)) as (i & _ & [ts Hts] & Hall).
          destruct (Hall ts Hts) as (t & _ & HM). right. eauto. }
      split; [exact Hrz|]. split; [discriminate|].
      intros _. split. { rewrite Hh6, Hh5, Hh4. reflexivity. }
      set (pos' := firstn m pos ++ [S k]).
      assert (Hlp : length (firstn m pos) = m) by (rewrite firstn_length; lia).
      exists pos', m. split; [split; [lia|reflexivity]|].
      intros E' EW Eh Ek Es1 Es2.
      assert (Hagree : env_agree k E E').
      { split; [|split; [|split]].
        - intros j Hj. symmetry. apply EW. lia.
        - intros j Hj. symmetry. apply Eh. lia.
        - intros j s Hj. symmetry. apply Ek. lia.
        - intros j s Hj. symmetry. now apply Es1. }
      assert (Hposle : forall idx p, nth_error pos idx = Some p -> p <= k).
      { destruct Hx0 as (_ & Hinc & _). intros idx p Hp.
        assert (idx < length pos) by (apply nth_error_Some; congruence).
        destruct (Nat.eq_dec idx (length cs - 1)) as [->|Hne].
        - rewrite Hlast in Hp. injection Hp as <-. lia.
        - assert (p < k); [|lia]. apply (Hinc idx (length cs - 1)); auto. lia. }
      pose proof (exact_congr k E E' pos cs rows Hagree Hposle Hx0) as Hx0'.
      (* Med at S k under E' *)
      assert (Hagree2 : env_agree (S k) E (mkEnv (eW E') (ehint E') (ekeep E') (fun j s => if j =? S k then eseed E (S k) s else eseed E' j s))).
      { split; [|split; [|split]]; cbn.
        - intros j Hj. symmetry. apply EW. lia.
        - intros j Hj. symmetry. apply Eh. lia.
        - intros j s Hj. symmetry. apply Ek. lia.
        - intros j s Hj. destruct (Nat.eqb_spec j (S k)).
          + subst j. reflexivity.
          + symmetry. apply Es1. lia. }
      assert (HM' : forall d i t, eMed E d i (S k) t <-> eMed E' d i (S k) t).
      { intros d i t.
        destruct (env_congr P R nsyms FIRST FOLLOW root _ _ _ Hagree2 (S k) (le_n _)) as (_ & _ & X & _).
        rewrite X. clear X. unfold Core3.eMed. cbn.
        set (sd := fun j s => if j =? S k then eseed E (S k) s else eseed E' j s).
        assert (Hk' : forall j s, j <= k -> (sd j s <-> eseed E' j s)).
        { intros j s Hj. unfold sd. destruct (Nat.eqb_spec j (S k)); [lia|reflexivity]. }
        (* Med at S k only uses predictions at earlier positions *)
        assert (Gen : forall sd1 sd2, (forall j s, j <= k -> (sd1 j s <-> sd2 j s)) ->
          (forall s i j t, Sym R nsyms root (eW E') (ehint E') FIRST FOLLOW la (ekeep E') sd1 s i j t ->
             j <= S k -> Sym R nsyms root (eW E') (ehint E') FIRST FOLLOW la (ekeep E') sd2 s i j t) /\
          (forall d i j ts, Comp R nsyms root (eW E') (ehint E') FIRST FOLLOW la (ekeep E') sd1 d i j ts ->
             j <= S k -> Comp R nsyms root (eW E') (ehint E') FIRST FOLLOW la (ekeep E') sd2 d i j ts) /\
          (forall d i j t, Med R nsyms root (eW E') (ehint E') FIRST FOLLOW la (ekeep E') sd1 d i j t ->
             j <= S k -> Med R nsyms root (eW E') (ehint E') FIRST FOLLOW la (ekeep E') sd2 d i j t) /\
          (forall s j, Pred R nsyms root (eW E') (ehint E') FIRST FOLLOW la (ekeep E') sd1 s j ->
             j <= k -> Pred R nsyms root (eW E') (ehint E') FIRST FOLLOW la (ekeep E') sd2 s j)).
        { intros sd1 sd2 Hsd. apply chart_ind; intros.
          - now apply Sym_scan.
          - eapply Sym_group; eauto.
          - pose proof (Sym_lt _ _ _ _ _ _ _ _ _ _ _ _ _ _ s). eapply Comp_unary; eauto. apply H0; lia.
          - pose proof (Sym_lt _ _ _ _ _ _ _ _ _ _ _ _ _ _ s). eapply Comp_binary; eauto. apply H; lia.
          - pose proof (Sym_lt _ _ _ _ _ _ _ _ _ _ _ _ _ _ s). eapply Med_intro; eauto. apply H0; lia.
          - now apply Pred_start.
          - eapply Pred_med; eauto.
          - eapply Pred_seed; eauto. apply Hsd; auto. }
        split; intros X.
        - eapply (Gen sd (eseed E')); eauto.
        - eapply (Gen (eseed E') sd); eauto. intros; symmetry; auto. }
      assert (Hpos'1 : forall i, i < m -> nth_error pos' i = nth_error pos i).
      { intros i Hi. unfold pos'. rewrite nth_error_app1 by lia. now apply nth_error_firstn_some. }
      assert (Hpos'2 : nth_error pos' m = Some (S k)).
      { unfold pos'. rewrite nth_error_app2 by lia. rewrite Hlp, Nat.sub_diag. reflexivity. }
      assert (Hgrow1 : forall idx, idx < m -> nth_error (r_predicted st6) idx = nth_error rows idx).
      { intros idx Hidx. rewrite Hp6, Hlen5, set_nth_other by lia. unfold bm_grow1.
        destruct Hp5 as [[-> ->]|[Hlt ->]].
        - rewrite nth_error_app1 by lia. reflexivity.
        - rewrite nth_error_app1 by (rewrite firstn_length; lia). now apply nth_error_firstn_some. }
      assert (Hgrow2 : nth_error (r_predicted st6) m = Some row').
      { rewrite Hp6, Hlen5. apply set_nth_same. apply nth_error_Some. congruence. }
      constructor.
      + (* sets *)
        exists (firstn m cs), O4. split; [rewrite Hm6; exact Hrep5|].
        split; [unfold pos'; rewrite app_length, Hlp, Hlen5; simpl; lia|].
        destruct Hx0' as (_ & Hinc & Hs & Hr).
        split; [|split; [|split]].
        * unfold pos'. rewrite !app_length, Hlp, Hlen5. reflexivity.
        * intros a b x y Hab Ha Hb. unfold pos' in Ha, Hb.
          apply nth_error_snoc_cases in Ha, Hb. rewrite Hlp in Ha, Hb.
          destruct Hb as [[Hb1 Hb2]|[-> ->]], Ha as [[Ha1 Ha2]|[-> ->]]; try lia.
          -- apply nth_error_firstn_inv in Ha2, Hb2. apply (Hinc a b); tauto.
          -- apply nth_error_firstn_inv in Ha2. destruct Ha2 as [_ Ha2]. apply Hposle in Ha2. lia.
        * intros idx p set Hp Hset. unfold pos' in Hp. apply nth_error_snoc_cases in Hp. rewrite Hlp in Hp.
          destruct Hp as [[Hi Hp]|[-> ->]].
          -- apply nth_error_firstn_inv in Hp. destruct Hp as [_ Hp].
             rewrite nth_error_app1 in Hset by lia. apply nth_error_firstn_inv in Hset. destruct Hset as [_ Hset].
             destruct (Hs _ _ _ Hp Hset) as (A1 & A2 & A3). split; [auto|]. split.
             ++ intros it Hit. destruct (A2 it Hit) as (Ho & i & Hi' & B1 & B2). split; [auto|].
                exists i. rewrite Hpos'1 by lia. auto.
             ++ intros d i t X. destruct (A3 d i t X) as (it & Hit & Ed & Hi' & Hden).
                exists it. split; [auto|]. split; [auto|]. split; [|auto].
                rewrite Hpos'1; [auto|]. destruct (A2 it Hit) as (Ho & _). lia.
          -- rewrite nth_error_app2 in Hset by lia. rewrite Hlen5, Nat.sub_diag in Hset. injection Hset as <-.
             split; [auto|]. split.
             ++ intros it Hit. split; [auto|]. destruct (SO4 it Hit) as (i & Hi & B1 & B2).
                exists i. rewrite Hpos'1 by auto. split; [auto|]. split; [auto|]. intros ts Hts.
                destruct (B2 ts Hts) as (t & -> & X). exists t. split; [auto|]. now apply HM'.
             ++ intros d i t X. apply HM' in X. destruct (Cmed d i (S k) t X eq_refl) as (it & Hit & Ed & Hi & Hden).
                exists it. assert (Hit4 : In it O4) by (eapply Permutation_in; eauto).
                split; [auto|]. split; [auto|]. split; [|auto]. rewrite Hpos'1; auto.
        * intros idx p Hp. unfold pos' in Hp. apply nth_error_snoc_cases in Hp. rewrite Hlp in Hp.
          destruct Hp as [[Hi Hp]|[-> ->]].
          -- apply nth_error_firstn_inv in Hp. destruct Hp as [_ Hp]. rewrite Hgrow1 by auto. now apply Hr.
          -- exists row'. split; [auto|]. split; [apply Hrok'|]. intros s. rewrite Hb6. split.
             ++ intros [X|(Hs' & it & C & Hit & HC & Hp)].
                ** assert (Hsn : s < nsyms). { rewrite <- (proj1 Hrok). apply nth_error_Some. congruence. }
                   split; [auto|]. eapply Pred_seed; [apply Es2; eauto|]. apply Relation_Operators.rt_refl.
                ** split; [auto|]. destruct (SO4 it Hit) as (i & Hi & [ts Hts] & B2).
                   destruct (B2 ts Hts) as (t & _ & HM).
                   destruct (Hd4 it Hit) as (r & B & C' & Hr' & Erhs).
                   unfold rhs1_of in HC. rewrite Hr' in HC. unfold rhs1 in HC. rewrite Erhs in HC. injection HC as ->.
                   apply HM' in HM. eapply Pred_med; eauto.
             ++ intros [Hs' X]. inversion X as [s0 Hp|d r B C i j t s0 Hr' Erhs HM Hp|s0 s1 j Hsd Hp]; subst.
                ** right. split; [auto|]. apply HM' in HM.
                   destruct (Cmed d i (S k) t HM eq_refl) as (it & Hit & Ed & _).
                   exists it, C. split; [eapply Permutation_in; eauto|]. split; [|auto].
                   unfold rhs1_of. rewrite Ed, Hr'. unfold rhs1. now rewrite Erhs.
                ** left. apply Es2 in Hsd. apply (proj2 Hrok s0); auto.
      + unfold pos'. rewrite app_length, Hlp. simpl. replace (m + 1 - 1) with m by lia. exact Hpos'2.
      + (* rows *)
        intros idx rw Hrw. destruct (lt_eq_lt_dec idx m) as [[Hlt|He]|Hgt].
        * rewrite Hgrow1 in Hrw by auto. destruct (Hrows0 _ _ Hrw) as [A _]. split; [auto|].
          unfold pos'. rewrite app_length, Hlp. simpl. intros; lia.
        * subst idx. rewrite Hgrow2 in Hrw. injection Hrw as <-. split; [auto|].
          unfold pos'. rewrite app_length, Hlp. simpl. intros; lia.
        * rewrite Hp6, Hlen5, set_nth_other in Hrw by lia. unfold bm_grow1 in Hrw.
          apply nth_error_snoc_cases in Hrw.
          assert (Hzr : row_ok (repeat false nsyms) /\ forall s, nth_error (repeat false nsyms) s <> Some true).
          { assert (Hz : forall s, nth_error (repeat false nsyms) s <> Some true).
            { intros s X. apply nth_error_In in X. apply repeat_spec in X. discriminate. }
            split; [|auto]. split; [apply repeat_length|]. intros A B X. now apply Hz in X. }
          destruct Hrw as [[_ Hrw]|[_ ->]]; [|split; [apply Hzr|intros _ s X; now apply Hzr in X]].
          destruct Hp5 as [[-> Hp5]|[Hlt Hp5]]; rewrite Hp5 in Hrw.
          -- destruct (Hrows0 _ _ Hrw) as [A B]. split; [auto|]. intros _. apply B. lia.
          -- apply nth_error_firstn_inv in Hrw. lia.
      + rewrite Hc6, Hc5, Hc4. cbn. exact Hh0.
  Qed.

  Theorem step_exact : forall E Z k pos st, Inv E Z k pos st ->
    hint_ok nsyms (ehint E (S k)) ->
    (forall s v, In (s, v) (eW E k) -> s < nall) ->
    exists n b st' (sd : sym -> Prop),
      (forall fuel, step (ekeep E (S k)) fuel (ehint E (S k)) (eW E k) st =
         if fuel <? n then NoFuel else Ret (b, st')) /\
      (b = true <-> alive E (S k)) /\
      (forall s, sd s -> Z s) /\
      (b = false -> r_predicted st' = r_predicted st) /\
      (b = true -> r_hint st' = None /\
       exists pos' n', (0 < n' <= length pos /\ pos' = firstn n' pos ++ [S k]) /\
       forall E', (forall j, j < S k -> eW E' j = eW E j) ->
        (forall j, j <= S k -> ehint E' j = ehint E j) ->
        (forall j s, j <= S k -> ekeep E' j s = ekeep E j s) ->
        (forall j s, j <= k -> (eseed E' j s <-> eseed E j s)) ->
        (forall s, eseed E' (S k) s <-> sd s) ->
        Inv E' Z (S k) pos' st').
  Proof.
    intros E Z k pos st HI Hh HW. apply step_exact_given; [auto|auto|auto|].
    intros cs st1 O1 _ C1 Hst _ _. destruct Hacyc as [rank Hrank].
    exact (complete_sums_terminates P g R nsyms nall FIRST FOLLOW Hleo wf tok cs (r_predicted st) (ehint E (S k))
             (ekeep E (S k)) Hst Hh rank Hrank st1 O1 C1).
  Qed.
  End Step.
End Core4.
