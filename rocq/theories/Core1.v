(** Core1: what one call of [complete] does, over the free forest. *)
From Coq Require Import List Arith Bool Lia Permutation Sorted.
From Verif Require Import Base BaseProofs Vec2d Vec2dProofs Item Heap HeapProofs Grammar BitMatrix
  DefaultGrammar Forest Recognizer Spec Chart ChartFacts Tables.
Import ListNotations.
Local Open Scope res_scope.

Lemma NoDup_map_filter : forall A B (f : A -> B) p l, NoDup (map f l) -> NoDup (map f (filter p l)).
Proof.
  induction l as [|a l IH]; simpl; intros H; auto. inversion H; subst.
  destruct (p a); simpl; auto. constructor; auto.
  intros X. apply H2. apply in_map_iff in X. destruct X as (x & E & Hx).
  apply filter_In in Hx. rewrite <- E. apply in_map. tauto.
Qed.

(** taking the run of equal keys of a sorted list is filtering *)
Lemma take_run : forall A (key : A -> nat) (s : nat) l,
  (forall i j a b, i < j -> nth_error l i = Some a -> nth_error l j = Some b -> key a <= key b) ->
  (forall a, In a l -> s <= key a) ->
  take_while (fun a => key a =? s) l = filter (fun a => key a =? s) l.
Proof.
  induction l as [|a l IH]; intros Hs Hge; simpl; auto.
  destruct (Nat.eqb_spec (key a) s).
  - f_equal. apply IH.
    + intros i j x y Hij Hx Hy. apply (Hs (S i) (S j)); auto. lia.
    + intros x Hx. apply Hge. simpl; auto.
  - symmetry. apply filter_none. intros x Hx.
    apply In_nth_error in Hx. destruct Hx as [i Hi].
    pose proof (Hs 0 (S i) a x ltac:(lia) eq_refl Hi).
    pose proof (Hge a (or_introl eq_refl)).
    apply Nat.eqb_neq. lia.
Qed.

Section Core1.
  Variable P : perf.
  Variable g : dgrammar.
  Variable R : list prule.
  Variables nsyms nall : nat.
  Variables FIRST FOLLOW : sym -> sym -> bool.
  Hypothesis Hleo : LEO P = false.
  Hypothesis wf : wf_rules R nsyms nall.
  Hypothesis tok : tables_ok g R nsyms nall FIRST FOLLOW.

  Notation la := (LOOKAHEAD P).
  Notation ok_lhs := (ok_lhs nsyms FOLLOW la).
  Notation ok_unary := (ok_unary nsyms FOLLOW la).
  Notation ok_medial := (ok_medial nsyms FIRST la).
  Notation fitem := (item fnode).
  Notation state := (rstate (list (nat * fnode)) fnode).
  Notation topr := (topr R nsyms).
  Notation pred := (pred R nsyms).

  Definition hint_ok (h : option sym) : Prop :=
    match h with None => True | Some t => t < nsyms end.

  Definition rhs1_of (d : nat) : option sym :=
    match nth_error R d with Some r => rhs1 r | None => None end.
  Definition r1 (it : fitem) : nat := match rhs1_of (it_dot it) with Some c => c | None => 0 end.

  (** order of the items of a set *)
  Definition med_le (a b : fitem) : Prop :=
    r1 a < r1 b \/ (r1 a = r1 b /\ (it_dot a < it_dot b \/ (it_dot a = it_dot b /\ it_origin a <= it_origin b))).

  (** items of a finished set *)
  Definition med_dot (it : fitem) : Prop :=
    exists r B C, nth_error R (it_dot it) = Some r /\ p_rhs r = [B; C].
  Definition set_ok (set : list fitem) : Prop :=
    StronglySorted med_le set /\ forall it, In it set -> med_dot it.

  (** ** Lookahead tests *)
  Lemma check_lhs : forall (st : state) d r, nth_error R d = Some r -> hint_ok (r_hint st) ->
    exists u, hint_check st (fun t => lhs <- get_lhs g d ;;
                if g_syms g <=? lhs then Ret true else row <- lhs_lr_set g lhs ;; idx row t) = Ret u /\
      negb la || u = ok_lhs (r_hint st) (p_lhs r).
  Proof.
    intros st d r Hr Hh. unfold hint_check, Chart.ok_lhs, check.
    destruct (r_hint st) as [t|] eqn:Eh.
    - rewrite (t_lhs _ _ _ _ _ _ tok _ _ Hr). cbn [bind]. rewrite (t_syms _ _ _ _ _ _ tok).
      destruct (Nat.leb_spec nsyms (p_lhs r)).
      + exists true. split; auto. now rewrite orb_true_r.
      + destruct (t_follow _ _ _ _ _ _ tok (p_lhs r) t H Hh) as (row & E & En).
        rewrite E. cbn [bind]. rewrite (idx_some _ _ _ _ En). exists (FOLLOW (p_lhs r) t). auto.
    - exists true. split; auto. now rewrite !orb_true_r.
  Qed.

  Lemma check_pred : forall (st : state) d r s, nth_error R d = Some r -> nth_error (p_rhs r) 0 = Some s ->
    s < nsyms -> hint_ok (r_hint st) ->
    exists u, hint_check st (fun t => x <- rhs1_or_lhs g d ;;
                if g_syms g <=? x then Ret true else row <- lookahead_set g d ;; idx row t) = Ret u /\
      negb la || u = match rhs1 r with
                     | None => ok_unary (r_hint st) s (p_lhs r)
                     | Some C => ok_medial (r_hint st) s C
                     end.
  Proof.
    intros st d r s Hr H0 Hs Hh. unfold hint_check, Chart.ok_unary, Chart.ok_medial, Chart.ok_lhs, check.
    assert (E0 : (nsyms <=? s) = false) by (apply Nat.leb_gt; auto). rewrite E0.
    destruct (r_hint st) as [t|] eqn:Eh.
    - unfold rhs1_or_lhs. rewrite (t_rhs1 _ _ _ _ _ _ tok _ _ Hr). cbn [bind].
      rewrite (t_syms _ _ _ _ _ _ tok).
      destruct (rhs1 r) as [C|] eqn:E1; cbn [bind].
      + destruct (Nat.leb_spec nsyms C).
        * exists true. split; auto. now rewrite orb_true_r.
        * destruct (t_look_binary _ _ _ _ _ _ tok d r C t Hr E1 H Hh) as (row & E & En).
          rewrite E. cbn [bind]. rewrite (idx_some _ _ _ _ En). exists (FIRST C t). auto.
      + rewrite (t_lhs _ _ _ _ _ _ tok _ _ Hr). cbn [bind].
        destruct (Nat.leb_spec nsyms (p_lhs r)).
        * exists true. split; auto. now rewrite orb_true_r.
        * destruct (t_look_unary _ _ _ _ _ _ tok d r t Hr E1 H Hh) as (row & E & En).
          rewrite E. cbn [bind]. rewrite (idx_some _ _ _ _ En). exists (FOLLOW (p_lhs r) t). auto.
    - exists true. split; auto. rewrite orb_true_r.
      destruct (rhs1 r); now rewrite ?orb_true_r.
  Qed.

  (** everything but the heap and the medial items is unchanged *)
  Definition frame (st st' : state) : Prop :=
    r_forest st' = r_forest st /\ r_hint st' = r_hint st /\ r_predicted st' = r_predicted st /\
    r_leo st' = r_leo st.

  Lemma frame_refl : forall st, frame st st.
  Proof. now repeat split. Qed.
  Lemma frame_trans : forall a b c, frame a b -> frame b c -> frame a c.
  Proof. unfold frame. intros a b c (A1 & A2 & A3 & A4) (B1 & B2 & B3 & B4). repeat split; congruence. Qed.

  (** ** Advancing medial items *)
  Definition adv (T : fnode) (it : fitem) : fitem :=
    mkItem (it_dot it) (it_origin it) (FProd (it_node it) T).
  Definition lhs_of (d : nat) : sym := match nth_error R d with Some r => p_lhs r | None => 0 end.
  Definition adv_sel (h : option sym) (it : fitem) : bool := ok_lhs h (lhs_of (it_dot it)).

  Lemma push_complete_spec : forall (st : state) it, heap_ok (r_complete st) ->
    exists st', push_complete st it = Ret st' /\ frame st st' /\ r_medial st' = r_medial st /\
      heap_ok (r_complete st') /\ Permutation (r_complete st') (it :: r_complete st).
  Proof.
    intros st it Hk. unfold push_complete.
    destruct (heap_push_spec _ it Hk) as (h' & E & O & Pm). rewrite E. cbn [bind].
    eexists; split; [reflexivity|]. repeat split; cbn; auto; now symmetry.
  Qed.

  Lemma complete_medial_item_spec : forall (st : state) T it, med_dot it -> hint_ok (r_hint st) ->
    heap_ok (r_complete st) ->
    exists st', complete_medial_item free_forest P g T st it = Ret st' /\ frame st st' /\
      r_medial st' = r_medial st /\ heap_ok (r_complete st') /\
      Permutation (r_complete st')
        ((if adv_sel (r_hint st) it then [adv T it] else []) ++ r_complete st).
  Proof.
    intros st T it (r & B & C & Hr & _) Hh Hk. unfold complete_medial_item.
    destruct (check_lhs st _ _ Hr Hh) as (u & Eu & Hu). rewrite Eu. cbn [bind].
    unfold adv_sel, lhs_of. rewrite Hr. rewrite <- Hu.
    destruct (negb la || u).
    - cbn [f_product free_forest bind].
      destruct (heap_push_spec _ (mkItem (it_dot it) (it_origin it) (FProd (it_node it) T)) Hk)
        as (h' & E & O & Pm).
      rewrite E. cbn [bind]. eexists; split; [reflexivity|]. repeat split; cbn; auto; now symmetry.
    - eexists; split; [reflexivity|]. repeat split; cbn; auto; reflexivity.
  Qed.

  Lemma foldM_medial_spec : forall l (st : state) T, (forall it, In it l -> med_dot it) ->
    hint_ok (r_hint st) -> heap_ok (r_complete st) ->
    exists st', foldM (complete_medial_item free_forest P g T) l st = Ret st' /\ frame st st' /\
      r_medial st' = r_medial st /\ heap_ok (r_complete st') /\
      Permutation (r_complete st')
        (map (adv T) (filter (adv_sel (r_hint st)) l) ++ r_complete st).
  Proof.
    induction l as [|it l IH]; intros st T Hd Hh Hk; cbn [foldM].
    - exists st. repeat split; auto.
    - destruct (complete_medial_item_spec st T it (Hd it (or_introl eq_refl)) Hh Hk)
        as (st1 & E1 & F1 & M1 & O1 & P1).
      rewrite E1. cbn [bind].
      assert (Eh : r_hint st1 = r_hint st) by apply F1.
      destruct (IH st1 T) as (st2 & E2 & F2 & M2 & O2 & P2); auto.
      { intros; apply Hd; simpl; auto. }
      { now rewrite Eh. }
      exists st2. split; [exact E2|]. split; [eapply frame_trans; eauto|].
      split; [congruence|]. split; [auto|].
      rewrite P2, Eh, P1. simpl. destruct (adv_sel (r_hint st) it); simpl; auto.
        symmetry. apply Permutation_middle.
  Qed.

  Lemma complete_medial_items_spec : forall (st : state) cs O o set s T,
    rep (r_medial st) cs O -> nth_error cs o = Some set -> set_ok set ->
    hint_ok (r_hint st) -> heap_ok (r_complete st) ->
    exists st', complete_medial_items free_forest P g st o s T = Ret st' /\ frame st st' /\
      r_medial st' = r_medial st /\ heap_ok (r_complete st') /\
      Permutation (r_complete st')
        (map (adv T) (filter (adv_sel (r_hint st)) (filter (fun it => r1 it =? s) set)) ++ r_complete st).
  Proof.
    intros st cs O o set s T Hrep Hset [Hsort Hdots] Hh Hk.
    unfold complete_medial_items. rewrite (rep_index _ _ _ _ _ Hrep Hset). cbn [bind].
    assert (Ek : mapM (fun it : fitem => r1 <- get_rhs1 g (it_dot it);; Ret (r1, it)) set
                 = Ret (map (fun it => (Some (r1 it), it)) set)).
    { apply mapM_Ret. intros it Hit. destruct (Hdots it Hit) as (r & B & C & Hr & Hrhs).
      rewrite (t_rhs1 _ _ _ _ _ _ tok _ _ Hr). cbn [bind]. unfold r1, rhs1_of. rewrite Hr.
      unfold rhs1. rewrite Hrhs. reflexivity. }
    rewrite Ek. cbn [bind].
    set (keyed := map (fun it => (Some (r1 it), it)) set).
    set (cmp := fun x : option sym * fitem => search_cmp s (fst x)).
    assert (Hnth : forall i x, nth_error keyed i = Some x -> exists it, nth_error set i = Some it /\ x = (Some (r1 it), it)).
    { intros i x Hx. unfold keyed in Hx. rewrite nth_error_map in Hx.
      destruct (nth_error set i); simpl in Hx; [|discriminate]. injection Hx as <-. eauto. }
    assert (Hcmp : forall it, cmp (Some (r1 it), it) = if r1 it <? s then Lt else Gt).
    { intros it. unfold cmp, search_cmp, opt_cmp. cbn [fst].
      destruct (Nat.compare_spec (r1 it) s).
      - subst s. now rewrite Nat.ltb_irrefl.
      - apply Nat.ltb_lt in H. now rewrite H.
      - assert (X : (r1 it <? s) = false) by (apply Nat.ltb_ge; lia). now rewrite X. }
    assert (Hord : forall i j a b, i < j -> nth_error set i = Some a -> nth_error set j = Some b -> r1 a <= r1 b).
    { intros i j a b Hij Ha Hb.
      pose proof (StronglySorted_nth _ _ _ _ _ _ _ Hsort Hij Ha Hb) as [X|X]; lia. }
    assert (Hmono : mono cmp keyed).
    { intros i j a b Hij Ha Hb. apply Hnth in Ha, Hb.
      destruct Ha as (x & Hx & ->), Hb as (y & Hy & ->). rewrite !Hcmp.
      assert (r1 x <= r1 y).
      { destruct (Nat.eq_dec i j) as [->|]; [assert (x = y) by congruence; subst; lia|]. apply (Hord i j); auto. lia. }
      destruct (Nat.ltb_spec (r1 x) s), (Nat.ltb_spec (r1 y) s); split; intros; try discriminate; auto; lia. }
    destruct (binary_search_partition _ cmp keyed Hmono) as (p & Ep & Hp & Hlo & Hhi).
    { intros x Hx. apply In_nth_error in Hx. destruct Hx as [i Hi].
      apply Hnth in Hi. destruct Hi as (it & _ & ->). rewrite Hcmp. destruct (r1 it <? s); discriminate. }
    rewrite Ep.
    assert (Efin : map snd (take_while (fun x => eqb_opt (fst x) (Some s)) (skipn p keyed))
                   = filter (fun it => r1 it =? s) set).
    { assert (Esk : skipn p keyed = map (fun it => (Some (r1 it), it)) (skipn p set)).
      { unfold keyed. now rewrite skipn_map. }
      rewrite Esk.
      assert (Etw : forall l, map snd (take_while (fun x => eqb_opt (fst x) (Some s))
                 (map (fun it => (Some (r1 it), it)) l)) = take_while (fun it => r1 it =? s) l).
      { induction l as [|a l IH]; simpl; auto. destruct (r1 a =? s); simpl; congruence. }
      rewrite Etw. rewrite take_run.
      - rewrite <- (firstn_skipn p set) at 2. rewrite filter_app.
        rewrite (filter_none _ _ (firstn p set)); auto.
        intros it Hit. apply In_nth_error in Hit. destruct Hit as [i Hi].
        assert (Hip : i < p).
        { assert (i < length (firstn p set)) by (apply nth_error_Some; congruence).
          rewrite firstn_length in H. lia. }
        assert (Hi' : nth_error set i = Some it).
        { rewrite <- Hi. rewrite <- (firstn_skipn p set) at 1. rewrite nth_error_app1; auto.
          apply nth_error_Some; congruence. }
        specialize (Hlo i (Some (r1 it), it) Hip).
        unfold keyed in Hlo. rewrite nth_error_map, Hi' in Hlo. specialize (Hlo eq_refl).
        rewrite Hcmp in Hlo. destruct (Nat.ltb_spec (r1 it) s); [|discriminate].
        apply Nat.eqb_neq. lia.
      - intros i j a b Hij Ha Hb. apply (Hord (p + i) (p + j)); try lia.
        + rewrite <- Ha. symmetry. rewrite <- (firstn_skipn p set) at 2.
          assert (Hl : length (firstn p set) = p).
          { rewrite firstn_length. apply Nat.min_l. unfold keyed in Hp. rewrite map_length in Hp. lia. }
          rewrite nth_error_app2 by lia. rewrite Hl. f_equal. lia.
        + rewrite <- Hb. symmetry. rewrite <- (firstn_skipn p set) at 2.
          assert (Hl : length (firstn p set) = p).
          { rewrite firstn_length. apply Nat.min_l. unfold keyed in Hp. rewrite map_length in Hp. lia. }
          rewrite nth_error_app2 by lia. rewrite Hl. f_equal. lia.
      - intros it Hit. apply In_nth_error in Hit. destruct Hit as [i Hi].
        assert (Hi' : nth_error set (p + i) = Some it).
        { rewrite <- Hi. symmetry. rewrite <- (firstn_skipn p set) at 2.
          assert (Hl : length (firstn p set) = p).
          { rewrite firstn_length. apply Nat.min_l. unfold keyed in Hp. rewrite map_length in Hp. lia. }
          rewrite nth_error_app2 by lia. rewrite Hl. f_equal. lia. }
        specialize (Hhi (p + i) (Some (r1 it), it) ltac:(lia)).
        unfold keyed in Hhi. rewrite nth_error_map, Hi' in Hhi. specialize (Hhi eq_refl).
        rewrite Hcmp in Hhi. destruct (Nat.ltb_spec (r1 it) s); [discriminate|]. lia. }
    match goal with |- context [foldM _ ?l st] =>
      replace l with (filter (fun it => r1 it =? s) set) by (symmetry; exact Efin) end.
    apply foldM_medial_spec; auto.
    intros it Hit. apply Hdots. apply filter_In in Hit. tauto.
  Qed.

  (** ** Transitions over a completed symbol *)
  Definition new_item (o : nat) (T : fnode) (t : ptrans) : fitem := mkItem (pt_dot t) o T.
  Definition dot_ok (h : option sym) (s : sym) (d : nat) : bool :=
    match nth_error R d with
    | Some r => match rhs1 r with
                | None => ok_unary h s (p_lhs r)
                | Some C => ok_medial h s C
                end
    | None => false
    end.
  Definition trans_sel (h : option sym) (row : bitrow) (s : sym) (t : ptrans) : bool :=
    nth (pt_symbol t) row false && dot_ok h s (pt_dot t).

  Lemma bm_get_row : forall (m : bitmatrix) o row c, nth_error m o = Some row -> c < length row ->
    bm_get m o c = Ret (nth c row false).
  Proof.
    intros m o row c Ho Hc. unfold bm_get. rewrite (idx_some _ _ _ _ Ho). cbn [bind].
    apply idx_some. rewrite (nth_error_nth' row false Hc). reflexivity.
  Qed.

  Lemma complete_prediction_spec : forall (st : state) cs O o row s T b t u,
    rep (r_medial st) cs O -> nth_error (r_predicted st) o = Some row -> length row = nsyms ->
    hint_ok (r_hint st) -> s < nsyms ->
    pt_unary t = u ->
    (exists r, nth_error R (pt_dot t) = Some r /\ nth_error (p_rhs r) 0 = Some s /\
      is_null (rhs1 r) = u /\ topr (p_lhs r) (pt_symbol t)) ->
    exists st', complete_prediction P g o T (st, b) t =
        Ret (st', b + (if trans_sel (r_hint st) row s t then (if u then 0 else 1) else 0)) /\
      frame st st' /\ r_complete st' = r_complete st /\
      rep (r_medial st') cs (O ++ if trans_sel (r_hint st) row s t then [new_item o T t] else []).
  Proof.
    intros st cs O o row s T b t u Hrep Hrow Hlen Hh Hs Hu (r & Hr & H0 & Hn & Ht).
    unfold complete_prediction.
    assert (Hsym : pt_symbol t < nsyms) by (eapply topr_range; eauto).
    rewrite (bm_get_row _ _ _ _ Hrow) by lia. cbn [bind].
    destruct (check_pred st _ _ s Hr H0 Hs Hh) as (v & Ev & Hv). rewrite Ev. cbn [bind].
    unfold trans_sel, dot_ok. rewrite Hr. rewrite <- Hv. rewrite Hu.
    destruct (nth (pt_symbol t) row false && (negb la || v)).
    - eexists; split; [reflexivity|]. split; [repeat split|]. split; [reflexivity|]. now apply rep_push.
    - exists st. rewrite Nat.add_0_r, app_nil_r. repeat split; auto; apply Hrep.
  Qed.

  Lemma foldM_prediction_spec : forall l (st : state) cs O o row s T b u,
    rep (r_medial st) cs O -> nth_error (r_predicted st) o = Some row -> length row = nsyms ->
    hint_ok (r_hint st) -> s < nsyms ->
    (forall t, In t l -> pt_unary t = u /\
      exists r, nth_error R (pt_dot t) = Some r /\ nth_error (p_rhs r) 0 = Some s /\
      is_null (rhs1 r) = u /\ topr (p_lhs r) (pt_symbol t)) ->
    exists st', foldM (complete_prediction P g o T) l (st, b) =
        Ret (st', b + (if u then 0 else length (filter (trans_sel (r_hint st) row s) l))) /\
      frame st st' /\ r_complete st' = r_complete st /\
      rep (r_medial st') cs (O ++ map (new_item o T) (filter (trans_sel (r_hint st) row s) l)).
  Proof.
    induction l as [|t l IH]; intros st cs O o row s T b u Hrep Hrow Hlen Hh Hs Hl; cbn [foldM].
    - exists st. cbn. rewrite app_nil_r. replace (b + (if u then 0 else 0)) with b by (destruct u; lia).
      repeat split; auto; apply Hrep.
    - destruct (Hl t (or_introl eq_refl)) as [Hu Hex].
      destruct (complete_prediction_spec st cs O o row s T b t u Hrep Hrow Hlen Hh Hs Hu Hex)
        as (st1 & E1 & F1 & C1 & R1).
      rewrite E1. cbn [bind].
      destruct F1 as (Ff & Fh & Fp & Fl).
      destruct (IH st1 cs _ o row s T (b + (if trans_sel (r_hint st) row s t then (if u then 0 else 1) else 0)) u R1)
        as (st2 & E2 & F2 & C2 & R2); auto; try congruence.
      { intros; apply Hl; simpl; auto. }
      exists st2. rewrite E2. rewrite Fh in *. simpl filter.
      split; [|split; [|split]].
      + do 2 f_equal. destruct (trans_sel (r_hint st) row s t), u; simpl; lia.
      + eapply frame_trans; [|eauto]. repeat split; auto.
      + congruence.
      + rewrite <- app_assoc in R2.
        destruct (trans_sel (r_hint st) row s t); simpl in *; auto.
  Qed.

  Lemma foldM_push_complete : forall l (st : state), heap_ok (r_complete st) ->
    exists st', foldM push_complete l st = Ret st' /\ frame st st' /\ r_medial st' = r_medial st /\
      heap_ok (r_complete st') /\ Permutation (r_complete st') (l ++ r_complete st).
  Proof.
    induction l as [|x l IH]; intros st Hk; cbn [foldM].
    - exists st. repeat split; auto.
    - destruct (push_complete_spec st x Hk) as (st1 & E1 & F1 & M1 & O1 & P1). rewrite E1. cbn [bind].
      destruct (IH st1 O1) as (st2 & E2 & F2 & M2 & O2 & P2).
      exists st2. split; [exact E2|]. split; [eapply frame_trans; eauto|].
      split; [congruence|]. split; [auto|].
      rewrite P2, P1. simpl. symmetry. apply Permutation_middle.
  Qed.

  Lemma complete_predictions_spec : forall (st : state) cs O o row s T lb lu,
    rep (r_medial st) cs O -> nth_error (r_predicted st) o = Some row -> length row = nsyms ->
    hint_ok (r_hint st) -> heap_ok (r_complete st) -> s < nsyms ->
    completions g s = Ret (lb ++ lu) -> trans_ok R nsyms s false lb -> trans_ok R nsyms s true lu ->
    exists st', complete_predictions P g st o s T = Ret st' /\ frame st st' /\
      heap_ok (r_complete st') /\
      Permutation (r_complete st')
        (map (new_item o T) (filter (trans_sel (r_hint st) row s) lu) ++ r_complete st) /\
      rep (r_medial st') cs (O ++ map (new_item o T) (filter (trans_sel (r_hint st) row s) lb)).
  Proof.
    intros st cs O o row s T lb lu Hrep Hrow Hlen Hh Hk Hs Hc [_ Hlb] [_ Hlu].
    unfold complete_predictions. rewrite (rep_last _ _ _ Hrep), Hc. cbn [bind].
    rewrite foldM_app.
    destruct (foldM_prediction_spec lb st cs O o row s T (length O) false Hrep Hrow Hlen Hh Hs)
      as (st1 & E1 & F1 & C1 & R1).
    { intros t Ht. now apply Hlb. }
    rewrite E1. cbn [bind].
    destruct F1 as (Ff & Fh & Fp & Fl).
    set (nb := map (new_item o T) (filter (trans_sel (r_hint st) row s) lb)) in *.
    set (nu := map (new_item o T) (filter (trans_sel (r_hint st) row s) lu)).
    destruct (foldM_prediction_spec lu st1 cs (O ++ nb) o row s T
                (length O + length (filter (trans_sel (r_hint st) row s) lb)) true)
      as (st2 & E2 & F2 & C2 & R2); auto; try congruence.
    { intros t Ht. now apply Hlu. }
    rewrite Fh in *. fold nu in R2. rewrite E2. cbn [bind].
    rewrite Nat.add_0_r.
    destruct F2 as (Gf & Gh & Gp & Gl).
    rewrite (rep_last _ _ _ R2). cbn [bind].
    assert (Elen : length O + length (filter (trans_sel (r_hint st) row s) lb) = length (O ++ nb)).
    { unfold nb. now rewrite app_length, map_length. }
    rewrite Elen.
    assert (Esk : skipn (length (O ++ nb)) ((O ++ nb) ++ nu) = nu).
    { rewrite skipn_app, skipn_all, Nat.sub_diag. reflexivity. }
    rewrite Esk.
    destruct (foldM_push_complete nu st2) as (st3 & E3 & F3 & M3 & O3 & P3).
    { rewrite C2, C1. auto. }
    rewrite E3. cbn [bind]. rewrite M3. rewrite (rep_last _ _ _ R2). cbn [bind].
    rewrite (rep_item_count _ _ _ R2).
    rewrite (app_length (O ++ nb) nu).
    replace (length (O ++ nb) + length nu - length (O ++ nb)) with (length nu) by lia.
    replace (length nu <=? length (concat cs) + (length (O ++ nb) + length nu)) with true
      by (symmetry; apply Nat.leb_le; lia).
    cbn [assert bind].
    replace (length (O ++ nb) <=? length (O ++ nb) + length nu) with true
      by (symmetry; apply Nat.leb_le; lia).
    cbn [assert bind].
    eexists; split; [reflexivity|].
    destruct F3 as (Kf & Kh & Kp & Kl).
    split; [|split; [|split]].
    - split; [cbn; congruence|]. split; [cbn; congruence|]. split; cbn; congruence.
    - cbn. auto.
    - cbn. rewrite P3, C2, C1. reflexivity.
    - cbn [r_medial set_medial].
      match goal with |- rep (v_truncate_chart _ ?n) _ _ => set (nn := n) end.
      assert (Hn : nn = length (concat cs) + length (O ++ nb)) by (unfold nn; lia).
      pose proof (rep_truncate_chart _ _ _ nn R2 ltac:(lia)) as X.
      replace (nn - length (concat cs)) with (length (O ++ nb)) in X by lia.
      rewrite firstn_app, firstn_all, Nat.sub_diag, app_nil_r in X. exact X.
  Qed.

  (** ** One call of [complete] *)
  Definition heap_conseq (h : option sym) (set : list fitem) (row : bitrow) (o : nat) (s : sym) (T : fnode)
    (x : fitem) : Prop :=
    (exists it r B, In it set /\ nth_error R (it_dot it) = Some r /\ p_rhs r = [B; s] /\
       ok_lhs h (p_lhs r) = true /\ x = adv T it) \/
    (exists d r T0, nth_error R d = Some r /\ p_rhs r = [s] /\ topr (p_lhs r) T0 /\
       nth_error row T0 = Some true /\ ok_unary h s (p_lhs r) = true /\ x = mkItem d o T).
  Definition med_conseq (h : option sym) (row : bitrow) (o : nat) (s : sym) (T : fnode)
    (x : fitem) : Prop :=
    exists d r C T0, nth_error R d = Some r /\ p_rhs r = [s; C] /\ topr (p_lhs r) T0 /\
       nth_error row T0 = Some true /\ ok_medial h s C = true /\ x = mkItem d o T.

  Definition key (it : fitem) : nat * nat := (it_dot it, it_origin it).

  Definition row_closed (row : bitrow) : Prop :=
    forall A B, nth_error row A = Some true -> pred A B -> B < nsyms -> nth_error row B = Some true.

  Lemma nth_true : forall (row : bitrow) c, nth c row false = true <-> nth_error row c = Some true.
  Proof.
    intros row c. split; intros H.
    - destruct (nth_error row c) eqn:E.
      + apply (nth_error_nth _ _ false) in E. congruence.
      + apply nth_error_None in E. rewrite nth_overflow in H by lia. discriminate.
    - now apply (nth_error_nth _ _ false) in H.
  Qed.

  Lemma trans_length : forall s u l, trans_ok R nsyms s u l -> length l <= length R.
  Proof.
    intros s u l [Hnd Hin]. rewrite <- (map_length pt_dot), <- (seq_length (length R) 0).
    apply NoDup_incl_length; auto. intros d Hd. apply in_map_iff in Hd. destruct Hd as (t & <- & Ht).
    apply Hin in Ht. destruct Ht as (_ & r & Hr & _). apply in_seq. split; [lia|].
    simpl. apply nth_error_Some. congruence.
  Qed.

  Lemma in_trans_sel : forall h row s u l o T x, trans_ok R nsyms s u l ->
    (In x (map (new_item o T) (filter (trans_sel h row s) l)) <->
     exists d r T0, nth_error R d = Some r /\ nth_error (p_rhs r) 0 = Some s /\
       is_null (rhs1 r) = u /\ topr (p_lhs r) T0 /\ nth_error row T0 = Some true /\
       dot_ok h s d = true /\ x = mkItem d o T).
  Proof.
    intros h row s u l o T x [_ Hin]. rewrite in_map_iff. split.
    - intros (t & <- & Ht). apply filter_In in Ht. destruct Ht as [Ht Hs].
      apply Hin in Ht. destruct Ht as (Hu & r & Hr & H0 & Hn & Htop).
      unfold trans_sel in Hs. apply andb_true_iff in Hs. destruct Hs as [Hb Hd].
      apply nth_true in Hb. exists (pt_dot t), r, (pt_symbol t). repeat split; auto.
    - intros (d & r & T0 & Hr & H0 & Hn & Ht & Hb & Hd & ->).
      exists (mkPT T0 d u). split; auto. apply filter_In. split.
      + apply Hin. split; [reflexivity|]. exists r. auto.
      + unfold trans_sel. cbn. rewrite Hd. apply nth_true in Hb. now rewrite Hb.
  Qed.

  Lemma rhs_unary : forall d r s, nth_error R d = Some r ->
    (nth_error (p_rhs r) 0 = Some s /\ is_null (rhs1 r) = true <-> p_rhs r = [s]).
  Proof.
    intros d r s Hr. apply nth_error_In in Hr.
    destruct (rhs_cases _ _ _ wf r Hr) as [(B & E & _)|(B & C & E & _)]; unfold rhs1; rewrite E; cbn;
    split; try (intros [H1 H2]; congruence); intros H; try discriminate; split; congruence.
  Qed.
  Lemma rhs_binary : forall d r s, nth_error R d = Some r ->
    (nth_error (p_rhs r) 0 = Some s /\ is_null (rhs1 r) = false <-> exists C, p_rhs r = [s; C]).
  Proof.
    intros d r s Hr. apply nth_error_In in Hr.
    destruct (rhs_cases _ _ _ wf r Hr) as [(B & E & _)|(B & C & E & _)]; unfold rhs1; rewrite E; cbn;
    (split; [intros [H1 H2]|intros [D H]]; try discriminate; try (split; congruence)).
    exists C. congruence.
  Qed.

  Lemma unary_trans_in : forall h row s l o T x, trans_ok R nsyms s true l ->
    (In x (map (new_item o T) (filter (trans_sel h row s) l)) <->
     exists d r T0, nth_error R d = Some r /\ p_rhs r = [s] /\ topr (p_lhs r) T0 /\
       nth_error row T0 = Some true /\ ok_unary h s (p_lhs r) = true /\ x = mkItem d o T).
  Proof.
    intros h row s l o T x Hl. rewrite (in_trans_sel _ _ _ _ _ _ _ _ Hl). split.
    - intros (d & r & T0 & Hr & H0 & Hn & Ht & Hb & Hd & ->).
      exists d, r, T0. repeat split; auto.
      + eapply rhs_unary; eauto.
      + unfold dot_ok in Hd. rewrite Hr in Hd. destruct (rhs1 r); [discriminate|auto].
    - intros (d & r & T0 & Hr & E & Ht & Hb & Hd & ->).
      pose proof (proj2 (rhs_unary _ _ s Hr) E) as [H0 Hn].
      exists d, r, T0. repeat split; auto.
      unfold dot_ok. rewrite Hr. destruct (rhs1 r); [discriminate|auto].
  Qed.

  Lemma binary_trans_in : forall h row s l o T x, trans_ok R nsyms s false l ->
    (In x (map (new_item o T) (filter (trans_sel h row s) l)) <-> med_conseq h row o s T x).
  Proof.
    intros h row s l o T x Hl. rewrite (in_trans_sel _ _ _ _ _ _ _ _ Hl). split.
    - intros (d & r & T0 & Hr & H0 & Hn & Ht & Hb & Hd & ->).
      destruct (proj1 (rhs_binary _ _ s Hr) (conj H0 Hn)) as [C E].
      exists d, r, C, T0. repeat split; auto.
      unfold dot_ok in Hd. rewrite Hr in Hd. unfold rhs1 in Hd. rewrite E in Hd. exact Hd.
    - intros (d & r & C & T0 & Hr & E & Ht & Hb & Hd & ->).
      destruct (proj2 (rhs_binary _ _ s Hr) (ex_intro _ C E)) as [H0 Hn].
      exists d, r, T0. repeat split; auto.
      unfold dot_ok. rewrite Hr. unfold rhs1. rewrite E. exact Hd.
  Qed.

  Lemma trans_keys_nodup : forall h row s u l o T, trans_ok R nsyms s u l ->
    NoDup (map key (map (new_item o T) (filter (trans_sel h row s) l))).
  Proof.
    intros h row s u l o T [Hnd _].
    assert (X : NoDup (map pt_dot (filter (trans_sel h row s) l))) by now apply NoDup_map_filter.
    rewrite map_map. unfold key, new_item. cbn.
    revert X. generalize (filter (trans_sel h row s) l).
    induction l0 as [|a l0 IH]; simpl; intros X; [constructor|].
    inversion X; subst. constructor; auto.
    intros Y. apply H1. apply in_map_iff in Y. destruct Y as (b & E & Hb).
    injection E as E. rewrite <- E. now apply in_map.
  Qed.

  Lemma filter_length_le : forall A (p : A -> bool) l, length (filter p l) <= length l.
  Proof. induction l; simpl; auto. destruct (p a); simpl; lia. Qed.

  Theorem complete_spec : forall (st : state) cs O o set row s T,
    rep (r_medial st) cs O -> nth_error cs o = Some set -> set_ok set ->
    nth_error (r_predicted st) o = Some row -> length row = nsyms -> row_closed row ->
    (forall it C, In it set -> rhs1_of (it_dot it) = Some C -> nth_error row C = Some true) ->
    hint_ok (r_hint st) -> heap_ok (r_complete st) -> s < nall ->
    exists st' nh nm, complete free_forest P g st o s T = Ret st' /\ frame st st' /\
      heap_ok (r_complete st') /\ Permutation (r_complete st') (nh ++ r_complete st) /\
      rep (r_medial st') cs (O ++ nm) /\
      (forall x, In x nh <-> heap_conseq (r_hint st) set row o s T x) /\
      (forall x, In x nm <-> med_conseq (r_hint st) row o s T x) /\
      NoDup (map key nm) /\
      (NoDup set -> (forall it, In it set -> it_origin it <> o) -> NoDup nh) /\
      length nh <= length set + length R.
  Proof.
    intros st cs O o set row s T Hrep Hset Hsok Hrow Hlen Hcl Hbits Hh Hk Hs.
    unfold complete. rewrite (t_syms _ _ _ _ _ _ tok).
    destruct (Nat.leb_spec nsyms s) as [Hg|Hl].
    - (* generated symbol *)
      unfold complete_generated_binary_predictions.
      destruct (t_gen _ _ _ _ _ _ tok s Hg Hs) as (bo & uo & E & Hbo & Huo).
      rewrite E. cbn [bind].
      assert (Hdot_ok : forall t u, trans_ok R nsyms s u (opt_list (Some t)) -> dot_ok (r_hint st) s (pt_dot t) = true).
      { intros t u [_ Ht]. destruct (proj1 (Ht t) (or_introl eq_refl)) as (_ & r & Hr & _).
        unfold dot_ok. rewrite Hr. unfold Chart.ok_unary, Chart.ok_medial.
        apply Nat.leb_le in Hg. rewrite Hg. destruct (rhs1 r); reflexivity. }
      assert (Hsymr : forall t u, trans_ok R nsyms s u (opt_list (Some t)) -> pt_symbol t < length row).
      { intros t u [_ Ht]. destruct (proj1 (Ht t) (or_introl eq_refl)) as (_ & r & Hr & _ & _ & Htop).
        rewrite Hlen. eapply topr_range; eauto. }
      set (nu := map (new_item o T) (filter (trans_sel (r_hint st) row s) (opt_list uo))).
      set (nb := map (new_item o T) (filter (trans_sel (r_hint st) row s) (opt_list bo))).
      assert (S1 : exists st1, (match uo with
           | None => Ret st
           | Some t =>
               was_predicted <- bm_get (r_predicted st) o (pt_symbol t) ;;
               if was_predicted then push_complete st (mkItem (pt_dot t) o T)
               else Ret st end) = Ret st1 /\ frame st st1 /\ r_medial st1 = r_medial st /\
               heap_ok (r_complete st1) /\ Permutation (r_complete st1) (nu ++ r_complete st)).
      { unfold nu. destruct uo as [t|].
        - rewrite (bm_get_row _ _ _ _ Hrow) by (eapply Hsymr; eauto). cbn [bind opt_list filter].
          unfold trans_sel at 1. rewrite (Hdot_ok _ _ Huo), andb_true_r.
          destruct (nth (pt_symbol t) row false).
          + apply push_complete_spec; auto.
          + exists st. repeat split; auto.
        - exists st. repeat split; auto. }
      destruct S1 as (st1 & E1 & F1 & M1 & K1 & P1). rewrite E1. cbn [bind].
      assert (S2 : exists st2, (match bo with
           | None => Ret st1
           | Some t =>
               was_predicted <- bm_get (r_predicted st1) o (pt_symbol t) ;;
               if was_predicted then
                 Ret (set_medial st1 (v_push_item (r_medial st1) (mkItem (pt_dot t) o T)))
               else Ret st1 end) = Ret st2 /\ frame st1 st2 /\ r_complete st2 = r_complete st1 /\
               rep (r_medial st2) cs (O ++ nb)).
      { unfold nb. assert (Ep : r_predicted st1 = r_predicted st) by apply F1.
        rewrite <- M1 in Hrep. destruct bo as [t|].
        - rewrite Ep, (bm_get_row _ _ _ _ Hrow) by (eapply Hsymr; eauto). cbn [bind opt_list filter].
          unfold trans_sel at 1. rewrite (Hdot_ok _ _ Hbo), andb_true_r.
          destruct (nth (pt_symbol t) row false).
          + eexists; split; [reflexivity|]. split; [repeat split|]. split; [reflexivity|]. now apply rep_push.
          + exists st1. cbn. rewrite app_nil_r. repeat split; auto; apply Hrep.
        - exists st1. cbn. rewrite app_nil_r. repeat split; auto; apply Hrep. }
      destruct S2 as (st2 & E2 & F2 & C2 & R2).
      exists st2, nu, nb. split; [exact E2|].
      split; [eapply frame_trans; eauto|].
      split; [now rewrite C2|]. split; [now rewrite C2|]. split; [auto|].
      split; [|split; [|split; [|split]]].
      + intros x. unfold nu. rewrite (unary_trans_in _ _ _ _ _ _ _ Huo). unfold heap_conseq.
        split; [intros H; right; exact H|]. intros [(it & r & B & Hit & Hr & Erhs & _)|H]; [|exact H].
        exfalso. assert (s < nsyms).
        { eapply (wf_rhs1 _ _ _ wf r s); [eapply nth_error_In; eauto|]. now rewrite Erhs. }
        lia.
      + intros x. unfold nb. apply (binary_trans_in _ _ _ _ _ _ _ Hbo).
      + unfold nb. now apply (trans_keys_nodup _ _ _ false).
      + intros _ _. apply (NoDup_map_inv key). unfold nu. now apply (trans_keys_nodup _ _ _ true).
      + unfold nu. rewrite map_length. pose proof (trans_length _ _ _ Huo).
        pose proof (filter_length_le _ (trans_sel (r_hint st) row s) (opt_list uo)). lia.
    - rewrite (bm_get_row _ _ _ _ Hrow) by lia. cbn [bind].
      destruct (t_comp _ _ _ _ _ _ tok s Hl) as (lb & lu & Ec & Hlb & Hlu).
      destruct (nth s row false) eqn:Ebit.
      + rewrite Hleo. cbn [negb bind].
        destruct (complete_medial_items_spec st cs O o set s T Hrep Hset Hsok Hh Hk)
          as (st1 & E1 & F1 & M1 & K1 & P1).
        rewrite E1. cbn [bind].
        destruct F1 as (Ff & Fh & Fp & Fl).
        destruct (complete_predictions_spec st1 cs O o row s T lb lu) as (st2 & E2 & F2 & K2 & P2 & R2);
          auto; try congruence.
        rewrite Fh in *.
        set (na := map (adv T) (filter (adv_sel (r_hint st)) (filter (fun it => r1 it =? s) set))) in *.
        set (nu := map (new_item o T) (filter (trans_sel (r_hint st) row s) lu)) in *.
        set (nb := map (new_item o T) (filter (trans_sel (r_hint st) row s) lb)) in *.
        assert (Hna : forall x, In x na <-> exists it r B, In it set /\ nth_error R (it_dot it) = Some r /\
                   p_rhs r = [B; s] /\ ok_lhs (r_hint st) (p_lhs r) = true /\ x = adv T it).
        { intros x. unfold na. rewrite in_map_iff. split.
          - intros (it & <- & Hit). apply filter_In in Hit. destruct Hit as [Hit Ha].
            apply filter_In in Hit. destruct Hit as [Hit He]. apply Nat.eqb_eq in He.
            destruct (proj2 Hsok it Hit) as (r & B & C & Hr & Erhs).
            exists it, r, B. repeat split; auto.
            + unfold r1, rhs1_of in He. rewrite Hr in He. unfold rhs1 in He. rewrite Erhs in He. cbn in He.
              now rewrite Erhs, He.
            + unfold adv_sel, lhs_of in Ha. now rewrite Hr in Ha.
          - intros (it & r & B & Hit & Hr & Erhs & Hok & ->).
            exists it. split; auto. apply filter_In. split.
            + apply filter_In. split; auto. apply Nat.eqb_eq. unfold r1, rhs1_of. rewrite Hr.
              unfold rhs1. now rewrite Erhs.
            + unfold adv_sel, lhs_of. now rewrite Hr. }
        exists st2, (nu ++ na), nb. split; [exact E2|].
        split; [eapply frame_trans; [|eauto]; repeat split; auto|].
        split; [auto|]. split; [rewrite P2, P1; now rewrite app_assoc|]. split; [auto|].
        split; [|split; [|split; [|split]]].
        * intros x. rewrite in_app_iff, Hna. unfold nu. rewrite (unary_trans_in _ _ _ _ _ _ _ Hlu).
          unfold heap_conseq. tauto.
        * intros x. apply (binary_trans_in _ _ _ _ _ _ _ Hlb).
        * now apply (trans_keys_nodup _ _ _ false).
        * intros Hnd Hne.
          assert (Hna_nd : NoDup na).
          { unfold na. apply FinFun.Injective_map_NoDup.
            - intros [d1 o1 n1] [d2 o2 n2] X. unfold adv in X. cbn in X. congruence.
            - now do 2 apply NoDup_filter. }
          assert (Hnu_nd : NoDup nu) by (apply (NoDup_map_inv key); now apply (trans_keys_nodup _ _ _ true)).
          assert (Hdis : forall x, In x nu -> ~ In x na).
          { intros x Hx Hy. unfold nu in Hx. apply in_map_iff in Hx. destruct Hx as (t & <- & _).
            apply Hna in Hy. destruct Hy as (it & _ & _ & Hit & _ & _ & _ & Ey).
            apply (f_equal (@it_origin fnode)) in Ey. cbn in Ey. apply (Hne it Hit). now symmetry. }
          clear - Hna_nd Hnu_nd Hdis. induction nu as [|a l IH]; simpl; auto.
          inversion Hnu_nd; subst. constructor.
          -- rewrite in_app_iff. intros [?|?]; [auto|]. eapply Hdis; simpl; eauto.
          -- apply IH; auto. intros; apply Hdis; simpl; auto.
        * rewrite app_length. unfold nu, na. rewrite !map_length.
          pose proof (trans_length _ _ _ Hlu).
          pose proof (filter_length_le _ (trans_sel (r_hint st) row s) lu).
          pose proof (filter_length_le _ (adv_sel (r_hint st)) (filter (fun it : fitem => r1 it =? s) set)).
          pose proof (filter_length_le _ (fun it : fitem => r1 it =? s) set). lia.
      + (* not predicted: nothing to do *)
        assert (Hno : nth_error row s <> Some true).
        { intros X. apply nth_true in X. congruence. }
        exists st, [], []. rewrite app_nil_r. split; [reflexivity|]. split; [apply frame_refl|].
        split; [auto|]. split; [auto|]. split; [auto|].
        split; [|split; [|split; [constructor|split; [constructor|simpl; lia]]]].
        * intros x. split; [intros []|].
          intros [(it & r & B & Hit & Hr & Erhs & _)|(d & r & T0 & Hr & Erhs & Ht & Hb & _)]; apply Hno.
          -- apply (Hbits it s Hit). unfold rhs1_of. rewrite Hr. unfold rhs1. now rewrite Erhs.
          -- eapply Hcl; eauto. eapply topr_pred; eauto using nth_error_In. now rewrite Erhs.
        * intros x. split; [intros []|].
          intros (d & r & C & T0 & Hr & Erhs & Ht & Hb & _). apply Hno.
          eapply Hcl; eauto. eapply topr_pred; eauto using nth_error_In. now rewrite Erhs.
  Qed.
End Core1.
