(** Cost: how often the recognizer calls its forest, and how many items it holds. *)
From Coq Require Import List Arith Bool Lia Permutation.
From Verif Require Import Base BaseProofs Vec2d Vec2dProofs Item Heap HeapProofs Grammar BitMatrix
  DefaultGrammar Forest Recognizer Drive Spec Chart ChartFacts Tables CostSpec.
From Verif Require Core4.
Import ListNotations.
Local Open Scope res_scope.

Lemma bindR : forall A B (x : res A) (f : A -> res B) b, bind x f = Ret b -> exists a, x = Ret a /\ f a = Ret b.
Proof. intros A B x f b H. destruct x; try discriminate. eauto. Qed.

Ltac inv H := let a := fresh "a" in let E := fresh "E" in apply bindR in H; destruct H as (a & E & H).

(** number of items of a list that start at [o] *)
Definition cnt {N} (o : nat) (l : list (item N)) : nat := length (filter (fun it => it_origin it =? o) l).

Lemma cnt_app : forall N o (a b : list (item N)), cnt o (a ++ b) = cnt o a + cnt o b.
Proof. intros. unfold cnt. now rewrite filter_app, app_length. Qed.
Lemma cnt_perm : forall N o (a b : list (item N)), Permutation a b -> cnt o a = cnt o b.
Proof.
  intros N o a b H. unfold cnt. induction H as [|x l l' H IH|x y l|l1 l2 l3 H1 IH1 H2 IH2]; cbn; try congruence;
    repeat (match goal with |- context [if ?c then _ else _] => destruct c end; cbn; auto).
Qed.
Lemma cnt_le_length : forall N o (a : list (item N)), cnt o a <= length a.
Proof. intros. unfold cnt. induction a as [|x l IH]; cbn; [lia|]. destruct (it_origin x =? o); cbn; lia. Qed.
Lemma cnt_none : forall N o (a : list (item N)), (forall x, In x a -> it_origin x <> o) -> cnt o a = 0.
Proof.
  intros N o a H. unfold cnt. rewrite filter_none; auto. intros x Hx. apply Nat.eqb_neq. auto.
Qed.

Lemma list_sum_cons : forall a l, list_sum (a :: l) = a + list_sum l.
Proof. reflexivity. Qed.

Lemma length_cnt : forall N m (l : list (item N)), (forall x, In x l -> it_origin x < m) ->
  length l = list_sum (map (fun o => cnt o l) (seq 0 m)).
Proof.
  intros N m. induction l as [|x l IH]; intros H.
  - cbn. induction (seq 0 m); cbn; auto.
  - cbn [length]. rewrite IH by (intros; apply H; simpl; auto).
    specialize (H x (or_introl eq_refl)).
    assert (Hin : In (it_origin x) (seq 0 m)) by (apply in_seq; lia).
    pose proof (seq_NoDup m 0) as ND. clear IH.
    induction (seq 0 m) as [|a t IHt]; [destruct Hin|].
    cbn [map]. rewrite !list_sum_cons. inversion ND as [|? ? Hna NDt]; subst. unfold cnt in *. cbn [filter].
    destruct Hin as [Hin|Hin].
    + assert (E : map (fun o => length (if it_origin x =? o then x :: filter (fun it => it_origin it =? o) l
          else filter (fun it => it_origin it =? o) l)) t = map (fun o => length (filter (fun it => it_origin it =? o) l)) t).
      { apply map_ext_in. intros o Ho. destruct (Nat.eqb_spec (it_origin x) o) as [e|]; [|auto].
        exfalso. apply Hna. congruence. }
      rewrite E. rewrite <- Hin, Nat.eqb_refl. cbn [length]. lia.
    + destruct (Nat.eqb_spec (it_origin x) a) as [e|]; [exfalso; apply Hna; congruence|]. specialize (IHt Hin NDt). cbn [filter] in IHt. lia.
Qed.

Lemma list_sum_le : forall A (f : A -> nat) b l, (forall x, In x l -> f x <= b) -> list_sum (map f l) <= length l * b.
Proof.
  induction l as [|a l IH]; intros H; [cbn; lia|]. cbn [map length]. rewrite list_sum_cons.
  pose proof (H a (or_introl eq_refl)). pose proof (IH (fun x Hx => H x (or_intror Hx))). lia.
Qed.

Lemma length_bound : forall N m B (l : list (item N)), (forall x, In x l -> it_origin x < m) ->
  (forall o, cnt o l <= B) -> length l <= m * B.
Proof.
  intros N m B l H1 H2. rewrite (length_cnt N m l H1).
  pose proof (list_sum_le _ (fun o => cnt o l) B (seq 0 m) (fun o _ => H2 o)) as X. rewrite seq_length in X. exact X.
Qed.

Section Cost.
  Context {F N : Type}.
  Variable fo : forest_ops F N.
  Variable P : perf.
  Variable g : dgrammar.
  Variable R : list prule.
  Variables nsyms nall : nat.
  Variables FIRST FOLLOW : sym -> sym -> bool.
  Hypothesis Hleo : LEO P = false.
  Hypothesis wf : wf_rules R nsyms nall.
  Hypothesis tok : tables_ok g R nsyms nall FIRST FOLLOW.
  Variable rank : sym -> nat.
  Hypothesis Hrank : forall r B, In r R -> p_rhs r = [B] -> rank (p_lhs r) < rank B.

  Notation state := (rstate (F * nat) N).
  Notation nitem := (item N).
  Notation fc := (counted fo).
  Definition calls (st : state) : nat := snd (r_forest st).
  Definition dot_ok (it : nitem) : Prop := it_dot it < length R.

  (** ** One completed symbol *)
  Lemma push_complete_cost : forall (st st' : state) it, heap_ok (r_complete st) -> push_complete st it = Ret st' ->
    r_medial st' = r_medial st /\ r_forest st' = r_forest st /\ heap_ok (r_complete st') /\
    Permutation (r_complete st') (it :: r_complete st).
  Proof.
    intros st st' it Hk H. unfold push_complete in H.
    destruct (heap_push_spec _ it Hk) as (h' & E & O & Pm). rewrite E in H. cbn [bind] in H. injection H as <-.
    cbn. repeat split; auto. now symmetry.
  Qed.

  Lemma medial_item_cost : forall (st st' : state) T it, heap_ok (r_complete st) ->
    complete_medial_item fc P g T st it = Ret st' ->
    r_medial st' = r_medial st /\ heap_ok (r_complete st') /\ calls st' <= S (calls st) /\
    exists nh, Permutation (r_complete st') (nh ++ r_complete st) /\ length nh <= 1 /\
      forall x, In x nh -> it_dot x = it_dot it /\ it_origin x = it_origin it.
  Proof.
    intros st st' T it Hk H. unfold complete_medial_item in H. inv H.
    destruct (negb (LOOKAHEAD P) || a).
    - inv H. destruct a0 as [n f]. inv H. injection H as <-.
      cbn [f_product counted] in E0. inv E0. destruct a1 as [n' f']. injection E0 as <- <-.
      destruct (heap_push_spec _ (mkItem (it_dot it) (it_origin it) n') Hk) as (h' & E' & O & Pm).
      rewrite E' in E1. injection E1 as <-. cbn.
      split; [auto|]. split; [auto|]. split; [unfold calls; cbn; lia|].
      eexists [_]. split; [symmetry; exact Pm|]. split; [auto|]. intros x [<-|[]]; auto.
    - injection H as <-. split; [auto|]. split; [auto|]. split; [lia|]. exists []. split; [auto|]. split; [auto|]. intros x [].
  Qed.

  Lemma medial_fold_cost : forall l (st st' : state) T, heap_ok (r_complete st) ->
    foldM (complete_medial_item fc P g T) l st = Ret st' ->
    r_medial st' = r_medial st /\ heap_ok (r_complete st') /\ calls st' <= calls st + length l /\
    exists nh, Permutation (r_complete st') (nh ++ r_complete st) /\ length nh <= length l /\
      forall x, In x nh -> exists it, In it l /\ it_dot x = it_dot it /\ it_origin x = it_origin it.
  Proof.
    induction l as [|it l IH]; intros st st' T Hk H; cbn [foldM] in H.
    - injection H as <-. split; [auto|]. split; [auto|]. split; [lia|]. exists []. split; [auto|]. split; [auto|]. intros x [].
    - inv H. destruct (medial_item_cost _ _ _ _ Hk E) as (M1 & K1 & C1 & nh1 & P1 & L1 & I1).
      destruct (IH _ _ _ K1 H) as (M2 & K2 & C2 & nh2 & P2 & L2 & I2).
      split; [congruence|]. split; [auto|]. split; [cbn; lia|]. exists (nh2 ++ nh1).
      split; [rewrite P2, P1; now rewrite app_assoc|]. split; [rewrite app_length; cbn; lia|].
      intros x Hx. apply in_app_iff in Hx. destruct Hx as [Hx|Hx].
      + destruct (I2 x Hx) as (i & Hi & Hk'). exists i. split; [simpl; auto|auto].
      + exists it. split; [simpl; auto|auto].
  Qed.

  Lemma take_while_incl : forall A (p : A -> bool) l x, In x (take_while p l) -> In x l.
  Proof. induction l as [|a l IH]; cbn; intros x H; [auto|]. destruct (p a); [destruct H; auto|destruct H]. Qed.
  Lemma take_while_length : forall A (p : A -> bool) l, length (take_while p l) <= length l.
  Proof. induction l as [|a l IH]; cbn; [auto|]. destruct (p a); cbn; lia. Qed.

  Lemma medial_items_cost : forall (st st' : state) cs O o set s T, rep (r_medial st) cs O ->
    nth_error cs o = Some set -> heap_ok (r_complete st) ->
    complete_medial_items fc P g st o s T = Ret st' ->
    r_medial st' = r_medial st /\ heap_ok (r_complete st') /\ calls st' <= calls st + length set /\
    exists nh, Permutation (r_complete st') (nh ++ r_complete st) /\ length nh <= length set /\
      forall x, In x nh -> exists it, In it set /\ it_dot x = it_dot it /\ it_origin x = it_origin it.
  Proof.
    intros st st' cs O o set s T Hrep Hset Hk H. unfold complete_medial_items in H.
    rewrite (rep_index _ _ _ _ _ Hrep Hset) in H. cbn [bind] in H. inv H.
    apply mapM_inv in E.
    assert (Hl : length a = length set) by (clear -E; induction E; cbn; auto).
    assert (Hs : forall x, In x a -> In (snd x) set).
    { clear -E. induction E as [|it x l l' Hx _ IH]; intros y []; [subst y|right; auto].
      left. destruct (get_rhs1 g (it_dot it)); try discriminate. injection Hx as <-. reflexivity. }
    match type of H with foldM _ (map snd ?L) _ = _ => set (items := L) in * end.
    destruct (medial_fold_cost _ _ _ _ Hk H) as (M & K & C & nh & Pm & L & I).
    assert (Hi : length items <= length set).
    { unfold items. etransitivity; [apply take_while_length|]. rewrite skipn_length. lia. }
    rewrite map_length in C, L.
    split; [auto|]. split; [auto|]. split; [lia|]. exists nh. split; [auto|]. split; [lia|].
    intros x Hx. destruct (I x Hx) as (it & Hit & Hkey). exists it. split; [|auto].
    apply in_map_iff in Hit. destruct Hit as (y & <- & Hy). apply Hs.
    apply take_while_incl in Hy. rewrite <- (firstn_skipn (match binary_search_by (fun x => search_cmp s (fst x)) a with inl i => i | inr i => i end) a).
    apply in_app_iff. auto.
  Qed.

  (** the rule of a transition over [s] *)
  Definition starts_with (s : sym) (u : bool) (d : nat) : Prop :=
    exists r, nth_error R d = Some r /\ nth_error (p_rhs r) 0 = Some s /\ is_null (rhs1 r) = u.

  Lemma prediction_fold_cost : forall l (st st' : state) cs O o T b b', rep (r_medial st) cs O ->
    foldM (complete_prediction P g o T) l (st, b) = Ret (st', b') ->
    r_complete st' = r_complete st /\ r_forest st' = r_forest st /\
    exists l', rep (r_medial st') cs (O ++ map (fun t => mkItem (pt_dot t) o T) l') /\
      incl l' l /\ length l' <= length l /\
      b' = b + length (filter (fun t => negb (pt_unary t)) l') /\
      (forall a b, l = a ++ b -> (forall t, In t a -> pt_unary t = false) -> (forall t, In t b -> pt_unary t = true) ->
        exists la lb, l' = la ++ lb /\ (forall t, In t la -> pt_unary t = false) /\ (forall t, In t lb -> pt_unary t = true) /\
          length la <= length a /\ length lb <= length b).
  Proof.
    induction l as [|t l IH]; intros st st' cs O o T b b' Hrep H; cbn [foldM] in H.
    - injection H as <- <-. split; [auto|]. split; [auto|]. exists []. cbn. rewrite app_nil_r.
      split; [auto|]. split; [intros x []|]. split; [auto|]. split; [lia|].
      intros a c Eac _ _. symmetry in Eac. apply app_eq_nil in Eac. destruct Eac as [-> ->].
      exists [], []. repeat split; auto; intros ? [].
    - inv H. destruct a as [st1 b1]. unfold complete_prediction in E. inv E. inv E.
      destruct (a && (negb (LOOKAHEAD P) || a0)).
      + injection E as <- <-. set (it := mkItem (pt_dot t) o T) in *.
        destruct (IH (set_medial st (v_push_item (r_medial st) it)) _ cs (O ++ [it]) _ _ _ _ (rep_push _ _ _ it Hrep) H) as (Ec & Ef & l' & R' & I' & L' & B' & S').
        split; [rewrite Ec; auto|]. split; [rewrite Ef; auto|]. exists (t :: l').
        split; [rewrite <- app_assoc in R'; exact R'|]. split; [intros x [<-|Hx]; [simpl; auto|right; auto]|].
        split; [cbn; lia|]. split; [rewrite B'; cbn; destruct (pt_unary t); cbn; lia|].
        intros x y Exy Hx Hy. destruct x as [|x0 x]; cbn in Exy.
        * subst y. destruct (S' [] l eq_refl ltac:(intros ? []) ltac:(intros; apply Hy; simpl; auto)) as (la & lb & -> & A1 & A2 & A3 & A4).
          destruct la; [|cbn in A3; lia]. exists [], (t :: lb). split; [auto|]. split; [intros ? []|].
          split; [intros z [<-|Hz]; [apply Hy; simpl; auto|auto]|]. cbn in *. lia.
        * injection Exy as <- ->. destruct (S' x y eq_refl ltac:(intros; apply Hx; simpl; auto) Hy) as (la & lb & -> & A1 & A2 & A3 & A4).
          exists (t :: la), lb. split; [auto|]. split; [intros z [<-|Hz]; [apply Hx; simpl; auto|auto]|]. split; [auto|]. cbn. lia.
      + injection E as <- <-.
        destruct (IH _ _ cs O _ _ _ _ Hrep H) as (Ec & Ef & l' & R' & I' & L' & B' & S').
        split; [auto|]. split; [auto|]. exists l'. split; [auto|]. split; [intros x Hx; right; auto|]. split; [cbn; lia|]. split; [auto|].
        intros x y Exy Hx Hy. destruct x as [|x0 x]; cbn in Exy.
        * subst y. destruct (S' [] l eq_refl ltac:(intros ? []) ltac:(intros; apply Hy; simpl; auto)) as (la & lb & -> & A1 & A2 & A3 & A4).
          exists la, lb. repeat split; auto. cbn. lia.
        * injection Exy as <- ->. destruct (S' x y eq_refl ltac:(intros; apply Hx; simpl; auto) Hy) as (la & lb & -> & A1 & A2 & A3 & A4).
          exists la, lb. repeat split; auto. cbn. lia.
  Qed.

  Lemma push_fold_cost : forall l (st st' : state), heap_ok (r_complete st) -> foldM push_complete l st = Ret st' ->
    r_medial st' = r_medial st /\ r_forest st' = r_forest st /\ heap_ok (r_complete st') /\
    Permutation (r_complete st') (l ++ r_complete st).
  Proof.
    induction l as [|x l IH]; intros st st' Hk H; cbn [foldM] in H.
    - injection H as <-. auto.
    - inv H. destruct (push_complete_cost _ _ _ Hk E) as (M1 & F1 & K1 & P1).
      destruct (IH _ _ K1 H) as (M2 & F2 & K2 & P2). split; [congruence|]. split; [congruence|]. split; [auto|].
      rewrite P2, P1. cbn. symmetry. apply Permutation_middle.
  Qed.

  Lemma trans_length : forall s u l, trans_ok R nsyms s u l -> length l <= length R.
  Proof.
    intros s u l [ND H]. rewrite <- (map_length pt_dot). rewrite <- (seq_length (length R) 0).
    apply NoDup_incl_length; auto. intros d Hd. apply in_map_iff in Hd. destruct Hd as (t & <- & Ht).
    apply H in Ht. destruct Ht as (_ & r & Hr & _). apply in_seq. split; [lia|]. cbn. apply nth_error_Some. congruence.
  Qed.

  (** what completing the symbol [s] from [o] on adds *)
  Definition added (set : list nitem) (o : nat) (s : sym) (nh nm : list nitem) : Prop :=
    length nh <= length set + length R /\ length nm <= length R /\
    (forall x, In x nh -> (exists it, In it set /\ it_dot x = it_dot it /\ it_origin x = it_origin it) \/
       (it_origin x = o /\ starts_with s true (it_dot x))) /\
    (forall x, In x nm -> it_origin x = o /\ it_dot x < length R).

  Lemma predictions_cost : forall (st st' : state) cs O o s T, rep (r_medial st) cs O -> heap_ok (r_complete st) ->
    s < nsyms -> complete_predictions P g st o s T = Ret st' ->
    r_forest st' = r_forest st /\ heap_ok (r_complete st') /\
    exists nh nm, rep (r_medial st') cs (O ++ nm) /\ Permutation (r_complete st') (nh ++ r_complete st) /\
      length nh <= length R /\ length nm <= length R /\
      (forall x, In x nh -> it_origin x = o /\ starts_with s true (it_dot x)) /\
      (forall x, In x nm -> it_origin x = o /\ it_dot x < length R).
  Proof.
    intros st st' cs O o s T Hrep Hk Hs H. unfold complete_predictions in H.
    rewrite (rep_last _ _ _ Hrep) in H. cbn [bind] in H.
    destruct (t_comp _ _ _ _ _ _ tok s Hs) as (lb & lu & Ec & Tb & Tu). rewrite Ec in H. cbn [bind] in H.
    inv H. destruct a as [st1 b1].
    destruct (prediction_fold_cost _ _ _ _ _ _ _ _ _ Hrep E) as (C1 & F1 & l' & R1 & I1 & L1 & B1 & S1).
    destruct (S1 lb lu eq_refl) as (la & lv & -> & A1 & A2 & A3 & A4).
    { intros t Ht. apply (proj2 Tb) in Ht. tauto. } { intros t Ht. apply (proj2 Tu) in Ht. tauto. }
    rewrite (rep_last _ _ _ R1) in H. cbn [bind] in H.
    assert (Eb : length (filter (fun t => negb (pt_unary t)) (la ++ lv)) = length la).
    { rewrite filter_app, app_length, (filter_all _ _ la), (filter_none _ _ lv); [cbn; lia| |].
      - intros t Ht. now rewrite (A2 t Ht). - intros t Ht. now rewrite (A1 t Ht). }
    rewrite Eb in B1.
    set (nm := map (fun t => mkItem (pt_dot t) o T) la). set (nh := map (fun t => mkItem (pt_dot t) o T) lv).
    rewrite map_app in R1. fold nm nh in R1. rewrite app_assoc in R1.
    assert (Eb1 : b1 = length (O ++ nm)) by (unfold nm; rewrite app_length, map_length; lia).
    rewrite map_app in H. fold nm nh in H. rewrite app_assoc in H. rewrite Eb1 in H.
    rewrite skipn_app, skipn_all, Nat.sub_diag in H. cbn [skipn app] in H.
    inv H. destruct (push_fold_cost _ _ _ ltac:(rewrite C1; exact Hk) E0) as (M2 & F2 & K2 & P2).
    rewrite M2, (rep_last _ _ _ R1) in H. cbn [bind] in H. inv H. inv H. injection H as <-.
    rewrite C1 in P2. cbn [r_forest set_medial r_complete r_medial].
    split; [congruence|]. split; [auto|]. exists nh, nm.
    split.
    { rewrite (rep_item_count _ _ _ R1), (app_length (O ++ nm) nh).
      match goal with |- rep (v_truncate_chart _ ?n) _ _ => set (nn := n) end.
      assert (Hn : nn = length (concat cs) + length (O ++ nm)) by (unfold nn; lia).
      pose proof (rep_truncate_chart _ _ _ nn R1 ltac:(lia)) as X.
      replace (nn - length (concat cs)) with (length (O ++ nm)) in X by lia.
      rewrite firstn_app, firstn_all, Nat.sub_diag, app_nil_r in X. exact X. }
    split; [exact P2|].
    pose proof (trans_length _ _ _ Tb). pose proof (trans_length _ _ _ Tu).
    split; [unfold nh; rewrite map_length; lia|]. split; [unfold nm; rewrite map_length; lia|].
    assert (Hin : forall t, In t (la ++ lv) -> exists r, nth_error R (pt_dot t) = Some r /\ nth_error (p_rhs r) 0 = Some s /\
      is_null (rhs1 r) = pt_unary t).
    { intros t Ht. apply I1 in Ht. apply in_app_iff in Ht. destruct Ht as [Ht|Ht];
        [apply (proj2 Tb) in Ht|apply (proj2 Tu) in Ht]; destruct Ht as (Eu & r & X1 & X2 & X3 & _); exists r; rewrite Eu; auto. }
    split; intros x Hx; apply in_map_iff in Hx; destruct Hx as (t & <- & Ht); cbn.
    - split; [auto|]. destruct (Hin t) as (r & X1 & X2 & X3); [apply in_app_iff; auto|]. exists r. rewrite (A2 t Ht) in X3. auto.
    - split; [auto|]. destruct (Hin t) as (r & X1 & X2 & X3); [apply in_app_iff; auto|]. apply nth_error_Some. congruence.
  Qed.

  Lemma generated_cost : forall (st st' : state) cs O o s T, rep (r_medial st) cs O -> heap_ok (r_complete st) ->
    nsyms <= s -> s < nall -> complete_generated_binary_predictions g st o s T = Ret st' ->
    r_forest st' = r_forest st /\ heap_ok (r_complete st') /\
    exists nh nm, rep (r_medial st') cs (O ++ nm) /\ Permutation (r_complete st') (nh ++ r_complete st) /\
      length nh <= length R /\ length nm <= length R /\
      (forall x, In x nh -> it_origin x = o /\ starts_with s true (it_dot x)) /\
      (forall x, In x nm -> it_origin x = o /\ it_dot x < length R).
  Proof.
    intros st st' cs O o s T Hrep Hk Hs1 Hs2 H. unfold complete_generated_binary_predictions in H.
    destruct (t_gen _ _ _ _ _ _ tok s Hs1 Hs2) as (bo & uo & Eg & Tb & Tu). rewrite Eg in H. cbn [bind] in H.
    inv H. rename a into st1.
    assert (X : r_medial st1 = r_medial st /\ r_forest st1 = r_forest st /\ heap_ok (r_complete st1) /\
      exists nh, Permutation (r_complete st1) (nh ++ r_complete st) /\ length nh <= length (opt_list uo) /\
        forall x, In x nh -> it_origin x = o /\ starts_with s true (it_dot x)).
    { destruct uo as [t|].
      - inv E. destruct a.
        + destruct (push_complete_cost _ _ _ Hk E) as (M1 & F1 & K1 & P1). split; [auto|]. split; [auto|]. split; [auto|].
          eexists [_]. split; [exact P1|]. split; [cbn; lia|]. intros x [<-|[]]. cbn. split; [auto|].
          destruct (proj1 (proj2 Tu t) (or_introl eq_refl)) as (_ & r & X1 & X2 & X3 & _). exists r. auto.
        + injection E as <-. split; [auto|]. split; [auto|]. split; [auto|]. exists []. split; [auto|]. split; [cbn; lia|]. intros x [].
      - injection E as <-. split; [auto|]. split; [auto|]. split; [auto|]. exists []. split; [auto|]. split; [cbn; lia|]. intros x []. }
    destruct X as (M1 & F1 & K1 & nh & P1 & L1 & I1).
    pose proof (trans_length _ _ _ Tb). pose proof (trans_length _ _ _ Tu).
    assert (Y : exists nm, rep (r_medial st') cs (O ++ nm) /\ r_forest st' = r_forest st1 /\ r_complete st' = r_complete st1 /\
      length nm <= length (opt_list bo) /\ forall x, In x nm -> it_origin x = o /\ it_dot x < length R).
    { rewrite <- M1 in Hrep. destruct bo as [t|].
      - inv H. destruct a; injection H as <-.
        + eexists [_]. split; [cbn; apply rep_push; exact Hrep|]. cbn. split; [auto|]. split; [auto|]. split; [lia|].
          intros x [<-|[]]. cbn. split; [auto|].
          destruct (proj1 (proj2 Tb t) (or_introl eq_refl)) as (_ & r & X1 & X2 & X3 & _). apply nth_error_Some. congruence.
        + exists []. rewrite app_nil_r. cbn. repeat split; auto; try lia; try apply Hrep; destruct H.
      - injection H as <-. exists []. rewrite app_nil_r. cbn. repeat split; auto; try lia; try apply Hrep; destruct H. }
    destruct Y as (nm & Rm & F2 & C2 & L2 & I2).
    split; [congruence|]. split; [now rewrite C2|]. exists nh, nm. split; [auto|]. split; [now rewrite C2|].
    split; [lia|]. split; [lia|]. auto.
  Qed.

  Lemma complete_cost : forall (st st' : state) cs O o set s T, rep (r_medial st) cs O -> heap_ok (r_complete st) ->
    nth_error cs o = Some set -> s < nall -> complete fc P g st o s T = Ret st' ->
    heap_ok (r_complete st') /\ calls st' <= calls st + length set /\
    exists nh nm, rep (r_medial st') cs (O ++ nm) /\ Permutation (r_complete st') (nh ++ r_complete st) /\ added set o s nh nm.
  Proof.
    intros st st' cs O o set s T Hrep Hk Hset Hs H. unfold complete in H. rewrite (t_syms _ _ _ _ _ _ tok) in H.
    destruct (Nat.leb_spec nsyms s) as [Hg|Hg].
    - destruct (generated_cost _ _ _ _ _ _ _ Hrep Hk Hg Hs H) as (F1 & K1 & nh & nm & R1 & P1 & L1 & L2 & I1 & I2).
      split; [auto|]. split; [unfold calls; rewrite F1; lia|]. exists nh, nm. split; [auto|]. split; [auto|].
      split; [lia|]. split; [auto|]. split; [intros x Hx; right; auto|auto].
    - inv H. destruct a.
      + rewrite Hleo in H. cbn [negb bind] in H. inv H. rename a into st1.
        destruct (medial_items_cost _ _ _ _ _ _ _ _ Hrep Hset Hk E0) as (M1 & K1 & C1 & nh1 & P1 & L1 & I1).
        rewrite <- M1 in Hrep.
        destruct (predictions_cost _ _ _ _ _ _ _ Hrep K1 Hg H) as (F2 & K2 & nh2 & nm & R2 & P2 & L2 & L3 & I2 & I3).
        split; [auto|]. split; [unfold calls in *; rewrite F2; lia|]. exists (nh2 ++ nh1), nm. split; [auto|].
        split; [rewrite P2, P1; now rewrite app_assoc|]. split; [rewrite app_length; lia|]. split; [auto|]. split; [|auto].
        intros x Hx. apply in_app_iff in Hx. destruct Hx; auto.
      + injection H as <-. split; [auto|]. split; [lia|]. exists [], []. rewrite app_nil_r. split; [auto|]. split; [auto|].
        split; [cbn; lia|]. split; [cbn; lia|]. split; intros x [].
  Qed.

  (** ** Taking a group *)
  Definition lhs_of (d : nat) : sym := match nth_error R d with Some r => p_lhs r | None => 0 end.
  Definition in_group (o : nat) (A : sym) (it : nitem) : Prop := it_origin it = o /\ lhs_of (it_dot it) = A.

  Lemma get_lhs_of : forall d, d < length R -> get_lhs g d = Ret (lhs_of d).
  Proof.
    intros d Hd. unfold lhs_of. destruct (nth_error R d) as [r|] eqn:E; [|apply nth_error_None in E; lia].
    exact (t_lhs _ _ _ _ _ _ tok _ _ E).
  Qed.

  Lemma next_summand_cost : forall o A (st st' : state) x, heap_ok (r_complete st) -> (forall it, In it (r_complete st) -> dot_ok it) ->
    next_summand g o A st = Ret (x, st') ->
    r_medial st' = r_medial st /\ r_forest st' = r_forest st /\ heap_ok (r_complete st') /\
    match x with
    | Some it => heap_peek (r_complete st) = Some it /\ Permutation (r_complete st) (it :: r_complete st')
    | None => st' = st /\ forall top, heap_peek (r_complete st) = Some top -> ~ in_group o A top
    end.
  Proof.
    intros o A st st' x Hk Hd H. unfold next_summand in H.
    destruct (heap_peek (r_complete st)) as [top|] eqn:Ep.
    - rewrite (get_lhs_of (it_dot top)) in H by (apply Hd; eapply nth_error_In; exact Ep). cbn [bind] in H.
      destruct (Nat.eqb_spec o (it_origin top)), (Nat.eqb_spec A (lhs_of (it_dot top))); cbn [andb] in H;
        try (injection H as <- <-; repeat split; auto; intros t E; injection E as <-; intros [X1 X2]; congruence).
      destruct (heap_pop_spec _ _ Hk Ep) as (h' & E & O & Pm). rewrite E in H. cbn [bind] in H. injection H as <- <-.
      cbn. auto.
    - injection H as <- <-. repeat split; auto; discriminate.
  Qed.

  Lemma heap_top : forall (H : list nitem) top, heap_ok H -> heap_peek H = Some top -> In top H /\ forall x, In x H -> ile x top.
  Proof. intros H top Hk Ep. split; [eapply nth_error_In; eauto|]. intros x Hx. eapply heap_ok_max; eauto. Qed.

  Definition taken (o : nat) (A : sym) (H popped rest : list nitem) : Prop :=
    Permutation H (popped ++ rest) /\
    (forall top, heap_peek H = Some top -> in_group o A top -> In top popped) /\
    (forall top, heap_peek rest = Some top -> ~ in_group o A top).

  Lemma summand_loop_cost : forall n o A (st st' : state), heap_ok (r_complete st) -> (forall it, In it (r_complete st) -> dot_ok it) ->
    summand_loop fc g n o A st = Ret st' ->
    r_medial st' = r_medial st /\ heap_ok (r_complete st') /\
    exists popped, taken o A (r_complete st) popped (r_complete st') /\ calls st' = calls st + length popped.
  Proof.
    induction n as [|n IH]; intros o A st st' Hk Hd H; cbn [summand_loop] in H;
      inv H; destruct a as [x st1]; destruct (next_summand_cost _ _ _ _ _ Hk Hd E) as (M1 & F1 & K1 & X);
      destruct x as [it|].
    - inv H. discriminate.
    - destruct X as [-> X]. injection H as <-. split; [auto|]. split; [auto|]. exists []. split; [|cbn; lia].
      split; [auto|]. split; [|auto]. intros top Ep Hg. exfalso. eapply X; eauto.
    - destruct X as [Ep Pm]. inv H. unfold push_summand in E0. inv E0. cbn [f_push_summand counted] in E1. inv E1.
      injection E1 as <-. injection E0 as <-.
      match type of H with summand_loop _ _ _ _ _ ?s = _ => destruct (IH o A s st' K1) as (M2 & K2 & popped & [P2 [T2 N2]] & C2); auto end.
      { intros y Hy. apply Hd. eapply Permutation_in; [symmetry; exact Pm|]. cbn in Hy. simpl; auto. }
      cbn in *. split; [congruence|]. split; [auto|]. exists (it :: popped). split.
      + split; [rewrite Pm; cbn; now constructor|]. split; [|auto]. intros top Et Hg.
        left. unfold heap_peek in Et. cbn in Et. congruence.
      + unfold calls in *. cbn in C2. rewrite C2, F1. cbn. lia.
    - destruct X as [-> X]. injection H as <-. split; [auto|]. split; [auto|]. exists []. split; [|cbn; lia].
      split; [auto|]. split; [|auto]. intros top Ep Hg. exfalso. eapply X; eauto.
  Qed.

  Lemma skip_loop_cost : forall n o A (st st' : state), heap_ok (r_complete st) -> (forall it, In it (r_complete st) -> dot_ok it) ->
    skip_loop g n o A st = Ret st' ->
    r_medial st' = r_medial st /\ heap_ok (r_complete st') /\ r_forest st' = r_forest st /\
    exists popped, taken o A (r_complete st) popped (r_complete st').
  Proof.
    induction n as [|n IH]; intros o A st st' Hk Hd H; cbn [skip_loop] in H;
      inv H; destruct a as [x st1]; destruct (next_summand_cost _ _ _ _ _ Hk Hd E) as (M1 & F1 & K1 & X);
      destruct x as [it|].
    - discriminate.
    - destruct X as [-> X]. injection H as <-. split; [auto|]. split; [auto|]. split; [auto|]. exists [].
      split; [auto|]. split; [|auto]. intros top Ep Hg. exfalso. eapply X; eauto.
    - destruct X as [Ep Pm].
      destruct (IH o A st1 st' K1) as (M2 & K2 & F2 & popped & [P2 [T2 N2]]); auto.
      { intros y Hy. apply Hd. eapply Permutation_in; [symmetry; exact Pm|]. cbn in Hy. simpl; auto. }
      split; [congruence|]. split; [auto|]. split; [congruence|]. exists (it :: popped).
      split; [rewrite Pm; cbn; now constructor|]. split; [|auto]. intros top Et Hg. left. congruence.
    - destruct X as [-> X]. injection H as <-. split; [auto|]. split; [auto|]. split; [auto|]. exists [].
      split; [auto|]. split; [|auto]. intros top Ep Hg. exfalso. eapply X; eauto.
  Qed.

  (** ** How many groups start at one place *)
  Definition pw (d : nat) : nat := S (length R) ^ rank (lhs_of d).
  Definition has (k : nat) (H : list nitem) (d : nat) : bool := existsb (fun it => (it_origin it =? k) && (it_dot it =? d)) H.
  Definition psi (k : nat) (H : list nitem) : nat := list_sum (map (fun d => if has k H d then pw d else 0) (seq 0 (length R))).
  Definition PHI : nat := list_sum (map pw (seq 0 (length R))).
  Definition unary_over (A : sym) (d : nat) : bool :=
    match nth_error R d with Some r => match p_rhs r with [B] => B =? A | _ => false end | None => false end.

  Lemma has_spec : forall k H d, has k H d = true <-> exists it, In it H /\ it_origin it = k /\ it_dot it = d.
  Proof.
    intros k H d. unfold has. rewrite existsb_exists. split.
    - intros (it & Hi & E). apply andb_prop in E. destruct E as [E1 E2]. apply Nat.eqb_eq in E1, E2. eauto.
    - intros (it & Hi & E1 & E2). exists it. split; [auto|]. rewrite E1, E2, !Nat.eqb_refl. reflexivity.
  Qed.

  Lemma list_sum_mono : forall A (f h : A -> nat) l, (forall x, In x l -> f x <= h x) -> list_sum (map f l) <= list_sum (map h l).
  Proof.
    induction l as [|a l IH]; intros H; cbn [map]; rewrite ?list_sum_cons; [auto|].
    pose proof (H a (or_introl eq_refl)). pose proof (IH (fun x Hx => H x (or_intror Hx))). lia.
  Qed.

  Lemma list_sum_plus : forall A (f h : A -> nat) l, list_sum (map (fun x => f x + h x) l) = list_sum (map f l) + list_sum (map h l).
  Proof. induction l as [|a l IH]; cbn [map]; rewrite ?list_sum_cons; [auto|]. lia. Qed.

  Lemma list_sum_point : forall d v l, NoDup l -> In d l -> list_sum (map (fun x => if x =? d then v else 0) l) = v.
  Proof.
    induction l as [|a l IH]; intros ND Hin; [destruct Hin|]. cbn [map]. rewrite list_sum_cons. inversion ND; subst.
    destruct (Nat.eqb_spec a d) as [->|Hne].
    - rewrite (map_ext_in _ (fun _ => 0)).
      + assert (Z : forall l' : list nat, list_sum (map (fun _ => 0) l') = 0).
        { clear. induction l'; cbn [map]; rewrite ?list_sum_cons; auto. }
        rewrite Z. lia.
      + intros x Hx. destruct (Nat.eqb_spec x d); [subst; contradiction|auto].
    - destruct Hin as [->|Hin]; [congruence|]. rewrite IH; auto.
  Qed.

  Lemma psi_le : forall k H, psi k H <= PHI.
  Proof. intros. unfold psi, PHI. apply list_sum_mono. intros d _. destruct (has k H d); lia. Qed.

  Lemma psi_perm : forall k H H', Permutation H H' -> psi k H = psi k H'.
  Proof.
    intros k H H' Pm. unfold psi. f_equal. apply map_ext. intros d.
    assert (E : has k H d = has k H' d); [|now rewrite E].
    apply eq_true_iff_eq. rewrite !has_spec. split; intros (it & Hi & X); exists it; split; auto;
      [eapply Permutation_in; eauto|eapply Permutation_in; [symmetry; eauto|auto]].
  Qed.

  Lemma unary_sum : forall d0, d0 < length R ->
    list_sum (map (fun d => if unary_over (lhs_of d0) d then pw d else 0) (seq 0 (length R))) < pw d0.
  Proof.
    intros d0 Hd0. unfold pw at 2. set (A := lhs_of d0).
    assert (Hu : forall d, unary_over A d = true -> rank (lhs_of d) < rank A).
    { intros d Hd. unfold unary_over in Hd. destruct (nth_error R d) as [r|] eqn:Er; [|discriminate].
      destruct (p_rhs r) as [|B [|? ?]] eqn:Ep; try discriminate. apply Nat.eqb_eq in Hd. subst B.
      unfold lhs_of at 1. rewrite Er. apply Hrank; eauto using nth_error_In. }
    destruct (rank A) as [|n] eqn:Er.
    - assert (Z : forall l, list_sum (map (fun d => if unary_over A d then pw d else 0) l) = 0).
      { induction l as [|d l IH]; cbn [map]; rewrite ?list_sum_cons; [auto|].
        destruct (unary_over A d) eqn:E; [specialize (Hu d E); lia|lia]. }
      rewrite Z. cbn. lia.
    - assert (Hb : list_sum (map (fun d => if unary_over A d then pw d else 0) (seq 0 (length R))) <= length R * S (length R) ^ n).
      { rewrite <- (seq_length (length R) 0) at 2. apply list_sum_le. intros d _.
        destruct (unary_over A d) eqn:E; [|lia]. unfold pw. apply Nat.pow_le_mono_r; [lia|]. specialize (Hu d E). lia. }
      rewrite Nat.pow_succ_r'. pose proof (Nat.pow_nonzero (S (length R)) n). nia.
  Qed.

  Lemma psi_step : forall H H' rest nh top, In top H -> it_dot top < length R ->
    (forall x, In x rest -> In x H) -> (forall x, In x rest -> it_origin x = it_origin top -> it_dot x <> it_dot top) ->
    (forall x, In x nh -> it_origin x = it_origin top -> starts_with (lhs_of (it_dot top)) true (it_dot x)) ->
    Permutation H' (nh ++ rest) ->
    psi (it_origin top) H' < psi (it_origin top) H.
  Proof.
    intros H H' rest nh top Ht Hd Hr Hn Hnh Pm. rewrite (psi_perm _ _ _ Pm). set (k := it_origin top) in *. set (d0 := it_dot top) in *.
    pose proof (unary_sum d0 Hd) as Hu. unfold psi.
    assert (Hle : list_sum (map (fun d => (if has k (nh ++ rest) d then pw d else 0) + (if d =? d0 then pw d0 else 0)) (seq 0 (length R))) <=
      list_sum (map (fun d => (if has k H d then pw d else 0) + (if unary_over (lhs_of d0) d then pw d else 0)) (seq 0 (length R)))).
    { apply list_sum_mono. intros d _.
      assert (H0 : has k H d0 = true) by (apply has_spec; exists top; auto).
      destruct (has k (nh ++ rest) d) eqn:E.
      - apply has_spec in E. destruct E as (it & Hi & E1 & E2). apply in_app_iff in Hi. destruct Hi as [Hi|Hi].
        + destruct (Hnh it Hi E1) as (r & X1 & X2 & X3). rewrite E2 in X1.
          assert (Eu : unary_over (lhs_of d0) d = true).
          { unfold unary_over. rewrite X1. unfold rhs1 in X3. destruct (p_rhs r) as [|B [|C t]]; cbn in *; try discriminate.
            injection X2 as ->. apply Nat.eqb_refl. }
          rewrite Eu. destruct (Nat.eqb_spec d d0) as [->|]; [rewrite H0; lia|lia].
        + assert (Eh : has k H d = true) by (apply has_spec; exists it; auto). rewrite Eh.
          destruct (Nat.eqb_spec d d0) as [->|]; [exfalso; eapply Hn; eauto|lia].
      - destruct (Nat.eqb_spec d d0) as [->|]; [rewrite H0; lia|lia]. }
    rewrite !list_sum_plus in Hle. rewrite (list_sum_point d0 (pw d0)) in Hle; [lia|apply seq_NoDup|apply in_seq; lia].
  Qed.

  (** ** All groups of a location *)
  Section Location.
    Variable cs : list (list nitem).
    Variable S0 : nat.
    Hypothesis Hsets : forall o set, nth_error cs o = Some set -> length set <= S0 /\
      forall it, In it set -> it_origin it < o /\ dot_ok it.

    Definition open_ok (st : state) (O : list nitem) : Prop :=
      rep (r_medial st) cs O /\ heap_ok (r_complete st) /\
      forall it, In it (r_complete st) -> dot_ok it /\ it_origin it < length cs.

    Definition rem (K : nat) (H : list nitem) (o : nat) : nat := if o =? K then psi K H else if o <? K then PHI else 0.

    Lemma rem_lower : forall k K H o, k <= K -> rem k H o <= rem K H o.
    Proof.
      intros k K H o Hk. unfold rem. pose proof (psi_le k H).
      destruct (Nat.eqb_spec o k), (Nat.eqb_spec o K), (Nat.ltb_spec o k), (Nat.ltb_spec o K); subst; try lia.
    Qed.
    Lemma total_lower : forall k K H, k <= K -> PHI * k + psi k H <= PHI * K + psi K H.
    Proof. intros k K H Hk. pose proof (psi_le k H). destruct (Nat.eq_dec k K) as [->|]; [lia|]. nia. Qed.

    Lemma added_ok : forall o s set nh nm, nth_error cs o = Some set -> added set o s nh nm ->
      forall x, In x nh -> dot_ok x /\ it_origin x <= o.
    Proof.
      intros o s set nh nm Hset (_ & _ & I1 & _) x Hx. destruct (Hsets o set Hset) as (_ & Hs).
      destruct (I1 x Hx) as [(it & Hi & E1 & E2)|(E & r & X & _)].
      - destruct (Hs it Hi). unfold dot_ok in *. rewrite E1, E2. split; [auto|lia].
      - split; [unfold dot_ok; apply nth_error_Some; congruence|lia].
    Qed.

    Lemma sums_cost : forall kp fuel K (st st' : state) O, open_ok st O ->
      (forall it, In it (r_complete st) -> it_origin it <= K) ->
      complete_sums fc P g kp fuel st = Ret st' ->
      exists O', rep (r_medial st') cs O' /\ r_complete st' = [] /\
        (forall it, In it O' -> In it O \/ (it_origin it < length cs /\ dot_ok it)) /\
        (forall o, cnt o O' <= cnt o O + length R * rem K (r_complete st) o) /\
        calls st' <= calls st + length (r_complete st) + (PHI * K + psi K (r_complete st)) * (2 + 2 * S0 + length R).
    Proof.
      intros kp. induction fuel as [|fuel IH]; intros K st st' O (Hrep & Hk & Hv) HK H; cbn [complete_sums] in H;
        inv H; unfold next_sum in E; destruct (heap_peek (r_complete st)) as [top|] eqn:Ep.
      1, 3: destruct (heap_top _ _ Hk Ep) as [Ht Hmax]; destruct (Hv top Ht) as [Hdt Hot].
      1: rewrite (get_lhs_of _ Hdt) in E; cbn [bind] in E; injection E as <-; discriminate.
      2, 3: injection E as <-; injection H as <-; exists O; destruct (r_complete st) eqn:Ec; [|discriminate];
        cbn; split; [auto|]; split; [auto|]; split; [auto|]; split; [intros; lia|unfold calls; cbn; lia].
      rewrite (get_lhs_of _ Hdt) in E. cbn [bind] in E. injection E as <-.
      set (k := it_origin top) in *. set (A := lhs_of (it_dot top)) in *.
      assert (Hg : in_group k A top) by (split; auto).
      assert (HA : A < nall).
      { unfold A, lhs_of. unfold dot_ok in Hdt. apply nth_error_Some in Hdt. destruct (nth_error R (it_dot top)) as [r|] eqn:Er; [|congruence].
        eapply wf_lhs_range; eauto using nth_error_In. }
      assert (Hdots : forall it, In it (r_complete st) -> dot_ok it) by (intros it Hit; now apply Hv).
      assert (Hrest : forall popped rest, heap_ok rest -> taken k A (r_complete st) popped rest ->
        In top popped /\ (forall x, In x rest -> In x (r_complete st)) /\
        (forall x, In x rest -> it_origin x = k -> it_dot x <> it_dot top)).
      { intros popped rest Kr (Pm & T1 & T2). split; [auto|].
        assert (Hin : forall x, In x rest -> In x (r_complete st)).
        { intros x Hx. eapply Permutation_in; [symmetry; exact Pm|]. apply in_app_iff; auto. }
        split; [auto|]. intros x Hx E1 E2. destruct (heap_peek rest) as [y|] eqn:Ey.
        2:{ destruct rest; [destruct Hx|discriminate]. }
        destruct (heap_top _ _ Kr Ey) as [Hy Hm]. apply (T2 y eq_refl). specialize (Hm x Hx).
        specialize (Hmax y (Hin y Hy)). apply item_leb_spec in Hm, Hmax. unfold in_group. fold k in Hmax. rewrite E1, E2 in Hm.
        assert (it_origin y = k /\ it_dot y = it_dot top) as [-> ->] by lia. auto. }
      destruct (kp A).
      - inv H. rename a into st1. unfold complete_entire_sum in E. inv E. rename a into f1.
        cbn [f_begin_sum counted] in E0. inv E0. injection E0 as <-. inv E. rename a0 into st2.
        match type of E0 with summand_loop _ _ _ _ _ ?s = _ => destruct (summand_loop_cost _ _ _ s st2 Hk Hdots E0) as (M2 & K2 & popped & T2 & C2) end.
        cbn in M2, T2, C2. 
        unfold complete_sum in E. inv E. destruct a0 as [node f3]. cbn [f_sum counted] in E2. inv E2. destruct a0 as [n' f']. injection E2 as <- <-.
        destruct (nth_error cs k) as [set|] eqn:Es; [|apply nth_error_None in Es; lia].
        destruct (complete_cost (set_forest st2 (f', S (snd (r_forest st2)))) st1 cs O k set A n'
                   ltac:(cbn; rewrite M2; exact Hrep) ltac:(cbn; exact K2) Es HA E) as (K1 & C1 & nh & nm & R1 & P1 & Ad).
        cbn in P1. unfold calls at 2 in C1. cbn in C1.
        destruct (Hrest popped (r_complete st2) K2 T2) as (Hp & Hr & Hn).
        pose proof (added_ok _ _ _ _ _ Es Ad) as Hnh.
        destruct (Hsets k set Es) as (HS & Hset).
        destruct Ad as (L1 & L2 & I1 & I2).
        assert (Hpsi : psi k (r_complete st1) < psi k (r_complete st)).
        { apply (psi_step _ _ (r_complete st2) nh top); auto.
          intros x Hx Eo. destruct (I1 x Hx) as [(it & Hi & _ & E2)|[_ X]]; [|exact X].
          exfalso. destruct (Hset it Hi). unfold k in *. lia. }
        destruct (IH k st1 st' (O ++ nm)) as (O' & R' & C' & V' & N' & G'); auto.
        { split; [auto|]. split; [auto|]. intros it Hit. apply (Permutation_in _ P1) in Hit. apply in_app_iff in Hit.
          destruct Hit as [Hit|Hit]; [destruct (Hnh it Hit); split; [auto|lia]|auto]. }
        { intros it Hit. apply (Permutation_in _ P1) in Hit. apply in_app_iff in Hit.
          destruct Hit as [Hit|Hit]; [destruct (Hnh it Hit); auto|].
          apply Hr in Hit. specialize (Hmax it Hit). apply item_leb_spec in Hmax. unfold k. lia. }
        exists O'. split; [auto|]. split; [auto|]. split; [|split].
        + intros it Hit. destruct (V' it Hit) as [Hi|Hi]; [|auto]. apply in_app_iff in Hi. destruct Hi as [Hi|Hi]; [auto|].
          destruct (I2 it Hi) as [-> Hd']. right. split; [exact Hot|exact Hd'].
        + intros o. specialize (N' o). rewrite cnt_app in N'. pose proof (rem_lower k K (r_complete st) o (HK top Ht)) as Hl.
          assert (Hnm : cnt o nm + length R * rem k (r_complete st1) o <= length R * rem k (r_complete st) o); [|nia].
          unfold rem. destruct (Nat.eqb_spec o k) as [->|Hne].
          * pose proof (cnt_le_length _ k nm). nia.
          * rewrite cnt_none; [lia|]. intros x Hx. destruct (I2 x Hx). lia.
        + pose proof (Permutation_length P1) as Q1. rewrite app_length in Q1.
          destruct T2 as (Pm & _ & _). pose proof (Permutation_length Pm) as Q2. rewrite app_length in Q2.
          pose proof (total_lower k K (r_complete st) (HK top Ht)) as Ht'. unfold calls in *.
          assert (X : (PHI * k + psi k (r_complete st1)) * (2 + 2 * S0 + length R) + (2 + 2 * S0 + length R) <=
            (PHI * K + psi K (r_complete st)) * (2 + 2 * S0 + length R)) by nia.
          lia.
      - inv H. rename a into st1. unfold skip_entire_sum in E.
        destruct (skip_loop_cost _ _ _ st st1 Hk Hdots E) as (M1 & K1 & F1 & popped & T1).
        destruct (Hrest popped (r_complete st1) K1 T1) as (Hp & Hr & Hn).
        assert (Hpsi : psi k (r_complete st1) < psi k (r_complete st)).
        { apply (psi_step _ _ (r_complete st1) [] top); auto. intros x []. }
        destruct (IH k st1 st' O) as (O' & R' & C' & V' & N' & G'); auto.
        { split; [now rewrite M1|]. split; [auto|]. auto. }
        { intros it Hit. apply Hr in Hit. specialize (Hmax it Hit). apply item_leb_spec in Hmax. unfold k. lia. }
        exists O'. split; [auto|]. split; [auto|]. split; [auto|split].
        + intros o. specialize (N' o). pose proof (rem_lower k K (r_complete st) o (HK top Ht)) as Hl.
          assert (Hle : rem k (r_complete st1) o <= rem k (r_complete st) o); [|nia].
          unfold rem. destruct (o =? k); lia.
        + destruct T1 as (Pm & _ & _). pose proof (Permutation_length Pm) as Q2. rewrite app_length in Q2.
          pose proof (total_lower k K (r_complete st) (HK top Ht)) as Ht'. unfold calls in *. rewrite F1 in G'. nia.
    Qed.
  End Location.

  (** ** Between locations *)
  Variable s0 : nat.
  Definition Bd : nat := length R * (s0 + PHI).

  (** the Earley sets, the last one last; set [i] was made by the location before it *)
  Definition sets_ok (sets : list (list nitem)) : Prop :=
    forall i set, nth_error sets i = Some set ->
      (forall it, In it set -> it_origin it < i /\ dot_ok it) /\ forall o, cnt o set <= Bd.

  Definition between (n : nat) (st : state) : Prop :=
    exists cs O, rep (r_medial st) cs O /\ r_complete st = [] /\ length cs <= n /\ sets_ok (cs ++ [O]).

  Lemma sets_size : forall sets i set, sets_ok sets -> nth_error sets i = Some set -> length set <= i * Bd.
  Proof. intros sets i set H E. destruct (H i set E) as [H1 H2]. apply length_bound; auto. intros x Hx. now apply H1. Qed.

  Lemma sets_location : forall sets n, sets_ok sets -> length sets <= S n ->
    forall o set, nth_error sets o = Some set -> length set <= n * Bd /\ forall it, In it set -> it_origin it < o /\ dot_ok it.
  Proof.
    intros sets n H Hl o set E. split; [|intros it; apply (H o set E)].
    pose proof (sets_size _ _ _ H E) as Hz. assert (o < length sets) by (apply nth_error_Some; congruence). nia.
  Qed.

  Lemma earleme_rep : forall (st : state) cs O, rep (r_medial st) cs O -> 0 < length cs -> earleme st = Some (length cs - 1).
  Proof.
    intros st cs O Hrep H. unfold earleme. rewrite (rep_len _ _ _ Hrep). destruct (length cs) as [|n]; [lia|]. f_equal. lia.
  Qed.

  Lemma scan_list_cost : forall cs S0, 0 < length cs ->
    (forall o set, nth_error cs o = Some set -> length set <= S0 /\ forall it, In it set -> it_origin it < o /\ dot_ok it) ->
    forall toks (st st' : state) O, (forall x, In x toks -> fst x < nall) -> open_ok cs st O ->
    scan_list fc P g toks st = Ret st' ->
    exists nm, open_ok cs st' (O ++ nm) /\ (forall it, In it nm -> it_origin it < length cs /\ dot_ok it) /\
      length nm <= length toks * length R /\ calls st' <= calls st + length toks * S S0 /\
      length (r_complete st') <= length (r_complete st) + length toks * (S0 + length R).
  Proof.
    intros cs S0 Hcs Hsets. unfold scan_list. induction toks as [|[t v] toks IH]; intros st st' O Ht (Hrep & Hk & Hv) H; cbn [foldM] in H.
    - injection H as <-. exists []. rewrite app_nil_r. split; [split; auto|]. split; [intros it []|]. cbn. lia.
    - inv H. rename a into st1. unfold scan in E. rewrite (earleme_rep _ _ _ Hrep Hcs) in E. cbn [unwrap bind fst snd] in E.
      inv E. destruct a as [node f1]. cbn [f_leaf counted] in E0. inv E0. destruct a as [n' f']. injection E0 as <- <-.
      destruct (nth_error cs (length cs - 1)) as [set|] eqn:Es; [|apply nth_error_None in Es; lia].
      destruct (complete_cost (set_forest st (f', S (snd (r_forest st)))) st1 cs O _ set t n' Hrep Hk Es
        (Ht _ (or_introl eq_refl)) E) as (K1 & C1 & nh & nm & R1 & P1 & Ad).
      pose proof (added_ok cs S0 Hsets _ _ _ _ _ Es Ad) as Hnh. destruct (Hsets _ _ Es) as [HS _].
      destruct Ad as (L1 & L2 & I1 & I2).
      destruct (IH st1 st' (O ++ nm)) as (nm' & Op & V' & L' & C' & H'); auto.
      { intros x Hx. apply Ht. simpl; auto. }
      { split; [auto|]. split; [auto|]. intros it Hit. apply (Permutation_in _ P1) in Hit. apply in_app_iff in Hit.
        destruct Hit as [Hit|Hit]; [destruct (Hnh it Hit); split; [auto|lia]|auto]. }
      exists (nm ++ nm'). rewrite app_assoc. split; [auto|]. split.
      { intros it Hit. apply in_app_iff in Hit. destruct Hit as [Hit|Hit]; [|auto]. destruct (I2 it Hit). split; [lia|auto]. }
      pose proof (Permutation_length P1) as Q. rewrite app_length in Q. cbn [r_complete set_forest] in Q.
      unfold calls at 2 in C1. cbn in C1. fold (calls st) in C1.
      rewrite app_length. cbn [length]. nia.
  Qed.

  Lemma mapM_keyed : forall A B (h : A -> res (B * A)) l k, (forall a x, h a = Ret x -> snd x = a) -> mapM h l = Ret k -> map snd k = l.
  Proof.
    intros A B h. induction l as [|a l IH]; intros k Hh H; cbn [mapM] in H.
    - injection H as <-. reflexivity.
    - inv H. inv H. injection H as <-. cbn. f_equal; eauto.
  Qed.

  Lemma sort_cost : forall (st st' : state) cs O, rep (r_medial st) cs O -> sort_medial_items g st = Ret st' ->
    exists O', rep (r_medial st') cs O' /\ Permutation O O' /\ r_complete st' = r_complete st /\ r_forest st' = r_forest st.
  Proof.
    intros st st' cs O Hrep H. unfold sort_medial_items in H. rewrite (rep_last _ _ _ Hrep) in H. cbn [bind] in H.
    inv H. inv H. injection H as <-. apply mapM_keyed in E.
    - destruct (rep_set_last _ _ _ (map snd (sort_by medial_key_leb a)) Hrep) as (m & Em & Rm). rewrite Em in E0. injection E0 as <-.
      exists (map snd (sort_by medial_key_leb a)). split; [exact Rm|]. split; [|auto]. rewrite <- E at 1. apply Permutation_map, sort_by_perm.
    - intros it x Hx. cbv beta in Hx. inv Hx. inv Hx. injection Hx as <-. reflexivity.
  Qed.

  Lemma remove_cost : forall (st st' : state) cs O, rep (r_medial st) cs O -> 0 < length cs ->
    (forall it, In it O -> it_origin it < length cs) -> remove_unreachable_sets P st = Ret st' ->
    exists m, m <= length cs /\ rep (r_medial st') (firstn m cs) O /\ (forall it, In it O -> it_origin it < m) /\
      r_complete st' = r_complete st /\ r_forest st' = r_forest st.
  Proof.
    intros st st' cs O Hrep Hcs Horig H. unfold remove_unreachable_sets in H.
    rewrite (rep_last _ _ _ Hrep) in H. cbn [bind] in H. rewrite (earleme_rep _ _ _ Hrep Hcs) in H. cbn [unwrap bind] in H.
    set (ne := match list_max_opt (map it_origin O) with Some m => m | None => length cs - 1 end) in H.
    assert (Hne : ne < length cs /\ forall it, In it O -> it_origin it <= ne).
    { unfold ne. destruct (list_max_opt (map it_origin O)) as [m|] eqn:Em.
      - apply Core4.list_max_opt_spec in Em. destruct Em as [Hin Hmax]. apply in_map_iff in Hin.
        destruct Hin as (it & <- & Hit). split; [auto|]. intros x Hx. apply Hmax. now apply in_map.
      - split; [lia|]. intros it Hit. specialize (Horig it Hit). lia. }
    destruct Hne as [Hne Hle].
    destruct ((ne <? length cs - 1) && (0 <? ne)).
    - destruct (rep_truncate _ _ _ (ne + 1) Hrep) as (m & Em & Rm); [lia|].
      cbn [r_medial set_predicted] in H. rewrite Em in H. cbn [bind] in H. rewrite Hleo in H. cbn [bind] in H.
      inv H. inv H. injection H as <-. exists (ne + 1). split; [lia|]. split; [exact Rm|]. split; [|auto].
      intros it Hit. specialize (Hle it Hit). lia.
    - injection H as <-. exists (length cs). rewrite firstn_all. auto.
  Qed.

  Lemma prediction_pass_cost : forall st st' : state, prediction_pass g st = Ret st' ->
    r_medial st' = r_medial st /\ r_complete st' = r_complete st /\ r_forest st' = r_forest st.
  Proof.
    intros st st' H. unfold prediction_pass in H. inv H. inv H. inv H. inv H. inv H. injection H as <-. auto.
  Qed.

  Definition C0 : nat := s0 * (1 + 2 * Bd + length R) + PHI * (2 + 2 * Bd + length R).

  Lemma begin_field : forall (st : state) h, r_medial (set_hint_field (begin_earleme P st) h) = v_next_set (r_medial st) /\
    r_complete (set_hint_field (begin_earleme P st) h) = r_complete st /\ r_forest (set_hint_field (begin_earleme P st) h) = r_forest st.
  Proof. intros. unfold begin_earleme. rewrite Hleo. auto. Qed.

  Lemma feed_cost : forall n fuel loc (st st' : state) b, between n st -> length (l_toks loc) <= s0 ->
    (forall x, In x (l_toks loc) -> fst x < nall) -> feed fc P g fuel loc st = Ret (b, st') ->
    between (S n) st' /\ calls st' <= calls st + C0 * (S n * S n).
  Proof.
    intros n fuel loc st st' b (cs & O & Hrep & Hc & Hn & Hs) Hs0 Ht H. unfold feed in H. inv H. rename a into st1.
    destruct (begin_field st (l_hint loc)) as (B1 & B2 & B3).
    set (stb := set_hint_field (begin_earleme P st) (l_hint loc)) in *.
    assert (Hrb : rep (r_medial stb) (cs ++ [O]) []) by (rewrite B1; now apply rep_next_set).
    set (sets := cs ++ [O]) in *.
    assert (Hlen : length sets = S (length cs)) by (unfold sets; rewrite app_length; cbn; lia).
    pose proof (sets_location sets n Hs ltac:(lia)) as Hsets. remember (n * Bd) as S0 eqn:HS0.
    destruct (scan_list_cost sets S0 ltac:(lia) Hsets (l_toks loc) stb st1 []) as (nm & (R1 & K1 & V1) & N1 & L1 & C1 & H1); auto.
    { split; [auto|]. split; [rewrite B2, Hc; apply heap_ok_nil|]. rewrite B2, Hc. intros it []. }
    cbn [app] in R1. rewrite B2, Hc in H1. cbn [length] in H1. unfold calls at 2 in C1. rewrite B3 in C1. fold (calls st) in C1.
    unfold sym in *.
    assert (Hc1 : calls st1 <= calls st + s0 * S S0) by (pose proof (Nat.mul_le_mono_r _ _ (S S0) Hs0); lia).
    assert (Hh1 : length (r_complete st1) <= s0 * (S0 + length R)) by (pose proof (Nat.mul_le_mono_r _ _ (S0 + length R) Hs0); lia).
    assert (Hcn : forall o, cnt o nm <= length R * s0).
    { intros o. pose proof (cnt_le_length _ o nm). pose proof (Nat.mul_le_mono_r _ _ (length R) Hs0). lia. }
    assert (HC0 : s0 * S S0 + s0 * (S0 + length R) + PHI * S n * (2 + 2 * S0 + length R) <= C0 * (S n * S n)).
    { assert (X1 : s0 * S S0 + s0 * (S0 + length R) <= s0 * (1 + 2 * Bd + length R) * (S n * S n)).
      { assert (Y : S S0 + (S0 + length R) <= (1 + 2 * Bd + length R) * (S n * S n)) by (subst S0; clear; nia). nia. }
      assert (X2 : PHI * S n * (2 + 2 * S0 + length R) <= PHI * (2 + 2 * Bd + length R) * (S n * S n)).
      { assert (Y : 2 + 2 * S0 + length R <= (2 + 2 * Bd + length R) * S n) by (subst S0; clear; nia). nia. }
      unfold C0. nia. }
    unfold end_filtered in H. inv H. unfold is_exhausted in E0. rewrite (rep_last _ _ _ R1) in E0. cbn [bind] in E0.
    destruct a.
    - injection H as <- <-. split; [|nia]. destruct nm; [|discriminate]. destruct (r_complete st1) eqn:Ec; [|discriminate].
      exists sets, []. split; [auto|]. split; [auto|]. split; [lia|]. intros i set Ei.
      destruct (Nat.lt_ge_cases i (length sets)) as [Hi|Hi].
      + rewrite nth_error_app1 in Ei by auto. auto.
      + rewrite nth_error_app2 in Ei by auto. destruct (i - length sets) as [|j]; cbn in Ei; [|destruct j; discriminate].
        injection Ei as <-. split; [intros it []|intros; cbn; lia].
    - inv H. rename a into st2. inv H. rename a into st3. injection H as <- <-.
      destruct (sums_cost sets S0 Hsets (l_keep loc) fuel (length cs) st1 st2 nm) as (O2 & R2 & C2 & V2 & N2 & G2); auto.
      { split; [auto|]. auto. }
      { intros it Hit. destruct (V1 it Hit). lia. }
      assert (Hpsi := psi_le (length cs) (r_complete st1)).
      assert (G3 : calls st2 <= calls st + C0 * (S n * S n)).
      { assert (Y : PHI * length cs + psi (length cs) (r_complete st1) <= PHI * S n) by nia. nia. }
      unfold advance_after_completion in E2. inv E2. rename a into st4.
      destruct (sort_cost _ _ _ _ R2 E3) as (O4 & R4 & P4 & C4 & F4).
      assert (V4 : forall it, In it O4 -> it_origin it < length sets /\ dot_ok it).
      { intros it Hit. apply (Permutation_in _ (Permutation_sym P4)) in Hit. destruct (V2 it Hit); auto. }
      inv E2. rename a into st5.
      destruct (remove_cost _ _ _ _ R4 ltac:(lia) ltac:(intros; now apply V4) E4) as (m & Hm & R5 & V5 & C5 & F5).
      rewrite Hleo in E2. cbn [bind] in E2. destruct (prediction_pass_cost _ _ E2) as (M6 & C6 & F6).
      split; [|unfold calls in *; rewrite F6, F5, F4; auto].
      exists (firstn m sets), O4. split; [now rewrite M6|]. split; [congruence|].
      split; [rewrite firstn_length; lia|]. intros i set Ei.
      assert (Hfl : length (firstn m sets) = m) by (rewrite firstn_length; lia).
      destruct (Nat.lt_ge_cases i m) as [Hi|Hi].
      + rewrite nth_error_app1 in Ei by lia. apply Hs.
        rewrite <- (firstn_skipn m sets), nth_error_app1 by lia. exact Ei.
      + rewrite nth_error_app2, Hfl in Ei by lia. destruct (i - m) as [|j] eqn:Ej; cbn in Ei; [|destruct j; discriminate].
        assert (i = m) by lia. subst i. injection Ei as <-. split; [intros it Hit; split; [auto|now apply V4]|].
        intros o. rewrite <- (cnt_perm _ o _ _ P4). specialize (N2 o). specialize (Hcn o).
        assert (Hr : rem (length cs) (r_complete st1) o <= PHI) by (unfold rem; destruct (o =? length cs), (o <? length cs); lia).
        unfold Bd. nia.
  Qed.

  Lemma feed_all_cost : forall fuel locs n (st st' : state) b, between n st ->
    (forall loc, In loc locs -> length (l_toks loc) <= s0 /\ forall x, In x (l_toks loc) -> fst x < nall) ->
    feed_all fc P g fuel locs st = Ret (b, st') ->
    between (n + length locs) st' /\ calls st' <= calls st + C0 * (length locs * ((n + length locs) * (n + length locs))).
  Proof.
    intros fuel. induction locs as [|loc locs IH]; intros n st st' b Hb Hl H; cbn [feed_all] in H.
    - injection H as <- <-. cbn [length]. rewrite Nat.add_0_r. split; [auto|lia].
    - inv H. destruct a as [ok st1]. destruct (Hl loc (or_introl eq_refl)) as [Hl1 Hl2].
      destruct (feed_cost n fuel loc st st1 ok Hb Hl1 Hl2 E) as [B1 G1].
      assert (X1 : S n * S n <= (n + S (length locs)) * (n + S (length locs))) by nia.
      destruct ok.
      + destruct (IH (S n) st1 st' b B1 ltac:(intros; apply Hl; simpl; auto) H) as [B2 G2].
        cbn [length]. replace (n + S (length locs)) with (S n + length locs) by lia. split; [auto|].
        replace (n + S (length locs)) with (S n + length locs) in X1 by lia. nia.
      + injection H as <- <-. cbn [length]. split; [|nia].
        destruct B1 as (cs & O & B1 & B2 & B3 & B4). exists cs, O. repeat (split; [solve [auto|lia]|]). auto.
  Qed.

  Lemma between_items : forall n (st : state), between n st -> v_item_count (r_medial st) <= Bd * (S n * S n).
  Proof.
    intros n st (cs & O & Hrep & _ & Hn & Hs). rewrite (rep_item_count _ _ _ Hrep).
    assert (Hl : length (concat (cs ++ [O])) <= length (cs ++ [O]) * (S n * Bd)).
    { assert (X : forall l : list (list nitem), (forall set, In set l -> length set <= S n * Bd) -> length (concat l) <= length l * (S n * Bd)).
      { induction l as [|a l IHl]; intros Hl; cbn; [lia|]. rewrite app_length.
        pose proof (Hl a (or_introl eq_refl)). pose proof (IHl ltac:(intros; apply Hl; simpl; auto)). lia. }
      apply X. intros set Hin. apply In_nth_error in Hin. destruct Hin as (i & Ei). pose proof (sets_size _ _ _ Hs Ei).
      assert (i < length (cs ++ [O])) by (apply nth_error_Some; congruence). rewrite app_length in H0. cbn in H0. nia. }
    rewrite concat_app, !app_length in Hl. cbn in Hl. rewrite app_nil_r in Hl. nia.
  Qed.

  Lemma r_new_between : forall (f : F * nat) st, r_new g f = Ret st -> between 0 st /\ calls st = snd f.
  Proof.
    intros f st H. unfold r_new in H. inv H. inv H. inv H. inv H. injection H as <-. split; [|reflexivity].
    exists [], []. split; [apply rep_new|]. split; [auto|]. split; [auto|]. intros i set Ei.
    destruct i as [|i]; [|destruct i; discriminate]. injection Ei as <-. split; [intros it []|intros; cbn; lia].
  Qed.

  Lemma run_cost : forall (f : F) fuel locs b (st : state),
    (forall loc, In loc locs -> length (l_toks loc) <= s0 /\ forall x, In x (l_toks loc) -> fst x < nall) ->
    (st <- r_new g (f, 0) ;; feed_all fc P g fuel locs st) = Ret (b, st) ->
    snd (r_forest st) <= C0 * length locs ^ 3 /\ v_item_count (r_medial st) <= Bd * S (length locs) ^ 2.
  Proof.
    intros f fuel locs b st Hl H. inv H. destruct (r_new_between _ _ E) as [B0 G0]. cbn in G0.
    destruct (feed_all_cost fuel locs 0 a st b B0 Hl H) as [B1 G1]. apply between_items in B1. cbn [Nat.add] in *.
    unfold calls in *. cbn [Nat.pow]. rewrite !Nat.mul_1_r. split; [lia|auto].
  Qed.
End Cost.
