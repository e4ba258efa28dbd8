(** Facts about the definitions of Base.v. *)
From Coq Require Import List Arith Bool Lia Permutation Sorted.
From Verif Require Import Base.
Import ListNotations.
Local Open Scope res_scope.

Lemma bind_Ret : forall A B (x : res A) (f : A -> res B) b,
  bind x f = Ret b <-> exists a, x = Ret a /\ f a = Ret b.
Proof.
  intros A B x f b. destruct x; simpl; split; intro H; try discriminate.
  - exists a; auto.
  - destruct H as (a0 & E & H). inversion E; subst; auto.
  - destruct H as (a0 & E & _); discriminate.
  - destruct H as (a0 & E & _); discriminate.
Qed.

Lemma idx_Ret : forall A (l : list A) i a, idx l i = Ret a <-> nth_error l i = Some a.
Proof.
  intros; unfold idx, unwrap. destruct (nth_error l i); split; intro H; inversion H; auto.
Qed.

Lemma idx_some : forall A (l : list A) i a, nth_error l i = Some a -> idx l i = Ret a.
Proof. intros; apply idx_Ret; auto. Qed.

Lemma idx_lt : forall A (l : list A) i, i < length l -> exists a, idx l i = Ret a /\ nth_error l i = Some a.
Proof.
  intros A l i H. apply nth_error_Some in H. unfold idx, unwrap.
  destruct (nth_error l i); [eauto | congruence].
Qed.

Lemma set_nth_length : forall A (l : list A) i v, length (set_nth l i v) = length l.
Proof. induction l; destruct i; simpl; auto. Qed.

Lemma set_nth_same : forall A (l : list A) i v, i < length l -> nth_error (set_nth l i v) i = Some v.
Proof. induction l; destruct i; simpl; intros; try lia; auto. apply IHl; lia. Qed.

Lemma set_nth_other : forall A (l : list A) i j v, i <> j -> nth_error (set_nth l i v) j = nth_error l j.
Proof.
  induction l; destruct i; destruct j; simpl; intros; auto; try congruence.
Qed.

Lemma set_nth_id : forall A (l : list A) i v, nth_error l i = Some v -> set_nth l i v = l.
Proof. induction l; destruct i; simpl; intros; inversion H; auto. f_equal; auto. Qed.

Lemma set_nth_set_nth : forall A (l : list A) i v w, set_nth (set_nth l i v) i w = set_nth l i w.
Proof. induction l; destruct i; simpl; intros; auto. f_equal; auto. Qed.

Lemma upd_Ret : forall A (l : list A) i v, i < length l -> upd l i v = Ret (set_nth l i v).
Proof. intros; unfold upd. apply Nat.ltb_lt in H. rewrite H; auto. Qed.

Lemma upd_inv : forall A (l l' : list A) i v, upd l i v = Ret l' -> i < length l /\ l' = set_nth l i v.
Proof.
  unfold upd; intros. destruct (i <? length l) eqn:E; inversion H. apply Nat.ltb_lt in E; auto.
Qed.

Lemma foldM_app : forall A B (f : B -> A -> res B) l1 l2 b,
  foldM f (l1 ++ l2) b = bind (foldM f l1 b) (foldM f l2).
Proof.
  induction l1; simpl; intros; auto. destruct (f b a); simpl; auto.
Qed.

(** Invariant rule for [foldM]. *)
Lemma foldM_ind : forall A B (f : B -> A -> res B) (I : list A -> B -> Prop) l b,
  I [] b ->
  (forall done a rest b, l = done ++ a :: rest -> I done b ->
     exists b', f b a = Ret b' /\ I (done ++ [a]) b') ->
  exists b', foldM f l b = Ret b' /\ I l b'.
Proof.
  intros A B f I l b H0 HS.
  assert (forall rest done b, l = done ++ rest -> I done b ->
            exists b', foldM f rest b = Ret b' /\ I l b') as G.
  { induction rest as [|a rest IH]; intros done b0 E HI.
    - rewrite app_nil_r in E; subst. simpl; eauto.
    - destruct (HS done a rest b0 E HI) as (b1 & E1 & HI1).
      simpl. rewrite E1; simpl. apply (IH (done ++ [a])); auto.
      rewrite <- app_assoc; auto. }
  apply (G l []); auto.
Qed.

Lemma mapM_Ret : forall A B (f : A -> res B) (h : A -> B) l,
  (forall a, In a l -> f a = Ret (h a)) -> mapM f l = Ret (map h l).
Proof.
  induction l; simpl; intros; auto.
  rewrite H by auto. simpl. rewrite IHl; auto.
Qed.

Lemma mapM_inv : forall A B (f : A -> res B) l l',
  mapM f l = Ret l' -> Forall2 (fun a b => f a = Ret b) l l'.
Proof.
  induction l; simpl; intros l' H.
  - inversion H; constructor.
  - apply bind_Ret in H. destruct H as (b & E & H).
    apply bind_Ret in H. destruct H as (bs & E' & H). inversion H; subst. constructor; auto.
Qed.

Lemma insert_by_perm : forall A (leb : A -> A -> bool) x l, Permutation (x :: l) (insert_by leb x l).
Proof.
  induction l; simpl; auto.
  destruct (leb x a); auto.
  eapply perm_trans; [apply perm_swap|]. constructor; auto.
Qed.

Lemma sort_by_perm : forall A (leb : A -> A -> bool) l, Permutation l (sort_by leb l).
Proof.
  induction l; simpl; auto.
  eapply perm_trans; [|apply insert_by_perm]. constructor; auto.
Qed.

Lemma insert_by_sorted : forall A (leb : A -> A -> bool),
  (forall a b, leb a b = true \/ leb b a = true) ->
  (forall a b c, leb a b = true -> leb b c = true -> leb a c = true) ->
  forall x l, StronglySorted (fun a b => leb a b = true) l ->
    StronglySorted (fun a b => leb a b = true) (insert_by leb x l).
Proof.
  intros A leb Htot Htr x l. induction l; intros H; simpl.
  - constructor; auto. 
  - inversion H; subst. destruct (leb x a) eqn:E.
    + constructor; auto. constructor; auto.
      eapply Forall_impl; [|exact H3]. simpl; intros; eauto.
    + constructor; auto.
      destruct (Htot x a) as [C|C]; [congruence|].
      eapply Permutation_Forall; [apply insert_by_perm|]. constructor; auto.
Qed.

Lemma sort_by_sorted : forall A (leb : A -> A -> bool),
  (forall a b, leb a b = true \/ leb b a = true) ->
  (forall a b c, leb a b = true -> leb b c = true -> leb a c = true) ->
  forall l, StronglySorted (fun a b => leb a b = true) (sort_by leb l).
Proof.
  induction l; simpl; [constructor|]. apply insert_by_sorted; auto.
Qed.

Lemma StronglySorted_nth : forall A (R : A -> A -> Prop) l i j a b,
  StronglySorted R l -> i < j -> nth_error l i = Some a -> nth_error l j = Some b -> R a b.
Proof.
  intros A R l. induction l; intros i j x y HS Hij Hi Hj.
  - destruct i; discriminate.
  - inversion HS; subst. destruct j; [lia|]. destruct i; simpl in *.
    + inversion Hi; subst. rewrite Forall_forall in H2. apply H2. eapply nth_error_In; eauto.
    + apply (IHl i j); auto; lia.
Qed.

(** ** Binary search *)

Definition not_gt {A} (cmp : A -> comparison) (a : A) := cmp a <> Gt.

(** [cmp] is monotone along [l]: elements comparing [Lt], then [Eq], then [Gt]. *)
Definition mono {A} (cmp : A -> comparison) (l : list A) :=
  forall i j a b, i <= j -> nth_error l i = Some a -> nth_error l j = Some b ->
    (cmp a = Gt -> cmp b = Gt) /\ (cmp a = Eq -> cmp b <> Lt).

Lemma bs_loop_S : forall A (cmp : A -> comparison) l n base size,
  bs_loop cmp l (S n) base size =
  if 1 <? size then
    bs_loop cmp l n (match nth_error l (base + size / 2) with
                     | Some a => match cmp a with Gt => base | _ => base + size / 2 end
                     | None => base
                     end) (size - size / 2)
  else base.
Proof. reflexivity. Qed.

Lemma half_bounds : forall size, 1 < size -> 1 <= size / 2 /\ size / 2 < size /\ 2 * (size / 2) <= size.
Proof.
  intros. split. apply (Nat.div_le_lower_bound size 2 1); lia. split. apply Nat.div_lt; lia.
  apply Nat.mul_div_le; lia.
Qed.

Lemma bs_loop_spec : forall A (cmp : A -> comparison) l, mono cmp l ->
  forall n base size, size <= n -> 1 <= size -> base + size <= length l ->
  (forall i a, i < base -> nth_error l i = Some a -> cmp a <> Gt) ->
  (forall i a, base + size <= i -> nth_error l i = Some a -> cmp a = Gt) ->
  let r := bs_loop cmp l n base size in
  r < length l /\
  (forall i a, i < r -> nth_error l i = Some a -> cmp a <> Gt) /\
  (forall i a, r < i -> nth_error l i = Some a -> cmp a = Gt).
Proof.
  intros A cmp l Hm. induction n; intros base size H1 H2 H3 Hlo Hhi; [lia|].
  cbv zeta. rewrite bs_loop_S. destruct (1 <? size) eqn:E1.
  - apply Nat.ltb_lt in E1. pose proof (half_bounds size E1) as Hh.
    set (half := size / 2) in *.
    destruct (nth_error l (base + half)) eqn:En.
    2:{ apply nth_error_None in En. lia. }
    destruct (cmp a) eqn:Ec.
    + apply IHn; try lia.
      * intros i b Hi Hb Hg. destruct (Hm i (base+half) b a ltac:(lia) Hb En) as [Hx _].
        rewrite Hx in Ec by auto. discriminate.
      * intros i b Hi Hb. apply (Hhi i b); auto; lia.
    + apply IHn; try lia.
      * intros i b Hi Hb Hg. destruct (Hm i (base+half) b a ltac:(lia) Hb En) as [Hx _].
        rewrite Hx in Ec by auto. discriminate.
      * intros i b Hi Hb. apply (Hhi i b); auto; lia.
    + apply IHn; try lia; auto.
      intros i b Hi Hb.
      destruct (le_lt_dec (base + half) i).
      * destruct (Hm (base+half) i a b ltac:(lia) En Hb) as [Hx _]. auto.
      * lia.
  - apply Nat.ltb_ge in E1. assert (size = 1) by lia. subst.
    split; [lia|]. split; auto. intros i a Hi Ha. apply (Hhi i a); auto; lia.
Qed.

(** With a comparison that never answers [Eq], the search returns the partition point. *)
Lemma binary_search_partition : forall A (cmp : A -> comparison) l,
  mono cmp l -> (forall a, In a l -> cmp a <> Eq) ->
  exists p, binary_search_by cmp l = inr p /\ p <= length l /\
    (forall i a, i < p -> nth_error l i = Some a -> cmp a = Lt) /\
    (forall i a, p <= i -> nth_error l i = Some a -> cmp a = Gt).
Proof.
  intros A cmp l Hm Hne.
  destruct l as [|x l'].
  { exists 0. simpl. repeat split; auto; intros i a; destruct i; try discriminate; lia. }
  set (l := x :: l') in *.
  assert (length l > 0) by (simpl; lia).
  destruct (bs_loop_spec A cmp l Hm (length l) 0 (length l)) as (Hb & Hlo & Hhi); try lia.

  { intros i a Hi Hn. apply nth_error_None in Hi. congruence. }
  unfold binary_search_by. set (b := bs_loop cmp l (length l) 0 (length l)) in *.
  destruct (nth_error l b) eqn:En.
  2:{ apply nth_error_None in En; lia. }
  assert (Hneq: forall i y, nth_error l i = Some y -> cmp y <> Eq).
  { intros i y Hy. apply Hne. eapply nth_error_In; eauto. }
  assert (Hlow: forall i y, i < b -> nth_error l i = Some y -> cmp y = Lt).
  { intros i y Hi Hy. specialize (Hlo i y Hi Hy). specialize (Hneq i y Hy).
    destruct (cmp y); congruence. }
  destruct (cmp a) eqn:Ec.
  - exfalso; apply (Hneq b a); auto.
  - exists (b + 1). repeat split; try lia.
    + intros i y Hi Hy. destruct (Nat.eq_dec i b); [subst; congruence | apply (Hlow i y); auto; lia].
    + intros i y Hi Hy. apply (Hhi i y); auto; lia.
  - exists b. repeat split; try lia; auto.
    intros i y Hi Hy. destruct (Nat.eq_dec i b); [subst; congruence | apply (Hhi i y); auto; lia].
Qed.

(** If some element compares [Eq], such an element is found. *)
Lemma binary_search_found : forall A (cmp : A -> comparison) l k a,
  mono cmp l -> nth_error l k = Some a -> cmp a = Eq ->
  exists p b, binary_search_by cmp l = inl p /\ nth_error l p = Some b /\ cmp b = Eq.
Proof.
  intros A cmp l k a Hm Hk Ha.
  assert (Hkl : k < length l) by (apply nth_error_Some; congruence).
  destruct (bs_loop_spec A cmp l Hm (length l) 0 (length l)) as (Hb & Hlo & Hhi); try lia.

  { intros i y Hi Hn. apply nth_error_None in Hi. congruence. }
  unfold binary_search_by. set (b := bs_loop cmp l (length l) 0 (length l)) in *.
  destruct (nth_error l b) as [y|] eqn:En.
  2:{ apply nth_error_None in En; lia. }
  assert (k <= b).
  { destruct (le_lt_dec k b); auto. rewrite (Hhi k a) in Ha; auto; discriminate. }
  destruct (Hm k b a y ltac:(lia) Hk En) as [_ H2]. specialize (H2 Ha).
  destruct (cmp y) eqn:Ec.
  - exists b, y; auto.
  - congruence.
  - exfalso. destruct (Nat.eq_dec k b); [subst; congruence|].
    (* then an element at k < b compares Eq while b compares Gt: base must have been kept *)
    clear - Hm Hk Ha En Ec n H Hkl Hlo Hhi Hb.
    assert (G: forall n base size, size <= n -> 1 <= size -> base + size <= length l ->
        (exists z, nth_error l base = Some z /\ (base = 0 \/ cmp z <> Gt)) ->
        exists z, nth_error l (bs_loop cmp l n base size) = Some z
                  /\ (bs_loop cmp l n base size = 0 \/ cmp z <> Gt)).
    { induction n0; intros base size H1 H2 H3 H4; [lia|].
      rewrite bs_loop_S. destruct (1 <? size) eqn:E1; auto.
      apply Nat.ltb_lt in E1. pose proof (half_bounds size E1) as Hh.
      destruct (nth_error l (base + size / 2)) eqn:En2.
      2:{ apply nth_error_None in En2. lia. }
      destruct (cmp a0) eqn:Ec2; apply IHn0; try lia; auto;
      exists a0; split; auto; right; congruence. }
    destruct (G (length l) 0 (length l)) as (z & Hz & Hz2); try lia.
    { destruct (nth_error l 0) eqn:E0; [eauto|]. apply nth_error_None in E0; lia. }
    fold b in Hz, Hz2. rewrite En in Hz. inversion Hz; subst.
    destruct Hz2; [lia|congruence].
Qed.

(** ** Miscellaneous list facts *)

Lemma take_while_all : forall A (p : A -> bool) l, (forall a, In a l -> p a = true) -> take_while p l = l.
Proof.
  induction l; simpl; intros; auto. rewrite H; auto. f_equal; auto.
Qed.

Lemma take_while_app_false : forall A (p : A -> bool) l1 l2,
  (forall a, In a l1 -> p a = true) -> (forall a, In a l2 -> p a = false) ->
  take_while p (l1 ++ l2) = l1.
Proof.
  induction l1; simpl; intros.
  - destruct l2; simpl; auto. rewrite H0; simpl; auto.
  - rewrite H by auto. f_equal; auto.
Qed.

Lemma filter_all : forall A (p : A -> bool) l, (forall a, In a l -> p a = true) -> filter p l = l.
Proof. induction l; simpl; intros; auto. rewrite H; auto. f_equal; auto. Qed.

Lemma filter_none : forall A (p : A -> bool) l, (forall a, In a l -> p a = false) -> filter p l = [].
Proof. induction l; simpl; intros; auto. rewrite H; auto. Qed.

Lemma nth_error_app_last : forall A (l : list A) a, nth_error (l ++ [a]) (length l) = Some a.
Proof. intros. rewrite nth_error_app2 by lia. rewrite Nat.sub_diag; auto. Qed.
