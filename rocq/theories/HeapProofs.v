(** HeapProofs: [heap_push] and [heap_pop] maintain the heap shape, and implement a
    priority queue. *)
From Coq Require Import List Arith Bool Lia Permutation.
From Verif Require Import Base BaseProofs Item Heap.
Import ListNotations.
Local Open Scope res_scope.

Section ItemOrder.
  Context {N : Type}.
  Implicit Types a b c : item N.

  Definition ile a b := item_leb a b = true.

  Lemma item_leb_spec : forall a b, item_leb a b = true <->
    it_origin a < it_origin b \/ (it_origin a = it_origin b /\ it_dot a <= it_dot b).
  Proof.
    intros. unfold item_leb, item_cmp.
    destruct (Nat.compare_spec (it_origin a) (it_origin b));
    destruct (Nat.compare_spec (it_dot a) (it_dot b)); split; intros; try discriminate; auto; lia.
  Qed.

  Lemma item_gtb_leb : forall a b, item_gtb a b = negb (item_leb a b).
  Proof. intros; unfold item_gtb, item_leb. destruct (item_cmp a b); auto. Qed.

  Lemma item_geb_spec : forall a b, item_geb a b = item_leb b a.
  Proof.
    intros. unfold item_geb, item_leb, item_cmp.
    rewrite (Nat.compare_antisym (it_origin a) (it_origin b)).
    rewrite (Nat.compare_antisym (it_dot a) (it_dot b)).
    destruct (Nat.compare (it_origin a) (it_origin b)); simpl; auto.
    destruct (Nat.compare (it_dot a) (it_dot b)); auto.
  Qed.

  Lemma ile_refl : forall a, ile a a.
  Proof. intros; apply item_leb_spec; lia. Qed.
  Lemma ile_trans : forall a b c, ile a b -> ile b c -> ile a c.
  Proof. unfold ile; intros a b c; rewrite !item_leb_spec; lia. Qed.
  Lemma ile_total : forall a b, ile a b \/ ile b a.
  Proof. unfold ile; intros a b; rewrite !item_leb_spec; lia. Qed.
  Lemma not_ile : forall a b, item_leb a b = false -> ile b a.
  Proof. intros a b H. destruct (ile_total a b); auto. unfold ile in H0; congruence. Qed.
End ItemOrder.

Section HeapProofs.
  Context {N : Type}.
  Implicit Type h : list (item N).

  Definition par (i : nat) := (i - 1) / 2.

  Lemma par_lt : forall i, 0 < i -> par i < i.
  Proof. intros. unfold par. apply Nat.div_lt_upper_bound; lia. Qed.

  Lemma par_children : forall i p, 0 < i -> (par i = p <-> i = 2 * p + 1 \/ i = 2 * p + 2).
  Proof.
    intros i p H. unfold par. split.
    - intros E. pose proof (Nat.div_mod (i - 1) 2 ltac:(lia)) as D. rewrite E in D.
      pose proof (Nat.mod_upper_bound (i - 1) 2 ltac:(lia)). lia.
    - intros [E|E]; subst.
      + replace (2 * p + 1 - 1) with (p * 2) by lia. apply Nat.div_mul; lia.
      + replace (2 * p + 2 - 1) with (1 + p * 2) by lia. rewrite Nat.div_add by lia. reflexivity.
  Qed.

  Definition heap_ok h :=
    forall i a b, 0 < i -> nth_error h i = Some a -> nth_error h (par i) = Some b -> ile a b.

  Lemma heap_ok_nil : heap_ok [].
  Proof. intros i a b _ H. destruct i; discriminate. Qed.

  (** The root of a heap is a maximum. *)
  Lemma heap_ok_max : forall h top, heap_ok h -> nth_error h 0 = Some top ->
    forall x, In x h -> ile x top.
  Proof.
    intros h top Hh Ht x Hx. apply In_nth_error in Hx. destruct Hx as [i Hi].
    revert x Hi. induction i as [i IH] using lt_wf_ind. intros x Hi.
    destruct i.
    - rewrite Ht in Hi; inversion Hi; apply ile_refl.
    - pose proof (par_lt (S i) ltac:(lia)).
      destruct (nth_error h (par (S i))) as [y|] eqn:E.
      + apply ile_trans with y. apply (Hh (S i) x y); auto; lia. apply (IH (par (S i))); auto.
      + apply nth_error_None in E. assert (S i < length h) by (apply nth_error_Some; congruence). lia.
  Qed.

  Lemma set_nth_perm_cons : forall (A : Type) (l : list A) i x y,
    nth_error l i = Some x -> Permutation (y :: l) (x :: set_nth l i y).
  Proof.
    induction l; destruct i; simpl; intros; try discriminate.
    - inversion H; subst. apply perm_swap.
    - eapply perm_trans; [apply perm_swap|]. eapply perm_trans; [|apply perm_swap].
      constructor. apply IHl; auto.
  Qed.

  Lemma swap_perm : forall (A : Type) (l : list A) i j x y,
    i <> j -> nth_error l i = Some x -> nth_error l j = Some y ->
    Permutation l (set_nth (set_nth l i y) j x).
  Proof.
    intros A l i j x y Hij Hi Hj.
    pose proof (set_nth_perm_cons A l i x y Hi) as P1.
    assert (Hj': nth_error (set_nth l i y) j = Some y) by (rewrite set_nth_other; auto).
    pose proof (set_nth_perm_cons A (set_nth l i y) j y x Hj') as P2.
    apply Permutation_cons_inv with (a := y). eapply perm_trans; eauto.
  Qed.

  (** heap with a possible violation between [pos] and its parent *)
  Definition ok_up h pos :=
    (forall i a b, 0 < i -> i <> pos -> nth_error h i = Some a -> nth_error h (par i) = Some b -> ile a b) /\
    (forall i a b, 0 < i -> 0 < pos -> par i = pos -> nth_error h i = Some a ->
       nth_error h (par pos) = Some b -> ile a b).

  Lemma sift_up_spec : forall n pos h element,
    pos < length h -> pos <= n -> ok_up (set_nth h pos element) pos ->
    exists h', sift_up_loop n element 0 pos h = Ret h' /\ heap_ok h' /\
      Permutation (set_nth h pos element) h'.
  Proof.
    induction n; intros pos h element Hl Hn [H1 H2].
    - assert (pos = 0) by lia; subst. simpl. rewrite upd_Ret by auto.
      eexists; split; [reflexivity|]. split; auto.
      intros i a b Hi Ha Hb. apply (H1 i a b); auto; lia.
    - unfold sift_up_loop; fold (@sift_up_loop N).
      destruct (0 <? pos) eqn:E.
      2:{ apply Nat.ltb_ge in E. assert (pos = 0) by lia; subst. rewrite upd_Ret by auto.
          eexists; split; [reflexivity|]. split; auto.
          intros i a b Hi Ha Hb. apply (H1 i a b); auto; lia. }
      apply Nat.ltb_lt in E. change ((pos - 1) / 2) with (par pos).
      pose proof (par_lt pos E) as Hp.
      destruct (idx_lt _ h (par pos) ltac:(lia)) as (pi & Ei & En). rewrite Ei. simpl.
      destruct (item_leb element pi) eqn:El.
      + rewrite upd_Ret by auto. eexists; split; [reflexivity|]. split; auto.
        intros i a b Hi Ha Hb. destruct (Nat.eq_dec i pos).
        * subst. rewrite set_nth_same in Ha by auto. inversion Ha; subst.
          rewrite set_nth_other in Hb by lia. rewrite En in Hb; inversion Hb; subst. exact El.
        * apply (H1 i a b); auto.
      + rewrite upd_Ret by auto. simpl.
        set (g := set_nth h pos element) in *.
        assert (Eg: set_nth (set_nth h pos pi) (par pos) element
                    = set_nth (set_nth g pos pi) (par pos) element).
        { unfold g. rewrite set_nth_set_nth. auto. }
        assert (Lg: length g = length h) by apply set_nth_length.
        assert (Gp: nth_error g (par pos) = Some pi) by (unfold g; rewrite set_nth_other; auto; lia).
        assert (Gs: nth_error g pos = Some element) by (unfold g; apply set_nth_same; auto).
        apply not_ile in El.
        destruct (IHn (par pos) (set_nth h pos pi) element) as (h' & E' & Hok & Hperm).
        * rewrite set_nth_length; lia.
        * lia.
        * rewrite Eg.
          assert (GA: forall i, i <> pos -> i <> par pos ->
                    nth_error (set_nth (set_nth g pos pi) (par pos) element) i = nth_error g i).
          { intros. rewrite !set_nth_other; auto. }
          assert (GB: nth_error (set_nth (set_nth g pos pi) (par pos) element) pos = Some pi).
          { rewrite set_nth_other by lia. apply set_nth_same; lia. }
          assert (GC: nth_error (set_nth (set_nth g pos pi) (par pos) element) (par pos) = Some element).
          { apply set_nth_same. rewrite set_nth_length; lia. }
          set (g1 := set_nth (set_nth g pos pi) (par pos) element) in *.
          split.
          -- intros i a b Hi Hne Ha Hb.
             destruct (Nat.eq_dec i pos).
             { subst i. rewrite GB in Ha. rewrite GC in Hb. congruence. }
             destruct (Nat.eq_dec (par i) pos).
             { rewrite e, GB in Hb. inversion Hb; subst b.
               rewrite GA in Ha by auto. apply (H2 i a pi); auto. }
             destruct (Nat.eq_dec (par i) (par pos)).
             { rewrite e, GC in Hb. inversion Hb; subst b. rewrite GA in Ha by auto.
               eapply ile_trans; [|exact El]. apply (H1 i a pi); auto. rewrite e; auto. }
             rewrite GA in Ha, Hb by auto. apply (H1 i a b); auto.
          -- intros i a b Hi Hpp Hpi Ha Hb.
             pose proof (par_lt (par pos) Hpp).
             rewrite GA in Hb by lia.
             assert (Hpb: ile pi b) by (apply (H1 (par pos) pi b); auto; lia).
             destruct (Nat.eq_dec i pos).
             { subst i. rewrite GB in Ha. inversion Ha; subst a; auto. }
             assert (i <> par pos). { pose proof (par_lt i Hi). lia. }
             rewrite GA in Ha by auto. eapply ile_trans; [|exact Hpb].
             apply (H1 i a pi); auto. rewrite Hpi; auto.
        * exists h'. split; auto. split; auto. rewrite Eg in Hperm.
          eapply perm_trans; [|exact Hperm]. apply swap_perm; auto. lia.
  Qed.

  Lemma heap_push_spec : forall h x, heap_ok h ->
    exists h', heap_push x h = Ret h' /\ heap_ok h' /\ Permutation (x :: h) h'.
  Proof.
    intros h x Hh. unfold heap_push, sift_up.
    rewrite (idx_some _ _ _ _ (nth_error_app_last _ h x)). simpl.
    destruct (sift_up_spec (length (h ++ [x])) (length h) (h ++ [x]) x) as (h' & E & Hok & Hp).
    - rewrite app_length; simpl; lia.
    - rewrite app_length; simpl; lia.
    - rewrite set_nth_id by apply nth_error_app_last. split.
      + intros i a b Hi Hne Ha Hb. pose proof (par_lt i Hi).
        assert (i < length (h ++ [x])) by (apply nth_error_Some; congruence).
        rewrite app_length in H0; simpl in H0.
        rewrite nth_error_app1 in Ha by lia. rewrite nth_error_app1 in Hb by lia.
        apply (Hh i a b); auto.
      + intros i a b Hi Hl Hp Ha Hb. pose proof (par_lt i Hi).
        assert (i < length (h ++ [x])) by (apply nth_error_Some; congruence).
        rewrite app_length in H0; simpl in H0. lia.
    - exists h'. split; auto. split; auto.
      rewrite set_nth_id in Hp by apply nth_error_app_last.
      eapply perm_trans; [|exact Hp]. apply Permutation_cons_append.
  Qed.

  (** heap with a possible violation between [pos] and its children *)
  Definition ok_down h pos :=
    (forall i a b, 0 < i -> par i <> pos -> nth_error h i = Some a -> nth_error h (par i) = Some b -> ile a b) /\
    (forall i a b, 0 < i -> 0 < pos -> par i = pos -> nth_error h i = Some a ->
       nth_error h (par pos) = Some b -> ile a b).

  Lemma sift_down_spec : forall n pos h element,
    pos < length h -> length h <= pos + n -> ok_down (set_nth h pos element) pos ->
    exists h', sift_down_loop n element pos (2 * pos + 1) (length h) h = Ret h' /\ heap_ok h' /\
      Permutation (set_nth h pos element) h'.
  Proof.
    induction n; intros pos h element Hl Hn [H1 H2]; [lia|].
    unfold sift_down_loop; fold (@sift_down_loop N).
    destruct (2 * pos + 1 <? length h) eqn:E.
    2:{ apply Nat.ltb_ge in E. rewrite upd_Ret by auto.
        eexists; split; [reflexivity|]. split; auto.
        intros i a b Hi Ha Hb. apply (H1 i a b); auto.
        intro Hp. apply par_children in Hp; auto.
        assert (i < length (set_nth h pos element)) by (apply nth_error_Some; congruence).
        rewrite set_nth_length in H. lia. }
    apply Nat.ltb_lt in E.
    (* the greater child *)
    set (g := set_nth h pos element) in *.
    assert (Lg: length g = length h) by apply set_nth_length.
    assert (Gs: nth_error g pos = Some element) by (apply set_nth_same; auto).
    assert (GO: forall i, i <> pos -> nth_error g i = nth_error h i)
      by (intros; apply set_nth_other; auto).
    assert (exists child c,
      (if 2 * pos + 1 + 1 <? length h
       then l <- idx h (2 * pos + 1);; r <- idx h (2 * pos + 1 + 1);;
            Ret (if negb (item_gtb l r) then 2 * pos + 1 + 1 else 2 * pos + 1)
       else Ret (2 * pos + 1)) = Ret child /\
      par child = pos /\ 0 < child /\ child < length h /\ nth_error h child = Some c /\
      (forall i a, 0 < i -> par i = pos -> nth_error h i = Some a -> ile a c)) as HC.
    { destruct (idx_lt _ h (2 * pos + 1) E) as (lc & El & Enl).
      destruct (2 * pos + 1 + 1 <? length h) eqn:Er.
      - apply Nat.ltb_lt in Er.
        destruct (idx_lt _ h (2 * pos + 1 + 1) Er) as (rc & Erc & Enr). rewrite El, Erc. cbn [bind].
        rewrite item_gtb_leb, negb_involutive.
        destruct (item_leb lc rc) eqn:Ec.
        + exists (2 * pos + 1 + 1), rc. repeat split; auto; try lia.
          * apply par_children; lia.
          * intros i a Hi Hp Ha. apply par_children in Hp; auto. destruct Hp; subst i.
            -- rewrite Enl in Ha; inversion Ha; subst; exact Ec.
            -- replace (2 * pos + 2) with (2 * pos + 1 + 1) in Ha by lia.
               rewrite Enr in Ha; inversion Ha; apply ile_refl.
        + exists (2 * pos + 1), lc. repeat split; auto; try lia.
          * apply par_children; lia.
          * intros i a Hi Hp Ha. apply par_children in Hp; auto. destruct Hp; subst i.
            -- rewrite Enl in Ha; inversion Ha; subst; apply ile_refl.
            -- replace (2 * pos + 2) with (2 * pos + 1 + 1) in Ha by lia.
               rewrite Enr in Ha; inversion Ha; subst; apply not_ile; auto.
      - apply Nat.ltb_ge in Er. exists (2 * pos + 1), lc. repeat split; auto; try lia.
        + apply par_children; lia.
        + intros i a Hi Hp Ha. apply par_children in Hp; auto. destruct Hp; subst i.
          * rewrite Enl in Ha; inversion Ha; subst; apply ile_refl.
          * assert (2 * pos + 2 < length h) by (apply nth_error_Some; congruence). lia. }
    destruct HC as (child & c & Ech & Hpc & Hc0 & Hcl & Hcn & Hmax).
    rewrite Ech. simpl bind. rewrite (idx_some _ _ _ _ Hcn). simpl bind.
    pose proof (par_lt child Hc0) as Hlt. rewrite Hpc in Hlt.
    rewrite item_geb_spec. destruct (item_leb c element) eqn:Ege.
    - rewrite upd_Ret by auto. eexists; split; [reflexivity|]. split; auto. fold g.
      intros i a b Hi Ha Hb. destruct (Nat.eq_dec (par i) pos) as [e|e].
      + rewrite e, Gs in Hb. inversion Hb; subst b.
        assert (i <> pos) by (pose proof (par_lt i Hi); lia).
        rewrite GO in Ha by auto. eapply ile_trans; [|exact Ege]. eapply Hmax; eauto.
      + apply (H1 i a b); auto.
    - rewrite upd_Ret by auto. simpl bind.
      assert (Eg: set_nth (set_nth h pos c) child element
                  = set_nth (set_nth g pos c) child element).
      { unfold g. rewrite set_nth_set_nth. auto. }
      assert (Gc: nth_error g child = Some c) by (rewrite GO; auto; lia).
      apply not_ile in Ege.
      specialize (IHn child (set_nth h pos c) element). rewrite !set_nth_length in IHn.
      destruct IHn as (h' & E' & Hok & Hperm); try lia.
      + rewrite Eg.
        assert (GA: forall i, i <> pos -> i <> child ->
                  nth_error (set_nth (set_nth g pos c) child element) i = nth_error g i).
        { intros. rewrite !set_nth_other; auto. }
        assert (GB: nth_error (set_nth (set_nth g pos c) child element) pos = Some c).
        { rewrite set_nth_other by lia. apply set_nth_same; lia. }
        assert (GC: nth_error (set_nth (set_nth g pos c) child element) child = Some element).
        { apply set_nth_same. rewrite set_nth_length; lia. }
        set (g1 := set_nth (set_nth g pos c) child element) in *.
        split.
        * intros i a b Hi Hne Ha Hb.
          destruct (Nat.eq_dec (par i) pos) as [e|e].
          { rewrite e, GB in Hb. inversion Hb; subst b.
            destruct (Nat.eq_dec i child).
            - subst. rewrite GC in Ha; inversion Ha; subst; auto.
            - assert (i <> pos) by (pose proof (par_lt i Hi); lia).
              rewrite GA, GO in Ha by auto. eapply Hmax; eauto. }
          destruct (Nat.eq_dec i pos) as [e2|e2].
          { subst i. rewrite GB in Ha. inversion Ha; subst a.
            assert (par pos <> child) by (pose proof (par_lt pos Hi); lia).
            rewrite GA in Hb by auto. apply (H2 child c b); auto. }
          destruct (Nat.eq_dec i child) as [e3|e3]; [congruence|].
          rewrite GA in Ha, Hb by auto. apply (H1 i a b); auto.
        * intros i a b Hi Hch Hpi Ha Hb. rewrite Hpc in Hb. rewrite GB in Hb.
          inversion Hb; subst b.
          assert (i <> child /\ i <> pos) by (pose proof (par_lt i Hi); lia).
          rewrite GA in Ha by tauto. apply (H1 i a c); auto. lia. rewrite Hpi; auto.
      + exists h'. split; auto. split; auto. rewrite Eg in Hperm.
        eapply perm_trans; [|exact Hperm]. apply swap_perm; auto. lia.
  Qed.

  Lemma heap_pop_spec : forall h top, heap_ok h -> heap_peek h = Some top ->
    exists h', heap_pop h = Ret (Some top, h') /\ heap_ok h' /\ Permutation h (top :: h').
  Proof.
    intros h top Hh Hp. unfold heap_peek in Hp.
    destruct h as [|x t]; [discriminate|]. simpl in Hp; inversion Hp; subst x.
    unfold heap_pop. destruct t as [|y t'].
    - simpl. exists []. split; auto. split; auto. apply heap_ok_nil.
    - set (t := y :: t') in *.
      assert (Hr: removelast (top :: t) = top :: removelast t) by reflexivity.
      rewrite Hr. rewrite upd_Ret by (simpl; lia).
      set (lst := last t top). set (rest := top :: removelast t).
      assert (Hsplit: top :: t = rest ++ [lst]).
      { unfold rest, lst. simpl. f_equal.
        rewrite (@app_removelast_last _ t top) at 1; auto. unfold t; congruence. }
      change (set_nth rest 0 lst) with (lst :: removelast t).
      destruct (sift_down_spec (length (lst :: removelast t)) 0 (lst :: removelast t) lst)
        as (h' & E & Hok & Hperm).
      + simpl; lia.
      + lia.
      + change (set_nth (lst :: removelast t) 0 lst) with (lst :: removelast t).
        assert (Heq: forall i, 0 < i -> i < length rest ->
           nth_error (lst :: removelast t) i = nth_error (top :: t) i).
        { intros i Hi Hl. rewrite Hsplit. rewrite nth_error_app1 by auto.
          destruct i; [lia|]. reflexivity. }
        split.
        * intros i a b Hi Hne Ha Hb.
          assert (i < length rest).
          { assert (i < length (lst :: removelast t)) by (apply nth_error_Some; congruence). auto. }
          pose proof (par_lt i Hi).
          rewrite Heq in Ha by auto. rewrite Heq in Hb by lia. apply (Hh i a b); auto.
        * intros; lia.
      + assert (E2: sift_down 0 (lst :: removelast t) = Ret h') by exact E.
        cbn [bind]. rewrite E2. cbn [bind]. exists h'. split; auto. split; auto.
        rewrite Hsplit. eapply perm_trans; [apply Permutation_app_comm|]. simpl.
        unfold rest. eapply perm_trans; [apply perm_swap|]. constructor. exact Hperm.
  Qed.

  Lemma heap_pop_nil : heap_pop (@nil (item N)) = Ret (None, []).
  Proof. reflexivity. Qed.
End HeapProofs.
