(** CartesianProofs: the enumeration is complete and without repetition. *)
From Coq Require Import List Arith Bool Lia.
From Verif Require Import Base BaseProofs Cartesian CartesianSpec.
Import ListNotations.
Local Open Scope res_scope.

Section Proofs.
  Context {V : Type}.
  Notation slice := (slice V).
  Implicit Types ss : list slice.

  Definition elems ss : list (list V) := map s_elems ss.
  Definition count ss : nat := combination_count (elems ss).

  (** the pointers after [k] steps *)
  Fixpoint digits ss (k : nat) : list (ptr V) :=
    match ss with
    | [] => []
    | s :: r => mkPtr s (k mod length (s_elems s)) :: digits r (k / length (s_elems s))
    end.

  Lemma pushed_gen : forall ss c, fold_left cp_push ss c =
    mkCart (c_ptrs c ++ map (fun f => mkPtr f 0) ss) (c_ranges c ++ ss).
  Proof.
    induction ss as [|s ss IH]; intros c; cbn.
    - rewrite !app_nil_r. now destruct c.
    - rewrite IH. cbn. now rewrite <- !app_assoc.
  Qed.

  Lemma digits_0 : forall ss, Forall (fun s => s_elems s <> []) ss ->
    digits ss 0 = map (fun f => mkPtr f 0) ss.
  Proof.
    induction ss as [|s ss IH]; intros H; cbn; auto.
    inversion H as [|? ? Hs Hss]; subst.
    assert (length (s_elems s) <> 0) by (destruct (s_elems s); [congruence|cbn; lia]).
    rewrite Nat.mod_0_l, Nat.div_0_l by auto. now rewrite IH.
  Qed.

  Lemma pushed_digits : forall ss, Forall (fun s => s_elems s <> []) ss ->
    pushed ss = mkCart (digits ss 0) ss.
  Proof. intros. unfold pushed. rewrite pushed_gen. cbn. now rewrite digits_0. Qed.

  Lemma count_pos : forall ss, Forall (fun s => s_elems s <> []) ss -> 0 < count ss.
  Proof.
    induction 1 as [|s ss Hs Hss IH]; cbn; [lia|].
    unfold count in IH. change (0 < length (s_elems s) * combination_count (elems ss)).
    destruct (s_elems s); [congruence|]. cbn [length]. lia.
  Qed.

  Lemma digits_count : forall ss, Forall (fun s => s_elems s <> []) ss ->
    digits ss (count ss) = digits ss 0.
  Proof.
    induction 1 as [|s ss Hs Hss IH]; cbn [digits]; auto.
    assert (length (s_elems s) <> 0) by (destruct (s_elems s); [congruence|cbn; lia]).
    change (count (s :: ss)) with (length (s_elems s) * count ss).
    rewrite Nat.mul_comm, Nat.mod_mul, Nat.div_mul, Nat.mod_0_l, Nat.div_0_l by auto.
    now rewrite IH.
  Qed.

  Lemma advance_digits : forall ss, Forall (fun s => s_elems s <> []) ss -> forall k, k < count ss ->
    advance_zip (digits ss k) ss = (S k <? count ss, digits ss (S k)).
  Proof.
    induction 1 as [|s ss Hs Hss IH]; intros k Hk; cbn [digits advance_zip].
    - unfold count in Hk. cbn in Hk. replace k with 0 by lia. reflexivity.
    - assert (Hn : length (s_elems s) <> 0) by (destruct (s_elems s); [congruence|cbn; lia]).
      change (count (s :: ss)) with (length (s_elems s) * count ss) in *.
      set (n := length (s_elems s)) in *.
      unfold factor_advance, at_end. cbn [p_slice p_off].
      rewrite Nat.eqb_refl. cbn [andb]. fold n.
      pose proof (Nat.div_mod k n Hn) as Ek.
      pose proof (Nat.mod_upper_bound k n Hn) as Hm.
      assert (Hq : k / n < count ss) by (apply Nat.div_lt_upper_bound; lia).
      destruct (k mod n + 1 =? n) eqn:E.
      + apply Nat.eqb_eq in E. cbn [negb].
        assert (ES : S k = (k / n + 1) * n) by nia.
        assert (E1 : S k / n = S (k / n)) by (rewrite ES, (Nat.div_mul _ n Hn); apply Nat.add_1_r).
        assert (E2 : S k mod n = 0) by (rewrite ES; apply (Nat.mod_mul _ n Hn)).
        rewrite (IH _ Hq). rewrite E1, E2. f_equal.
        apply eq_true_iff_eq. rewrite !Nat.ltb_lt. rewrite ES. nia.
      + apply Nat.eqb_neq in E. cbn [negb].
        assert (E1 : S k / n = k / n).
        { symmetry. apply (Nat.div_unique (S k) n (k / n) (k mod n + 1)); nia. }
        assert (E2 : S k mod n = k mod n + 1).
        { symmetry. apply (Nat.mod_unique (S k) n (k / n) (k mod n + 1)); nia. }
        rewrite E1, E2. f_equal. symmetry. apply Nat.ltb_lt. nia.
  Qed.

  Lemma nth_flat_map_blocks : forall (f : list V) (tails : list (list V)) q r x tail,
    nth_error tails q = Some tail -> nth_error f r = Some x ->
    nth_error (flat_map (fun tail => map (fun x => x :: tail) f) tails) (q * length f + r) = Some (x :: tail).
  Proof.
    intros f tails. induction tails as [|t ts IH]; intros q r x tail Hq Hr; [destruct q; discriminate|].
    cbn. assert (r < length f) by (apply nth_error_Some; congruence).
    destruct q as [|q]; cbn in Hq.
    - injection Hq as ->. cbn. rewrite nth_error_app1 by (rewrite map_length; lia).
      rewrite nth_error_map, Hr. reflexivity.
    - rewrite nth_error_app2 by (rewrite map_length; cbn; lia).
      rewrite map_length. replace (S q * length f + r - length f) with (q * length f + r) by (cbn; lia).
      now apply IH.
  Qed.

  Lemma combinations_length : forall (fs : list (list V)), length (combinations fs) = combination_count fs.
  Proof.
    induction fs as [|f fs IH]; [reflexivity|]. cbn [combinations].
    change (combination_count (f :: fs)) with (length f * combination_count fs). rewrite <- IH. clear IH.
    induction (combinations fs) as [|t ts IHt]; cbn; [lia|].
    rewrite app_length, map_length, IHt. lia.
  Qed.

  Lemma read_digits : forall ss, Forall (fun s => s_elems s <> []) ss -> forall k, k < count ss ->
    exists vs, mapM (fun p => idx (s_elems (p_slice p)) (p_off p)) (digits ss k) = Ret vs /\
      nth_error (combinations (elems ss)) k = Some vs.
  Proof.
    induction 1 as [|s ss Hs Hss IH]; intros k Hk.
    - unfold count in Hk. cbn in *. exists []. replace k with 0 by lia. auto.
    - assert (Hn : length (s_elems s) <> 0) by (destruct (s_elems s); [congruence|cbn; lia]).
      change (count (s :: ss)) with (length (s_elems s) * count ss) in *.
      set (n := length (s_elems s)) in *.
      pose proof (Nat.div_mod k n Hn) as Ek.
      pose proof (Nat.mod_upper_bound k n Hn) as Hm.
      assert (Hq : k / n < count ss) by (apply Nat.div_lt_upper_bound; lia).
      destruct (IH _ Hq) as (vs & E1 & E2).
      destruct (nth_error (s_elems s) (k mod n)) as [x|] eqn:Ex.
      2: { apply nth_error_None in Ex. fold n in Ex. lia. }
      exists (x :: vs). split.
      + cbn [digits mapM p_slice p_off]. fold n. rewrite (idx_some _ _ _ _ Ex). cbn [bind].
        rewrite E1. reflexivity.
      + cbn [elems map combinations]. replace k with (k / n * n + k mod n) by lia.
        apply nth_flat_map_blocks; auto.
  Qed.

  Lemma skipn_nth : forall A (l : list A) k x, nth_error l k = Some x -> skipn k l = x :: skipn (S k) l.
  Proof.
    intros A l. induction l as [|y l IH]; intros k x H; [destruct k; discriminate|].
    destruct k as [|k]; cbn in *; [congruence|]. rewrite (IH _ _ H). reflexivity.
  Qed.

  Lemma loop_digits : forall ss, Forall (fun s => s_elems s <> []) ss ->
    forall fuel k, k < count ss -> count ss - k <= fuel ->
    cp_loop fuel (mkCart (digits ss k) ss) =
      Ret (skipn k (combinations (elems ss)), mkCart (digits ss 0) ss).
  Proof.
    intros ss H fuel. induction fuel as [|fuel IH]; intros k Hk Hf; [lia|].
    cbn [cp_loop]. unfold cp_read. cbn [c_ptrs].
    destruct (read_digits ss H k Hk) as (vs & E1 & E2). rewrite E1. cbn [bind].
    unfold cp_advance. cbn [c_ptrs c_ranges]. rewrite (advance_digits ss H k Hk).
    rewrite (skipn_nth _ _ _ _ E2).
    destruct (S k <? count ss) eqn:E.
    - apply Nat.ltb_lt in E. rewrite IH by lia. reflexivity.
    - apply Nat.ltb_ge in E. assert (S k = count ss) by lia. rewrite H0.
      rewrite digits_count by auto. rewrite skipn_all2; auto.
      rewrite combinations_length. fold (count ss). lia.
  Qed.

  Theorem loop_spec : forall ss fuel, Forall (fun s => s_elems s <> []) ss -> count ss <= fuel ->
    cp_loop fuel (pushed ss) = Ret (combinations (elems ss), pushed ss).
  Proof.
    intros ss fuel H Hf. rewrite pushed_digits by auto.
    rewrite (loop_digits ss H fuel 0 (count_pos ss H)) by lia. reflexivity.
  Qed.

  Lemma combinations_in : forall (fs : list (list V)) c,
    In c (combinations fs) <-> Forall2 (fun x f => In x f) c fs.
  Proof.
    induction fs as [|f fs IH]; intros c; cbn.
    - split; [intros [<-|[]]; constructor|]. intros H. inversion H. auto.
    - rewrite in_flat_map. split.
      + intros (t & Ht & Hc). apply in_map_iff in Hc. destruct Hc as (x & <- & Hx).
        constructor; auto. now apply IH.
      + intros H. inversion H as [|x f' t fs' Hx Ht]; subst. exists t. split; [now apply IH|].
        apply in_map_iff. eauto.
  Qed.

  Lemma combinations_NoDup : forall (fs : list (list V)), Forall (@NoDup V) fs -> NoDup (combinations fs).
  Proof.
    induction fs as [|f fs IH]; intros H; cbn; [repeat constructor; auto|].
    inversion H as [|? ? Hf Hfs]; subst. specialize (IH Hfs).
    induction IH as [|t ts Ht Hts IHt]; cbn; [constructor|].
    assert (D : NoDup (map (fun x => x :: t) f)).
    { clear -Hf. induction Hf; cbn; constructor; auto. intros Hin. apply in_map_iff in Hin.
      destruct Hin as (y & E & Hy). congruence. }
    revert D. assert (Hdis : forall c, In c (map (fun x => x :: t) f) ->
      ~ In c (flat_map (fun tail => map (fun x => x :: tail) f) ts)).
    { intros c Hc Hc'. apply in_map_iff in Hc. destruct Hc as (x & <- & _).
      apply in_flat_map in Hc'. destruct Hc' as (t' & Ht' & Hc'). apply in_map_iff in Hc'.
      destruct Hc' as (y & E & _). injection E as -> ->. contradiction. }
    revert Hdis. generalize (map (fun x => x :: t) f). intros l Hdis D.
    induction D as [|c l Hc D IHl]; cbn; auto. constructor.
    - rewrite in_app_iff. intros [X|X]; [contradiction|]. now apply (Hdis c); [left|].
    - apply IHl. intros c' Hc'. apply Hdis. now right.
  Qed.

  Lemma extend_new : forall ss, cp_extend cp_new ss = pushed ss.
  Proof. intros. unfold pushed. now rewrite pushed_gen. Qed.

  Lemma extend_clear : forall c ss, cp_extend (cp_clear c) ss = pushed ss.
  Proof. intros. apply extend_new. Qed.

  (** exactly when [extend] agrees with pushing *)
  Lemma extend_iff : forall c ss, cp_extend c ss = fold_left cp_push ss c <-> c_ranges c = [].
  Proof.
    intros c ss. rewrite pushed_gen. unfold cp_extend. split.
    - intros H. injection H as H. apply app_inv_head in H. rewrite map_app in H.
      apply (f_equal (@length _)) in H. rewrite app_length, !map_length in H.
      destruct (c_ranges c); [auto|]. cbn in H. unfold factor in *. lia.
    - intros ->. reflexivity.
  Qed.
End Proofs.
