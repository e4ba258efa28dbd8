(** RemapFacts: [find_gensyms] and the comparator of [remap_symbols]. *)
From Coq Require Import List Arith Bool Lia Relations.
From Verif Require Import Base BaseProofs Grammar BitMatrix DefaultGrammar TablesProofs TablesTotal.
Import ListNotations.
Local Open Scope res_scope.

(** *** counting *)
Definition first_of_binary (s : sym) (r : prule) : bool :=
  match p_rhs r with [r0; _] => (r0 =? s) && negb (p_lhs r =? r0) | _ => false end.
Definition lhs_of_binary (s : sym) (r : prule) : bool :=
  match p_rhs r with [r0; _] => (p_lhs r =? s) && negb (p_lhs r =? r0) | _ => false end.
Definition later (s : sym) (r : prule) : nat := count_occ Nat.eq_dec (skipn 1 (p_rhs r)) s.

Definition count (p : prule -> bool) (l : list prule) : nat := length (filter p l).
Definition sum (f : prule -> nat) (l : list prule) : nat := fold_right (fun r n => f r + n) 0 l.

Lemma bump_spec : forall f occs s occs', bump f occs s = Ret occs' ->
  length occs' = length occs /\ s < length occs /\
  forall x, nth x occs' (0, 0, 0) = if x =? s then f (nth s occs (0, 0, 0)) else nth x occs (0, 0, 0).
Proof.
  intros f occs s occs' H. unfold bump in H. apply bind_Ret in H. destruct H as (o & Ho & H).
  apply idx_Ret in Ho. apply upd_inv in H. destruct H as [Hl ->]. rewrite set_nth_length. split; [auto|]. split; [auto|].
  intros x. rewrite nth_set_nth by auto. rewrite (nth_error_nth _ _ _ Ho). rewrite Nat.eqb_sym. destruct (x =? s); auto.
Qed.

Lemma count_rule_spec : forall occs r occs', count_rule occs r = Ret occs' ->
  length occs' = length occs /\
  forall x, nth x occs' (0, 0, 0) = let '(a, b, d) := nth x occs (0, 0, 0) in
    ((if lhs_of_binary x r then 1 else 0) + a, (if first_of_binary x r then 1 else 0) + b, later x r + d).
Proof.
  intros occs r occs' H. unfold count_rule in H. apply bind_Ret in H. destruct H as (o1 & H1 & H2).
  assert (X1 : length o1 = length occs /\ forall x, nth x o1 (0, 0, 0) = let '(a, b, d) := nth x occs (0, 0, 0) in
    ((if lhs_of_binary x r then 1 else 0) + a, (if first_of_binary x r then 1 else 0) + b, d)).
  { unfold lhs_of_binary, first_of_binary.
    assert (Same : o1 = occs -> (forall x, match p_rhs r with [r0; _] => (p_lhs r =? x) && negb (p_lhs r =? r0) | _ => false end = false /\
      match p_rhs r with [r0; _] => (r0 =? x) && negb (p_lhs r =? r0) | _ => false end = false) ->
      length o1 = length occs /\ forall x, nth x o1 (0, 0, 0) = let '(a, b, d) := nth x occs (0, 0, 0) in
    ((if match p_rhs r with [r0; _] => (p_lhs r =? x) && negb (p_lhs r =? r0) | _ => false end then 1 else 0) + a,
     (if match p_rhs r with [r0; _] => (r0 =? x) && negb (p_lhs r =? r0) | _ => false end then 1 else 0) + b, d)).
    { intros -> K. split; [auto|]. intros x. destruct (K x) as [-> ->]. destruct (nth x occs (0, 0, 0)) as [[a b] d]. reflexivity. }
    destruct (p_rhs r) as [|r0 [|r1 [|r2 l]]]; try (injection H1 as <-; apply Same; auto; fail).
    destruct (p_lhs r =? r0) eqn:E; cbn [negb] in *.
    - injection H1 as <-. apply Same; [auto|]. intros x. now rewrite !andb_false_r.
    - apply bind_Ret in H1. destruct H1 as (o2 & A & B). apply bump_spec in A. destruct A as (A1 & _ & A2).
      apply bump_spec in B. destruct B as (B1 & _ & B2). split; [congruence|]. intros x. rewrite B2, !A2, !andb_true_r.
      rewrite (Nat.eqb_sym (p_lhs r) x), (Nat.eqb_sym r0 x).
      apply Nat.eqb_neq in E. destruct (Nat.eqb_spec x r0) as [->|N1].
      + replace (r0 =? p_lhs r) with false by (symmetry; apply Nat.eqb_neq; congruence).
        destruct (nth r0 occs (0, 0, 0)) as [[a b] d]. reflexivity.
      + destruct (Nat.eqb_spec x (p_lhs r)) as [->|N2].
        * destruct (nth (p_lhs r) occs (0, 0, 0)) as [[a b] d]. reflexivity.
        * destruct (nth x occs (0, 0, 0)) as [[a b] d]. reflexivity. }
  clear H1. destruct X1 as [L1 X1].
  assert (X2 : length occs' = length o1 /\ forall x, nth x occs' (0, 0, 0) = let '(a, b, d) := nth x o1 (0, 0, 0) in (a, b, later x r + d)).
  { unfold later. clear X1 L1. revert o1 H2. induction (skipn 1 (p_rhs r)) as [|s l IH]; intros o1 H2; cbn [foldM] in H2.
    - injection H2 as <-. split; [auto|]. intros x. cbn. destruct (nth x o1 (0, 0, 0)) as [[a b] d]. reflexivity.
    - apply bind_Ret in H2. destruct H2 as (o2 & A & B). apply bump_spec in A. destruct A as (A1 & _ & A2).
      destruct (IH _ B) as [IH1 IH2]. split; [congruence|]. intros x. rewrite IH2, A2. cbn [count_occ].
      destruct (Nat.eqb_spec x s) as [->|N].
      + destruct (Nat.eq_dec s s); [|congruence]. destruct (nth s o1 (0, 0, 0)) as [[a b] d]. cbn. f_equal. lia.
      + destruct (Nat.eq_dec s x); [congruence|]. destruct (nth x o1 (0, 0, 0)) as [[a b] d]. reflexivity. }
  destruct X2 as [L2 X2]. split; [congruence|]. intros x. rewrite X2, X1. destruct (nth x occs (0, 0, 0)) as [[a b] d]. reflexivity.
Qed.

Lemma occurrences_spec : forall c occs, occurrences c = Ret occs ->
  length occs = c_num_syms c /\
  forall x, nth x occs (0, 0, 0) = (count (lhs_of_binary x) (c_rules c), count (first_of_binary x) (c_rules c), sum (later x) (c_rules c)).
Proof.
  intros c occs H. unfold occurrences in H.
  assert (X : forall l o o', foldM count_rule l o = Ret o' -> length o' = length o /\
    forall x, nth x o' (0, 0, 0) = let '(a, b, d) := nth x o (0, 0, 0) in
      (count (lhs_of_binary x) l + a, count (first_of_binary x) l + b, sum (later x) l + d)).
  { induction l as [|r l IH]; intros o o' E; cbn [foldM] in E.
    - injection E as <-. split; [auto|]. intros x. destruct (nth x o (0, 0, 0)) as [[a b] d]. reflexivity.
    - apply bind_Ret in E. destruct E as (o1 & A & B). apply count_rule_spec in A. destruct A as [A1 A2].
      destruct (IH _ _ B) as [B1 B2]. split; [congruence|]. intros x. rewrite B2, A2.
      destruct (nth x o (0, 0, 0)) as [[a b] d]. unfold count. unfold sum. cbn [filter fold_right].
      destruct (lhs_of_binary x r), (first_of_binary x r); cbn [length]; (apply (f_equal2 pair); [apply (f_equal2 pair)|]); lia. }
  destruct (X _ _ _ H) as [X1 X2]. rewrite repeat_length in X1. split; [auto|]. intros x. rewrite X2.
  assert (E : nth x (repeat (0, 0, 0) (c_num_syms c)) (0, 0, 0) = (0, 0, 0)).
  { generalize (c_num_syms c) as n. clear. intros n. revert x. induction n; intros [|x]; simpl; auto. }
  unfold occ in *. rewrite E. (apply (f_equal2 pair); [apply (f_equal2 pair)|]); lia.
Qed.

Lemma count_one : forall p l, count p l = 1 -> exists d r, nth_error l d = Some r /\ p r = true /\
  forall d' r', nth_error l d' = Some r' -> p r' = true -> d' = d.
Proof.
  intros p l. unfold count. induction l as [|r l IH]; intros H; [discriminate|]. cbn [filter] in H. destruct (p r) eqn:E.
  - exists 0, r. split; [auto|]. split; [auto|]. intros [|d'] r' H1 H2; [auto|]. exfalso. cbn in H1.
    cbn in H. assert (X : In r' (filter p l)) by (apply filter_In; split; [eapply nth_error_In; eauto|auto]).
    destruct (filter p l); [destruct X|discriminate].
  - destruct (IH H) as (d & q & A & B & C). exists (S d), q. split; [auto|]. split; [auto|].
    intros [|d'] r' H1 H2; [cbn in H1; congruence|]. f_equal. eapply C; eauto.
Qed.

(** what a classification as generated symbol guarantees *)
Lemma gensym_facts : forall c gens s, find_gensyms c = Ret gens -> nth_error gens s = Some true ->
  (exists r, In r (c_rules c) /\ p_lhs r = s /\ p_origin r = None) /\
  (forall r, In r (c_rules c) -> ~ In s (skipn 1 (p_rhs r))) /\
  (exists d r, nth_error (c_rules c) d = Some r /\ p_lhs r <> s /\ (exists s1, p_rhs r = [s; s1]) /\
     forall d' r' s1, nth_error (c_rules c) d' = Some r' -> p_lhs r' <> s -> p_rhs r' = [s; s1] -> d' = d) /\
  (exists d r, nth_error (c_rules c) d = Some r /\ p_lhs r = s /\ (exists s0 s1, p_rhs r = [s0; s1] /\ s0 <> s) /\
     forall d' r' s0 s1, nth_error (c_rules c) d' = Some r' -> p_lhs r' = s -> p_rhs r' = [s0; s1] -> s0 <> s -> d' = d).
Proof.
  intros c gens s H Hs. unfold find_gensyms in H. apply bind_Ret in H. destruct H as (occs & Ho & H).
  apply occurrences_spec in Ho. destruct Ho as [Lo Ho].
  assert (X : exists r, In r (c_rules c) /\ p_lhs r = s /\ p_origin r = None /\ exists o, nth_error occs s = Some o /\ occ_is_gensym o = true).
  { assert (K : forall l b b', foldM (fun bits r => o <- idx occs (p_lhs r) ;;
        if occ_is_gensym o && is_null (p_origin r) then upd bits (p_lhs r) true else Ret bits) l b = Ret b' ->
      nth_error b' s = Some true -> nth_error b s = Some true \/
      exists r, In r l /\ p_lhs r = s /\ p_origin r = None /\ exists o, nth_error occs s = Some o /\ occ_is_gensym o = true).
    { clear H Hs. induction l as [|r l IH]; intros b b' H Hs; cbn [foldM] in H; [injection H as <-; auto|].
      apply bind_Ret in H. destruct H as (b1 & H1 & H2). apply bind_Ret in H1. destruct H1 as (o & Eo & H1).
      destruct (IH _ _ H2 Hs) as [Y|(q & A & B)]; [|right; exists q; simpl; auto].
      destruct (occ_is_gensym o && is_null (p_origin r)) eqn:E; [|injection H1 as <-; auto].
      apply andb_true_iff in E. destruct E as [E1 E2]. apply upd_inv in H1. destruct H1 as [Hl ->].
      rewrite nth_error_set_nth in Y by auto. destruct (Nat.eqb_spec (p_lhs r) s) as [<-|N]; [|auto].
      right. exists r. apply idx_Ret in Eo. split; [simpl; auto|]. split; [auto|]. split; [|eauto].
      destruct (p_origin r); [discriminate|auto]. }
    destruct (K _ _ _ H Hs) as [Y|Y]; [|exact Y]. apply nth_error_In, repeat_spec in Y. discriminate. }
  destruct X as (r & Hr & El & Eor & o & Hno & Hg). split; [eauto|].
  apply nth_error_nth with (d := (0, 0, 0)) in Hno. rewrite Ho in Hno. subst o. cbn in Hg.
  rewrite !andb_true_iff, !Nat.eqb_eq in Hg. destruct Hg as [[G1 G2] G3]. split; [|split].
  - intros q Hq Hin. clear - G3 Hq Hin. induction (c_rules c) as [|a l IH]; [destruct Hq|]. change (later s a + sum (later s) l = 0) in G3. destruct Hq as [->|Hq].
    + unfold later in G3. apply (count_occ_In Nat.eq_dec) in Hin. unfold sym in *. lia.
    + apply IH; auto. lia.
  - apply count_one in G2. destruct G2 as (d & q & Hd & Hp & Hu). exists d, q. split; [auto|].
    unfold first_of_binary in Hp. destruct (p_rhs q) as [|r0 [|r1 [|r2 l]]] eqn:Eq; try discriminate.
    apply andb_true_iff in Hp. destruct Hp as [P1 P2]. apply Nat.eqb_eq in P1. subst r0. apply negb_true_iff, Nat.eqb_neq in P2.
    split; [auto|]. split; [eauto|]. intros d' q' s1 Hd' Hl Hq'. eapply Hu; eauto. unfold first_of_binary. rewrite Hq', Nat.eqb_refl.
    cbn. apply negb_true_iff, Nat.eqb_neq. auto.
  - apply count_one in G1. destruct G1 as (d & q & Hd & Hp & Hu). exists d, q. split; [auto|].
    unfold lhs_of_binary in Hp. destruct (p_rhs q) as [|r0 [|r1 [|r2 l]]] eqn:Eq; try discriminate.
    apply andb_true_iff in Hp. destruct Hp as [P1 P2]. apply Nat.eqb_eq in P1. apply negb_true_iff, Nat.eqb_neq in P2.
    split; [auto|]. split; [exists r0, r1; split; [auto|congruence]|]. intros d' q' s0 s1 Hd' Hl Hq' N. eapply Hu; eauto.
    unfold lhs_of_binary. rewrite Hq', Hl, Nat.eqb_refl. cbn. apply negb_true_iff, Nat.eqb_neq. auto.
Qed.

Lemma clos_trans_equiv : forall (P Q : sym -> sym -> Prop), (forall x y, P x y <-> Q x y) ->
  forall x y, clos_trans sym P x y <-> clos_trans sym Q x y.
Proof.
  intros P Q H x y. split; intros K; induction K as [x y K|x y z _ IH1 _ IH2]; try (apply t_step; now apply H);
    eapply t_trans; eauto.
Qed.

(** *** the comparator *)
Section Remap.
  Variables (c : pcfg) (eoi : sym) (order : bitmatrix) (gens : list bool).
  Hypothesis Ho : remap_order c eoi = Ret order.
  Hypothesis Hg : find_gensyms c = Ret gens.
  Notation n := (c_num_syms c).

  (** what the comparator is the closure of *)
  Inductive before : sym -> sym -> Prop :=
  | b_unary : forall r s, In r (c_rules c) -> p_rhs r = [s] -> p_lhs r < s -> before (p_lhs r) s
  | b_unary_rev : forall r s, In r (c_rules c) -> p_rhs r = [s] -> s < p_lhs r -> before s (p_lhs r)
  | b_gensym : forall s t, s < n -> nth_error gens s = Some false -> nth_error gens t = Some true -> before s t
  | b_end : forall s, s < n -> nth_error gens s = Some false -> before eoi s.

  Lemma gens_len : length gens = n.
  Proof.
    unfold find_gensyms in Hg. apply bind_Ret in Hg. destruct Hg as (occs & _ & H).
    assert (K : forall l b b', foldM (fun bits r => o <- idx occs (p_lhs r) ;;
        if occ_is_gensym o && is_null (p_origin r) then upd bits (p_lhs r) true else Ret bits) l b = Ret b' -> length b' = length b).
    { induction l as [|r l IH]; intros b b' E; cbn [foldM] in E; [now injection E as <-|].
      apply bind_Ret in E. destruct E as (b1 & E1 & E2). rewrite (IH _ _ E2). apply bind_Ret in E1. destruct E1 as (o & _ & E1).
      destruct (occ_is_gensym o && is_null (p_origin r)); [|now injection E1 as <-].
      apply upd_inv in E1. destruct E1 as [_ ->]. apply set_nth_length. }
    rewrite (K _ _ _ H). apply repeat_length.
  Qed.

  Lemma unary_bits : forall m, foldM order_unary (c_rules c) (bm_new n n) = Ret m -> square n m /\
    forall i j, bit m i j = true <-> (exists r s, In r (c_rules c) /\ p_rhs r = [s] /\ 
      ((p_lhs r < s /\ i = p_lhs r /\ j = s) \/ (s < p_lhs r /\ i = s /\ j = p_lhs r))).
  Proof.
    intros m Hm. apply (foldM_inv _ _ _ (fun done m => square n m /\
      forall i j, bit m i j = true <-> (exists r s, In r done /\ p_rhs r = [s] /\
        ((p_lhs r < s /\ i = p_lhs r /\ j = s) \/ (s < p_lhs r /\ i = s /\ j = p_lhs r)))) _ _ _ Hm).
    - split; [apply square_new|]. intros i j. rewrite bit_new. split; [discriminate|]. intros (r & s & [] & _).
    - intros done r rest x y _ [Hsq Hb] Hy. unfold order_unary in Hy.
      assert (Ext : forall P : Prop, (forall i j, bit x i j = true \/ (P /\ False) <-> bit x i j = true) -> True) by auto. clear Ext.
      assert (Same : y = x -> (forall s, p_rhs r = [s] -> p_lhs r = s) -> square n y /\
        forall i j, bit y i j = true <-> (exists q s, In q (done ++ [r]) /\ p_rhs q = [s] /\
          ((p_lhs q < s /\ i = p_lhs q /\ j = s) \/ (s < p_lhs q /\ i = s /\ j = p_lhs q)))).
      { intros -> K. split; [auto|]. intros i j. rewrite Hb. split.
        - intros (q & s & A & B). exists q, s. split; [apply in_app_iff; auto|auto].
        - intros (q & s & A & B & C). apply in_app_iff in A. destruct A as [A|[<-|[]]]; [eauto|]. specialize (K s B). lia. }
      assert (Set' : forall i0 j0 s0, bm_set x i0 j0 = Ret y -> p_rhs r = [s0] ->
        ((p_lhs r < s0 /\ i0 = p_lhs r /\ j0 = s0) \/ (s0 < p_lhs r /\ i0 = s0 /\ j0 = p_lhs r)) -> square n y /\
        forall i j, bit y i j = true <-> (exists q s, In q (done ++ [r]) /\ p_rhs q = [s] /\
          ((p_lhs q < s /\ i = p_lhs q /\ j = s) \/ (s < p_lhs q /\ i = s /\ j = p_lhs q)))).
      { intros i0 j0 s0 E Er K. destruct (bm_set_spec n x _ _ _ Hsq E) as (Hsq' & _ & _ & Hb'). split; [auto|].
        intros i j. rewrite Hb', orb_true_iff, Hb, andb_true_iff, !Nat.eqb_eq. split.
        - intros [(q & s & A & B)|[-> ->]]; [exists q, s; split; [apply in_app_iff; auto|auto]|].
          exists r, s0. split; [apply in_app_iff; simpl; auto|]. auto.
        - intros (q & s & A & B & C). apply in_app_iff in A. destruct A as [A|[<-|[]]]; [left; eauto|].
          right. rewrite Er in B. injection B as <-. lia. }
      destruct (p_rhs r) as [|s0 [|s1 l]] eqn:Er.
      + injection Hy as <-. apply Same; auto. discriminate.
      + destruct (Nat.compare_spec (p_lhs r) s0) as [E|E|E].
        * injection Hy as <-. apply Same; auto. intros s X. injection X as <-. auto.
        * eapply Set'; eauto.
        * eapply Set'; eauto.
      + injection Hy as <-. apply Same; auto. discriminate.
  Qed.

  Lemma order_bits : forall i j, bit order i j = true <-> clos_trans sym before i j.
  Proof.
    unfold remap_order in Ho. rewrite Hg in Ho. cbn [bind] in Ho.
    apply bind_Ret in Ho. destruct Ho as (m & Hm & H). apply bind_Ret in H. destruct H as (m2 & Hm2 & H). injection H as <-.
    destruct (unary_bits m Hm) as [Hsq Hb]. pose proof gens_len as Lg.
    assert (Hbit : forall i j, nth_error gens i = Some j -> nth i gens false = j) by (intros i j E; now apply nth_error_nth).
    assert (X : square n m2 /\ forall i j, bit m2 i j = true <-> bit m i j = true \/
      (nth_error gens i = Some false /\ i < n /\ nth_error gens j = Some true) \/ (i = eoi /\ nth_error gens j = Some false /\ j < n)).
    { pose proof (foldM_inv _ _ _ (fun done m2 => square n m2 /\ forall i j, bit m2 i j = true <-> bit m i j = true \/
      (nth_error gens i = Some false /\ In i done /\ nth_error gens j = Some true) \/ (i = eoi /\ nth_error gens j = Some false /\ In j done)) _ _ _ Hm2) as Y.
      cbv beta in Y. destruct Y as [Y1 Y2].
      - split; [auto|]. intros i j. split; [auto|]. intros [A|[(_ & [] & _)|(_ & _ & [])]]. exact A.
      - intros done s rest x y Hdec [Hx Hbx] Hy.
        assert (Hs : s < n). { assert (A : In s (seq 0 n)) by (rewrite Hdec; apply in_app_iff; simpl; auto). apply in_seq in A. lia. }
        destruct (nth_error gens s) as [b|] eqn:Eb; [|apply nth_error_None in Eb; lia].
        rewrite (idx_some _ _ _ _ Eb) in Hy. cbn [bind] in Hy. destruct b.
        + injection Hy as <-. split; [auto|]. intros i j. rewrite Hbx. rewrite !in_app_iff. cbn [In]. split.
          * intros [A|[(A & B & C)|(A & B & C)]]; auto 10.
          * intros [A|[(A & [B|[<-|[]]] & C)|(A & B & [C|[<-|[]]])]]; auto 10; congruence.
        + apply bind_Ret in Hy. destruct Hy as (row & Hrow & Hy). apply bind_Ret in Hy. destruct Hy as (m1 & Hm1 & Hy).
          destruct (square_idx n x s Hx Hs) as (row' & Er & Lr & Nr & Hrb). rewrite Hrow in Er. injection Er as <-.
          apply upd_inv in Hm1. destruct Hm1 as [Hl ->].
          assert (Hsq1 : square n (set_nth x s (row_or row gens))).
          { destruct Hx as [Hx1 Hx2]. split; [now rewrite set_nth_length|]. intros q Hq. apply set_nth_In in Hq.
            destruct Hq as [->|Hq]; [now rewrite row_or_len|auto]. }
          destruct (bm_set_spec n _ _ _ _ Hsq1 Hy) as (Hsq' & _ & _ & Hb'). split; [auto|]. intros i j.
          rewrite Hb', orb_true_iff, andb_true_iff, !Nat.eqb_eq.
          assert (Hrowbits : bit (set_nth x s (row_or row gens)) i j = true <-> bit x i j = true \/ (i = s /\ nth_error gens j = Some true)).
          { unfold bit. rewrite nth_set_nth by auto. destruct (Nat.eqb_spec s i) as [<-|Ni].
            - rewrite nth_row_or by lia. rewrite orb_true_iff. rewrite (nth_error_nth _ _ _ Nr). split.
              + intros [A|A]; [auto|]. right. split; [auto|]. destruct (nth_error gens j) as [b|] eqn:Ej; [f_equal; rewrite <- (Hbit _ _ Ej); exact A|].
                apply nth_error_None in Ej. rewrite nth_overflow in A by auto. discriminate.
              + intros [A|[_ A]]; [auto|]. right. now apply Hbit.
            - split; [auto|]. intros [A|[A _]]; [auto|]. subst; contradiction. }
          rewrite Hrowbits, Hbx. rewrite !in_app_iff. cbn [In]. split.
          * intros [[[A|[(A & B & C)|(A & B & C)]]|[-> A]]|[-> ->]]; auto 10.
          * intros [A|[(A & [B|[<-|[]]] & C)|(A & B & [C|[<-|[]]])]]; auto 10.
      - split; [auto|]. intros i j. rewrite Y2, !in_seq. split; intros [A|[(A & B & C)|(A & B & C)]]; auto 10.
        + right; left. repeat split; auto. lia.
        + right; right. repeat split; auto. lia.
        + right; left. repeat split; auto; lia.
        + right; right. repeat split; auto; lia. }
    destruct X as [Hsq2 Hb2]. destruct (transitive_closure_spec n m2 Hsq2) as [_ Htc]. intros i j. rewrite Htc.
    apply (clos_trans_equiv (fun i j => bit m2 i j = true) before).
    intros x y. rewrite Hb2, Hb. split.
    - intros [(r & s & A & B & [(C & -> & ->)|(C & -> & ->)])|[(A & B & C)|(-> & B & C)]].
      + now apply b_unary.
      + now apply b_unary_rev.
      + now apply b_gensym.
      + now apply b_end.
    - intros K. destruct K as [r s A B C|r s A B C|s t A B C|s A B].
      + left. exists r, s. auto 6.
      + left. exists r, s. auto 6.
      + right; left. auto.
      + right; right. auto.
  Qed.
End Remap.
