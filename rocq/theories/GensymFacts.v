(** GensymFacts: when [find_gensyms] finds what it is meant to find, and when
    [remap_symbols] gets its comparison. *)
From Coq Require Import List Arith Bool Lia Relations.
From Verif Require Import Base BaseProofs Grammar BitMatrix DefaultGrammar Spec TablesProofs TablesTotal RemapFacts CrateSpec.
Import ListNotations.
Local Open Scope res_scope.

Lemma count_unique : forall p l d r, nth_error l d = Some r -> p r = true ->
  (forall d' r', nth_error l d' = Some r' -> p r' = true -> d' = d) -> count p l = 1.
Proof.
  intros p. unfold count. induction l as [|a l IH]; intros d r Hd Hp Hu; [destruct d; discriminate|].
  cbn [filter]. destruct d as [|d].
  - injection Hd as ->. rewrite Hp. cbn [length]. f_equal.
    assert (N : filter p l = []). 
    { destruct (filter p l) as [|q l'] eqn:E; [auto|]. exfalso. assert (X : In q (filter p l)) by (rewrite E; simpl; auto).
      apply filter_In in X. destruct X as [X1 X2]. apply In_nth_error in X1. destruct X1 as (k & X1).
      discriminate (Hu (S k) q X1 X2). }
    now rewrite N.
  - destruct (p a) eqn:Ea; [discriminate (Hu 0 a eq_refl Ea)|]. apply (IH d r Hd Hp).
    intros d' r' H1 H2. specialize (Hu (S d') r' H1 H2). lia.
Qed.

Lemma sum_later_zero : forall s l, (forall r, In r l -> ~ In s (skipn 1 (p_rhs r))) -> sum (later s) l = 0.
Proof.
  intros s. induction l as [|r l IH]; intros H; [auto|]. change (later s r + sum (later s) l = 0). rewrite IH by (intros; apply H; simpl; auto).
  unfold later. rewrite (proj1 (count_occ_not_In Nat.eq_dec _ _)); [auto|]. apply H. simpl; auto.
Qed.

(** *** totality *)
Lemma bump_total : forall f occs s, s < length occs -> exists occs', bump f occs s = Ret occs' /\ length occs' = length occs.
Proof.
  intros f occs s H. unfold bump. destruct (idx_lt _ occs s H) as (o & -> & _). cbn [bind]. rewrite upd_Ret by auto.
  eexists. split; [reflexivity|apply set_nth_length].
Qed.

Lemma count_rule_total : forall n occs r, length occs = n -> p_lhs r < n -> (forall s, In s (p_rhs r) -> s < n) ->
  exists occs', count_rule occs r = Ret occs' /\ length occs' = n.
Proof.
  intros n occs r Hl Hlhs Hrhs. unfold count_rule.
  assert (X : exists o1, (match p_rhs r with
            | [r0; _] => if negb (p_lhs r =? r0) then o1 <- bump inc0 occs (p_lhs r) ;; bump inc1 o1 r0 else Ret occs
            | _ => Ret occs end) = Ret o1 /\ length o1 = n).
  { destruct (p_rhs r) as [|r0 [|r1 [|r2 l]]]; eauto. destruct (negb (p_lhs r =? r0)); eauto.
    destruct (bump_total inc0 occs (p_lhs r)) as (o1 & -> & L1); [lia|]. cbn [bind].
    destruct (bump_total inc1 o1 r0) as (o2 & -> & L2); [pose proof (Hrhs r0 ltac:(simpl; auto)); lia|]. eexists. split; [reflexivity|lia]. }
  destruct X as (o1 & -> & L1). cbn [bind]. apply (foldM_total _ _ (bump inc2) (fun o => length o = n)); [auto|].
  intros x a Ha Hx. destruct (bump_total inc2 x a) as (y & -> & Ly); [|exists y; split; [auto|lia]].
  rewrite Hx. apply Hrhs. destruct (p_rhs r); [destruct Ha|]. simpl in *. auto.
Qed.

Section Total.
  Variable c : pcfg.
  Hypothesis Hrange : forall s, used (c_rules c) s -> s < c_num_syms c.
  Notation n := (c_num_syms c).

  Lemma lhs_range : forall r, In r (c_rules c) -> p_lhs r < n.
  Proof. intros r H. apply Hrange. exists r. auto. Qed.
  Lemma rhs_range : forall r s, In r (c_rules c) -> In s (p_rhs r) -> s < n.
  Proof. intros r s H Hs. apply Hrange. exists r. auto. Qed.

  Lemma occurrences_total : exists occs, occurrences c = Ret occs.
  Proof.
    destruct (foldM_total _ _ count_rule (fun o => length o = n) (c_rules c) (repeat (0, 0, 0) n)) as (o & H & _).
    - apply repeat_length.
    - intros x r Hr Hx. apply count_rule_total; [auto|now apply lhs_range|]. intros s. now apply rhs_range.
    - exists o. exact H.
  Qed.

  Definition find_step (occs : list occ) (bits : list bool) (r : prule) : res (list bool) :=
    o <- idx occs (p_lhs r) ;;
    if occ_is_gensym o && is_null (p_origin r) then upd bits (p_lhs r) true else Ret bits.

  Lemma find_gensyms_total : exists gens, find_gensyms c = Ret gens.
  Proof.
    unfold find_gensyms. destruct occurrences_total as (occs & Ho). rewrite Ho. cbn [bind].
    apply occurrences_spec in Ho. destruct Ho as [Lo _].
    destruct (foldM_total _ _ (find_step occs) (fun b => length b = n) (c_rules c) (repeat false n)) as (b & H & _).
    - apply repeat_length.
    - intros x r Hr Hx. unfold find_step. pose proof (lhs_range r Hr) as L.
      destruct (idx_lt _ occs (p_lhs r)) as (o & -> & _); [lia|]. cbn [bind].
      destruct (occ_is_gensym o && is_null (p_origin r)); [|eauto]. rewrite upd_Ret by lia. eexists. split; [reflexivity|].
      rewrite set_nth_length. auto.
    - exists b. exact H.
  Qed.

  (** a symbol with one binary rule of its own, one binary use and no other position, and
      with a rule without origin, is found *)
  Lemma gensym_found : forall gens s, find_gensyms c = Ret gens ->
    (exists r, In r (c_rules c) /\ p_lhs r = s /\ p_origin r = None) ->
    count (lhs_of_binary s) (c_rules c) = 1 -> count (first_of_binary s) (c_rules c) = 1 -> sum (later s) (c_rules c) = 0 ->
    nth_error gens s = Some true.
  Proof.
    intros gens s H (r0 & Hr0 & Hl0 & Ho0) C1 C2 C3. pose proof (lhs_range r0 Hr0) as Ls. rewrite Hl0 in Ls.
    unfold find_gensyms in H. apply bind_Ret in H. destruct H as (occs & Ho & H).
    apply occurrences_spec in Ho. destruct Ho as [Lo Ho]. change (foldM (find_step occs) (c_rules c) (repeat false n) = Ret gens) in H.
    assert (K : forall l b b', foldM (find_step occs) l b = Ret b' -> length b = n -> (forall r, In r l -> p_lhs r < n) -> length b' = n /\
      (nth_error b s = Some true \/ (exists r, In r l /\ p_lhs r = s /\ p_origin r = None) -> nth_error b' s = Some true)).
    { clear H. induction l as [|r l IH]; intros b b' H Lb Hl; cbn [foldM] in H.
      - injection H as <-. split; [auto|]. intros [X|(r & [] & _)]. auto.
      - apply bind_Ret in H. destruct H as (b1 & H1 & H2). unfold find_step in H1. apply bind_Ret in H1. destruct H1 as (o & Eo & H1).
        apply idx_Ret in Eo. assert (L1 : length b1 = n).
        { destruct (occ_is_gensym o && is_null (p_origin r)); [|now injection H1 as <-]. apply upd_inv in H1. destruct H1 as [_ ->]. now rewrite set_nth_length. }
        destruct (IH _ _ H2 L1) as [L2 IH2]; [intros; apply Hl; simpl; auto|]. split; [auto|]. intros X. apply IH2.
        destruct X as [X|(q & [<-|Hq] & Hql & Hqo)]; [|left|right; eauto].
        + left. destruct (occ_is_gensym o && is_null (p_origin r)); [|now injection H1 as <-].
          apply upd_inv in H1. destruct H1 as [Lu ->]. rewrite nth_error_set_nth by auto. destruct (p_lhs r =? s); auto.
        + rewrite Hqo in H1. assert (G : occ_is_gensym o = true).
          { apply nth_error_nth with (d := (0, 0, 0)) in Eo. rewrite Hql in Eo. rewrite Ho in Eo. subst o. cbn. rewrite C1, C2, C3. reflexivity. }
          rewrite G in H1. cbn in H1. apply upd_inv in H1. destruct H1 as [Lu ->]. rewrite nth_error_set_nth by auto.
          rewrite (proj2 (Nat.eqb_eq _ _) Hql). reflexivity. }
    apply (K _ _ _ H (repeat_length _ _)); [exact lhs_range|]. right. eauto.
  Qed.

  Lemma remap_order_square : forall eoi, eoi < n -> exists order, remap_order c eoi = Ret order /\ square n order.
  Proof.
    intros eoi He. unfold remap_order. destruct find_gensyms_total as (gens & Hg). rewrite Hg. cbn [bind].
    pose proof (gens_len c gens Hg) as Lg.
    destruct (foldM_total _ _ order_unary (square n) (c_rules c) (bm_new n n)) as (m & -> & Hm).
    - apply square_new.
    - intros x r Hr Hx. unfold order_unary. pose proof (lhs_range r Hr) as L1.
      destruct (p_rhs r) as [|s [|s' l]] eqn:Er; eauto. assert (L2 : s < n) by (apply (rhs_range r); [auto|rewrite Er; simpl; auto]).
      destruct (Nat.compare (p_lhs r) s); eauto.
      + destruct (bm_set_total n x _ _ Hx L1 L2) as (y & Ey). exists y. split; [auto|]. apply (bm_set_spec n x _ _ _ Hx Ey).
      + destruct (bm_set_total n x _ _ Hx L2 L1) as (y & Ey). exists y. split; [auto|]. apply (bm_set_spec n x _ _ _ Hx Ey).
    - cbn [bind].
      match goal with |- context [foldM ?F (seq 0 n) m] => destruct (foldM_total _ _ F (square n) (seq 0 n) m Hm) as (m2 & -> & Hm2) end.
      + intros x s Hs Hx. apply in_seq in Hs. destruct (idx_lt _ gens s) as (b & -> & _); [lia|]. cbn [bind]. destruct b; [eauto|].
        destruct (square_idx n x s Hx) as (row & -> & Lr & _); [lia|]. cbn [bind]. rewrite upd_Ret by (destruct Hx; lia). cbn [bind].
        assert (Hsq1 : square n (set_nth x s (row_or row gens))).
        { destruct Hx as [Hx1 Hx2]. split; [now rewrite set_nth_length|]. intros q Hq. apply set_nth_In in Hq.
          destruct Hq as [->|Hq]; [now rewrite row_or_len|auto]. }
        destruct (bm_set_total n _ eoi s Hsq1 He) as (y & Ey); [lia|]. exists y. split; [auto|]. apply (bm_set_spec n _ _ _ _ Hsq1 Ey).
      + cbn [bind]. eexists. split; [reflexivity|]. exact (proj1 (transitive_closure_spec n m2 Hm2)).
  Qed.
  Lemma remap_order_total : forall eoi, eoi < n -> exists order, remap_order c eoi = Ret order.
  Proof. intros eoi He. destruct (remap_order_square eoi He) as (order & H & _). eauto. Qed.
End Total.

(** *** [find_gensyms] finds exactly the symbols of a given kind *)
Record gen_shape (R : list prule) (gen : sym -> Prop) : Prop := {
  gs_origin : forall s, gen s -> exists r, In r R /\ p_lhs r = s /\ p_origin r = None;
  gs_lhs : forall s, gen s -> exists r a y, In r R /\ p_lhs r = s /\ p_rhs r = [a; y] /\ a <> s;
  gs_lhs_once : forall s d d' r r' a y a' y', gen s -> nth_error R d = Some r -> nth_error R d' = Some r' ->
    p_lhs r = s -> p_rhs r = [a; y] -> p_lhs r' = s -> p_rhs r' = [a'; y'] -> d = d';
  gs_first : forall s, gen s -> exists r y, In r R /\ p_lhs r <> s /\ p_rhs r = [s; y];
  gs_first_once : forall s d d' r r' y y', gen s -> nth_error R d = Some r -> nth_error R d' = Some r' ->
    p_rhs r = [s; y] -> p_rhs r' = [s; y'] -> d = d';
  gs_later : forall s r, gen s -> In r R -> ~ In s (skipn 1 (p_rhs r));
  gs_only : forall s, (exists r, In r R /\ p_lhs r = s /\ p_origin r = None) -> gen s \/ (forall r y, In r R -> p_rhs r <> [s; y]) \/
    (forall r a y, In r R -> p_lhs r = s -> p_rhs r <> [a; y])
}.

Lemma gens_exact : forall c gen gens, (forall s, used (c_rules c) s -> s < c_num_syms c) -> gen_shape (c_rules c) gen ->
  find_gensyms c = Ret gens -> forall s, nth_error gens s = Some true <-> gen s.
Proof.
  intros c gen gens Hrange HS Hg s. split.
  - intros H. destruct (gensym_facts c gens s Hg H) as (Ho & _ & (d & r & Hd & _ & (s1 & Hr) & _) & (d' & r' & Hd' & Hl' & (s0' & s1' & Hr' & _) & _)).
    destruct (gs_only _ _ HS s Ho) as [X|[X|X]]; [auto| |]; exfalso.
    + apply (X r s1); [eapply nth_error_In; eauto|auto].
    + apply (X r' s0' s1'); [eapply nth_error_In; eauto|auto|auto].
  - intros H. apply (gensym_found c Hrange gens s Hg (gs_origin _ _ HS s H)).
    + destruct (gs_lhs _ _ HS s H) as (r & a & y & Hr & Hl & Er & Na). apply In_nth_error in Hr. destruct Hr as (d & Hd).
      apply (count_unique _ _ d r Hd).
      * unfold lhs_of_binary. rewrite Er, Hl, Nat.eqb_refl. cbn. apply negb_true_iff, Nat.eqb_neq. auto.
      * intros d' r' Hd' Hp. unfold lhs_of_binary in Hp. destruct (p_rhs r') as [|a' [|y' [|]]] eqn:Er'; try discriminate.
        apply andb_true_iff in Hp. destruct Hp as [Hp _]. apply Nat.eqb_eq in Hp.
        exact (gs_lhs_once _ _ HS s d' d r' r a' y' a y H Hd' Hd Hp Er' Hl Er).
    + destruct (gs_first _ _ HS s H) as (r & y & Hr & Hl & Er). apply In_nth_error in Hr. destruct Hr as (d & Hd).
      apply (count_unique _ _ d r Hd).
      * unfold first_of_binary. rewrite Er, Nat.eqb_refl. cbn. apply negb_true_iff, Nat.eqb_neq. auto.
      * intros d' r' Hd' Hp. unfold first_of_binary in Hp. destruct (p_rhs r') as [|a' [|y' [|]]] eqn:Er'; try discriminate.
        apply andb_true_iff in Hp. destruct Hp as [Hp _]. apply Nat.eqb_eq in Hp. subst a'.
        exact (gs_first_once _ _ HS s d' d r' r y' y H Hd' Hd Er' Er).
    + apply sum_later_zero. intros r Hr. exact (gs_later _ _ HS s r H Hr).
Qed.
