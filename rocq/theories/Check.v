(** Check: boolean tests that a concrete processed grammar satisfies the hypotheses
    of the theorems (used for the examples beside the theorems only). *)
From Coq Require Import List Arith Bool Lia.
From Verif Require Import Base BaseProofs Grammar DefaultGrammar Spec Chart CfgSpec TablesProofs.
Import ListNotations.

Definition mem (s : nat) (l : list nat) : bool := existsb (Nat.eqb s) l.
Lemma mem_In : forall s l, mem s l = true <-> In s l.
Proof.
  intros s l. unfold mem. rewrite existsb_exists. split.
  - intros (x & Hx & E). apply Nat.eqb_eq in E. now subst.
  - intros H. exists s. split; [auto|apply Nat.eqb_refl].
Qed.

(** *** first, last and adjacent symbols *)
Section Adj.
  Variable R : list prule.
  Variables f l : nat -> list nat.
  Variable q : nat -> nat -> bool.

  Definition subset (a b : list nat) : bool := forallb (fun x => mem x b) a.
  Lemma subset_In : forall a b, subset a b = true -> forall x, In x a -> In x b.
  Proof. intros a b H x Hx. unfold subset in H. rewrite forallb_forall in H. now apply mem_In, H. Qed.

  Fixpoint adj_ok (x : list nat) : bool :=
    match x with
    | a :: t => match t with b :: _ => q a b | [] => true end && adj_ok t
    | [] => true
    end.

  (** every last symbol of [B] may stand before every first symbol of [C] *)
  Definition join_ok (B C : nat) : bool := forallb (fun b => forallb (q b) (f C)) (l B).
  Fixpoint joins_ok (x : list nat) : bool :=
    match x with
    | a :: t => match t with b :: _ => join_ok a b | [] => true end && joins_ok t
    | [] => true
    end.

  Definition closed_check (nall : nat) : bool :=
    forallb (fun s => mem s (f s) && mem s (l s)) (seq 0 nall) &&
    forallb (fun r => match p_rhs r with
      | [] => false
      | B :: rest => subset (f B) (f (p_lhs r)) && subset (l (last rest B)) (l (p_lhs r)) && joins_ok (p_rhs r)
      end) R.

  Variable nall : nat.
  Hypothesis Hself : forall s, In s (f s) /\ In s (l s).
  Hypothesis Hrules : forallb (fun r => match p_rhs r with
      | [] => false
      | B :: rest => subset (f B) (f (p_lhs r)) && subset (l (last rest B)) (l (p_lhs r)) && joins_ok (p_rhs r)
      end) R = true.

  Lemma adj_app : forall x a y b, adj_ok (x ++ [a]) = true -> adj_ok (b :: y) = true -> q a b = true ->
    adj_ok ((x ++ [a]) ++ b :: y) = true.
  Proof.
    induction x as [|c x IH]; intros a y b H1 H2 Hq.
    - simpl in *. now rewrite Hq.
    - cbn [app] in *. cbn [adj_ok] in *. apply andb_true_iff in H1. destruct H1 as [H1 H3].
      rewrite (IH a y b H3 H2 Hq), andb_true_r. destruct x; exact H1.
  Qed.

  Definition shape (A : nat) (x : list nat) : Prop :=
    exists h t, x = h :: t /\ In h (f A) /\ In (last t h) (l A) /\ adj_ok x = true.

  Lemma last_app : forall (t : list nat) h b y, last (t ++ b :: y) h = last y b.
  Proof.
    induction t as [|a t IH]; intros h b y.
    - cbn [app]. revert b. induction y as [|c y IHy]; intros b; [reflexivity|].
      change (last (b :: c :: y) h) with (last (c :: y) h). rewrite IHy.
      clear. revert c b. induction y as [|d y IH]; intros c b; [reflexivity|]. 
      change (last (c :: d :: y) b) with (last (d :: y) b). rewrite <- (IH d b). symmetry. apply (IH d c).
    - cbn [app]. destruct (t ++ b :: y) eqn:E; [destruct t; discriminate|].
      change (last (a :: n :: l0) h) with (last (n :: l0) h). rewrite <- E. apply IH.
  Qed.

  Lemma derives_shape :
    (forall A x, derives R A x -> shape A x) /\
    (forall ss x, derives_seq R ss x -> joins_ok ss = true ->
       match ss with
       | [] => x = []
       | B :: rest => exists h t, x = h :: t /\ In h (f B) /\ In (last t h) (l (last rest B)) /\ adj_ok x = true
       end).
  Proof.
    apply derives_both.
    - intros s. exists s, []. destruct (Hself s). repeat split; auto.
    - intros r w Hin H IH. rewrite forallb_forall in Hrules. specialize (Hrules r Hin).
      destruct (p_rhs r) as [|B rest] eqn:E; [discriminate|].
      apply andb_true_iff in Hrules. destruct Hrules as [H1 H3]. apply andb_true_iff in H1. destruct H1 as [H1 H2].
      destruct (IH H3) as (h & t & -> & A1 & A2 & A3). exists h, t. split; [auto|]. split; [|split].
      + eapply subset_In; eauto.
      + eapply subset_In; eauto.
      + auto.
    - auto.
    - intros s ss w1 w2 _ (h & t & -> & A1 & A2 & A3) _ IH2 HJ.
      cbn [joins_ok] in HJ. apply andb_true_iff in HJ. destruct HJ as [HJ1 HJ2]. specialize (IH2 HJ2).
      destruct ss as [|C ss].
      + subst w2. exists h, t. rewrite app_nil_r. auto.
      + destruct IH2 as (h2 & t2 & -> & B1 & B2 & B3). exists h, (t ++ h2 :: t2). split; [reflexivity|]. split; [auto|].
        rewrite last_app. split.
        * destruct ss as [|D ss]; [exact B2|]. change (last (C :: D :: ss) s) with (last (D :: ss) s).
          replace (last (D :: ss) s) with (last (D :: ss) C); [exact B2|].
          clear. revert D. induction ss as [|E ss IH]; intros D; [reflexivity|]. exact (IH E).
        * assert (Hne : h :: t <> []) by discriminate. destruct (exists_last Hne) as (x & a & E).
          assert (Ea : a = last t h).
          { assert (Y : last (h :: t) h = last (x ++ [a]) h) by (rewrite E; reflexivity).
            rewrite last_app in Y. simpl in Y. destruct t; simpl in *; congruence. }
          change (h :: t ++ h2 :: t2) with ((h :: t) ++ h2 :: t2). rewrite E in *. apply adj_app; auto.
          unfold join_ok in HJ1. rewrite forallb_forall in HJ1. rewrite <- Ea in A2. specialize (HJ1 a A2).
          rewrite forallb_forall in HJ1. auto.
  Qed.

  Lemma adj_in : forall u a b v, adj_ok (u ++ a :: b :: v) = true -> q a b = true.
  Proof.
    induction u as [|c u IH]; intros a b v H.
    - cbn in H. apply andb_true_iff in H. apply H.
    - cbn [app adj_ok] in H. apply andb_true_iff in H. eapply IH, H.
  Qed.
End Adj.

(** *** FIRST and FOLLOW sets *)
Definition is_terminal (R : list prule) (s : sym) : bool := forallb (fun r => negb (p_lhs r =? s)) R.
Lemma is_terminal_spec : forall R s, is_terminal R s = true <-> terminal R s.
Proof.
  intros R s. unfold is_terminal, terminal. rewrite forallb_forall. split.
  - intros H r Hr E. specialize (H r Hr). rewrite E, Nat.eqb_refl in H. discriminate.
  - intros H r Hr. apply negb_true_iff, Nat.eqb_neq. auto.
Qed.

Definition assoc (x : list (nat * list nat)) (s : nat) : list nat :=
  s :: flat_map (fun p => if fst p =? s then snd p else []) x.
Definition rules_closed (R : list prule) (f l : nat -> list nat) (q : nat -> nat -> bool) : bool :=
  forallb (fun r => match p_rhs r with
      | [] => false
      | B :: rest => subset (f B) (f (p_lhs r)) && subset (l (last rest B)) (l (p_lhs r)) && joins_ok f l q (p_rhs r)
      end) R.
Definition pairs (x : list (nat * nat)) (a b : nat) : bool := existsb (fun p => (fst p =? a) && (snd p =? b)) x.

Definition in_sets_b (sets : list (sym * list sym)) (A t : sym) : bool :=
  existsb (fun p => (fst p =? A) && mem t (snd p)) sets.
Lemma in_sets_b_spec : forall sets A t, in_sets_b sets A t = true -> exists l, In (A, l) sets /\ In t l.
Proof.
  intros sets A t H. unfold in_sets_b in H. apply existsb_exists in H. destruct H as ([B l] & Hin & E).
  apply andb_true_iff in E. destruct E as [E1 E2]. apply Nat.eqb_eq in E1. apply mem_In in E2. cbn in *. subst. eauto.
Qed.

Definition first_check (R : list prule) (ft : list (nat * list nat)) (first : list (sym * list sym)) : bool :=
  forallb (fun r => forallb (fun t => negb (is_terminal R t) || in_sets_b first (p_lhs r) t) (assoc ft (p_lhs r))) R.
Definition follow_check (R : list prule) (qt : list (nat * nat)) (follow : list (sym * list sym)) : bool :=
  forallb (fun p => is_terminal R (fst p) || negb (is_terminal R (snd p)) || in_sets_b follow (fst p) (snd p)) qt.

Lemma first_check_ok : forall c ft lt qt first,
  rules_closed (c_rules c) (assoc ft) (assoc lt) (pairs qt) = true ->
  first_check (c_rules c) ft first = true -> first_sets_cover c first.
Proof.
  intros c ft lt qt first Hc Hf r t v Hr Ht Hd.
  destruct (proj1 (derives_shape (c_rules c) (assoc ft) (assoc lt) (pairs qt)
    ltac:(intros s; split; simpl; auto) Hc) _ _ Hd) as (h & t' & E & A & _). injection E as <- _.
  unfold first_check in Hf. rewrite forallb_forall in Hf. specialize (Hf r Hr). rewrite forallb_forall in Hf.
  specialize (Hf t A). apply is_terminal_spec in Ht. rewrite Ht in Hf. cbn in Hf. now apply in_sets_b_spec.
Qed.

Lemma follow_check_ok : forall c root ft lt qt follow,
  rules_closed (c_rules c) (assoc ft) (assoc lt) (pairs qt) = true ->
  follow_check (c_rules c) qt follow = true -> follow_sets_cover c root follow.
Proof.
  intros c root ft lt qt follow Hc Hf r t u v Hr Ht Hd.
  destruct (proj1 (derives_shape (c_rules c) (assoc ft) (assoc lt) (pairs qt)
    ltac:(intros s; split; simpl; auto) Hc) _ _ Hd) as (h & t' & E & _ & _ & A). rewrite E, <- E in A.
  apply adj_in in A. unfold pairs in A. apply existsb_exists in A. destruct A as ([a b] & Hin & A).
  apply andb_true_iff in A. destruct A as [A1 A2]. apply Nat.eqb_eq in A1, A2. cbn in A1, A2. subst a b.
  unfold follow_check in Hf. rewrite forallb_forall in Hf. specialize (Hf _ Hin). cbn [fst snd] in Hf.
  assert (X : is_terminal (c_rules c) (p_lhs r) = false).
  { destruct (is_terminal (c_rules c) (p_lhs r)) eqn:Y; auto. apply is_terminal_spec in Y. now elim (Y r Hr). }
  apply is_terminal_spec in Ht. rewrite X, Ht in Hf. cbn in Hf. now apply in_sets_b_spec.
Qed.

(** *** processed grammars *)
Definition wf_check (R : list prule) (nsyms nall : nat) (rank : nat -> nat) : bool :=
  forallb (fun r => ((length (p_rhs r) =? 1) || (length (p_rhs r) =? 2)) && (p_lhs r <? nall) &&
    forallb (fun s => s <? nall) (p_rhs r) &&
    match nth_error (p_rhs r) 1 with Some s => s <? nsyms | None => true end &&
    match nth_error (p_rhs r) 0 with
    | Some s => (s <? nsyms) || (p_lhs r <? nsyms) || (rank (p_lhs r) <? rank s)
    | None => true
    end) R &&
  forallb (fun s => existsb (fun r => eqb_opt (nth_error (p_rhs r) 0) (Some s)) R) (seq nsyms (nall - nsyms)) &&
  forallb (fun p1 => forallb (fun p2 =>
    match nth_error (p_rhs (snd p1)) 0 with
    | Some s => (s <? nsyms) || negb (eqb_opt (nth_error (p_rhs (snd p2)) 0) (Some s)) ||
        ((p_lhs (snd p1) =? p_lhs (snd p2)) && (negb (length (p_rhs (snd p1)) =? length (p_rhs (snd p2))) || (fst p1 =? fst p2)))
    | None => true
    end) (combine (seq 0 (length R)) R)) (combine (seq 0 (length R)) R).

Lemma eqb_opt_eq : forall a b, eqb_opt a b = true <-> a = b.
Proof.
  intros [a|] [b|]; simpl; split; intros H; try discriminate; auto.
  - apply Nat.eqb_eq in H. now subst.
  - injection H as ->. apply Nat.eqb_refl.
Qed.

Lemma numbered_In : forall (R : list prule) d r, nth_error R d = Some r -> In (d, r) (combine (seq 0 (length R)) R).
Proof.
  intros R d r H. assert (X : forall k, In (k + d, r) (combine (seq k (length R)) R)); [|exact (X 0)].
  revert d H. induction R as [|a R IH]; intros d H k; [destruct d; discriminate|].
  cbn [length seq combine]. destruct d as [|d].
  - injection H as ->. rewrite Nat.add_0_r. simpl; auto.
  - right. replace (k + S d) with (S k + d) by lia. now apply IH.
Qed.

Lemma wf_check_ok : forall R nsyms nall rank, wf_check R nsyms nall rank = true -> wf_rules R nsyms nall.
Proof.
  intros R nsyms nall rank H. unfold wf_check in H.
  apply andb_true_iff in H. destruct H as [H H3]. apply andb_true_iff in H. destruct H as [H1 H2].
  rewrite forallb_forall in H1, H2, H3.
  assert (K : forall r, In r R -> (length (p_rhs r) = 1 \/ length (p_rhs r) = 2) /\ p_lhs r < nall /\
    (forall s, In s (p_rhs r) -> s < nall) /\ (forall s, nth_error (p_rhs r) 1 = Some s -> s < nsyms) /\
    (forall s, nth_error (p_rhs r) 0 = Some s -> s < nsyms \/ p_lhs r < nsyms \/ rank (p_lhs r) < rank s)).
  { intros r Hr. specialize (H1 r Hr). rewrite !andb_true_iff in H1. destruct H1 as ((((A & B) & C) & D) & E).
    rewrite orb_true_iff, !Nat.eqb_eq in A. apply Nat.ltb_lt in B. rewrite forallb_forall in C.
    split; [auto|]. split; [auto|]. split; [intros s Hs; apply Nat.ltb_lt; auto|]. split.
    - intros s Hs. rewrite Hs in D. now apply Nat.ltb_lt.
    - intros s Hs. rewrite Hs in E. rewrite !orb_true_iff, !Nat.ltb_lt in E. tauto. }
  constructor.
  - intros r Hr. now apply K.
  - intros r Hr. now apply K.
  - intros r s Hr. now apply K.
  - intros r s Hr. now apply K.
  - intros s Hs1 Hs2. specialize (H2 s). rewrite in_seq in H2. specialize (H2 ltac:(lia)).
    apply existsb_exists in H2. destruct H2 as (r & Hr & E). apply eqb_opt_eq in E. eauto.
  - intros d1 d2 r1 r2 s Hs E1 E2 F1 F2.
    specialize (H3 _ (numbered_In _ _ _ E1)). rewrite forallb_forall in H3.
    specialize (H3 _ (numbered_In _ _ _ E2)). cbn [fst snd] in H3. rewrite F1, F2 in H3.
    unfold sym in *. rewrite (proj2 (eqb_opt_eq (Some s) (Some s)) eq_refl) in H3.
    assert (X : s <? nsyms = false) by (now apply Nat.ltb_ge). rewrite X in H3. cbn [orb negb] in H3.
    apply andb_true_iff in H3. destruct H3 as [A B]. apply Nat.eqb_eq in A. split; [auto|]. intros L.
    rewrite L, Nat.eqb_refl in B. cbn in B. now apply Nat.eqb_eq.
  - exists rank. intros r s Hr H0 Hs Hl. destruct (K r Hr) as (_ & _ & _ & _ & X). destruct (X s H0) as [Y|[Y|Y]]; auto; lia.
Qed.

Definition acyclic_check (R : list prule) (rank : nat -> nat) : bool :=
  forallb (fun r => match p_rhs r with [B] => rank (p_lhs r) <? rank B | _ => true end) R.
Lemma acyclic_check_ok : forall R rank, acyclic_check R rank = true -> unary_acyclic R.
Proof.
  intros R rank H. exists rank. intros r B Hr E. unfold acyclic_check in H. rewrite forallb_forall in H.
  specialize (H r Hr). rewrite E in H. now apply Nat.ltb_lt.
Qed.

Definition ordered_check (R : list prule) : bool :=
  forallb (fun r => match p_rhs r with [B] => p_lhs r <? B | _ => true end) R.
Lemma ordered_check_ok : forall R, ordered_check R = true -> unary_ordered R.
Proof.
  intros R H r B Hr E. unfold ordered_check in H. rewrite forallb_forall in H.
  specialize (H r Hr). rewrite E in H. now apply Nat.ltb_lt.
Qed.

Definition sorted_check (R : list prule) : bool :=
  forallb (fun p1 => forallb (fun p2 => negb (fst p1 <=? fst p2) || (p_lhs (snd p1) <=? p_lhs (snd p2)))
    (combine (seq 0 (length R)) R)) (combine (seq 0 (length R)) R).
Lemma sorted_check_ok : forall R, sorted_check R = true -> rules_sorted R.
Proof.
  intros R H d1 d2 r1 r2 Hd E1 E2. unfold sorted_check in H. rewrite forallb_forall in H.
  specialize (H _ (numbered_In _ _ _ E1)). rewrite forallb_forall in H.
  specialize (H _ (numbered_In _ _ _ E2)). cbn [fst snd] in H.
  apply Nat.leb_le in Hd. rewrite Hd in H. cbn in H. now apply Nat.leb_le.
Qed.

Definition list_eqb (a b : list nat) : bool := if list_eq_dec Nat.eq_dec a b then true else false.
Lemma list_eqb_eq : forall a b, list_eqb a b = true -> a = b.
Proof. intros a b H. unfold list_eqb in H. destruct (list_eq_dec Nat.eq_dec a b); [auto|discriminate]. Qed.

Definition processed_check (c : pcfg) (nsyms : nat) (w : wrapped_root) (d0 : nat) (g0 : sym) (grank urank : nat -> nat) : bool :=
  let R := c_rules c in
  wf_check R nsyms (c_num_syms c) grank && (nsyms <=? c_num_syms c) &&
  match num_gensyms c with Ret n => n =? c_num_syms c - nsyms | _ => false end &&
  acyclic_check R urank &&
  (w_root w <? nsyms) && (w_sof w <? nsyms) && (w_eof w <? nsyms) &&
  match nth_error R d0 with
  | Some r => (p_lhs r =? w_root w) && list_eqb (p_rhs r) [g0; w_eof w]
  | None => false
  end &&
  forallb (fun p => negb (p_lhs (snd p) =? w_root w) || (fst p =? d0)) (combine (seq 0 (length R)) R) &&
  forallb (fun r => negb (p_lhs r =? g0) || list_eqb (p_rhs r) [w_sof w; w_inner w] || list_eqb (p_rhs r) [w_sof w]) R &&
  forallb (fun r => negb (mem (w_root w) (p_rhs r))) R &&
  is_terminal R (w_sof w) && is_terminal R (w_eof w) &&
  forallb (fun p => match rhs1 (snd p) with Some C => (w_eof w <? C) || (fst p =? d0) | None => true end)
    (combine (seq 0 (length R)) R) &&
  negb (g0 =? w_sof w).

Lemma processed_check_ok : forall c nsyms w d0 g0 grank urank, nth_error (c_wrapped c) 0 = Some w ->
  processed_check c nsyms w d0 g0 grank urank = true -> processed c nsyms w d0 g0.
Proof.
  intros c nsyms w d0 g0 grank urank Hw H. unfold processed_check in H. cbn zeta in H. rewrite !andb_true_iff in H.
  destruct H as ((((((((((((((A1 & A2) & A3) & A4) & A5) & A6) & A7) & A8) & A9) & A10) & A11) & A12) & A13) & A14) & A15).
  constructor; auto.
  - eapply wf_check_ok; eauto.
  - now apply Nat.leb_le.
  - destruct (num_gensyms c); try discriminate. apply Nat.eqb_eq in A3. now subst.
  - eapply acyclic_check_ok; eauto.
  - now apply Nat.ltb_lt.
  - now apply Nat.ltb_lt.
  - now apply Nat.ltb_lt.
  - destruct (nth_error (c_rules c) d0) as [r|]; [|discriminate]. apply andb_true_iff in A8. destruct A8 as [X Y].
    apply Nat.eqb_eq in X. apply list_eqb_eq in Y. eauto.
  - intros d r Hd El. rewrite forallb_forall in A9. specialize (A9 _ (numbered_In _ _ _ Hd)). cbn [fst snd] in A9.
    rewrite El, Nat.eqb_refl in A9. cbn in A9. now apply Nat.eqb_eq.
  - intros r Hr El. rewrite forallb_forall in A10. specialize (A10 r Hr). rewrite El, Nat.eqb_refl in A10. cbn in A10.
    apply orb_true_iff in A10. destruct A10 as [X|X]; apply list_eqb_eq in X; auto.
  - intros r Hr Hin. rewrite forallb_forall in A11. specialize (A11 r Hr). apply mem_In in Hin. unfold sym in *. rewrite Hin in A11. discriminate.
  - now apply is_terminal_spec.
  - now apply is_terminal_spec.
  - intros d r C Hd E. rewrite forallb_forall in A14. specialize (A14 _ (numbered_In _ _ _ Hd)). cbn [fst snd] in A14.
    rewrite E in A14. apply orb_true_iff in A14. rewrite Nat.ltb_lt, Nat.eqb_eq in A14. exact A14.
  - apply negb_true_iff in A15. now apply Nat.eqb_neq.
Qed.

(** *** computing the tables to be checked *)
Fixpoint firsts (n : nat) (R : list prule) (s : nat) : list nat :=
  nodup Nat.eq_dec (s :: match n with
  | 0 => []
  | S n => flat_map (fun r => if p_lhs r =? s then match p_rhs r with B :: _ => firsts n R B | [] => [] end else []) R
  end).
Fixpoint lasts (n : nat) (R : list prule) (s : nat) : list nat :=
  nodup Nat.eq_dec (s :: match n with
  | 0 => []
  | S n => flat_map (fun r => if p_lhs r =? s then match p_rhs r with B :: rest => lasts n R (last rest B) | [] => [] end else []) R
  end).
Definition table (f : nat -> list nat) (nall : nat) : list (nat * list nat) := map (fun s => (s, f s)) (seq 0 nall).
Fixpoint rhs_pairs (l : list nat) : list (nat * nat) :=
  match l with a :: t => match t with b :: _ => [(a, b)] | [] => [] end ++ rhs_pairs t | [] => [] end.
Definition adjacent (n : nat) (R : list prule) : list (nat * nat) :=
  flat_map (fun r => flat_map (fun p => list_prod (lasts n R (fst p)) (firsts n R (snd p))) (rhs_pairs (p_rhs r))) R.

Definition sets_check (n : nat) (c : pcfg) (first follow : list (sym * list sym)) : bool :=
  let ft := table (firsts n (c_rules c)) (c_num_syms c) in
  let lt := table (lasts n (c_rules c)) (c_num_syms c) in
  let qt := adjacent n (c_rules c) in
  rules_closed (c_rules c) (assoc ft) (assoc lt) (pairs qt) &&
  first_check (c_rules c) ft first && follow_check (c_rules c) qt follow.
Lemma sets_check_ok : forall n c root first follow, sets_check n c first follow = true ->
  first_sets_cover c first /\ follow_sets_cover c root follow.
Proof.
  intros n c root first follow H. unfold sets_check in H. cbn zeta in H. rewrite !andb_true_iff in H.
  destruct H as ((A & B) & C). split; [eapply first_check_ok; eauto|eapply follow_check_ok; eauto].
Qed.

Lemma built_check_ok : forall n c nsyms w d0 g0 grank urank fuel maps nulling first follow g,
  nth_error (c_wrapped c) 0 = Some w -> processed_check c nsyms w d0 g0 grank urank = true ->
  sets_check n c first follow = true -> from_processed_grammars fuel c maps nulling first follow = Ret g ->
  built c nsyms w d0 g0 g.
Proof.
  intros n c nsyms w d0 g0 grank urank fuel maps nulling first follow g Hw Hp Hs Hg. constructor.
  - eapply processed_check_ok; eauto.
  - exists fuel, maps, nulling, first, follow. split; [auto|]. eapply sets_check_ok; eauto.
Qed.

(** *** productive grammars *)
Fixpoint expand (n : nat) (R : list prule) (s : sym) : option (list sym) :=
  if is_terminal R s then Some [s]
  else match n with
       | 0 => None
       | S n => fold_left (fun acc r => match acc with
           | Some w => Some w
           | None => if p_lhs r =? s then
               fold_right (fun x o => match expand n R x, o with Some a, Some b => Some (a ++ b) | _, _ => None end) (Some []) (p_rhs r)
             else None
           end) R None
       end.
Lemma expand_ok : forall n R s w, expand n R s = Some w -> derives R s w /\ Forall (terminal R) w.
Proof.
  induction n as [|n IH]; intros R s w H; cbn [expand] in H; destruct (is_terminal R s) eqn:T; try discriminate.
  1,2: injection H as <-; split; [constructor|repeat constructor; now apply is_terminal_spec].
  assert (X : forall L acc, (forall r, In r L -> In r R) -> (forall w, acc = Some w -> derives R s w /\ Forall (terminal R) w) ->
    fold_left (fun acc r => match acc with
           | Some w => Some w
           | None => if p_lhs r =? s then
               fold_right (fun x o => match expand n R x, o with Some a, Some b => Some (a ++ b) | _, _ => None end) (Some []) (p_rhs r)
             else None
           end) L acc = Some w -> derives R s w /\ Forall (terminal R) w).
  { clear H. induction L as [|r L IHL]; intros acc HL Hacc H; [now apply Hacc|]. cbn [fold_left] in H.
    apply IHL in H; auto; [intros; apply HL; simpl; auto|].
    destruct acc as [w0|]; [auto|]. intros w0 H0. destruct (p_lhs r =? s) eqn:E; [|discriminate]. apply Nat.eqb_eq in E. subst s.
    assert (Y : derives_seq R (p_rhs r) w0 /\ Forall (terminal R) w0).
    { clear - IH H0. revert w0 H0. induction (p_rhs r) as [|x xs IHx]; intros w0 H0; cbn [fold_right] in H0.
      - injection H0 as <-. split; constructor.
      - destruct (expand n R x) as [a|] eqn:Ea; [|discriminate].
        destruct (fold_right _ _ xs) as [b|] eqn:Eb; [|discriminate]. injection H0 as <-.
        destruct (IH _ _ _ Ea), (IHx _ eq_refl). split; [now constructor|now apply Forall_app]. }
    destruct Y. split; [|auto]. constructor; auto. apply HL; simpl; auto. }
  eapply X; [| |exact H]; auto. discriminate.
Qed.
Definition productive_check (n : nat) (R : list prule) : bool :=
  forallb (fun r => match expand n R (p_lhs r) with Some _ => true | None => false end) R.
Lemma productive_check_ok : forall n R, productive_check n R = true -> productive R.
Proof.
  intros n R H s. destruct (is_terminal R s) eqn:T.
  - exists [s]. split; [constructor|]. repeat constructor. now apply is_terminal_spec.
  - unfold is_terminal in T. assert (exists r, In r R /\ p_lhs r = s) as (r & Hr & <-).
    { clear H. induction R as [|r R IH]; [discriminate|]. cbn in T. destruct (p_lhs r =? s) eqn:E.
      - apply Nat.eqb_eq in E. exists r. simpl; auto.
      - destruct (IH T) as (q & A & B). exists q. simpl; auto. }
    unfold productive_check in H. rewrite forallb_forall in H. specialize (H r Hr).
    destruct (expand n R (p_lhs r)) as [w|] eqn:E; [|discriminate]. eauto using expand_ok.
Qed.

(** *** derivations given by trees *)
Fixpoint tree_ok (n : nat) (R : list prule) (s : sym) (t : tree) : bool :=
  match n with
  | 0 => false
  | S n => match t with
    | Leaf a _ => a =? s
    | Node d ts => match nth_error R d with
      | None => false
      | Some r => (p_lhs r =? s) &&
          (fix go (ss : list sym) (ts : list tree) : bool := match ss, ts with
           | [], [] => true
           | x :: ss, t :: ts => tree_ok n R x t && go ss ts
           | _, _ => false
           end) (p_rhs r) ts
      end
    end
  end.
Lemma tree_ok_ok : forall n R s t, tree_ok n R s t = true -> parse_tree R s t.
Proof.
  induction n as [|n IH]; intros R s t H; [discriminate|]. destruct t as [a v|d ts]; cbn [tree_ok] in H.
  - apply Nat.eqb_eq in H. subst. constructor.
  - destruct (nth_error R d) as [r|] eqn:E; [|discriminate]. apply andb_true_iff in H. destruct H as [A B].
    apply Nat.eqb_eq in A. subst s. econstructor; eauto. clear E.
    revert ts B. induction (p_rhs r) as [|x ss IHs]; intros [|t ts] B; try discriminate; constructor.
    + apply andb_true_iff in B. now apply IH.
    + apply andb_true_iff in B. now apply IHs.
Qed.

(** sorted by a comparison without inversions between neighbours *)
Lemma order_by_neighbours : forall (cmp : sym -> sym -> res comparison) (l : list sym) (low : sym -> Prop),
  (forall a b, In a l -> In b l -> low a -> ~ low b -> cmp a b = Ret Lt) ->
  (forall p a b, nth_error l p = Some a -> nth_error l (S p) = Some b -> cmp b a <> Ret Lt) ->
  forall i j a b, nth_error l i = Some a -> nth_error l j = Some b -> low a -> ~ low b -> i < j.
Proof.
  intros cmp l low H N i j a b Ha Hb La Nb. destruct (Nat.lt_ge_cases i j) as [L|L]; [auto|exfalso].
  assert (K : forall k c, nth_error l (j + k) = Some c -> ~ low c).
  { induction k as [|k IH]; intros c Hc; [rewrite Nat.add_0_r in Hc; congruence|].
    destruct (nth_error l (j + k)) as [d|] eqn:Ed.
    - specialize (IH d eq_refl). intros Lc. rewrite Nat.add_succ_r in Hc. apply (N _ _ _ Ed Hc).
      apply H; auto; eapply nth_error_In; eauto.
    - exfalso. apply nth_error_None in Ed. assert (j + S k < length l) by (apply nth_error_Some; congruence). lia. }
  apply (K (i - j) a); [|auto]. now replace (j + (i - j)) with i by lia.
Qed.
