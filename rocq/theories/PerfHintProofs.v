(** PerfHintProofs: the capacities derived from performance hints. *)
From Coq Require Import ZArith Lia.
From Verif Require Import Base PerfHint.
Local Open Scope Z_scope.
Local Open Scope res_scope.

Lemma usize_ok : forall x, 0 <= x < 2 ^ 64 -> usize x = Ret x.
Proof.
  intros x H. unfold usize. rewrite (proj2 (Z.leb_le 0 x)), (proj2 (Z.ltb_lt x (2 ^ 64))); [reflexivity|lia|lia].
Qed.
Lemma isize_ok : forall x, - 2 ^ 63 <= x < 2 ^ 63 -> isize x = Ret x.
Proof.
  intros x H. unfold isize.
  rewrite (proj2 (Z.leb_le (- 2 ^ 63) x)), (proj2 (Z.ltb_lt x (2 ^ 63))); [reflexivity|lia|lia].
Qed.
Lemma as_isize_ok : forall x, x < 2 ^ 63 -> as_isize x = x.
Proof. intros x H. unfold as_isize. now rewrite (proj2 (Z.ltb_lt x (2 ^ 63))). Qed.

Lemma usize_inv : forall x y, usize x = Ret y -> y = x /\ 0 <= x < 2 ^ 64.
Proof.
  intros x y. unfold usize. destruct (0 <=? x) eqn:A; [|discriminate].
  destruct (x <? 2 ^ 64) eqn:B; [|discriminate]. cbn. intros H. injection H as <-.
  apply Z.leb_le in A. apply Z.ltb_lt in B. auto.
Qed.
Lemma isize_inv : forall x y, isize x = Ret y -> y = x /\ - 2 ^ 63 <= x < 2 ^ 63.
Proof.
  intros x y. unfold isize. destruct (- 2 ^ 63 <=? x) eqn:A; [|discriminate].
  destruct (x <? 2 ^ 63) eqn:B; [|discriminate]. cbn. intros H. injection H as <-.
  apply Z.leb_le in A. apply Z.ltb_lt in B. auto.
Qed.

Definition tokens h := unwrap_or (token_limit h) DEFAULT_TOKEN_LIMIT.
Definition syms h := unwrap_or (num_syms h) DEFAULT_NUM_SYMS.
Definition set_bytes h := (syms h + 31) / 32 * 4 + 128.
Definition free_bytes h :=
  memory_limit h - memory_limit h * 2 / 3 - (tokens h + 1) * 8 - completion_capacity h * 16.

Lemma completion_bounds : forall h, 16 <= completion_capacity h <= 128.
Proof.
  intros h. unfold completion_capacity.
  destruct (_ <=? 999); [lia|]. destruct (_ <=? 499999); [lia|]. destruct (_ <=? 2000000); lia.
Qed.

Lemma capacity_value : forall h, 0 <= memory_limit h < 2 ^ 63 -> 0 <= tokens h < 2 ^ 58 -> 0 <= syms h < 2 ^ 63 ->
  medial_capacity h = Ret (Z.max (Z.quot (free_bytes h) (set_bytes h)) 32 * 16,
                           Z.max (Z.quot (free_bytes h) (set_bytes h)) 32).
Proof.
  intros h Hm Ht Hs. pose proof (completion_bounds h) as Hc.
  assert (Q3 : 0 <= memory_limit h * 2 / 3 <= memory_limit h).
  { split; [apply Z.div_pos; lia|]. apply Z.div_le_upper_bound; lia. }
  assert (Q32 : 0 <= (syms h + 31) / 32 < 2 ^ 58 + 1).
  { split; [apply Z.div_pos; lia|]. apply Z.div_lt_upper_bound; lia. }
  assert (Hfree : - 2 ^ 62 <= free_bytes h < 2 ^ 63) by (unfold free_bytes; lia).
  assert (E1 : chart_use h = Ret (free_bytes h)).
  { unfold chart_use, forest_use, indices_capacity. fold (tokens h).
    unfold FOREST_BYTES_PER_RECOGNIZER_BYTE, size_of_usize, size_of_item_usize.
    rewrite usize_ok by lia. cbn [bind]. change (2 + 1) with 3.
    rewrite !as_isize_ok by lia. rewrite isize_ok by lia. cbn [bind].
    rewrite usize_ok by lia. cbn [bind]. rewrite usize_ok by lia. cbn [bind].
    rewrite as_isize_ok by lia. rewrite isize_ok by lia. cbn [bind].
    rewrite usize_ok by lia. cbn [bind]. rewrite as_isize_ok by lia. now rewrite isize_ok by lia. }
  assert (E2 : bytes_per_set h = Ret (set_bytes h)).
  { unfold bytes_per_set, ITEMS_PER_SET, size_of_item_unit. fold (syms h).
    rewrite usize_ok by lia. cbn [bind]. rewrite usize_ok by lia. cbn [bind].
    rewrite usize_ok by lia. cbn [bind]. now rewrite usize_ok by (unfold set_bytes in *; lia). }
  assert (Hb : 128 <= set_bytes h < 2 ^ 63) by (unfold set_bytes; lia).
  assert (Hq : Z.quot (free_bytes h) (set_bytes h) < 2 ^ 57).
  { destruct (Z_lt_le_dec (free_bytes h) 0) as [Hn|Hp].
    - assert (Z.quot (free_bytes h) (set_bytes h) <= 0); [|lia].
      rewrite <- (Z.opp_involutive (free_bytes h)), Z.quot_opp_l by lia.
      assert (0 <= Z.quot (- free_bytes h) (set_bytes h)) by (apply Z.quot_pos; lia). lia.
    - apply Z.quot_lt_upper_bound; lia. }
  assert (E3 : set_use h = Ret (Z.max (Z.quot (free_bytes h) (set_bytes h)) 32)).
  { unfold set_use. rewrite E1. cbn [bind]. rewrite E2. cbn [bind].
    rewrite as_isize_ok by lia. destruct (set_bytes h =? 0) eqn:E; [apply Z.eqb_eq in E; lia|].
    cbn [bind]. f_equal. unfold as_usize.
    destruct (0 <=? Z.max (Z.quot (free_bytes h) (set_bytes h)) 32) eqn:E'; auto.
    apply Z.leb_gt in E'. lia. }
  unfold medial_capacity. rewrite E3. cbn [bind]. unfold ITEMS_PER_SET.
  rewrite usize_ok by lia. reflexivity.
Qed.

Lemma capacity_fits : forall h, 0 <= syms h -> 
  32 < Z.max (Z.quot (free_bytes h) (set_bytes h)) 32 ->
  Z.max (Z.quot (free_bytes h) (set_bytes h)) 32 * set_bytes h +
    (tokens h + 1) * 8 + completion_capacity h * 16 + memory_limit h * 2 / 3 <= memory_limit h.
Proof.
  intros h Hs Hq.
  assert (Hb : 128 <= set_bytes h).
  { unfold set_bytes. assert (0 <= (syms h + 31) / 32) by (apply Z.div_pos; lia). lia. }
  assert (Hf : 0 <= free_bytes h).
  { destruct (Z_lt_le_dec (free_bytes h) 0) as [Hn|Hp]; [|auto].
    assert (Z.quot (free_bytes h) (set_bytes h) <= 0); [|lia].
    rewrite <- (Z.opp_involutive (free_bytes h)), Z.quot_opp_l by lia.
    assert (0 <= Z.quot (- free_bytes h) (set_bytes h)) by (apply Z.quot_pos; lia). lia. }
  rewrite Z.max_l by lia.
  assert (Z.quot (free_bytes h) (set_bytes h) * set_bytes h <= free_bytes h).
  { rewrite Z.mul_comm. apply Z.mul_quot_le; lia. }
  unfold free_bytes in *. lia.
Qed.
