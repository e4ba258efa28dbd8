(** CompactGraphProofs: the byte codec round-trips. *)
From Coq Require Import List NArith Arith Bool Lia.
From Verif Require Import Base BaseProofs CompactGraph.
Import ListNotations.
Local Open Scope res_scope.

(** All fields fit in 32 bits. *)
Definition node_ok (n : cnode) : Prop :=
  match n with
  | CBeginSum | CEndSum => True
  | CSummand a b | CProduct a b | CRule a b | CLeaf a b => (a < 4294967296 /\ b < 4294967296)%N
  | CNullingLeaf a => (a < 4294967296)%N
  end.

Local Open Scope N_scope.

Lemma byte_len_cases : forall x, x < 4294967296 ->
  (byte_len x = 1%nat /\ x < 256) \/ (byte_len x = 2%nat /\ 256 <= x < 65536) \/
  (byte_len x = 3%nat /\ 65536 <= x < 16777216) \/ (byte_len x = 4%nat /\ 16777216 <= x).
Proof.
  intros x Hx. unfold byte_len. cbn [shifts].
  destruct (x =? 0) eqn:E0; [apply N.eqb_eq in E0; left; cbn; lia|]. apply N.eqb_neq in E0.
  destruct (x / 256 =? 0) eqn:E1; [apply N.eqb_eq, N.div_small_iff in E1; [left; cbn; lia|lia]|].
  apply N.eqb_neq in E1. assert (256 <= x).
  { destruct (N.lt_ge_cases x 256); auto. rewrite N.div_small in E1; lia. }
  rewrite N.div_div in * by lia. change (256 * 256) with 65536 in *.
  destruct (x / 65536 =? 0) eqn:E2; [apply N.eqb_eq, N.div_small_iff in E2; [right; left; cbn; lia|lia]|].
  apply N.eqb_neq in E2. assert (65536 <= x).
  { destruct (N.lt_ge_cases x 65536); auto. rewrite N.div_small in E2; lia. }
  rewrite N.div_div in * by lia. change (65536 * 256) with 16777216 in *.
  destruct (x / 16777216 =? 0) eqn:E3;
    [apply N.eqb_eq, N.div_small_iff in E3; [right; right; left; cbn; lia|lia]|].
  apply N.eqb_neq in E3. assert (16777216 <= x).
  { destruct (N.lt_ge_cases x 16777216); auto. rewrite N.div_small in E3; lia. }
  right; right; right. cbn. auto.
Qed.

Lemma byte_len_range : forall x, (1 <= byte_len x <= 4)%nat.
Proof.
  intros x. unfold byte_len. cbn [shifts].
  destruct (x =? 0); [cbn; lia|]. destruct (x / 256 =? 0); [cbn; lia|].
  destruct (_ =? 0); [cbn; lia|]. destruct (_ =? 0); cbn; lia.
Qed.

Lemma le_value_4 : forall x, x < 4294967296 -> le_value (le_bytes x) = x.
Proof.
  intros x Hx. unfold le_value, le_bytes. cbn [fold_right].
  pose proof (N.div_mod x 256 ltac:(lia)) as A1.
  pose proof (N.div_mod (x / 256) 256 ltac:(lia)) as A2.
  pose proof (N.div_mod (x / 256 / 256) 256 ltac:(lia)) as A3.
  assert (B2 : x / 65536 = x / 256 / 256) by (rewrite N.div_div by lia; reflexivity).
  assert (B3 : x / 16777216 = x / 256 / 256 / 256) by (rewrite !N.div_div by lia; reflexivity).
  rewrite B3, B2.
  assert (C : x / 256 / 256 / 256 < 256).
  { rewrite !N.div_div by lia. apply N.div_lt_upper_bound; lia. }
  rewrite (N.mod_small (x / 256 / 256 / 256) 256) by auto. lia.
Qed.

Lemma le_value_pad : forall a k, le_value (a ++ repeat 0 k) = le_value a.
Proof.
  intros a k. unfold le_value. rewrite fold_right_app.
  assert (E : fold_right (fun b acc => b + 256 * acc) 0 (repeat 0 k) = 0).
  { induction k; cbn [repeat fold_right]; auto. rewrite IHk. reflexivity. }
  now rewrite E.
Qed.

Lemma le_bytes_prefix : forall x, x < 4294967296 ->
  le_bytes x = firstn (byte_len x) (le_bytes x) ++ repeat 0 (4 - byte_len x).
Proof.
  intros x Hx. unfold le_bytes.
  destruct (byte_len_cases x Hx) as [[-> H]|[[-> H]|[[-> H]|[-> H]]]]; cbn [firstn repeat app Nat.sub].
  - rewrite !(N.div_small x) by lia. reflexivity.
  - rewrite (N.div_small x 65536), (N.div_small x 16777216) by lia. reflexivity.
  - rewrite (N.div_small x 16777216) by lia. reflexivity.
  - reflexivity.
Qed.

Lemma le_value_prefix : forall x, x < 4294967296 -> le_value (firstn (byte_len x) (le_bytes x)) = x.
Proof.
  intros x Hx. rewrite <- (le_value_pad _ (4 - byte_len x)), <- le_bytes_prefix by auto.
  now apply le_value_4.
Qed.

Lemma slice_range_app : forall v a b c,
  slice_range (v ++ a ++ b ++ c) (length v + length a) (length v + length a + length b) = Ret b.
Proof.
  intros v a b c. unfold slice_range.
  rewrite (proj2 (Nat.leb_le _ _)) by lia.
  rewrite (proj2 (Nat.leb_le _ _)) by (rewrite !app_length; lia). cbn [andb]. f_equal.
  replace (length v + length a + length b - (length v + length a))%nat with (length b) by lia.
  rewrite skipn_app, (skipn_all2 v) by lia. cbn.
  replace (length v + length a - length v)%nat with (length a) by lia.
  rewrite skipn_app, (skipn_all2 a) by lia. rewrite Nat.sub_diag. cbn.
  rewrite firstn_app, firstn_all, Nat.sub_diag. cbn. apply app_nil_r.
Qed.

(** the head byte *)
Lemma head_bits : forall d l r, (1 <= l <= 4)%nat -> (1 <= r <= 4)%nat -> 2 <= d <= 6 ->
  let head := N.lor d (N.lor (N.shiftl (N.of_nat (l - 1)) 3) (N.shiftl (N.of_nat (r - 1)) 5)) in
  N.land head 7 = d /\ N.land (N.shiftr head 3) 3 = N.of_nat (l - 1) /\
  N.land (N.shiftr head 5) 3 = N.of_nat (r - 1).
Proof.
  intros d l r Hl Hr Hd.
  assert (D : d = 2 \/ d = 3 \/ d = 4 \/ d = 5 \/ d = 6) by lia.
  assert (L : (l = 1 \/ l = 2 \/ l = 3 \/ l = 4)%nat) by lia.
  assert (R : (r = 1 \/ r = 2 \/ r = 3 \/ r = 4)%nat) by lia.
  destruct L as [-> | [-> | [-> | ->]]], R as [-> | [-> | [-> | ->]]],
    D as [-> | [-> | [-> | [-> | ->]]]]; vm_compute; auto.
Qed.

(** reading a node encoded with any admissible lengths *)
Lemma get_encoded : forall v w d l r ls rs, (1 <= l <= 4)%nat -> (1 <= r <= 4)%nat -> 2 <= d <= 6 ->
  length ls = l -> length rs = r ->
  let head := N.lor d (N.lor (N.shiftl (N.of_nat (l - 1)) 3) (N.shiftl (N.of_nat (r - 1)) 5)) in
  let g := v ++ (head :: ls ++ rs) ++ w in
  g_get g (N.of_nat (length v)) =
    match d with
    | 2 => Ret (CProduct (le_value ls) (le_value rs))
    | 3 => Ret (CSummand (le_value ls) (le_value rs))
    | 4 => Ret (CRule (le_value ls) (le_value rs))
    | 5 => Ret (CLeaf (le_value ls) (le_value rs))
    | 6 => Ret (CNullingLeaf (le_value ls))
    | _ => Panic
    end /\
  g_node_size g (N.of_nat (length v)) = Ret (N.of_nat (length (head :: ls ++ rs))).
Proof.
  intros v w d l r ls rs Hl Hr Hd El Er head g.
  destruct (head_bits d l r Hl Hr Hd) as (B1 & B2 & B3). fold head in B1, B2, B3.
  assert (Eh : idx g (length v) = Ret head).
  { apply idx_some. unfold g. rewrite nth_error_app2, Nat.sub_diag by lia. reflexivity. }
  assert (S1 : slice_range g (length v + 1) (length v + 1 + l) = Ret ls).
  { pose proof (slice_range_app v [head] ls (rs ++ w)) as X. cbn [length] in X. rewrite El in X.
    unfold g. cbn [app] in *. now rewrite <- app_assoc. }
  assert (S2 : slice_range g (length v + 1 + l) (length v + 1 + l + r) = Ret rs).
  { pose proof (slice_range_app v (head :: ls) rs w) as X. cbn [length] in X. rewrite El, Er in X.
    unfold g. cbn [app] in *. rewrite <- app_assoc.
    replace (length v + S l)%nat with (length v + 1 + l)%nat in X by lia. exact X. }
  split.
  - unfold g_get. rewrite Nat2N.id, Eh. cbn [bind]. rewrite B1, B2, B3.
    rewrite (proj2 (N.ltb_lt 1 d)) by lia. rewrite !Nat2N.id.
    replace (l - 1 + 1)%nat with l by lia. replace (r - 1 + 1)%nat with r by lia.
    rewrite S1. cbn [bind]. rewrite S2. cbn [bind].
    assert (D : d = 2 \/ d = 3 \/ d = 4 \/ d = 5 \/ d = 6) by lia.
    destruct D as [-> | [-> | [-> | [-> | ->]]]]; reflexivity.
  - unfold g_node_size. rewrite Nat2N.id, Eh. cbn [bind]. rewrite B1, B2, B3.
    destruct (d <? 2) eqn:E; [apply N.ltb_lt in E; lia|].
    f_equal. cbn [length]. rewrite app_length. lia.
Qed.

Lemma firstn_le_bytes : forall x, length (firstn (byte_len x) (le_bytes x)) = byte_len x.
Proof. intros. rewrite firstn_length. cbn [le_bytes length]. pose proof (byte_len_range x). lia. Qed.

(** What a push appends. *)
Definition bytes_of (expanded : bool) (n : cnode) : list N :=
  (if expanded then g_push_expanded else g_push) [] n.

Lemma push_bytes : forall (e : bool) v n, (if e then g_push_expanded else g_push) v n = v ++ bytes_of e n.
Proof. intros [|] v n; unfold bytes_of; destruct n; reflexivity. Qed.

Lemma bytes_nonempty : forall e n, bytes_of e n <> [].
Proof. intros [|] n; destruct n; cbn; discriminate. Qed.

Lemma get_one : forall v b n w, (b = 0 /\ n = CBeginSum) \/ (b = 1 /\ n = CEndSum) ->
  g_get (v ++ [b] ++ w) (N.of_nat (length v)) = Ret n /\
  g_node_size (v ++ [b] ++ w) (N.of_nat (length v)) = Ret 1.
Proof.
  intros v b n w Hb.
  assert (Eh : idx (v ++ [b] ++ w) (length v) = Ret b).
  { apply idx_some. rewrite nth_error_app2, Nat.sub_diag by lia. reflexivity. }
  assert (S0 : slice_range (v ++ [b] ++ w) (length v + 1) (length v + 1) = Ret []).
  { unfold slice_range. rewrite Nat.leb_refl, Nat.sub_diag. cbn [firstn].
    rewrite (proj2 (Nat.leb_le _ _)); [reflexivity|]. rewrite !app_length. cbn. lia. }
  unfold g_get, g_node_size. rewrite Nat2N.id, Eh. cbn [bind].
  assert (E7 : N.land b 7 = b) by (destruct Hb as [[-> _]|[-> _]]; reflexivity).
  assert (E3 : N.to_nat (N.land (N.shiftr b 3) 3) = 0%nat) by (destruct Hb as [[-> _]|[-> _]]; reflexivity).
  assert (E5 : N.to_nat (N.land (N.shiftr b 5) 3) = 0%nat) by (destruct Hb as [[-> _]|[-> _]]; reflexivity).
  assert (E1 : 1 <? b = false) by (destruct Hb as [[-> _]|[-> _]]; reflexivity).
  assert (E2 : b <? 2 = true) by (destruct Hb as [[-> _]|[-> _]]; reflexivity).
  rewrite E7, E3, E5, E1, E2. cbn [Nat.add]. rewrite !Nat.add_0_r, S0. cbn [bind].
  destruct Hb as [[-> ->]|[-> ->]]; auto.
Qed.

(** The heart: a node reads back wherever its bytes are. *)
Lemma get_bytes : forall e v w n, node_ok n ->
  g_get (v ++ bytes_of e n ++ w) (N.of_nat (length v)) = Ret n /\
  g_node_size (v ++ bytes_of e n ++ w) (N.of_nat (length v)) = Ret (N.of_nat (length (bytes_of e n))).
Proof.
  intros e v w n Hn.
  assert (G : forall d a b, a < 4294967296 -> b < 4294967296 -> fields n = Some (d, a, b) ->
    2 <= d <= 6 -> (n <> CBeginSum) -> n <> CEndSum ->
    g_get (v ++ bytes_of e n ++ w) (N.of_nat (length v)) =
    match d with
    | 2 => Ret (CProduct a b) | 3 => Ret (CSummand a b) | 4 => Ret (CRule a b)
    | 5 => Ret (CLeaf a b) | 6 => Ret (CNullingLeaf a) | _ => Panic
    end /\
    g_node_size (v ++ bytes_of e n ++ w) (N.of_nat (length v)) = Ret (N.of_nat (length (bytes_of e n)))).
  { intros d a b Ha Hb Ef Hd N1 N2. destruct e.
    - assert (Eb : bytes_of true n = N.lor d 120 :: le_bytes a ++ le_bytes b).
      { unfold bytes_of, g_push_expanded. rewrite Ef. destruct n; try congruence; reflexivity. }
      assert (Eh : N.lor d 120 = N.lor d (N.lor (N.shiftl (N.of_nat (4 - 1)) 3) (N.shiftl (N.of_nat (4 - 1)) 5)))
        by reflexivity.
      rewrite Eb, Eh.
      pose proof (get_encoded v w d 4 4 (le_bytes a) (le_bytes b) ltac:(lia) ltac:(lia) Hd eq_refl eq_refl) as X.
      rewrite !le_value_4 in X by auto. exact X.
    - assert (Eb : bytes_of false n = N.lor d (N.lor (N.shiftl (N.of_nat (byte_len a - 1)) 3)
                       (N.shiftl (N.of_nat (byte_len b - 1)) 5))
                     :: firstn (byte_len a) (le_bytes a) ++ firstn (byte_len b) (le_bytes b)).
      { unfold bytes_of, g_push. rewrite Ef. destruct n; try congruence; reflexivity. }
      rewrite Eb.
      pose proof (get_encoded v w d (byte_len a) (byte_len b) _ _ (byte_len_range a) (byte_len_range b) Hd
        (firstn_le_bytes a) (firstn_le_bytes b)) as X.
      rewrite !le_value_prefix in X by auto. exact X. }
  destruct n; cbn [node_ok] in Hn.
  - destruct (get_one v 0 CBeginSum w ltac:(auto)) as [A B].
    assert (E : bytes_of e CBeginSum = [0]) by now destruct e. rewrite E. auto.
  - destruct (get_one v 1 CEndSum w ltac:(auto)) as [A B].
    assert (E : bytes_of e CEndSum = [1]) by now destruct e. rewrite E. auto.
  - apply (G 3 action factors); try apply Hn; try reflexivity; try lia; discriminate.
  - apply (G 2 action factors); try apply Hn; try reflexivity; try lia; discriminate.
  - apply (G 4 left_factor right_factor); try apply Hn; try reflexivity; try lia; discriminate.
  - apply (G 5 symbol values); try apply Hn; try reflexivity; try lia; discriminate.
  - apply (G 6 symbol 0); try apply Hn; try reflexivity; try lia; discriminate.
Qed.

(** ** Sequences of pushes *)
Definition write (v : graph) (w : bool * cnode) : graph :=
  (if fst w then g_push_expanded else g_push) v (snd w).
Definition written (ws : list (bool * cnode)) : graph := fold_left write ws [].

Lemma write_bytes : forall v w, write v w = v ++ bytes_of (fst w) (snd w).
Proof. intros v [e n]. apply push_bytes. Qed.

Lemma fold_write : forall ws v, exists w, fold_left write ws v = v ++ w.
Proof.
  induction ws as [|a ws IH]; intros v; cbn; [exists []; now rewrite app_nil_r|].
  destruct (IH (write v a)) as [w E]. rewrite E, write_bytes, <- app_assoc. eauto.
Qed.

Lemma g_len_small : forall v, N.of_nat (length v) < 4294967296 -> g_len v = N.of_nat (length v).
Proof. intros v H. unfold g_len. now apply N.mod_small. Qed.

Theorem written_reads : forall before w after, node_ok (snd w) ->
  N.of_nat (length (written before)) < 4294967296 ->
  g_get (written (before ++ w :: after)) (g_len (written before)) = Ret (snd w) /\
  g_node_size (written (before ++ w :: after)) (g_len (written before)) =
    Ret (N.of_nat (length (written (before ++ [w])) - length (written before))).
Proof.
  intros before [e n] after Hn Hl. rewrite g_len_small by auto. unfold written.
  rewrite !fold_left_app. cbn [fold_left snd fst]. fold (written before).
  destruct (fold_write after (write (written before) (e, n))) as [x E]. rewrite E.
  rewrite !write_bytes. cbn [fst snd] in *. rewrite <- app_assoc.
  destruct (get_bytes e (written before) x n Hn) as [A B]. rewrite A, B. split; auto.
  rewrite app_length. do 2 f_equal. lia.
Qed.
