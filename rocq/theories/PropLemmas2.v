(** PropLemmas2: the forms of the utility results used in PropsUtil. *)
From Coq Require Import List Arith NArith ZArith Lia.
From Verif Require Import Base Cartesian CartesianSpec CartesianProofs PerfHint PerfHintProofs.
Import ListNotations.

Lemma C27_lemma : forall V (slices : list (slice V)) fuel,
  Forall (fun s => s_elems s <> []) slices ->
  combination_count (map s_elems slices) <= fuel ->
  cp_loop fuel (pushed slices) = Ret (combinations (map s_elems slices), pushed slices) /\
  (forall c, In c (combinations (map s_elems slices)) <-> Forall2 (fun x s => In x (s_elems s)) c slices) /\
  length (combinations (map s_elems slices)) = combination_count (map s_elems slices) /\
  (Forall (fun s => NoDup (s_elems s)) slices -> NoDup (combinations (map s_elems slices))).
Proof.
  intros V slices fuel H Hf. split; [now apply loop_spec|]. split; [|split].
  - intros c. rewrite combinations_in. clear. revert c. induction slices as [|s ss IH]; intros c; cbn.
    + split; intros X; inversion X; constructor.
    + split; intros X; inversion X; subst; constructor; auto; now apply IH.
  - apply combinations_length.
  - intros D. apply combinations_NoDup. now apply Forall_map.
Qed.

Lemma C27_reused_lemma : forall V (c : cartesian V) (slices : list (slice V)) fuel,
  Forall (fun s => s_elems s <> []) slices ->
  combination_count (map s_elems slices) <= fuel ->
  cp_loop fuel (fold_left cp_push slices (cp_clear c)) = Ret (combinations (map s_elems slices), pushed slices) /\
  cp_loop fuel (cp_extend (cp_clear c) slices) = Ret (combinations (map s_elems slices), pushed slices).
Proof.
  intros V c slices fuel H1 H2. destruct (C27_lemma V slices fuel H1 H2) as (E & _).
  rewrite extend_clear. split; exact E.
Qed.

Lemma C28_refuted_lemma : exists (c : cartesian nat) (s : slice nat),
  c = pushed [mkSlice 100 [1; 2]] /\ s = mkSlice 200 [7; 8] /\
  cp_read (cp_extend c [s]) = Ret [1; 1; 7] /\
  cp_read (cp_push c s) = Ret [1; 7].
Proof. eexists. eexists. split; [reflexivity|]. split; [reflexivity|]. vm_compute. auto. Qed.

Lemma C38_lemma : forall h,
  (0 <= memory_limit h < 2 ^ 63)%Z ->
  (0 <= unwrap_or (token_limit h) 64 < 2 ^ 58)%Z ->
  (0 <= unwrap_or (num_syms h) 128 < 2 ^ 63)%Z ->
  exists items sets, medial_capacity h = Ret (items, sets) /\
    (32 <= sets)%Z /\ items = (16 * sets)%Z /\
    (32 < sets ->
     sets * ((unwrap_or (num_syms h) 128 + 31) / 32 * 4 + 16 * 8)
       + (unwrap_or (token_limit h) 64 + 1) * 8 + completion_capacity h * 16
       + memory_limit h * 2 / 3 <= memory_limit h)%Z.
Proof.
  intros h Hm Ht Hs. exists (Z.max (Z.quot (free_bytes h) (set_bytes h)) 32 * 16)%Z.
  exists (Z.max (Z.quot (free_bytes h) (set_bytes h)) 32)%Z. split; [now apply capacity_value|].
  split; [lia|]. split; [lia|]. intros Hq. apply (capacity_fits h); [apply Hs|auto].
Qed.
