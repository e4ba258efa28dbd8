(** PropsUtil: properties of the product enumerator, of the compact byte graph and
    of the performance hints. *)
From Coq Require Import List Arith NArith ZArith.
From Verif Require Import Base Cartesian CartesianSpec CartesianProofs CompactGraph CompactGraphProofs
  PerfHint PerfHintProofs PropLemmas2.
Import ListNotations.

(** ** C27: every combination once *)
Theorem C27_enumeration : forall V (slices : list (slice V)) fuel,
  Forall (fun s => s_elems s <> []) slices ->
  combination_count (map s_elems slices) <= fuel ->
  (* the loop "read, advance, until advance returns false" reads this list and
     leaves the product where it started *)
  cp_loop fuel (pushed slices) = Ret (combinations (map s_elems slices), pushed slices) /\
  (* which consists of exactly the choices of one element per factor *)
  (forall c, In c (combinations (map s_elems slices)) <-> Forall2 (fun x s => In x (s_elems s)) c slices) /\
  length (combinations (map s_elems slices)) = combination_count (map s_elems slices) /\
  (Forall (fun s => NoDup (s_elems s)) slices -> NoDup (combinations (map s_elems slices))).
Proof. exact (@C27_lemma). Qed.
Print Assumptions C27_enumeration.

Example C27_example :
  cp_loop 6 (pushed [mkSlice 100 [1; 2; 3]; mkSlice 200 [7; 8]]) =
    Ret ([[1; 7]; [2; 7]; [3; 7]; [1; 8]; [2; 8]; [3; 8]],
         pushed [mkSlice 100 [1; 2; 3]; mkSlice 200 [7; 8]]) /\
  Forall (fun s => s_elems s <> []) [mkSlice 100 [1; 2; 3]; mkSlice 200 [7; 8]] /\
  combination_count [[1; 2; 3]; [7; 8]] <= 6.
Proof.
  split; [reflexivity|]. split; [|vm_compute; auto].
  repeat (apply Forall_cons; [discriminate|]). constructor.
Qed.

(** A product that is cleared may be filled again, by [push] or by [extend], whatever
    was done with it before. *)
Theorem C27_reused : forall V (c : cartesian V) (slices : list (slice V)) fuel,
  Forall (fun s => s_elems s <> []) slices ->
  combination_count (map s_elems slices) <= fuel ->
  cp_loop fuel (fold_left cp_push slices (cp_clear c)) = Ret (combinations (map s_elems slices), pushed slices) /\
  cp_loop fuel (cp_extend (cp_clear c) slices) = Ret (combinations (map s_elems slices), pushed slices).
Proof. exact (@C27_reused_lemma). Qed.
Print Assumptions C27_reused.

Example C27_reused_example :
  cp_loop 2 (cp_extend (cp_clear (cp_extend (pushed [mkSlice 100 [1; 2]]) [mkSlice 200 [7; 8]])) [mkSlice 300 [5; 6]]) =
    Ret ([[5]; [6]], pushed [mkSlice 300 [5; 6]]).
Proof. reflexivity. Qed.

(** ** C28: [extend] agrees with pushing exactly on a product without factors *)
Theorem C28_extend_partial : forall V (c : cartesian V) slices,
  cp_extend c slices = fold_left cp_push slices c <-> c_ranges c = [].
Proof. exact (@extend_iff). Qed.
Print Assumptions C28_extend_partial.

(** Extending a product that already has a factor repeats that factor's pointer, so
    that combinations have three entries for two factors. *)
Theorem C28_refuted : exists (c : cartesian nat) (s : slice nat),
  c = pushed [mkSlice 100 [1; 2]] /\ s = mkSlice 200 [7; 8] /\
  cp_read (cp_extend c [s]) = Ret [1; 1; 7] /\
  cp_read (cp_push c s) = Ret [1; 7].
Proof. exact C28_refuted_lemma. Qed.
Print Assumptions C28_refuted.

Example C28_example :
  cp_extend cp_new [mkSlice 100 [1; 2]; mkSlice 200 [7; 8]] =
    pushed [mkSlice 100 [1; 2]; mkSlice 200 [7; 8]].
Proof. reflexivity. Qed.

(** ** C18: the byte graph returns what was pushed *)
Theorem C18_codec : forall before w after,
  node_ok (snd w) -> (N.of_nat (length (written before)) < 4294967296)%N ->
  g_get (written (before ++ w :: after)) (g_len (written before)) = Ret (snd w) /\
  g_node_size (written (before ++ w :: after)) (g_len (written before)) =
    Ret (N.of_nat (length (written (before ++ [w])) - length (written before))).
Proof. exact written_reads. Qed.
Print Assumptions C18_codec.

Example C18_example :
  let w := (false, CRule 70000 4294967295) in
  node_ok (snd w) /\
  written [(true, CNullingLeaf 1); w; (false, CLeaf 5 0)] =
    [126; 1; 0; 0; 0; 0; 0; 0; 0;  116; 112; 17; 1; 255; 255; 255; 255;  5; 5; 0]%N /\
  g_get (written [(true, CNullingLeaf 1); w; (false, CLeaf 5 0)]) (g_len (written [(true, CNullingLeaf 1)]))
    = Ret (CRule 70000 4294967295).
Proof. vm_compute. repeat split; reflexivity. Qed.

(** ** C38: capacities *)
Theorem C38_capacities : forall h,
  (0 <= memory_limit h < 2 ^ 63)%Z ->
  (0 <= unwrap_or (token_limit h) 64 < 2 ^ 58)%Z ->
  (0 <= unwrap_or (num_syms h) 128 < 2 ^ 63)%Z ->
  exists items sets, medial_capacity h = Ret (items, sets) /\
    (32 <= sets)%Z /\ items = (16 * sets)%Z /\
    (* above the minimum, the estimated use stays within the limit *)
    (32 < sets ->
     sets * ((unwrap_or (num_syms h) 128 + 31) / 32 * 4 + 16 * 8)
       + (unwrap_or (token_limit h) 64 + 1) * 8 + completion_capacity h * 16
       + memory_limit h * 2 / 3 <= memory_limit h)%Z.
Proof. exact C38_lemma. Qed.
Print Assumptions C38_capacities.

Example C38_example :
  medial_capacity (mkHint 1000000 (Some 5000) (Some 300))%Z = Ret (27824, 1739)%Z /\
  medial_capacity (mkHint 1024 None None)%Z = Ret (512, 32)%Z.
Proof. vm_compute. split; reflexivity. Qed.
