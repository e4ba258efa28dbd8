(** CompactProofs: the compact bocage represents the nodes of the free forest. *)
From Coq Require Import List Arith Bool Lia NArith Permutation.
From Verif Require Import Base BaseProofs TablesProofs Item Grammar Forest ForestSpec Spec Den Sim SimpleBocage CompactGraph
  CompactGraphProofs CompactBocage CompactSpec ForestValue.
Import ListNotations.
Local Open Scope res_scope.

(** ** 32 bits *)
Lemma u32_le : forall m n, m <= n -> u32 n -> u32 m.
Proof. unfold u32. intros. lia. Qed.
Lemma wrap32_small : forall n, u32 n -> wrap32 n = n.
Proof. intros n H. unfold wrap32. rewrite N.mod_small by exact H. apply Nat2N.id. Qed.
Lemma h_mul_small : forall n, u32 (9 * n) -> h_mul n = 9 * n.
Proof. intros n H. unfold h_mul. unfold u32 in H. rewrite N.mod_small by lia. lia. Qed.
Lemma clen_small : forall g, u32 (length g) -> clen g = length g.
Proof. intros g H. unfold clen. rewrite g_len_small by exact H. apply Nat2N.id. Qed.

(** ** Reading from a longer graph *)
Lemma slice_app : forall v w a b x, slice_range v a b = Ret x -> slice_range (v ++ w) a b = Ret x.
Proof.
  intros v w a b x. unfold slice_range. destruct (a <=? b) eqn:E1; cbn [andb]; [|discriminate].
  destruct (b <=? length v) eqn:E2; [|discriminate]. apply Nat.leb_le in E1, E2.
  rewrite (proj2 (Nat.leb_le _ _)) by (rewrite app_length; lia). intros H. injection H as <-. f_equal.
  rewrite skipn_app. rewrite firstn_app. rewrite skipn_length.
  replace (b - a - (length v - a)) with 0 by lia. cbn [firstn]. now rewrite app_nil_r.
Qed.
Lemma idx_app : forall A (v w : list A) i x, idx v i = Ret x -> idx (v ++ w) i = Ret x.
Proof.
  intros A v w i x. unfold idx. destruct (nth_error v i) as [y|] eqn:E; [|discriminate].
  rewrite nth_error_app1, E by (apply nth_error_Some; congruence). auto.
Qed.
Lemma get_app : forall v w i n, g_get v i = Ret n -> g_get (v ++ w) i = Ret n.
Proof.
  intros v w i n. unfold g_get. destruct (idx v (N.to_nat i)) as [h| |] eqn:E; cbn [bind]; try discriminate.
  rewrite (idx_app _ _ w _ _ E). cbn [bind].
  destruct (slice_range v _ _) as [ls| |] eqn:E1; cbn [bind]; try discriminate. rewrite (slice_app _ w _ _ _ E1). cbn [bind].
  destruct (slice_range v _ (_ + _ + _ + _)) as [rs| |] eqn:E2; cbn [bind]; try discriminate. rewrite (slice_app _ w _ _ _ E2). auto.
Qed.
Lemma size_app : forall v w i k, g_node_size v i = Ret k -> g_node_size (v ++ w) i = Ret k.
Proof.
  intros v w i n. unfold g_node_size. destruct (idx v (N.to_nat i)) as [h| |] eqn:E; cbn [bind]; try discriminate.
  now rewrite (idx_app _ _ w _ _ E).
Qed.
Lemma cget_app : forall v w h n, cget v h = Ret n -> cget (v ++ w) h = Ret n.
Proof. intros v w h n. apply get_app. Qed.
Lemma cget_bound : forall v h n, cget v h = Ret n -> h < length v.
Proof.
  intros v h n. unfold cget, g_get. rewrite Nat2N.id. unfold idx. destruct (nth_error v h) as [x|] eqn:E; [|discriminate].
  intros _. apply nth_error_Some. congruence.
Qed.

(** ** Writing a node *)
Lemma push_app : forall g nd, exists x, g_push g nd = g ++ x /\ 1 <= length x <= 9.
Proof.
  intros g nd. pose proof (push_bytes false g nd) as H. cbn beta iota in H. rewrite H. eexists. split; [reflexivity|].
  unfold bytes_of. assert (Big : forall d l r, 1 <= length ([] ++ (N.lor d (N.lor (N.shiftl (N.of_nat (byte_len l - 1)) 3)
      (N.shiftl (N.of_nat (byte_len r - 1)) 5)) :: firstn (byte_len l) (le_bytes l) ++ firstn (byte_len r) (le_bytes r))) <= 9).
  { intros d l r. cbn [app length]. rewrite app_length, !firstn_le_bytes.
    pose proof (byte_len_range l). pose proof (byte_len_range r). lia. }
  destruct nd; try (cbn; lia); cbn [g_push fields]; apply Big.
Qed.
Lemma push_get : forall g nd, node_ok nd -> cget (g_push g nd) (length g) = Ret nd /\
  g_node_size (g_push g nd) (N.of_nat (length g)) = Ret (N.of_nat (length (g_push g nd) - length g)).
Proof.
  intros g nd H. pose proof (push_bytes false g nd) as E. cbn beta iota in E. rewrite E.
  pose proof (get_bytes false g [] nd H) as [A B]. rewrite app_nil_r in A, B. split; [exact A|]. rewrite B, app_length.
  f_equal. f_equal. lia.
Qed.

(** ** Usable *)
Definition compact_ok (ph : phase) (b : cbocage) : Prop :=
  match ph with
  | Idle => True
  | Summing _ => cb_sum b <> None
  end.
Lemma compact_usable : usable compact_forest compact_ok.
Proof.
  constructor; cbn [compact_forest f_begin_sum f_push_summand f_sum f_product f_leaf f_nulling compact_ok].
  - intros f _. eexists. split; [reflexivity|]. discriminate.
  - intros b it f H. eexists. split; [reflexivity|]. exact H.
  - intros s o f H. destruct (cb_sum f) as [n|]; [|congruence]. cbn [unwrap bind].
    destruct (cb_num_summands f =? 1); eauto.
  - intros l r f _. unfold c_product. eauto.
  - intros s p v f _. eauto.
  - eauto.
Qed.
Lemma compact_blind : position_blind compact_forest.
Proof. constructor; reflexivity. Qed.

(** ** Nodes whose fields fit *)
Fixpoint small (T : fnode) : Prop :=
  match T with
  | FLeaf s v => u32 s /\ u32 v
  | FNull s => u32 (9 * s)
  | FProd l r => small l /\ small r
  | FSum s alts =>
      (fix go l := match l with
                   | [] => True
                   | a :: l => ((N.of_nat (fst a) < C_NULL_ACTION)%N /\ small (snd a)) /\ go l
                   end) alts
  end.
Notation small_alts := (Forall (fun a : nat * fnode => (N.of_nat (fst a) < C_NULL_ACTION)%N /\ small (snd a))).
Lemma small_sum : forall s alts, small (FSum s alts) <-> small_alts alts.
Proof.
  intros s alts. cbn [small]. split; intros H.
  - induction alts; constructor; [apply H|apply IHalts, H].
  - induction H; auto.
Qed.

(** ** Representation *)
Fixpoint crep (g : graph) (T : fnode) (h : nat) {struct T} : Prop :=
  match T with
  | FLeaf s v => cget g h = Ret (CLeaf (N.of_nat s) (N.of_nat v))
  | FNull s => h = 9 * s
  | FProd l r => exists a b, cget g h = Ret (CRule (N.of_nat a) (N.of_nat b)) /\ crep g l a /\ crep g r b
  | FSum s alts =>
      exists start, h = (if length alts =? 1 then start + 1 else start) /\ cget g start = Ret CBeginSum /\
      exists e, (fix go (alts : list (nat * fnode)) (i : nat) : Prop :=
         match alts with
         | [] => i = e
         | (d, T) :: alts =>
             exists f k, cget g i = Ret (CSummand (N.of_nat d) (N.of_nat f)) /\ crep g T f /\
               g_node_size g (N.of_nat i) = Ret (N.of_nat k) /\ go alts (i + k)
         end) alts (start + 1) /\ cget g e = Ret CEndSum
  end.

(** the summands [alts] lie from [i] up to [e] *)
Fixpoint cchain (g : graph) (alts : list (nat * fnode)) (i e : nat) : Prop :=
  match alts with
  | [] => i = e
  | a :: alts =>
      exists f k, cget g i = Ret (CSummand (N.of_nat (fst a)) (N.of_nat f)) /\ crep g (snd a) f /\
        g_node_size g (N.of_nat i) = Ret (N.of_nat k) /\ cchain g alts (i + k) e
  end.
Lemma crep_sum : forall g s alts h, crep g (FSum s alts) h <->
  exists start e, h = (if length alts =? 1 then start + 1 else start) /\ cget g start = Ret CBeginSum /\
    cchain g alts (start + 1) e /\ cget g e = Ret CEndSum.
Proof.
  intros g s alts h. cbn [crep].
  assert (G : forall e alts i, (fix go (alts : list (nat * fnode)) (i : nat) : Prop :=
         match alts with
         | [] => i = e
         | (d, T) :: alts =>
             exists f k, cget g i = Ret (CSummand (N.of_nat d) (N.of_nat f)) /\ crep g T f /\
               g_node_size g (N.of_nat i) = Ret (N.of_nat k) /\ go alts (i + k)
         end) alts i <-> cchain g alts i e).
  { intros e l. induction l as [|[d T] l IH]; intros i; [reflexivity|]. cbn [cchain fst snd].
    split; intros (f & k & A & B & C & D); exists f, k; (split; [auto|]); (split; [auto|]); (split; [auto|]); now apply IH. }
  split.
  - intros (start & A & B & e & C & D). exists start, e. rewrite <- G. auto.
  - intros (start & e & A & B & C & D). exists start. split; [auto|]. split; [auto|]. exists e. rewrite G. auto.
Qed.

Lemma crep_mono : forall g x T h, crep g T h -> crep (g ++ x) T h.
Proof.
  intros g x T. induction T as [s v|s|l r IHl IHr|s alts IH] using fnode_ind2; intros h H.
  - cbn in *. now apply cget_app.
  - exact H.
  - cbn in *. destruct H as (a & b & E & H1 & H2). exists a, b. auto using cget_app.
  - apply crep_sum in H. apply crep_sum. destruct H as (start & e & A & B & C & D). exists start, e.
    split; [auto|]. split; [now apply cget_app|]. split; [|now apply cget_app]. revert C. generalize (start + 1). clear - IH.
    induction IH as [|a alts Ha _ IHa]; intros i C; [exact C|]. cbn [cchain] in *. destruct C as (f & k & C1 & C2 & C3 & C4).
    exists f, k. split; [now apply cget_app|]. split; [auto|]. split; [now apply size_app|auto].
Qed.
Lemma cchain_mono : forall g x alts i e, cchain g alts i e -> cchain (g ++ x) alts i e.
Proof.
  intros g x alts. induction alts as [|a alts IH]; intros i e H; [exact H|]. cbn [cchain] in *. destruct H as (f & k & C1 & C2 & C3 & C4).
  exists f, k. split; [now apply cget_app|]. split; [now apply crep_mono|]. split; [now apply size_app|auto].
Qed.
Lemma cchain_snoc : forall g alts a i e e', cchain g alts i e ->
  (exists f k, cget g e = Ret (CSummand (N.of_nat (fst a)) (N.of_nat f)) /\ crep g (snd a) f /\
     g_node_size g (N.of_nat e) = Ret (N.of_nat k) /\ e' = e + k) -> cchain g (alts ++ [a]) i e'.
Proof.
  intros g alts a. induction alts as [|b alts IH]; intros i e e' H (f & k & A & B & C & D).
  - cbn in *. subst i e'. exists f, k. auto.
  - cbn [cchain app] in *. destruct H as (f' & k' & C1 & C2 & C3 & C4). exists f', k'. split; [auto|]. split; [auto|]. split; [auto|].
    eapply IH; eauto 8.
Qed.

(** handles fit in 32 bits *)
Lemma crep_u32 : forall g T h, small T -> u32 (length g) -> crep g T h -> u32 h.
Proof.
  intros g T h Hs Hg H.
  assert (B : forall h n, cget g h = Ret n -> u32 h).
  { intros i n E. apply cget_bound in E. eapply u32_le; [|exact Hg]. lia. }
  destruct T as [s v|s|l r|s alts].
  - cbn in H. eauto.
  - cbn in *. now subst h.
  - cbn in H. destruct H as (a & b & E & _). eauto.
  - apply crep_sum in H. destruct H as (start & e & -> & E & C & _). destruct (length alts =? 1) eqn:X; [|eauto].
    destruct alts as [|a alts]; [discriminate|]. cbn in C. destruct C as (f & k & E2 & _). eauto.
Qed.

(** ** Simulation *)
Section SimC.
  Variable fi : forest_info.
  Variable g0 : graph.       (* the graph of a new bocage *)

  Definition cJ (ph : phase) (p : list (nat * fnode)) (b : cbocage) : Prop :=
    cb_info b = fi /\ (exists x, cb_graph b = g0 ++ x) /\
    match ph with
    | Idle => True
    | Summing ne => (ne = true -> p <> []) /\ cb_num_summands b = length p /\
        exists g1 x, cb_sum b = Some (clen g1) /\ cb_graph b = g1 ++ x /\
          (small_alts p -> u32 (length (cb_graph b)) ->
             cget (cb_graph b) (length g1) = Ret CBeginSum /\
             cchain (cb_graph b) p (length g1 + 1) (length (cb_graph b)))
    end.
  Definition cQ (p : list (nat * fnode)) (b : cbocage) (T : fnode) (h : nat) : Prop :=
    small T -> u32 (length (cb_graph b)) -> crep (cb_graph b) T h.

  Lemma cQ_grows : forall p b p' b' x, cb_graph b' = cb_graph b ++ x -> forall T h, cQ p b T h -> cQ p' b' T h.
  Proof.
    intros p b p' b' x E T h H Hs Hl. rewrite E in *. apply crep_mono. apply H; [auto|].
    eapply u32_le; [|exact Hl]. rewrite app_length. lia.
  Qed.

  Lemma node_ok_summand : forall d h, (N.of_nat d < C_NULL_ACTION)%N -> u32 h -> node_ok (CSummand (N.of_nat d) (N.of_nat h)).
  Proof. intros d h H1 H2. unfold u32, C_NULL_ACTION in *. cbn. lia. Qed.

  Lemma compact_sim : fsim free_forest compact_forest cJ cQ.
  Proof.
    constructor; cbn [compact_forest free_forest f_begin_sum f_push_summand f_sum f_product f_leaf f_nulling].
    - intros p b (Hi & (x0 & Hx) & _). apply rres_ret. split; [|intros T h; eapply (cQ_grows p b _ _ [0%N]); reflexivity].
      split; [auto|]. split; [exists (x0 ++ [0%N]); cbn [cb_graph g_push]; now rewrite Hx, app_assoc|].
      split; [discriminate|]. split; [reflexivity|]. cbn [cb_sum cb_graph g_push].
      exists (cb_graph b), [0%N]. split; [reflexivity|]. split; [reflexivity|]. intros _ _. cbn [cchain]. rewrite app_length. cbn [length].
      split; [|reflexivity]. apply (push_get (cb_graph b) CBeginSum I).
    - intros ne p b i1 i2 (Hi & (x0 & Hx) & _ & Hn & g1 & x & Es & Eg & HC) (Ed & Eo & HQ). apply rres_ret.
      set (nd := CSummand (N.of_nat (it_dot i2)) (N.of_nat (it_node i2))).
      destruct (push_app (cb_graph b) nd) as (y & Ey & _).
      split; [|intros T h; eapply (cQ_grows p b _ _ y); exact Ey].
      split; [auto|]. split; [exists (x0 ++ y); cbn [cb_graph]; now rewrite Ey, Hx, app_assoc|].
      split; [intros _ X; symmetry in X; now apply app_cons_not_nil in X|]. cbn [cb_num_summands cb_graph cb_sum].
      split; [rewrite app_length; cbn; lia|]. exists g1, (x ++ y). split; [auto|]. split; [now rewrite Ey, Eg, app_assoc|].
      intros Hs Hl. apply Forall_app in Hs. destruct Hs as [Hs1 Hs2]. inversion Hs2 as [|? ? [Hd Hs] _]; subst. cbn [fst snd] in *.
      assert (Hl' : u32 (length (cb_graph b))) by (eapply u32_le; [|exact Hl]; rewrite Ey, app_length; lia).
      destruct (HC Hs1 Hl') as [C1 C2]. specialize (HQ Hs Hl'). pose proof (crep_u32 _ _ _ Hs Hl' HQ) as Hh.
      rewrite Ed in Hd. destruct (push_get (cb_graph b) nd (node_ok_summand _ _ Hd Hh)) as [P1 P2].
      split; [rewrite Ey; now apply cget_app|]. eapply cchain_snoc; [rewrite Ey; apply cchain_mono; exact C2|].
      exists (it_node i2), (length (g_push (cb_graph b) nd) - length (cb_graph b)). cbn [fst snd]. rewrite Ed. fold nd.
      split; [exact P1|]. split; [rewrite Ey; now apply crep_mono|]. split; [exact P2|].
      rewrite Ey, app_length. lia.
    - intros s o p b (Hi & (x0 & Hx) & Hne & Hn & g1 & x & Es & Eg & HC). rewrite Es. cbn [unwrap bind].
      destruct p as [|a p]; [now elim Hne|]. rewrite Hn.
      assert (Goal : forall h, h = (if length (a :: p) =? 1 then wrap32 (clen g1 + 1) else clen g1) ->
        let b' := mkCBocage (g_push (cb_graph b) CEndSum) (cb_info b) None (cb_num_summands b) (cb_nulling_limit b) in
        cJ Idle [] b' /\ grows cQ (a :: p) b [] b' /\ cQ [] b' (FSum s (a :: p)) h).
      { intros h Eh b'. cbn [g_push] in b'. split; [|split].
        - split; [auto|]. split; [|exact I]. exists (x0 ++ [1%N]). cbn. now rewrite Hx, app_assoc.
        - intros T h'. apply (cQ_grows _ b _ _ [1%N]). reflexivity.
        - intros Hs Hl. apply small_sum in Hs. cbn [cb_graph b'] in *.
          assert (Hl' : u32 (length (cb_graph b))) by (eapply u32_le; [|exact Hl]; rewrite app_length; lia).
          destruct (HC Hs Hl') as [C1 C2]. apply crep_sum. exists (length g1), (length (cb_graph b)).
          assert (H1 : u32 (length g1)) by (apply cget_bound in C1; eapply u32_le; [|exact Hl']; lia).
          assert (H2 : u32 (length g1 + 1)).
          { eapply u32_le; [|exact Hl]. apply cget_bound in C1. rewrite app_length. cbn. lia. }
          split; [rewrite Eh, (clen_small _ H1), (wrap32_small _ H2); reflexivity|].
          split; [now apply cget_app|]. split; [now apply cchain_mono|].
          apply (push_get (cb_graph b) CEndSum I). }
      destruct (length (a :: p) =? 1) eqn:X; apply rres_ret; cbn [fst snd]; apply Goal; reflexivity.
    - intros l1 l2 r1 r2 p b (Hi & (x0 & Hx) & _) Hl Hr. unfold c_product. apply rres_ret. cbn [fst snd].
      set (nd := CRule (N.of_nat l2) (N.of_nat r2)). destruct (push_app (cb_graph b) nd) as (y & Ey & _).
      split; [|split].
      + split; [auto|]. split; [|exact I]. exists (x0 ++ y). cbn [cb_graph with_cgraph]. rewrite Ey, Hx. now rewrite app_assoc.
      + intros T h. apply (cQ_grows _ b _ _ y). exact Ey.
      + intros [Hs1 Hs2] Hg. cbn [cb_graph with_cgraph] in *.
        assert (Hg' : u32 (length (cb_graph b))) by (eapply u32_le; [|exact Hg]; rewrite Ey, app_length; lia).
        specialize (Hl Hs1 Hg'). specialize (Hr Hs2 Hg'). cbn [crep]. exists l2, r2. rewrite (clen_small _ Hg').
        split; [|rewrite Ey; split; now apply crep_mono].
        apply (push_get (cb_graph b) nd). pose proof (crep_u32 _ _ _ Hs1 Hg' Hl). pose proof (crep_u32 _ _ _ Hs2 Hg' Hr).
        split; auto.
    - intros s pos v p b (Hi & (x0 & Hx) & _). apply rres_ret. cbn [fst snd].
      set (nd := CLeaf (N.of_nat s) (N.of_nat v)). destruct (push_app (cb_graph b) nd) as (y & Ey & _).
      split; [|split].
      + split; [auto|]. split; [|exact I]. exists (x0 ++ y). cbn [cb_graph with_cgraph]. rewrite Ey, Hx. now rewrite app_assoc.
      + intros T h. apply (cQ_grows _ b _ _ y). exact Ey.
      + intros [Hs1 Hs2] Hg. cbn [cb_graph with_cgraph] in *.
        assert (Hg' : u32 (length (cb_graph b))) by (eapply u32_le; [|exact Hg]; rewrite Ey, app_length; lia).
        cbn [crep]. rewrite (clen_small _ Hg'). apply (push_get (cb_graph b) nd). split; auto.
    - intros _ s p b _. apply rres_ret. intros Hs _. cbn [crep small] in *. rewrite wrap32_small; [lia|].
      now replace (s * 9) with (9 * s) by lia.
  Qed.
End SimC.

(** ** The trees of a represented node *)
Theorem crep_represents : forall g T, shape T -> forall h, crep g T h -> crepresents g h (trees T).
Proof.
  intros g T. induction T as [s v|s|l r IHl IHr|s alts IH] using fnode_ind2; intros Hs h H.
  - cbn in *. pose proof (cr_leaf g h _ _ H) as X. now rewrite !Nat2N.id in X.
  - contradiction.
  - cbn [crep shape trees] in *. destruct H as (a & b & E & H1 & H2). destruct Hs as [S1 S2].
    eapply cr_rule; [exact E| |]; rewrite Nat2N.id; auto.
  - apply shape_sum in Hs. apply crep_sum in H. destruct Hs as [Hne Hs], H as (start & e & Eh & A & C & D). cbn [trees].
    assert (G : forall i, cchain g alts i e -> crepresents_from g i (flat_map (fun a => map (fun xs => [Node (fst a) xs]) (trees (snd a))) alts)).
    { clear C Hne Eh. induction IH as [|a alts Ha _ IHa]; intros i C; cbn [cchain flat_map] in *.
      - subst i. now constructor.
      - inversion Hs as [|? ? S1 S2]; subst. destruct C as (f & k & C1 & C2 & C3 & C4).
        pose proof (cr_more g i (N.of_nat (fst a)) (N.of_nat f) (N.of_nat k) (trees (snd a))
          (flat_map (fun a => map (fun xs => [Node (fst a) xs]) (trees (snd a))) alts) C1) as X.
        rewrite !Nat2N.id in X. apply X; auto. }
    specialize (G _ C). subst h. destruct (length alts =? 1) eqn:X.
    + destruct alts as [|a alts]; [discriminate|]. cbn [cchain] in C. destruct C as (f & k & C1 & _).
      eapply cr_summand; eauto.
    + now apply cr_begin.
Qed.
