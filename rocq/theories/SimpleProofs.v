(** SimpleProofs: the simple bocage represents the nodes of the free forest, and
    evaluation computes their value. *)
From Coq Require Import List Arith Bool Lia NArith.
From Verif Require Import Base BaseProofs TablesProofs Item Grammar Forest ForestSpec Spec Den Sim SimpleBocage EvalSpec SimpleEval.
Import ListNotations.
Local Open Scope res_scope.

Definition is_fprod (T : fnode) : bool := match T with FProd _ _ => true | _ => false end.

(** ** Usable *)
Definition simple_ok (ph : phase) (b : bocage) : Prop :=
  match ph with
  | Idle => b_count b = 0
  | Summing ne => b_count b <= length (b_graph b) /\ (ne = true -> 0 < b_count b)
  end.

Lemma b_sum_count : forall s b, 0 < b_count b -> b_count b <= length (b_graph b) ->
  exists n b', b_sum s b = Ret (n, b') /\ b_count b' = 0.
Proof.
  intros s [g fi [|[|k]]] H1 H2; cbn in H1, H2; try lia; unfold b_sum; cbn [b_count b_graph b_info].
  - eauto.
  - rewrite (proj2 (Nat.leb_le _ _)) by lia. cbn [assert bind].
    destruct (idx g (length g - S (S k))) as [nd| |] eqn:E; cbn [bind].
    + unfold upd. rewrite (proj2 (Nat.ltb_lt _ _)) by (rewrite app_length; cbn; lia). cbn [bind]. eauto.
    + exfalso. unfold idx in E. destruct (nth_error g (length g - S (S k))) eqn:X; [discriminate|].
      apply nth_error_None in X. lia.
    + unfold idx in E. destruct (nth_error g (length g - S (S k))); discriminate.
Qed.

Lemma simple_usable : usable simple_forest simple_ok.
Proof.
  constructor; cbn [simple_forest f_begin_sum f_push_summand f_sum f_product f_leaf f_nulling simple_ok].
  - intros f H. exists f. split; [auto|]. split; [lia|discriminate].
  - intros b it f [H1 H2]. eexists. split; [reflexivity|]. cbn. rewrite app_length. cbn. lia.
  - intros s o f [H1 H2]. destruct (b_sum_count s f (H2 eq_refl) H1) as (n & f' & E & C). exists n, f'. auto.
  - intros l r f H. unfold b_product. do 2 eexists. split; [reflexivity|]. auto.
  - intros s p v f H. do 2 eexists. split; [reflexivity|]. auto.
  - eauto.
Qed.

(** ** Representation *)
(** the handles of the alternatives of a sum of [k] at [h] *)
Definition places (h k : nat) : list nat :=
  match k with
  | 1 => [h]
  | _ => (h + k) :: seq (h + 1) (k - 1)
  end.

Fixpoint srep (g : list snode) (T : fnode) (h : nat) {struct T} : Prop :=
  match T with
  | FLeaf s v => nth_error g h = Some (SLeaf s v)
  | FNull s => h = s
  | FProd l r => exists a b, nth_error g h = Some (SRule a b) /\ srep g l a /\ srep g r b
  | FSum s alts =>
      (length alts <> 1 -> nth_error g h = Some (SSum s (length alts))) /\
      (fix go (alts : list (nat * fnode)) (hs : list nat) : Prop :=
         match alts, hs with
         | [], [] => True
         | (d, T) :: alts, i :: hs =>
             (exists f, nth_error g i = Some (SProduct (Some d) f) /\ srep g T f) /\ go alts hs
         | _, _ => False
         end) alts (places h (length alts))
  end.

Definition alt_rep (g : list snode) (a : nat * fnode) (i : nat) : Prop :=
  exists f, nth_error g i = Some (SProduct (Some (fst a)) f) /\ srep g (snd a) f.

Lemma srep_sum : forall g s alts h, srep g (FSum s alts) h <->
  (length alts <> 1 -> nth_error g h = Some (SSum s (length alts))) /\
  Forall2 (alt_rep g) alts (places h (length alts)).
Proof.
  intros g s alts h. cbn [srep].
  generalize (places h (length alts)) as hs. generalize (length alts <> 1 -> nth_error g h = Some (SSum s (length alts))) as X.
  intros X hs. split; intros [H1 H2]; (split; [exact H1|]); clear H1 X; revert hs H2.
  - induction alts as [|[d T] alts IH]; intros [|i hs] H; try contradiction; constructor.
    + exact (proj1 H).
    + apply IH. exact (proj2 H).
  - induction alts as [|[d T] alts IH]; intros hs H; inversion H as [|? i ? hs' X Y]; subst; auto.
    split; [exact X|]. now apply IH.
Qed.

Lemma srep_mono : forall g g', (forall i nd, nth_error g i = Some nd -> nth_error g' i = Some nd) ->
  forall T h, srep g T h -> srep g' T h.
Proof.
  intros g g' Hg T. induction T as [s v|s|l r IHl IHr|s alts IH] using fnode_ind2; intros h H.
  - cbn in *. auto.
  - exact H.
  - cbn in *. destruct H as (a & b & E & H1 & H2). exists a, b. auto.
  - apply srep_sum in H. apply srep_sum. destruct H as [H1 H2]. split; [auto|].
    revert H2. generalize (places h (length alts)). clear H1. induction IH as [|a alts Ha _ IHa]; intros hs H2;
      inversion H2 as [|? i ? hs' X Y]; subst; constructor; auto.
    destruct X as (f & E & X). exists f. auto.
Qed.

Lemma app_keeps : forall A (g x : list A) i nd, nth_error g i = Some nd -> nth_error (g ++ x) i = Some nd.
Proof. intros A g x i nd H. rewrite nth_error_app1; auto. apply nth_error_Some. congruence. Qed.

Lemma firstn_set_nth : forall A (l t : list A) v, firstn (length l) (set_nth (l ++ t) (length l) v) = l.
Proof. intros A l t v. induction l as [|y l IH]; cbn; auto. now rewrite IH. Qed.

(** ** Simulation *)
Section SimS.
  Variable fi : forest_info.
  Variable g0 : list snode.       (* the graph of a new bocage *)

  Definition done (b : bocage) : list snode := firstn (length (b_graph b) - b_count b) (b_graph b).

  Definition sJ (ph : phase) (p : list (nat * fnode)) (b : bocage) : Prop :=
    b_info b = fi /\ (exists x, done b = g0 ++ x) /\
    match ph with
    | Idle => b_count b = 0
    | Summing ne => (ne = true -> p <> []) /\ b_count b = length p /\ length p <= length (b_graph b) /\
        Forall2 (fun a nd => exists f, nd = SProduct (Some (fst a)) f /\ srep (done b) (snd a) f)
          p (skipn (length (b_graph b) - b_count b) (b_graph b))
    end.
  Definition sQ (p : list (nat * fnode)) (b : bocage) (T : fnode) (h : nat) : Prop := srep (done b) T h.

  Lemma done_idle : forall b, b_count b = 0 -> done b = b_graph b.
  Proof. intros b H. unfold done. rewrite H, Nat.sub_0_r. apply firstn_all. Qed.

  Lemma skipn_cons_inv : forall A (l : list A) n x t, skipn n l = x :: t -> nth_error l n = Some x.
  Proof. induction l as [|a l IH]; intros [|n] x t H; cbn in *; try discriminate; [congruence|eauto]. Qed.

  Lemma nth_firstn : forall A (l : list A) n i x, nth_error (firstn n l) i = Some x -> i < n /\ nth_error l i = Some x.
  Proof.
    intros A l. induction l as [|a l IH]; intros [|n] [|i] x H; cbn in *; try discriminate.
    - split; [lia|auto].
    - apply IH in H. split; [lia|tauto].
  Qed.


  Lemma simple_sim : fsim free_forest simple_forest sJ sQ.
  Proof.
    constructor; cbn [simple_forest free_forest f_begin_sum f_push_summand f_sum f_product f_leaf f_nulling].
    - intros p b (Hi & Hx & Hc). apply rres_ret. split; [|intros ? ?; auto].
      split; [auto|]. split; [auto|]. split; [discriminate|]. rewrite Hc, Nat.sub_0_r, skipn_all. cbn. repeat split; try lia. constructor.
    - intros ne p b i1 i2 (Hi & Hx & _ & Hc & Hl & HF) (Ed & Eo & HQ). apply rres_ret.
      assert (Len : length (b_graph b ++ [SProduct (Some (it_dot i2)) (it_node i2)]) - (b_count b + 1)
        = length (b_graph b) - b_count b) by (rewrite app_length; cbn; lia).
      assert (Done : done (mkBocage (b_graph b ++ [SProduct (Some (it_dot i2)) (it_node i2)]) (b_info b) (b_count b + 1)) = done b).
      { unfold done. cbn [b_graph b_count]. rewrite Len, firstn_app.
        replace (length (b_graph b) - b_count b - length (b_graph b)) with 0 by lia. apply app_nil_r. }
      split; [|intros ? ?; unfold sQ; now rewrite Done].
      split; [auto|]. split; [now rewrite Done|].
      split; [intros _ X; symmetry in X; now apply app_cons_not_nil in X|]. cbn [b_count b_graph].
      split; [rewrite app_length; cbn; lia|]. split; [rewrite !app_length; cbn; lia|].
      rewrite Len, Done. rewrite skipn_app.
      replace (length (b_graph b) - b_count b - length (b_graph b)) with 0 by lia. cbn [skipn].
      apply Forall2_app; [auto|]. repeat constructor. exists (it_node i2). cbn. now rewrite Ed.
    - intros s o p b (Hi & Hx & Hne & Hc & Hl & HF). destruct p as [|a1 rest]; [now elim Hne|]. clear Hne.
      set (g := b_graph b) in *. set (k := length g - b_count b) in *.
      assert (Hg : g = done b ++ skipn k g) by (symmetry; apply firstn_skipn).
      assert (Ld : length (done b) = k) by (unfold done; rewrite firstn_length; fold g k; lia).
      assert (Tail : forall i a, nth_error (a1 :: rest) i = Some a ->
          exists f, nth_error g (k + i) = Some (SProduct (Some (fst a)) f) /\ srep (done b) (snd a) f).
      { intros i a Ha. pose proof (Forall2_nth _ _ _ _ _ i HF) as X. rewrite Ha in X.
        destruct (nth_error (skipn k g) i) as [nd|] eqn:En; [|contradiction]. destruct X as (f & -> & X).
        exists f. split; [|auto]. rewrite Hg, nth_error_app2 by lia. rewrite Ld. now replace (k + i - k) with i by lia. }
      unfold b_sum. fold g. destruct rest as [|a2 rest].
      + rewrite Hc. cbn [length]. apply rres_ret. cbn [fst snd].
        destruct (Tail 0 a1 eq_refl) as (f & Ef & Hf). rewrite Nat.add_0_r in Ef.
        assert (Ek : k = length g - 1) by (unfold k; rewrite Hc; reflexivity).
        assert (Up : forall i nd, nth_error (done b) i = Some nd -> nth_error g i = Some nd).
        { intros i nd H. rewrite Hg. now apply app_keeps. }
        split; [|split].
        * split; [auto|]. split; [|reflexivity]. rewrite done_idle by reflexivity. cbn [b_graph].
          destruct Hx as (x & Hx). exists (x ++ skipn k g). rewrite app_assoc, <- Hx. exact Hg.
        * intros T h HT. unfold sQ in *. rewrite done_idle by reflexivity. cbn [b_graph]. eapply srep_mono; eauto.
        * unfold sQ. rewrite done_idle by reflexivity. cbn [b_graph].
          rewrite (surjective_pairing a1). apply srep_sum. split; [cbn; congruence|]. cbn [length places].
          constructor; [|constructor]. exists f. cbn [fst snd]. rewrite <- Ek. split; [auto|]. eapply srep_mono; eauto.
      + rewrite Hc. cbn [length].
        set (n := S (S (length rest))).
        assert (Ek : k = length g - n) by (unfold k; rewrite Hc; reflexivity).
        assert (Hn : n <= length g) by exact Hl.
        rewrite (proj2 (Nat.leb_le _ _)) by lia. cbn [assert bind]. rewrite <- Ek.
        destruct (Tail 0 a1 eq_refl) as (f & Ef & Hf). rewrite Nat.add_0_r in Ef.
        rewrite (idx_some _ _ _ _ Ef). cbn [bind]. unfold upd.
        rewrite (proj2 (Nat.ltb_lt _ _)) by (rewrite app_length; cbn; lia). cbn [bind].
        apply rres_ret. cbn [fst snd].
        set (g' := set_nth _ _ _).
        assert (Get : forall i, i <> k -> i < length g -> nth_error g' i = nth_error g i).
        { intros i Hi1 Hi2. unfold g'. rewrite nth_set. destruct (i =? k) eqn:X; [apply Nat.eqb_eq in X; lia|].
          now rewrite nth_error_app1. }
        assert (Up : forall i nd, nth_error (done b) i = Some nd -> nth_error g' i = Some nd).
        { intros i nd H. assert (i < k) by (rewrite <- Ld; apply nth_error_Some; congruence).
          rewrite Get by lia. rewrite Hg. now apply app_keeps. }
        assert (At : nth_error g' k = Some (SSum s n)).
        { unfold g'. rewrite nth_set, Nat.eqb_refl. rewrite (proj2 (Nat.ltb_lt _ _)) by (rewrite app_length; cbn; lia). reflexivity. }
        assert (Last : nth_error g' (k + n) = Some (SProduct (Some (fst a1)) f)).
        { unfold g'. rewrite nth_set. destruct (k + n =? k) eqn:X; [apply Nat.eqb_eq in X; lia|].
          rewrite nth_error_app2 by lia. replace (k + n - length g) with 0 by lia. reflexivity. }
        split; [|split].
        * split; [auto|]. split; [|reflexivity]. rewrite done_idle by reflexivity. cbn [b_graph].
          destruct Hx as (x & Hx). exists (x ++ skipn k g'). rewrite app_assoc, <- Hx.
          assert (Y : firstn k g' = done b).
          { unfold g'. rewrite Hg, <- app_assoc, <- Ld. apply firstn_set_nth. }
          rewrite <- Y. symmetry. apply firstn_skipn.
        * intros T h HT. unfold sQ in *. rewrite done_idle by reflexivity. cbn [b_graph]. eapply srep_mono; eauto.
        * unfold sQ. rewrite done_idle by reflexivity. cbn [b_graph].
          apply srep_sum. split; [intros _; exact At|].
          change (length (a1 :: a2 :: rest)) with n.
          change (places k n) with ((k + n) :: seq (k + 1) (n - 1)).
          constructor. { exists f. split; [exact Last|]. eapply srep_mono; eauto. }
          assert (G : forall l j, (forall i a, nth_error l i = Some a -> nth_error (a1 :: a2 :: rest) (j + i) = Some a) -> 0 < j ->
             Forall2 (alt_rep g') l (seq (k + j) (length l))).
          { induction l as [|a l IH]; intros j Hl0 Hj; cbn [length seq]; constructor.
            - assert (Ha : nth_error (a1 :: a2 :: rest) j = Some a).
              { replace j with (j + 0) by lia. now apply Hl0. }
              destruct (Tail _ _ Ha) as (f' & Ef' & Hf').
              exists f'. rewrite Get.
              + split; [auto|]. eapply srep_mono; eauto.
              + lia.
              + apply nth_error_Some. congruence.
            - replace (S (k + j)) with (k + S j) by lia. apply IH; [|lia].
              intros i a' Ha'. replace (S j + i) with (j + S i) by lia. now apply Hl0. }
          replace (n - 1) with (length (a2 :: rest)) by (cbn; lia). apply G; [|lia]. intros i a Ha. exact Ha.
    - intros l1 l2 r1 r2 p b (Hi & Hx & Hc) Hl Hr. unfold b_product. apply rres_ret. cbn [fst snd].
      unfold sQ, grows, sJ in *. rewrite !done_idle in * by auto. cbn [b_info with_graph b_graph b_count].
      assert (Up := app_keeps _ (b_graph b) [SRule l2 r2]).
      rewrite app_length. cbn [length]. replace (length (b_graph b) + 1 - 1) with (length (b_graph b)) by lia.
      split; [|split].
      + split; [auto|]. split; [|auto]. destruct Hx as (x & ->). exists (x ++ [SRule l2 r2]). now rewrite app_assoc.
      + intros T h. apply srep_mono. exact Up.
      + cbn [srep]. exists l2, r2. rewrite nth_error_app2, Nat.sub_diag by lia. split; [reflexivity|].
        split; (eapply srep_mono; [exact Up|auto]).
    - intros s pos v p b (Hi & Hx & Hc). apply rres_ret. cbn [fst snd].
      unfold sQ, grows, sJ in *. rewrite !done_idle in * by auto. cbn [b_info with_graph b_graph b_count].
      assert (Up := app_keeps _ (b_graph b) [SLeaf s v]).
      split; [|split].
      + split; [auto|]. split; [|auto]. destruct Hx as (x & ->). exists (x ++ [SLeaf s v]). now rewrite app_assoc.
      + intros T h. apply srep_mono. exact Up.
      + cbn [srep]. rewrite nth_error_app2, Nat.sub_diag by lia. reflexivity.
    - intros _ s p b _. apply rres_ret. reflexivity.
  Qed.
End SimS.
