(** SimpleValue: the value of nodes of the simple bocage in terms of the free forest
    and of parse trees. *)
From Coq Require Import List Arith Bool Lia NArith.
From Verif Require Import Base BaseProofs TablesProofs Item Grammar Forest ForestSpec Spec Den Sim SimpleBocage EvalSpec SimpleEval
  SimpleProofs.
Import ListNotations.
Local Open Scope res_scope.

(** ** The nulling symbols are within range *)
Lemma list_max_opt_le : forall l x, In x l -> exists m, list_max_opt l = Some m /\ x <= m.
Proof.
  assert (G : forall t y, y <= fold_left Nat.max t y /\ forall x, In x t -> x <= fold_left Nat.max t y).
  { induction t as [|z t IH]; intros y; cbn; [split; [lia|tauto]|].
    destruct (IH (Nat.max y z)) as [A B]. split; [lia|]. intros x [-> | H]; [lia|auto]. }
  intros [|y t] x H; [contradiction|]. cbn. eexists. split; [reflexivity|].
  destruct (G t y) as [A B]. destruct H as [-> | H]; auto.
Qed.

Section Range.
  Variable fi : forest_info.
  Notation nn := (nulling_symbol_count fi + 1).
  Lemma max_le : forall s, In s (flat_map (fun o : option (sym * bool) => match o with Some (s, _) => [s] | None => [] end)
       (fi_nulling_eliminated fi)
     ++ flat_map (fun r : sym * sym * sym => let '(l, r0, r1) := r in [l; r0; r1]) (fi_nulling_intermediate fi)) -> s < nn.
  Proof.
    intros s H. destruct (list_max_opt_le _ _ H) as (m & E & L). unfold nulling_symbol_count, max_nulling_symbol.
    rewrite E. unfold sym in *. lia.
  Qed.
  Lemma eliminated_range : forall d s dir, nth_error (fi_nulling_eliminated fi) d = Some (Some (s, dir)) -> s < nn.
  Proof.
    intros d s dir H. apply max_le. apply in_or_app. left. apply in_flat_map. exists (Some (s, dir)).
    split; [eapply nth_error_In; eauto|now left].
  Qed.
  Lemma intermediate_range : forall l a b, In (l, a, b) (fi_nulling_intermediate fi) -> l < nn /\ a < nn /\ b < nn.
  Proof.
    intros l a b H.
    assert (G : forall x, In x [l; a; b] -> x < nn).
    { intros x Hx. apply max_le. apply in_or_app. right. apply in_flat_map. exists (l, a, b). auto. }
    split; [|split]; apply G; cbn; auto.
  Qed.
End Range.

(** ** The graph of a new bocage *)
Definition rhs_step (o : option (sym * sym)) (s : sym) (r : sym * sym * sym) : option (sym * sym) :=
  let '(lhs, a, b) := r in if lhs =? s then Some (a, b) else o.

Definition nulling_at (g : list snode) (s : sym) (o : option (sym * sym)) : Prop :=
  match o with
  | None => nth_error g s = Some (SNulling s)
  | Some (a, b) => exists f, nth_error g s = Some (SProduct None f) /\ nth_error g f = Some (SRule a b)
  end.

Lemma nulling_fold : forall nn rs g (cur : sym -> option (sym * sym)), nn <= length g ->
  Forall (fun r : sym * sym * sym => fst (fst r) < nn) rs ->
  (forall s, s < nn -> match cur s with
     | None => nth_error g s = Some (SNulling s)
     | Some (a, b) => exists f, nn <= f /\ nth_error g s = Some (SProduct None f) /\ nth_error g f = Some (SRule a b)
     end) ->
  exists g', foldM nulling_rule rs g = Ret g' /\ nn <= length g' /\
    forall s, s < nn -> match fold_left (fun o r => rhs_step o s r) rs (cur s) with
     | None => nth_error g' s = Some (SNulling s)
     | Some (a, b) => exists f, nn <= f /\ nth_error g' s = Some (SProduct None f) /\ nth_error g' f = Some (SRule a b)
     end.
Proof.
  intros nn rs. induction rs as [|[[lhs a] b] rs IH]; intros g cur Hn Hrs Hcur.
  - exists g. auto.
  - inversion Hrs as [|? ? Hl Hr]; subst. cbn in Hl. cbn [foldM].
    unfold nulling_rule at 1. cbn zeta. rewrite app_length. cbn [length].
    replace (length g + 1 - 1) with (length g) by lia. unfold upd. rewrite app_length. cbn [length].
    rewrite (proj2 (Nat.ltb_lt _ _)) by (unfold sym in *; lia). cbn [bind].
    set (g1 := set_nth _ _ _).
    assert (L1 : length g1 = length g + 1) by (unfold g1; rewrite set_nth_length, app_length; reflexivity).
    assert (Old : forall i, i <> lhs -> i < length g -> nth_error g1 i = nth_error g i).
    { intros i H1 H2. unfold g1. rewrite nth_set. destruct (i =? lhs) eqn:X; [apply Nat.eqb_eq in X; congruence|].
      now rewrite nth_error_app1. }
    assert (At : nth_error g1 lhs = Some (SProduct None (length g))).
    { unfold g1. rewrite nth_set, Nat.eqb_refl, app_length. rewrite (proj2 (Nat.ltb_lt _ _)) by (cbn; unfold sym in *; lia). reflexivity. }
    assert (New : nth_error g1 (length g) = Some (SRule a b)).
    { unfold g1. rewrite nth_set. destruct (length g =? lhs) eqn:X; [apply Nat.eqb_eq in X; unfold sym in *; lia|].
      rewrite nth_error_app2, Nat.sub_diag by lia. reflexivity. }
    destruct (IH g1 (fun s => rhs_step (cur s) s (lhs, a, b))) as (g' & E & L & H).
    + lia.
    + auto.
    + intros s Hs. cbn [rhs_step]. destruct (lhs =? s) eqn:X.
      * apply Nat.eqb_eq in X. subst s. exists (length g). auto.
      * apply Nat.eqb_neq in X. specialize (Hcur s Hs). destruct (cur s) as [[a' b']|].
        -- destruct Hcur as (f & Hf & E1 & E2). exists f. split; [auto|].
           assert (f < length g) by (apply nth_error_Some; congruence).
           rewrite !Old by (unfold sym in *; lia). auto.
        -- rewrite Old by (unfold sym in *; lia). auto.
    + exists g'. auto.
Qed.

Lemma fold_left_ext : forall A B (f h : A -> B -> A) l a, (forall x y, f x y = h x y) -> fold_left f l a = fold_left h l a.
Proof. intros A B f h l. induction l; intros; cbn; auto. rewrite H. auto. Qed.

Theorem bocage_new_spec : forall fi, (N.of_nat (nulling_symbol_count fi) < 1048576)%N ->
  exists b, bocage_new fi = Ret b /\ b_info b = fi /\ b_count b = 0 /\
    nulling_symbol_count fi + 1 <= length (b_graph b) /\
    forall s, s < nulling_symbol_count fi + 1 -> nulling_at (b_graph b) s (nulled_rhs fi s).
Proof.
  intros fi Hlim. unfold bocage_new. rewrite (proj2 (N.ltb_lt _ _) Hlim). cbn [assert bind]. cbn zeta.
  set (nn := nulling_symbol_count fi + 1).
  destruct (nulling_fold nn (fi_nulling_intermediate fi) (map SNulling (seq 0 nn)) (fun _ => None)) as (g & E & L & H).
  - rewrite map_length, seq_length. lia.
  - apply Forall_forall. intros [[l a] b] Hr. cbn. now apply intermediate_range in Hr.
  - intros s Hs. rewrite nth_error_map, (nth_error_nth' _ 0) by (rewrite seq_length; lia). rewrite seq_nth by auto. reflexivity.
  - rewrite E. cbn [bind]. eexists. split; [reflexivity|]. cbn. split; [auto|]. split; [auto|]. split; [auto|].
    intros s Hs. specialize (H s Hs). unfold nulled_rhs, nulling_at.
    rewrite (fold_left_ext _ _ (fun o r => rhs_step o s r)
      (fun (o : option (sym * sym)) (r : sym * sym * sym) => let '(lhs, a, b) := r in if lhs =? s then Some (a, b) else o)) in H.
    2:{ intros o [[l a] b]. reflexivity. }
    destruct (fold_left _ _ _) as [[a b]|]; auto.
    destruct H as (f & _ & H1 & H2). eauto.
Qed.

Lemma nulled_rhs_in : forall fi s a b, nulled_rhs fi s = Some (a, b) -> In (s, a, b) (fi_nulling_intermediate fi).
Proof.
  intros fi s a b. unfold nulled_rhs.
  assert (G : forall l o, fold_left (fun (o : option (sym * sym)) (r : sym * sym * sym) => let '(lhs, a, b) := r in if lhs =? s then Some (a, b) else o) l o = Some (a, b) ->
     o = Some (a, b) \/ In (s, a, b) l).
  { induction l as [|[[l' a'] b'] l IH]; intros o H; cbn in *; auto.
    apply IH in H. destruct H as [H|H]; [|auto]. destruct (l' =? s) eqn:X; [|auto].
    apply Nat.eqb_eq in X. injection H as -> ->. subst. auto. }
  intros H. destruct (G _ _ H) as [X|X]; [discriminate|auto].
Qed.

Section Value.
  Context {E : Type}.
  Variable ev : evaluator E.
  Variable fi : forest_info.
  Variable nv : sym -> E.
  Variable nulls : sym -> list E.
  Hypothesis Hnulls : nulls_ok fi nv nulls.
  Notation nn := (nulling_symbol_count fi + 1).
  Notation gev := (gev ev fi nv).

  (** ** Larger bounds and larger graphs *)
  Lemma gev_up : forall g g', (forall i nd, nth_error g i = Some nd -> nth_error g' i = Some nd) ->
    forall n m h vs, n <= m -> gev n g h = Some vs -> gev m g' h = Some vs.
  Proof.
    intros g g' Hg n. induction n as [n IH] using lt_wf_ind. intros m h vs Hm H.
    destruct n as [|n]; [discriminate|]. destruct m as [|m]; [lia|].
    cbn [SimpleEval.gev] in *. destruct (nth_error g h) as [nd|] eqn:Eh; [|discriminate]. rewrite (Hg _ _ Eh).
    destruct nd as [s k|a f|l r|s v|s]; auto.
    - eapply osum_mono; [|exact H]. cbn. intros i v. apply IH; lia.
    - destruct (nth_error g f) as [fn|] eqn:Ef; [|discriminate]. rewrite (Hg _ _ Ef).
      destruct (if is_rule fn then Some None else elim_of fi a) as [[[s dir]|]|]; [| |discriminate].
      + destruct n as [|n]; [discriminate|]. destruct m as [|m]; [lia|].
        assert (X : forall x vs, gev n g x = Some vs -> gev m g' x = Some vs) by (intros x us; apply IH; lia).
        destruct dir.
        * destruct (oapp (gev n g f) (gev n g s)) as [args|] eqn:Ea; [|discriminate].
          rewrite (oapp_mono _ (gev m g' f) _ (gev m g' s) _ (X f) (X s) Ea). exact H.
        * destruct (oapp (gev n g s) (gev n g f)) as [args|] eqn:Ea; [|discriminate].
          rewrite (oapp_mono _ (gev m g' s) _ (gev m g' f) _ (X s) (X f) Ea). exact H.
      + destruct (gev n g f) as [args|] eqn:Ea; [|discriminate]. rewrite (IH n ltac:(lia) m f args ltac:(lia) Ea). exact H.
    - eapply oapp_mono; [| |exact H]; intros v; apply IH; lia.
  Qed.

  Lemma gev_up_n : forall g n m h vs, n <= m -> gev n g h = Some vs -> gev m g h = Some vs.
  Proof. intros g n m h vs. apply gev_up. auto. Qed.

  (** ** Nulling handles *)
  Lemma nulling_value : forall g, nulling_acyclic fi ->
    (forall s, s < nn -> nulling_at g s (nulled_rhs fi s)) ->
    forall s, s < nn -> exists n, gev n g s = Some (nulls s).
  Proof.
    intros g (rank & Hrank) Hg s. remember (rank s) as k eqn:Ek. revert s Ek.
    induction k as [k IH] using lt_wf_ind. intros s -> Hs. specialize (Hg s Hs) as At.
    rewrite (Hnulls s). unfold nulling_at in At. destruct (nulled_rhs fi s) as [[a b]|] eqn:Er.
    - destruct At as (f & E1 & E2). apply nulled_rhs_in in Er. destruct (Hrank _ _ _ Er) as [Ra Rb].
      destruct (intermediate_range _ _ _ _ Er) as (_ & La & Lb).
      destruct (IH (rank a) Ra a eq_refl La) as [n1 H1]. destruct (IH (rank b) Rb b eq_refl Lb) as [n2 H2].
      exists (S (S (n1 + n2))). cbn [SimpleEval.gev]. rewrite E1, E2. cbn [is_rule].
      rewrite (gev_up_n g n1 (n1 + n2) a _ ltac:(lia) H1), (gev_up_n g n2 (n1 + n2) b _ ltac:(lia) H2). reflexivity.
    - exists 1. cbn [SimpleEval.gev]. now rewrite At.
  Qed.

  (** ** The value of a free node *)
  Definition alt_value (d : nat) (prod : bool) (args : list E) : list E :=
    reduce ev fi d (if prod then args else restore fi nulls d args).
  Definition rotate {A} (l : list A) : list A := match l with [] => [] | a :: l => l ++ [a] end.
  Fixpoint fev (T : fnode) : list E :=
    match T with
    | FLeaf s v => [ev_leaf ev s v]
    | FNull s => nulls s
    | FProd l r => fev l ++ fev r
    | FSum s alts => concat (rotate (map (fun a => alt_value (fst a) (is_fprod (snd a)) (fev (snd a))) alts))
    end.

  Fixpoint fok (T : fnode) : Prop :=
    match T with
    | FLeaf _ _ => True
    | FNull s => s < nn
    | FProd l r => fok l /\ fok r
    | FSum s alts => alts <> [] /\
        (fix go l := match l with
                     | [] => True
                     | a :: l => (fok (snd a) /\ (is_fprod (snd a) = false -> fst a < length (fi_nulling_eliminated fi))) /\ go l
                     end) alts
    end.
  Lemma fok_sum : forall s alts, fok (FSum s alts) <-> alts <> [] /\
    Forall (fun a => fok (snd a) /\ (is_fprod (snd a) = false -> fst a < length (fi_nulling_eliminated fi))) alts.
  Proof.
    intros s alts. cbn [fok]. generalize (alts <> []) as X. intros X. split; intros [H1 H2]; (split; [auto|]); clear H1.
    - induction alts; constructor; [apply H2|apply IHalts, H2].
    - induction H2; auto.
  Qed.

  Section Rep.
    Variable g : list snode.
    Hypothesis Hnull : forall s, s < nn -> exists n, gev n g s = Some (nulls s).

    Lemma srep_is_rule : forall T h, srep g T h -> (forall s, T <> FNull s) ->
      exists nd, nth_error g h = Some nd /\ is_rule nd = is_fprod T.
    Proof.
      intros T h H HN. destruct T as [s v|s|l r|s alts].
      - cbn in H. eauto.
      - now elim (HN s).
      - cbn in H. destruct H as (a & b & H & _). eauto.
      - apply srep_sum in H. destruct H as [H1 H2]. destruct alts as [|a1 [|a2 rest]].
        + rewrite H1 by discriminate. eauto.
        + cbn [length places] in H2. inversion H2 as [|? ? ? ? X Y]; subst. destruct X as (f & X & _). eauto.
        + rewrite H1 by discriminate. eauto.
    Qed.

    Lemma null_is_rule : forall s, s < nn -> nulling_at g s (nulled_rhs fi s) ->
      exists nd, nth_error g s = Some nd /\ is_rule nd = false.
    Proof.
      intros s Hs H. unfold nulling_at in H. destruct (nulled_rhs fi s) as [[a b]|].
      - destruct H as (f & H & _). eauto.
      - eauto.
    Qed.

    Hypothesis Hat : forall s, s < nn -> nulling_at g s (nulled_rhs fi s).

    Lemma srep_rule : forall T h, srep g T h -> fok T -> exists nd, nth_error g h = Some nd /\ is_rule nd = is_fprod T.
    Proof.
      intros T h H Hf. destruct T as [s v|s|l r|s alts]; try (apply srep_is_rule; [exact H|discriminate]).
      cbn in *. subst h. now apply null_is_rule; auto.
    Qed.

    Lemma wrap_reduce : forall d args, wrap ev fi (Some d) args = reduce ev fi d args.
    Proof.
      intros d args. unfold wrap, reduce, origin_of. destruct (fi_external_origin fi d) as [[id|]|]; reflexivity.
    Qed.

    Lemma concat_snoc : forall A (l : list (list A)) x, concat (l ++ [x]) = concat l ++ x.
    Proof. intros. rewrite concat_app. cbn. now rewrite app_nil_r. Qed.

    Lemma osum_some : forall A (f : A -> option (list E)) l vs, Forall2 (fun a v => f a = Some v) l vs ->
      osum (map f l) = Some (concat vs).
    Proof.
      intros A f l vs H. induction H as [|a v l vs Ha _ IH]; cbn; auto.
      change (osum (map f l)) with (fold_right oapp (Some []) (map f l)) in IH. rewrite Ha, IH. reflexivity.
    Qed.

    Lemma map_shift : forall A (f : nat -> A) h m z, map f (seq (z + (h + 1)) m) = map (fun i => f (h + i + 1)) (seq z m).
    Proof.
      intros A f h m. induction m as [|m IHm]; intros z; cbn [seq map]; auto. f_equal; [f_equal; lia|].
      apply (IHm (S z)).
    Qed.

    Theorem srep_value : forall T h, srep g T h -> fok T -> exists n, gev n g h = Some (fev T).
    Proof.
      intros T. induction T as [s v|s|l r IHl IHr|s alts IH] using fnode_ind2; intros h H Hf.
      - exists 1. cbn in *. now rewrite H.
      - cbn in *. subst h. auto.
      - cbn [srep fok] in *. destruct H as (a & b & E0 & H1 & H2). destruct Hf as [F1 F2].
        destruct (IHl _ H1 F1) as [n1 G1]. destruct (IHr _ H2 F2) as [n2 G2].
        exists (S (n1 + n2)). cbn [SimpleEval.gev fev]. rewrite E0.
        rewrite (gev_up_n g n1 (n1 + n2) a _ ltac:(lia) G1), (gev_up_n g n2 (n1 + n2) b _ ltac:(lia) G2). reflexivity.
      - apply srep_sum in H. apply fok_sum in Hf. destruct H as [Hs HF], Hf as [Hne Hok].
        assert (Alts : exists n, Forall2 (fun a i => gev n g i = Some (alt_value (fst a) (is_fprod (snd a)) (fev (snd a))))
                  alts (places h (length alts))).
        { revert HF. generalize (places h (length alts)) as hs. clear Hs Hne. revert Hok.
          induction IH as [|[d T] alts HT _ IHa]; intros Hok hs HF; inversion HF as [|? i ? hs' X Y]; subst.
          - exists 0. constructor.
          - inversion Hok as [|? ? [O1 O2] Or]; subst. cbn [fst snd] in *.
            destruct (IHa Or hs' Y) as [n1 G1]. destruct X as (f & Ei & Hf). cbn [fst snd] in *.
            destruct (HT f Hf O1) as [n2 G2]. destruct (srep_rule T f Hf O1) as (nd & En & Er).
            assert (One : exists n, gev n g i = Some (alt_value d (is_fprod T) (fev T))).
            { unfold alt_value. rewrite <- wrap_reduce. destruct (is_fprod T) eqn:Ep.
              - exists (S n2). cbn [SimpleEval.gev]. rewrite Ei, En, Er. now rewrite G2.
              - specialize (O2 eq_refl).
                destruct (nth_error (fi_nulling_eliminated fi) d) as [o|] eqn:Ee; [|apply nth_error_None in Ee; lia].
                unfold restore. rewrite Ee. destruct o as [[s0 dir]|].
                + destruct (Hnull s0 (eliminated_range fi _ _ _ Ee)) as [n3 G3].
                  exists (S (S (n2 + n3))). cbn [SimpleEval.gev]. rewrite Ei, En, Er. cbn [elim_of]. rewrite Ee.
                  rewrite (gev_up_n g n2 (n2 + n3) f _ ltac:(lia) G2), (gev_up_n g n3 (n2 + n3) s0 _ ltac:(lia) G3).
                  destruct dir; reflexivity.
                + exists (S n2). cbn [SimpleEval.gev]. rewrite Ei, En, Er. cbn [elim_of]. rewrite Ee, G2. reflexivity. }
            destruct One as [n3 G3]. exists (n1 + n3). constructor.
            + cbn [fst snd]. eapply gev_up_n; [|exact G3]. lia.
            + eapply Forall2_impl2; [|exact G1]. cbn. intros a j. apply gev_up_n. lia. }
        destruct Alts as [n Alts].
        destruct alts as [|a1 [|a2 rest]].
        + congruence.
        + cbn [length places] in Alts. inversion Alts as [|? ? ? ? X Y]; subst. exists n. rewrite X.
          cbn [fev map rotate app concat]. now rewrite app_nil_r.
        + exists (S n). cbn [SimpleEval.gev]. rewrite Hs by discriminate.
          cbn [length] in Alts |- *. set (k := length rest) in *.
          change (places h (S (S k))) with ((h + S (S k)) :: seq (h + 1) (S k)) in Alts.
          inversion Alts as [|? ? ? ? X Y]; subst.
          replace (map (fun i => gev n g (h + i + 1)) (seq 0 (S (S k)))) with (map (gev n g) (seq (h + 1) (S k) ++ [h + S (S k)])).
          2:{ replace (seq (h + 1) (S k) ++ [h + S (S k)]) with (seq (h + 1) (S (S k))).
              - exact (map_shift _ (gev n g) h (S (S k)) 0).
              - rewrite (seq_S (S k)). f_equal. f_equal. lia. }
          cbn [fev rotate map]. apply osum_some. apply Forall2_app; [|constructor; [auto|constructor]].
          change (h + 1 :: seq (S (h + 1)) k) with (seq (h + 1) (S k)) in Y. revert Y. generalize (seq (h + 1) (S k)) as l. change (alt_value (fst a2) (is_fprod (snd a2)) (fev (snd a2)) ::
             map (fun a => alt_value (fst a) (is_fprod (snd a)) (fev (snd a))) rest) with
             (map (fun a => alt_value (fst a) (is_fprod (snd a)) (fev (snd a))) (a2 :: rest)).
          generalize (a2 :: rest) as q. clear. intros q l Y. induction Y; cbn; constructor; auto.
    Qed.
  End Rep.
End Value.

