(** Reuse: evaluation and building in any order.  Evaluation stores nulled symbols into
    the products it visits ([urep] allows for that), and this does not disturb what is
    built later. *)
From Coq Require Import List Arith Bool Lia NArith.
From Verif Require Import Base BaseProofs TablesProofs Item Grammar Forest ForestSpec Spec Den Sim SimpleBocage EvalSpec SimpleEval
  SimpleProofs SimpleValue ForestProg ForestValue SimpleTop ReuseSpec.
Import ListNotations.
Local Open Scope res_scope.

(** [f'] is the factor of an alternative of rule [d] whose product has the factor [f]: the
    same, or [f] was stored when the nulled symbol of the rule was restored *)
Definition stored (fi : forest_info) (g : list snode) (d : nat) (T : fnode) (f f' : nat) : Prop :=
  f' = f \/
  (is_fprod T = false /\ exists s (dir : bool), nth_error (fi_nulling_eliminated fi) d = Some (Some (s, dir)) /\
     nth_error g f = Some (if dir then SRule f' s else SRule s f')).

Fixpoint urep (fi : forest_info) (g : list snode) (T : fnode) (h : nat) {struct T} : Prop :=
  match T with
  | FLeaf s v => nth_error g h = Some (SLeaf s v)
  | FNull s => h = s
  | FProd l r => exists a b, nth_error g h = Some (SRule a b) /\ urep fi g l a /\ urep fi g r b
  | FSum s alts =>
      (length alts <> 1 -> nth_error g h = Some (SSum s (length alts))) /\
      (fix go (alts : list (nat * fnode)) (hs : list nat) : Prop :=
         match alts, hs with
         | [], [] => True
         | (d, T) :: alts, i :: hs =>
             (exists f f', nth_error g i = Some (SProduct (Some d) f) /\ stored fi g d T f f' /\ urep fi g T f') /\ go alts hs
         | _, _ => False
         end) alts (places h (length alts))
  end.

Definition ualt (fi : forest_info) (g : list snode) (a : nat * fnode) (i : nat) : Prop :=
  exists f f', nth_error g i = Some (SProduct (Some (fst a)) f) /\ stored fi g (fst a) (snd a) f f' /\ urep fi g (snd a) f'.

Lemma urep_sum : forall fi g s alts h, urep fi g (FSum s alts) h <->
  (length alts <> 1 -> nth_error g h = Some (SSum s (length alts))) /\
  Forall2 (ualt fi g) alts (places h (length alts)).
Proof.
  intros fi g s alts h. cbn [urep].
  generalize (places h (length alts)) as hs. generalize (length alts <> 1 -> nth_error g h = Some (SSum s (length alts))) as X.
  intros X hs. split; intros [H1 H2]; (split; [exact H1|]); clear H1 X; revert hs H2.
  - induction alts as [|[d T] alts IH]; intros [|i hs] H; try contradiction; constructor.
    + exact (proj1 H).
    + apply IH. exact (proj2 H).
  - induction alts as [|[d T] alts IH]; intros hs H; inversion H as [|? i ? hs' X Y]; subst; auto.
    split; [exact X|]. now apply IH.
Qed.

Lemma urep_mono : forall fi g g', (forall i nd, nth_error g i = Some nd -> nth_error g' i = Some nd) ->
  forall T h, urep fi g T h -> urep fi g' T h.
Proof.
  intros fi g g' Hg T. induction T as [s v|s|l r IHl IHr|s alts IH] using fnode_ind2; intros h H.
  - cbn in *. auto.
  - exact H.
  - cbn in *. destruct H as (a & b & E & H1 & H2). exists a, b. auto.
  - apply urep_sum in H. apply urep_sum. destruct H as [H1 H2]. split; [auto|].
    revert H2. generalize (places h (length alts)). clear H1. induction IH as [|a alts Ha _ IHa]; intros hs H2;
      inversion H2 as [|? i ? hs' X Y]; subst; constructor; auto.
    destruct X as (f & f' & E & S & X). exists f, f'. split; [auto|]. split; [|auto].
    destruct S as [->|(S1 & s0 & dir & S2 & S3)]; [now left|]. right. split; [auto|]. exists s0, dir. auto.
Qed.

(** what [urep] says about the node of [T] *)
Lemma urep_node : forall fi g T h nd, urep fi g T h -> nth_error g h = Some nd -> is_fprod T = true -> is_rule nd = true.
Proof.
  intros fi g T h nd H Hn Hp. destruct T; try discriminate. cbn in H. destruct H as (a & b & E & _).
  rewrite E in Hn. now injection Hn as <-.
Qed.

(** restoring a nulled symbol keeps every node *)
Lemma store_urep : forall fi g h d f fn s (dir : bool), nth_error g h = Some (SProduct (Some d) f) ->
  nth_error g f = Some fn -> is_rule fn = false -> nth_error (fi_nulling_eliminated fi) d = Some (Some (s, dir)) ->
  let g' := set_nth (g ++ [if dir then SRule f s else SRule s f]) h (SProduct (Some d) (length g)) in
  (forall T i, urep fi g T i -> urep fi g' T i) /\
  (forall i nd, i <> h -> nth_error g i = Some nd -> nth_error g' i = Some nd).
Proof.
  intros fi g h d f fn s dir Hh Hf Hr He g'.
  assert (Lh : h < length g) by (apply nth_error_Some; congruence).
  assert (Other : forall i nd, i <> h -> nth_error g i = Some nd -> nth_error g' i = Some nd).
  { intros i nd Hi Hn. assert (i < length g) by (apply nth_error_Some; congruence). unfold g'. rewrite nth_set.
    destruct (i =? h) eqn:X; [apply Nat.eqb_eq in X; lia|]. now rewrite nth_error_app1. }
  assert (At : nth_error g' h = Some (SProduct (Some d) (length g))).
  { unfold g'. rewrite nth_set, Nat.eqb_refl, app_length.
    rewrite (proj2 (Nat.ltb_lt _ _)) by (cbn; lia). reflexivity. }
  assert (New : nth_error g' (length g) = Some (if dir then SRule f s else SRule s f)).
  { unfold g'. rewrite nth_set. destruct (length g =? h) eqn:X; [apply Nat.eqb_eq in X; lia|].
    rewrite nth_error_app2, Nat.sub_diag by lia. reflexivity. }
  assert (Keep : forall i nd, nth_error g i = Some nd -> (forall a x, nd <> SProduct a x) -> nth_error g' i = Some nd).
  { intros i nd Hn Hne. apply Other; [|auto]. intros ->. rewrite Hh in Hn. injection Hn as <-. now elim (Hne (Some d) f). }
  split; [|exact Other].
  intros T. induction T as [s0 v|s0|l r IHl IHr|s0 alts IH] using fnode_ind2; intros i H.
  - cbn in *. apply Keep; [auto|discriminate].
  - exact H.
  - cbn in *. destruct H as (a & b & E & H1 & H2). exists a, b. split; [apply Keep; [auto|discriminate]|auto].
  - apply urep_sum in H. apply urep_sum. destruct H as [H1 H2]. split; [intros Hl; apply Keep; [auto|discriminate]|].
    revert H2. generalize (places i (length alts)). clear H1. induction IH as [|[d1 T1] alts Ha _ IHa]; intros hs H2;
      inversion H2 as [|? j ? hs' X Y]; subst; constructor; auto.
    destruct X as (f1 & f1' & E & S & X). cbn [fst snd] in *. specialize (Ha _ X).
    destruct (Nat.eq_dec j h) as [->|Hne].
    + rewrite Hh in E. injection E as <- <-. exists (length g), f1'. cbn [fst snd]. split; [exact At|]. split; [|auto]. right.
      destruct S as [->|(S1 & s1 & dir1 & S2 & S3)].
      * split.
        -- destruct (is_fprod T1) eqn:Ep; [|auto]. rewrite (urep_node _ _ _ _ _ X Hf Ep) in Hr. discriminate.
        -- exists s, dir. split; [auto|]. exact New.
      * rewrite S3 in Hf. injection Hf as <-. destruct dir1; discriminate.
    + exists f1, f1'. cbn [fst snd]. split; [now apply Other|]. split; [|auto].
      destruct S as [->|(S1 & s1 & dir1 & S2 & S3)]; [now left|]. right. split; [auto|]. exists s1, dir1. split; [auto|].
      apply Keep; [auto|]. destruct dir1; discriminate.
Qed.

(** ** Evaluation keeps every node *)
Definition kept (fi : forest_info) (b b' : bocage) : Prop :=
  b_info b' = b_info b /\ b_count b' = b_count b /\
  (forall T h, urep fi (b_graph b) T h -> urep fi (b_graph b') T h) /\
  (forall s o, nulling_at (b_graph b) s o -> nulling_at (b_graph b') s o).

Lemma kept_refl : forall fi b, kept fi b b.
Proof. intros. repeat split; auto. Qed.
Lemma kept_trans : forall fi a b c, kept fi a b -> kept fi b c -> kept fi a c.
Proof. intros fi a b c (A1 & A2 & A3 & A4) (B1 & B2 & B3 & B4). repeat split; try congruence; auto. Qed.

Lemma post_kept : forall fi b h b', b_info b = fi ->
  (node <- idx (b_graph b) h ;;
   '(node', b) <- postprocess node b ;;
   g <- upd (b_graph b) h node' ;;
   Ret (with_graph b g)) = Ret b' -> kept fi b b'.
Proof.
  intros fi b h b' Hi H. destruct (nth_error (b_graph b) h) as [nd|] eqn:Eh; [|unfold idx in H; rewrite Eh in H; discriminate].
  assert (Lh : h < length (b_graph b)) by (apply nth_error_Some; congruence).
  rewrite (idx_some _ _ _ _ Eh) in H. cbn [bind] in H.
  assert (Same : (g <- upd (b_graph b) h nd ;; Ret (with_graph b g)) = Ret b' -> kept fi b b').
  { unfold upd. rewrite (proj2 (Nat.ltb_lt _ _) Lh). cbn [bind]. rewrite (set_nth_id _ _ _ _ Eh), with_graph_id.
    intros X. injection X as <-. apply kept_refl. }
  destruct nd as [s k|a f|l r|s v|s]; cbn [postprocess bind] in H; auto.
  destruct (nth_error (b_graph b) f) as [fn|] eqn:Ef; [|unfold idx in H; rewrite Ef in H; discriminate].
  rewrite (idx_some _ _ _ _ Ef) in H. cbn [bind] in H.
  destruct (is_rule fn) eqn:Er; [destruct fn; try discriminate; cbn [bind] in H; auto|].
  destruct a as [d|]; [|destruct fn; try discriminate; cbn [bind] in H; auto].
  assert (H' : ('(node', b) <- (e <- idx (fi_nulling_eliminated (b_info b)) d ;;
              match e with
              | Some (s, dir) =>
                  let '(l, r) := if dir : bool then (f, s) else (s, f) in
                  '(rule, b) <- b_product l r b ;;
                  Ret (SProduct (Some d) rule, b)
              | None => Ret (SProduct (Some d) f, b)
              end) ;; g <- upd (b_graph b) h node' ;; Ret (with_graph b g)) = Ret b').
  { destruct fn; try discriminate; exact H. }
  clear H. rewrite Hi in H'. destruct (nth_error (fi_nulling_eliminated fi) d) as [e|] eqn:Ee; [|unfold idx in H'; rewrite Ee in H'; discriminate].
  rewrite (idx_some _ _ _ _ Ee) in H'. cbn [bind] in H'. destruct e as [[s dir]|]; [|cbn [bind] in H'; auto].
  destruct (store_urep fi (b_graph b) h d f fn s dir Eh Ef Er Ee) as [Keep Other].
  assert (X : b' = with_graph b (set_nth (b_graph b ++ [if dir then SRule f s else SRule s f]) h (SProduct (Some d) (length (b_graph b))))).
  { destruct dir; unfold b_product in H'; cbn [bind b_graph with_graph] in H'; rewrite app_length in H'; cbn [length] in H';
      replace (length (b_graph b) + 1 - 1) with (length (b_graph b)) in H' by lia; unfold upd in H';
      rewrite (proj2 (Nat.ltb_lt _ _)) in H' by (rewrite app_length; cbn; lia); cbn [bind] in H'; injection H' as <-; reflexivity. }
  subst b'. split; [reflexivity|]. split; [reflexivity|]. cbn [b_graph with_graph]. split; [exact Keep|].
  intros s0 o Hn. unfold nulling_at in *. destruct o as [[x y]|].
  - destruct Hn as (f0 & A & B). exists f0. split; apply Other; auto; intros ->; congruence.
  - apply Other; auto. intros ->. rewrite Eh in Hn. discriminate.
Qed.

Section Eval.
  Context {E : Type}.
  Variable ev : evaluator E.
  Variable fi : forest_info.


  Lemma step_kept : forall b rs S b' rs' S', b_info b = fi -> eval_step ev (b, rs, S) = Ret (b', rs', S') -> kept fi b b'.
  Proof.
    intros b rs S b' rs' S' Hi H. unfold eval_step in H. destruct (pop_last S) as [[S0 w]|]; cbn [unwrap bind] in H; [|discriminate].
    match type of H with (bind ?x _ = _) => destruct x as [b1| |] eqn:E1; cbn [bind] in H; try discriminate end.
    assert (K : kept fi b b1).
    { destruct (w_child w =? 0); [now apply (post_kept fi b (w_node w))|]. injection E1 as <-. apply kept_refl. }
    assert (X : b' = b1); [|now subst b']. clear E1 K Hi.
    destruct (idx (b_graph b1) (w_node w)) as [nd| |]; cbn [bind] in H; try discriminate.
    destruct nd as [s k|a f|l r|s v|s].
    - destruct (w_child w <? k); injection H as <- _ _; reflexivity.
    - destruct (w_child w); [injection H as <- _ _; reflexivity|]. destruct (origin_of (b_info b1) a).
      + destruct (mapM (idx rs) (w_results w)); cbn [bind] in H; try discriminate.
        destruct (give S0 (w_parent w) _); cbn [bind] in H; try discriminate. injection H as <- _ _. reflexivity.
      + destruct (give S0 (w_parent w) _); cbn [bind] in H; try discriminate. injection H as <- _ _. reflexivity.
    - destruct (w_child w) as [|[|]]; injection H as <- _ _; reflexivity.
    - destruct (give S0 (w_parent w) _); cbn [bind] in H; try discriminate. injection H as <- _ _. reflexivity.
    - destruct (give S0 (w_parent w) _); cbn [bind] in H; try discriminate. injection H as <- _ _. reflexivity.
  Qed.

  Lemma loop_kept : forall fuel b rs S b' rs' S', b_info b = fi -> eval_loop ev fuel (b, rs, S) = Ret (b', rs', S') -> kept fi b b'.
  Proof.
    induction fuel as [|fuel IH]; intros b rs S b' rs' S' Hi H; cbn [eval_loop] in H; destruct (1 <? length S).
    - discriminate.
    - injection H as <- _ _. apply kept_refl.
    - destruct (eval_step ev (b, rs, S)) as [[[b1 rs1] S1]| |] eqn:E1; cbn [bind] in H; try discriminate.
      pose proof (step_kept _ _ _ _ _ _ Hi E1) as K. eapply kept_trans; [exact K|]. eapply IH; [|exact H].
      destruct K as [-> _]. exact Hi.
    - injection H as <- _ _. apply kept_refl.
  Qed.

  Theorem evaluate_kept : forall fuel b h vs b', b_info b = fi -> evaluate ev fuel b h = Ret (vs, b') -> kept fi b b'.
  Proof.
    intros fuel b h vs b' Hi H. unfold evaluate in H. destruct (skip_wrapper ev b h) as [[r|vs0]| |]; cbn [bind] in H; try discriminate.
    - destruct (eval_loop ev fuel _) as [[[b1 rs] S]| |] eqn:EL; cbn [bind] in H; try discriminate.
      destruct (idx S 0) as [w| |]; cbn [bind] in H; try discriminate.
      destruct (take_values ev (w_results w) rs) as [us| |]; cbn [bind] in H; try discriminate. injection H as _ <-.
      eapply loop_kept; eauto.
    - injection H as _ <-. apply kept_refl.
  Qed.
End Eval.

(** ** Simulation *)
Section SimU.
  Variable fi : forest_info.
  Variable old : list (fnode * nat).     (* nodes made before *)
  Notation nn := (nulling_symbol_count fi + 1).

  Definition fine (g : list snode) : Prop :=
    (forall s, s < nn -> nulling_at g s (nulled_rhs fi s)) /\ (forall T h, In (T, h) old -> urep fi g T h).

  Lemma fine_mono : forall g g', (forall i nd, nth_error g i = Some nd -> nth_error g' i = Some nd) -> fine g -> fine g'.
  Proof.
    intros g g' H [F1 F2]. split.
    - intros s Hs. specialize (F1 s Hs). unfold nulling_at in *. destruct (nulled_rhs fi s) as [[a b]|]; [|auto].
      destruct F1 as (f & A & B). eauto.
    - intros T h Hi. eapply urep_mono; eauto.
  Qed.

  Definition uJ (ph : phase) (p : list (nat * fnode)) (b : bocage) : Prop :=
    b_info b = fi /\ fine (done b) /\
    match ph with
    | Idle => b_count b = 0
    | Summing ne => (ne = true -> p <> []) /\ b_count b = length p /\ length p <= length (b_graph b) /\
        Forall2 (fun a nd => exists f, nd = SProduct (Some (fst a)) f /\ urep fi (done b) (snd a) f)
          p (skipn (length (b_graph b) - b_count b) (b_graph b))
    end.
  Definition uQ (p : list (nat * fnode)) (b : bocage) (T : fnode) (h : nat) : Prop := urep fi (done b) T h.

  Lemma used_sim : fsim free_forest simple_forest uJ uQ.
  Proof.
    constructor; cbn [simple_forest free_forest f_begin_sum f_push_summand f_sum f_product f_leaf f_nulling].
    - intros p b (Hi & Hx & Hc). apply rres_ret. split; [|intros ? ?; auto].
      split; [auto|]. split; [auto|]. split; [discriminate|]. rewrite Hc, Nat.sub_0_r, skipn_all. cbn. repeat split; try lia. constructor.
    - intros ne p b i1 i2 (Hi & Hx & _ & Hc & Hl & HF) (Ed & Eo & HQ). apply rres_ret.
      assert (Len : length (b_graph b ++ [SProduct (Some (it_dot i2)) (it_node i2)]) - (b_count b + 1)
        = length (b_graph b) - b_count b) by (rewrite app_length; cbn; lia).
      assert (Done : done (mkBocage (b_graph b ++ [SProduct (Some (it_dot i2)) (it_node i2)]) (b_info b) (b_count b + 1)) = done b).
      { unfold done. cbn [b_graph b_count]. rewrite Len, firstn_app.
        replace (length (b_graph b) - b_count b - length (b_graph b)) with 0 by lia. apply app_nil_r. }
      split; [|intros ? ?; unfold uQ; now rewrite Done].
      split; [auto|]. split; [now rewrite Done|].
      split; [intros _ X; symmetry in X; now apply app_cons_not_nil in X|]. cbn [b_count b_graph].
      split; [rewrite app_length; cbn; lia|]. split; [rewrite !app_length; cbn; lia|].
      rewrite Len, Done. rewrite skipn_app.
      replace (length (b_graph b) - b_count b - length (b_graph b)) with 0 by lia. cbn [skipn].
      apply Forall2_app; [auto|]. repeat constructor. exists (it_node i2). cbn. now rewrite Ed.
    - intros s o p b (Hi & Hx & Hne & Hc & Hl & HF). destruct p as [|a1 rest]; [now elim Hne|]. clear Hne.
      set (g := b_graph b) in *. set (k := length g - b_count b) in *.
      assert (Hg : g = done b ++ skipn k g) by (symmetry; apply firstn_skipn).
      assert (Ld : length (done b) = k) by (unfold done; rewrite firstn_length; fold g k; lia).
      assert (Tail : forall i a, nth_error (a1 :: rest) i = Some a ->
          exists f, nth_error g (k + i) = Some (SProduct (Some (fst a)) f) /\ urep fi (done b) (snd a) f).
      { intros i a Ha. pose proof (Forall2_nth _ _ _ _ _ i HF) as X. rewrite Ha in X.
        destruct (nth_error (skipn k g) i) as [nd|] eqn:En; [|contradiction]. destruct X as (f & -> & X).
        exists f. split; [|auto]. rewrite Hg, nth_error_app2 by lia. rewrite Ld. now replace (k + i - k) with i by lia. }
      unfold b_sum. fold g. destruct rest as [|a2 rest].
      + rewrite Hc. cbn [length]. apply rres_ret. cbn [fst snd].
        destruct (Tail 0 a1 eq_refl) as (f & Ef & Hf). rewrite Nat.add_0_r in Ef.
        assert (Ek : k = length g - 1) by (unfold k; rewrite Hc; reflexivity).
        assert (Up : forall i nd, nth_error (done b) i = Some nd -> nth_error g i = Some nd).
        { intros i nd H. rewrite Hg. now apply app_keeps. }
        split; [|split].
        * split; [auto|]. split; [|reflexivity]. rewrite done_idle by reflexivity. cbn [b_graph].
          eapply fine_mono; [exact Up|exact Hx].
        * intros T h HT. unfold uQ in *. rewrite done_idle by reflexivity. cbn [b_graph]. eapply urep_mono; eauto.
        * unfold uQ. rewrite done_idle by reflexivity. cbn [b_graph].
          rewrite (surjective_pairing a1). apply urep_sum. split; [cbn; congruence|]. cbn [length places].
          constructor; [|constructor]. exists f, f. cbn [fst snd]. rewrite <- Ek. split; [auto|]. split; [now left|]. eapply urep_mono; eauto.
      + rewrite Hc. cbn [length].
        set (n := S (S (length rest))).
        assert (Ek : k = length g - n) by (unfold k; rewrite Hc; reflexivity).
        assert (Hn : n <= length g) by exact Hl.
        rewrite (proj2 (Nat.leb_le _ _)) by lia. cbn [assert bind]. rewrite <- Ek.
        destruct (Tail 0 a1 eq_refl) as (f & Ef & Hf). rewrite Nat.add_0_r in Ef.
        rewrite (idx_some _ _ _ _ Ef). cbn [bind]. unfold upd.
        rewrite (proj2 (Nat.ltb_lt _ _)) by (rewrite app_length; cbn; lia). cbn [bind].
        apply rres_ret. cbn [fst snd].
        set (g' := set_nth _ _ _).
        assert (Get : forall i, i <> k -> i < length g -> nth_error g' i = nth_error g i).
        { intros i Hi1 Hi2. unfold g'. rewrite nth_set. destruct (i =? k) eqn:X; [apply Nat.eqb_eq in X; lia|].
          now rewrite nth_error_app1. }
        assert (Up : forall i nd, nth_error (done b) i = Some nd -> nth_error g' i = Some nd).
        { intros i nd H. assert (i < k) by (rewrite <- Ld; apply nth_error_Some; congruence).
          rewrite Get by lia. rewrite Hg. now apply app_keeps. }
        assert (At : nth_error g' k = Some (SSum s n)).
        { unfold g'. rewrite nth_set, Nat.eqb_refl. rewrite (proj2 (Nat.ltb_lt _ _)) by (rewrite app_length; cbn; lia). reflexivity. }
        assert (Last : nth_error g' (k + n) = Some (SProduct (Some (fst a1)) f)).
        { unfold g'. rewrite nth_set. destruct (k + n =? k) eqn:X; [apply Nat.eqb_eq in X; lia|].
          rewrite nth_error_app2 by lia. replace (k + n - length g) with 0 by lia. reflexivity. }
        split; [|split].
        * split; [auto|]. split; [|reflexivity]. rewrite done_idle by reflexivity. cbn [b_graph].
          eapply fine_mono; [exact Up|exact Hx].
        * intros T h HT. unfold uQ in *. rewrite done_idle by reflexivity. cbn [b_graph]. eapply urep_mono; eauto.
        * unfold uQ. rewrite done_idle by reflexivity. cbn [b_graph].
          apply urep_sum. split; [intros _; exact At|].
          change (length (a1 :: a2 :: rest)) with n.
          change (places k n) with ((k + n) :: seq (k + 1) (n - 1)).
          constructor. { exists f, f. split; [exact Last|]. split; [now left|]. eapply urep_mono; eauto. }
          assert (G : forall l j, (forall i a, nth_error l i = Some a -> nth_error (a1 :: a2 :: rest) (j + i) = Some a) -> 0 < j ->
             Forall2 (ualt fi g') l (seq (k + j) (length l))).
          { induction l as [|a l IH]; intros j Hl0 Hj; cbn [length seq]; constructor.
            - assert (Ha : nth_error (a1 :: a2 :: rest) j = Some a).
              { replace j with (j + 0) by lia. now apply Hl0. }
              destruct (Tail _ _ Ha) as (f' & Ef' & Hf').
              exists f', f'. rewrite Get.
              + split; [auto|]. split; [now left|]. eapply urep_mono; eauto.
              + lia.
              + apply nth_error_Some. congruence.
            - replace (S (k + j)) with (k + S j) by lia. apply IH; [|lia].
              intros i a' Ha'. replace (S j + i) with (j + S i) by lia. now apply Hl0. }
          replace (n - 1) with (length (a2 :: rest)) by (cbn; lia). apply G; [|lia]. intros i a Ha. exact Ha.
    - intros l1 l2 r1 r2 p b (Hi & Hx & Hc) Hl Hr. unfold b_product. apply rres_ret. cbn [fst snd].
      unfold uQ, grows, uJ in *. rewrite !done_idle in * by auto. cbn [b_info with_graph b_graph b_count].
      assert (Up := app_keeps _ (b_graph b) [SRule l2 r2]).
      rewrite app_length. cbn [length]. replace (length (b_graph b) + 1 - 1) with (length (b_graph b)) by lia.
      split; [|split].
      + split; [auto|]. split; [|auto]. eapply fine_mono; [exact Up|exact Hx].
      + intros T h. apply urep_mono. exact Up.
      + cbn [urep]. exists l2, r2. rewrite nth_error_app2, Nat.sub_diag by lia. split; [reflexivity|].
        split; (eapply urep_mono; [exact Up|auto]).
    - intros s pos v p b (Hi & Hx & Hc). apply rres_ret. cbn [fst snd].
      unfold uQ, grows, uJ in *. rewrite !done_idle in * by auto. cbn [b_info with_graph b_graph b_count].
      assert (Up := app_keeps _ (b_graph b) [SLeaf s v]).
      split; [|split].
      + split; [auto|]. split; [|auto]. eapply fine_mono; [exact Up|exact Hx].
      + intros T h. apply urep_mono. exact Up.
      + cbn [urep]. rewrite nth_error_app2, Nat.sub_diag by lia. reflexivity.
    - intros _ s p b _. apply rres_ret. reflexivity.
  Qed.
End SimU.

(** ** Values *)
Section Value.
  Context {E : Type}.
  Variable ev : evaluator E.
  Variable fi : forest_info.
  Variable nv : sym -> E.
  Variable nulls : sym -> list E.
  Hypothesis Hpush : pushes ev nv.
  Hypothesis Hnulls : nulls_ok fi nv nulls.
  Hypothesis Hac : nulling_acyclic fi.
  Notation nn := (nulling_symbol_count fi + 1).
  Notation gev := (gev ev fi nv).
  Notation fev := (fev ev fi nulls).
  Notation alt_value := (alt_value ev fi nulls).
  Notation fok := (fok fi).

  Section Rep.
    Variable g : list snode.
    Hypothesis Hat : forall s, s < nn -> nulling_at g s (nulled_rhs fi s).
    Lemma Hnull : forall s, s < nn -> exists n, gev n g s = Some (nulls s).
    Proof. intros s Hs. eapply nulling_value; eauto. Qed.

    Lemma urep_rule : forall T h, urep fi g T h -> fok T -> exists nd, nth_error g h = Some nd /\ is_rule nd = is_fprod T.
    Proof.
      intros T h H Hf. destruct T as [s v|s|l r|s alts].
      - cbn in H. eauto.
      - cbn in *. subst h. now apply (null_is_rule fi g); auto.
      - cbn in H. destruct H as (a & b & H & _). eauto.
      - apply urep_sum in H. destruct H as [H1 H2]. destruct alts as [|a1 [|a2 rest]].
        + rewrite H1 by discriminate. eauto.
        + cbn [length places] in H2. inversion H2 as [|? ? ? ? X Y]; subst. destruct X as (f & f' & X & _). eauto.
        + rewrite H1 by discriminate. eauto.
    Qed.

    Theorem urep_value : forall T h, urep fi g T h -> fok T -> exists n, gev n g h = Some (fev T).
    Proof.
      intros T. induction T as [s v|s|l r IHl IHr|s alts IH] using fnode_ind2; intros h H Hf.
      - exists 1. cbn in *. now rewrite H.
      - cbn in *. subst h. now apply Hnull.
      - cbn [urep fok] in *. destruct H as (a & b & E0 & H1 & H2). destruct Hf as [F1 F2].
        destruct (IHl _ H1 F1) as [n1 G1]. destruct (IHr _ H2 F2) as [n2 G2].
        exists (S (n1 + n2)). cbn [SimpleEval.gev SimpleValue.fev]. rewrite E0.
        rewrite (gev_up_n ev fi nv g n1 (n1 + n2) a _ ltac:(lia) G1), (gev_up_n ev fi nv g n2 (n1 + n2) b _ ltac:(lia) G2). reflexivity.
      - apply urep_sum in H. apply fok_sum in Hf. destruct H as [Hs HF], Hf as [Hne Hok].
        assert (Alts : exists n, Forall2 (fun a i => gev n g i = Some (alt_value (fst a) (is_fprod (snd a)) (fev (snd a))))
                  alts (places h (length alts))).
        { revert HF. generalize (places h (length alts)) as hs. clear Hs Hne. revert Hok.
          induction IH as [|[d T] alts HT _ IHa]; intros Hok hs HF; inversion HF as [|? i ? hs' X Y]; subst.
          - exists 0. constructor.
          - inversion Hok as [|? ? [O1 O2] Or]; subst. cbn [fst snd] in *.
            destruct (IHa Or hs' Y) as [n1 G1]. destruct X as (f0 & f & Ei & Hst & Hf). cbn [fst snd] in *.
            destruct (HT f Hf O1) as [n2 G2]. destruct (urep_rule T f Hf O1) as (nd & En & Er).
            assert (One : exists n, gev n g i = Some (alt_value d (is_fprod T) (fev T))).
            { unfold SimpleValue.alt_value. rewrite <- wrap_reduce. destruct Hst as [Hst|(Hp & s0 & dir & Ee & Ef0)].
              2:{ rewrite Hp. destruct (Hnull s0 (eliminated_range fi _ _ _ Ee)) as [n3 G3].
                  unfold restore. rewrite Ee. exists (S (S (n2 + n3))). cbn [SimpleEval.gev]. rewrite Ei, Ef0.
                  destruct dir; cbn [is_rule];
                    rewrite (gev_up_n ev fi nv g n2 (n2 + n3) f _ ltac:(lia) G2), (gev_up_n ev fi nv g n3 (n2 + n3) s0 _ ltac:(lia) G3); reflexivity. }
              subst f0. destruct (is_fprod T) eqn:Ep.
              - exists (S n2). cbn [SimpleEval.gev]. rewrite Ei, En, Er. now rewrite G2.
              - specialize (O2 eq_refl).
                destruct (nth_error (fi_nulling_eliminated fi) d) as [o|] eqn:Ee; [|apply nth_error_None in Ee; lia].
                unfold restore. rewrite Ee. destruct o as [[s0 dir]|].
                + destruct (Hnull s0 (eliminated_range fi _ _ _ Ee)) as [n3 G3].
                  exists (S (S (n2 + n3))). cbn [SimpleEval.gev]. rewrite Ei, En, Er. cbn [elim_of]. rewrite Ee.
                  rewrite (gev_up_n ev fi nv g n2 (n2 + n3) f _ ltac:(lia) G2), (gev_up_n ev fi nv g n3 (n2 + n3) s0 _ ltac:(lia) G3).
                  destruct dir; reflexivity.
                + exists (S n2). cbn [SimpleEval.gev]. rewrite Ei, En, Er. cbn [elim_of]. rewrite Ee, G2. reflexivity. }
            destruct One as [n3 G3]. exists (n1 + n3). constructor.
            + cbn [fst snd]. eapply gev_up_n; [|exact G3]. lia.
            + eapply Forall2_impl2; [|exact G1]. cbn. intros a j. apply gev_up_n. lia. }
        destruct Alts as [n Alts].
        destruct alts as [|a1 [|a2 rest]].
        + congruence.
        + cbn [length places] in Alts. inversion Alts as [|? ? ? ? X Y]; subst. exists n. rewrite X.
          cbn [SimpleValue.fev map rotate app concat]. now rewrite app_nil_r.
        + exists (S n). cbn [SimpleEval.gev]. rewrite Hs by discriminate.
          cbn [length] in Alts |- *. set (k := length rest) in *.
          change (places h (S (S k))) with ((h + S (S k)) :: seq (h + 1) (S k)) in Alts.
          inversion Alts as [|? ? ? ? X Y]; subst.
          replace (map (fun i => gev n g (h + i + 1)) (seq 0 (S (S k)))) with (map (gev n g) (seq (h + 1) (S k) ++ [h + S (S k)])).
          2:{ replace (seq (h + 1) (S k) ++ [h + S (S k)]) with (seq (h + 1) (S (S k))).
              - exact (map_shift _ (gev n g) h (S (S k)) 0).
              - rewrite (seq_S (S k)). f_equal. f_equal. lia. }
          cbn [SimpleValue.fev rotate map]. apply osum_some. apply Forall2_app; [|constructor; [auto|constructor]].
          change (h + 1 :: seq (S (h + 1)) k) with (seq (h + 1) (S k)) in Y. revert Y. generalize (seq (h + 1) (S k)) as l. change (alt_value (fst a2) (is_fprod (snd a2)) (fev (snd a2)) ::
             map (fun a => alt_value (fst a) (is_fprod (snd a)) (fev (snd a))) rest) with
             (map (fun a => alt_value (fst a) (is_fprod (snd a)) (fev (snd a))) (a2 :: rest)).
          generalize (a2 :: rest) as q. clear. intros q l Y. induction Y; cbn; constructor; auto.
    Qed.
  End Rep.

  (** the root of a complete parse *)
  Lemma used_root : forall b s d v T h, b_info b = fi -> urep fi (b_graph b) (FSum s [(d, FProd (FLeaf (fi_sof fi) v) T)]) h ->
    exists r, skip_wrapper ev b h = Ret (inl r) /\ urep fi (b_graph b) T r.
  Proof.
    intros b s d v T h Hi H. apply urep_sum in H. destruct H as [_ H]. cbn [length places] in H.
    inversion H as [|? ? ? ? (f & f' & E1 & S & X) _]; subst. cbn [fst snd] in *.
    destruct S as [->|(S & _)]; [|discriminate]. cbn [urep] in X.
    destruct X as (l & r & E2 & E3 & X). exists r. split; [|auto]. unfold skip_wrapper.
    rewrite (idx_some _ _ _ _ E1). cbn [bind]. rewrite (idx_some _ _ _ _ E2). cbn [bind].
    rewrite (idx_some _ _ _ _ E3). cbn [bind]. now rewrite Nat.eqb_refl.
  Qed.

  Lemma used_ambiguous : forall b s alts h, length alts <> 1 -> urep fi (b_graph b) (FSum s alts) h ->
    skip_wrapper ev b h = Ret (inl h).
  Proof.
    intros b s alts h Hl H. apply urep_sum in H. destruct H as [H _]. unfold skip_wrapper. now rewrite (idx_some _ _ _ _ (H Hl)).
  Qed.

  (** evaluation of a root of a forest in use *)
  Lemma used_evaluated : forall old calls Ts p hs b i r, build free_forest calls [] = Ret (Ts, p) ->
    Forall2 (fun T c => shape T /\ fok T /\ is_fprod T = is_product c) Ts calls ->
    brel (uJ fi old) (uQ fi) (Ts, p) (hs, b) -> evaluated fi calls i r ->
    exists h, nth_error hs i = Some h /\ root_value ev fi nv b h (nth r (call_values ev fi nulls calls) []).
  Proof.
    intros old calls Ts p hs b i r EB HF [(Ib & [Hat _] & Cb) HQ] He. cbn [fst snd] in *. rewrite done_idle in * by auto.
    assert (HFp : Forall2 (fun T c => is_fprod T = is_product c) Ts calls) by (eapply Forall2_impl2; [|exact HF]; cbn; tauto).
    destruct (call_values_fev ev fi nulls calls Ts p EB HFp) as [HV HL].
    assert (Len : length hs = length calls) by (rewrite <- HL; symmetry; eapply Forall2_length2; eauto).
    assert (Rep : forall i h, nth_error hs i = Some h -> exists T, nth_error Ts i = Some T /\ urep fi (b_graph b) T h /\ fok T).
    { intros k h Hh. pose proof (Forall2_nth _ _ _ _ _ k HQ) as X. rewrite Hh in X. destruct (nth_error Ts k) as [T|] eqn:ET; [|contradiction].
      unfold uQ in X. cbn [fst snd] in X. rewrite done_idle in X by auto. exists T. split; [auto|]. split; [auto|].
      pose proof (Forall2_nth _ _ _ _ _ k HF) as Y. rewrite ET in Y. destruct (nth_error calls k); [tauto|contradiction]. }
    assert (Hi : i < length calls).
    { destruct He as [(? & ? & ? & ? & ? & H & _)|(_ & ? & ? & H & _)]; apply nth_error_Some; congruence. }
    destruct (nth_error hs i) as [h|] eqn:Eh; [|apply nth_error_None in Eh; lia]. exists h. split; [auto|].
    destruct (Rep i h Eh) as (T & ET & HT & HO).
    destruct He as [(s & d & p1 & l & v & C1 & C2 & C3)|(-> & s & alts & C1 & Hl)].
    - destruct (build_nodes calls Ts p EB HL i _ T C1 ET) as (q & HFq & ->).
      revert Ib. inversion HFq as [|[d0 p0] [d1 T1] ? ? [E1 E2] HFr]; subst. inversion HFr; subst. intros Ib. cbn [fst snd] in *. subst d1.
      destruct (build_nodes calls Ts p EB HL p1 _ T1 C2 E2) as (L & R & EL & ER & ->).
      rewrite (build_nodes calls Ts p EB HL l _ L C3 EL) in *.
      rewrite (nth_error_nth _ _ _ (eq_trans (nth_call_values ev fi nulls calls Ts r HV HL) (f_equal (option_map fev) ER))).
      destruct (used_root b s d v R h Ib HT) as (rr & Hs & HR).
      apply fok_sum in HO. destruct HO as [_ HO]. revert Ib. inversion HO as [|? ? [HO1 _] _]; subst. intros Ib. cbn in HO1.
      destruct (urep_value (b_graph b) Hat R rr HR (proj2 HO1)) as [n Hn]. exists rr, n. auto.
    - destruct (build_nodes calls Ts p EB HL r _ T C1 ET) as (q & HFq & ->).
      assert (Lq : length q <> 1) by (apply Forall2_length2 in HFq; congruence).
      rewrite (nth_error_nth _ _ _ (eq_trans (nth_call_values ev fi nulls calls Ts r HV HL) (f_equal (option_map fev) ET))).
      destruct (urep_value (b_graph b) Hat _ h HT HO) as [n Hn]. exists h, n. split; [|auto]. eapply used_ambiguous; eauto.
  Qed.
End Value.

(** ** Moves in any order *)
Lemma calls_fine_app : forall rules more calls, calls_fine rules (calls ++ more) -> calls_fine rules calls.
Proof.
  intros rules more. induction more as [|c more IH] using rev_ind; intros calls H; [now rewrite app_nil_r in H|].
  rewrite app_assoc in H. apply calls_fine_prefix in H. apply IH, H.
Qed.

Lemma build_snoc : forall F N (fo : forest_ops F N) calls c f st, build fo calls f = Ret st ->
  build fo (calls ++ [c]) f = build_call fo st c.
Proof.
  intros F N fo calls c f st H. unfold build in *. rewrite foldM_app, H. cbn [bind foldM]. now destruct (build_call fo st c).
Qed.

Section Moves.
  Context {E : Type}.
  Variable fi : forest_info.
  Hypothesis Hac : nulling_acyclic fi.
  Notation rules := (length (fi_nulling_eliminated fi)).

  Lemma moves_run : forall (ms : list (move E)) before expected, answers fi before ms expected ->
    calls_fine rules (before ++ made ms) ->
    forall Ts p hs b out, build free_forest before [] = Ret (Ts, p) -> brel (uJ fi []) (uQ fi) (Ts, p) (hs, b) ->
    exists fuel0 hs' b', forall fuel, fuel0 <= fuel -> foldM (simple_move fuel) ms (hs, b, out) = Ret (hs', b', out ++ expected).
  Proof.
    intros ms before expected H. induction H as [before|before c ms expected H IH|before ev nv nulls i r ms expected Hp Hn He H IH];
      intros Hf Ts p hs b out EB HR.
    - exists 0, hs, b. intros. cbn. now rewrite app_nil_r.
    - change (made (Make c :: ms)) with (c :: made ms) in Hf.
      replace (before ++ c :: made ms) with ((before ++ [c]) ++ made ms) in Hf by (rewrite <- app_assoc; reflexivity).
      pose proof (calls_fine_app _ _ _ Hf) as Hf1.
      destruct (free_build fi (before ++ [c]) Hf1) as (Ts' & p' & EB' & _ & _).
      pose proof EB' as EC. rewrite (build_snoc _ _ _ _ _ _ _ EB) in EC.
      pose proof (sim_build_call _ _ _ _ (used_sim fi []) c (Ts, p) (hs, b)) as S. rewrite EC in S.
      destruct S as ([hs' b1] & E1 & HR').
      { intros s ->. eapply calls_fine_nonempty; [exact Hf1|]. apply in_or_app. right. now left. }
      { exact HR. }
      destruct (IH Hf Ts' p' hs' b1 out EB' HR') as (k & hs2 & b2 & G). exists k, hs2, b2. intros fuel Hk.
      cbn [foldM simple_move]. rewrite E1. cbn [bind]. now apply G.
    - pose proof (calls_fine_app _ _ _ Hf) as Hf1. destruct (free_build fi before Hf1) as (Ts' & p' & EB' & _ & HF).
      rewrite EB in EB'. injection EB' as <- <-.
      destruct (used_evaluated ev fi nv nulls Hn Hac [] before Ts p hs b i r EB HF HR He) as (h & Eh & HV).
      destruct HR as [(Ib & [Hat _] & Cb) HQ]. cbn [fst snd] in *. rewrite done_idle in Hat by auto.
      destruct (evaluate_root ev fi nv Hp b h _ Ib HV) as (k1 & b1 & _ & _ & G1).
      destruct (evaluate_kept ev fi k1 b h _ b1 Ib (G1 k1 (le_n _))) as (K1 & K2 & K3 & K4).
      destruct (IH Hf Ts p hs b1 (out ++ [nth r (call_values ev fi nulls before) []]) EB) as (k2 & hs2 & b2 & G2).
      { split; cbn [fst snd].
        - split; [congruence|]. rewrite done_idle by congruence. split; [|congruence]. split; [|intros T x []].
          intros s Hs. now apply K4, Hat.
        - eapply Forall2_impl2; [|exact HQ]. unfold uQ. cbn [snd]. intros T x. rewrite !done_idle by congruence. apply K3. }
      exists (k1 + k2), hs2, b2. intros fuel Hk. cbn [foldM simple_move]. rewrite (idx_some _ _ _ _ Eh). cbn [bind].
      rewrite G1 by lia. cbn [bind]. rewrite G2 by lia. rewrite <- app_assoc. reflexivity.
  Qed.

  Theorem P_moves : forall b0 (ms : list (move E)) out, bocage_new fi = Ret b0 ->
    calls_fine rules (made ms) -> answers fi [] ms out ->
    exists fuel0, forall fuel, fuel0 <= fuel -> simple_moves fuel ms b0 = Ret out.
  Proof.
    intros b0 ms out H0 Hf Ha. destruct (new_at fi b0 H0) as (Hi & Hc & Hat).
    destruct (moves_run ms [] out Ha Hf [] [] [] b0 [] eq_refl) as (k & hs & b & G).
    { split; cbn [fst snd]; [|constructor]. split; [auto|]. rewrite done_idle by auto. split; [|auto]. split; [auto|intros T x []]. }
    exists k. intros fuel Hk. unfold simple_moves. now rewrite G.
  Qed.
End Moves.
