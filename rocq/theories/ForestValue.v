(** ForestValue: forests without empty sums; values of unambiguous nodes; forests built
    by calls of the trait. *)
From Coq Require Import List Arith Bool Lia NArith.
From Verif Require Import Base BaseProofs TablesProofs Item Grammar Forest ForestSpec Spec Den Sim SimpleBocage EvalSpec SimpleEval
  SimpleProofs SimpleValue ForestProg.
Import ListNotations.
Local Open Scope res_scope.

(** ** Nodes without nulling leaves or empty sums *)
Fixpoint shape (T : fnode) : Prop :=
  match T with
  | FLeaf _ _ => True
  | FNull _ => False
  | FProd l r => shape l /\ shape r
  | FSum _ alts => alts <> [] /\
      (fix go l := match l with [] => True | a :: l => shape (snd a) /\ go l end) alts
  end.
Lemma shape_sum : forall s alts, shape (FSum s alts) <-> alts <> [] /\ Forall (fun a => shape (snd a)) alts.
Proof.
  intros s alts. cbn [shape]. generalize (alts <> []) as X. intros X. split; intros [H1 H2]; (split; [auto|]); clear H1.
  - induction alts; constructor; [apply H2|apply IHalts, H2].
  - induction H2; auto.
Qed.

Lemma shape_trees : forall T, shape T -> trees T <> [].
Proof.
  intros T. induction T as [s v|s|l r IHl IHr|s alts IH] using fnode_ind2; intros H.
  - discriminate.
  - contradiction.
  - cbn in *. destruct H as [H1 H2]. specialize (IHl H1). specialize (IHr H2).
    destruct (trees l) as [|x tl]; [congruence|]. destruct (trees r); [congruence|]. discriminate.
  - apply shape_sum in H. destruct H as [H1 H2]. destruct alts as [|a alts]; [congruence|].
    inversion IH as [|? ? Ha _]; inversion H2 as [|? ? Sa _]; subst. specialize (Ha Sa). cbn.
    destruct (trees (snd a)); [congruence|]. discriminate.
Qed.

Lemma trees_length : forall T ts, In ts (trees T) -> if is_fprod T then 2 <= length ts else length ts = 1.
Proof.
  assert (G : forall T ts, den T ts -> 1 <= length ts /\ if is_fprod T then 2 <= length ts else length ts = 1).
  { intros T ts H. induction H as [| l r xs ys _ [IHl _] _ [IHr _]|]; cbn; auto. rewrite app_length. split; lia. }
  intros T ts H. apply G. now apply trees_den.
Qed.

Lemma free_shape : fsim_if free_forest free_forest
  (fun ph p p' => p = p' /\ match ph with
     | Idle => True
     | Summing ne => Forall (fun a => shape (snd a)) p /\ (ne = true -> p <> []) end)
  (fun _ _ T T' => T = T' /\ shape T) False.
Proof.
  constructor; cbn [free_forest f_begin_sum f_push_summand f_sum f_product f_leaf f_nulling].
  - intros p p' [-> _]. apply rres_ret. split; [|intros ? ?; auto]. split; [auto|]. split; [constructor|discriminate].
  - intros ne p p' i1 i2 [<- [HF _]] (Ed & _ & En & Hs). apply rres_ret. split; [|intros ? ?; auto].
    rewrite Ed, En. split; [auto|]. split.
    + apply Forall_app. split; [auto|]. constructor; [|constructor]. cbn. now rewrite <- En.
    + intros _ X. symmetry in X. now apply app_cons_not_nil in X.
  - intros s o p p' [<- [HF Hne]]. specialize (Hne eq_refl). destruct p as [|a p]; [congruence|].
    apply rres_ret. cbn [fst snd]. split; [auto|]. split; [intros ? ?; auto|]. split; [auto|].
    apply shape_sum. split; [discriminate|auto].
  - intros l1 l2 r1 r2 p p' [<- _] [<- Hl] [<- Hr]. apply rres_ret. cbn [fst snd]. split; [auto|]. split; [intros ? ?; auto|].
    cbn. auto.
  - intros s pos v p p' [<- _]. apply rres_ret. cbn [fst snd]. split; [auto|]. split; [intros ? ?; auto|]. cbn. auto.
  - intros [].
Qed.

(** ** Values of unambiguous nodes *)
Lemma flat_map_length1 : forall A B (f : A -> list B) l x, flat_map f l = [x] -> (forall a, In a l -> f a <> []) ->
  exists a, l = [a] /\ f a = [x].
Proof.
  intros A B f [|a [|b l]] x H Hne; cbn in H.
  - discriminate.
  - rewrite app_nil_r in H. eauto.
  - exfalso. pose proof (Hne a (or_introl eq_refl)) as H1. pose proof (Hne b (or_intror (or_introl eq_refl))) as H2.
    destruct (f a) as [|y [|z t]]; [congruence| |discriminate].
    destruct (f b); [congruence|discriminate].
Qed.

Lemma map_single : forall A B (f : A -> B) l x, map f l = [x] -> exists a, l = [a] /\ f a = x.
Proof. intros A B f [|a [|b l]] x H; try discriminate. injection H as <-. eauto. Qed.

Section Unamb.
  Context {E : Type}.
  Variable ev : evaluator E.
  Variable fi : forest_info.
  Variable nulls : sym -> list E.

  Lemma node_value : forall T xs d, In xs (trees T) -> fev ev fi nulls T = flat_map (value ev fi nulls) xs ->
    alt_value ev fi nulls d (is_fprod T) (fev ev fi nulls T) = value ev fi nulls (Node d xs).
  Proof.
    intros T xs d Hx Hv. unfold alt_value. cbn [value]. rewrite Hv. f_equal.
    pose proof (trees_length _ _ Hx) as L. destruct (is_fprod T).
    - destruct xs as [|x [|y xs]]; cbn in L; try lia. reflexivity.
    - destruct xs as [|x [|y xs]]; cbn in L; try lia. reflexivity.
  Qed.

  Theorem unambiguous_value : forall T ts, shape T -> trees T = [ts] ->
    fev ev fi nulls T = flat_map (value ev fi nulls) ts.
  Proof.
    intros T. induction T as [s v|s|l r IHl IHr|s alts IH] using fnode_ind2; intros ts Hs Ht.
    - injection Ht as <-. reflexivity.
    - contradiction.
    - cbn [shape trees fev] in *. destruct Hs as [H1 H2].
      apply flat_map_length1 in Ht. 2:{ intros a _ X. apply map_eq_nil in X. now apply (shape_trees r). }
      destruct Ht as (xs & El & Ht). apply map_single in Ht. destruct Ht as (ys & Er & <-).
      rewrite flat_map_app. rewrite (IHl xs), (IHr ys); auto.
    - apply shape_sum in Hs. destruct Hs as [_ HF]. cbn [trees] in Ht.
      rewrite Forall_forall in HF, IH.
      apply flat_map_length1 in Ht. 2:{ intros a Ha X. apply map_eq_nil in X. apply (shape_trees (snd a)); auto. }
      destruct Ht as ([d T] & -> & Ht). apply map_single in Ht. destruct Ht as (xs & Ex & <-). cbn [fst snd] in *.
      cbn [fev map rotate app concat flat_map fst snd]. rewrite !app_nil_r.
      apply node_value; [rewrite Ex; now left|]. apply (IH (d, T)); auto; [now left|]. apply (HF (d, T)). now left.
  Qed.
End Unamb.

(** ** Rules of the trees of a node are rules of its alternatives *)
Fixpoint tree_rules (t : tree) : list nat :=
  match t with Leaf _ _ => [] | Node d kids => d :: flat_map tree_rules kids end.

Lemma shape_fok : forall fi T, shape T ->
  (forall ts t, den T ts -> In t ts -> forall d, In d (tree_rules t) -> d < length (fi_nulling_eliminated fi)) ->
  fok fi T.
Proof.
  intros fi T. induction T as [s v|s|l r IHl IHr|s alts IH] using fnode_ind2; intros Hs Hd.
  - exact I.
  - contradiction.
  - cbn in *. destruct Hs as [H1 H2].
    destruct (trees l) as [|xs0 ?] eqn:El; [now elim (shape_trees l)|].
    destruct (trees r) as [|ys0 ?] eqn:Er; [now elim (shape_trees r)|].
    assert (Dl : den l xs0) by (apply trees_den; rewrite El; now left).
    assert (Dr : den r ys0) by (apply trees_den; rewrite Er; now left).
    split.
    + apply IHl; auto. intros ts t Ht Hi. apply (Hd (ts ++ ys0) t); [now constructor|]. apply in_or_app. auto.
    + apply IHr; auto. intros ts t Ht Hi. apply (Hd (xs0 ++ ts) t); [now constructor|]. apply in_or_app. auto.
  - apply shape_sum in Hs. destruct Hs as [Hne HF]. apply fok_sum. split; [auto|].
    apply Forall_forall. intros [d T] Ha. rewrite Forall_forall in IH, HF. specialize (HF _ Ha). specialize (IH _ Ha).
    cbn [fst snd] in *.
    split.
    + apply IH; auto. intros ts t Ht Hi d' Hd'. apply (Hd [Node d ts] (Node d ts)).
      * eapply den_sum; eauto.
      * now left.
      * cbn. right. apply in_flat_map. eauto.
    + intros _. destruct (trees T) as [|xs0 ?] eqn:El; [now elim (shape_trees T)|].
      apply (Hd [Node d xs0] (Node d xs0)).
      * eapply den_sum; [exact Ha|]. apply trees_den. rewrite El. now left.
      * now left.
      * now left.
Qed.

(** ** Forests built by calls *)
Section SimBuild.
  Context {F1 N1 F2 N2 : Type}.
  Variable fo1 : forest_ops F1 N1.
  Variable fo2 : forest_ops F2 N2.
  Variable J : phase -> F1 -> F2 -> Prop.
  Variable Q : F1 -> F2 -> N1 -> N2 -> Prop.
  Context {nul : Prop}.
  Hypothesis HS : fsim_if fo1 fo2 J Q nul.

  Definition brel (x : list N1 * F1) (y : list N2 * F2) : Prop :=
    J Idle (snd x) (snd y) /\ Forall2 (Q (snd x) (snd y)) (fst x) (fst y).

  Lemma Forall2_grows : forall f1 f2 f1' f2' l l', grows Q f1 f2 f1' f2' -> Forall2 (Q f1 f2) l l' -> Forall2 (Q f1' f2') l l'.
  Proof. intros f1 f2 f1' f2' l l' G H. eapply Forall2_impl2; [|exact H]. apply G. Qed.

  Lemma sim_build_call : forall c x y, (forall s, c <> CallSum s []) -> brel x y -> rres brel (build_call fo1 x c) (build_call fo2 y c).
  Proof.
    intros c [ns f1] [ms f2] Hc [HJ HQ]. cbn [fst snd] in *. destruct c as [s v|l r|s alts]; cbn [build_call].
    - eapply rres_bind; [apply (sim_leaf _ _ _ _ _ HS); auto|]. intros [n1 f1'] [n2 f2'] (HJ' & HG & Hn). apply rres_ret.
      split; [auto|]. cbn [fst snd] in *. apply Forall2_app; [eapply Forall2_grows; eauto|]. auto.
    - eapply rres_bind; [apply rres_idx; eauto|]. intros l1 l2 Hl.
      eapply rres_bind; [apply rres_idx; eauto|]. intros r1 r2 Hr.
      eapply rres_bind; [apply (sim_product _ _ _ _ _ HS); eauto|]. intros [n1 f1'] [n2 f2'] (HJ' & HG & Hn). apply rres_ret.
      split; [auto|]. cbn [fst snd] in *. apply Forall2_app; [eapply Forall2_grows; eauto|]. auto.
    - eapply rres_bind; [apply (sim_begin _ _ _ _ _ HS); auto|]. intros f1' f2' [HJ' HG].
      assert (Push : forall alts b f1 f2, J (Summing b) f1 f2 -> Forall2 (Q f1 f2) ns ms -> (b = true \/ alts <> []) ->
        rres (fun f1' f2' => J (Summing true) f1' f2' /\ Forall2 (Q f1' f2') ns ms)
          (foldM (fun f a => n <- idx ns (snd a) ;; f_push_summand fo1 (mkItem (fst a) 0 n) f) alts f1)
          (foldM (fun f a => n <- idx ms (snd a) ;; f_push_summand fo2 (mkItem (fst a) 0 n) f) alts f2)).
      { clear - HS. induction alts as [|a alts IH]; intros b f1 f2 HJ HQ Hne; cbn [foldM].
        - destruct Hne as [-> | Hne]; [|congruence]. apply rres_ret. auto.
        - eapply rres_bind.
          + eapply (rres_bind _ _ _ _ (Q f1 f2)
              (fun f1' f2' => J (Summing true) f1' f2' /\ Forall2 (Q f1' f2') ns ms)).
            * apply rres_idx; eauto.
            * intros n1 n2 Hn. eapply rres_weaken.
              2:{ apply (sim_push _ _ _ _ _ HS b f1 f2 (mkItem (fst a) 0 n1) (mkItem (fst a) 0 n2)); [auto|]. repeat split; auto. }
              intros x y [A B]. split; [auto|]. eapply Forall2_grows; eauto.
          + intros x y [A B]. eapply IH; eauto. }
      eapply rres_bind.
      + eapply (Push alts false); eauto.
        * eapply Forall2_grows; eauto.
        * right. intros ->. now elim (Hc s).
      + intros g1 g2 [A B]. eapply rres_bind; [apply (sim_sum _ _ _ _ _ HS); exact A|].
        intros [n1 g1'] [n2 g2'] (HJ2 & HG2 & Hn). apply rres_ret. cbn [fst snd] in *.
        split; [auto|]. cbn [fst snd]. apply Forall2_app; [eapply Forall2_grows; eauto|]. auto.
  Qed.

  Lemma sim_build : forall calls f1 f2, (forall s, ~ In (CallSum s []) calls) -> J Idle f1 f2 ->
    rres brel (build fo1 calls f1) (build fo2 calls f2).
  Proof.
    intros calls f1 f2 Hc HJ. unfold build.
    assert (G : forall x y, brel x y -> rres brel (foldM (build_call fo1) calls x) (foldM (build_call fo2) calls y)).
    { induction calls as [|c calls IH]; intros x y H; cbn [foldM]; [now apply rres_ret|].
      eapply rres_bind; [apply sim_build_call; [|exact H]|].
      - intros s ->. apply (Hc s). now left.
      - intros x' y' H'. apply IH; auto. intros s X. apply (Hc s). now right. }
    apply G. split; [auto|constructor].
  Qed.
End SimBuild.


Lemma calls_fine_prefix : forall rules calls c, calls_fine rules (calls ++ [c]) ->
  calls_fine rules calls /\ call_fine rules calls c.
Proof.
  intros rules calls c H. split.
  - intros i d Hi. assert (i < length calls) by (apply nth_error_Some; congruence).
    specialize (H i d). rewrite nth_error_app1 in H by auto. specialize (H Hi).
    rewrite firstn_app in H. replace (i - length calls) with 0 in H by lia. cbn [firstn] in H. now rewrite app_nil_r in H.
  - specialize (H (length calls) c). rewrite nth_error_app2, Nat.sub_diag in H by lia. specialize (H eq_refl).
    now rewrite firstn_app, firstn_all, Nat.sub_diag, app_nil_r in H.
Qed.

Lemma calls_fine_nonempty : forall rules calls s, calls_fine rules calls -> ~ In (CallSum s []) calls.
Proof.
  intros rules calls s H X. apply In_nth_error in X. destruct X as [i X]. apply H in X. destruct X as [X _]. congruence.
Qed.

Lemma nth_map_trees : forall Ts i, nth i (map trees Ts) [] = match nth_error Ts i with Some T => trees T | None => [] end.
Proof. induction Ts as [|T Ts IH]; intros [|i]; cbn; auto. Qed.

Theorem free_build : forall fi calls, calls_fine (length (fi_nulling_eliminated fi)) calls ->
  exists Ts p, build free_forest calls [] = Ret (Ts, p) /\ map trees Ts = represented calls /\
    Forall2 (fun T c => shape T /\ fok fi T /\ is_fprod T = is_product c) Ts calls.
Proof.
  intros fi calls. induction calls as [|c calls IH] using rev_ind; intros Hf.
  - exists [], []. repeat split; auto.
  - apply calls_fine_prefix in Hf. destruct Hf as [Hf Hc]. destruct (IH Hf) as (Ts & p & E & Ht & HF). clear IH.
    unfold build in *. unfold represented in *. rewrite foldM_app, E, fold_left_app. cbn [bind foldM fold_left].
    rewrite <- Ht.
    assert (Len : length Ts = length calls) by (eapply Forall2_length2; eauto).
    assert (Get : forall i c', nth_error calls i = Some c' -> exists T, nth_error Ts i = Some T /\ shape T /\ fok fi T /\ is_fprod T = is_product c').
    { intros i c' Hi. pose proof (Forall2_nth _ _ _ _ _ i HF) as X. rewrite Hi in X. destruct (nth_error Ts i) as [T|]; [eauto|contradiction]. }
    assert (Ok : forall T, trees T = call_trees (map trees Ts) c -> shape T -> fok fi T -> is_fprod T = is_product c ->
      map trees (Ts ++ [T]) = map trees Ts ++ [call_trees (map trees Ts) c] /\
      Forall2 (fun T c => shape T /\ fok fi T /\ is_fprod T = is_product c) (Ts ++ [T]) (calls ++ [c])).
    { intros T H1 H2 H3 H4. rewrite map_app. cbn [map]. rewrite H1. split; [auto|]. apply Forall2_app; auto. }
    destruct c as [s v|l r|s alts]; cbn [build_call free_forest f_leaf f_product f_begin_sum f_push_summand f_sum bind].
    + do 2 eexists. split; [reflexivity|]. apply Ok; cbn; auto.
    + destruct Hc as [Hl Hr]. apply nth_error_Some in Hl, Hr.
      destruct (nth_error calls l) as [cl|] eqn:El; [|congruence]. destruct (nth_error calls r) as [cr|] eqn:Er; [|congruence].
      destruct (Get _ _ El) as (Tl & Al & Bl & Cl & _). destruct (Get _ _ Er) as (Tr & Ar & Br & Cr & _).
      rewrite (idx_some _ _ _ _ Al), (idx_some _ _ _ _ Ar). cbn [bind].
      do 2 eexists. split; [reflexivity|]. apply Ok; cbn; auto. rewrite !nth_map_trees, Al, Ar. reflexivity.
    + destruct Hc as [Hne Hc].
      assert (Push : forall l q, (forall d i, In (d, i) l -> In (d, i) alts) -> exists q', foldM (fun f a => n <- idx Ts (snd a) ;; Ret (f ++ [(it_dot (mkItem (fst a) 0 n), it_node (mkItem (fst a) 0 n))])) l q = Ret (q ++ q') /\
         Forall2 (fun a b => fst a = fst b /\ nth_error Ts (snd a) = Some (snd b)) l q').
      { induction l as [|[d i] l IHl]; intros q Hl.
        - exists []. cbn. now rewrite app_nil_r.
        - destruct (Hc d i (Hl d i (or_introl eq_refl))) as (c' & Ec & _). destruct (Get _ _ Ec) as (T & AT & _).
          cbn [foldM snd fst]. rewrite (idx_some _ _ _ _ AT). cbn [bind it_dot it_node].
          destruct (IHl (q ++ [(d, T)])) as (q' & Eq & HF'). { intros; apply Hl; now right. }
          exists ((d, T) :: q'). cbn [it_dot it_node] in Eq |- *. rewrite Eq, <- app_assoc. split; [reflexivity|]. constructor; auto. }
      destruct (Push alts [] ltac:(auto)) as (q & Eq & HFq). cbn [app] in Eq. rewrite Eq. cbn [bind].
      destruct q as [|a0 q0] eqn:Q0; [inversion HFq; subst; congruence|]. rewrite <- Q0 in *. cbn [bind].
      do 2 eexists. split; [reflexivity|].
      assert (HFa : Forall (fun b => shape (snd b) /\ fok fi (snd b) /\ (is_fprod (snd b) = false -> fst b < length (fi_nulling_eliminated fi))) q).
      { clear - HFq Hc Get. revert Hc. induction HFq as [|[d i] [d' T] l q [E1 E2] _ IHq]; intros Hc; constructor.
        - cbn [fst snd] in *. subst d'. destruct (Hc d i (or_introl eq_refl)) as (c' & Ec & Hd).
          destruct (Get _ _ Ec) as (T' & AT & ? & ? & Ep). rewrite E2 in AT. injection AT as <-.
          split; [auto|]. split; [auto|]. intros X. apply Hd. congruence.
        - apply IHq. intros. apply Hc. now right. }
      apply Ok.
      * cbn [trees call_trees]. clear - HFq. induction HFq as [|[d i] [d' T] l q [E1 E2] _ IHq]; cbn [flat_map]; auto.
        cbn [fst snd] in *. subst d'. rewrite IHq, nth_map_trees, E2. reflexivity.
      * apply shape_sum. split; [rewrite Q0; discriminate|]. eapply Forall_impl; [|exact HFa]. cbn. tauto.
      * apply fok_sum. split; [rewrite Q0; discriminate|]. eapply Forall_impl; [|exact HFa]. cbn. tauto.
      * reflexivity.
Qed.
