(** CompactValue: the value of nodes of the compact bocage in terms of the free forest and
    of parse trees. *)
From Coq Require Import List Arith Bool Lia NArith.
From Verif Require Import Base BaseProofs TablesProofs Item Grammar Forest ForestSpec Spec Den Sim SimpleBocage EvalSpec SimpleEval
  SimpleProofs SimpleValue ForestProg ForestValue CompactGraph CompactGraphProofs CompactBocage CompactSpec CompactProofs CompactEval.
Import ListNotations.
Local Open Scope res_scope.

(** ** The graph of a new bocage *)
Definition conv (n : snode) : cnode :=
  match n with
  | SNulling s => CNullingLeaf (N.of_nat s)
  | SRule a b => CRule (N.of_nat a) (N.of_nat b)
  | SProduct _ f => CProduct C_NULL_ACTION (N.of_nat f)
  | _ => CBeginSum
  end.
Definition tabled (n : snode) : Prop :=
  match n with
  | SNulling s => u32 s
  | SRule _ _ => True
  | SProduct a _ => a = None
  | _ => False
  end.

Lemma map_set_nth : forall A B (f : A -> B) l i v, map f (set_nth l i v) = set_nth (map f l) i (f v).
Proof. intros A B f l. induction l as [|a l IH]; intros [|i] v; cbn; auto. now rewrite IH. Qed.
Lemma Forall_set_nth : forall A (Q : A -> Prop) l i v, Forall Q l -> Q v -> Forall Q (set_nth l i v).
Proof.
  intros A Q l. induction l as [|a l IH]; intros [|i] v H Hv; cbn; auto; inversion H; subst; constructor; auto.
Qed.

Lemma nulling_rule_conv : forall rs g g', foldM nulling_rule rs g = Ret g' -> Forall tabled g ->
  foldM c_nulling_rule rs (map conv g) = Ret (map conv g') /\ Forall tabled g'.
Proof.
  intros rs. induction rs as [|[[lhs a] b] rs IH]; intros g g' H Hg; cbn [foldM] in *.
  - injection H as <-. auto.
  - unfold nulling_rule at 1 in H. unfold c_nulling_rule at 1. cbn zeta in *.
    unfold upd in *. rewrite app_length in *. cbn [length] in *. rewrite map_length.
    destruct (lhs <? length g + 1); [|discriminate]. cbn [bind] in *.
    apply IH in H.
    + rewrite map_set_nth, map_app in H. exact H.
    + apply Forall_set_nth; [|reflexivity]. apply Forall_app. split; [auto|]. constructor; [exact I|constructor].
Qed.

(** as written: in nine bytes, with the handles multiplied *)
Definition conv9 (n : snode) : cnode :=
  match n with
  | SNulling s => CNullingLeaf (N.of_nat s)
  | SRule a b => CRule (N.of_nat (h_mul a)) (N.of_nat (h_mul b))
  | SProduct _ f => CProduct C_NULL_ACTION (N.of_nat (h_mul f))
  | _ => CBeginSum
  end.

Lemma h_mul_u32 : forall n, (N.of_nat (h_mul n) < 4294967296)%N.
Proof. intros n. unfold h_mul. rewrite N2Nat.id. apply N.mod_lt. discriminate. Qed.

Lemma conv9_ok : forall n, tabled n -> node_ok (conv9 n) /\ length (bytes_of true (conv9 n)) = 9.
Proof.
  intros [s k|a f|a b|s v|s] H; cbn [tabled conv9] in *; try contradiction; (split; [|reflexivity]); cbn [node_ok].
  - split; [reflexivity|apply h_mul_u32].
  - split; apply h_mul_u32.
  - exact H.
Qed.

Lemma push_nulling_all : forall t g, Forall tabled t ->
  foldM push_nulling (map conv t) g = Ret (g ++ flat_map (fun n => bytes_of true (conv9 n)) t).
Proof.
  intros t. induction t as [|n t IH]; intros g H; cbn [map foldM flat_map].
  - now rewrite app_nil_r.
  - inversion H as [|? ? Hn Ht]; subst.
    assert (E : push_nulling g (conv n) = Ret (g ++ bytes_of true (conv9 n))).
    { pose proof (push_bytes true g (conv9 n)) as E. cbn beta iota in E. rewrite <- E.
      destruct n as [s k|a f|a b|s v|s]; cbn [tabled] in Hn; try contradiction; cbn [conv push_nulling conv9]; now rewrite ?Nat2N.id. }
    rewrite E. cbn [bind]. rewrite IH by auto. now rewrite app_assoc.
Qed.

Lemma table_length : forall t, Forall tabled t -> length (flat_map (fun n => bytes_of true (conv9 n)) t) = 9 * length t.
Proof.
  intros t H. induction H as [|n t Hn _ IH]; [reflexivity|]. cbn [flat_map]. rewrite app_length, IH.
  destruct (conv9_ok n Hn) as [_ ->]. cbn [length]. lia.
Qed.

Lemma table_get : forall t i n, Forall tabled t -> nth_error t i = Some n ->
  cget (flat_map (fun n => bytes_of true (conv9 n)) t) (9 * i) = Ret (conv9 n).
Proof.
  intros t i n H Hi. apply nth_error_split in Hi. destruct Hi as (t1 & t2 & -> & <-).
  apply Forall_app in H. destruct H as [H1 H2]. inversion H2 as [|? ? Hn _]; subst.
  rewrite flat_map_app. cbn [flat_map]. rewrite <- (table_length t1 H1). apply get_bytes. now apply conv9_ok.
Qed.

Definition cnulling_at (g : graph) (s : sym) (o : option (sym * sym)) : Prop :=
  match o with
  | None => cget g (9 * s) = Ret (CNullingLeaf (N.of_nat s))
  | Some (a, b) => exists f, cget g (9 * s) = Ret (CProduct C_NULL_ACTION (N.of_nat f)) /\
                     cget g f = Ret (CRule (N.of_nat (9 * a)) (N.of_nat (9 * b)))
  end.

Lemma cnulling_at_app : forall g x s o, cnulling_at g s o -> cnulling_at (g ++ x) s o.
Proof. intros g x s [[a b]|]; cbn; [intros (f & A & B); eauto using cget_app|apply cget_app]. Qed.

(** the compact bocage can be made if and only if the simple one can *)
Theorem cbocage_new_ret : forall fi, (N.of_nat (nulling_symbol_count fi) < 1048576)%N ->
  exists cb, cbocage_new fi = Ret cb /\ cb_info cb = fi /\ cb_sum cb = None /\
    (u32 (length (cb_graph cb)) -> forall s, s < nulling_symbol_count fi + 1 -> cnulling_at (cb_graph cb) s (nulled_rhs fi s)).
Proof.
  intros fi Hlim. destruct (bocage_new_spec fi Hlim) as (b & Eb & _ & _ & _ & Hat).
  unfold bocage_new in Eb. unfold cbocage_new. rewrite (proj2 (N.ltb_lt _ _) Hlim) in *. cbn [assert bind] in *. cbn zeta in *.
  set (nn := nulling_symbol_count fi + 1) in *.
  destruct (foldM nulling_rule (fi_nulling_intermediate fi) (map SNulling (seq 0 nn))) as [t| |] eqn:Et; try discriminate.
  cbn [bind] in Eb. injection Eb as <-. cbn [b_graph] in Hat.
  destruct (nulling_rule_conv _ _ _ Et) as [Ec Ht].
  { apply Forall_forall. intros n Hn. apply in_map_iff in Hn. destruct Hn as (s & <- & Hs). apply in_seq in Hs. cbn.
    unfold u32, nn in *. lia. }
  rewrite map_map in Ec. cbn [conv] in Ec. unfold sym in *. rewrite Ec. cbn [bind].
  rewrite (push_nulling_all t [] Ht). cbn [bind app]. eexists. split; [reflexivity|]. cbn [cb_info cb_sum cb_graph].
  split; [reflexivity|]. split; [reflexivity|]. intros Hu s Hs. rewrite (table_length t Ht) in Hu.
  specialize (Hat s Hs). unfold nulling_at in Hat. unfold cnulling_at.
  assert (Small : forall i, i < nn -> u32 (9 * i)) by (intros i Hi; unfold u32, nn in *; lia).
  destruct (nulled_rhs fi s) as [[a b]|] eqn:Er.
  - destruct Hat as (f & E1 & E2). exists (9 * f).
    assert (Lf : f < length t) by (apply nth_error_Some; congruence).
    pose proof (table_get t s _ Ht E1) as X1. pose proof (table_get t f _ Ht E2) as X2. cbn [conv9] in X1, X2.
    rewrite h_mul_small in X1 by (eapply u32_le; [|exact Hu]; lia).
    apply nulled_rhs_in in Er. destruct (intermediate_range _ _ _ _ Er) as (_ & La & Lb).
    rewrite !h_mul_small in X2 by (now apply Small). auto.
  - exact (table_get t s _ Ht Hat).
Qed.

Lemma cbocage_new_at : forall fi cb0, cbocage_new fi = Ret cb0 -> cb_info cb0 = fi /\ cb_sum cb0 = None /\
  (N.of_nat (nulling_symbol_count fi) < 1048576)%N /\
  (u32 (length (cb_graph cb0)) -> forall s, s < nulling_symbol_count fi + 1 -> cnulling_at (cb_graph cb0) s (nulled_rhs fi s)).
Proof.
  intros fi cb0 H. assert (L : (N.of_nat (nulling_symbol_count fi) < 1048576)%N).
  { unfold cbocage_new in H. destruct (N.ltb_spec (N.of_nat (nulling_symbol_count fi)) 1048576); [auto|discriminate]. }
  destruct (cbocage_new_ret fi L) as (b & Eb & A & B & C). rewrite H in Eb. injection Eb as <-. auto.
Qed.

Section Value.
  Context {E : Type}.
  Variable ev : evaluator E.
  Variable fi : forest_info.
  Variable nv : sym -> E.
  Variable nulls : sym -> list E.
  Hypothesis Hnulls : nulls_ok fi nv nulls.
  Hypothesis Hac : nulling_acyclic fi.
  Hypothesis Hlim : (N.of_nat (nulling_symbol_count fi) < 1048576)%N.
  Notation nn := (nulling_symbol_count fi + 1).
  Notation cev := (cev ev fi nv).
  Notation cfactors := (cfactors ev fi nv).
  Variable g : graph.
  Hypothesis Hat : forall s, s < nn -> cnulling_at g s (nulled_rhs fi s).

  (** ** Nulling handles *)
  Lemma cnulling_value : forall s, s < nn -> cev g (9 * s) (nulls s) 0.
  Proof.
    destruct Hac as (rank & Hrank). intros s. remember (rank s) as k eqn:Ek. revert s Ek.
    induction k as [k IH] using lt_wf_ind. intros s -> Hs. specialize (Hat s Hs) as At.
    rewrite (Hnulls s). unfold cnulling_at in At. destruct (nulled_rhs fi s) as [[a b]|] eqn:Er.
    - destruct At as (f & E1 & E2). apply nulled_rhs_in in Er. destruct (Hrank _ _ _ Er) as [Ra Rb].
      destruct (intermediate_range _ _ _ _ Er) as (_ & La & Lb).
      pose proof (IH (rank a) Ra a eq_refl La) as H1. pose proof (IH (rank b) Rb b eq_refl Lb) as H2.
      change (nulls a ++ nulls b) with (wrap ev fi (c_action C_NULL_ACTION) (nulls a ++ nulls b)).
      eapply cv_product; [exact E1|]. eapply cf_plain; [rewrite Nat2N.id; exact E2|now left|]. rewrite Nat2N.id.
      change 0 with (0 + 0). eapply cv_rule; [exact E2| |]; now rewrite Nat2N.id.
    - pose proof (cv_null ev fi nv g _ _ At) as X. now rewrite Nat2N.id in X.
  Qed.

  (** ** The value of a free node, alternatives in order, and its cost *)
  Fixpoint cfev (T : fnode) : list E :=
    match T with
    | FLeaf s v => [ev_leaf ev s v]
    | FNull s => nulls s
    | FProd l r => cfev l ++ cfev r
    | FSum s alts => concat (map (fun a => alt_value ev fi nulls (fst a) (is_fprod (snd a)) (cfev (snd a))) alts)
    end.
  Fixpoint cost (T : fnode) : nat :=
    match T with
    | FLeaf _ _ | FNull _ => 0
    | FProd l r => cost l + cost r
    | FSum s alts => list_sum (map (fun a => 9 + cost (snd a)) alts)
    end.

  Lemma crep_is_rule : forall T h, crep g T h -> shape T -> exists nd, cget g h = Ret nd /\ is_crule nd = is_fprod T.
  Proof.
    intros T h H Hs. destruct T as [s v|s|l r|s alts].
    - cbn in H. eauto.
    - contradiction.
    - cbn in H. destruct H as (a & b & H & _). eauto.
    - apply crep_sum in H. destruct H as (start & e & -> & A & C & _). apply shape_sum in Hs. destruct Hs as [Hne _].
      destruct (length alts =? 1) eqn:X; [|eauto]. destruct alts as [|a alts]; [congruence|]. cbn in C.
      destruct C as (f & k & C & _). eauto.
  Qed.

  Lemma c_action_small : forall d, (N.of_nat d < C_NULL_ACTION)%N -> c_action (N.of_nat d) = Some d.
  Proof. intros d H. unfold c_action. rewrite (proj2 (N.eqb_neq _ _)) by lia. now rewrite Nat2N.id. Qed.

  Theorem crep_value : forall T h, crep g T h -> shape T -> fok fi T -> small T -> exists c, c <= cost T /\ cev g h (cfev T) c.
  Proof.
    intros T. induction T as [s v|s|l r IHl IHr|s alts IH] using fnode_ind2; intros h H Hsh Hf Hs.
    - exists 0. split; [auto|]. cbn in H. pose proof (cv_leaf ev fi nv g _ _ _ H) as X. now rewrite !Nat2N.id in X.
    - contradiction.
    - cbn [crep shape fok small cfev cost] in *. destruct H as (a & b & E0 & H1 & H2). destruct Hsh as [Sh1 Sh2], Hf as [F1 F2], Hs as [S1 S2].
      destruct (IHl _ H1 Sh1 F1 S1) as (c1 & L1 & V1). destruct (IHr _ H2 Sh2 F2 S2) as (c2 & L2 & V2).
      exists (c1 + c2). split; [lia|]. eapply cv_rule; [exact E0| |]; now rewrite Nat2N.id.
    - apply crep_sum in H. apply shape_sum in Hsh. apply fok_sum in Hf. apply small_sum in Hs.
      destruct H as (start & e & Eh & A & C & D), Hsh as [Hne Hsh], Hf as [_ Hok].
      assert (G : forall i, cchain g alts i e -> exists c, c <= list_sum (map (fun a => 9 + cost (snd a)) alts) /\
        cev g i (concat (map (fun a => alt_value ev fi nulls (fst a) (is_fprod (snd a)) (cfev (snd a))) alts)) c).
      { clear C Hne Eh. revert Hsh Hok Hs. induction IH as [|[d T] alts HT _ IHa]; intros Hsh Hok Hs i C.
        - cbn in *. subst i. exists 0. split; [auto|]. now apply cv_end.
        - inversion Hsh as [|? ? Sh1 Sh2]; subst. inversion Hok as [|? ? [O1 O2] Or]; subst. inversion Hs as [|? ? [Hd S1] S2]; subst.
          cbn [cchain fst snd map list_sum concat] in *. destruct C as (f & k & C1 & C2 & C3 & C4).
          destruct (IHa Sh2 Or S2 _ C4) as (c2 & L2 & V2). destruct (HT f C2 Sh1 O1 S1) as (c1 & L1 & V1).
          destruct (crep_is_rule T f C2 Sh1) as (nd & En & Er).
          assert (Fac : exists c, c <= 9 + cost T /\ exists vs, cfactors g (N.of_nat d) (N.of_nat f) vs c /\
             alt_value ev fi nulls d (is_fprod T) (cfev T) = wrap ev fi (Some d) vs).
          { unfold alt_value. rewrite <- wrap_reduce. destruct (is_fprod T) eqn:Ep.
            - exists c1. split; [lia|]. exists (cfev T). split; [|reflexivity].
              eapply cf_plain; [rewrite Nat2N.id; exact En|now left|now rewrite Nat2N.id].
            - specialize (O2 eq_refl). assert (Hn : N.of_nat d <> C_NULL_ACTION) by lia.
              destruct (nth_error (fi_nulling_eliminated fi) d) as [o|] eqn:Ee; [|apply nth_error_None in Ee; lia].
              unfold restore. rewrite Ee. destruct o as [[s0 dir]|].
              + pose proof (eliminated_range fi _ _ _ Ee) as L0.
                exists (9 + (c1 + 0)). split; [lia|]. exists (if dir then cfev T ++ nulls s0 else nulls s0 ++ cfev T).
                split; [|destruct dir; reflexivity].
                eapply cf_restored; [rewrite Nat2N.id; exact En|auto|auto|rewrite Nat2N.id; exact Ee| |now rewrite Nat2N.id|now apply cnulling_value].
                unfold u32. lia.
              + exists c1. split; [lia|]. exists (cfev T). split; [|reflexivity].
                eapply cf_plain; [rewrite Nat2N.id; exact En| |now rewrite Nat2N.id]. right. right. rewrite Nat2N.id. auto. }
          destruct Fac as (c & Lc & vs & HF & ->). exists (c + c2). split; [unfold list_sum in *; cbn [fold_right]; lia|].
          rewrite <- (c_action_small d Hd). eapply cv_summand; [exact C1|exact HF|exact C3|]. now rewrite Nat2N.id. }
      destruct (G _ C) as (c & Lc & V). exists c. split; [exact Lc|]. cbn [cfev]. rewrite Eh.
      destruct (length alts =? 1); [exact V|]. now apply cv_begin.
  Qed.

  (** ** Unambiguous nodes *)
  Lemma cfev_unambiguous : forall T ts, shape T -> trees T = [ts] -> cfev T = fev ev fi nulls T /\ cost T <= 9 * list_sum (map inner_nodes ts).
  Proof.
    intros T. induction T as [s v|s|l r IHl IHr|s alts IH] using fnode_ind2; intros ts Hs Ht.
    - injection Ht as <-. auto.
    - contradiction.
    - cbn [shape trees cfev fev cost] in *. destruct Hs as [H1 H2].
      apply flat_map_length1 in Ht. 2:{ intros a _ X. apply map_eq_nil in X. now apply (shape_trees r). }
      destruct Ht as (xs & El & Ht). apply map_single in Ht. destruct Ht as (ys & Er & <-).
      destruct (IHl xs H1 El) as [-> A]. destruct (IHr ys H2 Er) as [-> B]. split; [auto|]. rewrite map_app, list_sum_app. lia.
    - apply shape_sum in Hs. destruct Hs as [_ HF]. cbn [trees] in Ht. rewrite Forall_forall in HF, IH.
      apply flat_map_length1 in Ht. 2:{ intros a Ha X. apply map_eq_nil in X. apply (shape_trees (snd a)); auto. }
      destruct Ht as ([d T] & -> & Ht). apply map_single in Ht. destruct Ht as (xs & Ex & <-). cbn [fst snd] in *.
      destruct (IH (d, T) (or_introl eq_refl) xs (HF (d, T) (or_introl eq_refl)) Ex) as [EQ L].
      cbn [cfev fev cost map rotate app concat fst snd list_sum fold_right inner_nodes] in *. rewrite EQ. split; [auto|].
      lia.
  Qed.
End Value.

(** ** Fields fit *)
Lemma shape_small : forall T, shape T ->
  (forall ts t, den T ts -> In t ts -> (forall d, In d (tree_rules t) -> (N.of_nat d < C_NULL_ACTION)%N) /\
     forall s v, In (s, v) (yield t) -> u32 s /\ u32 v) ->
  small T.
Proof.
  intros T. induction T as [s v|s|l r IHl IHr|s alts IH] using fnode_ind2; intros Hs Hd.
  - destruct (Hd _ _ (den_leaf s v) (or_introl eq_refl)) as [_ H]. apply H. now left.
  - contradiction.
  - cbn in *. destruct Hs as [H1 H2].
    destruct (trees l) as [|xs0 ?] eqn:El; [now elim (shape_trees l)|].
    destruct (trees r) as [|ys0 ?] eqn:Er; [now elim (shape_trees r)|].
    assert (Dl : den l xs0) by (apply trees_den; rewrite El; now left).
    assert (Dr : den r ys0) by (apply trees_den; rewrite Er; now left).
    split.
    + apply IHl; auto. intros ts t Ht Hi. apply (Hd (ts ++ ys0) t); [now constructor|]. apply in_or_app. auto.
    + apply IHr; auto. intros ts t Ht Hi. apply (Hd (xs0 ++ ts) t); [now constructor|]. apply in_or_app. auto.
  - apply shape_sum in Hs. destruct Hs as [Hne HF]. apply small_sum.
    apply Forall_forall. intros [d T] Ha. rewrite Forall_forall in IH, HF. specialize (HF _ Ha). specialize (IH _ Ha).
    cbn [fst snd] in *.
    assert (K : forall xs, den T xs -> (forall d', In d' (tree_rules (Node d xs)) -> (N.of_nat d' < C_NULL_ACTION)%N) /\
      forall s v, In (s, v) (yield (Node d xs)) -> u32 s /\ u32 v).
    { intros xs Hx. apply (Hd [Node d xs] (Node d xs)); [eapply den_sum; eauto|now left]. }
    split.
    + destruct (trees T) as [|xs0 ?] eqn:El; [now elim (shape_trees T)|].
      destruct (K xs0) as [K1 _]; [apply trees_den; rewrite El; now left|]. apply K1. now left.
    + apply IH; auto. intros ts t Ht Hi. destruct (K ts Ht) as [K1 K2]. split.
      * intros d' Hd'. apply K1. right. apply in_flat_map. eauto.
      * intros s' v' Hv. apply K2. cbn. apply in_flat_map. eauto.
Qed.
