(** CompactWhole: evaluating the finished node of a parse over the compact bocage. *)
From Coq Require Import List Arith Bool Lia Permutation NArith.
From Verif Require Import Trees.
From Verif Require Import Base BaseProofs Item Grammar DefaultGrammar Forest ForestSpec Recognizer Drive ClientSpec Spec
  CfgSpec TablesProofs Den Sim SimpleBocage SimpleEval
  SimpleProofs SimpleValue EvalSpec TreeSpec ForestProg ForestValue SimpleTop PropLemmas3 PropLemmas4
  CompactGraph CompactGraphProofs CompactBocage CompactSpec CompactProofs CompactEval CompactValue CompactTop CompactForestSpec CompactMore.
Import ListNotations.
Local Open Scope res_scope.

Section Whole.
  Variable P : perf.
  Variables (c : pcfg) (nsyms : nat) (w : wrapped_root) (d0 : nat) (g0 : sym) (g : dgrammar).
  Hypothesis Hleo : LEO P = false.
  Hypothesis HB : built c nsyms w d0 g0 g.
  Let HP := b_processed _ _ _ _ _ _ HB.
  Variable cb0 : cbocage.
  Notation fi := (g_forest_info g).
  Hypothesis Hcb0 : cbocage_new fi = Ret cb0.
  Context {E : Type}.
  Variables (ev : evaluator E) (nv : sym -> E) (nulls : sym -> list E).
  Hypothesis Hpush : pushes ev nv.
  Hypothesis Hnulls : nulls_ok fi nv nulls.
  Hypothesis Hac : nulling_acyclic fi.

  (** the first alternative of the root counts *)
  Lemma c_root : forall b s d T alts h, cb_info b = fi -> u32 (length (cb_graph b)) ->
    crep (cb_graph b) (FSum s ((d, FProd (FLeaf (w_sof w) 0) T) :: alts)) h ->
    exists r, c_skip_wrapper b h = Ret (Some r) /\ crep (cb_graph b) T r.
  Proof.
    intros b s d T alts h Hi Hu Hc. destruct (info c nsyms w d0 g0 g HB) as (_ & I2 & _).
    apply crep_sum in Hc. destruct Hc as (start & e & Eh & Cb & Cc & _). cbn [length cchain fst snd] in *.
    destruct Cc as (f & sz & C1 & C2 & _). cbn [crep] in C2. destruct C2 as (a & bb & E2 & E3 & CX). exists bb. split; [|exact CX].
    assert (K : below_sof b (N.of_nat a) (N.of_nat bb) = Ret bb).
    { unfold below_sof. rewrite Nat2N.id, E3. cbn [bind]. rewrite Hi, I2, Nat2N.id, Nat.eqb_refl. cbn [assert bind]. now rewrite Nat2N.id. }
    unfold c_skip_wrapper. destruct (S (length alts) =? 1); subst h.
    - rewrite C1. cbn [bind]. rewrite Nat2N.id, E2. cbn [bind]. now rewrite K.
    - rewrite Cb. cbn [bind].
      apply cget_bound in Cb.
      rewrite wrap32_small by (eapply u32_le; [|exact Hu]; lia).
      rewrite C1. cbn [bind]. rewrite Nat2N.id, E2. cbn [bind]. now rewrite K.
  Qed.

  Theorem compact_evaluates : forall h0 rest, in_range c nsyms h0 rest -> rest <> [] -> input_fits c rest ->
    exists n r, total n (fun fuel => st <- r_new g cb0 ;; parse_forest compact_forest P g fuel (from_start w h0 rest) st) r /\
      forall h, fst r = Some h -> graph_fits (snd r) 0 ->
        exists l vs, cfinished_trees r l /\ forall k, graph_fits (snd r) (k * (9 * all_inner_nodes l)) ->
          exists fuel0 b', forall fuel, fuel0 <= fuel -> c_evaluate_each ev fuel (repeat h k) (snd r) = Ret (repeat vs k, b').
  Proof.
    intros h0 rest Hr Hne Hfit.
    destruct (free_trees P c nsyms w d0 g0 g Hleo HB (from_start w h0 rest)) as (n & o & p & A & Hsh & _).
    { now apply (from_start_ok c nsyms w d0 g0 HP). }
    { discriminate. }
    destruct (cbocage_new_at fi cb0 Hcb0) as (Hi0 & _ & Hlim & Hat0).
    destruct (total_transfer _ _ _ _ (compact_sim fi (cb_graph cb0)) P g n _ _ _ _ (cJ_start fi cb0 Hcb0) A) as ([oc b] & Ac & HJ & Hc).
    exists n, (oc, b). split; [exact Ac|]. cbn [fst snd] in *. intros h -> Hg. destruct o as [T|]; [|contradiction].
    destruct HJ as (Hib & (x & Hgx) & _). destruct (Hsh T eq_refl) as [Sh Hd].
    assert (Hgb : u32 (length (cb_graph b))) by (unfold graph_fits in Hg; now rewrite Nat.add_0_r in Hg).
    assert (Read : forall ts, den T ts -> exists t ys, ts = [t] /\ input_tree c w g0 ys t /\ ys <> []).
    { intros ts Hts. destruct (Hd ts Hts) as (t & -> & Ha). apply (from_start_accepted c nsyms w d0 g0 HP) in Ha.
      destruct Ha as (ys & Hys & Ht & _). exists t, ys. split; [auto|]. split; [auto|]. intros ->. destruct rest as [|l rest]; [congruence|]. cbn in Hys. inversion Hys. }
    assert (Sm : small T).
    { apply shape_small; [auto|]. intros ts t Hts Ht. destruct (Hd ts Hts) as (t' & -> & Ha). destruct Ht as [<-|[]].
      apply (from_start_accepted c nsyms w d0 g0 HP) in Ha. apply (read_fits c nsyms w d0 g0 g HB rest); eauto. }
    specialize (Hc Sm Hgb). destruct (info c nsyms w d0 g0 g HB) as (I1 & I2 & I3).
    assert (Hf : fok fi T).
    { apply shape_fok; [auto|]. intros ts t Hts Ht d Hin. rewrite I1, map_length. destruct (Read _ Hts) as (t' & ys & -> & Hy & _).
      destruct Ht as [<-|[]]. apply input_tree_yield in Hy. destruct Hy as [Hy _]. eapply tree_rules_range; eauto. }
    assert (Hat : forall s, s < nulling_symbol_count fi + 1 -> cnulling_at (cb_graph b) s (nulled_rhs fi s)).
    { intros s Hs. rewrite Hgx. apply cnulling_at_app. apply Hat0; [|auto]. eapply u32_le; [|exact Hgb]. rewrite Hgx, app_length. lia. }
    exists (trees T). pose proof (cost_trees T Sh) as Lcost. pose proof (crep_represents _ _ Sh _ Hc) as Hrep.
    destruct (root_form c w g0 T Sh) as (s & alts & -> & Ha).
    { intros ts Hts. destruct (Read ts Hts) as (t & ys & X & Y & _). eauto. }
    destruct alts as [|[d1 T1] alts]; [apply shape_sum in Sh; now destruct Sh|].
    pose proof Sh as Sh'. apply shape_sum in Sh'. destruct Sh' as [_ Sh']. inversion Sh' as [|? ? Sh1 _]; subst. cbn [snd] in Sh1.
    destruct (Ha _ (or_introl eq_refl)) as [Ea|(X & Ea)]; cbn [snd] in Ea; subst T1.
    - exfalso. destruct (Read [Node d1 [Leaf (w_sof w) 0]]) as (t & ys & Et & Hy & Hn).
      + eapply den_sum; [now left|constructor].
      + injection Et as <-. inversion Hy; subst. congruence.
    - destruct (c_root b s d1 X alts h Hib Hgb Hc) as (r & Hsk & CX).
      apply fok_sum in Hf. destruct Hf as [_ Hf]. inversion Hf as [|? ? [Hf1 _] _]; subst. cbn [fst snd fok] in Hf1.
      apply small_sum in Sm. inversion Sm as [|? ? [_ Sm1] _]; subst. cbn [fst snd small] in Sm1.
      cbn [shape] in Sh1.
      destruct (crep_value ev fi nv nulls Hnulls Hac Hlim (cb_graph b) Hat X r CX (proj2 Sh1) (proj2 Hf1) (proj2 Sm1)) as (cst & Lc & V).
      exists (cfev ev fi nulls X). split; [exact Hrep|]. intros k Hk.
      assert (Lx : cst <= 9 * all_inner_nodes (trees (FSum s ((d1, FProd (FLeaf (w_sof w) 0) X) :: alts)))).
      { etransitivity; [exact Lc|]. etransitivity; [|exact Lcost]. cbn [cost map snd list_sum fold_right]. lia. }
      destruct (c_evaluate_each_value ev fi nv Hpush (cb_graph b) h (cfev ev fi nulls X) cst k b []) as (fuel0 & b' & H).
      + exact Hib.
      + now rewrite app_nil_r.
      + exists r. auto.
      + eapply u32_le; [|exact Hk]. apply Nat.add_le_mono_l, Nat.mul_le_mono_l. exact Lx.
      + eauto.
  Qed.
End Whole.

(** ** Both bocages, for an evaluator that does not care about order *)
Theorem unordered_values : forall E (ev : evaluator E) fi nv nulls,
  pushes ev nv -> nulls_ok fi nv nulls -> nulling_acyclic fi -> unordered ev ->
  forall b0 cb0 calls i r, bocage_new fi = Ret b0 -> cbocage_new fi = Ret cb0 ->
  calls_fine (length (fi_nulling_eliminated fi)) calls -> calls_small calls -> wraps fi calls i r ->
  exists hs b h hs' b' h',
    build simple_forest calls b0 = Ret (hs, b) /\ nth_error hs i = Some h /\
    build compact_forest calls cb0 = Ret (hs', b') /\ nth_error hs' i = Some h' /\
    (graph_fits b' (nth r (call_costs calls) 0) ->
     exists fuel0 vs b1 vs' b1', Permutation vs vs' /\
       forall fuel, fuel0 <= fuel -> evaluate ev fuel b h = Ret (vs, b1) /\ c_evaluate ev fuel b' h' = Ret (vs', b1')).
Proof.
  intros E ev fi nv nulls Hpush Hnulls Hac Hun b0 cb0 calls i r Hb0 Hcb0 Hf Hs Hw.
  destruct (C20_lemma ev fi nv nulls Hpush Hnulls Hac b0 calls [(i, r)] Hb0 Hf) as (hs & b & hd1 & k1 & b1 & B1 & F1 & G1).
  { intros i' r' [X|[]]. injection X as <- <-. now left. }
  destruct (C20_compact_lemma ev fi nulls nv Hpush Hnulls Hac cb0 calls [(i, r)] Hcb0 Hf Hs) as (hs' & b' & hd2 & B2 & F2 & G2).
  { intros i' r' [X|[]]. injection X as <- <-. exact Hw. }
  inversion F1 as [|? h ? ? R1 F1']; subst. inversion F1'; subst. inversion F2 as [|? h' ? ? R2 F2']; subst. inversion F2'; subst.
  cbn [fst snd map list_sum fold_right] in *. exists hs, b, h, hs', b', h'. do 4 (split; [auto|]). intros Hg. rewrite Nat.add_0_r in G2.
  destruct (G2 Hg) as (k2 & b2 & H2). exists (k1 + k2). do 4 eexists.
  split; [apply (call_values_perm E ev fi nulls calls Hun Hf r)|].
  intros fuel Hfu. specialize (G1 fuel ltac:(lia)). specialize (H2 fuel ltac:(lia)). unfold evaluate_each, c_evaluate_each in *. cbn [foldM] in *.
  destruct (evaluate ev fuel b h) as [[v1 c1]| |]; cbn [bind] in G1; try discriminate.
  destruct (c_evaluate ev fuel b' h') as [[v2 c2]| |]; cbn [bind] in H2; try discriminate.
  injection G1 as -> ->. injection H2 as -> ->. split; reflexivity.
Qed.

(** ** Only the root ambiguous *)
Lemma c_root_ambiguous : forall E (ev : evaluator E) fi nulls s alts ts, (N.of_nat (nulling_symbol_count fi) < 1048576)%N ->
  shape (FSum s alts) -> trees (FSum s alts) = map (fun t => [t]) ts ->
  length ts = length alts -> cfev ev fi nulls (FSum s alts) = concat (map (value ev fi nulls) ts).
Proof.
  intros E ev fi nulls s alts ts Hlim HS HT HL. apply shape_sum in HS. destruct HS as [_ HS]. rewrite Forall_forall in HS.
  cbn [trees] in HT. cbn [cfev].
  assert (One : forall a, In a alts -> exists xs, trees (snd a) = [xs]).
  { intros a Ha. destruct (flat_map_each1 _ _ (fun a : nat * fnode => map (fun xs => [Node (fst a) xs]) (trees (snd a))) alts) with (a := a) as [x Hx]; auto.
    - intros b Hb Z. apply map_eq_nil in Z. now apply (shape_trees (snd b)); auto.
    - rewrite HT, map_length. auto.
    - apply map_single in Hx. destruct Hx as (xs & Hx & _). eauto. }
  f_equal. clear HL. revert ts HT. induction alts as [|[d T] alts IH]; intros ts HT.
  - destruct ts; [reflexivity|discriminate].
  - destruct (One (d, T) (or_introl eq_refl)) as [xs Hx]. cbn [snd] in Hx.
    cbn [flat_map fst snd] in HT. rewrite Hx in HT. cbn [map app] in HT.
    destruct ts as [|t ts]; [discriminate|]. cbn [map] in HT. injection HT as <- HT.
    assert (ShT : shape T) by (apply (HS (d, T)); now left).
    cbn [map fst snd]. f_equal.
    + rewrite (proj1 (cfev_unambiguous ev fi nulls Hlim T xs ShT Hx)).
      apply node_value; [rewrite Hx; cbn; auto|]. now apply unambiguous_value.
    + apply IH; auto; intros a Ha; [apply HS|apply One]; cbn; auto.
Qed.

Theorem C17_compact_lemma : forall E (ev : evaluator E) fi nv nulls,
  pushes ev nv -> nulls_ok fi nv nulls -> nulling_acyclic fi ->
  forall cb0 calls i r s alts ts,
  cbocage_new fi = Ret cb0 -> calls_fine (length (fi_nulling_eliminated fi)) calls -> calls_small calls -> wraps fi calls i r ->
  nth_error calls r = Some (CallSum s alts) ->
  nth_error (represented calls) r = Some (map (fun t => [t]) ts) -> length ts = length alts ->
  exists hs b root, build compact_forest calls cb0 = Ret (hs, b) /\ nth_error hs i = Some root /\
    (graph_fits b (nth r (call_costs calls) 0) -> exists fuel0 b', forall fuel, fuel0 <= fuel ->
       c_evaluate ev fuel b root = Ret (concat (map (value ev fi nulls) ts), b')).
Proof.
  intros E ev fi nv nulls Hpush Hnulls Hac cb0 calls i r s alts ts H0 Hf Hs Hw Hc Hr HL.
  destruct (C20_compact_lemma ev fi nulls nv Hpush Hnulls Hac cb0 calls [(i, r)] H0 Hf Hs) as (hs & b & hd & B & F & G).
  { intros i' r' [X|[]]. injection X as <- <-. exact Hw. }
  inversion F as [|? h ? ? R1 F1']; subst. inversion F1'; subst. cbn [fst snd map list_sum fold_right] in *.
  exists hs, b, h. split; [exact B|]. split; [exact R1|]. rewrite Nat.add_0_r in G. intros Hg. destruct (G Hg) as (k & b' & H).
  exists k, b'. intros fuel Hfu. specialize (H fuel Hfu). unfold c_evaluate_each in H. cbn [foldM] in H.
  destruct (c_evaluate ev fuel b h) as [[v2 c2]| |]; cbn [bind] in H; try discriminate. injection H as -> ->. f_equal. f_equal.
  destruct (cbocage_new_at fi cb0 H0) as (_ & _ & Hlim & _).
  destruct (free_build fi calls Hf) as (Ts & p & EB & Ht & HF).
  assert (HFp : Forall2 (fun T c => is_fprod T = is_product c) Ts calls) by (eapply Forall2_impl2; [|exact HF]; cbn; tauto).
  assert (HLen : length Ts = length calls) by (eapply Forall2_length2; eauto).
  destruct (c_call_values_cfev ev fi nulls calls Ts p Hf EB HFp) as [HV _].
  pose proof (Forall2_nth _ _ _ _ _ r HF) as Y. rewrite Hc in Y. destruct (nth_error Ts r) as [T|] eqn:ET; [|contradiction]. destruct Y as (Sh & _).
  rewrite HV, (nth_error_nth _ _ _ (map_nth_error (cfev ev fi nulls) _ _ ET)).
  rewrite <- Ht, nth_error_map, ET in Hr. cbn in Hr. injection Hr as Hr.
  destruct (build_nodes calls Ts p EB HLen r _ T Hc ET) as (q & HFq & ->).
  apply c_root_ambiguous; auto. apply Forall2_length2 in HFq. congruence.
Qed.

(** ** For the examples *)

(** an evaluator that counts leaves *)
Definition count_eval : evaluator nat :=
  mkEval (fun _ _ => 1) (fun _ args => list_sum args) (fun _ results => results ++ [0]) 0.

Lemma amb_calls_small : calls_small amb_calls /\ calls_small amb_root_calls /\ calls_small ex_calls.
Proof.
  assert (G : forall calls, forallb (fun c => match c with
      | CallLeaf s v => andb (N.of_nat s <? 4294967296)%N (N.of_nat v <? 4294967296)%N
      | CallProduct _ _ => true
      | CallSum _ alts => forallb (fun a => (N.of_nat (fst a) <? C_NULL_ACTION)%N) alts
      end) calls = true -> calls_small calls).
  { intros calls H c Hc. rewrite forallb_forall in H. specialize (H c Hc). destruct c as [s v|l r|s alts]; [|exact I|].
    - apply andb_prop in H. destruct H as [A B]. split; now apply N.ltb_lt.
    - intros d i Hin. rewrite forallb_forall in H. specialize (H _ Hin). now apply N.ltb_lt. }
  split; [|split]; apply G; reflexivity.
Qed.

Lemma count_eval_fine : pushes count_eval (fun _ => 0) /\ unordered count_eval.
Proof.
  split; [intros s rs; exists []; reflexivity|]. unfold unordered. intros id args args' H. cbn [ev_product count_eval].
  unfold list_sum. induction H as [|x l l' _ IH|x y l|l l' l'' _ IH1 _ IH2]; cbn [fold_right] in *; lia.
Qed.
