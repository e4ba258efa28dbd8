(** ReuseCompact: calls and evaluations of the compact bocage in any order.  An evaluation
    only appends to the graph, so what the handles stand for stays. *)
From Coq Require Import List Arith Bool Lia NArith.
From Verif Require Import Base BaseProofs TablesProofs Item Grammar Forest ForestSpec Spec Den Sim SimpleBocage EvalSpec SimpleEval
  SimpleProofs SimpleValue ForestProg ForestValue SimpleTop CompactGraph CompactGraphProofs CompactBocage CompactSpec CompactProofs CompactEval CompactValue
  CompactForestSpec CompactMore CompactTop ReuseSpec Reuse.
Import ListNotations.
Local Open Scope res_scope.

(** ** What calls append *)
Lemma push_summands_bytes : forall hs (alts : list (nat * nat)) b b',
  foldM (fun f a => n <- idx hs (snd a) ;; f_push_summand compact_forest (mkItem (fst a) 0 n) f) alts b = Ret b' ->
  exists y, cb_graph b' = cb_graph b ++ y /\ length y <= 9 * length alts.
Proof.
  intros hs alts. induction alts as [|[d i] alts IH]; intros b b' H; cbn [foldM] in H.
  - injection H as <-. exists []. split; [now rewrite app_nil_r|]. cbn. lia.
  - cbn [fst snd] in H. destruct (idx hs i) as [n| |]; try discriminate. cbn [bind] in H. cbn [compact_forest f_push_summand bind] in H.
    apply IH in H. destruct H as (y & E1 & L1). cbn [cb_graph it_dot it_node] in E1.
    destruct (push_app (cb_graph b) (CSummand (N.of_nat d) (N.of_nat n))) as (x & E2 & L2).
    exists (x ++ y). split; [rewrite E1, E2; now rewrite app_assoc|]. rewrite app_length. cbn [length]. lia.
Qed.

Lemma call_appends : forall c hs b hs' b', build_call compact_forest (hs, b) c = Ret (hs', b') ->
  exists y, cb_graph b' = cb_graph b ++ y /\ length y <= call_bytes c.
Proof.
  intros c hs b hs' b' H. destruct c as [s v|l r|s alts]; cbn [build_call] in H.
  - cbn [compact_forest f_leaf bind] in H. injection H as <- <-. cbn [with_cgraph cb_graph].
    destruct (push_app (cb_graph b) (CLeaf (N.of_nat s) (N.of_nat v))) as (y & E & L). exists y. split; [exact E|cbn; lia].
  - destruct (idx hs l) as [l'| |]; try discriminate. cbn [bind] in H. destruct (idx hs r) as [r'| |]; try discriminate. cbn [bind] in H.
    cbn [compact_forest f_product] in H. unfold c_product in H. cbn [bind] in H. injection H as <- <-. cbn [with_cgraph cb_graph].
    destruct (push_app (cb_graph b) (CRule (N.of_nat l') (N.of_nat r'))) as (y & E & L). exists y. split; [exact E|cbn; lia].
  - match type of H with (f <- f_begin_sum compact_forest b ;; _) = _ => cbn [compact_forest f_begin_sum] in H end.
    cbn [bind] in H.
    destruct (foldM _ alts _) as [b1| |] eqn:E1 in H; try discriminate. cbn [bind] in H.
    apply push_summands_bytes in E1. destruct E1 as (y & E1 & L1). cbn [cb_graph g_push] in E1.
    cbn [compact_forest f_sum] in H. destruct (cb_sum b1) as [st|]; [|discriminate]. cbn [unwrap bind] in H.
    exists ([0%N] ++ y ++ [1%N]). split; [|rewrite !app_length; cbn [length call_bytes]; lia].
    assert (G : cb_graph b' = cb_graph b1 ++ [1%N]).
    { destruct (cb_num_summands b1 =? 1); cbn [bind] in H; injection H as _ <-; reflexivity. }
    rewrite G, E1. now rewrite <- !app_assoc.
Qed.

Lemma calls_small_app : forall calls more, calls_small (calls ++ more) -> calls_small calls.
Proof. intros calls more H c Hc. apply H. apply in_or_app. auto. Qed.

Section Root.
  Context {E : Type}.
  Variable ev : evaluator E.
  Variable fi : forest_info.
  Variable nv : sym -> E.
  Variable nulls : sym -> list E.
  Hypothesis Hnulls : nulls_ok fi nv nulls.
  Hypothesis Hac : nulling_acyclic fi.
  Notation rules := (length (fi_nulling_eliminated fi)).

  (** roots of a forest in use *)
  Lemma c_used_root : forall cb0 calls Ts p hs b, cbocage_new fi = Ret cb0 -> calls_fine rules calls -> calls_small calls ->
    build free_forest calls [] = Ret (Ts, p) -> brel (cJ fi (cb_graph cb0)) cQ (Ts, p) (hs, b) -> u32 (length (cb_graph b)) ->
    forall i r, wraps fi calls i r -> exists h c, nth_error hs i = Some h /\ c <= nth r (call_costs calls) 0 /\
      croot_value ev fi nv (cb_graph b) b h (nth r (c_call_values ev fi nulls calls) []) c.
  Proof.
    intros cb0 calls Ts p hs b H0 Hf Hs EB [(Ib & (x & Dx) & _) HQ] Hu i r (s & d & p1 & l & v & C1 & C2 & C3). cbn [fst snd] in *.
    destruct (free_build fi calls Hf) as (Ts' & p' & EB' & Ht & HF). rewrite EB in EB'. injection EB' as <- <-.
    destruct (cbocage_new_at fi cb0 H0) as (Hi0 & Hsum & Hlim & Hat0).
    assert (HFp : Forall2 (fun T c => is_fprod T = is_product c) Ts calls) by (eapply Forall2_impl2; [|exact HF]; cbn; tauto).
    assert (HL : length Ts = length calls) by (eapply Forall2_length2; eauto).
    destruct (c_call_values_cfev ev fi nulls calls Ts p Hf EB HFp) as [HV HC].
    assert (Len : length hs = length calls) by (rewrite <- HL; symmetry; eapply Forall2_length2; eauto).
    assert (Ib' : (fun i => i = fi) (cb_info b)) by exact Ib. clear Ib Hi0.
    destruct (nth_error hs i) as [h|] eqn:Hh.
    2:{ apply nth_error_None in Hh. assert (i < length calls) by (apply nth_error_Some; congruence). lia. }
    exists h. pose proof (Forall2_nth _ _ _ _ _ i HQ) as X. rewrite Hh in X. destruct (nth_error Ts i) as [T|] eqn:ET; [|contradiction].
    pose proof (Forall2_nth _ _ _ _ _ i HF) as Y. rewrite ET, C1 in Y. destruct Y as (Sh & Fk & _).
    pose proof (calls_nodes_small fi calls Ts p Hf Hs EB HL i T ET) as Sm. specialize (X Sm Hu). cbn [snd] in X.
    destruct (build_nodes calls Ts p EB HL i _ T C1 ET) as (q & HFq & ->).
    inversion HFq as [|[d0 p0] [d1 T1] ? ? [E1 E2] HFr]; subst. inversion HFr; subst. cbn [fst snd] in *. subst d1.
    destruct (build_nodes calls Ts p EB HL p1 _ T1 C2 E2) as (L & R & EL & ER & ->).
    rewrite (build_nodes calls Ts p EB HL l _ L C3 EL) in *.
    destruct (c_wrapper_root fi b s d v R h Ib' X) as (rr & Hsk & HR).
    pose proof (Forall2_nth _ _ _ _ _ r HF) as Y. rewrite ER in Y. destruct (nth_error calls r) as [cr|]; [|contradiction]. destruct Y as (ShR & FkR & _).
    assert (Hat : forall s, s < nulling_symbol_count fi + 1 -> cnulling_at (cb_graph b) s (nulled_rhs fi s)).
    { intros s' Hs'. rewrite Dx. apply cnulling_at_app. apply Hat0; [|auto]. eapply u32_le; [|exact Hu]. rewrite Dx, app_length. lia. }
    destruct (crep_value ev fi nv nulls Hnulls Hac Hlim (cb_graph b) Hat R rr HR ShR FkR (calls_nodes_small fi calls Ts p Hf Hs EB HL r R ER)) as (cst & Lc & V).
    exists cst. rewrite HV, HC.
    rewrite (nth_error_nth _ _ _ (map_nth_error cost _ _ ER)), (nth_error_nth _ _ _ (map_nth_error (cfev ev fi nulls) _ _ ER)).
    split; [reflexivity|]. split; [exact Lc|]. exists rr. auto.
  Qed.
End Root.

Section Moves.
  Context {E : Type}.
  Variable fi : forest_info.
  Hypothesis Hac : nulling_acyclic fi.
  Variable cb0 : cbocage.
  Hypothesis H0 : cbocage_new fi = Ret cb0.
  Notation rules := (length (fi_nulling_eliminated fi)).

  Lemma c_moves_run : forall (ms : list (move E)) before expected bytes, c_answers fi before ms expected bytes ->
    calls_fine rules (before ++ made ms) -> calls_small (before ++ made ms) ->
    forall Ts p hs b out, build free_forest before [] = Ret (Ts, p) -> brel (cJ fi (cb_graph cb0)) cQ (Ts, p) (hs, b) ->
    u32 (length (cb_graph b) + bytes) ->
    exists fuel0 hs' b', forall fuel, fuel0 <= fuel -> foldM (compact_move fuel) ms (hs, b, out) = Ret (hs', b', out ++ expected).
  Proof.
    intros ms before expected bytes H. induction H as [before|before c ms expected bytes H IH|before ev nv nulls i r ms expected bytes Hp Hn He H IH];
      intros Hf Hs Ts p hs b out EB HR Hu.
    - exists 0, hs, b. intros. cbn. now rewrite app_nil_r.
    - change (made (Make c :: ms)) with (c :: made ms) in *.
      replace (before ++ c :: made ms) with ((before ++ [c]) ++ made ms) in * by (rewrite <- app_assoc; reflexivity).
      pose proof (calls_fine_app _ _ _ Hf) as Hf1.
      destruct (free_build fi (before ++ [c]) Hf1) as (Ts' & p' & EB' & _ & _).
      pose proof EB' as EC. rewrite (build_snoc _ _ _ _ _ _ _ EB) in EC.
      pose proof (sim_build_call _ _ _ _ (compact_sim fi (cb_graph cb0)) c (Ts, p) (hs, b)) as S. rewrite EC in S.
      destruct S as ([hs' b1] & E1 & HR').
      { intros s ->. eapply calls_fine_nonempty; [exact Hf1|]. apply in_or_app. right. now left. }
      { exact HR. }
      destruct (call_appends _ _ _ _ _ E1) as (y & Ey & Ly).
      destruct (IH Hf Hs Ts' p' hs' b1 out EB' HR') as (k & hs2 & b2 & G).
      { eapply u32_le; [|exact Hu]. rewrite Ey, app_length. lia. }
      exists k, hs2, b2. intros fuel Hk. cbn [foldM compact_move]. rewrite E1. cbn [bind]. now apply G.
    - change (made (Ask ev i :: ms)) with (made ms) in *.
      pose proof (calls_fine_app _ _ _ Hf) as Hf1. pose proof (calls_small_app _ _ Hs) as Hs1.
      destruct (c_used_root ev fi nv nulls Hn Hac cb0 before Ts p hs b H0 Hf1 Hs1 EB HR) with (i := i) (r := r) as (h & c & Eh & Lc & rr & Hr & Hv).
      { eapply u32_le; [|exact Hu]. lia. }
      { exact He. }
      destruct HR as [(Ib & (x & Dx) & _) HQ]. cbn [fst snd] in *.
      destruct (c_loop_value ev fi nv Hp (cb_graph b) b [] rr _ c Ib (eq_sym (app_nil_r _)) Hv) as (k1 & b1 & y & I1 & G1 & L1 & R1).
      { eapply u32_le; [|exact Hu]. lia. }
      destruct (IH Hf Hs Ts p hs b1 (out ++ [nth r (c_call_values ev fi nulls before) []]) EB) as (k2 & hs2 & b2 & G2).
      { split; cbn [fst snd].
        - split; [exact I1|]. split; [|exact I]. exists (x ++ y). now rewrite G1, Dx, app_assoc.
        - eapply Forall2_impl2; [|exact HQ]. intros T n. cbn [snd]. apply (cQ_grows _ _ _ _ y G1). }
      { eapply u32_le; [|exact Hu]. rewrite G1, app_length. lia. }
      exists (k1 + k2), hs2, b2. intros fuel Hk. cbn [foldM compact_move]. rewrite (idx_some _ _ _ _ Eh). cbn [bind].
      destruct (R1 fuel ltac:(lia)) as (rs & S & w & A & B & C).
      unfold c_evaluate at 1. rewrite Hr. cbn [bind]. rewrite A. cbn [bind]. rewrite (idx_some _ _ _ _ B). cbn [bind].
      rewrite C. cbn [bind]. rewrite G2 by lia. rewrite <- app_assoc. reflexivity.
  Qed.

  Theorem P_compact_moves : forall (ms : list (move E)) out bytes,
    calls_fine rules (made ms) -> calls_small (made ms) -> c_answers fi [] ms out bytes -> graph_fits cb0 bytes ->
    exists fuel0, forall fuel, fuel0 <= fuel -> compact_moves fuel ms cb0 = Ret out.
  Proof.
    intros ms out bytes Hf Hs Ha Hg.
    destruct (c_moves_run ms [] out bytes Ha Hf Hs [] [] [] cb0 [] eq_refl) as (k & hs & b & G).
    { split; cbn [fst snd]; [|constructor]. now apply cJ_start. }
    { exact Hg. }
    exists k. intros fuel Hk. unfold compact_moves. now rewrite G.
  Qed.
End Moves.
