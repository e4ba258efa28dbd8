(** CostTop: the bounds of Cost.v for grammars that were built, and for [parse]. *)
From Coq Require Import List Arith Bool Lia.
From Verif Require Import Base BaseProofs Vec2d Item Grammar DefaultGrammar Forest Recognizer Drive Parse Sim SimpleBocage CompactGraph CompactBocage
  Spec Chart CfgSpec ForestSpec ClientSpec TreeSpec Tables TablesProofs TableFacts Recog RowsInv RecogFacts ParseFacts PropLemmas CostSpec Cost.
Import ListNotations.
Local Open Scope res_scope.

Lemma counted_usable : forall F N (fo : forest_ops F N) ok, usable fo ok -> usable (counted fo) (fun ph f => ok ph (fst f)).
Proof.
  intros F N fo ok U. split; intros.
  - destruct (u_begin _ _ U _ H) as (f' & E & H'). cbn. rewrite E. cbn. eexists. split; [reflexivity|]. exact H'.
  - destruct (u_push _ _ U b it _ H) as (f' & E & H'). cbn. rewrite E. cbn. eexists. split; [reflexivity|]. exact H'.
  - destruct (u_sum _ _ U s o _ H) as (n & f' & E & H'). cbn. rewrite E. cbn. eexists _, _. split; [reflexivity|]. exact H'.
  - destruct (u_product _ _ U l r _ H) as (n & f' & E & H'). cbn. rewrite E. cbn. eexists _, _. split; [reflexivity|]. exact H'.
  - destruct (u_leaf _ _ U s p v _ H) as (n & f' & E & H'). cbn. rewrite E. cbn. eexists _, _. split; [reflexivity|]. exact H'.
  - destruct (u_nulling _ _ U s _ H) as (n & E). cbn. rewrite E. eauto.
Qed.

Lemma unit_weight_PHI : forall R rank, PHI R rank = unit_weight R rank.
Proof.
  intros R rank. unfold PHI, unit_weight. f_equal.
  assert (X : forall L k, (forall i r, nth_error L i = Some r -> nth_error R (k + i) = Some r) ->
    map (pw R rank) (seq k (length L)) = map (fun r => S (length R) ^ rank (p_lhs r)) L).
  { induction L as [|r L IH]; intros k HL; [reflexivity|]. cbn [length seq map]. f_equal.
    - unfold pw, lhs_of. specialize (HL 0 r eq_refl). rewrite Nat.add_0_r in HL. now rewrite HL.
    - apply IH. intros i r' Hi. replace (S k + i) with (k + S i) by lia. now apply HL. }
  apply (X R 0). auto.
Qed.

Lemma run_cost_at : forall P c nsyms w d0 g0 g, built c nsyms w d0 g0 g -> LEO P = false ->
  forall rank, ranks_units (c_rules c) rank ->
  forall s F N (fo : forest_ops F N) f0 fuel locs b st,
  (forall loc, In loc locs -> length (l_toks loc) <= s /\ forall t v, In (t, v) (l_toks loc) -> t < c_num_syms c) ->
  (st <- r_new g (f0, 0) ;; feed_all (counted fo) P g fuel locs st) = Ret (b, st) ->
  snd (r_forest st) <= cubic_factor (c_rules c) rank s * length locs ^ 3 /\
  v_item_count (r_medial st) <= square_factor (c_rules c) rank s * S (length locs) ^ 2.
Proof.
  intros P c nsyms w d0 g0 g HB Hleo rank Hrank s F N fo f0 fuel locs b st Hl H. destruct (rows_tables _ _ _ _ _ _ HB) as (FI & FO & tok).
  destruct (b_processed _ _ _ _ _ _ HB) as [wf _ _ _ _ _ _ _ _ _ _ _ _ _ _ _].
  destruct (run_cost fo P g (c_rules c) nsyms (c_num_syms c) FI FO Hleo wf tok rank Hrank s f0 fuel locs b st) as [X Y]; auto.
  - intros loc Hloc. destruct (Hl loc Hloc) as [A B]. split; [exact A|]. intros [t v] Hx. exact (B t v Hx).
  - unfold C0, Bd in X, Y. rewrite unit_weight_PHI in X, Y. split; assumption.
Qed.

Lemma P_run_cost : forall P c nsyms w d0 g0 g, built c nsyms w d0 g0 g -> LEO P = false ->
  forall s, exists k, forall F N (fo : forest_ops F N) f0 fuel locs b st,
  (forall loc, In loc locs -> length (l_toks loc) <= s /\ forall t v, In (t, v) (l_toks loc) -> t < c_num_syms c) ->
  (st <- r_new g (f0, 0) ;; feed_all (counted fo) P g fuel locs st) = Ret (b, st) ->
  snd (r_forest st) <= k * length locs ^ 3 /\ v_item_count (r_medial st) <= k * S (length locs) ^ 2.
Proof.
  intros P c nsyms w d0 g0 g HB Hleo s. destruct (pr_acyclic _ _ _ _ _ (b_processed _ _ _ _ _ _ HB)) as (rank & Hrank).
  exists (cubic_factor (c_rules c) rank s + square_factor (c_rules c) rank s). intros F N fo f0 fuel locs b st Hl H.
  destruct (run_cost_at P c nsyms w d0 g0 g HB Hleo rank Hrank s F N fo f0 fuel locs b st Hl H) as [X Y].
  generalize dependent (length locs ^ 3). generalize dependent (S (length locs) ^ 2). intros a Ha q Hq. nia.
Qed.

Lemma hinted_length : forall use xs j, length (hinted use j xs) = length xs.
Proof. induction xs as [|x xs IH]; intros j; cbn; auto. Qed.

Lemma hinted_in : forall use xs j loc, In loc (hinted use j xs) -> exists x, In x xs /\ l_toks loc = [x].
Proof.
  induction xs as [|x xs IH]; intros j loc H; [destruct H|]. destruct H as [<-|H].
  - exists x. split; [simpl; auto|reflexivity].
  - destruct (IH _ _ H) as (y & Hy & E). exists y. split; [simpl; auto|auto].
Qed.

Lemma parse_state : forall F N (fo : forest_ops F N) P g fuel tokens syms st r st', mapped g tokens syms -> r_hint st = None ->
  parse fo P g fuel st tokens = Ret (r, st') ->
  exists b, feed_all fo P g fuel (hinted after0 0 ((g_sof_sym g, 0) :: numbered 0 syms)) st = Ret (b, st').
Proof.
  intros F N fo P g fuel tokens syms st r st' Hm Hh H. pose proof (parse_feed fo P g fuel tokens syms st Hm Hh) as X. cbn zeta in X.
  destruct (feed_all fo P g fuel (hinted after0 0 ((g_sof_sym g, 0) :: numbered 0 syms)) st) as [[[] s1]| |].
  - rewrite X in H. inv H. injection H as <- <-. eauto.
  - destruct X as [(X & _)|(k & t & _ & X & _)]; rewrite X in H; injection H as <- <-; eauto.
  - rewrite X in H. discriminate.
  - rewrite X in H. discriminate.
Qed.

Lemma P_parse_cost : forall P c nsyms w d0 g0 g, built c nsyms w d0 g0 g -> LEO P = false ->
  exists k, forall F N (fo : forest_ops F N) f0 fuel tokens syms r st,
  mapped g tokens syms -> (forall s, In s syms -> s < nsyms) ->
  (st <- r_new g (f0, 0) ;; parse (counted fo) P g fuel st tokens) = Ret (r, st) ->
  snd (r_forest st) <= k * S (length tokens) ^ 3 /\ v_item_count (r_medial st) <= k * S (length tokens) ^ 2.
Proof.
  intros P c nsyms w d0 g0 g HB Hleo. destruct (P_run_cost P c nsyms w d0 g0 g HB Hleo 1) as (k & Hk). exists (4 * k).
  intros F N fo f0 fuel tokens syms r st Hm Hs H. inv H.
  assert (Hh : r_hint a = None).
  { unfold r_new in E. inv E. inv E. inv E. inv E. injection E as <-. reflexivity. }
  destruct (parse_state _ _ _ _ _ _ _ _ _ _ _ Hm Hh H) as (b & Hf).
  destruct (Hk F N fo f0 fuel (hinted after0 0 ((g_sof_sym g, 0) :: numbered 0 syms)) b st) as [X Y].
  - intros loc Hl. apply hinted_in in Hl. destruct Hl as (x & Hx & ->). split; [auto|].
    intros t v [->|[]]. pose proof (pr_le _ _ _ _ _ (b_processed _ _ _ _ _ _ HB)) as Hle.
    destruct Hx as [Hx|Hx].
    + injection Hx as <- _. pose proof (pr_sof_range _ _ _ _ _ (b_processed _ _ _ _ _ _ HB)).
      rewrite (sof_sym _ _ _ _ _ _ HB) in *. lia.
    + apply numbered_in in Hx. specialize (Hs _ Hx). lia.
  - rewrite E. exact Hf.
  - rewrite hinted_length in X, Y. cbn [length] in X, Y. rewrite numbered_length in X, Y.
    assert (El : length syms = length tokens) by (clear - Hm; unfold mapped in Hm; induction Hm; cbn; congruence).
    rewrite El in X, Y. split; [lia|].
    assert (Z : S (S (length tokens)) ^ 2 <= 4 * S (length tokens) ^ 2) by (cbn [Nat.pow]; nia). nia.
Qed.

(** ** The size of a forest *)
Section Size.
  Context {F N : Type}.
  Variables (fo : forest_ops F N) (size : F -> nat) (a s1 : nat).
  Hypothesis Ha : adds_at_most fo size a.

  Definition cJ (_ : phase) (f : F) (f2 : F * nat) : Prop := fst f2 = f /\ size f <= s1 + a * snd f2.
  Definition cQ (_ : F) (_ : F * nat) (n1 n2 : N) : Prop := n1 = n2.

  Lemma counted_sim : fsim fo (counted fo) cJ cQ.
  Proof.
    destruct Ha as [A1 A2 A3 A4 A5].
    split; intros; match goal with H : cJ _ _ _ |- _ => destruct H as [<- Hz] end.
    - cbn. destruct (f_begin_sum fo (fst f2)) as [f'| |] eqn:E; cbn; auto. eexists. split; [reflexivity|].
      split; [|intros ? ? X; exact X]. split; [reflexivity|]. cbn. specialize (A1 _ _ E). lia.
    - destruct H0 as (D1 & D2 & D3). unfold cQ in D3. destruct i1, i2; cbn in D1, D2, D3. subst.
      cbn. destruct (f_push_summand fo _ (fst f2)) as [f'| |] eqn:E; cbn; auto. eexists. split; [reflexivity|].
      split; [|intros ? ? X; exact X]. split; [reflexivity|]. cbn. specialize (A2 _ _ _ E). lia.
    - cbn. destruct (f_sum fo s o (fst f2)) as [[n f']| |] eqn:E; cbn; auto. eexists. split; [reflexivity|].
      split; [|split; [intros ? ? X; exact X|reflexivity]]. split; [reflexivity|]. cbn. specialize (A3 _ _ _ _ _ E). lia.
    - unfold cQ in H0, H1. subst. cbn. destruct (f_product fo l2 r2 (fst f2)) as [[n f']| |] eqn:E; cbn; auto. eexists. split; [reflexivity|].
      split; [|split; [intros ? ? X; exact X|reflexivity]]. split; [reflexivity|]. cbn. specialize (A4 _ _ _ _ _ E). lia.
    - cbn. destruct (f_leaf fo s pos v (fst f2)) as [[n f']| |] eqn:E; cbn; auto. eexists. split; [reflexivity|].
      split; [|split; [intros ? ? X; exact X|reflexivity]]. split; [reflexivity|]. cbn. specialize (A5 _ _ _ _ _ _ E). lia.
    - cbn. destruct (f_nulling fo s (fst f2)) as [n| |]; cbn; auto. exists n. split; reflexivity.
  Qed.
End Size.

Lemma run_size_at : forall P c nsyms w d0 g0 g, built c nsyms w d0 g0 g -> LEO P = false ->
  forall rank, ranks_units (c_rules c) rank ->
  forall s F N (fo : forest_ops F N) size a, adds_at_most fo size a ->
  forall f0 fuel locs b st,
  (forall loc, In loc locs -> length (l_toks loc) <= s /\ forall t v, In (t, v) (l_toks loc) -> t < c_num_syms c) ->
  (st <- r_new g f0 ;; feed_all fo P g fuel locs st) = Ret (b, st) ->
  size (r_forest st) <= size f0 + a * (cubic_factor (c_rules c) rank s * length locs ^ 3).
Proof.
  intros P c nsyms w d0 g0 g HB Hleo rank Hrank s F N fo size a Ha f0 fuel locs b st Hl H. inv H. rename a0 into st1.
  pose proof (sim_new (F1 := F) (N1 := N) (N2 := N) (cJ size a (size f0)) cQ g f0 (f0, 0)) as X.
  rewrite E in X. destruct X as (st1' & E1 & X); [split; [reflexivity|cbn; lia]|].
  pose proof (sim_feed_all _ _ _ _ (counted_sim fo size a (size f0) Ha) P g fuel locs _ _ X) as Y.
  rewrite H in Y. destruct Y as ([b' st'] & E2 & Eb & Y). cbn [fst snd] in *. subst b'.
  destruct (run_cost_at P c nsyms w d0 g0 g HB Hleo rank Hrank s F N fo f0 fuel locs b st' Hl) as [Z _]; [rewrite E1; exact E2|].
  destruct Y as [[Y1 Y2] _]. pose proof (Nat.mul_le_mono_l _ _ a Z). lia.
Qed.

Lemma P_run_size : forall P c nsyms w d0 g0 g, built c nsyms w d0 g0 g -> LEO P = false ->
  forall s, exists k, forall F N (fo : forest_ops F N) size a, adds_at_most fo size a ->
  forall f0 fuel locs b st,
  (forall loc, In loc locs -> length (l_toks loc) <= s /\ forall t v, In (t, v) (l_toks loc) -> t < c_num_syms c) ->
  (st <- r_new g f0 ;; feed_all fo P g fuel locs st) = Ret (b, st) ->
  size (r_forest st) <= size f0 + a * (k * length locs ^ 3).
Proof.
  intros P c nsyms w d0 g0 g HB Hleo s. destruct (pr_acyclic _ _ _ _ _ (b_processed _ _ _ _ _ _ HB)) as (rank & Hrank).
  exists (cubic_factor (c_rules c) rank s). exact (run_size_at P c nsyms w d0 g0 g HB Hleo rank Hrank s).
Qed.

Lemma simple_adds : adds_at_most simple_forest (fun b => length (b_graph b)) 1.
Proof.
  split; cbn.
  - intros f f' H. injection H as <-. lia.
  - intros it f f' H. injection H as <-. cbn. rewrite app_length. cbn. lia.
  - intros s o f n f' H. unfold b_sum in H. destruct (b_count f) as [|[|m]]; [discriminate|injection H as _ <-; cbn; lia|].
    inv H. inv H. inv H. injection H as _ <-. apply upd_inv in E1. destruct E1 as [_ ->]. cbn.
    rewrite set_nth_length, app_length. cbn. lia.
  - intros l r f n f' H. injection H as _ <-. cbn. rewrite app_length. cbn. lia.
  - intros s p v f n f' H. injection H as _ <-. cbn. rewrite app_length. cbn. lia.
Qed.

Lemma g_push_length : forall v n, length (g_push v n) <= length v + 9.
Proof.
  intros v n. assert (L : forall k x, length (firstn k (le_bytes x)) <= 4) by (intros; rewrite firstn_length; cbn; lia).
  unfold g_push. destruct n; cbn [fields]; rewrite ?app_length; cbn [length]; rewrite ?app_length;
    repeat match goal with |- context [length (firstn ?k (le_bytes ?x))] => pose proof (L k x); generalize dependent (length (firstn k (le_bytes x))); intros end; lia.
Qed.

Lemma compact_adds : adds_at_most compact_forest (fun b => length (cb_graph b)) 9.
Proof.
  split.
  - intros f f' H. injection H as <-. exact (g_push_length (cb_graph f) CBeginSum).
  - intros it f f' H. injection H as <-. exact (g_push_length (cb_graph f) (CSummand _ _)).
  - intros s o f n f' H. apply bindR in H. destruct H as (r & _ & H). cbv zeta in H.
    destruct (cb_num_summands f =? 1); injection H as _ <-; exact (g_push_length (cb_graph f) CEndSum).
  - intros l r f n f' H. injection H as _ <-. exact (g_push_length (cb_graph f) (CRule _ _)).
  - intros s p v f n f' H. injection H as _ <-. exact (g_push_length (cb_graph f) (CLeaf _ _)).
Qed.

Lemma P_simple_size : forall P c nsyms w d0 g0 g, built c nsyms w d0 g0 g -> LEO P = false ->
  forall s, exists k, forall b0 fuel locs b st,
  (forall loc, In loc locs -> length (l_toks loc) <= s /\ forall t v, In (t, v) (l_toks loc) -> t < c_num_syms c) ->
  (st <- r_new g b0 ;; feed_all simple_forest P g fuel locs st) = Ret (b, st) ->
  length (b_graph (r_forest st)) <= length (b_graph b0) + k * length locs ^ 3.
Proof.
  intros P c nsyms w d0 g0 g HB Hleo s. destruct (P_run_size P c nsyms w d0 g0 g HB Hleo s) as (k & Hk). exists k.
  intros b0 fuel locs b st Hl H. pose proof (Hk _ _ _ _ _ simple_adds b0 fuel locs b st Hl H) as X. cbv beta in X. lia.
Qed.

Lemma compact_fits_at : forall P c nsyms w d0 g0 g, built c nsyms w d0 g0 g -> LEO P = false ->
  forall rank, ranks_units (c_rules c) rank ->
  forall s b0 fuel locs r,
  (forall loc, In loc locs -> length (l_toks loc) <= s /\ forall t v, In (t, v) (l_toks loc) -> t < c_num_syms c) ->
  (st <- r_new g b0 ;; parse_forest compact_forest P g fuel locs st) = Ret r ->
  length (cb_graph (snd r)) <= length (cb_graph b0) + 9 * cubic_factor (c_rules c) rank s * length locs ^ 3.
Proof.
  intros P c nsyms w d0 g0 g HB Hleo rank Hrank s b0 fuel locs r Hl H. inv H. unfold parse_forest in H. inv H. destruct a0 as [b st].
  pose proof (run_size_at P c nsyms w d0 g0 g HB Hleo rank Hrank s _ _ _ _ _ compact_adds b0 fuel locs b st Hl ltac:(rewrite E; exact E0)) as X. cbv beta in X.
  assert (Er : snd r = r_forest st) by (destruct b; [inv H|]; injection H as <-; reflexivity). rewrite Er. lia.
Qed.

Lemma P_compact_fits : forall P c nsyms w d0 g0 g, built c nsyms w d0 g0 g -> LEO P = false ->
  forall s, exists k, forall b0 fuel locs r,
  (forall loc, In loc locs -> length (l_toks loc) <= s /\ forall t v, In (t, v) (l_toks loc) -> t < c_num_syms c) ->
  (st <- r_new g b0 ;; parse_forest compact_forest P g fuel locs st) = Ret r ->
  length (cb_graph (snd r)) <= length (cb_graph b0) + k * length locs ^ 3.
Proof.
  intros P c nsyms w d0 g0 g HB Hleo s. destruct (pr_acyclic _ _ _ _ _ (b_processed _ _ _ _ _ _ HB)) as (rank & Hrank).
  exists (9 * cubic_factor (c_rules c) rank s). exact (compact_fits_at P c nsyms w d0 g0 g HB Hleo rank Hrank s).
Qed.

Lemma P_counted_total : forall F N (fo : forest_ops F N) f0 P c nsyms w d0 g0 g, configured fo f0 P c nsyms w d0 g0 g ->
  configured (counted fo) (f0, 0) P c nsyms w d0 g0 g.
Proof.
  intros F N fo f0 P c nsyms w d0 g0 g [(ok & U & H0) HL HB]. split; auto. exists (fun ph f => ok ph (fst f)).
  split; [now apply counted_usable|exact H0].
Qed.
