(** TablesTotal: [from_processed_grammars] succeeds on every processed grammar. *)
From Coq Require Import List Arith Bool Lia.
From Verif Require Import Base BaseProofs Grammar BitMatrix DefaultGrammar Spec Chart ChartFacts CfgSpec TablesProofs.
Import ListNotations.
Local Open Scope res_scope.

Lemma foldM_total : forall A B (f : B -> A -> res B) (I : B -> Prop) l b, I b ->
  (forall x a, In a l -> I x -> exists y, f x a = Ret y /\ I y) -> exists b', foldM f l b = Ret b' /\ I b'.
Proof.
  intros A B f I l. induction l as [|a l IH]; intros b Hb Hs; cbn [foldM]; [eauto|].
  destruct (Hs b a (or_introl eq_refl) Hb) as (y & E & Hy). rewrite E. cbn [bind]. apply IH; auto.
  intros x a' Hin. apply Hs. simpl; auto.
Qed.

Lemma mapM_total : forall A B (f : A -> res B) l, (forall a, In a l -> exists y, f a = Ret y) -> exists l', mapM f l = Ret l'.
Proof.
  intros A B f l. induction l as [|a l IH]; intros H; cbn [mapM]; [eauto|].
  destruct (H a (or_introl eq_refl)) as (y & E). rewrite E. cbn [bind].
  destruct IH as (l' & E'); [intros; apply H; simpl; auto|]. rewrite E'. cbn [bind]. eauto.
Qed.

Lemma foldM_ext_Ret : forall A B (f h : B -> A -> res B) l b b', (forall x a y, In a l -> f x a = Ret y -> h x a = Ret y) ->
  foldM f l b = Ret b' -> foldM h l b = Ret b'.
Proof.
  intros A B f h l. induction l as [|a l IH]; intros b b' H E; cbn [foldM] in *; [auto|].
  destruct (f b a) as [y| |] eqn:Ef; cbn [bind] in E; try discriminate.
  rewrite (H _ _ _ (or_introl eq_refl) Ef). cbn [bind]. apply IH; auto. intros x a' z Hin. apply H. simpl; auto.
Qed.

Lemma mapM_ext_Ret : forall A B (f h : A -> res B) l l', (forall a y, In a l -> f a = Ret y -> h a = Ret y) ->
  mapM f l = Ret l' -> mapM h l = Ret l'.
Proof.
  intros A B f h l. induction l as [|a l IH]; intros l' H E; cbn [mapM] in *; [auto|].
  destruct (f a) as [y| |] eqn:Ef; cbn [bind] in E; try discriminate.
  rewrite (H _ _ (or_introl eq_refl) Ef). cbn [bind].
  destruct (mapM f l) as [l2| |] eqn:E2; cbn [bind] in E; try discriminate.
  rewrite (IH l2); cbn [bind]; auto. intros; apply H; simpl; auto.
Qed.

(** *** the result does not depend on the fuel *)
Lemma climb_more : forall syms by0 n lhs T m, climb n syms by0 lhs = Ret T -> n <= m -> climb m syms by0 lhs = Ret T.
Proof.
  intros syms by0. induction n as [|n IH]; intros lhs T m H Hm; destruct m as [|m]; try lia; cbn [climb] in *; auto.
  - destruct (syms <=? lhs); [discriminate|auto].
  - destruct (syms <=? lhs); auto. destruct (binary_search_by _ by0); auto.
    destruct (idx by0 n0) as [r| |]; cbn [bind] in *; try discriminate. apply IH; [auto|lia].
Qed.

Lemma from_processed_more : forall n m c maps nulling first follow g,
  from_processed_grammars n c maps nulling first follow = Ret g -> n <= m ->
  from_processed_grammars m c maps nulling first follow = Ret g.
Proof.
  intros n m c maps nulling first follow g H Hm. unfold from_processed_grammars in *.
  destruct (num_gensyms c) as [gens| |]; cbn [bind] in *; try discriminate.
  destruct (assert (length (c_roots c) =? 1)) as [u| |]; cbn [bind] in *; try discriminate.
  destruct (idx (c_wrapped c) 0) as [w| |]; cbn [bind] in *; try discriminate.
  destruct (unwrap _) as [dbe| |]; cbn [bind] in *; try discriminate.
  destruct (column_events 1 c) as [ev1| |]; cbn [bind] in *; try discriminate.
  destruct (column_events 2 c) as [ev2| |]; cbn [bind] in *; try discriminate.
  destruct (column_tracing 1 c) as [tr1| |]; cbn [bind] in *; try discriminate.
  destruct (column_tracing 2 c) as [tr2| |]; cbn [bind] in *; try discriminate.
  destruct (compute_rules_by_rhs0 c) as [by0| |]; cbn [bind] in *; try discriminate.
  destruct (populate_prediction_matrix n _ c by0) as [pm| |] eqn:E1; cbn [bind] in *; try discriminate.
  assert (E1' : populate_prediction_matrix m (c_num_syms c - gens) c by0 = Ret pm).
  { unfold populate_prediction_matrix in *. destruct (foldM (prediction_rule n _ by0) _ _) as [m0| |] eqn:Em; cbn [bind] in E1; try discriminate.
    erewrite (foldM_ext_Ret _ _ _ (prediction_rule m (c_num_syms c - gens) by0)); [exact E1| |exact Em].
    intros x r y _ Hy. unfold prediction_rule in *. destruct (rhs0 r) as [r0| |]; cbn [bind] in *; try discriminate.
    destruct (r0 <? _); auto. destruct (climb n _ by0 (p_lhs r)) as [T| |] eqn:Ec; cbn [bind] in Hy; try discriminate.
    now rewrite (climb_more _ _ _ _ _ _ Ec Hm). }
  rewrite E1'. cbn [bind].
  destruct (prediction_events _ c) as [[ev0 tr0]| |]; cbn [bind] in *; try discriminate.
  destruct (compute_completion_table n _ gens c by0) as [ct| |] eqn:E2; cbn [bind] in *; try discriminate.
  assert (E2' : compute_completion_table m (c_num_syms c - gens) gens c by0 = Ret ct).
  { unfold compute_completion_table in *. destruct (mapM (transition n _ by0) _) as [all| |] eqn:Em; cbn [bind] in E2; try discriminate.
    erewrite (mapM_ext_Ret _ _ _ (transition m (c_num_syms c - gens) by0)); [exact E2| |exact Em].
    intros [r dot] y _ Hy. unfold transition in *. destruct (rhs0 r) as [r0| |]; cbn [bind] in *; try discriminate.
    destruct (climb n _ by0 (p_lhs r)) as [T| |] eqn:Ec; cbn [bind] in Hy; try discriminate.
    now rewrite (climb_more _ _ _ _ _ _ Ec Hm). }
  rewrite E2'. cbn [bind]. exact H.
Qed.

Lemma processed_shaped : forall c nsyms w d0 g0, processed c nsyms w d0 g0 -> shaped c nsyms w d0 g0.
Proof. intros c nsyms w d0 g0 []. constructor; assumption. Qed.
Lemma shaped_processed : forall c nsyms w d0 g0, shaped c nsyms w d0 g0 -> unary_acyclic (c_rules c) -> processed c nsyms w d0 g0.
Proof. intros c nsyms w d0 g0 [] H. constructor; assumption. Qed.

Section Total.
  Variables (c : pcfg) (nsyms : nat) (w : wrapped_root) (d0 : nat) (g0 : sym).
  Variables (maps : mapping) (nulling : list prule) (first follow : list (sym * list sym)).
  Hypothesis HP : shaped c nsyms w d0 g0.
  Hypothesis Hroots : length (c_roots c) = 1.
  Hypothesis Hdots : forall r, In r (c_rules c) -> column_dot 1 r <> None /\ column_dot 2 r <> None.
  Hypothesis Hnull : forall r r0 r1, In r nulling -> p_rhs r = [r0; r1] -> p_origin r = None ->
    forall s, s = p_lhs r \/ s = r0 \/ s = r1 -> exists x, map_to_internal maps s = Ret (Some x).
  Notation R := (c_rules c).
  Notation nall := (c_num_syms c).

  Lemma fill_sets_total : forall sets m, square nsyms m -> exists m', fill_sets nsyms sets m = Ret m' /\ square nsyms m'.
  Proof.
    intros sets m Hm. unfold fill_sets. apply foldM_total; auto. intros x os _ Hx. apply foldM_total; auto.
    intros y inner _ Hy. destruct ((fst os <? nsyms) && (inner <? nsyms)) eqn:E; [|eauto].
    apply andb_true_iff in E. rewrite !Nat.ltb_lt in E. destruct E as [A B].
    destruct (bm_set_total nsyms y _ _ Hy A B) as (m' & E'). exists m'. split; [auto|]. eapply bm_set_spec; eauto.
  Qed.

  Lemma columns_total : forall n, n = 1 \/ n = 2 -> (exists e, column_events n c = Ret e) /\ exists t, column_tracing n c = Ret t.
  Proof.
    intros n Hn. split; apply mapM_total; intros r Hr; destruct (Hdots r Hr) as [H1 H2];
      assert (X : column_dot n r <> None) by (destruct Hn; subst; auto);
      destruct (column_dot n r); try congruence; cbn; eauto.
  Qed.

  Theorem from_shaped_total : exists n g, forall fuel, n <= fuel ->
    from_processed_grammars fuel c maps nulling first follow = Ret g.
  Proof.
    pose proof (sh_wf _ _ _ _ _ HP) as wf. pose proof (sh_le _ _ _ _ _ HP) as Hle.
    destruct (climb_total R nsyms nall wf) as (n & Hclimb). exists n.
    enough (exists g, from_processed_grammars n c maps nulling first follow = Ret g) as (g & Hg).
    { exists g. intros fuel Hf. eapply from_processed_more; eauto. }
    unfold from_processed_grammars. rewrite (sh_gens _ _ _ _ _ HP). cbn [bind].
    replace (nall - (nall - nsyms)) with nsyms by lia.
    rewrite Hroots. change (assert (1 =? 1)) with (Ret tt). cbn [bind].
    assert (idx (c_wrapped c) 0 = Ret w) as -> by (unfold idx; now rewrite (sh_wrapped _ _ _ _ _ HP)). cbn [bind].
    match goal with |- context [position ?f R] => assert (exists dbe, position f R = Some dbe) as (dbe & ->) end.
    { destruct (sh_root_rule _ _ _ _ _ HP) as (r & Hr & _ & Er). clear -Hr Er. revert Hr. generalize d0 as d.
      induction (c_rules c) as [|a l IH]; intros d Hr; [destruct d; discriminate|]. cbn [position].
      match goal with |- context [eqb_opt ?x ?y] => destruct (eqb_opt x y) eqn:E end; [eauto|]. destruct d as [|d].
      - injection Hr as ->. unfold rhs1 in E. rewrite Er in E. cbn in E. rewrite Nat.eqb_refl in E. discriminate.
      - destruct (IH d Hr) as (x & ->). cbn. eauto. }
    cbn [unwrap bind].
    destruct (columns_total 1 (or_introl eq_refl)) as [(e1 & E1) (t1 & T1)].
    destruct (columns_total 2 (or_intror eq_refl)) as [(e2 & E2) (t2 & T2)].
    rewrite E1, E2, T1, T2. cbn [bind].
    assert (Hby : compute_rules_by_rhs0 c = Ret (sort_by (fun a b => rhs0d a <=? rhs0d b) R)).
    { unfold compute_rules_by_rhs0. destruct (mapM_total _ _ rhs0 R) as (l & ->); [|reflexivity].
      intros r Hr. destruct (rhs0_wf R nsyms nall wf r Hr) as (s & _ & E & _). eauto. }
    rewrite Hby. cbn [bind]. set (by0 := sort_by _ R) in *.
    assert (exists pm, populate_prediction_matrix n nsyms c by0 = Ret pm) as (pm & ->).
    { unfold populate_prediction_matrix.
      destruct (foldM_total _ _ (prediction_rule n nsyms by0) (square nsyms) R (bm_new nsyms nsyms)) as (m & E & _).
      - apply square_new.
      - intros x r Hr Hx. unfold prediction_rule. destruct (rhs0_wf R nsyms nall wf r Hr) as (s & Hs & E & _ & _). rewrite E. cbn [bind].
        destruct (s <? nsyms) eqn:Es; [|eauto]. apply Nat.ltb_lt in Es.
        destruct (Hclimb n (p_lhs r) (le_n _) (wf_lhs_range _ _ _ wf r Hr)) as (T & ET). fold by0 in ET. rewrite ET. cbn [bind].
        assert (HT : T < nsyms).
        { apply (climb_sound R nsyms nall wf) in ET; [|intros r' Hin; unfold by0 in Hin; now rewrite by_rhs0_in in Hin].
          clear -ET. induction ET; auto. }
        destruct (bm_set_total nsyms x T s Hx HT Es) as (m' & E'). exists m'. split; [auto|]. eapply bm_set_spec; eauto.
      - rewrite E. cbn [bind]. eauto. }
    cbn [bind].
    assert (exists et, prediction_events (nsyms + (nall - nsyms) + 1) c = Ret et) as ([ev0 tr0] & ->).
    { unfold prediction_events.
      destruct (foldM_total _ _ (fun et r => match column_dot 0 r with None => Ret et | Some d =>
          e <- upd (fst et) (p_lhs r) (rd_event d) ;; t <- upd (snd et) (p_lhs r) (rd_trace d) ;; Ret (e, t) end)
        (fun et : list event_and_distance * list dotted_rule => length (fst et) = nsyms + (nall - nsyms) + 1 /\ length (snd et) = nsyms + (nall - nsyms) + 1)
        R (repeat (None, None) (nsyms + (nall - nsyms) + 1), repeat None (nsyms + (nall - nsyms) + 1))) as (et & E & _).
      - cbn. rewrite !repeat_length. auto.
      - intros [e t] r Hr [L1 L2]. cbn [fst snd] in *. destruct (column_dot 0 r) as [d|]; [|eauto].
        pose proof (wf_lhs_range _ _ _ wf r Hr). rewrite !upd_Ret by lia. cbn [bind]. eexists. split; [reflexivity|].
        cbn [fst snd]. now rewrite !set_nth_length.
      - exists et. exact E. }
    cbn [bind].
    assert (exists ct, compute_completion_table n nsyms (nall - nsyms) c by0 = Ret ct) as ([comps gcomps] & ->).
    { unfold compute_completion_table.
      destruct (mapM_total _ _ (transition n nsyms by0) (combine R (seq 0 (length R)))) as (all & Eall).
      - intros [r d] Hin. apply in_combine_l in Hin. unfold transition.
        destruct (rhs0_wf R nsyms nall wf r Hin) as (s & _ & E & _ & _). rewrite E. cbn [bind].
        destruct (Hclimb n (p_lhs r) (le_n _) (wf_lhs_range _ _ _ wf r Hin)) as (T & ET). fold by0 in ET. rewrite ET. cbn [bind]. eauto.
      - rewrite Eall. cbn [bind].
        assert (Hsyms : forall s t, In (s, t) all -> s < nall).
        { intros s t Hin. apply (all_transitions R nsyms nall wf n all) in Eall. apply Eall in Hin.
          destruct Hin as (r & Hr & Hs & _). eapply (wf_rhs_range _ _ _ wf r s); [eapply nth_error_In; eauto|].
          eapply nth_error_In; eauto. }
        destruct (foldM_total _ _ (place_transition nsyms)
          (fun t : list (list ptrans) * list (option ptrans * option ptrans) => length (fst t) = nsyms /\ length (snd t) = nall - nsyms)
          (filter (fun x => negb (pt_unary (snd x))) all ++ filter (fun x => pt_unary (snd x)) all)
          (repeat [] nsyms, repeat (None, None) (nall - nsyms))) as (ct & E & _).
        + cbn. rewrite !repeat_length. auto.
        + intros [cs gs] [s t] Hin [L1 L2]. cbn [fst snd] in *.
          assert (s < nall).
          { apply in_app_iff in Hin. destruct Hin as [X|X]; apply filter_In in X; destruct X as [X _]; eauto. }
          unfold place_transition. destruct (Nat.leb_spec nsyms s).
          * destruct (idx_lt _ gs (s - nsyms)) as (old & E & _); [lia|]. rewrite E. cbn [bind].
            rewrite upd_Ret by lia. cbn [bind]. eexists. split; [reflexivity|]. cbn. now rewrite set_nth_length.
          * destruct (idx_lt _ cs s) as (old & E & _); [lia|]. rewrite E. cbn [bind].
            rewrite upd_Ret by lia. cbn [bind]. eexists. split; [reflexivity|]. cbn. now rewrite set_nth_length.
        + eauto. }
    cbn [bind].
    assert (exists lr, populate_lr_sets nsyms first follow = Ret lr) as (lr & ->).
    { unfold populate_lr_sets. destruct (fill_sets_total first _ (square_new nsyms)) as (fm & -> & Hfm). cbn [bind].
      destruct (fill_sets_total follow _ (square_new nsyms)) as (wm & -> & Hwm). cbn [bind].
      destruct (reflexive_closure_spec nsyms fm Hfm) as [[Hr _] _].
      destruct (mapM_total _ _ (fun i => f <- idx (reflexive_closure fm) i ;; w <- idx wm i ;; Ret [f; w]) (seq 0 nsyms)) as (rows & ->).
      - intros i Hi. apply in_seq in Hi.
        destruct (idx_lt _ (reflexive_closure fm) i) as (a & E & _); [lia|]. rewrite E. cbn [bind].
        destruct (idx_lt _ wm i) as (b & E' & _); [destruct Hwm; lia|]. rewrite E'. cbn [bind]. eauto.
      - cbn [bind]. eauto. }
    cbn [bind].
    assert (exists ni, nulling_intermediate maps nulling = Ret ni) as (ni & ->).
    { unfold nulling_intermediate.
      match goal with |- context [mapM ?f nulling] => destruct (mapM_total _ _ f nulling) as (rows & ->) end; [|cbn [bind]; eauto].
      intros r Hr. destruct (p_rhs r) as [|r0 [|r1 [|r2 l]]] eqn:Er; eauto. destruct (p_origin r) eqn:Eo; cbn [is_null]; eauto.
      destruct (Hnull r r0 r1 Hr Er Eo (p_lhs r)) as (x & ->); [auto|].
      destruct (Hnull r r0 r1 Hr Er Eo r0) as (y & ->); [auto|].
      destruct (Hnull r r0 r1 Hr Er Eo r1) as (z & ->); [auto|]. cbn. eauto. }
    cbn [bind]. eauto.
  Qed.
End Total.

Theorem from_processed_total : forall c nsyms w d0 g0 maps nulling first follow,
  processed c nsyms w d0 g0 -> length (c_roots c) = 1 ->
  (forall r, In r (c_rules c) -> column_dot 1 r <> None /\ column_dot 2 r <> None) ->
  (forall r r0 r1, In r nulling -> p_rhs r = [r0; r1] -> p_origin r = None ->
    forall s, s = p_lhs r \/ s = r0 \/ s = r1 -> exists x, map_to_internal maps s = Ret (Some x)) ->
  exists n g, forall fuel, n <= fuel -> from_processed_grammars fuel c maps nulling first follow = Ret g.
Proof. intros c nsyms w d0 g0 maps nulling first follow HP. apply (from_shaped_total c nsyms w d0 g0). now apply processed_shaped. Qed.
