(** RowsInv: whatever is called, the prediction rows stay closed under prediction
    and only the first row can predict the start symbol. *)
From Coq Require Import List Arith Bool Lia Relations.
From Verif Require Import Base BaseProofs Vec2d Vec2dProofs Item Heap Grammar BitMatrix DefaultGrammar Forest ForestSpec
  Recognizer Session Spec Chart ChartFacts CfgSpec Tables TablesProofs Core1 Core2 Core3 Core4 Core5 Core6 Recog Sim SessionProofs RecogAny.
Import ListNotations.
Local Open Scope res_scope.

Ltac dres H :=
  match type of H with
  | bind ?x ?f = Ret _ =>
      let E := fresh "E" in
      destruct x eqn:E; cbn [bind] in H; try discriminate H; try dres H
  | Ret _ = Ret _ => injection H as H; try dres H
  | (match ?x with _ => _ end) = Ret _ => let E := fresh "E" in destruct x eqn:E; cbn [bind] in H; try discriminate H; try dres H
  | _ => idtac
  end.

Section Pres.
  Context {F N : Type}.
  Variable fo : forest_ops F N.
  Variable P : perf.
  Variable g : dgrammar.
  Notation state := (rstate F N).

  (** what scanning and completion leave alone *)
  Definition kept (st : state) : bitmatrix * list nat :=
    (r_predicted st, indices (r_medial st)).

  Lemma kept_rows : forall (s t : state), kept s = kept t -> r_predicted s = r_predicted t.
  Proof. intros s t H. now injection H. Qed.

  Lemma fold_pres : forall A (f : state -> A -> res state) l st st',
    (forall st a st', f st a = Ret st' -> kept st' = kept st) ->
    foldM f l st = Ret st' -> kept st' = kept st.
  Proof.
    intros A f l. induction l as [|a l IH]; intros st st' K H; cbn [foldM] in H.
    - now injection H as <-.
    - destruct (f st a) eqn:E; cbn [bind] in H; try discriminate. rewrite (IH _ _ K H). eauto.
  Qed.

  Lemma push_complete_pres : forall (st : state) it st', push_complete st it = Ret st' -> kept st' = kept st.
  Proof. intros st it st' H. unfold push_complete in H. dres H. now subst. Qed.

  Lemma complete_medial_item_pres : forall n (st : state) it st', complete_medial_item fo P g n st it = Ret st' ->
    kept st' = kept st.
  Proof. intros n st it st' H. unfold complete_medial_item in H. dres H; now subst. Qed.

  Lemma complete_predictions_pres : forall (st : state) id s n st', complete_predictions P g st id s n = Ret st' ->
    kept st' = kept st.
  Proof.
    intros st id s n st' H. unfold complete_predictions in H.
    destruct (v_last (r_medial st)) as [l0| |]; cbn [bind] in H; try discriminate.
    destruct (completions g s) as [tr| |]; cbn [bind] in H; try discriminate.
    destruct (foldM (complete_prediction P g id n) tr (st, length l0)) as [[t b]| |] eqn:E; cbn [bind] in H; try discriminate.
    destruct (v_last (r_medial t)) as [l| |]; cbn [bind] in H; try discriminate.
    destruct (foldM push_complete (skipn b l) t) as [u| |] eqn:E2; cbn [bind] in H; try discriminate.
    destruct (v_last (r_medial u)) as [l'| |]; cbn [bind] in H; try discriminate.
    match type of H with bind ?x _ = _ => destruct x as [[]| |]; cbn [bind] in H; try discriminate end.
    match type of H with bind ?x _ = _ => destruct x as [[]| |]; cbn [bind] in H; try discriminate end.
    injection H as <-. match goal with |- kept (set_medial u (v_truncate_chart _ _)) = _ => change (kept u = kept st) end.
    assert (X : kept t = kept st).
    { assert (Y : forall tr (x y : state * nat), foldM (complete_prediction P g id n) tr x = Ret y -> kept (fst y) = kept (fst x)).
      { clear. induction tr as [|a tr IH]; intros x y H; cbn [foldM] in H; [now injection H as <-|].
        destruct (complete_prediction P g id n x a) as [z| |] eqn:E; cbn [bind] in H; try discriminate.
        rewrite (IH _ _ H). destruct x as [t b]. unfold complete_prediction in E.
        destruct (bm_get (r_predicted t) id (pt_symbol a)) as [wp| |]; cbn [bind] in E; try discriminate.
        match type of E with bind ?x _ = _ => destruct x as [us| |]; cbn [bind] in E; try discriminate end.
        destruct (wp && (negb (LOOKAHEAD P) || us)); now injection E as <-. }
      apply (Y _ _ _ E). }
    rewrite <- X. eapply fold_pres; [|eassumption]. apply push_complete_pres.
  Qed.

  Lemma complete_pres : forall (st : state) id s n st', complete fo P g st id s n = Ret st' -> kept st' = kept st.
  Proof.
    intros st id s n st' H. unfold complete in H. destruct (g_syms g <=? s).
    - unfold complete_generated_binary_predictions in H. destruct (gen_completion g s) as [[bo uo]| |]; cbn [bind] in H; try discriminate.
      match type of H with bind ?x _ = _ => destruct x as [t| |] eqn:E; cbn [bind] in H; try discriminate end.
      assert (X : kept t = kept st).
      { dres E; try (now subst). now apply push_complete_pres in E. }
      rewrite <- X. dres H; now subst.
    - destruct (bm_get (r_predicted st) id s) as [[|]| |]; cbn [bind] in H; try discriminate.
      + destruct (negb (LEO P)); cbn [bind] in H; [|discriminate].
        destruct (complete_medial_items fo P g st id s n) as [t| |] eqn:E; cbn [bind] in H; try discriminate.
        apply complete_predictions_pres in H. rewrite H. unfold complete_medial_items in E. dres E.
        eapply fold_pres; [|eassumption]. apply complete_medial_item_pres.
      + now injection H as <-.
  Qed.

  Lemma scan_pres : forall (st : state) s v st', scan fo P g st s v = Ret st' -> kept st' = kept st.
  Proof.
    intros st s v st' H. unfold scan in H. destruct (unwrap (earleme st)); cbn [bind] in H; try discriminate.
    destruct (f_leaf fo s _ v (r_forest st)) as [[n f]| |]; cbn [bind] in H; try discriminate.
    now apply complete_pres in H.
  Qed.

  Lemma next_summand_pres : forall o l (st : state) x st', next_summand g o l st = Ret (x, st') -> kept st' = kept st.
  Proof.
    intros o l st x st' H. unfold next_summand in H. dres H; subst; reflexivity.
  Qed.

  Lemma summand_loop_pres : forall n o l (st : state) st', summand_loop fo g n o l st = Ret st' -> kept st' = kept st.
  Proof.
    induction n as [|n IH]; intros o l st st' H; cbn [summand_loop] in H;
      destruct (next_summand g o l st) as [[[it|] t]| |] eqn:E; cbn [bind] in H; try discriminate;
      apply next_summand_pres in E; rewrite <- E.
    - destruct (push_summand fo t it); discriminate.
    - now injection H as <-.
    - destruct (push_summand fo t it) as [u| |] eqn:E2; cbn [bind] in H; try discriminate. rewrite (IH _ _ _ _ H).
      unfold push_summand in E2. dres E2. now subst.
    - now injection H as <-.
  Qed.

  Lemma complete_entire_sum_pres : forall o l (st : state) st', complete_entire_sum fo P g o l st = Ret st' ->
    kept st' = kept st.
  Proof.
    intros o l st st' H. unfold complete_entire_sum in H.
    destruct (f_begin_sum fo (r_forest st)) as [f| |]; cbn [bind] in H; try discriminate.
    destruct (summand_loop _ _ _ _ _ _) as [t| |] eqn:E; cbn [bind] in H; try discriminate.
    apply summand_loop_pres in E. unfold complete_sum in H. destruct (f_sum fo l o (r_forest t)) as [[n f']| |]; cbn [bind] in H; try discriminate.
    apply complete_pres in H. rewrite H. exact E.
  Qed.

  Lemma skip_pres : forall n o l (st : state) st', skip_loop g n o l st = Ret st' -> kept st' = kept st.
  Proof.
    induction n as [|n IH]; intros o l st st' H; cbn [skip_loop] in H;
      destruct (next_summand g o l st) as [[[it|] t]| |] eqn:E; cbn [bind] in H; try discriminate;
      apply next_summand_pres in E; rewrite <- E.
    - now injection H as <-.
    - eauto.
    - now injection H as <-.
  Qed.

  Lemma complete_sums_pres : forall keep fuel (st : state) st', complete_sums fo P g keep fuel st = Ret st' ->
    kept st' = kept st.
  Proof.
    intros keep. induction fuel as [|fuel IH]; intros st st' H; cbn [complete_sums] in H;
      destruct (next_sum g st) as [[[o l]|]| |]; cbn [bind] in H; try discriminate; try (now injection H as <-).
    destruct (keep l).
    - destruct (complete_entire_sum fo P g o l st) as [t| |] eqn:E; cbn [bind] in H; try discriminate.
      apply complete_entire_sum_pres in E. rewrite <- E. auto.
    - destruct (skip_entire_sum g o l st) as [t| |] eqn:E; cbn [bind] in H; try discriminate.
      apply skip_pres in E. rewrite <- E. auto.
  Qed.
End Pres.

Section Inv.
  Context {F N : Type}.
  Variable fo : forest_ops F N.
  Variable P : perf.
  Variable g : dgrammar.
  Variables (c : pcfg) (nsyms : nat) (w : wrapped_root) (d0 : nat) (g0 : sym).
  Hypothesis HB : built c nsyms w d0 g0 g.
  Notation R := (c_rules c).
  Notation root := (w_root w).
  Notation state := (rstate F N).

  Definition rows_inv (rows : bitmatrix) : Prop :=
    0 < length rows /\
    forall idx row, nth_error rows idx = Some row ->
      row_ok R nsyms row /\ (0 < idx -> forall s, nth_error row s = Some true -> s <> root).

  Lemma rows_tables : exists FI FO, tables_ok g R nsyms (c_num_syms c) FI FO.
  Proof.
    destruct HB as [HP (fuel & maps & nulling & first & follow & Hg & _)].
    exists (first_of first), (follow_of follow). eapply tok; eauto.
  Qed.

  Lemma rows_rhs1 : forall d C, get_rhs1 g d = Ret (Some C) -> C < nsyms /\ C <> root.
  Proof.
    intros d C H. destruct HB as [HP (fuel & maps & nulling & first & follow & Hg & _)].
    apply from_processed_inv in Hg.
    destruct Hg as (gens & w' & dbe & by0 & comps & _ & _ & _ & _ & _ & _ & _ & _ & _ & _ & _ & _ & _ & _ & _ & _ & _ & _ & Ec1 & _).
    unfold get_rhs1 in H. apply idx_Ret in H. rewrite Ec1 in H. rewrite nth_error_map in H.
    destruct (nth_error R d) as [r|] eqn:Hr; [|discriminate]. injection H as Er. destruct HP. pose proof (nth_error_In _ _ Hr) as Hin. unfold rhs1 in Er. split.
    - eapply (wf_rhs1 _ _ _ pr_wf); eauto.
    - intros ->. apply (pr_root_top r Hin). eapply nth_error_In; eauto.
  Qed.

  Lemma zero_row : row_ok R nsyms (repeat false nsyms).
  Proof.
    split; [apply repeat_length|]. intros A B X. apply nth_error_In in X. apply repeat_spec in X. discriminate.
  Qed.

  Lemma grow_inv : forall rows, rows_inv rows -> rows_inv (bm_grow1 nsyms rows).
  Proof.
    intros rows [H1 H2]. split; unfold bm_grow1; [rewrite app_length; lia|].
    intros i row H. destruct (le_lt_dec (length rows) i) as [Hge|Hlt].
    - rewrite nth_error_app2 in H by lia. destruct (i - length rows) as [|k]; [|destruct k; discriminate].
      injection H as <-. split; [apply zero_row|]. intros _ s X. apply nth_error_In in X. apply repeat_spec in X. discriminate.
    - rewrite nth_error_app1 in H by lia. auto.
  Qed.

  Lemma predict_inv : forall (l : list (item N)) row row',
    foldM (fun row it => o <- get_rhs1 g (it_dot it) ;; postdot <- unwrap o ;;
             src <- prediction_row g postdot ;; predict row postdot src) l row = Ret row' ->
    row_ok R nsyms row -> (forall s, nth_error row s = Some true -> s <> root) ->
    row_ok R nsyms row' /\ (forall s, nth_error row' s = Some true -> s <> root).
  Proof.
    induction l as [|it l IH]; intros row row' H Hok Hr; cbn [foldM] in H.
    - injection H as <-. auto.
    - destruct (get_rhs1 g (it_dot it)) as [[C|]| |] eqn:E1; cbn [bind unwrap] in H; try discriminate.
      destruct (rows_rhs1 _ _ E1) as [HC HCr].
      destruct rows_tables as (FI & FO & Ht).
      destruct (t_row _ _ _ _ _ _ Ht C HC) as (src & Es & Hl & Hb). rewrite Es in H. cbn [bind] in H.
      unfold predict in H. destruct (idx row C) as [b| |] eqn:Eb; cbn [bind] in H; try discriminate.
      destruct b; cbn [negb] in H; [now apply (IH row)|].
      assert (Hbits : forall s, nth_error (row_or row src) s = Some true <->
                     nth_error row s = Some true \/ (s < nsyms /\ pred R nsyms C s)).
      { intros s. destruct Hok as [Hl' _]. rewrite row_or_nth by lia. rewrite Hb. reflexivity. }
      apply (IH (row_or row src)); auto.
      + destruct Hok as [Hl' Hcl]. split; [now rewrite row_or_length|].
        intros A B HA HPr HBn. apply Hbits in HA. apply Hbits. destruct HA as [HA|[_ HA]].
        * left. now apply (Hcl A).
        * right. split; [auto|]. eapply rt_trans; eauto.
      + intros s X. apply Hbits in X. destruct X as [X|[_ X]]; [auto|]. intros ->. apply HCr.
        destruct HB as [HP _]. destruct HP. apply (pred_root R nsyms root); auto.
  Qed.

  Lemma prediction_pass_inv : forall (st : state) st', prediction_pass g st = Ret st' ->
    rows_inv (r_predicted st) -> rows_inv (r_predicted st').
  Proof.
    intros st st' H HI. unfold prediction_pass in H. cbn zeta in H.
    destruct rows_tables as (FI & FO & Ht). rewrite (t_syms _ _ _ _ _ _ Ht) in H.
    destruct (v_last (r_medial st)) as [l| |]; cbn [bind] in H; try discriminate.
    destruct (unwrap (earleme st)) as [e| |]; cbn [bind] in H; try discriminate.
    destruct (idx (bm_grow1 nsyms (r_predicted st)) (e + 1)) as [row| |] eqn:Er; cbn [bind] in H; try discriminate.
    match type of H with bind ?x _ = _ => destruct x as [row'| |] eqn:Ef; cbn [bind] in H; try discriminate end.
    destruct (upd (bm_grow1 nsyms (r_predicted st)) (e + 1) row') as [rows'| |] eqn:Eu; cbn [bind] in H; try discriminate.
    injection H as <-. cbn. apply grow_inv in HI. destruct HI as [H1 H2].
    apply idx_Ret in Er. destruct (H2 _ _ Er) as [Hok Hr].
    apply predict_inv in Ef; auto; [|apply Hr; lia].
    unfold upd in Eu. destruct (e + 1 <? length (bm_grow1 nsyms (r_predicted st))) eqn:El; [|discriminate].
    injection Eu as <-. split; [now rewrite set_nth_length|].
    intros i row0 Hi. destruct (Nat.eq_dec i (e + 1)) as [->|Hne].
    - rewrite set_nth_same in Hi by (now apply Nat.ltb_lt). injection Hi as <-. split; [apply Ef|]. intros _. apply Ef.
    - rewrite set_nth_other in Hi by auto. auto.
  Qed.

  Lemma remove_inv : forall (st : state) st', remove_unreachable_sets P st = Ret st' ->
    rows_inv (r_predicted st) -> rows_inv (r_predicted st').
  Proof.
    intros st st' H HI. unfold remove_unreachable_sets in H.
    destruct (v_last (r_medial st)) as [l| |]; cbn [bind] in H; try discriminate.
    destruct (unwrap (earleme st)) as [e| |]; cbn [bind] in H; try discriminate.
    set (ne := match list_max_opt (map it_origin l) with Some m => m | None => e end) in *.
    destruct ((ne <? e) && (0 <? ne)); [|now injection H as <-]. cbn zeta in H.
    match type of H with bind ?x _ = _ => destruct x as [m| |]; cbn [bind] in H; try discriminate end.
    match type of H with bind ?x _ = _ => destruct x as [t| |] eqn:Et; cbn [bind] in H; try discriminate end.
    assert (Ep : r_predicted t = firstn (ne + 1) (r_predicted st)).
    { destruct (LEO P); [|now injection Et as <-].
      match type of Et with bind ?x _ = _ => destruct x as [lv| |]; cbn [bind] in Et; try discriminate end. now injection Et as <-. }
    match type of H with bind ?x _ = _ => destruct x as [[]| |]; cbn [bind] in H; try discriminate end.
    match type of H with bind ?x _ = _ => destruct x as [[]| |]; cbn [bind] in H; try discriminate end.
    injection H as <-. rewrite Ep. destruct HI as [H1 H2]. split.
    - rewrite firstn_length. lia.
    - intros i row X. apply nth_error_firstn_inv in X. apply H2. tauto.
  Qed.

  Lemma advance_inv : forall (st : state) st', advance_after_completion P g st = Ret st' ->
    rows_inv (r_predicted st) -> rows_inv (r_predicted st').
  Proof.
    intros st st' H HI. unfold advance_after_completion in H.
    destruct (sort_medial_items g st) as [t| |] eqn:E1; cbn [bind] in H; try discriminate.
    assert (X : r_predicted t = r_predicted st). { unfold sort_medial_items in E1. dres E1. now subst. }
    destruct (remove_unreachable_sets P t) as [u| |] eqn:E2; cbn [bind] in H; try discriminate.
    apply remove_inv in E2; [|now rewrite X].
    destruct (LEO P); cbn [bind] in H; [discriminate|]. now apply prediction_pass_inv in H.
  Qed.

  Lemma reset_inv : forall (st : state) st', reset g st = Ret st' ->
    rows_inv (r_predicted st) -> rows_inv (r_predicted st').
  Proof.
    intros st st' H [H1 H2]. unfold reset in H. cbn [r_predicted set_complete set_medial] in H.
    destruct (r_predicted st) as [|row0 rows] eqn:Ep; [simpl in H1; lia|].
    change (idx (row0 :: rows) 0) with (Ret row0) in H. cbn [bind] in H.
    destruct (H2 0 row0 eq_refl) as [Hok0 _].
    destruct rows_tables as (FI & FO & Ht). destruct HB as [HP (fuel & maps & nulling & first & follow & Hg & _)].
    destruct (g_facts c nsyms w d0 g0 fuel maps nulling first follow g HP Hg) as (Es & _).
    destruct (start_row g R nsyms _ FI FO root Ht ltac:(now destruct HP) Es (row_clear row0))
      as (src & row0' & Esrc & Epr & Hok & Hb).
    { unfold row_clear. rewrite map_length. apply Hok0. }
    { intros s X. unfold row_clear in X. rewrite nth_error_map in X. destruct (nth_error row0 s); discriminate. }
    rewrite Es, Esrc in H. cbn [bind] in H. rewrite Epr in H. cbn [bind] in H.
    change (upd (row0 :: rows) 0 row0') with (Ret (row0' :: rows)) in H. cbn [bind] in H. injection H as <-. cbn.
    split; [simpl; lia|]. intros [|i] row X; cbn in X.
    - injection X as <-. split; [auto|lia].
    - destruct (H2 (S i) row X). split; auto.
  Qed.

  Lemma call_inv : forall fuel cl (st : state) a st', run_call fo P g fuel cl st = Ret (a, st') ->
    rows_inv (r_predicted st) -> rows_inv (r_predicted st').
  Proof.
    intros fuel cl st a st' H HI. destruct cl; cbn [run_call] in H.
    all: try (match type of H with bind ?x _ = _ => destruct x eqn:E; cbn [bind] in H; try discriminate end;
              injection H as _ <-; exact HI).
    - injection H as _ <-. unfold begin_earleme. destruct (LEO P); exact HI.
    - injection H as _ <-. exact HI.
    - injection H as _ <-. exact HI.
    - destruct (scan fo P g st s v) as [t| |] eqn:E; cbn [bind] in H; try discriminate. injection H as _ <-.
      apply scan_pres, kept_rows in E. now rewrite E.
    - destruct (end_earleme fo P g fuel st) as [[b t]| |] eqn:E; cbn [bind] in H; try discriminate. injection H as _ <-.
      unfold end_earleme, end_filtered in E. destruct (is_exhausted st) as [[|]| |]; cbn [bind] in E; try discriminate.
      + now injection E as _ <-.
      + destruct (complete_sums fo P g keep_all fuel st) as [t1| |] eqn:E1; cbn [bind] in E; try discriminate.
        destruct (advance_after_completion P g t1) as [t2| |] eqn:E2; cbn [bind] in E; try discriminate. injection E as _ <-.
        apply complete_sums_pres, kept_rows in E1. apply advance_inv in E2; [auto|now rewrite E1].
    - destruct (next_sum g st) as [[[o l]|]| |]; cbn [bind] in H; try discriminate.
      + destruct (complete_entire_sum fo P g o l st) as [t| |] eqn:E; cbn [bind] in H; try discriminate. injection H as _ <-.
        apply complete_entire_sum_pres, kept_rows in E. now rewrite E.
      + now injection H as _ <-.
    - destruct (next_sum g st) as [[[o l]|]| |]; cbn [bind] in H; try discriminate.
      + destruct (skip_entire_sum g o l st) as [t| |] eqn:E; cbn [bind] in H; try discriminate. injection H as _ <-.
        apply skip_pres, kept_rows in E. now rewrite E.
      + now injection H as _ <-.
    - destruct (complete_all_sums_entirely fo P g fuel st) as [t| |] eqn:E; cbn [bind] in H; try discriminate. injection H as _ <-.
      apply complete_sums_pres, kept_rows in E. now rewrite E.
    - destruct (advance_after_completion P g st) as [t| |] eqn:E; cbn [bind] in H; try discriminate. injection H as _ <-.
      now apply advance_inv in E.
    - destruct (reset g st) as [t| |] eqn:E; cbn [bind] in H; try discriminate. injection H as _ <-.
      now apply reset_inv in E.
    - injection H as _ <-. exact HI.
  Qed.

  Lemma calls_inv : forall fuel cs (st : state) l st', run_calls fo P g fuel cs st = Ret (l, st') ->
    rows_inv (r_predicted st) -> rows_inv (r_predicted st').
  Proof.
    intros fuel. induction cs as [|cl cs IH]; intros st l st' H HI; cbn [run_calls] in H.
    - now injection H as _ <-.
    - destruct (run_call fo P g fuel cl st) as [[a t]| |] eqn:E; cbn [bind] in H; try discriminate.
      destruct (run_calls fo P g fuel cs t) as [[l' u]| |] eqn:E2; cbn [bind] in H; try discriminate. injection H as _ <-.
      eapply IH; eauto. eapply call_inv; eauto.
  Qed.

  Lemma new_inv : forall f (st : state), r_new g f = Ret st -> rows_inv (r_predicted st).
  Proof.
    intros f st H. unfold r_new in H. cbn zeta in H. destruct rows_tables as (FI & FO & Ht).
    destruct HB as [HP (fuel & maps & nulling & first & follow & Hg & _)].
    destruct (g_facts c nsyms w d0 g0 fuel maps nulling first follow g HP Hg) as (Es & _).
    rewrite (t_syms _ _ _ _ _ _ Ht), Es in H.
    assert (Hz : forall s, nth_error (repeat false nsyms) s <> Some true).
    { intros s X. apply nth_error_In in X. apply repeat_spec in X. discriminate. }
    destruct (start_row g R nsyms _ FI FO root Ht ltac:(now destruct HP) Es (repeat false nsyms))
      as (src & row0' & Esrc & Epr & Hok & Hb); [apply repeat_length|auto|].
    change (idx (bm_new 8 nsyms) 0) with (Ret (repeat false nsyms)) in H. cbn [bind] in H.
    rewrite Esrc in H. cbn [bind] in H. rewrite Epr in H. cbn [bind] in H.
    change (upd (bm_new 8 nsyms) 0 row0') with (Ret (row0' :: repeat (repeat false nsyms) 7)) in H. cbn [bind] in H.
    injection H as <-. cbn. split; [simpl; lia|]. intros [|i] row X; cbn [nth_error] in X.
    - injection X as <-. split; [auto|lia].
    - assert (row = repeat false nsyms).
      { apply (repeat_spec 7 _ row). eapply nth_error_In. exact X. }
      subst row. split; [apply zero_row|]. intros _ s X'. now apply Hz in X'.
  Qed.

  (** *** after a reset the recognizer is in a start state *)
  Variable ok : phase -> F -> Prop.
  Hypothesis HU : usable fo ok.

  Lemma reset_start : forall (st : state), rows_inv (r_predicted st) -> ok Idle (r_forest st) ->
    exists st', reset g st = Ret st' /\ r_hint st' = r_hint st /\
      start_state ok P c nsyms w g (fun s => s <> root) st'.
  Proof.
    intros st HI Hok.
    set (st1 := mkR (@nil (nat * fnode)) (r_hint st) (r_predicted st) v_new
      (mkV (map (fun it => mkItem (it_dot it) (it_origin it) (FNull 0)) (chart (r_leo st))) (indices (r_leo st))) []
       : rstate (list (nat * fnode)) fnode).
    assert (Hm : mate ok st1 (set_complete (set_medial st (v_clear (r_medial st))) [])).
    { split; [split; [discriminate|auto]|]. split; [auto|]. split; [auto|]. split; [split; simpl; auto|]. split; [|constructor].
      split; [reflexivity|]. cbn. induction (chart (r_leo st)); simpl; constructor; auto. split; auto. }
    destruct rows_tables as (FI & FO & Ht). pose proof HB as [HP (fuel & maps & nulling & first & follow & Hg & HFI & HFO)].
    destruct (g_facts c nsyms w d0 g0 fuel maps nulling first follow g HP Hg) as (Es & _).
    pose proof (tok c nsyms w d0 g0 fuel maps nulling first follow g HP Hg) as Ht'.
    destruct (reset_spec P g R nsyms _ (first_of first) (follow_of follow) root Ht' ltac:(now destruct HP) Es st1 HI)
      as (st1' & E1 & Eh & Ef & Hinv).
    pose proof (sim_reset _ _ g _ _ Hm) as HX. rewrite E1 in HX. destruct HX as (st' & E' & Hm').
    exists st'. split; [exact E'|]. split.
    - destruct Hm' as [_ (X & _)]. rewrite <- X, Eh. reflexivity.
    - exists st1', first, follow. split; [auto|]. split; [auto|]. split; [eauto|]. split; [exact Hinv|exact Hm'].
  Qed.
End Inv.
