(** PredFacts: [predicted_symbols] after reading, and the effect of dropping sets. *)
From Coq Require Import List Arith Bool Lia Relations.
From Verif Require Import Base BaseProofs Vec2d Vec2dProofs Item Grammar BitMatrix DefaultGrammar Forest ForestSpec Recognizer Drive ClientSpec
  Spec SpecFacts Chart ChartFacts ChartSpec CfgSpec Tables TablesProofs Den Core1 Core2 Core3 Core4 Core5 Core6
  Recog Sim RecogAny RecogFacts.
Import ListNotations.
Local Open Scope res_scope.

(** If only the token [s] is scanned at [k] and anything advances, [s] was predicted. *)
Lemma scanned_predicted : forall R nsyms root W hint FIRST FOLLOW la keep seed k s v,
  W k = [(s, v)] -> s < nsyms ->
  (forall d i j t, Sym R nsyms root W hint FIRST FOLLOW la keep seed d i j t -> j = S k ->
     (d = s /\ i = k) \/ Pred R nsyms root W hint FIRST FOLLOW la keep seed s k) /\
  (forall d i j ts, Comp R nsyms root W hint FIRST FOLLOW la keep seed d i j ts -> j = S k ->
     Pred R nsyms root W hint FIRST FOLLOW la keep seed s k) /\
  (forall d i j t, Med R nsyms root W hint FIRST FOLLOW la keep seed d i j t -> j = S k ->
     Pred R nsyms root W hint FIRST FOLLOW la keep seed s k) /\
  (forall s j, Pred R nsyms root W hint FIRST FOLLOW la keep seed s j -> True).
Proof.
  intros R nsyms root W hint FIRST FOLLOW la keep seed k s v HW Hs.
  assert (Hfirst : forall d r B i T, nth_error R d = Some r -> nth_error (p_rhs r) 0 = Some B ->
    topr R nsyms (p_lhs r) T -> Pred R nsyms root W hint FIRST FOLLOW la keep seed T i -> B = s -> i = k ->
    Pred R nsyms root W hint FIRST FOLLOW la keep seed s k).
  { intros d r B i T Hr H0 Ht HPr -> ->. eapply Pred_pred; [exact HPr|]. eapply topr_pred; eauto. eapply nth_error_In; eauto. }
  apply chart_ind; intros; subst; auto.
  - injection H as ->. rewrite HW in i. destruct i as [E|[]]. injection E as <- _. auto.
  - destruct (H eq_refl) as [[-> ->]|X]; [|auto]. eapply (Hfirst d r); eauto. now rewrite e0.
  - destruct (H0 eq_refl) as [[-> ->]|X]; [|auto]. eapply Pred_med; eauto. apply rt_refl.
  - destruct (H eq_refl) as [[-> ->]|X]; [|auto]. eapply (Hfirst d r); eauto. now rewrite e0.
Qed.

Section Any.
  Context {F N : Type}.
  Variable fo : forest_ops F N.
  Variable ok : phase -> F -> Prop.
  Hypothesis HU : usable fo ok.
  Variable P : perf.
  Variables (c : pcfg) (nsyms : nat) (w : wrapped_root) (d0 : nat) (g0 : sym).
  Variable g : dgrammar.
  Hypothesis Hleo : LEO P = false.
  Hypothesis HB : built c nsyms w d0 g0 g.
  Notation R := (c_rules c).
  Notation nall := (c_num_syms c).
  Notation root := (w_root w).
  Notation start_state := (start_state ok P c nsyms w g).

  Lemma row_syms : forall (row : bitrow) s, In s (map fst (filter snd (combine (seq 0 (length row)) row))) <-> nth_error row s = Some true.
  Proof.
    intros row s. assert (X : forall k, In s (map fst (filter snd (combine (seq k (length row)) row))) <->
      exists j, s = k + j /\ nth_error row j = Some true).
    { induction row as [|b row IH]; intros k.
      - simpl. split; [intros []|intros (j & _ & H); destruct j; discriminate].
      - cbn [length seq combine filter snd]. destruct b; cbn [map fst In].
        + rewrite IH. split.
          * intros [<-|(j & -> & H)]; [exists 0; split; [lia|reflexivity]|exists (S j); split; [lia|auto]].
          * intros ([|j] & -> & H); [left; lia|right; exists j; split; [lia|auto]].
        + rewrite IH. split.
          * intros (j & -> & H). exists (S j). split; [lia|auto].
          * intros ([|j] & -> & H); [discriminate|]. exists j. split; [lia|auto]. }
    rewrite X. split; [intros (j & -> & H); auto|]. intros H. exists s. auto.
  Qed.

  Lemma predicted_row : forall FI FO E Z k pos st1 (st : rstate F N),
    Core4.Inv P R nsyms FI FO root E Z k pos st1 -> mate ok st1 st ->
    exists l, predicted_symbols (begin_earleme P st) = Ret l /\
      forall s, In s l <-> s < nsyms /\ ePred P R nsyms FI FO root E s k.
  Proof.
    intros FI FO E Z k pos st1 st [(cs & O & Hrep & HL & (HLx & Hinc & Hset & Hrows)) Hlast _ _] Hm.
    assert (Elen : v_len (r_medial st) = S (length cs)).
    { destruct Hm as (_ & _ & _ & [Hi _] & _). unfold v_len. rewrite <- Hi. apply (rep_len _ _ _ Hrep). }
    assert (Epr : r_predicted st = r_predicted st1) by (destruct Hm as (_ & _ & X & _); auto).
    assert (Hpos : nth_error pos (length cs) = Some k) by (rewrite <- Hlast; f_equal; lia).
    destruct (Hrows _ _ Hpos) as (row & Hrow & Hlr & Hbits).
    assert (Ee : earleme (begin_earleme P st) = Some (length cs)).
    { unfold begin_earleme. rewrite Hleo. unfold earleme, v_len. cbn. rewrite app_length. cbn [length].
      unfold v_len in Elen. rewrite Elen. replace (S (length cs) + 1) with (S (S (length cs))) by lia. reflexivity. }
    assert (Erow : nth_error (r_predicted (begin_earleme P st)) (length cs) = Some row).
    { unfold begin_earleme. rewrite Hleo. cbn. now rewrite Epr. }
    eexists. split.
    - unfold predicted_symbols. rewrite Ee. cbn [unwrap bind]. rewrite (idx_some _ _ _ _ Erow). reflexivity.
    - intros s. rewrite row_syms. apply Hbits.
  Qed.

  (** *** predicted symbols *)
  Lemma predicted_offered : forall st Ws fuel st', start_state (fun _ => False) st ->
    (forall ts s v, In ts Ws -> In (s, v) ts -> user_terminal c nsyms w s) ->
    feed_all fo P g fuel (offered w Ws) st = Ret (true, st') ->
    exists l, predicted_symbols (begin_earleme P st') = Ret l /\
      forall s, In s l <-> s < nsyms /\
        exists ys v, choice Ws ys /\ derives R root (w_sof w :: map fst ys ++ s :: v).
  Proof.
    intros st Ws fuel st' Hst Hx Hf. pose proof (b_processed _ _ _ _ _ _ HB) as HP.
    set (locs := offered w Ws) in *.
    assert (Hok : locs_ok nsyms nall locs).
    { apply (offered_ok c nsyms w d0 g0 g HB). intros ts s v A B. apply (user_nall c nsyms w d0 g0 g HB). eapply Hx; eauto. }
    destruct (run_any fo ok HU P c nsyms w d0 g0 g Hleo HB _ st locs Hst ltac:(intros s []) Hok ltac:(discriminate))
      as (n & b & sd & first & follow & HFI & HFO & HsdZ & Hsd0 & Hb & Hlow & fin & _ & Hhigh).
    destruct (Nat.lt_ge_cases fuel n) as [Hl|Hl]; [rewrite (Hlow _ Hl) in Hf; discriminate|].
    destruct (Hhigh fuel Hl) as (st1 & st2 & E2 & Hm & _ & Hx2). rewrite Hf in E2. injection E2 as <- <-.
    destruct (Hx2 eq_refl) as (_ & _ & pos & HI).
    destruct (predicted_row _ _ _ _ _ _ _ _ HI Hm) as (l & El & Hbits).
    assert (Hsd : forall j s, ~ sd j s) by (intros [|j] s X; [now apply (Hsd0 s)|now apply HsdZ in X]).
    exists l. split; [exact El|]. intros s. rewrite Hbits. split; intros [Hs H]; (split; [exact Hs|]).
    - destruct (proj2 (proj2 (proj2 (chart_context R nsyms root _ _ _ _ _ _ _
        (fun j s X => Hsd j s X)))) s (length locs) H) as (ys & v & Hrd & Hd).
      unfold locs in Hrd. rewrite offered_len in Hrd.
      apply (reads_choice _ _ 0 (offered_W w Ws)) in Hrd. inversion Hrd as [|? y ? zs Hin Hr]; subst.
      destruct Hin as [<-|[]]. exists zs, v. split; [auto|]. exact Hd.
    - destruct H as (ys & v & Hch & Hd).
      set (loc := overlapping [(s, 0)]).
      assert (Hok' : locs_ok nsyms nall (locs ++ [loc])).
      { intros x X. apply in_app_iff in X. destruct X as [X|[<-|[]]]; [now apply Hok|]. cbn. split; [exact I|].
        intros s' v' [E|[]]. injection E as <- _. pose proof (pr_le _ _ _ _ _ HP). lia. }
      pose proof (env_of_agree locs [loc] sd sd ltac:(reflexivity)) as Hag.
      assert (Halive : alive_at R nsyms root (eW (env_of (locs ++ [loc]) sd)) (ehint (env_of (locs ++ [loc]) sd))
         (first_of first) (follow_of follow) (LOOKAHEAD P) (ekeep (env_of (locs ++ [loc]) sd)) (eseed (env_of (locs ++ [loc]) sd)) (S (length locs))).
      { assert (Eo : locs ++ [loc] = offered w (Ws ++ [[(s, 0)]])).
        { unfold locs, offered, loc. cbn. now rewrite map_app. }
        rewrite Eo.
        apply (viable_alive P c nsyms w d0 g0 g HB) with (ys := (w_sof w, 0) :: ys ++ [(s, 0)]) (v := v); auto.
        - discriminate.
        - intros l0 s0 [<-|Hl0]; [reflexivity|]. apply in_map_iff in Hl0. destruct Hl0 as (x & <- & _). reflexivity.
        - rewrite offered_len. apply (reads_choice _ _ 0 (offered_W w _)). constructor; [simpl; auto|].
          apply Forall2_app; [exact Hch|]. constructor; [simpl; auto|constructor].
        - cbn. rewrite map_app, <- app_assoc. exact Hd.
        - intros s0 v' [E|[]]. injection E as <- _. now apply (sof_not_root c nsyms w d0 g0).
        - intros j s0 X. rewrite offered_hint in X. discriminate.
        - rewrite <- Eo, app_length. simpl. lia. }
      assert (HWk : eW (env_of (locs ++ [loc]) sd) (length locs) = [(s, 0)]).
      { cbn. rewrite nth_error_app2, Nat.sub_diag by lia. reflexivity. }
      destruct (env_congr P R nsyms (first_of first) (follow_of follow) root (length locs) _ _ Hag (length locs) (le_n _)) as (_ & _ & _ & HPc).
      apply HPc.
      destruct (scanned_predicted R nsyms root _ (ehint (env_of (locs ++ [loc]) sd)) (first_of first) (follow_of follow) (LOOKAHEAD P)
        (ekeep (env_of (locs ++ [loc]) sd)) (eseed (env_of (locs ++ [loc]) sd)) (length locs) s 0 HWk Hs) as (_ & HC & HM & _).
      destruct Halive as [(d & i & ts & X)|(d & i & t & X)]; [eapply HC|eapply HM]; eauto.
  Qed.

  Lemma predicted_terminals : forall st Ws fuel st', productive R -> start_state (fun _ => False) st ->
    (forall ts s v, In ts Ws -> In (s, v) ts -> user_terminal c nsyms w s) ->
    feed_all fo P g fuel (offered w Ws) st = Ret (true, st') ->
    exists l, predicted_symbols (begin_earleme P st') = Ret l /\
      forall s, user_terminal c nsyms w s ->
        (In s l <-> exists ys, choice Ws ys /\ viable c nsyms w g0 (map fst ys ++ [s])).
  Proof.
    intros st Ws fuel st' Hprod Hst Hx Hf. pose proof (b_processed _ _ _ _ _ _ HB) as HP.
    destruct (predicted_offered st Ws fuel st' Hst Hx Hf) as (l & El & Hl). exists l. split; [exact El|].
    intros s Hs. rewrite Hl.
    assert (Hneof : forall ys, choice Ws ys -> ~ In (w_eof w) (map fst ys ++ [s])).
    { intros ys Hch Hin. apply in_app_iff in Hin. destruct Hin as [Hin|[E|[]]].
      - revert Hin. eapply (choice_keys c nsyms w); eauto.
      - destruct Hs as (_ & _ & _ & X). congruence. }
    split.
    - intros (_ & ys & v & Hch & Hd). exists ys. split; [auto|]. apply (viable_root c nsyms w d0 g0 HP); [auto|].
      eapply viable_close; [auto|]. cbn. rewrite <- app_assoc. exact Hd.
    - intros (ys & Hch & Hv). split; [apply Hs|]. apply (viable_root c nsyms w d0 g0 HP) in Hv; [|auto].
      destruct Hv as (v & _ & Hd). exists ys, v. split; [auto|]. cbn in Hd. rewrite <- app_assoc in Hd. exact Hd.
  Qed.

  (** *** dropping sets *)
  Lemma dropping_same : forall f0 locs, ok Idle f0 -> locs_ok nsyms nall locs -> locs <> [] ->
    exists st0 n1 n2 b fin, r_new g f0 = Ret st0 /\
      (forall fuel, fuel < n1 -> feed_all fo P g fuel locs st0 = NoFuel) /\
      (forall fuel, fuel < n2 -> feed_all_keeping_sets fo P g fuel locs st0 = NoFuel) /\
      (forall fuel, n1 <= fuel -> exists st', feed_all fo P g fuel locs st0 = Ret (b, st') /\
         (b = true -> is_finished fo g st' = Ret fin)) /\
      (forall fuel, n2 <= fuel -> exists st', feed_all_keeping_sets fo P g fuel locs st0 = Ret (b, st') /\
         (b = true -> is_finished fo g st' = Ret fin)).
  Proof.
    intros f0 locs Hf0 Hok Hne.
    destruct HB as [HP (fuel0 & maps & nulling & first & follow & Hg & HFI & HFO)].
    destruct (new_fresh P c nsyms w d0 g0 fuel0 maps nulling first follow g HP Hg) as (st1 & E1 & Hf1 & Hh & Hff).
    pose proof (sim_new (F1 := list (nat * fnode)) (N1 := fnode) (N2 := N)
      (fun ph f1 f2 => (ph = Summing true -> f1 <> []) /\ ok ph f2) (fun _ _ _ _ => True) g [] f0) as HX.
    rewrite E1 in HX. destruct HX as (st0 & E0 & Hm); [split; [discriminate|auto]|].
    destruct (run_spec P c nsyms w d0 g0 fuel0 maps nulling first follow g Hleo HP Hg _ st1 locs Hf1 ltac:(intros ? []) Hok Hne)
      as (n1 & b1 & st1' & sd1 & Hrun1 & Hb1 & HsdZ1 & Hsd01 & _ & _ & Hfin1).
    destruct (run_spec_keeping P c nsyms w d0 g0 fuel0 maps nulling first follow g Hleo HP Hg _ st1 locs Hf1 ltac:(intros ? []) Hok Hne)
      as (n2 & b2 & st2' & sd2 & Hrun2 & Hb2 & HsdZ2 & Hsd02 & _ & _ & Hfin2).
    assert (Hag : env_agree (length locs) (env_of locs sd1) (env_of locs sd2)).
    { split; [|split; [|split]]; auto. intros j s _. cbn. split; intros X; exfalso; destruct j.
      - now apply (Hsd01 s).
      - now apply HsdZ1 in X.
      - now apply (Hsd02 s).
      - now apply HsdZ2 in X. }
    assert (Hcong : forall j, j <= length locs ->
      (alive P R nsyms (first_of first) (follow_of follow) root (env_of locs sd1) j <->
       alive P R nsyms (first_of first) (follow_of follow) root (env_of locs sd2) j)).
    { intros j Hj. destruct (env_congr P R nsyms (first_of first) (follow_of follow) root _ _ _ Hag j Hj) as (_ & HC & HM & _).
      split; (intros [(d & i & ts & X)|(d & i & t & X)]; [left|right]).
      - exists d, i, ts. now apply HC.
      - exists d, i, t. now apply HM.
      - exists d, i, ts. now apply HC.
      - exists d, i, t. now apply HM. }
    assert (Eb : b1 = b2).
    { destruct b1, b2; auto; exfalso.
      - assert (false = true); [|discriminate]. apply Hb2. intros j Hj. apply Hcong; [lia|]. now apply (proj1 Hb1).
      - assert (false = true); [|discriminate]. apply Hb1. intros j Hj. apply Hcong; [lia|]. now apply (proj1 Hb2). }
    subst b2.
    assert (Hfin : exists fin, b1 = true -> is_finished free_forest g st1' = Ret fin /\ is_finished free_forest g st2' = Ret fin).
    { destruct b1; [|exists true; discriminate].
      destruct (Hfin1 eq_refl) as (o1 & Eo1 & Hn1 & Hs1). destruct (Hfin2 eq_refl) as (o2 & Eo2 & Hn2 & Hs2).
      destruct (env_congr P R nsyms (first_of first) (follow_of follow) root _ _ _ Hag (length locs) (le_n _)) as (_ & _ & HM & _).
      exists (match o1 with Some _ => true | None => false end). intros _. unfold is_finished. rewrite Eo1, Eo2. cbn [bind].
      destruct o1 as [T1|], o2 as [T2|]; auto; exfalso.
      - destruct (Hs1 T1 eq_refl) as [(ts & Hts) Hall]. destruct (Hall ts Hts) as (t & _ & Ht).
        apply (Hn2 eq_refl t). now apply HM.
      - destruct (Hs2 T2 eq_refl) as [(ts & Hts) Hall]. destruct (Hall ts Hts) as (t & _ & Ht).
        apply (Hn1 eq_refl t). now apply HM. }
    destruct Hfin as (fin & Hfin).
    exists st0, n1, n2, b1, fin. split; [auto|].
    pose proof (fun fuel => sim_feed_all _ _ _ _ (free_fo fo ok HU) P g fuel locs _ _ Hm) as S1.
    pose proof (fun fuel => sim_feed_all_keeping _ _ _ _ (free_fo fo ok HU) P g fuel locs _ _ Hm) as S2.
    split; [|split; [|split]]; intros fuel Hl.
    - specialize (S1 fuel). rewrite Hrun1 in S1. apply Nat.ltb_lt in Hl. rewrite Hl in S1. exact S1.
    - specialize (S2 fuel). rewrite Hrun2 in S2. apply Nat.ltb_lt in Hl. rewrite Hl in S2. exact S2.
    - specialize (S1 fuel). rewrite Hrun1 in S1. apply Nat.ltb_ge in Hl. rewrite Hl in S1.
      destruct S1 as ([b' st'] & E & Hbb & Hm'). cbn [fst snd] in *. subst b'. exists st'. split; [auto|].
      intros Eb. destruct (Hfin Eb) as [Ef _].
      pose proof (sim_is_finished _ _ _ _ (free_fo fo ok HU) g I _ _ Hm') as Y. rewrite Ef in Y. destruct Y as (y & E' & <-). exact E'.
    - specialize (S2 fuel). rewrite Hrun2 in S2. apply Nat.ltb_ge in Hl. rewrite Hl in S2.
      destruct S2 as ([b' st'] & E & Hbb & Hm'). cbn [fst snd] in *. subst b'. exists st'. split; [auto|].
      intros Eb. destruct (Hfin Eb) as [_ Ef].
      pose proof (sim_is_finished _ _ _ _ (free_fo fo ok HU) g I _ _ Hm') as Y. rewrite Ef in Y. destruct Y as (y & E' & <-). exact E'.
  Qed.
End Any.
