(** LinearGroups: the groups of one location, counted by the places they start at. *)
From Coq Require Import List Arith Bool Lia Permutation Sorted.
From Verif Require Import Base BaseProofs Vec2d Vec2dProofs Item Heap HeapProofs Grammar BitMatrix
  DefaultGrammar Forest Recognizer Drive Spec Chart ChartFacts Tables Den Core1 Core2 Core3 Core4 Core5 CostSpec Cost.
Import ListNotations.
Local Open Scope res_scope.

Lemma ile_origin : forall N (x y : item N), ile x y -> it_origin x <= it_origin y /\
  (it_origin x = it_origin y -> it_dot x <= it_dot y).
Proof. intros N x y H. apply item_leb_spec in H. lia. Qed.

Section Groups.
  Variable P : perf.
  Variable g : dgrammar.
  Variable R : list prule.
  Variables nsyms nall : nat.
  Variables FIRST FOLLOW : sym -> sym -> bool.
  Variable root : sym.
  Hypothesis Hleo : LEO P = false.
  Hypothesis wf : wf_rules R nsyms nall.
  Hypothesis tok : tables_ok g R nsyms nall FIRST FOLLOW.
  Variable rank : sym -> nat.
  Hypothesis Hrank : forall r B, In r R -> p_rhs r = [B] -> rank (p_lhs r) < rank B.

  Notation fitem := (item fnode).
  Notation state := (rstate (list (nat * fnode)) fnode).
  Notation eComp := (eComp P R nsyms FIRST FOLLOW root).
  Notation Inv := (Inv P R nsyms FIRST FOLLOW root).
  Notation PHI := (PHI R rank).

  Section Pass.
    Variable E : env.
    Variable pos : list nat.
    Variable cs : list (list fitem).
    Variable rows : bitmatrix.
    Variable k : nat.
    Hypothesis Hexact : exact P R nsyms FIRST FOLLOW root E pos cs rows.
    Notation cstep := (cstep P R nsyms FIRST FOLLOW cs rows (ehint E (S k)) (ekeep E (S k))).
    Notation csteps := (csteps P R nsyms FIRST FOLLOW cs rows (ehint E (S k)) (ekeep E (S k))).
    Notation cinv := (cinv P R nsyms FIRST FOLLOW root E pos cs rows k).

    Definition active (o : nat) : Prop := exists d i ts, nth_error pos o = Some i /\ eComp E d i (S k) ts.

    Lemma sound_active : forall x, sound_heap P R nsyms FIRST FOLLOW root E pos (S k) x ->
      active (it_origin x) /\ it_dot x < length R.
    Proof.
      intros x (i & Hi & (ts & Hts) & Hall). specialize (Hall ts Hts). split; [exists (it_dot x), i, ts; auto|].
      destruct (Comp_rule _ _ _ _ _ _ _ _ _ _ _ _ _ _ Hall) as [r Hr]. apply nth_error_Some. congruence.
    Qed.

    (** a group takes part of the potential of the place it starts at *)
    Lemma cstep_psi : forall D H O H' O', cinv D H O -> cstep H O H' O' ->
      exists top, In top H /\ (forall x, In x H -> it_origin x <= it_origin top) /\
        (forall x, In x H' -> it_origin x <= it_origin top) /\
        psi R rank (it_origin top) H' < psi R rank (it_origin top) H.
    Proof.
      intros D H O H' O' HD Hs. pose proof (exact_static _ _ _ _ _ _ _ wf _ _ _ _ Hexact) as Hst.
      destruct HD as (SH & _).
      assert (Hrest : forall o A popped rest top, Permutation H (popped ++ rest) -> In top popped -> (forall x, In x H -> ile x top) ->
        (forall x, In x popped -> in_group R o A x) ->
        (rest = [] \/ exists top, In top rest /\ (forall x, In x rest -> ile x top) /\ ~ in_group R o A top) ->
        In top H /\ (forall x, In x rest -> In x H) /\ (forall x, In x rest -> it_origin x = it_origin top -> it_dot x <> it_dot top)).
      { intros o A popped rest top Pm Ht Hmax Hg Hr.
        assert (Hin : forall x, In x rest -> In x H) by (intros x Hx; eapply Permutation_in; [symmetry; eauto|]; apply in_app_iff; auto).
        split; [eapply Permutation_in; [symmetry; eauto|]; apply in_app_iff; auto|]. split; [auto|].
        intros x Hx E1 E2. destruct Hr as [->|(y & Hy & Hym & Hyg)]; [destruct Hx|]. apply Hyg.
        destruct (ile_origin _ _ _ (Hym x Hx)) as [A1 A2]. destruct (ile_origin _ _ _ (Hmax y (Hin y Hy))) as [B1 B2].
        destruct (Hg top Ht) as [C1 C2]. assert (it_origin y = it_origin top) by lia. assert (it_dot y = it_dot top) by lia.
        split; congruence. }
      destruct Hs as [H O o A popped rest nh nm H' Hne Pm (top & Ht & Hmax) Hg Hr Hk Hc Pm'|H O o A popped rest Hne Pm (top & Ht & Hmax) Hg Hr Hk].
      - destruct (Hrest o A popped rest top Pm Ht Hmax Hg Hr) as (H1 & H2 & H3).
        destruct (Hg top Ht) as [Eo EA]. destruct Hc as (set & row & Eset & Erow & Inh & _).
        destruct (Hst o set Eset) as (_ & Horig & _).
        assert (Hnh : forall x, In x nh -> it_origin x <= it_origin top /\
          (it_origin x = it_origin top -> Cost.starts_with R (Cost.lhs_of R (it_dot top)) true (it_dot x))).
        { intros x Hx. apply Inh in Hx.
          destruct Hx as [(it & r & B & Hit & Hr' & Erhs & _ & ->)|(d & r & T0 & Hr' & Erhs & _ & _ & _ & ->)]; cbn.
          - specialize (Horig it Hit). split; [lia|]. intros. lia.
          - split; [lia|]. intros _. exists r. split; [auto|]. rewrite Erhs. cbn. unfold rhs1. rewrite Erhs. cbn.
            split; [|auto]. f_equal. symmetry. exact EA. }
        exists top. split; [auto|]. split; [intros x Hx; apply (ile_origin _ _ _ (Hmax x Hx))|]. split.
        + intros x Hx. apply (Permutation_in _ Pm') in Hx. apply in_app_iff in Hx. destruct Hx as [Hx|Hx]; [now apply Hnh|].
          apply (ile_origin _ _ _ (Hmax x (H2 x Hx))).
        + apply (psi_step R rank Hrank _ _ rest nh top); auto; [now apply sound_active, SH|]. intros x Hx Ex. now apply Hnh.
      - destruct (Hrest o A popped rest top Pm Ht Hmax Hg Hr) as (H1 & H2 & H3).
        exists top. split; [auto|]. split; [intros x Hx; apply (ile_origin _ _ _ (Hmax x Hx))|]. split.
        + intros x Hx. apply (ile_origin _ _ _ (Hmax x (H2 x Hx))).
        + apply (psi_step R rank Hrank _ _ rest [] top); auto; [now apply sound_active, SH|intros x []].
    Qed.

    Lemma csteps_active : forall n H O H' O', csteps n H O H' O' -> H' = [] -> forall D, cinv D H O ->
      (H = [] -> n = 0) /\
      (H <> [] -> exists K L, (exists x, In x H /\ it_origin x = K) /\ (forall x, In x H -> it_origin x <= K) /\
        NoDup L /\ (forall o, In o L -> active o /\ o < K) /\ n <= psi R rank K H + PHI * length L).
    Proof.
      induction 1 as [H O|n H O H1 O1 H2 O2 Hs Hss IH]; intros -> D HD.
      - split; [auto|congruence].
      - destruct (cstep_psi _ _ _ _ _ HD Hs) as (top & Ht & Hmax & Hmax1 & Hpsi).
        destruct (cstep_cinv P R nsyms FIRST FOLLOW root E pos cs rows k Hexact _ _ _ _ _ HD Hs) as (D1 & HD1 & _).
        destruct (IH eq_refl _ HD1) as [IH0 IH1]. split; [intros ->; destruct Ht|]. intros _.
        set (K := it_origin top) in *.
        assert (Hc : H1 = [] \/ H1 <> []) by (destruct H1; [auto|right; congruence]). destruct Hc as [Hc|Hc].
        + exists K, []. rewrite (IH0 Hc). split; [eauto|]. split; [auto|]. split; [constructor|]. split; [intros o []|]. cbn. lia.
        + destruct (IH1 Hc) as (K1 & L & (x & Hx & Ex) & Hm1 & ND & HL & Hn).
          assert (HK : K1 <= K) by (rewrite <- Ex; auto).
          destruct (Nat.eq_dec K1 K) as [->|Hne].
          * exists K, L. split; [eauto|]. split; [auto|]. split; [auto|]. split; [auto|]. lia.
          * exists K, (K1 :: L). split; [eauto|]. split; [auto|]. split.
            { constructor; [|auto]. intros Hin. destruct (HL _ Hin). lia. }
            split.
            { intros o [<-|Hin]; [|destruct (HL o Hin); split; [auto|lia]]. split; [|lia]. rewrite <- Ex.
              apply sound_active. apply (proj1 HD1). auto. }
            pose proof (psi_le R rank K1 H1). cbn [length]. lia.
    Qed.

    Lemma csteps_count : forall n H O O', csteps n H O [] O' -> forall D, cinv D H O ->
      exists L, NoDup L /\ (forall o, In o L -> active o) /\ n <= PHI * length L.
    Proof.
      intros n H O O' Hs D HD. destruct (csteps_active _ _ _ _ _ Hs eq_refl D HD) as [H0 H1].
      destruct H as [|y H].
      - exists []. rewrite (H0 eq_refl). split; [constructor|]. split; [intros o []|lia].
      - destruct H1 as (K & L & (x & Hx & Ex) & _ & ND & HL & Hn); [congruence|].
        exists (K :: L). split; [constructor; [|auto]; intros Hin; destruct (HL _ Hin); lia|]. split.
        + intros o [<-|Hin]; [|now apply HL]. rewrite <- Ex. apply sound_active. apply (proj1 HD). auto.
        + pose proof (psi_le R rank K (y :: H)). cbn [length] in *. lia.
    Qed.
  End Pass.

  (** one location: the fuel it takes *)
  Lemma step_count : forall rm E Z k pos st n b st', Inv E Z k pos st -> hint_ok nsyms (ehint E (S k)) ->
    (forall s v, In (s, v) (eW E k) -> s < nall) ->
    (forall fuel, step P g rm (ekeep E (S k)) fuel (ehint E (S k)) (eW E k) st = if fuel <? n then NoFuel else Ret (b, st')) ->
    exists L, NoDup L /\ (forall o, In o L -> active E pos k o) /\ n <= PHI * length L.
  Proof.
    intros rm E Z k pos st n b st' HI Hh HW Hstep.
    destruct HI as [(cs0 & O0 & Hrep0 & HL0 & Hx0) Hlast0 Hrows0 Hheap0].
    set (cs := cs0 ++ [O0]) in *.
    assert (HLc : length cs = length pos). { unfold cs. rewrite app_length. simpl. lia. }
    assert (Hcs : 0 < length cs) by lia.
    set (rows := r_predicted st) in *.
    set (st0 := set_hint_field (begin_earleme P st) (ehint E (S k))) in *.
    assert (C0 : cstate R cs rows (ehint E (S k)) st0 []).
    { unfold st0, begin_earleme. rewrite Hleo. split; [|cbn; split; [auto|]].
      - cbn. now apply rep_next_set.
      - split; [auto|]. rewrite Hheap0. split; [apply heap_ok_nil|]. intros it []. }
    assert (Hlast : nth_error pos (length cs - 1) = Some k) by now rewrite HLc.
    destruct (scans_spec P g R nsyms nall FIRST FOLLOW root Hleo wf tok E pos cs rows k Hx0 Hlast Hcs Hh
                (eW E k) st0 [] []) as (st1 & O1 & D1 & E1 & C1 & L1 & SH1 & SO1 & HD1 & CD1 & _ & HI1).
    { exact C0. }
    { intros s v Hsv. split; [eapply HW; eauto|auto]. }
    { unfold st0, begin_earleme. rewrite Hleo. cbn. rewrite Hheap0. intros x []. }
    { intros x []. }
    { intros s o T []. }
    { intros s o T []. }
    unfold step in Hstep. fold st0 in Hstep. rewrite E1 in Hstep. cbn [bind] in Hstep.
    destruct (is_exhausted st1) as [ex| |] eqn:Eex; cbn [bind] in Hstep.
    2:{ specialize (Hstep n). rewrite Nat.ltb_irrefl in Hstep. discriminate. }
    2:{ specialize (Hstep n). rewrite Nat.ltb_irrefl in Hstep. discriminate. }
    destruct ex.
    { exists []. split; [constructor|]. split; [intros o []|]. specialize (Hstep 0). destruct n; [lia|discriminate]. }
    destruct (complete_sums_terminates P g R nsyms nall FIRST FOLLOW Hleo wf tok cs rows (ehint E (S k))
                  (ekeep E (S k)) (exact_static _ _ _ _ _ _ _ wf _ _ _ _ Hx0) Hh rank Hrank st1 O1 C1)
        as (m & st2 & O2 & C2 & Hh0 & Hsteps & L2 & E2).
    assert (Hnm : n <= m).
    { destruct (Nat.le_gt_cases n m) as [|Hlt]; [auto|]. exfalso.
      pose proof (Hstep m) as X1. pose proof (Hstep n) as X2. rewrite E2 in X1, X2. rewrite Nat.ltb_irrefl in X1, X2.
      apply Nat.ltb_lt in Hlt. rewrite Hlt in X1. apply Nat.ltb_lt in Hlt. destruct (Nat.ltb_spec n m); [lia|].
      rewrite X1 in X2. discriminate. }
    destruct (csteps_count E pos cs rows k Hx0 m _ _ _ Hsteps D1) as (L & ND & HL & Hm); [|exists L; split; [auto|]; split; [auto|lia]].
    split; [auto|]. split; [auto|]. split.
    - intros s o T HT. destruct (HD1 _ _ _ HT) as (-> & v & -> & Hv).
      exists k. split; [auto|]. split; [exists [Leaf s v]; constructor|].
      intros ts Hts. inversion Hts; subst. exists (Leaf s v). split; auto. now apply Sym_scan.
    - intros s o T HT. destruct (CD1 _ _ _ HT) as (set & row & A1 & A2 & A3 & A4).
      exists set, row. split; [auto|]. split; [auto|]. split; [|auto]. intros x Hx. left. now apply A3.
  Qed.
End Groups.
