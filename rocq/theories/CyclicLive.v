(** CyclicLive: a run ends if the unary rules have no cycle among the symbols that derive a
    part of the input. *)
From Coq Require Import List Arith Bool Lia Permutation Sorted.
From Verif Require Import Base BaseProofs Vec2d Vec2dProofs Item Heap HeapProofs Grammar BitMatrix
  DefaultGrammar Forest Recognizer Drive Spec Chart ChartFacts Tables Den Core1 Core2 Core3 Core4 Core5 CyclicRun.
Import ListNotations.
Local Open Scope res_scope.

Section Live.
  Variable P : perf.
  Variable g : dgrammar.
  Variable R : list prule.
  Variables nsyms nall : nat.
  Variables FIRST FOLLOW : sym -> sym -> bool.
  Variable root : sym.
  Hypothesis Hleo : LEO P = false.
  Hypothesis wf : wf_rules R nsyms nall.
  Hypothesis tok : tables_ok g R nsyms nall FIRST FOLLOW.
  Variable live : sym -> Prop.
  Variable rank : sym -> nat.
  Hypothesis Hrank : forall r B, In r R -> p_rhs r = [B] -> live B -> rank (p_lhs r) < rank B.

  Notation state := (rstate (list (nat * fnode)) fnode).
  Notation Inv := (Inv P R nsyms FIRST FOLLOW root).
  Notation eComp := (eComp P R nsyms FIRST FOLLOW root).
  Notation sound_heap := (sound_heap P R nsyms FIRST FOLLOW root).

  (** completed rules have live left-hand sides *)
  Definition chart_live (E : env) : Prop :=
    forall d r i j ts, eComp E d i j ts -> nth_error R d = Some r -> live (p_lhs r).

  Lemma sound_step : forall E pos cs rows k, exact P R nsyms FIRST FOLLOW root E pos cs rows ->
    forall H O H' O', (forall x, In x H -> sound_heap E pos (S k) x) ->
    cstep P R nsyms FIRST FOLLOW cs rows (ehint E (S k)) (ekeep E (S k)) H O H' O' ->
    forall x, In x H' -> sound_heap E pos (S k) x.
  Proof.
    intros E pos cs rows k Hx H O H' O' SH Hs.
    destruct Hs as [H O o A popped rest nh nm H' Hne Pm Hmax Hg Hr Hk Hc Pm'|H O o A popped rest Hne Pm Hmax Hg Hr Hk];
      intros x Hin.
    - apply (Permutation_in _ Pm') in Hin. apply in_app_iff in Hin. destruct Hin as [Hin|Hin].
      + assert (SG : sound_sym P R nsyms FIRST FOLLOW root E pos (S k) A o (FSum A (map alt popped))).
        { apply sound_group; auto. intros y Hy. apply SH. eapply Permutation_in; [symmetry; eauto|]. apply in_app_iff; auto. }
        now apply (completes_sound P R nsyms FIRST FOLLOW root E pos cs rows k Hx _ _ _ _ _ Hc SG).
      + apply SH. eapply Permutation_in; [symmetry; eauto|]. apply in_app_iff; auto.
    - apply SH. eapply Permutation_in; [symmetry; eauto|]. apply in_app_iff; auto.
  Qed.

  Lemma sound_live : forall E pos j it, chart_live E -> sound_heap E pos j it -> live (lhs_of R (it_dot it)).
  Proof.
    intros E pos j it HL (i & _ & (ts & Hts) & Hall). pose proof (Hall ts Hts) as Hc.
    destruct (Comp_rule _ _ _ _ _ _ _ _ _ _ _ _ _ _ Hc) as (r & Hr).
    unfold lhs_of. rewrite Hr. eapply HL; eauto.
  Qed.

  Section Run.
    Variable rm : state -> res state.
    Hypothesis Hrm : remove_ok rm.
    Notation steps := (steps P g rm).

    Lemma step_ends : forall E Z k pos st, Inv E Z k pos st ->
      hint_ok nsyms (ehint E (S k)) ->
      (forall s v, In (s, v) (eW E k) -> s < nall) -> chart_live E ->
      exists n, forall fuel, n <= fuel -> step P g rm (ekeep E (S k)) fuel (ehint E (S k)) (eW E k) st <> NoFuel.
    Proof.
      intros E Z k pos st HI Hh HW HL.
      destruct (step_exact_given P g R nsyms nall FIRST FOLLOW root Hleo wf tok rm Hrm E Z k pos st HI Hh HW)
        as (n & b & st' & sd & Hs & _).
      - intros cs st1 O1 _ C1 Hst Hx SH.
        apply (live_terminates P g R nsyms nall FIRST FOLLOW Hleo wf tok cs (r_predicted st) (ehint E (S k)) (ekeep E (S k)) Hst Hh
          live rank Hrank (fun H _ => forall x, In x H -> sound_heap E pos (S k) x)).
        + intros H O H' O' SH' Hc. exact (sound_step E pos cs _ k Hx H O H' O' SH' Hc).
        + intros H O it SH' Hin. exact (sound_live E pos (S k) it HL (SH' it Hin)).
        + exact C1.
        + exact SH.
      - exists n. intros fuel Hf. rewrite Hs. apply Nat.ltb_ge in Hf. rewrite Hf. discriminate.
    Qed.

    Theorem steps_ends : forall st Z sd0, Inv (env_of [] sd0) Z 0 [0] st ->
      forall locs, locs_ok nsyms nall locs -> 
      (forall n sd, (forall s, sd 0 s <-> sd0 0 s) -> (forall j s, sd (S j) s -> Z s) -> chart_live (env_of (firstn n locs) sd)) ->
      exists n, forall fuel, n <= fuel -> steps fuel locs st <> NoFuel.
    Proof.
      intros st Z sd0 HI. induction locs as [|x l IH] using rev_ind; intros Hok HL; [exists 0; discriminate|].
      assert (Hok' : locs_ok nsyms nall l) by (intros y Hy; apply Hok; apply in_app_iff; auto).
      destruct IH as (n & Hn); [exact Hok'| |].
      { intros n sd H1 H2. specialize (HL (min n (length l)) sd H1 H2). rewrite firstn_app in HL.
        replace (min n (length l) - length l) with 0 in HL by lia. rewrite firstn_O, app_nil_r in HL.
        destruct (Nat.le_ge_cases n (length l)).
        - now rewrite Nat.min_l in HL by auto.
        - rewrite Nat.min_r, firstn_all in HL by auto. now rewrite firstn_all2. }
      destruct (steps_any P g R nsyms nall FIRST FOLLOW root Hleo wf tok rm Hrm n st Z sd0 HI l Hok')
        as [Hno|(n' & b & st1 & sd & pos & Hn0 & Hsd0 & HsdZ & Hrun & Hb & Hfl & Hinv)]; [now elim (Hn n (le_n _))|].
      assert (Hrun' : forall fuel, n <= fuel -> steps fuel l st = Ret (b, st1)).
      { intros fuel Hf. rewrite Hrun. destruct (Nat.ltb_spec fuel n'); [lia|reflexivity]. }
      destruct b.
      2:{ exists n. intros fuel Hf. rewrite steps_snoc, Hrun' by auto. discriminate. }
      destruct (Hinv eq_refl) as (HI1 & Hp0 & Hh1). set (k := length l) in *. set (E := env_of (l ++ [x]) sd).
      pose proof (env_of_agree l [x] sd sd ltac:(reflexivity)) as Hag.
      assert (HI2 : Inv E Z k pos st1) by (eapply Inv_congr; [exact Hag|exact HI1]).
      assert (Ex : nth_error (l ++ [x]) k = Some x).
      { unfold k. rewrite nth_error_app2 by lia. now rewrite Nat.sub_diag. }
      assert (EW : eW E k = l_toks x) by (unfold E; cbn; now rewrite Ex).
      assert (Eh : ehint E (S k) = l_hint x) by (unfold E; cbn; now rewrite Ex).
      assert (Ekp : ekeep E (S k) = l_keep x) by (unfold E; cbn; now rewrite Ex).
      destruct (Hok x) as [Hx1 Hx2]. { apply in_app_iff; simpl; auto. }
      destruct (step_ends E Z k pos st1 HI2) as (n2 & Hn2).
      { now rewrite Eh. }
      { rewrite EW. exact Hx2. }
      { specialize (HL (length (l ++ [x])) sd Hsd0 HsdZ). rewrite firstn_all in HL. exact HL. }
      exists (Nat.max n n2). intros fuel Hf. rewrite steps_snoc, Hrun' by lia. cbn [bind]. unfold steploc.
      rewrite EW, Eh, Ekp in Hn2. apply Hn2. lia.
    Qed.
  End Run.
End Live.
