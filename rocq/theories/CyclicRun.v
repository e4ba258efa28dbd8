(** CyclicRun: whole runs for grammars whose unary rules may form a cycle.  A run either
    does not end with the given fuel, or computes the chart exactly. *)
From Coq Require Import List Arith Bool Lia Permutation Sorted.
From Verif Require Import Base BaseProofs Vec2d Vec2dProofs Item Heap HeapProofs Grammar BitMatrix
  DefaultGrammar Forest Recognizer Drive Spec Chart ChartFacts Tables Den Core1 Core2 Core3 Core4 Core5.
Import ListNotations.
Local Open Scope res_scope.

Section CyclicRun.
  Variable P : perf.
  Variable g : dgrammar.
  Variable R : list prule.
  Variables nsyms nall : nat.
  Variables FIRST FOLLOW : sym -> sym -> bool.
  Variable root : sym.
  Hypothesis Hleo : LEO P = false.
  Hypothesis wf : wf_rules R nsyms nall.
  Hypothesis tok : tables_ok g R nsyms nall FIRST FOLLOW.

  Notation state := (rstate (list (nat * fnode)) fnode).
  Notation Inv := (Inv P R nsyms FIRST FOLLOW root).
  Notation alive := (alive P R nsyms FIRST FOLLOW root).

  (** completion: out of fuel, or done after [n] groups *)
  Lemma complete_sums_any : forall cs rows h kp, sets_static R nsyms cs rows -> hint_ok nsyms h ->
    forall fuel st O, cstate R cs rows h st O ->
    complete_sums free_forest P g kp fuel st = NoFuel \/
    exists n st' O', n <= fuel /\ cstate R cs rows h st' O' /\ r_complete st' = [] /\
      csteps P R nsyms FIRST FOLLOW cs rows h kp n (r_complete st) O [] O' /\ r_leo st' = r_leo st /\
      forall fuel, complete_sums free_forest P g kp fuel st = if fuel <? n then NoFuel else Ret (clear_hint st').
  Proof.
    intros cs rows h kp Hst Hh. induction fuel as [|fuel IH]; intros st O C; destruct (r_complete st) as [|x t] eqn:Eh.
    1, 3: right; exists 0, st, O; split; [lia|]; split; [auto|]; split; [auto|]; split; [constructor|]; split; [auto|];
      intros fu; cbn; now apply complete_sums_done.
    - left. apply (complete_sums_nofuel P g R nsyms nall FIRST FOLLOW tok cs rows h kp st O C). rewrite Eh; discriminate.
    - destruct (complete_sums_step P g R nsyms nall FIRST FOLLOW Hleo wf tok cs rows h kp Hst Hh st O C) as (st1 & O1 & C1 & S1 & L1 & E1).
      { rewrite Eh; discriminate. }
      destruct (IH st1 O1 C1) as [X|(n & st2 & O2 & Hn & C2 & H2 & S2 & L2 & E2)]; [left; now rewrite E1|]. right.
      exists (S n), st2, O2. split; [lia|]. split; [auto|]. split; [auto|].
      split. { rewrite <- Eh. econstructor; eauto. }
      split; [congruence|]. intros [|fu].
      + cbn. apply (complete_sums_nofuel P g R nsyms nall FIRST FOLLOW tok cs rows h kp st O C). rewrite Eh; discriminate.
      + rewrite E1, E2. reflexivity.
  Qed.

  Section Run.
    Variable rm : state -> res state.
    Hypothesis Hrm : remove_ok rm.
    Notation steps := (steps P g rm).
    Notation steploc := (steploc P g rm).
    Notation steps_snoc := (steps_snoc P g rm).

    (** one step: out of fuel, or exact *)
    Lemma step_any : forall fuel E Z k pos st, Inv E Z k pos st ->
      hint_ok nsyms (ehint E (S k)) ->
      (forall s v, In (s, v) (eW E k) -> s < nall) ->
      step P g rm (ekeep E (S k)) fuel (ehint E (S k)) (eW E k) st = NoFuel \/
      exists n b st' (sd : sym -> Prop), n <= fuel /\
        (forall fuel, step P g rm (ekeep E (S k)) fuel (ehint E (S k)) (eW E k) st =
           if fuel <? n then NoFuel else Ret (b, st')) /\
        (b = true <-> alive E (S k)) /\
        (forall s, sd s -> Z s) /\
        (b = false -> r_predicted st' = r_predicted st) /\
        (b = true -> r_hint st' = None /\
         exists pos' n', (0 < n' <= length pos /\ pos' = firstn n' pos ++ [S k]) /\
         forall E', (forall j, j < S k -> eW E' j = eW E j) ->
          (forall j, j <= S k -> ehint E' j = ehint E j) ->
          (forall j s, j <= S k -> ekeep E' j s = ekeep E j s) ->
          (forall j s, j <= k -> (eseed E' j s <-> eseed E j s)) ->
          (forall s, eseed E' (S k) s <-> sd s) ->
          Inv E' Z (S k) pos' st').
    Proof.
      intros fuel E Z k pos st HI Hh HW.
      assert (D : step P g rm (ekeep E (S k)) fuel (ehint E (S k)) (eW E k) st = NoFuel \/
                  step P g rm (ekeep E (S k)) fuel (ehint E (S k)) (eW E k) st <> NoFuel).
      { destruct (step P g rm (ekeep E (S k)) fuel (ehint E (S k)) (eW E k) st); [right|right|left]; congruence. }
      destruct D as [D|D]; [left; exact D|]. right.
      destruct (step_exact_given P g R nsyms nall FIRST FOLLOW root Hleo wf tok rm Hrm E Z k pos st HI Hh HW)
        as (n & b & st' & sd & Hs & X).
      - intros cs st1 O1 E1 C1 Hst _ _.
        destruct (complete_sums_any cs (r_predicted st) (ehint E (S k)) (ekeep E (S k)) Hst Hh fuel st1 O1 C1)
          as [Y|(n & st2 & O2 & _ & Y)]; [|exists n, st2, O2; exact Y].
        destruct (r_complete st1) as [|x t] eqn:Ec.
        + rewrite (complete_sums_done P g _ fuel st1 Ec) in Y. discriminate.
        + exfalso. apply D. unfold step. rewrite E1. cbn [bind]. unfold is_exhausted.
          destruct C1 as (Hrep & _). rewrite (rep_last _ _ _ Hrep). cbn [bind]. rewrite Ec.
          destruct O1; rewrite Y; reflexivity.
      - exists n, b, st', sd. split; [|split; [exact Hs|exact X]].
        destruct (Nat.ltb_spec fuel n) as [L|L]; [|exact L]. exfalso. apply D. rewrite Hs.
        apply Nat.ltb_lt in L. now rewrite L.
    Qed.

    (** whole runs: out of fuel, or exact *)
    Theorem steps_any : forall fuel st Z sd0, Inv (env_of [] sd0) Z 0 [0] st ->
      forall locs, locs_ok nsyms nall locs -> steps fuel locs st = NoFuel \/
      exists n b st' (sd : nat -> sym -> Prop) pos, n <= fuel /\
        (forall s, sd 0 s <-> sd0 0 s) /\ (forall j s, sd (S j) s -> Z s) /\
        (forall fuel, steps fuel locs st = if fuel <? n then NoFuel else Ret (b, st')) /\
        (b = true <-> forall j, j < length locs -> alive (env_of locs sd) (S j)) /\
        (b = false -> exists l0 k0 pos0 st0, Inv (env_of l0 sd) Z k0 pos0 st0 /\ nth_error pos0 0 = Some 0 /\
           r_predicted st' = r_predicted st0) /\
        (b = true -> Inv (env_of locs sd) Z (length locs) pos st' /\ nth_error pos 0 = Some 0 /\
           (locs <> [] -> r_hint st' = None)).
    Proof.
      intros fuel0 st Z sd0 HI. induction locs as [|x l IH] using rev_ind; intros Hok.
      - right. exists 0, true, st, (fun j s => j = 0 /\ sd0 0 s), [0]. split; [lia|]. split; [tauto|]. split; [intros j s [X _]; discriminate|].
        split; [reflexivity|]. split.
        { split; [intros _ j Hj; simpl in Hj; lia|auto]. }
        split; [discriminate|]. intros _. split; [|split; [auto|congruence]]. eapply Inv_congr; [|exact HI].
        split; [|split; [|split]]; cbn; auto. intros j s Hj. assert (j = 0) by lia. subst. tauto.
      - destruct IH as [IH|(n & b & st1 & sd & pos & Hn0 & Hsd0 & HsdZ & Hrun & Hb & Hfl & Hinv)].
        { intros y Hy. apply Hok. apply in_app_iff; auto. }
        { left. rewrite steps_snoc, IH. reflexivity. }
        destruct b.
        2:{ right. exists n, false, st1, sd, []. split; [auto|]. split; [auto|]. split; [auto|]. split.
            { intros fuel. rewrite steps_snoc, Hrun. destruct (fuel <? n); reflexivity. }
            split; [|split; [auto|discriminate]]. split; [discriminate|]. intros H. apply Hb. intros j Hj.
            specialize (H j). rewrite app_length in H. specialize (H ltac:(simpl; lia)).
            pose proof (env_of_agree l [x] sd sd ltac:(reflexivity)) as (A1 & A2 & A3 & A4).
            revert H. apply alive_late.
            - intros i Hi. apply A1. lia.
            - intros i Hi. apply A2. lia.
            - intros i s Hi. apply A3. lia.
            - intros i s Hi. reflexivity. }
        destruct (Hinv eq_refl) as (HI1 & Hp0 & Hh1). set (k := length l) in *.
        set (E := env_of (l ++ [x]) sd).
        pose proof (env_of_agree l [x] sd sd ltac:(reflexivity)) as Hag.
        assert (HI2 : Inv E Z k pos st1) by (eapply Inv_congr; [exact Hag|exact HI1]).
        assert (Ex : nth_error (l ++ [x]) k = Some x).
        { unfold k. rewrite nth_error_app2 by lia. now rewrite Nat.sub_diag. }
        assert (EW : eW E k = l_toks x) by (unfold E; cbn; now rewrite Ex).
        assert (Eh : ehint E (S k) = l_hint x) by (unfold E; cbn; now rewrite Ex).
        assert (Ekp : ekeep E (S k) = l_keep x) by (unfold E; cbn; now rewrite Ex).
        destruct (Hok x) as [Hx1 Hx2]. { apply in_app_iff; simpl; auto. }
        destruct (step_any fuel0 E Z k pos st1 HI2)
          as [Hno|(n2 & b2 & st2 & sd2 & Hn2 & Hstep & Hb2 & HZ & Hfail & Hnext)].
        { now rewrite Eh. }
        { rewrite EW. exact Hx2. }
        { left. rewrite EW, Eh, Ekp in Hno. rewrite steps_snoc, Hrun.
          destruct (Nat.ltb_spec fuel0 n); [lia|]. cbn [bind]. exact Hno. }
        right. rewrite EW, Eh, Ekp in Hstep.
        set (sd' := fun j s => if j =? S k then sd2 s else sd j s).
        assert (Hlt : forall j s, j <= k -> (sd' j s <-> sd j s)).
        { intros j s Hj. unfold sd'. destruct (Nat.eqb_spec j (S k)); [lia|reflexivity]. }
        assert (Hal : alive E (S k) <-> alive (env_of (l ++ [x]) sd') (S k)).
        { apply alive_late; auto. intros j s Hj. cbn. symmetry. now apply Hlt. }
        assert (Hal2 : forall j, j < k -> (alive (env_of l sd) (S j) <-> alive (env_of (l ++ [x]) sd') (S j))).
        { intros j Hj. destruct Hag as (A1 & A2 & A3 & A4). apply alive_late.
          - intros i Hi. apply A1. lia.
          - intros i Hi. apply A2. lia.
          - intros i s Hi. apply A3. lia.
          - intros i s Hi. cbn. symmetry. apply Hlt. lia. }
        assert (Hlen : length (l ++ [x]) = S k) by (rewrite app_length; simpl; unfold k; lia).
        destruct b2.
        + destruct (Hnext eq_refl) as (Hh2 & pos' & n' & (Hn' & Ep') & Hnx).
          exists (Nat.max n n2), true, st2, sd', pos'. split; [lia|].
          split. { intros s. rewrite <- Hsd0. apply Hlt. lia. }
          split. { intros j s. unfold sd'. destruct (Nat.eqb_spec (S j) (S k)); [apply HZ|apply HsdZ]. }
          split.
          { intros fuel. rewrite steps_snoc, Hrun. unfold steploc.
            destruct (Nat.ltb_spec fuel n) as [H1|H1]; cbn [bind].
            - destruct (Nat.ltb_spec fuel (Nat.max n n2)); [reflexivity|lia].
            - rewrite Hstep. destruct (Nat.ltb_spec fuel n2), (Nat.ltb_spec fuel (Nat.max n n2)); auto; lia. }
          split.
          { split; [intros _ j Hj|auto]. rewrite Hlen in Hj.
            destruct (Nat.eq_dec j k) as [->|Hne].
            - apply Hal. now apply Hb2.
            - apply Hal2; [lia|]. apply Hb; [auto|fold k; lia]. }
          split; [discriminate|]. intros _. rewrite Hlen. split; [|split; [|auto]].
          { apply Hnx.
            - intros j Hj. reflexivity.
            - intros j Hj. reflexivity.
            - intros j s Hj. reflexivity.
            - intros j s Hj. cbn. now apply Hlt.
            - intros s. cbn. unfold sd'. rewrite Nat.eqb_refl. reflexivity. }
          subst pos'. destruct n' as [|n'].
          { lia. }
          cbn. destruct pos; [discriminate|exact Hp0].
        + exists (Nat.max n n2), false, st2, sd', []. split; [lia|].
          split. { intros s. rewrite <- Hsd0. apply Hlt. lia. }
          split. { intros j s. unfold sd'. destruct (Nat.eqb_spec (S j) (S k)); [apply HZ|apply HsdZ]. }
          split.
          { intros fuel. rewrite steps_snoc, Hrun. unfold steploc.
            destruct (Nat.ltb_spec fuel n) as [H1|H1]; cbn [bind].
            - destruct (Nat.ltb_spec fuel (Nat.max n n2)); [reflexivity|lia].
            - rewrite Hstep. destruct (Nat.ltb_spec fuel n2), (Nat.ltb_spec fuel (Nat.max n n2)); auto; lia. }
          split; [|split; [|discriminate]].
          2:{ intros _. exists l, k, pos, st1. split; [|auto]. eapply Inv_congr; [|exact HI1].
              split; [|split; [|split]]; cbn; auto. intros j s Hj. symmetry. now apply Hlt. }
          split; [discriminate|]. intros H. apply Hb2. apply Hal. apply H. lia.
    Qed.
  End Run.
End CyclicRun.
