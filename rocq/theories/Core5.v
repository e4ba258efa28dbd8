(** Core5: whole runs compute the chart. *)
From Coq Require Import List Arith Bool Lia Permutation Sorted.
From Verif Require Import Base BaseProofs Vec2d Vec2dProofs Item Heap HeapProofs Grammar BitMatrix
  DefaultGrammar Forest Recognizer Drive Spec Chart ChartFacts Tables Den Core1 Core2 Core3 Core4.
Import ListNotations.
Local Open Scope res_scope.

(** the environment described by a list of locations, with extra predictions [sd] *)
Definition env_of (locs : list location) (sd : nat -> sym -> Prop) : env := {|
  eW := fun j => match nth_error locs j with Some l => l_toks l | None => [] end;
  ehint := fun j => match j with
                    | 0 => None
                    | S j' => match nth_error locs j' with Some l => l_hint l | None => None end
                    end;
  ekeep := fun j => match j with
                    | 0 => keep_all
                    | S j' => match nth_error locs j' with Some l => l_keep l | None => keep_all end
                    end;
  eseed := sd
|}.

Definition locs_ok (nsyms nall : nat) (locs : list location) : Prop :=
  forall l, In l locs -> hint_ok nsyms (l_hint l) /\ forall s v, In (s, v) (l_toks l) -> s < nall.

Section Core5.
  Variable P : perf.
  Variable g : dgrammar.
  Variable R : list prule.
  Variables nsyms nall : nat.
  Variables FIRST FOLLOW : sym -> sym -> bool.
  Variable root : sym.
  Hypothesis Hleo : LEO P = false.
  Hypothesis wf : wf_rules R nsyms nall.
  Hypothesis tok : tables_ok g R nsyms nall FIRST FOLLOW.
  Hypothesis Hacyc : unary_acyclic R.

  Notation state := (rstate (list (nat * fnode)) fnode).
  Notation eSym := (eSym P R nsyms FIRST FOLLOW root).
  Notation eComp := (eComp P R nsyms FIRST FOLLOW root).
  Notation eMed := (eMed P R nsyms FIRST FOLLOW root).
  Notation ePred := (ePred P R nsyms FIRST FOLLOW root).
  Notation Inv := (Inv P R nsyms FIRST FOLLOW root).
  Notation alive := (alive P R nsyms FIRST FOLLOW root).

  (** constituents ending at [S k] do not depend on extra predictions at [S k] *)
  Lemma late_1 : forall E1 E2 k,
    (forall j, j < S k -> eW E1 j = eW E2 j) ->
    (forall j, j <= S k -> ehint E1 j = ehint E2 j) ->
    (forall j s, j <= S k -> ekeep E1 j s = ekeep E2 j s) ->
    (forall j s, j <= k -> eseed E1 j s -> eseed E2 j s) ->
    (forall s i j t, eSym E1 s i j t -> j <= S k -> eSym E2 s i j t) /\
    (forall d i j ts, eComp E1 d i j ts -> j <= S k -> eComp E2 d i j ts) /\
    (forall d i j t, eMed E1 d i j t -> j <= S k -> eMed E2 d i j t) /\
    (forall s j, ePred E1 s j -> j <= k -> ePred E2 s j).
  Proof.
    intros E1 E2 k HW Hh Hk Hs. unfold Core3.eSym, Core3.eComp, Core3.eMed, Core3.ePred.
    apply chart_ind; intros.
    - apply Sym_scan. rewrite <- HW by lia. auto.
    - eapply Sym_group; eauto. rewrite <- Hk; auto.
    - pose proof (Sym_lt _ _ _ _ _ _ _ _ _ _ _ _ _ _ s). eapply Comp_unary; eauto; [apply H0; lia|].
      rewrite <- Hh; auto.
    - pose proof (Sym_lt _ _ _ _ _ _ _ _ _ _ _ _ _ _ s). eapply Comp_binary; eauto; [apply H; lia|].
      rewrite <- Hh; auto.
    - pose proof (Sym_lt _ _ _ _ _ _ _ _ _ _ _ _ _ _ s). eapply Med_intro; eauto; [apply H0; lia|].
      rewrite <- Hh; auto.
    - now apply Pred_start.
    - eapply Pred_med; eauto.
    - eapply Pred_seed; eauto.
  Qed.

  Lemma alive_late : forall E1 E2 k,
    (forall j, j < S k -> eW E1 j = eW E2 j) ->
    (forall j, j <= S k -> ehint E1 j = ehint E2 j) ->
    (forall j s, j <= S k -> ekeep E1 j s = ekeep E2 j s) ->
    (forall j s, j <= k -> (eseed E1 j s <-> eseed E2 j s)) ->
    (alive E1 (S k) <-> alive E2 (S k)).
  Proof.
    intros E1 E2 k HW Hh Hk Hs.
    assert (X : forall E1 E2,
      (forall j, j < S k -> eW E1 j = eW E2 j) ->
      (forall j, j <= S k -> ehint E1 j = ehint E2 j) ->
      (forall j s, j <= S k -> ekeep E1 j s = ekeep E2 j s) ->
      (forall j s, j <= k -> (eseed E1 j s <-> eseed E2 j s)) ->
      alive E1 (S k) -> alive E2 (S k)).
    { clear HW Hh Hk Hs E1 E2. intros E1 E2 HW Hh Hk Hs.
      destruct (late_1 E1 E2 k HW Hh Hk) as (_ & B & C & _). { intros j s Hj X. now apply Hs. }
      intros [(d & i & ts & X)|(d & i & t & X)]; [left|right]; exists d, i; eauto. }
    split; apply X; auto.
    - intros; symmetry; auto.
    - intros; symmetry; auto.
    - intros; symmetry; auto.
    - intros; symmetry; auto.
  Qed.

  Lemma nth_error_app_l : forall A (l l' : list A) i, i < length l -> nth_error (l ++ l') i = nth_error l i.
  Proof. intros. now apply nth_error_app1. Qed.

  Lemma env_of_agree : forall l l' sd sd', (forall j s, j <= length l -> (sd j s <-> sd' j s)) ->
    env_agree (length l) (env_of l sd) (env_of (l ++ l') sd').
  Proof.
    intros l l' sd sd' H. split; [|split; [|split]]; cbn.
    - intros j Hj. now rewrite nth_error_app_l.
    - intros [|j] Hj; [auto|]. rewrite nth_error_app_l by lia. auto.
    - intros [|j] s Hj; [auto|]. rewrite nth_error_app_l by lia. auto.
    - intros; now apply H.
  Qed.

  Section Run.
    Variable rm : state -> res state.
    Hypothesis Hrm : remove_ok rm.

    Definition steploc (fuel : nat) (loc : location) (st : state) : res (bool * state) :=
      step P g rm (l_keep loc) fuel (l_hint loc) (l_toks loc) st.
    Fixpoint steps (fuel : nat) (locs : list location) (st : state) : res (bool * state) :=
      match locs with
      | [] => Ret (true, st)
      | loc :: rest =>
          '(ok, st) <- steploc fuel loc st ;;
          if ok then steps fuel rest st else Ret (false, st)
      end.

    Lemma steps_snoc : forall fuel l x st,
      steps fuel (l ++ [x]) st =
      ('(ok, st) <- steps fuel l st ;; if ok then steploc fuel x st else Ret (false, st)).
    Proof.
      induction l as [|a l IH]; intros x st; cbn [app steps bind].
      - destruct (steploc fuel x st) as [[[|] st']| |]; reflexivity.
      - destruct (steploc fuel a st) as [[[|] st']| |]; cbn [bind]; auto.
    Qed.

    Theorem steps_exact : forall st Z sd0, Inv (env_of [] sd0) Z 0 [0] st ->
      forall locs, locs_ok nsyms nall locs ->
      exists n b st' (sd : nat -> sym -> Prop) pos,
        (forall s, sd 0 s <-> sd0 0 s) /\ (forall j s, sd (S j) s -> Z s) /\
        (forall fuel, steps fuel locs st = if fuel <? n then NoFuel else Ret (b, st')) /\
        (b = true <-> forall j, j < length locs -> alive (env_of locs sd) (S j)) /\
        (b = false -> exists l0 k0 pos0 st0, Inv (env_of l0 sd) Z k0 pos0 st0 /\ nth_error pos0 0 = Some 0 /\
           r_predicted st' = r_predicted st0) /\
        (b = true -> Inv (env_of locs sd) Z (length locs) pos st' /\ nth_error pos 0 = Some 0 /\
           (locs <> [] -> r_hint st' = None)).
    Proof.
      intros st Z sd0 HI. induction locs as [|x l IH] using rev_ind; intros Hok.
      - exists 0, true, st, (fun j s => j = 0 /\ sd0 0 s), [0]. split; [tauto|]. split; [intros j s [X _]; discriminate|].
        split; [reflexivity|]. split.
        { split; [intros _ j Hj; simpl in Hj; lia|auto]. }
        split; [discriminate|]. intros _. split; [|split; [auto|congruence]]. eapply Inv_congr; [|exact HI].
        split; [|split; [|split]]; cbn; auto. intros j s Hj. assert (j = 0) by lia. subst. tauto.
      - destruct IH as (n & b & st1 & sd & pos & Hsd0 & HsdZ & Hrun & Hb & Hfl & Hinv).
        { intros y Hy. apply Hok. apply in_app_iff; auto. }
        destruct b.
        2:{ exists n, false, st1, sd, []. split; [auto|]. split; [auto|]. split.
            { intros fuel. rewrite steps_snoc, Hrun. destruct (fuel <? n); reflexivity. }
            split; [|split; [auto|discriminate]]. split; [discriminate|]. intros H. apply Hb. intros j Hj.
            specialize (H j). rewrite app_length in H. specialize (H ltac:(simpl; lia)).
            pose proof (env_of_agree l [x] sd sd ltac:(reflexivity)) as (A1 & A2 & A3 & A4).
            revert H. apply alive_late.
            - intros i Hi. apply A1. lia.
            - intros i Hi. apply A2. lia.
            - intros i s Hi. apply A3. lia.
            - intros i s Hi. reflexivity. }
        destruct (Hinv eq_refl) as (HI1 & Hp0 & Hh1). set (k := length l) in *.
        set (E := env_of (l ++ [x]) sd).
        pose proof (env_of_agree l [x] sd sd ltac:(reflexivity)) as Hag.
        assert (HI2 : Inv E Z k pos st1) by (eapply Inv_congr; [exact Hag|exact HI1]).
        assert (Ex : nth_error (l ++ [x]) k = Some x).
        { unfold k. rewrite nth_error_app2 by lia. now rewrite Nat.sub_diag. }
        assert (EW : eW E k = l_toks x) by (unfold E; cbn; now rewrite Ex).
        assert (Eh : ehint E (S k) = l_hint x) by (unfold E; cbn; now rewrite Ex).
        assert (Ekp : ekeep E (S k) = l_keep x) by (unfold E; cbn; now rewrite Ex).
        destruct (Hok x) as [Hx1 Hx2]. { apply in_app_iff; simpl; auto. }
        destruct (step_exact P g R nsyms nall FIRST FOLLOW root Hleo wf tok Hacyc rm Hrm E Z k pos st1 HI2)
          as (n2 & b2 & st2 & sd2 & Hstep & Hb2 & HZ & Hfail & Hnext).
        { now rewrite Eh. }
        { rewrite EW. exact Hx2. }
        rewrite EW, Eh, Ekp in Hstep.
        set (sd' := fun j s => if j =? S k then sd2 s else sd j s).
        assert (Hlt : forall j s, j <= k -> (sd' j s <-> sd j s)).
        { intros j s Hj. unfold sd'. destruct (Nat.eqb_spec j (S k)); [lia|reflexivity]. }
        assert (Hal : alive E (S k) <-> alive (env_of (l ++ [x]) sd') (S k)).
        { apply alive_late; auto. intros j s Hj. cbn. symmetry. now apply Hlt. }
        assert (Hal2 : forall j, j < k -> (alive (env_of l sd) (S j) <-> alive (env_of (l ++ [x]) sd') (S j))).
        { intros j Hj. destruct Hag as (A1 & A2 & A3 & A4). apply alive_late.
          - intros i Hi. apply A1. lia.
          - intros i Hi. apply A2. lia.
          - intros i s Hi. apply A3. lia.
          - intros i s Hi. cbn. symmetry. apply Hlt. lia. }
        assert (Hlen : length (l ++ [x]) = S k) by (rewrite app_length; simpl; unfold k; lia).
        destruct b2.
        + destruct (Hnext eq_refl) as (Hh2 & pos' & n' & (Hn' & Ep') & Hnx).
          exists (Nat.max n n2), true, st2, sd', pos'.
          split. { intros s. rewrite <- Hsd0. apply Hlt. lia. }
          split. { intros j s. unfold sd'. destruct (Nat.eqb_spec (S j) (S k)); [apply HZ|apply HsdZ]. }
          split.
          { intros fuel. rewrite steps_snoc, Hrun. unfold steploc.
            destruct (Nat.ltb_spec fuel n) as [H1|H1]; cbn [bind].
            - destruct (Nat.ltb_spec fuel (Nat.max n n2)); [reflexivity|lia].
            - rewrite Hstep. destruct (Nat.ltb_spec fuel n2), (Nat.ltb_spec fuel (Nat.max n n2)); auto; lia. }
          split.
          { split; [intros _ j Hj|auto]. rewrite Hlen in Hj.
            destruct (Nat.eq_dec j k) as [->|Hne].
            - apply Hal. now apply Hb2.
            - apply Hal2; [lia|]. apply Hb; [auto|fold k; lia]. }
          split; [discriminate|]. intros _. rewrite Hlen. split; [|split; [|auto]].
          { apply Hnx.
            - intros j Hj. reflexivity.
            - intros j Hj. reflexivity.
            - intros j s Hj. reflexivity.
            - intros j s Hj. cbn. now apply Hlt.
            - intros s. cbn. unfold sd'. rewrite Nat.eqb_refl. reflexivity. }
          subst pos'. destruct n' as [|n'].
          { lia. }
          cbn. destruct pos; [discriminate|exact Hp0].
        + exists (Nat.max n n2), false, st2, sd', [].
          split. { intros s. rewrite <- Hsd0. apply Hlt. lia. }
          split. { intros j s. unfold sd'. destruct (Nat.eqb_spec (S j) (S k)); [apply HZ|apply HsdZ]. }
          split.
          { intros fuel. rewrite steps_snoc, Hrun. unfold steploc.
            destruct (Nat.ltb_spec fuel n) as [H1|H1]; cbn [bind].
            - destruct (Nat.ltb_spec fuel (Nat.max n n2)); [reflexivity|lia].
            - rewrite Hstep. destruct (Nat.ltb_spec fuel n2), (Nat.ltb_spec fuel (Nat.max n n2)); auto; lia. }
          split; [|split; [|discriminate]].
          2:{ intros _. exists l, k, pos, st1. split; [|auto]. eapply Inv_congr; [|exact HI1].
              split; [|split; [|split]]; cbn; auto. intros j s Hj. symmetry. now apply Hlt. }
          split; [discriminate|]. intros H. apply Hb2. apply Hal. apply H. lia.
    Qed.
  End Run.
End Core5.
