(** Core2: the completion loop over the free forest, as a sequence of abstract
    steps; termination. *)
From Coq Require Import List Arith Bool Lia Permutation Sorted.
From Verif Require Import Base BaseProofs Vec2d Vec2dProofs Item Heap HeapProofs Grammar BitMatrix
  DefaultGrammar Forest Recognizer Spec Chart ChartFacts Tables Core1.
Import ListNotations.
Local Open Scope res_scope.

Lemma list_sum_perm : forall l l', Permutation l l' -> list_sum l = list_sum l'.
Proof. induction 1; simpl; lia. Qed.

Lemma list_sum_bound : forall l b, (forall x, In x l -> x <= b) -> list_sum l <= length l * b.
Proof.
  induction l as [|a l IH]; simpl; intros b H; [lia|].
  pose proof (H a (or_introl eq_refl)). pose proof (IH b (fun x Hx => H x (or_intror Hx))). lia.
Qed.

Section Core2.
  Variable P : perf.
  Variable g : dgrammar.
  Variable R : list prule.
  Variables nsyms nall : nat.
  Variables FIRST FOLLOW : sym -> sym -> bool.
  Hypothesis Hleo : LEO P = false.
  Hypothesis wf : wf_rules R nsyms nall.
  Hypothesis tok : tables_ok g R nsyms nall FIRST FOLLOW.

  Notation la := (LOOKAHEAD P).
  Notation fitem := (item fnode).
  Notation state := (rstate (list (nat * fnode)) fnode).
  Notation lhs_of := (lhs_of R).
  Notation heap_conseq := (heap_conseq P R nsyms FOLLOW).
  Notation med_conseq := (med_conseq P R nsyms FIRST).
  Notation frame := frame.

  Definition in_group (o : nat) (A : sym) (it : fitem) : Prop :=
    it_origin it = o /\ lhs_of (it_dot it) = A.

  Definition alt (it : fitem) : nat * fnode := (it_dot it, it_node it).

  Definition dot_valid (it : fitem) : Prop := exists r, nth_error R (it_dot it) = Some r.

  (** everything but heap and forest unchanged *)
  Definition frame_heap (st st' : state) : Prop :=
    r_hint st' = r_hint st /\ r_predicted st' = r_predicted st /\ r_medial st' = r_medial st /\
    r_leo st' = r_leo st.

  (** ** Popping a group *)
  Lemma next_summand_spec : forall o A (st : state), heap_ok (r_complete st) ->
    (forall it, In it (r_complete st) -> dot_valid it) ->
    (exists top st', heap_peek (r_complete st) = Some top /\ in_group o A top /\
       next_summand g o A st = Ret (Some top, st') /\ frame_heap st st' /\ r_forest st' = r_forest st /\
       heap_ok (r_complete st') /\ Permutation (r_complete st) (top :: r_complete st')) \/
    (next_summand g o A st = Ret (None, st) /\
      (forall top, heap_peek (r_complete st) = Some top -> ~ in_group o A top)).
  Proof.
    intros o A st Hk Hd. unfold next_summand.
    destruct (heap_peek (r_complete st)) as [top|] eqn:Ep.
    - destruct (Hd top) as [r Hr]. { eapply nth_error_In; eauto. }
      rewrite (t_lhs _ _ _ _ _ _ tok _ _ Hr). cbn [bind].
      unfold in_group. assert (El : lhs_of (it_dot top) = p_lhs r) by (unfold Core1.lhs_of; now rewrite Hr).
      destruct (Nat.eqb_spec o (it_origin top)), (Nat.eqb_spec A (p_lhs r)); cbn [andb];
        try (right; split; auto; intros t E; injection E as <-; rewrite El; lia).
      left. destruct (heap_pop_spec _ _ Hk Ep) as (h' & E & O & Pm).
      rewrite E. cbn [bind]. eexists top, _. split; [reflexivity|].
      split; [split; congruence|]. split; [reflexivity|]. cbn. repeat split; auto.
    - right. split; auto. intros; discriminate.
  Qed.

  Lemma summand_loop_spec : forall n o A (st : state), length (r_complete st) <= n ->
    heap_ok (r_complete st) -> (forall it, In it (r_complete st) -> dot_valid it) ->
    exists st' popped, summand_loop free_forest g n o A st = Ret st' /\ frame_heap st st' /\
      r_forest st' = r_forest st ++ map alt popped /\
      heap_ok (r_complete st') /\ Permutation (r_complete st) (popped ++ r_complete st') /\
      (forall x, In x popped -> in_group o A x) /\
      (forall top, heap_peek (r_complete st') = Some top -> ~ in_group o A top) /\
      (forall top, heap_peek (r_complete st) = Some top -> in_group o A top -> exists t, popped = top :: t).
  Proof.
    induction n as [|n IH]; intros o A st Hn Hk Hd.
    - destruct (r_complete st) eqn:E; [|simpl in Hn; lia].
      exists st, []. cbn [summand_loop]. unfold next_summand. rewrite E. cbn.
      rewrite app_nil_r. split; [reflexivity|]. split; [now repeat split|]. split; [auto|]. split; [rewrite ?E; auto using heap_ok_nil|].
      split; [rewrite ?E; auto using heap_ok_nil|]. split; [intros y []|]. split; [rewrite ?E; intros; discriminate|].
      intros; discriminate.
    - cbn [summand_loop].
      destruct (next_summand_spec o A st Hk Hd) as
        [(top & st1 & Ep & Hg & E1 & F1 & Ff & K1 & P1)|[E1 Hng]].
      + rewrite E1. cbn [bind push_summand f_push_summand free_forest].
        set (st2 := set_forest st1 (r_forest st1 ++ [(it_dot top, it_node top)])).
        destruct (IH o A st2) as (st3 & popped & E3 & F3 & Ff3 & K3 & P3 & G3 & N3 & T3).
        { cbn. apply Permutation_length in P1. simpl in P1. lia. }
        { exact K1. }
        { cbn. intros it Hit. apply Hd. eapply Permutation_in; [symmetry; eauto|]. simpl; auto. }
        unfold push_summand. cbn [bind f_push_summand free_forest]. fold st2. rewrite E3.
        exists st3, (top :: popped). split; [reflexivity|].
        split. { destruct F1 as (A1 & A2 & A3 & A4), F3 as (B1 & B2 & B3 & B4). cbn in *. repeat split; congruence. }
        split. { rewrite Ff3. cbn. rewrite Ff, <- app_assoc. reflexivity. }
        split; [auto|]. split. { rewrite P1. simpl. now constructor. }
        split. { intros x [<-|Hx]; auto. }
        split; [auto|]. intros top' E _. rewrite Ep in E. injection E as <-. eauto.
      + rewrite E1. cbn [bind]. exists st, []. rewrite app_nil_r. simpl.
        split; [reflexivity|]. split; [now repeat split|]. split; [auto|]. split; [auto|]. split; [auto|].
        split; [intros x []|]. split; [auto|]. intros top E Hg. exfalso. eapply Hng; eauto.
  Qed.

  Lemma skip_loop_spec : forall n o A (st : state), length (r_complete st) <= n ->
    heap_ok (r_complete st) -> (forall it, In it (r_complete st) -> dot_valid it) ->
    exists st' popped, skip_loop g n o A st = Ret st' /\ frame_heap st st' /\
      r_forest st' = r_forest st /\
      heap_ok (r_complete st') /\ Permutation (r_complete st) (popped ++ r_complete st') /\
      (forall x, In x popped -> in_group o A x) /\
      (forall top, heap_peek (r_complete st') = Some top -> ~ in_group o A top) /\
      (forall top, heap_peek (r_complete st) = Some top -> in_group o A top -> exists t, popped = top :: t).
  Proof.
    induction n as [|n IH]; intros o A st Hn Hk Hd.
    - destruct (r_complete st) eqn:E; [|simpl in Hn; lia].
      exists st, []. cbn [skip_loop]. unfold next_summand. rewrite E. cbn.
      split; [reflexivity|]. split; [now repeat split|]. split; [auto|]. split; [rewrite ?E; auto using heap_ok_nil|].
      split; [rewrite ?E; auto using heap_ok_nil|]. split; [intros y []|]. split; [rewrite ?E; intros; discriminate|].
      intros; discriminate.
    - cbn [skip_loop].
      destruct (next_summand_spec o A st Hk Hd) as
        [(top & st1 & Ep & Hg & E1 & F1 & Ff & K1 & P1)|[E1 Hng]].
      + rewrite E1. cbn [bind].
        destruct (IH o A st1) as (st3 & popped & E3 & F3 & Ff3 & K3 & P3 & G3 & N3 & T3).
        { apply Permutation_length in P1. simpl in P1. lia. }
        { exact K1. }
        { intros it Hit. apply Hd. eapply Permutation_in; [symmetry; eauto|]. simpl; auto. }
        rewrite E3.
        exists st3, (top :: popped). split; [reflexivity|].
        split. { destruct F1 as (A1 & A2 & A3 & A4), F3 as (B1 & B2 & B3 & B4). cbn in *. repeat split; congruence. }
        split; [congruence|].
        split; [auto|]. split. { rewrite P1. simpl. now constructor. }
        split. { intros x [<-|Hx]; auto. }
        split; [auto|]. intros top' E _. rewrite Ep in E. injection E as <-. eauto.
      + rewrite E1. cbn [bind]. exists st, []. simpl.
        split; [reflexivity|]. split; [now repeat split|]. split; [auto|]. split; [auto|]. split; [auto|].
        split; [intros x []|]. split; [auto|]. intros top E Hg. exfalso. eapply Hng; eauto.
  Qed.

  (** ** Abstract completion steps *)
  Section Step.
    Variable cs : list (list fitem).
    Variable rows : bitmatrix.
    Variable h : option sym.
    Variable kp : sym -> bool.

    (** facts about the finished sets *)
    Definition sets_static : Prop :=
      forall o set, nth_error cs o = Some set ->
        set_ok R set /\ (forall it, In it set -> it_origin it < o) /\
        exists row, nth_error rows o = Some row /\ length row = nsyms /\ row_closed R nsyms row /\
          (forall it C, In it set -> rhs1_of R (it_dot it) = Some C -> nth_error row C = Some true).
    Hypothesis Hstatic : sets_static.
    Hypothesis Hhint : hint_ok nsyms h.

    Definition item_valid (it : fitem) : Prop := dot_valid it /\ it_origin it < length cs.

    (** effect of completing [(s, o)] with node [T] *)
    Definition completes (o : nat) (s : sym) (T : fnode) (nh nm : list fitem) : Prop :=
      exists set row, nth_error cs o = Some set /\ nth_error rows o = Some row /\
        (forall x, In x nh <-> heap_conseq h set row o s T x) /\
        (forall x, In x nm <-> med_conseq h row o s T x) /\
        NoDup (map key nm) /\
        (NoDup set -> NoDup nh) /\
        length nh <= length set + length R.

    (** one group of completed items: heap [H], medial items [O] before and after *)
    Inductive cstep : list fitem -> list fitem -> list fitem -> list fitem -> Prop :=
    | cstep_keep : forall H O o A popped rest nh nm H',
        popped <> [] -> Permutation H (popped ++ rest) ->
        (exists top, In top popped /\ forall x, In x H -> ile x top) ->
        (forall x, In x popped -> in_group o A x) ->
        (rest = [] \/ exists top, In top rest /\ (forall x, In x rest -> ile x top) /\ ~ in_group o A top) ->
        kp A = true -> completes o A (FSum A (map alt popped)) nh nm ->
        Permutation H' (nh ++ rest) ->
        cstep H O H' (O ++ nm)
    | cstep_skip : forall H O o A popped rest,
        popped <> [] -> Permutation H (popped ++ rest) ->
        (exists top, In top popped /\ forall x, In x H -> ile x top) ->
        (forall x, In x popped -> in_group o A x) ->
        (rest = [] \/ exists top, In top rest /\ (forall x, In x rest -> ile x top) /\ ~ in_group o A top) ->
        kp A = false ->
        cstep H O rest O.

    Inductive csteps : nat -> list fitem -> list fitem -> list fitem -> list fitem -> Prop :=
    | csteps_nil : forall H O, csteps 0 H O H O
    | csteps_cons : forall n H O H1 O1 H2 O2, cstep H O H1 O1 -> csteps n H1 O1 H2 O2 ->
        csteps (S n) H O H2 O2.

    (** recognizer state during completion *)
    Definition cstate (st : state) (O : list fitem) : Prop :=
      rep (r_medial st) cs O /\ r_predicted st = rows /\ r_hint st = h /\
      heap_ok (r_complete st) /\ forall it, In it (r_complete st) -> item_valid it.

    Lemma complete_completes : forall st O o s T, cstate st O -> o < length cs -> s < nall ->
      exists st' nh nm, complete free_forest P g st o s T = Ret st' /\
        completes o s T nh nm /\ Permutation (r_complete st') (nh ++ r_complete st) /\
        cstate st' (O ++ nm) /\ r_forest st' = r_forest st /\ r_leo st' = r_leo st.
    Proof.
      intros st O o s T (Hrep & Hrows & Hh & Hk & Hv) Ho Hs.
      destruct (nth_error cs o) as [set|] eqn:Eset; [|apply nth_error_None in Eset; lia].
      destruct (Hstatic o set Eset) as (Hsok & Horig & row & Erow & Hlen & Hcl & Hbits).
      rewrite <- Hrows in Erow. pose proof Hhint as Hh'. rewrite <- Hh in Hh'.
      destruct (complete_spec P g R nsyms nall FIRST FOLLOW Hleo wf tok st cs O o set row s T
                  Hrep Eset Hsok Erow Hlen Hcl Hbits Hh' Hk Hs)
        as (st' & nh & nm & E & F & K & Pm & Rm & Inh & Inm & ND1 & ND2 & Hl).
      rewrite Hh in Inh, Inm.
      exists st', nh, nm. split; [exact E|].
      split.
      { exists set, row. rewrite <- Hrows. repeat split; auto; try apply Inh; try apply Inm.
        intros Hnd. apply ND2; auto. intros it Hit. specialize (Horig it Hit). lia. }
      split; [auto|]. destruct F as (Ff & Fh & Fp & Fl). split; [|auto].
      split; [auto|]. split; [congruence|]. split; [congruence|]. split; [auto|].
      intros it Hit. apply (Permutation_in _ Pm) in Hit. apply in_app_iff in Hit.
      destruct Hit as [Hit|Hit]; [|auto].
      apply Inh in Hit.
      destruct Hit as [(x & r & B & Hx & Hr & _ & _ & ->)|(d & r & T0 & Hr & _ & _ & _ & _ & ->)].
      - split; [now exists r|]. cbn. specialize (Horig x Hx). lia.
      - split; [now exists r|]. cbn. exact Ho.
    Qed.

    Lemma heap_peek_max : forall (H : list fitem) top, heap_ok H -> heap_peek H = Some top ->
      In top H /\ forall x, In x H -> ile x top.
    Proof.
      intros H top Hk Ep. split; [eapply nth_error_In; eauto|].
      intros x Hx. eapply heap_ok_max; eauto.
    Qed.

    Lemma group_step : forall st O, cstate st O -> r_complete st <> [] ->
      exists o A st' O' top, next_sum g st = Ret (Some (o, A)) /\
        (if kp A then complete_entire_sum free_forest P g o A st else skip_entire_sum g o A st) = Ret st' /\
        cstate st' O' /\ cstep (r_complete st) O (r_complete st') O' /\ r_leo st' = r_leo st /\
        heap_peek (r_complete st) = Some top /\ in_group o A top.
    Proof.
      intros st O (Hrep & Hrows & Hh & Hk & Hv) Hne.
      destruct (heap_peek (r_complete st)) as [top|] eqn:Ep.
      2:{ destruct (r_complete st); [congruence|discriminate]. }
      destruct (heap_peek_max _ _ Hk Ep) as [Htop Hmax].
      destruct (Hv top Htop) as [[r Hr] Ho].
      set (A := p_lhs r). set (o := it_origin top).
      assert (Hg : in_group o A top). { split; auto. unfold Core1.lhs_of. now rewrite Hr. }
      assert (Enext : next_sum g st = Ret (Some (o, A))).
      { unfold next_sum. rewrite Ep, (t_lhs _ _ _ _ _ _ tok _ _ Hr). reflexivity. }
      assert (HA : A < nall). { eapply wf_lhs_range; eauto using nth_error_In. }
      destruct (kp A) eqn:EkA.
      - set (st1 := set_forest st []).
        destruct (summand_loop_spec (length (r_complete st)) o A st1)
          as (st2 & popped & E2 & F2 & Ff2 & K2 & P2 & G2 & N2 & T2); cbn; auto.
        { intros it Hit. now apply Hv. }
        destruct (T2 top Ep Hg) as [pt Ept].
        set (T := FSum A (map alt popped)).
        set (st3 := set_forest st2 []).
        destruct F2 as (Fh & Fp & Fm & Fl).
        assert (C3 : cstate st3 O).
        { split; [cbn; now rewrite Fm|]. split; [cbn; rewrite Fp; auto|]. split; [cbn; rewrite Fh; auto|].
          split; [exact K2|]. cbn. intros it Hit. apply Hv. cbn in P2.
          eapply Permutation_in; [symmetry; exact P2|]. apply in_app_iff; auto. }
        destruct (complete_completes st3 O o A T C3 Ho HA) as (st4 & nh & nm & E4 & Cc & P4 & C4 & Ff4 & Fl4).
        exists o, A, st4, (O ++ nm), top. split; [auto|]. rewrite EkA. split; [|split; [auto|]; split; [|split; [|auto]]].
        { unfold complete_entire_sum. cbn [f_begin_sum free_forest bind]. fold st1.
          cbn in Ff2.
          change (length (r_complete st1)) with (length (r_complete st)).
          rewrite E2. cbn [bind]. unfold complete_sum. cbn [f_sum free_forest]. rewrite Ff2, Ept.
          cbn [map bind]. change (alt top :: map alt pt) with (map alt (top :: pt)). rewrite <- Ept.
          fold T. fold st3. rewrite E4. reflexivity. }
        + apply (cstep_keep _ _ o A popped (r_complete st2) nh nm); auto.
          * rewrite Ept; discriminate.
          * exists top. split; [rewrite Ept; simpl; auto|auto].
          * destruct (heap_peek (r_complete st2)) as [top2|] eqn:Ep2.
            -- right. exists top2. destruct (heap_peek_max _ _ K2 Ep2). repeat split; auto.
            -- left. destruct (r_complete st2); [auto|discriminate].
        + rewrite Fl4. cbn. rewrite Fl. reflexivity.
      - destruct (skip_loop_spec (length (r_complete st)) o A st)
          as (st2 & popped & E2 & F2 & Ff2 & K2 & P2 & G2 & N2 & T2); auto.
        { intros it Hit. now apply Hv. }
        destruct (T2 top Ep Hg) as [pt Ept].
        destruct F2 as (Fh & Fp & Fm & Fl).
        exists o, A, st2, O, top. split; [auto|]. rewrite EkA. split; [exact E2|]. split; [|split; [|split; [|auto]]].
        + split; [now rewrite Fm|]. split; [congruence|]. split; [congruence|]. split; [auto|].
          intros it Hit. apply Hv. eapply Permutation_in; [symmetry; exact P2|]. apply in_app_iff; auto.
        + apply (cstep_skip _ _ o A popped); auto.
          * rewrite Ept; discriminate.
          * exists top. split; [rewrite Ept; simpl; auto|auto].
          * destruct (heap_peek (r_complete st2)) as [top2|] eqn:Ep2.
            -- right. exists top2. destruct (heap_peek_max _ _ K2 Ep2). repeat split; auto.
            -- left. destruct (r_complete st2); [auto|discriminate].
        + auto.
    Qed.

    Lemma complete_sums_step : forall st O, cstate st O -> r_complete st <> [] ->
      exists st' O', cstate st' O' /\ cstep (r_complete st) O (r_complete st') O' /\ r_leo st' = r_leo st /\
        forall fuel, complete_sums free_forest P g kp (S fuel) st = complete_sums free_forest P g kp fuel st'.
    Proof.
      intros st O C Hne. destruct (group_step st O C Hne) as (o & A & st' & O' & top & E1 & E2 & C' & S' & L' & _).
      exists st', O'. split; [auto|]. split; [auto|]. split; [auto|].
      intros fuel. cbn [complete_sums]. rewrite E1. cbn [bind]. now rewrite E2.
    Qed.

    Lemma complete_sums_done : forall fuel (st : state), r_complete st = [] ->
      complete_sums free_forest P g kp fuel st = Ret (clear_hint st).
    Proof.
      intros fuel st E. destruct fuel; cbn [complete_sums]; unfold next_sum; rewrite E; reflexivity.
    Qed.

    Lemma complete_sums_nofuel : forall st O, cstate st O -> r_complete st <> [] ->
      complete_sums free_forest P g kp 0 st = NoFuel.
    Proof.
      intros st O (Hrep & Hrows & Hh & Hk & Hv) Hne. cbn [complete_sums]. unfold next_sum.
      destruct (heap_peek (r_complete st)) as [top|] eqn:Ep.
      2:{ destruct (r_complete st); [congruence|discriminate]. }
      destruct (heap_peek_max _ _ Hk Ep) as [Htop Hmax].
      destruct (Hv top Htop) as [[r Hr] Ho].
      rewrite (t_lhs _ _ _ _ _ _ tok _ _ Hr). reflexivity.
    Qed.

    (** ** Termination *)
    Section Termination.
      (** symbols whose unary rules are ranked; the symbols of the heap are such *)
      Variable live : sym -> Prop.
      Variable rank : sym -> nat.
      Hypothesis Hrank : forall r B, In r R -> p_rhs r = [B] -> live B -> rank (p_lhs r) < rank B.

      Definition rmax : nat := S (list_max (map rank (seq 0 nall))).
      Lemma rank_lt : forall A, A < nall -> rank A < rmax.
      Proof.
        intros A HA. unfold rmax.
        assert (X : Forall (fun k => k <= list_max (map rank (seq 0 nall))) (map rank (seq 0 nall))).
        { apply list_max_le. lia. }
        rewrite Forall_forall in X. specialize (X (rank A)).
        assert (In (rank A) (map rank (seq 0 nall))). { apply in_map, in_seq. lia. }
        specialize (X H). lia.
      Qed.

      Definition expo (it : fitem) : nat := it_origin it * rmax + rank (lhs_of (it_dot it)).
      Definition wbase : nat := S (length (concat cs) + length R).
      Definition weight (H : list fitem) : nat := list_sum (map (fun it => wbase ^ expo it) H).

      Lemma weight_perm : forall H H', Permutation H H' -> weight H = weight H'.
      Proof. intros. unfold weight. apply list_sum_perm. now apply Permutation_map. Qed.
      Lemma weight_app : forall a b, weight (a ++ b) = weight a + weight b.
      Proof. intros. unfold weight. now rewrite map_app, list_sum_app. Qed.

      Lemma conseq_expo : forall o s T nh nm, completes o s T nh nm -> s < nall -> live s ->
        forall x, In x nh -> expo x < o * rmax + rank s.
      Proof.
        intros o s T nh nm (set & row & Eset & Erow & Inh & _) Hs Hlv x Hx.
        apply Inh in Hx.
        destruct Hx as [(it & r & B & Hit & Hr & Erhs & _ & ->)|(d & r & T0 & Hr & Erhs & _ & _ & _ & ->)];
          unfold expo, Core1.lhs_of; cbn; rewrite Hr.
        - destruct (Hstatic o set Eset) as (_ & Horig & _). specialize (Horig it Hit).
          assert (rank (p_lhs r) < rmax) by (apply rank_lt; eapply wf_lhs_range; eauto using nth_error_In).
          nia.
        - pose proof (Hrank r s (nth_error_In _ _ Hr) Erhs Hlv). lia.
      Qed.

      Lemma length_concat_nth : forall A (l : list (list A)) i x, nth_error l i = Some x ->
        length x <= length (concat l).
      Proof.
        intros A l i x Hx. apply nth_error_In in Hx. apply in_split in Hx. destruct Hx as (a & b & ->).
        rewrite concat_app. simpl. rewrite !app_length. lia.
      Qed.

      Lemma cstep_weight : forall H O H' O', cstep H O H' O' ->
        (forall it, In it H -> item_valid it) -> (forall it, In it H -> live (lhs_of (it_dot it))) -> weight H' < weight H.
      Proof.
        intros H O H' O' Hs Hv Hlv.
        assert (Hpow : forall e, 0 < wbase ^ e).
        { intros e. pose proof (Nat.pow_nonzero wbase e). unfold wbase in *. lia. }
        destruct Hs as [H O o A popped rest nh nm H' Hne Pm Hmax Hg Hr Hk Hc Pm'|H O o A popped rest Hne Pm Hmax Hg Hr Hk].
        - rewrite (weight_perm _ _ Pm), (weight_perm _ _ Pm'), !weight_app.
          assert (weight nh < weight popped); [|lia].
          destruct popped as [|p pt]; [congruence|].
          assert (Hp : expo p = o * rmax + rank A).
          { destruct (Hg p (or_introl eq_refl)) as [E1 E2]. unfold expo. now rewrite E1, E2. }
          assert (HA : A < nall).
          { destruct (Hg p (or_introl eq_refl)) as [_ <-].
            destruct (Hv p) as [[r Hr'] _]. { eapply Permutation_in; [symmetry; eauto|]. simpl; auto. }
            unfold Core1.lhs_of. rewrite Hr'. eapply wf_lhs_range; eauto using nth_error_In. }
          assert (LA : live A).
          { destruct (Hg p (or_introl eq_refl)) as [_ <-]. apply Hlv. eapply Permutation_in; [symmetry; eauto|]. simpl; auto. }
          pose proof (conseq_expo _ _ _ _ _ Hc HA LA) as Hexp.
          assert (Hw : weight (p :: pt) >= wbase ^ expo p). { unfold weight. simpl. lia. }
          rewrite Hp in Hw.
          destruct (o * rmax + rank A) as [|e] eqn:Ee.
          + assert (nh = []) as ->.
            { destruct nh as [|x nh]; auto. specialize (Hexp x (or_introl eq_refl)). lia. }
            unfold weight at 1. simpl. specialize (Hpow 0). simpl in Hpow, Hw. lia.
          + assert (Hnh : weight nh <= length nh * wbase ^ e).
            { unfold weight. rewrite <- (map_length (fun it => wbase ^ expo it)).
              apply list_sum_bound. intros y Hy. apply in_map_iff in Hy. destruct Hy as (x & <- & Hx).
              apply Nat.pow_le_mono_r; [unfold wbase; lia|]. specialize (Hexp x Hx). lia. }
            assert (Hlen : length nh < wbase).
            { destruct Hc as (set & row & Eset & _ & _ & _ & _ & _ & Hl).
              pose proof (length_concat_nth _ _ _ _ Eset). unfold wbase. lia. }
            rewrite Nat.pow_succ_r' in Hw. specialize (Hpow e). nia.
        - rewrite (weight_perm _ _ Pm), weight_app.
          destruct popped as [|p pt]; [congruence|]. unfold weight at 2. simpl.
          specialize (Hpow (expo p)). lia.
      Qed.

      (** the loop ends: with enough fuel the result does not depend on it *)
      Variable I : list fitem -> list fitem -> Prop.
      Hypothesis HI : forall H O H' O', I H O -> cstep H O H' O' -> I H' O'.
      Hypothesis HIlive : forall H O it, I H O -> In it H -> live (lhs_of (it_dot it)).

      Theorem live_terminates : forall st O, cstate st O -> I (r_complete st) O ->
        exists n st' O', cstate st' O' /\ r_complete st' = [] /\
          csteps n (r_complete st) O [] O' /\ r_leo st' = r_leo st /\
          forall fuel, complete_sums free_forest P g kp fuel st =
            if fuel <? n then NoFuel else Ret (clear_hint st').
      Proof.
        intros st O. remember (weight (r_complete st)) as w eqn:Ew.
        revert st O Ew. induction w as [w IH] using lt_wf_ind. intros st O Ew C Hi.
        destruct (r_complete st) as [|x t] eqn:Eh.
        - exists 0, st, O. split; [auto|]. split; [auto|]. split; [constructor|]. split; [auto|].
          intros fuel. simpl. now apply complete_sums_done.
        - destruct (complete_sums_step st O C) as (st1 & O1 & C1 & S1 & L1 & E1).
          { rewrite Eh; discriminate. }
          rewrite Eh in S1.
          destruct (IH (weight (r_complete st1))) with (st := st1) (O := O1)
            as (n & st2 & O2 & C2 & H2 & S2 & L2 & E2); auto.
          { subst w. eapply cstep_weight; eauto. rewrite <- Eh. apply C. }
          { eapply HI; eauto. }
          exists (S n), st2, O2. split; [auto|]. split; [auto|].
          split. { econstructor; eauto. }
          split; [congruence|].
          intros [|fuel].
          + simpl. eapply complete_sums_nofuel; eauto. rewrite Eh; discriminate.
          + rewrite E1, E2. reflexivity.
      Qed.
    End Termination.

    Theorem complete_sums_terminates : forall rank : sym -> nat,
      (forall r B, In r R -> p_rhs r = [B] -> rank (p_lhs r) < rank B) ->
      forall st O, cstate st O ->
        exists n st' O', cstate st' O' /\ r_complete st' = [] /\
          csteps n (r_complete st) O [] O' /\ r_leo st' = r_leo st /\
          forall fuel, complete_sums free_forest P g kp fuel st =
            if fuel <? n then NoFuel else Ret (clear_hint st').
    Proof.
      intros rank Hrank st O C. apply (live_terminates (fun _ => True) rank (fun r B Hr Er _ => Hrank r B Hr Er) (fun _ _ => True)); auto.
    Qed.
  End Step.
End Core2.
