(** Core3: the completion pass computes the chart at the next position. *)
From Coq Require Import List Arith Bool Lia Permutation Sorted.
From Verif Require Import Base BaseProofs Vec2d Vec2dProofs Item Heap HeapProofs Grammar BitMatrix
  DefaultGrammar Forest Recognizer Spec Chart ChartFacts Tables Den Core1 Core2.
Import ListNotations.
Local Open Scope res_scope.

(** what happens over time: scanned tokens, hints, filters, extra predictions *)
Record env := mkEnv {
  eW : nat -> list (sym * nat);
  ehint : nat -> option sym;
  ekeep : nat -> sym -> bool;
  eseed : nat -> sym -> Prop
}.

(** agreement up to position [k] *)
Definition env_agree (k : nat) (E1 E2 : env) : Prop :=
  (forall j, j < k -> eW E1 j = eW E2 j) /\
  (forall j, j <= k -> ehint E1 j = ehint E2 j) /\
  (forall j s, j <= k -> ekeep E1 j s = ekeep E2 j s) /\
  (forall j s, j <= k -> (eseed E1 j s <-> eseed E2 j s)).

Section Core3.
  Variable P : perf.
  Variable g : dgrammar.
  Variable R : list prule.
  Variables nsyms nall : nat.
  Variables FIRST FOLLOW : sym -> sym -> bool.
  Variable root : sym.
  Hypothesis Hleo : LEO P = false.
  Hypothesis wf : wf_rules R nsyms nall.
  Hypothesis tok : tables_ok g R nsyms nall FIRST FOLLOW.

  Notation la := (LOOKAHEAD P).
  Notation fitem := (item fnode).
  Notation state := (rstate (list (nat * fnode)) fnode).
  Notation lhs_of := (lhs_of R).
  Notation heap_conseq := (heap_conseq P R nsyms FOLLOW).
  Notation med_conseq := (med_conseq P R nsyms FIRST).
  Notation pred := (pred R nsyms).
  Definition eSym (E : env) := Sym R nsyms root (eW E) (ehint E) FIRST FOLLOW la (ekeep E) (eseed E).
  Definition eComp (E : env) := Comp R nsyms root (eW E) (ehint E) FIRST FOLLOW la (ekeep E) (eseed E).
  Definition eMed (E : env) := Med R nsyms root (eW E) (ehint E) FIRST FOLLOW la (ekeep E) (eseed E).
  Definition ePred (E : env) := Pred R nsyms root (eW E) (ehint E) FIRST FOLLOW la (ekeep E) (eseed E).

  Lemma env_congr : forall k E1 E2, env_agree k E1 E2 -> forall j, j <= k ->
    (forall s i t, eSym E1 s i j t <-> eSym E2 s i j t) /\
    (forall d i ts, eComp E1 d i j ts <-> eComp E2 d i j ts) /\
    (forall d i t, eMed E1 d i j t <-> eMed E2 d i j t) /\
    (forall s, ePred E1 s j <-> ePred E2 s j).
  Proof.
    intros k E1 E2 (A1 & A2 & A3 & A4) j Hj. split; [|split; [|split]]; intros.
    - exact (Sym_congr R nsyms root FIRST FOLLOW la _ _ _ _ _ _ _ _ k A1 A2 A3 A4 s i j t Hj).
    - exact (Comp_congr R nsyms root FIRST FOLLOW la _ _ _ _ _ _ _ _ k A1 A2 A3 A4 d i j ts Hj).
    - exact (Med_congr R nsyms root FIRST FOLLOW la _ _ _ _ _ _ _ _ k A1 A2 A3 A4 d i j t Hj).
    - exact (Pred_congr R nsyms root FIRST FOLLOW la _ _ _ _ _ _ _ _ k A1 A2 A3 A4 s j Hj).
  Qed.

  (** ** What nodes stand for; [pos] maps set indices to positions *)
  Definition sound_heap (E : env) (pos : list nat) (j : nat) (it : fitem) : Prop :=
    exists i, nth_error pos (it_origin it) = Some i /\ (exists ts, den (it_node it) ts) /\
      forall ts, den (it_node it) ts -> eComp E (it_dot it) i j ts.
  Definition sound_med (E : env) (pos : list nat) (j : nat) (it : fitem) : Prop :=
    exists i, nth_error pos (it_origin it) = Some i /\ (exists ts, den (it_node it) ts) /\
      forall ts, den (it_node it) ts -> exists t, ts = [t] /\ eMed E (it_dot it) i j t.
  Definition sound_sym (E : env) (pos : list nat) (j : nat) (s : sym) (o : nat) (T : fnode) : Prop :=
    exists i, nth_error pos o = Some i /\ (exists ts, den T ts) /\
      forall ts, den T ts -> exists t, ts = [t] /\ eSym E s i j t.

  (** a set of medial items is exactly the chart at position [p] *)
  Definition exact_set (E : env) (pos : list nat) (idx p : nat) (set : list fitem) : Prop :=
    set_ok R set /\
    (forall it, In it set -> it_origin it < idx /\ sound_med E pos p it) /\
    (forall d i t, eMed E d i p t -> exists it, In it set /\ it_dot it = d /\
       nth_error pos (it_origin it) = Some i /\ den (it_node it) [t]).
  Definition exact_row (E : env) (p : nat) (row : bitrow) : Prop :=
    length row = nsyms /\ forall s, nth_error row s = Some true <-> s < nsyms /\ ePred E s p.

  Definition exact (E : env) (pos : list nat) (sets : list (list fitem)) (rows : bitmatrix) : Prop :=
    length sets = length pos /\
    (forall a b x y, a < b -> nth_error pos a = Some x -> nth_error pos b = Some y -> x < y) /\
    (forall idx p set, nth_error pos idx = Some p -> nth_error sets idx = Some set -> exact_set E pos idx p set) /\
    (forall idx p, nth_error pos idx = Some p -> exists row, nth_error rows idx = Some row /\ exact_row E p row).

  Lemma exact_row_closed : forall E p row, exact_row E p row -> row_closed R nsyms row.
  Proof.
    intros E p row [_ H] A B HA HP HB. apply H. split; auto.
    apply H in HA. destruct HA as [_ HA]. eapply Pred_pred; eauto.
  Qed.

  Lemma pos_inj : forall (pos : list nat) a b x,
    (forall a b x y, a < b -> nth_error pos a = Some x -> nth_error pos b = Some y -> x < y) ->
    nth_error pos a = Some x -> nth_error pos b = Some x -> a = b.
  Proof.
    intros pos a b x H Ha Hb. destruct (lt_eq_lt_dec a b) as [[Hl|He]|Hl]; auto.
    - pose proof (H _ _ _ _ Hl Ha Hb). lia.
    - pose proof (H _ _ _ _ Hl Hb Ha). lia.
  Qed.

  Lemma exact_bits : forall E pos sets rows idx p set row, exact E pos sets rows ->
    nth_error pos idx = Some p -> nth_error sets idx = Some set -> nth_error rows idx = Some row ->
    forall it C, In it set -> rhs1_of R (it_dot it) = Some C -> nth_error row C = Some true.
  Proof.
    intros E pos sets rows idx p set row (_ & _ & Hs & Hr) Hp Hset Hrow it C Hit HC.
    destruct (Hr idx p Hp) as (row' & Hrow' & Hx). rewrite Hrow in Hrow'. injection Hrow' as <-.
    apply (proj2 Hx). destruct (Hs _ _ _ Hp Hset) as (_ & Hsnd & _).
    destruct (Hsnd it Hit) as (_ & i & _ & [ts Hts] & Hall).
    destruct (Hall ts Hts) as (t & _ & HM).
    destruct (Med_rule _ _ _ _ _ _ _ _ _ _ _ _ _ _ HM) as (r & B & C' & Hr' & Erhs).
    unfold rhs1_of in HC. rewrite Hr' in HC. unfold rhs1 in HC. rewrite Erhs in HC. cbn in HC.
    injection HC as ->.
    assert (HCn : C < nsyms).
    { apply (wf_rhs1 _ _ _ wf r); [eapply nth_error_In; eauto|]. now rewrite Erhs. }
    split; [auto|]. eapply Pred_med; eauto. apply Relation_Operators.rt_refl.
  Qed.

  Lemma exact_static : forall E pos sets rows, exact E pos sets rows -> sets_static R nsyms sets rows.
  Proof.
    intros E pos sets rows Hx. destruct Hx as (Hlen & Hinc & Hs & Hr) eqn:EX. clear EX.
    intros o set Hset.
    assert (Ho : o < length pos). { rewrite <- Hlen. apply nth_error_Some. congruence. }
    destruct (nth_error pos o) as [p|] eqn:Hp; [|apply nth_error_None in Hp; lia].
    destruct (Hs _ _ _ Hp Hset) as (Hok & Hsnd & Hcomp).
    destruct (Hr _ _ Hp) as (row & Hrow & Hxr).
    split; [auto|]. split; [intros it Hit; now apply Hsnd|].
    exists row. split; [auto|]. split; [apply Hxr|]. split; [now apply (exact_row_closed E p)|].
    eapply exact_bits; eauto.
  Qed.

  (** ** One completion pass *)
  Section Pass.
    Variable E : env.
    Variable pos : list nat.
    Variable cs : list (list fitem).
    Variable rows : bitmatrix.
    Variable k : nat.
    Hypothesis Hexact : exact E pos cs rows.
    Hypothesis Hlast : nth_error pos (length cs - 1) = Some k.
    Hypothesis Hcs : 0 < length cs.
    Notation j := (S k).
    Notation h := (ehint E (S k)).
    Notation kp := (ekeep E (S k)).
    Notation completes := (completes P R nsyms FIRST FOLLOW cs rows h).
    Notation cstep := (cstep P R nsyms FIRST FOLLOW cs rows h kp).
    Notation csteps := (csteps P R nsyms FIRST FOLLOW cs rows h kp).

    Lemma pos_at : forall o, o < length cs -> exists p, nth_error pos o = Some p.
    Proof.
      intros o Ho. destruct (nth_error pos o) eqn:X; eauto.
      apply nth_error_None in X. destruct Hexact as [HL _]. lia.
    Qed.

    Lemma completes_sound : forall o s T nh nm, completes o s T nh nm -> sound_sym E pos j s o T ->
      (forall x, In x nh -> sound_heap E pos j x) /\ (forall x, In x nm -> sound_med E pos j x).
    Proof.
      intros o s T nh nm (set & row & Hset & Hrow & Inh & Inm & _) (p & Hp & [ts0 Hts0] & Hall).
      destruct Hexact as (HL & Hinc & Hs & Hr).
      destruct (Hs _ _ _ Hp Hset) as (Hok & Hsnd & Hcomp).
      destruct (Hr _ _ Hp) as (row' & Hrow' & Hxr). rewrite Hrow in Hrow'. injection Hrow' as <-.
      split; intros x Hx.
      - apply Inh in Hx.
        destruct Hx as [(it & r & B & Hit & Hr' & Erhs & Hokl & ->)|(d & r & T0 & Hr' & Erhs & Htop & Hb & Hoku & ->)].
        + destruct (Hsnd it Hit) as (_ & i & Hi & [ts1 Hts1] & Hall1).
          exists i. cbn. split; [auto|]. split.
          * exists (ts1 ++ ts0). now constructor.
          * intros ts Hts. inversion Hts as [|l r' xs ys Hl Hr'' E1 E2|]; subst.
            destruct (Hall1 _ Hl) as (t1 & -> & HM). destruct (Hall _ Hr'') as (t2 & -> & HS).
            eapply Comp_binary; eauto.
        + exists p. cbn. split; [auto|]. split; [eauto|]. intros ts Hts.
          destruct (Hall _ Hts) as (t & -> & HS).
          eapply Comp_unary; eauto. now apply (proj2 Hxr).
      - apply Inm in Hx. destruct Hx as (d & r & C & T0 & Hr' & Erhs & Htop & Hb & Hokm & ->).
        exists p. cbn. split; [auto|]. split; [eauto|]. intros ts Hts.
        destruct (Hall _ Hts) as (t & -> & HS). exists t. split; auto.
        eapply Med_intro; eauto. now apply (proj2 Hxr).
    Qed.

    (** consequences of the processed symbols [D] *)
    Definition closedD (D : list (sym * nat * fnode)) (Qh Qm : fitem -> Prop) : Prop :=
      forall s o T, In (s, o, T) D -> exists set row,
        nth_error cs o = Some set /\ nth_error rows o = Some row /\
        (forall x, heap_conseq h set row o s T x -> Qh x) /\
        (forall x, med_conseq h row o s T x -> Qm x).
    Definition handled (D : list (sym * nat * fnode)) (H : list fitem) (x : fitem) : Prop :=
      In x H \/ kp (lhs_of (it_dot x)) = false \/
      exists alts, In (lhs_of (it_dot x), it_origin x, FSum (lhs_of (it_dot x)) alts) D /\ In (alt x) alts.

    Definition cinv (D : list (sym * nat * fnode)) (H O : list fitem) : Prop :=
      (forall x, In x H -> sound_heap E pos j x) /\
      (forall x, In x O -> sound_med E pos j x) /\
      (forall s o T, In (s, o, T) D -> sound_sym E pos j s o T) /\
      closedD D (handled D H) (fun x => In x O).

    Lemma sound_group : forall o A popped, popped <> [] -> kp A = true ->
      (forall x, In x popped -> in_group R o A x) ->
      (forall x, In x popped -> sound_heap E pos j x) ->
      sound_sym E pos j A o (FSum A (map alt popped)).
    Proof.
      intros o A popped Hne Hk Hg Hs.
      destruct popped as [|p0 pt]; [congruence|].
      destruct (Hs p0 (or_introl eq_refl)) as (i & Hi & [ts0 Hts0] & _).
      destruct (Hg p0 (or_introl eq_refl)) as [Eo _]. rewrite Eo in Hi.
      exists i. split; [auto|]. split.
      - exists [Node (it_dot p0) ts0]. econstructor; eauto. simpl. left. reflexivity.
      - intros ts Hts. inversion Hts as [| |s alts d T xs Hin Hd E1 E2]; subst.
        exists (Node d xs). split; auto.
        change (alt p0 :: map alt pt) with (map alt (p0 :: pt)) in Hin.
        apply in_map_iff in Hin. destruct Hin as (x & Ex & Hx). injection Ex as <- <-.
        destruct (Hs x Hx) as (i' & Hi' & _ & Hall).
        destruct (Hg x Hx) as [Eo' El]. rewrite Eo' in Hi'. rewrite Hi in Hi'. injection Hi' as <-.
        specialize (Hall xs Hd).
        destruct (Comp_rule _ _ _ _ _ _ _ _ _ _ _ _ _ _ Hall) as [r Hr].
        assert (Er : p_lhs r = A). { rewrite <- El. unfold Core1.lhs_of. now rewrite Hr. }
        rewrite <- Er. eapply Sym_group; eauto; rewrite Er; auto.
    Qed.

    Lemma cstep_cinv : forall D H O H' O', cinv D H O -> cstep H O H' O' -> exists D',
      cinv D' H' O' /\ incl D D'.
    Proof.
      intros D H O H' O' (SH & SO & SD & CD) Hs.
      destruct Hs as [H O o A popped rest nh nm H' Hne Pm Hmax Hg Hr Hk Hc Pm'|H O o A popped rest Hne Pm Hmax Hg Hr Hk].
      - assert (SP : forall x, In x popped -> sound_heap E pos j x).
        { intros x Hx. apply SH. eapply Permutation_in; [symmetry; eauto|]. apply in_app_iff; auto. }
        assert (SR : forall x, In x rest -> sound_heap E pos j x).
        { intros x Hx. apply SH. eapply Permutation_in; [symmetry; eauto|]. apply in_app_iff; auto. }
        pose proof (sound_group o A popped Hne Hk Hg SP) as SG.
        destruct (completes_sound _ _ _ _ _ Hc SG) as [Snh Snm].
        exists ((A, o, FSum A (map alt popped)) :: D). split; [|intros x Hx; simpl; auto].
        split; [|split; [|split]].
        + intros x Hx. apply (Permutation_in _ Pm') in Hx. apply in_app_iff in Hx. destruct Hx; auto.
        + intros x Hx. apply in_app_iff in Hx. destruct Hx; auto.
        + intros s' o' T' [X|X]; [injection X as <- <- <-; auto|auto].
        + intros s' o' T' [X|X].
          * injection X as <- <- <-. destruct Hc as (set & row & Hset & Hrow & Inh & Inm & _).
            exists set, row. split; [auto|]. split; [auto|]. split; intros x Hx.
            -- left. eapply Permutation_in; [symmetry; eauto|]. apply in_app_iff. left. now apply Inh.
            -- apply in_app_iff. right. now apply Inm.
          * destruct (CD _ _ _ X) as (set & row & Hset & Hrow & Qh & Qm).
            exists set, row. split; [auto|]. split; [auto|]. split; intros x Hx.
            -- destruct (Qh x Hx) as [Hin|[Hk'|(alts & Ha & Hb)]].
               ++ apply (Permutation_in _ Pm) in Hin. apply in_app_iff in Hin. destruct Hin as [Hin|Hin].
                  ** right. right. destruct (Hg x Hin) as [Eo El]. rewrite El, Eo.
                     exists (map alt popped). split; [simpl; auto|]. now apply in_map.
                  ** left. eapply Permutation_in; [symmetry; eauto|]. apply in_app_iff; auto.
               ++ right. left. auto.
               ++ right. right. exists alts. split; [simpl; auto|auto].
            -- apply in_app_iff. auto.
      - exists D. split; [|apply incl_refl].
        split; [|split; [|split]]; auto.
        + intros x Hx. apply SH. eapply Permutation_in; [symmetry; eauto|]. apply in_app_iff; auto.
        + intros s' o' T' X. destruct (CD _ _ _ X) as (set & row & Hset & Hrow & Qh & Qm).
          exists set, row. split; [auto|]. split; [auto|]. split; [|auto]. intros x Hx.
          destruct (Qh x Hx) as [Hin|[Hk'|(alts & Ha & Hb)]].
          * apply (Permutation_in _ Pm) in Hin. apply in_app_iff in Hin. destruct Hin as [Hin|Hin].
            -- right. left. destruct (Hg x Hin) as [_ ->]. auto.
            -- left. auto.
          * right. left. auto.
          * right. right. eauto.
    Qed.

    Lemma csteps_cinv : forall n H O H' O', csteps n H O H' O' -> forall D, cinv D H O -> exists D',
      cinv D' H' O' /\ incl D D'.
    Proof.
      induction 1 as [|n H O H1 O1 H2 O2 Hs _ IH]; intros D HD.
      - exists D. split; [auto|apply incl_refl].
      - destruct (cstep_cinv _ _ _ _ _ HD Hs) as (D1 & HD1 & I1).
        destruct (IH _ HD1) as (D2 & HD2 & I2). exists D2. split; [auto|]. eapply incl_tran; eauto.
    Qed.

    (** completeness: nothing of the chart at [S k] is missing *)
    Lemma cinv_complete : forall D O,
      cinv D [] O -> (forall s v, In (s, v) (eW E k) -> In (s, length cs - 1, FLeaf s v) D) ->
      (forall s i j' t, eSym E s i j' t -> j' = j ->
         exists o T, nth_error pos o = Some i /\ In (s, o, T) D /\ den T [t]) /\
      (forall d i j' ts, eComp E d i j' ts -> j' = j ->
         exists o T r, nth_error pos o = Some i /\ nth_error R d = Some r /\
           handled D [] (mkItem d o T) /\ den T ts) /\
      (forall d i j' t, eMed E d i j' t -> j' = j ->
         exists it, In it O /\ it_dot it = d /\ nth_error pos (it_origin it) = Some i /\ den (it_node it) [t]) /\
      (forall s j', ePred E s j' -> True).
    Proof.
      intros D O (SH & SO & SD & CD) HW.
      destruct Hexact as (HL & Hinc & Hs & Hr).
      unfold eSym, eComp, eMed, ePred.
      apply chart_ind; intros; auto.
      - (* scanned *)
        injection H as ->. exists (length cs - 1), (FLeaf s v). split; [auto|]. split; [auto|]. constructor.
      - (* group *)
        subst. destruct (H eq_refl) as (o & T & r' & Ho & Hr' & Hh & Hd).
        rewrite e in Hr'. injection Hr' as <-.
        assert (El : lhs_of d = p_lhs r) by (unfold Core1.lhs_of; now rewrite e).
        destruct Hh as [[]|[Hk|(alts & Ha & Hb)]]; cbn in *; rewrite El in *; [congruence|].
        exists o, (FSum (p_lhs r) alts). split; [auto|]. split; [auto|]. econstructor; eauto.
      - (* unary *)
        subst. destruct (H eq_refl) as (o & T' & Ho & HD & Hd).
        destruct (CD _ _ _ HD) as (set & row & Hset & Hrow & Qh & Qm).
        exists o, T', r. split; [auto|]. split; [auto|]. split; [|auto].
        apply Qh. right. exists d, r, T. split; [auto|]. split; [auto|]. split; [auto|].
        split; [|split; [auto|reflexivity]].
        destruct (Hr _ _ Ho) as (row' & Hrow' & Hxr). rewrite Hrow in Hrow'. injection Hrow' as <-.
        apply (proj2 Hxr). split; [|auto]. eapply topr_range; eauto.
      - (* binary *)
        subst. destruct (H0 eq_refl) as (o & T' & Ho & HD & Hd).
        destruct (CD _ _ _ HD) as (set & row & Hset & Hrow & Qh & Qm).
        destruct (Hs _ _ _ Ho Hset) as (_ & _ & Hcomp).
        destruct (Hcomp _ _ _ m0) as (it & Hit & Ed & Hi & Hden).
        exists (it_origin it), (FProd (it_node it) T'), r. split; [auto|]. split; [auto|]. split.
        + apply Qh. left. exists it, r, B. rewrite Ed. split; [auto|]. split; [auto|]. split; [auto|].
          split; [auto|]. unfold adv. now rewrite Ed.
        + change [t1; t2] with ([t1] ++ [t2]). now constructor.
      - (* medial *)
        subst. destruct (H eq_refl) as (o & T' & Ho & HD & Hd).
        destruct (CD _ _ _ HD) as (set & row & Hset & Hrow & Qh & Qm).
        exists (mkItem d o T'). cbn. split; [|auto].
        apply Qm. exists d, r, C, T. split; [auto|]. split; [auto|]. split; [auto|].
        split; [|split; [auto|reflexivity]].
        destruct (Hr _ _ Ho) as (row' & Hrow' & Hxr). rewrite Hrow in Hrow'. injection Hrow' as <-.
        apply (proj2 Hxr). split; [|auto]. eapply topr_range; eauto.
    Qed.

    (** if the scanned tokens have no consequence, the chart at [S k] is empty *)
    Lemma scan_dead : forall D,
      closedD D (fun _ => False) (fun _ => False) ->
      (forall s v, In (s, v) (eW E k) -> In (s, length cs - 1, FLeaf s v) D) ->
      (forall s i j' t, eSym E s i j' t -> j' = j -> i = k /\ exists v, In (s, v) (eW E k)) /\
      (forall d i j' ts, eComp E d i j' ts -> j' = j -> False) /\
      (forall d i j' t, eMed E d i j' t -> j' = j -> False) /\
      (forall s j', ePred E s j' -> True).
    Proof.
      intros D CD HW.
      destruct Hexact as (HL & Hinc & Hs & Hr).
      assert (Hrow0 : forall row, nth_error rows (length cs - 1) = Some row -> exact_row E k row).
      { intros row Hrow. destruct (Hr _ _ Hlast) as (row' & Hrow' & Hx). congruence. }
      unfold eSym, eComp, eMed, ePred.
      apply chart_ind; intros; auto.
      - injection H as ->. eauto.
      - subst. destruct (H eq_refl).
      - subst. destruct (H eq_refl) as (-> & v & Hv).
        destruct (CD _ _ _ (HW _ _ Hv)) as (set & row & Hset & Hrow & Qh & Qm).
        apply (Qh (mkItem d (length cs - 1) (FLeaf B v))). right. exists d, r, T.
        split; [auto|]. split; [auto|]. split; [auto|]. split; [|split; [auto|reflexivity]].
        apply (proj2 (Hrow0 _ Hrow)). split; [|auto]. eapply topr_range; eauto.
      - subst. destruct (H0 eq_refl) as (-> & v & Hv).
        destruct (CD _ _ _ (HW _ _ Hv)) as (set & row & Hset & Hrow & Qh & Qm).
        destruct (Hs _ _ _ Hlast Hset) as (_ & _ & Hcomp).
        destruct (Hcomp _ _ _ m0) as (it & Hit & Ed & Hi & Hden).
        apply (Qh (adv (FLeaf C v) it)). left. exists it, r, B. rewrite Ed. auto.
      - subst. destruct (H eq_refl) as (-> & v & Hv).
        destruct (CD _ _ _ (HW _ _ Hv)) as (set & row & Hset & Hrow & Qh & Qm).
        apply (Qm (mkItem d (length cs - 1) (FLeaf B v))). exists d, r, C, T.
        split; [auto|]. split; [auto|]. split; [auto|]. split; [|split; [auto|reflexivity]].
        apply (proj2 (Hrow0 _ Hrow)). split; [|auto]. eapply topr_range; eauto.
    Qed.

    (** ** Scanning *)
    Hypothesis Hhint : hint_ok nsyms h.
    Notation cstate := (cstate R cs rows h).

    Definition scans (ws : list (sym * nat)) (st : state) : res state :=
      foldM (fun st w => scan free_forest P g st (fst w) (snd w)) ws st.

    Lemma cstate_earleme : forall st O, cstate st O -> earleme st = Some (length cs - 1).
    Proof.
      intros st O (Hrep & _). unfold earleme. rewrite (rep_len _ _ _ Hrep).
      destruct (length cs) as [|n]; [lia|]. f_equal. lia.
    Qed.

    Lemma scans_spec : forall ws st O D,
      cstate st O -> (forall s v, In (s, v) ws -> s < nall /\ In (s, v) (eW E k)) ->
      (forall x, In x (r_complete st) -> sound_heap E pos j x) ->
      (forall x, In x O -> sound_med E pos j x) ->
      (forall s o T, In (s, o, T) D -> o = length cs - 1 /\ exists v, T = FLeaf s v /\ In (s, v) (eW E k)) ->
      closedD D (fun x => In x (r_complete st)) (fun x => In x O) ->
      exists st' O' D', scans ws st = Ret st' /\ cstate st' O' /\ r_leo st' = r_leo st /\
        (forall x, In x (r_complete st') -> sound_heap E pos j x) /\
        (forall x, In x O' -> sound_med E pos j x) /\
        (forall s o T, In (s, o, T) D' -> o = length cs - 1 /\ exists v, T = FLeaf s v /\ In (s, v) (eW E k)) /\
        closedD D' (fun x => In x (r_complete st')) (fun x => In x O') /\
        incl D D' /\ (forall s v, In (s, v) ws -> In (s, length cs - 1, FLeaf s v) D').
    Proof.
      induction ws as [|[s v] ws IH]; intros st O D C Hws SH SO HD CD.
      - exists st, O, D. repeat (split; auto). + apply incl_refl. + intros s v [].
      - cbn [scans foldM fst snd]. unfold scan at 1. rewrite (cstate_earleme st O C).
        cbn [unwrap bind f_leaf free_forest].
        destruct (Hws s v (or_introl eq_refl)) as [Hs HvW].
        assert (C1 : cstate (set_forest st (r_forest st)) O). { exact C. }
        destruct (complete_completes P g R nsyms nall FIRST FOLLOW Hleo wf tok cs rows h
                    (exact_static _ _ _ _ Hexact) Hhint _ O (length cs - 1) s (FLeaf s v) C1)
          as (st1 & nh & nm & E1 & Hc & P1 & C2 & _ & L1); [lia|auto|].
        rewrite E1. cbn [bind].
        assert (SS : sound_sym E pos j s (length cs - 1) (FLeaf s v)).
        { exists k. split; [auto|]. split; [exists [Leaf s v]; constructor|].
          intros ts Hts. inversion Hts; subst. exists (Leaf s v). split; auto. now apply Sym_scan. }
        destruct (completes_sound _ _ _ _ _ Hc SS) as [Snh Snm].
        destruct (IH st1 (O ++ nm) ((s, length cs - 1, FLeaf s v) :: D)) as
          (st2 & O2 & D2 & E2 & C3 & L2 & SH2 & SO2 & HD2 & CD2 & I2 & HI2).
        { exact C2. }
        { intros; apply Hws; simpl; auto. }
        { intros x Hx. apply (Permutation_in _ P1) in Hx. apply in_app_iff in Hx. destruct Hx; auto. }
        { intros x Hx. apply in_app_iff in Hx. destruct Hx; auto. }
        { intros s' o' T' [X|X]; [injection X as <- <- <-; eauto|auto]. }
        { intros s' o' T' [X|X].
          - injection X as <- <- <-. destruct Hc as (set & row & Hset & Hrow & Inh & Inm & _).
            exists set, row. split; [auto|]. split; [auto|]. split; intros x Hx.
            + eapply Permutation_in; [symmetry; eauto|]. apply in_app_iff. left. now apply Inh.
            + apply in_app_iff. right. now apply Inm.
          - destruct (CD _ _ _ X) as (set & row & Hset & Hrow & Qh & Qm).
            exists set, row. split; [auto|]. split; [auto|]. split; intros x Hx.
            + eapply Permutation_in; [symmetry; eauto|]. apply in_app_iff. right. cbn. now apply Qh.
            + apply in_app_iff. left. now apply Qm. }
        exists st2, O2, D2. split; [exact E2|]. split; [auto|]. split; [rewrite L2, L1; auto|].
        split; [auto|]. split; [auto|]. split; [auto|]. split; [auto|].
        split. { intros x Hx. apply I2. simpl; auto. }
        intros s' v' [X|X]; [injection X as <- <-; apply I2; simpl; auto|auto].
    Qed.
  End Pass.
End Core3.
