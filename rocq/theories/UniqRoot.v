(** UniqRoot: in a grammar whose symbols are ordered, the start symbol is completed once,
    so that the node of the whole input has one alternative. *)
From Coq Require Import List Arith Bool Lia Permutation Sorted Relations.
From Verif Require Import Base BaseProofs Vec2d Vec2dProofs Item Heap HeapProofs Grammar BitMatrix
  DefaultGrammar Forest Recognizer Drive Spec Chart ChartFacts Tables Den Core1 Core2 Core3 Core4 Core5 Core6 Uniq Groups.
Import ListNotations.
Local Open Scope res_scope.

Lemma one_element : forall A (l : list A), l <> [] -> NoDup l -> (forall x y, In x l -> In y l -> x = y) -> exists x, l = [x].
Proof.
  intros A [|a [|b l]] Hne Hnd H; [congruence|eauto|]. exfalso.
  assert (a = b) by (apply H; cbn; auto). subst b. inversion Hnd as [|? ? X _]; subst. apply X. now left.
Qed.

Section Root.
  Variable P : perf.
  Variable g : dgrammar.
  Variable R : list prule.
  Variables nsyms nall : nat.
  Variables FIRST FOLLOW : sym -> sym -> bool.
  Variable root : sym.
  Hypothesis Hleo : LEO P = false.
  Hypothesis wf : wf_rules R nsyms nall.
  Hypothesis tok : tables_ok g R nsyms nall FIRST FOLLOW.
  Hypothesis Hacyc : unary_acyclic R.
  Variable d0 : nat.
  Variables g0 sof inner eof : sym.
  Variable r0 : prule.
  Hypothesis Hord : ordered R.
  Hypothesis Hrr : root < nsyms.
  Hypothesis Hrtop : forall r, In r R -> ~ In root (p_rhs r).
  Hypothesis Hr0 : nth_error R d0 = Some r0.
  Hypothesis El0 : p_lhs r0 = root.
  Hypothesis Er0 : p_rhs r0 = [g0; eof].
  Hypothesis Honly : forall d r, nth_error R d = Some r -> p_lhs r = root -> d = d0.
  Hypothesis Hg0 : forall r, In r R -> p_lhs r = g0 -> p_rhs r = [sof; inner] \/ p_rhs r = [sof].
  Hypothesis Honce : forall d d' r r', nth_error R d = Some r -> nth_error R d' = Some r' ->
    p_lhs r = g0 -> p_lhs r' = g0 -> p_rhs r = [sof; inner] -> p_rhs r' = [sof; inner] -> d = d'.
  Hypothesis Hsof : terminal R sof.
  Hypothesis Hg0n : ~ terminal R g0.

  Notation fitem := (item fnode).
  Notation state := (rstate (list (nat * fnode)) fnode).
  Notation heap_conseq := (heap_conseq P R nsyms FOLLOW).
  Notation eSym := (eSym P R nsyms FIRST FOLLOW root).
  Notation eMed := (eMed P R nsyms FIRST FOLLOW root).
  Notation sound_heap := (sound_heap P R nsyms FIRST FOLLOW root).
  Notation sound_med := (sound_med P R nsyms FIRST FOLLOW root).
  Notation sound_sym := (sound_sym P R nsyms FIRST FOLLOW root).
  Notation exact := (exact P R nsyms FIRST FOLLOW root).
  Notation Inv := (Inv P R nsyms FIRST FOLLOW root).
  Notation uinv := (uinv P R nsyms FIRST FOLLOW root).

  Lemma sym_sof : forall E i j t, eSym E sof i j t -> exists v, t = Leaf sof v /\ j = S i /\ In (sof, v) (eW E i).
  Proof.
    intros E i j t H. unfold Core3.eSym in H. remember sof as s eqn:Es in H. destruct H as [s v i Hin|d r i j ts Hr HC Hk].
    - subst s. eauto.
    - elim (Hsof r (nth_error_In _ _ Hr) Es).
  Qed.

  Lemma med_g0 : forall E d r i j t, nth_error R d = Some r -> p_lhs r = g0 -> eMed E d i j t ->
    p_rhs r = [sof; inner] /\ exists v, t = Leaf sof v /\ j = S i /\ In (sof, v) (eW E i).
  Proof.
    intros E d r i j t Hr El H. unfold Core3.eMed in H. destruct H as [d r' B C i j t T Hr' Er HS Ht Hp Hok].
    assert (r' = r) by congruence. subst r'. destruct (Hg0 r (nth_error_In _ _ Hr) El) as [E1|E1]; [|rewrite E1 in Er; discriminate].
    split; [exact E1|]. rewrite E1 in Er. injection Er as <- <-. exact (sym_sof _ _ _ _ HS).
  Qed.

  Section Pass.
    Variable E : env.
    Variable pos : list nat.
    Variable cs : list (list fitem).
    Variable rows : bitmatrix.
    Variable k : nat.
    Hypothesis Hexact : exact E pos cs rows.
    Hypothesis Hlast : nth_error pos (length cs - 1) = Some k.
    Hypothesis Hcs : 0 < length cs.
    Hypothesis Huniq : forall set, In set cs -> uniq_set set.
    Hypothesis Hpos0 : nth_error pos 0 = Some 0.
    Hypothesis Hk : 0 < k.
    Hypothesis HW0 : NoDup (map fst (eW E 0)).
    Notation j := (S k).
    Notation h := (ehint E (S k)).
    Notation kp := (ekeep E (S k)).
    Notation cstep := (cstep P R nsyms FIRST FOLLOW cs rows h kp).
    Notation csteps := (csteps P R nsyms FIRST FOLLOW cs rows h kp).

    (** a symbol that is not scanned is completed once, with the whole of its group,
        and what is left in the heap comes below it *)
    Definition pinv (D : list (sym * nat * fnode)) (Q H : list fitem) : Prop :=
      (forall s o T T', In (s, o, T) D -> In (s, o, T') D -> T = T') /\
      forall s o T, In (s, o, T) D -> terminal R s \/
        (forall x, In x H -> lexlt (rank R x) (o, s)) /\
        exists popped, popped <> [] /\ T = FSum s (map alt popped) /\ incl popped Q /\ NoDup popped /\
          forall x, In x popped -> in_group R o s x.

    Lemma heap_nodup : forall D Q H O, uinv E pos cs rows k D Q H O -> NoDup (Q ++ H).
    Proof.
      intros D Q H O (_ & UH & NH & _). eapply (uniq_set_nodup); [exact Hrr|exact Hrtop|exact El0|exact Honly|exact NH|].
      intros it Hit. destruct (UH it Hit) as [(i & _ & X & _) _]. exact X.
    Qed.

    Lemma cstep_pinv : forall D Q H O H' O', uinv E pos cs rows k D Q H O -> pinv D Q H -> cstep H O H' O' ->
      exists D' Q', uinv E pos cs rows k D' Q' H' O' /\ pinv D' Q' H'.
    Proof.
      intros D Q H O H' O' HU [PF PB] Hs.
      destruct (cstep_uniq P R nsyms FIRST FOLLOW root d0 r0 Hrr Hrtop El0 Honly E pos cs rows k Hexact Hcs Huniq D Q H O H' O' HU Hs)
        as (D' & Q' & HU' & o & A & popped & rest & -> & Pm & (top & Htop & Hmax) & Hg & HD).
      exists D', (Q ++ popped). split; [exact HU'|].
      assert (Subp : forall x, In x popped -> In x H).
      { intros x Hx. eapply Permutation_in; [symmetry; exact Pm|]. apply in_app_iff; auto. }
      assert (SH : forall x, In x H -> sound_heap E pos j x).
      { intros x Hx. destruct HU as (_ & UH & _). apply UH. apply in_app_iff; auto. }
      assert (Hv : forall x, In x H -> dot_valid R x).
      { intros x Hx. exact (sound_heap_dot P R nsyms FIRST FOLLOW root E pos k x (SH x Hx)). }
      destruct (step_below P R nsyms FIRST FOLLOW Hord cs rows h kp (exact_static _ _ _ _ _ _ _ wf _ _ _ _ Hexact)
        H O H' O' top o A Hv Hs (Subp _ Htop) Hmax (Hg _ Htop)) as (Hbel & _ & _ & _).
      assert (Lt : forall s o' T, In (s, o', T) D -> ~ terminal R s -> lexlt (o, A) (o', s)).
      { intros s o' T Hin Ht. destruct (PB _ _ _ Hin) as [X|[X _]]; [contradiction|]. specialize (X _ (Subp _ Htop)).
        destruct (Hg _ Htop) as [G1 G2]. unfold rank in X. now rewrite G1, G2 in X. }
      assert (HA : ~ terminal R A).
      { intros Ht. destruct (Hv _ (Subp _ Htop)) as [r Hr]. destruct (Hg _ Htop) as [_ G2]. unfold lhs_of in G2. rewrite Hr in G2.
        exact (Ht r (nth_error_In _ _ Hr) G2). }
      assert (Old : forall s o' T, In (s, o', T) D -> terminal R s \/
        (forall x, In x H' -> lexlt (rank R x) (o', s)) /\
        exists popped', popped' <> [] /\ T = FSum s (map alt popped') /\ incl popped' (Q ++ popped) /\ NoDup popped' /\
          forall x, In x popped' -> in_group R o' s x).
      { intros s o' T Hin. destruct (PB _ _ _ Hin) as [X|[X (q & Q0 & Q1 & Q2 & Q3 & Q4)]]; [auto|].
        destruct (Hg _ Htop) as [G1 G2]. pose proof (X _ (Subp _ Htop)) as L. unfold rank in L. rewrite G1, G2 in L.
        right. split; [intros x Hx; eapply lexlt_trans; [apply Hbel, Hx|exact L]|].
        exists q. split; [auto|]. split; [auto|]. split; [intros x Hx; apply in_app_iff; auto|auto]. }
      destruct HD as [->| ->].
      - split; [exact PF|exact Old].
      - split.
        + intros s o' T T' [X|X] [Y|Y].
          * congruence.
          * injection X as <- <- <-. elim (lexlt_irrefl (o, A)). exact (Lt _ _ _ Y HA).
          * injection Y as <- <- <-. elim (lexlt_irrefl (o, A)). exact (Lt _ _ _ X HA).
          * eauto.
        + intros s o' T [X|X]; [|now apply Old]. injection X as <- <- <-. right. split; [exact Hbel|].
          exists popped. split; [intros X; rewrite X in Htop; destruct Htop|]. split; [reflexivity|].
          split; [intros x Hx; apply in_app_iff; auto|]. split; [|exact Hg].
          pose proof (heap_nodup _ _ _ _ HU') as N. rewrite <- app_assoc in N. apply NoDup_app_iff in N. destruct N as (_ & N & _).
          apply NoDup_app_iff in N. tauto.
    Qed.

    Lemma csteps_pinv : forall n H O H' O', csteps n H O H' O' -> forall D Q, uinv E pos cs rows k D Q H O -> pinv D Q H ->
      exists D' Q', uinv E pos cs rows k D' Q' H' O' /\ pinv D' Q' H'.
    Proof.
      induction 1 as [|n H O H1 O1 H2 O2 Hs _ IH]; intros D Q HU HP; [eauto|].
      destruct (cstep_pinv _ _ _ _ _ _ HU HP Hs) as (D1 & Q1 & HU1 & HP1). eapply IH; eauto.
    Qed.

    (** the completed items of [g0] *)
    Lemma same_g0 : forall D Q H O x y, uinv E pos cs rows k D Q H O -> pinv D Q H ->
      In x (Q ++ H) -> In y (Q ++ H) -> in_group R 0 g0 x -> in_group R 0 g0 y -> x = y.
    Proof.
      intros D Q H O x y (UD & UH & _) [PF _] Hx Hy Gx Gy.
      assert (K : forall z, In z (Q ++ H) -> in_group R 0 g0 z -> exists it T o set r v,
        In (inner, o, T) D /\ nth_error cs o = Some set /\ In it set /\ z = adv T it /\ nth_error pos o = Some 1 /\
        it_origin it = 0 /\ nth_error R (it_dot it) = Some r /\ p_lhs r = g0 /\ p_rhs r = [sof; inner] /\
        den (it_node it) [Leaf sof v] /\ In (sof, v) (eW E 0)).
      { intros z Hz [G1 G2]. destruct (UH z Hz) as [_ (s & o & T & set & row & Hin & Hset & Hrow & HC)].
        destruct (UD _ _ _ Hin) as [(m & Hm & (ts0 & Hts0) & Hall) _].
        destruct HC as [(it & r & B & Hit & Hr & Erhs & _ & ->)|(d & r & T0 & Hr & Erhs & _ & _ & _ & ->)];
          cbn [adv it_dot it_origin it_node] in *; unfold lhs_of in G2; rewrite Hr in G2.
        - destruct Hexact as (_ & _ & HsE & _). destruct (HsE _ _ _ Hm Hset) as (_ & Hsnd & _).
          destruct (Hsnd it Hit) as (_ & i & Hi & (ts & Hts) & HM). destruct (HM ts Hts) as (t & -> & M).
          rewrite G1, Hpos0 in Hi. injection Hi as <-.
          destruct (med_g0 _ _ _ _ _ _ Hr G2 M) as (Er & v & -> & Em & Hv). subst m.
          rewrite Er in Erhs. injection Erhs as _ <-. exists it, T, o, set, r, v. auto 12.
        - exfalso. destruct (Hg0 r (nth_error_In _ _ Hr) G2) as [E1|E1]; rewrite E1 in Erhs; [discriminate|].
          injection Erhs as <-. destruct (Hall ts0 Hts0) as (t & _ & HS). subst o. rewrite Hpos0 in Hm. injection Hm as <-.
          destruct (sym_sof _ _ _ _ HS) as (v & _ & X & _). lia. }
      destruct (K x Hx Gx) as (it & T & o & set & r & v & A1 & A2 & A3 & -> & A5 & A6 & A7 & A8 & A9 & A10 & A11).
      destruct (K y Hy Gy) as (it' & T' & o' & set' & r' & v' & B1 & B2 & B3 & -> & B5 & B6 & B7 & B8 & B9 & B10 & B11).
      assert (Eo : o' = o). { destruct Hexact as (_ & Hinc & _). exact (pos_inj pos o' o 1 Hinc B5 A5). }
      subst o'. assert (set' = set) by congruence. subst set'. assert (T' = T) by (eapply PF; eauto). subst T'.
      assert (v' = v).
      { assert (X : forall (l : list (sym * nat)) a u u', NoDup (map fst l) -> In (a, u) l -> In (a, u') l -> u = u').
        { clear. induction l as [|[b y] l IH]; cbn; intros a u u' Hn X Y; [contradiction|]. inversion Hn as [|? ? Hn1 Hn2]; subst. destruct X as [X|X], Y as [Y|Y].
          - congruence.
          - injection X as <- <-. elim Hn1. now apply (in_map fst) in Y.
          - injection Y as <- <-. elim Hn1. now apply (in_map fst) in X.
          - eauto. }
        eapply X; eauto. }
      subst v'. f_equal. eapply (uniq_set_inj R nsyms root d0 r0 Hrr Hrtop El0 Honly set); eauto.
      - apply Huniq. eapply nth_error_In; eauto.
      - unfold key. rewrite A6, B6. f_equal. eapply Honce; eauto.
    Qed.

    (** the item with the dot before the end *)
    Lemma root_node : forall D Q H O x, uinv E pos cs rows k D Q H O -> pinv D Q H ->
      In x O -> it_dot x = d0 -> it_origin x = 0 -> exists d T, it_node x = FSum g0 [(d, T)].
    Proof.
      intros D Q H O x HU HP Hx Ed Eo. pose proof HU as (UD & UH & _ & UO & _).
      destruct (UO x Hx) as [_ (s & o & T & set & row & Hin & Hset & Hrow & HC)].
      destruct HC as (d & r & C & T0 & Hr & Erhs & _ & _ & _ & ->). cbn [it_dot it_origin it_node] in *. subst d o.
      assert (r = r0) by congruence. subst r. rewrite Er0 in Erhs. injection Erhs as <- _.
      destruct HP as [PF PB]. destruct (PB _ _ _ Hin) as [X|[_ (popped & P0 & -> & P2 & P3 & P4)]]; [contradiction|].
      destruct (one_element _ popped P0 P3) as (y & ->).
      { intros y z Hy Hz. eapply (same_g0 D Q H O); eauto; [split; auto| |]; apply in_app_iff; auto. }
      exists (it_dot y), (it_node y). reflexivity.
    Qed.
  End Pass.

  Section Step.
  Variable rm : state -> res state.
  Hypothesis Hrm : remove_ok rm.

  Definition root_one (st : state) : Prop :=
    forall set, v_last (r_medial st) = Ret set -> forall x, In x set -> it_dot x = d0 -> exists d T, it_node x = FSum g0 [(d, T)].

  Theorem step_root : forall E Z k pos st, Inv E Z k pos st -> 0 < k ->
    hint_ok nsyms (ehint E (S k)) ->
    (forall s v, In (s, v) (eW E k) -> s < nall) -> toks_ok R (eW E k) -> NoDup (map fst (eW E 0)) -> uniq_state d0 st ->
    nth_error pos 0 = Some 0 -> plain root E ->
    forall fuel st', step P g rm (ekeep E (S k)) fuel (ehint E (S k)) (eW E k) st = Ret (true, st') ->
    root_one st'.
  Proof.
    intros E Z k pos st HI Hk Hh HW [HT1 HT2] HW0 HU Hpos0 Hplain fuel st' Hrun.
    destruct (first_state P R nsyms FIRST FOLLOW root Hleo d0 E Z k pos st HI) as (cs & Hrep1 & Hcs & HLc & Hlast & Hx0 & C0 & Hc0 & Hu0).
    specialize (Hu0 HU). unfold step in Hrun.
    set (st0 := set_hint_field (begin_earleme P st) (ehint E (S k))) in *.
    destruct (scans P g (eW E k) st0) as [st1| |] eqn:Esc; try discriminate. cbn [bind] in Hrun.
    destruct Hord as [Hsorted Hord'].
    assert (Hg0' : forall r, In r R -> p_lhs r = g0 -> nth_error (p_rhs r) 0 = Some sof).
    { intros q Hq Eq. destruct (Hg0 q Hq Eq) as [-> | ->]; reflexivity. }
    edestruct (scans_uniq P g R nsyms nall FIRST FOLLOW root Hleo wf tok) with (ws := eW E k) (st := st0) (st' := st1)
      (O := @nil fitem) (D := @nil (sym * nat * fnode)) (E := E) (pos := pos) (cs := cs) (rows := r_predicted st) (k := k)
      as (O1 & D1 & C1 & U1 & V1 & F1); eauto.
    { rewrite Hc0. apply (uinv_nil P R nsyms FIRST FOLLOW root). }
    { intros x y []. }
    { intros (x & [] & _). }
    { intros s o T T' []. }
    destruct (is_exhausted st1) as [[|]| |] eqn:Eex; try discriminate. cbn [bind] in Hrun.
    destruct Hacyc as [rank' Hrank].
    destruct (complete_sums_terminates P g R nsyms nall FIRST FOLLOW Hleo wf tok cs (r_predicted st) (ehint E (S k))
                  (ekeep E (S k)) (exact_static _ _ _ _ _ _ _ wf _ _ _ _ Hx0) Hh rank' Hrank st1 O1 C1)
        as (n & st2 & O2 & C2 & Hh0 & Hsteps & L2 & E2).
    rewrite E2 in Hrun. destruct (fuel <? n); try discriminate. cbn [bind] in Hrun.
    assert (P1 : pinv D1 [] (r_complete st1)).
    { split; [exact F1|]. intros s o T Hin. left. destruct U1 as (UD & _). destruct (UD _ _ _ Hin) as [(i & _ & (ts & Hts) & _) [X|X]]; [exact X|].
      destruct (X ts Hts) as (x & xs & [] & _). }
    destruct (csteps_pinv E pos cs (r_predicted st) k Hx0 Hcs Hu0 _ _ _ _ _ Hsteps D1 [] U1 P1)
      as (D2 & Q2 & U2 & P2).
    pose proof U2 as (_ & _ & _ & UO2 & NO2).
    destruct C2 as (Hrep3 & Hrows3 & _).
    destruct (sort_medial_spec g R nsyms nall FIRST FOLLOW tok (clear_hint st2) cs O2 Hrep3) as
      (st4 & O4 & E4 & Hrep4 & P4 & _ & Hp4 & _).
    { intros it Hit. destruct (proj1 (UO2 it Hit)) as (i & _ & [ts Hts] & Hall).
      destruct (Hall ts Hts) as (t & _ & HM). apply (Med_rule _ _ _ _ _ _ _ _ _ _ _ _ _ _ HM). }
    rewrite E4 in Hrun. cbn [bind] in Hrun.
    destruct (rm st4) as [st5| |] eqn:E5; try discriminate. cbn [bind] in Hrun.
    destruct (Hrm st4 cs O4 Hrep4 Hcs) as (st5' & m & E5' & Hm & Hrep5 & _).
    { rewrite Hp4. cbn. destruct HI as [(cs0 & O0 & _ & HL0 & (_ & _ & _ & Hrw)) Hlast0 _ _].
      rewrite HLc. assert (HX : nth_error pos (length pos - 1) = Some k) by auto.
      destruct (Hrw _ _ HX) as (row & Hrow & _).
      assert (length pos - 1 < length (r_predicted st)) by (apply nth_error_Some; congruence).
      rewrite Hrows3. lia. }
    { intros it Hit. destruct (proj1 (UO2 it (Permutation_in _ (Permutation_sym P4) Hit))) as (i & Hi & _).
      rewrite HLc. apply nth_error_Some. congruence. }
    rewrite E5 in E5'. injection E5' as <-. rewrite Hleo in Hrun. cbn [bind] in Hrun.
    unfold prediction_pass in Hrun.
    assert (Hmed : exists m5, st' = set_predicted st5 m5).
    { revert Hrun. clear.
      destruct (v_last (r_medial st5)); try discriminate. cbn [bind].
      destruct (unwrap (earleme st5)); try discriminate. cbn [bind].
      match goal with |- context [idx ?a ?b] => destruct (idx a b); try discriminate end. cbn [bind].
      match goal with |- context [foldM ?f ?l ?x] => destruct (foldM f l x); try discriminate end. cbn [bind].
      match goal with |- context [upd ?a ?b ?c] => destruct (upd a b c); try discriminate end. cbn [bind].
      intros X. injection X as <-. eauto. }
    destruct Hmed as (m5 & ->).
    intros set Hset x Hx Ed. cbn [r_medial set_predicted] in Hset. rewrite (rep_last _ _ _ Hrep5) in Hset. injection Hset as <-.
    apply (Permutation_in _ (Permutation_sym P4)) in Hx.
    eapply (root_node E pos cs (r_predicted st) k Hx0 Hcs Hu0 Hpos0 Hk HW0 D2 Q2 _ O2 x U2 P2 Hx Ed).
    destruct (proj1 (UO2 x Hx)) as (i & Hi & [ts Hts] & Hall). destruct (Hall ts Hts) as (t & _ & HM).
    rewrite Ed in HM. pose proof (med_start P R nsyms nall FIRST FOLLOW root wf d0 r0 Hrr Hrtop Hr0 El0 E i (S k) t Hplain HM) as E0. subst i.
    destruct Hx0 as (_ & Hinc & _). exact (pos_inj pos _ 0 0 Hinc Hi Hpos0).
  Qed.

  Theorem steps_root : forall st Z sd0, Inv (env_of [] sd0) Z 0 [0] st -> uniq_state d0 st ->
    (forall s, ~ sd0 0 s) -> (forall s, Z s -> s <> root) ->
    forall locs, locs_ok nsyms nall locs -> (forall l, In l locs -> toks_ok R (l_toks l)) -> 1 < length locs ->
    forall fuel st', steps P g rm fuel locs st = Ret (true, st') -> root_one st'.
  Proof.
    intros st Z sd0 HI HU Hs0 HZ locs Hok Htk Hlen fuel st' Hrun.
    destruct (exists_last (l := locs)) as (l & x & ->). { intros ->. cbn in Hlen. lia. }
    rewrite steps_snoc in Hrun.
    assert (Hok' : locs_ok nsyms nall l) by (intros y Hy; apply Hok, in_app_iff; auto).
    assert (Htk' : forall y, In y l -> toks_ok R (l_toks y)) by (intros y Hy; apply Htk, in_app_iff; auto).
    destruct (steps_exact P g R nsyms nall FIRST FOLLOW root Hleo wf tok Hacyc rm Hrm st Z sd0 HI l Hok')
      as (n & b & st1 & sd & pos & Hsd0 & HsdZ & Hr & _ & _ & Hinv).
    assert (Hg0' : forall r, In r R -> p_lhs r = g0 -> nth_error (p_rhs r) 0 = Some sof).
    { intros q Hq Eq. destruct (Hg0 q Hq Eq) as [-> | ->]; reflexivity. }
    pose proof (steps_uniq P g R nsyms nall FIRST FOLLOW root Hleo wf tok d0 g0 sof eof r0 (proj1 Hord) Hrr Hrtop Hr0 El0 Er0 Honly Hg0' Hsof
      rm Hrm st Z sd0 HI HU Hs0 HZ l Hok' Htk' fuel) as HU1.
    rewrite Hr in Hrun, HU1. destruct (fuel <? n); [discriminate|]. cbn [bind] in Hrun. destruct b; [|discriminate].
    specialize (HU1 st1 eq_refl). destruct (Hinv eq_refl) as (HI1 & Hp0 & _).
    set (k := length l) in *. set (E := env_of (l ++ [x]) sd).
    pose proof (env_of_agree l [x] sd sd ltac:(reflexivity)) as Hag.
    assert (HI2 : Inv E Z k pos st1) by (eapply Inv_congr; [exact Hag|exact HI1]).
    assert (Ex : nth_error (l ++ [x]) k = Some x).
    { unfold k. rewrite nth_error_app2 by lia. now rewrite Nat.sub_diag. }
    assert (EW : eW E k = l_toks x) by (unfold E; cbn; now rewrite Ex).
    assert (Eh : ehint E (S k) = l_hint x) by (unfold E; cbn; now rewrite Ex).
    assert (Ekp : ekeep E (S k) = l_keep x) by (unfold E; cbn; now rewrite Ex).
    destruct (Hok x) as [Hx1 Hx2]. { apply in_app_iff; simpl; auto. }
    unfold steploc in Hrun. rewrite <- EW, <- Eh, <- Ekp in Hrun.
    eapply (step_root E Z k pos st1 HI2); eauto.
    - rewrite app_length in Hlen. cbn in Hlen. unfold k. lia.
    - now rewrite Eh.
    - rewrite EW. exact Hx2.
    - rewrite EW. apply Htk. apply in_app_iff; simpl; auto.
    - unfold E. cbn. destruct l as [|y l]; [cbn in Hlen; lia|]. cbn. apply (Htk' y). now left.
    - split; [|intros j s X; apply HZ, (HsdZ j s X)]. intros s X. apply (Hs0 s). now apply Hsd0.
  Qed.
  End Step.
End Root.
