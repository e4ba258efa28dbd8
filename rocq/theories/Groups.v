(** Groups: the groups of completed items come in descending order. *)
From Coq Require Import List Arith Bool Lia Permutation Sorted.
From Verif Require Import Base BaseProofs Vec2d Vec2dProofs Item Heap HeapProofs Grammar BitMatrix
  DefaultGrammar Forest ForestSpec Recognizer Drive ClientSpec Spec Chart ChartFacts ChartSpec CfgSpec Tables TablesProofs Den
  Core1 Core2 Core3 Core4 Core5 Uniq Core6 Recog Sim RecogAny GroupSpec TreeSpec.
Import ListNotations.
Local Open Scope res_scope.

Scheme rec_mut := Minimality for recognized Sort Prop with off_mut := Minimality for offered Sort Prop.

Lemma expected_mono : forall R nsyms (p p' : nat -> sym -> Prop) o, (forall A, p o A -> p' o A) ->
  forall A, expected R nsyms p o A -> expected R nsyms p' o A.
Proof. intros R nsyms p p' o H. induction 1; [apply ex_ordinary; auto|eapply ex_generated; eauto]. Qed.

Lemma offered_mono : forall R nsyms (w w' : nat -> nat -> nat -> Prop) (p p' : nat -> sym -> Prop) last toks keep,
  (forall o d i, w o d i -> w' o d i) -> (forall o A, p o A -> p' o A) ->
  forall d o, offered R nsyms w p last toks keep d o -> offered R nsyms w' p' last toks keep d o.
Proof.
  intros R nsyms w w' p p' last toks keep Hw Hp.
  apply (off_mut R nsyms w p last toks keep (recognized R nsyms w' p' last toks keep) (offered R nsyms w' p' last toks keep)).
  - intros s Hs. now apply rec_token.
  - intros d o r _ H Hr Hk. eapply rec_group; eauto.
  - intros d o i r B C _ H Hx Hr E. eapply off_second; eauto.
  - intros d o r B _ H Hr E Hx. eapply off_only; eauto. exact (expected_mono R nsyms p p' o (Hp o) _ Hx).
Qed.

Section G.
  Variable P : perf.
  Variable g : dgrammar.
  Variable R : list prule.
  Variables nsyms nall : nat.
  Variables FIRST FOLLOW : sym -> sym -> bool.
  Hypothesis Hleo : LEO P = false.
  Hypothesis wf : wf_rules R nsyms nall.
  Hypothesis tok : tables_ok g R nsyms nall FIRST FOLLOW.
  Hypothesis Hord : ordered R.
  Notation fitem := (item fnode).
  Notation state := (rstate (list (nat * fnode)) fnode).
  Notation rank := (rank R).

  Lemma items_of_spec : forall n o A (st : state), length (r_complete st) <= n ->
    heap_ok (r_complete st) -> (forall it, In it (r_complete st) -> dot_valid R it) ->
    exists popped rest, items_of g n o A st = Ret (map it_dot popped) /\
      heap_ok rest /\ Permutation (r_complete st) (popped ++ rest) /\
      (forall x, In x popped -> in_group R o A x) /\
      (forall top, heap_peek rest = Some top -> ~ in_group R o A top).
  Proof.
    induction n as [|n IH]; intros o A st Hn Hk Hd.
    - destruct (r_complete st) eqn:E; [|simpl in Hn; lia].
      exists [], []. cbn [items_of]. unfold next_summand. rewrite E. cbn. split; [reflexivity|].
      split; [apply heap_ok_nil|]. split; [auto|]. split; [intros x []|]. discriminate.
    - cbn [items_of].
      destruct (next_summand_spec g R nsyms nall FIRST FOLLOW tok o A st Hk Hd) as
        [(top & st1 & Ep & Hg & E1 & F1 & Ff & K1 & P1)|[E1 Hng]]; rewrite E1; cbn [bind].
      + destruct (IH o A st1) as (popped & rest & El & Kr & Pr & Gr & Nr); auto.
        { apply Permutation_length in P1. simpl in P1. lia. }
        { intros it Hit. apply Hd. eapply Permutation_in; [symmetry; eauto|]. simpl; auto. }
        rewrite El. cbn [bind]. exists (top :: popped), rest. split; [reflexivity|]. split; [auto|].
        split; [rewrite P1; simpl; now constructor|]. split; [|auto]. intros x [<- | X]; auto.
      + exists [], (r_complete st). split; [reflexivity|]. split; [auto|]. split; [auto|]. split; [intros x []|auto].
  Qed.

  (** the whole group is taken *)
  Lemma items_all : forall H popped rest top o A, (forall x, In x H -> dot_valid R x) -> heap_ok rest ->
    Permutation H (popped ++ rest) -> In top H -> (forall x, In x H -> ile x top) -> in_group R o A top ->
    (forall top, heap_peek rest = Some top -> ~ in_group R o A top) ->
    forall x, In x H -> in_group R o A x -> In x popped.
  Proof.
    intros H popped rest top o A Hv Hk Pm Htop Hmax [G1 G2] Hn x Hx [X1 X2].
    pose proof (Permutation_in _ Pm Hx) as Hx'. apply in_app_iff in Hx'. destruct Hx' as [Hx'|Hx']; [auto|exfalso].
    destruct (heap_peek rest) as [y|] eqn:Ey.
    2:{ destruct rest; [destruct Hx'|discriminate]. }
    destruct (heap_peek_max _ _ Hk Ey) as [Hy Hm].
    assert (HyH : In y H). { eapply Permutation_in; [symmetry; exact Pm|]. apply in_app_iff; auto. }
    apply (Hn y eq_refl).
    assert (Ex : rank x = (o, A)) by (unfold Uniq.rank; now rewrite X1, X2).
    assert (Et : rank top = (o, A)) by (unfold Uniq.rank; now rewrite G1, G2).
    assert (Ey' : rank y = (o, A)).
    { destruct (ile_rank R Hord x y (Hv _ Hx) (Hv _ HyH) (Hm _ Hx')) as [L|L]; [congruence|].
      destruct (ile_rank R Hord y top (Hv _ HyH) (Hv _ Htop) (Hmax _ HyH)) as [M|M]; [congruence|].
      rewrite Ex in L. rewrite Et in M. elim (lexlt_irrefl (o, A)). eapply lexlt_trans; eauto. }
    unfold Uniq.rank in Ey'. injection Ey' as Y1 Y2. now split.
  Qed.

  Section Pass.
    Variable cs : list (list fitem).
    Variable rows : bitmatrix.
    Variable h : option sym.
    Variable kp : sym -> bool.
    Hypothesis Hstatic : sets_static R nsyms cs rows.
    Hypothesis Hhint : hint_ok nsyms h.
    Notation cstate := (cstate R cs rows h).
    Notation cstep := (cstep P R nsyms FIRST FOLLOW cs rows h kp).

    Notation heap_conseq := (heap_conseq P R nsyms FOLLOW).

    (** [x] follows from completing [A] from set [o], up to its node *)
    Definition follows (o : nat) (A : sym) (d i : nat) : Prop :=
      exists set row T x, nth_error cs o = Some set /\ nth_error rows o = Some row /\
        heap_conseq h set row o A T x /\ it_dot x = d /\ it_origin x = i.

    Lemma conseq_any : forall set row o A T T' x, heap_conseq h set row o A T x ->
      exists x', heap_conseq h set row o A T' x' /\ it_dot x' = it_dot x /\ it_origin x' = it_origin x.
    Proof.
      intros set row o A T T' x [(it & r & B & H1 & H2 & H3 & H4 & ->)|(d & r & T0 & H1 & H2 & H3 & H4 & H5 & ->)].
      - exists (adv T' it). split; [left; exists it, r, B; auto|auto].
      - exists (mkItem d o T'). split; [right; exists d, r, T0; auto 7|auto].
    Qed.

    Lemma step_below : forall H O H' O' top o A, (forall x, In x H -> dot_valid R x) -> cstep H O H' O' ->
      In top H -> (forall x, In x H -> ile x top) -> in_group R o A top ->
      (forall x, In x H' -> lexlt (rank x) (o, A)) /\
      (forall x, In x H -> in_group R o A x \/ In x H') /\
      (kp A = true -> forall d i, follows o A d i -> exists x, In x H' /\ it_dot x = d /\ it_origin x = i) /\
      (forall x, In x H' -> In x H \/ kp A = true /\ follows o A (it_dot x) (it_origin x)).
    Proof.
      intros H O H' O' top o A Hv Hs Htop Hmax [G1 G2].
      assert (Et : rank top = (o, A)) by (unfold Uniq.rank; now rewrite G1, G2).
      assert (K : forall o' A' popped rest, popped <> [] -> Permutation H (popped ++ rest) ->
        (exists top, In top popped /\ forall x, In x H -> ile x top) ->
        (forall x, In x popped -> in_group R o' A' x) ->
        (rest = [] \/ exists top, In top rest /\ (forall x, In x rest -> ile x top) /\ ~ in_group R o' A' top) ->
        (o', A') = (o, A) /\ forall x, In x rest -> lexlt (rank x) (o, A)).
      { intros o' A' popped rest Hne Pm (top' & Htop' & Hmax') Hg Hrest.
        assert (Hsub : forall y, In y popped \/ In y rest -> In y H).
        { intros y Hy. eapply Permutation_in; [symmetry; exact Pm|]. now apply in_app_iff. }
        assert (Et' : rank top' = (o', A')).
        { destruct (Hg top' Htop') as [X1 X2]. unfold Uniq.rank. now rewrite X1, X2. }
        assert (Eq : (o', A') = (o, A)).
        { rewrite <- Et, <- Et'. pose proof (Hmax' top Htop) as L1. pose proof (Hmax top' (Hsub _ (or_introl Htop'))) as L2.
          destruct (ile_rank R Hord top top' (Hv _ Htop) (Hv _ (Hsub _ (or_introl Htop'))) L1) as [X|X]; auto.
          destruct (ile_rank R Hord top' top (Hv _ (Hsub _ (or_introl Htop'))) (Hv _ Htop) L2) as [Y|Y]; auto.
          elim (lexlt_irrefl (rank top)). eapply lexlt_trans; eauto. }
        split; [exact Eq|]. injection Eq as -> ->. intros x Hx.
        destruct Hrest as [->|(y & Hy & Hymax & Hng)]; [destruct Hx|].
        assert (Ly : lexlt (rank y) (o, A)).
        { rewrite <- Et'. destruct (ile_rank R Hord y top' (Hv _ (Hsub _ (or_intror Hy))) (Hv _ (Hsub _ (or_introl Htop')))) as [X|X]; auto.
          exfalso. apply Hng. rewrite Et' in X. unfold Uniq.rank in X. injection X as X1 X2. now split. }
        destruct (ile_rank R Hord x y (Hv _ (Hsub _ (or_intror Hx))) (Hv _ (Hsub _ (or_intror Hy))) (Hymax _ Hx)) as [X|X]; [now rewrite X|]. eapply lexlt_trans; eauto. }
      destruct Hs as [H O o' A' popped rest nh nm H' Hne Pm Hm Hg Hr Hk Hc Pm'|H O o' A' popped rest Hne Pm Hm Hg Hr Hk];
        destruct (K o' A' popped rest Hne Pm Hm Hg Hr) as [Eq Hrest]; injection Eq as -> ->.
      2:{ split; [exact Hrest|]. split; [|split; [congruence|]].
          - intros x Hx. apply (Permutation_in _ Pm), in_app_iff in Hx. destruct Hx; auto.
          - intros x Hx. left. eapply Permutation_in; [symmetry; exact Pm|]. apply in_app_iff; auto. }
      destruct Hc as (set & row & Hset & Hrow & Inh & _).
      split; [|split; [|split]].
      - intros x Hx. apply (Permutation_in _ Pm') in Hx. apply in_app_iff in Hx. destruct Hx as [Hx|Hx]; [|auto].
        apply Inh in Hx.
        destruct Hx as [(it & r & B & Hit & Hr1 & Erhs & _ & ->)|(d & r & T0 & Hr1 & Erhs & _ & _ & _ & ->)];
          unfold Uniq.rank, lexlt, lhs_of; cbn; rewrite Hr1.
        + left. destruct (Hstatic _ _ Hset) as (_ & Ho & _). now apply Ho.
        + right. split; [auto|]. destruct Hord as [_ X]. eapply X; eauto; [eapply nth_error_In; eauto|].
          destruct (Hv top Htop) as [rt Hrt]. exists rt. split; [eapply nth_error_In; eauto|].
          unfold lhs_of in G2. now rewrite Hrt in G2.
      - intros x Hx. apply (Permutation_in _ Pm), in_app_iff in Hx. destruct Hx as [Hx|Hx]; [auto|]. right.
        eapply Permutation_in; [symmetry; exact Pm'|]. apply in_app_iff; auto.
      - intros _ d i (set' & row' & T & x & Hset' & Hrow' & Hx & Ed & Ei).
        assert (set' = set) by congruence. assert (row' = row) by congruence. subst set' row'.
        destruct (conseq_any _ _ _ _ _ (FSum A (map alt popped)) _ Hx) as (x' & Hx' & Ed' & Ei').
        exists x'. split; [|split; congruence]. eapply Permutation_in; [symmetry; exact Pm'|]. apply in_app_iff. left. now apply Inh.
      - intros x Hx. apply (Permutation_in _ Pm'), in_app_iff in Hx. destruct Hx as [Hx|Hx].
        + right. split; [auto|]. exists set, row, (FSum A (map alt popped)), x. split; [auto|]. split; [auto|]. split; [now apply Inh|auto].
        + left. eapply Permutation_in; [symmetry; exact Pm|]. apply in_app_iff; auto.
    Qed.

    Variable urank : sym -> nat.
    Hypothesis Hurank : forall r B, In r R -> p_rhs r = [B] -> urank (p_lhs r) < urank B.

    (** the client's view of completion: what is listed, and why *)
    Definition listing (H : list fitem) (l : list group) : Prop :=
      (forall x, In x H -> listed l (it_dot x) (it_origin x)) /\
      (forall o A dots d i, In ((o, A), dots) l -> kp A = true -> follows o A d i -> listed l d i) /\
      (forall Off : nat -> nat -> Prop, (forall x, In x H -> Off (it_dot x) (it_origin x)) ->
        (forall d o r, Off d o -> nth_error R d = Some r -> kp (p_lhs r) = true ->
           forall d' i, follows o (p_lhs r) d' i -> Off d' i) ->
        forall d o, listed l d o -> Off d o).

    Lemma groups_spec : forall st O (top : option (nat * nat)), cstate st O ->
      (forall q, top = Some q -> forall x, In x (r_complete st) -> lexlt (rank x) q) ->
      exists n l, (forall fuel, groups free_forest P g kp fuel st = if fuel <? n then NoFuel else Ret l) /\
        descending R l /\ listing (r_complete st) l /\
        forall q, top = Some q -> forall x, In x l -> lexlt (fst x) q.
    Proof.
      intros st O. set (wt := weight R nall cs urank (r_complete st)). remember wt as w eqn:Ew. unfold wt in Ew. clear wt.
      revert st O Ew. induction w as [w IH] using lt_wf_ind. intros st O Ew top C Htop.
      destruct (r_complete st) as [|x0 t] eqn:Eh.
      - exists 0, []. split; [|split; [|split]].
        + intros fuel. destruct fuel; cbn [groups]; unfold next_sum; rewrite Eh; reflexivity.
        + split; [constructor|]. intros o A dots [].
        + split; [intros x []|]. split; [intros o A dots d i []|]. intros Off _ _ d o (A & dots & [] & _).
        + intros q _ x [].
      - destruct (group_step P g R nsyms nall FIRST FOLLOW Hleo wf tok cs rows h kp Hstatic Hhint st O C)
          as (o & A & st1 & O1 & tp & E1 & E2 & C1 & S1 & L1 & Ep & Hg).
        { rewrite Eh; discriminate. }
        assert (Hv : forall x, In x (r_complete st) -> dot_valid R x).
        { intros x Hx. apply C in Hx. apply Hx. }
        assert (Hk : heap_ok (r_complete st)) by apply C.
        destruct (heap_peek_max _ _ Hk Ep) as [Hin Hmax].
        destruct (step_below _ _ _ _ _ _ _ Hv S1 Hin Hmax Hg) as (Hbel & Hkeepin & Hnew & Hold).
        destruct (IH (weight R nall cs urank (r_complete st1))) with (st := st1) (O := O1) (top := Some (o, A))
          as (n & l & El & [Hs Hd] & (La & Lb & Lc) & Hlt); auto.
        { subst w. rewrite <- Eh. eapply (cstep_weight P R nsyms nall FIRST FOLLOW wf cs rows h kp Hstatic (fun _ => True) urank (fun r B Hr Er _ => Hurank r B Hr Er)); eauto. apply C. }
        { intros q Eq. injection Eq as <-. exact Hbel. }
        destruct (items_of_spec (length (r_complete st)) o A st (le_n _) Hk Hv) as (popped & rest & Ed & Kr & Pr & Gr & Nr).
        pose proof (items_all _ _ _ _ _ _ Hv Kr Pr Hin Hmax Hg Nr) as Hall.
        rewrite <- Eh in *. clear x0 t Eh.
        assert (Hsub : forall x, In x popped -> In x (r_complete st)).
        { intros x Hx. eapply Permutation_in; [symmetry; exact Pr|]. apply in_app_iff; auto. }
        assert (Hlhs : forall x, In x popped -> exists r, nth_error R (it_dot x) = Some r /\ p_lhs r = A).
        { intros x Hx. destruct (Hv x (Hsub x Hx)) as [r Hr]. exists r. split; [auto|].
          destruct (Gr x Hx) as [_ X]. unfold lhs_of in X. now rewrite Hr in X. }
        assert (Up : forall d i, listed l d i -> listed (((o, A), map it_dot popped) :: l) d i).
        { intros d i (A' & dots & X & Y). exists A', dots. split; [now right|auto]. }
        exists (S n), (((o, A), map it_dot popped) :: l). split; [|split; [|split]].
        + intros [|fuel]; cbn [groups]; rewrite E1; cbn [bind]; [reflexivity|].
          rewrite Ed. cbn [bind]. rewrite E2. cbn [bind]. rewrite El.
          change (S fuel <? S n) with (fuel <? n). destruct (fuel <? n); reflexivity.
        + split.
          * constructor; [exact Hs|]. apply Forall_forall. intros x Hx. exact (Hlt _ eq_refl x Hx).
          * intros o' A' dots' [X|X]; [|eauto]. injection X as <- <- <-. split.
            -- specialize (Hall tp Hin Hg). destruct popped; [destruct Hall|discriminate].
            -- intros d X. apply in_map_iff in X. destruct X as (x & <- & Hx). auto.
        + split; [|split].
          * intros x Hx. destruct (Hkeepin x Hx) as [Hgx|Hx']; [|apply Up, La, Hx'].
            exists A, (map it_dot popped). destruct Hgx as [<- Hgx]. split; [now left|]. apply in_map. now apply Hall; [|split].
          * intros o' A' dots d i [X|X] HkA Hf.
            -- injection X as <- <- <-. destruct (Hnew HkA _ _ Hf) as (x & Hx & <- & <-). apply Up, La, Hx.
            -- apply Up. eapply Lb; eauto.
          * intros Off H1 H2 d i (A' & dots & [X|X] & Hd').
            -- injection X as <- <- <-. apply in_map_iff in Hd'. destruct Hd' as (x & <- & Hx).
               destruct (Gr x Hx) as [<- _]. apply H1, Hsub, Hx.
            -- apply (Lc Off); [|exact H2|now exists A', dots].
               intros x Hx. destruct (Hold x Hx) as [Hx'|[HkA Hf]]; [auto|].
               assert (Hp : In tp popped) by now apply Hall.
               destruct (Hlhs tp Hp) as (r & Hr & El'). destruct (Gr tp Hp) as [Eo _].
               apply (H2 (it_dot tp) o r); [rewrite <- Eo; auto|auto|now rewrite El'|now rewrite El'].
        + assert (Lt : forall q, top = Some q -> lexlt (o, A) q).
          { intros q Eq. specialize (Htop q Eq tp Hin).
            destruct Hg as [X1 X2]. unfold Uniq.rank in Htop. now rewrite X1, X2 in Htop. }
          intros q Eq x [<- | Hx]; [auto|]. eapply lexlt_trans; [exact (Hlt _ eq_refl x Hx)|auto].
    Qed.

    Lemma scans_closure : forall ws st O, 0 < length cs -> cstate st O -> (forall s v, In (s, v) ws -> s < nall) ->
      exists st' O', scans P g ws st = Ret st' /\ cstate st' O' /\
        (forall x, In x (r_complete st') -> In x (r_complete st) \/
           exists s v, In (s, v) ws /\ follows (length cs - 1) s (it_dot x) (it_origin x)) /\
        (forall x, In x (r_complete st) -> In x (r_complete st')) /\
        (forall s v d i, In (s, v) ws -> follows (length cs - 1) s d i ->
           exists x, In x (r_complete st') /\ it_dot x = d /\ it_origin x = i).
    Proof.
      intros ws st O Hcs. revert st O. induction ws as [|[s v] ws IH]; intros st O C Hws.
      - exists st, O. split; [reflexivity|]. split; [auto|]. split; [auto|]. split; [auto|]. intros s v d i [].
      - assert (Ee : earleme st = Some (length cs - 1)).
        { destruct C as (Hrep & _). unfold earleme. rewrite (rep_len _ _ _ Hrep). destruct (length cs) as [|n]; [lia|]. f_equal. lia. }
        cbn [scans foldM fst snd]. unfold scan at 1. rewrite Ee.
        cbn [unwrap bind f_leaf free_forest].
        assert (C1 : cstate (set_forest st (r_forest st)) O) by exact C.
        destruct (complete_completes P g R nsyms nall FIRST FOLLOW Hleo wf tok cs rows h Hstatic Hhint _ O (length cs - 1) s (FLeaf s v) C1)
          as (st1 & nh & nm & E1 & Hc & P1 & C2 & _ & L1); [lia|eapply Hws; now left|].
        rewrite E1. cbn [bind r_complete set_forest] in *.
        destruct (IH st1 (O ++ nm) C2) as (st2 & O2 & E2 & C3 & Ha & Hb & Hd). { intros s' v' X. eapply Hws. right. exact X. }
        exists st2, O2. split; [exact E2|]. split; [auto|]. destruct Hc as (set & row & Hset & Hrow & Inh & _).
        split; [|split].
        + intros x Hx. destruct (Ha x Hx) as [Hx'|(s' & v' & Hin & Hf)].
          * apply (Permutation_in _ P1), in_app_iff in Hx'. destruct Hx' as [Hx'|Hx']; [|auto].
            right. exists s, v. split; [now left|]. exists set, row, (FLeaf s v), x. split; [auto|]. split; [auto|]. split; [now apply Inh|auto].
          * right. exists s', v'. split; [now right|auto].
        + intros x Hx. apply Hb. eapply Permutation_in; [symmetry; exact P1|]. apply in_app_iff; auto.
        + intros s' v' d i [X|X] Hf; [|eapply Hd; eauto]. injection X as <- <-.
          destruct Hf as (set' & row' & T & x & Hset' & Hrow' & Hx & Ed & Ei).
          assert (set' = set) by congruence. assert (row' = row) by congruence. subst set' row'.
          destruct (conseq_any _ _ _ _ _ (FLeaf s v) _ Hx) as (x' & Hx' & Ed' & Ei').
          exists x'. split; [|split; congruence]. apply Hb. eapply Permutation_in; [symmetry; exact P1|]. apply in_app_iff. left. now apply Inh.
    Qed.

    (** *** The declarative description *)
    Definition held (o d i : nat) : Prop :=
      exists set it, nth_error cs o = Some set /\ In it set /\ it_dot it = d /\ it_origin it = i.
    Definition marked (o : nat) (A : sym) : Prop :=
      exists row : bitrow, nth_error rows o = Some row /\ nth_error row A = Some true.

    Lemma expected_top : forall o A, expected R nsyms marked o A <-> exists T, topr R nsyms A T /\ marked o T.
    Proof.
      intros o A. split.
      - induction 1 as [A HA Hm|A r HA Hr E _ (T & HT & Hm)].
        + exists A. split; [now apply top_here|auto].
        + exists T. split; [eapply top_up; eauto|auto].
      - intros (T & HT & Hm). induction HT as [A HA|A r T HA Hr E _ IH].
        + now apply ex_ordinary.
        + eapply ex_generated; eauto.
    Qed.

    Hypothesis Hnone : h = None.

    Lemma follows_none : forall o A d i, follows o A d i <-> o < length cs /\
      ((exists r B, held o d i /\ nth_error R d = Some r /\ p_rhs r = [B; A]) \/
       (exists r, nth_error R d = Some r /\ p_rhs r = [A] /\ expected R nsyms marked o (p_lhs r) /\ i = o)).
    Proof.
      intros o A d i. unfold follows. rewrite Hnone. unfold Core1.heap_conseq, ok_lhs, ok_unary, check. split.
      - intros (set & row & T & x & Hset & Hrow & Hx & Ed & Ei). split; [apply nth_error_Some; congruence|].
        destruct Hx as [(it & r & B & H1 & H2 & H3 & H4 & ->)|(d' & r & T0 & H1 & H2 & H3 & H4 & H5 & ->)]; cbn in Ed, Ei.
        + left. exists r, B. subst d i. split; [exists set, it; auto|auto].
        + right. subst d' i. exists r. split; [auto|]. split; [auto|]. split; [|auto]. apply expected_top.
          exists T0. split; [auto|]. exists row; auto.
      - intros (Ho & [(r & B & (set & it & Hset & Hit & Ed & Ei) & Hr & Erhs)|(r & Hr & Erhs & Hex & ->)]).
        + destruct (Hstatic _ _ Hset) as (_ & _ & row & Hrow & _).
          exists set, row, (FLeaf 0 0), (adv (FLeaf 0 0) it). split; [auto|]. split; [auto|]. split; [|auto].
          left. subst d. exists it, r, B. split; [auto|]. split; [auto|]. split; [auto|]. split; [|auto].
          destruct (nsyms <=? p_lhs r), (LOOKAHEAD P); reflexivity.
        + destruct (nth_error cs o) as [set|] eqn:Hset; [|apply nth_error_None in Hset; lia].
          apply expected_top in Hex. destruct Hex as (T & HT & row & Hrow & Hb).
          exists set, row, (FLeaf 0 0), (mkItem d o (FLeaf 0 0)). split; [auto|]. split; [auto|]. split; [|auto].
          right. exists d, r, T. repeat (split; [assumption|]). split; [|reflexivity].
          unfold ok_lhs, check. destruct (nsyms <=? p_lhs r), (nsyms <=? A), (LOOKAHEAD P); reflexivity.
    Qed.


    Lemma listed_offered : forall (ws : list (sym * nat)) (H0 : list fitem) l, 0 < length cs ->
      (forall x, In x H0 -> exists s v, In (s, v) ws /\ follows (length cs - 1) s (it_dot x) (it_origin x)) ->
      (forall s v d i, In (s, v) ws -> follows (length cs - 1) s d i -> exists x, In x H0 /\ it_dot x = d /\ it_origin x = i) ->
      descending R l -> listing H0 l ->
      forall d o, listed l d o <-> offered R nsyms held marked (length cs - 1) (map fst ws) kp d o.
    Proof.
      intros ws H0 l Hcs Hs1 Hs2 [_ Hdesc] (La & Lb & Lc) d o.
      set (rc := recognized R nsyms held marked (length cs - 1) (map fst ws) kp).
      set (of := offered R nsyms held marked (length cs - 1) (map fst ws) kp).
      assert (Follow : forall o A d i, rc o A -> follows o A d i -> of d i).
      { intros o' A d' i Hr Hf. apply follows_none in Hf. destruct Hf as (Ho & [(r & B & Hh & Hd & E)|(r & Hd & E & Hx & ->)]).
        - eapply off_second; eauto.
        - eapply off_only; eauto. }
      split.
      - intros HL. apply (Lc of); [| |exact HL].
        + intros x Hx. destruct (Hs1 x Hx) as (s & v & Hin & Hf). eapply Follow; [|exact Hf].
          apply rec_token. apply in_map_iff. now exists (s, v).
        + intros d' o' r Hof Hr Hk d2 i Hf. eapply Follow; [|exact Hf]. eapply rec_group; eauto.
      - intros Hof. enough (X : o < length cs /\ listed l d o) by apply X. revert d o Hof.
        apply (off_mut R nsyms held marked (length cs - 1) (map fst ws) kp
          (fun o A => o < length cs /\ forall d i, follows o A d i -> listed l d i)
          (fun d o => o < length cs /\ listed l d o)).
        + intros s Hs. apply in_map_iff in Hs. destruct Hs as ([s' v] & <- & Hin). split; [lia|].
          intros d i Hf. destruct (Hs2 _ _ _ _ Hin Hf) as (x & Hx & <- & <-). now apply La.
        + intros d o r _ [Ho (A & dots & Hg & Hd)] Hr Hk. split; [auto|]. intros d' i Hf.
          destruct (Hdesc _ _ _ Hg) as [_ Hl]. destruct (Hl d Hd) as (r' & Hr' & <-). assert (r' = r) by congruence. subst r'.
          eapply Lb; eauto.
        + intros d o i r B C _ [Ho Hf] Hw Hr Erhs.
          assert (Hi : i < o).
          { destruct Hw as (set & it & Hset & Hit & _ & <-). destruct (Hstatic _ _ Hset) as (_ & X & _). now apply X. }
          split; [lia|]. apply Hf. apply follows_none. split; [auto|]. left. eauto.
        + intros d o r B _ [Ho Hf] Hr Erhs Hex. split; [auto|]. apply Hf. apply follows_none. split; [auto|]. right. eauto 6.
    Qed.
  End Pass.
End G.

(** ** Over any usable forest *)
Section SimGroups.
  Context {F1 N1 F2 N2 : Type}.
  Variable fo1 : forest_ops F1 N1.
  Variable fo2 : forest_ops F2 N2.
  Variable J : phase -> F1 -> F2 -> Prop.
  Variable Q : F1 -> F2 -> N1 -> N2 -> Prop.
  Hypothesis HS : fsim fo1 fo2 J Q.
  Variable P : perf.
  Variable g : dgrammar.

  Lemma sim_items_of : forall n o l s1 s2, srel J Q Idle s1 s2 ->
    rres eq (items_of g n o l s1) (items_of g n o l s2).
  Proof.
    induction n as [|n IH]; intros o l s1 s2 Hs; cbn [items_of];
      (eapply rres_bind; [eapply sim_next_summand; eauto|]);
      intros [o1 t1] [o2 t2] [Ho Ht]; cbn [fst snd] in *;
      destruct o1 as [a|], o2 as [b|]; try contradiction; try (apply rres_ret; reflexivity); [reflexivity|].
    eapply rres_bind; [apply IH; apply Ht|]. intros x y <-. apply rres_ret. destruct Ho as (-> & _). reflexivity.
  Qed.

  Lemma sim_groups : forall keep fuel s1 s2, srel J Q Idle s1 s2 ->
    rres eq (groups fo1 P g keep fuel s1) (groups fo2 P g keep fuel s2).
  Proof.
    intros keep. induction fuel as [|fuel IH]; intros s1 s2 Hs; cbn [groups];
      rewrite <- (sim_next_sum _ _ _ _ _ _ Hs); destruct (next_sum g s1) as [[[o l]|]| |] eqn:En; cbn [bind]; simpl; eauto.
    assert (HL : length (r_complete s1) = length (r_complete s2)).
    { destruct Hs as [_ (_ & _ & _ & _ & X)]. eapply Forall2_length2; eauto. }
    rewrite <- HL. eapply rres_bind; [apply sim_items_of; eauto|]. intros dots ? <-.
    eapply rres_bind with (T := srel J Q Idle).
    { destruct (keep l); [eapply sim_complete_entire_sum; eauto|].
      unfold skip_entire_sum. rewrite <- HL. eapply sim_skip_loop; eauto. }
    intros t1 t2 Ht. eapply rres_bind; [apply IH; eauto|]. intros x ? <-. apply rres_ret. reflexivity.
  Qed.

  Lemma sim_groups_at : forall fuel before loc s1 s2, srel J Q Idle s1 s2 ->
    rres eq (groups_at fo1 P g fuel before loc s1) (groups_at fo2 P g fuel before loc s2).
  Proof.
    intros fuel before loc s1 s2 Hs. unfold groups_at.
    eapply rres_bind; [eapply sim_feed_all; eauto|]. intros [b1 t1] [b2 t2] [Hb Ht]. cbn [fst snd] in *. subst b2.
    destruct b1; [|apply rres_ret; reflexivity].
    eapply rres_bind; [eapply sim_scan_list; eauto; apply srel_hint; eapply sim_begin_earleme; eauto|].
    intros u1 u2 Hu. eapply rres_bind; [apply sim_groups; eauto|]. intros x ? <-. apply rres_ret. reflexivity.
  Qed.
End SimGroups.

Section AnyGroups.
  Context {F N : Type}.
  Variable fo : forest_ops F N.
  Variable ok : phase -> F -> Prop.
  Hypothesis HU : usable fo ok.
  Variable P : perf.
  Variables (c : pcfg) (nsyms : nat) (w : wrapped_root) (d0 : nat) (g0 : sym).
  Variable g : dgrammar.
  Hypothesis Hleo : LEO P = false.
  Hypothesis HB : built c nsyms w d0 g0 g.
  Hypothesis Hord : ordered (c_rules c).
  Notation R := (c_rules c).
  Notation nall := (c_num_syms c).

  Lemma free_groups : forall st1 fuel0 maps nulling first follow before loc,
    processed c nsyms w d0 g0 -> from_processed_grammars fuel0 c maps nulling first follow = Ret g ->
    fresh P c nsyms w first follow (fun _ => False) st1 -> locs_ok nsyms nall before -> locs_ok nsyms nall [loc] ->
    exists n b st', (forall fuel, feed_all free_forest P g fuel before st1 = if fuel <? n then NoFuel else Ret (b, st')) /\
      (b = true -> exists m st2 l,
         scan_list free_forest P g (l_toks loc) (set_hint_field (begin_earleme P st') (l_hint loc)) = Ret st2 /\
         (forall fuel, groups free_forest P g (l_keep loc) fuel st2 = if fuel <? m then NoFuel else Ret l) /\
         descending R l /\
         (l_hint loc = None -> exists k, earleme (begin_earleme P st') = Some k /\ forall d o, listed l d o <->
            offered R nsyms (waiting (begin_earleme P st')) (predicted_at (begin_earleme P st')) k
              (map fst (l_toks loc)) (l_keep loc) d o)).
  Proof.
    intros st1 fuel0 maps nulling first follow before loc HP Hg Hf Hok Hok1.
    pose proof (tok c nsyms w d0 g0 fuel0 maps nulling first follow g HP Hg) as Htab.
    pose proof HP as HP'. destruct HP'. destruct pr_acyclic as [urank Hurank].
    destruct (steps_exact P g R nsyms nall (first_of first) (follow_of follow) (w_root w) Hleo pr_wf Htab
         (ex_intro _ urank Hurank) _ (remove_spec P Hleo) st1 _ no_seed Hf before Hok)
        as (n & b & st' & sd & pos & _ & _ & Hrun & _ & _ & Hinv).
    exists n, b, st'. split. { intros fuel. now rewrite feed_all_steps, Hrun. }
    intros Eb. destruct (Hinv Eb) as (HI & _ & _).
    set (k := length before) in *. set (E := env_of (before ++ [loc]) sd).
    pose proof (env_of_agree before [loc] sd sd ltac:(reflexivity)) as Hag.
    assert (HI2 : Core4.Inv P R nsyms (first_of first) (follow_of follow) (w_root w) E (fun _ => False) k pos st')
      by (eapply Inv_congr; [exact Hag|exact HI]).
    assert (Ex : nth_error (before ++ [loc]) k = Some loc).
    { unfold k. rewrite nth_error_app2 by lia. now rewrite Nat.sub_diag. }
    assert (EW : eW E k = l_toks loc) by (unfold E; cbn; now rewrite Ex).
    assert (Eh : ehint E (S k) = l_hint loc) by (unfold E; cbn; now rewrite Ex).
    destruct (Hok1 loc (or_introl eq_refl)) as [Hh1 Hw1].
    destruct (first_state P R nsyms (first_of first) (follow_of follow) (w_root w) Hleo d0 E _ k pos st' HI2)
      as (cs & Hrep1 & Hcs & HLc & Hlast & Hx0 & C0 & Hc0 & _).
    rewrite Eh in *.
    set (st0 := set_hint_field (begin_earleme P st') (l_hint loc)) in *.
    pose proof (exact_static _ _ _ _ _ _ _ pr_wf _ _ _ _ Hx0) as Hst.
    destruct (scans_closure P g R nsyms nall (first_of first) (follow_of follow) Hleo pr_wf Htab cs _ _ Hst Hh1
                (l_toks loc) st0 [] Hcs C0 Hw1) as (st2 & O2 & Esc & C2 & Ha & _ & Hd).
    destruct (groups_spec P g R nsyms nall (first_of first) (follow_of follow) Hleo pr_wf Htab Hord cs _ _ (l_keep loc)
        Hst Hh1 urank Hurank st2 O2 None C2) as (m & l & El & Hdesc & Hlist & _).
    { discriminate. }
    exists m, st2, l. split; [exact Esc|]. split; [exact El|]. split; [exact Hdesc|].
    intros Enone. rewrite Enone in *.
    exists (length cs - 1). split.
    { unfold earleme. change (r_medial (begin_earleme P st')) with (r_medial st0). rewrite (rep_len _ _ _ Hrep1).
      destruct (length cs) as [|n0]; [lia|]. f_equal. lia. }
    intros d o. rewrite (listed_offered P R nsyms (follow_of follow) cs (r_predicted st') None (l_keep loc) Hst eq_refl
      (l_toks loc) (r_complete st2) l Hcs).
    2:{ intros x Hx. destruct (Ha x Hx) as [X|X]; [rewrite Hc0 in X; destruct X|exact X]. }
    2:{ exact Hd. }
    2:{ exact Hdesc. }
    2:{ exact Hlist. }
    assert (Ep : r_predicted (begin_earleme P st') = r_predicted st') by (unfold begin_earleme; rewrite Hleo; reflexivity).
    assert (Hwait : forall o d i, held cs o d i <-> waiting (begin_earleme P st') o d i).
    { intros o' d' i. unfold held, waiting. change (r_medial (begin_earleme P st')) with (r_medial st0).
      split; intros (set & it & H1 & H2); exists set, it; (split; [|exact H2]).
      - eapply rep_index; eauto.
      - destruct (nth_error cs o') as [s'|] eqn:Ec.
        + rewrite (rep_index _ _ _ _ _ Hrep1 Ec) in H1. now injection H1 as <-.
        + apply nth_error_None in Ec. rewrite (rep_index_oob _ _ _ _ Hrep1 Ec) in H1. discriminate. }
    split; apply offered_mono; try (intros o' d' i; apply Hwait); intros o' A; unfold marked, predicted_at; now rewrite Ep.
  Qed.

  Lemma mate_begin : forall st1 (s1 : rstate F N), mate ok st1 s1 -> mate ok (begin_earleme P st1) (begin_earleme P s1).
  Proof. intros. unfold mate. eapply sim_begin_earleme; eauto. Qed.

  Lemma mate_waiting : forall st1 (s1 : rstate F N), mate ok st1 s1 -> forall o d i, waiting st1 o d i <-> waiting s1 o d i.
  Proof.
    intros st1 s1 (_ & _ & _ & Hv & _) o d i. pose proof (rres_v_index _ _ _ o Hv) as X.
    assert (Y : forall l l', Forall2 (irel (fun (_ : fnode) (_ : N) => True)) l l' ->
      (exists it, In it l /\ it_dot it = d /\ it_origin it = i) <-> (exists it, In it l' /\ it_dot it = d /\ it_origin it = i)).
    { induction 1 as [|a b l l' (E1 & E2 & _) _ IH]; [split; intros (it & [] & _)|]. split.
      - intros (it & [<- | Hin] & H1 & H2); [exists b; split; [now left|split; congruence]|].
        destruct (proj1 IH) as (it' & Hi & Hj); [eauto|]. exists it'. split; [now right|auto].
      - intros (it & [<- | Hin] & H1 & H2); [exists a; split; [now left|split; congruence]|].
        destruct (proj2 IH) as (it' & Hi & Hj); [eauto|]. exists it'. split; [now right|auto]. }
    destruct Hv as [Hi Hc].
    unfold waiting. destruct (v_index (r_medial st1) o) as [set| |] eqn:E; cbn in X.
    - destruct X as (set' & -> & HF). split; intros (x & it & [= <-] & H); [destruct (proj1 (Y _ _ HF)) as (it' & H')|destruct (proj2 (Y _ _ HF)) as (it' & H')]; eauto.
    - assert (E' : v_index (r_medial s1) o = Panic).
      { unfold v_index in *. rewrite <- Hi, <- (Forall2_length2 _ _ _ _ _ Hc).
        destruct (idx (indices (r_medial st1)) o); try discriminate; [|reflexivity]. cbn [bind] in *.
        destruct (idx (indices (r_medial st1)) (o + 1)); try discriminate; [|reflexivity]. cbn [bind] in *.
        match goal with |- context [assert ?b] => destruct b end; [discriminate|reflexivity]. }
      rewrite E'. split; intros (x & it & [=] & _).
    - rewrite X. split; intros (x & it & [=] & _).
  Qed.

  Theorem any_groups : forall f0 before loc, ok Idle f0 -> locs_ok nsyms nall before -> locs_ok nsyms nall [loc] ->
    exists n o, (forall fuel, (st <- r_new g f0 ;; groups_at fo P g fuel before loc st) =
                              if fuel <? n then NoFuel else Ret o) /\
      forall l, o = Some l -> descending R l.
  Proof.
    intros f0 before loc Hf0 Hok Hok1. destruct HB as [HP (fuel0 & maps & nulling & first & follow & Hg & HFI & HFO)].
    destruct (new_fresh P c nsyms w d0 g0 fuel0 maps nulling first follow g HP Hg) as (st1 & E1 & Hf & _).
    assert (Free : exists n o, (forall fuel, groups_at free_forest P g fuel before loc st1 = if fuel <? n then NoFuel else Ret o) /\
      forall l, o = Some l -> descending R l).
    { destruct (free_groups st1 _ _ _ _ _ before loc HP Hg Hf Hok Hok1) as (n & b & st' & Hrun & Hx).
      destruct b.
      2:{ exists n, None. split; [|discriminate]. intros fuel. unfold groups_at. rewrite Hrun.
          destruct (fuel <? n); reflexivity. }
      destruct (Hx eq_refl) as (m & st2 & l & Esc & El & Hd & _).
      exists (Nat.max n m), (Some l). split; [|intros ? [= <-]; exact Hd].
      intros fuel. unfold groups_at. rewrite Hrun.
      destruct (Nat.ltb_spec fuel n).
      { destruct (Nat.ltb_spec fuel (Nat.max n m)); [reflexivity|lia]. }
      cbn [bind]. rewrite Esc. cbn [bind]. rewrite El.
      destruct (Nat.ltb_spec fuel m), (Nat.ltb_spec fuel (Nat.max n m)); try lia; reflexivity. }
    destruct Free as (n & o & Efree & Ho). exists n, o. split; [|exact Ho].
    assert (HN : exists s0 : rstate F N, r_new g f0 = Ret s0 /\ mate ok st1 s0).
    { pose proof (sim_new (F1 := list (nat * fnode)) (N1 := fnode) (N2 := N)
        (fun ph f1 f2 => (ph = Summing true -> f1 <> []) /\ ok ph f2) (fun _ _ _ _ => True) g [] f0) as HX.
      rewrite E1 in HX. destruct HX as (s0 & E0 & HX); [split; [discriminate|auto]|]. eauto. }
    destruct HN as (s0 & E0 & Hm). intros fuel. rewrite E0. cbn [bind].
    pose proof (sim_groups_at _ _ _ _ (free_fo fo ok HU) P g fuel before loc _ _ Hm) as HX. rewrite Efree in HX.
    destruct (fuel <? n); [exact HX|]. destruct HX as (y & -> & <-). reflexivity.
  Qed.

  Theorem any_exact : forall f0 before loc, ok Idle f0 -> locs_ok nsyms nall before -> locs_ok nsyms nall [loc] ->
    l_hint loc = None ->
    forall fuel fuel' (st1 st2 : rstate F N) l, (st <- r_new g f0 ;; feed_all fo P g fuel before st) = Ret (true, st1) ->
      scan_list fo P g (l_toks loc) (set_hint_field (begin_earleme P st1) None) = Ret st2 ->
      groups fo P g (l_keep loc) fuel' st2 = Ret l ->
      exists k, earleme (begin_earleme P st1) = Some k /\ forall d o, listed l d o <->
        offered R nsyms (waiting (begin_earleme P st1)) (predicted_at (begin_earleme P st1)) k
              (map fst (l_toks loc)) (l_keep loc) d o.
  Proof.
    intros f0 before loc Hf0 Hok Hok1 Hnone fuel fuel' s1 s2 l Hrun Hsc Hgr.
    destruct HB as [HP (fuel0 & maps & nulling & first & follow & Hg & HFI & HFO)].
    destruct (new_fresh P c nsyms w d0 g0 fuel0 maps nulling first follow g HP Hg) as (f1 & E1 & Hf & _).
    assert (HN : exists s0 : rstate F N, r_new g f0 = Ret s0 /\ mate ok f1 s0).
    { pose proof (sim_new (F1 := list (nat * fnode)) (N1 := fnode) (N2 := N)
        (fun ph f1 f2 => (ph = Summing true -> f1 <> []) /\ ok ph f2) (fun _ _ _ _ => True) g [] f0) as HX.
      rewrite E1 in HX. destruct HX as (s0 & E0 & HX); [split; [discriminate|auto]|]. eauto. }
    destruct HN as (s0 & E0 & Hm). rewrite E0 in Hrun. cbn [bind] in Hrun.
    destruct (free_groups f1 _ _ _ _ _ before loc HP Hg Hf Hok Hok1) as (n & b & st1 & Hfree & Hx).
    pose proof (sim_feed_all _ _ _ _ (free_fo fo ok HU) P g fuel before _ _ Hm) as HX. rewrite Hfree, Hrun in HX.
    destruct (fuel <? n); [discriminate|]. destruct HX as ([b' s1'] & E & Eb & Hm1). injection E as <- <-. cbn [fst snd] in *. subst b.
    destruct (Hx eq_refl) as (m & st2 & l' & Esc & El & _ & Hoff). rewrite Hnone in Esc.
    assert (Hm2 : mate ok st2 s2).
    { pose proof (sim_scan_list _ _ _ _ (free_fo fo ok HU) P g (l_toks loc) (set_hint_field (begin_earleme P st1) None)
        (set_hint_field (begin_earleme P s1) None)) as HY.
      rewrite Esc, Hsc in HY. destruct HY as (y & [= <-] & Hy); [|exact Hy]. apply srel_hint. now apply mate_begin. }
    assert (Elog : l' = l).
    { pose proof (sim_groups _ _ _ _ (free_fo fo ok HU) P g (l_keep loc) fuel' _ _ Hm2) as HY. rewrite El, Hgr in HY.
      destruct (fuel' <? m); [discriminate|]. destruct HY as (y & [= <-] & <-). reflexivity. }
    subst l'. destruct (Hoff Hnone) as (k & Ek & Hl). pose proof (mate_begin _ _ Hm1) as Hmb. exists k. split.
    { rewrite <- Ek. symmetry. eapply rel_earleme. exact Hmb. }
    intros d o. rewrite Hl.
    assert (Hp : r_predicted (begin_earleme P st1) = r_predicted (begin_earleme P s1)) by apply Hmb.
    split; apply offered_mono; try (intros o' d' i; apply (mate_waiting _ _ Hmb)); intros o' A; unfold predicted_at; now rewrite Hp.
  Qed.
End AnyGroups.
