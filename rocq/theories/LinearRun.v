(** LinearRun: the calls of a parse, and its items, when every medial item of an Earley set
    has the only origin its rule can have there. *)
From Coq Require Import List Arith Bool Lia Permutation Sorted.
From Verif Require Import Base BaseProofs Vec2d Vec2dProofs Item Heap HeapProofs Grammar BitMatrix
  DefaultGrammar Forest Recognizer Drive Spec Chart ChartFacts Tables Den Sim Core1 Core2 Core3 Core4 Core5 Core6
  TablesProofs CfgSpec ForestSpec Recog RecogAny CostSpec Cost LinearGroups Uniq.
Import ListNotations.
Local Open Scope res_scope.

(** ** More fuel changes nothing *)
Section Mono.
  Context {F N : Type}.
  Variable fo : forest_ops F N.
  Variable P : perf.
  Variable g : dgrammar.

  Lemma complete_sums_mono : forall kp fuel fuel' (st st' : rstate F N), fuel <= fuel' ->
    complete_sums fo P g kp fuel st = Ret st' -> complete_sums fo P g kp fuel' st = Ret st'.
  Proof.
    intros kp. induction fuel as [|fuel IH]; intros fuel' st st' Hle H; cbn [complete_sums] in H.
    - inv H. destruct fuel' as [|fuel']; cbn [complete_sums]; rewrite E; cbn [bind]; [exact H|].
      destruct a as [[o A]|]; [discriminate|exact H].
    - destruct fuel' as [|fuel']; [lia|]. cbn [complete_sums]. inv H. rewrite E. cbn [bind]. destruct a as [[o A]|]; [|exact H].
      inv H. rewrite E0. cbn [bind]. apply (IH fuel'); [lia|exact H].
  Qed.

  Lemma feed_mono : forall fuel fuel' loc (st : rstate F N) x, fuel <= fuel' ->
    feed fo P g fuel loc st = Ret x -> feed fo P g fuel' loc st = Ret x.
  Proof.
    intros fuel fuel' loc st x Hle H. unfold feed in *. inv H. rewrite E. cbn [bind]. unfold end_filtered in *.
    inv H. rewrite E0. cbn [bind]. destruct a0; [exact H|]. inv H. rewrite (complete_sums_mono _ _ _ _ _ Hle E1). exact H.
  Qed.

  Lemma feed_fun : forall fuel fuel' loc (st : rstate F N) x y,
    feed fo P g fuel loc st = Ret x -> feed fo P g fuel' loc st = Ret y -> x = y.
  Proof.
    intros fuel fuel' loc st x y H1 H2. destruct (Nat.le_ge_cases fuel fuel') as [Hl|Hl].
    - rewrite (feed_mono _ _ _ _ _ Hl H1) in H2. congruence.
    - rewrite (feed_mono _ _ _ _ _ Hl H2) in H1. congruence.
  Qed.

  Lemma feed_all_snoc : forall fuel l x (st : rstate F N),
    feed_all fo P g fuel (l ++ [x]) st =
    ('(ok, st) <- feed_all fo P g fuel l st ;; if ok then feed fo P g fuel x st else Ret (false, st)).
  Proof.
    induction l as [|a l IH]; intros x st; cbn [app feed_all bind].
    - destruct (feed fo P g fuel x st) as [[[|] st']| |]; reflexivity.
    - destruct (feed fo P g fuel a st) as [[[|] st']| |]; cbn [bind]; auto.
  Qed.
End Mono.

(** ** The calls of a location, by its fuel *)
Section FuelCost.
  Context {F N : Type}.
  Variable fo : forest_ops F N.
  Variable P : perf.
  Variable g : dgrammar.
  Variable R : list prule.
  Variables nsyms nall : nat.
  Variables FIRST FOLLOW : sym -> sym -> bool.
  Hypothesis Hleo : LEO P = false.
  Hypothesis wf : wf_rules R nsyms nall.
  Hypothesis tok : tables_ok g R nsyms nall FIRST FOLLOW.
  Variable rank : sym -> nat.
  Hypothesis Hrank : forall r B, In r R -> p_rhs r = [B] -> rank (p_lhs r) < rank B.
  Notation state := (rstate (F * nat) N).
  Notation nitem := (item N).
  Notation fc := (counted fo).

  Section Location.
    Variable cs : list (list nitem).
    Variable S0 : nat.
    Hypothesis Hsets : forall o set, nth_error cs o = Some set -> length set <= S0 /\
      forall it, In it set -> it_origin it < o /\ dot_ok R it.

    Lemma sums_fuel : forall kp fuel (st st' : state) O, open_ok R cs st O ->
      complete_sums fc P g kp fuel st = Ret st' ->
      calls st' <= calls st + length (r_complete st) + fuel * (2 + 2 * S0 + length R).
    Proof.
      intros kp. induction fuel as [|fuel IH]; intros st st' O (Hrep & Hk & Hv) H; cbn [complete_sums] in H;
        inv H; unfold next_sum in E; destruct (heap_peek (r_complete st)) as [top|] eqn:Ep.
      1, 3: destruct (heap_top _ _ Hk Ep) as [Ht Hmax]; destruct (Hv top Ht) as [Hdt Hot].
      1: rewrite (get_lhs_of _ _ _ _ _ _ tok _ Hdt) in E; cbn [bind] in E; injection E as <-; discriminate.
      2, 3: injection E as <-; injection H as <-; unfold calls; cbn; lia.
      rewrite (get_lhs_of _ _ _ _ _ _ tok _ Hdt) in E. cbn [bind] in E. injection E as <-.
      set (k := it_origin top) in *. set (A := Cost.lhs_of R (it_dot top)) in *.
      assert (HA : A < nall).
      { unfold A, Cost.lhs_of. unfold dot_ok in Hdt. apply nth_error_Some in Hdt. destruct (nth_error R (it_dot top)) as [r|] eqn:Er; [|congruence].
        eapply wf_lhs_range; eauto using nth_error_In. }
      assert (Hdots : forall it, In it (r_complete st) -> dot_ok R it) by (intros it Hit; now apply Hv).
      destruct (kp A).
      - inv H. rename a into st1. unfold complete_entire_sum in E. inv E. rename a into f1.
        cbn [f_begin_sum counted] in E0. inv E0. injection E0 as <-. inv E. rename a0 into st2.
        match type of E0 with summand_loop _ _ _ _ _ ?s = _ =>
          destruct (summand_loop_cost fo g R nsyms nall FIRST FOLLOW tok _ _ _ s st2 Hk Hdots E0) as (M2 & K2 & popped & T2 & C2) end.
        cbn in M2, T2, C2.
        unfold complete_sum in E. inv E. destruct a0 as [node f3]. cbn [f_sum counted] in E2. inv E2. destruct a0 as [n' f']. injection E2 as <- <-.
        destruct (nth_error cs k) as [set|] eqn:Es; [|apply nth_error_None in Es; lia].
        destruct (complete_cost fo P g R nsyms nall FIRST FOLLOW Hleo tok (set_forest st2 (f', S (snd (r_forest st2)))) st1 cs O k set A n'
                   ltac:(cbn; rewrite M2; exact Hrep) ltac:(cbn; exact K2) Es HA E) as (K1 & C1 & nh & nm & R1 & P1 & Ad).
        cbn in P1. unfold calls at 2 in C1. cbn in C1.
        pose proof (added_ok R cs S0 Hsets _ _ _ _ _ Es Ad) as Hnh.
        destruct (Hsets k set Es) as (HS & _). destruct Ad as (L1 & _).
        destruct T2 as (Pm & _ & _).
        assert (X0 : open_ok R cs st1 (O ++ nm)).
        { split; [auto|]. split; [auto|]. intros it Hit. apply (Permutation_in _ P1) in Hit. apply in_app_iff in Hit.
          destruct Hit as [Hit|Hit]; [destruct (Hnh it Hit); split; [auto|lia]|]. apply Hv.
          eapply Permutation_in; [symmetry; exact Pm|]. apply in_app_iff; auto. }
        specialize (IH st1 st' _ X0 H). apply Permutation_length in P1, Pm. rewrite app_length in P1, Pm. unfold calls in *. lia.
      - inv H. rename a into st1. unfold skip_entire_sum in E.
        destruct (skip_loop_cost g R nsyms nall FIRST FOLLOW tok _ _ _ st st1 Hk Hdots E) as (M1 & K1 & F1 & popped & (Pm & _)).
        assert (X0 : open_ok R cs st1 O).
        { split; [now rewrite M1|]. split; [auto|]. intros it Hit. apply Hv.
          eapply Permutation_in; [symmetry; exact Pm|]. apply in_app_iff; auto. }
        specialize (IH st1 st' _ X0 H). apply Permutation_length in Pm. rewrite app_length in Pm. unfold calls in *. rewrite F1 in IH. lia.
    Qed.
  End Location.

  (** every Earley set has at most [S0] items *)
  Definition small (S0 : nat) (st : state) : Prop :=
    forall cs O, rep (r_medial st) cs O -> forall set, In set (cs ++ [O]) -> length set <= S0.

  Lemma concat_small : forall (l : list (list nitem)) m, (forall set, In set l -> length set <= m) -> length (concat l) <= length l * m.
  Proof.
    induction l as [|a l IH]; intros m H; cbn; [lia|]. rewrite app_length.
    pose proof (H a (or_introl eq_refl)). pose proof (IH m ltac:(intros; apply H; simpl; auto)). lia.
  Qed.

  Lemma small_items : forall s0 n S0 (st : state), between R rank s0 n st -> small S0 st ->
    v_item_count (r_medial st) <= S n * S0.
  Proof.
    intros s0 n S0 st (cs & O & Hrep & _ & Hn & _) Hs. specialize (Hs cs O Hrep). rewrite (rep_item_count _ _ _ Hrep).
    apply concat_small in Hs. rewrite concat_app, !app_length in Hs. cbn in Hs. rewrite app_nil_r in Hs. nia.
  Qed.

  Lemma feed_fuel : forall S0 n fuel loc (st st' : state) b, between R rank 1 n st -> small S0 st ->
    length (l_toks loc) <= 1 -> (forall x, In x (l_toks loc) -> fst x < nall) ->
    feed fc P g fuel loc st = Ret (b, st') ->
    calls st' <= calls st + (1 + 2 * S0 + length R) + fuel * (2 + 2 * S0 + length R) /\
    (b = false -> v_item_count (r_medial st') <= S n * S0).
  Proof.
    intros S0 n fuel loc st st' b HB Hsm Hs0 Ht H. pose proof (small_items _ _ _ _ HB Hsm) as Hitems.
    destruct HB as (cs & O & Hrep & Hc & Hn & Hs). specialize (Hsm cs O Hrep). unfold feed in H. inv H. rename a into st1.
    destruct (begin_field P Hleo st (l_hint loc)) as (B1 & B2 & B3).
    set (stb := set_hint_field (begin_earleme P st) (l_hint loc)) in *.
    assert (Hrb : rep (r_medial stb) (cs ++ [O]) []) by (rewrite B1; now apply rep_next_set).
    rewrite (rep_item_count _ _ _ Hrep) in Hitems.
    assert (Hcat : length (concat (cs ++ [O])) <= S n * S0) by (rewrite concat_app, app_length; cbn; rewrite app_nil_r; lia).
    set (sets := cs ++ [O]) in *.
    assert (Hlen : length sets = S (length cs)) by (unfold sets; rewrite app_length; cbn; lia).
    assert (Hsets : forall o set, nth_error sets o = Some set -> length set <= S0 /\ forall it, In it set -> it_origin it < o /\ dot_ok R it).
    { intros o set E0. split; [apply Hsm; eapply nth_error_In; eauto|apply (Hs o set E0)]. }
    destruct (scan_list_cost fo P g R nsyms nall FIRST FOLLOW Hleo tok sets S0 ltac:(lia) Hsets (l_toks loc) stb st1 [])
      as (nm & (R1 & K1 & V1) & N1 & L1 & C1 & H1); auto.
    { split; [auto|]. split; [rewrite B2, Hc; apply heap_ok_nil|]. rewrite B2, Hc. intros it []. }
    cbn [app] in R1. rewrite B2, Hc in H1. cbn [length] in H1. unfold calls at 2 in C1. rewrite B3 in C1. fold (calls st) in C1.
    assert (Hc1 : calls st1 <= calls st + S S0).
    { pose proof (Nat.mul_le_mono_r _ _ (S S0) Hs0). unfold sym in *. lia. }
    assert (Hh1 : length (r_complete st1) <= S0 + length R).
    { pose proof (Nat.mul_le_mono_r _ _ (S0 + length R) Hs0). unfold sym in *. lia. }
    unfold end_filtered in H. inv H. unfold is_exhausted in E0. rewrite (rep_last _ _ _ R1) in E0. cbn [bind] in E0.
    destruct a.
    - injection H as <- <-. split; [nia|]. intros _. destruct nm; [|discriminate]. rewrite (rep_item_count _ _ _ R1). cbn [length]. lia.
    - inv H. rename a into st2. inv H. rename a into st3. injection H as <- <-. split; [|discriminate].
      pose proof (sums_fuel sets S0 Hsets (l_keep loc) fuel st1 st2 nm (conj R1 (conj K1 V1)) E1) as G.
      assert (X : calls st3 = calls st2); [|lia].
      destruct (sums_cost fo P g R nsyms nall FIRST FOLLOW Hleo wf tok rank Hrank sets S0 Hsets (l_keep loc) fuel (length cs) st1 st2 nm)
        as (O2 & R2 & C2 & V2 & _); auto.
      { split; auto. } { intros it Hit. destruct (V1 it Hit). lia. }
      unfold advance_after_completion in E2. inv E2. rename a into st4.
      destruct (sort_cost _ _ _ _ _ R2 E3) as (O4 & R4 & P4 & C4 & F4).
      assert (V4 : forall it, In it O4 -> it_origin it < length sets).
      { intros it Hit. apply (Permutation_in _ (Permutation_sym P4)) in Hit. destruct (V2 it Hit) as [Hi|[Hi _]]; [now apply N1|auto]. }
      inv E2. rename a into st5.
      destruct (remove_cost P Hleo _ _ _ _ R4 ltac:(lia) V4 E4) as (m & Hm & R5 & V5 & C5 & F5).
      rewrite Hleo in E2. cbn [bind] in E2. destruct (prediction_pass_cost _ _ _ E2) as (M6 & C6 & F6).
      unfold calls. rewrite F6, F5, F4. reflexivity.
  Qed.
End FuelCost.

(** ** A set whose items are determined by their dots is small *)
Lemma filter_dot_sum : forall N (l : list (item N)) m, (forall it, In it l -> it_dot it < m) ->
  length l = list_sum (map (fun d => length (filter (fun it => it_dot it =? d) l)) (seq 0 m)).
Proof.
  induction l as [|a l IH]; intros m H.
  - cbn. induction (seq 0 m); cbn; auto.
  - cbn [length]. rewrite (IH m) by (intros; apply H; simpl; auto).
    pose proof (list_sum_point (it_dot a) 1 (seq 0 m) (seq_NoDup _ _)) as X.
    transitivity (list_sum (map (fun d => (if d =? it_dot a then 1 else 0) + length (filter (fun it => it_dot it =? d) l)) (seq 0 m))).
    + rewrite list_sum_plus. rewrite X by (apply in_seq; specialize (H a (or_introl eq_refl)); lia). lia.
    + f_equal. apply map_ext. intros d. cbn [filter]. rewrite (Nat.eqb_sym d). destruct (it_dot a =? d); reflexivity.
Qed.

Lemma set_small : forall N (l : list (item N)) m B, (forall it, In it l -> it_dot it < m) -> (forall o, cnt o l <= B) ->
  (forall x y, In x l -> In y l -> it_dot x = it_dot y -> it_origin x = it_origin y) -> length l <= m * B.
Proof.
  intros N l m B Hd Hc Hu. rewrite (filter_dot_sum _ l m Hd).
  assert (X : forall d, length (filter (fun it => it_dot it =? d) l) <= B).
  { intros d. destruct (filter (fun it => it_dot it =? d) l) as [|y t] eqn:E; [cbn; lia|]. rewrite <- E.
    assert (Hy : In y (filter (fun it => it_dot it =? d) l)) by (rewrite E; simpl; auto).
    apply filter_In in Hy. destruct Hy as [Hy Ed]. apply Nat.eqb_eq in Ed.
    etransitivity; [|apply (Hc (it_origin y))]. unfold cnt.
    clear E t. assert (HI : incl l l) by apply incl_refl. revert HI. generalize l at 1 3 4. intros l0.
    induction l0 as [|a l0 IH]; intros HI; cbn; [lia|].
    assert (HI' : incl l0 l) by (intros z Hz; apply HI; simpl; auto). specialize (IH HI').
    destruct (Nat.eqb_spec (it_dot a) d) as [Ea|Ea].
    - assert (Eo : it_origin a = it_origin y) by (apply Hu; [apply HI; simpl; auto|auto|congruence]). rewrite Eo, Nat.eqb_refl. cbn. lia.
    - destruct (it_origin a =? it_origin y); cbn; lia. }
  pose proof (list_sum_le _ (fun d => length (filter (fun it => it_dot it =? d) l)) B (seq 0 m) (fun d _ => X d)) as Y.
  rewrite seq_length in Y. exact Y.
Qed.

(** ** Runs *)
Definition none : nat -> sym -> Prop := fun _ _ => False.

Section Run.
  Context {F N : Type}.
  Variable fo : forest_ops F N.
  Variable ok : phase -> F * nat -> Prop.
  Hypothesis HU : usable (counted fo) ok.
  Variable P : perf.
  Variables (c : pcfg) (nsyms : nat) (w : wrapped_root) (d0 : nat) (g0 : sym).
  Variable g : dgrammar.
  Hypothesis Hleo : LEO P = false.
  Variables (fuel0 : nat) (maps : mapping) (nulling : list prule) (first follow : list (sym * list sym)).
  Hypothesis HP : processed c nsyms w d0 g0.
  Hypothesis Hg : from_processed_grammars fuel0 c maps nulling first follow = Ret g.
  Notation R := (c_rules c).
  Notation nall := (c_num_syms c).
  Notation fc := (counted fo).
  Notation Inv := (Core4.Inv P R nsyms (first_of first) (follow_of follow) (w_root w)).
  Notation eComp := (eComp P R nsyms (first_of first) (follow_of follow) (w_root w)).
  Notation eMed := (eMed P R nsyms (first_of first) (follow_of follow) (w_root w)).
  Notation nowhere := (fun _ : sym => False).
  Variable rank : sym -> nat.
  Hypothesis Hrank : forall r B, In r R -> p_rhs r = [B] -> rank (p_lhs r) < rank B.

  Variable locs : list location.
  Notation E := (env_of locs none).
  Hypothesis Hlocs : locs_ok nsyms nall locs.
  Hypothesis Hone : forall loc, In loc locs -> length (l_toks loc) <= 1.
  (** a dotted rule has at most one origin in an Earley set *)
  Hypothesis Hmu : forall d i1 i2 j t1 t2, eMed E d i1 j t1 -> eMed E d i2 j t2 -> i1 = i2.

  Let Htab := tok c nsyms w d0 g0 fuel0 maps nulling first follow g HP Hg.
  Let Hwf := pr_wf _ _ _ _ _ HP.
  Let Hacyc := pr_acyclic _ _ _ _ _ HP.

  Definition most : nat := length R * Bd R rank 1.

  Lemma v_index_sets : forall A (v : vec2d A) cs O o set, rep v cs O ->
    nth_error (cs ++ [O]) o = Some set <-> v_index (v_next_set v) o = Ret set.
  Proof.
    intros A v cs O o set H. apply rep_next_set in H. split.
    - intros E0. eapply rep_index; eauto.
    - intros E0. destruct (nth_error (cs ++ [O]) o) as [x|] eqn:Ex.
      + rewrite (rep_index _ _ _ _ _ H Ex) in E0. congruence.
      + apply nth_error_None in Ex. rewrite (rep_index_oob _ _ _ _ H Ex) in E0. discriminate.
  Qed.

  Lemma inv_small : forall n k pos st1 (st : rstate (F * nat) N), Inv E nowhere k pos st1 -> mate ok st1 st -> between R rank 1 n st -> small most st.
  Proof.
    intros n k pos st1 st HI Hm (cs' & O' & Hrep' & _ & _ & Hs) cs O Hrep set Hin.
    apply In_nth_error in Hin. destruct Hin as (o & Ho). apply (v_index_sets _ _ _ _ _ _ Hrep) in Ho.
    pose proof (proj2 (v_index_sets _ _ _ _ _ _ Hrep') Ho) as Ho'. destruct (Hs o set Ho') as [Hit Hcnt].
    destruct HI as [(cs1 & O1 & Hrep1 & HL1 & (_ & Hinc & Hx & _)) _ _ _].
    destruct Hm as (_ & _ & _ & Hv & _).
    assert (Hv' : vrel (irel (fun (_ : fnode) (_ : N) => True)) (v_next_set (r_medial st1)) (v_next_set (r_medial st))).
    { split; [|apply Hv]. cbn. rewrite (vrel_len _ _ _ Hv). now rewrite (proj1 Hv). }
    pose proof (rres_v_index _ _ _ o Hv') as X. rewrite Ho in X.
    assert (Hex : exists set1, nth_error (cs1 ++ [O1]) o = Some set1).
    { assert (Hlt : o < length (cs ++ [O])) by (apply nth_error_Some; rewrite (proj2 (v_index_sets _ _ _ _ o set Hrep) Ho); discriminate).
      rewrite app_length in Hlt. cbn in Hlt.
      pose proof (rep_len _ _ _ Hrep) as L1. pose proof (rep_len _ _ _ Hrep1) as L2. unfold v_len in L1, L2. rewrite (proj1 Hv) in L2.
      destruct (nth_error (cs1 ++ [O1]) o) eqn:Z; eauto. apply nth_error_None in Z. rewrite app_length in Z. cbn in Z. lia. }
    destruct Hex as (set1 & E1). rewrite (proj1 (v_index_sets _ _ _ _ _ _ Hrep1) E1) in X.
    destruct X as (y & [= <-] & HF).
    assert (Hp : exists p, nth_error pos o = Some p).
    { assert (Hlt : o < length (cs1 ++ [O1])) by (apply nth_error_Some; congruence). rewrite app_length in Hlt. cbn in Hlt.
      destruct (nth_error pos o) eqn:Z; eauto. apply nth_error_None in Z. lia. }
    destruct Hp as (p & Hp). destruct (Hx _ _ _ Hp E1) as (_ & Hsnd & _).
    apply set_small; [intros it Hi; apply (Hit it Hi)|exact Hcnt|].
    assert (Hback : forall x, In x set -> exists x1, In x1 set1 /\ it_dot x1 = it_dot x /\ it_origin x1 = it_origin x).
    { clear -HF. induction HF as [|a b l l' (Ha & Hb & _) _ IH]; intros x []; [subst; exists a; simpl; auto|].
      destruct (IH x H) as (x1 & H1 & H2). exists x1. simpl; auto. }
    intros x y Hxi Hyi Ed. destruct (Hback x Hxi) as (x1 & X1 & X2 & X3). destruct (Hback y Hyi) as (y1 & Y1 & Y2 & Y3).
    destruct (Hsnd x1 X1) as (_ & i1 & I1 & (ts1 & Ts1) & A1). destruct (A1 _ Ts1) as (t1 & _ & M1).
    destruct (Hsnd y1 Y1) as (_ & i2 & I2 & (ts2 & Ts2) & A2). destruct (A2 _ Ts2) as (t2 & _ & M2).
    rewrite X2 in M1. rewrite Y2, <- Ed in M2. rewrite <- X3, <- Y3.
    pose proof (Hmu _ _ _ _ _ _ M1 M2). subst i2. eapply pos_inj; eauto.
  Qed.

  Definition chosen (n : nat) (x : nat * (nat * nat)) : Prop :=
    snd (snd x) <= n /\ exists ts, eComp E (fst x) (fst (snd x)) (snd (snd x)) ts.

  Lemma choose_active : forall k pos L, (forall a b x y, a < b -> nth_error pos a = Some x -> nth_error pos b = Some y -> x < y) ->
    NoDup L -> (forall o, In o L -> active P R nsyms (first_of first) (follow_of follow) (w_root w) E pos k o) ->
    exists T, length T = length L /\ NoDup (map snd T) /\ (forall x, In x T -> snd (snd x) = S k /\ chosen (S k) x) /\
      forall x, In x T -> exists o, In o L /\ nth_error pos o = Some (fst (snd x)).
  Proof.
    intros k pos L Hinc. induction L as [|o L IH]; intros ND HL.
    - exists []. split; [auto|]. split; [constructor|]. split; intros x [].
    - inversion ND as [|? ? Hni ND']; subst. destruct (IH ND' ltac:(intros; apply HL; simpl; auto)) as (T & E1 & N1 & H1 & H2).
      destruct (HL o (or_introl eq_refl)) as (d & i & ts & Hi & Hc). exists ((d, (i, S k)) :: T).
      split; [cbn; auto|]. split.
      { cbn. constructor; [|auto]. intros Hin. apply in_map_iff in Hin. destruct Hin as (x & Ex & Hx).
        destruct (H2 x Hx) as (o' & Ho' & Hp). rewrite Ex in Hp. cbn in Hp.
        assert (o = o') by (eapply pos_inj; eauto). subst. contradiction. }
      split.
      + intros x [<-|Hx]; [|auto]. cbn. split; [auto|]. split; [cbn; auto|]. exists ts. exact Hc.
      + intros x [<-|Hx]; [exists o; simpl; auto|]. destruct (H2 x Hx) as (o' & Ho' & Hp). exists o'. simpl; auto.
  Qed.

  Definition per_location : nat := 1 + 2 * most + length R.
  Definition per_place : nat := PHI R rank * (2 + 2 * most + length R).

  (** after reading the locations [l] *)
  Definition reached (l : list location) (b : bool) (s : rstate (F * nat) N) : Prop :=
    exists T, NoDup (map snd T) /\ (forall x, In x T -> chosen (length l) x) /\
      calls s <= per_location * length l + per_place * length T /\
      v_item_count (r_medial s) <= S (length l) * most /\ between R rank 1 (length l) s /\
      (b = true -> exists st1 pos, mate ok st1 s /\ Inv E nowhere (length l) pos st1).

  Lemma run_reached : forall st1 s0, fresh P c nsyms w first follow nowhere st1 -> mate ok st1 s0 -> between R rank 1 0 s0 -> calls s0 = 0 ->
    forall fuel l l', locs = l ++ l' -> forall b s, feed_all fc P g fuel l s0 = Ret (b, s) -> reached l b s.
  Proof.
    intros st1 s0 Hf Hm HB0 Hc0 fuel. induction l as [|x l IH] using rev_ind; intros l' El b s H.
    - cbn in H. injection H as <- <-. exists []. split; [constructor|]. split; [intros x []|]. cbn [length].
      assert (HI : Inv E nowhere 0 [0] st1).
      { eapply Inv_congr; [|exact Hf]. pose proof (env_of_agree [] locs no_seed none) as X. cbn [app length] in X. apply X. intros j s0' _. reflexivity. }
      split; [lia|]. split; [|split; [auto|]].
      + apply (small_items R rank 1 0 most s0 HB0). eapply inv_small; eauto.
      + intros _. exists st1, [0]. auto.
    - rewrite feed_all_snoc in H. destruct (feed_all fc P g fuel l s0) as [[b1 s1]| |] eqn:E0; cbn [bind] in H; try discriminate.
      rewrite <- app_assoc in El. cbn in El. destruct (IH _ El _ _ eq_refl) as (T & ND & HT & Hc & Hi & Hb & Hinv).
      assert (Hx : In x locs) by (rewrite El; apply in_app_iff; simpl; auto).
      assert (Elen : length (l ++ [x]) = S (length l)) by (rewrite app_length; cbn; lia).
      destruct (Hlocs x Hx) as [Hh Ht].
      assert (Ht' : forall y, In y (l_toks x) -> fst y < nall) by (intros [s' v] Hy; exact (Ht s' v Hy)).
      destruct b1.
      2:{ injection H as <- <-. exists T. rewrite Elen. split; [auto|]. split; [intros y Hy; destruct (HT y Hy) as [Q1 Q2]; split; [lia|exact Q2]|].
          split; [lia|]. split; [lia|]. split; [|discriminate].
          destruct Hb as (cs & O & B1 & B2 & B3 & B4). exists cs, O. repeat (split; [solve [auto|lia]|]). auto. }
      destruct (Hinv eq_refl) as (f1 & pos & Hm1 & HI). set (k := length l) in *.
      assert (Ex : nth_error locs k = Some x) by (rewrite El, nth_error_app2, Nat.sub_diag by (unfold k; lia); reflexivity).
      assert (EW : eW E k = l_toks x) by (cbn; now rewrite Ex).
      assert (Eh : ehint E (S k) = l_hint x) by (cbn; now rewrite Ex).
      assert (Ekp : ekeep E (S k) = l_keep x) by (cbn; now rewrite Ex).
      destruct (step_exact P g R nsyms nall (first_of first) (follow_of follow) (w_root w) Hleo Hwf Htab Hacyc _ (remove_spec P Hleo) E nowhere k pos f1 HI)
        as (n & b2 & f2 & sd2 & Hstep & _ & HZ & _ & Hnext).
      { now rewrite Eh. } { rewrite EW. exact Ht. }
      destruct (step_count P g R nsyms nall (first_of first) (follow_of follow) (w_root w) Hleo Hwf Htab rank Hrank (remove_unreachable_sets P) E nowhere k pos f1 n b2 f2 HI)
        as (L & NDL & HL & Hn); auto.
      { now rewrite Eh. } { rewrite EW. exact Ht. }
      rewrite EW, Eh, Ekp in Hstep.
      pose proof (sim_feed _ _ _ _ (free_fo fc ok HU) P g n x _ _ Hm1) as HX.
      change (feed free_forest P g n x f1) with (steploc P g (remove_unreachable_sets P) n x f1) in HX.
      unfold steploc in HX. rewrite Hstep, Nat.ltb_irrefl in HX. destruct HX as ([b3 s3] & E3 & Eb & Hm3). cbn [fst snd] in Eb, Hm3. subst b3.
      pose proof (feed_fun _ _ _ _ _ _ _ _ _ H E3) as Eq. injection Eq as -> ->.
      pose proof (inv_small _ _ _ _ _ HI Hm1 Hb) as Hsm.
      destruct (feed_fuel fo P g R nsyms nall _ _ Hleo Hwf Htab rank Hrank most k n x s1 s3 b2 Hb Hsm (Hone x Hx) Ht' E3) as [G1 G2].
      destruct (feed_cost fo P g R nsyms nall _ _ Hleo Hwf Htab rank Hrank 1 k n x s1 s3 b2 Hb (Hone x Hx) Ht' E3) as [B3 _].
      destruct HI as [(cs1 & O1 & Hrep1 & HL1 & (HLx & Hinc & Hx1 & Hr1)) Hlast Hrows Hheap] eqn:EHI.
      destruct (choose_active k pos L Hinc NDL HL) as (T2 & L2 & N2 & C2 & _).
      exists (T2 ++ T). rewrite Elen. split.
      { rewrite map_app. apply NoDup_app_iff. split; [exact N2|]. split; [exact ND|]. intros y Hy1 Hy2. apply in_map_iff in Hy1, Hy2.
        destruct Hy1 as (y1 & <- & Hy1). destruct Hy2 as (y2 & Ey & Hy2). destruct (C2 _ Hy1) as [Q _]. destruct (HT _ Hy2) as [Q2 _].
        rewrite Ey in Q2. lia. }
      split.
      { intros y Hy. apply in_app_iff in Hy. destruct Hy as [Hy|Hy]; [apply C2; auto|]. destruct (HT y Hy) as [Q1 Q2]. split; [lia|exact Q2]. }
      split.
      { rewrite app_length, L2. unfold per_location, per_place in *.
        pose proof (Nat.mul_le_mono_r _ _ (2 + 2 * most + length R) Hn). nia. }
      assert (HI3 : b2 = true -> exists st pos', mate ok st s3 /\ Inv E nowhere (S k) pos' st).
      { intros ->. destruct (Hnext eq_refl) as (_ & pos' & n' & _ & Hnx). exists f2, pos'. split; [exact Hm3|].
        apply Hnx; try reflexivity. intros s'. cbn. split; [intros []|apply HZ]. }
      split; [|split; [auto|exact HI3]].
      destruct b2; [|specialize (G2 eq_refl); lia].
      destruct (HI3 eq_refl) as (st & pos' & Q1 & Q2). apply (small_items R rank 1 (S k) most s3 B3). eapply inv_small; eauto.
  Qed.
End Run.
