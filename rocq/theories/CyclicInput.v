(** CyclicInput: parsing an input ends if no cycle of unary rules goes through symbols that
    derive a part of it. *)
From Coq Require Import List Arith Bool Lia Relations.
From Verif Require Import Base BaseProofs Vec2d Item Grammar DefaultGrammar Forest ForestSpec Recognizer Drive ClientSpec
  Spec SpecFacts Chart ChartFacts ChartSpec CfgSpec Tables TablesProofs Den Core1 Core2 Core3 Core4 Core5 Core6
  Recog Sim RecogAny RecogFacts Parse ParseFacts CompactSpec CrateSpec.
From Verif Require CyclicRun CyclicLive Shaped Cyclic Decide Trees.
Import ListNotations.
Local Open Scope res_scope.

Lemma reads_part : forall W (xs : list (sym * nat)), (forall k y, In y (W k) -> nth_error xs k = Some y) ->
  forall i zs j, reads W i zs j -> i <= length xs -> exists b, skipn i xs = zs ++ b.
Proof.
  intros W xs HW i zs j H. induction H as [i|i y ys j Hy H IH]; intros L; [exists (skipn i xs); reflexivity|].
  apply HW in Hy. assert (i < length xs) by (apply nth_error_Some; congruence).
  destruct IH as (b & Hb); [lia|]. exists b. cbn [app]. rewrite <- Hb. clear -Hy. revert i Hy.
  induction xs as [|x xs IH]; intros [|i] H; cbn in *; try discriminate; [congruence|]. now apply IH.
Qed.

Section Input.
  Context {F N : Type}.
  Variable fo : forest_ops F N.
  Variable ok : phase -> F -> Prop.
  Hypothesis HU : usable fo ok.
  Variable P : perf.
  Variables (c : pcfg) (nsyms : nat) (w : wrapped_root) (d0 : nat) (g0 : sym).
  Variable g : dgrammar.
  Hypothesis Hleo : LEO P = false.
  Hypothesis HB : shaped_built c nsyms w d0 g0 g.
  Notation R := (c_rules c).
  Notation nall := (c_num_syms c).
  Notation root := (w_root w).
  Notation start_state := (start_state ok P c nsyms w g).

  Notation live syms := (Decide.live R (w_sof w :: syms) root).

  Lemma chart_live : forall first follow use v0 xs n sd, (forall j s, ~ sd j s) ->
    CyclicLive.chart_live P R nsyms (first_of first) (follow_of follow) root (live (map fst xs))
      (env_of (firstn n (hinted use 0 ((w_sof w, v0) :: xs))) sd).
  Proof.
    intros first follow use v0 xs n sd Hsd d r i j ts H Hr. set (ys := (w_sof w, v0) :: xs).
    change (w_sof w :: map fst xs) with (map fst ys).
    pose proof (Comp_lt _ _ _ _ _ _ _ _ _ _ _ _ _ _ H) as Lt.
    destruct (proj1 (proj2 (chart_sound R nsyms root _ _ _ _ _ _ _)) _ _ _ _ H) as (r' & Hr' & Hpt & Hrd & _).
    rewrite Hr in Hr'. injection Hr' as <-.
    destruct (proj1 (proj2 (chart_context R nsyms root _ _ _ _ _ _ _ Hsd)) _ _ _ _ H) as (r' & zs & v & Hr' & Hz & Hd).
    rewrite Hr in Hr'. injection Hr' as <-.
    assert (HW : forall k y, In y (eW (env_of (firstn n (hinted use 0 ys)) sd) k) -> nth_error ys k = Some y).
    { intros k y Hy. cbn [env_of eW] in Hy.
      destruct (nth_error (firstn n (hinted use 0 ys)) k) as [l|] eqn:El; [|destruct Hy].
      assert (Ln : k < n). { assert (k < length (firstn n (hinted use 0 ys))) by (apply nth_error_Some; congruence).
        rewrite firstn_length in *. lia. }
      rewrite (nth_error_firstn_some _ n _ k Ln), hinted_nth in El.
      destruct (nth_error ys k) as [x|]; [|discriminate]. injection El as <-. cbn in Hy. destruct Hy as [->|[]]. reflexivity. }
    pose proof (reads_length _ _ _ _ Hrd) as Hl. pose proof (reads_length _ _ _ _ Hz) as Hlz. cbn in Hlz.
    destruct (reads_part _ ys HW 0 _ _ Hz (Nat.le_0_l _)) as (b0 & Hb0). cbn [skipn] in Hb0.
    assert (Li : i <= length ys) by (rewrite Hb0, app_length; lia).
    destruct (reads_part _ ys HW i _ _ Hrd Li) as (b & Hb).
    assert (Lj : j <= length ys). { pose proof (skipn_length i ys) as Q. rewrite Hb, app_length in Q. lia. }
    exists i. rewrite map_length. split; [apply in_seq; lia|]. exists j. split; [apply in_seq; lia|]. split.
    - apply (Decide.stands_complete R (wf_arity _ _ _ (sh_wf _ _ _ _ _ (sb_shaped _ _ _ _ _ _ HB))) (map fst ys) root (p_lhs r) i v).
      + now rewrite map_length.
      + rewrite firstn_map, Hb0, Hlz, firstn_app, Nat.sub_diag, firstn_all. cbn [firstn]. rewrite app_nil_r. exact Hd.
    - assert (Es : Decide.slice (map fst ys) i j = map fst (flat_map yield ts)).
      { unfold Decide.slice. rewrite skipn_map, Hb, firstn_map, Hl. f_equal. replace (i + length (flat_map yield ts) - i) with (length (flat_map yield ts)) by lia.
        rewrite firstn_app, Nat.sub_diag, firstn_all. cbn [firstn]. now rewrite app_nil_r. }
      rewrite Es. change (flat_map yield ts) with (yield (Node d ts)). apply tree_derives. econstructor; eauto.
  Qed.

  (** completion ends at every location *)
  Theorem parse_ends : forall st tokens syms, start_state (fun _ => False) st -> r_hint st = None ->
    mapped g tokens syms -> (forall s, In s syms -> user_terminal c nsyms w s) ->
    (forall s, ~ clos_trans sym (Decide.live_step R (w_sof w :: syms) root) s s) ->
    exists n, forall fuel, n <= fuel -> parse fo P g fuel st tokens <> NoFuel.
  Proof.
    intros st tokens syms (st1 & first & follow & HFI & HFO & (fuel0 & maps & nulling & Hg) & Hf & Hm) Hh Hmap Hs Hcyc.
    pose proof (sb_shaped _ _ _ _ _ _ HB) as HP.
    set (ys := (w_sof w, 0) :: numbered 0 syms).
    assert (Hin : forall s v, In (s, v) (numbered 0 syms) -> s < nsyms /\ terminal R s).
    { intros s v Hi. destruct (Hs s) as (A & B & _); [eapply numbered_in; eauto|]. auto. }
    assert (Hok : locs_ok nsyms nall (hinted after0 0 ys)).
    { apply (Shaped.hinted_ok c nsyms w d0 g0 HP). intros s v [E|Hi]; [|apply (Hin s v Hi)].
      injection E as <- <-. now destruct HP. }
    pose proof HP as HP'. destruct HP'.
    destruct (Decide.live_ranked R nall (wf_arity _ _ _ sh_wf)) with (input := w_sof w :: syms) (root := root) as (rank & Hrank); [|exact Hcyc|].
    { intros s (r & Hr & [<-|Hi]); [exact (wf_lhs_range _ _ _ sh_wf r Hr)|exact (wf_rhs_range _ _ _ sh_wf r s Hr Hi)]. }
    destruct (CyclicLive.steps_ends P g R nsyms nall (first_of first) (follow_of follow) root Hleo sh_wf
      (Shaped.tok c nsyms w d0 g0 fuel0 maps nulling first follow g HP Hg) (live syms) rank Hrank
      (remove_unreachable_sets P) (remove_spec P Hleo) st1 _ no_seed Hf (hinted after0 0 ys) Hok) as (n & Hn).
    { intros n sd H1 H2. pose proof (chart_live first follow after0 0 (numbered 0 syms) n sd) as K. rewrite numbered_fst in K. apply K.
      intros [|j] s Hj; [apply H1 in Hj; exact Hj|exact (H2 j s Hj)]. }
    exists n. intros fuel Hfu K. specialize (Hn fuel Hfu). rewrite <- feed_all_steps in Hn.
    pose proof (sim_feed_all _ _ _ _ (free_fo fo ok HU) P g fuel (hinted after0 0 ys) _ _ Hm) as HS.
    pose proof (parse_feed fo P g fuel tokens syms st Hmap Hh) as X. cbn zeta in X.
    rewrite (Cyclic.sof_sym c nsyms w d0 g0 g HB) in X. fold ys in X.
    destruct (Shaped.shaped_run P c nsyms w d0 g0 fuel0 maps nulling first follow g Hleo HP Hg _ st1 (hinted after0 0 ys) Hf ltac:(contradiction) Hok
      ltac:(discriminate) fuel) as [Hno|(b & st1' & sd & Hrun & Hb & HsdZ & Hsd0 & Hrf & HI & Hfin)]; [contradiction|].
    rewrite Hrun in HS. destruct HS as ([b' st'] & E & Hbb & Hm'). cbn [fst snd] in *. subst b'. rewrite E in X. destruct b.
    - rewrite X in K. destruct (Hfin eq_refl) as (o & Eo & _).
      pose proof (sim_is_finished _ _ _ _ (free_fo fo ok HU) g I _ _ Hm') as Y. unfold is_finished in Y at 1. rewrite Eo in Y.
      cbn [bind] in Y. destruct Y as (y & E' & _). rewrite E' in K. discriminate K.
    - destruct X as [(X & _)|(k & t & _ & X & _)]; rewrite X in K; discriminate K.
  Qed.
End Input.

(** ** More fuel changes no answer *)
Section Fuel.
  Context {F N : Type}.
  Variable fo : forest_ops F N.
  Variable P : perf.
  Variable g : dgrammar.

  Lemma end_mono : forall fuel fuel' (st : rstate F N) x, fuel <= fuel' -> end_earleme fo P g fuel st = Ret x -> end_earleme fo P g fuel' st = Ret x.
  Proof.
    intros fuel fuel' st x Hle. unfold end_earleme, end_filtered.
    destruct (is_exhausted st) as [[|]| |]; cbn [bind]; try discriminate; auto.
    destruct (complete_sums fo P g keep_all fuel st) as [st1| |] eqn:E1; cbn [bind]; try discriminate.
    now rewrite (Trees.complete_sums_mono fo P g _ fuel fuel' st st1 Hle E1).
  Qed.

  Lemma loop_mono : forall fuel fuel' tokens i (st : rstate F N) x, fuel <= fuel' ->
    parse_loop fo P g fuel i tokens st = Ret x -> parse_loop fo P g fuel' i tokens st = Ret x.
  Proof.
    intros fuel fuel' tokens. induction tokens as [|t rest IH]; intros i st x Hle; cbn [parse_loop]; [auto|]. cbv zeta.
    set (h := match rest with [] => _ | _ => _ end). destruct h as [st1| |]; cbn [bind]; try discriminate.
    destruct (to_internal g t) as [o| |]; cbn [bind]; try discriminate.
    destruct (unwrap o) as [s| |]; cbn [bind]; try discriminate.
    destruct (scan fo P g st1 s i) as [st2| |]; cbn [bind]; try discriminate.
    destruct (end_earleme fo P g fuel st2) as [[b st3]| |] eqn:E; cbn [bind]; try discriminate.
    rewrite (end_mono _ _ _ _ Hle E). cbn [bind]. destruct b; [|auto]. now apply IH.
  Qed.

  Lemma parse_mono : forall fuel fuel' tokens (st : rstate F N) x, fuel <= fuel' ->
    parse fo P g fuel st tokens = Ret x -> parse fo P g fuel' st tokens = Ret x.
  Proof.
    intros fuel fuel' tokens st x Hle. unfold parse, read_sof.
    destruct (scan fo P g _ _ _) as [st1| |]; cbn [bind]; try discriminate.
    destruct (end_earleme fo P g fuel st1) as [[b st2]| |] eqn:E; cbn [bind]; try discriminate.
    rewrite (end_mono _ _ _ _ Hle E). cbn [bind]. destruct b; [|auto].
    destruct (parse_loop fo P g fuel 0 tokens st2) as [y| |] eqn:E2; cbn [bind]; try discriminate.
    rewrite (loop_mono _ _ _ _ _ _ Hle E2). auto.
  Qed.
End Fuel.

(** from some fuel on it has ended, with one answer *)
Lemma total_from : forall A (f : nat -> res A) n x, (forall fuel, f fuel = NoFuel \/ exists y, f fuel = Ret y) ->
  (forall fuel fuel' y, fuel <= fuel' -> f fuel = Ret y -> f fuel' = Ret y) -> f n = Ret x -> exists n0, total n0 f x.
Proof.
  intros A f n x Hf Hm. revert x. induction n as [|n IH]; intros x Hx.
  - exists 0. intros fuel. cbn. apply (Hm 0); [lia|auto].
  - destruct (Hf n) as [Hn|(y & Hn)].
    + exists (S n). intros fuel. destruct (Nat.ltb_spec fuel (S n)) as [L|L]; [|now apply (Hm (S n))].
      destruct (Hf fuel) as [H|(y & H)]; [auto|]. pose proof (Hm fuel n y ltac:(lia) H). congruence.
    + assert (x = y) by (pose proof (Hm n (S n) y ltac:(lia) Hn); congruence). subst y. exact (IH x Hn).
Qed.
