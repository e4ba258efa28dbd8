(** CompactTop: the parses of the free forest, seen through the simple and through the
    compact bocage. *)
From Coq Require Import List Arith Bool Lia Permutation NArith.
From Verif Require Shaped.
From Verif Require Import Base BaseProofs Item Grammar DefaultGrammar Forest ForestSpec Recognizer Drive ClientSpec Spec SpecFacts
  Chart ChartFacts ChartSpec CfgSpec TablesProofs Den Sim Core1 Core2 Core3 Core4 Core5 Core6 Recog RecogFacts Uniq SimpleBocage SimpleEval
  SimpleProofs SimpleValue EvalSpec TreeSpec Trees ForestProg ForestValue SimpleTop PredFacts PropLemmas4
  Session SessionProofs CompactGraph CompactGraphProofs CompactBocage CompactSpec CompactProofs CompactEval CompactValue.
Import ListNotations.
Local Open Scope res_scope.

(** ** A parse over one forest gives a parse over another *)
Section Transfer.
  Context {F1 N1 F2 N2 : Type}.
  Variable fo1 : forest_ops F1 N1.
  Variable fo2 : forest_ops F2 N2.
  Variable J : phase -> F1 -> F2 -> Prop.
  Variable Q : F1 -> F2 -> N1 -> N2 -> Prop.
  Hypothesis HS : fsim fo1 fo2 J Q.
  Variable P : perf.
  Variable g : dgrammar.

  Definition prel (x : option N1 * F1) (y : option N2 * F2) : Prop :=
    J Idle (snd x) (snd y) /\
    match fst x, fst y with
    | Some a, Some b => Q (snd x) (snd y) a b
    | None, None => True
    | _, _ => False
    end.

  Lemma sim_parse : forall fuel locs f1 f2, J Idle f1 f2 ->
    rres prel (st <- r_new g f1 ;; parse_forest fo1 P g fuel locs st) (st <- r_new g f2 ;; parse_forest fo2 P g fuel locs st).
  Proof.
    intros fuel locs f1 f2 HJ. eapply rres_bind; [apply (sim_new J Q g f1 f2 HJ)|]. intros s1 s2 Hs.
    unfold parse_forest. eapply rres_bind; [apply (sim_feed_all _ _ _ _ HS P g fuel locs _ _ Hs)|].
    intros [b1 t1] [b2 t2] [Eb Ht]. cbn [fst snd] in *. subst b2. destruct b1.
    - eapply rres_bind; [apply (sim_finished _ _ _ _ HS g I _ _ Ht)|]. intros o1 o2 Ho. apply rres_ret.
      split; [apply Ht|exact Ho].
    - apply rres_ret. split; [apply Ht|exact I].
  Qed.

  Lemma parse_mono : forall F N (fo : forest_ops F N) f fuel fuel' locs x, fuel <= fuel' ->
    (st <- r_new g f ;; parse_forest fo P g fuel locs st) = Ret x -> (st <- r_new g f ;; parse_forest fo P g fuel' locs st) = Ret x.
  Proof.
    intros F N fo f fuel fuel' locs x Hle. destruct (r_new g f) as [st| |]; cbn [bind]; try discriminate. unfold parse_forest.
    destruct (feed_all fo P g fuel locs st) as [[b s]| |] eqn:E; cbn [bind]; try discriminate.
    rewrite (feed_all_mono fo P g fuel fuel' locs st _ Hle E). auto.
  Qed.

  Theorem total_transfer : forall n locs f1 f2 x, J Idle f1 f2 ->
    total n (fun fuel => st <- r_new g f1 ;; parse_forest fo1 P g fuel locs st) x ->
    exists y, total n (fun fuel => st <- r_new g f2 ;; parse_forest fo2 P g fuel locs st) y /\ prel x y.
  Proof.
    intros n locs f1 f2 x HJ H. pose proof (fun fuel => sim_parse fuel locs f1 f2 HJ) as HX.
    pose proof (HX n) as Hn. rewrite (H n), Nat.ltb_irrefl in Hn. destruct Hn as (y & Ey & Hy). exists y. split; [|exact Hy].
    intros fuel. specialize (HX fuel). rewrite (H fuel) in HX. destruct (Nat.ltb_spec fuel n) as [Hl|Hl]; [exact HX|].
    eapply parse_mono; eauto.
  Qed.

  (** and neither ends without the other *)
  Lemma ends_back : forall locs f1 f2, J Idle f1 f2 ->
    (exists fuel, (st <- r_new g f2 ;; parse_forest fo2 P g fuel locs st) <> NoFuel) ->
    exists fuel, (st <- r_new g f1 ;; parse_forest fo1 P g fuel locs st) <> NoFuel.
  Proof.
    intros locs f1 f2 HJ (fuel & H). exists fuel. intros K. pose proof (sim_parse fuel locs f1 f2 HJ) as HX. rewrite K in HX. exact (H HX).
  Qed.

  Lemma ends_forth : forall locs f1 f2, J Idle f1 f2 -> (forall fuel, (st <- r_new g f1 ;; parse_forest fo1 P g fuel locs st) <> Panic) ->
    (exists fuel, (st <- r_new g f1 ;; parse_forest fo1 P g fuel locs st) <> NoFuel) ->
    exists fuel, (st <- r_new g f2 ;; parse_forest fo2 P g fuel locs st) <> NoFuel.
  Proof.
    intros locs f1 f2 HJ Hp (fuel & H). exists fuel. intros K. pose proof (sim_parse fuel locs f1 f2 HJ) as HX.
    destruct (st <- r_new g f1 ;; parse_forest fo1 P g fuel locs st) as [x| |] eqn:E1; [|now apply (Hp fuel)|now apply H].
    destruct HX as (y & Ey & _). congruence.
  Qed.
End Transfer.

(** ** The parses of the free forest *)
Section Free.
  Variable P : perf.
  Variables (c : pcfg) (nsyms : nat) (w : wrapped_root) (d0 : nat) (g0 : sym).
  Variable g : dgrammar.
  Hypothesis Hleo : LEO P = false.
  Hypothesis HB : shaped_built c nsyms w d0 g0 g.
  Notation R := (c_rules c).
  Notation nall := (c_num_syms c).

  Theorem free_trees_any : forall locs, locs_ok nsyms nall locs -> locs <> [] ->
    (exists fuel, (st <- r_new g [] ;; parse_forest free_forest P g fuel locs st) <> NoFuel) ->
    exists n o p, total n (fun fuel => st <- r_new g [] ;; parse_forest free_forest P g fuel locs st) (o, p) /\
      (forall T, o = Some T -> shape T /\ forall ts, den T ts -> exists t, ts = [t] /\ accepted c g0 locs t) /\
      (forall t, accepted c g0 locs t -> truthful c nsyms w locs t -> o <> None) /\
      (rules_sorted R -> (forall l, In l locs -> toks_ok R (l_toks l)) ->
         forall T, o = Some T -> NoDup (trees T) /\
           forall t, accepted c g0 locs t -> truthful c nsyms w locs t -> den T [t]).
  Proof.
    intros locs Hok Hne (fuel1 & Hends). destruct HB as [HP (fuel0 & maps & nulling & first & follow & Hg & HFI & HFO)].
    destruct (Shaped.new_fresh P c nsyms w d0 g0 fuel0 maps nulling first follow g HP Hg) as (st0 & En & Hf & _).
    assert (Hends' : exists fuel, steps P g (remove_unreachable_sets P) fuel locs st0 <> NoFuel).
    { exists fuel1. intros K. apply Hends. rewrite En. cbn [bind]. unfold parse_forest. rewrite feed_all_steps, K. reflexivity. }
    destruct (run_trees_any P c nsyms w d0 g0 fuel0 maps nulling first follow g Hleo HP Hg HFI HFO
       (remove_unreachable_sets P) (remove_spec P Hleo) _ st0 locs Hf ltac:(intros ? []) Hok Hne Hends')
      as (n & b & st' & o & Hrun & Ho1 & Ho2 & Hsnd & Hcomp & Huniq).
    assert (HSh : srel shapeJ shapeQ Idle st' st').
    { pose proof (sim_new (N1 := fnode) (N2 := fnode) shapeJ shapeQ g [] [] ltac:(split; auto)) as HX. rewrite En in HX.
      destruct HX as (st1 & E1 & HX). injection E1 as <-.
      pose proof (sim_feed_all _ _ _ _ free_shape P g n locs _ _ HX) as HY.
      rewrite feed_all_steps, Hrun, Nat.ltb_irrefl in HY. destruct HY as ([b' st1] & E1 & _ & HY). injection E1 as <- <-. exact HY. }
    exists n, o, (r_forest st'). split; [|split; [|split]].
    - intros fuel. rewrite En. cbn [bind]. unfold parse_forest. rewrite feed_all_steps, Hrun. destruct (fuel <? n); [reflexivity|].
      cbn [bind]. destruct b; [now rewrite Ho1|now rewrite Ho2].
    - intros T ->. destruct (Hsnd T eq_refl) as [Hex Hall]. split; [|exact Hall].
      destruct b; [|specialize (Ho2 eq_refl); discriminate]. exact (shape_finished _ _ _ HSh (Ho1 eq_refl) Hex).
    - exact Hcomp.
    - intros Hord Htok T ->. destruct (Huniq Hord Htok) as [A B]. split; [now apply A|]. intros t Ha Ht. now apply B.
  Qed.
End Free.

Section FreeAcyclic.
  Variable P : perf.
  Variables (c : pcfg) (nsyms : nat) (w : wrapped_root) (d0 : nat) (g0 : sym).
  Variable g : dgrammar.
  Hypothesis Hleo : LEO P = false.
  Hypothesis HB : built c nsyms w d0 g0 g.
  Notation R := (c_rules c).
  Notation nall := (c_num_syms c).

  Lemma free_ends : forall locs, locs_ok nsyms nall locs -> locs <> [] ->
    exists fuel, (st <- r_new g [] ;; parse_forest free_forest P g fuel locs st) <> NoFuel.
  Proof.
    intros locs Hok Hne. destruct HB as [HP (fuel0 & maps & nulling & first & follow & Hg & HFI & HFO)].
    destruct (new_fresh P c nsyms w d0 g0 fuel0 maps nulling first follow g HP Hg) as (st0 & En & Hf & _).
    destruct (run_trees P c nsyms w d0 g0 fuel0 maps nulling first follow g Hleo HP Hg HFI HFO
       (remove_unreachable_sets P) (remove_spec P Hleo) _ st0 locs Hf ltac:(intros ? []) Hok Hne)
      as (n & b & st' & o & Hrun & Ho1 & _).
    exists n. rewrite En. cbn [bind]. unfold parse_forest. rewrite feed_all_steps, Hrun, Nat.ltb_irrefl.
    cbn [bind]. destruct b; [now rewrite Ho1|discriminate].
  Qed.

  Theorem free_trees : forall locs, locs_ok nsyms nall locs -> locs <> [] ->
    exists n o p, total n (fun fuel => st <- r_new g [] ;; parse_forest free_forest P g fuel locs st) (o, p) /\
      (forall T, o = Some T -> shape T /\ forall ts, den T ts -> exists t, ts = [t] /\ accepted c g0 locs t) /\
      (forall t, accepted c g0 locs t -> truthful c nsyms w locs t -> o <> None) /\
      (rules_sorted R -> (forall l, In l locs -> toks_ok R (l_toks l)) ->
         forall T, o = Some T -> NoDup (trees T) /\
           forall t, accepted c g0 locs t -> truthful c nsyms w locs t -> den T [t]).
  Proof. intros locs Hok Hne. exact (free_trees_any P c nsyms w d0 g0 g Hleo HB locs Hok Hne (free_ends locs Hok Hne)). Qed.
End FreeAcyclic.

(** ** Both bocages *)
Lemma cJ_start : forall fi cb0, cbocage_new fi = Ret cb0 -> cJ fi (cb_graph cb0) Idle [] cb0.
Proof.
  intros fi cb0 H. destruct (cbocage_new_at fi cb0 H) as (A & B & _). split; [auto|]. split; [|exact I]. exists []. now rewrite app_nil_r.
Qed.

Section Both.
  Variable P : perf.
  Variables (c : pcfg) (nsyms : nat) (w : wrapped_root) (d0 : nat) (g0 : sym) (g : dgrammar).
  Hypothesis Hleo : LEO P = false.
  Hypothesis HB : shaped_built c nsyms w d0 g0 g.
  Notation R := (c_rules c).
  Let HP := sb_shaped _ _ _ _ _ _ HB.

  (** what a tree read from an input that fits looks like *)
  Lemma read_fits : forall rest t, in_range c nsyms None rest \/ (exists h0, in_range c nsyms h0 rest) -> input_fits c rest ->
    tree_read c w g0 rest t ->
    (forall d, In d (tree_rules t) -> (N.of_nat d < C_NULL_ACTION)%N) /\ forall s v, In (s, v) (yield t) -> u32 s /\ u32 v.
  Proof.
    intros rest t Hr (Hn & Hl & Hv) (ys & Hc & Hi & _). pose proof HP as HP'.
    destruct (input_tree_yield c w g0 ys t Hi) as [Hp Hy].
    split.
    - intros d Hd. pose proof (tree_rules_range _ _ _ Hp _ Hd). unfold u32, C_NULL_ACTION in *. lia.
    - rewrite Hy. intros s v [E|Hin].
      + injection E as <- <-. split; [|reflexivity]. pose proof (sh_le _ _ _ _ _ HP'). destruct HP'.
        eapply u32_le; [|exact Hn]. lia.
      + assert (X : exists l, In l rest /\ In (s, v) (l_toks l)).
        { clear - Hc Hin. revert ys Hc Hin. induction rest as [|l rest IH]; intros ys Hc Hin; cbn in Hc; inversion Hc as [|? y ? ys' Hy Hys]; subst.
          - contradiction.
          - destruct Hin as [-> | Hin]; [exists l; split; [now left|auto]|]. destruct (IH _ Hys Hin) as (l' & A & B). exists l'. split; [now right|auto]. }
        destruct X as (l & A & B). split; [|eapply Hv; eauto].
        assert (Hs : s < c_num_syms c) by (destruct Hr as [[_ Hr]|[h0 [_ Hr]]]; eauto).
        eapply u32_le; [|exact Hn]. lia.
  Qed.

  (** the two parses stop after the same number of steps, find a node for the same
      inputs, and under it the same trees *)
  Theorem both_trees_any : forall fi fi' b0 cb0, bocage_new fi = Ret b0 -> cbocage_new fi' = Ret cb0 ->
    forall h0 rest, in_range c nsyms h0 rest ->
    (exists fuel, (st <- r_new g [] ;; parse_forest free_forest P g fuel (from_start w h0 rest) st) <> NoFuel) ->
    exists n r r' l,
      total n (fun fuel => st <- r_new g b0 ;; parse_forest simple_forest P g fuel (from_start w h0 rest) st) r /\
      total n (fun fuel => st <- r_new g cb0 ;; parse_forest compact_forest P g fuel (from_start w h0 rest) st) r' /\
      (fst r = None <-> fst r' = None) /\ finished_trees r l /\
      (input_fits c rest -> graph_fits (snd r') 0 -> exists l', cfinished_trees r' l' /\ Permutation l l').
  Proof.
    intros fi fi' b0 cb0 Hb Hcb h0 rest Hr Hends.
    destruct (free_trees_any P c nsyms w d0 g0 g Hleo HB (from_start w h0 rest)) as (n & o & p & A & Hsh & _).
    { now apply (from_start_ok c nsyms w d0 g0 HP). }
    { discriminate. }
    { exact Hends. }
    destruct (new_at fi b0 Hb) as (Hi0 & Hc0 & _).
    assert (HJ : sJ fi (b_graph b0) Idle [] b0).
    { split; [exact Hi0|]. split; [|exact Hc0]. exists []. rewrite app_nil_r. now apply done_idle. }
    destruct (total_transfer _ _ _ _ (simple_sim fi (b_graph b0)) P g n _ _ _ _ HJ A) as ([os b] & As & HJs & Hs).
    destruct (total_transfer _ _ _ _ (compact_sim fi' (cb_graph cb0)) P g n _ _ _ _ (cJ_start fi' cb0 Hcb) A) as ([oc cb] & Ac & _ & Hc).
    cbn [fst snd] in *. destruct o as [T|].
    - destruct os as [h|]; [|contradiction]. destruct oc as [h'|]; [|contradiction].
      destruct (Hsh T eq_refl) as [Sh Hd]. destruct HJs as (_ & _ & Hcnt).
      unfold sQ in Hs. rewrite done_idle in Hs by exact Hcnt. destruct (srep_represents _ _ _ Sh Hs) as (l & Hl & Pl).
      exists n, (Some h, b), (Some h', cb), l. split; [exact As|]. split; [exact Ac|]. cbn [fst snd].
      split; [split; discriminate|]. split; [exact Hl|]. intros Hfit Hg. exists (trees T). split; [|exact Pl].
      unfold cfinished_trees. cbn [fst snd]. apply crep_represents; [auto|]. apply Hc.
      + apply shape_small; [auto|]. intros ts t Hts Ht. destruct (Hd ts Hts) as (t' & -> & Ha). destruct Ht as [<-|[]].
        apply (from_start_accepted c nsyms w d0 g0 HP) in Ha. apply (read_fits rest); eauto.
      + unfold graph_fits in Hg. now rewrite Nat.add_0_r in Hg.
    - destruct os as [h|]; [contradiction|]. destruct oc as [h'|]; [contradiction|].
      exists n, (None, b), (None, cb), []. split; [exact As|]. split; [exact Ac|]. cbn [fst snd]. split; [tauto|].
      split; [reflexivity|]. intros _ _. exists []. split; [reflexivity|constructor].
  Qed.

  (** ** The value of an unambiguous input *)
  Variable cb0 : cbocage.
  Notation fi := (g_forest_info g).
  Hypothesis Hcb0 : cbocage_new fi = Ret cb0.
  Context {E : Type}.
  Variables (ev : evaluator E) (nv : sym -> E) (nulls : sym -> list E).
  Hypothesis Hpush : pushes ev nv.
  Hypothesis Hnulls : nulls_ok fi nv nulls.
  Hypothesis Hac : nulling_acyclic fi.

  Theorem compact_value_any : forall use xs, (forall s v, In (s, v) xs -> user_terminal c nsyms w s) -> sorted_rules c ->
    (exists fuel, (st <- r_new g [] ;; parse_forest free_forest P g fuel (hinted use 0 ((w_sof w, 0) :: xs)) st) <> NoFuel) ->
    forall t0, (forall t, input_tree c w g0 xs t <-> t = t0) -> input_fits c (hinted use 1 xs) ->
    exists n h b, total n (fun fuel => st <- r_new g cb0 ;; parse_forest compact_forest P g fuel (hinted use 0 ((w_sof w, 0) :: xs)) st) (Some h, b) /\
      forall k, graph_fits b (k * (9 * inner_nodes t0)) ->
        exists fuel0 b', forall fuel, fuel0 <= fuel -> c_evaluate_each ev fuel (repeat h k) b =
          Ret (repeat (match t0 with
                       | Node _ [_; t] => value ev fi nulls t
                       | _ => []
                       end) k, b').
  Proof.
    intros use xs Hu Hord Hends t0 Ht0 Hfit. rewrite hinted_from_start in *.
    assert (Hx : forall s v, In (s, v) xs -> s < nsyms /\ terminal R s).
    { intros s v H. destruct (Hu s v H) as (X & Y & _). auto. }
    pose proof (hinted_in_range c nsyms w d0 g0 HP use xs Hx) as Hr. set (h0 := if use 0 then _ else _) in *.
    destruct (free_trees_any P c nsyms w d0 g0 g Hleo HB (from_start w h0 (hinted use 1 xs))) as (n & o & p & A & Hsh & Hnn & Huniq).
    { now apply (from_start_ok c nsyms w d0 g0 HP). }
    { discriminate. }
    { exact Hends. }
    assert (Acc : accepted c g0 (from_start w h0 (hinted use 1 xs)) t0).
    { apply (from_start_accepted c nsyms w d0 g0 HP). apply hinted_read. now apply Ht0. }
    assert (Tru : truthful c nsyms w (from_start w h0 (hinted use 1 xs)) t0).
    { apply from_start_truthful. apply (hinted_match c nsyms w g0); [auto|]. now apply Ht0. }
    destruct o as [T|]; [|now elim (Hnn t0 Acc Tru)].
    destruct (Hsh T eq_refl) as [Sh Hd].
    destruct (Huniq Hord (from_start_toks c nsyms w d0 g0 HP h0 _ (hinted_distinct c nsyms use xs 1 Hx)) T eq_refl) as [Hnd Hall].
    specialize (Hall t0 Acc Tru).
    assert (Only : forall ts, In ts (trees T) -> ts = [t0] /\ exists ys, input_tree c w g0 ys t0).
    { intros ts Hts. apply trees_den in Hts. destruct (Hd ts Hts) as (t & -> & Ht). apply (from_start_accepted c nsyms w d0 g0 HP) in Ht.
      apply (hinted_read c w g0) in Ht. pose proof Ht as Ht'. apply Ht0 in Ht. subst t. eauto. }
    assert (ET : trees T = [[t0]]).
    { apply trees_den in Hall. destruct (trees T) as [|a [|a' l]]; [destruct Hall| |].
      - destruct (Only a (or_introl eq_refl)) as [-> _]. reflexivity.
      - exfalso. destruct (Only a (or_introl eq_refl)) as [-> _]. destruct (Only a' (or_intror (or_introl eq_refl))) as [-> _].
        inversion Hnd as [|? ? X _]; subst. apply X. now left. }
    assert (Hroot : forall ts, den T ts -> exists t ys, ts = [t] /\ input_tree c w g0 ys t).
    { intros ts Hts. apply trees_den in Hts. destruct (Only ts Hts) as (-> & ys & Hy). eauto. }
    destruct (cbocage_new_at fi cb0 Hcb0) as (Hi0 & _ & Hlim & Hat0).
    destruct (total_transfer _ _ _ _ (compact_sim fi (cb_graph cb0)) P g n _ _ _ _ (cJ_start fi cb0 Hcb0) A) as ([[h|] b] & Ac & HJ & Hc); [|contradiction].
    cbn [fst snd] in *. destruct HJ as (Hib & (x & Hgx) & _). exists n, h, b. split; [exact Ac|]. intros k Hg.
    assert (Hgb : u32 (length (cb_graph b))) by (eapply u32_le; [|exact Hg]; lia).
    assert (Sm : small T).
    { apply shape_small; [auto|]. intros ts t Hts Ht. apply trees_den in Hts. rewrite ET in Hts. destruct Hts as [<-|[]]. destruct Ht as [<-|[]].
      apply (read_fits (hinted use 1 xs)); [eauto|auto|]. apply hinted_read. now apply Ht0. }
    specialize (Hc Sm Hgb).
    destruct (info c nsyms w d0 g0 g HB) as (I1 & I2 & I3).
    assert (Hf : fok fi T).
    { apply shape_fok; [auto|]. intros ts t Hts Ht d Hin. rewrite I1, map_length. destruct (Hroot _ Hts) as (t' & ys & -> & Hy).
      destruct Ht as [<-|[]]. apply input_tree_yield in Hy. destruct Hy as [Hy _]. eapply tree_rules_range; eauto. }
    assert (Hat : forall s, s < nulling_symbol_count fi + 1 -> cnulling_at (cb_graph b) s (nulled_rhs fi s)).
    { intros s Hs. rewrite Hgx. apply cnulling_at_app. apply Hat0; [|auto]. eapply u32_le; [|exact Hgb]. rewrite Hgx, app_length. lia. }
    destruct (root_form c w g0 T Sh Hroot) as (s & alts & -> & Ha).
    cbn [trees] in ET. apply flat_map_length1 in ET.
    2:{ apply shape_sum in Sh. destruct Sh as [_ Sh]. rewrite Forall_forall in Sh. intros a Ha' Hn'. apply map_eq_nil in Hn'.
        now apply (shape_trees (snd a)); [apply Sh|]. }
    destruct ET as ([d1 T1] & -> & ET). apply map_single in ET. destruct ET as (zs & Ez & Hz). cbn [fst snd] in *.
    injection Hz as <-. apply crep_sum in Hc. destruct Hc as (start & e & Eh & Cb & Cc & _). cbn [length Nat.eqb cchain fst snd] in *.
    destruct Cc as (f & sz & C1 & C2 & _). subst h.
    apply fok_sum in Hf. destruct Hf as [_ Hf]. inversion Hf as [|? ? [Hf1 _] _]; subst. cbn [fst snd] in Hf1.
    apply small_sum in Sm. inversion Sm as [|? ? [Hd1 Sm1] _]; subst. cbn [fst snd] in *.
    apply shape_sum in Sh. destruct Sh as [_ Sh]. inversion Sh as [|? ? Sh1 _]; subst. cbn [snd] in Sh1.
    destruct (Ha _ (or_introl eq_refl)) as [Ea|(X & Ea)]; cbn [snd] in Ea; subst T1.
    - (* the empty input *)
      injection Ez as <-. cbn [crep] in C2.
      assert (Hsk : c_skip_wrapper b (start + 1) = Ret None).
      { unfold c_skip_wrapper. rewrite C1. cbn [bind]. rewrite Nat2N.id, C2. reflexivity. }
      exists 0, b. intros fuel _. unfold c_evaluate_each.
      assert (G : forall out, foldM (fun st root => let '(out, b) := st in '(vs, b) <- c_evaluate ev fuel b root ;; Ret (out ++ [vs], b)) (repeat (start + 1) k) (out, b)
          = Ret (out ++ repeat [] k, b)).
      { clear Hg. induction k as [|k IH]; intros out; cbn [repeat foldM]; [now rewrite app_nil_r|].
        unfold c_evaluate at 1. rewrite Hsk. cbn [bind]. rewrite IH. now rewrite <- app_assoc. }
      apply (G []).
    - (* a tree below the wrapper *)
      cbn [crep] in C2. destruct C2 as (a & bb & E2 & E3 & CX).
      cbn [shape fok small] in *. destruct Sh1 as [_ ShX]. destruct Hf1 as [_ HfX]. destruct Sm1 as [_ SmX].
      cbn [trees flat_map app] in Ez. rewrite app_nil_r in Ez. apply map_single in Ez. destruct Ez as (ys & Eys & Hys).
      assert (Lys : exists t, ys = [t]).
      { destruct (Ht0 (Node d1 zs)) as [_ Ht]. specialize (Ht eq_refl).
        assert (L2 : length zs = 2 \/ length zs = 1) by (inversion Ht; subst; cbn; auto).
        assert (Ly : 1 <= length ys).
        { pose proof (trees_length X ys) as L. rewrite Eys in L. specialize (L (or_introl eq_refl)). destruct (is_fprod X); lia. }
        rewrite <- Hys in L2. cbn in L2. destruct ys as [|y [|y' ys]]; cbn in *; try lia. eauto. }
      destruct Lys as (t & ->). subst zs. cbn [app].
      destruct (crep_value ev fi nv nulls Hnulls Hac Hlim (cb_graph b) Hat X bb CX ShX HfX SmX) as (cst & Lc & V).
      destruct (cfev_unambiguous ev fi nulls Hlim X [t] ShX Eys) as [Ev Lc'].
      rewrite Ev, (unambiguous_value ev fi nulls X [t] ShX Eys) in V. cbn [flat_map] in V. rewrite app_nil_r in V.
      assert (Lk : k * cst <= k * (9 * inner_nodes (Node d1 [Leaf (w_sof w) 0; t]))).
      { apply Nat.mul_le_mono_l. cbn [inner_nodes map list_sum fold_right] in *. lia. }
      destruct (c_evaluate_each_value ev fi nv Hpush (cb_graph b) (start + 1) (value ev fi nulls t) cst k b []) as (fuel0 & b' & H).
      + exact Hib.
      + now rewrite app_nil_r.
      + exists bb. split; [|exact V]. unfold c_skip_wrapper, below_sof. rewrite C1. cbn [bind]. rewrite Nat2N.id, E2. cbn [bind].
        rewrite Nat2N.id, E3. cbn [bind]. rewrite Hib, I2, Nat2N.id, Nat.eqb_refl. cbn [assert bind]. now rewrite Nat2N.id.
      + eapply u32_le; [|exact Hg]. lia.
      + eauto.
  Qed.
End Both.

Section BothAcyclic.
  Variable P : perf.
  Variables (c : pcfg) (nsyms : nat) (w : wrapped_root) (d0 : nat) (g0 : sym) (g : dgrammar).
  Hypothesis Hleo : LEO P = false.
  Hypothesis HB : built c nsyms w d0 g0 g.
  Notation R := (c_rules c).
  Let HP := b_processed _ _ _ _ _ _ HB.

  Theorem both_trees : forall fi fi' b0 cb0, bocage_new fi = Ret b0 -> cbocage_new fi' = Ret cb0 ->
    forall h0 rest, in_range c nsyms h0 rest ->
    exists n r r' l,
      total n (fun fuel => st <- r_new g b0 ;; parse_forest simple_forest P g fuel (from_start w h0 rest) st) r /\
      total n (fun fuel => st <- r_new g cb0 ;; parse_forest compact_forest P g fuel (from_start w h0 rest) st) r' /\
      (fst r = None <-> fst r' = None) /\ finished_trees r l /\
      (input_fits c rest -> graph_fits (snd r') 0 -> exists l', cfinished_trees r' l' /\ Permutation l l').
  Proof.
    intros fi fi' b0 cb0 Hb Hcb h0 rest Hr. apply (both_trees_any P c nsyms w d0 g0 g Hleo HB fi fi' b0 cb0 Hb Hcb h0 rest Hr).
    apply (free_ends P c nsyms w d0 g0 g Hleo HB); [now apply (from_start_ok c nsyms w d0 g0 HP)|discriminate].
  Qed.

  (** ** The value of an unambiguous input *)
  Variable cb0 : cbocage.
  Notation fi := (g_forest_info g).
  Hypothesis Hcb0 : cbocage_new fi = Ret cb0.
  Context {E : Type}.
  Variables (ev : evaluator E) (nv : sym -> E) (nulls : sym -> list E).
  Hypothesis Hpush : pushes ev nv.
  Hypothesis Hnulls : nulls_ok fi nv nulls.
  Hypothesis Hac : nulling_acyclic fi.

  Theorem compact_value : forall use xs, (forall s v, In (s, v) xs -> user_terminal c nsyms w s) -> sorted_rules c ->
    forall t0, (forall t, input_tree c w g0 xs t <-> t = t0) -> input_fits c (hinted use 1 xs) ->
    exists n h b, total n (fun fuel => st <- r_new g cb0 ;; parse_forest compact_forest P g fuel (hinted use 0 ((w_sof w, 0) :: xs)) st) (Some h, b) /\
      forall k, graph_fits b (k * (9 * inner_nodes t0)) ->
        exists fuel0 b', forall fuel, fuel0 <= fuel -> c_evaluate_each ev fuel (repeat h k) b =
          Ret (repeat (match t0 with
                       | Node _ [_; t] => value ev fi nulls t
                       | _ => []
                       end) k, b').
  Proof.
    intros use xs Hu Hord. apply (compact_value_any P c nsyms w d0 g0 g Hleo HB cb0 Hcb0 ev nv nulls Hpush Hnulls Hac use xs Hu Hord).
    rewrite hinted_from_start. apply (free_ends P c nsyms w d0 g0 g Hleo HB); [|discriminate]. apply (from_start_ok c nsyms w d0 g0 HP).
    apply (hinted_in_range c nsyms w d0 g0 HP). intros s v H. destruct (Hu s v H) as (X & Y & _). auto.
  Qed.
End BothAcyclic.

Theorem same_value : forall P c nsyms w d0 g0 g, LEO P = false -> built c nsyms w d0 g0 g ->
  forall b0 cb0, bocage_new (g_forest_info g) = Ret b0 -> cbocage_new (g_forest_info g) = Ret cb0 ->
  forall E (ev : evaluator E) nv nulls,
  pushes ev nv -> nulls_ok (g_forest_info g) nv nulls -> nulling_acyclic (g_forest_info g) ->
  forall use xs, xs <> [] -> (forall s v, In (s, v) xs -> user_terminal c nsyms w s) -> sorted_rules c ->
  forall t0, (forall t, input_tree c w g0 xs t <-> t = t0) -> input_fits c (hinted use 1 xs) ->
  exists n h b h' b',
    total n (fun fuel => st <- r_new g b0 ;; parse_forest simple_forest P g fuel (hinted use 0 ((w_sof w, 0) :: xs)) st) (Some h, b) /\
    total n (fun fuel => st <- r_new g cb0 ;; parse_forest compact_forest P g fuel (hinted use 0 ((w_sof w, 0) :: xs)) st) (Some h', b') /\
    forall k, graph_fits b' (k * (9 * inner_nodes t0)) ->
      exists fuel0 vs b1 b1', forall fuel, fuel0 <= fuel ->
        evaluate_each ev fuel (repeat h k) b = Ret (vs, b1) /\ c_evaluate_each ev fuel (repeat h' k) b' = Ret (vs, b1').
Proof.
  intros P c nsyms w d0 g0 g Hleo HB b0 cb0 Hb Hcb E ev nv nulls Hpush Hnulls Hac use xs Hne Hu Hord t0 Ht0 Hfit.
  destruct (P_value P c nsyms w d0 g0 g Hleo HB b0 Hb ev nv nulls Hpush Hnulls Hac use xs Hu Hord t0 Ht0) as (n & h & b & A & B).
  destruct (compact_value P c nsyms w d0 g0 g Hleo HB cb0 Hcb ev nv nulls Hpush Hnulls Hac use xs Hu Hord t0 Ht0 Hfit) as (n' & h' & b' & A' & B').
  assert (En : n = n').
  { pose proof (b_processed _ _ _ _ _ _ HB) as HP.
    assert (Hr : in_range c nsyms (if use 0 then hd_error (map fst xs) else None) (hinted use 1 xs)).
    { apply (hinted_in_range c nsyms w d0 g0 HP). intros s v H. destruct (Hu s v H) as (X & Y & _). auto. }
    destruct (both_trees P c nsyms w d0 g0 g Hleo HB _ _ b0 cb0 Hb Hcb _ _ Hr) as (m & r & r' & l & C & D & _).
    rewrite <- hinted_from_start in C, D.
    assert (Tn : forall X (f : nat -> res X) n1 n2 r1 r2, total n1 f r1 -> total n2 f r2 -> n1 = n2).
    { clear. intros X f n1 n2 r1 r2 H1 H2. destruct (Nat.lt_trichotomy n1 n2) as [H|[H|H]]; [|exact H|]; exfalso.
      - pose proof (H1 n1) as X1. rewrite (H2 n1), Nat.ltb_irrefl in X1. apply Nat.ltb_lt in H. rewrite H in X1. discriminate.
      - pose proof (H1 n2) as X1. rewrite (H2 n2), Nat.ltb_irrefl in X1. apply Nat.ltb_lt in H. rewrite H in X1. discriminate. }
    rewrite (Tn _ _ _ _ _ _ A C). symmetry. exact (Tn _ _ _ _ _ _ A' D). }
  subst n'. exists n, h, b, h', b'. split; [exact A|]. split; [exact A'|]. intros k Hk.
  destruct (B k) as (f1 & b1 & H1). destruct (B' k Hk) as (f2 & b2 & H2).
  assert (Hi : exists d t, t0 = Node d [Leaf (w_sof w) 0; t]).
  { destruct (Ht0 t0) as [_ Hi]. specialize (Hi eq_refl). inversion Hi; subst; eauto. contradiction. }
  destruct Hi as (d & t & ->). exists (Nat.max f1 f2). do 3 eexists. intros fuel Hf. split; [apply H1; lia|apply H2; lia].
Qed.

Theorem both_answers : forall fi fi' b0 cb0, bocage_new fi = Ret b0 -> cbocage_new fi' = Ret cb0 ->
  forall P g fuel cs, answers simple_forest P g fuel b0 cs = answers compact_forest P g fuel cb0 cs.
Proof.
  intros fi fi' b0 cb0 Hb Hcb P g fuel cs. apply (answers_independent _ _ _ _ simple_forest compact_forest simple_ok compact_ok).
  - exact simple_usable.
  - exact compact_usable.
  - destruct (new_at fi b0 Hb) as (_ & Hc & _). exact Hc.
  - exact I.
Qed.
