(** PropLemmas6: inspecting the recognizer between locations, in the form in which
    PropsProbe.v states it. *)
From Coq Require Import List Arith Bool Lia Sorted.
From Verif Require Import Base BaseProofs Vec2d Vec2dProofs Item Grammar BitMatrix DefaultGrammar Forest ForestSpec Recognizer Drive ClientSpec
  Spec SpecFacts Chart ChartFacts ChartSpec CfgSpec Tables TablesProofs Den Core1 Core2 Core3 Core4 Core5 Core6
  Recog Sim RecogAny RecogFacts PredFacts GroupSpec PropLemmas5 ProbeSpec Probe Dead.
Import ListNotations.
Local Open Scope res_scope.

Section T.
  Context {F N : Type}.
  Variable fo : forest_ops F N.
  Variable f0 : F.
  Variable P : perf.
  Variables (c : pcfg) (nsyms : nat) (w : wrapped_root) (d0 : nat) (g0 : sym).
  Variable g : dgrammar.
  Hypothesis HC : configured fo f0 P c nsyms w d0 g0 g.
  Notation R := (c_rules c).
  Notation root := (w_root w).

  (** the state reached by reading any locations *)
  Lemma reached : forall locs, locs_ok nsyms (c_num_syms c) locs ->
    forall fuel st0 st', r_new g f0 = Ret st0 -> feed_all fo P g fuel locs st0 = Ret (true, st') ->
    exists ok first follow sd st1 pos, usable fo ok /\ first_sets_cover c first /\ follow_sets_cover c root follow /\
      (forall j s, ~ sd j s) /\ mate ok st1 st' /\
      Core4.Inv P R nsyms (first_of first) (follow_of follow) root (env_of locs sd) (fun _ => False) (length locs) pos st1.
  Proof.
    intros locs Hok fuel st0 st' En Hf. destruct HC as [(ok & HU & Hf0) Hleo HB].
    destruct (new_start (N := N) ok P c nsyms w d0 g0 g HB f0 Hf0) as (st0' & En' & Hst & _).
    rewrite En in En'. injection En' as <-.
    destruct locs as [|l0 locs].
    - simpl in Hf. injection Hf as <-. destruct Hst as (st1 & first & follow & HFI & HFO & _ & Hfr & Hm).
      exists ok, first, follow, no_seed, st1, [0].
      split; [exact HU|]. split; [auto|]. split; [auto|]. split; [intros j s []|]. split; [auto|]. exact Hfr.
    - destruct (run_any fo ok HU P c nsyms w d0 g0 g Hleo HB _ st0 (l0 :: locs) Hst ltac:(intros s []) Hok ltac:(discriminate))
        as (n & b & sd & first & follow & HFI & HFO & HsdZ & Hsd0 & Hb & Hlow & fin & _ & Hhigh).
      destruct (Nat.lt_ge_cases fuel n) as [Hl|Hl]; [rewrite (Hlow _ Hl) in Hf; discriminate|].
      destruct (Hhigh fuel Hl) as (st1 & st2 & E2 & Hm & _ & Hx2). rewrite Hf in E2. injection E2 as <- <-.
      destruct (Hx2 eq_refl) as (_ & _ & pos & HI).
      exists ok, first, follow, sd, st1, pos.
      split; [exact HU|]. split; [auto|]. split; [auto|]. split; [|auto].
      intros [|j] s X; [now apply (Hsd0 s)|now apply HsdZ in X].
  Qed.

  Lemma P_trace : forall locs, (forall l, In l locs -> acceptable c nsyms l) ->
    forall fuel st0 st', r_new g f0 = Ret st0 -> feed_all fo P g fuel locs st0 = Ret (true, st') ->
    exists e preds items l1 l2,
      earleme (begin_earleme P st') = Some e /\ predicted_symbols (begin_earleme P st') = Ret preds /\
      medial_items (begin_earleme P st') = Ret items /\ trace g (begin_earleme P st') = Ret (l1 ++ l2) /\
      Forall2 (fun s x => prediction_record c s (fst x) /\ snd x = e) preds l1 /\
      Forall2 (fun it x => medial_record c (it_dot it) (fst x) /\ snd x = it_origin it) items l2.
  Proof.
    intros locs Ha fuel st0 st' En Hf.
    destruct (reached locs (acceptable_ok _ _ _ Ha) fuel st0 st' En Hf) as (ok & first & follow & sd & st1 & pos & HU & HFI & HFO & Hsd & Hm & HI).
    destruct HC as [_ Hleo HB].
    destruct (probe ok P c nsyms w Hleo _ _ _ _ _ _ _ _ HI Hm) as (preds & items & _ & Ee & Ep & Ei & Hp & Hi & _).
    destruct (trace_spec c nsyms w d0 g0 g HB (begin_earleme P st') _ preds items Ee Ep Ei) as (l1 & l2 & Et & F1 & F2).
    - intros s Hs. now apply Hp.
    - intros it Hit. destruct (proj1 (Hi (it_dot it) (it_origin it))) as (i & _ & t & Ht); [eauto|].
      destruct (Med_rule _ _ _ _ _ _ _ _ _ _ _ _ _ _ Ht) as (r & _ & _ & Hr & _). eauto.
    - exists (length pos - 1), preds, items, l1, l2. auto 10.
  Qed.

  Lemma sorted_index : forall (pos : list nat) b k n, Forall (le b) pos -> StronglySorted lt pos -> nth_error pos k = Some n -> b + k <= n.
  Proof.
    clear. induction pos as [|p pos IH]; intros b k n Hb Hs Hn; [destruct k; discriminate|].
    apply StronglySorted_inv in Hs. destruct Hs as [Hs Hf]. inversion Hb; subst.
    destruct k as [|k]; [injection Hn as <-; lia|]. simpl in Hn.
    assert (S b + k <= n); [|lia]. apply (IH (S b) k n); auto.
    apply Forall_forall. intros x Hx. rewrite Forall_forall in Hf. specialize (Hf x Hx). lia.
  Qed.

  Lemma sorted_len : forall (pos : list nat) n, StronglySorted lt pos -> nth_error pos (length pos - 1) = Some n -> length pos - 1 <= n.
  Proof.
    intros pos n Hs Hn. apply (sorted_index pos 0 _ _ ) in Hn; auto. apply Forall_forall. intros; lia.
  Qed.

  Section Plain.
    Variable Ws : list (list (sym * nat)).
    Hypothesis HWs : forall ts s v, In ts Ws -> In (s, v) ts -> user_terminal c nsyms w s.
    Notation Us := ([(w_sof w, 0)] :: Ws).

    Lemma plain_tokens : forall ts s v, In ts Us -> In (s, v) ts -> s < nsyms /\ s <> root.
    Proof.
      destruct HC as [_ _ [HP _]]. pose proof (sof_not_root c nsyms w d0 g0 HP) as Hs.
      intros ts s v [<-|Hin] Ht.
      - destruct Ht as [E|[]]. injection E as <- _. split; [now destruct HP|auto].
      - destruct (HWs _ _ _ Hin Ht) as (A & B & _). split; [auto|]. intros ->.
        now apply (root_not_terminal c nsyms w d0 g0 HP).
    Qed.

    Lemma plain_ok : locs_ok nsyms (c_num_syms c) (map overlapping Us).
    Proof.
      intros l Hl. apply in_map_iff in Hl. destruct Hl as (ts & <- & Hin). cbn. split; [exact I|].
      intros s v Ht. destruct (plain_tokens _ _ _ Hin Ht) as [A _]. destruct HC as [_ _ [HP _]]. pose proof (pr_le _ _ _ _ _ HP).
      unfold sym in *. lia.
    Qed.

    Lemma P_chart : forall fuel st0 st', r_new g f0 = Ret st0 ->
      feed_all fo P g fuel (read_start w :: map overlapping Ws) st0 = Ret (true, st') ->
      exists pos preds items, held pos (length Us) /\
        earleme (begin_earleme P st') = Some (length pos - 1) /\
        predicted_symbols (begin_earleme P st') = Ret preds /\ medial_items (begin_earleme P st') = Ret items /\
        (forall s, In s preds <-> s < nsyms /\ awaited c w Us s) /\
        (forall d o, (exists it, In it items /\ it_dot it = d /\ it_origin it = o) <->
           exists i, nth_error pos o = Some i /\ begun c w Us d i) /\
        (forall d i, begun c w Us d i -> exists o, nth_error pos o = Some i).
    Proof.
      intros fuel st0 st' En Hf. change (read_start w :: map overlapping Ws) with (map overlapping Us) in Hf.
      destruct (reached _ plain_ok fuel st0 st' En Hf) as (ok & first & follow & sd & st1 & pos & HU & HFI & HFO & Hsd & Hm & HI).
      destruct HC as [_ Hleo HB]. rewrite map_length in HI.
      destruct (probe ok P c nsyms w Hleo _ _ _ _ _ _ _ _ HI Hm) as (preds & items & Hh & Ee & Ep & Ei & Hp & Hi & Ho).
      exists pos, preds, items. split; [auto|]. split; [auto|]. split; [auto|]. split; [auto|].
      assert (HR : forall ts s v, In ts Us -> In (s, v) ts -> s <> root) by (intros; eapply plain_tokens; eauto).
      split.
      - intros s. rewrite Hp. split; intros [A B]; (split; [auto|]);
          apply (over_pred P c nsyms w d0 g0 g HB first follow HFI HFO Us sd s Hsd HR A); auto.
      - split; [|intros d i Hb; apply (over_med P c nsyms w d0 g0 g HB first follow HFI HFO Us sd d i Hsd HR) in Hb; destruct Hb; eauto].
        intros d o. rewrite Hi. split; intros (i & A & B); exists i; (split; [auto|]);
          apply (over_med P c nsyms w d0 g0 g HB first follow HFI HFO Us sd d i Hsd HR); auto.
    Qed.

    Lemma P_trace_exact : forall fuel st0 st', r_new g f0 = Ret st0 ->
      feed_all fo P g fuel (read_start w :: map overlapping Ws) st0 = Ret (true, st') ->
      exists pos l, held pos (length Us) /\ trace g (begin_earleme P st') = Ret l /\
        (forall s, s < nsyms -> awaited c w Us s -> exists t, prediction_record c s t /\ In (t, length pos - 1) l) /\
        (forall d i, begun c w Us d i -> exists o t, nth_error pos o = Some i /\ medial_record c d t /\ In (t, o) l) /\
        (forall t o, In (t, o) l ->
           (exists s, s < nsyms /\ awaited c w Us s /\ prediction_record c s t /\ o = length pos - 1) \/
           (exists d i, nth_error pos o = Some i /\ begun c w Us d i /\ medial_record c d t)).
    Proof.
      intros fuel st0 st' En Hf. destruct (P_chart fuel st0 st' En Hf) as (pos & preds & items & Hh & Ee & Ep & Ei & Hp & Hi & Hheld).
      assert (HB : built c nsyms w d0 g0 g) by (destruct HC; auto).
      destruct (trace_spec c nsyms w d0 g0 g HB (begin_earleme P st') _ preds items Ee Ep Ei) as (l1 & l2 & Et & F1 & F2).
      - intros s Hs. now apply Hp.
      - intros it Hit. destruct (proj1 (Hi (it_dot it) (it_origin it))) as (i & _ & r & B & C & xs & ys & v & Hr & _); eauto.
      - exists pos, (l1 ++ l2). split; [auto|]. split; [auto|]. split; [|split].
        + intros s Hs Ha. assert (Hin : In s preds) by (apply Hp; auto).
          clear - F1 Hin. induction F1 as [|s' x preds l1 (A & B) _ IH]; [destruct Hin|].
          destruct Hin as [->|Hin].
          * exists (fst x). split; [auto|]. left. destruct x. cbn in *. congruence.
          * destruct (IH Hin) as (t & A' & B'). exists t. split; [auto|]. right. exact B'.
        + intros d i Hb.
          destruct (Hheld d i Hb) as (o & Ho). destruct (proj2 (Hi d o)) as (it & Hin & <- & <-); [eauto|].
          clear - F2 Hin Ho. exists (it_origin it). induction F2 as [|it' x items l2 (A & B) _ IH]; [destruct Hin|].
          destruct Hin as [->|Hin].
          * exists (fst x). split; [auto|]. split; [auto|]. apply in_app_iff. right. left. destruct x. cbn in *. congruence.
          * destruct (IH Hin) as (t & A' & B' & C'). exists t. split; [auto|]. split; [auto|].
            apply in_app_iff in C'. apply in_app_iff. destruct C'; [auto|right; now right].
        + intros t o Hin. apply in_app_iff in Hin. destruct Hin as [Hin|Hin].
          * left. assert (X : exists s, In s preds /\ prediction_record c s t /\ o = length pos - 1).
            { clear - F1 Hin. induction F1 as [|s x preds l1 (A & B) _ IH]; [destruct Hin|]. destruct Hin as [->|Hin].
              - exists s. split; [now left|]. auto.
              - destruct (IH Hin) as (s' & A' & B'). exists s'. split; [now right|auto]. }
            destruct X as (s & Hs & X1 & X2). apply Hp in Hs. destruct Hs. exists s. auto.
          * right. assert (X : exists it, In it items /\ medial_record c (it_dot it) t /\ o = it_origin it).
            { clear - F2 Hin. induction F2 as [|s x items l2 (A & B) _ IH]; [destruct Hin|]. destruct Hin as [->|Hin].
              - exists s. split; [now left|]. auto.
              - destruct (IH Hin) as (s' & A' & B'). exists s'. split; [now right|auto]. }
            destruct X as (it & Hit & X1 & ->). destruct (proj1 (Hi (it_dot it) (it_origin it))) as (i & Hi1 & Hi2); [eauto|].
            exists (it_dot it), i. auto.
    Qed.

    Lemma P_expected : forall fuel st0 st', r_new g f0 = Ret st0 ->
      feed_all fo P g fuel (read_start w :: map overlapping Ws) st0 = Ret (true, st') ->
      exists l, expected_terminals g (begin_earleme P st') = Ret l /\
        (forall s, In s l <-> exists d i r B, begun c w Us d i /\ nth_error R d = Some r /\ p_rhs r = [B; s]) /\
        (forall s, In s l -> awaited c w Us s).
    Proof.
      intros fuel st0 st' En Hf. destruct (P_chart fuel st0 st' En Hf) as (pos & preds & items & Hh & Ee & Ep & Ei & Hp & Hi & Hheld).
      assert (HB : built c nsyms w d0 g0 g) by (destruct HC; auto).
      destruct (expected_spec c nsyms w d0 g0 g HB (begin_earleme P st') items Ei) as (l & El & HF).
      { intros it Hit. destruct (proj1 (Hi (it_dot it) (it_origin it))) as (i & _ & r & B & C & xs & ys & v & Hr & Er & _); eauto. }
      assert (X : forall s, In s l <-> exists d i r B, begun c w Us d i /\ nth_error R d = Some r /\ p_rhs r = [B; s]).
      { intros s. split.
        - intros Hin. assert (Y : exists it r B, In it items /\ nth_error R (it_dot it) = Some r /\ p_rhs r = [B; s]).
          { clear - HF Hin. induction HF as [|it x items l (r & B & H1 & H2) _ IH]; [destruct Hin|]. destruct Hin as [->|Hin].
            - exists it, r, B. split; [now left|auto].
            - destruct (IH Hin) as (it' & r' & B' & A & A'). exists it', r', B'. split; [now right|auto]. }
          destruct Y as (it & r & B & Hit & Hr & Er). destruct (proj1 (Hi (it_dot it) (it_origin it))) as (i & _ & Hb); [eauto|].
          exists (it_dot it), i, r, B. auto.
        - intros (d & i & r & B & Hb & Hr & Er). destruct (Hheld d i Hb) as (o & Ho).
          destruct (proj2 (Hi d o)) as (it & Hit & Ed & _); [eauto|].
          clear - HF Hit Ed Hr Er. induction HF as [|it' x items l (r' & B' & H1 & H2) _ IH]; [destruct Hit|]. destruct Hit as [->|Hit].
          + left. rewrite Ed, Hr in H1. injection H1 as <-. congruence.
          + right. auto. }
      exists l. split; [auto|]. split; [auto|].
      intros s Hs. apply X in Hs. destruct Hs as (d & i & r & B & (r' & B' & C & xs & ys & v & Hr & Er & Hch & Hl & Hd & HdB) & Hr' & Er').
      rewrite Hr in Hr'. injection Hr' as <-. rewrite Er in Er'. injection Er' as <- <-.
      exists (xs ++ ys), v. split; [auto|]. rewrite map_app, <- app_assoc.
      change (map fst ys ++ C :: v) with (map fst ys ++ [C] ++ v). rewrite (app_assoc (map fst ys)).
      apply (derives_replace R _ _ _ _ _ Hd). apply derives_rule; [now apply nth_error_In in Hr|]. rewrite Er.
      constructor; [auto|]. apply derives_seq_self.
    Qed.
  End Plain.

  Lemma P_earleme : forall locs, (forall l, In l locs -> acceptable c nsyms l) ->
    forall fuel st0 st', r_new g f0 = Ret st0 -> feed_all fo P g fuel locs st0 = Ret (true, st') ->
    exists pos, held pos (length locs) /\ earleme (begin_earleme P st') = Some (length pos - 1) /\ length pos - 1 <= length locs.
  Proof.
    intros locs Ha fuel st0 st' En Hf.
    destruct (reached locs (acceptable_ok _ _ _ Ha) fuel st0 st' En Hf) as (ok & first & follow & sd & st1 & pos & HU & HFI & HFO & Hsd & Hm & HI).
    destruct HC as [_ Hleo HB].
    destruct (probe ok P c nsyms w Hleo _ _ _ _ _ _ _ _ HI Hm) as (preds & items & Hh & Ee & _).
    exists pos. split; [auto|]. split; [auto|]. destruct Hh. now apply sorted_len.
  Qed.

  Lemma P_dead : forall locs, (forall l, In l locs -> acceptable c nsyms l) ->
    forall fuel st0 st1, r_new g f0 = Ret st0 -> feed_all fo P g fuel locs st0 = Ret (false, st1) ->
    forall fuel' more l st2, feed_on fo P g fuel' more st1 = Ret (l, st2) ->
    Forall (fun b => b = false) l /\ is_finished fo g st2 = Ret false.
  Proof.
    intros locs Ha fuel st0 st1 En Hf fuel' more l st2 Hm2.
    destruct (feed_all_false _ _ _ _ _ _ _ Hf) as (pre & loc & post & mid & -> & H1 & H2).
    destruct (reached pre) with (fuel := fuel) (st0 := st0) (st' := mid) as (ok & first & follow & sd & s1 & pos & HU & HFI & HFO & Hsd & Hm & HI); auto.
    { apply acceptable_ok. intros l' Hin. apply Ha. apply in_app_iff. auto. }
    destruct HC as [_ Hleo HB].
    destruct HI as [(cs & O & Hrep & HL & _) Hlast Hrows _].
    assert (Elen : v_len (r_medial mid) = length pos).
    { destruct Hm as (_ & _ & _ & [Hi _] & _). unfold v_len. rewrite <- Hi. rewrite <- HL. apply (rep_len _ _ _ Hrep). }
    assert (Epred : r_predicted mid = r_predicted s1) by (destruct Hm as (_ & _ & X & _); auto).
    assert (HD : dead (length pos) st1).
    { apply (dead_start fo P g _ fuel loc mid); auto; [|lia].
      intros i row s Hi Hr X. rewrite Epred in Hr. exact (proj2 (Hrows _ _ Hr) Hi s X). }
    destruct (dead_feed_on fo P g _ _ _ _ _ _ Hleo HD Hm2) as [A B]. split; [auto|].
    apply (dead_unfinished fo g (length pos)); [auto|]. lia.
  Qed.

  Lemma P_events : nsyms <= length R -> forall locs, (forall l, In l locs -> acceptable c nsyms l) ->
    forall fuel st0 st', r_new g f0 = Ret st0 -> feed_all fo P g fuel locs st0 = Ret (true, st') ->
    exists preds items l1 l2,
      predicted_symbols (begin_earleme P st') = Ret preds /\
      medial_items (begin_earleme P st') = Ret items /\ events g (begin_earleme P st') = Ret (l1 ++ l2) /\
      Forall2 (event_record c 1) preds l1 /\ Forall2 (fun it => event_record c 2 (it_dot it)) items l2 /\
      minimal_distances g (begin_earleme P st') = Ret (map snd (l1 ++ l2)).
  Proof.
    intros HR locs Ha fuel st0 st' En Hf.
    destruct (reached locs (acceptable_ok _ _ _ Ha) fuel st0 st' En Hf) as (ok & first & follow & sd & st1 & pos & HU & HFI & HFO & Hsd & Hm & HI).
    destruct HC as [_ Hleo HB].
    destruct (probe ok P c nsyms w Hleo _ _ _ _ _ _ _ _ HI Hm) as (preds & items & _ & _ & Ep & Ei & Hp & Hi & _).
    destruct (events_spec c nsyms w d0 g0 g HB (begin_earleme P st') preds items Ep Ei) as (l1 & l2 & Et & F1 & F2).
    - intros s Hs. apply Hp in Hs. destruct Hs. unfold sym in *. lia.
    - intros it Hit. destruct (proj1 (Hi (it_dot it) (it_origin it))) as (i & _ & t & Ht); [eauto|].
      destruct (Med_rule _ _ _ _ _ _ _ _ _ _ _ _ _ _ Ht) as (r & _ & _ & Hr & _). eauto.
    - exists preds, items, l1, l2. unfold minimal_distances. rewrite Et. auto 10.
  Qed.
End T.

Lemma P_new_finished : forall F N (fo : forest_ops F N) f0 fuel c maps nulling first follow g st0,
  from_processed_grammars fuel c maps nulling first follow = Ret g -> r_new g f0 = Ret st0 ->
  (nulling = [] -> is_finished fo g st0 = Ret false) /\
  (nulling <> [] -> forall b, is_finished fo g st0 = Ret b -> b = true).
Proof.
  intros F N fo f0 fuel c maps nulling first follow g st0 Hg Hn.
  apply from_processed_inv in Hg.
  destruct Hg as (gens & w' & dbe & by0 & comps & _ & _ & _ & _ & _ & _ & _ & _ & _ & _ & _ & Et & _).
  assert (Em : r_medial st0 = v_new).
  { unfold r_new in Hn. repeat (apply bind_Ret in Hn; destruct Hn as (? & _ & Hn)). injection Hn as <-. reflexivity. }
  unfold is_finished, finished_node, earleme. rewrite Em, Et. cbn [v_len v_new indices length]. split.
  - intros ->. reflexivity.
  - intros Hne b H. destruct nulling; [congruence|]. cbn in H.
    apply bind_Ret in H. destruct H as (o & Ho & H). apply bind_Ret in Ho. destruct Ho as (s & _ & Ho).
    apply bind_Ret in Ho. destruct Ho as (n & _ & Ho). injection Ho as <-. now injection H as <-.
Qed.
