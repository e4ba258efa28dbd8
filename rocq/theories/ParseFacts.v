(** ParseFacts: [parse], [parse_terminal_list] and [parse_tokenizing] in terms of the
    location-by-location client of Drive.v, and what they answer. *)
From Coq Require Import List Arith Bool Lia.
From Verif Require Import Base BaseProofs Vec2d Item Grammar DefaultGrammar Forest ForestSpec Recognizer Drive ClientSpec
  Spec CfgSpec Chart ChartFacts Core3 Core4 Core5 Core6 Recog Sim RecogAny RecogFacts RowsInv Parse.
Import ListNotations.
Local Open Scope res_scope.

(** tokens numbered from [i] *)
Fixpoint numbered (i : nat) (syms : list sym) : list (sym * nat) :=
  match syms with
  | [] => []
  | s :: rest => (s, i) :: numbered (S i) rest
  end.

Lemma numbered_fst : forall syms i, map fst (numbered i syms) = syms.
Proof. induction syms; intros; simpl; f_equal; auto. Qed.

Lemma numbered_length : forall syms i, length (numbered i syms) = length syms.
Proof. induction syms; intros; simpl; auto. Qed.

Lemma numbered_in : forall syms i s v, In (s, v) (numbered i syms) -> In s syms.
Proof. intros. rewrite <- (numbered_fst syms i). apply (in_map fst) in H. exact H. Qed.

Lemma numbered_firstn : forall syms i k, map fst (firstn k (numbered i syms)) = firstn k syms.
Proof. intros. rewrite <- firstn_map, numbered_fst. reflexivity. Qed.

Section Loop.
  Context {F N : Type}.
  Variable fo : forest_ops F N.
  Variable P : perf.
  Variable g : dgrammar.
  Notation state := (rstate F N).

  Lemma read_sof_feed : forall fuel (st : state),
    read_sof fo P g fuel st = feed fo P g fuel (mkLoc (r_hint st) [(g_sof_sym g, 0)] keep_all) st.
  Proof.
    intros. unfold read_sof, feed, scan_list. cbn [l_toks l_hint l_keep foldM fst snd].
    replace (set_hint_field (begin_earleme P st) (r_hint st)) with (begin_earleme P st).
    - destruct (scan fo P g (begin_earleme P st) (g_sof_sym g) 0); reflexivity.
    - unfold begin_earleme. destruct (LEO P), st; reflexivity.
  Qed.

  Definition loop_result (tokens : list sym) (i : nat) (locs : list location) (fuel : nat) (st : state)
    (x : res (bool * state)) (y : res (option parse_result * state)) : Prop :=
    match x with
    | Ret (true, st') => y = Ret (None, st')
    | Ret (false, st') => exists k tok, nth_error tokens k = Some tok /\ y = Ret (Some (PErrParse [tok] (i + k)), st') /\
        (exists st1, feed_all fo P g fuel (firstn k locs) st = Ret (true, st1)) /\
        feed_all fo P g fuel (firstn (S k) locs) st = Ret (false, st')
    | Panic => y = Panic
    | NoFuel => y = NoFuel
    end.

  Lemma parse_loop_feed : forall use fuel tokens syms i j (st : state), mapped g tokens syms ->
    (forall k, j <= k -> use k = true) ->
    loop_result tokens i (hinted use j (numbered i syms)) fuel st
      (feed_all fo P g fuel (hinted use j (numbered i syms)) st) (parse_loop fo P g fuel i tokens st).
  Proof.
    intros use fuel tokens. induction tokens as [|t tokens IH]; intros syms i j st Hm Hu; inversion Hm as [|? s ? ss Ht Hts]; subst.
    - reflexivity.
    - cbn [numbered hinted feed_all parse_loop]. rewrite (Hu j (le_n _)), numbered_fst.
      unfold feed at 1. cbn [l_toks l_hint l_keep]. unfold scan_list. cbn [foldM fst snd].
      assert (E : (match tokens with
               | t :: _ => o <- to_internal g t ;; s <- unwrap o ;; Ret (set_hint (begin_earleme P st) s)
               | [] => Ret (clear_hint (begin_earleme P st))
               end) = Ret (set_hint_field (begin_earleme P st) (hd_error ss))).
      { inversion Hts as [|t' s' ? ? Ht' _]; subst; [reflexivity|]. rewrite Ht'. reflexivity. }
      rewrite E. cbn [bind]. rewrite Ht. cbn [bind unwrap].
      destruct (scan fo P g _ s i) as [st1| |] eqn:Es; cbn [bind]; [|reflexivity|reflexivity].
      unfold end_earleme. destruct (end_filtered fo P g keep_all fuel st1) as [[b st2]| |] eqn:Ee; cbn [bind]; [|reflexivity|reflexivity].
      assert (Hfeed : feed fo P g fuel (mkLoc (hd_error ss) [(s, i)] keep_all) st = Ret (b, st2)).
      { unfold feed, scan_list. cbn [l_toks l_hint l_keep foldM fst snd]. rewrite Es. cbn [bind]. exact Ee. }
      destruct b.
      + specialize (IH ss (S i) (S j) st2 Hts ltac:(intros; apply Hu; lia)).
        destruct (feed_all fo P g fuel (hinted use (S j) (numbered (S i) ss)) st2) as [[[] st3]| |]; cbn [loop_result] in *; auto.
        destruct IH as (k & tok & A & B & (st4 & C) & D). exists (S k), tok. split; [auto|]. split.
        { rewrite B. do 4 f_equal. lia. }
        cbn [firstn feed_all]. rewrite Hfeed. cbn [bind]. split; [eauto|exact D].
      + cbn [loop_result]. exists 0, t. split; [reflexivity|]. rewrite Nat.add_0_r. split; [reflexivity|].
        cbn [firstn feed_all]. split; [eauto|]. rewrite Hfeed. reflexivity.
  Qed.

  Lemma feed_all_prefix : forall locs m1 m2 fu (st s2 : state), m1 <= m2 ->
    feed_all fo P g fu (firstn m2 locs) st = Ret (true, s2) ->
    exists s1, feed_all fo P g fu (firstn m1 locs) st = Ret (true, s1).
  Proof.
    induction locs as [|l ls IH]; intros m1 m2 fu st s2 Hm12.
    - rewrite !firstn_nil. simpl. eauto.
    - destruct m1; [simpl; eauto|]. destruct m2; [lia|]. cbn [firstn feed_all].
      destruct (feed fo P g fu l st) as [[[] s3]| |]; cbn [bind]; try discriminate. apply IH. lia.
  Qed.

  Lemma feed_true_len : forall fuel loc (st st' : state), feed fo P g fuel loc st = Ret (true, st') -> 0 < v_len (r_medial st').
  Proof.
    intros fuel loc st st' H. unfold feed in H.
    destruct (scan_list fo P g (l_toks loc) _) as [st1| |]; cbn [bind] in H; try discriminate.
    unfold end_filtered in H. destruct (is_exhausted st1) as [ex| |]; cbn [bind] in H; try discriminate.
    destruct ex; [discriminate|].
    destruct (complete_sums fo P g (l_keep loc) fuel st1) as [st2| |]; cbn [bind] in H; try discriminate.
    unfold advance_after_completion in H.
    match type of H with bind ?x _ = _ => destruct x as [st3| |] eqn:E; cbn [bind] in H; try discriminate end.
    injection H as <-.
    destruct (sort_medial_items g st2) as [st4| |]; cbn [bind] in E; try discriminate.
    destruct (remove_unreachable_sets P st4) as [st5| |]; cbn [bind] in E; try discriminate.
    match type of E with bind ?x _ = _ => destruct x as [st6| |]; cbn [bind] in E; try discriminate end.
    unfold prediction_pass in E. cbn zeta in E.
    destruct (v_last (r_medial st6)) as [l| |]; cbn [bind] in E; try discriminate.
    destruct (earleme st6) as [e|] eqn:Ee; cbn [unwrap bind] in E; [|discriminate].
    match type of E with bind ?x _ = _ => destruct x as [row| |]; cbn [bind] in E; try discriminate end.
    match type of E with bind ?x _ = _ => destruct x as [row'| |]; cbn [bind] in E; try discriminate end.
    match type of E with bind ?x _ = _ => destruct x as [rows'| |]; cbn [bind] in E; try discriminate end.
    injection E as <-. cbn. unfold earleme in Ee. destruct (v_len (r_medial st6)); [discriminate|lia].
  Qed.

  (** a location that goes on leaves no hint *)
  Lemma feed_true_hint : forall fuel loc (st st' : state), feed fo P g fuel loc st = Ret (true, st') -> r_hint st' = None.
  Proof.
    intros fuel loc st st' H. unfold feed in H.
    destruct (scan_list fo P g (l_toks loc) _) as [st1| |]; cbn [bind] in H; try discriminate.
    unfold end_filtered in H. destruct (is_exhausted st1) as [ex| |]; cbn [bind] in H; try discriminate.
    destruct ex; [discriminate|].
    destruct (complete_sums fo P g (l_keep loc) fuel st1) as [st2| |] eqn:Ec; cbn [bind] in H; try discriminate.
    assert (Hn : r_hint st2 = None).
    { clear H. revert st1 Ec. induction fuel as [|fuel IH]; intros st1 Ec; cbn [complete_sums] in Ec;
        destruct (next_sum g st1) as [[[o l]|]| |]; cbn [bind] in Ec; try discriminate; try (now injection Ec as <-).
      destruct (l_keep loc l).
      - destruct (complete_entire_sum fo P g o l st1) as [t| |]; cbn [bind] in Ec; try discriminate. eauto.
      - destruct (skip_entire_sum g o l st1) as [t| |]; cbn [bind] in Ec; try discriminate. eauto. }
    unfold advance_after_completion in H.
    match type of H with bind ?x _ = _ => destruct x as [st3| |] eqn:E; cbn [bind] in H; try discriminate end.
    injection H as <-.
    destruct (sort_medial_items g st2) as [st4| |] eqn:E4; cbn [bind] in E; try discriminate.
    assert (H4 : r_hint st4 = None) by (unfold sort_medial_items in E4; dres E4; now subst).
    destruct (remove_unreachable_sets P st4) as [st5| |] eqn:E5; cbn [bind] in E; try discriminate.
    assert (H5 : r_hint st5 = None).
    { unfold remove_unreachable_sets in E5.
      destruct (v_last (r_medial st4)) as [l| |]; cbn [bind] in E5; try discriminate.
      destruct (unwrap (earleme st4)) as [e| |]; cbn [bind] in E5; try discriminate.
      set (ne := match list_max_opt (map it_origin l) with Some m => m | None => e end) in *.
      destruct ((ne <? e) && (0 <? ne)); [|now injection E5 as <-]. cbn zeta in E5.
      match type of E5 with bind ?x _ = _ => destruct x as [m| |]; cbn [bind] in E5; try discriminate end.
      match type of E5 with bind ?x _ = _ => destruct x as [t| |] eqn:Et; cbn [bind] in E5; try discriminate end.
      assert (Ep : r_hint t = r_hint st4).
      { destruct (LEO P); [|now injection Et as <-].
        match type of Et with bind ?x _ = _ => destruct x as [lv| |]; cbn [bind] in Et; try discriminate end. }
      match type of E5 with bind ?x _ = _ => destruct x as [[]| |]; cbn [bind] in E5; try discriminate end.
      match type of E5 with bind ?x _ = _ => destruct x as [[]| |]; cbn [bind] in E5; try discriminate end.
      injection E5 as <-. congruence. }
    destruct (LEO P); cbn [bind] in E; [discriminate|].
    unfold prediction_pass in E. cbn zeta in E.
    destruct (v_last (r_medial st5)) as [l| |]; cbn [bind] in E; try discriminate.
    destruct (earleme st5) as [e|] eqn:Ee; cbn [unwrap bind] in E; [|discriminate].
    match type of E with bind ?x _ = _ => destruct x as [row| |]; cbn [bind] in E; try discriminate end.
    match type of E with bind ?x _ = _ => destruct x as [row'| |]; cbn [bind] in E; try discriminate end.
    match type of E with bind ?x _ = _ => destruct x as [rows'| |]; cbn [bind] in E; try discriminate end.
    injection E as <-. exact H5.
  Qed.

  (** a location that ends the parse leaves nothing finished *)
  Lemma feed_false_unfinished : forall fuel loc (st st' : state), 0 < v_len (r_medial st) ->
    feed fo P g fuel loc st = Ret (false, st') -> finished_node fo g st' = Ret None.
  Proof.
    intros fuel loc st st' Hlen H. unfold feed in H.
    destruct (scan_list fo P g (l_toks loc) _) as [st1| |] eqn:Es; cbn [bind] in H; try discriminate.
    unfold end_filtered in H. destruct (is_exhausted st1) as [ex| |] eqn:Ex; cbn [bind] in H; try discriminate.
    destruct ex.
    - injection H as <-. unfold is_exhausted in Ex.
      destruct (v_last (r_medial st1)) as [l| |] eqn:El; cbn [bind] in Ex; try discriminate.
      assert (l = []) as -> by (destruct l; [auto|discriminate]).
      assert (Hk : kept st1 = kept (set_hint_field (begin_earleme P st) (l_hint loc))).
      { unfold scan_list in Es. refine (fold_pres _ _ _ _ _ _ Es). intros s a s' E. exact (scan_pres fo P g _ _ _ _ E). }
      assert (He : earleme st1 <> None).
      { unfold earleme, v_len. injection Hk as _ Hi. rewrite Hi. unfold begin_earleme.
        unfold v_len in Hlen. destruct (LEO P); cbn; rewrite app_length; cbn [length];
          (destruct (length (indices (r_medial st))) as [|n0]; [lia|]);
          replace (S n0 + 1) with (S (S n0)) by lia; discriminate. }
      unfold finished_node. destruct (earleme st1); [|congruence]. rewrite andb_false_r, El. reflexivity.
    - destruct (complete_sums fo P g (l_keep loc) fuel st1) as [s1| |]; cbn [bind] in H; try discriminate.
      destruct (advance_after_completion P g s1); cbn [bind] in H; discriminate.
  Qed.

  (** *** parse_tokenizing *)
  Definition char_loc (sy : nat -> list sym) (ch : nat) : location := overlapping (map (fun s => (s, ch)) (sy ch)).

  Lemma scan_all_list : forall ch terminals syms (st : state), mapped g terminals syms ->
    scan_all fo P g ch st terminals = scan_list fo P g (map (fun s => (s, ch)) syms) st.
  Proof.
    intros ch terminals syms st H. revert st. unfold scan_all, scan_list.
    induction H as [|t s ts ss Ht H IH]; intros st; [reflexivity|]. cbn [foldM map fst snd]. rewrite Ht. cbn [bind unwrap].
    destruct (scan fo P g st s ch); cbn [bind]; auto.
  Qed.

  Definition tloop_result (lexer : nat -> list sym) (input : list nat) (i : nat) (locs : list location) (fuel : nat) (st : state)
    (x : res (bool * state)) (y : res (option parse_result * state)) : Prop :=
    match x with
    | Ret (true, st') => y = Ret (None, st')
    | Ret (false, st') => exists k ch, nth_error input k = Some ch /\ y = Ret (Some (PErrParse (lexer ch) (i + k)), st') /\
        (exists st1, feed_all fo P g fuel (firstn k locs) st = Ret (true, st1)) /\
        feed_all fo P g fuel (firstn (S k) locs) st = Ret (false, st')
    | Panic => y = Panic
    | NoFuel => y = NoFuel
    end.

  Lemma tokenizing_feed : forall lexer sy fuel input i (st : state), (forall ch, In ch input -> mapped g (lexer ch) (sy ch)) ->
    r_hint st = None ->
    tloop_result lexer input i (map (char_loc sy) input) fuel st
      (feed_all fo P g fuel (map (char_loc sy) input) st) (tokenizing_loop fo P g fuel lexer i input st).
  Proof.
    intros lexer sy fuel. induction input as [|ch input IH]; intros i st Hm Hh; [reflexivity|].
    cbn [map feed_all tokenizing_loop]. rewrite (scan_all_list ch (lexer ch) (sy ch)) by (apply Hm; simpl; auto).
    assert (Hfeed : feed fo P g fuel (char_loc sy ch) st =
      (st1 <- scan_list fo P g (map (fun s => (s, ch)) (sy ch)) (begin_earleme P st) ;; end_earleme fo P g fuel st1)).
    { unfold feed, char_loc, overlapping. cbn [l_toks l_hint l_keep].
      replace (set_hint_field (begin_earleme P st) None) with (begin_earleme P st); [reflexivity|].
      unfold begin_earleme. destruct (LEO P), st; cbn in *; subst; reflexivity. }
    rewrite Hfeed.
    destruct (scan_list fo P g _ (begin_earleme P st)) as [st1| |]; cbn [bind] in *; [|reflexivity|reflexivity].
    destruct (end_earleme fo P g fuel st1) as [[b st2]| |] eqn:Ee; cbn [bind]; [|reflexivity|reflexivity].
    destruct b.
    - specialize (IH (S i) st2 ltac:(intros; apply Hm; simpl; auto) (feed_true_hint _ _ _ _ Hfeed)).
      destruct (feed_all fo P g fuel (map (char_loc sy) input) st2) as [[[] st3]| |]; cbn [tloop_result] in *; auto.
      destruct IH as (k & tok & A & B & (st4 & C) & D). exists (S k), tok. split; [auto|]. split.
      { rewrite B. do 4 f_equal. lia. }
      cbn [firstn feed_all]. rewrite Hfeed. cbn [bind]. split; [eauto|exact D].
    - cbn [tloop_result]. exists 0, ch. split; [reflexivity|]. rewrite Nat.add_0_r. split; [reflexivity|].
      cbn [firstn feed_all]. split; [eauto|]. rewrite Hfeed. reflexivity.
  Qed.

  (** what [parse] answers, for tokens mapped to [syms] *)
  Lemma feed_all_false_unfinished : forall fuel locs (st st' : state), 0 < v_len (r_medial st) ->
    feed_all fo P g fuel locs st = Ret (false, st') -> finished_node fo g st' = Ret None.
  Proof.
    intros fuel. induction locs as [|l ls IH]; intros st st' Hl H; cbn [feed_all] in H; [discriminate|].
    destruct (feed fo P g fuel l st) as [[[] s1]| |] eqn:E; cbn [bind] in H; try discriminate.
    - eapply IH; [|exact H]. eapply feed_true_len; eauto.
    - injection H as <-. eapply feed_false_unfinished; eauto.
  Qed.

  Definition after0 (j : nat) : bool := match j with 0 => false | S _ => true end.

  Lemma parse_feed : forall fuel tokens syms (st : state), mapped g tokens syms -> r_hint st = None ->
    let locs := hinted after0 0 ((g_sof_sym g, 0) :: numbered 0 syms) in
    match feed_all fo P g fuel locs st with
    | Ret (true, st') => parse fo P g fuel st tokens = (b <- is_finished fo g st' ;; Ret (POk b, st'))
    | Ret (false, st') =>
        (parse fo P g fuel st tokens = Ret (PErrParse [g_sof_sym g] 0, st') /\
         feed_all fo P g fuel (firstn 1 locs) st = Ret (false, st')) \/
        exists k tok, nth_error tokens k = Some tok /\ parse fo P g fuel st tokens = Ret (PErrParse [tok] k, st') /\
        (exists st1, feed_all fo P g fuel (firstn (S k) locs) st = Ret (true, st1)) /\
        feed_all fo P g fuel (firstn (S (S k)) locs) st = Ret (false, st')
    | Panic => parse fo P g fuel st tokens = Panic
    | NoFuel => parse fo P g fuel st tokens = NoFuel
    end.
  Proof.
    intros fuel tokens syms st Hm Hh locs. unfold parse. rewrite read_sof_feed, Hh.
    unfold locs. cbn [hinted feed_all after0 firstn].
    destruct (feed fo P g fuel _ st) as [[b st1]| |] eqn:E; cbn [bind]; [|reflexivity|reflexivity].
    destruct b; [|left; split; reflexivity].
    pose proof (parse_loop_feed after0 fuel tokens syms 0 1 st1 Hm ltac:(intros [|k] X; [lia|reflexivity])) as H.
    destruct (feed_all fo P g fuel (hinted after0 1 (numbered 0 syms)) st1) as [[[] st2]| |]; cbn [loop_result] in H.
    - rewrite H. reflexivity.
    - right. destruct H as (k & tok & A & B & (st3 & C) & D). exists k, tok. split; [auto|]. rewrite B. cbn [bind].
      split; [reflexivity|]. split; [eauto|]. exact D.
    - rewrite H. reflexivity.
    - rewrite H. reflexivity.
  Qed.
End Loop.

Section Any.
  Context {F N : Type}.
  Variable fo : forest_ops F N.
  Variable ok : phase -> F -> Prop.
  Hypothesis HU : usable fo ok.
  Variable P : perf.
  Variables (c : pcfg) (nsyms : nat) (w : wrapped_root) (d0 : nat) (g0 : sym).
  Variable g : dgrammar.
  Hypothesis Hleo : LEO P = false.
  Hypothesis HB : built c nsyms w d0 g0 g.
  Notation R := (c_rules c).
  Notation root := (w_root w).
  Notation start_state := (start_state ok P c nsyms w g).

  Lemma sof_sym : g_sof_sym g = w_sof w.
  Proof.
    destruct HB as [HP (fuel & maps & nulling & first & follow & Hg & _)].
    now destruct (g_facts c nsyms w d0 g0 fuel maps nulling first follow g HP Hg) as (_ & E & _).
  Qed.

  (** *** parse *)
  Lemma parse_any : forall Z st tokens syms, start_state Z st -> (forall s, Z s -> s <> root) -> r_hint st = None ->
    mapped g tokens syms -> (forall s, In s syms -> s < nsyms) ->
    exists n r, (forall fuel, fuel < n -> parse fo P g fuel st tokens = NoFuel) /\
      (forall fuel, n <= fuel -> exists st', parse fo P g fuel st tokens = Ret (r, st')).
  Proof.
    intros Z st tokens syms Hst HZ Hh Hm Hs. pose proof (b_processed _ _ _ _ _ _ HB) as HP.
    set (locs := hinted after0 0 ((g_sof_sym g, 0) :: numbered 0 syms)).
    assert (Hok : locs_ok nsyms (c_num_syms c) locs).
    { apply hinted_ok with (1 := HP). intros s v [E|Hin].
      - injection E as <- _. rewrite sof_sym. now destruct HP.
      - apply Hs. eapply numbered_in; eauto. }
    destruct (run_any fo ok HU P c nsyms w d0 g0 g Hleo HB Z st locs Hst HZ Hok ltac:(discriminate))
      as (n & b & sd & first & follow & _ & _ & _ & _ & _ & Hlow & fin & _ & Hhigh).
    assert (Hprefix : forall m, 0 < m -> forall fuel st', feed_all fo P g fuel (firstn m locs) st = Ret (false, st') ->
      forall fuel', n <= fuel' -> forall st1, feed_all fo P g fuel' (firstn m locs) st <> Ret (true, st1)).
    { intros m Hm0 fuel st' E fuel' Hf st1 E1.
      assert (Hok' : locs_ok nsyms (c_num_syms c) (firstn m locs)).
      { intros l Hl. apply Hok. rewrite <- (firstn_skipn m locs). apply in_app_iff. auto. }
      destruct (answer_spec fo ok HU P c nsyms w d0 g0 g Hleo HB Z st (firstn m locs) Hst HZ Hok') as (n' & b' & A1 & A2 & _).
      { destruct m; [lia|]. discriminate. }
      destruct (Nat.lt_ge_cases fuel n') as [X|X]; [rewrite (A1 _ X) in E; discriminate|].
      destruct (Nat.lt_ge_cases fuel' n') as [Y|Y]; [rewrite (A1 _ Y) in E1; discriminate|].
      destruct (A2 _ X) as (? & E2), (A2 _ Y) as (? & E3). congruence. }
    destruct (Hhigh n (le_n _)) as (_ & stn & En & _).
    assert (Hlow' : forall fuel, fuel < n -> parse fo P g fuel st tokens = NoFuel).
    { intros fuel Hl. pose proof (parse_feed fo P g fuel tokens syms st Hm Hh) as X. cbn zeta in X. fold locs in X.
      rewrite (Hlow fuel Hl) in X. exact X. }
    pose proof (parse_feed fo P g n tokens syms st Hm Hh) as Hn. cbn zeta in Hn. fold locs in Hn. rewrite En in Hn.
    destruct b.
    - exists n, (POk fin). split; [exact Hlow'|]. intros fuel Hl.
      destruct (Hhigh fuel Hl) as (st1 & st' & E & _ & _ & Hx). destruct (Hx eq_refl) as (_ & Ef & _).
      pose proof (parse_feed fo P g fuel tokens syms st Hm Hh) as X. cbn zeta in X. fold locs in X.
      rewrite E in X. exists st'. rewrite X, Ef. reflexivity.
    - destruct Hn as [(E1 & E2)|(k & tok & A & B & (st1 & C) & D)].
      + exists n, (PErrParse [g_sof_sym g] 0). split; [exact Hlow'|]. intros fuel Hl.
        destruct (Hhigh fuel Hl) as (_ & st' & E & _).
        pose proof (parse_feed fo P g fuel tokens syms st Hm Hh) as X. cbn zeta in X. fold locs in X.
        rewrite E in X. destruct X as [(X1 & X2)|(k & tok & A & B & (st1 & C) & D)]; [eauto|].
        exfalso. assert (Y : exists st2, feed_all fo P g fuel (firstn 1 locs) st = Ret (true, st2)).
        { revert C. unfold locs. cbn [hinted firstn feed_all].
          destruct (feed fo P g fuel _ st) as [[[] s2]| |]; cbn [bind]; try discriminate. eauto. }
        destruct Y as (st2 & Y). now apply (Hprefix 1 ltac:(lia) n stn E2 fuel Hl st2).
      + exists n, (PErrParse [tok] k). split; [exact Hlow'|]. intros fuel Hl.
        destruct (Hhigh fuel Hl) as (_ & st' & E & _).
        pose proof (parse_feed fo P g fuel tokens syms st Hm Hh) as X. cbn zeta in X. fold locs in X.
        assert (Hmono : forall m1 m2 fu s2, m1 <= m2 -> feed_all fo P g fu (firstn m2 locs) st = Ret (true, s2) ->
          exists s1, feed_all fo P g fu (firstn m1 locs) st = Ret (true, s1)).
        { intros m1 m2 fu s2 Hm12 E12. eapply (feed_all_prefix fo P g); eauto. }
        rewrite E in X. destruct X as [(X1 & X2)|(k' & tok' & A' & B' & (st1' & C') & D')].
        * exfalso. destruct (Hmono 1 (S k) n st1 ltac:(lia) C) as (s1 & Y).
          now apply (Hprefix 1 ltac:(lia) fuel st' X2 n (le_n _) s1).
        * destruct (Nat.lt_trichotomy k k') as [K|[K|K]].
          -- exfalso. destruct (Hmono (S (S k)) (S k') fuel st1' ltac:(lia) C') as (s1 & Y).
             now apply (Hprefix (S (S k)) ltac:(lia) n stn D fuel Hl s1).
          -- subst k'. assert (tok' = tok) by congruence. subst. eauto.
          -- exfalso. destruct (Hmono (S (S k')) (S k) n st1 ltac:(lia) C) as (s1 & Y).
             now apply (Hprefix (S (S k')) ltac:(lia) fuel st' D' n (le_n _) s1).
  Qed.

  Lemma parse_decides : forall Z st tokens syms, start_state Z st -> (forall s, Z s -> s <> root) -> r_hint st = None ->
    mapped g tokens syms -> (forall s, In s syms -> user_terminal c nsyms w s) ->
    exists n r, (forall fuel, fuel < n -> parse fo P g fuel st tokens = NoFuel) /\
      (forall fuel, n <= fuel -> exists st', parse fo P g fuel st tokens = Ret (r, st')) /\
      (r = POk true <-> sentence c w g0 syms).
  Proof.
    intros Z st tokens syms Hst HZ Hh Hm Hs.
    destruct (parse_any Z st tokens syms Hst HZ Hh Hm) as (n & r & Hlow & Hhigh).
    { intros s Hin. now apply Hs. }
    exists n, r. split; [auto|]. split; [auto|].
    destruct (verdict_hinted fo ok HU P c nsyms w d0 g0 g Hleo HB Z st after0 0 (numbered 0 syms) Hst HZ) as (n' & v & Hv & Hi).
    { intros s u Hin. apply Hs. eapply numbered_in; eauto. }
    rewrite numbered_fst in Hi. rewrite <- Hi. clear Hi.
    set (fuel := Nat.max n n'). specialize (Hv fuel). destruct (Hhigh fuel ltac:(lia)) as (st' & Hp).
    pose proof (parse_feed fo P g fuel tokens syms st Hm Hh) as X. cbn zeta in X. rewrite sof_sym in X.
    assert (E : fuel <? n' = false) by (apply Nat.ltb_ge; lia). rewrite E in Hv. unfold verdict in Hv.
    destruct (feed_all fo P g fuel _ st) as [[[] st2]| |]; cbn [bind] in Hv; try discriminate.
    - rewrite Hv in X. cbn [bind] in X. rewrite Hp in X. injection X as -> _. split; [congruence|intros ->; reflexivity].
    - injection Hv as <-. split; [|discriminate]. intros ->.
      destruct X as [(X & _)|(k & tok & _ & X & _)]; congruence.
  Qed.

  (** where [parse] reports an error *)
  Lemma parse_error : forall st tokens syms fuel err i st', start_state (fun _ => False) st -> r_hint st = None -> productive R ->
    mapped g tokens syms -> (forall s, In s syms -> user_terminal c nsyms w s) ->
    parse fo P g fuel st tokens = Ret (PErrParse err i, st') -> (exists x, sentence c w g0 x /\ Forall (terminal R) x) ->
    nth_error tokens i = Some (hd 0 err) /\ length err = 1 /\
    viable c nsyms w g0 (firstn i syms) /\ ~ viable c nsyms w g0 (firstn (S (S i)) syms).
  Proof.
    intros st tokens syms fuel err i st' Hst Hh Hprod Hm Hs Hp Hne.
    assert (Hu : forall s v, In (s, v) (numbered 0 syms) -> user_terminal c nsyms w s).
    { intros s v X. apply Hs. eapply numbered_in; eauto. }
    pose proof (parse_feed fo P g fuel tokens syms st Hm Hh) as X. cbn zeta in X. rewrite sof_sym in X.
    destruct (feed_all fo P g fuel _ st) as [[[] st2]| |] eqn:Ef.
    - rewrite Hp in X. destruct (is_finished fo g st2); discriminate.
    - destruct X as [(X & Y)|(k & tok & A & B & (st1 & C) & D)].
      + exfalso.
        assert (HZ : forall s : sym, (fun _ : sym => False) s -> s <> root) by (intros ? []).
        assert (Y' : feed_all fo P g fuel (firstn 1 (hinted (fun _ => false) 0 ((w_sof w, 0) :: []))) st = Ret (false, st2)).
        { rewrite <- Y. reflexivity. }
        apply (hinted_prefix_false fo ok HU P c nsyms w d0 g0 g Hleo HB _ st _ 0 [] 0 fuel st2 Hst HZ) in Y'; [|intros ? ? []|simpl; lia].
        apply Y'. cbn. destruct Hne as (x & Hx & Ht). exists x. auto.
      + rewrite Hp in B. injection B as -> -> _. cbn [hd length]. split; [auto|]. split; [auto|].
        assert (Hk : k < length syms).
        { pose proof (Forall2_length2 _ _ _ _ _ Hm) as L. rewrite <- L. apply nth_error_Some. congruence. }
        split.
        * rewrite <- (numbered_firstn syms 0 k).
          eapply (hinted_prefix_true fo ok HU P c nsyms w d0 g0 g Hleo HB); eauto. rewrite numbered_length. lia.
        * rewrite <- (numbered_firstn syms 0 (S (S k))).
          apply (hinted_prefix_false fo ok HU P c nsyms w d0 g0 g Hleo HB (fun _ => False) st after0 0 (numbered 0 syms) (S k) fuel st2);
            auto. rewrite numbered_length. lia.
    - rewrite Hp in X. discriminate.
    - rewrite Hp in X. discriminate.
  Qed.

  (** *** parse_terminal_list *)
  Lemma new_state : forall f0, ok Idle f0 -> exists st0 : rstate F N, r_new g f0 = Ret st0 /\ start_state (fun _ => False) st0 /\
    r_hint st0 = None /\ 0 < v_len (r_medial st0).
  Proof.
    intros f0 Hf. destruct (new_start (N := N) ok P c nsyms w d0 g0 g HB f0 Hf) as (st0 & E & A & B).
    exists st0. split; [auto|]. split; [auto|]. split; [auto|].
    unfold r_new in E. dres E. subst st0. cbn. lia.
  Qed.

  Lemma finished_is : forall (st : rstate F N) b, is_finished fo g st = Ret b ->
    exists o, finished_node fo g st = Ret o /\ b = negb (is_null o).
  Proof.
    intros st b H. unfold is_finished in H. destruct (finished_node fo g st) as [o| |]; cbn [bind] in H; try discriminate.
    injection H as <-. eauto.
  Qed.

  Lemma terminal_list_any : forall name_map words tokens syms f0, ok Idle f0 ->
    tokenize name_map words = inl tokens -> mapped g tokens syms -> (forall s, In s syms -> user_terminal c nsyms w s) ->
    exists n r, (forall fuel, fuel < n -> parse_terminal_list fo P g fuel f0 name_map words = NoFuel) /\
      (forall fuel, n <= fuel -> parse_terminal_list fo P g fuel f0 name_map words = Ret r) /\
      (r = POk true \/ r = PErrFinish) /\ (r = POk true <-> sentence c w g0 syms).
  Proof.
    intros name_map words tokens syms f0 Hf Htk Hm Hs.
    destruct (new_state f0 Hf) as (st0 & En & Hst & Hh & Hl).
    destruct (parse_decides (fun _ => False) st0 tokens syms Hst ltac:(intros ? []) Hh Hm Hs) as (n & r & Hlow & Hhigh & Hi).
    assert (Hend : forall fuel st', parse fo P g fuel st0 tokens = Ret (r, st') ->
      parse_terminal_list fo P g fuel f0 name_map words =
        Ret (match r with POk true => POk true | _ => PErrFinish end)).
    { intros fuel st' E. unfold parse_terminal_list. rewrite En. cbn [bind]. rewrite Htk, E. cbn [bind].
      pose proof (parse_feed fo P g fuel tokens syms st0 Hm Hh) as X. cbn zeta in X.
      set (locs := hinted after0 0 ((g_sof_sym g, 0) :: numbered 0 syms)) in *.
      destruct (feed_all fo P g fuel locs st0) as [[[] st2]| |] eqn:Ef; try congruence.
      - rewrite E in X. destruct (is_finished fo g st2) as [b| |] eqn:Eb; cbn [bind] in X; try discriminate.
        injection X as -> ->. apply finished_is in Eb. destruct Eb as (o & -> & ->). cbn [bind]. destruct o; reflexivity.
      - assert (Hn : finished_node fo g st2 = Ret None) by (eapply feed_all_false_unfinished; eauto).
        destruct X as [(X & _)|(k & tok & _ & X & _)]; rewrite E in X; injection X as -> ->; rewrite Hn; reflexivity. }
    exists n, (match r with POk true => POk true | _ => PErrFinish end). split; [|split; [|split]].
    - intros fuel Hlt. unfold parse_terminal_list. rewrite En. cbn [bind]. rewrite Htk, (Hlow fuel Hlt). reflexivity.
    - intros fuel Hge. destruct (Hhigh fuel Hge) as (st' & E). now apply (Hend fuel st').
    - destruct r as [[]| | |]; auto.
    - rewrite <- Hi. destruct r as [[]| | |]; split; try discriminate; auto.
  Qed.

  (** *** parse_tokenizing *)
  Lemma choice_read : forall sy input ys, choice (map (fun ch => map (fun s => (s, ch)) (sy ch)) input) ys ->
    Forall2 (fun ch (s : sym) => In s (sy ch)) input (map fst ys).
  Proof.
    intros sy. induction input as [|ch input IH]; intros ys H; inversion H as [|? y ? zs Hy Hz]; subst; constructor; auto.
    apply in_map_iff in Hy. destruct Hy as (s & <- & Hs). exact Hs.
  Qed.

  Lemma read_choice : forall (sy : nat -> list sym) input x, Forall2 (fun ch s => In s (sy ch)) input x ->
    exists ys, choice (map (fun ch => map (fun s => (s, ch)) (sy ch)) input) ys /\ map fst ys = x.
  Proof.
    intros sy input x H. induction H as [|ch s input x Hs H IH].
    - exists []. split; [constructor|reflexivity].
    - destruct IH as (ys & A & B). exists ((s, ch) :: ys). split.
      + constructor; [|exact A]. apply in_map_iff. eauto.
      + cbn. now rewrite B.
  Qed.

  Lemma tokenizing_any : forall lexer sy input f0, ok Idle f0 -> productive R ->
    (exists x, sentence c w g0 x /\ Forall (terminal R) x) ->
    (forall ch, In ch input -> mapped g (lexer ch) (sy ch) /\ forall s, In s (sy ch) -> user_terminal c nsyms w s) ->
    let possible input x := Forall2 (fun ch s => In s (sy ch)) input x in
    exists n, (forall fuel, fuel < n -> parse_tokenizing fo P g fuel f0 lexer input = NoFuel) /\
      (forall fuel, n <= fuel -> exists r, parse_tokenizing fo P g fuel f0 lexer input = Ret r /\
        match r with
        | POk b => b = true /\ exists x, possible input x /\ sentence c w g0 x
        | PErrFinish => (exists x, possible input x /\ viable c nsyms w g0 x) /\
            forall x, possible input x -> ~ sentence c w g0 x
        | PErrParse toks i => (exists ch, nth_error input i = Some ch /\ toks = lexer ch) /\
            (exists x, possible (firstn i input) x /\ viable c nsyms w g0 x) /\
            forall x, possible (firstn (S i) input) x -> ~ viable c nsyms w g0 x
        | PErrTokenize _ => False
        end).
  Proof.
    intros lexer sy input f0 Hf Hprod Hne Hlex possible.
    destruct (new_state f0 Hf) as (st0 & En & Hst & Hh & Hl).
    set (toks := fun ch => map (fun s : sym => (s, ch)) (sy ch)).
    assert (Hus : forall k ts s v, In ts (map toks (firstn k input)) -> In (s, v) ts -> user_terminal c nsyms w s).
    { intros k ts s v A B. apply in_map_iff in A. destruct A as (ch & <- & A). apply in_map_iff in B. destruct B as (s' & E & B).
      injection E as -> ->. apply (Hlex v); [|auto]. rewrite <- (firstn_skipn k input). apply in_app_iff. auto. }
    assert (Hans : forall k fuel b st', feed_all fo P g fuel (firstn (S k) (offered w (map toks input))) st0 = Ret (b, st') ->
      (b = true <-> exists x, possible (firstn k input) x /\ viable c nsyms w g0 x)).
    { intros k fuel b st' E.
      assert (Eo : firstn (S k) (offered w (map toks input)) = offered w (map toks (firstn k input))).
      { unfold offered. cbn [firstn]. now rewrite !firstn_map. }
      rewrite Eo in E.
      destruct (answer_offered fo ok HU P c nsyms w d0 g0 g Hleo HB st0 (map toks (firstn k input)) Hprod Hst (Hus k))
        as (n & b' & A1 & A2 & A3).
      destruct (Nat.lt_ge_cases fuel n) as [X|X]; [rewrite (A1 _ X) in E; discriminate|].
      destruct (A2 _ X) as (st2 & E2). rewrite E in E2. injection E2 as <- _. rewrite A3. split.
      - intros (ys & Hc & Hv). exists (map fst ys). split; [now apply choice_read|auto].
      - intros (x & Hx & Hv). apply read_choice in Hx. destruct Hx as (ys & Hc & <-). eauto. }
    assert (Eall : firstn (length input) input = input) by apply firstn_all.
    destruct (verdict_offered fo ok HU P c nsyms w d0 g0 g Hleo HB _ st0 (map toks input) Hst) as (n & v & Hv & Hi).
    { intros s []. }
    { intros ts s v A B. apply (user_nall c nsyms w d0 g0 g HB). eapply (Hus (length input)); [|exact B]. now rewrite Eall. }
    assert (Htok : forall fuel, match feed_all fo P g fuel (offered w (map toks input)) st0 with
      | Ret (true, st') => parse_tokenizing fo P g fuel f0 lexer input =
          (b <- is_finished fo g st' ;; o <- finished_node fo g st' ;; match o with None => Ret PErrFinish | Some _ => Ret (POk b) end)
      | Ret (false, st') => (exists st1, feed_all fo P g fuel (firstn 1 (offered w (map toks input))) st0 = Ret (false, st1)) \/
          exists k ch, nth_error input k = Some ch /\ parse_tokenizing fo P g fuel f0 lexer input = Ret (PErrParse (lexer ch) k) /\
            (exists st1, feed_all fo P g fuel (firstn (S k) (offered w (map toks input))) st0 = Ret (true, st1)) /\
            feed_all fo P g fuel (firstn (S (S k)) (offered w (map toks input))) st0 = Ret (false, st')
      | Panic => parse_tokenizing fo P g fuel f0 lexer input = Panic
      | NoFuel => parse_tokenizing fo P g fuel f0 lexer input = NoFuel
      end).
    { intros fuel. unfold parse_tokenizing. rewrite En. cbn [bind]. rewrite read_sof_feed, Hh, sof_sym.
      unfold offered. cbn [feed_all firstn]. fold (sofloc w).
      change (mkLoc None [(w_sof w, 0)] keep_all) with (sofloc w).
      destruct (feed fo P g fuel (sofloc w) st0) as [[b st1]| |] eqn:E; cbn [bind]; [|reflexivity|reflexivity].
      destruct b; [|left; eauto].
      pose proof (tokenizing_feed fo P g lexer sy fuel input 0 st1 ltac:(intros ch X; apply (Hlex ch X))
        (feed_true_hint fo P g _ _ _ _ E)) as H.
      rewrite map_map. change (map (fun x => overlapping (toks x)) input) with (map (char_loc sy) input).
      destruct (feed_all fo P g fuel (map (char_loc sy) input) st1) as [[[] st2]| |]; cbn [tloop_result] in H.
      - rewrite H. reflexivity.
      - right. destruct H as (k & tok & A & B & C & D). exists k, tok. split; [auto|]. rewrite B. cbn [bind].
        split; [reflexivity|]. split; [exact C|]. exact D.
      - rewrite H. reflexivity.
      - rewrite H. reflexivity. }
    exists n. split.
    - intros fuel Hlt. specialize (Htok fuel). specialize (Hv fuel). apply Nat.ltb_lt in Hlt. rewrite Hlt in Hv.
      unfold verdict in Hv. destruct (feed_all fo P g fuel _ st0) as [[[] st2]| |]; cbn [bind] in Hv; try discriminate; auto.
      rewrite Htok, Hv. reflexivity.
    - intros fuel Hge. specialize (Htok fuel). specialize (Hv fuel). apply Nat.ltb_ge in Hge. rewrite Hge in Hv.
      assert (Hsent : v = true <-> exists x, possible input x /\ sentence c w g0 x).
      { rewrite Hi. split.
        - intros (ys & Hc & Hs). exists (map fst ys). split; [now apply choice_read|auto].
        - intros (x & Hx & Hs). apply read_choice in Hx. destruct Hx as (ys & Hc & <-). eauto. }
      unfold verdict in Hv. destruct (feed_all fo P g fuel _ st0) as [[[] st2]| |] eqn:Ef; cbn [bind] in Hv; try discriminate.
      + destruct (finished_is _ _ Hv) as (o & Eo & Ev). rewrite Hv, Eo in Htok. cbn [bind] in Htok.
        destruct o as [nd|]; cbn [is_null negb] in Ev.
        * exists (POk v). split; [exact Htok|]. split; [auto|]. now apply Hsent.
        * exists PErrFinish. split; [exact Htok|]. split.
          -- rewrite <- Eall. assert (Ef' : feed_all fo P g fuel (firstn (S (length input)) (offered w (map toks input))) st0 = Ret (true, st2)).
             { rewrite firstn_all2; [exact Ef|]. unfold offered. cbn. rewrite !map_length. lia. }
             now apply (Hans _ _ _ _ Ef').
          -- intros x Hx Hs. assert (v = true) by (apply Hsent; eauto). congruence.
      + destruct Htok as [(st1 & X)|(k & ch & A & B & (st1 & C) & D)].
        * exfalso. assert (false = true); [|discriminate]. apply (Hans _ _ _ _ X). exists []. split; [constructor|].
          destruct Hne as (x & Hx & Ht). exists x. auto.
        * exists (PErrParse (lexer ch) k). split; [exact B|]. split; [eauto|]. split.
          -- now apply (Hans _ _ _ _ C).
          -- intros x Hx Hvx. assert (false = true); [|discriminate]. apply (Hans _ _ _ _ D). eauto.
  Qed.
End Any.
