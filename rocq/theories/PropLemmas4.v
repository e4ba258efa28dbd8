(** PropLemmas4: the trees under the finished node and their evaluation, in the form
    in which PropsTrees.v states them. *)
From Coq Require Import List Arith Bool Lia Permutation Sorted NArith.
From Verif Require Import Base BaseProofs Item Grammar DefaultGrammar Forest ForestSpec Recognizer Drive ClientSpec Spec SpecFacts
  Chart ChartFacts ChartSpec CfgSpec TablesProofs Den Core1 Core2 Core3 Core4 Core5 Core6 Recog RecogFacts Uniq SimpleBocage SimpleEval SimpleProofs SimpleValue EvalSpec TreeSpec Trees
  ForestProg ForestValue SimpleTop PredFacts Drop.
Import ListNotations.
Local Open Scope res_scope.

Lemma ordered_grammar_ordered : forall c, ordered_grammar c -> ordered (c_rules c).
Proof.
  intros c [H1 H2]. split; [exact H1|]. intros r B Hr Hb (r' & Hr' & E). apply (H2 r B Hr Hb). intros T. now apply (T r').
Qed.

Lemma P_sorted : forall c, sorted_rules (sort_rules_by_lhs c) /\ Permutation (c_rules c) (c_rules (sort_rules_by_lhs c)).
Proof.
  intros c. split; [|apply sort_by_perm]. unfold sorted_rules, sort_rules_by_lhs. cbn [c_rules].
  assert (H : StronglySorted (fun a b => (p_lhs a <=? p_lhs b) = true) (sort_by (fun a b => p_lhs a <=? p_lhs b) (c_rules c))).
  { apply sort_by_sorted.
    - intros a b. rewrite !Nat.leb_le. lia.
    - intros a b d. rewrite !Nat.leb_le. lia. }
  intros d1 d2 r1 r2 Hle H1 H2. revert d1 d2 Hle H1 H2. induction H as [|a l _ IH Hall]; intros d1 d2 Hle H1 H2.
  - destruct d1; discriminate.
  - destruct d1 as [|d1], d2 as [|d2]; cbn in H1, H2; [injection H1 as <-; injection H2 as <-; auto| |lia|].
    + injection H1 as <-. apply nth_error_In in H2. rewrite Forall_forall in Hall. now apply Nat.leb_le, Hall.
    + apply (IH d1 d2); [lia|auto|auto].
Qed.

Section Input.
  Variables (c : pcfg) (nsyms : nat) (w : wrapped_root) (d0 : nat) (g0 : sym).
  Hypothesis HP : shaped c nsyms w d0 g0.
  Notation R := (c_rules c).

  Lemma input_tree_yield : forall ys t, input_tree c w g0 ys t -> parse_tree R g0 t /\ yield t = (w_sof w, 0) :: ys.
  Proof.
    intros ys t H. destruct H as [d r t Hd Hl Hr Ht|d r Hd Hl Hr].
    - split; [|cbn; now rewrite app_nil_r]. rewrite <- Hl. eapply pt_node; eauto. rewrite Hr.
      constructor; [apply pt_leaf|]. constructor; [exact Ht|constructor].
    - split; [|reflexivity]. rewrite <- Hl. eapply pt_node; eauto. rewrite Hr. constructor; [apply pt_leaf|constructor].
  Qed.

  Lemma input_tree_inv : forall ys t, parse_tree R g0 t -> yield t = (w_sof w, 0) :: ys -> input_tree c w g0 ys t.
  Proof.
    intros ys t Ht Hy. inversion Ht as [s v|d r ts Hd Hts]; subst.
    - cbn in Hy. injection Hy as Hy _. exfalso. now apply (sh_g0_sof _ _ _ _ _ HP).
    - assert (Hin : In r R) by (eapply nth_error_In; eauto).
      assert (Sof : forall t, parse_tree R (w_sof w) t -> exists v, t = Leaf (w_sof w) v).
      { intros t H1. inversion H1 as [s v|d' r' ts' Hd' Hts']; subst; [eauto|]. exfalso.
        apply (sh_sof_terminal _ _ _ _ _ HP r'); [eapply nth_error_In; eauto|auto]. }
      destruct (sh_g0_rules _ _ _ _ _ HP r Hin ltac:(auto)) as [E|E]; rewrite E in Hts.
      + inversion Hts as [|A t1 Bs ts1 X1 X2]; subst. inversion X2 as [|B t2 Cs ts2 X3 X4]; subst. inversion X4; subst.
        destruct (Sof _ X1) as (v & ->). cbn in Hy. rewrite app_nil_r in Hy. injection Hy as -> <-.
        eapply it_inner; eauto.
      + inversion Hts as [|A t1 Bs ts1 X1 X2]; subst. inversion X2; subst.
        destruct (Sof _ X1) as (v & ->). cbn in Hy. injection Hy as -> <-. eapply it_empty; eauto.
  Qed.

  Lemma from_start_ok : forall h0 rest, in_range c nsyms h0 rest -> locs_ok nsyms (c_num_syms c) (from_start w h0 rest).
  Proof.
    intros h0 rest [H1 H2] l [<-|Hl]; cbn.
    - split.
      + destruct h0 as [s|]; [|exact I]. cbn. now apply (H1 0).
      + intros s v [E|[]]. injection E as <- _. destruct HP. lia.
    - split; [|intros s v; now apply H2]. apply In_nth_error in Hl. destruct Hl as [k Hk].
      destruct (l_hint l) as [s|] eqn:E; [|exact I]. cbn. apply (H1 (S k)). cbn. now rewrite Hk.
  Qed.

  Lemma from_start_accepted : forall h0 rest t, accepted c g0 (from_start w h0 rest) t <-> tree_read c w g0 rest t.
  Proof.
    intros h0 rest t. unfold accepted, tree_read. set (E := env_of (from_start w h0 rest) no_seed).
    assert (Hk : forall j s, ekeep E j s = kept rest j s).
    { intros [|[|j]] s; [reflexivity|reflexivity|]. cbn. destruct (nth_error rest j); reflexivity. }
    assert (HW : forall k ts, nth_error (map l_toks (from_start w h0 rest)) k = Some ts -> eW E (0 + k) = ts).
    { intros k ts H. cbn. rewrite nth_error_map in H. unfold from_start in *. destruct (nth_error _ k); cbn in H; congruence. }
    assert (Hlen : length (from_start w h0 rest) = 0 + length (map l_toks (from_start w h0 rest))) by now rewrite map_length.
    split.
    - intros (H1 & H2 & H3). rewrite Hlen in H2. apply (reads_choice _ _ 0 HW) in H2.
      inversion H2 as [|? y ? ys Hy Hys Ey]; subst. destruct Hy as [<-|[]]. exists ys. split; [exact Hys|].
      split; [now apply input_tree_inv|]. eapply constituents_ext; [|exact H3]. exact Hk.
    - intros (ys & H1 & H2 & H3). apply input_tree_yield in H2. destruct H2 as [H2 Hy]. split; [auto|]. split.
      + rewrite Hlen. apply (reads_choice _ _ 0 HW). rewrite Hy. constructor; [cbn; auto|exact H1].
      + eapply constituents_ext; [|exact H3]. intros. symmetry. apply Hk.
  Qed.

  Lemma from_start_truthful : forall h0 rest t, hints_match c nsyms w h0 rest t -> truthful c nsyms w (from_start w h0 rest) t.
  Proof.
    intros h0 rest t H [|[|j]] s Hs; [discriminate| |].
    - now apply (H 0).
    - apply (H (S j)). exact Hs.
  Qed.

  Lemma from_start_toks : forall h0 rest, distinct_tokens c rest -> forall l, In l (from_start w h0 rest) -> toks_ok R (l_toks l).
  Proof.
    intros h0 rest H l [<-|Hl]; [|now apply H]. cbn. split; [repeat constructor; auto|].
    intros s v [E|[]]. injection E as <- _. apply (sh_sof_terminal _ _ _ _ _ HP).
  Qed.

  (** the locations of [hinted] *)
  Lemma hinted_from_start : forall (use : nat -> bool) (xs : list (sym * nat)), hinted use 0 ((w_sof w, 0) :: xs) =
    from_start w (if use 0 then hd_error (map fst xs) else None) (hinted use 1 xs).
  Proof. reflexivity. Qed.

  Lemma hinted_kept : forall use xs i j s, kept (hinted use i xs) j s = true.
  Proof. intros use xs i [|[|j]] s; [reflexivity|reflexivity|]. cbn. rewrite hinted_nth. destruct (nth_error xs j); reflexivity. Qed.

  Lemma hinted_toks : forall use xs i, map l_toks (hinted use i xs) = map (fun x => [x]) xs.
  Proof. induction xs as [|x xs IH]; intros i; cbn; [reflexivity|now rewrite IH]. Qed.

  Lemma hinted_before : forall (use : nat -> bool) (xs : list (sym * nat)) k s, hint_before (if use 0 then hd_error (map fst xs) else None) (hinted use 1 xs) k = Some s ->
    exists v, nth_error xs k = Some (s, v).
  Proof.
    intros use xs [|k] s H; cbn in H.
    - destruct (use 0); [|discriminate]. destruct xs as [|[a v] xs]; [discriminate|]. cbn in H. injection H as ->. eexists. reflexivity.
    - rewrite hinted_nth in H. destruct (nth_error xs k); [|discriminate]. cbn [l_hint] in H. destruct (use (1 + k)); [|discriminate].
      destruct (nth_error xs (S k)) as [[a v]|] eqn:E; [|discriminate]. injection H as ->. eauto.
  Qed.

  Lemma choice_one : forall (xs ys : list (sym * nat)), choice (map (fun x => [x]) xs) ys <-> ys = xs.
  Proof.
    induction xs as [|x xs IH]; intros ys; split; intros H.
    - now inversion H.
    - subst. constructor.
    - inversion H as [|? y ? zs Hy Hz]; subst. destruct Hy as [<-|[]]. f_equal. now apply IH.
    - subst. constructor; [simpl; auto|]. now apply IH.
  Qed.

  Lemma hinted_read : forall use xs i t, tree_read c w g0 (hinted use i xs) t <-> input_tree c w g0 xs t.
  Proof.
    intros use xs i t. unfold tree_read. rewrite hinted_toks. split.
    - intros (ys & H & H1 & _). apply choice_one in H. now subst.
    - intros H. exists xs. split; [now apply choice_one|]. split; [auto|].
      apply input_tree_yield in H. destruct H as [H _]. eapply (cok_all c); eauto. intros. apply hinted_kept.
  Qed.

  Lemma hinted_match : forall (use : nat -> bool) (xs : list (sym * nat)) t, (forall s v, In (s, v) xs -> s < nsyms /\ terminal R s) -> input_tree c w g0 xs t ->
    hints_match c nsyms w (if use 0 then hd_error (map fst xs) else None) (hinted use 1 xs) t.
  Proof.
    intros use xs t Hx Ht k s Hs. apply hinted_before in Hs. destruct Hs as (v & Hv).
    destruct (Hx s v) as [A B]; [eapply nth_error_In; eauto|]. split; [auto|]. split; [auto|].
    apply input_tree_yield in Ht. destruct Ht as [_ ->]. cbn. rewrite nth_error_app1, nth_error_map, Hv; [reflexivity|].
    rewrite map_length. apply nth_error_Some. congruence.
  Qed.

  Lemma hinted_in_range : forall (use : nat -> bool) (xs : list (sym * nat)), (forall s v, In (s, v) xs -> s < nsyms /\ terminal R s) ->
    in_range c nsyms (if use 0 then hd_error (map fst xs) else None) (hinted use 1 xs).
  Proof.
    intros use xs Hx. split.
    - intros k s H. apply hinted_before in H. destruct H as (v & H). apply nth_error_In in H. now apply Hx in H.
    - intros l s v Hl Hs. apply In_nth_error in Hl. destruct Hl as [k Hk]. rewrite hinted_nth in Hk.
      destruct (nth_error xs k) as [x|] eqn:E; [|discriminate]. apply (f_equal (fun o => match o with Some l => l_toks l | None => [] end)) in Hk.
      cbn [l_toks] in Hk. rewrite <- Hk in Hs. destruct Hs as [->|[]]. apply nth_error_In in E. apply Hx in E.
      pose proof (sh_le _ _ _ _ _ HP). lia.
  Qed.

  Lemma hinted_distinct : forall (use : nat -> bool) (xs : list (sym * nat)) i, (forall s v, In (s, v) xs -> s < nsyms /\ terminal R s) -> distinct_tokens c (hinted use i xs).
  Proof.
    intros use xs i Hx l Hl. apply In_nth_error in Hl. destruct Hl as [k Hk]. rewrite hinted_nth in Hk.
    destruct (nth_error xs k) as [x|] eqn:E; [|discriminate]. apply (f_equal (fun o => match o with Some l => l_toks l | None => [] end)) in Hk.
    cbn [l_toks] in Hk. rewrite <- Hk. split; [repeat constructor; auto|]. intros s v [->|[]]. apply nth_error_In in E. now apply Hx in E.
  Qed.
End Input.

Section Parse.
  Variable P : perf.
  Variables (c : pcfg) (nsyms : nat) (w : wrapped_root) (d0 : nat) (g0 : sym) (g : dgrammar).
  Hypothesis Hleo : LEO P = false.
  Hypothesis HB : shaped_built c nsyms w d0 g0 g.
  Variables (fi : forest_info) (b0 : bocage).
  Hypothesis Hb0 : bocage_new fi = Ret b0.
  Notation R := (c_rules c).
  Let HP := sb_shaped _ _ _ _ _ _ HB.

  Lemma P_sound_any : forall h0 rest, in_range c nsyms h0 rest ->
    (exists fuel, (st <- r_new g b0 ;; parse_forest simple_forest P g fuel (from_start w h0 rest) st) <> NoFuel) ->
    exists n r l, total n (fun fuel => st <- r_new g b0 ;; parse_forest simple_forest P g fuel (from_start w h0 rest) st) r /\
      finished_trees r l /\ (fst r <> None -> l <> []) /\
      forall ts, In ts l -> exists t, ts = [t] /\ tree_read c w g0 rest t.
  Proof.
    intros h0 rest Hr Hends. destruct (new_at fi b0 Hb0) as (_ & Hc & _).
    destruct (simple_trees_any P c nsyms w d0 g0 g Hleo HB b0 Hc (from_start w h0 rest)) as (n & o & b & T & l & A & _ & _ & _ & B & C & D & _).
    - now apply (from_start_ok c nsyms w d0 g0).
    - discriminate.
    - exact Hends.
    - exists n, (o, b), l. split; [exact A|]. split; [exact B|]. split.
      + cbn. destruct o; [intros _; apply C|congruence].
      + intros ts Hts. destruct (D ts Hts) as (t & E & Ht). exists t. split; [auto|].
        now apply (from_start_accepted c nsyms w d0 g0 HP) in Ht.
  Qed.

  Lemma P_complete_any : forall h0 rest, in_range c nsyms h0 rest -> sorted_rules c -> distinct_tokens c rest ->
    (exists fuel, (st <- r_new g b0 ;; parse_forest simple_forest P g fuel (from_start w h0 rest) st) <> NoFuel) ->
    exists n r l, total n (fun fuel => st <- r_new g b0 ;; parse_forest simple_forest P g fuel (from_start w h0 rest) st) r /\
      finished_trees r l /\ NoDup l /\
      forall t, tree_read c w g0 rest t -> hints_match c nsyms w h0 rest t -> In [t] l.
  Proof.
    intros h0 rest Hr Hord Hd Hends. destruct (new_at fi b0 Hb0) as (_ & Hc & _).
    destruct (simple_trees_any P c nsyms w d0 g0 g Hleo HB b0 Hc (from_start w h0 rest)) as (n & o & b & T & l & A & _ & _ & _ & B & C & D & _ & F).
    - now apply (from_start_ok c nsyms w d0 g0).
    - discriminate.
    - exact Hends.
    - exists n, (o, b), l. split; [exact A|]. split; [exact B|].
      destruct F as [F1 F2]; [assumption|now apply (from_start_toks c nsyms w d0 g0 HP)|].
      split; [auto|]. intros t H1 H2. apply F2.
      + now apply (from_start_accepted c nsyms w d0 g0 HP).
      + now apply from_start_truthful.
  Qed.

  Lemma P_exactly_any : forall use xs, (forall s v, In (s, v) xs -> user_terminal c nsyms w s) -> sorted_rules c ->
    (exists fuel, (st <- r_new g b0 ;; parse_forest simple_forest P g fuel (hinted use 0 ((w_sof w, 0) :: xs)) st) <> NoFuel) ->
    exists n r l, total n (fun fuel => st <- r_new g b0 ;; parse_forest simple_forest P g fuel (hinted use 0 ((w_sof w, 0) :: xs)) st) r /\
      finished_trees r l /\ NoDup l /\
      forall ts, In ts l <-> exists t, ts = [t] /\ input_tree c w g0 xs t.
  Proof.
    intros use xs Hu Hord. rewrite hinted_from_start. intros Hends.
    assert (Hx : forall s v, In (s, v) xs -> s < nsyms /\ terminal R s).
    { intros s v H. destruct (Hu s v H) as (X & Y & _). auto. }
    pose proof (hinted_in_range c nsyms w d0 g0 HP use xs Hx) as Hr.
    destruct (P_complete_any _ _ Hr Hord (hinted_distinct c nsyms use xs 1 Hx) Hends) as (n & r & l & A & B & C & D).
    destruct (P_sound_any _ _ Hr Hends) as (n' & r' & l' & A' & B' & _ & D').
    assert (Er : r' = r).
    { specialize (A (n + n')). specialize (A' (n + n')). cbv beta in A, A'. rewrite A' in A.
      destruct (Nat.ltb_spec (n + n') n'); [lia|]. destruct (Nat.ltb_spec (n + n') n); [lia|]. congruence. }
    subst r'. assert (El : l' = l).
    { destruct r as [[h|] b]; unfold finished_trees in *; cbn [fst snd] in *; [|congruence]. eapply (proj1 (represents_fun _)); eauto. }
    subst l'. exists n, r, l. split; [exact A|]. split; [exact B|]. split; [exact C|]. intros ts. split.
    - intros H. destruct (D' ts H) as (t & E & Ht). exists t. split; [auto|]. now apply (hinted_read c w g0 use xs 1).
    - intros (t & -> & Ht). apply D; [now apply hinted_read|]. now apply (hinted_match c nsyms w g0).
  Qed.
End Parse.

Section ParseAcyclic.
  Variable P : perf.
  Variables (c : pcfg) (nsyms : nat) (w : wrapped_root) (d0 : nat) (g0 : sym) (g : dgrammar).
  Hypothesis Hleo : LEO P = false.
  Hypothesis HB : built c nsyms w d0 g0 g.
  Variables (fi : forest_info) (b0 : bocage).
  Hypothesis Hb0 : bocage_new fi = Ret b0.
  Notation R := (c_rules c).

  Lemma from_start_ends : forall h0 rest, in_range c nsyms h0 rest ->
    exists fuel, (st <- r_new g b0 ;; parse_forest simple_forest P g fuel (from_start w h0 rest) st) <> NoFuel.
  Proof.
    intros h0 rest Hr. destruct (new_at fi b0 Hb0) as (_ & Hc & _). apply (simple_ends P c nsyms w d0 g0 g Hleo HB b0 Hc).
    - apply (from_start_ok c nsyms w d0 g0 (b_processed _ _ _ _ _ _ HB)). exact Hr.
    - discriminate.
  Qed.

  Lemma hinted_ends : forall use xs, (forall s v, In (s, v) xs -> user_terminal c nsyms w s) ->
    exists fuel, (st <- r_new g b0 ;; parse_forest simple_forest P g fuel (hinted use 0 ((w_sof w, 0) :: xs)) st) <> NoFuel.
  Proof.
    intros use xs Hu. rewrite hinted_from_start. apply from_start_ends.
    apply (hinted_in_range c nsyms w d0 g0 (b_processed _ _ _ _ _ _ HB)). intros s v H. destruct (Hu s v H) as (X & Y & _). auto.
  Qed.


  Lemma P_sound : forall h0 rest, in_range c nsyms h0 rest ->
    exists n r l, total n (fun fuel => st <- r_new g b0 ;; parse_forest simple_forest P g fuel (from_start w h0 rest) st) r /\
      finished_trees r l /\ (fst r <> None -> l <> []) /\
      forall ts, In ts l -> exists t, ts = [t] /\ tree_read c w g0 rest t.
  Proof. intros h0 rest Hr. exact (P_sound_any P c nsyms w d0 g0 g Hleo HB fi b0 Hb0 h0 rest Hr (from_start_ends h0 rest Hr)). Qed.

  Lemma P_complete : forall h0 rest, in_range c nsyms h0 rest -> sorted_rules c -> distinct_tokens c rest ->
    exists n r l, total n (fun fuel => st <- r_new g b0 ;; parse_forest simple_forest P g fuel (from_start w h0 rest) st) r /\
      finished_trees r l /\ NoDup l /\
      forall t, tree_read c w g0 rest t -> hints_match c nsyms w h0 rest t -> In [t] l.
  Proof. intros h0 rest Hr Hord Hd. exact (P_complete_any P c nsyms w d0 g0 g Hleo HB fi b0 Hb0 h0 rest Hr Hord Hd (from_start_ends h0 rest Hr)). Qed.

  Lemma P_exactly : forall use xs, (forall s v, In (s, v) xs -> user_terminal c nsyms w s) -> sorted_rules c ->
    exists n r l, total n (fun fuel => st <- r_new g b0 ;; parse_forest simple_forest P g fuel (hinted use 0 ((w_sof w, 0) :: xs)) st) r /\
      finished_trees r l /\ NoDup l /\
      forall ts, In ts l <-> exists t, ts = [t] /\ input_tree c w g0 xs t.
  Proof. intros use xs Hu Hord. exact (P_exactly_any P c nsyms w d0 g0 g Hleo HB fi b0 Hb0 use xs Hu Hord (hinted_ends use xs Hu)). Qed.
End ParseAcyclic.

(** ** Evaluation *)
Lemma map_repeat : forall A B (f : A -> B) x k, map f (repeat x k) = repeat (f x) k.
Proof. induction k; cbn; congruence. Qed.

Lemma tree_rules_range : forall R s t, parse_tree R s t -> forall d, In d (tree_rules t) -> d < length R.
Proof.
  intros R. assert (G : (forall s t, parse_tree R s t -> forall d, In d (tree_rules t) -> d < length R) /\
    (forall ss ts, parse_trees R ss ts -> forall d, In d (flat_map tree_rules ts) -> d < length R)).
  { apply parse_both; cbn; try tauto.
    - intros d r ts Hd _ IH d' [<-|H]; [apply nth_error_Some; congruence|auto].
    - intros s t ss ts _ IH1 _ IH2 d H. apply in_app_or in H. destruct H; auto. }
  exact (proj1 G).
Qed.

Lemma root_form : forall c w g0 T, shape T -> (forall ts, den T ts -> exists t ys, ts = [t] /\ input_tree c w g0 ys t) ->
  exists s alts, T = FSum s alts /\ forall a, In a alts -> snd a = FLeaf (w_sof w) 0 \/ exists X, snd a = FProd (FLeaf (w_sof w) 0) X.
Proof.
  intros c w g0 T Hs Hd.
  assert (Ex : forall T, shape T -> exists ts, den T ts).
  { intros T' H. apply shape_trees in H. destruct (trees T') as [|ts l] eqn:E; [congruence|]. exists ts. apply trees_den. rewrite E. now left. }
  assert (Len : forall T ts, den T ts -> if is_fprod T then 2 <= length ts else length ts = 1).
  { intros T' ts H. apply trees_length. now apply trees_den. }
  destruct T as [s v|s|l r|s alts].
  - destruct (Hd _ (den_leaf s v)) as (t & ys & E & H). inversion H; subst; discriminate.
  - contradiction.
  - destruct (Ex _ Hs) as [ts Hts]. pose proof (Len _ _ Hts) as L. cbn in L. destruct (Hd _ Hts) as (t & ys & -> & _). cbn in L. lia.
  - exists s, alts. split; [reflexivity|]. intros [d T1] Ha. apply shape_sum in Hs. destruct Hs as [_ Hs]. rewrite Forall_forall in Hs.
    specialize (Hs _ Ha). cbn [snd] in *.
    assert (K : forall xs, den T1 xs -> xs = [Leaf (w_sof w) 0] \/ exists t, xs = [Leaf (w_sof w) 0; t]).
    { intros xs Hx. destruct (Hd _ (den_sum s alts d T1 xs Ha Hx)) as (t & ys & E & H). injection E as <-. inversion H; subst; eauto. }
    destruct T1 as [s1 v1|s1|l r|s1 alts1].
    + left. destruct (K _ (den_leaf s1 v1)) as [E|(t & E)]; [|discriminate]. congruence.
    + contradiction.
    + right. destruct Hs as [Hl Hr]. destruct (Ex _ Hl) as [xs Hx]. destruct (Ex _ Hr) as [ys Hy].
      pose proof (Len _ _ Hx) as Lx. pose proof (Len _ _ Hy) as Ly.
      assert (Ly' : 1 <= length ys) by (destruct (is_fprod r); lia).
      destruct (K _ (den_prod l r xs ys Hx Hy)) as [E|(t & E)].
      * apply (f_equal (@length _)) in E. rewrite app_length in E. cbn in E. destruct (is_fprod l); lia.
      * assert (L2 : length xs + length ys = 2) by (apply (f_equal (@length _)) in E; rewrite app_length in E; exact E).
        destruct (is_fprod l) eqn:El; [lia|]. destruct xs as [|x [|x' xs]]; cbn in Lx; try discriminate. cbn in E. injection E as -> _.
        destruct l as [sl vl|sl|l1 l2|sl al]; try discriminate.
        -- inversion Hx; subst. eauto.
        -- contradiction.
        -- inversion Hx.
    + destruct (Ex _ Hs) as [xs Hx]. pose proof Hx as Hx'. inversion Hx'; subst. destruct (K _ Hx) as [E|(t & E)]; discriminate.
Qed.

Section Evaluate.
  Variable P : perf.
  Variables (c : pcfg) (nsyms : nat) (w : wrapped_root) (d0 : nat) (g0 : sym) (g : dgrammar).
  Hypothesis Hleo : LEO P = false.
  Hypothesis HB : shaped_built c nsyms w d0 g0 g.
  Variable b0 : bocage.
  Notation fi := (g_forest_info g).
  Hypothesis Hb0 : bocage_new fi = Ret b0.
  Notation R := (c_rules c).
  Let HP := sb_shaped _ _ _ _ _ _ HB.
  Context {E : Type}.
  Variables (ev : evaluator E) (nv : sym -> E) (nulls : sym -> list E).
  Hypothesis Hpush : pushes ev nv.
  Hypothesis Hnulls : nulls_ok fi nv nulls.
  Hypothesis Hac : nulling_acyclic fi.

  Lemma info : fi_nulling_eliminated fi = map p_nullable R /\ fi_sof fi = w_sof w /\ fi_start fi = w_inner w.
  Proof.
    destruct (sb_tables _ _ _ _ _ _ HB) as (fuel & maps & nulling & first & follow & Hg & _). pose proof HP as HP'.
    destruct (from_processed_inv _ _ _ _ _ _ _ Hg) as (gens & w' & dbe & by_rhs0 & comps & H).
    decompose [and] H. pose proof (sh_wrapped _ _ _ _ _ HP') as Hw. split; [assumption|].
    split; congruence.
  Qed.

  Lemma root_evaluates : forall b x T h, b_info b = fi -> b_graph b = b_graph b0 ++ x -> srep (b_graph b) T h -> shape T ->
    (forall ts, den T ts -> exists t ys, ts = [t] /\ input_tree c w g0 ys t) ->
    (exists vs, root_value ev fi nv b h vs /\
       forall d t, trees T = [[Node d [Leaf (w_sof w) 0; t]]] -> vs = value ev fi nulls t) \/
    (skip_wrapper ev b h = Ret (inr (ev_nulling ev (w_inner w) [])) /\ exists d, trees T = [[Node d [Leaf (w_sof w) 0]]]).
  Proof.
    intros b x T h Hi Hx Hr Hs Hd. destruct info as (I1 & I2 & I3).
    assert (Hf : fok fi T).
    { apply shape_fok; [auto|]. intros ts t Hts Ht d Hin. rewrite I1, map_length. destruct (Hd _ Hts) as (t' & ys & -> & Hy).
      destruct Ht as [<-|[]]. apply input_tree_yield in Hy. destruct Hy as [Hy _]. eapply tree_rules_range; eauto. }
    destruct (root_form c w g0 T Hs Hd) as (s & alts & -> & Ha).
    destruct alts as [|[d1 T1] [|a2 alts]].
    - apply shape_sum in Hs. now destruct Hs.
    - destruct (Ha _ (or_introl eq_refl)) as [Ea|(X & Ea)]; cbn [snd] in Ea; subst T1.
      + right. split; [|exists d1; reflexivity]. apply srep_sum in Hr. destruct Hr as [_ Hr]. cbn [length places] in Hr.
        inversion Hr as [|? ? ? ? (f & E1 & X) _]; subst. cbn [fst snd] in *. cbn [srep] in X.
        unfold skip_wrapper. rewrite (idx_some _ _ _ _ E1). cbn [bind]. rewrite (idx_some _ _ _ _ X). cbn [bind].
        rewrite Hi, I3. reflexivity.
      + left. rewrite <- I2 in Hr. destruct (wrapper_root ev fi nv nulls Hnulls Hac b s d1 0 X h Hi Hr) as (r & Hsk & HX).
        apply fok_sum in Hf. destruct Hf as [_ Hf]. inversion Hf as [|? ? [Hf1 _] _]; subst. cbn in Hf1.
        destruct (rep_value ev fi nv nulls Hnulls Hac b0 b x X r Hb0 Hx HX (proj2 Hf1)) as [n Hn].
        exists (fev ev fi nulls X). split; [exists r, n; auto|]. intros d t Ht.
        apply shape_sum in Hs. destruct Hs as [_ Hs]. inversion Hs as [|? ? HsX _]; subst. cbn in HsX. destruct HsX as [_ HsX].
        cbn [trees flat_map fst snd map app] in Ht. rewrite !app_nil_r in Ht.
        apply map_single in Ht. destruct Ht as (xs & Exs & Hxs). apply map_single in Exs. destruct Exs as (ys & Eys & Hys).
        subst xs. injection Hxs as _ Hxs. rewrite Hxs in Eys. rewrite (unambiguous_value ev fi nulls X [t] HsX Eys). cbn. apply app_nil_r.
    - left. destruct (rep_value ev fi nv nulls Hnulls Hac b0 b x _ h Hb0 Hx Hr Hf) as [n Hn].
      exists (fev ev fi nulls (FSum s ((d1, T1) :: a2 :: alts))). split.
      + exists h, n. split; [|auto]. eapply ambiguous_root; [|exact Hr]. cbn. lia.
      + intros d t Ht. exfalso. apply flat_map_length1 in Ht.
        * destruct Ht as (a & Ea & _). discriminate.
        * apply shape_sum in Hs. destruct Hs as [_ Hs]. rewrite Forall_forall in Hs. intros a Hin Hn'. apply map_eq_nil in Hn'.
          now apply (shape_trees (snd a)); [apply Hs|].
  Qed.

  Lemma root_each : forall b h, b_info b = fi ->
    (exists vs, root_value ev fi nv b h vs) \/ (exists vs, skip_wrapper ev b h = Ret (inr vs)) ->
    exists vs, (forall vs', root_value ev fi nv b h vs' -> vs' = vs) /\
      (forall vs', skip_wrapper ev b h = Ret (inr vs') -> vs' = vs) /\
      forall k, exists fuel0 b', forall fuel, fuel0 <= fuel -> evaluate_each ev fuel (repeat h k) b = Ret (repeat vs k, b').
  Proof.
    intros b h Hi [[vs Hv]|[vs Hv]]; exists vs.
    - split; [|split].
      + intros vs' Hv'. destruct (evaluate_root ev fi nv Hpush b h vs Hi Hv) as (f1 & b1 & _ & _ & H1).
        destruct (evaluate_root ev fi nv Hpush b h vs' Hi Hv') as (f2 & b2 & _ & _ & H2).
        specialize (H1 (f1 + f2) ltac:(lia)). specialize (H2 (f1 + f2) ltac:(lia)). congruence.
      + intros vs' H. destruct Hv as (r & n & H' & _). congruence.
      + intros k. destruct (evaluate_roots ev fi nv Hpush (repeat (h, vs) k) b Hi) as (f & b' & H).
        * apply Forall_forall. intros rv Hin. apply repeat_spec in Hin. subst rv. exact Hv.
        * exists f, b'. intros fuel Hf. specialize (H fuel Hf). rewrite !map_repeat in H. exact H.
    - split; [|split].
      + intros vs' (r & n & H' & _). congruence.
      + intros vs' H. congruence.
      + intros k. exists 0, b. intros fuel _. unfold evaluate_each.
        assert (G : forall out, foldM (fun st root => let '(out, b) := st in '(vs, b) <- evaluate ev fuel b root ;; Ret (out ++ [vs], b)) (repeat h k) (out, b)
          = Ret (out ++ repeat vs k, b)).
        { induction k as [|k IH]; intros out; cbn [repeat foldM]; [now rewrite app_nil_r|].
          unfold evaluate at 1. rewrite Hv. cbn [bind]. rewrite IH. now rewrite <- app_assoc. }
        apply (G []).
  Qed.

  (** whatever the client does, the finished node can be evaluated, again and again *)
  Lemma P_evaluates_any : forall h0 rest, in_range c nsyms h0 rest ->
    (exists fuel, (st <- r_new g b0 ;; parse_forest simple_forest P g fuel (from_start w h0 rest) st) <> NoFuel) ->
    exists n r, total n (fun fuel => st <- r_new g b0 ;; parse_forest simple_forest P g fuel (from_start w h0 rest) st) r /\
      forall h, fst r = Some h -> exists vs, forall k, exists fuel0 b', forall fuel, fuel0 <= fuel ->
        evaluate_each ev fuel (repeat h k) (snd r) = Ret (repeat vs k, b').
  Proof.
    intros h0 rest Hr Hends. destruct (new_at fi b0 Hb0) as (Hi0 & Hc & _).
    destruct (simple_trees_any P c nsyms w d0 g0 g Hleo HB b0 Hc (from_start w h0 rest)) as (n & o & b & T & l & A & Hi & _ & (x & Hx) & B & C & D & _).
    - now apply (from_start_ok c nsyms w d0 g0).
    - discriminate.
    - exact Hends.
    - exists n, (o, b). split; [exact A|]. intros h Eh. cbn [fst snd] in *. subst o. destruct C as (C1 & C2 & C3 & _).
      assert (Hib : b_info b = fi) by congruence.
      destruct (root_evaluates b x T h Hib Hx C1 C2) as [(vs & Hv & _)|(Hv & _)].
      + intros ts Hts. apply trees_den in Hts. apply (Permutation_in _ (Permutation_sym C3)) in Hts.
        destruct (D ts Hts) as (t & -> & Ht). apply (from_start_accepted c nsyms w d0 g0 HP) in Ht. destruct Ht as (ys & _ & Ht & _). eauto.
      + destruct (root_each b h Hib ltac:(eauto)) as (vs' & _ & _ & H). eauto.
      + destruct (root_each b h Hib ltac:(eauto)) as (vs' & _ & _ & H). eauto.
  Qed.

  Lemma P_value_any : forall use xs, (forall s v, In (s, v) xs -> user_terminal c nsyms w s) -> sorted_rules c ->
    (exists fuel, (st <- r_new g b0 ;; parse_forest simple_forest P g fuel (hinted use 0 ((w_sof w, 0) :: xs)) st) <> NoFuel) ->
    forall t0, (forall t, input_tree c w g0 xs t <-> t = t0) ->
    exists n h b, total n (fun fuel => st <- r_new g b0 ;; parse_forest simple_forest P g fuel (hinted use 0 ((w_sof w, 0) :: xs)) st) (Some h, b) /\
      forall k, exists fuel0 b', forall fuel, fuel0 <= fuel -> evaluate_each ev fuel (repeat h k) b =
        Ret (repeat (match t0 with
                     | Node _ [_; t] => value ev fi nulls t
                     | _ => ev_nulling ev (w_inner w) []
                     end) k, b').
  Proof.
    intros use xs Hu Hord Hends t0 Ht0. rewrite hinted_from_start in *. destruct (new_at fi b0 Hb0) as (Hi0 & Hc & _).
    assert (Hx : forall s v, In (s, v) xs -> s < nsyms /\ terminal R s).
    { intros s v H. destruct (Hu s v H) as (X & Y & _). auto. }
    pose proof (hinted_in_range c nsyms w d0 g0 HP use xs Hx) as Hr. set (h0 := if use 0 then _ else _) in *.
    destruct (simple_trees_any P c nsyms w d0 g0 g Hleo HB b0 Hc (from_start w h0 (hinted use 1 xs))) as (n & o & b & T & l & A & Hi & _ & (x & Hgx) & B & C & D & F & G).
    - now apply (from_start_ok c nsyms w d0 g0).
    - discriminate.
    - exact Hends.
    - destruct G as [G1 G2].
      { assumption. }
      { apply (from_start_toks c nsyms w d0 g0 HP). now apply (hinted_distinct c nsyms). }
      assert (Hin : In [t0] l).
      { apply G2.
        - apply (from_start_accepted c nsyms w d0 g0 HP). apply hinted_read. now apply Ht0.
        - apply from_start_truthful. apply (hinted_match c nsyms w g0); [auto|]. now apply Ht0. }
      assert (Hall : forall ts, In ts l -> ts = [t0] /\ exists ys, input_tree c w g0 ys t0).
      { intros ts Hts. destruct (D ts Hts) as (t & -> & Ht). apply (from_start_accepted c nsyms w d0 g0 HP) in Ht.
        apply (hinted_read c w g0) in Ht. pose proof Ht as Ht'. apply Ht0 in Ht. subst t. eauto. }
      assert (El : l = [[t0]]).
      { destruct l as [|a [|a' l]]; [destruct Hin| |].
        - destruct (Hall a (or_introl eq_refl)) as [-> _]. reflexivity.
        - exfalso. destruct (Hall a (or_introl eq_refl)) as [-> _]. destruct (Hall a' (or_intror (or_introl eq_refl))) as [-> _].
          inversion G1 as [|? ? X _]; subst. apply X. now left. }
      subst l. destruct o as [h|]; [|cbn in B; discriminate]. exists n, h, b. split; [exact A|].
      destruct C as (C1 & C2 & C3 & _). apply Permutation_length_1_inv in C3. assert (Hib : b_info b = fi) by congruence.
      destruct (root_evaluates b x T h Hib Hgx C1 C2) as [(vs & Hv & Hval)|(Hv & d & Hd)].
      + intros ts Hts. apply trees_den in Hts. rewrite C3 in Hts. destruct (Hall _ Hts) as (-> & ys & Hy). eauto.
      + destruct (root_each b h Hib ltac:(eauto)) as (vs' & K1 & _ & K2). rewrite (K1 vs Hv) in *. clear K1.
        assert (Hf0 : exists ys, input_tree c w g0 ys t0) by (destruct (Hall _ Hin); auto). destruct Hf0 as (ys & Hy).
        destruct Hy as [d r t _ _ _ _|d r Hdr Hl Hrr].
        * rewrite <- (Hval d t C3). exact K2.
        * exfalso. destruct (root_form c w g0 T C2) as (s & alts & -> & Ha).
          { intros ts Hts. apply trees_den in Hts. rewrite C3 in Hts. destruct (Hall _ Hts) as (-> & ys & Hy). eauto. }
          cbn [trees] in C3. apply flat_map_length1 in C3.
          2:{ apply shape_sum in C2. destruct C2 as [_ C2]. rewrite Forall_forall in C2. intros a Ha' Hn'. apply map_eq_nil in Hn'.
              now apply (shape_trees (snd a)); [apply C2|]. }
          destruct C3 as ([d1 T1] & -> & C3). apply map_single in C3. destruct C3 as (zs & Ez & Hz). cbn [fst snd] in *.
          injection Hz as _ Hz. subst zs.
          destruct (Ha _ (or_introl eq_refl)) as [Ea|(X & Ea)]; cbn [snd] in Ea; subst T1.
          -- destruct Hv as (r0 & n0 & Hv & _).
             apply srep_sum in C1. destruct C1 as [_ C1]. cbn [length places] in C1.
             inversion C1 as [|? ? ? ? (f & E1 & X) _]; subst. cbn [fst snd] in *. cbn [srep] in X.
             unfold skip_wrapper in Hv. rewrite (idx_some _ _ _ _ E1) in Hv. cbn [bind] in Hv. rewrite (idx_some _ _ _ _ X) in Hv. discriminate.
          -- pose proof (trees_length (FProd (FLeaf (w_sof w) 0) X) [Leaf (w_sof w) 0]) as L. rewrite Ez in L.
             specialize (L (or_introl eq_refl)). cbn in L. lia.
      + rewrite C3 in Hd. injection Hd as ->. destruct (root_each b h Hib ltac:(eauto)) as (vs' & _ & K1 & K2).
        rewrite (K1 _ Hv). exact K2.
  Qed.
End Evaluate.

Section EvaluateAcyclic.
  Variable P : perf.
  Variables (c : pcfg) (nsyms : nat) (w : wrapped_root) (d0 : nat) (g0 : sym) (g : dgrammar).
  Hypothesis Hleo : LEO P = false.
  Hypothesis HB : built c nsyms w d0 g0 g.
  Variable b0 : bocage.
  Notation fi := (g_forest_info g).
  Hypothesis Hb0 : bocage_new fi = Ret b0.
  Notation R := (c_rules c).
  Context {E : Type}.
  Variables (ev : evaluator E) (nv : sym -> E) (nulls : sym -> list E).
  Hypothesis Hpush : pushes ev nv.
  Hypothesis Hnulls : nulls_ok fi nv nulls.
  Hypothesis Hac : nulling_acyclic fi.

  Lemma P_evaluates : forall h0 rest, in_range c nsyms h0 rest ->
    exists n r, total n (fun fuel => st <- r_new g b0 ;; parse_forest simple_forest P g fuel (from_start w h0 rest) st) r /\
      forall h, fst r = Some h -> exists vs, forall k, exists fuel0 b', forall fuel, fuel0 <= fuel ->
        evaluate_each ev fuel (repeat h k) (snd r) = Ret (repeat vs k, b').
  Proof.
    intros h0 rest Hr. exact (P_evaluates_any P c nsyms w d0 g0 g Hleo HB b0 Hb0 ev nv nulls Hpush Hnulls Hac h0 rest Hr
      (from_start_ends P c nsyms w d0 g0 g Hleo HB fi b0 Hb0 h0 rest Hr)).
  Qed.

  Lemma P_value : forall use xs, (forall s v, In (s, v) xs -> user_terminal c nsyms w s) -> sorted_rules c ->
    forall t0, (forall t, input_tree c w g0 xs t <-> t = t0) ->
    exists n h b, total n (fun fuel => st <- r_new g b0 ;; parse_forest simple_forest P g fuel (hinted use 0 ((w_sof w, 0) :: xs)) st) (Some h, b) /\
      forall k, exists fuel0 b', forall fuel, fuel0 <= fuel -> evaluate_each ev fuel (repeat h k) b =
        Ret (repeat (match t0 with
                     | Node _ [_; t] => value ev fi nulls t
                     | _ => ev_nulling ev (w_inner w) []
                     end) k, b').
  Proof.
    intros use xs Hu Hord. exact (P_value_any P c nsyms w d0 g0 g Hleo HB b0 Hb0 ev nv nulls Hpush Hnulls Hac use xs Hu Hord
      (hinted_ends P c nsyms w d0 g0 g Hleo HB fi b0 Hb0 use xs Hu)).
  Qed.
End EvaluateAcyclic.

(** ** Dropping Earley sets *)
Lemma P_dropping : forall F N (fo : forest_ops F N) f0 P c nsyms w d0 g0 g,
  configured fo f0 P c nsyms w d0 g0 g -> position_blind fo ->
  forall locs, (forall loc, In loc locs -> match l_hint loc with Some t => t < nsyms | None => True end /\
      forall s v, In (s, v) (l_toks loc) -> s < c_num_syms c) -> locs <> [] ->
  exists st0 n b, r_new g f0 = Ret st0 /\
    (forall fuel, fuel < n -> feed_all fo P g fuel locs st0 = NoFuel /\ feed_all_keeping_sets fo P g fuel locs st0 = NoFuel) /\
    (forall fuel, n <= fuel -> exists st1 st2,
       feed_all fo P g fuel locs st0 = Ret (b, st1) /\ feed_all_keeping_sets fo P g fuel locs st0 = Ret (b, st2) /\
       r_forest st1 = r_forest st2 /\ finished_node fo g st1 = finished_node fo g st2 /\
       (b = true -> exists o, finished_node fo g st1 = Ret o)).
Proof.
  intros F N fo f0 P c nsyms w d0 g0 g HC HB locs Hok Hne.
  destruct (cf_forest _ _ _ _ _ _ _ _ _ HC) as (ok & HU & Hf0).
  destruct (dropping_same fo ok HU P c nsyms w d0 g0 g (cf_leo _ _ _ _ _ _ _ _ _ HC) (cf_grammar _ _ _ _ _ _ _ _ _ HC)
    f0 locs Hf0 Hok Hne) as (st0 & n1 & n2 & b & fin & E0 & A1 & _ & B1 & _).
  exists st0, n1, b. split; [exact E0|].
  pose proof (fun fuel => drop_run fo HB P (cf_leo _ _ _ _ _ _ _ _ _ HC) g fuel locs f0 st0 E0) as D.
  split.
  - intros fuel Hf. split; [auto|]. specialize (D fuel). rewrite (A1 fuel Hf) in D. exact D.
  - intros fuel Hf. destruct (B1 fuel Hf) as (st1 & E1 & Hfin). specialize (D fuel). rewrite E1 in D.
    destruct D as ([b2 st2] & E2 & Hb & Hfo & Hn). cbn [fst snd] in *. subst b2. exists st1, st2.
    split; [exact E1|]. split; [exact E2|]. split; [exact Hfo|]. split; [exact Hn|].
    intros Hb. specialize (Hfin Hb). unfold is_finished in Hfin.
    destruct (finished_node fo g st1) as [o| |]; try discriminate. eauto.
Qed.

Lemma simple_blind : position_blind simple_forest.
Proof. constructor; reflexivity. Qed.
