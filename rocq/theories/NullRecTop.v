(** NullRecTop: the costs of NullRec.v over every forest; the grammar is LR(1). *)
From Coq Require Import List Arith Bool Lia.
From Verif Require Import Base BaseProofs Vec2d Vec2dProofs Item Heap Grammar BitMatrix DefaultGrammar Forest ForestSpec Recognizer Drive ClientSpec Parse FromGrammar
  Spec Sim CrateSpec UserSpec CostSpec LRSpec RightRec RightRecTop NullRec ParseFacts LinearProps SimpleBocage SimpleProofs SimpleTop CompactGraph CompactBocage
  CompactProofs Cost CostTop ExampleGrammars.
From Verif Require ReferenceCrate SpecFacts ReferenceFacts CrateFacts CrateProcessed LinearRef.
Import ListNotations.
Local Open Scope res_scope.

Notation all_hints := (fun _ : nat => true).
(** n times y, z, and n + 1 times t; as the user writes them, and as the recognizer does *)
Definition nr_tokens (n m : nat) : list sym := repeat 1 n ++ 2 :: repeat 3 (S m).
Definition nr_syms (n m : nat) : list sym := repeat 5 n ++ 4 :: repeat 7 (S m).

Lemma nr_mapped : forall n m, mapped nr_dg (nr_tokens n m) (nr_syms n m).
Proof.
  intros n m. unfold mapped, nr_tokens, nr_syms. apply Forall2_app.
  - induction n; constructor; auto.
  - constructor; [reflexivity|]. induction (S m); constructor; auto.
Qed.

Section Run.
  Variable P : perf.
  Hypothesis HL : LEO P = false.
  Notation state := (rstate (nat * nat) unit).

  Lemma hd_ts : forall m i, hint_t (hd_error (map fst (numbered i (repeat 7 m)))).
  Proof. intros [|m] i; [left; reflexivity|right; reflexivity]. Qed.

  Lemma run_ts : forall m i j (st : state) n c p fuel, afterT st n (c, p) -> 2 * n + 4 <= fuel ->
    exists st', feed_all tally P nr_dg fuel (hinted all_hints j (numbered i (repeat 7 m))) st = Ret (true, st') /\
      afterT st' n (m * (7 * n + 16) + c, m * (2 * n + 4) + p).
  Proof.
    induction m as [|m IH]; intros i j st n c p fuel H Hfu; [exists st; auto|].
    cbn [repeat numbered hinted feed_all].
    destruct (feed_t2 P HL st n c p i _ fuel H (hd_ts m (S i)) Hfu) as (st1 & E & H1). unfold loc, sym in *. rewrite E. cbn [bind].
    destruct (IH (S i) (S j) st1 n _ _ fuel H1 Hfu) as (st2 & E2 & H2). exists st2. split; [exact E2|].
    replace (S m * (7 * n + 16) + c) with (m * (7 * n + 16) + (7 * n + 16 + c)) by lia.
    replace (S m * (2 * n + 4) + p) with (m * (2 * n + 4) + (2 * n + 4 + p)) by lia. exact H2.
  Qed.

  Lemma run_ys : forall k i j (st : state) n m c p fuel, afterY st n (c, p) -> 2 * (n + k) + 4 <= fuel ->
    exists st', feed_all tally P nr_dg fuel (hinted all_hints j (numbered i (nr_syms k m))) st = Ret (true, st') /\
      afterT st' (n + k) (c + k + 1 + (7 * (n + k) + 15) + m * (7 * (n + k) + 16), p + S m * (2 * (n + k) + 4)).
  Proof.
    induction k as [|k IH]; intros i j st n m c p fuel H Hfu.
    - unfold nr_syms. cbn [repeat app numbered hinted feed_all map fst hd_error].
      destruct (feed_z P HL st n c p i (Some 7) fuel H eq_refl) as (st1 & E1 & H1). unfold loc, sym in *. rewrite E1. cbn [bind].
      destruct (feed_t1 P HL st1 n _ _ (S i) _ fuel H1 (hd_ts m (S (S i))) ltac:(lia)) as (st2 & E2 & H2). unfold loc, sym in *. rewrite E2. cbn [bind].
      destruct (run_ts m (S (S i)) (S (S j)) st2 n _ _ fuel H2 ltac:(lia)) as (st3 & E3 & H3). exists st3. split; [exact E3|].
      rewrite !Nat.add_0_r. replace (c + 1 + (7 * n + 15) + m * (7 * n + 16)) with (m * (7 * n + 16) + (7 * n + 15 + S c)) by lia.
      replace (p + S m * (2 * n + 4)) with (m * (2 * n + 4) + (2 * n + 4 + p)) by lia. exact H3.
    - unfold nr_syms. cbn [repeat app numbered hinted feed_all].
      assert (Hu : NullRec.useful (hd_error (map fst (numbered (S i) (repeat 5 k ++ 4 :: repeat 7 (S m))))) 9) by (destruct k; reflexivity).
      destruct (feed_y P HL st n c p i _ fuel H Hu) as (st1 & E1 & H1). change (repeat 7 (S m)) with (7 :: repeat 7 m) in E1. unfold loc, sym in *. rewrite E1. cbn [bind].
      destruct (IH (S i) (S j) st1 (S n) m _ _ fuel H1 ltac:(lia)) as (st2 & E2 & H2). exists st2. split; [exact E2|]. change (repeat 7 (S m)) with (7 :: repeat 7 m) in E2.
      rewrite Nat.add_succ_r. cbn [Nat.add] in H2. 
      replace (c + S k + 1 + (7 * S (n + k) + 15) + m * (7 * S (n + k) + 16)) with (S (c + k + 1 + (7 * S (n + k) + 15) + m * (7 * S (n + k) + 16))) by lia. exact H2.
  Qed.

  Definition nr_locs (n m : nat) : list location := mkLoc None [(2, 0)] keep_all :: hinted all_hints 0 (numbered 0 (nr_syms n m)).

  Lemma nr_run : forall n m fuel, 2 * n + 4 <= fuel ->
    exists st', (st <- r_new nr_dg (0, 0) ;; feed_all tally P nr_dg fuel (nr_locs n m) st) = Ret (true, st') /\
      is_finished tally nr_dg st' = Ret true /\ r_forest st' = (8 * n + 17 + m * (7 * n + 16), S m * (2 * n + 4)).
  Proof.
    intros n m fuel Hfu. destruct (feed_sof P HL fuel) as (st1 & E1 & H1).
    destruct (run_ys n 0 0 st1 0 m _ _ fuel H1 Hfu) as (st2 & E2 & H2). cbn [Nat.add] in H2. exists st2.
    split.
    { destruct (r_new nr_dg (0, 0)) as [st0| |]; [|discriminate|discriminate]. unfold nr_locs. cbn [bind feed_all] in *. unfold loc, sym in *. rewrite E1. cbn [bind]. exact E2. }
    destruct H2 as (tail & [A1 A2 A3 A4 A5]). split.
    - unfold is_finished, finished_node, earleme. rewrite (rep_len _ _ _ A4), app_length, sets_length. cbn [length Nat.add is_null andb].
      rewrite andb_false_r, (rep_last _ _ _ A4). reflexivity.
    - rewrite A1. f_equal; lia.
  Qed.
End Run.

(** [parse] of these tokens is that run *)
Lemma nr_parse : forall F N (fo : forest_ops F N) P f0 n m fuel s st, r_new nr_dg f0 = Ret s ->
  feed_all fo P nr_dg fuel (nr_locs n m) s = Ret (true, st) -> is_finished fo nr_dg st = Ret true ->
  parse fo P nr_dg fuel s (nr_tokens n m) = Ret (POk true, st).
Proof.
  intros F N fo P f0 n m fuel s st E H Fin. unfold parse. rewrite read_sof_feed, (new_no_hint _ _ _ _ _ E).
  change (g_sof_sym nr_dg) with 2. unfold nr_locs in H. cbn [feed_all] in H. unfold sym in *.
  apply bindR in H. destruct H as ([[] s1] & Ef & H); [|discriminate].
  match goal with |- bind ?x _ = _ => replace x with (Ret (true, s1)) by (symmetry; exact Ef) end. cbn [bind].
  pose proof (parse_loop_feed fo P nr_dg all_hints fuel (nr_tokens n m) (nr_syms n m) 0 0 s1 (nr_mapped n m) ltac:(auto)) as X.
  unfold sym in *. rewrite H in X. cbn [loop_result] in X. unfold sym in *. rewrite X. cbn [bind]. rewrite Fin. reflexivity.
Qed.

Lemma P_nr_calls : forall F N (fo : forest_ops F N) ok f0 P, usable fo ok -> ok Idle f0 -> LEO P = false ->
  forall n fuel, 2 * n + 4 <= fuel ->
  exists st, (st <- r_new nr_dg (f0, 0) ;; parse (counted fo) P nr_dg fuel st (repeat 1 n ++ 2 :: repeat 3 (S n))) = Ret (POk true, st) /\
    snd (r_forest st) = 7 * n ^ 2 + 24 * n + 17.
Proof.
  intros F N fo ok f0 P U H0 HL n fuel Hfu.
  destruct (nr_run P HL n n fuel Hfu) as (st1 & E & Fin & Ef).
  pose proof (sim_new (F1 := nat * nat) (F2 := F * nat) (N1 := unit) (N2 := N) (callsJ ok) anyQ nr_dg (0, 0) (f0, 0)) as X.
  destruct (r_new nr_dg (0, 0)) as [s1| |]; [|discriminate|discriminate]. cbn [bind] in E.
  destruct X as (s2 & E2 & X); [split; auto|]. rewrite E2. cbn [bind].
  pose proof (sim_feed_all _ _ _ _ (calls_sim fo ok U) P nr_dg fuel (nr_locs n n) _ _ X) as Y.
  rewrite E in Y. destruct Y as ([b st2] & E3 & Eb & Y). cbn [fst snd] in *. subst b. exists st2. split.
  - apply (nr_parse _ _ _ _ _ _ _ _ _ _ E2 E3).
    pose proof (sim_is_finished _ _ _ _ (calls_sim fo ok U) nr_dg I _ _ Y) as Z. rewrite Fin in Z. destruct Z as (b & -> & <-). reflexivity.
  - destruct Y as [[_ Y] _]. rewrite Ef in Y. cbn [fst] in Y. rewrite <- Y. cbn [Nat.pow]. nia.
Qed.

Lemma P_nr_size : forall F N (fo : forest_ops F N) ok f0 P size, usable fo ok -> ok Idle f0 -> LEO P = false -> grows_by_summands fo size ->
  forall n fuel, 2 * n + 4 <= fuel ->
  exists st, (st <- r_new nr_dg f0 ;; parse fo P nr_dg fuel st (repeat 1 n ++ 2 :: repeat 3 (S n))) = Ret (POk true, st) /\
    size f0 + S n * (2 * n + 4) <= size (r_forest st).
Proof.
  intros F N fo ok f0 P size U H0 HL G n fuel Hfu.
  destruct (nr_run P HL n n fuel Hfu) as (st1 & E & Fin & Ef).
  pose proof (sim_new (F1 := nat * nat) (F2 := F) (N1 := unit) (N2 := N) (sizeJ ok size (size f0)) anyQ nr_dg (0, 0) f0) as X.
  destruct (r_new nr_dg (0, 0)) as [s1| |]; [|discriminate|discriminate]. cbn [bind] in E.
  destruct X as (s2 & E2 & X); [split; cbn; auto; lia|]. rewrite E2. cbn [bind].
  pose proof (sim_feed_all _ _ _ _ (size_sim fo ok U size G (size f0)) P nr_dg fuel (nr_locs n n) _ _ X) as Y.
  rewrite E in Y. destruct Y as ([b st2] & E3 & Eb & Y). cbn [fst snd] in *. subst b. exists st2. split.
  - apply (nr_parse _ _ _ _ _ _ _ _ _ _ E2 E3).
    pose proof (sim_is_finished _ _ _ _ (size_sim fo ok U size G (size f0)) nr_dg I _ _ Y) as Z. rewrite Fin in Z. destruct Z as (b & -> & <-). reflexivity.
  - destruct Y as [[_ Y] _]. rewrite Ef in Y. cbn [snd] in Y. exact Y.
Qed.

Lemma P_nr_time : forall F N (fo : forest_ops F N) ok f0 P, usable fo ok -> ok Idle f0 -> LEO P = false ->
  forall k, exists tokens fuel st,
    (st <- r_new nr_dg (f0, 0) ;; parse (counted fo) P nr_dg fuel st tokens) = Ret (POk true, st) /\
    k * (length tokens * S (Nat.log2 (length tokens))) < snd (r_forest st).
Proof.
  intros F N fo ok f0 P U H0 HL k. destruct (quadratic_beats (8 * k)) as (n & Hn & Hk).
  destruct (P_nr_calls F N fo ok f0 P U H0 HL n (2 * n + 4) (le_n _)) as (st & E & Ec).
  exists (repeat 1 n ++ 2 :: repeat 3 (S n)), (2 * n + 4), st. split; [exact E|]. rewrite Ec.
  assert (El : length (repeat 1 n ++ 2 :: repeat 3 (S n)) = 2 * n + 2) by (rewrite app_length; cbn [length]; rewrite !repeat_length; lia). unfold sym in *. rewrite El.
  assert (Lg : Nat.log2 (2 * n + 2) <= S (S (Nat.log2 n))).
  { replace (S (S (Nat.log2 n))) with (Nat.log2 (2 * (2 * n))) by (rewrite !Nat.log2_double by lia; reflexivity). apply Nat.log2_le_mono. lia. }
  revert Hk Lg. generalize (Nat.log2 n) (Nat.log2 (2 * n + 2)). intros a b Hk Lg.
  assert (k * ((2 * n + 2) * S b) <= k * (4 * n * (3 + a))) by (apply Nat.mul_le_mono_l, Nat.mul_le_mono; lia).
  cbn [Nat.pow] in *. nia.
Qed.

Lemma P_nr_memory : forall P, LEO P = false -> forall k, exists tokens, forall fuel, length tokens + 2 <= fuel ->
  (forall b0, bocage_new (g_forest_info nr_dg) = Ret b0 -> exists st,
    (st <- r_new nr_dg b0 ;; parse simple_forest P nr_dg fuel st tokens) = Ret (POk true, st) /\ k * length tokens < length (b_graph (r_forest st))) /\
  (forall b0, exists st,
    (st <- r_new nr_dg b0 ;; parse compact_forest P nr_dg fuel st tokens) = Ret (POk true, st) /\ k * length tokens < length (cb_graph (r_forest st))).
Proof.
  intros P HL k. exists (repeat 1 (S k) ++ 2 :: repeat 3 (S (S k))). intros fuel Hf.
  assert (El : length (repeat 1 (S k) ++ 2 :: repeat 3 (S (S k))) = 2 * k + 4) by (rewrite app_length; cbn [length]; rewrite !repeat_length; lia).
  unfold sym in *. rewrite El in *. split.
  - intros b0 Hb. destruct (new_at _ _ Hb) as (_ & H0 & _).
    destruct (P_nr_size _ _ simple_forest simple_ok b0 P _ simple_usable H0 HL simple_grows (S k) fuel ltac:(lia)) as (st & E & Hs).
    exists st. split; [exact E|]. nia.
  - intros b0.
    destruct (P_nr_size _ _ compact_forest compact_ok b0 P _ compact_usable I HL compact_grows (S k) fuel ltac:(lia)) as (st & E & Hs).
    exists st. split; [exact E|]. nia.
Qed.

(** ** the grammar *)
Lemma nr_user_ok : user_grammar nr_user 0.
Proof.
  split; [|cbn; lia|reflexivity|].
  - intros s (r & Hr & Hs). cbn in Hr. destruct Hr as [<-|[<-|[<-|[<-|[<-|[]]]]]]; cbn in Hs; cbn; intuition lia.
  - intros r Hr. cbn in Hr. destruct Hr as [<-|[<-|[<-|[<-|[<-|[]]]]]]; discriminate.
Qed.

Notation NA := (augmented nr_user 0).

Lemma nr_in : forall r, In r NA -> (p_lhs r = 6 /\ p_rhs r = [0]) \/ (p_lhs r = 0 /\ (p_rhs r = [1; 0; 5] \/ p_rhs r = [2; 4; 5])) \/
  (p_lhs r = 4 /\ (p_rhs r = [4; 3] \/ p_rhs r = [3])) \/ (p_lhs r = 5 /\ p_rhs r = []).
Proof. intros r Hr. cbn in Hr. destruct Hr as [<-|[<-|[<-|[<-|[<-|[<-|[]]]]]]]; cbn; auto 8. Qed.

Definition nonterm (s : nat) : Prop := s = 0 \/ s = 4 \/ s = 5 \/ s = 6.
Lemma nr_nonterm : forall s, terminal NA s -> ~ nonterm s.
Proof.
  intros s H [-> |[-> |[-> | ->]]].
  - apply (H (rule 0 [1; 0; 5] (Some 0))); cbn; auto.
  - apply (H (rule 4 [3] (Some 3))); cbn; auto 8.
  - apply (H (rule 5 [] (Some 4))); cbn; auto 8.
  - apply (H (mkRule 6 [0] None None [])); cbn; auto.
Qed.
Lemma nr_lhs : forall r, In r NA -> nonterm (p_lhs r).
Proof. intros r Hr. unfold nonterm. destruct (nr_in r Hr) as [[-> _]|[[-> _]|[[-> _]|[-> _]]]]; auto. Qed.

(** where the last nonterminal is *)
Lemma split_last : forall u a w u' b w', u ++ a :: w = u' ++ b :: w' -> nonterm a -> nonterm b ->
  (forall x, In x w -> ~ nonterm x) -> (forall x, In x w' -> ~ nonterm x) -> u = u' /\ a = b /\ w = w'.
Proof.
  induction u as [|x u IH]; intros a w u' b w' E Ha Hb Hw Hw'; destruct u' as [|x' u']; cbn in E; injection E as Ex E.
  - auto.
  - exfalso. apply (Hw b); [|exact Hb]. rewrite E. apply in_app_iff. right. now left.
  - exfalso. apply (Hw' a); [|exact Ha]. rewrite <- E. apply in_app_iff. right. now left.
  - destruct (IH _ _ _ _ _ E Ha Hb Hw Hw') as (-> & -> & ->). subst. auto.
Qed.

Lemma ts_terminal : forall m x, In x (repeat 3 m) -> ~ nonterm x.
Proof. intros m x H. apply repeat_spec in H. subst x. unfold nonterm. lia. Qed.

(** the right-sentential forms: what is before, the nonterminal to replace, what is after *)
Inductive nr_place : list nat -> nat -> list nat -> Prop :=
| np_start : nr_place [] 6 []
| np_A : forall i, nr_place (repeat 1 i) 0 []
| np_N1 : forall i, nr_place (repeat 1 (S i) ++ [0]) 5 []
| np_N2 : forall i, nr_place (repeat 1 i ++ [2; 4]) 5 []
| np_B : forall i m, nr_place (repeat 1 i ++ [2]) 4 (repeat 3 m).
Definition nr_form (x : list nat) : Prop := (exists u a w, x = u ++ a :: w /\ nr_place u a w) \/ (forall y, In y x -> ~ nonterm y).

Lemma nr_split : forall r u w, In r NA -> Forall (terminal NA) w -> nr_form (u ++ p_lhs r :: w) -> nr_place u (p_lhs r) w.
Proof.
  intros r u w Hr Hw [(u' & a & w' & E & Hp)|H].
  - destruct (split_last _ _ _ _ _ _ E) as (-> & -> & ->); auto.
    + now apply nr_lhs.
    + destruct Hp; unfold nonterm; auto.
    + intros x Hx. apply nr_nonterm. rewrite Forall_forall in Hw. now apply Hw.
    + destruct Hp; cbn; try tauto. apply ts_terminal.
  - exfalso. apply (H (p_lhs r)); [apply in_app_iff; right; now left|now apply nr_lhs].
Qed.

Lemma ones_snoc : forall i (l : list nat), repeat 1 i ++ 1 :: l = repeat 1 (S i) ++ l.
Proof. induction i as [|i IH]; intros l; [reflexivity|]. cbn [repeat app] in *. now rewrite IH. Qed.

Lemma nr_forms : forall x, sentential NA 6 x -> nr_form x.
Proof.
  intros x H. induction H as [|x y _ IH Hs]; [left; exists [], 6, []; split; [reflexivity|constructor]|]. destruct Hs as [r u w Hr Hw].
  pose proof (nr_split r u w Hr Hw IH) as Hp. pose proof (nr_in r Hr) as Hi. remember (p_lhs r) as a eqn:Ea. clear Ea.
  destruct Hp as [|i|i|i|i m]; destruct Hi as [[Ha Hi]|[[Ha Hi]|[[Ha Hi]|[Ha Hi]]]]; try discriminate Ha; clear Ha.
  - rewrite Hi. left. exists [], 0, []. split; [reflexivity|exact (np_A 0)].
  - destruct Hi as [-> | ->]; left.
    + exists (repeat 1 (S i) ++ [0]), 5, []. split; [|apply np_N1]. cbn [app]. rewrite ones_snoc, <- app_assoc. reflexivity.
    + exists (repeat 1 i ++ [2; 4]), 5, []. split; [|apply np_N2]. cbn [app]. rewrite <- app_assoc. reflexivity.
  - rewrite Hi. left. exists (repeat 1 (S i)), 0, []. split; [|apply np_A]. cbn [app]. rewrite app_nil_r. reflexivity.
  - rewrite Hi. left. exists (repeat 1 i ++ [2]), 4, []. split; [|apply (np_B i 0)]. cbn [app]. rewrite app_nil_r, <- app_assoc. reflexivity.
  - destruct Hi as [-> | ->].
    + left. exists (repeat 1 i ++ [2]), 4, (repeat 3 (S m)). split; [reflexivity|apply np_B].
    + right. intros y Hy. rewrite <- app_assoc in Hy. unfold nonterm.
      apply in_app_iff in Hy. destruct Hy as [Hy|[<- |[<- |Hy]]]; [apply repeat_spec in Hy; lia|lia|lia|apply repeat_spec in Hy; lia].
Qed.

Lemma ones_inj : forall i j (x x' : nat) l l', repeat 1 i ++ x :: l = repeat 1 j ++ x' :: l' -> x <> 1 -> x' <> 1 -> i = j /\ x = x' /\ l = l'.
Proof.
  induction i as [|i IH]; intros [|j] x x' l l' E Hx Hx'; cbn [repeat app] in E.
  - injection E as -> ->. auto.
  - injection E as -> _. congruence.
  - injection E as <- _. congruence.
  - injection E as E. destruct (IH _ _ _ _ _ E Hx Hx') as (-> & -> & ->). auto.
Qed.

Lemma nr_lr1 : user_lr1 nr_user 0.
Proof.
  intros r1 u1 w1 r2 u2 w2 y H1 H2 W1 W2 Wy S1 S2 E Hh.
  pose proof (nr_split _ _ _ H1 W1 (nr_forms _ S1)) as P1. pose proof (nr_split _ _ _ H2 W2 (nr_forms _ S2)) as P2.
  pose proof (nr_in r1 H1) as I1. pose proof (nr_in r2 H2) as I2. clear S1 S2 H1 H2 W1 W2 Wy.
  remember (p_lhs r1) as a1 eqn:Ea1. remember (p_lhs r2) as a2 eqn:Ea2. clear Ea1 Ea2.
  assert (Y : w1 = [] -> y = []) by (intros ->; destruct y; [reflexivity|discriminate]).
  destruct P1 as [|i1|i1|i1|i1 m1]; destruct I1 as [[A1 I1]|[[A1 I1]|[[A1 I1]|[A1 I1]]]]; try discriminate A1; clear A1;
    try (rewrite (Y eq_refl) in *; clear Y Hh);
    destruct P2 as [|i2|i2|i2|i2 m2]; destruct I2 as [[A2 I2]|[[A2 I2]|[[A2 I2]|[A2 I2]]]]; try discriminate A2; clear A2;
    repeat match goal with H : _ \/ _ |- _ => destruct H as [H|H] end; rewrite I1, I2 in E; clear I1 I2;
    repeat rewrite <- app_assoc in E; cbn [app] in E; rewrite ?ones_snoc in E;
    try match type of E with [0] = ?r => change (repeat 1 0 ++ 0 :: nil = r) in E end;
    try match type of E with ?l = [0] => change (l = repeat 1 0 ++ 0 :: nil) in E end;
    apply ones_inj in E; try (intros X; discriminate X); destruct E as (Ei & Ex & El); try discriminate Ex; try discriminate El; try discriminate Ei.
  all: try (injection Ei as Ei); subst; auto.
  all: injection El as El; subst; auto.
Qed.

Notation NR := (c_rules nr_user).
Lemma nr_terminal : forall s, s = 1 \/ s = 2 \/ s = 3 -> terminal NR s.
Proof. intros s Hs r Hr E. cbn in Hr. destruct Hr as [<-|[<-|[<-|[<-|[<-|[]]]]]]; cbn in E; lia. Qed.
Lemma nr_step : forall r x, In r NR -> derives_seq NR (p_rhs r) x -> derives NR (p_lhs r) x.
Proof. intros r x Hr D. exact (derives_rule NR r x Hr D). Qed.
Lemma nr_reduced : reduced nr_user 0.
Proof.
  assert (I0 : In (rule 0 [1; 0; 5] (Some 0)) NR) by (cbn; auto). assert (I1 : In (rule 0 [2; 4; 5] (Some 1)) NR) by (cbn; auto).
  assert (I2 : In (rule 4 [4; 3] (Some 2)) NR) by (cbn; auto). assert (I3 : In (rule 4 [3] (Some 3)) NR) by (cbn; auto).
  assert (I4 : In (rule 5 [] (Some 4)) NR) by (cbn; auto 8).
  assert (DN : derives NR 5 []) by (apply (nr_step _ _ I4); constructor).
  assert (DB : derives NR 4 [3]) by (apply (nr_step _ _ I3), SpecFacts.derives_seq_self).
  assert (DzBN : derives NR 0 ([] ++ [2] ++ [4; 5])) by (apply (nr_step _ _ I1), SpecFacts.derives_seq_self).
  assert (DyAN : derives NR 0 [1; 0; 5]) by (apply (nr_step _ _ I0), SpecFacts.derives_seq_self).
  assert (DA : derives NR 0 [2; 3]).
  { apply (nr_step _ _ I1). change [2; 3] with ([2] ++ [3] ++ [] ++ []). repeat (constructor; [first [exact DN|exact DB|constructor]|]). constructor. }
  assert (DzBt : derives NR 0 [2; 3; 5]).
  { apply (nr_step _ _ I1). change [2; 3; 5] with ([2] ++ [3] ++ [5] ++ []). constructor; [constructor|]. constructor; [exact DB|]. constructor; [constructor|]. constructor. }
  intros s Hs.
  assert (Es : s = 0 \/ s = 1 \/ s = 2 \/ s = 3 \/ s = 4 \/ s = 5).
  { destruct Hs as (r & Hr & H). cbn in Hr. destruct Hr as [<-|[<-|[<-|[<-|[<-|[]]]]]]; cbn in H; intuition lia. }
  destruct Es as [->|[->|[->|[->|[->| ->]]]]].
  - split; [exists [2; 3]; split; [repeat constructor; apply nr_terminal; auto|exact DA]|]. exists [], []. constructor.
  - split; [exists [1]; split; [repeat constructor; apply nr_terminal; auto|constructor]|]. exists [], [0; 5]. exact DyAN.
  - split; [exists [2]; split; [repeat constructor; apply nr_terminal; auto|constructor]|]. exists [], [4; 5]. exact DzBN.
  - split; [exists [3]; split; [repeat constructor; apply nr_terminal; auto|constructor]|]. exists [2], [5]. exact DzBt.
  - split; [exists [3]; split; [repeat constructor; apply nr_terminal; auto|exact DB]|]. exists [2], [5]. exact DzBN.
  - split; [exists []; split; [constructor|exact DN]|]. exists [2; 4], []. exact DzBN.
Qed.

(** the FOLLOW sets of the reference crate are exact for this grammar *)
Definition nr_E : pcfg := Eval vm_compute in
  fst (x_binarize_and_eliminate ReferenceCrate.reference (x_wrap_input ReferenceCrate.reference (x_make_proper ReferenceCrate.reference nr_user))).
Notation nr_reach s := (exists u v, derives (c_rules nr_E) 6 (u ++ s :: v)).
Lemma nr_reach_step : forall r s, In r (c_rules nr_E) -> nr_reach (p_lhs r) -> In s (p_rhs r) -> nr_reach s.
Proof.
  intros r s Hr (u & v & D) Hs. apply in_split in Hs. destruct Hs as (l1 & l2 & E).
  assert (D' : derives (c_rules nr_E) (p_lhs r) (p_rhs r)) by (apply derives_rule; [exact Hr|apply SpecFacts.derives_seq_self]).
  pose proof (SpecFacts.derives_replace _ _ _ _ _ _ D D') as K. rewrite E in K. exists (u ++ l1), (l2 ++ v). 
  rewrite <- !app_assoc in *. exact K.
Qed.
Lemma nr_E_reached : forall r, In r (c_rules nr_E) -> nr_reach (p_lhs r).
Proof.
  assert (R6 : nr_reach 6) by (exists [], []; constructor).
  assert (R11 : nr_reach 11) by (apply (nr_reach_step (nth 6 (c_rules nr_E) (rule 0 [] None))); [cbn; auto 12|exact R6|cbn; auto]).
  assert (R0 : nr_reach 0) by (apply (nr_reach_step (nth 9 (c_rules nr_E) (rule 0 [] None))); [cbn; auto 14|exact R11|cbn; auto]).
  assert (R9 : nr_reach 9) by (apply (nr_reach_step (nth 0 (c_rules nr_E) (rule 0 [] None))); [cbn; auto 12|exact R0|cbn; auto]).
  assert (R10 : nr_reach 10) by (apply (nr_reach_step (nth 2 (c_rules nr_E) (rule 0 [] None))); [cbn; auto 12|exact R0|cbn; auto]).
  assert (R4 : nr_reach 4) by (apply (nr_reach_step (nth 8 (c_rules nr_E) (rule 0 [] None))); [cbn; auto 14|exact R10|cbn; auto]).
  intros r Hr. unfold nr_E in Hr. cbn [c_rules] in Hr. destruct Hr as [<-|[<-|[<-|[<-|[<-|[<-|[<-|[<-|[<-|[<-|[]]]]]]]]]]]; assumption.
Qed.

Lemma nr_exact : exact_contract ReferenceCrate.reference nr_user 0.
Proof.
  destruct (ReferenceFacts.reference_keeps nr_user 0 nr_user_ok) as (W & B & E & c & w & m & head & nulling & origin & maps & f & HX).
  exists W, B, E, c, w, m, head, nulling, origin, maps, f. split; [exact HX|].
  destruct (CrateProcessed.order_exists _ _ _ _ _ _ _ _ _ _ _ _ _ _ HX) as (order & _ & _ & HR).
  apply LinearRef.ref_follow_sound.
  destruct (eb_wrap _ _ _ _ _ _ _ _ _ _ _ _ _ _ HX) as [EW HW]. pose proof (proj1 (eb_eliminate _ _ _ _ _ _ _ _ _ _ _ _ _ _ HX)) as EE.
  pose proof (wr_roots _ _ _ _ HW) as Rt. rewrite <- EW in EE, Rt.
  assert (EE' : E = nr_E) by (apply (f_equal fst) in EE; cbn [fst] in EE; rewrite <- EE; vm_compute; reflexivity).
  assert (Ew : w_root w = 6) by (apply (f_equal (fun l => nth 0 l 0)) in Rt; cbn [nth] in Rt; rewrite <- Rt; vm_compute; reflexivity).
  intros r Hr. destruct (CrateProcessed.in_Rc _ _ _ _ _ HR r Hr) as (q & Hq & -> & _). rewrite EE' in Hq.
  destruct (nr_E_reached q Hq) as (u & v & D). rewrite <- EE', <- Ew in D.
  apply (proj1 (CrateFacts.remap_forward _ _ _ _ _ HR)) in D. rewrite map_app in D. eauto.
Qed.
