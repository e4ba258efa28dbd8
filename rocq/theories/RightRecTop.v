(** RightRecTop: the costs of RightRec.v over every forest; the grammar is LR(1). *)
From Coq Require Import List Arith Bool Lia.
From Verif Require Import Base BaseProofs Vec2d Item Heap Grammar BitMatrix DefaultGrammar Forest ForestSpec Recognizer Drive FromGrammar
  Spec Sim CrateSpec UserSpec CostSpec LRSpec RightRec SimpleBocage SimpleProofs SimpleTop CompactGraph CompactBocage CompactProofs Cost CostTop ExampleGrammars.
From Verif Require ReferenceCrate.
From Verif Require SpecFacts.
Import ListNotations.
Local Open Scope res_scope.

Section Transfer.
  Context {F N : Type}.
  Variable fo : forest_ops F N.
  Variable ok : phase -> F -> Prop.
  Hypothesis U : usable fo ok.

  Definition anyQ {A B C D : Type} (_ : A) (_ : B) (_ : C) (_ : D) : Prop := True.

  Definition callsJ (ph : phase) (t : nat * nat) (f : F * nat) : Prop := ok ph (fst f) /\ fst t = snd f.
  Lemma calls_sim : fsim tally (counted fo) callsJ anyQ.
  Proof.
    destruct U as [A1 A2 A3 A4 A5 A6].
    constructor; cbn; intros; match goal with H : callsJ _ _ _ |- _ => destruct H as [K E] end; cbn in E.
    - destruct (A1 _ K) as (f' & -> & K'). cbn. eexists. split; [reflexivity|]. split; [split; cbn; auto|intros ? ? X; exact X].
    - destruct (A2 _ i2 _ K) as (f' & -> & K'). cbn. eexists. split; [reflexivity|]. split; [split; cbn; auto|intros ? ? X; exact X].
    - destruct (A3 s o _ K) as (n & f' & -> & K'). cbn. eexists. split; [reflexivity|]. split; [split; cbn; auto|].
      split; [intros ? ? X; exact X|exact I].
    - destruct (A4 l2 r2 _ K) as (n & f' & -> & K'). cbn. eexists. split; [reflexivity|]. split; [split; cbn; auto|].
      split; [intros ? ? X; exact X|exact I].
    - destruct (A5 s pos v _ K) as (n & f' & -> & K'). cbn. eexists. split; [reflexivity|]. split; [split; cbn; auto|].
      split; [intros ? ? X; exact X|exact I].
    - destruct (A6 s _ K) as (n & ->). eexists. split; [reflexivity|exact I].
  Qed.

  Variable size : F -> nat.
  Hypothesis G : grows_by_summands fo size.
  Variable z0 : nat.
  Definition sizeJ (ph : phase) (t : nat * nat) (f : F) : Prop := ok ph f /\ z0 + snd t <= size f.
  Lemma size_sim : fsim tally fo sizeJ anyQ.
  Proof.
    destruct U as [A1 A2 A3 A4 A5 A6], G as [G1 G2 G3 G4 G5].
    constructor; cbn; intros; match goal with H : sizeJ _ _ _ |- _ => destruct H as [K E] end.
    - destruct (A1 _ K) as (f' & X & K'). rewrite X. eexists. split; [reflexivity|]. specialize (G1 _ _ X).
      split; [split; cbn; auto; lia|intros ? ? Y; exact Y].
    - destruct (A2 _ i2 _ K) as (f' & X & K'). rewrite X. eexists. split; [reflexivity|]. specialize (G2 _ _ _ X).
      split; [split; cbn; auto; lia|intros ? ? Y; exact Y].
    - destruct (A3 s o _ K) as (n & f' & X & K'). rewrite X. eexists. split; [reflexivity|]. specialize (G3 _ _ _ _ _ X). cbn.
      split; [split; cbn; auto; lia|]. split; [intros ? ? Y; exact Y|exact I].
    - destruct (A4 l2 r2 _ K) as (n & f' & X & K'). rewrite X. eexists. split; [reflexivity|]. specialize (G4 _ _ _ _ _ X). cbn.
      split; [split; cbn; auto; lia|]. split; [intros ? ? Y; exact Y|exact I].
    - destruct (A5 s pos v _ K) as (n & f' & X & K'). rewrite X. eexists. split; [reflexivity|]. specialize (G5 _ _ _ _ _ _ X). cbn.
      split; [split; cbn; auto; lia|]. split; [intros ? ? Y; exact Y|exact I].
    - destruct (A6 s _ K) as (n & ->). eexists. split; [reflexivity|exact I].
  Qed.
End Transfer.

Lemma plains : forall n, map plain ((2, 0) :: map (fun v => (4, v)) (repeat 0 n)) = map plain ((2, 0) :: repeat (4, 0) n).
Proof. intros n. cbn. f_equal. f_equal. induction n; cbn; congruence. Qed.

Lemma P_rr_calls : forall F N (fo : forest_ops F N) ok f0 P, usable fo ok -> ok Idle f0 -> LEO P = false ->
  forall n fuel, 1 <= n -> n < fuel ->
  exists st, (st <- r_new rr_dg (f0, 0) ;; feed_all (counted fo) P rr_dg fuel (map plain ((2, 0) :: repeat (4, 0) n)) st) = Ret (true, st) /\
    is_finished (counted fo) rr_dg st = Ret true /\ snd (r_forest st) = 2 * n ^ 2 + 6 * n + 1.
Proof.
  intros F N fo ok f0 P U H0 HL n fuel Hn Hfu.
  destruct (rr_run P HL 0 (repeat 0 n) fuel) as (st1 & c & p & E & Fin & Ef & Ec & _).
  { rewrite repeat_length. lia. } { destruct n; [lia|discriminate]. }
  rewrite repeat_length in Ec. rewrite plains in E.
  pose proof (sim_new (F1 := nat * nat) (F2 := F * nat) (N1 := unit) (N2 := N) (callsJ ok) anyQ rr_dg (0, 0) (f0, 0)) as X.
  destruct (r_new rr_dg (0, 0)) as [s1| |]; [|discriminate|discriminate]. cbn [bind] in E.
  destruct X as (s2 & -> & X); [split; auto|]. cbn [bind].
  pose proof (sim_feed_all _ _ _ _ (calls_sim fo ok U) P rr_dg fuel (map plain ((2, 0) :: repeat (4, 0) n)) _ _ X) as Y.
  rewrite E in Y. destruct Y as ([b st2] & E2 & Eb & Y). cbn [fst snd] in *. subst b. exists st2. split; [exact E2|].
  split.
  - pose proof (sim_is_finished _ _ _ _ (calls_sim fo ok U) rr_dg I _ _ Y) as Z. rewrite Fin in Z. destruct Z as (b & -> & <-). reflexivity.
  - destruct Y as [[_ Y] _]. rewrite Ef in Y. cbn in Y. congruence.
Qed.

Lemma P_rr_size : forall F N (fo : forest_ops F N) ok f0 P size, usable fo ok -> ok Idle f0 -> LEO P = false -> grows_by_summands fo size ->
  forall n fuel, 1 <= n -> n < fuel ->
  exists st, (st <- r_new rr_dg f0 ;; feed_all fo P rr_dg fuel (map plain ((2, 0) :: repeat (4, 0) n)) st) = Ret (true, st) /\
    is_finished fo rr_dg st = Ret true /\ 2 * size f0 + n ^ 2 + 3 * n <= 2 * size (r_forest st).
Proof.
  intros F N fo ok f0 P size U H0 HL G n fuel Hn Hfu.
  destruct (rr_run P HL 0 (repeat 0 n) fuel) as (st1 & c & p & E & Fin & Ef & _ & Ep).
  { rewrite repeat_length. lia. } { destruct n; [lia|discriminate]. }
  rewrite repeat_length in Ep. rewrite plains in E.
  pose proof (sim_new (F1 := nat * nat) (F2 := F) (N1 := unit) (N2 := N) (sizeJ ok size (size f0)) anyQ rr_dg (0, 0) f0) as X.
  destruct (r_new rr_dg (0, 0)) as [s1| |]; [|discriminate|discriminate]. cbn [bind] in E.
  destruct X as (s2 & -> & X); [split; cbn; auto; lia|]. cbn [bind].
  pose proof (sim_feed_all _ _ _ _ (size_sim fo ok U size G (size f0)) P rr_dg fuel (map plain ((2, 0) :: repeat (4, 0) n)) _ _ X) as Y.
  rewrite E in Y. destruct Y as ([b st2] & E2 & Eb & Y). cbn [fst snd] in *. subst b. exists st2. split; [exact E2|].
  split.
  - pose proof (sim_is_finished _ _ _ _ (size_sim fo ok U size G (size f0)) rr_dg I _ _ Y) as Z. rewrite Fin in Z. destruct Z as (b & -> & <-). reflexivity.
  - destruct Y as [[_ Y] _]. rewrite Ef in Y. cbn [snd] in Y. lia.
Qed.

Lemma simple_grows : grows_by_summands simple_forest (fun b => length (b_graph b)).
Proof.
  split; cbn.
  - intros f f' H. injection H as <-. lia.
  - intros it f f' H. injection H as <-. cbn. rewrite app_length. cbn. lia.
  - intros s o f n f' H. unfold b_sum in H. destruct (b_count f) as [|[|m]]; [discriminate|injection H as _ <-; cbn; lia|].
    inv H. inv H. inv H. injection H as _ <-. apply upd_inv in E1. destruct E1 as [_ ->]. cbn.
    rewrite set_nth_length, app_length. cbn. lia.
  - intros l r f n f' H. injection H as _ <-. cbn. rewrite app_length. cbn. lia.
  - intros s p v f n f' H. injection H as _ <-. cbn. rewrite app_length. cbn. lia.
Qed.

Lemma g_push_grows : forall v n, length v < length (g_push v n).
Proof. intros v n. unfold g_push. destruct n; cbn [fields]; rewrite app_length; cbn [length]; lia. Qed.

Lemma compact_grows : grows_by_summands compact_forest (fun b => length (cb_graph b)).
Proof.
  split.
  - intros f f' H. injection H as <-. apply Nat.lt_le_incl. exact (g_push_grows (cb_graph f) CBeginSum).
  - intros it f f' H. injection H as <-. exact (g_push_grows (cb_graph f) (CSummand _ _)).
  - intros s o f n f' H. apply bindR in H. destruct H as (r & _ & H). cbv zeta in H.
    apply Nat.lt_le_incl. destruct (cb_num_summands f =? 1); injection H as _ <-; exact (g_push_grows (cb_graph f) CEndSum).
  - intros l r f n f' H. injection H as _ <-. apply Nat.lt_le_incl. exact (g_push_grows (cb_graph f) (CRule _ _)).
  - intros s p v f n f' H. injection H as _ <-. apply Nat.lt_le_incl. exact (g_push_grows (cb_graph f) (CLeaf _ _)).
Qed.

(** ** S ::= a S | a is LR(1) *)
Lemma rr_user_ok : user_grammar rr_user 0.
Proof.
  split; [|cbn; lia|reflexivity|].
  - intros s (r & Hr & Hs). cbn in Hr. destruct Hr as [<-|[<-|[]]]; cbn in Hs; cbn; intuition lia.
  - intros r Hr. cbn in Hr. destruct Hr as [<-|[<-|[]]]; discriminate.
Qed.

Notation RA := (augmented rr_user 0).
Lemma rr_nonterminal : forall s, terminal RA s -> s <> 0 /\ s <> 2.
Proof. intros s H. split; intros ->; [apply (H (rule 0 [1] (Some 1))); cbn; auto|apply (H (mkRule 2 [0] None None [])); cbn; auto]. Qed.


(** the right-sentential forms *)
Definition rr_form (x : list sym) : Prop := x = [2] \/ (exists i, x = repeat 1 i ++ [0]) \/ (exists i, x = repeat 1 (S i)).

Lemma rr_split : forall r u w, In r RA -> Forall (terminal RA) w -> rr_form (u ++ p_lhs r :: w) ->
  w = [] /\ ((u = [] /\ p_rhs r = [0] /\ p_lhs r = 2) \/ exists i, u = repeat 1 i /\ p_lhs r = 0 /\ (p_rhs r = [1; 0] \/ p_rhs r = [1])).
Proof.
  intros r u w Hr Hw [E|[(i & E)|(i & E)]].
  - destruct u as [|a u]; [|destruct u; discriminate]. injection E as El Ew. split; [auto|]. left.
    cbn in Hr. destruct Hr as [<-|[<-|[<-|[]]]]; cbn in El; try discriminate. auto.
  - destruct w as [|y w _] using rev_ind.
    + apply app_inj_tail in E. destruct E as [-> El]. split; [auto|]. right. exists i. split; [auto|]. split; [auto|].
      cbn in Hr. destruct Hr as [<-|[<-|[<-|[]]]]; cbn in El; try discriminate; cbn; auto.
    + exfalso. apply Forall_app in Hw. destruct Hw as [_ Hy]. inversion Hy as [|? ? Ht _]; subst.
      change (u ++ p_lhs r :: w ++ [y]) with (u ++ (p_lhs r :: w) ++ [y]) in E. rewrite app_assoc in E. apply app_inj_tail in E.
      destruct E as [_ ->]. apply rr_nonterminal in Ht. lia.
  - exfalso. assert (X : In (p_lhs r) (repeat 1 (S i))) by (rewrite <- E; apply in_app_iff; right; now left).
    apply repeat_spec in X. cbn in Hr. destruct Hr as [<-|[<-|[<-|[]]]]; discriminate.
Qed.

Lemma repeat_snoc : forall i, repeat 1 (S i) = repeat 1 i ++ [1].
Proof. induction i; [reflexivity|]. cbn [repeat app] in *. now rewrite <- IHi. Qed.

Lemma rr_forms : forall x, sentential RA 2 x -> rr_form x.
Proof.
  intros x H. induction H as [|x y _ IH Hs]; [now left|]. destruct Hs as [r u w Hr Hw].
  destruct (rr_split r u w Hr Hw IH) as [-> [(-> & -> & _)|(i & -> & _ & [-> | ->])]].
  - right. left. exists 0. reflexivity.
  - right. left. exists (S i). rewrite app_nil_r. change (repeat 1 i ++ [1] ++ [0] = repeat 1 (S i) ++ [0]). rewrite app_assoc. f_equal.
    symmetry. apply repeat_snoc.
  - right. right. exists i. symmetry. apply repeat_snoc.
Qed.

Lemma rr_lr1 : user_lr1 rr_user 0.
Proof.
  intros r1 u1 w1 r2 u2 w2 y H1 H2 W1 W2 Wy S1 S2 E Hh.
  destruct (rr_split _ _ _ H1 W1 (rr_forms _ S1)) as [-> D1]. destruct (rr_split _ _ _ H2 W2 (rr_forms _ S2)) as [-> D2].
  destruct y as [|? ?]; [|discriminate]. clear Hh S1 S2.
  destruct D1 as [(-> & A1 & L1)|(i & -> & L1 & A1)], D2 as [(-> & A2 & L2)|(j & -> & L2 & A2)]; rewrite L1, L2.
  - auto.
  - exfalso. rewrite A1 in E. destruct A2 as [A2|A2]; rewrite A2 in E; destruct j as [|j]; cbn in E; try discriminate.
  - exfalso. rewrite A2 in E. destruct A1 as [A1|A1]; rewrite A1 in E; destruct i as [|i]; cbn in E; try discriminate.
  - split; [|auto]. destruct A1 as [A1|A1], A2 as [A2|A2]; rewrite A1, A2 in E; rewrite ?app_nil_r in E.
    + apply (f_equal (@length sym)) in E. rewrite !app_length, !repeat_length in E. cbn in E. f_equal. lia.
    + exfalso. change (repeat 1 i ++ [1; 0]) with (repeat 1 i ++ [1] ++ [0]) in E. rewrite app_assoc in E. apply app_inj_tail in E. destruct E as [_ E]. discriminate.
    + exfalso. change (repeat 1 j ++ [1; 0]) with (repeat 1 j ++ [1] ++ [0]) in E. rewrite app_assoc in E. apply app_inj_tail in E. destruct E as [_ E]. discriminate.
    + apply (f_equal (@length sym)) in E. rewrite !app_length, !repeat_length in E. cbn in E. f_equal. lia.
Qed.

(** quadratic is more than n log n *)
Lemma pow_beats : forall k, k * (k + 3) < 2 * 2 ^ (k + 2).
Proof.
  induction k as [|k IH]; [cbn; lia|]. replace (S k + 2) with (S (k + 2)) by lia. rewrite Nat.pow_succ_r by lia.
  destruct k as [|[|k]]; [cbn; lia|cbn; lia|]. nia.
Qed.
Lemma quadratic_beats : forall k, exists n, 1 <= n /\ k * (n * S (Nat.log2 n)) < n ^ 2 + n ^ 2.
Proof.
  intros k. exists (2 ^ (k + 2)). rewrite Nat.log2_pow2 by lia. pose proof (pow_beats k).
  assert (1 <= 2 ^ (k + 2)) by (apply (Nat.pow_le_mono_r 2 0); lia). split; [auto|].
  cbn [Nat.pow]. remember (2 ^ (k + 2)) as n. replace (S (k + 2)) with (k + 3) by lia. nia.
Qed.

Lemma P_rr_time : forall F N (fo : forest_ops F N) ok f0 P, usable fo ok -> ok Idle f0 -> LEO P = false ->
  forall k, exists n fuel st,
    (st <- r_new rr_dg (f0, 0) ;; feed_all (counted fo) P rr_dg fuel (map plain ((2, 0) :: repeat (4, 0) n)) st) = Ret (true, st) /\
    is_finished (counted fo) rr_dg st = Ret true /\ k * (n * S (Nat.log2 n)) < snd (r_forest st).
Proof.
  intros F N fo ok f0 P U H0 HL k. destruct (quadratic_beats k) as (n & Hn & Hk).
  destruct (P_rr_calls F N fo ok f0 P U H0 HL n (S n) Hn (Nat.lt_succ_diag_r n)) as (st & E & Fin & Ec).
  exists n, (S n), st. split; [exact E|]. split; [exact Fin|]. rewrite Ec. lia.
Qed.

Lemma P_rr_memory : forall P, LEO P = false -> forall k, exists n, 1 <= n /\ forall fuel, n < fuel ->
  (forall b0, bocage_new (g_forest_info rr_dg) = Ret b0 -> exists st,
    (st <- r_new rr_dg b0 ;; feed_all simple_forest P rr_dg fuel (map plain ((2, 0) :: repeat (4, 0) n)) st) = Ret (true, st) /\
    is_finished simple_forest rr_dg st = Ret true /\ k * n < length (b_graph (r_forest st))) /\
  (forall b0, exists st,
    (st <- r_new rr_dg b0 ;; feed_all compact_forest P rr_dg fuel (map plain ((2, 0) :: repeat (4, 0) n)) st) = Ret (true, st) /\
    is_finished compact_forest rr_dg st = Ret true /\ k * n < length (cb_graph (r_forest st))).
Proof.
  intros P HL k. exists (S (2 * k)). split; [lia|]. intros fuel Hf. split.
  - intros b0 Hb. destruct (new_at _ _ Hb) as (_ & H0 & _).
    destruct (P_rr_size _ _ simple_forest simple_ok b0 P _ simple_usable H0 HL simple_grows (S (2 * k)) fuel ltac:(lia) Hf) as (st & E & Fin & Hs).
    exists st. split; [exact E|]. split; [exact Fin|]. revert Hs. cbn [Nat.pow]. nia.
  - intros b0.
    destruct (P_rr_size _ _ compact_forest compact_ok b0 P _ compact_usable I HL compact_grows (S (2 * k)) fuel ltac:(lia) Hf) as (st & E & Fin & Hs).
    exists st. split; [exact E|]. split; [exact Fin|]. revert Hs. cbn [Nat.pow]. nia.
Qed.

Lemma rr_terminal : terminal (c_rules rr_user) 1.
Proof. intros r [<-|[<-|[]]]; discriminate. Qed.
Lemma rr_S_a : derives (c_rules rr_user) 0 [1].
Proof. apply (derives_rule (c_rules rr_user) (rule 0 [1] (Some 1))); [right; left; reflexivity|]. apply SpecFacts.derives_seq_self. Qed.
Lemma rr_reduced : reduced rr_user 0.
Proof.
  intros s Hs. assert (Es : s = 0 \/ s = 1) by (destruct Hs as (r & [<-|[<-|[]]] & H); cbn in H; intuition congruence).
  destruct Es as [->| ->].
  - split; [exists [1]; split; [constructor; [exact rr_terminal|constructor]|exact rr_S_a]|]. exists [], []. constructor.
  - split; [exists [1]; split; [constructor; [exact rr_terminal|constructor]|constructor]|]. exists [], []. exact rr_S_a.
Qed.
Lemma rr_token : token rr_user 0 1.
Proof.
  split; [cbn; lia|]. split; [exact rr_terminal|]. right. exists (rule 0 [1] (Some 1)). split; [right; left; reflexivity|]. split; [|left; reflexivity].
  split; [exact (proj2 (rr_reduced 0 ltac:(exists (rule 0 [1] (Some 1)); split; [right; left; reflexivity|left; reflexivity])))|].
  intros s [<-|[]]. apply rr_reduced. exists (rule 0 [1] (Some 1)). split; [right; left; reflexivity|right; left; reflexivity].
Qed.
