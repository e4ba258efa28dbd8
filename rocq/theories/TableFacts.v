(** TableFacts: the grammar tables, stated with derivations. *)
From Coq Require Import List Arith Bool Lia Relations.
From Verif Require Import Base BaseProofs Grammar DefaultGrammar Spec SpecFacts Chart ChartFacts ChartSpec CfgSpec Tables TablesProofs.
Import ListNotations.

Section Left.
  Variables (R : list prule) (nsyms nall : nat).
  Hypothesis wf : wf_rules R nsyms nall.

  Lemma derives_nonempty2 : (forall A x, derives R A x -> x <> []) /\
    (forall ss x, derives_seq R ss x -> ss <> [] -> x <> []).
  Proof.
    apply derives_both.
    - discriminate.
    - intros r w Hin H IH. apply IH. destruct (wf_arity _ _ _ wf r Hin) as [E|E]; destruct (p_rhs r); discriminate.
    - auto.
    - intros s ss w1 w2 H1 IH1 _ _ _ E. apply app_eq_nil in E. destruct E. now apply IH1.
  Qed.

  Lemma derives_left : (forall A x, derives R A x -> forall B v, x = B :: v -> B < nsyms ->
      forall T, topr R nsyms A T -> pred R nsyms T B) /\
    (forall ss x, derives_seq R ss x -> forall s rest B v, ss = s :: rest -> x = B :: v -> B < nsyms ->
      forall T, topr R nsyms s T -> pred R nsyms T B).
  Proof.
    apply derives_both.
    - intros s B v E HB T HT. injection E as -> <-. inversion HT; subst; [apply rt_refl|lia].
    - intros r w Hin H IH B v E HB T HT.
      destruct (p_rhs r) as [|s rest] eqn:Er.
      { destruct (wf_arity _ _ _ wf r Hin) as [X|X]; rewrite Er in X; discriminate. }
      destruct (Nat.lt_ge_cases s nsyms) as [Hs|Hs].
      + eapply rt_trans; [|eapply (IH s rest B v eq_refl E HB s); now constructor].
        apply rt_step. exists r. rewrite Er. auto.
      + apply (IH s rest B v eq_refl E HB T). eapply top_up; eauto. now rewrite Er.
    - discriminate.
    - intros s ss w1 w2 H1 IH1 _ _ s' rest B v E Ex HB T HT. injection E as <- <-.
      destruct w1 as [|a w1]; [now apply (proj1 derives_nonempty2) in H1|]. injection Ex as -> _.
      eapply IH1; eauto.
  Qed.

  Lemma pred_is_left : forall A B, A < nsyms -> B < nsyms -> (pred R nsyms A B <-> exists v, derives R A (B :: v)).
  Proof.
    intros A B HA HB. split.
    - now apply pred_derives.
    - intros (v & H). eapply (proj1 derives_left); eauto. now constructor.
  Qed.
End Left.

(** *** The queries of the [Grammar] trait *)
Section Queries.
  Variables (fuel : nat) (c : pcfg) (maps : mapping) (nulling : list prule) (first follow : list (sym * list sym)).
  Variables (g : dgrammar) (nsyms : nat).
  Hypothesis wf : wf_rules (c_rules c) nsyms (c_num_syms c).
  Hypothesis Hle : nsyms <= c_num_syms c.
  Hypothesis Hgen : num_gensyms c = Ret (c_num_syms c - nsyms).
  Hypothesis Hg : from_processed_grammars fuel c maps nulling first follow = Ret g.
  Notation R := (c_rules c).

  Lemma Q_prediction_row : forall A, A < nsyms -> exists row, prediction_row g A = Ret row /\ length row = nsyms /\
    forall B, nth_error row B = Some true <-> B < nsyms /\ exists v, derives R A (B :: v).
  Proof.
    intros A HA. pose proof (tables_correct _ _ _ _ _ _ _ _ wf Hle Hgen Hg) as T.
    destruct (t_row _ _ _ _ _ _ T A HA) as (row & E & L & H). exists row. split; [auto|]. split; [auto|].
    intros B. rewrite H. split; intros [HB X]; (split; [auto|]); now apply (pred_is_left _ _ _ wf).
  Qed.

  Lemma Q_completions : forall s, s < nsyms -> exists lb lu, completions g s = Ret (lb ++ lu) /\
    trans_ok R nsyms s false lb /\ trans_ok R nsyms s true lu.
  Proof. intros s Hs. apply (t_comp _ _ _ _ _ _ (tables_correct _ _ _ _ _ _ _ _ wf Hle Hgen Hg) s Hs). Qed.

  Lemma Q_gen_completion : forall s, nsyms <= s -> s < c_num_syms c -> exists bo uo, gen_completion g s = Ret (bo, uo) /\
    trans_ok R nsyms s false (opt_list bo) /\ trans_ok R nsyms s true (opt_list uo).
  Proof. intros s Hs Hn. apply (t_gen _ _ _ _ _ _ (tables_correct _ _ _ _ _ _ _ _ wf Hle Hgen Hg) s Hs Hn). Qed.

  Lemma in_sets_iff : forall sets A t, in_sets sets A t = true <-> exists l, In (A, l) sets /\ In t l.
  Proof.
    intros sets A t. unfold in_sets. rewrite existsb_exists. split.
    - intros ([B l] & Hin & E). apply andb_true_iff in E. destruct E as [E1 E2]. cbn in *. apply Nat.eqb_eq in E1. subst.
      apply existsb_exists in E2. destruct E2 as (t' & H1 & H2). apply Nat.eqb_eq in H2. subst. eauto.
    - intros (l & Hin & Ht). exists (A, l). split; [auto|]. cbn. rewrite Nat.eqb_refl. cbn.
      apply existsb_exists. exists t. split; [auto|apply Nat.eqb_refl].
  Qed.

  Lemma Q_lookahead_binary : forall d r C, nth_error R d = Some r -> rhs1 r = Some C ->
    exists row, lookahead_set g d = Ret row /\ forall t, t < nsyms ->
      (nth_error row t = Some true <-> t = C \/ exists l, In (C, l) first /\ In t l).
  Proof.
    intros d r C Hd Hr. pose proof (tables_correct _ _ _ _ _ _ _ _ wf Hle Hgen Hg) as T.
    assert (HC : C < nsyms) by (apply (wf_rhs1 _ _ _ wf r); [eapply nth_error_In; eauto|exact Hr]).
    destruct (t_look_binary _ _ _ _ _ _ T d r C C Hd Hr HC HC) as (row & E & _). exists row. split; [auto|].
    intros t Ht. destruct (t_look_binary _ _ _ _ _ _ T d r C t Hd Hr HC Ht) as (row' & E' & H). rewrite E in E'. injection E' as <-.
    rewrite H. unfold first_of. rewrite <- in_sets_iff. split.
    - intros X. injection X as X. apply orb_true_iff in X. destruct X as [X|X]; [|auto]. apply Nat.eqb_eq in X. auto.
    - intros [-> | ->]; f_equal; [now rewrite Nat.eqb_refl|apply orb_true_r].
  Qed.

  Lemma Q_lookahead_unary : forall d r, nth_error R d = Some r -> rhs1 r = None -> p_lhs r < nsyms ->
    exists row, lookahead_set g d = Ret row /\ forall t, t < nsyms ->
      (nth_error row t = Some true <-> exists l, In (p_lhs r, l) follow /\ In t l).
  Proof.
    intros d r Hd Hr HA. pose proof (tables_correct _ _ _ _ _ _ _ _ wf Hle Hgen Hg) as T.
    destruct (t_look_unary _ _ _ _ _ _ T d r 0 Hd Hr HA ltac:(lia)) as (row & E & _). exists row. split; [auto|].
    intros t Ht. destruct (t_look_unary _ _ _ _ _ _ T d r t Hd Hr HA Ht) as (row' & E' & H). rewrite E in E'. injection E' as <-.
    rewrite H. unfold follow_of. rewrite <- in_sets_iff. split; [intros X; now injection X|now intros ->].
  Qed.

  Lemma Q_lhs_lr_set : forall A, A < nsyms -> exists row, lhs_lr_set g A = Ret row /\ forall t, t < nsyms ->
      (nth_error row t = Some true <-> exists l, In (A, l) follow /\ In t l).
  Proof.
    intros A HA. pose proof (tables_correct _ _ _ _ _ _ _ _ wf Hle Hgen Hg) as T.
    destruct (t_follow _ _ _ _ _ _ T A 0 HA ltac:(lia)) as (row & E & _). exists row. split; [auto|].
    intros t Ht. destruct (t_follow _ _ _ _ _ _ T A t HA Ht) as (row' & E' & H). rewrite E in E'. injection E' as <-.
    rewrite H. unfold follow_of. rewrite <- in_sets_iff. split; [intros X; now injection X|now intros ->].
  Qed.
End Queries.

(** with sets that miss nothing, no true successor is missing *)
Lemma Q_successors : forall fuel c maps nulling first follow g nsyms,
  wf_rules (c_rules c) nsyms (c_num_syms c) -> nsyms <= c_num_syms c ->
  num_gensyms c = Ret (c_num_syms c - nsyms) ->
  from_processed_grammars fuel c maps nulling first follow = Ret g ->
  first_sets_cover c first -> forall root, follow_sets_cover c root follow ->
  (forall d r C t v, nth_error (c_rules c) d = Some r -> rhs1 r = Some C -> terminal (c_rules c) t -> t < nsyms ->
     derives (c_rules c) C (t :: v) -> exists row, lookahead_set g d = Ret row /\ nth_error row t = Some true) /\
  (forall d r t u v, nth_error (c_rules c) d = Some r -> rhs1 r = None -> p_lhs r < nsyms -> terminal (c_rules c) t -> t < nsyms ->
     derives (c_rules c) root (u ++ p_lhs r :: t :: v) ->
     exists row, lookahead_set g d = Ret row /\ nth_error row t = Some true).
Proof.
  intros fuel c maps nulling first follow g nsyms wf Hle Hgen Hg Hf root Hw. split.
  - intros d r C t v Hd Hr Ht Hn HD. destruct (Q_lookahead_binary _ _ _ _ _ _ _ _ wf Hle Hgen Hg d r C Hd Hr) as (row & E & H).
    exists row. split; [auto|]. apply H; auto. inversion HD as [s E1|q x Hin Hseq E1 E2]; subst; [auto|]. right.
    eapply Hf; eauto. 
  - intros d r t u v Hd Hr HA Ht Hn HD. destruct (Q_lookahead_unary _ _ _ _ _ _ _ _ wf Hle Hgen Hg d r Hd Hr HA) as (row & E & H).
    exists row. split; [auto|]. apply H; auto. eapply Hw; eauto. eapply nth_error_In; eauto.
Qed.
