(** CrateFacts: the transformations described in CrateSpec.v keep the language. *)
From Coq Require Import List Arith Bool Lia Permutation.
From Verif Require Import Base BaseProofs Grammar BitMatrix DefaultGrammar Spec SpecFacts CfgSpec FromGrammar CrateSpec.
Import ListNotations.

(** ** Derivations *)
Lemma derives_seq_split : forall R a b x, derives_seq R (a ++ b) x ->
  exists u v, x = u ++ v /\ derives_seq R a u /\ derives_seq R b v.
Proof.
  intros R a. induction a as [|s a IH]; intros b x H; cbn [app] in H.
  - exists [], x. split; [auto|]. split; [constructor|auto].
  - inversion H as [|? ? w1 w2 H1 H2]; subst. destruct (IH _ _ H2) as (u & v & -> & Hu & Hv).
    exists (w1 ++ u), v. split; [apply app_assoc|]. split; [now constructor|auto].
Qed.

Lemma derives_seq_one : forall R s x, derives_seq R [s] x <-> derives R s x.
Proof.
  intros R s x. split.
  - intros H. inversion H as [|? ? w1 w2 H1 H2]; subst. inversion H2; subst. now rewrite app_nil_r.
  - intros H. rewrite <- (app_nil_r x). constructor; [auto|constructor].
Qed.

Lemma derives_compose : forall R,
  (forall s b, derives R s b -> forall x, derives_seq R b x -> derives R s x) /\
  (forall a b, derives_seq R a b -> forall x, derives_seq R b x -> derives_seq R a x).
Proof.
  intros R. apply derives_both.
  - intros s x H. now apply derives_seq_one.
  - intros r b Hr _ IH x H. apply derives_rule; auto.
  - auto.
  - intros s ss w1 w2 _ IH1 _ IH2 x H. destruct (derives_seq_split _ _ _ _ H) as (u & v & -> & Hu & Hv).
    constructor; auto.
Qed.

Lemma derives_incl : forall R R', (forall r, In r R -> exists r', In r' R' /\ p_lhs r' = p_lhs r /\ p_rhs r' = p_rhs r) ->
  (forall s x, derives R s x -> derives R' s x) /\ (forall a x, derives_seq R a x -> derives_seq R' a x).
Proof.
  intros R R' Hi. apply derives_both.
  - constructor.
  - intros r x Hr _ IH. destruct (Hi r Hr) as (r' & H1 & <- & E). apply derives_rule; [auto|now rewrite E].
  - constructor.
  - intros. now constructor.
Qed.
Lemma derives_sub : forall R R', (forall r, In r R -> In r R') ->
  (forall s x, derives R s x -> derives R' s x) /\ (forall a x, derives_seq R a x -> derives_seq R' a x).
Proof. intros R R' H. apply derives_incl. intros r Hr. exists r. auto. Qed.

(** a terminal derives only itself *)
Lemma terminal_derives : forall R s x, terminal R s -> derives R s x -> x = [s].
Proof. intros R s x Ht H. inversion H as [|r w Hr Hs]; subst; [auto|]. exfalso. now apply (Ht r). Qed.

(** every derived symbol occurs in a rule, or is the one we began with *)
Lemma derives_used : forall R,
  (forall s x, derives R s x -> forall t, In t x -> t = s \/ used R t) /\
  (forall a x, derives_seq R a x -> forall t, In t x -> In t a \/ used R t).
Proof.
  intros R. apply derives_both.
  - intros s t [<-|[]]. auto.
  - intros r x Hr _ IH t Ht. right. destruct (IH t Ht) as [H|H]; [exists r; auto|auto].
  - intros t [].
  - intros s ss w1 w2 _ IH1 _ IH2 t Ht. apply in_app_iff in Ht. destruct Ht as [Ht|Ht].
    + destruct (IH1 t Ht) as [->|H]; [left; left; auto|auto].
    + destruct (IH2 t Ht) as [H|H]; [left; right; auto|auto].
Qed.

(** ** make_proper *)
Section Proper.
  Variables (start : sym) (U U' : pcfg).
  Hypothesis HP : made_proper start U U'.

  Lemma proper_sub : forall r, In r (c_rules U') -> In r (c_rules U).
  Proof. destruct (mp_filter _ _ _ HP) as (keep & E). intros r H. rewrite E in H. now apply filter_In in H. Qed.

  Lemma proper_sound : forall s x, derives (c_rules U') s x -> derives (c_rules U) s x.
  Proof. exact (proj1 (derives_sub _ _ proper_sub)). Qed.

  Definition reached (s : sym) : Prop := exists u v, derives (c_rules U) start (u ++ s :: v).

  Lemma seq_productive : forall a x, derives_seq (c_rules U) a x -> Forall (terminal (c_rules U)) x ->
    forall s, In s a -> productive_sym (c_rules U) s.
  Proof.
    intros a x H. induction H as [|s ss w1 w2 H1 H2 IH]; intros Hx t Ht; [destruct Ht|].
    apply Forall_app in Hx. destruct Hx as [Hx1 Hx2]. destruct Ht as [<-|Ht]; [exists w1; auto|auto].
  Qed.

  Lemma proper_complete :
    (forall s x, derives (c_rules U) s x -> Forall (terminal (c_rules U)) x -> reached s -> derives (c_rules U') s x) /\
    (forall a x, derives_seq (c_rules U) a x -> Forall (terminal (c_rules U)) x -> (forall s, In s a -> reached s) ->
       derives_seq (c_rules U') a x).
  Proof.
    apply derives_both.
    - intros. constructor.
    - intros r x Hr Hs IH Hx (u & v & Hst). apply derives_rule.
      + apply (mp_rules _ _ _ HP); split; [auto|]. split; [exists u, v; auto|]. exact (seq_productive _ _ Hs Hx).
      + apply IH; [auto|]. intros s Hin. apply in_split in Hin. destruct Hin as (l1 & l2 & E).
        exists (u ++ l1), (l2 ++ v).
        assert (D : derives (c_rules U) (p_lhs r) (l1 ++ s :: l2)). { apply derives_rule; [auto|]. rewrite E. apply derives_seq_self. }
        pose proof (derives_replace _ _ _ _ _ _ Hst D) as K. rewrite <- !app_assoc in K. rewrite <- app_assoc. exact K.
    - constructor.
    - intros s ss w1 w2 _ IH1 _ IH2 Hx Hre. apply Forall_app in Hx. destruct Hx as [Hx1 Hx2].
      constructor; [apply IH1|apply IH2]; auto; intros; apply Hre; simpl; auto.
  Qed.

  Lemma proper_language : forall x, Forall (terminal (c_rules U)) x ->
    (derives (c_rules U') start x <-> derives (c_rules U) start x).
  Proof.
    intros x Hx. split; [apply proper_sound|]. intros H. apply (proj1 proper_complete); auto.
    exists [], []. constructor.
  Qed.
End Proper.

(** ** wrap_input *)
Section Wrap.
  Variables (start : sym) (U' W : pcfg) (w : wrapped_root).
  Hypothesis HW : wrapped start U' W w.
  Hypothesis Hrange : forall s, used (c_rules U') s -> s < c_num_syms U'.
  Hypothesis Hstart : start < c_num_syms U'.

  Lemma wrap_new : c_num_syms U' <= w_root w < c_num_syms W /\ c_num_syms U' <= w_sof w < c_num_syms W /\
    c_num_syms U' <= w_eof w < c_num_syms W.
  Proof.
    pose proof (wr_new _ _ _ _ HW) as H. inversion H as [|? ? A H1]; subst. inversion H1 as [|? ? B H2]; subst.
    inversion H2 as [|? ? C _]; subst. auto.
  Qed.
  Lemma wrap_distinct : w_root w <> w_sof w /\ w_root w <> w_eof w /\ w_sof w <> w_eof w.
  Proof.
    pose proof (wr_distinct _ _ _ _ HW) as H. inversion H as [|? ? A H1]; subst. inversion H1 as [|? ? B _]; subst.
    cbn [In] in *. repeat split; intros E; [apply A|apply A|apply B]; auto.
  Qed.

  Lemma wrap_rule : forall r, In r (c_rules W) <->
    In r (c_rules U') \/ exists l1 l2, c_rules U' = l1 ++ l2 /\ c_rules W = l1 ++ r :: l2 /\
      p_lhs r = w_root w /\ p_rhs r = [w_sof w; start; w_eof w] /\ p_origin r = None.
  Proof.
    intros r. destruct (wr_rules _ _ _ _ HW) as (l1 & l2 & r0 & E1 & E2 & A & B & C). rewrite E2, E1. split.
    - intros H. apply in_app_iff in H. destruct H as [H|[<-|H]]; [left; apply in_app_iff; auto| |left; apply in_app_iff; auto].
      right. exists l1, l2. auto.
    - intros [H|(l1' & l2' & Ea & Eb & _)].
      + apply in_app_iff in H. apply in_app_iff. simpl. tauto.
      + rewrite Eb. apply in_app_iff. simpl. auto.
  Qed.
  Lemma wrap_rule_cases : forall r, In r (c_rules W) ->
    In r (c_rules U') \/ (p_lhs r = w_root w /\ p_rhs r = [w_sof w; start; w_eof w] /\ p_origin r = None).
  Proof. intros r H. apply wrap_rule in H. destruct H as [H|(l1 & l2 & _ & _ & H)]; auto. Qed.
  Lemma wrap_root_rule : exists d r, nth_error (c_rules W) d = Some r /\ p_lhs r = w_root w /\
    p_rhs r = [w_sof w; start; w_eof w] /\ p_origin r = None /\
    forall d' r', nth_error (c_rules W) d' = Some r' -> p_lhs r' = w_root w -> d' = d.
  Proof.
    destruct (wr_rules _ _ _ _ HW) as (l1 & l2 & r0 & E1 & E2 & A & B & C). exists (length l1), r0. rewrite E2.
    split; [rewrite nth_error_app2, Nat.sub_diag by auto; reflexivity|]. repeat (split; [auto|]).
    intros d' r' Hd' Hl. assert (Old : forall q, In q (c_rules U') -> p_lhs q <> w_root w).
    { intros q Hq E. assert (p_lhs q < c_num_syms U') by (apply Hrange; exists q; auto). pose proof wrap_new. lia. }
    destruct (Nat.lt_trichotomy d' (length l1)) as [L|[E|L]]; [exfalso|auto|exfalso].
    - rewrite nth_error_app1 in Hd' by auto. apply (Old r'); auto. rewrite E1. apply in_app_iff. left. eapply nth_error_In; eauto.
    - rewrite nth_error_app2 in Hd' by lia. destruct (d' - length l1) as [|k] eqn:E; [lia|]. cbn in Hd'.
      apply (Old r'); auto. rewrite E1. apply in_app_iff. right. eapply nth_error_In; eauto.
  Qed.

  Lemma wrap_range : forall s, used (c_rules W) s -> s < c_num_syms W.
  Proof.
    intros s (r & Hr & Hs). pose proof wrap_new. apply wrap_rule_cases in Hr. destruct Hr as [Hr|(E1 & E2 & _)].
    - assert (s < c_num_syms U') by (apply Hrange; exists r; auto). lia.
    - rewrite E1, E2 in Hs. destruct Hs as [<-|[<-|[<-|[<-|[]]]]]; lia.
  Qed.

  Lemma wrap_complete : forall s x, derives (c_rules U') s x -> derives (c_rules W) s x.
  Proof. apply derives_sub. intros r H. apply wrap_rule. auto. Qed.

  Lemma wrap_sound :
    (forall s x, derives (c_rules W) s x -> s <> w_root w -> derives (c_rules U') s x) /\
    (forall a x, derives_seq (c_rules W) a x -> ~ In (w_root w) a -> derives_seq (c_rules U') a x).
  Proof.
    apply derives_both.
    - intros. constructor.
    - intros r x Hr _ IH Hn. apply wrap_rule_cases in Hr. destruct Hr as [Hr|(E & _)]; [|contradiction].
      apply derives_rule; [auto|]. apply IH. intros Hin.
      assert (w_root w < c_num_syms U') by (apply Hrange; exists r; auto). pose proof wrap_new. lia.
    - constructor.
    - intros s ss w1 w2 _ IH1 _ IH2 Hn. cbn [In] in Hn. constructor; auto.
  Qed.

  Lemma wrap_terminal : forall s, terminal (c_rules U') s -> s < c_num_syms U' -> terminal (c_rules W) s.
  Proof.
    intros s Ht Hs r Hr. apply wrap_rule_cases in Hr. destruct Hr as [Hr|(E & _)]; [now apply Ht|].
    pose proof wrap_new. lia.
  Qed.
  Lemma wrap_sof_eof : terminal (c_rules W) (w_sof w) /\ terminal (c_rules W) (w_eof w).
  Proof.
    pose proof wrap_new. pose proof wrap_distinct as (A & B & C).
    split; intros r Hr E; apply wrap_rule_cases in Hr; destruct Hr as [Hr|(E' & _)]; try congruence;
      assert (p_lhs r < c_num_syms U') by (apply Hrange; exists r; auto); lia.
  Qed.
End Wrap.

(** ** Binarisation *)
Section Bin.
  Variables (W B : pcfg) (m : sym -> list sym) (head : nat -> nat).
  Hypothesis HB : binarized W B m head.
  Hypothesis Hrange : forall s, used (c_rules W) s -> s < c_num_syms W.

  Lemma bin_old : forall x, (forall s, In s x -> s < c_num_syms W) -> flat_map m x = x.
  Proof.
    induction x as [|s x IH]; intros H; [auto|]. cbn [flat_map]. rewrite (bz_old _ _ _ _ HB) by (apply H; simpl; auto).
    cbn [app]. f_equal. apply IH. intros; apply H; simpl; auto.
  Qed.

  Lemma bin_head : forall r', In r' (c_rules B) -> p_lhs r' < c_num_syms W ->
    exists r, In r (c_rules W) /\ p_lhs r' = p_lhs r /\ p_origin r' = p_origin r /\ flat_map m (p_rhs r') = p_rhs r.
  Proof.
    intros r' Hr Hl. apply In_nth_error in Hr. destruct Hr as (b & Hb).
    destruct (bz_head_only _ _ _ _ HB b r' Hb Hl) as (d & Hd & <-).
    destruct (nth_error (c_rules W) d) as [r|] eqn:E; [|apply nth_error_None in E; lia].
    destruct (bz_head _ _ _ _ HB d r E) as (r'' & Hb' & A & C & D). rewrite Hb in Hb'. injection Hb' as <-.
    exists r. split; [eapply nth_error_In; eauto|auto].
  Qed.

  Lemma bin_sound :
    (forall s x, derives (c_rules B) s x -> derives_seq (c_rules W) (m s) (flat_map m x)) /\
    (forall a x, derives_seq (c_rules B) a x -> derives_seq (c_rules W) (flat_map m a) (flat_map m x)).
  Proof.
    apply derives_both.
    - intros s. cbn [flat_map]. rewrite app_nil_r. apply derives_seq_self.
    - intros r' x Hr _ IH. destruct (Nat.lt_ge_cases (p_lhs r') (c_num_syms W)) as [L|L].
      + destruct (bin_head r' Hr L) as (r & Hr' & E1 & _ & E2). rewrite (bz_old _ _ _ _ HB) by auto.
        apply derives_seq_one. rewrite E1. apply derives_rule; [auto|]. now rewrite <- E2.
      + destruct (bz_gen_rule _ _ _ _ HB r' Hr L) as (_ & _ & E). now rewrite <- E.
    - constructor.
    - intros s ss w1 w2 _ IH1 _ IH2. cbn [flat_map]. rewrite flat_map_app. now apply derives_seq_app.
  Qed.

  (** a generated symbol derives what it stands for *)
  Lemma bin_gen : forall n g, length (m g) <= n -> c_num_syms W <= g -> g < c_num_syms B -> derives (c_rules B) g (m g).
  Proof.
    induction n as [|n IH]; intros g Hn H1 H2; [pose proof (bz_new _ _ _ _ HB g H1); lia|].
    destruct (bz_gen_one _ _ _ _ HB g H1 H2) as (b & r & Hb & <- & _). assert (Hr : In r (c_rules B)) by (eapply nth_error_In; eauto).
    destruct (bz_gen_rule _ _ _ _ HB r Hr H1) as (_ & L & E). apply derives_rule; [auto|]. rewrite <- E.
    destruct (p_rhs r) as [|a [|y [|]]] eqn:Er; try discriminate L.
    assert (Hy : y < c_num_syms W) by (apply (bz_second _ _ _ _ HB r); [auto|now rewrite Er]).
    cbn [flat_map] in *. rewrite (bz_old _ _ _ _ HB y Hy) in *. cbn [app] in *.
    constructor; [|apply derives_seq_self].
    destruct (Nat.lt_ge_cases a (c_num_syms W)) as [La|La]; [rewrite (bz_old _ _ _ _ HB a La); constructor|].
    apply IH; [|auto|].
    - rewrite <- E, app_length in Hn. cbn in Hn. lia.
    - apply (bz_range _ _ _ _ HB). exists r. rewrite Er. simpl. auto.
  Qed.

  Lemma bin_expand : forall a, (forall s, In s a -> s < c_num_syms B) -> derives_seq (c_rules B) a (flat_map m a).
  Proof.
    induction a as [|s a IH]; intros H; [constructor|]. cbn [flat_map]. constructor; [|apply IH; intros; apply H; simpl; auto].
    destruct (Nat.lt_ge_cases s (c_num_syms W)) as [L|L]; [rewrite (bz_old _ _ _ _ HB s L); constructor|].
    apply (bin_gen (length (m s))); auto. apply H. simpl; auto.
  Qed.

  Lemma bin_complete :
    (forall s x, derives (c_rules W) s x -> derives (c_rules B) s x) /\
    (forall a x, derives_seq (c_rules W) a x -> derives_seq (c_rules B) a x).
  Proof.
    apply derives_both.
    - constructor.
    - intros r x Hr _ IH. apply In_nth_error in Hr. destruct Hr as (d & Hd).
      destruct (bz_head _ _ _ _ HB d r Hd) as (r' & Hb & E1 & _ & E2). rewrite <- E1.
      assert (Hr' : In r' (c_rules B)) by (eapply nth_error_In; eauto). apply derives_rule; [auto|].
      eapply (proj2 (derives_compose _)); [|exact IH]. rewrite <- E2. apply bin_expand.
      intros s Hs. apply (bz_range _ _ _ _ HB). exists r'. auto.
    - constructor.
    - intros. now constructor.
  Qed.

  (** [B] derives the same strings of old symbols *)
  Lemma bin_language : forall s x, s < c_num_syms W -> (forall t, In t x -> t < c_num_syms W) ->
    (derives (c_rules B) s x <-> derives (c_rules W) s x).
  Proof.
    intros s x Hs Hx. split; [|apply bin_complete]. intros H. apply (proj1 bin_sound) in H.
    rewrite (bz_old _ _ _ _ HB s Hs), bin_old in H by auto. now apply derives_seq_one.
  Qed.

  Lemma bin_terminal : forall s, s < c_num_syms W -> (terminal (c_rules B) s <-> terminal (c_rules W) s).
  Proof.
    intros s Hs. split; intros Ht r Hr E.
    - apply In_nth_error in Hr. destruct Hr as (d & Hd). destruct (bz_head _ _ _ _ HB d r Hd) as (r' & Hb & E1 & _).
      apply (Ht r'); [eapply nth_error_In; eauto|congruence].
    - destruct (bin_head r Hr) as (r' & Hr' & E1 & _); [lia|]. apply (Ht r'); [auto|congruence].
  Qed.
  Lemma bin_gen_not_terminal : forall g, c_num_syms W <= g -> g < c_num_syms B -> ~ terminal (c_rules B) g.
  Proof.
    intros g H1 H2 Ht. destruct (bz_gen_one _ _ _ _ HB g H1 H2) as (b & r & Hb & E & _).
    apply (Ht r); [eapply nth_error_In; eauto|auto].
  Qed.
End Bin.

(** ** Elimination *)
  Lemma left_over_all : forall l, left_over (repeat true (length l)) l = l.
  Proof. induction l; cbn; congruence. Qed.
  Lemma struck_out_none : forall l, struck_out (repeat true (length l)) l = [].
  Proof. induction l; cbn; auto. Qed.
  Lemma left_over_in : forall mask l s, In s (left_over mask l) -> In s l.
  Proof. induction mask as [|[|] mask IH]; intros [|a l] s H; cbn in *; auto; destruct H; auto. Qed.

  Lemma restore_struck : forall R mask l x, length mask = length l -> Forall (nullable R) (struck_out mask l) ->
    derives_seq R (left_over mask l) x -> derives_seq R l x.
  Proof.
    intros R. induction mask as [|[|] mask IH]; intros [|a l] x Hl Hn H; try discriminate; cbn in *; auto.
    - inversion H as [|? ? w1 w2 H1 H2]; subst. constructor; auto.
    - inversion Hn as [|? ? Ha Hn']; subst. change x with ([] ++ x). constructor; auto.
  Qed.

Section Elim.
  Variables (B E : pcfg) (nulling : list prule) (origin : nat -> nat * list bool).
  Hypothesis HE : eliminated B E nulling origin.

  Lemma elim_rule : forall r, In r (c_rules E) -> exists r' mask, In r' (c_rules B) /\ length mask = length (p_rhs r') /\
    p_lhs r = p_lhs r' /\ p_origin r = p_origin r' /\ p_rhs r = left_over mask (p_rhs r') /\ p_rhs r <> [] /\
    Forall (nullable (c_rules B)) (struck_out mask (p_rhs r')).
  Proof.
    intros r Hr. apply In_nth_error in Hr. destruct Hr as (d & Hd). pose proof (el_rule _ _ _ _ HE d r Hd) as H.
    destruct (origin d) as (b & mask). destruct H as (r' & Hb & H). exists r', mask. split; [eapply nth_error_In; eauto|auto].
  Qed.

  Lemma elim_sound :
    (forall s x, derives (c_rules E) s x -> derives (c_rules B) s x) /\
    (forall a x, derives_seq (c_rules E) a x -> derives_seq (c_rules B) a x).
  Proof.
    apply derives_both.
    - constructor.
    - intros r x Hr _ IH. destruct (elim_rule r Hr) as (r' & mask & Hr' & Hl & -> & _ & E1 & _ & Hn).
      apply derives_rule; [auto|]. apply (restore_struck _ mask); auto. now rewrite <- E1.
    - constructor.
    - intros. now constructor.
  Qed.

  Lemma elim_complete :
    (forall s x, derives (c_rules B) s x -> x <> [] -> Forall (terminal (c_rules B)) x -> derives (c_rules E) s x) /\
    (forall a x, derives_seq (c_rules B) a x -> Forall (terminal (c_rules B)) x ->
       exists mask, length mask = length a /\ Forall (nullable (c_rules B)) (struck_out mask a) /\
         Forall (visible (c_rules B)) (left_over mask a) /\ (x <> [] -> left_over mask a <> []) /\
         derives_seq (c_rules E) (left_over mask a) x).
  Proof.
    apply derives_both.
    - intros. constructor.
    - intros r' x Hr _ IH Hne Hx. destruct (IH Hx) as (mask & Hl & Hn & Hv & Hnx & Hd).
      apply In_nth_error in Hr. destruct Hr as (b & Hb).
      destruct (el_all _ _ _ _ HE b r' mask Hb Hl Hn (Hnx Hne) Hv) as (d & r & Hd' & Eo).
      pose proof (el_rule _ _ _ _ HE d r Hd') as K. rewrite Eo in K. destruct K as (r'' & Hb' & _ & E1 & _ & E2 & _).
      rewrite Hb in Hb'. injection Hb' as <-. rewrite <- E1. apply derives_rule; [eapply nth_error_In; eauto|]. now rewrite E2.
    - intros _. exists []. repeat split; try constructor. auto.
    - intros s ss w1 w2 H1 IH1 _ IH2 Hx. apply Forall_app in Hx. destruct Hx as [Hx1 Hx2].
      destruct (IH2 Hx2) as (mask & Hl & Hn & Hv & Hnx & Hd). destruct w1 as [|t w1].
      + exists (false :: mask). cbn. split; [auto|]. split; [constructor; auto|]. auto.
      + exists (true :: mask). cbn [length left_over]. split; [auto|]. split; [exact Hn|].
        split; [constructor; [exists (t :: w1); split; [discriminate|auto]|auto]|]. split; [discriminate|].
        constructor; [apply IH1; [discriminate|auto]|auto].
  Qed.

  Lemma elim_terminal : forall s, terminal (c_rules B) s -> terminal (c_rules E) s.
  Proof. intros s Ht r Hr El. destruct (elim_rule r Hr) as (r' & mask & Hr' & _ & E1 & _). apply (Ht r'); congruence. Qed.

  Lemma elim_used : forall s, used (c_rules E) s -> used (c_rules B) s.
  Proof.
    intros s (r & Hr & Hs). destruct (elim_rule r Hr) as (r' & mask & Hr' & _ & E1 & _ & E2 & _). exists r'. split; [auto|].
    rewrite E1, E2 in Hs. destruct Hs as [Hs|Hs]; [auto|]. right. eapply left_over_in; eauto.
  Qed.
End Elim.

Lemma Forall2_len : forall A B (P : A -> B -> Prop) l l', Forall2 P l l' -> length l = length l'.
Proof. intros A B P l l' H. induction H; cbn; congruence. Qed.

(** ** Renumbering and sorting *)
Section Remap.
  Variables (cmp : sym -> sym -> res comparison) (E c : pcfg) (maps : mapping) (f : sym -> sym).
  Hypothesis HR : remapped cmp E c maps f.
  Notation Rc := (c_rules (sort_rules_by_lhs c)).

  Lemma sorted_in : forall r, In r Rc <-> In r (c_rules c).
  Proof.
    intros r. pose proof (sort_by_perm _ (fun a b => p_lhs a <=? p_lhs b) (c_rules c)) as P.
    split; intros H; [eapply Permutation_in; [symmetry; exact P|exact H]|exact (Permutation_in _ P H)].
  Qed.

  Lemma remap_in : forall r', In r' Rc <-> exists r, In r (c_rules E) /\ renamed f r r' /\ In r' (c_rules c).
  Proof.
    intros r'. rewrite sorted_in. split.
    - intros H. apply In_nth_error in H. destruct H as (d & Hd).
      pose proof (rm_rules _ _ _ _ _ HR) as F. assert (L : d < length (c_rules c)) by (apply nth_error_Some; congruence).
      rewrite <- (Forall2_len _ _ _ _ _ F) in L. destruct (nth_error (c_rules E) d) as [r|] eqn:Er; [|apply nth_error_None in Er; lia].
      exists r. split; [eapply nth_error_In; eauto|]. split; [|eapply nth_error_In; eauto].
      clear -F Er Hd. revert d Er Hd. induction F as [|x y l l' H F IH]; intros [|d] Er Hd; try discriminate.
      + cbn in *. congruence.
      + exact (IH d Er Hd).
    - intros (r & _ & _ & H). exact H.
  Qed.
  Lemma remap_has : forall r, In r (c_rules E) -> exists r', In r' Rc /\ renamed f r r'.
  Proof.
    intros r Hr. pose proof (rm_rules _ _ _ _ _ HR) as F.
    assert (X : exists r', In r' (c_rules c) /\ renamed f r r').
    { clear -F Hr. induction F as [|x y l l' H F IH]; [destruct Hr|]. destruct Hr as [->|Hr]; [exists y; simpl; auto|].
      destruct (IH Hr) as (r' & A & B). exists r'. simpl. auto. }
    destruct X as (r' & A & B). exists r'. split; [now apply sorted_in|auto].
  Qed.

  Lemma remap_forward :
    (forall s x, derives (c_rules E) s x -> derives Rc (f s) (map f x)) /\
    (forall a x, derives_seq (c_rules E) a x -> derives_seq Rc (map f a) (map f x)).
  Proof.
    apply derives_both.
    - intros. constructor.
    - intros r x Hr _ IH. destruct (remap_has r Hr) as (r' & Hr' & E1 & E2 & _). rewrite <- E1. apply derives_rule; [auto|].
      now rewrite E2.
    - constructor.
    - intros s ss w1 w2 _ IH1 _ IH2. rewrite map_app. cbn [map]. now constructor.
  Qed.

  Lemma remap_backward :
    (forall t y, derives Rc t y -> forall s, used (c_rules E) s -> t = f s ->
       exists x, y = map f x /\ (forall a, In a x -> used (c_rules E) a) /\ derives (c_rules E) s x) /\
    (forall b y, derives_seq Rc b y -> forall a, (forall s, In s a -> used (c_rules E) s) -> b = map f a ->
       exists x, y = map f x /\ (forall a, In a x -> used (c_rules E) a) /\ derives_seq (c_rules E) a x).
  Proof.
    apply derives_both.
    - intros t s Hs ->. exists [s]. split; [auto|]. split; [intros a [<-|[]]; auto|constructor].
    - intros r' y Hr' _ IH s Hs El. apply remap_in in Hr'. destruct Hr' as (r & Hr & (E1 & E2 & _) & _).
      assert (p_lhs r = s). { apply (rm_injective _ _ _ _ _ HR); [exists r; auto|auto|congruence]. } subst s.
      destruct (IH (p_rhs r)) as (x & -> & Hu & Hd); [intros s Hin; exists r; auto|auto|].
      exists x. split; [auto|]. split; [auto|]. now apply derives_rule.
    - intros [|]; [|discriminate]. intros _ _. exists []. split; [auto|]. split; [intros ? []|constructor].
    - intros t ts w1 w2 _ IH1 _ IH2 [|s a] Ha Eq; [discriminate|]. injection Eq as -> ->.
      destruct (IH1 s) as (x1 & -> & Hu1 & Hd1); [apply Ha; simpl; auto|auto|].
      destruct (IH2 a) as (x2 & -> & Hu2 & Hd2); [intros; apply Ha; simpl; auto|auto|].
      exists (x1 ++ x2). split; [now rewrite map_app|]. split; [|now constructor].
      intros q Hq. apply in_app_iff in Hq. destruct Hq; auto.
  Qed.

  Lemma map_injective : forall x y, (forall a, In a x -> used (c_rules E) a) -> (forall a, In a y -> used (c_rules E) a) ->
    map f x = map f y -> x = y.
  Proof.
    induction x as [|a x IH]; intros [|b y] Hx Hy Eq; try discriminate; [auto|]. cbn in Eq. injection Eq as E1 E2.
    f_equal; [apply (rm_injective _ _ _ _ _ HR); auto; [apply Hx|apply Hy]; simpl; auto|].
    apply IH; auto; intros; [apply Hx|apply Hy]; simpl; auto.
  Qed.

  Lemma remap_language : forall s x, used (c_rules E) s -> (forall a, In a x -> used (c_rules E) a) ->
    (derives Rc (f s) (map f x) <-> derives (c_rules E) s x).
  Proof.
    intros s x Hs Hx. split; [|apply remap_forward]. intros H.
    destruct (proj1 remap_backward _ _ H s Hs eq_refl) as (x' & Eq & Hu & Hd). now rewrite (map_injective x x' Hx Hu Eq).
  Qed.

  Lemma remap_terminal : forall s, used (c_rules E) s -> (terminal Rc (f s) <-> terminal (c_rules E) s).
  Proof.
    intros s Hs. split; intros Ht r Hr El.
    - destruct (remap_has r Hr) as (r' & Hr' & E1 & _). apply (Ht r'); [auto|congruence].
    - apply remap_in in Hr. destruct Hr as (q & Hq & (E1 & _) & _). apply (Ht q); [auto|].
      apply (rm_injective _ _ _ _ _ HR); [exists q; auto|auto|congruence].
  Qed.

  Lemma remap_used : forall t, used Rc t <-> exists s, used (c_rules E) s /\ t = f s.
  Proof.
    intros t. split.
    - intros (r' & Hr' & Ht). apply remap_in in Hr'. destruct Hr' as (r & Hr & (E1 & E2 & _) & _). rewrite E1, E2 in Ht.
      destruct Ht as [<-|Ht]; [exists (p_lhs r); split; [exists r; auto|auto]|].
      apply in_map_iff in Ht. destruct Ht as (s & <- & Hs). exists s. split; [exists r; auto|auto].
    - intros (s & (r & Hr & Hs) & ->). destruct (remap_has r Hr) as (r' & Hr' & E1 & E2 & _). exists r'. split; [auto|].
      rewrite E1, E2. destruct Hs as [<-|Hs]; [auto|right; now apply in_map].
  Qed.
End Remap.

Lemma apart_contract : forall X U start, crate_apart X U start -> crate_contract X U start.
Proof. intros X U start (W & B & E & c & w & m & head & nulling & origin & maps & f & HX & _). exists W, B, E, c, w, m, head, nulling, origin, maps, f. exact HX. Qed.
