(** SpecFacts: elementary facts about derivations and parse trees. *)
From Coq Require Import List Arith Bool Lia.
From Verif Require Import Grammar Spec.
Import ListNotations.

Section SpecFacts.
  Variable R : list prule.

  Lemma derives_seq_app : forall a b u v, derives_seq R a u -> derives_seq R b v ->
    derives_seq R (a ++ b) (u ++ v).
  Proof.
    intros a b u v H Hb. induction H as [|s ss w1 w2 Hs Hss IH]; simpl; auto.
    rewrite <- app_assoc. now constructor.
  Qed.

  Lemma derives_seq_self : forall ss, derives_seq R ss ss.
  Proof.
    induction ss as [|s ss IH]; [constructor|].
    change (s :: ss) with ([s] ++ ss) at 2. constructor; auto. constructor.
  Qed.

  (** replacing one symbol of a derived string by something it derives *)
  Lemma derives_subst :
    (forall s w, derives R s w -> forall u A v x, w = u ++ A :: v -> derives R A x -> derives R s (u ++ x ++ v)) /\
    (forall ss w, derives_seq R ss w -> forall u A v x, w = u ++ A :: v -> derives R A x ->
       derives_seq R ss (u ++ x ++ v)).
  Proof.
    apply derives_both.
    - intros s u A v x E Hx. destruct u as [|b u].
      + injection E as <- <-. simpl. now rewrite app_nil_r.
      + destruct u; discriminate.
    - intros r w Hin Hs IH u A v x E Hx. apply derives_rule; eauto.
    - intros u A v x E. destruct u; discriminate.
    - intros s ss w1 w2 H1 IH1 H2 IH2 u A v x E Hx.
      assert (X : (exists v', w1 = u ++ A :: v' /\ v = v' ++ w2) \/ (exists u', u = w1 ++ u' /\ w2 = u' ++ A :: v)).
      { clear -E. revert u E. induction w1 as [|a w1 IH]; intros u E; simpl in E.
        - right. exists u. auto.
        - destruct u as [|b u]; simpl in E; injection E as Ea E.
          + left. subst a. exists w1. auto.
          + subst b. destruct (IH u E) as [(v' & -> & ->)|(u' & -> & ->)].
            * left. exists v'. auto.
            * right. exists u'. auto. }
      destruct X as [(v' & -> & ->)|(u' & -> & ->)].
      + replace (u ++ x ++ v' ++ w2) with ((u ++ x ++ v') ++ w2) by now rewrite !app_assoc.
        constructor; eauto.
      + rewrite <- app_assoc. constructor; eauto.
  Qed.

  Lemma derives_replace : forall s u A v x, derives R s (u ++ A :: v) -> derives R A x -> derives R s (u ++ x ++ v).
  Proof. intros. eapply (proj1 derives_subst); eauto. Qed.

  Lemma derives_trans1 : forall s A x v, derives R s (A :: v) -> derives R A x -> derives R s (x ++ v).
  Proof. intros s A x v H Hx. exact (derives_replace s [] A v x H Hx). Qed.

  (** parse trees and derivations *)
  Lemma tree_derives :
    (forall s t, parse_tree R s t -> derives R s (map fst (yield t))) /\
    (forall ss ts, parse_trees R ss ts -> derives_seq R ss (map fst (flat_map yield ts))).
  Proof.
    apply parse_both; simpl.
    - intros s v. constructor.
    - intros d r ts Hd _ IH. apply derives_rule; auto. eapply nth_error_In; eauto.
    - constructor.
    - intros s ss t ts _ IH1 _ IH2. rewrite map_app. now constructor.
  Qed.

  Lemma derives_tree :
    (forall s w, derives R s w -> forall ys, map fst ys = w -> exists t, parse_tree R s t /\ yield t = ys) /\
    (forall ss w, derives_seq R ss w -> forall ys, map fst ys = w ->
       exists ts, parse_trees R ss ts /\ flat_map yield ts = ys).
  Proof.
    apply derives_both.
    - intros s ys E. destruct ys as [|[a v] [|]]; try discriminate. injection E as ->.
      exists (Leaf s v). split; [constructor|reflexivity].
    - intros r w Hin _ IH ys E. destruct (IH ys E) as (ts & Hts & Ey).
      apply In_nth_error in Hin. destruct Hin as [d Hd]. exists (Node d ts). split; [|auto].
      econstructor; eauto.
    - intros ys E. apply map_eq_nil in E. subst. exists []. split; [constructor|reflexivity].
    - intros s ss w1 w2 _ IH1 _ IH2 ys E.
      assert (E1 : map fst (firstn (length w1) ys) = w1).
      { rewrite <- firstn_map, E, firstn_app, Nat.sub_diag, firstn_all. simpl. apply app_nil_r. }
      assert (E2 : map fst (skipn (length w1) ys) = w2).
      { rewrite <- skipn_map, E, skipn_app, Nat.sub_diag, skipn_all. reflexivity. }
      destruct (IH1 _ E1) as (t & Ht & Y1). destruct (IH2 _ E2) as (ts & Hts & Y2).
      exists (t :: ts). split; [now constructor|]. simpl. rewrite Y1, Y2. apply firstn_skipn.
  Qed.

  Lemma yield_nonempty : (forall r, In r R -> p_rhs r <> []) ->
    (forall s t, parse_tree R s t -> yield t <> []) /\
    (forall ss ts, parse_trees R ss ts -> ss <> [] -> flat_map yield ts <> []).
  Proof.
    intros Hne. apply parse_both; simpl.
    - discriminate.
    - intros d r ts Hd _ IH. apply IH. apply Hne. eapply nth_error_In; eauto.
    - congruence.
    - intros s ss t ts _ IH _ _ _ E. apply app_eq_nil in E. tauto.
  Qed.

  Lemma derives_nonempty : (forall r, In r R -> p_rhs r <> []) -> forall s w, derives R s w -> w <> [].
  Proof.
    intros Hne s w H. destruct (proj1 derives_tree s w H (map (fun a => (a, 0)) w)) as (t & Ht & Y).
    { rewrite map_map. simpl. apply map_id. }
    intros ->. simpl in Y. now apply (proj1 (yield_nonempty Hne)) in Ht.
  Qed.

  (** closing a sentential form with terminals *)
  Lemma productive_seq : productive R -> forall v, exists w, derives_seq R v w /\ Forall (terminal R) w.
  Proof.
    intros HP. induction v as [|s v (w & Hw & Ht)]; [exists []; split; constructor|].
    destruct (HP s) as (w1 & H1 & T1). exists (w1 ++ w). split; [now constructor|].
    apply Forall_app; auto.
  Qed.

  Lemma derives_replace_seq : forall v w, derives_seq R v w -> forall s u x, derives R s (u ++ v ++ x) ->
    derives R s (u ++ w ++ x).
  Proof.
    induction 1 as [|a v w1 w2 H1 H2 IH]; intros s u x H; [auto|].
    simpl in H. pose proof (derives_replace _ _ _ _ _ H H1) as X.
    rewrite <- app_assoc. rewrite app_assoc. apply IH. now rewrite <- app_assoc.
  Qed.

  Lemma viable_close : productive R -> forall s w v, derives R s (w ++ v) -> viable_terminal_prefix R s w.
  Proof.
    intros HP s w v H. destruct (productive_seq HP v) as (v' & Hv & Ht).
    exists v'. split; [auto|]. pose proof (derives_replace_seq v v' Hv s w []) as X.
    rewrite !app_nil_r in X. auto.
  Qed.

  Definition constituents_list (P : nat -> sym -> bool) :=
    fix children (i : nat) (ts : list tree) : Prop :=
      match ts with
      | [] => True
      | t :: ts' => constituents_ok R P i t /\ children (i + length (yield t)) ts'
      end.

  Lemma constituents_node : forall P i d ts, constituents_ok R P i (Node d ts) <->
    (exists r, nth_error R d = Some r /\ P (i + length (flat_map yield ts)) (p_lhs r) = true) /\
    constituents_list P i ts.
  Proof.
    intros P i d ts. cbn [constituents_ok yield]. fold (constituents_list P).
    split; intros [A B]; split; auto.
    - destruct (nth_error R d) as [r|]; [eauto|tauto].
    - destruct A as (r & -> & A). auto.
  Qed.

  Lemma constituents_all : forall P, (forall j s, P j s = true) ->
    (forall s t, parse_tree R s t -> forall i, constituents_ok R P i t) /\
    (forall ss ts, parse_trees R ss ts -> forall i, constituents_list P i ts).
  Proof.
    intros P HP. apply parse_both.
    - intros; simpl; auto.
    - intros d r ts Hd _ IH i. apply constituents_node. split; eauto.
    - intros; simpl; auto.
    - intros s ss t ts _ IH1 _ IH2 i. simpl. auto.
  Qed.

  Lemma constituents_ext : forall P Q, (forall j s, P j s = Q j s) ->
    forall t i, constituents_ok R P i t -> constituents_ok R Q i t.
  Proof.
    intros P Q H. fix IH 1. intros [s v|d ts] i Ht; [exact I|].
    cbn [constituents_ok] in *. destruct Ht as [A B]. split.
    - destruct (nth_error R d); [|tauto]. now rewrite <- H.
    - clear A. revert i B. induction ts as [|t ts IHts]; intros i B; [exact I|].
      destruct B as [B1 B2]. split; [now apply IH|]. now apply IHts.
  Qed.
End SpecFacts.
