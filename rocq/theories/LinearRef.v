(** LinearRef: the FOLLOW sets of the reference crate hold nothing but symbols that follow,
    for reduced grammars without empty rules. *)
From Coq Require Import List Arith Bool Lia.
From Verif Require Import Base Grammar DefaultGrammar Spec SpecFacts CfgSpec FromGrammar CrateSpec UserSpec CrateFacts CrateProcessed
  LRSpec LinearUser.
From Verif Require Import ReferenceCrate ReferenceFacts.
Import ListNotations.

(** ** Every symbol of the processed grammar is reached from the root *)
Section Reached.
  Variables (X : cfg_crate) (U : pcfg) (start : sym) (W B E c0 : pcfg) (w : wrapped_root) (m : sym -> list sym) (head : nat -> nat)
    (nulling : list prule) (origin : nat -> nat * list bool) (maps : mapping) (f : sym -> sym).
  Hypothesis HU : user_grammar U start.
  Hypothesis HX : elaborates X U start W B E c0 w m head nulling origin maps f.
  Hypothesis Hne : no_empty_rules U.
  Hypothesis Hred : reduced U start.
  Notation U' := (x_make_proper X U).
  Notation at_ l := (l X U start W B E c0 w m head nulling origin maps f).
  Let HP := at_ CrateProcessed.HP HX.
  Let HW := at_ CrateProcessed.HW HX.
  Let HB := at_ CrateProcessed.HB HX.
  Let HE := at_ CrateProcessed.HE HX.
  Let HUr := at_ U'_range HU HX.
  Let HSr := at_ start_range HU HX.

  Lemma all_kept : forall r, In r (c_rules U) -> In r (c_rules U').
  Proof.
    intros r Hr. apply (mp_rules _ _ _ HP). split; [auto|]. split.
    - apply Hred. exists r. auto.
    - intros s Hs. apply Hred. exists r. auto.
  Qed.

  Definition from_root (s : sym) : Prop := exists u v, derives (c_rules E) (w_root w) (u ++ s :: v).

  Lemma root_form : derives (c_rules W) (w_root w) [w_sof w; start; w_eof w].
  Proof.
    destruct (wrap_root_rule start U' W w HW HUr HSr) as (d & r & Hd & El & Er & _). rewrite <- El. apply derives_rule; [eapply nth_error_In; eauto|].
    rewrite Er. apply derives_seq_self.
  Qed.

  Lemma old_reached : forall s, used (c_rules W) s -> from_root s.
  Proof.
    intros s (r & Hr & Hs). destruct (wrap_rule_cases start U' W w HW r Hr) as [H|(A & A' & _)].
    - assert (Hu : used (c_rules U) s) by (exists r; split; [exact (proper_sub start U U' HP r H)|auto]).
      destruct (Hred s Hu) as (_ & u & v & D).
      exists ([w_sof w] ++ u), (v ++ [w_eof w]). apply (W_E_derives X U start W B E c0 w m head nulling origin maps f HU HX Hne).
      assert (D' : derives (c_rules W) start (u ++ s :: v)).
      { apply (wrap_complete start U' W w HW). exact (proj1 (derives_sub _ _ all_kept) _ _ D). }
      pose proof (derives_replace _ _ [w_sof w] start [w_eof w] _ root_form D') as K. rewrite <- !app_assoc in K. rewrite <- app_assoc. exact K.
    - assert (G : forall u v, [w_sof w; start; w_eof w] = u ++ s :: v -> from_root s).
      { intros u v K. exists u, v. rewrite <- K. apply (W_E_derives X U start W B E c0 w m head nulling origin maps f HU HX Hne). exact root_form. }
      rewrite A, A' in Hs. destruct Hs as [<-|[<-|[<-|[<-|[]]]]].
      + exists [], []. constructor.
      + now apply (G [] [start; w_eof w]).
      + now apply (G [w_sof w] [w_eof w]).
      + now apply (G [w_sof w; start] []).
  Qed.

  Lemma gen_reached : forall k g, gen W B g -> maxlen B m - length (m g) <= k -> from_root g.
  Proof.
    induction k as [|k IH]; intros g Hg Hk; destruct (at_ gen_parent HX g Hg) as (b & r & y & Hb & Er & Hy & Nl & K1 & K2 & Hc).
    - destruct Hc as [Gl|Ol].
      + exfalso. specialize (K1 Gl). pose proof (maxlen_ok B m _ (proj2 Gl)) as M. rewrite K1, app_length in M. cbn in M. lia.
      + assert (Fl : from_root (p_lhs r)) by (destruct (K2 Ol) as (q & Hq & Eq & _); apply old_reached; exists q; auto).
        destruct Fl as (u & v & D). exists u, (y :: v). destruct (B_E X U start W B E c0 w m head nulling origin maps f HU HX Hne r) as (r' & Hr' & E1 & E2); [eapply nth_error_In; eauto|].
        assert (D' : derives (c_rules E) (p_lhs r) [g; y]) by (rewrite <- E1; apply derives_rule; [auto|]; rewrite E2, Er; apply derives_seq_self).
        exact (derives_replace _ _ _ _ _ _ D D').
    - assert (Fl : from_root (p_lhs r)).
      { destruct Hc as [Gl|Ol]; [|destruct (K2 Ol) as (q & Hq & Eq & _); apply old_reached; exists q; auto].
        apply IH; [auto|]. rewrite (K1 Gl), app_length. cbn. lia. }
      destruct Fl as (u & v & D). exists u, (y :: v). destruct (B_E X U start W B E c0 w m head nulling origin maps f HU HX Hne r) as (r' & Hr' & E1 & E2); [eapply nth_error_In; eauto|].
      assert (D' : derives (c_rules E) (p_lhs r) [g; y]) by (rewrite <- E1; apply derives_rule; [auto|]; rewrite E2, Er; apply derives_seq_self).
      exact (derives_replace _ _ _ _ _ _ D D').
  Qed.

  Lemma E_reached : forall s, used (c_rules E) s -> from_root s.
  Proof.
    intros s Hs. destruct (Nat.lt_ge_cases s (c_num_syms W)) as [L|L].
    - apply old_reached. apply (at_ used_B_W HX); [exact (elim_used B E nulling origin HE s Hs)|auto].
    - apply (gen_reached _ s ltac:(split; [auto|pose proof (at_ E_range HX s Hs) as K; rewrite (el_syms _ _ _ _ HE) in K; exact K]) (le_n _)).
  Qed.

  Variable order : BitMatrix.bitmatrix.
  Hypothesis HR : remapped (remap_cmp order) E c0 maps f.
  Notation Rc := (c_rules (sort_rules_by_lhs c0)).
  Lemma c_reached : forall r, In r Rc -> exists u v, derives Rc (f (w_root w)) (u ++ p_lhs r :: v).
  Proof.
    intros r Hr. destruct (in_Rc _ _ _ _ _ HR r Hr) as (q & Hq & -> & _). destruct (E_reached (p_lhs q)) as (u & v & D); [exists q; auto|].
    apply (proj1 (remap_forward _ _ _ _ _ HR)) in D. rewrite map_app in D. eauto.
  Qed.
End Reached.

(** ** The FOLLOW sets of the reference crate *)
Section Follow.
  Variable c : pcfg.
  Notation R := (c_rules c).
  Variable root : sym.
  Hypothesis Hreach : forall r, In r R -> exists u v, derives R root (u ++ p_lhs r :: v).

  Lemma heads_sound : forall a s, In s (heads_of R a) -> exists y, derives R a (s :: y).
  Proof.
    intros a. unfold heads_of. apply (closure_least (fun s => exists y, derives R a (s :: y))).
    - intros cl Hc Hp. unfold first_clauses in Hc. apply in_flat_map in Hc. destruct Hc as (r & Hr & Hc).
      destruct (p_rhs r) as [|b l] eqn:Er; [destruct Hc|]. destruct Hc as [<-|[]]. cbn [fst snd] in *.
      destruct (Hp (p_lhs r) (or_introl eq_refl)) as (y & D).
      assert (D' : derives R (p_lhs r) (b :: l)) by (apply derives_rule; [auto|]; rewrite Er; apply derives_seq_self).
      exists (l ++ y). exact (derives_replace R a [] (p_lhs r) y (b :: l) D D').
    - intros s [<-|[]]. exists []. constructor.
  Qed.
  Lemma tails_sound : forall a s, In s (tails_of R a) -> exists x, derives R a (x ++ [s]).
  Proof.
    intros a. unfold tails_of. apply (closure_least (fun s => exists x, derives R a (x ++ [s]))).
    - intros cl Hc Hp. unfold last_clauses in Hc. apply in_flat_map in Hc. destruct Hc as (r & Hr & Hc).
      destruct (p_rhs r) as [|b l] eqn:Er; [destruct Hc|]. destruct Hc as [<-|[]]. cbn [fst snd] in *.
      destruct (Hp (p_lhs r) (or_introl eq_refl)) as (x & D).
      assert (D' : derives R (p_lhs r) (removelast (b :: l) ++ [last (b :: l) b])).
      { rewrite <- app_removelast_last by discriminate. apply derives_rule; [auto|]. rewrite Er. apply derives_seq_self. }
      assert (El : last (b :: l) b = last l b) by (destruct l; reflexivity). rewrite El in D'.
      exists (x ++ removelast (b :: l)). pose proof (derives_replace R a x (p_lhs r) [] _ D D') as K. rewrite app_nil_r in K. rewrite <- app_assoc. exact K.
    - intros s [<-|[]]. exists []. constructor.
  Qed.
  Lemma neighbours_split : forall l p, In p (neighbours l) -> exists l1 l2, l = l1 ++ fst p :: snd p :: l2.
  Proof.
    induction l as [|a l IH]; intros p Hp; [destruct Hp|]. cbn [neighbours] in Hp. apply in_app_iff in Hp. destruct Hp as [Hp|Hp].
    - destruct l as [|b l]; [destruct Hp|]. destruct Hp as [<-|[]]. exists [], l. reflexivity.
    - destruct (IH p Hp) as (l1 & l2 & ->). exists (a :: l1), l2. reflexivity.
  Qed.

  Lemma ref_follow_sound : follow_sets_sound c root (ref_follow c).
  Proof.
    intros A l t HA Ht. unfold ref_follow in HA. apply in_flat_map in HA. destruct HA as (r & Hr & HA).
    apply in_flat_map in HA. destruct HA as (p & Hp & HA). apply in_map_iff in HA. destruct HA as (s & Es & Hs). injection Es as <- <-.
    apply filter_In in Ht. destruct Ht as [Ht _].
    destruct (heads_sound _ _ Ht) as (y & Dy). destruct (tails_sound _ _ Hs) as (x & Dx).
    destruct (neighbours_split _ _ Hp) as (l1 & l2 & Er). destruct (Hreach r Hr) as (u & v & D).
    assert (Dr : derives R (p_lhs r) ((l1 ++ x) ++ s :: t :: y ++ l2)).
    { apply derives_rule; [auto|]. rewrite Er, <- app_assoc. apply derives_seq_app; [apply derives_seq_self|].
      change (s :: t :: y ++ l2) with ([s] ++ (t :: y) ++ l2). rewrite app_assoc. constructor; [auto|]. constructor; [auto|apply derives_seq_self]. }
    exists (u ++ l1 ++ x), ((y ++ l2) ++ v). pose proof (derives_replace R root u _ v _ D Dr) as K. rewrite <- !app_assoc in K. cbn [app] in K.
    rewrite <- !app_assoc in *. exact K.
  Qed.
End Follow.

Lemma reference_exact : forall U start, user_grammar U start -> no_empty_rules U -> reduced U start -> exact_contract reference U start.
Proof.
  intros U start HU Hne Hred. destruct (reference_keeps U start HU) as (W & B & E & c & w & m & head & nulling & origin & maps & f & HX).
  exists W, B, E, c, w, m, head, nulling, origin, maps, f. split; [exact HX|].
  destruct (order_exists _ _ _ _ _ _ _ _ _ _ _ _ _ _ HX) as (order & _ & _ & HR).
  apply ref_follow_sound. exact (c_reached _ _ _ _ _ _ _ _ _ _ _ _ _ _ HU HX Hne Hred order HR).
Qed.
