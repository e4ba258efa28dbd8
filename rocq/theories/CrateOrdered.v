(** CrateOrdered: user grammars without unit steps have their symbols in order. *)
From Coq Require Import List Arith Bool Lia.
From Verif Require Import Base BaseProofs Grammar BitMatrix DefaultGrammar Spec SpecFacts CfgSpec TreeSpec FromGrammar CrateSpec UserSpec CrateFacts CrateProcessed CrateTrees.
From Verif Require Import PropLemmas4.
Import ListNotations.
Local Open Scope res_scope.

Section Ordered.
  Variables (X : cfg_crate) (U : pcfg) (start : sym) (W B E c0 : pcfg) (w : wrapped_root) (m : sym -> list sym) (head : nat -> nat)
    (nulling : list prule) (origin : nat -> nat * list bool) (maps : mapping) (f : sym -> sym).
  Hypothesis HU : user_grammar U start.
  Hypothesis HX : elaborates X U start W B E c0 w m head nulling origin maps f.
  Local Notation at_ l := (l X U start W B E c0 w m head nulling origin maps f) (only parsing).
  Let HP := at_ CrateProcessed.HP HX.
  Let HW := at_ CrateProcessed.HW HX.
  Let HB := at_ CrateProcessed.HB HX.
  Let HE := at_ CrateProcessed.HE HX.
  Notation U' := (x_make_proper X U).
  Notation gen := (gen W B).

  (** every rule of the binary grammar is a rule of the wrapped one, or begins one *)
  Lemma begins : forall r', In r' (c_rules B) -> exists q v, In q (c_rules W) /\ p_rhs q = flat_map m (p_rhs r') ++ v /\
    ((p_lhs r' < c_num_syms W /\ v = []) \/ (gen (p_lhs r') /\ v <> [] /\ length (p_rhs r') = 2)).
  Proof.
    intros r' Hr. destruct (Nat.lt_ge_cases (p_lhs r') (c_num_syms W)) as [L|L].
    - destruct (bin_head W B m head HB r' Hr L) as (q & Hq & _ & _ & Ef). exists q, []. rewrite app_nil_r. auto.
    - destruct (bz_gen_rule _ _ _ _ HB r' Hr L) as (_ & L2 & Ef).
      assert (G : gen (p_lhs r')) by (split; [auto|]; apply (bz_range _ _ _ _ HB); exists r'; auto).
      destruct (at_ stands HX _ (p_lhs r') G (le_n _)) as (q & l & Hq & Eq & Nl). exists q, l. rewrite Ef. auto 8.
  Qed.

  Lemma sof_terminal_E : terminal (c_rules E) (w_sof w).
  Proof. apply (elim_terminal B E nulling origin HE). exact (proj1 (at_ sof_eof_B HU HX)). Qed.

  Lemma sof_not_null : ~ nullable (c_rules U) (w_sof w).
  Proof.
    intros H. inversion H as [|r x Hr _ E1 E2]. pose proof (ug_range _ _ HU (w_sof w)) as K.
    assert (L : w_sof w < c_num_syms U) by (apply K; exists r; auto).
    pose proof (wrap_new start U' W w HW). rewrite (mp_syms _ _ _ HP) in *. lia.
  Qed.

  Hypothesis Hunit : no_unit_steps U start.

  Lemma unit_rules : forall r x, In r (c_rules E) -> p_rhs r = [x] ->
    terminal (c_rules E) x \/ (p_lhs r < c_num_syms W /\ gen x).
  Proof.
    intros r x Hr Ex. destruct (elim_rule B E nulling origin HE r Hr) as (r' & mask & Hr' & Lm & El & _ & Er & _ & Hn).
    rewrite Ex in Er. rewrite El. destruct (begins r' Hr') as (q & v & Hq & Eq & Hv).
    assert (Term : forall s, In s (p_rhs q) -> In q (c_rules U') -> terminal (c_rules U) s -> terminal (c_rules E) s).
    { intros s Hs Hq' T. apply (at_ known_terminal HU HX); [|auto]. apply (ug_range _ _ HU). exists q.
      split; [exact (proper_sub start U U' HP q Hq')|auto]. }
    assert (Null : forall s a, In s (p_rhs r') -> nullable (c_rules B) s -> In a (m s) -> nullable (c_rules U) a).
    { intros s a Hs Ns Ha. refine (at_ m_null HU HX s a _ _ Ns Ha); [exists r'; auto|]. intros ->. exact (at_ root_not_rhs_B HU HX r' Hr' Hs). }
    pose proof (bz_length _ _ _ _ HB r' Hr') as Len.
    assert (Rng : forall s, In s (p_rhs r') -> s < c_num_syms B) by (intros s Hs; apply (bz_range _ _ _ _ HB); exists r'; auto).
    assert (Cases : In q (c_rules U') \/ p_rhs q = [w_sof w; start; w_eof w]) by (destruct (wrap_rule_cases start U' W w HW q Hq) as [K|(_ & K & _)]; auto).
    destruct (p_rhs r') as [|a [|y [|]]] eqn:Er'; [destruct mask; discriminate Er| | |cbn in Len; lia].
    - (* one symbol *)
      destruct mask as [|[|] [|]]; try discriminate Lm; try discriminate Er. injection Er as <-.
      destruct Hv as [[L ->]|(_ & _ & K)]; [|discriminate K]. rewrite app_nil_r in Eq. cbn in Eq. rewrite app_nil_r in Eq.
      destruct (Nat.lt_ge_cases x (c_num_syms W)) as [Lx|Lx]; [|right; split; [auto|split; [auto|apply Rng; simpl; auto]]].
      left. rewrite (bz_old _ _ _ _ HB x Lx) in Eq. destruct Cases as [K|K]; [|rewrite Eq in K; discriminate K].
      apply Term; [rewrite Eq; simpl; auto|auto|]. apply (mp_rules _ _ _ HP) in K. destruct K as [K1 K2].
      destruct (Hunit q [x] [] K1 K2 Eq) as [H _]. apply (H [] x []); auto; constructor.
    - (* two symbols *)
      assert (Hy : y < c_num_syms W) by (apply (bz_second _ _ _ _ HB r'); [auto|now rewrite Er']).
      cbn [flat_map] in Eq. rewrite (bz_old _ _ _ _ HB y Hy), app_nil_r in Eq.
      destruct mask as [|b1 [|b2 [|]]]; try discriminate Lm. destruct b1, b2; cbn in Er, Hn; try discriminate Er; injection Er as <-.
      + (* the second is struck out *)
        assert (Ny : nullable (c_rules U) y).
        { apply (Null y); [simpl; auto|now apply Forall_inv in Hn|]. rewrite (bz_old _ _ _ _ HB y Hy). simpl; auto. }
        destruct (Nat.lt_ge_cases x (c_num_syms W)) as [Lx|Lx].
        * left. rewrite (bz_old _ _ _ _ HB x Lx) in Eq. cbn in Eq. destruct Cases as [K|K].
          -- apply Term; [rewrite Eq; simpl; auto|auto|]. apply (mp_rules _ _ _ HP) in K. destruct K as [K1 K2].
             destruct (Hunit q [x; y] v K1 K2 Eq) as [H _]. apply (H [] x [y]); auto; constructor; auto.
          -- rewrite Eq in K. injection K as -> _ _. exact sof_terminal_E.
        * assert (Gx : gen x) by (split; [auto|apply Rng; simpl; auto]). destruct Hv as [[L _]|(G & Nv & _)]; [auto|exfalso].
          pose proof (bz_new _ _ _ _ HB x Lx) as L2. destruct Cases as [K|K].
          -- apply (mp_rules _ _ _ HP) in K. destruct K as [K1 K2]. destruct (Hunit q (m x ++ [y]) v K1 K2 Eq) as [_ H].
             apply (H (m x) y); auto.
          -- rewrite Eq in K. apply (f_equal (@length sym)) in K. rewrite !app_length in K. cbn in K. destruct v; [contradiction|]. cbn in K. unfold sym in *. lia.
      + (* the first is struck out *)
        assert (Na : Forall (nullable (c_rules U)) (m a)).
        { apply Forall_forall. intros s Hs. apply (Null a); [simpl; auto|now apply Forall_inv in Hn|auto]. }
        assert (La : m a <> []).
        { destruct (Nat.lt_ge_cases a (c_num_syms W)) as [L|L]; [rewrite (bz_old _ _ _ _ HB a L); discriminate|].
          pose proof (bz_new _ _ _ _ HB a L) as L2. intros K. rewrite K in L2. cbn in L2. lia. }
        left. destruct Cases as [K|K].
        * apply Term; [rewrite Eq; apply in_app_iff; left; apply in_app_iff; simpl; auto|auto|]. apply (mp_rules _ _ _ HP) in K. destruct K as [K1 K2].
          destruct (Hunit q (m a ++ [x]) v K1 K2 Eq) as [H _]. apply (H (m a) x []); auto; [|rewrite app_nil_r; auto].
          right. rewrite app_length. cbn. destruct (m a); [contradiction|cbn; lia].
        * exfalso. rewrite Eq in K. destruct (m a) as [|s l]; [contradiction|]. injection K as -> _. apply Forall_inv in Na. exact (sof_not_null Na).
  Qed.

  Variable order : bitmatrix.
  Hypothesis HR : remapped (remap_cmp order) E c0 maps f.
  Notation c := (sort_rules_by_lhs c0).
  Hypothesis Hshort : nulling_only_short U start.
  Variable nsyms : nat.
  Hypothesis Hsplit : forall s, used (c_rules E) s -> (kept_gen W B E s <-> nsyms <= f s).

  Lemma user_ordered : ordered_grammar c.
  Proof.
    split; [apply P_sorted|]. intros r b Hr Eb Nt. apply In_nth_error in Hr. destruct Hr as (i & Hi).
    destruct (idx_onto E c0 maps f order HR) as (p & _ & Pback & _). destruct (Pback i r Hi) as (q & Hq & A1 & A2 & _).
    assert (HqE : In q (c_rules E)) by (eapply nth_error_In; eauto).
    rewrite Eb in A2. destruct (p_rhs q) as [|x [|]] eqn:Eq; try discriminate A2. injection A2 as A2.
    assert (Ux : used (c_rules E) x) by (exists q; rewrite Eq; split; [auto|simpl; auto]).
    assert (Ul : used (c_rules E) (p_lhs q)) by (exists q; auto).
    destruct (unit_rules q x HqE Eq) as [T|[L G]].
    - exfalso. apply Nt. rewrite A2. now apply (remap_terminal _ _ _ _ _ HR x Ux).
    - rewrite A1, A2. pose proof (proj1 (Hsplit x Ux) (at_ gen_kept HU HX Hshort x G)) as K1.
      assert (K2 : ~ nsyms <= f (p_lhs q)).
      { intros K. apply (Hsplit _ Ul) in K. destruct K as [[K _] _]. unfold sym in *. lia. }
      unfold sym in *. lia.
  Qed.

  Lemma user_wrapped_once : forall h0 w', c_num_syms W <= h0 < c_num_syms B -> w_sof w' = f (w_sof w) -> w_inner w' = f start ->
    (exists r, In r (c_rules B) /\ p_lhs r = h0 /\ p_rhs r = [w_sof w; start]) -> exists d, wrapped_once c w' (f h0) d.
  Proof.
    intros h0 w' Hh Es Ei (r1 & Hr1 & El1 & Er1).
    assert (Vs : visible (c_rules B) start) by exact (at_ vis_start HU HX (proj1 Hshort)).
    assert (Vf : visible (c_rules B) (w_sof w)) by (apply (at_ vis_root_rhs HU HX); simpl; auto).
    destruct (bz_gen_one _ _ _ _ HB h0 (proj1 Hh) (proj2 Hh)) as (b & rB & Hb & Elb & Hb1).
    assert (rB = r1). { apply In_nth_error in Hr1. destruct Hr1 as (b' & Hb'). rewrite (Hb1 b' r1 Hb' El1) in Hb'. congruence. } subst rB.
    destruct (at_ full_rule_of HX b r1 Hb) as (d & r & Hd & Eo & E1 & E2 & _).
    { rewrite Er1. discriminate. } { intros s Hs. rewrite Er1 in Hs. destruct Hs as [<-|[<-|[]]]; auto. }
    rewrite Er1 in E2, Eo. cbn in Eo. rewrite El1 in E1.
    destruct (idx_onto E c0 maps f order HR) as (p & Pinj & Pback & Ponto). destruct (Ponto d r Hd) as (i & r2 & Hi & Ep).
    assert (Hren : forall j q, nth_error (c_rules c) j = Some q -> exists q', nth_error (c_rules E) (p j) = Some q' /\ p_lhs q = f (p_lhs q') /\ p_rhs q = map f (p_rhs q')).
    { intros j q Hj. destruct (Pback j q Hj) as (q' & Hq & A1 & A2 & _). eauto. }
    assert (HuE : forall q s, In q (c_rules E) -> s = p_lhs q \/ In s (p_rhs q) -> used (c_rules E) s) by (intros q s Hq [->|Hs]; exists q; auto).
    assert (HrE : In r (c_rules E)) by (eapply nth_error_In; eauto).
    assert (Uh : used (c_rules E) h0) by (apply (HuE r); auto).
    exists i. intros j. split.
    - intros (q & Hj & Lq & Rq). destruct (Hren j q Hj) as (q' & Hq' & A1 & A2). assert (Hq : In q' (c_rules E)) by (eapply nth_error_In; eauto).
      apply Pinj. rewrite Ep. apply (el_once _ _ _ _ HE _ _ q' r Hq' Hd). rewrite Eo.
      pose proof (el_rule _ _ _ _ HE (p j) q' Hq') as K. destruct (origin (p j)) as [b' mask]. destruct K as (rB & Hb' & Lm & B1 & B2 & B3 & B4 & B5).
      assert (Elq : p_lhs q' = h0) by (apply (rm_injective _ _ _ _ _ HR); [apply (HuE q'); auto|auto|congruence]).
      assert (b' = b) by (apply (Hb1 b' rB Hb'); congruence). subst b'. rewrite Hb in Hb'. injection Hb' as <-. f_equal.
      rewrite Er1 in Lm, B3. rewrite A2, B3 in Rq. destruct mask as [|[] [|[] [|]]]; try discriminate Lm; try discriminate Rq. reflexivity.
    - intros ->. exists r2. split; [exact Hi|]. destruct (Hren i r2 Hi) as (q' & Hq' & A1 & A2). rewrite Ep, Hd in Hq'. injection Hq' as <-.
      split; [congruence|]. rewrite A2, E2, Es, Ei. reflexivity.
  Qed.
End Ordered.
