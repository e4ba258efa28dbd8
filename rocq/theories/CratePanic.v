(** CratePanic: when [from_grammar] panics for symbols that derive the empty string only. *)
From Coq Require Import List Arith Bool Lia.
From Verif Require Import Base BaseProofs Grammar BitMatrix DefaultGrammar Spec SpecFacts CfgSpec TablesProofs RemapFacts FromGrammar CrateSpec UserSpec CrateFacts CrateProcessed PropLemmas9.
From Verif Require CyclicUser.
Import ListNotations.
Local Open Scope res_scope.

Section Panic.
  Variables (X : cfg_crate) (U : pcfg) (start : sym) (W B E c0 : pcfg) (w : wrapped_root) (m : sym -> list sym) (head : nat -> nat)
    (nulling : list prule) (origin : nat -> nat * list bool) (maps : mapping) (f : sym -> sym).
  Hypothesis HU : user_grammar U start.
  Hypothesis HX : elaborates X U start W B E c0 w m head nulling origin maps f.
  Local Notation at_ l := (l X U start W B E c0 w m head nulling origin maps f) (only parsing).
  Let HP := at_ CrateProcessed.HP HX.
  Let HW := at_ CrateProcessed.HW HX.
  Let HB := at_ CrateProcessed.HB HX.
  Let HE := at_ CrateProcessed.HE HX.
  Notation U' := (x_make_proper X U).
  Notation gen := (gen W B).

  (** every beginning of a long rule has a generated symbol *)
  Lemma prefix_gen : forall n r' u v, In r' (c_rules B) -> flat_map m (p_rhs r') = u ++ v -> 2 <= length u -> v <> [] -> length v <= n ->
    exists g, gen g /\ m g = u.
  Proof.
    induction n as [|n IH]; intros r' u v Hr Ef Lu Nv Ln; [destruct v; [contradiction|cbn in Ln; lia]|].
    pose proof (bz_length _ _ _ _ HB r' Hr) as Hlen.
    assert (Rng : forall s, In s (p_rhs r') -> s < c_num_syms B) by (intros s Hs; apply (bz_range _ _ _ _ HB); exists r'; auto).
    assert (Lf : 3 <= length (flat_map m (p_rhs r'))) by (rewrite Ef, app_length; destruct v; [contradiction|cbn; lia]).
    destruct (p_rhs r') as [|a [|y [|]]] eqn:Er; [cbn in Lf; lia|exfalso| |cbn in Hlen; lia].
    { cbn [flat_map] in Lf. rewrite app_nil_r in Lf. destruct (Nat.lt_ge_cases a (c_num_syms W)) as [L|L]; [rewrite (bz_old _ _ _ _ HB a L) in Lf; cbn in Lf; lia|].
      destruct (bz_gen_use _ _ _ _ HB a L) as (b & q & y & Hq & Eq & Hq'); [apply Rng; simpl; auto|].
      apply In_nth_error in Hr. destruct Hr as (b' & Hb'). assert (b' = b) by (apply (Hq' _ _ Hb'); rewrite Er; simpl; auto). subst b'.
      rewrite Hb' in Hq. injection Hq as <-. congruence. }
    assert (Hy : y < c_num_syms W) by (apply (bz_second _ _ _ _ HB r'); [auto|now rewrite Er]).
    cbn [flat_map] in Ef. rewrite app_nil_r, (bz_old _ _ _ _ HB y Hy) in Ef.
    destruct (exists_last Nv) as (v' & z & ->). rewrite app_assoc in Ef. apply app_inj_tail in Ef. destruct Ef as [Em ->].
    assert (Ga : gen a).
    { split; [|apply Rng; simpl; auto]. destruct (Nat.lt_ge_cases a (c_num_syms W)) as [L|L]; [|auto]. exfalso.
      rewrite (bz_old _ _ _ _ HB a L) in Em. apply (f_equal (@length sym)) in Em. rewrite app_length in Em. cbn in Em. lia. }
    destruct v' as [|z' v']; [exists a; split; [auto|]; now rewrite app_nil_r in Em|].
    destruct (bz_gen_one _ _ _ _ HB a (proj1 Ga) (proj2 Ga)) as (b1 & r1 & Hb1 & El1 & _).
    assert (Hr1 : In r1 (c_rules B)) by (eapply nth_error_In; eauto).
    destruct (bz_gen_rule _ _ _ _ HB r1 Hr1) as (_ & _ & Ef1); [destruct Ga; unfold sym in *; lia|]. rewrite El1, Em in Ef1.
    apply (IH r1 u (z' :: v')); auto; [discriminate|]. rewrite app_length in Ln. cbn in *. lia.
  Qed.

  (** a nullable generated symbol has an entry in the table of nulling intermediates *)
  Lemma gen_rule_of : forall g, gen g -> Forall (nullable (c_rules B)) (m g) -> exists r x y, In r nulling /\ p_origin r = None /\ p_rhs r = [x; y] /\
    p_lhs r = g /\ m g = m x ++ [y] /\ (x < c_num_syms W -> m x = [x]).
  Proof.
    intros g G Hn. destruct (bz_gen_one _ _ _ _ HB g (proj1 G) (proj2 G)) as (b1 & r1 & Hb1 & El1 & _).
    assert (Hr1 : In r1 (c_rules B)) by (eapply nth_error_In; eauto).
    destruct (bz_gen_rule _ _ _ _ HB r1 Hr1) as (Eo & L & Ef1); [destruct G; unfold sym in *; lia|]. rewrite El1 in Ef1.
    assert (Rng : forall s, In s (p_rhs r1) -> s < c_num_syms B) by (intros s Hs; apply (bz_range _ _ _ _ HB); exists r1; auto).
    destruct (p_rhs r1) as [|x [|y [|]]] eqn:Er; try discriminate L.
    assert (Hy : y < c_num_syms W) by (apply (bz_second _ _ _ _ HB r1); [auto|now rewrite Er]).
    cbn [flat_map] in Ef1. rewrite app_nil_r, (bz_old _ _ _ _ HB y Hy) in Ef1.
    exists r1, x, y. split; [|split; [auto|split; [auto|split; [auto|split; [auto|exact (bz_old _ _ _ _ HB x)]]]]].
    apply (el_nulling _ _ _ _ HE). split; [auto|]. rewrite Er. rewrite <- Ef1 in Hn. apply Forall_app in Hn. destruct Hn as [Hx Hy'].
    constructor; [|exact Hy']. destruct (Nat.lt_ge_cases x (c_num_syms W)) as [Lx|Lx].
    - rewrite (bz_old _ _ _ _ HB x Lx) in Hx. now apply Forall_inv in Hx.
    - assert (D : derives (c_rules B) x (m x)) by (apply (bin_gen W B m head HB (length (m x))); [auto|auto|apply Rng; simpl; auto]).
      exact (proj1 (derives_compose _) _ _ D _ (seq_nullable _ _ Hx)).
  Qed.

  Lemma prefix_entry : forall r u v t, In r (c_rules U') -> p_rhs r = u ++ v -> 2 <= length u -> v <> [] ->
    Forall (nullable (c_rules U)) u -> In t u -> exists q x y, In q nulling /\ p_origin q = None /\ p_rhs q = [x; y] /\ (t = x \/ t = y).
  Proof.
    intros r u v t Hr Er Lu Nv Hn Ht.
    assert (HnB : Forall (nullable (c_rules B)) u).
    { rewrite Forall_forall in *. intros s Hs. apply (at_ nullable_up HX); [|auto]. exists r. split; [auto|]. right. rewrite Er. apply in_app_iff. auto. }
    assert (Hw : In r (c_rules W)) by (apply (wrap_rule start U' W w HW); auto).
    apply In_nth_error in Hw. destruct Hw as (d & Hd). destruct (bz_head _ _ _ _ HB d r Hd) as (r' & Hb & _ & _ & Ef).
    assert (Hr' : In r' (c_rules B)) by (eapply nth_error_In; eauto).
    assert (P : forall u1 v1, u1 ++ v1 = u -> 2 <= length u1 -> exists q x y, In q nulling /\ p_origin q = None /\ p_rhs q = [x; y] /\
      u1 = m x ++ [y] /\ (x < c_num_syms W -> m x = [x]) /\ x < c_num_syms B).
    { intros u1 v1 <- L1. destruct (prefix_gen (length (v1 ++ v)) r' u1 (v1 ++ v) Hr') as (g & G & Em); [rewrite Ef, Er, app_assoc; reflexivity|auto|
        intros K; apply app_eq_nil in K; tauto|auto|].
      destruct (gen_rule_of g G) as (q & x & y & Hq & Eo & Eq & _ & Emg & Ox); [rewrite Em; apply Forall_app in HnB; tauto|].
      exists q, x, y. rewrite <- Em. do 4 (split; [auto|]). split; [auto|]. apply (bz_range _ _ _ _ HB). apply (el_nulling _ _ _ _ HE) in Hq.
      exists q. split; [apply Hq|]. right. rewrite Eq. simpl; auto. }
    apply in_split in Ht. destruct Ht as (l1 & l2 & ->). destruct l1 as [|a l1].
    - destruct l2 as [|b l2]; [cbn in Lu; lia|].
      destruct (P [t; b] l2) as (q & x & y & Hq & Eo & Eq & E1 & Ox & Lx); [auto|auto|]. exists q, x, y. do 3 (split; [auto|]). left.
      change [t; b] with ([t] ++ [b]) in E1. apply app_inj_tail in E1. destruct E1 as [E1 _].
      destruct (Nat.lt_ge_cases x (c_num_syms W)) as [L|L]; [rewrite (Ox L) in E1; congruence|].
      pose proof (bz_new _ _ _ _ HB x L) as K. rewrite <- E1 in K. cbn in K. lia.
    - destruct (P ((a :: l1) ++ [t]) l2) as (q & x & y & Hq & Eo & Eq & E1 & _); [now rewrite <- app_assoc|rewrite app_length; cbn; lia|].
      exists q, x, y. do 3 (split; [auto|]). right. apply app_inj_tail in E1. tauto.
  Qed.

  Lemma entries_mapped : forall ni q x y, nulling_intermediate maps nulling = Ret ni -> In q nulling -> p_origin q = None -> p_rhs q = [x; y] ->
    (exists a, map_to_internal maps x = Ret (Some a)) /\ (exists b, map_to_internal maps y = Ret (Some b)).
  Proof.
    intros ni q x y H Hq Eo Er. unfold nulling_intermediate in H. apply bind_Ret in H. destruct H as (rows & H & _). revert rows H. clear - Hq Eo Er.
    induction nulling as [|r l IH]; intros rows H; [destruct Hq|]. cbn [mapM] in H. apply bind_Ret in H. destruct H as (row & H1 & H).
    apply bind_Ret in H. destruct H as (rows' & H2 & _). destruct Hq as [->|Hq]; [|exact (IH Hq _ H2)]. rewrite Er, Eo in H1. cbn [is_null] in H1.
    apply bind_Ret in H1. destruct H1 as (o1 & _ & H1). apply bind_Ret in H1. destruct H1 as (? & _ & H1).
    apply bind_Ret in H1. destruct H1 as (o2 & E2 & H1). apply bind_Ret in H1. destruct H1 as (a & E3 & H1).
    apply bind_Ret in H1. destruct H1 as (o4 & E4 & H1). apply bind_Ret in H1. destruct H1 as (b & E5 & _).
    destruct o2; [|discriminate E3]. destruct o4; [|discriminate E5]. split; [rewrite E2|rewrite E4]; eauto.
  Qed.

  Lemma from_grammar_processed : forall fuel g, from_grammar X fuel U = Ret g -> exists order, remap_order E (w_eof w) = Ret order /\
    remapped (remap_cmp order) E c0 maps f /\
    from_processed_grammars fuel (sort_rules_by_lhs c0) maps nulling (x_first X (sort_rules_by_lhs c0)) (x_follow X (sort_rules_by_lhs c0)) = Ret g.
  Proof.
    intros fuel g H. destruct (at_ order_exists HX) as (order & Hord & Hmap & HR). exists order. split; [auto|]. split; [auto|]. unfold from_grammar in H.
    rewrite (proj1 (eb_wrap _ _ _ _ _ _ _ _ _ _ _ _ _ _ HX)) in H. rewrite (proj1 (eb_eliminate _ _ _ _ _ _ _ _ _ _ _ _ _ _ HX)) in H.
    unfold remap_symbols in H.
    rewrite (el_wrapped _ _ _ _ HE), (bz_wrapped _ _ _ _ HB), (wr_wrapped _ _ _ _ HW) in H. cbn [length Nat.eqb assert bind idx nth_error unwrap] in H.
    rewrite Hord in H. cbn [bind] in H. rewrite Hmap in H. cbn [bind] in H.
    apply bind_Ret in H. destruct H as (? & _ & H). apply bind_Ret in H. destruct H as (? & _ & H). apply bind_Ret in H. destruct H as (? & _ & H).
    exact H.
  Qed.

  Lemma from_grammar_inv : forall fuel g, from_grammar X fuel U = Ret g -> exists ni, nulling_intermediate maps nulling = Ret ni.
  Proof.
    intros fuel g H. destruct (from_grammar_processed fuel g H) as (? & _ & _ & HT).
    destruct (from_processed_inv _ _ _ _ _ _ _ HT) as (? & ? & ? & ? & ? & Hinv). decompose [and] Hinv. eauto.
  Qed.

  Lemma entry_used : forall ni q x y t, nulling_intermediate maps nulling = Ret ni -> In q nulling -> p_origin q = None -> p_rhs q = [x; y] ->
    t = x \/ t = y -> used (c_rules E) t.
  Proof.
    intros ni q x y t H Hq Eo Er Ht. destruct (entries_mapped ni q x y H Hq Eo Er) as ((a & Ea) & (b & Eb)).
    assert (Et : exists a, map_to_internal maps t = Ret (Some a)) by (destruct Ht as [->| ->]; eauto).
    destruct (in_dec Nat.eq_dec t (used_list E)) as [Hin|Hin]; [now apply used_list_spec in Hin|]. exfalso.
    destruct (at_ order_exists HX) as (order & _ & _ & HR). destruct Et as (k & Ek).
    rewrite (rm_unused _ _ _ _ _ HR t) in Ek; [discriminate| |intros K; apply Hin; now apply used_list_spec].
    rewrite (el_syms _ _ _ _ HE). apply (bz_range _ _ _ _ HB). apply (el_nulling _ _ _ _ HE) in Hq. exists q. split; [apply Hq|].
    right. rewrite Er. destruct Ht as [->| ->]; simpl; auto.
  Qed.

  (** symbols visible in [B] are visible for the user *)
  Lemma visible_down : forall s, used (c_rules U') s -> visible (c_rules B) s -> visible (c_rules U) s.
  Proof.
    intros s Hs (x & N & Tx & D). pose proof (at_ U_W HX) as LU.
    assert (Ls : s < c_num_syms U) by (rewrite <- (mp_syms _ _ _ HP); now apply (at_ U'_range HU HX)).
    assert (LW : forall t, In t x -> t < c_num_syms W).
    { intros t Ht. destruct (Nat.lt_ge_cases t (c_num_syms W)) as [L|L]; [auto|exfalso]. rewrite Forall_forall in Tx.
      apply (bin_gen_not_terminal W B m head HB t L); [|auto].
      destruct (proj1 (derives_used _) _ _ D t Ht) as [->|K]; [lia|now apply (bz_range _ _ _ _ HB)]. }
    exists x. split; [auto|]. apply (bin_language W B m head HB) in D; [|lia|auto].
    pose proof (wrap_new start U' W w HW) as (A1 & A2 & A3). rewrite (mp_syms _ _ _ HP) in *.
    apply (wrap_sound start U' W w HW (at_ U'_range HU HX) (at_ start_range HU HX)) in D; [|lia].
    split; [|exact (proper_sound start U U' HP s _ D)]. apply Forall_forall. intros t Ht.
    assert (K : used (c_rules U') t) by (destruct (proj1 (derives_used _) _ _ D t Ht) as [->|K]; auto).
    apply (at_ U'_terminal_U HX); [now apply (at_ productive_used HX)|now apply (at_ reached_used HX)|].
    intros r Hr El. rewrite Forall_forall in Tx.
    apply (proj1 (bin_terminal W B m head HB t (LW t Ht)) (Tx t Ht) r); [|auto]. apply (wrap_rule start U' W w HW). auto.
  Qed.

  Lemma returns_visible : drops_invisible B E -> forall fuel g, from_grammar X fuel U = Ret g ->
    forall r u v, In r (c_rules U) -> useful (c_rules U) start r -> p_rhs r = u ++ v -> 2 <= length u -> v <> [] ->
    Forall (nullable (c_rules U)) u -> Forall (visible (c_rules U)) u.
  Proof.
    intros Hd fuel g Hg r u v Hr Hf Er Lu Nv Hn. apply Forall_forall. intros t Ht.
    destruct (from_grammar_inv fuel g Hg) as (ni & Hni).
    assert (Hr' : In r (c_rules U')) by (apply (mp_rules _ _ _ HP); auto).
    destruct (prefix_entry r u v t Hr' Er Lu Nv Hn Ht) as (q & x & y & Hq & Eo & Eq & Ex).
    apply visible_down; [exists r; split; [auto|right; rewrite Er; apply in_app_iff; auto]|].
    destruct (entry_used ni q x y t Hni Hq Eo Eq Ex) as (re & Hre & [El|Hin]); [|exact (Hd re t Hre Hin)].
    pose proof (at_ E_arity HX re Hre) as Ar.
    destruct (vis_seq B (p_rhs re)) as (z & N & Tz & Dz); [destruct (p_rhs re); [cbn in Ar; lia|discriminate]|intros s Hs; exact (Hd re s Hre Hs)|].
    exists z. split; [auto|]. split; [auto|]. eapply (proj1 (derives_compose _)); [|exact Dz].
    apply (elim_sound B E nulling origin HE). rewrite <- El. apply derives_rule; [auto|]. apply derives_seq_self.
  Qed.
End Panic.

Lemma P_user_exactly : forall X U start, user_grammar U start -> crate_drops X U start ->
  ((exists fuel g, from_grammar X fuel U = Ret g) <-> null_prefixes_visible U start).
Proof.
  intros X U start HU (W & B & E & c0 & w & m & head & nulling & origin & maps & f & HX & Hd). split.
  - intros (fuel & g & Hg). exact (returns_visible X U start W B E c0 w m head nulling origin maps f HU HX Hd fuel g Hg).
  - intros Hv. destruct (CyclicUser.P_builds X U start HU) as (k & g & Hk); auto.
    + exists W, B, E, c0, w, m, head, nulling, origin, maps, f. exact HX.
    + exists k, g. apply Hk. lia.
Qed.
