(** ReferenceShape: facts about binarised and eliminated grammars in which every rule of a
    generated symbol, and every rule that starts with one, keeps the form that strikes
    nothing out. *)
From Coq Require Import List Arith Bool Lia Relations.
From Verif Require Import Base BaseProofs Grammar BitMatrix DefaultGrammar Spec SpecFacts CfgSpec FromGrammar CrateSpec TablesProofs RemapFacts CrateFacts GensymFacts.
Import ListNotations.

Section Shape.
  Variables (U U' : pcfg) (start : sym) (W B E : pcfg) (w : wrapped_root) (m : sym -> list sym) (head : nat -> nat)
    (nulling : list prule) (origin : nat -> nat * list bool).
  Hypothesis HU : user_grammar U start.
  Hypothesis HP : made_proper start U U'.
  Hypothesis HW : wrapped start U' W w.
  Hypothesis HB : binarized W B m head.
  Hypothesis HE : eliminated B E nulling origin.
  Hypothesis full_rule : forall b r', nth_error (c_rules B) b = Some r' -> p_rhs r' <> [] ->
    (c_num_syms W <= p_lhs r' < c_num_syms B \/ exists g y, c_num_syms W <= g < c_num_syms B /\ p_rhs r' = [g; y]) ->
    exists d r, nth_error (c_rules E) d = Some r /\
    origin d = (b, repeat true (length (p_rhs r'))) /\ p_lhs r = p_lhs r' /\ p_rhs r = p_rhs r' /\ p_origin r = p_origin r'.

  Lemma U'_range : forall s, used (c_rules U') s -> s < c_num_syms U'.
  Proof.
    intros s (r & Hr & Hs). rewrite (mp_syms _ _ _ HP). apply (ug_range _ _ HU). exists r. split; [|auto].
    exact (proper_sub start U U' HP r Hr).
  Qed.
  Lemma start_range : start < c_num_syms U'.
  Proof. rewrite (mp_syms _ _ _ HP). apply (ug_start _ _ HU). Qed.
  Lemma W_range : forall s, used (c_rules W) s -> s < c_num_syms W.
  Proof. exact (wrap_range start U' W w HW U'_range start_range). Qed.
  Lemma wrap_fields : w_root w < c_num_syms W /\ w_sof w < c_num_syms W /\ w_eof w < c_num_syms W.
  Proof. pose proof (wrap_new start U' W w HW). lia. Qed.
  Lemma root_B : exists b r g0 b1 r1, nth_error (c_rules B) b = Some r /\ p_lhs r = w_root w /\ p_origin r = None /\ p_rhs r = [g0; w_eof w] /\
    c_num_syms W <= g0 < c_num_syms B /\ m g0 = [w_sof w; start] /\
    nth_error (c_rules B) b1 = Some r1 /\ p_lhs r1 = g0 /\ p_origin r1 = None /\ p_rhs r1 = [w_sof w; start] /\
    (forall b' r', nth_error (c_rules B) b' = Some r' -> p_lhs r' = w_root w -> b' = b) /\
    (forall b' r', nth_error (c_rules B) b' = Some r' -> p_lhs r' = g0 -> b' = b1).
  Proof.
    destruct (wrap_root_rule start U' W w HW U'_range start_range) as (d & r & Hd & El & Er & Eo & Hu).
    destruct (bz_head _ _ _ _ HB d r Hd) as (r' & Hb & El' & Eo' & Ef). rewrite Er in Ef.
    assert (Hr' : In r' (c_rules B)) by (eapply nth_error_In; eauto).
    pose proof (bz_length _ _ _ _ HB r' Hr') as Hlen.
    assert (Rng : forall s, In s (p_rhs r') -> s < c_num_syms B) by (intros s Hs; apply (bz_range _ _ _ _ HB); exists r'; auto).
    destruct (p_rhs r') as [|a [|y [|]]] eqn:Er'; [discriminate|exfalso| |cbn in Hlen; lia].
    { cbn [flat_map] in Ef. rewrite app_nil_r in Ef.
      destruct (Nat.lt_ge_cases a (c_num_syms W)) as [L|L]; [rewrite (bz_old _ _ _ _ HB a L) in Ef; discriminate|].
      destruct (bz_gen_use _ _ _ _ HB a L) as (b & q & y & Hq & Eq & Hq'); [apply Rng; simpl; auto|].
      assert (head d = b) by (apply (Hq' _ _ Hb); rewrite Er'; simpl; auto). subst b. rewrite Hb in Hq. injection Hq as <-. congruence. }
    assert (Hy : y < c_num_syms W) by (apply (bz_second _ _ _ _ HB r'); [auto|now rewrite Er']).
    cbn [flat_map] in Ef. rewrite app_nil_r, (bz_old _ _ _ _ HB y Hy) in Ef.
    assert (Em : m a = [w_sof w; start] /\ y = w_eof w).
    { change [w_sof w; start; w_eof w] with ([w_sof w; start] ++ [w_eof w]) in Ef. apply app_inj_tail in Ef. exact Ef. }
    destruct Em as [Em ->].
    assert (La : c_num_syms W <= a). { destruct (Nat.lt_ge_cases a (c_num_syms W)) as [L|L]; [rewrite (bz_old _ _ _ _ HB a L) in Em; discriminate|auto]. }
    assert (La' : a < c_num_syms B) by (apply Rng; simpl; auto).
    destruct (bz_gen_one _ _ _ _ HB a La La') as (b1 & r1 & Hb1 & El1 & Hu1).
    assert (Hr1 : In r1 (c_rules B)) by (eapply nth_error_In; eauto).
    destruct (bz_gen_rule _ _ _ _ HB r1 Hr1) as (Eo1 & L1 & Ef1); [lia|]. rewrite El1, Em in Ef1.
    assert (Rng1 : forall s, In s (p_rhs r1) -> s < c_num_syms B) by (intros s Hs; apply (bz_range _ _ _ _ HB); exists r1; auto).
    destruct (p_rhs r1) as [|a1 [|y1 [|]]] eqn:Er1; try discriminate L1.
    assert (Hy1 : y1 < c_num_syms W) by (apply (bz_second _ _ _ _ HB r1); [auto|now rewrite Er1]).
    cbn [flat_map] in Ef1. rewrite app_nil_r, (bz_old _ _ _ _ HB y1 Hy1) in Ef1.
    change [w_sof w; start] with ([w_sof w] ++ [start]) in Ef1. apply app_inj_tail in Ef1. destruct Ef1 as [Em1 ->].
    assert (a1 = w_sof w). { destruct (Nat.lt_ge_cases a1 (c_num_syms W)) as [L|L].
      - rewrite (bz_old _ _ _ _ HB a1 L) in Em1. congruence.
      - pose proof (bz_new _ _ _ _ HB a1 L) as K. rewrite Em1 in K. cbn in K. lia. }
    subst a1. exists (head d), r', a, b1, r1. split; [auto|]. split; [congruence|]. split; [congruence|]. split; [auto|]. split; [lia|].
    repeat (split; [solve [auto]|]). split; [|exact Hu1].
    intros b' q Hb' Elq. destruct (bz_head_only _ _ _ _ HB b' q Hb') as (d' & Hd' & <-); [pose proof wrap_fields; lia|].
    destruct (nth_error (c_rules W) d') as [r2|] eqn:E2; [|apply nth_error_None in E2; lia].
    f_equal. apply (Hu d' r2 E2). destruct (bz_head _ _ _ _ HB d' r2 E2) as (q' & Hq' & E3 & _). congruence.
  Qed.
  Definition gen (g : sym) : Prop := c_num_syms W <= g /\ g < c_num_syms B.
  Definition maxlen : nat := list_max (map (fun g => length (m g)) (seq 0 (c_num_syms B))).
  Lemma maxlen_ok : forall s, s < c_num_syms B -> length (m s) <= maxlen.
  Proof.
    intros s Hs. unfold maxlen. pose proof (proj1 (list_max_le (map (fun g => length (m g)) (seq 0 (c_num_syms B))) maxlen) (le_n _)) as F.
    rewrite Forall_forall in F. apply F. apply (in_map (fun g => length (m g))). apply in_seq. lia.
  Qed.

  Lemma gen_parent : forall g, gen g -> exists b r y, nth_error (c_rules B) b = Some r /\ p_rhs r = [g; y] /\ y < c_num_syms W /\
    p_lhs r <> g /\
    (gen (p_lhs r) -> m (p_lhs r) = m g ++ [y]) /\
    (p_lhs r < c_num_syms W -> exists q, In q (c_rules W) /\ p_lhs q = p_lhs r /\ p_rhs q = m g ++ [y]) /\
    (gen (p_lhs r) \/ p_lhs r < c_num_syms W).
  Proof.
    intros g [G1 G2]. destruct (bz_gen_use _ _ _ _ HB g G1 G2) as (b & r & y & Hb & Er & _). exists b, r, y.
    assert (Hr : In r (c_rules B)) by (eapply nth_error_In; eauto).
    assert (Hy : y < c_num_syms W) by (apply (bz_second _ _ _ _ HB r); [auto|now rewrite Er]).
    assert (Hl : p_lhs r < c_num_syms B) by (apply (bz_range _ _ _ _ HB); exists r; auto).
    assert (Em : flat_map m (p_rhs r) = m g ++ [y]) by (rewrite Er; cbn [flat_map]; now rewrite (bz_old _ _ _ _ HB y Hy)).
    assert (K1 : gen (p_lhs r) -> m (p_lhs r) = m g ++ [y]).
    { intros [G _]. destruct (bz_gen_rule _ _ _ _ HB r Hr G) as (_ & _ & Ef). rewrite Em in Ef. auto. }
    split; [auto|]. split; [auto|]. split; [auto|]. split.
    { intros Eg. assert (Gl : gen (p_lhs r)) by (rewrite Eg; split; auto). specialize (K1 Gl). rewrite Eg in K1.
      apply (f_equal (@length sym)) in K1. rewrite app_length in K1. cbn in K1. unfold sym in *. lia. }
    split; [exact K1|]. split.
    - intros L. destruct (bin_head W B m head HB r Hr L) as (q & Hq & E1 & _ & E2). exists q. rewrite Em in E2. auto.
    - unfold gen. lia.
  Qed.

  Lemma stands : forall k g, gen g -> maxlen - length (m g) <= k -> exists r l, In r (c_rules W) /\ p_rhs r = m g ++ l /\ l <> [].
  Proof.
    induction k as [|k IH]; intros g Hg Hk; destruct (gen_parent g Hg) as (b & r & y & Hb & Er & Hy & Nl & K1 & K2 & [Gl|Ol]).
    - exfalso. specialize (K1 Gl). pose proof (maxlen_ok _ (proj2 Gl)) as M. rewrite K1, app_length in M. cbn in M. lia.
    - destruct (K2 Ol) as (q & Hq & _ & Eq). exists q, [y]. split; [auto|]. split; [auto|discriminate].
    - specialize (K1 Gl). destruct (IH (p_lhs r) Gl) as (q & l & Hq & Eq & _).
      { rewrite K1, app_length. cbn. lia. }
      exists q, (y :: l). split; [auto|]. split; [|discriminate]. rewrite Eq, K1, <- app_assoc. reflexivity.
    - destruct (K2 Ol) as (q & Hq & _ & Eq). exists q, [y]. split; [auto|]. split; [auto|discriminate].
  Qed.

  (** an old symbol on a right-hand side of [B] comes from a right-hand side of [W] *)
  Lemma rhs_B_W : forall r' s, In r' (c_rules B) -> In s (p_rhs r') -> s < c_num_syms W ->
    exists r, In r (c_rules W) /\ In s (p_rhs r) /\
      (p_lhs r' = p_lhs r \/ (gen (p_lhs r') /\ exists l, p_rhs r = m (p_lhs r') ++ l /\ l <> [] /\ In s (m (p_lhs r')))).
  Proof.
    intros r' s Hr Hs Ls.
    assert (Hin : In s (flat_map m (p_rhs r'))). { apply in_flat_map. exists s. split; [auto|]. rewrite (bz_old _ _ _ _ HB s Ls). simpl; auto. }
    assert (Hl : p_lhs r' < c_num_syms B) by (apply (bz_range _ _ _ _ HB); exists r'; auto).
    destruct (Nat.lt_ge_cases (p_lhs r') (c_num_syms W)) as [L|L].
    - destruct (bin_head W B m head HB r' Hr L) as (r & Hr' & E1 & _ & E2). exists r. rewrite <- E2. auto.
    - destruct (bz_gen_rule _ _ _ _ HB r' Hr L) as (_ & _ & Ef). rewrite Ef in Hin.
      assert (G : gen (p_lhs r')) by (split; auto).
      destruct (stands _ _ G (le_n _)) as (r & l & Hr' & Er & Nl). exists r. split; [auto|]. split; [rewrite Er; apply in_app_iff; auto|].
      right. split; [auto|]. exists l. auto.
  Qed.

  Lemma used_B_W : forall s, used (c_rules B) s -> s < c_num_syms W -> used (c_rules W) s.
  Proof.
    intros s (r' & Hr & Hs) Ls. destruct Hs as [<-|Hs].
    - destruct (bin_head W B m head HB r' Hr Ls) as (r & Hr' & E1 & _). exists r. auto.
    - destruct (rhs_B_W r' s Hr Hs Ls) as (r & Hr' & Hs' & _). exists r. auto.
  Qed.

  Lemma rhs_W : forall r s, In r (c_rules W) -> In s (p_rhs r) -> (In r (c_rules U') /\ s < c_num_syms U') \/
    (p_lhs r = w_root w /\ p_rhs r = [w_sof w; start; w_eof w]).
  Proof.
    intros r s Hr Hs. destruct (wrap_rule_cases start U' W w HW r Hr) as [H|(A & A' & _)]; [|auto].
    left. split; [auto|]. apply U'_range. exists r. auto.
  Qed.

  Lemma root_not_rhs_B : forall r, In r (c_rules B) -> ~ In (w_root w) (p_rhs r).
  Proof.
    intros r Hr Hin. pose proof wrap_fields as (L & _). destruct (rhs_B_W r _ Hr Hin L) as (q & Hq & Hs & _).
    pose proof (wrap_new start U' W w HW) as (A1 & A2 & A3). pose proof (wrap_distinct start U' W w HW) as (D1 & D2 & D3).
    destruct (rhs_W q _ Hq Hs) as [(_ & K)|(_ & K)]; [lia|]. rewrite K in Hs.
    pose proof start_range. destruct Hs as [Hs|[Hs|[Hs|[]]]]; try congruence. lia.
  Qed.

  (** [eof] stands second in the rule of the root only *)
  Lemma eof_B : forall r, In r (c_rules B) -> In (w_eof w) (p_rhs r) -> p_lhs r = w_root w.
  Proof.
    intros r Hr Hin. pose proof wrap_fields as (_ & _ & L). destruct (rhs_B_W r _ Hr Hin L) as (q & Hq & Hs & Hd).
    pose proof (wrap_new start U' W w HW) as (A1 & A2 & A3). pose proof (wrap_distinct start U' W w HW) as (D1 & D2 & D3).
    destruct (rhs_W q _ Hq Hs) as [(_ & K)|(Kl & K)]; [lia|]. destruct Hd as [Hd|(G & l & El & Nl & Hm)]; [congruence|]. exfalso.
    rewrite K in El. destruct (exists_last Nl) as (l' & z & ->). rewrite app_assoc in El.
    change [w_sof w; start; w_eof w] with ([w_sof w; start] ++ [w_eof w]) in El. apply app_inj_tail in El. destruct El as [El _].
    assert (Hi : In (w_eof w) [w_sof w; start]) by (rewrite El; apply in_app_iff; auto).
    pose proof start_range. destruct Hi as [Hi|[Hi|[]]]; [congruence|lia].
  Qed.

  Lemma E_range : forall s, used (c_rules E) s -> s < c_num_syms E.
  Proof.
    intros s Hs. rewrite (el_syms _ _ _ _ HE). apply (bz_range _ _ _ _ HB). exact (elim_used B E nulling origin HE s Hs).
  Qed.
  Lemma E_arity : forall r, In r (c_rules E) -> length (p_rhs r) = 1 \/ length (p_rhs r) = 2.
  Proof.
    intros r Hr. destruct (elim_rule B E nulling origin HE r Hr) as (r' & mask & Hr' & Hl & _ & _ & E2 & Ne & _).
    pose proof (bz_length _ _ _ _ HB r' Hr') as L. rewrite E2 in *.
    destruct (p_rhs r') as [|a [|b' [|]]]; destruct mask as [|[] [|[] [|]]]; cbn in *; try discriminate; try lia; try contradiction; auto.
  Qed.
  Lemma E_binary : forall d r a y, nth_error (c_rules E) d = Some r -> p_rhs r = [a; y] -> exists b r', nth_error (c_rules B) b = Some r' /\
    origin d = (b, [true; true]) /\ p_lhs r' = p_lhs r /\ p_rhs r' = [a; y] /\ p_origin r' = p_origin r.
  Proof.
    intros d r a y Hd Er. pose proof (el_rule _ _ _ _ HE d r Hd) as K. destruct (origin d) as (b & mask).
    destruct K as (r' & Hb & Hl & E1 & E0 & E2 & _ & _). assert (Hr' : In r' (c_rules B)) by (eapply nth_error_In; eauto).
    pose proof (bz_length _ _ _ _ HB r' Hr') as L. rewrite Er in E2. exists b, r'.
    destruct (p_rhs r') as [|a' [|y' [|]]] eqn:Er'; destruct mask as [|[] [|[] [|]]]; cbn in *; try discriminate; try lia.
    injection E2 as -> ->. auto.
  Qed.
  Lemma E_unary : forall d r a, nth_error (c_rules E) d = Some r -> p_rhs r = [a] -> exists b r' mask, nth_error (c_rules B) b = Some r' /\
    origin d = (b, mask) /\ p_lhs r' = p_lhs r /\ length mask = length (p_rhs r') /\
    Forall (nullable (c_rules B)) (struck_out mask (p_rhs r')) /\
    ((p_rhs r' = [a] /\ mask = [true]) \/ (exists y, p_rhs r' = [a; y] /\ mask = [true; false]) \/ (exists y, p_rhs r' = [y; a] /\ mask = [false; true])).
  Proof.
    intros d r a Hd Er. pose proof (el_rule _ _ _ _ HE d r Hd) as K. destruct (origin d) as (b & mask).
    destruct K as (r' & Hb & Hl & E1 & E0 & E2 & _ & Hn). assert (Hr' : In r' (c_rules B)) by (eapply nth_error_In; eauto).
    pose proof (bz_length _ _ _ _ HB r' Hr') as L. rewrite Er in E2. exists b, r', mask. do 2 (split; [auto|]). split; [auto|]. do 2 (split; [auto|]).
    destruct (p_rhs r') as [|a' [|y' [|]]] eqn:Er'; destruct mask as [|[] [|[] [|]]]; cbn in *; try discriminate; try lia.
    - injection E2 as ->. auto.
    - injection E2 as ->. right; left. eauto.
    - injection E2 as ->. right; right. eauto.
  Qed.
  Lemma E_second : forall r s, In r (c_rules E) -> nth_error (p_rhs r) 1 = Some s -> s < c_num_syms W.
  Proof.
    intros r s Hr Hs. apply In_nth_error in Hr. destruct Hr as (d & Hd).
    destruct (E_arity r ltac:(eapply nth_error_In; eauto)) as [L|L]; destruct (p_rhs r) as [|a [|y [|]]] eqn:Er; try discriminate L; cbn in Hs; [discriminate|].
    injection Hs as ->. destruct (E_binary d r a s Hd Er) as (b & r' & Hb & _ & _ & K & _).
    apply (bz_second _ _ _ _ HB r'); [eapply nth_error_In; eauto|now rewrite K].
  Qed.
  Lemma origin_none : forall r, In r (c_rules E) -> p_origin r = None -> gen (p_lhs r) \/ p_lhs r = w_root w.
  Proof.
    intros r Hr Ho. destruct (elim_rule B E nulling origin HE r Hr) as (r' & mask & Hr' & _ & E1 & E2 & _).
    destruct (Nat.lt_ge_cases (p_lhs r') (c_num_syms W)) as [L|L].
    - right. destruct (bin_head W B m head HB r' Hr' L) as (q & Hq & E3 & E4 & _).
      destruct (wrap_rule_cases start U' W w HW q Hq) as [H|(A & _)]; [|congruence].
      exfalso. apply (ug_origin _ _ HU q); [exact (proper_sub start U U' HP q H)|congruence].
    - left. rewrite E1. split; [auto|]. apply (bz_range _ _ _ _ HB). exists r'. auto.
  Qed.
  Lemma root_not_rhs_E : forall r, In r (c_rules E) -> ~ In (w_root w) (p_rhs r).
  Proof.
    intros r Hr Hin. destruct (elim_rule B E nulling origin HE r Hr) as (r' & mask & Hr' & _ & _ & _ & E2 & _).
    apply (root_not_rhs_B r' Hr'). rewrite E2 in Hin. exact (left_over_in _ _ _ Hin).
  Qed.
  Lemma E_shape : gen_shape (c_rules E) gen.
  Proof.
    constructor.
    - intros g [G1 G2]. destruct (bz_gen_one _ _ _ _ HB g G1 G2) as (b & r' & Hb & El & _).
      assert (Hr' : In r' (c_rules B)) by (eapply nth_error_In; eauto).
      destruct (bz_gen_rule _ _ _ _ HB r' Hr') as (Eo & L & _); [unfold sym in *; lia|].
      destruct (full_rule b r' Hb) as (d & r & Hd & _ & E1 & E2 & E3); [destruct (p_rhs r'); discriminate|left; rewrite El; split; auto|].
      exists r. split; [eapply nth_error_In; eauto|]. split; congruence.
    - intros g [G1 G2]. destruct (bz_gen_one _ _ _ _ HB g G1 G2) as (b & r' & Hb & El & _).
      assert (Hr' : In r' (c_rules B)) by (eapply nth_error_In; eauto).
      destruct (bz_gen_rule _ _ _ _ HB r' Hr') as (Eo & L & Ef); [unfold sym in *; lia|].
      destruct (full_rule b r' Hb) as (d & r & Hd & _ & E1 & E2 & E3); [destruct (p_rhs r'); discriminate|left; rewrite El; split; auto|].
      destruct (p_rhs r') as [|a [|y [|]]] eqn:Er; try discriminate L. exists r, a, y.
      split; [eapply nth_error_In; eauto|]. split; [congruence|]. split; [congruence|].
      intros ->. rewrite El in Ef. cbn [flat_map] in Ef. apply (f_equal (@length sym)) in Ef. rewrite !app_length in Ef.
      assert (Hy : y < c_num_syms W) by (apply (bz_second _ _ _ _ HB r'); [auto|now rewrite Er]).
      rewrite (bz_old _ _ _ _ HB y Hy) in Ef. cbn in Ef. unfold sym in *. lia.
    - intros g d d' r r' a y a' y' [G1 G2] Hd Hd' El Er El' Er'.
      destruct (E_binary d r a y Hd Er) as (b & q & Hb & Eo & E1 & _). destruct (E_binary d' r' a' y' Hd' Er') as (b' & q' & Hb' & Eo' & E1' & _).
      destruct (bz_gen_one _ _ _ _ HB g G1 G2) as (b0 & r0 & _ & _ & Hu).
      assert (b = b0) by (apply (Hu b q); [auto|congruence]). assert (b' = b0) by (apply (Hu b' q'); [auto|congruence]). subst b b'.
      apply (el_once _ _ _ _ HE d d' r r'); auto. congruence.
    - intros g Hg. destruct (gen_parent g Hg) as (b & r' & y & Hb & Er & _ & Nl & _).
      destruct (full_rule b r' Hb) as (d & r & Hd & _ & E1 & E2 & _); [rewrite Er; discriminate|right; exists g, y; split; [exact Hg|exact Er]|]. exists r, y.
      split; [eapply nth_error_In; eauto|]. split; congruence.
    - intros g d d' r r' y y' [G1 G2] Hd Hd' Er Er'.
      destruct (E_binary d r g y Hd Er) as (b & q & Hb & Eo & _ & K & _). destruct (E_binary d' r' g y' Hd' Er') as (b' & q' & Hb' & Eo' & _ & K' & _).
      destruct (bz_gen_use _ _ _ _ HB g G1 G2) as (b0 & r0 & y0 & _ & _ & Hu).
      assert (b = b0) by (apply (Hu b q); [auto|rewrite K; simpl; auto]). assert (b' = b0) by (apply (Hu b' q'); [auto|rewrite K'; simpl; auto]). subst b b'.
      apply (el_once _ _ _ _ HE d d' r r'); auto. congruence.
    - intros g r [G1 G2] Hr Hin. destruct (E_arity r Hr) as [L|L]; destruct (p_rhs r) as [|a [|y [|]]] eqn:Er; try discriminate L; cbn in Hin; [auto|].
      destruct Hin as [<-|[]]. assert (y < c_num_syms W) by (apply (E_second r); [auto|now rewrite Er]). lia.
    - intros s (r & Hr & <- & Ho). destruct (origin_none r Hr Ho) as [G|E']; [auto|]. right. left. rewrite E'.
      intros q y Hq K. apply (root_not_rhs_E q Hq). rewrite K. simpl; auto.
  Qed.
  (** the end of input stands in no unary rule *)
  Lemma eof_unary : forall r a, In r (c_rules E) -> p_rhs r = [a] -> a <> w_eof w /\ p_lhs r <> w_eof w.
  Proof.
    intros r a Hr Er. apply In_nth_error in Hr. destruct Hr as (d & Hd).
    destruct (E_unary d r a Hd Er) as (b & r' & mask & Hb & _ & El & Hlm & Hn & Hc).
    assert (Hr' : In r' (c_rules B)) by (eapply nth_error_In; eauto).
    pose proof (wrap_sof_eof start U' W w HW U'_range start_range) as (Ts & Te).
    pose proof (wrap_fields) as (_ & _ & Le). split.
    - intros ->. assert (Hin : In (w_eof w) (p_rhs r')). { destruct Hc as [(K & _)|[(z & K & _)|(z & K & _)]]; rewrite K; cbn; auto. }
      pose proof (eof_B r' Hr' Hin) as Erl.
      destruct (root_B) as (b0 & r0 & g0 & b1 & r1 & Hb0 & _ & _ & Er0 & _ & Em & _ & _ & _ & _ & Hu & _).
      assert (b = b0) by (eapply Hu; eauto). subst b0. rewrite Hb in Hb0. injection Hb0 as <-. rewrite Er0 in *.
      destruct Hc as [(K & _)|[(z & K & _)|(z & K & ->)]]; [discriminate| |].
      + assert (Eg : g0 = w_eof w) by congruence. rewrite Eg, (bz_old _ _ _ _ HB _ Le) in Em. discriminate.
      + cbn in Hn. inversion Hn as [|? ? Hg _]; subst. apply (proj1 (bin_sound W B m _ HB)) in Hg. rewrite Em in Hg. cbn [flat_map] in Hg.
        inversion Hg as [|? ? x1 x2 Hs _ E1 E2]; subst. apply (terminal_derives _ _ _ Ts) in Hs. subst x1. discriminate.
    - intros Ee. rewrite <- El in Ee. destruct (bin_head W B m _ HB r' Hr') as (q & Hq & E1 & _); [congruence|]. apply (Te q Hq). congruence.
  Qed.

  Variables (order : bitmatrix) (gens : list bool).
  Hypothesis Ho : remap_order E (w_eof w) = Ret order.
  Hypothesis Hg : find_gensyms E = Ret gens.

  Definition rank (s : sym) : nat := if s =? w_eof w then 0 else S s.
  Lemma before_rank : forall i j, before E (w_eof w) gens i j -> rank i < rank j \/ (i = w_eof w /\ j = w_eof w).
  Proof.
    assert (G : forall s, nth_error gens s = Some true <-> gen s) by (apply (gens_exact E _ gens E_range E_shape Hg)).
    pose proof (wrap_fields) as (_ & _ & Le).
    intros i j H. unfold rank. destruct H as [r s Hr Er L|r s Hr Er L|s t Hs Gs Gt|s Hs Gs].
    - destruct (eof_unary r s Hr Er) as [N1 N2]. apply Nat.eqb_neq in N1. apply Nat.eqb_neq in N2. rewrite N1, N2. lia.
    - destruct (eof_unary r s Hr Er) as [N1 N2]. apply Nat.eqb_neq in N1. apply Nat.eqb_neq in N2. rewrite N1, N2. lia.
    - apply G in Gt. assert (Ls : s < c_num_syms W).
      { destruct (Nat.lt_ge_cases s (c_num_syms W)) as [K|K]; [auto|]. assert (gen s) by (split; [auto|rewrite <- (el_syms _ _ _ _ HE); exact Hs]). apply G in H. congruence. }
      destruct Gt as [Gt _]. assert (t =? w_eof w = false) by (apply Nat.eqb_neq; unfold sym in *; lia). rewrite H. unfold sym in *. destruct (s =? w_eof w); lia.
    - rewrite Nat.eqb_refl. destruct (s =? w_eof w) eqn:Es; [apply Nat.eqb_eq in Es; auto|lia].
  Qed.
  Lemma trans_rank : forall i j, clos_trans sym (before E (w_eof w) gens) i j -> rank i < rank j \/ (i = w_eof w /\ j = w_eof w).
  Proof.
    intros i j H. induction H as [i j H|i j k _ IH1 _ IH2]; [now apply before_rank|]. destruct IH1 as [IH1|[-> ->]], IH2 as [IH2|[E1 E2]]; auto.
    - left. lia.
    - left. now rewrite E2, <- E1.
  Qed.
  Lemma order_asym : forall i j, i <> j -> bit order i j = true -> bit order j i = false.
  Proof.
    intros i j N H. apply not_true_iff_false. intros K. apply (order_bits E (w_eof w) order gens Ho Hg) in H. apply (order_bits E (w_eof w) order gens Ho Hg) in K.
    apply trans_rank in H. apply trans_rank in K. destruct H as [H|[H1 H2]], K as [K|[K1 K2]]; try congruence. lia.
  Qed.
End Shape.

Lemma cmp_spec : forall n order a b, square n order -> a < n -> b < n ->
  remap_cmp order a b = Ret (if bit order a b then Lt else if bit order b a then Gt else Eq).
Proof.
  intros n order a b Hs Ha Hb. assert (G : forall i j, i < n -> j < n -> bm_get order i j = Ret (bit order i j)).
  { intros i j Hi Hj. unfold bm_get. destruct (square_idx n order i Hs Hi) as (row & -> & Lr & En & Hbit). cbn [bind].
    destruct (idx_lt _ row j) as (x & -> & Ex); [lia|]. f_equal. destruct (bit order i j) eqn:Eb.
    - apply Hbit in Eb. congruence.
    - destruct x; [|auto]. apply Hbit in Ex. congruence. }
  unfold remap_cmp. rewrite (G a b Ha Hb). cbn [bind]. destruct (bit order a b); [auto|]. rewrite (G b a Hb Ha). reflexivity.
Qed.
