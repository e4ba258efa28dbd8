(** PropLemmas11: proofs of the properties in PropsInterface.v. *)
From Coq Require Import List Arith Bool Lia Permutation.
From Verif Require Import Base BaseProofs Grammar BitMatrix DefaultGrammar TablesProofs Spec SpecFacts CfgSpec FromGrammar CrateSpec UserSpec CrateFacts
  CrateProcessed CratePanic.
From Verif Require Import Core4.
From Verif Require CrateTrees ProbeSpec Probe.
Import ListNotations.
Local Open Scope res_scope.

Lemma from_processed_num_rules : forall fuel c maps nulling first follow g,
  from_processed_grammars fuel c maps nulling first follow = Ret g -> g_num_rules g = length (c_rules c).
Proof.
  intros fuel c maps nulling first follow g H. unfold from_processed_grammars in H.
  do 14 (apply bind_Ret in H; match type of H with exists x, _ => destruct H as (? & _ & H) end;
         try match type of H with context [let (_, _) := ?p in _] => destruct p end).
  injection H as <-. reflexivity.
Qed.

Lemma idx_out : forall A (l : list A) d, length l <= d -> idx l d = Panic.
Proof. intros A l d H. unfold idx. apply nth_error_None in H. now rewrite H. Qed.

Lemma tables_interface : forall fuel c maps nulling first follow g,
  from_processed_grammars fuel c maps nulling first follow = Ret g ->
  (forall d r, nth_error (c_rules c) d = Some r ->
    get_lhs g d = Ret (p_lhs r) /\ get_rhs1 g d = Ret (nth_error (p_rhs r) 1) /\
    rhs1_or_lhs g d = Ret (match nth_error (p_rhs r) 1 with Some s => s | None => p_lhs r end) /\
    g_external_origin g d = Ret (p_origin r) /\ g_nulling g d = p_nullable r) /\
  (forall d, length (c_rules c) <= d ->
    get_lhs g d = Panic /\ get_rhs1 g d = Panic /\ rhs1_or_lhs g d = Panic /\ g_external_origin g d = Panic /\ g_nulling g d = None).
Proof.
  intros fuel c maps nulling first follow g H.
  destruct (from_processed_inv _ _ _ _ _ _ _ H) as (gens & w & dbe & by0 & comps & Hinv).
  assert (E0 : g_col0 g = map (fun r => Some (p_lhs r)) (c_rules c)) by (decompose [and] Hinv; auto).
  assert (E1 : g_col1 g = map rhs1 (c_rules c)) by (decompose [and] Hinv; auto).
  assert (E2 : fi_eval (g_forest_info g) = map p_origin (c_rules c)) by (decompose [and] Hinv; auto).
  assert (E3 : fi_nulling_eliminated (g_forest_info g) = map p_nullable (c_rules c)) by (decompose [and] Hinv; auto).
  clear Hinv. split.
  - intros d r Hd.
    assert (H0 : get_lhs g d = Ret (p_lhs r)).
    { unfold get_lhs. rewrite E0, (idx_some _ _ _ (Some (p_lhs r))); [reflexivity|]. now rewrite nth_error_map, Hd. }
    assert (H1 : get_rhs1 g d = Ret (nth_error (p_rhs r) 1)).
    { unfold get_rhs1. rewrite E1. apply idx_some. now rewrite nth_error_map, Hd. }
    split; [exact H0|]. split; [exact H1|]. split.
    { unfold rhs1_or_lhs. rewrite H1. cbn [bind]. destruct (nth_error (p_rhs r) 1); [reflexivity|exact H0]. }
    split; [unfold g_external_origin; rewrite E2; apply idx_some|unfold g_nulling; rewrite E3]; now rewrite nth_error_map, Hd.
  - intros d Hd.
    assert (H1 : get_rhs1 g d = Panic) by (unfold get_rhs1; rewrite E1; apply idx_out; now rewrite map_length).
    split; [unfold get_lhs; rewrite E0, idx_out; [reflexivity|now rewrite map_length]|]. split; [exact H1|].
    split; [unfold rhs1_or_lhs; now rewrite H1|]. split; [unfold g_external_origin; rewrite E2; apply idx_out; now rewrite map_length|].
    unfold g_nulling. rewrite E3, nth_error_map. apply nth_error_None in Hd. now rewrite Hd.
Qed.

Lemma P_interface : forall c nsyms w d0 g0 g, built c nsyms w d0 g0 g ->
  g_num_rules g = length (c_rules c) /\ g_syms g = nsyms /\ g_syms g + g_gensyms g = c_num_syms c /\
  g_start_sym g = w_root w /\ g_sof_sym g = w_sof w /\ g_eof_sym g = w_eof w /\
  (forall d r, nth_error (c_rules c) d = Some r ->
    (nth_error (p_rhs r) 1 = Some (w_eof w) <-> d = g_dot_before_eof g) /\
    (p_lhs r = w_root w <-> d = g_dot_before_eof g) /\
    get_lhs g d = Ret (p_lhs r) /\ get_rhs1 g d = Ret (nth_error (p_rhs r) 1) /\
    rhs1_or_lhs g d = Ret (match nth_error (p_rhs r) 1 with Some s => s | None => p_lhs r end) /\
    g_external_origin g d = Ret (p_origin r) /\ g_nulling g d = p_nullable r) /\
  (forall d, length (c_rules c) <= d ->
    get_lhs g d = Panic /\ get_rhs1 g d = Panic /\ rhs1_or_lhs g d = Panic /\ g_external_origin g d = Panic /\ g_nulling g d = None).
Proof.
  intros c nsyms w d0 g0 g [HP (fuel & maps & nulling & first & follow & HT & _)].
  destruct (tables_interface _ _ _ _ _ _ _ HT) as [H1 H2].
  destruct (from_processed_inv _ _ _ _ _ _ _ HT) as (gens & w1 & dbe & by0 & comps & Hinv).
  assert (w1 = w) by (pose proof (pr_wrapped _ _ _ _ _ HP); decompose [and] Hinv; congruence). subst w1.
  assert (Eg : gens = c_num_syms c - nsyms) by (pose proof (pr_gens _ _ _ _ _ HP); decompose [and] Hinv; congruence).
  pose proof (pr_le _ _ _ _ _ HP) as Hle.
  assert (Es : g_syms g = c_num_syms c - gens) by (decompose [and] Hinv; auto).
  assert (Eg' : g_gensyms g = gens) by (decompose [and] Hinv; auto).
  assert (Ed : position (fun r => eqb_opt (rhs1 r) (Some (w_eof w))) (c_rules c) = Some (g_dot_before_eof g)) by (decompose [and] Hinv; congruence).
  destruct (pr_root_rule _ _ _ _ _ HP) as (r0 & Hr0 & Er0 & Es0).
  assert (Hdot : forall d r, nth_error (c_rules c) d = Some r -> nth_error (p_rhs r) 1 = Some (w_eof w) -> d = d0).
  { intros d r Hd Hr. destruct (pr_eof_min _ _ _ _ _ HP d r _ Hd Hr) as [L|L]; [unfold sym in *; lia|auto]. }
  assert (D0 : g_dot_before_eof g = d0).
  { assert (G : forall (p : prule -> bool) l k, position p l = Some k -> exists r, nth_error l k = Some r /\ p r = true).
    { intros p l. induction l as [|a l IH]; intros k K; [discriminate|]. cbn in K. destruct (p a) eqn:Ea.
      - injection K as <-. exists a. auto.
      - destruct (position p l) as [j|]; [|discriminate]. injection K as <-. destruct (IH j eq_refl) as (r & K1 & K2). exists r. auto. }
    destruct (G _ _ _ Ed) as (r & K1 & K2). apply (Hdot _ r K1). unfold rhs1, eqb_opt in K2. destruct (nth_error (p_rhs r) 1) as [s|]; [|discriminate].
    apply Nat.eqb_eq in K2. now subst. }
  split; [exact (from_processed_num_rules _ _ _ _ _ _ _ HT)|]. split; [unfold sym in *; lia|]. split; [unfold sym in *; lia|].
  split; [decompose [and] Hinv; auto|]. split; [decompose [and] Hinv; auto|]. split; [decompose [and] Hinv; auto|].
  split; [|exact H2]. intros d r Hd. rewrite D0. split; [|split; [|now apply H1]].
  - split; [now apply Hdot|]. intros ->. rewrite Hr0 in Hd. injection Hd as <-. now rewrite Es0.
  - split; [apply (pr_root_only _ _ _ _ _ HP d r Hd)|]. intros ->. rewrite Hr0 in Hd. now injection Hd as <-.
Qed.

Lemma P_records : forall c nsyms w d0 g0 g, built c nsyms w d0 g0 g ->
  exists e1 e2 t0 t1 t2, g_events g = (e1, e2) /\ g_trace g = (t0, t1, t2) /\
    (forall s, s < c_num_syms c -> exists t, nth_error t0 s = Some t /\ ProbeSpec.prediction_record c s t) /\
    (forall d r, nth_error (c_rules c) d = Some r -> exists x1 x2, ProbeSpec.attached 1 r x1 /\ ProbeSpec.attached 2 r x2 /\
       nth_error e1 d = Some (rd_event x1) /\ nth_error e2 d = Some (rd_event x2) /\
       nth_error t1 d = Some (rd_trace x1) /\ nth_error t2 d = Some (rd_trace x2)).
Proof.
  intros c nsyms w d0 g0 g HB. exists (g_events1 g), (g_events2 g), (g_tracing0 g), (g_tracing1 g), (g_tracing2 g).
  split; [reflexivity|]. split; [reflexivity|]. split; [exact (Probe.predict_tables _ _ _ _ _ _ HB)|]. intros d r Hd.
  destruct (Probe.event_tables _ _ _ _ _ _ HB) as [E1 E2].
  destruct (E1 d r Hd) as (x1 & A1 & A2). destruct (E2 d r Hd) as (x2 & B1 & B2).
  destruct (Probe.trace_tables _ _ _ _ _ _ HB d r Hd) as (y1 & C1 & C2). destruct (Probe.trace_tables2 _ _ _ _ _ _ HB d r Hd) as (y2 & D1 & D2).
  unfold ProbeSpec.attached in *. assert (y1 = x1) by congruence. assert (y2 = x2) by congruence. subst. exists x1, x2. auto 8.
Qed.

(** ** The user's grammar *)

(** a way of striking out what is not visible that leaves [s] *)
Lemma mask_exists : forall (R : list prule) s l, (forall t, In t l -> visible R t \/ nullable R t) -> visible R s ->
  exists mask, length mask = length l /\ Forall (nullable R) (struck_out mask l) /\ Forall (visible R) (left_over mask l) /\
    (In s l -> In s (left_over mask l)).
Proof.
  intros R s l Hp Vs. induction l as [|a l IH]; [exists []; cbn; auto|].
  destruct IH as (mask & E & H1 & H2 & H3); [intros t Ht; apply Hp; now right|].
  destruct (Nat.eq_dec a s) as [->|N]; [exists (true :: mask); cbn; auto|].
  destruct (Hp a (or_introl eq_refl)) as [V|V]; [exists (true :: mask)|exists (false :: mask)]; (split; [cbn; congruence|]);
    (split; [cbn; auto|]); (split; [cbn; auto|]); cbn; intros [K|K]; auto; contradiction.
Qed.

Section Kept.
  Variables (X : cfg_crate) (U : pcfg) (start : sym) (W B E c0 : pcfg) (w : wrapped_root) (m : sym -> list sym) (head : nat -> nat)
    (nulling : list prule) (origin : nat -> nat * list bool) (maps : mapping) (f : sym -> sym).
  Hypothesis HU : user_grammar U start.
  Hypothesis HX : elaborates X U start W B E c0 w m head nulling origin maps f.
  Local Notation at_ l := (l X U start W B E c0 w m head nulling origin maps f) (only parsing).
  Let HW := at_ CrateProcessed.HW HX.
  Let HB := at_ CrateProcessed.HB HX.
  Let HE := at_ CrateProcessed.HE HX.

  Lemma gen_cases : forall g, gen W B g -> visible (c_rules B) g \/ nullable (c_rules B) g /\ Forall (nullable (c_rules B)) (m g).
  Proof.
    intros g G. assert (D : derives (c_rules B) g (m g)) by (apply (bin_gen W B m head HB (length (m g))); [auto|apply G|apply G]).
    destruct (prod_seq B (m g)) as [(x & N & Hx & Hd)|Hn]; [intros t; exact (at_ prod_m HU HX g t G)| |].
    - left. exists x. split; [auto|]. split; [auto|]. exact (proj1 (derives_compose _) _ _ D _ Hd).
    - right. split; [|auto]. exact (proj1 (derives_compose _) _ _ D _ (seq_nullable _ _ Hn)).
  Qed.
  Lemma gen_visible : forall g s, gen W B g -> In s (m g) -> visible (c_rules B) s -> visible (c_rules B) g.
  Proof.
    intros g s G Hs Vs. assert (D : derives (c_rules B) g (m g)) by (apply (bin_gen W B m head HB (length (m g))); [auto|apply G|apply G]).
    apply in_split in Hs. destruct Hs as (u & v & Em).
    assert (P : forall l, (forall t, In t l -> In t (m g)) -> exists x, Forall (terminal (c_rules B)) x /\ derives_seq (c_rules B) l x).
    { intros l Hl. destruct (prod_seq B l) as [(x & _ & H)|H]; [intros t Ht; exact (at_ prod_m HU HX g t G (Hl t Ht))|eauto|].
      exists []. split; [constructor|now apply seq_nullable]. }
    destruct (P u) as (x & Tx & Dx); [intros t Ht; rewrite Em; apply in_app_iff; auto|].
    destruct (P v) as (z & Tz & Dz); [intros t Ht; rewrite Em; apply in_app_iff; simpl; auto|].
    destruct Vs as (y & N & Ty & Dy). exists (x ++ y ++ z). split.
    { intros K. apply app_eq_nil in K. destruct K as [_ K]. apply app_eq_nil in K. now destruct K. }
    split; [repeat (apply Forall_app; split); auto|]. apply (proj1 (derives_compose _) _ _ D). rewrite Em.
    apply derives_seq_app; [auto|]. now constructor.
  Qed.

  Lemma prod_any : forall r s, In r (c_rules B) -> In s (p_rhs r) -> visible (c_rules B) s \/ nullable (c_rules B) s.
  Proof.
    intros r s Hr Hs. assert (Us : used (c_rules B) s) by (exists r; auto). destruct (Nat.lt_ge_cases s (c_num_syms W)) as [L|L].
    - apply (at_ prod_W HU HX); [exact (at_ used_B_W HX s Us L)|]. intros ->. exact (at_ root_not_rhs_B HU HX r Hr Hs).
    - destruct (gen_cases s) as [V|[V _]]; auto. split; [auto|now apply (bz_range _ _ _ _ HB)].
  Qed.

  (** a rule with a visible symbol is kept in some form, with this symbol *)
  Lemma kept_rule : forall b r' s, nth_error (c_rules B) b = Some r' -> In s (p_rhs r') -> visible (c_rules B) s ->
    exists d r, nth_error (c_rules E) d = Some r /\ p_lhs r = p_lhs r' /\ p_origin r = p_origin r' /\ In s (p_rhs r).
  Proof.
    intros b r' s Hb Hs Vs. assert (Hr : In r' (c_rules B)) by (eapply nth_error_In; eauto).
    destruct (mask_exists (c_rules B) s (p_rhs r') (fun t => prod_any r' t Hr) Vs) as (mask & Q1 & Q2 & Q3 & Q4). specialize (Q4 Hs).
    destruct (el_all _ _ _ _ HE b r' mask Hb Q1 Q2) as (d & r & Hd & Eo); [intros K; rewrite K in Q4; destruct Q4|exact Q3|].
    pose proof (el_rule _ _ _ _ HE d r Hd) as K. rewrite Eo in K. destruct K as (r'' & Hb' & _ & E1 & E2 & E3 & _).
    rewrite Hb in Hb'. injection Hb' as <-. exists d, r. rewrite E3. auto.
  Qed.
  Lemma visible_used : forall s, used (c_rules B) s -> visible (c_rules B) s -> used (c_rules E) s.
  Proof.
    intros s (r' & Hr & Hs) Vs. destruct Hs as [<-|Hs].
    - destruct Vs as (x & N & Hx & Hd). apply (elim_complete B E nulling origin HE) in Hd; auto.
      inversion Hd as [t|r x' Hr' Hs']; subst.
      + inversion Hx as [|? ? Ht _]; subst. exfalso. now apply (Ht r').
      + exists r. split; [auto|]. left. auto.
    - apply In_nth_error in Hr. destruct Hr as (b & Hb). destruct (kept_rule b r' s Hb Hs Vs) as (d & r & Hd & _ & _ & Hin).
      exists r. split; [eapply nth_error_In; eauto|auto].
  Qed.
End Kept.

Lemma P_user_interface : forall X U start fuel g, user_grammar U start -> crate_contract X U start -> from_grammar X fuel U = Ret g ->
  (forall s, known U start s -> visible (c_rules U) s -> exists t, to_internal g s = Ret (Some t)) /\
  (forall s t, s < c_num_syms U -> to_internal g s = Ret (Some t) -> t < g_syms g /\ to_external g t = Ret s) /\
  (forall t, t < g_syms g + g_gensyms g -> exists s, to_external g t = Ret s /\ to_internal g s = Ret (Some t)) /\
  (visible (c_rules U) start -> externalized_start_sym g = Ret start) /\
  (forall d, d < g_num_rules g -> exists l s, get_lhs g d = Ret l /\ to_external g l = Ret s /\
    ((exists r, In r (c_rules U) /\ useful (c_rules U) start r /\ p_lhs r = s /\ g_external_origin g d = Ret (p_origin r)) \/
     (c_num_syms U <= s /\ g_external_origin g d = Ret None))) /\
  (forall r s, In r (c_rules U) -> useful (c_rules U) start r -> In s (p_rhs r) -> visible (c_rules U) s ->
    exists d l, d < g_num_rules g /\ get_lhs g d = Ret l /\ to_external g l = Ret (p_lhs r) /\ g_external_origin g d = Ret (p_origin r)).
Proof.
  intros X U start fuel g HU (W & B & E & c0 & w0 & m & head & nulling & origin & maps & f & HX) Hg.
  destruct (from_grammar_processed X U start W B E c0 w0 m head nulling origin maps f HX fuel g Hg) as (order & Hord & HR & HT).
  destruct (tables_interface _ _ _ _ _ _ _ HT) as [HI _]. pose proof (from_processed_num_rules _ _ _ _ _ _ _ HT) as Enr.
  destruct (nsyms_exists _ _ _ _ _ _ _ _ _ _ _ _ _ _ HU HX order Hord HR) as (nsyms & Ln & En & Hgen & _).
  destruct (wrapped_c _ _ _ _ _ _ _ _ _ _ _ _ _ _ HX order HR) as (w & Ew & _ & _ & _ & Einn).
  destruct (from_processed_inv _ _ _ _ _ _ _ HT) as (gens & w1 & dbe & by0 & comps & Hinv).
  assert (w1 = w) by (decompose [and] Hinv; rewrite Ew in *; cbn in *; congruence). subst w1.
  assert (Eg : gens = c_num_syms c0 - nsyms) by (decompose [and] Hinv; congruence).
  assert (Esy : g_syms g = nsyms /\ g_syms g + g_gensyms g = c_num_syms c0).
  { assert (K1 : g_syms g = c_num_syms c0 - gens) by (decompose [and] Hinv; auto). assert (K2 : g_gensyms g = gens) by (decompose [and] Hinv; auto).
    unfold sym in *. lia. }
  destruct Esy as [Esy1 Esy].
  assert (Em : g_maps g = maps) by (decompose [and] Hinv; auto).
  assert (Eo : g_original_start_sym g = w_inner w) by (decompose [and] Hinv; auto). clear Hinv.
  pose proof (eb_proper _ _ _ _ _ _ _ _ _ _ _ _ _ _ HX) as HPr. pose proof (proj2 (eb_wrap _ _ _ _ _ _ _ _ _ _ _ _ _ _ HX)) as HW.
  pose proof (eb_binarize _ _ _ _ _ _ _ _ _ _ _ _ _ _ HX) as HBz. pose proof (proj2 (eb_eliminate _ _ _ _ _ _ _ _ _ _ _ _ _ _ HX)) as HE.
  assert (LUW : c_num_syms U <= c_num_syms W) by (pose proof (U_W _ _ _ _ _ _ _ _ _ _ _ _ _ _ HX); lia).
  assert (LUE : c_num_syms U <= c_num_syms E) by (rewrite (el_syms _ _ _ _ HE); pose proof (bz_syms _ _ _ _ HBz); lia).
  assert (HuB : forall s, known U start s -> used (c_rules B) s).
  { intros s Ks. apply (used_W_B _ _ _ _ _ _ _ _ _ _ _ _ _ _ HX). destruct Ks as [->|(r & Hr & Hu & Hs)].
    + destruct (wr_rules _ _ _ _ HW) as (l1 & l2 & r0 & _ & E2 & _ & E3 & _). exists r0. rewrite E2, E3. split; [apply in_app_iff; simpl; auto|simpl; auto].
    + exists r. split; [|auto]. apply (wrap_rule _ _ _ _ HW). left. apply (mp_rules _ _ _ HPr). auto. }
  assert (HuE : forall s, known U start s -> visible (c_rules U) s -> used (c_rules E) s).
  { intros s Ks Vs. pose proof (HuB s Ks) as Us. apply (visible_used _ _ _ _ _ _ _ _ _ _ _ _ _ _ HU HX); [auto|].
    destruct Ks as [->|(r & Hr & Hu & Hs)]; [exact (vis_start _ _ _ _ _ _ _ _ _ _ _ _ _ _ HU HX (fun _ => Vs))|].
    apply (visible_up _ _ _ _ _ _ _ _ _ _ _ _ _ _ HU HX); [|auto]. exists r. split; [|auto]. apply (mp_rules _ _ _ HPr). auto. }
  destruct (idx_onto E c0 maps f order HR) as (p & _ & Pback & Ponto).
  assert (Hext : forall s, used (c_rules E) s -> to_external g (f s) = Ret s).
  { intros s Us. unfold to_external. rewrite Em. now apply (rm_external _ _ _ _ _ HR). }
  split; [|split; [|split; [|split; [|split]]]].
  - intros s Ks Vs. exists (f s). unfold to_internal. rewrite Em. apply (rm_internal _ _ _ _ _ HR). now apply HuE.
  - intros s t Ls Hs. unfold to_internal in Hs. rewrite Em in Hs. destruct (CrateTrees.used_dec E s) as [Us|Us].
    + rewrite (rm_internal _ _ _ _ _ HR s Us) in Hs. injection Hs as <-. split; [|now apply Hext].
      rewrite Esy1. destruct (Nat.lt_ge_cases (f s) nsyms) as [L|L]; [auto|]. apply (Hgen s Us) in L. destruct L as [[L _] _]. unfold sym in *. lia.
    + rewrite (rm_unused _ _ _ _ _ HR s) in Hs; [discriminate| |auto]. unfold sym in *. lia.
  - intros t Ht. rewrite Esy in Ht. destruct (rm_onto _ _ _ _ _ HR t Ht) as (s & Us & <-). exists s. split; [now apply Hext|].
    unfold to_internal. rewrite Em. now apply (rm_internal _ _ _ _ _ HR).
  - intros Vs. assert (Us : used (c_rules E) start) by (apply HuE; [now left|auto]).
    unfold externalized_start_sym. rewrite Eo, (Einn Us). now apply Hext.
  - intros d Ld. rewrite Enr in Ld. destruct (nth_error (c_rules (sort_rules_by_lhs c0)) d) as [r|] eqn:Hd; [|apply nth_error_None in Hd; unfold sym in *; lia].
    destruct (HI d r Hd) as (Hl & _ & _ & Ho & _). destruct (Pback d r Hd) as (r1 & Hd1 & (El & _ & Eor & _)).
    assert (H1 : In r1 (c_rules E)) by (eapply nth_error_In; eauto).
    exists (p_lhs r), (p_lhs r1). split; [exact Hl|]. split; [rewrite El; apply Hext; exists r1; auto|]. rewrite Ho, Eor.
    destruct (elim_rule B E nulling origin HE r1 H1) as (r2 & mask & H2 & _ & -> & -> & _).
    destruct (Nat.lt_ge_cases (p_lhs r2) (c_num_syms W)) as [L|L].
    + apply In_nth_error in H2. destruct H2 as (b & Hb). destruct (bz_head_only _ _ _ _ HBz b r2 Hb L) as (d3 & L3 & E3).
      destruct (nth_error (c_rules W) d3) as [r3|] eqn:Hd3; [|apply nth_error_None in Hd3; lia].
      destruct (bz_head _ _ _ _ HBz d3 r3 Hd3) as (r2' & Hb' & El3 & Eo3 & _). rewrite E3, Hb in Hb'. injection Hb' as <-. rewrite El3, Eo3.
      apply nth_error_In in Hd3. destruct (wrap_rule_cases start _ W w0 HW r3 Hd3) as [K|(K1 & _ & K2)].
      * apply (mp_rules _ _ _ HPr) in K. left. exists r3. tauto.
      * right. rewrite K1, K2. split; [|reflexivity]. pose proof (wr_new _ _ _ _ HW) as Hnew. rewrite (mp_syms _ _ _ HPr) in Hnew.
        inversion Hnew; subst. tauto.
    + right. destruct (bz_gen_rule _ _ _ _ HBz r2 H2 L) as (-> & _). split; [unfold sym in *; lia|reflexivity].
  - intros r s Hr Hu Hs Vs.
    assert (HrW : In r (c_rules W)) by (apply (wrap_rule _ _ _ _ HW); left; apply (mp_rules _ _ _ HPr); auto).
    apply In_nth_error in HrW. destruct HrW as (d & Hd). destruct (bz_head _ _ _ _ HBz d r Hd) as (r' & Hb & El & Eor & Em').
    assert (Hr' : In r' (c_rules B)) by (eapply nth_error_In; eauto).
    assert (VsB : visible (c_rules B) s).
    { apply (visible_up _ _ _ _ _ _ _ _ _ _ _ _ _ _ HU HX); [|auto]. exists r. split; [|auto]. apply (mp_rules _ _ _ HPr). auto. }
    rewrite <- Em' in Hs. apply in_flat_map in Hs. destruct Hs as (a & Ha & Hs).
    assert (Va : visible (c_rules B) a).
    { destruct (Nat.lt_ge_cases a (c_num_syms W)) as [L|L].
      - rewrite (bz_old _ _ _ _ HBz a L) in Hs. destruct Hs as [<-|[]]. exact VsB.
      - apply (gen_visible _ _ _ _ _ _ _ _ _ _ _ _ _ _ HU HX a s); auto. split; [auto|]. apply (bz_range _ _ _ _ HBz). exists r'. auto. }
    destruct (kept_rule _ _ _ _ _ _ _ _ _ _ _ _ _ _ HU HX _ r' a Hb Ha Va) as (d1 & r1 & Hd1 & El1 & Eor1 & _).
    destruct (Ponto d1 r1 Hd1) as (i & r3 & Hi & Ei).
    destruct (Pback i r3 Hi) as (r1' & Hd1' & (El3 & _ & Eor3 & _)). rewrite Ei, Hd1 in Hd1'. injection Hd1' as <-.
    destruct (HI i r3 Hi) as (Hl & _ & _ & Ho & _). exists i, (p_lhs r3).
    split; [rewrite Enr; apply nth_error_Some; rewrite Hi; discriminate|]. split; [exact Hl|].
    split; [rewrite El3, <- El, <- El1; apply Hext; exists r1; split; [eapply nth_error_In; eauto|auto]|]. rewrite Ho. congruence.
Qed.

(** ** What the forests are told *)
Lemma P_forest_info : forall fi s,
  let occurs t := (exists pos b, nth_error (fi_nulling_eliminated fi) pos = Some (Some (t, b))) \/
    exists l a b, In (l, a, b) (fi_nulling_intermediate fi) /\ (t = l \/ t = a \/ t = b) in
  (max_nulling_symbol fi = Some s <-> occurs s /\ forall t, occurs t -> t <= s) /\
  (max_nulling_symbol fi = None <-> forall t, ~ occurs t).
Proof.
  intros fi s occurs.
  set (l := flat_map (fun o : option (sym * bool) => match o with Some (s, _) => [s] | None => [] end) (fi_nulling_eliminated fi)
     ++ flat_map (fun r : sym * sym * sym => let '(l, r0, r1) := r in [l; r0; r1]) (fi_nulling_intermediate fi)).
  assert (Hl : forall t, In t l <-> occurs t).
  { intros t. unfold l, occurs. rewrite in_app_iff, !in_flat_map. split.
    - intros [(o & Ho & Ht)|(((x & a) & b) & Hr & Ht)].
      + left. destruct o as [[t' b]|]; [|destruct Ht]. destruct Ht as [<-|[]]. apply In_nth_error in Ho. destruct Ho as (pos & Hp). eauto.
      + right. exists x, a, b. split; [auto|]. simpl in Ht. intuition.
    - intros [(pos & b & Hp)|(x & a & b & Hr & Ht)].
      + left. exists (Some (t, b)). split; [eapply nth_error_In; eauto|simpl; auto].
      + right. exists (x, a, b). split; [auto|]. simpl. intuition. }
  change (max_nulling_symbol fi) with (list_max_opt l).
  assert (Hn : list_max_opt l = None <-> forall t, ~ occurs t).
  { split.
    - intros K t Ht. apply Hl in Ht. destruct l; [destruct Ht|discriminate].
    - intros K. destruct l as [|a q]; [reflexivity|]. exfalso. apply (K a), Hl. now left. }
  split; [|exact Hn]. split.
  - intros K. apply list_max_opt_spec in K. destruct K as [K1 K2]. split; [now apply Hl|]. intros t Ht. now apply K2, Hl.
  - intros [K1 K2]. destruct (list_max_opt l) as [k|] eqn:Ek; [|exfalso; exact (proj1 Hn eq_refl s K1)].
    apply list_max_opt_spec in Ek. destruct Ek as [Q1 Q2]. f_equal. apply Hl in Q1. specialize (K2 k Q1). apply Hl in K1. specialize (Q2 s K1). unfold sym in *. lia.
Qed.
