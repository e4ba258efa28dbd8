(** CrateOrder: the comparison of [remap_symbols] for grammars whose symbols that derive only
    the empty string stand in short rules. *)
From Coq Require Import List Arith Bool Lia Relations.
From Verif Require Import Base BaseProofs Grammar BitMatrix DefaultGrammar Spec CfgSpec FromGrammar CrateSpec UserSpec TablesProofs RemapFacts CrateFacts GensymFacts
  ReferenceShape.
From Verif Require CrateProcessed.
Import ListNotations.

Lemma order_strict : forall X U start W B E c w m head nulling origin maps f, user_grammar U start ->
  elaborates X U start W B E c w m head nulling origin maps f -> nulling_only_short U start ->
  exists order, remap_order E (w_eof w) = Ret order /\
    (forall a b, used (c_rules E) a -> used (c_rules E) b -> a <> b ->
       exists o, remap_cmp order a b = Ret o /\ remap_cmp order b a = Ret (CompOpp o)) /\
    (forall a b c, used (c_rules E) a -> used (c_rules E) b -> used (c_rules E) c ->
       remap_cmp order a b = Ret Lt -> remap_cmp order b c = Ret Lt -> remap_cmp order a c = Ret Lt).
Proof.
  intros X U start W B E c w m head nulling origin maps f HU HX Hv.
  pose proof (eb_proper _ _ _ _ _ _ _ _ _ _ _ _ _ _ HX) as HP. pose proof (proj2 (eb_wrap _ _ _ _ _ _ _ _ _ _ _ _ _ _ HX)) as HW.
  pose proof (eb_binarize _ _ _ _ _ _ _ _ _ _ _ _ _ _ HX) as HB. pose proof (proj2 (eb_eliminate _ _ _ _ _ _ _ _ _ _ _ _ _ _ HX)) as HE.
  pose proof (E_range W B E m head nulling origin HB HE) as Hr.
  assert (Le : w_eof w < c_num_syms E).
  { rewrite (el_syms _ _ _ _ HE). pose proof (wrap_fields _ _ _ _ HW) as (_ & _ & L). pose proof (bz_syms _ _ _ _ HB). unfold sym in *. lia. }
  destruct (remap_order_square E Hr _ Le) as (order & Ho & Hsq). destruct (find_gensyms_total E Hr) as (gens & Hg).
  assert (Has : forall i j, i <> j -> bit order i j = true -> bit order j i = false).
  { refine (order_asym U _ start W B E w m head nulling origin HU HP HW HB HE _ order gens Ho Hg). intros b r' Hb Hn Hc.
    assert (Hr' : In r' (c_rules B)) by (eapply nth_error_In; eauto).
    apply (CrateProcessed.full_rule_of X U start W B E c w m head nulling origin maps f HX); auto. intros s Hs.
    destruct Hc as [Hc|(g & y & Hg' & Er)].
    - now apply (CrateProcessed.vis_rule_gen X U start W B E c w m head nulling origin maps f HU HX Hv r').
    - now apply (CrateProcessed.vis_rule_first X U start W B E c w m head nulling origin maps f HU HX Hv r' g y). }
  exists order. split; [auto|]. split.
  - intros a b Ha Hb N. rewrite (cmp_spec _ _ a b Hsq), (cmp_spec _ _ b a Hsq) by auto. eexists. split; [reflexivity|].
    destruct (bit order a b) eqn:E1; destruct (bit order b a) eqn:E2; try reflexivity. rewrite (Has _ _ N E1) in E2. discriminate.
  - intros a b d Ha Hb Hd. rewrite (cmp_spec _ _ a b Hsq), (cmp_spec _ _ b d Hsq), (cmp_spec _ _ a d Hsq) by auto.
    destruct (bit order a b) eqn:E1; [|destruct (bit order b a); discriminate]. destruct (bit order b d) eqn:E2; [|destruct (bit order d b); discriminate].
    intros _ _. assert (K : bit order a d = true); [|now rewrite K]. apply (order_bits E _ order gens Ho Hg).
    apply t_trans with b; now apply (order_bits E _ order gens Ho Hg).
Qed.
