(** Asymmetric: a grammar for which the comparison of [remap_symbols] puts each of two symbols
    before the other one.

    S ::= p q x N, x ::= | p, N ::= .  S 0, p 1, q 2, x 3, N 4; then root 5, sof 6, eof 7.
    Binarising gives S ::= 9 N, 9 ::= 8 x, 8 ::= p q.  As N derives the empty string only, the
    rule S ::= 9 N is dropped and S ::= 9 remains, so that [find_gensyms] takes 8 for a
    generated symbol and 9 for an ordinary one. *)
From Coq Require Import List Arith Bool Lia.
From Verif Require Import Base Grammar BitMatrix DefaultGrammar Spec SpecFacts CfgSpec FromGrammar CrateSpec CrateFacts ExampleGrammars ReferenceCrate ReferenceFacts.
Import ListNotations.

Definition U4 : pcfg := {|
  c_rules := [rule 0 [1; 2; 3; 4] (Some 0); rule 3 [] (Some 1); rule 3 [1] (Some 2); rule 4 [] (Some 3)];
  c_num_syms := 5; c_roots := [0]; c_wrapped := [] |}.
Definition W4 : pcfg := ref_wrap_input (ref_make_proper U4).
Definition B4 : pcfg := binarize W4.

(** the rules that the crate makes; those that keep the symbol [hidden] are dropped *)
Section Drop.
  Variables (B : pcfg) (hidden : sym).
  Definition kept : list (nat * list bool) :=
    filter (fun ch => negb (mem hidden (p_rhs (choose (c_rules B) ch)))) (choices (nullables (c_rules B)) (c_rules B)).
  Definition eliminate_dropping : pcfg := mkCfg (map (choose (c_rules B)) kept) (c_num_syms B) (c_roots B) (c_wrapped B).
  Definition origin_dropping (d : nat) : nat * list bool := nth d kept (0, []).
  Hypothesis Hhid : ~ visible (c_rules B) hidden.

  Lemma dropping_eliminated : eliminated B eliminate_dropping (snd (eliminate B)) origin_dropping.
  Proof.
    pose proof (ref_eliminated B) as H.
    assert (K : forall d r, nth_error (c_rules eliminate_dropping) d = Some r -> exists d', nth_error (c_rules (fst (eliminate B))) d' = Some r /\
      ref_origin B d' = origin_dropping d /\ nth_error kept d = Some (origin_dropping d)).
    { intros d r Hd. unfold eliminate_dropping in Hd. cbn [c_rules] in Hd. rewrite nth_error_map in Hd. destruct (nth_error kept d) as [o|] eqn:Eo; [|discriminate].
      injection Hd as <-. assert (E0 : origin_dropping d = o) by (unfold origin_dropping; now apply nth_error_nth). rewrite E0.
      assert (Hin : In o (choices (nullables (c_rules B)) (c_rules B))) by (apply nth_error_In in Eo; unfold kept in Eo; now apply filter_In in Eo).
      apply In_nth_error in Hin. destruct Hin as (d' & Hd'). exists d'. split; [unfold eliminate; cbn [fst c_rules]; now rewrite nth_error_map, Hd'|].
      split; [unfold ref_origin; now apply nth_error_nth|auto]. }
    split.
    - intros d r Hd. destruct (K d r Hd) as (d' & Hd' & Eo & _). rewrite <- Eo. exact (el_rule _ _ _ _ H d' r Hd').
    - intros d r r' Hd. destruct (K d r Hd) as (d' & Hd' & Eo & _). rewrite <- Eo. exact (el_nullable _ _ _ _ H d' r r' Hd').
    - intros d d' r r' Hd Hd' E. destruct (K d r Hd) as (_ & _ & _ & K1). destruct (K d' r' Hd') as (_ & _ & _ & K2).
      apply (proj1 (NoDup_nth_error kept)); [apply NoDup_filter, choices_nodup|apply nth_error_Some; congruence|congruence].
    - intros b r' mask Hb Hl Hn Hk Hv. destruct (el_all _ _ _ _ H b r' mask Hb Hl Hn Hk Hv) as (d & r & Hd & Eo).
      assert (Hin : In (b, mask) kept).
      { unfold kept. apply filter_In. split.
        - destruct (elim_nth B d r Hd) as (_ & K1 & _). rewrite Eo in K1. eapply nth_error_In; eauto.
        - apply negb_true_iff, mem_not_In. rewrite (choose_at B b r' mask Hb). cbn [p_rhs]. intros K1. rewrite Forall_forall in Hv. exact (Hhid (Hv hidden K1)). }
      apply In_nth_error in Hin. destruct Hin as (d2 & Hd2). exists d2. eexists. split; [unfold eliminate_dropping; cbn [c_rules]; now rewrite nth_error_map, Hd2|].
      unfold origin_dropping. now apply nth_error_nth.
    - exact (el_nulling _ _ _ _ H).
    - intros r Hr. apply In_nth_error in Hr. destruct Hr as (d & Hd). destruct (K d r Hd) as (d' & Hd' & _). apply (el_dots _ _ _ _ H). eapply nth_error_In; eauto.
    - reflexivity.
    - reflexivity.
    - reflexivity.
  Qed.
End Drop.
Definition E4 : pcfg := eliminate_dropping B4 4.

Lemma U4_user : user_grammar U4 0.
Proof.
  split.
  - intros s (r & Hr & Hs). cbn in Hr. intuition subst; cbn in *; intuition lia.
  - cbn. lia.
  - reflexivity.
  - intros r Hr. cbn in Hr. intuition subst; cbn; discriminate.
Qed.

(** N derives nothing but the empty string *)
Lemma N_nothing : forall x, derives (c_rules B4) 4 x -> x = [4] \/ x = [].
Proof.
  intros x H. inversion H as [s|r y Hr Hs El]; subst; [auto|]. right. vm_compute in Hr.
  repeat (destruct Hr as [<-|Hr]; [try discriminate El; now inversion Hs|]). destruct Hr.
Qed.
Lemma N_hidden : ~ visible (c_rules B4) 4.
Proof.
  intros (x & Ne & Ht & Hd). destruct (N_nothing x Hd) as [->| ->]; [|contradiction]. inversion Ht as [|? ? H _]; subst.
  apply (H (rule 4 [] (Some 3))); [vm_compute; auto 10|reflexivity].
Qed.

Lemma both_before : exists U start U' W B E w m head nulling origin order a b,
  user_grammar U start /\ made_proper start U U' /\ wrapped start U' W w /\ binarized W B m head /\ eliminated B E nulling origin /\
  used (c_rules E) a /\ used (c_rules E) b /\ a <> b /\
  remap_order E (w_eof w) = Ret order /\ remap_cmp order a b = Ret Lt /\ remap_cmp order b a = Ret Lt.
Proof.
  exists U4, 0, (ref_make_proper U4), W4, B4, E4, (ref_w (ref_make_proper U4)), (meaning W4), (fun d => d), (snd (eliminate B4)), (origin_dropping B4 4).
  eexists. exists 8, 9. split; [exact U4_user|]. split; [exact (ref_HP U4 0 U4_user)|]. split; [exact (ref_HW U4 0 U4_user)|].
  split; [exact (ref_HB U4 0 U4_user)|]. split; [exact (dropping_eliminated B4 4 N_hidden)|].
  assert (K : forall s, In s (used_syms (c_rules E4)) -> used (c_rules E4) s) by (intros s Hs; exact (proj1 (used_syms_spec (c_rules E4) s) Hs)).
  split; [apply K; vm_compute; auto 12|]. split; [apply K; vm_compute; auto 12|]. split; [discriminate|].
  split; [vm_compute; reflexivity|]. vm_compute. auto.
Qed.
