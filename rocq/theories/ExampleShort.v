(** ExampleShort: a grammar with a symbol that derives only the empty string, in a rule of
    two symbols: S ::= S p S | a N, N ::= (nothing). *)
From Coq Require Import List Arith Bool Lia.
From Verif Require Import Base Grammar DefaultGrammar Spec SpecFacts CfgSpec FromGrammar CrateSpec UserSpec Check ExampleGrammars ExampleCrate.
Import ListNotations.

Definition U4 : pcfg := {|
  c_rules := [rule 0 [0; 3; 0] (Some 0); rule 0 [1; 2] (Some 1); rule 2 [] (Some 2)];
  c_num_syms := 4; c_roots := [0]; c_wrapped := [] |}.

Lemma U4_user : user_grammar U4 0.
Proof.
  split; [|cbn; lia|reflexivity|].
  - intros s (r & Hr & Hs). in_cases Hr; cbn in Hs; cbn; intuition lia.
  - intros r Hr. in_cases Hr; discriminate.
Qed.
Lemma U4_null : forall s, nullable (c_rules U4) s -> s = 2.
Proof. intros s H. apply (nullable_in _ (Nat.eqb 2)) in H; [|reflexivity]. now apply Nat.eqb_eq in H. Qed.
Lemma U4_short : nulling_only_short U4 0.
Proof.
  split.
  - intros H. apply U4_null in H. discriminate.
  - intros r s Hr _ L Hs H. apply U4_null in H. subst s. in_cases Hr; cbn in L, Hs; intuition (try discriminate; lia).
Qed.
Lemma U4_N : derives (c_rules U4) 2 [].
Proof. apply (derives_rule (c_rules U4) (rule 2 [] (Some 2)) []); [cbn; auto|constructor]. Qed.
Lemma U4_only : ~ visible (c_rules U4) 2.
Proof.
  intros (x & Hx & Ht & Hd). inversion Hd; subst.
  - inversion Ht as [|? ? T]; subst. apply (T (rule 2 [] (Some 2))); cbn; auto.
  - match goal with Hr : In _ (c_rules U4) |- _ => in_cases Hr; cbn in *; try discriminate end.
    match goal with Hs : derives_seq _ [] _ |- _ => inversion Hs; subst end. now apply Hx.
Qed.
Lemma U4_a : derives (c_rules U4) 0 [1].
Proof.
  apply (derives_rule (c_rules U4) (rule 0 [1; 2] (Some 1)) [1]); [cbn; auto|]. cbn [p_rhs rule].
  apply (derives_cons _ 1 [2] [1] []); [constructor|]. apply (derives_cons _ 2 [] [] []); [exact U4_N|constructor].
Qed.
Lemma U4_apa : derives (c_rules U4) 0 [1; 3; 1].
Proof.
  apply (derives_rule (c_rules U4) (rule 0 [0; 3; 0] (Some 0)) [1; 3; 1]); [cbn; auto|]. cbn [p_rhs rule].
  apply (derives_cons _ 0 [3; 0] [1] [3; 1]); [exact U4_a|]. apply (derives_cons _ 3 [0] [3] [1]); [constructor|].
  apply (derives_cons _ 0 [] [1] []); [exact U4_a|constructor].
Qed.
Lemma U4_acyclic : no_cycles U4.
Proof.
  intros s (r & Hr & El & Hd). in_cases Hr; cbn [p_rhs p_lhs rule] in *.
  - apply seq_cons in Hd. destruct Hd as (y & z & E & H0 & H3). apply seq_terminal in H3; [|apply terminal_by; reflexivity].
    destruct H3 as (z' & -> & _). destruct y as [|? [|]]; discriminate E.
  - apply seq_terminal in Hd; [|apply terminal_by; reflexivity]. destruct Hd as (y & Ey & _). congruence.
  - inversion Hd.
Qed.
Lemma U4_token : forall t, t = 1 \/ t = 3 -> token U4 0 t.
Proof.
  assert (P : forall s, s = 0 \/ s = 1 \/ s = 2 \/ s = 3 -> productive_sym (c_rules U4) s).
  { assert (T : forall t, t = 1 \/ t = 3 -> terminal (c_rules U4) t) by (intros t D; apply terminal_by; destruct D; subst; reflexivity).
    intros s [->|[->|[->| ->]]].
    - exists [1]. split; [repeat constructor; auto|exact U4_a].
    - exists [1]. split; [repeat constructor; auto|constructor].
    - exists []. split; [constructor|exact U4_N].
    - exists [3]. split; [repeat constructor; auto|constructor]. }
  intros t D. split; [destruct D; subst; cbn; lia|]. split; [apply terminal_by; destruct D; subst; reflexivity|]. right.
  destruct D as [->| ->].
  - exists (rule 0 [1; 2] (Some 1)). split; [cbn; auto|]. split; [|cbn; auto].
    split; [exists [], []; constructor|]. intros s Hs. apply P. cbn in Hs. intuition auto.
  - exists (rule 0 [0; 3; 0] (Some 0)). split; [cbn; auto|]. split; [|cbn; auto].
    split; [exists [], []; constructor|]. intros s Hs. apply P. cbn in Hs. intuition auto.
Qed.
