(** ExampleCycle: grammars with cycles, for the examples in PropsCyclic.v. *)
From Coq Require Import List Arith Bool Lia.
From Verif Require Import Base Grammar DefaultGrammar Spec SpecFacts CfgSpec FromGrammar CrateSpec UserSpec CrateFacts Check ExampleGrammars ExampleCrate.
Import ListNotations.

(** what is derived from a set of symbols that is closed under the rules stays in it *)
Lemma derives_within : forall R (p : sym -> bool), forallb (fun r => implb (p (p_lhs r)) (forallb p (p_rhs r))) R = true ->
  (forall s x, derives R s x -> p s = true -> forallb p x = true) /\
  (forall a x, derives_seq R a x -> forallb p a = true -> forallb p x = true).
Proof.
  intros R p H. rewrite forallb_forall in H. apply derives_both.
  - intros s Hs. cbn. now rewrite Hs.
  - intros r x Hr _ IH Hs. apply IH. specialize (H r Hr). rewrite Hs in H. exact H.
  - auto.
  - intros s ss w1 w2 _ IH1 _ IH2 Hs. cbn in Hs. apply andb_true_iff in Hs. destruct Hs as [A B].
    rewrite forallb_app, IH1, IH2; auto.
Qed.

Lemma one_rule : forall R l a o x, In (rule l [a] o) R -> derives R a x -> derives R l x.
Proof. intros R l a o x Hr H. apply (derives_rule R _ x Hr). cbn [p_rhs rule]. now apply derives_seq_one. Qed.

(** ** S ::= S p S | A, A ::= B | a, B ::= A | b

    S 0, A 1, B 2, a 3, b 4, p 5 *)
Definition U7 : pcfg := {|
  c_rules := [rule 0 [0; 5; 0] (Some 0); rule 0 [1] (Some 1); rule 1 [2] (Some 2); rule 1 [3] (Some 3); rule 2 [1] (Some 4); rule 2 [4] (Some 5)];
  c_num_syms := 6; c_roots := [0]; c_wrapped := [] |}.

Lemma U7_user : user_grammar U7 0.
Proof.
  split; [|cbn; lia|reflexivity|].
  - intros s (r & Hr & Hs). in_cases Hr; cbn in Hs; cbn; intuition lia.
  - intros r Hr. in_cases Hr; discriminate.
Qed.
Lemma U7_visible : no_nulling_only U7.
Proof. intros s H. apply (nullable_in _ (fun _ => false)) in H; [discriminate|reflexivity]. Qed.
Lemma U7_terminal : forall t, t = 3 \/ t = 4 \/ t = 5 -> terminal (c_rules U7) t.
Proof. intros t [->|[->| ->]]; apply terminal_by; reflexivity. Qed.
Lemma U7_A : derives (c_rules U7) 1 [3].
Proof. apply (one_rule _ 1 3 (Some 3)); [cbn; auto 10|constructor]. Qed.
Lemma U7_S : derives (c_rules U7) 0 [3].
Proof. apply (one_rule _ 0 1 (Some 1)); [cbn; auto 10|exact U7_A]. Qed.
(** A derives itself: by A ::= B, B ::= A *)
Lemma U7_cycle : derives_by_rule (c_rules U7) 1 [1].
Proof.
  exists (rule 1 [2] (Some 2)). split; [cbn; auto 10|]. split; [reflexivity|]. cbn [p_rhs rule]. apply derives_seq_one.
  apply (one_rule _ 2 1 (Some 4)); [cbn; auto 10|constructor].
Qed.
(** S derives A p a *)
Lemma U7_form : derives (c_rules U7) 0 [1; 5; 3].
Proof.
  apply (derives_rule (c_rules U7) (rule 0 [0; 5; 0] (Some 0))); [cbn; auto|]. cbn [p_rhs rule].
  apply (derives_cons _ 0 [5; 0] [1] [5; 3]); [apply (one_rule _ 0 1 (Some 1)); [cbn; auto 10|constructor]|].
  apply (derives_cons _ 5 [0] [5] [3]); [constructor|]. apply (derives_cons _ 0 [] [3] []); [exact U7_S|constructor].
Qed.

(** ** S ::= S p S | a, N ::= N | b

    N is not reached.  S 0, N 1, a 2, b 3, p 4 *)
Definition U8 : pcfg := {|
  c_rules := [rule 0 [0; 4; 0] (Some 0); rule 0 [2] (Some 1); rule 1 [1] (Some 2); rule 1 [3] (Some 3)];
  c_num_syms := 5; c_roots := [0]; c_wrapped := [] |}.

Lemma U8_user : user_grammar U8 0.
Proof.
  split; [|cbn; lia|reflexivity|].
  - intros s (r & Hr & Hs). in_cases Hr; cbn in Hs; cbn; intuition lia.
  - intros r Hr. in_cases Hr; discriminate.
Qed.
Lemma U8_visible : no_nulling_only U8.
Proof. intros s H. apply (nullable_in _ (fun _ => false)) in H; [discriminate|reflexivity]. Qed.
Lemma U8_cyclic : ~ no_cycles U8.
Proof.
  intros H. apply (H 1). exists (rule 1 [1] (Some 2)). split; [cbn; auto|]. split; [reflexivity|]. apply derives_seq_one. constructor.
Qed.
Lemma U8_reached : forall x, derives (c_rules U8) 0 x -> forall s, In s x -> s = 0 \/ s = 2 \/ s = 4.
Proof.
  intros x H s Hs. apply (proj1 (derives_within (c_rules U8) (fun s => (s =? 0) || (s =? 2) || (s =? 4)) eq_refl)) in H; [|reflexivity].
  rewrite forallb_forall in H. specialize (H s Hs). apply orb_true_iff in H. rewrite orb_true_iff, !Nat.eqb_eq in H. tauto.
Qed.
Lemma U8_terminal : forall t, t = 2 \/ t = 4 -> terminal (c_rules U8) t.
Proof. intros t [->| ->]; apply terminal_by; reflexivity. Qed.
Lemma U8_S : derives (c_rules U8) 0 [2].
Proof. apply (one_rule _ 0 2 (Some 1)); [cbn; auto|constructor]. Qed.
Lemma U8_acyclic : no_visible_cycles U8 0.
Proof.
  intros s u v Huv _ (r & Hr & El & Hd). pose proof (U8_reached _ Huv s ltac:(apply in_app_iff; right; left; auto)) as Hs.
  in_cases Hr; cbn [p_rhs p_lhs rule] in *.
  - apply seq_cons in Hd. destruct Hd as (y & z & E & H0 & H3). apply seq_terminal in H3; [|apply terminal_by; reflexivity].
    destruct H3 as (z' & -> & _). destruct y as [|? [|]]; discriminate E.
  - apply seq_terminal in Hd; [|apply terminal_by; reflexivity]. destruct Hd as (y & Ey & _). congruence.
  - intuition discriminate.
  - intuition discriminate.
Qed.
Lemma U8_sentence : derives (c_rules U8) 0 [2; 4; 2].
Proof.
  apply (derives_rule (c_rules U8) (rule 0 [0; 4; 0] (Some 0))); [cbn; auto|]. cbn [p_rhs rule].
  apply (derives_cons _ 0 [4; 0] [2] [4; 2]); [exact U8_S|].
  apply (derives_cons _ 4 [0] [4] [2]); [constructor|]. apply (derives_cons _ 0 [] [2] []); [exact U8_S|constructor].
Qed.
Lemma U8_token : forall t, t = 2 \/ t = 4 -> token U8 0 t.
Proof.
  assert (P : forall s, s = 0 \/ s = 2 \/ s = 4 -> productive_sym (c_rules U8) s).
  { intros s Hs. destruct Hs as [->|[->| ->]].
    - exists [2]. split; [constructor; [apply U8_terminal; auto|constructor]|exact U8_S].
    - exists [2]. split; [constructor; [apply U8_terminal; auto|constructor]|constructor].
    - exists [4]. split; [constructor; [apply U8_terminal; auto|constructor]|constructor]. }
  intros t Ht. split; [destruct Ht; subst; cbn; lia|]. split; [now apply U8_terminal|]. right. destruct Ht as [->| ->].
  - exists (rule 0 [2] (Some 1)). split; [cbn; auto|]. split; [|cbn; auto]. split; [exists [], []; constructor|].
    intros s [<-|[]]. apply P. auto.
  - exists (rule 0 [0; 4; 0] (Some 0)). split; [cbn; auto|]. split; [|cbn; auto]. split; [exists [], []; constructor|].
    intros s Hs. apply P. cbn in Hs. intuition.
Qed.

(** ** S ::= S p S | a | q N, N ::= N | b

    N is reached, but not in every sentence.  S 0, N 1, a 2, b 3, p 4, q 5 *)
Definition U9 : pcfg := {|
  c_rules := [rule 0 [0; 4; 0] (Some 0); rule 0 [2] (Some 1); rule 0 [5; 1] (Some 2); rule 1 [1] (Some 3); rule 1 [3] (Some 4)];
  c_num_syms := 6; c_roots := [0]; c_wrapped := [] |}.

Lemma U9_user : user_grammar U9 0.
Proof.
  split; [|cbn; lia|reflexivity|].
  - intros s (r & Hr & Hs). in_cases Hr; cbn in Hs; cbn; intuition lia.
  - intros r Hr. in_cases Hr; discriminate.
Qed.
Lemma U9_visible : no_nulling_only U9.
Proof. intros s H. apply (nullable_in _ (fun _ => false)) in H; [discriminate|reflexivity]. Qed.
Lemma U9_terminal : forall t, t = 2 \/ t = 3 \/ t = 4 \/ t = 5 -> terminal (c_rules U9) t.
Proof. intros t [->|[->|[->| ->]]]; apply terminal_by; reflexivity. Qed.
Lemma U9_S : derives (c_rules U9) 0 [2].
Proof. apply (one_rule _ 0 2 (Some 1)); [cbn; auto|constructor]. Qed.
Lemma U9_sentence : derives (c_rules U9) 0 [2; 4; 2].
Proof.
  apply (derives_rule (c_rules U9) (rule 0 [0; 4; 0] (Some 0))); [cbn; auto|]. cbn [p_rhs rule].
  apply (derives_cons _ 0 [4; 0] [2] [4; 2]); [exact U9_S|].
  apply (derives_cons _ 4 [0] [4] [2]); [constructor|]. apply (derives_cons _ 0 [] [2] []); [exact U9_S|constructor].
Qed.
Lemma U9_token : forall t, t = 2 \/ t = 4 -> token U9 0 t.
Proof.
  assert (P : forall s, s = 0 \/ s = 2 \/ s = 4 -> productive_sym (c_rules U9) s).
  { intros s Hs. destruct Hs as [->|[->| ->]].
    - exists [2]. split; [constructor; [apply U9_terminal; auto|constructor]|exact U9_S].
    - exists [2]. split; [constructor; [apply U9_terminal; auto|constructor]|constructor].
    - exists [4]. split; [constructor; [apply U9_terminal; auto|constructor]|constructor]. }
  intros t Ht. split; [destruct Ht; subst; cbn; lia|]. split; [apply U9_terminal; tauto|]. right. destruct Ht as [->| ->].
  - exists (rule 0 [2] (Some 1)). split; [cbn; auto|]. split; [|cbn; auto]. split; [exists [], []; constructor|].
    intros s [<-|[]]. apply P. auto.
  - exists (rule 0 [0; 4; 0] (Some 0)). split; [cbn; auto|]. split; [|cbn; auto]. split; [exists [], []; constructor|].
    intros s Hs. apply P. cbn in Hs. intuition.
Qed.
(** only N derives itself *)
Lemma U9_cyclic : forall s, derives_by_rule (c_rules U9) s [s] -> s = 1.
Proof.
  intros s (r & Hr & El & Hd). in_cases Hr; cbn [p_rhs p_lhs rule] in *; auto; exfalso.
  - apply seq_cons in Hd. destruct Hd as (y & z & E & H0 & H3). apply seq_terminal in H3; [|apply terminal_by; reflexivity].
    destruct H3 as (z' & -> & _). destruct y as [|? [|]]; try discriminate E.
  - apply seq_terminal in Hd; [|apply terminal_by; reflexivity]. destruct Hd as (y & Ey & _). congruence.
  - apply seq_terminal in Hd; [|apply terminal_by; reflexivity]. destruct Hd as (y & Ey & _). congruence.
Qed.
(** it takes no part in a p a, and it does in q b *)
Lemma U9_clean : no_cycle_on U9 0 [2; 4; 2].
Proof.
  intros x y z E (A & v & HA & _ & _ & Dy & Ny). apply U9_cyclic in HA. subst A.
  apply (proj1 (derives_within (c_rules U9) (fun s => (s =? 1) || (s =? 3)) eq_refl)) in Dy; [|reflexivity].
  destruct y as [|t y]; [congruence|]. cbn in Dy. apply andb_true_iff in Dy. destruct Dy as [Dt _].
  assert (In t [2; 4; 2]) by (rewrite E; apply in_app_iff; right; left; reflexivity).
  apply orb_true_iff in Dt. rewrite !Nat.eqb_eq in Dt. cbn in H. unfold sym in *. intuition lia.
Qed.
Lemma U9_cycle : cycle_after U9 0 [5] [3].
Proof.
  exists 1, []. split; [|split; [|split; [constructor|split; [|discriminate]]]].
  - exists (rule 1 [1] (Some 3)). split; [cbn; auto 10|]. split; [reflexivity|]. apply derives_seq_one. constructor.
  - apply (derives_rule (c_rules U9) (rule 0 [5; 1] (Some 2))); [cbn; auto|]. apply derives_seq_self.
  - apply (one_rule _ 1 3 (Some 4)); [cbn; auto 10|constructor].
Qed.
Lemma U9_tokens : forall t, t = 3 \/ t = 5 -> token U9 0 t.
Proof.
  assert (P : forall s, s = 1 \/ s = 3 \/ s = 5 -> productive_sym (c_rules U9) s).
  { intros s Hs. destruct Hs as [->|[->| ->]].
    - exists [3]. split; [constructor; [apply U9_terminal; auto|constructor]|]. apply (one_rule _ 1 3 (Some 4)); [cbn; auto 10|constructor].
    - exists [3]. split; [constructor; [apply U9_terminal; auto|constructor]|constructor].
    - exists [5]. split; [constructor; [apply U9_terminal; auto|constructor]|constructor]. }
  intros t Ht. split; [destruct Ht; subst; cbn; lia|]. split; [apply U9_terminal; tauto|]. right. destruct Ht as [->| ->].
  - exists (rule 1 [3] (Some 4)). split; [cbn; auto 10|]. split; [|cbn; auto]. split.
    + exists [5], []. apply (derives_rule (c_rules U9) (rule 0 [5; 1] (Some 2))); [cbn; auto|]. apply derives_seq_self.
    + intros s [<-|[]]. apply P. auto.
  - exists (rule 0 [5; 1] (Some 2)). split; [cbn; auto|]. split; [|cbn; auto]. split; [exists [], []; constructor|].
    intros s Hs. apply P. cbn in Hs. intuition.
Qed.
