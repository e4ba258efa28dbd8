(** ExampleLong: a grammar with a symbol that derives only the empty string in a rule of
    three symbols: S ::= a N b, N ::= (nothing), and a crate that makes no rule with N in it. *)
From Coq Require Import List Arith Bool Lia.
From Verif Require Import Base Grammar BitMatrix DefaultGrammar Spec SpecFacts CfgSpec FromGrammar CrateSpec UserSpec Check ExampleGrammars ExampleCrate.
Import ListNotations.

(** S 0, N 1, a 2, b 3; then root 4, sof 5, eof 6, the generated symbols 7 (a N) and 8 (sof S). *)
Definition U5 : pcfg := {|
  c_rules := [rule 0 [2; 1; 3] (Some 0); rule 1 [] (Some 1)]; c_num_syms := 4; c_roots := [0]; c_wrapped := [] |}.
Definition w5 : wrapped_root := mkWrapped 4 5 6 0.
Definition W5 : pcfg := {|
  c_rules := [rule 0 [2; 1; 3] (Some 0); rule 1 [] (Some 1); rule 4 [5; 0; 6] None];
  c_num_syms := 7; c_roots := [4]; c_wrapped := [w5] |}.
Definition B5 : pcfg := {|
  c_rules := [rule 0 [7; 3] (Some 0); rule 1 [] (Some 1); rule 4 [8; 6] None; rule 7 [2; 1] None; rule 8 [5; 0] None];
  c_num_syms := 9; c_roots := [4]; c_wrapped := [w5] |}.
Definition m5 (s : sym) : list sym := match s with 7 => [2; 1] | 8 => [5; 0] | _ => if s <? 7 then [s] else [0; 0] end.
(** The rule of 7 keeps its first symbol only: 7 is no longer the head of a binary rule. *)
Definition E5 : pcfg := {|
  c_rules := [rule 0 [7; 3] (Some 0); rule 4 [8; 6] None; mkRule 7 [2] None (Some (1, true)) dots3; rule 8 [5; 0] None];
  c_num_syms := 9; c_roots := [4]; c_wrapped := [w5] |}.
Definition nulling5 : list prule := [rule 1 [] (Some 1)].
Definition origin5 (d : nat) : nat * list bool :=
  nth d [(0, [true; true]); (2, [true; true]); (3, [true; false]); (4, [true; true])] (0, []).
Definition list5 : list sym := [6; 0; 5; 2; 7; 4; 3; 8].
Definition f5 (s : sym) : sym := nth s [1; 8; 3; 6; 5; 2; 0; 4; 7] 0.
Definition maps5 : mapping := {|
  m_to_internal := [Some 1; None; Some 3; Some 6; Some 5; Some 2; Some 0; Some 4; Some 7]; m_to_external := list5 |}.
Definition c5 : pcfg := {|
  c_rules := [rule 1 [4; 6] (Some 0); rule 5 [7; 0] None; mkRule 4 [3] None (Some (8, true)) dots3; rule 7 [2; 1] None];
  c_num_syms := 8; c_roots := [5]; c_wrapped := [mkWrapped 5 2 0 1] |}.
Definition first5 : list (sym * list sym) := [(1, [3]); (4, [3]); (5, [2]); (7, [2])].
Definition follow5 : list (sym * list sym) := [(3, [6]); (4, [6]); (6, [0]); (1, [0]); (7, [0]); (2, [3])].
Definition X5 : cfg_crate := {|
  x_make_proper := fun _ => U5; x_wrap_input := fun _ => W5; x_binarize_and_eliminate := fun _ => (E5, nulling5);
  x_remap := fun _ _ => Ret (c5, maps5); x_first := fun _ => first5; x_follow := fun _ => follow5 |}.

Lemma U5_user : user_grammar U5 0.
Proof.
  split; [|cbn; lia|reflexivity|].
  - intros s (r & Hr & Hs). in_cases Hr; cbn in Hs; cbn; intuition lia.
  - intros r Hr. in_cases Hr; discriminate.
Qed.
Lemma U5_null : forall s, nullable (c_rules U5) s -> s = 1.
Proof. intros s H. apply (nullable_in _ (Nat.eqb 1)) in H; [|reflexivity]. now apply Nat.eqb_eq in H. Qed.
Lemma U5_prefixes : null_prefixes_visible U5 0.
Proof.
    intros r u v Hr _ E L V H. in_cases Hr; cbn [p_rhs rule] in E.
    + destruct u as [|s u]; [cbn in L; lia|]. injection E as <- E. apply Forall_inv in H. apply U5_null in H. discriminate.
    + destruct u; [cbn in L; lia|discriminate].
Qed.
Lemma U5_N : derives (c_rules U5) 1 [].
Proof. apply (derives_rule (c_rules U5) (rule 1 [] (Some 1)) []); [cbn; auto|constructor]. Qed.
Lemma U5_only : ~ visible (c_rules U5) 1.
Proof.
  intros (x & Hx & Ht & Hd). inversion Hd; subst.
  - inversion Ht as [|? ? T]; subst. apply (T (rule 1 [] (Some 1))); cbn; auto.
  - match goal with Hr : In _ (c_rules U5) |- _ => in_cases Hr; cbn in *; try discriminate end.
    match goal with Hs : derives_seq _ [] _ |- _ => inversion Hs; subst end. now apply Hx.
Qed.
Lemma U5_ab : derives (c_rules U5) 0 [2; 3].
Proof.
  apply (derives_rule (c_rules U5) (rule 0 [2; 1; 3] (Some 0)) [2; 3]); [cbn; auto|]. cbn [p_rhs rule].
  apply (derives_cons _ 2 [1; 3] [2] [3]); [constructor|]. apply (derives_cons _ 1 [3] [] [3]); [exact U5_N|].
  apply (derives_cons _ 3 [] [3] []); constructor.
Qed.
Lemma U5_acyclic : no_cycles U5.
Proof.
  intros s (r & Hr & El & Hd). in_cases Hr; cbn [p_rhs p_lhs rule] in *; subst.
  - apply seq_terminal in Hd; [|apply terminal_by; reflexivity]. destruct Hd as (y & Ey & _). discriminate Ey.
  - inversion Hd.
Qed.
Lemma U5_useful : useful (c_rules U5) 0 (rule 0 [2; 1; 3] (Some 0)).
Proof.
  split; [exists [], []; constructor|]. intros s Hs. cbn in Hs. in_cases Hs.
  - exists [2]. split; [apply Forall_cons; [apply terminal_by; reflexivity|apply Forall_nil]|constructor].
  - exists []. split; [constructor|exact U5_N].
  - exists [3]. split; [apply Forall_cons; [apply terminal_by; reflexivity|apply Forall_nil]|constructor].
Qed.
Lemma U5_not_short : ~ nulling_only_short U5 0.
Proof.
  intros [_ H]. refine (U5_only (H (rule 0 [2; 1; 3] (Some 0)) 1 _ U5_useful _ _ U5_N)); cbn; auto.
Qed.
Lemma U5_token : forall t, t = 2 \/ t = 3 -> token U5 0 t.
Proof.
  intros t D. split; [destruct D; subst; cbn; lia|]. split; [apply terminal_by; destruct D; subst; reflexivity|]. right.
  exists (rule 0 [2; 1; 3] (Some 0)). split; [cbn; auto|]. split; [exact U5_useful|destruct D; subst; cbn; auto].
Qed.

Lemma X5_elaborates : elaborates X5 U5 0 W5 B5 E5 c5 w5 m5 (fun d => d) nulling5 origin5 maps5 f5.
Proof.
  assert (BN : forall s, nullable (c_rules B5) s <-> s = 1).
  { intros s. split.
    - intros H. apply (nullable_in _ (Nat.eqb 1)) in H; [|reflexivity]. now apply Nat.eqb_eq in H.
    - intros ->. apply (derives_rule (c_rules B5) (rule 1 [] (Some 1)) []); [cbn; auto|constructor]. }
  assert (V1 : ~ visible (c_rules B5) 1).
  { intros (x & N & Hx & Hd). inversion Hd as [|r y Hr Hq]; subst.
    - inversion Hx as [|? ? T _]; subst. apply (T (rule 1 [] (Some 1))); [cbn; auto|reflexivity].
    - in_cases Hr; cbn in *; try discriminate. inversion Hq. now subst. }
  assert (USE : forall s, used (c_rules E5) s <-> In s list5).
  { intros s. split.
    - intros (r & Hr & Hs). in_cases Hr; cbn in Hs; cbn; intuition.
    - intros H. unfold used. unfold list5 in H. in_cases H.
      + exists (rule 4 [8; 6] None). cbn. intuition.
      + exists (rule 8 [5; 0] None). cbn. intuition.
      + exists (rule 8 [5; 0] None). cbn. intuition.
      + exists (mkRule 7 [2] None (Some (1, true)) dots3). cbn. intuition.
      + exists (rule 0 [7; 3] (Some 0)). cbn. intuition.
      + exists (rule 4 [8; 6] None). cbn. intuition.
      + exists (rule 0 [7; 3] (Some 0)). cbn. intuition.
      + exists (rule 8 [5; 0] None). cbn. intuition. }
  assert (PL : forall s, In s list5 -> nth_error list5 (f5 s) = Some s) by (intros s H; unfold list5 in H; in_cases H; reflexivity).
  split.
  - split; [exists (fun _ => true); reflexivity| |reflexivity]. intros r. split; [|tauto]. intros Hr. split; [auto|].
    in_cases Hr; [exact U5_useful|]. split; [|intros s Hs; in_cases Hs].
    exists [2], [3]. apply (derives_rule (c_rules U5) (rule 0 [2; 1; 3] (Some 0)) [2; 1; 3]); [cbn; auto|]. cbn [p_rhs rule].
    repeat (apply (derives_cons _ _ _ [_] _); [constructor|]). constructor.
  - split; [reflexivity|]. split; try reflexivity.
    + exists (c_rules U5), [], (rule 4 [5; 0; 6] None). repeat split.
    + repeat constructor.
    + repeat constructor; cbn; intuition lia.
  - split; try reflexivity.
    + cbn. lia.
    + intros s (r & Hr & Hs). in_cases Hr; cbn in Hs; cbn; intuition lia.
    + intros s Hs. cbn in Hs. do 7 (destruct s as [|s]; [reflexivity|]). lia.
    + intros s Hs. cbn in Hs. do 9 (destruct s as [|s]; [cbn; lia|]). cbn. lia.
    + intros d r Hd. nth_cases d Hd; eexists; repeat split; reflexivity.
    + intros b r Hb Hl. exists b. split; [|reflexivity]. cbn in *. nth_cases b Hb; cbn in Hl; lia.
    + auto.
    + intros r Hr Hl. cbn in Hl. in_cases Hr; cbn in Hl; try lia; repeat split.
    + intros g G1 G2. cbn in G1, G2. assert (D : g = 7 \/ g = 8) by lia. destruct D as [-> | ->]; [exists 3|exists 4]; eexists;
        (split; [reflexivity|]); (split; [reflexivity|]); intros b' r' Hb' El; nth_cases b' Hb'; cbn in El; try discriminate; reflexivity.
    + intros g G1 G2. cbn in G1, G2. assert (D : g = 7 \/ g = 8) by lia. destruct D as [-> | ->]; [exists 0|exists 2]; eexists; eexists;
        (split; [reflexivity|]); (split; [reflexivity|]); intros b' r' Hb' Hin; nth_cases b' Hb'; cbn in Hin;
        try reflexivity; exfalso; intuition discriminate.
    + intros r s Hr Hs. in_cases Hr; cbn in Hs; try discriminate; injection Hs as <-; cbn; lia.
    + intros r Hr. in_cases Hr; cbn; lia.
  - split; [reflexivity|]. split; try reflexivity.
    + intros d r Hd. nth_cases d Hd; cbn [origin5 nth]; eexists; (split; [reflexivity|]); repeat (split; [try reflexivity; try discriminate|]);
        cbn; repeat constructor. apply BN. auto.
    + intros d r r' Hd Hb. nth_cases d Hd; cbn in Hb; injection Hb as <-; reflexivity.
    + intros d d' r r' Hd Hd' E. cbn in Hd, Hd'. nth_cases d Hd; nth_cases d' Hd'; cbn in E; try discriminate E; reflexivity.
    + intros b r' mask Hb Hl Hs Hn Hv. cbn in Hb.
      nth_cases b Hb; cbn [p_rhs rule length] in *.
      2: { destruct mask; [|discriminate Hl]. now cbn in Hn. }
      all: destruct (mask_cases mask Hl) as [->|[->|[->| ->]]]; cbn in Hs, Hn, Hv; try contradiction.
      all: try (exfalso; inversion Hs as [|? ? K _]; subst; apply BN in K; discriminate).
      all: try (exfalso; inversion Hv as [|? ? K K']; subst; try contradiction; inversion K'; subst; contradiction).
      all: [> exists 0|exists 1|exists 2|exists 3]; eexists; split; reflexivity.
    + intros r. split.
      * intros Hr. in_cases Hr; (split; [cbn; auto 6|]); repeat constructor; apply BN; auto.
      * intros [Hr H]. in_cases Hr; cbn [p_rhs rule] in H; try (cbn; auto; fail); exfalso;
          inversion H as [|? ? K _]; subst; apply BN in K; discriminate.
    + intros r Hr. in_cases Hr; split; discriminate.
  - intros order Ho. split; [reflexivity|]. vm_compute in Ho. injection Ho as <-. split.
    + repeat constructor.
    + intros a b Ha Hb E. apply USE in Ha. apply USE in Hb. pose proof (PL a Ha). pose proof (PL b Hb). congruence.
    + intros a Ha. apply USE in Ha. unfold list5 in Ha. in_cases Ha; cbn; lia.
    + intros t Ht. cbn in Ht. exists (nth t list5 0). split.
      * apply USE. apply nth_In. exact Ht.
      * do 8 (destruct t as [|t]; [reflexivity|]). lia.
    + intros low H a b Ha Hb La Nb. apply USE in Ha. apply USE in Hb.
      refine (order_by_neighbours _ list5 low _ _ (f5 a) (f5 b) a b (PL a Ha) (PL b Hb) La Nb).
      * intros a' b' Ha' Hb'. apply H; now apply USE.
      * intros p x y Hx Hy. do 7 (destruct p as [|p]; [injection Hx as <-; injection Hy as <-; vm_compute; discriminate|]).
        cbn in Hy. destruct p; discriminate Hy.
    + intros a Ha. apply USE in Ha. unfold list5 in Ha. in_cases Ha; reflexivity.
    + intros a Ha. apply USE in Ha. unfold list5 in Ha. in_cases Ha; reflexivity.
    + intros a Ha Hn. cbn in Ha. assert (D : a = 1 \/ In a list5) by (cbn; lia).
      destruct D as [->|D]; [reflexivity|]. exfalso. apply Hn. now apply USE.
    + intros w Hw. injection Hw as <-. exists (mkWrapped 5 2 0 1). repeat split.
    + reflexivity.
  - apply (first_check_ok _ (table (firsts 8 (c_rules c5)) 8) (table (lasts 8 (c_rules c5)) 8) (adjacent 8 (c_rules c5))); vm_compute; reflexivity.
  - apply (follow_check_ok _ _ (table (firsts 8 (c_rules c5)) 8) (table (lasts 8 (c_rules c5)) 8) (adjacent 8 (c_rules c5))); vm_compute; reflexivity.
Qed.
Lemma X5_contract : crate_contract X5 U5 0.
Proof. exists W5, B5, E5, c5, w5, m5, (fun d => d), nulling5, origin5, maps5, f5. exact X5_elaborates. Qed.
Lemma X5_drops : crate_drops X5 U5 0.
Proof.
  exists W5, B5, E5, c5, w5, m5, (fun d => d), nulling5, origin5, maps5, f5. split; [exact X5_elaborates|].
  assert (T : forall t, t = 2 \/ t = 3 \/ t = 5 \/ t = 6 -> terminal (c_rules B5) t)
    by (intros t D; apply terminal_by; destruct D as [->|[->|[->| ->]]]; reflexivity).
  assert (N : derives (c_rules B5) 1 []) by (apply (derives_rule (c_rules B5) (rule 1 [] (Some 1)) []); [cbn; auto|constructor]).
  assert (S7 : derives (c_rules B5) 7 [2]).
  { apply (derives_rule (c_rules B5) (rule 7 [2; 1] None) [2]); [cbn; auto 6|]. cbn [p_rhs rule].
    apply (derives_cons _ 2 [1] [2] []); [constructor|]. apply (derives_cons _ 1 [] [] []); [exact N|constructor]. }
  assert (S0 : derives (c_rules B5) 0 [2; 3]).
  { apply (derives_rule (c_rules B5) (rule 0 [7; 3] (Some 0)) [2; 3]); [cbn; auto|]. cbn [p_rhs rule].
    apply (derives_cons _ 7 [3] [2] [3]); [exact S7|]. apply (derives_cons _ 3 [] [3] []); constructor. }
  assert (S8 : derives (c_rules B5) 8 [5; 2; 3]).
  { apply (derives_rule (c_rules B5) (rule 8 [5; 0] None) [5; 2; 3]); [cbn; auto 6|]. cbn [p_rhs rule].
    apply (derives_cons _ 5 [0] [5] [2; 3]); [constructor|]. apply (derives_cons _ 0 [] [2; 3] []); [exact S0|constructor]. }
  assert (V : forall s x, x <> [] -> Forall (fun t => t = 2 \/ t = 3 \/ t = 5 \/ t = 6) x -> derives (c_rules B5) s x -> visible (c_rules B5) s).
  { intros s x Hx Hf Hd. exists x. split; [auto|]. split; [|auto]. eapply Forall_impl; [|exact Hf]. exact T. }
  intros r s Hr Hs. in_cases Hr; cbn [p_rhs rule] in Hs; in_cases Hs.
  - apply (V _ [2]); [discriminate|apply Forall_cons; [auto|apply Forall_nil]|exact S7].
  - apply (V _ [3]); [discriminate|apply Forall_cons; [auto|apply Forall_nil]|constructor].
  - apply (V _ [5; 2; 3]); [discriminate|repeat (apply Forall_cons; [auto|]); constructor|exact S8].
  - apply (V _ [6]); [discriminate|apply Forall_cons; [auto|apply Forall_nil]|constructor].
  - apply (V _ [2]); [discriminate|apply Forall_cons; [auto|apply Forall_nil]|constructor].
  - apply (V _ [5]); [discriminate|apply Forall_cons; [auto|apply Forall_nil]|constructor].
  - apply (V _ [2; 3]); [discriminate|repeat (apply Forall_cons; [auto|]); constructor|exact S0].
Qed.
Lemma X5_apart : crate_apart X5 U5 0.
Proof.
  exists W5, B5, E5, c5, w5, m5, (fun d => d), nulling5, origin5, maps5, f5. split; [exact X5_elaborates|]. split; [|reflexivity].
  intros s t (r & Hr & Hs) Hn (r' & Hr' & Ht).
  assert (K : f5 t < 8).
  { in_cases Hr'; cbn in Ht; intuition (subst; cbn; lia). }
  assert (D : s = 1 \/ used (c_rules E5) s).
  { assert (M : s = 1 \/ exists d q, nth_error (c_rules E5) d = Some q /\ In s (p_lhs q :: p_rhs q)).
    { in_cases Hr; cbn in Hs; intuition (subst; auto); right;
        first [now exists 0; eexists; cbn; split; [reflexivity|cbn; auto]|now exists 1; eexists; cbn; split; [reflexivity|cbn; auto]
              |now exists 2; eexists; cbn; split; [reflexivity|cbn; auto]|now exists 3; eexists; cbn; split; [reflexivity|cbn; auto]]. }
    destruct M as [M|(d & q & Hq & M)]; [auto|]. right. exists q. split; [eapply nth_error_In; eauto|]. cbn in M. intuition. }
  destruct D as [->|D]; [|contradiction]. change (f5 1) with 8. lia.
Qed.

(** ** A grammar that has the empty sentence only: S ::= N N | A C, N ::= (nothing), A ::= a,
    C ::= a C.  S 0, N 1, A 2, a 3, C 4. *)
Definition U6 : pcfg := {|
  c_rules := [rule 0 [1; 1] (Some 0); rule 1 [] (Some 1); rule 0 [2; 4] (Some 2); rule 2 [3] (Some 3); rule 4 [3; 4] (Some 4)];
  c_num_syms := 5; c_roots := [0]; c_wrapped := [] |}.
Lemma U6_user : user_grammar U6 0.
Proof.
  split; [|cbn; lia|reflexivity|].
  - intros s (r & Hr & Hs). in_cases Hr; cbn in Hs; cbn; intuition lia.
  - intros r Hr. in_cases Hr; discriminate.
Qed.
Lemma U6_prefixes : null_prefixes_visible U6 0.
Proof.
  intros r u v Hr _ E L V _. apply (f_equal (@length _)) in E. rewrite app_length in E. destruct v; [contradiction|].
  in_cases Hr; cbn in E; lia.
Qed.
Lemma U6_N : forall x, derives (c_rules U6) 1 x -> x = [1] \/ x = [].
Proof.
  intros x H. inversion H as [|r y Hr Hq E]; subst; [auto|]. right. in_cases Hr; cbn in E; try discriminate E; cbn [p_rhs rule] in Hq.
  now inversion Hq.
Qed.
Lemma U6_A : forall x, derives (c_rules U6) 2 x -> x = [2] \/ x = [3].
Proof.
  intros x H. inversion H as [|r y Hr Hq E]; subst; [auto|]. right. in_cases Hr; cbn in E; try discriminate E; cbn [p_rhs rule] in Hq.
  apply seq_terminal in Hq; [|apply terminal_by; reflexivity]. destruct Hq as (y & -> & Hq). now inversion Hq.
Qed.
Lemma U6_C : (forall s x, derives (c_rules U6) s x -> s = 4 -> In 4 x) /\ (forall a x, derives_seq (c_rules U6) a x -> In 4 a -> In 4 x).
Proof.
  apply derives_both.
  - intros s ->. simpl. auto.
  - intros r x Hr Hq IH E. apply IH. in_cases Hr; cbn in E; try discriminate E. simpl. auto.
  - intros [].
  - intros s a x y H1 IH1 H2 IH2 [->|H]; apply in_app_iff; auto.
Qed.
Lemma U6_acyclic : no_cycles U6.
Proof.
  intros s (r & Hr & El & Hd). in_cases Hr; cbn [p_rhs p_lhs rule] in *; subst.
  - inversion Hd as [|? ? x y H1 H2 E1 E2]; subst. inversion H2 as [|? ? z t H3 H4 E1 E3]; subst. inversion H4; subst.
    destruct (U6_N _ H1) as [->| ->], (U6_N _ H3) as [->| ->]; discriminate E2.
  - inversion Hd.
  - inversion Hd as [|? ? x y H1 H2 E1 E2]; subst. destruct (U6_A _ H1) as [->| ->]; discriminate E2.
  - apply seq_terminal in Hd; [|apply terminal_by; reflexivity]. destruct Hd as (y & Ey & _). discriminate Ey.
  - apply seq_terminal in Hd; [|apply terminal_by; reflexivity]. destruct Hd as (y & Ey & _). discriminate Ey.
Qed.
Lemma U6_only : ~ visible (c_rules U6) 0.
Proof.
  intros (x & Hx & Ht & Hd). inversion Hd as [|r y Hr Hq E]; subst.
  - apply Forall_inv in Ht. apply (Ht (rule 0 [1; 1] (Some 0))); [cbn; auto|reflexivity].
  - assert (N4 : ~ In 4 x).
    { intros K. rewrite Forall_forall in Ht. apply (Ht 4 K (rule 4 [3; 4] (Some 4))); [cbn; auto 6|reflexivity]. }
    in_cases Hr; cbn in E; try discriminate E; cbn [p_rhs rule] in Hq.
    + inversion Hq as [|? ? y z H1 H2 E1 E2]; subst. inversion H2 as [|? ? y' z' H3 H4]; subst. inversion H4; subst.
      rewrite Forall_forall in Ht.
      assert (N1 : ~ In 1 (y ++ y' ++ [])) by (intros K; apply (Ht 1 K (rule 1 [] (Some 1))); [cbn; auto|reflexivity]).
      destruct (U6_N _ H1) as [->| ->], (U6_N _ H3) as [->| ->]; cbn in *; auto.
    + apply N4. apply (proj2 U6_C _ _ Hq). simpl. auto.
Qed.
Lemma U6_token : token U6 0 3.
Proof.
  split; [cbn; lia|]. split; [apply terminal_by; reflexivity|]. right. exists (rule 2 [3] (Some 3)). split; [cbn; auto 6|]. split; [|cbn; auto].
  split.
  - exists [], [4]. apply (derives_rule (c_rules U6) (rule 0 [2; 4] (Some 2)) [2; 4]); [cbn; auto|]. cbn [p_rhs rule].
    repeat (apply (derives_cons _ _ _ [_] _); [constructor|]). constructor.
  - intros s Hs. in_cases Hs. exists [3]. split; [apply Forall_cons; [apply terminal_by; reflexivity|apply Forall_nil]|constructor].
Qed.
Lemma U6_empty : derives (c_rules U6) 0 [].
Proof.
  apply (derives_rule (c_rules U6) (rule 0 [1; 1] (Some 0)) []); [cbn; auto|]. cbn [p_rhs rule].
  assert (N : derives (c_rules U6) 1 []) by (apply (derives_rule (c_rules U6) (rule 1 [] (Some 1)) []); [cbn; auto|constructor]).
  apply (derives_cons _ 1 [1] [] []); [exact N|]. apply (derives_cons _ 1 [] [] []); [exact N|constructor].
Qed.
