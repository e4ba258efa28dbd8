(** ExampleCrate: user grammars, and crates that treat them as CrateSpec.v demands.  They
    show that the contract can be met, and are witnesses for what it does not exclude. *)
From Coq Require Import List Arith Bool Lia.
From Verif Require Import Base Grammar BitMatrix DefaultGrammar Spec SpecFacts CfgSpec FromGrammar CrateSpec UserSpec CrateFacts Check ExampleGrammars.
Import ListNotations.

(** ** Facts about concrete grammars *)
Lemma null_closed : forall R (p : sym -> bool), forallb (fun r => implb (forallb p (p_rhs r)) (p (p_lhs r))) R = true ->
  (forall s x, derives R s x -> x = [] -> p s = true) /\ (forall a x, derives_seq R a x -> x = [] -> forallb p a = true).
Proof.
  intros R p H. rewrite forallb_forall in H. apply derives_both.
  - discriminate.
  - intros r x Hr _ IH ->. specialize (H r Hr). rewrite (IH eq_refl) in H. exact H.
  - reflexivity.
  - intros s ss x y _ IH1 _ IH2 E. apply app_eq_nil in E. destruct E as [-> ->]. cbn. rewrite IH1, IH2 by auto. reflexivity.
Qed.
Lemma nullable_in : forall R (p : sym -> bool) s, forallb (fun r => implb (forallb p (p_rhs r)) (p (p_lhs r))) R = true ->
  nullable R s -> p s = true.
Proof. intros R p s H N. exact (proj1 (null_closed R p H) s [] N eq_refl). Qed.

Lemma stuck_forever : forall R s, (forall r, In r R -> p_lhs r = s -> In s (p_rhs r)) ->
  (forall t x, derives R t x -> t = s -> In s x) /\ (forall a x, derives_seq R a x -> In s a -> In s x).
Proof.
  intros R s H. apply derives_both.
  - intros t ->. now left.
  - intros r x Hr _ IH El. auto.
  - auto.
  - intros t ts x y _ IH1 _ IH2 [->|Hin]; apply in_app_iff; auto.
Qed.
Lemma seq_terminal : forall R t l x, terminal R t -> derives_seq R (t :: l) x -> exists y, x = t :: y /\ derives_seq R l y.
Proof.
  intros R t l x Ht H. inversion H as [|? ? w1 w2 H1 H2]; subst. apply (terminal_derives _ _ _ Ht) in H1. subst w1. exists w2. auto.
Qed.
Lemma seq_cons : forall R s l x, derives_seq R (s :: l) x -> exists y z, x = y ++ z /\ derives R s y /\ derives_seq R l z.
Proof. intros R s l x H. inversion H as [|? ? y z H1 H2]; subst. exists y, z. auto. Qed.
Lemma terminal_by : forall R s, is_terminal R s = true -> terminal R s.
Proof. intros R s. apply is_terminal_spec. Qed.
Lemma visible_terminal : forall R s, is_terminal R s = true -> visible R s.
Proof. intros R s H. apply terminal_by in H. exists [s]. split; [discriminate|]. split; [auto|constructor]. Qed.
Lemma visible_by : forall R s r, In r R -> p_lhs r = s -> p_rhs r <> [] -> Forall (visible R) (p_rhs r) -> visible R s.
Proof.
  intros R s r Hr <- N H. assert (K : exists x, (p_rhs r <> [] -> x <> []) /\ Forall (terminal R) x /\ derives_seq R (p_rhs r) x).
  { clear N Hr. induction H as [|t l (x & N & Hx & Hd) _ (y & M & Hy & He)]; [exists []; split; [auto|split; constructor]|].
    exists (x ++ y). split; [intros _ E; apply app_eq_nil in E; tauto|]. split; [apply Forall_app; auto|now constructor]. }
  destruct K as (x & K & Hx & Hd). exists x. split; [auto|]. split; [auto|now apply derives_rule].
Qed.

Ltac in_cases H := cbn in H; repeat (destruct H as [H|H]; [subst|]); try contradiction.
Ltac nth_cases d H := repeat (destruct d as [|d]; [injection H as <-|]); [..|try (destruct d; discriminate H); try discriminate H].

(** ** S ::= a S b | | x N, N ::= b N

    S 0, a 1, b 2, x 3, N 4; then root 5, sof 6, eof 7, the generated symbols 8 (a S) and
    9 (sof S).  N is not productive: its rules are removed, and x stands in no other. *)
Definition U1 : pcfg := {|
  c_rules := [rule 0 [1; 0; 2] (Some 0); rule 0 [] (Some 1); rule 0 [3; 4] (Some 2); rule 4 [2; 4] (Some 3)];
  c_num_syms := 5; c_roots := [0]; c_wrapped := [] |}.
Definition U1' : pcfg := {|
  c_rules := [rule 0 [1; 0; 2] (Some 0); rule 0 [] (Some 1)]; c_num_syms := 5; c_roots := [0]; c_wrapped := [] |}.
Definition w1 : wrapped_root := mkWrapped 5 6 7 0.
Definition W1 : pcfg := {|
  c_rules := [rule 0 [1; 0; 2] (Some 0); rule 0 [] (Some 1); rule 5 [6; 0; 7] None];
  c_num_syms := 8; c_roots := [5]; c_wrapped := [w1] |}.
Definition B1 : pcfg := {|
  c_rules := [rule 0 [8; 2] (Some 0); rule 0 [] (Some 1); rule 5 [9; 7] None; rule 8 [1; 0] None; rule 9 [6; 0] None];
  c_num_syms := 10; c_roots := [5]; c_wrapped := [w1] |}.
Definition m1 (s : sym) : list sym := match s with 8 => [1; 0] | 9 => [6; 0] | _ => if s <? 8 then [s] else [0; 0] end.
Definition head1 (d : nat) : nat := d.
Definition dots3 : list (option rule_dot) := [Some no_dot; Some no_dot; Some no_dot].
Definition E1 : pcfg := {|
  c_rules := [rule 0 [8; 2] (Some 0); rule 5 [9; 7] None; rule 8 [1; 0] None; mkRule 8 [1] None (Some (0, true)) dots3;
              rule 9 [6; 0] None; mkRule 9 [6] None (Some (0, true)) dots3];
  c_num_syms := 10; c_roots := [5]; c_wrapped := [w1] |}.
Definition nulling1 : list prule := [rule 0 [] (Some 1)].
Definition origin1 (d : nat) : nat * list bool :=
  nth d [(0, [true; true]); (2, [true; true]); (3, [true; true]); (3, [true; false]); (4, [true; true]); (4, [true; false])] (0, []).
Definition f1 (s : sym) : sym := nth s [1; 2; 3; 0; 0; 4; 5; 0; 6; 7] 0.
Definition maps1 : mapping := {|
  m_to_internal := [Some 1; Some 2; Some 3; None; None; Some 4; Some 5; Some 0; Some 6; Some 7];
  m_to_external := [7; 0; 1; 2; 5; 6; 8; 9] |}.
Definition c1 : pcfg := {|
  c_rules := [rule 1 [6; 3] (Some 0); rule 4 [7; 0] None; rule 6 [2; 1] None; mkRule 6 [2] None (Some (1, true)) dots3;
              rule 7 [5; 1] None; mkRule 7 [5] None (Some (1, true)) dots3];
  c_num_syms := 8; c_roots := [4]; c_wrapped := [mkWrapped 4 5 0 1] |}.
Definition first1 : list (sym * list sym) := [(1, [2]); (4, [5]); (6, [2]); (7, [5])].
Definition follow1 : list (sym * list sym) := [(1, [0; 3]); (2, [2; 3]); (3, [0; 3]); (5, [0; 2]); (6, [3]); (7, [0])].
Definition X1 : cfg_crate := {|
  x_make_proper := fun _ => U1'; x_wrap_input := fun _ => W1; x_binarize_and_eliminate := fun _ => (E1, nulling1);
  x_remap := fun _ _ => Ret (c1, maps1); x_first := fun _ => first1; x_follow := fun _ => follow1 |}.

Lemma U1_user : user_grammar U1 0.
Proof.
  split; [|cbn; lia|reflexivity|].
  - intros s (r & Hr & Hs). in_cases Hr; cbn in Hs; cbn; intuition lia.
  - intros r Hr. in_cases Hr; discriminate.
Qed.
Lemma U1_null : forall s, nullable (c_rules U1) s -> s = 0.
Proof. intros s H. apply (nullable_in _ (Nat.eqb 0)) in H; [|reflexivity]. now apply Nat.eqb_eq in H. Qed.
Lemma U1_S_null : derives (c_rules U1) 0 [].
Proof. apply (derives_rule (c_rules U1) (rule 0 [] (Some 1)) []); [cbn; auto|constructor]. Qed.
Lemma U1_ab : derives (c_rules U1) 0 [1; 2].
Proof.
  apply (derives_rule (c_rules U1) (rule 0 [1; 0; 2] (Some 0)) [1; 2]); [cbn; auto|]. cbn [p_rhs rule].
  apply (derives_cons _ 1 [0; 2] [1] [2]); [constructor|]. apply (derives_cons _ 0 [2] [] [2]); [exact U1_S_null|].
  apply (derives_cons _ 2 [] [2] []); constructor.
Qed.
Lemma U1_visible : no_nulling_only U1.
Proof.
  intros s H. apply U1_null in H. subst s. exists [1; 2]. split; [discriminate|]. split; [|exact U1_ab].
  repeat constructor; apply terminal_by; reflexivity.
Qed.
Lemma U1_acyclic : no_cycles U1.
Proof.
  intros s (r & Hr & El & Hd). in_cases Hr; cbn [p_rhs p_lhs rule] in *.
  1,3,4: apply seq_terminal in Hd; [|apply terminal_by; reflexivity]; destruct Hd as (y & Ey & _); congruence.
  inversion Hd.
Qed.
Lemma U1_productive : productive_sym (c_rules U1) 0.
Proof. exists []. split; [constructor|exact U1_S_null]. Qed.

(** *** the steps *)
Lemma X1_proper : made_proper 0 U1 U1'.
Proof.
  assert (N4 : ~ productive_sym (c_rules U1) 4).
  { intros (x & Hx & Hd). assert (In 4 x).
    { apply (proj1 (stuck_forever (c_rules U1) 4 ltac:(intros r Hr; in_cases Hr; cbn; intros; [discriminate|discriminate|discriminate|auto]))) in Hd; auto. }
    rewrite Forall_forall in Hx. specialize (Hx 4 H). apply (Hx (rule 4 [2; 4] (Some 3))); [cbn; auto|reflexivity]. }
  split; [exists (fun r => negb (existsb (Nat.eqb 4) (p_rhs r))); reflexivity| |reflexivity]. intros r. split.
  - intros Hr. split; [cbn in *; tauto|]. split; [exists [], []; in_cases Hr; constructor|].
    intros s Hs. in_cases Hr; in_cases Hs; [|exact U1_productive|].
    all: eexists [_]; split; [|constructor]; repeat constructor; apply terminal_by; reflexivity.
  - intros [Hr (_ & Hp)]. in_cases Hr; [cbn; auto|cbn; auto| |]; exfalso; apply N4, Hp; cbn; auto.
Qed.

Lemma X1_wrap : wrapped 0 U1' W1 w1.
Proof.
  split; try reflexivity.
  - exists (c_rules U1'), [], (rule 5 [6; 0; 7] None). repeat split.
  - repeat constructor.
  - repeat constructor; cbn; intuition lia.
Qed.

Lemma X1_binarize : binarized W1 B1 m1 head1.
Proof.
  split; try reflexivity.
  - cbn. lia.
  - intros s (r & Hr & Hs). in_cases Hr; cbn in Hs; cbn; intuition lia.
  - intros s Hs. cbn in Hs. do 8 (destruct s as [|s]; [reflexivity|]). lia.
  - intros s Hs. cbn in Hs. do 10 (destruct s as [|s]; [cbn; lia|]). cbn. lia.
  - intros d r Hd. unfold head1. nth_cases d Hd; eexists; repeat split; reflexivity.
  - intros b r Hb Hl. exists b. split; [|reflexivity]. cbn in *. nth_cases b Hb; cbn in Hl; lia.
  - unfold head1. auto.
  - intros r Hr Hl. cbn in Hl. in_cases Hr; cbn in Hl; try lia; repeat split.
  - intros g G1 G2. cbn in G1, G2. assert (D : g = 8 \/ g = 9) by lia. destruct D as [-> | ->]; [exists 3|exists 4]; eexists;
      (split; [reflexivity|]); (split; [reflexivity|]); intros b' r' Hb' El; nth_cases b' Hb'; cbn in El; try discriminate; reflexivity.
  - intros g G1 G2. cbn in G1, G2. assert (D : g = 8 \/ g = 9) by lia. destruct D as [-> | ->]; [exists 0|exists 2]; eexists; eexists;
      (split; [reflexivity|]); (split; [reflexivity|]); intros b' r' Hb' Hin; nth_cases b' Hb'; cbn in Hin;
      try reflexivity; exfalso; intuition discriminate.
  - intros r s Hr Hs. in_cases Hr; cbn in Hs; try discriminate; injection Hs as <-; cbn; lia.
  - intros r Hr. in_cases Hr; cbn; lia.
Qed.

Lemma B1_null : forall s, nullable (c_rules B1) s <-> s = 0.
Proof.
  intros s. split.
  - intros H. apply (nullable_in _ (Nat.eqb 0)) in H; [|reflexivity]. now apply Nat.eqb_eq in H.
  - intros ->. apply (derives_rule (c_rules B1) (rule 0 [] (Some 1)) []); [cbn; auto|constructor].
Qed.

Lemma mask_cases : forall mask : list bool, length mask = 2 ->
  mask = [true; true] \/ mask = [true; false] \/ mask = [false; true] \/ mask = [false; false].
Proof. intros [|x [|y [|z l]]] H; try discriminate H. destruct x, y; auto. Qed.

Lemma X1_eliminate : eliminated B1 E1 nulling1 origin1.
Proof.
  split; try reflexivity.
  - intros d r Hd. nth_cases d Hd; cbn [origin1 nth]; eexists; (split; [reflexivity|]); repeat (split; [try reflexivity; try discriminate|]);
      cbn; repeat constructor; now apply B1_null.
  - intros d r r' Hd Hb. nth_cases d Hd; cbn in Hb; injection Hb as <-; reflexivity.
  - intros d d' r r' Hd Hd' E. cbn in Hd, Hd'. nth_cases d Hd; nth_cases d' Hd'; cbn in E; try discriminate E; reflexivity.
  - intros b r' mask Hb Hl Hs Hn _. cbn in Hb.
    nth_cases b Hb; cbn [p_rhs rule length] in *.
    2: { destruct mask; [|discriminate Hl]. now cbn in Hn. }
    all: destruct (mask_cases mask Hl) as [->|[->|[->| ->]]]; cbn in Hs, Hn; try contradiction.
    all: try (exfalso; inversion Hs as [|? ? K _]; subst; apply B1_null in K; discriminate).
    all: [> exists 0|exists 1|exists 2|exists 3|exists 4|exists 5]; eexists; split; reflexivity.
  - intros r. split.
    + intros [<-|[]]. split; [cbn; auto|constructor].
    + intros [Hr H]. in_cases Hr; cbn [p_rhs rule] in H; try (left; reflexivity); exfalso;
        inversion H as [|? ? K _]; subst; apply B1_null in K; discriminate.
  - intros r Hr. in_cases Hr; split; discriminate.
Qed.

Definition list1 : list sym := [7; 0; 1; 2; 5; 6; 8; 9].
Lemma used1 : forall s, used (c_rules E1) s <-> In s list1.
Proof.
  intros s. split.
  - intros (r & Hr & Hs). in_cases Hr; cbn in Hs; cbn; intuition.
  - intros H. unfold used. in_cases H.
    + exists (rule 5 [9; 7] None). cbn. intuition.
    + exists (rule 0 [8; 2] (Some 0)). cbn. intuition.
    + exists (rule 8 [1; 0] None). cbn. intuition.
    + exists (rule 0 [8; 2] (Some 0)). cbn. intuition.
    + exists (rule 5 [9; 7] None). cbn. intuition.
    + exists (rule 9 [6; 0] None). cbn. intuition.
    + exists (rule 8 [1; 0] None). cbn. intuition.
    + exists (rule 9 [6; 0] None). cbn. intuition.
Qed.
Lemma place1 : forall s, In s list1 -> nth_error list1 (f1 s) = Some s.
Proof. intros s H. in_cases H; reflexivity. Qed.

Lemma X1_remap : forall order, remap_order E1 7 = Ret order -> remapped (remap_cmp order) E1 c1 maps1 f1.
Proof.
  intros order Ho. vm_compute in Ho. injection Ho as <-. split.
  - repeat constructor.
  - intros a b Ha Hb E. apply used1 in Ha. apply used1 in Hb. pose proof (place1 a Ha). pose proof (place1 b Hb). congruence.
  - intros a Ha. apply used1 in Ha. in_cases Ha; cbn; lia.
  - intros t Ht. cbn in Ht. exists (nth t list1 0). split.
    + apply used1. apply nth_In. exact Ht.
    + do 8 (destruct t as [|t]; [reflexivity|]). lia.
  - intros low H a b Ha Hb La Nb. apply used1 in Ha. apply used1 in Hb.
    refine (order_by_neighbours _ list1 low _ _ (f1 a) (f1 b) a b (place1 a Ha) (place1 b Hb) La Nb).
    + intros a' b' Ha' Hb'. apply H; now apply used1.
    + intros p x y Hx Hy. do 7 (destruct p as [|p]; [injection Hx as <-; injection Hy as <-; vm_compute; discriminate|]).
      cbn in Hy. destruct p; discriminate Hy.
  - intros a Ha. apply used1 in Ha. in_cases Ha; reflexivity.
  - intros a Ha. apply used1 in Ha. in_cases Ha; reflexivity.
  - intros a Ha Hn. cbn in Ha. assert (D : a = 3 \/ a = 4 \/ In a list1) by (cbn; lia).
    destruct D as [->|[->|D]]; [reflexivity|reflexivity|]. exfalso. apply Hn. now apply used1.
  - intros w Hw. injection Hw as <-. exists (mkWrapped 4 5 0 1). repeat split.
  - reflexivity.
Qed.

Lemma X1_contract : crate_contract X1 U1 0.
Proof.
  exists W1, B1, E1, c1, w1, m1, head1, nulling1, origin1, maps1, f1. split.
  - exact X1_proper.
  - split; [reflexivity|exact X1_wrap].
  - exact X1_binarize.
  - split; [reflexivity|exact X1_eliminate].
  - intros order Ho. split; [reflexivity|now apply X1_remap].
  - apply (first_check_ok _ (table (firsts 8 (c_rules c1)) 8) (table (lasts 8 (c_rules c1)) 8) (adjacent 8 (c_rules c1))); vm_compute; reflexivity.
  - apply (follow_check_ok _ _ (table (firsts 8 (c_rules c1)) 8) (table (lasts 8 (c_rules c1)) 8) (adjacent 8 (c_rules c1))); vm_compute; reflexivity.
Qed.

(** ** S ::= N N a, N ::=

    S 0, N 1, a 2; then root 3, sof 4, eof 5, the generated symbols 6 (N N) and 7 (sof S).
    N derives nothing but the empty string. *)
Definition U2 : pcfg := {|
  c_rules := [rule 0 [1; 1; 2] (Some 0); rule 1 [] (Some 1)]; c_num_syms := 3; c_roots := [0]; c_wrapped := [] |}.
Definition w2 : wrapped_root := mkWrapped 3 4 5 0.
Definition W2 : pcfg := {|
  c_rules := [rule 0 [1; 1; 2] (Some 0); rule 1 [] (Some 1); rule 3 [4; 0; 5] None];
  c_num_syms := 6; c_roots := [3]; c_wrapped := [w2] |}.
Definition B2 : pcfg := {|
  c_rules := [rule 0 [6; 2] (Some 0); rule 1 [] (Some 1); rule 3 [7; 5] None; rule 6 [1; 1] None; rule 7 [4; 0] None];
  c_num_syms := 8; c_roots := [3]; c_wrapped := [w2] |}.
Definition m2 (s : sym) : list sym := match s with 6 => [1; 1] | 7 => [4; 0] | _ => if s <? 6 then [s] else [0; 0] end.
Definition E2 : pcfg := {|
  c_rules := [mkRule 0 [2] (Some 0) (Some (6, false)) dots3; rule 3 [7; 5] None; rule 7 [4; 0] None];
  c_num_syms := 8; c_roots := [3]; c_wrapped := [w2] |}.
Definition nulling2 : list prule := [rule 1 [] (Some 1); rule 6 [1; 1] None].
Definition origin2 (d : nat) : nat * list bool := nth d [(0, [false; true]); (2, [true; true]); (4, [true; true])] (0, []).
Definition f2 (s : sym) : sym := nth s [1; 0; 2; 3; 4; 0; 0; 5] 0.
Definition maps2 : mapping := {|
  m_to_internal := [Some 1; None; Some 2; Some 3; Some 4; Some 0; None; Some 5]; m_to_external := [5; 0; 2; 3; 4; 7] |}.
Definition c2 : pcfg := {|
  c_rules := [mkRule 1 [2] (Some 0) (Some (0, false)) dots3; rule 3 [5; 0] None; rule 5 [4; 1] None];
  c_num_syms := 6; c_roots := [3]; c_wrapped := [mkWrapped 3 4 0 1] |}.
Definition first2 : list (sym * list sym) := [(1, [2]); (3, [4]); (5, [4])].
Definition follow2 : list (sym * list sym) := [(1, [0]); (2, [0]); (4, [2]); (5, [0])].
Definition X2 : cfg_crate := {|
  x_make_proper := fun _ => U2; x_wrap_input := fun _ => W2; x_binarize_and_eliminate := fun _ => (E2, nulling2);
  x_remap := fun _ _ => Ret (c2, maps2); x_first := fun _ => first2; x_follow := fun _ => follow2 |}.

Lemma U2_user : user_grammar U2 0.
Proof.
  split; [|cbn; lia|reflexivity|].
  - intros s (r & Hr & Hs). in_cases Hr; cbn in Hs; cbn; intuition lia.
  - intros r Hr. in_cases Hr; discriminate.
Qed.
Lemma U2_N : derives (c_rules U2) 1 [].
Proof. apply (derives_rule (c_rules U2) (rule 1 [] (Some 1)) []); [cbn; auto|constructor]. Qed.
Lemma U2_a : derives (c_rules U2) 0 [2].
Proof.
  apply (derives_rule (c_rules U2) (rule 0 [1; 1; 2] (Some 0)) [2]); [cbn; auto|]. cbn [p_rhs rule].
  apply (derives_cons _ 1 [1; 2] [] [2]); [exact U2_N|]. apply (derives_cons _ 1 [2] [] [2]); [exact U2_N|].
  apply (derives_cons _ 2 [] [2] []); constructor.
Qed.
Lemma U2_productive : productive_sym (c_rules U2) 0.
Proof. exists [2]. split; [repeat constructor; apply terminal_by; reflexivity|exact U2_a]. Qed.
Lemma U2_acyclic : no_cycles U2.
Proof.
  intros s (r & Hr & El & Hd). in_cases Hr; cbn [p_rhs p_lhs rule] in *; subst.
  - apply seq_cons in Hd. destruct Hd as (x1 & y1 & E1 & _ & Hd). apply seq_cons in Hd. destruct Hd as (x2 & y2 & -> & _ & Hd).
    apply seq_terminal in Hd; [|apply terminal_by; reflexivity]. destruct Hd as (y & -> & _).
    destruct x1 as [|? [|]], x2 as [|? [|]]; cbn in E1; discriminate E1.
  - inversion Hd.
Qed.
Lemma U2_refutes : ~ no_nulling_only U2.
Proof.
  intros H. destruct (H 1 U2_N) as (x & N & Hx & Hd). inversion Hd as [|r y Hr Hq]; subst.
  - inversion Hx as [|? ? T _]; subst. apply (T (rule 1 [] (Some 1))); [cbn; auto|reflexivity].
  - in_cases Hr; cbn in *; try discriminate. inversion Hq. now subst.
Qed.

Lemma X2_elaborates : elaborates X2 U2 0 W2 B2 E2 c2 w2 m2 (fun d => d) nulling2 origin2 maps2 f2.
Proof.
  assert (BN : forall s, nullable (c_rules B2) s <-> s = 1 \/ s = 6).
  { assert (K : derives (c_rules B2) 1 []) by (apply (derives_rule (c_rules B2) (rule 1 [] (Some 1)) []); [cbn; auto|constructor]).
    intros s. split.
    - intros H. apply (nullable_in _ (fun s => (s =? 1) || (s =? 6))) in H; [|reflexivity].
      apply orb_true_iff in H. rewrite !Nat.eqb_eq in H. exact H.
    - intros [-> | ->]; [exact K|]. apply (derives_rule (c_rules B2) (rule 6 [1; 1] None) []); [cbn; auto 6|]. cbn [p_rhs rule].
      apply (derives_cons _ 1 [1] [] []); [exact K|]. apply (derives_cons _ 1 [] [] []); [exact K|constructor]. }
  assert (V1 : ~ visible (c_rules B2) 1).
  { intros (x & N & Hx & Hd). inversion Hd as [|r y Hr Hq]; subst.
    - inversion Hx as [|? ? T _]; subst. apply (T (rule 1 [] (Some 1))); [cbn; auto|reflexivity].
    - in_cases Hr; cbn in *; try discriminate. inversion Hq. now subst. }
  assert (V6 : ~ visible (c_rules B2) 6).
  { intros (x & N & Hx & Hd). inversion Hd as [|r y Hr Hq]; subst.
    - inversion Hx as [|? ? T _]; subst. apply (T (rule 6 [1; 1] None)); [cbn; auto 6|reflexivity].
    - in_cases Hr; cbn [p_lhs p_rhs rule] in *; try discriminate.
      apply seq_cons in Hq. destruct Hq as (x1 & y1 & -> & H1 & Hq). apply seq_cons in Hq. destruct Hq as (x2 & y2 & -> & H2 & Hq).
      inversion Hq; subst.
      apply Forall_app in Hx. destruct Hx as [Hx1 Hx2]. rewrite app_nil_r in *.
      destruct x1 as [|t x1]; [|apply V1; exists (t :: x1); split; [discriminate|auto]].
      destruct x2 as [|t x2]; [|apply V1; exists (t :: x2); split; [discriminate|auto]]. now apply N. }
  assert (USE : forall s, used (c_rules E2) s <-> In s [5; 0; 2; 3; 4; 7]).
  { intros s. split.
    - intros (r & Hr & Hs). in_cases Hr; cbn in Hs; cbn; intuition.
    - intros H. unfold used. in_cases H.
      + exists (rule 3 [7; 5] None). cbn. intuition.
      + exists (rule 7 [4; 0] None). cbn. intuition.
      + eexists (mkRule 0 [2] (Some 0) (Some (6, false)) dots3). cbn. intuition.
      + exists (rule 3 [7; 5] None). cbn. intuition.
      + exists (rule 7 [4; 0] None). cbn. intuition.
      + exists (rule 7 [4; 0] None). cbn. intuition. }
  assert (PL : forall s, In s [5; 0; 2; 3; 4; 7] -> nth_error [5; 0; 2; 3; 4; 7] (f2 s) = Some s) by (intros s H; in_cases H; reflexivity).
  split.
  - split; [exists (fun _ => true); reflexivity| |reflexivity]. intros r. split; [|tauto]. intros Hr. split; [auto|].
    in_cases Hr; (split; [|intros s Hs; in_cases Hs]).
    + exists [], []. constructor.
    + exists []. split; [constructor|exact U2_N].
    + exists []. split; [constructor|exact U2_N].
    + eexists [_]; split; [|constructor]; repeat constructor; apply terminal_by; reflexivity.
    + exists [], [1; 2]. apply (derives_rule (c_rules U2) (rule 0 [1; 1; 2] (Some 0)) [1; 1; 2]); [cbn; auto|]. cbn [p_rhs rule].
      repeat (apply (derives_cons _ _ _ [_] _); [constructor|]). constructor.
  - split; [reflexivity|]. split; try reflexivity.
    + exists (c_rules U2), [], (rule 3 [4; 0; 5] None). repeat split.
    + repeat constructor.
    + repeat constructor; cbn; intuition lia.
  - split; try reflexivity.
    + cbn. lia.
    + intros s (r & Hr & Hs). in_cases Hr; cbn in Hs; cbn; intuition lia.
    + intros s Hs. cbn in Hs. do 6 (destruct s as [|s]; [reflexivity|]). lia.
    + intros s Hs. cbn in Hs. do 8 (destruct s as [|s]; [cbn; lia|]). cbn. lia.
    + intros d r Hd. nth_cases d Hd; eexists; repeat split; reflexivity.
    + intros b r Hb Hl. exists b. split; [|reflexivity]. cbn in *. nth_cases b Hb; cbn in Hl; lia.
    + auto.
    + intros r Hr Hl. cbn in Hl. in_cases Hr; cbn in Hl; try lia; repeat split.
    + intros g G1 G2. cbn in G1, G2. assert (D : g = 6 \/ g = 7) by lia. destruct D as [-> | ->]; [exists 3|exists 4]; eexists;
        (split; [reflexivity|]); (split; [reflexivity|]); intros b' r' Hb' El; nth_cases b' Hb'; cbn in El; try discriminate; reflexivity.
    + intros g G1 G2. cbn in G1, G2. assert (D : g = 6 \/ g = 7) by lia. destruct D as [-> | ->]; [exists 0|exists 2]; eexists; eexists;
        (split; [reflexivity|]); (split; [reflexivity|]); intros b' r' Hb' Hin; nth_cases b' Hb'; cbn in Hin;
        try reflexivity; exfalso; intuition discriminate.
    + intros r s Hr Hs. in_cases Hr; cbn in Hs; try discriminate; injection Hs as <-; cbn; lia.
    + intros r Hr. in_cases Hr; cbn; lia.
  - split; [reflexivity|]. split; try reflexivity.
    + intros d r Hd. nth_cases d Hd; cbn [origin2 nth]; eexists; (split; [reflexivity|]); repeat (split; [try reflexivity; try discriminate|]);
        cbn; repeat constructor. apply BN. auto.
    + intros d r r' Hd Hb. nth_cases d Hd; cbn in Hb; injection Hb as <-; reflexivity.
    + intros d d' r r' Hd Hd' E. cbn in Hd, Hd'. nth_cases d Hd; nth_cases d' Hd'; cbn in E; try discriminate E; reflexivity.
    + intros b r' mask Hb Hl Hs Hn Hv. cbn in Hb.
      nth_cases b Hb; cbn [p_rhs rule length] in *.
      2: { destruct mask; [|discriminate Hl]. now cbn in Hn. }
      all: destruct (mask_cases mask Hl) as [->|[->|[->| ->]]]; cbn in Hs, Hn, Hv; try contradiction.
      all: try (exfalso; inversion Hs as [|? ? K _]; subst; apply BN in K; destruct K; discriminate).
      all: try (exfalso; inversion Hv as [|? ? K _]; subst; contradiction).
      all: [> exists 0|exists 1|exists 2]; eexists; split; reflexivity.
    + intros r. split.
      * intros Hr. in_cases Hr; (split; [cbn; auto 6|]); repeat constructor; apply BN; auto.
      * intros [Hr H]. in_cases Hr; cbn [p_rhs rule] in H; try (cbn; auto; fail); exfalso.
        -- inversion H as [|? ? _ H']; subst. inversion H' as [|? ? K _]; subst. apply BN in K. destruct K; discriminate.
        -- inversion H as [|? ? K _]; subst; apply BN in K; destruct K; discriminate.
        -- inversion H as [|? ? K _]; subst; apply BN in K; destruct K; discriminate.
    + intros r Hr. in_cases Hr; split; discriminate.
  - intros order Ho. split; [reflexivity|]. vm_compute in Ho. injection Ho as <-. split.
    + repeat constructor.
    + intros a b Ha Hb E. apply USE in Ha. apply USE in Hb. pose proof (PL a Ha). pose proof (PL b Hb). congruence.
    + intros a Ha. apply USE in Ha. in_cases Ha; cbn; lia.
    + intros t Ht. cbn in Ht. exists (nth t [5; 0; 2; 3; 4; 7] 0). split.
      * apply USE. apply nth_In. exact Ht.
      * do 6 (destruct t as [|t]; [reflexivity|]). lia.
    + intros low H a b Ha Hb La Nb. apply USE in Ha. apply USE in Hb.
      refine (order_by_neighbours _ [5; 0; 2; 3; 4; 7] low _ _ (f2 a) (f2 b) a b (PL a Ha) (PL b Hb) La Nb).
      * intros a' b' Ha' Hb'. apply H; now apply USE.
      * intros p x y Hx Hy. do 5 (destruct p as [|p]; [injection Hx as <-; injection Hy as <-; vm_compute; discriminate|]).
        cbn in Hy. destruct p; discriminate Hy.
    + intros a Ha. apply USE in Ha. in_cases Ha; reflexivity.
    + intros a Ha. apply USE in Ha. in_cases Ha; reflexivity.
    + intros a Ha Hn. cbn in Ha. assert (D : a = 1 \/ a = 6 \/ In a [5; 0; 2; 3; 4; 7]) by (cbn; lia).
      destruct D as [->|[->|D]]; [reflexivity|reflexivity|]. exfalso. apply Hn. now apply USE.
    + intros w Hw. injection Hw as <-. exists (mkWrapped 3 4 0 1). repeat split.
    + reflexivity.
  - apply (first_check_ok _ (table (firsts 8 (c_rules c2)) 8) (table (lasts 8 (c_rules c2)) 8) (adjacent 8 (c_rules c2))); vm_compute; reflexivity.
  - apply (follow_check_ok _ _ (table (firsts 8 (c_rules c2)) 8) (table (lasts 8 (c_rules c2)) 8) (adjacent 8 (c_rules c2))); vm_compute; reflexivity.
Qed.

Lemma X2_contract : crate_contract X2 U2 0.
Proof. exists W2, B2, E2, c2, w2, m2, (fun d => d), nulling2, origin2, maps2, f2. exact X2_elaborates. Qed.
(** The crate leaves out every rule that has a symbol without a word of its own. *)
Lemma X2_drops : crate_drops X2 U2 0.
Proof.
  exists W2, B2, E2, c2, w2, m2, (fun d => d), nulling2, origin2, maps2, f2. split; [exact X2_elaborates|].
  assert (T : forall t, t = 2 \/ t = 4 \/ t = 5 -> terminal (c_rules B2) t)
    by (intros t D; apply terminal_by; destruct D as [->|[->| ->]]; reflexivity).
  assert (N : derives (c_rules B2) 1 []) by (apply (derives_rule (c_rules B2) (rule 1 [] (Some 1)) []); [cbn; auto|constructor]).
  assert (N6 : derives (c_rules B2) 6 []).
  { apply (derives_rule (c_rules B2) (rule 6 [1; 1] None) []); [cbn; auto 6|]. cbn [p_rhs rule].
    apply (derives_cons _ 1 [1] [] []); [exact N|]. apply (derives_cons _ 1 [] [] []); [exact N|constructor]. }
  assert (S0 : derives (c_rules B2) 0 [2]).
  { apply (derives_rule (c_rules B2) (rule 0 [6; 2] (Some 0)) [2]); [cbn; auto|]. cbn [p_rhs rule].
    apply (derives_cons _ 6 [2] [] [2]); [exact N6|]. apply (derives_cons _ 2 [] [2] []); constructor. }
  assert (S7 : derives (c_rules B2) 7 [4; 2]).
  { apply (derives_rule (c_rules B2) (rule 7 [4; 0] None) [4; 2]); [cbn; auto 6|]. cbn [p_rhs rule].
    apply (derives_cons _ 4 [0] [4] [2]); [constructor|]. apply (derives_cons _ 0 [] [2] []); [exact S0|constructor]. }
  intros r s Hr Hs. in_cases Hr; cbn [p_rhs rule] in Hs; in_cases Hs.
  - exists [2]. split; [discriminate|]. split; [repeat (apply Forall_cons; [apply T; auto|]); apply Forall_nil|constructor].
  - exists [4; 2]. split; [discriminate|]. split; [repeat (apply Forall_cons; [apply T; auto|]); apply Forall_nil|exact S7].
  - exists [5]. split; [discriminate|]. split; [repeat (apply Forall_cons; [apply T; auto|]); apply Forall_nil|constructor].
  - exists [4]. split; [discriminate|]. split; [repeat (apply Forall_cons; [apply T; auto|]); apply Forall_nil|constructor].
  - exists [2]. split; [discriminate|]. split; [repeat (apply Forall_cons; [apply T; auto|]); apply Forall_nil|exact S0].
Qed.

(** ** A ::= A | a

    A 0, a 1; then root 2, sof 3, eof 4, the generated symbol 5 (sof A). *)
Definition U3 : pcfg := {|
  c_rules := [rule 0 [0] (Some 0); rule 0 [1] (Some 1)]; c_num_syms := 2; c_roots := [0]; c_wrapped := [] |}.
Definition w3 : wrapped_root := mkWrapped 2 3 4 0.
Definition W3 : pcfg := {|
  c_rules := [rule 0 [0] (Some 0); rule 0 [1] (Some 1); rule 2 [3; 0; 4] None]; c_num_syms := 5; c_roots := [2]; c_wrapped := [w3] |}.
Definition B3 : pcfg := {|
  c_rules := [rule 0 [0] (Some 0); rule 0 [1] (Some 1); rule 2 [5; 4] None; rule 5 [3; 0] None];
  c_num_syms := 6; c_roots := [2]; c_wrapped := [w3] |}.
Definition m3 (s : sym) : list sym := match s with 5 => [3; 0] | _ => if s <? 5 then [s] else [0; 0] end.
Definition origin3 (d : nat) : nat * list bool := nth d [(0, [true]); (1, [true]); (2, [true; true]); (3, [true; true])] (0, []).
Definition f3 (s : sym) : sym := nth s [1; 2; 3; 4; 0; 5] 0.
Definition maps3 : mapping := {|
  m_to_internal := [Some 1; Some 2; Some 3; Some 4; Some 0; Some 5]; m_to_external := [4; 0; 1; 2; 3; 5] |}.
Definition c3 : pcfg := {|
  c_rules := [rule 1 [1] (Some 0); rule 1 [2] (Some 1); rule 3 [5; 0] None; rule 5 [4; 1] None];
  c_num_syms := 6; c_roots := [3]; c_wrapped := [mkWrapped 3 4 0 1] |}.
Definition first3 : list (sym * list sym) := [(1, [2]); (3, [4]); (5, [4])].
Definition follow3 : list (sym * list sym) := [(1, [0]); (2, [0]); (4, [2]); (5, [0])].
Definition X3 : cfg_crate := {|
  x_make_proper := fun _ => U3; x_wrap_input := fun _ => W3; x_binarize_and_eliminate := fun _ => (B3, []);
  x_remap := fun _ _ => Ret (c3, maps3); x_first := fun _ => first3; x_follow := fun _ => follow3 |}.

Lemma U3_user : user_grammar U3 0.
Proof.
  split; [|cbn; lia|reflexivity|].
  - intros s (r & Hr & Hs). in_cases Hr; cbn in Hs; cbn; intuition lia.
  - intros r Hr. in_cases Hr; discriminate.
Qed.
Lemma U3_a : derives (c_rules U3) 0 [1].
Proof.
  apply (derives_rule (c_rules U3) (rule 0 [1] (Some 1)) [1]); [cbn; auto|]. cbn [p_rhs rule].
  apply (derives_cons _ 1 [] [1] []); constructor.
Qed.
Lemma U3_productive : productive_sym (c_rules U3) 0.
Proof. exists [1]. split; [repeat constructor; apply terminal_by; reflexivity|exact U3_a]. Qed.
Lemma U3_visible : no_nulling_only U3.
Proof. intros s H. apply (nullable_in _ (fun _ => false)) in H; [discriminate|reflexivity]. Qed.
Lemma U3_token : token U3 0 1.
Proof.
  split; [cbn; lia|]. split; [apply terminal_by; reflexivity|]. right. exists (rule 0 [1] (Some 1)). split; [cbn; auto|].
  split; [|cbn; auto]. split; [exists [], []; constructor|]. intros s [<-|[]]. exists [1].
  split; [repeat constructor; apply terminal_by; reflexivity|constructor].
Qed.

Lemma X3_contract : crate_contract X3 U3 0.
Proof.
  assert (BN : forall s, ~ nullable (c_rules B3) s).
  { intros s H. apply (nullable_in _ (fun _ => false)) in H; [discriminate|reflexivity]. }
  assert (USE : forall s, used (c_rules B3) s <-> In s [4; 0; 1; 2; 3; 5]).
  { intros s. split.
    - intros (r & Hr & Hs). in_cases Hr; cbn in Hs; cbn; intuition.
    - intros H. unfold used. in_cases H.
      + exists (rule 2 [5; 4] None). cbn. intuition.
      + exists (rule 0 [1] (Some 1)). cbn. intuition.
      + exists (rule 0 [1] (Some 1)). cbn. intuition.
      + exists (rule 2 [5; 4] None). cbn. intuition.
      + exists (rule 5 [3; 0] None). cbn. intuition.
      + exists (rule 5 [3; 0] None). cbn. intuition. }
  assert (PL : forall s, In s [4; 0; 1; 2; 3; 5] -> nth_error [4; 0; 1; 2; 3; 5] (f3 s) = Some s) by (intros s H; in_cases H; reflexivity).
  exists W3, B3, B3, c3, w3, m3, (fun d => d), [], origin3, maps3, f3. split.
  - split; [exists (fun _ => true); reflexivity| |reflexivity]. intros r. split; [|tauto]. intros Hr. split; [auto|].
    in_cases Hr; (split; [exists [], []; constructor|intros s Hs; in_cases Hs]); [exact U3_productive|].
    eexists [_]; split; [|constructor]; repeat constructor; apply terminal_by; reflexivity.
  - split; [reflexivity|]. split; try reflexivity.
    + exists (c_rules U3), [], (rule 2 [3; 0; 4] None). repeat split.
    + repeat constructor.
    + repeat constructor; cbn; intuition lia.
  - split; try reflexivity.
    + cbn. lia.
    + intros s (r & Hr & Hs). in_cases Hr; cbn in Hs; cbn; intuition lia.
    + intros s Hs. cbn in Hs. do 5 (destruct s as [|s]; [reflexivity|]). lia.
    + intros s Hs. cbn in Hs. do 6 (destruct s as [|s]; [cbn; lia|]). cbn. lia.
    + intros d r Hd. nth_cases d Hd; eexists; repeat split; reflexivity.
    + intros b r Hb Hl. exists b. split; [|reflexivity]. cbn in *. nth_cases b Hb; cbn in Hl; lia.
    + auto.
    + intros r Hr Hl. cbn in Hl. in_cases Hr; cbn in Hl; try lia; repeat split.
    + intros g G1 G2. cbn in G1, G2. assert (g = 5) by lia. subst g. exists 3. eexists.
      split; [reflexivity|]. split; [reflexivity|]. intros b' r' Hb' El; nth_cases b' Hb'; cbn in El; try discriminate; reflexivity.
    + intros g G1 G2. cbn in G1, G2. assert (g = 5) by lia. subst g. exists 2. eexists. eexists.
      split; [reflexivity|]. split; [reflexivity|]. intros b' r' Hb' Hin; nth_cases b' Hb'; cbn in Hin;
        try reflexivity; exfalso; intuition discriminate.
    + intros r s Hr Hs. in_cases Hr; cbn in Hs; try discriminate; injection Hs as <-; cbn; lia.
    + intros r Hr. in_cases Hr; cbn; lia.
  - split; [reflexivity|]. split; try reflexivity.
    + intros d r Hd. nth_cases d Hd; cbn [origin3 nth]; eexists; (split; [reflexivity|]); repeat (split; [try reflexivity; try discriminate|]);
        cbn; repeat constructor.
    + intros d r r' Hd Hb. nth_cases d Hd; cbn in Hb; injection Hb as <-; reflexivity.
    + intros d d' r r' Hd Hd' E. cbn in Hd, Hd'. nth_cases d Hd; nth_cases d' Hd'; cbn in E; try discriminate E; reflexivity.
    + intros b r' mask Hb Hl Hs Hn _. assert (Em : struck_out mask (p_rhs r') = []).
      { destruct (struck_out mask (p_rhs r')) as [|s l]; [auto|]. inversion Hs as [|? ? K _]; subst. exfalso. exact (BN s K). }
      cbn in Hb. nth_cases b Hb; cbn [p_rhs rule length] in *.
      1: destruct mask as [|[] [|]]; try discriminate Hl; try discriminate Em; exists 0; eexists; split; reflexivity.
      1: destruct mask as [|[] [|]]; try discriminate Hl; try discriminate Em; exists 1; eexists; split; reflexivity.
      all: destruct (mask_cases mask Hl) as [->|[->|[->| ->]]]; try discriminate Em.
      all: [> exists 2|exists 3]; eexists; split; reflexivity.
    + intros r. split; [intros []|]. intros [Hr H]. exfalso.
      in_cases Hr; cbn [p_rhs rule] in H; inversion H as [|? ? K _]; subst; exact (BN _ K).
    + intros r Hr. in_cases Hr; split; discriminate.
  - intros order Ho. split; [reflexivity|]. vm_compute in Ho. injection Ho as <-. split.
    + repeat constructor.
    + intros a b Ha Hb E. apply USE in Ha. apply USE in Hb. pose proof (PL a Ha). pose proof (PL b Hb). congruence.
    + intros a Ha. apply USE in Ha. in_cases Ha; cbn; lia.
    + intros t Ht. cbn in Ht. exists (nth t [4; 0; 1; 2; 3; 5] 0). split.
      * apply USE. apply nth_In. exact Ht.
      * do 6 (destruct t as [|t]; [reflexivity|]). lia.
    + intros low H a b Ha Hb La Nb. apply USE in Ha. apply USE in Hb.
      refine (order_by_neighbours _ [4; 0; 1; 2; 3; 5] low _ _ (f3 a) (f3 b) a b (PL a Ha) (PL b Hb) La Nb).
      * intros a' b' Ha' Hb'. apply H; now apply USE.
      * intros p x y Hx Hy. do 5 (destruct p as [|p]; [injection Hx as <-; injection Hy as <-; vm_compute; discriminate|]).
        cbn in Hy. destruct p; discriminate Hy.
    + intros a Ha. apply USE in Ha. in_cases Ha; reflexivity.
    + intros a Ha. apply USE in Ha. in_cases Ha; reflexivity.
    + intros a Ha Hn. cbn in Ha. exfalso. apply Hn. apply USE. cbn. lia.
    + intros w Hw. injection Hw as <-. exists (mkWrapped 3 4 0 1). repeat split.
    + reflexivity.
  - apply (first_check_ok _ (table (firsts 8 (c_rules c3)) 8) (table (lasts 8 (c_rules c3)) 8) (adjacent 8 (c_rules c3))); vm_compute; reflexivity.
  - apply (follow_check_ok _ _ (table (firsts 8 (c_rules c3)) 8) (table (lasts 8 (c_rules c3)) 8) (adjacent 8 (c_rules c3))); vm_compute; reflexivity.
Qed.
