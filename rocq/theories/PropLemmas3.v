(** PropLemmas3: lemmas for the properties of forests and their evaluation. *)
From Coq Require Import List Arith Bool Lia NArith.
From Verif Require Import Base BaseProofs TablesProofs Item Grammar Forest ForestSpec Spec Den Sim SimpleBocage EvalSpec SimpleEval
  SimpleProofs SimpleValue ForestProg ForestValue SimpleTop.
Import ListNotations.
Local Open Scope res_scope.

Section Lemmas3.
  Context {E : Type}.
  Variable ev : evaluator E.
  Variable fi : forest_info.
  Variable nv : sym -> E.
  Variable nulls : sym -> list E.
  Hypothesis Hpush : pushes ev nv.
  Hypothesis Hnulls : nulls_ok fi nv nulls.
  Hypothesis Hac : nulling_acyclic fi.
  Notation rules := (length (fi_nulling_eliminated fi)).

  Lemma calls_length : forall calls, calls_fine rules calls -> length (call_values ev fi nulls calls) = length calls.
  Proof.
    intros calls _. unfold call_values. rewrite map_length.
    induction calls as [|c calls IH] using rev_ind; [reflexivity|].
    rewrite fold_left_app. cbn [fold_left]. rewrite !app_length, IH. reflexivity.
  Qed.

  Lemma C16_lemma : forall b0 calls i d v t,
    bocage_new fi = Ret b0 -> calls_fine rules calls ->
    nth_error (represented calls) i = Some [[Node d [Leaf (fi_sof fi) v; t]]] ->
    exists hs b root fuel0 b',
      build simple_forest calls b0 = Ret (hs, b) /\ nth_error hs i = Some root /\
      forall fuel, fuel0 <= fuel -> evaluate ev fuel b root = Ret (value ev fi nulls t, b').
  Proof.
    intros b0 calls i d v t H0 Hf Hr.
    destruct (build_evaluates ev fi nv nulls Hnulls Hac b0 calls H0 Hf) as (hs & b & Eb & Len & Ib & W & _ & U).
    destruct (U i d v t Hr) as (r & Hw & Hv).
    assert (Hi : i < length calls).
    { destruct Hw as (? & ? & ? & ? & ? & H & _). apply nth_error_Some. congruence. }
    destruct (nth_error hs i) as [root|] eqn:Eh; [|apply nth_error_None in Eh; lia].
    destruct (W i r root Hw Eh) as (vs & Ev & HR). rewrite Hv in Ev. injection Ev as <-.
    destruct (evaluate_root ev fi nv Hpush b root _ Ib HR) as (k & b' & _ & _ & G).
    exists hs, b, root, k, b'. auto.
  Qed.

  Lemma C20_lemma : forall b0 calls (roots : list (nat * nat)),
    bocage_new fi = Ret b0 -> calls_fine rules calls ->
    (forall i r, In (i, r) roots -> evaluated fi calls i r) ->
    exists hs b handles fuel0 b',
      build simple_forest calls b0 = Ret (hs, b) /\
      Forall2 (fun ir h => nth_error hs (fst ir) = Some h) roots handles /\
      forall fuel, fuel0 <= fuel ->
        evaluate_each ev fuel handles b = Ret (map (fun ir => nth (snd ir) (call_values ev fi nulls calls) []) roots, b').
  Proof.
    intros b0 calls roots H0 Hf HR.
    destruct (build_evaluates ev fi nv nulls Hnulls Hac b0 calls H0 Hf) as (hs & b & Eb & Len & Ib & W & A & _).
    assert (X : exists handles, Forall2 (fun ir h => nth_error hs (fst ir) = Some h) roots handles /\
      Forall2 (fun ir h => root_value ev fi nv b h (nth (snd ir) (call_values ev fi nulls calls) [])) roots handles).
    { clear Eb. induction roots as [|[i r] roots IH].
      - exists []. auto.
      - destruct IH as (handles & F1 & F2). { intros; apply HR; cbn; auto. }
        assert (Hi : i < length calls).
        { destruct (HR i r (or_introl eq_refl)) as [(? & ? & ? & ? & ? & H & _)|(_ & ? & ? & H & _)]; apply nth_error_Some; congruence. }
        destruct (nth_error hs i) as [h|] eqn:Eh; [|apply nth_error_None in Eh; lia].
        exists (h :: handles). split; constructor; auto. cbn [fst snd].
        destruct (HR i r (or_introl eq_refl)) as [Hw|(-> & s & alts & Hc & Hl)].
        + destruct (W i r h Hw Eh) as (vs & Ev & Hv). now rewrite (nth_error_nth _ _ _ Ev).
        + destruct (A r s alts h Hc Hl Eh) as (vs & Ev & Hv). now rewrite (nth_error_nth _ _ _ Ev). }
    destruct X as (handles & F1 & F2).
    set (vals := map (fun ir : nat * nat => nth (snd ir) (call_values ev fi nulls calls) []) roots).
    destruct (evaluate_roots ev fi nv Hpush (combine handles vals) b Ib) as (k & b' & G).
    { subst vals. clear F1 HR. induction F2 as [|ir h roots handles Hh _ IH]; cbn [map combine]; constructor; auto. }
    exists hs, b, handles, k, b'. split; [auto|]. split; [auto|]. intros fuel Hfu. specialize (G fuel Hfu).
    assert (L : length handles = length vals).
    { subst vals. rewrite map_length. symmetry. clear - F1. induction F1; cbn; auto. }
    assert (M : forall (a : list nat) (c : list (list E)), length a = length c -> map fst (combine a c) = a /\ map snd (combine a c) = c).
    { induction a as [|x a IH]; intros [|y c] HL; cbn in *; try discriminate; auto.
      destruct (IH c) as [-> ->]; auto. }
    destruct (M handles vals L) as [Mf Ms]. rewrite Mf, Ms in G. exact G.
  Qed.

  Lemma flat_map_each1 : forall A B (f : A -> list B) l, (forall a, In a l -> f a <> []) ->
    length (flat_map f l) = length l -> forall a, In a l -> exists x, f a = [x].
  Proof.
    intros A B f l. assert (LE : forall l, (forall a, In a l -> f a <> []) -> length l <= length (flat_map f l)).
    { clear l. induction l as [|a l IH]; intros H; cbn; [lia|]. rewrite app_length.
      pose proof (IH (fun a Ha => H a (or_intror Ha))).
      destruct (f a) eqn:Ef; [elim (H a (or_introl eq_refl) Ef)|]. cbn. lia. }
    induction l as [|a l IH]; intros H HL b Hb; [destruct Hb|].
    cbn in HL. rewrite app_length in HL. pose proof (LE l (fun a Ha => H a (or_intror Ha))) as L.
    destruct (f a) as [|x xs] eqn:Ef; [elim (H a (or_introl eq_refl) Ef)|]. cbn in HL.
    assert (xs = []) as -> by (destruct xs; [auto|cbn in HL; lia]). cbn in HL.
    destruct Hb as [<-|Hb]; [eauto|]. apply IH; [intros; apply H; cbn; auto|lia|auto].
  Qed.

  Lemma first_last_map : forall A B (f : A -> B) l, first_last (map f l) = map f (first_last l).
  Proof. intros A B f [|x l]; cbn; [auto|]. now rewrite map_app. Qed.

  Lemma rotate_first_last : forall A (l : list A), rotate l = first_last l.
  Proof. intros A [|x l]; reflexivity. Qed.

  Lemma root_ambiguous : forall s alts ts, shape (FSum s alts) -> trees (FSum s alts) = map (fun t => [t]) ts ->
    length ts = length alts -> fev ev fi nulls (FSum s alts) = concat (first_last (map (value ev fi nulls) ts)).
  Proof.
    intros s alts ts HS HT HL. apply shape_sum in HS. destruct HS as [_ HS]. rewrite Forall_forall in HS.
    cbn [trees] in HT. cbn [SimpleValue.fev].
    assert (One : forall a, In a alts -> exists xs, trees (snd a) = [xs]).
    { intros a Ha. destruct (flat_map_each1 _ _ (fun a : nat * fnode => map (fun xs => [Node (fst a) xs]) (trees (snd a))) alts) with (a := a) as [x Hx]; auto.
      - intros b Hb Z. apply map_eq_nil in Z. now apply (shape_trees (snd b)); auto.
      - rewrite HT, map_length. auto.
      - apply map_single in Hx. destruct Hx as (xs & Hx & _). eauto. }
    rewrite rotate_first_last. f_equal. f_equal.
    clear HL. revert ts HT. induction alts as [|[d T] alts IH]; intros ts HT.
    - destruct ts; [reflexivity|discriminate].
    - destruct (One (d, T) (or_introl eq_refl)) as [xs Hx]. cbn [snd] in Hx.
      cbn [flat_map fst snd] in HT. rewrite Hx in HT. cbn [map app] in HT.
      destruct ts as [|t ts]; [discriminate|]. cbn [map] in HT. injection HT as <- HT.
      cbn [map fst snd]. f_equal.
      + apply node_value; [rewrite Hx; cbn; auto|]. apply unambiguous_value; auto. apply (HS (d, T)). cbn; auto.
      + apply IH; auto; intros a Ha; [apply HS|apply One]; cbn; auto.
  Qed.

  Lemma calls_nodes : forall calls, calls_fine rules calls ->
    exists Ts p, build free_forest calls [] = Ret (Ts, p) /\ length Ts = length calls /\
      (forall i, nth_error (represented calls) i = option_map trees (nth_error Ts i)) /\
      (forall i, nth_error (call_values ev fi nulls calls) i = option_map (fev ev fi nulls) (nth_error Ts i)) /\
      (forall i T, nth_error Ts i = Some T -> shape T).
  Proof.
    intros calls Hf. destruct (free_build fi calls Hf) as (Ts & p & EB & Ht & HF).
    assert (HFp : Forall2 (fun T c => is_fprod T = is_product c) Ts calls) by (eapply Forall2_impl2; [|exact HF]; cbn; tauto).
    destruct (call_values_fev ev fi nulls calls Ts p EB HFp) as [HV HL].
    exists Ts, p. split; [auto|]. split; [auto|]. split; [|split].
    - intros i. rewrite <- Ht. apply nth_error_map.
    - intros i. now apply nth_call_values.
    - intros j T' HT'. pose proof (Forall2_nth _ _ _ _ _ j HF) as Y. rewrite HT' in Y. destruct (nth_error calls j); [tauto|contradiction].
  Qed.

  Lemma C17_root_lemma : forall b0 calls i r s alts ts,
    bocage_new fi = Ret b0 -> calls_fine rules calls -> evaluated fi calls i r ->
    nth_error calls r = Some (CallSum s alts) ->
    nth_error (represented calls) r = Some (map (fun t => [t]) ts) -> length ts = length alts ->
    exists hs b root fuel0 b',
      build simple_forest calls b0 = Ret (hs, b) /\ nth_error hs i = Some root /\
      forall fuel, fuel0 <= fuel ->
        evaluate ev fuel b root = Ret (concat (first_last (map (value ev fi nulls) ts)), b').
  Proof.
    intros b0 calls i r s alts ts H0 Hf Hev Hc Hr HL.
    destruct (C20_lemma b0 calls [(i, r)] H0 Hf) as (hs & b & handles & k & b' & Eb & F & G).
    { intros i' r' [X|[]]. injection X as <- <-. auto. }
    inversion F as [|? root ? ? Hroot F']; subst. inversion F'; subst. cbn [fst] in Hroot.
    exists hs, b, root, k, b'. split; [auto|]. split; [auto|]. intros fuel Hfu. specialize (G fuel Hfu).
    unfold evaluate_each in G. cbn [foldM map snd] in G.
    destruct (evaluate ev fuel b root) as [[vs b1]| |]; cbn [bind] in G; try discriminate.
    injection G as Gv Gb. subst vs b1. f_equal. f_equal.
    destruct (calls_nodes calls Hf) as (Ts & p & EB & HLen & Ht & Hv & HS).
    destruct (nth_error Ts r) as [T|] eqn:ET.
    2:{ apply nth_error_None in ET. assert (r < length calls) by (apply nth_error_Some; congruence). lia. }
    rewrite (nth_error_nth _ _ _ (eq_trans (Hv r) (f_equal _ ET))).
    rewrite Ht, ET in Hr. cbn in Hr. injection Hr as Hr.
    destruct (build_nodes calls Ts p EB HLen r _ T Hc ET) as (q & HFq & ->).
    apply root_ambiguous; auto.
    - now apply (HS r).
    - apply Forall2_length2 in HFq. congruence.
  Qed.

  (** *** Nulling handles *)
  Lemma mentioned_range : forall s, mentioned fi s -> s < nulling_symbol_count fi + 1.
  Proof.
    intros s [(d & dir & H)|(l & a & b & H & D)].
    - eapply eliminated_range; eauto.
    - apply intermediate_range in H. destruct D as [-> |[-> | ->]]; tauto.
  Qed.

  Lemma nulling_handle : forall b0 s, bocage_new fi = Ret b0 -> mentioned fi s ->
    f_nulling simple_forest s b0 = Ret s /\ s < length (b_graph b0) /\
    exists n, gev ev fi nv n (b_graph b0) s = Some (nulls s).
  Proof.
    intros b0 s H0 Hm. apply mentioned_range in Hm.
    destruct (new_at fi b0 H0) as (_ & _ & Hat).
    split; [reflexivity|].
    destruct (nulling_value ev fi nv nulls Hnulls (b_graph b0) Hac Hat s Hm) as [n Hn]. split; [|eauto].
    specialize (Hat s Hm). unfold nulling_at in Hat. apply nth_error_Some.
    destruct (nulled_rhs fi s) as [[a b]|]; [destruct Hat as (f & -> & _)|rewrite Hat]; discriminate.
  Qed.
End Lemmas3.

Lemma bocage_new_iff : forall fi, (exists b0, bocage_new fi = Ret b0) <-> (N.of_nat (nulling_symbol_count fi) < 1048576)%N.
Proof.
  intros fi. split.
  - intros [b0 H]. unfold bocage_new in H.
    destruct (N.ltb_spec (N.of_nat (nulling_symbol_count fi)) 1048576); [auto|discriminate].
  - intros H. destruct (bocage_new_spec fi H) as (b & Hb & _). eauto.
Qed.

Lemma C35_lemma : forall E (ev : evaluator E) fi nv nulls,
  pushes ev nv -> nulls_ok fi nv nulls -> nulling_acyclic fi ->
  forall b0 s d v w, bocage_new fi = Ret b0 -> mentioned fi s ->
  f_nulling simple_forest s b0 = Ret s /\ s < length (b_graph b0) /\
  exists root b fuel0 b', wrapped_nulling s d v w b0 = Ret (root, b) /\
    forall fuel, fuel0 <= fuel -> evaluate ev fuel b root = Ret (nulls s, b').
Proof.
  intros E ev fi nv nulls Hpush Hnulls Hac b0 s d v w H0 Hm.
  destruct (nulling_handle ev fi nv nulls Hnulls Hac b0 s H0 Hm) as (A & B & n & Hn).
  destruct (new_at fi b0 H0) as (Hi & Hc & _).
  split; [auto|]. split; [auto|].
  unfold wrapped_nulling. cbn [f_leaf f_nulling f_product f_begin_sum f_push_summand f_sum simple_forest bind b_product].
  unfold b_sum, with_graph. cbn [b_graph b_info b_count bind it_dot it_node]. rewrite Hc. cbn [Nat.add].
  eexists _, _.
  set (g := ((b_graph b0 ++ [SLeaf (fi_sof (b_info b0)) v]) ++ [SRule (length (b_graph b0)) s]) ++
     [SProduct (Some d) (length ((b_graph b0 ++ [SLeaf (fi_sof (b_info b0)) v]) ++ [SRule (length (b_graph b0)) s]) - 1)]).
  assert (Eg : g = b_graph b0 ++ [SLeaf (fi_sof (b_info b0)) v; SRule (length (b_graph b0)) s; SProduct (Some d) (length (b_graph b0) + 1)]).
  { subst g. rewrite <- !app_assoc. cbn [app]. do 3 f_equal. f_equal. f_equal. rewrite !app_length. cbn. lia. }
  edestruct (evaluate_root ev fi nv Hpush (mkBocage g (b_info b0) 0) (length g - 1) (nulls s)) as (k & b' & _ & _ & G).
  - exact Hi.
  - exists s. cbn [b_graph]. rewrite Eg.
    exists n. split.
    + unfold skip_wrapper. cbn [b_graph b_info]. rewrite app_length. cbn [length].
      assert (At : forall i x, nth_error [SLeaf (fi_sof (b_info b0)) v; SRule (length (b_graph b0)) s; SProduct (Some d) (length (b_graph b0) + 1)] i = Some x ->
        forall j, j = length (b_graph b0) + i ->
        idx (b_graph b0 ++ [SLeaf (fi_sof (b_info b0)) v; SRule (length (b_graph b0)) s; SProduct (Some d) (length (b_graph b0) + 1)]) j = Ret x).
      { intros i x Hx j ->. unfold idx. rewrite nth_error_app2 by lia. now replace (length (b_graph b0) + i - length (b_graph b0)) with i by lia; rewrite Hx. }
      rewrite (At 2 _ eq_refl) by lia. cbn [bind]. rewrite (At 1 _ eq_refl) by lia. cbn [bind].
      rewrite (At 0 _ eq_refl) by lia. cbn [bind]. now rewrite Nat.eqb_refl.
    + eapply gev_up; [|apply Nat.le_refl|exact Hn]. intros. now apply app_keeps.
  - exists k, b'. split; [reflexivity|exact G].
Qed.

(** An intermediate symbol's handle is not a root. *)
Lemma C35_direct_lemma : forall E (ev : evaluator E) fi b0 s a b fuel, bocage_new fi = Ret b0 -> mentioned fi s ->
  nulling_acyclic fi ->
  nulled_rhs fi s = Some (a, b) -> evaluate ev fuel b0 s = Panic.
Proof.
  intros E ev fi b0 s a b fuel H0 Hm Hac Hr. pose proof (mentioned_range fi s Hm) as Hs.
  destruct (new_at fi b0 H0) as (_ & _ & Hat). specialize (Hat s Hs) as X. rewrite Hr in X. destruct X as (f & E1 & E2).
  unfold evaluate, skip_wrapper. rewrite (idx_some _ _ _ _ E1). cbn [bind]. rewrite (idx_some _ _ _ _ E2). cbn [bind].
  apply nulled_rhs_in in Hr. destruct (intermediate_range fi _ _ _ Hr) as (_ & Ha & _).
  specialize (Hat a Ha). unfold nulling_at in Hat. destruct (nulled_rhs fi a) as [[a' b']|].
  - destruct Hat as (f' & E3 & _). rewrite (idx_some _ _ _ _ E3). reflexivity.
  - rewrite (idx_some _ _ _ _ Hat). reflexivity.
Qed.

(** ** Examples and counterexamples *)

(** an evaluator that builds syntax trees *)
Inductive syntax := XLeaf (s : sym) (value : nat) | XRule (id : nat) (args : list syntax) | XNull (s : sym) | XDefault.
Definition syntax_eval : evaluator syntax :=
  mkEval XLeaf XRule (fun s results => results ++ [XNull s]) XDefault.
(** evaluators whose [nulling] pushes nothing, or two values *)
Definition pushes_none : evaluator syntax := mkEval XLeaf XRule (fun _ results => results) XDefault.
Definition pushes_two : evaluator syntax := mkEval XLeaf XRule (fun s results => results ++ [XNull s; XNull s]) XDefault.

(** Rules 0 (wrapper, no origin), 1 and 2 (origins 10, 20), 3 (no origin) and 4 (origin
    40, symbol 6 nulled on its right).  Symbol 6 stands for 4 and 5; 9 is the start of file. *)
Definition ex_info : forest_info :=
  mkFI [None; Some 10; Some 20; None; Some 40] [(6, 4, 5)] [None; None; None; None; Some (6, true)] 9 8 0.

Definition ex_nulls (s : sym) : list syntax := if s =? 6 then [XNull 4; XNull 5] else [XNull s].

Lemma ex_nulls_ok : nulls_ok ex_info XNull ex_nulls.
Proof.
  intros s. unfold nulled_rhs, ex_nulls. cbn.
  destruct s as [|[|[|[|[|[|[|s]]]]]]]; reflexivity.
Qed.
Lemma ex_acyclic : nulling_acyclic ex_info.
Proof. exists (fun s => if s =? 6 then 1 else 0). intros l a b [H|[]]. injection H as <- <- <-. cbn. lia. Qed.

(** sof, then a node of rule 1 with two arguments: a leaf, and a node of rule 3
    (spliced) over a node of rule 4 (one argument nulled) and a leaf *)
Definition ex_calls : list call :=
  [CallLeaf 9 0; CallLeaf 1 11; CallLeaf 2 12; CallSum 3 [(4, 1)]; CallProduct 3 2;
   CallSum 3 [(3, 4)]; CallProduct 1 5; CallSum 7 [(1, 6)]; CallProduct 0 7; CallSum 8 [(0, 8)]].

Lemma ex_calls_fine : calls_fine 5 ex_calls.
Proof.
  assert (Fine : forall i c, nth_error ex_calls i = Some c -> i < 10).
  { intros i c H. change 10 with (length ex_calls). apply nth_error_Some. congruence. }
  intros i c H. pose proof (Fine _ _ H) as L.
  do 10 (destruct i as [|i]; [injection H as <-; cbn;
    repeat match goal with
           | |- _ /\ _ => split
           | |- _ <> _ => discriminate
           | |- forall _ _, _ -> _ => let X := fresh in intros ? ? [X|[]]; injection X as <- <-; cbn; eexists; split; [reflexivity|cbn; intros; try discriminate]
           end; auto; lia|]).
  lia.
Qed.

(** an ambiguous leaf pair below an unambiguous rule: the two readings of the inner
    node both become arguments of the outer one *)
Definition amb_calls : list call :=
  [CallLeaf 9 0; CallLeaf 1 11; CallLeaf 2 12; CallProduct 1 2; CallSum 3 [(1, 3); (2, 3)]; CallLeaf 1 13;
   CallProduct 4 5; CallSum 7 [(2, 6)]; CallProduct 0 7; CallSum 8 [(0, 8)]].
Definition amb_root_calls : list call :=
  [CallLeaf 9 0; CallLeaf 1 11; CallLeaf 2 12; CallProduct 1 2; CallSum 3 [(1, 3); (2, 3)]; CallProduct 0 4; CallSum 8 [(0, 5)]].

Lemma amb_calls_fine : calls_fine 5 amb_calls.
Proof.
  intros i c H. assert (L : i < 10). { change 10 with (length amb_calls). apply nth_error_Some. congruence. }
  do 10 (destruct i as [|i]; [injection H as <-; cbn;
    repeat match goal with
           | |- _ /\ _ => split
           | |- _ <> _ => discriminate
           | |- forall _ _, _ -> _ => let X := fresh in intros ? ? X; repeat (destruct X as [X|X]; [injection X as <- <-; cbn; eexists; split; [reflexivity|cbn; intros; try discriminate]|]); try contradiction
           end; auto; lia|]).
  lia.
Qed.
Lemma amb_root_calls_fine : calls_fine 5 amb_root_calls.
Proof.
  intros i c H. assert (L : i < 7). { change 7 with (length amb_root_calls). apply nth_error_Some. congruence. }
  do 7 (destruct i as [|i]; [injection H as <-; cbn;
    repeat match goal with
           | |- _ /\ _ => split
           | |- _ <> _ => discriminate
           | |- forall _ _, _ -> _ => let X := fresh in intros ? ? X; repeat (destruct X as [X|X]; [injection X as <- <-; cbn; eexists; split; [reflexivity|cbn; intros; try discriminate]|]); try contradiction
           end; auto; lia|]).
  lia.
Qed.

Lemma C17_refuted_lemma : exists fi calls t1 t2,
  calls_fine (length (fi_nulling_eliminated fi)) calls /\
  nth_error (represented calls) (length calls - 3) = Some [[t1]; [t2]] /\ t1 <> t2 /\
  wraps fi calls (length calls - 1) (length calls - 3) /\
  (forall ts, length ts = 2 -> build_and_evaluate syntax_eval 100 fi calls <> Ret ts) /\
  (exists x y z, build_and_evaluate syntax_eval 100 fi calls = Ret [XRule 20 [XRule 20 [x; y]; XRule 10 [x; y]; z]]).
Proof.
  assert (V : build_and_evaluate syntax_eval 100 ex_info amb_calls =
    Ret [XRule 20 [XRule 20 [XLeaf 1 11; XLeaf 2 12]; XRule 10 [XLeaf 1 11; XLeaf 2 12]; XLeaf 1 13]]) by (vm_compute; reflexivity).
  exists ex_info, amb_calls. eexists _, _. split; [exact amb_calls_fine|]. split; [vm_compute; reflexivity|].
  split; [discriminate|]. split; [exists 8, 0, 8, 0, 0; repeat split|]. rewrite V. split.
  - intros ts H X. injection X as <-. discriminate.
  - eauto.
Qed.

Lemma eval_loop_more : forall E (ev : evaluator E) n s, eval_loop ev n s = Panic -> forall m, n <= m -> eval_loop ev m s = Panic.
Proof.
  intros E ev n. induction n as [|n IH]; intros [[b rs] st] H m Hm.
  - cbn [eval_loop] in H. destruct (1 <? length st); discriminate.
  - destruct m as [|m]; [lia|]. cbn [eval_loop] in *. destruct (1 <? length st); [|discriminate].
    destruct (eval_step ev (b, rs, st)) as [s'| |]; cbn [bind] in *; try discriminate; auto. apply IH; [auto|lia].
Qed.

Lemma C39_refuted_lemma : exists fi calls,
  calls_fine (length (fi_nulling_eliminated fi)) calls /\ nulling_acyclic fi /\
  (forall s results, ev_nulling pushes_none s results = results) /\
  (forall fuel, 100 <= fuel -> build_and_evaluate pushes_none fuel fi calls = Panic).
Proof.
  exists ex_info, ex_calls. split; [exact ex_calls_fine|]. split; [exact ex_acyclic|]. split; [reflexivity|].
  intros fuel Hf.
  pose (b0 := match bocage_new ex_info with Ret b => b | _ => mkBocage [] ex_info 0 end).
  pose (hb := match build simple_forest ex_calls b0 with Ret x => x | _ => ([], b0) end).
  assert (E0 : bocage_new ex_info = Ret b0) by (vm_compute; reflexivity).
  assert (E1 : build simple_forest ex_calls b0 = Ret (fst hb, snd hb)) by (vm_compute; reflexivity).
  assert (E2 : hd_error (rev (fst hb)) = Some 17) by (vm_compute; reflexivity).
  assert (E3 : skip_wrapper pushes_none (snd hb) 17 = Ret (inl 15)) by (vm_compute; reflexivity).
  assert (E4 : eval_loop pushes_none 100 (snd hb, [], [new_work 0 0; new_work 15 0]) = Panic) by (vm_compute; reflexivity).
  unfold build_and_evaluate. rewrite E0. cbn [bind]. rewrite E1. cbn [bind]. rewrite E2. cbn [bind unwrap].
  unfold evaluate. rewrite E3. cbn [bind]. rewrite (eval_loop_more _ _ 100 _ E4 fuel Hf). reflexivity.
Qed.

Lemma value_same : forall E (ev1 ev2 : evaluator E) fi nulls calls,
  ev_leaf ev1 = ev_leaf ev2 -> ev_product ev1 = ev_product ev2 ->
  call_values ev1 fi nulls calls = call_values ev2 fi nulls calls.
Proof.
  intros E ev1 ev2 fi nulls calls Hl Hp. unfold call_values. f_equal.
  assert (S : forall before c, call_value ev1 fi nulls before c = call_value ev2 fi nulls before c).
  { intros before c. destruct c as [s v|l r|s alts]; cbn [call_value]; [now rewrite Hl|reflexivity|].
    f_equal. f_equal. apply map_ext. intros [d i]. unfold reduce. now rewrite Hp. }
  induction calls as [|c calls IH] using rev_ind; [reflexivity|]. rewrite !fold_left_app. cbn [fold_left]. rewrite IH, S. reflexivity.
Qed.

Lemma C39_first_lemma : forall E (ev1 ev2 : evaluator E) fi nv nulls,
  (forall s results, ev_nulling ev1 s results = results ++ [nv s]) ->
  (forall s results, exists more, ev_nulling ev2 s results = results ++ nv s :: more) ->
  ev_leaf ev1 = ev_leaf ev2 -> ev_product ev1 = ev_product ev2 ->
  nulls_ok fi nv nulls -> nulling_acyclic fi ->
  forall b0 calls i r, bocage_new fi = Ret b0 -> calls_fine (length (fi_nulling_eliminated fi)) calls ->
  evaluated fi calls i r ->
  exists hs b root fuel0 vs b1 b2,
    build simple_forest calls b0 = Ret (hs, b) /\ nth_error hs i = Some root /\
    forall fuel, fuel0 <= fuel ->
      evaluate ev1 fuel b root = Ret (vs, b1) /\ evaluate ev2 fuel b root = Ret (vs, b2).
Proof.
  intros E ev1 ev2 fi nv nulls H1 H2 Hl Hp Hn Ha b0 calls i r H0 Hf He.
  assert (P1 : pushes ev1 nv) by (intros s rs; exists []; apply H1).
  assert (X : forall i' r', In (i', r') [(i, r)] -> evaluated fi calls i' r') by (intros ? ? [X|[]]; injection X as <- <-; auto).
  destruct (C20_lemma ev1 fi nv nulls P1 Hn Ha b0 calls [(i, r)] H0 Hf X) as (hs & b & hd1 & k1 & b1 & B1 & F1 & G1).
  destruct (C20_lemma ev2 fi nv nulls H2 Hn Ha b0 calls [(i, r)] H0 Hf X) as (hs' & b' & hd2 & k2 & b2 & B2 & F2 & G2).
  rewrite B1 in B2. injection B2 as <- <-.
  inversion F1 as [|? root ? ? R1 F1']; subst. inversion F1'; subst. inversion F2 as [|? root2 ? ? R2 F2']; subst. inversion F2'; subst.
  cbn [fst] in *. rewrite R1 in R2. injection R2 as <-.
  exists hs, b, root, (k1 + k2), (nth r (call_values ev1 fi nulls calls) []), b1, b2. split; [auto|]. split; [auto|].
  intros fuel Hfu. specialize (G1 fuel ltac:(lia)). specialize (G2 fuel ltac:(lia)).
  unfold evaluate_each in *. cbn [foldM map snd] in *.
  destruct (evaluate ev1 fuel b root) as [[v1 c1]| |]; cbn [bind] in G1; try discriminate.
  destruct (evaluate ev2 fuel b root) as [[v2 c2]| |]; cbn [bind] in G2; try discriminate.
  injection G1 as -> ->. injection G2 as -> ->. now rewrite (value_same E ev1 ev2 fi nulls calls Hl Hp).
Qed.
