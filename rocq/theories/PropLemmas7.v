(** PropLemmas7: parsing a token list and evaluating the finished node. *)
From Coq Require Import List Arith Bool Lia.
From Verif Require Import Base BaseProofs Item Grammar DefaultGrammar Forest ForestSpec Recognizer Drive Parse ClientSpec Spec SpecFacts
  CfgSpec TreeSpec EvalSpec SimpleBocage SimpleProofs SimpleValue SimpleTop ForestProg RecogAny ParseFacts PropLemmas PropLemmas4 ExampleMath.
Import ListNotations.
Local Open Scope res_scope.

Lemma numbered_combine : forall syms i, numbered i syms = combine syms (seq i (length syms)).
Proof. induction syms as [|s syms IH]; intros i; [reflexivity|]. cbn. now rewrite IH. Qed.

Section Client.
  Variable P : perf.
  Variables (c : pcfg) (nsyms : nat) (w : wrapped_root) (d0 : nat) (g0 : sym) (g : dgrammar).
  Hypothesis Hleo : LEO P = false.
  Hypothesis HB : built c nsyms w d0 g0 g.
  Variable b0 : bocage.
  Hypothesis Hb0 : bocage_new (g_forest_info g) = Ret b0.
  Context {E : Type}.
  Variables (ev : evaluator E) (nv : sym -> E) (nulls : sym -> list E).
  Hypothesis Hpush : pushes ev nv.
  Hypothesis Hnulls : nulls_ok (g_forest_info g) nv nulls.
  Hypothesis Hacyc : nulling_acyclic (g_forest_info g).
  Notation user syms := (forall s : sym, In s syms -> user_terminal c nsyms w s).

  Lemma P_client_value : forall tokens syms, mapped g tokens syms -> user syms -> sorted_rules c ->
    forall t0, (forall t, input_tree c w g0 (combine syms (seq 0 (length syms))) t <-> t = t0) ->
    exists fuel0, forall fuel, fuel0 <= fuel ->
      parse_and_evaluate ev P g fuel tokens =
        Ret (match t0 with
             | Node _ [_; t] => value ev (g_forest_info g) nulls t
             | _ => ev_nulling ev (w_inner w) []
             end).
  Proof.
    intros tokens syms Hm Hu Hs t0 Ht0. rewrite <- numbered_combine in Ht0.
    destruct (P_value P c nsyms w d0 g0 g Hleo HB b0 Hb0 ev nv nulls Hpush Hnulls Hacyc after0 (numbered 0 syms)) with (t0 := t0)
      as (n & h & b & Htot & Hval); auto.
    { intros s v H. apply Hu. rewrite <- (numbered_fst syms 0). now apply (in_map fst) in H. }
    destruct (Hval 1) as (fuel0 & b' & Hev). exists (Nat.max n fuel0). intros fuel Hf. specialize (Htot fuel). specialize (Hev fuel ltac:(lia)).
    replace (fuel <? n) with false in Htot by (symmetry; apply Nat.ltb_ge; lia).
    unfold parse_and_evaluate. rewrite Hb0. cbn [bind]. destruct (r_new g b0) as [st0| |] eqn:En; cbn [bind] in Htot |- *; try discriminate.
    assert (Hh : r_hint st0 = None).
    { unfold r_new in En. destruct (idx _ 0); try discriminate. cbn [bind] in En. destruct (prediction_row _ _); try discriminate. cbn [bind] in En.
      destruct (predict _ _ _); try discriminate. cbn [bind] in En. destruct (upd _ _ _); try discriminate. cbn [bind] in En. now injection En as <-. }
    pose proof (parse_feed simple_forest P g fuel tokens syms st0 Hm Hh) as Hp. cbn zeta in Hp.
    rewrite (sof_sym c nsyms w d0 g0 g HB) in Hp. unfold parse_forest in Htot.
    destruct (feed_all _ _ _ _ _ st0) as [[[] st']| |]; cbn [bind] in Htot; try discriminate.
    destruct (finished_node simple_forest g st') as [o| |] eqn:Ef; cbn [bind] in Htot; try discriminate. injection Htot as -> <-.
    unfold is_finished in Hp. rewrite Ef in Hp. cbn [bind is_null negb] in Hp. rewrite Hp. cbn [bind]. rewrite Ef. cbn [bind unwrap].
    unfold evaluate_each in Hev. cbn [repeat foldM] in Hev.
    destruct (evaluate ev fuel (r_forest st') h) as [[vs b1]| |]; cbn [bind] in Hev |- *; try discriminate. cbn [app] in Hev. congruence.
  Qed.

  Lemma P_client_rejects : forall tokens syms, mapped g tokens syms -> user syms -> ~ sentence c w g0 syms ->
    exists fuel0, forall fuel, fuel0 <= fuel -> parse_and_evaluate ev P g fuel tokens = Panic.
  Proof.
    intros tokens syms Hm Hu Hns.
    assert (HC : configured simple_forest b0 P c nsyms w d0 g0 g).
    { constructor; auto. exists simple_ok. split; [exact simple_usable|]. now destruct (new_at _ _ Hb0) as (_ & H & _). }
    destruct (P_parse_decides _ _ _ _ _ _ _ _ _ HC tokens syms Hm Hu) as (n & r & Ht & Hr).
    exists n. intros fuel Hf. specialize (Ht fuel). replace (fuel <? n) with false in Ht by (symmetry; apply Nat.ltb_ge; lia).
    unfold parse_and_evaluate. rewrite Hb0. cbn [bind]. destruct (r_new g b0) as [st0| |]; cbn [bind] in *; try discriminate.
    destruct (parse simple_forest P g fuel st0 tokens) as [[r' st1]| |]; cbn [bind] in *; try discriminate. injection Ht as ->.
    destruct r as [[]| | |]; try reflexivity. exfalso. now apply Hns, Hr.
  Qed.
End Client.

(** ** What the leaves are told *)

(** the values of nulled symbols always exist *)
Lemma nulls_exist : forall E (fi : forest_info) (nv : sym -> E), nulling_acyclic fi -> exists nulls, nulls_ok fi nv nulls /\
  (forall Q : E -> Prop, (forall s, Q (nv s)) -> forall s, Forall Q (nulls s)).
Proof.
  intros E fi nv [rank Hrank].
  set (f := fix f (n : nat) (s : sym) : list E :=
    match nulled_rhs fi s with
    | None => [nv s]
    | Some (a, b) => match n with 0 => [] | S n => f n a ++ f n b end
    end).
  assert (F : forall n m s, rank s <= n -> rank s <= m -> f n s = f m s).
  { induction n as [|n IH]; intros m s Hn Hm; destruct m as [|m]; cbn [f]; destruct (nulled_rhs fi s) as [[a b]|] eqn:Er; auto;
      apply nulled_rhs_in in Er; destruct (Hrank _ _ _ Er); try lia.
    rewrite (IH m a), (IH m b) by lia. reflexivity. }
  exists (fun s => f (rank s) s). split.
  - intros s. destruct (rank s) as [|n] eqn:En; cbn [f]; destruct (nulled_rhs fi s) as [[a b]|] eqn:Er; auto;
      apply nulled_rhs_in in Er; destruct (Hrank _ _ _ Er); [lia|].
    rewrite (F n (rank a) a), (F n (rank b) b) by lia. reflexivity.
  - intros Q HQ s. generalize (rank s). intros n. revert s. induction n as [|n IH]; intros s; cbn [f]; destruct (nulled_rhs fi s) as [[a b]|]; auto.
    apply Forall_app. auto.
Qed.

Lemma concat_nil : forall A (l : list (list A)), Forall (fun x => x = []) l -> concat l = [].
Proof. induction 1 as [|x l -> _ IH]; auto. Qed.

Lemma collect_value : forall fi nulls, (forall s, concat (nulls s) = []) -> forall t, concat (value collect fi nulls t) = yield t.
Proof.
  intros fi nulls Hn. fix IH 1. intros [s v|d kids]; [reflexivity|].
  assert (K : concat (flat_map (value collect fi nulls) kids) = flat_map yield kids).
  { induction kids as [|t kids IHk]; [reflexivity|]. cbn [flat_map]. now rewrite concat_app, IH, IHk. }
  cbn [value yield]. rewrite <- K. unfold reduce.
  assert (X : forall args, concat (match fi_external_origin fi d with Some (Some id) => [ev_product collect id args] | _ => args end) = concat args).
  { intros args. destruct (fi_external_origin fi d) as [[id|]|]; auto. cbn. apply app_nil_r. }
  rewrite X. destruct kids as [|t [|t' kids]]; auto. unfold restore.
  destruct (nth_error (fi_nulling_eliminated fi) d) as [[[s []]|]|]; auto; rewrite concat_app, Hn; [apply app_nil_r|reflexivity].
Qed.

Lemma P_client_leaves : forall P c nsyms w d0 g0 g, LEO P = false -> built c nsyms w d0 g0 g -> sorted_rules c ->
  nulling_acyclic (g_forest_info g) -> forall b0, bocage_new (g_forest_info g) = Ret b0 ->
  forall tokens syms, mapped g tokens syms -> (forall s : sym, In s syms -> user_terminal c nsyms w s) ->
  (exists t0, forall t, input_tree c w g0 (combine syms (seq 0 (length syms))) t <-> t = t0) ->
  exists fuel0 vs, concat vs = combine syms (seq 0 (length syms)) /\
    forall fuel, fuel0 <= fuel -> parse_and_evaluate collect P g fuel tokens = Ret vs.
Proof.
  intros P c nsyms w d0 g0 g HL HB Hs Ha b0 Hb tokens syms Hm Hu (t0 & Ht).
  destruct (nulls_exist _ (g_forest_info g) (fun _ => [] : list (sym * nat)) Ha) as (nulls & Hn & Hall).
  destruct (P_client_value P c nsyms w d0 g0 g HL HB b0 Hb collect (fun _ => []) nulls) with (tokens := tokens) (syms := syms) (t0 := t0)
    as (fuel0 & H); auto.
  { intros s results. now exists []. }
  eexists fuel0, _. split; [|exact H].
  destruct (proj2 (Ht t0) eq_refl); [|reflexivity]. apply collect_value. intros s. apply concat_nil. now apply Hall.
Qed.
