(** ReuseParse: several parses on one forest, with evaluations in between. *)
From Coq Require Import List Arith Bool Lia Permutation NArith.
From Verif Require Import Base BaseProofs Item Grammar DefaultGrammar Forest ForestSpec Recognizer Drive ClientSpec Spec SpecFacts
  ChartSpec CfgSpec TablesProofs Den Sim SimpleBocage SimpleEval SimpleProofs SimpleValue EvalSpec TreeSpec Trees ForestProg ForestValue
  SimpleTop PropLemmas4 CompactTop RootTop Reuse ReuseParseSpec.
Import ListNotations.
Local Open Scope res_scope.

Section Uses.
  Variable P : perf.
  Variables (c : pcfg) (nsyms : nat) (w : wrapped_root) (d0 : nat) (g0 : sym) (g : dgrammar).
  Hypothesis Hleo : LEO P = false.
  Hypothesis HB : shaped_built c nsyms w d0 g0 g.
  Notation fi := (g_forest_info g).
  Notation R := (c_rules c).
  Hypothesis Hac : nulling_acyclic fi.
  Notation nn := (nulling_symbol_count fi + 1).

  (** a root of the free forest *)
  Definition rootT (rest : list location) (T : fnode) : Prop := shape T /\ forall ts, den T ts -> exists t, ts = [t] /\ tree_read c w g0 rest t.

  Section One.
    Context {E : Type}.
    Variables (ev : evaluator E) (nv : sym -> E) (nulls : sym -> list E).
    Hypothesis Hpush : pushes ev nv.
    Hypothesis Hnulls : nulls_ok fi nv nulls.

    (** the values of a root: a function of the free node *)
    Definition root_values (T : fnode) : list E :=
      match T with
      | FSum _ [(_, FProd _ X)] => fev ev fi nulls X
      | FSum _ [(_, FLeaf _ _)] => ev_nulling ev (fi_start fi) []
      | _ => fev ev fi nulls T
      end.

    Lemma used_root_evaluates : forall b rest T h, b_info b = fi -> (forall s, s < nn -> nulling_at (b_graph b) s (nulled_rhs fi s)) ->
      urep fi (b_graph b) T h -> rootT rest T -> evaluable c w ev nulls rest ->
      exists fuel0 b', forall fuel, fuel0 <= fuel -> evaluate ev fuel b h = Ret (root_values T, b').
    Proof.
      intros b rest T h Hi Hat Hr [Hs Hd] Hne.
      destruct (info c nsyms w d0 g0 g HB) as (I1 & I2 & I3).
      assert (Hf : fok fi T).
      { apply shape_fok; [auto|]. intros ts t Hts Ht d Hin. rewrite I1, map_length. destruct (Hd _ Hts) as (t' & -> & ys & _ & Hy & _).
        destruct Ht as [<-|[]]. apply input_tree_yield in Hy. destruct Hy as [Hy _]. eapply tree_rules_range; eauto. }
      destruct (root_form c w g0 T Hs) as (s & alts & -> & Ha).
      { intros ts Hts. destruct (Hd ts Hts) as (t & -> & ys & _ & Ht & _). eauto. }
      assert (Gev : forall vs r n, skip_wrapper ev b h = Ret (inl r) -> gev ev fi nv n (b_graph b) r = Some vs ->
        exists fuel0 b', forall fuel, fuel0 <= fuel -> evaluate ev fuel b h = Ret (vs, b')).
      { intros vs r n Hsk Hn. destruct (evaluate_root ev fi nv Hpush b h vs Hi) as (k & b' & _ & _ & G); [exists r, n; auto|]. eauto. }
      assert (Val : forall X, fok fi X -> forall r, skip_wrapper ev b h = Ret (inl r) -> urep fi (b_graph b) X r ->
        exists fuel0 b', forall fuel, fuel0 <= fuel -> evaluate ev fuel b h = Ret (fev ev fi nulls X, b')).
      { intros X0 HX r Hsk Hx. destruct (urep_value ev fi nv nulls Hnulls Hac (b_graph b) Hat X0 r Hx HX) as [n Hn]. eauto. }
      destruct alts as [|[d1 T1] [|a2 alts]]; [apply shape_sum in Hs; now destruct Hs| |].
      - destruct (Ha _ (or_introl eq_refl)) as [Ea|(X & Ea)]; cbn [snd] in Ea; subst T1; cbn [root_values].
        + destruct (Hd [Node d1 [Leaf (w_sof w) 0]]) as (t & Et & Ht).
          { eapply den_sum; [now left|constructor]. }
          injection Et as <-. destruct Hne as [Hne|[Hso Hnu]].
          { exfalso. destruct Ht as (ys & Hc & Ht & _). inversion Ht; subst. destruct rest as [|l rest]; [congruence|]. inversion Hc. }
          destruct Ht as (ys & _ & Ht & _). inversion Ht as [|d r Hnr _ Hrhs]; subst.
          apply urep_sum in Hr. destruct Hr as [_ Hr]. cbn [length places] in Hr.
          inversion Hr as [|? ? ? ? (f & f' & E1 & S & X) _]; subst. cbn [fst snd urep] in *.
          destruct S as [->|(_ & s0 & dir & S1 & S2)].
          * exists 0, b. intros fuel _. unfold evaluate, skip_wrapper. rewrite (idx_some _ _ _ _ E1). cbn [bind].
            rewrite (idx_some _ _ _ _ X). cbn [bind]. now rewrite Hi.
          * pose proof S1 as S0. rewrite I1, nth_error_map, Hnr in S1. cbn in S1.
            destruct (Hso r (nth_error_In _ _ Hnr) Hrhs) as [Hx|Hx]; rewrite Hx in S1; [discriminate|]. injection S1 as <- <-.
            rewrite I3, Hnu.
            destruct (nulling_value ev fi nv nulls Hnulls (b_graph b) Hac Hat (w_inner w) (eliminated_range fi _ _ _ S0)) as [n Hn].
            apply (Gev _ (w_inner w) n); [|exact Hn]. unfold skip_wrapper. rewrite (idx_some _ _ _ _ E1). cbn [bind].
            rewrite (idx_some _ _ _ _ S2). cbn [bind]. rewrite (idx_some _ _ _ _ X). cbn [bind]. now rewrite Hi, I2, Nat.eqb_refl.
        + rewrite <- I2 in Hr. destruct (used_root ev fi nv nulls Hnulls Hac b s d1 0 X h Hi Hr) as (r & Hsk & HX).
          apply fok_sum in Hf. destruct Hf as [_ Hf]. apply Forall_inv in Hf. destruct Hf as [Hf1 _]. cbn in Hf1.
          exact (Val X (proj2 Hf1) r Hsk HX).
      - replace (root_values (FSum s ((d1, T1) :: a2 :: alts))) with (fev ev fi nulls (FSum s ((d1, T1) :: a2 :: alts)))
          by (cbn [root_values]; now destruct T1).
        apply (Val _ Hf h); [|exact Hr]. eapply (used_ambiguous ev fi); [|exact Hr]. discriminate.
    Qed.
  End One.

  Lemma total_same : forall A n m (f : nat -> res A) x y, total n f x -> total m f y -> x = y.
  Proof.
    intros A n m f x y H1 H2. specialize (H1 (n + m)). specialize (H2 (n + m)). rewrite H1 in H2.
    rewrite !(proj2 (Nat.ltb_ge _ _)) in H2 by lia. congruence.
  Qed.

  Notation free_run h0 rest := (fun fuel => st <- r_new g [] ;; parse_forest free_forest P g fuel (from_start w h0 rest) st).
  Notation simple_run b h0 rest := (fun fuel => st <- r_new g b ;; parse_forest simple_forest P g fuel (from_start w h0 rest) st).

  (** the bocage can be used *)
  Definition usable (b : bocage) : Prop :=
    b_info b = fi /\ b_count b = 0 /\ forall s, s < nn -> nulling_at (b_graph b) s (nulled_rhs fi s).

  (** what is known about the finished node [o] of the parse of an input *)
  Definition got (b : bocage) (x : option sym * list location) (o : option nat) : Prop :=
    exists n o1 p, total n (free_run (fst x) (snd x)) (o1, p) /\
      match o1, o with
      | Some T, Some h => urep fi (b_graph b) T h /\ rootT (snd x) T
      | None, None => True
      | _, _ => False
      end.

  Lemma parse_used : forall b h0 rest, usable b -> in_range c nsyms h0 rest -> (exists fuel, free_run h0 rest fuel <> NoFuel) ->
    exists n o b', total n (simple_run b h0 rest) (o, b') /\ usable b' /\ got b' (h0, rest) o /\
      exists x, b_graph b' = b_graph b ++ x.
  Proof.
    intros b h0 rest (Hi & Hc & Hat) Hr Hends. pose proof (sb_shaped _ _ _ _ _ _ HB) as HP.
    destruct (free_trees_any P c nsyms w d0 g0 g Hleo HB (from_start w h0 rest)) as (n & o & p & A & Hsh & _).
    { now apply (from_start_ok c nsyms w d0 g0 HP). }
    { discriminate. }
    { exact Hends. }
    destruct (total_transfer _ _ _ _ (used_sim fi []) P g n (from_start w h0 rest) [] b (o, p)) as ([o' b'] & B & HJ & HQ); [|exact A|].
    { split; [auto|]. rewrite done_idle by auto. split; [|auto]. split; [auto|intros T x []]. }
    destruct (total_transfer _ _ _ _ (simple_sim (b_info b) (b_graph b)) P g n (from_start w h0 rest) [] b (o, p)) as (y & B2 & HJ2 & _); [|exact A|].
    { split; [reflexivity|]. split; [|exact Hc]. exists []. rewrite app_nil_r. now apply done_idle. }
    rewrite (total_same _ _ _ _ _ _ B2 B) in *. cbn [fst snd] in *.
    destruct HJ as (Hi' & [Hat' _] & Hc'). rewrite done_idle in Hat' by auto.
    destruct HJ2 as (_ & (x & Hx) & _). rewrite done_idle in Hx by auto.
    exists n, o', b'. split; [exact B|]. split; [repeat split; auto|]. split; [|eauto].
    exists n, o, p. split; [exact A|]. cbn [fst snd]. destruct o as [T|], o' as [h|]; auto.
    unfold uQ in HQ. rewrite done_idle in HQ by auto. split; [exact HQ|]. destruct (Hsh T eq_refl) as [Sh D]. split; [exact Sh|].
    intros ts Hts. destruct (D ts Hts) as (t & -> & Ht). exists t. split; [auto|]. now apply (from_start_accepted c nsyms w d0 g0 HP) in Ht.
  Qed.

  Lemma got_mono : forall b b' x o, (forall T h, urep fi (b_graph b) T h -> urep fi (b_graph b') T h) -> got b x o -> got b' x o.
  Proof.
    intros b b' x o H (n & o1 & p & A & B). exists n, o1, p. split; [exact A|]. destruct o1, o; auto. destruct B. auto.
  Qed.

  Context {E : Type}.
  Variable b0 : bocage.
  Hypothesis H0 : bocage_new fi = Ret b0.

  Lemma start_usable : usable b0.
  Proof. destruct (new_at fi b0 H0) as (A & B & C). repeat split; auto. Qed.

  Variable given : option sym -> list location -> Prop.
  Hypothesis Hgiven : forall h0 rest, in_range c nsyms h0 rest -> given h0 rest -> exists fuel, free_run h0 rest fuel <> NoFuel.

  Lemma uses_run : forall (ms : list (use E)) before expected, as_alone P g w c nsyms given before ms expected ->
    forall hs b out, usable b -> Forall2 (got b) before hs -> Forall (fun x => in_range c nsyms (fst x) (snd x) /\ given (fst x) (snd x)) before ->
    exists fuel0 hs' b', forall fuel, fuel0 <= fuel -> foldM (use_step P g w fuel) ms (hs, b, out) = Ret (hs', b', out ++ expected).
  Proof.
    intros ms before expected H.
    induction H as [before|before h0 rest ms expected Hr Hgv H IH|before ev nv nulls i h0 rest vs ms expected Hp Hn Hi Hne (n0 & Hal) H IH];
      intros hs b out Hb HF HI.
    - exists 0, hs, b. intros. cbn. now rewrite app_nil_r.
    - destruct (parse_used b h0 rest Hb Hr (Hgiven _ _ Hr Hgv)) as (n & o & b' & A & Hb' & Hg & x & Hx).
      destruct (IH (hs ++ [o]) b' out Hb') as (k & hs2 & b2 & G).
      { apply Forall2_app; [|constructor; auto]. eapply Forall2_impl2; [|exact HF]. intros y o2. apply got_mono. intros T h.
        apply urep_mono. intros j nd Hj. rewrite Hx. rewrite nth_error_app1; [auto|]. apply nth_error_Some. congruence. }
      { apply Forall_app. split; [auto|constructor; auto]. }
      exists (n + k), hs2, b2. intros fuel Hk. cbn [foldM use_step]. specialize (A fuel). cbv beta in A.
      rewrite (proj2 (Nat.ltb_ge _ _)) in A by lia. rewrite A. cbn [bind]. apply G. lia.
    - pose proof (Forall2_nth _ _ _ _ _ i HF) as X. rewrite Hi in X. destruct (nth_error hs i) as [o|] eqn:Eo; [|contradiction].
      destruct X as (n & o1 & p & A & X). cbn [fst snd] in *.
      rewrite Forall_forall in HI. destruct (HI _ (nth_error_In _ _ Hi)) as [Hr Hgv]. cbn [fst snd] in Hr, Hgv. rewrite <- Forall_forall in HI.
      (* alone *)
      destruct (parse_used b0 h0 rest start_usable Hr (Hgiven _ _ Hr Hgv)) as (n1 & o2 & b2 & A2 & Hb2 & (n2 & o3 & p3 & A3 & X3) & _).
      cbn [fst snd] in *. pose proof (total_same _ _ _ _ _ _ A3 A) as Eq. injection Eq as -> ->.
      assert (Hal2 : forall fuel, n0 + n1 <= fuel -> (h <- unwrap o2 ;; '(vs, _) <- evaluate ev fuel b2 h ;; Ret vs) = Ret vs).
      { intros fuel Hf. specialize (Hal fuel ltac:(lia)). unfold alone in Hal. rewrite H0 in Hal. cbn [bind] in Hal.
        specialize (A2 fuel). cbv beta in A2. rewrite (proj2 (Nat.ltb_ge _ _)) in A2 by lia. rewrite A2 in Hal. exact Hal. }
      destruct o2 as [h2|]; [|specialize (Hal2 _ (le_n _)); discriminate].
      destruct o1 as [T|]; [|contradiction]. destruct o as [h|]; [|contradiction]. destruct X as [U RT], X3 as [U3 _].
      destruct Hb as (Bi & Bc & Bn), Hb2 as (Ci & Cc & Cn).
      destruct (used_root_evaluates ev nv nulls Hp Hn b2 rest T h2 Ci Cn U3 RT Hne) as (k3 & b3 & G3).
      assert (Ev : root_values ev nulls T = vs).
      { specialize (Hal2 (n0 + n1 + k3) ltac:(lia)). cbn [unwrap bind] in Hal2. rewrite G3 in Hal2 by lia. cbn [bind] in Hal2. congruence. }
      destruct (used_root_evaluates ev nv nulls Hp Hn b rest T h Bi Bn U RT Hne) as (k4 & b4 & G4). rewrite Ev in G4.
      destruct (evaluate_kept ev fi k4 b h _ b4 Bi (G4 k4 (le_n _))) as (K1 & K2 & K3 & K4).
      destruct (IH hs b4 (out ++ [vs])) as (k & hs5 & b5 & G5).
      { split; [congruence|]. split; [congruence|]. auto. }
      { eapply Forall2_impl2; [|exact HF]. intros y o2. apply got_mono. exact K3. }
      { exact HI. }
      exists (k4 + k), hs5, b5. intros fuel Hk. cbn [foldM use_step]. rewrite (idx_some _ _ _ _ Eo). cbn [bind unwrap].
      rewrite G4 by lia. cbn [bind]. rewrite G5 by lia. rewrite <- app_assoc. reflexivity.
  Qed.

  Theorem P_uses : forall (ms : list (use E)) out, as_alone P g w c nsyms given [] ms out ->
    exists fuel0, forall fuel, fuel0 <= fuel -> uses P g w fuel ms b0 = Ret out.
  Proof.
    intros ms out Ha. destruct (uses_run ms [] out Ha [] b0 [] start_usable ltac:(constructor) ltac:(constructor)) as (k & hs & b & G).
    exists k. intros fuel Hk. unfold uses. now rewrite G.
  Qed.
End Uses.

(** without a cycle every parse ends *)
Theorem P_uses_acyclic : forall P c nsyms w d0 g0 g, LEO P = false -> built c nsyms w d0 g0 g -> nulling_acyclic (g_forest_info g) ->
  forall E b0, bocage_new (g_forest_info g) = Ret b0 ->
  forall (ms : list (use E)) out, as_alone P g w c nsyms (fun _ _ => True) [] ms out ->
  exists fuel0, forall fuel, fuel0 <= fuel -> uses P g w fuel ms b0 = Ret out.
Proof.
  intros P c nsyms w d0 g0 g Hleo HB Hac E b0 H0. apply (P_uses P c nsyms w d0 g0 g Hleo HB Hac b0 H0).
  intros h0 rest Hr _. apply (free_ends P c nsyms w d0 g0 g Hleo HB); [|discriminate].
  now apply (from_start_ok c nsyms w d0 g0 (b_processed _ _ _ _ _ _ HB)).
Qed.

Theorem P_uses_ending : forall P c nsyms w d0 g0 g, LEO P = false -> shaped_built c nsyms w d0 g0 g -> nulling_acyclic (g_forest_info g) ->
  forall E b0, bocage_new (g_forest_info g) = Ret b0 ->
  forall (ms : list (use E)) out, as_alone P g w c nsyms (parse_ends P g w) [] ms out ->
  exists fuel0, forall fuel, fuel0 <= fuel -> uses P g w fuel ms b0 = Ret out.
Proof.
  intros P c nsyms w d0 g0 g Hleo HB Hac E b0 H0. apply (P_uses P c nsyms w d0 g0 g Hleo HB Hac b0 H0).
  intros h0 rest Hr (fuel & Hends). destruct (new_at _ b0 H0) as (Hi0 & Hc0 & _).
  apply (ends_back _ _ _ _ (simple_sim (g_forest_info g) (b_graph b0)) P g _ [] b0).
  - split; [exact Hi0|]. split; [|exact Hc0]. exists []. rewrite app_nil_r. now apply done_idle.
  - exists fuel. rewrite H0 in Hends. exact Hends.
Qed.

(** ** More fuel *)
Lemma eval_loop_up : forall E (ev : evaluator E) n s r, eval_loop ev n s = Ret r -> forall m, n <= m -> eval_loop ev m s = Ret r.
Proof.
  intros E ev n. induction n as [|n IH]; intros [[b rs] S] r H m Hm; cbn [eval_loop] in H.
  - destruct m; cbn [eval_loop]; destruct (1 <? length S); auto; discriminate.
  - destruct m as [|m]; [lia|]. cbn [eval_loop]. destruct (1 <? length S); [|auto].
    destruct (eval_step ev (b, rs, S)) as [s'| |]; cbn [bind] in *; try discriminate. apply IH; [auto|lia].
Qed.

Lemma alone_up : forall E P g w fuel fuel' (ev : evaluator E) h0 rest vs, fuel <= fuel' ->
  alone P g w fuel ev h0 rest = Ret vs -> alone P g w fuel' ev h0 rest = Ret vs.
Proof.
  intros E P g w fuel fuel' ev h0 rest vs Hf H. unfold alone in *.
  destruct (bocage_new (g_forest_info g)) as [b0| |]; cbn [bind] in *; try discriminate.
  destruct (st <- r_new g b0 ;; parse_forest simple_forest P g fuel (from_start w h0 rest) st) as [[o b]| |] eqn:E1; try discriminate.
  rewrite (parse_mono P g _ _ _ _ _ _ _ _ Hf E1). cbn [bind] in *. destruct o as [h|]; cbn [unwrap bind] in *; [|discriminate].
  unfold evaluate in *. destruct (skip_wrapper ev b h) as [[r|vs0]| |]; cbn [bind] in *; try discriminate; auto.
  destruct (eval_loop ev fuel _) as [x| |] eqn:E2; try discriminate. rewrite (eval_loop_up _ _ _ _ _ E2 _ Hf). exact H.
Qed.
