(** RootTop: parsing with an ordered grammar leaves a node with one alternative on top, so
    that evaluation starts below the wrapper. *)
From Coq Require Import List Arith Bool Lia Permutation NArith.
From Verif Require Import Trees.
From Verif Require Import Base BaseProofs Vec2d Item Grammar DefaultGrammar Forest ForestSpec Recognizer Drive ClientSpec Spec
  Chart ChartSpec CfgSpec TablesProofs Den Core1 Core2 Core3 Core4 Core5 Core6 Recog RecogFacts Uniq UniqRoot Sim SimpleBocage SimpleEval
  SimpleProofs SimpleValue EvalSpec TreeSpec Trees ForestProg ForestValue SimpleTop PropLemmas3 PropLemmas4
  CompactGraph CompactGraphProofs CompactBocage CompactSpec CompactProofs CompactEval CompactValue CompactTop CompactForestSpec CompactMore CompactWhole.
Import ListNotations.
Local Open Scope res_scope.

(** ** Only the leaves that occur matter *)
Section Agree.
  Context {E : Type}.
  Variables ev1 ev2 : evaluator E.
  Variables (fi : forest_info) (nulls : sym -> list E).
  Hypothesis Hprod : forall id args, ev_product ev1 id args = ev_product ev2 id args.

  Lemma reduce_agree : forall d args, reduce ev1 fi d args = reduce ev2 fi d args.
  Proof. intros d args. unfold reduce. destruct (fi_external_origin fi d) as [[id|]|]; auto. now rewrite Hprod. Qed.

  Lemma fev_agree : forall T, shape T ->
    (forall ts t, den T ts -> In t ts -> forall s v, In (s, v) (yield t) -> ev_leaf ev1 s v = ev_leaf ev2 s v) ->
    fev ev1 fi nulls T = fev ev2 fi nulls T /\ cfev ev1 fi nulls T = cfev ev2 fi nulls T.
  Proof.
    intros T. induction T as [s v|s|l r IHl IHr|s alts IH] using fnode_ind2; intros Hs Hd.
    - cbn. rewrite (Hd _ _ (den_leaf s v) (or_introl eq_refl) s v) by (now left). auto.
    - contradiction.
    - cbn in *. destruct Hs as [H1 H2].
      destruct (trees l) as [|xs0 ?] eqn:El; [now elim (shape_trees l)|].
      destruct (trees r) as [|ys0 ?] eqn:Er; [now elim (shape_trees r)|].
      assert (Dl : den l xs0) by (apply trees_den; rewrite El; now left).
      assert (Dr : den r ys0) by (apply trees_den; rewrite Er; now left).
      destruct IHl as [A B]; auto.
      { intros ts t Ht Hi. apply (Hd (ts ++ ys0) t); [now constructor|]. apply in_or_app. auto. }
      destruct IHr as [C D]; auto.
      { intros ts t Ht Hi. apply (Hd (xs0 ++ ts) t); [now constructor|]. apply in_or_app. auto. }
      rewrite A, B, C, D. auto.
    - apply shape_sum in Hs. destruct Hs as [Hne HF]. rewrite Forall_forall in IH, HF.
      assert (K : forall a, In a alts -> fev ev1 fi nulls (snd a) = fev ev2 fi nulls (snd a) /\ cfev ev1 fi nulls (snd a) = cfev ev2 fi nulls (snd a)).
      { intros [d T] Ha. apply (IH _ Ha); [now apply (HF (d, T))|]. cbn [snd]. intros ts t Ht Hi s' v' Hv.
        apply (Hd [Node d ts] (Node d ts)); [eapply den_sum; eauto|now left|]. cbn. apply in_flat_map. eauto. }
      assert (KV : forall d p args, alt_value ev1 fi nulls d p args = alt_value ev2 fi nulls d p args).
      { intros d p args. apply reduce_agree. }
      split.
      + cbn [fev]. f_equal. f_equal. apply map_ext_in. intros a Ha. rewrite KV. f_equal. now apply K.
      + cbn [cfev]. f_equal. apply map_ext_in. intros a Ha. rewrite KV. f_equal. now apply K.
  Qed.
End Agree.

(** ** Trees that differ in the rule on top, or in where it splits the input *)
Lemma nodup_app_left : forall A (a b : list A), NoDup (a ++ b) -> NoDup a /\ NoDup b.
Proof.
  induction a as [|x a IH]; cbn; intros b H; [split; [constructor|auto]|]. inversion H as [|? ? N1 N2]; subst.
  destruct (IH b N2) as [A1 A2]. split; [|auto]. constructor; [|auto]. intros X. apply N1. apply in_app_iff. auto.
Qed.

Lemma nodup_map_inv : forall A B (f : A -> B) l, NoDup (map f l) -> NoDup l.
Proof.
  induction l as [|x l IH]; cbn; intros H; [constructor|]. inversion H as [|? ? N1 N2]; subst. constructor; [|auto].
  intros X. apply N1. now apply in_map.
Qed.

Lemma parse_trees_length : forall R ss ts, parse_trees R ss ts -> length ts = length ss.
Proof. intros R ss ts H. induction H as [|A t Bs ts _ _ IH]; cbn; congruence. Qed.

Lemma yield_app : forall xs ys, flat_map yield (xs ++ ys) = flat_map yield xs ++ flat_map yield ys.
Proof. intros. apply flat_map_app. Qed.

(** all readings of an alternative split the input at the same place *)
Lemma same_split : forall T n d xs ys, shape T ->
  (forall zs, den T zs -> length (flat_map yield zs) = n /\ length zs <= 2) -> den T xs -> den T ys ->
  root_split (Node d xs) = root_split (Node d ys).
Proof.
  intros T n d xs ys HS Hn Hx Hy.
  assert (Len : forall T ts, den T ts -> if is_fprod T then 2 <= length ts else length ts = 1).
  { intros T' ts H. apply trees_length. now apply trees_den. }
  destruct (is_fprod T) eqn:EP.
  - destruct T as [| |l r|]; try discriminate. inversion Hx as [|? ? x1 x2 A1 A2|]; subst. inversion Hy as [|? ? y1 y2 B1 B2|]; subst.
    assert (L : forall a b, den l a -> den r b -> length a = 1 /\ 1 <= length b).
    { intros a b Ha Hb. destruct (Hn _ (den_prod l r a b Ha Hb)) as [_ K]. rewrite app_length in K. pose proof (Len _ _ Ha) as La. pose proof (Len _ _ Hb) as Lb.
      destruct (is_fprod l), (is_fprod r); lia. }
    destruct (L _ _ A1 A2) as [Lx _]. destruct (L _ _ B1 B2) as [Ly _].
    destruct x1 as [|x [|]]; try discriminate. destruct y1 as [|y [|]]; try discriminate.
    destruct (Hn _ (den_prod l r _ _ A1 A2)) as [N1 _]. destruct (Hn _ (den_prod l r _ _ B1 A2)) as [N2 _].
    rewrite yield_app, app_length in N1, N2. cbn in N1, N2. rewrite app_nil_r in N1, N2. cbn. do 2 f_equal. lia.
  - pose proof (Len _ _ Hx) as Lx. pose proof (Len _ _ Hy) as Ly. rewrite EP in Lx, Ly.
    destruct xs as [|x [|]]; try discriminate. destruct ys as [|y [|]]; try discriminate.
    destruct (Hn _ Hx) as [N1 _]. destruct (Hn _ Hy) as [N2 _]. cbn in N1, N2. rewrite app_nil_r in N1, N2. cbn. do 2 f_equal. lia.
Qed.

Lemma distinct_alts : forall s alts n, shape (FSum s alts) -> NoDup (trees (FSum s alts)) ->
  (forall d zs, In [Node d zs] (trees (FSum s alts)) -> length (flat_map yield zs) = n /\ length zs <= 2) ->
  (forall u u', In [u] (trees (FSum s alts)) -> In [u'] (trees (FSum s alts)) -> root_split u = root_split u' -> u = u') ->
  exists us, trees (FSum s alts) = map (fun t => [t]) us /\ length us = length alts.
Proof.
  intros s alts n HS. apply shape_sum in HS. destruct HS as [_ HS]. cbn [trees].
  induction HS as [|[d T] alts HT _ IH]; intros HN HL HD.
  - exists []. auto.
  - cbn [flat_map fst snd] in *. destruct (nodup_app_left _ _ _ HN) as [N1 N2]. cbn [snd] in HT.
    destruct IH as (us & E & L); [exact N2| | |].
    { intros d' zs Hz. apply (HL d'). apply in_app_iff. auto. }
    { intros u u' Hu Hu'. apply HD; apply in_app_iff; auto. }
    assert (One : exists xs, trees T = [xs]).
    { assert (K : forall zs, den T zs -> length (flat_map yield zs) = n /\ length zs <= 2).
      { intros zs Hz. apply (HL d). apply in_app_iff. left. apply (in_map (fun xs => [Node d xs])). now apply trees_den. }
      destruct (trees T) as [|xs [|ys l]] eqn:ET; [now elim (shape_trees T)|eauto|]. exfalso.
      assert (xs = ys).
      { enough (X : Node d xs = Node d ys) by (injection X; auto). apply HD; [now left|now right; left|].
        apply (same_split T n); auto; apply trees_den; rewrite ET; [now left|now right; left]. }
      subst ys. inversion N1 as [|? ? X _]; subst. apply X. now left. }
    destruct One as (xs & Ex). rewrite Ex, E. exists (Node d xs :: us). cbn. auto.
Qed.

Lemma first_last_in : forall A (l : list A) x, In x (first_last l) <-> In x l.
Proof. intros A [|a l] x; cbn; [tauto|]. rewrite in_app_iff. cbn. tauto. Qed.

Lemma first_last_nodup : forall A (l : list A), NoDup l -> NoDup (first_last l).
Proof. intros A [|a l] H; cbn; [auto|]. apply (Permutation_NoDup (l := a :: l)); [|auto]. apply Permutation_cons_append. Qed.

Section Top.
  Variable P : perf.
  Variables (c : pcfg) (nsyms : nat) (w : wrapped_root) (d0 : nat) (g0 : sym) (g : dgrammar).
  Hypothesis Hleo : LEO P = false.
  Hypothesis HB : built c nsyms w d0 g0 g.
  Let HP := b_processed _ _ _ _ _ _ HB.
  Notation R := (c_rules c).
  Notation nall := (c_num_syms c).
  Notation root := (w_root w).
  Notation free_run h0 rest := (fun fuel => st <- r_new g [] ;; parse_forest free_forest P g fuel (from_start w h0 rest) st).

  (** the trees of a free node below which everything was read *)
  Lemma free_input : forall h0 rest, in_range c nsyms h0 rest -> rest <> [] ->
    exists n o p, total n (free_run h0 rest) (o, p) /\
      (forall T, o = Some T -> shape T /\ forall ts, den T ts -> exists t, ts = [t] /\ tree_read c w g0 rest t) /\
      (sorted_rules c -> distinct_tokens c rest -> forall T, o = Some T -> NoDup (trees T)) /\
      (sorted_rules c -> distinct_tokens c rest -> forall t, tree_read c w g0 rest t -> hints_match c nsyms w h0 rest t ->
         exists T, o = Some T /\ den T [t]).
  Proof.
    intros h0 rest Hr Hne.
    destruct (free_trees P c nsyms w d0 g0 g Hleo HB (from_start w h0 rest)) as (n & o & p & A & Hsh & Hnn & Hu).
    { now apply (from_start_ok c nsyms w d0 g0 HP). }
    { discriminate. }
    exists n, o, p. split; [exact A|]. split; [|split].
    - intros T ET. destruct (Hsh T ET) as [B D]. split; [auto|]. intros ts Hts. destruct (D ts Hts) as (t & -> & Ht). exists t. split; [auto|].
      now apply (from_start_accepted c nsyms w d0 g0 HP) in Ht.
    - intros Hs Hd T ET. now apply (Hu Hs (from_start_toks c nsyms w d0 g0 HP h0 _ Hd) T ET).
    - intros Hs Hd t Ht Hm. apply (from_start_accepted c nsyms w d0 g0 HP h0) in Ht. apply (from_start_truthful c) in Hm.
      destruct o as [T|]; [|now elim (Hnn t Ht Hm)]. exists T. split; [auto|].
      now apply (Hu Hs (from_start_toks c nsyms w d0 g0 HP h0 _ Hd) T eq_refl).
  Qed.

  Lemma read_inner : forall rest t, tree_read c w g0 rest t -> rest <> [] ->
    exists d r u, nth_error R d = Some r /\ p_lhs r = g0 /\ p_rhs r = [w_sof w; w_inner w] /\ t = Node d [Leaf (w_sof w) 0; u] /\
      parse_tree R (w_inner w) u /\ choice (map l_toks rest) (yield u).
  Proof.
    intros rest t (ys & Hys & Ht & _) Hne. inversion Ht as [d r u A B C D|d r A B C]; subst.
    - exists d, r, u. auto 7.
    - destruct rest; [congruence|]. inversion Hys.
  Qed.

  (** with symbols in order there is one alternative *)
  Theorem free_root : ordered_grammar c -> (exists d, wrapped_once c w g0 d) ->
    forall h0 rest, in_range c nsyms h0 rest -> rest <> [] -> distinct_tokens c rest ->
    forall n T p, total n (free_run h0 rest) (Some T, p) -> exists d X, T = FSum g0 [(d, X)].
  Proof.
    intros Hord (d1 & Honce) h0 rest Hr Hne Hdt n T p HT.
    pose proof HB as HB2. destruct HB2 as [HP' (fuel0 & maps & nulling & first & follow & Hg & HFI & HFO)].
    destruct (free_input h0 rest Hr Hne) as (n' & o & p' & A & Hsh & _).
    assert (Eo : o = Some T).
    { specialize (A (n + n')). specialize (HT (n + n')). cbv beta in A, HT. rewrite HT in A.
      destruct (Nat.ltb_spec (n + n') n'); [lia|]. destruct (Nat.ltb_spec (n + n') n); [lia|]. congruence. }
    subst o. destruct (Hsh T eq_refl) as [Sh Hd]. clear A.
    destruct (trees T) as [|ts ?] eqn:ET; [now elim (shape_trees T)|].
    destruct (Hd ts ltac:(apply trees_den; rewrite ET; now left)) as (t & -> & Ht).
    destruct (read_inner rest t Ht Hne) as (d & r & u & Hdr & Hdl & _).
    destruct (new_fresh P c nsyms w d0 g0 fuel0 maps nulling first follow g HP' Hg) as (st0 & En & Hf & _).
    pose proof HP' as HP2. destruct HP2. destruct pr_root_rule as (r0 & Hr0 & El0 & Er0).
    pose proof (tok c nsyms w d0 g0 fuel0 maps nulling first follow g HP' Hg) as Htab.
    destruct (g_facts c nsyms w d0 g0 fuel0 maps nulling first follow g HP' Hg) as (Es & _ & _ & Edb & _).
    specialize (HT n). cbv beta in HT. rewrite Nat.ltb_irrefl, En in HT. cbn [bind] in HT. unfold parse_forest in HT.
    rewrite feed_all_steps in HT.
    destruct (steps P g (remove_unreachable_sets P) n (from_start w h0 rest) st0) as [[b st']| |] eqn:Erun; try discriminate.
    cbn [bind] in HT. destruct b; [|discriminate].
    assert (Hone : root_one d0 g0 st').
    { eapply (steps_root P g R nsyms nall (first_of first) (follow_of follow) root Hleo pr_wf Htab pr_acyclic d0 g0 (w_sof w) (w_inner w) (w_eof w) r0
        (ordered_grammar_ordered c Hord) pr_root_range pr_root_top Hr0 El0 Er0 pr_root_only pr_g0_rules).
      - intros x x' q q' E1 E2 F1 F2 G1 G2. transitivity d1; [|symmetry]; apply Honce; eauto.
      - exact pr_sof_terminal.
      - intros Hterm. apply (Hterm r); [eapply nth_error_In; eauto|auto].
      - apply (remove_spec P Hleo).
      - exact Hf.
      - eapply (fresh_uniq P c nsyms w d0 first follow); eauto.
      - intros s [].
      - intros s [].
      - apply (from_start_ok c nsyms w d0 g0 HP' h0 rest Hr).
      - apply (from_start_toks c nsyms w d0 g0 HP' h0 rest Hdt).
      - destruct rest; [congruence|cbn; lia].
      - exact Erun. }
    unfold finished_node in HT.
    destruct (g_has_trivial_derivation g && is_null (earleme st')) eqn:Etr.
    - exfalso. destruct (externalized_start_sym g) as [s| |]; try discriminate. cbn in HT. injection HT as <- _. contradiction.
    - destruct (v_last (r_medial st')) as [set| |] eqn:El; try discriminate. cbn [bind] in HT.
      destruct set as [|it set]; [discriminate|]. rewrite Edb in HT.
      destruct (Nat.eqb_spec (it_dot it) d0) as [Ed|]; [|discriminate]. injection HT as <- _.
      exact (Hone _ El it (or_introl eq_refl) Ed).
  Qed.

  (** the part below the marker *)
  Lemma below_marker : forall rest T, rest <> [] -> shape T -> (forall ts, den T ts -> exists t, ts = [t] /\ tree_read c w g0 rest t) ->
    exists s d X alts, T = FSum s ((d, FProd (FLeaf (w_sof w) 0) X) :: alts) /\ shape X.
  Proof.
    intros rest T Hne Sh Hd. destruct (root_form c w g0 T Sh) as (s & alts & -> & Ha).
    { intros ts Hts. destruct (Hd ts Hts) as (t & -> & ys & _ & Ht & _). eauto. }
    destruct alts as [|[d1 T1] alts]; [apply shape_sum in Sh; now destruct Sh|].
    pose proof Sh as Sh'. apply shape_sum in Sh'. destruct Sh' as [_ Sh']. inversion Sh' as [|? ? Sh1 _]; subst. cbn [snd] in Sh1.
    destruct (Ha _ (or_introl eq_refl)) as [Ea|(X & Ea)]; cbn [snd] in Ea; subst T1.
    - exfalso. destruct (Hd [Node d1 [Leaf (w_sof w) 0]]) as (t & Et & Ht).
      + eapply den_sum; [now left|constructor].
      + injection Et as <-. destruct (read_inner rest _ Ht Hne) as (d & r & u & _ & _ & _ & X & _). discriminate.
    - exists s, d1, X, alts. split; [reflexivity|]. apply Sh1.
  Qed.

  Lemma below_read : forall rest s d X alts, rest <> [] ->
    (forall ts, den (FSum s ((d, FProd (FLeaf (w_sof w) 0) X) :: alts)) ts -> exists t, ts = [t] /\ tree_read c w g0 rest t) ->
    forall ts, den X ts -> exists u, ts = [u] /\ parse_tree R (w_inner w) u /\ choice (map l_toks rest) (yield u) /\ tree_read c w g0 rest (Node d [Leaf (w_sof w) 0; u]).
  Proof.
    intros rest s d X alts Hne Hd ts Hts.
    destruct (Hd [Node d (Leaf (w_sof w) 0 :: ts)]) as (t & Et & Ht).
    { eapply den_sum; [now left|]. apply (den_prod (FLeaf (w_sof w) 0) X [Leaf (w_sof w) 0] ts); [constructor|auto]. }
    injection Et as <-. destruct (read_inner rest _ Ht Hne) as (d' & r & u & _ & _ & _ & E & Hu & Hc). injection E as <- ->. exists u. auto.
  Qed.

  Notation fi := (g_forest_info g).

  Lemma read_fok : forall rest T, shape T -> (forall ts, den T ts -> exists t, ts = [t] /\ tree_read c w g0 rest t) -> fok fi T.
  Proof.
    intros rest T Sh Hd. destruct (info c nsyms w d0 g0 g HB) as (I1 & _).
    apply shape_fok; [auto|]. intros ts t Hts Ht d Hin. rewrite I1, map_length. destruct (Hd _ Hts) as (t' & -> & ys & _ & Hy & _).
    destruct Ht as [<-|[]]. apply input_tree_yield in Hy. destruct Hy as [Hy _]. eapply tree_rules_range; eauto.
  Qed.

  Section Eval.
    Context {E : Type}.
    Variables (ev : evaluator E) (nv : sym -> E) (nulls : sym -> list E).
    Hypothesis Hpush : pushes ev nv.
    Hypothesis Hnulls : nulls_ok fi nv nulls.
    Hypothesis Hac : nulling_acyclic fi.

    (** evaluation over the simple bocage starts below the marker *)
    Theorem simple_below : forall b0 h0 rest n s d X p, bocage_new fi = Ret b0 ->
      total n (free_run h0 rest) (Some (FSum s [(d, FProd (FLeaf (w_sof w) 0) X)]), p) ->
      shape (FSum s [(d, FProd (FLeaf (w_sof w) 0) X)]) -> fok fi (FSum s [(d, FProd (FLeaf (w_sof w) 0) X)]) ->
      exists r, total n (fun fuel => st <- r_new g b0 ;; parse_forest simple_forest P g fuel (from_start w h0 rest) st) r /\
        exists h, fst r = Some h /\ (exists l, finished_trees r l /\ Permutation l (trees (FSum s [(d, FProd (FLeaf (w_sof w) 0) X)]))) /\
          exists fuel0 b', forall fuel, fuel0 <= fuel -> evaluate ev fuel (snd r) h = Ret (fev ev fi nulls X, b').
    Proof.
      intros b0 h0 rest n s d X p Hb0 A Sh Hf. destruct (new_at fi b0 Hb0) as (Hi0 & Hc0 & _).
      assert (HJ : sJ fi (b_graph b0) Idle [] b0).
      { split; [exact Hi0|]. split; [|exact Hc0]. exists []. rewrite app_nil_r. now apply done_idle. }
      destruct (total_transfer _ _ _ _ (simple_sim fi (b_graph b0)) P g n _ _ _ _ HJ A) as ([os b] & As & HJs & Hs).
      cbn [fst snd] in *. destruct os as [h|]; [|contradiction]. exists (Some h, b). split; [exact As|]. exists h. split; [reflexivity|]. cbn [snd].
      destruct HJs as (Hib & (x & Hx) & Hcnt). rewrite done_idle in Hx by exact Hcnt. unfold sQ in Hs. rewrite done_idle in Hs by exact Hcnt.
      split; [exact (srep_represents _ _ _ Sh Hs)|].
      destruct (info c nsyms w d0 g0 g HB) as (I1 & I2 & I3). rewrite <- I2 in Hs.
      destruct (wrapper_root ev fi nv nulls Hnulls Hac b s d 0 X h Hib Hs) as (r & Hsk & HX).
      apply fok_sum in Hf. destruct Hf as [_ Hf]. inversion Hf as [|? ? [Hf1 _] _]; subst. cbn in Hf1.
      destruct (rep_value ev fi nv nulls Hnulls Hac b0 b x X r Hb0 Hx HX (proj2 Hf1)) as [m Hm].
      destruct (evaluate_root ev fi nv Hpush b h (fev ev fi nulls X) Hib) as (f1 & b1 & _ & _ & H1); [exists r, m; auto|]. eauto.
    Qed.

    (** over the compact bocage it starts below the marker of the first alternative *)
    Theorem compact_below : forall cb0 h0 rest n s d X alts p, cbocage_new fi = Ret cb0 -> in_range c nsyms h0 rest -> input_fits c rest ->
      total n (free_run h0 rest) (Some (FSum s ((d, FProd (FLeaf (w_sof w) 0) X) :: alts)), p) ->
      shape (FSum s ((d, FProd (FLeaf (w_sof w) 0) X) :: alts)) ->
      (forall ts, den (FSum s ((d, FProd (FLeaf (w_sof w) 0) X) :: alts)) ts -> exists t, ts = [t] /\ tree_read c w g0 rest t) ->
      exists r, total n (fun fuel => st <- r_new g cb0 ;; parse_forest compact_forest P g fuel (from_start w h0 rest) st) r /\
        exists h, fst r = Some h /\
          (graph_fits (snd r) 0 -> cfinished_trees r (trees (FSum s ((d, FProd (FLeaf (w_sof w) 0) X) :: alts)))) /\
          (graph_fits (snd r) (9 * all_inner_nodes (trees (FSum s ((d, FProd (FLeaf (w_sof w) 0) X) :: alts)))) ->
           exists fuel0 b', forall fuel, fuel0 <= fuel -> c_evaluate ev fuel (snd r) h = Ret (cfev ev fi nulls X, b')).
    Proof.
      intros cb0 h0 rest n s d X alts p Hcb0 Hin Hfit A Sh Hd.
      destruct (cbocage_new_at fi cb0 Hcb0) as (Hi0 & _ & Hlim & Hat0).
      destruct (total_transfer _ _ _ _ (compact_sim fi (cb_graph cb0)) P g n _ _ _ _ (cJ_start fi cb0 Hcb0) A) as ([oc b] & Ac & HJ & Hc).
      cbn [fst snd] in *. destruct oc as [h|]; [|contradiction]. exists (Some h, b). split; [exact Ac|]. exists h. split; [reflexivity|]. cbn [snd].
      assert (Sm : small (FSum s ((d, FProd (FLeaf (w_sof w) 0) X) :: alts))).
      { apply shape_small; [auto|]. intros ts t Hts Ht. destruct (Hd ts Hts) as (t' & -> & Ha). destruct Ht as [<-|[]].
        apply (read_fits c nsyms w d0 g0 g HB rest); eauto. }
      split.
      { intros Hg. unfold cfinished_trees. cbn [fst snd]. apply crep_represents; [exact Sh|]. apply Hc; [exact Sm|].
        unfold graph_fits in Hg. now rewrite Nat.add_0_r in Hg. }
      intros Hk. destruct HJ as (Hib & (x & Hgx) & _).
      assert (Hgb : u32 (length (cb_graph b))) by (eapply u32_le; [|exact Hk]; lia).
      specialize (Hc Sm Hgb).
      pose proof (read_fok rest _ Sh Hd) as Hf.
      assert (Hat : forall s, s < nulling_symbol_count fi + 1 -> cnulling_at (cb_graph b) s (nulled_rhs fi s)).
      { intros s' Hs. rewrite Hgx. apply cnulling_at_app. apply Hat0; [|auto]. eapply u32_le; [|exact Hgb]. rewrite Hgx, app_length. lia. }
      pose proof (cost_trees _ Sh) as Lcost.
      destruct (c_root c nsyms w d0 g0 g HB b s d X alts h Hib Hgb Hc) as (r & Hsk & CX).
      apply fok_sum in Hf. destruct Hf as [_ Hf]. inversion Hf as [|? ? [Hf1 _] _]; subst. cbn [fst snd fok] in Hf1.
      apply small_sum in Sm. inversion Sm as [|? ? [_ Sm1] _]; subst. cbn [fst snd small] in Sm1.
      apply shape_sum in Sh. destruct Sh as [_ Sh]. inversion Sh as [|? ? Sh1 _]; subst. cbn [snd shape] in Sh1.
      destruct (crep_value ev fi nv nulls Hnulls Hac Hlim (cb_graph b) Hat X r CX (proj2 Sh1) (proj2 Hf1) (proj2 Sm1)) as (cst & Lc & V).
      assert (Lx : cst <= 9 * all_inner_nodes (trees (FSum s ((d, FProd (FLeaf (w_sof w) 0) X) :: alts)))).
      { etransitivity; [exact Lc|]. etransitivity; [|exact Lcost]. cbn [cost map snd list_sum fold_right]. lia. }
      destruct (c_evaluate_each_value ev fi nv Hpush (cb_graph b) h (cfev ev fi nulls X) cst 1 b []) as (fuel0 & b' & H).
      + exact Hib.
      + now rewrite app_nil_r.
      + exists r. auto.
      + eapply u32_le; [|exact Hk]. apply Nat.add_le_mono_l. lia.
      + exists fuel0, b'. intros fuel Hfu. specialize (H fuel Hfu). unfold c_evaluate_each in H. cbn [repeat foldM] in H.
        destruct (c_evaluate ev fuel b h) as [[v2 c2]| |]; cbn [bind] in H; try discriminate. injection H as -> ->. reflexivity.
    Qed.
  End Eval.

  Section Results.
    Context {E : Type}.
    Variables (nv : sym -> E) (nulls : sym -> list E).
    Hypothesis Hnulls : nulls_ok fi nv nulls.
    Hypothesis Hac : nulling_acyclic fi.
    Notation simple_run b0 h0 rest := (fun fuel => st <- r_new g b0 ;; parse_forest simple_forest P g fuel (from_start w h0 rest) st).
    Notation compact_run cb0 h0 rest := (fun fuel => st <- r_new g cb0 ;; parse_forest compact_forest P g fuel (from_start w h0 rest) st).

    (** the free parse of an input, its top taken apart *)
    Lemma free_below : forall h0 rest, in_range c nsyms h0 rest -> rest <> [] ->
      exists n o p, total n (free_run h0 rest) (o, p) /\
        match o with
        | None => True
        | Some T => shape T /\ fok fi T /\ (forall ts, den T ts -> exists t, ts = [t] /\ tree_read c w g0 rest t) /\
            exists s d X alts, T = FSum s ((d, FProd (FLeaf (w_sof w) 0) X) :: alts) /\ shape X /\
              (ordered_grammar c -> (exists d, wrapped_once c w g0 d) -> distinct_tokens c rest -> alts = [])
        end.
    Proof.
      intros h0 rest Hr Hne. destruct (free_input h0 rest Hr Hne) as (n & o & p & A & Hsh & _). exists n, o, p. split; [exact A|].
      destruct o as [T|]; [|exact I]. destruct (Hsh T eq_refl) as [Sh Hd]. split; [exact Sh|]. split; [exact (read_fok rest T Sh Hd)|]. split; [exact Hd|].
      destruct (below_marker rest T Hne Sh Hd) as (s & d & X & alts & ET & SX). exists s, d, X, alts. split; [exact ET|]. split; [exact SX|].
      intros Ho Hw Hdt. destruct (free_root Ho Hw h0 rest Hr Hne Hdt n T p A) as (d' & X' & ET'). congruence.
    Qed.

    Lemma leaves_agree : forall (ev1 ev2 : evaluator E) rest s d X alts, rest <> [] ->
      (forall ts, den (FSum s ((d, FProd (FLeaf (w_sof w) 0) X) :: alts)) ts -> exists t, ts = [t] /\ tree_read c w g0 rest t) ->
      (forall l s v, In l rest -> In (s, v) (l_toks l) -> ev_leaf ev1 s v = ev_leaf ev2 s v) ->
      forall ts t, den X ts -> In t ts -> forall s v, In (s, v) (yield t) -> ev_leaf ev1 s v = ev_leaf ev2 s v.
    Proof.
      intros ev1 ev2 rest s d X alts Hne Hd Hl ts t Hts Ht s' v' Hv.
      destruct (below_read rest s d X alts Hne Hd ts Hts) as (u & -> & _ & Hc & _). destruct Ht as [<-|[]].
      clear - Hl Hc Hv. remember (yield u) as ys. clear Heqys. revert ys Hc Hv. induction rest as [|l rest IH]; intros ys Hc Hv; cbn in Hc; inversion Hc as [|? y ? zs Hy Hz]; subst.
      - destruct Hv.
      - destruct Hv as [->|Hv]; [apply (Hl l); [now left|auto]|]. apply (IH ltac:(intros; eapply Hl; [right; eassumption|eauto]) zs); auto.
    Qed.

    (** ** The marker is not shown to the evaluator *)
    Theorem marker_simple : forall (ev1 ev2 : evaluator E), pushes ev1 nv -> pushes ev2 nv ->
      (forall id args, ev_product ev1 id args = ev_product ev2 id args) ->
      ordered_grammar c -> (exists d, wrapped_once c w g0 d) ->
      forall b0, bocage_new fi = Ret b0 ->
      forall h0 rest, in_range c nsyms h0 rest -> rest <> [] -> distinct_tokens c rest ->
      (forall l s v, In l rest -> In (s, v) (l_toks l) -> ev_leaf ev1 s v = ev_leaf ev2 s v) ->
      exists n r, total n (simple_run b0 h0 rest) r /\ forall h, fst r = Some h ->
        exists fuel0 vs b1 b2, forall fuel, fuel0 <= fuel ->
          evaluate ev1 fuel (snd r) h = Ret (vs, b1) /\ evaluate ev2 fuel (snd r) h = Ret (vs, b2).
    Proof.
      intros ev1 ev2 Hp1 Hp2 Hprod Ho Hw b0 Hb0 h0 rest Hr Hne Hdt Hl.
      destruct (free_below h0 rest Hr Hne) as (n & [T|] & p & A & HT).
      - destruct HT as (Sh & Hf & Hd & s & d & X & alts & -> & SX & Hal). rewrite (Hal Ho Hw Hdt) in *. clear Hal alts.
        destruct (simple_below ev1 nv nulls Hp1 Hnulls Hac b0 h0 rest n s d X p Hb0 A Sh Hf) as (r & B1 & h & Eh & _ & f1 & b1 & C1).
        destruct (simple_below ev2 nv nulls Hp2 Hnulls Hac b0 h0 rest n s d X p Hb0 A Sh Hf) as (r' & B2 & h' & Eh' & _ & f2 & b2 & C2).
        assert (r' = r) as ->.
        { specialize (B1 n). specialize (B2 n). cbv beta in B1, B2. rewrite Nat.ltb_irrefl in B1, B2. congruence. }
        exists n, r. split; [exact B1|]. intros h1 Eh1. assert (h1 = h) as -> by congruence. assert (h' = h) as -> by congruence.
        exists (f1 + f2), (fev ev1 fi nulls X), b1, b2. intros fuel Hfu. split; [apply C1; lia|].
        rewrite (proj1 (fev_agree ev1 ev2 fi nulls Hprod X SX (leaves_agree ev1 ev2 rest s d X [] Hne Hd Hl))). apply C2. lia.
      - destruct (new_at fi b0 Hb0) as (Hi0 & Hc0 & _).
        assert (HJ : sJ fi (b_graph b0) Idle [] b0).
        { split; [exact Hi0|]. split; [|exact Hc0]. exists []. rewrite app_nil_r. now apply done_idle. }
        destruct (total_transfer _ _ _ _ (simple_sim fi (b_graph b0)) P g n _ _ _ _ HJ A) as ([os b] & As & _ & Hs).
        exists n, (os, b). split; [exact As|]. cbn [fst snd] in *. intros h ->. contradiction.
    Qed.

    Theorem marker_compact : forall (ev1 ev2 : evaluator E), pushes ev1 nv -> pushes ev2 nv ->
      (forall id args, ev_product ev1 id args = ev_product ev2 id args) ->
      forall cb0, cbocage_new fi = Ret cb0 ->
      forall h0 rest, in_range c nsyms h0 rest -> rest <> [] -> input_fits c rest ->
      (forall l s v, In l rest -> In (s, v) (l_toks l) -> ev_leaf ev1 s v = ev_leaf ev2 s v) ->
      exists n r, total n (compact_run cb0 h0 rest) r /\ forall h, fst r = Some h -> graph_fits (snd r) 0 ->
        exists l, cfinished_trees r l /\ (graph_fits (snd r) (9 * all_inner_nodes l) ->
          exists fuel0 vs b1 b2, forall fuel, fuel0 <= fuel ->
            c_evaluate ev1 fuel (snd r) h = Ret (vs, b1) /\ c_evaluate ev2 fuel (snd r) h = Ret (vs, b2)).
    Proof.
      intros ev1 ev2 Hp1 Hp2 Hprod cb0 Hcb0 h0 rest Hr Hne Hfit Hl.
      destruct (free_below h0 rest Hr Hne) as (n & [T|] & p & A & HT).
      - destruct HT as (Sh & Hf & Hd & s & d & X & alts & -> & SX & _).
        destruct (compact_below ev1 nv nulls Hp1 Hnulls Hac cb0 h0 rest n s d X alts p Hcb0 Hr Hfit A Sh Hd) as (r & B1 & h & Eh & CT & C1).
        destruct (compact_below ev2 nv nulls Hp2 Hnulls Hac cb0 h0 rest n s d X alts p Hcb0 Hr Hfit A Sh Hd) as (r' & B2 & h' & Eh' & _ & C2).
        assert (r' = r) as ->.
        { specialize (B1 n). specialize (B2 n). cbv beta in B1, B2. rewrite Nat.ltb_irrefl in B1, B2. congruence. }
        exists n, r. split; [exact B1|]. intros h1 Eh1. assert (h1 = h) as -> by congruence. assert (h' = h) as -> by congruence.
        intros Hg0. eexists. split; [exact (CT Hg0)|]. intros Hg. destruct (C1 Hg) as (f1 & b1 & D1). destruct (C2 Hg) as (f2 & b2 & D2).
        exists (f1 + f2), (cfev ev1 fi nulls X), b1, b2. intros fuel Hfu. split; [apply D1; lia|].
        rewrite (proj2 (fev_agree ev1 ev2 fi nulls Hprod X SX (leaves_agree ev1 ev2 rest s d X alts Hne Hd Hl))). apply D2. lia.
      - destruct (total_transfer _ _ _ _ (compact_sim fi (cb_graph cb0)) P g n _ _ _ _ (cJ_start fi cb0 Hcb0) A) as ([oc b] & Ac & _ & Hc).
        exists n, (oc, b). split; [exact Ac|]. cbn [fst snd] in *. intros h ->. contradiction.
    Qed.

    (** ** Both bocages give the same values, in another order *)
    Theorem both_values : forall (ev : evaluator E), pushes ev nv -> unordered ev ->
      ordered_grammar c -> (exists d, wrapped_once c w g0 d) ->
      forall b0 cb0, bocage_new fi = Ret b0 -> cbocage_new fi = Ret cb0 ->
      forall h0 rest, in_range c nsyms h0 rest -> rest <> [] -> distinct_tokens c rest -> input_fits c rest ->
      exists n r r' l, total n (simple_run b0 h0 rest) r /\ total n (compact_run cb0 h0 rest) r' /\ finished_trees r l /\
        (fst r = None <-> fst r' = None) /\
        forall h h', fst r = Some h -> fst r' = Some h' -> graph_fits (snd r') (9 * all_inner_nodes l) ->
          exists fuel0 vs vs' b1 b2, Permutation vs vs' /\ forall fuel, fuel0 <= fuel ->
            evaluate ev fuel (snd r) h = Ret (vs, b1) /\ c_evaluate ev fuel (snd r') h' = Ret (vs', b2).
    Proof.
      intros ev Hp Hun Ho Hw b0 cb0 Hb0 Hcb0 h0 rest Hr Hne Hdt Hfit.
      destruct (free_below h0 rest Hr Hne) as (n & [T|] & p & A & HT).
      - destruct HT as (Sh & Hf & Hd & s & d & X & alts & -> & SX & Hal). rewrite (Hal Ho Hw Hdt) in *. clear Hal alts.
        destruct (simple_below ev nv nulls Hp Hnulls Hac b0 h0 rest n s d X p Hb0 A Sh Hf) as (r & B1 & h & Eh & (l & Hl & Pl) & f1 & b1 & C1).
        destruct (compact_below ev nv nulls Hp Hnulls Hac cb0 h0 rest n s d X [] p Hcb0 Hr Hfit A Sh Hd) as (r' & B2 & h' & Eh' & _ & C2).
        exists n, r, r', l. split; [exact B1|]. split; [exact B2|]. split; [exact Hl|]. split; [rewrite Eh, Eh'; split; discriminate|].
        intros h1 h1' X1 X2 Hg. assert (h1 = h) as -> by congruence. assert (h1' = h') as -> by congruence.
        assert (Hn : all_inner_nodes l = all_inner_nodes (trees (FSum s [(d, FProd (FLeaf (w_sof w) 0) X)]))).
        { apply list_sum_perm. now apply Permutation_map. }
        rewrite Hn in Hg. destruct (C2 Hg) as (f2 & b2 & D2).
        exists (f1 + f2), (fev ev fi nulls X), (cfev ev fi nulls X), b1, b2. split; [now apply cfev_perm|].
        intros fuel Hfu. split; [apply C1|apply D2]; lia.
      - destruct (new_at fi b0 Hb0) as (Hi0 & Hc0 & _).
        assert (HJ : sJ fi (b_graph b0) Idle [] b0).
        { split; [exact Hi0|]. split; [|exact Hc0]. exists []. rewrite app_nil_r. now apply done_idle. }
        destruct (total_transfer _ _ _ _ (simple_sim fi (b_graph b0)) P g n _ _ _ _ HJ A) as ([os b] & As & _ & Hs).
        destruct (total_transfer _ _ _ _ (compact_sim fi (cb_graph cb0)) P g n _ _ _ _ (cJ_start fi cb0 Hcb0) A) as ([oc cb] & Ac & _ & Hc).
        cbn [fst snd] in *. destruct os as [?|]; [contradiction|]. destruct oc as [?|]; [contradiction|].
        exists n, (None, b), (None, cb), []. split; [exact As|]. split; [exact Ac|]. split; [reflexivity|]. split; [tauto|]. discriminate.
    Qed.

    (** ** Only the rules of the start symbol, or where they split the input, differ *)
    Theorem root_readings : forall (ev : evaluator E), pushes ev nv ->
      ordered_grammar c -> (exists d, wrapped_once c w g0 d) ->
      forall b0 cb0, bocage_new fi = Ret b0 -> cbocage_new fi = Ret cb0 ->
      forall use xs, xs <> [] -> (forall s v, In (s, v) xs -> user_terminal c nsyms w s) ->
      (exists t, parse_tree R (w_inner w) t /\ yield t = xs) ->
      (forall t t', parse_tree R (w_inner w) t -> yield t = xs -> parse_tree R (w_inner w) t' -> yield t' = xs ->
         root_split t = root_split t' -> t = t') ->
      exists n h b us,
        total n (fun fuel => st <- r_new g b0 ;; parse_forest simple_forest P g fuel (hinted use 0 ((w_sof w, 0) :: xs)) st) (Some h, b) /\
        NoDup us /\ (forall t, In t us <-> parse_tree R (w_inner w) t /\ yield t = xs) /\
        (exists fuel0 b1, forall fuel, fuel0 <= fuel -> evaluate ev fuel b h = Ret (concat (map (value ev fi nulls) us), b1)) /\
        (input_fits c (hinted use 1 xs) -> exists h' b' us', Permutation us us' /\
          total n (fun fuel => st <- r_new g cb0 ;; parse_forest compact_forest P g fuel (hinted use 0 ((w_sof w, 0) :: xs)) st) (Some h', b') /\
          (graph_fits b' (9 * (length us + list_sum (map inner_nodes us))) ->
           exists fuel0 b1, forall fuel, fuel0 <= fuel -> c_evaluate ev fuel b' h' = Ret (concat (map (value ev fi nulls) us'), b1))).
    Proof.
      intros ev Hp Ho (d1 & Hw) b0 cb0 Hb0 Hcb0 use xs Hne Hu (t0 & Ht0 & Hy0) Hdist. rewrite hinted_from_start.
      assert (Hx : forall s v, In (s, v) xs -> s < nsyms /\ terminal R s).
      { intros s v H. destruct (Hu s v H) as (X & Y & _). auto. }
      pose proof (hinted_in_range c nsyms w d0 g0 HP use xs Hx) as Hr. set (h0 := if use 0 then _ else _) in *.
      assert (Hne' : hinted use 1 xs <> []) by (destruct xs; [congruence|discriminate]).
      pose proof (hinted_distinct c nsyms use xs 1 Hx) as Hdt.
      destruct (proj2 (Hw d1) eq_refl) as (r1 & Hr1 & Hl1 & Hrhs1).
      assert (Input : forall t, parse_tree R (w_inner w) t /\ yield t = xs -> input_tree c w g0 xs (Node d1 [Leaf (w_sof w) 0; t])).
      { intros t [H1 <-]. eapply it_inner; eauto. }
      destruct (free_input h0 (hinted use 1 xs) Hr Hne') as (n & o & p & A & Hsh & Hnd & Hall).
      assert (All : forall t, parse_tree R (w_inner w) t /\ yield t = xs -> exists T, o = Some T /\ den T [Node d1 [Leaf (w_sof w) 0; t]]).
      { intros t H. apply Input in H. apply (Hall (proj1 Ho) Hdt).
        - now apply hinted_read.
        - now apply (hinted_match c nsyms w g0). }
      destruct (All t0 (conj Ht0 Hy0)) as (T & -> & _). destruct (Hsh T eq_refl) as [Sh Hd]. pose proof (Hnd (proj1 Ho) Hdt T eq_refl) as HN.
      destruct (free_root Ho (ex_intro _ d1 Hw) h0 _ Hr Hne' Hdt n T p A) as (d & X0 & ET0).
      destruct (below_marker _ T Hne' Sh Hd) as (s & d' & X & alts & ET & SX). rewrite ET0 in ET. injection ET as <- <- -> <-. subst T.
      pose proof (below_read _ g0 d X [] Hne' Hd) as Below.
      assert (Ed : d = d1).
      { destruct (trees X) as [|ts ?] eqn:EX; [now elim (shape_trees X)|].
        destruct (Below ts ltac:(apply trees_den; rewrite EX; now left)) as (u & -> & _ & _ & Hr').
        destruct (read_inner _ _ Hr' Hne') as (d2 & r & u' & E1 & E2 & E3 & E4 & _). injection E4 as <- _. apply Hw. eauto. }
      subst d.
      assert (Mem : forall ts, In ts (trees X) <-> exists u, ts = [u] /\ parse_tree R (w_inner w) u /\ yield u = xs).
      { intros ts. rewrite trees_den. split.
        - intros H. destruct (Below ts H) as (u & -> & H1 & H2 & _). exists u. split; [auto|]. split; [auto|].
          rewrite hinted_toks in H2. now apply choice_one in H2.
        - intros (u & -> & H). destruct (All u H) as (T & ET & HT). injection ET as <-.
          inversion HT as [| |? ? ? ? ? Hin Hden]; subst. destruct Hin as [X0|[]]. injection X0 as <-.
          inversion Hden as [| ? ? xs1 ys1 D1 D2 |]; subst. inversion D1; subst. cbn in *. congruence. }
      assert (NX : NoDup (trees X)).
      { cbn [trees flat_map fst snd map app] in HN. rewrite !app_nil_r in HN. apply nodup_map_inv in HN. now apply nodup_map_inv in HN. }
      assert (exists us, trees X = map (fun t => [t]) us /\ fev ev fi nulls X = concat (map (value ev fi nulls) (first_last us)) /\
         cfev ev fi nulls X = concat (map (value ev fi nulls) us)) as (us & Eus & VX & CX).
      { destruct X as [sx vx|sx|lx rx|sx ax].
        - exists [Leaf sx vx]. auto.
        - contradiction.
        - exfalso. destruct (trees (FProd lx rx)) as [|ts ?] eqn:EX; [now elim (shape_trees (FProd lx rx))|].
          pose proof (trees_length (FProd lx rx) ts) as L. rewrite EX in L. specialize (L (or_introl eq_refl)). cbn in L.
          destruct (proj1 (Mem ts) (or_introl eq_refl)) as (u & -> & _). cbn in L. lia.
        - destruct (distinct_alts sx ax (length xs) SX NX) as (us & Eus & Lus).
          { intros d zs Hz. apply Mem in Hz. destruct Hz as (u & Eu & Pu & Yu). injection Eu as <-. split; [now rewrite <- Yu|].
            inversion Pu as [|d' r' ts' Hd' Hts']; subst. apply parse_trees_length in Hts'. rewrite Hts'.
            apply nth_error_In in Hd'. destruct (wf_arity _ _ _ (pr_wf _ _ _ _ _ HP) _ Hd'); lia. }
          { intros u u' H1 H2. apply Mem in H1, H2. destruct H1 as (u1 & E1 & P1 & Y1). destruct H2 as (u2 & E2 & P2 & Y2).
            injection E1 as <-. injection E2 as <-. now apply Hdist. }
          exists us. split; [exact Eus|]. split.
          + rewrite (root_ambiguous ev fi nulls sx ax us SX Eus Lus). now rewrite first_last_map.
          + destruct (cbocage_new_at fi cb0 Hcb0) as (_ & _ & Hlim & _). now apply (c_root_ambiguous E ev fi nulls sx ax us Hlim). }
      assert (Mem' : forall t, In t us <-> parse_tree R (w_inner w) t /\ yield t = xs).
      { intros t. split.
        - intros H. assert (H' : In [t] (trees X)) by (rewrite Eus; now apply (in_map (fun t => [t]))). apply Mem in H'. destruct H' as (u & Eu & H'). injection Eu as <-. exact H'.
        - intros H. assert (H' : In [t] (trees X)) by (apply Mem; eauto). rewrite Eus in H'. apply in_map_iff in H'.
          destruct H' as (u & Eu & H'). injection Eu as <-. exact H'. }
      assert (Nus : NoDup us) by (rewrite Eus in NX; now apply nodup_map_inv in NX).
      pose proof (read_fok _ _ Sh Hd) as Hf.
      destruct (simple_below ev nv nulls Hp Hnulls Hac b0 h0 _ n g0 d1 X p Hb0 A Sh Hf) as ([o1 b] & B1 & h & Eh & _ & f1 & b1 & C1).
      cbn [fst snd] in *. subst o1. exists n, h, b, (first_last us). split; [exact B1|].
      split; [now apply first_last_nodup|].
      split; [intros t; rewrite first_last_in; apply Mem'|]. split; [exists f1, b1; rewrite <- VX; exact C1|].
      intros Hfit. destruct (compact_below ev nv nulls Hp Hnulls Hac cb0 h0 _ n g0 d1 X [] p Hcb0 Hr Hfit A Sh Hd) as ([o2 b'] & B2 & h' & Eh' & _ & C2).
      cbn [fst snd] in *. subst o2. exists h', b', us.
      split. { destruct us as [|u us]; cbn; [constructor|]. apply Permutation_sym, Permutation_cons_append. }
      split; [exact B2|].
      - intros Hg. rewrite <- CX. apply C2. eapply u32_le; [|exact Hg]. apply Nat.add_le_mono_l, Nat.mul_le_mono_l.
        cbn [trees flat_map fst snd map app]. rewrite !app_nil_r, map_map, Eus, map_map. unfold all_inner_nodes. rewrite map_map. cbn [map inner_nodes].
        assert (L1 : length (first_last us) = length us) by (destruct us; cbn; rewrite ?app_length; cbn; lia).
        assert (L2 : list_sum (map inner_nodes (first_last us)) = list_sum (map inner_nodes us)).
        { apply list_sum_perm. apply Permutation_map. destruct us as [|u us']; cbn; [constructor|]. apply Permutation_sym, Permutation_cons_append. }
        rewrite L1, L2. clear. unfold list_sum. induction us as [|u us IH]; cbn [map fold_right length] in *; lia.
    Qed.
  End Results.
End Top.
