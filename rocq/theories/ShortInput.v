(** ShortInput: for inputs that are short enough the compact bocage's handles fit. *)
From Coq Require Import List Arith Bool Lia Permutation NArith.
From Verif Require Import Base BaseProofs Item Grammar DefaultGrammar Forest ForestSpec Recognizer Drive Spec SpecFacts Chart CfgSpec ClientSpec
  SimpleBocage EvalSpec TreeSpec ForestProg CompactGraph CompactBocage CompactSpec CompactEval CompactTop PropLemmas4 CostSpec CostTop.
Import ListNotations.
Local Open Scope res_scope.

(** ** A tree has linearly many inner nodes *)
Section Size.
  Variables (c : pcfg) (nsyms : nat) (rank : sym -> nat).
  Notation R := (c_rules c).
  Hypothesis Hwf : wf_rules R nsyms (c_num_syms c).
  Hypothesis Hrank : ranks_units R rank.
  Definition most_rank : nat := S (list_max (map rank (seq 0 (c_num_syms c)))).

  Lemma rank_most : forall s, s < c_num_syms c -> rank s < most_rank.
  Proof.
    intros s H. unfold most_rank. apply le_n_S. assert (X : In (rank s) (map rank (seq 0 (c_num_syms c)))) by (apply in_map, in_seq; lia).
    revert X. generalize (map rank (seq 0 (c_num_syms c))). intros l. induction l as [|a l IH]; intros X; [easy|]. destruct X as [->|X]; cbn.
    - apply Nat.le_max_l.
    - etransitivity; [now apply IH|]. apply Nat.le_max_r.
  Qed.

  Lemma tree_size :
    (forall s t, parse_tree R s t -> s < c_num_syms c -> 1 <= length (yield t) /\ inner_nodes t + rank s + most_rank <= 2 * most_rank * length (yield t)) /\
    (forall ss ts, parse_trees R ss ts -> (forall s, In s ss -> s < c_num_syms c) ->
       length ss <= length (flat_map yield ts) /\
       match ss with
       | [a] => list_sum (map inner_nodes ts) + rank a + most_rank <= 2 * most_rank * length (flat_map yield ts)
       | _ => list_sum (map inner_nodes ts) + length ss * most_rank <= 2 * most_rank * length (flat_map yield ts)
       end).
  Proof.
    apply parse_both.
    - intros s v Hs. cbn [yield length inner_nodes]. split; [lia|]. pose proof (rank_most s Hs). lia.
    - intros d r ts Hd Hts IH Hs. apply nth_error_In in Hd. destruct IH as [IH1 IH2].
      { intros s X. eapply wf_rhs_range; eauto. }
      change (yield (Node d ts)) with (flat_map yield ts). cbn [inner_nodes]. pose proof (rank_most _ Hs) as M.
      destruct (wf_arity _ _ _ Hwf r Hd) as [L|L]; destruct (p_rhs r) as [|a [|b [|]]] eqn:E; try discriminate; cbn [length] in IH1.
      + split; [lia|]. pose proof (Hrank r a Hd E). lia.
      + split; [lia|]. cbn [length] in IH2. lia.
    - intros _. cbn. lia.
    - intros s ss t ts Ht IHt Hts IHts H. destruct (IHt (H s (or_introl eq_refl))) as [A B].
      destruct IHts as [C D]; [intros; apply H; now right|].
      cbn [flat_map]. rewrite app_length. change (list_sum (map inner_nodes (t :: ts))) with (inner_nodes t + list_sum (map inner_nodes ts)).
      split; [cbn [length]; lia|]. destruct ss as [|a ss].
      + inversion Hts; subst. cbn in *. lia.
      + assert (X : list_sum (map inner_nodes ts) + length (a :: ss) * most_rank <= 2 * most_rank * length (flat_map yield ts)).
        { destruct ss as [|b ss]; [|exact D]. cbn [length]. lia. }
        cbn [length] in *. lia.
  Qed.
End Size.

Section Short.
  Variable P : perf.
  Variables (c : pcfg) (nsyms : nat) (w : wrapped_root) (d0 : nat) (g0 : sym) (g : dgrammar) (rank : sym -> nat).
  Hypothesis Hleo : LEO P = false.
  Hypothesis HB : built c nsyms w d0 g0 g.
  Hypothesis Hrank : ranks_units (c_rules c) rank.
  Let HP : processed c nsyms w d0 g0 := match HB with Build_built _ _ _ _ _ _ HP _ => HP end.

  Lemma input_tree_size : forall xs t, input_tree c w g0 xs t -> inner_nodes t <= tree_factor c rank * S (length xs).
  Proof.
    pose proof HP as HP2. destruct HP2. intros xs t H.
    apply (input_tree_yield c w g0) in H. destruct H as [H Y].
    assert (Hg : g0 < c_num_syms c).
    { destruct pr_root_rule as (r & Hr & _ & E). eapply wf_rhs_range; [exact pr_wf|eapply nth_error_In; exact Hr|]. rewrite E. now left. }
    destruct (proj1 (tree_size c nsyms rank pr_wf Hrank) g0 t H Hg) as [_ X]. rewrite Y in X. cbn [length] in X.
    change (tree_factor c rank) with (2 * most_rank c rank). lia.
  Qed.

  Lemma total_ret : forall A n (f : nat -> res A) r, total n f r -> f n = Ret r.
  Proof. intros A n f r H. rewrite (H n). now rewrite Nat.ltb_irrefl. Qed.

  Lemma u32_mono : forall a b, a <= b -> u32 b -> u32 a.
  Proof. unfold u32. intros. lia. Qed.

  (** the trees *)
  Theorem short_trees : forall s fi fi' b0 cb0, 0 < s -> bocage_new fi = Ret b0 -> cbocage_new fi' = Ret cb0 ->
    forall h0 rest, in_range c nsyms h0 rest -> (forall l, In l rest -> length (l_toks l) <= s) -> input_fits c rest ->
    u32 (length (cb_graph cb0) + 9 * cubic_factor (c_rules c) rank s * S (length rest) ^ 3) ->
    exists n r r' l l',
      total n (fun fuel => st <- r_new g b0 ;; parse_forest simple_forest P g fuel (from_start w h0 rest) st) r /\
      total n (fun fuel => st <- r_new g cb0 ;; parse_forest compact_forest P g fuel (from_start w h0 rest) st) r' /\
      (fst r = None <-> fst r' = None) /\ finished_trees r l /\ cfinished_trees r' l' /\ Permutation l l'.
  Proof.
    pose proof (compact_fits_at P c nsyms w d0 g0 g HB Hleo rank Hrank) as Hk.
    intros s fi fi' b0 cb0 Hs0 Hb Hcb h0 rest Hr Hs Hf Hu.
    destruct (both_trees P c nsyms w d0 g0 g Hleo HB fi fi' b0 cb0 Hb Hcb h0 rest Hr) as (n & r & r' & l & A & B & C & D & F).
    destruct F as (l' & F & G); [exact Hf| |exists n, r, r', l, l'; auto 7].
    unfold graph_fits. rewrite Nat.add_0_r. eapply u32_mono; [|exact Hu].
    change (S (length rest)) with (length (from_start w h0 rest)). apply (Hk s cb0 n (from_start w h0 rest) r').
    - intros loc [<-|Hin].
      + cbn. split; [lia|]. intros t v [E|[]]. injection E as <- _. pose proof (pr_sof_range _ _ _ _ _ HP). pose proof (pr_le _ _ _ _ _ HP). lia.
      + split; [apply Hs in Hin; lia|]. intros t v. now apply Hr.
    - apply (total_ret _ _ _ _ B).
  Qed.

  Lemma hinted_length : forall use j xs, length (hinted use j xs) = length xs.
  Proof. intros use j xs. revert j. induction xs as [|x xs IH]; intros j; cbn; auto. Qed.
  Lemma hinted_one : forall use xs j loc, In loc (hinted use j xs) -> exists x, In x xs /\ l_toks loc = [x].
  Proof.
    intros use xs. induction xs as [|x xs IH]; intros j loc H; [easy|]. destruct H as [<-|H]; [exists x; cbn; auto|].
    destruct (IH _ _ H) as (y & A & B). exists y. cbn; auto.
  Qed.

  (** one token at a location: the parse leaves a graph that fits *)
  Lemma short_graph : forall cb0 use xs, (forall s v, In (s, v) xs -> user_terminal c nsyms w s) ->
    forall n r, total n (fun fuel => st <- r_new g cb0 ;; parse_forest compact_forest P g fuel (hinted use 0 ((w_sof w, 0) :: xs)) st) r ->
    length (cb_graph (snd r)) <= length (cb_graph cb0) + 9 * cubic_factor (c_rules c) rank 1 * S (length xs) ^ 3.
  Proof.
    pose proof (compact_fits_at P c nsyms w d0 g0 g HB Hleo rank Hrank 1) as Hk. intros cb0 use xs Hu n r H.
    replace (S (length xs)) with (length (hinted use 0 ((w_sof w, 0) :: xs))) by now rewrite hinted_length.
    apply (Hk cb0 n _ r).
    - intros loc Hin. apply hinted_one in Hin. destruct Hin as (x & Hin & ->). cbn. split; [lia|]. intros t v [->|[]].
      pose proof (pr_le _ _ _ _ _ HP) as L. destruct Hin as [E|Hin].
      + injection E as <- _. pose proof (pr_sof_range _ _ _ _ _ HP). lia.
      + destruct (Hu _ _ Hin) as (X & _). lia.
    - apply (total_ret _ _ _ _ H).
  Qed.

  (** the values *)
  Theorem short_value : forall cb0, cbocage_new (g_forest_info g) = Ret cb0 ->
    forall E (ev : evaluator E) nv nulls,
    pushes ev nv -> nulls_ok (g_forest_info g) nv nulls -> nulling_acyclic (g_forest_info g) ->
    forall use xs, (forall s v, In (s, v) xs -> user_terminal c nsyms w s) -> sorted_rules c ->
    forall t0, (forall t, input_tree c w g0 xs t <-> t = t0) -> input_fits c (hinted use 1 xs) ->
    forall times, u32 (length (cb_graph cb0) + 9 * cubic_factor (c_rules c) rank 1 * S (length xs) ^ 3 + times * (9 * tree_factor c rank * S (length xs))) ->
    exists n h b,
      total n (fun fuel => st <- r_new g cb0 ;; parse_forest compact_forest P g fuel (hinted use 0 ((w_sof w, 0) :: xs)) st) (Some h, b) /\
      exists fuel0 b', forall fuel, fuel0 <= fuel -> c_evaluate_each ev fuel (repeat h times) b =
        Ret (repeat (match t0 with
                     | Node _ [_; t] => value ev (g_forest_info g) nulls t
                     | _ => []
                     end) times, b').
  Proof.
    intros cb0 Hcb E ev nv nulls Hp Hn Ha use xs Hu Hs t0 Ht Hf times U.
    destruct (compact_value P c nsyms w d0 g0 g Hleo HB cb0 Hcb ev nv nulls Hp Hn Ha use xs Hu Hs t0 Ht Hf) as (n & h & b & A & B).
    exists n, h, b. split; [exact A|]. apply B. unfold graph_fits. eapply u32_mono; [|exact U].
    pose proof (short_graph cb0 use xs Hu n _ A) as X. cbn [snd] in X. pose proof (input_tree_size xs t0 (proj2 (Ht t0) eq_refl)) as Y.
    assert (times * (9 * inner_nodes t0) <= times * (9 * tree_factor c rank * S (length xs))) by (apply Nat.mul_le_mono_l; lia). lia.
  Qed.

  Theorem short_same_value : forall b0 cb0, bocage_new (g_forest_info g) = Ret b0 -> cbocage_new (g_forest_info g) = Ret cb0 ->
    forall E (ev : evaluator E) nv nulls,
    pushes ev nv -> nulls_ok (g_forest_info g) nv nulls -> nulling_acyclic (g_forest_info g) ->
    forall use xs, xs <> [] -> (forall s v, In (s, v) xs -> user_terminal c nsyms w s) -> sorted_rules c ->
    forall t0, (forall t, input_tree c w g0 xs t <-> t = t0) -> input_fits c (hinted use 1 xs) ->
    forall times, u32 (length (cb_graph cb0) + 9 * cubic_factor (c_rules c) rank 1 * S (length xs) ^ 3 + times * (9 * tree_factor c rank * S (length xs))) ->
    exists n h b h' b',
      total n (fun fuel => st <- r_new g b0 ;; parse_forest simple_forest P g fuel (hinted use 0 ((w_sof w, 0) :: xs)) st) (Some h, b) /\
      total n (fun fuel => st <- r_new g cb0 ;; parse_forest compact_forest P g fuel (hinted use 0 ((w_sof w, 0) :: xs)) st) (Some h', b') /\
      exists fuel0 vs b1 b1', forall fuel, fuel0 <= fuel ->
        evaluate_each ev fuel (repeat h times) b = Ret (vs, b1) /\ c_evaluate_each ev fuel (repeat h' times) b' = Ret (vs, b1').
  Proof.
    intros b0 cb0 Hb Hcb E ev nv nulls Hp Hn Ha use xs Hx Hu Hs t0 Ht Hf times U.
    destruct (same_value P c nsyms w d0 g0 g Hleo HB b0 cb0 Hb Hcb E ev nv nulls Hp Hn Ha use xs Hx Hu Hs t0 Ht Hf) as (n & h & b & h' & b' & A & A' & B).
    exists n, h, b, h', b'. split; [exact A|]. split; [exact A'|]. apply B. unfold graph_fits. eapply u32_mono; [|exact U].
    pose proof (short_graph cb0 use xs Hu n _ A') as X. cbn [snd] in X. pose proof (input_tree_size xs t0 (proj2 (Ht t0) eq_refl)) as Y.
    assert (times * (9 * inner_nodes t0) <= times * (9 * tree_factor c rank * S (length xs))) by (apply Nat.mul_le_mono_l; lia). lia.
  Qed.
End Short.

Lemma built_ranked : forall c nsyms w d0 g0 g, built c nsyms w d0 g0 g -> exists rank, ranks_units (c_rules c) rank.
Proof. intros c nsyms w d0 g0 g HB. exact (pr_acyclic _ _ _ _ _ (b_processed _ _ _ _ _ _ HB)). Qed.
