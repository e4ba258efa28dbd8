(** PropLemmas10: the parse trees of the user's grammar and those of the processed grammar,
    from CrateTrees.v. *)
From Coq Require Import List Arith Bool Lia.
From Verif Require Import Trees.
From Verif Require Import Base BaseProofs Grammar BitMatrix DefaultGrammar Forest Recognizer Drive Parse Spec SpecFacts Chart CfgSpec
  ForestSpec ClientSpec TreeSpec EvalSpec TablesProofs SimpleBocage SimpleEval ForestProg CompactBocage CompactSpec CompactGraph CompactProofs CompactTop PropLemmas PropLemmas4 FromGrammar CrateSpec UserSpec UserTreeSpec CrateFacts CrateProcessed
  CrateTrees CrateOrdered PropLemmas9.
Import ListNotations.
Local Open Scope res_scope.

Notation numbered f := (map (fun e : sym * nat => (f (fst e), snd e))).

(** [rd t u]: the tree [t] of the processed grammar is the tree [u] of the user's *)
Record user_forest (U : pcfg) (start : sym) (c : pcfg) (w : wrapped_root) (g0 : sym) (g : dgrammar) (f : sym -> sym)
  (rd : tree -> utree -> Prop) : Prop := {
  uf_sorted : sorted_rules c;
  uf_inner : w_inner w = f start;
  uf_sof : g_sof_sym g = w_sof w;
  uf_known : forall s, known U start s -> visible (c_rules U) s -> to_internal g s = Ret (Some (f s));
  uf_apart : forall s t, known U start s -> known U start t -> visible (c_rules U) t -> s <> t -> f s <> f t;
  uf_syms : g_syms g + g_gensyms g = c_num_syms c;
  uf_rules : length (g_col0 g) = length (c_rules c);
  uf_acyclic : nulling_acyclic (g_forest_info g);
  uf_fun : forall t u u', rd t u -> rd t u' -> u = u';
  uf_sound : forall xs t, (forall a v, In (a, v) xs -> token U start a) -> input_tree c w g0 (numbered f xs) t ->
    exists u, rd t u /\ user_parse U start xs u;
  uf_complete : forall xs u, (forall a v, In (a, v) xs -> token U start a) -> user_parse U start xs u ->
    exists t, input_tree c w g0 (numbered f xs) t /\ rd t u;
  uf_injective : distinct_ids U -> forall xs t t' u, (forall a v, In (a, v) xs -> token U start a) -> input_tree c w g0 (numbered f xs) t ->
    input_tree c w g0 (numbered f xs) t' -> rd t u -> rd t' u -> t = t';
  uf_value : forall A (nv : sym -> A), exists nulls, nulls_ok (g_forest_info g) nv nulls /\
    forall (ev : evaluator A) xs t u, (forall a v, In (a, v) xs -> token U start a) -> input_tree c w g0 (numbered f xs) t -> rd t u ->
      match t with
      | Node _ [_; t1] => (forall s, u <> UNull s) /\ value ev (g_forest_info g) nulls t1 = [uvalue ev nv f u]
      | _ => u = UNull start
      end;
  uf_split : forall xs d k t1 u d' k' t1' u', (forall a v, In (a, v) xs -> token U start a) ->
    input_tree c w g0 (numbered f xs) (Node d [k; t1]) -> rd (Node d [k; t1]) u ->
    input_tree c w g0 (numbered f xs) (Node d' [k'; t1']) -> rd (Node d' [k'; t1']) u' ->
    root_split t1 = root_split t1' -> top_split u = top_split u';
  uf_size : forall xs d k t1 u, (forall a v, In (a, v) xs -> token U start a) ->
    input_tree c w g0 (numbered f xs) (Node d [k; t1]) -> rd (Node d [k; t1]) u -> 1 + inner_nodes t1 <= usize u;
  uf_ordered : nulling_only_short U start -> no_unit_steps U start -> ordered_grammar c /\ exists d, wrapped_once c w g0 d
}.

Lemma user_forest_of : forall X U start W B E c0 w0 m head nulling origin maps f, user_grammar U start ->
  elaborates X U start W B E c0 w0 m head nulling origin maps f ->
  numbers_apart B E f -> map w_inner (c_wrapped c0) = [f start] ->
  null_prefixes_visible U start ->
  forall k g nsyms w d0 h0 order, shaped_built (sort_rules_by_lhs c0) nsyms w d0 (f h0) g ->
    remapped (remap_cmp order) E c0 maps f -> (c_num_syms W <= h0 < c_num_syms B) -> w_sof w = f (w_sof w0) ->
    (exists r, In r (c_rules B) /\ p_lhs r = h0 /\ p_rhs r = [w_sof w0; start]) ->
    from_processed_grammars k (sort_rules_by_lhs c0) maps nulling (x_first X (sort_rules_by_lhs c0)) (x_follow X (sort_rules_by_lhs c0)) = Ret g ->
    (forall s, used (c_rules E) s -> (kept_gen W B E s <-> nsyms <= f s)) ->
    exists rd, user_forest U start (sort_rules_by_lhs c0) w (f h0) g f rd.
Proof.
  intros X U start W B E c0 w0 m head nulling origin maps f HU HX Hap Hinn Hvis k g nsyms w d0 h0 order HB HR Hh0 Esof Hg0r HT Hsplit.
  destruct (from_processed_inv _ _ _ _ _ _ _ HT) as (gens & w1 & dbe & by0 & comps & Hinv).
  assert (Hw1 : nth_error (c_wrapped (sort_rules_by_lhs c0)) 0 = Some w1) by (decompose [and] Hinv; auto).
  pose proof (sb_shaped _ _ _ _ _ _ HB) as HP. rewrite (sh_wrapped _ _ _ _ _ HP) in Hw1. injection Hw1 as <-.
  assert (Em : g_maps g = maps) by (decompose [and] Hinv; auto).
  assert (Es : g_sof_sym g = w_sof w) by (decompose [and] Hinv; auto).
  assert (Hfi : nulling_intermediate maps nulling = Ret (fi_nulling_intermediate (g_forest_info g))) by (decompose [and] Hinv; auto).
  assert (Hfe : fi_eval (g_forest_info g) = map p_origin (c_rules (sort_rules_by_lhs c0))) by (decompose [and] Hinv; auto).
  assert (Hfn : fi_nulling_eliminated (g_forest_info g) = map p_nullable (c_rules (sort_rules_by_lhs c0))) by (decompose [and] Hinv; auto).
  assert (Esy : g_syms g + g_gensyms g = c_num_syms (sort_rules_by_lhs c0)).
  { pose proof (sh_gens _ _ _ _ _ HP). pose proof (sh_le _ _ _ _ _ HP). decompose [and] Hinv. assert (gens = c_num_syms (sort_rules_by_lhs c0) - nsyms) by congruence. lia. }
  assert (Eru : length (g_col0 g) = length (c_rules (sort_rules_by_lhs c0))).
  { decompose [and] Hinv. match goal with H : g_col0 g = _ |- _ => rewrite H end. apply map_length. }
  clear Hinv. destruct (idx_onto E c0 maps f order HR) as (p & Pinj & Pback & Ponto).
  assert (Einner : w_inner w = f start).
  { pose proof (sh_wrapped _ _ _ _ _ HP) as K. change (c_wrapped (sort_rules_by_lhs c0)) with (c_wrapped c0) in K.
    destruct (c_wrapped c0) as [|w' l]; [discriminate Hinn|]. injection K as ->. cbn in Hinn. congruence. }
  pose proof (sh_sof_terminal _ _ _ _ _ HP) as Tsof. rewrite Esof in Tsof.
  assert (Hleaf : forall xs, (forall a v, In (a, v) xs -> token U start a) -> forall (a : sym) (v : nat), In (a, v) xs -> leaf_ok U W E c0 f a).
  { intros xs Hx a v Hin. destruct (Hx a v Hin) as (La & Ta & Ka).
    assert (Ua : used (c_rules E) a) by now apply (known_used _ _ _ _ _ _ _ _ _ _ _ _ _ _ HU HX Hvis a La Ta).
    split; [auto|]. split; [pose proof (U_W _ _ _ _ _ _ _ _ _ _ _ _ _ _ HX); lia|]. split; [auto|].
    apply (remap_terminal _ _ _ _ _ HR a Ua). exact (known_terminal _ _ _ _ _ _ _ _ _ _ _ _ _ _ HU HX a La Ta). }
  assert (Hread : forall xs t, input_tree (sort_rules_by_lhs c0) w (f h0) (numbered f xs) t <-> reading c0 w0 f h0 xs t).
  { intros xs t. unfold reading. rewrite <- Esof. split; [apply input_tree_yield|].
    intros [H1 H2]. exact (input_tree_inv _ _ _ _ _ HP _ _ H1 H2). }
  assert (HuB : forall s, known U start s -> used (c_rules B) s).
  { intros s Ks. apply (used_W_B _ _ _ _ _ _ _ _ _ _ _ _ _ _ HX).
    pose proof (eb_proper _ _ _ _ _ _ _ _ _ _ _ _ _ _ HX) as HPr. pose proof (proj2 (eb_wrap _ _ _ _ _ _ _ _ _ _ _ _ _ _ HX)) as HW.
    destruct Ks as [->|(r & Hr & Hu & Hs)].
    + destruct (wr_rules _ _ _ _ HW) as (l1 & l2 & r0 & _ & E2 & _ & E3 & _). exists r0. rewrite E2, E3. split; [apply in_app_iff; simpl; auto|simpl; auto].
    + exists r. split; [|auto]. apply (wrap_rule _ _ _ _ HW). left. apply (mp_rules _ _ _ HPr). auto. }
  assert (HuE : forall s, known U start s -> visible (c_rules U) s -> used (c_rules E) s).
  { intros s Ks Vs. pose proof (HuB s Ks) as Us. apply (vis_used _ _ _ _ _ _ _ _ _ _ _ _ _ _ HU HX Hvis); [auto|].
    destruct Ks as [->|(r & Hr & Hu & Hs)]; [exact (vis_start _ _ _ _ _ _ _ _ _ _ _ _ _ _ HU HX (fun _ => Vs))|].
    apply (visible_up _ _ _ _ _ _ _ _ _ _ _ _ _ _ HU HX); [|auto]. exists r. split; [|auto].
    apply (mp_rules _ _ _ (eb_proper _ _ _ _ _ _ _ _ _ _ _ _ _ _ HX)). auto. }
  exists (reads E c0 w0 m f p (g_forest_info g)). split.
  - apply P_sorted.
  - exact Einner.
  - exact Es.
  - intros s Ks Vs. unfold to_internal. rewrite Em. apply (rm_internal _ _ _ _ _ HR). now apply HuE.
  - intros s t Ks Kt Vt N K. pose proof (HuE t Kt Vt) as Ut. destruct (used_dec E s) as [Us|Us].
    + apply N. exact (rm_injective _ _ _ _ _ HR s t Us Ut K).
    + exact (Hap s t (HuB s Ks) Us Ut K).
  - exact Esy.
  - exact Eru.
  - exact (ni_acyclic _ _ _ _ _ _ _ _ _ _ _ _ _ _ HU HX Hvis order HR p Pinj _ Hfi).
  - unfold reads. intros t u u' H1 H2. congruence.
  - intros xs t Hx Ht. apply Hread in Ht.
    exact (top_sound _ _ _ _ _ _ _ _ _ _ _ _ _ _ HU HX Hvis order HR p Pinj Pback _ Hfe Hfi h0 Hh0 Hg0r Tsof xs t (Hleaf xs Hx) Ht).
  - intros xs u Hx [Hu Hy]. destruct (top_complete _ _ _ _ _ _ _ _ _ _ _ _ _ _ HU HX Hvis order HR p Pinj Pback Ponto _ Hfe Hfi h0 Hh0 Hg0r Tsof xs u (Hleaf xs Hx) Hu Hy) as (t & H1 & H2).
    exists t. split; [now apply Hread|auto].
  - intros Hids xs t t' u Hx H1 H2. apply Hread in H1, H2.
    exact (top_injective _ _ _ _ _ _ _ _ _ _ _ _ _ _ HU HX Hvis order HR p Pinj Pback _ Hfe Hfi Hids h0 Hh0 Hg0r Tsof xs t t' u (Hleaf xs Hx) H1 H2).
  - intros A nv. exists (nullsG E m f f (g_forest_info g) nv).
    split; [exact (nullsG_ok _ _ _ _ _ _ _ _ _ _ _ _ _ _ HU HX Hvis order HR p Pinj f _ (fun s _ => eq_refl) Hap Hfi A nv)|].
    intros ev xs t u Hx H1 H2. apply Hread in H1.
    exact (top_value _ _ _ _ _ _ _ _ _ _ _ _ _ _ HU HX Hvis order HR Hap p Pinj Pback _ Hfe Hfn Hfi h0 Hh0 Hg0r Tsof A ev nv xs t u (Hleaf xs Hx) H1 H2).
  - intros xs d k1 t1 u d' k1' t1' u' Hx H1 H2 H3 H4 H5. apply Hread in H1, H3.
    exact (top_split_of _ _ _ _ _ _ _ _ _ _ _ _ _ _ HU HX Hvis order HR p Pinj Pback _ Hfe Hfi h0 Hh0 Hg0r Tsof xs _ _ _ _ _ _ _ _ (Hleaf xs Hx) H1 H2 H3 H4 H5).
  - intros xs d k1 t1 u Hx H1 H2. apply Hread in H1.
    exact (top_size _ _ _ _ _ _ _ _ _ _ _ _ _ _ HU HX Hvis order HR p Pinj Pback _ Hfe Hfi h0 Hh0 Hg0r Tsof xs _ _ _ _ (Hleaf xs Hx) H1 H2).
  - intros Hshort Hunit. split.
    + exact (user_ordered _ _ _ _ _ _ _ _ _ _ _ _ _ _ HU HX Hunit order HR Hshort nsyms Hsplit).
    + exact (user_wrapped_once _ _ _ _ _ _ _ _ _ _ _ _ _ _ HU HX order HR Hshort h0 w Hh0 Esof Einner Hg0r).
Qed.

Lemma user_forest_built : forall X U start, user_grammar U start -> crate_apart X U start ->
  null_prefixes_visible U start -> no_cycles U ->
  exists k g c nsyms w d0 g0 f rd, (forall fuel, k <= fuel -> from_grammar X fuel U = Ret g) /\
    user_built U start c nsyms w d0 g0 g f /\ user_forest U start c w g0 g f rd.
Proof.
  intros X U start HU (W & B & E & c0 & w0 & m & head & nulling & origin & maps & f & HX & Hap & Hinn) Hvis Hcyc.
  destruct (user_built_of _ _ _ _ _ _ _ _ _ _ _ _ _ _ HU HX Hvis Hcyc) as (k & g & nsyms & w & d0 & h0 & order & Hk & HB & HR & Hh0 & Esof & _ & Hg0r & HT & _ & Hsplit).
  destruct (user_forest_of _ _ _ _ _ _ _ _ _ _ _ _ _ _ HU HX Hap Hinn Hvis k g nsyms w d0 h0 order (ub_built _ _ _ _ _ _ _ _ _ HB) HR Hh0 Esof Hg0r HT Hsplit) as (rd & HF).
  exists k, g, (sort_rules_by_lhs c0), nsyms, w, d0, (f h0), f, rd. auto.
Qed.

Lemma numbered_terminals : forall U start c nsyms w d0 g0 g f xs, user_built U start c nsyms w d0 g0 g f ->
  (forall a v, In (a, v) xs -> token U start a) -> forall s v, In (s, v) (numbered f xs) -> user_terminal c nsyms w s.
Proof.
  intros U start c nsyms w d0 g0 g f xs HB Hx s v Hin. apply in_map_iff in Hin. destruct Hin as ((a & v') & K & Hin). injection K as <- <-.
  apply (ub_known _ _ _ _ _ _ _ _ _ HB). exact (Hx a v' Hin).
Qed.

Lemma numbered_tokens : forall U start c nsyms w f xs, (forall t, token U start t -> user_terminal c nsyms w (f t)) ->
  (forall a v, In (a, v) xs -> token U start a) -> forall s v, In (s, v) (numbered f xs) -> user_terminal c nsyms w s.
Proof.
  intros U start c nsyms w f xs Ht Hx s v Hin. apply in_map_iff in Hin. destruct Hin as ((a & v') & K & Hin). injection K as <- <-.
  apply Ht. exact (Hx a v' Hin).
Qed.

Lemma user_value_of : forall U start c nsyms w d0 g0 g f rd, shaped_built c nsyms w d0 g0 g ->
  (forall t, token U start t -> user_terminal c nsyms w (f t)) -> user_forest U start c w g0 g f rd -> distinct_ids U ->
  forall P, LEO P = false -> forall b0, bocage_new (g_forest_info g) = Ret b0 ->
    forall E (ev : evaluator E) nv, pushes ev nv ->
    forall use xs u, Forall (fun x => token U start (fst x)) xs -> (forall u', user_parse U start xs u' <-> u' = u) ->
    (exists fuel, (st <- r_new g b0 ;;
        parse_forest simple_forest P g fuel (hinted use 0 ((g_sof_sym g, 0) :: map (fun x => (f (fst x), snd x)) xs)) st) <> NoFuel) ->
    exists n h b, total n (fun fuel => st <- r_new g b0 ;;
        parse_forest simple_forest P g fuel (hinted use 0 ((g_sof_sym g, 0) :: map (fun x => (f (fst x), snd x)) xs)) st) (Some h, b) /\
      forall k, exists fuel0 b', forall fuel, fuel0 <= fuel ->
        evaluate_each ev fuel (repeat h k) b = Ret (repeat (uresult ev nv f u) k, b').
Proof.
  intros U start c nsyms w d0 g0 g f rd HB Htok HF Hids P HP b0 Hb0 E ev nv Hpush use xs u Hx0 Hu Hends.
  assert (Hx : forall a v, In (a, v) xs -> token U start a) by (intros a v Hin; rewrite Forall_forall in Hx0; exact (Hx0 _ Hin)).
  destruct (uf_value _ _ _ _ _ _ _ _ HF E nv) as (nulls & Hn & Hval).
  destruct (uf_complete _ _ _ _ _ _ _ _ HF xs u Hx (proj2 (Hu u) eq_refl)) as (t0 & Ht0 & Hr0).
  assert (Huniq : forall t, input_tree c w g0 (numbered f xs) t <-> t = t0).
  { intros t. split; [|intros ->; exact Ht0]. intros Ht. destruct (uf_sound _ _ _ _ _ _ _ _ HF xs t Hx Ht) as (u' & Hr & Hp).
    apply Hu in Hp. subst u'. exact (uf_injective _ _ _ _ _ _ _ _ HF Hids xs t t0 u Hx Ht Ht0 Hr Hr0). }
  rewrite (uf_sof _ _ _ _ _ _ _ _ HF) in *.
  destruct (P_value_any P c nsyms w d0 g0 g HP HB b0 Hb0 ev nv nulls Hpush Hn (uf_acyclic _ _ _ _ _ _ _ _ HF) use (numbered f xs)
    (numbered_tokens _ _ _ _ _ _ _ Htok Hx) (uf_sorted _ _ _ _ _ _ _ _ HF) Hends t0 Huniq) as (n & h & b & H1 & H2).
  exists n, h, b. split; [exact H1|]. intros j. destruct (H2 j) as (fuel0 & b' & H3). exists fuel0, b'. intros fuel Hf. rewrite (H3 fuel Hf).
  rewrite (uf_inner _ _ _ _ _ _ _ _ HF). specialize (Hval ev xs t0 u Hx Ht0 Hr0).
  inversion Ht0 as [d r t1 Hd Hl1 Hr1 Hp E1|d r Hd Hl1 Hr1 E1]; subst t0.
  - destruct Hval as [Hne Hval]. rewrite Hval. destruct u; try reflexivity. contradiction (Hne s eq_refl).
  - rewrite Hval. reflexivity.
Qed.

Lemma user_ends : forall U start c nsyms w d0 g0 g f rd, user_built U start c nsyms w d0 g0 g f -> user_forest U start c w g0 g f rd ->
  forall P, LEO P = false -> forall b0, bocage_new (g_forest_info g) = Ret b0 ->
  forall use xs, Forall (fun x => token U start (fst x)) xs ->
    (exists fuel, (st <- r_new g b0 ;;
        parse_forest simple_forest P g fuel (hinted use 0 ((g_sof_sym g, 0) :: map (fun x => (f (fst x), snd x)) xs)) st) <> NoFuel).
Proof.
  intros U start c nsyms w d0 g0 g f rd HB HF P HP b0 Hb0 use xs Hx0. rewrite (uf_sof _ _ _ _ _ _ _ _ HF).
  apply (hinted_ends P c nsyms w d0 g0 g HP (ub_built _ _ _ _ _ _ _ _ _ HB) _ b0 Hb0 use (numbered f xs)).
  apply (numbered_terminals _ _ _ _ _ _ _ _ _ _ HB). intros a v Hin. rewrite Forall_forall in Hx0. exact (Hx0 _ Hin).
Qed.

Lemma P_user_value : forall X U start, user_grammar U start -> crate_apart X U start ->
  null_prefixes_visible U start -> no_cycles U -> distinct_ids U -> forall P, LEO P = false ->
  exists k g f, (forall fuel, k <= fuel -> from_grammar X fuel U = Ret g) /\
    (forall s, known U start s -> visible (c_rules U) s -> to_internal g s = Ret (Some (f s))) /\
    (forall s t, known U start s -> known U start t -> visible (c_rules U) t -> s <> t -> f s <> f t) /\
    forall b0, bocage_new (g_forest_info g) = Ret b0 ->
    forall E (ev : evaluator E) nv, pushes ev nv ->
    forall use xs u, Forall (fun x => token U start (fst x)) xs -> (forall u', user_parse U start xs u' <-> u' = u) ->
    exists n h b, total n (fun fuel => st <- r_new g b0 ;;
        parse_forest simple_forest P g fuel (hinted use 0 ((g_sof_sym g, 0) :: map (fun x => (f (fst x), snd x)) xs)) st) (Some h, b) /\
      forall k, exists fuel0 b', forall fuel, fuel0 <= fuel ->
        evaluate_each ev fuel (repeat h k) b = Ret (repeat (uresult ev nv f u) k, b').
Proof.
  intros X U start HU HC Hvis Hcyc Hids P HP.
  destruct (user_forest_built X U start HU HC Hvis Hcyc) as (k & g & c & nsyms & w & d0 & g0 & f & rd & Hk & HB & HF).
  exists k, g, f. split; [exact Hk|]. split; [exact (uf_known _ _ _ _ _ _ _ _ HF)|]. split; [exact (uf_apart _ _ _ _ _ _ _ _ HF)|].
  intros b0 Hb0 E ev nv Hpush use xs u Hx Hu.
  exact (user_value_of U start c nsyms w d0 g0 g f rd (ub_built _ _ _ _ _ _ _ _ _ HB) (fun t Ht => proj2 (ub_known _ _ _ _ _ _ _ _ _ HB t Ht)) HF Hids P HP b0 Hb0
    E ev nv Hpush use xs u Hx Hu (user_ends _ _ _ _ _ _ _ _ _ _ HB HF P HP b0 Hb0 use xs Hx)).
Qed.

Lemma hinted_toks : forall use xs i l s v, In l (hinted use i xs) -> In (s, v) (l_toks l) -> In (s, v) xs.
Proof.
  intros use xs. induction xs as [|x xs IH]; intros i l s v Hl Hin; [destruct Hl|]. destruct Hl as [<-|Hl].
  - cbn in Hin. destruct x. destruct Hin as [K|[]]. left. congruence.
  - right. eapply IH; eauto.
Qed.

Lemma user_compact_of : forall U start c nsyms w d0 g0 g f rd, shaped_built c nsyms w d0 g0 g ->
  (forall t, token U start t -> user_terminal c nsyms w (f t)) -> user_forest U start c w g0 g f rd -> distinct_ids U ->
  forall P, LEO P = false -> forall b0, cbocage_new (g_forest_info g) = Ret b0 ->
    u32 (g_syms g + g_gensyms g) -> u32 (length (g_col0 g)) ->
    forall E (ev : evaluator E) nv, pushes ev nv ->
    forall use xs u, Forall (fun x => token U start (fst x)) xs -> Forall (fun x => u32 (snd x)) xs ->
    (forall u', user_parse U start xs u' <-> u' = u) ->
    (exists fuel, (st <- r_new g b0 ;;
        parse_forest compact_forest P g fuel (hinted use 0 ((g_sof_sym g, 0) :: map (fun x => (f (fst x), snd x)) xs)) st) <> NoFuel) ->
    exists n h b more, total n (fun fuel => st <- r_new g b0 ;;
        parse_forest compact_forest P g fuel (hinted use 0 ((g_sof_sym g, 0) :: map (fun x => (f (fst x), snd x)) xs)) st) (Some h, b) /\
      forall k, graph_fits b (k * more) -> exists fuel0 b', forall fuel, fuel0 <= fuel ->
        c_evaluate_each ev fuel (repeat h k) b = Ret (repeat (match xs with [] => [] | _ => [uvalue ev nv f u] end) k, b').
Proof.
  intros U start c nsyms w d0 g0 g f rd HB Htok HF Hids P HP b0 Hb0 F1 F2 E ev nv Hpush use xs u Hx0 Hv0 Hu Hends.
  assert (Hx : forall a v, In (a, v) xs -> token U start a) by (intros a v Hin; rewrite Forall_forall in Hx0; exact (Hx0 _ Hin)).
  destruct (uf_value _ _ _ _ _ _ _ _ HF E nv) as (nulls & Hn & Hval).
  destruct (uf_complete _ _ _ _ _ _ _ _ HF xs u Hx (proj2 (Hu u) eq_refl)) as (t0 & Ht0 & Hr0).
  assert (Huniq : forall t, input_tree c w g0 (numbered f xs) t <-> t = t0).
  { intros t. split; [|intros ->; exact Ht0]. intros Ht. destruct (uf_sound _ _ _ _ _ _ _ _ HF xs t Hx Ht) as (u' & Hr & Hp).
    apply Hu in Hp. subst u'. exact (uf_injective _ _ _ _ _ _ _ _ HF Hids xs t t0 u Hx Ht Ht0 Hr Hr0). }
  rewrite (uf_sof _ _ _ _ _ _ _ _ HF) in *.
  apply (ends_back _ _ _ _ (compact_sim _ (cb_graph b0)) P g _ _ _ (cJ_start _ b0 Hb0)) in Hends.
  destruct (compact_value_any P c nsyms w d0 g0 g HP HB b0 Hb0 ev nv nulls Hpush Hn (uf_acyclic _ _ _ _ _ _ _ _ HF) use (numbered f xs)
    (numbered_tokens _ _ _ _ _ _ _ Htok Hx) (uf_sorted _ _ _ _ _ _ _ _ HF) Hends t0 Huniq) as (n & h & b & H1 & H2).
  { unfold input_fits. rewrite <- (uf_syms _ _ _ _ _ _ _ _ HF), <- (uf_rules _ _ _ _ _ _ _ _ HF). split; [exact F1|]. split; [exact F2|]. intros l s v Hl Hin. apply (hinted_toks _ _ _ _ _ _ Hl) in Hin. apply in_map_iff in Hin.
    destruct Hin as ((a & v') & K & Hin). injection K as _ <-. rewrite Forall_forall in Hv0. exact (Hv0 _ Hin). }
  exists n, h, b, (9 * inner_nodes t0). split; [exact H1|]. intros j Hj. destruct (H2 j Hj) as (fuel0 & b' & H3). exists fuel0, b'. intros fuel Hf. rewrite (H3 fuel Hf).
  specialize (Hval ev xs t0 u Hx Ht0 Hr0). pose proof (proj2 (Hu u) eq_refl) as [Hut Huy].
  inversion Ht0 as [d r t1 Hd Hl1 Hr1 Hp E1 E2|d r Hd Hl1 Hr1 E1 E2]; subst t0.
  - destruct Hval as [Hne Hval]. rewrite Hval. destruct xs as [|x xs]; [|reflexivity]. exfalso.
    inversion Hut as [s v Hterm|s Hnull|r' id ts Hr' Eo HFo Hy]; subst; [discriminate Huy|exact (Hne _ eq_refl)|exact (Hy Huy)].
  - destruct xs; [reflexivity|discriminate E1].
Qed.

Lemma user_free_ends : forall U start c nsyms w d0 g0 g f rd, user_built U start c nsyms w d0 g0 g f -> user_forest U start c w g0 g f rd ->
  forall P, LEO P = false -> forall b0, cbocage_new (g_forest_info g) = Ret b0 ->
  forall use xs, Forall (fun x => token U start (fst x)) xs ->
    exists fuel, (st <- r_new g b0 ;;
        parse_forest compact_forest P g fuel (hinted use 0 ((g_sof_sym g, 0) :: map (fun x => (f (fst x), snd x)) xs)) st) <> NoFuel.
Proof.
  intros U start c nsyms w d0 g0 g f rd HB HF P HP b0 Hb0 use xs Hx0. rewrite (uf_sof _ _ _ _ _ _ _ _ HF).
  pose proof (ub_built _ _ _ _ _ _ _ _ _ HB) as HB'. pose proof (b_processed _ _ _ _ _ _ HB') as HP'.
  rewrite hinted_from_start.
  destruct (free_trees P c nsyms w d0 g0 g HP HB' (from_start w (if use 0 then hd_error (map fst (numbered f xs)) else None) (hinted use 1 (numbered f xs)))) as (n & o & p & A & _).
  - apply (from_start_ok c nsyms w d0 g0 HP'). apply (hinted_in_range c nsyms w d0 g0 HP'). intros s v Hin.
    destruct (numbered_terminals _ _ _ _ _ _ _ _ _ _ HB ltac:(intros a v' Hi; rewrite Forall_forall in Hx0; exact (Hx0 _ Hi)) s v Hin) as (K1 & K2 & _). auto.
  - discriminate.
  - destruct (CompactTop.total_transfer _ _ _ _ (compact_sim _ (cb_graph b0)) P g n _ _ _ _ (cJ_start _ b0 Hb0) A) as (y & Ac & _).
    exists n. rewrite (Ac n), Nat.ltb_irrefl. discriminate.
Qed.

Lemma P_user_compact : forall X U start, user_grammar U start -> crate_apart X U start ->
  null_prefixes_visible U start -> no_cycles U -> distinct_ids U -> forall P, LEO P = false ->
  exists k g f, (forall fuel, k <= fuel -> from_grammar X fuel U = Ret g) /\
    (forall s, known U start s -> visible (c_rules U) s -> to_internal g s = Ret (Some (f s))) /\
    (forall s t, known U start s -> known U start t -> visible (c_rules U) t -> s <> t -> f s <> f t) /\
    (u32 (g_syms g + g_gensyms g) -> u32 (length (g_col0 g)) ->
    forall b0, cbocage_new (g_forest_info g) = Ret b0 ->
    forall E (ev : evaluator E) nv, pushes ev nv ->
    forall use xs u, Forall (fun x => token U start (fst x)) xs -> Forall (fun x => u32 (snd x)) xs ->
    (forall u', user_parse U start xs u' <-> u' = u) ->
    exists n h b more, total n (fun fuel => st <- r_new g b0 ;;
        parse_forest compact_forest P g fuel (hinted use 0 ((g_sof_sym g, 0) :: map (fun x => (f (fst x), snd x)) xs)) st) (Some h, b) /\
      forall k, graph_fits b (k * more) -> exists fuel0 b', forall fuel, fuel0 <= fuel ->
        c_evaluate_each ev fuel (repeat h k) b = Ret (repeat (match xs with [] => [] | _ => [uvalue ev nv f u] end) k, b')).
Proof.
  intros X U start HU HC Hvis Hcyc Hids P HP.
  destruct (user_forest_built X U start HU HC Hvis Hcyc) as (k & g & c & nsyms & w & d0 & g0 & f & rd & Hk & HB & HF).
  exists k, g, f. split; [exact Hk|]. split; [exact (uf_known _ _ _ _ _ _ _ _ HF)|]. split; [exact (uf_apart _ _ _ _ _ _ _ _ HF)|].
  intros F1 F2 b0 Hb0 E ev nv Hpush use xs u Hx Hv Hu.
  exact (user_compact_of U start c nsyms w d0 g0 g f rd (ub_built _ _ _ _ _ _ _ _ _ HB) (fun t Ht => proj2 (ub_known _ _ _ _ _ _ _ _ _ HB t Ht)) HF Hids P HP b0 Hb0
    F1 F2 E ev nv Hpush use xs u Hx Hv Hu (user_free_ends _ _ _ _ _ _ _ _ _ _ HB HF P HP b0 Hb0 use xs Hx)).
Qed.

Lemma user_trees_of : forall U start c nsyms w d0 g0 g f rd, shaped_built c nsyms w d0 g0 g ->
  (forall t, token U start t -> user_terminal c nsyms w (f t)) -> user_forest U start c w g0 g f rd -> distinct_ids U ->
  forall P, LEO P = false -> forall fi b0, bocage_new fi = Ret b0 ->
    forall use xs, Forall (fun x => token U start (fst x)) xs ->
    (exists fuel, (st <- r_new g b0 ;;
        parse_forest simple_forest P g fuel (hinted use 0 ((g_sof_sym g, 0) :: map (fun x => (f (fst x), snd x)) xs)) st) <> NoFuel) ->
    exists n r l us, total n (fun fuel => st <- r_new g b0 ;;
        parse_forest simple_forest P g fuel (hinted use 0 ((g_sof_sym g, 0) :: map (fun x => (f (fst x), snd x)) xs)) st) r /\
      finished_trees r l /\ Forall2 (reads_as (g_forest_info g) f) l us /\ NoDup us /\ (forall u, In u us <-> user_parse U start xs u).
Proof.
  intros U start c nsyms w d0 g0 g f rd HB Htok HF Hids P HP fi b0 Hb0 use xs Hx0 Hends.
  assert (Hx : forall a v, In (a, v) xs -> token U start a) by (intros a v Hin; rewrite Forall_forall in Hx0; exact (Hx0 _ Hin)).
  rewrite (uf_sof _ _ _ _ _ _ _ _ HF) in *.
  destruct (P_exactly_any P c nsyms w d0 g0 g HP HB _ b0 Hb0 use (numbered f xs)
    (numbered_tokens _ _ _ _ _ _ _ Htok Hx) (uf_sorted _ _ _ _ _ _ _ _ HF) Hends) as (n & r & l & H1 & H2 & H3 & H4).
  assert (Q : exists us, Forall2 (fun ts u => exists t, ts = [t] /\ rd t u) l us).
  { assert (H5 : forall ts, In ts l -> exists u t, ts = [t] /\ rd t u).
    { intros ts Hin. apply H4 in Hin. destruct Hin as (t & -> & Ht). destruct (uf_sound _ _ _ _ _ _ _ _ HF xs t Hx Ht) as (u & Hr & _). eauto. }
    clear - H5. induction l as [|ts l IH]; [exists []; constructor|]. destruct IH as (us & Hus); [intros; apply H5; simpl; auto|].
    destruct (H5 ts) as (u & Hu); [simpl; auto|]. exists (u :: us). constructor; auto. }
  destruct Q as (us & Hus). exists n, r, l, us. split; [exact H1|]. split; [exact H2|].
  assert (Hin1 : forall u, In u us -> exists t, In [t] l /\ rd t u).
  { intros u Hu. clear - Hus Hu. induction Hus as [|ts u' l us (t & -> & Hr) Hus IH]; [destruct Hu|]. destruct Hu as [<-|Hu]; [exists t; simpl; auto|].
    destruct (IH Hu) as (t' & Hin & Hr'). exists t'. simpl. auto. }
  assert (Hin2 : forall t, In [t] l -> exists u, In u us /\ rd t u).
  { intros t Ht. clear - Hus Ht. induction Hus as [|ts u' l us (t' & -> & Hr) Hus IH]; [destruct Ht|]. destruct Ht as [K|Ht]; [injection K as ->; exists u'; simpl; auto|].
    destruct (IH Ht) as (u & Hin & Hr'). exists u. simpl. auto. }
  split; [|split].
  - assert (Hl : forall ts, In ts l -> exists t, ts = [t] /\ input_tree c w g0 (numbered f xs) t) by (intros ts Hin; now apply H4).
    clear - Hus HF Hl Hx. induction Hus as [|ts u l us (t & -> & Hr) Hus IH]; [constructor|]. constructor; [|apply IH; intros; apply Hl; simpl; auto].
    destruct (Hl [t]) as (t' & K & Ht); [simpl; auto|]. injection K as <-. intros E ev nv.
    destruct (uf_value _ _ _ _ _ _ _ _ HF E nv) as (nulls & Hn & Hval). exists nulls. split; [exact Hn|].
    specialize (Hval ev xs t u Hx Ht Hr).
    inversion Ht as [d r t1 Hd Hl1 Hr1 Hp E1|d r Hd Hl1 Hr1 E1]; subst t; [apply Hval|eauto].
  - assert (Hl : forall ts, In ts l -> exists t, ts = [t] /\ input_tree c w g0 (numbered f xs) t) by (intros ts Hin; now apply H4).
    clear - Hus HF H3 Hl Hx Hids. induction Hus as [|ts u l us (t & -> & Hr) Hus IH]; [constructor|]. inversion H3 as [|? ? N1 N2]; subst.
    constructor; [|apply IH; [auto|intros; apply Hl; simpl; auto]]. intros Hu. apply N1.
    assert (Q : exists t', In [t'] l /\ rd t' u).
    { clear - Hus Hu. induction Hus as [|ts u' l us (t & -> & Hr) Hus IH]; [destruct Hu|]. destruct Hu as [<-|Hu]; [exists t; simpl; auto|].
      destruct (IH Hu) as (t' & Hin & Hr'). exists t'. simpl. auto. }
    destruct Q as (t' & Hin & Hr'). destruct (Hl [t]) as (? & K & Ht); [simpl; auto|]. injection K as <-.
    destruct (Hl [t']) as (? & K & Ht'); [simpl; auto|]. injection K as <-.
    rewrite (uf_injective _ _ _ _ _ _ _ _ HF Hids xs t t' u Hx Ht Ht' Hr Hr'). exact Hin.
  - intros u. split.
    + intros Hu. destruct (Hin1 u Hu) as (t & Ht & Hr). apply H4 in Ht. destruct Ht as (t' & K & Ht). injection K as <-.
      destruct (uf_sound _ _ _ _ _ _ _ _ HF xs _ Hx Ht) as (u2 & Hr2 & Hp2). rewrite (uf_fun _ _ _ _ _ _ _ _ HF _ _ _ Hr Hr2). exact Hp2.
    + intros Hu. destruct (uf_complete _ _ _ _ _ _ _ _ HF xs u Hx Hu) as (t & Ht & Hr). destruct (Hin2 t) as (u2 & Hi & Hr2); [apply H4; eauto|].
      rewrite (uf_fun _ _ _ _ _ _ _ _ HF _ _ _ Hr Hr2). exact Hi.
Qed.

Lemma P_user_trees : forall X U start, user_grammar U start -> crate_apart X U start ->
  null_prefixes_visible U start -> no_cycles U -> distinct_ids U -> forall P, LEO P = false ->
  exists k g f, (forall fuel, k <= fuel -> from_grammar X fuel U = Ret g) /\
    (forall s, known U start s -> visible (c_rules U) s -> to_internal g s = Ret (Some (f s))) /\
    (forall s t, known U start s -> known U start t -> visible (c_rules U) t -> s <> t -> f s <> f t) /\
    forall b0, bocage_new (g_forest_info g) = Ret b0 ->
    forall use xs, Forall (fun x => token U start (fst x)) xs ->
    exists n r l us, total n (fun fuel => st <- r_new g b0 ;;
        parse_forest simple_forest P g fuel (hinted use 0 ((g_sof_sym g, 0) :: map (fun x => (f (fst x), snd x)) xs)) st) r /\
      finished_trees r l /\ Forall2 (reads_as (g_forest_info g) f) l us /\ NoDup us /\ (forall u, In u us <-> user_parse U start xs u).
Proof.
  intros X U start HU HC Hvis Hcyc Hids P HP.
  destruct (user_forest_built X U start HU HC Hvis Hcyc) as (k & g & c & nsyms & w & d0 & g0 & f & rd & Hk & HB & HF).
  exists k, g, f. split; [exact Hk|]. split; [exact (uf_known _ _ _ _ _ _ _ _ HF)|]. split; [exact (uf_apart _ _ _ _ _ _ _ _ HF)|].
  intros b0 Hb0 use xs Hx.
  exact (user_trees_of U start c nsyms w d0 g0 g f rd (ub_built _ _ _ _ _ _ _ _ _ HB) (fun t Ht => proj2 (ub_known _ _ _ _ _ _ _ _ _ HB t Ht)) HF Hids P HP _ b0 Hb0
    use xs Hx (user_ends _ _ _ _ _ _ _ _ _ _ HB HF P HP b0 Hb0 use xs Hx)).
Qed.
