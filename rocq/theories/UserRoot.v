(** UserRoot: what RootTop.v says of the processed grammar, for the user's grammar. *)
From Coq Require Import List Arith Bool Lia Permutation.
From Verif Require Import Trees.
From Verif Require Import Base BaseProofs Grammar BitMatrix DefaultGrammar Forest Recognizer Drive Parse Spec SpecFacts Chart CfgSpec
  ForestSpec ClientSpec TreeSpec EvalSpec TablesProofs SimpleBocage SimpleEval ForestProg CompactBocage CompactSpec CompactForestSpec CompactProofs CompactTop
  PropLemmas PropLemmas4 RootTop FromGrammar CrateSpec UserSpec UserTreeSpec CrateFacts CrateProcessed
  CrateTrees CrateOrdered PropLemmas9 PropLemmas10.
Import ListNotations.
Local Open Scope res_scope.

Lemma P_user_values : forall X U start, user_grammar U start -> crate_apart X U start ->
  nulling_only_short U start -> no_unit_steps U start -> no_cycles U -> distinct_ids U -> forall P, LEO P = false ->
  exists k g f, (forall fuel, k <= fuel -> from_grammar X fuel U = Ret g) /\
    (forall s, known U start s -> visible (c_rules U) s -> to_internal g s = Ret (Some (f s))) /\
    (forall s t, known U start s -> known U start t -> visible (c_rules U) t -> s <> t -> f s <> f t) /\
    forall b0 cb0, bocage_new (g_forest_info g) = Ret b0 -> cbocage_new (g_forest_info g) = Ret cb0 ->
    forall E (ev : evaluator E) nv, pushes ev nv ->
    forall use xs, xs <> [] -> Forall (fun x => token U start (fst x)) xs ->
    (exists u, user_parse U start xs u) ->
    (forall u u', user_parse U start xs u -> user_parse U start xs u' -> top_split u = top_split u' -> u = u') ->
    exists n h b us, total n (fun fuel => st <- r_new g b0 ;;
        parse_forest simple_forest P g fuel (hinted use 0 ((g_sof_sym g, 0) :: map (fun x => (f (fst x), snd x)) xs)) st) (Some h, b) /\
      NoDup us /\ (forall u, In u us <-> user_parse U start xs u) /\
      (exists fuel0 b1, forall fuel, fuel0 <= fuel -> evaluate ev fuel b h = Ret (map (uvalue ev nv f) us, b1)) /\
      (u32 (g_syms g + g_gensyms g) -> u32 (length (g_col0 g)) -> Forall (fun x => u32 (snd x)) xs ->
       exists h' b' us', Permutation us us' /\ total n (fun fuel => st <- r_new g cb0 ;;
           parse_forest compact_forest P g fuel (hinted use 0 ((g_sof_sym g, 0) :: map (fun x => (f (fst x), snd x)) xs)) st) (Some h', b') /\
         (graph_fits b' (9 * list_sum (map usize us)) -> exists fuel0 b1, forall fuel, fuel0 <= fuel ->
            c_evaluate ev fuel b' h' = Ret (map (uvalue ev nv f) us', b1))).
Proof.
  intros X U start HU HC Hshort Hunit Hcyc Hids P HP. pose proof (short_prefixes U start Hshort) as Hvis.
  destruct (user_forest_built X U start HU HC Hvis Hcyc) as (k & g & c & nsyms & w & d0 & g0 & f & rd & Hk & HB & HF).
  exists k, g, f. split; [exact Hk|]. split; [exact (uf_known _ _ _ _ _ _ _ _ HF)|]. split; [exact (uf_apart _ _ _ _ _ _ _ _ HF)|].
  rewrite (uf_syms _ _ _ _ _ _ _ _ HF), (uf_rules _ _ _ _ _ _ _ _ HF).
  intros b0 cb0 Hb0 Hcb0 E ev nv Hpush use xs Hne Hx0 (u0 & Hu0) Hdist.
  assert (Hx : forall a v, In (a, v) xs -> token U start a) by (intros a v Hin; rewrite Forall_forall in Hx0; exact (Hx0 _ Hin)).
  destruct (uf_value _ _ _ _ _ _ _ _ HF E nv) as (nulls & Hn & Hval).
  destruct (uf_ordered _ _ _ _ _ _ _ _ HF Hshort Hunit) as [Hord (d1 & Hw)].
  rewrite (uf_sof _ _ _ _ _ _ _ _ HF).
  destruct (proj2 (Hw d1) eq_refl) as (r1 & Hr1 & Hl1 & Hrhs1).
  set (top := fun t => Node d1 [Leaf (w_sof w) 0; t]).
  assert (In_ : forall t, parse_tree (c_rules c) (w_inner w) t -> yield t = numbered f xs -> input_tree c w g0 (numbered f xs) (top t)).
  { intros t H1 <-. eapply it_inner; eauto. }
  assert (Out : forall t, input_tree c w g0 (numbered f xs) t -> exists t1, t = top t1 /\ parse_tree (c_rules c) (w_inner w) t1 /\ yield t1 = numbered f xs).
  { intros t Ht. inversion Ht as [d r t1 Hd Hl Hr Hp E1 E2|d r Hd Hl Hr E1 E2]; [|destruct xs; [congruence|discriminate E1]].
    exists t1. split; [|auto]. unfold top. f_equal. apply Hw. eauto. }
  destruct (root_readings P c nsyms w d0 g0 g HP (ub_built _ _ _ _ _ _ _ _ _ HB) nv nulls Hn (uf_acyclic _ _ _ _ _ _ _ _ HF) ev Hpush Hord (ex_intro _ d1 Hw)
    b0 cb0 Hb0 Hcb0 use (numbered f xs)) as (n & h & b & ts & A1 & A2 & A3 & A4 & A5).
  - destruct xs; [congruence|discriminate].
  - exact (numbered_terminals _ _ _ _ _ _ _ _ _ _ HB Hx).
  - destruct (uf_complete _ _ _ _ _ _ _ _ HF xs u0 Hx Hu0) as (t & Ht & _). destruct (Out t Ht) as (t1 & _ & H). eauto.
  - intros t t' H1 H2 H3 H4 Hs.
    destruct (uf_sound _ _ _ _ _ _ _ _ HF xs (top t) Hx (In_ t H1 H2)) as (u & Hr & Hp).
    destruct (uf_sound _ _ _ _ _ _ _ _ HF xs (top t') Hx (In_ t' H3 H4)) as (u' & Hr' & Hp').
    assert (u = u') by (apply Hdist; auto; exact (uf_split _ _ _ _ _ _ _ _ HF xs _ _ _ _ _ _ _ _ Hx (In_ t H1 H2) Hr (In_ t' H3 H4) Hr' Hs)). subst u'.
    pose proof (uf_injective _ _ _ _ _ _ _ _ HF Hids xs _ _ u Hx (In_ t H1 H2) (In_ t' H3 H4) Hr Hr') as K. unfold top in K. congruence.
  - set (rel := fun t u => parse_tree (c_rules c) (w_inner w) t /\ yield t = numbered f xs /\ rd (top t) u).
    assert (Q : exists us, Forall2 rel ts us).
    { assert (H : forall t, In t ts -> exists u, rel t u).
      { intros t Ht. apply A3 in Ht. destruct Ht as [H1 H2]. destruct (uf_sound _ _ _ _ _ _ _ _ HF xs (top t) Hx (In_ t H1 H2)) as (u & Hr & _). exists u. split; auto. }
      clear - H. induction ts as [|t ts IH]; [exists []; constructor|]. destruct IH as (us & Hus); [intros; apply H; simpl; auto|].
      destruct (H t) as (u & Hu); [simpl; auto|]. exists (u :: us). constructor; auto. }
    destruct Q as (us & Hus).
    assert (In1 : forall u, In u us -> exists t, In t ts /\ rel t u).
    { clear - Hus. induction Hus as [|t u ts us H Hus IH]; intros u' []; [subst; exists t; simpl; auto|]. destruct (IH u' H0) as (t' & K1 & K2). exists t'. simpl. auto. }
    assert (In2 : forall t, In t ts -> exists u, In u us /\ rel t u).
    { clear - Hus. induction Hus as [|t u ts us H Hus IH]; intros t' []; [subst; exists u; simpl; auto|]. destruct (IH t' H0) as (u' & K1 & K2). exists u'. simpl. auto. }
    assert (Values : forall ts us, Forall2 rel ts us -> concat (map (value ev (g_forest_info g) nulls) ts) = map (uvalue ev nv f) us).
    { intros ts' us' H. induction H as [|t u ts' us' (H1 & H2 & H3) H IH]; [reflexivity|]. cbn [map concat]. rewrite IH.
      destruct (Hval ev xs (top t) u Hx (In_ t H1 H2) H3) as [_ ->]. reflexivity. }
    exists n, h, b, us. split; [exact A1|]. split; [|split].
    + clear - Hus A2 HF Hids Hx In_. induction Hus as [|t u ts us (H1 & H2 & H3) Hus IH]; [constructor|]. inversion A2 as [|? ? N1 N2]; subst.
      constructor; [|auto]. intros Hu. apply N1.
      assert (Q : exists t', In t' ts /\ rel t' u).
      { clear - Hus Hu. induction Hus as [|t u' ts us H Hus IH]; [destruct Hu|]. destruct Hu as [->|Hu]; [exists t; simpl; auto|]. destruct (IH Hu) as (t' & K1 & K2). exists t'. simpl. auto. }
      destruct Q as (t' & Hin & H1' & H2' & H3').
      pose proof (uf_injective _ _ _ _ _ _ _ _ HF Hids xs _ _ u Hx (In_ t H1 H2) (In_ t' H1' H2') H3 H3') as K. unfold top in K. injection K as ->. exact Hin.
    + intros u. split.
      * intros Hu. destruct (In1 u Hu) as (t & _ & H1 & H2 & H3). destruct (uf_sound _ _ _ _ _ _ _ _ HF xs (top t) Hx (In_ t H1 H2)) as (u' & Hr & Hp).
        now rewrite (uf_fun _ _ _ _ _ _ _ _ HF _ _ _ H3 Hr).
      * intros Hu. destruct (uf_complete _ _ _ _ _ _ _ _ HF xs u Hx Hu) as (t & Ht & Hr). destruct (Out t Ht) as (t1 & -> & H1 & H2).
        destruct (In2 t1) as (u' & Hin & _ & _ & Hr'); [now apply A3|]. now rewrite (uf_fun _ _ _ _ _ _ _ _ HF _ _ _ Hr Hr').
    + split.
      * rewrite <- (Values ts us Hus). exact A4.
      * intros F1 F2 F3. destruct A5 as (h' & b' & ts' & B1 & B2 & B3).
        { split; [exact F1|]. split; [exact F2|]. intros l s v Hl Hin. apply (PropLemmas10.hinted_toks _ _ _ _ _ _ Hl) in Hin. apply in_map_iff in Hin.
          destruct Hin as ((a & v') & K & Hin). injection K as _ <-. rewrite Forall_forall in F3. exact (F3 _ Hin). }
        destruct (Permutation_Forall2 B1 Hus) as (us' & B4 & B5). exists h', b', us'. split; [exact B4|]. split; [exact B2|].
        intros Hg. rewrite <- (Values ts' us' B5). apply B3. eapply u32_le; [|exact Hg]. apply Nat.add_le_mono_l, Nat.mul_le_mono_l.
        assert (Hsz : forall t u, rel t u -> 1 + inner_nodes t <= usize u).
        { intros t u (H1 & H2 & H3). exact (uf_size _ _ _ _ _ _ _ _ HF xs _ _ _ _ Hx (In_ t H1 H2) H3). }
        clear - Hus Hsz. unfold list_sum. induction Hus as [|t u ts us H Hus IH]; cbn [map fold_right length]; [lia|]. specialize (Hsz t u H). lia.
Qed.

(** *** evaluators that differ on the marker only *)
Lemma P_user_marker : forall X U start, user_grammar U start -> crate_apart X U start ->
  nulling_only_short U start -> no_unit_steps U start -> no_cycles U -> forall P, LEO P = false ->
  exists k g f, (forall fuel, k <= fuel -> from_grammar X fuel U = Ret g) /\
    (forall s, known U start s -> visible (c_rules U) s -> to_internal g s = Ret (Some (f s))) /\
    forall b0, bocage_new (g_forest_info g) = Ret b0 ->
    forall E (ev1 ev2 : evaluator E) nv, pushes ev1 nv -> pushes ev2 nv ->
    (forall id args, ev_product ev1 id args = ev_product ev2 id args) ->
    forall use xs, xs <> [] -> Forall (fun x => token U start (fst x)) xs ->
    (forall s v, In (s, v) xs -> ev_leaf ev1 (f s) v = ev_leaf ev2 (f s) v) ->
    exists n r, total n (fun fuel => st <- r_new g b0 ;;
        parse_forest simple_forest P g fuel (hinted use 0 ((g_sof_sym g, 0) :: map (fun x => (f (fst x), snd x)) xs)) st) r /\
      forall h, fst r = Some h -> exists fuel0 vs b1 b2, forall fuel, fuel0 <= fuel ->
        evaluate ev1 fuel (snd r) h = Ret (vs, b1) /\ evaluate ev2 fuel (snd r) h = Ret (vs, b2).
Proof.
  intros X U start HU HC Hshort Hunit Hcyc P HP. pose proof (short_prefixes U start Hshort) as Hvis.
  destruct (user_forest_built X U start HU HC Hvis Hcyc) as (k & g & c & nsyms & w & d0 & g0 & f & rd & Hk & HB & HF).
  exists k, g, f. split; [exact Hk|]. split; [exact (uf_known _ _ _ _ _ _ _ _ HF)|].
  intros b0 Hb0 E ev1 ev2 nv Hp1 Hp2 Hprod use xs Hne Hx0 Hl.
  assert (Hx : forall a v, In (a, v) xs -> token U start a) by (intros a v Hin; rewrite Forall_forall in Hx0; exact (Hx0 _ Hin)).
  destruct (uf_value _ _ _ _ _ _ _ _ HF E nv) as (nulls & Hn & _). destruct (uf_ordered _ _ _ _ _ _ _ _ HF Hshort Hunit) as [Hord Hw].
  rewrite (uf_sof _ _ _ _ _ _ _ _ HF), hinted_from_start. pose proof (ub_built _ _ _ _ _ _ _ _ _ HB) as HB'.
  assert (Ht : forall s v, In (s, v) (numbered f xs) -> s < nsyms /\ terminal (c_rules c) s).
  { intros s v H. destruct (numbered_terminals _ _ _ _ _ _ _ _ _ _ HB Hx s v H) as (K1 & K2 & _). auto. }
  apply (marker_simple P c nsyms w d0 g0 g HP HB' nv nulls Hn (uf_acyclic _ _ _ _ _ _ _ _ HF) ev1 ev2 Hp1 Hp2 Hprod Hord Hw b0 Hb0).
  - exact (hinted_in_range c nsyms w d0 g0 (b_processed _ _ _ _ _ _ HB') use _ Ht).
  - destruct xs; [congruence|discriminate].
  - exact (hinted_distinct c nsyms use _ 1 Ht).
  - intros l s v Hl1 Hin. apply (PropLemmas10.hinted_toks _ _ _ _ _ _ Hl1) in Hin. apply in_map_iff in Hin.
    destruct Hin as ((a & v') & K & Hin). injection K as <- <-. now apply Hl.
Qed.

(** *** both bocages, for an evaluator that does not care about the order of arguments *)
Lemma P_user_both : forall X U start, user_grammar U start -> crate_apart X U start ->
  nulling_only_short U start -> no_unit_steps U start -> no_cycles U -> forall P, LEO P = false ->
  exists k g f, (forall fuel, k <= fuel -> from_grammar X fuel U = Ret g) /\
    (forall s, known U start s -> visible (c_rules U) s -> to_internal g s = Ret (Some (f s))) /\
    (u32 (g_syms g + g_gensyms g) -> u32 (length (g_col0 g)) ->
    forall b0 cb0, bocage_new (g_forest_info g) = Ret b0 -> cbocage_new (g_forest_info g) = Ret cb0 ->
    forall E (ev : evaluator E) nv, pushes ev nv -> unordered ev ->
    forall use xs, xs <> [] -> Forall (fun x => token U start (fst x)) xs -> Forall (fun x => u32 (snd x)) xs ->
    exists n r r' l, total n (fun fuel => st <- r_new g b0 ;;
        parse_forest simple_forest P g fuel (hinted use 0 ((g_sof_sym g, 0) :: map (fun x => (f (fst x), snd x)) xs)) st) r /\
      total n (fun fuel => st <- r_new g cb0 ;;
        parse_forest compact_forest P g fuel (hinted use 0 ((g_sof_sym g, 0) :: map (fun x => (f (fst x), snd x)) xs)) st) r' /\
      finished_trees r l /\ (fst r = None <-> fst r' = None) /\
      forall h h', fst r = Some h -> fst r' = Some h' -> graph_fits (snd r') (9 * all_inner_nodes l) ->
        exists fuel0 vs vs' b1 b2, Permutation vs vs' /\ forall fuel, fuel0 <= fuel ->
          evaluate ev fuel (snd r) h = Ret (vs, b1) /\ c_evaluate ev fuel (snd r') h' = Ret (vs', b2)).
Proof.
  intros X U start HU HC Hshort Hunit Hcyc P HP. pose proof (short_prefixes U start Hshort) as Hvis.
  destruct (user_forest_built X U start HU HC Hvis Hcyc) as (k & g & c & nsyms & w & d0 & g0 & f & rd & Hk & HB & HF).
  exists k, g, f. split; [exact Hk|]. split; [exact (uf_known _ _ _ _ _ _ _ _ HF)|].
  rewrite (uf_syms _ _ _ _ _ _ _ _ HF), (uf_rules _ _ _ _ _ _ _ _ HF). intros F1 F2.
  intros b0 cb0 Hb0 Hcb0 E ev nv Hp Hun use xs Hne Hx0 F3.
  assert (Hx : forall a v, In (a, v) xs -> token U start a) by (intros a v Hin; rewrite Forall_forall in Hx0; exact (Hx0 _ Hin)).
  destruct (uf_value _ _ _ _ _ _ _ _ HF E nv) as (nulls & Hn & _). destruct (uf_ordered _ _ _ _ _ _ _ _ HF Hshort Hunit) as [Hord Hw].
  rewrite (uf_sof _ _ _ _ _ _ _ _ HF), hinted_from_start. pose proof (ub_built _ _ _ _ _ _ _ _ _ HB) as HB'.
  assert (Ht : forall s v, In (s, v) (numbered f xs) -> s < nsyms /\ terminal (c_rules c) s).
  { intros s v H. destruct (numbered_terminals _ _ _ _ _ _ _ _ _ _ HB Hx s v H) as (K1 & K2 & _). auto. }
  apply (both_values P c nsyms w d0 g0 g HP HB' nv nulls Hn (uf_acyclic _ _ _ _ _ _ _ _ HF) ev Hp Hun Hord Hw b0 cb0 Hb0 Hcb0).
  - exact (hinted_in_range c nsyms w d0 g0 (b_processed _ _ _ _ _ _ HB') use _ Ht).
  - destruct xs; [congruence|discriminate].
  - exact (hinted_distinct c nsyms use _ 1 Ht).
  - split; [exact F1|]. split; [exact F2|]. intros l s v Hl Hin. apply (PropLemmas10.hinted_toks _ _ _ _ _ _ Hl) in Hin. apply in_map_iff in Hin.
    destruct Hin as ((a & v') & K & Hin). injection K as _ <-. rewrite Forall_forall in F3. exact (F3 _ Hin).
Qed.

(** *** plain grammars *)
Lemma plain_nonempty : forall U, plain_grammar U ->
  (forall s x, derives (c_rules U) s x -> x <> []) /\ forall ss x, derives_seq (c_rules U) ss x -> length ss <= length x.
Proof.
  intros U HU. apply derives_both.
  - discriminate.
  - intros r x Hr _ IH. destruct (HU r Hr) as [Hne _]. destruct (p_rhs r); [contradiction|]. destruct x; [cbn in IH; lia|discriminate].
  - auto.
  - intros s ss w1 w2 _ H1 _ H2. rewrite app_length. destruct w1; [contradiction|]. cbn. lia.
Qed.

Lemma plain_steps : forall U start, plain_grammar U -> nulling_only_short U start /\ no_unit_steps U start /\ no_cycles U.
Proof.
  intros U start HU. destruct (plain_nonempty U HU) as [N1 N2].
  assert (N : forall s, ~ nullable (c_rules U) s) by (intros s H; exact (N1 _ _ H eq_refl)).
  split; [|split].
  - split; [intros H; contradiction (N _ H)|]. intros r s _ _ _ _ H. contradiction (N _ H).
  - intros r u v Hr _ Er. split; [|intros u' s _ _ _; apply N].
    intros l1 s l2 Hv Eu Hn. destruct l1 as [|a l1]; [|apply Forall_inv in Hn; contradiction (N _ Hn)]. destruct l2 as [|a l2]; [|apply Forall_inv in Hn; contradiction (N _ Hn)].
    subst u. destruct Hv as [->|Hv]; [|cbn in Hv; lia]. apply (proj2 (HU r Hr) s). now rewrite Er.
  - intros s (r & Hr & El & Hd). destruct (HU r Hr) as [Hne Hu]. pose proof (N2 _ _ Hd) as L. destruct (p_rhs r) as [|x [|]]; [contradiction| |cbn in L; lia].
    inversion Hd as [|? ? w1 w2 D1 D2 E1 E2]; subst. inversion D2; subst. rewrite app_nil_r in E2. subst w1.
    pose proof (Hu x eq_refl) as T. apply (terminal_derives _ _ _ T) in D1. injection D1 as D1. apply (T r Hr). congruence.
Qed.
