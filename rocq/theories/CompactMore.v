(** CompactMore: ambiguous forests evaluated over the compact bocage. *)
From Coq Require Import List Arith Bool Lia NArith Permutation.
From Verif Require Import Base BaseProofs TablesProofs Item Grammar Forest ForestSpec Spec Den Sim SimpleBocage EvalSpec SimpleEval
  SimpleProofs SimpleValue ForestProg ForestValue SimpleTop CompactGraph CompactGraphProofs CompactBocage CompactSpec CompactProofs CompactEval CompactValue
  CompactForestSpec.
Import ListNotations.
Local Open Scope res_scope.

(** ** Something computed for each call, and for each free node *)
Lemma each_call_snoc : forall A (f : list (call * A) -> call -> A) calls c,
  fold_left (fun before c => before ++ [(c, f before c)]) (calls ++ [c]) [] =
  (let b := fold_left (fun before c => before ++ [(c, f before c)]) calls [] in b ++ [(c, f b c)]).
Proof. intros. now rewrite fold_left_app. Qed.

Lemma combine_snoc : forall A B (l : list A) (m : list B) a b, length l = length m -> combine (l ++ [a]) (m ++ [b]) = combine l m ++ [(a, b)].
Proof. intros A B l. induction l as [|x l IH]; intros [|y m] a b H; cbn in *; try discriminate; auto. rewrite IH; auto. Qed.

Lemma nth_combine : forall A B (l : list A) (m : list B) i a b, nth_error l i = Some a -> nth_error m i = Some b ->
  nth_error (combine l m) i = Some (a, b).
Proof. intros A B l. induction l as [|x l IH]; intros [|y m] [|i] a b Ha Hb; cbn in *; try discriminate; auto; congruence. Qed.

Lemma firstn_snoc : forall A (l : list A) n x, nth_error l n = Some x -> firstn (S n) l = firstn n l ++ [x].
Proof.
  intros A l. induction l as [|a l IH]; intros [|n] x H; cbn in *; try discriminate.
  - now injection H as <-.
  - now rewrite (IH n x H).
Qed.

Lemma nth_firstn : forall A (l : list A) n i, i < n -> nth_error (firstn n l) i = nth_error l i.
Proof. intros A l. induction l as [|a l IH]; intros [|n] [|i] H; cbn; try lia; auto. apply IH. lia. Qed.

Lemma each_call_nodes : forall A (f : list (call * A) -> call -> A) (F : fnode -> A) calls Ts, length Ts = length calls ->
  (forall i c T before, nth_error calls i = Some c -> nth_error Ts i = Some T ->
     (forall j c' T', j < i -> nth_error calls j = Some c' -> nth_error Ts j = Some T' -> nth_error before j = Some (c', F T')) ->
     f before c = F T) ->
  each_call f calls = map F Ts.
Proof.
  intros A f F calls Ts L H.
  assert (G : forall n, n <= length calls ->
    fold_left (fun before c => before ++ [(c, f before c)]) (firstn n calls) [] = combine (firstn n calls) (map F (firstn n Ts))).
  { induction n as [|n IH]; intros Hn; [reflexivity|].
    destruct (nth_error calls n) as [c|] eqn:Ec; [|apply nth_error_None in Ec; lia].
    destruct (nth_error Ts n) as [T|] eqn:ET; [|apply nth_error_None in ET; lia].
    rewrite (firstn_snoc _ _ _ _ Ec), (firstn_snoc _ _ _ _ ET), each_call_snoc, IH by lia. cbv zeta.
    rewrite map_app. cbn [map]. rewrite combine_snoc by (rewrite map_length, !firstn_length; lia). do 3 f_equal.
    apply (H n); auto. intros j c' T' Hj Hc' HT'. apply nth_combine.
    - now rewrite nth_firstn by auto.
    - rewrite nth_error_map, nth_firstn, HT' by auto. reflexivity. }
  unfold each_call. specialize (G (length calls) (le_n _)). rewrite firstn_all in G. rewrite <- L, firstn_all in G at 1.
  rewrite G. clear - L. revert Ts L. induction calls as [|c calls IH]; intros [|T Ts] L; cbn in *; try discriminate; auto. now rewrite IH by auto.
Qed.

Section More.
  Context {E : Type}.
  Variable ev : evaluator E.
  Variable fi : forest_info.
  Variable nulls : sym -> list E.
  Notation rules := (length (fi_nulling_eliminated fi)).

  (** the free nodes of the calls *)
  Lemma c_call_values_cfev : forall calls Ts p, calls_fine rules calls -> build free_forest calls [] = Ret (Ts, p) ->
    Forall2 (fun T c => is_fprod T = is_product c) Ts calls ->
    c_call_values ev fi nulls calls = map (cfev ev fi nulls) Ts /\ call_costs calls = map cost Ts.
  Proof.
    intros calls Ts p Hf HB HF. assert (L : length Ts = length calls) by (eapply Forall2_length2; eauto).
    pose proof (fun i c T => build_nodes calls Ts p HB L i c T) as HN.
    assert (Prod : forall j c' T', nth_error calls j = Some c' -> nth_error Ts j = Some T' -> is_fprod T' = is_product c').
    { intros j c' T' Hc HT. pose proof (Forall2_nth _ _ _ _ _ j HF) as X. now rewrite Hc, HT in X. }
    assert (Ref : forall i j, i < length (firstn j calls) -> i < j /\ exists c' T', nth_error calls i = Some c' /\ nth_error Ts i = Some T').
    { intros i j Hi. rewrite firstn_length in Hi. split; [lia|].
      destruct (nth_error calls i) as [c|] eqn:Ec; [|apply nth_error_None in Ec; lia].
      destruct (nth_error Ts i) as [T|] eqn:ET; [|apply nth_error_None in ET; lia]. eauto. }
    split; apply each_call_nodes; auto; intros i c T before Hc HT Hb; specialize (HN i c T Hc HT); pose proof (Hf i c Hc) as Hfc;
      destruct c as [s v|l r|s alts]; cbn [call_fine c_call_value call_cost] in *.
    - subst T. reflexivity.
    - destruct HN as (TL & TR & EL & ER & ->). destruct Hfc as [Hl Hr].
      destruct (Ref l i Hl) as (Ll & cl & Tl & Ecl & ETl). destruct (Ref r i Hr) as (Lr & cr & Tr & Ecr & ETr).
      rewrite EL in ETl. rewrite ER in ETr. injection ETl as <-. injection ETr as <-.
      unfold earlier. rewrite (Hb l cl TL Ll Ecl EL), (Hb r cr TR Lr Ecr ER). reflexivity.
    - destruct HN as (q & HFq & ->). destruct Hfc as [_ Hfc]. cbn [cfev]. f_equal.
      revert Hfc. clear HT Hc. induction HFq as [|[d j] [d' Tj] l q [E1 E2] _ IH]; intros Hfc; cbn [map]; [reflexivity|]. cbn [fst snd] in *. subst d'.
      rewrite IH by (intros; apply Hfc; now right). f_equal. destruct (Hfc d j (or_introl eq_refl)) as (c' & Ec & _).
      assert (Lj : j < length (firstn i calls)) by (apply nth_error_Some; congruence).
      destruct (Ref j i Lj) as (Li & cj & Tj' & Ecj & ETj). rewrite E2 in ETj. injection ETj as <-.
      rewrite (Hb j cj Tj Li Ecj E2). unfold alt_value. rewrite (Prod j cj Tj Ecj E2). destruct cj; reflexivity.
    - subst T. reflexivity.
    - destruct HN as (TL & TR & EL & ER & ->). destruct Hfc as [Hl Hr].
      destruct (Ref l i Hl) as (Ll & cl & Tl & Ecl & ETl). destruct (Ref r i Hr) as (Lr & cr & Tr & Ecr & ETr).
      rewrite EL in ETl. rewrite ER in ETr. injection ETl as <-. injection ETr as <-.
      unfold earlier. rewrite (Hb l cl TL Ll Ecl EL), (Hb r cr TR Lr Ecr ER). reflexivity.
    - destruct HN as (q & HFq & ->). destruct Hfc as [_ Hfc]. cbn [cost]. f_equal.
      revert Hfc. clear HT Hc. induction HFq as [|[d j] [d' Tj] l q [E1 E2] _ IH]; intros Hfc; cbn [map]; [reflexivity|]. cbn [fst snd] in *. subst d'.
      rewrite IH by (intros; apply Hfc; now right). f_equal. destruct (Hfc d j (or_introl eq_refl)) as (c' & Ec & _).
      assert (Lj : j < length (firstn i calls)) by (apply nth_error_Some; congruence).
      destruct (Ref j i Lj) as (Li & cj & Tj' & Ecj & ETj). rewrite E2 in ETj. injection ETj as <-.
      unfold earlier. rewrite (Hb j cj Tj Li Ecj E2). reflexivity.
  Qed.

  Lemma calls_nodes_small : forall calls Ts p, calls_fine rules calls -> calls_small calls -> build free_forest calls [] = Ret (Ts, p) ->
    length Ts = length calls -> forall i T, nth_error Ts i = Some T -> small T.
  Proof.
    intros calls Ts p Hf Hs HB L i. induction i as [i IH] using lt_wf_ind. intros T HT.
    destruct (nth_error calls i) as [c|] eqn:Ec; [|apply nth_error_None in Ec; assert (i < length Ts) by (apply nth_error_Some; congruence); lia].
    pose proof (build_nodes calls Ts p HB L i c T Ec HT) as HN. pose proof (Hf i c Ec) as Hfc. pose proof (Hs c (nth_error_In _ _ Ec)) as Hsc.
    destruct c as [s v|l r|s alts]; cbn [call_fine] in *.
    - subst T. exact Hsc.
    - destruct HN as (TL & TR & EL & ER & ->). rewrite firstn_length in Hfc. split; [eapply (IH l)|eapply (IH r)]; eauto; lia.
    - destruct HN as (q & HFq & ->). apply small_sum. destruct Hfc as [_ Hfc]. clear HT Ec.
      induction HFq as [|[d j] [d' Tj] l q [E1 E2] _ IHq]; constructor; cbn [fst snd] in *.
      + subst d'. split; [apply (Hsc d j); now left|]. destruct (Hfc d j (or_introl eq_refl)) as (c' & Ec' & _).
        assert (Lj : j < length (firstn i calls)) by (apply nth_error_Some; congruence). rewrite firstn_length in Lj.
        eapply (IH j); eauto. lia.
      + apply IHq; intros d2 j2 H2; [apply (Hfc d2 j2)|apply (Hsc d2 j2)]; now right.
  Qed.

  (** ** Several roots *)
  Variable nv : sym -> E.
  Hypothesis Hpush : pushes ev nv.
  Hypothesis Hnulls : nulls_ok fi nv nulls.
  Hypothesis Hac : nulling_acyclic fi.

  Theorem c_evaluate_roots : forall g (roots : list (nat * (list E * nat))) b x, cb_info b = fi -> cb_graph b = g ++ x ->
    Forall (fun rv => croot_value ev fi nv g b (fst rv) (fst (snd rv)) (snd (snd rv))) roots ->
    u32 (length (cb_graph b) + list_sum (map (fun rv => snd (snd rv)) roots)) ->
    exists fuel0 b', forall fuel, fuel0 <= fuel -> c_evaluate_each ev fuel (map fst roots) b = Ret (map (fun rv => fst (snd rv)) roots, b').
  Proof.
    intros g roots. unfold c_evaluate_each.
    assert (G : forall b x out, cb_info b = fi -> cb_graph b = g ++ x ->
      Forall (fun rv => croot_value ev fi nv g b (fst rv) (fst (snd rv)) (snd (snd rv))) roots ->
      u32 (length (cb_graph b) + list_sum (map (fun rv => snd (snd rv)) roots)) ->
      exists fuel0 b', forall fuel, fuel0 <= fuel ->
        foldM (fun st root => let '(out, b) := st in '(vs, b) <- c_evaluate ev fuel b root ;; Ret (out ++ [vs], b)) (map fst roots) (out, b)
        = Ret (out ++ map (fun rv => fst (snd rv)) roots, b')).
    { induction roots as [|[h [vs c]] roots IH]; intros b x out Hi Hx HF Hu; cbn [map foldM fst snd].
      - exists 0, b. intros. now rewrite app_nil_r.
      - destruct (Forall_inv HF) as (r & Hr & Hv). pose proof (Forall_inv_tail HF) as HF'. cbn [fst snd map list_sum fold_right] in *.
        assert (Hu1 : u32 (length (cb_graph b) + c)) by (eapply u32_le; [|exact Hu]; lia).
        destruct (c_loop_value ev fi nv Hpush g b x r vs c Hi Hx Hv Hu1) as (f1 & b1 & y & I1 & G1 & L1 & H1).
        destruct (IH b1 (x ++ y) (out ++ [vs])) as (f2 & b2 & H2).
        + exact I1.
        + now rewrite G1, Hx, app_assoc.
        + eapply Forall_impl; [|exact HF']. intros [h' [vs' c']] (r' & Hr' & Hv'). cbn [fst snd] in *.
          exists r'. split; [|auto]. eapply c_skip_app; [|exact G1|exact Hr']. congruence.
        + eapply u32_le; [|exact Hu]. rewrite G1, app_length. unfold list_sum. lia.
        + exists (f1 + f2), b2. intros fuel Hf. destruct (H1 fuel ltac:(lia)) as (rs & S & w & A & B & C).
          unfold c_evaluate at 1. rewrite Hr. cbn [bind]. rewrite A. cbn [bind]. rewrite (idx_some _ _ _ _ B). cbn [bind].
          rewrite C. cbn [bind]. rewrite H2 by lia. now rewrite <- app_assoc. }
    intros b x Hi Hx Hr Hu. destruct (G b x [] Hi Hx Hr Hu) as (f & b' & H). eauto.
  Qed.

  Lemma c_wrapper_root : forall b s d v T h, cb_info b = fi -> crep (cb_graph b) (FSum s [(d, FProd (FLeaf (fi_sof fi) v) T)]) h ->
    exists r, c_skip_wrapper b h = Ret (Some r) /\ crep (cb_graph b) T r.
  Proof.
    intros b s d v T h Hi Hc. apply crep_sum in Hc. destruct Hc as (start & e & Eh & Cb & Cc & _). cbn [length Nat.eqb cchain fst snd] in *.
    destruct Cc as (f & sz & C1 & C2 & _). subst h. cbn [crep] in C2. destruct C2 as (a & bb & E2 & E3 & CX). exists bb. split; [|exact CX].
    unfold c_skip_wrapper, below_sof. rewrite C1. cbn [bind]. rewrite Nat2N.id, E2. cbn [bind].
    rewrite Nat2N.id, E3. cbn [bind]. rewrite Hi, Nat2N.id, Nat.eqb_refl. cbn [assert bind]. now rewrite Nat2N.id.
  Qed.

  (** ** Forests built by calls *)
  Theorem c_build_evaluates : forall cb0 calls, cbocage_new fi = Ret cb0 -> calls_fine rules calls -> calls_small calls ->
    exists hs b, build compact_forest calls cb0 = Ret (hs, b) /\ length hs = length calls /\ cb_info b = fi /\
      (u32 (length (cb_graph b)) -> forall i r h, wraps fi calls i r -> nth_error hs i = Some h ->
         exists c, c <= nth r (call_costs calls) 0 /\ croot_value ev fi nv (cb_graph b) b h (nth r (c_call_values ev fi nulls calls) []) c).
  Proof.
    intros cb0 calls H0 Hf Hs. destruct (free_build fi calls Hf) as (Ts & p & EB & Ht & HF).
    destruct (cbocage_new_at fi cb0 H0) as (Hi0 & Hsum & Hlim & Hat0).
    pose proof (sim_build _ _ _ _ (compact_sim fi (cb_graph cb0)) calls [] cb0 (fun s => calls_fine_nonempty _ _ s Hf)) as HS.
    rewrite EB in HS. destruct HS as ([hs b] & Eb & HJ & HQ).
    { split; [auto|]. split; [|exact I]. exists []. now rewrite app_nil_r. }
    cbn [fst snd] in *. destruct HJ as (Ib & (x & Dx) & _).
    assert (HFp : Forall2 (fun T c => is_fprod T = is_product c) Ts calls) by (eapply Forall2_impl2; [|exact HF]; cbn; tauto).
    assert (HL : length Ts = length calls) by (eapply Forall2_length2; eauto).
    destruct (c_call_values_cfev calls Ts p Hf EB HFp) as [HV HC].
    exists hs, b. split; [exact Eb|]. split; [rewrite <- HL; symmetry; eapply Forall2_length2; eauto|]. split; [exact Ib|].
    assert (Ib' : (fun i => i = fi) (cb_info b)) by exact Ib. clear Ib Hi0.
    intros Hu i r h (s & d & p1 & l & v & C1 & C2 & C3) Hh.
    pose proof (Forall2_nth _ _ _ _ _ i HQ) as X. rewrite Hh in X. destruct (nth_error Ts i) as [T|] eqn:ET; [|contradiction].
    pose proof (Forall2_nth _ _ _ _ _ i HF) as Y. rewrite ET, C1 in Y. destruct Y as (Sh & Fk & _).
    pose proof (calls_nodes_small calls Ts p Hf Hs EB HL i T ET) as Sm. specialize (X Sm Hu). cbn [snd] in X.
    destruct (build_nodes calls Ts p EB HL i _ T C1 ET) as (q & HFq & ->).
    inversion HFq as [|[d0 p0] [d1 T1] ? ? [E1 E2] HFr]; subst. inversion HFr; subst. cbn [fst snd] in *. subst d1.
    destruct (build_nodes calls Ts p EB HL p1 _ T1 C2 E2) as (L & R & EL & ER & ->).
    rewrite (build_nodes calls Ts p EB HL l _ L C3 EL) in *.
    destruct (c_wrapper_root b s d v R h Ib' X) as (rr & Hsk & HR).
    pose proof (Forall2_nth _ _ _ _ _ r HF) as Y. rewrite ER in Y. destruct (nth_error calls r) as [cr|]; [|contradiction]. destruct Y as (ShR & FkR & _).
    assert (Hat : forall s, s < nulling_symbol_count fi + 1 -> cnulling_at (cb_graph b) s (nulled_rhs fi s)).
    { intros s' Hs'. rewrite Dx. apply cnulling_at_app. apply Hat0; [|auto]. eapply u32_le; [|exact Hu]. rewrite Dx, app_length. lia. }
    destruct (crep_value ev fi nv nulls Hnulls Hac Hlim (cb_graph b) Hat R rr HR ShR FkR (calls_nodes_small calls Ts p Hf Hs EB HL r R ER)) as (cst & Lc & V).
    exists cst. rewrite HV, HC.
    rewrite (nth_error_nth _ _ _ (map_nth_error cost _ _ ER)), (nth_error_nth _ _ _ (map_nth_error (cfev ev fi nulls) _ _ ER)).
    split; [exact Lc|]. exists rr. auto.
  Qed.

  Theorem C20_compact_lemma : forall cb0 calls (roots : list (nat * nat)),
    cbocage_new fi = Ret cb0 -> calls_fine rules calls -> calls_small calls ->
    (forall i r, In (i, r) roots -> wraps fi calls i r) ->
    exists hs b handles, build compact_forest calls cb0 = Ret (hs, b) /\
      Forall2 (fun ir h => nth_error hs (fst ir) = Some h) roots handles /\
      (graph_fits b (list_sum (map (fun ir => nth (snd ir) (call_costs calls) 0) roots)) ->
       exists fuel0 b', forall fuel, fuel0 <= fuel ->
         c_evaluate_each ev fuel handles b = Ret (map (fun ir => nth (snd ir) (c_call_values ev fi nulls calls) []) roots, b')).
  Proof.
    intros cb0 calls roots H0 Hf Hs HR.
    destruct (c_build_evaluates cb0 calls H0 Hf Hs) as (hs & b & Eb & Len & Ib & W).
    assert (X : exists handles, Forall2 (fun ir h => nth_error hs (fst ir) = Some h) roots handles).
    { clear Eb. induction roots as [|[i r] roots IH].
      - exists []. auto.
      - destruct IH as (handles & F1). { intros; apply HR; cbn; auto. }
        assert (Hi : i < length calls).
        { destruct (HR i r (or_introl eq_refl)) as (? & ? & ? & ? & ? & H & _); apply nth_error_Some; congruence. }
        destruct (nth_error hs i) as [h|] eqn:Eh; [|apply nth_error_None in Eh; lia]. exists (h :: handles). constructor; auto. }
    destruct X as (handles & F1). exists hs, b, handles. split; [exact Eb|]. split; [exact F1|]. intros Hg. unfold graph_fits in Hg.
    assert (Hu : u32 (length (cb_graph b))) by (eapply u32_le; [|exact Hg]; lia).
    assert (Y : exists rvs, map fst rvs = handles /\ map (fun rv => fst (snd rv)) rvs = map (fun ir : nat * nat => nth (snd ir) (c_call_values ev fi nulls calls) []) roots /\
      list_sum (map (fun rv => snd (snd rv)) rvs) <= list_sum (map (fun ir => nth (snd ir) (call_costs calls) 0) roots) /\
      Forall (fun rv => croot_value ev fi nv (cb_graph b) b (fst rv) (fst (snd rv)) (snd (snd rv))) rvs).
    { clear Hg Eb. induction F1 as [|[i r] h roots handles Hh _ IH].
      - exists []. auto.
      - destruct IH as (rvs & A & B & C & D). { intros; apply HR; now right. } cbn [fst snd] in *.
        destruct (W Hu i r h (HR i r (or_introl eq_refl)) Hh) as (c & Lc & V).
        exists ((h, (nth r (c_call_values ev fi nulls calls) [], c)) :: rvs). cbn [map fst snd]. rewrite A, B.
        split; [reflexivity|]. split; [reflexivity|]. split; [unfold list_sum in *; cbn [fold_right]; lia|]. constructor; auto. }
    destruct Y as (rvs & A & B & C & D). rewrite <- A, <- B.
    apply (c_evaluate_roots (cb_graph b) rvs b []); auto.
    - now rewrite app_nil_r.
    - eapply u32_le; [|exact Hg]. lia.
  Qed.
End More.

(** ** Values up to order *)
Lemma concat_perm : forall A (l l' : list (list A)), Forall2 (@Permutation A) l l' -> Permutation (concat l) (concat l').
Proof. intros A l l' H. induction H; cbn; auto. now apply Permutation_app. Qed.

Lemma concat_rotate : forall A (l : list (list A)), Permutation (concat (rotate l)) (concat l).
Proof. intros A [|a l]; cbn; [constructor|]. rewrite concat_app. cbn. rewrite app_nil_r. apply Permutation_app_comm. Qed.

Lemma alt_value_perm : forall E (ev : evaluator E) fi nulls d p vs vs', unordered ev -> Permutation vs vs' ->
  Permutation (alt_value ev fi nulls d p vs) (alt_value ev fi nulls d p vs').
Proof.
  intros E ev fi nulls d p vs vs' Hu Hp. unfold alt_value.
  assert (R : Permutation (if p then vs else restore fi nulls d vs) (if p then vs' else restore fi nulls d vs')).
  { destruct p; [auto|]. unfold restore. destruct (nth_error (fi_nulling_eliminated fi) d) as [[[s [|]]|]|]; auto.
    - now apply Permutation_app_tail.
    - now apply Permutation_app_head. }
  unfold reduce. destruct (fi_external_origin fi d) as [[id|]|]; auto. now rewrite (Hu id _ _ R).
Qed.

Lemma cfev_perm : forall E (ev : evaluator E) fi nulls, unordered ev -> forall T, Permutation (fev ev fi nulls T) (cfev ev fi nulls T).
Proof.
  intros E ev fi nulls Hu T. induction T as [s v|s|l r IHl IHr|s alts IH] using fnode_ind2; cbn [fev cfev]; auto.
  - now apply Permutation_app.
  - etransitivity; [apply concat_rotate|]. apply concat_perm. induction IH as [|[d T] alts H _ IHa]; cbn [map]; constructor; auto.
    now apply alt_value_perm.
Qed.

Lemma call_values_perm : forall E (ev : evaluator E) fi nulls calls, unordered ev -> calls_fine (length (fi_nulling_eliminated fi)) calls ->
  forall r, Permutation (nth r (call_values ev fi nulls calls) []) (nth r (c_call_values ev fi nulls calls) []).
Proof.
  intros E ev fi nulls calls Hu Hf r. destruct (free_build fi calls Hf) as (Ts & p & EB & _ & HF).
  assert (HFp : Forall2 (fun T c => is_fprod T = is_product c) Ts calls) by (eapply Forall2_impl2; [|exact HF]; cbn; tauto).
  destruct (c_call_values_cfev ev fi nulls calls Ts p Hf EB HFp) as [HV _].
  destruct (call_values_fev ev fi nulls calls Ts p EB HFp) as [HV' HL].
  rewrite HV. pose proof (nth_call_values ev fi nulls calls Ts r HV' HL) as X.
  destruct (nth_error Ts r) as [T|] eqn:ET; cbn [option_map] in X.
  - rewrite (nth_error_nth _ _ _ X), (nth_error_nth _ _ _ (map_nth_error (cfev ev fi nulls) _ _ ET)). now apply cfev_perm.
  - rewrite (nth_overflow (map _ Ts)) by (rewrite map_length; now apply nth_error_None).
    apply nth_error_None in X. now rewrite nth_overflow by exact X.
Qed.

(** ** The cost, bounded by the trees *)
Lemma sum_prod : forall (l r : list (list tree)), l <> [] -> r <> [] ->
  all_inner_nodes l + all_inner_nodes r <= all_inner_nodes (flat_map (fun xs => map (fun ys => xs ++ ys) r) l).
Proof.
  unfold all_inner_nodes. set (w := fun ts : list tree => list_sum (map inner_nodes ts)).
  intros l r Hl Hr.
  assert (W : forall xs ys, w (xs ++ ys) = w xs + w ys) by (intros; unfold w; now rewrite map_app, list_sum_app).
  assert (Row : forall xs, w xs + list_sum (map w r) <= list_sum (map w (map (fun ys => xs ++ ys) r))).
  { intros xs. destruct r as [|y r]; [congruence|]. clear Hr. revert y. induction r as [|y' r IH]; intros y; cbn [map list_sum fold_right] in *.
    - rewrite W. lia.
    - specialize (IH y'). rewrite !W in *. unfold list_sum in *. cbn [fold_right] in *. lia. }
  assert (All : forall l, l <> [] -> list_sum (map w l) + list_sum (map w r) <= list_sum (map w (flat_map (fun xs => map (fun ys => xs ++ ys) r) l))).
  { clear l Hl. induction l as [|x l IH]; intros H; [congruence|]. cbn [flat_map]. rewrite map_app, list_sum_app. specialize (Row x).
    destruct l as [|x' l].
    - cbn [map flat_map list_sum fold_right app]. lia.
    - specialize (IH ltac:(discriminate)). cbn [map list_sum fold_right] in *. lia. }
  now apply All.
Qed.

Lemma cost_trees : forall T, shape T -> cost T <= 9 * all_inner_nodes (trees T).
Proof.
  intros T. induction T as [s v|s|l r IHl IHr|s alts IH] using fnode_ind2; intros Hs.
  - cbn. lia.
  - contradiction.
  - cbn [shape cost trees] in *. destruct Hs as [H1 H2]. specialize (IHl H1). specialize (IHr H2).
    pose proof (sum_prod (trees l) (trees r) (shape_trees _ H1) (shape_trees _ H2)). lia.
  - apply shape_sum in Hs. destruct Hs as [_ HF]. cbn [cost trees]. unfold all_inner_nodes.
    induction IH as [|[d T] alts HT _ IHa]; cbn [map flat_map]; [cbn; lia|].
    inversion HF as [|? ? S1 S2]; subst. specialize (IHa S2). cbn [fst snd] in *. specialize (HT S1).
    rewrite map_app, list_sum_app. cbn [list_sum fold_right] in *.
    assert (A : 1 + all_inner_nodes (trees T) <= list_sum (map (fun ts => list_sum (map inner_nodes ts)) (map (fun xs => [Node d xs]) (trees T)))).
    { pose proof (shape_trees T S1) as Hne. clear - Hne. unfold all_inner_nodes. destruct (trees T) as [|x l]; [congruence|]. clear Hne.
      revert x. induction l as [|x' l IH]; intros x; cbn [map list_sum fold_right inner_nodes] in *.
      - lia.
      - specialize (IH x'). lia. }
    change (9 + cost T + list_sum (map (fun a : nat * fnode => 9 + cost (snd a)) alts) <= 9 *
      (list_sum (map (fun ts => list_sum (map inner_nodes ts)) (map (fun xs => [Node d xs]) (trees T))) +
       list_sum (map (fun ts => list_sum (map inner_nodes ts)) (flat_map (fun a => map (fun xs => [Node (fst a) xs]) (trees (snd a))) alts)))).
    lia.
Qed.
