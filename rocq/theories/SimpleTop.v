(** SimpleTop: evaluation of forests built by calls of the trait. *)
From Coq Require Import List Arith Bool Lia NArith.
From Verif Require Import Base BaseProofs TablesProofs Item Grammar Forest ForestSpec Spec Den Sim SimpleBocage EvalSpec SimpleEval
  SimpleProofs SimpleValue ForestProg ForestValue.
Import ListNotations.
Local Open Scope res_scope.

Section Top.
  Context {E : Type}.
  Variable ev : evaluator E.
  Variable fi : forest_info.
  Variable nv : sym -> E.
  Variable nulls : sym -> list E.
  Hypothesis Hpush : pushes ev nv.
  Hypothesis Hnulls : nulls_ok fi nv nulls.
  Hypothesis Hac : nulling_acyclic fi.
  Notation nn := (nulling_symbol_count fi + 1).
  Notation fev := (fev ev fi nulls).

  Lemma nulling_at_mono : forall g g' s o, (forall i nd, nth_error g i = Some nd -> nth_error g' i = Some nd) ->
    nulling_at g s o -> nulling_at g' s o.
  Proof. intros g g' s [[a b]|] H; cbn; auto. intros (f & A & B). eauto. Qed.

  Lemma new_at : forall b0, bocage_new fi = Ret b0 -> b_info b0 = fi /\ b_count b0 = 0 /\
    forall s, s < nn -> nulling_at (b_graph b0) s (nulled_rhs fi s).
  Proof.
    intros b0 H. assert (L : (N.of_nat (nulling_symbol_count fi) < 1048576)%N).
    { unfold bocage_new in H. destruct (N.ltb_spec (N.of_nat (nulling_symbol_count fi)) 1048576); [auto|discriminate]. }
    destruct (bocage_new_spec fi L) as (b & Eb & A & B & _ & D). rewrite H in Eb. injection Eb as <-. auto.
  Qed.

  (** a bocage in which the node of [T] can be evaluated at [h] *)
  Definition holds_node (b : bocage) (T : fnode) (h : nat) : Prop :=
    exists n, gev ev fi nv n (b_graph b) h = Some (fev T).

  (** a root whose evaluation gives [vs] *)
  Definition root_value (b : bocage) (h : nat) (vs : list E) : Prop :=
    exists r n, skip_wrapper ev b h = Ret (inl r) /\ gev ev fi nv n (b_graph b) r = Some vs.

  Lemma skip_ext : forall b b' h r, b_info b = b_info b' -> keeps (b_graph b) (b_graph b') ->
    skip_wrapper ev b h = Ret (inl r) -> skip_wrapper ev b' h = Ret (inl r).
  Proof.
    intros b b' h r Hi K H. unfold skip_wrapper in *. rewrite <- Hi.
    destruct (nth_error (b_graph b) h) as [nd|] eqn:Eh; [|unfold idx in H; rewrite Eh in H; discriminate].
    rewrite (idx_some _ _ _ _ Eh) in H. cbn [bind] in H. specialize (K h nd Eh) as Kh.
    destruct nd as [s k|a f|l rr|s v|s]; try (rewrite (idx_some _ _ _ _ Kh); exact H).
    destruct Kh as (f' & E1 & D). rewrite (idx_some _ _ _ _ E1). cbn [bind].
    destruct (nth_error (b_graph b) f) as [fn|] eqn:Ef; [|unfold idx in H; rewrite Ef in H; discriminate].
    rewrite (idx_some _ _ _ _ Ef) in H. cbn [bind] in H.
    destruct fn as [s k|a0 f0|l rr|s v|s]; try discriminate.
    destruct D as [-> | D]; [|now elim (D l rr)].
    pose proof (K f _ Ef) as Kf. cbn in Kf. rewrite (idx_some _ _ _ _ Kf). cbn [bind].
    destruct (nth_error (b_graph b) l) as [ln|] eqn:El; [|unfold idx in H; rewrite El in H; discriminate].
    rewrite (idx_some _ _ _ _ El) in H. cbn [bind] in H. destruct ln as [s k|a0 f0|l0 r0|s v|s]; try discriminate.
    pose proof (K l _ El) as Kl. cbn in Kl. rewrite (idx_some _ _ _ _ Kl). exact H.
  Qed.

  Theorem evaluate_root : forall b h vs, b_info b = fi -> root_value b h vs ->
    exists fuel0 b', b_info b' = fi /\ ext ev fi nv (b_graph b) (b_graph b') /\
      forall fuel, fuel0 <= fuel -> evaluate ev fuel b h = Ret (vs, b').
  Proof.
    intros b h vs Hi (r & n & Hs & Hv).
    destruct (loop_value ev fi nv Hpush n b r vs Hi Hv) as (k & b' & I & X & H).
    exists k, b'. split; [auto|]. split; [auto|]. intros fuel Hf. destruct (H fuel Hf) as (rs & S & w & A & B & C).
    unfold evaluate. rewrite Hs. cbn [bind]. rewrite A. cbn [bind]. rewrite (idx_some _ _ _ _ B). cbn [bind]. now rewrite C.
  Qed.

  Theorem evaluate_roots : forall roots b, b_info b = fi -> Forall (fun rv => root_value b (fst rv) (snd rv)) roots ->
    exists fuel0 b', forall fuel, fuel0 <= fuel -> evaluate_each ev fuel (map fst roots) b = Ret (map snd roots, b').
  Proof.
    intros roots. unfold evaluate_each.
    assert (G : forall b out, b_info b = fi -> Forall (fun rv => root_value b (fst rv) (snd rv)) roots ->
      exists fuel0 b', forall fuel, fuel0 <= fuel ->
        foldM (fun st root => let '(out, b) := st in '(vs, b) <- evaluate ev fuel b root ;; Ret (out ++ [vs], b)) (map fst roots) (out, b)
        = Ret (out ++ map snd roots, b')).
    { induction roots as [|[h vs] roots IH]; intros b out Hi HF; cbn [map foldM fst snd].
      - exists 0, b. intros. now rewrite app_nil_r.
      - inversion HF as [|? ? H1 H2]; subst. cbn [fst snd] in H1.
        destruct (evaluate_root b h vs Hi H1) as (k1 & b1 & I1 & X1 & G1).
        destruct (IH b1 (out ++ [vs])) as (k2 & b2 & G2); [auto| |].
        + eapply Forall_impl; [|exact H2]. cbn. intros [h' vs'] (r & n & A & B). exists r, n. cbn [fst snd] in *.
          split; [eapply skip_ext; [| |exact A]; [congruence|apply X1]|]. now apply X1.
        + exists (k1 + k2), b2. intros fuel Hf. rewrite G1 by lia. cbn [bind]. rewrite G2 by lia. rewrite <- app_assoc. reflexivity. }
    intros b Hi HF. destruct (G b [] Hi HF) as (k & b' & H). eauto.
  Qed.

  (** the root of a complete parse *)
  Lemma wrapper_root : forall b s d v T h, b_info b = fi -> srep (b_graph b) (FSum s [(d, FProd (FLeaf (fi_sof fi) v) T)]) h ->
    exists r, skip_wrapper ev b h = Ret (inl r) /\ srep (b_graph b) T r.
  Proof.
    intros b s d v T h Hi H. apply srep_sum in H. destruct H as [_ H]. cbn [length places] in H.
    inversion H as [|? ? ? ? (f & E1 & X) _]; subst. cbn [fst snd] in *. cbn [srep] in X.
    destruct X as (l & r & E2 & E3 & X). exists r. split; [|auto]. unfold skip_wrapper.
    rewrite (idx_some _ _ _ _ E1). cbn [bind]. rewrite (idx_some _ _ _ _ E2). cbn [bind].
    rewrite (idx_some _ _ _ _ E3). cbn [bind]. now rewrite Nat.eqb_refl.
  Qed.

  (** an ambiguous root is evaluated as it is *)
  Lemma ambiguous_root : forall b s alts h, length alts <> 1 -> srep (b_graph b) (FSum s alts) h ->
    skip_wrapper ev b h = Ret (inl h).
  Proof.
    intros b s alts h Hl H. apply srep_sum in H. destruct H as [H _]. unfold skip_wrapper. now rewrite (idx_some _ _ _ _ (H Hl)).
  Qed.

  (** values of represented nodes in a bocage that grew from a new one *)
  Lemma rep_value : forall b0 b x T h, bocage_new fi = Ret b0 -> b_graph b = b_graph b0 ++ x ->
    srep (b_graph b) T h -> fok fi T -> exists n, gev ev fi nv n (b_graph b) h = Some (fev T).
  Proof.
    intros b0 b x T h H0 Hx Hr Hf. destruct (new_at b0 H0) as (_ & _ & Hat).
    assert (Hat' : forall s, s < nn -> nulling_at (b_graph b) s (nulled_rhs fi s)).
    { intros s Hs. eapply nulling_at_mono; [|apply Hat; auto]. intros i nd. rewrite Hx. apply app_keeps. }
    eapply srep_value; eauto. eapply nulling_value; eauto.
  Qed.

  Lemma combine_app_eq : forall A B (l1 l2 : list A) (m1 m2 : list B), length l1 = length m1 ->
    combine (l1 ++ l2) (m1 ++ m2) = combine l1 m1 ++ combine l2 m2.
  Proof. intros A B l1. induction l1 as [|a l1 IH]; intros l2 [|b m1] m2 H; cbn in *; try discriminate; auto. rewrite IH; auto. Qed.

  (** ** Forests built by calls *)
  Lemma call_values_fev : forall calls Ts p, build free_forest calls [] = Ret (Ts, p) ->
    Forall2 (fun T c => is_fprod T = is_product c) Ts calls ->
    fold_left (fun before c => before ++ [(c, call_value ev fi nulls before c)]) calls [] = combine calls (map fev Ts) /\
    length Ts = length calls.
  Proof.
    intros calls. induction calls as [|c calls IH] using rev_ind; intros Ts p HB HF.
    - cbn in HB. injection HB as <- <-. auto.
    - unfold build in *. rewrite foldM_app in HB.
      destruct (foldM (build_call free_forest) calls ([], [])) as [[Ts0 p0]| |] eqn:E0; cbn [bind foldM] in HB; try discriminate.
      assert (Ex : exists T, Ts = Ts0 ++ [T]).
      { destruct (build_call free_forest (Ts0, p0) c) as [[Ts1 p1]| |] eqn:E1; cbn in HB; try discriminate. injection HB as <- <-.
        destruct c as [s v|l r|s alts]; cbn [build_call] in E1.
        - cbn in E1. injection E1 as <- <-. eauto.
        - destruct (idx Ts0 l); try discriminate. destruct (idx Ts0 r); try discriminate. cbn in E1. injection E1 as <- <-. eauto.
        - cbn [bind free_forest f_begin_sum] in E1. destruct (foldM _ alts []) as [q| |]; cbn [bind] in E1; try discriminate.
          cbn [f_sum] in E1. destruct q; cbn in E1; try discriminate. injection E1 as <- <-. eauto. }
      destruct Ex as [T ->].
      assert (L0 : length Ts0 = length calls).
      { apply Forall2_length2 in HF. rewrite !app_length in HF. cbn in HF. lia. }
      assert (HF0 : Forall2 (fun T c => is_fprod T = is_product c) Ts0 calls).
      { apply Forall2_app_inv_l in HF. destruct HF as (l1 & l2 & A & B & C). inversion B as [|? ? ? ? B1 B2]; subst. inversion B2; subst. apply app_inj_tail in C. destruct C as [-> _]. exact A. }
      destruct (IH _ _ eq_refl HF0) as [IHv _]. clear IH.
      rewrite fold_left_app, IHv. cbn [fold_left]. rewrite map_app. cbn [map].
      assert (Nth : forall i T', nth_error Ts0 i = Some T' -> exists c', nth_error calls i = Some c' /\ is_fprod T' = is_product c' /\
         nth_error (combine calls (map fev Ts0)) i = Some (c', fev T')).
      { intros i T' Hi. pose proof (Forall2_nth _ _ _ _ _ i HF0) as X. rewrite Hi in X.
        destruct (nth_error calls i) as [c'|] eqn:Ec; [|contradiction]. exists c'. split; [auto|]. split; [auto|].
        clear - Hi Ec. revert Ts0 i Hi Ec. induction calls as [|x calls IHc]; intros [|T0 Ts0] [|i] Hi Ec; cbn in *; try discriminate.
        - congruence.
        - apply IHc; auto. }
      assert (V : call_value ev fi nulls (combine calls (map fev Ts0)) c = fev T).
      { destruct c as [s v|l r|s alts]; cbn [build_call] in HB.
        - cbn in HB. injection HB as HB _. apply app_inj_tail in HB. destruct HB as [_ <-]. reflexivity.
        - destruct (nth_error Ts0 l) as [Tl|] eqn:El; [|unfold idx in HB; rewrite El in HB; discriminate].
          rewrite (idx_some _ _ _ _ El) in HB. cbn [bind] in HB.
          destruct (nth_error Ts0 r) as [Tr|] eqn:Er; [|unfold idx in HB; rewrite Er in HB; discriminate].
          rewrite (idx_some _ _ _ _ Er) in HB. cbn in HB. injection HB as HB _. apply app_inj_tail in HB. destruct HB as [_ <-].
          destruct (Nth _ _ El) as (cl & _ & _ & Vl). destruct (Nth _ _ Er) as (cr & _ & _ & Vr).
          cbn [call_value]. now rewrite Vl, Vr.
        - cbn [bind free_forest f_begin_sum f_push_summand f_sum] in HB.
          assert (Push : forall l q q', foldM (fun f a => n <- idx Ts0 (snd a) ;; Ret (f ++ [(it_dot (mkItem (fst a) 0 n), it_node (mkItem (fst a) 0 n))])) l q = Ret q' ->
            exists q0, q' = q ++ q0 /\ Forall2 (fun a b => fst a = fst b /\ nth_error Ts0 (snd a) = Some (snd b)) l q0).
          { induction l as [|[d i] l IHl]; intros q q' H; cbn [foldM snd fst] in H.
            - injection H as <-. exists []. rewrite app_nil_r. auto.
            - destruct (nth_error Ts0 i) as [Ti|] eqn:Ei; [|unfold idx in H; rewrite Ei in H; discriminate].
              rewrite (idx_some _ _ _ _ Ei) in H. cbn [bind it_dot it_node] in H. apply IHl in H.
              destruct H as (q0 & -> & HF1). exists ((d, Ti) :: q0). rewrite <- app_assoc. split; [reflexivity|]. constructor; auto. }
          destruct (foldM _ alts []) as [q| |] eqn:Eq; cbn [bind] in HB; try discriminate.
          apply Push in Eq. destruct Eq as (q0 & -> & HFq). cbn [app] in HB.
          destruct q0 as [|a0 q0]; [discriminate|]. cbn in HB. injection HB as HB _. apply app_inj_tail in HB. destruct HB as [_ <-].
          cbn [SimpleValue.fev call_value]. f_equal.
          assert (M : forall l q, Forall2 (fun (a : nat * nat) (b : nat * fnode) => fst a = fst b /\ nth_error Ts0 (snd a) = Some (snd b)) l q ->
            map (fun a : nat * nat =>
               let '(d, i) := a in
               reduce ev fi d
                 match nth_error (combine calls (map fev Ts0)) i with
                 | Some (CallProduct _ _, vs) => vs
                 | Some (_, vs) => restore fi nulls d vs
                 | None => []
                 end) l = map (fun a : nat * fnode => alt_value ev fi nulls (fst a) (is_fprod (snd a)) (fev (snd a))) q).
          { intros l q H. induction H as [|[d i] [d' Ti] l q [E1 E2] _ IHm]; cbn [map]; [reflexivity|]. cbn [fst snd] in *. subst d'.
            rewrite IHm. f_equal. destruct (Nth _ _ E2) as (c' & _ & Ep & ->). unfold alt_value. rewrite Ep. destruct c'; reflexivity. }
          rewrite (M _ _ HFq). reflexivity. }
      split; [|rewrite !app_length; cbn; lia].
      rewrite V. rewrite (combine_app_eq _ _ calls [c] (map fev Ts0) [fev T]) by (rewrite map_length; lia). reflexivity.
  Qed.

  Lemma nth_call_values : forall calls Ts i, fold_left (fun before c => before ++ [(c, call_value ev fi nulls before c)]) calls [] = combine calls (map fev Ts) ->
    length Ts = length calls -> nth_error (call_values ev fi nulls calls) i = option_map fev (nth_error Ts i).
  Proof.
    intros calls Ts i H L. unfold call_values. rewrite H. rewrite <- nth_error_map.
    f_equal. clear H. revert Ts L. induction calls as [|c calls IH]; intros [|T Ts] L; cbn in *; try discriminate; auto.
    rewrite IH; auto.
  Qed.

  (** the node of a call, from the calls *)
  Lemma build_nodes : forall calls Ts p, build free_forest calls [] = Ret (Ts, p) -> length Ts = length calls ->
    forall i c T, nth_error calls i = Some c -> nth_error Ts i = Some T ->
    match c with
    | CallLeaf s v => T = FLeaf s v
    | CallProduct l r => exists L R, nth_error Ts l = Some L /\ nth_error Ts r = Some R /\ T = FProd L R
    | CallSum s alts => exists q, Forall2 (fun a b => fst a = fst b /\ nth_error Ts (snd a) = Some (snd b)) alts q /\ T = FSum s q
    end.
  Proof.
    intros calls. induction calls as [|c calls IH] using rev_ind; intros Ts p HB HL.
    - intros [|i] c T H; discriminate.
    - unfold build in *. rewrite foldM_app in HB.
      destruct (foldM (build_call free_forest) calls ([], [])) as [[Ts0 p0]| |] eqn:E0; cbn [bind foldM] in HB; try discriminate.
      assert (Step : exists T, Ts = Ts0 ++ [T] /\
        match c with
        | CallLeaf s v => T = FLeaf s v
        | CallProduct l r => exists L R, nth_error Ts0 l = Some L /\ nth_error Ts0 r = Some R /\ T = FProd L R
        | CallSum s alts => exists q, Forall2 (fun a b => fst a = fst b /\ nth_error Ts0 (snd a) = Some (snd b)) alts q /\ T = FSum s q
        end).
      { destruct (build_call free_forest (Ts0, p0) c) as [[Ts1 p1]| |] eqn:E1; cbn in HB; try discriminate. injection HB as <- <-.
        destruct c as [s v|l r|s alts]; cbn [build_call] in E1.
        - cbn in E1. injection E1 as <- <-. eauto.
        - destruct (nth_error Ts0 l) as [Tl|] eqn:El; [|unfold idx in E1; rewrite El in E1; discriminate].
          rewrite (idx_some _ _ _ _ El) in E1. cbn [bind] in E1.
          destruct (nth_error Ts0 r) as [Tr|] eqn:Er; [|unfold idx in E1; rewrite Er in E1; discriminate].
          rewrite (idx_some _ _ _ _ Er) in E1. cbn in E1. injection E1 as <- <-. eexists. split; [reflexivity|]. eauto.
        - cbn [bind free_forest f_begin_sum f_push_summand f_sum] in E1.
          assert (Push : forall l q q', foldM (fun f a => n <- idx Ts0 (snd a) ;; Ret (f ++ [(it_dot (mkItem (fst a) 0 n), it_node (mkItem (fst a) 0 n))])) l q = Ret q' ->
            exists q0, q' = q ++ q0 /\ Forall2 (fun a b => fst a = fst b /\ nth_error Ts0 (snd a) = Some (snd b)) l q0).
          { induction l as [|[d i] l IHl]; intros q q' H; cbn [foldM snd fst] in H.
            - injection H as <-. exists []. rewrite app_nil_r. auto.
            - destruct (nth_error Ts0 i) as [Ti|] eqn:Ei; [|unfold idx in H; rewrite Ei in H; discriminate].
              rewrite (idx_some _ _ _ _ Ei) in H. cbn [bind it_dot it_node] in H. apply IHl in H.
              destruct H as (q0 & -> & HF1). exists ((d, Ti) :: q0). rewrite <- app_assoc. split; [reflexivity|]. constructor; auto. }
          destruct (foldM _ alts []) as [q| |] eqn:Eq; cbn [bind] in E1; try discriminate.
          apply Push in Eq. destruct Eq as (q0 & -> & HFq). cbn [app] in E1.
          destruct q0 as [|a0 q0]; [discriminate|]. cbn in E1. injection E1 as <- <-. eauto. }
      destruct Step as (T0 & -> & Step).
      assert (L0 : length Ts0 = length calls) by (rewrite !app_length in HL; cbn in HL; lia).
      assert (Up : forall j x, nth_error Ts0 j = Some x -> nth_error (Ts0 ++ [T0]) j = Some x) by (intros; now apply app_keeps).
      assert (Lift : forall c T, match c with
        | CallLeaf s v => T = FLeaf s v
        | CallProduct l r => exists L R, nth_error Ts0 l = Some L /\ nth_error Ts0 r = Some R /\ T = FProd L R
        | CallSum s alts => exists q, Forall2 (fun a b => fst a = fst b /\ nth_error Ts0 (snd a) = Some (snd b)) alts q /\ T = FSum s q
        end -> match c with
        | CallLeaf s v => T = FLeaf s v
        | CallProduct l r => exists L R, nth_error (Ts0 ++ [T0]) l = Some L /\ nth_error (Ts0 ++ [T0]) r = Some R /\ T = FProd L R
        | CallSum s alts => exists q, Forall2 (fun a b => fst a = fst b /\ nth_error (Ts0 ++ [T0]) (snd a) = Some (snd b)) alts q /\ T = FSum s q
        end).
      { intros [s v|l r|s alts] T X; auto.
        - destruct X as (L & R & A & B & C). eauto 8.
        - destruct X as (q & A & B). exists q. split; [|auto]. eapply Forall2_impl2; [|exact A]. cbn. intros ? ? [? ?]. auto. }
      intros i c' T' Hc HT. apply Lift. destruct (Nat.eq_dec i (length calls)) as [->|Hne].
      + rewrite nth_error_app2, Nat.sub_diag in Hc by lia. injection Hc as <-.
        rewrite <- L0, nth_error_app2, Nat.sub_diag in HT by lia. injection HT as <-. exact Step.
      + assert (i < length calls).
        { assert (i < length (calls ++ [c])) by (apply nth_error_Some; congruence). rewrite app_length in *. cbn in *. lia. }
        rewrite nth_error_app1 in Hc, HT by lia. eapply (IH Ts0 p0 eq_refl L0); eauto.
  Qed.

  Theorem build_evaluates : forall b0 calls, bocage_new fi = Ret b0 -> calls_fine (length (fi_nulling_eliminated fi)) calls ->
    exists hs b, build simple_forest calls b0 = Ret (hs, b) /\ length hs = length calls /\ b_info b = fi /\
      (forall i r h, wraps fi calls i r -> nth_error hs i = Some h ->
         exists vs, nth_error (call_values ev fi nulls calls) r = Some vs /\ root_value b h vs) /\
      (forall i s alts h, nth_error calls i = Some (CallSum s alts) -> length alts <> 1 -> nth_error hs i = Some h ->
         exists vs, nth_error (call_values ev fi nulls calls) i = Some vs /\ root_value b h vs) /\
      (forall i d v t, nth_error (represented calls) i = Some [[Node d [Leaf (fi_sof fi) v; t]]] ->
         exists r, wraps fi calls i r /\ nth_error (call_values ev fi nulls calls) r = Some (value ev fi nulls t)).
  Proof.
    intros b0 calls H0 Hf. destruct (free_build fi calls Hf) as (Ts & p & EB & Ht & HF).
    destruct (new_at b0 H0) as (Hi & Hc & _).
    pose proof (sim_build _ _ _ _ (simple_sim fi (b_graph b0)) calls [] b0 (fun s => calls_fine_nonempty _ _ s Hf)) as HS.
    rewrite EB in HS. destruct HS as ([hs b] & Eb & HJ & HQ).
    { split; [auto|]. split; [|auto]. exists []. rewrite done_idle by auto. now rewrite app_nil_r. }
    cbn [fst snd] in *. destruct HJ as (Ib & (x & Dx) & Cb). cbn [snd] in *. rewrite done_idle in Dx by auto.
    assert (HFp : Forall2 (fun T c => is_fprod T = is_product c) Ts calls) by (eapply Forall2_impl2; [|exact HF]; cbn; tauto).
    destruct (call_values_fev calls Ts p EB HFp) as [HV HL].
    assert (Len : length hs = length calls) by (rewrite <- HL; symmetry; eapply Forall2_length2; eauto).
    assert (Rep : forall i h, nth_error hs i = Some h -> exists T, nth_error Ts i = Some T /\ srep (b_graph b) T h /\ fok fi T).
    { intros i h Hh. pose proof (Forall2_nth _ _ _ _ _ i HQ) as X. rewrite Hh in X. destruct (nth_error Ts i) as [T|] eqn:ET; [|contradiction].
      unfold sQ in X. cbn [fst snd] in X. rewrite done_idle in X by auto. exists T. split; [auto|]. split; [auto|].
      pose proof (Forall2_nth _ _ _ _ _ i HF) as Y. rewrite ET in Y. destruct (nth_error calls i); [tauto|contradiction]. }
    exists hs, b. split; [exact Eb|]. split; [auto|]. split; [auto|]. split; [|split].
    - intros i r h (s & d & p1 & l & v & C1 & C2 & C3) Hh.
      destruct (Rep i h Hh) as (T & ET & HT & HO).
      destruct (build_nodes calls Ts p EB HL i _ T C1 ET) as (q & HFq & ->).
      inversion HFq as [|[d0 p0] [d1 T1] ? ? [E1 E2] HFr]; subst. inversion HFr; subst. cbn [fst snd] in *. subst d1.
      destruct (build_nodes calls Ts p EB HL p1 _ T1 C2 E2) as (L & R & EL & ER & ->).
      rewrite (build_nodes calls Ts p EB HL l _ L C3 EL) in *.
      exists (fev R). split.
      + rewrite (nth_call_values calls Ts r HV HL), ER. reflexivity.
      + destruct (wrapper_root b s d v R h Ib HT) as (rr & Hs & HR).
        apply fok_sum in HO. destruct HO as [_ HO]. inversion HO as [|? ? [HO1 _] _]; subst. cbn in HO1.
        destruct (rep_value b0 b x R rr H0 Dx HR (proj2 HO1)) as [n Hn]. exists rr, n. auto.
    - intros i s alts h C1 Hne Hh. destruct (Rep i h Hh) as (T & ET & HT & HO).
      destruct (build_nodes calls Ts p EB HL i _ T C1 ET) as (q & HFq & ->).
      assert (Lq : length q <> 1) by (apply Forall2_length2 in HFq; congruence).
      exists (fev (FSum s q)). split.
      + rewrite (nth_call_values calls Ts i HV HL), ET. reflexivity.
      + destruct (rep_value b0 b x _ h H0 Dx HT HO) as [n Hn]. exists h, n. split; [|auto]. eapply ambiguous_root; eauto.
    - clear Ib Hi. intros i d v t Hr. rewrite <- Ht, nth_error_map in Hr. destruct (nth_error Ts i) as [T|] eqn:ET; [|discriminate].
      cbn in Hr. injection Hr as Hr.
      assert (Shape : forall j T', nth_error Ts j = Some T' -> shape T').
      { intros j T' HT'. pose proof (Forall2_nth _ _ _ _ _ j HF) as Y. rewrite HT' in Y. destruct (nth_error calls j); [tauto|contradiction]. }
      destruct (nth_error calls i) as [c|] eqn:Ec.
      2:{ apply nth_error_None in Ec. assert (i < length Ts) by (apply nth_error_Some; congruence). lia. }
      pose proof (build_nodes calls Ts p EB HL i c T Ec ET) as X. destruct c as [s0 v0|l r|s alts].
      + subst T. discriminate.
      + destruct X as (L & R & _ & _ & ->). exfalso.
        pose proof (trees_length (FProd L R) [Node d [Leaf (fi_sof fi) v; t]]) as Y. rewrite Hr in Y. cbn in Y. specialize (Y (or_introl eq_refl)). lia.
      + destruct X as (q & HFq & ->). pose proof (Shape _ _ ET) as HS0. apply shape_sum in HS0. destruct HS0 as [_ HS0]. rewrite Forall_forall in HS0.
        cbn [trees] in Hr. apply flat_map_length1 in Hr.
        2:{ intros a Ha Z. apply map_eq_nil in Z. apply (shape_trees (snd a)); auto. }
        destruct Hr as ([d1 T1] & -> & Hr). apply map_single in Hr. destruct Hr as (xs & Ex & Hx). cbn [fst snd] in *. injection Hx as -> ->.
        inversion HFq as [|[d0 p1] ? ? ? [E1 E2] HFr]; subst. inversion HFr; subst. cbn [fst snd] in *. subst d0.
        destruct (nth_error calls p1) as [c1|] eqn:Ec1.
        2:{ apply nth_error_None in Ec1. assert (p1 < length Ts) by (apply nth_error_Some; congruence). lia. }
        pose proof (build_nodes calls Ts p EB HL p1 c1 T1 Ec1 E2) as X1.
        pose proof (trees_length T1 [Leaf (fi_sof fi) v; t]) as Y. rewrite Ex in Y. specialize (Y (or_introl eq_refl)).
        destruct c1 as [s1 v1|l r|s1 alts1].
        * subst T1. cbn in Y. lia.
        * destruct X1 as (L & R & EL & ER & ->). pose proof (Shape _ _ EL) as SL. pose proof (Shape _ _ ER) as SR.
          cbn [trees] in Ex. apply flat_map_length1 in Ex. 2:{ intros a _ Z. apply map_eq_nil in Z. now apply (shape_trees R). }
          destruct Ex as (ys & EL1 & Ex). apply map_single in Ex. destruct Ex as (zs & ER1 & Exy).
          assert (Ly : 1 <= length ys).
          { pose proof (trees_length L ys) as Z. rewrite EL1 in Z. specialize (Z (or_introl eq_refl)). destruct (is_fprod L); lia. }
          assert (Lz : 1 <= length zs).
          { pose proof (trees_length R zs) as Z. rewrite ER1 in Z. specialize (Z (or_introl eq_refl)). destruct (is_fprod R); lia. }
          destruct ys as [|y [|y' ys]]; cbn in Ly; try lia.
          2:{ destruct ys; destruct zs; cbn in Lz; try lia; discriminate. }
          destruct zs as [|z [|z' zs]]; cbn in Lz; try lia; [|discriminate].
          cbn in Exy. injection Exy as -> ->.
          destruct (nth_error calls l) as [cl|] eqn:Ecl.
          2:{ apply nth_error_None in Ecl. assert (l < length Ts) by (apply nth_error_Some; congruence). lia. }
          pose proof (build_nodes calls Ts p EB HL l cl L Ecl EL) as XL.
          destruct cl as [s2 v2|l2 r2|s2 alts2].
          -- subst L. cbn in EL1. injection EL1 as -> ->.
             exists r. split; [exists s, d, p1, l, v; auto|].
             rewrite (nth_call_values calls Ts r HV HL), ER. cbn. f_equal.
             rewrite (unambiguous_value ev fi nulls R [t] SR ER1). cbn. apply app_nil_r.
          -- destruct XL as (A & B & _ & _ & ->). exfalso.
             pose proof (trees_length (FProd A B) [Leaf (fi_sof fi) v]) as Z. rewrite EL1 in Z. specialize (Z (or_introl eq_refl)). cbn in Z. lia.
          -- destruct XL as (q2 & _ & ->). exfalso.
             assert (Z : den (FSum s2 q2) [Leaf (fi_sof fi) v]) by (apply trees_den; rewrite EL1; now left). inversion Z.
        * destruct X1 as (q1 & _ & ->). cbn in Y. lia.
  Qed.
End Top.
