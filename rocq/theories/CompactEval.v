(** CompactEval: the work-stack machine of the compact bocage computes a recursive value. *)
From Coq Require Import List Arith Bool Lia NArith Sorted.
From Verif Require Import Base BaseProofs TablesProofs Item Grammar Forest Spec SimpleBocage EvalSpec SimpleEval CompactGraph CompactGraphProofs
  CompactBocage CompactSpec CompactProofs.
Import ListNotations.
Local Open Scope res_scope.

Definition is_crule (n : cnode) : bool := match n with CRule _ _ => true | _ => false end.

Section Machine.
  Context {E : Type}.
  Variable ev : evaluator E.
  Variable fi : forest_info.
  Variable nv : sym -> E.
  Hypothesis Hpush : pushes ev nv.
  Notation wrap := (wrap ev fi).

  (** the value of a handle, and how many bytes its evaluation may add *)
  Inductive cev (g : graph) : nat -> list E -> nat -> Prop :=
  | cv_leaf : forall h s v, cget g h = Ret (CLeaf s v) -> cev g h [ev_leaf ev (N.to_nat s) (N.to_nat v)] 0
  | cv_null : forall h s, cget g h = Ret (CNullingLeaf s) -> cev g h [nv (N.to_nat s)] 0
  | cv_rule : forall h l r vl vr cl cr, cget g h = Ret (CRule l r) -> cev g (N.to_nat l) vl cl -> cev g (N.to_nat r) vr cr ->
      cev g h (vl ++ vr) (cl + cr)
  | cv_begin : forall h vs c, cget g h = Ret CBeginSum -> cev g (h + 1) vs c -> cev g h vs c
  | cv_end : forall h, cget g h = Ret CEndSum -> cev g h [] 0
  | cv_product : forall h a f vs c, cget g h = Ret (CProduct a f) -> cfactors g a f vs c -> cev g h (wrap (c_action a) vs) c
  | cv_summand : forall h a f vs c k ws c', cget g h = Ret (CSummand a f) -> cfactors g a f vs c ->
      g_node_size g (N.of_nat h) = Ret k -> cev g (h + N.to_nat k) ws c' -> cev g h (wrap (c_action a) vs ++ ws) (c + c')
  (** the factors of an action, nulled ones restored *)
  with cfactors (g : graph) : N -> N -> list E -> nat -> Prop :=
  | cf_plain : forall a f nd vs c, cget g (N.to_nat f) = Ret nd ->
      (is_crule nd = true \/ a = C_NULL_ACTION \/
       (a <> C_NULL_ACTION /\ nth_error (fi_nulling_eliminated fi) (N.to_nat a) = Some None)) ->
      cev g (N.to_nat f) vs c -> cfactors g a f vs c
  | cf_restored : forall a f nd s (dir : bool) vf vn c cn, cget g (N.to_nat f) = Ret nd -> is_crule nd = false -> a <> C_NULL_ACTION ->
      nth_error (fi_nulling_eliminated fi) (N.to_nat a) = Some (Some (s, dir)) -> u32 (9 * s) ->
      cev g (N.to_nat f) vf c -> cev g (9 * s) vn cn ->
      cfactors g a f (if dir then vf ++ vn else vn ++ vf) (9 + (c + cn)).

  Scheme cev_mut := Induction for cev Sort Prop
    with cfactors_mut := Induction for cfactors Sort Prop.
  Combined Scheme cev_both from cev_mut, cfactors_mut.

  Lemma cev_mono : forall g x, (forall h vs c, cev g h vs c -> cev (g ++ x) h vs c) /\
    (forall a f vs c, cfactors g a f vs c -> cfactors (g ++ x) a f vs c).
  Proof.
    intros g x. apply cev_both; intros.
    - now apply cv_leaf, cget_app.
    - now apply cv_null, cget_app.
    - eapply cv_rule; eauto using cget_app.
    - eapply cv_begin; eauto using cget_app.
    - eapply cv_end; eauto using cget_app.
    - eapply cv_product; eauto using cget_app.
    - eapply cv_summand; eauto using cget_app, size_app.
    - eapply cf_plain; eauto using cget_app.
    - eapply cf_restored; eauto using cget_app.
  Qed.

  Lemma cev_bound : forall g h vs c, cev g h vs c -> h < length g.
  Proof. intros g h vs c H. inversion H; eauto using cget_bound. Qed.

  (** ** Runs of the machine *)
  Notation mstate := (cbocage * list E * list work)%type.
  Definition cruns (s s' : mstate) : Prop :=
    exists k, forall fuel, c_eval_loop ev (k + fuel) s = c_eval_loop ev fuel s'.

  Lemma cruns_trans : forall a b c, cruns a b -> cruns b c -> cruns a c.
  Proof.
    intros a b c [k1 H1] [k2 H2]. exists (k1 + k2). intros fuel. now rewrite <- Nat.add_assoc, H1, H2.
  Qed.
  Lemma cruns_step : forall b rs S w s', S <> [] -> c_eval_step ev (b, rs, S ++ [w]) = Ret s' ->
    cruns (b, rs, S ++ [w]) s'.
  Proof.
    intros b rs S w s' HS H. exists 1. intros fuel. cbn [Nat.add c_eval_loop].
    rewrite app_length. cbn [length]. destruct (1 <? length S + 1) eqn:X.
    - now rewrite H.
    - apply Nat.ltb_ge in X. destruct S; [congruence|cbn in X; lia].
  Qed.

  (** a visit of a new work node evaluates it and gives the results to the parent *)
  Definition cvisited (b : cbocage) (rs : list E) (S : list work) (h p : nat) (vs : list E) (c : nat) : Prop :=
    exists b' rs' is x, cruns (b, rs, S ++ [new_work h p]) (b', rs', given S p is) /\
      cb_info b' = cb_info b /\ cb_graph b' = cb_graph b ++ x /\ length x <= c /\ holds rs rs' is vs.

  Lemma cstep_unfold : forall b rs S h n p is,
    c_eval_step ev (b, rs, S ++ [mkWork h n p is]) =
    (node <- cget (cb_graph b) h ;;
    '(node, b) <- (if n =? 0 then c_postprocess node b else Ret (node, b)) ;;
    match node with
    | CBeginSum => Ret (b, rs, S ++ [new_work (wrap32 (h + 1)) p])
    | CEndSum => Ret (b, rs, S)
    | CRule l r =>
        match n with
        | 0 => Ret (b, rs, S ++ [mkWork h (n + 1) p is; new_work (N.to_nat l) p])
        | 1 => Ret (b, rs, S ++ [mkWork h (n + 1) p is; new_work (N.to_nat r) p])
        | _ => Ret (b, rs, S)
        end
    | CLeaf symbol values =>
        let results := rs ++ [ev_leaf ev (N.to_nat symbol) (N.to_nat values)] in
        stack <- give S p [length results - 1] ;;
        Ret (b, results, stack)
    | CProduct action factors | CSummand action factors =>
        match n with
        | 0 => Ret (b, rs, S ++ [mkWork h (n + 1) p is; new_work (N.to_nat factors) (length S)])
        | _ =>
            '(results, stack) <-
              match origin_of (cb_info b) (c_action action) with
              | Some id =>
                  args <- mapM (idx rs) is ;;
                  let results := rs ++ [ev_product ev id args] in
                  stack <- give S p [length results - 1] ;;
                  Ret (results, stack)
              | None =>
                  stack <- give S p is ;;
                  Ret (rs, stack)
              end ;;
            match node with
            | CSummand _ _ =>
                size <- g_node_size (cb_graph b) (N.of_nat h) ;;
                Ret (b, results, stack ++ [new_work (wrap32 (h + N.to_nat size)) p])
            | _ => Ret (b, results, stack)
            end
        end
    | CNullingLeaf symbol =>
        let values := length rs in
        let results := ev_nulling ev (N.to_nat symbol) rs in
        stack <- give S p [values] ;;
        Ret (b, results, stack)
    end).
  Proof. intros. unfold c_eval_step. rewrite pop_snoc. reflexivity. Qed.

  (** a rule *)
  Lemma rule_visit : forall b rs S h p l r vl vr cl cr, cb_info b = fi -> p < length S ->
    cget (cb_graph b) h = Ret (CRule l r) ->
    (forall rs S, p < length S -> cvisited b rs S (N.to_nat l) p vl cl) ->
    (forall b' x rs S, cb_info b' = fi -> cb_graph b' = cb_graph b ++ x -> length x <= cl -> p < length S ->
       cvisited b' rs S (N.to_nat r) p vr cr) ->
    cvisited b rs S h p (vl ++ vr) (cl + cr).
  Proof.
    intros b rs S h p l r vl vr cl cr Hi Hp Eh Hl Hr.
    assert (HS : S <> []) by (destruct S; [cbn in Hp; lia|discriminate]).
    assert (Hp1 : p < length (S ++ [mkWork h 1 p []])) by (rewrite app_length; lia).
    destruct (Hl rs (S ++ [mkWork h 1 p []]) Hp1) as (b1 & rs1 & is1 & x1 & R1 & I1 & G1 & L1 & H1).
    rewrite given_app in R1 by auto.
    set (S1 := given S p is1) in *.
    assert (LS1 : length S1 = length S) by apply given_length.
    assert (HS1 : S1 <> []) by (intros Z; rewrite Z in LS1; destruct S; [congruence|discriminate]).
    assert (Hp2 : p < length (S1 ++ [mkWork h 2 p []])) by (rewrite app_length, LS1; lia).
    destruct (Hr b1 x1 rs1 (S1 ++ [mkWork h 2 p []]) ltac:(congruence) G1 L1 Hp2) as (b2 & rs2 & is2 & x2 & R2 & I2 & G2 & L2 & H2).
    rewrite given_app in R2 by (rewrite LS1; auto). unfold S1 in R2 at 2. rewrite given_given in R2.
    set (S2 := given S p (is1 ++ is2)) in *.
    assert (LS2 : length S2 = length S) by apply given_length.
    assert (HS2 : S2 <> []) by (intros Z; rewrite Z in LS2; destruct S; [congruence|discriminate]).
    assert (Eh1 : cget (cb_graph b1) h = Ret (CRule l r)) by (rewrite G1; now apply cget_app).
    assert (Eh2 : cget (cb_graph b2) h = Ret (CRule l r)) by (rewrite G2; now apply cget_app).
    exists b2, rs2, (is1 ++ is2), (x1 ++ x2).
    split; [|split; [congruence|split; [now rewrite G2, G1, app_assoc|split; [rewrite app_length; lia|eapply holds_app; eauto]]]].
    apply (cruns_trans _ (b, rs, (S ++ [mkWork h 1 p []]) ++ [new_work (N.to_nat l) p])).
    { apply cruns_step; auto. unfold new_work at 1. rewrite cstep_unfold, Eh. cbn [bind Nat.eqb c_postprocess Nat.add].
      now rewrite <- app_assoc. }
    eapply cruns_trans; [exact R1|].
    apply (cruns_trans _ (b1, rs1, (S1 ++ [mkWork h 2 p []]) ++ [new_work (N.to_nat r) p])).
    { apply cruns_step; auto. rewrite cstep_unfold, Eh1. cbn [bind Nat.eqb Nat.add]. now rewrite <- app_assoc. }
    eapply cruns_trans; [exact R2|].
    apply cruns_step; auto. rewrite cstep_unfold, Eh2. reflexivity.
  Qed.

  Lemma push9 : forall g nd x, g_push g nd = g ++ x -> length x <= 9.
  Proof. intros g nd x H. destruct (push_app g nd) as (y & E1 & L). rewrite H in E1. apply app_inv_head in E1. subst y. lia. Qed.

  (** after the first step of an action its factors are evaluated below it *)
  Definition cbelow (b : cbocage) (rs : list E) (S : list work) (h p : nat) (vs : list E) (c : nat) : Prop :=
    exists b' rs' is x, cruns (b, rs, S ++ [new_work h p]) (b', rs', S ++ [mkWork h 1 p is]) /\
      cb_info b' = cb_info b /\ cb_graph b' = cb_graph b ++ x /\ length x <= c /\ holds rs rs' is vs.

  (** the second step of an action *)
  Lemma second_step : forall b rs rs0 S h p is vs a f, cb_info b = fi -> p < length S -> holds rs0 rs is vs ->
    cget (cb_graph b) h = Ret (CProduct a f) \/ cget (cb_graph b) h = Ret (CSummand a f) ->
    exists rs' is', holds rs0 rs' is' (wrap (c_action a) vs) /\
      c_eval_step ev (b, rs, S ++ [mkWork h 1 p is]) =
      match cget (cb_graph b) h with
      | Ret (CSummand _ _) =>
          size <- g_node_size (cb_graph b) (N.of_nat h) ;;
          Ret (b, rs', given S p is' ++ [new_work (wrap32 (h + N.to_nat size)) p])
      | _ => Ret (b, rs', given S p is')
      end.
  Proof.
    intros b rs rs0 S h p is vs a f Hi Hp H Eh.
    assert (G : exists rs' is', holds rs0 rs' is' (wrap (c_action a) vs) /\
       match origin_of (cb_info b) (c_action a) with
       | Some id =>
           args <- mapM (idx rs) is ;;
           let results := rs ++ [ev_product ev id args] in
           stack <- give S p [length results - 1] ;;
           Ret (results, stack)
       | None => stack <- give S p is ;; Ret (rs, stack)
       end = Ret (rs', given S p is')).
    { unfold wrap, SimpleEval.wrap. rewrite Hi. destruct (origin_of fi (c_action a)) as [id|].
      - exists (rs ++ [ev_product ev id vs]), [length rs]. split; [eapply holds_fresh; eauto|].
        rewrite (holds_read _ _ _ _ H). cbn [bind]. rewrite give_given by auto. cbn [bind]. rewrite app_length. cbn [length].
        now replace (length rs + 1 - 1) with (length rs) by lia.
      - exists rs, is. split; [auto|]. now rewrite give_given by auto. }
    destruct G as (rs' & is' & G1 & G2). exists rs', is'. split; [auto|]. rewrite cstep_unfold.
    cbn zeta in G2. destruct Eh as [Eh|Eh]; rewrite Eh; cbn [bind Nat.eqb]; rewrite G2; reflexivity.
  Qed.

  Theorem cvisit : forall g,
    (forall h vs c, cev g h vs c -> forall b rs S p x, cb_info b = fi -> p < length S -> cb_graph b = g ++ x ->
       u32 (length (cb_graph b) + c) -> cvisited b rs S h p vs c) /\
    (forall a f vs c, cfactors g a f vs c -> forall b rs S h p x, cb_info b = fi -> p < length S -> cb_graph b = g ++ x ->
       u32 (length (cb_graph b) + c) ->
       cget (cb_graph b) h = Ret (CProduct a f) \/ cget (cb_graph b) h = Ret (CSummand a f) -> cbelow b rs S h p vs c).
  Proof.
    intros g.
    assert (NE : forall (S : list work) p, p < length S -> S <> []) by (intros [|] p H; [cbn in H; lia|discriminate]).
    apply cev_both.
    - intros h s v Eh b rs S p x Hi Hp Hx Hu. pose proof (NE S p Hp) as HS.
      exists b, (rs ++ [ev_leaf ev (N.to_nat s) (N.to_nat v)]), [length rs], [].
      split; [|split; [auto|split; [now rewrite app_nil_r|split; [auto|apply holds_one]]]].
      apply cruns_step; auto. unfold new_work. rewrite cstep_unfold, Hx, (cget_app _ x _ _ Eh). cbn [bind Nat.eqb c_postprocess].
      rewrite give_given by auto. cbn [bind]. rewrite app_length. cbn [length].
      now replace (length rs + 1 - 1) with (length rs) by lia.
    - intros h s Eh b rs S p x Hi Hp Hx Hu. pose proof (NE S p Hp) as HS. destruct (Hpush (N.to_nat s) rs) as [more Hs].
      exists b, (rs ++ nv (N.to_nat s) :: more), [length rs], [].
      split; [|split; [auto|split; [now rewrite app_nil_r|split; [auto|apply holds_first]]]].
      apply cruns_step; auto. unfold new_work. rewrite cstep_unfold, Hx, (cget_app _ x _ _ Eh). cbn [bind Nat.eqb c_postprocess].
      rewrite give_given by auto. cbn [bind]. now rewrite Hs.
    - intros h l r vl vr cl cr Eh _ IHl _ IHr b rs S p x Hi Hp Hx Hu.
      apply (rule_visit b rs S h p l r); auto.
      + rewrite Hx. now apply cget_app.
      + intros rs' S' Hp'. apply (IHl b rs' S' p x); auto. eapply u32_le; [|exact Hu]. lia.
      + intros b' y rs' S' Hi' Hy Ly Hp'. apply (IHr b' rs' S' p (x ++ y)); auto.
        * now rewrite Hy, Hx, app_assoc.
        * eapply u32_le; [|exact Hu]. rewrite Hy, app_length. lia.
    - intros h vs c Eh Hn IH b rs S p x Hi Hp Hx Hu. pose proof (NE S p Hp) as HS.
      destruct (IH b rs S p x Hi Hp Hx Hu) as (b' & rs' & is & y & R & I & G & L & H). exists b', rs', is, y.
      split; [|auto]. eapply cruns_trans; [|exact R]. apply cruns_step; auto. unfold new_work at 1.
      rewrite cstep_unfold, Hx, (cget_app _ x _ _ Eh). cbn [bind Nat.eqb c_postprocess].
      rewrite wrap32_small; [reflexivity|]. apply cev_bound in Hn. eapply u32_le; [|exact Hu]. rewrite Hx, app_length. lia.
    - intros h Eh b rs S p x Hi Hp Hx Hu. pose proof (NE S p Hp) as HS.
      exists b, rs, [], []. split; [|split; [auto|split; [now rewrite app_nil_r|split; [auto|apply holds_nil]]]].
      rewrite given_nil. apply cruns_step; auto. unfold new_work. rewrite cstep_unfold, Hx, (cget_app _ x _ _ Eh). reflexivity.
    - intros h a f vs c Eh _ IH b rs S p x Hi Hp Hx Hu. pose proof (NE S p Hp) as HS.
      assert (Eb : cget (cb_graph b) h = Ret (CProduct a f)) by (rewrite Hx; now apply cget_app).
      destruct (IH b rs S h p x Hi Hp Hx Hu (or_introl Eb)) as (b1 & rs1 & is1 & y & R1 & I1 & G1 & L1 & H1).
      assert (Eb1 : cget (cb_graph b1) h = Ret (CProduct a f)) by (rewrite G1; now apply cget_app).
      destruct (second_step b1 rs1 rs S h p is1 vs a f ltac:(congruence) Hp H1 (or_introl Eb1)) as (rs2 & is2 & H2 & St).
      rewrite Eb1 in St. exists b1, rs2, is2, y. split; [|auto]. eapply cruns_trans; [exact R1|]. now apply cruns_step.
    - intros h a f vs c k ws c' Eh _ IH Ek Hn IH' b rs S p x Hi Hp Hx Hu. pose proof (NE S p Hp) as HS.
      assert (Eb : cget (cb_graph b) h = Ret (CSummand a f)) by (rewrite Hx; now apply cget_app).
      assert (Hu1 : u32 (length (cb_graph b) + c)) by (eapply u32_le; [|exact Hu]; lia).
      destruct (IH b rs S h p x Hi Hp Hx Hu1 (or_intror Eb)) as (b1 & rs1 & is1 & y & R1 & I1 & G1 & L1 & H1).
      assert (Eb1 : cget (cb_graph b1) h = Ret (CSummand a f)) by (rewrite G1; now apply cget_app).
      destruct (second_step b1 rs1 rs S h p is1 vs a f ltac:(congruence) Hp H1 (or_intror Eb1)) as (rs2 & is2 & H2 & St).
      rewrite Eb1, G1, Hx, <- app_assoc, (size_app _ (x ++ y) _ _ Ek) in St. cbn [bind] in St.
      destruct (IH' b1 rs2 (given S p is2) p (x ++ y)) as (b3 & rs3 & is3 & z & R3 & I3 & G3 & L3 & H3).
      + congruence.
      + now rewrite given_length.
      + now rewrite G1, Hx, app_assoc.
      + eapply u32_le; [|exact Hu]. rewrite G1, app_length. lia.
      + rewrite given_given in R3. exists b3, rs3, (is2 ++ is3), (y ++ z).
        split; [|split; [congruence|split; [now rewrite G3, G1, app_assoc|split; [rewrite app_length; lia|eapply holds_app; eauto]]]].
        eapply cruns_trans; [exact R1|]. eapply cruns_trans; [|exact R3]. apply cruns_step; auto. rewrite St.
        rewrite wrap32_small; [reflexivity|]. apply cev_bound in Hn. eapply u32_le; [|exact Hu]. rewrite Hx, app_length. lia.
    - intros a f nd vs c Ef Hor _ IH b rs S h p x Hi Hp Hx Hu Eh. pose proof (NE S p Hp) as HS.
      assert (Hp1 : length S < length (S ++ [mkWork h 1 p []])) by (rewrite app_length; cbn; lia).
      destruct (IH b rs (S ++ [mkWork h 1 p []]) (length S) x Hi Hp1 Hx Hu) as (b1 & rs1 & is1 & y & R1 & I1 & G1 & L1 & H1).
      rewrite given_last in R1. unfold add_results in R1. cbn [w_node w_child w_parent w_results app] in R1.
      exists b1, rs1, is1, y. split; [|auto]. eapply cruns_trans; [|exact R1]. apply cruns_step; auto. unfold new_work at 1.
      rewrite cstep_unfold.
      assert (Efb : cget (cb_graph b) (N.to_nat f) = Ret nd) by (rewrite Hx; now apply cget_app).
      assert (Post : forall node, node = CProduct a f \/ node = CSummand a f -> c_postprocess node b = Ret (node, b)).
      { intros node Hn. assert (Q : (fnode <- cget (cb_graph b) (N.to_nat f) ;;
          match fnode with
          | CRule _ _ => Ret (node, b)
          | _ => if (a =? C_NULL_ACTION)%N then Ret (node, b) else
              e <- idx (fi_nulling_eliminated (cb_info b)) (N.to_nat a) ;;
              match e with
              | Some (s, dir) =>
                  let '(l, r) := if dir : bool then (N.to_nat f, h_mul s) else (h_mul s, N.to_nat f) in
                  '(rule, b) <- c_product l r b ;; Ret (CProduct a (N.of_nat rule), b)
              | None => Ret (node, b)
              end
          end) = Ret (node, b)).
        { rewrite Efb. cbn [bind]. destruct Hor as [Hor|[-> | [Hn' Hor]]].
          - destruct nd; try discriminate. reflexivity.
          - rewrite N.eqb_refl. destruct nd; reflexivity.
          - rewrite Hi. rewrite (idx_some _ _ _ _ Hor). cbn [bind]. destruct (a =? C_NULL_ACTION)%N; destruct nd; reflexivity. }
        destruct Hn as [-> | ->]; exact Q. }
      destruct Eh as [Eh|Eh]; rewrite Eh; cbn [bind Nat.eqb]; rewrite Post by auto; cbn [bind Nat.add]; now rewrite <- app_assoc.
    - intros a f nd s dir vf vn c cn Ef Hnr Hna He Hs _ IHf _ IHn b rs S h p x Hi Hp Hx Hu Eh. pose proof (NE S p Hp) as HS.
      set (rl := if dir then CRule f (N.of_nat (9 * s)) else CRule (N.of_nat (9 * s)) f).
      assert (Hf : u32 (N.to_nat f)).
      { apply cget_bound in Ef. eapply u32_le; [|exact Hu]. rewrite Hx, app_length. lia. }
      assert (Hrl : node_ok rl).
      { unfold rl, u32 in *. rewrite N2Nat.id in Hf. destruct dir; split; auto; exact Hs. }
      assert (Hb : u32 (length (cb_graph b))) by (eapply u32_le; [|exact Hu]; lia).
      destruct (push_app (cb_graph b) rl) as (y & Ey & Ly). set (b1 := with_cgraph b (g_push (cb_graph b) rl)).
      assert (Gb1 : cb_graph b1 = cb_graph b ++ y) by (unfold b1; cbn; exact Ey).
      destruct (push_get (cb_graph b) rl Hrl) as [Pg _]. rewrite Ey, <- Gb1 in Pg.
      assert (Vis : forall v1 v2 c1 c2 n1 n2,
        (forall b rs S p x, cb_info b = fi -> p < length S -> cb_graph b = g ++ x -> u32 (length (cb_graph b) + c1) -> cvisited b rs S (N.to_nat n1) p v1 c1) ->
        (forall b rs S p x, cb_info b = fi -> p < length S -> cb_graph b = g ++ x -> u32 (length (cb_graph b) + c2) -> cvisited b rs S (N.to_nat n2) p v2 c2) ->
        rl = CRule n1 n2 -> c1 + c2 = c + cn -> cvisited b1 rs (S ++ [mkWork h 1 p []]) (length (cb_graph b)) (length S) (v1 ++ v2) (c + cn)).
      { intros v1 v2 c1 c2 n1 n2 V1 V2 Er Ec. rewrite <- Ec. rewrite Er in Pg.
        assert (L9 : length (cb_graph b1) + (c1 + c2) <= length (cb_graph b) + (9 + (c + cn))) by (rewrite Gb1, app_length; lia).
        apply (rule_visit b1 rs _ _ _ n1 n2); auto.
        - rewrite app_length. cbn. lia.
        - intros rs' S' Hp'. apply (V1 b1 rs' S' _ (x ++ y)); auto.
          + now rewrite Gb1, Hx, app_assoc.
          + eapply u32_le; [|exact Hu]. lia.
        - intros b' z rs' S' Hi' Hz Lz Hp'. apply (V2 b' rs' S' _ (x ++ y ++ z)); auto.
          + now rewrite Hz, Gb1, Hx, !app_assoc.
          + eapply u32_le; [|exact Hu]. rewrite Hz, app_length. lia. }
      assert (V : cvisited b1 rs (S ++ [mkWork h 1 p []]) (length (cb_graph b)) (length S) (if dir then vf ++ vn else vn ++ vf) (c + cn)).
      { rewrite <- (Nat2N.id (9 * s)) in IHn. destruct dir.
        - exact (Vis vf vn c cn f _ IHf IHn eq_refl eq_refl).
        - exact (Vis vn vf cn c _ f IHn IHf eq_refl (Nat.add_comm _ _)). }
      destruct V as (b2 & rs2 & is2 & z & R2 & I2 & G2 & L2 & H2).
      rewrite given_last in R2. unfold add_results in R2. cbn [w_node w_child w_parent w_results app] in R2.
      exists b2, rs2, is2, (y ++ z). split; [|split; [exact I2|split; [now rewrite G2, Gb1, app_assoc|split; [rewrite app_length; lia|exact H2]]]].
      eapply cruns_trans; [|exact R2]. apply cruns_step; auto. unfold new_work at 1. rewrite cstep_unfold.
      assert (Efb : cget (cb_graph b) (N.to_nat f) = Ret nd) by (rewrite Hx; now apply cget_app).
      assert (Post : forall node, node = CProduct a f \/ node = CSummand a f ->
        c_postprocess node b = Ret (CProduct a (N.of_nat (length (cb_graph b))), b1)).
      { intros node Hn. assert (Q : (fnode <- cget (cb_graph b) (N.to_nat f) ;;
          match fnode with
          | CRule _ _ => Ret (node, b)
          | _ => if (a =? C_NULL_ACTION)%N then Ret (node, b) else
              e <- idx (fi_nulling_eliminated (cb_info b)) (N.to_nat a) ;;
              match e with
              | Some (s, dir) =>
                  let '(l, r) := if dir : bool then (N.to_nat f, h_mul s) else (h_mul s, N.to_nat f) in
                  '(rule, b) <- c_product l r b ;; Ret (CProduct a (N.of_nat rule), b)
              | None => Ret (node, b)
              end
          end) = Ret (CProduct a (N.of_nat (length (cb_graph b))), b1)).
        { rewrite Efb. cbn [bind]. apply N.eqb_neq in Hna. rewrite Hna, Hi, (idx_some _ _ _ _ He). cbn [bind].
          rewrite (h_mul_small _ Hs). unfold c_product. rewrite (clen_small _ Hb).
          destruct dir; cbn [bind]; rewrite N2Nat.id; destruct nd; try discriminate; reflexivity. }
        destruct Hn as [-> | ->]; exact Q. }
      destruct Eh as [Eh|Eh]; rewrite Eh; cbn [bind Nat.eqb]; rewrite Post by auto; cbn [bind Nat.add];
        rewrite Nat2N.id, <- app_assoc; reflexivity.
  Qed.

  (** evaluation below the wrapper *)
  Theorem c_loop_value : forall g b x root vs c, cb_info b = fi -> cb_graph b = g ++ x -> cev g root vs c ->
    u32 (length (cb_graph b) + c) ->
    exists fuel0 b' y, cb_info b' = fi /\ cb_graph b' = cb_graph b ++ y /\ length y <= c /\
      forall fuel, fuel0 <= fuel -> exists rs S w,
        c_eval_loop ev fuel (b, [], [new_work 0 0; new_work root 0]) = Ret (b', rs, S) /\
        nth_error S 0 = Some w /\ take_values ev (w_results w) rs = Ret vs.
  Proof.
    intros g b x root vs c Hi Hx Hv Hu.
    destruct (proj1 (cvisit g) root vs c Hv b [] [new_work 0 0] 0 x Hi ltac:(cbn; lia) Hx Hu) as (b' & rs & is & y & [k R] & I & G & L & H).
    exists k, b', y. split; [congruence|]. split; [auto|]. split; [auto|]. intros fuel Hf.
    exists rs, (given [new_work 0 0] 0 is), (mkWork 0 0 0 is).
    replace fuel with (k + (fuel - k)) by lia.
    change [new_work 0 0; new_work root 0] with ([new_work 0 0] ++ [new_work root 0]).
    rewrite R. split; [|split].
    - destruct (fuel - k); reflexivity.
    - reflexivity.
    - cbn. destruct H as (_ & H & HS & _). now apply take_values_spec.
  Qed.

  (** the handle below the wrapper does not change when the graph grows *)
  Lemma c_skip_app : forall b b' x h r, cb_info b' = cb_info b -> cb_graph b' = cb_graph b ++ x ->
    c_skip_wrapper b h = Ret r -> c_skip_wrapper b' h = Ret r.
  Proof.
    intros b b' x h r Hi Hx. unfold c_skip_wrapper, below_sof. rewrite Hi, Hx.
    assert (B : forall l rr (k : nat -> res (option nat)),
      (x0 <- (lnode <- cget (cb_graph b) (N.to_nat l) ;;
         match lnode with CLeaf symbol _ => assert (N.to_nat symbol =? fi_sof (cb_info b)) ;;; Ret (N.to_nat rr) | _ => Panic end) ;; k x0) = Ret r ->
      (x0 <- (lnode <- cget (cb_graph b ++ x) (N.to_nat l) ;;
         match lnode with CLeaf symbol _ => assert (N.to_nat symbol =? fi_sof (cb_info b)) ;;; Ret (N.to_nat rr) | _ => Panic end) ;; k x0) = Ret r).
    { intros l rr k H. destruct (cget (cb_graph b) (N.to_nat l)) as [nd| |] eqn:El; try discriminate. now rewrite (cget_app _ x _ _ El). }
    intros H. destruct (cget (cb_graph b) h) as [nd| |] eqn:Eh; try discriminate. rewrite (cget_app _ x _ _ Eh). cbn [bind] in *.
    destruct nd; try discriminate.
    - destruct (cget (cb_graph b) (wrap32 (h + 1))) as [nd| |] eqn:E1; try discriminate. rewrite (cget_app _ x _ _ E1). cbn [bind] in *.
      destruct nd as [| |a f| | | |]; try discriminate.
      destruct (cget (cb_graph b) (N.to_nat f)) as [nd| |] eqn:E2; try discriminate. rewrite (cget_app _ x _ _ E2). cbn [bind] in *.
      destruct nd; try discriminate. now apply B.
    - destruct (cget (cb_graph b) (N.to_nat factors)) as [nd| |] eqn:E2; try discriminate. rewrite (cget_app _ x _ _ E2). cbn [bind] in *.
      destruct nd; try (injection H as <-; reflexivity). now apply B.
  Qed.

  (** a root whose evaluation gives [vs] and adds at most [c] bytes *)
  Definition croot_value (g : graph) (b : cbocage) (h : nat) (vs : list E) (c : nat) : Prop :=
    exists r, c_skip_wrapper b h = Ret (Some r) /\ cev g r vs c.

  Theorem c_evaluate_each_value : forall g h vs c k b x, cb_info b = fi -> cb_graph b = g ++ x ->
    croot_value g b h vs c -> u32 (length (cb_graph b) + k * c) ->
    exists fuel0 b', forall fuel, fuel0 <= fuel -> c_evaluate_each ev fuel (repeat h k) b = Ret (repeat vs k, b').
  Proof.
    intros g h vs c k. unfold c_evaluate_each.
    assert (G : forall b x out, cb_info b = fi -> cb_graph b = g ++ x -> croot_value g b h vs c -> u32 (length (cb_graph b) + k * c) ->
      exists fuel0 b', forall fuel, fuel0 <= fuel ->
        foldM (fun st root => let '(out, b) := st in '(vs, b) <- c_evaluate ev fuel b root ;; Ret (out ++ [vs], b)) (repeat h k) (out, b)
        = Ret (out ++ repeat vs k, b')).
    { induction k as [|k IH]; intros b x out Hi Hx (r & Hr & Hv) Hu; cbn [repeat foldM].
      - exists 0, b. intros. now rewrite app_nil_r.
      - assert (Hu1 : u32 (length (cb_graph b) + c)) by (eapply u32_le; [|exact Hu]; lia).
        destruct (c_loop_value g b x r vs c Hi Hx Hv Hu1) as (f1 & b1 & y & I1 & G1 & L1 & H1).
        destruct (IH b1 (x ++ y) (out ++ [vs])) as (f2 & b2 & H2).
        + exact I1.
        + now rewrite G1, Hx, app_assoc.
        + exists r. split; [|auto]. eapply c_skip_app; [|exact G1|exact Hr]. congruence.
        + eapply u32_le; [|exact Hu]. rewrite G1, app_length. lia.
        + exists (f1 + f2), b2. intros fuel Hf. destruct (H1 fuel ltac:(lia)) as (rs & S & w & A & B & C).
          unfold c_evaluate at 1. rewrite Hr. cbn [bind]. rewrite A. cbn [bind]. rewrite (idx_some _ _ _ _ B). cbn [bind].
          rewrite C. cbn [bind]. rewrite H2 by lia. now rewrite <- app_assoc. }
    intros b x Hi Hx Hr Hu. destruct (G b x [] Hi Hx Hr Hu) as (f & b' & H). eauto.
  Qed.
End Machine.
