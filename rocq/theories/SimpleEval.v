(** SimpleEval: the work-stack machine of [evaluate] computes a recursive value. *)
From Coq Require Import List Arith Bool Lia Sorted.
From Verif Require Import Base BaseProofs TablesProofs Item Grammar Forest Spec SimpleBocage EvalSpec.
Import ListNotations.
Local Open Scope res_scope.

Definition oapp {A} (x y : option (list A)) : option (list A) :=
  match x, y with Some a, Some b => Some (a ++ b) | _, _ => None end.
Definition osum {A} (l : list (option (list A))) : option (list A) :=
  fold_right oapp (Some []) l.

Definition is_rule (n : snode) : bool := match n with SRule _ _ => true | _ => false end.

(** the nulling record of an action; [None] if out of range *)
Definition elim_of (fi : forest_info) (a : option nat) : option (option (sym * bool)) :=
  match a with None => Some None | Some d => nth_error (fi_nulling_eliminated fi) d end.

Lemma nth_set : forall A (l : list A) i v j,
  nth_error (set_nth l i v) j = if j =? i then (if i <? length l then Some v else None) else nth_error l j.
Proof.
  intros A l. induction l as [|a l IH]; intros [|i] v [|j]; cbn; auto.
  - destruct (j =? i); reflexivity.
  - rewrite IH. reflexivity.
Qed.

Section Machine.
  Context {E : Type}.
  Variable ev : evaluator E.
  Variable fi : forest_info.
  Variable nv : sym -> E.
  Hypothesis Hpush : pushes ev nv.

  Definition wrap (a : option nat) (args : list E) : list E :=
    match origin_of fi a with Some id => [ev_product ev id args] | None => args end.

  (** the value of a handle, with a bound on the depth *)
  Fixpoint gev (n : nat) (g : list snode) (h : nat) : option (list E) :=
    match n with
    | 0 => None
    | S n =>
        match nth_error g h with
        | None => None
        | Some (SLeaf s v) => Some [ev_leaf ev s v]
        | Some (SNulling s) => Some [nv s]
        | Some (SRule l r) => oapp (gev n g l) (gev n g r)
        | Some (SSum _ k) => osum (map (fun i => gev n g (h + i + 1)) (seq 0 k))
        | Some (SProduct a f) =>
            match nth_error g f with
            | None => None
            | Some fn =>
                match (if is_rule fn then Some None else elim_of fi a) with
                | None => None
                | Some None => option_map (wrap a) (gev n g f)
                | Some (Some (s, dir)) =>
                    match n with
                    | 0 => None
                    | S n' =>
                        option_map (wrap a)
                          (if dir : bool then oapp (gev n' g f) (gev n' g s)
                           else oapp (gev n' g s) (gev n' g f))
                    end
                end
            end
        end
    end.

  (** ** Graphs that evaluation may produce *)
  Definition keeps (g g' : list snode) : Prop :=
    forall i nd, nth_error g i = Some nd ->
      match nd with
      | SProduct a f => exists f', nth_error g' i = Some (SProduct a f') /\
                          (f' = f \/ forall l r, nth_error g f <> Some (SRule l r))
      | _ => nth_error g' i = Some nd
      end.
  Definition ext (g g' : list snode) : Prop :=
    keeps g g' /\ forall n h vs, gev n g h = Some vs -> gev n g' h = Some vs.

  Lemma ext_refl : forall g, ext g g.
  Proof. intros g. split; auto. intros i [] H; eauto. Qed.
  Lemma ext_trans : forall a b c, ext a b -> ext b c -> ext a c.
  Proof.
    intros a b c [A1 A2] [B1 B2]. split; [|auto].
    intros i nd H. pose proof (A1 _ _ H) as X. destruct nd; auto; try now apply B1 in X.
    destruct X as (f' & X & D). apply B1 in X. destruct X as (f'' & Y & D').
    exists f''. split; [auto|]. destruct D as [-> | D]; [|auto]. destruct D' as [-> | D']; [auto|].
    right. intros l r Hf. apply A1 in Hf. now elim (D' l r).
  Qed.

  Lemma oapp_mono : forall (x x' y y' : option (list E)) vs,
    (forall v, x = Some v -> x' = Some v) -> (forall v, y = Some v -> y' = Some v) ->
    oapp x y = Some vs -> oapp x' y' = Some vs.
  Proof.
    intros [x|] x' [y|] y' vs H1 H2 H; try discriminate.
    rewrite (H1 _ eq_refl), (H2 _ eq_refl). exact H.
  Qed.
  Lemma osum_mono : forall A (f f' : A -> option (list E)) l vs,
    (forall a v, f a = Some v -> f' a = Some v) -> osum (map f l) = Some vs -> osum (map f' l) = Some vs.
  Proof.
    intros A f f' l. induction l as [|a l IH]; intros vs H; cbn; auto.
    apply oapp_mono; auto.
  Qed.

  Lemma keeps_rule : forall g g' f fn, keeps g g' -> nth_error g f = Some fn ->
    exists fn', nth_error g' f = Some fn' /\ is_rule fn' = is_rule fn.
  Proof.
    intros g g' f fn H Hf. specialize (H _ _ Hf). destruct fn; eauto.
    destruct H as (f' & H & _). eauto.
  Qed.

  (** storing a postprocessed product *)
  Lemma store_ext : forall g h d f fn s (dir : bool), nth_error g h = Some (SProduct (Some d) f) ->
    nth_error g f = Some fn -> is_rule fn = false -> elim_of fi (Some d) = Some (Some (s, dir)) ->
    let g' := set_nth (g ++ [if dir then SRule f s else SRule s f]) h (SProduct (Some d) (length g)) in
    ext g g'.
  Proof.
    intros g h d f fn s dir Hh Hf Hr He g'.
    assert (Lh : h < length g) by (apply nth_error_Some; congruence).
    assert (Other : forall i, i <> h -> i < length g -> nth_error g' i = nth_error g i).
    { intros i Hi Hl. unfold g'. rewrite nth_set. destruct (i =? h) eqn:X; [apply Nat.eqb_eq in X; lia|].
      now rewrite nth_error_app1. }
    assert (At : nth_error g' h = Some (SProduct (Some d) (length g))).
    { unfold g'. rewrite nth_set, Nat.eqb_refl, app_length.
      rewrite (proj2 (Nat.ltb_lt _ _)) by (cbn; lia). reflexivity. }
    assert (New : nth_error g' (length g) = Some (if dir then SRule f s else SRule s f)).
    { unfold g'. rewrite nth_set. destruct (length g =? h) eqn:X; [apply Nat.eqb_eq in X; lia|].
      rewrite nth_error_app2, Nat.sub_diag by lia. reflexivity. }
    assert (K : keeps g g').
    { intros i nd Hi. assert (i < length g) by (apply nth_error_Some; congruence).
      destruct (Nat.eq_dec i h) as [->|Hne].
      - rewrite Hh in Hi. injection Hi as <-. eexists. split; [exact At|]. right.
        intros l r X. rewrite Hf in X. injection X as ->. discriminate.
      - rewrite Other by auto. destruct nd; eauto. }
    split; [exact K|].
    induction n as [n IH] using lt_wf_ind. intros i vs Hv. destruct n as [|n]; [discriminate|].
    cbn [gev] in *. destruct (nth_error g i) as [nd|] eqn:Ei; [|discriminate].
    assert (Li : i < length g) by (apply nth_error_Some; congruence).
    destruct (Nat.eq_dec i h) as [->|Hne].
    - rewrite Hh in Ei. injection Ei as <-. rewrite Hf, Hr, He in Hv.
      rewrite At, New. destruct n as [|n]; [discriminate|].
      destruct dir; cbn [is_rule gev]; rewrite New.
      + destruct (oapp (gev n g f) (gev n g s)) as [args|] eqn:Ea; [|discriminate].
        rewrite (oapp_mono _ (gev n g' f) _ (gev n g' s) _ (fun v H => IH n ltac:(lia) f v H)
                   (fun v H => IH n ltac:(lia) s v H) Ea). exact Hv.
      + destruct (oapp (gev n g s) (gev n g f)) as [args|] eqn:Ea; [|discriminate].
        rewrite (oapp_mono _ (gev n g' s) _ (gev n g' f) _ (fun v H => IH n ltac:(lia) s v H)
                   (fun v H => IH n ltac:(lia) f v H) Ea). exact Hv.
    - rewrite Other, Ei by auto. destruct nd as [nt k|a f0|l r|s0 v0|s0]; auto.
      + eapply osum_mono; [|exact Hv]. cbn. intros j v. apply IH. lia.
      + destruct (nth_error g f0) as [fn0|] eqn:Ef0; [|discriminate].
        destruct (keeps_rule g g' f0 fn0 K Ef0) as (fn1 & E1 & R1). rewrite E1, R1.
        destruct (if is_rule fn0 then Some None else elim_of fi a) as [[[s1 d1]|]|]; [| |discriminate].
        * destruct n as [|n]; [discriminate|].
          destruct d1.
          -- destruct (oapp (gev n g f0) (gev n g s1)) as [args|] eqn:Ea; [|discriminate].
             rewrite (oapp_mono _ (gev n g' f0) _ (gev n g' s1) _ (fun v H => IH n ltac:(lia) f0 v H)
                   (fun v H => IH n ltac:(lia) s1 v H) Ea). exact Hv.
          -- destruct (oapp (gev n g s1) (gev n g f0)) as [args|] eqn:Ea; [|discriminate].
             rewrite (oapp_mono _ (gev n g' s1) _ (gev n g' f0) _ (fun v H => IH n ltac:(lia) s1 v H)
                   (fun v H => IH n ltac:(lia) f0 v H) Ea). exact Hv.
        * destruct (gev n g f0) as [args|] eqn:Ea; [|discriminate].
          rewrite (IH n ltac:(lia) _ _ Ea). exact Hv.
      + eapply oapp_mono; [| |exact Hv]; intros v; apply IH; lia.
  Qed.

  (** ** Runs of the machine *)
  Notation mstate := (bocage * list E * list work)%type.
  Definition runs (s s' : mstate) : Prop :=
    exists k, forall fuel, eval_loop ev (k + fuel) s = eval_loop ev fuel s'.

  Lemma runs_refl : forall s, runs s s.
  Proof. intros s. now exists 0. Qed.
  Lemma runs_trans : forall a b c, runs a b -> runs b c -> runs a c.
  Proof.
    intros a b c [k1 H1] [k2 H2]. exists (k1 + k2). intros fuel. now rewrite <- Nat.add_assoc, H1, H2.
  Qed.
  Lemma runs_step : forall b rs S w s', S <> [] -> eval_step ev (b, rs, S ++ [w]) = Ret s' ->
    runs (b, rs, S ++ [w]) s'.
  Proof.
    intros b rs S w s' HS H. exists 1. intros fuel. cbn [Nat.add eval_loop].
    rewrite app_length. cbn [length]. destruct (1 <? length S + 1) eqn:X.
    - now rewrite H.
    - apply Nat.ltb_ge in X. destruct S; [congruence|cbn in X; lia].
  Qed.

  Lemma pop_snoc : forall A (S : list A) w, pop_last (S ++ [w]) = Some (S, w).
  Proof.
    intros A S w. unfold pop_last. destruct (S ++ [w]) as [|x t] eqn:X; [now destruct S|].
    rewrite <- X, removelast_last. f_equal. f_equal.
    assert (Y : last (x :: t) x = w) by (rewrite <- X; apply last_last).
    destruct t; auto.
  Qed.

  Definition add_results (w : work) (more : list nat) : work :=
    mkWork (w_node w) (w_child w) (w_parent w) (w_results w ++ more).
  Definition given (S : list work) (p : nat) (more : list nat) : list work :=
    match nth_error S p with
    | Some w => set_nth S p (add_results w more)
    | None => S
    end.

  Lemma give_given : forall S p more, p < length S -> give S p more = Ret (given S p more).
  Proof.
    intros S p more H. unfold give, given. destruct (nth_error S p) as [w|] eqn:X.
    - rewrite (idx_some _ _ _ _ X). cbn [bind]. unfold upd, add_results.
      rewrite (proj2 (Nat.ltb_lt _ _) H). reflexivity.
    - apply nth_error_None in X. lia.
  Qed.
  Lemma given_length : forall S p more, length (given S p more) = length S.
  Proof. intros. unfold given. destruct (nth_error S p); auto. apply set_nth_length. Qed.
  Lemma given_nil : forall S p, given S p [] = S.
  Proof.
    intros S p. unfold given. destruct (nth_error S p) as [w|] eqn:X; auto.
    unfold add_results. rewrite app_nil_r. replace (mkWork _ _ _ _) with w by now destruct w.
    revert p X. induction S as [|y S IH]; intros [|p] X; cbn in *; try discriminate; [congruence|].
    now rewrite IH.
  Qed.
  Lemma given_app : forall S T p more, p < length S -> given (S ++ T) p more = given S p more ++ T.
  Proof.
    intros S T p more H. unfold given. rewrite nth_error_app1 by auto.
    destruct (nth_error S p) as [w|]; auto.
    revert p H. induction S as [|y S IH]; intros [|p] H; cbn in *; try lia; auto.
    rewrite IH; auto. lia.
  Qed.
  Lemma given_last : forall S w more, given (S ++ [w]) (length S) more = S ++ [add_results w more].
  Proof.
    intros S w more. unfold given. rewrite nth_error_app2, Nat.sub_diag by lia. cbn.
    induction S; cbn; auto. now rewrite IHS.
  Qed.
  Lemma given_given : forall S p a b, given (given S p a) p b = given S p (a ++ b).
  Proof.
    intros S p a b. unfold given at 2 3. destruct (nth_error S p) as [w|] eqn:X.
    - unfold given. rewrite nth_set, Nat.eqb_refl.
      assert (p < length S) by (apply nth_error_Some; congruence).
      rewrite (proj2 (Nat.ltb_lt _ _) H). unfold add_results. cbn. rewrite app_assoc.
      clear X H. revert p. induction S as [|y S IH]; intros [|p]; cbn; auto. now rewrite IH.
    - unfold given. now rewrite X.
  Qed.

  (** indices of fresh results holding the given values *)
  Definition holds (before after : list E) (is : list nat) (vs : list E) : Prop :=
    (exists more, after = before ++ more) /\
    Forall2 (fun i v => nth_error after i = Some v) is vs /\
    StronglySorted lt is /\ Forall (fun i => length before <= i) is.

  Lemma holds_nil : forall rs, holds rs rs [] [].
  Proof. intros rs. split; [exists []; now rewrite app_nil_r|]. repeat split; constructor. Qed.

  Lemma holds_bound : forall a b is vs, holds a b is vs -> Forall (fun i => i < length b) is.
  Proof.
    intros a b is vs (_ & H & _ & _). induction H; constructor; auto.
    apply nth_error_Some. congruence.
  Qed.

  Lemma nth_error_more : forall (a m : list E) i v, nth_error a i = Some v -> nth_error (a ++ m) i = Some v.
  Proof. intros a m i v H. rewrite nth_error_app1; auto. apply nth_error_Some. congruence. Qed.

  Lemma StronglySorted_app : forall l1 l2 m, StronglySorted lt l1 -> StronglySorted lt l2 ->
    Forall (fun i => i < m) l1 -> Forall (fun i => m <= i) l2 -> StronglySorted lt (l1 ++ l2).
  Proof.
    intros l1 l2 m H1 H2 B1 B2. induction H1 as [|x l H1 IH Hx]; cbn; auto.
    inversion B1 as [|? ? Bx Bl]; subst. constructor; [auto|]. apply Forall_app. split; [auto|].
    eapply Forall_impl; [|exact B2]. cbn. intros. lia.
  Qed.

  Lemma holds_app : forall a b c is js vs ws, holds a b is vs -> holds b c js ws -> holds a c (is ++ js) (vs ++ ws).
  Proof.
    intros a b c is js vs ws H1 H2. pose proof (holds_bound _ _ _ _ H1) as B1.
    destruct H1 as ((m1 & ->) & F1 & S1 & L1), H2 as ((m2 & ->) & F2 & S2 & L2).
    split; [exists (m1 ++ m2); now rewrite app_assoc|]. split; [|split].
    - apply Forall2_app; auto. clear -F1. induction F1; constructor; auto. now apply nth_error_more.
    - eapply StronglySorted_app; eauto.
    - apply Forall_app. split; auto. eapply Forall_impl; [|exact L2]. cbn. intros i. rewrite app_length. lia.
  Qed.

  Lemma holds_first : forall a v more, holds a (a ++ v :: more) [length a] [v].
  Proof.
    intros a v more. split; [eauto|]. split; [|split].
    - repeat constructor. rewrite nth_error_app2, Nat.sub_diag by lia. reflexivity.
    - repeat constructor.
    - repeat constructor.
  Qed.
  Lemma holds_one : forall a v, holds a (a ++ [v]) [length a] [v].
  Proof. intros a v. apply holds_first. Qed.

  Lemma holds_fresh : forall a b is vs v, holds a b is vs -> holds a (b ++ [v]) [length b] [v].
  Proof.
    intros a b is vs v ((m & ->) & _). split; [exists (m ++ [v]); now rewrite app_assoc|].
    split; [|split]; repeat constructor.
    - rewrite nth_error_app2, Nat.sub_diag by lia. reflexivity.
    - rewrite app_length. lia.
  Qed.

  Lemma holds_read : forall a b is vs, holds a b is vs -> mapM (idx b) is = Ret vs.
  Proof.
    intros a b is vs (_ & H & _). induction H as [|i v is vs Hi H IH]; cbn; auto.
    rewrite (idx_some _ _ _ _ Hi). cbn [bind]. now rewrite IH.
  Qed.

  (** a visit of a new work node evaluates it and gives the results to the parent *)
  Definition visited (b : bocage) (rs : list E) (S : list work) (h p : nat) (vs : list E) : Prop :=
    exists b' rs' is, runs (b, rs, S ++ [new_work h p]) (b', rs', given S p is) /\
      b_info b' = b_info b /\ ext (b_graph b) (b_graph b') /\ holds rs rs' is vs.

  Lemma step_unfold : forall b rs S w,
    eval_step ev (b, rs, S ++ [w]) =
    (b <- (if w_child w =? 0 then
            node <- idx (b_graph b) (w_node w) ;;
            '(node', b) <- postprocess node b ;;
            g <- upd (b_graph b) (w_node w) node' ;;
            Ret (with_graph b g)
          else Ret b) ;;
    node <- idx (b_graph b) (w_node w) ;;
    match node with
    | SSum _ count =>
        if w_child w <? count then
          Ret (b, rs, S ++ [next_child w; new_work (w_node w + w_child w + 1) (w_parent w)])
        else Ret (b, rs, S)
    | SRule l r =>
        match w_child w with
        | 0 => Ret (b, rs, S ++ [next_child w; new_work l (w_parent w)])
        | 1 => Ret (b, rs, S ++ [next_child w; new_work r (w_parent w)])
        | _ => Ret (b, rs, S)
        end
    | SLeaf symbol values =>
        let results := rs ++ [ev_leaf ev symbol values] in
        stack <- give S (w_parent w) [length results - 1] ;;
        Ret (b, results, stack)
    | SProduct action factors =>
        match w_child w with
        | 0 => Ret (b, rs, S ++ [next_child w; new_work factors (length S)])
        | _ =>
            match origin_of (b_info b) action with
            | Some id =>
                args <- mapM (idx rs) (w_results w) ;;
                let results := rs ++ [ev_product ev id args] in
                stack <- give S (w_parent w) [length results - 1] ;;
                Ret (b, results, stack)
            | None =>
                stack <- give S (w_parent w) (w_results w) ;;
                Ret (b, rs, stack)
            end
        end
    | SNulling symbol =>
        let values := length rs in
        let results := ev_nulling ev symbol rs in
        stack <- give S (w_parent w) [values] ;;
        Ret (b, results, stack)
    end).
  Proof. intros b rs S w. unfold eval_step. rewrite pop_snoc. reflexivity. Qed.

  Lemma set_nth_id : forall A (l : list A) i x, nth_error l i = Some x -> set_nth l i x = l.
  Proof.
    intros A l. induction l as [|y l IH]; intros [|i] x H; cbn in *; try discriminate; [congruence|].
    now rewrite IH.
  Qed.

  Lemma with_graph_id : forall b, with_graph b (b_graph b) = b.
  Proof. now intros []. Qed.

  (** postprocessing of anything but a product changes nothing *)
  Lemma post_other : forall b h nd, nth_error (b_graph b) h = Some nd ->
    (forall a f, nd <> SProduct a f) ->
    (node <- idx (b_graph b) h ;;
     '(node', b) <- postprocess node b ;;
     g <- upd (b_graph b) h node' ;;
     Ret (with_graph b g)) = Ret b.
  Proof.
    intros b h nd H Hn. rewrite (idx_some _ _ _ _ H). cbn [bind].
    assert (E0 : postprocess nd b = Ret (nd, b)) by (destruct nd; auto; now elim (Hn action factors)).
    rewrite E0. cbn [bind]. unfold upd.
    rewrite (proj2 (Nat.ltb_lt _ _)) by (apply nth_error_Some; congruence). cbn [bind].
    now rewrite (set_nth_id _ _ _ _ H), with_graph_id.
  Qed.

  (** postprocessing a product *)
  Lemma post_product : forall b h a f n vs, b_info b = fi ->
    nth_error (b_graph b) h = Some (SProduct a f) -> gev (S n) (b_graph b) h = Some vs ->
    exists b' f' args,
      (node <- idx (b_graph b) h ;;
       '(node', b) <- postprocess node b ;;
       g <- upd (b_graph b) h node' ;;
       Ret (with_graph b g)) = Ret b' /\
      b_info b' = fi /\ ext (b_graph b) (b_graph b') /\
      nth_error (b_graph b') h = Some (SProduct a f') /\
      gev n (b_graph b') f' = Some args /\ vs = wrap a args.
  Proof.
    intros b h a f n vs Hi H Hv. rewrite (idx_some _ _ _ _ H). cbn [bind].
    assert (Lh : h < length (b_graph b)) by (apply nth_error_Some; congruence).
    cbn [gev] in Hv. rewrite H in Hv. unfold postprocess.
    destruct (nth_error (b_graph b) f) as [fn|] eqn:Ef; [|discriminate].
    rewrite (idx_some _ _ _ _ Ef). cbn [bind].
    assert (Plain : forall args, gev n (b_graph b) f = Some args -> vs = wrap a args ->
      exists b' f' args0,
        (g <- upd (b_graph b) h (SProduct a f) ;; Ret (with_graph b g)) = Ret b' /\
        b_info b' = fi /\ ext (b_graph b) (b_graph b') /\
        nth_error (b_graph b') h = Some (SProduct a f') /\
        gev n (b_graph b') f' = Some args0 /\ vs = wrap a args0).
    { intros args Ha Hw. exists b, f, args. unfold upd. rewrite (proj2 (Nat.ltb_lt _ _) Lh). cbn [bind].
      rewrite (set_nth_id _ _ _ _ H), with_graph_id. repeat (split; [auto using ext_refl|]). auto. }
    destruct (is_rule fn) eqn:Er.
    - assert (X : exists args, gev n (b_graph b) f = Some args /\ vs = wrap a args).
      { destruct (gev n (b_graph b) f) as [args|]; [|discriminate]. injection Hv as <-. eauto. }
      destruct X as (args & Ha & Hw). destruct fn; try discriminate. cbn [bind]. now apply (Plain args).
    - destruct a as [d|].
      + unfold elim_of in Hv. rewrite Hi. destruct (nth_error (fi_nulling_eliminated fi) d) as [[[s dir]|]|] eqn:Ee;
          [| |discriminate].
        * destruct n as [|n]; [discriminate|].
          pose proof (store_ext (b_graph b) h d f fn s dir H Ef Er Ee) as Hx. cbn in Hx.
          set (g' := set_nth _ _ _) in Hx.
          set (b' := mkBocage g' fi (b_count b)).
          assert (X : exists args, (if dir then oapp (gev n (b_graph b) f) (gev n (b_graph b) s)
                         else oapp (gev n (b_graph b) s) (gev n (b_graph b) f)) = Some args /\
                       vs = wrap (Some d) args).
          { destruct (if dir then _ else _) as [args|]; [|discriminate]. injection Hv as <-. eauto. }
          destruct X as (args & Ha & Hw). exists b', (length (b_graph b)), args.
          assert (New : nth_error g' (length (b_graph b)) = Some (if dir then SRule f s else SRule s f)).
          { unfold g'. rewrite nth_set. destruct (length (b_graph b) =? h) eqn:X; [apply Nat.eqb_eq in X; lia|].
            rewrite nth_error_app2, Nat.sub_diag by lia. reflexivity. }
          assert (At : nth_error g' h = Some (SProduct (Some d) (length (b_graph b)))).
          { unfold g'. rewrite nth_set, Nat.eqb_refl, app_length.
            rewrite (proj2 (Nat.ltb_lt _ _)) by (cbn; lia). reflexivity. }
          split; [|split; [|split; [|split; [|split]]]]; auto.
          -- destruct fn; try discriminate; rewrite (idx_some _ _ _ _ Ee); cbn [bind];
               (destruct dir; cbn [bind b_product]; rewrite app_length; cbn [length b_graph with_graph];
                replace (length (b_graph b) + 1 - 1) with (length (b_graph b)) by lia; unfold upd;
                cbn [b_graph with_graph]; rewrite app_length; cbn [length];
                rewrite (proj2 (Nat.ltb_lt _ _)) by lia; cbn [bind]; unfold b', with_graph, g'; cbn;
                now rewrite Hi).
          -- cbn [b_graph b' gev]. rewrite New. destruct Hx as [_ Hx].
             destruct dir; (eapply oapp_mono; [| |exact Ha]; apply Hx).
        * assert (X : exists args, gev n (b_graph b) f = Some args /\ vs = wrap (Some d) args).
          { destruct (gev n (b_graph b) f) as [args|]; [|discriminate]. injection Hv as <-. eauto. }
          destruct X as (args & Ha & Hw). destruct (Plain args Ha Hw) as (b' & f' & args0 & X & Y).
          exists b', f', args0. split; [|exact Y].
          destruct fn; try discriminate; rewrite (idx_some _ _ _ _ Ee); exact X.
      + cbn [elim_of] in Hv.
        assert (X : exists args, gev n (b_graph b) f = Some args /\ vs = wrap None args).
        { destruct (gev n (b_graph b) f) as [args|]; [|discriminate]. injection Hv as <-. eauto. }
        destruct X as (args & Ha & Hw). destruct (Plain args Ha Hw) as (b' & f' & args0 & X & Y).
        exists b', f', args0. split; [|exact Y]. destruct fn; try discriminate; exact X.
  Qed.

  Theorem visit : forall n b rs S h p vs, b_info b = fi -> p < length S -> 
    gev n (b_graph b) h = Some vs -> visited b rs S h p vs.
  Proof.
    induction n as [n IH] using lt_wf_ind. intros b rs S h p vs Hi Hp Hv.
    destruct n as [|n]; [discriminate|].
    assert (HS : S <> []) by (destruct S; [cbn in Hp; lia|discriminate]).
    destruct (nth_error (b_graph b) h) as [nd|] eqn:Eh.
    2: { cbn [gev] in Hv. rewrite Eh in Hv. discriminate. }
    destruct nd as [nt k|a f|l r|s v|s].
    - (* sum *)
      cbn [gev] in Hv. rewrite Eh in Hv.
      (* the loop over the alternatives *)
      assert (Loop : forall m c b rs S vs, c + m = k -> b_info b = fi -> p < length S ->
        nth_error (b_graph b) h = Some (SSum nt k) ->
        osum (map (fun i => gev n (b_graph b) (h + i + 1)) (seq c m)) = Some vs ->
        exists b' rs' is,
          runs (b, rs, S ++ [mkWork h c p []]) (b', rs', given S p is) /\
          b_info b' = b_info b /\ ext (b_graph b) (b_graph b') /\ holds rs rs' is vs).
      { clear b rs S vs Hi Hp Hv HS Eh. induction m as [|m IHm]; intros c b rs S vs Hc Hi Hp Eh Hv.
        - assert (HS : S <> []) by (destruct S; [cbn in Hp; lia|discriminate]).
          injection Hv as <-. exists b, rs, []. split; [|split; [auto|split; [apply ext_refl|apply holds_nil]]].
          rewrite given_nil. apply runs_step; auto. rewrite step_unfold. cbn [w_child w_node].
          assert (X : (if c =? 0 then
              (node <- idx (b_graph b) h ;; '(node', b) <- postprocess node b ;;
               g <- upd (b_graph b) h node' ;; Ret (with_graph b g)) else Ret b) = Ret b).
          { destruct (c =? 0); auto. eapply post_other; eauto. discriminate. }
          rewrite X. cbn [bind]. rewrite (idx_some _ _ _ _ Eh). cbn [bind].
          destruct (c <? k) eqn:Y; auto. apply Nat.ltb_lt in Y. lia.
        - assert (HS : S <> []) by (destruct S; [cbn in Hp; lia|discriminate]).
          cbn [seq map] in Hv. change (osum (?x :: ?l)) with (oapp x (osum l)) in Hv.
          destruct (gev n (b_graph b) (h + c + 1)) as [v1|] eqn:E1; [|discriminate].
          destruct (osum (map (fun i => gev n (b_graph b) (h + i + 1)) (seq (Datatypes.S c) m))) as [v2|] eqn:E2; [|discriminate].
          injection Hv as <-.
          assert (Hp1 : p < length (S ++ [mkWork h (c + 1) p []])) by (rewrite app_length; lia).
          destruct (IH n ltac:(lia) b rs (S ++ [mkWork h (c + 1) p []]) (h + c + 1) p v1 Hi Hp1 E1)
            as (b1 & rs1 & is1 & R1 & I1 & X1 & H1).
          rewrite given_app in R1 by auto.
          assert (Hp2 : p < length (given S p is1)) by now rewrite given_length.
          assert (Eh1 : nth_error (b_graph b1) h = Some (SSum nt k)) by (apply (proj1 X1) in Eh; exact Eh).
          assert (E2' : osum (map (fun i => gev n (b_graph b1) (h + i + 1)) (seq (Datatypes.S c) m)) = Some v2).
          { eapply osum_mono; [|exact E2]. cbn. intros j v. apply X1. }
          replace (c + 1) with (Datatypes.S c) in R1 by lia.
          destruct (IHm (Datatypes.S c) b1 rs1 (given S p is1) v2 ltac:(lia) ltac:(congruence) Hp2 Eh1 E2')
            as (b2 & rs2 & is2 & R2 & I2 & X2 & H2).
          exists b2, rs2, (is1 ++ is2). split; [|split; [congruence|split; [eapply ext_trans; eauto|eapply holds_app; eauto]]].
          rewrite given_given in R2. eapply runs_trans; [|exact R2].
          eapply runs_trans; [|exact R1]. apply runs_step; auto. rewrite step_unfold. cbn [w_child w_node].
          assert (X : (if c =? 0 then
              (node <- idx (b_graph b) h ;; '(node', b) <- postprocess node b ;;
               g <- upd (b_graph b) h node' ;; Ret (with_graph b g)) else Ret b) = Ret b).
          { destruct (c =? 0); auto. eapply post_other; eauto. discriminate. }
          rewrite X. cbn [bind]. rewrite (idx_some _ _ _ _ Eh). cbn [bind].
          destruct (c <? k) eqn:Y; [|apply Nat.ltb_ge in Y; lia].
          unfold next_child. cbn [w_node w_child w_parent w_results].
          replace (c + 1) with (Datatypes.S c) by lia. now rewrite <- app_assoc. }
      destruct (Loop k 0 b rs S vs eq_refl Hi Hp Eh Hv) as (b' & rs' & is & R & I & X & H).
      exists b', rs', is. auto.
    - (* product *)
      destruct (post_product b h a f n vs Hi Eh Hv) as (b1 & f1 & args & P1 & I1 & X1 & Eh1 & Ga & ->).
      assert (Hp1 : length S < length (S ++ [mkWork h 1 p []])) by (rewrite app_length; cbn; lia).
      destruct (IH n ltac:(lia) b1 rs (S ++ [mkWork h 1 p []]) f1 (length S) args I1 Hp1 Ga)
        as (b2 & rs2 & is & R2 & I2 & X2 & H2).
      rewrite given_last in R2. unfold add_results in R2. cbn in R2.
      assert (Eh2 : exists f2, nth_error (b_graph b2) h = Some (SProduct a f2))
        by (apply (proj1 X2) in Eh1; destruct Eh1 as (f2 & Eh1 & _); eauto).
      destruct Eh2 as [f2 Eh2].
      assert (R1 : runs (b, rs, S ++ [new_work h p]) (b2, rs2, S ++ [mkWork h 1 p is])).
      { eapply runs_trans; [|exact R2]. apply runs_step; auto. rewrite step_unfold.
        cbn [w_child w_node new_work Nat.eqb]. rewrite P1. cbn [bind]. rewrite (idx_some _ _ _ _ Eh1). cbn [bind].
        unfold next_child, new_work. cbn. now rewrite <- app_assoc. }
      assert (Last : forall rs' is', eval_step ev (b2, rs2, S ++ [mkWork h 1 p is]) = Ret (b2, rs', given S p is') ->
                holds rs rs' is' (wrap a args) -> visited b rs S h p (wrap a args)).
      { intros rs' is' Hs Hh. exists b2, rs', is'. split; [|split; [|split]]; auto; try congruence.
        - eapply runs_trans; [exact R1|]. now apply runs_step.
        - eapply ext_trans; eauto. }
      assert (Hstep := step_unfold b2 rs2 S (mkWork h 1 p is)). cbn [w_child w_node Nat.eqb bind w_parent w_results] in Hstep.
      rewrite (idx_some _ _ _ _ Eh2) in Hstep. cbn [bind] in Hstep.
      replace (b_info b2) with fi in Hstep by congruence. unfold wrap in *.
      destruct (origin_of fi a) as [id|] eqn:Eo.
      + rewrite (holds_read _ _ _ _ H2) in Hstep. cbn [bind] in Hstep. rewrite give_given in Hstep by auto.
        cbn [bind] in Hstep. rewrite app_length in Hstep. cbn [length] in Hstep.
        replace (length rs2 + 1 - 1) with (length rs2) in Hstep by lia.
        apply (Last _ _ Hstep). eapply holds_fresh; eauto.
      + rewrite give_given in Hstep by auto. cbn [bind] in Hstep. now apply (Last _ _ Hstep).
    - (* rule *)
      cbn [gev] in Hv. rewrite Eh in Hv.
      destruct (gev n (b_graph b) l) as [v1|] eqn:E1; [|discriminate].
      destruct (gev n (b_graph b) r) as [v2|] eqn:E2; [|discriminate]. injection Hv as <-.
      assert (Hp1 : p < length (S ++ [mkWork h 1 p []])) by (rewrite app_length; lia).
      destruct (IH n ltac:(lia) b rs (S ++ [mkWork h 1 p []]) l p v1 Hi Hp1 E1)
        as (b1 & rs1 & is1 & R1 & I1 & X1 & H1).
      rewrite given_app in R1 by auto.
      set (S1 := given S p is1) in *.
      assert (L1 : length S1 = length S) by apply given_length.
      assert (HS1 : S1 <> []) by (intros Z; rewrite Z in L1; destruct S; [congruence|discriminate]).
      assert (Eh1 : nth_error (b_graph b1) h = Some (SRule l r)) by (apply (proj1 X1) in Eh; exact Eh).
      assert (E2' : gev n (b_graph b1) r = Some v2) by now apply X1.
      assert (Hp2 : p < length (S1 ++ [mkWork h 2 p []])) by (rewrite app_length, L1; lia).
      destruct (IH n ltac:(lia) b1 rs1 (S1 ++ [mkWork h 2 p []]) r p v2 ltac:(congruence) Hp2 E2')
        as (b2 & rs2 & is2 & R2 & I2 & X2 & H2).
      rewrite given_app in R2 by (rewrite L1; auto). unfold S1 in R2 at 2. rewrite given_given in R2.
      set (S2 := given S p (is1 ++ is2)) in *.
      assert (L2 : length S2 = length S) by apply given_length.
      assert (HS2 : S2 <> []) by (intros Z; rewrite Z in L2; destruct S; [congruence|discriminate]).
      assert (Eh2 : nth_error (b_graph b2) h = Some (SRule l r)) by (apply (proj1 X2) in Eh1; exact Eh1).
      exists b2, rs2, (is1 ++ is2).
      split; [|split; [congruence|split; [eapply ext_trans; eauto|eapply holds_app; eauto]]].
      apply (runs_trans _ (b, rs, (S ++ [mkWork h 1 p []]) ++ [new_work l p])).
      { apply runs_step; auto. rewrite step_unfold. cbn [w_child w_node new_work Nat.eqb].
        rewrite (post_other b h _ Eh) by discriminate. cbn [bind]. rewrite (idx_some _ _ _ _ Eh). cbn [bind].
        unfold next_child, new_work. cbn. now rewrite <- app_assoc. }
      eapply runs_trans; [exact R1|].
      apply (runs_trans _ (b1, rs1, (S1 ++ [mkWork h 2 p []]) ++ [new_work r p])).
      { apply runs_step; auto. rewrite step_unfold. cbn [w_child w_node Nat.eqb bind].
        rewrite (idx_some _ _ _ _ Eh1). cbn [bind].
        unfold next_child, new_work. cbn. now rewrite <- app_assoc. }
      eapply runs_trans; [exact R2|].
      apply runs_step; auto. rewrite step_unfold. cbn [w_child w_node Nat.eqb bind].
      rewrite (idx_some _ _ _ _ Eh2). reflexivity.
    - (* leaf *)
      cbn [gev] in Hv. rewrite Eh in Hv. injection Hv as <-.
      exists b, (rs ++ [ev_leaf ev s v]), [length rs].
      split; [|split; [auto|split; [apply ext_refl|apply holds_one]]].
      apply runs_step; auto. rewrite step_unfold. cbn [w_child w_node new_work Nat.eqb w_parent].
      rewrite (post_other b h _ Eh) by discriminate. cbn [bind]. rewrite (idx_some _ _ _ _ Eh). cbn [bind].
      rewrite give_given by auto. cbn [bind]. rewrite app_length. cbn [length].
      replace (length rs + 1 - 1) with (length rs) by lia. reflexivity.
    - (* nulling leaf *)
      cbn [gev] in Hv. rewrite Eh in Hv. injection Hv as <-.
      destruct (Hpush s rs) as [more Hs].
      exists b, (rs ++ nv s :: more), [length rs].
      split; [|split; [auto|split; [apply ext_refl|apply holds_first]]].
      apply runs_step; auto. rewrite step_unfold. cbn [w_child w_node new_work Nat.eqb w_parent].
      rewrite (post_other b h _ Eh) by discriminate. cbn [bind]. rewrite (idx_some _ _ _ _ Eh). cbn [bind].
      rewrite give_given by auto. cbn [bind]. now rewrite Hs.
  Qed.

  (** taking the values *)
  Lemma take_values_spec : forall is rs vs, Forall2 (fun i v => nth_error rs i = Some v) is vs ->
    StronglySorted lt is -> take_values ev is rs = Ret vs.
  Proof.
    intros is rs vs H. revert rs H. revert vs. induction is as [|i is IH]; intros vs rs H HS.
    - inversion H. reflexivity.
    - inversion H as [|? v ? vs' Hi Hr]; subst. inversion HS as [|? ? HS' Hlt]; subst.
      cbn [take_values]. rewrite (idx_some _ _ _ _ Hi). cbn [bind]. unfold upd.
      rewrite (proj2 (Nat.ltb_lt _ _)) by (apply nth_error_Some; congruence). cbn [bind].
      rewrite (IH vs'); auto. clear -Hr Hlt. induction Hr as [|j w js ws Hj Hr IHr]; constructor.
      + inversion Hlt; subst. rewrite nth_set. destruct (j =? i) eqn:X; auto. apply Nat.eqb_eq in X. lia.
      + apply IHr. now inversion Hlt.
  Qed.

  (** evaluation below the wrapper *)
  Theorem loop_value : forall n b root vs, b_info b = fi -> gev n (b_graph b) root = Some vs ->
    exists fuel0 b', b_info b' = fi /\ ext (b_graph b) (b_graph b') /\
      forall fuel, fuel0 <= fuel -> exists rs S w,
        eval_loop ev fuel (b, [], [new_work 0 0; new_work root 0]) = Ret (b', rs, S) /\
        nth_error S 0 = Some w /\ take_values ev (w_results w) rs = Ret vs.
  Proof.
    intros n b root vs Hi Hv.
    destruct (visit n b [] [new_work 0 0] root 0 vs Hi ltac:(cbn; lia) Hv) as (b' & rs & is & [k R] & I & X & H).
    exists k, b'. split; [congruence|]. split; [auto|]. intros fuel Hf.
    exists rs, (given [new_work 0 0] 0 is), (mkWork 0 0 0 is).
    replace fuel with (k + (fuel - k)) by lia.
    change [new_work 0 0; new_work root 0] with ([new_work 0 0] ++ [new_work root 0]).
    rewrite R. split; [|split].
    - destruct (fuel - k); reflexivity.
    - reflexivity.
    - cbn. destruct H as (_ & H & HS & _). now apply take_values_spec.
  Qed.
End Machine.
