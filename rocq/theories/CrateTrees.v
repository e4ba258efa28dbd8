(** CrateTrees: parse trees of the processed grammar and parse trees of the user's grammar
    correspond to each other. *)
From Coq Require Import List Arith Bool Lia Permutation.
From Verif Require Import Base BaseProofs Grammar BitMatrix DefaultGrammar Forest SimpleBocage Spec SpecFacts EvalSpec CfgSpec
  TreeSpec CompactSpec FromGrammar CrateSpec UserSpec UserTreeSpec CrateFacts CrateProcessed SimpleValue.
Import ListNotations.
Local Open Scope res_scope.

Fixpoint tsize (t : tree) : nat := match t with Leaf _ _ => 1 | Node _ ts => S (list_sum (map tsize ts)) end.
Lemma tsize_in : forall t ts, In t ts -> tsize t <= list_sum (map tsize ts).
Proof. intros t ts. induction ts as [|x ts IH]; intros []; cbn; [subst; lia|]. specialize (IH H). unfold list_sum in IH. lia. Qed.
Lemma usize_pos : forall t, 1 <= usize t.
Proof. destruct t; cbn; lia. Qed.
Lemma usize_sum : forall l, length l <= list_sum (map usize l).
Proof. induction l as [|t l IH]; cbn; [lia|]. pose proof (usize_pos t). unfold list_sum in IH. lia. Qed.

Definition is_some {A} (o : option A) : bool := match o with Some _ => true | None => false end.
Definition somes {A} (l : list (option A)) : list A := flat_map (fun o => match o with Some k => [k] | None => [] end) l.
(** what the symbols of a right-hand side contribute; [None]: the symbol is nulled *)
Definition parts {A} (h : tree -> list A) (nl : sym -> list A) (rhs : list sym) (opts : list (option tree)) : list A :=
  flat_map (fun xo => match snd xo with Some k => h k | None => nl (fst xo) end) (combine rhs opts).
Definition red {A} (ev : evaluator A) (o : option nat) (args : list A) : list A :=
  match o with Some id => [ev_product ev id args] | None => args end.

Lemma nulled_rhs_none : forall fi s, nulled_rhs fi s = None -> forall a b, ~ In (s, a, b) (fi_nulling_intermediate fi).
Proof.
  intros fi s H a b Hin. unfold nulled_rhs in H. revert H Hin. generalize (fi_nulling_intermediate fi). intros l.
  assert (K : forall l o, o <> None -> fold_left (fun (o : option (sym * sym)) r => let '(lhs, a, b) := r in if lhs =? s then Some (a, b) else o) l o <> None).
  { clear. induction l as [|[[x y] z] l IH]; intros o Ho; cbn; [auto|]. apply IH. destruct (x =? s); [discriminate|auto]. }
  assert (L : forall l o, In (s, a, b) l -> fold_left (fun (o : option (sym * sym)) r => let '(lhs, a, b) := r in if lhs =? s then Some (a, b) else o) l o <> None).
  { clear l. induction l as [|[[x y] z] l IH]; intros o []; cbn.
    - injection H as -> -> ->. rewrite Nat.eqb_refl. apply K. discriminate.
    - now apply IH. }
  intros H Hin. exact (L l None Hin H).
Qed.

Lemma seq_nil : forall R l, derives_seq R l [] <-> Forall (nullable R) l.
Proof.
  intros R l. induction l as [|s l IH]; split; intros H; [constructor|constructor| |].
  - inversion H as [|? ? w1 w2 H1 H2 E1 E2]; subst. apply app_eq_nil in E2. destruct E2 as [-> ->]. constructor; [exact H1|now apply IH].
  - inversion H; subst. apply (derives_cons R s l [] []); [auto|]. now apply IH.
Qed.
Lemma nullable_inv : forall R s, nullable R s -> exists r, In r R /\ p_lhs r = s /\ Forall (nullable R) (p_rhs r).
Proof. intros R s H. inversion H as [|r w Hr Hd]; subst. exists r. split; [auto|]. split; [auto|]. now apply seq_nil. Qed.

Lemma app_same : forall A (a b x y : list A), length a = length b -> a ++ x = b ++ y -> a = b /\ x = y.
Proof.
  intros A a. induction a as [|u a IH]; intros [|v b] x y L H; try discriminate L; [auto|].
  cbn in H. injection H as -> H. destruct (IH b x y) as [-> ->]; auto.
Qed.
Lemma NoDup_filter_map : forall A K (g : A -> K) keep l, NoDup (map g l) -> NoDup (map g (filter keep l)).
Proof.
  intros A K g keep l. induction l as [|a l IH]; intros H; [constructor|]. cbn [map] in H. inversion H as [|? ? H1 H2]; subst. cbn [filter].
  destruct (keep a); [|auto]. cbn [map]. constructor; [|auto]. intros Hin. apply H1. apply in_map_iff in Hin. destruct Hin as (b & Eb & Hb).
  apply filter_In in Hb. apply in_map_iff. exists b. tauto.
Qed.
Lemma somes_in : forall A (l : list (option A)) k, In k (somes l) <-> In (Some k) l.
Proof.
  intros A l k. unfold somes. rewrite in_flat_map. split; [|intros H; exists (Some k); simpl; auto].
  intros ([x|] & Hx & K); [destruct K as [<-|[]]; auto|destruct K].
Qed.
Lemma uyield_nulls : forall l, flat_map uyield (map UNull l) = [].
Proof. induction l; auto. Qed.

Lemma user_tree_derives : forall U n u s, usize u <= n -> user_tree U s u ->
  derives (c_rules U) s (map fst (uyield u)) /\ Forall (terminal (c_rules U)) (map fst (uyield u)).
Proof.
  intros U. induction n as [|n IH]; intros u s Hn H; [pose proof (usize_pos u); lia|].
  inversion H as [s' v Ht|s' Hnull|r id ts Hr Eo HF Hy]; subst; cbn [uyield map].
  - split; [constructor|repeat constructor; auto].
  - split; [exact Hnull|constructor].
  - assert (K : derives_seq (c_rules U) (p_rhs r) (map fst (flat_map uyield ts)) /\ Forall (terminal (c_rules U)) (map fst (flat_map uyield ts))).
    { cbn [usize] in Hn. clear Hy H. revert HF Hn. generalize (p_rhs r). induction ts as [|t ts IHt]; intros rhs HF Hn; inversion HF as [|x ? ? ? H1 H2]; subst; [split; constructor|].
      cbn in Hn. destruct (IH t x ltac:(unfold list_sum in *; lia) H1) as [D1 T1]. destruct (IHt _ H2 ltac:(unfold list_sum in *; lia)) as [D2 T2].
      cbn [flat_map]. rewrite map_app. split; [now constructor|apply Forall_app; auto]. }
    destruct K. split; [now apply derives_rule|auto].
Qed.

Section CrateT.
  Variables (X : cfg_crate) (U : pcfg) (start : sym) (W B E c0 : pcfg) (w : wrapped_root) (m : sym -> list sym) (head : nat -> nat)
    (nulling : list prule) (origin : nat -> nat * list bool) (maps : mapping) (f : sym -> sym).
  Hypothesis HU : user_grammar U start.
  Hypothesis HX : elaborates X U start W B E c0 w m head nulling origin maps f.
  Hypothesis Hvis : null_prefixes_visible U start.
  Variable order : bitmatrix.
  Hypothesis HR : remapped (remap_cmp order) E c0 maps f.
  Hypothesis Hap : numbers_apart B E f.
  Notation c := (sort_rules_by_lhs c0).
  Notation Rc := (c_rules (sort_rules_by_lhs c0)).
  Notation U' := (x_make_proper X U).
  Notation inv := (inv E f).
  Local Notation HP := (eb_proper _ _ _ _ _ _ _ _ _ _ _ _ _ _ HX).
  Local Notation HW := (proj2 (eb_wrap _ _ _ _ _ _ _ _ _ _ _ _ _ _ HX)).
  Local Notation HB := (eb_binarize _ _ _ _ _ _ _ _ _ _ _ _ _ _ HX).
  Local Notation HE := (proj2 (eb_eliminate _ _ _ _ _ _ _ _ _ _ _ _ _ _ HX)).

  Local Lemma feq : forall a b, used (c_rules E) a -> used (c_rules E) b -> f a = f b -> a = b.
  Proof. eapply f_eq; eassumption. Qed.
  Local Lemma invf : forall s, used (c_rules E) s -> inv (f s) = s.
  Proof. eapply inv_f; eassumption. Qed.
  Local Lemma vused : forall s, used (c_rules B) s -> visible (c_rules B) s -> used (c_rules E) s.
  Proof. eapply vis_used; eassumption. Qed.
  Local Lemma vgen : forall g, used (c_rules B) g -> c_num_syms W <= g -> visible (c_rules B) g.
  Proof. intros g Hg L. eapply vis_gen; try eassumption. split; [exact L|]. exact (bz_range _ _ _ _ HB g Hg). Qed.
  Local Lemma ugen : forall g, used (c_rules B) g -> c_num_syms W <= g -> used (c_rules E) g.
  Proof. intros g Hg L. apply vused; [auto|now apply vgen]. Qed.
  Local Lemma usedWB : forall s, used (c_rules W) s -> used (c_rules B) s.
  Proof. eapply used_W_B; eassumption. Qed.
  Local Lemma usedEB : forall s, used (c_rules E) s -> used (c_rules B) s.
  Proof. exact (elim_used B E nulling origin HE). Qed.
  Local Lemma rangeB : forall s, used (c_rules B) s -> s < c_num_syms B.
  Proof. exact (bz_range _ _ _ _ HB). Qed.
  Local Lemma noroot : forall r, In r (c_rules B) -> ~ In (w_root w) (p_rhs r).
  Proof. eapply root_not_rhs_B; eassumption. Qed.
  Local Lemma rhsused : forall b r x, nth_error (c_rules B) b = Some r -> In x (p_rhs r) -> used (c_rules B) x.
  Proof. intros b r x H Hx. exists r. split; [eapply nth_error_In; eauto|auto]. Qed.

  (** *** what a symbol stands for *)
  Lemma m_nonempty : forall s, 1 <= length (m s).
  Proof.
    intros s. destruct (Nat.lt_ge_cases s (c_num_syms W)) as [L|L]; [rewrite (bz_old _ _ _ _ HB s L); auto|].
    pose proof (bz_new _ _ _ _ HB s L). lia.
  Qed.

  Lemma m_rhs : forall s a, used (c_rules B) s -> c_num_syms W <= s -> In a (m s) -> exists r, In r (c_rules W) /\ In a (p_rhs r).
  Proof.
    intros s a Hs L Ha.
    destruct (stands X U start W B E c0 w m head nulling origin maps f HX (maxlen B m) s) as (r & l & Hr & Er & _);
      [split; [auto|now apply rangeB]|lia|].
    exists r. split; [auto|]. rewrite Er. apply in_app_iff. auto.
  Qed.

  Lemma m_not_root : forall s a, used (c_rules B) s -> s <> w_root w -> In a (m s) -> a <> w_root w.
  Proof.
    intros s a Hs Hn Ha. destruct (Nat.lt_ge_cases s (c_num_syms W)) as [L|L].
    - rewrite (bz_old _ _ _ _ HB s L) in Ha. destruct Ha as [<-|[]]. auto.
    - destruct (m_rhs s a Hs L Ha) as (r & Hr & Hin) . intros ->.
      destruct (rhs_W X U start W B E c0 w m head nulling origin maps f HU HX r (w_root w) Hr Hin) as [(Hr' & Lt)|(_ & Er)].
      + pose proof (wrap_new start U' W w HW). lia.
      + rewrite Er in Hin. pose proof (wrap_distinct start U' W w HW) as (D1 & D2 & _).
        pose proof (wrap_new start U' W w HW). pose proof (start_range X U start W B E c0 w m head nulling origin maps f HU HX).
        destruct Hin as [K|[K|[K|[]]]]; try congruence. lia.
  Qed.

  (** nullable symbols stand for nullable symbols of the user's grammar *)
  Lemma m_null : forall s a, used (c_rules B) s -> s <> w_root w -> nullable (c_rules B) s -> In a (m s) -> nullable (c_rules U) a.
  Proof.
    intros s a Hs Hn Hnull Ha. apply (proj1 (bin_sound W B m head HB)) in Hnull. cbn [flat_map] in Hnull.
    apply seq_nil in Hnull. rewrite Forall_forall in Hnull. specialize (Hnull a Ha).
    apply (proper_sound start U U' HP).
    apply (proj1 (wrap_sound start U' W w HW (U'_range X U start W B E c0 w m head nulling origin maps f HU HX)
      (start_range X U start W B E c0 w m head nulling origin maps f HU HX))); [exact Hnull|].
    now apply (m_not_root s).
  Qed.

  (** the intermediate symbols of the nulling grammar *)
  Lemma nulling_gen : forall r x y, In r nulling -> p_origin r = None -> p_rhs r = [x; y] ->
    c_num_syms W <= p_lhs r /\ used (c_rules B) (p_lhs r) /\ used (c_rules B) x /\ used (c_rules B) y /\
    m (p_lhs r) = m x ++ m y /\ nullable (c_rules B) x /\ nullable (c_rules B) y.
  Proof.
    intros r x y Hr Eo Er.
    apply (el_nulling _ _ _ _ HE) in Hr. destruct Hr as [Hr Hn]. rewrite Er in Hn. inversion Hn as [|? ? N1 Hn']; subst. inversion Hn' as [|? ? N2 _]; subst.
    assert (G : c_num_syms W <= p_lhs r).
    { destruct (Nat.lt_ge_cases (p_lhs r) (c_num_syms W)) as [L|L]; [exfalso|auto].
      destruct (bin_head W B m head HB r Hr L) as (rw & Hrw & _ & Eo' & Ef).
      destruct (wrap_rule_cases start U' W w HW rw Hrw) as [K|(_ & K & _)].
      - apply (ug_origin _ _ HU rw); [|congruence]. exact (proper_sub start U U' HP rw K).
      - rewrite Er, K in Ef. cbn [flat_map] in Ef.
        assert (Hy : y < c_num_syms W) by (apply (bz_second _ _ _ _ HB r); [auto|now rewrite Er]).
        rewrite (bz_old _ _ _ _ HB y Hy), app_nil_r in Ef.
        assert (y = w_eof w) by (change [w_sof w; start; w_eof w] with ([w_sof w; start] ++ [w_eof w]) in Ef; apply app_inj_tail in Ef; tauto).
        subst y. apply (terminal_not_nullable B (w_eof w)); [|auto].
        apply (sof_eof_B X U start W B E c0 w m head nulling origin maps f HU HX). }
    split; [exact G|]. split; [exists r; auto|]. split; [exists r; rewrite Er; simpl; auto|]. split; [exists r; rewrite Er; simpl; auto|].
    destruct (bz_gen_rule _ _ _ _ HB r Hr G) as (_ & _ & Ef). rewrite Er in Ef. cbn [flat_map] in Ef. rewrite app_nil_r in Ef. auto.
  Qed.
  Lemma nulling_used : forall r x y, In r nulling -> p_origin r = None -> p_rhs r = [x; y] ->
    used (c_rules E) (p_lhs r) /\ used (c_rules E) x /\ used (c_rules E) y.
  Proof.
    intros r x y Hr Eo Er. destruct (nulling_gen r x y Hr Eo Er) as (G & U0 & U1 & U2 & Em & N1 & N2).
    assert (N0 : nullable (c_rules B) (p_lhs r)).
    { apply (el_nulling _ _ _ _ HE) in Hr. destruct Hr as [Hr Hn]. apply (derives_rule (c_rules B) r []); [auto|]. now apply seq_nil. }
    assert (Q : forall s, used (c_rules B) s -> (forall a, In a (m s) -> In a (m (p_lhs r))) -> used (c_rules E) s).
    { intros s Hs Hm. destruct (Nat.lt_ge_cases s (c_num_syms W)) as [L|L]; [|now apply ugen]. apply vused; [auto|].
      eapply (null_gen_m X U start W B E c0 w m head nulling origin maps f HU HX Hvis (p_lhs r)); [split; [auto|now apply rangeB]|auto|].
      apply Hm. rewrite (bz_old _ _ _ _ HB s L). simpl. auto. }
    split; [now apply ugen|]. split; apply Q; auto; intros a Ha; rewrite Em; apply in_app_iff; auto.
  Qed.

  (** *** rules and inner nodes *)
  Variable p : nat -> nat.
  Hypothesis Pinj : forall i j, p i = p j -> i = j.
  Hypothesis Pback : forall i r', nth_error Rc i = Some r' -> exists r, nth_error (c_rules E) (p i) = Some r /\ renamed f r r'.
  Hypothesis Ponto : forall d r, nth_error (c_rules E) d = Some r -> exists i r', nth_error Rc i = Some r' /\ p i = d.

  Definition fits (x : sym) (o : option tree) : Prop :=
    match o with Some k => used (c_rules E) x /\ parse_tree Rc (f x) k | None => nullable (c_rules B) x end.
  (** the rule at [d] is that at [b] of the binary grammar without the symbols for which there is no tree *)
  Definition node_of (d b : nat) (rB : prule) (opts : list (option tree)) : Prop :=
    nth_error (c_rules B) b = Some rB /\ origin (p d) = (b, map is_some opts) /\ (exists r', nth_error Rc d = Some r') /\
    somes opts <> [] /\ Forall2 fits (p_rhs rB) opts.

  Lemma node_inv : forall s d ts, used (c_rules E) s -> parse_tree Rc (f s) (Node d ts) ->
    exists b rB opts, node_of d b rB opts /\ p_lhs rB = s /\ (exists r, nth_error (c_rules E) (p d) = Some r) /\ ts = somes opts.
  Proof.
    intros s d ts Hs H. inversion H as [|d' r' ts' Hd Hts El]; subst d' ts'.
    destruct (Pback d r' Hd) as (r & Hr & A1 & A2 & A3 & A4 & A5). assert (HrE : In r (c_rules E)) by (eapply nth_error_In; eauto).
    assert (Es : p_lhs r = s) by (apply feq; [exists r; auto|auto|congruence]).
    pose proof (el_rule _ _ _ _ HE (p d) r Hr) as K.
    destruct (origin (p d)) as [b mask] eqn:Eorg. destruct K as (rB & Hb & Lm & B1 & B2 & B3 & B4 & B5).
    assert (HrB : In rB (c_rules B)) by (eapply nth_error_In; eauto).
    assert (HuE : forall x, In x (left_over mask (p_rhs rB)) -> used (c_rules E) x) by (intros x Hx; exists r; rewrite B3; auto).
    assert (Q : exists opts, mask = map is_some opts /\ ts = somes opts /\ somes opts <> [] /\ Forall2 fits (p_rhs rB) opts).
    { rewrite A2, B3 in Hts. pose proof (bz_length _ _ _ _ HB rB HrB) as L. rewrite B3 in B4. destruct (p_rhs rB) as [|x [|y [|z rhs]]]; [| | |cbn in L; lia].
      - destruct mask; [|discriminate Lm]. now contradiction B4.
      - destruct mask as [|m1 [|]]; try discriminate Lm. destruct m1; [|now contradiction B4]. cbn in Hts, HuE.
        inversion Hts as [|? ? k ks H1 H2]; subst. inversion H2; subst. exists [Some k]. repeat split; [discriminate|]. repeat constructor; [apply HuE; auto|exact H1].
      - destruct mask as [|m1 [|m2 [|]]]; try discriminate Lm. destruct m1, m2; [| | |now contradiction B4]; cbn in Hts, B5, HuE.
        + inversion Hts as [|? ? k ks H1 H2]; subst. inversion H2 as [|? ? k' ks' H3 H4]; subst. inversion H4; subst.
          exists [Some k; Some k']. repeat split; [discriminate|]. repeat constructor; auto.
        + inversion Hts as [|? ? k ks H1 H2]; subst. inversion H2; subst. inversion B5; subst.
          exists [Some k; None]. repeat split; [discriminate|]. repeat constructor; auto.
        + inversion Hts as [|? ? k ks H1 H2]; subst. inversion H2; subst. inversion B5; subst.
          exists [None; Some k]. repeat split; [discriminate|]. repeat constructor; auto. }
    destruct Q as (opts & -> & -> & Hne & HF). exists b, rB, opts. split; [|split; [congruence|split; [eauto|auto]]].
    split; [auto|]. split; [auto|]. split; [eauto|]. auto.
  Qed.

  Lemma node_make : forall b rB opts, nth_error (c_rules B) b = Some rB -> Forall2 fits (p_rhs rB) opts -> somes opts <> [] ->
    Forall (visible (c_rules B)) (left_over (map is_some opts) (p_rhs rB)) ->
    exists d, parse_tree Rc (f (p_lhs rB)) (Node d (somes opts)) /\ node_of d b rB opts.
  Proof.
    intros b rB opts Hb HF Hne Hvs. assert (HrB : In rB (c_rules B)) by (eapply nth_error_In; eauto).
    assert (Hall : Forall (nullable (c_rules B)) (struck_out (map is_some opts) (p_rhs rB)) /\
                   parse_trees Rc (map f (left_over (map is_some opts) (p_rhs rB))) (somes opts)).
    { clear Hne Hb HrB Hvs. induction HF as [|x o rhs opts H HF [IH1 IH2]]; [split; constructor|]. destruct o as [k|]; cbn in *.
      - split; [exact IH1|]. constructor; [apply H|auto].
      - split; [constructor; auto|exact IH2]. }
    destruct Hall as [Hnull Hts].
    destruct (el_all _ _ _ _ HE b rB (map is_some opts) Hb) as (de & r & Hde & Eorg); auto.
    - rewrite map_length. symmetry. exact (Forall2_len _ _ _ _ _ HF).
    - intros K. rewrite K in Hts. inversion Hts as [E1 E2|]. congruence.
    - pose proof (el_rule _ _ _ _ HE de r Hde) as K. rewrite Eorg in K. destruct K as (rB' & Hb' & Lm & B1 & B2 & B3 & B4 & B5).
      rewrite Hb in Hb'. injection Hb' as <-.
      destruct (Ponto de r Hde) as (d & r' & Hd & <-). destruct (Pback d r' Hd) as (r2 & Hr2 & A1 & A2 & _). rewrite Hde in Hr2. injection Hr2 as <-.
      exists d. split.
      + rewrite <- B1, <- A1. apply (pt_node _ d r'); [auto|]. now rewrite A2, B3.
      + split; [auto|]. split; [auto|]. split; [eauto|auto].
  Qed.

  (** *** the tables of the forest, with any numbering of the symbols left out *)
  Section Numbers.
  Variables (fx : sym -> sym) (fi : forest_info).
  Hypothesis Hfx : forall s, used (c_rules E) s -> fx s = f s.
  Hypothesis Hfa : forall s t, used (c_rules B) s -> ~ used (c_rules E) s -> used (c_rules E) t -> fx s <> f t.
  Hypothesis Hfe : fi_eval fi = map p_origin Rc.
  Hypothesis Hfn : forall d r' r, nth_error Rc d = Some r' -> nth_error (c_rules E) (p d) = Some r -> renamed f r r' ->
    nth_error (fi_nulling_eliminated fi) d = Some (option_map (fun e => (fx (fst e), snd e)) (p_nullable r)).
  Hypothesis Hfi : nulling_intermediate maps nulling = Ret (fi_nulling_intermediate fi).

  Lemma ni_spec : forall l a b, In (l, a, b) (fi_nulling_intermediate fi) <->
    exists r x y, In r nulling /\ p_origin r = None /\ p_rhs r = [x; y] /\ l = f (p_lhs r) /\ a = f x /\ b = f y.
  Proof.
    intros l a b. unfold nulling_intermediate in Hfi. apply bind_Ret in Hfi. destruct Hfi as (rows & Hrows & K). injection K as <-.
    pose proof nulling_used as HN.
    clear Hfi. revert rows Hrows HN. generalize nulling as NL. induction NL as [|r ns IH]; intros rows Hrows HN; cbn [mapM] in Hrows.
    - injection Hrows as <-. cbn. split; [intros []|intros (? & ? & ? & [] & _)].
    - apply bind_Ret in Hrows. destruct Hrows as (row & Hrow & Hrows). apply bind_Ret in Hrows. destruct Hrows as (rows' & Hrows & K). injection K as <-.
      specialize (IH rows' Hrows (fun r' x y H' => HN r' x y (or_intror H'))). cbn [concat]. rewrite in_app_iff, IH.
      assert (Q : In (l, a, b) row <-> exists x y, p_origin r = None /\ p_rhs r = [x; y] /\ l = f (p_lhs r) /\ a = f x /\ b = f y).
      { clear IH. specialize (fun x y => HN r x y (or_introl eq_refl)) as HN1. clear HN. destruct (p_rhs r) as [|x [|y [|z t]]] eqn:Er;
          try (injection Hrow as <-; split; [intros []|intros (? & ? & _ & K & _); discriminate K]).
        destruct (p_origin r) as [o|]; cbn [is_null] in Hrow; [injection Hrow as <-; split; [intros []|intros (? & ? & K & _); discriminate K]|].
        destruct (HN1 x y eq_refl eq_refl) as (U0 & U1 & U2).
        rewrite !(rm_internal _ _ _ _ _ HR) in Hrow by assumption.
        cbn in Hrow. injection Hrow as <-. split.
        - intros [K|[]]. injection K as <- <- <-. exists x, y. auto.
        - intros (x' & y' & _ & K & -> & -> & ->). injection K as <- <-. now left. }
      rewrite Q. split.
      + intros [(x & y & K)|(r' & x & y & Hr' & K)]; [exists r, x, y; split; [now left|auto]|exists r', x, y; split; [now right|auto]].
      + intros (r' & x & y & [<-|Hr'] & K); [left; exists x, y; auto|right; exists r', x, y; auto].
  Qed.

  Lemma ni_gen : forall l a b, In (l, a, b) (fi_nulling_intermediate fi) ->
    exists g x y, l = f g /\ a = f x /\ b = f y /\ c_num_syms W <= g /\ used (c_rules E) g /\ used (c_rules E) x /\ used (c_rules E) y /\
      m g = m x ++ m y /\ nullable (c_rules B) x /\ nullable (c_rules B) y.
  Proof.
    intros l a b H. apply ni_spec in H. destruct H as (r & x & y & Hr & Eo & Er & -> & -> & ->).
    destruct (nulling_gen r x y Hr Eo Er) as (G & _ & _ & _ & Em & N1 & N2). destruct (nulling_used r x y Hr Eo Er) as (U0 & U1 & U2).
    exists (p_lhs r), x, y. repeat (split; [auto|]). auto.
  Qed.

  Lemma ni_has : forall g, used (c_rules B) g -> c_num_syms W <= g -> nullable (c_rules B) g -> exists a b, In (f g, a, b) (fi_nulling_intermediate fi).
  Proof.
    intros g Hg L Hn. destruct (nullable_inv _ _ Hn) as (r & Hr & <- & Hrhs).
    destruct (bz_gen_rule _ _ _ _ HB r Hr L) as (Eo & El & _). destruct (p_rhs r) as [|x [|y [|]]] eqn:Er; try discriminate El.
    exists (f x), (f y). apply ni_spec. exists r, x, y. repeat (split; [auto|]); [|auto]. apply (el_nulling _ _ _ _ HE). split; [auto|]. now rewrite Er.
  Qed.

  (** the values of nulled symbols *)
  Definition nullsG {A} (nv : sym -> A) (s : sym) : list A :=
    match nulled_rhs fi s with
    | Some _ => map (fun a => nv (fx a)) (m (inv s))
    | None => [nv s]
    end.

  Lemma used_dec : forall s, used (c_rules E) s \/ ~ used (c_rules E) s.
  Proof.
    intros s. destruct (in_dec Nat.eq_dec s (used_list E)) as [H|H]; [left|right]; [now apply used_list_spec|].
    intros K. apply H. now apply used_list_spec.
  Qed.

  Lemma nullsG_f : forall A (nv : sym -> A) s, used (c_rules B) s -> nullable (c_rules B) s -> nullsG nv (fx s) = map (fun a => nv (fx a)) (m s).
  Proof.
    intros A nv s Hs Hn. unfold nullsG. destruct (nulled_rhs fi (fx s)) as [[a b]|] eqn:En.
    - destruct (used_dec s) as [Us|Us]; [now rewrite (Hfx s Us), invf|].
      apply nulled_rhs_in in En. destruct (ni_gen _ _ _ En) as (g & x & y & Eg & _ & _ & _ & Ug & _). contradiction (Hfa s g Hs Us Ug).
    - destruct (Nat.lt_ge_cases s (c_num_syms W)) as [L|L]; [now rewrite (bz_old _ _ _ _ HB s L)|].
      destruct (ni_has s Hs L Hn) as (a & b & Hin). exfalso. rewrite (Hfx s (ugen s Hs L)) in En. exact (nulled_rhs_none fi (f s) En a b Hin).
  Qed.

  Lemma nullsG_ok : forall A (nv : sym -> A), nulls_ok fi nv (nullsG nv).
  Proof.
    intros A nv s. unfold nullsG at 1. destruct (nulled_rhs fi s) as [[a b]|] eqn:En; [|auto].
    apply nulled_rhs_in in En. destruct (ni_gen _ _ _ En) as (g & x & y & -> & -> & -> & _ & Hg & Hx & Hy & Em & Nx & Ny).
    rewrite <- (Hfx x Hx), <- (Hfx y Hy), !nullsG_f, invf, Em, map_app by auto using usedEB. reflexivity.
  Qed.

  Lemma ni_acyclic : nulling_acyclic fi.
  Proof.
    exists (fun s => length (m (inv s))). intros l a b H. destruct (ni_gen _ _ _ H) as (g & x & y & -> & -> & -> & _ & Hg & Hx & Hy & Em & _).
    rewrite !invf, Em, app_length by auto. pose proof (m_nonempty x). pose proof (m_nonempty y). lia.
  Qed.

  Lemma node_value : forall d b rB opts, node_of d b rB opts ->
    forall A (ev : evaluator A) nv, value ev fi (nullsG nv) (Node d (somes opts)) =
      red ev (p_origin rB) (parts (value ev fi (nullsG nv)) (fun x => map (fun a => nv (fx a)) (m x)) (p_rhs rB) opts).
  Proof.
    intros d b rB opts (Hb & Eorg & (r' & Hd) & Hne & HF) A ev nv.
    destruct (Pback d r' Hd) as (r & Hr & Hren). pose proof Hren as (_ & _ & A3 & _).
    pose proof (el_rule _ _ _ _ HE (p d) r Hr) as K. rewrite Eorg in K. destruct K as (rB' & Hb' & _ & _ & B2 & _).
    rewrite Hb in Hb'. injection Hb' as <-. pose proof (el_nullable _ _ _ _ HE (p d) r rB Hr) as En. rewrite Eorg in En. specialize (En Hb). cbn [snd] in En.
    assert (HrB : In rB (c_rules B)) by (eapply nth_error_In; eauto). assert (Eo : p_origin r' = p_origin rB) by congruence.
    cbn [value]. unfold reduce, fi_external_origin, restore.
    rewrite Hfe, (Hfn d r' r Hd Hr Hren), !(map_nth_error _ _ _ Hd), Eo, En.
    assert (Q : match somes opts with
      | [_] => match option_map (fun e => (fx (fst e), snd e)) (symbol_struck (map is_some opts) (p_rhs rB)) with
               | Some (s, true) => flat_map (value ev fi (nullsG nv)) (somes opts) ++ nullsG nv s
               | Some (s, false) => nullsG nv s ++ flat_map (value ev fi (nullsG nv)) (somes opts)
               | None => flat_map (value ev fi (nullsG nv)) (somes opts)
               end
      | _ => flat_map (value ev fi (nullsG nv)) (somes opts)
      end = parts (value ev fi (nullsG nv)) (fun x => map (fun a => nv (fx a)) (m x)) (p_rhs rB) opts).
    { pose proof (bz_length _ _ _ _ HB rB HrB) as L. assert (Hu : forall x, In x (p_rhs rB) -> used (c_rules B) x) by (intros x Hx; exists rB; auto).
      unfold parts. destruct (p_rhs rB) as [|x [|y [|z rhs]]]; [| | |cbn in L; lia].
      - inversion HF; subst. now contradiction Hne.
      - inversion HF as [|? o ? opts' H1 HF']; subst. inversion HF'; subst. destruct o as [k|]; [reflexivity|now contradiction Hne].
      - inversion HF as [|? o ? opts' H1 HF']; subst. inversion HF' as [|? o' ? opts'' H2 HF'']; subst. inversion HF''; subst.
        destruct o as [k|], o' as [k'|]; [reflexivity| | |now contradiction Hne]; cbn; rewrite nullsG_f, ?app_nil_r; auto; apply Hu; simpl; auto. }
    cbv zeta. rewrite <- Q. unfold red. destruct (p_origin rB) as [id|]; [|]; destruct (somes opts) as [|k [|k' ks]]; try reflexivity.
    all: destruct (option_map _ _) as [[s [|]]|]; reflexivity.
  Qed.
  End Numbers.

  (** *** reading trees as trees of the user's grammar

      To tell the symbols apart that have no number of their own, they get one here. *)
  Definition fw (s : sym) : sym := if in_dec Nat.eq_dec s (used_list E) then f s else c_num_syms c0 + s.
  Definition invw (t : sym) : sym := if t <? c_num_syms c0 then inv t else t - c_num_syms c0.
  Lemma fw_used : forall s, used (c_rules E) s -> fw s = f s.
  Proof. intros s Hs. unfold fw. destruct (in_dec Nat.eq_dec s (used_list E)) as [H|H]; [auto|]. contradiction H. now apply used_list_spec. Qed.
  Lemma f_low : forall s, used (c_rules E) s -> f s < c_num_syms c0.
  Proof. exact (rm_range _ _ _ _ _ HR). Qed.
  Lemma invw_f : forall s, used (c_rules E) s -> invw (f s) = s.
  Proof. intros s Hs. unfold invw. rewrite (proj2 (Nat.ltb_lt _ _) (f_low s Hs)). now apply invf. Qed.
  Lemma invw_fw : forall s, invw (fw s) = s.
  Proof.
    intros s. destruct (used_dec s) as [H|H]; [now rewrite fw_used, invw_f|]. unfold fw.
    destruct (in_dec Nat.eq_dec s (used_list E)) as [K|K]; [contradiction H; now apply used_list_spec|].
    unfold invw. replace (c_num_syms c0 + s <? c_num_syms c0) with false by (symmetry; apply Nat.ltb_ge; lia). lia.
  Qed.
  Lemma fw_apart : forall s t, used (c_rules B) s -> ~ used (c_rules E) s -> used (c_rules E) t -> fw s <> f t.
  Proof.
    intros s t _ Hs Ht K. pose proof (f_low t Ht) as L. unfold fw in K.
    destruct (in_dec Nat.eq_dec s (used_list E)) as [H|H]; [apply Hs; now apply used_list_spec|lia].
  Qed.

  Variable fi : forest_info.
  Hypothesis Hfe : fi_eval fi = map p_origin Rc.
  Hypothesis Hfn : fi_nulling_eliminated fi = map p_nullable Rc.
  Hypothesis Hfi : nulling_intermediate maps nulling = Ret (fi_nulling_intermediate fi).

  Definition fiw : forest_info := mkFI (fi_eval fi) (fi_nulling_intermediate fi)
    (map (fun d => match nth_error (c_rules E) (p d) with Some r => option_map (fun e => (fw (fst e), snd e)) (p_nullable r) | None => None end) (seq 0 (length Rc)))
    (fi_sof fi) (fi_eof fi) (fi_start fi).

  Lemma Hfn_f : forall d r' r, nth_error Rc d = Some r' -> nth_error (c_rules E) (p d) = Some r -> renamed f r r' ->
    nth_error (fi_nulling_eliminated fi) d = Some (option_map (fun e => (f (fst e), snd e)) (p_nullable r)).
  Proof. intros d r' r Hd _ (_ & _ & _ & _ & K). rewrite Hfn, (map_nth_error _ _ _ Hd), K. reflexivity. Qed.
  Lemma Hfn_w : forall d r' r, nth_error Rc d = Some r' -> nth_error (c_rules E) (p d) = Some r -> renamed f r r' ->
    nth_error (fi_nulling_eliminated fiw) d = Some (option_map (fun e => (fw (fst e), snd e)) (p_nullable r)).
  Proof.
    intros d r' r Hd Hr _. cbn [fiw fi_nulling_eliminated]. assert (L : d < length Rc) by (apply nth_error_Some; rewrite Hd; discriminate).
    assert (Hs : nth_error (seq 0 (length Rc)) d = Some d) by (rewrite (nth_error_nth' _ 0) by (now rewrite seq_length); now rewrite seq_nth).
    rewrite (map_nth_error _ _ _ Hs), Hr. reflexivity.
  Qed.
  Notation nullsF := (nullsG f fi).
  Notation nullsW := (nullsG fw fiw).
  Lemma value_f : forall d b rB opts, node_of d b rB opts ->
    forall A (ev : evaluator A) nv, value ev fi (nullsF nv) (Node d (somes opts)) =
      red ev (p_origin rB) (parts (value ev fi (nullsF nv)) (fun x => map (fun a => nv (f a)) (m x)) (p_rhs rB) opts).
  Proof. exact (node_value f fi (fun s _ => eq_refl) Hap Hfe Hfn_f Hfi). Qed.
  Lemma value_w : forall d b rB opts, node_of d b rB opts ->
    forall A (ev : evaluator A) nv, value ev fiw (nullsW nv) (Node d (somes opts)) =
      red ev (p_origin rB) (parts (value ev fiw (nullsW nv)) (fun x => map (fun a => nv (fw a)) (m x)) (p_rhs rB) opts).
  Proof. exact (node_value fw fiw fw_used fw_apart Hfe Hfn_w Hfi). Qed.

  Definition leaf_ok (s : sym) : Prop := used (c_rules E) s /\ s < c_num_syms W /\ terminal (c_rules U) s /\ terminal Rc (f s).
  Definition good (t : tree) : Prop := forall a v, In (a, v) (yield t) -> exists s, a = f s /\ leaf_ok s.
  Definition syn : evaluator utree := mkEval (fun s v => ULeaf (invw s) v) UNode (fun s rs => rs ++ [UNull (invw s)]) (UNull 0).
  Definition V (t : tree) : list utree := value syn fiw (nullsW (fun s => UNull (invw s))) t.

  Lemma V_node : forall d b rB opts, node_of d b rB opts ->
    V (Node d (somes opts)) = red syn (p_origin rB) (parts V (fun x => map UNull (m x)) (p_rhs rB) opts).
  Proof.
    intros d b rB opts H. unfold V at 1. rewrite (value_w d b rB opts H). fold V. f_equal.
    unfold parts. apply flat_map_ext. intros (x & o). cbn [fst snd]. destruct o; [reflexivity|]. apply map_ext. intros a. now rewrite invw_fw.
  Qed.

  Lemma V_inv : forall s d ts, used (c_rules E) s -> parse_tree Rc (f s) (Node d ts) ->
    exists b rB opts, nth_error (c_rules B) b = Some rB /\ p_lhs rB = s /\ origin (p d) = (b, map is_some opts) /\
      (exists r, nth_error (c_rules E) (p d) = Some r) /\
      ts = somes opts /\ somes opts <> [] /\ Forall2 fits (p_rhs rB) opts /\
      V (Node d ts) = red syn (p_origin rB) (parts V (fun x => map UNull (m x)) (p_rhs rB) opts).
  Proof.
    intros s d ts Hs H. destruct (node_inv s d ts Hs H) as (b & rB & opts & HN & A2 & A4 & ->). pose proof HN as (A1 & A3 & _ & A6 & A7).
    exists b, rB, opts. repeat (split; [assumption|]). split; [auto|]. split; [auto|]. split; [auto|]. exact (V_node d b rB opts HN).
  Qed.

  Lemma value_V : forall A (ev : evaluator A) nv n t s, tsize t <= n -> used (c_rules E) s -> parse_tree Rc (f s) t ->
    value ev fi (nullsF nv) t = map (uvalue ev nv f) (V t).
  Proof.
    intros A ev nv. induction n as [|n IH]; intros t s Hn Hs H; [destruct t; cbn in Hn; lia|]. destruct t as [a v|d ts].
    - inversion H; subst. cbn. now rewrite invw_f.
    - destruct (node_inv s d ts Hs H) as (b & rB & opts & HN & _ & _ & ->).
      rewrite (V_node d b rB opts HN), (value_f d b rB opts HN). pose proof HN as (Hb & _ & _ & _ & HF).
      assert (Q : parts (value ev fi (nullsF nv)) (fun x => map (fun a => nv (f a)) (m x)) (p_rhs rB) opts =
                  map (uvalue ev nv f) (parts V (fun x => map UNull (m x)) (p_rhs rB) opts)).
      { assert (Hk : forall k, In k (somes opts) -> tsize k <= n) by (intros k Hk; apply tsize_in in Hk; cbn in Hn; unfold list_sum in *; lia).
        clear H Hn Hb HN. unfold parts. revert Hk. induction HF as [|x o rhs opts H1 HF IHF]; intros Hk; [reflexivity|].
        cbn [combine flat_map snd fst]. rewrite map_app, IHF; [|intros k K; apply Hk; destruct o; simpl; auto].
        f_equal. destruct o as [k|]; [|now rewrite map_map]. destruct H1. apply (IH k x); [apply Hk; simpl; auto|auto|auto]. }
      rewrite Q. destruct (p_origin rB); reflexivity.
  Qed.

  Lemma good_kid : forall d ts k, good (Node d ts) -> In k ts -> good k.
  Proof. intros d ts k H Hk a v Hin. apply (H a v). cbn. apply in_flat_map. eauto. Qed.

  Lemma c_nonempty : forall r, In r Rc -> p_rhs r <> [].
  Proof.
    intros r' Hr'. apply In_nth_error in Hr'. destruct Hr' as (d & Hd). destruct (Pback d r' Hd) as (r & Hr & _ & A2 & _).
    pose proof (el_rule _ _ _ _ HE (p d) r Hr) as K. destruct (origin (p d)) as [b mask]. destruct K as (rB & _ & _ & _ & _ & _ & K & _).
    rewrite A2. intros E1. apply map_eq_nil in E1. auto.
  Qed.
  Lemma tree_nonempty : forall s t, parse_tree Rc s t -> yield t <> [].
  Proof. exact (proj1 (yield_nonempty Rc c_nonempty)). Qed.

  Lemma V_sound : forall n t s, tsize t <= n -> used (c_rules E) s -> s <> w_root w -> parse_tree Rc (f s) t -> good t ->
    Forall2 (user_tree U) (m s) (V t) /\ flat_map uyield (V t) = map (fun e => (invw (fst e), snd e)) (yield t).
  Proof.
    induction n as [|n IH]; intros t s Hn Hs Hr H G; [destruct t; cbn in Hn; lia|]. destruct t as [a v|d ts].
    - inversion H; subst. cbn. rewrite invw_f by auto. destruct (G (f s) v) as (s' & Es & Us & Ls & Ts & _); [simpl; auto|].
      apply feq in Es; auto. subst s'. rewrite (bz_old _ _ _ _ HB s Ls). split; [|reflexivity]. repeat constructor; auto.
    - destruct (V_inv s d ts Hs H) as (b & rB & opts & Hb & El & _ & _ & -> & Hne & HF & Hv). rewrite Hv.
      assert (HrB : In rB (c_rules B)) by (eapply nth_error_In; eauto).
      assert (Q : Forall2 (user_tree U) (flat_map m (p_rhs rB)) (parts V (fun x => map UNull (m x)) (p_rhs rB) opts) /\
                  flat_map uyield (parts V (fun x => map UNull (m x)) (p_rhs rB) opts) =
                    map (fun e => (invw (fst e), snd e)) (flat_map yield (somes opts))).
      { assert (Hu : forall x, In x (p_rhs rB) -> used (c_rules B) x /\ x <> w_root w).
        { intros x Hx. split; [exists rB; auto|]. intros ->. exact (noroot rB HrB Hx). }
        assert (Hk : forall k, In k (somes opts) -> tsize k <= n /\ good k).
        { intros k Hk. split; [apply tsize_in in Hk; cbn in Hn; unfold list_sum in *; lia|exact (good_kid _ _ _ G Hk)]. }
        clear Hv H Hn Hb G Hne HrB El. unfold parts. revert Hu Hk. induction HF as [|x o rhs opts H1 HF IHF]; intros Hu Hk; [split; [constructor|reflexivity]|].
        cbn [combine flat_map snd fst]. destruct IHF as [IH1 IH2]; [intros; apply Hu; simpl; auto|intros k K; apply Hk; destruct o; simpl; auto|].
        destruct (Hu x (or_introl eq_refl)) as [Ux Nx]. destruct o as [k|].
        - destruct (Hk k) as [Sk Gk]; [simpl; auto|]. destruct H1 as [Ex H1]. destruct (IH k x Sk Ex Nx H1 Gk) as [K1 K2]. split; [now apply Forall2_app|].
          cbn [somes flat_map app]. rewrite flat_map_app, map_app, K2. f_equal. exact IH2.
        - split; [|rewrite flat_map_app, uyield_nulls; exact IH2]. apply Forall2_app; [|exact IH1].
          assert (K : forall a, In a (m x) -> nullable (c_rules U) a) by (intros a; now apply m_null).
          revert K. generalize (m x). induction l as [|a l IHl]; intros K; constructor; [constructor; apply K; simpl; auto|apply IHl; intros; apply K; simpl; auto]. }
      destruct Q as [Q1 Q2]. cbn [yield]. rewrite <- Q2. destruct (Nat.lt_ge_cases s (c_num_syms W)) as [L|L].
      + rewrite <- El in L. destruct (bin_head W B m head HB rB HrB L) as (rw & Hrw & Elw & Eo & Ef).
        destruct (wrap_rule_cases start U' W w HW rw Hrw) as [K|(K & _)]; [|congruence].
        apply (proper_sub start U U' HP) in K. destruct (p_origin rw) as [id|] eqn:Eid; [|contradiction (ug_origin _ _ HU rw K Eid)].
        rewrite Eo. cbn [red]. rewrite <- El at 1. rewrite (bz_old _ _ _ _ HB _ L), Elw. split; [|cbn; now rewrite app_nil_r].
        constructor; [|constructor]. cbn [ev_product syn]. rewrite Ef in Q1. apply (ut_node U rw id); auto.
        cbn [uyield]. rewrite Q2. intros K2. apply map_eq_nil in K2. exact (tree_nonempty _ _ H K2).
      + rewrite <- El in L. destruct (bz_gen_rule _ _ _ _ HB rB HrB L) as (Eo & _ & Ef). rewrite Eo. cbn [red]. rewrite <- El at 1. rewrite <- Ef. auto.
  Qed.

  (** the rule on top and the tokens before its last symbol are told by [root_split] *)
  Lemma old_V : forall n t s, tsize t <= n -> used (c_rules E) s -> s <> w_root w -> s < c_num_syms W -> parse_tree Rc (f s) t -> good t ->
    exists u, V t = [u].
  Proof.
    intros n t s Hn Hs Hr L H G. destruct (V_sound n t s Hn Hs Hr H G) as [HF _]. rewrite (bz_old _ _ _ _ HB s L) in HF.
    inversion HF as [|? u ? l F1 F2]; subst. inversion F2; subst. eauto.
  Qed.

  Lemma top_split_node : forall s d ts u, used (c_rules E) s -> s <> w_root w -> s < c_num_syms W -> parse_tree Rc (f s) (Node d ts) -> good (Node d ts) ->
    V (Node d ts) = [u] ->
    exists b rB id, origin (p d) = (b, snd (origin (p d))) /\ nth_error (c_rules B) b = Some rB /\ p_origin rB = Some id /\
      top_split u = Some (id, match snd (origin (p d)) with true :: _ :: _ => match ts with k :: _ => length (yield k) | [] => 0 end | _ => 0 end).
  Proof.
    intros s d ts u Hs Hr L H G Hu. destruct (V_inv s d ts Hs H) as (b & rB & opts & Hb & El & Eor & _ & -> & Hne & HF & Hv).
    assert (HrB : In rB (c_rules B)) by (eapply nth_error_In; eauto). pose proof L as L2. rewrite <- El in L2.
    destruct (bin_head W B m head HB rB HrB L2) as (rw & Hrw & Elw & Eo & Ef).
    assert (exists id, p_origin rB = Some id) as (id & Eid).
    { destruct (wrap_rule_cases start U' W w HW rw Hrw) as [K|(K & _)]; [|congruence]. apply (proper_sub start U U' HP) in K.
      destruct (p_origin rw) as [id|] eqn:Eid; [eauto|contradiction (ug_origin _ _ HU rw K Eid)]. }
    exists b, rB, id. rewrite Eor. cbn [snd]. split; [reflexivity|]. split; [exact Hb|]. split; [exact Eid|].
    rewrite Hv, Eid in Hu. cbn [red ev_product syn] in Hu. injection Hu as <-. cbn [top_split]. do 2 f_equal.
    assert (Hu : forall x, In x (p_rhs rB) -> used (c_rules B) x /\ x <> w_root w).
    { intros x Hx. split; [exists rB; auto|]. intros ->. exact (noroot rB HrB Hx). }
    pose proof (bz_length _ _ _ _ HB rB HrB) as Len.
    assert (Sec : forall y, nth_error (p_rhs rB) 1 = Some y -> y < c_num_syms W) by (intros y; exact (bz_second _ _ _ _ HB rB y HrB)).
    assert (One : forall x, p_rhs rB = [x] -> x < c_num_syms W).
    { intros x Ex. destruct (Nat.lt_ge_cases x (c_num_syms W)) as [K|K]; [auto|exfalso].
      destruct (bz_gen_use _ _ _ _ HB x K) as (b' & r' & y & Hb' & Er' & Ho); [apply (bz_range _ _ _ _ HB), Hu; rewrite Ex; simpl; auto|].
      assert (b = b') by (apply (Ho b rB); [auto|rewrite Ex; simpl; auto]). subst b'. rewrite Hb in Hb'. injection Hb' as <-. rewrite Ex in Er'. discriminate Er'. }
    assert (Last : forall x o, In x (p_rhs rB) -> x < c_num_syms W -> fits x o -> (forall k, o = Some k -> good k) ->
      exists u, match o with Some k => V k | None => map UNull (m x) end = [u]).
    { intros x o Hx Lx Fo Gk. destruct o as [k|]; [|rewrite (bz_old _ _ _ _ HB x Lx); cbn; eauto].
      destruct Fo as [Ux Fo]. apply (old_V (tsize k) k x); auto. apply Hu. auto. }
    assert (Gk : forall k, In k (somes opts) -> good k) by (intros k Hk; exact (good_kid _ _ k G Hk)).
    clear Hv H G Hb El Eor Ef Eo. unfold parts.
    destruct (p_rhs rB) as [|x [|y [|]]]; [| | |cbn in Len; lia]; inversion HF as [|? o1 ? l1 F1 F2]; subst.
    - reflexivity.
    - inversion F2; subst. cbn [combine flat_map fst snd map]. destruct (Last x o1) as (u & Eu); [simpl; auto|apply One; auto|auto|intros k ->; apply Gk; simpl; auto|].
      rewrite Eu. cbn. destruct (is_some o1); reflexivity.
    - inversion F2 as [|? o2 ? l2 F3 F4]; subst. inversion F4; subst. cbn [combine flat_map fst snd map]. rewrite app_nil_r.
      destruct (Last y o2) as (u & Eu); [simpl; auto|apply Sec; reflexivity|auto|intros k ->; apply Gk; destruct o1; simpl; auto|].
      rewrite Eu, removelast_last. destruct o1 as [k|]; cbn [is_some].
      + destruct F1 as [Ux F1]. destruct (V_sound (tsize k) k x (le_n _) Ux) as [_ K]; [apply Hu; simpl; auto|auto|apply Gk; simpl; auto|].
        cbn [somes flat_map app]. rewrite K. apply map_length.
      + now rewrite uyield_nulls.
  Qed.

  Lemma V_split : forall s t t' u u', used (c_rules E) s -> s <> w_root w -> s < c_num_syms W -> parse_tree Rc (f s) t -> parse_tree Rc (f s) t' ->
    good t -> good t' -> V t = [u] -> V t' = [u'] -> root_split t = root_split t' -> top_split u = top_split u'.
  Proof.
    intros s t t' u u' Hs Hr L H H' G G' Eu Eu' Hsp. destruct t as [a v|d ts], t' as [a' v'|d' ts']; try discriminate Hsp.
    - cbn in Eu, Eu'. injection Eu as <-. injection Eu' as <-. reflexivity.
    - cbn in Hsp. injection Hsp as <- Hlen.
      destruct (top_split_node s d ts u Hs Hr L H G Eu) as (b & rB & id & E1 & E2 & E3 & ->).
      destruct (top_split_node s d ts' u' Hs Hr L H' G' Eu') as (b' & rB' & id' & E1' & E2' & E3' & ->).
      assert (b' = b) by congruence. subst b'. assert (rB' = rB) by congruence. subst rB'. assert (id' = id) by congruence. subst id'.
      destruct (snd (origin (p d))) as [|[|] [|]]; auto. now rewrite Hlen.
  Qed.

  (** a tree of the processed grammar is no larger than the user's *)
  Lemma V_size : forall n t s, tsize t <= n -> used (c_rules E) s -> s <> w_root w -> parse_tree Rc (f s) t ->
    1 + inner_nodes t <= list_sum (map usize (V t)).
  Proof.
    induction n as [|n IH]; intros t s Hn Hs Hr H; [destruct t; cbn in Hn; lia|]. destruct t as [a v|d ts]; [cbn; lia|].
    destruct (V_inv s d ts Hs H) as (b & rB & opts & Hb & El & _ & _ & -> & Hne & HF & ->).
    assert (HrB : In rB (c_rules B)) by (eapply nth_error_In; eauto).
    assert (Q : length (p_rhs rB) + list_sum (map inner_nodes (somes opts)) <= list_sum (map usize (parts V (fun x => map UNull (m x)) (p_rhs rB) opts))).
    { assert (Hu : forall x, In x (p_rhs rB) -> x <> w_root w) by (intros x Hx ->; exact (noroot rB HrB Hx)).
      assert (Hk : forall k, In k (somes opts) -> tsize k <= n) by (intros k Hk; apply tsize_in in Hk; cbn in Hn; unfold list_sum in *; lia).
      assert (Hm : forall x, 1 <= length (m x)).
      { intros x. destruct (Nat.lt_ge_cases x (c_num_syms W)) as [L|L]; [rewrite (bz_old _ _ _ _ HB x L); auto|pose proof (bz_new _ _ _ _ HB x L); lia]. }
      clear Hb HrB Hne H Hn. unfold parts. revert Hu Hk. induction HF as [|x o rhs opts H1 HF IHF]; intros Hu Hk; [cbn; lia|].
      cbn [combine flat_map snd fst length]. rewrite map_app, list_sum_app.
      assert (I : length rhs + list_sum (map inner_nodes (somes opts)) <= list_sum (map usize (flat_map (fun a => match snd a with Some k => V k | None => map UNull (m (fst a)) end) (combine rhs opts)))).
      { apply IHF; [intros; apply Hu; simpl; auto|intros k K; apply Hk; destruct o; simpl; auto]. }
      destruct o as [k|].
      - destruct H1 as [Ux H1]. pose proof (IH k x ltac:(apply Hk; simpl; auto) Ux ltac:(apply Hu; simpl; auto) H1) as K.
        change (somes (Some k :: opts)) with (k :: somes opts). cbn [map]. unfold list_sum in *. cbn [fold_right]. lia.
      - pose proof (usize_sum (map UNull (m x))) as K. rewrite map_length in K. specialize (Hm x). change (somes (None :: opts)) with (somes opts). unfold list_sum in *. lia. }
    cbn [inner_nodes]. destruct (p_origin rB) as [id|] eqn:Eid; cbn [red].
    - cbn [map usize ev_product syn]. cbn [list_sum fold_right]. assert (1 <= length (p_rhs rB)) by (destruct HF; [contradiction Hne; reflexivity|cbn; lia]). unfold list_sum in *. lia.
    - assert (length (p_rhs rB) = 2); [|unfold list_sum in *; lia].
      destruct (Nat.lt_ge_cases (p_lhs rB) (c_num_syms W)) as [L|L]; [|apply (bz_gen_rule _ _ _ _ HB rB HrB L)]. exfalso.
      destruct (bin_head W B m head HB rB HrB L) as (rw & Hrw & Elw & Eo & Ef).
      destruct (wrap_rule_cases start U' W w HW rw Hrw) as [K|(K & _)]; [|congruence]. apply (proper_sub start U U' HP) in K.
      apply (ug_origin _ _ HU rw K). congruence.
  Qed.

  Lemma nulls_yield : forall l a, Forall2 (user_tree U) a l -> flat_map uyield l = [] -> l = map UNull a /\ Forall (nullable (c_rules U)) a.
  Proof.
    induction l as [|u l IH]; intros a H Hy; inversion H as [|x ? a' ? H1 H2]; subst; [split; [auto|constructor]|].
    cbn [flat_map] in Hy. apply app_eq_nil in Hy. destruct Hy as [Hy1 Hy2]. destruct (IH a' H2 Hy2) as [-> Hn].
    inversion H1 as [| |r id ts Hr Eo HF Hy]; subst; [discriminate Hy1|split; [auto|now constructor]|contradiction].
  Qed.

  (** *** every tree of the user's grammar is read *)
  Lemma reached_W : forall a, used (c_rules W) a -> a <> w_root w -> a < c_num_syms U -> reached start U a.
  Proof.
    intros a (r & Hr & Ha) Hn La. destruct (wrap_rule_cases start U' W w HW r Hr) as [K|(K1 & K2 & _)].
    - apply (reached_used X U start W B E c0 w m head nulling origin maps f HX). exists r. auto.
    - destruct Ha as [Ha|Ha]; [congruence|]. rewrite K2 in Ha. pose proof (wrap_new start U' W w HW) as (_ & N1 & N2).
      pose proof (mp_syms _ _ _ HP) as N3.
      destruct Ha as [Ha|[Ha|[Ha|[]]]]; [lia| |lia]. subst a. exists [], []. constructor.
  Qed.

  Lemma m_used_W : forall s a, used (c_rules B) s -> In a (m s) -> used (c_rules W) a.
  Proof.
    intros s a Hs Ha. destruct (Nat.lt_ge_cases s (c_num_syms W)) as [L|L].
    - rewrite (bz_old _ _ _ _ HB s L) in Ha. destruct Ha as [<-|[]].
      exact (used_B_W X U start W B E c0 w m head nulling origin maps f HX s Hs L).
    - destruct (m_rhs s a Hs L Ha) as (r & Hr & Hin). exists r. auto.
  Qed.

  Lemma m_null_back : forall s, used (c_rules B) s -> s <> w_root w -> Forall (nullable (c_rules U)) (m s) -> nullable (c_rules B) s.
  Proof.
    intros s Hs Hn HF. assert (HF' : derives_seq (c_rules B) (m s) []).
    { assert (Hm : forall a, In a (m s) -> derives (c_rules B) a []).
      { intros a Ha. rewrite Forall_forall in HF. pose proof (HF a Ha) as Na.
        apply (U'_to_B X U start W B E c0 w m head nulling origin maps f HX).
        apply (proj1 (proper_complete start U U' HP) a []); [exact Na|constructor|].
        apply reached_W; [exact (m_used_W s a Hs Ha)|exact (m_not_root s a Hs Hn Ha)|].
        inversion Na as [|r x Hr Hd E1 E2]; subst. apply (ug_range _ _ HU). exists r. auto. }
      clear HF. revert Hm. generalize (m s). induction l as [|a l IH]; intros Hm; [constructor|].
      apply (derives_cons _ a l [] []); [apply Hm; simpl; auto|apply IH; intros; apply Hm; simpl; auto]. }
    assert (D : derives_seq (c_rules B) [s] (flat_map m [s])).
    { apply (bin_expand W B m head HB). intros x [<-|[]]. now apply rangeB. }
    cbn [flat_map] in D. rewrite app_nil_r in D.
    apply derives_seq_one. exact (proj2 (derives_compose (c_rules B)) _ _ D [] HF').
  Qed.

  (** a symbol read as something is visible *)
  Lemma read_visible : forall x lx, used (c_rules B) x -> x <> w_root w -> Forall2 (user_tree U) (m x) lx -> flat_map uyield lx <> [] ->
    visible (c_rules B) x.
  Proof.
    intros x lx Hx Nx HF Hy. destruct (Nat.lt_ge_cases x (c_num_syms W)) as [L|L]; [|now apply vgen].
    rewrite (bz_old _ _ _ _ HB x L) in HF. inversion HF as [|? u ? l' Hu Hnil]; subst. inversion Hnil; subst. cbn in Hy. rewrite app_nil_r in Hy.
    destruct (user_tree_derives U (usize u) u x (le_n _) Hu) as [K1 K2].
    assert (Vx : visible (c_rules U) x).
    { exists (map fst (uyield u)). split; [intros K; apply map_eq_nil in K; auto|auto]. }
    destruct (used_B_W X U start W B E c0 w m head nulling origin maps f HX x Hx L) as (r & Hr & Hs).
    destruct (wrap_rule_cases start U' W w HW r Hr) as [K|(K1' & K2' & _)].
    - apply (visible_up X U start W B E c0 w m head nulling origin maps f HU HX); [exists r; auto|auto].
    - destruct Hs as [Hs|Hs]; [congruence|]. rewrite K2' in Hs. destruct Hs as [<-|[<-|[<-|[]]]];
        [|exact (vis_start X U start W B E c0 w m head nulling origin maps f HU HX (fun _ => Vx))|]; eapply vis_root_rhs; try eassumption; simpl; auto.
  Qed.

  Definition sizes (l : list utree) := list_sum (map usize l).
  Definition builds (s : sym) (l : list utree) : Prop :=
    exists t, parse_tree Rc (f s) t /\ V t = l /\ yield t = map (fun e => (f (fst e), snd e)) (flat_map uyield l).

  Lemma sizes_app : forall a b, sizes (a ++ b) = sizes a + sizes b.
  Proof. intros a b. unfold sizes. rewrite map_app. apply list_sum_app. Qed.
  Lemma sizes_length : forall l, length l <= sizes l.
  Proof. induction l as [|u l IH]; [auto|]. unfold sizes in *. cbn [map length]. cbn [list_sum fold_right]. pose proof (usize_pos u). unfold list_sum in *. lia. Qed.

  Lemma build_parts : forall rhs l, (forall x, In x rhs -> used (c_rules B) x /\ x <> w_root w) -> Forall2 (user_tree U) (flat_map m rhs) l ->
    (forall a v, In (a, v) (flat_map uyield l) -> leaf_ok a) ->
    (forall x lx, In x rhs -> sizes lx + (length rhs - 1) <= sizes l -> Forall2 (user_tree U) (m x) lx ->
       (forall a v, In (a, v) (flat_map uyield lx) -> leaf_ok a) -> flat_map uyield lx <> [] -> builds x lx) ->
    exists opts, Forall2 fits rhs opts /\ Forall (visible (c_rules B)) (left_over (map is_some opts) rhs) /\
      parts V (fun x => map UNull (m x)) rhs opts = l /\ flat_map yield (somes opts) = map (fun e => (f (fst e), snd e)) (flat_map uyield l).
  Proof.
    induction rhs as [|x rhs IH]; intros l Hu HF Hl Hb; cbn [flat_map] in HF.
    - inversion HF; subst. exists []. repeat split; constructor.
    - apply Forall2_app_inv_l in HF. destruct HF as (lx & l' & F1 & F2 & ->). rewrite flat_map_app in *.
      assert (Sx : 1 <= sizes lx). { pose proof (sizes_length lx). pose proof (m_nonempty x). rewrite (Forall2_len _ _ _ _ _ F1) in *. lia. }
      assert (Sr : length rhs <= sizes l').
      { pose proof (sizes_length l') as K. rewrite <- (Forall2_len _ _ _ _ _ F2) in K. apply (Nat.le_trans _ (length (flat_map m rhs))); [|exact K].
        clear - HX. induction rhs as [|y rhs IH]; [auto|]. cbn. rewrite app_length. pose proof (m_nonempty y). lia. }
      destruct (IH l') as (opts & O1 & OV & O2 & O3); [intros; apply Hu; simpl; auto|exact F2|intros a v K; apply (Hl a v), in_app_iff; auto| |].
      { intros y ly Hy Sy Fy Ly Ny. apply Hb; auto; [simpl; auto|]. rewrite sizes_app. cbn [length]. destruct rhs; [destruct Hy|cbn [length] in *; lia]. }
      assert (Z : flat_map uyield lx = [] \/ flat_map uyield lx <> []) by (destruct (flat_map uyield lx); [left|right]; congruence).
      destruct Z as [Z|Z].
      + destruct (nulls_yield lx (m x) F1 Z) as [-> Hn]. exists (None :: opts). split; [constructor; [|auto]|].
        * cbn. destruct (Hu x (or_introl eq_refl)). now apply m_null_back.
        * split; [exact OV|]. split; [unfold parts in *; cbn [combine flat_map fst snd]; now rewrite O2|]. rewrite Z. exact O3.
      + destruct (Hb x lx) as (t & T1 & T2 & T3); auto; [simpl; auto|rewrite sizes_app; cbn [length]; lia|intros a v K; apply (Hl a v), in_app_iff; auto|].
        destruct (Hu x (or_introl eq_refl)) as [Ux Nx]. pose proof (read_visible x lx Ux Nx F1 Z) as Vx.
        exists (Some t :: opts). split; [constructor; [split; [now apply vused|auto]|auto]|]. split; [constructor; auto|]. split; [unfold parts in *; cbn [combine flat_map fst snd]; now rewrite O2, T2|].
        cbn [somes flat_map app]. rewrite map_app, <- T3. f_equal. exact O3.
  Qed.

  Lemma V_complete : forall n s l, sizes l <= n -> used (c_rules B) s -> s <> w_root w -> Forall2 (user_tree U) (m s) l ->
    (forall a v, In (a, v) (flat_map uyield l) -> leaf_ok a) -> flat_map uyield l <> [] -> builds s l.
  Proof.
    induction n as [|n IH]; intros s l Hn Hs Hr HF Hl Hy.
    { pose proof (sizes_length l). destruct l; [contradiction|cbn in *; lia]. }
    assert (Hrhs : forall rB, In rB (c_rules B) -> forall x, In x (p_rhs rB) -> used (c_rules B) x /\ x <> w_root w).
    { intros rB HrB x Hx. split; [exists rB; auto|]. intros ->. exact (noroot rB HrB Hx). }
    assert (Hsome : forall (opts : list (option tree)) (y : list (sym * nat)), flat_map yield (somes opts) = map (fun e => (f (fst e), snd e)) y -> y <> [] -> somes opts <> []).
    { intros opts y E1 E2 K. rewrite K in E1. symmetry in E1. apply map_eq_nil in E1. auto. }
    destruct (Nat.lt_ge_cases s (c_num_syms W)) as [L|L].
    - rewrite (bz_old _ _ _ _ HB s L) in HF. inversion HF as [|? u ? l' Hu Hnil]; subst. inversion Hnil; subst. clear Hnil HF.
      inversion Hu as [s' v Ht|s' Hnull|r id ts Hr0 Eo HF Hne]; subst.
      + exists (Leaf (f s) v). split; [constructor|]. split; [|reflexivity].
        cbn. rewrite invw_f; [auto|]. apply (Hl s v). simpl. auto.
      + contradiction.
      + assert (Lr : p_lhs r < c_num_syms U) by (apply (ug_range _ _ HU); exists r; auto).
        assert (HrU : In r (c_rules U')).
        { apply (mp_rules _ _ _ HP). split; [auto|]. split.
          - apply reached_W; auto. exact (used_B_W X U start W B E c0 w m head nulling origin maps f HX _ Hs L).
          - intros x Hx. apply In_nth_error in Hx. destruct Hx as (i & Hi). clear - HF Hi.
            revert i Hi. induction HF as [|a t l l' H HF IHF]; intros [|i] Hi; try discriminate Hi; [|eauto].
            injection Hi as <-. destruct (user_tree_derives U (usize t) t a (le_n _) H). exists (map fst (uyield t)). auto. }
        assert (HrW : In r (c_rules W)) by (apply (wrap_rule start U' W w HW); auto).
        apply In_nth_error in HrW. destruct HrW as (dw & Hdw). destruct (bz_head _ _ _ _ HB dw r Hdw) as (rB & Hb & A1 & A2 & A3).
        assert (HrB : In rB (c_rules B)) by (eapply nth_error_In; eauto). rewrite <- A3 in HF. unfold sizes in Hn. cbn [map usize] in Hn. cbn [list_sum fold_right] in Hn.
        cbn [flat_map uyield] in Hl, Hy. rewrite app_nil_r in Hl, Hy.
        destruct (build_parts (p_rhs rB) ts) as (opts & O1 & OV & O2 & O3); [exact (Hrhs rB HrB)|exact HF|exact Hl| |].
        { intros x lx Hx Sx Fx Lx Nx. destruct (Hrhs rB HrB x Hx). apply IH; auto. unfold sizes in *. unfold list_sum in *. lia. }
        destruct (node_make (head dw) rB opts Hb O1 (Hsome _ _ O3 Hy) OV) as (d & T & HV).
        rewrite A1 in T. exists (Node d (somes opts)). split; [exact T|]. split.
        * rewrite (V_node d _ rB opts HV), O2, A2, Eo. reflexivity.
        * cbn [yield flat_map uyield]. rewrite app_nil_r. exact O3.
    - destruct (bz_gen_one _ _ _ _ HB s L (rangeB s Hs)) as (b & rB & Hb & El & _). assert (HrB : In rB (c_rules B)) by (eapply nth_error_In; eauto).
      destruct (bz_gen_rule _ _ _ _ HB rB HrB) as (Eo & L2 & Ef); [congruence|]. rewrite <- El, <- Ef in HF.
      destruct (build_parts (p_rhs rB) l) as (opts & O1 & OV & O2 & O3); [exact (Hrhs rB HrB)|exact HF|exact Hl| |].
      { intros x lx Hx Sx Fx Lx Nx. destruct (Hrhs rB HrB x Hx). apply IH; auto. lia. }
      destruct (node_make b rB opts Hb O1 (Hsome _ _ O3 Hy) OV) as (d & T & HV).
      rewrite El in T. exists (Node d (somes opts)). split; [exact T|]. split; [|exact O3].
      rewrite (V_node d _ rB opts HV), O2, Eo. reflexivity.
  Qed.

  (** *** different trees are read differently *)
  Hypothesis Hids : distinct_ids U.
  Lemma W_ids : NoDup (map p_origin (c_rules W)).
  Proof.
    destruct (wr_rules _ _ _ _ HW) as (l1 & l2 & r0 & E1 & E2 & _ & _ & Eo).
    assert (N : NoDup (map p_origin (c_rules U'))).
    { destruct (mp_filter _ _ _ HP) as (keep & K). rewrite K. apply NoDup_filter_map. exact Hids. }
    rewrite E2. apply (Permutation_NoDup (l := map p_origin (r0 :: l1 ++ l2))); [apply Permutation_map, Permutation_middle|].
    rewrite <- E1. cbn [map]. constructor; [|exact N]. rewrite Eo. intros K. apply in_map_iff in K. destruct K as (r & Er & Hr).
    apply (ug_origin _ _ HU r); [exact (proper_sub start U U' HP r Hr)|auto].
  Qed.

  Lemma V_injective : forall n t s t', tsize t <= n -> used (c_rules E) s -> s <> w_root w -> parse_tree Rc (f s) t -> parse_tree Rc (f s) t' ->
    good t -> good t' -> V t = V t' -> t = t'.
  Proof.
    induction n as [|n IH]; intros t s t' Hn Hs Hr H H' G G' EV; [destruct t; cbn in Hn; lia|].
    assert (Leafcase : forall a v d ts, parse_tree Rc (f s) (Leaf a v) -> good (Leaf a v) -> parse_tree Rc (f s) (Node d ts) -> False).
    { intros a v d ts K1 K2 K3. inversion K1; subst. destruct (K2 (f s) v) as (s' & Es & _ & _ & _ & T); [simpl; auto|].
      inversion K3 as [|d' r' ts' Hd _ El]; subst. apply (T r'); [eapply nth_error_In; eauto|congruence]. }
    destruct t as [a v|d ts], t' as [a' v'|d' ts']; try (exfalso; eauto; fail).
    - inversion H; inversion H'; subst. cbn in EV. congruence.
    - destruct (V_inv s d ts Hs H) as (b & rB & opts & Hb & El & Eorg & (re & Hre) & -> & Hne & HF & Hv).
      destruct (V_inv s d' ts' Hs H') as (b' & rB' & opts' & Hb' & El' & Eorg' & (re' & Hre') & -> & Hne' & HF' & Hv').
      rewrite Hv, Hv' in EV. assert (HrB : In rB (c_rules B)) by (eapply nth_error_In; eauto). assert (HrB' : In rB' (c_rules B)) by (eapply nth_error_In; eauto).
      assert (Q : b = b' /\ parts V (fun x => map UNull (m x)) (p_rhs rB) opts = parts V (fun x => map UNull (m x)) (p_rhs rB') opts').
      { destruct (Nat.lt_ge_cases s (c_num_syms W)) as [L|L].
        - destruct (bz_head_only _ _ _ _ HB b rB Hb ltac:(congruence)) as (dw & Ldw & Edw). destruct (bz_head_only _ _ _ _ HB b' rB' Hb' ltac:(congruence)) as (dw' & Ldw' & Edw').
          assert (Hid : forall dw b rB, dw < length (c_rules W) -> head dw = b -> nth_error (c_rules B) b = Some rB -> p_lhs rB = s ->
                    nth_error (map p_origin (c_rules W)) dw = Some (p_origin rB) /\ exists id, p_origin rB = Some id).
          { clear - HU HX Hs Hr L. intros dw b rB Ldw <- Hb El. destruct (nth_error (c_rules W) dw) as [rw|] eqn:Ew; [|apply nth_error_None in Ew; lia].
            destruct (bz_head _ _ _ _ HB dw rw Ew) as (r' & Hb' & A1 & A2 & _). rewrite Hb in Hb'. injection Hb' as <-.
            split; [rewrite A2; now apply map_nth_error|]. rewrite A2. assert (Hrw : In rw (c_rules W)) by (eapply nth_error_In; eauto).
            destruct (wrap_rule_cases start U' W w HW rw Hrw) as [K|(K & _)]; [|congruence]. apply (proper_sub start U U' HP) in K.
            destruct (p_origin rw) as [id|] eqn:Eid; [eauto|contradiction (ug_origin _ _ HU rw K Eid)]. }
          destruct (Hid dw b rB Ldw Edw Hb El) as [I1 (id & Eid)]. destruct (Hid dw' b' rB' Ldw' Edw' Hb' El') as [I2 (id' & Eid')].
          rewrite Eid, Eid' in *. cbn [red syn ev_product] in EV. injection EV as <- EV. split; [|exact EV].
          assert (dw = dw'); [|congruence]. pose proof W_ids as N. rewrite NoDup_nth_error in N. apply N; [rewrite map_length; auto|congruence].
        - destruct (bz_gen_rule _ _ _ _ HB rB HrB) as (Eo & _); [congruence|]. destruct (bz_gen_rule _ _ _ _ HB rB' HrB') as (Eo' & _); [congruence|].
          rewrite Eo, Eo' in EV. split; [|exact EV]. destruct (bz_gen_one _ _ _ _ HB s L (rangeB s (usedEB s Hs))) as (b1 & r1 & _ & _ & Hu).
          rewrite (Hu b rB), (Hu b' rB'); auto. }
      destruct Q as [<- EP]. rewrite Hb in Hb'. injection Hb' as <-.
      assert (Eopts : opts = opts').
      { assert (Hu : forall x, In x (p_rhs rB) -> used (c_rules B) x /\ x <> w_root w).
        { intros x Hx. split; [exists rB; auto|]. intros ->. exact (noroot rB HrB Hx). }
        assert (Hk : forall k, In k (somes opts) -> tsize k <= n /\ good k).
        { intros k Hk. split; [apply tsize_in in Hk; cbn in Hn; unfold list_sum in *; lia|exact (good_kid _ _ _ G Hk)]. }
        assert (Hk' : forall k, In k (somes opts') -> good k) by (intros k Hk'; exact (good_kid _ _ _ G' Hk')).
        clear - HU HX Hvis HR Hap Hfe Hfn Hfi Pinj Pback Ponto IH HF HF' EP Hu Hk Hk'. revert opts' HF' EP Hu Hk Hk'. unfold parts.
        induction HF as [|x o rhs opts H1 HF IHF]; intros opts' HF' EP Hu Hk Hk'; inversion HF' as [|? o' ? opts'' H1' HF'']; subst; [auto|].
        cbn [combine flat_map snd fst] in EP. destruct (Hu x (or_introl eq_refl)) as [Ux Nx].
        assert (Len : forall o, fits x o -> (forall k, o = Some k -> good k) -> length (match o with Some k => V k | None => map UNull (m x) end) = length (m x)).
        { intros [k|] F Gk; [|apply map_length]. destruct F as [Ex F]. destruct (V_sound (tsize k) k x (le_n _) Ex Nx F (Gk k eq_refl)) as [K _].
          symmetry. exact (Forall2_len _ _ _ _ _ K). }
        apply app_same in EP; [|rewrite !Len; auto; intros k ->; [apply Hk'|apply Hk]; simpl; auto].
        destruct EP as [EP1 EP2]. rewrite (IHF opts''); auto; [|intros; apply Hu; simpl; auto|intros k K; apply Hk; destruct o; simpl; auto|intros k K; apply Hk'; destruct o'; simpl; auto].
        f_equal. assert (Z : forall k, fits x (Some k) -> good k -> V k = map UNull (m x) -> False).
        { intros k [Ex F] Gk K. destruct (V_sound (tsize k) k x (le_n _) Ex Nx F Gk) as [_ K2]. rewrite K, uyield_nulls in K2.
          symmetry in K2. apply map_eq_nil in K2. exact (tree_nonempty _ _ F K2). }
        destruct o as [k|], o' as [k'|]; [| | |reflexivity].
        - f_equal. destruct (Hk k) as [Sk Gk]; [simpl; auto|]. destruct H1, H1'. apply (IH k x k'); auto. apply Hk'. simpl; auto.
        - exfalso. apply (Z k); auto. apply Hk. simpl; auto.
        - exfalso. apply (Z k'); auto. apply Hk'. simpl; auto. }
      subst opts'. f_equal. apply Pinj. apply (el_once _ _ _ _ HE _ _ re re' Hre Hre'). congruence.
  Qed.

  (** *** the trees of an input *)
  Variable g0 : sym.
  Hypothesis Hg0 : c_num_syms W <= g0 < c_num_syms B.
  Hypothesis Hg0r : exists r, In r (c_rules B) /\ p_lhs r = g0 /\ p_rhs r = [w_sof w; start].
  Hypothesis Hsof : terminal Rc (f (w_sof w)).

  Lemma g0_used : used (c_rules B) g0.
  Proof. destruct Hg0r as (r & Hr & El & _). exists r. auto. Qed.
  Lemma g0_usedE : used (c_rules E) g0.
  Proof. exact (gen_used X U start W B E c0 w m head nulling origin maps f HU HX Hvis g0 Hg0). Qed.
  Lemma g0_root : g0 <> w_root w.
  Proof. pose proof (wrap_new start U' W w HW). intros K. subst g0. lia. Qed.
  Lemma g0_rule : exists b1 r1, nth_error (c_rules B) b1 = Some r1 /\ p_lhs r1 = g0 /\ p_rhs r1 = [w_sof w; start] /\ p_origin r1 = None /\
    m g0 = [w_sof w; start].
  Proof.
    destruct Hg0r as (r1 & Hin & A1 & A2). pose proof Hin as Hb. apply In_nth_error in Hb. destruct Hb as (b & Hb).
    destruct (bz_gen_rule _ _ _ _ HB r1 Hin) as (Eo & _ & Ef); [rewrite A1; apply Hg0|].
    exists b, r1. rewrite A1 in *. repeat (split; [auto|]). rewrite <- Ef, A2. apply (bin_old W B m head HB).
    pose proof (wrap_new start U' W w HW). pose proof (start_range X U start W B E c0 w m head nulling origin maps f HU HX).
    intros x [<-|[<-|[]]]; lia.
  Qed.
  Lemma sof_ok : leaf_ok (w_sof w).
  Proof.
    pose proof (wrap_new start U' W w HW) as (_ & N & _). pose proof (mp_syms _ _ _ HP).
    split; [|split; [lia|split; [|exact Hsof]]].
    - apply (used_root_E X U start W B E c0 w m head nulling origin maps f HU HX Hvis).
    - intros r Hr El. assert (p_lhs r < c_num_syms U) by (apply (ug_range _ _ HU); exists r; auto). rewrite El in *. lia.
  Qed.
  Lemma sof_tree : forall u, user_tree U (w_sof w) u -> exists v, u = ULeaf (w_sof w) v.
  Proof.
    intros u H. inversion H as [s' v Ht|s' Hnull|r id ts Hr Eo HF Hy E1]; subst; [eauto| |].
    - exfalso. inversion Hnull as [|r x Hr Hd E1 E2]; subst. apply (proj1 (proj2 (proj2 sof_ok)) r); auto.
    - exfalso. apply (proj1 (proj2 (proj2 sof_ok)) r); auto.
  Qed.

  Notation fl := (fun e : sym * nat => (f (fst e), snd e)).
  Definition reads (t : tree) (u : utree) : Prop := V t = [ULeaf (w_sof w) 0; u].
  Definition reading (xs : list (sym * nat)) (t : tree) : Prop := parse_tree Rc (f g0) t /\ yield t = (f (w_sof w), 0) :: map fl xs.

  Lemma reading_good : forall xs t, (forall a v, In (a, v) xs -> leaf_ok a) -> reading xs t -> good t.
  Proof.
    intros xs t Hx (_ & Hy) a v Hin. rewrite Hy in Hin. destruct Hin as [K|Hin]; [injection K as <- _; exists (w_sof w); split; [auto|exact sof_ok]|].
    apply in_map_iff in Hin. destruct Hin as ((a' & v') & K & Hin). injection K as <- _. exists a'. split; [auto|]. exact (Hx a' v' Hin).
  Qed.

  Lemma top_sound : forall xs t, (forall a v, In (a, v) xs -> leaf_ok a) -> reading xs t ->
    exists u, reads t u /\ user_tree U start u /\ uyield u = xs.
  Proof.
    intros xs t Hx HR0. pose proof (reading_good xs t Hx HR0) as G. destruct HR0 as [Ht Hy].
    destruct (V_sound (tsize t) t g0 (le_n _) g0_usedE g0_root Ht G) as [HF HY].
    destruct g0_rule as (_ & _ & _ & _ & _ & _ & Em). rewrite Em in HF. inversion HF as [|? u1 ? l1 F1 F2 E0 E1]; subst. inversion F2 as [|? u ? l2 F3 F4]; subst. inversion F4; subst.
    destruct (sof_tree u1 F1) as (v & ->). rewrite <- E1, Hy in HY. cbn in HY. rewrite app_nil_r in HY. injection HY as _ -> HY. exists u. unfold reads. rewrite <- E1.
    split; [|split; [exact F3|]].
    - reflexivity.
    - rewrite HY. rewrite map_map. cbn. rewrite <- (map_id xs) at 2. apply map_ext_in. intros (a & v') Hin. cbn. rewrite invw_f; [auto|apply (Hx a v' Hin)].
  Qed.

  Lemma top_complete : forall xs u, (forall a v, In (a, v) xs -> leaf_ok a) -> user_tree U start u -> uyield u = xs ->
    exists t, reading xs t /\ reads t u.
  Proof.
    intros xs u Hx Hu Hy. destruct g0_rule as (_ & _ & _ & _ & _ & _ & Em).
    destruct (V_complete (sizes [ULeaf (w_sof w) 0; u]) g0 [ULeaf (w_sof w) 0; u] (le_n _) g0_used g0_root) as (t & T1 & T2 & T3).
    - rewrite Em. constructor; [constructor; apply sof_ok|]. constructor; [exact Hu|constructor].
    - intros a v Hin. cbn in Hin. rewrite app_nil_r, Hy in Hin. destruct Hin as [K|Hin]; [injection K as <- _; exact sof_ok|exact (Hx a v Hin)].
    - discriminate.
    - exists t. split; [|exact T2]. split; [exact T1|]. rewrite T3. cbn. now rewrite app_nil_r, Hy.
  Qed.

  Lemma top_injective : forall xs t t' u, (forall a v, In (a, v) xs -> leaf_ok a) -> reading xs t -> reading xs t' -> reads t u -> reads t' u -> t = t'.
  Proof.
    intros xs t t' u Hx R1 R2 E1 E2. apply (V_injective (tsize t) t g0 t' (le_n _) g0_usedE g0_root); try apply R1; try apply R2; try (now apply (reading_good xs)).
    unfold reads in *. congruence.
  Qed.

  Lemma start_root : start <> w_root w.
  Proof. destruct Hg0r as (r & Hr & _ & Er). intros K. apply (noroot r Hr). rewrite Er, K. simpl. auto. Qed.

  Lemma top_below : forall xs t u, (forall a v, In (a, v) xs -> leaf_ok a) -> reading xs t -> reads t u ->
    match t with
    | Node _ [_; t1] => V t1 = [u] /\ used (c_rules E) start /\ parse_tree Rc (f start) t1 /\ good t1
    | _ => u = UNull start
    end.
  Proof.
    intros xs t u Hx Hr Hu. pose proof (reading_good xs t Hx Hr) as G. destruct Hr as [Ht Hy]. unfold reads in Hu.
    destruct t as [a v|d ts].
    { exfalso. inversion Ht; subst. cbn in Hy. injection Hy as Hy _ _. apply feq in Hy; [|exact g0_usedE|apply sof_ok].
      pose proof (wrap_new start U' W w HW). lia. }
    destruct (V_inv g0 d ts g0_usedE Ht) as (b & rB & opts & Hb & El & _ & _ & -> & _ & HF & Hv).
    destruct g0_rule as (b1 & r1 & Hb1 & El1 & Er1 & Eo1 & Em).
    destruct (bz_gen_one _ _ _ _ HB g0 (proj1 Hg0) (proj2 Hg0)) as (b2 & r2 & _ & _ & Huniq).
    assert (b = b1) by (rewrite (Huniq b rB Hb El), (Huniq b1 r1 Hb1 El1); auto). subst b1. rewrite Hb in Hb1. injection Hb1 as <-. clear El El1.
    rewrite Er1 in HF. inversion HF as [|? o1 ? l1 F1 F2]; subst. inversion F2 as [|? o2 ? l2 F3 F4]; subst. inversion F4; subst.
    destruct o1 as [k1|].
    2: { exfalso. refine (terminal_not_nullable B (w_sof w) _ F1).
         exact (proj1 (sof_eof_B X U start W B E c0 w m head nulling origin maps f HU HX)). }
    assert (Ek : V k1 = [ULeaf (w_sof w) 0] /\ exists v, k1 = Leaf (f (w_sof w)) v).
    { destruct F1 as [_ F1]. inversion F1 as [s v Es Ev|d' r' ts' Hd _ El']; subst; [|exfalso; apply (Hsof r'); [eapply nth_error_In; eauto|congruence]].
      cbn in Hy. injection Hy as -> _. split; [|eauto]. cbn. rewrite invw_f by apply sof_ok. reflexivity. }
    destruct Ek as (Ek & v & ->). rewrite Hv, Eo1, Er1 in Hu. unfold parts in Hu. cbn [combine flat_map fst snd red app] in Hu. rewrite Ek in Hu.
    destruct o2 as [k2|]; cbn [somes flat_map app] in *.
    - rewrite app_nil_r in Hu. injection Hu as Hu. destruct F3 as [Us F3]. repeat (split; [assumption|]). apply (good_kid _ _ k2 G). simpl. auto.
    - rewrite (bz_old _ _ _ _ HB start (start_W X U start W B E c0 w m head nulling origin maps f HU HX)) in Hu.
      cbn in Hu. injection Hu as <-. cbn. reflexivity.
  Qed.

  Lemma top_value : forall A (ev : evaluator A) nv xs t u, (forall a v, In (a, v) xs -> leaf_ok a) -> reading xs t -> reads t u ->
    match t with
    | Node _ [_; t1] => (forall s, u <> UNull s) /\ value ev fi (nullsF nv) t1 = [uvalue ev nv f u]
    | _ => u = UNull start
    end.
  Proof.
    intros A ev nv xs t u Hx Hr Hu. pose proof (top_below xs t u Hx Hr Hu) as H. destruct t as [|d [|k1 [|k2 [|]]]]; auto. destruct H as (H1 & Us & F3 & G).
    rewrite (value_V A ev nv (tsize k2) k2 start (le_n _) Us F3), H1. cbn [map].
    split; [|reflexivity]. intros s ->. destruct (V_sound (tsize k2) k2 start (le_n _) Us start_root F3 G) as [_ K].
    rewrite H1 in K. cbn in K. symmetry in K. apply map_eq_nil in K. exact (tree_nonempty _ _ F3 K).
  Qed.

  Lemma top_split_of : forall xs d k t1 u d' k' t1' u', (forall a v, In (a, v) xs -> leaf_ok a) ->
    reading xs (Node d [k; t1]) -> reads (Node d [k; t1]) u -> reading xs (Node d' [k'; t1']) -> reads (Node d' [k'; t1']) u' ->
    root_split t1 = root_split t1' -> top_split u = top_split u'.
  Proof.
    intros xs d k t1 u d' k' t1' u' Hx R1 H1 R2 H2. destruct (top_below _ _ _ Hx R1 H1) as (A1 & Us & A2 & A3). destruct (top_below _ _ _ Hx R2 H2) as (B1 & _ & B2 & B3).
    pose proof (start_W X U start W B E c0 w m head nulling origin maps f HU HX). eapply (V_split start); eauto. exact start_root.
  Qed.

  Lemma top_size : forall xs d k t1 u, (forall a v, In (a, v) xs -> leaf_ok a) -> reading xs (Node d [k; t1]) -> reads (Node d [k; t1]) u ->
    1 + inner_nodes t1 <= usize u.
  Proof.
    intros xs d k t1 u Hx R1 H1. destruct (top_below _ _ _ Hx R1 H1) as (A1 & Us & A2 & A3). pose proof (V_size (tsize t1) t1 start (le_n _) Us start_root A2) as K.
    rewrite A1 in K. cbn in K. lia.
  Qed.
End CrateT.
