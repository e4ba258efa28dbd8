(** LinearTop: the cost of parses of LR(1) grammars. *)
From Coq Require Import List Arith Bool Lia.
From Verif Require Import Base BaseProofs Vec2d Vec2dProofs Item Grammar DefaultGrammar Forest Recognizer Drive Parse Spec Chart ChartFacts
  ChartSpec Tables TablesProofs Sim Core1 Core3 Core4 Core5 Core6 CfgSpec ForestSpec ClientSpec Recog RecogAny RecogFacts ParseFacts PropLemmas
  PropLemmas8 CostSpec Cost CostTop LRSpec LRFacts LinearRun LinearChart.
Import ListNotations.
Local Open Scope res_scope.

(** ** Counting *)
Lemma count_by_codes : forall A B (Cd : A -> B -> Prop) (K : list B) (T : list A), NoDup T ->
  (forall x, In x T -> exists y, In y K /\ Cd x y) -> (forall x x' y, In x T -> In x' T -> Cd x y -> Cd x' y -> x = x') ->
  length T <= length K.
Proof.
  intros A B Cd K T ND Hex Hinj.
  assert (X : forall T', incl T' T -> NoDup T' -> exists ys, length ys = length T' /\ NoDup ys /\ incl ys K /\ forall y, In y ys -> exists x, In x T' /\ Cd x y).
  { induction T' as [|x T' IH]; intros HI HN; [exists []; split; [auto|]; split; [constructor|]; split; [intros ? []|intros ? []]|].
    inversion HN as [|? ? Hni HN']; subst. destruct IH as (ys & L & N & I & H); [intros z Hz; apply HI; simpl; auto|auto|].
    destruct (Hex x) as (y & Hy & Hc); [apply HI; simpl; auto|]. exists (y :: ys). split; [cbn; auto|]. split.
    - constructor; [|auto]. intros Hin. destruct (H y Hin) as (x' & Hx' & Hc'). apply Hni.
      rewrite (Hinj x x' y); auto; apply HI; simpl; auto.
    - split; [intros z [<-|Hz]; auto|]. intros z [<-|Hz]; [exists x; simpl; auto|]. destruct (H z Hz) as (x' & Hx' & Hc'). exists x'. simpl; auto. }
  destruct (X T (fun _ h => h) ND) as (ys & L & N & I & _). rewrite <- L. now apply NoDup_incl_length.
Qed.

Lemma NoDup_map_inv' : forall A B (f : A -> B) l, NoDup (map f l) -> forall x y, In x l -> In y l -> f x = f y -> x = y.
Proof.
  induction l as [|a l IH]; intros H x y Hx Hy E; [destruct Hx|]. cbn in H. inversion H as [|? ? Hn Hd]; subst.
  destruct Hx as [<-|Hx], Hy as [<-|Hy]; auto; exfalso; apply Hn; [rewrite E|rewrite <- E]; now apply in_map.
Qed.

Lemma NoDup_map_fst : forall A B (f : A -> B) l, NoDup (map f l) -> NoDup l.
Proof. intros A B f l H. eapply NoDup_map_inv; eauto. Qed.

Lemma count_linear : forall (C M : nat -> nat -> nat -> Prop) m n (T : list (nat * (nat * nat))), NoDup (map snd T) ->
  (forall x, In x T -> fst x < m /\ fst (snd x) < snd (snd x) /\ snd (snd x) <= n /\ C (fst x) (fst (snd x)) (snd (snd x))) ->
  (forall d i j, M d i j -> d < m) ->
  (forall d i1 i2 j, M d i1 j -> M d i2 j -> i1 = i2) ->
  (forall d i j j', C d i j -> C d i j' -> 2 <= j -> j < j' -> exists d', M d' i j) ->
  length T <= 2 * (S m * S n).
Proof.
  intros C M m n T ND HT Hm Hu HC.
  set (last := fun x : nat * (nat * nat) => forall j', In (fst x, (fst (snd x), j')) T -> j' <= snd (snd x)).
  set (Cd := fun (x : nat * (nat * nat)) (y : bool * (nat * nat)) => match y with
    | (true, (d, p)) => d < m /\ p = snd (snd x) /\ M d (fst (snd x)) p
    | (false, (d, p)) => (d = m /\ snd (snd x) < 2) \/ (d < m /\ d = fst x /\ p = fst (snd x) /\ last x) end).
  assert (EL : length (list_prod [true; false] (list_prod (seq 0 (S m)) (seq 0 (S n)))) = 2 * (S m * S n)).
  { rewrite !prod_length, !seq_length. reflexivity. }
  rewrite <- EL. apply (count_by_codes _ _ Cd).
  - eapply NoDup_map_fst; eauto.
  - intros [d [i j]] Hx. destruct (HT _ Hx) as (H1 & H2 & H3 & H4). cbn [fst snd] in *.
    assert (Hsq : forall b p, In b [true; false] -> p <= n -> forall d', d' <= m -> In (b, (d', p)) (list_prod [true; false] (list_prod (seq 0 (S m)) (seq 0 (S n))))).
    { intros b p Hb Hp d' Hd'. apply in_prod; [auto|]. apply in_prod; apply in_seq; lia. }
    destruct (lt_dec j 2) as [Hj|Hj]; [exists (false, (m, 0)); split; [apply Hsq; simpl; auto; lia|left; auto]|].
    destruct (existsb (fun x => (fst x =? d) && (fst (snd x) =? i) && (j <? snd (snd x))) T) eqn:Ex.
    + apply existsb_exists in Ex. destruct Ex as ([d1 [i1 j1]] & Hin & E1). cbn [fst snd] in E1.
      apply andb_true_iff in E1. destruct E1 as [E1 E3]. apply andb_true_iff in E1. destruct E1 as [E1 E2].
      apply Nat.eqb_eq in E1, E2. apply Nat.ltb_lt in E3. subst d1 i1. destruct (HT _ Hin) as (_ & _ & _ & H5). cbn [fst snd] in H5.
      destruct (HC d i j j1 H4 H5 ltac:(lia) E3) as (d' & Hd'). pose proof (Hm _ _ _ Hd'). exists (true, (d', j)). split; [apply Hsq; simpl; auto; lia|].
      cbn. auto.
    + exists (false, (d, i)). split; [apply Hsq; simpl; auto; lia|]. right. split; [auto|]. split; [auto|]. split; [auto|].
      intros j' Hin. cbn [fst snd] in *. destruct (le_lt_dec j' j); auto. exfalso.
      rewrite (proj2 (existsb_exists _ T)) in Ex; [discriminate|]. exists (d, (i, j')). split; [exact Hin|]. cbn [fst snd].
      rewrite !Nat.eqb_refl. now apply Nat.ltb_lt.
  - intros [d [i j]] [d2 [i2 j2]] [[] [p q]] Hx Hy C1 C2; cbn in C1, C2.
    + destruct C1 as (_ & -> & M1). destruct C2 as (_ & -> & M2). pose proof (Hu _ _ _ _ M1 M2). subst i2.
      apply (NoDup_map_inv' _ _ snd T ND); auto.
    + destruct (HT _ Hx) as (_ & L1 & _). destruct (HT _ Hy) as (_ & L2 & _). cbn [fst snd] in L1, L2.
      destruct C1 as [(Hp1 & C1)|(Hp1 & E1 & E2 & C1)], C2 as [(Hp2 & C2)|(Hp2 & E3 & E4 & C2)]; try (exfalso; lia).
      * apply (NoDup_map_inv' _ _ snd T ND); auto. cbn. f_equal; lia.
      * subst p q. subst d2 i2.
        f_equal. f_equal. unfold last in C1, C2. cbn [fst snd] in C1, C2. specialize (C1 _ Hy). specialize (C2 _ Hx). lia.
Qed.

Lemma count_square : forall n (T : list (nat * (nat * nat))), NoDup (map snd T) ->
  (forall x, In x T -> fst (snd x) < snd (snd x) /\ snd (snd x) <= n) -> length T <= n * n.
Proof.
  intros n T ND HT. rewrite <- (map_length snd). assert (E : length (list_prod (seq 0 n) (seq 1 n)) = n * n) by (rewrite prod_length, !seq_length; reflexivity).
  rewrite <- E. apply NoDup_incl_length; [auto|]. intros [i j] Hx. apply in_map_iff in Hx. destruct Hx as (x & Ex & Hx).
  specialize (HT x Hx). rewrite Ex in HT. cbn in HT. apply in_prod; apply in_seq; lia.
Qed.

(** ** Parses *)
Section Top.
  Variable P : perf.
  Variables (c : pcfg) (nsyms : nat) (w : wrapped_root) (d0 : nat) (g0 : sym).
  Variable g : dgrammar.
  Hypothesis Hleo : LEO P = false.
  Variables (fuel0 : nat) (maps : mapping) (nulling : list prule) (first follow : list (sym * list sym)).
  Hypothesis HP : processed c nsyms w d0 g0.
  Hypothesis Hg : from_processed_grammars fuel0 c maps nulling first follow = Ret g.
  Notation R := (c_rules c).
  Notation nall := (c_num_syms c).
  Hypothesis Horigin : one_origin R nsyms (w_root w).
  Hypothesis Hprod : productive R.

  (** a location with at most one token, a terminal *)
  Definition plain_token (loc : location) : Prop :=
    length (l_toks loc) <= 1 /\ (forall t v, In (t, v) (l_toks loc) -> t < nall /\ terminal R t) /\
    match l_hint loc with None => True | Some t => t < nsyms end.

  Lemma plain_one : forall locs, (forall loc, In loc locs -> plain_token loc) -> forall j, length (eW (env_of locs none) j) <= 1.
  Proof. intros locs H j. cbn. destruct (nth_error locs j) eqn:E; [|cbn; lia]. apply nth_error_In in E. apply (H _ E). Qed.

  Lemma plain_term : forall locs, (forall loc, In loc locs -> plain_token loc) -> forall j y, In y (eW (env_of locs none) j) -> terminal R (fst y).
  Proof.
    intros locs H j [t v] Hy. cbn in Hy. destruct (nth_error locs j) eqn:E; [|destruct Hy]. apply nth_error_In in E.
    destruct (H _ E) as (_ & X & _). exact (proj2 (X _ _ Hy)).
  Qed.

  Lemma origin_unique : forall locs, (forall loc, In loc locs -> plain_token loc) -> forall d i1 i2 j t1 t2,
    eMed P R nsyms (first_of first) (follow_of follow) (w_root w) (env_of locs none) d i1 j t1 ->
    eMed P R nsyms (first_of first) (follow_of follow) (w_root w) (env_of locs none) d i2 j t2 -> i1 = i2.
  Proof.
    intros locs H. exact (med_unique R nsyms nall (w_root w) _ _ _ _ _ _ _ (pr_wf _ _ _ _ _ HP) Horigin Hprod (plain_one locs H) (plain_term locs H) (fun _ _ h => h)).
  Qed.

  Lemma run_chosen : forall rank, (forall r B, In r R -> p_rhs r = [B] -> rank (p_lhs r) < rank B) ->
    forall F N (fo : forest_ops F N) ok f0, usable fo ok -> ok Idle f0 -> forall locs, (forall loc, In loc locs -> plain_token loc) ->
    forall fuel b st, (st <- r_new g (f0, 0) ;; feed_all (counted fo) P g fuel locs st) = Ret (b, st) ->
    exists T, NoDup (map snd T) /\ (forall x, In x T -> chosen P c nsyms w first follow locs (length locs) x) /\
      snd (r_forest st) <= per_location c rank * length locs + per_place c rank * length T /\
      v_item_count (r_medial st) <= S (length locs) * most c rank.
  Proof.
    intros rank Hrank F N fo ok f0 HU Hf0 locs Hl fuel b st H. inv H. rename a into s0.
    destruct (new_fresh P c nsyms w d0 g0 fuel0 maps nulling first follow g HP Hg) as (st1 & E1 & Hf & _).
    pose proof (counted_usable _ _ _ _ HU) as HU'. set (ok' := fun ph (f : F * nat) => ok ph (fst f)) in *.
    assert (Hm : mate ok' st1 s0).
    { pose proof (sim_new (F1 := list (nat * fnode)) (N1 := fnode) (N2 := N)
        (fun ph f1 f2 => (ph = Summing true -> f1 <> []) /\ ok' ph f2) (fun _ _ _ _ => True) g [] (f0, 0)) as HX.
      rewrite E1 in HX. destruct HX as (s0' & E0 & HX); [split; [discriminate|exact Hf0]|]. rewrite E in E0. injection E0 as <-. exact HX. }
    destruct (r_new_between g R rank 1 (f0, 0) s0 E) as [HB0 Hc0].
    assert (Hlok : locs_ok nsyms nall locs).
    { intros l Hin. destruct (Hl l Hin) as (_ & A & B). split; [|intros s v Hs; exact (proj1 (A s v Hs))].
      destruct (l_hint l); exact B. }
    destruct (run_reached fo ok' HU' P c nsyms w d0 g0 g Hleo fuel0 maps nulling first follow HP Hg rank Hrank locs Hlok
      (fun loc Hin => proj1 (Hl loc Hin)) (origin_unique locs Hl) st1 s0 Hf Hm HB0 Hc0 fuel locs [] (eq_sym (app_nil_r _)) b st H)
      as (T & A1 & A2 & A3 & A4 & _).
    exists T. auto.
  Qed.

  Lemma chosen_bounds : forall locs n x, chosen P c nsyms w first follow locs n x -> fst x < length R /\ fst (snd x) < snd (snd x) /\ snd (snd x) <= n.
  Proof.
    intros locs n x (H1 & ts & H2). split.
    - apply Comp_rule in H2. destruct H2 as (r & Hr). apply nth_error_Some. congruence.
    - split; [|auto]. eapply Comp_lt; eauto.
  Qed.

  Lemma square_cost : exists k, forall F N (fo : forest_ops F N) ok f0, usable fo ok -> ok Idle f0 ->
    forall locs, (forall loc, In loc locs -> plain_token loc) ->
    forall fuel b st, (st <- r_new g (f0, 0) ;; feed_all (counted fo) P g fuel locs st) = Ret (b, st) ->
    snd (r_forest st) <= k * length locs ^ 2 /\ v_item_count (r_medial st) <= k * S (length locs).
  Proof.
    destruct (pr_acyclic _ _ _ _ _ HP) as (rank & Hrank). exists (per_location c rank + per_place c rank + most c rank).
    intros F N fo ok f0 HU Hf0 locs Hl fuel b st H.
    destruct (run_chosen rank Hrank F N fo ok f0 HU Hf0 locs Hl fuel b st H) as (T & A1 & A2 & A3 & A4).
    pose proof (count_square (length locs) T A1 (fun x Hx => proj2 (chosen_bounds _ _ _ (A2 x Hx)))) as HT.
    assert (Hsq : length locs <= length locs * length locs) by (destruct (length locs); lia).
    cbn [Nat.pow]. rewrite Nat.mul_1_r. generalize dependent (length locs). generalize (per_location c rank), (per_place c rank), (most c rank). intros. nia.
  Qed.

  Hypothesis Hrec : goes_on R nsyms (w_root w).
  Hypothesis HFI : first_sets_cover c first.
  Hypothesis HFO : follow_sets_cover c (w_root w) follow.
  Hypothesis HFS : follow_sets_sound c (w_root w) follow.
  Hypothesis Hla : LOOKAHEAD P = true.
  Hypothesis Hgen : forall s, nsyms <= s -> s < nall -> exists r C, In r R /\ p_rhs r = [s; C].

  Lemma in_sets_inv : forall sets A t, in_sets sets A t = true -> exists l, In (A, l) sets /\ In t l.
  Proof.
    intros sets A t H. unfold in_sets in H. apply existsb_exists in H. destruct H as ([A' l] & Hin & H). cbn in H.
    apply andb_true_iff in H. destruct H as [H1 H2]. apply Nat.eqb_eq in H1. subst A'. apply existsb_exists in H2.
    destruct H2 as (t' & Ht & E). apply Nat.eqb_eq in E. subst t'. eauto.
  Qed.

  Lemma linear_cost : exists k, forall F N (fo : forest_ops F N) ok f0, usable fo ok -> ok Idle f0 ->
    forall use xs, (forall j, 0 < j -> use j = true) -> (forall s v, In (s, v) xs -> s < nsyms /\ terminal R s) ->
    forall fuel b st, (st <- r_new g (f0, 0) ;; feed_all (counted fo) P g fuel (hinted use 0 xs) st) = Ret (b, st) ->
    snd (r_forest st) <= k * S (length xs) /\ v_item_count (r_medial st) <= k * S (length xs).
  Proof.
    destruct (pr_acyclic _ _ _ _ _ HP) as (rank & Hrank).
    exists (per_location c rank + per_place c rank * (2 * S (length R)) + most c rank).
    intros F N fo ok f0 HU Hf0 use xs Huse Hxs fuel b st H. set (locs := hinted use 0 xs) in *.
    assert (Ell : length locs = length xs) by apply hinted_length.
    assert (Hl : forall loc, In loc locs -> plain_token loc).
    { intros loc Hin. apply In_nth_error in Hin. destruct Hin as (k & Hk). unfold locs in Hk. rewrite hinted_nth in Hk.
      pose proof (pr_le _ _ _ _ _ HP) as Hle. unfold sym in *. destruct (nth_error xs k) as [x|] eqn:Ex; [|discriminate]. injection Hk as <-.
      split; [cbn; auto|]. split.
      - cbn. intros t v [->|[]]. apply nth_error_In in Ex. destruct (Hxs _ _ Ex). split; [unfold sym in *; lia|auto].
      - cbn [l_hint]. change (match xs with [] => None | _ :: l => nth_error l k end) with (nth_error xs (S k)).
        destruct (use k); [|exact I]. destruct (nth_error xs (S k)) as [[s v]|] eqn:E; [|exact I]. cbn.
        apply nth_error_In in E. apply (Hxs _ _ E). }
    destruct (run_chosen rank Hrank F N fo ok f0 HU Hf0 locs Hl fuel b st H) as (T & A1 & A2 & A3 & A4).
    assert (HT : length T <= 2 * (S (length R) * S (length locs))).
    { apply (count_linear (fun d i j => exists ts, eComp P R nsyms (first_of first) (follow_of follow) (w_root w) (env_of locs none) d i j ts)
        (fun d i j => exists t, eMed P R nsyms (first_of first) (follow_of follow) (w_root w) (env_of locs none) d i j t)); auto.
      - intros x Hx. destruct (chosen_bounds _ _ _ (A2 x Hx)) as (B1 & B2 & B3). destruct (A2 x Hx) as [_ B4]. auto.
      - intros d i j (t & Ht). apply Med_rule in Ht. destruct Ht as (r & _ & _ & Hr & _). apply nth_error_Some. congruence.
      - intros d i1 i2 j (t1 & T1) (t2 & T2). eapply origin_unique; eauto.
      - intros d i j j' (ts & C1) (ts' & C2) Hj Hlt.
        assert (H1 : forall A t, follow_of follow A t = true -> exists u v, derives R (w_root w) (u ++ A :: t :: v)).
        { intros A t HF. apply in_sets_inv in HF. destruct HF as (l & Q1 & Q2). eapply HFS; eauto. }
        assert (H2 : negb (LOOKAHEAD P) = false) by now rewrite Hla.
        assert (H3 : forall j0 s, ekeep (env_of locs none) j0 s = true) by (intros j0 s; apply hinted_keep).
        assert (H4 : forall j0 t, ehint (env_of locs none) j0 = Some t -> t < nsyms /\ terminal R t).
        { intros j0 t Ht. apply hinted_hint in Ht. destruct Ht as (v & Hv). apply nth_error_In in Hv. eauto. }
        assert (H5 : forall j0 y, In y (eW (env_of locs none) j0) -> ehint (env_of locs none) j0 = Some (fst y) \/ (ehint (env_of locs none) j0 = None /\ j0 < 2)).
        { intros j0 y Hy. cbn in Hy. unfold locs in Hy. rewrite hinted_nth in Hy. unfold sym in *. destruct (nth_error xs j0) as [x|] eqn:Ex; [|destruct Hy].
          cbn in Hy. destruct Hy as [->|[]]. destruct j0 as [|j0]; [right; auto|]. cbn [ehint env_of]. unfold locs. rewrite hinted_nth.
          assert (Hlj : j0 < length xs) by (assert (S j0 < length xs) by (apply nth_error_Some; congruence); lia).
          apply nth_error_Some in Hlj. unfold sym in *. destruct (nth_error xs j0) as [x0|] eqn:Ex0; [|congruence].
          cbn [l_hint]. destruct (use (0 + j0)) eqn:Eu.
          - left. rewrite Ex. destruct y. reflexivity.
          - right. split; [auto|]. destruct j0 as [|j0]; [auto|]. rewrite Huse in Eu; [discriminate|cbn; lia]. }
        destruct (comp_continues R nsyms nall (w_root w) (eW (env_of locs none)) (ehint (env_of locs none)) (first_of first) (follow_of follow) (LOOKAHEAD P)
          (ekeep (env_of locs none)) (eseed (env_of locs none)) (pr_wf _ _ _ _ _ HP) Hprod (plain_one locs Hl) (plain_term locs Hl) (fun _ _ h => h)
          Hrec (FI_complete c nsyms first HFI) (FO_complete c nsyms w follow HFO) H1 H2 H3 H4 H5 Hgen d i j j' ts ts' C1 C2 Hj Hlt) as (d' & t & M).
        exists d', t. exact M. }
    rewrite Ell in *. split.
    - pose proof (Nat.mul_le_mono_l _ _ (per_place c rank) HT).
      generalize dependent (length xs). generalize (per_location c rank), (per_place c rank), (most c rank). intros. nia.
    - generalize dependent (length xs). generalize (per_location c rank), (per_place c rank), (most c rank). intros. nia.
  Qed.
End Top.
