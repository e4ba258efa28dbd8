(** CrateProcessed: what comes out of the cfg crate is a processed grammar. *)
From Coq Require Import List Arith Bool Lia Permutation Relations.
From Verif Require Import Base BaseProofs Grammar BitMatrix DefaultGrammar Spec SpecFacts Chart CfgSpec TablesProofs TablesTotal
  RemapFacts FromGrammar CrateSpec UserSpec CrateFacts GensymFacts.
Import ListNotations.
Local Open Scope res_scope.

(** ** A finite relation without cycles can be ranked *)
Section Rank.
  Variables (R : list prule) (n : nat).
  Hypothesis Hrange : forall s, used R s -> s < n.

  Definition unary_step (a b : sym) : Prop := exists r, In r R /\ p_lhs r = a /\ p_rhs r = [b].
  Hypothesis Hacyclic : forall s, ~ clos_trans sym unary_step s s.

  Definition unary_to (a b : sym) (r : prule) : bool :=
    (p_lhs r =? a) && match p_rhs r with [x] => x =? b | _ => false end.
  Definition step_matrix : bitmatrix := map (fun a => map (fun b => existsb (unary_to a b) R) (seq 0 n)) (seq 0 n).

  Lemma step_square : square n step_matrix.
  Proof.
    split; [unfold step_matrix; now rewrite map_length, seq_length|]. intros row H. apply in_map_iff in H.
    destruct H as (a & <- & _). now rewrite map_length, seq_length.
  Qed.

  Lemma nth_map_seq : forall A (g : nat -> A) k d i, i < k -> nth i (map g (seq 0 k)) d = g i.
  Proof.
    intros A g k d i H. rewrite nth_indep with (d' := g 0) by (now rewrite map_length, seq_length).
    rewrite map_nth. rewrite seq_nth by auto. reflexivity.
  Qed.

  Lemma step_bit : forall a b, bit step_matrix a b = true <-> unary_step a b.
  Proof.
    intros a b. split.
    - intros H. destruct (bit_range n _ a b step_square H) as [La Lb]. unfold bit, step_matrix in H.
      rewrite nth_map_seq in H by auto. rewrite nth_map_seq in H by auto. apply existsb_exists in H. destruct H as (r & Hr & H).
      unfold unary_to in H. apply andb_true_iff in H. destruct H as [H1 H2]. apply Nat.eqb_eq in H1.
      destruct (p_rhs r) as [|x [|]] eqn:Er; try discriminate. apply Nat.eqb_eq in H2. subst x. exists r. auto.
    - intros (r & Hr & El & Er). assert (La : a < n) by (apply Hrange; exists r; auto).
      assert (Lb : b < n) by (apply Hrange; exists r; rewrite Er; simpl; auto).
      unfold bit, step_matrix. rewrite !nth_map_seq by auto. apply existsb_exists. exists r. split; [auto|].
      unfold unary_to. rewrite El, Er, !Nat.eqb_refl. reflexivity.
  Qed.

  Lemma filter_less : forall (p q : nat -> bool) l, (forall x, In x l -> p x = true -> q x = true) ->
    length (filter p l) <= length (filter q l).
  Proof.
    intros p q. induction l as [|a l IH]; intros H; [auto|]. cbn [filter]. specialize (IH (fun x Hx => H x (or_intror Hx))).
    destruct (p a) eqn:Ep; [rewrite (H a (or_introl eq_refl) Ep); cbn; lia|]. destruct (q a); cbn; lia.
  Qed.
  Lemma filter_less_strict : forall (p q : nat -> bool) l y, (forall x, In x l -> p x = true -> q x = true) ->
    In y l -> p y = false -> q y = true -> length (filter p l) < length (filter q l).
  Proof.
    intros p q. induction l as [|a l IH]; intros y H Hy Py Qy; [destruct Hy|]. cbn [filter].
    assert (H' : forall x, In x l -> p x = true -> q x = true) by (intros; apply H; simpl; auto). destruct Hy as [->|Hy].
    - rewrite Py, Qy. cbn. pose proof (filter_less p q l H'). lia.
    - specialize (IH y H' Hy Py Qy). destruct (p a) eqn:Ep; [rewrite (H a (or_introl eq_refl) Ep); cbn; lia|]. destruct (q a); cbn; lia.
  Qed.

  Lemma acyclic_ranked : unary_acyclic R.
  Proof.
    pose proof (transitive_closure_spec n step_matrix step_square) as [Hsq Htc].
    exists (fun s => length (filter (fun a => bit (transitive_closure step_matrix) a s) (seq 0 n))).
    intros r B Hr Er. assert (St : unary_step (p_lhs r) B) by (exists r; auto).
    assert (Lr : p_lhs r < n) by (apply Hrange; exists r; auto).
    assert (Eq : forall a b, bit (transitive_closure step_matrix) a b = true <-> clos_trans sym unary_step a b).
    { intros a b. rewrite Htc. apply (clos_trans_equiv (fun i j => bit step_matrix i j = true) unary_step). intros. apply step_bit. }
    apply (filter_less_strict _ _ _ (p_lhs r)).
    - intros x _ Hx. apply Eq. apply Eq in Hx. eapply t_trans; [exact Hx|]. now apply t_step.
    - apply in_seq. lia.
    - destruct (bit (transitive_closure step_matrix) (p_lhs r) (p_lhs r)) eqn:E; [|auto]. apply Eq in E. now apply Hacyclic in E.
    - apply Eq. now apply t_step.
  Qed.
End Rank.

(** ** Kinds separated by a numbering *)
Lemma split_count : forall (p : nat -> bool) n, (forall a b, a < n -> b < n -> p a = false -> p b = true -> a < b) ->
  forall t, t < n -> (p t = true <-> n - length (filter p (seq 0 n)) <= t).
Proof.
  intros p n Hs. assert (Mono : forall a b, a <= b -> b < n -> p a = true -> p b = true).
  { intros a b Hab Hb Ha. destruct (p b) eqn:E; [auto|]. destruct (Nat.eq_dec a b) as [->|N]; [congruence|].
    pose proof (Hs b a ltac:(lia) ltac:(lia) E Ha). lia. }
  assert (G : forall k, k <= n -> (forall a, a < k -> p a = false) \/ exists f, f < k /\ p f = true /\ forall a, a < f -> p a = false).
  { induction k as [|k IH]; intros Hk; [left; lia|]. destruct (IH ltac:(lia)) as [A|(f & A & B & C)].
    - destruct (p k) eqn:E; [right; exists k; auto|]. left. intros a Ha. destruct (Nat.eq_dec a k) as [->|N]; [auto|]. apply A; lia.
    - right. exists f. split; [lia|auto]. }
  assert (F0 : forall l, (forall a, In a l -> p a = false) -> filter p l = []).
  { induction l as [|a l IH]; intros H; [auto|]. cbn. rewrite (H a (or_introl eq_refl)). apply IH. intros; apply H; simpl; auto. }
  assert (F1 : forall l, (forall a, In a l -> p a = true) -> filter p l = l).
  { induction l as [|a l IH]; intros H; [auto|]. cbn. rewrite (H a (or_introl eq_refl)). f_equal. apply IH. intros; apply H; simpl; auto. }
  destruct (G n (le_n _)) as [A|(f & A & B & C)]; intros t Ht.
  - rewrite F0 by (intros a Ha; apply in_seq in Ha; apply A; lia). cbn. rewrite A by auto. split; [discriminate|lia].
  - replace n with (f + (n - f)) at 1 2 by lia. rewrite seq_app, filter_app, app_length.
    rewrite F0 by (intros a Ha; apply in_seq in Ha; apply C; lia).
    rewrite F1 by (intros a Ha; apply in_seq in Ha; apply (Mono f); auto; lia). rewrite seq_length. cbn [length].
    split.
    + intros Hp. destruct (Nat.lt_ge_cases t f) as [L|L]; [rewrite C in Hp by auto; discriminate|lia].
    + intros Hp. apply (Mono f); auto. lia.
Qed.

(** a symbol that stands in no right-hand side derives only itself *)
Lemma top_not_derived : forall R t, (forall r, In r R -> ~ In t (p_rhs r)) ->
  (forall s x, derives R s x -> In t x -> s = t) /\ (forall a x, derives_seq R a x -> In t x -> In t a).
Proof.
  intros R t H. apply derives_both.
  - intros s [->|[]]. auto.
  - intros r x Hr _ IH Ht. exfalso. exact (H r Hr (IH Ht)).
  - intros [].
  - intros s ss x y _ IH1 _ IH2 Ht. apply in_app_iff in Ht. destruct Ht as [Ht|Ht]; [left; auto|right; auto].
Qed.

(** ** From the user's grammar *)
Section Crate.
  Variables (X : cfg_crate) (U : pcfg) (start : sym) (W B E c0 : pcfg) (w : wrapped_root) (m : sym -> list sym) (head : nat -> nat)
    (nulling : list prule) (origin : nat -> nat * list bool) (maps : mapping) (f : sym -> sym).
  Hypothesis HU : user_grammar U start.
  Hypothesis HX : elaborates X U start W B E c0 w m head nulling origin maps f.

  Notation U' := (x_make_proper X U).
  Definition HP : made_proper start U U' := eb_proper _ _ _ _ _ _ _ _ _ _ _ _ _ _ HX.
  Definition HW : wrapped start U' W w := proj2 (eb_wrap _ _ _ _ _ _ _ _ _ _ _ _ _ _ HX).
  Definition HB : binarized W B m head := eb_binarize _ _ _ _ _ _ _ _ _ _ _ _ _ _ HX.
  Definition HE : eliminated B E nulling origin := proj2 (eb_eliminate _ _ _ _ _ _ _ _ _ _ _ _ _ _ HX).

  Lemma U'_range : forall s, used (c_rules U') s -> s < c_num_syms U'.
  Proof.
    intros s (r & Hr & Hs). rewrite (mp_syms _ _ _ HP). apply (ug_range _ _ HU). exists r. split; [|auto].
    exact (proper_sub start U U' HP r Hr).
  Qed.
  Lemma start_range : start < c_num_syms U'.
  Proof. rewrite (mp_syms _ _ _ HP). apply (ug_start _ _ HU). Qed.
  Lemma W_range : forall s, used (c_rules W) s -> s < c_num_syms W.
  Proof. exact (wrap_range start U' W w HW U'_range start_range). Qed.
  Lemma U_W : c_num_syms U < c_num_syms W.
  Proof. pose proof (wrap_new start U' W w HW). rewrite <- (mp_syms _ _ _ HP). lia. Qed.

  Lemma start_W : start < c_num_syms W.
  Proof. pose proof U_W. pose proof (ug_start _ _ HU). lia. Qed.
  Lemma wrap_fields : w_root w < c_num_syms W /\ w_sof w < c_num_syms W /\ w_eof w < c_num_syms W.
  Proof. pose proof (wrap_new start U' W w HW). lia. Qed.

  (** *** the wrapper after binarisation *)
  Lemma root_B : exists b r g0 b1 r1, nth_error (c_rules B) b = Some r /\ p_lhs r = w_root w /\ p_origin r = None /\ p_rhs r = [g0; w_eof w] /\
    c_num_syms W <= g0 < c_num_syms B /\ m g0 = [w_sof w; start] /\
    nth_error (c_rules B) b1 = Some r1 /\ p_lhs r1 = g0 /\ p_origin r1 = None /\ p_rhs r1 = [w_sof w; start] /\
    (forall b' r', nth_error (c_rules B) b' = Some r' -> p_lhs r' = w_root w -> b' = b) /\
    (forall b' r', nth_error (c_rules B) b' = Some r' -> p_lhs r' = g0 -> b' = b1).
  Proof.
    destruct (wrap_root_rule start U' W w HW U'_range start_range) as (d & r & Hd & El & Er & Eo & Hu).
    destruct (bz_head _ _ _ _ HB d r Hd) as (r' & Hb & El' & Eo' & Ef). rewrite Er in Ef.
    assert (Hr' : In r' (c_rules B)) by (eapply nth_error_In; eauto).
    pose proof (bz_length _ _ _ _ HB r' Hr') as Hlen.
    assert (Rng : forall s, In s (p_rhs r') -> s < c_num_syms B) by (intros s Hs; apply (bz_range _ _ _ _ HB); exists r'; auto).
    destruct (p_rhs r') as [|a [|y [|]]] eqn:Er'; [discriminate|exfalso| |cbn in Hlen; lia].
    { cbn [flat_map] in Ef. rewrite app_nil_r in Ef.
      destruct (Nat.lt_ge_cases a (c_num_syms W)) as [L|L]; [rewrite (bz_old _ _ _ _ HB a L) in Ef; discriminate|].
      destruct (bz_gen_use _ _ _ _ HB a L) as (b & q & y & Hq & Eq & Hq'); [apply Rng; simpl; auto|].
      assert (head d = b) by (apply (Hq' _ _ Hb); rewrite Er'; simpl; auto). subst b. rewrite Hb in Hq. injection Hq as <-. congruence. }
    assert (Hy : y < c_num_syms W) by (apply (bz_second _ _ _ _ HB r'); [auto|now rewrite Er']).
    cbn [flat_map] in Ef. rewrite app_nil_r, (bz_old _ _ _ _ HB y Hy) in Ef.
    assert (Em : m a = [w_sof w; start] /\ y = w_eof w).
    { change [w_sof w; start; w_eof w] with ([w_sof w; start] ++ [w_eof w]) in Ef. apply app_inj_tail in Ef. exact Ef. }
    destruct Em as [Em ->].
    assert (La : c_num_syms W <= a). { destruct (Nat.lt_ge_cases a (c_num_syms W)) as [L|L]; [rewrite (bz_old _ _ _ _ HB a L) in Em; discriminate|auto]. }
    assert (La' : a < c_num_syms B) by (apply Rng; simpl; auto).
    destruct (bz_gen_one _ _ _ _ HB a La La') as (b1 & r1 & Hb1 & El1 & Hu1).
    assert (Hr1 : In r1 (c_rules B)) by (eapply nth_error_In; eauto).
    destruct (bz_gen_rule _ _ _ _ HB r1 Hr1) as (Eo1 & L1 & Ef1); [lia|]. rewrite El1, Em in Ef1.
    assert (Rng1 : forall s, In s (p_rhs r1) -> s < c_num_syms B) by (intros s Hs; apply (bz_range _ _ _ _ HB); exists r1; auto).
    destruct (p_rhs r1) as [|a1 [|y1 [|]]] eqn:Er1; try discriminate L1.
    assert (Hy1 : y1 < c_num_syms W) by (apply (bz_second _ _ _ _ HB r1); [auto|now rewrite Er1]).
    cbn [flat_map] in Ef1. rewrite app_nil_r, (bz_old _ _ _ _ HB y1 Hy1) in Ef1.
    change [w_sof w; start] with ([w_sof w] ++ [start]) in Ef1. apply app_inj_tail in Ef1. destruct Ef1 as [Em1 ->].
    assert (a1 = w_sof w). { destruct (Nat.lt_ge_cases a1 (c_num_syms W)) as [L|L].
      - rewrite (bz_old _ _ _ _ HB a1 L) in Em1. congruence.
      - pose proof (bz_new _ _ _ _ HB a1 L) as K. rewrite Em1 in K. cbn in K. lia. }
    subst a1. exists (head d), r', a, b1, r1. split; [auto|]. split; [congruence|]. split; [congruence|]. split; [auto|]. split; [lia|].
    repeat (split; [solve [auto]|]). split; [|exact Hu1].
    intros b' q Hb' Elq. destruct (bz_head_only _ _ _ _ HB b' q Hb') as (d' & Hd' & <-); [pose proof wrap_fields; lia|].
    destruct (nth_error (c_rules W) d') as [r2|] eqn:E2; [|apply nth_error_None in E2; lia].
    f_equal. apply (Hu d' r2 E2). destruct (bz_head _ _ _ _ HB d' r2 E2) as (q' & Hq' & E3 & _). congruence.
  Qed.

  (** *** nullable and visible symbols *)
  Lemma reached_used : forall s, used (c_rules U') s -> reached start U s.
  Proof.
    intros s (r & Hr & Hs). apply (mp_rules _ _ _ HP) in Hr. destruct Hr as [Hr [(u & v & Hd) _]].
    destruct Hs as [<-|Hs]; [exists u, v; auto|]. apply in_split in Hs. destruct Hs as (l1 & l2 & Er).
    exists (u ++ l1), (l2 ++ v). assert (D : derives (c_rules U) (p_lhs r) (l1 ++ s :: l2)).
    { apply derives_rule; [auto|]. rewrite Er. apply derives_seq_self. }
    pose proof (derives_replace _ _ _ _ _ _ Hd D) as K. rewrite <- !app_assoc in K. rewrite <- app_assoc. exact K.
  Qed.

  Lemma seq_of_productive : forall l, (forall s, In s l -> productive_sym (c_rules U) s) ->
    exists x, Forall (terminal (c_rules U)) x /\ derives_seq (c_rules U) l x.
  Proof.
    induction l as [|s l IH]; intros H; [exists []; split; constructor|].
    destruct (H s (or_introl eq_refl)) as (x1 & A & B'). destruct IH as (x2 & C & D); [intros; apply H; simpl; auto|].
    exists (x1 ++ x2). split; [apply Forall_app; auto|now constructor].
  Qed.
  Lemma productive_used : forall s, used (c_rules U') s -> productive_sym (c_rules U) s.
  Proof.
    intros s (r & Hr & Hs). apply (mp_rules _ _ _ HP) in Hr. destruct Hr as [Hr [_ Hp]].
    destruct Hs as [<-|Hs]; [|auto]. destruct (seq_of_productive (p_rhs r) Hp) as (x & A & C). exists x. split; [auto|now apply derives_rule].
  Qed.

  (** a user's string of terminals can be read in the wrapped, binarised grammar *)
  Lemma U_terminal_B : forall x s, derives (c_rules U') s x -> s < c_num_syms U -> Forall (terminal (c_rules U)) x -> Forall (terminal (c_rules B)) x.
  Proof.
    intros x s Hd Hs Hx. apply Forall_forall. intros t Ht. rewrite Forall_forall in Hx. specialize (Hx t Ht).
    assert (Lt : t < c_num_syms U). { destruct (proj1 (derives_used _) _ _ Hd t Ht) as [->|K]; [auto|].
      rewrite <- (mp_syms _ _ _ HP). now apply U'_range. }
    pose proof U_W. apply (bin_terminal W B m head HB); [lia|].
    apply (wrap_terminal start U' W w HW start_range); [|rewrite (mp_syms _ _ _ HP); auto].
    intros r Hr. apply Hx. exact (proper_sub start U U' HP r Hr).
  Qed.
  Lemma U'_to_B : forall s x, derives (c_rules U') s x -> derives (c_rules B) s x.
  Proof. intros s x H. apply (bin_complete W B m head HB). exact (wrap_complete start U' W w HW s x H). Qed.

  Lemma B_to_U : forall s x, s < c_num_syms U -> (forall t, In t x -> t < c_num_syms W) -> derives (c_rules B) s x -> derives (c_rules U) s x.
  Proof.
    intros s x Hs Hx H. pose proof U_W. apply (bin_language W B m head HB) in H; [|lia|auto].
    apply (wrap_sound start U' W w HW U'_range start_range) in H; [exact (proper_sound start U U' HP s x H)|].
    pose proof (wrap_new start U' W w HW). rewrite (mp_syms _ _ _ HP) in *. lia.
  Qed.

  Lemma sof_eof_B : terminal (c_rules B) (w_sof w) /\ terminal (c_rules B) (w_eof w).
  Proof.
    pose proof wrap_fields as (A & A' & A''). destruct (wrap_sof_eof start U' W w HW U'_range start_range) as [H1 H2].
    split; apply (bin_terminal W B m head HB); auto.
  Qed.

  Lemma start_visible_or : (exists x, Forall (terminal (c_rules B)) x /\ derives (c_rules B) start x).
  Proof.
    assert (D : (exists r, In r (c_rules U') /\ p_lhs r = start) \/ terminal (c_rules U') start).
    { destruct (existsb (fun r => p_lhs r =? start) (c_rules U')) eqn:Ex.
      - apply existsb_exists in Ex. destruct Ex as (r & Hr & Hl). apply Nat.eqb_eq in Hl. left. eauto.
      - right. intros r Hr El. rewrite <- not_true_iff_false in Ex. apply Ex. apply existsb_exists. exists r. split; [auto|now apply Nat.eqb_eq]. }
    destruct D as [(r & Hr & El)|Ht].
    - destruct (productive_used start) as (x & Hx & Hd); [exists r; auto|]. exists x.
      assert (Hd' : derives (c_rules U') start x) by (apply (proper_language start U U' HP); auto).
      split; [eapply U_terminal_B; eauto; apply (ug_start _ _ HU)|now apply U'_to_B].
    - exists [start]. split; [|constructor]. constructor; [|constructor]. apply (bin_terminal W B m head HB); [apply start_W|].
      apply (wrap_terminal start U' W w HW start_range); [auto|apply start_range].
  Qed.

  (** *** the rules of the wrapper after elimination *)
  Lemma not_nullable_first : forall l x t, terminal (c_rules B) t -> derives_seq (c_rules B) (t :: l) x -> x <> [].
  Proof.
    intros l x t Ht H. inversion H as [|? ? w1 w2 H1 H2]; subst. apply (terminal_derives _ _ _ Ht) in H1. subst w1. discriminate.
  Qed.
  Lemma terminal_not_nullable : forall t, terminal (c_rules B) t -> ~ nullable (c_rules B) t.
  Proof. intros t Ht H. apply (terminal_derives _ _ _ Ht) in H. discriminate. Qed.

  Lemma mask_two : forall mask (a b : sym), length mask = 2 -> left_over mask [a; b] <> [] ->
    mask = [true; true] \/ mask = [true; false] \/ mask = [false; true].
  Proof. intros mask u v Hl Hn. destruct mask as [|[] [|[] [|]]]; try discriminate; auto. now contradiction Hn. Qed.

  Lemma mask_eq : forall (b b' : nat) (mk mk' : list bool), (b, mk) = (b', mk') -> b = b' /\ mk = mk'.
  Proof. intros. injection H as -> ->. auto. Qed.

  Lemma root_E : exists d g0, (exists r, nth_error (c_rules E) d = Some r /\ p_lhs r = w_root w /\ p_rhs r = [g0; w_eof w]) /\
    (forall d' r', nth_error (c_rules E) d' = Some r' -> p_lhs r' = w_root w -> d' = d) /\
    c_num_syms W <= g0 < c_num_syms B /\
    (forall r, In r (c_rules E) -> p_lhs r = g0 -> p_rhs r = [w_sof w; start] \/ (p_rhs r = [w_sof w] /\ nullable (c_rules B) start)) /\
    (nullable (c_rules B) start -> exists r, In r (c_rules E) /\ p_lhs r = g0 /\ p_rhs r = [w_sof w]) /\
    (visible (c_rules B) start -> exists r, In r (c_rules E) /\ p_lhs r = g0 /\ p_rhs r = [w_sof w; start]) /\
    (exists r, In r (c_rules B) /\ p_lhs r = g0 /\ p_rhs r = [w_sof w; start]).
  Proof.
    destruct root_B as (b & r & g0 & b1 & r1 & Hb & El & Eo & Er & Hg & Em & Hb1 & El1 & Eo1 & Er1 & Hu & Hu1).
    destruct sof_eof_B as [Ts Te].
    assert (Nsof : ~ nullable (c_rules B) (w_sof w)) by now apply terminal_not_nullable.
    assert (Neof : ~ nullable (c_rules B) (w_eof w)) by now apply terminal_not_nullable.
    assert (Ng : ~ nullable (c_rules B) g0).
    { intros K. inversion K as [|q x Hq Hs Eq]; subst. apply In_nth_error in Hq. destruct Hq as (k & Hk).
      assert (k = b1) by (eapply Hu1; eauto). subst k. rewrite Hb1 in Hk. injection Hk as <-. rewrite Er1 in Hs.
      now apply (not_nullable_first _ _ _ Ts Hs). }
    assert (Vsof : visible (c_rules B) (w_sof w)) by (exists [w_sof w]; repeat constructor; [discriminate|auto]).
    assert (Veof : visible (c_rules B) (w_eof w)) by (exists [w_eof w]; repeat constructor; [discriminate|auto]).
    assert (Vg : visible (c_rules B) g0).
    { destruct start_visible_or as (x & Hx & Hd). exists (w_sof w :: x). split; [discriminate|]. split; [constructor; auto|].
      rewrite <- El1. apply derives_rule; [eapply nth_error_In; eauto|]. rewrite Er1.
      change (w_sof w :: x) with ([w_sof w] ++ x). constructor; [constructor|]. now apply derives_seq_one. }
    destruct (el_all _ _ _ _ HE b r [true; true] Hb) as (d & q & Hd & Eor); [now rewrite Er|rewrite Er; constructor|rewrite Er; discriminate|
      rewrite Er; repeat constructor; auto|].
    pose proof (el_rule _ _ _ _ HE d q Hd) as K. rewrite Eor in K. destruct K as (r' & Hb' & _ & Elq & _ & Erq & _).
    rewrite Hb in Hb'. injection Hb' as <-. rewrite Er in Erq. cbn in Erq.
    exists d, g0. split; [exists q; split; [auto|]; split; [congruence|auto]|]. split.
    { intros d' q' Hd' Elq'. pose proof (el_rule _ _ _ _ HE d' q' Hd') as K. destruct (origin d') as (b' & mask) eqn:Eor'.
      destruct K as (r' & Hb' & Hlm & E1 & _ & E2 & E3 & Hn). assert (b' = b) by (apply (Hu b' r'); [auto|congruence]). subst b'.
      rewrite Hb in Hb'. injection Hb' as <-. rewrite Er in *. rewrite E2 in E3.
      destruct (mask_two mask g0 (w_eof w) Hlm E3) as [->|[->| ->]].
      - apply (el_once _ _ _ _ HE d' d q' q); auto. congruence.
      - inversion Hn; subst; contradiction.
      - inversion Hn; subst; contradiction. }
    split; [auto|]. split; [|split; [|split; [|exists r1; split; [eapply nth_error_In; eauto|auto]]]].
    - intros q' Hq' Elq'. apply In_nth_error in Hq'. destruct Hq' as (d' & Hd').
      pose proof (el_rule _ _ _ _ HE d' q' Hd') as K. destruct (origin d') as (b' & mask) eqn:Eor'.
      destruct K as (r' & Hb' & Hlm & E1 & _ & E2 & E3 & Hn). assert (b' = b1) by (apply (Hu1 b' r'); [auto|congruence]). subst b'.
      rewrite Hb1 in Hb'. injection Hb' as <-. rewrite Er1 in *. rewrite E2 in *.
      destruct (mask_two mask (w_sof w) start Hlm E3) as [->|[->| ->]].
      + left. reflexivity.
      + right. split; [reflexivity|]. inversion Hn; subst; auto.
      + inversion Hn; subst; contradiction.
    - intros Hns. destruct (el_all _ _ _ _ HE b1 r1 [true; false] Hb1) as (d' & q' & Hd' & Eor'); [now rewrite Er1|rewrite Er1; repeat constructor; auto|
        rewrite Er1; discriminate|rewrite Er1; repeat constructor; auto|].
      pose proof (el_rule _ _ _ _ HE d' q' Hd') as K. rewrite Eor' in K. destruct K as (r' & Hb' & _ & E1 & _ & E2 & _).
      rewrite Hb1 in Hb'. injection Hb' as <-. rewrite Er1 in E2. exists q'. split; [eapply nth_error_In; eauto|]. split; [congruence|auto].
    - intros Hvs. destruct (el_all _ _ _ _ HE b1 r1 [true; true] Hb1) as (d' & q' & Hd' & Eor'); [now rewrite Er1|rewrite Er1; constructor|
        rewrite Er1; discriminate|rewrite Er1; repeat constructor; auto|].
      pose proof (el_rule _ _ _ _ HE d' q' Hd') as K. rewrite Eor' in K. destruct K as (r' & Hb' & _ & E1 & _ & E2 & _).
      rewrite Hb1 in Hb'. injection Hb' as <-. rewrite Er1 in E2. exists q'. split; [eapply nth_error_In; eauto|]. split; [congruence|auto].
  Qed.

  (** *** what a generated symbol stands for *)
  Definition gen (g : sym) : Prop := c_num_syms W <= g /\ g < c_num_syms B.
  Definition maxlen : nat := list_max (map (fun g => length (m g)) (seq 0 (c_num_syms B))).
  Lemma maxlen_ok : forall s, s < c_num_syms B -> length (m s) <= maxlen.
  Proof.
    intros s Hs. unfold maxlen. pose proof (proj1 (list_max_le (map (fun g => length (m g)) (seq 0 (c_num_syms B))) maxlen) (le_n _)) as F.
    rewrite Forall_forall in F. apply F. apply (in_map (fun g => length (m g))). apply in_seq. lia.
  Qed.

  Lemma gen_parent : forall g, gen g -> exists b r y, nth_error (c_rules B) b = Some r /\ p_rhs r = [g; y] /\ y < c_num_syms W /\
    p_lhs r <> g /\
    (gen (p_lhs r) -> m (p_lhs r) = m g ++ [y]) /\
    (p_lhs r < c_num_syms W -> exists q, In q (c_rules W) /\ p_lhs q = p_lhs r /\ p_rhs q = m g ++ [y]) /\
    (gen (p_lhs r) \/ p_lhs r < c_num_syms W).
  Proof.
    intros g [G1 G2]. destruct (bz_gen_use _ _ _ _ HB g G1 G2) as (b & r & y & Hb & Er & _). exists b, r, y.
    assert (Hr : In r (c_rules B)) by (eapply nth_error_In; eauto).
    assert (Hy : y < c_num_syms W) by (apply (bz_second _ _ _ _ HB r); [auto|now rewrite Er]).
    assert (Hl : p_lhs r < c_num_syms B) by (apply (bz_range _ _ _ _ HB); exists r; auto).
    assert (Em : flat_map m (p_rhs r) = m g ++ [y]) by (rewrite Er; cbn [flat_map]; now rewrite (bz_old _ _ _ _ HB y Hy)).
    assert (K1 : gen (p_lhs r) -> m (p_lhs r) = m g ++ [y]).
    { intros [G _]. destruct (bz_gen_rule _ _ _ _ HB r Hr G) as (_ & _ & Ef). rewrite Em in Ef. auto. }
    split; [auto|]. split; [auto|]. split; [auto|]. split.
    { intros Eg. assert (Gl : gen (p_lhs r)) by (rewrite Eg; split; auto). specialize (K1 Gl). rewrite Eg in K1.
      apply (f_equal (@length sym)) in K1. rewrite app_length in K1. cbn in K1. unfold sym in *. lia. }
    split; [exact K1|]. split.
    - intros L. destruct (bin_head W B m head HB r Hr L) as (q & Hq & E1 & _ & E2). exists q. rewrite Em in E2. auto.
    - unfold gen. lia.
  Qed.

  Lemma stands : forall k g, gen g -> maxlen - length (m g) <= k -> exists r l, In r (c_rules W) /\ p_rhs r = m g ++ l /\ l <> [].
  Proof.
    induction k as [|k IH]; intros g Hg Hk; destruct (gen_parent g Hg) as (b & r & y & Hb & Er & Hy & Nl & K1 & K2 & [Gl|Ol]).
    - exfalso. specialize (K1 Gl). pose proof (maxlen_ok _ (proj2 Gl)) as M. rewrite K1, app_length in M. cbn in M. lia.
    - destruct (K2 Ol) as (q & Hq & _ & Eq). exists q, [y]. split; [auto|]. split; [auto|discriminate].
    - specialize (K1 Gl). destruct (IH (p_lhs r) Gl) as (q & l & Hq & Eq & _).
      { rewrite K1, app_length. cbn. lia. }
      exists q, (y :: l). split; [auto|]. split; [|discriminate]. rewrite Eq, K1, <- app_assoc. reflexivity.
    - destruct (K2 Ol) as (q & Hq & _ & Eq). exists q, [y]. split; [auto|]. split; [auto|discriminate].
  Qed.

  (** an old symbol on a right-hand side of [B] comes from a right-hand side of [W] *)
  Lemma rhs_B_W : forall r' s, In r' (c_rules B) -> In s (p_rhs r') -> s < c_num_syms W ->
    exists r, In r (c_rules W) /\ In s (p_rhs r) /\
      (p_lhs r' = p_lhs r \/ (gen (p_lhs r') /\ exists l, p_rhs r = m (p_lhs r') ++ l /\ l <> [] /\ In s (m (p_lhs r')))).
  Proof.
    intros r' s Hr Hs Ls.
    assert (Hin : In s (flat_map m (p_rhs r'))). { apply in_flat_map. exists s. split; [auto|]. rewrite (bz_old _ _ _ _ HB s Ls). simpl; auto. }
    assert (Hl : p_lhs r' < c_num_syms B) by (apply (bz_range _ _ _ _ HB); exists r'; auto).
    destruct (Nat.lt_ge_cases (p_lhs r') (c_num_syms W)) as [L|L].
    - destruct (bin_head W B m head HB r' Hr L) as (r & Hr' & E1 & _ & E2). exists r. rewrite <- E2. auto.
    - destruct (bz_gen_rule _ _ _ _ HB r' Hr L) as (_ & _ & Ef). rewrite Ef in Hin.
      assert (G : gen (p_lhs r')) by (split; auto).
      destruct (stands _ _ G (le_n _)) as (r & l & Hr' & Er & Nl). exists r. split; [auto|]. split; [rewrite Er; apply in_app_iff; auto|].
      right. split; [auto|]. exists l. auto.
  Qed.

  Lemma used_B_W : forall s, used (c_rules B) s -> s < c_num_syms W -> used (c_rules W) s.
  Proof.
    intros s (r' & Hr & Hs) Ls. destruct Hs as [<-|Hs].
    - destruct (bin_head W B m head HB r' Hr Ls) as (r & Hr' & E1 & _). exists r. auto.
    - destruct (rhs_B_W r' s Hr Hs Ls) as (r & Hr' & Hs' & _). exists r. auto.
  Qed.

  Lemma rhs_W : forall r s, In r (c_rules W) -> In s (p_rhs r) -> (In r (c_rules U') /\ s < c_num_syms U') \/
    (p_lhs r = w_root w /\ p_rhs r = [w_sof w; start; w_eof w]).
  Proof.
    intros r s Hr Hs. destruct (wrap_rule_cases start U' W w HW r Hr) as [H|(A & A' & _)]; [|auto].
    left. split; [auto|]. apply U'_range. exists r. auto.
  Qed.

  Lemma root_not_rhs_B : forall r, In r (c_rules B) -> ~ In (w_root w) (p_rhs r).
  Proof.
    intros r Hr Hin. pose proof wrap_fields as (L & _). destruct (rhs_B_W r _ Hr Hin L) as (q & Hq & Hs & _).
    pose proof (wrap_new start U' W w HW) as (A1 & A2 & A3). pose proof (wrap_distinct start U' W w HW) as (D1 & D2 & D3).
    destruct (rhs_W q _ Hq Hs) as [(_ & K)|(_ & K)]; [lia|]. rewrite K in Hs.
    pose proof start_range. destruct Hs as [Hs|[Hs|[Hs|[]]]]; try congruence. lia.
  Qed.

  (** [eof] stands second in the rule of the root only *)
  Lemma eof_B : forall r, In r (c_rules B) -> In (w_eof w) (p_rhs r) -> p_lhs r = w_root w.
  Proof.
    intros r Hr Hin. pose proof wrap_fields as (_ & _ & L). destruct (rhs_B_W r _ Hr Hin L) as (q & Hq & Hs & Hd).
    pose proof (wrap_new start U' W w HW) as (A1 & A2 & A3). pose proof (wrap_distinct start U' W w HW) as (D1 & D2 & D3).
    destruct (rhs_W q _ Hq Hs) as [(_ & K)|(Kl & K)]; [lia|]. destruct Hd as [Hd|(G & l & El & Nl & Hm)]; [congruence|]. exfalso.
    rewrite K in El. destruct (exists_last Nl) as (l' & z & ->). rewrite app_assoc in El.
    change [w_sof w; start; w_eof w] with ([w_sof w; start] ++ [w_eof w]) in El. apply app_inj_tail in El. destruct El as [El _].
    assert (Hi : In (w_eof w) [w_sof w; start]) by (rewrite El; apply in_app_iff; auto).
    pose proof start_range. destruct Hi as [Hi|[Hi|[]]]; [congruence|lia].
  Qed.

  (** *** which rules are not lost *)
  Hypothesis Hvis : null_prefixes_visible U start.

  Lemma visible_up : forall s, used (c_rules U') s -> visible (c_rules U) s -> visible (c_rules B) s.
  Proof.
    intros s Hs (x & Hne & Hx & Hd). exists x. split; [auto|].
    assert (Hd' : derives (c_rules U') s x) by (apply (proper_complete start U U' HP); auto; now apply reached_used).
    split; [|now apply U'_to_B]. eapply U_terminal_B; eauto. rewrite <- (mp_syms _ _ _ HP). now apply U'_range.
  Qed.
  Lemma nullable_up : forall s, used (c_rules U') s -> nullable (c_rules U) s -> nullable (c_rules B) s.
  Proof. intros s Hs Hd. apply U'_to_B. apply (proper_complete start U U' HP); [exact Hd|constructor|now apply reached_used]. Qed.
  Lemma prod_U' : forall s, used (c_rules U') s -> visible (c_rules B) s \/ nullable (c_rules B) s.
  Proof.
    intros s Hs. destruct (productive_used s Hs) as (x & Hx & Hd). destruct x as [|t x]; [right; now apply nullable_up|].
    left. apply visible_up; [auto|]. exists (t :: x). split; [discriminate|auto].
  Qed.
  Lemma start_cases : visible (c_rules B) start \/ nullable (c_rules B) start.
  Proof.
    destruct (existsb (fun r => p_lhs r =? start) (c_rules U')) eqn:Ex.
    - apply existsb_exists in Ex. destruct Ex as (r & Hr & Hl). apply Nat.eqb_eq in Hl.
      apply prod_U'. exists r. auto.
    - left. exists [start]. split; [discriminate|]. split; [|constructor]. constructor; [|constructor].
      apply (bin_terminal W B m head HB); [apply start_W|]. apply (wrap_terminal start U' W w HW start_range); [|apply start_range].
      intros r Hr El. rewrite <- not_true_iff_false in Ex. apply Ex. apply existsb_exists. exists r. split; [auto|now apply Nat.eqb_eq].
  Qed.

  Lemma vis_start : (nullable (c_rules U) start -> visible (c_rules U) start) -> visible (c_rules B) start.
  Proof.
    intros H. destruct start_cases as [K|K]; [exact K|].
    assert (Us : used (c_rules U') start).
    { destruct (existsb (fun r => p_lhs r =? start) (c_rules U')) eqn:Ex.
      - apply existsb_exists in Ex. destruct Ex as (r' & Hr' & Hl). apply Nat.eqb_eq in Hl. exists r'. auto.
      - exfalso. assert (T : terminal (c_rules B) start); [|now apply (terminal_not_nullable _ T)].
        apply (bin_terminal W B m head HB); [apply start_W|]. apply (wrap_terminal start U' W w HW start_range); [|apply start_range].
        intros r' Hr' El. rewrite <- not_true_iff_false in Ex. apply Ex. apply existsb_exists. exists r'. split; [auto|now apply Nat.eqb_eq]. }
    apply visible_up; [exact Us|]. destruct (productive_used start Us) as (x & Hx & Hd). destruct x as [|t x]; [exact (H Hd)|exists (t :: x); split; [discriminate|auto]].
  Qed.

  Lemma vis_root_rhs : forall s, In s [w_sof w; w_eof w] -> visible (c_rules B) s.
  Proof.
    intros s Hs. destruct sof_eof_B as [Ts Te]. destruct Hs as [<-|[<-|[]]].
    - exists [w_sof w]. repeat constructor; [discriminate|auto].
    - exists [w_eof w]. repeat constructor; [discriminate|auto].
  Qed.

  Lemma vis_wrapper : (nullable (c_rules U) start -> visible (c_rules U) start) -> forall s, In s [w_sof w; start; w_eof w] -> visible (c_rules B) s.
  Proof.
    intros H s [<-|[<-|[<-|[]]]]; [|now apply vis_start|]; apply vis_root_rhs; simpl; auto.
  Qed.

  Lemma prod_W : forall s, used (c_rules W) s -> s <> w_root w -> visible (c_rules B) s \/ nullable (c_rules B) s.
  Proof.
    intros s (r & Hr & Hs) Nr.
    destruct (wrap_rule_cases start U' W w HW r Hr) as [H|(A & A' & _)]; [apply prod_U'; exists r; auto|].
    rewrite A, A' in Hs. destruct Hs as [Hs|[Hs|[Hs|[Hs|[]]]]]; [congruence|left|subst s; exact start_cases|left]; apply vis_root_rhs; subst s; simpl; auto.
  Qed.

  Lemma vis_seq : forall l, l <> [] -> (forall s, In s l -> visible (c_rules B) s) ->
    exists x, x <> [] /\ Forall (terminal (c_rules B)) x /\ derives_seq (c_rules B) l x.
  Proof.
    induction l as [|s l IH]; intros Hne H; [contradiction|]. destruct (H s (or_introl eq_refl)) as (x & N & Hx & Hd).
    destruct l as [|s' l].
    - exists x. split; [auto|]. split; [auto|]. now apply derives_seq_one.
    - destruct IH as (x2 & N2 & Hx2 & Hd2); [discriminate|intros; apply H; simpl; auto|]. exists (x ++ x2).
      split; [destruct x; [contradiction|discriminate]|]. split; [apply Forall_app; auto|]. now constructor.
  Qed.

  Lemma prod_seq : forall l, (forall s, In s l -> visible (c_rules B) s \/ nullable (c_rules B) s) ->
    (exists x, x <> [] /\ Forall (terminal (c_rules B)) x /\ derives_seq (c_rules B) l x) \/ Forall (nullable (c_rules B)) l.
  Proof.
    induction l as [|a l IH]; intros P; [right; constructor|].
    destruct IH as [(x & N & Tx & Dx)|Hn]; [intros; apply P; simpl; auto| |]; (destruct (P a) as [(y & Ny & Ty & Dy)|Na]; [simpl; auto| |]).
    - left. exists (y ++ x). split; [destruct y; [contradiction|discriminate]|]. split; [apply Forall_app; auto|now constructor].
    - left. exists x. split; [auto|]. split; [auto|]. change x with ([] ++ x). now constructor.
    - left. exists y. split; [auto|]. split; [auto|]. rewrite <- (app_nil_r y). constructor; [auto|].
      clear - Hn. induction Hn as [|b l Hb Hl IH]; [constructor|]. change (@nil sym) with (@nil sym ++ []). now constructor.
    - right. constructor; auto.
  Qed.
  Lemma seq_nullable : forall R l, Forall (nullable R) l -> derives_seq R l [].
  Proof. intros R l Hn. induction Hn as [|b l Hb Hl IH]; [constructor|]. change (@nil sym) with (@nil sym ++ []). now constructor. Qed.
  Lemma nullable_seq : forall R l, derives_seq R l [] -> Forall (nullable R) l.
  Proof.
    intros R l. induction l as [|a l IH]; intros H; [constructor|]. remember (@nil sym) as x0 eqn:E0. remember (a :: l) as l0 eqn:El.
    destruct H as [|s ss x y H1 H2]; [discriminate|]. injection El as -> ->. apply app_eq_nil in E0. destruct E0 as [-> ->].
    constructor; auto.
  Qed.

  Lemma root_not_rhs_W : forall r, In r (c_rules W) -> ~ In (w_root w) (p_rhs r).
  Proof.
    intros r Hr Hs. pose proof (wrap_new start U' W w HW) as (A1 & A2 & A3). pose proof (wrap_distinct start U' W w HW) as (D1 & D2 & D3).
    destruct (rhs_W r _ Hr Hs) as [(_ & K)|(_ & K)]; [lia|]. rewrite K in Hs.
    pose proof start_range. destruct Hs as [Hs|[Hs|[Hs|[]]]]; try congruence. lia.
  Qed.

  (** what a generated symbol stands for *)
  Lemma prod_m : forall g s, gen g -> In s (m g) -> visible (c_rules B) s \/ nullable (c_rules B) s.
  Proof.
    intros g s Hg Hs. destruct (stands _ g Hg (le_n _)) as (r & l & Hr & Er & _).
    assert (Hin : In s (p_rhs r)) by (rewrite Er; apply in_app_iff; auto).
    apply prod_W; [exists r; auto|]. intros ->. exact (root_not_rhs_W r Hr Hin).
  Qed.
  Lemma vis_gen_of : forall g, gen g -> (forall s, In s (m g) -> visible (c_rules B) s) -> visible (c_rules B) g.
  Proof.
    intros g Hg Hv. destruct (vis_seq (m g)) as (x & N & Hx & Hd).
    - pose proof (bz_new _ _ _ _ HB g (proj1 Hg)). destruct (m g); [cbn in *; lia|discriminate].
    - exact Hv.
    - exists x. split; [auto|]. split; [auto|]. eapply (proj1 (derives_compose _)); [|exact Hd].
      destruct Hg as [G1 G2]. apply (bin_gen W B m head HB (length (m g))); auto.
  Qed.

  (** what a nullable generated symbol stands for is visible *)
  Lemma null_gen_m : forall g s, gen g -> nullable (c_rules B) g -> In s (m g) -> visible (c_rules B) s.
  Proof.
    intros g s Hg Hn Hs. apply (proj1 (bin_sound W B m head HB)) in Hn. cbn [flat_map] in Hn.
    destruct (stands _ g Hg (le_n _)) as (r & l & Hr & Er & Nl). pose proof (bz_new _ _ _ _ HB g (proj1 Hg)) as Lm.
    destruct (wrap_rule_cases start U' W w HW r Hr) as [Hr'|(_ & A & _)].
    - assert (Nr : ~ In (w_root w) (m g)) by (intros K; apply (root_not_rhs_W r Hr); rewrite Er; apply in_app_iff; auto).
      apply (proj2 (wrap_sound start U' W w HW U'_range start_range)) in Hn; [|auto].
      apply (proj2 (derives_sub _ _ (proper_sub start U U' HP))) in Hn. apply nullable_seq in Hn.
      assert (Us : used (c_rules U') s) by (exists r; split; [auto|right; rewrite Er; apply in_app_iff; auto]).
      apply visible_up; [auto|]. apply (mp_rules _ _ _ HP) in Hr'. destruct Hr' as [Hr' Hf].
      pose proof (Hvis r (m g) l Hr' Hf Er Lm Nl Hn) as K. rewrite Forall_forall in K. auto.
    - exfalso. rewrite A in Er. apply nullable_seq in Hn. destruct (m g) as [|a mg]; [cbn in Lm; lia|]. injection Er as <- _.
      apply Forall_inv in Hn. apply (terminal_derives _ _ _ (proj1 (wrap_sof_eof start U' W w HW U'_range start_range))) in Hn. discriminate.
  Qed.
  Lemma null_gen_vis : forall g, gen g -> nullable (c_rules B) g -> visible (c_rules B) g.
  Proof. intros g Hg Hn. apply vis_gen_of; [auto|]. intros s. now apply null_gen_m. Qed.

  Lemma prod_B : forall s, used (c_rules B) s -> s <> w_root w -> visible (c_rules B) s \/ nullable (c_rules B) s.
  Proof.
    intros s Hs Nr. destruct (Nat.lt_ge_cases s (c_num_syms W)) as [L|L].
    - apply prod_W; [now apply used_B_W|auto].
    - left. assert (G : gen s) by (split; [auto|now apply (bz_range _ _ _ _ HB)]).
      assert (D : derives (c_rules B) s (m s)) by (apply (bin_gen W B m head HB (length (m s))); [auto|apply G|apply G]).
      destruct (prod_seq (m s)) as [(x & N & Hx & Hd)|Hn]; [intros t; now apply prod_m| |].
      + exists x. split; [auto|]. split; [auto|]. exact (proj1 (derives_compose _) _ _ D _ Hd).
      + apply null_gen_vis; [auto|]. exact (proj1 (derives_compose _) _ _ D _ (seq_nullable _ _ Hn)).
  Qed.
  Lemma vis_gen : forall g, gen g -> visible (c_rules B) g.
  Proof.
    intros g Hg. destruct (prod_B g) as [V|N]; [|pose proof wrap_fields; destruct Hg; intros ->; lia|auto|now apply null_gen_vis].
    destruct Hg as [G1 G2]. destruct (bz_gen_one _ _ _ _ HB g G1 G2) as (b & r & Hb & El & _).
    exists r. split; [eapply nth_error_In; eauto|auto].
  Qed.
  Lemma prod_rhs : forall r s, In r (c_rules B) -> In s (p_rhs r) -> visible (c_rules B) s \/ nullable (c_rules B) s.
  Proof. intros r s Hr Hs. apply prod_B; [exists r; auto|]. intros ->. now apply (root_not_rhs_B r). Qed.

  Lemma full_rule_of : forall b r', nth_error (c_rules B) b = Some r' -> p_rhs r' <> [] -> (forall s, In s (p_rhs r') -> visible (c_rules B) s) ->
    exists d r, nth_error (c_rules E) d = Some r /\
    origin d = (b, repeat true (length (p_rhs r'))) /\ p_lhs r = p_lhs r' /\ p_rhs r = p_rhs r' /\ p_origin r = p_origin r'.
  Proof.
    intros b r' Hb Hne Hv.
    destruct (el_all _ _ _ _ HE b r' (repeat true (length (p_rhs r'))) Hb) as (d & r & Hd & Eo).
    - apply repeat_length.
    - rewrite struck_out_none. constructor.
    - now rewrite left_over_all.
    - rewrite left_over_all. apply Forall_forall. exact Hv.
    - pose proof (el_rule _ _ _ _ HE d r Hd) as K. rewrite Eo in K. destruct K as (r'' & Hb' & _ & E1 & E2 & E3 & _).
      rewrite Hb in Hb'. injection Hb' as <-. rewrite left_over_all in E3. exists d, r. auto.
  Qed.

  (** a visible symbol stays on the right of some rule *)
  Lemma rhs_kept : forall r' s, In r' (c_rules B) -> In s (p_rhs r') -> visible (c_rules B) s ->
    exists r, In r (c_rules E) /\ p_lhs r = p_lhs r' /\ In s (p_rhs r).
  Proof.
    intros r' s Hr Hs Vs. assert (Hr2 := Hr). apply In_nth_error in Hr. destruct Hr as (b & Hb).
    assert (Q : exists mask, length mask = length (p_rhs r') /\ Forall (nullable (c_rules B)) (struck_out mask (p_rhs r')) /\
      In s (left_over mask (p_rhs r')) /\ Forall (visible (c_rules B)) (left_over mask (p_rhs r'))).
    { pose proof (fun t => prod_rhs r' t Hr2) as Hp. pose proof (bz_length _ _ _ _ HB r' Hr2) as L.
      destruct (p_rhs r') as [|a [|y [|z rhs]]]; [destruct Hs| | |cbn in L; lia].
      - destruct Hs as [<-|[]]. exists [true]. cbn. auto.
      - destruct Hs as [<-|[<-|[]]].
        + destruct (Hp y) as [V|N]; [simpl; auto|exists [true; true]|exists [true; false]]; cbn; (split; [reflexivity|]; split; [repeat constructor; auto|]; split; [simpl; auto|repeat constructor; auto]).
        + destruct (Hp a) as [V|N]; [simpl; auto|exists [true; true]|exists [false; true]]; cbn; (split; [reflexivity|]; split; [repeat constructor; auto|]; split; [simpl; auto|repeat constructor; auto]). }
    destruct Q as (mask & Q1 & Q2 & Q3 & Q4).
    destruct (el_all _ _ _ _ HE b r' mask Hb Q1 Q2) as (d & r & Hd & Eo); [intros K; rewrite K in Q3; destruct Q3|exact Q4|].
    pose proof (el_rule _ _ _ _ HE d r Hd) as K. rewrite Eo in K. destruct K as (r'' & Hb' & _ & E1 & _ & E3 & _).
    rewrite Hb in Hb'. injection Hb' as <-. exists r. split; [eapply nth_error_In; eauto|]. rewrite E3. auto.
  Qed.

  Lemma vis_used : forall s, used (c_rules B) s -> visible (c_rules B) s -> used (c_rules E) s.
  Proof.
    intros s (r' & Hr & Hs) Vs. destruct Hs as [<-|Hs].
    - destruct Vs as (x & N & Hx & Hd). apply (elim_complete B E nulling origin HE) in Hd; auto.
      inversion Hd as [t|r x' Hr' Hs']; subst.
      + inversion Hx as [|? ? Ht _]; subst. exfalso. now apply (Ht r').
      + exists r. split; [auto|]. left. auto.
    - destruct (rhs_kept r' s Hr Hs Vs) as (r & Hr' & _ & Hin). exists r. auto.
  Qed.

  Lemma E_range : forall s, used (c_rules E) s -> s < c_num_syms E.
  Proof.
    intros s Hs. rewrite (el_syms _ _ _ _ HE). apply (bz_range _ _ _ _ HB). exact (elim_used B E nulling origin HE s Hs).
  Qed.

  Lemma gen_used : forall g, gen g -> used (c_rules E) g.
  Proof.
    intros g G. apply vis_used; [|now apply vis_gen]. destruct (bz_gen_one _ _ _ _ HB g (proj1 G) (proj2 G)) as (b & r & Hb & El & _).
    exists r. split; [eapply nth_error_In; eauto|auto].
  Qed.

  (** *** rules of [E] and rules of [B] *)
  Lemma E_arity : forall r, In r (c_rules E) -> length (p_rhs r) = 1 \/ length (p_rhs r) = 2.
  Proof.
    intros r Hr. destruct (elim_rule B E nulling origin HE r Hr) as (r' & mask & Hr' & Hl & _ & _ & E2 & Ne & _).
    pose proof (bz_length _ _ _ _ HB r' Hr') as L. rewrite E2 in *.
    destruct (p_rhs r') as [|a [|b' [|]]]; destruct mask as [|[] [|[] [|]]]; cbn in *; try discriminate; try lia; try contradiction; auto.
  Qed.

  (** a rule of [E] with two symbols is a rule of [B] *)
  Lemma E_binary : forall d r a y, nth_error (c_rules E) d = Some r -> p_rhs r = [a; y] -> exists b r', nth_error (c_rules B) b = Some r' /\
    origin d = (b, [true; true]) /\ p_lhs r' = p_lhs r /\ p_rhs r' = [a; y] /\ p_origin r' = p_origin r.
  Proof.
    intros d r a y Hd Er. pose proof (el_rule _ _ _ _ HE d r Hd) as K. destruct (origin d) as (b & mask).
    destruct K as (r' & Hb & Hl & E1 & E0 & E2 & _ & _). assert (Hr' : In r' (c_rules B)) by (eapply nth_error_In; eauto).
    pose proof (bz_length _ _ _ _ HB r' Hr') as L. rewrite Er in E2. exists b, r'.
    destruct (p_rhs r') as [|a' [|y' [|]]] eqn:Er'; destruct mask as [|[] [|[] [|]]]; cbn in *; try discriminate; try lia.
    injection E2 as -> ->. auto.
  Qed.
  (** a rule of [E] with one symbol *)
  Lemma E_unary : forall d r a, nth_error (c_rules E) d = Some r -> p_rhs r = [a] -> exists b r' mask, nth_error (c_rules B) b = Some r' /\
    origin d = (b, mask) /\ p_lhs r' = p_lhs r /\ length mask = length (p_rhs r') /\
    Forall (nullable (c_rules B)) (struck_out mask (p_rhs r')) /\
    ((p_rhs r' = [a] /\ mask = [true]) \/ (exists y, p_rhs r' = [a; y] /\ mask = [true; false]) \/ (exists y, p_rhs r' = [y; a] /\ mask = [false; true])).
  Proof.
    intros d r a Hd Er. pose proof (el_rule _ _ _ _ HE d r Hd) as K. destruct (origin d) as (b & mask).
    destruct K as (r' & Hb & Hl & E1 & E0 & E2 & _ & Hn). assert (Hr' : In r' (c_rules B)) by (eapply nth_error_In; eauto).
    pose proof (bz_length _ _ _ _ HB r' Hr') as L. rewrite Er in E2. exists b, r', mask. do 2 (split; [auto|]). split; [auto|]. do 2 (split; [auto|]).
    destruct (p_rhs r') as [|a' [|y' [|]]] eqn:Er'; destruct mask as [|[] [|[] [|]]]; cbn in *; try discriminate; try lia.
    - injection E2 as ->. auto.
    - injection E2 as ->. right; left. eauto.
    - injection E2 as ->. right; right. eauto.
  Qed.

  (** a rule that starts with a generated symbol *)
  Lemma E_first_gen : forall g b0 r0 y0, gen g -> nth_error (c_rules B) b0 = Some r0 -> p_rhs r0 = [g; y0] ->
    (forall b' r', nth_error (c_rules B) b' = Some r' -> In g (p_rhs r') -> b' = b0) ->
    forall d r, nth_error (c_rules E) d = Some r -> nth_error (p_rhs r) 0 = Some g ->
    p_lhs r = p_lhs r0 /\ ((p_rhs r = [g; y0] /\ origin d = (b0, [true; true])) \/ (p_rhs r = [g] /\ origin d = (b0, [true; false]))).
  Proof.
    intros g b0 r0 y0 Hg Hb0 Er0 Hu d r Hd Hf. assert (Hy0 : y0 < c_num_syms W).
    { apply (bz_second _ _ _ _ HB r0); [eapply nth_error_In; eauto|now rewrite Er0]. }
    destruct (E_arity r ltac:(eapply nth_error_In; eauto)) as [L|L]; destruct (p_rhs r) as [|a [|y [|]]] eqn:Er; try discriminate L; cbn in Hf; injection Hf as ->.
    - destruct (E_unary d r g Hd Er) as (b & r' & mask & Hb & Eo & El & _ & _ & Hc).
      assert (b = b0). { apply (Hu b r' Hb). destruct Hc as [(K & _)|[(z & K & _)|(z & K & _)]]; rewrite K; simpl; auto. } subst b.
      rewrite Hb in Hb0. injection Hb0 as ->. split; [auto|]. rewrite Er0 in Hc.
      destruct Hc as [(K & _)|[(z & K & ->)|(z & K & ->)]]; [discriminate|auto|].
      exfalso. injection K as _ K. destruct Hg. lia.
    - destruct (E_binary d r g y Hd Er) as (b & r' & Hb & Eo & El & K & _).
      assert (b = b0) by (apply (Hu b r' Hb); rewrite K; simpl; auto). subst b. rewrite Hb in Hb0. injection Hb0 as ->.
      split; [auto|]. left. rewrite Er0 in K. injection K as ->. auto.
  Qed.

  (** second symbols are old *)
  Lemma E_second : forall r s, In r (c_rules E) -> nth_error (p_rhs r) 1 = Some s -> s < c_num_syms W.
  Proof.
    intros r s Hr Hs. apply In_nth_error in Hr. destruct Hr as (d & Hd).
    destruct (E_arity r ltac:(eapply nth_error_In; eauto)) as [L|L]; destruct (p_rhs r) as [|a [|y [|]]] eqn:Er; try discriminate L; cbn in Hs; [discriminate|].
    injection Hs as ->. destruct (E_binary d r a s Hd Er) as (b & r' & Hb & _ & _ & K & _).
    apply (bz_second _ _ _ _ HB r'); [eapply nth_error_In; eauto|now rewrite K].
  Qed.

  Lemma origin_none : forall r, In r (c_rules E) -> p_origin r = None -> gen (p_lhs r) \/ p_lhs r = w_root w.
  Proof.
    intros r Hr Ho. destruct (elim_rule B E nulling origin HE r Hr) as (r' & mask & Hr' & _ & E1 & E2 & _).
    destruct (Nat.lt_ge_cases (p_lhs r') (c_num_syms W)) as [L|L].
    - right. destruct (bin_head W B m head HB r' Hr' L) as (q & Hq & E3 & E4 & _).
      destruct (wrap_rule_cases start U' W w HW q Hq) as [H|(A & _)]; [|congruence].
      exfalso. apply (ug_origin _ _ HU q); [exact (proper_sub start U U' HP q H)|congruence].
    - left. rewrite E1. split; [auto|]. apply (bz_range _ _ _ _ HB). exists r'. auto.
  Qed.

  Lemma root_not_rhs_E : forall r, In r (c_rules E) -> ~ In (w_root w) (p_rhs r).
  Proof.
    intros r Hr Hin. destruct (elim_rule B E nulling origin HE r Hr) as (r' & mask & Hr' & _ & _ & _ & E2 & _).
    apply (root_not_rhs_B r' Hr'). rewrite E2 in Hin. exact (left_over_in _ _ _ Hin).
  Qed.

  (** the generated symbols that [find_gensyms] finds: those whose rule and whose use keep both symbols *)
  Definition kept_gen (g : sym) : Prop := gen g /\ (exists r a y, In r (c_rules E) /\ p_lhs r = g /\ p_rhs r = [a; y]) /\
    (exists r y, In r (c_rules E) /\ p_rhs r = [g; y]).

  Lemma kept_gen_or : forall g, gen g -> kept_gen g \/ (forall r y, In r (c_rules E) -> p_rhs r <> [g; y]) \/
    (forall r a y, In r (c_rules E) -> p_lhs r = g -> p_rhs r <> [a; y]).
  Proof.
    intros g G.
    destruct (existsb (fun r => (p_lhs r =? g) && (length (p_rhs r) =? 2)) (c_rules E)) eqn:E1.
    - destruct (existsb (fun r => match p_rhs r with [a; _] => a =? g | _ => false end) (c_rules E)) eqn:E2.
      + left. split; [auto|]. apply existsb_exists in E1, E2. destruct E1 as (r & Hr & K). destruct E2 as (r2 & Hr2 & K2). split.
        * apply andb_true_iff in K. destruct K as [K1 K3]. apply Nat.eqb_eq in K1, K3. destruct (p_rhs r) as [|a [|y [|]]] eqn:Er; try discriminate K3.
          exists r, a, y. auto.
        * destruct (p_rhs r2) as [|a [|y [|]]] eqn:Er; try discriminate K2. apply Nat.eqb_eq in K2. subst a. exists r2, y. auto.
      + right. left. intros r y Hr Er. rewrite <- not_true_iff_false in E2. apply E2. apply existsb_exists. exists r. split; [auto|].
        rewrite Er. apply Nat.eqb_refl.
    - right. right. intros r a y Hr El Er. rewrite <- not_true_iff_false in E1. apply E1. apply existsb_exists. exists r. split; [auto|].
      now rewrite El, Er, Nat.eqb_refl.
  Qed.

  Lemma gen_not_first : forall g r a y, gen g -> In r (c_rules B) -> p_lhs r = g -> p_rhs r = [a; y] -> a <> g.
  Proof.
    intros g r a y G Hr El Er ->. destruct (bz_gen_rule _ _ _ _ HB r Hr) as (_ & _ & Ef); [destruct G; unfold sym in *; lia|].
    rewrite El, Er in Ef. cbn [flat_map] in Ef. apply (f_equal (@length sym)) in Ef. rewrite !app_length in Ef.
    assert (Hy : y < c_num_syms W) by (apply (bz_second _ _ _ _ HB r); [auto|now rewrite Er]).
    rewrite (bz_old _ _ _ _ HB y Hy) in Ef. cbn in Ef. unfold sym in *. lia.
  Qed.

  Lemma E_shape : gen_shape (c_rules E) kept_gen.
  Proof.
    constructor.
    - intros g (G & (r & a & y & Hr & El & Er) & _). exists r. split; [auto|]. split; [auto|].
      apply In_nth_error in Hr. destruct Hr as (d & Hd). destruct (E_binary d r a y Hd Er) as (b & r' & Hb & _ & El' & Er' & Eo').
      destruct (bz_gen_rule _ _ _ _ HB r' ltac:(eapply nth_error_In; eauto)) as (Eo & _); [destruct G; unfold sym in *; lia|congruence].
    - intros g (G & (r & a & y & Hr & El & Er) & _). exists r, a, y. split; [auto|]. split; [auto|]. split; [auto|].
      apply In_nth_error in Hr. destruct Hr as (d & Hd). destruct (E_binary d r a y Hd Er) as (b & r' & Hb & _ & El' & Er' & Eo').
      apply (gen_not_first g r' a y G); [eapply nth_error_In; eauto|congruence|auto].
    - intros g d d' r r' a y a' y' ([G1 G2] & _) Hd Hd' El Er El' Er'.
      destruct (E_binary d r a y Hd Er) as (b & q & Hb & Eo & E1 & _). destruct (E_binary d' r' a' y' Hd' Er') as (b' & q' & Hb' & Eo' & E1' & _).
      destruct (bz_gen_one _ _ _ _ HB g G1 G2) as (b0 & r0 & _ & _ & Hu).
      assert (b = b0) by (apply (Hu b q); [auto|congruence]). assert (b' = b0) by (apply (Hu b' q'); [auto|congruence]). subst b b'.
      apply (el_once _ _ _ _ HE d d' r r'); auto. congruence.
    - intros g (G & _ & (r & y & Hr & Er)). exists r, y. split; [auto|]. split; [|auto]. intros El.
      apply In_nth_error in Hr. destruct Hr as (d & Hd). destruct (E_binary d r g y Hd Er) as (b & r' & Hb & _ & El' & Er' & Eo').
      apply (gen_not_first g r' g y G); [eapply nth_error_In; eauto|congruence|auto|auto].
    - intros g d d' r r' y y' ([G1 G2] & _) Hd Hd' Er Er'.
      destruct (E_binary d r g y Hd Er) as (b & q & Hb & Eo & _ & K & _). destruct (E_binary d' r' g y' Hd' Er') as (b' & q' & Hb' & Eo' & _ & K' & _).
      destruct (bz_gen_use _ _ _ _ HB g G1 G2) as (b0 & r0 & y0 & _ & _ & Hu).
      assert (b = b0) by (apply (Hu b q); [auto|rewrite K; simpl; auto]). assert (b' = b0) by (apply (Hu b' q'); [auto|rewrite K'; simpl; auto]). subst b b'.
      apply (el_once _ _ _ _ HE d d' r r'); auto. congruence.
    - intros g r ([G1 G2] & _) Hr Hin. destruct (E_arity r Hr) as [L|L]; destruct (p_rhs r) as [|a [|y [|]]] eqn:Er; try discriminate L; cbn in Hin; [auto|].
      destruct Hin as [<-|[]]. assert (y < c_num_syms W) by (apply (E_second r); [auto|now rewrite Er]). lia.
    - intros s (r & Hr & <- & Ho). destruct (origin_none r Hr Ho) as [G|E']; [exact (kept_gen_or _ G)|]. right. left. rewrite E'.
      intros q y Hq K. apply (root_not_rhs_E q Hq). rewrite K. simpl; auto.
  Qed.

  (** *** no cycles *)
  Hypothesis Hcyc : forall s, ~ derives_by_rule (c_rules U) s [s].
  Notation ustep := (unary_step (c_rules E)).

  Lemma ustep_W : forall a b, ustep a b -> derives_seq (c_rules W) (m a) (m b) /\
    (a < c_num_syms W -> exists r, In r (c_rules W) /\ p_lhs r = a /\ derives_seq (c_rules W) (p_rhs r) (m b)).
  Proof.
    intros a b (r & Hr & El & Er). destruct (elim_rule B E nulling origin HE r Hr) as (r' & mask & Hr' & Hl & E1 & _ & E2 & _ & Hn).
    assert (D : derives_seq (c_rules B) (p_rhs r') [b]).
    { apply (restore_struck _ mask); auto. rewrite <- E2, Er. apply derives_seq_self. }
    apply (proj2 (bin_sound W B m head HB)) in D. cbn [flat_map] in D. rewrite app_nil_r in D.
    assert (K : a < c_num_syms W -> exists q, In q (c_rules W) /\ p_lhs q = a /\ derives_seq (c_rules W) (p_rhs q) (m b)).
    { intros La. destruct (bin_head W B m head HB r' Hr') as (q & Hq & E3 & _ & E4); [congruence|]. exists q. rewrite E4 in D.
      split; [auto|]. split; [congruence|auto]. }
    split; [|exact K]. destruct (Nat.lt_ge_cases a (c_num_syms W)) as [L|L].
    - destruct (K L) as (q & Hq & E3 & Hd). rewrite (bz_old _ _ _ _ HB a L). apply derives_seq_one. rewrite <- E3. now apply derives_rule.
    - destruct (bz_gen_rule _ _ _ _ HB r' Hr') as (_ & _ & Ef); [congruence|]. rewrite Ef in D. now rewrite <- El, E1.
  Qed.

  Lemma ustep_gen : forall a b, ustep a b -> gen a -> gen b -> length (m b) < length (m a).
  Proof.
    intros a b (r & Hr & El & Er) Ha Hb. apply In_nth_error in Hr. destruct Hr as (d & Hd).
    destruct (bz_gen_use _ _ _ _ HB b (proj1 Hb) (proj2 Hb)) as (b0 & r0 & y0 & Hb0 & Er0 & Hu).
    destruct (E_first_gen b b0 r0 y0 Hb Hb0 Er0 Hu d r Hd) as [E1 _]; [now rewrite Er|].
    assert (Hr0 : In r0 (c_rules B)) by (eapply nth_error_In; eauto).
    destruct (bz_gen_rule _ _ _ _ HB r0 Hr0) as (_ & _ & Ef); [destruct Ha; congruence|].
    assert (Hy0 : y0 < c_num_syms W) by (apply (bz_second _ _ _ _ HB r0); [auto|now rewrite Er0]).
    rewrite Er0 in Ef. cbn [flat_map] in Ef. rewrite (bz_old _ _ _ _ HB y0 Hy0) in Ef. rewrite <- El, E1, <- Ef, !app_length. cbn. unfold sym in *. lia.
  Qed.

  Lemma upath_W : forall a b, clos_trans sym ustep a b -> derives_seq (c_rules W) (m a) (m b).
  Proof.
    intros a b H. induction H as [a b H|a b c _ IH1 _ IH2]; [now apply ustep_W|].
    eapply (proj2 (derives_compose _)); eauto.
  Qed.
  Lemma upath_rule : forall a b, clos_trans_1n sym ustep a b -> a < c_num_syms W ->
    exists r, In r (c_rules W) /\ p_lhs r = a /\ derives_seq (c_rules W) (p_rhs r) (m b).
  Proof.
    intros a b H La. destruct H as [b H|b c H H'].
    - now apply (proj2 (ustep_W _ _ H)).
    - destruct (proj2 (ustep_W _ _ H) La) as (r & Hr & El & Hd). exists r. split; [auto|]. split; [auto|].
      eapply (proj2 (derives_compose _)); [exact Hd|]. apply upath_W. now apply clos_t1n_trans.
  Qed.

  Lemma ustep_range : forall a b, ustep a b -> (gen a \/ a < c_num_syms W) /\ (gen b \/ b < c_num_syms W).
  Proof.
    intros a b (r & Hr & El & Er). unfold gen. split.
    - assert (a < c_num_syms E) by (apply E_range; exists r; auto). rewrite (el_syms _ _ _ _ HE) in *. lia.
    - assert (b < c_num_syms E) by (apply E_range; exists r; rewrite Er; simpl; auto). rewrite (el_syms _ _ _ _ HE) in *. lia.
  Qed.

  Lemma upath_gen : forall a b, clos_trans_1n sym ustep a b -> gen a ->
    (gen b /\ length (m b) < length (m a)) \/
    exists t, t < c_num_syms W /\ clos_trans sym ustep a t /\ (t = b \/ clos_trans sym ustep t b).
  Proof.
    intros a b H. induction H as [a b H|a b c H H' IH]; intros Ga.
    - destruct (proj2 (ustep_range _ _ H)) as [Gb|Ob].
      + left. split; [auto|]. now apply ustep_gen.
      + right. exists b. split; [auto|]. split; [now apply t_step|auto].
    - destruct (proj2 (ustep_range _ _ H)) as [Gb|Ob].
      + pose proof (ustep_gen _ _ H Ga Gb). destruct (IH Gb) as [[Gc Lc]|(t & Ot & P1 & P2)]; [left; split; [auto|lia]|].
        right. exists t. split; [auto|]. split; [eapply t_trans; [now apply t_step; exact H|auto]|auto].
      + right. exists b. split; [auto|]. split; [now apply t_step|]. right. now apply clos_t1n_trans.
  Qed.

  Lemma no_cycle_W : forall s r, In r (c_rules W) -> p_lhs r = s -> ~ derives_seq (c_rules W) (p_rhs r) [s].
  Proof.
    intros s r Hr El Hd. pose proof (wrap_new start U' W w HW) as (A1 & A2 & A3).
    pose proof (wrap_distinct start U' W w HW) as (D1 & _).
    destruct (wrap_rule_cases start U' W w HW r Hr) as [Hr'|(E1 & E2 & _)].
    - apply (Hcyc s). exists r. split; [exact (proper_sub start U U' HP r Hr')|]. split; [auto|].
      apply (proj2 (derives_sub _ _ (proper_sub start U U' HP))).
      apply (wrap_sound start U' W w HW U'_range start_range); [auto|]. intros Hin.
      assert (w_root w < c_num_syms U') by (apply U'_range; exists r; auto). lia.
    - rewrite E2 in Hd. inversion Hd as [|? ? w1 w2 K1 K2 Ea Eb]; subst.
      apply (terminal_derives _ _ _ (proj1 (wrap_sof_eof start U' W w HW U'_range start_range))) in K1. subst w1.
      injection Eb as Eb _. congruence.
  Qed.
  Lemma old_acyclic : forall s, s < c_num_syms W -> ~ clos_trans sym ustep s s.
  Proof.
    intros s Ls H. apply clos_trans_t1n in H. destruct (upath_rule s s H Ls) as (r & Hr & El & Hd).
    rewrite (bz_old _ _ _ _ HB s Ls) in Hd. exact (no_cycle_W s r Hr El Hd).
  Qed.

  Lemma E_acyclic : forall s, ~ clos_trans sym ustep s s.
  Proof.
    intros s H. assert (K : gen s \/ s < c_num_syms W).
    { assert (Q : forall a b, clos_trans_1n sym ustep a b -> gen a \/ a < c_num_syms W).
      { intros a b Q. destruct Q as [b Q|b c Q _]; exact (proj1 (ustep_range _ _ Q)). }
      exact (Q s s (clos_trans_t1n _ _ _ _ H)). }
    destruct K as [G|O]; [|now apply (old_acyclic s)].
    destruct (upath_gen s s (clos_trans_t1n _ _ _ _ H) G) as [[_ L]|(t & Ot & P1 & [->|P2])]; [lia|destruct G; lia|].
    apply (old_acyclic t Ot). eapply t_trans; eauto.
  Qed.

  (** *** renumbering *)
  Lemma eof_E : w_eof w < c_num_syms E.
  Proof. pose proof wrap_fields. pose proof (bz_syms _ _ _ _ HB). rewrite (el_syms _ _ _ _ HE). lia. Qed.

  Lemma order_exists : exists order, remap_order E (w_eof w) = Ret order /\ x_remap X (remap_cmp order) E = Ret (c0, maps) /\
    remapped (remap_cmp order) E c0 maps f.
  Proof.
    destruct (remap_order_total E E_range (w_eof w) eof_E) as (order & Ho). exists order. split; [auto|].
    exact (eb_remap _ _ _ _ _ _ _ _ _ _ _ _ _ _ HX order Ho).
  Qed.

  Variable order : bitmatrix.
  Hypothesis Hord : remap_order E (w_eof w) = Ret order.
  Hypothesis HR : remapped (remap_cmp order) E c0 maps f.
  Notation c := (sort_rules_by_lhs c0).
  Notation Rc := (c_rules (sort_rules_by_lhs c0)).
  Notation n := (c_num_syms c0).

  Lemma bit_get : forall o i j, bit o i j = true -> bm_get o i j = Ret true.
  Proof.
    intros o i j H. unfold bit in H. unfold bm_get. destruct (nth_error o i) as [row|] eqn:Ei.
    - rewrite (idx_some _ _ _ _ Ei). cbn [bind]. rewrite (nth_error_nth _ _ _ Ei) in H.
      destruct (nth_error row j) as [b|] eqn:Ej; [|apply nth_error_None in Ej; rewrite nth_overflow in H by auto; discriminate].
      rewrite (nth_error_nth _ _ _ Ej) in H. subst b. now apply idx_some.
    - apply nth_error_None in Ei. rewrite (nth_overflow o []) in H by auto. destruct j; discriminate.
  Qed.

  Lemma cmp_before : forall gens a b, find_gensyms E = Ret gens -> clos_trans sym (before E (w_eof w) gens) a b -> remap_cmp order a b = Ret Lt.
  Proof.
    intros gens a b Hg H. unfold remap_cmp. rewrite (bit_get order a b); [reflexivity|].
    apply (order_bits E (w_eof w) order gens Hord Hg). exact H.
  Qed.

  Lemma gens_E : exists gens, find_gensyms E = Ret gens /\ (forall s, nth_error gens s = Some true <-> kept_gen s) /\
    forall s, s < c_num_syms E -> ~ kept_gen s -> nth_error gens s = Some false.
  Proof.
    destruct (find_gensyms_total E E_range) as (gens & Hg). exists gens. split; [auto|].
    pose proof (gens_exact E kept_gen gens E_range E_shape Hg) as Ex. split; [exact Ex|]. intros s Hs Ng.
    destruct (nth_error gens s) as [[|]|] eqn:Es; [now apply Ex in Es|auto|]. apply nth_error_None in Es.
    rewrite (gens_len E gens Hg) in Es. lia.
  Qed.

  Lemma kept_used : forall g, kept_gen g -> used (c_rules E) g.
  Proof. intros g (_ & _ & (r & y & Hr & Er)). exists r. split; [auto|]. right. rewrite Er. simpl; auto. Qed.

  Lemma old_before_gen : forall a b, used (c_rules E) a -> ~ kept_gen a -> kept_gen b -> f a < f b.
  Proof.
    intros a b Ha La Gb. destruct gens_E as (gens & Hg & G1 & G2).
    apply (rm_order _ _ _ _ _ HR (fun s => nth_error gens s <> Some true)); auto; [|now apply kept_used|now rewrite G1|rewrite G1; tauto].
    intros x y Hx Hy Lx Ly. apply (cmp_before gens); [auto|]. apply t_step. apply b_gensym.
    - now apply E_range.
    - apply G2; [now apply E_range|]. now rewrite <- G1.
    - destruct (nth_error gens y) as [[|]|]; [auto|exfalso; apply Ly; discriminate|exfalso; apply Ly; discriminate].
  Qed.

  Lemma eof_first : forall b, used (c_rules E) (w_eof w) -> used (c_rules E) b -> b <> w_eof w -> f (w_eof w) < f b.
  Proof.
    intros b He Hb Nb. destruct gens_E as (gens & Hg & G1 & G2). pose proof wrap_fields as (_ & _ & Le).
    apply (rm_order _ _ _ _ _ HR (fun s => s = w_eof w)); auto.
    intros x y Hx Hy -> Ny. apply (cmp_before gens); [auto|]. apply t_step. pose proof (E_range y Hy) as Ly.
    destruct (nth_error gens y) as [[|]|] eqn:Ey.
    - apply b_gensym; auto; [apply eof_E|]. apply G2; [apply eof_E|]. unfold kept_gen, gen. lia.
    - now apply b_end.
    - apply nth_error_None in Ey. rewrite (gens_len E gens Hg) in Ey. lia.
  Qed.

  Lemma Forall2_nth : forall A A' (P : A -> A' -> Prop) l l', Forall2 P l l' -> forall i x, nth_error l' i = Some x ->
    exists y, nth_error l i = Some y /\ P y x.
  Proof.
    intros A A' P l l' F. induction F as [|a b l l' H F IH]; intros [|i] x Hx; try discriminate.
    - injection Hx as <-. exists a. auto.
    - exact (IH i x Hx).
  Qed.

  Lemma idx_back : exists p : nat -> nat, (forall i j, p i = p j -> i = j) /\
    forall i r', nth_error Rc i = Some r' -> exists r, nth_error (c_rules E) (p i) = Some r /\ renamed f r r'.
  Proof.
    pose proof (sort_by_perm _ (fun a b => p_lhs a <=? p_lhs b) (c_rules c0)) as P.
    apply Permutation_nth_error in P. destruct P as (_ & p & Hinj & Hp). exists p. split; [exact Hinj|].
    intros i r' Hi. change Rc with (sort_by (fun a b => p_lhs a <=? p_lhs b) (c_rules c0)) in Hi. rewrite Hp in Hi.
    exact (Forall2_nth _ _ _ _ _ (rm_rules _ _ _ _ _ HR) _ _ Hi).
  Qed.
  Lemma idx_onto : exists p : nat -> nat, (forall i j, p i = p j -> i = j) /\
    (forall i r', nth_error Rc i = Some r' -> exists r, nth_error (c_rules E) (p i) = Some r /\ renamed f r r') /\
    forall d r, nth_error (c_rules E) d = Some r -> exists i r', nth_error Rc i = Some r' /\ p i = d.
  Proof.
    pose proof (sort_by_perm _ (fun a b => p_lhs a <=? p_lhs b) (c_rules c0)) as P. pose proof (Permutation_length P) as PL.
    apply Permutation_nth_error in P. destruct P as (_ & p & Hinj & Hp). exists p. split; [exact Hinj|].
    change (sort_by (fun a b => p_lhs a <=? p_lhs b) (c_rules c0)) with Rc in *.
    pose proof (Forall2_len _ _ _ _ _ (rm_rules _ _ _ _ _ HR)) as EL. split.
    - intros i r' Hi. rewrite Hp in Hi. exact (Forall2_nth _ _ _ _ _ (rm_rules _ _ _ _ _ HR) _ _ Hi).
    - intros d r Hd.
      assert (Bp : FinFun.bFun (length Rc) p).
      { intros x Lx. apply nth_error_Some in Lx. rewrite Hp in Lx. apply nth_error_Some in Lx. unfold sym in *. lia. }
      assert (Ld : d < length Rc) by (assert (d < length (c_rules E)) by (apply nth_error_Some; rewrite Hd; discriminate); lia).
      destruct (proj1 (FinFun.bInjective_bSurjective Bp)) with (y := d) as (i & Li & Ei); [intros x y _ _; apply Hinj|exact Ld|].
      destruct (nth_error Rc i) as [r'|] eqn:Er; [|apply nth_error_None in Er; lia]. exists i, r'. auto.
  Qed.

  Definition gen' (t : sym) : Prop := exists s, kept_gen s /\ t = f s.

  Lemma f_eq : forall a b, used (c_rules E) a -> used (c_rules E) b -> f a = f b -> a = b.
  Proof. exact (rm_injective _ _ _ _ _ HR). Qed.

  Lemma used_lhs : forall d r, nth_error (c_rules E) d = Some r -> used (c_rules E) (p_lhs r).
  Proof. intros d r H. exists r. split; [eapply nth_error_In; eauto|auto]. Qed.
  Lemma used_rhs : forall d r s, nth_error (c_rules E) d = Some r -> In s (p_rhs r) -> used (c_rules E) s.
  Proof. intros d r s H Hs. exists r. split; [eapply nth_error_In; eauto|auto]. Qed.

  Lemma map_two : forall l a y, map f l = [a; y] -> exists a' y', l = [a'; y'] /\ a = f a' /\ y = f y'.
  Proof. intros [|a' [|y' [|]]] a y H; try discriminate. injection H as <- <-. eauto. Qed.

  Lemma in_Rc : forall r', In r' Rc -> exists r, In r (c_rules E) /\ renamed f r r'.
  Proof. intros r' H. apply (remap_in _ _ _ _ _ HR) in H. destruct H as (r & Hr & Hn & _). eauto. Qed.

  Lemma c_shape : gen_shape Rc gen'.
  Proof.
    pose proof E_shape as S. destruct idx_back as (p & Pinj & Pback). constructor.
    - intros t (s & Gs & ->). destruct (gs_origin _ _ S s Gs) as (r & Hr & El & Eo).
      destruct (remap_has _ _ _ _ _ HR r Hr) as (r' & Hr' & E1 & E2 & E3 & _). exists r'. split; [auto|]. split; congruence.
    - intros t (s & Gs & ->). destruct (gs_lhs _ _ S s Gs) as (r & a & y & Hr & El & Er & Na).
      destruct (remap_has _ _ _ _ _ HR r Hr) as (r' & Hr' & E1 & E2 & E3 & _). exists r', (f a), (f y).
      split; [auto|]. split; [congruence|]. split; [rewrite E2, Er; auto|]. intros K. apply Na. apply f_eq; auto.
      + exists r. rewrite Er. simpl; auto.
      + now apply kept_used.
    - intros t d d' r r' a y a' y' (s & Gs & ->) Hd Hd' El Er El' Er'.
      destruct (Pback d r Hd) as (q & Hq & E1 & E2 & _). destruct (Pback d' r' Hd') as (q' & Hq' & E1' & E2' & _).
      rewrite Er in E2. rewrite Er' in E2'. symmetry in E2, E2'. apply map_two in E2. apply map_two in E2'.
      destruct E2 as (u & v & Eq & _). destruct E2' as (u' & v' & Eq' & _). apply Pinj.
      apply (gs_lhs_once _ _ S s _ _ q q' u v u' v' Gs Hq Hq'); auto; apply f_eq; try (now apply kept_used); try congruence;
        eapply used_lhs; eauto.
    - intros t (s & Gs & ->). destruct (gs_first _ _ S s Gs) as (r & y & Hr & Nl & Er).
      destruct (remap_has _ _ _ _ _ HR r Hr) as (r' & Hr' & E1 & E2 & E3 & _). exists r', (f y).
      split; [auto|]. split; [|rewrite E2, Er; auto]. rewrite E1. intros K. apply Nl. apply f_eq; auto; [|now apply kept_used].
      exists r. auto.
    - intros t d d' r r' y y' (s & Gs & ->) Hd Hd' Er Er'.
      destruct (Pback d r Hd) as (q & Hq & E1 & E2 & _). destruct (Pback d' r' Hd') as (q' & Hq' & E1' & E2' & _).
      rewrite Er in E2. rewrite Er' in E2'. symmetry in E2, E2'. apply map_two in E2. apply map_two in E2'.
      destruct E2 as (u & v & Eq & Eu & _). destruct E2' as (u' & v' & Eq' & Eu' & _). apply Pinj.
      assert (u = s) by (apply f_eq; [eapply used_rhs; [exact Hq|rewrite Eq; simpl; auto]|now apply kept_used|auto]).
      assert (u' = s) by (apply f_eq; [eapply used_rhs; [exact Hq'|rewrite Eq'; simpl; auto]|now apply kept_used|auto]). subst u u'.
      exact (gs_first_once _ _ S s _ _ q q' v v' Gs Hq Hq' Eq Eq').
    - intros t r' (s & Gs & ->) Hr' Hin. destruct (in_Rc r' Hr') as (r & Hr & E1 & E2 & _). rewrite E2 in Hin.
      apply (gs_later _ _ S s r Gs Hr). destruct (p_rhs r) as [|a l] eqn:Er; [destruct Hin|]. cbn in *.
      apply in_map_iff in Hin. destruct Hin as (z & Ez & Hz). assert (z = s); [|now subst]. apply f_eq; auto; [|now apply kept_used].
      exists r. split; [auto|]. right. rewrite Er. simpl; auto.
    - intros t (r' & Hr' & El & Eo). destruct (in_Rc r' Hr') as (r & Hr & E1 & E2 & E3 & _).
      destruct (gs_only _ _ S (p_lhs r)) as [G|N]; [exists r; repeat split; congruence|left; exists (p_lhs r); split; congruence|].
      right. destruct N as [N|N].
      + left. intros q' y Hq' Eq. destruct (in_Rc q' Hq') as (q & Hq & F1 & F2 & _). rewrite F2, <- El, E1 in Eq. apply map_two in Eq.
        destruct Eq as (z & y' & Eq & Ez & _). apply (N q y' Hq). assert (p_lhs r = z); [|congruence]. apply f_eq; [exists r; auto| |auto].
        exists q. split; [auto|]. right. rewrite Eq. simpl; auto.
      + right. intros q' a y Hq' Elq Eq. destruct (in_Rc q' Hq') as (q & Hq & F1 & F2 & _). rewrite F2 in Eq. apply map_two in Eq.
        destruct Eq as (a' & y' & Eq & _). apply (N q a' y' Hq); [|auto]. apply f_eq; [exists q; auto|exists r; auto|congruence].
  Qed.

  Lemma c_range : forall t, used Rc t -> t < n.
  Proof. intros t Ht. apply (remap_used _ _ _ _ _ HR) in Ht. destruct Ht as (s & Hs & ->). exact (rm_range _ _ _ _ _ HR s Hs). Qed.

  Lemma filter_bits : forall l, length (filter (fun b : bool => b) l) = length (filter (fun t => nth t l false) (seq 0 (length l))).
  Proof.
    assert (G : forall l k, length (filter (fun b : bool => b) l) = length (filter (fun t => nth (t - k) l false) (seq k (length l)))).
    { induction l as [|b l IH]; intros k; [auto|]. cbn [length seq filter]. rewrite Nat.sub_diag. change (nth 0 (b :: l) false) with b.
      assert (Ef : filter (fun t => nth (t - k) (b :: l) false) (seq (S k) (length l)) = filter (fun t => nth (t - S k) l false) (seq (S k) (length l))).
      { apply filter_ext_in. intros t Ht. apply in_seq in Ht. replace (t - k) with (S (t - S k)) by lia. reflexivity. }
      rewrite Ef. destruct b; cbn [length]; rewrite (IH (S k)); auto. }
    intros l. rewrite (G l 0). f_equal. apply filter_ext. intros t. now rewrite Nat.sub_0_r.
  Qed.

  Lemma nsyms_exists : exists nsyms, nsyms <= n /\ num_gensyms c = Ret (n - nsyms) /\
    (forall s, used (c_rules E) s -> (kept_gen s <-> nsyms <= f s)) /\
    (forall t, nsyms <= t -> t < n -> gen' t).
  Proof.
    destruct (find_gensyms_total c c_range) as (gens & Hg).
    pose proof (gens_exact c gen' gens c_range c_shape Hg) as Ex. pose proof (gens_len c gens Hg) as Lg. change (c_num_syms c) with n in Lg.
    set (cnt := length (filter (fun t => nth t gens false) (seq 0 n))).
    assert (Lc : cnt <= n). { unfold cnt. rewrite <- (seq_length n 0) at 2. generalize (seq 0 n). intros l. induction l as [|a l IH]; [auto|]. cbn. destruct (nth a gens false); cbn; lia. }
    assert (Bit : forall t, nth t gens false = true <-> gen' t).
    { intros t. rewrite <- Ex. destruct (nth_error gens t) as [b|] eqn:Et.
      - rewrite (nth_error_nth _ _ _ Et). split; congruence.
      - split; [|discriminate]. apply nth_error_None in Et. rewrite nth_overflow by auto. discriminate. }
    assert (Sep : forall t, t < n -> (nth t gens false = true <-> n - cnt <= t)).
    { apply (split_count (fun t => nth t gens false)). intros a b La Lb Pa Pb. apply Bit in Pb. destruct Pb as (g & Gg & ->).
      destruct (rm_onto _ _ _ _ _ HR a La) as (s & Hs & <-). apply old_before_gen; auto.
      intros Ks. assert (nth (f s) gens false = true); [|congruence]. apply Bit. exists s. auto. }
    exists (n - cnt). split; [lia|]. split; [|split].
    - unfold num_gensyms. rewrite Hg. cbn [bind]. rewrite filter_bits, Lg. fold cnt. f_equal. lia.
    - intros s Hs. pose proof (rm_range _ _ _ _ _ HR s Hs) as Lf. pose proof (Sep (f s) Lf) as K. rewrite Bit in K. rewrite <- K. split.
      + intros Ks. exists s. auto.
      + intros (g & Gg & Eg). apply f_eq in Eg; [|auto|now apply kept_used]. now subst g.
    - intros t L1 L2. apply Bit. now apply Sep.
  Qed.

  (** *** inverse of the renumbering *)
  Definition used_list : list sym := flat_map (fun r => p_lhs r :: p_rhs r) (c_rules E).
  Definition inv (t : sym) : sym := match find (fun a => f a =? t) used_list with Some a => a | None => 0 end.
  Lemma used_list_spec : forall s, In s used_list <-> used (c_rules E) s.
  Proof. intros s. unfold used_list. rewrite in_flat_map. cbn [In]. reflexivity. Qed.
  Lemma inv_f : forall s, used (c_rules E) s -> inv (f s) = s.
  Proof.
    intros s Hs. unfold inv. destruct (find (fun a => f a =? f s) used_list) as [a|] eqn:F.
    - apply find_some in F. destruct F as [F1 F2]. apply Nat.eqb_eq in F2. apply f_eq; auto. now apply used_list_spec.
    - apply used_list_spec in Hs. pose proof (find_none _ _ F s Hs) as K. cbn in K. rewrite Nat.eqb_refl in K. discriminate.
  Qed.

  (** *** the processed grammar *)
  Lemma wrapped_c : exists w', c_wrapped c = [w'] /\ w_root w' = f (w_root w) /\ w_sof w' = f (w_sof w) /\ w_eof w' = f (w_eof w) /\
    (used (c_rules E) start -> w_inner w' = f start).
  Proof.
    destruct (rm_wrapped _ _ _ _ _ HR w) as (w' & E1 & E2 & E3 & E4 & E5).
    - rewrite (el_wrapped _ _ _ _ HE), (bz_wrapped _ _ _ _ HB). apply (wr_wrapped _ _ _ _ HW).
    - rewrite (wr_inner _ _ _ _ HW) in E5. exists w'. auto.
  Qed.

  Lemma used_root_E : used (c_rules E) (w_root w) /\ used (c_rules E) (w_sof w) /\ used (c_rules E) (w_eof w) /\
    (visible (c_rules B) start -> used (c_rules E) start).
  Proof.
    destruct root_B as (b & r & g0 & b1 & r1 & Hb & El & _ & Er & _ & _ & Hb1 & _ & _ & Er1 & _).
    assert (Hr : In r (c_rules B)) by (eapply nth_error_In; eauto). assert (Hr1 : In r1 (c_rules B)) by (eapply nth_error_In; eauto).
    destruct root_E as (d & g1 & (q & Hd & Elq & _) & _).
    split; [exists q; split; [eapply nth_error_In; eauto|auto]|].
    split; [|split; [|intros V]]; (apply vis_used; [|try exact V; apply vis_root_rhs; simpl; auto]); [exists r1|exists r|exists r1]; (split; [auto|]);
      rewrite ?Er, ?Er1; simpl; auto.
  Qed.

  Lemma c_wf : forall nsyms, (forall s, used (c_rules E) s -> (kept_gen s <-> nsyms <= f s)) ->
    (forall t, nsyms <= t -> t < n -> gen' t) -> wf_rules Rc nsyms n.
  Proof.
    intros nsyms Hns Hgen. constructor.
    - intros r' Hr'. destruct (in_Rc r' Hr') as (r & Hr & _ & E2 & _). rewrite E2, map_length. now apply E_arity.
    - intros r' Hr'. apply c_range. exists r'. auto.
    - intros r' t Hr' Ht. apply c_range. exists r'. auto.
    - intros r' t Hr' Ht. destruct (in_Rc r' Hr') as (r & Hr & _ & E2 & _). rewrite E2, nth_error_map in Ht.
      destruct (nth_error (p_rhs r) 1) as [s|] eqn:Es; [|discriminate]. injection Ht as <-. assert (Us : used (c_rules E) s) by (exists r; split; [auto|right; eapply nth_error_In; eauto]).
      pose proof (E_second r s Hr Es) as Ls. destruct (Nat.lt_ge_cases (f s) nsyms) as [L|L]; [auto|]. apply (Hns s Us) in L. destruct L as ([L _] & _). lia.
    - intros t L1 L2. destruct (gs_first _ _ c_shape t (Hgen t L1 L2)) as (r & y & Hr & _ & Er). exists r. split; [auto|]. now rewrite Er.
    - intros d1 d2 r1 r2 t Lt H1 H2 F1 F2. destruct idx_back as (p & Pinj & Pback).
      destruct (Pback d1 r1 H1) as (q1 & Hq1 & A1 & A2 & _). destruct (Pback d2 r2 H2) as (q2 & Hq2 & B1 & B2 & _).
      rewrite A2, nth_error_map in F1. rewrite B2, nth_error_map in F2.
      destruct (nth_error (p_rhs q1) 0) as [s1|] eqn:S1; [|discriminate]. destruct (nth_error (p_rhs q2) 0) as [s2|] eqn:S2; [|discriminate].
      injection F1 as F1. injection F2 as F2.
      assert (U1 : used (c_rules E) s1) by (eapply used_rhs; [exact Hq1|eapply nth_error_In; eauto]).
      assert (U2 : used (c_rules E) s2) by (eapply used_rhs; [exact Hq2|eapply nth_error_In; eauto]).
      assert (s2 = s1) by (apply f_eq; auto; congruence). subst s2.
      assert (G : gen s1).
      { apply (Hns s1 U1). lia. }
      destruct (bz_gen_use _ _ _ _ HB s1 (proj1 G) (proj2 G)) as (b0 & r0 & y0 & Hb0 & Er0 & Hu).
      destruct (E_first_gen s1 b0 r0 y0 G Hb0 Er0 Hu _ _ Hq1 S1) as [X1 X2]. destruct (E_first_gen s1 b0 r0 y0 G Hb0 Er0 Hu _ _ Hq2 S2) as [Y1 Y2].
      split; [congruence|]. rewrite A2, B2, !map_length. intros Hl. apply Pinj. apply (el_once _ _ _ _ HE _ _ q1 q2 Hq1 Hq2).
      destruct X2 as [[X2 X3]|[X2 X3]]; destruct Y2 as [[Y2 Y3]|[Y2 Y3]]; rewrite X2, Y2 in Hl; try discriminate Hl; congruence.
    - exists (fun t => maxlen - length (m (inv t))). intros r' t Hr' Ht Lt Ll.
      destruct (in_Rc r' Hr') as (r & Hr & E1 & E2 & _). rewrite E2, nth_error_map in Ht.
      destruct (nth_error (p_rhs r) 0) as [s|] eqn:Es; [|discriminate]. injection Ht as <-.
      assert (Us : used (c_rules E) s) by (exists r; split; [auto|right; eapply nth_error_In; eauto]).
      assert (Ul : used (c_rules E) (p_lhs r)) by (exists r; auto).
      rewrite E1 in *. rewrite !inv_f by auto.
      assert (Gx : forall x, used (c_rules E) x -> nsyms <= f x -> gen x).
      { intros x Ux Lx. now apply (Hns x Ux). }
      assert (Gs : gen s) by auto. assert (Gl : gen (p_lhs r)) by auto. apply In_nth_error in Hr. destruct Hr as (d & Hd).
      destruct (bz_gen_use _ _ _ _ HB s (proj1 Gs) (proj2 Gs)) as (b0 & r0 & y0 & Hb0 & Er0 & Hu).
      destruct (E_first_gen s b0 r0 y0 Gs Hb0 Er0 Hu d r Hd Es) as [El _].
      assert (Hr0 : In r0 (c_rules B)) by (eapply nth_error_In; eauto).
      destruct (bz_gen_rule _ _ _ _ HB r0 Hr0) as (_ & _ & Ef); [destruct Gl; congruence|].
      assert (Hy0 : y0 < c_num_syms W) by (apply (bz_second _ _ _ _ HB r0); [auto|now rewrite Er0]).
      rewrite Er0 in Ef. cbn [flat_map] in Ef. rewrite (bz_old _ _ _ _ HB y0 Hy0) in Ef.
      apply (f_equal (@length sym)) in Ef. rewrite !app_length in Ef. cbn in Ef. rewrite <- El in Ef.
      pose proof (maxlen_ok (p_lhs r) (proj2 Gl)). lia.
  Qed.

  Lemma c_acyclic : unary_acyclic Rc.
  Proof.
    destruct (acyclic_ranked (c_rules E) (c_num_syms E) E_range E_acyclic) as (rank & Hrank).
    exists (fun t => rank (inv t)). intros r' t Hr' Er'. destruct (in_Rc r' Hr') as (r & Hr & E1 & E2 & _).
    rewrite Er' in E2. destruct (p_rhs r) as [|s [|]] eqn:Er; try discriminate E2. injection E2 as ->.
    rewrite E1, !inv_f; [now apply Hrank|exists r; rewrite Er; simpl; auto|exists r; auto].
  Qed.

  Lemma c_shaped : exists nsyms w' d0 g0, shaped c nsyms w' d0 (f g0) /\ gen g0 /\
    c_wrapped c = [w'] /\ w_root w' = f (w_root w) /\ w_sof w' = f (w_sof w) /\ w_eof w' = f (w_eof w) /\ (used (c_rules E) start -> w_inner w' = f start) /\
    (forall s, used (c_rules E) s -> (kept_gen s <-> nsyms <= f s)) /\
    (forall r, In r (c_rules E) -> p_lhs r = g0 -> p_rhs r = [w_sof w; start] \/ (p_rhs r = [w_sof w] /\ nullable (c_rules B) start)) /\
    (nullable (c_rules B) start -> exists r, In r (c_rules E) /\ p_lhs r = g0 /\ p_rhs r = [w_sof w]) /\
    (visible (c_rules B) start -> exists r, In r (c_rules E) /\ p_lhs r = g0 /\ p_rhs r = [w_sof w; start]) /\
    (exists r, In r (c_rules B) /\ p_lhs r = g0 /\ p_rhs r = [w_sof w; start]).
  Proof.
    destruct nsyms_exists as (nsyms & L1 & L2 & L3 & L4). destruct wrapped_c as (w' & W1 & W2 & W3 & W4 & W5).
    destruct used_root_E as (Ur & Us & Ue & _).
    destruct root_E as (de & g0 & (re & Hde & Ele & Ere) & Huniq & Gg & Hg0 & Hn0 & Hv0 & HgB).
    pose proof wrap_fields as (F1 & F2 & F3). destruct sof_eof_B as [Ts Te].
    assert (Ug : used (c_rules E) g0) by now apply gen_used.
    assert (L5 : forall s, used (c_rules E) s -> s < c_num_syms W -> f s < nsyms).
    { intros s Hu Ls. destruct (Nat.lt_ge_cases (f s) nsyms) as [L|L]; [auto|]. apply (L3 s Hu) in L. destruct L as ([L _] & _). lia. }
    destruct (remap_has _ _ _ _ _ HR re ltac:(eapply nth_error_In; eauto)) as (r0 & Hr0 & R1 & R2 & _).
    apply In_nth_error in Hr0. destruct Hr0 as (d0 & Hd0).
    destruct idx_back as (p & Pinj & Pback).
    assert (Only : forall d r, nth_error Rc d = Some r -> p_lhs r = f (w_root w) -> d = d0).
    { intros d r Hd El. apply Pinj. destruct (Pback d r Hd) as (q & Hq & A1 & _). destruct (Pback d0 r0 Hd0) as (q0 & Hq0 & B1 & _).
      rewrite (Huniq _ q Hq), (Huniq _ q0 Hq0); auto; apply f_eq; auto; try congruence; eapply used_lhs; eauto. }
    exists nsyms, w', d0, g0. split; [|repeat (split; [assumption|]); assumption].
    constructor.
    - now apply c_wf.
    - exact L1.
    - exact L2.
    - now rewrite W1.
    - rewrite W2. now apply L5.
    - rewrite W3. now apply L5.
    - rewrite W4. now apply L5.
    - exists r0. split; [auto|]. rewrite W2, W4, R1, R2, Ele, Ere. auto.
    - intros d r Hd El. rewrite W2 in El. now apply (Only d r).
    - intros r' Hr' El. destruct (in_Rc r' Hr') as (r & Hr & A1 & A2 & _). rewrite A2, W3.
      assert (p_lhs r = g0) by (apply f_eq; auto; [exists r; auto|congruence]).
      destruct (Hg0 r Hr H) as [K|(K & _)]; rewrite K; auto. left. rewrite W5; [reflexivity|]. exists r. rewrite K. simpl. auto.
    - intros r' Hr' Hin. destruct (in_Rc r' Hr') as (r & Hr & A1 & A2 & _). rewrite A2, W2 in Hin. apply in_map_iff in Hin.
      destruct Hin as (z & Ez & Hz). assert (z = w_root w) by (apply f_eq; auto; exists r; auto). subst z. now apply (root_not_rhs_E r).
    - rewrite W3. apply (remap_terminal _ _ _ _ _ HR); [auto|]. exact (elim_terminal B E nulling origin HE _ Ts).
    - rewrite W4. apply (remap_terminal _ _ _ _ _ HR); [auto|]. exact (elim_terminal B E nulling origin HE _ Te).
    - intros d r' C Hd HC. destruct (Pback d r' Hd) as (r & Hr & A1 & A2 & _). unfold rhs1 in HC. rewrite A2, nth_error_map in HC.
      destruct (nth_error (p_rhs r) 1) as [s|] eqn:Es; [|discriminate]. injection HC as <-.
      destruct (Nat.eq_dec s (w_eof w)) as [->|N].
      + right. apply (Only d r' Hd). rewrite A1. f_equal.
        destruct (elim_rule B E nulling origin HE r ltac:(eapply nth_error_In; eauto)) as (q & mask & Hq & _ & E1 & _ & E2 & _).
        rewrite E1. apply (eof_B q Hq). apply (left_over_in mask). rewrite <- E2. eapply nth_error_In; eauto.
      + left. rewrite W4. apply eof_first; auto. eapply used_rhs; [exact Hr|eapply nth_error_In; eauto].
    - rewrite W3. intros K. apply f_eq in K; auto. subst g0. lia.
  Qed.
  Lemma c_processed : exists nsyms w' d0 g0, processed c nsyms w' d0 (f g0) /\ gen g0 /\
    c_wrapped c = [w'] /\ w_root w' = f (w_root w) /\ w_sof w' = f (w_sof w) /\ w_eof w' = f (w_eof w) /\ (used (c_rules E) start -> w_inner w' = f start) /\
    (forall s, used (c_rules E) s -> (kept_gen s <-> nsyms <= f s)) /\
    (forall r, In r (c_rules E) -> p_lhs r = g0 -> p_rhs r = [w_sof w; start] \/ (p_rhs r = [w_sof w] /\ nullable (c_rules B) start)) /\
    (nullable (c_rules B) start -> exists r, In r (c_rules E) /\ p_lhs r = g0 /\ p_rhs r = [w_sof w]) /\
    (visible (c_rules B) start -> exists r, In r (c_rules E) /\ p_lhs r = g0 /\ p_rhs r = [w_sof w; start]) /\
    (exists r, In r (c_rules B) /\ p_lhs r = g0 /\ p_rhs r = [w_sof w; start]).
  Proof.
    destruct c_shaped as (nsyms & w' & d0 & g0 & H & K). exists nsyms, w', d0, g0. split; [|exact K].
    exact (shaped_processed _ _ _ _ _ H c_acyclic).
  Qed.

  (** *** construction *)
  Lemma null_gen : forall r x y, In r (c_rules B) -> p_origin r = None -> p_rhs r = [x; y] -> nullable (c_rules B) y -> gen (p_lhs r).
  Proof.
    intros r x y Hr Eo Er N2. assert (Hl : p_lhs r < c_num_syms B) by (apply (bz_range _ _ _ _ HB); exists r; auto).
    destruct (Nat.lt_ge_cases (p_lhs r) (c_num_syms W)) as [L|L]; [exfalso|split; auto].
    destruct (bin_head W B m head HB r Hr L) as (rw & Hrw & _ & Eo' & Ef).
    destruct (wrap_rule_cases start U' W w HW rw Hrw) as [K|(_ & K & _)].
    - apply (ug_origin _ _ HU rw); [|congruence]. exact (proper_sub start U U' HP rw K).
    - rewrite Er, K in Ef. cbn [flat_map] in Ef.
      assert (Hy : y < c_num_syms W) by (apply (bz_second _ _ _ _ HB r); [auto|now rewrite Er]).
      rewrite (bz_old _ _ _ _ HB y Hy), app_nil_r in Ef.
      assert (y = w_eof w) by (change [w_sof w; start; w_eof w] with ([w_sof w; start] ++ [w_eof w]) in Ef; apply app_inj_tail in Ef; tauto).
      subst y. exact (terminal_not_nullable _ (proj2 sof_eof_B) N2).
  Qed.

  Lemma tables_total : forall nsyms w' d0 g0 first follow, shaped c nsyms w' d0 g0 ->
    exists k g, forall fuel, k <= fuel -> from_processed_grammars fuel c maps nulling first follow = Ret g.
  Proof.
    intros nsyms w' d0 g0 first follow Hpr. apply (from_shaped_total c nsyms w' d0 g0); [auto| | |].
    - change (c_roots c) with (c_roots c0). rewrite (rm_roots _ _ _ _ _ HR), map_length, (el_roots _ _ _ _ HE), (bz_roots _ _ _ _ HB), (wr_roots _ _ _ _ HW).
      reflexivity.
    - intros r' Hr'. destruct (in_Rc r' Hr') as (r & Hr & _ & _ & _ & A4 & _). unfold column_dot. rewrite A4. exact (el_dots _ _ _ _ HE r Hr).
    - intros r r0 r1 Hr Er Eo s Hs. apply (el_nulling _ _ _ _ HE) in Hr. destruct Hr as [Hr Hn]. exists (f s). apply (rm_internal _ _ _ _ _ HR).
      assert (G : gen (p_lhs r)) by (rewrite Er in Hn; inversion Hn as [|? ? _ Hn']; inversion Hn'; subst; eapply null_gen; eauto).
      destruct Hs as [->|Hs]; [now apply gen_used|]. assert (Hin : In s (p_rhs r)) by (rewrite Er; destruct Hs as [->| ->]; simpl; auto).
      apply vis_used; [exists r; auto|]. destruct (Nat.lt_ge_cases s (c_num_syms W)) as [L|L].
      + apply (null_gen_m (p_lhs r)); [auto|apply derives_rule; [auto|now apply seq_nullable]|].
        destruct (bz_gen_rule _ _ _ _ HB r Hr (proj1 G)) as (_ & _ & Ef). rewrite <- Ef.
        apply in_flat_map. exists s. split; [auto|]. rewrite (bz_old _ _ _ _ HB s L). simpl; auto.
      + apply vis_gen. split; [auto|]. apply (bz_range _ _ _ _ HB). exists r. auto.
  Qed.

  Lemma from_grammar_tables : forall fuel g, x_remap X (remap_cmp order) E = Ret (c0, maps) ->
    from_processed_grammars fuel c maps nulling (x_first X c) (x_follow X c) = Ret g -> from_grammar X fuel U = Ret g.
  Proof.
    intros fuel g Hx H. unfold from_grammar. rewrite (proj1 (eb_wrap _ _ _ _ _ _ _ _ _ _ _ _ _ _ HX)).
    rewrite (proj1 (eb_eliminate _ _ _ _ _ _ _ _ _ _ _ _ _ _ HX)). unfold remap_symbols.
    rewrite (el_wrapped _ _ _ _ HE), (bz_wrapped _ _ _ _ HB), (wr_wrapped _ _ _ _ HW). cbn [length Nat.eqb assert bind idx nth_error unwrap].
    rewrite Hord. cbn [bind]. rewrite Hx. cbn [bind]. assert (H2 := H). unfold from_processed_grammars in H2.
    apply bind_Ret in H2. destruct H2 as (gens & -> & H2). cbn [bind]. cbn zeta in H2.
    apply bind_Ret in H2. destruct H2 as (? & _ & H2). apply bind_Ret in H2. destruct H2 as (? & _ & H2).
    apply bind_Ret in H2. destruct H2 as (? & _ & H2). apply bind_Ret in H2. destruct H2 as (? & _ & H2).
    apply bind_Ret in H2. destruct H2 as (? & _ & H2). apply bind_Ret in H2. destruct H2 as (? & _ & H2).
    apply bind_Ret in H2. destruct H2 as (? & _ & H2). apply bind_Ret in H2. destruct H2 as (by0 & -> & H2). cbn [bind].
    apply bind_Ret in H2. destruct H2 as (pm & -> & H2). cbn [bind]. exact H.
  Qed.

  (** *** language *)
  Lemma language : forall w' g0 x, (used (c_rules E) start -> w_inner w' = f start) -> w_sof w' = f (w_sof w) -> gen g0 ->
    (forall r, In r (c_rules E) -> p_lhs r = g0 -> p_rhs r = [w_sof w; start] \/ (p_rhs r = [w_sof w] /\ nullable (c_rules B) start)) ->
    (nullable (c_rules B) start -> exists r, In r (c_rules E) /\ p_lhs r = g0 /\ p_rhs r = [w_sof w]) ->
    (visible (c_rules B) start -> exists r, In r (c_rules E) /\ p_lhs r = g0 /\ p_rhs r = [w_sof w; start]) ->
    Forall (terminal (c_rules U)) x -> (forall s, In s x -> s < c_num_syms U /\ used (c_rules E) s) ->
    (sentence c w' (f g0) (map f x) <-> derives (c_rules U) start x).
  Proof.
    intros w' g0 x Ei Es Gg Hg0 Hn0 Hv0 Hx Hr. pose proof U_W as LU. destruct used_root_E as (Ur & Us & Ue & Ut). unfold sentence. rewrite Es. split.
    - intros [(Ex & r' & Hr' & El & Er)|((r' & Hr' & El & Er) & Hd)].
      + apply map_eq_nil in Ex. subst x. destruct (in_Rc r' Hr') as (r & Hr0 & A1 & A2 & _).
        assert (p_lhs r = g0) by (apply f_eq; [exists r; auto|now apply gen_used|congruence]).
        destruct (Hg0 r Hr0 H) as [K|(K & Hn)]; [rewrite A2, K in Er; discriminate|].
        apply B_to_U; [apply (ug_start _ _ HU)|intros t []|exact Hn].
      + destruct (in_Rc r' Hr') as (r & Hr0 & A1 & A2 & _).
        assert (p_lhs r = g0) by (apply f_eq; [exists r; auto|now apply gen_used|congruence]).
        assert (Uu : used (c_rules E) start).
        { destruct (Hg0 r Hr0 H) as [K|(K & _)]; [exists r; rewrite K; simpl; auto|]. rewrite A2, K in Er. discriminate Er. }
        rewrite (Ei Uu) in Hd. apply (remap_language _ _ _ _ _ HR) in Hd; [|auto|intros a Ha; now apply Hr].
        apply (elim_sound B E nulling origin HE) in Hd. apply B_to_U; [apply (ug_start _ _ HU)| |exact Hd].
        intros t Ht. destruct (Hr t Ht). lia.
    - intros Hd. apply (proper_language start U U' HP) in Hd; [|auto].
      assert (Tx : Forall (terminal (c_rules B)) x) by (eapply U_terminal_B; eauto; apply (ug_start _ _ HU)).
      apply U'_to_B in Hd. destruct x as [|t x].
      + left. split; [auto|]. destruct (Hn0 Hd) as (r & Hr0 & El & Er). destruct (remap_has _ _ _ _ _ HR r Hr0) as (r' & Hr' & A1 & A2 & _).
        exists r'. split; [auto|]. rewrite A1, A2, El, Er. auto.
      + assert (V : visible (c_rules B) start) by (exists (t :: x); split; [discriminate|auto]). right. rewrite (Ei (Ut V)). split.
        * destruct (Hv0 V) as (r & Hr0 & El & Er). destruct (remap_has _ _ _ _ _ HR r Hr0) as (r' & Hr' & A1 & A2 & _).
          exists r'. split; [auto|]. rewrite A1, A2, El, Er. auto.
        * apply (remap_language _ _ _ _ _ HR); [auto|intros a Ha; now apply Hr|]. apply (elim_complete B E nulling origin HE); [auto|discriminate|auto].
  Qed.

  (** *** known tokens *)
  Lemma used_W_B : forall s, used (c_rules W) s -> used (c_rules B) s.
  Proof.
    intros s (r & Hr & Hs). apply In_nth_error in Hr. destruct Hr as (d & Hd).
    destruct (bz_head _ _ _ _ HB d r Hd) as (r' & Hb & E1 & _ & E2). assert (Hr' : In r' (c_rules B)) by (eapply nth_error_In; eauto).
    destruct Hs as [Hs|Hs]; [exists r'; split; [auto|]; left; congruence|].
    rewrite <- E2 in Hs. apply in_flat_map in Hs. destruct Hs as (a & Ha & Hs).
    assert (La : a < c_num_syms B) by (apply (bz_range _ _ _ _ HB); exists r'; auto).
    destruct (Nat.lt_ge_cases a (c_num_syms W)) as [L|L].
    - rewrite (bz_old _ _ _ _ HB a L) in Hs. destruct Hs as [<-|[]]. exists r'. auto.
    - pose proof (bin_gen W B m head HB (length (m a)) a (le_n _) L La) as D.
      destruct (proj1 (derives_used _) _ _ D s Hs) as [->|K]; [exists r'; auto|auto].
  Qed.

  Lemma known_terminal_B : forall t, t < c_num_syms U -> terminal (c_rules U) t -> terminal (c_rules B) t.
  Proof.
    intros t Lt Ht. apply (bin_terminal W B m head HB); [pose proof U_W; lia|].
    apply (wrap_terminal start U' W w HW start_range); [|rewrite (mp_syms _ _ _ HP); auto].
    intros r Hr. apply Ht. exact (proper_sub start U U' HP r Hr).
  Qed.

  Lemma known_used : forall t, t < c_num_syms U -> terminal (c_rules U) t -> (known U start t <-> used (c_rules E) t).
  Proof.
    intros t Lt Ht. split.
    - intros [->|(r & Hr & Hu & Hin)];
      [apply used_root_E; exists [start]; split; [discriminate|]; split; [constructor; [|constructor]|constructor]; now apply known_terminal_B|]. apply vis_used;
      [|exists [t]; split; [discriminate|]; split; [constructor; [|constructor]|constructor]; now apply known_terminal_B]. apply used_W_B. exists r. split; [|auto].
      apply (wrap_rule start U' W w HW). left. apply (mp_rules _ _ _ HP). auto.
    - intros Hu. apply (elim_used B E nulling origin HE) in Hu. apply used_B_W in Hu; [|pose proof U_W; lia].
      destruct Hu as (r & Hr & Hs). pose proof (wrap_new start U' W w HW) as (A1 & A2 & A3). rewrite (mp_syms _ _ _ HP) in *.
      destruct (wrap_rule_cases start U' W w HW r Hr) as [Hr'|(E1 & E2 & _)].
      + apply (mp_rules _ _ _ HP) in Hr'. destruct Hr' as [Hr' Huse]. destruct Hs as [Hs|Hs]; [exfalso; now apply (Ht r)|].
        right. exists r. auto.
      + rewrite E1, E2 in Hs. destruct Hs as [Hs|[Hs|[Hs|[Hs|[]]]]]; [lia|lia|left; auto|lia].
  Qed.

  Lemma known_terminal : forall t, t < c_num_syms U -> terminal (c_rules U) t -> terminal (c_rules E) t.
  Proof.
    intros t Lt Ht. apply (elim_terminal B E nulling origin HE). apply (bin_terminal W B m head HB); [pose proof U_W; lia|].
    apply (wrap_terminal start U' W w HW start_range); [|rewrite (mp_syms _ _ _ HP); auto].
    intros r Hr. apply Ht. exact (proper_sub start U U' HP r Hr).
  Qed.

  (** *** every symbol derives a string of terminals *)
  Lemma terminals_Rc : forall x, (forall s, In s x -> used (c_rules E) s) -> Forall (terminal (c_rules E)) x -> Forall (terminal Rc) (map f x).
  Proof.
    intros x Hu Hx. rewrite Forall_forall in *. intros t Ht. apply in_map_iff in Ht. destruct Ht as (s & <- & Hs).
    apply (remap_terminal _ _ _ _ _ HR s (Hu s Hs)). auto.
  Qed.

  Lemma vis_E : forall s, used (c_rules E) s -> visible (c_rules B) s ->
    exists x, (forall t, In t x -> used (c_rules E) t) /\ Forall (terminal (c_rules E)) x /\ derives (c_rules E) s x.
  Proof.
    intros s Hs (x & N & Hx & Hd).
    apply (elim_complete B E nulling origin HE) in Hd; [|auto|auto]. exists x. split; [|split; [|auto]].
    - intros t Ht. destruct (proj1 (derives_used _) _ _ Hd t Ht) as [->|K]; auto.
    - rewrite Forall_forall in *. intros t Ht. apply (elim_terminal B E nulling origin HE). auto.
  Qed.

  (** rules of nullable symbols only cannot go on for ever *)
  Definition old (s : sym) : bool := s <? c_num_syms W.
  Definition null_steps : list prule :=
    flat_map (fun r => if old (p_lhs r) then map (fun b => mkRule (p_lhs r) [b] None None []) (filter old (p_rhs r)) else []) nulling.

  Lemma null_step_spec : forall a b, unary_step null_steps a b <->
    exists r, In r nulling /\ p_lhs r = a /\ In b (p_rhs r) /\ a < c_num_syms W /\ b < c_num_syms W.
  Proof.
    intros a b. unfold unary_step, null_steps. split.
    - intros (q & Hq & El & Er). apply in_flat_map in Hq. destruct Hq as (r & Hr & Hq). destruct (old (p_lhs r)) eqn:Eo; [|destruct Hq].
      apply in_map_iff in Hq. destruct Hq as (b' & <- & Hb). apply filter_In in Hb. destruct Hb as [Hb Ho]. cbn in El, Er. injection Er as <-. subst a.
      unfold old in *. apply Nat.ltb_lt in Eo, Ho. exists r. auto.
    - intros (r & Hr & El & Hb & La & Lb). subst a. exists (mkRule (p_lhs r) [b] None None []). split; [|auto].
      apply in_flat_map. exists r. split; [auto|]. unfold old. rewrite (proj2 (Nat.ltb_lt _ _) La). apply in_map_iff. exists b. split; [auto|].
      apply filter_In. split; [auto|]. now apply Nat.ltb_lt.
  Qed.

  Lemma null_pick : forall R l (b : sym), In b l -> Forall (nullable R) l -> derives_seq R l [b].
  Proof.
    intros R l b. induction l as [|a l IH]; intros Hin HF; [destruct Hin|]. inversion HF as [|? ? Ha Hl]; subst. destruct Hin as [->|Hin].
    - change [b] with ([b] ++ []). constructor; [constructor|]. clear - Hl. induction Hl as [|a l Ha Hl IH]; [constructor|].
      change (@nil sym) with (@nil sym ++ []). now constructor.
    - change [b] with ([] ++ [b]). constructor; auto.
  Qed.

  Lemma null_path : forall a b, clos_trans_1n sym (unary_step null_steps) a b -> b < c_num_syms W ->
    exists r, In r (c_rules W) /\ p_lhs r = a /\ derives_seq (c_rules W) (p_rhs r) [b].
  Proof.
    assert (One : forall a b, unary_step null_steps a b -> exists r, In r (c_rules W) /\ p_lhs r = a /\ derives_seq (c_rules W) (p_rhs r) [b]).
    { intros a b H. apply null_step_spec in H. destruct H as (r & Hr & El & Hb & La & Lb). apply (el_nulling _ _ _ _ HE) in Hr. destruct Hr as [Hr Hn].
      destruct (bin_head W B m head HB r Hr) as (q & Hq & E1 & _ & E2); [rewrite El; auto|]. exists q. split; [auto|]. split; [congruence|].
      pose proof (proj2 (bin_sound W B m head HB) _ _ (null_pick _ _ _ Hb Hn)) as D. rewrite E2 in D. cbn [flat_map] in D.
      rewrite (bz_old _ _ _ _ HB b Lb) in D. exact D. }
    intros a b H. induction H as [a b H|a b d H _ IH]; intros L; [now apply One|].
    destruct (One a b H) as (r & Hr & El & D). destruct (IH L) as (r2 & Hr2 & El2 & D2). exists r. split; [auto|]. split; [auto|].
    eapply (proj2 (derives_compose _)); [exact D|]. apply derives_seq_one. rewrite <- El2. now apply derives_rule.
  Qed.

  Lemma null_ranked : exists rank : sym -> nat, forall r a, In r nulling -> p_lhs r < c_num_syms W -> In a (p_rhs r) -> a < c_num_syms W ->
    rank a < rank (p_lhs r).
  Proof.
    destruct (acyclic_ranked null_steps (c_num_syms W)) as (rank & Hrank).
    - intros s (q & Hq & Hs). unfold null_steps in Hq. apply in_flat_map in Hq. destruct Hq as (r & Hr & Hq).
      destruct (old (p_lhs r)) eqn:Eo; [|destruct Hq]. apply in_map_iff in Hq. destruct Hq as (b' & <- & Hb). apply filter_In in Hb. destruct Hb as [Hb Ho].
      unfold old in *. apply Nat.ltb_lt in Eo, Ho. cbn in Hs. destruct Hs as [<-|[<-|[]]]; auto.
    - intros s H. assert (Ls : s < c_num_syms W).
      { assert (Q : forall a b, clos_trans_1n sym (unary_step null_steps) a b -> a < c_num_syms W).
        { intros a b Q. destruct Q as [b Q|b d Q _]; apply null_step_spec in Q; destruct Q as (? & _ & _ & _ & L & _); exact L. }
        exact (Q s s (clos_trans_t1n _ _ _ _ H)). }
      apply clos_trans_t1n in H. destruct (null_path s s H Ls) as (r & Hr & El & D). exact (no_cycle_W s r Hr El D).
    - set (M := list_max (map rank (seq 0 (c_num_syms W)))).
      assert (HM : forall s, s < c_num_syms W -> rank s <= M).
      { intros s Hs. pose proof (proj1 (list_max_le (map rank (seq 0 (c_num_syms W))) M) (le_n _)) as F.
        rewrite Forall_forall in F. apply F. apply (in_map rank). apply in_seq. lia. }
      exists (fun s => M - rank s). intros r a Hr Ll Ha La. pose proof (HM a La).
      assert (St : unary_step null_steps (p_lhs r) a) by (apply null_step_spec; exists r; auto).
      destruct St as (q & Hq & E1 & E2). pose proof (Hrank q a Hq E2) as K. rewrite E1 in K. lia.
  Qed.

  Lemma prod_E : forall s, used (c_rules E) s -> s <> w_root w ->
    exists x, (forall t, In t x -> used (c_rules E) t) /\ Forall (terminal (c_rules E)) x /\ derives (c_rules E) s x.
  Proof.
    destruct null_ranked as (rank & Hrank).
    assert (G : forall k s, rank s <= k -> used (c_rules E) s -> s <> w_root w ->
      exists x, (forall t, In t x -> used (c_rules E) t) /\ Forall (terminal (c_rules E)) x /\ derives (c_rules E) s x).
    { induction k as [k IH] using lt_wf_ind. intros s Hk Hs Nr.
      destruct (existsb (fun r => p_lhs r =? s) (c_rules E)) eqn:Ex.
      2:{ exists [s]. split; [intros t [<-|[]]; auto|]. split; [|constructor]. constructor; [|constructor]. intros r Hr El.
          assert (Q : existsb (fun r => p_lhs r =? s) (c_rules E) = true) by (apply existsb_exists; exists r; split; [auto|now apply Nat.eqb_eq]). congruence. }
      apply existsb_exists in Ex. destruct Ex as (r & Hr & El). apply Nat.eqb_eq in El.
      assert (D : visible (c_rules B) s \/ Forall (nullable (c_rules B)) (p_rhs r)).
      { assert (Q : (exists x, x <> [] /\ Forall (terminal (c_rules B)) x /\ derives_seq (c_rules B) (p_rhs r) x) \/ Forall (nullable (c_rules B)) (p_rhs r)).
        { assert (P : forall t, In t (p_rhs r) -> visible (c_rules B) t \/ nullable (c_rules B) t).
          { intros t Ht. apply prod_B; [apply (elim_used B E nulling origin HE); exists r; auto|]. intros ->. exact (root_not_rhs_E r Hr Ht). }
          clear - P. induction (p_rhs r) as [|a l IHl]; [right; constructor|].
          destruct IHl as [(x & N & Tx & Dx)|Hn]; [intros; apply P; simpl; auto| |]; (destruct (P a) as [(y & Ny & Ty & Dy)|Na]; [simpl; auto| |]).
          - left. exists (y ++ x). split; [destruct y; [contradiction|discriminate]|]. split; [apply Forall_app; auto|now constructor].
          - left. exists x. split; [auto|]. split; [auto|]. change x with ([] ++ x). now constructor.
          - left. exists y. split; [auto|]. split; [auto|]. rewrite <- (app_nil_r y). constructor; [auto|].
            clear - Hn. induction Hn as [|b l Hb Hl IH]; [constructor|]. change (@nil sym) with (@nil sym ++ []). now constructor.
          - right. constructor; auto. }
        destruct Q as [(x & N & Tx & Dx)|Q]; [left|auto]. exists x. split; [auto|]. split; [auto|].
        eapply (proj1 (derives_compose _)); [|exact Dx].
        apply (elim_sound B E nulling origin HE). rewrite <- El. apply derives_rule; [auto|]. apply derives_seq_self. }
      destruct D as [V|Hn]; [now apply vis_E|].
      destruct (Nat.lt_ge_cases s (c_num_syms W)) as [Ls|Ls].
      2:{ apply vis_E; [auto|]. apply vis_gen. split; [auto|]. apply (bz_range _ _ _ _ HB). exact (elim_used B E nulling origin HE s Hs). }
      destruct (elim_rule B E nulling origin HE r Hr) as (r' & mask & Hr' & Hl & E1 & _ & E2 & _ & Hst).
      assert (Hnr : In r' nulling).
      { apply (el_nulling _ _ _ _ HE). split; [auto|]. rewrite E2 in Hn. clear - Hl Hn Hst. revert mask Hl Hn Hst.
        induction (p_rhs r') as [|a l IHl]; intros [|b mask] Hl Hn Hst; try discriminate Hl; [constructor|]. injection Hl as Hl.
        destruct b; cbn in Hn, Hst; [inversion Hn|inversion Hst]; subst; constructor; auto; eapply IHl; eauto. }
      assert (Q : forall l, (forall t, In t l -> In t (p_rhs r)) -> exists x, (forall t, In t x -> used (c_rules E) t) /\ Forall (terminal (c_rules E)) x /\ derives_seq (c_rules E) l x).
      { induction l as [|a l IHl]; intros Hsub; [exists []; split; [intros t []|split; constructor]|].
        destruct IHl as (x2 & C1 & C2 & C3); [intros; apply Hsub; simpl; auto|].
        assert (Ha : In a (p_rhs r)) by (apply Hsub; simpl; auto). assert (Ua : used (c_rules E) a) by (exists r; auto).
        assert (Na : a <> w_root w) by (intros ->; exact (root_not_rhs_E r Hr Ha)).
        assert (Q : exists x, (forall t, In t x -> used (c_rules E) t) /\ Forall (terminal (c_rules E)) x /\ derives (c_rules E) a x).
        { destruct (Nat.lt_ge_cases a (c_num_syms W)) as [La|La].
          - assert (Hlt : rank a < rank s).
            { rewrite <- El, E1. apply Hrank; [auto|rewrite <- E1, El; auto| |auto]. rewrite E2 in Ha. exact (left_over_in _ _ _ Ha). }
            apply (IH (rank a)); auto; lia.
          - apply vis_E; [auto|]. apply vis_gen. split; [auto|]. apply (bz_range _ _ _ _ HB). exact (elim_used B E nulling origin HE a Ua). }
        destruct Q as (x1 & A1 & A2 & A3). exists (x1 ++ x2). split; [|split].
        - intros t Ht. apply in_app_iff in Ht. destruct Ht; auto.
        - apply Forall_app. auto.
        - constructor; auto. }
      destruct (Q (p_rhs r)) as (x & C1 & C2 & C3); [auto|]. exists x. split; [auto|]. split; [auto|]. rewrite <- El. now apply derives_rule. }
    intros s. exact (G (rank s) s (le_n _)).
  Qed.

  Lemma vis_E_seq : forall l, (forall s, In s l -> used (c_rules E) s /\ s <> w_root w) ->
    exists x, (forall t, In t x -> used (c_rules E) t) /\ Forall (terminal (c_rules E)) x /\ derives_seq (c_rules E) l x.
  Proof.
    induction l as [|s l IH]; intros H; [exists []; split; [intros t []|split; constructor]|].
    destruct (H s (or_introl eq_refl)) as [Hu Nr]. destruct (prod_E s Hu Nr) as (x1 & A1 & A2 & A3).
    destruct IH as (x2 & C1 & C2 & C3); [intros; apply H; simpl; auto|]. exists (x1 ++ x2). split; [|split].
    - intros t Ht. apply in_app_iff in Ht. destruct Ht; auto.
    - apply Forall_app. auto.
    - constructor; auto.
  Qed.

  Lemma c_productive : productive Rc.
  Proof.
    intros t. destruct (existsb (fun r => p_lhs r =? t) Rc) eqn:Ex.
    - apply existsb_exists in Ex. destruct Ex as (r' & Hr' & Hl). apply Nat.eqb_eq in Hl.
      destruct (in_Rc r' Hr') as (r & Hr & A1 & A2 & _).
      destruct (vis_E_seq (p_rhs r)) as (x & C1 & C2 & C3).
      { intros s Hs. split; [exists r; auto|]. intros ->. exact (root_not_rhs_E r Hr Hs). }
      exists (map f x). split; [|now apply terminals_Rc]. rewrite <- Hl, A1. apply (remap_forward _ _ _ _ _ HR). now apply derives_rule.
    - exists [t]. split; [constructor|]. constructor; [|constructor]. intros r Hr El.
      assert (Q : existsb (fun r => p_lhs r =? t) Rc = true) by (apply existsb_exists; exists r; split; [auto|now apply Nat.eqb_eq]).
      congruence.
  Qed.

  (** *** viable prefixes *)
  Lemma E_terminal_B : forall s, visible (c_rules B) s -> terminal (c_rules E) s -> terminal (c_rules B) s.
  Proof.
    intros s (x & N & Hx & Hd) Ht.
    apply (elim_complete B E nulling origin HE) in Hd; [|auto|auto]. apply (terminal_derives _ _ _ Ht) in Hd. subst x.
    now inversion Hx.
  Qed.

  Lemma U'_terminal_U : forall s, productive_sym (c_rules U) s -> reached start U s -> terminal (c_rules U') s -> terminal (c_rules U) s.
  Proof.
    intros s (x & Hx & Hd) (u & v & Hs) Ht. inversion Hd as [s0|r x0 Hr Hq]; subst; [now inversion Hx|].
    exfalso. apply (Ht r); [|auto]. apply (mp_rules _ _ _ HP). split; [auto|]. split; [exists u, v; auto|].
    exact (seq_productive U _ _ Hq Hx).
  Qed.

  Lemma sentence_back : forall y z, productive_sym (c_rules U) start ->
    (forall t, In t y -> t < c_num_syms U /\ terminal (c_rules U) t /\ used (c_rules E) t) ->
    used (c_rules E) start -> derives Rc (f start) (map f y ++ z) -> Forall (terminal Rc) z ->
    exists x, Forall (terminal (c_rules U)) x /\ derives (c_rules U) start (y ++ x).
  Proof.
    intros y z Hps Hy Ut Hd Hz. destruct used_root_E as (Ur & Us & Ue & _). pose proof U_W as LU.
    destruct (proj1 (remap_backward _ _ _ _ _ HR) _ _ Hd start Ut eq_refl) as (l & El & Hu & Hl).
    symmetry in El. apply map_eq_app in El. destruct El as (y' & z1 & -> & E1 & E2).
    assert (y' = y).
    { apply (map_injective _ _ _ _ _ HR); [intros; apply Hu; apply in_app_iff; auto|intros t Ht; now apply Hy|exact E1]. }
    subst y' z. pose proof (wrap_new start U' W w HW) as (A1 & A2 & A3). rewrite (mp_syms _ _ _ HP) in *. pose proof (ug_start _ _ HU) as Ls.
    assert (Nr : forall t, In t z1 -> t <> w_root w).
    { intros t Ht K. rewrite K in Ht. pose proof (proj1 (top_not_derived (c_rules E) (w_root w) root_not_rhs_E) _ _ Hl ltac:(apply in_app_iff; auto)) as Q. lia. }
    apply (elim_sound B E nulling origin HE) in Hl.
    (* what is not a terminal of the user's grammar is struck out *)
    assert (Q : exists x, Forall (terminal (c_rules B)) x /\ (forall t, In t x -> In t z1) /\ derives_seq (c_rules B) z1 x).
    { assert (P : forall t, In t z1 -> terminal (c_rules B) t \/ nullable (c_rules B) t).
      { intros t Ht. assert (Hut : used (c_rules E) t) by (apply Hu; apply in_app_iff; auto).
        destruct (prod_B t) as [V|N]; [exact (elim_used B E nulling origin HE t Hut)|auto| |auto]. left. apply E_terminal_B; [auto|].
        apply (remap_terminal _ _ _ _ _ HR t Hut). rewrite Forall_forall in Hz. apply Hz. now apply in_map. }
      clear - P. induction z1 as [|a z1 IH]; [exists []; split; [constructor|split; [intros t []|constructor]]|].
      destruct IH as (x & Tx & Sx & Dx); [intros; apply P; simpl; auto|]. destruct (P a) as [Ta|Na]; [simpl; auto| |].
      - exists (a :: x). split; [constructor; auto|]. split; [intros t [<-|Ht]; simpl; auto|]. change (a :: x) with ([a] ++ x). constructor; [constructor|auto].
      - exists x. split; [auto|]. split; [simpl; auto|]. change x with ([] ++ x). now constructor. }
    destruct Q as (x & Tx & Sx & Dx). exists x.
    assert (D : derives (c_rules B) start (y ++ x)).
    { pose proof (derives_replace_seq _ _ _ Dx start y []) as K. rewrite !app_nil_r in K. auto. }
    assert (LW : forall t, In t (y ++ x) -> t < c_num_syms W).
    { intros t Ht. apply in_app_iff in Ht. destruct Ht as [Ht|Ht]; [pose proof (proj1 (Hy t Ht)); lia|].
      destruct (Nat.lt_ge_cases t (c_num_syms W)) as [L|L]; [auto|exfalso]. rewrite Forall_forall in Tx.
      apply (bin_gen_not_terminal W B m head HB t L); [|auto]. apply (bz_range _ _ _ _ HB). apply (elim_used B E nulling origin HE).
      apply Hu. apply in_app_iff. auto. }
    apply (bin_language W B m head HB) in D; [|lia|auto].
    apply (wrap_sound start U' W w HW U'_range start_range) in D; [|lia].
    split; [|exact (proper_sound start U U' HP start _ D)]. apply Forall_forall. intros t Ht.
    assert (K : productive_sym (c_rules U) t /\ reached start U t).
    { destruct (proj1 (derives_used _) _ _ D t) as [->|K]; [apply in_app_iff; auto| |].
      - split; [auto|]. exists [], []. constructor.
      - split; [now apply productive_used|now apply reached_used]. }
    destruct K as (D2 & D3). apply U'_terminal_U; [auto|auto|].
    intros r Hr El. rewrite Forall_forall in Tx.
    apply (proj1 (bin_terminal W B m head HB t (LW t ltac:(apply in_app_iff; auto))) (Tx t Ht) r); [|auto].
    apply (wrap_rule start U' W w HW). auto.
  Qed.

  Lemma derived_known : forall x, Forall (terminal (c_rules U)) x -> derives (c_rules U) start x ->
    forall t, In t x -> t < c_num_syms U /\ known U start t.
  Proof.
    intros x Hx Hd t Ht. apply (proper_language start U U' HP) in Hd; [|auto]. rewrite Forall_forall in Hx. specialize (Hx t Ht).
    destruct (proj1 (derives_used _) _ _ Hd t Ht) as [->|(r & Hr & K)]; [split; [apply (ug_start _ _ HU)|now left]|].
    apply (mp_rules _ _ _ HP) in Hr. destruct Hr as [Hr Hf]. split; [apply (ug_range _ _ HU); exists r; auto|].
    destruct K as [K|K]; [exfalso; exact (Hx r Hr K)|]. right. exists r. auto.
  Qed.
End Crate.

Lemma no_nulling_short : forall U start, no_nulling_only U -> nulling_only_short U start.
Proof. intros U start H. split; [apply H|]. intros r s _ _ _ _. apply H. Qed.

Lemma short_prefixes : forall U start, nulling_only_short U start -> null_prefixes_visible U start.
Proof.
  intros U start H r u v Hr Hf Er L Nv Hn. rewrite Forall_forall in *. intros s Hs.
  apply (proj2 H r s Hr Hf); [|rewrite Er; apply in_app_iff; auto|auto]. rewrite Er, app_length. destruct v; [contradiction|]. cbn. lia.
Qed.
Lemma no_nulling_prefixes : forall U start, no_nulling_only U -> null_prefixes_visible U start.
Proof. intros U start H. now apply short_prefixes, no_nulling_short. Qed.

(** ** Nothing of the long rules is lost if symbols that derive only the empty string stand in short rules *)
Section CrateShort.
  Variables (X : cfg_crate) (U : pcfg) (start : sym) (W B E c0 : pcfg) (w : wrapped_root) (m : sym -> list sym) (head : nat -> nat)
    (nulling : list prule) (origin : nat -> nat * list bool) (maps : mapping) (f : sym -> sym).
  Hypothesis HU : user_grammar U start.
  Hypothesis HX : elaborates X U start W B E c0 w m head nulling origin maps f.
  Hypothesis Hvis : nulling_only_short U start.
  Local Notation at_ l := (l X U start W B E c0 w m head nulling origin maps f) (only parsing).
  Local Notation HP := (eb_proper _ _ _ _ _ _ _ _ _ _ _ _ _ _ HX).
  Local Notation HW := (proj2 (eb_wrap _ _ _ _ _ _ _ _ _ _ _ _ _ _ HX)).
  Local Notation HB := (eb_binarize _ _ _ _ _ _ _ _ _ _ _ _ _ _ HX).
  Local Notation gen := (gen W B).

  Lemma vis_long_U' : forall r s, In r (c_rules (x_make_proper X U)) -> 3 <= length (p_rhs r) -> In s (p_rhs r) -> visible (c_rules B) s.
  Proof.
    intros r s Hr Hl Hs. assert (Us : used (c_rules (x_make_proper X U)) s) by (exists r; auto). apply (at_ visible_up HU HX); [auto|].
    destruct (at_ productive_used HX s Us) as (x & Hx & Hd). destruct x as [|t x]; [|exists (t :: x); split; [discriminate|auto]].
    apply (mp_rules _ _ _ HP) in Hr. destruct Hr as [Hr Hf]. exact (proj2 Hvis r s Hr Hf Hl Hs Hd).
  Qed.
  Lemma vis_long_W : forall r s, In r (c_rules W) -> 3 <= length (p_rhs r) -> In s (p_rhs r) -> visible (c_rules B) s.
  Proof.
    intros r s Hr Hl Hs. destruct (wrap_rule_cases start _ W w HW r Hr) as [H|(_ & A & _)]; [exact (vis_long_U' r s H Hl Hs)|].
    rewrite A in Hs. now apply (at_ vis_wrapper HU HX (proj1 Hvis)).
  Qed.
  (** a generated symbol stands for part of a long rule *)
  Lemma vis_m : forall g s, gen g -> In s (m g) -> visible (c_rules B) s.
  Proof.
    intros g s Hg Hs. destruct (at_ stands HX _ g Hg (le_n _)) as (r & l & Hr & Er & Nl). apply (vis_long_W r); [auto| |].
    - rewrite Er, app_length. pose proof (bz_new _ _ _ _ HB g (proj1 Hg)). destruct l; [contradiction|]. cbn. unfold sym in *. lia.
    - rewrite Er. apply in_app_iff. auto.
  Qed.
  Lemma vis_rule_gen : forall r s, In r (c_rules B) -> gen (p_lhs r) -> In s (p_rhs r) -> visible (c_rules B) s.
  Proof.
    intros r s Hr G Hs. destruct (Nat.lt_ge_cases s (c_num_syms W)) as [L|L].
    - apply (vis_m (p_lhs r)); [auto|]. destruct (bz_gen_rule _ _ _ _ HB r Hr (proj1 G)) as (_ & _ & Ef). rewrite <- Ef.
      apply in_flat_map. exists s. split; [auto|]. rewrite (bz_old _ _ _ _ HB s L). simpl; auto.
    - apply (at_ vis_gen HU HX (short_prefixes U start Hvis)). split; [auto|]. apply (bz_range _ _ _ _ HB). exists r. auto.
  Qed.
  Lemma vis_rule_first : forall r g y s, In r (c_rules B) -> gen g -> p_rhs r = [g; y] -> In s (p_rhs r) -> visible (c_rules B) s.
  Proof.
    intros r g y s Hr G Er Hs. assert (Hl : p_lhs r < c_num_syms B) by (apply (bz_range _ _ _ _ HB); exists r; auto).
    destruct (Nat.lt_ge_cases (p_lhs r) (c_num_syms W)) as [L|L]; [|apply (vis_rule_gen r); auto; split; auto].
    rewrite Er in Hs. destruct Hs as [<-|[<-|[]]]; [now apply (at_ vis_gen HU HX (short_prefixes U start Hvis))|].
    assert (Hy : y < c_num_syms W) by (apply (bz_second _ _ _ _ HB r); [auto|now rewrite Er]).
    destruct (bin_head W B m head HB r Hr L) as (q & Hq & _ & _ & E2). rewrite Er in E2. cbn [flat_map] in E2.
    rewrite (bz_old _ _ _ _ HB y Hy), app_nil_r in E2. apply (vis_long_W q); [auto| |].
    - rewrite <- E2, app_length. pose proof (bz_new _ _ _ _ HB g (proj1 G)). cbn. unfold sym in *. lia.
    - rewrite <- E2. apply in_app_iff. simpl; auto.
  Qed.

  (** so that [find_gensyms] finds every generated symbol *)
  Lemma gen_kept : forall g, gen g -> kept_gen W B E g.
  Proof.
    intros g G. split; [auto|]. split.
    - destruct (bz_gen_one _ _ _ _ HB g (proj1 G) (proj2 G)) as (b & r' & Hb & El & _).
      assert (Hr' : In r' (c_rules B)) by (eapply nth_error_In; eauto). assert (G1 := proj1 G).
      destruct (bz_gen_rule _ _ _ _ HB r' Hr') as (Eo & L & _); [unfold sym in *; lia|].
      destruct (at_ full_rule_of HX b r' Hb) as (d & r & Hd & _ & E1 & E2 & E3);
        [destruct (p_rhs r'); discriminate|intros s; apply vis_rule_gen; [auto|now rewrite El]|].
      destruct (p_rhs r') as [|a [|y [|]]]; try discriminate L. exists r, a, y. split; [eapply nth_error_In; eauto|]. split; congruence.
    - destruct (at_ gen_parent HX g G) as (b & r' & y & Hb & Er & _ & Nl & _).
      destruct (at_ full_rule_of HX b r' Hb) as (d & r & Hd & _ & E1 & E2 & _);
        [rewrite Er; discriminate|intros s; apply (vis_rule_first r' g y); auto; eapply nth_error_In; eauto|]. exists r, y.
      split; [eapply nth_error_In; eauto|congruence].
  Qed.
  Lemma gen_kept_used : forall s, used (c_rules E) s -> c_num_syms W <= s -> kept_gen W B E s.
  Proof.
    intros s Hs L. apply gen_kept. split; [auto|]. pose proof (at_ E_range HX s Hs) as K.
    now rewrite (el_syms _ _ _ _ (proj2 (eb_eliminate _ _ _ _ _ _ _ _ _ _ _ _ _ _ HX))) in K.
  Qed.
End CrateShort.

(** ** Nothing is lost if every nullable symbol is visible *)
Section CrateAll.
  Variables (X : cfg_crate) (U : pcfg) (start : sym) (W B E c0 : pcfg) (w : wrapped_root) (m : sym -> list sym) (head : nat -> nat)
    (nulling : list prule) (origin : nat -> nat * list bool) (maps : mapping) (f : sym -> sym).
  Hypothesis HU : user_grammar U start.
  Hypothesis HX : elaborates X U start W B E c0 w m head nulling origin maps f.
  Hypothesis Hvis : no_nulling_only U.
  Local Notation at_ l := (l X U start W B E c0 w m head nulling origin maps f) (only parsing).
  Local Notation HW := (proj2 (eb_wrap _ _ _ _ _ _ _ _ _ _ _ _ _ _ HX)).

  Lemma vis_W : forall s, used (c_rules W) s -> s <> w_root w -> visible (c_rules B) s.
  Proof.
    intros s (r & Hr & Hs) Nr. pose proof (no_nulling_prefixes U start Hvis) as Hv.
    destruct (wrap_rule_cases start _ W w HW r Hr) as [H|(A & A' & _)].
    - assert (Us : used (c_rules (x_make_proper X U)) s) by (exists r; auto). apply (at_ visible_up HU HX); [auto|].
      destruct (at_ productive_used HX s Us) as (x & Hx & Hd). destruct x as [|t x]; [now apply Hvis|]. exists (t :: x). split; [discriminate|auto].
    - rewrite A, A' in Hs. destruct Hs as [Hs|Hs]; [congruence|]. now apply (at_ vis_wrapper HU HX (Hvis start)).
  Qed.
  Lemma vis_B : forall s, used (c_rules B) s -> s <> w_root w -> visible (c_rules B) s.
  Proof.
    intros s Hs Nr. destruct (Nat.lt_ge_cases s (c_num_syms W)) as [L|L].
    - apply vis_W; [now apply (at_ used_B_W HX)|auto].
    - apply (at_ vis_gen HU HX (no_nulling_prefixes U start Hvis)). split; [auto|].
      now apply (bz_range _ _ _ _ (eb_binarize _ _ _ _ _ _ _ _ _ _ _ _ _ _ HX)).
  Qed.
  Lemma vis_rhs : forall r s, In r (c_rules B) -> In s (p_rhs r) -> visible (c_rules B) s.
  Proof. intros r s Hr Hs. apply vis_B; [exists r; auto|]. intros ->. now apply (at_ root_not_rhs_B HU HX r). Qed.
  Lemma full_rule : forall b r', nth_error (c_rules B) b = Some r' -> p_rhs r' <> [] -> exists d r, nth_error (c_rules E) d = Some r /\
    origin d = (b, repeat true (length (p_rhs r'))) /\ p_lhs r = p_lhs r' /\ p_rhs r = p_rhs r' /\ p_origin r = p_origin r'.
  Proof.
    intros b r' Hb Hne. apply (at_ full_rule_of HX b r' Hb Hne). intros s. apply vis_rhs. eapply nth_error_In; eauto.
  Qed.
  Lemma used_B_E : forall s, used (c_rules B) s -> used (c_rules E) s.
  Proof.
    intros s Hs. pose proof (no_nulling_prefixes U start Hvis) as Hv. destruct (Nat.eq_dec s (w_root w)) as [->|N].
    - exact (proj1 (at_ used_root_E HU HX Hv)).
    - apply (at_ vis_used HU HX Hv); [auto|now apply vis_B].
  Qed.
End CrateAll.

(** Without a symbol that derives only the empty string no symbol is left out. *)
Lemma no_nulling_apart : forall X U start, user_grammar U start -> no_nulling_only U -> crate_contract X U start -> crate_apart X U start.
Proof.
  intros X U start HU Hvis (W & B & E & c & w & m & head & nulling & origin & maps & f & HX).
  exists W, B, E, c, w, m, head, nulling, origin, maps, f. split; [exact HX|]. pose proof (no_nulling_prefixes U start Hvis) as Hv. split.
  - intros s t Hs Hn _ _. apply Hn. exact (used_B_E _ _ _ _ _ _ _ _ _ _ _ _ _ _ HU HX Hvis s Hs).
  - destruct (order_exists _ _ _ _ _ _ _ _ _ _ _ _ _ _ HX) as (order & Hord & Hmap & HR).
    destruct (wrapped_c _ _ _ _ _ _ _ _ _ _ _ _ _ _ HX order HR) as (w' & E1 & _ & _ & _ & E2). change (c_wrapped c) with (c_wrapped (sort_rules_by_lhs c)). rewrite E1.
    cbn. rewrite E2; [reflexivity|]. apply (used_root_E _ _ _ _ _ _ _ _ _ _ _ _ _ _ HU HX Hv).
    exact (vis_start _ _ _ _ _ _ _ _ _ _ _ _ _ _ HU HX (Hvis start)).
Qed.
