(** CyclicEnds: on which inputs a parse ends, and for which grammars every parse does. *)
From Coq Require Import List Arith Bool Lia Relations.
From Verif Require Import Base BaseProofs Grammar BitMatrix DefaultGrammar Forest Recognizer Drive Parse Spec SpecFacts Chart CfgSpec
  ForestSpec ClientSpec TablesProofs TablesTotal ParseFacts PropLemmas FromGrammar CrateSpec UserSpec CrateFacts CrateProcessed.
From Verif Require Cyclic CyclicUser CyclicInput Decide ReferenceCrate ReferenceFacts.
Import ListNotations.
Local Open Scope res_scope.

Lemma seq_productive_closed : forall R l, Forall (productive_sym R) l -> exists y, Forall (terminal R) y /\ derives_seq R l y.
Proof.
  intros R l H. induction H as [|s x (y1 & T1 & D1) _ (y2 & T2 & D2)]; [exists []; split; constructor|].
  exists (y1 ++ y2). split; [apply Forall_app; auto|now constructor].
Qed.

Section Ends.
  Variables (X : cfg_crate) (U : pcfg) (start : sym) (W B E c0 : pcfg) (w : wrapped_root) (m : sym -> list sym) (head : nat -> nat)
    (nulling : list prule) (origin : nat -> nat * list bool) (maps : mapping) (f : sym -> sym).
  Hypothesis HU : user_grammar U start.
  Hypothesis HX : elaborates X U start W B E c0 w m head nulling origin maps f.
  Variable tokens : list sym.
  Hypothesis Htokens : forall t, In t tokens -> t < c_num_syms U.
  Hypothesis Hcyc : no_cycle_on U start tokens.
  Local Notation at_ l := (l X U start W B E c0 w m head nulling origin maps f) (only parsing).
  Notation U' := (x_make_proper X U).
  Notation HP := (at_ CrateProcessed.HP HX).
  Notation HW := (at_ CrateProcessed.HW HX).
  Notation HB := (at_ CrateProcessed.HB HX).
  Notation HE := (at_ CrateProcessed.HE HX).
  Notation ustep := (unary_step (c_rules E)).

  (** the symbol stands after a beginning [x] of the input and derives what comes next *)
  Definition live (s : sym) : Prop := exists x y b v, w_sof w :: tokens = x ++ y ++ b /\ y <> [] /\
    derives (c_rules E) (w_root w) (x ++ s :: v) /\ derives (c_rules E) s y.
  Definition lstep (a b : sym) : Prop := ustep a b /\ live b.

  Lemma input_W : forall t, In t (w_sof w :: tokens) -> t < c_num_syms W.
  Proof.
    pose proof (wrap_new start U' W w HW) as (_ & A & _). pose proof (at_ U_W HX).
    intros t [<-|Ht]; [lia|]. specialize (Htokens t Ht). lia.
  Qed.

  (** the root derives what starts with the start marker and ends with the end marker *)
  Lemma root_form : forall x s v, derives (c_rules W) (w_root w) (w_sof w :: x ++ s :: v) -> s < c_num_syms U' ->
    exists v', derives (c_rules U') start (x ++ s :: v').
  Proof.
    intros x s v H Ls. pose proof (wrap_new start U' W w HW) as (A1 & A2 & A3).
    pose proof (wrap_distinct start U' W w HW) as (D1 & _).
    destruct (wrap_sof_eof start U' W w HW (at_ U'_range HU HX) (at_ start_range HU HX)) as [Ts Te].
    inversion H as [|r ? Hr Hd E1 E2]; [congruence|].
    destruct (wrap_rule_cases start U' W w HW r Hr) as [Hr'|(_ & Er & _)].
    { assert (w_root w < c_num_syms U') by (rewrite <- E1; apply (at_ U'_range HU HX); exists r; auto). lia. }
    rewrite Er in Hd. change [w_sof w; start; w_eof w] with ([w_sof w] ++ [start] ++ [w_eof w]) in Hd.
    destruct (derives_seq_split _ _ _ _ Hd) as (y1 & y' & Ey & H1 & H').
    destruct (derives_seq_split _ _ _ _ H') as (y2 & y3 & Ey' & H2 & H3).
    apply derives_seq_one in H1. apply derives_seq_one in H2. apply derives_seq_one in H3.
    apply (terminal_derives _ _ _ Ts) in H1. apply (terminal_derives _ _ _ Te) in H3. subst y1 y3 y'.
    cbn [app] in Ey. injection Ey as Ey.
    destruct v as [|t v] using rev_ind.
    - apply app_inj_tail in Ey. destruct Ey as [_ ->]. lia.
    - clear IHv. exists v. change (x ++ s :: v ++ [t]) with (x ++ (s :: v) ++ [t]) in Ey. rewrite app_assoc in Ey. apply app_inj_tail in Ey.
      destruct Ey as [-> _]. apply (wrap_sound start U' W w HW (at_ U'_range HU HX) (at_ start_range HU HX)) in H2; [auto|].
      pose proof (at_ start_range HU HX). lia.
  Qed.

  (** what stands after it can be completed *)
  Lemma closed_form : forall x s v, derives (c_rules U') start (x ++ s :: v) ->
    exists z, derives (c_rules U) start (x ++ s :: z) /\ Forall (terminal (c_rules U)) z.
  Proof.
    intros x s v H.
    assert (Hp : Forall (productive_sym (c_rules U)) v).
    { apply Forall_forall. intros t Ht.
      assert (K : used (c_rules U') t).
      { inversion H as [? E1 E2|r ? Hr Hd E1 E2].
        - exfalso. clear -Ht E2. destruct x as [|a [|]]; try discriminate. injection E2 as _ <-. destruct Ht.
        - destruct (proj1 (derives_used _) _ _ H t) as [->|K]; [|exists r; auto|auto].
          apply in_app_iff. right. now right. }
      exact (at_ productive_used HX t K). }
    destruct (seq_productive_closed _ _ Hp) as (z & Tz & Dz). exists z. split; [|auto].
    apply (proper_sound start U U' HP) in H.
    pose proof (derives_replace_seq _ _ _ Dz start (x ++ [s]) []) as K. rewrite !app_nil_r, <- !app_assoc in K. apply K. exact H.
  Qed.

  (** the rule used for such a symbol does not lead back to it *)
  Lemma no_live_cycle : forall s r, s < c_num_syms W -> In r (c_rules W) -> p_lhs r = s -> live s -> ~ derives_seq (c_rules W) (p_rhs r) [s].
  Proof.
    intros s r Ls Hr El (x & y & b & v & Ein & Hy & Dx & Dy) Hd.
    pose proof (wrap_new start U' W w HW) as (A1 & A2 & A3).
    pose proof (wrap_distinct start U' W w HW) as (D1 & _).
    destruct (wrap_rule_cases start U' W w HW r Hr) as [Hr'|(E1 & E2 & _)].
    - assert (Us : used (c_rules U') s) by (exists r; auto). pose proof (at_ U'_range HU HX s Us) as Ls'.
      assert (Hxy : (forall t, In t x -> t < c_num_syms W) /\ (forall t, In t y -> t < c_num_syms W)).
      { split; intros t Ht; apply input_W; rewrite Ein; apply in_app_iff; [auto|right; apply in_app_iff; auto]. }
      destruct Hxy as [Hx' Hy'].
      (* in the wrapped grammar *)
      apply (proj1 (elim_sound B E nulling origin HE)) in Dx. apply (proj1 (elim_sound B E nulling origin HE)) in Dy.
      apply (proj1 (bin_sound W B m head HB)) in Dx. rewrite (bz_old _ _ _ _ HB (w_root w) ltac:(lia)) in Dx.
      apply derives_seq_one in Dx. rewrite flat_map_app in Dx. cbn [flat_map] in Dx.
      rewrite (bin_old W B m head HB x Hx'), (bz_old _ _ _ _ HB s Ls) in Dx. cbn [app] in Dx.
      apply (bin_language W B m head HB) in Dy; [|auto|auto].
      assert (Ns : s <> w_root w) by lia.
      apply (wrap_sound start U' W w HW (at_ U'_range HU HX) (at_ start_range HU HX)) in Dy; [|auto].
      (* where it stands *)
      destruct x as [|a x].
      { destruct y as [|t y]; [congruence|]. injection Ein as <- _.
        assert (w_sof w < c_num_syms U').
        { destruct (proj1 (derives_used _) _ _ Dy (w_sof w)) as [->|K]; [simpl; auto|auto|now apply (at_ U'_range HU HX)]. }
        lia. }
      injection Ein as <- Ein. destruct (root_form _ _ _ Dx Ls') as (v' & Dv). destruct (closed_form _ _ _ Dv) as (z & Dz & Tz).
      apply (Hcyc x y b Ein). exists s, z. split; [|split; [exact Dz|split; [exact Tz|split; [exact (proper_sound start U U' HP _ _ Dy)|exact Hy]]]].
      exists r. split; [exact (proper_sub start U U' HP r Hr')|]. split; [auto|].
      apply (proj2 (derives_sub _ _ (proper_sub start U U' HP))).
      apply (wrap_sound start U' W w HW (at_ U'_range HU HX) (at_ start_range HU HX)); [auto|]. intros Hin.
      assert (w_root w < c_num_syms U') by (apply (at_ U'_range HU HX); exists r; auto). lia.
    - rewrite E2 in Hd. inversion Hd as [|? ? w1 w2 K1 K2 Ea Eb]; subst.
      apply (terminal_derives _ _ _ (proj1 (wrap_sof_eof start U' W w HW (at_ U'_range HU HX) (at_ start_range HU HX)))) in K1. subst w1.
      injection Eb as Eb _. congruence.
  Qed.

  Lemma lpath_upath : forall a b, clos_trans sym lstep a b -> clos_trans sym ustep a b.
  Proof. intros a b H. induction H as [a b [H _]|a b c _ IH1 _ IH2]; [now apply t_step|]. eapply t_trans; eauto. Qed.

  Lemma old_acyclic : forall s, s < c_num_syms W -> ~ clos_trans sym lstep s s.
  Proof.
    intros s Ls H. assert (Hl : live s). { apply clos_trans_tn1 in H. destruct H as [? [_ H]|? ? [_ H] _]; exact H. }
    apply lpath_upath, clos_trans_t1n in H. destruct (at_ upath_rule HX s s H Ls) as (r & Hr & El & Hd).
    rewrite (bz_old _ _ _ _ HB s Ls) in Hd. exact (no_live_cycle s r Ls Hr El Hl Hd).
  Qed.

  Lemma lpath_gen : forall a b, clos_trans_1n sym lstep a b -> gen W B a ->
    (gen W B b /\ length (m b) < length (m a)) \/
    exists t, t < c_num_syms W /\ clos_trans sym lstep a t /\ (t = b \/ clos_trans sym lstep t b).
  Proof.
    intros a b H. induction H as [a b H|a b c H H' IH]; intros Ga; pose proof (proj1 H) as Hu.
    - destruct (proj2 (at_ ustep_range HX _ _ Hu)) as [Gb|Ob].
      + left. split; [auto|]. now apply (at_ ustep_gen HX).
      + right. exists b. split; [auto|]. split; [now apply t_step|auto].
    - destruct (proj2 (at_ ustep_range HX _ _ Hu)) as [Gb|Ob].
      + pose proof (at_ ustep_gen HX _ _ Hu Ga Gb). destruct (IH Gb) as [[Gc Lc]|(t & Ot & P1 & P2)]; [left; split; [auto|lia]|].
        right. exists t. split; [auto|]. split; [apply (t_trans _ _ _ b); [now apply t_step|auto]|auto].
      + right. exists b. split; [auto|]. split; [now apply t_step|]. right. now apply clos_t1n_trans.
  Qed.

  Lemma E_acyclic : forall s, ~ clos_trans sym lstep s s.
  Proof.
    intros s H. assert (K : gen W B s \/ s < c_num_syms W).
    { assert (Q : forall a b, clos_trans_1n sym lstep a b -> gen W B a \/ a < c_num_syms W).
      { intros a b Q. destruct Q as [b [Q _]|b c [Q _] _]; exact (proj1 (at_ ustep_range HX _ _ Q)). }
      exact (Q s s (clos_trans_t1n _ _ _ _ H)). }
    destruct K as [G|O]; [|now apply (old_acyclic s)].
    destruct (lpath_gen s s (clos_trans_t1n _ _ _ _ H) G) as [[_ L]|(t & Ot & P1 & [->|P2])]; [lia|destruct G; lia|].
    apply (old_acyclic t Ot). eapply t_trans; eauto.
  Qed.

  (** renumbered *)
  Lemma c_acyclic : forall order root, remapped (remap_cmp order) E c0 maps f -> used (c_rules E) (w_root w) ->
    (forall t, In t (w_sof w :: tokens) -> used (c_rules E) t) -> root = f (w_root w) ->
    forall s, ~ clos_trans sym (Decide.live_step (c_rules (sort_rules_by_lhs c0)) (map f (w_sof w :: tokens)) root) s s.
  Proof.
    intros order root HR Ur Ut -> s H. set (ys := w_sof w :: tokens) in *. set (Rc := c_rules (sort_rules_by_lhs c0)) in *.
    assert (K : forall a b, Decide.live_step Rc (map f ys) (f (w_root w)) a b ->
       exists a' b', used (c_rules E) a' /\ used (c_rules E) b' /\ a = f a' /\ b = f b' /\ lstep a' b').
    { intros a b [(r' & Hr' & El & Er) (i & Hi & j & Hj & Hst & Hd)].
      destruct (in_Rc E c0 maps f order HR r' Hr') as (r & Hr & E1 & E2 & _).
      rewrite Er in E2. destruct (p_rhs r) as [|b' [|]] eqn:Er'; try discriminate E2. injection E2 as ->.
      assert (Ub : used (c_rules E) b') by (exists r; rewrite Er'; simpl; auto).
      exists (p_lhs r), b'. split; [exists r; auto|]. split; [auto|]. split; [congruence|]. split; [auto|]. split; [exists r; auto|].
      apply in_seq in Hi. apply in_seq in Hj. rewrite map_length in *.
      destruct (Decide.stands_sound Rc (map f ys) _ _ _ Hst) as (Li & v & Dv).
      destruct (proj1 (remap_backward _ _ _ _ _ HR) _ _ Dv _ Ur eq_refl) as (x0 & Ex & Hux & Dx).
      destruct (proj1 (remap_backward _ _ _ _ _ HR) _ _ Hd _ Ub eq_refl) as (y0 & Ey & Huy & Dy).
      symmetry in Ex. apply map_eq_app in Ex. destruct Ex as (x1 & x2 & -> & Ex1 & Ex2).
      destruct x2 as [|b2 v2]; [discriminate|]. injection Ex2 as Eb Ev.
      assert (b2 = b'). { apply (rm_injective _ _ _ _ _ HR); auto. apply Hux. apply in_app_iff. simpl. auto. } subst b2.
      assert (In1 : forall t, In t (firstn i ys) -> used (c_rules E) t).
      { intros t Ht. apply Ut. rewrite <- (firstn_skipn i ys). apply in_app_iff. auto. }
      assert (x1 = firstn i ys).
      { apply (map_injective _ _ _ _ _ HR); [|auto|now rewrite Ex1, firstn_map]. intros t Ht. apply Hux. apply in_app_iff. auto. }
      assert (y0 = Decide.slice ys i j).
      { apply (map_injective _ _ _ _ _ HR); [auto| |rewrite <- Ey; unfold Decide.slice; now rewrite skipn_map, firstn_map].
        intros t Ht. apply Ut. rewrite <- (firstn_skipn i ys). apply in_app_iff. right.
        rewrite <- (firstn_skipn (j - i) (skipn i ys)). apply in_app_iff. auto. }
      subst x1 y0. exists (firstn i ys), (Decide.slice ys i j), (skipn (j - i) (skipn i ys)), v2.
      split; [unfold Decide.slice; now rewrite !firstn_skipn|]. split; [|split; [exact Dx|exact Dy]].
      intros N. apply (f_equal (@length sym)) in N. unfold Decide.slice in N. rewrite firstn_length, skipn_length in N. cbn [length] in N. lia. }
    assert (Q : forall a b, clos_trans sym (Decide.live_step Rc (map f ys) (f (w_root w))) a b ->
       exists a' b', used (c_rules E) a' /\ used (c_rules E) b' /\ a = f a' /\ b = f b' /\ clos_trans sym lstep a' b').
    { intros a b Q. induction Q as [a b Q|a b c _ (a' & b' & Ua & Ub & -> & -> & P1) _ (b2 & c' & Ub2 & Uc & Eb & -> & P2)].
      - destruct (K a b Q) as (a' & b' & Ua & Ub & -> & -> & Q'). exists a', b'. split; [auto|]. split; [auto|]. split; [auto|]. split; [auto|now apply t_step].
      - assert (b2 = b') by (apply (rm_injective _ _ _ _ _ HR); auto). subst b2. exists a', c'. split; [auto|]. split; [auto|].
        split; [auto|]. split; [auto|]. eapply t_trans; eauto. }
    destruct (Q s s H) as (a & b & Ua & Ub & Ea & Eb & P1). assert (a = b) by (apply (rm_injective _ _ _ _ _ HR); auto; congruence).
    subst b. exact (E_acyclic a P1).
  Qed.
End Ends.

(** ** A parse ends if no cycle takes part in reading the input *)
Lemma P_input_language : forall X U start, user_grammar U start -> crate_contract X U start -> null_prefixes_visible U start ->
  forall F N (fo : forest_ops F N) f0 P, (exists ok, usable fo ok /\ ok Idle f0) -> LEO P = false ->
  exists k g, (forall fuel, k <= fuel -> from_grammar X fuel U = Ret g) /\
    forall tokens, Forall (token U start) tokens -> no_cycle_on U start tokens ->
    exists n r, total n (fun fuel => st <- r_new g f0 ;; '(r, _) <- parse fo P g fuel st tokens ;; Ret r) r /\
      (r = POk true <-> derives (c_rules U) start tokens).
Proof.
  intros X U start HU (W & B & E & c0 & w & m & head & nulling & origin & maps & f & HX) Hvis F N fo f0 P (ok & Hfo & Hf0) HP.
  destruct (CyclicUser.shaped_of _ _ _ _ _ _ _ _ _ _ _ _ _ _ HU HX Hvis)
    as (k & g & nsyms & w' & d0 & h0 & order & Hk & HB & HR & Esof & Htok & Hsent & _ & Eroot & _).
  exists k, g. split; [exact Hk|]. intros tokens Ht Hcyc. pose proof Ht as Ht'. rewrite Forall_forall in Ht'.
  destruct (Cyclic.new_start (N := N) ok P (sort_rules_by_lhs c0) nsyms w' d0 (f h0) g HB f0 Hf0) as (st0 & E0 & Hst & Hh).
  destruct (used_root_E _ _ _ _ _ _ _ _ _ _ _ _ _ _ HU HX Hvis) as (Ur & Us & _).
  pose proof (CyclicUser.mapped_tokens U start g f tokens (fun t H => proj1 (Htok t H)) Ht) as Hm.
  assert (Hu : forall s, In s (map f tokens) -> user_terminal (sort_rules_by_lhs c0) nsyms w' s).
  { intros s Hs. apply in_map_iff in Hs. destruct Hs as (t & <- & Hin). apply Htok. now apply Ht'. }
  destruct (CyclicInput.parse_ends fo ok Hfo P _ nsyms w' d0 (f h0) g HP HB st0 tokens (map f tokens) Hst Hh Hm Hu) as (n & Hn).
  { intros s Hs. rewrite Esof in Hs. change (f (w_sof w) :: map f tokens) with (map f (w_sof w :: tokens)) in Hs. revert Hs.
    apply (c_acyclic _ _ _ _ _ _ _ _ _ _ _ _ _ _ HU HX tokens (fun t Hin => proj1 (Ht' t Hin)) Hcyc order _ HR Ur); [|exact Eroot].
    intros t [<-|Hin]; [exact Us|]. destruct (Ht' t Hin) as (Lt & Tt & Kt).
    now apply (known_used _ _ _ _ _ _ _ _ _ _ _ _ _ _ HU HX Hvis t Lt Tt). }
  pose proof (Cyclic.parse_spec fo ok Hfo P _ nsyms w' d0 (f h0) g HP HB _ st0 tokens (map f tokens) Hst ltac:(contradiction) Hh Hm Hu) as Hsp.
  destruct (Hsp n) as [H|(r & st' & H & Hr & _)]; [now elim (Hn n (le_n _))|].
  destruct (CyclicInput.total_from _ (fun fuel => st <- r_new g f0 ;; '(r, _) <- parse fo P g fuel st tokens ;; Ret r) n r) as (n0 & Hn0).
  - intros fuel. rewrite E0. cbn [bind]. destruct (Hsp fuel) as [K|(r1 & st1 & K & _)]; rewrite K; [now left|right; exists r1; reflexivity].
  - intros fuel fuel' y Hle. rewrite E0. cbn [bind]. destruct (parse fo P g fuel st0 tokens) as [p| |] eqn:Ep; cbn [bind]; try discriminate.
    now rewrite (CyclicInput.parse_mono fo P g fuel fuel' tokens st0 p Hle Ep).
  - rewrite E0. cbn [bind]. rewrite H. reflexivity.
  - exists n0, r. split; [exact Hn0|]. rewrite Hr. now apply Hsent.
Qed.

(** ** Every parse ends if no visible symbol that is reached is on a cycle *)
Lemma P_visible_language : forall X U start, user_grammar U start -> crate_contract X U start ->
  null_prefixes_visible U start -> no_visible_cycles U start ->
  forall F N (fo : forest_ops F N) f0 P, (exists ok, usable fo ok /\ ok Idle f0) -> LEO P = false ->
  exists k g, (forall fuel, k <= fuel -> from_grammar X fuel U = Ret g) /\
    forall tokens, Forall (token U start) tokens ->
    exists n r, total n (fun fuel => st <- r_new g f0 ;; '(r, _) <- parse fo P g fuel st tokens ;; Ret r) r /\
      (r = POk true <-> derives (c_rules U) start tokens).
Proof.
  intros X U start HU HC Hvis Hcyc F N fo f0 P Hfo HP.
  destruct (P_input_language X U start HU HC Hvis F N fo f0 P Hfo HP) as (k & g & Hk & Hl). exists k, g. split; [exact Hk|].
  intros tokens Ht. apply Hl; [exact Ht|]. intros x y z -> (A & v & HA & Hs & _ & Dy & Ny). apply (Hcyc A x v Hs); [|exact HA]. exists y.
  split; [auto|]. split; [|auto]. apply Forall_app in Ht. destruct Ht as [_ Ht]. apply Forall_app in Ht. destruct Ht as [Ht _].
  eapply Forall_impl; [|exact Ht]. intros t Tt. apply Tt.
Qed.

(** ** All parses end exactly if there is no such cycle *)
Lemma P_ends_exactly : forall X U start, user_grammar U start -> crate_contract X U start -> null_prefixes_visible U start ->
  forall F N (fo : forest_ops F N) f0 P, (exists ok, usable fo ok /\ ok Idle f0) -> LEO P = false ->
  exists k g, (forall fuel, k <= fuel -> from_grammar X fuel U = Ret g) /\
    ((forall tokens, Forall (token U start) tokens -> exists fuel, (st <- r_new g f0 ;; parse fo P g fuel st tokens) <> NoFuel) <->
     no_sentence_cycles U start).
Proof.
  intros X U start HU HC Hvis F N fo f0 P Hfo HP.
  destruct (CyclicUser.P_cycle_never_ends X U start HU HC Hvis F N fo f0 P Hfo HP) as (k & g & Hk & Hnever).
  exists k, g. split; [exact Hk|]. split.
  - intros Hall x y Txy (A & z & HA & Hs & Tz & Dy & Ny). apply Forall_app in Txy. destruct Txy as [Tx Ty].
    assert (T : Forall (terminal (c_rules U)) (x ++ y ++ z)) by (apply Forall_app; split; [auto|apply Forall_app; auto]).
    destruct (Hall (x ++ y ++ z)) as (fuel & Hf).
    + destruct HC as (W & B & E & c0 & w & m & head & nulling & origin & maps & f & HX).
      pose proof (derives_replace _ _ _ _ _ _ Hs Dy) as Hw. apply Forall_forall. intros t Hin.
      destruct (derived_known _ _ _ _ _ _ _ _ _ _ _ _ _ _ HU HX (x ++ y ++ z) T Hw t Hin) as [Lt K].
      split; [auto|]. split; [|auto]. rewrite Forall_forall in T. auto.
    + apply Hf. apply Hnever with (A := A); auto.
  - intros Hcyc tokens Ht.
    destruct (P_input_language X U start HU HC Hvis F N fo f0 P Hfo HP) as (k' & g' & Hk' & Hlang).
    assert (g' = g) by (pose proof (Hk (max k k') ltac:(lia)); pose proof (Hk' (max k k') ltac:(lia)); congruence). subst g'.
    destruct (Hlang tokens Ht) as (n & r & Hn & _).
    + intros x y z -> Hc. apply (Hcyc x y); [|exact Hc].
      rewrite app_assoc in Ht. apply Forall_app in Ht. destruct Ht as [Ht _]. eapply Forall_impl; [|exact Ht]. intros t Tt. apply Tt.
    + exists n. specialize (Hn n). rewrite Nat.ltb_irrefl in Hn.
      intros K. destruct (r_new g f0) as [st| |]; cbn [bind] in *; try discriminate. rewrite K in Hn. discriminate Hn.
Qed.

Lemma P_reference_ends_exactly : forall U start, user_grammar U start -> null_prefixes_visible U start ->
  forall F N (fo : forest_ops F N) f0 P, (exists ok, usable fo ok /\ ok Idle f0) -> LEO P = false ->
  exists k g, (forall fuel, k <= fuel -> from_grammar ReferenceCrate.reference fuel U = Ret g) /\
    ((forall tokens, Forall (token U start) tokens -> exists fuel, (st <- r_new g f0 ;; parse fo P g fuel st tokens) <> NoFuel) <->
     no_sentence_cycles U start).
Proof. intros U start HU. apply P_ends_exactly; [exact HU|exact (ReferenceFacts.reference_keeps U start HU)]. Qed.
