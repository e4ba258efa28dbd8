(** LinearUser: an LR(1) grammar of the user has the properties of LinearChart.v after all
    transformations, if it has no empty rules. *)
From Coq Require Import List Arith Bool Lia.
From Verif Require Import Base Grammar DefaultGrammar Spec Chart CfgSpec FromGrammar CrateSpec UserSpec CrateFacts GensymFacts CrateProcessed
  LRSpec LRFacts LinearChart.
Import ListNotations.

Lemma hd_last : forall (a b : list sym) e, ~ In e a -> ~ In e b -> hd_error (a ++ [e]) = hd_error (b ++ [e]) -> hd_error a = hd_error b.
Proof.
  intros [|x a] [|y b] e Ha Hb H; cbn in *; auto; injection H as H; exfalso; [apply Hb|apply Ha]; auto.
Qed.

Section LinearUser.
  Variables (X : cfg_crate) (U : pcfg) (start : sym) (W B E c0 : pcfg) (w : wrapped_root) (m : sym -> list sym) (head : nat -> nat)
    (nulling : list prule) (origin : nat -> nat * list bool) (maps : mapping) (f : sym -> sym).
  Hypothesis HU : user_grammar U start.
  Hypothesis HX : elaborates X U start W B E c0 w m head nulling origin maps f.
  Hypothesis Hne : forall r, In r (c_rules U) -> p_rhs r <> [].
  Hypothesis Hps : productive_sym (c_rules U) start.
  Hypothesis Hlr : user_lr1 U start.

  Notation U' := (x_make_proper X U).
  Notation at_ l := (l X U start W B E c0 w m head nulling origin maps f).
  Let HP := at_ HP HX.
  Let HW := at_ HW HX.
  Let HB := at_ HB HX.
  Let HE := at_ HE HX.
  Let HUr := at_ U'_range HU HX.
  Let HSr := at_ start_range HU HX.

  (** *** the wrapped grammar is LR(1) *)
  Definition good (s : sym) : Prop := productive_sym (c_rules U) s /\ reached start U s.

  Lemma good_start : good start.
  Proof. split; [exact Hps|]. exists [], []. constructor. Qed.
  Lemma good_used : forall s, used (c_rules U') s -> good s.
  Proof. intros s Hs. split; [exact (at_ productive_used HX s Hs)|exact (at_ reached_used HX s Hs)]. Qed.
  Lemma good_range : forall s, good s -> s < c_num_syms U.
  Proof.
    intros s [_ (u & v & D)]. destruct (proj1 (derives_used _) _ _ D s) as [->|K]; [apply in_app_iff; simpl; auto|apply (ug_start _ _ HU)|].
    now apply (ug_range _ _ HU).
  Qed.

  Lemma terminal_aug : forall s, good s -> terminal (c_rules W) s -> terminal (augmented U start) s.
  Proof.
    intros s Hs Ht. assert (T : terminal (c_rules U) s).
    { apply (at_ U'_terminal_U HX s (proj1 Hs) (proj2 Hs)). intros r Hr. apply Ht. apply (wrap_rule start U' W w HW). auto. }
    intros r [<-|Hr]; [|now apply T]. cbn. pose proof (good_range s Hs). unfold sym in *. lia.
  Qed.

  Lemma new_fields : c_num_syms U <= w_root w /\ c_num_syms U <= w_sof w /\ c_num_syms U <= w_eof w.
  Proof. pose proof (wrap_new start U' W w HW) as K. rewrite (mp_syms _ _ _ HP) in K. lia. Qed.

  Lemma W_cases : forall r, In r (c_rules W) -> (In r (c_rules U') /\ p_lhs r < c_num_syms U) \/ (p_lhs r = w_root w /\ p_rhs r = [w_sof w; start; w_eof w]).
  Proof.
    intros r Hr. destruct (wrap_rule_cases start U' W w HW r Hr) as [H|(A & A' & _)]; [|auto].
    left. split; [auto|]. rewrite <- (mp_syms _ _ _ HP). apply HUr. exists r. auto.
  Qed.

  Lemma inside : forall u s v z, u ++ s :: v = w_sof w :: z ++ [w_eof w] -> s <> w_sof w -> s <> w_eof w ->
    exists u' v', u = w_sof w :: u' /\ v = v' ++ [w_eof w] /\ z = u' ++ s :: v'.
  Proof.
    intros u s v z Eq N1 N2. destruct u as [|a u]; [injection Eq as -> _; congruence|]. injection Eq as -> Eq.
    destruct v as [|b v] using rev_ind.
    - apply app_inj_tail in Eq. destruct Eq; congruence.
    - clear IHv. change (u ++ s :: v ++ [b]) with (u ++ (s :: v) ++ [b]) in Eq. rewrite app_assoc in Eq. apply app_inj_tail in Eq. destruct Eq as [<- ->].
      exists u, v. auto.
  Qed.

  Lemma forms : forall x, sentential (c_rules W) (w_root w) x -> x = [w_root w] \/
    exists z, x = w_sof w :: z ++ [w_eof w] /\ sentential (augmented U start) (c_num_syms U) z /\ Forall good z.
  Proof.
    intros x H. induction H as [|x y Hx IH Hs]; [auto|]. right. pose proof new_fields as (N1 & N2 & N3).
    inversion Hs as [r u v Hr Hv E1 E2]. subst x y. destruct IH as [IH|(z & IH & Sz & Gz)].
    - destruct u as [|a u]; [|destruct u; discriminate]. injection IH as El ->. cbn [app].
      destruct (W_cases r Hr) as [[Hu L]|[_ ->]]; [unfold sym in *; lia|]. exists [start]. split; [auto|]. split; [|constructor; [exact good_start|constructor]].
      apply (sen_step _ _ [c_num_syms U]); [constructor|].
      apply (rm_step _ (mkRule (c_num_syms U) [start] None None []) [] []); [left; auto|constructor].
    - assert (Ns : p_lhs r <> w_sof w /\ p_lhs r <> w_eof w).
      { destruct (wrap_sof_eof start U' W w HW HUr HSr) as [T1 T2]. split; [exact (T1 r Hr)|exact (T2 r Hr)]. }
      destruct (inside _ _ _ _ IH (proj1 Ns) (proj2 Ns)) as (u' & v' & -> & -> & ->).
      apply Forall_app in Gz. destruct Gz as [Gu Gz]. inversion Gz as [|? ? Gl Gv]; subst.
      destruct (W_cases r Hr) as [[Hu L]|[El _]]; [|apply good_range in Gl; unfold sym in *; lia].
      exists (u' ++ p_rhs r ++ v'). split; [cbn [app]; rewrite <- !app_assoc; auto|]. split.
      + apply (sen_step _ _ (u' ++ p_lhs r :: v')); [auto|]. constructor; [right; exact (proper_sub start U U' HP r Hu)|].
        apply Forall_app in Hv. rewrite Forall_forall in *. intros s Hs'. apply terminal_aug; [auto|]. now apply Hv.
      + apply Forall_app. split; [auto|]. apply Forall_app. split; [|auto]. apply Forall_forall. intros s Hs'. apply good_used. exists r. auto.
  Qed.

  Lemma terms_aug : forall l, Forall good l -> Forall (terminal (c_rules W)) l -> Forall (terminal (augmented U start)) l.
  Proof. intros l G T. rewrite Forall_forall in *. intros s Hs. apply terminal_aug; auto. Qed.
  Lemma no_eof : forall l, Forall good l -> ~ In (w_eof w) l.
  Proof. intros l G Hin. rewrite Forall_forall in G. apply G, good_range in Hin. pose proof new_fields. unfold sym in *. lia. Qed.

  Notation aug_rule := (mkRule (c_num_syms U) [start] None None []).

  Lemma form_rule : forall r u v, In r (c_rules W) -> sentential (c_rules W) (w_root w) (u ++ p_lhs r :: v) ->
    (u = [] /\ v = [] /\ p_lhs r = w_root w /\ p_rhs r = [w_sof w; start; w_eof w]) \/
    exists u' v', u = w_sof w :: u' /\ v = v' ++ [w_eof w] /\ In r (c_rules U') /\ p_lhs r < c_num_syms U /\
      sentential (augmented U start) (c_num_syms U) (u' ++ p_lhs r :: v') /\ Forall good (u' ++ p_rhs r ++ v').
  Proof.
    intros r u v Hr Hs. pose proof new_fields as (N1 & N2 & N3). destruct (forms _ Hs) as [E1|(z & E1 & Sz & Gz)].
    - left. destruct u as [|a u]; [|destruct u; discriminate]. injection E1 as El ->.
      destruct (W_cases r Hr) as [[Hu L]|[_ ->]]; [unfold sym in *; lia|auto].
    - right. assert (Ns : p_lhs r <> w_sof w /\ p_lhs r <> w_eof w).
      { destruct (wrap_sof_eof start U' W w HW HUr HSr) as [T1 T2]. split; [exact (T1 r Hr)|exact (T2 r Hr)]. }
      destruct (inside _ _ _ _ E1 (proj1 Ns) (proj2 Ns)) as (u' & v' & -> & -> & ->).
      apply Forall_app in Gz. destruct Gz as [Gu Gz]. inversion Gz as [|? ? Gl Gv]; subst.
      destruct (W_cases r Hr) as [[Hu L]|[El _]]; [|apply good_range in Gl; unfold sym in *; lia].
      exists u', v'. repeat (split; [solve [auto]|]). apply Forall_app. split; [auto|]. apply Forall_app. split; [|auto].
      apply Forall_forall. intros s Hs'. apply good_used. exists r. auto.
  Qed.

  Lemma W_lr1 : lr1 (c_rules W) (w_root w).
  Proof.
    intros r1 u1 w1 r2 u2 w2 y Hr1 Hr2 T1 T2 Ty S1 S2 Eq Hh.
    destruct (form_rule r1 u1 w1 Hr1 S1) as [(-> & -> & L1 & R1)|(u1' & w1' & -> & -> & I1 & L1 & A1 & G1)];
    destruct (form_rule r2 u2 w2 Hr2 S2) as [(-> & -> & L2 & R2)|(u2' & w2' & -> & -> & I2 & L2 & A2 & G2)].
    - split; [auto|]. split; [congruence|]. destruct y; [auto|discriminate].
    - exfalso. destruct y; [|discriminate]. rewrite R1 in Eq. cbn [app] in Eq. injection Eq as Eq.
      rewrite !app_assoc in Eq. change [start; w_eof w] with ([start] ++ [w_eof w]) in Eq. apply app_inj_tail in Eq. destruct Eq as [Eq _].
      rewrite <- app_assoc in Eq.
      assert (Tw : Forall (terminal (augmented U start)) w2').
      { apply Forall_app in T2. apply terms_aug; [|tauto]. apply Forall_app in G2. destruct G2 as [_ G2]. apply Forall_app in G2. tauto. }
      destruct (Hlr aug_rule [] [] r2 u2' w2' []) as (_ & K & _); auto; [left; auto|right; exact (proper_sub start U U' HP r2 I2)|constructor|].
      cbn in K. unfold sym in *. lia.
    - exfalso. destruct y as [|e y] using rev_ind; [destruct w1'; discriminate|clear IHy].
      rewrite R2 in Eq. cbn [app] in Eq. injection Eq as Eq. rewrite !app_assoc in Eq.
      change [start; w_eof w] with ([start] ++ [w_eof w]) in Eq. apply app_inj_tail in Eq. destruct Eq as [Eq <-]. rewrite <- app_assoc in Eq.
      assert (Gy : Forall good (u1' ++ p_rhs r1 ++ y)) by (rewrite <- Eq; constructor; [exact good_start|constructor]).
      apply Forall_app in Gy. destruct Gy as [_ Gy]. apply Forall_app in Gy. destruct Gy as [_ Gy].
      apply Forall_app in G1. destruct G1 as [_ G1]. apply Forall_app in G1. destruct G1 as [_ G1].
      apply Forall_app in T1. apply Forall_app in Ty.
      destruct (Hlr r1 u1' w1' aug_rule [] [] y) as (_ & K & _); auto.
      + right. exact (proper_sub start U U' HP r1 I1).
      + left. auto.
      + apply terms_aug; tauto.
      + apply terms_aug; tauto.
      + constructor.
      + exact (hd_last _ _ _ (no_eof _ G1) (no_eof _ Gy) Hh).
      + cbn in K. unfold sym in *. lia.
    - destruct y as [|e y] using rev_ind; [destruct w1'; discriminate|clear IHy].
      cbn [app] in Eq. injection Eq as Eq. rewrite !app_assoc in Eq. apply app_inj_tail in Eq. destruct Eq as [Eq <-]. rewrite <- !app_assoc in Eq.
      assert (Gy : Forall good (u1' ++ p_rhs r1 ++ y)) by (rewrite <- Eq; auto).
      apply Forall_app in Gy. destruct Gy as [_ Gy]. apply Forall_app in Gy. destruct Gy as [_ Gy].
      apply Forall_app in G1. destruct G1 as [_ G1]. apply Forall_app in G1. destruct G1 as [_ G1].
      apply Forall_app in G2. destruct G2 as [_ G2]. apply Forall_app in G2. destruct G2 as [_ G2].
      apply Forall_app in T1. apply Forall_app in T2. apply Forall_app in Ty.
      destruct (Hlr r1 u1' w1' r2 u2' w2' y) as (K1 & K2 & K3); auto.
      + right. exact (proper_sub start U U' HP r1 I1).
      + right. exact (proper_sub start U U' HP r2 I2).
      + apply terms_aug; tauto.
      + apply terms_aug; tauto.
      + apply terms_aug; tauto.
      + exact (hd_last _ _ _ (no_eof _ G1) (no_eof _ Gy) Hh).
      + subst. auto.
  Qed.

  Lemma W_root : forall r, In r (c_rules W) -> ~ In (w_root w) (p_rhs r).
  Proof.
    intros r Hr Hin. pose proof new_fields as (N1 & N2 & N3). pose proof (wrap_distinct start U' W w HW) as (D1 & D2 & D3).
    destruct (W_cases r Hr) as [[Hu _]|[_ Er]].
    - assert (K : w_root w < c_num_syms U') by (apply HUr; exists r; auto). rewrite (mp_syms _ _ _ HP) in K. unfold sym in *. lia.
    - rewrite Er in Hin. pose proof (ug_start _ _ HU). destruct Hin as [Hi|[Hi|[Hi|[]]]]; unfold sym in *; try congruence; lia.
  Qed.
  Lemma W_ne : forall r, In r (c_rules W) -> p_rhs r <> [].
  Proof.
    intros r Hr. destruct (W_cases r Hr) as [[Hu _]|[_ ->]]; [|discriminate]. apply Hne. exact (proper_sub start U U' HP r Hu).
  Qed.

  (** *** nothing is nullable, so that elimination changes nothing *)
  Lemma derives_ne : forall R, (forall r, In r R -> p_rhs r <> []) ->
    (forall s x, derives R s x -> x <> []) /\ (forall a x, derives_seq R a x -> a <> [] -> x <> []).
  Proof.
    intros R H. apply derives_both; [discriminate| | |].
    - intros r x Hr _ IH. apply IH. now apply H.
    - congruence.
    - intros s ss w1 w2 _ IH _ _ _. destruct w1; [congruence|discriminate].
  Qed.
  Lemma Hvis : no_nulling_only U.
  Proof. intros s Hs. exfalso. exact (proj1 (derives_ne _ Hne) _ _ Hs eq_refl). Qed.

  Lemma B_ne : forall r, In r (c_rules B) -> p_rhs r <> [].
  Proof.
    intros r Hr Er. destruct (Nat.lt_ge_cases (p_lhs r) (c_num_syms W)) as [L|L].
    - destruct (bin_head W B m head HB r Hr L) as (q & Hq & _ & _ & K). rewrite Er in K. apply (W_ne q Hq). auto.
    - destruct (bz_gen_rule _ _ _ _ HB r Hr L) as (_ & K & _). rewrite Er in K. discriminate.
  Qed.
  Lemma B_E : forall r, In r (c_rules B) -> exists r', In r' (c_rules E) /\ p_lhs r' = p_lhs r /\ p_rhs r' = p_rhs r.
  Proof.
    intros r Hr. pose proof (B_ne r Hr) as Nr. apply In_nth_error in Hr. destruct Hr as (b & Hb).
    destruct (at_ full_rule HU HX Hvis b r Hb Nr) as (d & r' & Hd & _ & E1 & E2 & _). exists r'. split; [eapply nth_error_In; eauto|auto].
  Qed.
  Lemma E_B : forall r, In r (c_rules E) -> exists r', In r' (c_rules B) /\ p_lhs r' = p_lhs r /\ p_rhs r' = p_rhs r.
  Proof.
    intros r Hr. destruct (elim_rule B E nulling origin HE r Hr) as (r' & mask & Hr' & Hl & E1 & _ & E2 & _ & Hn).
    exists r'. split; [auto|]. split; [auto|]. rewrite E2. symmetry.
    assert (Hm : struck_out mask (p_rhs r') = []).
    { destruct (struck_out mask (p_rhs r')) as [|s l]; [auto|]. inversion Hn as [|? ? Hs _]; subst. exfalso.
      exact (proj1 (derives_ne _ B_ne) _ _ Hs eq_refl). }
    clear - Hl Hm. revert Hl Hm. generalize (p_rhs r'). induction mask as [|b mask IH]; intros [|s l] Hl Hm; try discriminate; [auto|].
    destruct b; cbn in *; [|discriminate]. f_equal. apply IH; auto.
  Qed.

  Lemma E_W_derives : forall s x, derives (c_rules E) s x -> derives_seq (c_rules W) (m s) (flat_map m x).
  Proof. intros s x H. apply (bin_sound W B m head HB). exact (proj1 (elim_sound B E nulling origin HE) s x H). Qed.
  Lemma W_E_derives : forall s x, derives (c_rules W) s x -> derives (c_rules E) s x.
  Proof.
    intros s x H. apply (bin_complete W B m head HB) in H.
    refine (proj1 (derives_incl (c_rules B) (c_rules E) _) s x H). exact B_E.
  Qed.

  Lemma used_old : forall s, used (c_rules E) s -> terminal (c_rules E) s -> s < c_num_syms W /\ terminal (c_rules W) s.
  Proof.
    intros s Hu Ht. assert (TB : terminal (c_rules B) s).
    { intros r Hr El. destruct (B_E r Hr) as (r' & Hr' & E1 & _). apply (Ht r' Hr'). congruence. }
    pose proof (at_ E_range HX s Hu) as L. rewrite (el_syms _ _ _ _ HE) in L.
    destruct (Nat.lt_ge_cases s (c_num_syms W)) as [L'|L'].
    - split; [auto|]. now apply (bin_terminal W B m head HB).
    - exfalso. exact (bin_gen_not_terminal W B m head HB s L' L TB).
  Qed.

  Lemma W_z : forall l, (forall s, In s l -> used (c_rules W) s /\ s <> w_root w) -> exists z, derives_seq (c_rules W) l z /\ Forall (terminal (c_rules W)) z.
  Proof.
    induction l as [|s l IH]; intros H; [exists []; split; constructor|].
    destruct (H s (or_introl eq_refl)) as [Hu Nr]. destruct (at_ vis_W HU HX Hvis s Hu Nr) as (x & _ & Tx & Dx).
    destruct IH as (z & Dz & Tz); [intros; apply H; simpl; auto|].
    assert (Lx : forall t, In t x -> t < c_num_syms W).
    { intros t Ht. destruct (Nat.lt_ge_cases t (c_num_syms W)) as [L|L]; [auto|exfalso].
      rewrite Forall_forall in Tx. apply (bin_gen_not_terminal W B m head HB t L); [|auto].
      destruct (proj1 (derives_used _) _ _ Dx t Ht) as [->|K]; [|now apply (bz_range _ _ _ _ HB)].
      pose proof (bz_syms _ _ _ _ HB). pose proof (wrap_range start U' W w HW HUr HSr s Hu). lia. }
    exists (x ++ z). split.
    - constructor; [|auto]. apply (bin_language W B m head HB) in Dx; [auto| |auto]. exact (wrap_range start U' W w HW HUr HSr s Hu).
    - apply Forall_app. split; [|auto]. rewrite Forall_forall in *. intros t Ht. apply (bin_terminal W B m head HB); auto.
  Qed.

  (** *** the processed grammar *)
  Variable order : BitMatrix.bitmatrix.
  Hypothesis HR : remapped (remap_cmp order) E c0 maps f.
  Variable nsyms : nat.
  Hypothesis Hns : forall s, used (c_rules E) s -> (s < c_num_syms W <-> f s < nsyms).
  Notation Rc := (c_rules (sort_rules_by_lhs c0)).

  Lemma root_used : used (c_rules E) (w_root w).
  Proof. exact (proj1 (at_ used_root_E HU HX (no_nulling_prefixes U start Hvis))). Qed.

  Lemma back_terms : forall x, (forall a, In a x -> used (c_rules E) a) -> Forall (terminal Rc) (map f x) ->
    flat_map m x = x /\ Forall (terminal (c_rules W)) x.
  Proof.
    intros x Hu Ht. assert (K : forall s, In s x -> s < c_num_syms W /\ terminal (c_rules W) s).
    { intros s Hs. apply used_old; [auto|]. apply (remap_terminal _ _ _ _ _ HR s (Hu s Hs)). rewrite Forall_forall in Ht. apply Ht. now apply in_map. }
    split; [apply (bin_old W B m head HB); intros; now apply K|]. apply Forall_forall. intros s Hs. now apply K.
  Qed.

  (** a derivation from an old symbol, back in [W] *)
  Lemma back_context : forall x T v, Forall (terminal Rc) x -> Forall (terminal Rc) v -> derives Rc (f (w_root w)) (x ++ T :: v) ->
    exists x' T' v', x = map f x' /\ T = f T' /\ v = map f v' /\ used (c_rules E) T' /\
      (forall a, In a x' -> used (c_rules E) a) /\ (forall a, In a v' -> used (c_rules E) a) /\
      Forall (terminal (c_rules W)) x' /\ Forall (terminal (c_rules W)) v' /\
      (T' < c_num_syms W -> derives (c_rules W) (w_root w) (x' ++ T' :: v')).
  Proof.
    intros x T v Tx Tv D. destruct (proj1 (remap_backward _ _ _ _ _ HR) _ _ D (w_root w) root_used eq_refl) as (y & Ey & Hu & Dy).
    symmetry in Ey. apply map_eq_app in Ey. destruct Ey as (x' & y' & -> & E1 & Ey). destruct y' as [|T' v']; [discriminate|]. cbn in Ey. injection Ey as E2 E3.
    assert (Ux : forall a, In a x' -> used (c_rules E) a) by (intros; apply Hu, in_app_iff; auto).
    assert (Uv : forall a, In a v' -> used (c_rules E) a) by (intros; apply Hu, in_app_iff; simpl; auto).
    assert (UT : used (c_rules E) T') by (apply Hu, in_app_iff; simpl; auto).
    rewrite <- E1 in Tx. rewrite <- E3 in Tv. destruct (back_terms x' Ux Tx) as [F1 F2]. destruct (back_terms v' Uv Tv) as [F3 F4].
    exists x', T', v'. repeat (split; [solve [auto]|]). intros L. apply E_W_derives in Dy.
    rewrite flat_map_app in Dy. cbn [flat_map] in Dy. rewrite F1, F3, (bz_old _ _ _ _ HB T' L) in Dy.
    rewrite (bz_old _ _ _ _ HB) in Dy by (exact (proj1 (at_ wrap_fields HX))). now apply derives_seq_one in Dy.
  Qed.

  Lemma back_string : forall A x, used (c_rules E) A -> Forall (terminal Rc) x -> derives Rc (f A) x ->
    exists x', x = map f x' /\ (forall a, In a x' -> used (c_rules E) a) /\ Forall (terminal (c_rules W)) x' /\ derives_seq (c_rules W) (m A) x'.
  Proof.
    intros A x UA Tx D. destruct (proj1 (remap_backward _ _ _ _ _ HR) _ _ D A UA eq_refl) as (x' & -> & Hu & Dx).
    destruct (back_terms x' Hu Tx) as [F1 F2]. exists x'. repeat (split; [solve [auto]|]). apply E_W_derives in Dx. now rewrite F1 in Dx.
  Qed.

  (** what a rule of [W] says when the top of a generated symbol is found *)
  Lemma B_prefix : forall r, In r (c_rules B) -> forall A, p_lhs r = A ->
    (A < c_num_syms W -> exists q, In q (c_rules W) /\ p_lhs q = A /\ p_rhs q = flat_map m (p_rhs r)) /\
    (c_num_syms W <= A -> m A = flat_map m (p_rhs r)).
  Proof.
    intros r Hr A <-. split; intros L.
    - destruct (bin_head W B m head HB r Hr L) as (q & Hq & E1 & _ & E2). exists q. auto.
    - destruct (bz_gen_rule _ _ _ _ HB r Hr L) as (_ & _ & K). auto.
  Qed.

  Lemma top_W : forall A' T', topr Rc nsyms A' T' -> forall A pre, A' = f A -> used (c_rules E) A ->
    (A < c_num_syms W -> exists q, In q (c_rules W) /\ p_lhs q = A /\ p_rhs q = pre) ->
    (c_num_syms W <= A -> m A = pre) ->
    exists q l, In q (c_rules W) /\ T' = f (p_lhs q) /\ used (c_rules E) (p_lhs q) /\ p_rhs q = pre ++ l.
  Proof.
    intros A' T' HT. induction HT as [A' L|A' r T' L Hr Hf HT IH]; intros A pre -> UA H1 H2.
    - apply Hns in L; [|auto]. destruct (H1 L) as (q & Hq & E1 & E2). exists q, []. rewrite app_nil_r, E1. auto.
    - assert (LA : c_num_syms W <= A) by (destruct (Nat.lt_ge_cases A (c_num_syms W)) as [K|K]; [apply Hns in K; [lia|auto]|auto]).
      destruct (in_Rc _ _ _ _ _ HR r Hr) as (rE & HrE & E1 & E2 & _). rewrite E2, nth_error_map in Hf.
      destruct (nth_error (p_rhs rE) 0) as [s|] eqn:Es; [|discriminate]. injection Hf as Hf.
      assert (s = A). { apply (f_eq _ _ _ _ _ HR); auto. exists rE. split; [auto|]. right. eapply nth_error_In; eauto. } subst s.
      destruct (E_B rE HrE) as (rB & HrB & B1 & B2).
      assert (Ef : flat_map m (p_rhs rB) = pre ++ flat_map m (tl (p_rhs rE))).
      { rewrite B2. destruct (p_rhs rE) as [|a l]; [discriminate|]. injection Es as ->. cbn. now rewrite H2. }
      destruct (B_prefix rB HrB (p_lhs rE) B1) as [P1 P2]. rewrite Ef in P1, P2.
      destruct (IH (p_lhs rE) _ E1 ltac:(exists rE; auto) P1 P2) as (q & l & Hq & F1 & F2 & F3).
      exists q, (flat_map m (tl (p_rhs rE)) ++ l). rewrite app_assoc. auto.
  Qed.

  Lemma m_ne : forall s, m s <> [].
  Proof.
    intros s K. destruct (Nat.lt_ge_cases s (c_num_syms W)) as [L|L]; [rewrite (bz_old _ _ _ _ HB s L) in K; discriminate|].
    pose proof (bz_new _ _ _ _ HB s L) as N. rewrite K in N. cbn in N. lia.
  Qed.

  Lemma c_one_origin : one_origin Rc nsyms (f (w_root w)).
  Proof.
    intros r B' C' T x1 y1 v1 x2 y2 v2 Hr Er HT X1 Y1 V1 D1 B1 X2 Y2 V2 D2 B2 Eq.
    destruct (in_Rc _ _ _ _ _ HR r Hr) as (rE & HrE & E1 & E2 & _). rewrite Er in E2. symmetry in E2.
    destruct (p_rhs rE) as [|b [|d [|]]] eqn:ErE; try discriminate E2. injection E2 as <- <-.
    destruct (E_B rE HrE) as (rB & HrB & L1 & L2). rewrite ErE in L2.
    destruct (B_prefix rB HrB (p_lhs rE) L1) as [P1 P2]. rewrite L2 in P1, P2. cbn [flat_map] in P1, P2. rewrite app_nil_r in P1, P2.
    destruct (top_W _ _ HT (p_lhs rE) (m b ++ m d) E1 ltac:(exists rE; auto) P1 P2) as (q & l & Hq & -> & Uq & Eq').
    rewrite <- app_assoc in Eq'.
    assert (Lq : p_lhs q < c_num_syms W) by (apply (wrap_range start U' W w HW HUr HSr); exists q; auto).
    assert (Ub : used (c_rules E) b) by (exists rE; rewrite ErE; simpl; auto).
    destruct (back_context _ _ _ X1 V1 D1) as (x1' & T1 & v1' & -> & ET1 & -> & UT1 & Ux1 & Uv1 & Tx1 & Tv1 & K1).
    destruct (back_context _ _ _ X2 V2 D2) as (x2' & T2 & v2' & -> & ET2 & -> & UT2 & Ux2 & Uv2 & Tx2 & Tv2 & K2).
    apply (f_eq _ _ _ _ _ HR) in ET1; [|auto|auto]. apply (f_eq _ _ _ _ _ HR) in ET2; [|auto|auto]. subst T1 T2. specialize (K1 Lq). specialize (K2 Lq).
    destruct (back_string _ _ Ub Y1 B1) as (y1' & -> & Uy1 & Ty1 & Dy1). destruct (back_string _ _ Ub Y2 B2) as (y2' & -> & Uy2 & Ty2 & Dy2).
    rewrite <- !map_app in Eq. apply (map_injective _ _ _ _ _ HR) in Eq;
      [|intros a Ha; apply in_app_iff in Ha; destruct Ha; auto|intros a Ha; apply in_app_iff in Ha; destruct Ha; auto].
    destruct (W_z (m d ++ l)) as (z & Dz & Tz).
    { intros s Hs. assert (Hin : In s (p_rhs q)) by (rewrite Eq'; apply in_app_iff; auto). split; [exists q; auto|]. intros ->. exact (W_root q Hq Hin). }
    f_equal. apply (unique_origin (c_rules W) (w_root w) W_lr1 W_root W_ne q (m b) (m d ++ l) z x1' y1' v1' x2' y2' v2'); auto.
    intros K. apply app_eq_nil in K. destruct K as [K _]. exact (m_ne d K).
  Qed.

  Lemma c_goes_on : goes_on Rc nsyms (f (w_root w)).
  Proof.
    intros A' t' u v x z LA Tt Tu Tv Tx Tz Nx D D1 D2.
    destruct (back_context u A' (t' :: v) Tu ltac:(constructor; auto) D) as (u' & A & tv & -> & -> & Etv & UA & Uu & Utv & Tu' & Ttv & K).
    destruct tv as [|t v']; [discriminate|]. cbn in Etv. injection Etv as -> ->.
    apply Hns in LA; [|auto]. specialize (K LA). inversion Ttv as [|? ? Tt' Tv']; subst.
    destruct (back_string _ _ UA Tx D1) as (x' & -> & Ux & Tx' & Dx).
    destruct (back_string A (map f x' ++ f t :: z) UA ltac:(apply Forall_app; split; [auto|constructor; auto]) D2) as (y & Ey & Uy & Ty & Dy).
    symmetry in Ey. apply map_eq_app in Ey. destruct Ey as (x2 & y2 & -> & E1 & Ey). destruct y2 as [|t2 z']; [discriminate|]. injection Ey as E2 <-.
    apply (map_injective _ _ _ _ _ HR) in E1; [|intros a Ha; apply Uy, in_app_iff; auto|auto]. subst x2.
    apply (f_eq _ _ _ _ _ HR) in E2; [|apply Uy, in_app_iff; simpl; auto|apply Utv; simpl; auto]. subst t2.
    rewrite (bz_old _ _ _ _ HB A LA) in Dx, Dy. apply derives_seq_one in Dx. apply derives_seq_one in Dy.
    apply Forall_app in Ty. destruct Ty as [_ Ty]. inversion Ty as [|? ? _ Tz']; subst.
    assert (Nx' : x' <> []) by (intros ->; now apply Nx).
    pose proof (left_recursion (c_rules W) (w_root w) W_lr1 W_root W_ne A t u' v' x' z' Tt' Tu' Tv' Tx' Tz' Nx' K Dx Dy) as Q.
    apply W_E_derives in Q. exact (proj1 (remap_forward _ _ _ _ _ HR) _ _ Q).
  Qed.
End LinearUser.
