(** CyclicUser: [from_grammar] and [parse] on a user's grammar that may have cycles. *)
From Coq Require Import List Arith Bool Lia.
From Verif Require Import Base BaseProofs Grammar BitMatrix DefaultGrammar Forest Recognizer Drive Parse Spec SpecFacts Chart CfgSpec
  ForestSpec ClientSpec TablesProofs ParseFacts FromGrammar CrateSpec UserSpec CrateFacts CrateProcessed.
From Verif Require Cyclic.
Import ListNotations.
Local Open Scope res_scope.

(** ** The grammar is built *)
Lemma shaped_of : forall X U start W B E c0 w m head nulling origin maps f, user_grammar U start ->
  elaborates X U start W B E c0 w m head nulling origin maps f ->
  null_prefixes_visible U start ->
  exists k g nsyms w' d0 h0 order, (forall fuel, k <= fuel -> from_grammar X fuel U = Ret g) /\
    shaped_built (sort_rules_by_lhs c0) nsyms w' d0 (f h0) g /\
    remapped (remap_cmp order) E c0 maps f /\ w_sof w' = f (w_sof w) /\
    (forall t, token U start t -> to_internal g t = Ret (Some (f t)) /\ user_terminal (sort_rules_by_lhs c0) nsyms w' (f t)) /\
    (forall x, (forall t, In t x -> token U start t) ->
      (sentence (sort_rules_by_lhs c0) w' (f h0) (map f x) <-> derives (c_rules U) start x)) /\
    (visible (c_rules B) start -> exists r, In r (c_rules E) /\ p_lhs r = h0 /\ p_rhs r = [w_sof w; start]) /\
    w_root w' = f (w_root w) /\ ((c_num_syms W <= h0 < c_num_syms B) /\
    (exists r, In r (c_rules B) /\ p_lhs r = h0 /\ p_rhs r = [w_sof w; start]) /\
    from_processed_grammars k (sort_rules_by_lhs c0) maps nulling (x_first X (sort_rules_by_lhs c0)) (x_follow X (sort_rules_by_lhs c0)) = Ret g /\
    (forall s, used (c_rules E) s -> (kept_gen W B E s <-> nsyms <= f s))).
Proof.
  intros X U start W B E c0 w m head nulling origin maps f HU HX Hvis.
  destruct (order_exists _ _ _ _ _ _ _ _ _ _ _ _ _ _ HX) as (order & Hord & Hmap & HR).
  destruct (c_shaped _ _ _ _ _ _ _ _ _ _ _ _ _ _ HU HX Hvis order Hord HR)
    as (nsyms & w' & d0 & g0 & Hp & Hg0 & Hw & Eroot & Esof & Eeof & Einner & Hn & H1 & H2 & H3 & HgB).
  destruct (tables_total _ _ _ _ _ _ _ _ _ _ _ _ _ _ HU HX Hvis order HR nsyms w' d0 (f g0)
    (x_first X (sort_rules_by_lhs c0)) (x_follow X (sort_rules_by_lhs c0)) Hp) as (k & g & Hk).
  exists k, g, nsyms, w', d0, g0, order.
  split; [intros fuel Hf; exact (from_grammar_tables _ _ _ _ _ _ _ _ _ _ _ _ _ _ HX order Hord fuel g Hmap (Hk fuel Hf))|].
  pose proof (Hk k (le_n _)) as HT. destruct (from_processed_inv _ _ _ _ _ _ _ HT) as (? & ? & ? & ? & ? & Hinv).
  destruct (used_root_E _ _ _ _ _ _ _ _ _ _ _ _ _ _ HU HX Hvis) as (Ur & Us & Ue & Ui).
  assert (Em : g_maps g = maps) by (decompose [and] Hinv; auto).
  assert (Hdist : forall t, t < c_num_syms U -> t <> w_sof w /\ t <> w_eof w).
  { intros t Lt. pose proof (wr_new _ _ _ _ (proj2 (eb_wrap _ _ _ _ _ _ _ _ _ _ _ _ _ _ HX))) as Hnew.
    rewrite (mp_syms _ _ _ (eb_proper _ _ _ _ _ _ _ _ _ _ _ _ _ _ HX)) in Hnew.
    inversion Hnew as [|? ? _ Hnew' E1]; inversion Hnew' as [|? ? Hs Hnew'' E2]; inversion Hnew'' as [|? ? He _ E3]; subst.
    split; intros ->; lia. }
  split; [|split; [exact HR|split; [exact Esof|split; [|split; [|exact (conj H3 (conj Eroot (conj Hg0 (conj HgB (conj HT Hn)))))]]]]].
  - split; [exact Hp|]. exists k, maps, nulling, (x_first X (sort_rules_by_lhs c0)), (x_follow X (sort_rules_by_lhs c0)).
    split; [exact HT|]. split; [exact (eb_first _ _ _ _ _ _ _ _ _ _ _ _ _ _ HX)|].
    rewrite Eroot. exact (eb_follow _ _ _ _ _ _ _ _ _ _ _ _ _ _ HX).
  - intros t (Lt & Ht & Hk'). pose proof (proj1 (known_used _ _ _ _ _ _ _ _ _ _ _ _ _ _ HU HX Hvis t Lt Ht) Hk') as Hu.
    split; [unfold to_internal; rewrite Em; exact (rm_internal _ _ _ _ _ HR t Hu)|].
    split; [destruct (Nat.lt_ge_cases (f t) nsyms) as [L|L]; [auto|]; apply (Hn t Hu) in L; destruct L as ([L _] & _);
      pose proof (U_W _ _ _ _ _ _ _ _ _ _ _ _ _ _ HX); lia|].
    split; [|destruct (Hdist t Lt) as [N1 N2]; split;
      [rewrite Esof|rewrite Eeof]; intros Heq; apply (rm_injective _ _ _ _ _ HR) in Heq; auto].
    apply (remap_terminal _ _ _ _ _ HR t Hu). exact (known_terminal _ _ _ _ _ _ _ _ _ _ _ _ _ _ HU HX t Lt Ht).
  - intros y Hx. apply (language _ _ _ _ _ _ _ _ _ _ _ _ _ _ HU HX Hvis order HR w' g0 y); auto.
    + apply Forall_forall. intros t Hin. apply (Hx t Hin).
    + intros t Hin. destruct (Hx t Hin) as (Lt & Ht & Hk'). split; [auto|].
      now apply (known_used _ _ _ _ _ _ _ _ _ _ _ _ _ _ HU HX Hvis t Lt Ht).
Qed.

Lemma mapped_tokens : forall U start (g : dgrammar) (f : sym -> sym) tokens,
  (forall t, token U start t -> to_internal g t = Ret (Some (f t))) -> Forall (token U start) tokens -> mapped g tokens (map f tokens).
Proof. intros U start g f tokens H Ht. unfold mapped. induction Ht; cbn; constructor; auto. Qed.

(** ** If the parse ends, its answer is right *)
Lemma P_returns_right : forall X U start, user_grammar U start -> crate_contract X U start -> null_prefixes_visible U start ->
  forall F N (fo : forest_ops F N) f0 P, (exists ok, usable fo ok /\ ok Idle f0) -> LEO P = false ->
  exists k g, (forall fuel, k <= fuel -> from_grammar X fuel U = Ret g) /\
    forall tokens, Forall (token U start) tokens ->
    forall fuel, (st <- r_new g f0 ;; parse fo P g fuel st tokens) = NoFuel \/
      exists r st', (st <- r_new g f0 ;; parse fo P g fuel st tokens) = Ret (r, st') /\
        (r = POk true <-> derives (c_rules U) start tokens).
Proof.
  intros X U start HU (W & B & E & c0 & w & m & head & nulling & origin & maps & f & HX) Hvis F N fo f0 P (ok & Hfo & Hf0) HP.
  destruct (shaped_of _ _ _ _ _ _ _ _ _ _ _ _ _ _ HU HX Hvis) as (k & g & nsyms & w' & d0 & h0 & order & Hk & HB & HR & Esof & Htok & Hsent & _).
  exists k, g. split; [exact Hk|]. intros tokens Ht fuel. pose proof Ht as Ht'. rewrite Forall_forall in Ht'.
  destruct (Cyclic.new_start (N := N) ok P (sort_rules_by_lhs c0) nsyms w' d0 (f h0) g HB f0 Hf0) as (st0 & E0 & Hst & Hh).
  rewrite E0. cbn [bind].
  destruct (Cyclic.parse_spec fo ok Hfo P _ nsyms w' d0 (f h0) g HP HB _ st0 tokens (map f tokens) Hst ltac:(contradiction) Hh
     (mapped_tokens U start g f tokens (fun t H => proj1 (Htok t H)) Ht)) with (fuel := fuel) as [H|(r & st' & H & Hr & _)].
  - intros s Hs. apply in_map_iff in Hs. destruct Hs as (t & <- & Hin). apply Htok. now apply Ht'.
  - now left.
  - right. exists r, st'. split; [exact H|]. rewrite Hr. now apply Hsent.
Qed.

(** ** Which grammars are accepted *)
Lemma P_builds : forall X U start, user_grammar U start -> crate_contract X U start -> null_prefixes_visible U start ->
  exists k g, forall fuel, k <= fuel -> from_grammar X fuel U = Ret g.
Proof.
  intros X U start HU (W & B & E & c0 & w & m & head & nulling & origin & maps & f & HX) Hvis.
  destruct (shaped_of _ _ _ _ _ _ _ _ _ _ _ _ _ _ HU HX Hvis) as (k & g & _ & _ & _ & _ & _ & Hk & _). eauto.
Qed.

(** ** Sentential forms through the transformations *)
Section Proper.
  Variables (start : sym) (U U' : pcfg).
  Hypothesis HP : made_proper start U U'.

  Lemma form_productive : forall a x, derives_seq (c_rules U) a x -> Forall (productive_sym (c_rules U)) x ->
    forall s, In s a -> productive_sym (c_rules U) s.
  Proof.
    intros a x H Hx. assert (K : exists y, Forall (terminal (c_rules U)) y /\ derives_seq (c_rules U) x y).
    { clear H. induction Hx as [|s x (y1 & T1 & D1) _ (y2 & T2 & D2)]; [exists []; split; constructor|].
      exists (y1 ++ y2). split; [apply Forall_app; auto|now constructor]. }
    destruct K as (y & Ty & Dy). apply (seq_productive U a y); [|auto]. eapply (proj2 (derives_compose _)); eauto.
  Qed.

  Lemma proper_forms :
    (forall s x, derives (c_rules U) s x -> Forall (productive_sym (c_rules U)) x -> reached start U s -> derives (c_rules U') s x) /\
    (forall a x, derives_seq (c_rules U) a x -> Forall (productive_sym (c_rules U)) x -> (forall s, In s a -> reached start U s) ->
       derives_seq (c_rules U') a x).
  Proof.
    apply derives_both.
    - intros. constructor.
    - intros r x Hr Hs IH Hx (u & v & Hst). apply derives_rule.
      + apply (mp_rules _ _ _ HP); split; [auto|]. split; [exists u, v; auto|]. exact (form_productive _ _ Hs Hx).
      + apply IH; [auto|]. intros s Hin. apply in_split in Hin. destruct Hin as (l1 & l2 & E).
        exists (u ++ l1), (l2 ++ v).
        assert (D : derives (c_rules U) (p_lhs r) (l1 ++ s :: l2)). { apply derives_rule; [auto|]. rewrite E. apply derives_seq_self. }
        pose proof (derives_replace _ _ _ _ _ _ Hst D) as K. rewrite <- !app_assoc in K. rewrite <- app_assoc. exact K.
    - constructor.
    - intros s ss w1 w2 _ IH1 _ IH2 Hx Hre. apply Forall_app in Hx. destruct Hx as [Hx1 Hx2].
      constructor; [apply IH1|apply IH2]; auto; intros; apply Hre; simpl; auto.
  Qed.

  Lemma proper_by_rule : forall s x, derives_by_rule (c_rules U) s x -> Forall (productive_sym (c_rules U)) x -> reached start U s ->
    derives_by_rule (c_rules U') s x.
  Proof.
    intros s x (r & Hr & <- & Hs) Hx (u & v & Hst). exists r. split; [|split; [auto|]].
    - apply (mp_rules _ _ _ HP); split; [auto|]. split; [exists u, v; auto|]. exact (form_productive _ _ Hs Hx).
    - apply (proj2 proper_forms); [auto|auto|]. intros t Hin. apply in_split in Hin. destruct Hin as (l1 & l2 & E).
      exists (u ++ l1), (l2 ++ v).
      assert (D : derives (c_rules U) (p_lhs r) (l1 ++ t :: l2)). { apply derives_rule; [auto|]. rewrite E. apply derives_seq_self. }
      pose proof (derives_replace _ _ _ _ _ _ Hst D) as K. rewrite <- !app_assoc in K. rewrite <- app_assoc. exact K.
  Qed.
End Proper.

Section Elim.
  Variables (B E : pcfg) (nulling : list prule) (origin : nat -> nat * list bool).
  Hypothesis HE : eliminated B E nulling origin.

  Lemma vis_form : forall x, x <> [] -> Forall (visible (c_rules B)) x ->
    exists y, y <> [] /\ Forall (terminal (c_rules B)) y /\ derives_seq (c_rules B) x y.
  Proof.
    intros x Hne Hx. assert (K : exists y, (x <> [] -> y <> []) /\ Forall (terminal (c_rules B)) y /\ derives_seq (c_rules B) x y).
    { clear Hne. induction Hx as [|s x (y1 & N1 & T1 & D1) _ (y2 & _ & T2 & D2)]; [exists []; repeat split; auto; constructor|].
      exists (y1 ++ y2). split; [intros _ K; apply app_eq_nil in K; tauto|]. split; [apply Forall_app; auto|now constructor]. }
    destruct K as (y & Hy & K). exists y. split; auto.
  Qed.

  Lemma elim_forms :
    (forall s x, derives (c_rules B) s x -> x <> [] -> Forall (visible (c_rules B)) x -> derives (c_rules E) s x) /\
    (forall a x, derives_seq (c_rules B) a x -> Forall (visible (c_rules B)) x ->
       exists mask, length mask = length a /\ Forall (nullable (c_rules B)) (struck_out mask a) /\
         Forall (visible (c_rules B)) (left_over mask a) /\ (x <> [] -> left_over mask a <> []) /\
         derives_seq (c_rules E) (left_over mask a) x).
  Proof.
    apply derives_both.
    - intros. constructor.
    - intros r' x Hr _ IH Hne Hx. destruct (IH Hx) as (mask & Hl & Hn & Hv & Hnx & Hd).
      apply In_nth_error in Hr. destruct Hr as (b & Hb).
      destruct (el_all _ _ _ _ HE b r' mask Hb Hl Hn (Hnx Hne) Hv) as (d & r & Hd' & Eo).
      pose proof (el_rule _ _ _ _ HE d r Hd') as K. rewrite Eo in K. destruct K as (r'' & Hb' & _ & E1 & _ & E2 & _).
      rewrite Hb in Hb'. injection Hb' as <-. rewrite <- E1. apply derives_rule; [eapply nth_error_In; eauto|]. now rewrite E2.
    - intros _. exists []. repeat split; try constructor. auto.
    - intros s ss w1 w2 H1 IH1 _ IH2 Hx. apply Forall_app in Hx. destruct Hx as [Hx1 Hx2].
      destruct (IH2 Hx2) as (mask & Hl & Hn & Hv & Hnx & Hd). destruct w1 as [|t w1].
      + exists (false :: mask). cbn. split; [auto|]. split; [constructor; auto|]. auto.
      + exists (true :: mask). cbn [length left_over]. split; [auto|]. split; [exact Hn|].
        split.
        { constructor; [|auto]. destruct (vis_form (t :: w1)) as (y & Ny & Ty & Dy); [discriminate|auto|].
          exists y. split; [auto|]. split; [auto|]. eapply (proj1 (derives_compose _)); eauto. }
        split; [discriminate|]. constructor; [apply IH1; [discriminate|auto]|auto].
  Qed.

  Lemma elim_by_rule : forall s x, derives_by_rule (c_rules B) s x -> x <> [] -> Forall (visible (c_rules B)) x ->
    derives_by_rule (c_rules E) s x.
  Proof.
    intros s x (r' & Hr & <- & Hs) Hne Hx. destruct (proj2 elim_forms _ _ Hs Hx) as (mask & Hl & Hn & Hv & Hnx & Hd).
    apply In_nth_error in Hr. destruct Hr as (b & Hb).
    destruct (el_all _ _ _ _ HE b r' mask Hb Hl Hn (Hnx Hne) Hv) as (d & r & Hd' & Eo).
    pose proof (el_rule _ _ _ _ HE d r Hd') as K. rewrite Eo in K. destruct K as (r'' & Hb' & _ & E1 & _ & E2 & _).
    rewrite Hb in Hb'. injection Hb' as <-. exists r. split; [eapply nth_error_In; eauto|]. split; [auto|]. now rewrite E2.
  Qed.
End Elim.

Lemma bin_by_rule : forall W B m head, binarized W B m head ->
  forall s x, derives_by_rule (c_rules W) s x -> derives_by_rule (c_rules B) s x.
Proof.
  intros W B m head HB s x (r & Hr & <- & Hs). apply In_nth_error in Hr. destruct Hr as (d & Hd).
  destruct (bz_head _ _ _ _ HB d r Hd) as (r' & Hb & E1 & _ & E2).
  assert (Hr' : In r' (c_rules B)) by (eapply nth_error_In; eauto). exists r'. split; [auto|]. split; [auto|].
  eapply (proj2 (derives_compose _)); [|exact (proj2 (bin_complete W B m head HB) _ _ Hs)]. rewrite <- E2.
  apply (bin_expand W B m head HB). intros t Ht. apply (bz_range _ _ _ _ HB). exists r'. auto.
Qed.

(** ** A cycle that can be reached: the parse does not end *)
Lemma P_cycle_never_ends : forall X U start, user_grammar U start -> crate_contract X U start -> null_prefixes_visible U start ->
  forall F N (fo : forest_ops F N) f0 P, (exists ok, usable fo ok /\ ok Idle f0) -> LEO P = false ->
  exists k g, (forall fuel, k <= fuel -> from_grammar X fuel U = Ret g) /\
    forall A x y z, derives_by_rule (c_rules U) A [A] -> derives (c_rules U) start (x ++ A :: z) -> derives (c_rules U) A y -> y <> [] ->
    Forall (terminal (c_rules U)) (x ++ y ++ z) ->
    forall fuel, (st <- r_new g f0 ;; parse fo P g fuel st (x ++ y ++ z)) = NoFuel.
Proof.
  intros X U start HU (W & B & E & c0 & w & m & head & nulling & origin & maps & f & HX) Hvis F N fo f0 P (ok & Hfo & Hf0) HLeo.
  destruct (shaped_of _ _ _ _ _ _ _ _ _ _ _ _ _ _ HU HX Hvis) as (k & g & nsyms & w' & d0 & h0 & order & Hk & HB & HR & Esof & Htok & Hsent & Hg0 & _).
  exists k, g. split; [exact Hk|]. intros A x y z HA Hs Hy Hne Ht fuel.
  pose proof (CrateProcessed.HP _ _ _ _ _ _ _ _ _ _ _ _ _ _ HX) as HPr.
  pose proof (CrateProcessed.HB _ _ _ _ _ _ _ _ _ _ _ _ _ _ HX) as HBi.
  pose proof (CrateProcessed.HE _ _ _ _ _ _ _ _ _ _ _ _ _ _ HX) as HEl.
  pose proof (CrateProcessed.HW _ _ _ _ _ _ _ _ _ _ _ _ _ _ HX) as HWr.
  assert (Tx : Forall (terminal (c_rules U)) x /\ Forall (terminal (c_rules U)) y /\ Forall (terminal (c_rules U)) z).
  { apply Forall_app in Ht. destruct Ht as [T1 T2]. apply Forall_app in T2. tauto. }
  destruct Tx as (Tx & Ty & Tz).
  assert (Hw : derives (c_rules U) start (x ++ y ++ z)) by (exact (derives_replace _ _ _ _ _ _ Hs Hy)).
  assert (PT : forall l, Forall (terminal (c_rules U)) l -> Forall (productive_sym (c_rules U)) l).
  { intros l Hl. eapply Forall_impl; [|exact Hl]. intros t Tt. exists [t]. split; [constructor; auto|constructor]. }
  assert (PA : productive_sym (c_rules U) A) by (exists y; auto).
  assert (RA : reached start U A) by (exists x, z; auto).
  assert (RS : reached start U start) by (exists [], []; constructor).
  assert (PF : Forall (productive_sym (c_rules U)) (x ++ A :: z)) by (apply Forall_app; split; [auto|constructor; auto]).
  (* in the proper grammar *)
  assert (D1 : derives (c_rules (x_make_proper X U)) start (x ++ A :: z)) by (apply (proj1 (proper_forms start U _ HPr)); auto).
  assert (D2 : derives_by_rule (c_rules (x_make_proper X U)) A [A]) by (apply (proper_by_rule start U _ HPr); auto).
  assert (D3 : derives (c_rules (x_make_proper X U)) A y) by (apply (proj1 (proper_forms start U _ HPr)); auto).
  assert (D4 : derives (c_rules (x_make_proper X U)) start (x ++ y ++ z)) by (apply (proj1 (proper_forms start U _ HPr)); auto).
  (* in the binarised grammar *)
  pose proof (U'_to_B _ _ _ _ _ _ _ _ _ _ _ _ _ _ HX) as UB.
  assert (TB : Forall (terminal (c_rules B)) (x ++ y ++ z))
    by (exact (U_terminal_B _ _ _ _ _ _ _ _ _ _ _ _ _ _ HU HX _ _ D4 (ug_start _ _ HU) Ht)).
  assert (VT : forall l, Forall (terminal (c_rules B)) l -> Forall (visible (c_rules B)) l).
  { intros l Hl. eapply Forall_impl; [|exact Hl]. intros t Tt. exists [t]. split; [discriminate|]. split; [constructor; auto|constructor]. }
  assert (TBs : Forall (terminal (c_rules B)) x /\ Forall (terminal (c_rules B)) y /\ Forall (terminal (c_rules B)) z).
  { apply Forall_app in TB. destruct TB as [T1 T2]. apply Forall_app in T2. tauto. }
  destruct TBs as (TBx & TBy & TBz).
  assert (VA : visible (c_rules B) A) by (exists y; auto).
  assert (VF : Forall (visible (c_rules B)) (x ++ A :: z)) by (apply Forall_app; split; [auto|constructor; auto]).
  assert (B2 : derives_by_rule (c_rules B) A [A]).
  { apply (bin_by_rule W B m head HBi). destruct D2 as (r & Hr & El & Hd). exists r. split; [apply (wrap_rule start _ W w HWr); auto|].
    split; [auto|]. refine (proj2 (derives_sub _ _ _) _ _ Hd). intros q Hq. apply (wrap_rule start _ W w HWr). auto. }
  assert (VS : visible (c_rules B) start).
  { exists (x ++ y ++ z). split; [intros K; apply app_eq_nil in K; destruct K as [_ K]; apply app_eq_nil in K; tauto|]. auto. }
  (* after elimination *)
  assert (E1 : derives (c_rules E) start (x ++ A :: z)) by (apply (proj1 (elim_forms B E nulling origin HEl)); auto; destruct x; discriminate).
  assert (E2 : derives_by_rule (c_rules E) A [A]) by (apply (elim_by_rule B E nulling origin HEl); auto; discriminate).
  assert (E3 : derives (c_rules E) A y) by (apply (proj1 (elim_forms B E nulling origin HEl)); auto).
  destruct (Hg0 VS) as (rg & Hrg & Elg & Erg).
  assert (E4 : derives (c_rules E) h0 (w_sof w :: x ++ A :: z)).
  { rewrite <- Elg. apply derives_rule; [auto|]. rewrite Erg. change (w_sof w :: x ++ A :: z) with ([w_sof w] ++ (x ++ A :: z)).
    constructor; [constructor|]. now apply derives_seq_one. }
  (* renumbered *)
  destruct (remap_forward _ _ _ _ _ HR) as [FW FW'].
  pose proof (FW _ _ E4) as G4. pose proof (FW _ _ E3) as G3.
  assert (G2 : derives_by_rule (c_rules (sort_rules_by_lhs c0)) (f A) [f A]).
  { destruct E2 as (r & Hr & El & Hd). destruct (remap_has _ _ _ _ _ HR r Hr) as (r' & Hr' & F1 & F2 & _).
    exists r'. split; [auto|]. split; [congruence|]. rewrite F2. exact (FW' _ _ Hd). }
  assert (Ktok : forall t, In t (x ++ y ++ z) -> token U start t).
  { intros t Hin. destruct (derived_known _ _ _ _ _ _ _ _ _ _ _ _ _ _ HU HX (x ++ y ++ z) Ht Hw t Hin) as [Lt K].
    split; [auto|]. split; [|auto]. rewrite Forall_forall in Ht. auto. }
  destruct (Cyclic.new_start (N := N) ok P (sort_rules_by_lhs c0) nsyms w' d0 (f h0) g HB f0 Hf0) as (st0 & E0 & Hst & Hh).
  rewrite E0. cbn [bind].
  apply (Cyclic.never_ends fo ok Hfo P _ nsyms w' d0 (f h0) g HLeo HB st0 (x ++ y ++ z) (map f x) (f A) (map f y) (map f z) Hst Hh).
  - rewrite <- !map_app. apply (mapped_tokens U start); [intros t K; apply (Htok t K)|]. apply Forall_forall. exact Ktok.
  - intros s Hin. rewrite <- !map_app in Hin. apply in_map_iff in Hin. destruct Hin as (t & <- & Hin). apply Htok. auto.
  - cbn [map] in G4. rewrite map_app in G4. cbn [map] in G4. rewrite Esof. exact G4.
  - exact G2.
  - exact G3.
Qed.
