(** LinearProps: the cost of parses of the user's LR(1) grammars. *)
From Coq Require Import List Arith Bool Lia.
From Verif Require Import Base BaseProofs Vec2d Item Grammar DefaultGrammar Forest Recognizer Drive Parse Spec SpecFacts Chart CfgSpec ForestSpec ClientSpec
  Sim ParseFacts SimpleBocage SimpleProofs SimpleTop CompactBocage CompactProofs CostSpec Cost CostTop FromGrammar CrateSpec UserSpec CrateFacts GensymFacts CrateProcessed PropLemmas9
  LRSpec LRFacts LinearChart LinearTop LinearUser.
Import ListNotations.
Local Open Scope res_scope.

(** ** Reduced LR(1) grammars have no cycles *)
Lemma lr1_no_cycles : forall U start, user_grammar U start -> user_lr1 U start -> no_empty_rules U -> reduced U start -> no_cycles U.
Proof.
  intros U start HU Hlr Hne Hred s (r & Hr & El & Hd).
  assert (Hus : used (c_rules U) s) by (exists r; auto). destruct (Hred s Hus) as (_ & u & v & D).
  pose (R := augmented U start). pose (top := c_num_syms U).
  assert (Sub : forall q, In q (c_rules U) -> In q R) by (intros; right; auto).
  assert (Tu : forall t, t < c_num_syms U -> terminal (c_rules U) t -> terminal R t).
  { intros t L T q [<-|Hq]; [cbn; unfold sym in *; lia|now apply T]. }
  assert (Hroot : forall q, In q R -> ~ In top (p_rhs q)).
  { intros q [<-|Hq] Hin.
    - destruct Hin as [Hin|[]]. pose proof (ug_start _ _ HU). unfold top, sym in *. lia.
    - assert (L : top < c_num_syms U) by (apply (ug_range _ _ HU); exists q; auto). unfold top, sym in *. lia. }
  assert (HneR : forall q, In q R -> p_rhs q <> []) by (intros q [<-|Hq]; [discriminate|now apply Hne]).
  (* a string of terminals from each symbol of a list *)
  assert (Prod : forall t, In t (u ++ s :: v) -> t < c_num_syms U /\ productive_sym (c_rules U) t).
  { intros t Ht. destruct (proj1 (derives_used _) _ _ D t Ht) as [->|K].
    - split; [apply (ug_start _ _ HU)|]. remember (u ++ s :: v) as y eqn:E0. destruct D as [a0|q x Hq Hs].
      + destruct u as [|a [|]]; try discriminate. injection E0 as -> _. apply Hred. exists r. auto.
      + apply Hred. exists q. auto.
    - split; [now apply (ug_range _ _ HU)|now apply Hred]. }
  assert (Seq : forall l, (forall t, In t l -> t < c_num_syms U /\ productive_sym (c_rules U) t) -> exists x, derives_seq (c_rules U) l x /\ Forall (terminal R) x).
  { induction l as [|t l IH]; intros H; [exists []; split; constructor|]. destruct (H t (or_introl eq_refl)) as [Lt (x & Tx & Dx)].
    destruct IH as (y & Dy & Ty); [intros; apply H; simpl; auto|]. exists (x ++ y). split; [now constructor|]. apply Forall_app. split; [|auto].
    rewrite Forall_forall in *. intros a Ha. apply Tu; [|auto]. destruct (proj1 (derives_used _) _ _ Dx a Ha) as [->|K]; [auto|now apply (ug_range _ _ HU)]. }
  destruct (Seq u) as (u' & Du & Tu'); [intros; apply Prod, in_app_iff; auto|].
  destruct (Seq v) as (v' & Dv & Tv'); [intros; apply Prod, in_app_iff; simpl; auto|].
  assert (D' : derives R top (u' ++ s :: v')).
  { apply (derives_rule R (mkRule top [start] None None [])); [left; reflexivity|]. cbn [p_rhs]. apply CrateFacts.derives_seq_one.
    apply (proj1 (derives_sub _ R Sub)). eapply (proj1 (derives_compose _)); [exact D|].
    apply derives_seq_app; [auto|]. exact (derives_cons _ s v [s] v' (derives_self _ s) Dv). }
  destruct (derives_sen R top u' s v' D' Tu' Tv') as (g & _ & S & _).
  apply (proj2 (derives_sub _ R Sub)) in Hd.
  destruct (proj2 (derives_rm_context R) _ _ Hd [] s [] eq_refl (Forall_nil _)) as (n & h & N & Dh).
  assert (h = []). { destruct h as [|a h]; [auto|]. exfalso. exact (proj2 (derives_ne R HneR) _ _ Dh ltac:(discriminate) eq_refl). } subst h.
  cbn [app] in N. apply (no_cycle R top Hlr Hroot HneR n (g ++ s :: v') S).
  pose proof (rmn_context R _ _ _ g v' N Tv') as N'. cbn [app] in N'.
  econstructor; [|exact N']. rewrite <- El. constructor; auto.
Qed.

(** ** Parses *)
Definition cost_ok (g : dgrammar) (P : perf) (k : nat) (locs : list location) (bound : nat) : Prop :=
  forall F N (fo : forest_ops F N) ok f0, usable fo ok -> ok Idle f0 ->
  forall fuel b st, (st <- r_new g (f0, 0) ;; feed_all (counted fo) P g fuel locs st) = Ret (b, st) ->
  snd (r_forest st) <= k * bound /\ v_item_count (r_medial st) <= k * S (length locs).

Lemma user_cost : forall X U start, user_grammar U start -> exact_contract X U start -> user_lr1 U start -> no_empty_rules U -> reduced U start ->
  exists k g c nsyms w d0 g0 f, (forall fuel, k <= fuel -> from_grammar X fuel U = Ret g) /\ user_built U start c nsyms w d0 g0 g f /\
    forall P, LEO P = false -> exists k',
      (forall locs, (forall loc, In loc locs -> one_token U start g loc) -> cost_ok g P k' locs (length locs ^ 2)) /\
      (LOOKAHEAD P = true -> forall use xs, (forall j, 0 < j -> use j = true) ->
       (forall s v, In (s, v) xs -> s = g_sof_sym g \/ token_symbol U start g s) ->
       cost_ok g P k' (hinted use 0 xs) (S (length xs))).
Proof.
  intros X U start HU (W & B & E & c0 & w0 & m & head & nulling & origin & maps & f & HX & HF) Hlr Hne Hred.
  pose proof (lr1_no_cycles U start HU Hlr Hne Hred) as Hcyc.
  assert (Hps : productive_sym (c_rules U) start).
  { destruct (existsb (fun r => p_lhs r =? start) (c_rules U)) eqn:Ex.
    - apply existsb_exists in Ex. destruct Ex as (r & Hr & Hl). apply Nat.eqb_eq in Hl. apply Hred. exists r. auto.
    - exists [start]. split; [|constructor]. constructor; [|constructor]. intros r Hr El. rewrite <- not_true_iff_false in Ex. apply Ex.
      apply existsb_exists. exists r. split; [auto|now apply Nat.eqb_eq]. }
  pose proof (no_nulling_prefixes U start (Hvis U Hne)) as Hv.
  destruct (user_built_of _ _ _ _ _ _ _ _ _ _ _ _ _ _ HU HX Hv Hcyc) as (k & g & nsyms & w & d0 & h0 & order & H1 & H2 & HR & _ & Esof & _ & _ & HT & Eroot & Hns').
  assert (Hns : forall s, used (c_rules E) s -> (s < c_num_syms W <-> f s < nsyms)).
  { intros s Hs. split; intros L.
    - destruct (Nat.lt_ge_cases (f s) nsyms) as [K|K]; [auto|]. apply (Hns' s Hs) in K. destruct K as ([K _] & _). lia.
    - destruct (Nat.lt_ge_cases s (c_num_syms W)) as [K|K]; [auto|].
      pose proof (gen_kept_used X U start W B E c0 w0 m head nulling origin maps f HU HX (no_nulling_short U start (Hvis U Hne)) s Hs K) as Q. apply (Hns' s Hs) in Q. lia. }
  set (c := sort_rules_by_lhs c0) in *. pose proof (ub_built _ _ _ _ _ _ _ _ _ H2) as HB. pose proof (b_processed _ _ _ _ _ _ HB) as HPr.
  exists k, g, c, nsyms, w, d0, (f h0), f. split; [exact H1|]. split; [exact H2|]. intros P Hleo.
  assert (HO : one_origin (c_rules c) nsyms (w_root w)).
  { rewrite Eroot. eapply (c_one_origin X U start W B E c0 w0); eauto. }
  assert (HG : goes_on (c_rules c) nsyms (w_root w)).
  { rewrite Eroot. eapply (c_goes_on X U start W B E c0 w0); eauto. }
  assert (HFI : first_sets_cover c (x_first X c)) by exact (eb_first _ _ _ _ _ _ _ _ _ _ _ _ _ _ HX).
  assert (HFO : follow_sets_cover c (w_root w) (x_follow X c)) by (rewrite Eroot; exact (eb_follow _ _ _ _ _ _ _ _ _ _ _ _ _ _ HX)).
  assert (HFS : follow_sets_sound c (w_root w) (x_follow X c)) by (rewrite Eroot; exact HF).
  pose proof (ub_productive _ _ _ _ _ _ _ _ _ H2) as Hprod.
  assert (Hgen : forall s, nsyms <= s -> s < c_num_syms c -> exists r C, In r (c_rules c) /\ p_rhs r = [s; C]).
  { intros s L1 L2. pose proof (c_shape _ _ _ _ _ _ _ _ _ _ _ _ _ _ HU HX order HR) as SH.
    destruct (rm_onto _ _ _ _ _ HR s L2) as (a & Ha & <-).
    assert (Ga : gen' W B E f (f a)).
    { exists a. split; [|auto]. now apply (Hns' a Ha). }
    destruct (gs_first _ _ SH _ Ga) as (r & y & Hr & _ & Er). exists r, y. auto. }
  destruct (square_cost P c nsyms w d0 (f h0) g Hleo k maps nulling _ _ HPr HT HO Hprod) as (k1 & K1).
  assert (K2 : exists k2, LOOKAHEAD P = true -> forall F N (fo : forest_ops F N) ok f0, usable fo ok -> ok Idle f0 ->
    forall use xs, (forall j, 0 < j -> use j = true) -> (forall s v, In (s, v) xs -> s < nsyms /\ terminal (c_rules c) s) ->
    forall fuel b st, (st <- r_new g (f0, 0) ;; feed_all (counted fo) P g fuel (hinted use 0 xs) st) = Ret (b, st) ->
    snd (r_forest st) <= k2 * S (length xs) /\ v_item_count (r_medial st) <= k2 * S (length xs)).
  { destruct (LOOKAHEAD P) eqn:Hla; [|exists 0; discriminate].
    destruct (linear_cost P c nsyms w d0 (f h0) g Hleo k maps nulling _ _ HPr HT HO Hprod HG HFI HFO HFS Hla Hgen) as (k2 & K2). exists k2. intros _. exact K2. }
  destruct K2 as (k2 & K2). exists (k1 + k2).
  assert (Tok : forall s, token_symbol U start g s -> s < nsyms /\ terminal (c_rules c) s).
  { intros s (t & Ht & Es). destruct (ub_known _ _ _ _ _ _ _ _ _ H2 t Ht) as (Ei & A1 & A2 & _). rewrite Es in Ei. injection Ei as ->. auto. }
  assert (Tok' : forall s, s = g_sof_sym g \/ token_symbol U start g s -> s < nsyms /\ terminal (c_rules c) s).
  { intros s [->|Hs]; [|auto]. rewrite (sof_sym c nsyms w d0 (f h0) g HB). split; [exact (pr_sof_range _ _ _ _ _ HPr)|exact (pr_sof_terminal _ _ _ _ _ HPr)]. }
  pose proof (pr_le _ _ _ _ _ HPr) as Hle. split.
  - intros locs Hl F N fo ok f0 HUs Hf0 fuel b st H. destruct (K1 F N fo ok f0 HUs Hf0 locs) with (fuel := fuel) (b := b) (st := st) as [A1 A2]; [|exact H|].
    + intros loc Hin. destruct (Hl loc Hin) as (L1 & L2 & L3). split; [auto|]. split.
      * intros t v Ht. destruct (Tok' t (L2 t v Ht)). split; [unfold sym in *; lia|auto].
      * destruct (l_hint loc); [exact (proj1 (Tok _ L3))|exact I].
    + split; [|]; nia.
  - intros Hla use xs Hu Hxs F N fo ok f0 HUs Hf0 fuel b st H.
    destruct (K2 Hla F N fo ok f0 HUs Hf0 use xs Hu (fun s v Hin => Tok' s (Hxs s v Hin)) fuel b st H) as [A1 A2]. rewrite hinted_length, !Nat.mul_add_distr_r. unfold sym in *. lia.
Qed.

(** what [parse] reads *)
Lemma parse_locs : forall U start c nsyms w d0 g0 g f tokens, user_built U start c nsyms w d0 g0 g f -> Forall (token U start) tokens ->
  mapped g tokens (map f tokens) /\
  forall s v, In (s, v) ((g_sof_sym g, 0) :: numbered 0 (map f tokens)) -> s = g_sof_sym g \/ token_symbol U start g s.
Proof.
  intros U start c nsyms w d0 g0 g f tokens HB Ht. rewrite Forall_forall in Ht. split; [exact (mapped_tokens _ _ _ _ _ _ _ _ _ _ HB Ht)|].
  intros s v [E|Hin]; [injection E as <- _; auto|]. right. apply numbered_in in Hin. apply in_map_iff in Hin. destruct Hin as (t & <- & Hin).
  exists t. split; [auto|]. exact (proj1 (ub_known _ _ _ _ _ _ _ _ _ HB t (Ht t Hin))).
Qed.

Lemma new_no_hint : forall F N g (f0 : F) (st : rstate F N), r_new g f0 = Ret st -> r_hint st = None.
Proof. intros F N g f0 st E. unfold r_new in E. inv E. inv E. inv E. inv E. injection E as <-. reflexivity. Qed.

Lemma P_linear_parse : forall X U start, user_grammar U start -> exact_contract X U start -> user_lr1 U start -> no_empty_rules U -> reduced U start ->
  forall P, LEO P = false -> LOOKAHEAD P = true ->
  exists k g, (forall fuel, k <= fuel -> from_grammar X fuel U = Ret g) /\
  forall F N (fo : forest_ops F N) ok f0, usable fo ok -> ok Idle f0 ->
  forall fuel tokens r st, Forall (token U start) tokens ->
  (st <- r_new g (f0, 0) ;; parse (counted fo) P g fuel st tokens) = Ret (r, st) ->
  snd (r_forest st) <= k * S (length tokens) /\ v_item_count (r_medial st) <= k * S (length tokens).
Proof.
  intros X U start HU HX Hlr Hne Hred P Hleo Hla.
  destruct (user_cost X U start HU HX Hlr Hne Hred) as (k & g & c & nsyms & w & d0 & g0 & f & H1 & H2 & H3).
  destruct (H3 P Hleo) as (k' & _ & K). exists (k + 3 * k'), g. split; [intros fuel L; apply H1; lia|].
  intros F N fo ok f0 HUs Hf0 fuel tokens r st Ht H. inv H. pose proof (new_no_hint _ _ _ _ _ E) as Hh.
  destruct (parse_locs _ _ _ _ _ _ _ _ _ _ H2 Ht) as [Hm Hx].
  destruct (parse_state _ _ _ _ _ _ _ _ _ _ _ Hm Hh H) as (b & Hf).
  destruct (K Hla after0 ((g_sof_sym g, 0) :: numbered 0 (map f tokens)) ltac:(intros [|j] L; [lia|reflexivity]) Hx F N fo ok f0 HUs Hf0 fuel b st) as [A1 A2];
    [rewrite E; exact Hf|]. rewrite ?hinted_length in A2. cbn [length] in A1, A2. rewrite numbered_length, map_length in A1, A2. nia.
Qed.

Lemma P_linear_size : forall X U start, user_grammar U start -> exact_contract X U start -> user_lr1 U start -> no_empty_rules U -> reduced U start ->
  forall P, LEO P = false -> LOOKAHEAD P = true ->
  exists k g, (forall fuel, k <= fuel -> from_grammar X fuel U = Ret g) /\
  forall F N (fo : forest_ops F N) ok f0 size a, usable fo ok -> ok Idle f0 -> adds_at_most fo size a ->
  forall fuel tokens r st, Forall (token U start) tokens ->
  (st <- r_new g f0 ;; parse fo P g fuel st tokens) = Ret (r, st) ->
  size (r_forest st) <= size f0 + a * (k * S (length tokens)).
Proof.
  intros X U start HU HX Hlr Hne Hred P Hleo Hla.
  destruct (user_cost X U start HU HX Hlr Hne Hred) as (k & g & c & nsyms & w & d0 & g0 & f & H1 & H2 & H3).
  destruct (H3 P Hleo) as (k' & _ & K). exists (k + 3 * k'), g. split; [intros fuel L; apply H1; lia|].
  intros F N fo ok f0 size a HUs Hf0 Ha fuel tokens r st Ht H. inv H. rename a0 into st1. pose proof (new_no_hint _ _ _ _ _ E) as Hh.
  destruct (parse_locs _ _ _ _ _ _ _ _ _ _ H2 Ht) as [Hm Hx].
  destruct (parse_state _ _ _ _ _ _ _ _ _ _ _ Hm Hh H) as (b & Hf).
  pose proof (sim_new (F1 := F) (N1 := N) (N2 := N) (cJ size a (size f0)) cQ g f0 (f0, 0)) as Y.
  rewrite E in Y. destruct Y as (st1' & E1 & Y); [split; [reflexivity|cbn; lia]|].
  pose proof (sim_feed_all _ _ _ _ (counted_sim fo size a (size f0) Ha) P g fuel (hinted after0 0 ((g_sof_sym g, 0) :: numbered 0 (map f tokens))) _ _ Y) as Z.
  rewrite Hf in Z. destruct Z as ([b' st'] & E2 & Eb & Z). cbn [fst snd] in *. subst b'.
  destruct (K Hla after0 ((g_sof_sym g, 0) :: numbered 0 (map f tokens)) ltac:(intros [|j] L; [lia|reflexivity]) Hx F N fo ok f0 HUs Hf0 fuel b st') as [A1 _];
    [rewrite E1; exact E2|]. cbn [length] in A1. rewrite numbered_length, map_length in A1.
  destruct Z as [[Y1 Y2] _].
  assert (A3 : snd (r_forest st') <= (k + 3 * k') * S (length tokens)) by nia.
  pose proof (Nat.mul_le_mono_l _ _ a A3). lia.
Qed.

Lemma P_linear_bocage : forall X U start, user_grammar U start -> exact_contract X U start -> user_lr1 U start -> no_empty_rules U -> reduced U start ->
  forall P, LEO P = false -> LOOKAHEAD P = true ->
  exists k g, (forall fuel, k <= fuel -> from_grammar X fuel U = Ret g) /\
  forall fuel tokens r, Forall (token U start) tokens ->
  (forall b0 st, bocage_new (g_forest_info g) = Ret b0 -> (st <- r_new g b0 ;; parse simple_forest P g fuel st tokens) = Ret (r, st) ->
    length (b_graph (r_forest st)) <= length (b_graph b0) + k * S (length tokens)) /\
  (forall b0 st, (st <- r_new g b0 ;; parse compact_forest P g fuel st tokens) = Ret (r, st) ->
    length (cb_graph (r_forest st)) <= length (cb_graph b0) + k * S (length tokens)).
Proof.
  intros X U start HU HX Hlr Hne Hred P Hleo Hla.
  destruct (P_linear_size X U start HU HX Hlr Hne Hred P Hleo Hla) as (k & g & H1 & H2).
  exists (9 * k), g. split; [intros fuel L; apply H1; lia|]. intros fuel tokens r Ht. split.
  - intros b0 st Hb H. destruct (new_at _ _ Hb) as (_ & H0 & _).
    pose proof (H2 _ _ simple_forest simple_ok b0 _ _ simple_usable H0 simple_adds fuel tokens r st Ht H) as Y. cbv beta in Y. nia.
  - intros b0 st H.
    pose proof (H2 _ _ compact_forest compact_ok b0 _ _ compact_usable I compact_adds fuel tokens r st Ht H) as Y. cbv beta in Y. nia.
Qed.

Lemma P_square_run : forall X U start, user_grammar U start -> exact_contract X U start -> user_lr1 U start -> no_empty_rules U -> reduced U start ->
  forall P, LEO P = false ->
  exists k g, (forall fuel, k <= fuel -> from_grammar X fuel U = Ret g) /\
  forall F N (fo : forest_ops F N) ok f0, usable fo ok -> ok Idle f0 ->
  forall fuel locs b st, (forall loc, In loc locs -> one_token U start g loc) ->
  (st <- r_new g (f0, 0) ;; feed_all (counted fo) P g fuel locs st) = Ret (b, st) ->
  snd (r_forest st) <= k * length locs ^ 2 /\ v_item_count (r_medial st) <= k * S (length locs).
Proof.
  intros X U start HU HX Hlr Hne Hred P Hleo.
  destruct (user_cost X U start HU HX Hlr Hne Hred) as (k & g & c & nsyms & w & d0 & g0 & f & H1 & H2 & H3).
  destruct (H3 P Hleo) as (k' & K & _). exists (k + k'), g. split; [intros fuel L; apply H1; lia|].
  intros F N fo ok f0 HUs Hf0 fuel locs b st Hl H. destruct (K locs Hl F N fo ok f0 HUs Hf0 fuel b st H) as [A1 A2]. split; nia.
Qed.
