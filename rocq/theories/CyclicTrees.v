(** CyclicTrees: the parse trees of an input for a user's grammar that may have cycles. *)
From Coq Require Import List Arith Bool Lia Relations Permutation.
From Verif Require Import Trees.
From Verif Require Import Base BaseProofs Vec2d Item Grammar DefaultGrammar Forest ForestSpec Recognizer Drive ClientSpec
  Spec SpecFacts Chart ChartFacts ChartSpec CfgSpec Tables TablesProofs Den Core1 Core2 Core3 Core4 Core5 Core6
  Recog Sim RecogAny RecogFacts Parse ParseFacts CompactSpec SimpleBocage SimpleProofs SimpleEval ForestProg EvalSpec TreeSpec FromGrammar CrateSpec UserSpec UserTreeSpec CrateFacts CrateProcessed.
From Verif Require Import CompactBocage CompactEval.
From Verif Require CompactProofs CompactTop PropLemmas4.
From Verif Require CyclicRun CyclicLive Shaped Cyclic Decide CyclicInput CyclicUser CyclicEnds PropLemmas10 SimpleTop.
Import ListNotations.
Local Open Scope res_scope.

(** ** Building the forest ends if no cycle of unary rules takes part *)
Section Ends.
  Variable P : perf.
  Variables (c : pcfg) (nsyms : nat) (w : wrapped_root) (d0 : nat) (g0 : sym).
  Variable g : dgrammar.
  Hypothesis Hleo : LEO P = false.
  Hypothesis HB : shaped_built c nsyms w d0 g0 g.
  Variable b0 : bocage.
  Hypothesis Hb0 : b_count b0 = 0.
  Notation R := (c_rules c).
  Notation nall := (c_num_syms c).
  Notation root := (w_root w).

  Theorem forest_ends : forall use xs, (forall s v, In (s, v) xs -> user_terminal c nsyms w s) ->
    (forall s, ~ clos_trans sym (Decide.live_step R (w_sof w :: map fst xs) root) s s) ->
    exists fuel, (st <- r_new g b0 ;; parse_forest simple_forest P g fuel (hinted use 0 ((w_sof w, 0) :: xs)) st) <> NoFuel.
  Proof.
    intros use xs Hs Hcyc. pose proof HB as HB'. destruct HB' as [HP (fuel0 & maps & nulling & first & follow & Hg & HFI & HFO)].
    set (locs := hinted use 0 ((w_sof w, 0) :: xs)).
    assert (Hok : locs_ok nsyms nall locs).
    { apply (Shaped.hinted_ok c nsyms w d0 g0 HP). intros s v [E|Hi]; [|apply (Hs s v Hi)].
      injection E as <- <-. now destruct HP. }
    assert (Hne : locs <> []) by discriminate.
    destruct (Shaped.new_fresh P c nsyms w d0 g0 fuel0 maps nulling first follow g HP Hg) as (st0 & En & Hf & _).
    pose proof HP as HP'. destruct HP'.
    destruct (Decide.live_ranked R nall (wf_arity _ _ _ sh_wf)) with (input := w_sof w :: map fst xs) (root := root) as (rank & Hrank); [|exact Hcyc|].
    { intros s (r & Hr & [<-|Hi]); [exact (wf_lhs_range _ _ _ sh_wf r Hr)|exact (wf_rhs_range _ _ _ sh_wf r s Hr Hi)]. }
    destruct (CyclicLive.steps_ends P g R nsyms nall (first_of first) (follow_of follow) root Hleo sh_wf
      (Shaped.tok c nsyms w d0 g0 fuel0 maps nulling first follow g HP Hg) (Decide.live R (w_sof w :: map fst xs) root) rank Hrank
      (remove_unreachable_sets P) (remove_spec P Hleo) st0 _ no_seed Hf locs Hok) as (n & Hn).
    { intros n sd H1 H2. apply (CyclicInput.chart_live P c nsyms w d0 g0 g HB first follow use 0 xs n sd).
      intros [|j] s Hj; [apply H1 in Hj; exact Hj|exact (H2 j s Hj)]. }
    specialize (Hn n (le_n _)).
    set (J := sJ (b_info b0) (b_graph b0)).
    assert (HJ : J Idle [] b0).
    { split; [reflexivity|]. split; [|exact Hb0]. exists []. rewrite app_nil_r. now apply done_idle. }
    pose proof (simple_sim (b_info b0) (b_graph b0)) as HS. fold J in HS.
    pose proof (sim_new (N1 := fnode) (N2 := nat) J sQ g [] b0 HJ) as HN. rewrite En in HN. destruct HN as (s0 & En2 & HN).
    exists n. rewrite En2. cbn [bind]. unfold parse_forest.
    pose proof (sim_feed_all _ _ _ _ HS P g n locs _ _ HN) as HX.
    destruct (Shaped.shaped_run P c nsyms w d0 g0 fuel0 maps nulling first follow g Hleo HP Hg _ st0 locs Hf ltac:(contradiction) Hok Hne n)
      as [Hno|(b & st1 & sd & Hrun & Hb & _ & _ & _ & _ & Hfin)]; [rewrite feed_all_steps in Hno; contradiction|].
    rewrite Hrun in HX. destruct HX as ([b' s'] & E1 & Eb & HR). rewrite E1. cbn [bind fst snd] in *. subst b'. destruct b; [|discriminate].
    destruct (Hfin eq_refl) as (o & Eo & _). pose proof (sim_finished _ _ _ _ HS g I _ _ HR) as HF. rewrite Eo in HF.
    destruct HF as (o' & E' & _). rewrite E'. discriminate.
  Qed.
End Ends.

Lemma new_count : forall fi b0, bocage_new fi = Ret b0 -> b_count b0 = 0.
Proof. intros fi b0 H. now destruct (SimpleTop.new_at fi b0 H) as (_ & Hc & _). Qed.

Lemma P_cyclic_trees : forall X U start, user_grammar U start -> crate_apart X U start ->
  null_prefixes_visible U start -> distinct_ids U -> forall P, LEO P = false ->
  exists k g f, (forall fuel, k <= fuel -> from_grammar X fuel U = Ret g) /\
    (forall s, known U start s -> visible (c_rules U) s -> to_internal g s = Ret (Some (f s))) /\
    (forall s t, known U start s -> known U start t -> visible (c_rules U) t -> s <> t -> f s <> f t) /\
    forall b0, bocage_new (g_forest_info g) = Ret b0 ->
    forall use xs, Forall (fun x => token U start (fst x)) xs ->
    let run fuel := st <- r_new g b0 ;;
      parse_forest simple_forest P g fuel (hinted use 0 ((g_sof_sym g, 0) :: map (fun x => (f (fst x), snd x)) xs)) st in
    ((exists fuel, run fuel <> NoFuel) -> exists n r l us, total n run r /\
       finished_trees r l /\ Forall2 (reads_as (g_forest_info g) f) l us /\ NoDup us /\ (forall u, In u us <-> user_parse U start xs u)) /\
    (no_cycle_on U start (map fst xs) -> exists fuel, run fuel <> NoFuel) /\
    ((forall us, exists u, user_parse U start xs u /\ ~ In u us) -> forall fuel, run fuel = NoFuel).
Proof.
  intros X U start HU (W & B & E & c0 & w & m & head & nulling & origin & maps & f & HX & Hap & Hinn) Hvis Hids P HP.
  destruct (CyclicUser.shaped_of _ _ _ _ _ _ _ _ _ _ _ _ _ _ HU HX Hvis)
    as (k & g & nsyms & w' & d0 & h0 & order & Hk & HB & HR & Esof & Htok & Hsent & _ & Eroot & Hh0 & Hg0r & HT & Hsplit).
  destruct (PropLemmas10.user_forest_of _ _ _ _ _ _ _ _ _ _ _ _ _ _ HU HX Hap Hinn Hvis k g nsyms w' d0 h0 order HB HR Hh0 Esof Hg0r HT Hsplit) as (rd & HF).
  exists k, g, f. split; [exact Hk|]. split; [exact (PropLemmas10.uf_known _ _ _ _ _ _ _ _ HF)|].
  split; [exact (PropLemmas10.uf_apart _ _ _ _ _ _ _ _ HF)|].
  intros b0 Hb0 use xs Hx. cbv zeta.
  assert (Hall : (exists fuel, (st <- r_new g b0 ;; parse_forest simple_forest P g fuel
       (hinted use 0 ((g_sof_sym g, 0) :: map (fun x => (f (fst x), snd x)) xs)) st) <> NoFuel) ->
    exists n r l us, total n (fun fuel => st <- r_new g b0 ;; parse_forest simple_forest P g fuel
       (hinted use 0 ((g_sof_sym g, 0) :: map (fun x => (f (fst x), snd x)) xs)) st) r /\
       finished_trees r l /\ Forall2 (reads_as (g_forest_info g) f) l us /\ NoDup us /\ (forall u, In u us <-> user_parse U start xs u)).
  { exact (PropLemmas10.user_trees_of U start _ nsyms w' d0 (f h0) g f rd HB (fun t Ht => proj2 (Htok t Ht)) HF Hids P HP _ b0 Hb0 use xs Hx). }
  split; [exact Hall|]. split.
  - intros Hcyc. rewrite (PropLemmas10.uf_sof _ _ _ _ _ _ _ _ HF).
    destruct (used_root_E _ _ _ _ _ _ _ _ _ _ _ _ _ _ HU HX Hvis) as (Ur & Us & _).
    assert (Ht : forall t, In t (map fst xs) -> token U start t).
    { intros t Hin. apply in_map_iff in Hin. destruct Hin as (x & <- & Hin). rewrite Forall_forall in Hx. exact (Hx x Hin). }
    apply (forest_ends P _ nsyms w' d0 (f h0) g HP HB b0 (new_count _ _ Hb0) use).
    + intros s v Hin. apply in_map_iff in Hin. destruct Hin as (x & K & Hin). injection K as <- <-. apply Htok, Ht. now apply in_map.
    + rewrite map_map. cbn [fst]. rewrite <- (map_map fst f xs).
      intros s Hs. rewrite Esof in Hs. change (f (w_sof w) :: map f (map fst xs)) with (map f (w_sof w :: map fst xs)) in Hs. revert Hs.
      apply (CyclicEnds.c_acyclic _ _ _ _ _ _ _ _ _ _ _ _ _ _ HU HX (map fst xs) (fun t Hin => proj1 (Ht t Hin)) Hcyc order _ HR Ur); [|exact Eroot].
      intros t [<-|Hin]; [exact Us|]. destruct (Ht t Hin) as (Lt & Tt & Kt).
      now apply (known_used _ _ _ _ _ _ _ _ _ _ _ _ _ _ HU HX Hvis t Lt Tt).
  - intros Hinf fuel.
    match goal with |- ?x = _ => destruct x eqn:Er; [| |reflexivity] end.
    all: exfalso; destruct Hall as (n & r & l & us & _ & _ & _ & _ & Hus); [exists fuel; rewrite Er; discriminate|].
    all: destruct (Hinf us) as (u & Hu & Hno); apply Hno, Hus, Hu.
Qed.

Lemma P_cyclic_value : forall X U start, user_grammar U start -> crate_apart X U start ->
  null_prefixes_visible U start -> distinct_ids U -> forall P, LEO P = false ->
  exists k g f, (forall fuel, k <= fuel -> from_grammar X fuel U = Ret g) /\
    (forall s, known U start s -> visible (c_rules U) s -> to_internal g s = Ret (Some (f s))) /\
    (forall s t, known U start s -> known U start t -> visible (c_rules U) t -> s <> t -> f s <> f t) /\
    forall b0, bocage_new (g_forest_info g) = Ret b0 ->
    forall E (ev : evaluator E) nv, pushes ev nv ->
    forall use xs u, Forall (fun x => token U start (fst x)) xs -> (forall u', user_parse U start xs u' <-> u' = u) ->
    let run fuel := st <- r_new g b0 ;;
      parse_forest simple_forest P g fuel (hinted use 0 ((g_sof_sym g, 0) :: map (fun x => (f (fst x), snd x)) xs)) st in
    (exists fuel, run fuel <> NoFuel) -> exists n h b, total n run (Some h, b) /\
      forall k, exists fuel0 b', forall fuel, fuel0 <= fuel ->
        evaluate_each ev fuel (repeat h k) b = Ret (repeat (uresult ev nv f u) k, b').
Proof.
  intros X U start HU (W & B & E & c0 & w & m & head & nulling & origin & maps & f & HX & Hap & Hinn) Hvis Hids P HP.
  destruct (CyclicUser.shaped_of _ _ _ _ _ _ _ _ _ _ _ _ _ _ HU HX Hvis)
    as (k & g & nsyms & w' & d0 & h0 & order & Hk & HB & HR & Esof & Htok & Hsent & _ & Eroot & Hh0 & Hg0r & HT & Hsplit).
  destruct (PropLemmas10.user_forest_of _ _ _ _ _ _ _ _ _ _ _ _ _ _ HU HX Hap Hinn Hvis k g nsyms w' d0 h0 order HB HR Hh0 Esof Hg0r HT Hsplit) as (rd & HF).
  exists k, g, f. split; [exact Hk|]. split; [exact (PropLemmas10.uf_known _ _ _ _ _ _ _ _ HF)|].
  split; [exact (PropLemmas10.uf_apart _ _ _ _ _ _ _ _ HF)|].
  intros b0 Hb0 A ev nv Hpush use xs u Hx Hu. cbv zeta. intros Hends.
  exact (PropLemmas10.user_value_of U start _ nsyms w' d0 (f h0) g f rd HB (fun t Ht => proj2 (Htok t Ht)) HF Hids P HP b0 Hb0 A ev nv Hpush use xs u Hx Hu Hends).
Qed.

(** ** The compact bocage *)
Definition no_info : forest_info := mkFI [] [] [] 0 0 0.

Lemma Forall2_perm : forall A B (Q : A -> B -> Prop) l l' us, Permutation l l' -> Forall2 Q l us ->
  exists us', Permutation us us' /\ Forall2 Q l' us'.
Proof.
  intros A B Q l l' us H. revert us. induction H as [|x l l' H IH|x y l|l l2 l3 _ IH1 _ IH2]; intros us HF.
  - inversion HF; subst. exists []. split; constructor.
  - inversion HF as [|? u ? us1 Hx HF1]; subst. destruct (IH _ HF1) as (us' & Hp & Hf). exists (u :: us'). split; [now constructor|now constructor].
  - inversion HF as [|? u ? us1 Hx HF1]; subst. inversion HF1 as [|? v ? us2 Hy HF2]; subst. exists (v :: u :: us2).
    split; [constructor|repeat constructor; auto].
  - destruct (IH1 _ HF) as (us1 & P1 & F1). destruct (IH2 _ F1) as (us2 & P2 & F2). exists us2. split; [eapply Permutation_trans; eauto|auto].
Qed.

Lemma P_cyclic_compact : forall X U start, user_grammar U start -> crate_apart X U start ->
  null_prefixes_visible U start -> distinct_ids U -> forall P, LEO P = false ->
  exists k g f, (forall fuel, k <= fuel -> from_grammar X fuel U = Ret g) /\
    (forall s, known U start s -> visible (c_rules U) s -> to_internal g s = Ret (Some (f s))) /\
    (forall s t, known U start s -> known U start t -> visible (c_rules U) t -> s <> t -> f s <> f t) /\
    (u32 (g_syms g + g_gensyms g) -> u32 (length (g_col0 g)) ->
    forall b0, cbocage_new (g_forest_info g) = Ret b0 ->
    forall use xs, Forall (fun x => token U start (fst x)) xs -> Forall (fun x => u32 (snd x)) xs ->
    let run fuel := st <- r_new g b0 ;;
      parse_forest compact_forest P g fuel (hinted use 0 ((g_sof_sym g, 0) :: map (fun x => (f (fst x), snd x)) xs)) st in
    ((exists fuel, run fuel <> NoFuel) -> exists n r, total n run r /\
       (graph_fits (snd r) 0 -> exists l us, cfinished_trees r l /\ Forall2 (reads_as (g_forest_info g) f) l us /\ NoDup us /\
          (forall u, In u us <-> user_parse U start xs u)) /\
       forall E (ev : evaluator E) nv, pushes ev nv -> forall u, (forall u', user_parse U start xs u' <-> u' = u) ->
         exists h more, fst r = Some h /\ forall k, graph_fits (snd r) (k * more) -> exists fuel0 b', forall fuel, fuel0 <= fuel ->
           c_evaluate_each ev fuel (repeat h k) (snd r) = Ret (repeat (match xs with [] => [] | _ => [uvalue ev nv f u] end) k, b')) /\
    (no_cycle_on U start (map fst xs) -> exists fuel, run fuel <> NoFuel) /\
    ((forall us, exists u, user_parse U start xs u /\ ~ In u us) -> forall fuel, run fuel = NoFuel)).
Proof.
  intros X U start HU (W & B & E & c0 & w & m & head & nulling & origin & maps & f & HX & Hap & Hinn) Hvis Hids P HP.
  destruct (CyclicUser.shaped_of _ _ _ _ _ _ _ _ _ _ _ _ _ _ HU HX Hvis)
    as (k & g & nsyms & w' & d0 & h0 & order & Hk & HB & HR & Esof & Htok & Hsent & _ & Eroot & Hh0 & Hg0r & HT & Hsplit).
  destruct (PropLemmas10.user_forest_of _ _ _ _ _ _ _ _ _ _ _ _ _ _ HU HX Hap Hinn Hvis k g nsyms w' d0 h0 order HB HR Hh0 Esof Hg0r HT Hsplit) as (rd & HF).
  exists k, g, f. split; [exact Hk|]. split; [exact (PropLemmas10.uf_known _ _ _ _ _ _ _ _ HF)|].
  split; [exact (PropLemmas10.uf_apart _ _ _ _ _ _ _ _ HF)|].
  intros F1 F2 b0 Hb0 use xs Hx Hv. cbv zeta. set (c := sort_rules_by_lhs c0) in *.
  assert (Ht : forall t, In t (map fst xs) -> token U start t).
  { intros t Hin. apply in_map_iff in Hin. destruct Hin as (x & <- & Hin). rewrite Forall_forall in Hx. exact (Hx x Hin). }
  assert (Hter : forall s v, In (s, v) (map (fun x => (f (fst x), snd x)) xs) -> user_terminal c nsyms w' s).
  { intros s v Hin. apply in_map_iff in Hin. destruct Hin as (x & K & Hin). injection K as <- <-. apply Htok, Ht. now apply in_map. }
  assert (Hr : forall s v, In (s, v) (map (fun x => (f (fst x), snd x)) xs) -> s < nsyms /\ terminal (c_rules c) s).
  { intros s v Hin. destruct (Hter s v Hin) as (K1 & K2 & _). auto. }
  destruct (bocage_new no_info) as [b1| |] eqn:Eb1; [|discriminate Eb1|discriminate Eb1].
  set (locs := hinted use 0 ((g_sof_sym g, 0) :: map (fun x => (f (fst x), snd x)) xs)).
  assert (Elocs : locs = from_start w' (if use 0 then hd_error (map fst (map (fun x => (f (fst x), snd x)) xs)) else None) (hinted use 1 (map (fun x => (f (fst x), snd x)) xs))).
  { unfold locs. rewrite (PropLemmas10.uf_sof _ _ _ _ _ _ _ _ HF). apply PropLemmas4.hinted_from_start. }
  assert (Hall : (exists fuel, (st <- r_new g b0 ;; parse_forest compact_forest P g fuel locs st) <> NoFuel) ->
    exists n r us, total n (fun fuel => st <- r_new g b0 ;; parse_forest compact_forest P g fuel locs st) r /\ NoDup us /\ (forall u, In u us <-> user_parse U start xs u) /\
      (graph_fits (snd r) 0 -> exists l us', Permutation us us' /\ cfinished_trees r l /\ Forall2 (reads_as (g_forest_info g) f) l us')).
  { intros Hends. apply (CompactTop.ends_back _ _ _ _ (CompactProofs.compact_sim _ (CompactBocage.cb_graph b0)) P g _ _ _ (CompactTop.cJ_start _ b0 Hb0)) in Hends.
    rewrite Elocs in Hends.
    destruct (CompactTop.both_trees_any P c nsyms w' d0 (f h0) g HP HB no_info _ b1 b0 Eb1 Hb0 _ _
      (PropLemmas4.hinted_in_range c nsyms w' d0 (f h0) (sb_shaped _ _ _ _ _ _ HB) use _ Hr) Hends) as (n & r & r' & l & A1 & A2 & _ & A3 & A4).
    rewrite <- Elocs in A1, A2.
    destruct (PropLemmas10.user_trees_of U start c nsyms w' d0 (f h0) g f rd HB (fun t Ht => proj2 (Htok t Ht)) HF Hids P HP no_info b1 Eb1 use xs Hx)
      as (n2 & r2 & l2 & us & B1 & B2 & B3 & B4 & B5).
    { exists n. fold locs. rewrite (A1 n), Nat.ltb_irrefl. discriminate. }
    fold locs in B1.
    assert (r2 = r).
    { pose proof (A1 (n + n2)) as Q1. pose proof (B1 (n + n2)) as Q2. cbn beta in Q1, Q2. rewrite Q1 in Q2.
      destruct (Nat.ltb_spec (n + n2) n); [lia|]. destruct (Nat.ltb_spec (n + n2) n2); [lia|]. congruence. }
    subst r2.
    assert (l2 = l).
    { unfold finished_trees in *. destruct (fst r); [|congruence]. symmetry. exact (proj1 (represents_fun _) _ _ B2 _ A3). }
    subst l2. exists n, r', us. split; [exact A2|]. split; [exact B4|]. split; [exact B5|]. intros Hg.
    destruct A4 as (l' & C1 & C2); [|exact Hg|].
    { unfold input_fits. rewrite <- (PropLemmas10.uf_syms _ _ _ _ _ _ _ _ HF), <- (PropLemmas10.uf_rules _ _ _ _ _ _ _ _ HF).
      split; [exact F1|]. split; [exact F2|]. intros l1 s v Hl Hin. apply (PropLemmas10.hinted_toks _ _ _ _ _ _ Hl) in Hin. apply in_map_iff in Hin.
      destruct Hin as ((a & v') & K & Hin). injection K as _ <-. rewrite Forall_forall in Hv. exact (Hv _ Hin). }
    destruct (Forall2_perm _ _ _ _ _ _ C2 B3) as (us' & Hp & Hf). exists l', us'. auto. }
  split; [|split].
  - intros Hends. destruct (Hall Hends) as (n & r & us & H1 & H2 & H3 & H4). exists n, r. split; [exact H1|]. split.
    + intros Hg. destruct (H4 Hg) as (l & us' & Hp & Hf & H5). exists l, us'. split; [exact Hf|]. split; [exact H5|].
      split; [exact (Permutation_NoDup Hp H2)|]. intros u. rewrite <- H3. split; apply Permutation_in; [now apply Permutation_sym|exact Hp].
    + intros A ev nv Hpush u Hu.
      destruct (PropLemmas10.user_compact_of U start c nsyms w' d0 (f h0) g f rd HB (fun t Ht => proj2 (Htok t Ht)) HF Hids P HP b0 Hb0
        F1 F2 A ev nv Hpush use xs u Hx Hv Hu Hends) as (n2 & h & b & more & B1 & B2).
      fold locs in B1.
      assert (r = (Some h, b)).
      { pose proof (H1 (n + n2)) as Q1. pose proof (B1 (n + n2)) as Q2. cbn beta in Q1, Q2. rewrite Q1 in Q2.
        destruct (Nat.ltb_spec (n + n2) n); [lia|]. destruct (Nat.ltb_spec (n + n2) n2); [lia|]. congruence. }
      subst r. exists h, more. split; [reflexivity|]. exact B2.
  - intros Hcyc.
    assert (Hs : exists fuel, (st <- r_new g b1 ;; parse_forest simple_forest P g fuel locs st) <> NoFuel).
    { unfold locs. rewrite (PropLemmas10.uf_sof _ _ _ _ _ _ _ _ HF).
      destruct (used_root_E _ _ _ _ _ _ _ _ _ _ _ _ _ _ HU HX Hvis) as (Ur & Us & _).
      apply (forest_ends P _ nsyms w' d0 (f h0) g HP HB b1 (new_count _ _ Eb1) use); [exact Hter|].
      rewrite map_map. cbn [fst]. rewrite <- (map_map fst f xs).
      intros s Hs. rewrite Esof in Hs. change (f (w_sof w) :: map f (map fst xs)) with (map f (w_sof w :: map fst xs)) in Hs. revert Hs.
      apply (CyclicEnds.c_acyclic _ _ _ _ _ _ _ _ _ _ _ _ _ _ HU HX (map fst xs) (fun t Hin => proj1 (Ht t Hin)) Hcyc order _ HR Ur); [|exact Eroot].
      intros t [<-|Hin]; [exact Us|]. destruct (Ht t Hin) as (Lt & Tt & Kt).
      now apply (known_used _ _ _ _ _ _ _ _ _ _ _ _ _ _ HU HX Hvis t Lt Tt). }
    assert (HJ : sJ (b_info b1) (b_graph b1) Idle [] b1).
    { pose proof (new_count _ _ Eb1) as Hc. split; [reflexivity|]. split; [|exact Hc]. exists []. rewrite app_nil_r. now apply done_idle. }
    apply (CompactTop.ends_back _ _ _ _ (simple_sim _ (b_graph b1)) P g _ _ _ HJ) in Hs. rewrite Elocs in Hs.
    destruct (CompactTop.both_trees_any P c nsyms w' d0 (f h0) g HP HB no_info _ b1 b0 Eb1 Hb0 _ _
      (PropLemmas4.hinted_in_range c nsyms w' d0 (f h0) (sb_shaped _ _ _ _ _ _ HB) use _ Hr) Hs) as (n & r & r' & l & _ & A2 & _).
    exists n. rewrite Elocs, (A2 n), Nat.ltb_irrefl. discriminate.
  - intros Hinf fuel.
    match goal with |- ?x = _ => destruct x eqn:Er; [| |reflexivity] end.
    all: exfalso; destruct Hall as (n & r & us & _ & _ & Hus & _); [exists fuel; rewrite Er; discriminate|].
    all: destruct (Hinf us) as (u & Hu & Hno); apply Hno, Hus, Hu.
Qed.
