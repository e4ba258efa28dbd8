(** NullRec: the grammar A ::= y A N | z B N, B ::= B t | t, N ::= (nothing), read with hints,
    by explicit states. *)
From Coq Require Import List Arith Bool Lia.
From Verif Require Import Base BaseProofs Vec2d Vec2dProofs Item Heap Grammar BitMatrix DefaultGrammar Forest Recognizer Drive FromGrammar
  ExampleGrammars RightRec.
From Verif Require ReferenceCrate Core4.
Import ListNotations.
Local Open Scope res_scope.

(** The user's grammar.  A 0, y 1, z 2, t 3, B 4, N 5 *)
Definition nr_user : pcfg := {|
  c_rules := [rule 0 [1; 0; 5] (Some 0); rule 0 [2; 4; 5] (Some 1); rule 4 [4; 3] (Some 2); rule 4 [3] (Some 3); rule 5 [] (Some 4)];
  c_num_syms := 6; c_roots := [0]; c_wrapped := [] |}.
(** What [from_grammar] makes of it.  0 eof, 1 A, 2 sof, 3 B, 4 z, 5 y, 6 root, 7 t, 8 N, 9 g0, 10 g1, 11 g2;
    rules 0: A ::= g2 N, 1: A ::= g2, 2: A ::= g1 N, 3: A ::= g1, 4: B ::= B t, 5: B ::= t, 6: root ::= g0 eof,
    7: g0 ::= sof A, 8: g1 ::= z B, 9: g2 ::= y A *)
Definition nr_dg : dgrammar := Eval vm_compute in
  match from_grammar ReferenceCrate.reference 20 nr_user with
  | Ret g => g
  | _ => mkG 0 0 false 0 0 0 0 0 0 [] (mkV [] []) [] [] [] [] [] [] [] [] [] [] no_maps (mkFI [] [] [] 0 0 0)
  end.
Lemma nr_dg_eq : from_grammar ReferenceCrate.reference 20 nr_user = Ret nr_dg.
Proof. vm_compute. reflexivity. Qed.

Section Run.
  Variable P : perf.
  Hypothesis HL : LEO P = false.
  Notation g := nr_dg.
  Notation it d o := (mkItem d o tt).
  Notation state := (rstate (nat * nat) unit).

  Record at_loc (st : state) (cs : list (list (item unit))) (pm : bitmatrix) (O C : list (item unit)) (h : option sym) (cnt : nat * nat) : Prop := {
    a_forest : r_forest st = cnt;
    a_hint : r_hint st = h;
    a_pred : r_predicted st = pm;
    a_med : rep (r_medial st) cs O;
    a_comp : r_complete st = C
  }.

  (** the check of the hint for a rule with the dot after its first symbol *)
  Definition useful (h : option sym) (d : nat) : Prop :=
    match h with
    | None => True
    | Some la => (s <- rhs1_or_lhs g d ;; if g_syms g <=? s then Ret true else row <- lookahead_set g d ;; idx row la) = Ret true
    end.

  Lemma useful_check : forall (st : state) h d, r_hint st = h -> useful h d ->
    hint_check st (fun la => s <- rhs1_or_lhs g d ;; if g_syms g <=? s then Ret true else row <- lookahead_set g d ;; idx row la) = Ret true.
  Proof. intros st h d <- H. unfold hint_check. destruct (r_hint st) as [la|]; [exact H|reflexivity]. Qed.

  Lemma cmi_one : forall st cs pm O h c p j s d k l, at_loc st cs pm O [] h (c, p) -> nth_error cs j = Some [it d k] ->
    get_rhs1 g d = Ret (Some s) -> get_lhs g d = Ret l -> g_syms g <=? l = true ->
    exists st', complete_medial_items tally P g st j s tt = Ret st' /\ at_loc st' cs pm O [it d k] h (S c, p).
  Proof.
    intros st cs pm O h c p j s d k l [Hf Hh Hp Hm Hc] Hj Hr Hl Hg. unfold complete_medial_items.
    rewrite (rep_index _ _ _ _ _ Hm Hj). cbn [bind mapM it_dot]. rewrite Hr. cbn [bind].
    unfold binary_search_by. cbn [length bs_loop Nat.ltb Nat.leb nth_error fst]. unfold search_cmp, opt_cmp. rewrite Nat.compare_refl.
    cbn [skipn take_while fst eqb_opt]. rewrite Nat.eqb_refl. cbn [map snd foldM]. unfold complete_medial_item.
    assert (X : hint_check st (fun la => lhs <- get_lhs g (it_dot (it d k)) ;;
                if g_syms g <=? lhs then Ret true else row <- lhs_lr_set g lhs ;; idx row la) = Ret true).
    { unfold hint_check. destruct (r_hint st); [|reflexivity]. cbn [it_dot]. rewrite Hl. cbn [bind]. now rewrite Hg. }
    rewrite X. cbn [bind]. rewrite Bool.orb_true_r. cbn [f_product tally bind]. rewrite Hc.
    cbn [it_dot it_origin heap_push length app sift_up idx nth_error unwrap bind sift_up_loop Nat.ltb Nat.leb upd set_nth].
    eexists. split; [reflexivity|]. split; cbn; auto. now rewrite Hf.
  Qed.

  Lemma cmi_none : forall st cs pm O C h cnt j s d k r, at_loc st cs pm O C h cnt -> nth_error cs j = Some [it d k] ->
    get_rhs1 g d = Ret (Some r) -> r <> s ->
    complete_medial_items tally P g st j s tt = Ret st.
  Proof.
    intros st cs pm O C h cnt j s d k r [Hf Hh Hp Hm Hc] Hj Hr Hne. unfold complete_medial_items.
    rewrite (rep_index _ _ _ _ _ Hm Hj). cbn [bind mapM it_dot]. rewrite Hr. cbn [bind].
    unfold binary_search_by. cbn [length bs_loop Nat.ltb Nat.leb nth_error fst]. unfold search_cmp, opt_cmp.
    destruct (Nat.compare_spec r s); [contradiction| |]; cbn [skipn take_while fst eqb_opt Nat.add map foldM]; [reflexivity|].
    replace (r =? s) with false by (symmetry; apply Nat.eqb_neq; assumption). reflexivity.
  Qed.

  Lemma truncated : forall (m : vec2d (item unit)) cs O O', rep m cs (O ++ O') ->
    rep (v_truncate_chart m (v_item_count m - (length (O ++ O') - length O))) cs O.
  Proof.
    intros m cs O O' H. rewrite (rep_item_count _ _ _ H), app_length.
    pose proof (rep_truncate_chart _ _ _ (length (concat cs) + (length O + length O') - (length O + length O' - length O)) H ltac:(lia)) as Y.
    replace (length (concat cs) + (length O + length O') - (length O + length O' - length O) - length (concat cs)) with (length O) in Y by lia.
    now rewrite firstn_app, firstn_all, Nat.sub_diag, app_nil_r in Y.
  Qed.

  Lemma predictions_none : forall st cs pm O C h cnt j s, at_loc st cs pm O C h cnt ->
    completions g s = Ret [] ->
    exists st', complete_predictions P g st j s tt = Ret st' /\ at_loc st' cs pm O C h cnt.
  Proof.
    intros st cs pm O C h cnt j s [Hf Hh Hp Hm Hc] X. unfold complete_predictions. rewrite (rep_last _ _ _ Hm). cbn [bind].
    rewrite X. cbn [bind foldM]. rewrite (rep_last _ _ _ Hm). cbn [bind].
    rewrite skipn_all. cbn [foldM bind]. rewrite (rep_last _ _ _ Hm). cbn [bind].
    rewrite Nat.sub_diag. cbn [Nat.leb assert bind]. rewrite Nat.leb_refl. cbn [assert bind].
    eexists. split; [reflexivity|]. split; cbn; auto.
    rewrite <- (app_nil_r O) in Hm at 1. pose proof (truncated _ _ _ _ Hm) as Y. now rewrite app_nil_r, Nat.sub_diag in Y.
  Qed.

  Lemma predictions_unpredicted : forall st cs pm O C h cnt j s l d u, at_loc st cs pm O C h cnt ->
    completions g s = Ret [mkPT l d u] -> bm_get pm j l = Ret false -> useful h d ->
    exists st', complete_predictions P g st j s tt = Ret st' /\ at_loc st' cs pm O C h cnt.
  Proof.
    intros st cs pm O C h cnt j s l d u [Hf Hh Hp Hm Hc] X B Hu. unfold complete_predictions. rewrite (rep_last _ _ _ Hm). cbn [bind].
    rewrite X. cbn [bind foldM]. unfold complete_prediction. cbn [pt_symbol pt_dot pt_unary]. rewrite Hp, B. cbn [bind].
    rewrite (useful_check _ _ _ Hh Hu). cbn [bind andb]. rewrite (rep_last _ _ _ Hm). cbn [bind].
    rewrite skipn_all. cbn [foldM bind]. rewrite (rep_last _ _ _ Hm). cbn [bind].
    rewrite Nat.sub_diag. cbn [Nat.leb assert bind]. rewrite Nat.leb_refl. cbn [assert bind].
    eexists. split; [reflexivity|]. split; cbn; auto.
    rewrite <- (app_nil_r O) in Hm at 1. pose proof (truncated _ _ _ _ Hm) as Y. now rewrite app_nil_r, Nat.sub_diag in Y.
  Qed.

  Lemma predictions_binary : forall st cs pm O C h cnt j s l d, at_loc st cs pm O C h cnt ->
    completions g s = Ret [mkPT l d false] -> bm_get pm j l = Ret true -> useful h d ->
    exists st', complete_predictions P g st j s tt = Ret st' /\ at_loc st' cs pm (O ++ [it d j]) C h cnt.
  Proof.
    intros st cs pm O C h cnt j s l d [Hf Hh Hp Hm Hc] X B Hu. unfold complete_predictions. rewrite (rep_last _ _ _ Hm). cbn [bind].
    rewrite X. cbn [bind foldM]. unfold complete_prediction. cbn [pt_symbol pt_dot pt_unary]. rewrite Hp, B. cbn [bind].
    rewrite (useful_check _ _ _ Hh Hu). cbn [bind andb]. rewrite Bool.orb_true_r. cbn [bind r_medial set_medial].
    pose proof (rep_push _ _ _ (it d j) Hm) as Hm2. rewrite (rep_last _ _ _ Hm2). cbn [bind].
    assert (L : length O + 1 = length (O ++ [it d j])) by (rewrite app_length; reflexivity). rewrite L, skipn_all. cbn [foldM bind r_medial set_medial].
    rewrite (rep_last _ _ _ Hm2). cbn [bind].
    rewrite Nat.sub_diag. cbn [Nat.leb assert bind]. rewrite Nat.leb_refl. cbn [assert bind].
    eexists. split; [reflexivity|]. split; cbn; auto.
    rewrite <- (app_nil_r (O ++ [it d j])) in Hm2. pose proof (truncated _ _ _ _ Hm2) as Y. now rewrite app_nil_r, Nat.sub_diag in Y.
  Qed.

  Lemma predictions_unary : forall st cs pm O h cnt j s l d, at_loc st cs pm O [] h cnt ->
    completions g s = Ret [mkPT l d true] -> bm_get pm j l = Ret true -> useful h d ->
    exists st', complete_predictions P g st j s tt = Ret st' /\ at_loc st' cs pm O [it d j] h cnt.
  Proof.
    intros st cs pm O h cnt j s l d [Hf Hh Hp Hm Hc] X B Hu. unfold complete_predictions. rewrite (rep_last _ _ _ Hm). cbn [bind].
    rewrite X. cbn [bind foldM]. unfold complete_prediction. cbn [pt_symbol pt_dot pt_unary]. rewrite Hp, B. cbn [bind].
    rewrite (useful_check _ _ _ Hh Hu). cbn [bind andb]. rewrite Bool.orb_true_r. cbn [bind r_medial set_medial].
    pose proof (rep_push _ _ _ (it d j) Hm) as Hm2. rewrite (rep_last _ _ _ Hm2). cbn [bind]. rewrite Nat.add_0_r.
    rewrite skipn_app, skipn_all, Nat.sub_diag. cbn [skipn app foldM]. unfold push_complete. cbn [r_complete set_medial]. rewrite Hc.
    cbn [heap_push length app sift_up idx nth_error unwrap bind sift_up_loop Nat.ltb Nat.leb upd set_nth].
    cbn [r_medial set_complete set_medial]. rewrite (rep_last _ _ _ Hm2). cbn [bind].
    replace (length (O ++ [it d j]) - length O <=? v_item_count (v_push_item (r_medial st) (it d j))) with true.
    2:{ symmetry. apply Nat.leb_le. rewrite (rep_item_count _ _ _ Hm2). lia. }
    replace (length O <=? length (O ++ [it d j])) with true by (symmetry; apply Nat.leb_le; rewrite app_length; lia). cbn [assert bind].
    eexists. split; [reflexivity|]. split; cbn; auto. exact (truncated _ _ _ _ Hm2).
  Qed.

  (** one group of a single item *)
  Lemma group : forall st cs pm O h d o s c p, at_loc st cs pm O [it d o] h (c, p) -> get_lhs g d = Ret s ->
    exists X, complete_entire_sum tally P g o s st = complete tally P g X o s tt /\ at_loc X cs pm O [] h (3 + c, S p).
  Proof.
    intros st cs pm O h d o s c p [Hf Hh Hp Hm Hc] Hl. unfold complete_entire_sum. cbn [f_begin_sum tally bind]. cbv zeta.
    cbn [r_complete set_forest]. rewrite Hc. cbn [length summand_loop]. unfold next_summand at 1. cbn [r_complete set_forest]. rewrite Hc.
    cbn [heap_peek nth_error it_dot it_origin]. rewrite Hl. cbn [bind].
    rewrite !Nat.eqb_refl. cbn [andb heap_pop last removelast bind push_summand f_push_summand tally].
    unfold next_summand. cbn [r_complete set_forest set_complete heap_peek nth_error bind].
    unfold complete_sum. cbn [f_sum tally bind r_forest set_forest set_complete fst snd].
    eexists. split; [reflexivity|]. split; cbn; auto. rewrite Hf. reflexivity.
  Qed.

  (** a generated symbol that ends a rule and continues another *)
  Lemma group_gen : forall st cs pm O h d o s c p l d1 d2, at_loc st cs pm O [it d o] h (c, p) -> get_lhs g d = Ret s -> g_syms g <=? s = true ->
    gen_completion g s = Ret (Some (mkPT l d1 false), Some (mkPT l d2 true)) -> bm_get pm o l = Ret true ->
    exists st', complete_entire_sum tally P g o s st = Ret st' /\ at_loc st' cs pm (O ++ [it d1 o]) [it d2 o] h (3 + c, S p).
  Proof.
    intros st cs pm O h d o s c p l d1 d2 H Hl Hg Y B. destruct (group _ _ _ _ _ _ _ _ _ _ H Hl) as (X & -> & HX).
    destruct HX as [Hf Hh Hp Hm Hc]. unfold complete. rewrite Hg. unfold complete_generated_binary_predictions. rewrite Y. cbn [bind pt_symbol pt_dot].
    rewrite Hp, B. cbn [bind]. unfold push_complete. rewrite Hc.
    cbn [heap_push length app sift_up idx nth_error unwrap bind sift_up_loop Nat.ltb Nat.leb upd set_nth r_predicted set_complete]. rewrite Hp, B. cbn [bind].
    eexists. split; [reflexivity|]. split; cbn; auto. exact (rep_push _ _ _ (it d1 o) Hm).
  Qed.
  Lemma group_gen1 : forall st cs pm O h d o s c p l d1, at_loc st cs pm O [it d o] h (c, p) -> get_lhs g d = Ret s -> g_syms g <=? s = true ->
    gen_completion g s = Ret (Some (mkPT l d1 false), None) -> bm_get pm o l = Ret true ->
    exists st', complete_entire_sum tally P g o s st = Ret st' /\ at_loc st' cs pm (O ++ [it d1 o]) [] h (3 + c, S p).
  Proof.
    intros st cs pm O h d o s c p l d1 H Hl Hg Y B. destruct (group _ _ _ _ _ _ _ _ _ _ H Hl) as (X & -> & HX).
    destruct HX as [Hf Hh Hp Hm Hc]. unfold complete. rewrite Hg. unfold complete_generated_binary_predictions. rewrite Y. cbn [bind pt_symbol pt_dot].
    rewrite Hp, B. cbn [bind].
    eexists. split; [reflexivity|]. split; cbn; auto. exact (rep_push _ _ _ (it d1 o) Hm).
  Qed.

  (** a symbol after which a generated symbol ends *)
  Lemma group_sym : forall st cs pm O h d o s c p d1 k l, at_loc st cs pm O [it d o] h (c, p) -> get_lhs g d = Ret s -> g_syms g <=? s = false ->
    bm_get pm o s = Ret true -> nth_error cs o = Some [it d1 k] -> get_rhs1 g d1 = Ret (Some s) -> get_lhs g d1 = Ret l -> g_syms g <=? l = true ->
    exists X, complete_entire_sum tally P g o s st = complete_predictions P g X o s tt /\ at_loc X cs pm O [it d1 k] h (4 + c, S p).
  Proof.
    intros st cs pm O h d o s c p d1 k l H Hl Hg B Hn Hr Hl1 Hg1. destruct (group _ _ _ _ _ _ _ _ _ _ H Hl) as (X & -> & HX).
    destruct (cmi_one _ _ _ _ _ _ _ _ _ _ _ _ HX Hn Hr Hl1 Hg1) as (X' & E & HX').
    unfold complete. rewrite Hg, (a_pred _ _ _ _ _ _ _ HX), B. cbn [bind]. rewrite HL. cbn [negb bind]. rewrite E. cbn [bind].
    exists X'. auto.
  Qed.

  (** ** the chain *)
  Definition setf (j : nat) : list (item unit) :=
    match j with
    | 0 => []
    | 1 => [it 7 0]
    | S k => [it 9 k]
    end.
  Record frame (cs : list (list (item unit))) (pm : bitmatrix) (n : nat) : Prop := {
    f_sets : forall j, j <= S n -> nth_error cs j = Some (setf j);
    f_last : nth_error cs (S (S n)) = Some [it 8 (S n)];
    f_A : forall j, 1 <= j <= S n -> bm_get pm j 1 = Ret true;
    f_root : bm_get pm 0 6 = Ret true;
    f_B : bm_get pm (S (S n)) 3 = Ret true
  }.

  Fixpoint down (k : nat) : list (item unit) :=
    match k with
    | 0 => [it 6 0]
    | S k' => it 0 k :: down k'
    end.

  Lemma sums_step : forall fuel (st : state) d o s, r_complete st = [it d o] -> get_lhs g d = Ret s ->
    complete_sums tally P g keep_all (S fuel) st = (st <- complete_entire_sum tally P g o s st ;; complete_sums tally P g keep_all fuel st).
  Proof.
    intros fuel st d o s Hc Hl. cbn [complete_sums]. unfold next_sum at 1. rewrite Hc. cbn [heap_peek nth_error it_dot it_origin].
    rewrite Hl. reflexivity.
  Qed.
  Lemma sums_done : forall fuel (st : state), r_complete st = [] -> complete_sums tally P g keep_all fuel st = Ret (clear_hint st).
  Proof. intros fuel st Hc. destruct fuel; cbn [complete_sums]; unfold next_sum; rewrite Hc; reflexivity. Qed.
  Lemma cleared : forall st cs pm O C h cnt, at_loc st cs pm O C h cnt -> at_loc (clear_hint st) cs pm O C None cnt.
  Proof. intros st cs pm O C h cnt [A1 A2 A3 A4 A5]. split; auto. Qed.

  Lemma chain_A : forall k st cs pm n O h d c p fuel, frame cs pm n -> at_loc st cs pm O [it d (S k)] h (c, p) ->
    (d = 1 \/ d = 3) -> k <= n -> 2 * S k <= fuel ->
    exists st', complete_sums tally P g keep_all fuel st = Ret st' /\
      at_loc st' cs pm (O ++ down k) [] None (7 * S k + c, 2 * S k + p).
  Proof.
    induction k as [|k IH]; intros st cs pm n O h d c p fuel Fr H Hd Hk Hfu; (destruct fuel as [|[|fuel]]; [lia|lia|]);
      assert (X : get_lhs g d = Ret 1) by (destruct Hd as [-> | ->]; reflexivity);
      rewrite (sums_step _ _ _ _ _ (a_comp _ _ _ _ _ _ _ H) X).
    - destruct (group_sym _ _ _ _ _ _ _ _ _ _ 7 0 9 H X eq_refl (f_A _ _ _ Fr 1 ltac:(lia)) (f_sets _ _ _ Fr 1 ltac:(lia)) eq_refl eq_refl eq_refl) as (X1 & -> & H1).
      destruct (predictions_none _ _ _ _ _ _ _ 1 1 H1 eq_refl) as (X2 & -> & H2). cbn [bind].
      rewrite (sums_step _ _ _ _ 9 (a_comp _ _ _ _ _ _ _ H2) eq_refl).
      destruct (group_gen1 _ _ _ _ _ _ _ 9 _ _ 6 6 H2 eq_refl eq_refl eq_refl (f_root _ _ _ Fr)) as (X3 & -> & H3). cbn [bind].
      rewrite (sums_done _ _ (a_comp _ _ _ _ _ _ _ H3)). eexists. split; [reflexivity|]. apply cleared in H3.
      replace (7 * 1 + c) with (3 + (4 + c)) by lia. exact H3.
    - destruct (group_sym _ _ _ _ _ _ _ _ _ _ 9 (S k) 11 H X eq_refl (f_A _ _ _ Fr (S (S k)) ltac:(lia)) (f_sets _ _ _ Fr (S (S k)) ltac:(lia)) eq_refl eq_refl eq_refl) as (X1 & -> & H1).
      destruct (predictions_none _ _ _ _ _ _ _ (S (S k)) 1 H1 eq_refl) as (X2 & -> & H2). cbn [bind].
      rewrite (sums_step _ _ _ _ 11 (a_comp _ _ _ _ _ _ _ H2) eq_refl).
      destruct (group_gen _ _ _ _ _ _ _ 11 _ _ 1 0 1 H2 eq_refl eq_refl eq_refl (f_A _ _ _ Fr (S k) ltac:(lia))) as (X3 & -> & H3). cbn [bind].
      destruct (IH _ _ _ _ _ _ _ _ _ fuel Fr H3 (or_introl eq_refl) ltac:(lia) ltac:(lia)) as (st' & E & H4).
      exists st'. split; [exact E|]. rewrite <- app_assoc in H4. cbn [app] in H4.
      replace (7 * S (S k) + c) with (7 * S k + (3 + (4 + c))) by lia. replace (2 * S (S k) + p) with (2 * S k + S (S p)) by lia. exact H4.
  Qed.

  Lemma chain_B : forall st cs pm n h d c p fuel, frame cs pm n -> at_loc st cs pm [] [it d (S (S n))] h (c, p) ->
    (d = 4 \/ d = 5) -> useful h 4 -> 2 * n + 4 <= fuel ->
    exists st', complete_sums tally P g keep_all fuel st = Ret st' /\
      at_loc st' cs pm (it 4 (S (S n)) :: it 2 (S n) :: down n) [] None (7 * n + 14 + c, 2 * n + 4 + p).
  Proof.
    intros st cs pm n h d c p fuel Fr H Hd Hu Hfu. destruct fuel as [|[|fuel]]; [lia|lia|].
    assert (X : get_lhs g d = Ret 3) by (destruct Hd as [-> | ->]; reflexivity).
    rewrite (sums_step _ _ _ _ _ (a_comp _ _ _ _ _ _ _ H) X).
    destruct (group_sym _ _ _ _ _ _ _ _ _ _ 8 (S n) 10 H X eq_refl (f_B _ _ _ Fr) (f_last _ _ _ Fr) eq_refl eq_refl eq_refl) as (X1 & -> & H1).
    destruct (predictions_binary _ _ _ _ _ _ _ (S (S n)) 3 3 4 H1 eq_refl (f_B _ _ _ Fr) Hu) as (X2 & -> & H2). cbn [bind].
    rewrite (sums_step _ _ _ _ 10 (a_comp _ _ _ _ _ _ _ H2) eq_refl).
    destruct (group_gen _ _ _ _ _ _ _ 10 _ _ 1 2 3 H2 eq_refl eq_refl eq_refl (f_A _ _ _ Fr (S n) ltac:(lia))) as (X3 & -> & H3). cbn [bind].
    destruct (chain_A n _ _ _ n _ _ _ _ _ fuel Fr H3 (or_intror eq_refl) (le_n _) ltac:(lia)) as (st' & E & H4).
    exists st'. split; [exact E|]. cbn [app] in H4.
    replace (7 * n + 14 + c) with (7 * S n + (3 + (4 + c))) by lia. replace (2 * n + 4 + p) with (2 * S n + S (S p)) by lia. exact H4.
  Qed.

  (** ** the end of a location *)
  Definition big (n : nat) : list (item unit) := it 6 0 :: it 4 (S (S n)) :: map (fun j => it 0 j) (seq 1 n) ++ [it 2 (S n)].
  Definition key (d : nat) : sym := match d with 6 => 0 | 4 => 7 | _ => 8 end.
  Definition keyed (l : list (item unit)) : list (sym * item unit) := map (fun i => (key (it_dot i), i)) l.
  Definition short (i : item unit) : Prop := it_dot i = 0 \/ it_dot i = 2 \/ it_dot i = 4 \/ it_dot i = 6.

  Lemma short_rhs1 : forall i, short i -> get_rhs1 g (it_dot i) = Ret (Some (key (it_dot i))).
  Proof. intros i [-> |[-> |[-> | ->]]]; reflexivity. Qed.
  Lemma keyed_eq : forall l, Forall short l ->
    mapM (fun it => o <- get_rhs1 g (it_dot it) ;; r1 <- unwrap o ;; Ret (r1, it)) l = Ret (keyed l).
  Proof.
    induction l as [|i l IH]; intros H; [reflexivity|]. inversion H as [|? ? Hi Hl]; subst. cbn [mapM]. rewrite (short_rhs1 _ Hi).
    cbn [bind unwrap]. rewrite (IH Hl). reflexivity.
  Qed.
  Lemma keyed_opt : forall l, Forall short l ->
    mapM (fun it => r1 <- get_rhs1 g (it_dot it) ;; Ret (r1, it)) l = Ret (map (fun i => (Some (key (it_dot i)), i)) l).
  Proof.
    induction l as [|i l IH]; intros H; [reflexivity|]. inversion H as [|? ? Hi Hl]; subst. cbn [mapM]. rewrite (short_rhs1 _ Hi).
    cbn [bind]. rewrite (IH Hl). reflexivity.
  Qed.
  Lemma short_down : forall k, Forall short (down k).
  Proof. induction k as [|k IH]; cbn; constructor; try assumption; unfold short; cbn; auto. Qed.
  Lemma short_big : forall n, Forall short (big n).
  Proof.
    intros n. unfold big. constructor; [unfold short; cbn; auto|]. constructor; [unfold short; cbn; auto|]. apply Forall_app. split.
    - apply Forall_forall. intros i Hi. apply in_map_iff in Hi. destruct Hi as (j & <- & _). unfold short; cbn; auto.
    - constructor; [unfold short; cbn; auto|constructor].
  Qed.

  Lemma insert_end : forall A (leb : A -> A -> bool) x l, (forall y, In y l -> leb x y = false) -> insert_by leb x l = l ++ [x].
  Proof.
    intros A leb x l. induction l as [|y l IH]; intros H; [reflexivity|]. cbn [insert_by]. rewrite (H y) by (now left).
    cbn [app]. f_equal. apply IH. intros z Hz. apply H. now right.
  Qed.
  Lemma sort_down : forall k, sort_by (@medial_key_leb unit) (keyed (down k)) = keyed (it 6 0 :: map (fun j => it 0 j) (seq 1 k)).
  Proof.
    induction k as [|k IH]; [reflexivity|].
    change (keyed (down (S k))) with ((8, it 0 (S k)) :: keyed (down k)). cbn [sort_by]. rewrite IH, insert_end.
    - rewrite seq_S, map_app. cbn [Nat.add keyed map]. unfold keyed. rewrite map_app. reflexivity.
    - intros y Hy. unfold keyed in Hy. apply in_map_iff in Hy. destruct Hy as (i & <- & [<- |Hi]); [reflexivity|].
      apply in_map_iff in Hi. destruct Hi as (j & <- & Hj). apply in_seq in Hj. unfold medial_key_leb. cbn [fst snd it_dot it_origin key Nat.compare].
      apply Nat.leb_gt. lia.
  Qed.
  Lemma sort_big : forall n, map snd (sort_by (@medial_key_leb unit) (keyed (it 4 (S (S n)) :: it 2 (S n) :: down n))) = big n.
  Proof.
    intros n. change (keyed (it 4 (S (S n)) :: it 2 (S n) :: down n)) with ((7, it 4 (S (S n))) :: (8, it 2 (S n)) :: keyed (down n)).
    cbn [sort_by]. rewrite sort_down, (insert_end _ _ (8, it 2 (S n))).
    - unfold big. cbn [keyed map app it_dot key insert_by]. unfold medial_key_leb at 1. cbn [fst Nat.compare].
      assert (X : forall l, map snd (insert_by (@medial_key_leb unit) (7, it 4 (S (S n))) (keyed (map (fun j => it 0 j) l) ++ [(8, it 2 (S n))]))
        = it 4 (S (S n)) :: map (fun j => it 0 j) l ++ [it 2 (S n)]).
      { intros [|x l]; [reflexivity|]. cbn [map keyed it_dot key app insert_by]. unfold medial_key_leb at 1. cbn [fst Nat.compare map snd].
        f_equal. f_equal. rewrite map_app. cbn [map snd]. f_equal. rewrite map_map. cbn. rewrite map_id. reflexivity. }
      cbn [map snd]. f_equal. exact (X (seq 1 n)).
    - intros y Hy. unfold keyed in Hy. apply in_map_iff in Hy. destruct Hy as (i & <- & [<- |Hi]); [reflexivity|].
      apply in_map_iff in Hi. destruct Hi as (j & <- & Hj). reflexivity.
  Qed.

  Definition q0 : bitrow := [false; false; true; false; false; false; true; false; false].
  Definition q1 : bitrow := [false; true; false; false; true; true; false; false; false].
  Definition qz : bitrow := [false; false; false; true; false; false; false; true; false].
  Definition qt : bitrow := [true; false; false; false; false; false; false; true; true].
  Definition zr : bitrow := [false; false; false; false; false; false; false; false; false].

  Definition pstep (row : bitrow) (it : item unit) : res bitrow :=
    o <- get_rhs1 g (it_dot it) ;; postdot <- unwrap o ;; src <- prediction_row g postdot ;; predict row postdot src.

  Lemma idx_mid : forall A (pre : list A) x tail k, length pre = k -> idx (pre ++ x :: tail) k = Ret x.
  Proof. intros A pre x tail k <-. unfold idx. rewrite nth_error_app2, Nat.sub_diag by lia. reflexivity. Qed.
  Lemma upd_mid : forall A (pre : list A) x y tail k, length pre = k -> upd (pre ++ x :: tail) k y = Ret (pre ++ y :: tail).
  Proof.
    intros A pre x y tail k <-. unfold upd. rewrite app_length. cbn [length].
    replace (length pre <? length pre + S (length tail)) with true by (symmetry; apply Nat.ltb_lt; lia). f_equal.
    induction pre as [|a pre IH]; [reflexivity|]. cbn [length app set_nth]. f_equal. exact IH.
  Qed.

  Lemma pass : forall st cs pm O C h cnt e pre tail row, at_loc st cs pm O C h cnt -> length cs = S e ->
    bm_grow1 9 pm = pre ++ zr :: tail -> length pre = S e -> foldM pstep O zr = Ret row ->
    exists st', prediction_pass g st = Ret st' /\ at_loc st' cs (pre ++ row :: tail) O C h cnt.
  Proof.
    intros st cs pm O C h cnt e pre tail row [A1 A2 A3 A4 A5] Hl Hg Hp Hr. unfold prediction_pass. cbv zeta.
    rewrite (rep_last _ _ _ A4). cbn [bind]. unfold earleme. rewrite (rep_len _ _ _ A4), Hl. cbn [unwrap bind].
    rewrite A3. change (g_syms g) with 9. assert (Hp' : length pre = e + 1) by lia. rewrite Hg, (idx_mid _ _ _ _ (e + 1) Hp'). cbn [bind].
    change (fun (row0 : bitrow) (it0 : item unit) => o <- get_rhs1 g (it_dot it0) ;; postdot <- unwrap o ;; src <- prediction_row g postdot ;; predict row0 postdot src) with pstep.
    rewrite Hr. cbn [bind]. rewrite (upd_mid _ _ _ _ _ (e + 1) Hp'). cbn [bind].
    eexists. split; [reflexivity|]. split; cbn; auto.
  Qed.

  Lemma sorted_state : forall st cs pm O C h cnt, at_loc st cs pm O C h cnt -> Forall short O ->
    exists st', sort_medial_items g st = Ret st' /\ at_loc st' cs pm (map snd (sort_by (@medial_key_leb unit) (keyed O))) C h cnt.
  Proof.
    intros st cs pm O C h cnt [A1 A2 A3 A4 A5] Hs. unfold sort_medial_items. rewrite (rep_last _ _ _ A4). cbn [bind].
    rewrite (keyed_eq _ Hs). cbn [bind]. destruct (rep_set_last _ _ _ (map snd (sort_by (@medial_key_leb unit) (keyed O))) A4) as (m & E & Rm).
    rewrite E. cbn [bind]. eexists. split; [reflexivity|]. split; cbn; auto.
  Qed.

  Lemma kept : forall st cs pm O C h cnt e, at_loc st cs pm O C h cnt -> length cs = S e -> list_max_opt (map it_origin O) = Some e ->
    remove_unreachable_sets P st = Ret st.
  Proof.
    intros st cs pm O C h cnt e [A1 A2 A3 A4 A5] Hl Hm. unfold remove_unreachable_sets. rewrite (rep_last _ _ _ A4). cbn [bind].
    unfold earleme. rewrite (rep_len _ _ _ A4), Hl. cbn [unwrap bind]. cbv zeta. rewrite Hm, Nat.ltb_irrefl. reflexivity.
  Qed.
  Lemma dropped : forall st cs x pm O C h cnt e, at_loc st (cs ++ [x]) pm O C h cnt -> length cs = S e -> 0 < e -> list_max_opt (map it_origin O) = Some e ->
    exists st', remove_unreachable_sets P st = Ret st' /\ at_loc st' cs (firstn (S e) pm) O C h cnt.
  Proof.
    intros st cs x pm O C h cnt e [A1 A2 A3 A4 A5] Hl He Hm. unfold remove_unreachable_sets. rewrite (rep_last _ _ _ A4). cbn [bind].
    unfold earleme at 1. rewrite (rep_len _ _ _ A4), app_length, Hl. cbn [length Nat.add]. rewrite Nat.add_1_r. cbn [unwrap bind]. cbv zeta. rewrite Hm.
    replace (e <? S e) with true by (symmetry; apply Nat.ltb_lt; lia). replace (0 <? e) with true by (symmetry; apply Nat.ltb_lt; lia). cbn [andb].
    cbn [r_medial set_predicted]. destruct (rep_truncate _ _ _ (e + 1) A4) as (m & -> & Rm). { rewrite app_length, Hl. cbn. lia. }
    rewrite firstn_app in Rm. replace (e + 1 - length cs) with 0 in Rm by lia. cbn [firstn] in Rm. rewrite app_nil_r in Rm.
    rewrite firstn_all2 in Rm by lia. cbn [bind]. rewrite HL. cbn [bind r_medial set_medial].
    rewrite (rep_len _ _ _ Rm), Hl. rewrite (Nat.add_comm e 2). cbn [Nat.add]. rewrite Nat.eqb_refl. cbn [assert bind].
    unfold earleme. cbn [r_medial set_medial]. rewrite (rep_len _ _ _ Rm), Hl. cbn [eqb_opt]. rewrite Nat.eqb_refl. cbn [assert bind].
    eexists. split; [reflexivity|]. split; cbn; auto. rewrite A3, Nat.add_1_r. reflexivity.
  Qed.

  Lemma max_big : forall n, list_max_opt (map it_origin (big n)) = Some (S (S n)).
  Proof.
    intros n. remember (map it_origin (big n)) as l eqn:El. destruct (list_max_opt l) as [m|] eqn:E; [|subst; discriminate].
    apply Core4.list_max_opt_spec in E. destruct E as [Hin Hmax]. f_equal. apply Nat.le_antisymm.
    - subst l. unfold big in Hin. cbn [map it_origin] in Hin. destruct Hin as [<- |[<- |Hin]]; [lia|lia|]. rewrite map_app in Hin.
      apply in_app_iff in Hin. destruct Hin as [Hin|Hin]; [|cbn in Hin; lia].
      rewrite map_map in Hin. cbn in Hin. apply in_map_iff in Hin. destruct Hin as (j & <- & Hj). apply in_seq in Hj. lia.
    - apply Hmax. subst l. right. left. reflexivity.
  Qed.
  Lemma row_big : forall n, foldM pstep (big n) zr = Ret qt.
  Proof.
    assert (X : forall l, (forall i, In i l -> it_dot i = 0 \/ it_dot i = 2) -> foldM pstep l qt = Ret qt).
    { induction l as [|i l IH]; intros H; [reflexivity|]. cbn [foldM].
      assert (Y : pstep qt i = Ret qt) by (unfold pstep; destruct (H i (or_introl eq_refl)) as [-> | ->]; reflexivity).
      rewrite Y. cbn [bind]. apply IH. intros j Hj. apply H. now right. }
    assert (Z : forall l, (forall i, In i l -> it_dot i = 0 \/ it_dot i = 2) -> l <> [] ->
      foldM pstep l [true; false; false; false; false; false; false; true; false] = Ret qt).
    { intros [|i l] H Hne; [congruence|]. cbn [foldM].
      assert (Y : pstep [true; false; false; false; false; false; false; true; false] i = Ret qt)
        by (unfold pstep; destruct (H i (or_introl eq_refl)) as [-> | ->]; reflexivity).
      rewrite Y. cbn [bind]. apply X. intros j Hj. apply H. now right. }
    intros n. unfold big. cbn [foldM].
    change (pstep zr (it 6 0)) with (Ret (A := bitrow) [true; false; false; false; false; false; false; false; false]). cbn [bind].
    change (pstep [true; false; false; false; false; false; false; false; false] (it 4 (S (S n))))
      with (Ret (A := bitrow) [true; false; false; false; false; false; false; true; false]). cbn [bind].
    apply Z.
    - intros i Hi. apply in_app_iff in Hi. destruct Hi as [Hi|[<- |[]]]; [|auto]. apply in_map_iff in Hi. destruct Hi as (j & <- & _). auto.
    - intros E. apply app_eq_nil in E. destruct E as [_ E]. discriminate.
  Qed.

  Lemma short_last : forall n, Forall short (it 4 (S (S n)) :: it 2 (S n) :: down n).
  Proof. intros n. constructor; [unfold short; cbn; auto|]. constructor; [unfold short; cbn; auto|]. apply short_down. Qed.

  Lemma advance_kept : forall st cs pm n cnt pre tail, at_loc st cs pm (it 4 (S (S n)) :: it 2 (S n) :: down n) [] None cnt -> length cs = S (S (S n)) ->
    bm_grow1 9 pm = pre ++ zr :: tail -> length pre = S (S (S n)) ->
    exists st', advance_after_completion P g st = Ret st' /\ at_loc st' cs (pre ++ qt :: tail) (big n) [] None cnt.
  Proof.
    intros st cs pm n cnt pre tail H Hl Hg Hp. unfold advance_after_completion.
    destruct (sorted_state _ _ _ _ _ _ _ H (short_last n)) as (st1 & -> & H1). cbn [bind]. rewrite sort_big in H1.
    rewrite (kept _ _ _ _ _ _ _ _ H1 Hl (max_big n)). cbn [bind]. rewrite HL. cbn [bind].
    exact (pass _ _ _ _ _ _ _ _ _ _ _ H1 Hl Hg Hp (row_big n)).
  Qed.
  Lemma advance_dropped : forall st cs x pm n cnt pre tail, at_loc st (cs ++ [x]) (pre ++ tail) (it 4 (S (S n)) :: it 2 (S n) :: down n) [] None cnt ->
    length cs = S (S (S n)) -> length pre = S (S (S n)) -> pm = pre ++ [qt] ->
    exists st', advance_after_completion P g st = Ret st' /\ at_loc st' cs pm (big n) [] None cnt.
  Proof.
    intros st cs x pm n cnt pre tail H Hl Hp ->. unfold advance_after_completion.
    destruct (sorted_state _ _ _ _ _ _ _ H (short_last n)) as (st1 & -> & H1). cbn [bind]. rewrite sort_big in H1.
    destruct (dropped _ _ _ _ _ _ _ _ _ H1 Hl ltac:(lia) (max_big n)) as (st2 & -> & H2). cbn [bind]. rewrite HL. cbn [bind].
    rewrite firstn_app, firstn_all2 in H2 by lia. replace (S (S (S n)) - length pre) with 0 in H2 by lia. cbn [firstn] in H2. rewrite app_nil_r in H2.
    exact (pass _ _ _ _ _ _ _ _ pre [] qt H2 Hl eq_refl Hp (row_big n)).
  Qed.
  Lemma advance_one : forall st cs pm d e cnt pre tail row s, at_loc st cs pm [it d e] [] None cnt -> length cs = S e ->
    bm_grow1 9 pm = pre ++ zr :: tail -> length pre = S e -> get_rhs1 g d = Ret (Some s) -> pstep zr (it d e) = Ret row ->
    exists st', advance_after_completion P g st = Ret st' /\ at_loc st' cs (pre ++ row :: tail) [it d e] [] None cnt.
  Proof.
    intros st cs pm d e cnt pre tail row s H Hl Hg Hp Hr Hrow. unfold advance_after_completion, sort_medial_items.
    pose proof H as [A1 A2 A3 A4 A5]. rewrite (rep_last _ _ _ A4). cbn [bind mapM it_dot]. rewrite Hr. cbn [bind unwrap sort_by insert_by map snd].
    destruct (rep_set_last _ _ _ [it d e] A4) as (m & -> & Rm). cbn [bind].
    assert (H1 : at_loc (set_medial st m) cs pm [it d e] [] None cnt) by (split; cbn; auto).
    rewrite (kept _ _ _ _ _ _ _ e H1 Hl eq_refl). cbn [bind]. rewrite HL. cbn [bind].
    apply (pass _ _ _ _ _ _ _ _ _ _ _ H1 Hl Hg Hp). cbn [foldM]. rewrite Hrow. reflexivity.
  Qed.

  (** ** the locations *)
  Definition sets (n : nat) : list (list (item unit)) := map setf (seq 0 n).
  Lemma sets_S : forall n, sets n ++ [setf n] = sets (S n).
  Proof. intros n. unfold sets. rewrite seq_S, map_app. reflexivity. Qed.
  Lemma sets_length : forall n, length (sets n) = n.
  Proof. intros n. unfold sets. now rewrite map_length, seq_length. Qed.
  Lemma sets_nth : forall n j, j < n -> nth_error (sets n) j = Some (setf j).
  Proof. intros n j H. unfold sets. apply map_nth_error. rewrite (nth_error_nth' _ 0); [|now rewrite seq_length]. now rewrite seq_nth. Qed.

  Definition loc (s v : nat) (h : option sym) : location := mkLoc h [(s, v)] keep_all.

  Lemma begun : forall st cs pm O cnt h, at_loc st cs pm O [] None cnt -> at_loc (set_hint_field (begin_earleme P st) h) (cs ++ [O]) pm [] [] h cnt.
  Proof.
    intros st cs pm O cnt h [A1 A2 A3 A4 A5]. unfold begin_earleme. rewrite HL. split; cbn; auto. now apply rep_next_set.
  Qed.

  Lemma scanned : forall st cs pm h c p e s v, at_loc st cs pm [] [] h (c, p) -> length cs = S e -> g_syms g <=? s = false -> bm_get pm e s = Ret true ->
    exists X, at_loc X cs pm [] [] h (S c, p) /\
      scan tally P g st s v = (st <- complete_medial_items tally P g X e s tt ;; complete_predictions P g st e s tt).
  Proof.
    intros st cs pm h c p e s v [A1 A2 A3 A4 A5] Hl Hs B. unfold scan, earleme. rewrite (rep_len _ _ _ A4), Hl. cbn [unwrap bind f_leaf tally].
    unfold complete. rewrite Hs. cbn [r_predicted set_forest]. rewrite A3, B. cbn [bind]. rewrite HL. cbn [negb bind].
    eexists. split; [|reflexivity]. split; cbn; auto. now rewrite A1.
  Qed.

  Definition yrows (n : nat) : bitmatrix := q0 :: repeat q1 (S n).
  Lemma yrows_length : forall n, length (yrows n) = S (S n).
  Proof. intros n. cbn. now rewrite repeat_length. Qed.
  Lemma yrows_get : forall n tail j c, 1 <= j <= S n -> nth_error q1 c = Some true -> bm_get (yrows n ++ tail) j c = Ret true.
  Proof.
    intros n tail j c Hj Hc. unfold bm_get, yrows. destruct j as [|j]; [lia|].
    assert (E : nth_error (repeat q1 (S n) ++ tail) j = Some q1).
    { rewrite nth_error_app1 by (rewrite repeat_length; lia). rewrite (nth_error_nth' _ q1) by (rewrite repeat_length; lia). now rewrite nth_repeat. }
    unfold idx at 1. change ((q0 :: repeat q1 (S n)) ++ tail) with (q0 :: (repeat q1 (S n) ++ tail)). change (nth_error (q0 :: (repeat q1 (S n) ++ tail)) (S j)) with (nth_error (repeat q1 (S n) ++ tail) j). rewrite E. cbn [unwrap bind]. unfold idx. now rewrite Hc.
  Qed.
  Lemma yrows_S : forall n tail, yrows (S n) ++ tail = yrows n ++ q1 :: tail.
  Proof.
    intros n tail. unfold yrows. cbn [app]. f_equal. change (repeat q1 (S (S n))) with (q1 :: repeat q1 (S n)).
    induction (S n) as [|k IH]; [reflexivity|]. cbn [repeat app] in *. f_equal. exact IH.
  Qed.
  Lemma bm_get_mid : forall (pre : bitmatrix) row tail j c b, length pre = j -> nth_error row c = Some b -> bm_get (pre ++ row :: tail) j c = Ret b.
  Proof. intros pre row tail j c b Hj Hc. unfold bm_get. rewrite (idx_mid _ _ _ _ _ Hj). cbn [bind]. unfold idx. now rewrite Hc. Qed.

  (** after [n] times y *)
  Definition afterY (st : state) (n : nat) cnt : Prop := at_loc st (sets (S n)) (yrows n ++ repeat zr 7) (setf (S n)) [] None cnt.
  (** after z *)
  Definition afterZ (st : state) (n : nat) cnt : Prop := at_loc st (sets (S (S n))) (yrows n ++ qz :: repeat zr 7) [it 8 (S n)] [] None cnt.
  (** after t *)
  Definition afterT (st : state) (n : nat) cnt : Prop := exists tail, at_loc st (sets (S (S n)) ++ [[it 8 (S n)]]) (yrows n ++ qz :: qt :: tail) (big n) [] None cnt.

  Lemma setf_rhs1 : forall n, exists d k, setf (S n) = [it d k] /\ get_rhs1 g d = Ret (Some 1).
  Proof. intros [|n]; [exists 7, 0|exists 9, (S n)]; split; reflexivity. Qed.

  Lemma end_medial : forall st cs pm d e c p pre tail row s h fuel, at_loc st cs pm [it d e] [] h (c, p) -> length cs = S e ->
    bm_grow1 9 pm = pre ++ zr :: tail -> length pre = S e -> get_rhs1 g d = Ret (Some s) -> pstep zr (it d e) = Ret row ->
    exists st', end_filtered tally P g keep_all fuel st = Ret (true, st') /\ at_loc st' cs (pre ++ row :: tail) [it d e] [] None (c, p).
  Proof.
    intros st cs pm d e c p pre tail row s h fuel H Hl Hg Hp Hr Hrow. unfold end_filtered, is_exhausted.
    rewrite (rep_last _ _ _ (a_med _ _ _ _ _ _ _ H)). cbn [bind]. rewrite (sums_done _ _ (a_comp _ _ _ _ _ _ _ H)). cbn [bind].
    destruct (advance_one _ _ _ _ _ _ _ _ _ _ (cleared _ _ _ _ _ _ _ H) Hl Hg Hp Hr Hrow) as (st' & -> & H'). cbn [bind]. eauto.
  Qed.

  Lemma feed_y : forall st n c p v h fuel, afterY st n (c, p) -> useful h 9 ->
    exists st', feed tally P g fuel (loc 5 v h) st = Ret (true, st') /\ afterY st' (S n) (S c, p).
  Proof.
    intros st n c p v h fuel H Hu. unfold feed, loc, scan_list. cbn [l_toks l_hint l_keep foldM fst snd].
    pose proof (begun _ _ _ _ _ h H) as B. rewrite sets_S in B.
    destruct (scanned _ _ _ _ _ _ (S n) 5 v B (sets_length _) eq_refl (yrows_get n _ (S n) 5 ltac:(lia) eq_refl)) as (X & HX & ->).
    destruct (setf_rhs1 n) as (d & k & E & Hr).
    rewrite (cmi_none _ _ _ _ _ _ _ (S n) 5 d k 1 HX ltac:(rewrite <- E; apply sets_nth; lia) Hr ltac:(lia)). cbn [bind].
    destruct (predictions_binary _ _ _ _ _ _ _ (S n) 5 1 9 HX eq_refl (yrows_get n _ (S n) 1 ltac:(lia) eq_refl) Hu) as (X2 & -> & H2). cbn [bind app] in *.
    destruct (end_medial _ _ _ _ _ _ _ (yrows n) (repeat zr 7) q1 1 h fuel H2 (sets_length _)) as (st' & -> & H').
    - unfold bm_grow1. rewrite <- app_assoc. reflexivity.
    - apply yrows_length.
    - reflexivity.
    - reflexivity.
    - exists st'. split; [reflexivity|]. unfold afterY. rewrite yrows_S. exact H'.
  Qed.
  Lemma feed_z : forall st n c p v h fuel, afterY st n (c, p) -> useful h 8 ->
    exists st', feed tally P g fuel (loc 4 v h) st = Ret (true, st') /\ afterZ st' n (S c, p).
  Proof.
    intros st n c p v h fuel H Hu. unfold feed, loc, scan_list. cbn [l_toks l_hint l_keep foldM fst snd].
    pose proof (begun _ _ _ _ _ h H) as B. rewrite sets_S in B.
    destruct (scanned _ _ _ _ _ _ (S n) 4 v B (sets_length _) eq_refl (yrows_get n _ (S n) 4 ltac:(lia) eq_refl)) as (X & HX & ->).
    destruct (setf_rhs1 n) as (d & k & E & Hr).
    rewrite (cmi_none _ _ _ _ _ _ _ (S n) 4 d k 1 HX ltac:(rewrite <- E; apply sets_nth; lia) Hr ltac:(lia)). cbn [bind].
    destruct (predictions_binary _ _ _ _ _ _ _ (S n) 4 1 8 HX eq_refl (yrows_get n _ (S n) 1 ltac:(lia) eq_refl) Hu) as (X2 & -> & H2). cbn [bind app] in *.
    destruct (end_medial _ _ _ _ _ _ _ (yrows n) (repeat zr 7) qz 3 h fuel H2 (sets_length _)) as (st' & -> & H').
    - unfold bm_grow1. rewrite <- app_assoc. reflexivity.
    - apply yrows_length.
    - reflexivity.
    - reflexivity.
    - exists st'. split; [reflexivity|]. exact H'.
  Qed.

  Lemma frame_of : forall n more tail, frame ((sets (S (S n)) ++ [[it 8 (S n)]]) ++ more) (yrows n ++ qz :: tail) n.
  Proof.
    intros n more tail. rewrite <- app_assoc. split.
    - intros j Hj. rewrite nth_error_app1 by (rewrite sets_length; lia). apply sets_nth. lia.
    - rewrite nth_error_app2; rewrite sets_length; [|lia]. rewrite Nat.sub_diag. reflexivity.
    - intros j Hj. now apply yrows_get.
    - reflexivity.
    - apply bm_get_mid; [apply yrows_length|reflexivity].
  Qed.

  Definition hint_t (h : option sym) : Prop := h = None \/ h = Some 7.
  Lemma hint_t_useful : forall h d, hint_t h -> d = 4 \/ d = 5 \/ d = 8 -> useful h d.
  Proof. intros h d [-> | ->] Hd; [exact I|]. destruct Hd as [-> |[-> | ->]]; reflexivity. Qed.

  Lemma feed_t1 : forall st n c p v h fuel, afterZ st n (c, p) -> hint_t h -> 2 * n + 4 <= fuel ->
    exists st', feed tally P g fuel (loc 7 v h) st = Ret (true, st') /\ afterT st' n (7 * n + 15 + c, 2 * n + 4 + p).
  Proof.
    intros st n c p v h fuel H Hh Hfu. unfold feed, loc, scan_list. cbn [l_toks l_hint l_keep foldM fst snd].
    pose proof (begun _ _ _ _ _ h H) as B.
    assert (Hl : length (sets (S (S n)) ++ [[it 8 (S n)]]) = S (S (S n))) by (rewrite app_length, sets_length; cbn; lia).
    destruct (scanned _ _ _ _ _ _ (S (S n)) 7 v B Hl eq_refl) as (X & HX & ->).
    { apply bm_get_mid; [apply yrows_length|reflexivity]. }
    pose proof (frame_of n [] (repeat zr 7)) as Fr. rewrite app_nil_r in Fr.
    rewrite (cmi_none _ _ _ _ _ _ _ _ 7 _ _ 3 HX (f_last _ _ _ Fr) eq_refl ltac:(lia)). cbn [bind].
    destruct (predictions_unary _ _ _ _ _ _ (S (S n)) 7 3 5 HX eq_refl (f_B _ _ _ Fr) (hint_t_useful _ 5 Hh ltac:(auto))) as (X2 & -> & H2). cbn [bind].
    unfold end_filtered, is_exhausted. rewrite (rep_last _ _ _ (a_med _ _ _ _ _ _ _ H2)), (a_comp _ _ _ _ _ _ _ H2). cbn [bind].
    destruct (chain_B _ _ _ n _ _ _ _ fuel Fr H2 (or_intror eq_refl) (hint_t_useful _ 4 Hh ltac:(auto)) Hfu) as (X3 & -> & H3). cbn [bind].
    destruct (advance_kept _ _ _ _ _ (yrows n ++ [qz]) (repeat zr 7) H3 Hl) as (X4 & -> & H4).
    - unfold bm_grow1. rewrite <- !app_assoc. reflexivity.
    - rewrite app_length, yrows_length. cbn. lia.
    - cbn [bind]. eexists. split; [reflexivity|]. exists (repeat zr 7). rewrite <- app_assoc in H4. replace (7 * n + 15 + c) with (7 * n + 14 + S c) by lia. exact H4.
  Qed.

  Lemma cmi_t : forall st cs pm O h c p n j, at_loc st cs pm O [] h (c, p) -> nth_error cs j = Some (big n) -> hint_t h ->
    exists st', complete_medial_items tally P g st j 7 tt = Ret st' /\ at_loc st' cs pm O [it 4 (S (S n))] h (S c, p).
  Proof.
    intros st cs pm O h c p n j [A1 A2 A3 A4 A5] Hj Hh. unfold complete_medial_items. rewrite (rep_index _ _ _ _ _ A4 Hj). cbn [bind].
    rewrite (keyed_opt _ (short_big n)). cbn [bind]. cbv zeta.
    remember (map (fun j0 => it 0 j0) (seq 1 n) ++ [it 2 (S n)]) as rest eqn:Er.
    assert (Hrest : forall i, In i rest -> key (it_dot i) = 8).
    { subst rest. intros i Hi. apply in_app_iff in Hi. destruct Hi as [Hi|[<- |[]]]; [|reflexivity]. apply in_map_iff in Hi. destruct Hi as (x & <- & _). reflexivity. }
    unfold big. rewrite <- Er. cbn [map it_dot key].
    remember (map (fun i => (Some (key (it_dot i)), i)) rest) as krest eqn:Ek.
    assert (Hk : forall x, In x krest -> fst x = Some 8).
    { subst krest. intros x Hx. apply in_map_iff in Hx. destruct Hx as (i & <- & Hi). cbn. now rewrite (Hrest i Hi). }
    unfold sym in *. remember (fun x : option nat * item unit => search_cmp 7 (fst x)) as cmp eqn:Ec.
    assert (C8 : forall x, In x krest -> cmp x = Gt) by (intros [a b] Hx; apply Hk in Hx; cbn in Hx; subst cmp a; reflexivity).
    assert (C0 : cmp (Some 0, it 6 0) = Lt) by (subst cmp; reflexivity). assert (C7 : cmp (Some 7, it 4 (S (S n))) = Gt) by (subst cmp; reflexivity).
    destruct (binary_search_partition _ cmp ((Some 0, it 6 0) :: (Some 7, it 4 (S (S n))) :: krest)) as (q & Eq & _ & Q1 & Q2).
    { intros i k a b Hik Ha Hb. destruct k as [|[|k]].
      - replace i with 0 in Ha by lia. rewrite Ha in Hb. injection Hb as <-. split; [auto|]. intros X. rewrite X. discriminate.
      - cbn in Hb. injection Hb as <-. rewrite C7. split; [auto|discriminate].
      - cbn in Hb. apply nth_error_In in Hb. rewrite (C8 _ Hb). split; [auto|discriminate]. }
    { intros a [<- |[<- |Ha]]; [rewrite C0|rewrite C7|rewrite (C8 _ Ha)]; discriminate. }
    assert (q = 1).
    { destruct q as [|[|q]]; [|reflexivity|].
      - specialize (Q2 0 _ (le_n _) eq_refl). congruence.
      - specialize (Q1 1 _ ltac:(lia) eq_refl). congruence. }
    subst q. rewrite Eq. cbn [skipn take_while fst eqb_opt Nat.eqb].
    unfold sym in *. assert (T : take_while (fun x : option nat * item unit => eqb_opt (fst x) (Some 7)) krest = []).
    { destruct krest as [|x l]; [reflexivity|]. destruct x as [a b]. pose proof (Hk _ (or_introl eq_refl)) as K. cbn in K. subst a. reflexivity. }
    rewrite T. cbn [map snd foldM]. unfold complete_medial_item. cbn [it_dot it_origin].
    assert (U : hint_check st (fun la => lhs <- get_lhs g 4 ;; if g_syms g <=? lhs then Ret true else row <- lhs_lr_set g lhs ;; idx row la) = Ret true).
    { unfold hint_check. rewrite A2. destruct Hh as [-> | ->]; reflexivity. }
    rewrite U. cbn [bind]. rewrite Bool.orb_true_r. cbn [f_product tally bind]. rewrite A5.
    cbn [heap_push length app sift_up idx nth_error unwrap bind sift_up_loop Nat.ltb Nat.leb upd set_nth].
    eexists. split; [reflexivity|]. split; cbn; auto. now rewrite A1.
  Qed.

  Lemma feed_t2 : forall st n c p v h fuel, afterT st n (c, p) -> hint_t h -> 2 * n + 4 <= fuel ->
    exists st', feed tally P g fuel (loc 7 v h) st = Ret (true, st') /\ afterT st' n (7 * n + 16 + c, 2 * n + 4 + p).
  Proof.
    intros st n c p v h fuel (tail & H) Hh Hfu. unfold feed, loc, scan_list. cbn [l_toks l_hint l_keep foldM fst snd].
    pose proof (begun _ _ _ _ _ h H) as B.
    assert (Hl : length (sets (S (S n)) ++ [[it 8 (S n)]]) = S (S (S n))) by (rewrite app_length, sets_length; cbn; lia).
    assert (Hl2 : length ((sets (S (S n)) ++ [[it 8 (S n)]]) ++ [big n]) = S (S (S (S n)))) by (rewrite app_length, Hl; cbn [length]; lia).
    assert (Hy : length (yrows n ++ [qz]) = S (S (S n))) by (rewrite app_length, yrows_length; cbn [length]; lia).
    assert (Hrow : yrows n ++ qz :: qt :: tail = (yrows n ++ [qz]) ++ qt :: tail) by (rewrite <- app_assoc; reflexivity).
    destruct (scanned _ _ _ _ _ _ (S (S (S n))) 7 v B Hl2 eq_refl) as (X & HX & ->).
    { rewrite Hrow. apply bm_get_mid; [exact Hy|reflexivity]. }
    pose proof (frame_of n [big n] (qt :: tail)) as Fr.
    destruct (cmi_t _ _ _ _ _ _ _ n (S (S (S n))) HX) as (X1 & -> & H1); [|exact Hh|].
    { rewrite nth_error_app2; rewrite Hl; [|lia]. rewrite Nat.sub_diag. reflexivity. }
    cbn [bind].
    destruct (predictions_unpredicted _ _ _ _ _ _ _ (S (S (S n))) 7 3 5 true H1 eq_refl) as (X2 & -> & H2).
    { rewrite Hrow. apply bm_get_mid; [exact Hy|reflexivity]. }
    { apply hint_t_useful; auto. }
    cbn [bind].
    unfold end_filtered, is_exhausted. rewrite (rep_last _ _ _ (a_med _ _ _ _ _ _ _ H2)), (a_comp _ _ _ _ _ _ _ H2). cbn [bind].
    destruct (chain_B _ _ _ n _ _ _ _ fuel Fr H2 (or_introl eq_refl) (hint_t_useful _ 4 Hh ltac:(auto)) Hfu) as (X3 & -> & H3). cbn [bind].
    rewrite Hrow in H3.
    destruct (advance_dropped _ _ _ _ _ _ _ _ H3 Hl Hy eq_refl) as (X4 & -> & H4).
    cbn [bind]. eexists. split; [reflexivity|]. exists []. rewrite <- app_assoc in H4. replace (7 * n + 16 + c) with (7 * n + 14 + S (S c)) by lia. exact H4.
  Qed.

  Lemma feed_sof : forall fuel,
    exists st', (st <- r_new g (0, 0) ;; feed tally P g fuel (loc 2 0 None) st) = Ret (true, st') /\ afterY st' 0 (1, 0).
  Proof.
    intros fuel. destruct P as [la leo]. cbn in HL. subst leo.
    destruct la, fuel; (eexists; split; [vm_compute; reflexivity|]; split; try reflexivity; split; reflexivity).
  Qed.
End Run.
