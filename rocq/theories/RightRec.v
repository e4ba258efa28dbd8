(** RightRec: the grammar S ::= a S | a, read without hints, by explicit states. *)
From Coq Require Import List Arith Bool Lia.
From Verif Require Import Base BaseProofs Vec2d Vec2dProofs Item Heap Grammar BitMatrix DefaultGrammar Forest Recognizer Drive FromGrammar
  ExampleGrammars.
From Verif Require ReferenceCrate.
Import ListNotations.
Local Open Scope res_scope.

(** The user's grammar: S ::= a S | a.  S 0, a 1 *)
Definition rr_user : pcfg := {|
  c_rules := [rule 0 [1; 0] (Some 0); rule 0 [1] (Some 1)]; c_num_syms := 2; c_roots := [0]; c_wrapped := [] |}.
(** What [from_grammar] makes of it.  0 eof, 1 S, 2 sof, 3 root, 4 a, 5 g0;
    rules 0: S ::= a S, 1: S ::= a, 2: root ::= g0 eof, 3: g0 ::= sof S *)
Definition rr_dg : dgrammar := Eval vm_compute in
  match from_grammar ReferenceCrate.reference 20 rr_user with
  | Ret g => g
  | _ => mkG 0 0 false 0 0 0 0 0 0 [] (mkV [] []) [] [] [] [] [] [] [] [] [] [] no_maps (mkFI [] [] [] 0 0 0)
  end.
Lemma rr_dg_eq : from_grammar ReferenceCrate.reference 20 rr_user = Ret rr_dg.
Proof. vm_compute. reflexivity. Qed.

(** calls, and summands among them *)
Definition tally : forest_ops (nat * nat) unit := {|
  f_begin_sum := fun f => Ret (S (fst f), snd f);
  f_push_summand := fun _ f => Ret (S (fst f), S (snd f));
  f_sum := fun _ _ f => Ret (tt, (S (fst f), snd f));
  f_product := fun _ _ f => Ret (tt, (S (fst f), snd f));
  f_leaf := fun _ _ _ f => Ret (tt, (S (fst f), snd f));
  f_nulling := fun _ _ => Ret tt
|}.

Section Run.
  Variable P : perf.
  Hypothesis HL : LEO P = false.
  Notation g := rr_dg.
  Notation it d o := (mkItem d o tt).

  Definition p0 : bitrow := [false; false; true; true; false].
  Definition p1 : bitrow := [false; true; false; false; true].
  Definition p2 : bitrow := [true; true; false; false; true].
  Definition z : bitrow := [false; false; false; false; false].
  Definition preds (n : nat) : bitmatrix := p0 :: p1 :: repeat p2 n ++ repeat z 7.

  Definition setf (j : nat) : list (item unit) :=
    match j with
    | 0 => []
    | 1 => [it 3 0]
    | S k => [it 2 0; it 0 k]
    end.
  Definition sets (n : nat) : list (list (item unit)) := map setf (seq 0 n).

  Lemma sets_S : forall n, sets n ++ [setf n] = sets (S n).
  Proof. intros n. unfold sets. rewrite seq_S, map_app. reflexivity. Qed.
  Lemma sets_length : forall n, length (sets n) = n.
  Proof. intros n. unfold sets. now rewrite map_length, seq_length. Qed.
  Lemma sets_nth : forall n j, j < n -> nth_error (sets n) j = Some (setf j).
  Proof. intros n j H. unfold sets. apply map_nth_error. rewrite (nth_error_nth' _ 0); [|now rewrite seq_length]. now rewrite seq_nth. Qed.

  Lemma preds_row : forall n j, 1 <= j <= S n -> exists row, nth_error (preds n) j = Some row /\ (row = p1 \/ row = p2).
  Proof.
    intros n j Hj. destruct j as [|[|j]]; [lia|exists p1; auto|].
    exists p2. split; [|auto]. cbn. rewrite nth_error_app1 by (rewrite repeat_length; lia).
    rewrite (nth_error_nth' _ p2) by (rewrite repeat_length; lia). now rewrite nth_repeat.
  Qed.
  Lemma preds_get : forall n j c, 1 <= j <= S n -> (c = 1 \/ c = 4) -> bm_get (preds n) j c = Ret true.
  Proof.
    intros n j c Hj Hc. destruct (preds_row n j Hj) as (row & E & Hr). unfold bm_get. rewrite (idx_some _ _ _ _ E). cbn [bind].
    destruct Hr as [-> | ->], Hc as [-> | ->]; reflexivity.
  Qed.

  Notation state := (rstate (nat * nat) unit).

  (** a state in which a location was begun *)
  Record at_loc (st : state) (n : nat) (O C : list (item unit)) (cnt : nat * nat) : Prop := {
    a_forest : r_forest st = cnt;
    a_hint : r_hint st = None;
    a_pred : r_predicted st = preds n;
    a_med : rep (r_medial st) (sets (S (S n))) O;
    a_comp : r_complete st = C
  }.

  Lemma cmi_none : forall (st : state) k n, v_index (r_medial st) k = Ret (setf (S n)) ->
    complete_medial_items tally P g st k 4 tt = Ret st.
  Proof. intros st k n E. unfold complete_medial_items. rewrite E. destruct n as [|n]; reflexivity. Qed.

  Lemma scan_a : forall st n c p v, at_loc st n [] [] (c, p) ->
    exists st', scan tally P g st 4 v = Ret st' /\ at_loc st' n [it 0 (S n)] [it 1 (S n)] (S c, p).
  Proof.
    intros st n c p v [Hf Hh Hp Hm Hc]. unfold scan, earleme. rewrite (rep_len _ _ _ Hm), sets_length. cbn [unwrap bind].
    cbn [f_leaf tally bind]. unfold complete. cbn [g_syms rr_dg Nat.leb]. cbn [r_predicted set_forest]. rewrite Hp, preds_get by lia. cbn [bind].
    rewrite HL. cbn [negb bind]. rewrite (cmi_none (set_forest st _) (S n) n (rep_index _ _ _ _ _ Hm (sets_nth (S (S n)) (S n) ltac:(lia)))). cbn [bind].
    unfold complete_predictions. cbn [r_medial set_forest]. rewrite (rep_last _ _ _ Hm). cbn [bind].
    assert (X : completions g 4 = Ret [mkPT 1 0 false; mkPT 1 1 true]) by reflexivity. rewrite X. cbn [bind length foldM].
    unfold complete_prediction. cbn [r_predicted set_forest set_medial pt_symbol pt_dot pt_unary r_hint].
    rewrite Hp, !preds_get by lia. cbn [bind]. unfold hint_check. cbn [r_hint set_forest set_medial]. rewrite Hh. cbn [bind andb].
    rewrite Bool.orb_true_r. cbn [bind r_predicted set_forest set_medial r_hint Nat.add]. rewrite Hp, preds_get by lia. rewrite Hh. cbn [bind andb].
    rewrite Bool.orb_true_r. cbn [bind r_medial set_forest set_medial].
    pose proof (rep_push _ _ _ (it 1 (S n)) (rep_push _ _ _ (it 0 (S n)) Hm)) as Hm2. cbn [app] in Hm2.
    rewrite (rep_last _ _ _ Hm2). cbn [bind skipn foldM]. unfold push_complete. cbn [r_complete set_medial set_forest]. rewrite Hc.
    cbn [heap_push length app sift_up idx nth_error unwrap bind sift_up_loop Nat.ltb Nat.leb upd set_nth].
    cbn [r_medial set_complete set_medial set_forest]. rewrite (rep_last _ _ _ Hm2). cbn [bind length Nat.sub].
    rewrite (rep_item_count _ _ _ Hm2). cbn [length]. assert (L : 1 <=? length (concat (sets (S (S n)))) + 2 = true) by (apply Nat.leb_le; lia).
    rewrite L. cbn [assert bind Nat.leb].
    eexists. split; [reflexivity|]. split; cbn; auto.
    - now rewrite Hf.
    - pose proof (rep_truncate_chart _ _ _ (length (concat (sets (S (S n)))) + 2 - 1) Hm2 ltac:(lia)) as Y.
      replace (length (concat (sets (S (S n)))) + 2 - 1 - length (concat (sets (S (S n))))) with 1 in Y by lia. exact Y.
  Qed.

  (** one group of S *)
  Lemma cmi_S : forall (st : state) k, v_index (r_medial st) (S k) = Ret (setf (S k)) -> r_hint st = None -> r_complete st = [] ->
    exists st', complete_medial_items tally P g st (S k) 1 tt = Ret st' /\ r_forest st' = (S (fst (r_forest st)), snd (r_forest st)) /\
      r_hint st' = None /\ r_predicted st' = r_predicted st /\ r_medial st' = r_medial st /\
      r_complete st' = [match k with 0 => it 3 0 | _ => it 0 k end].
  Proof.
    intros st k E Hh Hc. unfold complete_medial_items. rewrite E. destruct k as [|k]; cbn -[complete_medial_item].
    - unfold complete_medial_item, hint_check. rewrite Hh. cbn [bind]. rewrite Bool.orb_true_r. cbn. rewrite Hc. cbn.
      eexists. split; [reflexivity|]. cbn. auto.
    - unfold complete_medial_item, hint_check. rewrite Hh. cbn [bind]. rewrite Bool.orb_true_r. cbn. rewrite Hc. cbn.
      eexists. split; [reflexivity|]. cbn. auto.
  Qed.

  Lemma no_completions : forall (st : state) cs O k, rep (r_medial st) cs O ->
    exists st', complete_predictions P g st k 1 tt = Ret st' /\ r_forest st' = r_forest st /\
      r_hint st' = r_hint st /\ r_predicted st' = r_predicted st /\ rep (r_medial st') cs O /\ r_complete st' = r_complete st.
  Proof.
    intros st cs O k Hm. unfold complete_predictions. rewrite (rep_last _ _ _ Hm). cbn [bind].
    assert (X : completions g 1 = Ret []) by reflexivity. rewrite X. cbn [bind foldM]. rewrite (rep_last _ _ _ Hm). cbn [bind].
    rewrite skipn_all. cbn [foldM bind]. rewrite (rep_last _ _ _ Hm). cbn [bind].
    rewrite Nat.sub_diag. cbn [Nat.leb assert bind]. rewrite Nat.leb_refl. cbn [assert bind].
    eexists. split; [reflexivity|]. cbn. repeat (split; [reflexivity|]). split; [|reflexivity].
    rewrite Nat.sub_0_r, (rep_item_count _ _ _ Hm).
    pose proof (rep_truncate_chart _ _ _ (length (concat cs) + length O) Hm ltac:(lia)) as Y.
    replace (length (concat cs) + length O - length (concat cs)) with (length O) in Y by lia. now rewrite firstn_all in Y.
  Qed.

  Lemma group_S : forall st n O d k c p, at_loc st n O [it d (S k)] (c, p) -> (d = 0 \/ d = 1) -> k <= n ->
    exists st', complete_entire_sum tally P g (S k) 1 st = Ret st' /\
      at_loc st' n O [match k with 0 => it 3 0 | _ => it 0 k end] (4 + c, S p).
  Proof.
    intros st n O d k c p [Hf Hh Hp Hm Hc] Hd Hk. unfold complete_entire_sum. cbn [f_begin_sum tally bind]. cbv zeta.
    cbn [r_complete set_forest]. rewrite Hc. cbn [length summand_loop]. unfold next_summand at 1. cbn [r_complete set_forest]. rewrite Hc.
    cbn [heap_peek nth_error it_dot it_origin]. assert (X : get_lhs g d = Ret 1) by (destruct Hd as [-> | ->]; reflexivity). rewrite X. cbn [bind].
    rewrite Nat.eqb_refl. cbn [andb Nat.eqb heap_pop last removelast bind push_summand f_push_summand tally].
    unfold next_summand. cbn [r_complete set_forest set_complete heap_peek nth_error bind].
    unfold complete_sum. cbn [f_sum tally bind r_forest set_forest set_complete fst snd].
    unfold complete. cbn [g_syms rr_dg Nat.leb r_predicted set_forest set_complete]. rewrite Hp, preds_get by lia. cbn [bind]. rewrite HL. cbn [negb bind].
    match goal with |- context [complete_medial_items _ _ _ ?s _ _ _] =>
      destruct (cmi_S s k (rep_index _ _ _ _ _ Hm (sets_nth (S (S n)) (S k) ltac:(lia))) Hh eq_refl) as (st1 & -> & F1 & F2 & F3 & F4 & F5) end.
    cbn [bind]. cbn [r_medial r_predicted r_forest set_forest set_complete fst snd] in *.
    destruct (no_completions st1 _ _ (S k) ltac:(rewrite F4; exact Hm)) as (st2 & -> & G1 & G2 & G3 & G4 & G5).
    eexists. split; [reflexivity|]. split; try congruence. rewrite G1, F1, Hf. reflexivity.
  Qed.

  Lemma group_g0 : forall st n O c p, at_loc st n O [it 3 0] (c, p) ->
    exists st', complete_entire_sum tally P g 0 5 st = Ret st' /\ at_loc st' n (O ++ [it 2 0]) [] (3 + c, S p).
  Proof.
    intros st n O c p [Hf Hh Hp Hm Hc]. unfold complete_entire_sum. cbn [f_begin_sum tally bind]. cbv zeta.
    cbn [r_complete set_forest]. rewrite Hc. cbn [length summand_loop]. unfold next_summand at 1. cbn [r_complete set_forest]. rewrite Hc.
    cbn [heap_peek nth_error it_dot it_origin]. assert (X : get_lhs g 3 = Ret 5) by reflexivity. rewrite X. cbn [bind].
    cbn [andb Nat.eqb heap_pop last removelast bind push_summand f_push_summand tally].
    unfold next_summand. cbn [r_complete set_forest set_complete heap_peek nth_error bind].
    unfold complete_sum. cbn [f_sum tally bind r_forest set_forest set_complete fst snd].
    unfold complete. cbn [g_syms rr_dg Nat.leb]. unfold complete_generated_binary_predictions.
    assert (Y : gen_completion g 5 = Ret (Some (mkPT 3 2 false), None)) by reflexivity. rewrite Y. cbn [bind].
    cbn [r_predicted set_forest set_complete pt_symbol pt_dot]. rewrite Hp. cbn [preds bm_get idx nth_error unwrap bind p0].
    eexists. split; [reflexivity|]. split; cbn; auto.
    - now rewrite Hf.
    - exact (rep_push _ _ _ (it 2 0) Hm).
  Qed.

  (** the whole chain *)
  Lemma chain : forall k st n O d c p fuel, at_loc st n O [it d (S k)] (c, p) -> (d = 0 \/ d = 1) -> k <= n -> S (S k) <= fuel ->
    exists st', complete_sums tally P g keep_all fuel st = Ret st' /\
      at_loc st' n (O ++ [it 2 0]) [] (4 * k + 7 + c, k + 2 + p).
  Proof.
    induction k as [|k IH]; intros st n O d c p fuel H Hd Hk Hfu; (destruct fuel as [|fuel]; [lia|]).
    - destruct fuel as [|fuel]; [lia|]. cbn [complete_sums]. unfold next_sum at 1. rewrite (a_comp _ _ _ _ _ H). cbn [heap_peek nth_error it_dot it_origin].
      assert (X : get_lhs g d = Ret 1) by (destruct Hd as [-> | ->]; reflexivity). rewrite X. cbn [bind keep_all].
      destruct (group_S _ _ _ _ _ _ _ H Hd Hk) as (st1 & -> & H1). cbn [bind].
      unfold next_sum at 1. rewrite (a_comp _ _ _ _ _ H1). cbn [heap_peek nth_error it_dot it_origin].
      assert (X1 : get_lhs g 3 = Ret 5) by reflexivity. rewrite X1. cbn [bind keep_all].
      destruct (group_g0 _ _ _ _ _ H1) as (st2 & -> & H2). cbn [bind].
      assert (E : complete_sums tally P g keep_all fuel st2 = Ret (clear_hint st2)).
      { destruct fuel; cbn [complete_sums]; unfold next_sum; rewrite (a_comp _ _ _ _ _ H2); reflexivity. }
      rewrite E. eexists. split; [reflexivity|]. destruct H2 as [A1 A2 A3 A4 A5]. split; auto.
    - cbn [complete_sums]. unfold next_sum at 1. rewrite (a_comp _ _ _ _ _ H). cbn [heap_peek nth_error it_dot it_origin].
      assert (X : get_lhs g d = Ret 1) by (destruct Hd as [-> | ->]; reflexivity). rewrite X. cbn [bind keep_all].
      destruct (group_S _ _ _ _ _ _ _ H Hd Hk) as (st1 & -> & H1). cbn [bind].
      destruct (IH st1 n O 0 _ _ fuel H1 (or_introl eq_refl) ltac:(lia) ltac:(lia)) as (st2 & E & H2).
      rewrite E. eexists. split; [reflexivity|].
      replace (4 * S k + 7 + c) with (4 * k + 7 + (4 + c)) by lia. replace (S k + 2 + p) with (k + 2 + S p) by lia. exact H2.
  Qed.

  (** a state between locations *)
  Record between (st : state) (n : nat) (cnt : nat * nat) : Prop := {
    b_forest : r_forest st = cnt;
    b_hint : r_hint st = None;
    b_pred : r_predicted st = preds n;
    b_med : rep (r_medial st) (sets (S n)) (setf (S n));
    b_comp : r_complete st = []
  }.

  Lemma rows_grow : forall n, upd (bm_grow1 (g_syms g) (preds n)) (S (S n)) p2 = Ret (preds (S n)).
  Proof.
    intros n. unfold upd, bm_grow1, preds. rewrite app_length. cbn [length]. rewrite app_length, !repeat_length.
    replace (S (S n) <? S (S (n + 7)) + 1) with true by (symmetry; apply Nat.ltb_lt; lia).
    cbn [app set_nth]. f_equal. f_equal. f_equal. rewrite <- app_assoc. cbn [repeat app].
    induction n as [|n IH]; [reflexivity|]. cbn [repeat app set_nth]. f_equal. exact IH.
  Qed.
  Lemma rows_new : forall n, idx (bm_grow1 (g_syms g) (preds n)) (S (S n)) = Ret z.
  Proof.
    intros n. unfold idx, bm_grow1, preds. cbn [app nth_error]. induction n as [|n IH]; [reflexivity|]. exact IH.
  Qed.

  Lemma feed_a : forall st n c p v fuel, between st n (c, p) -> S (S n) <= fuel ->
    exists st', feed tally P g fuel (plain (4, v)) st = Ret (true, st') /\ between st' (S n) (4 * n + 8 + c, n + 2 + p).
  Proof.
    intros st n c p v fuel [Hf Hh Hp Hm Hc] Hfu. unfold feed, plain. cbn [l_toks l_hint l_keep scan_list foldM fst snd].
    assert (B : at_loc (set_hint_field (begin_earleme P st) None) n [] [] (c, p)).
    { unfold begin_earleme. rewrite HL. split; cbn [r_forest r_hint r_predicted r_medial r_complete set_hint_field set_medial]; auto. rewrite <- sets_S. now apply rep_next_set. }
    destruct (scan_a _ _ _ _ v B) as (st1 & E1 & H1). unfold scan_list. cbn [foldM fst snd]. rewrite E1. cbn [bind].
    unfold end_filtered, is_exhausted. rewrite (rep_last _ _ _ (a_med _ _ _ _ _ H1)). cbn [bind].
    destruct (chain n st1 n [it 0 (S n)] 1 (S c) p fuel H1 (or_intror eq_refl) (le_n _) Hfu) as (st2 & -> & H2). cbn [bind].
    destruct H2 as [A1 A2 A3 A4 A5]. unfold advance_after_completion, sort_medial_items. rewrite (rep_last _ _ _ A4). cbn [bind app].
    assert (K : forall d, (d = 0 -> get_rhs1 g d = Ret (Some 1)) /\ (d = 2 -> get_rhs1 g d = Ret (Some 0))) by (intros d; split; intros ->; reflexivity).
    cbn [mapM it_dot]. rewrite (proj1 (K 0) eq_refl), (proj2 (K 2) eq_refl). cbn [bind unwrap mapM sort_by insert_by medial_key_leb map snd fst Nat.compare].
    destruct (rep_set_last _ _ _ [it 2 0; it 0 (S n)] A4) as (m & -> & Rm). cbn [bind].
    unfold remove_unreachable_sets. cbn [r_medial set_medial]. rewrite (rep_last _ _ _ Rm). cbn [bind].
    unfold earleme. cbn [r_medial set_medial]. rewrite (rep_len _ _ _ Rm), sets_length. cbn [unwrap bind map it_origin].
    cbn [list_max_opt]. cbv zeta.
    match goal with |- context [(?a <? S n) && _] => assert (Z : a <? S n = false) end.
    { apply Nat.ltb_ge. cbn. lia. }
    rewrite Z. cbn [andb bind]. rewrite HL. cbn [bind]. unfold prediction_pass. cbv zeta. cbn [r_medial r_predicted set_medial].
    rewrite (rep_last _ _ _ Rm). cbn [bind]. unfold earleme. cbn [r_medial set_medial]. rewrite (rep_len _ _ _ Rm), sets_length. cbn [unwrap bind].
    rewrite A3, Nat.add_1_r, rows_new. cbn [bind foldM it_dot]. rewrite (proj1 (K 0) eq_refl), (proj2 (K 2) eq_refl). cbn [bind unwrap].
    replace (prediction_row g 0) with (Ret [true; false; false; false; false]) by reflexivity.
    replace (prediction_row g 1) with (Ret p1) by reflexivity. cbn [bind predict idx nth_error unwrap z p1 negb row_or orb].
    change [true; true; false; false; true] with p2. rewrite rows_grow. cbn [bind].
    eexists. split; [reflexivity|]. split; cbn; auto.
    rewrite A1. f_equal; lia.
  Qed.

  Lemma feed_sof : forall v fuel, 1 <= fuel ->
    exists st', (st <- r_new g (0, 0) ;; feed tally P g fuel (plain (2, v)) st) = Ret (true, st') /\ between st' 0 (1, 0).
  Proof.
    intros v fuel Hfu. destruct fuel as [|fuel]; [lia|]. destruct P as [la leo]. cbn in HL. subst leo.
    destruct la; (eexists; split; [vm_compute; reflexivity|]; split; try reflexivity; split; reflexivity).
  Qed.

  Lemma feed_as : forall vs st n c p fuel, between st n (c, p) -> S n + length vs <= fuel ->
    exists st' c' p', feed_all tally P g fuel (map plain (map (fun v => (4, v)) vs)) st = Ret (true, st') /\
      between st' (n + length vs) (c', p') /\
      c' = c + 4 * n * length vs + 2 * length vs * length vs + 6 * length vs /\
      2 * p' = 2 * p + 2 * n * length vs + length vs * length vs + 3 * length vs.
  Proof.
    induction vs as [|v vs IH]; intros st n c p fuel H Hfu; cbn [map feed_all length] in *.
    - exists st, c, p. rewrite Nat.add_0_r. repeat split; auto; try apply H; lia.
    - destruct (feed_a st n c p v fuel H ltac:(lia)) as (st1 & E1 & H1).
      destruct (IH st1 (S n) _ _ fuel H1 ltac:(lia)) as (st2 & c2 & p2' & E2 & H2 & Hc & Hp).
      exists st2, c2, p2'. rewrite E1. cbn [bind]. split; [exact E2|].
      rewrite <- plus_n_Sm. split; [exact H2|]. split; [rewrite Hc|rewrite Hp]; nia.
  Qed.

  Theorem rr_run : forall v vs fuel, S (length vs) <= fuel -> vs <> [] ->
    exists st' c' p', (st <- r_new g (0, 0) ;; feed_all tally P g fuel (map plain ((2, v) :: map (fun v => (4, v)) vs)) st) = Ret (true, st') /\
      is_finished tally g st' = Ret true /\
      r_forest st' = (c', p') /\ c' = 2 * length vs ^ 2 + 6 * length vs + 1 /\ 2 * p' = length vs ^ 2 + 3 * length vs.
  Proof.
    intros v vs fuel Hfu Hne. destruct (feed_sof v fuel ltac:(lia)) as (st1 & E1 & H1).
    destruct (feed_as vs st1 0 1 0 fuel H1 ltac:(lia)) as (st2 & c' & p' & E2 & H2 & Hc & Hp).
    exists st2, c', p'. split.
    { destruct (r_new g (0, 0)) as [st0| |]; [|discriminate|discriminate]. cbn [bind map feed_all] in *. rewrite E1. cbn [bind]. exact E2. }
    split.
    { unfold is_finished, finished_node. cbn [g_has_trivial_derivation rr_dg andb]. rewrite (rep_last _ _ _ (b_med _ _ _ H2)).
      destruct vs as [|x vs]; [congruence|]. reflexivity. }
    split; [apply H2|]. split; [rewrite Hc; cbn [Nat.pow]; nia|]. rewrite Hp. cbn [Nat.pow]. nia.
  Qed.
End Run.
