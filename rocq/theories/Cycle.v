(** Cycle: with the rule A ::= A the completion loop does not end. *)
From Coq Require Import List Arith Bool Lia Permutation.
From Verif Require Import Base BaseProofs Vec2d Item Heap HeapProofs Grammar BitMatrix DefaultGrammar Forest Recognizer Parse FromGrammar ExampleGrammars ExampleCrate.
Import ListNotations.
Local Open Scope res_scope.

Definition cycle_g : dgrammar := Eval vm_compute in
  the (mkG 0 0 false 0 0 0 0 0 0 [] v_new [] [] [] [] [] [] [] [] [] [] no_maps (mkFI [] [] [] 0 0 0)) (from_grammar X3 20 U3).
Lemma cycle_g_ok : forall fuel, 20 <= fuel -> from_grammar X3 fuel U3 = Ret cycle_g.
Proof. intros fuel H. do 20 (destruct fuel as [|fuel]; [lia|]). vm_compute. reflexivity. Qed.

(** after the start marker and the token a; [h]: the items to complete *)
Definition cycle_st (h : list (item unit)) : rstate unit unit := Eval vm_compute in
  match (st <- r_new cycle_g tt ;; '(ok, st) <- read_sof null_forest default_perf cycle_g 20 st ;; Ret (clear_hint (begin_earleme default_perf st))) with
  | Ret st => set_complete st h
  | _ => mkR tt None [] v_new v_new []
  end.
Definition again : item unit := mkItem 0 1 tt.
Definition other : item unit := mkItem 3 0 tt.

Lemma cycle_complete : forall h c1 c2, heap_push other h = Ret c1 -> heap_push again c1 = Ret c2 ->
  complete null_forest default_perf cycle_g (cycle_st h) 1 1 tt = Ret (cycle_st c2).
Proof.
  intros h c1 c2 H1 H2. lazy -[heap_push] in *. rewrite H1. lazy -[heap_push] in *. rewrite H2. lazy -[heap_push]. reflexivity.
Qed.

Definition cycle_inv (n : nat) (h : list (item unit)) : Prop := heap_ok h /\ Permutation h (again :: repeat other n).

Lemma cycle_top : forall n h, cycle_inv n h -> heap_peek h = Some again.
Proof.
  intros n h [Hh Hp]. unfold heap_peek. destruct (nth_error h 0) as [t|] eqn:E.
  - f_equal. assert (Ht : In t h) by (eapply nth_error_In; eauto). apply (Permutation_in _ Hp) in Ht.
    destruct Ht as [<-|Ht]; [auto|]. apply repeat_spec in Ht. subst t.
    pose proof (heap_ok_max h other Hh E again (Permutation_in _ (Permutation_sym Hp) (or_introl eq_refl))) as K. discriminate K.
  - destruct h; [|discriminate]. apply Permutation_nil in Hp. discriminate.
Qed.

Lemma cycle_step : forall n h, cycle_inv n h -> exists h', cycle_inv (S n) h' /\
  complete_entire_sum null_forest default_perf cycle_g 1 1 (cycle_st h) = Ret (cycle_st h').
Proof.
  intros n h Hi. pose proof (cycle_top n h Hi) as Ht. destruct Hi as [Hh Hp].
  destruct (heap_pop_spec h again Hh Ht) as (h1 & E1 & Hh1 & Hp1).
  assert (Hr : Permutation h1 (repeat other n)).
  { apply (Permutation_cons_inv (a := again)). transitivity h; [symmetry|]; auto. }
  destruct (heap_push_spec h1 other Hh1) as (h2 & E2 & Hh2 & Hp2).
  destruct (heap_push_spec h2 again Hh2) as (h3 & E3 & Hh3 & Hp3).
  exists h3. split; [split; [auto|]|].
  - rewrite <- Hp3, <- Hp2, Hr. reflexivity.
  - unfold complete_entire_sum. cbn [bind f_begin_sum null_forest].
    assert (L : exists k, length (r_complete (cycle_st h)) = S k).
    { change (r_complete (cycle_st h)) with h. destruct h; [discriminate Ht|]. eexists. reflexivity. }
    change (set_forest (cycle_st h) (r_forest (cycle_st h))) with (cycle_st h). destruct L as (k & L).
    assert (S1 : next_summand cycle_g 1 1 (cycle_st h) = Ret (Some again, cycle_st h1)).
    { unfold next_summand. change (r_complete (cycle_st h)) with h. rewrite Ht. cbn -[heap_pop cycle_st]. rewrite E1. reflexivity. }
    assert (S2 : next_summand cycle_g 1 1 (cycle_st h1) = Ret (None, cycle_st h1)).
    { unfold next_summand. change (r_complete (cycle_st h1)) with h1. unfold heap_peek. destruct (nth_error h1 0) as [t|] eqn:E; [|reflexivity].
      assert (In t (repeat other n)) by (apply (Permutation_in _ Hr); eapply nth_error_In; eauto).
      apply repeat_spec in H. subst t. reflexivity. }
    change (set_forest (cycle_st h) tt) with (cycle_st h). rewrite L. cbn [summand_loop]. rewrite S1. cbn [bind push_summand f_push_summand null_forest].
    change (set_forest (cycle_st h1) tt) with (cycle_st h1).
    destruct k; cbn [summand_loop]; rewrite S2; cbn [bind]; unfold complete_sum; cbn [bind f_sum null_forest];
      change (set_forest (cycle_st h1) tt) with (cycle_st h1); exact (cycle_complete h1 h2 h3 E2 E3).
Qed.

Lemma cycle_forever : forall fuel n h, cycle_inv n h ->
  complete_sums null_forest default_perf cycle_g keep_all fuel (cycle_st h) = NoFuel.
Proof.
  induction fuel as [|fuel IH]; intros n h Hi; cbn [complete_sums]; unfold next_sum;
    change (r_complete (cycle_st h)) with h; rewrite (cycle_top n h Hi); cbn -[complete_entire_sum cycle_st cycle_g complete_sums].
  - reflexivity.
  - change (get_lhs cycle_g 0) with (Ret 1). cbn [bind]. unfold keep_all at 1.
    destruct (cycle_step n h Hi) as (h' & Hi' & E). change (it_origin again) with 1. rewrite E. cbn [bind]. exact (IH (S n) h' Hi').
Qed.

(** the item A ::= a of the token *)
Definition once : item unit := mkItem 1 1 tt.
Lemma cycle_first : forall fuel, complete_sums null_forest default_perf cycle_g keep_all fuel (cycle_st [once]) = NoFuel.
Proof.
  intros [|fuel]; [reflexivity|].
  assert (E : complete_entire_sum null_forest default_perf cycle_g 1 1 (cycle_st [once]) = Ret (cycle_st [again; other])) by reflexivity.
  assert (N : next_sum cycle_g (cycle_st [once]) = Ret (Some (1, 1))) by reflexivity.
  cbn [complete_sums]. rewrite N. cbn [bind]. unfold keep_all at 1. rewrite E. cbn [bind]. apply (cycle_forever fuel 1).
  split; [|reflexivity]. intros i a b Hi Ha Hb. destruct i as [|[|i]]; [lia| |destruct i; discriminate].
  injection Ha as <-. injection Hb as <-. reflexivity.
Qed.

Lemma cycle_parse : forall fuel, (st <- r_new cycle_g tt ;; parse null_forest default_perf cycle_g fuel st [1]) = NoFuel.
Proof.
  intros fuel.
  assert (N : exists st st1, r_new cycle_g tt = Ret st /\ read_sof null_forest default_perf cycle_g fuel st = Ret (true, st1) /\
    to_internal cycle_g 1 = Ret (Some 2) /\
    scan null_forest default_perf cycle_g (clear_hint (begin_earleme default_perf st1)) 2 0 = Ret (cycle_st [once])).
  { do 2 eexists. split; [vm_compute; reflexivity|]. split; [destruct fuel; vm_compute; reflexivity|]. split; vm_compute; reflexivity. }
  destruct N as (st & st1 & E1 & E2 & E3 & E4). rewrite E1. cbn [bind]. unfold parse. rewrite E2. cbn [bind parse_loop].
  rewrite E3. cbn [bind unwrap]. rewrite E4. cbn [bind]. unfold end_earleme, end_filtered.
  change (is_exhausted (cycle_st [once])) with (@Ret bool false). cbn [bind]. rewrite cycle_first. reflexivity.
Qed.
