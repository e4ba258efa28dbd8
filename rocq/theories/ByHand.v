(** ByHand: the lemmas behind PropsByHand.v.  A client that completes group by group and
    then advances does what [end_earleme] does. *)
From Coq Require Import List Arith Bool Lia.
From Verif Require Import Base Vec2d Item Grammar BitMatrix DefaultGrammar Forest Recognizer Session.
Import ListNotations.
Local Open Scope res_scope.

Section ByHand.
  Context {F N : Type}.
  Variable fo : forest_ops F N.
  Variable P : perf.
  Variable g : dgrammar.
  Notation state := (rstate F N).
  Notation run := (run_calls fo P g).

  Lemma run_app : forall fuel a b (st : state),
    run fuel (a ++ b) st = ('(l, st1) <- run fuel a st ;; '(m, st2) <- run fuel b st1 ;; Ret (l ++ m, st2)).
  Proof.
    intros fuel a b. induction a as [|c a IH]; intros st.
    - cbn [app run_calls bind]. destruct (run fuel b st) as [[m t]| |]; reflexivity.
    - cbn [app run_calls]. destruct (run_call fo P g fuel c st) as [[x t]| |]; cbn [bind]; try reflexivity.
      rewrite IH. destruct (run fuel a t) as [[l u]| |]; cbn [bind]; try reflexivity.
      destruct (run fuel b u) as [[m v]| |]; reflexivity.
  Qed.

  Lemma run_length : forall fuel cs (st : state) l st', run fuel cs st = Ret (l, st') -> length l = length cs.
  Proof.
    intros fuel. induction cs as [|c cs IH]; intros st l st' H; cbn [run_calls] in H.
    - now injection H as <- _.
    - destruct (run_call fo P g fuel c st) as [[x t]| |]; cbn [bind] in H; try discriminate.
      destruct (run fuel cs t) as [[m u]| |] eqn:E; cbn [bind] in H; try discriminate.
      injection H as <- _. cbn [length]. f_equal. exact (IH _ _ _ E).
  Qed.

  (** accepting [n] groups, none left *)
  Lemma accept_complete : forall n fuel m (st : state) l st', n <= m ->
    run fuel (repeat CAcceptSum n) st = Ret (l, st') -> next_sum g st' = Ret None ->
    complete_sums fo P g keep_all m st = Ret (clear_hint st').
  Proof.
    induction n as [|n IH]; intros fuel m st l st' Hn H He; cbn [repeat run_calls run_call] in H.
    - injection H as _ ->. destruct m; cbn [complete_sums]; rewrite He; reflexivity.
    - destruct (next_sum g st) as [[[o A]|]| |] eqn:E; cbn [bind] in H; try discriminate.
      + destruct m as [|m]; [lia|]. cbn [complete_sums]. rewrite E. cbn [bind keep_all].
        destruct (complete_entire_sum fo P g o A st) as [t| |] eqn:E2; cbn [bind] in H |- *; try discriminate.
        destruct (run fuel (repeat CAcceptSum n) t) as [[l2 t2]| |] eqn:E3; cbn [bind] in H; try discriminate.
        injection H as _ <-. apply (IH fuel m t l2 t2); [lia|exact E3|exact He].
      + destruct (run fuel (repeat CAcceptSum n) st) as [[l2 t2]| |] eqn:E3; cbn [bind] in H; try discriminate.
        injection H as _ <-. apply (IH fuel m st l2 t2); [lia|exact E3|exact He].
  Qed.

  Lemma complete_accept : forall m fuel (st : state) st', complete_sums fo P g keep_all m st = Ret st' ->
    exists n l st1, n <= m /\ run fuel (repeat CAcceptSum n) st = Ret (l, st1) /\
      next_sum g st1 = Ret None /\ st' = clear_hint st1.
  Proof.
    induction m as [|m IH]; intros fuel st st' H; cbn [complete_sums] in H;
      destruct (next_sum g st) as [[[o A]|]| |] eqn:E; cbn [bind] in H; try discriminate.
    - injection H as <-. exists 0, [], st. repeat split; [lia|exact E].
    - cbn [keep_all] in H. destruct (complete_entire_sum fo P g o A st) as [t| |] eqn:E2; cbn [bind] in H; try discriminate.
      destruct (IH fuel t st' H) as (n & l & st1 & Hn & Hr & He & ->).
      exists (S n), (AUnit :: l), st1. split; [lia|]. split; [|split; [exact He|reflexivity]].
      cbn [repeat run_calls run_call]. rewrite E. cbn [bind]. rewrite E2. cbn [bind]. rewrite Hr. reflexivity.
    - injection H as <-. exists 0, [], st. repeat split; [lia|exact E].
  Qed.

  Theorem in_two_steps : forall fuel (st : state) rest, is_exhausted st = Ret false ->
    run fuel (CCompleteAll :: CAdvance :: rest) st =
    ('(l, st') <- run fuel (CEnd :: rest) st ;; Ret (AUnit :: AUnit :: tl l, st')).
  Proof.
    intros fuel st rest He. cbn [run_calls run_call]. unfold end_earleme, end_filtered, complete_all_sums_entirely.
    rewrite He. cbn [bind]. destruct (complete_sums _ _ _ _ _ _) as [t| |]; cbn [bind]; try reflexivity.
    destruct (advance_after_completion _ _ _) as [u| |]; cbn [bind]; try reflexivity.
    destruct (run fuel rest u) as [[l v]| |]; reflexivity.
  Qed.

  Theorem group_by_group : forall fuel (st : state) rest m st',
    run fuel (CEnd :: rest) st = Ret (ABool true :: m, st') <->
    exists n l, n <= fuel /\ length l = n /\
      run fuel (CExhausted :: repeat CAcceptSum n ++ CNextSum :: CClearHint :: CAdvance :: rest) st =
      Ret (ABool false :: l ++ AGroup None :: AUnit :: AUnit :: m, st').
  Proof.
    intros fuel st rest m st'. split.
    - intros H. cbn [run_calls run_call] in H. unfold end_earleme, end_filtered in H.
      destruct (is_exhausted st) as [[|]| |] eqn:E; cbn [bind] in H; try discriminate.
      { destruct (run fuel rest st) as [[x y]| |]; discriminate. }
      destruct (complete_sums fo P g keep_all fuel st) as [t| |] eqn:E1; cbn [bind] in H; try discriminate.
      destruct (advance_after_completion P g t) as [u| |] eqn:E2; cbn [bind] in H; try discriminate.
      destruct (run fuel rest u) as [[x y]| |] eqn:E3; cbn [bind] in H; try discriminate.
      injection H as -> ->.
      destruct (complete_accept fuel fuel st t E1) as (n & l & st1 & Hn & Hr & He & ->).
      exists n, l. split; [exact Hn|]. split; [rewrite (run_length _ _ _ _ _ Hr); apply repeat_length|].
      cbn [run_calls run_call]. rewrite E. cbn [bind]. rewrite run_app, Hr. cbn [bind run_calls run_call].
      rewrite He. cbn [bind]. rewrite E2. cbn [bind]. rewrite E3. reflexivity.
    - intros (n & l & Hn & Hl & H). cbn [run_calls run_call] in H |- *. unfold end_earleme, end_filtered.
      destruct (is_exhausted st) as [[|]| |] eqn:E; cbn [bind] in H |- *; try discriminate.
      { destruct (run fuel _ st) as [[x y]| |]; discriminate. }
      rewrite run_app in H. destruct (run fuel (repeat CAcceptSum n) st) as [[l1 st1]| |] eqn:Hr; cbn [bind] in H; try discriminate.
      cbn [run_calls run_call] in H.
      destruct (next_sum g st1) as [o| |] eqn:He; cbn [bind] in H; try discriminate.
      destruct (advance_after_completion P g (clear_hint st1)) as [u| |] eqn:E2; cbn [bind] in H; try discriminate.
      destruct (run fuel rest u) as [[x y]| |] eqn:E3; cbn [bind] in H; try discriminate.
      injection H as Hl1 ->. pose proof (run_length _ _ _ _ _ Hr) as Hlen. rewrite repeat_length in Hlen.
      assert (length l1 = length l) as Hll by lia. clear Hlen Hl.
      assert (l1 = l /\ AGroup o :: AUnit :: AUnit :: x = AGroup None :: AUnit :: AUnit :: m) as [-> Hx].
      { clear -Hl1 Hll. revert l Hl1 Hll. induction l1 as [|a l1 IH]; intros [|b l] Hl1 Hll; try discriminate; [now split|].
        cbn [app] in Hl1. injection Hl1 as -> Hl1. injection Hll as Hll. destruct (IH l Hl1 Hll) as [-> K]. now split. }
      injection Hx as -> ->.
      rewrite (accept_complete n fuel fuel st l st1 Hn Hr He). cbn [bind]. rewrite E2. cbn [bind]. rewrite E3. reflexivity.
  Qed.
End ByHand.
