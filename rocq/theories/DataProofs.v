(** DataProofs: sequences of heap operations and of Vec2d operations (for C10, C13). *)
From Coq Require Import List Arith Lia Permutation.
From Verif Require Import Base Item Heap Vec2d BaseProofs HeapProofs Vec2dProofs.
Import ListNotations.
Local Open Scope res_scope.

(** ** Priority queues *)

Inductive heap_op (N : Type) := Push (x : item N) | Pop.
Arguments Push {N}.
Arguments Pop {N}.

(** the heap under a sequence of operations; one output per [Pop] *)
Fixpoint run_heap {N} (ops : list (heap_op N)) (h : list (item N))
  : res (list (option (item N)) * list (item N)) :=
  match ops with
  | [] => Ret ([], h)
  | Push x :: t => h' <- heap_push x h ;; run_heap t h'
  | Pop :: t =>
      '(o, h') <- heap_pop h ;;
      '(outs, h'') <- run_heap t h' ;;
      Ret (o :: outs, h'')
  end.

(** key order: origin first, then dot *)
Definition key_le {N} (a b : item N) : Prop :=
  it_origin a < it_origin b \/ (it_origin a = it_origin b /\ it_dot a <= it_dot b).

(** specification: a bag of items; [Pop] removes a greatest one *)
Inductive bag_run {N} : list (heap_op N) -> list (item N) -> list (option (item N)) -> list (item N) -> Prop :=
| bag_nil : forall b b', Permutation b b' -> bag_run [] b [] b'
| bag_push : forall x t b outs b', bag_run t (x :: b) outs b' -> bag_run (Push x :: t) b outs b'
| bag_pop_empty : forall t outs b', bag_run t [] outs b' -> bag_run (Pop :: t) [] (None :: outs) b'
| bag_pop : forall x t b b1 outs b', Permutation b (x :: b1) -> (forall y, In y b -> key_le y x) ->
    bag_run t b1 outs b' -> bag_run (Pop :: t) b (Some x :: outs) b'.

Lemma bag_run_perm : forall N (ops : list (heap_op N)) b outs b', bag_run ops b outs b' ->
  forall b0, Permutation b0 b -> bag_run ops b0 outs b'.
Proof.
  induction 1; intros b0 P.
  - constructor. etransitivity; eauto.
  - constructor. apply IHbag_run. now constructor.
  - apply Permutation_sym, Permutation_nil in P. subst. now constructor.
  - apply bag_pop with (b1 := b1); auto.
    + etransitivity; eauto.
    + intros y Hy. apply H0. eapply Permutation_in; eauto.
Qed.

Lemma heap_refines_bag : forall N (ops : list (heap_op N)) h, heap_ok h ->
  exists outs h', run_heap ops h = Ret (outs, h') /\ bag_run ops h outs h'.
Proof.
  induction ops as [|[x|] t IH]; intros h Hok; cbn [run_heap].
  - exists [], h. split; auto. now constructor.
  - destruct (heap_push_spec h x Hok) as (h1 & E1 & O1 & P1). rewrite E1. cbn [bind].
    destruct (IH _ O1) as (outs & h' & E & B). exists outs, h'. split; auto.
    constructor. eapply bag_run_perm; eauto.
  - destruct (heap_peek h) as [top|] eqn:Ep.
    + destruct (heap_pop_spec h top Hok Ep) as (h1 & E1 & O1 & P1). rewrite E1. cbn [bind].
      destruct (IH _ O1) as (outs & h' & E & B). rewrite E. cbn [bind].
      exists (Some top :: outs), h'. split; auto.
      apply bag_pop with (b1 := h1); auto.
      intros y Hy. apply item_leb_spec. exact (heap_ok_max h top Hok Ep y Hy).
    + destruct h; [|discriminate]. rewrite heap_pop_nil. cbn [bind].
      destruct (IH [] (heap_ok_nil)) as (outs & h' & E & B). rewrite E. cbn [bind].
      exists (None :: outs), h'. split; auto. now constructor.
Qed.

(** a bag run conserves the items *)
Fixpoint pushed {N} (ops : list (heap_op N)) : list (item N) :=
  match ops with
  | [] => []
  | Push x :: t => x :: pushed t
  | Pop :: t => pushed t
  end.
Fixpoint somes {A} (l : list (option A)) : list A :=
  match l with [] => [] | Some x :: t => x :: somes t | None :: t => somes t end.

Lemma bag_conserves : forall N (ops : list (heap_op N)) b outs b', bag_run ops b outs b' ->
  Permutation (pushed ops ++ b) (somes outs ++ b').
Proof.
  induction 1; simpl; auto.
  - rewrite <- IHbag_run. apply Permutation_middle.
  - rewrite H. rewrite <- Permutation_middle. constructor. auto.
Qed.

(** ** Vec2d *)

Inductive vec_op (A : Type) :=
| VPush (a : A) | VPop | VNext | VClear | VTruncate (n : nat) | VTruncateChart (n : nat)
| VExtendSet (s : list A) | VExtend (ss : list (list A)) | VSetLast (l : list A).
Arguments VPush {A}. Arguments VPop {A}. Arguments VNext {A}. Arguments VClear {A}.
Arguments VTruncate {A}. Arguments VTruncateChart {A}. Arguments VExtendSet {A}.
Arguments VExtend {A}. Arguments VSetLast {A}.

Definition vec_step {A} (v : vec2d A) (op : vec_op A) : res (vec2d A) :=
  match op with
  | VPush a => Ret (v_push_item v a)
  | VPop => Ret (snd (v_pop_item v))
  | VNext => Ret (v_next_set v)
  | VClear => Ret (v_clear v)
  | VTruncate n => v_truncate v n
  | VTruncateChart n => Ret (v_truncate_chart v n)
  | VExtendSet s => Ret (v_extend_with_set v s)
  | VExtend ss => Ret (v_extend v ss)
  | VSetLast l => v_set_last v l
  end.

Lemma rep_from_iter : forall A (sets : list (list A)), rep (v_from_iter sets) sets [].
Proof. intros A sets. exact (rep_extend sets v_new [] (rep_new)). Qed.

(** abstract value: closed sets and the open set; [None]: outside the contract *)
Definition abs_step {A} (x : list (list A) * list A) (op : vec_op A)
  : option (list (list A) * list A) :=
  let (cs, o) := x in
  match op with
  | VPush a => Some (cs, o ++ [a])
  | VPop => match o with [] => None | _ => Some (cs, removelast o) end
  | VNext => Some (cs ++ [o], [])
  | VClear => Some ([], [])
  | VTruncate n => if n <=? length cs then Some (firstn n cs, o) else None
  | VTruncateChart n =>
      if length (concat cs) <=? n then Some (cs, firstn (n - length (concat cs)) o) else None
  | VExtendSet s => Some (cs ++ [o ++ s], [])
  | VExtend ss => match o with [] => Some (cs ++ ss, []) | _ => None end
  | VSetLast l => if length l =? length o then Some (cs, l) else None
  end.

Fixpoint abs_run {A} (ops : list (vec_op A)) x :=
  match ops with
  | [] => Some x
  | op :: t => match abs_step x op with Some x' => @abs_run A t x' | None => None end
  end.

Lemma vec_step_refines : forall A op (v : vec2d A) cs o cs' o', rep v cs o ->
  abs_step (cs, o) op = Some (cs', o') -> exists v', vec_step v op = Ret v' /\ rep v' cs' o'.
Proof.
  intros A op v cs o cs' o' H E; destruct op; cbn [vec_step abs_step] in *.
  - injection E as <- <-. eexists; split; eauto. now apply rep_push.
  - destruct o as [|a o] using rev_ind; [discriminate|]. clear IHo.
    destruct (rep_pop _ _ _ _ H) as [_ Hp].
    assert (E' : Some (cs, removelast (o ++ [a])) = Some (cs', o')).
    { destruct (o ++ [a]) eqn:X; [now destruct o|exact E]. }
    rewrite removelast_last in E'. injection E' as <- <-.
    eexists; split; eauto.
  - injection E as <- <-. eexists; split; eauto. now apply rep_next_set.
  - injection E as <- <-. eexists; split; eauto. apply rep_clear.
  - destruct (Nat.leb_spec n (length cs)); [|discriminate]. injection E as <- <-.
    destruct (rep_truncate _ _ _ n H H0) as (v' & Ev & Hv). eauto.
  - destruct (Nat.leb_spec (length (concat cs)) n); [|discriminate]. injection E as <- <-.
    eexists; split; eauto. now apply rep_truncate_chart.
  - injection E as <- <-. eexists; split; eauto. now apply rep_extend_with_set.
  - destruct o; [|discriminate]. injection E as <- <-. eexists; split; eauto. now apply rep_extend.
  - destruct (Nat.eqb_spec (length l) (length o)); [|discriminate]. injection E as <- <-.
    destruct (rep_set_last _ _ _ l H) as (v' & Ev & Hv). eauto.
Qed.

Lemma vec_run_refines : forall A ops (v : vec2d A) cs o cs' o', rep v cs o ->
  abs_run ops (cs, o) = Some (cs', o') ->
  exists v', foldM vec_step ops v = Ret v' /\ rep v' cs' o'.
Proof.
  induction ops as [|op t IH]; intros v cs o cs' o' H E; cbn [foldM abs_run] in *.
  - injection E as <- <-. eauto.
  - destruct (abs_step (cs, o) op) as [[cs1 o1]|] eqn:E1; [|discriminate].
    destruct (vec_step_refines _ _ _ _ _ _ _ H E1) as (v1 & Ev & H1).
    rewrite Ev. cbn [bind]. eapply IH; eauto.
Qed.

(** the answers of a Vec2d with abstract value [(cs, o)] *)
Definition vec_answers {A} (v : vec2d A) (cs : list (list A)) (o : list A) : Prop :=
  v_len v = length cs + 1 /\
  v_last v = Ret o /\
  v_item_count v = length (concat cs) + length o /\
  (forall i, v_index v i = match nth_error cs i with Some s => Ret s | None => Panic end) /\
  (forall i, v_get_item v i = nth_error (concat cs ++ o) i) /\
  (forall a, o <> [] -> v_last_item v = Some (last o a)) /\
  (* with an empty open set, the last item is that of an earlier set *)
  (forall l a, concat cs ++ o = l ++ [a] -> v_last_item v = Some a) /\
  (concat cs ++ o = [] -> v_last_item v = None) /\
  (* the number of items before set [i] *)
  (forall i, v_index_at v i = if i <=? length cs then Ret (length (concat (firstn i cs))) else Panic) /\
  (forall n, length cs < n -> v_truncate v n = Panic).

Lemma rep_answers : forall A (v : vec2d A) cs o, rep v cs o -> vec_answers v cs o.
Proof.
  intros A v cs o H. repeat split.
  - rewrite (rep_len _ _ _ H). lia.
  - now apply rep_last with (cs := cs).
  - now apply rep_item_count.
  - intros i. destruct (nth_error cs i) eqn:E.
    + now apply (rep_index _ _ _ _ _ H).
    + apply nth_error_None in E. now apply (rep_index_oob _ _ _ _ H).
  - intros i. now apply rep_get_item.
  - intros a Ho. destruct o as [|b o] using rev_ind; [congruence|].
    destruct (rep_pop _ _ _ _ H) as [E _]. rewrite last_last.
    unfold v_pop_item in E. now injection E.
  - intros l a E. destruct H as [H _]. unfold v_last_item. rewrite H, E.
    destruct l as [|b l]; cbn; auto. now rewrite last_last.
  - intros E. destruct H as [H _]. unfold v_last_item. now rewrite H, E.
  - intros i. destruct (i <=? length cs) eqn:E.
    + apply Nat.leb_le in E. now apply (rep_index_at _ _ _ _ H).
    + apply Nat.leb_gt in E. now apply (rep_index_at_oob _ _ _ _ H).
  - intros n Hn. now apply (rep_truncate_oob _ _ _ _ H).
Qed.

(** ** Item order *)
Lemma item_order : forall N,
  (forall a b : item N, item_cmp a b =
     match Nat.compare (it_origin a) (it_origin b) with Eq => Nat.compare (it_dot a) (it_dot b) | c => c end) /\
  (forall a b : item N, item_eqb a b = true <-> it_origin a = it_origin b /\ it_dot a = it_dot b) /\
  (forall a b : item N, item_cmp a b = Eq <-> item_eqb a b = true) /\
  (forall a b : item N, item_cmp b a = CompOpp (item_cmp a b)) /\
  (forall a b c : item N, item_cmp a b = Lt -> item_cmp b c = Lt -> item_cmp a c = Lt) /\
  (forall a b : item N, item_leb a b = true <-> key_le a b) /\
  (forall a a' b b' : item N, it_dot a = it_dot a' -> it_origin a = it_origin a' ->
     it_dot b = it_dot b' -> it_origin b = it_origin b' -> item_cmp a b = item_cmp a' b').
Proof.
  intros N. repeat split.
  - unfold item_eqb in H. apply Bool.andb_true_iff in H. now apply Nat.eqb_eq.
  - unfold item_eqb in H. apply Bool.andb_true_iff in H. now apply Nat.eqb_eq.
  - intros [H1 H2]. unfold item_eqb. now rewrite H1, H2, !Nat.eqb_refl.
  - unfold item_cmp, item_eqb. destruct (Nat.compare_spec (it_origin a) (it_origin b)); try discriminate.
    intros E. apply Nat.compare_eq in E. now rewrite H, E, !Nat.eqb_refl.
  - unfold item_cmp, item_eqb. intros H. apply Bool.andb_true_iff in H. destruct H as [H1 H2].
    apply Nat.eqb_eq in H1, H2. now rewrite H1, H2, !Nat.compare_refl.
  - intros a b. unfold item_cmp. rewrite (Nat.compare_antisym (it_origin a)).
    destruct (Nat.compare (it_origin a) (it_origin b)); cbn; auto.
    now rewrite Nat.compare_antisym.
  - intros a b c. unfold item_cmp.
    destruct (Nat.compare_spec (it_origin a) (it_origin b)), (Nat.compare_spec (it_origin b) (it_origin c));
    destruct (Nat.compare_spec (it_origin a) (it_origin c)); try lia; try discriminate; auto;
    rewrite ?Nat.compare_lt_iff; try lia.
  - apply item_leb_spec.
  - apply item_leb_spec.
  - intros a a' b b' E1 E2 E3 E4. unfold item_cmp. now rewrite E1, E2, E3, E4.
Qed.
