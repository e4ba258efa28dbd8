(** Recognizer: model of /repo/gearley-recognizer/src/recognizer.rs, lookahead.rs,
    predict.rs and event.rs.

    The recognizer is generic in the forest.  The grammar is a [DefaultGrammar]
    (the only implementation of the trait in /repo).  Capacities and trace output
    are not modelled. *)
From Coq Require Import List Arith Bool.
From Verif Require Import Base Vec2d Item Heap Grammar BitMatrix DefaultGrammar Forest.
Import ListNotations.
Local Open Scope res_scope.

(** gearley-recognizer/src/perf_hint.rs:14-17: the associated constants of [PerfHint]. *)
Record perf := mkPerf { LOOKAHEAD : bool; LEO : bool }.

(** perf_hint.rs:96-98: the constants of [DefaultPerfHint]. *)
Definition default_perf : perf := mkPerf true false.

(** recognizer.rs:19-64 [Recognizer]; [r_hint] is lookahead.rs:12-14
    [DefaultLookahead::next_symbol].  Grammar and policy are parameters. *)
Record rstate (F N : Type) := mkR {
  r_forest : F;
  r_hint : option sym;
  r_predicted : bitmatrix;
  r_medial : vec2d (item N);
  r_leo : vec2d (item N);
  r_complete : list (item N)
}.
Arguments mkR {F N}.
Arguments r_forest {F N}.
Arguments r_hint {F N}.
Arguments r_predicted {F N}.
Arguments r_medial {F N}.
Arguments r_leo {F N}.
Arguments r_complete {F N}.

Section Recognizer.
  Context {F N : Type}.
  Variable fo : forest_ops F N.
  Variable P : perf.
  Variable g : dgrammar.

  Notation state := (rstate F N).
  Implicit Type st : state.

  (* field updates *)
  Definition set_forest st f : state :=
    mkR f (r_hint st) (r_predicted st) (r_medial st) (r_leo st) (r_complete st).
  Definition set_hint_field st h : state :=
    mkR (r_forest st) h (r_predicted st) (r_medial st) (r_leo st) (r_complete st).
  Definition set_predicted st p : state :=
    mkR (r_forest st) (r_hint st) p (r_medial st) (r_leo st) (r_complete st).
  Definition set_medial st m : state :=
    mkR (r_forest st) (r_hint st) (r_predicted st) m (r_leo st) (r_complete st).
  Definition set_leo st l : state :=
    mkR (r_forest st) (r_hint st) (r_predicted st) (r_medial st) l (r_complete st).
  Definition set_complete st c : state :=
    mkR (r_forest st) (r_hint st) (r_predicted st) (r_medial st) (r_leo st) c.

  (** predict.rs:12-23 [predict] *)
  Definition predict (row : bitrow) (s : sym) (source : bitrow) : res bitrow :=
    b <- idx row s ;;
    Ret (if negb b then row_or row source else row).

  (** predict.rs:25-29 [clear] *)
  Definition row_clear (row : bitrow) : bitrow := map (fun _ => false) row.

  (** recognizer.rs:379-381 [earleme]: [None] stands for the wrapped value [!0]. *)
  Definition earleme st : option nat :=
    match v_len (r_medial st) with
    | S (S n) => Some n
    | _ => None
    end.

  (** recognizer.rs:96-116 [with_forest_and_policy] *)
  Definition r_new (forest : F) : res state :=
    let m := bm_new 8 (g_syms g) in
    row0 <- idx m 0 ;;
    src <- prediction_row g (g_start_sym g) ;;
    row0' <- predict row0 (g_start_sym g) src ;;
    m' <- upd m 0 row0' ;;
    Ret (mkR forest None m' v_new v_new []).

  (** recognizer.rs:118-142 [begin_earleme] *)
  Definition begin_earleme st : state :=
    let st := set_medial st (v_next_set (r_medial st)) in
    if LEO P then set_leo st (v_next_set (r_leo st)) else st.

  (** lookahead.rs:16-30 [set_hint], [clear_hint], through
      recognizer.rs:161-163 [lookahead] *)
  Definition set_hint st (s : sym) : state := set_hint_field st (Some s).
  Definition clear_hint st : state := set_hint_field st None.

  (** recognizer.rs:207-209 [is_exhausted] *)
  Definition is_exhausted st : res bool :=
    l <- v_last (r_medial st) ;;
    Ret (match l, r_complete st with [], [] => true | _, _ => false end).

  (** [self.lookahead.sym().map_or(true, f)] *)
  Definition hint_check st (f : sym -> res bool) : res bool :=
    match r_hint st with None => Ret true | Some s => f s end.

  (** [(self.grammar.get_rhs1(dot), Greater).cmp(&(Some(sym), Less))],
      recognizer.rs:463-466; [None < Some _]. *)
  Definition opt_cmp (a b : option nat) : comparison :=
    match a, b with
    | None, None => Eq
    | None, Some _ => Lt
    | Some _, None => Gt
    | Some x, Some y => Nat.compare x y
    end.
  Definition search_cmp (s : sym) (r1 : option sym) : comparison :=
    match opt_cmp r1 (Some s) with Eq => Gt | c => c end.

  (** recognizer.rs:477-498: one step of the loop over medial items. *)
  Definition complete_medial_item (rhs_link : N) st (it : item N) : res state :=
    useful <- hint_check st (fun la =>
                lhs <- get_lhs g (it_dot it) ;;
                if g_syms g <=? lhs then Ret true
                else row <- lhs_lr_set g lhs ;; idx row la) ;;
    if negb (LOOKAHEAD P) || useful then
      '(node, f) <- f_product fo (it_node it) rhs_link (r_forest st) ;;
      c <- heap_push (mkItem (it_dot it) (it_origin it) node) (r_complete st) ;;
      Ret (set_complete (set_forest st f) c)
    else Ret st.

  (** recognizer.rs:452-499 [complete_medial_items].  [get_rhs1] is evaluated for
      every item of the set up front (it panics on an out-of-range dot). *)
  Definition complete_medial_items st (set_id : nat) (s : sym) (rhs_link : N) : res state :=
    set <- v_index (r_medial st) set_id ;;
    keyed <- mapM (fun it => r1 <- get_rhs1 g (it_dot it) ;; Ret (r1, it)) set ;;
    let start := match binary_search_by (fun x => search_cmp s (fst x)) keyed with
                 | inl i => i
                 | inr i => i
                 end in
    let items := take_while (fun x => eqb_opt (fst x) (Some s)) (skipn start keyed) in
    foldM (complete_medial_item rhs_link) (map snd items) st.

  (** recognizer.rs:503-557: one step of the loop over [completions(sym)];
      the accumulator carries the counter [binary]. *)
  Definition complete_prediction (set_id : nat) (rhs_link : N) (acc : state * nat) (t : ptrans)
    : res (state * nat) :=
    let (st, binary) := acc in
    was_predicted <- bm_get (r_predicted st) set_id (pt_symbol t) ;;
    useful <- hint_check st (fun la =>
                s <- rhs1_or_lhs g (pt_dot t) ;;
                if g_syms g <=? s then Ret true
                else row <- lookahead_set g (pt_dot t) ;; idx row la) ;;
    if was_predicted && (negb (LOOKAHEAD P) || useful) then
      Ret (set_medial st (v_push_item (r_medial st) (mkItem (pt_dot t) set_id rhs_link)),
           binary + (if pt_unary t then 0 else 1))
    else Ret (st, binary).

  (** recognizer.rs:558-560: [self.complete.heap_push(item)] *)
  Definition push_complete st (it : item N) : res state :=
    c <- heap_push it (r_complete st) ;; Ret (set_complete st c).

  (** recognizer.rs:501-563 [complete_predictions] *)
  Definition complete_predictions st (set_id : nat) (s : sym) (rhs_link : N) : res state :=
    l0 <- v_last (r_medial st) ;;
    trans <- completions g s ;;
    '(st, binary) <- foldM (complete_prediction set_id rhs_link) trans (st, length l0) ;;
    l <- v_last (r_medial st) ;;
    st <- foldM push_complete (skipn binary l) st ;;
    l <- v_last (r_medial st) ;;
    assert (length l - binary <=? v_item_count (r_medial st)) ;;;
    assert (binary <=? length l) ;;;
    Ret (set_medial st (v_truncate_chart (r_medial st)
                          (v_item_count (r_medial st) - (length l - binary)))).

  (** recognizer.rs:598-642 [complete_generated_binary_predictions] *)
  Definition complete_generated_binary_predictions st (set_id : nat) (s : sym) (rhs_link : N)
    : res state :=
    '(binary_opt, unary_opt) <- gen_completion g s ;;
    st <- (match unary_opt with
           | None => Ret st
           | Some t =>
               was_predicted <- bm_get (r_predicted st) set_id (pt_symbol t) ;;
               if was_predicted then push_complete st (mkItem (pt_dot t) set_id rhs_link)
               else Ret st
           end) ;;
    match binary_opt with
    | None => Ret st
    | Some t =>
        was_predicted <- bm_get (r_predicted st) set_id (pt_symbol t) ;;
        if was_predicted then
          Ret (set_medial st (v_push_item (r_medial st) (mkItem (pt_dot t) set_id rhs_link)))
        else Ret st
    end.

  (** recognizer.rs:567-595 [complete_leo] *)
  Definition complete_leo st (set_id : nat) (s : sym) (rhs_link : N) : res bool := Panic.

  (** recognizer.rs:415-449 [complete] *)
  Definition complete st (set_id : nat) (s : sym) (rhs_link : N) : res state :=
    if g_syms g <=? s then complete_generated_binary_predictions st set_id s rhs_link
    else
      p <- bm_get (r_predicted st) set_id s ;;
      if p then
        leo <- (if negb (LEO P) then Ret false else complete_leo st set_id s rhs_link) ;;
        if leo then Ret st
        else
          st <- complete_medial_items st set_id s rhs_link ;;
          complete_predictions st set_id s rhs_link
      else Ret st.

  (** recognizer.rs:144-158 [scan] *)
  Definition scan st (symbol : sym) (value : nat) : res state :=
    e <- unwrap (earleme st) ;;  (* debug_assert_ne!(self.earleme(), !0) *)
    '(node, f) <- f_leaf fo symbol (e + 1) value (r_forest st) ;;
    complete (set_forest st f) e symbol node.

  (** recognizer.rs:372-374 [CompleteGroup]: the group is identified by origin and
      lhs symbol; 656-668 [next_sum] *)
  Definition next_sum st : res (option (nat * sym)) :=
    match heap_peek (r_complete st) with
    | None => Ret None
    | Some ei => lhs <- get_lhs g (it_dot ei) ;; Ret (Some (it_origin ei, lhs))
    end.

  (** recognizer.rs:695-708 [next_summand] for the group [(origin, lhs_sym)] *)
  Definition next_summand (origin : nat) (lhs_sym : sym) st : res (option (item N) * state) :=
    match heap_peek (r_complete st) with
    | None => Ret (None, st)
    | Some completion =>
        lhs <- get_lhs g (it_dot completion) ;;
        if (origin =? it_origin completion) && (lhs_sym =? lhs) then
          '(_, c) <- heap_pop (r_complete st) ;;
          Ret (Some completion, set_complete st c)
        else Ret (None, st)
    end.

  (** recognizer.rs:711-714 [push_summand] *)
  Definition push_summand st (it : item N) : res state :=
    f <- f_push_summand fo it (r_forest st) ;; Ret (set_forest st f).

  (** recognizer.rs:717-722 [complete_sum] *)
  Definition complete_sum (origin : nat) (lhs_sym : sym) st : res state :=
    '(node, f) <- f_sum fo lhs_sym origin (r_forest st) ;;
    complete (set_forest st f) origin lhs_sym node.

  (** recognizer.rs:680-682: [while let Some(item) = self.next_summand()].  Every
      iteration pops one item; [n] is the length of the heap. *)
  Fixpoint summand_loop (n : nat) (origin : nat) (lhs_sym : sym) st : res state :=
    '(o, st) <- next_summand origin lhs_sym st ;;
    match o with
    | None => Ret st
    | Some it =>
        st <- push_summand st it ;;
        match n with
        | 0 => NoFuel
        | S n' => summand_loop n' origin lhs_sym st
        end
    end.

  (** recognizer.rs:677-685 [complete_entire_sum] *)
  Definition complete_entire_sum (origin : nat) (lhs_sym : sym) st : res state :=
    f <- f_begin_sum fo (r_forest st) ;;
    let st := set_forest st f in
    st <- summand_loop (length (r_complete st)) origin lhs_sym st ;;
    complete_sum origin lhs_sym st.

  (** recognizer.rs:688-691 [skip_entire_sum] *)
  Fixpoint skip_loop (n : nat) (origin : nat) (lhs_sym : sym) st : res state :=
    '(o, st) <- next_summand origin lhs_sym st ;;
    match o with
    | None => Ret st
    | Some _ =>
        match n with
        | 0 => NoFuel
        | S n' => skip_loop n' origin lhs_sym st
        end
    end.
  Definition skip_entire_sum (origin : nat) (lhs_sym : sym) st : res state :=
    skip_loop (length (r_complete st)) origin lhs_sym st.

  (** recognizer.rs:647-653 [complete_all_sums_entirely], generalised to a client
      that keeps the groups selected by [keep] and skips the others
      (documented use of [next_sum]); [fuel] bounds the number of groups. *)
  Fixpoint complete_sums (keep : sym -> bool) (fuel : nat) st : res state :=
    o <- next_sum st ;;
    match o with
    | None => Ret (clear_hint st)
    | Some (origin, lhs_sym) =>
        match fuel with
        | 0 => NoFuel
        | S fuel' =>
            st <- (if keep lhs_sym then complete_entire_sum origin lhs_sym st
                   else skip_entire_sum origin lhs_sym st) ;;
            complete_sums keep fuel' st
        end
    end.

  Definition keep_all : sym -> bool := fun _ => true.

  Definition complete_all_sums_entirely (fuel : nat) st : res state :=
    complete_sums keep_all fuel st.

  (** recognizer.rs:212-224 [sort_medial_items]: key [(rhs1.unwrap(), dot, origin)]. *)
  Definition medial_key_leb (a b : sym * item N) : bool :=
    match Nat.compare (fst a) (fst b) with
    | Lt => true
    | Gt => false
    | Eq =>
        match Nat.compare (it_dot (snd a)) (it_dot (snd b)) with
        | Lt => true
        | Gt => false
        | Eq => it_origin (snd a) <=? it_origin (snd b)
        end
    end.

  Definition sort_medial_items st : res state :=
    l <- v_last (r_medial st) ;;
    keyed <- mapM (fun it => o <- get_rhs1 g (it_dot it) ;; r1 <- unwrap o ;; Ret (r1, it)) l ;;
    m <- v_set_last (r_medial st) (map snd (sort_by medial_key_leb keyed)) ;;
    Ret (set_medial st m).

  (** recognizer.rs:226-253 [add_leo_items]: [todo!]. *)
  Definition add_leo_items st : res state := Panic.

  (** recognizer.rs:255-300 [remove_unreachable_sets] *)
  Definition remove_unreachable_sets st : res state :=
    l <- v_last (r_medial st) ;;
    e <- unwrap (earleme st) ;;
    let new_earleme := match list_max_opt (map it_origin l) with Some m => m | None => e end in
    if (new_earleme <? e) && (0 <? new_earleme) then
      let st := set_predicted st (bm_truncate (r_predicted st) (new_earleme + 1)) in
      m <- v_truncate (r_medial st) (new_earleme + 1) ;;
      let st := set_medial st m in
      st <- (if LEO P then
               lv <- v_truncate (r_leo st) (new_earleme + 1) ;; Ret (set_leo st lv)
             else Ret st) ;;
      assert (v_len (r_medial st) =? new_earleme + 2) ;;;
      assert (eqb_opt (earleme st) (Some new_earleme)) ;;;
      Ret st
    else Ret st.

  (** recognizer.rs:303-316 [prediction_pass] *)
  Definition prediction_pass st : res state :=
    let rows := bm_grow1 (g_syms g) (r_predicted st) in
    l <- v_last (r_medial st) ;;
    e <- unwrap (earleme st) ;;
    row <- idx rows (e + 1) ;;
    row' <- foldM (fun row it =>
                     o <- get_rhs1 g (it_dot it) ;;
                     postdot <- unwrap o ;;
                     src <- prediction_row g postdot ;;
                     predict row postdot src) l row ;;
    rows' <- upd rows (e + 1) row' ;;
    Ret (set_predicted st rows').

  (** recognizer.rs:192-204 [advance_after_completion] *)
  Definition advance_after_completion st : res state :=
    st <- sort_medial_items st ;;
    st <- remove_unreachable_sets st ;;
    st <- (if LEO P then add_leo_items st else Ret st) ;;
    prediction_pass st.

  (** recognizer.rs:167-189 [end_earleme]; [end_filtered] is the same sequence as
      performed by a client that filters completions. *)
  Definition end_filtered (keep : sym -> bool) (fuel : nat) st : res (bool * state) :=
    ex <- is_exhausted st ;;
    if ex then Ret (false, st)
    else
      st <- complete_sums keep fuel st ;;
      st <- advance_after_completion st ;;
      Ret (true, st).

  Definition end_earleme (fuel : nat) st : res (bool * state) := end_filtered keep_all fuel st.

  (** recognizer.rs:319-330 [reset] *)
  Definition reset st : res state :=
    let st := set_medial st (v_clear (r_medial st)) in
    let st := set_complete st [] in
    row0 <- idx (r_predicted st) 0 ;;
    src <- prediction_row g (g_start_sym g) ;;
    row0' <- predict (row_clear row0) (g_start_sym g) src ;;
    m <- upd (r_predicted st) 0 row0' ;;
    Ret (set_predicted st m).

  (** recognizer.rs:346-358 [finished_node] *)
  Definition finished_node st : res (option N) :=
    if g_has_trivial_derivation g && is_null (earleme st) then
      s <- externalized_start_sym g ;;
      n <- f_nulling fo s (r_forest st) ;;
      Ret (Some n)
    else
      l <- v_last (r_medial st) ;;
      Ret (match l with
           | it :: _ => if it_dot it =? g_dot_before_eof g then Some (it_node it) else None
           | [] => None
           end).

  (** recognizer.rs:336-338 [is_finished] *)
  Definition is_finished st : res bool :=
    o <- finished_node st ;; Ret (negb (is_null o)).

  (** recognizer.rs:363-369 [predicted_symbols] *)
  Definition predicted_symbols st : res (list sym) :=
    e <- unwrap (earleme st) ;;
    row <- idx (r_predicted st) e ;;
    Ret (map fst (filter snd (combine (seq 0 (length row)) row))).

  (** recognizer.rs:372-374 [medial_items] *)
  Definition medial_items st : res (list (item N)) :=
    e <- unwrap (earleme st) ;;
    v_index (r_medial st) e.

  (** event.rs:13-21 [trace] *)
  Definition trace st : res (list (dotted_rule * nat)) :=
    let '(trace_predict, trace0, _) := g_trace g in
    e <- unwrap (earleme st) ;;
    syms <- predicted_symbols st ;;
    a <- mapM (fun s => t <- idx trace_predict s ;; Ret (t, e)) syms ;;
    its <- medial_items st ;;
    b <- mapM (fun it => t <- idx trace0 (it_dot it) ;; Ret (t, it_origin it)) its ;;
    Ret (a ++ b).

  (** event.rs:23-31 [events]: columns 1 and 2 of the grammar's events. *)
  Definition events st : res (list event_and_distance) :=
    let (events_predict, events_flat) := g_events g in
    syms <- predicted_symbols st ;;
    a <- mapM (fun s => idx events_predict s) syms ;;
    its <- medial_items st ;;
    b <- mapM (fun it => idx events_flat (it_dot it)) its ;;
    Ret (a ++ b).

  (** event.rs:33-35 [minimal_distances] *)
  Definition minimal_distances st : res (list (option nat)) :=
    l <- events st ;; Ret (map snd l).

  (** event.rs:37-41 [expected_terminals] *)
  Definition expected_terminals st : res (list sym) :=
    its <- medial_items st ;;
    mapM (fun it => o <- idx (g_col1 g) (it_dot it) ;; unwrap o) its.
End Recognizer.
