(** DefaultGrammar: model of /repo/gearley-default-grammar/src/lib.rs.

    Modelled: find_gensyms, remap_symbols' comparator, from_processed_grammars and
    everything it calls, and the [Grammar] trait implementation.
    Not modelled: from_grammar's calls into the [cfg] crate, tracing output,
    serde, [scan_prediction_matrix] (never filled), [Column::syms] of column 2
    (never read).  FIRST and FOLLOW sets ([FirstSets], [FollowSets] of the cfg
    crate) are arguments. *)
From Coq Require Import List Arith Bool.
From Verif Require Import Base Vec2d Grammar BitMatrix.
Import ListNotations.
Local Open Scope res_scope.

(** lib.rs:46-71 [DefaultGrammar] *)
Record dgrammar := mkG {
  g_start_sym : sym;
  g_original_start_sym : sym;
  g_has_trivial_derivation : bool;
  g_sof_sym : sym;
  g_eof_sym : sym;
  g_dot_before_eof : nat;
  g_syms : nat;                 (* size.syms *)
  g_gensyms : nat;              (* size.gensyms *)
  g_num_rules : nat;            (* size.rules *)
  g_prediction_matrix : bitmatrix;
  g_completions : vec2d ptrans;
  g_gen_completions : list (option ptrans * option ptrans);
  g_lr_sets : bitmatrix;
  g_col0 : list (option sym);   (* columns[0].syms: lhs *)
  g_col1 : list (option sym);   (* columns[1].syms: rhs[1] *)
  g_events0 : list event_and_distance;
  g_events1 : list event_and_distance;
  g_events2 : list event_and_distance;
  g_tracing0 : list dotted_rule;
  g_tracing1 : list dotted_rule;
  g_tracing2 : list dotted_rule;
  g_maps : mapping;
  g_forest_info : forest_info
}.

(** [occurrences[s].i += 1] *)
Definition occ := (nat * nat * nat)%type.
Definition bump (f : occ -> occ) (occs : list occ) (s : sym) : res (list occ) :=
  o <- idx occs s ;; upd occs s (f o).
Definition inc0 (o : occ) : occ := let '(a, b, c) := o in (S a, b, c).
Definition inc1 (o : occ) : occ := let '(a, b, c) := o in (a, S b, c).
Definition inc2 (o : occ) : occ := let '(a, b, c) := o in (a, b, S c).

(** lib.rs:291-299: counting loop of [find_gensyms]. *)
Definition count_rule (occs : list occ) (r : prule) : res (list occ) :=
  occs1 <- (match p_rhs r with
            | [r0; _] =>
                if negb (p_lhs r =? r0) then
                  o1 <- bump inc0 occs (p_lhs r) ;; bump inc1 o1 r0
                else Ret occs
            | _ => Ret occs
            end) ;;
  foldM (bump inc2) (skipn 1 (p_rhs r)) occs1.

Definition occurrences (c : pcfg) : res (list occ) :=
  foldM count_rule (c_rules c) (repeat (0, 0, 0) (c_num_syms c)).

Definition occ_is_gensym (o : occ) : bool :=
  let '(a, b, c) := o in (a =? 1) && (b =? 1) && (c =? 0).

Definition is_null {A} (o : option A) : bool := match o with None => true | _ => false end.

(** lib.rs:287-306 [find_gensyms]: one bit per symbol. *)
Definition find_gensyms (c : pcfg) : res (list bool) :=
  occs <- occurrences c ;;
  foldM (fun bits r =>
           o <- idx occs (p_lhs r) ;;
           if occ_is_gensym o && is_null (p_origin r)
           then upd bits (p_lhs r) true else Ret bits)
        (c_rules c) (repeat false (c_num_syms c)).

(** lib.rs:319-324: number of generated symbols. *)
Definition num_gensyms (c : pcfg) : res nat :=
  bits <- find_gensyms c ;; Ret (length (filter (fun b => b) bits)).

(** lib.rs:235-250: unary part of the order matrix of [remap_symbols].
    [end_of_input] part: lib.rs:252-267; closure: lib.rs:268-271. *)
Definition order_unary (m : bitmatrix) (r : prule) : res bitmatrix :=
  match p_rhs r with
  | [r0] =>
      match Nat.compare (p_lhs r) r0 with
      | Lt => bm_set m (p_lhs r) r0
      | Gt => bm_set m r0 (p_lhs r)
      | Eq => Ret m
      end
  | _ => Ret m
  end.

Definition remap_order (c : pcfg) (end_of_input : sym) : res bitmatrix :=
  gens <- find_gensyms c ;;
  m <- foldM order_unary (c_rules c) (bm_new (c_num_syms c) (c_num_syms c)) ;;
  m <- foldM (fun m s =>
               g <- idx gens s ;;
               if g then Ret m
               else
                 row <- idx m s ;;
                 m1 <- upd m s (row_or row gens) ;;
                 bm_set m1 end_of_input s)
        (seq 0 (c_num_syms c)) m ;;
  Ret (transitive_closure m).

(** lib.rs:272-280: the comparison handed to [Remap::reorder_symbols]. *)
Definition remap_cmp (order : bitmatrix) (left right : sym) : res comparison :=
  a <- bm_get order left right ;;
  if a then Ret Lt
  else
    b <- bm_get order right left ;;
    Ret (if b then Gt else Eq).

(** [rule.rhs[0]] *)
Definition rhs0 (r : prule) : res sym := idx (p_rhs r) 0.
Definition rhs0d (r : prule) : sym := nth 0 (p_rhs r) 0.
(** [rule.rhs.get(1)] *)
Definition rhs1 (r : prule) : option sym := nth_error (p_rhs r) 1.

(** lib.rs:283-285 [sort_rules_by_lhs], called at 127 before the tables are computed:
    stable sort of the rules by left-hand side. *)
Definition sort_rules_by_lhs (c : pcfg) : pcfg :=
  mkCfg (sort_by (fun a b => p_lhs a <=? p_lhs b) (c_rules c)) (c_num_syms c) (c_roots c) (c_wrapped c).

(** lib.rs:427-431 [compute_rules_by_rhs0]: stable sort by [rhs[0]]; a rule with an
    empty right-hand side panics. *)
Definition compute_rules_by_rhs0 (c : pcfg) : res (list prule) :=
  mapM rhs0 (c_rules c) ;;;
  Ret (sort_by (fun a b => rhs0d a <=? rhs0d b) (c_rules c)).

(** lib.rs:443-457 and 535-540: climbing from a generated symbol to the ordinary
    symbol that predicts it.  The [while] loop is bounded by [fuel]. *)
Fixpoint climb (fuel : nat) (syms : nat) (by_rhs0 : list prule) (lhs : sym) : res sym :=
  if syms <=? lhs then
    match fuel with
    | 0 => NoFuel
    | S fuel' =>
        match binary_search_by (fun r => Nat.compare (rhs0d r) lhs) by_rhs0 with
        | inr _ => Panic  (* expect("lhs not found at rhs0 of any rule") *)
        | inl i => r <- idx by_rhs0 i ;; climb fuel' syms by_rhs0 (p_lhs r)
        end
    end
  else Ret lhs.

(** lib.rs:433-464 [populate_prediction_matrix]. *)
Definition prediction_rule (fuel syms : nat) (by_rhs0 : list prule) (m : bitmatrix) (r : prule)
  : res bitmatrix :=
  r0 <- rhs0 r ;;
  if r0 <? syms then
    lhs <- climb fuel syms by_rhs0 (p_lhs r) ;;
    bm_set m lhs r0
  else Ret m.

Definition populate_prediction_matrix (fuel syms : nat) (c : pcfg) (by_rhs0 : list prule)
  : res bitmatrix :=
  m <- foldM (prediction_rule fuel syms by_rhs0) (c_rules c) (bm_new syms syms) ;;
  Ret (reflexive_closure (transitive_closure m)).

(** lib.rs:479-487, 490-497: copying the predict sets of the cfg crate into a
    matrix, ignoring generated symbols. *)
Definition fill_sets (syms : nat) (sets : list (sym * list sym)) (m : bitmatrix) : res bitmatrix :=
  foldM (fun m os =>
           foldM (fun m inner =>
                    if (fst os <? syms) && (inner <? syms)
                    then bm_set m (fst os) inner else Ret m)
                 (snd os) m)
        sets m.

(** lib.rs:466-511 [populate_lr_sets]: row [2i] is FIRST(i), row [2i+1] is FOLLOW(i). *)
Definition populate_lr_sets (syms : nat) (first follow : list (sym * list sym)) : res bitmatrix :=
  fm <- fill_sets syms first (bm_new syms syms) ;;
  let fm := reflexive_closure fm in
  wm <- fill_sets syms follow (bm_new syms syms) ;;
  rows <- mapM (fun i => f <- idx fm i ;; w <- idx wm i ;; Ret [f; w]) (seq 0 syms) ;;
  Ret (concat rows).

(** lib.rs:521-574 [compute_completion_table]. *)
Definition transition (fuel syms : nat) (by_rhs0 : list prule) (rd : prule * nat)
  : res (sym * ptrans) :=
  let (r, dot) := rd in
  let is_unary := is_null (rhs1 r) in
  r0 <- rhs0 r ;;
  lhs <- climb fuel syms by_rhs0 (p_lhs r) ;;
  Ret (r0, mkPT lhs dot is_unary).

Definition place_transition (syms : nat)
           (t : list (list ptrans) * list (option ptrans * option ptrans))
           (x : sym * ptrans)
  : res (list (list ptrans) * list (option ptrans * option ptrans)) :=
  let (comps, gens) := t in
  let (r0, tr) := x in
  if syms <=? r0 then
    old <- idx gens (r0 - syms) ;;
    gens' <- upd gens (r0 - syms)
                 (if pt_unary tr then (fst old, Some tr) else (Some tr, snd old)) ;;
    Ret (comps, gens')
  else
    old <- idx comps r0 ;;
    comps' <- upd comps r0 (old ++ [tr]) ;;
    Ret (comps', gens).

Definition compute_completion_table (fuel syms gensyms : nat) (c : pcfg) (by_rhs0 : list prule)
  : res (list (list ptrans) * list (option ptrans * option ptrans)) :=
  all <- mapM (transition fuel syms by_rhs0)
              (combine (c_rules c) (seq 0 (length (c_rules c)))) ;;
  let unary := filter (fun x => pt_unary (snd x)) all in
  let binary := filter (fun x => negb (pt_unary (snd x))) all in
  foldM (place_transition syms) (binary ++ unary)
        (repeat [] syms, repeat (None, None) gensyms).

(** [grammar.column(n)]'s [dot.earley] *)
Definition column_dot (n : nat) (r : prule) : option rule_dot :=
  match nth_error (p_dots r) n with Some o => o | None => None end.

(** lib.rs:393-413 [populate_grammar_with_events_rhs], [.._trace_rhs] *)
Definition column_events (n : nat) (c : pcfg) : res (list event_and_distance) :=
  mapM (fun r => d <- unwrap (column_dot n r) ;; Ret (rd_event d)) (c_rules c).
Definition column_tracing (n : nat) (c : pcfg) : res (list dotted_rule) :=
  mapM (fun r => d <- unwrap (column_dot n r) ;; Ret (rd_trace d)) (c_rules c).

(** lib.rs:576-590 [populate_prediction_events] *)
Definition prediction_events (n : nat) (c : pcfg)
  : res (list event_and_distance * list dotted_rule) :=
  foldM (fun et r =>
           match column_dot 0 r with
           | None => Ret et
           | Some d =>
               e <- upd (fst et) (p_lhs r) (rd_event d) ;;
               t <- upd (snd et) (p_lhs r) (rd_trace d) ;;
               Ret (e, t)
           end)
        (c_rules c) (repeat (None, None) n, repeat None n).

Fixpoint position {A} (p : A -> bool) (l : list A) : option nat :=
  match l with
  | [] => None
  | a :: t => if p a then Some 0 else option_map S (position p t)
  end.

(** lib.rs:735-742 [to_internal] *)
Definition map_to_internal (m : mapping) (s : sym) : res (option sym) :=
  match m_to_internal m with
  | [] => Ret (Some s)
  | _ => idx (m_to_internal m) s
  end.

(** lib.rs:744-751 [to_external] *)
Definition map_to_external (m : mapping) (s : sym) : res sym :=
  match m_to_external m with
  | [] => Ret s
  | _ => idx (m_to_external m) s
  end.

(** lib.rs:592-613 [populate_nulling]: [nulling] are the rules of the eliminated
    (nulling) grammar. *)
Definition nulling_intermediate (m : mapping) (nulling : list prule) : res (list (sym * sym * sym)) :=
  rows <- mapM (fun r =>
                  match p_rhs r with
                  | [r0; r1] =>
                      if is_null (p_origin r) then
                        l <- map_to_internal m (p_lhs r) ;; l <- unwrap l ;;
                        a <- map_to_internal m r0 ;; a <- unwrap a ;;
                        b <- map_to_internal m r1 ;; b <- unwrap b ;;
                        Ret [(l, a, b)]
                      else Ret []
                  | _ => Ret []
                  end) nulling ;;
  Ret (concat rows).

Definition eqb_opt (a b : option nat) : bool :=
  match a, b with
  | Some x, Some y => x =? y
  | None, None => true
  | _, _ => false
  end.

(** lib.rs:308-613 [from_processed_grammars] with all [populate_*] functions
    (343-361 [populate_start_sym], 318-333 [populate_sizes], 415-425). *)
Definition from_processed_grammars (fuel : nat) (c : pcfg) (maps : mapping)
           (nulling : list prule) (first follow : list (sym * list sym)) : res dgrammar :=
  gens <- num_gensyms c ;;
  let syms := c_num_syms c - gens in
  assert (length (c_roots c) =? 1) ;;;
  w <- idx (c_wrapped c) 0 ;;
  dbe <- unwrap (position (fun r => eqb_opt (rhs1 r) (Some (w_eof w))) (c_rules c)) ;;
  ev1 <- column_events 1 c ;;
  ev2 <- column_events 2 c ;;
  tr1 <- column_tracing 1 c ;;
  tr2 <- column_tracing 2 c ;;
  by_rhs0 <- compute_rules_by_rhs0 c ;;
  pm <- populate_prediction_matrix fuel syms c by_rhs0 ;;
  '(ev0, tr0) <- prediction_events (syms + gens + 1) c ;;
  '(comps, gcomps) <- compute_completion_table fuel syms gens c by_rhs0 ;;
  lr <- populate_lr_sets syms first follow ;;
  ni <- nulling_intermediate maps nulling ;;
  Ret {|
    g_start_sym := w_root w;
    g_original_start_sym := w_inner w;
    g_has_trivial_derivation := match nulling with [] => false | _ => true end;
    g_sof_sym := w_sof w;
    g_eof_sym := w_eof w;
    g_dot_before_eof := dbe;
    g_syms := syms;
    g_gensyms := gens;
    g_num_rules := length (c_rules c);
    g_prediction_matrix := pm;
    g_completions := v_extend v_new comps;
    g_gen_completions := gcomps;
    g_lr_sets := lr;
    g_col0 := map (fun r => Some (p_lhs r)) (c_rules c);
    g_col1 := map rhs1 (c_rules c);
    g_events0 := ev0; g_events1 := ev1; g_events2 := ev2;
    g_tracing0 := tr0; g_tracing1 := tr1; g_tracing2 := tr2;
    g_maps := maps;
    g_forest_info := {|
      fi_eval := map p_origin (c_rules c);
      fi_nulling_intermediate := ni;
      fi_nulling_eliminated := map p_nullable (c_rules c);
      fi_sof := w_sof w;
      fi_eof := w_eof w;
      fi_start := w_inner w |}
  |}.

(** The [Grammar] trait, lib.rs:616-757. *)

(** lib.rs:702-705 [get_rhs1] *)
Definition get_rhs1 (g : dgrammar) (dot : nat) : res (option sym) := idx (g_col1 g) dot.

(** lib.rs:712-715 [get_lhs] *)
Definition get_lhs (g : dgrammar) (dot : nat) : res sym := o <- idx (g_col0 g) dot ;; unwrap o.

(** lib.rs:625-627 [lhs_lr_set], then indexed by a symbol *)
Definition lhs_lr_set (g : dgrammar) (lhs : sym) : res bitrow := idx (g_lr_sets g) (lhs * 2 + 1).

(** lib.rs:633-639 [rhs1_or_lhs] *)
Definition rhs1_or_lhs (g : dgrammar) (dot : nat) : res sym :=
  o <- get_rhs1 g dot ;;
  match o with Some r1 => Ret r1 | None => get_lhs g dot end.

(** lib.rs:629-631 [lookahead_set] *)
Definition lookahead_set (g : dgrammar) (dot : nat) : res bitrow :=
  s <- rhs1_or_lhs g dot ;;
  o <- get_rhs1 g dot ;;
  idx (g_lr_sets g) (s * 2 + (if is_null o then 1 else 0)).

(** lib.rs:645-648 [prediction_row] *)
Definition prediction_row (g : dgrammar) (s : sym) : res bitrow := idx (g_prediction_matrix g) s.

(** lib.rs:726-729 [completions] *)
Definition completions (g : dgrammar) (s : sym) : res (list ptrans) := v_index (g_completions g) s.

(** lib.rs:731-733 [gen_completion] *)
Definition gen_completion (g : dgrammar) (s : sym) : res (option ptrans * option ptrans) :=
  idx (g_gen_completions g) (s - g_syms g).

(** lib.rs:735-751 *)
Definition to_internal (g : dgrammar) (s : sym) : res (option sym) := map_to_internal (g_maps g) s.
Definition to_external (g : dgrammar) (s : sym) : res sym := map_to_external (g_maps g) s.

(** lib.rs:670-673 [externalized_start_sym] *)
Definition externalized_start_sym (g : dgrammar) : res sym := to_external g (g_original_start_sym g).

(** lib.rs:680-686 [nulling] *)
Definition g_nulling (g : dgrammar) (pos : nat) : option (sym * bool) :=
  match nth_error (fi_nulling_eliminated (g_forest_info g)) pos with
  | Some o => o
  | None => None
  end.

(** lib.rs:688-691 [events]; 693-700 [trace] *)
Definition g_events (g : dgrammar) := (g_events1 g, g_events2 g).
Definition g_trace (g : dgrammar) := (g_tracing0 g, g_tracing1 g, g_tracing2 g).

(** lib.rs:717-720 [external_origin] *)
Definition g_external_origin (g : dgrammar) (dot : nat) : res (option nat) :=
  idx (fi_eval (g_forest_info g)) dot.
