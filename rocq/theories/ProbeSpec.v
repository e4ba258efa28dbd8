(** ProbeSpec: what a client sees who inspects the recognizer between locations
    (trace, expected_terminals, earleme). *)
From Coq Require Import List Arith Bool Sorted.
From Verif Require Import Base Grammar DefaultGrammar Forest Recognizer Drive Spec CfgSpec.
Import ListNotations.
Local Open Scope res_scope.

Section Probe.
  Variable c : pcfg.
  Variable w : wrapped_root.
  (** the tokens offered at each location, the start marker first *)
  Variable Ws : list (list (sym * nat)).

  (** [begun d i]: rule [d], which has two symbols, may start at location [i], and its
      first symbol may end here *)
  Definition begun (d i : nat) : Prop :=
    exists r B C xs ys v, nth_error (c_rules c) d = Some r /\ p_rhs r = [B; C] /\
      choice Ws (xs ++ ys) /\ length xs = i /\
      derives (c_rules c) (w_root w) (map fst xs ++ p_lhs r :: v) /\
      derives (c_rules c) B (map fst ys).

  (** [awaited s]: the symbol [s] may start here *)
  Definition awaited (s : sym) : Prop :=
    exists xs v, choice Ws xs /\ derives (c_rules c) (w_root w) (map fst xs ++ s :: v).
End Probe.

(** the record the grammar attaches to position [n] of a rule *)
Definition attached (n : nat) (r : prule) (d : rule_dot) : Prop := nth_error (p_dots r) n = Some (Some d).

(** [prediction_record c s t]: [t] is the record attached to the start of the last rule of
    [s] that has one, or null if no rule of [s] has one *)
Definition prediction_record (c : pcfg) (s : sym) (t : dotted_rule) : Prop :=
  (exists l1 r l2 d, c_rules c = l1 ++ r :: l2 /\ p_lhs r = s /\ attached 0 r d /\ t = rd_trace d /\
     forall r' d', In r' l2 -> p_lhs r' = s -> ~ attached 0 r' d') \/
  ((forall r d, In r (c_rules c) -> p_lhs r = s -> ~ attached 0 r d) /\ t = None).

(** the record attached to the place after the first symbol of rule [d] *)
Definition medial_record (c : pcfg) (d : nat) (t : dotted_rule) : Prop :=
  exists r x, nth_error (c_rules c) d = Some r /\ attached 1 r x /\ t = rd_trace x.

(** the event attached to position [n] of rule [d] *)
Definition event_record (c : pcfg) (n d : nat) (e : event_and_distance) : Prop :=
  exists r x, nth_error (c_rules c) d = Some r /\ attached n r x /\ e = rd_event x.

(** [held pos n]: [pos] lists, in ascending order, the locations of the Earley sets
    still held; the last one is location [n] *)
Definition held (pos : list nat) (n : nat) : Prop :=
  StronglySorted lt pos /\ nth_error pos (length pos - 1) = Some n.

(** a client that goes on reading locations whatever [end_earleme] answers; the list of
    answers *)
Fixpoint feed_on {F N} (fo : forest_ops F N) (P : perf) (g : dgrammar) (fuel : nat) (locs : list location)
  (st : rstate F N) : res (list bool * rstate F N) :=
  match locs with
  | [] => Ret ([], st)
  | loc :: rest =>
      '(b, st) <- feed fo P g fuel loc st ;;
      '(l, st) <- feed_on fo P g fuel rest st ;;
      Ret (b :: l, st)
  end.

(** The forest [fo], with the positions given to [Forest::leaf], in the order of the calls. *)
Definition noting {F N} (fo : forest_ops F N) : forest_ops (F * list nat) N := {|
  f_begin_sum := fun f => f' <- f_begin_sum fo (fst f) ;; Ret (f', snd f);
  f_push_summand := fun it f => f' <- f_push_summand fo it (fst f) ;; Ret (f', snd f);
  f_sum := fun s o f => '(n, f') <- f_sum fo s o (fst f) ;; Ret (n, (f', snd f));
  f_product := fun l r f => '(n, f') <- f_product fo l r (fst f) ;; Ret (n, (f', snd f));
  f_leaf := fun s p v f => '(n, f') <- f_leaf fo s p v (fst f) ;; Ret (n, (f', snd f ++ [p]));
  f_nulling := fun s f => f_nulling fo s (fst f)
|}.
