(** Drive: a client that drives the recognizer location by location, as documented
    in /repo/gearley-recognizer/src/recognizer.rs:118-190 and done in
    /repo/gearley-utils/src/parse.rs: begin_earleme, set or clear the hint, scan any
    number of tokens, end_earleme (or the [next_sum] loop with some groups skipped). *)
From Coq Require Import List Arith Bool.
From Verif Require Import Base Vec2d Item Heap Grammar BitMatrix DefaultGrammar Forest Recognizer.
Import ListNotations.
Local Open Scope res_scope.

(** What a client does at one location: the hint ([None]: no hint), the scanned
    tokens with their values, and the symbols whose groups it accepts. *)
Record location := mkLoc {
  l_hint : option sym;
  l_toks : list (sym * nat);
  l_keep : sym -> bool
}.

(** one token, no hint, all groups accepted *)
Definition plain (tok : sym * nat) : location := mkLoc None [tok] keep_all.

Section Drive.
  Context {F N : Type}.
  Variable fo : forest_ops F N.
  Variable P : perf.
  Variable g : dgrammar.
  Notation state := (rstate F N).

  Definition scan_list (ws : list (sym * nat)) (st : state) : res state :=
    foldM (fun st w => scan fo P g st (fst w) (snd w)) ws st.

  (** one location *)
  Definition feed (fuel : nat) (loc : location) (st : state) : res (bool * state) :=
    st <- scan_list (l_toks loc) (set_hint_field (begin_earleme P st) (l_hint loc)) ;;
    end_filtered fo P g (l_keep loc) fuel st.

  (** several locations, stopping at the first one at which [end_earleme] answers
      false *)
  Fixpoint feed_all (fuel : nat) (locs : list location) (st : state) : res (bool * state) :=
    match locs with
    | [] => Ret (true, st)
    | loc :: rest =>
        '(ok, st) <- feed fuel loc st ;;
        if ok then feed_all fuel rest st else Ret (false, st)
    end.

  (** The same client on a recognizer that never drops Earley sets:
      recognizer.rs:192-204 [advance_after_completion] without line 194. *)
  Definition advance_keeping_sets (st : state) : res state :=
    st <- sort_medial_items g st ;;
    st <- (if LEO P then add_leo_items st else Ret st) ;;
    prediction_pass g st.

  Definition feed_keeping_sets (fuel : nat) (loc : location) (st : state) : res (bool * state) :=
    st <- scan_list (l_toks loc) (set_hint_field (begin_earleme P st) (l_hint loc)) ;;
    ex <- is_exhausted st ;;
    if ex then Ret (false, st)
    else
      st <- complete_sums fo P g (l_keep loc) fuel st ;;
      st <- advance_keeping_sets st ;;
      Ret (true, st).

  Fixpoint feed_all_keeping_sets (fuel : nat) (locs : list location) (st : state)
    : res (bool * state) :=
    match locs with
    | [] => Ret (true, st)
    | loc :: rest =>
        '(ok, st) <- feed_keeping_sets fuel loc st ;;
        if ok then feed_all_keeping_sets fuel rest st else Ret (false, st)
    end.
End Drive.
