(** Session: arbitrary sequences of calls of the recognizer's public methods
    (/repo/gearley-recognizer/src/recognizer.rs, lookahead.rs, event.rs) with their
    answers.  A sequence ends with a panic as soon as one call panics. *)
From Coq Require Import List Arith Bool.
From Verif Require Import Base Vec2d Item Heap Grammar BitMatrix DefaultGrammar Forest Recognizer.
Import ListNotations.
Local Open Scope res_scope.

Inductive call :=
| CBegin                     (* begin_earleme *)
| CSetHint (s : sym)         (* lookahead().set_hint *)
| CClearHint                 (* lookahead().clear_hint *)
| CScan (s : sym) (v : nat)  (* scan *)
| CEnd                       (* end_earleme *)
| CNextSum                   (* next_sum: origin and symbol of the next group *)
| CAcceptSum                 (* next_sum, then complete_entire_sum if there is a group *)
| CSkipSum                   (* next_sum, then skip_entire_sum if there is a group *)
| CCompleteAll               (* complete_all_sums_entirely *)
| CAdvance                   (* advance_after_completion *)
| CReset                     (* reset *)
| CFinished                  (* is_finished *)
| CExhausted                 (* is_exhausted *)
| CEarleme                   (* earleme *)
| CPredicted                 (* predicted_symbols *)
| CMedial                    (* medial_items: dots and origins *)
| CTrace                     (* trace *)
| CEvents                    (* events *)
| CDistances                 (* minimal_distances *)
| CExpected.                 (* expected_terminals *)

Inductive answer :=
| AUnit
| ABool (b : bool)
| AGroup (o : option (nat * sym))
| AEarleme (o : option nat)
| ASyms (l : list sym)
| AItems (l : list (nat * nat))
| ATrace (l : list (dotted_rule * nat))
| AEvents (l : list event_and_distance)
| ADistances (l : list (option nat)).

Section Session.
  Context {F N : Type}.
  Variable fo : forest_ops F N.
  Variable P : perf.
  Variable g : dgrammar.
  Notation state := (rstate F N).

  Definition run_call (fuel : nat) (c : call) (st : state) : res (answer * state) :=
    match c with
    | CBegin => Ret (AUnit, begin_earleme P st)
    | CSetHint s => Ret (AUnit, set_hint st s)
    | CClearHint => Ret (AUnit, clear_hint st)
    | CScan s v => st <- scan fo P g st s v ;; Ret (AUnit, st)
    | CEnd => '(b, st) <- end_earleme fo P g fuel st ;; Ret (ABool b, st)
    | CNextSum => o <- next_sum g st ;; Ret (AGroup o, st)
    | CAcceptSum =>
        o <- next_sum g st ;;
        match o with
        | None => Ret (AUnit, st)
        | Some (origin, lhs) => st <- complete_entire_sum fo P g origin lhs st ;; Ret (AUnit, st)
        end
    | CSkipSum =>
        o <- next_sum g st ;;
        match o with
        | None => Ret (AUnit, st)
        | Some (origin, lhs) => st <- skip_entire_sum g origin lhs st ;; Ret (AUnit, st)
        end
    | CCompleteAll => st <- complete_all_sums_entirely fo P g fuel st ;; Ret (AUnit, st)
    | CAdvance => st <- advance_after_completion P g st ;; Ret (AUnit, st)
    | CReset => st <- reset g st ;; Ret (AUnit, st)
    | CFinished => b <- is_finished fo g st ;; Ret (ABool b, st)
    | CExhausted => b <- is_exhausted st ;; Ret (ABool b, st)
    | CEarleme => Ret (AEarleme (earleme st), st)
    | CPredicted => l <- predicted_symbols st ;; Ret (ASyms l, st)
    | CMedial => l <- medial_items st ;; Ret (AItems (map (fun it => (it_dot it, it_origin it)) l), st)
    | CTrace => l <- trace g st ;; Ret (ATrace l, st)
    | CEvents => l <- events g st ;; Ret (AEvents l, st)
    | CDistances => l <- minimal_distances g st ;; Ret (ADistances l, st)
    | CExpected => l <- expected_terminals g st ;; Ret (ASyms l, st)
    end.

  Fixpoint run_calls (fuel : nat) (cs : list call) (st : state) : res (list answer * state) :=
    match cs with
    | [] => Ret ([], st)
    | c :: rest =>
        '(a, st) <- run_call fuel c st ;;
        '(l, st) <- run_calls fuel rest st ;;
        Ret (a :: l, st)
    end.

  (** a new recognizer, then the calls *)
  Definition session (fuel : nat) (f0 : F) (cs : list call) : res (list answer * state) :=
    st <- r_new g f0 ;; run_calls fuel cs st.

  (** the answers only *)
  Definition answers (fuel : nat) (f0 : F) (cs : list call) : res (list answer) :=
    '(l, _) <- session fuel f0 cs ;; Ret l.
End Session.
