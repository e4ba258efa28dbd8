(** ClientSpec: the inputs a client feeds, for the statements of the recognition
    properties. *)
From Coq Require Import List Arith Bool.
From Verif Require Import Base Item Grammar DefaultGrammar Forest Recognizer Drive Spec CfgSpec ForestSpec.
Import ListNotations.
Local Open Scope res_scope.

(** one location per token; location [j] is given the next token as lookahead hint
    if [use j] (and if there is a next token), otherwise no hint *)
Fixpoint hinted (use : nat -> bool) (j : nat) (xs : list (sym * nat)) : list location :=
  match xs with
  | [] => []
  | x :: rest => mkLoc (if use j then hd_error (map fst rest) else None) [x] keep_all :: hinted use (S j) rest
  end.

(** several tokens at a location, no hint, all groups accepted *)
Definition overlapping (toks : list (sym * nat)) : location := mkLoc None toks keep_all.

(** several tokens at a location, no hint, only the groups selected by [keep] *)
Definition filtered (x : list (sym * nat) * (sym -> bool)) : location := mkLoc None (fst x) (snd x).

(** read the locations, then ask [is_finished]; [false] if reading stopped *)
Definition verdict {F N} (fo : forest_ops F N) (P : perf) (g : dgrammar) (fuel : nat) (locs : list location)
  (st : rstate F N) : res bool :=
  '(ok, st) <- feed_all fo P g fuel locs st ;;
  if ok then is_finished fo g st else Ret false.

(** the tokens given to [parse], as internal symbols *)
Definition mapped (g : dgrammar) (tokens syms : list sym) : Prop :=
  Forall2 (fun t s => to_internal g t = Ret (Some s)) tokens syms.

(** The common hypotheses: [g] is built from the processed grammar [c], the forest
    implementation does not panic when used according to the protocol, starting with
    the forest [f0], and the Leo optimisation is off (its code panics). *)
Record configured {F N} (fo : forest_ops F N) (f0 : F) (P : perf)
  (c : pcfg) (nsyms : nat) (w : wrapped_root) (d0 : nat) (g0 : sym) (g : dgrammar) : Prop := {
  cf_forest : exists ok, usable fo ok /\ ok Idle f0;
  cf_leo : LEO P = false;
  cf_grammar : built c nsyms w d0 g0 g
}.

(** a location at which only the start-of-input marker is read *)
Definition read_start (w : wrapped_root) : location := mkLoc None [(w_sof w, 0)] keep_all.

(** [total n f r]: with at least [n] units of fuel [f] gives the value [r], with less
    it gives out-of-fuel; it never panics *)
Definition total {A} (n : nat) (f : nat -> res A) (r : A) : Prop :=
  forall fuel, f fuel = if fuel <? n then NoFuel else Ret r.

(** the grammar has at least one sentence *)
Definition nonempty_language (c : pcfg) (w : wrapped_root) (g0 : sym) : Prop :=
  exists x, sentence c w g0 x /\ Forall (terminal (c_rules c)) x.

(** [x] picks one of the lexer's terminals for each character *)
Definition lexes (terminals : nat -> list sym) (input : list nat) (x : list sym) : Prop :=
  Forall2 (fun ch s => In s (terminals ch)) input x.
