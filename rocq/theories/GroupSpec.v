(** GroupSpec: what a client sees who asks for the groups of completed items. *)
From Coq Require Import List Arith Bool Sorted.
From Verif Require Import Base Vec2d Item Grammar BitMatrix DefaultGrammar Forest Recognizer Drive.
Import ListNotations.
Local Open Scope res_scope.

(** A group: its origin, its symbol and the dots of its items, in the order in which
    [next_summand] gives them. *)
Definition group : Type := ((nat * sym) * list nat)%type.

Section Groups.
  Context {F N : Type}.
  Variable fo : forest_ops F N.
  Variable P : perf.
  Variable g : dgrammar.
  Notation state := (rstate F N).

  (** recognizer.rs:695-708: the items [next_summand] gives until it answers [None] *)
  Fixpoint items_of (n : nat) (origin : nat) (lhs : sym) (st : state) : res (list nat) :=
    '(o, st) <- next_summand g origin lhs st ;;
    match o with
    | None => Ret []
    | Some it =>
        match n with
        | 0 => NoFuel
        | S n' => l <- items_of n' origin lhs st ;; Ret (it_dot it :: l)
        end
    end.

  (** recognizer.rs:656-691: the client asks [next_sum] until it answers [None], and
      completes the groups selected by [keep] and skips the others *)
  Fixpoint groups (keep : sym -> bool) (fuel : nat) (st : state) : res (list group) :=
    o <- next_sum g st ;;
    match o with
    | None => Ret []
    | Some (origin, lhs) =>
        match fuel with
        | 0 => NoFuel
        | S fuel' =>
            dots <- items_of (length (r_complete st)) origin lhs st ;;
            st <- (if keep lhs then complete_entire_sum fo P g origin lhs st
                   else skip_entire_sum g origin lhs st) ;;
            rest <- groups keep fuel' st ;;
            Ret (((origin, lhs), dots) :: rest)
        end
    end.

  (** the groups of the location [loc] read after the locations [before]; [None] if
      reading stopped before *)
  Definition groups_at (fuel : nat) (before : list location) (loc : location) (st : state) : res (option (list group)) :=
    '(ok, st) <- feed_all fo P g fuel before st ;;
    if ok then
      st <- scan_list fo P g (l_toks loc) (set_hint_field (begin_earleme P st) (l_hint loc)) ;;
      l <- groups (l_keep loc) fuel st ;;
      Ret (Some l)
    else Ret None.
End Groups.

(** [a] comes after [b]: smaller origin, or the same origin and a smaller symbol *)
Definition after (b a : group) : Prop :=
  fst (fst a) < fst (fst b) \/ fst (fst a) = fst (fst b) /\ snd (fst a) < snd (fst b).

(** A well-formed list of groups: origins descend, symbols descend within an origin,
    so no group comes twice; each group has items, all of them of rules of its
    symbol. *)
Definition descending (c : list prule) (l : list group) : Prop :=
  StronglySorted after l /\
  forall o A dots, In ((o, A), dots) l ->
    dots <> [] /\ forall d, In d dots -> exists r, nth_error c d = Some r /\ p_lhs r = A.

(** ** Which items are completed at a location *)
Section Offered.
  Variable c : list prule.
  (** symbols from [nsyms] on are generated by binarization *)
  Variable nsyms : nat.
  (** [waiting o d i]: set [o] holds a medial item with dot [d] and origin [i] *)
  Variable waiting : nat -> nat -> nat -> Prop.
  (** [predicted o A]: [A] is predicted at set [o] *)
  Variable predicted : nat -> sym -> Prop.
  (** the set at which the tokens start, and the tokens *)
  Variable last : nat.
  Variable toks : list sym.
  Variable keep : sym -> bool.

  (** a generated symbol is predicted with the left-hand side of the rule it begins *)
  Inductive expected (o : nat) : sym -> Prop :=
  | ex_ordinary : forall A, A < nsyms -> predicted o A -> expected o A
  | ex_generated : forall A r, nsyms <= A -> In r c -> nth_error (p_rhs r) 0 = Some A -> expected o (p_lhs r) -> expected o A.

  (** [recognized o A]: [A] spans from set [o] to here, and its group was accepted;
      [offered d o]: the rule with dot [d] spans from set [o] to here *)
  Inductive recognized : nat -> sym -> Prop :=
  | rec_token : forall s, In s toks -> recognized last s
  | rec_group : forall d o r, offered d o -> nth_error c d = Some r -> keep (p_lhs r) = true -> recognized o (p_lhs r)
  with offered : nat -> nat -> Prop :=
  | off_second : forall d o i r B C, recognized o C -> waiting o d i -> nth_error c d = Some r -> p_rhs r = [B; C] -> offered d i
  | off_only : forall d o r B, recognized o B -> nth_error c d = Some r -> p_rhs r = [B] -> expected o (p_lhs r) -> offered d o.
End Offered.

(** the medial items and predictions of a state at which a location was begun *)
Definition waiting {F N} (st : rstate F N) (o d i : nat) : Prop :=
  exists set it, v_index (r_medial st) o = Ret set /\ In it set /\ it_dot it = d /\ it_origin it = i.
Definition predicted_at {F N} (st : rstate F N) (o : nat) (A : sym) : Prop :=
  exists row, nth_error (r_predicted st) o = Some row /\ nth_error row A = Some true.

(** [d] is the dot of an item of the groups [l] with origin [o] *)
Definition listed (l : list group) (d o : nat) : Prop := exists A dots, In ((o, A), dots) l /\ In d dots.

(** a location whose hint and tokens are symbols of the grammar *)
Definition acceptable (c : pcfg) (nsyms : nat) (l : location) : Prop :=
  (forall s, l_hint l = Some s -> s < nsyms) /\ forall s v, In (s, v) (l_toks l) -> s < c_num_syms c.
