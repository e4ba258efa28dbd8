(** Parse: model of /repo/gearley-utils/src/parse.rs. *)
From Coq Require Import List Arith Bool.
From Verif Require Import Base Vec2d Item Grammar DefaultGrammar Forest Recognizer.
Import ListNotations.
Local Open Scope res_scope.

(** parse.rs:25-39 [ParseError] and [Result<bool, ParseError>]; the constant
    messages are omitted. *)
Inductive parse_result :=
| POk (b : bool)
| PErrParse (tokens : list sym) (i : nat)
| PErrTokenize (word : nat)
| PErrFinish.

Section Parse.
  Context {F N : Type}.
  Variable fo : forest_ops F N.
  Variable P : perf.
  Variable g : dgrammar.
  Notation state := (rstate F N).

  (** parse.rs:67-75: begin, scan SOF, end. [true] if it succeeded. *)
  Definition read_sof (fuel : nat) (st : state) : res (bool * state) :=
    st <- scan fo P g (begin_earleme P st) (g_sof_sym g) 0 ;;
    end_earleme fo P g fuel st.

  (** parse.rs:77-97: the token loop; [i] is the index of the first token of the list. *)
  Fixpoint parse_loop (fuel : nat) (i : nat) (tokens : list sym) (st : state)
    : res (option parse_result * state) :=
    match tokens with
    | [] => Ret (None, st)
    | token :: rest =>
        let st := begin_earleme P st in
        st <- (match rest with
               | t :: _ =>
                   o <- to_internal g t ;; s <- unwrap o ;; Ret (set_hint st s)
               | [] => Ret (clear_hint st)
               end) ;;
        o <- to_internal g token ;;
        s <- unwrap o ;;
        st <- scan fo P g st s i ;;
        '(ok, st) <- end_earleme fo P g fuel st ;;
        if ok then parse_loop fuel (S i) rest st
        else Ret (Some (PErrParse [token] i), st)
    end.

  (** parse.rs:67-105 [parse] *)
  Definition parse (fuel : nat) (st : state) (tokens : list sym) : res (parse_result * state) :=
    '(ok, st) <- read_sof fuel st ;;
    if ok then
      '(r, st) <- parse_loop fuel 0 tokens st ;;
      match r with
      | Some e => Ret (e, st)
      | None => b <- is_finished fo g st ;; Ret (POk b, st)
      end
    else Ret (PErrParse [g_sof_sym g] 0, st).

  (** parse.rs:109-137 [parse_terminal_list].  [forest] is the new bocage;
      [name_map] is [cfg.sym_source().name_map()]; words are numbers. *)
  Fixpoint tokenize (name_map : nat -> option sym) (words : list nat) : list sym + nat :=
    match words with
    | [] => inl []
    | w :: t =>
        match name_map w with
        | None => inr w
        | Some s => match tokenize name_map t with
                    | inl l => inl (s :: l)
                    | inr e => inr e
                    end
        end
    end.

  Definition parse_terminal_list (fuel : nat) (forest : F) (name_map : nat -> option sym)
             (words : list nat) : res parse_result :=
    st <- r_new g forest ;;
    match tokenize name_map words with
    | inr w => Ret (PErrTokenize w)
    | inl tokens =>
        '(result, st) <- parse fuel st tokens ;;
        fin <- finished_node fo g st ;;
        match fin with
        | None => Ret PErrFinish
        | Some _ => Ret result
        end
    end.

  (** parse.rs:139-185 [parse_tokenizing]. [lexer] is [loaded.lexer_map.get];
      characters are numbers. *)
  Definition scan_all (value : nat) (st : state) (terminals : list sym) : res state :=
    foldM (fun st t =>
             o <- to_internal g t ;; s <- unwrap o ;; scan fo P g st s value) terminals st.

  Fixpoint tokenizing_loop (fuel : nat) (lexer : nat -> list sym) (i : nat) (input : list nat)
           (st : state) : res (option parse_result * state) :=
    match input with
    | [] => Ret (None, st)
    | ch :: rest =>
        st <- scan_all ch (begin_earleme P st) (lexer ch) ;;
        '(ok, st) <- end_earleme fo P g fuel st ;;
        if ok then tokenizing_loop fuel lexer (S i) rest st
        else Ret (Some (PErrParse (lexer ch) i), st)
    end.

  Definition parse_tokenizing (fuel : nat) (forest : F) (lexer : nat -> list sym)
             (input : list nat) : res parse_result :=
    st <- r_new g forest ;;
    '(ok, st) <- read_sof fuel st ;;
    if ok then
      '(r, st) <- tokenizing_loop fuel lexer 0 input st ;;
      match r with
      | Some e => Ret e
      | None =>
          result <- is_finished fo g st ;;
          fin <- finished_node fo g st ;;
          match fin with
          | None => Ret PErrFinish
          | Some _ => Ret (POk result)
          end
      end
    else Ret (PErrParse [g_sof_sym g] 0).
End Parse.
