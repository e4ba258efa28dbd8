(** Wasm: model of the web front end, /repo/gearley-wasm/src/lib.rs.

    Texts are lists of Unicode scalar values, as numbers.  The crates that read a grammar
    (cfg-load) and cut C text into tokens (c_lexer_logos) are not in /repo: they are
    parameters.  The log is a list of messages. *)
From Coq Require Import List Arith Bool String Ascii.
From Verif Require Import Base Grammar DefaultGrammar Forest Recognizer Parse.
Import ListNotations.
Local Open Scope res_scope.

Definition text := list nat.

(** the text of a string literal *)
Definition lit (s : string) : text := map nat_of_ascii (list_ascii_of_string s).

Fixpoint text_eqb (a b : text) : bool :=
  match a, b with
  | [], [] => true
  | x :: a', y :: b' => Nat.eqb x y && text_eqb a' b'
  | _, _ => false
  end.

(** [str::split(" ")] (lib.rs:256): cut at every space; the empty text is one empty word. *)
Fixpoint split (s : text) : list text :=
  match s with
  | [] => [[]]
  | ch :: rest =>
      if Nat.eqb ch 32 then [] :: split rest
      else match split rest with
           | word :: words => (ch :: word) :: words
           | [] => [[ch]]
           end
  end.

(** lib.rs:103-218: the tokens named in the table of [c_lexer]; [OtherToken] stands for
    every token that only the last line [_ => None] covers (AUTO, ALIGNAS, ALIGNOF, ATOMIC,
    GENERIC, NORETURN, StaticAssert, ThreadLocal, ...). *)
Inductive ctoken :=
| LBrace | RBrace | LParen | RParen | LBracket | RBracket | Semicolon | Assign | Lt | Gt
| Minus | Tilde | Exclamation | Plus | Multi | Slash | Colon | QuestionMark | Comma | Dot
| SingleAnd | InclusiveOr | ExclusiveOr | Mod | Identifier (name : text) | NumericLiteral (value : text)
| StringLiteral (value : text) | FuncName | SIZEOF | PtrOp | IncOp | DecOp | LeftOp | RightOp
| LeOp | GeOp | EqOp | NeOp | AndOp | OrOp | MulAssign | DivAssign | ModAssign | AddAssign
| SubAssign | LeftAssign | RightAssign | AndAssign | XorAssign | OrAssign | TypedefName | ELLIPSIS
| EnumerationConstant (name : text) | LineTerminator | EOF | TYPEDEF | EXTERN | STATIC | REGISTER
| INLINE | CONST | RESTRICT | VOLATILE | BOOL | CHAR | SHORT | INT | LONG | SIGNED | UNSIGNED
| FLOAT | DOUBLE | VOID | COMPLEX | IMAGINARY | STRUCT | UNION | ENUM | CASE | DEFAULT | IF | ELSE
| SWITCH | WHILE | DO | FOR | GOTO | CONTINUE | BREAK | RETURN | OtherToken (n : nat).

(** lib.rs:109-216: the closure given to [filter_map] *)
Definition c_word (t : ctoken) : option text :=
  match t with
  | LBrace => Some (lit "lbrace")
  | RBrace => Some (lit "rbrace")
  | LParen => Some (lit "lparen")
  | RParen => Some (lit "rparen")
  | LBracket => Some (lit "lbracket")
  | RBracket => Some (lit "rbracket")
  | Semicolon => Some (lit "semicolon")
  | Assign => Some (lit "equal")
  | Lt => Some (lit "langle")
  | Gt => Some (lit "rangle")
  | Minus => Some (lit "minus")
  | Tilde => Some (lit "tilde")
  | Exclamation => Some (lit "exclamation")
  | Plus => Some (lit "plus")
  | Multi => Some (lit "star")
  | Slash => Some (lit "slash")
  | Colon => Some (lit "colon")
  | QuestionMark => Some (lit "question")
  | Comma => Some (lit "comma")
  | Dot => Some (lit "dot")
  | SingleAnd => Some (lit "ampersand")
  | InclusiveOr => Some (lit "pipe")
  | ExclusiveOr => Some (lit "xor")
  | Mod => Some (lit "percent")
  | Identifier _ => Some (lit "identifier")
  | NumericLiteral _ => Some (lit "constant")
  | StringLiteral _ => Some (lit "string_literal")
  | FuncName => None
  | SIZEOF => Some (lit "sizeof_")
  | PtrOp => Some (lit "ptr_op")
  | IncOp => Some (lit "inc_op")
  | DecOp => Some (lit "dec_op")
  | LeftOp => Some (lit "left_op")
  | RightOp => Some (lit "right_op")
  | LeOp => Some (lit "le_op")
  | GeOp => Some (lit "ge_op")
  | EqOp => Some (lit "eq_op")
  | NeOp => Some (lit "ne_op")
  | AndOp => Some (lit "and_op")
  | OrOp => Some (lit "or_op")
  | MulAssign => Some (lit "mul_assign")
  | DivAssign => Some (lit "div_assign")
  | ModAssign => Some (lit "mod_assign")
  | AddAssign => Some (lit "add_assign")
  | SubAssign => Some (lit "sub_assign")
  | LeftAssign => Some (lit "left_assign")
  | RightAssign => Some (lit "right_assign")
  | AndAssign => Some (lit "and_assign")
  | XorAssign => Some (lit "xor_assign")
  | OrAssign => Some (lit "or_assign")
  | TypedefName => Some (lit "identifier")
  | ELLIPSIS => Some (lit "elipsis")
  | EnumerationConstant _ => None
  | LineTerminator => None
  | EOF => None
  | TYPEDEF => Some (lit "typedef")
  | EXTERN => Some (lit "extern_")
  | STATIC => Some (lit "static_")
  | REGISTER => Some (lit "register")
  | INLINE => Some (lit "inline")
  | CONST => Some (lit "const_")
  | RESTRICT => Some (lit "restrict")
  | VOLATILE => Some (lit "volatile")
  | BOOL => Some (lit "bool_")
  | CHAR => Some (lit "char_")
  | SHORT => Some (lit "short")
  | INT => Some (lit "int")
  | LONG => Some (lit "long")
  | SIGNED => Some (lit "signed")
  | UNSIGNED => Some (lit "unsigned")
  | FLOAT => Some (lit "float")
  | DOUBLE => Some (lit "double")
  | VOID => Some (lit "void")
  | COMPLEX => Some (lit "complex")
  | IMAGINARY => Some (lit "imaginary")
  | STRUCT => Some (lit "struct_")
  | UNION => Some (lit "union")
  | ENUM => Some (lit "enum_")
  | CASE => Some (lit "case")
  | DEFAULT => Some (lit "default")
  | IF => Some (lit "if_")
  | ELSE => Some (lit "else_")
  | SWITCH => Some (lit "switch")
  | WHILE => Some (lit "while_")
  | DO => Some (lit "do_")
  | FOR => Some (lit "for_")
  | GOTO => Some (lit "goto")
  | CONTINUE => Some (lit "continue_")
  | BREAK => Some (lit "break_")
  | RETURN => Some (lit "return_")
  | OtherToken _ => None
  end.

Fixpoint filter_map {A B} (f : A -> option B) (l : list A) : list B :=
  match l with
  | [] => []
  | x :: t => match f x with Some y => y :: filter_map f t | None => filter_map f t end
  end.

(** one logged message: those of lib.rs by name, those of the crates it calls by number *)
Inductive message := MBegin | MCLexerLoad | MLoaded | MFailedToLoad | MInner (n : nat).

(** lib.rs:42-73: whether [init_logger] has run, and LOG_BUFFER.  Until [init_logger] has
    run the log crate's maximum level is Off and [trace!] does nothing. *)
Record page := mkPage { p_logging : bool; p_buffer : list message }.

(** lib.rs:51-57 [StringLogger::log] *)
Definition say (ms : list message) (p : page) : page :=
  if p_logging p then mkPage true (p_buffer p ++ ms) else p.

(** lib.rs:66-69 [init_logger] *)
Definition init_logger (p : page) : page := mkPage true (p_buffer p).

(** lib.rs:71-73 [get_logs] *)
Definition get_logs (p : page) : list message * page := (p_buffer p, mkPage (p_logging p) []).

(** parse.rs:25-39 [ParseError], with the word itself *)
Inductive failure :=
| FParse (tokens : list sym) (i : nat)
| FTokenize (word : text)
| FFinish.

(** what [parse] returns *)
Inductive answer :=
| Logs (log : list message)                                  (* get_logs() *)
| FailedToFinish                                             (* "failed to finish the parse" *)
| FailedToParse (why : failure) (log : list message)         (* "Failed to parse:\n" ... *)
| FailedToLoad (why : nat) (log : list message)              (* "Failed to load:\n" ... *)
| UnknownMode.                                               (* "Unknown mode" *)

Section Wasm.
  Context {F N : Type}.
  Variable fo : forest_ops F N.
  Variable P : perf.
  (** Bocage::new *)
  Variable new_forest : dgrammar -> F.
  (** lib.rs:75-80 [load]: the name map of the Cfg and the DefaultGrammar, or a load error *)
  Variable load : text -> ((text -> option sym) * dgrammar) + nat.
  (** lib.rs:82-87 [loadAdvanced]: the computed lexer map and the DefaultGrammar *)
  Variable load_advanced : text -> ((nat -> list sym) * dgrammar) + nat.
  (** c_lexer_logos [Lexer::lex]; None is the [expect] of lib.rs:107 failing *)
  Variable lex : text -> option (list ctoken).
  (** what loading and parsing log, through cfg-load, gearley-default-grammar,
      gearley-recognizer and gearley-utils *)
  Variable load_log : text -> list message.
  Variable load_advanced_log : text -> list message.
  Variable parse_log : text -> list text -> list message.
  Variable tokenizing_log : text -> text -> list message.

  (** lib.rs:103-218 [c_lexer] *)
  Definition c_lexer (input : text) : res (list text) :=
    tokens <- unwrap (lex input) ;; Ret (filter_map c_word tokens).

  (** parse.rs:109-137 [parse_terminal_list] on words: Parse.v numbers the words, here each
      word's number is its position. *)
  Definition parse_words (fuel : nat) (g : dgrammar) (names : text -> option sym) (words : list text)
    : res (bool + failure) :=
    r <- parse_terminal_list fo P g fuel (new_forest g)
           (fun k => match nth_error words k with Some word => names word | None => None end)
           (seq 0 (List.length words)) ;;
    match r with
    | POk b => Ret (inl b)
    | PErrParse tokens i => Ret (inr (FParse tokens i))
    | PErrTokenize k => word <- unwrap (nth_error words k) ;; Ret (inr (FTokenize word))
    | PErrFinish => Ret (inr FFinish)
    end.

  (** parse.rs:139-185 [parse_tokenizing] *)
  Definition parse_chars (fuel : nat) (g : dgrammar) (lexer : nat -> list sym) (input : text)
    : res (bool + failure) :=
    r <- parse_tokenizing fo P g fuel (new_forest g) lexer input ;;
    match r with
    | POk b => Ret (inl b)
    | PErrParse tokens i => Ret (inr (FParse tokens i))
    | PErrTokenize _ => Panic
    | PErrFinish => Ret (inr FFinish)
    end.

  (** lib.rs:230-245, 257-271, 284-298: the answer to the result of a parse *)
  Definition report (r : bool + failure) (p : page) : answer * page :=
    match r with
    | inl true => let '(log, p) := get_logs p in (Logs log, p)
    | inl false => (FailedToFinish, p)
    | inr why => let '(log, p) := get_logs p in (FailedToParse why log, p)
    end.

  (** lib.rs:247-252, 273-278, 300-304: the answer to a load error *)
  Definition report_load (why : nat) (p : page) : answer * page :=
    let '(log, p) := get_logs p in (FailedToLoad why log, p).

  (** lib.rs:220-308 [parse] *)
  Definition web_parse (fuel : nat) (input grammar mode : text) (p : page) : res (answer * page) :=
    let p := say [MBegin] p in
    if text_eqb mode (lit "c-lexer") then
      let p := say [MCLexerLoad] p in
      let p := say (load_log grammar) (init_logger p) in
      match load grammar with
      | inl (names, g) =>
          let p := say [MLoaded] p in
          words <- c_lexer input ;;
          r <- parse_words fuel g names words ;;
          Ret (report r (say (parse_log grammar words) p))
      | inr why => Ret (report_load why (say [MFailedToLoad] p))
      end
    else if text_eqb mode (lit "basic") then
      let p := say (load_log grammar) (init_logger p) in
      match load grammar with
      | inl (names, g) =>
          r <- parse_words fuel g names (split input) ;;
          Ret (report r (say (parse_log grammar (split input)) p))
      | inr why => Ret (report_load why p)
      end
    else if text_eqb mode (lit "advanced") then
      let p := say (load_advanced_log grammar) (init_logger p) in
      match load_advanced grammar with
      | inl (lexer, g) =>
          r <- parse_chars fuel g lexer input ;;
          Ret (report r (say (tokenizing_log grammar input) p))
      | inr why => Ret (report_load why p)
      end
    else Ret (UnknownMode, p).
End Wasm.
