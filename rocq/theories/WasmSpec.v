(** WasmSpec: what users of the web page rely on. *)
From Coq Require Import List Arith String.
From Verif Require Import Base Grammar DefaultGrammar CfgSpec ClientSpec Wasm.
Import ListNotations.

(** the words with one space between each two *)
Fixpoint join (words : list text) : text :=
  match words with
  | [] => []
  | [word] => word
  | word :: rest => word ++ 32 :: join rest
  end.

(** [input] consists of [words], separated by single spaces *)
Definition words_of (input : text) (words : list text) : Prop :=
  words <> [] /\ (forall word, In word words -> ~ In 32 word) /\ input = join words.

(** [tokens] are the symbols named by [words] *)
Definition named (names : text -> option sym) (words : list text) (tokens : list sym) : Prop :=
  Forall2 (fun word s => names word = Some s) words tokens.

(** the answer that [words] deserve: the log if they form a sentence; otherwise a failure,
    which names the first unknown word if there is one *)
Definition deserved (c : pcfg) (w : wrapped_root) (g0 : sym) (g : dgrammar) (names : text -> option sym)
           (words : list text) (a : answer) : Prop :=
  match a with
  | Logs _ => exists tokens syms, named names words tokens /\ mapped g tokens syms /\ sentence c w g0 syms
  | FailedToParse FFinish _ =>
      exists tokens syms, named names words tokens /\ mapped g tokens syms /\ ~ sentence c w g0 syms
  | FailedToParse (FTokenize word) _ => exists before after,
      words = before ++ word :: after /\ names word = None /\ forall x, In x before -> names x <> None
  | _ => False
  end.

(** the same for a text read character by character *)
Definition deserved_chars (c : pcfg) (nsyms : nat) (w : wrapped_root) (g0 : sym)
           (lexer : nat -> list sym) (terminals : nat -> list sym) (input : text) (a : answer) : Prop :=
  match a with
  | Logs _ => exists x, lexes terminals input x /\ sentence c w g0 x
  | FailedToParse FFinish _ => (exists x, lexes terminals input x /\ viable c nsyms w g0 x) /\
      forall x, lexes terminals input x -> ~ sentence c w g0 x
  | FailedToParse (FParse toks i) _ => (exists ch, nth_error input i = Some ch /\ toks = lexer ch) /\
      (exists x, lexes terminals (firstn i input) x /\ viable c nsyms w g0 x) /\
      forall x, lexes terminals (firstn (S i) input) x -> ~ viable c nsyms w g0 x
  | _ => False
  end.

(** an answer without the log *)
Inductive kind := KLogs | KFailedToFinish | KFailedToParse (why : failure) | KFailedToLoad (why : nat) | KUnknownMode.
Definition kind_of (a : answer) : kind :=
  match a with
  | Logs _ => KLogs
  | FailedToFinish => KFailedToFinish
  | FailedToParse why _ => KFailedToParse why
  | FailedToLoad why _ => KFailedToLoad why
  | UnknownMode => KUnknownMode
  end.

(** the log that an answer hands over *)
Definition log_of (a : answer) : list message :=
  match a with
  | Logs log | FailedToParse _ log | FailedToLoad _ log => log
  | FailedToFinish | UnknownMode => []
  end.

Definition known_mode (mode : text) : Prop :=
  mode = lit "c-lexer" \/ mode = lit "basic" \/ mode = lit "advanced".

(** calls one after another on one page: what they answer, and the page afterwards *)
Inductive history (call : text * text * text -> page -> res (answer * page)) : list (text * text * text) -> page ->
  list answer -> page -> Prop :=
| h_nil : forall p, history call [] p [] p
| h_cons : forall x xs p a p1 l p', call x p = Ret (a, p1) -> history call xs p1 l p' ->
    history call (x :: xs) p (a :: l) p'.

(** The terminals of the C grammar that comes with the web page: the names of
    gearley-example-grammars/src/c/grammar.panini that are the left side of no rule. *)
Definition c_terminals : list string := [
  "add_assign"; "ampersand"; "and_assign"; "and_op"; "auto"; "bool_"; "break_"; "case"; "char_"; "colon";
  "comma"; "complex"; "const_"; "constant"; "continue_"; "dec_op"; "default"; "div_assign"; "do_"; "dot";
  "double"; "elipsis"; "else_"; "enum_"; "eq_op"; "equal"; "error"; "exclamation"; "extern_"; "float"; "for_";
  "ge_op"; "goto"; "identifier"; "if_"; "imaginary"; "inc_op"; "inline"; "int"; "langle"; "lbrace";
  "lbracket"; "le_op"; "left_assign"; "left_op"; "long"; "lparen"; "minus"; "mod_assign"; "mul_assign";
  "ne_op"; "or_assign"; "or_op"; "percent"; "pipe"; "plus"; "ptr_op"; "question"; "rangle"; "rbrace";
  "rbracket"; "register"; "restrict"; "return_"; "right_assign"; "right_op"; "rparen"; "semicolon"; "short";
  "signed"; "sizeof_"; "slash"; "star"; "static_"; "string_literal"; "struct_"; "sub_assign"; "switch";
  "tilde"; "typedef"; "union"; "unsigned"; "void"; "volatile"; "while_"; "xor"; "xor_assign"]%string.

(** the tokens the page does not pass on *)
Definition skipped (t : ctoken) : Prop :=
  t = FuncName \/ t = LineTerminator \/ t = EOF \/ (exists name, t = EnumerationConstant name) \/ exists n, t = OtherToken n.

(** the same kind of token, whatever its text; typedef names count as identifiers *)
Definition same_kind (t u : ctoken) : Prop :=
  t = u \/ ((t = TypedefName \/ exists x, t = Identifier x) /\ (u = TypedefName \/ exists y, u = Identifier y)) \/
  (exists x y, t = NumericLiteral x /\ u = NumericLiteral y) \/ exists x y, t = StringLiteral x /\ u = StringLiteral y.
