(** PropsWasm: tokens that name nonterminals, and what the web page's [parse] answers.
    Proofs are in PropLemmas8.v.

    Reading aid: WasmSpec.v says which answer an input deserves; [configured], [total],
    [mapped], [sentence] and [user_terminal] are as in PropsRecog.v.  [web_parse] takes as
    parameters what is not in /repo: reading a grammar text, cutting C text into tokens,
    and the messages logged by the called crates. *)
From Coq Require Import String List Arith Bool Lia.
From Verif Require Import Base Vec2d Item Grammar DefaultGrammar Forest ForestSpec Recognizer Parse Spec Chart CfgSpec ClientSpec
  SimpleBocage SimpleProofs SimpleTop ExampleGrammars Check Wasm WasmSpec PropLemmas8 PropsRecog PropsTrees.
Import ListNotations.
Local Open Scope res_scope.

(** ** C47: what the web page's [parse] answers *)

(** The answer "failed to finish the parse" is never given. *)
Theorem C47_never_failed_to_finish : forall F N (fo : forest_ops F N) P new_forest load load_advanced lex l1 l2 l3 l4
  fuel input grammar mode p a p',
  web_parse fo P new_forest load load_advanced lex l1 l2 l3 l4 fuel input grammar mode p = Ret (a, p') ->
  a <> FailedToFinish.
Proof. intros. eapply web_cases; eauto. Qed.
Print Assumptions C47_never_failed_to_finish.

(** An unknown mode is answered with "Unknown mode", whatever the input and the grammar. *)
Theorem C47_unknown_mode : forall F N (fo : forest_ops F N) P new_forest load load_advanced lex l1 l2 l3 l4
  fuel input grammar mode p, ~ known_mode mode ->
  exists p', web_parse fo P new_forest load load_advanced lex l1 l2 l3 l4 fuel input grammar mode p = Ret (UnknownMode, p').
Proof. exact @web_unknown. Qed.
Print Assumptions C47_unknown_mode.

(** A grammar that cannot be read is answered with its load error, whatever the input. *)
Theorem C47_load_error : forall F N (fo : forest_ops F N) P new_forest load load_advanced lex l1 l2 l3 l4
  fuel input grammar why p,
  let web := web_parse fo P new_forest load load_advanced lex l1 l2 l3 l4 fuel input grammar in
  (load grammar = inr why ->
   exists log p1 log2 p2, web (lit "basic") p = Ret (FailedToLoad why log, p1) /\
     web (lit "c-lexer") p = Ret (FailedToLoad why log2, p2)) /\
  (load_advanced grammar = inr why ->
   exists log p1, web (lit "advanced") p = Ret (FailedToLoad why log, p1)).
Proof. exact @web_load_error. Qed.
Print Assumptions C47_load_error.

(** Mode "basic": the input is cut into words at single spaces; the answer is the log
    exactly if the words name a sentence, the first unknown word if there is one, and
    "failed to get finished node" otherwise.  It never panics. *)
Theorem C47_basic : forall F N (fo : forest_ops F N) P new_forest load load_advanced lex l1 l2 l3 l4
  c nsyms w d0 g0 g names grammar input,
  configured fo (new_forest g) P c nsyms w d0 g0 g -> load grammar = inl (names, g) ->
  (forall words tokens, words_of input words -> named names words tokens ->
     exists syms, mapped g tokens syms /\ forall s, In s syms -> user_terminal c nsyms w s) ->
  exists n, forall p, exists a p',
    total n (fun fuel => web_parse fo P new_forest load load_advanced lex l1 l2 l3 l4 fuel input grammar (lit "basic") p) (a, p') /\
    exists words, words_of input words /\ deserved c w g0 g names words a.
Proof. exact @web_basic. Qed.
Print Assumptions C47_basic.

(** There is one way to cut an input into words. *)
Theorem C47_words_unique : forall input, exists words, words_of input words /\
  forall words', words_of input words' -> words' = words.
Proof. intros input. exists (split input). split; [apply split_words|]. intros. now apply words_of_split. Qed.
Print Assumptions C47_words_unique.

(** Mode "c-lexer": the same about the names of those tokens that have one in the table. *)
Theorem C47_c_lexer : forall F N (fo : forest_ops F N) P new_forest load load_advanced lex l1 l2 l3 l4
  c nsyms w d0 g0 g names grammar input tokens,
  configured fo (new_forest g) P c nsyms w d0 g0 g -> load grammar = inl (names, g) -> lex input = Some tokens ->
  (forall toks, named names (filter_map c_word tokens) toks ->
     exists syms, mapped g toks syms /\ forall s, In s syms -> user_terminal c nsyms w s) ->
  exists n, forall p, exists a p',
    total n (fun fuel => web_parse fo P new_forest load load_advanced lex l1 l2 l3 l4 fuel input grammar (lit "c-lexer") p) (a, p') /\
    deserved c w g0 g names (filter_map c_word tokens) a.
Proof. exact @web_c_lexer. Qed.
Print Assumptions C47_c_lexer.

(** Mode "advanced": the log exactly if some choice of one terminal for each character is a
    sentence; a parse error names the first character after which no choice is viable. *)
Theorem C47_advanced : forall F N (fo : forest_ops F N) P new_forest load load_advanced lex l1 l2 l3 l4
  c nsyms w d0 g0 g lexer terminals grammar input,
  configured fo (new_forest g) P c nsyms w d0 g0 g -> load_advanced grammar = inl (lexer, g) ->
  productive (c_rules c) -> nonempty_language c w g0 ->
  (forall ch, In ch input -> mapped g (lexer ch) (terminals ch) /\ forall s, In s (terminals ch) -> user_terminal c nsyms w s) ->
  exists n, forall p,
    (forall fuel, fuel < n -> web_parse fo P new_forest load load_advanced lex l1 l2 l3 l4 fuel input grammar (lit "advanced") p = NoFuel) /\
    forall fuel, n <= fuel -> exists a p',
      web_parse fo P new_forest load load_advanced lex l1 l2 l3 l4 fuel input grammar (lit "advanced") p = Ret (a, p') /\
      deserved_chars c nsyms w g0 lexer terminals input a.
Proof. exact @web_advanced. Qed.
Print Assumptions C47_advanced.

(** *** a page that offers the grammar a^n b^n *)
Definition web_names (x : text) : option sym :=
  if text_eqb x (lit "a") then Some 4 else if text_eqb x (lit "b") then Some 5
  else if text_eqb x (lit "lparen") then Some 4 else if text_eqb x (lit "rparen") then Some 5
  else if text_eqb x (lit "S") then Some 3 else None.
Definition web_load (grammar : text) : ((text -> option sym) * dgrammar) + nat :=
  if text_eqb grammar (lit "anbn") then inl (web_names, anbn_dg) else inr 0.
Definition web_lexer (ch : nat) : list sym := if Nat.eqb ch 97 then [4] else if Nat.eqb ch 98 then [5] else if Nat.eqb ch 63 then [4; 5] else [].
Definition web_load_advanced (grammar : text) : ((nat -> list sym) * dgrammar) + nat :=
  if text_eqb grammar (lit "anbn") then inl (web_lexer, anbn_dg) else inr 1.
(** a lexer for brackets and the word auto, written @ *)
Fixpoint web_lex (input : text) : option (list ctoken) :=
  match input with
  | [] => Some []
  | ch :: rest =>
      match web_lex rest with
      | None => None
      | Some l => if Nat.eqb ch 40 then Some (LParen :: l) else if Nat.eqb ch 41 then Some (RParen :: l)
                  else if Nat.eqb ch 64 then Some (OtherToken 0 :: l) else None
      end
  end.
Definition web_forest (g : dgrammar) : bocage := new_bocage (g_forest_info g).
Definition page_parse (fuel : nat) (input grammar mode : string) (p : page) : res (answer * page) :=
  web_parse simple_forest default_perf web_forest web_load web_load_advanced web_lex
    (fun _ => [MInner 1]) (fun _ => [MInner 2]) (fun _ _ => [MInner 3]) (fun _ _ => [MInner 4]) fuel
    (lit input) (lit grammar) (lit mode) p.
Definition fresh : page := mkPage false [].

Lemma web_configured : configured simple_forest (web_forest anbn_dg) default_perf anbn 6 wrap 0 6 anbn_dg.
Proof.
  constructor; [|exact (cf_leo _ _ _ _ _ _ _ _ _ anbn_configured)|exact (cf_grammar _ _ _ _ _ _ _ _ _ anbn_configured)].
  exists simple_ok. split; [exact simple_usable|]. now destruct (new_at (g_forest_info anbn_dg) (web_forest anbn_dg) eq_refl) as (_ & H & _).
Qed.

Lemma web_words : forall words tokens, (forall x, In x words -> In x [lit "a"; lit "b"; lit "lparen"; lit "rparen"]) ->
  named web_names words tokens -> exists syms, mapped anbn_dg tokens syms /\ forall s, In s syms -> user_terminal anbn 6 wrap s.
Proof.
  intros words tokens Hw H. exists tokens. split; [apply anbn_mapped|]. intros s Hs. apply anbn_user.
  induction H as [|x t l l' E _ IH]; [destruct Hs|]. destruct Hs as [<-|Hs].
  - assert (Hx : In x [lit "a"; lit "b"; lit "lparen"; lit "rparen"]) by (apply Hw; now left).
    destruct Hx as [<-|[<-|[<-|[<-|[]]]]]; vm_compute in E; injection E; auto.
  - apply IH; [|exact Hs]. intros y Hy. apply Hw. now right.
Qed.

Example C47_example :
  configured simple_forest (web_forest anbn_dg) default_perf anbn 6 wrap 0 6 anbn_dg /\
  (forall words tokens, words_of (lit "a a b b") words -> named web_names words tokens ->
     exists syms, mapped anbn_dg tokens syms /\ forall s, In s syms -> user_terminal anbn 6 wrap s) /\
  page_parse 50 "a a b b" "anbn" "basic" fresh = Ret (Logs [MInner 1; MInner 3], mkPage true []) /\
  page_parse 50 "a a b" "anbn" "basic" fresh = Ret (FailedToParse FFinish [MInner 1; MInner 3], mkPage true []) /\
  page_parse 50 "a x  y" "anbn" "basic" fresh = Ret (FailedToParse (FTokenize (lit "x")) [MInner 1; MInner 3], mkPage true []) /\
  page_parse 50 "" "anbn" "basic" fresh = Ret (FailedToParse (FTokenize []) [MInner 1; MInner 3], mkPage true []) /\
  page_parse 50 "(())" "anbn" "c-lexer" fresh = Ret (Logs [MInner 1; MLoaded; MInner 3], mkPage true []) /\
  page_parse 50 "(()" "anbn" "c-lexer" fresh = Ret (FailedToParse FFinish [MInner 1; MLoaded; MInner 3], mkPage true []) /\
  page_parse 50 "a??b" "anbn" "advanced" fresh = Ret (Logs [MInner 2; MInner 4], mkPage true []) /\
  page_parse 50 "ab?a" "anbn" "advanced" fresh = Ret (FailedToParse (FParse [4; 5] 2) [MInner 2; MInner 4], mkPage true []) /\
  page_parse 50 "a b" "other" "basic" fresh = Ret (FailedToLoad 0 [MInner 1], mkPage true []) /\
  page_parse 50 "a b" "anbn" "BASIC" fresh = Ret (UnknownMode, fresh).
Proof.
  split; [exact web_configured|]. split; [|repeat split; vm_compute; reflexivity].
  intros words tokens Hw. apply web_words. apply words_of_split in Hw. subst words. intros x Hx. vm_compute in Hx. vm_compute. intuition.
Qed.

(** An input that the C lexer cannot cut into tokens makes [parse] panic. *)
Example C47_lexer_panics : page_parse 50 "a" "anbn" "c-lexer" fresh = Panic.
Proof. vm_compute. reflexivity. Qed.

(** ** C48: tokens that name nonterminals *)

(** What holds: tokens may be any ordinary symbols; [parse] never panics and accepts only
    sequences derived from the start symbol.  If all tokens but the first are terminals it
    accepts exactly those.  Missing: a nonterminal token is not rejected as such. *)
Theorem C48_sentential_partial : forall F N (fo : forest_ops F N) f0 P c nsyms w d0 g0 g,
  configured fo f0 P c nsyms w d0 g0 g ->
  forall tokens syms, mapped g tokens syms -> (forall s, In s syms -> s < nsyms) ->
  exists n r, total n (fun fuel => st <- r_new g f0 ;; '(r, _) <- parse fo P g fuel st tokens ;; Ret r) r /\
    (r = POk true -> sentence c w g0 syms) /\
    ((forall s, In s (tl syms) -> terminal (c_rules c) s) -> sentence c w g0 syms -> r = POk true).
Proof. exact @P_parse_sentential. Qed.
Print Assumptions C48_sentential_partial.

(** In every grammar the start symbol itself is accepted as input. *)
Theorem C48_start_symbol_accepted : forall F N (fo : forest_ops F N) f0 P c nsyms w d0 g0 g,
  configured fo f0 P c nsyms w d0 g0 g ->
  forall t, mapped g [t] [w_inner w] -> w_inner w < nsyms ->
  (exists r, In r (c_rules c) /\ p_lhs r = g0 /\ p_rhs r = [w_sof w; w_inner w]) ->
  exists n, total n (fun fuel => st <- r_new g f0 ;; '(r, _) <- parse fo P g fuel st [t] ;; Ret r) (POk true).
Proof. exact @P_start_symbol. Qed.
Print Assumptions C48_start_symbol_accepted.

(** Only sequences of terminals are accepted: refuted. *)
Theorem C48_refuted : exists c nsyms w d0 g0 g tokens,
  configured null_forest tt default_perf c nsyms w d0 g0 g /\ mapped g tokens tokens /\
  ~ Forall (terminal (c_rules c)) tokens /\
  exists st st', r_new g tt = Ret st /\ parse null_forest default_perf g 50 st tokens = Ret (POk true, st').
Proof.
  exists anbn, 6, wrap, 0, 6, anbn_dg, [4; 3; 5]. split; [exact anbn_configured|]. split; [apply anbn_mapped|]. split.
  - intros H. inversion H as [|? ? _ H1]; subst. inversion H1 as [|? ? H2 _]; subst. apply is_terminal_spec in H2. discriminate.
  - do 2 eexists. split; [vm_compute; reflexivity|]. vm_compute. reflexivity.
Qed.
Print Assumptions C48_refuted.

Example C48_example : mapped anbn_dg [3] [w_inner wrap] /\ w_inner wrap < 6 /\
  (exists r, In r (c_rules anbn) /\ p_lhs r = 6 /\ p_rhs r = [w_sof wrap; w_inner wrap]) /\
  ~ terminal (c_rules anbn) (w_inner wrap) /\
  page_parse 50 "a S b" "anbn" "basic" fresh = Ret (Logs [MInner 1; MInner 3], mkPage true []).
Proof.
  split; [apply anbn_mapped|]. split; [cbn; lia|].
  split; [eexists; split; [right; right; right; left; reflexivity|split; reflexivity]|].
  split; [intros H; apply is_terminal_spec in H; discriminate|]. vm_compute. reflexivity.
Qed.

(** ** C49: mode "c-lexer" judges the whole input *)

(** What holds: the words of the tokens that have a name in the table are judged (C47).
    Inputs that differ only in other tokens are answered alike, up to the log. *)
Theorem C49_named_tokens_partial : forall F N (fo : forest_ops F N) P new_forest load load_advanced lex l1 l2 l3 l4
  fuel a b tokens tokens' grammar p q,
  lex a = Some tokens -> lex b = Some tokens' -> filter_map c_word tokens = filter_map c_word tokens' ->
  let web := web_parse fo P new_forest load load_advanced lex l1 l2 l3 l4 fuel in
  match web a grammar (lit "c-lexer") p, web b grammar (lit "c-lexer") q with
  | Ret (x, _), Ret (y, _) => kind_of x = kind_of y
  | Panic, Panic | NoFuel, NoFuel => True
  | _, _ => False
  end.
Proof. exact @web_dropped. Qed.
Print Assumptions C49_named_tokens_partial.

(** Which tokens those are: function names, enumeration constants, ends of lines and of the
    file, and tokens the table does not list are skipped, and no others.  Two tokens have
    the same name only if they are of the same kind.  Every name is a terminal of the C
    grammar of the page, and every terminal of that grammar but two is the name of a token. *)
Theorem C49_table_partial :
  (forall t, c_word t = None <-> skipped t) /\
  (forall t u x, c_word t = Some x -> c_word u = Some x -> same_kind t u) /\
  (forall t x, c_word t = Some x -> exists name, x = lit name /\ In name c_terminals) /\
  (forall name, In name c_terminals -> (exists t, c_word t = Some (lit name)) \/ name = "auto"%string \/ name = "error"%string).
Proof. exact (conj table_skipped (conj table_kinds (conj table_names table_covers))). Qed.
Print Assumptions C49_table_partial.

(** If the answer is the log, every token of the input is a word of the sentence: refuted. *)
Theorem C49_refuted : exists input tokens log p',
  web_lex (lit input) = Some tokens /\ page_parse 50 input "anbn" "c-lexer" fresh = Ret (Logs log, p') /\
  ~ Forall (fun t => c_word t <> None) tokens.
Proof.
  exists "(@())"%string. do 3 eexists. split; [vm_compute; reflexivity|]. split; [vm_compute; reflexivity|].
  intros H. inversion H as [|? ? _ H1]; subst. inversion H1 as [|? ? H2 _]; subst. now apply H2.
Qed.
Print Assumptions C49_refuted.

Example C49_example : filter_map c_word [LParen; OtherToken 0; LParen] = filter_map c_word [LParen; LParen] /\
  page_parse 50 "(@())" "anbn" "c-lexer" fresh = page_parse 50 "(())" "anbn" "c-lexer" fresh.
Proof. split; vm_compute; reflexivity. Qed.

(** ** C50: the answer depends only on the arguments *)

(** What holds: earlier calls never change what is said about the input; they change only
    the log. *)
Theorem C50_kind_partial : forall F N (fo : forest_ops F N) P new_forest load load_advanced lex l1 l2 l3 l4
  fuel input grammar mode p q,
  let web := web_parse fo P new_forest load load_advanced lex l1 l2 l3 l4 fuel input grammar mode in
  match web p, web q with
  | Ret (a, _), Ret (b, _) => kind_of a = kind_of b
  | Panic, Panic | NoFuel, NoFuel => True
  | _, _ => False
  end.
Proof. exact @web_kind. Qed.
Print Assumptions C50_kind_partial.

(** After a first call, as long as all modes are known, every call answers as the second
    call of a page does: the answer, with its log, depends only on its arguments. *)
Theorem C50_log_partial : forall F N (fo : forest_ops F N) P new_forest load load_advanced lex l1 l2 l3 l4
  fuel x xs p a l p',
  let call := fun x p => web_parse fo P new_forest load load_advanced lex l1 l2 l3 l4 fuel (fst (fst x)) (snd (fst x)) (snd x) p in
  (forall y, In y (x :: xs) -> known_mode (snd y)) ->
  history call (x :: xs) p (a :: l) p' ->
  p' = mkPage true [] /\ Forall2 (fun y b => call y (mkPage true []) = Ret (b, mkPage true [])) xs l.
Proof. exact @web_history. Qed.
Print Assumptions C50_log_partial.

(** What exactly the page adds to the log: a call hands over what earlier calls with unknown
    modes left, then, unless it is the first call with a known mode, the messages given
    before loading, then its own, which are those of the same call on a fresh page. *)
Theorem C50_log_exactly_partial : forall F N (fo : forest_ops F N) P new_forest load load_advanced lex l1 l2 l3 l4
  fuel input grammar mode p a p',
  let web := web_parse fo P new_forest load load_advanced lex l1 l2 l3 l4 fuel input grammar mode in
  web p = Ret (a, p') ->
  (known_mode mode -> exists own q, web (mkPage false []) = Ret (own, q) /\
     log_of a = p_buffer p ++ (if p_logging p then MBegin :: (if text_eqb mode (lit "c-lexer") then [MCLexerLoad] else []) else []) ++ log_of own /\
     p' = mkPage true []) /\
  (~ known_mode mode -> a = UnknownMode /\ p' = mkPage (p_logging p) (p_buffer p ++ if p_logging p then [MBegin] else [])).
Proof. exact @web_log. Qed.
Print Assumptions C50_log_exactly_partial.

(** Equal calls get equal answers: refuted, by the first call of a page and by a call with
    an unknown mode. *)
Theorem C50_refuted :
  (exists a b p p', page_parse 50 "a b" "anbn" "basic" fresh = Ret (a, p) /\
     page_parse 50 "a b" "anbn" "basic" p = Ret (b, p') /\ a <> b) /\
  (exists a b p p1 p2 p3, page_parse 50 "a b" "anbn" "basic" p = Ret (a, p1) /\
     page_parse 50 "" "" "C" p1 = Ret (UnknownMode, p2) /\
     page_parse 50 "a b" "anbn" "basic" p2 = Ret (b, p3) /\ a <> b /\ p = mkPage true []).
Proof.
  split.
  - do 4 eexists. split; [vm_compute; reflexivity|]. split; [vm_compute; reflexivity|]. discriminate.
  - do 2 eexists. exists (mkPage true []). do 3 eexists. split; [vm_compute; reflexivity|].
    split; [vm_compute; reflexivity|]. split; [vm_compute; reflexivity|]. split; [discriminate|reflexivity].
Qed.
Print Assumptions C50_refuted.

Example C50_example :
  let call := fun x p => web_parse simple_forest default_perf web_forest web_load web_load_advanced web_lex
    (fun _ => [MInner 1]) (fun _ => [MInner 2]) (fun _ _ => [MInner 3]) (fun _ _ => [MInner 4]) 50
    (fst (fst x)) (snd (fst x)) (snd x) p in
  let calls := [(lit "a b", lit "anbn", lit "basic"); (lit "()", lit "anbn", lit "c-lexer"); (lit "a", lit "none", lit "advanced")] in
  (forall y, In y calls -> known_mode (snd y)) /\
  history call calls fresh
    [Logs [MInner 1; MInner 3]; Logs [MBegin; MCLexerLoad; MInner 1; MLoaded; MInner 3]; FailedToLoad 1 [MBegin; MInner 2]]
    (mkPage true []).
Proof.
  cbv zeta. split.
  - intros y [<-|[<-|[<-|[]]]]; unfold known_mode; cbn [snd]; auto.
  - repeat (eapply h_cons; [vm_compute; reflexivity|]). apply h_nil.
Qed.
