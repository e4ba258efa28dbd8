(** PropLemmas8: tokens that name nonterminals, and the web front end. *)
From Coq Require Import String List Arith Bool Lia.
From Verif Require Import Base BaseProofs Vec2d Item Grammar DefaultGrammar Forest ForestSpec Recognizer Drive ClientSpec
  Spec CfgSpec Chart ChartFacts Core3 Core4 Core5 Core6 Recog Sim RecogAny RecogFacts RowsInv Parse ParseFacts PropLemmas Wasm WasmSpec.
Import ListNotations.
Local Open Scope res_scope.

Lemma hinted_used : forall use xs sd j s, ehint (env_of (hinted use 0 xs) sd) j = Some s ->
  exists j' v, j = S j' /\ use j' = true /\ nth_error xs j = Some (s, v).
Proof.
  intros use xs sd [|j] s H; [discriminate|]. cbn in H. rewrite hinted_nth in H.
  destruct (nth_error xs j); [|discriminate]. cbn [l_hint] in H. destruct (use (0 + j)) eqn:Eu; [|discriminate].
  destruct (nth_error xs (S j)) as [[a b]|] eqn:E; [|discriminate]. injection H as <-. exists j, b. auto.
Qed.

Section Any.
  Context {F N : Type}.
  Variable fo : forest_ops F N.
  Variable f0 : F.
  Variable P : perf.
  Variables (c : pcfg) (nsyms : nat) (w : wrapped_root) (d0 : nat) (g0 : sym) (g : dgrammar).
  Hypothesis HC : configured fo f0 P c nsyms w d0 g0 g.
  Notation R := (c_rules c).

  Lemma P_parse_sentential : forall tokens syms, mapped g tokens syms -> (forall s, In s syms -> s < nsyms) ->
    exists n r, total n (fun fuel => st <- r_new g f0 ;; '(r, _) <- parse fo P g fuel st tokens ;; Ret r) r /\
      (r = POk true -> sentence c w g0 syms) /\
      ((forall s, In s (tl syms) -> terminal R s) -> sentence c w g0 syms -> r = POk true).
  Proof.
    destruct HC as [(ok & HU & Hok) Hleo HB]. intros tokens syms Hm Hs. pose proof (b_processed _ _ _ _ _ _ HB) as HP.
    destruct (new_state (N := N) ok P c nsyms w d0 g0 g HB f0 Hok) as (st0 & En & Hst & Hh & _).
    destruct (parse_any fo ok HU P c nsyms w d0 g0 g Hleo HB _ st0 tokens syms Hst ltac:(intros ? []) Hh Hm Hs)
      as (n & r & H1 & H2).
    exists n, r. split.
    { intros fuel. rewrite En. cbn [bind]. destruct (Nat.ltb_spec fuel n) as [H|H].
      - now rewrite (H1 fuel H).
      - destruct (H2 fuel H) as (st' & ->). reflexivity. }
    set (ys := (w_sof w, 0) :: numbered 0 syms). set (locs := hinted after0 0 ys).
    assert (Hlok : locs_ok nsyms (c_num_syms c) locs).
    { apply hinted_ok with (1 := HP). intros s v [E|Hin].
      - injection E as <- _. now destruct HP.
      - apply Hs. eapply numbered_in; eauto. }
    destruct (verdict_spec fo ok HU P c nsyms w d0 g0 g Hleo HB _ st0 locs Hst ltac:(intros ? []) Hlok ltac:(discriminate))
      as (n' & v & Hv & Hsnd & Hcpl).
    assert (Hrv : r = POk true <-> v = true).
    { set (fuel := Nat.max n n'). specialize (Hv fuel). destruct (H2 fuel ltac:(lia)) as (st' & Hp).
      pose proof (parse_feed fo P g fuel tokens syms st0 Hm Hh) as X. cbn zeta in X.
      rewrite (sof_sym c nsyms w d0 g0 g HB) in X. fold ys locs in X.
      assert (E : fuel <? n' = false) by (apply Nat.ltb_ge; lia). rewrite E in Hv. unfold verdict in Hv.
      destruct (feed_all fo P g fuel locs st0) as [[[] st2]| |]; cbn [bind] in Hv; try discriminate.
      - rewrite Hv in X. cbn [bind] in X. rewrite Hp in X. injection X as -> _. split; [congruence|intros ->; reflexivity].
      - injection Hv as <-. split; [|discriminate]. intros ->.
        destruct X as [(X & _)|(k & tok & _ & X & _)]; congruence. }
    split.
    - intros E. apply Hrv in E. rewrite <- (numbered_fst syms 0).
      apply (accepted_hinted c nsyms w d0 g0 HP after0 0). auto.
    - intros Ht Hse. rewrite <- (numbered_fst syms 0) in Hse.
      apply (accepted_hinted c nsyms w d0 g0 HP after0 0) in Hse. destruct Hse as (t & Hacc).
      apply Hrv. apply (Hcpl t Hacc). fold ys locs in Hacc. destruct Hacc as (Hpt & Hrd & _).
      unfold locs in Hrd. rewrite hinted_length in Hrd.
      pose proof (reads_single _ ys 0 (hinted_W after0 ys no_seed) _ _ Hrd eq_refl) as Hy.
      intros j s Hhint. unfold locs in Hhint.
      assert (X : exists k u, j = S (S k) /\ nth_error (numbered 0 syms) (S k) = Some (s, u)).
      { apply hinted_used in Hhint. destruct Hhint as (j' & u & -> & Hu & Hn).
        destruct j' as [|k]; [discriminate|]. exists k, u. auto. }
      destruct X as (k & u & -> & Hk).
      assert (Hks : nth_error syms (S k) = Some s).
      { rewrite <- (numbered_fst syms 0), nth_error_map, Hk. reflexivity. }
      split; [apply Hs; eapply nth_error_In; eauto|]. split.
      + apply Ht. destruct syms as [|s0 rest]; [discriminate|]. cbn [tl]. eapply nth_error_In. exact Hks.
      + rewrite Hy, nth_error_app1.
        * rewrite nth_error_map. unfold ys. change (option_map fst (nth_error (numbered 0 syms) (S k)) = Some s). unfold sym in *. now rewrite Hk.
        * rewrite map_length. apply nth_error_Some. unfold ys. change (nth_error (numbered 0 syms) (S k) <> None). unfold sym in *. congruence.
  Qed.

  Lemma P_start_symbol : forall t, mapped g [t] [w_inner w] -> w_inner w < nsyms ->
    (exists r, In r R /\ p_lhs r = g0 /\ p_rhs r = [w_sof w; w_inner w]) ->
    exists n, total n (fun fuel => st <- r_new g f0 ;; '(r, _) <- parse fo P g fuel st [t] ;; Ret r) (POk true).
  Proof.
    intros t Hm Hi Hr. destruct (P_parse_sentential [t] [w_inner w] Hm) as (n & r & Ht & _ & Hc).
    { intros s [<-|[]]. auto. }
    exists n. rewrite <- Hc; [exact Ht| |].
    - intros s [].
    - right. split; [exact Hr|]. constructor.
  Qed.
End Any.

(** *** words *)
Lemma text_eqb_eq : forall a b, text_eqb a b = true <-> a = b.
Proof.
  induction a as [|x a IH]; intros [|y b]; cbn; split; intros H; try discriminate; auto.
  - apply andb_true_iff in H. destruct H as [H1 H2]. apply Nat.eqb_eq in H1. apply IH in H2. congruence.
  - injection H as -> ->. rewrite Nat.eqb_refl. now apply IH.
Qed.

Lemma text_eqb_refl : forall a, text_eqb a a = true.
Proof. intros. now apply text_eqb_eq. Qed.

Lemma split_nonempty : forall s, split s <> [].
Proof. intros [|ch s]; cbn; [discriminate|]. destruct (Nat.eqb ch 32); [discriminate|]. destruct (split s); discriminate. Qed.

Lemma split_words : forall s, words_of s (split s).
Proof.
  intros s. split; [apply split_nonempty|]. split.
  - induction s as [|ch s IH]; cbn.
    + intros word [<-|[]] [].
    + destruct (Nat.eqb_spec ch 32) as [->|Hc].
      * intros word [<-|H]; [intros []|auto].
      * destruct (split s) as [|x xs].
        -- intros word [<-|[]] [H|[]]. auto.
        -- intros word [<-|H].
           ++ intros [H|H]; [auto|]. apply (IH x); [now left|auto].
           ++ apply IH. now right.
  - induction s as [|ch s IH]; cbn; [reflexivity|]. pose proof (split_nonempty s) as Hne.
    destruct (Nat.eqb_spec ch 32) as [->|Hc].
    + destruct (split s) as [|x xs]; [congruence|]. rewrite IH. reflexivity.
    + destruct (split s) as [|x xs]; [congruence|]. rewrite IH. destruct xs; reflexivity.
Qed.

Lemma words_of_split : forall words s, words_of s words -> words = split s.
Proof.
  assert (Hw : forall word, ~ In 32 word -> split word = [word]).
  { induction word as [|ch word IH]; intros H; [reflexivity|]. cbn. destruct (Nat.eqb_spec ch 32) as [->|_]; [exfalso; apply H; now left|].
    rewrite IH; [reflexivity|]. intros X. apply H. now right. }
  assert (Hj : forall word rest, ~ In 32 word -> split (word ++ 32 :: rest) = word :: split rest).
  { induction word as [|ch word IH]; intros rest H; [reflexivity|]. cbn. destruct (Nat.eqb_spec ch 32) as [->|_]; [exfalso; apply H; now left|].
    rewrite IH; [reflexivity|]. intros X. apply H. now right. }
  induction words as [|x xs IH]; intros s (Hne & Hs & ->); [congruence|].
  destruct xs as [|y ys].
  - cbn [join]. rewrite Hw; [reflexivity|]. apply Hs. now left.
  - change (join (x :: y :: ys)) with (x ++ 32 :: join (y :: ys)). rewrite Hj; [|apply Hs; now left]. f_equal.
    apply IH. split; [discriminate|]. split; [|reflexivity]. intros word H. apply Hs. now right.
Qed.

(** *** what the two parsing functions return *)
Lemma filter_map_app : forall A B (f : A -> option B) a b, filter_map f (a ++ b) = filter_map f a ++ filter_map f b.
Proof. intros A B f a b. induction a as [|x a IH]; cbn; [auto|]. destruct (f x); cbn; congruence. Qed.

Section Web.
  Context {F N : Type}.
  Variable fo : forest_ops F N.
  Variable P : perf.
  Variable new_forest : dgrammar -> F.
  Variable load : text -> ((text -> option sym) * dgrammar) + nat.
  Variable load_advanced : text -> ((nat -> list sym) * dgrammar) + nat.
  Variable lex : text -> option (list ctoken).
  Variable load_log : text -> list message.
  Variable load_advanced_log : text -> list message.
  Variable parse_log : text -> list text -> list message.
  Variable tokenizing_log : text -> text -> list message.
  Notation web := (web_parse fo P new_forest load load_advanced lex load_log load_advanced_log parse_log tokenizing_log).

  Lemma parse_loop_not_ok : forall fuel g tokens i st b st',
    parse_loop fo P g fuel i tokens st = Ret (Some (POk b), st') -> False.
  Proof.
    intros fuel g. induction tokens as [|t rest IH]; intros i st b st' H; cbn [parse_loop] in H; [discriminate|].
    destruct (match rest with [] => _ | _ => _ end) as [s1| |]; cbn [bind] in H; try discriminate.
    destruct (to_internal g t) as [o| |]; cbn [bind] in H; try discriminate.
    destruct (unwrap o) as [s| |]; cbn [bind] in H; try discriminate.
    destruct (scan fo P g s1 s i) as [s2| |]; cbn [bind] in H; try discriminate.
    destruct (end_earleme fo P g fuel s2) as [[ok s3]| |]; cbn [bind] in H; try discriminate.
    destruct ok; [eauto|discriminate].
  Qed.

  Lemma tokenizing_loop_not_ok : forall fuel g lexer input i st b st',
    tokenizing_loop fo P g fuel lexer i input st = Ret (Some (POk b), st') -> False.
  Proof.
    intros fuel g lexer. induction input as [|t rest IH]; intros i st b st' H; cbn [tokenizing_loop] in H; [discriminate|].
    destruct (scan_all fo P g t (begin_earleme P st) (lexer t)) as [s2| |]; cbn [bind] in H; try discriminate.
    destruct (end_earleme fo P g fuel s2) as [[ok s3]| |]; cbn [bind] in H; try discriminate.
    destruct ok; [eauto|discriminate].
  Qed.

  Lemma tokenizing_loop_no_word : forall fuel g lexer input i st x st',
    tokenizing_loop fo P g fuel lexer i input st = Ret (Some (PErrTokenize x), st') -> False.
  Proof.
    intros fuel g lexer. induction input as [|t rest IH]; intros i st b st' H; cbn [tokenizing_loop] in H; [discriminate|].
    destruct (scan_all fo P g t (begin_earleme P st) (lexer t)) as [s2| |]; cbn [bind] in H; try discriminate.
    destruct (end_earleme fo P g fuel s2) as [[ok s3]| |]; cbn [bind] in H; try discriminate.
    destruct ok; [eauto|discriminate].
  Qed.

  Lemma finished_same : forall g (st : rstate F N) b n, is_finished fo g st = Ret b -> finished_node fo g st = Ret (Some n) -> b = true.
  Proof. intros g st b n H1 H2. unfold is_finished in H1. rewrite H2 in H1. cbn [bind] in H1. injection H1 as <-. reflexivity. Qed.

  Lemma words_never_false : forall fuel g names words, parse_words fo P new_forest fuel g names words <> Ret (inl false).
  Proof.
    intros fuel g names words H. unfold parse_words in H.
    destruct (parse_terminal_list _ _ _ _ _ _ _) as [r| |] eqn:E; cbn [bind] in H; try discriminate.
    destruct r as [b| |k|]; try discriminate; [|destruct (nth_error words k); discriminate].
    injection H as ->. unfold parse_terminal_list in E.
    destruct (r_new g (new_forest g)) as [st| |]; cbn [bind] in E; try discriminate.
    destruct (tokenize _ _) as [tokens|]; [|discriminate].
    destruct (parse fo P g fuel st tokens) as [[r st1]| |] eqn:Ep; cbn [bind] in E; try discriminate.
    destruct (finished_node fo g st1) as [o| |] eqn:Ef; cbn [bind] in E; try discriminate.
    destruct o as [nd|]; [|discriminate]. injection E as ->.
    unfold parse in Ep. destruct (read_sof fo P g fuel st) as [[ok s0]| |]; cbn [bind] in Ep; try discriminate.
    destruct ok; [|discriminate].
    destruct (parse_loop fo P g fuel 0 tokens s0) as [[r s1]| |] eqn:El; cbn [bind] in Ep; try discriminate.
    destruct r as [e|].
    - injection Ep as -> ->. eapply parse_loop_not_ok; eauto.
    - destruct (is_finished fo g s1) as [b| |] eqn:Eb; cbn [bind] in Ep; try discriminate. injection Ep as -> ->.
      pose proof (finished_same _ _ _ _ Eb Ef). discriminate.
  Qed.

  Lemma chars_never_false : forall fuel g lexer input, parse_chars fo P new_forest fuel g lexer input <> Ret (inl false).
  Proof.
    intros fuel g lexer input H. unfold parse_chars in H.
    destruct (parse_tokenizing _ _ _ _ _ _ _) as [r| |] eqn:E; cbn [bind] in H; try discriminate.
    destruct r as [b| |k|]; try discriminate. injection H as ->. unfold parse_tokenizing in E.
    destruct (r_new g (new_forest g)) as [st| |]; cbn [bind] in E; try discriminate.
    destruct (read_sof fo P g fuel st) as [[ok s0]| |]; cbn [bind] in E; try discriminate.
    destruct ok; [|discriminate].
    destruct (tokenizing_loop fo P g fuel lexer 0 input s0) as [[r s1]| |] eqn:El; cbn [bind] in E; try discriminate.
    destruct r as [e|].
    - injection E as ->. eapply tokenizing_loop_not_ok; eauto.
    - destruct (is_finished fo g s1) as [b| |] eqn:Eb; cbn [bind] in E; try discriminate.
      destruct (finished_node fo g s1) as [[nd|]| |] eqn:Ef; cbn [bind] in E; try discriminate. injection E as ->.
      pose proof (finished_same _ _ _ _ Eb Ef). discriminate.
  Qed.

  (** *** never "failed to finish the parse", and the log is always handed over *)
  Lemma report_drains : forall r p a p', report r p = (a, p') -> r <> inl false ->
    p_logging p = true -> a <> FailedToFinish /\ p' = mkPage true [].
  Proof.
    intros [[]|why] p a p' H Hr Hl; cbn in H; [| congruence |]; injection H as <- <-; rewrite Hl; split; (discriminate || reflexivity).
  Qed.

  Lemma say_logging : forall ms p, p_logging (say ms p) = p_logging p.
  Proof. intros ms [[] b]; reflexivity. Qed.

  Lemma web_cases : forall fuel input grammar mode p a p', web fuel input grammar mode p = Ret (a, p') ->
    a <> FailedToFinish /\ (known_mode mode -> p' = mkPage true []) /\ (~ known_mode mode -> a = UnknownMode /\ p' = say [MBegin] p).
  Proof.
    intros fuel input grammar mode p a p' H. unfold web_parse in H. cbv zeta in H.
    destruct (text_eqb mode (lit "c-lexer")) eqn:E1.
    { apply text_eqb_eq in E1. assert (K : known_mode mode) by (left; auto).
      destruct (load grammar) as [[names g]|why].
      - destruct (c_lexer lex input) as [words| |]; cbn [bind] in H; try discriminate.
        destruct (parse_words fo P new_forest fuel g names words) as [r| |] eqn:Er; cbn [bind] in H; try discriminate.
        injection H as H. apply report_drains in H; [| |].
        + destruct H. split; [auto|]. split; [auto|]. tauto.
        + intros ->. now apply words_never_false in Er.
        + rewrite !say_logging. reflexivity.
      - injection H as <- <-. split; [discriminate|]. split; [intros _; reflexivity|tauto]. }
    destruct (text_eqb mode (lit "basic")) eqn:E2.
    { apply text_eqb_eq in E2. assert (K : known_mode mode) by (right; left; auto).
      destruct (load grammar) as [[names g]|why].
      - destruct (parse_words fo P new_forest fuel g names (split input)) as [r| |] eqn:Er; cbn [bind] in H; try discriminate.
        injection H as H. apply report_drains in H; [| |].
        + destruct H. split; [auto|]. split; [auto|]. tauto.
        + intros ->. now apply words_never_false in Er.
        + rewrite !say_logging. reflexivity.
      - injection H as <- <-. split; [discriminate|]. split; [intros _; reflexivity|tauto]. }
    destruct (text_eqb mode (lit "advanced")) eqn:E3.
    { apply text_eqb_eq in E3. assert (K : known_mode mode) by (right; right; auto).
      destruct (load_advanced grammar) as [[lexer g]|why].
      - destruct (parse_chars fo P new_forest fuel g lexer input) as [r| |] eqn:Er; cbn [bind] in H; try discriminate.
        injection H as H. apply report_drains in H; [| |].
        + destruct H. split; [auto|]. split; [auto|]. tauto.
        + intros ->. now apply chars_never_false in Er.
        + rewrite !say_logging. reflexivity.
      - injection H as <- <-. split; [discriminate|]. split; [intros _; reflexivity|tauto]. }
    injection H as <- <-. split; [discriminate|]. split; [|auto].
    intros [K|[K|K]]; apply text_eqb_eq in K; congruence.
  Qed.

  Lemma web_unknown : forall fuel input grammar mode p, ~ known_mode mode -> exists p', web fuel input grammar mode p = Ret (UnknownMode, p').
  Proof.
    intros fuel input grammar mode p H. exists (say [MBegin] p). unfold web_parse.
    destruct (text_eqb mode (lit "c-lexer")) eqn:E1; [apply text_eqb_eq in E1; exfalso; apply H; left; auto|].
    destruct (text_eqb mode (lit "basic")) eqn:E2; [apply text_eqb_eq in E2; exfalso; apply H; right; left; auto|].
    destruct (text_eqb mode (lit "advanced")) eqn:E3; [apply text_eqb_eq in E3; exfalso; apply H; right; right; auto|].
    reflexivity.
  Qed.

  Lemma web_load_error : forall fuel input grammar why p,
    (load grammar = inr why -> exists log p1 log2 p2, web fuel input grammar (lit "basic") p = Ret (FailedToLoad why log, p1) /\
       web fuel input grammar (lit "c-lexer") p = Ret (FailedToLoad why log2, p2)) /\
    (load_advanced grammar = inr why -> exists log p1, web fuel input grammar (lit "advanced") p = Ret (FailedToLoad why log, p1)).
  Proof.
    intros fuel input grammar why p. split; intros E.
    - do 4 eexists. split; unfold web_parse; rewrite ?text_eqb_refl.
      + replace (text_eqb (lit "basic") (lit "c-lexer")) with false by reflexivity. rewrite E. reflexivity.
      + rewrite E. reflexivity.
    - do 2 eexists. unfold web_parse. rewrite ?text_eqb_refl.
      replace (text_eqb (lit "advanced") (lit "c-lexer")) with false by reflexivity.
      replace (text_eqb (lit "advanced") (lit "basic")) with false by reflexivity. rewrite E. reflexivity.
  Qed.

  (** *** the page does not matter to what is said about the input *)
  Lemma report_kind : forall r p q, kind_of (fst (report r p)) = kind_of (fst (report r q)).
  Proof. intros [[]|] p q; reflexivity. Qed.

  Lemma web_kind : forall fuel input grammar mode p q,
    match web fuel input grammar mode p, web fuel input grammar mode q with
    | Ret (a, _), Ret (b, _) => kind_of a = kind_of b
    | Panic, Panic | NoFuel, NoFuel => True
    | _, _ => False
    end.
  Proof.
    intros fuel input grammar mode p q. unfold web_parse. cbv zeta.
    destruct (text_eqb mode (lit "c-lexer")).
    { destruct (load grammar) as [[names g]|why]; [|reflexivity].
      destruct (c_lexer lex input) as [words| |]; cbn [bind]; auto.
      destruct (parse_words fo P new_forest fuel g names words) as [r| |]; cbn [bind]; auto.
      destruct r as [[]|]; reflexivity. }
    destruct (text_eqb mode (lit "basic")).
    { destruct (load grammar) as [[names g]|why]; [|reflexivity].
      destruct (parse_words fo P new_forest fuel g names (split input)) as [r| |]; cbn [bind]; auto.
      destruct r as [[]|]; reflexivity. }
    destruct (text_eqb mode (lit "advanced")).
    { destruct (load_advanced grammar) as [[lexer g]|why]; [|reflexivity].
      destruct (parse_chars fo P new_forest fuel g lexer input) as [r| |]; cbn [bind]; auto.
      destruct r as [[]|]; reflexivity. }
    reflexivity.
  Qed.

  (** *** what the page adds to the log *)
  Lemma web_log : forall fuel input grammar mode p a p', web fuel input grammar mode p = Ret (a, p') ->
    (known_mode mode -> exists own q, web fuel input grammar mode (mkPage false []) = Ret (own, q) /\
       log_of a = p_buffer p ++ (if p_logging p then MBegin :: (if text_eqb mode (lit "c-lexer") then [MCLexerLoad] else []) else []) ++ log_of own /\
       p' = mkPage true []) /\
    (~ known_mode mode -> a = UnknownMode /\ p' = mkPage (p_logging p) (p_buffer p ++ if p_logging p then [MBegin] else [])).
  Proof.
    intros fuel input grammar mode p a p' H. destruct (web_cases _ _ _ _ _ _ _ H) as (Hf & Hk & Hu). split.
    2:{ intros K. destruct (Hu K) as [Ea Ep]. split; [exact Ea|]. rewrite Ep. destruct p as [[] buf]; cbn; [reflexivity|now rewrite app_nil_r]. }
    intros K. specialize (Hk K). subst p'. destruct p as [lg buf]. cbn [p_buffer p_logging].
    unfold web_parse in *. cbv zeta in *. destruct (text_eqb mode (lit "c-lexer")) eqn:E1.
    { destruct (load grammar) as [[names g]|why].
      - destruct (c_lexer lex input) as [words| |]; cbn [bind] in *; try discriminate.
        destruct (parse_words fo P new_forest fuel g names words) as [r| |]; cbn [bind] in *; try discriminate.
        do 2 eexists. split; [rewrite <- surjective_pairing; reflexivity|]. split; [|reflexivity].
        destruct r as [[]|why]; destruct lg; cbn in H; injection H as <-; try contradiction; cbn; rewrite <- ?app_assoc; reflexivity.
      - do 2 eexists. split; [reflexivity|]. split; [|reflexivity].
        destruct lg; cbn in H; injection H as <-; cbn; rewrite <- ?app_assoc; reflexivity. }
    destruct (text_eqb mode (lit "basic")) eqn:E2.
    { destruct (load grammar) as [[names g]|why].
      - destruct (parse_words fo P new_forest fuel g names (split input)) as [r| |]; cbn [bind] in *; try discriminate.
        do 2 eexists. split; [rewrite <- surjective_pairing; reflexivity|]. split; [|reflexivity].
        destruct r as [[]|why]; destruct lg; cbn in H; injection H as <-; try contradiction; cbn; rewrite <- ?app_assoc; reflexivity.
      - do 2 eexists. split; [reflexivity|]. split; [|reflexivity].
        destruct lg; cbn in H; injection H as <-; cbn; rewrite <- ?app_assoc; reflexivity. }
    destruct (text_eqb mode (lit "advanced")) eqn:E3.
    { destruct (load_advanced grammar) as [[lexer g]|why].
      - destruct (parse_chars fo P new_forest fuel g lexer input) as [r| |]; cbn [bind] in *; try discriminate.
        do 2 eexists. split; [rewrite <- surjective_pairing; reflexivity|]. split; [|reflexivity].
        destruct r as [[]|why]; destruct lg; cbn in H; injection H as <-; try contradiction; cbn; rewrite <- ?app_assoc; reflexivity.
      - do 2 eexists. split; [reflexivity|]. split; [|reflexivity].
        destruct lg; cbn in H; injection H as <-; cbn; rewrite <- ?app_assoc; reflexivity. }
    exfalso. destruct K as [K|[K|K]]; apply text_eqb_eq in K; congruence.
  Qed.

  Notation call fuel := (fun x p => web fuel (fst (fst x)) (snd (fst x)) (snd x) p).

  Lemma web_history_ready : forall fuel xs l p', (forall x, In x xs -> known_mode (snd x)) ->
    history (call fuel) xs (mkPage true []) l p' ->
    p' = mkPage true [] /\ Forall2 (fun x a => call fuel x (mkPage true []) = Ret (a, mkPage true [])) xs l.
  Proof.
    intros fuel xs l p' Hk H. remember (mkPage true []) as p eqn:Ep. revert Ep Hk.
    induction H as [p|x xs p a p1 l p' E H IH]; intros -> Hk; [auto|].
    pose proof (web_cases _ _ _ _ _ _ _ E) as (_ & Hd & _). specialize (Hd (Hk x (or_introl eq_refl))). subst p1.
    destruct (IH eq_refl) as (Hp & HF); [intros y Hy; apply Hk; now right|]. auto.
  Qed.

  Lemma web_history : forall fuel x xs p a l p', (forall y, In y (x :: xs) -> known_mode (snd y)) ->
    history (call fuel) (x :: xs) p (a :: l) p' ->
    p' = mkPage true [] /\ Forall2 (fun y b => call fuel y (mkPage true []) = Ret (b, mkPage true [])) xs l.
  Proof.
    intros fuel x xs p a l p' Hk H. inversion H as [|? ? ? ? p1 ? ? E H']; subst.
    pose proof (web_cases _ _ _ _ _ _ _ E) as (_ & Hd & _). specialize (Hd (Hk x (or_introl eq_refl))). subst p1.
    apply web_history_ready; [|exact H']. intros y Hy. apply Hk. now right.
  Qed.

  (** *** the verdict *)
  Lemma words_deserved : forall c nsyms w d0 g0 g names words, configured fo (new_forest g) P c nsyms w d0 g0 g ->
    (forall tokens, named names words tokens -> exists syms, mapped g tokens syms /\ forall s, In s syms -> user_terminal c nsyms w s) ->
    exists n r, total n (fun fuel => parse_words fo P new_forest fuel g names words) r /\
      forall p, deserved c w g0 g names words (fst (report r p)).
  Proof.
    intros c nsyms w d0 g0 g names words HC Hn.
    set (at_ := fun k => match nth_error words k with Some word => names word | None => None end).
    assert (Hpos : forall tokens, Forall2 (fun k s => at_ k = Some s) (seq 0 (List.length words)) tokens <-> named names words tokens).
    { assert (G : forall pre suf tokens, words = pre ++ suf ->
        Forall2 (fun k s => at_ k = Some s) (seq (List.length pre) (List.length suf)) tokens <-> named names suf tokens).
      { intros pre suf. revert pre. induction suf as [|x suf IH]; intros pre tokens E; cbn [List.length seq].
        - split; intros H; inversion H; constructor.
        - assert (Ex : at_ (List.length pre) = names x).
          { unfold at_. rewrite E, nth_error_app2, Nat.sub_diag by lia. reflexivity. }
          specialize (IH (pre ++ [x])). rewrite app_length, Nat.add_comm in IH. cbn [List.length Nat.add] in IH.
          assert (E' : words = (pre ++ [x]) ++ suf) by (rewrite <- app_assoc; exact E).
          split; intros H; inversion H; subst; constructor; try congruence; apply IH; auto. }
      intros tokens. apply (G [] words tokens eq_refl). }
    destruct (P_terminal_list fo (new_forest g) P c nsyms w d0 g0 g HC at_ (seq 0 (List.length words)))
      as (n & r & Ht & Hcases & Hok & Htk).
    { intros tokens H. apply Hn. now apply Hpos. }
    assert (Hres : exists r', (match r with
      | POk b => Ret (inl b)
      | PErrParse tokens i => Ret (inr (FParse tokens i))
      | PErrTokenize k => word <- unwrap (nth_error words k) ;; Ret (inr (FTokenize word))
      | PErrFinish => Ret (inr FFinish)
      end : res (bool + failure)) = Ret r' /\ forall p, deserved c w g0 g names words (fst (report r' p))).
    { destruct Hcases as [->|[->|(k & ->)]].
      - exists (inl true). split; [reflexivity|]. intros p. cbn. destruct (proj1 Hok eq_refl) as (tk & sy & A & B & C).
        apply Hpos in A. eauto.
      - exists (inr FFinish). split; [reflexivity|]. intros p. cbn.
        destruct (tokenize at_ (seq 0 (List.length words))) as [tk|k] eqn:Et.
        + apply tokenize_some in Et. apply Hpos in Et. destruct (Hn tk Et) as (sy & Hm & _).
          exists tk, sy. split; [auto|]. split; [auto|]. intros Hs.
          assert (X : PErrFinish = POk true); [|discriminate]. apply Hok. exists tk, sy. split; [now apply Hpos|auto].
        + apply tokenize_none in Et. apply Htk in Et. discriminate.
      - destruct (proj1 (Htk k) eq_refl) as (before & after & Eseq & Ek & Hb).
        assert (Hk : k = List.length before).
        { apply (f_equal (fun l => nth_error l (List.length before))) in Eseq.
          rewrite nth_error_app2, Nat.sub_diag in Eseq by lia. cbn in Eseq.
          assert (L : List.length before < List.length (seq 0 (List.length words))).
          { apply nth_error_Some. congruence. }
          rewrite seq_length in L. rewrite nth_error_nth' with (d := 0) in Eseq by (now rewrite seq_length).
          injection Eseq as Eseq. rewrite seq_nth in Eseq by auto. cbn in Eseq. congruence. }
        assert (Hlen : List.length words = List.length before + S (List.length after)).
        { apply (f_equal (@List.length nat)) in Eseq. rewrite seq_length, app_length in Eseq. cbn in Eseq. exact Eseq. }
        destruct (nth_error words k) as [word|] eqn:Ew; [|apply nth_error_None in Ew; lia].
        exists (inr (FTokenize word)). split; [reflexivity|]. intros p. cbn.
        destruct (nth_error_split words k Ew) as (b & a & E & Lb). exists b, a. split; [exact E|].
        split; [unfold at_ in Ek; rewrite Ew in Ek; exact Ek|].
        intros x Hx Hnone. apply In_nth_error in Hx. destruct Hx as (j & Hj).
        assert (Lj : j < List.length b) by (apply nth_error_Some; congruence).
        assert (Hjw : nth_error words j = Some x) by (rewrite E, nth_error_app1; auto).
        rewrite Forall_forall in Hb. apply (Hb j).
        + assert (Hjs : nth_error (seq 0 (List.length words)) j = Some j).
          { rewrite nth_error_nth' with (d := 0) by (rewrite seq_length; lia). rewrite seq_nth by lia. reflexivity. }
          rewrite Eseq, nth_error_app1 in Hjs by lia. eapply nth_error_In; eauto.
        + unfold at_. now rewrite Hjw. }
    destruct Hres as (r' & Er & Hd). exists n, r'. split; [|exact Hd].
    intros fuel. specialize (Ht fuel). unfold parse_words. fold at_. cbv beta in Ht. rewrite Ht.
    destruct (fuel <? n); [reflexivity|]. cbn [bind]. exact Er.
  Qed.

  Lemma web_basic : forall c nsyms w d0 g0 g names grammar input, configured fo (new_forest g) P c nsyms w d0 g0 g ->
    load grammar = inl (names, g) ->
    (forall words tokens, words_of input words -> named names words tokens ->
       exists syms, mapped g tokens syms /\ forall s, In s syms -> user_terminal c nsyms w s) ->
    exists n, forall p, exists a p', total n (fun fuel => web fuel input grammar (lit "basic") p) (a, p') /\
      exists words, words_of input words /\ deserved c w g0 g names words a.
  Proof.
    intros c nsyms w d0 g0 g names grammar input HC Hl Hn.
    destruct (words_deserved c nsyms w d0 g0 g names (split input) HC) as (n & r & Ht & Hd).
    { intros tokens. apply Hn. apply split_words. }
    exists n. intros p. set (p1 := say (parse_log grammar (split input)) (say (load_log grammar) (init_logger (say [MBegin] p)))).
    exists (fst (report r p1)), (snd (report r p1)). split.
    - intros fuel. specialize (Ht fuel). cbv beta in Ht. unfold web_parse. rewrite text_eqb_refl.
      replace (text_eqb (lit "basic") (lit "c-lexer")) with false by reflexivity. rewrite Hl, Ht.
      destruct (fuel <? n); [reflexivity|]. cbn [bind]. fold p1. now destruct (report r p1).
    - exists (split input). split; [apply split_words|]. apply Hd.
  Qed.

  Lemma web_c_lexer : forall c nsyms w d0 g0 g names grammar input tokens, configured fo (new_forest g) P c nsyms w d0 g0 g ->
    load grammar = inl (names, g) -> lex input = Some tokens ->
    (forall toks, named names (filter_map c_word tokens) toks ->
       exists syms, mapped g toks syms /\ forall s, In s syms -> user_terminal c nsyms w s) ->
    exists n, forall p, exists a p', total n (fun fuel => web fuel input grammar (lit "c-lexer") p) (a, p') /\
      deserved c w g0 g names (filter_map c_word tokens) a.
  Proof.
    intros c nsyms w d0 g0 g names grammar input tokens HC Hl Hx Hn.
    destruct (words_deserved c nsyms w d0 g0 g names (filter_map c_word tokens) HC Hn) as (n & r & Ht & Hd).
    exists n. intros p.
    set (p1 := say (parse_log grammar (filter_map c_word tokens)) (say [MLoaded] (say (load_log grammar) (init_logger (say [MCLexerLoad] (say [MBegin] p)))))).
    exists (fst (report r p1)), (snd (report r p1)). split; [|apply Hd].
    intros fuel. specialize (Ht fuel). cbv beta in Ht. unfold web_parse. rewrite text_eqb_refl, Hl. unfold c_lexer. rewrite Hx. cbn [unwrap bind].
    rewrite Ht. destruct (fuel <? n); [reflexivity|]. cbn [bind]. fold p1. now destruct (report r p1).
  Qed.

  Lemma web_advanced : forall c nsyms w d0 g0 g lexer terminals grammar input, configured fo (new_forest g) P c nsyms w d0 g0 g ->
    load_advanced grammar = inl (lexer, g) -> productive (c_rules c) -> nonempty_language c w g0 ->
    (forall ch, In ch input -> mapped g (lexer ch) (terminals ch) /\ forall s, In s (terminals ch) -> user_terminal c nsyms w s) ->
    exists n, forall p, (forall fuel, fuel < n -> web fuel input grammar (lit "advanced") p = NoFuel) /\
      forall fuel, n <= fuel -> exists a p', web fuel input grammar (lit "advanced") p = Ret (a, p') /\
        deserved_chars c nsyms w g0 lexer terminals input a.
  Proof.
    intros c nsyms w d0 g0 g lexer terminals grammar input HC Hl Hprod Hne Hx.
    destruct (P_tokenizing fo (new_forest g) P c nsyms w d0 g0 g HC lexer terminals input Hprod Hne Hx) as (n & Hlow & Hhigh).
    assert (Hw : forall fuel p, web fuel input grammar (lit "advanced") p =
      (r <- parse_chars fo P new_forest fuel g lexer input ;;
       Ret (report r (say (tokenizing_log grammar input) (say (load_advanced_log grammar) (init_logger (say [MBegin] p))))))).
    { intros fuel p. unfold web_parse. rewrite text_eqb_refl.
      replace (text_eqb (lit "advanced") (lit "c-lexer")) with false by reflexivity.
      replace (text_eqb (lit "advanced") (lit "basic")) with false by reflexivity. rewrite Hl. reflexivity. }
    exists n. intros p. split.
    - intros fuel Hf. rewrite Hw. unfold parse_chars. now rewrite (Hlow fuel Hf).
    - intros fuel Hf. rewrite Hw. destruct (Hhigh fuel Hf) as (r & Er & Hr). unfold parse_chars. rewrite Er. cbn [bind].
      set (p1 := say _ _). destruct r as [b|toks i|x|].
      + destruct Hr as (-> & Hr). cbn [bind]. do 2 eexists. split; [reflexivity|]. exact Hr.
      + cbn [bind]. do 2 eexists. split; [reflexivity|]. exact Hr.
      + destruct Hr.
      + cbn [bind]. do 2 eexists. split; [reflexivity|]. exact Hr.
  Qed.

  (** *** tokens that the C lexer's table drops *)
  Lemma web_dropped : forall fuel a b tokens tokens' grammar p q, lex a = Some tokens -> lex b = Some tokens' ->
    filter_map c_word tokens = filter_map c_word tokens' ->
    match web fuel a grammar (lit "c-lexer") p, web fuel b grammar (lit "c-lexer") q with
    | Ret (x, _), Ret (y, _) => kind_of x = kind_of y
    | Panic, Panic | NoFuel, NoFuel => True
    | _, _ => False
    end.
  Proof.
    intros fuel a b tokens tokens' grammar p q Ha Hb E. unfold web_parse, c_lexer. rewrite text_eqb_refl, Ha, Hb. cbv zeta. cbn [unwrap bind].
    rewrite E. destruct (load grammar) as [[names g]|why]; [|reflexivity].
    destruct (parse_words fo P new_forest fuel g names (filter_map c_word tokens')) as [r| |]; cbn [bind]; auto.
    destruct r as [[]|]; reflexivity.
  Qed.
End Web.

(** ** The table of [c_lexer] *)
Lemma table_skipped : forall t, c_word t = None <-> skipped t.
Proof.
  intros t. split.
  - destruct t; intros H; try discriminate H; unfold skipped; eauto 10.
  - intros [->|[->|[->|[[x ->]|[x ->]]]]]; reflexivity.
Qed.
(** one token of each kind that is passed on *)
Definition tokens_of_kinds : list ctoken := [
  LBrace; RBrace; LParen; RParen; LBracket; RBracket; Semicolon; Assign; Lt; Gt; Minus; Tilde; Exclamation;
  Plus; Multi; Slash; Colon; QuestionMark; Comma; Dot; SingleAnd; InclusiveOr; ExclusiveOr; Mod; Identifier
  []; NumericLiteral []; StringLiteral []; SIZEOF; PtrOp; IncOp; DecOp; LeftOp; RightOp; LeOp; GeOp; EqOp;
  NeOp; AndOp; OrOp; MulAssign; DivAssign; ModAssign; AddAssign; SubAssign; LeftAssign; RightAssign;
  AndAssign; XorAssign; OrAssign; TypedefName; ELLIPSIS; TYPEDEF; EXTERN; STATIC; REGISTER; INLINE; CONST;
  RESTRICT; VOLATILE; BOOL; CHAR; SHORT; INT; LONG; SIGNED; UNSIGNED; FLOAT; DOUBLE; VOID; COMPLEX; IMAGINARY;
  STRUCT; UNION; ENUM; CASE; DEFAULT; IF; ELSE; SWITCH; WHILE; DO; FOR; GOTO; CONTINUE; BREAK; RETURN].
Definition has_word (x : text) (t : ctoken) : bool := match c_word t with Some y => text_eqb y x | None => false end.
Definition token_of (x : text) : option ctoken := find (has_word x) tokens_of_kinds.
Lemma token_of_word : forall t x, c_word t = Some x -> exists u, token_of x = Some u /\ same_kind t u.
Proof.
  intros t x H. destruct t; try discriminate H; injection H as <-;
    (eexists; split; [vm_compute; reflexivity|]); unfold same_kind; eauto 10.
Qed.
Lemma same_kind_sym : forall t u, same_kind t u -> same_kind u t.
Proof.
  intros t u [->|[[A B]|[(x & y & -> & ->)|(x & y & -> & ->)]]]; unfold same_kind; eauto 10.
Qed.
Lemma same_kind_trans : forall t u v, same_kind t u -> same_kind u v -> same_kind t v.
Proof.
  intros t u v [->|[[A B]|[(x & y & -> & ->)|(x & y & -> & ->)]]] H; auto.
  - destruct H as [->|[[C D]|[(x & y & -> & ->)|(x & y & -> & ->)]]]; unfold same_kind; auto;
      destruct B as [B|[? B]]; discriminate B.
  - destruct H as [<-|[[[C|[? C]] D]|[(x' & y' & E & ->)|(x' & y' & E & ->)]]]; try discriminate; unfold same_kind; eauto 10.
  - destruct H as [<-|[[[C|[? C]] D]|[(x' & y' & E & ->)|(x' & y' & E & ->)]]]; try discriminate; unfold same_kind; eauto 10.
Qed.
Lemma table_kinds : forall t u x, c_word t = Some x -> c_word u = Some x -> same_kind t u.
Proof.
  intros t u x Ht Hu. destruct (token_of_word _ _ Ht) as (a & E & A). destruct (token_of_word _ _ Hu) as (b & E' & B).
  assert (a = b) by congruence. subst b. eapply same_kind_trans; [exact A|now apply same_kind_sym].
Qed.
Lemma table_names : forall t x, c_word t = Some x -> exists name, x = lit name /\ In name c_terminals.
Proof.
  intros t x H. assert (E : existsb (fun name => text_eqb (lit name) x) c_terminals = true).
  { destruct t; try discriminate H; injection H as <-; vm_compute; reflexivity. }
  apply existsb_exists in E. destruct E as (name & Hn & E). exists name. split; [symmetry; now apply text_eqb_eq|auto].
Qed.
Lemma table_covers : forall name, In name c_terminals ->
  (exists t, c_word t = Some (lit name)) \/ name = "auto"%string \/ name = "error"%string.
Proof.
  assert (E : forallb (fun name => existsb (has_word (lit name)) tokens_of_kinds || String.eqb name "auto" || String.eqb name "error") c_terminals = true)
    by (vm_compute; reflexivity).
  rewrite forallb_forall in E. intros name H. apply E in H. rewrite !orb_true_iff, !String.eqb_eq in H.
  destruct H as [[H| ->]| ->]; auto. left. apply existsb_exists in H. destruct H as (t & _ & H). exists t.
  unfold has_word in H. destruct (c_word t) as [y|]; [|discriminate]. f_equal. now apply text_eqb_eq.
Qed.
