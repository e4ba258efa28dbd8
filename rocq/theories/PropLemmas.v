(** PropLemmas: the recognition properties in the form in which PropsRecog.v and
    PropsTables.v state them. *)
From Coq Require Import List Arith Bool Lia Relations.
From Verif Require Import Base BaseProofs Vec2d Item Grammar BitMatrix DefaultGrammar Forest Recognizer Drive Parse
  Spec Chart CfgSpec ForestSpec ClientSpec Session Tables TablesProofs TablesTotal TableFacts Core5 Recog RecogAny
  SessionProofs RowsInv RecogFacts ParseFacts PredFacts.
Import ListNotations.
Local Open Scope res_scope.

Section Any.
  Context {F N : Type}.
  Variables (fo : forest_ops F N) (f0 : F) (P : perf).
  Variables (c : pcfg) (nsyms : nat) (w : wrapped_root) (d0 : nat) (g0 : sym) (g : dgrammar).
  Hypothesis HC : configured fo f0 P c nsyms w d0 g0 g.
  Notation R := (c_rules c).
  Notation user syms := (forall s : sym, In s syms -> user_terminal c nsyms w s).

  Lemma P_parse_decides : forall tokens syms, mapped g tokens syms -> user syms ->
    exists n r, total n (fun fuel => st <- r_new g f0 ;; '(r, _) <- parse fo P g fuel st tokens ;; Ret r) r /\
      (r = POk true <-> sentence c w g0 syms).
  Proof.
    destruct HC as [(ok & HU & Hok) Hleo HB]. intros tokens syms Hm Hs.
    destruct (new_state (N := N) ok P c nsyms w d0 g0 g HB f0 Hok) as (st0 & En & Hst & Hh & _).
    destruct (parse_decides fo ok HU P c nsyms w d0 g0 g Hleo HB _ st0 tokens syms Hst ltac:(intros ? []) Hh Hm Hs)
      as (n & r & H1 & H2 & Hi).
    exists n, r. split; [|exact Hi]. intros fuel. rewrite En. cbn [bind]. destruct (Nat.ltb_spec fuel n) as [H|H].
    - now rewrite (H1 fuel H).
    - destruct (H2 fuel H) as (st' & ->). reflexivity.
  Qed.

  Lemma P_parse_total : forall tokens syms, mapped g tokens syms -> (forall s, In s syms -> s < nsyms) ->
    exists n r, total n (fun fuel => st <- r_new g f0 ;; '(r, _) <- parse fo P g fuel st tokens ;; Ret r) r.
  Proof.
    destruct HC as [(ok & HU & Hok) Hleo HB]. intros tokens syms Hm Hs.
    destruct (new_state (N := N) ok P c nsyms w d0 g0 g HB f0 Hok) as (st0 & En & Hst & Hh & _).
    destruct (parse_any fo ok HU P c nsyms w d0 g0 g Hleo HB _ st0 tokens syms Hst ltac:(intros ? []) Hh Hm Hs)
      as (n & r & H1 & H2).
    exists n, r. intros fuel. rewrite En. cbn [bind]. destruct (Nat.ltb_spec fuel n) as [H|H].
    - now rewrite (H1 fuel H).
    - destruct (H2 fuel H) as (st' & ->). reflexivity.
  Qed.

  Lemma P_answer_offered : forall Ws, productive R ->
    (forall ts s v, In ts Ws -> In (s, v) ts -> user_terminal c nsyms w s) ->
    exists n b, total n (fun fuel => st <- r_new g f0 ;; '(b, _) <- feed_all fo P g fuel (read_start w :: map overlapping Ws) st ;; Ret b) b /\
      (b = true <-> exists ys, choice Ws ys /\ viable c nsyms w g0 (map fst ys)).
  Proof.
    destruct HC as [(ok & HU & Hok) Hleo HB]. intros Ws Hprod Hx.
    destruct (new_state (N := N) ok P c nsyms w d0 g0 g HB f0 Hok) as (st0 & En & Hst & Hh & _).
    destruct (answer_offered fo ok HU P c nsyms w d0 g0 g Hleo HB st0 Ws Hprod Hst Hx) as (n & b & H1 & H2 & Hi).
    exists n, b. split; [|exact Hi]. intros fuel. rewrite En. cbn [bind].
    change (read_start w :: map overlapping Ws) with (offered w Ws). destruct (Nat.ltb_spec fuel n) as [H|H].
    - now rewrite (H1 fuel H).
    - destruct (H2 fuel H) as (st' & ->). reflexivity.
  Qed.

  Lemma choice_single : forall (xs ys : list (sym * nat)), choice (map (fun x => [x]) xs) ys <-> ys = xs.
  Proof.
    induction xs as [|x xs IH]; intros ys; split; intros H.
    - now inversion H.
    - subst. constructor.
    - inversion H as [|? y ? zs Hy Hz]; subst. destruct Hy as [<-|[]]. f_equal. now apply IH.
    - subst. constructor; [simpl; auto|]. now apply IH.
  Qed.

  Lemma P_viable_prefix : forall xs : list (sym * nat), productive R -> (forall s v, In (s, v) xs -> user_terminal c nsyms w s) ->
    exists n b, total n (fun fuel => st <- r_new g f0 ;; '(b, _) <- feed_all fo P g fuel (read_start w :: map plain xs) st ;; Ret b) b /\
      (b = true <-> viable c nsyms w g0 (map fst xs)).
  Proof.
    intros xs Hprod Hx. destruct (P_answer_offered (map (fun x => [x]) xs) Hprod) as (n & b & Ht & Hi).
    - intros ts s v A B. apply in_map_iff in A. destruct A as (x & <- & A). destruct B as [->|[]]. eauto.
    - exists n, b. rewrite map_map in Ht. split; [exact Ht|]. rewrite Hi. split.
      + intros (ys & A & B). apply choice_single in A. now subst.
      + intros A. exists xs. split; [now apply choice_single|auto].
  Qed.

  Lemma P_verdict_hinted : forall use (xs : list (sym * nat)), (forall s v, In (s, v) xs -> user_terminal c nsyms w s) ->
    exists n v, total n (fun fuel => st <- r_new g f0 ;; verdict fo P g fuel (hinted use 0 ((w_sof w, 0) :: xs)) st) v /\
      (v = true <-> sentence c w g0 (map fst xs)).
  Proof.
    destruct HC as [(ok & HU & Hok) Hleo HB]. intros use xs Hx.
    destruct (new_state (N := N) ok P c nsyms w d0 g0 g HB f0 Hok) as (st0 & En & Hst & Hh & _).
    destruct (verdict_hinted fo ok HU P c nsyms w d0 g0 g Hleo HB _ st0 use 0 xs Hst ltac:(intros ? []) Hx) as (n & v & H & Hi).
    exists n, v. split; [|exact Hi]. intros fuel. rewrite En. cbn [bind]. apply H.
  Qed.

  Lemma P_verdict_prefix : forall xs : list (sym * nat), (forall s v, In (s, v) xs -> user_terminal c nsyms w s) ->
    exists n v, total n (fun fuel => st <- r_new g f0 ;; verdict fo P g fuel (read_start w :: map plain xs) st) v /\
      (v = true <-> sentence c w g0 (map fst xs)).
  Proof.
    intros xs Hx. destruct (P_verdict_hinted (fun _ => false) xs Hx) as (n & v & H & Hi). exists n, v. split; [|exact Hi].
    replace (read_start w :: map plain xs) with (hinted (fun _ => false) 0 ((w_sof w, 0) :: xs)); [exact H|].
    cbn. f_equal. generalize 1. clear. induction xs as [|x xs IH]; intros k; [reflexivity|]. cbn. now rewrite IH.
  Qed.

  Lemma P_verdict_offered : forall Ws, (forall ts s v, In ts Ws -> In (s, v) ts -> user_terminal c nsyms w s) ->
    exists n v, total n (fun fuel => st <- r_new g f0 ;; verdict fo P g fuel (read_start w :: map overlapping Ws) st) v /\
      (v = true <-> exists ys, choice Ws ys /\ sentence c w g0 (map fst ys)).
  Proof.
    destruct HC as [(ok & HU & Hok) Hleo HB]. intros Ws Hx.
    destruct (new_state (N := N) ok P c nsyms w d0 g0 g HB f0 Hok) as (st0 & En & Hst & Hh & _).
    destruct (verdict_offered fo ok HU P c nsyms w d0 g0 g Hleo HB _ st0 Ws Hst ltac:(intros ? [])) as (n & v & H & Hi).
    - intros ts s v A B. apply (user_nall c nsyms w d0 g0 g HB). eapply Hx; eauto.
    - exists n, v. split; [|exact Hi]. intros fuel. rewrite En. cbn [bind]. apply H.
  Qed.

  Lemma P_verdict_filtered : forall (xs : list (list (sym * nat) * (sym -> bool))),
    (forall x s v, In x xs -> In (s, v) (fst x) -> user_terminal c nsyms w s) ->
    let keep j s := match j with S (S j') => match nth_error xs j' with Some x => snd x s | None => true end | _ => true end in
    exists n v, total n (fun fuel => st <- r_new g f0 ;; verdict fo P g fuel (read_start w :: map filtered xs) st) v /\
      (v = true <-> exists t, parse_tree R g0 t /\
         choice ([(w_sof w, 0)] :: map fst xs) (yield t) /\ constituents_ok R keep 0 t).
  Proof.
    destruct HC as [(ok & HU & Hok) Hleo HB]. intros xs Hx keep.
    destruct (new_state (N := N) ok P c nsyms w d0 g0 g HB f0 Hok) as (st0 & En & Hst & Hh & _).
    destruct (verdict_filtered fo ok HU P c nsyms w d0 g0 g Hleo HB _ st0 xs Hst ltac:(intros ? [])) as (n & v & H & Hi).
    - intros x s v A B. apply (user_nall c nsyms w d0 g0 g HB). eapply Hx; eauto.
    - exists n, v. split; [|exact Hi]. intros fuel. rewrite En. cbn [bind]. apply H.
  Qed.

  Lemma P_error_index : forall tokens syms fuel st0 err i st', productive R -> nonempty_language c w g0 ->
    mapped g tokens syms -> user syms -> r_new g f0 = Ret st0 ->
    parse fo P g fuel st0 tokens = Ret (PErrParse err i, st') ->
    (exists tok, nth_error tokens i = Some tok /\ err = [tok]) /\
    viable c nsyms w g0 (firstn i syms) /\ ~ viable c nsyms w g0 (firstn (i + 2) syms).
  Proof.
    destruct HC as [(ok & HU & Hok) Hleo HB]. intros tokens syms fuel st0 err i st' Hprod Hne Hm Hs En Hp.
    destruct (new_state (N := N) ok P c nsyms w d0 g0 g HB f0 Hok) as (st0' & En' & Hst & Hh & _).
    rewrite En in En'. injection En' as <-.
    destruct (parse_error fo ok HU P c nsyms w d0 g0 g Hleo HB st0 tokens syms fuel err i st' Hst Hh Hprod Hm Hs Hp Hne)
      as (A & B & C & D).
    split.
    - destruct err as [|tok [|]]; try discriminate. exists tok. auto.
    - replace (i + 2) with (S (S i)) by lia. auto.
  Qed.

  (** *** reset *)
  Lemma P_reset : forall fuel0 cs l st tokens syms, session fo P g fuel0 f0 cs = Ret (l, st) -> r_hint st = None ->
    mapped g tokens syms -> user syms ->
    exists n r, total n (fun fuel => st <- reset g st ;; '(r, _) <- parse fo P g fuel st tokens ;; Ret r) r /\
      (r = POk true <-> sentence c w g0 syms).
  Proof.
    destruct HC as [(ok & HU & Hok) Hleo HB]. intros fuel0 cs l st tokens syms Hses Hh Hm Hs.
    unfold session in Hses. destruct (r_new g f0) as [s0| |] eqn:En; cbn [bind] in Hses; try discriminate.
    assert (Hinv : rows_inv c nsyms w (r_predicted st)).
    { eapply (calls_inv fo P g c nsyms w d0 g0 HB); eauto. eapply (new_inv (N := N) g c nsyms w d0 g0 HB); eauto. }
    assert (Hok' : ok Idle (r_forest st)).
    { eapply calls_usable; eauto. unfold r_new in En. dres En. subst s0. exact Hok. }
    destruct (reset_start P g c nsyms w d0 g0 HB ok st Hinv Hok') as (st' & Er & Eh & Hst).
    destruct (parse_decides fo ok HU P c nsyms w d0 g0 g Hleo HB _ st' tokens syms Hst ltac:(auto) ltac:(congruence) Hm Hs)
      as (n & r & H1 & H2 & Hi).
    exists n, r. split; [|exact Hi]. intros fuel. rewrite Er. cbn [bind]. destruct (Nat.ltb_spec fuel n) as [H|H].
    - now rewrite (H1 fuel H).
    - destruct (H2 fuel H) as (st2 & ->). reflexivity.
  Qed.

  (** *** parse_terminal_list and parse_tokenizing *)
  Lemma tokenize_some : forall name_map words tokens, tokenize name_map words = inl tokens <->
    Forall2 (fun w s => name_map w = Some s) words tokens.
  Proof.
    intros nm. induction words as [|x ws IH]; intros tokens; cbn [tokenize]; split; intros H.
    - injection H as <-. constructor.
    - inversion H. reflexivity.
    - destruct (nm x) as [s|] eqn:E; [|discriminate]. destruct (tokenize nm ws) as [l|e]; [|discriminate].
      injection H as <-. constructor; [auto|]. now apply IH.
    - inversion H as [|? s ? l Hs Hl]; subst. rewrite Hs. apply IH in Hl. now rewrite Hl.
  Qed.

  Lemma tokenize_none : forall name_map words e, tokenize name_map words = inr e <->
    exists before after, words = before ++ e :: after /\ name_map e = None /\ Forall (fun w => name_map w <> None) before.
  Proof.
    intros nm. induction words as [|x ws IH]; intros e; cbn [tokenize]; split; intros H.
    - discriminate.
    - destruct H as (b & a & E & _). destruct b; discriminate.
    - destruct (nm x) as [s|] eqn:E.
      + destruct (tokenize nm ws) as [l|e'] eqn:Et; [discriminate|]. injection H as ->.
        destruct (proj1 (IH e) eq_refl) as (b & a & -> & He & Hb). exists (x :: b), a. split; [reflexivity|]. split; [auto|].
        constructor; [congruence|auto].
      + injection H as <-. exists [], ws. auto.
    - destruct H as (b & a & E & He & Hb). destruct b as [|y b]; injection E as -> ->.
      + now rewrite He.
      + inversion Hb; subst. destruct (nm y); [|congruence].
        assert (X : tokenize nm (b ++ e :: a) = inr e) by (apply IH; eauto 6). now rewrite X.
  Qed.

  Lemma P_terminal_list : forall name_map words,
    (forall tokens, Forall2 (fun x s => name_map x = Some s) words tokens -> exists syms, mapped g tokens syms /\ user syms) ->
    exists n r, total n (fun fuel => parse_terminal_list fo P g fuel f0 name_map words) r /\
      (r = POk true \/ r = PErrFinish \/ exists x, r = PErrTokenize x) /\
      (r = POk true <-> exists tokens syms, Forall2 (fun x s => name_map x = Some s) words tokens /\
         mapped g tokens syms /\ sentence c w g0 syms) /\
      (forall x, r = PErrTokenize x <-> exists before after, words = before ++ x :: after /\ name_map x = None /\
         Forall (fun x => name_map x <> None) before).
  Proof.
    destruct HC as [(ok & HU & Hok) Hleo HB]. intros name_map words Hw.
    destruct (tokenize name_map words) as [tokens|e] eqn:Et.
    - destruct (Hw tokens) as (syms & Hm & Hs); [now apply tokenize_some|].
      destruct (terminal_list_any fo ok HU P c nsyms w d0 g0 g Hleo HB name_map words tokens syms f0 Hok Et Hm Hs)
        as (n & r & H1 & H2 & H3 & H4).
      exists n, r. split; [|split; [tauto|split]].
      + intros fuel. destruct (Nat.ltb_spec fuel n); auto.
      + rewrite H4. split.
        * intros X. exists tokens, syms. split; [now apply tokenize_some|auto].
        * intros (tk & sy & A & B & C). apply tokenize_some in A. rewrite Et in A. injection A as <-.
          replace syms with sy; [exact C|]. clear -Hm B. revert sy B. induction Hm; intros sy B; inversion B; subst; [auto|].
          f_equal; [congruence|auto].
      + intros x. split; [destruct H3; congruence|]. intros X. apply tokenize_none in X. congruence.
    - exists 0, (PErrTokenize e). split; [|split; [eauto|split]].
      + intros fuel. cbn [Nat.ltb Nat.leb]. unfold parse_terminal_list.
        destruct (new_state (N := N) ok P c nsyms w d0 g0 g HB f0 Hok) as (st0 & En & _). rewrite En. cbn [bind]. now rewrite Et.
      + split; [discriminate|]. intros (tk & sy & A & _). apply tokenize_some in A. congruence.
      + intros x. rewrite <- tokenize_none. split; congruence.
  Qed.

  Lemma P_tokenizing : forall lexer terminals input, productive R -> nonempty_language c w g0 ->
    (forall ch, In ch input -> mapped g (lexer ch) (terminals ch) /\ forall s, In s (terminals ch) -> user_terminal c nsyms w s) ->
    exists n, (forall fuel, fuel < n -> parse_tokenizing fo P g fuel f0 lexer input = NoFuel) /\
      forall fuel, n <= fuel -> exists r, parse_tokenizing fo P g fuel f0 lexer input = Ret r /\
      match r with
      | POk b => b = true /\ exists x, lexes terminals input x /\ sentence c w g0 x
      | PErrFinish => (exists x, lexes terminals input x /\ viable c nsyms w g0 x) /\
          forall x, lexes terminals input x -> ~ sentence c w g0 x
      | PErrParse toks i => (exists ch, nth_error input i = Some ch /\ toks = lexer ch) /\
          (exists x, lexes terminals (firstn i input) x /\ viable c nsyms w g0 x) /\
          forall x, lexes terminals (firstn (S i) input) x -> ~ viable c nsyms w g0 x
      | PErrTokenize _ => False
      end.
  Proof.
    destruct HC as [(ok & HU & Hok) Hleo HB]. intros lexer terminals input Hprod Hne Hl.
    exact (tokenizing_any fo ok HU P c nsyms w d0 g0 g Hleo HB lexer terminals input f0 Hok Hprod Hne Hl).
  Qed.

  Lemma P_predicted : forall Ws fuel st0 st', productive R ->
    (forall ts s v, In ts Ws -> In (s, v) ts -> user_terminal c nsyms w s) ->
    r_new g f0 = Ret st0 -> feed_all fo P g fuel (read_start w :: map overlapping Ws) st0 = Ret (true, st') ->
    exists l, predicted_symbols (begin_earleme P st') = Ret l /\
      forall s, user_terminal c nsyms w s ->
        (In s l <-> exists ys, choice Ws ys /\ viable c nsyms w g0 (map fst ys ++ [s])).
  Proof.
    destruct HC as [(ok & HU & Hok) Hleo HB]. intros Ws fuel st0 st' Hprod Hx En Hf.
    destruct (new_state (N := N) ok P c nsyms w d0 g0 g HB f0 Hok) as (st0' & En' & Hst & Hh & _).
    rewrite En in En'. injection En' as <-.
    exact (predicted_terminals fo ok HU P c nsyms w d0 g0 g Hleo HB st0 Ws fuel st' Hprod Hst Hx Hf).
  Qed.
End Any.
