(** PropsRecog: the recognition properties.  Proofs are in PropLemmas.v and the files
    it imports.  Every theorem is followed by an example that meets its hypotheses.

    Reading aid: [configured fo f0 P c nsyms w d0 g0 g] (ClientSpec.v) says that [g] was
    built by [from_processed_grammars] from the processed grammar [c] with FIRST/FOLLOW
    sets that miss nothing, that the forest implementation [fo] does not panic when used
    by its protocol from [f0] on, and that the Leo option is off.  [total n f r]: with
    enough fuel [f] returns [r], with less it runs out; it never panics.  [sentence],
    [viable], [user_terminal] are in CfgSpec.v, derivations and trees in Spec.v. *)
From Coq Require Import List Arith Bool Lia.
From Verif Require Import Base Vec2d Item Grammar BitMatrix DefaultGrammar Forest Recognizer Drive Parse Spec Chart CfgSpec
  ForestSpec ClientSpec Session Sim RecogAny SessionProofs PredFacts TableFacts PropLemmas Check ExampleGrammars.
Import ListNotations.
Local Open Scope res_scope.

(** *** The example grammars meet the hypotheses *)
Definition anbn_dg : dgrammar := Eval vm_compute in the (mkG 0 0 false 0 0 0 0 0 0 [] v_new [] [] [] [] [] [] [] [] [] [] no_maps (mkFI [] [] [] 0 0 0)) anbn_g.
Definition amb_dg : dgrammar := Eval vm_compute in the (mkG 0 0 false 0 0 0 0 0 0 [] v_new [] [] [] [] [] [] [] [] [] [] no_maps (mkFI [] [] [] 0 0 0)) amb_g.
Definition opt_dg : dgrammar := Eval vm_compute in the (mkG 0 0 false 0 0 0 0 0 0 [] v_new [] [] [] [] [] [] [] [] [] [] no_maps (mkFI [] [] [] 0 0 0)) opt_g.
Definition wrap : wrapped_root := mkWrapped 1 2 0 3.

Lemma anbn_configured : configured null_forest tt default_perf anbn 6 wrap 0 6 anbn_dg.
Proof.
  split; [exists (fun _ _ => True); split; [exact null_usable|exact I]|reflexivity|].
  apply (built_check_ok 6 anbn 6 wrap 0 6 (fun _ => 0) (fun _ => 0) 10 no_maps [] anbn_first anbn_follow); vm_compute; reflexivity.
Qed.
Lemma amb_configured : configured null_forest tt default_perf amb 5 wrap 0 5 amb_dg.
Proof.
  split; [exists (fun _ _ => True); split; [exact null_usable|exact I]|reflexivity|].
  apply (built_check_ok 6 amb 5 wrap 0 5 (fun _ => 0) (fun s => s) 10 no_maps [] amb_first amb_follow); vm_compute; reflexivity.
Qed.
Lemma opt_configured : configured null_forest tt default_perf opt 5 wrap 0 5 opt_dg.
Proof.
  split; [exists (fun _ _ => True); split; [exact null_usable|exact I]|reflexivity|].
  apply (built_check_ok 6 opt 5 wrap 0 5 (fun _ => 0) (fun s => match s with 5 => 0 | _ => s end) 10 no_maps
    [mkRule 3 [] (Some 1) None [Some no_dot]] opt_first opt_follow); vm_compute; reflexivity.
Qed.
Lemma anbn_productive : productive (c_rules anbn).
Proof. apply (productive_check_ok 6). reflexivity. Qed.
Lemma anbn_user : forall s, s = 4 \/ s = 5 -> user_terminal anbn 6 wrap s.
Proof.
  intros s [-> | ->]; (split; [lia|]); (split; [|split; discriminate]); apply is_terminal_spec; reflexivity.
Qed.
Lemma anbn_mapped : forall l, mapped anbn_dg l l.
Proof. induction l as [|s l IH]; constructor; [reflexivity|exact IH]. Qed.
Lemma anbn_sentence : sentence anbn wrap 6 [4; 4; 5; 5].
Proof.
  right. split; [eexists; split; [right; right; right; left; reflexivity|split; reflexivity]|].
  apply (derives_rule _ (rule 3 [7; 5] (Some 0))); [simpl; auto|].
  apply (derives_cons _ 7 [5] [4; 4; 5] [5]); [|apply (derives_cons _ 5 [] [5] []); constructor].
  apply (derives_rule _ (rule 7 [4; 3] None)); [simpl; auto 6|].
  apply (derives_cons _ 4 [3] [4] [4; 5]); [constructor|]. apply (derives_cons _ 3 [] [4; 5] []); [|constructor].
  apply (derives_rule _ (rule 3 [4; 5] (Some 1))); [simpl; auto|].
  apply (derives_cons _ 4 [5] [4] [5]); [constructor|]. apply (derives_cons _ 5 [] [5] []); constructor.
Qed.
Lemma anbn_nonempty : nonempty_language anbn wrap 6.
Proof.
  exists [4; 4; 5; 5]. split; [exact anbn_sentence|]. repeat constructor; apply is_terminal_spec; reflexivity.
Qed.

(** C01.  On a new recognizer, [parse] returns Ok(true) exactly if the tokens form a
    sentence. *)
Theorem C01_parse_decides_language : forall F N (fo : forest_ops F N) f0 P c nsyms w d0 g0 g,
  configured fo f0 P c nsyms w d0 g0 g ->
  forall tokens syms, mapped g tokens syms -> (forall s, In s syms -> user_terminal c nsyms w s) ->
  exists n r, total n (fun fuel => st <- r_new g f0 ;; '(r, _) <- parse fo P g fuel st tokens ;; Ret r) r /\
    (r = POk true <-> sentence c w g0 syms).
Proof. exact @P_parse_decides. Qed.
Print Assumptions C01_parse_decides_language.

Example C01_example :
  configured null_forest tt default_perf anbn 6 wrap 0 6 anbn_dg /\
  mapped anbn_dg [4; 4; 5; 5] [4; 4; 5; 5] /\ (forall s, In s [4; 4; 5; 5] -> user_terminal anbn 6 wrap s) /\
  sentence anbn wrap 6 [4; 4; 5; 5] /\
  run_parse (Ret anbn_dg) [4; 4; 5; 5] = Ret (POk true) /\
  run_parse (Ret anbn_dg) [4; 4; 5] = Ret (POk false) /\
  configured null_forest tt default_perf opt 5 wrap 0 5 opt_dg /\
  run_parse (Ret opt_dg) [] = Ret (POk true) /\ run_parse (Ret opt_dg) [4; 4] = Ret (POk true).
Proof.
  split; [exact anbn_configured|]. split; [apply anbn_mapped|].
  split; [intros s H; apply anbn_user; simpl in H; intuition|]. split; [exact anbn_sentence|].
  split; [vm_compute; reflexivity|]. split; [vm_compute; reflexivity|]. split; [exact opt_configured|].
  split; vm_compute; reflexivity.
Qed.

(** C02.  [parse] never panics and terminates, for all tokens that are symbols of the
    grammar (terminals or not). *)
Theorem C02_parse_total : forall F N (fo : forest_ops F N) f0 P c nsyms w d0 g0 g,
  configured fo f0 P c nsyms w d0 g0 g ->
  forall tokens syms, mapped g tokens syms -> (forall s, In s syms -> s < nsyms) ->
  exists n r, total n (fun fuel => st <- r_new g f0 ;; '(r, _) <- parse fo P g fuel st tokens ;; Ret r) r.
Proof. exact @P_parse_total. Qed.
Print Assumptions C02_parse_total.

Example C02_example : configured null_forest tt default_perf amb 5 wrap 0 5 amb_dg /\
  run_parse (Ret amb_dg) [4; 4; 4; 4; 4] = Ret (POk true) /\ run_parse (Ret amb_dg) [2; 0; 3] <> Panic.
Proof. split; [exact amb_configured|]. split; [vm_compute; reflexivity|vm_compute; discriminate]. Qed.

(** C03.  Reading the start marker and then tokens one by one without hints, all
    [end_earleme] calls answer true exactly if the tokens are a viable prefix.  As this
    holds of every prefix too, the first false answer is at the first token that makes
    the input hopeless. *)
Theorem C03_viable_prefix : forall F N (fo : forest_ops F N) f0 P c nsyms w d0 g0 g,
  configured fo f0 P c nsyms w d0 g0 g ->
  forall xs : list (sym * nat), productive (c_rules c) -> (forall s v, In (s, v) xs -> user_terminal c nsyms w s) ->
  exists n b, total n (fun fuel => st <- r_new g f0 ;; '(b, _) <- feed_all fo P g fuel (read_start w :: map plain xs) st ;; Ret b) b /\
    (b = true <-> viable c nsyms w g0 (map fst xs)).
Proof. exact @P_viable_prefix. Qed.
Print Assumptions C03_viable_prefix.

Example C03_example : productive (c_rules anbn) /\
  (forall s v, In (s, v) [(4, 1); (4, 2); (5, 3)] -> user_terminal anbn 6 wrap s) /\
  (st <- r_new anbn_dg tt ;; '(b, _) <- feed_all null_forest default_perf anbn_dg 50 (read_start wrap :: map plain [(4, 1); (4, 2); (5, 3)]) st ;; Ret b) = Ret true /\
  (st <- r_new anbn_dg tt ;; '(b, _) <- feed_all null_forest default_perf anbn_dg 50 (read_start wrap :: map plain [(4, 1); (5, 2); (5, 3)]) st ;; Ret b) = Ret false.
Proof.
  split; [exact anbn_productive|]. split; [|split; vm_compute; reflexivity].
  intros s v H. apply anbn_user. simpl in H. intuition congruence.
Qed.

(** C04.  After each prefix, [is_finished] is true exactly if the prefix is a sentence. *)
Theorem C04_finished_iff_sentence : forall F N (fo : forest_ops F N) f0 P c nsyms w d0 g0 g,
  configured fo f0 P c nsyms w d0 g0 g ->
  forall xs : list (sym * nat), (forall s v, In (s, v) xs -> user_terminal c nsyms w s) ->
  exists n v, total n (fun fuel => st <- r_new g f0 ;; verdict fo P g fuel (read_start w :: map plain xs) st) v /\
    (v = true <-> sentence c w g0 (map fst xs)).
Proof. exact @P_verdict_prefix. Qed.
Print Assumptions C04_finished_iff_sentence.

Example C04_example :
  (forall s v, In (s, v) [(4, 1); (5, 2)] -> user_terminal anbn 6 wrap s) /\
  (st <- r_new anbn_dg tt ;; verdict null_forest default_perf anbn_dg 50 (read_start wrap :: map plain [(4, 1); (5, 2)]) st) = Ret true /\
  (st <- r_new anbn_dg tt ;; verdict null_forest default_perf anbn_dg 50 (read_start wrap :: map plain [(4, 1)]) st) = Ret false.
Proof.
  split; [|split; vm_compute; reflexivity]. intros s v H. apply anbn_user. simpl in H. intuition congruence.
Qed.

(** C05.  With several tokens offered at each location, [is_finished] is true at the end
    exactly if some choice of one token per location is a sentence ... *)
Theorem C05_overlapping_union : forall F N (fo : forest_ops F N) f0 P c nsyms w d0 g0 g,
  configured fo f0 P c nsyms w d0 g0 g ->
  forall Ws, (forall ts s v, In ts Ws -> In (s, v) ts -> user_terminal c nsyms w s) ->
  exists n v, total n (fun fuel => st <- r_new g f0 ;; verdict fo P g fuel (read_start w :: map overlapping Ws) st) v /\
    (v = true <-> exists ys, choice Ws ys /\ sentence c w g0 (map fst ys)).
Proof. exact @P_verdict_offered. Qed.
Print Assumptions C05_overlapping_union.

(** ... and all [end_earleme] answers are true exactly if some choice is viable. *)
Theorem C05_overlapping_viable : forall F N (fo : forest_ops F N) f0 P c nsyms w d0 g0 g,
  configured fo f0 P c nsyms w d0 g0 g ->
  forall Ws, productive (c_rules c) -> (forall ts s v, In ts Ws -> In (s, v) ts -> user_terminal c nsyms w s) ->
  exists n b, total n (fun fuel => st <- r_new g f0 ;; '(b, _) <- feed_all fo P g fuel (read_start w :: map overlapping Ws) st ;; Ret b) b /\
    (b = true <-> exists ys, choice Ws ys /\ viable c nsyms w g0 (map fst ys)).
Proof. exact @P_answer_offered. Qed.
Print Assumptions C05_overlapping_viable.

Example C05_example :
  (forall ts s v, In ts [[(4, 1); (5, 2)]; [(5, 3); (4, 4)]] -> In (s, v) ts -> user_terminal anbn 6 wrap s) /\
  (st <- r_new anbn_dg tt ;; verdict null_forest default_perf anbn_dg 50
     (read_start wrap :: map overlapping [[(4, 1); (5, 2)]; [(5, 3); (4, 4)]]) st) = Ret true.
Proof.
  split; [|vm_compute; reflexivity]. intros ts s v H1 H2. apply anbn_user. simpl in H1.
  destruct H1 as [<-|[<-|[]]]; simpl in H2; intuition congruence.
Qed.

(** C06.  Whatever the subset [use] of the locations at which the really following token
    is given as hint, the verdict is the same: that of the grammar. *)
Theorem C06_truthful_hints : forall F N (fo : forest_ops F N) f0 P c nsyms w d0 g0 g,
  configured fo f0 P c nsyms w d0 g0 g ->
  forall use (xs : list (sym * nat)), (forall s v, In (s, v) xs -> user_terminal c nsyms w s) ->
  exists n v, total n (fun fuel => st <- r_new g f0 ;; verdict fo P g fuel (hinted use 0 ((w_sof w, 0) :: xs)) st) v /\
    (v = true <-> sentence c w g0 (map fst xs)).
Proof. exact @P_verdict_hinted. Qed.
Print Assumptions C06_truthful_hints.

Example C06_example :
  hinted Nat.even 0 [(2, 0); (4, 1); (5, 2)] = [mkLoc (Some 4) [(2, 0)] keep_all; mkLoc None [(4, 1)] keep_all; mkLoc None [(5, 2)] keep_all] /\
  (st <- r_new anbn_dg tt ;; verdict null_forest default_perf anbn_dg 50 (hinted Nat.even 0 [(2, 0); (4, 1); (5, 2)]) st) = Ret true.
Proof. split; [reflexivity|vm_compute; reflexivity]. Qed.

(** C07, the part that holds: when [parse] returns Err(Parse) with index [i], the reported
    token is [tokens[i]], [tokens[..i]] is a viable prefix, and [tokens[..i+2]] is not.
    Missing: [tokens[..i+1]] may be viable (see [C07_refuted]): the token named is the
    offending one or the one before it. *)
Theorem C07_error_index_partial : forall F N (fo : forest_ops F N) f0 P c nsyms w d0 g0 g,
  configured fo f0 P c nsyms w d0 g0 g ->
  forall tokens syms fuel st0 err i st', productive (c_rules c) -> nonempty_language c w g0 ->
  mapped g tokens syms -> (forall s, In s syms -> user_terminal c nsyms w s) -> r_new g f0 = Ret st0 ->
  parse fo P g fuel st0 tokens = Ret (PErrParse err i, st') ->
  (exists tok, nth_error tokens i = Some tok /\ err = [tok]) /\
  viable c nsyms w g0 (firstn i syms) /\ ~ viable c nsyms w g0 (firstn (i + 2) syms).
Proof. exact @P_error_index. Qed.
Print Assumptions C07_error_index_partial.

(** C07 refuted: on a a b a b the error index is 2 although a a b is viable. *)
Theorem C07_refuted : exists c nsyms w d0 g0 g tokens i,
  configured null_forest tt default_perf c nsyms w d0 g0 g /\ mapped g tokens tokens /\
  (forall s, In s tokens -> user_terminal c nsyms w s) /\
  (exists err, run_parse (Ret g) tokens = Ret (PErrParse err i)) /\
  viable c nsyms w g0 (firstn (S i) tokens).
Proof.
  exists anbn, 6, wrap, 0, 6, anbn_dg, [4; 4; 5; 4; 5], 2. split; [exact anbn_configured|]. split; [apply anbn_mapped|].
  split; [intros s H; apply anbn_user; simpl in H; intuition|]. split; [eexists; vm_compute; reflexivity|].
  exists [5]. split; [repeat constructor; apply is_terminal_spec; reflexivity|exact anbn_sentence].
Qed.
Print Assumptions C07_refuted.

(** C08, answers: a recognizer that drops unreachable Earley sets after every token and
    one that keeps them all give the same [end_earleme] answers and the same
    [is_finished], for any hints, tokens and rejected groups, over any forest.  The parse
    trees are compared by [C08_dropping_sets]. *)
Theorem C08_same_answers : forall F N (fo : forest_ops F N) f0 P c nsyms w d0 g0 g,
  configured fo f0 P c nsyms w d0 g0 g ->
  forall locs, (forall loc, In loc locs -> match l_hint loc with Some t => t < nsyms | None => True end /\
      forall s v, In (s, v) (l_toks loc) -> s < c_num_syms c) -> locs <> [] ->
  exists st0 n1 n2 b fin, r_new g f0 = Ret st0 /\
    (forall fuel, fuel < n1 -> feed_all fo P g fuel locs st0 = NoFuel) /\
    (forall fuel, fuel < n2 -> feed_all_keeping_sets fo P g fuel locs st0 = NoFuel) /\
    (forall fuel, n1 <= fuel -> exists st', feed_all fo P g fuel locs st0 = Ret (b, st') /\
       (b = true -> is_finished fo g st' = Ret fin)) /\
    (forall fuel, n2 <= fuel -> exists st', feed_all_keeping_sets fo P g fuel locs st0 = Ret (b, st') /\
       (b = true -> is_finished fo g st' = Ret fin)).
Proof.
  exact (fun F N fo f0 P c nsyms w d0 g0 g HC locs Hok Hne =>
    match cf_forest _ _ _ _ _ _ _ _ _ HC with
    | ex_intro _ ok (conj HU Hf0) =>
        dropping_same fo ok HU P c nsyms w d0 g0 g (cf_leo _ _ _ _ _ _ _ _ _ HC) (cf_grammar _ _ _ _ _ _ _ _ _ HC) f0 locs Hf0 Hok Hne
    end).
Qed.
Print Assumptions C08_same_answers.

Example C08_example :
  (forall loc, In loc (read_start wrap :: map plain [(4, 0); (4, 0); (5, 0)]) ->
    match l_hint loc with Some t => t < 6 | None => True end /\ forall s v, In (s, v) (l_toks loc) -> s < c_num_syms anbn) /\
  (st <- r_new anbn_dg tt ;; '(_, st) <- feed_all null_forest default_perf anbn_dg 50 (read_start wrap :: map plain [(4, 0); (4, 0); (5, 0)]) st ;; Ret (v_len (r_medial st))) = Ret 3 /\
  (st <- r_new anbn_dg tt ;; '(_, st) <- feed_all_keeping_sets null_forest default_perf anbn_dg 50 (read_start wrap :: map plain [(4, 0); (4, 0); (5, 0)]) st ;; Ret (v_len (r_medial st))) = Ret 5.
Proof.
  split; [|split; vm_compute; reflexivity]. intros loc H. simpl in H.
  repeat (destruct H as [<-|H]; [split; [exact I|intros s v [E|[]]; injection E as <- <-; simpl; lia]|]). destruct H.
Qed.

(** C09, the part that holds: after any sequence of calls (successful or not) that leaves
    no lookahead hint set, [reset] followed by [parse] terminates without panic and
    decides the language as on a new recognizer.  Missing: a left-over hint, and calls
    other than [parse] on input the predictions of which are left over (see below). *)
Theorem C09_reset_partial : forall F N (fo : forest_ops F N) f0 P c nsyms w d0 g0 g,
  configured fo f0 P c nsyms w d0 g0 g ->
  forall fuel0 cs l st tokens syms, session fo P g fuel0 f0 cs = Ret (l, st) -> r_hint st = None ->
  mapped g tokens syms -> (forall s, In s syms -> user_terminal c nsyms w s) ->
  exists n r, total n (fun fuel => st <- reset g st ;; '(r, _) <- parse fo P g fuel st tokens ;; Ret r) r /\
    (r = POk true <-> sentence c w g0 syms).
Proof. exact @P_reset. Qed.
Print Assumptions C09_reset_partial.

Definition tk (s : sym) : list call := [CBegin; CScan s 0; CEnd].
Example C09_example : exists l st, session null_forest default_perf anbn_dg 50 tt (tk 2 ++ tk 4 ++ tk 4 ++ tk 5) = Ret (l, st) /\
  r_hint st = None.
Proof. eexists. eexists. split; [vm_compute; reflexivity|reflexivity]. Qed.

(** C09 refuted: after sof a a a and reset, [end_earleme] answers true to the last token of
    sof a b a, which a new recognizer rejects; and a hint set before the reset makes the
    recognizer reject the start marker. *)
Theorem C09_refuted :
  (exists g before after, (exists c nsyms w d0 g0, configured null_forest tt default_perf c nsyms w d0 g0 g) /\
     exists l1 l2, answers null_forest default_perf g 100 tt (before ++ CReset :: after) = Ret l1 /\
       answers null_forest default_perf g 100 tt after = Ret l2 /\
       last l1 AUnit = ABool true /\ last l2 AUnit = ABool false) /\
  (exists g hint after, (exists c nsyms w d0 g0, configured null_forest tt default_perf c nsyms w d0 g0 g) /\
     exists l1 l2, answers null_forest default_perf g 100 tt (CBegin :: CSetHint hint :: CReset :: after) = Ret l1 /\
       answers null_forest default_perf g 100 tt after = Ret l2 /\
       last l1 AUnit = ABool false /\ last l2 AUnit = ABool true).
Proof.
  split.
  - exists anbn_dg, (tk 2 ++ tk 4 ++ tk 4 ++ tk 4), (tk 2 ++ tk 4 ++ tk 5 ++ tk 4).
    split; [do 5 eexists; exact anbn_configured|]. eexists. eexists. split; [vm_compute; reflexivity|].
    split; [vm_compute; reflexivity|]. split; reflexivity.
  - exists anbn_dg, 5, (tk 2). split; [do 5 eexists; exact anbn_configured|]. eexists. eexists.
    split; [vm_compute; reflexivity|]. split; [vm_compute; reflexivity|]. split; reflexivity.
Qed.
Print Assumptions C09_refuted.

(** C21.  For any grammar and any sequence of calls, two forest implementations that do
    not panic give the same answers (or the same panic, or the same lack of fuel). *)
Theorem C21_forest_independence : forall F1 N1 F2 N2 (fo1 : forest_ops F1 N1) (fo2 : forest_ops F2 N2) ok1 ok2 f1 f2 P g fuel cs,
  usable fo1 ok1 -> usable fo2 ok2 -> ok1 Idle f1 -> ok2 Idle f2 ->
  answers fo1 P g fuel f1 cs = answers fo2 P g fuel f2 cs.
Proof. exact answers_independent. Qed.
Print Assumptions C21_forest_independence.

Example C21_example : usable null_forest (fun _ _ => True) /\
  usable free_forest (fun ph f => ph = Summing true -> f <> []) /\
  answers null_forest default_perf anbn_dg 50 tt (tk 2 ++ tk 4 ++ [CBegin; CMedial]) =
  answers free_forest default_perf anbn_dg 50 [] (tk 2 ++ tk 4 ++ [CBegin; CMedial]).
Proof. split; [exact null_usable|]. split; [exact free_usable|]. vm_compute. reflexivity. Qed.

(** C25.  [parse_terminal_list] returns Ok(true), Err(Finish) or Err(Tokenize), nothing
    else: Ok(true) exactly if every word is known and the words form a sentence,
    Err(Tokenize) exactly if some word is unknown, naming the first one. *)
Theorem C25_terminal_list : forall F N (fo : forest_ops F N) f0 P c nsyms w d0 g0 g,
  configured fo f0 P c nsyms w d0 g0 g ->
  forall name_map words,
  (forall tokens, Forall2 (fun x s => name_map x = Some s) words tokens ->
     exists syms, mapped g tokens syms /\ forall s, In s syms -> user_terminal c nsyms w s) ->
  exists n r, total n (fun fuel => parse_terminal_list fo P g fuel f0 name_map words) r /\
    (r = POk true \/ r = PErrFinish \/ exists x, r = PErrTokenize x) /\
    (r = POk true <-> exists tokens syms, Forall2 (fun x s => name_map x = Some s) words tokens /\
       mapped g tokens syms /\ sentence c w g0 syms) /\
    (forall x, r = PErrTokenize x <-> exists before after, words = before ++ x :: after /\ name_map x = None /\
       Forall (fun x => name_map x <> None) before).
Proof. exact @P_terminal_list. Qed.
Print Assumptions C25_terminal_list.

(** words 10 and 11 are the terminals a and b *)
Definition names (x : nat) : option sym := match x with 10 => Some 4 | 11 => Some 5 | _ => None end.
Example C25_example :
  (forall words tokens, Forall2 (fun x s => names x = Some s) words tokens ->
     exists syms, mapped anbn_dg tokens syms /\ forall s, In s syms -> user_terminal anbn 6 wrap s) /\
  parse_terminal_list null_forest default_perf anbn_dg 50 tt names [10; 11] = Ret (POk true) /\
  parse_terminal_list null_forest default_perf anbn_dg 50 tt names [10; 11; 11] = Ret PErrFinish /\
  parse_terminal_list null_forest default_perf anbn_dg 50 tt names [10; 12; 13] = Ret (PErrTokenize 12).
Proof.
  split; [|repeat split; vm_compute; reflexivity]. intros words tokens H. exists tokens. split; [apply anbn_mapped|].
  intros s Hs. apply anbn_user. induction H as [|x t l l' E _ IH]; [destruct Hs|]. destruct Hs as [<-|Hs]; [|auto].
  do 10 (destruct x as [|x]; [discriminate|]). destruct x as [|x]; [injection E; auto|]. destruct x as [|x]; [injection E; auto|discriminate].
Qed.

(** C26.  [parse_tokenizing] returns Ok(true), never Ok(false), exactly if some assignment
    of lexer terminals is a sentence; Err(Parse) names the first character after which no
    assignment is viable, with its terminals; otherwise Err(Finish). *)
Theorem C26_tokenizing : forall F N (fo : forest_ops F N) f0 P c nsyms w d0 g0 g,
  configured fo f0 P c nsyms w d0 g0 g ->
  forall lexer terminals input, productive (c_rules c) -> nonempty_language c w g0 ->
  (forall ch, In ch input -> mapped g (lexer ch) (terminals ch) /\ forall s, In s (terminals ch) -> user_terminal c nsyms w s) ->
  exists n, (forall fuel, fuel < n -> parse_tokenizing fo P g fuel f0 lexer input = NoFuel) /\
    forall fuel, n <= fuel -> exists r, parse_tokenizing fo P g fuel f0 lexer input = Ret r /\
    match r with
    | POk b => b = true /\ exists x, lexes terminals input x /\ sentence c w g0 x
    | PErrFinish => (exists x, lexes terminals input x /\ viable c nsyms w g0 x) /\
        forall x, lexes terminals input x -> ~ sentence c w g0 x
    | PErrParse toks i => (exists ch, nth_error input i = Some ch /\ toks = lexer ch) /\
        (exists x, lexes terminals (firstn i input) x /\ viable c nsyms w g0 x) /\
        forall x, lexes terminals (firstn (S i) input) x -> ~ viable c nsyms w g0 x
    | PErrTokenize _ => False
    end.
Proof. exact @P_tokenizing. Qed.
Print Assumptions C26_tokenizing.

Definition lex (ch : nat) : list sym := match ch with 0 => [4] | 1 => [5] | 2 => [4; 5] | _ => [] end.
Example C26_example : productive (c_rules anbn) /\ nonempty_language anbn wrap 6 /\
  (forall ch, mapped anbn_dg (lex ch) (lex ch) /\ forall s, In s (lex ch) -> user_terminal anbn 6 wrap s) /\
  parse_tokenizing null_forest default_perf anbn_dg 50 tt lex [0; 2; 1; 2] = Ret (POk true) /\
  parse_tokenizing null_forest default_perf anbn_dg 50 tt lex [0; 2; 2] = Ret PErrFinish /\
  parse_tokenizing null_forest default_perf anbn_dg 50 tt lex [0; 1; 2; 0] = Ret (PErrParse [4; 5] 2).
Proof.
  split; [exact anbn_productive|]. split; [exact anbn_nonempty|]. split; [|repeat split; vm_compute; reflexivity].
  intros ch. split; [apply anbn_mapped|]. intros s H. apply anbn_user.
  destruct ch as [|[|[|ch]]]; simpl in H; intuition.
Qed.

(** C30.  After reading any (overlapping) input without hints and beginning the next
    location, [predicted_symbols] contains exactly those terminals that continue some
    choice of the tokens read to a viable prefix - which, by C05, are those accepted next. *)
Theorem C30_predicted_symbols : forall F N (fo : forest_ops F N) f0 P c nsyms w d0 g0 g,
  configured fo f0 P c nsyms w d0 g0 g ->
  forall Ws fuel st0 st', productive (c_rules c) ->
  (forall ts s v, In ts Ws -> In (s, v) ts -> user_terminal c nsyms w s) ->
  r_new g f0 = Ret st0 -> feed_all fo P g fuel (read_start w :: map overlapping Ws) st0 = Ret (true, st') ->
  exists l, predicted_symbols (begin_earleme P st') = Ret l /\
    forall s, user_terminal c nsyms w s ->
      (In s l <-> exists ys, choice Ws ys /\ viable c nsyms w g0 (map fst ys ++ [s])).
Proof. exact @P_predicted. Qed.
Print Assumptions C30_predicted_symbols.

Example C30_example : exists st0 st', r_new anbn_dg tt = Ret st0 /\
  feed_all null_forest default_perf anbn_dg 50 (read_start wrap :: map overlapping [[(4, 0)]]) st0 = Ret (true, st') /\
  predicted_symbols (begin_earleme default_perf st') = Ret [3; 4; 5].
Proof. eexists. eexists. split; [vm_compute; reflexivity|]. split; [vm_compute; reflexivity|]. vm_compute. reflexivity. Qed.

(** C31 refuted: after sof a, [expected_terminals] lists S, which is no terminal, and does
    not list a, which can be scanned next. *)
Theorem C31_refuted : exists c nsyms w d0 g0 g cs l e s t,
  configured null_forest tt default_perf c nsyms w d0 g0 g /\
  answers null_forest default_perf g 50 tt (cs ++ [CExpected]) = Ret (l ++ [ASyms e]) /\
  In s e /\ ~ terminal (c_rules c) s /\
  user_terminal c nsyms w t /\ ~ In t e /\
  exists l', answers null_forest default_perf g 50 tt (cs ++ [CScan t 0; CEnd]) = Ret (l' ++ [ABool true]).
Proof.
  exists anbn, 6, wrap, 0, 6, anbn_dg, (tk 2 ++ tk 4 ++ [CBegin]), [AUnit; AUnit; ABool true; AUnit; AUnit; ABool true; AUnit], [3; 5], 3, 4.
  split; [exact anbn_configured|]. split; [vm_compute; reflexivity|]. split; [simpl; auto|].
  split; [intros H; apply (H (rule 3 [4; 5] (Some 1))); [simpl; auto|reflexivity]|].
  split; [apply anbn_user; auto|]. split; [simpl; intuition discriminate|].
  exists [AUnit; AUnit; ABool true; AUnit; AUnit; ABool true; AUnit; AUnit]. vm_compute. reflexivity.
Qed.
Print Assumptions C31_refuted.

(** C32 refuted: after the first token is rejected, offering it again eight times is
    answered false, then the recognizer panics. *)
Theorem C32_refuted : exists g cs l, (exists c nsyms w d0 g0, configured null_forest tt default_perf c nsyms w d0 g0 g) /\
  answers null_forest default_perf g 50 tt cs = Ret (l ++ [ABool false]) /\
  exists n, answers null_forest default_perf g 50 tt (cs ++ concat (repeat (tk 5) n)) = Panic.
Proof.
  exists anbn_dg, (tk 2 ++ tk 5), [AUnit; AUnit; ABool true; AUnit; AUnit].
  split; [do 5 eexists; exact anbn_configured|]. split; [vm_compute; reflexivity|]. exists 8. vm_compute. reflexivity.
Qed.
Print Assumptions C32_refuted.

(** S ::= a X, X ::= (nothing).  0 eof, 1 root, 2 sof, 3 S, 4 a, 5 X, 6 g0 *)
Definition tail : pcfg := {|
  c_rules := [ rule 1 [6; 0] None;                        (* root ::= g0 eof *)
               mkRule 3 [4] (Some 0) (Some (5, true)) [Some no_dot; Some no_dot; Some no_dot]; (* S ::= a, X nulled *)
               rule 6 [2; 3] None ];                      (* g0 ::= sof S *)
  c_num_syms := 7;
  c_roots := [1];
  c_wrapped := [mkWrapped 1 2 0 3] |}.
Definition tail_first : list (sym * list sym) := [(1, [2]); (3, [4]); (6, [2])].
Definition tail_follow : list (sym * list sym) := [(2, [4]); (3, [0]); (4, [0]); (6, [0])].
Definition tail_nulling : list prule := [mkRule 5 [] (Some 1) None [Some no_dot]].
Definition tail_dg : dgrammar := Eval vm_compute in the (mkG 0 0 false 0 0 0 0 0 0 [] v_new [] [] [] [] [] [] [] [] [] [] no_maps (mkFI [] [] [] 0 0 0))
  (from_processed_grammars 10 tail no_maps tail_nulling tail_first tail_follow).
Lemma tail_configured : configured null_forest tt default_perf tail 6 wrap 0 6 tail_dg.
Proof.
  split; [exists (fun _ _ => True); split; [exact null_usable|exact I]|reflexivity|].
  apply (built_check_ok 6 tail 6 wrap 0 6 (fun _ => 0) (fun s => s) 10 no_maps tail_nulling tail_first tail_follow); vm_compute; reflexivity.
Qed.

(** C33 refuted: with a nullable symbol anywhere in the grammar, a new recognizer claims to
    be finished although the empty string is no sentence. *)
Theorem C33_refuted : exists c nsyms w d0 g0 g,
  configured null_forest tt default_perf c nsyms w d0 g0 g /\
  answers null_forest default_perf g 50 tt [CFinished] = Ret [ABool true] /\
  ~ sentence c w g0 [].
Proof.
  exists tail, 6, wrap, 0, 6, tail_dg. split; [exact tail_configured|]. split; [vm_compute; reflexivity|].
  intros [(_ & r & Hin & El & Er)|(_ & H)].
  - simpl in Hin. destruct Hin as [<-|[<-|[<-|[]]]]; discriminate.
  - exact (proj1 (derives_nonempty2 (c_rules tail) 6 7 (pr_wf _ _ _ _ _ (b_processed _ _ _ _ _ _ (cf_grammar _ _ _ _ _ _ _ _ _ tail_configured))))
      3 [] H eq_refl).
Qed.
Print Assumptions C33_refuted.

(** C34 refuted: after the start marker and three tokens, all accepted, [earleme] is 1. *)
Theorem C34_refuted : exists g cs l k, (exists c nsyms w d0 g0, configured null_forest tt default_perf c nsyms w d0 g0 g) /\
  answers null_forest default_perf g 50 tt (concat (map tk cs) ++ [CEarleme]) = Ret (l ++ [AEarleme (Some k)]) /\
  Forall (fun a => a = ABool true \/ a = AUnit) l /\ k < length cs - 1.
Proof.
  exists anbn_dg, [2; 4; 4; 5], [AUnit; AUnit; ABool true; AUnit; AUnit; ABool true; AUnit; AUnit; ABool true; AUnit; AUnit; ABool true], 1.
  split; [do 5 eexists; exact anbn_configured|]. split; [vm_compute; reflexivity|]. split; [repeat (apply Forall_cons; [auto|]); constructor|simpl; lia].
Qed.
Print Assumptions C34_refuted.

(** C29 refuted: [events] looks up the event of predicted symbols by symbol number in a
    table with one entry per rule, and so panics when there are fewer rules. *)
Theorem C29_refuted : exists g cs l, (exists c nsyms w d0 g0, configured null_forest tt default_perf c nsyms w d0 g0 g) /\
  answers null_forest default_perf g 50 tt cs = Ret l /\
  answers null_forest default_perf g 50 tt (cs ++ [CEvents]) = Panic.
Proof.
  exists anbn_dg, (tk 2 ++ tk 4 ++ [CBegin]). eexists. split; [do 5 eexists; exact anbn_configured|].
  split; vm_compute; reflexivity.
Qed.
Print Assumptions C29_refuted.

(** C37.  A client that, at each location, accepts only the groups selected by a predicate
    on the symbol (the predicate may differ from location to location) accepts exactly if
    there is a parse tree over some choice of the offered tokens in which every inner node
    ending at location [j] has a symbol accepted at [j].  Locations 0 and 1 are before and
    after the start marker. *)
Theorem C37_rejecting_groups : forall F N (fo : forest_ops F N) f0 P c nsyms w d0 g0 g,
  configured fo f0 P c nsyms w d0 g0 g ->
  forall (xs : list (list (sym * nat) * (sym -> bool))),
  (forall x s v, In x xs -> In (s, v) (fst x) -> user_terminal c nsyms w s) ->
  let keep j s := match j with S (S j') => match nth_error xs j' with Some x => snd x s | None => true end | _ => true end in
  exists n v, total n (fun fuel => st <- r_new g f0 ;; verdict fo P g fuel (read_start w :: map filtered xs) st) v /\
    (v = true <-> exists t, parse_tree (c_rules c) g0 t /\
       choice ([(w_sof w, 0)] :: map fst xs) (yield t) /\ constituents_ok (c_rules c) keep 0 t).
Proof. exact @P_verdict_filtered. Qed.
Print Assumptions C37_rejecting_groups.

(** a a b b with the constituent S ending after the third or after the last token rejected *)
Example C37_example :
  let xs k := [([(4, 0)], keep_all); ([(4, 0)], keep_all); ([(5, 0)], fun s => k || negb (s =? 3)); ([(5, 0)], keep_all)] in
  (forall k x s v, In x (xs k) -> In (s, v) (fst x) -> user_terminal anbn 6 wrap s) /\
  (st <- r_new anbn_dg tt ;; verdict null_forest default_perf anbn_dg 50 (read_start wrap :: map filtered (xs true)) st) = Ret true /\
  (st <- r_new anbn_dg tt ;; verdict null_forest default_perf anbn_dg 50 (read_start wrap :: map filtered (xs false)) st) = Ret false.
Proof.
  cbv zeta. split; [|split; vm_compute; reflexivity]. intros k x s v H1 H2. apply anbn_user. simpl in H1.
  destruct H1 as [<-|[<-|[<-|[<-|[]]]]]; simpl in H2; intuition congruence.
Qed.
