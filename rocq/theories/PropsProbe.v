(** PropsProbe: inspecting the recognizer between locations: [trace], [events],
    [expected_terminals], [earleme], [is_finished]. *)
From Coq Require Import List Arith Bool Lia Sorted.
From Verif Require Import Base Vec2d Item Grammar DefaultGrammar Forest ForestSpec Recognizer Drive Session Spec CfgSpec ClientSpec GroupSpec
  ProbeSpec ExampleGrammars Sim Check PropLemmas6 Position PropsRecog.
Import ListNotations.
Local Open Scope res_scope.

(** S ::= a S b | a b | b a, with tracing records and events attached to every position.
    0 eof, 1 root, 2 sof, 3 S, 4 a, 5 b, 6 g0, 7 g1 *)
Definition noted (n : nat) (l : sym) (r : list sym) (origin : option nat) : prule :=
  mkRule l r origin None (map (fun k => Some (mkDot (Some (10 * n + k), Some k) (Some (n, k)))) [0; 1; 2]).
Definition traced : pcfg := {|
  c_rules := [ noted 0 1 [6; 0] None; noted 1 3 [7; 5] (Some 0); noted 2 3 [4; 5] (Some 1); noted 3 3 [5; 4] (Some 2);
               noted 4 6 [2; 3] None; noted 5 7 [4; 3] None ];
  c_num_syms := 8;
  c_roots := [1];
  c_wrapped := [mkWrapped 1 2 0 3] |}.
Definition traced_first : list (sym * list sym) := [(1, [2]); (3, [4; 5]); (6, [2]); (7, [4])].
Definition traced_follow : list (sym * list sym) :=
  [(2, [4; 5]); (3, [0; 5]); (4, [0; 4; 5]); (5, [0; 4; 5]); (6, [0]); (7, [5])].
Definition traced_dg : dgrammar := Eval vm_compute in the (mkG 0 0 false 0 0 0 0 0 0 [] v_new [] [] [] [] [] [] [] [] [] [] no_maps (mkFI [] [] [] 0 0 0))
  (from_processed_grammars 10 traced no_maps [] traced_first traced_follow).
Lemma traced_configured : configured null_forest tt default_perf traced 6 wrap 0 6 traced_dg.
Proof.
  split; [exists (fun _ _ => True); split; [apply null_usable|exact I]|reflexivity|].
  apply (built_check_ok 6 traced 6 wrap 0 6 (fun _ => 0) (fun _ => 0) 10 no_maps [] traced_first traced_follow); vm_compute; reflexivity.
Qed.
Lemma traced_user : forall s, s = 4 \/ s = 5 -> user_terminal traced 6 wrap s.
Proof.
  intros s [-> | ->]; (split; [lia|]); (split; [|split; discriminate]); apply is_terminal_spec; reflexivity.
Qed.

(** ** C40: trace

    Whatever locations were read, with whatever hints and selections of groups, as long as
    all were answered true: once the next location is begun, [trace] does not panic.  It
    gives one record for each predicted symbol, with the number of the current set, then
    one record for each item of the current set, with the origin of the item.  The records
    are those the grammar attaches to the start of the symbol's rules and to the place
    after the first symbol of the item's rule. *)
Theorem C40_trace : forall F N (fo : forest_ops F N) f0 P c nsyms w d0 g0 g,
  configured fo f0 P c nsyms w d0 g0 g ->
  forall locs, (forall l, In l locs -> acceptable c nsyms l) ->
  forall fuel st0 st', r_new g f0 = Ret st0 -> feed_all fo P g fuel locs st0 = Ret (true, st') ->
  exists e preds items l1 l2,
    earleme (begin_earleme P st') = Some e /\ predicted_symbols (begin_earleme P st') = Ret preds /\
    medial_items (begin_earleme P st') = Ret items /\ trace g (begin_earleme P st') = Ret (l1 ++ l2) /\
    Forall2 (fun s x => prediction_record c s (fst x) /\ snd x = e) preds l1 /\
    Forall2 (fun it x => medial_record c (it_dot it) (fst x) /\ snd x = it_origin it) items l2.
Proof. exact @P_trace. Qed.
Print Assumptions C40_trace.

(** Without hints, the traced places are exactly the genuine ones: a symbol is traced if it
    may start here in some continuation of the input, a rule if it may have started at the
    location of the reported set and its first symbol ends here. *)
Theorem C40_genuine : forall F N (fo : forest_ops F N) f0 P c nsyms w d0 g0 g,
  configured fo f0 P c nsyms w d0 g0 g ->
  forall Ws, (forall ts s v, In ts Ws -> In (s, v) ts -> user_terminal c nsyms w s) ->
  let Us := [(w_sof w, 0)] :: Ws in
  forall fuel st0 st', r_new g f0 = Ret st0 ->
  feed_all fo P g fuel (read_start w :: map overlapping Ws) st0 = Ret (true, st') ->
  exists pos l, held pos (length Us) /\ trace g (begin_earleme P st') = Ret l /\
    (forall s, s < nsyms -> awaited c w Us s -> exists t, prediction_record c s t /\ In (t, length pos - 1) l) /\
    (forall d i, begun c w Us d i -> exists o t, nth_error pos o = Some i /\ medial_record c d t /\ In (t, o) l) /\
    (forall t o, In (t, o) l ->
       (exists s, s < nsyms /\ awaited c w Us s /\ prediction_record c s t /\ o = length pos - 1) \/
       (exists d i, nth_error pos o = Some i /\ begun c w Us d i /\ medial_record c d t)).
Proof. exact @P_trace_exact. Qed.
Print Assumptions C40_genuine.

(** After "a": S (by its last rule, 3), a and b are awaited, rules 2 (S ::= a . b) and
    5 (g1 ::= a . S) have begun in set 1, the set after the start marker. *)
Example C40_example : configured null_forest tt default_perf traced 6 wrap 0 6 traced_dg /\
  (forall ts s v, In ts [[(4, 0)]] -> In (s, v) ts -> user_terminal traced 6 wrap s) /\
  (forall l, In l [read_start wrap; overlapping [(4, 0)]] -> acceptable traced 6 l) /\
  exists st0 st', r_new traced_dg tt = Ret st0 /\
    feed_all null_forest default_perf traced_dg 10 [read_start wrap; overlapping [(4, 0)]] st0 = Ret (true, st') /\
    predicted_symbols (begin_earleme default_perf st') = Ret [3; 4; 5] /\
    trace traced_dg (begin_earleme default_perf st') =
      Ret [(Some (3, 0), 2); (None, 2); (None, 2); (Some (5, 1), 1); (Some (2, 1), 1)].
Proof.
  split; [exact traced_configured|]. split.
  { intros ts s v [<-|[]] [E|[]]. injection E as <- _. apply traced_user; auto. }
  split.
  { intros l [<-|[<-|[]]]; (split; [discriminate|]); intros s v [E|[]]; injection E as <- _; cbn; lia. }
  do 2 eexists. split; [vm_compute; reflexivity|]. split; [vm_compute; reflexivity|]. split; vm_compute; reflexivity.
Qed.

(** Before the first location is begun, [trace] panics. *)
Example C40_new_panics : exists st0 : rstate unit unit, r_new traced_dg tt = Ret st0 /\ trace traced_dg st0 = Panic.
Proof. eexists. split; vm_compute; reflexivity. Qed.

(** ** C29: what events reports

    If there are at least as many rules as ordinary symbols, [events] does not panic.  For
    each predicted symbol it gives the event attached to the place after the first symbol
    of the rule with the symbol's number, and for each item the event attached to the end
    of its rule.  [minimal_distances] gives the distances attached to the same places.  The
    property asks for the start of the symbol's rules and the place after
    the item's first symbol. *)
Theorem C29_events_partial : forall F N (fo : forest_ops F N) f0 P c nsyms w d0 g0 g,
  configured fo f0 P c nsyms w d0 g0 g -> nsyms <= length (c_rules c) ->
  forall locs, (forall l, In l locs -> acceptable c nsyms l) ->
  forall fuel st0 st', r_new g f0 = Ret st0 -> feed_all fo P g fuel locs st0 = Ret (true, st') ->
  exists preds items l1 l2,
    predicted_symbols (begin_earleme P st') = Ret preds /\
    medial_items (begin_earleme P st') = Ret items /\ events g (begin_earleme P st') = Ret (l1 ++ l2) /\
    Forall2 (event_record c 1) preds l1 /\ Forall2 (fun it => event_record c 2 (it_dot it)) items l2 /\
    minimal_distances g (begin_earleme P st') = Ret (map snd (l1 ++ l2)).
Proof. exact @P_events. Qed.
Print Assumptions C29_events_partial.

Example C29_events_example : 6 <= length (c_rules traced) /\
  exists st0 st', r_new traced_dg tt = Ret st0 /\
    feed_all null_forest default_perf traced_dg 10 [read_start wrap; overlapping [(4, 0)]] st0 = Ret (true, st') /\
    events traced_dg (begin_earleme default_perf st') =
      Ret [(Some 31, Some 1); (Some 41, Some 1); (Some 51, Some 1); (Some 52, Some 2); (Some 22, Some 2)].
Proof.
  split; [simpl; lia|]. do 2 eexists. split; [vm_compute; reflexivity|]. split; vm_compute; reflexivity.
Qed.

(** ** C31: what expected_terminals lists

    Without hints, [expected_terminals] does not panic and lists exactly the second symbols
    of the rules that have begun, all of which may start here.  Missing for the property:
    symbols that may start here otherwise, and the restriction to terminals. *)
Theorem C31_expected_partial : forall F N (fo : forest_ops F N) f0 P c nsyms w d0 g0 g,
  configured fo f0 P c nsyms w d0 g0 g ->
  forall Ws, (forall ts s v, In ts Ws -> In (s, v) ts -> user_terminal c nsyms w s) ->
  let Us := [(w_sof w, 0)] :: Ws in
  forall fuel st0 st', r_new g f0 = Ret st0 ->
  feed_all fo P g fuel (read_start w :: map overlapping Ws) st0 = Ret (true, st') ->
  exists l, expected_terminals g (begin_earleme P st') = Ret l /\
    (forall s, In s l <-> exists d i r B, begun c w Us d i /\ nth_error (c_rules c) d = Some r /\ p_rhs r = [B; s]) /\
    (forall s, In s l -> awaited c w Us s).
Proof. exact @P_expected. Qed.
Print Assumptions C31_expected_partial.

Example C31_expected_example : exists st0 st', r_new traced_dg tt = Ret st0 /\
  feed_all null_forest default_perf traced_dg 10 [read_start wrap; overlapping [(4, 0)]] st0 = Ret (true, st') /\
  expected_terminals traced_dg (begin_earleme default_perf st') = Ret [3; 5].
Proof. do 2 eexists. split; [vm_compute; reflexivity|]. split; vm_compute; reflexivity. Qed.

(** ** C32: an exhausted recognizer stays exhausted

    Once a location was answered false, every further location that is answered at all is
    answered false, whatever tokens and hints it has, and the recognizer does not claim to
    be finished.  Missing: the recognizer may panic instead of answering (C32_refuted). *)
Theorem C32_exhausted_partial : forall F N (fo : forest_ops F N) f0 P c nsyms w d0 g0 g,
  configured fo f0 P c nsyms w d0 g0 g ->
  forall locs, (forall l, In l locs -> acceptable c nsyms l) ->
  forall fuel st0 st1, r_new g f0 = Ret st0 -> feed_all fo P g fuel locs st0 = Ret (false, st1) ->
  forall fuel' more l st2, feed_on fo P g fuel' more st1 = Ret (l, st2) ->
  Forall (fun b => b = false) l /\ is_finished fo g st2 = Ret false.
Proof. exact @P_dead. Qed.
Print Assumptions C32_exhausted_partial.

Example C32_exhausted_example : exists st0 st1 st2, r_new traced_dg tt = Ret st0 /\
  feed_all null_forest default_perf traced_dg 10 [read_start wrap; overlapping [(4, 0)]; overlapping []] st0 = Ret (false, st1) /\
  feed_on null_forest default_perf traced_dg 10 [overlapping [(5, 0)]; overlapping [(4, 0); (2, 0)]] st1 = Ret ([false; false], st2).
Proof. do 3 eexists. split; [vm_compute; reflexivity|]. split; vm_compute; reflexivity. Qed.

(** ** C33: is_finished before any input

    A new recognizer claims to be finished exactly if the grammar has a nulling rule, for
    whatever symbol.  The property asks for the start symbol (C33_refuted). *)
Theorem C33_new_partial : forall F N (fo : forest_ops F N) f0 fuel c maps nulling first follow g st0,
  from_processed_grammars fuel c maps nulling first follow = Ret g -> r_new g f0 = Ret st0 ->
  (nulling = [] -> is_finished fo g st0 = Ret false) /\
  (nulling <> [] -> forall b, is_finished fo g st0 = Ret b -> b = true).
Proof. exact @P_new_finished. Qed.
Print Assumptions C33_new_partial.

Example C33_new_example :
  (exists st0, r_new traced_dg tt = Ret st0 /\ is_finished null_forest traced_dg st0 = Ret false) /\
  (exists st0, r_new opt_dg tt = Ret st0 /\ is_finished null_forest opt_dg st0 = Ret true).
Proof. split; eexists; split; vm_compute; reflexivity. Qed.

(** ** C34: earleme counts the sets held

    After [n] locations, [earleme] is one less than the number of Earley sets held, the
    last of which is that of location [n]; so it is at most [n], and [n] exactly if no set
    was dropped. *)
Theorem C34_earleme_partial : forall F N (fo : forest_ops F N) f0 P c nsyms w d0 g0 g,
  configured fo f0 P c nsyms w d0 g0 g ->
  forall locs, (forall l, In l locs -> acceptable c nsyms l) ->
  forall fuel st0 st', r_new g f0 = Ret st0 -> feed_all fo P g fuel locs st0 = Ret (true, st') ->
  exists pos, held pos (length locs) /\ earleme (begin_earleme P st') = Some (length pos - 1) /\ length pos - 1 <= length locs.
Proof. exact @P_earleme. Qed.
Print Assumptions C34_earleme_partial.

Example C34_earleme_example : exists st0 st', r_new traced_dg tt = Ret st0 /\
  feed_all null_forest default_perf traced_dg 10 [read_start wrap; overlapping [(4, 0)]; overlapping [(4, 0)]; overlapping [(4, 0)]; overlapping [(5, 0)]; overlapping [(5, 0)]] st0 = Ret (true, st') /\
  earleme (begin_earleme default_perf st') = Some 2.
Proof. do 2 eexists. split; [vm_compute; reflexivity|]. split; vm_compute; reflexivity. Qed.


(** ** C44: the position given to Forest::leaf

    Refuted as stated (C44_refuted, PropsTrees.v).  The tokens of one location are all given
    the same position: the number of Earley sets held when they are read.  For the location
    after [j] others it is between 1 and j + 1, and j + 1 exactly if no set was dropped. *)
Theorem C44_position_partial : forall F N (fo : forest_ops F N) f0 P c nsyms w d0 g0 g,
  configured fo f0 P c nsyms w d0 g0 g ->
  forall locs, (forall l, In l locs -> acceptable c nsyms l) ->
  forall fuel st0 st', r_new g (f0, []) = Ret st0 -> feed_all (noting fo) P g fuel locs st0 = Ret (true, st') ->
  exists ps, length ps = length locs /\
    snd (r_forest st') = flat_map (fun lp => repeat (snd lp) (length (l_toks (fst lp)))) (combine locs ps) /\
    forall j p, nth_error ps j = Some p -> exists pos, held pos j /\ p = length pos /\ 1 <= p <= S j /\ (p = S j <-> pos = seq 0 (S j)).
Proof. exact P_positions. Qed.
Print Assumptions C44_position_partial.

Example C44_position_example : exists st0 st', r_new traced_dg (tt, []) = Ret st0 /\
  feed_all (noting null_forest) default_perf traced_dg 10 [read_start wrap; overlapping [(4, 0)]; overlapping [(4, 0)]; overlapping [(4, 0)]; overlapping [(5, 0)]; overlapping [(5, 0)]; overlapping [(5, 0)]] st0 = Ret (true, st') /\
  snd (r_forest st') = [1; 2; 3; 4; 5; 6; 3].
Proof. do 2 eexists. split; [vm_compute; reflexivity|]. split; vm_compute; reflexivity. Qed.
