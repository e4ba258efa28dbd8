(** PropsTrees: the parse trees under the finished node of the simple bocage, and the
    evaluation of that node. *)
From Coq Require Import List Arith Lia Permutation.
From Verif Require Import Base Vec2d Item Grammar DefaultGrammar Forest ForestSpec Recognizer Drive Spec CfgSpec ClientSpec SimpleBocage EvalSpec
  TreeSpec ForestProg ExampleGrammars Check PropLemmas3 PropLemmas4 PropsRecog.
Import ListNotations.
Local Open Scope res_scope.

(** ** C14: only parse trees

    Whatever tokens, hints and rejected groups the client chose, a parse never panics, and
    every tree under the finished node is a parse tree of the start symbol.  Its leaves are
    the scanned symbols with their values, one offered token for each location, in order,
    and all its constituents belong to accepted groups.  There is at least one tree. *)
Theorem C14_trees_sound : forall P c nsyms w d0 g0 g, LEO P = false -> built c nsyms w d0 g0 g ->
  forall fi b0, bocage_new fi = Ret b0 ->
  forall h0 rest, in_range c nsyms h0 rest ->
  exists n r l, total n (fun fuel => st <- r_new g b0 ;; parse_forest simple_forest P g fuel (from_start w h0 rest) st) r /\
    finished_trees r l /\ (fst r <> None -> l <> []) /\
    forall ts, In ts l -> exists t, ts = [t] /\ tree_read c w g0 rest t.
Proof. exact P_sound. Qed.
Print Assumptions C14_trees_sound.

Lemma built_of : forall F N (fo : forest_ops F N) f0 P c nsyms w d0 g0 g, configured fo f0 P c nsyms w d0 g0 g -> built c nsyms w d0 g0 g.
Proof. intros F N fo f0 P c nsyms w d0 g0 g H. apply H. Qed.
Definition new_bocage (fi : forest_info) : bocage := match bocage_new fi with Ret b => b | _ => mkBocage [] fi 0 end.
Definition amb_b0 : bocage := new_bocage (g_forest_info amb_dg).
Definition tok (s : sym) (v : nat) : location := mkLoc None [(s, v)] keep_all.
Definition amb_run (locs : list location) : res (option nat * bocage) :=
  st <- r_new amb_dg amb_b0 ;; parse_forest simple_forest default_perf amb_dg 100 locs st.
Definition amb_t (v : nat) : tree := Node 2 [Leaf 4 v].
Definition amb_left : tree := Node 3 [Leaf 2 0; Node 1 [Node 1 [amb_t 7; amb_t 8]; amb_t 9]].
Definition amb_right : tree := Node 3 [Leaf 2 0; Node 1 [amb_t 7; Node 1 [amb_t 8; amb_t 9]]].

Lemma represents_conv : forall g h l l', represents g h l -> l = l' -> represents g h l'.
Proof. intros. now subst. Qed.
Ltac walk := first
  [ eapply rp_leaf; reflexivity
  | eapply rp_rule; [reflexivity|walk|walk]
  | eapply rp_product; [reflexivity|walk]
  | eapply rp_sum; [reflexivity|walk]
  | eapply rp_more; [walk|walk]
  | apply rp_none ].
Ltac follow := eapply represents_conv; [walk|vm_compute; reflexivity].

(** E ::= E E | a, on a a a with values 7, 8 and 9 *)
Example C14_example :
  built amb 5 wrap 0 5 amb_dg /\ bocage_new (g_forest_info amb_dg) = Ret amb_b0 /\
  in_range amb 5 None [tok 4 7; tok 4 8; tok 4 9] /\
  (exists h b, amb_run (from_start wrap None [tok 4 7; tok 4 8; tok 4 9]) = Ret (Some h, b) /\
     finished_trees (Some h, b) [[amb_right]; [amb_left]]) /\
  (exists b, amb_run (from_start wrap None [tok 4 7; tok 3 8; mkLoc None [] keep_all]) = Ret (None, b)).
Proof.
  split; [exact (built_of _ _ _ _ _ _ _ _ _ _ _ amb_configured)|]. split; [reflexivity|]. split; [|split].
  - split; [intros [|[|[|[|[|k]]]]] s H; discriminate|].
    intros l s v [<-|[<-|[<-|[]]]] [E|[]]; injection E as <- _; cbn; lia.
  - do 2 eexists. split; [vm_compute; reflexivity|]. unfold finished_trees. cbn [fst snd b_graph].
    follow.
  - eexists. vm_compute. reflexivity.
Qed.

(** ** C15: every parse tree, once

    The grammar's rules are sorted by left-hand side, as [sort_rules_by_lhs] leaves them;
    each location offers different terminals.  Then every parse tree of offered tokens whose
    constituents the client accepted, and with which the hints agree, is found under the
    finished node.  No tree is found twice; so no sum has an alternative twice. *)
Theorem C15_trees_complete : forall P c nsyms w d0 g0 g, LEO P = false -> built c nsyms w d0 g0 g ->
  forall fi b0, bocage_new fi = Ret b0 ->
  forall h0 rest, in_range c nsyms h0 rest -> sorted_rules c -> distinct_tokens c rest ->
  exists n r l, total n (fun fuel => st <- r_new g b0 ;; parse_forest simple_forest P g fuel (from_start w h0 rest) st) r /\
    finished_trees r l /\ NoDup l /\
    forall t, tree_read c w g0 rest t -> hints_match c nsyms w h0 rest t -> In [t] l.
Proof. exact P_complete. Qed.
Print Assumptions C15_trees_complete.

(** For tokens given one by one, with the following token as hint wherever the client
    likes, the trees under the finished node are exactly the parse trees of the tokens. *)
Theorem C15_trees_exactly : forall P c nsyms w d0 g0 g, LEO P = false -> built c nsyms w d0 g0 g ->
  forall fi b0, bocage_new fi = Ret b0 ->
  forall use xs, (forall s v, In (s, v) xs -> user_terminal c nsyms w s) -> sorted_rules c ->
  exists n r l, total n (fun fuel => st <- r_new g b0 ;; parse_forest simple_forest P g fuel (hinted use 0 ((w_sof w, 0) :: xs)) st) r /\
    finished_trees r l /\ NoDup l /\
    forall ts, In ts l <-> exists t, ts = [t] /\ input_tree c w g0 xs t.
Proof. exact P_exactly. Qed.
Print Assumptions C15_trees_exactly.

(** The rules are sorted when the tables are computed. *)
Theorem C15_sorted : forall c, sorted_rules (sort_rules_by_lhs c) /\ Permutation (c_rules c) (c_rules (sort_rules_by_lhs c)).
Proof. exact P_sorted. Qed.
Print Assumptions C15_sorted.

Lemma amb_sorted : sorted_rules amb.
Proof. apply sorted_check_ok; reflexivity. Qed.
Lemma anbn_sorted : sorted_rules anbn.
Proof. apply sorted_check_ok; reflexivity. Qed.
Lemma amb_user : user_terminal amb 5 wrap 4.
Proof. split; [lia|]. split; [apply is_terminal_spec; reflexivity|split; discriminate]. Qed.

(** Two trees for a a a, with all hints and with one *)
Example C15_example :
  sorted_rules amb /\ user_terminal amb 5 wrap 4 /\
  (forall use, use = (fun _ => true) \/ use = (fun j => j =? 2) ->
   exists h b, amb_run (hinted use 0 [(2, 0); (4, 7); (4, 8); (4, 9)]) = Ret (Some h, b) /\
     finished_trees (Some h, b) [[amb_right]; [amb_left]]) /\
  (let rest := [tok 4 7; tok 4 8; tok 4 9] in
   in_range amb 5 (Some 4) rest /\ distinct_tokens amb rest /\
   tree_read amb wrap 5 rest amb_left /\ hints_match amb 5 wrap (Some 4) rest amb_left).
Proof.
  split; [exact amb_sorted|]. split; [exact amb_user|]. split.
  { intros use [-> | ->]; do 2 eexists; (split; [vm_compute; reflexivity|]); unfold finished_trees; cbn [fst snd b_graph]; follow. }
  split; [|split; [|split]].
  - split; [intros [|[|[|[|[|k]]]]] s H; try discriminate; injection H as <-; lia|].
    intros l s v [<-|[<-|[<-|[]]]] [E|[]]; injection E as <- _; cbn; lia.
  - assert (T : forall (v : nat) s v', In (s, v') [(4, v)] -> terminal (c_rules amb) s).
    { intros v s v' [E|[]]. injection E as <- _. apply is_terminal_spec. reflexivity. }
    intros l [<-|[<-|[<-|[]]]]; (split; [repeat constructor; auto|]); cbn [l_toks tok]; eauto.
  - exists [(4, 7); (4, 8); (4, 9)]. split; [repeat constructor; cbn; auto|]. split.
    + change [(4, 7); (4, 8); (4, 9)] with (yield (Node 1 [Node 1 [amb_t 7; amb_t 8]; amb_t 9])).
      eapply it_inner; [reflexivity|reflexivity|reflexivity|].
      assert (A : forall v, parse_tree (c_rules amb) 3 (amb_t v)).
      { intros v. apply (pt_node (c_rules amb) 2 _ [Leaf 4 v] eq_refl). repeat constructor. }
      apply (pt_node (c_rules amb) 1 _ _ eq_refl). repeat constructor; auto. cbn.
      apply (pt_node (c_rules amb) 1 _ _ eq_refl). repeat constructor; auto.
    + vm_compute. repeat split.
  - intros [|[|[|[|[|k]]]]] s H; try discriminate. injection H as <-. split; [lia|]. split; [apply is_terminal_spec; reflexivity|reflexivity].
Qed.

(** ** C16, for a whole parse: an unambiguous input evaluates to the value of its tree

    The bocage is made from the grammar's forest information.  [t0] is the only parse
    tree of the input.  The finished node, evaluated any number of times, gives each time
    the value of the tree below the wrapper; for the empty input, what the evaluator says
    about the nulled start symbol. *)
Theorem C16_parse_value : forall P c nsyms w d0 g0 g, LEO P = false -> built c nsyms w d0 g0 g ->
  forall b0, bocage_new (g_forest_info g) = Ret b0 ->
  forall E (ev : evaluator E) nv nulls,
  pushes ev nv -> nulls_ok (g_forest_info g) nv nulls -> nulling_acyclic (g_forest_info g) ->
  forall use xs, (forall s v, In (s, v) xs -> user_terminal c nsyms w s) -> sorted_rules c ->
  forall t0, (forall t, input_tree c w g0 xs t <-> t = t0) ->
  exists n h b, total n (fun fuel => st <- r_new g b0 ;; parse_forest simple_forest P g fuel (hinted use 0 ((w_sof w, 0) :: xs)) st) (Some h, b) /\
    forall k, exists fuel0 b', forall fuel, fuel0 <= fuel -> evaluate_each ev fuel (repeat h k) b =
      Ret (repeat (match t0 with
                   | Node _ [_; t] => value ev (g_forest_info g) nulls t
                   | _ => ev_nulling ev (w_inner w) []
                   end) k, b').
Proof. exact @P_value. Qed.
Print Assumptions C16_parse_value.

(** Ambiguous or not, and whatever the client did: the finished node can be evaluated any
    number of times, always with the same result, without panic. *)
Theorem C20_parse_evaluates : forall P c nsyms w d0 g0 g, LEO P = false -> built c nsyms w d0 g0 g ->
  forall b0, bocage_new (g_forest_info g) = Ret b0 ->
  forall E (ev : evaluator E) nv nulls,
  pushes ev nv -> nulls_ok (g_forest_info g) nv nulls -> nulling_acyclic (g_forest_info g) ->
  forall h0 rest, in_range c nsyms h0 rest ->
  exists n r, total n (fun fuel => st <- r_new g b0 ;; parse_forest simple_forest P g fuel (from_start w h0 rest) st) r /\
    forall h, fst r = Some h -> exists vs, forall k, exists fuel0 b', forall fuel, fuel0 <= fuel ->
      evaluate_each ev fuel (repeat h k) (snd r) = Ret (repeat vs k, b').
Proof. exact @P_evaluates. Qed.
Print Assumptions C20_parse_evaluates.

(** the trees of a concrete input, from those under the finished node *)
Lemma trees_found : forall c nsyms w d0 g0 g b0 xs h b l, built c nsyms w d0 g0 g ->
  bocage_new (g_forest_info g) = Ret b0 -> (forall s v, In (s, v) xs -> user_terminal c nsyms w s) -> sorted_rules c ->
  (st <- r_new g b0 ;; parse_forest simple_forest default_perf g 100 (hinted (fun _ => false) 0 ((w_sof w, 0) :: xs)) st) = Ret (Some h, b) ->
  represents (b_graph b) h l -> forall t, input_tree c w g0 xs t <-> In [t] l.
Proof.
  intros c nsyms w d0 g0 g b0 xs h b l HB Hb Hu Ho Hrun Hl t.
  destruct (C15_trees_exactly default_perf c nsyms w d0 g0 g eq_refl HB _ b0 Hb (fun _ => false) xs Hu Ho) as (n & r & l' & A & B & _ & D).
  specialize (A 100). cbv beta in A. rewrite Hrun in A. destruct (100 <? n); [discriminate|]. injection A as <-.
  unfold finished_trees in B. cbn [fst snd] in B. rewrite (proj1 (represents_fun _) _ _ B _ Hl), D. split; [eauto|].
  intros (t' & E & H). injection E as ->. exact H.
Qed.

Definition anbn_b0 : bocage := new_bocage (g_forest_info anbn_dg).
Definition opt_b0 : bocage := new_bocage (g_forest_info opt_dg).
Definition evaluate_parse (g : dgrammar) (b0 : bocage) (xs : list (sym * nat)) : res (list syntax) :=
  st <- r_new g b0 ;;
  '(o, b) <- parse_forest simple_forest default_perf g 100 (hinted (fun _ => true) 0 ((2, 0) :: xs)) st ;;
  match o with
  | None => Ret []
  | Some h => '(vs, _) <- evaluate syntax_eval 100 b h ;; Ret vs
  end.

(** a a b b has one tree, with S ::= a S b outside and S ::= a b inside; a in S ::= a S | (nothing)
    has one tree, in which the nulled S is restored; so has the empty input. *)
Example C16_parse_example :
  (built anbn 6 wrap 0 6 anbn_dg /\ bocage_new (g_forest_info anbn_dg) = Ret anbn_b0 /\
   pushes syntax_eval XNull /\ nulls_ok (g_forest_info anbn_dg) XNull (fun s => [XNull s]) /\ nulling_acyclic (g_forest_info anbn_dg) /\
   sorted_rules anbn /\ user_terminal anbn 6 wrap 4 /\ user_terminal anbn 6 wrap 5 /\
   (forall t, input_tree anbn wrap 6 [(4, 7); (4, 8); (5, 9); (5, 10)] t <->
      t = Node 3 [Leaf 2 0; Node 1 [Node 4 [Leaf 4 7; Node 2 [Leaf 4 8; Leaf 5 9]]; Leaf 5 10]]) /\
   evaluate_parse anbn_dg anbn_b0 [(4, 7); (4, 8); (5, 9); (5, 10)] =
     Ret [XRule 0 [XLeaf 4 7; XRule 1 [XLeaf 4 8; XLeaf 5 9]; XLeaf 5 10]]) /\
  (nulls_ok (g_forest_info opt_dg) XNull (fun s => [XNull s]) /\
   (forall t, input_tree opt wrap 5 [(4, 7)] t <-> t = Node 3 [Leaf 2 0; Node 2 [Leaf 4 7]]) /\
   evaluate_parse opt_dg opt_b0 [(4, 7)] = Ret [XRule 0 [XLeaf 4 7; XNull 3]] /\
   (forall t, input_tree opt wrap 5 [] t <-> t = Node 4 [Leaf 2 0]) /\
   evaluate_parse opt_dg opt_b0 [] = Ret [XNull 3]).
Proof.
  assert (Single : forall (t t0 : tree), In [t] [[t0]] <-> t = t0).
  { intros t t0. split; [intros [E|[]]; congruence|intros ->; now left]. }
  assert (Ho : sorted_rules opt) by (apply sorted_check_ok; reflexivity).
  assert (Hu : user_terminal opt 5 wrap 4) by (split; [lia|]; split; [apply is_terminal_spec; reflexivity|split; discriminate]).
  split; [|split; [|split; [|split; [|split]]]].
  - split; [exact (built_of _ _ _ _ _ _ _ _ _ _ _ anbn_configured)|]. split; [reflexivity|].
    split; [intros s rs; exists []; reflexivity|]. split; [intros s; reflexivity|]. split; [exists (fun _ => 0); intros ? ? ? []|].
    split; [exact anbn_sorted|]. split; [apply anbn_user; auto|]. split; [apply anbn_user; auto|]. split; [|vm_compute; reflexivity].
    intros t. rewrite <- Single.
    eapply (trees_found anbn 6 wrap 0 6 anbn_dg anbn_b0); [exact (built_of _ _ _ _ _ _ _ _ _ _ _ anbn_configured)|reflexivity| |exact anbn_sorted|vm_compute; reflexivity|].
    + intros s v H. apply anbn_user. simpl in H. intuition congruence.
    + cbn [b_graph]. follow.
  - intros s. reflexivity.
  - intros t. rewrite <- Single.
    eapply (trees_found opt 5 wrap 0 5 opt_dg opt_b0); [exact (built_of _ _ _ _ _ _ _ _ _ _ _ opt_configured)|reflexivity| |exact Ho|vm_compute; reflexivity|].
    + intros s v [E|[]]. injection E as <- _. exact Hu.
    + cbn [b_graph]. follow.
  - vm_compute. reflexivity.
  - intros t. rewrite <- Single.
    eapply (trees_found opt 5 wrap 0 5 opt_dg opt_b0); [exact (built_of _ _ _ _ _ _ _ _ _ _ _ opt_configured)|reflexivity| |exact Ho|vm_compute; reflexivity|].
    + intros s v [].
    + cbn [b_graph]. follow.
  - vm_compute. reflexivity.
Qed.

(** ** C08: dropping Earley sets is not observable

    A recognizer that drops unreachable Earley sets after every location and one that
    keeps them all give the same answers, build the same forest and finish at the same
    node of it, hence give the same parse trees, for any hints, tokens and rejected groups.
    They also need the same number of iterations. *)
Theorem C08_dropping_sets : forall F N (fo : forest_ops F N) f0 P c nsyms w d0 g0 g,
  configured fo f0 P c nsyms w d0 g0 g -> position_blind fo ->
  forall locs, (forall loc, In loc locs -> match l_hint loc with Some t => t < nsyms | None => True end /\
      forall s v, In (s, v) (l_toks loc) -> s < c_num_syms c) -> locs <> [] ->
  exists st0 n b, r_new g f0 = Ret st0 /\
    (forall fuel, fuel < n -> feed_all fo P g fuel locs st0 = NoFuel /\ feed_all_keeping_sets fo P g fuel locs st0 = NoFuel) /\
    (forall fuel, n <= fuel -> exists st1 st2,
       feed_all fo P g fuel locs st0 = Ret (b, st1) /\ feed_all_keeping_sets fo P g fuel locs st0 = Ret (b, st2) /\
       r_forest st1 = r_forest st2 /\ finished_node fo g st1 = finished_node fo g st2 /\
       (b = true -> exists o, finished_node fo g st1 = Ret o)).
Proof. exact P_dropping. Qed.
Print Assumptions C08_dropping_sets.

(** The forests of /repo meet the hypothesis, and sets are dropped: the two runs below
    hold 4 and 6 sets. *)
Example C08_trees_example : position_blind simple_forest /\ position_blind null_forest /\
  let run feeder := (st <- r_new anbn_dg (new_bocage (g_forest_info anbn_dg)) ;;
    '(_, st) <- feeder 100 (read_start wrap :: map plain [(4, 1); (4, 2); (5, 3); (5, 4)]) st ;;
    n <- finished_node simple_forest anbn_dg st ;; Ret (v_len (r_medial st), n, r_forest st)) in
  exists n f, run (feed_all simple_forest default_perf anbn_dg) = Ret (4, Some n, f) /\
              run (feed_all_keeping_sets simple_forest default_perf anbn_dg) = Ret (6, Some n, f).
Proof.
  split; [exact simple_blind|]. split; [constructor; reflexivity|]. cbn zeta.
  eexists _, _. split; vm_compute; reflexivity.
Qed.

(** Without [position_blind] the forests differ: the position given to [Forest::leaf] is
    the number of sets held, not the number of tokens read. *)
Definition position_forest : forest_ops (list nat) unit := {|
  f_begin_sum := fun f => Ret f;
  f_push_summand := fun _ f => Ret f;
  f_sum := fun _ _ f => Ret (tt, f);
  f_product := fun _ _ f => Ret (tt, f);
  f_leaf := fun _ p _ f => Ret (tt, f ++ [p]);
  f_nulling := fun _ _ => Ret tt
|}.
Theorem C44_refuted : exists c nsyms w d0 g0 g tokens st,
  configured position_forest [] default_perf c nsyms w d0 g0 g /\
  (st0 <- r_new g [] ;; feed_all position_forest default_perf g 100 (read_start w :: map plain tokens) st0) = Ret (true, st) /\
  r_forest st <> seq 1 (S (length tokens)).
Proof.
  exists anbn, 6, wrap, 0, 6, anbn_dg, [(4, 1); (4, 2); (5, 3); (5, 4)].
  eexists. split; [|split; [vm_compute; reflexivity|vm_compute; discriminate]].
  constructor; [|exact (cf_leo _ _ _ _ _ _ _ _ _ anbn_configured)|exact (cf_grammar _ _ _ _ _ _ _ _ _ anbn_configured)].
  exists (fun _ _ => True). split; [|exact I]. constructor; cbn; eauto.
Qed.
Print Assumptions C44_refuted.
