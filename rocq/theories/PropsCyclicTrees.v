(** PropsCyclicTrees: the parse trees of user grammars in which a symbol may derive itself.
    Proofs are in CyclicTrees.v, the example grammar in ExampleCycle.v. *)
From Coq Require Import List Arith Bool Lia.
From Verif Require Import Base Grammar DefaultGrammar Forest Recognizer Drive Parse Spec CfgSpec ForestSpec ClientSpec
  EvalSpec TreeSpec SimpleBocage SimpleEval ForestProg CompactBocage CompactEval CompactSpec FromGrammar CrateSpec UserSpec UserTreeSpec CrateFacts Check ExampleGrammars ExampleCrate ExampleLong ExampleCycle PropLemmas3.
From Verif Require CrateProcessed ReferenceCrate ReferenceFacts CyclicTrees PropsUser PropsRoot.
Import ListNotations.
Local Open Scope res_scope.

(** C54.  Cycles or not: once building the forest has ended, the trees under the finished
    node are, one for one, the parse trees of the input in the user's grammar.  It ends if
    no cycle takes part in reading the input, and never ends on an input that has
    infinitely many parse trees.  Missing: the condition on prefixes, without which
    [from_grammar] may panic (C52). *)
Theorem C54_cyclic_trees_partial : forall X U start, user_grammar U start -> crate_apart X U start ->
  null_prefixes_visible U start -> distinct_ids U -> forall P, LEO P = false ->
  exists k g f, (forall fuel, k <= fuel -> from_grammar X fuel U = Ret g) /\
    (forall s, known U start s -> visible (c_rules U) s -> to_internal g s = Ret (Some (f s))) /\
    (forall s t, known U start s -> known U start t -> visible (c_rules U) t -> s <> t -> f s <> f t) /\
    forall b0, bocage_new (g_forest_info g) = Ret b0 ->
    forall use xs, Forall (fun x => token U start (fst x)) xs ->
    let run fuel := st <- r_new g b0 ;;
      parse_forest simple_forest P g fuel (hinted use 0 ((g_sof_sym g, 0) :: map (fun x => (f (fst x), snd x)) xs)) st in
    ((exists fuel, run fuel <> NoFuel) -> exists n r l us, total n run r /\
       finished_trees r l /\ Forall2 (reads_as (g_forest_info g) f) l us /\ NoDup us /\ (forall u, In u us <-> user_parse U start xs u)) /\
    (no_cycle_on U start (map fst xs) -> exists fuel, run fuel <> NoFuel) /\
    ((forall us, exists u, user_parse U start xs u /\ ~ In u us) -> forall fuel, run fuel = NoFuel).
Proof. exact CyclicTrees.P_cyclic_trees. Qed.
Print Assumptions C54_cyclic_trees_partial.

(** C54.  Likewise the value of an input with one parse tree. *)
Theorem C54_cyclic_value_partial : forall X U start, user_grammar U start -> crate_apart X U start ->
  null_prefixes_visible U start -> distinct_ids U -> forall P, LEO P = false ->
  exists k g f, (forall fuel, k <= fuel -> from_grammar X fuel U = Ret g) /\
    (forall s, known U start s -> visible (c_rules U) s -> to_internal g s = Ret (Some (f s))) /\
    (forall s t, known U start s -> known U start t -> visible (c_rules U) t -> s <> t -> f s <> f t) /\
    forall b0, bocage_new (g_forest_info g) = Ret b0 ->
    forall E (ev : evaluator E) nv, pushes ev nv ->
    forall use xs u, Forall (fun x => token U start (fst x)) xs -> (forall u', user_parse U start xs u' <-> u' = u) ->
    let run fuel := st <- r_new g b0 ;;
      parse_forest simple_forest P g fuel (hinted use 0 ((g_sof_sym g, 0) :: map (fun x => (f (fst x), snd x)) xs)) st in
    (exists fuel, run fuel <> NoFuel) -> exists n h b, total n run (Some h, b) /\
      forall k, exists fuel0 b', forall fuel, fuel0 <= fuel ->
        evaluate_each ev fuel (repeat h k) b = Ret (repeat (uresult ev nv f u) k, b').
Proof. exact CyclicTrees.P_cyclic_value. Qed.
Print Assumptions C54_cyclic_value_partial.

(** C54, with the compact bocage: likewise, for inputs that fit, the trees as long as the
    graph has less than 2^32 bytes, and the value of an input with one parse tree.  For the
    empty input it gives no value. *)
Theorem C54_cyclic_compact_partial : forall X U start, user_grammar U start -> crate_apart X U start ->
  null_prefixes_visible U start -> distinct_ids U -> forall P, LEO P = false ->
  exists k g f, (forall fuel, k <= fuel -> from_grammar X fuel U = Ret g) /\
    (forall s, known U start s -> visible (c_rules U) s -> to_internal g s = Ret (Some (f s))) /\
    (forall s t, known U start s -> known U start t -> visible (c_rules U) t -> s <> t -> f s <> f t) /\
    (u32 (g_syms g + g_gensyms g) -> u32 (length (g_col0 g)) ->
    forall b0, cbocage_new (g_forest_info g) = Ret b0 ->
    forall use xs, Forall (fun x => token U start (fst x)) xs -> Forall (fun x => u32 (snd x)) xs ->
    let run fuel := st <- r_new g b0 ;;
      parse_forest compact_forest P g fuel (hinted use 0 ((g_sof_sym g, 0) :: map (fun x => (f (fst x), snd x)) xs)) st in
    ((exists fuel, run fuel <> NoFuel) -> exists n r, total n run r /\
       (graph_fits (snd r) 0 -> exists l us, cfinished_trees r l /\ Forall2 (reads_as (g_forest_info g) f) l us /\ NoDup us /\
          (forall u, In u us <-> user_parse U start xs u)) /\
       forall E (ev : evaluator E) nv, pushes ev nv -> forall u, (forall u', user_parse U start xs u' <-> u' = u) ->
         exists h more, fst r = Some h /\ forall k, graph_fits (snd r) (k * more) -> exists fuel0 b', forall fuel, fuel0 <= fuel ->
           c_evaluate_each ev fuel (repeat h k) (snd r) = Ret (repeat (match xs with [] => [] | _ => [uvalue ev nv f u] end) k, b')) /\
    (no_cycle_on U start (map fst xs) -> exists fuel, run fuel <> NoFuel) /\
    ((forall us, exists u, user_parse U start xs u /\ ~ In u us) -> forall fuel, run fuel = NoFuel)).
Proof. exact CyclicTrees.P_cyclic_compact. Qed.
Print Assumptions C54_cyclic_compact_partial.

(** S ::= S p S | a | q N, N ::= N | b.  The cycle takes no part in a p a, which has one
    tree and is evaluated; the sentence q b has a tree for every number of steps N ::= N. *)
Fixpoint N_tree (k : nat) (v : nat) : utree :=
  match k with
  | 0 => UNode 4 [ULeaf 3 v]
  | S k => UNode 3 [N_tree k v]
  end.

Lemma N_yield : forall k v, uyield (N_tree k v) = [(3, v)].
Proof. induction k as [|k IH]; intros v; [reflexivity|]. cbn. now rewrite IH. Qed.
Lemma N_size : forall k v, k < usize (N_tree k v).
Proof. induction k as [|k IH]; intros v; cbn; [lia|]. specialize (IH v). lia. Qed.
Lemma N_user : forall k v, user_tree U9 1 (N_tree k v).
Proof.
  induction k as [|k IH]; intros v.
  - apply (ut_node U9 (rule 1 [3] (Some 4)) 4); [cbn; auto 10|reflexivity| |discriminate].
    constructor; [|constructor]. constructor. apply U9_terminal. auto.
  - apply (ut_node U9 (rule 1 [1] (Some 3)) 3); [cbn; auto 10|reflexivity| |cbn; rewrite N_yield; discriminate].
    constructor; [apply IH|constructor].
Qed.

Lemma q_b_trees : forall v w us, exists u, user_parse U9 0 [(5, v); (3, w)] u /\ ~ In u us.
Proof.
  intros v w us. set (n := list_sum (map usize us)). exists (UNode 2 [ULeaf 5 v; N_tree n w]). split; [split|].
  - apply (ut_node U9 (rule 0 [5; 1] (Some 2)) 2); [cbn; auto 10|reflexivity| |discriminate].
    constructor; [constructor; apply U9_terminal; auto|]. constructor; [apply N_user|constructor].
  - cbn. now rewrite N_yield.
  - intros Hin. assert (L : forall u, In u us -> usize u <= n).
    { subst n. clear. induction us as [|x us IH]; intros u Hu; [destruct Hu|]. change (usize u <= usize x + list_sum (map usize us)). destruct Hu as [->|Hu]; [lia|]. specialize (IH u Hu). lia. }
    apply L in Hin. cbn [usize map] in Hin. change (S (1 + (usize (N_tree n w) + 0)) <= n) in Hin. pose proof (N_size n w). lia.
Qed.

Lemma a_p_a_tree : forall u, user_parse U9 0 [(2, 7); (4, 8); (2, 9)] u <-> u = UNode 0 [UNode 1 [ULeaf 2 7]; ULeaf 4 8; UNode 1 [ULeaf 2 9]].
Proof.
  assert (One : forall u v, user_tree U9 0 u -> uyield u = [(2, v)] -> u = UNode 1 [ULeaf 2 v]).
  { intros u v H Hy. inversion H as [s' v' Ht E1|s' Hnull|r id ts Hr Eo HF Hne E1]; subst.
    - exfalso. apply (Ht (rule 0 [2] (Some 1))); [cbn; auto|reflexivity].
    - discriminate Hy.
    - in_cases Hr; try discriminate E1; cbn [p_rhs rule p_origin] in *; injection Eo as <-.
      + inversion HF as [|? t1 ? l1 F1 F2]; subst. inversion F2 as [|? t2 ? l2 F3 F4]; subst. inversion F4 as [|? t3 ? l3 F5 F6]; subst. inversion F6; subst.
        destruct (PropsUser.leaf_tree U9 4 _ ltac:(apply terminal_by; reflexivity) F3) as (v3 & ->). cbn in Hy. exfalso.
        destruct (uyield t1) as [|a l]; cbn in Hy; [injection Hy; discriminate|]. destruct l; discriminate Hy.
      + inversion HF as [|? t1 ? l1 F1 F2]; subst. inversion F2; subst.
        destruct (PropsUser.leaf_tree U9 2 _ ltac:(apply terminal_by; reflexivity) F1) as (v3 & ->). cbn in Hy. congruence.
      + inversion HF as [|? t1 ? l1 F1 F2]; subst.
        destruct (PropsUser.leaf_tree U9 5 _ ltac:(apply terminal_by; reflexivity) F1) as (v3 & ->). discriminate Hy. }
  intros u. split.
  - intros [H Hy]. inversion H as [s' v' Ht E1|s' Hnull|r id ts Hr Eo HF Hne E1]; subst.
    + exfalso. apply (Ht (rule 0 [2] (Some 1))); [cbn; auto|reflexivity].
    + discriminate Hy.
    + in_cases Hr; try discriminate E1; cbn [p_rhs rule p_origin] in *; injection Eo as <-.
      * inversion HF as [|? t1 ? l1 F1 F2]; subst. inversion F2 as [|? t2 ? l2 F3 F4]; subst. inversion F4 as [|? t3 ? l3 F5 F6]; subst. inversion F6; subst.
        destruct (PropsUser.leaf_tree U9 4 _ ltac:(apply terminal_by; reflexivity) F3) as (v3 & ->). cbn in Hy. rewrite app_nil_r in Hy.
        destruct (uyield t1) as [|a1 l] eqn:E2; cbn in Hy; [discriminate Hy|]. injection Hy as -> Hy.
        destruct l as [|a2 l]; cbn in Hy.
        -- injection Hy as -> Hy. rewrite (One t1 7 F1 E2), (One t3 9 F5 Hy). reflexivity.
        -- injection Hy as -> Hy. destruct l as [|a3 l]; cbn in Hy; [discriminate Hy|]. injection Hy as -> Hy. destruct l; discriminate Hy.
      * inversion HF as [|? t1 ? l1 F1 F2]; subst. inversion F2; subst.
        destruct (PropsUser.leaf_tree U9 2 _ ltac:(apply terminal_by; reflexivity) F1) as (v3 & ->). discriminate Hy.
      * inversion HF as [|? t1 ? l1 F1 F2]; subst.
        destruct (PropsUser.leaf_tree U9 5 _ ltac:(apply terminal_by; reflexivity) F1) as (v3 & ->). discriminate Hy.
  - intros ->. split; [|reflexivity].
    assert (L : forall v, user_tree U9 0 (UNode 1 [ULeaf 2 v])).
    { intros v. apply (ut_node U9 (rule 0 [2] (Some 1)) 1); [cbn; auto 10|reflexivity| |discriminate].
      constructor; [constructor; apply U9_terminal; auto|constructor]. }
    apply (ut_node U9 (rule 0 [0; 4; 0] (Some 0)) 0); [cbn; auto|reflexivity| |discriminate].
    constructor; [apply L|]. constructor; [constructor; apply U9_terminal; auto|]. constructor; [apply L|constructor].
Qed.

Example C54_cyclic_example : user_grammar U9 0 /\ crate_apart ReferenceCrate.reference U9 0 /\ null_prefixes_visible U9 0 /\ distinct_ids U9 /\
  ~ no_cycles U9 /\
  Forall (fun x => token U9 0 (fst x)) [(2, 7); (4, 8); (2, 9)] /\ no_cycle_on U9 0 (map fst [(2, 7); (4, 8); (2, 9)]) /\
  (forall u, user_parse U9 0 [(2, 7); (4, 8); (2, 9)] u <-> u = UNode 0 [UNode 1 [ULeaf 2 7]; ULeaf 4 8; UNode 1 [ULeaf 2 9]]) /\
  (exists a p, PropsUser.evaluate_user ReferenceCrate.reference U9 [(2, 7); (4, 8); (2, 9)] =
     Ret (repeat [XRule 0 [XRule 1 [XLeaf a 7]; XLeaf p 8; XRule 1 [XLeaf a 9]]] 2)) /\
  Forall (fun x => token U9 0 (fst x)) [(5, 0); (3, 0)] /\ (forall us, exists u, user_parse U9 0 [(5, 0); (3, 0)] u /\ ~ In u us).
Proof.
  split; [exact U9_user|]. split; [exact (ReferenceFacts.reference_apart U9 0 U9_user)|].
  split; [exact (CrateProcessed.no_nulling_prefixes U9 0 U9_visible)|].
  split; [unfold distinct_ids; cbn; repeat constructor; cbn; intuition discriminate|].
  split. { intros H. destruct U9_cycle as (A & z & HA & _). exact (H A HA). }
  split; [apply Forall_forall; intros x Hx; in_cases Hx; apply U9_token; cbn; auto|]. split; [exact U9_clean|]. split; [exact a_p_a_tree|].
  split; [do 2 eexists; vm_compute; reflexivity|].
  split; [apply Forall_forall; intros x Hx; in_cases Hx; apply U9_tokens; cbn; auto|]. apply q_b_trees.
Qed.

(** The same input with the compact bocage; everything fits. *)
Example C54_cyclic_compact_example : exists g a p, from_grammar ReferenceCrate.reference 20 U9 = Ret g /\
  u32 (g_syms g + g_gensyms g) /\ u32 (length (g_col0 g)) /\ to_internal g 2 = Ret (Some a) /\ to_internal g 4 = Ret (Some p) /\
  PropsRoot.compact_values syntax_eval g (hinted (fun _ => true) 0 [(g_sof_sym g, 0); (a, 7); (p, 8); (a, 9)]) =
    Ret [XRule 0 [XRule 1 [XLeaf a 7]; XLeaf p 8; XRule 1 [XLeaf a 9]]].
Proof.
  do 3 eexists. split; [vm_compute; reflexivity|]. split; [vm_compute; reflexivity|]. split; [vm_compute; reflexivity|].
  split; [vm_compute; reflexivity|]. split; [vm_compute; reflexivity|]. vm_compute. reflexivity.
Qed.
