(** PropsOrder: the trees of a grammar whose symbols are not ordered. *)
From Coq Require Import List Arith Bool Lia.
From Verif Require Import Base Item Grammar DefaultGrammar Forest ForestSpec Recognizer Drive Spec CfgSpec ClientSpec SimpleBocage
  TreeSpec ForestProg ExampleGrammars Check PropsRecog PropsTrees PropsGroups.
Import ListNotations.
Local Open Scope res_scope.

(** ** C15 does not need the order of the symbols

    The grammar of [C11_order_needed]: X ::= Y although X is the larger symbol, so the
    group of X comes twice when t is read, before and after the group of Y.  The rules are
    sorted and both trees of the input t are found, each once. *)
Definition updown_wrap : wrapped_root := mkWrapped 1 2 0 4.
Definition updown_run (locs : list location) : res (option nat * bocage) :=
  b0 <- bocage_new (g_forest_info updown_dg) ;;
  st <- r_new updown_dg b0 ;; parse_forest simple_forest default_perf updown_dg 100 locs st.

Example C15_unordered_example :
  built updown 6 updown_wrap 0 6 updown_dg /\ sorted_rules updown /\ ~ ordered_grammar updown /\
  user_terminal updown 6 updown_wrap 5 /\
  exists h b, updown_run (hinted (fun _ => true) 0 [(2, 0); (5, 7)]) = Ret (Some h, b) /\
    finished_trees (Some h, b) [[Node 4 [Leaf 2 0; Node 2 [Node 1 [Leaf 5 7]]]]; [Node 4 [Leaf 2 0; Node 3 [Leaf 5 7]]]].
Proof.
  split.
  { apply (built_check_ok 6 updown 6 updown_wrap 0 6 (fun _ => 0)
      (fun s => match s with 4 => 1 | 3 => 2 | 5 => 3 | _ => 0 end) 10 no_maps [] updown_first updown_follow); vm_compute; reflexivity. }
  split; [apply sorted_check_ok; reflexivity|]. split.
  { intros [_ H]. specialize (H (rule 4 [3] (Some 1)) 3). cbn in H.
    assert (X : 4 < 3); [|lia]. apply H; [auto|auto|]. intros T. now apply (T (rule 3 [5] (Some 0))); cbn; auto. }
  split; [split; [lia|]; split; [apply is_terminal_spec; reflexivity|split; discriminate]|].
  do 2 eexists. split; [vm_compute; reflexivity|]. unfold finished_trees. cbn [fst snd b_graph]. follow.
Qed.
