(** PropsGroups: the groups of completed items a client is offered at a location. *)
From Coq Require Import List Arith Bool Lia Sorted.
From Verif Require Import Base Item Grammar DefaultGrammar Forest ForestSpec Recognizer Drive Spec CfgSpec ClientSpec GroupSpec TreeSpec
  ExampleGrammars Sim Check PropLemmas5 PropsRecog.
Import ListNotations.
Local Open Scope res_scope.

(** ** C11: groups come in descending order, each once

    The grammar's rules are sorted by left-hand side and its unary rules lead from
    smaller to larger symbols.  Whatever locations, tokens, hints and selections of groups
    came before, and whatever tokens the location has: asking [next_sum] until it answers
    [None] never panics and ends.  The groups come in strictly descending order of origin
    and symbol, so no group comes twice; every group has items, all of its symbol. *)
Theorem C11_groups_descend : forall F N (fo : forest_ops F N) f0 P c nsyms w d0 g0 g,
  configured fo f0 P c nsyms w d0 g0 g -> ordered_grammar c ->
  forall before loc, (forall l, In l (before ++ [loc]) -> acceptable c nsyms l) ->
  exists n o, total n (fun fuel => st <- r_new g f0 ;; groups_at fo P g fuel before loc st) o /\
    forall l, o = Some l -> descending (c_rules c) l.
Proof. exact @P_groups_descend. Qed.
Print Assumptions C11_groups_descend.

(** At a location without hint, the items in the groups are exactly the completed items:
    the rules that span from an earlier set to here, given the medial items and the
    predictions of the earlier sets.  So each group holds every completed item of its
    symbol and origin. *)
Theorem C11_groups_exact : forall F N (fo : forest_ops F N) f0 P c nsyms w d0 g0 g,
  configured fo f0 P c nsyms w d0 g0 g -> ordered_grammar c ->
  forall before loc, (forall l, In l (before ++ [loc]) -> acceptable c nsyms l) -> l_hint loc = None ->
  forall fuel fuel' st1 st2 l,
    (st <- r_new g f0 ;; feed_all fo P g fuel before st) = Ret (true, st1) ->
    scan_list fo P g (l_toks loc) (set_hint_field (begin_earleme P st1) None) = Ret st2 ->
    groups fo P g (l_keep loc) fuel' st2 = Ret l ->
    exists k, earleme (begin_earleme P st1) = Some k /\
      forall d o, listed l d o <->
        offered (c_rules c) nsyms (waiting (begin_earleme P st1)) (predicted_at (begin_earleme P st1)) k
          (map fst (l_toks loc)) (l_keep loc) d o.
Proof. exact @P_groups_exact. Qed.
Print Assumptions C11_groups_exact.

Definition amb_groups (before : list location) (loc : location) : res (option (list group)) :=
  st <- r_new amb_dg tt ;; groups_at null_forest default_perf amb_dg 100 before loc st.
Definition tok1 (s : sym) : location := mkLoc None [(s, 0)] keep_all.

(** After sof a a, at the third a: E from the last set, E from the one before it, E from
    the start with two alternatives, and sof E. *)
Example C11_example :
  configured null_forest tt default_perf amb 5 wrap 0 5 amb_dg /\ ordered_grammar amb /\
  (forall l, In l ([tok1 2; tok1 4; tok1 4] ++ [tok1 4]) -> acceptable amb 5 l) /\
  amb_groups [tok1 2; tok1 4; tok1 4] (tok1 4) =
    Ret (Some [((3, 3), [2]); ((2, 3), [1]); ((1, 3), [1; 1]); ((0, 5), [3])]) /\
  (* the client rejects E: only the group of the token's own rule is offered *)
  amb_groups [tok1 2; tok1 4; tok1 4] (mkLoc None [(4, 0)] (fun s => negb (s =? 3))) = Ret (Some [((3, 3), [2])]).
Proof.
  split; [exact amb_configured|]. split.
  { split.
    - apply sorted_check_ok. reflexivity.
    - intros r B Hr E Ht. repeat (destruct Hr as [<- | Hr]; [try discriminate|]); [|destruct Hr].
      injection E as <-. elim Ht. apply is_terminal_spec. reflexivity. }
  split.
  { intros l Hl. cbn in Hl. assert (E : l = tok1 2 \/ l = tok1 4) by (intuition auto).
    destruct E as [-> | ->]; (split; [discriminate|]); intros s v [X|[]]; injection X as <- _; cbn; lia. }
  split; vm_compute; reflexivity.
Qed.

(** The order of the symbols is needed.  Here X ::= Y, although X is the larger symbol;
    the group of X comes twice, around that of Y.
    0 eof, 1 root, 2 sof, 3 Y, 4 X, 5 t, 6 g0 *)
Definition updown : pcfg := {|
  c_rules := [ rule 1 [6; 0] None;        (* root ::= g0 eof *)
               rule 3 [5] (Some 0);       (* Y ::= t *)
               rule 4 [3] (Some 1);       (* X ::= Y *)
               rule 4 [5] (Some 2);       (* X ::= t *)
               rule 6 [2; 4] None ];      (* g0 ::= sof X *)
  c_num_syms := 7;
  c_roots := [1];
  c_wrapped := [mkWrapped 1 2 0 4] |}.
Definition updown_first : list (sym * list sym) := [(1, [2]); (3, [5]); (4, [5]); (6, [2])].
Definition updown_follow : list (sym * list sym) := [(2, [5]); (3, [0]); (4, [0]); (5, [0]); (6, [0])].
Definition updown_dg : dgrammar := the amb_dg (from_processed_grammars 10 updown no_maps [] updown_first updown_follow).

Theorem C11_order_needed : exists c nsyms w d0 g0 g before loc l,
  configured null_forest tt default_perf c nsyms w d0 g0 g /\
  (forall l, In l (before ++ [loc]) -> acceptable c nsyms l) /\
  (st <- r_new g tt ;; groups_at null_forest default_perf g 10 before loc st) = Ret (Some l) /\
  ~ NoDup (map fst l).
Proof.
  exists updown, 6, (mkWrapped 1 2 0 4), 0, 6, updown_dg, [tok1 2], (tok1 5).
  eexists. split; [|split; [|split]].
  - split; [exists (fun _ _ => True); split; [exact null_usable|exact I]|reflexivity|].
    apply (built_check_ok 6 updown 6 (mkWrapped 1 2 0 4) 0 6 (fun _ => 0)
      (fun s => match s with 4 => 1 | 3 => 2 | 5 => 3 | _ => 0 end) 10 no_maps [] updown_first updown_follow); vm_compute; reflexivity.
  - intros l Hl. cbn in Hl. assert (E : l = tok1 2 \/ l = tok1 5) by (intuition auto).
    destruct E as [-> | ->]; (split; [discriminate|]); intros s v [X|[]]; injection X as <- _; cbn; lia.
  - vm_compute. reflexivity.
  - cbn. intros H. inversion H as [|x l Hn _]; subst. apply Hn. cbn. auto.
Qed.
Print Assumptions C11_order_needed.
