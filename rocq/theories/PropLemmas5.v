(** PropLemmas5: the groups offered at a location, in the form in which
    PropsGroups.v states them. *)
From Coq Require Import List Arith Bool Lia.
From Verif Require Import Base Item Grammar DefaultGrammar Forest ForestSpec Recognizer Drive ClientSpec Spec CfgSpec TreeSpec
  Core1 Core5 Uniq PropLemmas4 GroupSpec Groups.
Import ListNotations.
Local Open Scope res_scope.

Lemma acceptable_ok : forall c nsyms locs, (forall l, In l locs -> acceptable c nsyms l) -> locs_ok nsyms (c_num_syms c) locs.
Proof.
  intros c nsyms locs H l Hl. destruct (H l Hl) as [H1 H2]. split; [|auto].
  unfold hint_ok. destruct (l_hint l) as [s|]; [now apply H1|exact I].
Qed.

Section G.
  Context {F N : Type}.
  Variable fo : forest_ops F N.
  Variable f0 : F.
  Variable P : perf.
  Variables (c : pcfg) (nsyms : nat) (w : wrapped_root) (d0 : nat) (g0 : sym).
  Variable g : dgrammar.
  Hypothesis HC : configured fo f0 P c nsyms w d0 g0 g.
  Hypothesis HO : ordered_grammar c.

  Lemma P_groups_descend : forall before loc, (forall l, In l (before ++ [loc]) -> acceptable c nsyms l) ->
    exists n o, total n (fun fuel => st <- r_new g f0 ;; groups_at fo P g fuel before loc st) o /\
      forall l, o = Some l -> descending (c_rules c) l.
  Proof.
    intros before loc H. destruct HC as [(ok & HU & Hf0) Hleo HB].
    apply (any_groups fo ok HU P c nsyms w d0 g0 g Hleo HB (ordered_grammar_ordered c HO) f0 before loc Hf0).
    - apply acceptable_ok. intros l Hl. apply H, in_app_iff; auto.
    - apply acceptable_ok. intros l Hl. apply H, in_app_iff; auto.
  Qed.

  Lemma P_groups_exact : forall before loc, (forall l, In l (before ++ [loc]) -> acceptable c nsyms l) -> l_hint loc = None ->
    forall fuel fuel' st1 st2 l,
    (st <- r_new g f0 ;; feed_all fo P g fuel before st) = Ret (true, st1) ->
    scan_list fo P g (l_toks loc) (set_hint_field (begin_earleme P st1) None) = Ret st2 ->
    groups fo P g (l_keep loc) fuel' st2 = Ret l ->
    exists k, earleme (begin_earleme P st1) = Some k /\
      forall d o, listed l d o <->
        offered (c_rules c) nsyms (waiting (begin_earleme P st1)) (predicted_at (begin_earleme P st1)) k
          (map fst (l_toks loc)) (l_keep loc) d o.
  Proof.
    intros before loc H. destruct HC as [(ok & HU & Hf0) Hleo HB].
    apply (any_exact fo ok HU P c nsyms w d0 g0 g Hleo HB (ordered_grammar_ordered c HO) f0 before loc Hf0).
    - apply acceptable_ok. intros l Hl. apply H, in_app_iff; auto.
    - apply acceptable_ok. intros l Hl. apply H, in_app_iff; auto.
  Qed.
End G.
