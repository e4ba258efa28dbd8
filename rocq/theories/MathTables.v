(** MathTables: the example grammars of ExampleMath.v as grammar objects; they meet the
    hypotheses of the theorems. *)
From Coq Require Import List Arith Bool ZArith.
From Verif Require Import Base Vec2d Grammar DefaultGrammar Forest Recognizer SimpleBocage Spec CfgSpec TreeSpec Check ExampleMath.
Import ListNotations.
Local Open Scope res_scope.

(** tables of first, last and adjacent symbols *)
Fixpoint dedup (l : list (nat * nat)) : list (nat * nat) :=
  match l with
  | [] => []
  | p :: l => if pairs l (fst p) (snd p) then dedup l else p :: dedup l
  end.
Definition look (x : list (nat * list nat)) (s : nat) : list nat := flat_map (fun p => if fst p =? s then snd p else []) x.
(** [n] rounds of adding what the symbols [next] of the rules of [s] already have *)
Fixpoint reach (n : nat) (next : prule -> list nat) (c : pcfg) : list (nat * list nat) :=
  match n with
  | 0 => map (fun s => (s, [s])) (seq 0 (c_num_syms c))
  | S n => let x := reach n next c in
      map (fun p => (fst p, nodup Nat.eq_dec (snd p ++ flat_map (fun r =>
        if p_lhs r =? fst p then flat_map (look x) (next r) else []) (c_rules c)))) x
  end.
Definition first_sym (r : prule) : list nat := match p_rhs r with s :: _ => [s] | [] => [] end.
Definition last_sym (r : prule) : list nat := match p_rhs r with s :: ss => [last ss s] | [] => [] end.
Definition adjacent_of (f l : nat -> list nat) (R : list prule) : list (nat * nat) :=
  dedup (flat_map (fun r => flat_map (fun p => list_prod (l (fst p)) (f (snd p))) (rhs_pairs (p_rhs r))) R).
Definition first_of (c : pcfg) (ft : list (nat * list nat)) : list (sym * list sym) :=
  map (fun p => (fst p, filter (is_terminal (c_rules c)) (snd p))) ft.
Definition follow_of (c : pcfg) (qt : list (nat * nat)) : list (sym * list sym) :=
  map (fun s => (s, filter (is_terminal (c_rules c)) (map snd (filter (fun p => fst p =? s) qt)))) (seq 0 (c_num_syms c)).

Lemma tables_ok : forall c nsyms w d0 g0 grank urank fuel maps nulling first follow g ft lt qt,
  nth_error (c_wrapped c) 0 = Some w -> processed_check c nsyms w d0 g0 grank urank = true ->
  rules_closed (c_rules c) (assoc ft) (assoc lt) (pairs qt) = true ->
  first_check (c_rules c) ft first = true -> follow_check (c_rules c) qt follow = true ->
  from_processed_grammars fuel c maps nulling first follow = Ret g ->
  built c nsyms w d0 g0 g.
Proof.
  intros. constructor; [eapply processed_check_ok; eauto|].
  exists fuel, maps, nulling, first, follow. split; [auto|]. split; [eapply first_check_ok; eauto|eapply follow_check_ok; eauto].
Qed.

Definition no_grammar : dgrammar := mkG 0 0 false 0 0 0 0 0 0 [] v_new [] [] [] [] [] [] [] [] [] [] (mkMapping [] []) (mkFI [] [] [] 0 0 0).
Definition get {A} (d : A) (x : res A) : A := match x with Ret a => a | _ => d end.

(** precedenced_math *)
Definition prec_ft : list (nat * list nat) := Eval vm_compute in reach 6 first_sym prec.
Definition prec_lt : list (nat * list nat) := Eval vm_compute in reach 6 last_sym prec.
Definition prec_qt : list (nat * nat) := Eval vm_compute in adjacent_of (look prec_ft) (look prec_lt) (c_rules prec).
Definition prec_first : list (sym * list sym) := Eval vm_compute in first_of prec prec_ft.
Definition prec_follow : list (sym * list sym) := Eval vm_compute in follow_of prec prec_qt.
Definition prec_dg : dgrammar := Eval vm_compute in get no_grammar (from_processed_grammars 40 prec prec_maps [] prec_first prec_follow).
Definition prec_wrap : wrapped_root := mkWrapped 21 22 0 1.

Lemma prec_built : built prec 23 prec_wrap 28 23 prec_dg.
Proof.
  apply (tables_ok prec 23 prec_wrap 28 23 (fun _ => 0) (fun s => s) 40 prec_maps [] prec_first prec_follow prec_dg prec_ft prec_lt prec_qt);
    vm_compute; reflexivity.
Qed.
Lemma prec_sorted : sorted_rules prec.
Proof. apply sorted_check_ok. vm_compute. reflexivity. Qed.

(** ambiguous_math *)
Definition amath_ft : list (nat * list nat) := Eval vm_compute in reach 6 first_sym amath.
Definition amath_lt : list (nat * list nat) := Eval vm_compute in reach 6 last_sym amath.
Definition amath_qt : list (nat * nat) := Eval vm_compute in adjacent_of (look amath_ft) (look amath_lt) (c_rules amath).
Definition amath_first : list (sym * list sym) := Eval vm_compute in first_of amath amath_ft.
Definition amath_follow : list (sym * list sym) := Eval vm_compute in follow_of amath amath_qt.
Definition amath_dg : dgrammar := Eval vm_compute in get no_grammar (from_processed_grammars 40 amath amath_maps [] amath_first amath_follow).
Definition amath_wrap : wrapped_root := mkWrapped 18 19 0 1.

Lemma amath_built : built amath 20 amath_wrap 26 20 amath_dg.
Proof.
  apply (tables_ok amath 20 amath_wrap 26 20 (fun _ => 0) (fun s => s) 40 amath_maps [] amath_first amath_follow amath_dg amath_ft amath_lt amath_qt);
    vm_compute; reflexivity.
Qed.
Lemma amath_sorted : sorted_rules amath.
Proof. apply sorted_check_ok. vm_compute. reflexivity. Qed.
