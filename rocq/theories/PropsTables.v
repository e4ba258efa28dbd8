(** PropsTables: properties C12, C22, C23, C24, C41, C43 (grammar tables).  Proofs are
    in TablesProofs.v, TableFacts.v, TablesTotal.v and RemapFacts.v. *)
From Coq Require Import List Arith Bool Lia Relations.
From Verif Require Import Base Vec2d Grammar BitMatrix DefaultGrammar Spec Chart CfgSpec Tables TablesProofs TableFacts
  TablesTotal RemapFacts Check ExampleGrammars.
Import ListNotations.

(** C22.  [prediction_row A] has a bit for every ordinary symbol, and the bit of [B] is
    set exactly if [A] derives a string beginning with [B] ([A] itself included).
    Generated symbols are skipped: they have no bit. *)
Theorem C22_prediction_row : forall fuel c maps nulling first follow g nsyms,
  wf_rules (c_rules c) nsyms (c_num_syms c) -> nsyms <= c_num_syms c ->
  num_gensyms c = Ret (c_num_syms c - nsyms) ->
  from_processed_grammars fuel c maps nulling first follow = Ret g ->
  forall A, A < nsyms -> exists row, prediction_row g A = Ret row /\ length row = nsyms /\
    forall B, nth_error row B = Some true <-> B < nsyms /\ exists v, derives (c_rules c) A (B :: v).
Proof. exact Q_prediction_row. Qed.
Print Assumptions C22_prediction_row.

(** the example grammar S ::= a S b | a b meets the hypotheses of C22, C23, C41, C43 *)
Lemma anbn_processed : processed anbn 6 (mkWrapped 1 2 0 3) 0 6.
Proof. apply (processed_check_ok anbn 6 (mkWrapped 1 2 0 3) 0 6 (fun _ => 0) (fun _ => 0)); reflexivity. Qed.
Example C22_example :
  wf_rules (c_rules anbn) 6 (c_num_syms anbn) /\ 6 <= c_num_syms anbn /\
  num_gensyms anbn = Ret (c_num_syms anbn - 6) /\
  exists g, from_processed_grammars 10 anbn no_maps [] anbn_first anbn_follow = Ret g /\
    prediction_row g 1 = Ret [false; true; true; false; false; false] /\
    prediction_row g 3 = Ret [false; false; false; true; true; false].
Proof.
  destruct anbn_processed as [H1 H2 H3]. repeat (split; [assumption|]). eexists. split; [vm_compute; reflexivity|].
  split; reflexivity.
Qed.

(** C23.  [completions s] is the list of all transitions over [s]: one for each rule
    starting with [s] ([trans_ok]: no rule twice, every rule there, nothing else), the
    binary ones before the unary ones, each carrying the ordinary symbol reached from the
    rule's left-hand side through generated symbols; [gen_completion s] is the same for a
    generated symbol, at most one of each kind. *)
Theorem C23_completions : forall fuel c maps nulling first follow g nsyms,
  wf_rules (c_rules c) nsyms (c_num_syms c) -> nsyms <= c_num_syms c ->
  num_gensyms c = Ret (c_num_syms c - nsyms) ->
  from_processed_grammars fuel c maps nulling first follow = Ret g ->
  (forall s, s < nsyms -> exists lb lu, completions g s = Ret (lb ++ lu) /\
     trans_ok (c_rules c) nsyms s false lb /\ trans_ok (c_rules c) nsyms s true lu) /\
  (forall s, nsyms <= s -> s < c_num_syms c -> exists bo uo, gen_completion g s = Ret (bo, uo) /\
     trans_ok (c_rules c) nsyms s false (opt_list bo) /\ trans_ok (c_rules c) nsyms s true (opt_list uo)).
Proof.
  exact (fun fuel c maps nulling first follow g nsyms wf Hle Hgen Hg =>
    conj (Q_completions fuel c maps nulling first follow g nsyms wf Hle Hgen Hg)
         (Q_gen_completion fuel c maps nulling first follow g nsyms wf Hle Hgen Hg)).
Qed.
Print Assumptions C23_completions.

(** [a] starts the rules 2 (S ::= a b) and 4 (g1 ::= a S), both predicted by S *)
Example C23_example : exists g, from_processed_grammars 10 anbn no_maps [] anbn_first anbn_follow = Ret g /\
  completions g 4 = Ret [mkPT 3 2 false; mkPT 3 4 false] /\
  gen_completion g 7 = Ret (Some (mkPT 3 1 false), None).
Proof. eexists. split; [vm_compute; reflexivity|]. split; reflexivity. Qed.

(** C41.  The lookahead set of a dot in the middle of a rule [A ::= B C] has exactly the
    bits of [C] itself and of what the supplied FIRST sets list for [C]; that of a unary
    rule [A ::= B] has exactly what the supplied FOLLOW sets list for [A]; so does
    [lhs_lr_set A], used for completed rules. *)
Theorem C41_lookahead_tables : forall fuel c maps nulling first follow g nsyms,
  wf_rules (c_rules c) nsyms (c_num_syms c) -> nsyms <= c_num_syms c ->
  num_gensyms c = Ret (c_num_syms c - nsyms) ->
  from_processed_grammars fuel c maps nulling first follow = Ret g ->
  (forall d r C, nth_error (c_rules c) d = Some r -> rhs1 r = Some C ->
     exists row, lookahead_set g d = Ret row /\ forall t, t < nsyms ->
       (nth_error row t = Some true <-> t = C \/ exists l, In (C, l) first /\ In t l)) /\
  (forall d r, nth_error (c_rules c) d = Some r -> rhs1 r = None -> p_lhs r < nsyms ->
     exists row, lookahead_set g d = Ret row /\ forall t, t < nsyms ->
       (nth_error row t = Some true <-> exists l, In (p_lhs r, l) follow /\ In t l)) /\
  (forall A, A < nsyms -> exists row, lhs_lr_set g A = Ret row /\ forall t, t < nsyms ->
     (nth_error row t = Some true <-> exists l, In (A, l) follow /\ In t l)).
Proof.
  exact (fun fuel c maps nulling first follow g nsyms wf Hle Hgen Hg =>
    conj (Q_lookahead_binary fuel c maps nulling first follow g nsyms wf Hle Hgen Hg)
   (conj (Q_lookahead_unary fuel c maps nulling first follow g nsyms wf Hle Hgen Hg)
         (Q_lhs_lr_set fuel c maps nulling first follow g nsyms wf Hle Hgen Hg))).
Qed.
Print Assumptions C41_lookahead_tables.

(** C41, in terms of derivations: if the supplied sets miss nothing, every terminal that
    can begin what follows the dot is in the lookahead set. *)
Theorem C41_no_successor_missing : forall fuel c maps nulling first follow g nsyms,
  wf_rules (c_rules c) nsyms (c_num_syms c) -> nsyms <= c_num_syms c ->
  num_gensyms c = Ret (c_num_syms c - nsyms) ->
  from_processed_grammars fuel c maps nulling first follow = Ret g ->
  first_sets_cover c first -> forall root, follow_sets_cover c root follow ->
  (forall d r C t v, nth_error (c_rules c) d = Some r -> rhs1 r = Some C -> terminal (c_rules c) t -> t < nsyms ->
     derives (c_rules c) C (t :: v) -> exists row, lookahead_set g d = Ret row /\ nth_error row t = Some true) /\
  (forall d r t u v, nth_error (c_rules c) d = Some r -> rhs1 r = None -> p_lhs r < nsyms -> terminal (c_rules c) t -> t < nsyms ->
     derives (c_rules c) root (u ++ p_lhs r :: t :: v) ->
     exists row, lookahead_set g d = Ret row /\ nth_error row t = Some true).
Proof. exact Q_successors. Qed.
Print Assumptions C41_no_successor_missing.

Example C41_example : first_sets_cover anbn anbn_first /\ follow_sets_cover anbn 1 anbn_follow /\
  exists g, from_processed_grammars 10 anbn no_maps [] anbn_first anbn_follow = Ret g /\
    lookahead_set g 4 = Ret [false; false; false; true; true; false].
Proof.
  destruct (sets_check_ok 6 anbn 1 anbn_first anbn_follow) as [A B]; [vm_compute; reflexivity|].
  split; [exact A|]. split; [exact B|]. eexists. split; [vm_compute; reflexivity|reflexivity].
Qed.

(** C43.  Building the tables never panics and always terminates: for a processed grammar
    with one root, whose rules carry the dots the event columns ask for and whose nulling
    rules use known symbols, there is an amount of fuel from which on
    [from_processed_grammars] returns one and the same grammar. *)
Theorem C43_construction_total : forall c nsyms w d0 g0 maps nulling first follow,
  processed c nsyms w d0 g0 -> length (c_roots c) = 1 ->
  (forall r, In r (c_rules c) -> column_dot 1 r <> None /\ column_dot 2 r <> None) ->
  (forall r r0 r1, In r nulling -> p_rhs r = [r0; r1] -> p_origin r = None ->
     forall s, s = p_lhs r \/ s = r0 \/ s = r1 -> exists x, map_to_internal maps s = Ret (Some x)) ->
  exists n g, forall fuel, n <= fuel -> from_processed_grammars fuel c maps nulling first follow = Ret g.
Proof. exact from_processed_total. Qed.
Print Assumptions C43_construction_total.

Example C43_example : processed anbn 6 (mkWrapped 1 2 0 3) 0 6 /\ length (c_roots anbn) = 1 /\
  (forall r, In r (c_rules anbn) -> column_dot 1 r <> None /\ column_dot 2 r <> None).
Proof.
  split; [exact anbn_processed|]. split; [reflexivity|]. intros r H.
  repeat (destruct H as [<-|H]; [split; discriminate|]). destruct H.
Qed.

(** C24, what classification as generated does guarantee: some rule for the symbol has no
    external origin; the symbol never stands in second or later position; apart from rules
    for itself, exactly one binary rule starts with it; and exactly one of its own binary
    rules does not start with it.  Missing: nothing is guaranteed about unary rules
    starting with it, nor about its own rules starting with it. *)
Theorem C24_gensyms_partial : forall c gens s, find_gensyms c = Ret gens -> nth_error gens s = Some true ->
  (exists r, In r (c_rules c) /\ p_lhs r = s /\ p_origin r = None) /\
  (forall r, In r (c_rules c) -> ~ In s (skipn 1 (p_rhs r))) /\
  (exists d r, nth_error (c_rules c) d = Some r /\ p_lhs r <> s /\ (exists s1, p_rhs r = [s; s1]) /\
     forall d' r' s1, nth_error (c_rules c) d' = Some r' -> p_lhs r' <> s -> p_rhs r' = [s; s1] -> d' = d) /\
  (exists d r, nth_error (c_rules c) d = Some r /\ p_lhs r = s /\ (exists s0 s1, p_rhs r = [s0; s1] /\ s0 <> s) /\
     forall d' r' s0 s1, nth_error (c_rules c) d' = Some r' -> p_lhs r' = s -> p_rhs r' = [s0; s1] -> s0 <> s -> d' = d).
Proof. exact gensym_facts. Qed.
Print Assumptions C24_gensyms_partial.

(** S ::= G b | G | T b, T ::= G with G ::= a a without origin, used by one binary rule and by two
    unary rules.  0 eof, 1 root, 2 sof, 3 S, 4 T, 5 a, 6 b, 7 g0, 8 G *)
Definition two_unary : pcfg := {|
  c_rules := [ rule 1 [7; 0] None;        (* root ::= g0 eof *)
               rule 3 [8; 6] (Some 0);    (* S ::= G b *)
               rule 3 [8] (Some 1);       (* S ::= G *)
               rule 3 [4; 6] (Some 2);    (* S ::= T b *)
               rule 4 [8] (Some 3);       (* T ::= G *)
               rule 7 [2; 3] None;        (* g0 ::= sof S *)
               rule 8 [5; 5] None ];      (* G ::= a a *)
  c_num_syms := 9;
  c_roots := [1];
  c_wrapped := [mkWrapped 1 2 0 3] |}.

(** C24 refuted: [G] is classified as generated although two unary rules start with it;
    [gen_completion] forgets the rule S ::= G (dot 2). *)
Theorem C24_refuted : exists c gens s d1 d2 r1 r2 g,
  find_gensyms c = Ret gens /\ nth_error gens s = Some true /\
  d1 <> d2 /\ nth_error (c_rules c) d1 = Some r1 /\ nth_error (c_rules c) d2 = Some r2 /\
  p_rhs r1 = [s] /\ p_rhs r2 = [s] /\
  from_processed_grammars 10 c no_maps [] [] [] = Ret g /\
  exists bo uo, gen_completion g s = Ret (bo, uo) /\
    forall t, In t (opt_list bo ++ opt_list uo) -> pt_dot t <> d1.
Proof.
  exists two_unary. eexists. exists 8, 2, 4. eexists. eexists. eexists.
  split; [vm_compute; reflexivity|]. split; [reflexivity|]. split; [discriminate|].
  split; [reflexivity|]. split; [reflexivity|]. split; [reflexivity|]. split; [reflexivity|].
  split; [vm_compute; reflexivity|]. eexists. eexists. split; [vm_compute; reflexivity|].
  intros t [<-|[<-|[]]]; discriminate.
Qed.
Print Assumptions C24_refuted.

(** C12, what the comparator handed to [reorder_symbols] is: the transitive closure of
    - the smaller before the larger symbol of each unary rule, whichever is on the left;
    - ordinary symbols before generated ones;
    - the end marker before ordinary symbols.
    So ordinary symbols compare below generated ones, and [A] below [B] for a unary rule
    A ::= B whose symbols were already numbered in that order.  Missing: the rules whose
    symbols were numbered the other way round (see [C12_refuted]); the sorting itself is
    done by the cfg crate. *)
Theorem C12_order_partial : forall c eoi order gens, remap_order c eoi = Ret order -> find_gensyms c = Ret gens ->
  forall i j, bit order i j = true <-> clos_trans sym (before c eoi gens) i j.
Proof. exact order_bits. Qed.
Print Assumptions C12_order_partial.

Example C12_example : exists order gens, remap_order anbn 0 = Ret order /\ find_gensyms anbn = Ret gens /\
  bit order 3 7 = true /\ bit order 0 3 = true /\ bit order 7 3 = false.
Proof. eexists. eexists. split; [vm_compute; reflexivity|]. split; [vm_compute; reflexivity|]. split; [reflexivity|]. split; reflexivity. Qed.

(** S ::= T, T ::= a a with S numbered after T.  0 eof, 1 root, 2 sof, 3 T, 4 S, 5 a, 6 g0 *)
Definition unary_up : pcfg := {|
  c_rules := [ rule 1 [6; 0] None; rule 3 [5; 5] (Some 0); rule 4 [3] (Some 1); rule 6 [2; 4] None ];
  c_num_syms := 7;
  c_roots := [1];
  c_wrapped := [mkWrapped 1 2 0 4] |}.

(** C12 refuted: for the unary rule S ::= T the comparator puts T before S. *)
Theorem C12_refuted : exists c eoi order r B, remap_order c eoi = Ret order /\
  In r (c_rules c) /\ p_rhs r = [B] /\
  remap_cmp order (p_lhs r) B = Ret Gt /\ remap_cmp order B (p_lhs r) = Ret Lt.
Proof.
  exists unary_up, 0. eexists. exists (rule 4 [3] (Some 1)), 3. split; [vm_compute; reflexivity|].
  split; [simpl; auto|]. split; [reflexivity|]. split; reflexivity.
Qed.
Print Assumptions C12_refuted.
