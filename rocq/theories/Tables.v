(** Tables: what the recognizer needs from the grammar tables.  TablesProofs.v
    derives it for the tables built by [from_processed_grammars]. *)
From Coq Require Import List Arith Bool Lia.
From Verif Require Import Base Grammar BitMatrix DefaultGrammar Spec Chart.
Import ListNotations.

Definition opt_list {A} (o : option A) : list A := match o with Some a => [a] | None => [] end.

(** [l] lists exactly the transitions over [s] of the given arity, each once *)
Definition trans_ok (R : list prule) (nsyms : nat) (s : sym) (unary : bool) (l : list ptrans) : Prop :=
  NoDup (map pt_dot l) /\
  forall t, In t l <->
    pt_unary t = unary /\
    exists r, nth_error R (pt_dot t) = Some r /\ nth_error (p_rhs r) 0 = Some s /\
      is_null (rhs1 r) = unary /\ topr R nsyms (p_lhs r) (pt_symbol t).

Record tables_ok (g : dgrammar) (R : list prule) (nsyms nall : nat)
       (FIRST FOLLOW : sym -> sym -> bool) : Prop := {
  t_syms : g_syms g = nsyms;
  t_lhs : forall d r, nth_error R d = Some r -> get_lhs g d = Ret (p_lhs r);
  t_rhs1 : forall d r, nth_error R d = Some r -> get_rhs1 g d = Ret (rhs1 r);
  t_row : forall A, A < nsyms -> exists row, prediction_row g A = Ret row /\ length row = nsyms /\
    forall B, nth_error row B = Some true <-> B < nsyms /\ pred R nsyms A B;
  t_comp : forall s, s < nsyms -> exists lb lu, completions g s = Ret (lb ++ lu) /\
    trans_ok R nsyms s false lb /\ trans_ok R nsyms s true lu;
  t_gen : forall s, nsyms <= s -> s < nall -> exists bo uo, gen_completion g s = Ret (bo, uo) /\
    trans_ok R nsyms s false (opt_list bo) /\ trans_ok R nsyms s true (opt_list uo);
  t_follow : forall A t, A < nsyms -> t < nsyms -> exists row, lhs_lr_set g A = Ret row /\
    nth_error row t = Some (FOLLOW A t);
  t_look_unary : forall d r t, nth_error R d = Some r -> rhs1 r = None -> p_lhs r < nsyms -> t < nsyms ->
    exists row, lookahead_set g d = Ret row /\ nth_error row t = Some (FOLLOW (p_lhs r) t);
  t_look_binary : forall d r C t, nth_error R d = Some r -> rhs1 r = Some C -> C < nsyms -> t < nsyms ->
    exists row, lookahead_set g d = Ret row /\ nth_error row t = Some (FIRST C t)
}.
