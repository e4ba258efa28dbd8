(** ReferenceCrate: a cfg crate written down in Coq.

    The cfg crate is not part of /repo, and CrateSpec.v only says what [from_grammar]
    (gearley-default-grammar/src/lib.rs:93-281) expects of it.  Here are functions that do
    what is expected, for every grammar.  They model no code of /repo: they show that the
    contract can be kept, and they make [from_grammar] something that can be run. *)
From Coq Require Import List Arith Bool.
From Verif Require Import Base Grammar DefaultGrammar FromGrammar.
Import ListNotations.
Local Open Scope res_scope.

Definition mem (s : sym) (l : list sym) : bool := existsb (Nat.eqb s) l.

(** ** Closure: the least set that contains [known] and, with the premises of a clause, its
    conclusion. *)
Definition clause := (list sym * sym)%type.
Definition fires (known : list sym) (cl : clause) : bool :=
  forallb (fun s => mem s known) (fst cl) && negb (mem (snd cl) known).
Fixpoint saturate (n : nat) (cls : list clause) (known : list sym) : list sym :=
  match n with
  | 0 => known
  | S n => saturate n cls (map snd (filter (fires known) cls) ++ known)
  end.
Definition closure (cls : list clause) (known : list sym) : list sym := saturate (length cls) cls known.

Definition rule_clauses (R : list prule) : list clause := map (fun r => (p_rhs r, p_lhs r)) R.
Definition is_terminal (R : list prule) (s : sym) : bool := forallb (fun r => negb (p_lhs r =? s)) R.

Definition nullables (R : list prule) : list sym := closure (rule_clauses R) [].
Definition productives (n : nat) (R : list prule) : list sym :=
  closure (rule_clauses R) (filter (is_terminal R) (seq 0 n)).
Definition reachables (R : list prule) (start : sym) : list sym :=
  closure (flat_map (fun r => map (fun t => ([p_lhs r], t)) (p_rhs r)) R) [start].

Definition root_of (c : pcfg) : sym := nth 0 (c_roots c) 0.

(** ** [Cfg::make_proper] *)
Definition ref_make_proper (c : pcfg) : pcfg :=
  let p := productives (c_num_syms c) (c_rules c) in
  let q := reachables (c_rules c) (root_of c) in
  mkCfg (filter (fun r => mem (p_lhs r) q && forallb (fun s => mem s p) (p_rhs r)) (c_rules c))
        (c_num_syms c) (c_roots c) (c_wrapped c).

(** ** [Cfg::wrap_input] *)
Definition ref_wrap_input (c : pcfg) : pcfg :=
  let n := c_num_syms c in
  mkCfg (c_rules c ++ [mkRule n [n + 1; root_of c; n + 2] None None []])
        (n + 3) [n] [mkWrapped n (n + 1) (n + 2) (root_of c)].

(** ** Binarisation

    [cut next pre a l]: the right-hand side [a l], where [a] stands for [pre]; the rules for
    generated symbols from [next] on, with what they stand for, and what remains. *)
Fixpoint cut (next : sym) (pre : list sym) (a : sym) (l : list sym) : list (prule * list sym) * list sym :=
  match l with
  | [] => ([], [a])
  | b :: t =>
      match t with
      | [] => ([], [a; b])
      | _ =>
          let '(gens, rhs) := cut (S next) (pre ++ [b]) next t in
          ((mkRule next [a; b] None None [], pre ++ [b]) :: gens, rhs)
      end
  end.
Definition cut_rhs (next : sym) (rhs : list sym) : list (prule * list sym) * list sym :=
  match rhs with
  | [] => ([], [])
  | a :: l => cut next [a] a l
  end.
Fixpoint cut_rules (next : sym) (R : list prule) : list prule * list (prule * list sym) :=
  match R with
  | [] => ([], [])
  | r :: R =>
      let '(gens, rhs) := cut_rhs next (p_rhs r) in
      let '(heads, rest) := cut_rules (next + length gens) R in
      (mkRule (p_lhs r) rhs (p_origin r) (p_nullable r) (p_dots r) :: heads, gens ++ rest)
  end.
Definition binarize (c : pcfg) : pcfg :=
  let '(heads, gens) := cut_rules (c_num_syms c) (c_rules c) in
  mkCfg (heads ++ map fst gens) (c_num_syms c + length gens) (c_roots c) (c_wrapped c).
Definition meaning (c : pcfg) (s : sym) : list sym :=
  if s <? c_num_syms c then [s]
  else match nth_error (snd (cut_rules (c_num_syms c) (c_rules c))) (s - c_num_syms c) with
       | Some g => snd g
       | None => [0; 0]
       end.

(** ** Elimination of nulling rules *)
Fixpoint masks (n : nat) : list (list bool) :=
  match n with
  | 0 => [[]]
  | S n => map (cons true) (masks n) ++ map (cons false) (masks n)
  end.
Fixpoint keep (mask : list bool) (l : list sym) : list sym :=
  match mask, l with
  | b :: mask, s :: l => if b then s :: keep mask l else keep mask l
  | _, _ => []
  end.
Definition struck (mask : list bool) (l : list sym) : option (sym * bool) :=
  match mask, l with
  | [true; false], [_; y] => Some (y, true)
  | [false; true], [x; _] => Some (x, false)
  | _, _ => None
  end.
Definition mask_ok (nulls rhs : list sym) (mask : list bool) : bool :=
  forallb (fun s => mem s nulls) (keep (map negb mask) rhs) && match keep mask rhs with [] => false | _ => true end.
Definition choices (nulls : list sym) (R : list prule) : list (nat * list bool) :=
  flat_map (fun br : nat * prule =>
              map (fun mask => (fst br, mask)) (filter (mask_ok nulls (p_rhs (snd br))) (masks (length (p_rhs (snd br))))))
           (combine (seq 0 (length R)) R).
Definition dot_of (r : prule) (n : nat) : option rule_dot :=
  match column_dot n r with Some d => Some d | None => Some (mkDot (None, None) None) end.
Definition choose (R : list prule) (ch : nat * list bool) : prule :=
  let r := nth (fst ch) R (mkRule 0 [] None None []) in
  mkRule (p_lhs r) (keep (snd ch) (p_rhs r)) (p_origin r) (struck (snd ch) (p_rhs r)) (map (dot_of r) [0; 1; 2]).
Definition eliminate (c : pcfg) : pcfg * list prule :=
  let nulls := nullables (c_rules c) in
  (mkCfg (map (choose (c_rules c)) (choices nulls (c_rules c))) (c_num_syms c) (c_roots c) (c_wrapped c),
   filter (fun r => forallb (fun s => mem s nulls) (p_rhs r)) (c_rules c)).

(** ** [Remap]: the used symbols, enumerated as [pre] says, are sorted by insertion and numbered *)
Fixpoint insert (cmp : sym -> sym -> res comparison) (x : sym) (l : list sym) : res (list sym) :=
  match l with
  | [] => Ret [x]
  | y :: t =>
      o <- cmp x y ;;
      match o with
      | Gt => l' <- insert cmp x t ;; Ret (y :: l')
      | _ => Ret (x :: y :: t)
      end
  end.
Definition sort_syms (cmp : sym -> sym -> res comparison) (l : list sym) : res (list sym) :=
  foldM (fun l x => insert cmp x l) l [].
Definition used_syms (R : list prule) : list sym := nodup Nat.eq_dec (flat_map (fun r => p_lhs r :: p_rhs r) R).
Fixpoint place (s : sym) (l : list sym) : nat :=
  match l with
  | [] => 0
  | x :: t => if x =? s then 0 else S (place s t)
  end.
Definition rename (f : sym -> sym) (r : prule) : prule :=
  mkRule (f (p_lhs r)) (map f (p_rhs r)) (p_origin r) (option_map (fun e => (f (fst e), snd e)) (p_nullable r)) (p_dots r).
Definition rename_wrapped (f : sym -> sym) (w : wrapped_root) : wrapped_root :=
  mkWrapped (f (w_root w)) (f (w_sof w)) (f (w_eof w)) (f (w_inner w)).
Definition ref_remap (pre : list sym -> list sym) (cmp : sym -> sym -> res comparison) (c : pcfg) : res (pcfg * mapping) :=
  l <- sort_syms cmp (pre (used_syms (c_rules c))) ;;
  let f := fun s => place s l in
  Ret (mkCfg (map (rename f) (c_rules c)) (length l) (map f (c_roots c)) (map (rename_wrapped f) (c_wrapped c)),
       mkMapping (map (fun s => if mem s l then Some (f s) else None) (seq 0 (c_num_syms c))) l).

(** ** [FirstSets], [FollowSets] *)
Definition first_clauses (R : list prule) : list clause :=
  flat_map (fun r => match p_rhs r with B :: _ => [([p_lhs r], B)] | [] => [] end) R.
Definition last_clauses (R : list prule) : list clause :=
  flat_map (fun r => match p_rhs r with B :: l => [([p_lhs r], last l B)] | [] => [] end) R.
Definition heads_of (R : list prule) (s : sym) : list sym := closure (first_clauses R) [s].
Definition tails_of (R : list prule) (s : sym) : list sym := closure (last_clauses R) [s].
Fixpoint neighbours (l : list sym) : list (sym * sym) :=
  match l with
  | a :: t => match t with b :: _ => [(a, b)] | [] => [] end ++ neighbours t
  | [] => []
  end.
Definition ref_first (c : pcfg) : list (sym * list sym) :=
  map (fun r => (p_lhs r, filter (is_terminal (c_rules c)) (heads_of (c_rules c) (p_lhs r)))) (c_rules c).
Definition ref_follow (c : pcfg) : list (sym * list sym) :=
  flat_map (fun r => flat_map (fun p =>
      map (fun s => (s, filter (is_terminal (c_rules c)) (heads_of (c_rules c) (snd p)))) (tails_of (c_rules c) (fst p)))
    (neighbours (p_rhs r))) (c_rules c).

Definition reference_by (pre : list sym -> list sym) : cfg_crate := {|
  x_make_proper := ref_make_proper;
  x_wrap_input := ref_wrap_input;
  x_binarize_and_eliminate := fun c => eliminate (binarize c);
  x_remap := ref_remap pre;
  x_first := ref_first;
  x_follow := ref_follow |}.
(** the symbols taken as they first stand in the rules *)
Definition reference : cfg_crate := reference_by (fun l => l).
(** or from the largest number down, so that those the order does not tell apart keep the
    order of their numbers *)
Fixpoint put_down (x : sym) (l : list sym) : list sym :=
  match l with
  | [] => [x]
  | y :: t => if y <? x then x :: y :: t else y :: put_down x t
  end.
Definition numbered : cfg_crate := reference_by (fold_right put_down []).
