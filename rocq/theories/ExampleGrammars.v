(** ExampleGrammars: concrete processed grammars used to show that hypotheses can
    be met, and as witnesses for refuted properties. *)
From Coq Require Import List Arith Bool.
From Verif Require Import Base Vec2d Item Grammar BitMatrix DefaultGrammar Forest Recognizer Parse.
Import ListNotations.
Local Open Scope res_scope.

Definition no_dot : rule_dot := mkDot (None, None) None.
(** a rule without nulling record and events *)
Definition rule (l : sym) (r : list sym) (origin : option nat) : prule :=
  mkRule l r origin None [Some no_dot; Some no_dot; Some no_dot].
Definition no_maps : mapping := mkMapping [] [].

(** S ::= a S b | a b.
    0 eof, 1 root, 2 sof, 3 S, 4 a, 5 b, 6 g0, 7 g1 *)
Definition anbn : pcfg := {|
  c_rules := [ rule 1 [6; 0] None;        (* root ::= g0 eof *)
               rule 3 [7; 5] (Some 0);    (* S ::= g1 b *)
               rule 3 [4; 5] (Some 1);    (* S ::= a b *)
               rule 6 [2; 3] None;        (* g0 ::= sof S *)
               rule 7 [4; 3] None ];      (* g1 ::= a S *)
  c_num_syms := 8;
  c_roots := [1];
  c_wrapped := [mkWrapped 1 2 0 3] |}.
Definition anbn_first : list (sym * list sym) :=
  [(1, [2]); (3, [4]); (6, [2]); (7, [4])].
Definition anbn_follow : list (sym * list sym) :=
  [(2, [4]); (3, [0; 5]); (4, [4; 5]); (5, [0; 5]); (6, [0]); (7, [5])].
Definition anbn_g : res dgrammar :=
  from_processed_grammars 10 anbn no_maps [] anbn_first anbn_follow.

Definition run_parse (g : res dgrammar) (tokens : list sym) : res parse_result :=
  g <- g ;;
  st <- r_new g tt ;;
  '(r, _) <- parse null_forest default_perf g 100 st tokens ;;
  Ret r.

(** E ::= E E | a (ambiguous).  0 eof, 1 root, 2 sof, 3 E, 4 a, 5 g0 *)
Definition amb : pcfg := {|
  c_rules := [ rule 1 [5; 0] None;        (* root ::= g0 eof *)
               rule 3 [3; 3] (Some 0);    (* E ::= E E *)
               rule 3 [4] (Some 1);       (* E ::= a *)
               rule 5 [2; 3] None ];      (* g0 ::= sof E *)
  c_num_syms := 6;
  c_roots := [1];
  c_wrapped := [mkWrapped 1 2 0 3] |}.
Definition amb_first : list (sym * list sym) := [(1, [2]); (3, [4]); (5, [2])].
Definition amb_follow : list (sym * list sym) := [(2, [4]); (3, [0; 4]); (4, [0; 4]); (5, [0])].
Definition amb_g : res dgrammar := from_processed_grammars 10 amb no_maps [] amb_first amb_follow.

(** S ::= a S |  (nothing).  0 eof, 1 root, 2 sof, 3 S, 4 a, 5 g0 *)
Definition opt : pcfg := {|
  c_rules := [ rule 1 [5; 0] None;                        (* root ::= g0 eof *)
               rule 3 [4; 3] (Some 0);                    (* S ::= a S *)
               mkRule 3 [4] (Some 0) (Some (3, true)) [Some no_dot; Some no_dot; Some no_dot]; (* S ::= a, S nulled *)
               rule 5 [2; 3] None;                        (* g0 ::= sof S *)
               mkRule 5 [2] None (Some (3, true)) [Some no_dot; Some no_dot; Some no_dot] ];   (* g0 ::= sof *)
  c_num_syms := 6;
  c_roots := [1];
  c_wrapped := [mkWrapped 1 2 0 3] |}.
Definition opt_first : list (sym * list sym) := [(1, [2]); (3, [4]); (5, [2])].
Definition opt_follow : list (sym * list sym) := [(2, [0; 4]); (3, [0]); (4, [0; 4]); (5, [0])].
(** the nulling rules left by the elimination: S ::= (nothing) *)
Definition opt_g : res dgrammar :=
  from_processed_grammars 10 opt no_maps [mkRule 3 [] (Some 1) None [Some no_dot]] opt_first opt_follow.

Definition the {A} (d : A) (x : res A) : A := match x with Ret a => a | _ => d end.
