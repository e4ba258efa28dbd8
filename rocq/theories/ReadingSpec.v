(** ReadingSpec: expressions without parentheses or precedence, how they are written and
    what they denote, independently of any grammar. *)
From Coq Require Import List Arith Bool ZArith Ascii String.
From Verif Require Import MathSpec.
Import ListNotations.
Local Open Scope list_scope.

Inductive operator := Add | Sub | Mul | Div.
(** A reading of a chain of numbers and operators says in which order to compute. *)
Inductive reading :=
| Num (digits : list nat)
| Op (l : reading) (o : operator) (r : reading).

Definition operator_char (o : operator) : ascii :=
  match o with Add => "+" | Sub => "-" | Mul => "*" | Div => "/" end%char.

(** the text, which does not show the order *)
Fixpoint reading_chars (e : reading) : list ascii :=
  match e with
  | Num ds => map digit_char ds
  | Op l o r => reading_chars l ++ operator_char o :: reading_chars r
  end.
Definition reading_text (e : reading) : string := string_of_list_ascii (reading_chars e).

(** all numbers satisfy [Q] *)
Fixpoint reading_numbers (Q : list nat -> Prop) (e : reading) : Prop :=
  match e with
  | Num ds => Q ds
  | Op l _ r => reading_numbers Q l /\ reading_numbers Q r
  end.
Definition reading_ok : reading -> Prop := reading_numbers digits_ok.

Fixpoint operators (e : reading) : nat :=
  match e with Num _ => 0 | Op l _ r => operators l + 1 + operators r end.

(** the value in 32-bit arithmetic, as in MathSpec.v *)
Definition apply32 (o : operator) : option Z -> option Z -> option Z :=
  match o with Add => op32 Z.add | Sub => op32 Z.sub | Mul => op32 Z.mul | Div => div32 end.
Fixpoint reading_value (number : list nat -> option Z) (e : reading) : option Z :=
  match e with
  | Num ds => number ds
  | Op l o r => apply32 o (reading_value number l) (reading_value number r)
  end.
