(** MathSpec: arithmetic expressions, how they are written and what they denote,
    independently of any grammar. *)
From Coq Require Import List Arith Bool ZArith Ascii String.
Import ListNotations.
Local Open Scope list_scope.

(** Sums of products of factors, grouping to the left.  A number is the list of its
    digits, most significant first. *)
Inductive sum :=
| Prod (p : product)
| Plus (s : sum) (p : product)
| Minus (s : sum) (p : product)
with product :=
| Fact (f : factor)
| Times (p : product) (f : factor)
| Over (p : product) (f : factor)
with factor :=
| Number (digits : list nat)
| Paren (s : sum).

Definition digit_char (d : nat) : ascii := ascii_of_nat (48 + d).

(** the text of an expression *)
Fixpoint sum_text (s : sum) : list ascii :=
  match s with
  | Prod p => product_text p
  | Plus s p => sum_text s ++ "+"%char :: product_text p
  | Minus s p => sum_text s ++ "-"%char :: product_text p
  end
with product_text (p : product) : list ascii :=
  match p with
  | Fact f => factor_text f
  | Times p f => product_text p ++ "*"%char :: factor_text f
  | Over p f => product_text p ++ "/"%char :: factor_text f
  end
with factor_text (f : factor) : list ascii :=
  match f with
  | Number ds => map digit_char ds
  | Paren s => "("%char :: sum_text s ++ [")"%char]
  end.
Definition text (s : sum) : string := string_of_list_ascii (sum_text s).

(** all numbers of an expression satisfy [Q] *)
Fixpoint sum_numbers (Q : list nat -> Prop) (s : sum) : Prop :=
  match s with
  | Prod p => product_numbers Q p
  | Plus s p | Minus s p => sum_numbers Q s /\ product_numbers Q p
  end
with product_numbers (Q : list nat -> Prop) (p : product) : Prop :=
  match p with
  | Fact f => factor_numbers Q f
  | Times p f | Over p f => product_numbers Q p /\ factor_numbers Q f
  end
with factor_numbers (Q : list nat -> Prop) (f : factor) : Prop :=
  match f with
  | Number ds => Q ds
  | Paren s => sum_numbers Q s
  end.

(** a number has at least one digit *)
Definition digits_ok (ds : list nat) : Prop := ds <> [] /\ Forall (fun d => d < 10) ds.
Definition expression (s : sum) : Prop := sum_numbers digits_ok s.

(** ** 32-bit arithmetic *)
Definition fit32 (z : Z) : option Z := if ((- 2 ^ 31 <=? z) && (z <? 2 ^ 31))%Z then Some z else None.
Definition op32 (f : Z -> Z -> Z) (x y : option Z) : option Z :=
  match x, y with Some x, Some y => fit32 (f x y) | _, _ => None end.
(** rounds towards zero *)
Definition truncated (x y : Z) : Z := (Z.sgn x * Z.sgn y * (Z.abs x / Z.abs y))%Z.
Definition div32 (x y : option Z) : option Z :=
  match x, y with
  | Some x, Some y => if (y =? 0)%Z then None else fit32 (truncated x y)
  | _, _ => None
  end.

(** ** The value, in 32-bit arithmetic; [None] if a result does not fit or a divisor is
    zero.  Division rounds towards zero.  [number] gives the value of a number. *)
Section Denote.
  Variable number : list nat -> option Z.
  Fixpoint sum_value (s : sum) : option Z :=
    match s with
    | Prod p => product_value p
    | Plus s p => op32 Z.add (sum_value s) (product_value p)
    | Minus s p => op32 Z.sub (sum_value s) (product_value p)
    end
  with product_value (p : product) : option Z :=
    match p with
    | Fact f => factor_value f
    | Times p f => op32 Z.mul (product_value p) (factor_value f)
    | Over p f => div32 (product_value p) (factor_value f)
    end
  with factor_value (f : factor) : option Z :=
    match f with
    | Number ds => number ds
    | Paren s => sum_value s
    end.
End Denote.

(** the decimal number written with digits [ds] *)
Definition decimal (ds : list nat) : Z := fold_left (fun n d => 10 * n + Z.of_nat d)%Z ds 0%Z.
Definition arithmetic_value (s : sum) : option Z := sum_value (fun ds => fit32 (decimal ds)) s.

(** What the evaluators make of a number: the first digit times ten, plus what they make
    of the rest. *)
Fixpoint weighted (ds : list nat) : option Z :=
  match ds with
  | [] => None
  | [d] => Some (Z.of_nat d)
  | d :: ds => op32 Z.add (Some (Z.of_nat d * 10)%Z) (weighted ds)
  end.
