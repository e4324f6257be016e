(** Rational numbers as the fractions that GMP stores.  mpq_class(string) does not reduce a fraction to
    lowest terms (Text.v), and loading an archive uses it (exact-real/cereal.hpp:118-122, 232-235) without
    calling canonicalize().  Elsewhere in the model rational numbers are canonical (Qc).

    Simplifications: the only objects are rational numbers; numbers are never released by the process
    (UniqueFactory with KeepNothingAlive would create them again). *)
From Coq Require Import ZArith QArith Bool List String.
From Verif Require Import Arf Arb Text Real.
Import ListNotations.
Open Scope Z_scope.

(** mpq_t: numerator and denominator *)
Definition fraction : Type := Z * Z.
(** mpq_equal compares numerators and denominators (GMP: "the operands must be canonical") *)
Definition mpq_equal (p q : fraction) : bool := (fst p =? fst q) && (snd p =? snd q).
(** mpq_cmp(p, q) < 0, for positive denominators: by cross multiplication *)
Definition mpq_less (p q : fraction) : bool := fst p * snd q <? fst q * snd p.

(** The objects with their addresses. *)
Record process := mkProcess { numbers : list (nat * fraction); next : nat }.
Definition new_process : process := mkProcess [] 0.
Fixpoint number (l : list (nat * fraction)) (i : nat) : option fraction :=
  match l with [] => None | (j, q) :: l' => if Nat.eqb j i then Some q else number l' i end.
Fixpoint find_number (q : fraction) (l : list (nat * fraction)) : option nat :=
  match l with [] => None | (j, p) :: l' => if mpq_equal p q then Some j else find_number q l' end.

Inductive answer := Throws | Crashes | Returns (s : process) (i : nat).
(** src/rational_real_number.cc:83-91 RealNumber::rational; the hash is that of get_d(), which divides by the denominator *)
Definition rational (s : process) (q : fraction) : answer :=
  if snd q =? 0 then Crashes
  else match find_number q (numbers s) with
       | Some i => Returns s i
       | None => Returns (mkProcess ((next s, q) :: numbers s) (S (next s))) (next s)
       end.
(** src/rational_real_number.cc:71-75, exact-real/cereal.hpp:118-122: std::invalid_argument if the text is not a fraction *)
Definition load_rational (s : process) (text : string) : answer :=
  match load_mpq text with None => Throws | Some q => rational s q end.
(** src/rational_real_number.cc:67-69, exact-real/cereal.hpp:82-84; get_str prints what is stored *)
Definition save_rational (s : process) (i : nat) : option string :=
  match number (numbers s) i with Some (n, Zpos d) => Some (save_mpq n d) | _ => None end.

(** src/real_number.cc:115-118 == of real numbers: the same object *)
Definition same_object (i j : nat) : bool := Nat.eqb i j.
(** src/real_number.cc:193-195 == with a rational *)
Definition equals_mpq (s : process) (i : nat) (q : fraction) : option bool := option_map (fun p => mpq_equal q p) (number (numbers s) i).
(** src/real_number.cc:163-168 < and 178-183 > with a rational *)
Definition less_mpq (s : process) (i : nat) (q : fraction) : option bool := option_map (fun p => mpq_less p q) (number (numbers s) i).
Definition greater_mpq (s : process) (i : nat) (q : fraction) : option bool := option_map (fun p => mpq_less q p) (number (numbers s) i).
(** src/real_number.cc:99-113 < of real numbers: the loop of Real.v (rational_real_number.cc:42-46 only
    uses the quotient of the numerator and the denominator) *)
Definition as_real (q : fraction) : rnum := RRat (Qmake (fst q) (Z.to_pos (snd q))).
Definition less (rng : Z -> nat -> bool) (rounds : nat) (s : process) (i j : nat) : option bool :=
  if same_object i j then Some false
  else match number (numbers s) i, number (numbers s) j with
       | Some p, Some q => num_lt_loop rng rounds 0 (as_real p) (as_real q) arb_zero_pm_inf arb_zero_pm_inf 2
       | _, _ => None
       end.
