(** Model of printing elements, src/element.cc:921-967, continued: the characters that are written.  Print.v has the sequence of
    things that are written, Output.v the characters of real numbers. *)
From Coq Require Import ZArith QArith Qcanon Bool List String.
From Verif Require Import Arf Real Text Output Gen Ring Module Element SpecLoops Print.
Import ListNotations.
Open Scope string_scope.

Section Spell.
  Context {A : ring}.
  (** operator<< of the coefficients: GMP *)
  Variable show_coeff : car A -> string.
  (** operator<< of RealNumber; None: it needs more steps *)
  Variable show_gen : gen -> option string.
  (** src/element.cc:939, 945, 943, 955, 964, 953 and 955/958 *)
  Definition spell_token (t : token (car A)) : option string :=
    match t with
    | TPlus => Some " + "
    | TMinus => Some " - "
    | TNeg => Some "-"
    | TTimes => Some "*"
    | TZero => Some "0"
    | TCoeff c => Some (show_coeff c)
    | TGen g => show_gen g
    end.
  Fixpoint spell (l : list (token (car A))) : option string :=
    match l with
    | [] => Some ""
    | t :: l' => match spell_token t, spell l' with Some s, Some s' => Some (s ++ s') | _, _ => None end
    end.
End Spell.
(** GMP's operator<< for mpz_class and mpq_class *)
Definition show_int (c : car int_ring) : string := get_str 10 c.
Definition show_rat (c : car rat_ring) : string := save_mpq (Qnum (this c)) (Qden (this c)).
(** src/real_number.cc:221-224, with the random numbers given by their ids *)
Definition show_generator (rng : Z -> nat -> bool) (names : Z -> atom) (fuel : nat) (g : gen) : option string := show_num rng fuel (rnum_of names g).
(** src/element.cc:921-967 operator<<, all of it: the steps needed for comparisons and for digits are both bounded by [n]. *)
Definition print_string {A : ring} mag_up garb carb (cltb : car A -> car A -> bool) (show_coeff : car A -> string) (rng : Z -> nat -> bool) (names : Z -> atom) (n : nat) (x : elem A) : option (result string) :=
  andthen (print mag_up garb carb cltb n x) (fun l => option_map Ok (spell show_coeff (show_generator rng names n) l)).
