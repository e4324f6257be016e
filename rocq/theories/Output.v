(** Model of operator<< for floating point numbers, real numbers and modules: the characters (bytes of
    UTF-8) that are written.

    External: std::ostream << double with the default settings of a stream is printf's %g (six significant
    digits, round to nearest even), GMP's operator<< writes integers and rationals in base 10.
    Simplifications: the sign of the double zero is not represented (a negative number that underflows to
    zero is written as 0 here). *)
From Coq Require Import ZArith QArith Bool List Ascii String.
From Verif Require Import Arf Arb Real Double Text.
Import ListNotations.
Open Scope Z_scope.

(** * Doubles *)
(** The integer nearest to [n / d], ties to even; [d > 0]. *)
Definition div_near (n d : Z) : Z :=
  let q := n / d in
  match (2 * (n mod d)) ?= d with Lt => q | Gt => q + 1 | Eq => if Z.even q then q else q + 1 end.
(** The exponent of the leading decimal digit of an integer [n > 0]. *)
Fixpoint log10_loop (fuel : nat) (n : Z) : Z :=
  match fuel with O => 0 | S f => if n <? 10 then 0 else log10_loop f (n / 10) + 1 end.
Definition log10 (n : Z) : Z := log10_loop (Z.to_nat (Z.log2 n + 1)) n.
Definition log10_up (n : Z) : Z := if n <=? 1 then 0 else log10 (n - 1) + 1.
(** The exponent of the leading decimal digit of [n / d]. *)
Definition leading (n d : Z) : Z := if d <=? n then log10 (n / d) else - log10_up ((d + n - 1) / n).
(** [n / d * 10^k], rounded *)
Definition scaled (n d k : Z) : Z := if 0 <=? k then div_near (n * 10 ^ k) d else div_near n (d * 10 ^ (- k)).
(** Six digits [D] and the exponent [X] of the first one: [n / d] is about [D * 10^(X - 5)]. *)
Definition six_digits (n d : Z) : Z * Z :=
  let X := leading n d in
  let D := scaled n d (5 - X) in
  if D <? 1000000 then (D, X) else (100000, X + 1).
(** Exactly [p] digits. *)
Fixpoint padded (p : nat) (n : Z) (acc : list Z) : list Z :=
  match p with O => acc | S p' => padded p' (n / 10) (n mod 10 :: acc) end.
(** Without the zeros at the end. *)
Definition strip (ds : list Z) : list Z := fold_right (fun d l => if (d =? 0) && match l with [] => true | _ => false end then [] else d :: l) [] ds.
(** [D / 10^p] without zeros at the end, and without a point if nothing follows. *)
Definition fixed (D : Z) (p : nat) : string :=
  let frac := strip (padded p (D mod 10 ^ Z.of_nat p) []) in
  (get_str 10 (D / 10 ^ Z.of_nat p) ++ match frac with [] => EmptyString | _ => String "." (chars frac) end)%string.
(** The exponent, with a sign and at least two digits. *)
Definition exponent_str (X : Z) : string :=
  String (if X <? 0 then "-"%char else "+"%char) ((if (Z.abs X <? 10)%Z then "0" else "") ++ get_str 10 (Z.abs X))%string.
(** %g for [n / d > 0] *)
Definition g_positive (n d : Z) : string :=
  let '(D, X) := six_digits n d in
  if (-4 <=? X) && (X <? 6) then fixed D (Z.to_nat (5 - X))
  else (fixed D 5 ++ String "e" (exponent_str X))%string.
(** A float as a fraction *)
Definition arf_num (a : arf) : Z := Z.abs (am a) * (if 0 <=? ae a then 2 ^ ae a else 1).
Definition arf_den (a : arf) : Z := if 0 <=? ae a then 1 else 2 ^ (- ae a).
Definition show_double (d : double) : string :=
  match d with
  | DFin a => if am a =? 0 then "0"%string
              else ((if (am a <? 0)%Z then "-" else "") ++ g_positive (arf_num a) (arf_den a))%string
  | DInf negative => if negative then "-inf"%string else "inf"%string
  end.

(** * Floats, src/arf.cc:201-217 *)
Definition show_arf (x : xarf) : string :=
  match x with
  | Finite a =>
      if am a =? 0 then "0"%string
      else if 0 <=? arf_exponent a then show_double (arf_get_d a)
      else (show_double (arf_get_d a) ++ "=" ++ get_str 10 (arf_mantissa a) ++ "p" ++ get_str 10 (arf_exponent a))%string
  | PosInf => "+∞"%string
  | NegInf => "-∞"%string
  | NaN => "NaN"%string
  end.

(** * Real numbers, src/real_number.cc:221-224 *)
Section Numbers.
  Variable rng : Z -> nat -> bool.
  (** src/random_real_number.cc:98-101.  [None]: no digits in the given number of steps. *)
  Definition show_random (fuel : nat) (seed : Z) : option string :=
    option_map (fun d => "ℝ(" ++ show_double d ++ "…)")%string (num_get_d rng fuel (RAtom (ARandom seed))).
  (** src/constrained_random_real_number.cc:105-111.  boost::lexical_cast writes doubles with 17 digits,
      which are different for different doubles. *)
  Definition show_constrained (fuel : nat) (i : arf) (e seed : Z) : option string :=
    match show_random fuel seed, num_get_d rng fuel (RAtom (AConstr i e seed)) with
    | Some inner, Some d =>
        Some ("ℝ(" ++ show_arf (Finite i) ++ " + " ++ inner ++ "p" ++ get_str 10 e ++ ")" ++
              (if double_eqb (arf_get_d i) d then "" else "[∼" ++ show_double d ++ "]"))%string
    | _, _ => None
    end.
  Definition show_atom (fuel : nat) (a : atom) : option string :=
    match a with
    | ARandom s => show_random fuel s
    | AConstr i e s => show_constrained fuel i e s
    end.
  (** src/real_number_product.cc:423-435 *)
  Definition show_factor (t : string) (k : nat) : string :=
    (t ++ (if (k =? 1)%nat then "" else "^" ++ get_str 10 (Z.of_nat k)))%string.
  Fixpoint show_product (fuel : nat) (ms : list (atom * nat)) : option string :=
    match ms with
    | [] => Some ""%string
    | (a, k) :: ms' =>
        match show_atom fuel a, show_product fuel ms' with
        | Some t, Some s => Some (show_factor t k ++ match ms' with [] => "" | _ => "*" ++ s end)%string
        | _, _ => None
        end
    end.
  (** src/rational_real_number.cc:52-55 *)
  Definition show_num (fuel : nat) (x : rnum) : option string :=
    match x with
    | RRat q => Some (save_mpq (Qnum q) (Qden q))
    | RAtom a => show_atom fuel a
    | RProd ms => show_product fuel ms
    end.
  (** * Modules, src/module.cc:216-229; [prefix] is ℤ, ℚ or K. *)
  Fixpoint join (sep : string) (ts : list string) : string :=
    match ts with
    | [] => EmptyString
    | [t] => t
    | t :: ts' => (t ++ sep ++ join sep ts')%string
    end.
  Definition show_module (fuel : nat) (prefix : string) (basis : list rnum) : option string :=
    option_map (fun ts => (prefix ++ "-Module(" ++ join ", " ts ++ ")")%string)
      (fold_right (fun x acc => match show_num fuel x, acc with Some t, Some ts => Some (t :: ts) | _, _ => None end) (Some []) basis).
End Numbers.
