(** Model of the use of native integers: conversions of short, ..., unsigned long long. *)
From Coq Require Import ZArith QArith Qcanon Bool List.
From Verif Require Import Arf Arb Real Gen Ring Module Element Loops.
Import ListNotations.
Open Scope Z_scope.

(** The types for which operators are declared, src/element.cc:285-370, 593-671, 684-726, src/arb.cc:234-252. *)
Inductive native := Short | UShort | Int | UInt | Long | ULong | LongLong | ULongLong.
(** How many bits the types have is up to the platform. *)
Record platform := mkPlatform { short_bits : Z; int_bits : Z; long_bits : Z; llong_bits : Z; slong_bits : Z }.

Section Native.
  Variable pl : platform.
  Definition is_signed (t : native) : bool := match t with Short | Int | Long | LongLong => true | _ => false end.
  Definition bits (t : native) : Z :=
    match t with
    | Short | UShort => short_bits pl | Int | UInt => int_bits pl
    | Long | ULong => long_bits pl | LongLong | ULongLong => llong_bits pl
    end.
  (** std::numeric_limits *)
  Definition min_of (signed : bool) (n : Z) : Z := if signed then - 2 ^ (n - 1) else 0.
  Definition max_of (signed : bool) (n : Z) : Z := if signed then 2 ^ (n - 1) - 1 else 2 ^ n - 1.
  (** static_cast to an integer type with n bits: reduction modulo 2^n. *)
  Definition cast (signed : bool) (n : Z) (v : Z) : Z :=
    let w := v mod 2 ^ n in if signed && (2 ^ (n - 1) <=? w) then w - 2 ^ n else w.

  (** src/arb.cc:46-58 to_supported_integer: cast to FLINT's slong, ulong if they cover
      the type, otherwise gmpxxll::mpz_class (external; its contract: exact). *)
  Definition to_supported_integer (t : native) (v : Z) : Z :=
    let s := is_signed t in
    if (min_of s (slong_bits pl) <=? min_of s (bits t)) && (max_of s (bits t) <=? max_of s (slong_bits pl))
    then cast s (slong_bits pl) v else v.
  (** src/arb.cc:63-66, 294-305 *)
  Definition arb_of_native (t : native) (v : Z) : arb := arb_of_Z (to_supported_integer t v).
  (** src/arb.cc:237-252 *)
  Definition arb_native_lt (x : arb) (t : native) (v : Z) := op_lt x (arb_of_native t v).
  Definition arb_native_gt (x : arb) (t : native) (v : Z) := op_gt x (arb_of_native t v).
  Definition arb_native_le (x : arb) (t : native) (v : Z) := op_le x (arb_of_native t v).
  Definition arb_native_ge (x : arb) (t : native) (v : Z) := op_ge x (arb_of_native t v).
  Definition arb_native_eq (x : arb) (t : native) (v : Z) := op_eq x (arb_of_native t v).
  Definition arb_native_ne (x : arb) (t : native) (v : Z) := op_ne x (arb_of_native t v).

  (** src/arf.cc:85-87, 113-121: Arf(long), Arf(int); arf_set_si takes a slong. *)
  Definition arf_of_long (v : Z) : arf := arf_of_Z (cast true (slong_bits pl) v).
  Definition arf_of_int (v : Z) : arf := arf_of_long (cast true (long_bits pl) v).
  (** src/arf.cc:139-143 *)
  Definition arf_lt_long (x : arf) (v : Z) : bool := arf_ltb x (arf_of_long v).
  Definition arf_gt_long (x : arf) (v : Z) : bool := arf_ltb (arf_of_long v) x.
  Definition arf_eq_long (x : arf) (v : Z) : bool := arf_eqb x (arf_of_long v).

  (** mpz_class, mpq_class of a type up to [long] go through long, unsigned long (GMP);
      src/integer_ring.cc:64, 78, src/rational_field.cc:64, 76: gmpxxll::mpz_class for the
      others (external; its contract: exact). *)
  Definition to_gmp (t : native) (v : Z) : Z :=
    match t with
    | LongLong | ULongLong => v
    | _ => cast (is_signed t) (long_bits pl) v
    end.

  (** ** Decimal strings *)
  (** boost::lexical_cast<std::string>: digits in groups of three with separator [sep] if
      the global C++ locale has one.  Characters are their ASCII codes. *)
  Fixpoint print_digits (fuel : nat) (sep : option Z) (count : Z) (n : Z) (acc : list Z) : list Z :=
    match fuel with
    | O => acc
    | S fuel' =>
        let acc' := match sep with
                    | Some c => if (0 <? count) && (count mod 3 =? 0) then c :: acc else acc
                    | None => acc
                    end in
        let acc'' := (48 + n mod 10) :: acc' in
        if n / 10 =? 0 then acc'' else print_digits fuel' sep (count + 1) (n / 10) acc''
    end.
  Definition lexical_cast (sep : option Z) (v : Z) : list Z :=
    let s := print_digits (Z.to_nat (Z.log2 (Z.abs v) + 1)) sep 0 (Z.abs v) [] in
    if v <? 0 then 45 :: s else s.
  (** mpz_set_str: digits in a base *)
  Definition digit (c : Z) : option Z :=
    if (48 <=? c) && (c <=? 57) then Some (c - 48)
    else if (97 <=? c) && (c <=? 122) then Some (c - 87)
    else if (65 <=? c) && (c <=? 90) then Some (c - 55)
    else None.
  Fixpoint parse_digits (base : Z) (s : list Z) (acc : Z) : option Z :=
    match s with
    | [] => Some acc
    | c :: s' =>
        match digit c with
        | Some d => if d <? base then parse_digits base s' (acc * base + d) else None
        | None => None
        end
    end.
  (** mpz_set_str with base 0: the prefixes 0x, 0b, 0 determine the base.
      Simplification: white space is not accepted. *)
  Definition parse_unsigned (s : list Z) : option Z :=
    match s with
    | [] => None
    | 48 :: 120 :: s' | 48 :: 88 :: s' => parse_digits 16 s' 0
    | 48 :: 98 :: s' | 48 :: 66 :: s' => parse_digits 2 s' 0
    | 48 :: s' => parse_digits 8 s' 0
    | _ => parse_digits 10 s 0
    end.
  (** mpq_class(std::string): throws std::invalid_argument if the string is not a number.
      Simplification: no denominator. *)
  Definition parse (s : list Z) : result Z :=
    match match s with c :: s' => if c =? 45 then option_map Z.opp (parse_unsigned s') else parse_unsigned s | [] => None end with
    | Some v => Ok v
    | None => Err InvalidArgument
    end.

  (** ** Elements *)
  Context {A : ring}.
  (** src/element.cc:684-726; [sep] is the locale's separator of thousands. *)
  Definition eq_native (sep : option Z) (x : elem A) (t : native) (v : Z) : result bool :=
    match t with
    | LongLong | ULongLong => bind (parse (lexical_cast sep v)) (fun n => Ok (eq_rational x (Qc_of_Z n)))
    | _ => Ok (eq_rational x (Qc_of_Z (to_gmp t v)))
    end.
  (** src/element.cc:87-111, 593-671: lt, gt with a native integer. *)
  Definition test_native (t : native) (v : Z) (_ : Z) (self : arb) : option (option bool) := Some (arb_native_lt self t v).
  Definition lt_native mag_up garb carb (sep : option Z) (rounds : nat) (x : elem A) (t : native) (v : Z) :=
    lt mag_up garb carb rounds x (eq_native sep x t v) (test_native t v).
  Definition gt_native mag_up garb carb (sep : option Z) (rounds : nat) (x : elem A) (t : native) (v : Z) :=
    gt mag_up garb carb rounds x (eq_native sep x t v) (test_native t v).
  (** src/element.cc:285-335, 352-402 *)
  Definition imul_native (x : elem A) (t : native) (v : Z) : elem A * option exn := imul_elem x (SZ (to_gmp t v)).
  Definition idiv_native (x : elem A) (t : native) (v : Z) : elem A * option exn := idiv_elem x (SZ (to_gmp t v)).
End Native.
