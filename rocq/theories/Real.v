(** Model of the digits of real numbers: [src/real_number.cc],
    [src/rational_real_number.cc], [src/random_real_number.cc],
    [src/constrained_random_real_number.cc], [src/real_number_product.cc]
    (approximation part).

    The pseudo random bits are an oracle [rng : seed -> index -> bit]; the
    concrete generator [rand48] used by the code is given at the end. *)
From Coq Require Import ZArith QArith Bool List.
From Verif Require Import Arf Arb.
Import ListNotations.
Open Scope Z_scope.

(** A real number that is not rational and not a product:
    src/random_real_number.cc:60-122 (seed) and
    src/constrained_random_real_number.cc:71-134 (initial, e, inner), where inner
    is always a RandomRealNumber (line 193). *)
Inductive atom :=
| ARandom (seed : Z)
| AConstr (initial : arf) (e : Z) (seed : Z).

(** A RealNumber: src/rational_real_number.cc:37, the atoms above, and
    src/real_number_product.cc (monomials with exponents, in the stored order). *)
Inductive rnum :=
| RRat (q : Q)
| RAtom (a : atom)
| RProd (ms : list (atom * nat)).

Definition atom_eqb (a b : atom) : bool :=
  match a, b with
  | ARandom s, ARandom t => s =? t
  | AConstr i e s, AConstr j f t => arf_eqb i j && (e =? f) && (s =? t)
  | _, _ => false
  end.

(** src/real_number.cc:115-118: numbers are interned, == is pointer equality,
    i.e. equality of the factories' keys. *)
Fixpoint prod_eqb (l m : list (atom * nat)) : bool :=
  match l, m with
  | [], [] => true
  | (a, i) :: l', (b, j) :: m' => atom_eqb a b && Nat.eqb i j && prod_eqb l' m'
  | _, _ => false
  end.
Definition rnum_eqb (x y : rnum) : bool :=
  match x, y with
  | RRat p, RRat q => Qeq_bool p q
  | RAtom a, RAtom b => atom_eqb a b
  | RProd l, RProd m => prod_eqb l m
  | _, _ => false
  end.

Definition b2z (b : bool) : Z := if b then 1 else 0.

(** Constants: src/real_number.cc:36, exact-real/arb.hpp ARB_PRECISION_FAST. *)
Definition ARF_DOUBLE_PRECISION : Z := 54.
Definition ARB_PRECISION_FAST : Z := 64.

Section Digits.
  Variable rng : Z -> nat -> bool.

  (** src/random_real_number.cc:78-89: the loop collecting digits.  [i] counts the
      bits drawn, [digits] and [expo] are the loop variables, [mant] is the value
      of the collected digit string. *)
  Fixpoint random_loop (fuel : nat) (s : nat -> bool) (i : nat) (digits mant expo necessary : Z) : option arf :=
    if necessary <=? digits then Some (mkArf mant expo)
    else match fuel with
         | O => None
         | S fuel' =>
             let c := s i in
             if (digits =? 0) && negb c
             then random_loop fuel' s (S i) digits mant (expo - 1) necessary
             else random_loop fuel' s (S i) (digits + 1) (2 * mant + b2z c) (expo - 1) necessary
         end.

  (** src/random_real_number.cc:66-92 RandomRealNumber::arf_ *)
  Definition arf_random (fuel : nat) (seed prec : Z) : option arf :=
    let prec := if prec <? 1 then 0 else prec in
    random_loop fuel (rng seed) 0 0 0 0 (prec + 1).

  (** src/constrained_random_real_number.cc:75-99 ConstrainedRandomRealNumber::arf_.
      mpz_sizeinbase(mantissa, 2) is the number of bits of the odd mantissa. *)
  Definition arf_constr (fuel : nat) (initial : arf) (e seed prec : Z) : option arf :=
    let prec := if prec <? 1 then 0 else prec in
    let necessary := prec + 1 in
    let missing := necessary - arf_bits initial in
    let ret :=
      if 0 <? missing
      then option_map (fun additional => arf_add (prec + 1) NEAR initial (arf_shl additional (e - 1)))
                      (arf_random fuel seed (missing - 1))
      else Some initial in
    option_map (arf_round NEAR (prec + 1)) ret.

  Definition arf_atom (fuel : nat) (a : atom) (prec : Z) : option arf :=
    match a with
    | ARandom s => arf_random fuel s prec
    | AConstr i e s => arf_constr fuel i e s prec
    end.

  (** src/rational_real_number.cc:42-46 RationalRealNumber::arf_ *)
  Definition arf_rational (q : Q) (prec : Z) : arf :=
    let prec := if prec <? 1 then 1 else prec in
    round_q NEAR prec (Qnum q) (Zpos (Qden q)) 0.

  (** All factors of a product with repetition (src/real_number_product.cc:535-537). *)
  Definition factors (ms : list (atom * nat)) : list atom :=
    flat_map (fun '(a, k) => repeat a k) ms.

  (** src/real_number_product.cc:530-532; [ceil(log2(3n))] is computed exactly
      here (see FloatLog.v for the floating point logarithm of the code). *)
  Definition working_prec (n prec : Z) : Z := prec + Z.log2_up (n * 2 + (n - 1) + 1).

  Fixpoint mul_factors (fuel : nat) (wp : Z) (fs : list atom) (ret : arf) : option arf :=
    match fs with
    | [] => Some ret
    | a :: fs' =>
        match arf_atom fuel a wp with
        | None => None
        | Some f => mul_factors fuel wp fs' (arf_mul wp NEAR ret f)
        end
    end.

  (** src/real_number_product.cc:519-553 RealNumberProduct::arf_ *)
  Definition arf_prod (fuel : nat) (ms : list (atom * nat)) (prec : Z) : option arf :=
    let fs := factors ms in
    let wp := working_prec (Z.of_nat (length fs)) prec in
    option_map (arf_round NEAR (prec + 1)) (mul_factors fuel wp fs (arf_of_Z 1)).

  (** src/real_number.cc:195-219 RealNumberBase::arf, without the cache (see Cache.v). *)
  Definition num_arf (fuel : nat) (x : rnum) (prec : Z) : option arf :=
    let prec := if prec <? 1 then 0 else prec in
    match x with
    | RRat q => Some (arf_rational q prec)
    | RAtom a => arf_atom fuel a prec
    | RProd ms => arf_prod fuel ms prec
    end.

  (** src/real_number.cc:40-42 operator double *)
  Definition num_double (fuel : nat) (x : rnum) : option arf :=
    option_map arf_to_double (num_arf fuel x ARF_DOUBLE_PRECISION).

  (** src/real_number.cc:63-77 refine, with asserts disabled.  [arf_expo] is the exponent field of arf_t. *)
  Definition refine_ball (m : arf) (prec : Z) : arb :=
    mkArb m (Some (mkArf 1 ((arf_expo m - 1) - (prec + 1)))).
  Definition num_refine (fuel : nat) (x : rnum) (b : arb) (prec : Z) : option arb :=
    if prec <=? rel_accuracy_bits b then Some b
    else option_map (fun m => refine_ball m prec) (num_arf fuel x prec).

  (** src/real_number.cc:79-83 arb *)
  Definition num_arb (fuel : nat) (x : rnum) (prec : Z) : option arb :=
    num_refine fuel x arb_zero_pm_inf prec.

  (** src/real_number.cc:49-61 cmp. [None]: the conversion to an interval or the digits are
      unspecified / out of fuel. *)
  Definition num_cmp (fuel : nat) (x : rnum) (b : arb) : option Z :=
    match arb_interval b with
    | None => None
    | Some (lo, hi) =>
        match num_arf fuel x (Z.max (arf_bits lo) (arf_bits hi) + 1) with
        | None => None
        | Some approx =>
            Some (if arf_ltb approx lo then -1 else if arf_ltb hi approx then 1 else 0)
        end
    end.

  (** src/real_number.cc:99-113 operator<(RealNumber): the loop.  [iters] bounds the
      number of rounds. *)
  Fixpoint num_lt_loop (iters fuel : nat) (x y : rnum) (self other : arb) (prec : Z) : option bool :=
    match iters with
    | O => None
    | S iters' =>
        match num_refine fuel x self prec, num_refine fuel y other prec with
        | Some self', Some other' =>
            match op_lt self' other' with
            | Some b => Some b
            | None => num_lt_loop iters' fuel x y self' other' (prec * 2)
            end
        | _, _ => None
        end
    end.
  Definition num_lt (iters fuel : nat) (x y : rnum) : option bool :=
    if rnum_eqb x y then Some false
    else num_lt_loop iters fuel x y arb_zero_pm_inf arb_zero_pm_inf 2.

  (** src/real_number.cc:154-161 operator==(Arf): arf * den == num, exactly. *)
  Definition num_eq_arf (x : rnum) (a : arf) : bool :=
    match x with
    | RRat q => arf_eqb (arf_mul_exact a (arf_of_Z (Zpos (Qden q)))) (arf_of_Z (Qnum q))
    | _ => false
    end.

  (** src/real_number.cc:132-145 operator<(Arf) *)
  Fixpoint num_lt_arf_loop (iters fuel : nat) (x : rnum) (a : arf) (self : arb) (prec : Z) : option bool :=
    match iters with
    | O => None
    | S iters' =>
        match num_refine fuel x self prec with
        | Some self' =>
            match op_lt self' (arb_of_arf a) with
            | Some b => Some b
            | None => num_lt_arf_loop iters' fuel x a self' (prec * 2)
            end
        | None => None
        end
    end.
  Definition num_lt_arf (iters fuel : nat) (x : rnum) (a : arf) : option bool :=
    if num_eq_arf x a then Some false
    else num_lt_arf_loop iters fuel x a arb_zero_pm_inf 2.
  (** src/real_number.cc:147-152 operator>(Arf) *)
  Definition num_gt_arf (iters fuel : nat) (x : rnum) (a : arf) : option bool :=
    if num_eq_arf x a then Some false
    else option_map negb (num_lt_arf iters fuel x a).
  (** src/real_number.cc:120-130 comparison with integers *)
  Definition num_lt_Z (iters fuel : nat) (x : rnum) (n : Z) := num_lt_arf iters fuel x (arf_of_Z n).
  Definition num_gt_Z (iters fuel : nat) (x : rnum) (n : Z) := num_gt_arf iters fuel x (arf_of_Z n).
  Definition num_eq_Z (x : rnum) (n : Z) := num_eq_arf x (arf_of_Z n).

  Section WithMag.
    Variable mag_up : arf -> arf.
    (** src/real_number.cc:163-189 comparison with rationals *)
    Fixpoint num_cmpq_loop (op : arb -> Z -> Z -> option bool) (iters fuel : nat) (x : rnum) (q : Q) (prec : Z) : option bool :=
      match iters with
      | O => None
      | S iters' =>
          match num_arb fuel x prec with
          | Some b =>
              match op b (Qnum q) (Zpos (Qden q)) with
              | Some r => Some r
              | None => num_cmpq_loop op iters' fuel x q (prec * 2)
              end
          | None => None
          end
      end.
    Definition num_lt_q (iters fuel : nat) (x : rnum) (q : Q) : option bool :=
      match x with
      | RRat p => Some (negb (Qle_bool q p))
      | _ => num_cmpq_loop (opq_lt mag_up) iters fuel x q ARB_PRECISION_FAST
      end.
    Definition num_gt_q (iters fuel : nat) (x : rnum) (q : Q) : option bool :=
      match x with
      | RRat p => Some (negb (Qle_bool p q))
      | _ => num_cmpq_loop (opq_gt mag_up) iters fuel x q ARB_PRECISION_FAST
      end.
  End WithMag.
  (** src/real_number.cc:191-193 *)
  Definition num_eq_q (x : rnum) (q : Q) : bool :=
    match x with RRat p => Qeq_bool p q | _ => false end.

  (** src/real_number.cc:44-47 operator bool *)
  Definition num_bool (x : rnum) : bool :=
    match x with RRat p => negb (Qnum p =? 0) | _ => true end.
End Digits.

(** boost::random::rand48 with uniform_int_distribution<size_t>(0, 1)
    (src/random_real_number.cc:75-83, 121): the linear congruential generator
    [x := 0x5DEECE66D x + 0xB mod 2^48] seeded with [seed * 2^16 + 0x330e]; the
    distribution takes the top bit of each output. *)
Definition rand48_step (x : Z) : Z := (x * 25214903917 + 11) mod 2 ^ 48.
Fixpoint rand48_state (x : Z) (n : nat) : Z :=
  match n with O => x | S k => rand48_state (rand48_step x) k end.
Definition rand48 (seed : Z) (n : nat) : bool :=
  Z.testbit (rand48_state (rand48_step (seed * 2 ^ 16 + 13070)) n) 47.
