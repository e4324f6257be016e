(** The comparisons that boost::totally_ordered derives from <, > and ==
    (exact-real/element.hpp:62-84, exact-real/real_number.hpp:53-67).

    For one type:  x > y is y < x,  x <= y is !(y < x),  x >= y is !(x < y),  x != y is !(x == y).
    For two types, T on the left being the class that has <, > and == with U:
      x <= u is !(x > u),  x >= u is !(x < u),  u < x is x > u,  u > x is x < u,
      u <= x is !(x < u),  u >= x is !(x > u),  u == x is x == u,  x != u and u != x are !(x == u). *)
From Coq Require Import ZArith QArith Qcanon Bool List.
From Verif Require Import Arf Arb Real Gen Ring Module Element Loops.
Import ListNotations.

(** Negation of an outcome: exceptions and running forever stay. *)
Definition not_result (r : result bool) : result bool := match r with Ok b => Ok (negb b) | Err e => Err e end.
Definition not_outcome (o : option (result bool)) : option (result bool) := option_map not_result o.

Section Elements.
  Context {A : ring}.
  Variable mag_up : arf -> arf.
  Variable garb : gen -> Z -> arb.
  Variable carb : car A -> Z -> arb.
  Local Notation elem := (elem A).
  (** Two elements *)
  Definition ne_elem (x y : elem) : result bool := not_result (equal x y).
  Definition le_elem (rounds : nat) (x y : elem) := not_outcome (lt_elem mag_up garb carb rounds y x).
  Definition ge_elem (rounds : nat) (x y : elem) := not_outcome (lt_elem mag_up garb carb rounds x y).

  (** Integers (mpz_class and the native types, which are converted) *)
  Definition le_int (rounds : nat) (x : elem) (n : Z) := not_outcome (gt_int mag_up garb carb rounds x n).
  Definition ge_int (rounds : nat) (x : elem) (n : Z) := not_outcome (lt_int mag_up garb carb rounds x n).
  Definition ne_int (x : elem) (n : Z) : bool := negb (eq_integer x n).
  Definition int_lt (rounds : nat) (n : Z) (x : elem) := gt_int mag_up garb carb rounds x n.
  Definition int_gt (rounds : nat) (n : Z) (x : elem) := lt_int mag_up garb carb rounds x n.
  Definition int_le (rounds : nat) (n : Z) (x : elem) := not_outcome (lt_int mag_up garb carb rounds x n).
  Definition int_ge (rounds : nat) (n : Z) (x : elem) := not_outcome (gt_int mag_up garb carb rounds x n).

  (** Rationals *)
  Definition le_rat (rounds : nat) (x : elem) (q : Qc) := not_outcome (gt_rat mag_up garb carb rounds x q).
  Definition ge_rat (rounds : nat) (x : elem) (q : Qc) := not_outcome (lt_rat mag_up garb carb rounds x q).
  Definition ne_rat (x : elem) (q : Qc) : bool := negb (eq_rational x q).
  Definition rat_lt (rounds : nat) (q : Qc) (x : elem) := gt_rat mag_up garb carb rounds x q.
  Definition rat_gt (rounds : nat) (q : Qc) (x : elem) := lt_rat mag_up garb carb rounds x q.
  Definition rat_le (rounds : nat) (q : Qc) (x : elem) := not_outcome (lt_rat mag_up garb carb rounds x q).
  Definition rat_ge (rounds : nat) (q : Qc) (x : elem) := not_outcome (gt_rat mag_up garb carb rounds x q).

  (** Real numbers *)
  Definition le_real (rounds : nat) (x : elem) (g : gen) := not_outcome (gt_real mag_up garb carb rounds x g).
  Definition ge_real (rounds : nat) (x : elem) (g : gen) := not_outcome (lt_real mag_up garb carb rounds x g).
  Definition ne_real (x : elem) (g : gen) : result bool := not_result (eq_real x g).
  Definition real_lt (rounds : nat) (g : gen) (x : elem) := gt_real mag_up garb carb rounds x g.
  Definition real_gt (rounds : nat) (g : gen) (x : elem) := lt_real mag_up garb carb rounds x g.
  Definition real_le (rounds : nat) (g : gen) (x : elem) := not_outcome (lt_real mag_up garb carb rounds x g).
  Definition real_ge (rounds : nat) (g : gen) (x : elem) := not_outcome (gt_real mag_up garb carb rounds x g).
End Elements.

(** Two real numbers *)
Section Numbers.
  Variable rng : Z -> nat -> bool.
  Definition num_gt (iters fuel : nat) (x y : rnum) := num_lt rng iters fuel y x.
  Definition num_le (iters fuel : nat) (x y : rnum) := option_map negb (num_lt rng iters fuel y x).
  Definition num_ge (iters fuel : nat) (x y : rnum) := option_map negb (num_lt rng iters fuel x y).
  Definition num_ne (x y : rnum) : bool := negb (rnum_eqb x y).

  (** A real number and a float.  Integers: src/real_number.cc:120-130 and the templates of
      exact-real/real_number.hpp:312-324 convert them to Arf first; Arf(int), Arf(long) and Arf(mpz_class, 0)
      are exact (src/arf.cc:72-87). *)
  Definition num_le_arf (iters fuel : nat) (x : rnum) (a : arf) := option_map negb (num_gt_arf rng iters fuel x a).
  Definition num_ge_arf (iters fuel : nat) (x : rnum) (a : arf) := option_map negb (num_lt_arf rng iters fuel x a).
  Definition num_ne_arf (x : rnum) (a : arf) : bool := negb (num_eq_arf x a).
  Definition arf_lt_num (iters fuel : nat) (a : arf) (x : rnum) := num_gt_arf rng iters fuel x a.
  Definition arf_gt_num (iters fuel : nat) (a : arf) (x : rnum) := num_lt_arf rng iters fuel x a.
  Definition arf_le_num (iters fuel : nat) (a : arf) (x : rnum) := option_map negb (num_lt_arf rng iters fuel x a).
  Definition arf_ge_num (iters fuel : nat) (a : arf) (x : rnum) := option_map negb (num_gt_arf rng iters fuel x a).

  (** A real number and a rational *)
  Variable mag_up : arf -> arf.
  Definition num_le_q (iters fuel : nat) (x : rnum) (q : Q) := option_map negb (num_gt_q rng mag_up iters fuel x q).
  Definition num_ge_q (iters fuel : nat) (x : rnum) (q : Q) := option_map negb (num_lt_q rng mag_up iters fuel x q).
  Definition num_ne_q (x : rnum) (q : Q) : bool := negb (num_eq_q x q).
  Definition q_lt_num (iters fuel : nat) (q : Q) (x : rnum) := num_gt_q rng mag_up iters fuel x q.
  Definition q_gt_num (iters fuel : nat) (q : Q) (x : rnum) := num_lt_q rng mag_up iters fuel x q.
  Definition q_le_num (iters fuel : nat) (q : Q) (x : rnum) := option_map negb (num_lt_q rng mag_up iters fuel x q).
  Definition q_ge_num (iters fuel : nat) (q : Q) (x : rnum) := option_map negb (num_gt_q rng mag_up iters fuel x q).
End Numbers.
