(** Specification for ThreadsNumbers.v *)
From Coq Require Import ZArith QArith List.
From Verif Require Import Arf Arb Real ThreadsNumbers.
Import ListNotations.

(** What an operation gives when nothing else goes on (Real.v) *)
Definition sequential (rng : Z -> nat -> bool) (mag_up : arf -> arf) (rounds fuel : nat) (o : operation) (a : answer) : Prop :=
  match o with
  | ToDouble x => exists d, num_double rng fuel x = Some d /\ a = Float d
  | ToBall x prec => exists b, num_arb rng fuel x prec = Some b /\ a = Ball b
  | Refine x b prec => exists b', num_refine rng fuel x b prec = Some b' /\ a = Ball b'
  | Compare x b => a = sign (num_cmp rng fuel x b)
  | Less x y => a = truth (num_lt rng rounds fuel x y)
  | LessArf x y => a = truth (num_lt_arf rng rounds fuel x y)
  | GreaterArf x y => a = truth (num_gt_arf rng rounds fuel x y)
  | LessInteger x n => a = truth (num_lt_Z rng rounds fuel x n)
  | GreaterInteger x n => a = truth (num_gt_Z rng rounds fuel x n)
  | LessRational x q => a = truth (num_lt_q rng mag_up rounds fuel x q)
  | GreaterRational x q => a = truth (num_gt_q rng mag_up rounds fuel x q)
  end.
(** With enough digits of the random numbers *)
Definition answers (rng : Z -> nat -> bool) (mag_up : arf -> arf) (rounds : nat) (os : list operation) (l : list answer) : Prop :=
  exists n, forall fuel, (n <= fuel)%nat -> Forall2 (sequential rng mag_up rounds fuel) os l.
(** Random numbers and rational numbers *)
Definition simple (x : rnum) : Prop := match x with RRat _ | RAtom (ARandom _) => True | _ => False end.
(** Comparisons of simple numbers and conversions of them to double *)
Definition comparison (o : operation) : Prop :=
  match o with
  | ToDouble x | LessArf x _ | GreaterArf x _ | LessInteger x _ | GreaterInteger x _ | LessRational x _ | GreaterRational x _ => simple x
  | Less x y => simple x /\ simple y
  | ToBall _ _ | Refine _ _ _ | Compare _ _ => False
  end.
