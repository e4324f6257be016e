(** Real numbers used by several threads: the const operations of RealNumber as programs that call arf, in threads that share all caches
    (Threads.v).  The remaining operations of elements, too. *)
From Coq Require Import ZArith QArith Qcanon Bool List.
From Verif Require Import Arf Arb Real Gen Ring Module Element Loops Threads.
Import ListNotations.
Open Scope Z_scope.

(** src/real_number.cc:40-42 operator double *)
Definition num_double_client (x : rnum) : client arf := Want x ARF_DOUBLE_PRECISION (fun a => Done (arf_to_double a)).
(** src/real_number.cc:63-77 refine, with asserts disabled (see Real.v) *)
Definition refine_client (x : rnum) (b : arb) (prec : Z) : client arb :=
  if prec <=? rel_accuracy_bits b then Done b else Want x prec (fun m => Done (refine_ball m prec)).
(** src/real_number.cc:79-83 arb *)
Definition num_arb_client (x : rnum) (prec : Z) : client arb := refine_client x arb_zero_pm_inf prec.
(** src/real_number.cc:49-61 cmp *)
Definition cmp_client (x : rnum) (b : arb) : client (option Z) :=
  match arb_interval b with
  | None => Done None
  | Some (lo, hi) => Want x (Z.max (arf_bits lo) (arf_bits hi) + 1) (fun approx => Done (Some (if arf_ltb approx lo then -1 else if arf_ltb hi approx then 1 else 0)))
  end.
(** src/real_number.cc:99-113 operator<(RealNumber) *)
Fixpoint less_loop_client (rounds : nat) (x y : rnum) (self other : arb) (prec : Z) : client (option bool) :=
  match rounds with
  | O => Done None
  | S rounds' =>
      andthen (refine_client x self prec) (fun self' =>
      andthen (refine_client y other prec) (fun other' =>
      match op_lt self' other' with Some b => Done (Some b) | None => less_loop_client rounds' x y self' other' (prec * 2) end))
  end.
Definition less_client (rounds : nat) (x y : rnum) : client (option bool) :=
  if rnum_eqb x y then Done (Some false) else less_loop_client rounds x y arb_zero_pm_inf arb_zero_pm_inf 2.
(** src/real_number.cc:132-145 operator<(Arf) *)
Fixpoint less_arf_loop_client (rounds : nat) (x : rnum) (a : arf) (self : arb) (prec : Z) : client (option bool) :=
  match rounds with
  | O => Done None
  | S rounds' =>
      andthen (refine_client x self prec) (fun self' =>
      match op_lt self' (arb_of_arf a) with Some b => Done (Some b) | None => less_arf_loop_client rounds' x a self' (prec * 2) end)
  end.
Definition less_arf_client (rounds : nat) (x : rnum) (a : arf) : client (option bool) :=
  if num_eq_arf x a then Done (Some false) else less_arf_loop_client rounds x a arb_zero_pm_inf 2.
(** src/real_number.cc:147-152 operator>(Arf) *)
Definition greater_arf_client (rounds : nat) (x : rnum) (a : arf) : client (option bool) :=
  if num_eq_arf x a then Done (Some false) else andthen (less_arf_client rounds x a) (fun r => Done (option_map negb r)).
(** src/real_number.cc:163-189 comparison with rationals *)
Fixpoint rational_loop_client (op : arb -> Z -> Z -> option bool) (rounds : nat) (x : rnum) (q : Q) (prec : Z) : client (option bool) :=
  match rounds with
  | O => Done None
  | S rounds' =>
      andthen (num_arb_client x prec) (fun b =>
      match op b (Qnum q) (Zpos (Qden q)) with Some r => Done (Some r) | None => rational_loop_client op rounds' x q (prec * 2) end)
  end.
Definition less_rational_client (mag_up : arf -> arf) (rounds : nat) (x : rnum) (q : Q) : client (option bool) :=
  match x with RRat p => Done (Some (negb (Qle_bool q p))) | _ => rational_loop_client (opq_lt mag_up) rounds x q ARB_PRECISION_FAST end.
Definition greater_rational_client (mag_up : arf -> arf) (rounds : nat) (x : rnum) (q : Q) : client (option bool) :=
  match x with RRat p => Done (Some (negb (Qle_bool p q))) | _ => rational_loop_client (opq_gt mag_up) rounds x q ARB_PRECISION_FAST end.

(** What a thread can do with real numbers *)
Inductive operation :=
| ToDouble (x : rnum) | ToBall (x : rnum) (prec : Z) | Refine (x : rnum) (b : arb) (prec : Z) | Compare (x : rnum) (b : arb)
| Less (x y : rnum)
| LessArf (x : rnum) (a : arf) | GreaterArf (x : rnum) (a : arf)
| LessInteger (x : rnum) (n : Z) | GreaterInteger (x : rnum) (n : Z)
| LessRational (x : rnum) (q : Q) | GreaterRational (x : rnum) (q : Q).
(** and what it gets.  [Nothing]: more rounds than we allow, or an interval that is not specified *)
Inductive answer := Truth (b : bool) | Sign (z : Z) | Float (a : arf) | Ball (b : arb) | Nothing.
Definition truth (b : option bool) : answer := match b with Some b => Truth b | None => Nothing end.
Definition sign (z : option Z) : answer := match z with Some z => Sign z | None => Nothing end.
Definition operation_client (mag_up : arf -> arf) (rounds : nat) (o : operation) : client answer :=
  match o with
  | ToDouble x => andthen (num_double_client x) (fun a => Done (Float a))
  | ToBall x prec => andthen (num_arb_client x prec) (fun b => Done (Ball b))
  | Refine x b prec => andthen (refine_client x b prec) (fun b => Done (Ball b))
  | Compare x b => andthen (cmp_client x b) (fun r => Done (sign r))
  | Less x y => andthen (less_client rounds x y) (fun r => Done (truth r))
  | LessArf x a => andthen (less_arf_client rounds x a) (fun r => Done (truth r))
  | GreaterArf x a => andthen (greater_arf_client rounds x a) (fun r => Done (truth r))
  | LessInteger x n => andthen (less_arf_client rounds x (arf_of_Z n)) (fun r => Done (truth r))
  | GreaterInteger x n => andthen (greater_arf_client rounds x (arf_of_Z n)) (fun r => Done (truth r))
  | LessRational x q => andthen (less_rational_client mag_up rounds x q) (fun r => Done (truth r))
  | GreaterRational x q => andthen (greater_rational_client mag_up rounds x q) (fun r => Done (truth r))
  end.
(** One after the other *)
Fixpoint session (mag_up : arf -> arf) (rounds : nat) (os : list operation) : client (list answer) :=
  match os with
  | [] => Done []
  | o :: os' => andthen (operation_client mag_up rounds o) (fun a => andthen (session mag_up rounds os') (fun l => Done (a :: l)))
  end.

(** * The remaining comparisons of elements, and the hash *)
Section Clients.
  Context {A : ring}.
  Local Notation elem := (elem A).
  Variable mag_up : arf -> arf.
  Variable number_of : gen -> rnum.
  Variable carb : car A -> Z -> arb.
  (** src/element.cc:106-111 gt *)
  Definition gt_client (eq : result bool) (less : client (option (result bool))) : client (option (result bool)) :=
    match eq with
    | Err e => Done (Some (Err e))
    | Ok true => Done (Some (Ok false))
    | Ok false => andthen less (fun r => Done (option_map (fun r => match r with Ok b => Ok (negb b) | Err e => Err e end) r))
    end.
  (** src/element.cc:575-680 *)
  Definition gt_real_client (rounds : nat) (x : elem) (g : gen) := gt_client (eq_real x g) (lt_real_client mag_up number_of carb rounds x g).
  Definition gt_int_client (rounds : nat) (x : elem) (n : Z) := gt_client (Ok (eq_integer x n)) (lt_int_client mag_up number_of carb rounds x n).
  Definition gt_rat_client (rounds : nat) (x : elem) (q : Qc) := gt_client (Ok (eq_rational x q)) (lt_rat_client mag_up number_of carb rounds x q).
  (** boost::totally_ordered, exact-real/element.hpp *)
  Definition gt_elem_client (rounds : nat) (x y : elem) := lt_elem_client mag_up number_of carb rounds y x.
  (** src/element.cc:972-975 *)
  Definition hash_client (hash_double : arf -> Z) (rounds : nat) (x : elem) : client (option Z) :=
    andthen (double_client mag_up number_of carb rounds x) (fun a => Done (option_map hash_double a)).
End Clients.
