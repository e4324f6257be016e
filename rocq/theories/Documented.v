(** The examples in the documentation of the library, computed in the model.

    exact-real/element.hpp, arb.hpp, arf.hpp and module.hpp show what the library answers
    in small cases.  The same expressions are evaluated here with the functions of the model: evidence
    that the model does what the program does, not properties.  The random generators are [GAtom 1],
    [GAtom 2]; where approximations matter they are 1/4. *)
From Coq Require Import ZArith QArith Qcanon Bool List.
From Verif Require Import Arf Arb Real Gen Ring Module Element Division Loops LoopsCases Construct.
Import ListNotations.
Open Scope Z_scope.

Definition q (n : Z) : car rat_ring := Qc_of_Z n.
Definition one1 : gen := GRat 1.
Definition r1 : gen := GAtom 1.
Definition r2 : gen := GAtom 2.
(** Module<RationalField>::make({...}) *)
Definition qmod (b : list gen) : result (module rat_ring) := make (A := rat_ring) b tt.
(** Element<RationalField>(M, {...}) *)
Definition qel (b : list gen) (cs : list Z) : result (elem rat_ring) :=
  bind (qmod b) (fun M => make_elem (A := rat_ring) M (map q cs)).
Definition is (x : result (elem rat_ring)) (b : list gen) (cs : list Qc) : bool :=
  match x with Ok e => basis_eqb (basis (emodule e)) b && coeffs_eqb (A := rat_ring) (coeffs e) cs | Err _ => false end.
Definition bind2 {S T U} (x : result S) (y : result T) (f : S -> T -> result U) : result U := bind x (fun a => bind y (f a)).
Definition says {S} (x : result S) (f : S -> bool) : bool := match x with Ok a => f a | Err _ => false end.

(** element.hpp:53-59: x + one is r + 1 *)
Example doc_sum : is (bind (qmod [one1; r1]) (fun M => bind2 (module_gen M 1) (module_gen M 0) (add (A := rat_ring)))) [one1; r1] [q 1; q 1] = true.
Proof. reflexivity. Qed.
(** element.hpp:108-112, 123-128, 134-138 *)
Example doc_default : basis (emodule (default_elem rat_ring)) = [] /\ coeffs (default_elem rat_ring) = [].
Proof. split; reflexivity. Qed.
Example doc_coefficients : is (qel [one1; r1] [2; 3]) [one1; r1] [q 2; q 3] = true.
Proof. reflexivity. Qed.
Example doc_of_value : is (of_value (A := rat_ring) tt (q 3)) [one1] [q 3] = true.
Proof. reflexivity. Qed.
(** element.hpp:144-155, 160-171: change of the ring *)
Example doc_rings : says (bind (make (A := int_ring) [one1; r1] tt) (fun M => bind (make_elem (A := int_ring) M [2; 3]) (change_ring (B := rat_ring) int_to_rat)))
  (fun e => basis_eqb (basis (emodule e)) [one1; r1] && coeffs_eqb (A := rat_ring) (coeffs e) [q 2; q 3]) = true.
Proof. reflexivity. Qed.
(** element.hpp:180-187: a[0] is 2, a[1] is 3 *)
Example doc_index : says (bind (qel [one1; r1] [2; 3]) (fun a => coefficient (A := rat_ring) a 0)) (fun c => ceqb (r := rat_ring) c (q 2)) &&
  says (bind (qel [one1; r1] [2; 3]) (fun a => coefficient (A := rat_ring) a 1)) (fun c => ceqb (r := rat_ring) c (q 3)) = true.
Proof. reflexivity. Qed.
(** element.hpp:208-225: rationalCoefficients, {2, 3} over the rationals, {1, 0, 3, 2} for 1, 3 + 2 sqrt 2 *)
Example doc_rational_coefficients : says (qel [one1; r1] [2; 3]) (fun a => coeffs_eqb (A := rat_ring) (rational_coefficients (A := rat_ring) a) [q 2; q 3]) = true.
Proof. reflexivity. Qed.
Definition sqrt2 (a b : Z) : car quad_ring := quad_mk (q a) (q b) 2.
Example doc_rational_coefficients_field :
  says (bind (make (A := quad_ring) [one1; r1] (QTwo 2 eq_refl)) (fun M => make_elem (A := quad_ring) M [sqrt2 1 0; sqrt2 3 2]))
    (fun b => coeffs_eqb (A := rat_ring) (rational_coefficients (A := quad_ring) b) [q 1; q 0; q 3; q 2]) = true.
Proof. reflexivity. Qed.
(** element.hpp:248-272: 1 + 2 r plus 2 + 3 r, and then once more; in different modules *)
Example doc_add : let a := bind2 (qel [one1; r1] [1; 2]) (qel [one1; r1] [2; 3]) (add (A := rat_ring)) in
  is a [one1; r1] [q 3; q 5] && is (bind2 a (qel [one1; r1] [2; 3]) (add (A := rat_ring))) [one1; r1] [q 5; q 8] = true.
Proof. reflexivity. Qed.
Example doc_add_modules : is (bind2 (qel [one1; r2] [3; 4]) (qel [one1; r1] [2; 3]) (add (A := rat_ring))) [one1; r1; r2] [q 5; q 3; q 4] = true.
Proof. reflexivity. Qed.
(** element.hpp:276-286: -r - 1 *)
Example doc_sub : is (bind2 (qel [one1; r1] [1; 2]) (qel [one1; r1] [2; 3]) (sub (A := rat_ring))) [one1; r1] [q (-1); q (-1)] = true.
Proof. reflexivity. Qed.
(** element.hpp:294-320: 4, then 12 r + 8, then 36 r^2 + 48 r + 16 *)
Definition rr : gen := GProd [(1, 2%nat)].
Example doc_mul : let a := bind2 (qel [one1] [2]) (qel [one1] [2]) (mul (A := rat_ring)) in
  let b := qel [one1; r1] [2; 3] in let c := bind2 a b (mul (A := rat_ring)) in
  is a [one1] [q 4] && is c [one1; r1] [q 8; q 12] && is (bind2 c b (mul (A := rat_ring))) [one1; r1; rr] [q 16; q 48; q 36] = true.
Proof. vm_compute. reflexivity. Qed.
(** element.hpp:327-345: a * a divided by a is a, divided by 1 + 2 r there is a remainder *)
Example doc_truediv : let a := qel [one1; r1] [2; 3] in let aa := bind2 a a (mul (A := rat_ring)) in
  match aa, a, qel [one1; r1] [1; 2] with
  | Ok s, Ok x, Ok c =>
      match truediv (A := rat_ring) 10 s x with Some (Ok (Some b)) => says (simplify (A := rat_ring) b) (fun b => is (Ok b) [one1; r1] [q 2; q 3]) | _ => false end &&
      match truediv (A := rat_ring) 10 s c with Some (Ok None) => true | _ => false end
  | _, _, _ => false
  end = true.
Proof. vm_compute. reflexivity. Qed.
(** element.hpp:370-376: times another random number, 3 r s + 2 s *)
Example doc_mul_real : match qel [one1; r1] [2; 3] with Ok a => is (bind (mul_real (A := rat_ring) a r2) (simplify (A := rat_ring))) [r2; GProd [(1, 1%nat); (2, 1%nat)]] [q 2; q 3] | _ => false end = true.
Proof. vm_compute. reflexivity. Qed.
(** element.hpp:384-398: 3 * a / 12 is 3/4 r + 1/2, a + 1 is 3 r + 3 *)
Example doc_scalars : is (bind (qel [one1; r1] [2; 3]) (fun a => bind (smul (A := rat_ring) a (SZ 3)) (fun b => sdiv (A := rat_ring) b (SZ 12)))) [one1; r1] [Q2Qc (1 # 2); Q2Qc (3 # 4)] &&
  is (bind2 (qel [one1; r1] [2; 3]) (of_value (A := rat_ring) tt (q 1)) (add (A := rat_ring))) [one1; r1] [q 3; q 3] = true.
Proof. reflexivity. Qed.
(** element.hpp:435-442: -3 r - 2 *)
Example doc_neg : is (bind (qel [one1; r1] [2; 3]) (fun a => Ok (opp (A := rat_ring) a))) [one1; r1] [q (-2); q (-3)] = true.
Proof. reflexivity. Qed.

(** Approximations: the random number is 1/4, known up to 2^-prec. *)
Definition quarter (g : gen) (prec : Z) : arb :=
  match g with GRat c => arb_of_Q up30 prec (qc_num c) (qc_den c) | _ => mkArb (mkArf 1 (-2)) (Some (mkArf 1 (- prec))) end.
Definition somebool (x : option bool) : bool := match x with Some b => b | None => false end.
(** element.hpp:350-360 floordiv is 0; 446-464: floor is 3, ceil is 4 *)
Example doc_floor : says (qel [one1; r1] [3; 1]) (fun a =>
  match elem_floor (A := rat_ring) up30 quarter (rat_arb up30) 3 a, elem_ceil (A := rat_ring) up30 quarter (rat_arb up30) 3 a with Some f, Some c => (f =? 3) && (c =? 4) | _, _ => false end) = true.
Proof. vm_compute. reflexivity. Qed.
Example doc_floordiv : match qel [one1; r1] [1; 1], qel [one1; r1] [1; 2] with
  | Ok a, Ok b => match floordiv (A := rat_ring) up30 quarter (rat_arb up30) 3 a b with Some (Ok n) => n =? 0 | _ => false end | _, _ => false end = true.
Proof. vm_compute. reflexivity. Qed.
(** element.hpp:468-480: 2 + 3 r is no unit, 2 is *)
Example doc_unit : says (qel [one1; r1] [2; 3]) (fun a => negb (is_unit (A := rat_ring) a)) && says (qel [one1; r1] [2; 0]) (is_unit (A := rat_ring)) = true.
Proof. reflexivity. Qed.
(** element.hpp:488-510: 2 < 2 + 3 r < 5; different from 2 + 3 s *)
Example doc_compare : match qel [one1; r1] [2; 3], qel [one1; r2] [2; 3] with
  | Ok a, Ok b => negb (says (equal (A := rat_ring) a b) (fun t => t)) &&
      match gt_int (A := rat_ring) up30 quarter (rat_arb up30) 3 a 2, lt_int (A := rat_ring) up30 quarter (rat_arb up30) 3 a 5 with Some (Ok x), Some (Ok y) => x && y | _, _ => false end
  | _, _ => false end = true.
Proof. vm_compute. reflexivity. Qed.
(** element.hpp:562-620: the conversions *)
Example doc_conversions : says (qel [one1; r1] [2; 3]) (fun a => nonzero (A := rat_ring) a && match to_integer (A := rat_ring) a, to_rational (A := rat_ring) a with None, None => true | _, _ => false end) &&
  says (qel [one1; r1] [2; 0]) (fun b => match to_integer (A := rat_ring) b, to_rational (A := rat_ring) b, elem_double (A := rat_ring) up30 quarter (rat_arb up30) 3 b with
    | Some n, Some c, Some d => (n =? 2) && ceqb (r := rat_ring) c (q 2) && arf_eqb d (arf_of_Z 2) | _, _, _ => false end) = true.
Proof. vm_compute. reflexivity. Qed.
(** element.hpp:625-650: promote *)
Example doc_promote : is (bind2 (qel [one1] [2]) (qmod [one1; r1]) (promote (A := rat_ring))) [one1; r1] [q 2; q 0] = true.
Proof. reflexivity. Qed.
(** element.hpp:652-678: 9 r^2 + 12 r before and after simplify() *)
Example doc_simplify : let a := qel [one1; r1] [2; 3] in let d := bind2 (bind2 a a (mul (A := rat_ring))) (qel [one1; r1] [4; 0]) (sub (A := rat_ring)) in
  is d [one1; r1; rr] [q 0; q 12; q 9] && is (bind d (simplify (A := rat_ring))) [r1; rr] [q 12; q 9] = true.
Proof. vm_compute. reflexivity. Qed.

(** * exact-real/arb.hpp *)
Definition third : arb := arb_of_Q up30 ARB_PRECISION_FAST 1 3.
(** 363-366: the bounds of 1/3 are 1537228672809129301p-62 and 3074457345618258603p-63; 383-385: its midpoint is 6148914691236517205p-64.
    The accuracy that arb_rel_accuracy_bits gives matters here. *)
Example doc_bounds : match arb_interval third with Some (a, b) => arf_eqb a (mkArf 1537228672809129301 (-62)) && arf_eqb b (mkArf 3074457345618258603 (-63)) | None => false end = true.
Proof. vm_compute. reflexivity. Qed.
Example doc_midpoint : arf_eqb (arb_to_arf third) (mkArf 6148914691236517205 (-64)) = true.
Proof. vm_compute. reflexivity. Qed.
(** 145-147: its radius is printed as 2.72e-20, rounded up from 2^-65 *)
Example doc_radius : match rad third with Some r => arf_eqb r (mkArf 1 (-65)) | None => false end = true.
Proof. vm_compute. reflexivity. Qed.
(** 141-143, 155-157: 1/2 is exact; 293-301: 1/3 < 1 is true, 1/3 < 1/3 has no answer; 336-342: is_exact *)
Example doc_exact : arb_is_exact (arb_of_Q up30 ARB_PRECISION_FAST 1 2) && arb_is_exact (arb_of_Z 1) && negb (arb_is_exact third) = true.
Proof. vm_compute. reflexivity. Qed.
Example doc_arb_compare : op_lt third (arb_of_Z 1) = Some true /\ op_lt third third = None.
Proof. split; vm_compute; reflexivity. Qed.

(** * exact-real/arf.hpp *)
(** 138-142: Arf{2748, -8} is 687p-6; 157-159: 0.3 is 5404319552844595p-54; 214-220: 2^-65536 as a double is 0, times 2^65536 it is 1 *)
Example doc_arf : arf_eqb (mkArf 2748 (-8)) (mkArf 687 (-6)) && arf_eqb (arf_to_double (round_q NEAR 53 3 10 0)) (mkArf 5404319552844595 (-54)) &&
  arf_eqb (arf_to_double (mkArf 1 (-65536))) (mkArf 0 0) && arf_eqb (arf_to_double (arf_mul 64 NEAR (mkArf 1 (-65536)) (mkArf 1 65536))) (mkArf 1 0) = true.
Proof. vm_compute. reflexivity. Qed.
(** 226-238, 245-247: |-1| is 1, the floor of -1/2 is -1, its ceil 0 *)
Example doc_arf_floor : arf_eqb (arf_abs (mkArf (-1) 0)) (mkArf 1 0) = true /\ arf_floor (mkArf (-1) (-1)) = -1 /\ arf_ceil (mkArf (-1) (-1)) = 0.
Proof. repeat split. Qed.
