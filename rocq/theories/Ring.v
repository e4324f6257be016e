(** Model of the rings of coefficients: src/integer_ring.cc, src/rational_field.cc,
    src/number_field.cc and the arithmetic of their elements (mpz_class, mpq_class,
    renf_elem_class).

    A [ring] is a record of operations, the template parameter of Module and
    Element.  What the operations mean is said in SpecRing.v.  E-ANTIC, which
    implements number fields, is not part of the repository.  The real quadratic
    fields and the fields of degree one are modelled below so that one can compute
    with them, fields of any degree in NumberField.v. *)
From Coq Require Import ZArith QArith Qcanon Bool List.
From Verif Require Import Gen.
Import ListNotations.
Open Scope Z_scope.

(** What an element can be multiplied with: integers (of any type), rationals, and
    elements of the ring. *)
Inductive scalar (C : Type) := SZ (n : Z) | SQ (q : Qc) | SE (c : C).
Arguments SZ {C}. Arguments SQ {C}. Arguments SE {C}.

Record ring := mkRing {
  car : Type;                            (* Ring::ElementClass *)
  par : Type;                            (* Ring: the parameters, i.e., the field *)
  trivial_par : par;                     (* Ring() *)
  par_eqb : par -> par -> bool;          (* operator== *)
  compositum : par -> par -> result par;
  coerce : par -> car -> result car;
  czero : car;                           (* ElementClass() *)
  cone : car;
  cadd : car -> car -> car;
  cmul : car -> car -> car;
  copp : car -> car;
  ceqb : car -> car -> bool;
  cquo : car -> car -> car;              (* operator/ of ElementClass, for a divisor that is not zero *)
  isField : bool;
  cunit : car -> bool;
  crational : car -> option Qc;
  cfloor : car -> Z;
  imul : car -> scalar car -> result car;
  idiv : car -> scalar car -> result car;
  (* The operators work in place: what is left of the number when they throw. *)
  imul_left : car -> scalar car -> car;
  idiv_left : car -> scalar car -> car;
  degree_of : par -> nat;                (* degree of the field, 1 for Z and Q *)
  coordinates : car -> list Qc           (* num_vector() / den() of renf_elem_class; the number itself for Z and Q *)
}.
Arguments par_eqb {r}. Arguments compositum {r}. Arguments coerce {r}. Arguments cadd {r}.
Arguments cmul {r}. Arguments copp {r}. Arguments ceqb {r}. Arguments cquo {r}. Arguments cunit {r}.
Arguments crational {r}. Arguments cfloor {r}. Arguments imul {r}. Arguments idiv {r}. Arguments imul_left {r}. Arguments idiv_left {r}.
Arguments degree_of {r}. Arguments coordinates {r}.

Definition qc_num (q : Qc) : Z := Qnum q.
Definition qc_den (q : Qc) : Z := Zpos (Qden q).
Definition Qc_of_Z (n : Z) : Qc := Q2Qc (inject_Z n).

(** * Integers, src/integer_ring.cc *)
(** 75-90 idiv by an integer: zero throws, and so does a quotient that is not exact. *)
Definition int_idiv_z (x n : Z) : result Z :=
  if n =? 0 then Err InvalidArgument
  else if negb (Z.rem x n =? 0) then Err InvalidArgument
  else Ok (Z.quot x n).
(** 64-73 imul by a rational: multiply with the numerator, divide by the denominator. *)
Definition int_imul_q (x : Z) (q : Qc) : result Z := int_idiv_z (x * qc_num q) (qc_den q).
(** 82-83 idiv by a rational *)
Definition int_idiv_q (x : Z) (q : Qc) : result Z :=
  if qc_num q =? 0 then Err InvalidArgument else int_idiv_z (x * qc_den q) (qc_num q).
Definition int_ring : ring :=
  {| car := Z; par := unit; trivial_par := tt;
     par_eqb := fun _ _ => true;                        (* 60-62 *)
     compositum := fun _ _ => Ok tt;                    (* 32-34 *)
     coerce := fun _ x => Ok x;                         (* 56-58 *)
     czero := 0; cone := 1; cadd := Z.add; cmul := Z.mul; copp := Z.opp; ceqb := Z.eqb;
     cquo := Z.quot;                                    (* mpz_class / truncates *)
     isField := false;
     cunit := fun x => (x =? 1) || (x =? -1);           (* 40-42 *)
     crational := fun x => Some (Qc_of_Z x);            (* 44-46 *)
     cfloor := fun x => x;                              (* 48-50 *)
     imul := fun x s => match s with SZ n => Ok (x * n) | SQ q => int_imul_q x q | SE c => Ok (x * c) end;
     idiv := fun x s => match s with SZ n => int_idiv_z x n | SQ q => int_idiv_q x q | SE c => int_idiv_z x c end;
     (* 68 and 82: a rational factor (divisor) is applied in two steps, and the second one can throw *)
     imul_left := fun x s => match s with SQ q => x * qc_num q | _ => x end;
     idiv_left := fun x s => match s with SQ q => if qc_num q =? 0 then x else x * qc_den q | _ => x end;
     degree_of := fun _ => 1%nat;
     coordinates := fun x => [Qc_of_Z x] |}.

(** * Rationals, src/rational_field.cc *)
Definition Qc_eqb (p q : Qc) : bool := Qeq_bool p q.
(** 49-51: the quotient of numerator and denominator, which GMP rounds towards zero *)
Definition rat_floor (x : Qc) : Z := Z.quot (qc_num x) (qc_den x).
Definition rat_imul (x : Qc) (s : scalar Qc) : result Qc :=
  match s with SZ n => Ok (x * Qc_of_Z n)%Qc | SQ q => Ok (x * q)%Qc | SE c => Ok (x * c)%Qc end.
(** 70-79 *)
Definition rat_idiv (x : Qc) (s : scalar Qc) : result Qc :=
  match s with
  | SZ n => if n =? 0 then Err InvalidArgument else Ok (x / Qc_of_Z n)%Qc
  | SQ q | SE q => if Qc_eqb q 0 then Err InvalidArgument else Ok (x / q)%Qc
  end.
Definition rat_ring : ring :=
  {| car := Qc; par := unit; trivial_par := tt;
     par_eqb := fun _ _ => true;                        (* 57-59 *)
     compositum := fun _ _ => Ok tt;                    (* 33-35 *)
     coerce := fun _ x => Ok x;                         (* 53-55 *)
     czero := 0%Qc; cone := 1%Qc; cadd := Qcplus; cmul := Qcmult; copp := Qcopp; ceqb := Qc_eqb; cquo := Qcdiv;
     isField := true;
     cunit := fun x => negb (Qc_eqb x 0);               (* 41-43 *)
     crational := fun x => Some x;                      (* 45-47 *)
     cfloor := rat_floor;
     imul := rat_imul; idiv := rat_idiv; imul_left := fun x _ => x; idiv_left := fun x _ => x;
     degree_of := fun _ => 1%nat;
     coordinates := fun x => [x] |}.

(** * Number fields of degree at most two, src/number_field.cc *)
(** [d] is not a square, so that x^2 - d is irreducible. *)
Definition nonsquare (d : Z) : bool := (1 <? d) && negb (Z.sqrt d * Z.sqrt d =? d).
(** A field: of degree one, given by the root [n] of its defining polynomial x - n
    (fields with different polynomials are different for E-ANTIC), or Q(sqrt d). *)
Inductive qfield := QOne (n : Z) | QTwo (d : Z) (H : nonsquare d = true).
Definition qfield_eqb (p q : qfield) : bool :=
  match p, q with
  | QOne n, QOne m => n =? m
  | QTwo d _, QTwo e _ => d =? e
  | _, _ => false
  end.
Definition qdegree (p : qfield) : nat := match p with QOne _ => 1 | QTwo _ _ => 2 end.

(** [a + b sqrt d]; for rational numbers b = 0 and d = 1: whether a rational number is
    considered as an element of Q or of Q(sqrt d) cannot be observed through the
    operations used here (Element(value) takes that field as a parameter, see Element.v). *)
Record quad := mkQuad { qa : Qc; qb : Qc; qd : Z }.
Definition quad_of_q (q : Qc) : quad := mkQuad q 0 1.
Definition quad_mk (a b : Qc) (d : Z) : quad := if Qc_eqb b 0 then quad_of_q a else mkQuad a b d.
Definition quad_d (x y : quad) : Z := if qd x =? 1 then qd y else qd x.
Definition quad_eqb (x y : quad) : bool := Qc_eqb (qa x) (qa y) && Qc_eqb (qb x) (qb y) && (qd x =? qd y).
Definition quad_add (x y : quad) : quad := quad_mk (qa x + qa y) (qb x + qb y) (quad_d x y).
Definition quad_opp (x : quad) : quad := quad_mk (- qa x) (- qb x) (qd x).
Definition quad_mul (x y : quad) : quad :=
  quad_mk (qa x * qa y + Qc_of_Z (quad_d x y) * (qb x * qb y)) (qa x * qb y + qb x * qa y) (quad_d x y).
Definition quad_inv (x : quad) : quad :=
  let n := (qa x * qa x - Qc_of_Z (qd x) * (qb x * qb x))%Qc in quad_mk (qa x / n) (- qb x / n) (qd x).
Definition quad_div (x y : quad) : quad := quad_mul x (quad_inv y).
Definition quad_is_rational (x : quad) : bool := Qc_eqb (qb x) 0.
(** floor of (u + v sqrt d)/w for integers, w > 0. *)
Definition quad_floor (x : quad) : Z :=
  let w := qc_den (qa x) * qc_den (qb x) in
  let u := qc_num (qa x) * qc_den (qb x) in
  let v := qc_num (qb x) * qc_den (qa x) in
  if v =? 0 then u / w
  else if 0 <? v then (u + Z.sqrt (v * v * qd x)) / w
  else (u - Z.sqrt (v * v * qd x) - 1) / w.
Definition quad_imul (x : quad) (s : scalar quad) : result quad :=
  match s with SZ n => Ok (quad_mul x (quad_of_q (Qc_of_Z n))) | SQ q => Ok (quad_mul x (quad_of_q q)) | SE c => Ok (quad_mul x c) end.
(** 81-86 *)
Definition quad_idiv (x : quad) (s : scalar quad) : result quad :=
  let c := match s with SZ n => quad_of_q (Qc_of_Z n) | SQ q => quad_of_q q | SE c => c end in
  if quad_eqb c (quad_of_q 0) then Err InvalidArgument else Ok (quad_div x c).
(** 36-41 *)
Definition quad_compositum (p q : qfield) : result qfield :=
  if qfield_eqb p q then Ok p
  else if Nat.eqb (qdegree p) 1 then Ok q
  else if Nat.eqb (qdegree q) 1 then Ok p
  else Err LogicError.
(** 63-72 *)
Definition quad_coerce (p : qfield) (x : quad) : result quad :=
  if quad_is_rational x then Ok x
  else match p with
       | QTwo d _ => if d =? qd x then Ok x else Err LogicError
       | QOne _ => Err LogicError
       end.
(** renf_class::make(), the field of rational numbers, has the generator 0. *)
Definition quad_ring : ring :=
  {| car := quad; par := qfield; trivial_par := QOne 0;
     par_eqb := qfield_eqb;                             (* 55-57 *)
     compositum := quad_compositum;
     coerce := quad_coerce;
     czero := quad_of_q 0; cone := quad_of_q 1; cadd := quad_add; cmul := quad_mul; copp := quad_opp; ceqb := quad_eqb; cquo := quad_div;
     isField := true;
     cunit := fun x => negb (quad_eqb x (quad_of_q 0)); (* 47-49 *)
     crational := fun x => if quad_is_rational x then Some (qa x) else None;   (* 51-53 *)
     cfloor := quad_floor;                              (* 59-61 *)
     imul := quad_imul; idiv := quad_idiv; imul_left := fun x _ => x; idiv_left := fun x _ => x;
     degree_of := qdegree;
     coordinates := fun x => if quad_is_rational x then [qa x] else [qa x; qb x] |}.
