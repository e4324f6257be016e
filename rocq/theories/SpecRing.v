(** Specification of rings of coefficients: which real number a coefficient
    denotes, which coefficients belong to a ring, and what the operations have to
    do.  This is proved for Z, Q, the fields of degree at most two (RingProofs.v)
    and number fields of any degree (NumberFieldProofs.v). *)
From Coq Require Import ZArith QArith Qcanon Bool List Reals Qreals.
From Verif Require Import Gen Ring.
Import ListNotations.
Open Scope R_scope.

Record semantics (A : ring) := mkSemantics {
  val : car A -> R;                      (* the denoted real number *)
  mem : par A -> car A -> Prop;          (* the element belongs to the ring *)
  theta : par A -> R                     (* the generator of the field *)
}.
Arguments val {A}. Arguments mem {A}. Arguments theta {A}.
(** The value of a polynomial with rational coefficients. *)
Fixpoint polynomial (l : list Qc) (t : R) : R :=
  match l with [] => 0 | q :: l' => Q2R q + t * polynomial l' t end.

(** The real number denoted by a scalar. *)
Definition sval {A} (S : semantics A) (s : scalar (car A)) : R :=
  match s with SZ n => IZR n | SQ q => Q2R q | SE c => val S c end.
Definition smem {A} (S : semantics A) (p : par A) (s : scalar (car A)) : Prop :=
  match s with SE c => mem S p c | _ => True end.

Record lawful (A : ring) (S : semantics A) : Prop := {
  (* operator== of rings and coefficients *)
  L_par_eqb : forall p q : par A, par_eqb p q = true <-> p = q;
  L_eqb : forall x y : car A, ceqb x y = true <-> x = y;
  L_inj : forall p x y, mem S p x -> mem S p y -> val S x = val S y -> x = y;
  (* arithmetic *)
  L_zero : forall p, mem S p (czero A) /\ val S (czero A) = 0;
  L_one : forall p, mem S p (cone A) /\ val S (cone A) = 1;
  L_add : forall p x y, mem S p x -> mem S p y -> mem S p (cadd x y) /\ val S (cadd x y) = val S x + val S y;
  L_mul : forall p x y, mem S p x -> mem S p y -> mem S p (cmul x y) /\ val S (cmul x y) = val S x * val S y;
  L_opp : forall p x, mem S p x -> mem S p (copp x) /\ val S (copp x) = - val S x;
  (* a / b is the quotient if there is one *)
  L_quo : forall p a b, mem S p a -> mem S p b -> val S b <> 0 -> mem S p (cquo a b) /\
            forall q, mem S p q -> val S q * val S b = val S a -> val S (cquo a b) = val S q;
  L_field : isField A = true -> forall p b, mem S p b -> val S b <> 0 -> exists c, mem S p c /\ val S c * val S b = 1;
  L_unit : forall p x, mem S p x -> (cunit x = true <-> exists y, mem S p y /\ val S x * val S y = 1);
  L_rational : forall p x q, mem S p x -> (crational x = Some q <-> val S x = Q2R q);
  (* scalars: the result is right, and there is a result whenever there can be one *)
  L_imul : forall p x s, mem S p x -> smem S p s ->
            match imul x s with
            | Ok y => mem S p y /\ val S y = val S x * sval S s
            | Err _ => ~ exists y, mem S p y /\ val S y = val S x * sval S s
            end;
  L_idiv : forall p x s, mem S p x -> smem S p s ->
            match idiv x s with
            | Ok y => sval S s <> 0 /\ mem S p y /\ val S y = val S x / sval S s
            | Err e => e = InvalidArgument /\ (sval S s = 0 \/ ~ exists y, mem S p y /\ val S y = val S x / sval S s)
            end;
  (* rings *)
  L_coerce : forall p x y, (exists q, mem S q x) -> coerce p x = Ok y -> mem S p y /\ val S y = val S x;
  L_coerce_mem : forall p x, mem S p x -> coerce p x = Ok x;
  L_compositum : forall p q r, compositum p q = Ok r -> forall x, mem S p x \/ mem S q x -> exists y, coerce r x = Ok y;
  L_compositum_self : forall p : par A, compositum p p = Ok p;
  (* coordinates: at most degree many, with respect to the power basis *)
  L_coordinates : forall p x, mem S p x -> (length (coordinates x) <= degree_of p)%nat;
  L_coordinates_val : forall p x, mem S p x -> val S x = polynomial (coordinates x) (theta S p);
  (* a number is still in the ring when an operator has thrown, and has not changed if the divisor is zero *)
  L_imul_left : forall p x s, mem S p x -> smem S p s -> mem S p (imul_left x s);
  L_idiv_left : forall p x s, mem S p x -> smem S p s -> mem S p (idiv_left x s) /\ (isField A = true \/ sval S s = 0 -> idiv_left x s = x)
}.

(** * The concrete rings *)
Definition int_sem : semantics int_ring := mkSemantics int_ring IZR (fun _ _ => True) (fun _ => 1).
Definition rat_sem : semantics rat_ring := mkSemantics rat_ring (fun q : Qc => Q2R q) (fun _ _ => True) (fun _ => 1).
Definition quad_sem : semantics quad_ring :=
  mkSemantics quad_ring (fun x : quad => Q2R (qa x) + Q2R (qb x) * sqrt (IZR (qd x)))
    (fun p (x : quad) => (qb x = 0%Qc /\ qd x = 1%Z) \/
                (qb x <> 0%Qc /\ match p with QTwo d _ => qd x = d | QOne _ => False end))
    (fun p => match p with QTwo d _ => sqrt (IZR d) | QOne n => IZR n end).

(** [n] is the floor of [v]. *)
Definition is_floor (n : Z) (v : R) : Prop := IZR n <= v < IZR n + 1.
