(** Specification of generators: what they denote.  Only the data types of the
    model are used, none of its functions. *)
From Coq Require Import ZArith QArith Qcanon Bool List Reals Qreals.
From Verif Require Import Gen.
Import ListNotations.
Open Scope R_scope.

(** The real number denoted, given the values [rho] of the indeterminates. *)
Fixpoint mons_val (rho : Z -> R) (ms : list (Z * nat)) : R :=
  match ms with [] => 1 | (i, e) :: ms' => rho i ^ e * mons_val rho ms' end.
Definition gen_val (rho : Z -> R) (g : gen) : R :=
  match g with
  | GRat q => Q2R q
  | GAtom i => rho i
  | GProd ms => mons_val rho ms
  end.

(** Exponent of the indeterminate [i]; degree. *)
Fixpoint expo_mons (ms : list (Z * nat)) (i : Z) : nat :=
  match ms with [] => O | (j, e) :: ms' => ((if Z.eqb j i then e else O) + expo_mons ms' i)%nat end.
Definition expo (g : gen) (i : Z) : nat :=
  match g with
  | GRat _ => O
  | GAtom j => if Z.eqb j i then 1%nat else O
  | GProd ms => expo_mons ms i
  end.
Fixpoint sum_exponents (ms : list (Z * nat)) : nat :=
  match ms with [] => O | (_, e) :: ms' => (e + sum_exponents ms')%nat end.
Definition degree (g : gen) : nat :=
  match g with GRat _ => O | GAtom _ => 1%nat | GProd ms => sum_exponents ms end.

(** Well-formed numbers: products have ascending ids, positive exponents and at
    least two factors. *)
Fixpoint mons_wf (lo : Z) (ms : list (Z * nat)) : Prop :=
  match ms with [] => True | (i, e) :: ms' => (lo <= i)%Z /\ (0 < e)%nat /\ mons_wf (i + 1) ms' end.
Definition gen_wf (g : gen) : Prop :=
  match g with
  | GRat _ => True
  | GAtom i => (0 <= i)%Z
  | GProd ms => mons_wf 0 ms /\ (2 <= sum_exponents ms)%nat
  end.
Definition rational (g : gen) : Prop := match g with GRat _ => True | _ => False end.

(** The order: by degree; among monomials of the same degree, [x] comes first if
    its exponent is larger at the first indeterminate (by id) where they differ;
    rationals come before everything else. *)
Definition lex_before (x y : gen) : Prop :=
  exists i, (expo y i < expo x i)%nat /\ forall j, (j < i)%Z -> expo x j = expo y j.
Definition deglex_before (x y : gen) : Prop :=
  (degree x < degree y)%nat \/ (degree x = degree y /\ lex_before x y).
(** Hash of a product: the product of the ids (modulo 2^64). *)
Fixpoint plain_hash (ms : list (Z * nat)) : Z :=
  match ms with [] => 1%Z | (i, e) :: ms' => (i ^ Z.of_nat e * plain_hash ms')%Z end.
