(** Model of number fields of arbitrary degree, src/number_field.cc.

    E-ANTIC (renf_class, renf_elem_class) is not part of the repository.  A field is
    modelled as what it is for E-ANTIC, a polynomial that is irreducible together with
    one of its real roots; elements are polynomials in the generator and are computed with
    modulo the polynomial.  What E-ANTIC decides by approximating the root (whether two
    embeddings are the same, floor) is defined by the root itself.  The quadratic
    fields in Ring.v are the special case that can be computed with. *)
From Coq Require Import ZArith QArith Qcanon Bool List Reals Qreals.
From Verif Require Import Gen Ring SpecRing.
Import ListNotations.
Open Scope Z_scope.

(** * Polynomials, constant term first *)
Fixpoint padd (l r : list Qc) : list Qc :=
  match l, r with
  | [], _ => r
  | _, [] => l
  | a :: l', b :: r' => (a + b)%Qc :: padd l' r'
  end.
Definition pscale (c : Qc) (l : list Qc) : list Qc := map (Qcmult c) l.
Fixpoint pmul (l r : list Qc) : list Qc :=
  match l with [] => [] | a :: l' => padd (pscale a r) (0%Qc :: pmul l' r) end.
(** Without leading zeros. *)
Fixpoint trim (l : list Qc) : list Qc :=
  match l with
  | [] => []
  | a :: l' => match trim l' with
               | [] => if Qc_eqb a 0 then [] else [a]
               | t => a :: t
               end
  end.
Definition lead (l : list Qc) : Qc := last l 0%Qc.
(** Quotient and remainder by [b], whose leading coefficient is not zero; the remainder has [length b - 1] coefficients. *)
Fixpoint divmod (p b : list Qc) : list Qc * list Qc :=
  match p with
  | [] => ([], repeat 0%Qc (length b - 1))
  | a :: p' =>
      let (q, r) := divmod p' b in
      let c := (lead (a :: r) / lead b)%Qc in
      (c :: q, firstn (length b - 1) (padd (a :: r) (pscale (- c) b)))
  end.
Definition pmod (p f : list Qc) : list Qc := snd (divmod p f).
(** The inverse of [b] modulo [f]: if f = q b + r then 1/b = -q/r. *)
Fixpoint pinv (fuel : nat) (f b : list Qc) : list Qc :=
  match fuel with
  | O => []
  | S fuel' =>
      match b with
      | [] => []
      | [c] => [(/ c)%Qc]
      | _ => let (q, r) := divmod f b in pmod (pscale (- (1)) (pmul q (pinv fuel' f (trim r)))) f
      end
  end.

(** * Fields *)
(** [f] is a minimal polynomial of [t]: [t] is a root and there is no smaller polynomial, except 0, with this root. *)
Definition minimal_polynomial (f : list Qc) (t : R) : Prop :=
  (2 <= length f)%nat /\ lead f <> 0%Qc /\ polynomial f t = 0%R /\
  forall l, (length l < length f)%nat -> polynomial l t = 0%R -> Forall (fun c => c = 0%Qc) l.
(** renf_class: the polynomial and its real embedding. *)
Record nfield := mkNfield { nf_poly : list Qc; nf_gen : R; nf_minimal : minimal_polynomial nf_poly nf_gen }.
Fixpoint poly_eqb (l r : list Qc) : bool :=
  match l, r with
  | [], [] => true
  | a :: l', b :: r' => Qc_eqb a b && poly_eqb l' r'
  | _, _ => false
  end.
(** renf_class::operator==, src/number_field.cc:55-57 *)
Definition nfield_eqb (p q : nfield) : bool :=
  poly_eqb (nf_poly p) (nf_poly q) && (if Req_EM_T (nf_gen p) (nf_gen q) then true else false).
Definition nf_degree (p : nfield) : nat := length (nf_poly p) - 1.

(** * Elements *)
(** renf_elem_class.  As in Ring.v, rational numbers do not remember their field. *)
Record nelem := mkNelem { ne_field : option nfield; ne_coeffs : list Qc }.
Definition ne_mk (p : option nfield) (l : list Qc) : nelem :=
  let l' := trim l in if (length l' <=? 1)%nat then mkNelem None l' else mkNelem p l'.
Definition ne_of_q (q : Qc) : nelem := ne_mk None [q].
Definition ne_common (x y : nelem) : option nfield := match ne_field x with Some p => Some p | None => ne_field y end.
Definition ne_eqb (x y : nelem) : bool :=
  poly_eqb (ne_coeffs x) (ne_coeffs y) &&
  match ne_field x, ne_field y with Some p, Some q => nfield_eqb p q | None, None => true | _, _ => false end.
Definition ne_add (x y : nelem) : nelem := ne_mk (ne_common x y) (padd (ne_coeffs x) (ne_coeffs y)).
Definition ne_opp (x : nelem) : nelem := ne_mk (ne_field x) (pscale (- (1)) (ne_coeffs x)).
Definition ne_mul (x y : nelem) : nelem :=
  let l := pmul (ne_coeffs x) (ne_coeffs y) in
  ne_mk (ne_common x y) (match ne_common x y with Some p => pmod l (nf_poly p) | None => l end).
Definition ne_inv (x : nelem) : nelem :=
  ne_mk (ne_field x) (pinv (length (ne_coeffs x)) (match ne_field x with Some p => nf_poly p | None => [] end) (ne_coeffs x)).
Definition ne_div (x y : nelem) : nelem := ne_mul x (ne_inv y).
Definition ne_is_rational (x : nelem) : bool := (length (ne_coeffs x) <=? 1)%nat.
Definition ne_to_q (x : nelem) : Qc := hd 0%Qc (ne_coeffs x).
Definition ne_value (x : nelem) : R := polynomial (ne_coeffs x) (match ne_field x with Some p => nf_gen p | None => 0%R end).
(** renf_elem_class::floor, src/number_field.cc:59-61 *)
Definition ne_floor (x : nelem) : Z := Int_part (ne_value x).
Definition ne_scalar (s : scalar nelem) : nelem :=
  match s with SZ n => ne_of_q (Qc_of_Z n) | SQ q => ne_of_q q | SE c => c end.

(** src/number_field.cc:36-41 *)
Definition nf_compositum (p q : nfield) : result nfield :=
  if nfield_eqb p q then Ok p
  else if Nat.eqb (nf_degree p) 1 then Ok q
  else if Nat.eqb (nf_degree q) 1 then Ok p
  else Err LogicError.
(** src/number_field.cc:63-72 *)
Definition nf_coerce (p : nfield) (x : nelem) : result nelem :=
  if match ne_field x with Some q => nfield_eqb q p | None => false end then Ok x
  else if ne_is_rational x then Ok (ne_of_q (ne_to_q x))
  else Err LogicError.
(** src/number_field.cc:74-77 *)
Definition nf_imul (x : nelem) (s : scalar nelem) : result nelem := Ok (ne_mul x (ne_scalar s)).
(** src/number_field.cc:79-85 *)
Definition nf_idiv (x : nelem) (s : scalar nelem) : result nelem :=
  if ne_eqb (ne_scalar s) (ne_of_q 0) then Err InvalidArgument else Ok (ne_div x (ne_scalar s)).

(** renf_class::make(): the rational numbers, with generator 0. *)
Lemma rationals_minimal : minimal_polynomial [0%Qc; 1%Qc] 0.
Proof.
  split; [apply le_n|]. split; [discriminate|]. split; [cbn; unfold Q2R; cbn; ring|].
  intros [|a [|b l]] H E; cbn in H.
  - constructor.
  - constructor; [|constructor]. cbn in E. rewrite Rmult_0_l, Rplus_0_r in E.
    apply Qc_is_canon. apply eqR_Qeq. rewrite E. unfold Q2R. cbn. ring.
  - exfalso. inversion H as [|? H1]; subst; inversion H1 as [|? H2]; subst; inversion H2.
Qed.
Definition nf_rationals : nfield := mkNfield [0%Qc; 1%Qc] 0 rationals_minimal.

Definition nf_ring : ring :=
  {| car := nelem; par := nfield; trivial_par := nf_rationals;
     par_eqb := nfield_eqb;
     compositum := nf_compositum;
     coerce := nf_coerce;
     czero := mkNelem None []; cone := ne_of_q 1; cadd := ne_add; cmul := ne_mul; copp := ne_opp; ceqb := ne_eqb; cquo := ne_div;
     isField := true;
     cunit := fun x => negb (ne_eqb x (ne_of_q 0));                              (* 47-49 *)
     crational := fun x => if ne_is_rational x then Some (ne_to_q x) else None;   (* 51-53 *)
     cfloor := ne_floor;
     imul := nf_imul; idiv := nf_idiv; imul_left := fun x _ => x; idiv_left := fun x _ => x;
     degree_of := nf_degree;
     coordinates := ne_coeffs |}.

(** src/element.cc:128-144: coefficients of elements over larger rings *)
Definition int_to_nf : car int_ring -> car nf_ring := fun n => ne_of_q (Qc_of_Z n).
Definition rat_to_nf : car rat_ring -> car nf_ring := ne_of_q.

(** * What they denote *)
Definition nf_sem : semantics nf_ring :=
  mkSemantics nf_ring ne_value
    (fun p (x : nelem) => trim (ne_coeffs x) = ne_coeffs x /\
       match ne_field x with
       | None => (length (ne_coeffs x) <= 1)%nat
       | Some q => q = p /\ (2 <= length (ne_coeffs x) <= nf_degree p)%nat
       end)
    nf_gen.
