(** Model of the division of elements, src/element.cc:418-465.

    The loop is not structurally recursive: [fuel] bounds the number of iterations and
    the result is [None] when it did not suffice.  Termination is a theorem, see
    DivisionProofs.v. *)
From Coq Require Import ZArith QArith Qcanon Bool List.
From Verif Require Import Gen Ring Module Element.
Import ListNotations.
Open Scope Z_scope.

Section Division.
  Context {A : ring}.
  Local Notation elem := (elem A).

  (** src/element.cc:434-441 leading: the last coefficient that is not zero, and its generator. *)
  Fixpoint leading_loop (gs : list gen) (cs : list (car A)) : option (car A * gen) :=
    match gs, cs with
    | g :: gs', c :: cs' =>
        match leading_loop gs' cs' with
        | Some r => Some r
        | None => if cz c then None else Some (c, g)
        end
    | _, _ => None
    end.
  Definition leading (x : elem) : result (car A * gen) :=
    match leading_loop (basis (emodule x)) (coeffs x) with Some r => Ok r | None => Err LogicError end.

  (** src/element.cc:458: coefficient_quotient * Module::make({generator_quotient}, ring)->gen(0) *)
  Definition monomial (c : car A) (g : gen) (p : par A) : result elem :=
    bind (make [g] p) (fun M => bind (module_gen M 0) (fun u => smul u (SE c))).

  (** What one iteration (src/element.cc:443-462) does: give up, or continue with a new
      quotient and a new remainder. *)
  Definition div_step (p : par A) (rhs quotient remainder : elem) : result (option (elem * elem)) :=
    bind (leading remainder) (fun '(a, g) =>
    bind (leading rhs) (fun '(b, h) =>
    bind (gen_div g h) (fun gq =>
    match gq with
    | None => Ok None
    | Some k =>
        let c := cquo a b in
        if negb (ceqb (cmul c b) a) then (if isField A then Err AssertionFailed else Ok None)
        else bind (monomial c k p) (fun partial =>
             bind (add quotient partial) (fun quotient' =>
             bind (mul partial rhs) (fun product =>
             bind (sub remainder product) (fun remainder' => Ok (Some (quotient', remainder'))))))
    end))).
  (** src/element.cc:443-464 *)
  Fixpoint div_loop (fuel : nat) (p : par A) (rhs quotient remainder : elem) : option (result (option elem)) :=
    match fuel with
    | O => None
    | S fuel' =>
        if negb (nonzero remainder) then Some (Ok (Some quotient))
        else match div_step p rhs quotient remainder with
             | Err e => Some (Err e)
             | Ok None => Some (Ok None)
             | Ok (Some (q, r)) => div_loop fuel' p rhs q r
             end
    end.
  (** src/element.cc:418-428, 430-431, for operands in the same module *)
  Definition truediv_same (fuel : nat) (x y : elem) : option (result (option elem)) :=
    if eq_integer y 0 then Some (Err InvalidArgument)
    else if eq_integer y 1 then Some (Ok (Some x))
    else div_loop fuel (mring (emodule x)) y (zero_of (emodule x)) x.
  (** src/element.cc:418-465 truediv: the recursive call has operands in the same module. *)
  Definition truediv (fuel : nat) (x y : elem) : option (result (option elem)) :=
    if eq_integer y 0 then Some (Err InvalidArgument)
    else if eq_integer y 1 then Some (Ok (Some x))
    else match common x y with
         | Err e => Some (Err e)
         | Ok (x', y') => truediv_same fuel x' y'
         end.
End Division.
