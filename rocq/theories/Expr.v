(** Expressions in elements, moves and swaps; on top of Store.v.

    The binary operators of Element come from boost (exact-real/element.hpp:73-101): x + y copies x into a new object,
    which is changed with += and returned (without a copy). -x is a new object (src/element.cc:275-282). Operands that are
    variables are passed by reference. All temporary objects are destroyed at the end of the full expression, also when
    something has been thrown.  z = std::move(x), and z = e for an expression that is not just a variable, take over the implementation
    of the right hand side (spimpl::impl_ptr, element.hpp:687); std::swap is three moves.

    Temporary objects are variables with negative names here.  Simplifications: operands are evaluated from left to right (C++ leaves
    the order open, but temporary objects do not depend on each other); an Element that has been moved from is treated as a variable
    that does not exist, since it can only be assigned to or destroyed; destroying it does nothing. *)
From Coq Require Import ZArith Bool List.
From Verif Require Import Gen Ring Module Element Store.
Import ListNotations.
Open Scope Z_scope.

Inductive binary := Plus | Minus | Times.

Section Expr.
  Variable A : ring.
  (** An expression: a variable, a new object (Element(module, coefficients), module.gen(i), ...), -e, e + f, e - f, e * f, e * real, e * s, e / s *)
  Inductive expr :=
  | EVar (x : Z) | ELit (c : elem A) | ENeg (e : expr) | EBin (op : binary) (e f : expr) | EReal (e : expr) (g : gen) | EMul (e : expr) (s : scalar (car A)) | EDiv (e : expr) (s : scalar (car A)).
  Definition temp (k : nat) : Z := - Z.of_nat k - 1.
  Definition compound (op : binary) (x y : Z) : statement A := match op with Plus => AddTo x y | Minus => SubTo x y | Times => MulTo x y end.

  (** The object that an expression refers to, or the exception; with the number of temporary objects *)
  Definition evaluation := option (memory A * nat * result Z).
  (** A new temporary object *)
  Definition create (m : memory A) (k : nat) (st : statement A) : evaluation :=
    match exec m st with
    | None => None
    | Some (m1, None) => Some (m1, S k, Ok (temp k))
    | Some (m1, Some err) => Some (m1, k, Err err)
    end.
  (** ... that is changed and returned *)
  Definition modify (m : memory A) (k : nat) (r : Z) (st : statement A) : evaluation :=
    match exec m st with
    | None => None
    | Some (m1, None) => Some (m1, k, Ok r)
    | Some (m1, Some err) => Some (m1, k, Err err)
    end.
  Definition after (v : evaluation) (f : memory A -> nat -> Z -> evaluation) : evaluation :=
    match v with Some (m, k, Ok r) => f m k r | _ => v end.
  (** boost: T nrv(lhs); nrv op= rhs; return nrv; *)
  Fixpoint eval (m : memory A) (k : nat) (e : expr) : evaluation :=
    match e with
    | EVar x => Some (m, k, Ok x)
    | ELit c => create m k (Define (temp k) c)
    | ENeg e1 => after (eval m k e1) (fun m1 k1 x => create m1 k1 (Opposite (temp k1) x))
    | EBin op e1 e2 =>
        after (eval m k e1) (fun m1 k1 x => after (eval m1 k1 e2) (fun m2 k2 y =>
          after (create m2 k2 (Copy (temp k2) x)) (fun m3 k3 t => modify m3 k3 t (compound op t y))))
    | EReal e1 g => after (eval m k e1) (fun m1 k1 x => after (create m1 k1 (Copy (temp k1) x)) (fun m2 k2 t => modify m2 k2 t (MulReal t g)))
    | EMul e1 s => after (eval m k e1) (fun m1 k1 x => after (create m1 k1 (Copy (temp k1) x)) (fun m2 k2 t => modify m2 k2 t (MulScalar t s)))
    | EDiv e1 s => after (eval m k e1) (fun m1 k1 x => after (create m1 k1 (Copy (temp k1) x)) (fun m2 k2 t => modify m2 k2 t (DivScalar t s)))
    end.

  (** impl_ptr::operator=(impl_ptr&&): the implementation of z is destroyed, the one of x changes its owner *)
  Definition move (m : memory A) (z x : Z) : memory A :=
    if z =? x then m
    else let m1 := match vars m z with Some old => free m old | None => m end in
         mkMem (impls m1) (next m1) (fun y => if y =? z then vars m x else if y =? x then None else vars m1 y).
  (** The end of the full expression *)
  Fixpoint drop (m : memory A) (k : nat) : option (memory A) :=
    match k with
    | O => Some m
    | S k' => match vars m (temp k') with
              | None => drop m k'
              | Some _ => match exec m (Destroy (temp k')) with Some (m1, _) => drop m1 k' | None => None end
              end
    end.

  (** z = e, z = std::move(x), std::swap(x, y), and the statements of Store.v *)
  Inductive command := Do (st : statement A) | Assign (z : Z) (e : expr) | MoveTo (z x : Z) | Swap (x y : Z).
  Definition finish (m : memory A) (k : nat) (o : option exn) : outcome A := option_map (fun m1 => (m1, o)) (drop m k).
  Definition perform (m : memory A) (c : command) : outcome A :=
    match c with
    | Do st => exec m st
    | Assign z e =>
        match eval m 0 e with
        | None => None
        | Some (m1, k, Err err) => finish m1 k (Some err)
        | Some (m1, k, Ok r) =>
            if r <? 0 then finish (move m1 z r) k None
            else match exec m1 (Copy z r) with Some (m2, o) => finish m2 k o | None => None end
        end
    | MoveTo z x => Some (move m z x, None)
    | Swap x y => Some (move (move (move m (temp 0) x) x y) y (temp 0), None)
    end.
  Fixpoint perform_all (m : memory A) (prog : list command) : option (memory A * list (option exn)) :=
    match prog with
    | [] => Some (m, [])
    | c :: prog' =>
        match perform m c with
        | None => None
        | Some (m1, o) => match perform_all m1 prog' with Some (m2, os) => Some (m2, o :: os) | None => None end
        end
    end.
End Expr.
Arguments EVar {A}. Arguments ELit {A}. Arguments ENeg {A}. Arguments EBin {A}. Arguments EReal {A}. Arguments EMul {A}. Arguments EDiv {A}.
Arguments compound {A}. Arguments create {A}. Arguments modify {A}. Arguments after {A}. Arguments eval {A}. Arguments move {A}. Arguments drop {A}.
Arguments Do {A}. Arguments Assign {A}. Arguments MoveTo {A}. Arguments Swap {A}. Arguments finish {A}. Arguments perform {A}. Arguments perform_all {A}.
