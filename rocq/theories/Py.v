(** Model of the Python interface for SageMath, pyexactreal/src/pyexactreal/exact_reals.py
    and the wrappers of pyexactreal/src/pyexactreal/cppyy_exactreal.py: the ring
    ExactReals(base) and its elements.  SageMath's coercion (which makes sure that both
    operands of an operator have the same parent) is not modelled, the methods are. *)
From Coq Require Import ZArith QArith Qcanon Bool List Reals Qreals.
From Verif Require Import Arf Arb Gen Ring SpecRing Module Element Division Loops.
Import ListNotations.
Open Scope Z_scope.

(** What a Python method does: it returns or raises an exception.  [CppException] stands for
    the exceptions of C++ that cppyy passes on, NotRepresentableError is
    cppyy_exactreal.py:40-53. *)
Inductive py_exn := NotRepresentableError | PyTypeError | PyNotImplementedError | CppException (e : exn).
Inductive py (T : Type) := Returns (x : T) | Raises (e : py_exn).
Arguments Returns {T}. Arguments Raises {T}.
Definition of_cpp {T} (r : result T) : py T := match r with Ok x => Returns x | Err e => Raises (CppException e) end.
Definition py_bind {T U} (m : py T) (f : T -> py U) : py U := match m with Returns x => f x | Raises e => Raises e end.
(** [None]: it has not returned yet (the loops of C++ are given a number of rounds). *)
Definition py_then {T U} (m : option (py T)) (f : T -> option (py U)) : option (py U) :=
  match m with None => None | Some (Returns x) => f x | Some (Raises e) => Some (Raises e) end.

(** The operators of Python's comparisons (sage.structure.richcmp). *)
Inductive py_op := OpLt | OpLe | OpEq | OpNe | OpGt | OpGe.
(** sage.structure.richcmp.rich_to_bool(op, c) *)
Definition rich_to_bool (op : py_op) (c : comparison) : bool :=
  match op, c with
  | OpLt, Lt | OpLe, Lt | OpLe, Eq | OpEq, Eq | OpNe, Lt | OpNe, Gt | OpGt, Gt | OpGe, Gt | OpGe, Eq => true
  | _, _ => false
  end.

Section Py.
  Context {A : ring}.
  Local Notation elem := (elem A).

  (** exact_reals.py:164-178 _add_ (the operators of boost::additive through cppyy.hpp:71-76) *)
  Definition py_add (x y : elem) : py elem := of_cpp (add x y).
  (** exact_reals.py:180-194 _sub_ *)
  Definition py_sub (x y : elem) : py elem := of_cpp (sub x y).
  (** exact_reals.py:196-229 _mul_: the product is simplified *)
  Definition py_mul (x y : elem) : py elem := of_cpp (bind (mul x y) simplify).
  (** exact_reals.py:257-269 _neg_ *)
  Definition py_neg (x : elem) : py elem := Returns (opp x).
  (** exact_reals.py:231-255 _div_ with cppyy.hpp:77-84 truediv and cppyy_exactreal.py:105-113, 116-119:
      an empty optional raises NotRepresentableError *)
  Definition py_div (fuel : nat) (x y : elem) : option (py elem) :=
    match truediv fuel x y with
    | None => None
    | Some (Err e) => Some (Raises (CppException e))
    | Some (Ok None) => Some (Raises NotRepresentableError)
    | Some (Ok (Some z)) => Some (of_cpp (simplify z))
    end.

  (** exact_reals.py:883-909 rational(q): the generator of the module generated by q *)
  Definition py_rational (p : par A) (q : Qc) : py elem := of_cpp (bind (make [GRat q] p) (fun M => make_elem M [cone A])).
  (** exact_reals.py:834-881 random_element: the same for a random number (the number itself
      is modelled in Real.v, RandomIn.v) *)
  Definition py_random (p : par A) (g : gen) : py elem := of_cpp (bind (make [g] p) (fun M => make_elem M [cone A])).
  (** exact_reals.py:484-506 _lmul_, and 472-482 _rmul_, with an element of the base ring *)
  Definition py_lmul (c : car A) (x : elem) : py elem := of_cpp (smul x (SE c)).
  (** exact_reals.py:963-964: the coercion of elements of the base ring; zero() and one() are the images of 0 and 1 *)
  Definition py_coerce (p : par A) (c : car A) : py elem := py_bind (py_rational p 1%Qc) (py_lmul c).
  Definition py_zero (p : par A) : py elem := py_coerce p (czero A).
  Definition py_one (p : par A) : py elem := py_coerce p (cone A).

  (** exact_reals.py:271-287 __invert__; simplify() also changes the representation of self, not its value *)
  Definition py_invert (fuel : nat) (p : par A) (x : elem) : option (py elem) :=
    py_then (Some (py_one p)) (fun u => py_then (Some (of_cpp (simplify x))) (fun y => py_div fuel u y)).
  (** exact_reals.py:289-303 is_unit *)
  Definition py_is_unit (x : elem) : py bool := Returns (is_unit x).

  Section Balls.
    Variables (mag_up : arf -> arf) (garb : gen -> Z -> arb) (carb : car A -> Z -> arb) (rounds : nat).

    (** exact_reals.py:443-470 _richcmp_ *)
    Definition py_richcmp (op : py_op) (x y : elem) : option (py bool) :=
      match lt_elem mag_up garb carb rounds x y with
      | None => None
      | Some (Err e) => Some (Raises (CppException e))
      | Some (Ok true) => Some (Returns (rich_to_bool op Lt))
      | Some (Ok false) =>
          match equal x y with
          | Err e => Some (Raises (CppException e))
          | Ok true => Some (Returns (rich_to_bool op Eq))
          | Ok false => Some (Returns (rich_to_bool op Gt))
          end
      end.
    (** Comparison with the Python integer 0, which is coerced. *)
    Definition py_cmp_zero (op : py_op) (p : par A) (x : elem) : option (py bool) :=
      py_then (Some (py_zero p)) (fun z => py_richcmp op x z).

    (** exact_reals.py:336-363 divides *)
    Definition py_divides (fuel : nat) (p : par A) (x y : elem) : option (py bool) :=
      py_then (py_cmp_zero OpEq p x) (fun zero =>
        if zero then py_cmp_zero OpEq p y
        else match py_div fuel y x with
             | None => None
             | Some (Returns _) => Some (Returns true)
             | Some (Raises NotRepresentableError) => Some (Returns false)
             | Some (Raises e) => Some (Raises e)
             end).
    (** exact_reals.py:305-334 gcd *)
    Definition py_gcd (fuel : nat) (p : par A) (x y : elem) : option (py elem) :=
      py_then (py_divides fuel p x y) (fun d => if d then Some (Returns x) else
      py_then (py_divides fuel p y x) (fun d => if d then Some (Returns y) else Some (Raises PyNotImplementedError))).
    (** exact_reals.py:596-609 __abs__ *)
    Definition py_abs (p : par A) (x : elem) : option (py elem) :=
      py_then (py_cmp_zero OpGe p x) (fun b => Some (if b then Returns x else py_neg x)).
    (** exact_reals.py:365-380 _floordiv_, 382-395 floor, 397-410 ceil *)
    Definition py_floordiv (x y : elem) : option (py Z) := option_map of_cpp (floordiv mag_up garb carb rounds x y).
    Definition py_floor (x : elem) : option (py Z) := option_map Returns (elem_floor mag_up garb carb rounds x).
    Definition py_ceil (x : elem) : option (py Z) := option_map Returns (elem_ceil mag_up garb carb rounds x).
  End Balls.

  (** exact_reals.py:524-541 _integer_ and 543-560 _rational_ (cppyy.hpp:88-93) *)
  Definition py_integer (x : elem) : py Z := match to_integer x with Some n => Returns n | None => Raises PyTypeError end.
  Definition py_as_rational (x : elem) : py Qc := match to_rational x with Some q => Returns q | None => Raises PyTypeError end.
  (** exact_reals.py:562-594 _algebraic_.  The target, a field of algebraic numbers, is
      represented by the field of real numbers. *)
  Fixpoint algebraic_loop (S : semantics A) (M : module A) (i : Z) (cs : list (car A)) (ret : R) : py R :=
    match cs with
    | [] => Returns ret
    | c :: cs' =>
        if cz c then algebraic_loop S M (i + 1) cs' ret
        else py_bind (of_cpp (module_gen M i)) (fun g =>
             py_bind (py_as_rational g) (fun q => algebraic_loop S M (i + 1) cs' (ret + val S c * Q2R q)%R))
    end.
  Definition py_algebraic (S : semantics A) (x : elem) : py R := algebraic_loop S (emodule x) 0 (coeffs x) 0%R.
  (** exact_reals.py:611-667 is_square: [sq] is is_square of the base ring, [conv] the conversion to it, for which TypeError is caught *)
  Definition py_is_square {T} (conv : elem -> py T) (sq : T -> bool) (x : elem) : py bool :=
    match conv x with Returns v => Returns (sq v) | Raises PyTypeError => Raises PyNotImplementedError | Raises e => Raises e end.
End Py.
(** is_square of SageMath's integers (mpz_perfect_square_p) and rationals *)
Definition Z_is_square (n : Z) : bool := (0 <=? n) && (Z.sqrt n * Z.sqrt n =? n).
Definition Q_is_square (q : Qc) : bool := Z_is_square (qc_num q) && Z_is_square (qc_den q).
Definition py_is_square_ZZ (x : elem int_ring) : py bool := py_is_square py_integer Z_is_square x.
Definition py_is_square_QQ (x : elem rat_ring) : py bool := py_is_square py_as_rational Q_is_square x.
