(** Programs that compute with balls in Python: pyexactreal/cppyy_exactreal.py:55-72, 179-196 (comparisons raise
    PrecisionError when they cannot be decided) and the arithmetic with a precision, (x + y)(prec).

    Simplifications: the operands of arithmetic are balls; in comparisons also integers on either side (Python calls
    the reflected method of the ball if the left operand is an integer) and rationals on the right.  Programs are trees
    that may be infinite (loops), of which a run follows one branch. *)
From Coq Require Import ZArith List Bool.
From Verif Require Import Arf Arb.
Import ListNotations.

Inductive relation := Lt | Le | Eq | Ne | Gt | Ge.
Inductive operand := Var (i : nat) | Int (n : Z) | Rat (n : Z) (d : positive).
Inductive operation := Plus | Minus | Times | Divide | Negate.
(** Statements of a program on numbers x0, x1, ...: a new number is the last one of the list. *)
CoInductive program :=
| Return (a : Z)
| Constant (n : Z) (rest : program)                              (* exactreal.Arb(n) *)
| Apply (o : operation) (prec : positive) (i j : nat) (rest : program)  (* (xi + xj)(prec), ...; -xi *)
| Compare (r : relation) (u v : operand) (yes no : program).     (* if u < v: ... else: ... *)

(** What a run ends with. *)
Inductive outcome := Returned (a : Z) | PrecisionError.

Section Mag.
  Variable mag_up : arf -> arf.
  (** src/arb.cc:177-252 the operators of the C++ class *)
  Definition cpp_relation (r : relation) (x y : arb) : option bool :=
    match r with Lt => op_lt x y | Le => op_le x y | Eq => op_eq x y | Ne => op_ne x y | Gt => op_gt x y | Ge => op_ge x y end.
  (** src/arb.cc:254-282 *)
  Definition cpp_relation_q (r : relation) (x : arb) (n : Z) (d : positive) : option bool :=
    match r with
    | Lt => opq_lt mag_up x n (Zpos d) | Le => opq_le mag_up x n (Zpos d) | Eq => opq_eq mag_up x n (Zpos d)
    | Ne => opq_ne mag_up x n (Zpos d) | Gt => opq_gt mag_up x n (Zpos d) | Ge => opq_ge mag_up x n (Zpos d)
    end.
  (** Python's data model: the method that is called if the left operand does not know the right one *)
  Definition reflected (r : relation) : relation := match r with Lt => Gt | Le => Ge | Eq => Eq | Ne => Ne | Gt => Lt | Ge => Le end.
  (** cppyy_exactreal.py:181-193 relation, unwrap_logical_optional: [None] is PrecisionError.  The outer [None]: a
      TypeError, or a comparison without balls, which is not modelled. *)
  Definition relate (env : list arb) (r : relation) (u v : operand) : option (option bool) :=
    match u, v with
    | Var i, Var j => match nth_error env i, nth_error env j with Some x, Some y => Some (cpp_relation r x y) | _, _ => None end
    | Var i, Int n => option_map (fun x => cpp_relation r x (arb_of_Z n)) (nth_error env i)
    | Int n, Var j => option_map (fun y => cpp_relation (reflected r) y (arb_of_Z n)) (nth_error env j)
    | Var i, Rat n d => option_map (fun x => cpp_relation_q r x n d) (nth_error env i)
    | _, _ => None
    end.
  (** cppyy.hpp:51-61, 71-86; yap/arb_assign_transformation.hpp *)
  Definition apply (o : operation) (prec : positive) (x y : arb) : arb :=
    match o with
    | Plus => arb_add mag_up (Some (Zpos prec)) x y | Minus => arb_sub mag_up (Some (Zpos prec)) x y | Times => arb_mul mag_up (Some (Zpos prec)) x y
    | Divide => arb_div mag_up (Zpos prec) x y | Negate => arb_neg x
    end.
  Inductive on_balls : list arb -> program -> outcome -> Prop :=
  | balls_return env a : on_balls env (Return a) (Returned a)
  | balls_constant env n p o : on_balls (env ++ [arb_of_Z n]) p o -> on_balls env (Constant n p) o
  | balls_apply env op prec i j x y p o : nth_error env i = Some x -> nth_error env j = Some y ->
      on_balls (env ++ [apply op prec x y]) p o -> on_balls env (Apply op prec i j p) o
  | balls_compare env r u v b p q o : relate env r u v = Some (Some b) -> on_balls env (if b then p else q) o -> on_balls env (Compare r u v p q) o
  | balls_undecided env r u v p q : relate env r u v = Some None -> on_balls env (Compare r u v p q) PrecisionError.
End Mag.
