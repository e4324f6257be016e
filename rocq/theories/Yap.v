(** Model of the evaluation of expressions of Arf and Arb, exact-real/yap/.

    Evaluating an expression writes to memory: the assigned variable and temporaries;
    the model makes all these writes explicit so that expressions which mention the
    variable that is being assigned can be studied.

    Simplification: expression templates are trees here; whether an operator is
    available for given types of operands is decided by the compiler and not modelled,
    nor are operands that are moved (they are temporaries that belong to the
    expression). *)
From Coq Require Import ZArith Bool List.
From Verif Require Import Arf Arb.
Import ListNotations.
Open Scope Z_scope.

Inductive binop := Plus | Minus | Times | Divide.

Section Yap.
  (** Values; [zero] is the value of a new variable.  [op] evaluates an operation with
      precision and rounding (Arb ignores the latter). *)
  Variable V : Type.
  Variable zero : V.
  Variable neg : V -> V.
  Variable op : binop -> Z -> rnd -> V -> V -> V.

  (** yap/arf_expr.hpp:30-66, yap/arb_expr.hpp:28-56: terminals are references to variables
      or constants that have been converted, [Prec e p] is e(p), [Round e r] is e(r). *)
  Inductive expr :=
  | Var (x : Z)
  | Const (v : V)
  | Neg (e : expr)
  | Bin (o : binop) (l r : expr)
  | Prec (e : expr) (p : Z)
  | Round (e : expr) (r : rnd).

  Definition memory := Z -> V.
  Definition write (m : memory) (x : Z) (v : V) : memory := fun y => if y =? x then v else m y.
  (** The parameters that are bound, yap/arf_assign_transformation.hpp:36-43. *)
  Definition params := (option Z * option rnd)%type.
  Definition unbound : params := (None, None).

  (** yap/assign_transformation.hpp:31-60, yap/arf_assign_transformation.hpp:45-101,
      yap/arb_assign_transformation.hpp:40-97: evaluate an expression into the variable
      [dst]; [free] is the address of the next temporary.  [None]: does not compile
      because precision or rounding are not bound (79-86). *)
  Fixpoint transform (m : memory) (free : Z) (dst : Z) (c : params) (e : expr) : option memory :=
    match e with
    | Var x => Some (write m dst (m x))
    | Const v => Some (write m dst v)
    | Neg e' =>
        match transform m free dst c e' with
        | None => None
        | Some m1 => Some (write m1 dst (neg (m1 dst)))
        end
    | Bin o l r =>
        (* assign_transformation.hpp:55: a temporary for the right hand side *)
        match transform (write m free zero) (free + 1) free c r with
        | None => None
        | Some m1 =>
            (* assign_transformation.hpp:56 *)
            match transform m1 (free + 1) dst c l with
            | None => None
            | Some m2 =>
                (* assign_transformation.hpp:57 *)
                match c with
                | (Some p, Some rd) => Some (write m2 dst (op o p rd (m2 dst) (m2 free)))
                | _ => None
                end
            end
        end
    | Prec e' p => transform m free dst (Some p, snd c) e'
    | Round e' rd => transform m free dst (fst c, Some rd) e'
    end.

  (** yap/arf.hpp:76-79, yap/arb.hpp:70-73: x = e *)
  Definition assign (m : memory) (free x : Z) (e : expr) : option memory := transform m free x unbound e.

  (** yap/params_transformation.hpp:28-52 *)
  Fixpoint bound_prec (e : expr) : option Z :=
    match e with Prec _ p => Some p | Round e' _ => bound_prec e' | _ => None end.
  Fixpoint bound_round (e : expr) : option rnd :=
    match e with Round _ rd => Some rd | Prec e' _ => bound_round e' | _ => None end.
  (** yap/arf.hpp:81-101, yap/arb.hpp:75-88: x op= e *)
  Definition inplace (m : memory) (free x : Z) (o : binop) (e : expr) : option memory :=
    match bound_prec e, bound_round e with
    | Some p, Some rd => transform m free x unbound (Round (Prec (Bin o (Var x) e) p) rd)
    | _, _ => None
    end.
End Yap.
Arguments Var {V}. Arguments Const {V}. Arguments Neg {V}. Arguments Bin {V}. Arguments Prec {V}. Arguments Round {V}.
Arguments transform {V}. Arguments assign {V}. Arguments inplace {V}. Arguments bound_prec {V}. Arguments bound_round {V}. Arguments write {V}.

(** Arf: [None] is NaN or infinite (simplification: these are not distinguished).
    yap/arf_assign_transformation.hpp:64-101 *)
Definition arf_v_neg (a : option arf) : option arf := option_map arf_neg a.
Definition arf_v_op (o : binop) (p : Z) (rd : rnd) (a b : option arf) : option arf :=
  match a, b with
  | Some a, Some b =>
      match o with
      | Plus => Some (if p =? ARF_PREC_EXACT then arf_add_exact a b else arf_add p rd a b)
      | Minus => Some (if p =? ARF_PREC_EXACT then arf_sub_exact a b else arf_sub p rd a b)
      | Times => Some (if p =? ARF_PREC_EXACT then arf_mul_exact a b else arf_mul p rd a b)
      | Divide => arf_div p rd a b
      end
  | _, _ => None
  end.
(** Arb: yap/arb_assign_transformation.hpp:45-71; there is no rounding mode. *)
Definition arb_v_op (mag_up : arf -> arf) (o : binop) (p : Z) (rd : rnd) (a b : arb) : arb :=
  let p' := if p =? ARF_PREC_EXACT then None else Some p in
  match o with
  | Plus => arb_add mag_up p' a b
  | Minus => arb_sub mag_up p' a b
  | Times => arb_mul mag_up p' a b
  | Divide => arb_div mag_up p a b
  end.
(** Expressions of Arb are evaluated with a rounding mode that is not used. *)
Definition arf_assign := assign (Some arf_zero) arf_v_neg arf_v_op.
Definition arf_inplace := inplace (Some arf_zero) arf_v_neg arf_v_op.
Definition arb_assign (mag_up : arf -> arf) (m : Z -> arb) (free x : Z) (e : expr arb) : option (Z -> arb) :=
  transform (arb_of_arf arf_zero) arb_neg (arb_v_op mag_up) m free x (None, Some NEAR) e.
Definition arb_inplace (mag_up : arf -> arf) (m : Z -> arb) (free x : Z) (o : binop) (e : expr arb) : option (Z -> arb) :=
  inplace (arb_of_arf arf_zero) arb_neg (arb_v_op mag_up) m free x o (Round e NEAR).
