(** Specification of expressions: their value, when all variables are read from the same memory. *)
From Coq Require Import ZArith Bool List Reals.
From Verif Require Import Arf Arb SpecArf Yap.
Import ListNotations.
Open Scope Z_scope.

Section Spec.
  Context {V : Type}.
  Variable neg : V -> V.
  Variable op : binop -> Z -> rnd -> V -> V -> V.
  (** Each operation uses the innermost precision and rounding in whose scope it is;
      [p], [rd] are the ones around the whole expression. [None]: not determined. *)
  Fixpoint meaning (m : Z -> V) (p : option Z) (rd : option rnd) (e : expr V) : option V :=
    match e with
    | Var x => Some (m x)
    | Const v => Some v
    | Neg e' => option_map neg (meaning m p rd e')
    | Bin o l r =>
        match p, rd, meaning m p rd l, meaning m p rd r with
        | Some p', Some rd', Some a, Some b => Some (op o p' rd' a b)
        | _, _, _, _ => None
        end
    | Prec e' q => meaning m (Some q) rd e'
    | Round e' q => meaning m p (Some q) e'
    end.
  (** All variables of the expression are below [free]. *)
  Fixpoint below (free : Z) (e : expr V) : Prop :=
    match e with
    | Var x => x < free
    | Const _ => True
    | Neg e' => below free e'
    | Bin _ l r => below free l /\ below free r
    | Prec e' _ => below free e'
    | Round e' _ => below free e'
    end.
End Spec.

(** The real number that an expression of balls stands for. *)
Fixpoint real_meaning (rho : Z -> R) (const : arb -> R) (e : expr arb) : R :=
  match e with
  | Var x => rho x
  | Const v => const v
  | Neg e' => - real_meaning rho const e'
  | Bin Plus l r => real_meaning rho const l + real_meaning rho const r
  | Bin Minus l r => real_meaning rho const l - real_meaning rho const r
  | Bin Times l r => real_meaning rho const l * real_meaning rho const r
  | Bin Divide l r => real_meaning rho const l / real_meaning rho const r
  | Prec e' _ => real_meaning rho const e'
  | Round e' _ => real_meaning rho const e'
  end%R.
(** All precisions in an expression are positive. *)
Fixpoint positive_precisions {V} (e : expr V) : Prop :=
  match e with
  | Var _ | Const _ => True
  | Neg e' => positive_precisions e'
  | Bin _ l r => positive_precisions l /\ positive_precisions r
  | Prec e' p => 0 < p /\ positive_precisions e'
  | Round e' _ => positive_precisions e'
  end.
(** The constants of an expression are balls around the numbers that they stand for. *)
Fixpoint constants_ok (const : arb -> R) (e : expr arb) : Prop :=
  match e with
  | Var _ => True
  | Const v => arb_wf v /\ contains v (const v)
  | Neg e' => constants_ok const e'
  | Bin _ l r => constants_ok const l /\ constants_ok const r
  | Prec e' _ => constants_ok const e'
  | Round e' _ => constants_ok const e'
  end.

(** An operation on real numbers whose result is rounded; [None]: not a number. *)
Definition real_op (o : binop) (round round_quotient : R -> R) (u v : R) : option R :=
  match o with
  | Plus => Some (round (u + v))
  | Minus => Some (round (u - v))
  | Times => Some (round (u * v))
  | Divide => if Req_EM_T v 0 then None else Some (round_quotient (u / v))
  end%R.
(** The number that an expression of floats stands for: all variables are read from the
    same memory, the result of each operation is rounded according to the innermost
    precision and rounding in whose scope it is (the precision ARF_PREC_EXACT asks for
    exact sums, differences, products).  [None]: not determined, [Some None]: division by zero. *)
Fixpoint rounded_meaning (rho : Z -> option R) (p : option Z) (rd : option rnd) (e : expr (option arf)) : option (option R) :=
  match e with
  | Var x => Some (rho x)
  | Const v => Some (option_map arf2R v)
  | Neg e' => option_map (option_map Ropp) (rounded_meaning rho p rd e')
  | Bin o l r =>
      match p, rd, rounded_meaning rho p rd l, rounded_meaning rho p rd r with
      | Some p', Some rd', Some a, Some b =>
          Some (match a, b with
                | Some u, Some v => real_op o (if p' =? ARF_PREC_EXACT then fun x => x else rounded p' rd') (rounded p' rd') u v
                | _, _ => None
                end)
      | _, _, _, _ => None
      end
  | Prec e' q => rounded_meaning rho (Some q) rd e'
  | Round e' q => rounded_meaning rho p (Some q) e'
  end.
