(** The same programs, on real numbers. *)
From Coq Require Import ZArith List Reals.
From Verif Require Import PyBall.
Import ListNotations.
Open Scope R_scope.

Definition holds (r : relation) : R -> R -> Prop :=
  match r with Lt => Rlt | Le => Rle | Eq => @eq R | Ne => fun p q => p <> q | Gt => Rgt | Ge => Rge end.
(** The real number that an operand is. *)
Definition denotes (env : list R) (u : operand) (v : R) : Prop :=
  match u with Var i => nth_error env i = Some v | Int n => v = IZR n | Rat n d => v = IZR n / IZR (Zpos d) end.
Definition exactly (o : operation) (x y : R) : R :=
  match o with Plus => x + y | Minus => x - y | Times => x * y | Divide => x / y | Negate => - x end.
Inductive on_reals : list R -> program -> Z -> Prop :=
| reals_return env a : on_reals env (Return a) a
| reals_constant env n p a : on_reals (env ++ [IZR n]) p a -> on_reals env (Constant n p) a
| reals_apply env o prec i j x y p a : nth_error env i = Some x -> nth_error env j = Some y ->
    on_reals (env ++ [exactly o x y]) p a -> on_reals env (Apply o prec i j p) a
| reals_yes env r u v x y p q a : denotes env u x -> denotes env v y -> holds r x y -> on_reals env p a -> on_reals env (Compare r u v p q) a
| reals_no env r u v x y p q a : denotes env u x -> denotes env v y -> ~ holds r x y -> on_reals env q a -> on_reals env (Compare r u v p q) a.
(** Programs without the comparison != of a ball with a rational, which is wrong (C56). *)
CoInductive without_ne : program -> Prop :=
| wn_return a : without_ne (Return a)
| wn_constant n p : without_ne p -> without_ne (Constant n p)
| wn_apply o prec i j p : without_ne p -> without_ne (Apply o prec i j p)
| wn_compare r u v p q : (forall n d, v = Rat n d -> r <> Ne) -> without_ne p -> without_ne q -> without_ne (Compare r u v p q).
