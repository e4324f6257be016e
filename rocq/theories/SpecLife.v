(** The life of floats and balls: what the values of the variables are, without any memory.
    A value is the list of its words; a variable that does not exist has no value. *)
From Coq Require Import ZArith List Bool.
From Verif Require Import Life.
Import ListNotations.

Definition env := nat -> option (list Z).
Definition put (e : env) (x : nat) (v : option (list Z)) : env := fun y => if Nat.eqb y x then v else e y.
Definition value_of (e : env) (x : nat) : list Z := match e x with Some v => v | None => [] end.
Definition zero (n : nat) : list Z := repeat 0%Z n.
Definition words (n : nat) (f : nat -> Z) : list Z := map f (seq 0 n).

(** Copies are independent of their original, moving out of a variable in a declaration leaves zero there, moving
    in an assignment exchanges the values, and a mpz_class z has its number as its first word. *)
Definition means (e : env) (s : statement) : env :=
  match s with
  | Default x n => put e x (Some (zero n))
  | New x n f ys => put e x (Some (words n (f (map (value_of e) ys))))
  | NewCopy x y => put e x (Some (value_of e y))
  | NewMoveArf x y | NewMoveArb x y => put (put e x (Some (value_of e y))) y (Some (zero (length (value_of e y))))
  | NewMpz x n f z => put e x (Some (words n (f (nth 0 (value_of e z) 0%Z))))
  | Compute x f ys => put e x (Some (words (length (value_of e x)) (f (map (value_of e) ys))))
  | Assign x y => put e x (Some (value_of e y))
  | AssignMpz x f z => put e x (Some (words (length (value_of e x)) (f (nth 0 (value_of e z) 0%Z))))
  | MoveAssign x y | Swap x y => put (put e x (Some (value_of e y))) y (Some (value_of e x))
  | Destroy x => put e x None
  end.
(** Programs that the C++ compiler accepts: variables are declared once, before they are used, and not used after their
    scope; both sides of an assignment have the same type; z is an mpz_class. *)
Definition lives (e : env) (x : nat) : Prop := e x <> None.
Definition allowed (e : env) (s : statement) : Prop :=
  match s with
  | Default x n => ~ lives e x
  | New x n f ys => ~ lives e x /\ (forall y, In y ys -> lives e y)
  | NewCopy x y | NewMoveArf x y | NewMoveArb x y => ~ lives e x /\ lives e y
  | NewMpz x n f z => ~ lives e x /\ lives e z /\ value_of e z <> []
  | Compute x f ys => lives e x /\ (forall y, In y ys -> lives e y)
  | Assign x y | MoveAssign x y | Swap x y => lives e x /\ lives e y /\ length (value_of e x) = length (value_of e y)
  | AssignMpz x f z => lives e x /\ lives e z /\ value_of e z <> []
  | Destroy x => lives e x
  end.
Fixpoint accepted (e : env) (prog : list statement) : Prop :=
  match prog with [] => True | s :: prog' => allowed e s /\ accepted (means e s) prog' end.
Definition meaning (prog : list statement) : env := fold_left means prog (fun _ => None).
(** The words of a variable that point into memory. *)
Definition points (m : mem) (x i a : nat) : Prop := exists ws, vars m x = Some ws /\ nth_error ws i = Some (Ptr a).
