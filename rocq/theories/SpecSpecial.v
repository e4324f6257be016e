(** Specification of floats and balls that may be infinite or not a number: the extended real line is Coquelicot's
    [Rbar], limits of sequences are Coquelicot's [is_lim_seq]. *)
From Coq Require Import ZArith Bool Reals.
From Flocq Require Import Core.
From Coquelicot Require Import Rbar Lim_seq.
From Verif Require Import Arf Arb SpecArf Double SpecDouble Text Special.
Open Scope R_scope.

(** The point of the extended real line; NaN has none. *)
Definition xvalue (x : xarf) : option Rbar :=
  match x with
  | Text.Finite a => Some (Rbar.Finite (arf2R a))
  | PosInf => Some p_infty
  | NegInf => Some m_infty
  | NaN => None
  end.

(** Whenever the operands tend to [u] and [v], the results tend to [w]. *)
Definition op_limit (op : R -> R -> R) (u v w : Rbar) : Prop :=
  forall s t, is_lim_seq s u -> is_lim_seq t v -> is_lim_seq (fun n => op (s n) (t n)) w.
(** The results may tend to two different limits. *)
Definition undetermined (op : R -> R -> R) (u v : Rbar) : Prop :=
  exists w w', w <> w' /\
    (exists s t, is_lim_seq s u /\ is_lim_seq t v /\ is_lim_seq (fun n => op (s n) (t n)) w) /\
    (exists s t, is_lim_seq s u /\ is_lim_seq t v /\ is_lim_seq (fun n => op (s n) (t n)) w').
Definition xrounded (prec : option Z) (md : rnd) (w : Rbar) : Rbar :=
  match w with
  | Rbar.Finite v => Rbar.Finite (match prec with Some p => rounded p md v | None => v end)
  | _ => w
  end.
(** [z] is the result of the operation on [x] and [y]: the limit, rounded; NaN if an operand is NaN
    or there is no limit. *)
Definition xresult (op : R -> R -> R) (prec : option Z) (md : rnd) (x y z : xarf) : Prop :=
  match xvalue x, xvalue y with
  | Some u, Some v =>
      match xvalue z with
      | Some w => exists w0, op_limit op u v w0 /\ w = xrounded prec md w0
      | None => undetermined op u v
      end
  | _, _ => xvalue z = None
  end.

(** Doubles that are the same number. *)
Definition same_double (d d' : xdouble) : Prop :=
  match d, d' with
  | DNumber (DFin a), DNumber (DFin b) => arf2R a = arf2R b
  | DNumber (DInf s), DNumber (DInf s') => s = s'
  | DNaN, DNaN => True
  | _, _ => False
  end.
(** An IEEE double. *)
Definition valid_double (d : xdouble) : Prop :=
  match d with DNumber (DFin a) => is_double (arf2R a) /\ Rabs (arf2R a) < bpow radix2 1024 | _ => True end.

(** * Balls *)
Definition defined (x : xarb) : Prop := xmid x <> NaN.
(** The points of a ball: all points if the midpoint is NaN or the radius infinite. *)
Definition xcontains (x : xarb) (p : Rbar) : Prop :=
  match xmid x, xrad x with
  | NaN, _ | _, None => True
  | Text.Finite m, Some r => exists v, p = Rbar.Finite v /\ Rabs (v - arf2R m) <= arf2R r
  | PosInf, Some _ => p = p_infty
  | NegInf, Some _ => p = m_infty
  end.
(** An answer that is [true] exactly if the relation holds for all pairs of points, and [false] exactly if it
    fails for all; there is no answer if a midpoint is NaN. *)
Definition xtri (Rel : Rbar -> Rbar -> Prop) (x y : xarb) (o : option bool) : Prop :=
  (o = Some true <-> defined x /\ defined y /\ forall p q, xcontains x p -> xcontains y q -> Rel p q) /\
  (o = Some false <-> defined x /\ defined y /\ forall p q, xcontains x p -> xcontains y q -> ~ Rel p q).
(** An answer about a rational that is right for all points of the ball. *)
Definition xsound (Rel : Rbar -> Rbar -> Prop) (x : xarb) (q : R) (o : option bool) : Prop :=
  (o = Some true -> forall p, xcontains x p -> Rel p (Rbar.Finite q)) /\
  (o = Some false -> forall p, xcontains x p -> ~ Rel p (Rbar.Finite q)).
