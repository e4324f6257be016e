(** Specification for Threads.v *)
From Coq Require Import ZArith QArith List.
From Verif Require Import Arf Arb Real Shared SpecShared SpecSharedMany Gen Threads.
Import ListNotations.

(** [f x prec] is what x.arf(prec) returns when nothing else goes on. *)
Definition arf_of (rng : Z -> nat -> bool) (f : rnum -> Z -> arf) : Prop :=
  forall x prec, exists fuel, num_arf rng fuel x prec = Some (f x prec).
(** What a program returns, and the calls of arf that it makes, when nothing else goes on *)
Fixpoint alone {R} (f : rnum -> Z -> arf) (c : client R) : R :=
  match c with Done r => r | Want x prec k => alone f (k (f x prec)) end.
Fixpoint calls_of {R} (f : rnum -> Z -> arf) (c : client R) : list (rnum * Z) :=
  match c with Done _ => [] | Want x prec k => (x, prec) :: calls_of f (k (f x prec)) end.
(** All programs together approximate no number at 128 or more precisions, other than 54 and 64. *)
Definition few_calls {R} (f : rnum -> Z -> arf) (jobs : nat -> client R) : Prop :=
  forall y, exists precs, (length precs < 128)%nat /\ forall p, concerned (fun x prec => exists t, In (x, prec) (calls_of f (jobs t))) y p -> p = 54%Z \/ p = 64%Z \/ In p precs.
(** The ball of a generator, when nothing else goes on *)
Definition ball_of (f : rnum -> Z -> arf) (number_of : gen -> rnum) (g : gen) (prec : Z) : arb :=
  if (prec <=? rel_accuracy_bits arb_zero_pm_inf)%Z then arb_zero_pm_inf else refine_ball (f (number_of g) prec) prec.
(** That many steps are enough for a program: for each call of arf one to make it, and those in SpecSharedMany.v. *)
Definition steps_enough {R} (f : rnum -> Z -> arf) (c : client R) : nat :=
  fold_right (fun r n => (S (enough (fst r)) + n)%nat) O (calls_of f c).
