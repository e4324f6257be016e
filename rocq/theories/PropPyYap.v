(** Property C94: Python expressions of Arf and Arb never read memory that the garbage collector has
    released, and evaluate to what the formulas say, whatever the collector does in between; negatives of
    numbers are an exception. *)
From Coq Require Import ZArith Bool List Reals Lia.
From Verif Require Import Arf Arb SpecArf ArfProofs ArbProofs Yap SpecYap YapProofs PyYap SpecPyYap PyYapProofs.
Import ListNotations.
Open Scope Z_scope.

(** The collector may run at any time between the statements, and release objects that are not reachable in any order:
    the value of an expression is the one of the formula that has been written down. *)
Theorem C94_collector : forall V (zero : V) neg op es s x t p rd m,
  history es s -> no_bare_negation (fun _ => None) es -> formulas_after es x = Some t -> ~ is_number t ->
  py_call zero neg op s x p rd = meaning neg op m (Some p) (Some rd) t /\ py_call zero neg op s x p rd <> None.
Proof.
  intros V zero neg op es s x t p rd m H B F N.
  rewrite (call_spec zero neg op s (formulas_after es) x t p rd (history_ok es s H B) F N m).
  split; [reflexivity|]. destruct (meaning_total neg op t m p rd) as [w ->]. discriminate.
Qed.

(** Variables that have not been assigned, or have been deleted, cannot be used; others are there. *)
Theorem C94_variables : forall V es (s : pystate V) x,
  history es s -> no_bare_negation (fun _ => None) es ->
  (vars s x = None <-> formulas_after es x = None) /\
  (forall a, vars s x = Some a -> heap s a <> None) /\
  (forall v, formulas_after es x = Some (Const v) -> exists a, vars s x = Some a /\ heap s a = Some (PNum v)).
Proof.
  intros V es s x H B. destruct (history_ok es s H B) as [_ K]. specialize (K x).
  destruct (formulas_after es x) as [t|] eqn:F, (vars s x) as [a|]; try contradiction.
  - split; [split; discriminate|]. split.
    + intros b E. assert (b = a) as -> by congruence. destruct K as [(v & -> & _)|(v & l & -> & _)]; discriminate.
    + intros v E. exists a. split; [reflexivity|]. destruct K as [(w & -> & E')|(w & l & _ & N & _)].
      * congruence.
      * exfalso. apply N. assert (t = Const v) as -> by congruence. exact Logic.I.
  - split; [split; reflexivity|]. split; discriminate.
Qed.

(** Arb: the result contains the value of the formula. *)
Theorem C94_balls : forall mag_up, mag_up_ok mag_up -> forall es (s : pystate arb) const x t p rd,
  history es s -> no_bare_negation (fun _ => None) es -> formulas_after es x = Some t -> ~ is_number t ->
  constants_ok const t -> positive_precisions t -> 0 < p ->
  exists r, py_call (arb_of_arf arf_zero) arb_neg (arb_v_op mag_up) s x p rd = Some r /\ arb_wf r /\ contains r (real_meaning (fun _ => 0%R) const t).
Proof.
  intros mag_up ok es s const x t p rd H B F N K P Pp.
  destruct (C94_collector arb (arb_of_arf arf_zero) arb_neg (arb_v_op mag_up) es s x t p rd (fun _ => arb_of_arf arf_zero) H B F N) as [E D].
  destruct (py_call (arb_of_arf arf_zero) arb_neg (arb_v_op mag_up) s x p rd) as [r|]; [|congruence]. exists r. split; [reflexivity|].
  apply (meaning_encloses mag_up ok const t (fun _ => arb_of_arf arf_zero) (fun _ => 0%R) (Some p) (Some rd)); try assumption; [|symmetry; exact E].
  intros _. split; [apply arb_of_arf_wf|]. apply arb_of_arf_contains_iff. unfold arf2R, arf_zero. cbn. symmetry. apply Rmult_0_l.
Qed.

(** Arf: the result is the value of the formula, all operations of which are rounded. *)
Theorem C94_floats : forall es (s : pystate (option arf)) x t p rd,
  history es s -> no_bare_negation (fun _ => None) es -> formulas_after es x = Some t -> ~ is_number t ->
  positive_precisions t -> 0 < p ->
  option_map (option_map arf2R) (py_call (Some arf_zero) arf_v_neg arf_v_op s x p rd) = rounded_meaning (fun _ => None) (Some p) (Some rd) t.
Proof.
  intros es s x t p rd H B F N P Pp.
  destruct (C94_collector (option arf) (Some arf_zero) arf_v_neg arf_v_op es s x t p rd (fun _ => None) H B F N) as [-> _].
  apply (arf_meaning_rounded t (fun _ => None) (Some p) (Some rd) P Pp).
Qed.

(** Unary minus of a number keeps no lifelines: a = Arb(1); b = Arb(2); c = -a; d = b + c; del a; del c, then
    the collector releases a, and d(64) reads it. *)
Definition dangling : list (py_event arb) :=
  [Do (New 0 (arb_of_Z 1)); Do (New 1 (arb_of_Z 2)); Do (Negate 2 0); Do (Binary 3 Plus 1 2); Do (Del 0); Do (Del 2); Release 0%nat].

Theorem C94_negation_refuted : exists s, history dangling s /\ formulas_after dangling 3 = Some (Bin Plus (Const (arb_of_Z 2)) (Neg (Const (arb_of_Z 1)))) /\
  forall mag_up p rd, py_call (arb_of_arf arf_zero) arb_neg (arb_v_op mag_up) s 3 p rd = None.
Proof.
  eexists. split; [|split; [reflexivity|]].
  - change dangling with ((((((([] ++ [Do (New 0 (arb_of_Z 1))]) ++ [Do (New 1 (arb_of_Z 2))]) ++ [Do (Negate 2 0)]) ++ [Do (Binary 3 Plus 1 2)]) ++ [Do (Del 0)]) ++ [Do (Del 2)]) ++ [Release (V := arb) 0%nat]).
    apply history_release; [repeat apply history_do; apply history_start|].
    intros (x & b & Hx & R). 
    assert (Inv : forall c d, reaches (heap (fold_left py_exec [New 0 (arb_of_Z 1); New 1 (arb_of_Z 2); Negate 2 0; Binary 3 Plus 1 2; Del 0; Del 2] py_start)) c d -> c <> 0%nat -> d <> 0%nat).
    { clear. induction 1 as [c|c o d e Hc Hd _ IH]; [auto|]. intros C0. apply IH. intros ->.
      do 11 (destruct c as [|c]; [vm_compute in Hc; first [discriminate Hc|injection Hc as <-; cbn in Hd; intuition congruence]|]).
      vm_compute in Hc. discriminate Hc. }
    apply (Inv b 0%nat R); [|reflexivity].
    assert (K : vars (fold_left py_exec [New 0 (arb_of_Z 1); New 1 (arb_of_Z 2); Negate 2 0; Binary 3 Plus 1 2; Del 0; Del 2] py_start) x = Some b) by exact Hx.
    cbn [fold_left] in K. intros ->. destruct x as [|x|x]; [discriminate K| |discriminate K].
    destruct x as [[x|x|]|[x|x|]|]; discriminate K.
  - intros mag_up p rd. reflexivity.
Qed.

(** x = Arb(3); y = x + x; x = y*x; y = -x; the collector releases the intermediate objects; y(64) = -18 *)
Definition careful : list (py_event arb) :=
  [Do (New 0 (arb_of_Z 3)); Do (Binary 1 Plus 0 0); Do (Binary 0 Times 1 0); Do (Negate 1 0); Do (Del 0)].
Example C94_example : exists s, history careful s /\ no_bare_negation (fun _ => None) careful /\
  formulas_after careful 1 = Some (Neg (Bin Times (Bin Plus (Const (arb_of_Z 3)) (Const (arb_of_Z 3))) (Const (arb_of_Z 3)))) /\
  match py_call (arb_of_arf arf_zero) arb_neg (arb_v_op (fun r => r)) s 1 64 NEAR with Some r => arf_eqb (mid r) (arf_of_Z (-18)) = true | None => False end.
Proof.
  eexists. split; [|split; [|split; [reflexivity|]]].
  - change careful with (((((([] ++ [Do (New 0 (arb_of_Z 3))]) ++ [Do (Binary 1 Plus 0 0)]) ++ [Do (Binary 0 Times 1 0)]) ++ [Do (Negate 1 0)]) ++ [Do (Del (V := arb) 0)])).
    repeat apply history_do. apply history_start.
  - cbn. tauto.
  - vm_compute. reflexivity.
Qed.
