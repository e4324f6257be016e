(** Specification of expressions in Python: without memory, variables stand for formulas. *)
From Coq Require Import ZArith Bool List.
From Verif Require Import Arf Arb Yap PyYap.
Import ListNotations.
Open Scope Z_scope.

Section Spec.
  Context {V : Type}.
  (** The formula that each variable stands for after the statements that were run;
      the garbage collector has no effect. *)
  Definition formulas := Z -> option (expr V).
  Definition assigned (env : formulas) (x : Z) (t : option (expr V)) : formulas := fun y => if y =? x then t else env y.
  Definition understand (env : formulas) (e : py_event V) : formulas :=
    match e with
    | Do (New x v) => assigned env x (Some (Const v))
    | Do (Binary x o y z) => match env y, env z with Some t, Some u => assigned env x (Some (Bin o t u)) | _, _ => env end
    | Do (Negate x y) => match env y with Some t => assigned env x (Some (Neg t)) | None => env end
    | Do (Alias x y) => match env y with Some t => assigned env x (Some t) | None => env end
    | Do (Del x) => assigned env x None
    | Release _ => env
    end.
  Definition formulas_after (es : list (py_event V)) : formulas := fold_left understand es (fun _ => None).
  Definition is_number (t : expr V) : Prop := match t with Const _ => True | _ => False end.
  (** Only results of operations are negated, not the numbers themselves. *)
  Fixpoint no_bare_negation (env : formulas) (es : list (py_event V)) : Prop :=
    match es with
    | [] => True
    | e :: es' =>
        match e with Do (Negate _ y) => match env y with Some t => ~ is_number t | None => True end | _ => True end /\
        no_bare_negation (understand env e) es'
    end.
End Spec.
