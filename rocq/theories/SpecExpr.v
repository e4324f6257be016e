(** Specification of programs with expressions, moves and swaps: variables are numbers.  Only the syntax of programs is used. *)
From Coq Require Import ZArith Bool List Reals.
From Verif Require Import Gen SpecGen Ring SpecRing Module Element SpecModule Store SpecStore Expr.
Import ListNotations.
Open Scope R_scope.

Section Spec.
  Context {A : ring} (S : semantics A).
  Definition meaning_of (op : binary) : R -> R -> R := match op with Plus => Rplus | Minus => Rminus | Times => Rmult end.
  (** The number that an expression stands for *)
  Fixpoint means (n : numbers) (e : expr A) : option ((Z -> R) -> R) :=
    match e with
    | EVar x => n x
    | ELit c => Some (fun rho => value S rho c)
    | ENeg e1 => option_map (fun u rho => - u rho) (means n e1)
    | EBin op e1 e2 => combine2 (meaning_of op) (means n e1) (means n e2)
    | EReal e1 g => option_map (fun u rho => u rho * gen_val rho g) (means n e1)
    | EMul e1 s => option_map (fun u rho => u rho * sval S s) (means n e1)
    | EDiv e1 s => option_map (fun u rho => u rho / sval S s) (means n e1)
    end.
  (** What a command does; an assignment that throws does nothing. *)
  Definition denote_command (n : numbers) (c : command A) (thrown : bool) : numbers :=
    match c with
    | Do st => denote S n st thrown
    | Assign z e => if thrown then n else put n z (means n e)
    | MoveTo z x => fun y => if Z.eqb y z then n x else if Z.eqb y x then None else n y
    | Swap x y => fun v => if Z.eqb v x then n y else if Z.eqb v y then n x else n v
    end.
  Fixpoint denote_commands (n : numbers) (prog : list (command A)) (thrown : list bool) : numbers :=
    match prog, thrown with
    | c :: prog', t :: thrown' => denote_commands (denote_command n c t) prog' thrown'
    | _, _ => n
    end.

  Fixpoint mentions (e : expr A) : list Z :=
    match e with
    | EVar x => [x]
    | ELit _ => []
    | ENeg e1 | EReal e1 _ | EMul e1 _ | EDiv e1 _ => mentions e1
    | EBin _ e1 e2 => mentions e1 ++ mentions e2
    end.
  Definition command_uses (c : command A) : list Z :=
    match c with
    | Do st => uses st
    | Assign _ e => mentions e
    | MoveTo _ x => [x]
    | Swap x y => [x; y]
    end.
  (** The variables that a command changes *)
  Definition targets (c : command A) : list Z :=
    match c with
    | Do st => [target st]
    | Assign z _ => [z]
    | MoveTo z x => [z; x]
    | Swap x y => [x; y]
    end.
  (** The variables that exist (and have not been moved from) after a command that may have thrown *)
  Definition exists_next (d : Z -> bool) (c : command A) (thrown : bool) : Z -> bool :=
    match c with
    | Do st => exists_after d st
    | Assign z _ => if thrown then d else fun y => if Z.eqb y z then true else d y
    | MoveTo z x => fun y => if Z.eqb y z then true else if Z.eqb y x then false else d y
    | Swap _ _ => d
    end.
  Fixpoint exists_finally (d : Z -> bool) (prog : list (command A)) (thrown : list bool) : Z -> bool :=
    match prog, thrown with
    | c :: prog', t :: thrown' => exists_finally (exists_next d c t) prog' thrown'
    | _, _ => d
    end.
  (** Programs that only use variables that exist, where the given commands throw. *)
  Fixpoint legal (d : Z -> bool) (prog : list (command A)) (thrown : list bool) : Prop :=
    match prog, thrown with
    | c :: prog', t :: thrown' => (forall x, In x (command_uses c) -> d x = true) /\ legal (exists_next d c t) prog' thrown'
    | _, _ => True
    end.
  Fixpoint expr_ok (e : expr A) : Prop :=
    match e with
    | EVar _ => True
    | ELit c => elem_wf S c
    | ENeg e1 => expr_ok e1
    | EBin _ e1 e2 => expr_ok e1 /\ expr_ok e2
    | EReal e1 g => expr_ok e1 /\ gen_wf g
    | EMul e1 s | EDiv e1 s => expr_ok e1 /\ forall p, smem S p s
    end.
  (** Elements and scalars are well-formed, as in SpecStore; variables have names that are not negative. *)
  Definition command_ok (c : command A) : Prop :=
    (forall x, In x (targets c ++ command_uses c) -> (0 <= x)%Z) /\
    match c with
    | Do st => statement_ok S st
    | Assign _ e => expr_ok e
    | _ => True
    end.
  (** Programs with standard elements and without scalars *)
  Fixpoint plain_expr (p : par A) (e : expr A) : Prop :=
    match e with
    | EVar _ => True
    | ELit c => standard S p c
    | ENeg e1 => plain_expr p e1
    | EBin _ e1 e2 => plain_expr p e1 /\ plain_expr p e2
    | EReal _ _ | EMul _ _ | EDiv _ _ => False
    end.
  Definition plain_command (p : par A) (c : command A) : Prop :=
    match c with
    | Do st => plain S p st
    | Assign _ e => plain_expr p e
    | _ => True
    end.
End Spec.
