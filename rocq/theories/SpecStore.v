(** Specification of programs on elements: variables are numbers.  Only the syntax of programs is used. *)
From Coq Require Import ZArith Bool List Reals.
From Verif Require Import Gen SpecGen Ring SpecRing Module Element SpecModule Store.
Import ListNotations.
Open Scope R_scope.

Section Spec.
  Context {A : ring} (S : semantics A).
  (** The number that is in a variable, for all values of the random generators; None: no such variable, or not specified. *)
  Definition numbers := Z -> option ((Z -> R) -> R).
  Definition put (n : numbers) (x : Z) (v : option ((Z -> R) -> R)) : numbers := fun y => if Z.eqb y x then v else n y.
  Definition combine2 (f : R -> R -> R) (l r : option ((Z -> R) -> R)) : option ((Z -> R) -> R) :=
    match l, r with Some u, Some v => Some (fun rho => f (u rho) (v rho)) | _, _ => None end.
  (** What a statement that returns does; when it throws, all numbers stay what they are, only a scalar
      multiplication or division that throws leaves something unspecified behind. *)
  Definition denote (n : numbers) (st : statement A) (thrown : bool) : numbers :=
    match st with
    | Define x e => put n x (Some (fun rho => value S rho e))
    | Copy x y => put n x (n y)
    | Opposite x y => put n x (option_map (fun u rho => - u rho) (n y))
    | AddTo x y => if thrown then n else put n x (combine2 Rplus (n x) (n y))
    | SubTo x y => if thrown then n else put n x (combine2 Rminus (n x) (n y))
    | MulTo x y => if thrown then n else put n x (combine2 Rmult (n x) (n y))
    | MulReal x g => if thrown then n else put n x (option_map (fun u rho => u rho * gen_val rho g) (n x))
    | MulScalar x s => put n x (if thrown then None else option_map (fun u rho => u rho * sval S s) (n x))
    | DivScalar x s => put n x (if thrown then None else option_map (fun u rho => u rho / sval S s) (n x))
    | Simplify x => n
    | Destroy x => put n x None
    end.
  Fixpoint denotes (n : numbers) (prog : list (statement A)) (thrown : list bool) : numbers :=
    match prog, thrown with
    | st :: prog', t :: thrown' => denotes (denote n st t) prog' thrown'
    | _, _ => n
    end.

  (** The variables that exist after a statement, and programs that only use variables that exist. *)
  Definition exists_after (d : Z -> bool) (st : statement A) : Z -> bool :=
    match st with
    | Define x _ | Copy x _ | Opposite x _ => fun y => if Z.eqb y x then true else d y
    | Destroy x => fun y => if Z.eqb y x then false else d y
    | _ => d
    end.
  Definition uses (st : statement A) : list Z :=
    match st with
    | Define _ _ => []
    | Copy _ y | Opposite _ y => [y]
    | AddTo x y | SubTo x y | MulTo x y => [x; y]
    | MulReal x _ | MulScalar x _ | DivScalar x _ | Simplify x | Destroy x => [x]
    end.
  Fixpoint closed (d : Z -> bool) (prog : list (statement A)) : Prop :=
    match prog with
    | [] => True
    | st :: prog' => (forall x, In x (uses st) -> d x = true) /\ closed (exists_after d st) prog'
    end.
  (** Elements and generators in the program are well-formed, scalars are in all rings of coefficients (numbers). *)
  Definition statement_ok (st : statement A) : Prop :=
    match st with
    | Define _ e => elem_wf S e
    | MulReal _ g => gen_wf g
    | MulScalar _ s | DivScalar _ s => forall p, smem S p s
    | _ => True
    end.
  (** Statements without scalars whose elements are standard. *)
  Definition plain (p : par A) (st : statement A) : Prop :=
    match st with
    | Define _ e => standard S p e
    | Copy _ _ | Opposite _ _ | AddTo _ _ | SubTo _ _ | MulTo _ _ | Simplify _ | Destroy _ => True
    | MulReal _ _ | MulScalar _ _ | DivScalar _ _ => False
    end.
  (** The variable that a statement changes. *)
  Definition target (st : statement A) : Z :=
    match st with
    | Define x _ | Copy x _ | Opposite x _ | AddTo x _ | SubTo x _ | MulTo x _ | MulReal x _ | MulScalar x _ | DivScalar x _ | Simplify x | Destroy x => x
    end.
End Spec.
(** What is in a variable. *)
Definition holds {A} (m : memory A) (x : Z) (e : elem A) : Prop := exists a, vars m x = Some a /\ impls m a = Some e.
