(** Model of modules, src/module.cc.

    Modules are interned by the list of ids of their generators and their ring
    (src/module.cc:68-97, 113-120), so a module is represented by that data and
    == on pointers (128-132) is equality of the data; ModuleFactory.v has the objects. *)
From Coq Require Import ZArith QArith Qcanon Bool List.
From Verif Require Import Gen Ring.
Import ListNotations.
Open Scope Z_scope.

(** src/module.cc:116 std::sort by deglex.  Which sorting algorithm is used does not
    matter: see [sorted_unique] in ModuleProofs.v. *)
Fixpoint insert (g : gen) (l : list gen) : list gen :=
  match l with
  | [] => [g]
  | h :: l' => if deglex h g then h :: insert g l' else g :: l
  end.
Fixpoint gsort (l : list gen) : list gen :=
  match l with [] => [] | g :: l' => insert g (gsort l') end.

(** src/module.cc:47-58: at most one generator can be rational, generators must be distinct. *)
Fixpoint check (l : list gen) : bool :=
  match l with
  | [] => true
  | g :: l' => forallb (fun h => negb (is_rational g && is_rational h) && negb (gen_eqb g h)) l' && check l'
  end.

Fixpoint basis_eqb (l r : list gen) : bool :=
  match l, r with
  | [], [] => true
  | g :: l', h :: r' => gen_eqb g h && basis_eqb l' r'
  | _, _ => false
  end.

(** src/module.cc:177-185: find_if over the generators *)
Definition has_gen (l : list gen) (g : gen) : bool := existsb (fun h => gen_eqb g h) l.

Section Module.
  Variable A : ring.
  (** src/module.cc:65-66 *)
  Record module := mkModule { basis : list gen; mring : par A }.
  Definition rank (M : module) : nat := length (basis M).
  Definition module_eqb (M N : module) : bool := basis_eqb (basis M) (basis N) && par_eqb (mring M) (mring N).

  (** src/module.cc:114-120 Module::make(basis, ring).  A basis that does not pass the
      check never gets into the factory, so the check can be done here. *)
  Definition make (b : list gen) (p : par A) : result module :=
    let b' := gsort b in
    if check b' then Ok (mkModule b' p) else Err LogicError.

  (** src/module.cc:177-185 submodule: [M] is a submodule of [N] *)
  Definition submodule (M N : module) : bool := forallb (has_gen (basis N)) (basis M).

  (** src/module.cc:166-171: append the generators that are missing *)
  Fixpoint append_missing (b : list gen) (l : list gen) : list gen :=
    match l with
    | [] => b
    | g :: l' => append_missing (if has_gen b g then b else b ++ [g]) l'
    end.
  (** src/module.cc:158-173: the part of span for modules with the same parameters *)
  Definition span_same (M N : module) : result module :=
    if submodule N M then Ok M
    else if submodule M N then Ok N
    else make (append_missing (basis M) (basis N)) (mring M).
  (** src/module.cc:144-174 Module::span *)
  Definition span (M N : module) : result module :=
    match basis M, basis N with
    | [], _ => Ok N
    | _, [] => Ok M
    | _, _ =>
        if par_eqb (mring M) (mring N) then span_same M N
        else bind (compositum (mring M) (mring N)) (fun p =>
             bind (make (basis M) p) (fun M' =>
             bind (make (basis N) p) (fun N' => span_same M' N')))
    end.
End Module.
Arguments basis {A}. Arguments mring {A}. Arguments rank {A}. Arguments module_eqb {A}. Arguments make {A}.
Arguments submodule {A}. Arguments span_same {A}. Arguments span {A}. Arguments mkModule {A}.
