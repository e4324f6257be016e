(** Elements as C++ objects: src/element.cc, exact-real/element.hpp:687.

    An Element owns its implementation through spimpl::impl_ptr: copies of an Element copy the
    implementation, assigning to it destroys the implementation it had.  Operators take their right hand side by
    reference, so that x += x reads what it writes.  In this model variables contain addresses of
    implementations, and operators read and write implementations step by step; Element.v gives the results
    without memory.

    Simplifications: moved-from variables are not modelled here (see Expr.v); allocation does not fail. *)
From Coq Require Import ZArith QArith Qcanon Bool List.
From Verif Require Import Gen Ring Module Element.
Import ListNotations.
Open Scope Z_scope.

Section Store.
  Variable A : ring.
  (** The implementations (src/element.cc:55-84, parent and coefficients), and the impl_ptr of each variable. *)
  Record memory := mkMem { impls : nat -> option (elem A); next : nat; vars : Z -> option nat }.
  Definition empty_memory : memory := mkMem (fun _ => None) O (fun _ => None).

  (** spimpl::make_impl, delete *)
  Definition alloc (m : memory) (e : elem A) : memory * nat :=
    (mkMem (fun a => if Nat.eqb a (next m) then Some e else impls m a) (S (next m)) (vars m), next m).
  Definition free (m : memory) (a : nat) : memory :=
    mkMem (fun b => if Nat.eqb b a then None else impls m b) (next m) (vars m).
  (** Writing to an implementation *)
  Definition write (m : memory) (a : nat) (e : elem A) : memory :=
    mkMem (fun b => if Nat.eqb b a then Some e else impls m b) (next m) (vars m).
  (** x = e for a new value: the new implementation is made first, then the old one is destroyed (impl_ptr::operator=).
      This is also how a variable is defined. *)
  Definition assign (m : memory) (x : Z) (e : elem A) : memory :=
    let '(m1, a) := alloc m e in
    let m2 := match vars m x with Some old => free m1 old | None => m1 end in
    mkMem (impls m2) (next m2) (fun y => if y =? x then Some a else vars m2 y).

  (** An operator returns, or throws, or there is no such object ([None]). *)
  Definition outcome := option (memory * option exn).
  Definition fine (m : memory) : outcome := Some (m, None).
  Definition throws (m : memory) (e : exn) : outcome := Some (m, Some e).
  (** Dereferencing *)
  Definition deref (m : memory) (a : nat) (k : elem A -> outcome) : outcome := match impls m a with Some e => k e | None => None end.
  Definition this (m : memory) (x : Z) (k : nat -> elem A -> outcome) : outcome :=
    match vars m x with Some a => deref m a (k a) | None => None end.
  (** A temporary object lives until the end of the full expression. *)
  Definition temporary (m : memory) (e : elem A) (k : memory -> nat -> outcome) : outcome :=
    let '(m1, a) := alloc m e in
    match k m1 a with Some (m2, o) => Some (free m2 a, o) | None => None end.

  Fixpoint set_nth (l : list (car A)) (i : nat) (c : car A) : list (car A) :=
    match l, i with [], _ => [] | _ :: l', O => c :: l' | d :: l', S i' => d :: set_nth l' i' c end.
  (** src/element.cc:215-217: the loop of +=; both sides are read again in each step *)
  Fixpoint add_loop (m : memory) (a b : nat) (i n : nat) : outcome :=
    match n with
    | O => fine m
    | S n' => deref m a (fun x => deref m b (fun y =>
        add_loop (write m a (mkElem (emodule x) (set_nth (coeffs x) i (cadd (nth i (coeffs x) (czero A)) (nth i (coeffs y) (czero A)))))) a b (S i) n'))
    end.
  (** src/element.cc:855-897 promote *)
  Definition promote_to (m : memory) (x : Z) (M : module A) (k : memory -> outcome) : outcome :=
    this m x (fun _ e =>
      if module_eqb (emodule e) M then k m
      else match promote e M with Ok e' => k (assign m x e') | Err err => throws m err end).
  (** src/element.cc:210-220 operator+=, [b] is where the right hand side is.  The right operand of the inner +=
      is evaluated first (C++17). *)
  Definition add_to (m : memory) (x : Z) (b : nat) : outcome :=
    this m x (fun a l => deref m b (fun r =>
      if module_eqb (emodule l) (emodule r) then add_loop m a b 0 (rank (emodule l))
      else match span (emodule l) (emodule r) with
           | Err e => throws m e
           | Ok M => match promote r M with
                     | Err e => throws m e
                     | Ok r' => temporary m r' (fun m1 t => promote_to m1 x M (fun m2 => this m2 x (fun a' l' => add_loop m2 a' t 0 (rank (emodule l')))))
                     end
           end)).
  (** src/element.cc:223-225 operator-=, 275-282 *)
  Definition sub_to (m : memory) (x : Z) (b : nat) : outcome :=
    deref m b (fun r => temporary m (opp r) (fun m1 t => add_to m1 x t)).
  (** src/element.cc:238-266: both rings are the same; the assertion is checked after *this has been changed *)
  Definition mul_body (m : memory) (a b : nat) : outcome :=
    deref m a (fun l => deref m b (fun r =>
      match mul_rows (combine (basis (emodule l)) (coeffs l)) (combine (basis (emodule r)) (coeffs r)) [] with
      | Err e => throws m e
      | Ok products =>
          let sorted := sort_pairs products in
          match make (map fst sorted) (mring (emodule l)) with
          | Err e => throws m e
          | Ok M =>
              let m1 := write m a (mkElem M (coeffs l)) in
              let m2 := write m1 a (mkElem M (map snd sorted)) in
              if basis_eqb (basis M) (map fst sorted) then fine m2 else throws m2 AssertionFailed
          end
      end)).
  (** src/element.cc:228-267 operator*= *)
  Definition mul_to (m : memory) (x : Z) (b : nat) : outcome :=
    this m x (fun a l => deref m b (fun r =>
      if negb (nonzero l) then fine m
      else if negb (nonzero r) then fine (assign m x r)
      else if par_eqb (mring (emodule l)) (mring (emodule r)) then mul_body m a b
      else match compositum (mring (emodule l)) (mring (emodule r)) with
           | Err e => throws m e
           | Ok p =>
               match make (basis (emodule r)) p with
               | Err e => throws m e
               | Ok N => match promote r N with
                         | Err e => throws m e
                         | Ok r' => temporary m r' (fun m1 t =>
                             match make (basis (emodule l)) p with
                             | Err e => throws m1 e
                             | Ok M => promote_to m1 x M (fun m2 => this m2 x (fun a' _ => mul_body m2 a' t))
                             end)
                         end
               end
           end)).
  (** src/element.cc:270-272 operator*=(RealNumber) *)
  Definition mul_real_to (m : memory) (x : Z) (g : gen) : outcome :=
    this m x (fun _ l =>
      match make [g] (mring (emodule l)) with
      | Err e => throws m e
      | Ok M => match module_gen M 0 with Err e => throws m e | Ok r => temporary m r (fun m1 t => mul_to m1 x t) end
      end).
  (** src/element.cc:67-81, 285-415: scalars *)
  Definition scale_to (m : memory) (x : Z) (f : car A -> result (car A)) (left : car A -> car A) : outcome :=
    this m x (fun a l => let (cs, e) := scale f left (coeffs l) in Some (write m a (mkElem (emodule l) cs), e)).
  (** src/element.cc:900-918 simplify *)
  Definition simplify_to (m : memory) (x : Z) : outcome :=
    this m x (fun a l =>
      if forallb (fun c => negb (cz c)) (coeffs l) then fine m
      else
        let gens := map fst (filter (fun '(_, c) => negb (cz c)) (combine (basis (emodule l)) (coeffs l))) in
        if Nat.eqb (length gens) (rank (emodule l)) then fine m
        else match make gens (mring (emodule l)) with Err e => throws m e | Ok M => promote_to m x M fine end).

  (** Statements: Element x = e, x = y, x = -y, x += y, x -= y, x *= y, x *= real, x *= scalar, x /= scalar, x.simplify() and the end of
      the life of x *)
  Inductive statement :=
  | Define (x : Z) (e : elem A) | Copy (x y : Z) | Opposite (x y : Z) | AddTo (x y : Z) | SubTo (x y : Z) | MulTo (x y : Z)
  | MulReal (x : Z) (g : gen) | MulScalar (x : Z) (s : scalar (car A)) | DivScalar (x : Z) (s : scalar (car A)) | Simplify (x : Z) | Destroy (x : Z).
  Definition exec (m : memory) (st : statement) : outcome :=
    match st with
    | Define x e => fine (assign m x e)
    | Copy x y => this m y (fun _ e => fine (assign m x e))
    | Opposite x y => this m y (fun _ e => fine (assign m x (opp e)))
    | AddTo x y => this m y (fun b _ => add_to m x b)
    | SubTo x y => this m y (fun b _ => sub_to m x b)
    | MulTo x y => this m y (fun b _ => mul_to m x b)
    | MulReal x g => mul_real_to m x g
    | MulScalar x s => scale_to m x (fun c => imul c s) (fun c => imul_left c s)
    | DivScalar x s => scale_to m x (fun c => idiv c s) (fun c => idiv_left c s)
    | Simplify x => simplify_to m x
    | Destroy x => this m x (fun a _ => let m1 := free m a in fine (mkMem (impls m1) (next m1) (fun y => if y =? x then None else vars m1 y)))
    end.
  (** A program, with the exceptions that its statements have thrown (and that have been caught); in the order of the statements *)
  Fixpoint run (m : memory) (prog : list statement) : option (memory * list (option exn)) :=
    match prog with
    | [] => Some (m, [])
    | st :: prog' =>
        match exec m st with
        | None => None
        | Some (m1, o) => match run m1 prog' with Some (m2, os) => Some (m2, o :: os) | None => None end
        end
    end.
End Store.
Arguments mkMem {A}. Arguments impls {A}. Arguments next {A}. Arguments vars {A}. Arguments empty_memory {A}. Arguments alloc {A}. Arguments free {A}. Arguments write {A}. Arguments assign {A}.
Arguments fine {A}. Arguments throws {A}. Arguments deref {A}. Arguments this {A}. Arguments temporary {A}. Arguments set_nth {A}. Arguments add_loop {A}. Arguments promote_to {A}. Arguments add_to {A}.
Arguments sub_to {A}. Arguments mul_body {A}. Arguments mul_to {A}. Arguments mul_real_to {A}. Arguments scale_to {A}. Arguments simplify_to {A}. Arguments exec {A}. Arguments run {A}.
Arguments Define {A}. Arguments Copy {A}. Arguments Opposite {A}. Arguments AddTo {A}. Arguments SubTo {A}. Arguments MulTo {A}. Arguments MulReal {A}. Arguments MulScalar {A}. Arguments DivScalar {A}. Arguments Simplify {A}. Arguments Destroy {A}.
