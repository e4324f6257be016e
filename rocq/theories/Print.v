(** Model of printing elements, src/element.cc:921-967.

    The text is a list of tokens; PrintText.v has the characters.  Comparisons of elements are the ones of Loops.v: [None] means that the
    rounds did not suffice. *)
From Coq Require Import ZArith QArith Qcanon Bool List.
From Verif Require Import Arf Arb Real Gen Ring Module Element Loops.
Import ListNotations.
Open Scope Z_scope.

Inductive token (C : Type) :=
| TPlus            (* " + " *)
| TMinus           (* " - " *)
| TNeg             (* "-" *)
| TTimes           (* "*" *)
| TZero            (* "0" *)
| TCoeff (c : C)   (* out << c *)
| TGen (g : gen).  (* out << *g *)
Arguments TPlus {C}. Arguments TMinus {C}. Arguments TNeg {C}. Arguments TTimes {C}. Arguments TZero {C}. Arguments TCoeff {C}. Arguments TGen {C}.

(** Computations that may not return, or throw. *)
Definition andthen {T U} (x : option (result T)) (f : T -> option (result U)) : option (result U) :=
  match x with Some (Ok a) => f a | Some (Err e) => Some (Err e) | None => None end.

Section Print.
  Context {A : ring}.
  Local Notation elem := (elem A).
  Variable mag_up : arf -> arf.
  Variable garb : gen -> Z -> arb.
  Variable carb : car A -> Z -> arb.
  (** operator< of ElementClass (GMP, e-antic) *)
  Variable cltb : car A -> car A -> bool.

  (** src/element.cc:925 std::tuple<bool, Element<Ring>, ElementClass> *)
  Definition term : Type := bool * elem * car A.
  (** operator< of std::tuple: lexicographic, using only operator< of the entries. *)
  Definition term_lt (rounds : nat) (t u : term) : option (result bool) :=
    let '(b, g, c) := t in let '(b', g', c') := u in
    if negb b && b' then Some (Ok true)
    else if b && negb b' then Some (Ok false)
    else andthen (lt_elem mag_up garb carb rounds g g') (fun l =>
         if l then Some (Ok true)
         else andthen (lt_elem mag_up garb carb rounds g' g) (fun r => Some (Ok (if r then false else cltb c c')))).
  (** std::set::insert, as insertion into a sorted list (equivalent entries are not inserted again). *)
  Fixpoint set_insert (rounds : nat) (t : term) (l : list term) : option (result (list term)) :=
    match l with
    | [] => Some (Ok [t])
    | u :: l' =>
        andthen (term_lt rounds t u) (fun less =>
          if less then Some (Ok (t :: u :: l'))
          else andthen (term_lt rounds u t) (fun greater =>
               if greater then andthen (set_insert rounds t l') (fun l'' => Some (Ok (u :: l''))) else Some (Ok (u :: l'))))
    end.
  (** src/element.cc:929-930: the generator as an element of the module it generates *)
  Definition lone_gen (g : gen) (p : par A) : result elem := bind (make [g] p) (fun N => module_gen N 0).
  (** src/element.cc:926-931 *)
  Fixpoint collect (rounds : nat) (p : par A) (gs : list gen) (cs : list (car A)) (set : list term) : option (result (list term)) :=
    match gs, cs with
    | g :: gs', c :: cs' =>
        andthen (Some (lone_gen g p)) (fun x =>
        andthen (set_insert rounds (cltb c (czero A), x, c) set) (fun set' => collect rounds p gs' cs' set'))
    | _, _ => Some (Ok set)
    end.
  (** src/element.cc:952-961 *)
  Definition print_term (g : gen) (c : car A) : list (token (car A)) :=
    if ceqb c (cone A) then [TGen g]
    else TCoeff c :: (if gen_eqb g (GRat 1) then [] else [TTimes; TGen g]).
  (** src/element.cc:934-966 *)
  Fixpoint print_loop (empty : bool) (l : list term) : list (token (car A)) :=
    match l with
    | [] => if empty then [TZero] else []
    | (_, x, c) :: l' =>
        if cz c then print_loop empty l'
        else
          let g := hd (GRat 0) (basis (emodule x)) in
          if cltb (czero A) c
          then (if empty then [] else [TPlus]) ++ print_term g c ++ print_loop false l'
          else [if empty then TNeg else TMinus] ++ print_term g (copp c) ++ print_loop false l'
    end.
  Definition print (rounds : nat) (x : elem) : option (result (list (token (car A)))) :=
    andthen (collect rounds (mring (emodule x)) (basis (emodule x)) (coeffs x) []) (fun l => Some (Ok (print_loop true l))).
End Print.
