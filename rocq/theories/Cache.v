(** Model of the caches of approximations, src/impl/real_number_base.hpp:50-52 and
    src/real_number.cc:195-219 (RealNumberBase::arf), for all objects of a
    process at once: approximating a product asks its factors, which have caches
    of their own. *)
From Coq Require Import ZArith QArith Bool List.
From Verif Require Import Arf Arb Real.
Import ListNotations.
Open Scope Z_scope.

(** src/impl/real_number_base.hpp:50-52: arf54, arf64, large. *)
Record cache := mkCache { c54 : option arf; c64 : option arf; large : list (Z * arf) }.
Definition cache_empty : cache := mkCache None None [].

(** src/real_number.cc:211 *)
Definition LARGE_PREC_LIMIT : nat := 128.

Fixpoint large_find (l : list (Z * arf)) (prec : Z) : option arf :=
  match l with
  | [] => None
  | (p, a) :: l' => if p =? prec then Some a else large_find l' prec
  end.

(** Lookup, src/real_number.cc:199-215 (the conditions). *)
Definition cache_find (c : cache) (prec : Z) : option arf :=
  if prec =? ARF_DOUBLE_PRECISION then c54 c
  else if prec =? ARB_PRECISION_FAST then c64 c
  else large_find (large c) prec.

(** Insertion of a computed value, src/real_number.cc:200-216. *)
Definition cache_insert (c : cache) (prec : Z) (a : arf) : cache :=
  if prec =? ARF_DOUBLE_PRECISION then mkCache (Some a) (c64 c) (large c)
  else if prec =? ARB_PRECISION_FAST then mkCache (c54 c) (Some a) (large c)
  else let l := if (LARGE_PREC_LIMIT <=? length (large c))%nat then [] else large c in
       mkCache (c54 c) (c64 c) ((prec, a) :: l).

(** All live objects; the model keeps one cache per real number. *)
Definition atom_dec (a b : atom) : {a = b} + {a <> b}.
Proof. repeat decide equality. Defined.
Definition rnum_dec (x y : rnum) : {x = y} + {x <> y}.
Proof. repeat decide equality. Defined.

Definition heap := rnum -> cache.
Definition heap_empty : heap := fun _ => cache_empty.
Definition heap_set (h : heap) (x : rnum) (c : cache) : heap :=
  fun y => if rnum_dec x y then c else h y.

Section Cached.
  Variable rng : Z -> nat -> bool.

  (** src/real_number.cc:195-219 with the computation [compute] of arf_. *)
  Definition with_cache (h : heap) (x : rnum) (prec : Z)
      (compute : heap -> Z -> option (heap * arf)) : option (heap * arf) :=
    let prec := if prec <? 1 then 0 else prec in
    match cache_find (h x) prec with
    | Some a => Some (h, a)
    | None =>
        match compute h prec with
        | Some (h', a) => Some (heap_set h' x (cache_insert (h' x) prec a), a)
        | None => None
        end
    end.

  (** src/random_real_number.cc:66-92 *)
  Definition cached_random (fuel : nat) (seed : Z) (h : heap) (prec : Z) : option (heap * arf) :=
    with_cache h (RAtom (ARandom seed)) prec
      (fun h prec => option_map (fun a => (h, a)) (arf_random rng fuel seed prec)).

  (** src/constrained_random_real_number.cc:75-99, inner->arf(missing_digits - 1). *)
  Definition compute_constr (fuel : nat) (initial : arf) (e seed : Z) (h : heap) (prec : Z) : option (heap * arf) :=
    let prec := if prec <? 1 then 0 else prec in
    let necessary := prec + 1 in
    let missing := necessary - arf_bits initial in
    let ret :=
      if 0 <? missing
      then option_map (fun '(h', additional) => (h', arf_add (prec + 1) NEAR initial (arf_shl additional (e - 1))))
                      (cached_random fuel seed h (missing - 1))
      else Some (h, initial) in
    option_map (fun '(h', a) => (h', arf_round NEAR (prec + 1) a)) ret.

  Definition cached_atom (fuel : nat) (a : atom) (h : heap) (prec : Z) : option (heap * arf) :=
    match a with
    | ARandom s => cached_random fuel s h prec
    | AConstr i e s => with_cache h (RAtom (AConstr i e s)) prec (compute_constr fuel i e s)
    end.

  Fixpoint compute_factors (fuel : nat) (wp : Z) (fs : list atom) (h : heap) (ret : arf) : option (heap * arf) :=
    match fs with
    | [] => Some (h, ret)
    | a :: fs' =>
        match cached_atom fuel a h wp with
        | None => None
        | Some (h', f) => compute_factors fuel wp fs' h' (arf_mul wp NEAR ret f)
        end
    end.

  (** src/real_number_product.cc:519-553, monomials[i]->arf(workingPrec). *)
  Definition compute_prod (fuel : nat) (ms : list (atom * nat)) (h : heap) (prec : Z) : option (heap * arf) :=
    let fs := factors ms in
    let wp := working_prec (Z.of_nat (length fs)) prec in
    option_map (fun '(h', a) => (h', arf_round NEAR (prec + 1) a)) (compute_factors fuel wp fs h (arf_of_Z 1)).

  Definition cached_arf (fuel : nat) (h : heap) (x : rnum) (prec : Z) : option (heap * arf) :=
    match x with
    | RRat q => with_cache h x prec (fun h prec => Some (h, arf_rational q prec))
    | RAtom a => cached_atom fuel a h prec
    | RProd ms => with_cache h x prec (compute_prod fuel ms)
    end.

  (** A history of requests to any objects of the process; a request that does not
      return (out of fuel) leaves the caches alone. *)
  Fixpoint run (fuel : nat) (reqs : list (rnum * Z)) (h : heap) : heap :=
    match reqs with
    | [] => h
    | (x, prec) :: reqs' =>
        match cached_arf fuel h x prec with
        | Some (h', _) => run fuel reqs' h'
        | None => run fuel reqs' h
        end
    end.
End Cached.
