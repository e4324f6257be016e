(** Model of serialization, exact-real/cereal.hpp, and of the save and load functions
    of real numbers (src/real_number.cc:247-284, src/random_real_number.cc:103-111,
    src/constrained_random_real_number.cc:113-128, src/rational_real_number.cc:67-75,
    src/real_number_product.cc:562-591).

    An archive is the tree that cereal writes; that cereal's text and binary formats
    reproduce it is not modelled; for the texts of integers, rationals and floating point numbers in it
    (cereal.hpp:147-185, 227-245) see Text.v.  Interned objects are identified with the numbers and modules they
    represent (see C16).  Simplification: the inner number of a constrained random
    number is stored by its seed, without sharing. *)
From Coq Require Import ZArith QArith Qcanon Bool List.
From Verif Require Import Arf Arb Real Gen Ring Module Element Factory.
Import ListNotations.
Open Scope Z_scope.

(** A shared pointer in an archive: the object follows if it was not in the archive yet
    (the topmost bit of the id is set), cereal.hpp:251-269. *)
Inductive aref := AFresh (k : Z) (a : atom) | AAgain (k : Z).
(** "kind" and the data of a real number, src/real_number.cc:247-263 *)
Inductive data :=
| DRational (q : Qc)
| DAtom (a : atom)
| DProduct (factors : list (aref * nat)).
Inductive ref := Fresh (k : Z) (d : data) | Again (k : Z).
Inductive mref (A : ring) := MFresh (k : Z) (generators : list ref) (p : par A) | MAgain (k : Z).
Arguments MFresh {A}. Arguments MAgain {A}.
(** An element in an archive, cereal.hpp:187-195. *)
Record saved (A : ring) := mkSaved { parent : mref A; saved_coeffs : list (car A) }.
Arguments mkSaved {A}. Arguments parent {A}. Arguments saved_coeffs {A}.

Section Serial.
  Context {A : ring}.
  Local Notation module := (module A).
  Local Notation elem := (elem A).
  (** The objects that cereal tracks. *)
  Inductive pointer := PNum (g : gen) | PMod (M : module).
  Definition pointer_eqb (p q : pointer) : bool :=
    match p, q with
    | PNum g, PNum h => gen_eqb g h
    | PMod M, PMod N => module_eqb M N
    | _, _ => false
    end.

  (** * Saving *)
  (** cereal's registerSharedPointer(ptr): the id of the pointer, and whether it is new. Ids start at 1. *)
  Definition table := list (pointer * Z).
  Fixpoint find_pointer (t : table) (p : pointer) : option Z :=
    match t with [] => None | (q, k) :: t' => if pointer_eqb p q then Some k else find_pointer t' p end.
  Definition register (t : table) (p : pointer) : table * Z * bool :=
    match find_pointer t p with
    | Some k => (t, k, false)
    | None => let k := Z.of_nat (length t) + 1 in ((p, k) :: t, k, true)
    end.

  (** The process that saves: its live objects, and the addresses of random numbers. *)
  Variable st : state.
  Variable addr : Z -> Z.
  Definition atom_at (s : state) (i : Z) : option atom := match lookup (objs s) i with Some (OAtom a) => Some a | _ => None end.

  (** src/real_number_product.cc:563-566: std::map by address *)
  Fixpoint by_address (m : Z * nat) (l : list (Z * nat)) : list (Z * nat) :=
    match l with
    | [] => [m]
    | m' :: l' => if addr (fst m) <? addr (fst m') then m :: l else m' :: by_address m l'
    end.
  Definition address_order (ms : list (Z * nat)) : list (Z * nat) := fold_right by_address [] ms.

  (** cereal.hpp:251-269, src/random_real_number.cc:103-105, src/constrained_random_real_number.cc:113-117 *)
  Definition save_atom (t : table) (i : Z) : option (table * aref) :=
    match register t (PNum (GAtom i)) with
    | (t', k, true) => option_map (fun a => (t', AFresh k a)) (atom_at st i)
    | (t', k, false) => Some (t', AAgain k)
    end.
  (** src/real_number_product.cc:568 *)
  Fixpoint save_factors (t : table) (ms : list (Z * nat)) : option (table * list (aref * nat)) :=
    match ms with
    | [] => Some (t, [])
    | (i, e) :: ms' =>
        match save_atom t i with
        | None => None
        | Some (t1, r) => option_map (fun '(t2, rs) => (t2, (r, e) :: rs)) (save_factors t1 ms')
        end
    end.
  (** cereal.hpp:251-269, src/real_number.cc:247-263 *)
  Definition save_number (t : table) (g : gen) : option (table * ref) :=
    match register t (PNum g) with
    | (t', k, false) => Some (t', Again k)
    | (t', k, true) =>
        match g with
        | GRat q => Some (t', Fresh k (DRational q))
        | GAtom i => option_map (fun a => (t', Fresh k (DAtom a))) (atom_at st i)
        | GProd ms => option_map (fun '(t2, fs) => (t2, Fresh k (DProduct fs))) (save_factors t' (address_order ms))
        end
    end.
  Fixpoint save_numbers (t : table) (gs : list gen) : option (table * list ref) :=
    match gs with
    | [] => Some (t, [])
    | g :: gs' =>
        match save_number t g with
        | None => None
        | Some (t1, r) => option_map (fun '(t2, rs) => (t2, r :: rs)) (save_numbers t1 gs')
        end
    end.
  (** cereal.hpp:283-296 *)
  Definition save_module (t : table) (M : module) : option (table * mref A) :=
    match register t (PMod M) with
    | (t', k, false) => Some (t', MAgain k)
    | (t', k, true) => option_map (fun '(t2, rs) => (t2, MFresh k rs (mring M))) (save_numbers t' (basis M))
    end.
  (** cereal.hpp:187-195 *)
  Definition save_elem (t : table) (x : elem) : option (table * saved A) :=
    option_map (fun '(t', m) => (t', mkSaved m (coeffs x))) (save_module t (emodule x)).
  Fixpoint save_elems (t : table) (xs : list elem) : option (table * list (saved A)) :=
    match xs with
    | [] => Some (t, [])
    | x :: xs' =>
        match save_elem t x with
        | None => None
        | Some (t1, s) => option_map (fun '(t2, ss) => (t2, s :: ss)) (save_elems t1 xs')
        end
    end.
  (** An archive with several elements. *)
  Definition save (xs : list elem) : option (list (saved A)) := option_map snd (save_elems [] xs).
  Definition save_real (g : gen) : option ref := option_map snd (save_number [] g).
End Serial.

Section Load.
  Context {A : ring}.
  Local Notation module := (module A).
  Local Notation elem := (elem A).
  Local Notation pointer := (@pointer A).
  (** * Loading, in a process with live objects [s] *)
  (** cereal's registerSharedPointer(id, ptr), getSharedPointer(id) *)
  Definition loaded := list (Z * pointer).
  Fixpoint pointer_at (L : loaded) (k : Z) : option pointer :=
    match L with [] => None | (j, p) :: L' => if j =? k then Some p else pointer_at L' k end.

  (** src/random_real_number.cc:107-111, src/constrained_random_real_number.cc:119-128: the inner number is loaded first. *)
  Definition load_atom_data (s : state) (a : atom) : state * Z :=
    match a with
    | ARandom _ => get_atom s a
    | AConstr _ _ seed => get_atom (fst (get_atom s (ARandom seed))) a
    end.
  (** cereal.hpp:271-281 *)
  Definition load_aref (s : state) (L : loaded) (r : aref) : option (state * loaded * Z) :=
    match r with
    | AFresh k a => let '(s', i) := load_atom_data s a in Some (s', (k, PNum (GAtom i)) :: L, i)
    | AAgain k => match pointer_at L k with Some (PNum (GAtom i)) => Some (s, L, i) | _ => None end
    end.
  (** src/real_number_product.cc:571-591: a std::map (the first entry for a key counts) ... *)
  Fixpoint load_factors (s : state) (L : loaded) (fs : list (aref * nat)) : option (state * loaded * list (Z * nat)) :=
    match fs with
    | [] => Some (s, L, [])
    | (r, e) :: fs' =>
        match load_aref s L r with
        | None => None
        | Some (s1, L1, i) =>
            option_map (fun '(s2, L2, ms) => (s2, L2, (i, e) :: filter (fun m => negb (fst m =? i)) ms)) (load_factors s1 L1 fs')
        end
    end.
  (** ... whose keys are sorted by id. *)
  Fixpoint by_id (m : Z * nat) (l : list (Z * nat)) : list (Z * nat) :=
    match l with
    | [] => [m]
    | m' :: l' => if fst m <? fst m' then m :: l else m' :: by_id m l'
    end.
  Definition id_order (ms : list (Z * nat)) : list (Z * nat) := fold_right by_id [] ms.
  (** cereal.hpp:271-281, src/real_number.cc:270-284 *)
  Definition load_ref (s : state) (L : loaded) (r : ref) : option (state * loaded * gen) :=
    match r with
    | Fresh k (DRational q) => let '(s', _) := get_rational s q in Some (s', (k, PNum (GRat q)) :: L, GRat q)
    | Fresh k (DAtom a) => let '(s', i) := load_atom_data s a in Some (s', (k, PNum (GAtom i)) :: L, GAtom i)
    | Fresh k (DProduct fs) =>
        option_map (fun '(s', L', ms) => (fst (get_monomials s' (id_order ms)), (k, PNum (GProd (id_order ms))) :: L', GProd (id_order ms))) (load_factors s L fs)
    | Again k => match pointer_at L k with Some (PNum g) => Some (s, L, g) | _ => None end
    end.
  Fixpoint load_refs (s : state) (L : loaded) (rs : list ref) : option (state * loaded * list gen) :=
    match rs with
    | [] => Some (s, L, [])
    | r :: rs' =>
        match load_ref s L r with
        | None => None
        | Some (s1, L1, g) => option_map (fun '(s2, L2, gs) => (s2, L2, g :: gs)) (load_refs s1 L1 rs')
        end
    end.
  (** cereal.hpp:298-319; [None] also if Module::make throws *)
  Definition load_module (s : state) (L : loaded) (m : mref A) : option (state * loaded * module) :=
    match m with
    | MFresh k rs p =>
        match load_refs s L rs with
        | None => None
        | Some (s', L', gs) => match make gs p with Ok M => Some (s', (k, PMod M) :: L', M) | Err _ => None end
        end
    | MAgain k => match pointer_at L k with Some (PMod M) => Some (s, L, M) | _ => None end
    end.
  (** cereal.hpp:198-210; [None] also if the constructor (src/element.cc:64-67) reports that there is not one coefficient for each generator *)
  Definition load_elem (s : state) (L : loaded) (x : saved A) : option (state * loaded * elem) :=
    match load_module s L (parent x) with
    | Some (s', L', M) => match make_elem M (saved_coeffs x) with Ok y => Some (s', L', y) | Err _ => None end
    | None => None
    end.
  Fixpoint load_elems (s : state) (L : loaded) (xs : list (saved A)) : option (state * loaded * list elem) :=
    match xs with
    | [] => Some (s, L, [])
    | x :: xs' =>
        match load_elem s L x with
        | None => None
        | Some (s1, L1, y) => option_map (fun '(s2, L2, ys) => (s2, L2, y :: ys)) (load_elems s1 L1 xs')
        end
    end.
  Definition load (s : state) (xs : list (saved A)) : option (state * list elem) :=
    option_map (fun '(s', _, ys) => (s', ys)) (load_elems s [] xs).
  Definition load_real (s : state) (r : ref) : option (state * gen) := option_map (fun '(s', _, g) => (s', g)) (load_ref s [] r).
End Load.
