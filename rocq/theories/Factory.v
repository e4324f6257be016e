(** Model of the interning of real numbers: the unique factories
    (src/rational_real_number.cc:83-91, src/random_real_number.cc:53-56,
    src/constrained_random_real_number.cc:58-68, src/real_number_product.cc:407-412,
    594-602) and the objects they manage.

    The factory itself (external/unique-factory) is not part of the repository;
    modelled is its contract: [get(key, create)] returns the live object that is
    registered under a key with the same hash that compares equal, and otherwise
    registers what [create] returns.  When an object is no longer referenced it
    disappears at some time ([Collect], at any time: KeepSetAlive only delays it);
    a product keeps its monomials alive.  The machine here is sequential. *)
From Coq Require Import ZArith QArith Qcanon Bool List.
From Verif Require Import Arf Arb Real Gen Seed.
Import ListNotations.
Open Scope Z_scope.

(** What an object stores: src/rational_real_number.cc:78, the data of a random
    number, src/real_number_product.cc:58-59. *)
Inductive obj :=
| ORational (q : Qc)
| OAtom (a : atom)
| OProd (ms : list (Z * nat)) (hash : Z).

(** Live objects with their ids, and the counter for ids (src/real_number_base.cc:26). *)
Record state := mkState { objs : list (Z * obj); next_id : Z }.
Definition init : state := mkState [] first_id.

Fixpoint lookup (l : list (Z * obj)) (x : Z) : option obj :=
  match l with
  | [] => None
  | (y, o) :: l' => if y =? x then Some o else lookup l' x
  end.
(** The first live object whose key matches. *)
Fixpoint find_key (key : obj -> bool) (l : list (Z * obj)) : option Z :=
  match l with
  | [] => None
  | (y, o) :: l' => if key o then Some y else find_key key l'
  end.

(** UniqueFactory::get; the new object takes the next id (src/real_number_base.cc:28). *)
Definition get (st : state) (key : obj -> bool) (create : obj) : state * Z :=
  match find_key key (objs st) with
  | Some x => (st, x)
  | None => (mkState ((next_id st, create) :: objs st) (next_id st + 1), next_id st)
  end.

(** src/rational_real_number.cc:83-91, keyed by value *)
Definition get_rational (st : state) (q : Qc) : state * Z :=
  get st (fun o => match o with ORational p => Qeq_bool p q | _ => false end) (ORational q).
(** src/random_real_number.cc:53-56 keyed by seed;
    src/constrained_random_real_number.cc:58-68 keyed by initial, e, inner *)
Definition get_atom (st : state) (a : atom) : state * Z :=
  get st (fun o => match o with OAtom b => atom_eqb b a | _ => false end) (OAtom a).

(** The number behind a pointer. *)
Definition gen_of (x : Z) (o : obj) : gen :=
  match o with ORational q => GRat q | OAtom _ => GAtom x | OProd ms _ => GProd ms end.

(** src/real_number_product.cc:120-130: the hash of a factor. *)
Definition factor_hash (x : Z) (o : obj) : Z := match o with OProd _ h => h | _ => x end.

(** src/real_number_product.cc:594-602, 149-268, 270-399: the product of two
    numbers that are not rational.  The hash that is stored is the one of the
    factors (331, 350, 357: all [hash(lhs) * hash(rhs)]). *)
Definition get_product (st : state) (x : Z) (ox : obj) (y : Z) (oy : obj) : state * Z :=
  let h := factor_hash x ox * factor_hash y oy mod 2 ^ 64 in
  let key o := match o with
               | OProd ms h' => (h' =? h) && key_eq (mons (gen_of x ox)) (mons (gen_of y oy)) ms
               | _ => false
               end in
  get st key (OProd (persist (gen_of x ox) (gen_of y oy)) h).

(** src/real_number_product.cc:516, 590: registered by monomials and exponents. *)
Definition get_monomials (st : state) (ms : list (Z * nat)) : state * Z :=
  let h := hash_mons ms 1 in
  get st (fun o => match o with OProd ms' h' => (h' =? h) && mons_eqb ms' ms | _ => false end) (OProd ms h).

Definition rational_mul_obj (st : state) (q : Qc) (y : Z) (oy : obj) : result (state * Z) :=
  if Qeq_bool q 1%Q then Ok (st, y)
  else match oy with
       | ORational p => Ok (get_rational st (q * p))
       | _ => Err LogicError
       end.
(** RealNumber::operator* on pointers *)
Definition mul (st : state) (x y : Z) : result (state * Z) :=
  match lookup (objs st) x, lookup (objs st) y with
  | Some ox, Some oy =>
      match ox with
      | ORational q => rational_mul_obj st q y oy
      | _ => match oy with
             | ORational q => rational_mul_obj st q x ox
             | _ => Ok (get_product st x ox y oy)
             end
      end
  | _, _ => Err InvalidArgument (* dangling pointer: cannot happen *)
  end.

(** RealNumber::operator/ on pointers, see [gen_div]. *)
Definition get_gen (st : state) (g : gen) : state * Z :=
  match g with
  | GRat q => get_rational st q
  | GAtom x => (st, x)
  | GProd ms => get_monomials st ms
  end.
Definition div (st : state) (x y : Z) : result (option (state * Z)) :=
  match lookup (objs st) x, lookup (objs st) y with
  | Some ox, Some oy =>
      match gen_div (gen_of x ox) (gen_of y oy) with
      | Ok (Some g) => Ok (Some (get_gen st g))
      | Ok None => Ok None
      | Err e => Err e
      end
  | _, _ => Err InvalidArgument
  end.

(** An object can only disappear if no live product refers to it. *)
Definition refers (x : Z) (o : obj) : bool :=
  match o with OProd ms _ => existsb (fun '(i, _) => i =? x) ms | _ => false end.
Definition collect (st : state) (x : Z) : state :=
  if existsb (fun '(_, o) => refers x o) (objs st) then st
  else mkState (filter (fun '(y, _) => negb (y =? x)) (objs st)) (next_id st).

(** A history of a process. *)
Inductive op :=
| GetRational (q : Qc)
| GetAtom (a : atom)
| Mul (x y : Z)
| Div (x y : Z)
| Collect (x : Z).
Definition step (st : state) (o : op) : state :=
  match o with
  | GetRational q => fst (get_rational st q)
  | GetAtom a => fst (get_atom st a)
  | Mul x y => match mul st x y with Ok (st', _) => st' | Err _ => st end
  | Div x y => match div st x y with Ok (Some (st', _)) => st' | _ => st end
  | Collect x => collect st x
  end.
Definition run (ops : list op) (st : state) : state := fold_left step ops st.
