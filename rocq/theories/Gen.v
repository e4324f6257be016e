(** Model of the real numbers as generators of modules: rational numbers,
    indeterminates and their products, src/real_number_product.cc,
    src/rational_real_number.cc:57-65, src/real_number.cc:85-97.

    A random number is represented by its unique id (src/real_number_base.cc:28).
    Ids and exponents are mathematical integers here: see Machine.v for the overflow of
    the [int] exponents at 2^31. *)
From Coq Require Import ZArith QArith Qcanon Bool List.
Import ListNotations.
Open Scope Z_scope.

(** Outcome of an operation that may throw. *)
Inductive exn := LogicError | InvalidArgument | OutOfRange | AssertionFailed.
Inductive result (A : Type) := Ok (a : A) | Err (e : exn).
Arguments Ok {A}. Arguments Err {A}.
Definition bind {A B} (x : result A) (f : A -> result B) : result B :=
  match x with Ok a => f a | Err e => Err e end.

(** src/rational_real_number.cc:37, src/random_real_number.cc:59 (and
    src/constrained_random_real_number.cc:71), src/real_number_product.cc:38-64.
    mpq_class values are kept in canonical form (Qc). *)
Inductive gen :=
| GRat (q : Qc)
| GAtom (i : Z)
| GProd (ms : list (Z * nat)).

(** src/real_number.cc:115-118: real numbers are interned (see Factory.v), so that
    == on pointers is equality of the represented data. *)
Fixpoint mons_eqb (l r : list (Z * nat)) : bool :=
  match l, r with
  | [], [] => true
  | (i, e) :: l', (j, f) :: r' => (i =? j) && Nat.eqb e f && mons_eqb l' r'
  | _, _ => false
  end.
Definition gen_eqb (x y : gen) : bool :=
  match x, y with
  | GRat p, GRat q => Qeq_bool p q
  | GAtom i, GAtom j => i =? j
  | GProd l, GProd r => mons_eqb l r
  | _, _ => false
  end.

Definition is_rational (g : gen) : bool := match g with GRat _ => true | _ => false end.

(** Monomials and exponents of a factor, src/real_number_product.cc:365-389 (a
    number that is not a product is a single monomial with exponent 1). *)
Definition mons (g : gen) : list (Z * nat) :=
  match g with GRat _ => [] | GAtom i => [(i, 1%nat)] | GProd ms => ms end.

(** src/real_number_product.cc:274-328 persist: merging two products. *)
Fixpoint merge (l : list (Z * nat)) : list (Z * nat) -> list (Z * nat) :=
  fix merge_r (r : list (Z * nat)) : list (Z * nat) :=
    match l, r with
    | [], _ => r
    | _, [] => l
    | (i, e) :: l', (j, f) :: r' =>
        if i <? j then (i, e) :: merge l' r
        else if i =? j then (i, (e + f)%nat) :: merge l' r'
        else (j, f) :: merge_r r'
    end.

(** src/real_number_product.cc:270-399 Key::persist: squares are treated separately. *)
Definition persist (x y : gen) : list (Z * nat) :=
  if gen_eqb x y then
    match x with
    | GProd ms => map (fun '(i, e) => (i, (e * 2)%nat)) ms
    | GAtom i => [(i, 2%nat)]
    | GRat _ => []
    end
  else merge (mons x) (mons y).

(** src/rational_real_number.cc:57-65 RationalRealNumber::operator* *)
Definition rational_mul (q : Qc) (y : gen) : result gen :=
  if Qeq_bool q 1%Q then Ok y
  else match y with
       | GRat p => Ok (GRat (q * p))
       | _ => Err LogicError
       end.
(** src/real_number_product.cc:594-602 RealNumber::operator* *)
Definition gen_mul (x y : gen) : result gen :=
  match x with
  | GRat q => rational_mul q y
  | _ => match y with
         | GRat q => rational_mul q x
         | _ => Ok (GProd (persist x y))
         end
  end.

(** src/real_number_product.cc:453-485: subtracting the exponents of a product;
    the result still has the monomials of the left hand side. *)
Fixpoint sub_mons (l r : list (Z * nat)) : option (list (Z * nat)) :=
  match r with
  | [] => Some l
  | (j, f) :: r' =>
      match l with
      | [] => None
      | (i, e) :: l' =>
          if i <? j then option_map (cons (i, e)) (sub_mons l' r)
          else if j <? i then None
          else if (e <? f)%nat then None
          else option_map (cons (i, (e - f)%nat)) (sub_mons l' r')
      end
  end.
(** src/real_number_product.cc:487-498: removing a single indeterminate. *)
Fixpoint sub_atom (l : list (Z * nat)) (j : Z) : option (list (Z * nat)) :=
  match l with
  | [] => None
  | (i, e) :: l' => if i =? j then Some ((i, (e - 1)%nat) :: l') else option_map (cons (i, e)) (sub_atom l' j)
  end.
(** src/real_number_product.cc:500-516 *)
Definition normalize (l : list (Z * nat)) : gen :=
  match filter (fun '(_, e) => negb (Nat.eqb e 0)) l with
  | [] => GRat 1
  | [(i, e)] => if Nat.eqb e 1 then GAtom i else GProd [(i, e)]
  | ms => GProd ms
  end.
(** src/real_number_product.cc:441-517 RealNumberProduct::operator/ and
    src/real_number.cc:85-97 RealNumber::operator/ *)
Definition gen_div (x y : gen) : result (option gen) :=
  match x with
  | GProd ms =>
      match y with
      | GRat q => if Qeq_bool q 1%Q then Ok (Some x) else Err LogicError
      | GProd rs => Ok (option_map normalize (sub_mons ms rs))
      | GAtom i => Ok (option_map normalize (sub_atom ms i))
      end
  | _ =>
      if gen_eqb x y then Ok (Some (GRat 1))
      else match y with
           | GRat q => if Qeq_bool q 1%Q then Ok (Some x) else Err LogicError
           | _ => Ok None
           end
  end.

(** src/real_number_product.cc:555-560 *)
Definition total_degree (ms : list (Z * nat)) : nat := fold_right (fun '(_, e) d => (e + d)%nat) O ms.

(** src/real_number_product.cc:645-672: the comparison of two different products of
    the same degree; None marks the statement that should not be reachable. *)
Fixpoint deglex_loop (l r : list (Z * nat)) : option bool :=
  match l, r with
  | (i, e) :: l', (j, f) :: r' =>
      if i <? j then Some true
      else if j <? i then Some false
      else if (e <? f)%nat then Some false
      else if (f <? e)%nat then Some true
      else deglex_loop l' r'
  | _, _ => None
  end.
(** src/real_number_product.cc:604-679 RealNumber::deglex *)
Definition deglex_opt (x y : gen) : option bool :=
  if gen_eqb x y then Some false
  else match x, y with
       | GProd l, GProd r =>
           if negb (Nat.eqb (total_degree l) (total_degree r))
           then Some (total_degree l <? total_degree r)%nat
           else deglex_loop l r
       | GProd _, _ => Some false
       | _, GProd _ => Some true
       | GRat _, GRat _ => Some false
       | GRat _, _ => Some true
       | _, GRat _ => Some false
       | GAtom i, GAtom j => Some (i <? j)
       end.
Definition deglex (x y : gen) : bool := match deglex_opt x y with Some b => b | None => false end.

(** * Keys of the factory of products *)
(** src/real_number_product.cc:85-94: powers of size_t by repeated squaring;
    [fuel] is the number of bits of the exponent. *)
Fixpoint pow64 (fuel : nat) (base exponent result : Z) : Z :=
  match fuel with
  | O => result
  | S fuel' =>
      if exponent =? 0 then result
      else pow64 fuel' (base * base mod 2 ^ 64) (exponent / 2)
             (if Z.odd exponent then result * base mod 2 ^ 64 else result)
  end.
(** src/real_number_product.cc:96-98 *)
Fixpoint hash_mons (ms : list (Z * nat)) (hash : Z) : Z :=
  match ms with
  | [] => hash
  | (i, e) :: ms' => hash_mons ms' (hash * pow64 (S (Z.to_nat (Z.log2 (Z.of_nat e)))) (i mod 2 ^ 64) (Z.of_nat e) 1 mod 2 ^ 64)
  end.

(** src/real_number_product.cc:149-227: comparison of a pair of factors with the
    stored monomials and exponents of a product. *)
Fixpoint key_eq (l r s : list (Z * nat)) : bool :=
  match s with
  | [] => match l, r with [], [] => true | _, _ => false end
  | (k, g) :: s' =>
      match l with
      | (i, e) :: l' =>
          if i <? k then false
          else match r with
               | (j, f) :: r' =>
                   if j <? k then false
                   else if (i =? k) && (j =? k) then
                     if negb (Nat.eqb (e + f) g) then false else key_eq l' r' s'
                   else if i =? k then
                     if negb (Nat.eqb e g) then false else key_eq l' r s'
                   else if j =? k then
                     if negb (Nat.eqb f g) then false else key_eq l r' s'
                   else false
               | [] => if negb (i =? k) || negb (Nat.eqb e g) then false else key_eq l' r s'
               end
      | [] =>
          match r with
          | (j, f) :: r' => if negb (j =? k) || negb (Nat.eqb f g) then false else key_eq l r' s'
          | [] => false
          end
      end
  end.
