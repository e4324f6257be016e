(** Model of products of random numbers with their exponents as they are in the code: C++ [int]s of 32 bits
    (src/real_number_product.cc:38-64).  Signed overflow is undefined behaviour in C++; the parameter [over] says what
    a particular compiler and machine make of it ([None]: anything may happen).  Gen.v is the same with unbounded exponents. *)
From Coq Require Import ZArith QArith Qcanon Bool List.
From Verif Require Import Gen.
Import ListNotations.
Open Scope Z_scope.

Definition INT_MAX : Z := 2 ^ 31 - 1.
Definition INT_MIN : Z := - 2 ^ 31.
Definition is_int (z : Z) : bool := (INT_MIN <=? z) && (z <=? INT_MAX).

(** src/real_number_product.cc:38-64: std::vector<int> exponents. *)
Inductive mgen :=
| MRat (q : Qc)
| MAtom (i : Z)
| MProd (ms : list (Z * Z)).

Section Overflow.
  Variable over : Z -> option Z.
  (** The result of an operation on ints. *)
  Definition int_result (z : Z) : option Z := if is_int z then Some z else over z.

  Fixpoint mmons_eqb (l r : list (Z * Z)) : bool :=
    match l, r with
    | [], [] => true
    | (i, e) :: l', (j, f) :: r' => (i =? j) && (e =? f) && mmons_eqb l' r'
    | _, _ => false
    end.
  (** src/real_number.cc:115-118: real numbers are interned, equality is equality of the data. *)
  Definition mgen_eqb (x y : mgen) : bool :=
    match x, y with
    | MRat p, MRat q => Qeq_bool p q
    | MAtom i, MAtom j => i =? j
    | MProd l, MProd r => mmons_eqb l r
    | _, _ => false
    end.
  (** src/real_number_product.cc:365-389 *)
  Definition mmons (g : mgen) : list (Z * Z) :=
    match g with MRat _ => [] | MAtom i => [(i, 1)] | MProd ms => ms end.
  Definition opt_cons {T} (o : option T) (l : option (list T)) : option (list T) :=
    match o, l with Some a, Some l => Some (a :: l) | _, _ => None end.
  Definition with_exponent (i : Z) (e : option Z) : option (Z * Z) := option_map (fun e => (i, e)) e.
  (** src/real_number_product.cc:274-328 persist; line 301 adds the exponents. *)
  Fixpoint mmerge (l : list (Z * Z)) : list (Z * Z) -> option (list (Z * Z)) :=
    fix merge_r (r : list (Z * Z)) : option (list (Z * Z)) :=
      match l, r with
      | [], _ => Some r
      | _, [] => Some l
      | (i, e) :: l', (j, f) :: r' =>
          if i <? j then opt_cons (Some (i, e)) (mmerge l' r)
          else if i =? j then opt_cons (with_exponent i (int_result (e + f))) (mmerge l' r')
          else opt_cons (Some (j, f)) (merge_r r')
      end.
  Fixpoint mdouble (ms : list (Z * Z)) : option (list (Z * Z)) :=
    match ms with [] => Some [] | (i, e) :: ms' => opt_cons (with_exponent i (int_result (e * 2))) (mdouble ms') end.
  (** src/real_number_product.cc:270-399 Key::persist; lines 344-345 double the exponents of a square. *)
  Definition mpersist (x y : mgen) : option (list (Z * Z)) :=
    if mgen_eqb x y then
      match x with
      | MProd ms => mdouble ms
      | MAtom i => Some [(i, 2)]
      | MRat _ => Some []
      end
    else mmerge (mmons x) (mmons y).
  (** src/rational_real_number.cc:57-65 *)
  Definition mrational_mul (q : Qc) (y : mgen) : result mgen :=
    if Qeq_bool q 1%Q then Ok y
    else match y with
         | MRat p => Ok (MRat (q * p))
         | _ => Err LogicError
         end.
  (** src/real_number_product.cc:594-602 RealNumber::operator*; None: undefined behaviour. *)
  Definition mgen_mul (x y : mgen) : option (result mgen) :=
    match x with
    | MRat q => Some (mrational_mul q y)
    | _ => match y with
           | MRat q => Some (mrational_mul q x)
           | _ => option_map (fun ms => Ok (MProd ms)) (mpersist x y)
           end
    end.

  (** src/real_number_product.cc:453-485; the outer option is the undefined behaviour, the inner one the missing quotient. *)
  Fixpoint msub_mons (l r : list (Z * Z)) : option (option (list (Z * Z))) :=
    match r with
    | [] => Some (Some l)
    | (j, f) :: r' =>
        match l with
        | [] => Some None
        | (i, e) :: l' =>
            if i <? j then option_map (option_map (cons (i, e))) (msub_mons l' r)
            else if j <? i then Some None
            else if e <? f then Some None
            else match int_result (e - f) with
                 | None => None
                 | Some d => option_map (option_map (cons (i, d))) (msub_mons l' r')
                 end
        end
    end.
  (** src/real_number_product.cc:487-498 *)
  Fixpoint msub_atom (l : list (Z * Z)) (j : Z) : option (option (list (Z * Z))) :=
    match l with
    | [] => Some None
    | (i, e) :: l' =>
        if i =? j then match int_result (e - 1) with None => None | Some d => Some (Some ((i, d) :: l')) end
        else option_map (option_map (cons (i, e))) (msub_atom l' j)
    end.
  (** src/real_number_product.cc:500-516 *)
  Definition mnormalize (l : list (Z * Z)) : mgen :=
    match filter (fun '(_, e) => negb (e =? 0)) l with
    | [] => MRat 1
    | [(i, e)] => if e =? 1 then MAtom i else MProd [(i, e)]
    | ms => MProd ms
    end.
  (** src/real_number_product.cc:441-517 and src/real_number.cc:85-97 *)
  Definition mgen_div (x y : mgen) : option (result (option mgen)) :=
    match x with
    | MProd ms =>
        match y with
        | MRat q => Some (if Qeq_bool q 1%Q then Ok (Some x) else Err LogicError)
        | MProd rs => option_map (fun o => Ok (option_map mnormalize o)) (msub_mons ms rs)
        | MAtom i => option_map (fun o => Ok (option_map mnormalize o)) (msub_atom ms i)
        end
    | _ =>
        Some (if mgen_eqb x y then Ok (Some (MRat 1))
              else match y with
                   | MRat q => if Qeq_bool q 1%Q then Ok (Some x) else Err LogicError
                   | _ => Ok None
                   end)
    end.

  (** src/real_number_product.cc:555-560 totalDegree: the sum is an int. *)
  Fixpoint mtotal_degree (ms : list (Z * Z)) (sum : Z) : option Z :=
    match ms with
    | [] => Some sum
    | (_, e) :: ms' => match int_result (sum + e) with None => None | Some s => mtotal_degree ms' s end
    end.
  (** src/real_number_product.cc:645-672 *)
  Fixpoint mdeglex_loop (l r : list (Z * Z)) : option bool :=
    match l, r with
    | (i, e) :: l', (j, f) :: r' =>
        if i <? j then Some true
        else if j <? i then Some false
        else if e <? f then Some false
        else if f <? e then Some true
        else mdeglex_loop l' r'
    | _, _ => None
    end.
  (** src/real_number_product.cc:604-679 RealNumber::deglex; None: undefined behaviour or the statement that should not be reachable. *)
  Definition mdeglex (x y : mgen) : option bool :=
    if mgen_eqb x y then Some false
    else match x, y with
         | MProd l, MProd r =>
             match mtotal_degree l 0, mtotal_degree r 0 with
             | Some d, Some e => if negb (d =? e) then Some (d <? e) else mdeglex_loop l r
             | _, _ => None
             end
         | MProd _, _ => Some false
         | _, MProd _ => Some true
         | MRat _, MRat _ => Some false
         | MRat _, _ => Some true
         | _, MRat _ => Some false
         | MAtom i, MAtom j => Some (i <? j)
         end.
End Overflow.
