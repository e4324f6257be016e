(** Model of elements of modules, src/element.cc (exact arithmetic; the parts that
    use approximations are in Loops.v). *)
From Coq Require Import ZArith QArith Qcanon Bool List.
From Verif Require Import Gen Ring Module.
Import ListNotations.
Open Scope Z_scope.

Section Element.
  Variable A : ring.

  (** src/element.cc:55-84 *)
  Record elem := mkElem { emodule : module A; coeffs : list (car A) }.

  Definition cz (c : car A) : bool := ceqb c (czero A).
  (** src/element.cc:804-806 operator bool *)
  Definition nonzero (x : elem) : bool := existsb (fun c => negb (cz c)) (coeffs x).

  (** src/element.cc:62-65: the constructor (assertion) *)
  Definition make_elem (M : module A) (cs : list (car A)) : result elem :=
    if Nat.eqb (length cs) (rank M) then Ok (mkElem M cs) else Err AssertionFailed.
  (** src/module.cc:195-197 zero, src/element.cc:59 *)
  Definition zero_of (M : module A) : elem := mkElem M (repeat (czero A) (rank M)).
  (** src/element.cc:57, 117: Element() is zero in the trivial module over Ring(). *)
  Definition default_elem : elem := mkElem (mkModule [] (trivial_par A)) [].
  (** src/module.cc:188-192 gen; numeric_cast throws for negative numbers, too large
      indices are undefined behaviour in the code. *)
  Definition unit_vector (n j : nat) : list (car A) := map (fun i => if Nat.eqb i j then cone A else czero A) (seq 0 n).
  Definition module_gen (M : module A) (j : Z) : result elem :=
    if (0 <=? j) && (j <? Z.of_nat (rank M)) then Ok (mkElem M (unit_vector (rank M) (Z.to_nat j))) else Err OutOfRange.
  (** src/element.cc:147-148 Element(value): [p] is the ring Ring(value) of the value. *)
  Definition of_value (p : par A) (c : car A) : result elem :=
    bind (make [GRat 1] p) (fun M => Ok (mkElem M [c])).
  (** src/element.cc:151-153 operator[] *)
  Definition coefficient (x : elem) (i : Z) : result (car A) :=
    if (0 <=? i) && (i <? Z.of_nat (length (coeffs x)))
    then Ok (nth (Z.to_nat i) (coeffs x) (czero A)) else Err OutOfRange.

  (** src/element.cc:855-897 the loop of promote; the assertion (in the default build)
      throws when a remaining generator has a nonzero coefficient. *)
  Fixpoint promote_loop (theirs ours : list gen) (cs : list (car A)) (p : par A) : result (list (car A)) :=
    match theirs with
    | [] =>
        if forallb cz (firstn (length ours) cs) then Ok [] else Err AssertionFailed
    | t :: ts =>
        (fix inner (ours : list gen) (cs : list (car A)) : result (list (car A)) :=
           match ours, cs with
           | g :: gs, c :: cs' =>
               if gen_eqb g t then bind (coerce p c) (fun c' => bind (promote_loop ts gs cs' p) (fun r => Ok (c' :: r)))
               else if deglex g t then inner gs cs'
               else bind (promote_loop ts ours cs p) (fun r => Ok (czero A :: r))
           | _, _ => bind (promote_loop ts [] [] p) (fun r => Ok (czero A :: r))
           end) ours cs
    end.
  (** src/element.cc:855-897 promote *)
  Definition promote (x : elem) (M : module A) : result elem :=
    if module_eqb (emodule x) M then Ok x
    else if negb (nonzero x) then Ok (zero_of M)
    else bind (promote_loop (basis M) (basis (emodule x)) (coeffs x) (mring M)) (fun cs => Ok (mkElem M cs)).

  (** Both operands promoted to the span of their modules (src/element.cc:211-213 and others). *)
  Definition common (x y : elem) : result (elem * elem) :=
    if module_eqb (emodule x) (emodule y) then Ok (x, y)
    else bind (span (emodule x) (emodule y)) (fun M =>
         bind (promote x M) (fun x' => bind (promote y M) (fun y' => Ok (x', y')))).

  Fixpoint add_coeffs (l r : list (car A)) : list (car A) :=
    match l, r with a :: l', b :: r' => cadd a b :: add_coeffs l' r' | _, _ => [] end.
  (** src/element.cc:210-220 operator+= *)
  Definition add (x y : elem) : result elem :=
    bind (common x y) (fun '(x', y') => Ok (mkElem (emodule x') (add_coeffs (coeffs x') (coeffs y')))).
  (** src/element.cc:275-282 unary minus *)
  Definition opp (x : elem) : elem := mkElem (emodule x) (map copp (coeffs x)).
  (** src/element.cc:223-225 operator-= *)
  Definition sub (x y : elem) : result elem := add x (opp y).

  (** src/element.cc:240-249: products[gen] += value, in a map from generators to
      coefficients.  The map of the code is ordered by address, here the order is the
      one of insertion; it does not matter because of the sort that follows. *)
  Fixpoint accumulate (g : gen) (v : car A) (l : list (gen * car A)) : list (gen * car A) :=
    match l with
    | [] => [(g, cadd (czero A) v)]
    | (h, w) :: l' => if gen_eqb h g then (h, cadd w v) :: l' else (h, w) :: accumulate g v l'
    end.
  Fixpoint mul_row (g : gen) (c : car A) (r : list (gen * car A)) (acc : list (gen * car A)) : result (list (gen * car A)) :=
    match r with
    | [] => Ok acc
    | (h, d) :: r' => bind (gen_mul g h) (fun gh => mul_row g c r' (accumulate gh (cmul c d) acc))
    end.
  Fixpoint mul_rows (l r : list (gen * car A)) (acc : list (gen * car A)) : result (list (gen * car A)) :=
    match l with
    | [] => Ok acc
    | (g, c) :: l' => bind (mul_row g c r acc) (fun acc' => mul_rows l' r acc')
    end.
  (** src/element.cc:251-252: sort the pairs by the generator *)
  Fixpoint insert_pair (x : gen * car A) (l : list (gen * car A)) : list (gen * car A) :=
    match l with
    | [] => [x]
    | y :: l' => if deglex (fst y) (fst x) then y :: insert_pair x l' else x :: l
    end.
  Fixpoint sort_pairs (l : list (gen * car A)) : list (gen * car A) :=
    match l with [] => [] | x :: l' => insert_pair x (sort_pairs l') end.
  (** src/element.cc:240-266: the product of two nonzero elements over the same ring *)
  Definition mul_same (x y : elem) : result elem :=
    bind (mul_rows (combine (basis (emodule x)) (coeffs x)) (combine (basis (emodule y)) (coeffs y)) []) (fun products =>
    let sorted := sort_pairs products in
    bind (make (map fst sorted) (mring (emodule x))) (fun M =>
    if basis_eqb (basis M) (map fst sorted) then Ok (mkElem M (map snd sorted)) else Err AssertionFailed)).
  (** src/element.cc:228-267 operator*= *)
  Definition mul (x y : elem) : result elem :=
    if negb (nonzero x) then Ok x
    else if negb (nonzero y) then Ok y
    else if par_eqb (mring (emodule x)) (mring (emodule y)) then mul_same x y
    else bind (compositum (mring (emodule x)) (mring (emodule y))) (fun p =>
         bind (make (basis (emodule x)) p) (fun M => bind (promote x M) (fun x' =>
         bind (make (basis (emodule y)) p) (fun N => bind (promote y N) (fun y' => mul_same x' y'))))).
  (** src/element.cc:270-272 operator*=(RealNumber) *)
  Definition mul_real (x : elem) (g : gen) : result elem :=
    bind (make [g] (mring (emodule x))) (fun M => bind (module_gen M 0) (fun y => mul x y)).

  (** src/element.cc:67-81: the coefficients are changed one after the other, in place;
      when an exception is thrown the previous ones stay changed, and the one at which it
      is thrown is in the state in which the ring's operation left it (src/integer_ring.cc:
      60-84 works in two steps for rational scalars).  The element after the call, and
      whether it has thrown. *)
  Fixpoint scale (f : car A -> result (car A)) (left : car A -> car A) (cs : list (car A)) : list (car A) * option exn :=
    match cs with
    | [] => ([], None)
    | c :: cs' => match f c with
                  | Err e => (left c :: cs', Some e)
                  | Ok c' => let (r, e) := scale f left cs' in (c' :: r, e)
                  end
    end.
  Definition imul_elem (x : elem) (s : scalar (car A)) : elem * option exn :=
    let (cs, e) := scale (fun c => imul c s) (fun c => imul_left c s) (coeffs x) in (mkElem (emodule x) cs, e).
  Definition idiv_elem (x : elem) (s : scalar (car A)) : elem * option exn :=
    let (cs, e) := scale (fun c => idiv c s) (fun c => idiv_left c s) (coeffs x) in (mkElem (emodule x) cs, e).
  (** The operators * and / on copies (boost::multiplicative): an exception discards the copy. *)
  Definition scaled (r : elem * option exn) : result elem := match r with (x, None) => Ok x | (_, Some e) => Err e end.
  Definition smul (x : elem) (s : scalar (car A)) : result elem := scaled (imul_elem x s).
  Definition sdiv (x : elem) (s : scalar (car A)) : result elem := scaled (idiv_elem x s).

  (** src/module.cc:200-214 Module::one.  For the integers only a generator 1/d is
      accepted.  [mpq_class(den, num)] is not canonicalised in the code: the sign of the
      denominator of the result is wrong when the generator is negative, and it is not
      a number when the generator is zero; here the quotient is the mathematical one
      and these cases are marked by [AssertionFailed]. *)
  Definition one_of (integers : bool) (M : module A) : result elem :=
    let fix loop (j : nat) (b : list gen) : result elem :=
      match b with
      | [] => Err LogicError
      | GRat q :: b' =>
          if integers then
            if qc_num q =? 1 then bind (module_gen M (Z.of_nat j)) (fun g => smul g (SZ (qc_den q))) else loop (S j) b'
          else if 0 <? qc_num q then bind (module_gen M (Z.of_nat j)) (fun g => smul g (SQ (/ q)))
          else Err AssertionFailed
      | _ :: b' => loop (S j) b'
      end in
    loop O (basis M).

  Fixpoint coeffs_eqb (l r : list (car A)) : bool :=
    match l, r with
    | [], [] => true
    | a :: l', b :: r' => ceqb a b && coeffs_eqb l' r'
    | _, _ => false
    end.
  (** src/element.cc:767-774 operator== *)
  Definition equal (x y : elem) : result bool :=
    bind (common x y) (fun '(x', y') => Ok (coeffs_eqb (coeffs x') (coeffs y'))).

  (** src/element.cc:745-764 operator optional<mpq_class> *)
  Fixpoint rational_loop (gs : list gen) (cs : list (car A)) (ret : Qc) : option Qc :=
    match gs, cs with
    | g :: gs', c :: cs' =>
        if cz c then rational_loop gs' cs' ret
        else match g with
             | GRat q => match crational c with None => None | Some r => rational_loop gs' cs' (ret + q * r) end
             | _ => None
             end
    | _, _ => Some ret
    end.
  Definition to_rational (x : elem) : option Qc := rational_loop (basis (emodule x)) (coeffs x) 0%Qc.
  (** src/element.cc:735-742 operator optional<mpz_class> *)
  Definition to_integer (x : elem) : option Z :=
    match to_rational x with
    | Some q => if qc_den q =? 1 then Some (qc_num q) else None
    | None => None
    end.
  (** src/element.cc:729-732 operator==(mpq_class), and 681-726 for integers *)
  Definition eq_rational (x : elem) (q : Qc) : bool :=
    match to_rational x with Some r => Qeq_bool r q | None => false end.
  Definition eq_integer (x : elem) (n : Z) : bool := eq_rational x (Qc_of_Z n).

  (** src/element.cc:777-801 operator==(RealNumber); [!rhs] is src/real_number.cc:44-47 *)
  Fixpoint eq_real_loop (gs : list gen) (cs : list (car A)) (r : gen) : bool :=
    match gs, cs with
    | g :: gs', c :: cs' =>
        if cz c then (if gen_eqb g r then false else eq_real_loop gs' cs' r)
        else if ceqb c (cone A) then (if gen_eqb g r then eq_real_loop gs' cs' r else false)
        else false
    | _, _ => true
    end.
  Definition gen_is_zero (g : gen) : bool := match g with GRat q => Qeq_bool q 0%Q | _ => false end.
  Definition eq_real (x : elem) (r : gen) : result bool :=
    if negb (nonzero x) then Ok (gen_is_zero r)
    else if has_gen (basis (emodule x)) r then Ok (eq_real_loop (basis (emodule x)) (coeffs x) r)
    else Err InvalidArgument.

  (** src/element.cc:900-918 simplify *)
  Definition simplify (x : elem) : result elem :=
    if forallb (fun c => negb (cz c)) (coeffs x) then Ok x
    else
      let gens := map fst (filter (fun '(_, c) => negb (cz c)) (combine (basis (emodule x)) (coeffs x))) in
      if Nat.eqb (length gens) (rank (emodule x)) then Ok x
      else bind (make gens (mring (emodule x))) (fun M => promote x M).

  (** src/element.cc:160-187 rationalCoefficients: the coordinates of the coefficients, filled up with zeros *)
  Definition rational_coefficients (x : elem) : list Qc :=
    flat_map (fun c => let l := coordinates c in l ++ repeat 0%Qc (degree_of (mring (emodule x)) - length l)) (coeffs x).

  (** src/element.cc:522-538 unit; the generator's element has the coefficient 1 at [i] *)
  Fixpoint unit_loop (gs : list gen) (cs : list (car A)) : bool :=
    match gs, cs with
    | g :: gs', c :: cs' =>
        if cz c then unit_loop gs' cs'
        else if negb (is_rational g) then false
        else if negb (cunit c) then false
        else unit_loop gs' cs'
    | _, _ => true
    end.
  Definition is_unit (x : elem) : bool := if negb (nonzero x) then false else unit_loop (basis (emodule x)) (coeffs x).
End Element.
Arguments emodule {A}. Arguments coeffs {A}. Arguments mkElem {A}. Arguments cz {A}. Arguments nonzero {A}. Arguments make_elem {A}.
Arguments zero_of {A}. Arguments module_gen {A}. Arguments of_value {A}. Arguments coefficient {A}. Arguments promote {A}. Arguments promote_loop {A}.
Arguments common {A}. Arguments add_coeffs {A}. Arguments add {A}. Arguments opp {A}. Arguments sub {A}. Arguments accumulate {A}.
Arguments mul_row {A}. Arguments mul_rows {A}. Arguments insert_pair {A}. Arguments sort_pairs {A}. Arguments mul_same {A}. Arguments mul {A}.
Arguments mul_real {A}. Arguments scale {A}. Arguments imul_elem {A}. Arguments idiv_elem {A}. Arguments scaled {A}. Arguments smul {A}. Arguments sdiv {A}.
Arguments one_of {A}. Arguments coeffs_eqb {A}. Arguments equal {A}. Arguments rational_loop {A}. Arguments to_rational {A}. Arguments to_integer {A}.
Arguments eq_rational {A}. Arguments eq_integer {A}. Arguments eq_real_loop {A}. Arguments eq_real {A}. Arguments simplify {A}.
Arguments rational_coefficients {A}. Arguments unit_loop {A}. Arguments is_unit {A}.

(** src/element.cc:128-144: an element over a larger ring from an element over the
    integers or the rationals; the module over the larger ring is over its trivial
    field Ring(). *)
Definition change_ring {A B : ring} (f : car A -> car B) (x : elem A) : result (elem B) :=
  bind (make (basis (emodule x)) (trivial_par B)) (fun M => make_elem M (map f (coeffs x))).
Definition int_to_rat : car int_ring -> car rat_ring := Qc_of_Z.
Definition int_to_quad : car int_ring -> car quad_ring := fun n => quad_of_q (Qc_of_Z n).
Definition rat_to_quad : car rat_ring -> car quad_ring := quad_of_q.
