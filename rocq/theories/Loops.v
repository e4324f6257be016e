(** Model of the operations of elements that look at approximations: Element::arb,
    order, floor, ceil, floordiv and the conversion to double, src/element.cc.

    The balls of the generators and of the coefficients are parameters [garb], [carb]
    (RealNumber::arb and Ring::arb).  Loops are bounded by a number of rounds: the result is
    [None] when they did not suffice.  The precision is a mathematical integer, that
    it overflows at 2^63 is not modelled. *)
From Coq Require Import ZArith QArith Qcanon Bool List.
From Verif Require Import Arf Arb Real Gen Ring Module Element.
Import ListNotations.
Open Scope Z_scope.

(** The ring's arb: src/integer_ring.cc:37-39 (exact), src/rational_field.cc:37-39. *)
Definition int_arb (c : Z) (_ : Z) : arb := arb_of_Z c.
Definition rat_arb (mag_up : arf -> arf) (c : Qc) (prec : Z) : arb := arb_of_Q mag_up prec (qc_num c) (qc_den c).

Section Loops.
  Context {A : ring}.
  Local Notation elem := (elem A).
  Variable mag_up : arf -> arf.
  Variable garb : gen -> Z -> arb.
  Variable carb : car A -> Z -> arb.

  (** src/element.cc:198-200: ret += (generator * coefficient)(prec).  [+=] takes the
      precision from its right hand side (exact-real/yap/arb.hpp). *)
  Fixpoint arb_sum (prec : Z) (gs : list gen) (cs : list (car A)) (ret : arb) : arb :=
    match gs, cs with
    | g :: gs', c :: cs' =>
        arb_sum prec gs' cs' (Arb.arb_add mag_up (Some prec) ret (Arb.arb_mul mag_up (Some prec) (garb g prec) (carb c prec)))
    | _, _ => ret
    end.
  (** src/element.cc:202: arb_rel_accuracy_bits of an exact ball is ARF_PREC_EXACT, the largest
      value of a [long], and therefore at least [accuracy]. *)
  Definition is_accurate (accuracy : Z) (b : arb) : bool := arb_is_exact b || (accuracy <=? rel_accuracy_bits b).
  (** src/element.cc:197-206 *)
  Fixpoint arb_loop (rounds : nat) (x : elem) (accuracy prec : Z) : option arb :=
    match rounds with
    | O => None
    | S rounds' =>
        let ret := arb_sum prec (basis (emodule x)) (coeffs x) (arb_of_Z 0) in
        if is_accurate accuracy ret then Some ret else arb_loop rounds' x accuracy (prec * 2)
    end.
  (** src/element.cc:190-207 arb; [ceil(log2(rank))] is computed exactly here (see FloatLog.v). *)
  Definition elem_arb (rounds : nat) (x : elem) (accuracy : Z) : option arb :=
    if negb (nonzero x) then Some (arb_of_Z 0)
    else arb_loop rounds x accuracy (accuracy + Z.log2_up (Z.of_nat (rank (emodule x)))).

  (** The loops below try a precision, and double it while there is no answer.  [test]
      is [None] if the approximation does not exist (or is not specified), and
      [Some None] if there is no answer with this precision. *)
  Fixpoint search {T} (rounds : nat) (test : Z -> option (option T)) (prec : Z) : option T :=
    match rounds with
    | O => None
    | S rounds' =>
        match test prec with
        | None => None
        | Some (Some r) => Some r
        | Some None => search rounds' test (prec * 2)
        end
    end.

  (** src/element.cc:87-104 lt, once it is known that the operands are not ==. *)
  Definition lt_search (rounds : nat) (x : elem) (test : Z -> arb -> option (option bool)) : option bool :=
    search rounds (fun prec => match elem_arb rounds x prec with Some self => test prec self | None => None end) ARB_PRECISION_FAST.
  (** The result of a comparison: the test for == can throw. *)
  Definition lt (rounds : nat) (x : elem) (eq : result bool) (test : Z -> arb -> option (option bool)) : option (result bool) :=
    match eq with
    | Err e => Some (Err e)
    | Ok true => Some (Ok false)
    | Ok false => option_map Ok (lt_search rounds x test)
    end.
  (** src/element.cc:106-111 gt *)
  Definition gt (rounds : nat) (x : elem) (eq : result bool) (test : Z -> arb -> option (option bool)) : option (result bool) :=
    match eq with
    | Err e => Some (Err e)
    | Ok true => Some (Ok false)
    | Ok false => option_map (fun r => match r with Ok b => Ok (negb b) | Err e => Err e end) (lt rounds x eq test)
    end.
  (** The comparisons of balls, src/element.cc:93-99: with an element, a real number, an
      integer (via Arb), a rational (src/arb.cc:264-267). *)
  Definition test_elem (rounds : nat) (y : elem) (prec : Z) (self : arb) : option (option bool) :=
    option_map (fun other => op_lt self other) (elem_arb rounds y prec).
  Definition test_real (g : gen) (prec : Z) (self : arb) : option (option bool) := Some (op_lt self (garb g prec)).
  Definition test_int (n : Z) (_ : Z) (self : arb) : option (option bool) := Some (op_lt self (arb_of_Z n)).
  Definition test_rat (q : Qc) (_ : Z) (self : arb) : option (option bool) := Some (opq_lt mag_up self (qc_num q) (qc_den q)).
  (** src/element.cc:568-571 and 575-680 *)
  Definition lt_elem (rounds : nat) (x y : elem) := lt rounds x (equal x y) (test_elem rounds y).
  Definition lt_real (rounds : nat) (x : elem) (g : gen) := lt rounds x (eq_real x g) (test_real g).
  Definition gt_real (rounds : nat) (x : elem) (g : gen) := gt rounds x (eq_real x g) (test_real g).
  Definition lt_int (rounds : nat) (x : elem) (n : Z) := lt rounds x (Ok (eq_integer x n)) (test_int n).
  Definition gt_int (rounds : nat) (x : elem) (n : Z) := gt rounds x (Ok (eq_integer x n)) (test_int n).
  Definition lt_rat (rounds : nat) (x : elem) (q : Qc) := lt rounds x (Ok (eq_rational x q)) (test_rat q).
  Definition gt_rat (rounds : nat) (x : elem) (q : Qc) := gt rounds x (Ok (eq_rational x q)) (test_rat q).
  (** x > y for elements is y < x (boost::totally_ordered, exact-real/element.hpp). *)
  Definition gt_elem (rounds : nat) (x y : elem) := lt_elem rounds y x.

  (** Both bounds of the ball agree under [f]. *)
  Definition bounds_agree {T} (f : arf -> T) (eqb : T -> T -> bool) (b : option arb) : option (option T) :=
    match b with
    | None => None
    | Some b =>
        match arb_interval b with
        | None => None
        | Some (lower, upper) => Some (if eqb (f lower) (f upper) then Some (f lower) else None)
        end
    end.
  (** src/element.cc:540-552 floor, 552-565 ceil *)
  Definition elem_floor (rounds : nat) (x : elem) : option Z :=
    match to_integer x with
    | Some n => Some n
    | None => search rounds (fun prec => bounds_agree arf_floor Z.eqb (elem_arb rounds x prec)) ARB_PRECISION_FAST
    end.
  Definition elem_ceil (rounds : nat) (x : elem) : option Z :=
    match to_integer x with
    | Some n => Some n
    | None => search rounds (fun prec => bounds_agree arf_ceil Z.eqb (elem_arb rounds x prec)) ARB_PRECISION_FAST
    end.
  (** src/element.cc:809-847 operator double; a rational is rounded to 53 bits first. *)
  Definition elem_double (rounds : nat) (x : elem) : option arf :=
    match to_rational x with
    | Some q => Some (arf_to_double (round_q NEAR 53 (qc_num q) (qc_den q) 0))
    | None => search rounds (fun prec => bounds_agree arf_to_double arf_eqb (elem_arb rounds x prec)) 55
    end.

  (** src/element.cc:972-975: the hash is the standard library's hash of the double. *)
  Definition elem_hash (hash_double : arf -> Z) (rounds : nat) (x : elem) : option Z := option_map hash_double (elem_double rounds x).

  (** src/element.cc:477-505: the operands have the same coefficients up to an integer factor. *)
  Fixpoint exact_floor (xs ys : list (car A)) (floor : option Z) : option Z :=
    match xs, ys with
    | a :: xs', b :: ys' =>
        if negb (cz a) then
          if negb (cz b) then
            let f := cfloor (cquo a b) in
            if match floor with Some f' => negb (f' =? f) | None => false end then None
            else match imul b (SZ f) with
                 | Ok t => if ceqb t a then exact_floor xs' ys' (Some f) else None
                 | Err _ => None
                 end
          else None
        else if negb (cz b) then None
        else exact_floor xs' ys' floor
    | _, _ => floor
    end.
  (** src/element.cc:507-519: one round; [div] not certainly different from zero
      means that there is no answer yet. *)
  Definition floordiv_test (rounds : nat) (x y : elem) (prec : Z) : option (option Z) :=
    match elem_arb rounds y prec with
    | None => None
    | Some div =>
        match op_ne div (arb_of_Z 0) with
        | None => Some None
        | Some _ =>
            match elem_arb rounds x prec with
            | None => None
            | Some self => bounds_agree arf_floor Z.eqb (Some (arb_div mag_up prec self div))
            end
        end
    end.
  (** src/element.cc:467-520 floordiv *)
  Definition floordiv (rounds : nat) (x y : elem) : option (result Z) :=
    if negb (nonzero x) then Some (Ok 0)
    else match common x y with
         | Err e => Some (Err e)
         | Ok (x', y') =>
             if negb (nonzero x') then Some (Ok 0)
             else match exact_floor (coeffs x') (coeffs y') None with
                  | Some n => Some (Ok n)
                  | None => option_map Ok (search rounds (floordiv_test rounds x' y') ARB_PRECISION_FAST)
                  end
         end.
End Loops.
