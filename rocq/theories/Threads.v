(** Elements used by several threads: the operations of Loops.v as programs that call RealNumber::arf, run by threads
    that share all caches (SharedMany.v).

    [client R] is what a thread does: it has a result, or it calls x.arf(prec) and continues with what it
    returns.  Other than the caches nothing is shared that changes: elements, modules and coefficients are only read by
    the const methods modelled here. *)
From Coq Require Import ZArith QArith Qcanon Bool List.
From Verif Require Import Arf Arb Real Cache Shared SharedMany Gen Ring Module Element Loops.
Import ListNotations.
Open Scope Z_scope.

Inductive client (R : Type) := Done (r : R) | Want (x : rnum) (prec : Z) (continue : arf -> client R).
Arguments Done {R}. Arguments Want {R}.
(** first c, then d with its result *)
Fixpoint andthen {R S} (c : client R) (d : R -> client S) : client S :=
  match c with Done r => d r | Want x prec k => Want x prec (fun a => andthen (k a) d) end.

Section Crowd.
  Context {R : Type}.
  Variable digits : Z -> Z -> arf.
  (** What a thread is doing: about to continue, or in a call of arf *)
  Inductive activity := Ready (c : client R) | Waiting (continue : arf -> client R).
  Record crowd := mkCrowd { inside : world; doing : nat -> activity }.
  Definition start (jobs : nat -> client R) : crowd := mkCrowd world_init (fun t => Ready (jobs t)).
  Definition now (m : crowd) (t : nat) (a : activity) : nat -> activity := fun u => if Nat.eqb u t then a else doing m u.
  (** One step of thread t: it calls arf, or makes a step in the call (src/real_number.cc:195-219, see [tick]) and takes the
      result if the call has returned. *)
  Definition move_on (m : crowd) (t : nat) : crowd :=
    match doing m t with
    | Ready (Done _) => m
    | Ready (Want x prec k) => mkCrowd (occur digits (inside m) (Asks t x prec)) (now m t (Waiting k))
    | Waiting k =>
        let w := occur digits (inside m) (Ticks t) in
        mkCrowd w (match threads w t, results w with Idle, (_, _, _, a) :: _ => now m t (Ready (k a)) | _, _ => doing m end)
    end.
  Definition work (schedule : list nat) (m : crowd) : crowd := fold_left move_on schedule m.
  Definition outcome (m : crowd) (t : nat) : option R := match doing m t with Ready (Done r) => Some r | _ => None end.
End Crowd.

(** * The operations of elements, as in Loops.v *)
Section Clients.
  Context {A : ring}.
  Local Notation elem := (elem A).
  Variable mag_up : arf -> arf.
  Variable number_of : gen -> rnum.
  Variable carb : car A -> Z -> arb.

  (** src/real_number.cc:63-83 arb *)
  Definition arb_client (g : gen) (prec : Z) : client arb :=
    if prec <=? rel_accuracy_bits arb_zero_pm_inf then Done arb_zero_pm_inf
    else Want (number_of g) prec (fun m => Done (refine_ball m prec)).
  (** src/element.cc:198-200 *)
  Fixpoint sum_client (prec : Z) (gs : list gen) (cs : list (car A)) (ret : arb) : client arb :=
    match gs, cs with
    | g :: gs', c :: cs' =>
        andthen (arb_client g prec) (fun b => sum_client prec gs' cs' (Arb.arb_add mag_up (Some prec) ret (Arb.arb_mul mag_up (Some prec) b (carb c prec))))
    | _, _ => Done ret
    end.
  (** src/element.cc:197-206 *)
  Fixpoint loop_client (rounds : nat) (x : elem) (accuracy prec : Z) : client (option arb) :=
    match rounds with
    | O => Done None
    | S rounds' => andthen (sum_client prec (basis (emodule x)) (coeffs x) (arb_of_Z 0)) (fun ret => if is_accurate accuracy ret then Done (Some ret) else loop_client rounds' x accuracy (prec * 2))
    end.
  (** src/element.cc:190-207 Element::arb *)
  Definition elem_arb_client (rounds : nat) (x : elem) (accuracy : Z) : client (option arb) :=
    if negb (nonzero x) then Done (Some (arb_of_Z 0))
    else loop_client rounds x accuracy (accuracy + Z.log2_up (Z.of_nat (rank (emodule x)))).
  Fixpoint search_client {T} (rounds : nat) (test : Z -> client (option (option T))) (prec : Z) : client (option T) :=
    match rounds with
    | O => Done None
    | S rounds' => andthen (test prec) (fun r => match r with None => Done None | Some (Some r) => Done (Some r) | Some None => search_client rounds' test (prec * 2) end)
    end.
  (** src/element.cc:87-104 lt *)
  Definition lt_client (rounds : nat) (x : elem) (eq : result bool) (test : Z -> arb -> client (option (option bool))) : client (option (result bool)) :=
    match eq with
    | Err e => Done (Some (Err e))
    | Ok true => Done (Some (Ok false))
    | Ok false => andthen (search_client rounds (fun prec => andthen (elem_arb_client rounds x prec) (fun b => match b with Some self => test prec self | None => Done None end)) ARB_PRECISION_FAST)
                          (fun r => Done (option_map Ok r))
    end.
  (** src/element.cc:568-571 operator<(Element), and with real numbers, integers and rationals: 575-680 *)
  Definition lt_elem_client (rounds : nat) (x y : elem) := lt_client rounds x (equal x y) (fun prec self => andthen (elem_arb_client rounds y prec) (fun b => Done (option_map (fun other => op_lt self other) b))).
  Definition lt_real_client (rounds : nat) (x : elem) (g : gen) := lt_client rounds x (eq_real x g) (fun prec self => andthen (arb_client g prec) (fun other => Done (Some (op_lt self other)))).
  Definition lt_int_client (rounds : nat) (x : elem) (n : Z) := lt_client rounds x (Ok (eq_integer x n)) (fun prec self => Done (test_int n prec self)).
  Definition lt_rat_client (rounds : nat) (x : elem) (q : Qc) := lt_client rounds x (Ok (eq_rational x q)) (fun prec self => Done (test_rat mag_up q prec self)).
  (** src/element.cc:540-552 floor, 554-566 ceil, 809-847 operator double *)
  Definition floor_client (rounds : nat) (x : elem) : client (option Z) :=
    match to_integer x with
    | Some n => Done (Some n)
    | None => search_client rounds (fun prec => andthen (elem_arb_client rounds x prec) (fun b => Done (bounds_agree arf_floor Z.eqb b))) ARB_PRECISION_FAST
    end.
  Definition ceil_client (rounds : nat) (x : elem) : client (option Z) :=
    match to_integer x with
    | Some n => Done (Some n)
    | None => search_client rounds (fun prec => andthen (elem_arb_client rounds x prec) (fun b => Done (bounds_agree arf_ceil Z.eqb b))) ARB_PRECISION_FAST
    end.
  Definition double_client (rounds : nat) (x : elem) : client (option arf) :=
    match to_rational x with
    | Some q => Done (Some (arf_to_double (round_q NEAR 53 (qc_num q) (qc_den q) 0)))
    | None => search_client rounds (fun prec => andthen (elem_arb_client rounds x prec) (fun b => Done (bounds_agree arf_to_double arf_eqb b))) 55
    end.
  (** src/element.cc:467-520 floordiv *)
  Definition floordiv_client (rounds : nat) (x y : elem) : client (option (result Z)) :=
    if negb (nonzero x) then Done (Some (Ok 0))
    else match common x y with
         | Err e => Done (Some (Err e))
         | Ok (x', y') =>
             if negb (nonzero x') then Done (Some (Ok 0))
             else match exact_floor (coeffs x') (coeffs y') None with
                  | Some n => Done (Some (Ok n))
                  | None =>
                      andthen (search_client rounds (fun prec =>
                        andthen (elem_arb_client rounds y' prec) (fun b =>
                          match b with
                          | None => Done None
                          | Some div =>
                              match op_ne div (arb_of_Z 0) with
                              | None => Done (Some None)
                              | Some _ => andthen (elem_arb_client rounds x' prec) (fun b =>
                                  match b with None => Done None | Some self => Done (bounds_agree arf_floor Z.eqb (Some (arb_div mag_up prec self div))) end)
                              end
                          end)) ARB_PRECISION_FAST)
                        (fun r => Done (option_map Ok r))
                  end
         end.
End Clients.
