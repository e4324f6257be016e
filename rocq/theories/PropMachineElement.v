(** Property C111: arithmetic of elements whose generators have any degree, when exponents are machine integers. *)
From Coq Require Import ZArith QArith Qcanon Bool List Lia Reals Lra.
From Verif Require Import Gen SpecGen GenProofs Ring SpecRing RingProofs Module Element SpecModule ModuleProofs ElementProofs ElementProofs2 ElementProofs3 ElementProofs4 Division DivisionProofs PropModule PropElement PropDivision
  Machine SpecMachine MachineProofs MachineElement SpecMachineElement MachineElementProofs.
Import ListNotations.
Open Scope Z_scope.

Lemma fine_low A S (x : elem A) : elem_wf S x -> low x -> fine_elem x.
Proof. intros [[W _] _] H. apply Forall_forall. intros g Ig. split; [exact (proj1 (Forall_forall _ _) W g Ig)|exact (H g Ig)]. Qed.

(** Sums and differences are right, whatever overflow does, as long as the degrees of the generators are at most 2^31 - 1;
    exceptions are those of Element.v. *)
Theorem C111_sum_partial : forall A S, lawful A S -> forall over (x y : elem A), elem_wf S x -> elem_wf S y -> low x -> low y ->
  madd over (stored_elem x) (stored_elem y) = stored_as stored_elem (add x y) /\
  forall z, add x y = Ok z -> elem_wf S z /\ low z /\ forall rho, (value S rho z = value S rho x + value S rho y)%R.
Proof.
  intros A S L over x y Hx Hy Lx Ly. split; [apply add_machine; [exact (fine_low A S x Hx Lx)|exact (fine_low A S y Hy Ly)]|].
  intros z Hz. destruct (add_value A S L x y z Hx Hy Hz) as [Wz Vz]. split; [exact Wz|]. split; [|exact Vz].
  intros g Ig. apply (add_spec A S L x y z Hx Hy Hz) in Ig. destruct Ig as [Ig|Ig]; [exact (Lx g Ig)|exact (Ly g Ig)].
Qed.
Theorem C111_difference_partial : forall A S, lawful A S -> forall over (x y : elem A), elem_wf S x -> elem_wf S y -> low x -> low y ->
  msub over (stored_elem x) (stored_elem y) = stored_as stored_elem (sub x y) /\
  forall z, sub x y = Ok z -> elem_wf S z /\ low z /\ forall rho, (value S rho z = value S rho x - value S rho y)%R.
Proof.
  intros A S L over x y Hx Hy Lx Ly. split; [apply sub_machine_elem; [exact (fine_low A S x Hx Lx)|exact (fine_low A S y Hy Ly)]|].
  intros z Hz. destruct (sub_value A S L x y z Hx Hy Hz) as [Wz Vz]. split; [exact Wz|]. split; [|exact Vz].
  intros g Ig. apply (sub_spec A S L x y z Hx Hy Hz) in Ig. destruct Ig as [Ig|Ig]; [exact (Lx g Ig)|exact (Ly g Ig)].
Qed.
(** Products are right as long as the degrees of all products of a generator of one and a generator of the other are. *)
Theorem C111_product_partial : forall A S, lawful A S -> forall over (x y : elem A), elem_wf S x -> elem_wf S y -> low x -> low y -> low_product x y ->
  mmul over (stored_elem x) (stored_elem y) = stored_as stored_elem (mul x y) /\
  forall z, mul x y = Ok z -> elem_wf S z /\ low z /\ forall rho, (value S rho z = value S rho x * value S rho y)%R.
Proof.
  intros A S L over x y Hx Hy Lx Ly Lo. pose proof (fine_low A S x Hx Lx) as Fx. pose proof (fine_low A S y Hy Ly) as Fy.
  split; [apply mul_machine_elem; assumption|].
  intros z Hz. destruct (mul_value A S L x y z Hx Hy Hz) as [Wz Vz]. split; [exact Wz|]. split; [|exact Vz].
  destruct (nonzero x) eqn:Nx; [destruct (nonzero y) eqn:Ny|].
  - intros k Ik. apply (proj2 (proj2 (mul_spec A S L x y z Hx Hy Hz)) Nx Ny) in Ik. destruct Ik as (g & h & Ig & Ih & E).
    exact (proj2 (mul_fine g h k (proj1 (Forall_forall _ _) Fx g Ig) (proj1 (Forall_forall _ _) Fy h Ih) (Lo g h Ig Ih) E)).
  - unfold mul in Hz. rewrite Nx, Ny in Hz. cbn [negb] in Hz. injection Hz as <-. exact Ly.
  - unfold mul in Hz. rewrite Nx in Hz. cbn [negb] in Hz. injection Hz as <-. exact Lx.
Qed.
Theorem C111_real_partial : forall A S, lawful A S -> forall over (x : elem A) g, elem_wf S x -> gen_wf g -> low x -> Z.of_nat (degree g) <= 2 ^ 31 - 1 ->
  (forall h, In h (basis (emodule x)) -> Z.of_nat (degree h + degree g) <= 2 ^ 31 - 1) ->
  mmul_real over (stored_elem x) (stored g) = stored_as stored_elem (mul_real x g) /\
  forall z, mul_real x g = Ok z -> elem_wf S z /\ forall rho, (value S rho z = value S rho x * gen_val rho g)%R.
Proof.
  intros A S L over x g Hx Wg Lx Lg Lo. split; [apply mul_real_machine; [exact (fine_low A S x Hx Lx)|split; assumption|exact Lo]|].
  intros z Hz. exact (mul_real_spec A S L x g z Hx Wg Hz).
Qed.
(** Quotients need degrees of at most 2^30 - 1: then they are found whenever there is one, and those found are right. *)
Theorem C111_quotient_partial : forall A S, lawful A S -> forall over (p : par A) (x y : elem A), standard S p x -> standard S p y ->
  (forall g, In g (basis (emodule x)) \/ In g (basis (emodule y)) -> Z.of_nat (degree g) <= 2 ^ 30 - 1) -> nonzero y = true ->
  (forall fuel, mtruediv over fuel (stored_elem x) (stored_elem y) = option_map (stored_as (option_map stored_elem)) (truediv fuel x y)) /\
  exists fuel r, mtruediv over fuel (stored_elem x) (stored_elem y) = Some (Some (Ok r)) /\
    match r with
    | Some q => exists z, q = stored_elem z /\ standard S p z /\ forall rho, (value S rho z * value S rho y = value S rho x)%R
    | None => forall w, standard S p w -> ~ forall rho, (value S rho w * value S rho y = value S rho x)%R
    end.
Proof.
  intros A S L over p x y Hx Hy D Ny.
  assert (E : forall fuel, mtruediv over fuel (stored_elem x) (stored_elem y) = option_map (stored_as (option_map stored_elem)) (truediv fuel x y)).
  { intros fuel. apply (truediv_machine over A S L p fuel x y Hx Hy); intros g Ig; pose proof (D g); change (2 ^ 31) with (2 * 2 ^ 30); intuition lia. }
  split; [exact E|]. destruct (C28_terminates A S L p x y Hx Hy Ny) as (n & r & T). specialize (T n (le_n n)). exists n. rewrite E, T. cbn [option_map]. unfold stored_as.
  exists (option_map stored_elem r). split; [reflexivity|]. destruct r as [z|]; cbn [option_map].
  - exists z. split; [reflexivity|]. destruct (C28_sound A S L p x y z n Hx Hy T) as (Hz & Vz & _). split; assumption.
  - intros w Hw V. destruct (std_mul A S L p w y Hw Hy) as (t & Et & Ht & Vt).
    assert (Sm : same (mul w y) (Ok x)) by (apply (std_same A S L p t x Ht Hx); [intros rho; rewrite Vt; apply V|exact Et|reflexivity]).
    destruct (C28_complete A S L p x y w n (Ok None) Hx Hy Hw Ny Sm T) as (z & C & _). discriminate.
Qed.
(** Equality and simplification. *)
Theorem C111_equal_partial : forall A S, lawful A S -> forall over (x y : elem A), elem_wf S x -> elem_wf S y -> low x -> low y -> no_zero_gen (basis (emodule x)) -> no_zero_gen (basis (emodule y)) ->
  mequal over (stored_elem x) (stored_elem y) = stored_as (fun b => b) (equal x y) /\
  forall b, equal x y = Ok b -> (b = true <-> forall rho, value S rho x = value S rho y).
Proof.
  intros A S L over x y Hx Hy Lx Ly Zx Zy. split; [apply equal_machine; [exact (fine_low A S x Hx Lx)|exact (fine_low A S y Hy Ly)]|].
  intros b E. exact (equal_value A S L x y b Hx Hy Zx Zy E).
Qed.
Theorem C111_simplify_partial : forall A S, lawful A S -> forall over (x : elem A), elem_wf S x -> low x ->
  exists y, msimplify over (stored_elem x) = Some (Ok (stored_elem y)) /\ elem_wf S y /\ low y /\ (forall rho, value S rho y = value S rho x) /\ Forall (fun c => c <> czero A) (coeffs y).
Proof.
  intros A S L over x Hx Lx. destruct (simplify_spec A S L x Hx) as (y & E & Wy & _ & Vy & Gy & Ny). exists y. rewrite (simplify_machine over x (fine_low A S x Hx Lx)), E.
  split; [reflexivity|]. split; [exact Wy|]. split; [|split; [exact Vy|exact Ny]]. intros g Ig. apply Gy in Ig. destruct Ig as (c & Ic & _). exact (Lx g (in_combine_l _ _ _ _ Ic)).
Qed.
(** So powers of an element are right as long as the exponent times the largest degree is at most 2^31 - 1. *)
Theorem C111_power_partial : forall A S, lawful A S -> forall over (p : par A) (x : elem A) d n, standard S p x -> degrees x d -> 0 <= d -> (Z.of_nat n + 1) * d <= 2 ^ 31 - 1 ->
  exists z, times (mmul over) n (stored_elem x) = Some (Ok (stored_elem z)) /\ standard S p z /\ degrees z ((Z.of_nat n + 1) * d) /\
    forall rho, value S rho z = (value S rho x ^ (n + 1))%R.
Proof.
  intros A S L over p x d n Hx Dx D0. induction n as [|n IH]; intros B.
  - exists x. split; [reflexivity|]. split; [exact Hx|]. split; [intros g Ig; pose proof (Dx g Ig); lia|]. intros rho. cbn. ring.
  - destruct IH as (z & E & Hz & Dz & Vz); [lia|]. cbn [times]. rewrite E.
    assert (Lz : low z) by (intros g Ig; pose proof (Dz g Ig); lia).
    assert (Lx : low x) by (intros g Ig; pose proof (Dx g Ig); lia).
    assert (Lo : low_product z x) by (intros g h Ig Ih; pose proof (Dz g Ig); pose proof (Dx h Ih); lia).
    destruct (C111_product_partial A S L over z x (proj1 Hz) (proj1 Hx) Lz Lx Lo) as [M _].
    destruct (std_mul A S L p z x Hz Hx) as (t & Et & Ht & Vt). rewrite M, Et. exists t. split; [reflexivity|]. split; [exact Ht|]. split.
    + destruct (nonzero z) eqn:Nz; [destruct (nonzero x) eqn:Nx|].
      * intros k Ik. apply (proj2 (proj2 (mul_spec A S L z x t (proj1 Hz) (proj1 Hx) Et)) Nz Nx) in Ik. destruct Ik as (g & h & Ig & Ih & Ek).
        destruct (gen_mul_expo g h k) as (_ & Dk & _); [exact (standard_wf A S p z g Hz Ig)|exact (standard_wf A S p x h Hx Ih)|exact Ek|].
        rewrite Dk. pose proof (Dz g Ig). pose proof (Dx h Ih). lia.
      * unfold mul in Et. rewrite Nz, Nx in Et. cbn [negb] in Et. injection Et as <-. intros g Ig. pose proof (Dx g Ig). nia.
      * unfold mul in Et. rewrite Nz in Et. cbn [negb] in Et. injection Et as <-. intros g Ig. pose proof (Dz g Ig). nia.
    + intros rho. rewrite Vt, Vz. rewrite <- (tech_pow_Rmult _ (n + 1)). ring.
Qed.
(** Elements 3 + 2 a + 5 a b and -1 + b of PropElement.v. *)
Example C111_example :
  elem_wf int_sem ex /\ elem_wf int_sem ey /\ low ex /\ low ey /\ low_product ex ey /\ standard int_sem tt ex /\ standard int_sem tt ey /\ nonzero ey = true /\
  (forall g, In g (basis (emodule ex)) \/ In g (basis (emodule ey)) -> Z.of_nat (degree g) <= 2 ^ 30 - 1) /\
  exists s t q, madd undefined (stored_elem ex) (stored_elem ey) = Some (Ok s) /\ mcoeffs s = [2; 2; 1; 5] /\
    mmul undefined (stored_elem ex) (stored_elem ey) = Some (Ok t) /\ mcoeffs t = [-3; -2; 3; -3; 5] /\ mbasis (mmod t) = [MRat 1; MAtom 5; MAtom 7; MProd [(5, 1); (7, 1)]; MProd [(5, 1); (7, 2)]] /\
    mtruediv undefined 10 t (stored_elem ey) = Some (Some (Ok (Some q))) /\ mnonzero q = true.
Proof.
  pose proof (proj1 ex_standard) as Hx. pose proof (proj1 ey_standard) as Hy.
  assert (D : forall g, In g (basis (emodule ex)) \/ In g (basis (emodule ey)) -> Z.of_nat (degree g) <= 2).
  { intros g [Ig|Ig]; cbn in Ig; intuition (subst g; cbn; lia). }
  split; [exact Hx|]. split; [exact Hy|]. split; [intros g Ig; pose proof (D g (or_introl Ig)); lia|]. split; [intros g Ig; pose proof (D g (or_intror Ig)); lia|].
  split; [intros g h Ig Ih; pose proof (D g (or_introl Ig)); pose proof (D h (or_intror Ih)); lia|].
  split; [exact ex_standard|]. split; [exact ey_standard|].
  split; [reflexivity|]. split; [intros g Ig; pose proof (D g Ig); lia|].
  eexists. eexists. eexists. split; [vm_compute; reflexivity|]. split; [reflexivity|]. split; [vm_compute; reflexivity|]. split; [reflexivity|]. split; [vm_compute; reflexivity|].
  split; [vm_compute; reflexivity|reflexivity].
Qed.

(** The element 1 g over the integers, and x, x * x, (x * x) * (x * x), ...: [n] times. *)
Definition alone_in (g : mgen) : melem int_ring := mkMElem (mkMModule (A := int_ring) [g] tt) [1%Z].
Fixpoint squares (over : Z -> option Z) (n : nat) (x : melem int_ring) : outcome (melem int_ring) :=
  match n with O => Some (Ok x) | S k => match squares over k x with Some (Ok y) => mmul over y y | r => r end end.
(** x^(2^30) * x is an element like any other, but dividing it by x is undefined: x is multiplied with the (unused) generator x^(2^30 + 1) of the common module. *)
Theorem C111_quotient_refuted :
  (forall over, squares over 30 (alone_in (MAtom 1)) = Some (Ok (alone_in (MProd [(1, 2 ^ 30)])))) /\
  (forall over, mmul over (alone_in (MProd [(1, 2 ^ 30)])) (alone_in (MAtom 1)) = Some (Ok (alone_in (MProd [(1, 2 ^ 30 + 1)])))) /\
  (forall fuel, mtruediv undefined (S fuel) (alone_in (MProd [(1, 2 ^ 30 + 1)])) (alone_in (MAtom 1)) = Some None) /\
  squares undefined 31 (alone_in (MAtom 1)) = None.
Proof.
  split; [intros over; vm_compute; reflexivity|]. split; [intros over; vm_compute; reflexivity|]. split; [intros fuel; vm_compute; reflexivity|]. vm_compute. reflexivity.
Qed.
(** The sum of x^(2^30) y^(2^30) and z^2 is undefined too; where overflow wraps around, the generators are in the wrong order. *)
Theorem C111_sum_refuted : let c := alone_in (MProd [(1, 2 ^ 30); (2, 2 ^ 30)]) in let d := alone_in (MProd [(3, 2)]) in
  (forall over, mmul over (alone_in (MProd [(1, 2 ^ 30)])) (alone_in (MProd [(2, 2 ^ 30)])) = Some (Ok c)) /\
  madd undefined c d = None /\ exists s, madd wraps c d = Some (Ok s) /\ mbasis (mmod s) = [MProd [(1, 2 ^ 30); (2, 2 ^ 30)]; MProd [(3, 2)]].
Proof.
  cbv zeta. split; [intros over; vm_compute; reflexivity|]. split; [vm_compute; reflexivity|]. eexists. split; vm_compute; reflexivity.
Qed.
