(** Property C104: how many digits approximations, comparisons, floor, ceil and the conversion to double look at. *)
From Coq Require Import ZArith QArith Qcanon Bool List Reals Qreals Lra Lia.
From Flocq Require Import Core.
From Verif Require Import Arf Arb Real SpecArf SpecReal Gen SpecGen GenProofs Ring SpecRing RingProofs Module Element SpecModule ModuleProofs ElementProofs ElementProofs2 ElementProofs3 ElementProofs4 Loops SpecLoops Near Near2
  LoopsProofs LoopsProofs2 LoopsProofs3 LoopsProofs4 LoopsProofs5 Balls PropOrder PropFloor PropDouble SpecCost CostProofs LoopsCases PropLoops RealRefuted Fast48.
Import ListNotations.
Open Scope R_scope.

Lemma settled {A : ring} {T} P garb carb (f : (gen -> Z -> arb) -> (car A -> Z -> arb) -> option T) :
  (forall garb' carb', same_up_to P garb garb' -> same_up_to P carb carb' -> exists t, f garb carb = Some t /\ f garb' carb' = Some t) -> settled_by P garb carb f.
Proof.
  intros H. destruct (H garb carb) as (t & E & _); [intros ? ? _; reflexivity..|]. exists t. intros garb' carb' SG SC. destruct (H garb' carb' SG SC) as (t' & E1 & E2). congruence.
Qed.
Section Cost.
  Variable A : ring.
  Variable S : semantics A.
  Hypothesis L : lawful A S.
  Variable mag_up : arf -> arf.
  Hypothesis Hm : mag_up_ok mag_up.
  Hypothesis Ht : mag_up_tight mag_up.
  Variable rng : Z -> nat -> bool.
  Variable names : Z -> atom.
  Variable rho : Z -> R.
  Variable garb : gen -> Z -> arb.
  Variable carb : car A -> Z -> arb.
  Notation V := (value S rho).
  Notation library := (library_balls S rng names rho garb carb).
  Notation settled_by P f := (settled_by P garb carb f).

  (** arb(accuracy) *)
  Theorem C104_arb : forall x, elem_wf S x -> library x -> forall K, cancels S rho x K -> forall accuracy n, (5 <= accuracy)%Z -> (digits_needed x accuracy K <= accuracy * 2 ^ Z.of_nat n)%Z ->
    settled_by (2 * digits_needed x accuracy K) (fun garb carb => elem_arb mag_up garb carb (n + 1) x accuracy).
  Proof.
    intros x W B K HK acc n Ha Hn. apply settled. intros garb' carb' SG SC. rewrite Nat.add_1_r. apply (elem_arb_cost A S L mag_up Hm Ht garb carb rho x K acc garb' carb' _ n (library_priced A S rng names rho garb carb x K W B HK) Ha SG SC); lia.
  Qed.
  (** x < y *)
  Theorem C104_elements : forall (p : par A) x y, standard S p x -> standard S p y -> library x -> library y -> V x <> V y ->
    forall K J D, cancels S rho x K -> cancels S rho y J -> common_digits (V x) (V y) D ->
    forall n, (digits_needed x 64 K <= 64 * 2 ^ Z.of_nat n)%Z -> (digits_needed y 64 J <= 64 * 2 ^ Z.of_nat n)%Z -> (D + 5 <= 64 * 2 ^ Z.of_nat n)%Z ->
    let accuracy := Z.max 64 (2 * (D + 5)) in
    settled_by (2 * Z.max (digits_needed x accuracy K) (digits_needed y accuracy J)) (fun garb carb => lt_elem mag_up garb carb (n + 1) x y).
  Proof.
    intros p x y Hx Hy Bx By N K J D HK HJ HD n N1 N2 N3 accuracy. destruct (equal_total A S L x y (proj1 Hx) (proj1 Hy) (standard_combinable A S p x y Hx Hy)) as [e Ee].
    apply settled. intros garb' carb' SG SC. rewrite Nat.add_1_r.
    destruct (lt_elem_cost A S L mag_up Hm Ht garb carb rho x y K J D garb' carb' n _ (library_priced A S _ _ rho garb carb x K (proj1 Hx) Bx HK) (library_priced A S _ _ rho garb carb y J (proj1 Hy) By HJ) SG SC) with (b0 := e) as (c & E1 & E2); try assumption; try (unfold covers; fold accuracy; lia).
    { intros _. exact N. } exists (Ok c). split; assumption.
  Qed.
  (** Comparisons with integers and rational numbers *)
  Theorem C104_integers : forall x, elem_wf S x -> library x -> forall i, V x <> IZR i ->
    forall K D, cancels S rho x K -> Rabs (V x) <= bpow radix2 D * Rabs (V x - IZR i) ->
    forall n, (digits_needed x 64 K <= 64 * 2 ^ Z.of_nat n)%Z -> (D + 5 <= 64 * 2 ^ Z.of_nat n)%Z ->
    let P := (2 * digits_needed x (Z.max 64 (2 * (D + 5))) K)%Z in
    settled_by P (fun garb carb => lt_int mag_up garb carb (n + 1) x i) /\ settled_by P (fun garb carb => gt_int mag_up garb carb (n + 1) x i).
  Proof.
    intros x W B i N K D HK HD n N1 N2 P.
    assert (H : forall garb' carb', same_up_to P garb garb' -> same_up_to P carb carb' -> exists c, lt_int mag_up garb carb (Datatypes.S n) x i = Some (Ok c) /\ lt_int mag_up garb' carb' (Datatypes.S n) x i = Some (Ok c)).
    { intros garb' carb' SG SC. apply (lt_int_cost A S L mag_up Hm Ht garb carb rho x K D garb' carb' n P i (library_priced A S _ _ rho garb carb x K W B HK) SG SC); try assumption; [unfold covers, P; lia|intros _; exact N]. }
    split; apply settled; intros garb' carb' SG SC; rewrite Nat.add_1_r; destruct (H garb' carb' SG SC) as (c & E1 & E2).
    - exists (Ok c). split; assumption.
    - destruct (gt_cost A mag_up garb carb x garb' carb' _ _ _ _ c E1 E2) as (d & G1 & G2). exists (Ok d). split; assumption.
  Qed.
  Theorem C104_rationals : forall x, elem_wf S x -> library x -> forall q : Qc, V x <> Q2R q ->
    forall K D, cancels S rho x K -> Rabs (V x) <= bpow radix2 D * Rabs (V x - Q2R q) ->
    forall n, (digits_needed x 64 K <= 64 * 2 ^ Z.of_nat n)%Z -> (D + 6 <= 64 * 2 ^ Z.of_nat n)%Z ->
    let P := (2 * digits_needed x (Z.max 64 (2 * (D + 6))) K)%Z in
    settled_by P (fun garb carb => lt_rat mag_up garb carb (n + 1) x q) /\ settled_by P (fun garb carb => gt_rat mag_up garb carb (n + 1) x q).
  Proof.
    intros x W B q N K D HK HD n N1 N2 P.
    assert (H : forall garb' carb', same_up_to P garb garb' -> same_up_to P carb carb' -> exists c, lt_rat mag_up garb carb (Datatypes.S n) x q = Some (Ok c) /\ lt_rat mag_up garb' carb' (Datatypes.S n) x q = Some (Ok c)).
    { intros garb' carb' SG SC. apply (lt_rat_cost A S L mag_up Hm Ht garb carb rho x K D garb' carb' n P q (library_priced A S _ _ rho garb carb x K W B HK) SG SC); try assumption; [unfold covers, P; lia|intros _; exact N]. }
    split; apply settled; intros garb' carb' SG SC; rewrite Nat.add_1_r; destruct (H garb' carb' SG SC) as (c & E1 & E2).
    - exists (Ok c). split; assumption.
    - destruct (gt_cost A mag_up garb carb x garb' carb' _ _ _ _ c E1 E2) as (d & G1 & G2). exists (Ok d). split; assumption.
  Qed.
  (** Comparisons with one of the generators *)
  Theorem C104_reals : forall x, elem_wf S x -> library x -> forall g, In g (basis (emodule x)) -> V x <> gen_val rho g ->
    forall K D, cancels S rho x K -> common_digits (V x) (gen_val rho g) D ->
    forall n, (digits_needed x 64 K <= 64 * 2 ^ Z.of_nat n)%Z -> (D + 5 <= 64 * 2 ^ Z.of_nat n)%Z -> (0 <= K)%Z ->
    let P := (2 * digits_needed x (Z.max 64 (2 * (D + 5))) K)%Z in
    settled_by P (fun garb carb => lt_real mag_up garb carb (n + 1) x g) /\ settled_by P (fun garb carb => gt_real mag_up garb carb (n + 1) x g).
  Proof.
    intros x W B g Hg N K D HK HD n N1 N2 K0 P. assert (E0 : exists b0, eq_real x g = Ok b0).
    { destruct (eq_real x g) as [b0|e] eqn:E; [exists b0; reflexivity|]. exfalso. apply (proj1 (eq_real_throws A x g)); [exists e; exact E|exact Hg]. }
    destruct E0 as [b0 E0].
    assert (H : forall garb' carb', same_up_to P garb garb' -> same_up_to P carb carb' -> exists c, lt_real mag_up garb carb (Datatypes.S n) x g = Some (Ok c) /\ lt_real mag_up garb' carb' (Datatypes.S n) x g = Some (Ok c)).
    { intros garb' carb' SG SC. pose proof B as (HV & HB & HN & HC & HP). assert (HW : Forall gen_wf (basis (emodule x))) by apply W.
      apply (lt_real_cost A S L mag_up Hm Ht garb carb rho x K D g garb' carb' n P (library_priced A S _ _ rho garb carb x K W B HK) SG SC) with (b0 := b0); try assumption; [|unfold covers, P; lia|unfold P, digits_needed; lia|intros _; exact N].
      intros q Hq. eapply near_weaken; [apply (accuracy_near 4 _ _ q k4 (code_balls_within rng names rho HV garb _ HB HW g q Hg ltac:(lia)) ltac:(lia)), (code_balls_accurate rng names rho HV garb _ HB HW g q Hg ltac:(lia) (HN g Hg))|lra]. }
    split; apply settled; intros garb' carb' SG SC; rewrite Nat.add_1_r; destruct (H garb' carb' SG SC) as (c & E1 & E2).
    - exists (Ok c). split; assumption.
    - destruct (gt_cost A mag_up garb carb x garb' carb' _ _ _ _ c E1 E2) as (d & G1 & G2). exists (Ok d). split; assumption.
  Qed.
  (** floor and ceil *)
  Theorem C104_floor : forall x, elem_wf S x -> library x -> V x <> 0 -> forall K D, cancels S rho x K -> integer_digits (V x) D ->
    forall n, (digits_needed x 64 K <= 64 * 2 ^ Z.of_nat n)%Z -> (D + 8 <= 64 * 2 ^ Z.of_nat n)%Z ->
    let P := (2 * digits_needed x (Z.max 64 (2 * (D + 8))) K)%Z in
    settled_by P (fun garb carb => elem_floor mag_up garb carb (n + 1) x) /\ settled_by P (fun garb carb => elem_ceil mag_up garb carb (n + 1) x).
  Proof.
    intros x W B N K D HK HD n N1 N2 P.
    split; apply settled; intros garb' carb' SG SC; rewrite Nat.add_1_r;
      apply (floor_cost A S L mag_up Hm Ht garb carb rho x K D garb' carb' n P (library_priced A S _ _ rho garb carb x K W B HK) SG SC); try assumption; try (unfold covers, P; lia); intros _; split; assumption.
  Qed.
  (** The conversion to double: all numbers whose distance to the element is less than [eta] round to the same double. *)
  Theorem C104_double : forall x, elem_wf S x -> library x -> forall eta, 0 < eta -> (forall a, Rabs (a - V x) < eta -> nearest_double a = nearest_double (V x)) ->
    forall K D, cancels S rho x K -> Rabs (V x) <= bpow radix2 D * eta ->
    forall n, (digits_needed x 55 K <= 55 * 2 ^ Z.of_nat n)%Z -> (D + 8 <= 55 * 2 ^ Z.of_nat n)%Z ->
    settled_by (2 * digits_needed x (Z.max 55 (2 * (D + 8))) K) (fun garb carb => elem_double mag_up garb carb (n + 1) x).
  Proof.
    intros x W B eta He Hr K D HK HD n N1 N2. apply settled. intros garb' carb' SG SC. rewrite Nat.add_1_r.
    apply (double_cost A S L mag_up Hm Ht garb carb rho x K D eta garb' carb' n _ (library_priced A S _ _ rho garb carb x K W B HK) SG SC); try assumption; try (unfold covers; lia). intros _. split; [exact He|]. split; assumption.
  Qed.
  (** floordiv, in the module spanned by both operands *)
  Theorem C104_floordiv : forall (p : par A) x y, standard S p x -> standard S p y -> library x -> library y -> V x <> 0 -> V y <> 0 ->
    forall K D, cancels S rho x K -> cancels S rho y K -> integer_digits (V x / V y) D ->
    let needed accuracy := (accuracy + K + 2 * Z.of_nat (rank (emodule x) + rank (emodule y)) + 9)%Z in
    forall n, (needed 64 <= 64 * 2 ^ Z.of_nat n)%Z -> (D + 12 <= 64 * 2 ^ Z.of_nat n)%Z ->
    settled_by (2 * needed (Z.max 64 (2 * (D + 12)))) (fun garb carb => floordiv mag_up garb carb (n + 1) x y).
  Proof.
    intros p x y Hx Hy Bx By Vx Vy K D HK HJ HD needed n N1 N2. apply settled. intros garb' carb' SG SC. rewrite Nat.add_1_r. unfold floordiv. destruct (nonzero x) eqn:Nx; cbn [negb]; [|eexists; split; reflexivity].
    destruct (common_succeeds A S L x y (proj1 Hx) (proj1 Hy) (standard_combinable A S p x y Hx Hy)) as (x' & y' & Ec). rewrite Ec.
    destruct (common_spec A S L x y x' y' (proj1 Hx) (proj1 Hy) Ec) as (Wx' & Wy' & EM & G & VX & VY). destruct (nonzero x') eqn:Nx'; cbn [negb]; [|eexists; split; reflexivity].
    destruct (exact_floor (coeffs x') (coeffs y') None) as [i|]; [eexists; split; reflexivity|].
    assert (Rx : mring (emodule x') = p) by (apply (common_ring A S L p x y x' y' (proj1 Hx) (proj1 Hy)); [apply Hx|apply Hy|exact Ec]). assert (Ry : mring (emodule y') = p) by (rewrite <- EM; exact Rx).
    assert (Bxy : forall z, emodule z = emodule x' -> library z).
    { intros z Ez. destruct Bx as (HV & HBx & HNx & HC & HP). destruct By as (_ & HBy & HNy & _). unfold library_balls. rewrite Ez, Rx. assert (Er : mring (emodule x) = p) by apply Hx. rewrite Er in HC, HP. split; [exact HV|]. split; [|split; [|split; assumption]].
      - intros g prec Hg. apply G in Hg. destruct Hg as [Hg|Hg]; [apply HBx|apply HBy]; exact Hg.
      - intros g Hg. apply G in Hg. destruct Hg as [Hg|Hg]; [apply HNx|apply HNy]; exact Hg. }
    assert (Rk : (rank (emodule x') <= rank (emodule x) + rank (emodule y))%nat).
    { unfold rank. rewrite <- app_length. apply NoDup_incl_length; [apply ascending_NoDup, Wx'|]. intros g Hg. apply in_or_app, G, Hg. }
    assert (Rk' : rank (emodule y') = rank (emodule x')) by (rewrite EM; reflexivity).
    pose proof (library_priced A S _ _ rho garb carb x' K Wx' (Bxy x' eq_refl) (cancels_same A S rho x x' K Wx' VX HK)) as Px. pose proof (library_priced A S _ _ rho garb carb y' K Wy' (Bxy y' (eq_sym EM)) (cancels_same A S rho y y' K Wy' VY HJ)) as Py.
    assert (Ex : value S rho x' = V x) by (rewrite !value_evalv; apply VX). assert (Ey : value S rho y' = V y) by (rewrite !value_evalv; apply VY). unfold needed in *.
    destruct (floordiv_search_cost A S L mag_up Hm Ht garb carb rho x' y' K K D garb' carb' n _ Px Py SG SC) as (i & E1 & E2); rewrite ?Ex, ?Ey; try assumption; try (unfold covers, digits_needed; rewrite ?Rk'; lia).
    rewrite E1, E2. eexists. split; reflexivity.
  Qed.
End Cost.
(** Integer and rational coefficients are precise. *)
Theorem C104_coefficients : (forall p, coefficients_precise int_sem int_arb p) /\ (forall mag_up p, mag_up_tight mag_up -> coefficients_precise rat_sem (rat_arb mag_up) p).
Proof. split; [exact int_arb_precise|exact rat_arb_precise]. Qed.

(** The hypotheses hold for 3 v + 5 w and 6 v + 5 w with two random numbers v and w: comparing them takes at most two rounds, and no more than 154 digits of v and w. *)
Example C104_example : exists v w garb, counterexample (e2 3 5) 1337 1338 v w garb /\ library_balls int_sem rand48 (names2 1337 1338) (fun i => if (i =? 1)%Z then v else w) garb int_arb (e2 3 5) /\
  settled_by (A := int_ring) 154 garb int_arb (fun garb carb => lt_elem (A := int_ring) up30 garb carb 2 (e2 3 5) (e2 6 5)).
Proof.
  destruct (case 1337 1338 (e2 3 5) (proj1 (proj2 (e_wf _ _)))) as (v & w & g0 & C). exists v, w, (gb 1337 1338 g0). split; [exact C|]. destruct C as (W & Hv & Hw & CV & CB & CC & _).
  r48bound Hv 20%nat. r48bound Hw 20%nat. set (rho := fun i : Z => if (i =? 1)%Z then v else w) in *.
  assert (NZ : forall g, In g (basis (emodule (e2 3 5))) -> gen_val rho g <> 0) by (intros g [<-|[<-|[]]]; cbn; lra).
  assert (B : library_balls int_sem rand48 (names2 1337 1338) rho (gb 1337 1338 g0) int_arb (e2 3 5)) by (split; [exact CV|split; [exact CB|split; [exact NZ|split; [exact CC|apply int_arb_precise]]]]).
  split; [exact B|]. assert (V1 : value int_sem rho (e2 3 5) = 3 * v + 5 * w) by (unfold value; cbn; ring). assert (V2 : value int_sem rho (e2 6 5) = 6 * v + 5 * w) by (unfold value; cbn; ring).
  apply (C104_elements int_ring int_sem int_lawful up30 up30_ok up30_tight rand48 (names2 1337 1338) rho (gb 1337 1338 g0) int_arb tt (e2 3 5) (e2 6 5)) with (K := 0%Z) (J := 0%Z) (D := 5%Z) (n := 1%nat).
  - split; [exact W|]. split; [reflexivity|]. intros q [E|[E|[]]]; discriminate E.
  - split; [exact (proj1 (proj2 (e_wf 6 5)))|]. split; [reflexivity|]. intros q [E|[E|[]]]; discriminate E.
  - exact B.
  - exact B.
  - rewrite V1, V2. lra.
  - unfold cancels. rewrite V1. cbn -[Rabs IZR]. rewrite !Rabs_pos_eq by lra. lra.
  - unfold cancels. rewrite V2. cbn -[Rabs IZR]. rewrite !Rabs_pos_eq by lra. lra.
  - unfold common_digits. rewrite V1, V2. simpl bpow. unfold Rabs. destruct (Rcase_abs _); destruct (Rcase_abs _); destruct (Rcase_abs _); lra.
  - vm_compute. discriminate.
  - vm_compute. discriminate.
  - vm_compute. discriminate.
Qed.
