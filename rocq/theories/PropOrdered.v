(** Property C103: the comparison operators, floor and ceil together with the arithmetic satisfy the laws of an ordered ring. *)
From Coq Require Import ZArith QArith Qcanon Bool List Reals Qreals Lra Lia.
From Flocq Require Import Core.
From Verif Require Import Arf Arb SpecArf Gen SpecGen GenProofs Ring SpecRing RingProofs Module Element SpecModule ModuleProofs ElementProofs Independence
  ElementProofs2 ElementProofs3 Leading Division DivisionProofs SpecLoops Loops Compare SpecCompare PropModule PropElement PropDivision LoopsProofs LoopsProofs2 LoopsProofs3 LoopsProofs4 LoopsProofs5 Balls PropOrder PropFloor PropCompare PropLaws LoopsCases PropLoops.
Import ListNotations.
Open Scope R_scope.

(** The setting: linearly independent generators and balls that contain them and get small. *)
Definition good_balls {A} (S : semantics A) (mag_up : arf -> arf) (garb : gen -> Z -> arb) (carb : car A -> Z -> arb) (rho : Z -> R) (p : par A) (gs : list gen) : Prop :=
  mag_up_ok mag_up /\ mag_up_tight mag_up /\ independent S p rho gs /\ generators_enclosed garb rho gs /\ (forall g, In g gs -> shrinks (garb g)) /\
  coefficients_enclosed S carb p /\ (forall c, mem S p c -> shrinks (carb c)).

Section Proofs.
  Variable A : ring.
  Variable S : semantics A.
  Hypothesis L : lawful A S.
  Variable mag_up : arf -> arf.
  Variable garb : gen -> Z -> arb.
  Variable carb : car A -> Z -> arb.
  Variable rho : Z -> R.
  Variable p : par A.
  Variable gs : list gen.
  Hypothesis G : good_balls S mag_up garb carb rho p gs.
  Implicit Types x y z a b : elem A.
  Notation V := (value S rho).
  Notation lt := (fun x y n => lt_elem mag_up garb carb n x y).

  Lemma balls_of x : among S p gs x -> enclosing_balls S garb carb rho x /\ shrinking_balls S garb carb x.
  Proof.
    intros [(_ & R & _) I]. destruct G as (_ & _ & _ & G1 & G2 & G3 & G4). split; (split; [|rewrite R; assumption]).
    - intros g prec Hg. apply G1, I, Hg.
    - intros g Hg. apply G2, I, Hg.
  Qed.
  Lemma lt_answers x y : among S p gs x -> among S p gs y -> answers (lt x y) (V x < V y).
  Proof.
    intros Hx Hy. destruct (balls_of x Hx) as [Ex Cx]. destruct (balls_of y Hy) as [Ey Cy]. destruct G as (Hm & Ht & HI & _).
    exact (proj1 (C80_elements A S L mag_up Hm Ht garb carb rho p gs HI x y Hx Hy Ex Cx Ey Cy)).
  Qed.
  Lemma gt_answers x n : In (GRat 1) gs -> among S p gs x -> answers (fun k => gt_int mag_up garb carb k x n) (V x > IZR n).
  Proof.
    intros I1 Hx. destruct (balls_of x Hx) as [Ex Cx]. destruct G as (Hm & Ht & HI & _).
    exact (proj1 (proj2 (C80_integers A S L mag_up Hm Ht garb carb rho p gs HI I1 x Hx Ex Cx n))).
  Qed.
  Lemma eventually_unique {T} (f : nat -> option T) r r' : eventually f r -> eventually f r' -> r = r'.
  Proof. intros [N H] [N' H']. specialize (H (N + N')%nat ltac:(lia)). specialize (H' (N + N')%nat ltac:(lia)). congruence. Qed.
  Lemma answer_iff f P c : answers f P -> (eventually f (Ok c) <-> (c = true <-> P)).
  Proof.
    intros (b & H & D). split; intros K.
    - assert (E := eventually_unique f _ _ H K). injection E as ->. exact D.
    - replace c with b; [exact H|]. apply eq_true_iff_eq. rewrite D, K. reflexivity.
  Qed.
  Lemma same_answers f g P Q : answers f P -> answers g Q -> (P <-> Q) -> forall c, eventually f (Ok c) <-> eventually g (Ok c).
  Proof. intros F H E c. rewrite (answer_iff f P c F), (answer_iff g Q c H), E. reflexivity. Qed.
  Lemma among_add x y a : among S p gs x -> among S p gs y -> add x y = Ok a -> among S p gs a /\ V a = V x + V y.
  Proof.
    intros [Hx Ix] [Hy Iy] E. destruct (std_add A S L p x y Hx Hy) as (a' & Ea & Ha & Va). assert (a' = a) as -> by congruence. split; [|apply Va]. split; [exact Ha|].
    intros g Hg. apply (C22_generators A S L x y a (proj1 Hx) (proj1 Hy) E) in Hg. destruct Hg; auto.
  Qed.
  Lemma among_opp x : among S p gs x -> among S p gs (opp x) /\ V (opp x) = - V x.
  Proof. intros [Hx Ix]. destruct (std_opp A S L p x Hx) as [Ho Vo]. split; [|apply Vo]. split; [exact Ho|exact Ix]. Qed.
  Lemma among_sub x y a : among S p gs x -> among S p gs y -> sub x y = Ok a -> among S p gs a /\ V a = V x - V y.
  Proof. intros Hx Hy E. destruct (among_opp y Hy) as [Ho Vo]. destruct (among_add x (opp y) a Hx Ho E) as [Ha Va]. split; [exact Ha|]. rewrite Va, Vo. ring. Qed.
  Lemma among_smul x n a : among S p gs x -> smul x (SZ n) = Ok a -> among S p gs a /\ V a = V x * IZR n.
  Proof.
    intros [Hx Ix] E. destruct (smul_in_ring A S L p x (SZ n) Hx I (ring_integer A S L p n)) as (a' & Ea & Ha & Ma & Va). assert (a' = a) as -> by congruence.
    split; [|apply Va]. split; [exact Ha|]. rewrite Ma. exact Ix.
  Qed.
  Lemma among_value c x : In (GRat 1) gs -> mem S p c -> of_value p c = Ok x -> among S p gs x /\ V x = val S c.
  Proof.
    intros I1 Mc E. destruct (of_value_standard A S p c Mc) as (x' & E' & Hx & Vx). assert (x' = x) as -> by congruence. split; [|apply Vx]. split; [exact Hx|].
    unfold of_value in E. cbn in E. injection E as <-. intros g [<-|[]]. exact I1.
  Qed.
End Proofs.

(** A strict total order. *)
Theorem C103_total : forall A S, lawful A S -> forall mag_up garb carb rho (p : par A) gs, good_balls S mag_up garb carb rho p gs -> forall x y z, among S p gs x -> among S p gs y -> among S p gs z ->
  let lt x y c := eventually (fun n => lt_elem mag_up garb carb n x y) (Ok c) in
  ((lt x y true /\ lt y x false /\ equal x y = Ok false) \/ (lt x y false /\ lt y x true /\ equal x y = Ok false) \/ (lt x y false /\ lt y x false /\ equal x y = Ok true)) /\
  (lt x y true -> lt y z true -> lt x z true) /\ (lt x y false -> lt y z false -> lt x z false) /\
  (equal x y = Ok true -> forall c, (lt x z c <-> lt y z c) /\ (lt z x c <-> lt z y c)).
Proof.
  intros A S L mag_up garb carb rho p gs G x y z Hx Hy Hz. cbv zeta.
  assert (K : forall x y, among S p gs x -> among S p gs y -> forall c, eventually (fun n => lt_elem mag_up garb carb n x y) (Ok c) <-> (c = true <-> value S rho x < value S rho y)).
  { intros a b Ha Hb c. apply answer_iff, (lt_answers A S L mag_up garb carb rho p gs G a b Ha Hb). }
  assert (E : equal x y = Ok true <-> value S rho x = value S rho y).
  { destruct (balls_of A S mag_up garb carb rho p gs G x Hx) as [Ex Cx]. destruct (balls_of A S mag_up garb carb rho p gs G y Hy) as [Ey Cy]. destruct G as (Hm & Ht & HI & _).
    destruct (C32_elements A S L mag_up Hm Ht garb carb rho p gs HI x y Hx Hy Ex Cx Ey Cy) as (l & e & g & _ & -> & _ & _ & De & _). rewrite <- De. split; congruence. }
  assert (T : exists e, equal x y = Ok e) by (apply (equal_total A S L x y (proj1 (proj1 Hx)) (proj1 (proj1 Hy)) (standard_combinable A S p x y (proj1 Hx) (proj1 Hy)))).
  split; [|split; [|split]].
  - rewrite !(K x y Hx Hy), !(K y x Hy Hx). destruct T as [e T]. rewrite T in E |- *.
    destruct (total_order_T (value S rho x) (value S rho y)) as [[O|O]|O].
    + left. split; [tauto|]. split; [split; [discriminate|lra]|]. destruct e; [exfalso; pose proof (proj1 E eq_refl); lra|reflexivity].
    + right. right. split; [split; [discriminate|lra]|]. split; [split; [discriminate|lra]|]. apply E, O.
    + right. left. split; [split; [discriminate|lra]|]. split; [split; [lra|reflexivity]|]. destruct e; [exfalso; pose proof (proj1 E eq_refl); lra|reflexivity].
  - rewrite (K x y Hx Hy), (K y z Hy Hz), (K x z Hx Hz). intros H1 H2. pose proof (proj1 H1 eq_refl). pose proof (proj1 H2 eq_refl). split; [lra|reflexivity].
  - rewrite (K x y Hx Hy), (K y z Hy Hz), (K x z Hx Hz). intros H1 H2.
    assert (~ value S rho x < value S rho y) by (intros F; apply H1 in F; discriminate). assert (~ value S rho y < value S rho z) by (intros F; apply H2 in F; discriminate). split; [discriminate|lra].
  - intros F c. apply E in F. rewrite (K x z Hx Hz), (K y z Hy Hz), (K z x Hz Hx), (K z y Hz Hy), F. tauto.
Qed.
(** Compatible with the addition and the negative. *)
Theorem C103_addition : forall A S, lawful A S -> forall mag_up garb carb rho (p : par A) gs, good_balls S mag_up garb carb rho p gs -> forall x y z, among S p gs x -> among S p gs y -> among S p gs z ->
  let lt x y c := eventually (fun n => lt_elem mag_up garb carb n x y) (Ok c) in
  (forall a b, add x z = Ok a -> add y z = Ok b -> forall c, lt a b c <-> lt x y c) /\
  (forall a b, sub x z = Ok a -> sub y z = Ok b -> forall c, lt a b c <-> lt x y c) /\
  (forall c, lt (opp y) (opp x) c <-> lt x y c) /\
  (forall a, add x y = Ok a -> forall c, lt x a c <-> lt (zero_of (emodule y)) y c) /\
  (forall a, sub x y = Ok a -> forall c, lt a (zero_of (emodule a)) c <-> lt x y c).
Proof.
  intros A S L mag_up garb carb rho p gs G x y z Hx Hy Hz. cbv zeta. pose proof (lt_answers A S L mag_up garb carb rho p gs G) as K.
  assert (Z : forall u, among S p gs u -> among S p gs (zero_of (emodule u)) /\ value S rho (zero_of (emodule u)) = 0).
  { intros u [Hu Iu]. destruct (std_zero A S L p u Hu) as [H0 V0]. split; [split; [exact H0|exact Iu]|apply V0]. }
  split.
  { intros a b Ea Eb. destruct (among_add A S L rho p gs x z a Hx Hz Ea) as [Ha Va]. destruct (among_add A S L rho p gs y z b Hy Hz Eb) as [Hb Vb]. apply (same_answers _ _ _ _ (K a b Ha Hb) (K x y Hx Hy)). rewrite Va, Vb. lra. }
  split.
  { intros a b Ea Eb. destruct (among_sub A S L rho p gs x z a Hx Hz Ea) as [Ha Va]. destruct (among_sub A S L rho p gs y z b Hy Hz Eb) as [Hb Vb]. apply (same_answers _ _ _ _ (K a b Ha Hb) (K x y Hx Hy)). rewrite Va, Vb. lra. }
  split.
  { destruct (among_opp A S L rho p gs x Hx) as [Ha Va]. destruct (among_opp A S L rho p gs y Hy) as [Hb Vb]. apply (same_answers _ _ _ _ (K _ _ Hb Ha) (K x y Hx Hy)). rewrite Va, Vb. lra. }
  split.
  { intros a Ea. destruct (among_add A S L rho p gs x y a Hx Hy Ea) as [Ha Va]. destruct (Z y Hy) as [H0 V0]. apply (same_answers _ _ _ _ (K x a Hx Ha) (K _ y H0 Hy)). rewrite Va, V0. lra. }
  intros a Ea. destruct (among_sub A S L rho p gs x y a Hx Hy Ea) as [Ha Va]. destruct (Z a Ha) as [H0 V0]. apply (same_answers _ _ _ _ (K a _ Ha H0) (K x y Hx Hy)). rewrite Va, V0. lra.
Qed.
(** Compatible with products, also by integers; the comparison with the integer 0 agrees with the one with the element 0. *)
Theorem C103_multiplication : forall A S, lawful A S -> forall mag_up garb carb rho (p : par A) gs, good_balls S mag_up garb carb rho p gs -> In (GRat 1) gs -> forall x y z, among S p gs x -> among S p gs y -> among S p gs z ->
  let lt x y c := eventually (fun n => lt_elem mag_up garb carb n x y) (Ok c) in
  let positive x c := eventually (fun n => gt_int mag_up garb carb n x 0) (Ok c) in
  (forall c, positive x c <-> lt (zero_of (emodule x)) x c) /\
  (forall t, mul x y = Ok t -> among S p gs t -> positive x true -> forall c, positive t c <-> positive y c) /\
  (forall a b, mul x z = Ok a -> mul y z = Ok b -> among S p gs a -> among S p gs b -> positive z true -> forall c, lt a b c <-> lt x y c) /\
  (forall n a b, smul x (SZ n) = Ok a -> smul y (SZ n) = Ok b -> ((0 < n)%Z -> forall c, lt a b c <-> lt x y c) /\ ((n < 0)%Z -> forall c, lt a b c <-> lt y x c)).
Proof.
  intros A S L mag_up garb carb rho p gs G I1 x y z Hx Hy Hz. cbv zeta. pose proof (lt_answers A S L mag_up garb carb rho p gs G) as K. pose proof (fun x => gt_answers A S L mag_up garb carb rho p gs G x 0 I1) as P.
  assert (M : forall u v t, among S p gs u -> among S p gs v -> mul u v = Ok t -> value S rho t = value S rho u * value S rho v).
  { intros u v t Hu Hv E. destruct (std_mul A S L p u v (proj1 Hu) (proj1 Hv)) as (t' & Et & _ & Vt). assert (t' = t) as -> by congruence. apply Vt. }
  split.
  { destruct Hx as [Hx Ix]. destruct (std_zero A S L p x Hx) as [H0 V0]. assert (H0' : among S p gs (zero_of (emodule x))) by (split; [exact H0|exact Ix]).
    apply (same_answers _ _ _ _ (P x (conj Hx Ix)) (K _ x H0' (conj Hx Ix))). rewrite V0. cbn. lra. }
  split.
  { intros t E Ht Px. apply (answer_iff _ _ true (P x Hx)) in Px. pose proof (proj1 Px eq_refl) as Vx. cbn in Vx. apply (same_answers _ _ _ _ (P t Ht) (P y Hy)). rewrite (M x y t Hx Hy E). cbn. split; intros H.
    - apply (Rmult_lt_reg_l (value S rho x)); [lra|]. rewrite Rmult_0_r. lra.
    - apply Rmult_gt_0_compat; lra. }
  split.
  { intros a b Ea Eb Ha Hb Pz. apply (answer_iff _ _ true (P z Hz)) in Pz. pose proof (proj1 Pz eq_refl) as Vz. cbn in Vz. apply (same_answers _ _ _ _ (K a b Ha Hb) (K x y Hx Hy)). rewrite (M x z a Hx Hz Ea), (M y z b Hy Hz Eb). split; intros H.
    - apply (Rmult_lt_reg_r (value S rho z)); lra.
    - apply Rmult_lt_compat_r; lra. }
  intros n a b Ea Eb. destruct (among_smul A S L rho p gs x n a Hx Ea) as [Ha Va]. destruct (among_smul A S L rho p gs y n b Hy Eb) as [Hb Vb]. split; intros Hn; apply IZR_lt in Hn.
  - apply (same_answers _ _ _ _ (K a b Ha Hb) (K x y Hx Hy)). rewrite Va, Vb. split; intros H; [apply (Rmult_lt_reg_r (IZR n)); lra|apply Rmult_lt_compat_r; lra].
  - apply (same_answers _ _ _ _ (K a b Ha Hb) (K y x Hy Hx)). rewrite Va, Vb. split; intros H.
    + apply (Rmult_lt_reg_r (- IZR n)); lra.
    + assert (value S rho y * - IZR n < value S rho x * - IZR n) by (apply Rmult_lt_compat_r; lra). lra.
Qed.
(** floor and ceil: floor(x + n) = floor(x) + n, ceil(-x) = -floor(x), monotonous, and ceil(x) - floor(x) is 0 for integers and 1 otherwise. *)
Theorem C103_floor : forall A S, lawful A S -> forall mag_up garb carb rho (p : par A) gs, good_balls S mag_up garb carb rho p gs -> In (GRat 1) gs -> forall x y, among S p gs x -> among S p gs y ->
  let floor x m := eventually (fun n => elem_floor mag_up garb carb n x) m in
  let ceil x m := eventually (fun n => elem_ceil mag_up garb carb n x) m in
  (exists m, floor x m) /\ (forall m, ceil (opp x) (- m)%Z <-> floor x m) /\
  (forall m, floor x m -> if eq_integer x m then ceil x m else ceil x (m + 1)%Z) /\
  (forall c n u a, mem S p c -> val S c = IZR n -> of_value p c = Ok u -> add x u = Ok a -> forall m, floor a (m + n)%Z <-> floor x m) /\
  (forall m k, floor x m -> floor y k -> eventually (fun n => lt_elem mag_up garb carb n x y) (Ok true) -> (m <= k)%Z) /\
  (forall m k a, floor x m -> floor y k -> add x y = Ok a -> floor a (m + k)%Z \/ floor a (m + k + 1)%Z).
Proof.
  intros A S L mag_up garb carb rho p gs G I1 x y Hx Hy. cbv zeta.
  assert (F : forall u, among S p gs u -> forall m, (eventually (fun n => elem_floor mag_up garb carb n u) m <-> the_floor m (value S rho u)) /\ (eventually (fun n => elem_ceil mag_up garb carb n u) m <-> the_ceil m (value S rho u))).
  { intros u Hu m. destruct (balls_of A S mag_up garb carb rho p gs G u Hu) as [Eu Cu]. destruct G as (Hm & Ht & HI & _).
    destruct (C31_returns A S L mag_up Hm Ht garb carb rho p gs HI I1 u Hu Eu Cu) as (n & k & Hn & Hk).
    assert (Tn : the_floor n (value S rho u)) by (destruct Hn as [N Hn]; exact (C31_floor A S L mag_up Hm garb carb rho u (proj1 (proj1 Hu)) Eu N n (Hn N (le_n N)))).
    assert (Tk : the_ceil k (value S rho u)) by (destruct Hk as [N Hk]; exact (C31_ceil A S L mag_up Hm garb carb rho u (proj1 (proj1 Hu)) Eu N k (Hk N (le_n N)))).
    split; split; intros H.
    - rewrite <- (eventually_unique _ _ _ Hn H). exact Tn.
    - replace m with n; [exact Hn|]. unfold the_floor in *. assert (H1 : IZR m < IZR (n + 1)) by (rewrite plus_IZR; lra). assert (H2 : IZR n < IZR (m + 1)) by (rewrite plus_IZR; lra). apply lt_IZR in H1, H2. lia.
    - rewrite <- (eventually_unique _ _ _ Hk H). exact Tk.
    - replace m with k; [exact Hk|]. unfold the_ceil in *. assert (H1 : IZR (m - 1) < IZR k) by (rewrite minus_IZR; lra). assert (H2 : IZR (k - 1) < IZR m) by (rewrite minus_IZR; lra). apply lt_IZR in H1, H2. lia. }
  split.
  { exists (Zfloor (value S rho x)). apply F; [exact Hx|]. split; [apply Zfloor_lb|apply Zfloor_ub]. }
  split.
  { intros m. destruct (among_opp A S L rho p gs x Hx) as [Ho Vo]. rewrite (proj2 (F _ Ho (- m)%Z)), (proj1 (F _ Hx m)). unfold the_floor, the_ceil. rewrite Vo, opp_IZR. lra. }
  split.
  { intros m Hm. apply F in Hm; [|exact Hx]. destruct (eq_integer x m) eqn:E.
    - apply F; [exact Hx|]. apply (eq_integer_standard A S L p x m (proj1 Hx)) with (rho := rho) in E. unfold the_ceil. rewrite E. lra.
    - apply F; [exact Hx|]. unfold the_floor, the_ceil in *. rewrite plus_IZR. split; [|lra]. destruct Hm as [[Hm|Hm] _]; [lra|]. exfalso.
      destruct (balls_of A S mag_up garb carb rho p gs G x Hx) as [Ex Cx]. destruct G as (Hm' & Ht & HI & _).
      destruct (C32_integers A S L mag_up Hm' Ht garb carb rho p gs HI I1 x Hx Ex Cx m) as (l & g & _ & _ & _ & De & _). symmetry in Hm. apply De in Hm. congruence. }
  split.
  { intros c n u a Mc Vc Eu Ea m. destruct (among_value A S rho p gs c u I1 Mc Eu) as [Hu Vu]. destruct (among_add A S L rho p gs x u a Hx Hu Ea) as [Ha Va].
    rewrite (proj1 (F _ Ha (m + n)%Z)), (proj1 (F _ Hx m)). unfold the_floor. rewrite Va, Vu, Vc, plus_IZR. lra. }
  split.
  { intros m k Hm Hk O. apply F in Hm; [|exact Hx]. apply F in Hk; [|exact Hy]. apply (answer_iff _ _ true (lt_answers A S L mag_up garb carb rho p gs G x y Hx Hy)) in O. pose proof (proj1 O eq_refl) as O'.
    unfold the_floor in *. assert (H1 : IZR m < IZR (k + 1)) by (rewrite plus_IZR; lra). apply lt_IZR in H1. lia. }
  intros m k a Hm Hk Ea. destruct (among_add A S L rho p gs x y a Hx Hy Ea) as [Ha Va]. apply F in Hm; [|exact Hx]. apply F in Hk; [|exact Hy]. unfold the_floor in *.
  destruct (Rlt_dec (value S rho a) (IZR m + IZR k + 1)) as [H|H]; [left|right]; apply F; try exact Ha; unfold the_floor; rewrite !plus_IZR, ?Va in *; lra.
Qed.
(** Division with remainder: x = n y + r with 0 <= r < y for n = x.floordiv(y), if y > 0, and y < r <= 0 if y < 0. *)
Theorem C103_remainder : forall A S, lawful A S -> floors_integers S -> forall mag_up garb carb rho (p : par A) gs, good_balls S mag_up garb carb rho p gs -> In (GRat 1) gs -> forall x y, among S p gs x -> among S p gs y -> nonzero y = true ->
  exists n a r, eventually (fun k => floordiv mag_up garb carb k x y) (Ok n) /\ smul y (SZ n) = Ok a /\ sub x a = Ok r /\ same (add a r) (Ok x) /\
    (eventually (fun k => gt_int mag_up garb carb k y 0) (Ok true) -> eventually (fun k => ge_int mag_up garb carb k r 0) (Ok true) /\ eventually (fun k => lt_elem mag_up garb carb k r y) (Ok true)) /\
    (eventually (fun k => lt_int mag_up garb carb k y 0) (Ok true) -> eventually (fun k => le_int mag_up garb carb k r 0) (Ok true) /\ eventually (fun k => lt_elem mag_up garb carb k y r) (Ok true)).
Proof.
  intros A S L HF mag_up garb carb rho p gs G I1 x y Hx Hy Ny. destruct (balls_of A S mag_up garb carb rho p gs G x Hx) as [Ex Cx]. destruct (balls_of A S mag_up garb carb rho p gs G y Hy) as [Ey Cy].
  pose proof (lt_answers A S L mag_up garb carb rho p gs G) as K. pose proof G as (Hm & Ht & HI & _).
  assert (Vy : value S rho y <> 0) by (apply (nonzero_not_zero A S L p rho gs HI y Hy), Ny).
  destruct (C29_returns A S L HF mag_up Hm Ht garb carb rho p gs HI x y Hx Hy Ex Cx Ey Cy Vy) as [n Hn].
  assert (Tn : the_floor n (value S rho x / value S rho y)).
  { destruct Hn as [N Hn]. apply (C29_sound A S L mag_up Hm garb carb rho x y (proj1 (proj1 Hx)) (proj1 (proj1 Hy))) with (rounds := N); [rewrite (proj1 (proj2 (proj1 Hx))); apply (proj1 (proj2 (proj1 Hy)))|assumption|assumption|exact Vy|exact (Hn N (le_n N))]. }
  destruct (smul_in_ring A S L p y (SZ n) (proj1 Hy) I (ring_integer A S L p n)) as (a & Ea & _). destruct (among_smul A S L rho p gs y n a Hy Ea) as [Ha Va].
  destruct (std_sub A S L p x a (proj1 Hx) (proj1 Ha)) as (r & Er & _). destruct (among_sub A S L rho p gs x a r Hx Ha Er) as [Hr Vr].
  exists n, a, r. split; [exact Hn|]. split; [exact Ea|]. split; [exact Er|]. split.
  { destruct (C102_cancel A S L p x a (proj1 Hx) (proj1 Ha)) as (_ & _ & C & _). rewrite Er in C. cbn [bind] in C.
    destruct (std_add A S L p a r (proj1 Ha) (proj1 Hr)) as (t & Et & Ht' & Vt). destruct (std_sub A S L p x a (proj1 Hx) (proj1 Ha)) as (r' & Er' & _ & Vr'). assert (r' = r) as -> by congruence.
    apply (std_same A S L p t x Ht' (proj1 Hx)); [intros s; rewrite Vt, Vr'; ring|exact Et|reflexivity]. }
  destruct (balls_of A S mag_up garb carb rho p gs G r Hr) as [Er' Cr].
  destruct (C80_integers A S L mag_up Hm Ht garb carb rho p gs HI I1 y Hy Ey Cy 0) as (Ly & Gy & _).
  destruct (C80_integers A S L mag_up Hm Ht garb carb rho p gs HI I1 r Hr Er' Cr 0) as (_ & _ & Ler & Ger & _).
  set (q := value S rho x / value S rho y) in *. assert (Vx : value S rho x = q * value S rho y) by (unfold q; field; exact Vy). unfold the_floor in Tn.
  split; intros O.
  - apply (answer_iff _ _ true Gy) in O. pose proof (proj1 O eq_refl) as O'. cbn in O'. split.
    + apply (answer_iff _ _ true Ger). split; [intros _|reflexivity]. rewrite Vr, Va, Vx. assert (0 <= (q - IZR n) * value S rho y) by (apply Rmult_le_pos; lra). cbn. lra.
    + apply (answer_iff _ _ true (K r y Hr Hy)). split; [intros _|reflexivity]. rewrite Vr, Va, Vx. assert ((q - IZR n) * value S rho y < 1 * value S rho y) by (apply Rmult_lt_compat_r; lra). lra.
  - apply (answer_iff _ _ true Ly) in O. pose proof (proj1 O eq_refl) as O'. cbn in O'. split.
    + apply (answer_iff _ _ true Ler). split; [intros _|reflexivity]. rewrite Vr, Va, Vx. assert (0 <= (q - IZR n) * - value S rho y) by (apply Rmult_le_pos; lra). cbn. lra.
    + apply (answer_iff _ _ true (K y r Hy Hr)). split; [intros _|reflexivity]. rewrite Vr, Va, Vx. assert ((q - IZR n) * - value S rho y < 1 * - value S rho y) by (apply Rmult_lt_compat_r; lra). lra.
Qed.

(** * Example *)
(** The setting of LoopsCases: 1 and sqrt 2. *)
Lemma good_example : good_balls int_sem up30 (ideal_garb root2) int_arb root2 tt gens2.
Proof.
  destruct (ex_enc zx) as [E1 E2]. destruct (ex_shr zx) as [C1 C2]. split; [exact up30_ok|]. split; [exact up30_tight|]. split; [exact independent2|]. split; [exact E1|]. split; [exact C1|]. split; [exact E2|exact C2].
Qed.
Lemma three_times : exists u t, of_value (A := int_ring) tt 3%Z = Ok u /\ mul u zx = Ok t /\ incl (basis (emodule t)) gens2.
Proof. do 2 eexists. split; [reflexivity|]. split; [vm_compute; reflexivity|]. intros g H. exact H. Qed.
(** 3 + 2 sqrt 2 < 5 sqrt 2; both plus 5 sqrt 2; both times -2; and the remainder of 5 sqrt 2 modulo 3 + 2 sqrt 2. *)
Example C103_example : among int_sem tt gens2 zx /\ among int_sem tt gens2 zy /\
  eventually (fun n => lt_elem (A := int_ring) up30 (ideal_garb root2) int_arb n zx zy) (Ok true) /\
  (exists a b, add zx zy = Ok a /\ add zy zy = Ok b /\ eventually (fun n => lt_elem (A := int_ring) up30 (ideal_garb root2) int_arb n a b) (Ok true)) /\
  (exists a b, smul zx (SZ (-2)) = Ok a /\ smul zy (SZ (-2)) = Ok b /\ eventually (fun n => lt_elem (A := int_ring) up30 (ideal_garb root2) int_arb n b a) (Ok true)) /\
  (exists u t, of_value (A := int_ring) tt 3%Z = Ok u /\ mul u zx = Ok t /\ eventually (fun n => gt_int (A := int_ring) up30 (ideal_garb root2) int_arb n t 0) (Ok true)) /\
  (exists r, sub zy zx = Ok r /\ eventually (fun n => ge_int (A := int_ring) up30 (ideal_garb root2) int_arb n r 0) (Ok true) /\ eventually (fun n => lt_elem (A := int_ring) up30 (ideal_garb root2) int_arb n r zx) (Ok true)) /\
  eventually (fun n => elem_ceil (A := int_ring) up30 (ideal_garb root2) int_arb n (opp zx)) (-5)%Z.
Proof.
  pose proof good_example as G. pose proof C32_case as O.
  split; [exact zx_among|]. split; [exact zy_among|]. split; [exact O|].
  split.
  { destruct (add zx zy) as [a|] eqn:Ea; [|discriminate]. destruct (add zy zy) as [b|] eqn:Eb; [|discriminate]. exists a, b. split; [reflexivity|]. split; [reflexivity|].
    destruct (C103_addition _ _ int_lawful _ _ _ _ _ _ G zx zy zy zx_among zy_among zy_among) as (H & _). apply (H a b Ea Eb true), O. }
  split.
  { destruct (smul zx (SZ (-2))) as [a|] eqn:Ea; [|discriminate]. destruct (smul zy (SZ (-2))) as [b|] eqn:Eb; [|discriminate]. exists a, b. split; [reflexivity|]. split; [reflexivity|].
    destruct (C103_multiplication _ _ int_lawful _ _ _ _ _ _ G in1 zy zx zx zy_among zx_among zx_among) as (_ & _ & _ & H). apply (proj2 (H (-2)%Z b a Eb Ea) ltac:(lia) true), O. }
  assert (P : forall x v, among int_sem tt gens2 x -> value int_sem root2 x = v -> 0 < v -> eventually (fun n => gt_int (A := int_ring) up30 (ideal_garb root2) int_arb n x 0) (Ok true)).
  { intros x v Hx V Hv. apply (answer_iff _ _ true (gt_answers _ _ int_lawful _ _ _ _ _ _ G x 0 in1 Hx)). rewrite V. cbn. split; [intros _; lra|reflexivity]. }
  assert (Px : eventually (fun n => gt_int (A := int_ring) up30 (ideal_garb root2) int_arb n zx 0) (Ok true)).
  { apply (P zx _ zx_among zx_value). pose proof sqrt2_bounds. lra. }
  split.
  { destruct three_times as (u & t & Eu & Et & It). exists u, t. split; [exact Eu|]. split; [exact Et|].
    destruct (among_value _ int_sem root2 tt gens2 3%Z u in1 Logic.I Eu) as [Hu Vu].
    assert (Ht : among int_sem tt gens2 t).
    { destruct (std_mul _ _ int_lawful tt u zx (proj1 Hu) (proj1 zx_among)) as (t' & E' & Ht & _). assert (t' = t) as -> by congruence. split; [exact Ht|exact It]. }
    destruct (C103_multiplication _ _ int_lawful _ _ _ _ _ _ G in1 u zx zx Hu zx_among zx_among) as (_ & H & _). apply (H t Et Ht); [|exact Px]. apply (P u 3 Hu Vu). lra. }
  split.
  { destruct (C103_remainder _ _ int_lawful ltac:(intros p c n _ E; apply eq_IZR, E) _ _ _ _ _ _ G in1 zy zx zy_among zx_among eq_refl) as (n & a & r & Hn & Ea & Er & _ & H & _).
    assert (E1 := eventually_unique _ _ _ Hn C29_case). injection E1 as ->.
    assert (a = zx) as -> by (destruct (C102_scalars _ _ int_lawful tt zx (proj1 zx_among)) as (_ & _ & _ & (M1 & _) & _); congruence).
    exists r. split; [exact Er|]. exact (H Px). }
  destruct (C103_floor _ _ int_lawful _ _ _ _ _ _ G in1 zx zx zx_among zx_among) as (_ & H & _). apply (H 5%Z), C31_case.
Qed.
