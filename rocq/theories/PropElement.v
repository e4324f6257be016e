(** Properties C21-C27, C30, C33-C37, C47, C49, C50, C53: elements and their rings.
    Everything is stated for any ring of coefficients that satisfies the
    specification [lawful]; the integers, the rationals and the number fields (see also PropField.v) satisfy it: *)
From Coq Require Import ZArith QArith Qcanon Bool List Reals Qreals Permutation Lra Lia.
From Verif Require Import Gen SpecGen GenProofs Ring SpecRing RingProofs FloorProofs Module Element SpecModule ModuleProofs ElementProofs Independence
  ElementProofs2 SpanProofs ElementProofs3 Leading ElementProofs4 PropModule.
Import ListNotations.
Open Scope R_scope.

Theorem C50_lawful_integers : lawful int_ring int_sem. Proof. exact int_lawful. Qed.
Theorem C50_lawful_rationals : lawful rat_ring rat_sem. Proof. exact rat_lawful. Qed.
Theorem C50_lawful_fields : lawful quad_ring quad_sem. Proof. exact quad_lawful. Qed.

(** ** Elements for the examples: over the integers 3 + 2 a + 5 a b and -1 + b; over
    Q(sqrt 2): (1 + sqrt 2) a. *)
Definition zmod (b : list gen) : module int_ring := mkModule (A := int_ring) b tt.
Definition ex : elem int_ring := mkElem (A := int_ring) (zmod [g1; ga; gab]) [3; 2; 5]%Z.
Definition ey : elem int_ring := mkElem (A := int_ring) (zmod [g1; gb]) [-1; 1]%Z.
Definition q2 : qfield := QTwo 2 eq_refl.
Definition sqrt2 : quad := mkQuad 1 1 2.
Definition ez : elem quad_ring := mkElem (A := quad_ring) (mkModule (A := quad_ring) [ga] q2) [sqrt2].
Ltac module_ok := match goal with |- @module_wf ?A (mkModule ?b ?p) => refine (proj1 (make_ok A b p _ _ eq_refl)); repeat constructor; cbn; auto with arith; discriminate end.
Lemma ex_standard : standard int_sem tt ex.
Proof.
  split; [|split; [reflexivity|]].
  - split; [|split; [reflexivity|repeat constructor]]. unfold ex, zmod, g1, ga, gab. cbn [emodule]. module_ok.
  - intros q [E|[E|[E|[]]]]; [exact (eq_sym (f_equal (fun g => match g with GRat q => q | _ => 1%Qc end) E))|discriminate|discriminate].
Qed.
Lemma ey_standard : standard int_sem tt ey.
Proof.
  split; [|split; [reflexivity|]].
  - split; [|split; [reflexivity|repeat constructor]]. unfold ey, zmod, g1, gb. cbn [emodule]. module_ok.
  - intros q [E|[E|[]]]; [exact (eq_sym (f_equal (fun g => match g with GRat q => q | _ => 1%Qc end) E))|discriminate].
Qed.
Lemma ez_standard : standard quad_sem q2 ez.
Proof.
  split; [|split; [reflexivity|]].
  - split; [|split; [reflexivity|]]. { unfold ez, ga. cbn [emodule]. module_ok. } constructor; [|constructor]. right. split; [discriminate|reflexivity].
  - cbn. intros q [E|[]]. discriminate.
Qed.
(** Standard elements over one ring can always be combined, and have no generator 0. *)
Theorem C22_standard : forall (A : ring) (S : semantics A) p x y, standard S p x -> standard S p y ->
  combinable (emodule x) (emodule y) /\ no_zero_gen (basis (emodule x)).
Proof. intros A S p x y Hx Hy. split; [exact (standard_combinable A S p x y Hx Hy)|exact (standard_no_zero A S p x Hx)]. Qed.

(** * C21 promote *)
Theorem C21_promote : forall A S, lawful A S -> forall x (M : module A) y, elem_wf S x -> module_wf M -> incl (basis (emodule x)) (basis M) -> promote x M = Ok y ->
  elem_wf S y /\ emodule y = M /\ forall rho, value S rho y = value S rho x.
Proof. exact promote_value. Qed.
(** It succeeds whenever the generators that are used are in the module, and the coefficients are in its ring. *)
Theorem C21_succeeds : forall A S, lawful A S -> forall x (M : module A), elem_wf S x -> module_wf M ->
  (forall g c, In (g, c) (combine (basis (emodule x)) (coeffs x)) -> c <> czero A -> In g (basis M)) ->
  (forall c, mem S (mring (emodule x)) c -> exists c', coerce (mring M) c = Ok c') ->
  exists y, promote x M = Ok y /\ elem_wf S y /\ emodule y = M /\ forall rho, value S rho y = value S rho x.
Proof.
  intros A S L x M Hx HM F C. destruct (promote_succeeds A S L x M Hx HM F C) as [y E]. exists y. split; [exact E|].
  destruct (promote_spec A S L x M y Hx HM E) as (A1 & A2 & A3). split; [exact A1|]. split; [exact A2|]. intros rho. rewrite !value_evalv. exact (A3 F _).
Qed.
Theorem C21_self : forall A S, lawful A S -> forall (x : elem A), promote x (emodule x) = Ok x.
Proof. exact promote_self. Qed.
Theorem C21_up_and_back : forall A S, lawful A S -> forall x (M : module A) y, elem_wf S x -> module_wf M -> incl (basis (emodule x)) (basis M) -> mring M = mring (emodule x) ->
  promote x M = Ok y -> promote y (emodule x) = Ok x.
Proof. exact promote_up_and_back. Qed.
(** Elements that do not fit are not always reported: promoting a + b to <b> gives b, without an error. *)
Theorem C63_reported_refuted : exists (x : elem int_ring) M y rho, elem_wf int_sem x /\ module_wf M /\ promote x M = Ok y /\ value int_sem rho y <> value int_sem rho x.
Proof.
  exists (mkElem (A := int_ring) (zmod [ga; gb]) [1; 1]%Z), (zmod [gb]), (mkElem (A := int_ring) (zmod [gb]) [1%Z]), (fun _ => 1). split; [|split; [|split; [reflexivity|]]].
  - split; [|split; [reflexivity|repeat constructor]]. unfold zmod, ga, gb. cbn [emodule]. module_ok.
  - unfold zmod, gb. module_ok.
  - cbn. lra.
Qed.
Example C21_example : exists y, promote ey (zmod [g1; ga; gb; gab]) = Ok y /\ coeffs y = [-1; 0; 1; 0]%Z /\ promote y (zmod [g1; gb]) = Ok ey /\
  promote ex (zmod [g1; ga]) = Err AssertionFailed.
Proof. eexists. split; [reflexivity|]. repeat split. Qed.

(** * C22 addition *)
Theorem C22_sum : forall A S, lawful A S -> forall x y (z : elem A), elem_wf S x -> elem_wf S y -> add x y = Ok z ->
  elem_wf S z /\ forall rho, value S rho z = value S rho x + value S rho y.
Proof. exact add_value. Qed.
Theorem C22_succeeds : forall A S, lawful A S -> forall (x y : elem A), elem_wf S x -> elem_wf S y -> combinable (emodule x) (emodule y) -> exists z, add x y = Ok z.
Proof. exact add_succeeds. Qed.
Theorem C22_generators : forall A S, lawful A S -> forall x y (z : elem A), elem_wf S x -> elem_wf S y -> add x y = Ok z ->
  forall g, In g (basis (emodule z)) <-> In g (basis (emodule x)) \/ In g (basis (emodule y)).
Proof. intros A S L x y z Hx Hy H. exact (proj2 (proj2 (add_spec A S L x y z Hx Hy H))). Qed.
(** x += x doubles. *)
Theorem C22_double : forall A S, lawful A S -> forall x : elem A, elem_wf S x -> exists z, add x x = Ok z /\ emodule z = emodule x /\ forall rho, value S rho z = 2 * value S rho x.
Proof.
  intros A S L x Hx. unfold add, common. rewrite (module_eqb_refl A S L). eexists. split; [reflexivity|]. split; [reflexivity|]. intros rho.
  destruct (add_value A S L x x (mkElem (emodule x) (add_coeffs (coeffs x) (coeffs x))) Hx Hx) as [_ V]; [|rewrite V; lra].
  unfold add, common. rewrite (module_eqb_refl A S L). reflexivity.
Qed.
(** Numbers as elements (Element(value), Module::gen). *)
Theorem C22_numbers : forall A S, lawful A S -> forall (p : par A) c, mem S p c -> exists x, of_value p c = Ok x /\ standard S p x /\ forall rho, value S rho x = val S c.
Proof. intros A S _. exact (of_value_standard A S). Qed.
Example C22_example : exists z, add ex ey = Ok z /\ coeffs z = [2; 2; 1; 5]%Z /\ basis (emodule z) = [g1; ga; gb; gab].
Proof. eexists. split; [reflexivity|]. split; reflexivity. Qed.

(** * C23 negation and subtraction *)
Theorem C23_negative : forall A S, lawful A S -> forall x : elem A, elem_wf S x -> elem_wf S (opp x) /\ forall rho, value S rho (opp x) = - value S rho x.
Proof. exact opp_value. Qed.
Theorem C23_difference : forall A S, lawful A S -> forall x y (z : elem A), elem_wf S x -> elem_wf S y -> sub x y = Ok z ->
  elem_wf S z /\ forall rho, value S rho z = value S rho x - value S rho y.
Proof. exact sub_value. Qed.
Theorem C23_succeeds : forall A S, lawful A S -> forall (x y : elem A), elem_wf S x -> elem_wf S y -> combinable (emodule x) (emodule y) -> exists z, sub x y = Ok z.
Proof. intros A S L x y Hx Hy C. unfold sub. apply (add_succeeds A S L); [exact Hx|apply (opp_spec A S L), Hy|exact C]. Qed.
Theorem C23_self : forall A S, lawful A S -> forall x : elem A, elem_wf S x -> no_zero_gen (basis (emodule x)) -> exists z, sub x x = Ok z /\ nonzero z = false /\ eq_integer z 0 = true.
Proof.
  intros A S L x Hx Z. destruct (C23_succeeds A S L x x Hx Hx) as [z E].
  { split; [|auto]. intros g h Hg Hh Rg Rh. destruct Hx as ([_ Ax] & _). apply ascending_compatible, compatible_nodup in Ax. apply (proj2 Ax g h Hg Hh Rg Rh). }
  exists z. split; [exact E|]. destruct (sub_value A S L x x z Hx Hx E) as [Wz Vz].
  assert (Zz : no_zero_gen (basis (emodule z))). { intros I0. apply (sub_spec A S L x x z Hx Hx E) in I0. destruct I0; auto. }
  split.
  - destruct (nonzero z) eqn:N; [|reflexivity]. apply (nonzero_value A S L z Wz Zz) in N. destruct N as [rho N]. exfalso. apply N. rewrite Vz. lra.
  - apply (eq_integer_spec A S L z 0 Wz Zz). intros rho. rewrite Vz. lra.
Qed.
Example C23_example : exists z, sub ey ex = Ok z /\ coeffs z = [-4; -2; 1; -5]%Z.
Proof. eexists. split; reflexivity. Qed.

(** * C24 multiplication *)
Theorem C24_product : forall A S, lawful A S -> forall x y (z : elem A), elem_wf S x -> elem_wf S y -> mul x y = Ok z ->
  elem_wf S z /\ forall rho, value S rho z = value S rho x * value S rho y.
Proof. exact mul_value. Qed.
Theorem C24_generators : forall A S, lawful A S -> forall x y (z : elem A), elem_wf S x -> elem_wf S y -> nonzero x = true -> nonzero y = true -> mul x y = Ok z ->
  forall k, In k (basis (emodule z)) <-> exists g h, In g (basis (emodule x)) /\ In h (basis (emodule y)) /\ gen_mul g h = Ok k.
Proof. intros A S L x y z Hx Hy Nx Ny H. exact (proj2 (proj2 (mul_spec A S L x y z Hx Hy H)) Nx Ny). Qed.
Theorem C24_succeeds : forall A S, lawful A S -> forall (x y : elem A), elem_wf S x -> elem_wf S y ->
  (mring (emodule x) = mring (emodule y) \/ exists p, compositum (mring (emodule x)) (mring (emodule y)) = Ok p) ->
  (forall g h, In g (basis (emodule x)) -> In h (basis (emodule y)) -> exists k, gen_mul g h = Ok k) -> exists z, mul x y = Ok z.
Proof. exact mul_succeeds. Qed.
Theorem C24_standard : forall A S, lawful A S -> forall p (x y : elem A), standard S p x -> standard S p y ->
  exists z, mul x y = Ok z /\ standard S p z /\ forall rho, value S rho z = value S rho x * value S rho y.
Proof. exact std_mul. Qed.
Theorem C24_zero : forall (A : ring) (x y : elem A), nonzero x = false \/ nonzero y = false -> exists z, mul x y = Ok z /\ nonzero z = false.
Proof.
  intros A x y H. unfold mul. destruct (nonzero x) eqn:Nx; cbn [negb]; [|eauto]. destruct H as [H|H]; [discriminate|]. rewrite H. cbn [negb]. eauto.
Qed.
Theorem C24_real : forall A S, lawful A S -> forall (x : elem A) g y, elem_wf S x -> gen_wf g -> mul_real x g = Ok y ->
  elem_wf S y /\ forall rho, value S rho y = value S rho x * gen_val rho g.
Proof. exact mul_real_spec. Qed.
Example C24_example : exists z, mul ex ey = Ok z /\ basis (emodule z) = [g1; ga; gb; gab; GProd [(5%Z, 1%nat); (7%Z, 2%nat)]] /\ coeffs z = [-3; -2; 3; -3; 5]%Z.
Proof. eexists. split; [reflexivity|]. split; reflexivity. Qed.

(** * C25 laws of a commutative ring *)
Theorem C25_add_commutative : forall A S, lawful A S -> forall p (x y : elem A), standard S p x -> standard S p y -> same (add x y) (add y x).
Proof. exact law_add_comm. Qed.
Theorem C25_add_associative : forall A S, lawful A S -> forall p (x y z : elem A), standard S p x -> standard S p y -> standard S p z ->
  same (bind (add x y) (fun s => add s z)) (bind (add y z) (fun s => add x s)).
Proof. exact law_add_assoc. Qed.
Theorem C25_add_zero : forall A S, lawful A S -> forall p (x y : elem A), standard S p x -> standard S p y -> nonzero y = false -> same (add x y) (Ok x).
Proof. exact law_add_zero. Qed.
Theorem C25_add_negative : forall A S, lawful A S -> forall p (x : elem A), standard S p x -> exists z, add x (opp x) = Ok z /\ nonzero z = false.
Proof. exact law_add_opp. Qed.
Theorem C25_mul_commutative : forall A S, lawful A S -> forall p (x y : elem A), standard S p x -> standard S p y -> same (mul x y) (mul y x).
Proof. exact law_mul_comm. Qed.
Theorem C25_mul_associative : forall A S, lawful A S -> forall p (x y z : elem A), standard S p x -> standard S p y -> standard S p z ->
  same (bind (mul x y) (fun s => mul s z)) (bind (mul y z) (fun s => mul x s)).
Proof. exact law_mul_assoc. Qed.
Theorem C25_mul_one : forall A S, lawful A S -> forall p (x u : elem A), standard S p x -> of_value p (cone A) = Ok u -> same (mul x u) (Ok x).
Proof. exact law_mul_one. Qed.
Theorem C25_distributive : forall A S, lawful A S -> forall p (x y z : elem A), standard S p x -> standard S p y -> standard S p z ->
  same (bind (add y z) (fun s => mul x s)) (bind (mul x y) (fun a => bind (mul x z) (fun b => add a b))).
Proof. exact law_distributive. Qed.
(** In general (other rational generators, different rings): if both sides and their comparison are defined. *)
Theorem C25_general_distributive : forall A S, lawful A S -> forall (x y z s l a b r : elem A) e, elem_wf S x -> elem_wf S y -> elem_wf S z ->
  no_zero_gen (basis (emodule x)) -> no_zero_gen (basis (emodule y)) -> no_zero_gen (basis (emodule z)) ->
  add y z = Ok s -> mul x s = Ok l -> mul x y = Ok a -> mul x z = Ok b -> add a b = Ok r -> equal l r = Ok e -> e = true.
Proof. exact general_distributive. Qed.
Theorem C25_general_mul_associative : forall A S, lawful A S -> forall (x y z a b u w : elem A) e, elem_wf S x -> elem_wf S y -> elem_wf S z ->
  no_zero_gen (basis (emodule x)) -> no_zero_gen (basis (emodule y)) -> no_zero_gen (basis (emodule z)) ->
  mul x y = Ok a -> mul a z = Ok u -> mul y z = Ok b -> mul x b = Ok w -> equal u w = Ok e -> e = true.
Proof. exact general_mul_assoc. Qed.
Theorem C25_general_add_associative : forall A S, lawful A S -> forall (x y z a b u w : elem A) e, elem_wf S x -> elem_wf S y -> elem_wf S z ->
  add x y = Ok a -> add a z = Ok u -> add y z = Ok b -> add x b = Ok w -> equal u w = Ok e -> e = true.
Proof. exact general_add_assoc. Qed.
Example C25_example : standard int_sem tt ex /\ standard int_sem tt ey /\ standard quad_sem q2 ez /\
  same (bind (add ex ey) (fun s => mul ey s)) (bind (mul ey ex) (fun a => bind (mul ey ey) (fun b => add a b))).
Proof.
  split; [exact ex_standard|]. split; [exact ey_standard|]. split; [exact ez_standard|]. do 2 eexists. repeat (split; [reflexivity|]). reflexivity.
Qed.

(** * C26 equality *)
Theorem C26_equal : forall A S, lawful A S -> forall (x y : elem A) b, elem_wf S x -> elem_wf S y -> no_zero_gen (basis (emodule x)) -> no_zero_gen (basis (emodule y)) ->
  equal x y = Ok b -> (b = true <-> forall rho, value S rho x = value S rho y).
Proof. exact equal_value. Qed.
Theorem C26_defined : forall A S, lawful A S -> forall (x y : elem A), elem_wf S x -> elem_wf S y -> combinable (emodule x) (emodule y) -> exists b, equal x y = Ok b.
Proof. exact equal_total. Qed.
Theorem C26_reflexive : forall A S, lawful A S -> forall x : elem A, elem_wf S x -> equal x x = Ok true.
Proof. exact equal_refl. Qed.
Theorem C26_symmetric : forall A S, lawful A S -> forall (x y : elem A) b b', elem_wf S x -> elem_wf S y -> equal x y = Ok b -> equal y x = Ok b' -> b = b'.
Proof. exact equal_sym. Qed.
Theorem C26_transitive : forall A S, lawful A S -> forall (x y z : elem A) b, elem_wf S x -> elem_wf S y -> elem_wf S z ->
  equal x y = Ok true -> equal y z = Ok true -> equal x z = Ok b -> b = true.
Proof. exact equal_trans. Qed.
Theorem C26_bool : forall A S, lawful A S -> forall x : elem A, elem_wf S x -> no_zero_gen (basis (emodule x)) -> (nonzero x = true <-> exists rho, value S rho x <> 0).
Proof. exact nonzero_value. Qed.
Example C26_example : equal ex ey = Ok false /\ (exists z, add ex ey = Ok z /\ equal ex z = Ok false /\ exists w, sub z ey = Ok w /\ equal ex w = Ok true /\ emodule w <> emodule ex).
Proof. split; [reflexivity|]. eexists. split; [reflexivity|]. split; [reflexivity|]. eexists. split; [reflexivity|]. split; [reflexivity|]. discriminate. Qed.

(** * C27 conversions *)
Theorem C27_rational : forall A S, lawful A S -> forall (x : elem A) (q : Qc), elem_wf S x -> no_zero_gen (basis (emodule x)) ->
  (to_rational x = Some q <-> forall rho, value S rho x = Q2R q).
Proof. exact to_rational_spec. Qed.
Theorem C27_integer : forall A S, lawful A S -> forall (x : elem A) n, elem_wf S x -> no_zero_gen (basis (emodule x)) ->
  (to_integer x = Some n <-> forall rho, value S rho x = IZR n).
Proof. exact to_integer_spec. Qed.
Theorem C27_equal_rational : forall A S, lawful A S -> forall (x : elem A) (q : Qc), elem_wf S x -> no_zero_gen (basis (emodule x)) ->
  (eq_rational x q = true <-> forall rho, value S rho x = Q2R q).
Proof. exact eq_rational_spec. Qed.
Theorem C27_equal_integer : forall A S, lawful A S -> forall (x : elem A) n, elem_wf S x -> no_zero_gen (basis (emodule x)) ->
  (eq_integer x n = true <-> forall rho, value S rho x = IZR n).
Proof. exact eq_integer_spec. Qed.
Example C27_example : to_integer ex = None /\ exists z, sub ex ex = Ok z /\ to_integer z = Some 0%Z /\
  exists w, of_value (A := int_ring) tt 7%Z = Ok w /\ to_integer w = Some 7%Z.
Proof. split; [reflexivity|]. eexists. split; [reflexivity|]. split; [reflexivity|]. eexists. split; reflexivity. Qed.

(** * C30 unit *)
Theorem C30_sound : forall A S, lawful A S -> forall p (x : elem A), standard S p x -> is_unit x = true ->
  exists y, standard S p y /\ forall rho, value S rho x * value S rho y = 1.
Proof. exact is_unit_sound. Qed.
Theorem C30_complete : forall A S, lawful A S -> forall p (x y : elem A), standard S p x -> standard S p y -> (forall rho, value S rho x * value S rho y = 1) -> is_unit x = true.
Proof. exact is_unit_complete. Qed.
(** With other rational generators unit() is wrong: 2 * (1/2) = 1 is not considered a unit ... *)
Theorem C70_complete_refuted : exists x : elem int_ring, elem_wf int_sem x /\ (forall rho, value int_sem rho x = 1) /\ is_unit x = false.
Proof.
  exists (mkElem (A := int_ring) (zmod [GRat (Q2Qc (1 # 2))]) [2%Z]). split; [|split; [|reflexivity]].
  - split; [|split; [reflexivity|repeat constructor]]. cbn [emodule]. unfold zmod. module_ok.
  - intros rho. unfold value. cbn [combination emodule basis zmod coeffs gen_val val int_sem]. rewrite Q2R_Q2Qc. unfold Q2R. cbn. lra.
Qed.
(** ... and the integer 2 = 1 * (2) is considered a unit over the integers. *)
Theorem C70_sound_refuted : exists x : elem int_ring, elem_wf int_sem x /\ (forall rho, value int_sem rho x = 2) /\ is_unit x = true /\
  ~ exists y : elem int_ring, standard int_sem tt y /\ forall rho, value int_sem rho x * value int_sem rho y = 1.
Proof.
  exists (mkElem (A := int_ring) (zmod [GRat (Q2Qc 2)]) [1%Z]).
  assert (V : forall rho, value int_sem rho (mkElem (A := int_ring) (zmod [GRat (Q2Qc 2)]) [1%Z]) = 2).
  { intros rho. unfold value. cbn [combination emodule basis zmod coeffs gen_val val int_sem]. rewrite Q2R_Q2Qc. unfold Q2R. cbn. lra. }
  split; [|split; [exact V|split; [reflexivity|]]].
  - split; [|split; [reflexivity|repeat constructor]]. cbn [emodule]. unfold zmod. module_ok.
  - intros (y & Hy & H). assert (Vy : forall rho, value int_sem rho y = Q2R (Q2Qc (1 # 2))).
    { intros rho. specialize (H rho). rewrite V in H. rewrite Q2R_Q2Qc. unfold Q2R. cbn. lra. }
    destruct (nonzero y) eqn:N.
    + apply (nonzero_true int_ring int_sem int_lawful) in N. destruct N as (c & Ic & Nc). destruct Hy as (Wy & _ & Sy).
      apply In_nth_error in Ic. destruct Ic as [n Hn]. destruct (nth_error (basis (emodule y)) n) as [g|] eqn:Eg.
      * assert (Ig : In (g, c) (combine (basis (emodule y)) (coeffs y))).
        { clear -Hn Eg. revert n Hn Eg. generalize (coeffs y). induction (basis (emodule y)) as [|h gs IH]; intros [|d cs] [|n] Hn Eg; try discriminate; cbn in *.
          - injection Hn as ->. injection Eg as ->. left. reflexivity.
          - right. apply (IH cs n); assumption. }
        destruct (constant_coefficients int_ring int_sem int_lawful y _ Wy Vy g c Ig) as [K1 K2].
        destruct g as [q|i|ms]; [|apply Nc, K1; exact (fun F => F)|apply Nc, K1; exact (fun F => F)].
        pose proof (nth_error_In _ _ Eg) as Iq. rewrite (Sy q Iq) in K2. specialize (K2 _ eq_refl). rewrite Q2R_Qc_1, Q2R_Q2Qc in K2. unfold Q2R in K2. cbn in K2.
        assert (E2 : (2 * c = 1)%Z) by (apply eq_IZR; rewrite mult_IZR; cbn; lra). lia.
      * apply nth_error_None in Eg. assert (n < length (coeffs y))%nat by (apply nth_error_Some; congruence). destruct Wy as (_ & Hl & _). lia.
    + specialize (H (fun _ => 0)). rewrite (value_evalv int_ring int_sem _ y), (evalv_nonzero_false int_ring int_sem int_lawful _ y N) in H. lra.
Qed.
Example C30_example : is_unit ex = false /\ is_unit ez = false /\ exists u, of_value (A := int_ring) tt (-1)%Z = Ok u /\ is_unit u = true.
Proof. split; [reflexivity|]. split; [reflexivity|]. eexists. split; reflexivity. Qed.

(** * C33 simplify *)
Theorem C33_simplify : forall A S, lawful A S -> forall x : elem A, elem_wf S x -> exists y, simplify x = Ok y /\ elem_wf S y /\ mring (emodule y) = mring (emodule x) /\
  (forall rho, value S rho y = value S rho x) /\
  (forall g, In g (basis (emodule y)) <-> exists c, In (g, c) (combine (basis (emodule x)) (coeffs x)) /\ c <> czero A) /\
  Forall (fun c => c <> czero A) (coeffs y).
Proof. exact simplify_spec. Qed.
Theorem C33_sum : forall A S, lawful A S -> forall x : elem A, elem_wf S x -> exists y z, simplify x = Ok y /\ add x y = Ok z /\ emodule z = emodule x.
Proof.
  intros A S L x Hx. destruct (add_simplified_total A S L x Hx) as (y & z & E & F). exists y, z. split; [exact E|]. split; [exact F|]. exact (add_simplified A S L x y z Hx E F).
Qed.
Example C33_example : exists y z w, sub ex ey = Ok y /\ add y ey = Ok z /\ simplify z = Ok w /\ rank (emodule z) = 4%nat /\ w = ex.
Proof. do 3 eexists. repeat (split; [reflexivity|]). reflexivity. Qed.

(** * C34 scalars *)
Theorem C34_multiply : forall A S, lawful A S -> forall (x : elem A) s y, elem_wf S x -> smem S (mring (emodule x)) s -> smul x s = Ok y ->
  elem_wf S y /\ emodule y = emodule x /\ forall rho, value S rho y = value S rho x * sval S s.
Proof. exact smul_spec. Qed.
(** There is a result whenever the product is in the module. *)
Theorem C34_multiply_complete : forall A S, lawful A S -> forall (x : elem A) s z, elem_wf S x -> smem S (mring (emodule x)) s -> no_zero_gen (basis (emodule x)) ->
  elem_wf S z -> emodule z = emodule x -> (forall rho, value S rho z = value S rho x * sval S s) -> smul x s = Ok z.
Proof.
  intros A S L x s z Hx Hs Z Hz M V. destruct (smul_complete A S L x s z Hx Hs Z Hz M V) as [y E]. rewrite E. f_equal.
  destruct (smul_spec A S L x s y Hx Hs E) as (Wy & My & Vy). apply (value_inj A S L); [exact Wy|exact Hz|congruence|rewrite My; exact Z|].
  intros rho. rewrite Vy, V. reflexivity.
Qed.
Theorem C34_divide : forall A S, lawful A S -> forall (x : elem A) s y, elem_wf S x -> smem S (mring (emodule x)) s -> sval S s <> 0 -> sdiv x s = Ok y ->
  elem_wf S y /\ emodule y = emodule x /\ forall rho, value S rho y = value S rho x / sval S s.
Proof. exact sdiv_spec. Qed.
Theorem C34_divide_complete : forall A S, lawful A S -> forall (x : elem A) s z, elem_wf S x -> smem S (mring (emodule x)) s -> no_zero_gen (basis (emodule x)) -> sval S s <> 0 ->
  elem_wf S z -> emodule z = emodule x -> (forall rho, value S rho z = value S rho x / sval S s) -> sdiv x s = Ok z.
Proof.
  intros A S L x s z Hx Hs Z Ns Hz M V. destruct (sdiv_complete A S L x s z Hx Hs Z Ns Hz M V) as [y E]. rewrite E. f_equal.
  destruct (sdiv_spec A S L x s y Hx Hs Ns E) as (Wy & My & Vy). apply (value_inj A S L); [exact Wy|exact Hz|congruence|rewrite My; exact Z|].
  intros rho. rewrite Vy, V. reflexivity.
Qed.
(** Division by zero throws and leaves the element alone, if the module has a generator. *)
Theorem C34_divide_by_zero : forall A S, lawful A S -> forall (x : elem A) s, elem_wf S x -> smem S (mring (emodule x)) s -> sval S s = 0 -> basis (emodule x) <> [] ->
  idiv_elem x s = (x, Some InvalidArgument) /\ sdiv x s = Err InvalidArgument.
Proof.
  intros A S L x s Hx Hs Z B. pose proof (sdiv_zero A S L x s Hx Hs Z B) as E. split; [|exact E].
  pose proof (idiv_elem_zero A S L x s Hx Hs Z) as F. unfold sdiv, scaled in E. destruct (idiv_elem x s) as [y [e|]]; [|discriminate]. cbn in F. congruence.
Qed.
(** In the module without generators division by zero does not throw. *)
Theorem C71_divide_by_zero_refuted : exists x : elem int_ring, elem_wf int_sem x /\ sdiv x (SZ 0) = Ok x.
Proof. exists (mkElem (A := int_ring) (zmod []) []). split; [|reflexivity]. split; [split; [constructor|exact I]|split; [reflexivity|constructor]]. Qed.
(** A failing x /= s changes x: (2 a + 3 b) /= 2 throws and leaves a + 3 b behind. *)
Theorem C71_unchanged_refuted : exists x y : elem int_ring, elem_wf int_sem x /\ idiv_elem x (SZ 2) = (y, Some InvalidArgument) /\ equal x y = Ok false.
Proof.
  exists (mkElem (A := int_ring) (zmod [ga; gb]) [2; 3]%Z), (mkElem (A := int_ring) (zmod [ga; gb]) [1; 3]%Z). split; [|split; reflexivity].
  split; [|split; [reflexivity|repeat constructor]]. unfold zmod, ga, gb. cbn [emodule]. module_ok.
Qed.
Example C34_example : (exists y, smul ex (SZ 3) = Ok y /\ coeffs y = [9; 6; 15]%Z /\ sdiv y (SZ 3) = Ok ex) /\ sdiv ex (SZ 2) = Err InvalidArgument.
Proof. split; [|reflexivity]. eexists. split; [reflexivity|]. split; reflexivity. Qed.

(** * C35 coefficients *)
Theorem C35_element : forall A S, lawful A S -> forall (M : module A) cs x, module_wf M -> Forall (mem S (mring M)) cs -> make_elem M cs = Ok x ->
  elem_wf S x /\ emodule x = M /\ coeffs x = cs /\ forall rho, value S rho x = combination S rho (basis M) cs.
Proof. intros A S _. exact (make_elem_spec A S). Qed.
Theorem C35_element_defined : forall (A : ring) (M : module A) cs, (exists x, make_elem M cs = Ok x) <-> length cs = length (basis M).
Proof. exact make_elem_iff. Qed.
Theorem C35_coefficient : forall (A : ring) (x : elem A) i c, coefficient x i = Ok c <-> (0 <= i)%Z /\ nth_error (coeffs x) (Z.to_nat i) = Some c.
Proof. exact coefficient_spec. Qed.
Theorem C35_coefficient_throws : forall (A : ring) (x : elem A) i, (exists e, coefficient x i = Err e) <-> (i < 0 \/ Z.of_nat (length (coeffs x)) <= i)%Z.
Proof. exact coefficient_throws. Qed.
Theorem C35_generator : forall A S, lawful A S -> forall (M : module A) j x, module_wf M -> module_gen M j = Ok x ->
  elem_wf S x /\ emodule x = M /\ exists g, nth_error (basis M) (Z.to_nat j) = Some g /\ (forall rho, value S rho x = gen_val rho g) /\
  forall i, (0 <= i < Z.of_nat (length (basis M)))%Z -> coefficient x i = Ok (if (i =? j)%Z then cone A else czero A).
Proof. exact module_gen_spec. Qed.
(** (The code does not check the upper bound of the index of gen.) *)
Theorem C35_generator_defined : forall (A : ring) (M : module A) j, (0 <= j < Z.of_nat (length (basis M)))%Z -> exists x, module_gen M j = Ok x.
Proof.
  intros A M j H. destruct (module_gen M j) as [x|e] eqn:E; [eauto|]. exfalso.
  assert (K : (j < 0 \/ Z.of_nat (length (basis M)) <= j)%Z) by (apply (module_gen_throws A M j); eauto). lia.
Qed.
(** The coefficients of an element are unique. *)
Theorem C35_unique : forall A S, lawful A S -> forall x y : elem A, elem_wf S x -> elem_wf S y -> emodule x = emodule y -> no_zero_gen (basis (emodule x)) ->
  (forall rho, value S rho x = value S rho y) -> x = y.
Proof. exact value_inj. Qed.
Example C35_example : coefficient ex 2 = Ok 5%Z /\ coefficient ex 3 = Err OutOfRange /\ (exists y, module_gen (zmod [g1; ga; gab]) 1 = Ok y /\ coeffs y = [0; 1; 0]%Z).
Proof. split; [reflexivity|]. split; [reflexivity|]. eexists. split; reflexivity. Qed.

(** * C36 rationalCoefficients *)
Theorem C36_length : forall A S, lawful A S -> forall x : elem A, elem_wf S x ->
  length (rational_coefficients x) = (length (basis (emodule x)) * degree_of (mring (emodule x)))%nat.
Proof. exact rational_coefficients_length. Qed.
Theorem C36_determines : forall A S, lawful A S -> forall x y : elem A, elem_wf S x -> elem_wf S y -> emodule x = emodule y ->
  (rational_coefficients x = rational_coefficients y <-> coeffs x = coeffs y).
Proof. exact rational_coefficients_inj. Qed.
Theorem C36_entries : forall A S, lawful A S -> forall (x : elem A) i j c, elem_wf S x -> nth_error (coeffs x) i = Some c -> (j < degree_of (mring (emodule x)))%nat ->
  nth_error (rational_coefficients x) (i * degree_of (mring (emodule x)) + j) = Some (nth j (coordinates c) 0%Qc).
Proof. exact rational_coefficients_nth. Qed.
(** The coordinates are those in the power basis of the generator [theta] of the field. *)
Theorem C36_power_basis : forall A S, lawful A S -> forall p (c : car A), mem S p c -> val S c = polynomial (coordinates c) (theta S p).
Proof. exact L_coordinates_val. Qed.
Example C36_example : rational_coefficients ez = [1; 1]%Qc /\ rational_coefficients (mkElem (A := quad_ring) (mkModule (A := quad_ring) [ga] q2) [quad_of_q 1]) = [1; 0]%Qc /\ elem_wf quad_sem ez.
Proof. split; [reflexivity|]. split; [reflexivity|]. exact (proj1 ez_standard). Qed.

(** * C37 change of ring *)
Theorem C37_integers_to_rationals : forall x : elem int_ring, elem_wf int_sem x -> exists y, change_ring int_to_rat x = Ok y /\ elem_wf rat_sem y /\
  basis (emodule y) = basis (emodule x) /\ mring (emodule y) = trivial_par rat_ring /\ coeffs y = map int_to_rat (coeffs x) /\ forall rho, value rat_sem rho y = value int_sem rho x.
Proof. exact (embed_spec int_ring rat_ring int_sem rat_sem int_to_rat int_to_rat_embeds). Qed.
Theorem C37_integers_to_field : forall x : elem int_ring, elem_wf int_sem x -> exists y, change_ring int_to_quad x = Ok y /\ elem_wf quad_sem y /\
  basis (emodule y) = basis (emodule x) /\ mring (emodule y) = trivial_par quad_ring /\ coeffs y = map int_to_quad (coeffs x) /\ forall rho, value quad_sem rho y = value int_sem rho x.
Proof. exact (embed_spec int_ring quad_ring int_sem quad_sem int_to_quad int_to_quad_embeds). Qed.
Theorem C37_rationals_to_field : forall x : elem rat_ring, elem_wf rat_sem x -> exists y, change_ring rat_to_quad x = Ok y /\ elem_wf quad_sem y /\
  basis (emodule y) = basis (emodule x) /\ mring (emodule y) = trivial_par quad_ring /\ coeffs y = map rat_to_quad (coeffs x) /\ forall rho, value quad_sem rho y = value rat_sem rho x.
Proof. exact (embed_spec rat_ring quad_ring rat_sem quad_sem rat_to_quad rat_to_quad_embeds). Qed.
(** For any value preserving map into a lawful ring it commutes with +, -, * and ==. *)
Theorem C37_commutes : forall (A B : ring) (SA : semantics A) (SB : semantics B), lawful A SA -> lawful B SB ->
  forall f : car A -> car B, (forall p c, mem SA p c -> mem SB (trivial_par B) (f c) /\ val SB (f c) = val SA c) ->
  forall p (x y : elem A) (x' y' : elem B), standard SA p x -> standard SA p y -> change_ring f x = Ok x' -> change_ring f y = Ok y' ->
  same (bind (add x y) (change_ring f)) (add x' y') /\ same (bind (sub x y) (change_ring f)) (sub x' y') /\
  same (bind (mul x y) (change_ring f)) (mul x' y') /\ equal x y = equal x' y'.
Proof.
  intros A B SA SB LA LB f F p x y x' y' Hx Hy Ex Ey. split; [exact (embed_add A B SA SB LA LB f F p x y x' y' Hx Hy Ex Ey)|].
  split; [exact (embed_sub A B SA SB LA LB f F p x y x' y' Hx Hy Ex Ey)|]. split; [exact (embed_mul A B SA SB LA LB f F p x y x' y' Hx Hy Ex Ey)|].
  exact (embed_equal A B SA SB LA LB f F p x y x' y' Hx Hy Ex Ey).
Qed.
Theorem C37_embeddings :
  (forall p c, mem int_sem p c -> mem rat_sem (trivial_par rat_ring) (int_to_rat c) /\ val rat_sem (int_to_rat c) = val int_sem c) /\
  (forall p c, mem int_sem p c -> mem quad_sem (trivial_par quad_ring) (int_to_quad c) /\ val quad_sem (int_to_quad c) = val int_sem c) /\
  (forall p c, mem rat_sem p c -> mem quad_sem (trivial_par quad_ring) (rat_to_quad c) /\ val quad_sem (rat_to_quad c) = val rat_sem c).
Proof. exact (conj int_to_rat_embeds (conj int_to_quad_embeds rat_to_quad_embeds)). Qed.
Example C37_example : exists y, change_ring int_to_quad ex = Ok y /\ coeffs y = [mkQuad (Q2Qc 3) 0 1; mkQuad (Q2Qc 2) 0 1; mkQuad (Q2Qc 5) 0 1].
Proof. eexists. split; reflexivity. Qed.

(** * C47 one *)
Theorem C47_sound : forall A S, lawful A S -> forall integers (M : module A) x, module_wf M -> one_of integers M = Ok x ->
  elem_wf S x /\ emodule x = M /\ forall rho, value S rho x = 1.
Proof. exact one_sound. Qed.
Theorem C47_no_rational_generator : forall A S, lawful A S -> forall integers (M : module A), module_wf M -> (forall g, In g (basis M) -> ~ rational g) ->
  one_of integers M = Err LogicError /\ ~ exists x, elem_wf S x /\ emodule x = M /\ forall rho, value S rho x = 1.
Proof. exact one_no_rational. Qed.
(** With a positive rational generator, over Q and number fields ... *)
Theorem C47_complete_field : forall A S, lawful A S -> forall (M : module A) q, module_wf M -> In (GRat q) (basis M) -> 0 < Q2R q ->
  (exists c, mem S (mring M) c /\ val S c * Q2R q = 1) -> exists x, one_of false M = Ok x.
Proof. exact one_field. Qed.
(** ... and over the integers. *)
Theorem C47_complete_integers : forall M : module int_ring, module_wf M -> (forall q, In (GRat q) (basis M) -> 0 < Q2R q) ->
  (exists x, elem_wf int_sem x /\ emodule x = M /\ forall rho, value int_sem rho x = 1) -> exists x, one_of true M = Ok x.
Proof. exact one_int_complete. Qed.
(** The generator -1/2 over the integers: one() throws although 1 = -2 * (-1/2). *)
Theorem C73_complete_refuted : exists (M : module int_ring) (x : elem int_ring), module_wf M /\ elem_wf int_sem x /\ emodule x = M /\
  (forall rho, value int_sem rho x = 1) /\ one_of true M = Err LogicError.
Proof.
  exists (zmod [GRat (Q2Qc (-1 # 2))]), (mkElem (A := int_ring) (zmod [GRat (Q2Qc (-1 # 2))]) [-2]%Z).
  assert (W : module_wf (zmod [GRat (Q2Qc (-1 # 2))])) by (unfold zmod; module_ok).
  split; [exact W|]. split; [split; [exact W|split; [reflexivity|repeat constructor]]|]. split; [reflexivity|]. split; [|reflexivity].
  intros rho. unfold value. cbn [combination emodule basis zmod coeffs gen_val val int_sem]. rewrite Q2R_Q2Qc. unfold Q2R. cbn. lra.
Qed.
Example C47_example : exists x, one_of true (zmod [GRat (Q2Qc (1 # 2)); ga]) = Ok x /\ coeffs x = [2; 0]%Z.
Proof. eexists. split; reflexivity. Qed.

(** * C49 coefficients: floor and division *)
Theorem C49_floor_integers : forall x : car int_ring, is_floor (cfloor x) (val int_sem x).
Proof. exact int_floor. Qed.
Theorem C49_floor_fields : forall p (x : car quad_ring), mem quad_sem p x -> is_floor (cfloor x) (val quad_sem x).
Proof. exact quad_floor_spec. Qed.
(** RationalField::floor is right for numbers that are not negative and for integers, ... *)
Theorem C49_floor_rationals : forall x : Qc, 0 <= Q2R x \/ (exists n, Q2R x = IZR n) -> is_floor (cfloor (r := rat_ring) x) (Q2R x).
Proof. exact rat_floor_nonneg. Qed.
(** ... and always off by one otherwise. *)
Theorem C74_floor_negative_refuted : forall x : Qc, Q2R x < 0 -> (forall n, Q2R x <> IZR n) -> is_floor (cfloor (r := rat_ring) x - 1) (Q2R x).
Proof. exact rat_floor_negative. Qed.
Theorem C49_division_by_zero : forall A S, lawful A S -> forall p x s, mem S p x -> smem S p s -> sval S s = 0 -> idiv (r := A) x s = Err InvalidArgument.
Proof.
  intros A S L p x s Hx Hs Z. pose proof (L_idiv A S L p x s Hx Hs) as H. destruct (idiv x s) as [y|e]; [destruct H as [H _]; contradiction|]. destruct H as [-> _]. reflexivity.
Qed.
Theorem C49_division : forall A S, lawful A S -> forall p x s y, mem S p x -> smem S p s -> idiv (r := A) x s = Ok y ->
  sval S s <> 0 /\ mem S p y /\ val S y = val S x / sval S s.
Proof. intros A S L p x s y Hx Hs E. pose proof (L_idiv A S L p x s Hx Hs) as H. rewrite E in H. exact H. Qed.
Theorem C49_unit : forall A S, lawful A S -> forall p x, mem S p x -> (cunit (r := A) x = true <-> exists y, mem S p y /\ val S x * val S y = 1).
Proof. exact L_unit. Qed.
Example C49_example : cfloor (r := rat_ring) (Q2Qc (-1 # 2)) = 0%Z /\ cfloor (r := rat_ring) (Q2Qc (7 # 2)) = 3%Z /\ cfloor (r := quad_ring) sqrt2 = 2%Z.
Proof. repeat split. Qed.

(** * C50 fields *)
Theorem C50_compositum : forall A S, lawful A S -> forall (p q r : par A), compositum p q = Ok r -> forall x, mem S p x \/ mem S q x ->
  exists y, coerce r x = Ok y /\ mem S r y /\ val S y = val S x.
Proof.
  intros A S L p q r H x Hx. destruct (L_compositum A S L p q r H x Hx) as [y E]. exists y. split; [exact E|].
  apply (L_coerce A S L r x y); [|exact E]. destruct Hx; eauto.
Qed.
Theorem C50_coerce : forall A S, lawful A S -> forall (p q : par A) x y, mem S q x -> coerce p x = Ok y -> mem S p y /\ val S y = val S x.
Proof. intros A S L p q x y Hx. apply (L_coerce A S L). eauto. Qed.
(** In either order there is a compositum or none, and what is in one is in the other. *)
Theorem C50_commutative : forall p q : par quad_ring, match compositum p q, compositum q p with
  | Ok r, Ok r' => forall x, mem quad_sem r x <-> mem quad_sem r' x
  | Err e, Err e' => e = LogicError /\ e' = LogicError
  | _, _ => False
  end.
Proof.
  intros p q. cbn. unfold quad_compositum. assert (Y : qfield_eqb q p = qfield_eqb p q).
  { destruct p, q; cbn; try reflexivity; apply Z.eqb_sym. }
  rewrite Y. destruct (qfield_eqb p q) eqn:E.
  - apply qfield_eqb_spec in E. subst. tauto.
  - destruct p as [n|d Hd], q as [m|e He]; cbn; tauto.
Qed.
Example C50_example : compositum (r := quad_ring) (QOne 0) q2 = Ok q2 /\ compositum (r := quad_ring) q2 (QTwo 3 eq_refl) = Err LogicError /\
  coerce (r := quad_ring) (QOne 0) sqrt2 = Err LogicError.
Proof. repeat split. Qed.

(** * C53 comparison of elements and real numbers *)
Theorem C53_equal : forall A S, lawful A S -> forall (x : elem A) r b, elem_wf S x -> no_zero_gen (basis (emodule x)) -> gen_wf r -> eq_real x r = Ok b ->
  (b = true <-> forall rho, value S rho x = gen_val rho r).
Proof. exact eq_real_spec. Qed.
Theorem C53_throws : forall (A : ring) (x : elem A) r, (exists e, eq_real x r = Err e) <-> nonzero x = true /\ ~ In r (basis (emodule x)).
Proof. exact eq_real_throws. Qed.
(** It agrees with the comparison with the element that denotes r. *)
Theorem C53_agrees : forall A S, lawful A S -> forall (x y : elem A) r b b', elem_wf S x -> elem_wf S y -> no_zero_gen (basis (emodule x)) -> no_zero_gen (basis (emodule y)) -> gen_wf r ->
  (forall rho, value S rho y = gen_val rho r) -> eq_real x r = Ok b -> equal x y = Ok b' -> b = b'.
Proof.
  intros A S L x y r b b' Hx Hy Zx Zy Wr V E F. pose proof (eq_real_spec A S L x r b Hx Zx Wr E) as P. pose proof (equal_value A S L x y b' Hx Hy Zx Zy F) as Q.
  assert (K : b = true <-> b' = true); [|destruct b, b'; intuition congruence]. rewrite P, Q. split; intros H rho; specialize (H rho); rewrite ?V in *; assumption.
Qed.
(** It is not total: 2 * 1 == 2 throws if 2 is not a generator. *)
Theorem C75_total_refuted : exists (x : elem int_ring) r, elem_wf int_sem x /\ gen_wf r /\ (forall rho, value int_sem rho x = gen_val rho r) /\ eq_real x r = Err InvalidArgument.
Proof.
  exists (mkElem (A := int_ring) (zmod [g1]) [2%Z]), (GRat (Q2Qc 2)). split; [|split; [exact I|split; [|reflexivity]]].
  - split; [|split; [reflexivity|repeat constructor]]. unfold zmod, g1. cbn [emodule]. module_ok.
  - intros rho. unfold value, g1. cbn [combination emodule basis zmod coeffs gen_val val int_sem]. rewrite !Q2R_Q2Qc. unfold Q2R. cbn. lra.
Qed.
Example C53_example : eq_real ex ga = Ok false /\ exists y, module_gen (zmod [g1; ga; gab]) 1 = Ok y /\ eq_real y ga = Ok true.
Proof. split; [reflexivity|]. eexists. split; reflexivity. Qed.
