(** Some smaller properties (C45, C55), and what is proved of the properties that do not
    hold for all inputs (the counterexamples are the theorems _refuted in the other files). *)
From Coq Require Import ZArith QArith Qcanon Bool List Reals Qreals Lra Lia.
From Flocq Require Import Core.
From Verif Require Import Arf Arb Real SpecArf ArfProofs ArbProofs RealProofs RealProofs2 RealProofs3 RealProofs4 RealProofs5 RealProofs6 SpecReal Seed Gen SpecGen GenProofs Ring SpecRing RingProofs Module Element SpecModule ModuleProofs ElementProofs
  ElementProofs2 ElementProofs3 Leading ElementProofs4 Division DivisionProofs Loops SpecLoops Balls PartialProofs PropArith PropReal PropProcess PropModule PropElement PropDivision PropOrder PropFloor PropDouble.
Import ListNotations.
Open Scope R_scope.

(** * C45: floats *)
Theorem C45_floats : forall hash, (forall a b, arf2R a = arf2R b -> hash a = hash b) -> forall a b, arf_eqb a b = true -> arf_hash hash a = arf_hash hash b.
Proof. intros hash H a b E. apply H. rewrite !arf_to_double_spec. apply arf_eqb_spec in E. rewrite E. reflexivity. Qed.
(** Two representations of 6. *)
Example C45_case : arf_eqb (mkArf 3 1) (mkArf 6 0) = true /\ mkArf 3 1 <> mkArf 6 0.
Proof. split; [reflexivity|discriminate]. Qed.

(** * C55: the ball Arb(q, prec) of a rational number contains it, with a relative accuracy of prec bits *)
Theorem C55_encloses : forall mag_up prec n d, mag_up_ok mag_up -> (0 < prec)%Z -> (0 < d)%Z ->
  arb_wf (arb_of_Q mag_up prec n d) /\ contains (arb_of_Q mag_up prec n d) (IZR n / IZR d).
Proof. exact arb_of_Q_encloses. Qed.
(** A rational that fits into prec bits is the only point of the ball. *)
Theorem C55_exact : forall mag_up prec n d, (0 < prec)%Z -> (0 < d)%Z -> SpecArf.fits prec (IZR n / IZR d) ->
  forall v, contains (arb_of_Q mag_up prec n d) v <-> v = IZR n / IZR d.
Proof.
  intros mag_up prec n d Hp Hd F v. unfold arb_of_Q. assert (V : arf2R (round_q DOWN prec n d 0) = IZR n / IZR d).
  { rewrite round_q_spec by assumption. cbn [bpow]. rewrite Rmult_1_r. apply round_generic; [exact (rndZ_valid DOWN)|exact F]. }
  replace (arf_eqb _ _) with true.
  - unfold contains. cbn [arb_of_arf rad mid]. rewrite V. replace (arf2R arf_zero) with 0 by (unfold arf2R; cbn; ring). split.
    + intros H. unfold Rabs in H. destruct (Rcase_abs _) in H; lra.
    + intros ->. rewrite Rminus_diag_eq, Rabs_R0 by reflexivity. lra.
  - symmetry. apply arf_eqb_spec. rewrite arf_mul_exact_spec, V, !arf_of_Z_spec. field. apply not_0_IZR. lia.
Qed.
Example C55_example : arb_of_Q (fun r => r) 4 1 3 = mkArb (mkArf 10 (-5)) (Some (mkArf 1 (-5))).
Proof. vm_compute. reflexivity. Qed.

(** * C56: Arb != rational *)
(** It is undecided if it has to be: the ball contains the rational and another point. *)
Theorem C56_undecided_partial : forall mag_up, mag_up_ok mag_up -> forall x n d p, arb_wf x -> (0 < d)%Z ->
  contains x (IZR n / IZR d) -> contains x p -> p <> IZR n / IZR d -> opq_ne mag_up x n d = None.
Proof.
  intros mag_up Hm x n d p Wx Hd C1 C2 N. change (opq_ne mag_up x n d) with (opq_eq mag_up x n d).
  destruct (opq_eq_sound mag_up Hm x n d Wx Hd) as [T F]. destruct (opq_eq mag_up x n d) as [[|]|]; [|exfalso; exact (F eq_refl _ C1 eq_refl)|reflexivity].
  exfalso. exact (N (T eq_refl p C2)).
Qed.
(** The ball [1/2 - 1/4, 1/2 + 1/4] contains 1/2 and 3/4. *)
Example C56_undecided_case : contains (mkArb (mkArf 1 (-1)) (Some (mkArf 1 (-2)))) (IZR 1 / IZR 2) /\ contains (mkArb (mkArf 1 (-1)) (Some (mkArf 1 (-2)))) (3 / 4) /\
  opq_ne (fun r => r) (mkArb (mkArf 1 (-1)) (Some (mkArf 1 (-2)))) 1 2 = None.
Proof.
  split; [|split; [|vm_compute; reflexivity]]; unfold contains, arf2R; cbn [rad mid am ae]; change (bpow radix2 (-1)) with (/ 2); change (bpow radix2 (-2)) with (/ 4); apply Rabs_le; lra.
Qed.

(** * C57: accuracy of products, up to one bit *)
Theorem C57_one_bit_less_partial : forall rng fuel ms v prec a, num_ok rng (RProd ms) -> num_value rng (RProd ms) v ->
  (1 <= prec)%Z -> num_arf rng fuel (RProd ms) prec = Some a -> accurate (prec - 1) a v.
Proof. exact C06_product_accurate. Qed.
Example C57_case : num_ok rand48 (RProd [(ARandom 1337, 2%nat); (ARandom 1338, 1%nat)]) /\ exists a, num_arf rand48 100 (RProd [(ARandom 1337, 2%nat); (ARandom 1338, 1%nat)]) 10 = Some a.
Proof.
  split; [|eexists; vm_compute; reflexivity]. split; [discriminate|]. intros b k H.
  repeat (destruct H as [[= <- <-]|H]; [split; [first [exists 0%nat; vm_compute; reflexivity|exists 1%nat; vm_compute; reflexivity|exists 2%nat; vm_compute; reflexivity|exists 3%nat; vm_compute; reflexivity]|lia]|]). destruct H.
Qed.

(** * C58: the ball of a rational number that fits into prec bits contains it *)
Theorem C58_dyadic_partial : forall rng fuel (q : Q) prec b, (1 <= prec)%Z -> SpecArf.fits prec (Q2R q) -> num_arb rng fuel (RRat q) prec = Some b -> contains b (Q2R q).
Proof.
  intros rng fuel q prec b Hp F H. unfold num_arb, num_refine in H. destruct (prec <=? rel_accuracy_bits arb_zero_pm_inf)%Z eqn:E; [injection H as <-; exact I|].
  cbn [num_arf option_map] in H. injection H as <-. unfold contains, refine_ball. cbn [rad mid].
  assert (R : arf_rational q prec = round_q NEAR prec (Qnum q) (Zpos (Qden q)) 0) by (unfold arf_rational; replace (prec <? 1)%Z with false by lia; reflexivity).
  assert (V : arf2R (round_q NEAR prec (Qnum q) (Zpos (Qden q)) 0) = Q2R q).
  { rewrite round_q_spec by lia. cbn [bpow]. rewrite Rmult_1_r. apply round_generic; [exact (rndZ_valid NEAR)|exact F]. }
  replace (prec <? 1)%Z with false by lia. rewrite R, V, Rminus_diag_eq, Rabs_R0 by reflexivity. unfold arf2R. cbn [am ae]. rewrite Rmult_1_l. apply bpow_ge_0.
Qed.
(** 5/8 at precision 3. *)
Example C58_case : num_arb rand48 0 (RRat (5 # 8)) 3 = Some (mkArb (mkArf 5 (-3)) (Some (mkArf 1 (-5)))) /\ SpecArf.fits 3 (Q2R (5 # 8)).
Proof.
  split; [vm_compute; reflexivity|]. apply generic_format_FLX. exists (Float radix2 5 (-3)); [|cbn; lia]. unfold F2R, Q2R. cbn [Fnum Fexp Qnum Qden]. change (bpow radix2 (-3)) with (/ 8). reflexivity.
Qed.
Example C61_example : (forall p b, (2 <= p)%Z -> num_arb rand48 0 (RRat (3 # 4)) p = Some b -> contains b (Q2R (3 # 4))) /\ (forall p b, (2 <= p)%Z -> num_arb rand48 0 (RRat (2 # 1)) p = Some b -> contains b (Q2R (2 # 1))) /\
  rnum_eqb (RRat (3 # 4)) (RRat (2 # 1)) = false /\ num_lt rand48 1 0 (RRat (3 # 4)) (RRat (2 # 1)) = Some true.
Proof.
  split; [|split; [|split; vm_compute; reflexivity]]; intros p b Hp H; apply (C58_dyadic_partial rand48 0 _ p b); try lia; try exact H; clear - Hp.
  - apply generic_format_FLX. exists (Float radix2 3 (-2)); [|cbn [Fnum]; apply Z.lt_le_trans with (2 ^ 2)%Z; [reflexivity|apply (Z.pow_le_mono_r 2 2 p); lia]]. unfold F2R, Q2R. cbn [Fnum Fexp Qnum Qden]. change (bpow radix2 (-2)) with (/ 4). reflexivity.
  - apply generic_format_FLX. exists (Float radix2 1 1); [|cbn [Fnum]; apply Z.lt_le_trans with (2 ^ 2)%Z; [reflexivity|apply (Z.pow_le_mono_r 2 2 p); lia]]. unfold F2R, Q2R. cbn [Fnum Fexp Qnum Qden]. change (bpow radix2 1) with 2. field.
Qed.

(** * C59: cmp, for numbers that are not products, and answers other than 0 *)
Theorem C59_decided_partial : forall rng fuel x v b, not_product x -> num_ok rng x -> num_value rng x v ->
  (num_cmp rng fuel x b = Some (-1)%Z -> forall p, contains b p -> v <= p) /\ (num_cmp rng fuel x b = Some 1%Z -> forall p, contains b p -> p < v).
Proof. exact (fun rng fuel x v b H1 H2 H3 => conj (C08_cmp_below rng fuel x v b H1 H2 H3) (C08_cmp_above rng fuel x v b H1 H2 H3)). Qed.
(** The first random number is below 1/2 and above 1/8; it is compared with the ball 19/64 +- 1/256. *)
Example C59_case : num_cmp rand48 100 (RAtom (ARandom 1337)) (arb_of_arf (mkArf 1 (-1))) = Some (-1)%Z /\ num_cmp rand48 100 (RAtom (ARandom 1337)) (arb_of_arf (mkArf 1 (-3))) = Some 1%Z /\
  num_cmp rand48 100 (RAtom (ARandom 1337)) (mkArb (mkArf 19 (-6)) (Some (mkArf 1 (-8)))) = Some 0%Z /\ num_ok rand48 (RAtom (ARandom 1337)).
Proof. split; [vm_compute; reflexivity|]. split; [vm_compute; reflexivity|]. split; [vm_compute; reflexivity|]. exists 1%nat. vm_compute. reflexivity. Qed.

(** * C60: the double is one of the two around the number *)
Theorem C60_faithful_partial : forall rng fuel x v d, not_product x -> num_ok rng x -> num_value rng x v -> num_double rng fuel x = Some d ->
  is_double (arf2R d) /\ forall c, is_double c -> (c < v -> c <= arf2R d) /\ (v <= c -> arf2R d <= c).
Proof. exact C09_double_faithful. Qed.
Example C60_case : num_ok rand48 (RAtom (ARandom 1337)) /\ (exists d, num_double rand48 100 (RAtom (ARandom 1337)) = Some d) /\ exists d, num_double rand48 0 (RRat (1 # 3)) = Some d.
Proof. split; [exists 1%nat; vm_compute; reflexivity|]. split; eexists; vm_compute; reflexivity. Qed.

(** * C62: span over the same ring *)
Theorem C62_same_ring_partial : forall A S, lawful A S -> forall (M N : module A), module_wf M -> module_wf N -> mring M = mring N -> span M N = span N M.
Proof. exact C20_commutative. Qed.
Example C62_same_ring_case : module_wf (zmod [g1; gab]) /\ module_wf (zmod [ga; gb]) /\ span (zmod [g1; gab]) (zmod [ga; gb]) = Ok (zmod [g1; ga; gb; gab]).
Proof. split; [unfold zmod; module_ok|]. split; [unfold zmod; module_ok|]. reflexivity. Qed.

(** * C63: what promote does with elements that do not fit *)
(** The part of x with generators in the target is kept, the rest is dropped ... *)
Theorem C63_kept_partial : forall A S, lawful A S -> forall x (M : module A) y, elem_wf S x -> module_wf M -> promote x M = Ok y -> forall rho,
  let kept := filter (fun gc => existsb (gen_eqb (fst gc)) (basis M)) (combine (basis (emodule x)) (coeffs x)) in
  value S rho y = combination S rho (map fst kept) (map snd kept).
Proof. exact promote_kept. Qed.
(** ... and it is reported if what does not fit comes after all generators of the target. *)
Theorem C63_reported_partial : forall A S, lawful A S -> forall x (M : module A) g c, elem_wf S x -> module_wf M ->
  In (g, c) (combine (basis (emodule x)) (coeffs x)) -> c <> czero A -> (forall t, In t (basis M) -> precedes t g) -> exists e, promote x M = Err e.
Proof. exact promote_reports. Qed.
(** 3 + 2 a + 5 a b does not fit into <1, a>. *)
Example C63_example : promote ex (zmod [g1; ga]) = Err AssertionFailed /\ exists y, promote ex (zmod [gab]) = Ok y /\ coeffs y = [5%Z].
Proof. split; [reflexivity|]. eexists. split; reflexivity. Qed.

(** * C64: division with the rational generator 1, or none *)
Theorem C64_standard_partial : forall A S, lawful A S -> forall (p : par A) (x y z : elem A) fuel, standard S p x -> standard S p y ->
  truediv fuel x y = Some (Ok (Some z)) -> standard S p z /\ (forall rho, value S rho z * value S rho y = value S rho x) /\ same (mul z y) (Ok x).
Proof. exact C28_sound. Qed.
(** (3 + 2 a + 5 a b) (-1 + b) divided by -1 + b *)
Example C64_case : standard int_sem tt ex /\ standard int_sem tt ey /\ exists t z, mul ex ey = Ok t /\ truediv 10 t ey = Some (Ok (Some z)) /\ equal z ex = Ok true.
Proof. split; [exact ex_standard|]. split; [exact ey_standard|]. destruct C28_example as (t & z & H1 & H2 & H3 & _). exists t, z. auto. Qed.

(** Whatever the rational generators are, a quotient that is returned is one. *)
Section Quotient.
  Variable A : ring.
  Variable S : semantics A.
  Hypothesis L : lawful A S.
  Lemma monomial_value p c g (x : elem A) : gen_wf g -> mem S p c -> monomial c g p = Ok x -> elem_wf S x /\ mring (emodule x) = p /\ forall rho, value S rho x = val S c * gen_val rho g.
  Proof.
    intros Wg Mc H. unfold monomial in H.
    assert (C : compatible [g]) by (apply check_spec; reflexivity).
    rewrite (make_succeeds A [g] p C) in H. cbn [bind gsort insert] in H.
    destruct (make_ok A [g] p (mkModule [g] p)) as (WM & _); [constructor; [exact Wg|constructor]|exact (make_succeeds A [g] p C)|].
    destruct (module_gen (mkModule [g] p) 0) as [u|e] eqn:Eu; [|discriminate]. cbn [bind] in H.
    destruct (module_gen_spec A S L _ 0 u WM Eu) as (Wu & Mu & g' & Eg' & Vu & _). cbn in Eg'. injection Eg' as <-.
    destruct (smul_spec A S L u (SE c) x Wu) as (Wx & Mx & Vx); [rewrite Mu; exact Mc|exact H|].
    split; [exact Wx|]. split; [rewrite Mx, Mu; reflexivity|]. intros rho. rewrite Vx, Vu. cbn [sval]. ring.
  Qed.
  Lemma add_ring p (x y z : elem A) : elem_wf S x -> elem_wf S y -> mring (emodule x) = p -> mring (emodule y) = p -> add x y = Ok z -> mring (emodule z) = p.
  Proof.
    intros Hx Hy Rx Ry E. unfold add in E. destruct (common x y) as [[x' y']|] eqn:C; [|discriminate]. injection E as <-. cbn.
    exact (common_ring A S L p x y x' y' Hx Hy Rx Ry C).
  Qed.
  Lemma mul_ring p (x y z : elem A) : elem_wf S x -> elem_wf S y -> mring (emodule x) = p -> mring (emodule y) = p -> mul x y = Ok z -> mring (emodule z) = p.
  Proof.
    intros Hx Hy Rx Ry E. unfold mul in E. destruct (nonzero x); cbn [negb] in E; [|injection E as <-; exact Rx]. destruct (nonzero y); cbn [negb] in E; [|injection E as <-; exact Ry].
    assert (par_eqb (mring (emodule x)) (mring (emodule y)) = true) as P by (apply (L_par_eqb A S L); congruence). rewrite P in E.
    destruct (mul_same_spec A S L x y z Hx Hy (eq_trans Rx (eq_sym Ry)) E) as (_ & Rz & _). congruence.
  Qed.
  Lemma div_step_value p (y q r q' r' : elem A) : elem_wf S y -> elem_wf S q -> elem_wf S r -> mring (emodule y) = p -> mring (emodule q) = p -> mring (emodule r) = p ->
    div_step p y q r = Ok (Some (q', r')) ->
    elem_wf S q' /\ elem_wf S r' /\ mring (emodule q') = p /\ mring (emodule r') = p /\
    forall rho, value S rho q' * value S rho y + value S rho r' = value S rho q * value S rho y + value S rho r.
  Proof.
    intros Hy Hq Hr Ry Rq Rr H. unfold div_step in H.
    destruct (leading r) as [[a g]|] eqn:Ea; [|discriminate]. destruct (leading y) as [[b h]|] eqn:Eb; [|discriminate]. cbn [bind] in H.
    pose proof (leading_top A S L r a g Hr Ea) as Ta. pose proof (leading_top A S L y b h Hy Eb) as Tb.
    destruct (top_mem A S L r g a Hr Ta) as (Wg & Ig & Ma & Na). destruct (top_mem A S L y h b Hy Tb) as (Wh & Ih & Mb & Nb).
    rewrite Rr in Ma. rewrite Ry in Mb.
    destruct (gen_div g h) as [[k|]|] eqn:Ek; cbn [bind] in H; try discriminate.
    destruct (gen_div_sound g h k Wg Wh Ek) as [Wk Mk].
    destruct (negb (ceqb (cmul (cquo a b) b) a)) eqn:Ec; [destruct (isField A); discriminate|].
    destruct (L_quo A S L p a b Ma Mb Nb) as [Mc _]. set (c := cquo a b) in *.
    destruct (monomial c k p) as [m|] eqn:Em; [|discriminate]. cbn [bind] in H. destruct (monomial_value p c k m Wk Mc Em) as (Wm & Rm & _).
    destruct (add q m) as [s|] eqn:Es; [|discriminate]. cbn [bind] in H. destruct (add_value A S L q m s Hq Wm Es) as [Ws Vs].
    destruct (mul m y) as [t|] eqn:Et; [|discriminate]. cbn [bind] in H. destruct (mul_value A S L m y t Wm Hy Et) as [Wt Vt].
    destruct (sub r t) as [u|] eqn:Eu; [|discriminate]. cbn [bind] in H. destruct (sub_value A S L r t u Hr Wt Eu) as [Wu Vu]. injection H as <- <-.
    pose proof (mul_ring p m y t Wm Hy Rm Ry Et) as Rt.
    split; [exact Ws|]. split; [exact Wu|]. split; [exact (add_ring p q m s Hq Wm Rq Rm Es)|]. split.
    - destruct (opp_value A S L t Wt) as [Wo _]. exact (add_ring p r (opp t) u Hr Wo Rr Rt Eu).
    - intros rho. rewrite Vs, Vu, Vt. ring.
  Qed.
  Lemma div_loop_value fuel : forall p (y q r w : elem A), elem_wf S y -> elem_wf S q -> elem_wf S r -> mring (emodule y) = p -> mring (emodule q) = p -> mring (emodule r) = p ->
    div_loop fuel p y q r = Some (Ok (Some w)) -> elem_wf S w /\ mring (emodule w) = p /\ forall rho, value S rho w * value S rho y = value S rho q * value S rho y + value S rho r.
  Proof.
    induction fuel as [|fuel IH]; intros p y q r w Hy Hq Hr Ry Rq Rr H; [discriminate|]. cbn in H. destruct (nonzero r) eqn:N; cbn in H.
    - destruct (div_step p y q r) as [[[q' r']|]|e] eqn:E; try discriminate. destruct (div_step_value p y q r q' r' Hy Hq Hr Ry Rq Rr E) as (Hq' & Hr' & Rq' & Rr' & V).
      destruct (IH p y q' r' w Hy Hq' Hr' Ry Rq' Rr' H) as (Hw & Rw & Vw). split; [exact Hw|]. split; [exact Rw|]. intros rho. rewrite Vw, V. reflexivity.
    - injection H as <-. split; [exact Hq|]. split; [exact Rq|]. intros rho. rewrite (value_evalv A S rho r), (evalv_nonzero_false A S L _ r N). ring.
  Qed.
End Quotient.
Theorem C64_sound_partial : forall A S, lawful A S -> forall (x y z : elem A) fuel, elem_wf S x -> elem_wf S y -> no_zero_gen (basis (emodule x)) -> no_zero_gen (basis (emodule y)) ->
  truediv fuel x y = Some (Ok (Some z)) -> elem_wf S z /\ forall rho, value S rho z * value S rho y = value S rho x.
Proof.
  intros A S L x y z fuel Hx Hy Zx Zy H. unfold truediv in H. destruct (eq_integer y 0); [discriminate|]. destruct (eq_integer y 1) eqn:E1.
  - injection H as <-. split; [exact Hx|]. intros rho. rewrite (proj1 (eq_integer_spec A S L y 1 Hy Zy) E1 rho). ring.
  - destruct (common x y) as [[x' y']|] eqn:C; [|discriminate].
    destruct (common_spec A S L x y x' y' Hx Hy C) as (Wx & Wy & EM & G & _). destruct (common_value A S L x y x' y' Hx Hy C) as [Vx Vy].
    assert (Zy' : no_zero_gen (basis (emodule y'))) by (rewrite <- EM; intros I; apply G in I; destruct I as [I|I]; [exact (Zx I)|exact (Zy I)]).
    unfold truediv_same in H. destruct (eq_integer y' 0); [discriminate|]. destruct (eq_integer y' 1) eqn:E2.
    + injection H as <-. split; [exact Wx|]. intros rho. rewrite <- Vy, (proj1 (eq_integer_spec A S L y' 1 Wy Zy') E2 rho), Vx. ring.
    + destruct (div_loop_value A S L fuel (mring (emodule x')) y' (zero_of (emodule x')) x' z) as (Wz & _ & V); [exact Wy|apply (zero_of_wf A S L), Wx|exact Wx|congruence|reflexivity|reflexivity|exact H|].
      split; [exact Wz|]. intros rho. rewrite <- Vy, V, (zero_value A S L), Vx. ring.
Qed.
(** With the generator 3: 0 / (3 + a), and (3 + a) / (1 * 1). *)
Example C64_sound_case : exists x y z : elem int_ring, elem_wf int_sem x /\ elem_wf int_sem y /\ no_zero_gen (basis (emodule x)) /\ no_zero_gen (basis (emodule y)) /\
  In (GRat (Q2Qc 3)) (basis (emodule y)) /\ nonzero y = true /\ truediv 5 x y = Some (Ok (Some z)).
Proof.
  exists (mkElem (A := int_ring) (zmod [ga]) [0]%Z), (mkElem (A := int_ring) (zmod [GRat (Q2Qc 3); ga]) [1; 1]%Z). eexists.
  split; [split; [unfold zmod, ga; cbn [emodule]; module_ok|split; [reflexivity|repeat constructor]]|].
  split; [split; [unfold zmod, ga; cbn [emodule]; module_ok|split; [reflexivity|repeat constructor]]|].
  split; [intros [E|[]]; discriminate|]. split; [intros [E|[E|[]]]; discriminate|]. split; [left; reflexivity|]. split; reflexivity.
Qed.
(** With a rational generator other than 1 in one of the modules only the quotients 0 / y and x / 1 are found: in all other cases the
    division throws or reports that there is no quotient. *)
Section Other.
  Variable A : ring.
  Variable S : semantics A.
  Hypothesis L : lawful A S.
  Lemma mul_row_all g c (r : list (gen * car A)) : forall acc res, mul_row g c r acc = Ok res -> forall h, In h (map fst r) -> exists k, gen_mul g h = Ok k.
  Proof.
    induction r as [|[h d] r IH]; intros acc res H h' I; [destruct I|]. cbn in H. destruct (gen_mul g h) as [k|] eqn:E; [|discriminate]. cbn in H.
    destruct I as [<-|I]; [eauto|exact (IH _ _ H h' I)].
  Qed.
  Lemma monomial_basis p c g (x : elem A) : gen_wf g -> mem S p c -> monomial c g p = Ok x -> emodule x = mkModule [g] p /\ (c <> czero A -> g <> GRat 0%Qc -> nonzero x = true).
  Proof.
    intros Wg Mc H. destruct (monomial_value A S L p c g x Wg Mc H) as (Wx & _ & V). unfold monomial in H.
    assert (C : compatible [g]) by (apply check_spec; reflexivity).
    rewrite (make_succeeds A [g] p C) in H. cbn [bind gsort insert] in H.
    destruct (make_ok A [g] p (mkModule [g] p)) as (WM & _); [constructor; [exact Wg|constructor]|exact (make_succeeds A [g] p C)|].
    destruct (module_gen (mkModule [g] p) 0) as [u|e] eqn:Eu; [|discriminate]. cbn [bind] in H.
    destruct (module_gen_spec A S L _ 0 u WM Eu) as (Wu & Mu & g' & Eg' & Vu & _).
    destruct (smul_spec A S L u (SE c) x Wu) as (_ & Mx & _); [rewrite Mu; exact Mc|exact H|]. rewrite Mu in Mx. split; [exact Mx|]. intros Nc Ng.
    destruct (nonzero x) eqn:N; [reflexivity|]. exfalso.
    assert (Z : no_zero_gen [g]) by (intros [E|[]]; contradiction).
    set (z := mkElem (A := A) (mkModule [g] p) [c]).
    assert (Wz : elem_wf S z) by (split; [exact WM|split; [reflexivity|constructor; [exact Mc|constructor]]]).
    assert (E : z = x) by (apply (value_inj A S L z x Wz Wx); [rewrite Mx; reflexivity|exact Z|intros rho; rewrite V; unfold value; cbn; ring]). subst x.
    unfold nonzero in N. cbn in N.
    revert N. unfold cz. destruct (ceqb c (czero A)) eqn:Ez; [apply (L_eqb A S L) in Ez; contradiction|cbn; discriminate].
  Qed.
  (** The first step fails. *)
  Lemma div_step_other p (t : Qc) (y q r q' r' : elem A) : elem_wf S y -> elem_wf S q -> elem_wf S r -> emodule q = emodule y -> emodule r = emodule y -> mring (emodule y) = p ->
    In (GRat t) (basis (emodule y)) -> t <> 1%Qc -> div_step p y q r <> Ok (Some (q', r')).
  Proof.
    intros Hy Hq Hr Mq Mr Ry It Nt H. unfold div_step in H.
    destruct (leading r) as [[a g]|] eqn:Ea; [|discriminate]. destruct (leading y) as [[b h]|] eqn:Eb; [|discriminate]. cbn [bind] in H.
    pose proof (leading_top A S L r a g Hr Ea) as Ta. pose proof (leading_top A S L y b h Hy Eb) as Tb.
    destruct (top_mem A S L r g a Hr Ta) as (Wg & Ig & Ma & Na). destruct (top_mem A S L y h b Hy Tb) as (Wh & Ih & Mb & Nb).
    rewrite Mr, Ry in Ma. rewrite Mr in Ig. rewrite Ry in Mb.
    destruct (gen_div g h) as [[k|]|] eqn:Ek; cbn [bind] in H; try discriminate.
    destruct (gen_div_sound g h k Wg Wh Ek) as [Wk Mk].
    destruct (negb (ceqb (cmul (cquo a b) b) a)) eqn:Ec; [destruct (isField A); discriminate|]. apply negb_false_iff in Ec. apply (L_eqb A S L) in Ec.
    destruct (L_quo A S L p a b Ma Mb Nb) as [Mc _]. set (c := cquo a b) in *.
    assert (Nc : c <> czero A).
    { intros E. apply Na. rewrite <- Ec, E. destruct (L_mul A S L p (czero A) b (proj1 (L_zero A S L p)) Mb) as [_ ->]. rewrite (val_zero A S L). ring. }
    destruct (monomial c k p) as [m|] eqn:Em; [|discriminate]. cbn [bind] in H. destruct (monomial_value A S L p c k m Wk Mc Em) as (Wm & Rm & _).
    destruct (monomial_basis p c k m Wk Mc Em) as [Bm Nm]. specialize (Nm Nc).
    destruct (add q m) as [s|] eqn:Es; [|discriminate]. cbn [bind] in H. destruct (add_spec A S L q m s Hq Wm Es) as (Ws & _ & Gs).
    assert (Only : forall u, rational u -> In u (basis (emodule s)) -> u = GRat t).
    { destruct Ws as ([_ As] & _). apply ascending_compatible, compatible_nodup in As. intros u Ru Iu. apply (proj2 As u (GRat t) Iu); [|exact Ru|exact Logic.I]. apply Gs. left. rewrite Mq. exact It. }
    assert (Ik : In k (basis (emodule s))) by (apply Gs; right; rewrite Bm; left; reflexivity).
    assert (Fail : forall k w, emodule m = mkModule [k] p -> ~ rational k -> mul m y = Ok w -> nonzero m = true -> False).
    { intros k0 w B0 R0 Et N0. unfold mul in Et. rewrite N0 in Et. cbn [negb] in Et.
      assert (Ny : nonzero y = true).
      { apply (nonzero_true A S L). exists b. split; [exact (in_combine_r _ _ _ _ (proj1 Tb))|exact (proj1 (proj2 Tb))]. }
      rewrite Ny in Et. cbn [negb] in Et. assert (P : par_eqb (mring (emodule m)) (mring (emodule y)) = true) by (apply (L_par_eqb A S L); congruence). rewrite P in Et.
      unfold mul_same in Et. rewrite B0 in Et. cbn [basis] in Et. destruct Wm as (_ & Lm & _). rewrite B0 in Lm. cbn [basis length] in Lm.
      destruct (coeffs m) as [|c0 [|? ?]]; try discriminate Lm. cbn [combine mul_rows] in Et.
      destruct (mul_row k0 c0 (combine (basis (emodule y)) (coeffs y)) []) as [acc|] eqn:Er; [|discriminate].
      destruct (mul_row_all k0 c0 _ _ _ Er (GRat t)) as [k1 K1].
      { destruct Hy as (_ & Ly & _). rewrite (map_fst_combine A) by exact Ly. exact It. }
      destruct (proj2 (gen_mul_throws k0 (GRat t))) as [e E]; [|congruence]. exists t. split; [exact Nt|]. right. split; [reflexivity|exact R0]. }
    destruct k as [u|i|ms].
    - (* the quotient of the generators would be t, so the divisor has the generator 1 and not t *)
      pose proof (Only (GRat u) Logic.I Ik) as Eu. apply (f_equal (fun g => match g with GRat v => v | _ => u end)) in Eu. cbn in Eu. subst u.
      assert (OnlyY : forall v, rational v -> In v (basis (emodule y)) -> v = GRat t).
      { destruct Hy as ([_ Ay] & _). apply ascending_compatible, compatible_nodup in Ay. intros v Rv Iv. apply (proj2 Ay v (GRat t) Iv It Rv Logic.I). }
      destruct h as [v|j|ns].
      + pose proof (OnlyY (GRat v) Logic.I Ih) as Ev. assert (Rg : rational g) by (destruct g as [w| |]; [exact Logic.I| |]; apply gen_mul_cases in Mk; destruct Mk as [[_ E]|[[_ E]|[(? & ? & _ & _ & E)|(F & _)]]]; try discriminate; exfalso; apply F; exact Logic.I).
        pose proof (OnlyY _ Rg Ig) as Eg. rewrite Ev, Eg in Ek. unfold gen_div in Ek. assert (X : gen_eqb (GRat t) (GRat t) = true) by (apply gen_eqb_eq; reflexivity). rewrite X in Ek.
        injection Ek as Ek. apply Nt. symmetry. exact (f_equal (fun q => q) Ek).
      + destruct (proj2 (gen_mul_throws (GRat t) (GAtom j))) as [e E]; [|congruence]. exists t. split; [exact Nt|]. left. split; [reflexivity|]. intros F. exact F.
      + destruct (proj2 (gen_mul_throws (GRat t) (GProd ns))) as [e E]; [|congruence]. exists t. split; [exact Nt|]. left. split; [reflexivity|]. intros F. exact F.
    - destruct (mul m y) as [w|] eqn:Et; [|discriminate]. apply (Fail (GAtom i) w Bm (fun F => F) eq_refl). apply Nm. discriminate.
    - destruct (mul m y) as [w|] eqn:Et; [|discriminate]. apply (Fail (GProd ms) w Bm (fun F => F) eq_refl). apply Nm. discriminate.
  Qed.
End Other.
Theorem C64_other_partial : forall A S, lawful A S -> forall (x y z : elem A) q fuel, elem_wf S x -> elem_wf S y -> no_zero_gen (basis (emodule x)) -> no_zero_gen (basis (emodule y)) ->
  In (GRat q) (basis (emodule x)) \/ In (GRat q) (basis (emodule y)) -> q <> 1%Qc -> truediv fuel x y = Some (Ok (Some z)) ->
  (forall rho, value S rho x = 0) \/ (forall rho, value S rho y = 1).
Proof.
  intros A S L x y z t fuel Hx Hy Zx Zy It Nt H. unfold truediv in H. destruct (eq_integer y 0); [discriminate|]. destruct (eq_integer y 1) eqn:E1.
  - right. exact (proj1 (eq_integer_spec A S L y 1 Hy Zy) E1).
  - destruct (common x y) as [[x' y']|] eqn:C; [|discriminate].
    destruct (common_spec A S L x y x' y' Hx Hy C) as (Wx & Wy & EM & G & _). destruct (common_value A S L x y x' y' Hx Hy C) as [Vx Vy].
    assert (Zy' : no_zero_gen (basis (emodule y'))) by (rewrite <- EM; intros I; apply G in I; destruct I as [I|I]; [exact (Zx I)|exact (Zy I)]).
    unfold truediv_same in H. destruct (eq_integer y' 0); [discriminate|]. destruct (eq_integer y' 1) eqn:E2.
    + right. intros rho. rewrite <- Vy. apply (proj1 (eq_integer_spec A S L y' 1 Wy Zy') E2 rho).
    + left. destruct fuel as [|fuel]; [discriminate|]. cbn in H. destruct (nonzero x') eqn:N; cbn in H.
      * exfalso. destruct (div_step _ _ _ _) as [[[q' r']|]|e] eqn:E; try discriminate.
        apply (div_step_other A S L (mring (emodule x')) t y' (zero_of (emodule x')) x' q' r' Wy (zero_of_wf A S L _ (proj1 Wx)) Wx EM EM (eq_sym (f_equal mring EM))); [|exact Nt|exact E].
        rewrite <- EM. apply G. exact It.
      * intros rho. rewrite <- Vx, (value_evalv A S rho x'). apply (evalv_nonzero_false A S L _ x' N).
Qed.

(** * C69: equal elements of the same module have the same hash *)
Theorem C69_same_module_partial : forall A S, lawful A S -> forall mag_up garb carb hash n (x y : elem A), elem_wf S x -> elem_wf S y -> emodule x = emodule y -> no_zero_gen (basis (emodule x)) ->
  equal x y = Ok true -> elem_hash mag_up garb carb hash n x = elem_hash mag_up garb carb hash n y.
Proof.
  intros A S L mag_up garb carb hash n x y Hx Hy E Z H. replace y with x; [reflexivity|]. apply (C35_unique A S L x y Hx Hy E Z).
  apply (C26_equal A S L x y true Hx Hy Z); [rewrite <- E; exact Z|exact H|reflexivity].
Qed.

(** * C70: unit with the rational generator 1, or none *)
Theorem C70_standard_partial : forall A S, lawful A S -> forall p (x : elem A), standard S p x ->
  (is_unit x = true <-> exists y, standard S p y /\ forall rho, value S rho x * value S rho y = 1).
Proof. intros A S L p x H. split; [apply (C30_sound A S L p x H)|]. intros (y & Y1 & Y2). exact (C30_complete A S L p x y H Y1 Y2). Qed.
Example C70_case : standard int_sem tt ex /\ is_unit ex = false /\ exists u, of_value (A := int_ring) tt (-1)%Z = Ok u /\ is_unit u = true.
Proof. split; [exact ex_standard|]. destruct C30_example as (H1 & _ & H2). split; assumption. Qed.

(** * C71: over a field only a division by zero throws, and then the element is unchanged *)
Theorem C71_field_partial : forall A S, lawful A S -> isField A = true -> forall (x : elem A) s, elem_wf S x -> smem S (mring (emodule x)) s -> basis (emodule x) <> [] ->
  (sval S s = 0 -> idiv_elem x s = (x, Some InvalidArgument)) /\ (sval S s <> 0 -> exists y, idiv_elem x s = (y, None)).
Proof.
  intros A S L F x s Hx Hs B. split; [intros E; exact (proj1 (C34_divide_by_zero A S L x s Hx Hs E B))|]. exact (field_division A S L x s F Hx Hs).
Qed.
Example C71_example : isField rat_ring = true /\ isField quad_ring = true.
Proof. split; reflexivity. Qed.

(** * C72: the first 2^32 seeds *)
Theorem C72_first_partial : forall n, (Z.of_nat n <= 2 ^ 32)%Z -> NoDup (seeds first_seed n).
Proof. exact C38_distinct. Qed.
Example C72_case : seeds first_seed 4 = [1337; 1338; 1339; 1340]%Z.
Proof. reflexivity. Qed.

(** * C73: one with a positive rational generator *)
Theorem C73_positive_partial : forall M : module int_ring, module_wf M -> (forall q, In (GRat q) (basis M) -> 0 < Q2R q) ->
  (exists x, elem_wf int_sem x /\ emodule x = M /\ forall rho, value int_sem rho x = 1) -> exists x, one_of true M = Ok x.
Proof. exact C47_complete_integers. Qed.
Example C73_case : module_wf (zmod [GRat (Q2Qc (1 # 2)); ga]) /\ exists x, one_of true (zmod [GRat (Q2Qc (1 # 2)); ga]) = Ok x /\ coeffs x = [2; 0]%Z.
Proof. split; [unfold zmod; module_ok|exact C47_example]. Qed.

(** * C74: floor of rationals that are not negative, or integers *)
Theorem C74_nonnegative_partial : forall x : Qc, 0 <= Q2R x \/ (exists n, Q2R x = IZR n) -> is_floor (cfloor (r := rat_ring) x) (Q2R x).
Proof. exact C49_floor_rationals. Qed.
Example C74_case : cfloor (r := rat_ring) (Q2Qc (7 # 2)) = 3%Z /\ cfloor (r := rat_ring) (Q2Qc (- 7 # 1)) = (-7)%Z.
Proof. split; reflexivity. Qed.

(** * C75: comparisons of elements with one of their generators, and of the element 0 *)
Theorem C75_generators_partial : forall A S, lawful A S -> forall (x : elem A) r, elem_wf S x -> no_zero_gen (basis (emodule x)) -> gen_wf r ->
  nonzero x = false \/ In r (basis (emodule x)) -> exists b, eq_real x r = Ok b /\ (b = true <-> forall rho, value S rho x = gen_val rho r).
Proof.
  intros A S L x r Hx Z Hr H. destruct (eq_real x r) as [b|e] eqn:E; [exists b; split; [reflexivity|exact (C53_equal A S L x r b Hx Z Hr E)]|].
  exfalso. destruct (proj1 (C53_throws A x r) (ex_intro _ e E)) as [N I]. destruct H as [H|H]; [congruence|contradiction].
Qed.
Example C75_case : elem_wf int_sem ex /\ In ga (basis (emodule ex)) /\ eq_real ex ga = Ok false /\ exists y, module_gen (zmod [g1; ga; gab]) 1 = Ok y /\ eq_real y ga = Ok true.
Proof. split; [exact (proj1 ex_standard)|]. split; [right; left; reflexivity|exact C53_example]. Qed.

(** * C76: the order is right for elements that are not extremely close *)
Theorem C76_apart_partial : forall A S, lawful A S -> forall mag_up, mag_up_ok mag_up -> forall rng names rho garb carb (p : par A) x y, standard S p x -> standard S p y ->
  code_setting S rng names rho garb carb x -> code_setting S rng names rho garb carb y -> code_error * (Rabs (value S rho x) + Rabs (value S rho y)) < Rabs (value S rho x - value S rho y) ->
  forall rounds c, lt_elem mag_up garb carb rounds x y = Some (Ok c) -> (c = true <-> value S rho x < value S rho y).
Proof. exact C66_elements. Qed.
