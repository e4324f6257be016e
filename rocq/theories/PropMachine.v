(** Property C106: products of random numbers of any degree, when exponents are machine integers. *)
From Coq Require Import ZArith QArith Qcanon Bool List Lia Reals Lra.
From Verif Require Import Gen SpecGen GenProofs Machine SpecMachine MachineProofs.
Import ListNotations.
Open Scope Z_scope.

(** Multiplication is the multiplication of numbers as long as no exponent of the product exceeds 2^31 - 1, whatever overflow does ... *)
Theorem C106_multiplication_partial : forall over x y, gen_wf x -> gen_wf y -> ~ rational x -> ~ rational y ->
  (forall i, Z.of_nat (expo x i + expo y i) <= 2 ^ 31 - 1) ->
  exists z, mgen_mul over (stored x) (stored y) = Some (Ok (stored z)) /\ gen_wf z /\ storable z /\ (forall i, expo z i = (expo x i + expo y i)%nat) /\
    forall rho, gen_val rho z = (gen_val rho x * gen_val rho y)%R.
Proof.
  intros over x y Wx Wy Rx Ry H. destruct (persist_spec x y Wx Wy Rx Ry) as (W & E & _ & V).
  assert (St : storable (GProd (persist x y))) by (intros i; rewrite E; apply H).
  exists (GProd (persist x y)). split; [|repeat split; auto; apply W].
  rewrite (mul_machine over x y Wx Wy); rewrite (gen_mul_total x y Rx Ry); [reflexivity|]. intros z [= <-]. exact St.
Qed.
(** ... and only then: otherwise the behaviour is undefined, and no machine can store the product. *)
Theorem C106_exactly_partial : forall x y, gen_wf x -> gen_wf y -> ~ rational x -> ~ rational y -> storable x -> storable y ->
  ((forall i, Z.of_nat (expo x i + expo y i) <= 2 ^ 31 - 1) <-> mgen_mul undefined (stored x) (stored y) <> None) /\
  (~ (forall i, Z.of_nat (expo x i + expo y i) <= 2 ^ 31 - 1) -> forall over, machine over -> forall z, gen_wf z -> (forall i, expo z i = (expo x i + expo y i)%nat) ->
     mgen_mul over (stored x) (stored y) <> Some (Ok (stored z))).
Proof.
  intros x y Wx Wy Rx Ry Sx Sy. apply storable_ints in Sx, Sy; [|assumption..]. split; [split|].
  - intros H. destruct (C106_multiplication_partial undefined x y Wx Wy Rx Ry H) as (z & E & _). rewrite E. discriminate.
  - intros H. pose proof (mul_undefined x y _ (gen_mul_total x y Rx Ry) H) as E. destruct (persist_spec x y Wx Wy Rx Ry) as (W & Ex & _ & _).
    apply mul_ints in E; [|intros z w; discriminate|assumption..]. apply storable_ints in E; [|exact W]. intros i. rewrite <- Ex. apply E.
  - intros N over Hm z Wz Ez C. apply N. apply mul_ints in C; [|assumption..]. apply storable_ints in C; [|exact Wz]. intros i. rewrite <- Ez. apply C.
Qed.
(** Products with rational numbers do not change exponents; divisions only make them smaller: they are as with unbounded exponents. *)
Theorem C106_rational : forall over x y, gen_wf x -> gen_wf y -> rational x \/ rational y -> storable x -> storable y ->
  mgen_mul over (stored x) (stored y) = Some (stored_result (gen_mul x y)).
Proof.
  intros over x y Wx Wy R Sx Sy. apply mul_machine; [assumption..|]. intros z E i. destruct (gen_mul_expo x y z Wx Wy E) as (Ez & _ & _). rewrite Ez.
  destruct R as [R|R]; [destruct x; try destruct R; exact (Sy i)|destruct y; try destruct R; rewrite Nat.add_0_r; exact (Sx i)].
Qed.
Theorem C106_division : forall over x y, gen_wf x -> gen_wf y -> storable x ->
  mgen_div over (stored x) (stored y) = Some (stored_quotient (gen_div x y)).
Proof. intros over x y Wx Wy Sx. apply div_machine; assumption. Qed.
Theorem C106_quotient : forall over x y z, gen_wf x -> gen_wf y -> gen_wf z -> ~ rational x -> ~ rational y -> storable x ->
  (rational z -> z = GRat 1) -> (forall i, expo x i = (expo z i + expo y i)%nat) -> mgen_div over (stored x) (stored y) = Some (Ok (Some (stored z))).
Proof.
  intros over x y z Wx Wy Wz Rx Ry Sx Hr He. assert (Hm : gen_mul z y = Ok x) by (apply gen_mul_from_expo; auto).
  rewrite (C106_division over x y Wx Wy Sx). destruct (gen_div x y) as [[q|]|e] eqn:E.
  - destruct (gen_div_sound x y q Wx Wy E) as [Wq Hq]. cbn [stored_quotient option_map]. do 4 f_equal.
    destruct (gen_mul_expo _ _ _ Wq Wy Hq) as (Eq & _ & Rq). destruct (gen_mul_expo _ _ _ Wz Wy Hm) as (_ & _ & Rz).
    destruct (rational_dec q) as [R1|R1]; destruct (rational_dec z) as [R2|R2].
    + destruct q as [a| |]; try destruct R1. destruct z as [b| |]; try destruct R2. unfold gen_mul, rational_mul in Hq, Hm.
      destruct (Qeq_bool a 1) eqn:Ea; [|destruct y; [destruct Ry; exact Logic.I|discriminate..]]. destruct (Qeq_bool b 1) eqn:Eb; [|destruct y; [destruct Ry; exact Logic.I|discriminate..]].
      apply Qc_eqb_1 in Ea, Eb. congruence.
    + exfalso. pose proof (degree_pos z Wz R2) as Dz. destruct (gen_mul_expo _ _ _ Wq Wy Hq) as (_ & D1 & _). destruct (gen_mul_expo _ _ _ Wz Wy Hm) as (_ & D2 & _). destruct q; try destruct R1. cbn [degree] in D1. lia.
    + exfalso. pose proof (degree_pos q Wq R1) as Dz. destruct (gen_mul_expo _ _ _ Wq Wy Hq) as (_ & D1 & _). destruct (gen_mul_expo _ _ _ Wz Wy Hm) as (_ & D2 & _). destruct z; try destruct R2. cbn [degree] in D2. lia.
    + apply expo_inj; [assumption..|]. intros i. specialize (Eq i). specialize (He i). lia.
  - exfalso. exact (gen_div_complete x y z Wx Wy Wz Hm E).
  - exfalso. assert (H : exists e, gen_div x y = Err e) by (exists e; exact E). apply gen_div_throws in H as (q & -> & _). apply Ry. exact Logic.I.
Qed.
(** The order is right for products whose degree is at most 2^31 - 1 ... *)
Theorem C106_order_partial : forall over x y, gen_wf x -> gen_wf y -> ~ rational x -> ~ rational y -> small x -> small y ->
  exists b, mdeglex over (stored x) (stored y) = Some b /\ (b = true <-> deglex_before x y).
Proof.
  intros over x y Wx Wy Rx Ry Sx Sy. rewrite (deglex_machine over x y Sx Sy). destruct (deglex_opt_spec x y Wx Wy) as [[-> B]|[-> B]].
  - exists true. split; [reflexivity|]. split; [intros _|reflexivity]. destruct B as [[R _]|(_ & _ & B)]; [contradiction|exact B].
  - exists false. split; [reflexivity|]. split; [discriminate|]. intros C. exfalso. apply B. right. split; [exact Rx|]. split; [exact Ry|exact C].
Qed.
(** ... and undefined for different products one of which has a larger degree, even if no exponent is too large. *)
Theorem C106_order_exactly_partial : forall l r, l <> r ->
  (mdeglex undefined (stored (GProd l)) (stored (GProd r)) <> None -> small (GProd l) /\ small (GProd r)).
Proof.
  intros l r N H. unfold mdeglex in H. rewrite stored_eqb in H. assert (E : gen_eqb (GProd l) (GProd r) = false) by (apply gen_eqb_neq; congruence). rewrite E in H. cbn [stored] in H. fold (up l) (up r) in H.
  unfold small. cbn [degree]. destruct (mtotal_degree undefined (up l) 0) as [d|] eqn:E1; [|congruence]. destruct (mtotal_degree undefined (up r) 0) as [e|] eqn:E2; [|congruence].
  split; [exact (degree_undefined l 0 d E1 ltac:(discriminate))|exact (degree_undefined r 0 e E2 ltac:(discriminate))].
Qed.
(** So as long as degrees add up to at most 2^31 - 1 everything is fine. *)
Theorem C106_degree_partial : forall over x y, gen_wf x -> gen_wf y -> ~ rational x -> ~ rational y -> Z.of_nat (degree x + degree y) <= 2 ^ 31 - 1 ->
  exists z, mgen_mul over (stored x) (stored y) = Some (Ok (stored z)) /\ mgen_mul over (stored y) (stored x) = Some (Ok (stored z)) /\ gen_wf z /\ degree z = (degree x + degree y)%nat /\
    (forall rho, gen_val rho z = (gen_val rho x * gen_val rho y)%R) /\
    mgen_div over (stored z) (stored y) = Some (Ok (Some (stored x))) /\ mdeglex over (stored x) (stored z) = Some true /\ mdeglex over (stored z) (stored x) = Some false.
Proof.
  intros over x y Wx Wy Rx Ry H. destruct (persist_spec x y Wx Wy Rx Ry) as (W & E & D & V). pose proof (degree_pos x Wx Rx) as Dx. pose proof (degree_pos y Wy Ry) as Dy.
  assert (Sz : small (GProd (persist x y))) by (unfold small; rewrite D; exact H). pose proof (small_storable _ Sz) as St. assert (Sx : small x) by (unfold small; lia).
  exists (GProd (persist x y)). split; [|split; [|split; [exact W|split; [exact D|split; [exact V|split; [|split]]]]]].
  - rewrite (mul_machine over x y Wx Wy); rewrite (gen_mul_total x y Rx Ry); [reflexivity|]. intros z [= <-]. exact St.
  - rewrite (mul_machine over y x Wy Wx); rewrite (gen_mul_total y x Ry Rx), (persist_comm y x Wy Wx Ry Rx); [reflexivity|]. intros z [= <-]. exact St.
  - apply (C106_quotient over _ y x W Wy Wx (fun C => C) Ry St (fun C => False_ind _ (Rx C)) E).
  - rewrite (deglex_machine over _ _ Sx Sz). pose proof (deglex_opt_spec x _ Wx W) as [[-> _]|[_ B]]; [reflexivity|]. exfalso. apply B. right. split; [exact Rx|]. split; [intros []|]. left. rewrite D. lia.
  - rewrite (deglex_machine over _ _ Sz Sx). pose proof (deglex_opt_spec _ x W Wx) as [[_ B]|[-> _]]; [|reflexivity]. exfalso. destruct B as [[[] _]|(_ & _ & [B|[B _]])]; rewrite D in B; lia.
Qed.
Example C106_example : let x := GProd [(1, 2%nat); (4, 1%nat)] in let y := GProd [(1, 1%nat); (3, 5%nat)] in
  gen_wf x /\ gen_wf y /\ ~ rational x /\ ~ rational y /\ Z.of_nat (degree x + degree y) <= 2 ^ 31 - 1 /\
  mgen_mul undefined (stored x) (stored y) = Some (Ok (MProd [(1, 3); (3, 5); (4, 1)])) /\
  mgen_div undefined (MProd [(1, 3); (3, 5); (4, 1)]) (stored y) = Some (Ok (Some (MProd [(1, 2); (4, 1)]))) /\
  mgen_mul undefined (MProd [(1, 2 ^ 31 - 2)]) (MAtom 1) = Some (Ok (MProd [(1, 2 ^ 31 - 1)])).
Proof.
  cbv zeta. repeat split; try (cbn; lia); try (intros []); try discriminate; vm_compute; reflexivity.
Qed.

(** A random number can be squared 30 times; the 31st square is undefined behaviour, and whatever a machine makes of it, it is not x^(2^31). *)
Theorem C106_squares_refuted : forall i,
  (forall over, squared (mgen_mul over) 30 (MAtom i) = Some (Ok (MProd [(i, 2 ^ 30)]))) /\
  squared (mgen_mul undefined) 31 (MAtom i) = None /\
  (forall over, machine over -> forall g, squared (mgen_mul over) 31 (MAtom i) = Some (Ok (stored g)) -> ~ (forall rho, gen_val rho g = (rho i ^ Z.to_nat (2 ^ 31))%R)).
Proof.
  intros i.
  assert (St : forall over e, mgen_mul over (MProd [(i, e)]) (MProd [(i, e)]) = option_map (fun ms => Ok (MProd ms)) (opt_cons (with_exponent i (int_result over (e * 2))) (Some []))).
  { intros over e. unfold mgen_mul, mpersist. cbn [mgen_eqb mmons_eqb]. rewrite !Z.eqb_refl. reflexivity. }
  assert (Q : forall over k, (k < 30)%nat -> squared (mgen_mul over) (S k) (MAtom i) = Some (Ok (MProd [(i, 2 ^ Z.of_nat (S k))]))).
  { intros over. induction k as [|k IH]; intros Hk.
    - cbn [squared mgen_mul]. unfold mpersist. cbn [mgen_eqb]. rewrite Z.eqb_refl. reflexivity.
    - remember (S k) as m. cbn [squared]. rewrite IH by lia. rewrite St. unfold int_result.
      assert (E : 2 ^ Z.of_nat m * 2 = 2 ^ Z.of_nat (S m)) by (rewrite Nat2Z.inj_succ, Z.pow_succ_r by lia; lia). rewrite E.
      assert (I1 : is_int (2 ^ Z.of_nat (S m)) = true).
      { apply is_int_spec. assert (2 ^ Z.of_nat (S m) <= 2 ^ 30) by (apply Z.pow_le_mono_r; lia). assert (0 < 2 ^ Z.of_nat (S m)) by (apply Z.pow_pos_nonneg; lia).
        change (2 ^ 30) with 1073741824 in *. rewrite pow31. lia. }
      rewrite I1. reflexivity. }
  pose proof (fun over => Q over 29%nat ltac:(lia)) as Q30. change (2 ^ Z.of_nat 30) with (2 ^ 30) in Q30.
  assert (Q31 : forall over, squared (mgen_mul over) 31 (MAtom i) = option_map (fun ms => Ok (MProd ms)) (opt_cons (with_exponent i (over (2 ^ 31))) (Some []))).
  { intros over. change 31%nat with (S 30). cbn [squared] in *. specialize (Q30 over). rewrite Q30. rewrite St. reflexivity. }
  split; [exact Q30|]. split; [rewrite Q31; reflexivity|].
  intros over Hm g Hg Hv. rewrite Q31 in Hg. destruct (over (2 ^ 31)) as [w|] eqn:Ew; [|discriminate]. cbn [with_exponent option_map opt_cons] in Hg. injection Hg as Hg.
  pose proof (Hm _ _ Ew) as Bw. destruct g as [q|j|ms]; try discriminate. cbn [stored] in Hg. destruct ms as [|[j e] [|m ms]]; try discriminate. cbn [map fst snd] in Hg. injection Hg as Ei Ee. subst j.
  specialize (Hv (fun _ => 2%R)). cbn [gen_val mons_val] in Hv. rewrite Rmult_1_r in Hv.
  assert (Hlt : (e < Z.to_nat (2 ^ 31))%nat) by (rewrite pow31 in *; lia). pose proof (Rlt_pow 2 e _ ltac:(lra) Hlt). lra.
Qed.
(** x^(2^30) y^(2^30) is a product of two numbers, with exponents that fit, but comparing it with x^2 is undefined, and wrong where overflow wraps around. *)
Theorem C106_order_refuted : forall over, let a := MProd [(1, 2 ^ 30)] in let b := MProd [(2, 2 ^ 30)] in let c := MProd [(1, 2 ^ 30); (2, 2 ^ 30)] in let d := MProd [(1, 2)] in
  squared (mgen_mul over) 30 (MAtom 1) = Some (Ok a) /\ squared (mgen_mul over) 30 (MAtom 2) = Some (Ok b) /\ squared (mgen_mul over) 1 (MAtom 1) = Some (Ok d) /\ mgen_mul over a b = Some (Ok c) /\
  mdeglex undefined c d = None /\ mdeglex wraps c d = Some true /\ mdeglex wraps d c = Some false.
Proof. intros over a b c d. repeat split; vm_compute; reflexivity. Qed.
