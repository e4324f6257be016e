(** Number fields of arbitrary degree: they satisfy the specification of rings, so that
    all theorems about elements (C20-C37, C47, C49, C50, C52-C53, ...) hold over them. *)
From Coq Require Import ZArith QArith Qcanon Bool List Reals Qreals Lia Lra.
From Verif Require Import Gen SpecGen GenProofs Ring SpecRing RingProofs NumberField NumberFieldProofs Module Element SpecModule ModuleProofs ElementProofs Independence
  ElementProofs2 SpanProofs ElementProofs3 Leading ElementProofs4 SpecLoops Division PropModule PropElement.
Import ListNotations.
Open Scope R_scope.

Theorem C50_lawful_number_fields : lawful nf_ring nf_sem. Proof. exact nf_lawful. Qed.

(** The elements of the field denote exactly the numbers that are rational polynomials in
    its generator (and each number is denoted once). *)
Theorem C50_values : forall (p : par nf_ring) (v : R),
  (exists x, mem nf_sem p x /\ val nf_sem x = v) <-> (exists l : list Qc, v = polynomial l (theta nf_sem p)).
Proof.
  intros p v. split.
  - intros (x & Hx & <-). exists (ne_coeffs x). exact (nmem_value p x Hx).
  - intros (l & ->). destruct (ne_mk_spec p (Some p) (pmod l (nf_poly p)) (or_intror eq_refl) (pmod_length _ _ (nf_minimal p) l)) as [A B].
    eexists. split; [exact A|]. change (ne_value (ne_mk (Some p) (pmod l (nf_poly p))) = polynomial l (nf_gen p)). rewrite B.
    apply (pmod_value _ _ (nf_minimal p)).
Qed.
(** coerce succeeds exactly for numbers of the field itself and for rational numbers. *)
Theorem C50_coerce_number_fields : forall (p q : par nf_ring) x, mem nf_sem q x ->
  match coerce p x with
  | Ok y => (p = q \/ exists r : Qc, val nf_sem x = Q2R r) /\ mem nf_sem p y /\ val nf_sem y = val nf_sem x
  | Err e => e = LogicError /\ p <> q /\ forall r : Qc, val nf_sem x <> Q2R r
  end.
Proof.
  intros p q x Hx. pose proof (L_coerce _ _ nf_lawful p x) as L. pose proof (nf_coerce_mem q x Hx) as M.
  pose proof (fun r => ne_rational_spec q x r Hx) as R. change (coerce (r := nf_ring) p x) with (nf_coerce p x) in *.
  destruct (nf_coerce p x) as [y|e] eqn:E.
  - split; [|apply L; eauto]. unfold nf_coerce in E. destruct (ne_is_rational x) eqn:Er.
    + right. exists (ne_to_q x). apply R. reflexivity.
    + left. rewrite (nmem_irrational q x Hx Er) in E. destruct (nfield_eqb q p) eqn:F; [|discriminate]. apply nfield_eqb_spec in F. congruence.
  - unfold nf_coerce in E. destruct (match ne_field x with Some q => nfield_eqb q p | None => false end) eqn:K0; [discriminate|].
    destruct (ne_is_rational x) eqn:Er; [discriminate|]. injection E as <-. split; [reflexivity|]. split.
    + intros ->. rewrite (nmem_irrational q x Hx Er) in K0. assert (nfield_eqb q q = true) by (apply nfield_eqb_spec; reflexivity). congruence.
    + intros r H. apply R in H. discriminate.
Qed.
(** The compositum exists exactly if the fields are equal, or one of them is Q; in either order. *)
Theorem C50_compositum_number_fields : forall p q : par nf_ring,
  match compositum p q with
  | Ok r => (p = q \/ degree_of p = 1%nat \/ degree_of q = 1%nat) /\ (r = p \/ r = q)
  | Err e => e = LogicError /\ p <> q /\ (2 <= degree_of p)%nat /\ (2 <= degree_of q)%nat
  end.
Proof.
  intros p q. change (compositum (r := nf_ring) p q) with (nf_compositum p q). change (degree_of (r := nf_ring)) with nf_degree.
  unfold nf_compositum. pose proof (degree_pos p). pose proof (degree_pos q). destruct (nfield_eqb p q) eqn:E.
  - apply nfield_eqb_spec in E. auto.
  - destruct (Nat.eqb_spec (nf_degree p) 1); [auto|]. destruct (Nat.eqb_spec (nf_degree q) 1); [auto|].
    split; [reflexivity|]. split; [|lia]. intros ->. assert (nfield_eqb q q = true) by (apply nfield_eqb_spec; reflexivity). congruence.
Qed.
Theorem C50_commutative_number_fields : forall p q : par nf_ring, match compositum p q, compositum q p with
  | Ok r, Ok r' => forall x, mem nf_sem r x <-> mem nf_sem r' x
  | Err e, Err e' => e = LogicError /\ e' = LogicError
  | _, _ => False
  end.
Proof.
  intros p q. change (compositum (r := nf_ring)) with nf_compositum. unfold nf_compositum. destruct (nfield_eqb p q) eqn:E.
  - apply nfield_eqb_spec in E. subst q. assert (nfield_eqb p p = true) as -> by (apply nfield_eqb_spec; reflexivity). tauto.
  - destruct (nfield_eqb q p) eqn:F. { apply nfield_eqb_spec in F. subst q. assert (nfield_eqb p p = true) by (apply nfield_eqb_spec; reflexivity). congruence. }
    destruct (Nat.eqb_spec (nf_degree p) 1) as [D|D], (Nat.eqb_spec (nf_degree q) 1) as [D'|D']; try tauto.
    intros x. split; intros Hx; eapply nmem_rational; try exact Hx; eapply nmem_degree_one; eauto.
Qed.
(** Equality of fields: same polynomial, same root. *)
Theorem C50_equality_number_fields : forall p q : par nf_ring, par_eqb p q = true <-> nf_poly p = nf_poly q /\ theta nf_sem p = theta nf_sem q.
Proof.
  intros p q. change (par_eqb (r := nf_ring)) with nfield_eqb. unfold nfield_eqb. rewrite andb_true_iff, poly_eqb_spec.
  change (theta nf_sem) with nf_gen. destruct (Req_EM_T (nf_gen p) (nf_gen q)); intuition congruence.
Qed.
(** floor is what E-ANTIC promises, and exact division of elements may use it. *)
Theorem C49_floor_number_fields : forall p (x : car nf_ring), mem nf_sem p x -> is_floor (cfloor x) (val nf_sem x).
Proof. exact nf_floor_spec. Qed.
Theorem C29_number_fields : floors_integers nf_sem.
Proof.
  intros p c n M H. pose proof (nf_floor_spec p c M) as [F1 F2]. change (val nf_sem c) with (ne_value c) in H. rewrite H in F1, F2.
  change (cfloor (r := nf_ring) c) with (ne_floor c). rewrite <- plus_IZR in F2. apply le_IZR in F1. apply lt_IZR in F2. lia.
Qed.
Theorem C37_embeddings_number_fields :
  (forall p c, mem int_sem p c -> mem nf_sem (trivial_par nf_ring) (int_to_nf c) /\ val nf_sem (int_to_nf c) = val int_sem c) /\
  (forall p c, mem rat_sem p c -> mem nf_sem (trivial_par nf_ring) (rat_to_nf c) /\ val nf_sem (rat_to_nf c) = val rat_sem c).
Proof.
  split; intros p c _.
  - destruct (ne_of_q_spec nf_rationals (Qc_of_Z c)) as [A B]. split; [exact A|]. change (ne_value (ne_of_q (Qc_of_Z c)) = IZR c). rewrite B. apply Q2R_Qc_of_Z.
  - exact (ne_of_q_spec nf_rationals c).
Qed.
Theorem C37_to_number_field : (forall x : elem int_ring, elem_wf int_sem x -> exists y, change_ring int_to_nf x = Ok y /\ elem_wf nf_sem y /\
    basis (emodule y) = basis (emodule x) /\ mring (emodule y) = trivial_par nf_ring /\ coeffs y = map int_to_nf (coeffs x) /\ forall rho, value nf_sem rho y = value int_sem rho x) /\
  (forall x : elem rat_ring, elem_wf rat_sem x -> exists y, change_ring rat_to_nf x = Ok y /\ elem_wf nf_sem y /\
    basis (emodule y) = basis (emodule x) /\ mring (emodule y) = trivial_par nf_ring /\ coeffs y = map rat_to_nf (coeffs x) /\ forall rho, value nf_sem rho y = value rat_sem rho x).
Proof.
  split.
  - exact (embed_spec int_ring nf_ring int_sem nf_sem int_to_nf (proj1 C37_embeddings_number_fields)).
  - exact (embed_spec rat_ring nf_ring rat_sem nf_sem rat_to_nf (proj2 C37_embeddings_number_fields)).
Qed.

(** ** A field of degree three: the cube root of 2 *)
Lemma even_cube a : Z.even (a * a * a) = Z.even a. Proof. rewrite !Z.even_mul. destruct (Z.even a); reflexivity. Qed.
Lemma norm_zero n : forall a b c : Z, (Z.abs a + Z.abs b + Z.abs c <= Z.of_nat n)%Z ->
  (a * a * a + 2 * (b * b * b) + 4 * (c * c * c) - 6 * a * b * c = 0)%Z -> (a = 0 /\ b = 0 /\ c = 0)%Z.
Proof.
  induction n as [|n IH]; intros a b c L E; [lia|].
  assert (Ea : Z.even a = true). { rewrite <- even_cube. replace (a * a * a)%Z with (2 * (3 * a * b * c - b * b * b - 2 * (c * c * c)))%Z by lia. apply Z.even_mul. }
  apply Z.even_spec in Ea. destruct Ea as [a' ->].
  assert (Eb : Z.even b = true). { rewrite <- even_cube. replace (b * b * b)%Z with (2 * (3 * a' * b * c - 2 * (a' * a' * a') - c * c * c))%Z by lia. apply Z.even_mul. }
  apply Z.even_spec in Eb. destruct Eb as [b' ->].
  assert (Ec : Z.even c = true). { rewrite <- even_cube. replace (c * c * c)%Z with (2 * (3 * a' * b' * c - a' * a' * a' - 2 * (b' * b' * b')))%Z by lia. apply Z.even_mul. }
  apply Z.even_spec in Ec. destruct Ec as [c' ->].
  destruct (Z.eq_dec (Z.abs a' + Z.abs b' + Z.abs c') 0) as [Z|Z]; [lia|].
  destruct (IH a' b' c') as (-> & -> & ->); [lia|lia|lia].
Qed.
Lemma common_denominator (a b c : Qc) : exists (n x y z : Z), (n <> 0)%Z /\ Q2R a * IZR n = IZR x /\ Q2R b * IZR n = IZR y /\ Q2R c * IZR n = IZR z.
Proof.
  exists (qc_den a * qc_den b * qc_den c)%Z, (qc_num a * qc_den b * qc_den c)%Z, (qc_num b * qc_den a * qc_den c)%Z, (qc_num c * qc_den a * qc_den b)%Z.
  pose proof (qc_den_pos a). pose proof (qc_den_pos b). pose proof (qc_den_pos c). pose proof (qc_den_R a). pose proof (qc_den_R b). pose proof (qc_den_R c).
  split; [nia|]. rewrite !Q2R_num_den, !mult_IZR. repeat split; field; lra.
Qed.
Lemma cube_root_exists : exists t : R, t * t * t = 2.
Proof.
  exists (Rpower 2 (/ 3)). rewrite <- !Rpower_plus. replace (/ 3 + / 3 + / 3) with 1 by field. apply Rpower_1. lra.
Qed.
Lemma cube_minimal t : t * t * t = 2 -> minimal_polynomial [- Qc_of_Z 2; 0; 0; 1]%Qc t.
Proof.
  intros T. split; [cbn; lia|]. split; [discriminate|]. split.
  - cbn [polynomial]. rewrite Q2R_Qc_opp, Q2R_Qc_of_Z, Q2R_Qc_0, Q2R_Qc_1. lra.
  - intros l Hl E. assert (K : exists a b c, trim l = trim [a; b; c] /\ (Forall (fun c : Qc => c = 0%Qc) [a; b; c] -> Forall (fun c : Qc => c = 0%Qc) l) /\ polynomial l t = polynomial [a; b; c] t).
    { destruct l as [|a [|b [|c [|d l]]]]; [exists 0%Qc, 0%Qc, 0%Qc|exists a, 0%Qc, 0%Qc|exists a, b, 0%Qc|exists a, b, c|cbn in Hl; lia].
      - split; [reflexivity|]. split; [constructor|]. cbn [polynomial]. rewrite Q2R_Qc_0. ring.
      - split; [cbn; reflexivity|]. split; [intros H; inversion H; repeat constructor; assumption|]. cbn [polynomial]. rewrite Q2R_Qc_0. ring.
      - split; [cbn; reflexivity|]. split; [intros H; inversion H as [|? ? ? H']; inversion H'; repeat constructor; assumption|]. cbn [polynomial]. rewrite Q2R_Qc_0. ring.
      - auto. }
    destruct K as (a & b & c & _ & K & V). apply K. rewrite V in E. cbn [polynomial] in E. clear K V Hl.
    destruct (common_denominator a b c) as (n & x & y & z & Hn & Hx & Hy & Hz).
    assert (N : IZR n <> 0) by (intros F; apply eq_IZR in F; contradiction).
    assert (G : IZR x + IZR y * t + IZR z * (t * t) = 0).
    { rewrite <- Hx, <- Hy, <- Hz. transitivity ((Q2R a + t * (Q2R b + t * (Q2R c + t * 0))) * IZR n); [ring|]. rewrite E. ring. }
    assert (M : (x * x * x + 2 * (y * y * y) + 4 * (z * z * z) - 6 * x * y * z = 0)%Z).
    { apply eq_IZR. rewrite minus_IZR, !plus_IZR, !mult_IZR.
      set (X := IZR x) in *. set (Y := IZR y) in *. set (W := IZR z) in *.
      transitivity ((X + Y * t + W * (t * t)) * (X * X + Y * Y * (t * t) + W * W * (t * t * t) * t - X * Y * t - X * W * (t * t) - Y * W * (t * t * t)));
        [|rewrite G; ring].
      transitivity (X * X * X + Y * Y * Y * (t * t * t) + W * W * W * ((t * t * t) * (t * t * t)) - 3 * X * Y * W * (t * t * t)); [rewrite T; ring|ring]. }
    destruct (norm_zero (Z.to_nat (Z.abs x + Z.abs y + Z.abs z)) x y z ltac:(lia) M) as (-> & -> & ->).
    assert (P : forall q : Qc, Q2R q * IZR n = 0 -> q = 0%Qc). { intros q H. apply Q2R_Qc_0'. apply Rmult_integral in H. destruct H; [assumption|contradiction]. }
    repeat constructor; apply P; assumption.
Qed.
(** There is a field of degree 3, its generator is the cube root of 2 and can be inverted:
    1 / 2^(1/3) = 2^(2/3) / 2, and the generator's cube is 2. *)
Example C50_degree_three : exists (p : par nf_ring) (x : car nf_ring), degree_of p = 3%nat /\ mem nf_sem p x /\ val nf_sem x = theta nf_sem p /\
  theta nf_sem p * theta nf_sem p * theta nf_sem p = 2 /\ crational x = None /\ cmul (cmul x x) x = int_to_nf 2%Z /\
  coordinates (cquo (cone nf_ring) x) = [0; 0; Q2Qc (1 # 2)]%Qc /\ compositum p (trivial_par nf_ring) = Ok p.
Proof.
  destruct cube_root_exists as [t T]. set (p := mkNfield [- Qc_of_Z 2; 0; 0; 1]%Qc t (cube_minimal t T)).
  exists p, (mkNelem (Some p) [0; 1]%Qc). assert (M : mem nf_sem p (mkNelem (Some p) [0; 1]%Qc)) by (split; [reflexivity|]; split; [reflexivity|cbn; lia]).
  split; [reflexivity|]. split; [exact M|].
  split; [cbn [val nf_sem]; unfold ne_value; cbn [ne_coeffs ne_field polynomial nf_gen p]; rewrite Q2R_Qc_0, Q2R_Qc_1; cbn [theta nf_sem nf_gen p]; ring|].
  split; [exact T|]. split; [reflexivity|]. split; [reflexivity|]. split; [reflexivity|].
  change (nf_compositum p nf_rationals = Ok p). unfold nf_compositum, nfield_eqb. cbn [nf_poly p nf_rationals poly_eqb].
  assert (Qc_eqb (- Qc_of_Z 2) 0 = false) as -> by reflexivity. reflexivity.
Qed.
