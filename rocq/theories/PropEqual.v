(** Property C89: == and the truth value of real numbers. *)
From Coq Require Import ZArith QArith Qcanon Bool List Reals Qreals Lra Lia.
From Flocq Require Import Core.
From Verif Require Import Arf Arb Real SpecArf ArfProofs SpecReal RealProofs RealProofs2 RealProofs5 Compare.
Import ListNotations.
Open Scope R_scope.

Lemma pow_neq0 x n : x <> 0 -> x ^ n <> 0.
Proof. apply pow_nonzero. Qed.
Lemma atom_neq0 rng a v : atom_ok rng a -> atom_value rng a v -> v <> 0.
Proof.
  destruct a as [s|i e s]; cbn [atom_ok atom_value].
  - intros N V. pose proof (stream_value_pos _ _ N V). lra.
  - intros (N & m & Hm) (y & V & ->). pose proof (stream_value_pos _ _ N V) as P. pose proof (V 0%nat) as V0. cbn [prefix] in V0. change (bpow radix2 (Z.of_nat 0)) with 1 in V0.
    rewrite Hm. replace (bpow radix2 e) with (2 * bpow radix2 (e - 1)) by (change 2 with (bpow radix2 1); rewrite <- bpow_plus; f_equal; lia).
    pose proof (bpow_gt_0 radix2 (e - 1)) as B. replace (IZR m * (2 * bpow radix2 (e - 1)) + y * bpow radix2 (e - 1)) with ((2 * IZR m + y) * bpow radix2 (e - 1)) by ring.
    apply Rmult_integral_contrapositive_currified; [|lra]. intros E.
    assert (D : (0 <= m)%Z \/ (m <= -1)%Z) by lia. destruct D as [D|D]; [apply IZR_le in D|apply IZR_le in D]; lra.
Qed.
Lemma prod_neq0 rng ms : forall v, (forall a k, In (a, k) ms -> atom_ok rng a /\ (0 < k)%nat) -> prod_value rng ms v -> v <> 0.
Proof.
  induction ms as [|[a k] ms IH]; intros v H V; cbn [prod_value] in V; [lra|]. destruct V as (y & z & Vy & Vz & ->).
  apply Rmult_integral_contrapositive_currified.
  - apply pow_neq0. apply (atom_neq0 rng a); [apply (H a k); left; reflexivity|exact Vy].
  - apply IH; [|exact Vz]. intros b j I. apply H. right. exact I.
Qed.

Lemma stream_value_fun s y z : stream_value s y -> stream_value s z -> y = z.
Proof.
  intros Y Z. destruct (Rtotal_order y z) as [C|[C|C]]; [|exact C|]; exfalso.
  all: match type of C with ?a < ?b => set (d := b - a) | ?b > ?a => set (d := b - a) end; assert (D : 0 < d) by (unfold d; lra);
    set (n := Z.to_nat (Z.max 0 (1 - mag radix2 d + 1)));
    pose proof (Y n) as Yn; pose proof (Z n) as Zn; pose proof (bpow_mag_le radix2 d ltac:(lra)) as M; rewrite Rabs_pos_eq in M by lra;
    pose proof (bpow_gt_0 radix2 (Z.of_nat n)) as B;
    assert (K : 2 <= d * bpow radix2 (Z.of_nat n));
    [ apply Rle_trans with (bpow radix2 (mag radix2 d - 1) * bpow radix2 (Z.of_nat n)); [rewrite <- bpow_plus; change 2 with (bpow radix2 1); apply bpow_le; unfold n; rewrite Z2Nat.id by lia; lia|apply Rmult_le_compat_r; lra]
    | unfold d in K; rewrite Rmult_minus_distr_r in K; lra ].
Qed.
Lemma atom_value_fun rng a b v w : atom_eqb a b = true -> atom_value rng a v -> atom_value rng b w -> v = w.
Proof.
  destruct a as [s|i e s], b as [t|j f t]; cbn [atom_eqb atom_value]; try discriminate.
  - rewrite Z.eqb_eq. intros ->. apply stream_value_fun.
  - rewrite !andb_true_iff, !Z.eqb_eq, arf_eqb_spec. intros ((E & ->) & ->) (y & Y & ->) (z & Z & ->). rewrite E, (stream_value_fun _ _ _ Y Z). reflexivity.
Qed.
Lemma prod_value_fun rng : forall l m v w, prod_eqb l m = true -> prod_value rng l v -> prod_value rng m w -> v = w.
Proof.
  induction l as [|[a i] l IH]; intros [|[b j] m] v w; cbn [prod_eqb prod_value]; try discriminate; [intros _ -> ->; reflexivity|].
  rewrite !andb_true_iff, Nat.eqb_eq. intros ((E & ->) & F) (y & z & Y & Z & ->) (y' & z' & Y' & Z' & ->).
  rewrite (atom_value_fun rng a b y y' E Y Y'), (IH m z z' F Z Z'). reflexivity.
Qed.

(** Numbers that are == have the same value. *)
Theorem C89_equal : forall rng x y v w, rnum_eqb x y = true -> num_value rng x v -> num_value rng y w -> v = w.
Proof.
  intros rng [p|a|l] [q|b|m] v w; cbn [rnum_eqb num_value]; try discriminate.
  - rewrite Qeq_bool_iff. intros E -> ->. apply Qeq_eqR. exact E.
  - apply atom_value_fun.
  - apply prod_value_fun.
Qed.
(** For rational numbers also conversely. *)
Theorem C89_rationals : forall p q, rnum_eqb (RRat p) (RRat q) = true <-> Q2R p = Q2R q.
Proof. intros p q. cbn [rnum_eqb]. rewrite Qeq_bool_iff. split; [apply Qeq_eqR|apply eqR_Qeq]. Qed.
(** Random numbers are == if and only if they have the same seed (and come from the same interval); products if and only if
    they have the same factors with the same exponents; numbers of different kinds are never ==. *)
Theorem C89_randoms : forall s t, rnum_eqb (RAtom (ARandom s)) (RAtom (ARandom t)) = true <-> s = t.
Proof. intros s t. apply Z.eqb_eq. Qed.
Theorem C89_constrained : forall i e s j f t, rnum_eqb (RAtom (AConstr i e s)) (RAtom (AConstr j f t)) = true <-> arf2R i = arf2R j /\ e = f /\ s = t.
Proof. intros i e s j f t. cbn [rnum_eqb atom_eqb]. rewrite !andb_true_iff, !Z.eqb_eq, arf_eqb_spec. tauto. Qed.
Theorem C89_products : forall l m, rnum_eqb (RProd l) (RProd m) = true <->
  Forall2 (fun f g => rnum_eqb (RAtom (fst f)) (RAtom (fst g)) = true /\ snd f = snd g) l m.
Proof.
  cbn [rnum_eqb]. induction l as [|[a i] l IH]; intros [|[b j] m]; cbn [prod_eqb].
  - split; [constructor|reflexivity].
  - split; [discriminate|inversion 1].
  - split; [discriminate|inversion 1].
  - rewrite !andb_true_iff, Nat.eqb_eq, IH. split; [intros ((E & F) & G); constructor; auto|inversion 1; subst; cbn in *; tauto].
Qed.
Theorem C89_kinds : forall q a l, let ne x y := rnum_eqb x y = false /\ rnum_eqb y x = false in
  ne (RRat q) (RAtom a) /\ ne (RRat q) (RProd l) /\ ne (RAtom a) (RProd l) /\ forall s i e t, ne (RAtom (ARandom s)) (RAtom (AConstr i e t)).
Proof. cbn. auto 10. Qed.
(** == is an equivalence relation, and != its negation. *)
Theorem C89_equivalence : forall x y z, rnum_eqb x x = true /\ rnum_eqb x y = rnum_eqb y x /\ (rnum_eqb x y = true -> rnum_eqb y z = true -> rnum_eqb x z = true) /\
  num_ne x y = negb (rnum_eqb x y).
Proof.
  assert (Ra : forall a, atom_eqb a a = true).
  { intros [s|i e s]; cbn [atom_eqb]; rewrite ?Z.eqb_refl, ?andb_true_r; [reflexivity|]. apply arf_eqb_spec. reflexivity. }
  assert (Sa : forall a b, atom_eqb a b = true -> atom_eqb b a = true).
  { intros [s|i e s] [t|j f t]; cbn [atom_eqb]; try discriminate; rewrite ?andb_true_iff, ?Z.eqb_eq, ?arf_eqb_spec; [congruence|]. intuition congruence. }
  assert (Ta : forall a b c, atom_eqb a b = true -> atom_eqb b c = true -> atom_eqb a c = true).
  { intros [s|i e s] [t|j f t] [u|k g u]; cbn [atom_eqb]; try discriminate; rewrite ?andb_true_iff, ?Z.eqb_eq, ?arf_eqb_spec; intuition congruence. }
  assert (Rp : forall l, prod_eqb l l = true) by (induction l as [|[a i] l IH]; cbn; [reflexivity|]; rewrite Ra, Nat.eqb_refl, IH; reflexivity).
  assert (Sp : forall l m, prod_eqb l m = true -> prod_eqb m l = true).
  { induction l as [|[a i] l IH]; intros [|[b j] m]; cbn; try discriminate; [reflexivity|]. rewrite !andb_true_iff, !Nat.eqb_eq. intros ((E & F) & G). auto. }
  assert (Tp : forall l m n, prod_eqb l m = true -> prod_eqb m n = true -> prod_eqb l n = true).
  { induction l as [|[a i] l IH]; intros [|[b j] m] [|[c k] n]; cbn; try discriminate; [reflexivity|]. rewrite !andb_true_iff, !Nat.eqb_eq. intros ((E & F) & G) ((E' & F') & G').
    split; [split; [exact (Ta _ _ _ E E')|congruence]|exact (IH _ _ G G')]. }
  assert (Sx : forall x y, rnum_eqb x y = true -> rnum_eqb y x = true).
  { intros [p|a|l] [q|b|m]; cbn [rnum_eqb]; auto. rewrite !Qeq_bool_iff. intros H. symmetry. exact H. }
  intros x y z. split; [destruct x; cbn [rnum_eqb]; auto; apply Qeq_bool_iff; reflexivity|]. split.
  - destruct (rnum_eqb x y) eqn:E, (rnum_eqb y x) eqn:F; try reflexivity; [rewrite (Sx _ _ E) in F|rewrite (Sx _ _ F) in E]; congruence.
  - split; [|reflexivity]. destruct x as [p|a|l], y as [q|b|m], z as [r|c|n]; cbn [rnum_eqb]; try discriminate; [|apply Ta|apply Tp].
    rewrite !Qeq_bool_iff. intros H K. rewrite H. exact K.
Qed.
(** if (x) asks whether x is not zero. *)
Theorem C89_bool : forall rng x v, num_ok rng x -> num_value rng x v -> (num_bool x = true <-> v <> 0).
Proof.
  intros rng [q|a|l] v H V; cbn [num_ok num_value num_bool] in *.
  - subst v. rewrite negb_true_iff, Z.eqb_neq. assert (E : Q2R q = 0 <-> Qnum q = 0%Z).
    { split; intros K; [|unfold Q2R; rewrite K; ring]. replace 0 with (Q2R 0) in K by (unfold Q2R; cbn; ring). apply eqR_Qeq in K. unfold Qeq in K. cbn in K. lia. }
    tauto.
  - split; [|reflexivity]. intros _. exact (atom_neq0 rng a v H V).
  - split; [|reflexivity]. intros _. exact (prod_neq0 rng l v (proj2 H) V).
Qed.
Example C89_case : let x := ARandom 1337 in let y := AConstr (mkArf 3 0) (-2) 1338 in
  num_ok rand48 (RProd [(x, 2%nat); (y, 1%nat)]) /\ rnum_eqb (RProd [(x, 2%nat); (y, 1%nat)]) (RProd [(x, 1%nat); (y, 1%nat)]) = false /\
  rnum_eqb (RAtom y) (RAtom (AConstr (mkArf 6 (-1)) (-2) 1338)) = true /\ num_bool (RProd [(x, 2%nat); (y, 1%nat)]) = true /\ num_bool (RRat 0) = false /\ num_bool (RRat (-1 # 3)) = true.
Proof.
  cbn zeta. split; [|vm_compute; auto 10]. split; [discriminate|]. intros a k [[= <- <-]|[[= <- <-]|[]]]; (split; [|lia]).
  - exists 1%nat. vm_compute. reflexivity.
  - split; [exists 3%nat; vm_compute; reflexivity|]. exists 12%Z. unfold arf2R, F2R. cbn. lra.
Qed.
