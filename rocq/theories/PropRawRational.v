(** Property C113: rational numbers in archives that are not in lowest terms. *)
From Coq Require Import ZArith QArith Bool List String Reals Lia Lra Qreals Znumtheory.
From Flocq Require Import Core.
From Verif Require Import Arf Arb SpecArf ArfProofs ArbProofs Text SpecText PropText Real SpecReal RealProofs RealProofs5 PropReal SpecStuck RawRational SpecRawRational.
Import ListNotations.
Open Scope Z_scope.

Lemma mpq_equal_spec p q : mpq_equal p q = true <-> p = q.
Proof.
  unfold mpq_equal. rewrite andb_true_iff, !Z.eqb_eq. destruct p, q. cbn. split; [intros [-> ->]; reflexivity|intros E; injection E as -> ->; auto].
Qed.
Lemma lowest_terms_unique p q : lowest_terms p -> lowest_terms q -> fraction_value p = fraction_value q -> p = q.
Proof.
  destruct p as [n d], q as [m e]. unfold lowest_terms, fraction_value. cbn. intros [Pd Gd] [Pe Ge] V.
  assert (Rd : IZR d <> 0%R) by (apply not_0_IZR; lia). assert (Re : IZR e <> 0%R) by (apply not_0_IZR; lia).
  assert (X : n * e = m * d).
  { apply eq_IZR. rewrite !mult_IZR. transitivity (IZR n / IZR d * (IZR d * IZR e))%R; [field; assumption|]. rewrite V. field. assumption. }
  assert (D1 : (d | e)). { apply Gauss with n; [exists m; lia|]. apply Zgcd_1_rel_prime. rewrite Z.gcd_comm. exact Gd. }
  assert (D2 : (e | d)). { apply Gauss with m; [exists n; lia|]. apply Zgcd_1_rel_prime. rewrite Z.gcd_comm. exact Ge. }
  assert (E : d = e) by (apply Z.divide_antisym_nonneg; [lia|lia|exact D1|exact D2]). subst e. f_equal. nia.
Qed.

Lemma find_number_some q l i : find_number q l = Some i -> In (i, q) l.
Proof.
  induction l as [|[j p] l IH]; cbn; [discriminate|]. destruct (mpq_equal p q) eqn:E; [|auto]. apply mpq_equal_spec in E. subst p. intros [= ->]. left. reflexivity.
Qed.
Lemma find_number_none q l : find_number q l = None -> forall i, ~ In (i, q) l.
Proof.
  induction l as [|[j p] l IH]; cbn; [intros _ i []|]. destruct (mpq_equal p q) eqn:E; [discriminate|]. intros H i [F|F]; [|exact (IH H i F)].
  injection F as -> ->. assert (mpq_equal q q = true) by (apply mpq_equal_spec; reflexivity). congruence.
Qed.
(** Objects have different addresses, below [next], and are found at them. *)
Definition addresses (s : process) : Prop := NoDup (map fst (numbers s)) /\ forall i q, In (i, q) (numbers s) -> (i < next s)%nat.
Lemma number_in l i q : number l i = Some q -> In (i, q) l.
Proof. induction l as [|[j p] l IH]; cbn; [discriminate|]. destruct (Nat.eqb_spec j i); [intros [= ->]; subst; left; reflexivity|auto]. Qed.
Lemma in_number l i q : NoDup (map fst l) -> In (i, q) l -> number l i = Some q.
Proof.
  induction l as [|[j p] l IH]; cbn; [intros _ []|]. intros D [E|I].
  - injection E as -> ->. rewrite Nat.eqb_refl. reflexivity.
  - inversion D; subst. destruct (Nat.eqb_spec j i); [|apply IH; assumption]. subst j. exfalso. apply H1. apply in_map_iff. exists (i, q). auto.
Qed.
Lemma rational_cases s q s' i : addresses s -> rational s q = Returns s' i ->
  addresses s' /\ number (numbers s') i = Some q /\ (forall j p, number (numbers s) j = Some p -> number (numbers s') j = Some p) /\
  (forall j p, number (numbers s') j = Some p -> number (numbers s) j = Some p \/ (p = q /\ j = i /\ forall k, number (numbers s) k <> Some q)).
Proof.
  intros [D N]. unfold rational. destruct (snd q =? 0); [discriminate|]. destruct (find_number q (numbers s)) as [k|] eqn:F; intros E; injection E as <- <-.
  - apply find_number_some in F. split; [split; assumption|]. split; [apply in_number; assumption|]. split; [auto|]. intros j p H. left. exact H.
  - pose proof (find_number_none q _ F) as F'. split.
    { split; cbn.
      - constructor; [|exact D]. intros I. apply in_map_iff in I. destruct I as ([j p] & E & I). cbn in E. subst j. apply N in I. lia.
      - intros j p [E|I]; [injection E as <- <-; lia|apply N in I; lia]. }
    split; [cbn; rewrite Nat.eqb_refl; reflexivity|]. split.
    + intros j p H. cbn. destruct (Nat.eqb_spec (next s) j) as [<-|_]; [|exact H]. exfalso. apply number_in, N in H. lia.
    + intros j p. cbn. destruct (Nat.eqb_spec (next s) j) as [<-|_]; [|auto]. intros [= ->]. right. split; [reflexivity|]. split; [reflexivity|]. intros k H. apply number_in in H. exact (F' k H).
Qed.
Lemma canonical_invariant s : canonical_history s -> addresses s /\ (forall i q, number (numbers s) i = Some q -> lowest_terms q) /\
  (forall i j q, number (numbers s) i = Some q -> number (numbers s) j = Some q -> i = j).
Proof.
  assert (K : forall s q s' i, (addresses s /\ (forall i q, number (numbers s) i = Some q -> lowest_terms q) /\ (forall i j q, number (numbers s) i = Some q -> number (numbers s) j = Some q -> i = j)) ->
    lowest_terms q -> rational s q = Returns s' i -> addresses s' /\ (forall i q, number (numbers s') i = Some q -> lowest_terms q) /\ (forall i j q, number (numbers s') i = Some q -> number (numbers s') j = Some q -> i = j)).
  { intros t q t' k (Ad & C & U) L E. destruct (rational_cases t q t' k Ad E) as (Ad' & _ & _ & B). split; [exact Ad'|]. split.
    - intros i p H. destruct (B i p H) as [H'|(-> & _)]; [exact (C i p H')|exact L].
    - intros i j p Hi Hj. pose proof (B i p Hi) as Bi. pose proof (B j p Hj) as Bj. destruct Bi as [Hi'|(Ei & Ki & Ni)].
      + destruct Bj as [Hj'|(Ej & _ & Nj)]; [exact (U i j p Hi' Hj')|]. subst p. destruct (Nj i Hi').
      + destruct Bj as [Hj'|(_ & Kj & _)]; [subst p; destruct (Ni j Hj')|]. congruence. }
  induction 1 as [|t q t' k H IH L E|t text q t' k H IH T L E].
  - split; [split; [constructor|intros i q []]|]. split; [intros i q E; discriminate|intros i j q E; discriminate].
  - exact (K t q t' k IH L E).
  - unfold load_rational in E. rewrite T in E. exact (K t q t' k IH L E).
Qed.

Lemma rational_loop_fuel rng p q rounds : forall fuel x y prec,
  num_lt_loop rng rounds 0 (as_real p) (as_real q) x y prec = num_lt_loop rng rounds fuel (as_real p) (as_real q) x y prec.
Proof. induction rounds as [|rounds IH]; intros fuel x y prec; [reflexivity|]. cbn [num_lt_loop].
  assert (F : forall z b k, num_refine rng 0 (as_real z) b k = num_refine rng fuel (as_real z) b k) by reflexivity. rewrite !F.
  destruct (num_refine rng fuel (as_real p) x prec) as [x'|], (num_refine rng fuel (as_real q) y prec) as [y'|]; try reflexivity.
  destruct (op_lt x' y'); [reflexivity|]. apply IH.
Qed.

(** ** What holds while all text is in lowest terms *)
(** The number that is loaded is the one that is written; nothing else changes. *)
Theorem C113_load_partial : forall s text q, canonical_history s -> load_mpq text = Some q -> lowest_terms q ->
  exists s' i, load_rational s text = Returns s' i /\ number_value s' i (fraction_value q) /\
  (forall j v, number_value s j v -> number_value s' j v) /\ (forall j v, number_value s' j v -> number_value s j v \/ j = i).
Proof.
  intros s text q H T L. destruct (canonical_invariant s H) as (Ad & _). unfold load_rational. rewrite T.
  assert (R : exists s' i, rational s q = Returns s' i).
  { unfold rational. destruct (Z.eqb_spec (snd q) 0) as [E|_]; [destruct L; lia|]. destruct (find_number q (numbers s)); eauto. }
  destruct R as (s' & i & R). exists s', i. split; [exact R|]. destruct (rational_cases s q s' i Ad R) as (_ & N & K & B). split; [exists q; auto|]. split.
  - intros j v (p & E & V). exists p. split; [exact (K j p E)|exact V].
  - intros j v (p & E & V). destruct (B j p E) as [E'|(_ & -> & _)]; [left; exists p; auto|right; reflexivity].
Qed.
(** Text that is not a fraction throws, and nothing else does. *)
Theorem C113_rejected : forall s text, load_rational s text = Throws <-> load_mpq text = None.
Proof.
  intros s text. unfold load_rational. destruct (load_mpq text) as [q|]; [|tauto]. unfold rational. destruct (snd q =? 0); [split; discriminate|]. destruct (find_number q (numbers s)); split; discriminate.
Qed.
(** There is one object for each number, so comparing addresses compares numbers. *)
Theorem C113_equality_partial : forall s i j v w, canonical_history s -> number_value s i v -> number_value s j w -> (same_object i j = true <-> v = w).
Proof.
  intros s i j v w H (p & Ei & <-) (q & Ej & <-). destruct (canonical_invariant s H) as (_ & C & U). unfold same_object. rewrite Nat.eqb_eq. split.
  - intros ->. congruence.
  - intros V. assert (p = q) as -> by (apply lowest_terms_unique; [exact (C i p Ei)|exact (C j q Ej)|exact V]). exact (U i j q Ei Ej).
Qed.
Theorem C113_equality_rational_partial : forall s i v q, canonical_history s -> number_value s i v -> lowest_terms q ->
  exists b, equals_mpq s i q = Some b /\ (b = true <-> v = fraction_value q).
Proof.
  intros s i v q H (p & E & <-) L. destruct (canonical_invariant s H) as (_ & C & _). unfold equals_mpq. rewrite E. eexists. split; [reflexivity|].
  rewrite mpq_equal_spec. split; [intros ->; reflexivity|]. intros V. apply lowest_terms_unique; [exact L|exact (C i p E)|symmetry; exact V].
Qed.
(** What is written can be loaded and is the same object, in this process or another. *)
Theorem C113_saved_partial : forall s i v, canonical_history s -> number_value s i v -> exists text, save_rational s i = Some text /\
  load_rational s text = Returns s i /\ forall t, canonical_history t -> exists t' j, load_rational t text = Returns t' j /\ number_value t' j v.
Proof.
  intros s i v H (p & E & V). destruct (canonical_invariant s H) as (Ad & C & U). pose proof (C i p E) as L. destruct p as [n d]. destruct L as [Pd G]. cbn in Pd, G.
  destruct d as [|d|d]; [lia| |lia]. exists (save_mpq n d). unfold save_rational. rewrite E. split; [reflexivity|]. split.
  - unfold load_rational. rewrite C79_mpq. unfold rational. cbn [snd]. destruct (Z.eqb_spec (Z.pos d) 0); [lia|]. destruct (find_number (n, Z.pos d) (numbers s)) as [k|] eqn:F.
    + f_equal. apply find_number_some in F. apply (U k i (n, Z.pos d)); [apply in_number; [apply Ad|exact F]|exact E].
    + exfalso. apply (find_number_none _ _ F i). apply number_in, E.
  - intros t Ht. destruct (C113_load_partial t (save_mpq n d) (n, Z.pos d) Ht (C79_mpq n d) (conj Pd G)) as (t' & j & R & N & _). exists t', j. split; [exact R|]. rewrite V in N. exact N.
Qed.
(** The order with rational numbers is right even for fractions that are not in lowest terms. *)
Theorem C113_order : forall s i p q, number (numbers s) i = Some p -> 0 < snd p -> 0 < snd q ->
  (less_mpq s i q = Some true <-> (fraction_value p < fraction_value q)%R) /\ (greater_mpq s i q = Some true <-> (fraction_value p > fraction_value q)%R).
Proof.
  assert (K : forall p q, 0 < snd p -> 0 < snd q -> (mpq_less p q = true <-> (fraction_value p < fraction_value q)%R)).
  { intros [n d] [m e]. unfold mpq_less, fraction_value. cbn. intros Pd Pe. rewrite Z.ltb_lt. apply IZR_lt in Pd, Pe. split; intros X.
    - apply IZR_lt in X. rewrite !mult_IZR in X. apply (Rmult_lt_reg_r (IZR d * IZR e)); [nra|].
      replace (IZR n / IZR d * (IZR d * IZR e))%R with (IZR n * IZR e)%R by (field; lra). replace (IZR m / IZR e * (IZR d * IZR e))%R with (IZR m * IZR d)%R by (field; lra). exact X.
    - apply lt_IZR. rewrite !mult_IZR. apply (Rmult_lt_compat_r (IZR d * IZR e)) in X; [|nra].
      replace (IZR n / IZR d * (IZR d * IZR e))%R with (IZR n * IZR e)%R in X by (field; lra). replace (IZR m / IZR e * (IZR d * IZR e))%R with (IZR m * IZR d)%R in X by (field; lra). exact X. }
  intros s i p q E Pp Pq. unfold less_mpq, greater_mpq. rewrite E. cbn [option_map]. rewrite <- (K p q Pp Pq). unfold Rgt. rewrite <- (K q p Pq Pp). split; split; congruence.
Qed.

(** < of two objects returns and is right. *)
Theorem C113_less_partial : forall rng s i j v w, canonical_history s -> number_value s i v -> number_value s j w ->
  exists rounds0, forall rounds, (rounds0 <= rounds)%nat -> exists b, less rng rounds s i j = Some b /\ (b = true <-> (v < w)%R).
Proof.
  intros rng s i j v w H Vi Vj. pose proof (C113_equality_partial s i j v w H Vi Vj) as Eq. unfold less. destruct (same_object i j).
  - exists 0%nat. intros rounds _. exists false. split; [reflexivity|]. split; [discriminate|]. assert (v = w) by (apply Eq; reflexivity). lra.
  - destruct (canonical_invariant s H) as (_ & C & _). destruct Vi as (p & Ei & Vp), Vj as (q & Ej & Vq). rewrite Ei, Ej.
    assert (N : v <> w) by (intros E; apply Eq in E; discriminate).
    assert (Q : forall r, lowest_terms r -> Q2R (Qmake (fst r) (Z.to_pos (snd r))) = fraction_value r).
    { intros r [P _]. unfold Q2R, fraction_value. cbn [Qnum Qden]. rewrite Z2Pos.id by exact P. reflexivity. }
    pose proof (Q p (C i p Ei)) as Qp. pose proof (Q q (C j q Ej)) as Qq. fold (as_real p) (as_real q).
    destruct (C11_lt_terminates rng (as_real p) (as_real q) v w) as (i0 & f0 & r & T).
    { exact Logic.I. } { exact Logic.I. } { unfold as_real; cbn [num_value]; congruence. } { unfold as_real; cbn [num_value]; congruence. } { exact N. }
    exists i0. intros rounds L. exists r. specialize (T rounds f0 L (le_n f0)).
    assert (R : (r = true <-> (v < w)%R)). { pose proof (C11_rationals_right _ _ _ _ _ _ T) as X. rewrite Qp, Qq, Vp, Vq in X. exact X. }
    split; [|exact R]. unfold num_lt in T. assert (X : rnum_eqb (as_real p) (as_real q) = false).
    { cbn [rnum_eqb as_real]. destruct (Qeq_bool _ _) eqn:E; [|reflexivity]. apply Qeq_bool_iff, Qeq_eqR in E. congruence. }
    rewrite X in T. rewrite <- T. apply rational_loop_fuel.
Qed.

(** ** What does not hold *)
(** A fraction is a second object for its number whenever it is not written as the first one: they are not
    equal, and comparing them never returns. *)
Lemma same_value_never rng p q : 0 < snd p -> 0 < snd q -> fraction_value p = fraction_value q ->
  never (fun rounds => num_lt_loop rng rounds 0 (as_real p) (as_real q) arb_zero_pm_inf arb_zero_pm_inf 2).
Proof.
  intros Pp Pq V rounds. destruct (num_lt_loop _ _ _ _ _ _ _ _) as [r|] eqn:E; [|reflexivity]. exfalso.
  apply num_lt_loop_result in E; [|lia|apply stale_inf; lia|apply stale_inf; lia]. destruct E as (k & a & b & Hk & Ea & Eb & O).
  assert (A : arf2R a = arf2R b).
  { unfold as_real, num_arf in Ea, Eb. destruct (k <? 1); injection Ea as <-; injection Eb as <-; unfold arf_rational; cbn [Qnum Qden].
    all: rewrite !round_q_spec by (try lia; match goal with |- 0 < (if ?c then _ else _) => destruct c eqn:?; lia end).
    all: f_equal; rewrite !Z2Pos.id by assumption; unfold fraction_value in V; rewrite V; reflexivity. }
  assert (P : forall m z, (0 < ball_rad m z)%R) by (intros; apply bpow_gt_0).
  destruct (op_lt_refine a b k k) as (O1 & O2 & _). pose proof (P a k). pose proof (P b k). destruct r; [specialize (O1 O)|specialize (O2 O)]; lra.
Qed.
Theorem C113_same_number_refuted : forall rng s p q s1 s2 i j, addresses s -> p <> q -> 0 < snd p -> 0 < snd q -> fraction_value p = fraction_value q ->
  rational s p = Returns s1 i -> rational s1 q = Returns s2 j ->
  number_value s2 i (fraction_value p) /\ number_value s2 j (fraction_value p) /\ same_object i j = false /\ equals_mpq s2 i q = Some false /\ equals_mpq s2 j p = Some false /\
  never (fun rounds => less rng rounds s2 i j) /\ never (fun rounds => less rng rounds s2 j i).
Proof.
  intros rng s p q s1 s2 i j Ad Npq Pp Pq V R1 R2. destruct (rational_cases s p s1 i Ad R1) as (Ad1 & N1 & _ & _). destruct (rational_cases s1 q s2 j Ad1 R2) as (Ad2 & N2 & K2 & _).
  pose proof (K2 i p N1) as Ni. assert (D : same_object i j = false). { unfold same_object. apply Nat.eqb_neq. intros ->. congruence. }
  assert (D' : same_object j i = false) by (unfold same_object in *; rewrite Nat.eqb_sym; exact D).
  assert (F : forall x y, x <> y -> mpq_equal x y = false). { intros x y H. destruct (mpq_equal x y) eqn:E; [|reflexivity]. apply mpq_equal_spec in E. contradiction. }
  split; [exists p; auto|]. split; [exists q; auto|]. split; [exact D|]. split; [unfold equals_mpq; rewrite Ni; cbn; rewrite F by congruence; reflexivity|].
  split; [unfold equals_mpq; rewrite N2; cbn; rewrite F by congruence; reflexivity|]. split; intros rounds; unfold less.
  - rewrite D, Ni, N2. apply (same_value_never rng p q Pp Pq V).
  - rewrite D', Ni, N2. apply (same_value_never rng q p Pq Pp). symmetry. exact V.
Qed.
(** Such an archive exists: "2/4" in a process with the number 1/2. *)
Theorem C113_archive_refuted : exists s s' i j, canonical_history s /\ number (numbers s) i = Some (1, 2) /\ load_rational s "2/4" = Returns s' j /\
  number_value s' i (/ 2) /\ number_value s' j (/ 2) /\ same_object i j = false /\ equals_mpq s' j (1, 2) = Some false /\
  forall rng, never (fun rounds => less rng rounds s' i j).
Proof.
  assert (L : lowest_terms (1, 2)) by (split; [reflexivity|reflexivity]).
  destruct (rational new_process (1, 2)) as [| |s1 i] eqn:E1; try discriminate.
  assert (E2 : exists s2 j, rational s1 (2, 4) = Returns s2 j) by (cbn in E1; injection E1 as <- <-; cbn; eauto). destruct E2 as (s2 & j & E2).
  assert (V : fraction_value (1, 2) = fraction_value (2, 4)) by (unfold fraction_value; cbn; lra).
  assert (Ad : addresses new_process) by (split; [constructor|intros ? ? []]).
  assert (C := fun rng => C113_same_number_refuted rng new_process (1, 2) (2, 4) s1 s2 i j Ad ltac:(discriminate) eq_refl eq_refl V E1 E2).
  assert (H : fraction_value (1, 2) = (/ 2)%R) by (unfold fraction_value; cbn; lra). rewrite H in C.
  exists s1, s2, i, j. split; [exact (create_number _ _ _ _ start_process L E1)|]. split; [cbn in E1; injection E1 as <- <-; reflexivity|]. split; [exact E2|].
  destruct (C (fun _ _ => false)) as (C1 & C2 & C3 & _ & C5 & _). repeat (split; [assumption|]). intros rng. destruct (C rng) as (_ & _ & _ & _ & _ & C6 & _). exact C6.
Qed.
(** A denominator 0 does not throw but is a division by zero. *)
Theorem C113_zero_denominator_refuted : forall s, load_rational s "1/0" = Crashes.
Proof. reflexivity. Qed.

(** ** Example: 1/2 is created, saved and loaded again; -3/4 is loaded; text that is not a fraction throws *)
Example C113_example : exists s t i j, rational new_process (1, 2) = Returns s i /\ load_rational s "-3/4" = Returns t j /\ canonical_history t /\
  save_rational t i = Some "1/2"%string /\ load_rational t "1/2" = Returns t i /\ load_rational t "0x3/6" = load_rational t "3/6" /\ number_value t j (- 3 / 4) /\ same_object i j = false /\
  less_mpq t j (1, 2) = Some true /\ load_rational t "1/" = Throws /\ load_rational t "half" = Throws.
Proof.
  exists (mkProcess [(0%nat, (1, 2))] 1), (mkProcess [(1%nat, (-3, 4)); (0%nat, (1, 2))] 2), 0%nat, 1%nat. split; [reflexivity|]. split; [reflexivity|]. split.
  { assert (L : forall n d : Z, 0 < d -> Z.gcd n d = 1 -> lowest_terms (n, d)) by (intros n d P G; exact (conj P G)).
    eapply load_number with (text := "-3/4"%string) (q := (-3, 4)) (s := mkProcess [(0%nat, (1, 2))] 1); [|reflexivity|apply L; reflexivity|reflexivity].
    eapply create_number with (q := (1, 2)) (s := new_process); [exact start_process|apply L; reflexivity|reflexivity]. }
  split; [reflexivity|]. split; [reflexivity|]. split; [reflexivity|]. split; [|repeat split; reflexivity]. exists (-3, 4). split; [reflexivity|]. unfold fraction_value. cbn. lra.
Qed.
