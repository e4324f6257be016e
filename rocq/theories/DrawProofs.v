(** Proofs about the number of random digits drawn. *)
From Coq Require Import ZArith QArith Bool List Reals Lra Lia.
From Flocq Require Import Core.
From Verif Require Import Arf Arb Real SpecArf SpecReal ArfProofs ArbProofs RealProofs RealProofs2 RealProofs3 RealProofs4 RealProofs5 RealProofs6 RealProofs7 SpecCost SpecDraw.
Import ListNotations.
Open Scope Z_scope.

Lemma leading_zeros_exists s : nonzero_stream s -> exists z, leading_zeros s z.
Proof. exact (first_one s). Qed.
Lemma leading_zeros_unique s z z' : leading_zeros s z -> leading_zeros s z' -> z = z'.
Proof.
  intros [A B] [A' B']. destruct (Nat.lt_trichotomy z z') as [H|[H|H]]; [|exact H|].
  - rewrite (B' z H) in A. discriminate.
  - rewrite (B z' H) in A'. discriminate.
Qed.

(** Only the digits below the fuel are looked at. *)
Lemma random_loop_local s s' N necessary : (forall i, (i < N)%nat -> s' i = s i) -> forall fuel i digits mant expo, (i + fuel <= N)%nat ->
  random_loop fuel s' i digits mant expo necessary = random_loop fuel s i digits mant expo necessary.
Proof.
  intros H. induction fuel as [|fuel IH]; intros i digits mant expo Hi; [reflexivity|]. cbn [random_loop]. rewrite H by lia.
  destruct (necessary <=? digits); [reflexivity|]. destruct ((digits =? 0) && negb (s i)); apply IH; lia.
Qed.
(** Exactly how much fuel is needed. *)
Lemma random_loop_short s necessary : forall fuel i digits mant expo, 0 < digits ->
  Z.of_nat fuel < necessary - digits -> random_loop fuel s i digits mant expo necessary = None.
Proof.
  induction fuel as [|fuel IH]; intros i digits mant expo Hd Hf; cbn [random_loop]; (destruct (Z.leb_spec necessary digits); [lia|]); [reflexivity|].
  destruct (Z.eqb_spec digits 0); [lia|]. cbn [andb]. apply IH; lia.
Qed.
Lemma random_loop_short0 s z necessary : leading_zeros s z -> 0 < necessary -> forall fuel i expo, (i <= z)%nat ->
  Z.of_nat i + Z.of_nat fuel < Z.of_nat z + necessary -> random_loop fuel s i 0 0 expo necessary = None.
Proof.
  intros [A B] Hn. induction fuel as [|fuel IH]; intros i expo Hi Hf; cbn [random_loop]; (destruct (Z.leb_spec necessary 0); [lia|]); [reflexivity|].
  change (0 =? 0) with true. cbn [andb]. destruct (Nat.eq_dec i z) as [->|Ne].
  - rewrite A. cbn [negb]. apply random_loop_short; lia.
  - rewrite (B i) by lia. cbn [negb]. apply IH; lia.
Qed.
Lemma random_exact rng seed z prec fuel : leading_zeros (rng seed) z ->
  arf_random rng fuel seed prec <> None <-> (z + Z.to_nat (clamp prec + 1) <= fuel)%nat.
Proof.
  intros Lz. pose proof (clamp_nonneg prec) as Hc. split.
  - intros H. destruct (Nat.le_gt_cases (z + Z.to_nat (clamp prec + 1)) fuel) as [C|C]; [exact C|]. exfalso. apply H.
    unfold arf_random. fold (clamp prec). apply (random_loop_short0 _ z); [exact Lz|lia|lia|lia].
  - intros H. destruct Lz as [A B]. rewrite (arf_random_eq rng seed z prec fuel A B H). discriminate.
Qed.

Lemma atom_exact rng a prec n fuel : 0 <= prec -> draws rng a prec n -> arf_atom rng fuel a prec <> None <-> (n <= fuel)%nat.
Proof.
  intros Hp. unfold draws. destruct a as [seed|initial e seed]; cbn [known_digits seed_of arf_atom].
  - destruct (Z.leb_spec (prec + 1) 0); [lia|]. intros (z & Lz & ->). rewrite (random_exact rng seed z prec fuel Lz), clamp_nn by exact Hp. rewrite Z.sub_0_r. reflexivity.
  - unfold arf_constr. fold (clamp prec). rewrite clamp_nn by exact Hp. destruct (Z.leb_spec (prec + 1) (arf_bits initial)) as [C|C].
    + intros ->. destruct (Z.ltb_spec 0 (prec + 1 - arf_bits initial)); [lia|]. cbn [option_map]. split; [intros; lia|discriminate].
    + intros (z & Lz & ->). destruct (Z.ltb_spec 0 (prec + 1 - arf_bits initial)); [|lia].
      pose proof (random_exact rng seed z (prec + 1 - arf_bits initial - 1) fuel Lz) as E. rewrite clamp_nn in E by lia.
      replace (prec + 1 - arf_bits initial - 1 + 1) with (prec + 1 - arf_bits initial) in E by lia. rewrite <- E.
      destruct (arf_random rng fuel seed (prec + 1 - arf_bits initial - 1)); cbn [option_map]; split; congruence.
Qed.
Lemma draws_exists rng a prec : atom_ok rng a -> exists n, draws rng a prec n.
Proof.
  intros H. assert (N : nonzero_stream (rng (seed_of a))) by (destruct a; [exact H|exact (proj1 H)]).
  unfold draws. destruct (prec + 1 <=? known_digits a); [exists 0%nat; reflexivity|].
  destruct (leading_zeros_exists _ N) as [z Lz]. eexists. exists z. split; [exact Lz|reflexivity].
Qed.
Lemma draws_mono rng a p p' n n' : p <= p' -> draws rng a p n -> draws rng a p' n' -> (n <= n')%nat.
Proof.
  intros Hp. unfold draws. destruct (Z.leb_spec (p + 1) (known_digits a)) as [C|C].
  - intros -> _. lia.
  - destruct (Z.leb_spec (p' + 1) (known_digits a)); [lia|]. intros (z & Lz & ->) (z' & Lz' & ->). rewrite (leading_zeros_unique _ _ _ Lz Lz'). lia.
Qed.

Lemma mul_factors_exact rng wp fuel fs : forall ret,
  mul_factors rng fuel wp fs ret <> None <-> forall a, In a fs -> arf_atom rng fuel a wp <> None.
Proof.
  induction fs as [|a fs IH]; intros ret; cbn [mul_factors].
  - split; [intros _ a []|discriminate].
  - destruct (arf_atom rng fuel a wp) as [f|] eqn:E.
    + rewrite IH. split; intros H b Hb; [destruct Hb as [<-|Hb]; [congruence|exact (H b Hb)]|apply H; right; exact Hb].
    + split; [congruence|]. intros H. exfalso. exact (H a (or_introl eq_refl) E).
Qed.
Lemma length_factors ms : length (factors ms) = list_sum (map snd ms).
Proof.
  unfold factors. induction ms as [|[a k] ms IH]; [reflexivity|]. cbn [flat_map map snd list_sum fold_right]. rewrite app_length, repeat_length, IH. reflexivity.
Qed.
Lemma in_factors ms a : (forall a k, In (a, k) ms -> (0 < k)%nat) -> In a (factors ms) <-> In a (map fst ms).
Proof.
  intros Hk. unfold factors. rewrite in_flat_map, in_map_iff. split.
  - intros ([b k] & I1 & I2). apply repeat_spec in I2. subst b. exists (a, k). split; [reflexivity|exact I1].
  - intros ([b k] & E & I1). cbn in E. subst b. exists (a, k). split; [exact I1|]. pose proof (Hk a k I1). destruct k; [lia|]. left. reflexivity.
Qed.
Lemma working_prec_eq ms prec : working_prec (Z.of_nat (length (factors ms))) prec = needed_precision (RProd ms) prec.
Proof. unfold working_prec. cbn [needed_precision]. rewrite length_factors. f_equal. f_equal. lia. Qed.
Lemma needed_nonneg x prec : 0 <= prec -> 0 <= needed_precision x prec.
Proof. intros H. destruct x; cbn [needed_precision]; try exact H. pose proof (Z.log2_up_nonneg (3 * Z.of_nat (list_sum (map snd ms)))). lia. Qed.
Lemma needed_mono x p p' : p <= p' -> needed_precision x p <= needed_precision x p'.
Proof. destruct x; cbn [needed_precision]; lia. Qed.

Lemma atoms_exact rng x prec fuel l : (forall a, In a l <-> In a (atoms x)) -> 0 <= prec -> (forall a, In a (atoms x) -> atom_ok rng a) ->
  (forall a, In a l -> arf_atom rng fuel a (needed_precision x prec) <> None) <-> draws_at_most rng x prec fuel.
Proof.
  intros Hl Hp Hok. unfold draws_at_most. split; intros H a Ha.
  - destruct (draws_exists rng a (needed_precision x prec) (Hok a Ha)) as [n Hn]. exists n. split; [exact Hn|].
    apply (atom_exact rng a (needed_precision x prec)); [apply needed_nonneg, Hp|exact Hn|]. apply H, Hl, Ha.
  - destruct (H a (proj1 (Hl a) Ha)) as (n & Hn & Le). apply (atom_exact rng a (needed_precision x prec) n); [apply needed_nonneg, Hp|exact Hn|exact Le].
Qed.
Lemma atoms_ok rng x : num_ok rng x -> forall a, In a (atoms x) -> atom_ok rng a.
Proof.
  destruct x as [q|a|ms]; cbn [num_ok atoms].
  - intros _ a [].
  - intros H b [<-|[]]. exact H.
  - intros [_ H] a Ha. apply in_map_iff in Ha as ([b k] & E & I1). cbn in E. subst b. exact (proj1 (H a k I1)).
Qed.
Lemma num_exact rng x prec fuel : num_ok rng x -> 0 <= prec -> num_arf rng fuel x prec <> None <-> draws_at_most rng x prec fuel.
Proof.
  intros Hok Hp. pose proof (atoms_ok rng x Hok) as Ha. unfold num_arf. fold (clamp prec). rewrite clamp_nn by exact Hp. destruct x as [q|a|ms].
  - split; [intros _ a []|discriminate].
  - rewrite <- (atoms_exact rng (RAtom a) prec fuel [a]); [|reflexivity|exact Hp|exact Ha]. cbn [needed_precision]. split; [intros H b [<-|[]]; exact H|intros H; apply H; left; reflexivity].
  - unfold arf_prod. rewrite working_prec_eq. rewrite <- (atoms_exact rng (RProd ms) prec fuel (factors ms)); [|intros a; apply in_factors; intros b k I1; exact (proj2 (proj2 Hok b k I1))|exact Hp|exact Ha].
    rewrite <- (mul_factors_exact rng _ fuel (factors ms) (arf_of_Z 1)). destruct (mul_factors rng fuel (needed_precision (RProd ms) prec) (factors ms) (arf_of_Z 1)); cbn [option_map]; split; congruence.
Qed.
Lemma draws_at_most_mono rng x p p' N : num_ok rng x -> p <= p' -> draws_at_most rng x p' N -> draws_at_most rng x p N.
Proof.
  intros Hok Hp H a Ha. destruct (H a Ha) as (n' & D' & Le). destruct (draws_exists rng a (needed_precision x p) (atoms_ok rng x Hok a Ha)) as [n D].
  exists n. split; [exact D|]. pose proof (draws_mono rng a _ _ n n' (needed_mono x p p' Hp) D D'). lia.
Qed.

(** Locality. *)
Lemma atom_local rng rng' a N prec : (forall i, (i < N)%nat -> rng' (seed_of a) i = rng (seed_of a) i) -> arf_atom rng' N a prec = arf_atom rng N a prec.
Proof.
  intros H. destruct a as [seed|initial e seed]; cbn [arf_atom seed_of] in *.
  - unfold arf_random. apply (random_loop_local _ _ N); [exact H|lia].
  - unfold arf_constr, arf_random. rewrite (random_loop_local (rng seed) (rng' seed) N) by (exact H || lia). reflexivity.
Qed.
Lemma mul_factors_local rng rng' N wp fs : (forall a, In a fs -> forall i, (i < N)%nat -> rng' (seed_of a) i = rng (seed_of a) i) ->
  forall ret, mul_factors rng' N wp fs ret = mul_factors rng N wp fs ret.
Proof.
  intros H. induction fs as [|a fs IH]; intros ret; cbn [mul_factors]; [reflexivity|].
  rewrite (atom_local rng rng' a N wp) by (apply H; left; reflexivity). destruct (arf_atom rng N a wp); [|reflexivity]. apply IH. intros b Hb. apply H. right. exact Hb.
Qed.
Lemma num_local rng rng' x N prec : same_digits N x rng rng' -> num_arf rng' N x prec = num_arf rng N x prec.
Proof.
  intros H. unfold num_arf. destruct x as [q|a|ms]; [reflexivity|apply atom_local; apply H; left; reflexivity|].
  unfold arf_prod. rewrite (mul_factors_local rng rng'); [reflexivity|]. intros a Ha. apply H. cbn [atoms].
  unfold factors in Ha. apply in_flat_map in Ha as ([b k] & I1 & I2). apply repeat_spec in I2. subst b. apply in_map_iff. exists (a, k). split; [reflexivity|exact I1].
Qed.
Lemma num_settled rng x prec N : num_ok rng x -> 0 <= prec -> draws_at_most rng x prec N ->
  exists a, forall rng' fuel, same_digits N x rng rng' -> (N <= fuel)%nat -> num_arf rng' fuel x prec = Some a.
Proof.
  intros Hok Hp H. apply (num_exact rng x prec N Hok Hp) in H. destruct (num_arf rng N x prec) as [a|] eqn:E; [|congruence].
  exists a. intros rng' fuel Hs Hf. apply (num_arf_fuel rng' x prec N); [exact Hf|]. rewrite (num_local rng rng'); assumption.
Qed.

(** The digits are used: another last digit gives another result. *)
Definition flip (rng : Z -> nat -> bool) (seed : Z) (k : nat) : Z -> nat -> bool :=
  fun s i => if (s =? seed)%Z && Nat.eqb i k then negb (rng s i) else rng s i.
Lemma prefix_flip s k s' : s' k = negb (s k) -> (forall i, (i < k)%nat -> s' i = s i) -> prefix s' (S k) <> prefix s (S k).
Proof.
  intros H1 H0. assert (E : forall n, (n <= k)%nat -> prefix s' n = prefix s n).
  { induction n as [|n IH]; intros Hn; [reflexivity|]. cbn [prefix]. rewrite IH, H0 by lia. reflexivity. }
  cbn [prefix]. rewrite E by lia. rewrite H1. destruct (s k); cbn [negb]; lia.
Qed.

(** Comparisons. *)
Lemma near_bounds_nonzero p m v : (2 <= p)%Z -> v <> 0%R -> near 4 p m v ->
  (Rabs (v - arf2R m) + ball_rad m p <= 5 * Rabs v * bpow radix2 (- p))%R.
Proof.
  intros Hp V0 Hn. destruct (near4_size p m v Hp Hn) as (Hs & _). destruct Hn as [[H _]|[Hm H]]; [contradiction|].
  pose proof (ball_rad_mid m p Hm) as Hr.
  assert (E : bpow radix2 (- p) = (2 * bpow radix2 (-1 - p))%R).
  { replace (- p)%Z with (1 + (-1 - p))%Z by lia. rewrite bpow_plus. reflexivity. }
  pose proof (bpow2_pos (-1 - p)) as Hb. rewrite E.
  assert (Rabs (arf2R m) * bpow radix2 (-1 - p) <= 2 * Rabs v * bpow radix2 (-1 - p))%R by (apply Rmult_le_compat_r; lra).
  lra.
Qed.
Lemma small_enough u d D p : (0 < d)%R -> (0 <= u)%R -> (u <= bpow radix2 D * d)%R -> (D + 4 <= p)%Z -> (10 * u * bpow radix2 (- p) < d)%R.
Proof.
  intros Hd Hu H Hp. pose proof (bpow2_pos (- p)) as Hb.
  assert (E : (bpow radix2 D * bpow radix2 (- p) <= / 16)%R).
  { rewrite <- bpow_plus. apply Rle_trans with (bpow radix2 (-4)); [apply bpow_le; lia|]. simpl. lra. }
  assert (u * bpow radix2 (- p) <= bpow radix2 D * d * bpow radix2 (- p))%R by (apply Rmult_le_compat_r; lra).
  assert (d * (bpow radix2 D * bpow radix2 (- p)) <= d * / 16)%R by (apply Rmult_le_compat_l; lra).
  lra.
Qed.

Section Compare.
  Variables (rng : Z -> nat -> bool) (x : rnum) (v : R) (D : Z) (N : nat) (M : Z).
  Hypotheses (Hx : num_ok rng x) (Hv : num_value rng x v) (V0 : v <> 0%R) (HN : draws_at_most rng x M N).

  Lemma settled_below p : (0 <= p <= M)%Z -> exists a, forall rng' fuel, same_digits N x rng rng' -> (N <= fuel)%nat -> num_arf rng' fuel x p = Some a.
  Proof. intros Hp. apply num_settled; [exact Hx|lia|]. apply (draws_at_most_mono rng x p M N Hx); [lia|exact HN]. Qed.
  Lemma near_below p a : (2 <= p)%Z -> (forall rng' fuel, same_digits N x rng rng' -> (N <= fuel)%nat -> num_arf rng' fuel x p = Some a) ->
    (Rabs (v - arf2R a) + ball_rad a p <= 5 * Rabs v * bpow radix2 (- p))%R.
  Proof.
    intros Hp H. apply near_bounds_nonzero; [exact Hp|exact V0|]. apply (num_near4 rng x v N p a Hx Hv); [lia|]. apply H; [intros b _ i _; reflexivity|lia].
  Qed.

  Lemma lt_arf_settled w : (2 <= M)%Z -> (2 * (D + 4) <= M)%Z -> v <> arf2R w -> (Rabs v <= bpow radix2 D * Rabs (v - arf2R w))%R -> forall n p0 (stl : (Z -> nat -> bool) -> nat -> arb), (2 <= p0 <= M)%Z -> (D + 4 <= p0 * 2 ^ Z.of_nat n)%Z ->
    (forall rng' fuel, same_digits N x rng rng' -> (N <= fuel)%nat -> stale (stl rng' fuel) p0) ->
    exists t, forall rng' fuel, same_digits N x rng rng' -> (N <= fuel)%nat -> num_lt_arf_loop rng' (S n) fuel x w (stl rng' fuel) p0 = Some t.
  Proof.
    intros HM2 HM Ne HD. assert (Hd : (0 < Rabs (v - arf2R w))%R) by (apply Rabs_pos_lt; lra).
    induction n as [|n IH]; intros p0 stl H0 Hn Hst; destruct (settled_below p0 ltac:(lia)) as [a Ha];
      pose proof (near_below p0 a ltac:(lia) Ha) as Bn; pose proof (ball_rad_pos a p0) as Bp; pose proof (Rabs_pos v) as Pv; pose proof (Rabs_pos (v - arf2R a)) as Pva; pose proof (bpow2_pos (- p0)) as Pb;
      assert (Dec : (D + 4 <= p0)%Z -> op_lt (refine_ball a p0) (arb_of_arf w) <> None).
    1, 3: intros C E; destruct (op_lt_refine_arf a w p0) as (_ & _ & F); specialize (F E); pose proof (small_enough (Rabs v) (Rabs (v - arf2R w)) D p0 Hd Pv HD C) as Sm;
      assert (0 <= Rabs v * bpow radix2 (- p0))%R by (apply Rmult_le_pos; lra);
      pose proof (Rabs_triang (v - arf2R a) (arf2R a - arf2R w)) as T1; replace (v - arf2R a + (arf2R a - arf2R w))%R with (v - arf2R w)%R in T1 by ring;
      assert (Rabs (arf2R a - arf2R w) <= ball_rad a p0)%R by (apply Rabs_le; lra); lra.
    - change (2 ^ Z.of_nat 0)%Z with 1%Z in Hn. destruct (op_lt (refine_ball a p0) (arb_of_arf w)) as [t|] eqn:E; [|exfalso; apply Dec; [lia|reflexivity]].
      exists t. intros rng' fuel Hs Hf. cbn [num_lt_arf_loop]. rewrite num_refine_stale by (apply Hst; assumption). rewrite (Ha rng' fuel Hs Hf). cbn [option_map]. rewrite E. reflexivity.
    - destruct (op_lt (refine_ball a p0) (arb_of_arf w)) as [t|] eqn:E.
      + exists t. intros rng' fuel Hs Hf. remember (S n) as m. cbn [num_lt_arf_loop]. rewrite num_refine_stale by (apply Hst; assumption). rewrite (Ha rng' fuel Hs Hf). cbn [option_map]. rewrite E. reflexivity.
      + assert (C : (p0 < D + 4)%Z) by (apply Z.nle_gt; intros C; exact (Dec C eq_refl)).
        destruct (IH (p0 * 2)%Z (fun _ _ => refine_ball a p0)) as [t Ht]; [lia|rewrite Nat2Z.inj_succ, Z.pow_succ_r in Hn by lia; lia|intros _ _ _ _; apply stale_refine; lia|].
        exists t. intros rng' fuel Hs Hf. remember (S n) as m. cbn [num_lt_arf_loop]. rewrite num_refine_stale by (apply Hst; assumption). rewrite (Ha rng' fuel Hs Hf). cbn [option_map]. rewrite E. apply Ht; assumption.
  Qed.

  Lemma cmpq_settled (op : arb -> Z -> Z -> option bool) q : (2 * (D + 4) <= M)%Z ->
    (forall p a, (2 <= p)%Z -> (D + 4 <= p)%Z -> (Rabs (v - arf2R a) + ball_rad a p <= 5 * Rabs v * bpow radix2 (- p))%R -> op (refine_ball a p) (Qnum q) (Zpos (Qden q)) <> None) ->
    forall n p0, (2 <= p0 <= M)%Z -> (D + 4 <= p0 * 2 ^ Z.of_nat n)%Z ->
    exists t, forall rng' fuel, same_digits N x rng rng' -> (N <= fuel)%nat -> num_cmpq_loop rng' op (S n) fuel x q p0 = Some t.
  Proof.
    intros HM Dec. induction n as [|n IH]; intros p0 H0 Hn; destruct (settled_below p0 ltac:(lia)) as [a Ha];
      pose proof (near_below p0 a ltac:(lia) Ha) as Bn.
    - change (2 ^ Z.of_nat 0)%Z with 1%Z in Hn. destruct (op (refine_ball a p0) (Qnum q) (Zpos (Qden q))) as [t|] eqn:E; [|exfalso; exact (Dec p0 a ltac:(lia) ltac:(lia) Bn E)].
      exists t. intros rng' fuel Hs Hf. cbn [num_cmpq_loop]. rewrite num_arb_eq by lia. rewrite (Ha rng' fuel Hs Hf). cbn [option_map]. rewrite E. reflexivity.
    - destruct (op (refine_ball a p0) (Qnum q) (Zpos (Qden q))) as [t|] eqn:E.
      + exists t. intros rng' fuel Hs Hf. remember (S n) as m. cbn [num_cmpq_loop]. rewrite num_arb_eq by lia. rewrite (Ha rng' fuel Hs Hf). cbn [option_map]. rewrite E. reflexivity.
      + assert (C : (p0 < D + 4)%Z) by (apply Z.nle_gt; intros C; exact (Dec p0 a ltac:(lia) C Bn E)).
        destruct (IH (p0 * 2)%Z) as [t Ht]; [lia|rewrite Nat2Z.inj_succ, Z.pow_succ_r in Hn by lia; lia|].
        exists t. intros rng' fuel Hs Hf. remember (S n) as m. cbn [num_cmpq_loop]. rewrite num_arb_eq by lia. rewrite (Ha rng' fuel Hs Hf). cbn [option_map]. rewrite E. apply Ht; assumption.
  Qed.
End Compare.

Section Compare2.
  Variables (rng : Z -> nat -> bool) (x y : rnum) (v w : R) (D : Z) (N : nat) (M : Z).
  Hypotheses (Hx : num_ok rng x) (Hy : num_ok rng y) (Hv : num_value rng x v) (Hw : num_value rng y w) (V0 : v <> 0%R) (W0 : w <> 0%R) (Ne : v <> w) (HD : common_digits v w D)
    (HNx : draws_at_most rng x M N) (HNy : draws_at_most rng y M N) (HM : (2 * (D + 4) <= M)%Z).
  Lemma lt_settled : forall n p0 self other, (2 <= p0 <= M)%Z -> (D + 4 <= p0 * 2 ^ Z.of_nat n)%Z -> stale self p0 -> stale other p0 ->
    exists t, forall rng' fuel, same_digits N x rng rng' -> same_digits N y rng rng' -> (N <= fuel)%nat -> num_lt_loop rng' (S n) fuel x y self other p0 = Some t.
  Proof.
    assert (Hd : (0 < Rabs (v - w))%R) by (apply Rabs_pos_lt; lra).
    induction n as [|n IH]; intros p0 self other H0 Hn S1 S2; destruct (settled_below rng x N M Hx HNx p0 ltac:(lia)) as [a Ha]; destruct (settled_below rng y N M Hy HNy p0 ltac:(lia)) as [b Hb];
      pose proof (near_below rng x v N Hx Hv V0 p0 a ltac:(lia) Ha) as Bn; pose proof (near_below rng y w N Hy Hw W0 p0 b ltac:(lia) Hb) as Bm;
      pose proof (ball_rad_pos a p0) as Bp; pose proof (ball_rad_pos b p0) as Bq; pose proof (Rabs_pos v) as Pv; pose proof (Rabs_pos w) as Pw; pose proof (bpow2_pos (- p0)) as Pb;
      assert (Dec : (D + 4 <= p0)%Z -> op_lt (refine_ball a p0) (refine_ball b p0) <> None).
    1, 3: intros C E; destruct (op_lt_refine a b p0 p0) as (_ & _ & F); specialize (F E); pose proof (small_enough (Rabs v + Rabs w) (Rabs (v - w)) D p0 Hd ltac:(lra) HD C) as Sm;
      assert (0 <= Rabs v * bpow radix2 (- p0))%R by (apply Rmult_le_pos; lra); assert (0 <= Rabs w * bpow radix2 (- p0))%R by (apply Rmult_le_pos; lra);
      pose proof (Rabs_triang (v - arf2R a) (arf2R a - w)) as T1; replace (v - arf2R a + (arf2R a - w))%R with (v - w)%R in T1 by ring;
      pose proof (Rabs_triang (arf2R a - arf2R b) (arf2R b - w)) as T2; replace (arf2R a - arf2R b + (arf2R b - w))%R with (arf2R a - w)%R in T2 by ring;
      rewrite (Rabs_minus_sym (arf2R b) w) in T2;
      assert (Rabs (arf2R a - arf2R b) <= ball_rad a p0 + ball_rad b p0)%R by (apply Rabs_le; lra); lra.
    - change (2 ^ Z.of_nat 0)%Z with 1%Z in Hn. destruct (op_lt (refine_ball a p0) (refine_ball b p0)) as [t|] eqn:E; [|exfalso; apply Dec; [lia|reflexivity]].
      exists t. intros rng' fuel Hs Hs' Hf. cbn [num_lt_loop]. rewrite !num_refine_stale by assumption. rewrite (Ha rng' fuel Hs Hf), (Hb rng' fuel Hs' Hf). cbn [option_map]. rewrite E. reflexivity.
    - destruct (op_lt (refine_ball a p0) (refine_ball b p0)) as [t|] eqn:E.
      + exists t. intros rng' fuel Hs Hs' Hf. remember (S n) as m. cbn [num_lt_loop]. rewrite !num_refine_stale by assumption. rewrite (Ha rng' fuel Hs Hf), (Hb rng' fuel Hs' Hf). cbn [option_map]. rewrite E. reflexivity.
      + assert (C : (p0 < D + 4)%Z) by (apply Z.nle_gt; intros C; exact (Dec C eq_refl)).
        destruct (IH (p0 * 2)%Z (refine_ball a p0) (refine_ball b p0)) as [t Ht]; [lia|rewrite Nat2Z.inj_succ, Z.pow_succ_r in Hn by lia; lia|apply stale_refine; lia..|].
        exists t. intros rng' fuel Hs Hs' Hf. remember (S n) as m. cbn [num_lt_loop]. rewrite !num_refine_stale by assumption. rewrite (Ha rng' fuel Hs Hf), (Hb rng' fuel Hs' Hf). cbn [option_map]. rewrite E. apply Ht; assumption.
  Qed.
End Compare2.
