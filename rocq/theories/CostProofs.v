(** The precision at which the loops of elements stop. *)
From Coq Require Import ZArith QArith Qcanon Bool List Reals Qreals Lia Lra Psatz.
From Flocq Require Import Core.
From Verif Require Import Arf Arb Real SpecArf SpecReal ArfProofs ArbProofs Gen SpecGen GenProofs Ring SpecRing Module Element SpecModule ModuleProofs ElementProofs ElementProofs2 Loops SpecLoops Near Near2
  LoopsProofs LoopsProofs2 LoopsProofs3 Balls SpecCost.
Import ListNotations.
Open Scope R_scope.

(** * Loops *)
Lemma pow2_le n m : (n <= m)%nat -> (2 ^ Z.of_nat n <= 2 ^ Z.of_nat m)%Z.
Proof. intros H. apply Z.pow_le_mono_r; lia. Qed.
Lemma search_cost {T} (test test' : Z -> option (option T)) M Q :
  forall n p0, (1 <= p0 <= M)%Z -> (2 * Q <= M)%Z -> (Q <= p0 * 2 ^ Z.of_nat n)%Z ->
  (forall p, (p0 <= p <= M)%Z -> exists r, test p = Some r /\ test' p = Some r /\ ((Q <= p)%Z -> r <> None)) ->
  exists t, search (S n) test p0 = Some t /\ search (S n) test' p0 = Some t.
Proof.
  induction n as [|n IH]; intros p0 H0 HM HQ HR; destruct (HR p0 ltac:(lia)) as (r & E & E' & D).
  - change (2 ^ Z.of_nat 0)%Z with 1%Z in HQ. destruct r as [t|]; [|exfalso; apply D; [lia|reflexivity]]. exists t. cbn [search]. rewrite E, E'. split; reflexivity.
  - destruct r as [t|].
    + exists t. remember (S n) as m. cbn [search]. rewrite E, E'. split; reflexivity.
    + assert (N : (p0 < Q)%Z) by (apply Z.nle_gt; intros L; exact (D L eq_refl)).
      destruct (IH (p0 * 2)%Z) as (t & E1 & E2); [lia|lia| |intros p Hp; apply HR; lia|].
      * rewrite Nat2Z.inj_succ, Z.pow_succ_r in HQ by lia. lia.
      * exists t. remember (S n) as m. cbn [search]. rewrite E, E'. split; assumption.
Qed.

Section Cost.
  Variable A : ring.
  Variable S : semantics A.
  Hypothesis HL : lawful A S.
  Variable mag_up : arf -> arf.
  Hypothesis Hm : mag_up_ok mag_up.
  Hypothesis Ht : mag_up_tight mag_up.
  Variable garb : gen -> Z -> arb.
  Variable carb : car A -> Z -> arb.
  Variable rho : Z -> R.
  Local Notation elem := (elem A).
  Implicit Types x y z : elem.
  Local Notation arb_sum := (arb_sum (A := A) mag_up garb carb).
  Local Notation arb_loop := (arb_loop (A := A) mag_up garb carb).
  Local Notation elem_arb := (elem_arb (A := A) mag_up garb carb).
  Local Notation value := (value S rho).
  Local Notation size := (sum_of_absolute_values S rho).
  Local Notation approximated := (approximated A S garb carb rho 4).
  Lemma k4 : 1 <= 4 <= 8. Proof. lra. Qed.

  Definition precise (f : Z -> arb) (v : R) : Prop := forall p, (5 <= p)%Z -> near (f p) v (16 * Rabs v * bpow radix2 (- p)).
  Lemma small p : (5 <= p)%Z -> 0 < bpow radix2 (- p) <= / 32.
  Proof. intros H. split; [apply bpow_gt_0|]. change (/ 32) with (bpow radix2 (-5)). apply bpow_le. lia. Qed.
  Lemma mul_precise p f g u w : (5 <= p)%Z -> precise f u -> precise g w -> near (arb_mul mag_up (Some p) (f p) (g p)) (u * w) (128 * Rabs (w * u) * bpow radix2 (- p)).
  Proof.
    intros Hp Hf Hg. pose proof (small p Hp) as [B0 B1]. eapply near_weaken; [apply (mul_near mag_up (Some p) (f p) (g p) u w (16 * Rabs u * bpow radix2 (- p)) (16 * Rabs w * bpow radix2 (- p)) Hm Ht); [cbn; lia|apply Hf, Hp|apply Hg, Hp]|].
    cbn [perr]. set (b := bpow radix2 (- p)) in *. rewrite Rabs_mult. pose proof (Rabs_pos u) as U. pose proof (Rabs_pos w) as W. set (a := Rabs u) in *. set (c := Rabs w) in *.
    assert (P : 0 <= a * c) by (apply Rmult_le_pos; assumption). assert (Pb : 0 <= a * c * b) by (apply Rmult_le_pos; lra).
    assert (Pbb : a * c * b * b <= a * c * b * / 32) by (apply Rmult_le_compat_l; lra). assert (Pb3 : a * c * b * b * b <= a * c * b * / 32 * / 32).
    { apply Rle_trans with (a * c * b * / 32 * b); [apply Rmult_le_compat_r; lra|]. apply Rmult_le_compat_l; lra. }
    replace (2 * ((a + 16 * a * b) * (16 * c * b) + (c + 16 * c * b) * (16 * a * b) + 16 * a * b * (16 * c * b)) + 4 * b * ((a + 16 * a * b) * (c + 16 * c * b)))
      with (68 * (a * c * b) + 1664 * (a * c * b * b) + 1024 * (a * c * b * b * b)) by ring.
    replace (128 * (c * a) * b) with (128 * (a * c * b)) by ring. lra.
  Qed.
  Lemma sum_size : forall gs cs, 0 <= size gs cs /\ Rabs (combination S rho gs cs) <= size gs cs.
  Proof.
    induction gs as [|g gs IH]; intros cs; [cbn; rewrite Rabs_R0; lra|]. destruct cs as [|c cs]; [cbn; rewrite Rabs_R0; lra|]. cbn [sum_of_absolute_values combination].
    destruct (IH cs) as [P Q]. pose proof (Rabs_pos (val S c * gen_val rho g)). split; [lra|]. eapply Rle_trans; [apply Rabs_triang|]. lra.
  Qed.
  Definition four (n : nat) : R := bpow radix2 (2 * Z.of_nat n).
  Lemma four_S n : four (Datatypes.S n) = 4 * four n.
  Proof. unfold four. replace (2 * Z.of_nat (Datatypes.S n))%Z with (2 + 2 * Z.of_nat n)%Z by lia. rewrite bpow_plus. reflexivity. Qed.
  Lemma four_ge n : 1 <= four n.
  Proof. change 1 with (bpow radix2 0). apply bpow_le. lia. Qed.
  Lemma arb_sum_precise p : (5 <= p)%Z -> forall gs cs ret u s j, 0 <= s -> Rabs u <= s -> near ret u (128 * four j * s * bpow radix2 (- p)) ->
    (forall g, In g gs -> precise (garb g) (gen_val rho g)) -> Forall (fun c => precise (carb c) (val S c)) cs ->
    near (arb_sum p gs cs ret) (u + combination S rho gs cs) (128 * four (j + length gs) * (s + size gs cs) * bpow radix2 (- p)).
  Proof.
    intros Hp. pose proof (small p Hp) as [B0 B1]. assert (Stop : forall ret u s j k, 0 <= s -> near ret u (128 * four j * s * bpow radix2 (- p)) -> near ret (u + 0) (128 * four (j + k) * (s + 0) * bpow radix2 (- p))).
    { intros ret u s j k Hs N. rewrite !Rplus_0_r. eapply near_weaken; [exact N|]. apply Rmult_le_compat_r; [lra|]. apply Rmult_le_compat_r; [exact Hs|]. apply Rmult_le_compat_l; [lra|]. apply bpow_le. lia. }
    induction gs as [|g gs IH]; intros cs ret u s j Hs Hu N Hg Hc; [apply Stop; assumption|]. destruct cs as [|c cs]; [apply Stop; assumption|].
    inversion Hc as [|? ? Hc1 Hc2]; subst. cbn [Loops.arb_sum combination sum_of_absolute_values]. rewrite <- !Rplus_assoc. replace (j + length (g :: gs))%nat with (Datatypes.S j + length gs)%nat by (cbn; lia).
    set (t := Rabs (val S c * gen_val rho g)). assert (T0 : 0 <= t) by apply Rabs_pos. apply IH; [lra| | |intros h Hh; apply Hg; right; exact Hh|exact Hc2].
    { eapply Rle_trans; [apply Rabs_triang|]. unfold t. lra. }
    replace (u + val S c * gen_val rho g) with (u + gen_val rho g * val S c) by ring.
    eapply near_weaken; [apply (add_near mag_up (Some p) ret (arb_mul mag_up (Some p) (garb g p) (carb c p)) u (gen_val rho g * val S c) (128 * four j * s * bpow radix2 (- p)) (128 * Rabs (val S c * gen_val rho g) * bpow radix2 (- p)) Hm Ht); [cbn; lia|exact N|apply mul_precise; [exact Hp|apply Hg; left; reflexivity|exact Hc1]]|].
    cbn [perr]. fold t. rewrite (Rmult_comm (gen_val rho g)). fold t. rewrite four_S. set (b := bpow radix2 (- p)) in *. pose proof (four_ge j) as F. set (f := four j) in *.
    assert (S0 : 0 <= s * b) by (apply Rmult_le_pos; lra). assert (T1 : 0 <= t * b) by (apply Rmult_le_pos; lra). assert (FS : s * b <= f * (s * b)) by nra. assert (FT : t * b <= f * (t * b)) by nra.
    assert (X1 : 4 * b * (Rabs u + t + 128 * f * s * b + 128 * t * b) <= 4 * b * (s + t) + / 8 * (128 * f * s * b + 128 * t * b)).
    { replace (4 * b * (Rabs u + t + 128 * f * s * b + 128 * t * b)) with (4 * b * (Rabs u + t) + 4 * b * (128 * f * s * b + 128 * t * b)) by ring. apply Rplus_le_compat.
      - apply Rmult_le_compat_l; lra.
      - apply Rmult_le_compat_r; [|lra]. replace (128 * f * s * b + 128 * t * b) with (128 * (f * (s * b)) + 128 * (t * b)) by ring. lra. }
    replace (128 * (4 * f) * (s + t) * b) with (512 * (f * (s * b)) + 512 * (f * (t * b))) by ring. replace (128 * f * s * b) with (128 * (f * (s * b))) in * by ring. replace (128 * t * b) with (128 * (t * b)) in * by ring. lra.
  Qed.

  (** * The setting *)
  Definition priced x (K : Z) : Prop :=
    elem_wf S x /\ approximated x /\ (forall g, In g (basis (emodule x)) -> precise (garb g) (gen_val rho g) /\ gen_val rho g <> 0) /\
    (forall c, mem S (mring (emodule x)) c -> precise (carb c) (val S c)) /\ cancels S rho x K.
  Lemma sum_precise x K p : priced x K -> (5 <= p)%Z -> near (arb_sum p (basis (emodule x)) (coeffs x) (arb_of_Z 0)) (value x) (bpow radix2 (K + 2 * Z.of_nat (rank (emodule x)) + 7) * Rabs (value x) * bpow radix2 (- p)).
  Proof.
    intros ((_ & _ & M) & _ & G & C & Z0) Hp. unfold SpecModule.value at 1. rewrite <- (Rplus_0_l (combination _ _ _ _)). eapply near_weaken.
    - apply (arb_sum_precise p Hp _ _ _ 0 0 0%nat); [lra|rewrite Rabs_R0; lra|rewrite Rmult_0_r, Rmult_0_l; apply arb_of_Z_near|intros g Hg; apply G, Hg|]. rewrite Forall_forall in M |- *. intros c Hc. apply C, M, Hc.
    - rewrite Rplus_0_l, Nat.add_0_l. unfold four, rank. rewrite !bpow_plus. apply Rmult_le_compat_r; [left; apply bpow_gt_0|]. change (bpow radix2 7) with 128. unfold cancels in Z0.
      pose proof (bpow_gt_0 radix2 (2 * Z.of_nat (length (basis (emodule x))))) as F. set (f := bpow radix2 (2 * _)) in *. assert (128 * f * size (basis (emodule x)) (coeffs x) <= 128 * f * (bpow radix2 K * Rabs (value x))) by (apply Rmult_le_compat_l; lra). lra.
  Qed.
  Lemma priced_zero x K : priced x K -> nonzero x = true -> value x <> 0.
  Proof.
    intros ((_ & Len & M) & _ & G & _ & Z0) N V. unfold cancels in Z0. rewrite V, Rabs_R0, Rmult_0_r in Z0. clear V. revert N Len M G Z0. unfold nonzero. generalize (basis (emodule x)). induction (coeffs x) as [|c cs IH]; intros gs N Len M G Z0; [discriminate|].
    destruct gs as [|g gs]; [discriminate|]. cbn [sum_of_absolute_values existsb] in *. pose proof (proj1 (sum_size gs cs)) as P. pose proof (Rabs_pos (val S c * gen_val rho g)) as Q. inversion M as [|? ? M1 M2]; subst.
    apply orb_true_iff in N. destruct N as [N|N].
    - assert (Z1 : val S c * gen_val rho g = 0) by (destruct (Req_dec (val S c * gen_val rho g) 0) as [E|E]; [exact E|apply Rabs_pos_lt in E; lra]). apply Rmult_integral in Z1. destruct Z1 as [Z1|Z1]; [|apply (proj2 (G g (or_introl eq_refl))), Z1].
      apply negb_true_iff in N. assert (c = czero A) as ->. { apply (L_inj A S HL (mring (emodule x))); [exact M1|apply L_zero, HL|]. rewrite (proj2 (L_zero A S HL (mring (emodule x)))). exact Z1. }
      assert (ceqb (czero A) (czero A) = true) by (apply (L_eqb A S HL); reflexivity). unfold cz in N. congruence.
    - apply (IH gs N); [cbn in Len; lia|exact M2|intros h Hh; apply G; right; exact Hh|lra].
  Qed.
  Lemma cancels_nonneg x K : priced x K -> value x <> 0 -> (0 <= K)%Z.
  Proof.
    intros (_ & _ & _ & _ & Z0) V. unfold cancels in Z0. pose proof (proj2 (sum_size (basis (emodule x)) (coeffs x))) as P. fold (value x) in P. apply Rabs_pos_lt in V.
    destruct (Z_le_gt_dec 0 K) as [H|H]; [exact H|]. exfalso. assert (bpow radix2 K < bpow radix2 0) by (apply bpow_lt; lia). change (bpow radix2 0) with 1 in *. unfold SpecModule.value in *. nra.
  Qed.
  (** * Element::arb *)
  Lemma stops x K acc p : priced x K -> value x <> 0 -> (5 <= p)%Z -> (0 <= acc)%Z -> (digits_needed x acc K <= p)%Z -> is_accurate acc (arb_sum p (basis (emodule x)) (coeffs x) (arb_of_Z 0)) = true.
  Proof.
    intros H V Hp Ha HN. apply (near_accuracy _ _ _ acc (sum_precise x K p H Hp) V Ha). unfold digits_needed in HN. rewrite (Rmult_comm _ (Rabs _)), !Rmult_assoc, <- !bpow_plus.
    assert (B : bpow radix2 (K + 2 * Z.of_nat (rank (emodule x)) + 7 + (- p + (acc + 2))) <= 1) by (change 1 with (bpow radix2 0); apply bpow_le; lia). pose proof (Rabs_pos (value x)). nra.
  Qed.
  Lemma arb_loop_cost x K acc garb' carb' M : priced x K -> value x <> 0 -> (5 <= acc)%Z -> same_up_to M garb garb' -> same_up_to M carb carb' ->
    (2 * digits_needed x acc K <= M)%Z -> forall n p, (5 <= p <= M)%Z -> (digits_needed x acc K <= p * 2 ^ Z.of_nat n)%Z ->
    exists b, arb_loop (Datatypes.S n) x acc p = Some b /\ Loops.arb_loop mag_up garb' carb' (Datatypes.S n) x acc p = Some b.
  Proof.
    intros H V Ha SG SC HM.
    assert (Same : forall p, (p <= M)%Z -> forall gs cs ret, Loops.arb_sum mag_up garb' carb' p gs cs ret = arb_sum p gs cs ret).
    { intros p Hp. induction gs as [|g gs IH]; intros cs ret; [reflexivity|]. destruct cs as [|c cs]; [reflexivity|]. cbn [Loops.arb_sum]. rewrite SG, SC by exact Hp. apply IH. }
    induction n as [|n IH]; intros p Hp HQ.
    - change (2 ^ Z.of_nat 0)%Z with 1%Z in HQ. eexists. cbn [Loops.arb_loop]. cbv zeta. rewrite Same, (stops x K acc p H V) by lia. split; reflexivity.
    - remember (Datatypes.S n) as m eqn:Em. cbn [Loops.arb_loop]. cbv zeta. rewrite Same by lia. destruct (is_accurate acc _) eqn:E; [eexists; split; reflexivity|]. subst m. apply IH.
      + assert (p < digits_needed x acc K)%Z; [|lia]. apply Z.nle_gt. intros L. rewrite (stops x K acc p H V) in E by lia. discriminate.
      + rewrite Nat2Z.inj_succ, Z.pow_succ_r in HQ by lia. lia.
  Qed.
  Lemma log2_up_le n : (Z.log2_up (Z.of_nat n) <= Z.of_nat n)%Z.
  Proof. destruct n as [|n]; [reflexivity|]. apply Z.lt_le_incl, Z.log2_up_lt_lin. lia. Qed.
  Lemma elem_arb_cost x K acc garb' carb' M n : priced x K -> (5 <= acc)%Z -> same_up_to M garb garb' -> same_up_to M carb carb' ->
    (2 * digits_needed x acc K <= M)%Z -> (digits_needed x acc K <= acc * 2 ^ Z.of_nat n)%Z ->
    exists b, elem_arb (Datatypes.S n) x acc = Some b /\ Loops.elem_arb mag_up garb' carb' (Datatypes.S n) x acc = Some b.
  Proof.
    intros H Ha SG SC HM HQ. unfold Loops.elem_arb. destruct (nonzero x) eqn:Nz; cbn [negb]; [|eexists; split; reflexivity]. pose proof (priced_zero x K H Nz) as V. pose proof (cancels_nonneg x K H V) as K0.
    pose proof (log2_up_le (rank (emodule x))) as LG. pose proof (Z.log2_up_nonneg (Z.of_nat (rank (emodule x)))) as LG0. apply (arb_loop_cost x K acc garb' carb' M H V Ha SG SC HM).
    - unfold digits_needed in HM. lia.
    - eapply Z.le_trans; [exact HQ|]. apply Z.mul_le_mono_nonneg_r; [apply Z.pow_nonneg; lia|lia].
  Qed.
  (** With [n] rounds for accuracy [a] there are enough for every larger accuracy. *)
  Lemma rounds_enough x K a q n : (1 <= a <= q)%Z -> (digits_needed x a K <= a * 2 ^ Z.of_nat n)%Z -> (digits_needed x q K <= q * 2 ^ Z.of_nat n)%Z.
  Proof. unfold digits_needed. intros Ha H. assert (1 <= 2 ^ Z.of_nat n)%Z by (apply Z.lt_pred_le, Z.pow_pos_nonneg; lia). nia. Qed.
  (** All the approximations that a loop with precisions from [p0] up to [top] uses. *)
  Definition covers x K (M top : Z) : Prop := (2 * digits_needed x top K <= M)%Z.
  Lemma elem_arb_cost' x K garb' carb' M n p0 top : priced x K -> same_up_to M garb garb' -> same_up_to M carb carb' -> (5 <= p0)%Z -> covers x K M top -> (digits_needed x p0 K <= p0 * 2 ^ Z.of_nat n)%Z ->
    forall q, (p0 <= q <= top)%Z -> exists b, elem_arb (Datatypes.S n) x q = Some b /\ Loops.elem_arb mag_up garb' carb' (Datatypes.S n) x q = Some b.
  Proof.
    intros H SG SC H5 HM HQ q Hq. apply (elem_arb_cost x K q garb' carb' M n H); [lia|assumption|assumption| |apply (rounds_enough x K p0 q n); [lia|exact HQ]]. unfold covers, digits_needed in *. lia.
  Qed.
  (** * Comparisons *)
  Lemma lt_cost x K garb' carb' n eq (test test' : Z -> arb -> option (option bool)) b0 Q M : priced x K -> same_up_to M garb garb' -> same_up_to M carb carb' ->
    covers x K M (Z.max 64 (2 * Q)) -> (digits_needed x 64 K <= 64 * 2 ^ Z.of_nat n)%Z -> eq = Ok b0 ->
    (eq = Ok false -> (Q <= 64 * 2 ^ Z.of_nat n)%Z /\ forall q b, (64 <= q <= Z.max 64 (2 * Q))%Z -> near b (value x) (8 * Rabs (value x) * bpow radix2 (- q)) -> exists r, test q b = Some r /\ test' q b = Some r /\ ((Q <= q)%Z -> r <> None)) ->
    exists c, lt mag_up garb carb (Datatypes.S n) x eq test = Some (Ok c) /\ lt mag_up garb' carb' (Datatypes.S n) x eq test' = Some (Ok c).
  Proof.
    intros H SG SC HM HQ Eb HT. subst eq. destruct b0; [exists false; split; reflexivity|]. destruct (HT eq_refl) as [HR HD]. pose proof H as (W & E & _).
    pose proof (elem_arb_cost' x K garb' carb' M n 64 _ H SG SC ltac:(lia) HM HQ) as EA. unfold lt, lt_search, ARB_PRECISION_FAST.
    destruct (search_cost (fun prec => match elem_arb (Datatypes.S n) x prec with Some self => test prec self | None => None end)
      (fun prec => match Loops.elem_arb mag_up garb' carb' (Datatypes.S n) x prec with Some self => test' prec self | None => None end) (Z.max 64 (2 * Q)) Q n 64%Z) as (t & E1 & E2); [lia|lia|exact HR| |rewrite E1, E2; exists t; split; reflexivity].
    intros p Hp. destruct (EA p Hp) as (b & Eb & Eb'). rewrite Eb, Eb'. apply HD; [exact Hp|].
    eapply near_weaken; [apply (elem_arb_near A S HL mag_up Hm garb carb rho 4 k4 x p _ b W E ltac:(lia) Eb)|lra].
  Qed.
  Lemma gt_cost x garb' carb' n eq (test test' : Z -> arb -> option (option bool)) c : lt mag_up garb carb n x eq test = Some (Ok c) -> lt mag_up garb' carb' n x eq test' = Some (Ok c) ->
    exists d, gt mag_up garb carb n x eq test = Some (Ok d) /\ gt mag_up garb' carb' n x eq test' = Some (Ok d).
  Proof. intros H H'. unfold gt. destruct eq as [[|]|e]; [exists false; split; reflexivity| |discriminate]. rewrite H, H'. exists (negb c). split; reflexivity. Qed.
  Lemma decide a b d D q s : 0 <= s -> s <= bpow radix2 D * Rabs d -> d <> 0 -> (D + 5 <= q)%Z -> a + b = 8 * s * bpow radix2 (- q) -> 2 * (a + b) < Rabs d.
  Proof.
    intros Hs HD Hd Hq ->. apply Rabs_pos_lt in Hd. pose proof (bpow_gt_0 radix2 (- q)) as B. assert (s * bpow radix2 (- q) <= bpow radix2 D * Rabs d * bpow radix2 (- q)) by (apply Rmult_le_compat_r; lra).
    assert (E : bpow radix2 D * bpow radix2 (- q) <= / 32) by (rewrite <- bpow_plus; change (/ 32) with (bpow radix2 (-5)); apply bpow_le; lia).
    assert (Rabs d * (bpow radix2 D * bpow radix2 (- q)) <= Rabs d * / 32) by (apply Rmult_le_compat_l; lra). lra.
  Qed.
  Lemma lt_elem_cost x y K J D garb' carb' n M : priced x K -> priced y J -> same_up_to M garb garb' -> same_up_to M carb carb' ->
    covers x K M (Z.max 64 (2 * (D + 5))) -> covers y J M (Z.max 64 (2 * (D + 5))) -> (digits_needed x 64 K <= 64 * 2 ^ Z.of_nat n)%Z -> (digits_needed y 64 J <= 64 * 2 ^ Z.of_nat n)%Z -> (D + 5 <= 64 * 2 ^ Z.of_nat n)%Z ->
    forall b0, equal x y = Ok b0 -> (b0 = false -> value x <> value y) -> common_digits (value x) (value y) D ->
    exists c, lt_elem mag_up garb carb (Datatypes.S n) x y = Some (Ok c) /\ lt_elem mag_up garb' carb' (Datatypes.S n) x y = Some (Ok c).
  Proof.
    intros Hx Hy SG SC Cx Cy Nx Ny HD b0 Eq N CD. apply (lt_cost x K garb' carb' n (equal x y) _ _ b0 (D + 5) M Hx SG SC Cx Nx Eq). intros Ef. assert (b0 = false) as -> by congruence. split; [exact HD|]. intros q b Hq Nb.
    pose proof Hy as (W & E & _). destruct (elem_arb_cost' y J garb' carb' M n 64 _ Hy SG SC ltac:(lia) Cy Ny q Hq) as (o & Eo & Eo'). unfold test_elem. rewrite Eo, Eo'. eexists. split; [reflexivity|]. split; [reflexivity|]. intros HQ.
    assert (No : near o (value y) (8 * Rabs (value y) * bpow radix2 (- q))) by (eapply near_weaken; [apply (elem_arb_near A S HL mag_up Hm garb carb rho 4 k4 y q _ o W E ltac:(lia) Eo)|lra]).
    apply (op_lt_decided b o _ _ _ _ Nb No). specialize (N eq_refl). eapply (decide _ _ _ D q); [|exact CD|lra|exact HQ|ring]. pose proof (Rabs_pos (value x)). pose proof (Rabs_pos (value y)). lra.
  Qed.
  Lemma lt_int_cost x K D garb' carb' n M i : priced x K -> same_up_to M garb garb' -> same_up_to M carb carb' ->
    covers x K M (Z.max 64 (2 * (D + 5))) -> (digits_needed x 64 K <= 64 * 2 ^ Z.of_nat n)%Z -> (D + 5 <= 64 * 2 ^ Z.of_nat n)%Z ->
    (eq_integer x i = false -> value x <> IZR i) -> Rabs (value x) <= bpow radix2 D * Rabs (value x - IZR i) ->
    exists c, lt_int mag_up garb carb (Datatypes.S n) x i = Some (Ok c) /\ lt_int mag_up garb' carb' (Datatypes.S n) x i = Some (Ok c).
  Proof.
    intros Hx SG SC Cx Nx HD N CD. apply (lt_cost x K garb' carb' n (Ok (eq_integer x i)) _ _ _ (D + 5) M Hx SG SC Cx Nx eq_refl). intros [= Ef]. split; [exact HD|]. intros q b Hq Nb.
    unfold test_int. eexists. split; [reflexivity|]. split; [reflexivity|]. intros HQ. apply (op_lt_decided b _ _ _ _ _ Nb (arb_of_Z_near i)). specialize (N Ef). eapply (decide _ _ _ D q (Rabs (value x))); [apply Rabs_pos|exact CD|lra|exact HQ|ring].
  Qed.
  Lemma lt_rat_cost x K D garb' carb' n M (r : Qc) : priced x K -> same_up_to M garb garb' -> same_up_to M carb carb' ->
    covers x K M (Z.max 64 (2 * (D + 6))) -> (digits_needed x 64 K <= 64 * 2 ^ Z.of_nat n)%Z -> (D + 6 <= 64 * 2 ^ Z.of_nat n)%Z ->
    (eq_rational x r = false -> value x <> Q2R r) -> Rabs (value x) <= bpow radix2 D * Rabs (value x - Q2R r) ->
    exists c, lt_rat mag_up garb carb (Datatypes.S n) x r = Some (Ok c) /\ lt_rat mag_up garb' carb' (Datatypes.S n) x r = Some (Ok c).
  Proof.
    intros Hx SG SC Cx Nx HD N CD. apply (lt_cost x K garb' carb' n (Ok (eq_rational x r)) _ _ _ (D + 6) M Hx SG SC Cx Nx eq_refl). intros [= Ef]. split; [exact HD|]. intros q b Hq Nb.
    unfold test_rat, opq_lt. eexists. split; [reflexivity|]. split; [reflexivity|]. intros HQ. pose proof (qc_den_pos r) as Dp. specialize (N Ef).
    apply (op_lt_decided _ _ _ _ _ _ (times_den_near mag_up Hm Ht b _ _ (qc_den r) Nb) (arb_of_Z_near (qc_num r))).
    assert (Ed : value x * IZR (qc_den r) - IZR (qc_num r) = IZR (qc_den r) * (value x - Q2R r)) by (rewrite qc_num_den; field; lra). rewrite Ed.
    eapply (decide _ _ _ (D + 1) q (2 * IZR (qc_den r) * Rabs (value x))).
    - apply Rmult_le_pos; [lra|apply Rabs_pos].
    - rewrite Rabs_mult, (Rabs_pos_eq (IZR (qc_den r))), bpow_plus by lra. change (bpow radix2 1) with 2. assert (IZR (qc_den r) * Rabs (value x) <= IZR (qc_den r) * (bpow radix2 D * Rabs (value x - Q2R r))) by (apply Rmult_le_compat_l; lra). lra.
    - apply Rmult_integral_contrapositive_currified; lra.
    - lia.
    - rewrite (Rabs_pos_eq (IZR (qc_den r))) by lra. ring.
  Qed.
  Lemma lt_real_cost x K D g garb' carb' n M : priced x K -> same_up_to M garb garb' -> same_up_to M carb carb' -> (forall q, (64 <= q)%Z -> near (garb g q) (gen_val rho g) (8 * Rabs (gen_val rho g) * bpow radix2 (- q))) ->
    covers x K M (Z.max 64 (2 * (D + 5))) -> (digits_needed x 64 K <= 64 * 2 ^ Z.of_nat n)%Z -> (Z.max 64 (2 * (D + 5)) <= M)%Z -> (D + 5 <= 64 * 2 ^ Z.of_nat n)%Z ->
    forall b0, eq_real x g = Ok b0 -> (b0 = false -> value x <> gen_val rho g) -> common_digits (value x) (gen_val rho g) D ->
    exists c, lt_real mag_up garb carb (Datatypes.S n) x g = Some (Ok c) /\ lt_real mag_up garb' carb' (Datatypes.S n) x g = Some (Ok c).
  Proof.
    intros Hx SG SC Ng Cx Nx HM HD b0 Eq N CD. apply (lt_cost x K garb' carb' n (eq_real x g) _ _ b0 (D + 5) M Hx SG SC Cx Nx Eq). intros Ef. assert (b0 = false) as -> by congruence. split; [exact HD|]. intros q b Hq Nb.
    unfold test_real. rewrite (SG g q) by lia. eexists. split; [reflexivity|]. split; [reflexivity|]. intros HQ.
    apply (op_lt_decided b _ _ _ _ _ Nb (Ng q ltac:(lia))). specialize (N eq_refl). eapply (decide _ _ _ D q); [|exact CD|lra|exact HQ|ring]. pose proof (Rabs_pos (value x)). pose proof (Rabs_pos (gen_val rho g)). lra.
  Qed.
  (** * floor, ceil, double *)
  Lemma agree_cost {T} (f : arf -> T) eqb x K garb' carb' n M p0 Q : priced x K -> same_up_to M garb garb' -> same_up_to M carb carb' -> (5 <= p0)%Z ->
    covers x K M (Z.max p0 (2 * Q)) -> (digits_needed x p0 K <= p0 * 2 ^ Z.of_nat n)%Z -> (Q <= p0 * 2 ^ Z.of_nat n)%Z ->
    (forall lo hi q, (Q <= q)%Z -> Rabs (arf2R lo - value x) <= 144 * Rabs (value x) * bpow radix2 (- q) -> Rabs (arf2R hi - value x) <= 144 * Rabs (value x) * bpow radix2 (- q) -> eqb (f lo) (f hi) = true) ->
    exists t, search (Datatypes.S n) (fun prec => bounds_agree f eqb (elem_arb (Datatypes.S n) x prec)) p0 = Some t /\
      search (Datatypes.S n) (fun prec => bounds_agree f eqb (Loops.elem_arb mag_up garb' carb' (Datatypes.S n) x prec)) p0 = Some t.
  Proof.
    intros H SG SC H5 HM HN HQ HA. pose proof H as (W & E & _). apply (search_cost _ _ (Z.max p0 (2 * Q)) Q n p0); [lia|lia|exact HQ|]. intros p Hp.
    destruct (elem_arb_cost' x K garb' carb' M n p0 _ H SG SC H5 HM HN p Hp) as (b & Eb & Eb'). rewrite Eb, Eb'. destruct (elem_arb_sound A S HL mag_up Hm garb carb rho 4 k4 x p _ b W E ltac:(lia) Eb) as [_ Acc].
    destruct (interval_near b (value x) _ (elem_arb_near A S HL mag_up Hm garb carb rho 4 k4 x p _ b W E ltac:(lia) Eb) (is_accurate_le p 2 b ltac:(lia) Acc)) as (lo & hi & Ei & Lo & Hi).
    unfold bounds_agree. rewrite Ei. eexists. split; [reflexivity|]. split; [reflexivity|]. intros HQp. rewrite (HA lo hi p HQp); [discriminate|lra|lra].
  Qed.
  Lemma close_to v D q lo eta : (D + 8 <= q)%Z -> Rabs v <= bpow radix2 D * eta -> 0 < eta -> Rabs (arf2R lo - v) <= 144 * Rabs v * bpow radix2 (- q) -> Rabs (arf2R lo - v) < eta.
  Proof.
    intros Hq HD He Hlo. eapply Rle_lt_trans; [exact Hlo|]. pose proof (bpow_gt_0 radix2 (- q)) as B. assert (Rabs v * bpow radix2 (- q) <= bpow radix2 D * eta * bpow radix2 (- q)) by (apply Rmult_le_compat_r; lra).
    assert (E : bpow radix2 D * bpow radix2 (- q) <= / 256) by (rewrite <- bpow_plus; change (/ 256) with (bpow radix2 (-8)); apply bpow_le; lia).
    assert (eta * (bpow radix2 D * bpow radix2 (- q)) <= eta * / 256) by (apply Rmult_le_compat_l; lra). lra.
  Qed.
  Lemma integer_room v D : v <> 0 -> integer_digits v D -> exists i eta, 0 < eta /\ Rabs v <= bpow radix2 D * eta /\ IZR i + eta <= v /\ v <= IZR i + 1 - eta.
  Proof.
    intros V H. set (i := Zfloor v). pose proof (Zfloor_lb v) as Lb. pose proof (Zfloor_ub v) as Ub. fold i in Lb, Ub. pose proof (H i) as H1. pose proof (H (i + 1)%Z) as H2. rewrite plus_IZR in H2.
    rewrite (Rabs_pos_eq (v - IZR i)) in H1 by lra. rewrite (Rabs_left1 (v - (IZR i + 1))) in H2 by lra. apply Rabs_pos_lt in V. exists i, (Rmin (v - IZR i) (IZR i + 1 - v)). pose proof (bpow_gt_0 radix2 D) as B.
    pose proof (Rmin_l (v - IZR i) (IZR i + 1 - v)). pose proof (Rmin_r (v - IZR i) (IZR i + 1 - v)). assert (0 < v - IZR i) by nra. assert (0 < IZR i + 1 - v) by nra.
    split; [apply Rmin_glb_lt; assumption|]. split; [|lra]. unfold Rmin. destruct (Rle_dec _ _); [lra|]. replace (IZR i + 1 - v) with (- (v - (IZR i + 1))) by ring. exact H2.
  Qed.
  Lemma floor_cost x K D garb' carb' n M : priced x K -> same_up_to M garb garb' -> same_up_to M carb carb' ->
    covers x K M (Z.max 64 (2 * (D + 8))) -> (digits_needed x 64 K <= 64 * 2 ^ Z.of_nat n)%Z -> (D + 8 <= 64 * 2 ^ Z.of_nat n)%Z -> (to_integer x = None -> value x <> 0 /\ integer_digits (value x) D) ->
    (exists i, elem_floor mag_up garb carb (Datatypes.S n) x = Some i /\ elem_floor mag_up garb' carb' (Datatypes.S n) x = Some i) /\
    (exists i, elem_ceil mag_up garb carb (Datatypes.S n) x = Some i /\ elem_ceil mag_up garb' carb' (Datatypes.S n) x = Some i).
  Proof.
    intros H SG SC HM HN HQ HD. unfold elem_floor, elem_ceil. destruct (to_integer x) as [i|]; [split; exists i; split; reflexivity|]. destruct (HD eq_refl) as [V G]. destruct (integer_room _ D V G) as (i & eta & He & Hv & Lo & Hi).
    unfold ARB_PRECISION_FAST. split; apply (agree_cost _ _ x K garb' carb' n M 64 (D + 8) H SG SC ltac:(lia) HM HN HQ); intros lo hi q Hq L U; apply (close_to _ D q lo eta Hq Hv He) in L; apply (close_to _ D q hi eta Hq Hv He) in U; apply Rabs_lt_inv in L, U; apply Z.eqb_eq.
    - rewrite !arf_floor_spec, (floor_unique i), (floor_unique i); [reflexivity|lra..].
    - rewrite !arf_ceil_spec, (ceil_unique i), (ceil_unique i); [reflexivity|lra..].
  Qed.
  Lemma double_cost x K D eta garb' carb' n M : priced x K -> same_up_to M garb garb' -> same_up_to M carb carb' ->
    covers x K M (Z.max 55 (2 * (D + 8))) -> (digits_needed x 55 K <= 55 * 2 ^ Z.of_nat n)%Z -> (D + 8 <= 55 * 2 ^ Z.of_nat n)%Z ->
    (to_rational x = None -> 0 < eta /\ Rabs (value x) <= bpow radix2 D * eta /\ forall a, Rabs (a - value x) < eta -> nearest_double a = nearest_double (value x)) ->
    exists d, elem_double mag_up garb carb (Datatypes.S n) x = Some d /\ elem_double mag_up garb' carb' (Datatypes.S n) x = Some d.
  Proof.
    intros H SG SC HM HN HQ HD. unfold elem_double. destruct (to_rational x) as [q|]; [eexists; split; reflexivity|]. destruct (HD eq_refl) as (He & Hv & Hr).
    apply (agree_cost _ _ x K garb' carb' n M 55 (D + 8) H SG SC ltac:(lia) HM HN HQ). intros lo hi q Hq L U. apply (close_to _ D q lo eta Hq Hv He), Hr in L. apply (close_to _ D q hi eta Hq Hv He), Hr in U.
    apply arf_eqb_spec. rewrite !arf_to_double_spec. unfold nearest_double in L, U. rewrite L, U. reflexivity.
  Qed.
  (** * floordiv *)
  Lemma floordiv_search_cost x y K J D garb' carb' n M : priced x K -> priced y J -> same_up_to M garb garb' -> same_up_to M carb carb' ->
    covers x K M (Z.max 64 (2 * (D + 12))) -> covers y J M (Z.max 64 (2 * (D + 12))) -> (digits_needed x 64 K <= 64 * 2 ^ Z.of_nat n)%Z -> (digits_needed y 64 J <= 64 * 2 ^ Z.of_nat n)%Z -> (D + 12 <= 64 * 2 ^ Z.of_nat n)%Z ->
    value x <> 0 -> value y <> 0 -> integer_digits (value x / value y) D ->
    exists i, search (Datatypes.S n) (floordiv_test mag_up garb carb (Datatypes.S n) x y) ARB_PRECISION_FAST = Some i /\ search (Datatypes.S n) (floordiv_test mag_up garb' carb' (Datatypes.S n) x y) ARB_PRECISION_FAST = Some i.
  Proof.
    intros Hx Hy SG SC Cx Cy Nx Ny HD Vx Vy G. assert (Vq : value x / value y <> 0) by (apply Rmult_integral_contrapositive_currified; [exact Vx|apply Rinv_neq_0_compat, Vy]).
    destruct (integer_room _ D Vq G) as (i & eta & He & Hv & Lo & Hi). pose proof Hx as (Wx & Ex & _). pose proof Hy as (Wy & Ey & _). unfold ARB_PRECISION_FAST.
    apply (search_cost _ _ (Z.max 64 (2 * (D + 12))) (D + 12) n 64); [lia|lia|exact HD|]. intros p Hp.
    destruct (elem_arb_cost' x K garb' carb' M n 64 _ Hx SG SC ltac:(lia) Cx Nx p Hp) as (s & Es & Es'). destruct (elem_arb_cost' y J garb' carb' M n 64 _ Hy SG SC ltac:(lia) Cy Ny p Hp) as (d & Ed & Ed').
    destruct (elem_arb_sound A S HL mag_up Hm garb carb rho 4 k4 x p _ s Wx Ex ltac:(lia) Es) as [E1 A1]. destruct (elem_arb_sound A S HL mag_up Hm garb carb rho 4 k4 y p _ d Wy Ey ltac:(lia) Ed) as [E2 A2].
    pose proof (op_ne_zero_decided 4 k4 d (value y) E2 Vy (is_accurate_le p 5 d ltac:(lia) A2)) as ND0.
    destruct (div_near 4 mag_up p s d (value x) (value y) k4 Hm Ht ltac:(lia) E1 E2 Vx Vy A1 A2) as [ND AD]. destruct (interval_near _ _ _ ND AD) as (lo & hi & Ei & L & U).
    unfold floordiv_test. rewrite Ed, Ed', Es, Es'. destruct (op_ne d (arb_of_Z 0)) as [o|]; [|contradiction]. unfold bounds_agree. rewrite Ei. eexists. split; [reflexivity|]. split; [reflexivity|]. intros HQ.
    assert (Z1 : forall a, Rabs (arf2R a - value x / value y) <= 18 * (Rabs (value x / value y) * 128 * bpow radix2 (- p)) -> Rabs (arf2R a - value x / value y) < eta).
    { intros a Ha. eapply Rle_lt_trans; [exact Ha|]. pose proof (bpow_gt_0 radix2 (- p)) as B. set (v := Rabs (value x / value y)) in *. assert (v * bpow radix2 (- p) <= bpow radix2 D * eta * bpow radix2 (- p)) by (apply Rmult_le_compat_r; lra).
      assert (E : bpow radix2 D * bpow radix2 (- p) <= / 4096) by (rewrite <- bpow_plus; change (/ 4096) with (bpow radix2 (-12)); apply bpow_le; lia).
      assert (eta * (bpow radix2 D * bpow radix2 (- p)) <= eta * / 4096) by (apply Rmult_le_compat_l; lra). lra. }
    apply Z1 in L, U. apply Rabs_lt_inv in L, U. rewrite !arf_floor_spec, (floor_unique i), (floor_unique i), Z.eqb_refl by lra. discriminate.
  Qed.
  (** The sum of the absolute values is the largest value for generators with at most these absolute values. *)
  Lemma size_bound v : (forall g, Rabs (v g) <= Rabs (gen_val rho g)) -> forall gs cs, comb A S v gs cs <= size gs cs.
  Proof.
    intros H. induction gs as [|g gs IH]; intros cs; [apply Rle_refl|]. destruct cs as [|c cs]; [apply Rle_refl|]. cbn [comb sum_of_absolute_values]. specialize (IH cs). apply Rplus_le_compat; [|exact IH].
    eapply Rle_trans; [apply RRle_abs|]. rewrite !Rabs_mult. apply Rmult_le_compat_l; [apply Rabs_pos|apply H].
  Qed.
  Lemma size_attained : forall gs cs, NoDup gs -> exists v, (forall g, Rabs (v g) <= Rabs (gen_val rho g)) /\ comb A S v gs cs = size gs cs.
  Proof.
    induction gs as [|g gs IH]; intros cs ND; [exists (gen_val rho); split; [intros; apply Rle_refl|reflexivity]|]. destruct cs as [|c cs]; [exists (gen_val rho); split; [intros; apply Rle_refl|reflexivity]|].
    inversion ND as [|? ? N1 N2]; subst. destruct (IH cs N2) as (v & Hv & E). set (t := gen_val rho g). set (w := if Rle_dec 0 (val S c * t) then t else - t).
    assert (Hw : Rabs w <= Rabs t) by (unfold w; destruct (Rle_dec _ _); [|rewrite Rabs_Ropp]; apply Rle_refl). assert (Vw : val S c * w = Rabs (val S c * t)).
    { unfold w. destruct (Rle_dec 0 (val S c * t)) as [H|H]; [symmetry; apply Rabs_pos_eq, H|]. rewrite Rabs_left by lra. ring. }
    exists (fun h => if gen_eqb h g then w else v h). split.
    - intros h. destruct (gen_eqb h g) eqn:Eh; [apply gen_eqb_eq in Eh; subst h; exact Hw|apply Hv].
    - cbn [comb sum_of_absolute_values]. assert (gen_eqb g g = true) as -> by (apply gen_eqb_eq; reflexivity). fold t. rewrite Vw. f_equal. rewrite <- E. apply comb_ext. intros h Hh. destruct (gen_eqb h g) eqn:Eh; [|reflexivity].
      apply gen_eqb_eq in Eh. subst h. contradiction.
  Qed.
  Lemma cancels_same x x' K : elem_wf S x' -> (forall v, evalv A S v x' = evalv A S v x) -> cancels S rho x K -> cancels S rho x' K.
  Proof.
    intros W E H. unfold cancels in *. assert (value x' = value x) as -> by (rewrite !value_evalv; apply E). eapply Rle_trans; [|exact H].
    destruct (size_attained (basis (emodule x')) (coeffs x') (ascending_NoDup _ (proj2 (proj1 W)))) as (v & Hv & <-). fold (evalv A S v x'). rewrite E. apply size_bound, Hv.
  Qed.
End Cost.
(** * The balls of the library *)
Lemma library_priced A (S : semantics A) rng names rho garb carb (x : elem A) K : elem_wf S x -> library_balls S rng names rho garb carb x -> cancels S rho x K -> priced A S garb carb rho x K.
Proof.
  intros W (HV & HB & HN & HC & HP) HK. assert (HW : Forall gen_wf (basis (emodule x))) by apply W. pose proof (code_balls_within rng names rho HV garb _ HB HW) as HG. split; [exact W|]. split; [split; assumption|]. split; [|split; [|exact HK]].
  - intros g Hg. split; [|apply HN, Hg]. intros p Hp. eapply near_weaken; [apply (accuracy_near 4 _ _ p k4 (HG g p Hg ltac:(lia)) Hp), (code_balls_accurate rng names rho HV garb _ HB HW g p Hg ltac:(lia) (HN g Hg))|].
    pose proof (Rabs_pos (gen_val rho g)). pose proof (bpow_gt_0 radix2 (- p)). assert (0 <= Rabs (gen_val rho g) * bpow radix2 (- p)) by (apply Rmult_le_pos; lra). lra.
  - intros c Hc p Hp. destruct (HC c p Hc ltac:(lia)) as [Wb Cb]. destruct (HP c p Hc Hp) as (r & Er & Hr). unfold contains in Cb. rewrite Er in Cb. pose proof (Rabs_pos (val S c)). pose proof (bpow_gt_0 radix2 (- p)).
    assert (0 <= Rabs (val S c) * bpow radix2 (- p)) by (apply Rmult_le_pos; lra). split; [exact Wb|]. exists r. split; [exact Er|]. lra.
Qed.
Lemma int_arb_precise p : coefficients_precise int_sem int_arb p.
Proof. intros c prec _ _. exists (mkArf 0 0). split; [reflexivity|]. unfold arf2R at 1. cbn [am ae]. rewrite Rmult_0_l. apply Rmult_le_pos; [apply Rmult_le_pos; [lra|apply Rabs_pos]|left; apply bpow_gt_0]. Qed.
Lemma rat_arb_precise mag_up p : mag_up_tight mag_up -> coefficients_precise rat_sem (rat_arb mag_up) p.
Proof.
  intros Ht c prec _ Hp. unfold rat_arb. cbn [val rat_sem]. rewrite qc_num_den. destruct (arb_of_Q_cases mag_up prec (qc_num c) (qc_den c) ltac:(lia) ltac:(reflexivity)) as [[E V]|(N & r & Er & Vr & B)].
  - exists (mkArf 0 0). split; [rewrite E; reflexivity|]. unfold arf2R at 1. cbn [am ae]. rewrite Rmult_0_l. apply Rmult_le_pos; [apply Rmult_le_pos; [lra|apply Rabs_pos]|left; apply bpow_gt_0].
  - exists (mag_up r). split; [exact Er|]. eapply Rle_trans; [apply Ht; rewrite Vr; left; apply bpow_gt_0|]. rewrite Vr. unfold Zminus. rewrite bpow_plus. pose proof (bpow_gt_0 radix2 (- prec)) as Bp.
    set (v := IZR (qc_num c) / IZR (qc_den c)) in *. assert (M : bpow radix2 (mag radix2 v) <= 2 * Rabs v).
    { clear -N. destruct (mag radix2 v) as [e He]. cbn. specialize (He N). replace (bpow radix2 e) with (2 * bpow radix2 (e - 1)); [lra|]. unfold Zminus. rewrite bpow_plus. cbn. field. }
    assert (bpow radix2 (mag radix2 v) * bpow radix2 (- prec) <= 2 * Rabs v * bpow radix2 (- prec)) by (apply Rmult_le_compat_r; lra). lra.
Qed.
