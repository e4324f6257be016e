(** Order, floor, ceil, floordiv and conversion to double of elements. *)
From Coq Require Import ZArith QArith Qcanon Bool List Reals Qreals Lia Lra Psatz.
From Flocq Require Import Core.
From Verif Require Import Arf Arb Real SpecArf ArfProofs ArbProofs Gen SpecGen GenProofs Ring SpecRing Module Element SpecModule ModuleProofs ElementProofs ElementProofs2 Loops SpecLoops Near Near2 LoopsProofs.
Import ListNotations.
Open Scope R_scope.

Lemma qc_num_den (q : Qc) : Q2R q = IZR (qc_num q) / IZR (qc_den q).
Proof. reflexivity. Qed.
Lemma qc_den_pos (q : Qc) : 0 < IZR (qc_den q).
Proof. apply (IZR_lt 0). reflexivity. Qed.

Section Loops.
  Variable A : ring.
  Variable S : semantics A.
  Hypothesis HL : lawful A S.
  Variable mag_up : arf -> arf.
  Hypothesis Hm : mag_up_ok mag_up.
  Variable garb : gen -> Z -> arb.
  Variable carb : car A -> Z -> arb.
  Variable rho : Z -> R.
  Variable k : R.
  Hypothesis Hk : 1 <= k <= 8.
  Local Notation elem := (elem A).
  Implicit Types x y z : elem.
  Local Notation elem_arb := (elem_arb (A := A) mag_up garb carb).
  Local Notation value := (value S rho).
  Local Notation approximated := (approximated A S garb carb rho k).
  Local Notation converging := (converging A S garb carb).
  Local Notation lt_search := (lt_search (A := A) mag_up garb carb).
  Local Notation lt := (lt (A := A) mag_up garb carb).
  Local Notation gt := (gt (A := A) mag_up garb carb).

  (** * Order *)
  (** The relative error that the answers may have (none for k = 1). *)
  Definition eps64 : R := (k - 1) * bpow radix2 (-63).
  Lemma eps64_nonneg : 0 <= eps64.
  Proof. apply Rmult_le_pos; [lra|left; apply bpow_gt_0]. Qed.
  Lemma perturbed_refl eps v : 0 <= eps -> perturbed eps v v.
  Proof. intros H. unfold perturbed. rewrite Rminus_diag_eq, Rabs_R0 by reflexivity. apply Rmult_le_pos; [exact H|apply Rabs_pos]. Qed.
  Lemma perturbed_weaken eps eps' v u : eps <= eps' -> perturbed eps v u -> perturbed eps' v u.
  Proof. intros L H. unfold perturbed in *. eapply Rle_trans; [exact H|]. apply Rmult_le_compat_r; [apply Rabs_pos|exact L]. Qed.
  Lemma elem_arb_point64 x p rounds b : elem_wf S x -> approximated x -> (64 <= p)%Z -> elem_arb rounds x p = Some b -> exists u, encloses b u /\ perturbed eps64 (value x) u.
  Proof.
    intros W E Hp H. destruct (elem_arb_point A S HL mag_up Hm garb carb rho k Hk x p rounds b W E ltac:(lia) H) as (u & Hu & P). exists u. split; [exact Hu|]. apply (perturbed_weaken ((k - 1) * bpow radix2 (1 - p))); [|exact P].
    unfold eps64. apply Rmult_le_compat_l; [lra|]. apply bpow_le. lia.
  Qed.
  (** The test compares with a number that satisfies [T]. *)
  Definition test_sound (T : R -> Prop) (test : Z -> arb -> option (option bool)) : Prop :=
    forall p b c u, (64 <= p)%Z -> encloses b u -> test p b = Some (Some c) -> exists w, T w /\ (c = true <-> u < w).
  Lemma lt_search_sound x (T : R -> Prop) test rounds c : elem_wf S x -> approximated x -> test_sound T test -> lt_search rounds x test = Some c ->
    exists u w, perturbed eps64 (value x) u /\ T w /\ (c = true <-> u < w).
  Proof.
    intros W E HT H. unfold Loops.lt_search in H. apply search_sound in H; [|unfold ARB_PRECISION_FAST; lia]. destruct H as (q & Hq & H). unfold ARB_PRECISION_FAST in Hq.
    destruct (elem_arb rounds x q) as [b|] eqn:Eb; [|discriminate]. destruct (elem_arb_point64 x q rounds b W E Hq Eb) as (u & Enc & P). destruct (HT q b c u Hq Enc H) as (w & Tw & C). exists u, w. auto.
  Qed.
  Lemma lt_sound x (T : R -> Prop) eq test rounds c : elem_wf S x -> approximated x -> (eq = Ok true -> T (value x)) -> test_sound T test -> lt rounds x eq test = Some (Ok c) ->
    exists u w, perturbed eps64 (value x) u /\ T w /\ (c = true <-> u < w).
  Proof.
    intros W E Q HT H. unfold Loops.lt in H. destruct eq as [[|]|]; [| |discriminate].
    - inversion H; subst. exists (value x), (value x). split; [apply perturbed_refl, eps64_nonneg|]. split; [apply Q; reflexivity|]. split; [discriminate|lra].
    - destruct (lt_search rounds x test) as [d|] eqn:Es; [|discriminate]. inversion H; subst. exact (lt_search_sound x T test rounds c W E HT Es).
  Qed.
  Lemma gt_sound x (T : R -> Prop) eq test rounds c : elem_wf S x -> approximated x -> (eq = Ok true -> T (value x)) -> test_sound T test -> gt rounds x eq test = Some (Ok c) ->
    exists u w, perturbed eps64 (value x) u /\ T w /\ (c = true -> w <= u) /\ (c = false -> u <= w) /\ (eq = Ok true -> c = false).
  Proof.
    intros W E Q HT H. unfold Loops.gt in H. destruct eq as [[|]|]; [| |discriminate].
    - inversion H; subst. exists (value x), (value x). split; [apply perturbed_refl, eps64_nonneg|]. split; [apply Q; reflexivity|]. split; [discriminate|]. split; [lra|reflexivity].
    - destruct (lt rounds x (Ok false) test) as [[d|]|] eqn:Es; [|discriminate|discriminate]. inversion H; subst. destruct (lt_sound x T (Ok false) test rounds d W E ltac:(discriminate) HT Es) as (u & w & P & Tw & L). exists u, w.
      split; [exact P|]. split; [exact Tw|]. split; [|split; [|discriminate]].
      + intros D. apply negb_true_iff in D. subst d. destruct (Rlt_le_dec u w) as [G|G]; [|exact G]. apply L in G. discriminate.
      + intros D. apply negb_false_iff in D. left. apply L, D.
  Qed.
  Lemma test_elem_sound y rounds : elem_wf S y -> approximated y -> test_sound (perturbed eps64 (value y)) (test_elem mag_up garb carb rounds y).
  Proof.
    intros W E p b c u Hp Enc H. unfold test_elem in H. destruct (elem_arb rounds y p) as [o|] eqn:Eo; [|discriminate]. cbn in H. inversion H as [H1].
    destruct (elem_arb_point64 y p rounds o W E Hp Eo) as (w & Eno & P). exists w. split; [exact P|]. exact (op_lt_sound b o _ _ c Enc Eno H1).
  Qed.
  Lemma test_real_sound g : (forall p, (64 <= p)%Z -> within k (garb g p) (gen_val rho g) /\ (k = 1 \/ is_accurate p (garb g p) = true)) -> test_sound (perturbed eps64 (gen_val rho g)) (test_real garb g).
  Proof.
    intros E p b c u Hp Enc H. unfold test_real in H. inversion H as [H1]. destruct (E p Hp) as [Wi D].
    assert (Pt : exists w, encloses (garb g p) w /\ perturbed eps64 (gen_val rho g) w).
    { destruct D as [K1|Ac].
      - exists (gen_val rho g). split; [apply within_encloses; rewrite <- K1; exact Wi|apply perturbed_refl, eps64_nonneg].
      - destruct (accuracy_near k _ _ p Hk Wi ltac:(lia) Ac) as [_ (r & Er & _ & Hr)]. destruct (within_point k _ _ (proj1 Hk) Wi) as (w & Hw & P). exists w. split; [exact Hw|]. unfold perturbed, eps64. eapply Rle_trans; [apply P, Er|].
        assert (B : bpow radix2 (- p) <= bpow radix2 (-64)) by (apply bpow_le; lia). assert (B2 : bpow radix2 (-63) = 2 * bpow radix2 (-64)) by (change 2 with (bpow radix2 1) at 1; rewrite <- bpow_plus; reflexivity). pose proof (Rabs_pos (gen_val rho g)) as P0.
        assert ((k - 1) * arf2R r <= (k - 1) * (2 * Rabs (gen_val rho g) * bpow radix2 (- p))) by (apply Rmult_le_compat_l; lra).
        assert ((k - 1) * (2 * Rabs (gen_val rho g)) * bpow radix2 (- p) <= (k - 1) * (2 * Rabs (gen_val rho g)) * bpow radix2 (-64)) by (apply Rmult_le_compat_l; [apply Rmult_le_pos; lra|exact B]). rewrite B2. lra. }
    destruct Pt as (w & Ew & P). exists w. split; [exact P|]. exact (op_lt_sound b _ _ _ c Enc Ew H1).
  Qed.
  Lemma test_int_sound n : test_sound (fun w => w = IZR n) (test_int n).
  Proof. intros p b c u Hp Enc H. unfold test_int in H. inversion H as [H1]. exists (IZR n). split; [reflexivity|]. exact (op_lt_sound b _ _ _ c Enc (arb_of_Z_encloses n) H1). Qed.
  Lemma times_den_encloses b v d : encloses b v -> encloses (arb_times_den mag_up b d) (v * IZR d).
  Proof.
    intros [W C]. destruct (arb_of_Z_encloses d) as [W2 C2]. split; [apply arb_mul_wf; assumption|]. apply arb_mul_contains; [exact Hm|exact I|assumption..].
  Qed.
  Lemma lt_times_den v (q : Qc) : v < Q2R q <-> v * IZR (qc_den q) < IZR (qc_num q).
  Proof.
    rewrite qc_num_den. pose proof (qc_den_pos q) as D. split; intros H.
    - apply Rmult_lt_compat_r with (r := IZR (qc_den q)) in H; [|exact D]. unfold Rdiv in H. rewrite Rmult_assoc, Rinv_l, Rmult_1_r in H by lra. exact H.
    - apply Rmult_lt_reg_r with (IZR (qc_den q)); [exact D|]. unfold Rdiv. rewrite Rmult_assoc, Rinv_l, Rmult_1_r by lra. exact H.
  Qed.
  Lemma test_rat_sound (r : Qc) : test_sound (fun w => w = Q2R r) (test_rat mag_up r).
  Proof.
    intros p b c u Hp Enc H. unfold test_rat, opq_lt in H. inversion H as [H1]. exists (Q2R r). split; [reflexivity|]. rewrite lt_times_den.
    exact (op_lt_sound _ _ _ _ c (times_den_encloses b u (qc_den r) Enc) (arb_of_Z_encloses _) H1).
  Qed.

  (** * Termination of the comparisons *)
  Hypothesis Ht : mag_up_tight mag_up.
  Lemma lt_terminates x eq (test : nat -> Z -> arb -> option (option bool)) P b0 : elem_wf S x -> approximated x -> converging x -> (nonzero x = true -> value x <> 0) -> eq = Ok b0 ->
    (eq = Ok false ->
     (forall n m p b r, test n p b = Some r -> (n <= m)%nat -> test m p b = Some r) /\
     (forall p b, (2 <= p)%Z -> exists n r, test n p b = Some r) /\
     (forall n p b r, (5 <= p)%Z -> (P <= p)%Z -> near b (value x) (2 * k * Rabs (value x) * bpow radix2 (- p)) -> test n p b = Some r -> r <> None)) ->
    exists N c, forall n, (N <= n)%nat -> lt n x eq (test n) = Some (Ok c).
  Proof.
    intros W E C V Eb H. subst eq. destruct b0; [exists 0%nat, false; reflexivity|]. destruct (H eq_refl) as (Hmono & Hret & Hdec).
    destruct (search_terminates (fun n prec => match elem_arb n x prec with Some self => test n prec self | None => None end) ARB_PRECISION_FAST (Z.max 5 P)) as (N & c & Hs).
    - unfold ARB_PRECISION_FAST. lia.
    - intros n m p r En L. destruct (elem_arb n x p) as [b|] eqn:Eb; [|discriminate]. rewrite (elem_arb_mono A mag_up garb carb x p n m b Eb L). exact (Hmono n m p b r En L).
    - intros p Hp. unfold ARB_PRECISION_FAST in Hp. destruct (elem_arb_returns A S mag_up Hm garb carb rho k Hk Ht x p W E C V ltac:(lia)) as (n1 & b & E1). destruct (Hret p b ltac:(lia)) as (n2 & r & E2).
      exists (Nat.max n1 n2), r. rewrite (elem_arb_mono A mag_up garb carb x p n1 (Nat.max n1 n2) b E1 ltac:(lia)). exact (Hmono n2 (Nat.max n1 n2) p b r E2 ltac:(lia)).
    - intros n p r Hp En. destruct (elem_arb n x p) as [b|] eqn:Eb; [|discriminate]. apply (Hdec n p b r ltac:(lia) ltac:(lia)); [|exact En].
      apply (elem_arb_near A S HL mag_up Hm garb carb rho k Hk x p n); [exact W|exact E|lia|exact Eb].
    - exists N, c. intros n Hn. unfold Loops.lt, Loops.lt_search. rewrite (Hs n n Hn Hn). reflexivity.
  Qed.
  Lemma gt_terminates x eq (test : nat -> Z -> arb -> option (option bool)) : (exists N c, forall n, (N <= n)%nat -> lt n x eq (test n) = Some (Ok c)) ->
    exists N c, forall n, (N <= n)%nat -> gt n x eq (test n) = Some (Ok c).
  Proof.
    intros (N & c & H). destruct eq as [[|]|e].
    - exists 0%nat, false. reflexivity.
    - exists N, (negb c). intros n Hn. unfold Loops.gt. rewrite (H n Hn). reflexivity.
    - specialize (H N (le_n N)). discriminate.
  Qed.
  Lemma small_sum u w K d : d <> 0 -> 0 <= K -> exists P, forall p, (P <= p)%Z -> 2 * (2 * k * Rabs u * bpow radix2 (- p) + (2 * k * Rabs w + K) * bpow radix2 (- p)) < Rabs d.
  Proof.
    intros Hd HK. assert (D : 0 < Rabs d) by (apply Rabs_pos_lt, Hd). destruct (eventually_small (2 * (2 * k * Rabs u + (2 * k * Rabs w + K))) (Rabs d / 2) ltac:(lra)) as [P HP].
    exists P. intros p Hp. specialize (HP p Hp). lra.
  Qed.
  Lemma lt_elem_terminates x y b0 : elem_wf S x -> approximated x -> converging x -> (nonzero x = true -> value x <> 0) ->
    elem_wf S y -> approximated y -> converging y -> (nonzero y = true -> value y <> 0) -> equal x y = Ok b0 -> (b0 = false -> value x <> value y) ->
    exists N c, forall n, (N <= n)%nat -> lt_elem mag_up garb carb n x y = Some (Ok c).
  Proof.
    intros W E C V Wy Ey Cy Vy Eq N. destruct b0.
    { exists 0%nat, false. intros n _. unfold lt_elem. rewrite Eq. reflexivity. }
    destruct (small_sum (value x) (value y) 0 (value x - value y)) as [P HP]; [specialize (N eq_refl); lra|lra|].
    apply (lt_terminates x (equal x y) (fun n => test_elem mag_up garb carb n y) P false W E C V Eq). intros _. split; [|split].
    - unfold test_elem. intros n m p b r H L. destruct (elem_arb n y p) as [o|] eqn:Eo; [|discriminate]. rewrite (elem_arb_mono A mag_up garb carb y p n m o Eo L). exact H.
    - intros p b Hp. destruct (elem_arb_returns A S mag_up Hm garb carb rho k Hk Ht y p Wy Ey Cy Vy Hp) as (n & o & Eo). exists n. unfold test_elem. rewrite Eo. cbn. eauto.
    - intros n p b r H1 Hp Nb H. unfold test_elem in H. destruct (elem_arb n y p) as [o|] eqn:Eo; [|discriminate]. cbn in H. inversion H; subst. pose proof (elem_arb_near A S HL mag_up Hm garb carb rho k Hk y p n o Wy Ey H1 Eo) as No.
      apply (op_lt_decided b o _ _ _ _ Nb No). specialize (HP p Hp). lra.
  Qed.
  Lemma lt_real_terminates x g b0 : elem_wf S x -> approximated x -> converging x -> (nonzero x = true -> value x <> 0) ->
    (forall p, (2 <= p)%Z -> within k (garb g p) (gen_val rho g)) -> shrinks (garb g) -> eq_real x g = Ok b0 -> (b0 = false -> value x <> gen_val rho g) ->
    exists N c, forall n, (N <= n)%nat -> lt_real mag_up garb carb n x g = Some (Ok c).
  Proof.
    intros W E C V Eg Sg Eq N. destruct b0.
    { exists 0%nat, false. intros n _. unfold lt_real. rewrite Eq. reflexivity. }
    destruct (conv_intro k (garb g) (gen_val rho g) (proj1 Hk) Sg Eg) as (K & p0 & HK & Hp0 & HN).
    destruct (small_sum (value x) 0 K (value x - gen_val rho g)) as [P HP]; [specialize (N eq_refl); lra|exact HK|].
    apply (lt_terminates x (eq_real x g) (fun _ => test_real garb g) (Z.max p0 P) false W E C V Eq). intros _. split; [|split].
    - auto.
    - intros p b Hp. exists 0%nat. unfold test_real. eauto.
    - intros n p b r H1 Hp Nb H. unfold test_real in H. inversion H; subst. apply (op_lt_decided b _ _ _ _ _ Nb (HN p ltac:(lia))). specialize (HP p ltac:(lia)). rewrite Rabs_R0 in HP. lra.
  Qed.
  Lemma lt_int_terminates x n0 : elem_wf S x -> approximated x -> converging x -> (nonzero x = true -> value x <> 0) -> (eq_integer x n0 = false -> value x <> IZR n0) ->
    exists N c, forall n, (N <= n)%nat -> lt_int mag_up garb carb n x n0 = Some (Ok c).
  Proof.
    intros W E C V N. destruct (eq_integer x n0) eqn:Eq.
    { exists 0%nat, false. intros n _. unfold lt_int. rewrite Eq. reflexivity. }
    destruct (small_sum (value x) 0 0 (value x - IZR n0)) as [P HP]; [specialize (N eq_refl); lra|lra|].
    apply (lt_terminates x (Ok (eq_integer x n0)) (fun _ => test_int n0) P false W E C V); [congruence|]. intros _. split; [|split].
    - auto.
    - intros p b Hp. exists 0%nat. unfold test_int. eauto.
    - intros n p b r H1 Hp Nb H. unfold test_int in H. inversion H; subst. apply (op_lt_decided b _ _ _ _ _ Nb (arb_of_Z_near n0)). specialize (HP p Hp). rewrite Rabs_R0 in HP. lra.
  Qed.
  Lemma times_den_near b v e d : near b v e -> near (arb_times_den mag_up b d) (v * IZR d) (2 * (Rabs (IZR d) * e)).
  Proof. intros N. eapply near_weaken; [apply (mul_near mag_up None b (arb_of_Z d) v (IZR d) e 0 Hm Ht I N (arb_of_Z_near d))|]. cbn [perr]. lra. Qed.
  Lemma lt_rat_terminates x (q0 : Qc) : elem_wf S x -> approximated x -> converging x -> (nonzero x = true -> value x <> 0) -> (eq_rational x q0 = false -> value x <> Q2R q0) ->
    exists N c, forall n, (N <= n)%nat -> lt_rat mag_up garb carb n x q0 = Some (Ok c).
  Proof.
    intros W E C V N. destruct (eq_rational x q0) eqn:Eq.
    { exists 0%nat, false. intros n _. unfold lt_rat. rewrite Eq. reflexivity. }
    pose proof (qc_den_pos q0) as D.
    assert (NZ : value x * IZR (qc_den q0) - IZR (qc_num q0) <> 0).
    { specialize (N eq_refl). intros Z0. apply N. rewrite qc_num_den. apply Rmult_eq_reg_r with (IZR (qc_den q0)); [|lra]. unfold Rdiv. rewrite Rmult_assoc, Rinv_l by lra. lra. }
    destruct (small_sum 0 0 (4 * k * Rabs (value x) * IZR (qc_den q0)) _ NZ) as [P HP]; [pose proof (Rabs_pos (value x)); repeat apply Rmult_le_pos; lra|].
    apply (lt_terminates x (Ok (eq_rational x q0)) (fun _ => test_rat mag_up q0) P false W E C V); [congruence|]. intros _. split; [|split].
    - auto.
    - intros p b Hp. exists 0%nat. unfold test_rat. eauto.
    - intros n p b r H1 Hp Nb H. unfold test_rat, opq_lt in H. inversion H; subst. apply (op_lt_decided _ _ _ _ _ _ (times_den_near b _ _ (qc_den q0) Nb) (arb_of_Z_near (qc_num q0))). specialize (HP p Hp). rewrite Rabs_R0 in HP. rewrite (Rabs_pos_eq (IZR (qc_den q0))) by lra. lra.
  Qed.
End Loops.
