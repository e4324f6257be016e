(** How ball arithmetic converges. *)
From Coq Require Import ZArith QArith Bool List Reals Lia Lra Psatz.
From Flocq Require Import Core.
From Verif Require Import Arf Arb SpecArf ArfProofs ArbProofs Gen Ring SpecRing Module Element SpecModule Loops SpecLoops.
Import ListNotations.
Open Scope R_scope.

(** The midpoint is close to [v] and the radius is small. *)
Definition near (b : arb) (v eps : R) : Prop := arb_wf b /\ exists r, rad b = Some r /\ arf2R r <= eps /\ Rabs (v - arf2R (mid b)) <= eps.
Lemma near_weaken b v e e' : near b v e -> e <= e' -> near b v e'.
Proof. intros (E & r & Er & H & M) L. split; [exact E|]. exists r. split; [exact Er|lra]. Qed.
Lemma near_mid b v e : near b v e -> 0 <= e /\ Rabs (v - arf2R (mid b)) <= e /\ Rabs (arf2R (mid b)) <= Rabs v + e.
Proof.
  intros (W & r & Er & H & C). pose proof (arb_wf_rad b r W Er). split; [lra|]. split; [lra|].
  replace (arf2R (mid b)) with (v - (v - arf2R (mid b))) by ring. eapply Rle_trans; [apply Rabs_triang|]. rewrite Rabs_Ropp. lra.
Qed.
Lemma within_encloses b v : encloses b v <-> within 1 b v.
Proof. unfold encloses, within, contains. destruct (rad b); [rewrite Rmult_1_l|]; reflexivity. Qed.
Lemma within_weaken k k' b v : within k b v -> k <= k' -> within k' b v.
Proof. intros [W H] L. split; [exact W|]. destruct (rad b) as [r|] eqn:E; [|exact I]. pose proof (arb_wf_rad b r W E). nra. Qed.
(** A point of the ball near [v]. *)
Lemma within_point k b v : 1 <= k -> within k b v -> exists u, encloses b u /\ forall r, rad b = Some r -> Rabs (u - v) <= (k - 1) * arf2R r.
Proof.
  intros Hk [W H]. destruct (rad b) as [r|] eqn:E.
  - pose proof (arb_wf_rad b r W E) as P. set (m := arf2R (mid b)) in *. exists (m + (v - m) / k).
    assert (K0 : 0 < / k) by (apply Rinv_0_lt_compat; lra). assert (Q : Rabs ((v - m) / k) <= arf2R r).
    { unfold Rdiv. rewrite Rabs_mult, (Rabs_pos_eq (/ k)) by lra. apply Rmult_le_reg_r with k; [lra|]. rewrite Rmult_assoc, Rinv_l by lra. lra. }
    split.
    + split; [exact W|]. unfold contains. rewrite E. fold m. replace (m + (v - m) / k - m) with ((v - m) / k) by ring. exact Q.
    + intros r' [= <-]. replace (m + (v - m) / k - v) with (- (k - 1) * ((v - m) / k)) by (field; lra). rewrite Rabs_mult, Rabs_Ropp, (Rabs_pos_eq (k - 1)) by lra. apply Rmult_le_compat_l; lra.
  - exists v. split; [split; [exact W|unfold contains; rewrite E; exact I]|discriminate].
Qed.
Definition perr (prec : option Z) : R := match prec with None => 0 | Some p => bpow radix2 (- p) end.
Lemma perr_nonneg prec : 0 <= perr prec.
Proof. destruct prec; cbn; [left; apply bpow_gt_0|lra]. Qed.
Lemma round_err_le prec e : arf2R (round_err prec e) <= 2 * perr prec * Rabs (arf2R e).
Proof.
  destruct prec as [p|]; cbn [round_err perr]; [|rewrite arf_zero_spec; lra]. destruct (arf_eqb _ e) eqn:E.
  - rewrite arf_zero_spec. pose proof (bpow_gt_0 radix2 (- p)). pose proof (Rabs_pos (arf2R e)). nra.
  - assert (N : am e <> 0%Z).
    { intros N. assert (T : arf_eqb (arf_round DOWN p e) e = true); [|congruence]. destruct e as [m k]. cbn in N. subst m. unfold arf_round, round_q. cbn.
      unfold arf_eqb, arf_cmp. cbn. reflexivity. }
    destruct (arf_expo_spec e N) as [H _]. unfold arf2R at 1. cbn [am ae]. unfold Zminus. rewrite bpow_plus.
    assert (B : bpow radix2 (arf_expo e) = 2 * bpow radix2 (arf_expo e - 1)) by (unfold Zminus; rewrite bpow_plus; cbn; field).
    rewrite B. pose proof (bpow_gt_0 radix2 (- p)). nra.
Qed.
Lemma mk_ball_near mag_up prec e r v d : mag_up_ok mag_up -> mag_up_tight mag_up -> prec_ok prec -> 0 <= arf2R r -> arf2R r <= d ->
  Rabs (v - arf2R e) <= d -> near (mk_ball mag_up prec e (Some r)) v (2 * d + 4 * perr prec * Rabs (arf2R e)).
Proof.
  intros Hm Ht Hp Hr Hd Hv. pose proof (round_err_nonneg prec e) as N1. pose proof (round_err_le prec e) as N2.
  assert (S0 : arf2R (arf_add_exact r (round_err prec e)) = arf2R r + arf2R (round_err prec e)) by apply arf_add_exact_spec.
  split; [|exists (mag_up (arf_add_exact r (round_err prec e))); split; [reflexivity|split]].
  - unfold arb_wf, mk_ball. cbn. apply mag_up_wf; [exact Hm|]. lra.
  - eapply Rle_trans; [apply Ht; lra|]. lra.
  - cbn [mid mk_ball]. pose proof (round_err_spec prec e Hp) as RE. replace (v - arf2R (round_mid prec e)) with ((v - arf2R e) + (arf2R e - arf2R (round_mid prec e))) by ring. eapply Rle_trans; [apply Rabs_triang|]. lra.
Qed.
Lemma add_near mag_up prec x y u w e d : mag_up_ok mag_up -> mag_up_tight mag_up -> prec_ok prec -> near x u e -> near y w d ->
  near (arb_add mag_up prec x y) (u + w) (2 * (e + d) + 4 * perr prec * (Rabs u + Rabs w + e + d)).
Proof.
  intros Hm Ht Hp Nx Ny. pose proof (near_mid x u e Nx) as (He & Hu & Mx). pose proof (near_mid y w d Ny) as (Hd & Hw & My). pose proof (perr_nonneg prec) as P.
  destruct Nx as (Wx & rx & Ex & Rx & _), Ny as (Wy & ry & Ey & Ry & _). pose proof (arb_wf_rad x rx Wx Ex). pose proof (arb_wf_rad y ry Wy Ey).
  unfold arb_add, rad2. rewrite Ex, Ey. eapply near_weaken.
  - apply (mk_ball_near mag_up prec _ _ _ (e + d)); try assumption; rewrite ?arf_add_exact_spec; try lra.
    replace (u + w - (arf2R (mid x) + arf2R (mid y))) with ((u - arf2R (mid x)) + (w - arf2R (mid y))) by ring.
    eapply Rle_trans; [apply Rabs_triang|]. lra.
  - rewrite arf_add_exact_spec. pose proof (Rabs_triang (arf2R (mid x)) (arf2R (mid y))). nra.
Qed.
Lemma mul_near mag_up prec x y u w e d : mag_up_ok mag_up -> mag_up_tight mag_up -> prec_ok prec -> near x u e -> near y w d ->
  near (arb_mul mag_up prec x y) (u * w) (2 * ((Rabs u + e) * d + (Rabs w + d) * e + e * d) + 4 * perr prec * ((Rabs u + e) * (Rabs w + d))).
Proof.
  intros Hm Ht Hp Nx Ny. pose proof (near_mid x u e Nx) as (He & Hu & Mx). pose proof (near_mid y w d Ny) as (Hd & Hw & My). pose proof (perr_nonneg prec) as P.
  destruct Nx as (Wx & rx & Ex & Rx & _), Ny as (Wy & ry & Ey & Ry & _). pose proof (arb_wf_rad x rx Wx Ex) as Px. pose proof (arb_wf_rad y ry Wy Ey) as Py.
  pose proof (Rabs_pos (arf2R (mid x))) as Ax. pose proof (Rabs_pos (arf2R (mid y))) as Ay.
  unfold arb_mul, rad2. rewrite Ex, Ey.
  assert (M1 : Rabs (arf2R (mid x)) * d <= (Rabs u + e) * d) by (apply Rmult_le_compat_r; lra). assert (M2 : Rabs (arf2R (mid y)) * e <= (Rabs w + d) * e) by (apply Rmult_le_compat_r; lra).
  eapply near_weaken.
  - apply (mk_ball_near mag_up prec _ _ _ ((Rabs u + e) * d + (Rabs w + d) * e + e * d)); try assumption; rewrite ?arf_add_exact_spec, ?arf_mul_exact_spec, ?arf_abs_spec.
    + assert (0 <= Rabs (arf2R (mid x)) * arf2R ry) by (apply Rmult_le_pos; assumption). assert (0 <= Rabs (arf2R (mid y)) * arf2R rx) by (apply Rmult_le_pos; assumption). assert (0 <= arf2R rx * arf2R ry) by (apply Rmult_le_pos; assumption). lra.
    + assert (Rabs (arf2R (mid x)) * arf2R ry <= (Rabs u + e) * d) by (apply Rmult_le_compat; lra). assert (Rabs (arf2R (mid y)) * arf2R rx <= (Rabs w + d) * e) by (apply Rmult_le_compat; lra).
      assert (arf2R rx * arf2R ry <= e * d) by (apply Rmult_le_compat; lra). rewrite ?arf_add_exact_spec, ?arf_mul_exact_spec, ?arf_abs_spec. lra.
    + replace (u * w - arf2R (mid x) * arf2R (mid y)) with (arf2R (mid x) * (w - arf2R (mid y)) + (arf2R (mid y) * (u - arf2R (mid x)) + (u - arf2R (mid x)) * (w - arf2R (mid y)))) by ring.
      assert (T1 : Rabs (arf2R (mid x) * (w - arf2R (mid y))) <= Rabs (arf2R (mid x)) * d) by (rewrite Rabs_mult; apply Rmult_le_compat_l; assumption).
      assert (T2 : Rabs (arf2R (mid y) * (u - arf2R (mid x))) <= Rabs (arf2R (mid y)) * e) by (rewrite Rabs_mult; apply Rmult_le_compat_l; assumption).
      assert (T3 : Rabs ((u - arf2R (mid x)) * (w - arf2R (mid y))) <= e * d) by (rewrite Rabs_mult; apply Rmult_le_compat; try apply Rabs_pos; assumption).
      eapply Rle_trans; [apply Rabs_triang|]. eapply Rle_trans; [apply Rplus_le_compat_l, Rabs_triang|]. lra.
  - rewrite arf_mul_exact_spec, Rabs_mult. assert (Rabs (arf2R (mid x)) * Rabs (arf2R (mid y)) <= (Rabs u + e) * (Rabs w + d)) by (apply Rmult_le_compat; lra). nra.
Qed.
Lemma exact_near b v : arb_wf b -> rad b = Some arf_zero -> v = arf2R (mid b) -> near b v 0.
Proof. intros W E ->. split; [exact W|]. exists arf_zero. split; [exact E|]. rewrite arf_zero_spec, Rminus_diag_eq, Rabs_R0 by reflexivity. lra. Qed.

(** * Convergence *)
Definition conv (f : Z -> arb) (v : R) : Prop := exists K p0, 0 <= K /\ (1 <= p0)%Z /\ forall p, (p0 <= p)%Z -> near (f p) v (K * bpow radix2 (- p)).
Lemma conv_intro k f v : 1 <= k -> shrinks f -> (forall p, (2 <= p)%Z -> within k (f p) v) -> conv f v.
Proof.
  intros Hk (K & p0 & H) E. exists (k * Rmax K 0), (Z.max 2 p0). pose proof (Rmax_r K 0) as M0. split; [apply Rmult_le_pos; lra|]. split; [lia|]. intros p Hp. destruct (H p) as (r & Er & Hr); [lia|].
  destruct (E p ltac:(lia)) as [W C]. pose proof (arb_wf_rad _ r W Er) as Pr. rewrite Er in C.
  assert (R1 : arf2R r <= Rmax K 0 * bpow radix2 (- p)) by (eapply Rle_trans; [exact Hr|]; apply Rmult_le_compat_r; [left; apply bpow_gt_0|apply Rmax_l]).
  split; [exact W|]. exists r. split; [exact Er|]. rewrite Rmult_assoc. assert (k * arf2R r <= k * (Rmax K 0 * bpow radix2 (- p))) by (apply Rmult_le_compat_l; lra). split; [nra|lra].
Qed.
Lemma bpow_neg_le1 p : (1 <= p)%Z -> 0 < bpow radix2 (- p) <= 1.
Proof. intros H. split; [apply bpow_gt_0|]. change 1 with (bpow radix2 0). apply bpow_le. lia. Qed.
Lemma conv_add mag_up f g u w : mag_up_ok mag_up -> mag_up_tight mag_up -> conv f u -> conv g w -> conv (fun p => arb_add mag_up (Some p) (f p) (g p)) (u + w).
Proof.
  intros Hm Ht (K & p0 & HK & H0 & Hf) (J & q0 & HJ & G0 & Hg). exists (2 * (K + J) + 4 * (Rabs u + Rabs w + K + J)), (Z.max p0 q0).
  pose proof (Rabs_pos u). pose proof (Rabs_pos w). split; [lra|]. split; [lia|]. intros p Hp. pose proof (bpow_neg_le1 p ltac:(lia)) as [B1 B2].
  eapply near_weaken; [apply (add_near mag_up (Some p) (f p) (g p) u w (K * bpow radix2 (- p)) (J * bpow radix2 (- p)) Hm Ht); [cbn; lia|apply Hf; lia|apply Hg; lia]|]. cbn [perr]. set (b := bpow radix2 (- p)) in *.
  assert (4 * b * (Rabs u + Rabs w + K * b + J * b) <= 4 * b * (Rabs u + Rabs w + K + J)) by (apply Rmult_le_compat_l; nra). lra.
Qed.
Lemma conv_mul mag_up f g u w : mag_up_ok mag_up -> mag_up_tight mag_up -> conv f u -> conv g w -> conv (fun p => arb_mul mag_up (Some p) (f p) (g p)) (u * w).
Proof.
  intros Hm Ht (K & p0 & HK & H0 & Hf) (J & q0 & HJ & G0 & Hg). pose proof (Rabs_pos u). pose proof (Rabs_pos w).
  exists (2 * ((Rabs u + K) * J + (Rabs w + J) * K + K * J) + 4 * ((Rabs u + K) * (Rabs w + J))), (Z.max p0 q0).
  split; [nra|]. split; [lia|]. intros p Hp. pose proof (bpow_neg_le1 p ltac:(lia)) as [B1 B2].
  eapply near_weaken; [apply (mul_near mag_up (Some p) (f p) (g p) u w (K * bpow radix2 (- p)) (J * bpow radix2 (- p)) Hm Ht); [cbn; lia|apply Hf; lia|apply Hg; lia]|]. cbn [perr]. set (b := bpow radix2 (- p)) in *.
  set (a := Rabs u) in *. set (c := Rabs w) in *.
  assert (E1 : (a + K * b) * (J * b) <= (a + K) * J * b) by (replace ((a + K) * J * b) with ((a + K) * (J * b)) by ring; apply Rmult_le_compat_r; nra).
  assert (E2 : (c + J * b) * (K * b) <= (c + J) * K * b) by (replace ((c + J) * K * b) with ((c + J) * (K * b)) by ring; apply Rmult_le_compat_r; nra).
  assert (E3 : K * b * (J * b) <= K * J * b) by (replace (K * J * b) with (K * (J * b)) by ring; replace (K * b * (J * b)) with (b * (K * (J * b))) by ring; assert (0 <= K * (J * b)) by (apply Rmult_le_pos; nra); nra).
  assert (E4 : (a + K * b) * (c + J * b) <= (a + K) * (c + J)) by (apply Rmult_le_compat; nra).
  assert (E5 : 4 * b * ((a + K * b) * (c + J * b)) <= 4 * b * ((a + K) * (c + J))) by (apply Rmult_le_compat_l; lra). lra.
Qed.
Lemma conv_exact b v : near b v 0 -> conv (fun _ => b) v.
Proof. intros H. exists 0, 1%Z. split; [lra|]. split; [lia|]. intros p _. eapply near_weaken; [exact H|]. lra. Qed.
(** Eventually smaller than anything positive. *)
Lemma eventually_small K eta : 0 < eta -> exists P, forall p, (P <= p)%Z -> K * bpow radix2 (- p) <= eta.
Proof.
  intros He. set (k := Rmax K 1). assert (Hk : 1 <= k) by apply Rmax_r. exists (mag radix2 (k / eta)). intros p Hp.
  assert (B : k / eta < bpow radix2 p).
  { eapply Rlt_le_trans; [|apply bpow_le, Hp]. eapply Rle_lt_trans; [apply RRle_abs|]. apply bpow_mag_gt. }
  rewrite bpow_opp. pose proof (bpow_gt_0 radix2 p) as B0. apply Rmult_lt_compat_r with (r := eta) in B; [|exact He]. unfold Rdiv in B. rewrite Rmult_assoc, Rinv_l, Rmult_1_r in B by lra.
  assert (K <= k) by apply Rmax_l. apply Rmult_le_reg_r with (bpow radix2 p); [exact B0|]. rewrite Rmult_assoc, Rinv_l, Rmult_1_r by lra. lra.
Qed.
(** A ball close to a number other than zero is is_accurate. *)
Lemma near_accuracy b v e acc : near b v e -> v <> 0 -> (0 <= acc)%Z -> e * bpow radix2 (acc + 2) <= Rabs v -> is_accurate acc b = true.
Proof.
  intros N Hv Ha H. pose proof (near_mid b v e N) as (He & Hm & _). destruct N as (W & r & Er & Hr & C). pose proof (arb_wf_rad b r W Er) as Pr.
  unfold is_accurate, arb_is_exact, rel_accuracy_bits. rewrite Er. destruct (Z.eqb_spec (am r) 0) as [Z0|Z0]; [reflexivity|]. cbn [orb]. apply Z.leb_le.
  assert (V : 0 < Rabs v) by (apply Rabs_pos_lt, Hv).
  assert (B4 : 4 <= bpow radix2 (acc + 2)) by (change 4 with (bpow radix2 2); apply bpow_le; lia).
  assert (H2 : e <= Rabs v / 4) by nra.
  assert (M : Rabs v / 2 < Rabs (arf2R (mid b))).
  { pose proof (Rabs_triang_inv v (v - arf2R (mid b))) as T. replace (v - (v - arf2R (mid b))) with (arf2R (mid b)) in T by ring. lra. }
  destruct (Z.eqb_spec (am (mid b)) 0) as [Z1|Z1].
  - exfalso. unfold arf2R in M. rewrite Z1, Rmult_0_l, Rabs_R0 in M. lra.
  - destruct (arf_expo_spec r Z0) as [R1 _]. destruct (arf_expo_spec (mid b) Z1) as [_ R2]. rewrite Rabs_pos_eq in R1 by exact Pr.
    apply Z.nlt_ge. intros F. assert (F' : (arf_expo (mid b) <= (arf_expo r - 1) + (acc + 1))%Z) by lia. apply (bpow_le radix2) in F'. rewrite bpow_plus in F'.
    assert (B : bpow radix2 (acc + 2) = 2 * bpow radix2 (acc + 1)) by (replace (acc + 2)%Z with (1 + (acc + 1))%Z by lia; rewrite bpow_plus; reflexivity).
    pose proof (bpow_gt_0 radix2 (acc + 1)). nra.
Qed.
(** An accurate ball is close to the number. *)
Lemma accuracy_near k b v acc : 1 <= k <= 8 -> within k b v -> (5 <= acc)%Z -> is_accurate acc b = true ->
  near b v (2 * k * Rabs v * bpow radix2 (- acc)) /\ exists r, rad b = Some r /\ arf2R r <= Rabs (arf2R (mid b)) * bpow radix2 (- acc) /\ arf2R r <= 2 * Rabs v * bpow radix2 (- acc).
Proof.
  intros Hk [W C] Ha H. unfold is_accurate, arb_is_exact, rel_accuracy_bits in H. destruct (rad b) as [r|] eqn:Er; [|apply Z.leb_le in H; unfold ARF_PREC_EXACT in H; lia]. pose proof (arb_wf_rad b r W Er) as Pr.
  assert (Q : arf2R r <= Rabs (arf2R (mid b)) * bpow radix2 (- acc)).
  { destruct (Z.eqb_spec (am r) 0) as [Z0|Z0].
    - unfold arf2R at 1. rewrite Z0, Rmult_0_l. pose proof (Rabs_pos (arf2R (mid b))). pose proof (bpow_gt_0 radix2 (- acc)). nra.
    - cbn [orb] in H. apply Z.leb_le in H. destruct (Z.eqb_spec (am (mid b)) 0) as [Z1|Z1]; [unfold ARF_PREC_EXACT in H; lia|].
      destruct (arf_expo_spec r Z0) as [_ R1]. destruct (arf_expo_spec (mid b) Z1) as [R2 _]. rewrite Rabs_pos_eq in R1 by exact Pr.
      assert (F : (arf_expo r <= (arf_expo (mid b) - 1) + - acc)%Z) by lia. apply (bpow_le radix2) in F. rewrite bpow_plus in F. pose proof (bpow_gt_0 radix2 (- acc)). nra. }
  assert (B : 0 < bpow radix2 (- acc) <= / 32).
  { split; [apply bpow_gt_0|]. change (/ 32) with (bpow radix2 (-5)). apply bpow_le. lia. }
  set (m := Rabs (arf2R (mid b))) in *. assert (M0 : 0 <= m) by apply Rabs_pos. set (bb := bpow radix2 (- acc)) in *.
  assert (R32 : arf2R r <= m * / 32) by (eapply Rle_trans; [exact Q|]; apply Rmult_le_compat_l; lra).
  assert (R8 : k * arf2R r <= 8 * arf2R r) by (apply Rmult_le_compat_r; lra).
  assert (M : m <= Rabs v + k * arf2R r).
  { unfold m. replace (arf2R (mid b)) with (v - (v - arf2R (mid b))) by ring. eapply Rle_trans; [apply Rabs_triang|]. rewrite Rabs_Ropp. lra. }
  assert (M2 : m <= 2 * Rabs v) by lra. assert (RV : arf2R r <= 2 * Rabs v * bb) by (eapply Rle_trans; [exact Q|]; apply Rmult_le_compat_r; lra).
  split; [|exists r; auto]. assert (KR : k * arf2R r <= k * (2 * Rabs v * bb)) by (apply Rmult_le_compat_l; lra).
  split; [exact W|]. exists r. split; [exact Er|]. split; [nra|lra].
Qed.
