(** Arithmetic of floats that may be infinite or NaN. *)
From Coq Require Import ZArith Bool Reals Lra Lia.
From Flocq Require Import Core.
From Coquelicot Require Import Rbar Lim_seq.
From Verif Require Import Arf Arb SpecArf ArfProofs Double SpecDouble Text Special SpecSpecial.
Open Scope R_scope.

(** * Sequences *)
Definition up : nat -> R := fun n => INR n + 1.
Lemma up_lim : is_lim_seq up p_infty.
Proof.
  apply (is_lim_seq_plus INR (fun _ => 1) p_infty 1 p_infty); [exact is_lim_seq_INR|apply is_lim_seq_const|reflexivity].
Qed.
Lemma up_pos n : 0 < up n.
Proof. unfold up. pose proof (pos_INR n). lra. Qed.
Lemma scaled_lim c : c <> 0 -> is_lim_seq (fun n => c * up n) (if Rlt_dec 0 c then p_infty else m_infty).
Proof.
  intros Hc. apply (is_lim_seq_mult (fun _ => c) up c p_infty); [apply is_lim_seq_const|exact up_lim|].
  apply is_Rbar_mult_sym. destruct (Rlt_dec 0 c) as [H|H]; [apply is_Rbar_mult_p_infty_pos; exact H|].
  apply is_Rbar_mult_p_infty_neg. cbn. lra.
Qed.
Lemma pos_lim c : 0 < c -> is_lim_seq (fun n => c * up n) p_infty.
Proof. intros H. pose proof (scaled_lim c ltac:(lra)) as L. destruct (Rlt_dec 0 c); [exact L|lra]. Qed.
Lemma neg_lim c : c < 0 -> is_lim_seq (fun n => c * up n) m_infty.
Proof. intros H. pose proof (scaled_lim c ltac:(lra)) as L. destruct (Rlt_dec 0 c); [lra|exact L]. Qed.
Lemma down_lim c : is_lim_seq (fun n => c / up n) 0.
Proof.
  apply (is_lim_seq_div (fun _ => c) up c p_infty 0); [apply is_lim_seq_const|exact up_lim|discriminate|apply is_Rbar_div_p_infty].
Qed.
Lemma const_eq (f : nat -> R) c : (forall n, f n = c) -> is_lim_seq f c.
Proof. intros H. apply is_lim_seq_ext with (u := fun _ => c); [intros n; symmetry; apply H|apply is_lim_seq_const]. Qed.
Lemma lim_eq (f g : nat -> R) l : (forall n, g n = f n) -> is_lim_seq f l -> is_lim_seq g l.
Proof. intros H L. apply is_lim_seq_ext with (u := f); [intros n; symmetry; apply H|exact L]. Qed.

(** * Addition *)
Lemma op_limit_plus u v w : is_Rbar_plus u v w -> op_limit Rplus u v w.
Proof. intros H s t Hs Ht. exact (is_lim_seq_plus s t u v w Hs Ht H). Qed.
Lemma undetermined_plus : undetermined Rplus p_infty m_infty /\ undetermined Rplus m_infty p_infty.
Proof.
  assert (P : is_lim_seq (fun n => 1 * up n) p_infty) by (apply pos_lim; lra).
  assert (M : is_lim_seq (fun n => -1 * up n) m_infty) by (apply neg_lim; lra).
  assert (P2 : is_lim_seq (fun n => 1 * up n + 1) p_infty).
  { apply (is_lim_seq_plus _ (fun _ => 1) p_infty 1 p_infty); [exact P|apply is_lim_seq_const|reflexivity]. }
  split; exists 0, 1; (split; [intros [= H]; lra|]); split.
  - exists (fun n => 1 * up n), (fun n => -1 * up n). split; [exact P|split; [exact M|apply const_eq; intros; ring]].
  - exists (fun n => 1 * up n + 1), (fun n => -1 * up n). split; [exact P2|split; [exact M|apply const_eq; intros; ring]].
  - exists (fun n => -1 * up n), (fun n => 1 * up n). split; [exact M|split; [exact P|apply const_eq; intros; ring]].
  - exists (fun n => -1 * up n), (fun n => 1 * up n + 1). split; [exact M|split; [exact P2|apply const_eq; intros; ring]].
Qed.
Lemma x_round_value prec md a : prec_ok prec -> xvalue (x_round prec md a) = Some (xrounded prec md (Rbar.Finite (arf2R a))).
Proof.
  intros Hp. unfold x_round, xvalue, xrounded. destruct prec as [p|]; [|reflexivity]. do 2 f_equal. apply arf_round_spec. exact Hp.
Qed.
Lemma x_add_ok prec md x y : prec_ok prec -> xresult Rplus prec md x y (x_add prec md x y).
Proof.
  intros Hp. destruct undetermined_plus as [U1 U2]. destruct x as [a| | |], y as [b| | |]; unfold x_add, xresult; cbn [xvalue]; try reflexivity; try assumption.
  - rewrite x_round_value by exact Hp. eexists. split; [|reflexivity]. apply op_limit_plus. rewrite arf_add_exact_spec. reflexivity.
  - exists p_infty. split; [apply op_limit_plus; reflexivity|reflexivity].
  - exists m_infty. split; [apply op_limit_plus; reflexivity|reflexivity].
  - exists p_infty. split; [apply op_limit_plus; reflexivity|reflexivity].
  - exists p_infty. split; [apply op_limit_plus; reflexivity|reflexivity].
  - exists m_infty. split; [apply op_limit_plus; reflexivity|reflexivity].
  - exists m_infty. split; [apply op_limit_plus; reflexivity|reflexivity].
Qed.

(** * Subtraction *)
Lemma op_limit_minus u v w : op_limit Rplus u (Rbar_opp v) w -> op_limit Rminus u v w.
Proof. intros H s t Hs Ht. exact (H s (fun n => - t n) Hs (proj1 (is_lim_seq_opp t v) Ht)). Qed.
Lemma undetermined_minus u v : undetermined Rplus u (Rbar_opp v) -> undetermined Rminus u v.
Proof.
  intros (w & w' & Hw & (s & t & Hs & Ht & L) & (s' & t' & Hs' & Ht' & L')). exists w, w'. split; [exact Hw|].
  assert (O : forall t, is_lim_seq t (Rbar_opp v) -> is_lim_seq (fun n => - t n) v).
  { intros r Hr. rewrite <- (Rbar_opp_involutive v). exact (proj1 (is_lim_seq_opp r (Rbar_opp v)) Hr). }
  split; [exists s, (fun n => - t n)|exists s', (fun n => - t' n)]; (split; [assumption|split; [apply O; assumption|]]).
  - apply lim_eq with (2 := L). intros n. ring.
  - apply lim_eq with (2 := L'). intros n. ring.
Qed.
Lemma xvalue_neg x : xvalue (x_neg x) = option_map Rbar_opp (xvalue x).
Proof. destruct x; cbn [x_neg xvalue option_map Rbar_opp]; try reflexivity. rewrite arf_neg_spec. reflexivity. Qed.
Lemma x_sub_ok prec md x y : prec_ok prec -> xresult Rminus prec md x y (x_sub prec md x y).
Proof.
  intros Hp. pose proof (x_add_ok prec md x (x_neg y) Hp) as H. unfold x_sub. unfold xresult in *. rewrite xvalue_neg in H.
  destruct (xvalue x) as [u|], (xvalue y) as [v|]; cbn [option_map] in H; try exact H.
  destruct (xvalue (x_add prec md x (x_neg y))) as [w|].
  - destruct H as (w0 & L & E). exists w0. split; [apply op_limit_minus; exact L|exact E].
  - apply undetermined_minus. exact H.
Qed.

(** * Multiplication *)
Lemma op_limit_mult u v w : is_Rbar_mult u v w -> op_limit Rmult u v w.
Proof. intros H s t Hs Ht. exact (is_lim_seq_mult s t u v w Hs Ht H). Qed.
Lemma op_limit_sym u v w : op_limit Rmult u v w -> op_limit Rmult v u w.
Proof. intros H s t Hs Ht. apply lim_eq with (f := fun n => t n * s n); [intros; ring|exact (H t s Ht Hs)]. Qed.
Lemma undetermined_sym u v : undetermined Rmult u v -> undetermined Rmult v u.
Proof.
  intros (w & w' & Hw & (s & t & Hs & Ht & L) & (s' & t' & Hs' & Ht' & L')). exists w, w'. split; [exact Hw|].
  split; [exists t, s|exists t', s']; (split; [assumption|split; [assumption|]]).
  - apply lim_eq with (2 := L). intros; ring.
  - apply lim_eq with (2 := L'). intros; ring.
Qed.
Lemma undetermined_mult c : c <> 0 -> undetermined Rmult 0 (if Rlt_dec 0 c then p_infty else m_infty).
Proof.
  intros Hc. pose proof (scaled_lim c Hc) as L. exists 0, 1. split; [intros [= H]; lra|]. split.
  - exists (fun _ => 0), (fun n => c * up n). split; [apply is_lim_seq_const|split; [exact L|apply const_eq; intros; ring]].
  - exists (fun n => (1 / c) / up n), (fun n => c * up n). split; [apply down_lim|split; [exact L|]].
    apply const_eq. intros n. field. split; [exact Hc|]. pose proof (up_pos n). lra.
Qed.
Lemma undetermined_mult_inf : undetermined Rmult 0 p_infty /\ undetermined Rmult 0 m_infty.
Proof.
  split.
  - pose proof (undetermined_mult 1 ltac:(lra)) as U. destruct (Rlt_dec 0 1); [exact U|lra].
  - pose proof (undetermined_mult (-1) ltac:(lra)) as U. destruct (Rlt_dec 0 (-1)); [lra|exact U].
Qed.
Lemma arf_sgn_cases a : (am a = 0%Z /\ arf2R a = 0) \/ (Z.sgn (am a) = 1%Z /\ (am a =? 0)%Z = false /\ 0 < arf2R a) \/ (Z.sgn (am a) = (-1)%Z /\ (am a =? 0)%Z = false /\ arf2R a < 0).
Proof.
  unfold arf2R. pose proof (bpow_gt_0 radix2 (ae a)) as B. destruct (Z.lt_trichotomy (am a) 0) as [L|[E|G]].
  - right. right. split; [apply Z.sgn_neg; exact L|]. split; [apply Z.eqb_neq; lia|]. apply (IZR_lt (am a) 0) in L. apply Rlt_le_trans with (0 * bpow radix2 (ae a)); [apply Rmult_lt_compat_r; assumption|lra].
  - left. split; [exact E|]. rewrite E. ring.
  - right. left. split; [apply Z.sgn_pos; exact G|]. split; [apply Z.eqb_neq; lia|]. apply Rmult_lt_0_compat; [apply (IZR_lt 0); exact G|exact B].
Qed.
(** A float times an infinity *)
Lemma x_mul_inf prec md a (positive : bool) :
  xresult Rmult prec md (Text.Finite a) (x_signed_inf positive) (x_mul prec md (Text.Finite a) (x_signed_inf positive)).
Proof.
  destruct undetermined_mult_inf as [U1 U2]. destruct (arf_sgn_cases a) as [(E & V)|[(E & N & V)|(E & N & V)]], positive;
    unfold x_mul, xresult, x_signed_inf; cbn [xvalue x_zero x_sgn orb]; rewrite ?E, ?N; cbn [Z.eqb orb xvalue Pos.eqb]; rewrite ?V; try assumption.
  - exists p_infty. split; [|reflexivity]. apply op_limit_mult, is_Rbar_mult_sym. apply is_Rbar_mult_p_infty_pos. exact V.
  - exists m_infty. split; [|reflexivity]. apply op_limit_mult, is_Rbar_mult_sym. apply is_Rbar_mult_m_infty_pos. exact V.
  - exists m_infty. split; [|reflexivity]. apply op_limit_mult, is_Rbar_mult_sym. apply is_Rbar_mult_p_infty_neg. exact V.
  - exists p_infty. split; [|reflexivity]. apply op_limit_mult, is_Rbar_mult_sym. apply is_Rbar_mult_m_infty_neg. exact V.
Qed.
Lemma x_mul_inf_sym prec md a positive : x_mul prec md (x_signed_inf positive) (Text.Finite a) = x_mul prec md (Text.Finite a) (x_signed_inf positive).
Proof. destruct positive; unfold x_mul, x_signed_inf; cbn [x_zero orb]; rewrite orb_false_r, (Z.eqb_sym (x_sgn (Text.Finite a))); reflexivity. Qed.
Lemma xresult_sym prec md x y z : xresult Rmult prec md x y z -> xresult Rmult prec md y x z.
Proof.
  unfold xresult. destruct (xvalue x), (xvalue y); try exact (fun H => H). destruct (xvalue z).
  - intros (w & L & E). exists w. split; [apply op_limit_sym; exact L|exact E].
  - apply undetermined_sym.
Qed.
Lemma x_mul_ok prec md x y : prec_ok prec -> xresult Rmult prec md x y (x_mul prec md x y).
Proof.
  intros Hp. destruct x as [a| | |], y as [b| | |]; try reflexivity.
  - unfold x_mul, xresult. cbn [xvalue]. rewrite x_round_value by exact Hp. eexists. split; [|reflexivity]. apply op_limit_mult. rewrite arf_mul_exact_spec. reflexivity.
  - apply (x_mul_inf prec md a true).
  - apply (x_mul_inf prec md a false).
  - apply xresult_sym. change PosInf with (x_signed_inf true). rewrite x_mul_inf_sym. apply x_mul_inf.
  - exists p_infty. split; [apply op_limit_mult; reflexivity|reflexivity].
  - exists m_infty. split; [apply op_limit_mult; reflexivity|reflexivity].
  - apply xresult_sym. change NegInf with (x_signed_inf false). rewrite x_mul_inf_sym. apply x_mul_inf.
  - exists m_infty. split; [apply op_limit_mult; reflexivity|reflexivity].
  - exists p_infty. split; [apply op_limit_mult; reflexivity|reflexivity].
Qed.

(** * Division *)
Lemma undetermined_div_zero u : undetermined Rdiv u 0.
Proof.
  assert (D : is_lim_seq (fun n => 1 / up n) 0) by apply down_lim.
  assert (D' : is_lim_seq (fun n => -1 / up n) 0) by apply down_lim.
  assert (Q : forall c x n, c <> 0 -> x / (c / up n) = x / c * up n).
  { intros c x n Hc. pose proof (up_pos n). field. split; [exact Hc|lra]. }
  destruct u as [a| |].
  - destruct (Req_dec a 0) as [->|Ha].
    + exists 0, 1. split; [intros [= H]; lra|]. split.
      * exists (fun _ => 0), (fun n => 1 / up n). split; [apply is_lim_seq_const|split; [exact D|]]. apply const_eq. intros n. rewrite Q by lra. field.
      * exists (fun n => 1 / up n), (fun n => 1 / up n). split; [exact D|split; [exact D|]]. apply const_eq. intros n. pose proof (up_pos n). field. lra.
    + exists p_infty, m_infty. split; [discriminate|]. split.
      * exists (fun _ => a), (fun n => a / up n). split; [apply is_lim_seq_const|split; [apply down_lim|]].
        apply lim_eq with (f := fun n => 1 * up n); [|apply pos_lim; lra]. intros n. rewrite Q by exact Ha. field. exact Ha.
      * exists (fun _ => a), (fun n => - a / up n). split; [apply is_lim_seq_const|split; [apply down_lim|]].
        apply lim_eq with (f := fun n => -1 * up n); [|apply neg_lim; lra]. intros n. rewrite Q by lra. field. exact Ha.
  - exists p_infty, m_infty. split; [discriminate|]. split.
    + exists up, (fun n => 1 / up n). split; [exact up_lim|split; [exact D|]].
      apply lim_eq with (f := fun n => up n * up n); [intros n; rewrite Q by lra; field|]. apply (is_lim_seq_mult up up p_infty p_infty p_infty); [exact up_lim|exact up_lim|reflexivity].
    + exists up, (fun n => -1 / up n). split; [exact up_lim|split; [exact D'|]].
      apply lim_eq with (f := fun n => (-1 * up n) * up n); [intros n; rewrite Q by lra; field|].
      apply (is_lim_seq_mult (fun n => -1 * up n) up m_infty p_infty m_infty); [apply neg_lim; lra|exact up_lim|reflexivity].
  - exists p_infty, m_infty. split; [discriminate|]. split.
    + exists (fun n => -1 * up n), (fun n => -1 / up n). split; [apply neg_lim; lra|split; [exact D'|]].
      apply lim_eq with (f := fun n => up n * up n); [intros n; rewrite Q by lra; field|]. apply (is_lim_seq_mult up up p_infty p_infty p_infty); [exact up_lim|exact up_lim|reflexivity].
    + exists (fun n => -1 * up n), (fun n => 1 / up n). split; [apply neg_lim; lra|split; [exact D|]].
      apply lim_eq with (f := fun n => (-1 * up n) * up n); [intros n; rewrite Q by lra; field|].
      apply (is_lim_seq_mult (fun n => -1 * up n) up m_infty p_infty m_infty); [apply neg_lim; lra|exact up_lim|reflexivity].
Qed.
Lemma undetermined_div_inf (c d : R) : c <> 0 -> d <> 0 ->
  undetermined Rdiv (if Rlt_dec 0 c then p_infty else m_infty) (if Rlt_dec 0 d then p_infty else m_infty).
Proof.
  intros Hc Hd. pose proof (scaled_lim c Hc) as Lc. pose proof (scaled_lim d Hd) as Ld.
  assert (L2 : is_lim_seq (fun n => (2 * c) * up n) (if Rlt_dec 0 c then p_infty else m_infty)).
  { pose proof (scaled_lim (2 * c) ltac:(lra)) as L. destruct (Rlt_dec 0 c), (Rlt_dec 0 (2 * c)); try exact L; lra. }
  exists (c / d), (2 * c / d). split.
  - intros [= H]. apply (Rmult_eq_compat_r d) in H. replace (c / d * d) with c in H by (field; exact Hd). replace (2 * c / d * d) with (2 * c) in H by (field; exact Hd). lra.
  - split.
    + exists (fun n => c * up n), (fun n => d * up n). split; [exact Lc|split; [exact Ld|]]. apply const_eq. intros n. pose proof (up_pos n). field. split; [exact Hd|lra].
    + exists (fun n => 2 * c * up n), (fun n => d * up n). split; [exact L2|split; [exact Ld|]]. apply const_eq. intros n. pose proof (up_pos n). field. split; [exact Hd|lra].
Qed.
Lemma undetermined_inf_inf (b c : bool) : undetermined Rdiv (if b then p_infty else m_infty) (if c then p_infty else m_infty).
Proof.
  pose proof (undetermined_div_inf (if b then 1 else -1) (if c then 1 else -1)) as U.
  destruct b, c; (destruct (Rlt_dec 0 1); [|lra]); (destruct (Rlt_dec 0 (-1)); [lra|]); apply U; lra.
Qed.
Lemma op_limit_div u v w : v <> Rbar.Finite 0 -> is_Rbar_div u v w -> op_limit Rdiv u v w.
Proof. intros N H s t Hs Ht. exact (is_lim_seq_div s t u v w Hs Ht N H). Qed.
Lemma inf_div b prec md (positive : bool) :
  xresult Rdiv (Some prec) md (x_signed_inf positive) (Text.Finite b) (x_div prec md (x_signed_inf positive) (Text.Finite b)).
Proof.
  destruct (arf_sgn_cases b) as [(E & V)|[(E & N & V)|(E & N & V)]], positive;
    unfold x_div, xresult, x_signed_inf; cbn [xvalue x_sgn]; rewrite ?N, ?E; cbn [Z.eqb xvalue Pos.eqb]; rewrite ?V; try apply undetermined_div_zero.
  - exists p_infty. split; [|reflexivity]. apply op_limit_div; [intros [= H]; lra|]. apply is_Rbar_mult_p_infty_pos. cbn. apply Rinv_0_lt_compat. exact V.
  - exists m_infty. split; [|reflexivity]. apply op_limit_div; [intros [= H]; lra|]. apply is_Rbar_mult_m_infty_pos. cbn. apply Rinv_0_lt_compat. exact V.
  - exists m_infty. split; [|reflexivity]. apply op_limit_div; [intros [= H]; lra|]. apply is_Rbar_mult_p_infty_neg. cbn. apply Rinv_lt_0_compat. exact V.
  - exists p_infty. split; [|reflexivity]. apply op_limit_div; [intros [= H]; lra|]. apply is_Rbar_mult_m_infty_neg. cbn. apply Rinv_lt_0_compat. exact V.
Qed.
Lemma x_div_ok prec md x y : (0 < prec)%Z -> xresult Rdiv (Some prec) md x y (x_div prec md x y).
Proof.
  intros Hp. assert (Z0 : Rbar.Finite 0 = xrounded (Some prec) md 0).
  { unfold xrounded, rounded. f_equal. symmetry. apply round_0. exact (rndZ_valid md). }
  assert (A0 : arf2R arf_zero = 0) by (unfold arf2R, arf_zero; cbn [am]; ring).
  destruct x as [a| | |], y as [b| | |]; try reflexivity.
  - unfold x_div, xresult. pose proof (arf_div_spec prec md a b Hp) as D. cbn [xvalue]. destruct (arf_div prec md a b) as [c|]; cbn [xvalue].
    + destruct D as [N E]. exists (Rbar.Finite (arf2R a / arf2R b)). split; [|cbn [xrounded]; f_equal; exact E].
      apply op_limit_div; [intros [= H]; contradiction|reflexivity].
    + rewrite D. apply undetermined_div_zero.
  - unfold x_div, xresult. cbn [xvalue]. exists 0. rewrite A0. split; [apply op_limit_div; [discriminate|apply is_Rbar_div_p_infty]|exact Z0].
  - unfold x_div, xresult. cbn [xvalue]. exists 0. rewrite A0. split; [apply op_limit_div; [discriminate|apply is_Rbar_div_m_infty]|exact Z0].
  - exact (inf_div b prec md true).
  - exact (undetermined_inf_inf true true).
  - exact (undetermined_inf_inf true false).
  - exact (inf_div b prec md false).
  - exact (undetermined_inf_inf false true).
  - exact (undetermined_inf_inf false false).
Qed.
