(** C83-C85: floats and balls that may be infinite or not a number. *)
From Coq Require Import ZArith Bool Reals Lra Lia.
From Flocq Require Import Core.
From Coquelicot Require Import Rbar Lim_seq.
From Verif Require Import Arf Arb SpecArf ArfProofs ArbProofs PropArith SpecLoops Double SpecDouble PropIeee Text SpecText Special SpecSpecial SpecialProofs SpecialProofs2.
Open Scope R_scope.

(** * C83: arithmetic and conversions of floats *)
(** The limit, correctly rounded; NaN exactly if an operand is NaN or there is no limit. *)
Theorem C83_add : forall prec md x y, prec_ok prec -> xresult Rplus prec md x y (x_add prec md x y).
Proof. exact x_add_ok. Qed.
Theorem C83_sub : forall prec md x y, prec_ok prec -> xresult Rminus prec md x y (x_sub prec md x y).
Proof. exact x_sub_ok. Qed.
Theorem C83_mul : forall prec md x y, prec_ok prec -> xresult Rmult prec md x y (x_mul prec md x y).
Proof. exact x_mul_ok. Qed.
Theorem C83_div : forall prec md x y, (0 < prec)%Z -> xresult Rdiv (Some prec) md x y (x_div prec md x y).
Proof. exact x_div_ok. Qed.
Theorem C83_neg : forall x, xvalue (x_neg x) = option_map Rbar_opp (xvalue x).
Proof. exact xvalue_neg. Qed.
Theorem C83_abs : forall x, xvalue (x_abs x) = option_map Rbar_abs (xvalue x).
Proof. intros [a| | |]; cbn [x_abs xvalue option_map Rbar_abs]; try reflexivity. rewrite arf_abs_spec. reflexivity. Qed.
Theorem C83_shift : forall x n, xvalue (x_shl x n) = option_map (fun v => Rbar_mult v (bpow radix2 n)) (xvalue x) /\
  xvalue (x_shr x n) = option_map (fun v => Rbar_mult v (bpow radix2 (- n))) (xvalue x).
Proof.
  assert (H : forall x n, xvalue (x_shl x n) = option_map (fun v => Rbar_mult v (bpow radix2 n)) (xvalue x)).
  { intros [a| | |] n; cbn [x_shl xvalue option_map]; try reflexivity.
    - rewrite arf_shl_spec. reflexivity.
    - f_equal. symmetry. apply is_Rbar_mult_unique. apply is_Rbar_mult_p_infty_pos. apply bpow_gt_0.
    - f_equal. symmetry. apply is_Rbar_mult_unique. apply is_Rbar_mult_m_infty_pos. apply bpow_gt_0. }
  intros x n. split; apply H.
Qed.
(** floor and ceil return exactly for finite floats. *)
Theorem C83_floor : forall x k, x_floor x = Some k <-> exists v, xvalue x = Some (Rbar.Finite v) /\ IZR k <= v < IZR k + 1.
Proof.
  intros x k. split.
  - destruct x; try discriminate. cbn [x_floor]. intros [= <-]. exists (arf2R a). split; [reflexivity|apply C02_floor].
  - intros (v & E & H). destruct x; try discriminate E. injection E as <-. cbn [x_floor]. f_equal.
    pose proof (C02_floor a) as F. assert (A : (arf_floor a < k + 1)%Z) by (apply lt_IZR; rewrite plus_IZR; lra). assert (B : (k < arf_floor a + 1)%Z) by (apply lt_IZR; rewrite plus_IZR; lra). lia.
Qed.
Theorem C83_ceil : forall x k, x_ceil x = Some k <-> exists v, xvalue x = Some (Rbar.Finite v) /\ IZR k - 1 < v <= IZR k.
Proof.
  intros x k. split.
  - destruct x; try discriminate. cbn [x_ceil]. intros [= <-]. exists (arf2R a). split; [reflexivity|apply C02_ceil].
  - intros (v & E & H). destruct x; try discriminate E. injection E as <-. cbn [x_ceil]. f_equal.
    pose proof (C02_ceil a) as F. assert (A : (arf_ceil a < k + 1)%Z) by (apply lt_IZR; rewrite plus_IZR; lra). assert (B : (k < arf_ceil a + 1)%Z) by (apply lt_IZR; rewrite plus_IZR; lra). lia.
Qed.
(** Doubles: every double is converted exactly, and comes back. *)
Theorem C83_of_double : forall d, xvalue (x_of_double d) = match d with
  | DNumber (DFin a) => Some (Rbar.Finite (arf2R a)) | DNumber (DInf false) => Some p_infty | DNumber (DInf true) => Some m_infty | DNaN => None end.
Proof. intros [[a|[|]]|]; reflexivity. Qed.
Theorem C83_to_double : forall x, match xvalue x with
  | Some (Rbar.Finite v) => exists d, x_to_double x = DNumber d /\ ieee_nearest v d
  | Some p_infty => x_to_double x = DNumber (DInf false)
  | Some m_infty => x_to_double x = DNumber (DInf true)
  | None => x_to_double x = DNaN end.
Proof. intros [a| | |]; cbn [xvalue x_to_double]; try reflexivity. exists (arf_get_d a). split; [reflexivity|apply C82_float]. Qed.
Theorem C83_double_roundtrip : forall d, valid_double d -> same_double (x_to_double (x_of_double d)) d.
Proof.
  intros [[a|[|]]|]; cbn [x_of_double x_to_double same_double valid_double]; try reflexivity; try (intros _; exact Logic.I).
  intros [F B]. pose proof (C82_float a) as N.
  assert (E : nearest_double (arf2R a) = arf2R a) by (apply round_generic; [exact (rndZ_valid NEAR)|exact F]).
  unfold ieee_nearest in N. rewrite E in N. destruct (arf_get_d a); [exact (proj1 N)|]. lra.
Qed.
(** Equal floats have equal hashes, NaN included. *)
Theorem C83_hash : forall hash_double, (forall d d', same_double d d' -> hash_double d = hash_double d') ->
  forall x y, x_eqb x y = true -> x_hash hash_double x = x_hash hash_double y.
Proof.
  intros h Hh x y E. apply x_eqb_spec in E. unfold x_hash. apply Hh. destruct x as [a| | |], y as [b| | |]; try discriminate E; cbn [x_to_double same_double]; try reflexivity; try exact Logic.I.
  injection E as E. pose proof (C82_float a) as A. pose proof (C82_float b) as B. rewrite <- E in B. unfold ieee_nearest in A, B.
  destruct (arf_get_d a) as [d|s], (arf_get_d b) as [d'|s']; try lra.
  - destruct s, s'; try reflexivity; [destruct A as [_ A]; destruct B as [_ B]|destruct A as [_ A]; destruct B as [_ B]].
    + symmetry. apply B. apply A. reflexivity.
    + apply A. apply B. reflexivity.
Qed.

Example C83_example : x_add (Some 53%Z) NEAR PosInf (Text.Finite (arf_of_Z 3)) = PosInf /\ x_sub (Some 53%Z) NEAR PosInf PosInf = NaN /\
  x_mul (Some 53%Z) NEAR (Text.Finite arf_zero) NegInf = NaN /\ x_div 53 NEAR (Text.Finite (arf_of_Z (-1))) (Text.Finite arf_zero) = NaN /\
  x_div 53 NEAR NegInf (Text.Finite (arf_of_Z (-2))) = PosInf.
Proof. repeat split; reflexivity. Qed.

(** * C84: comparisons of floats *)
Theorem C84_lt : forall x y, x_ltb x y = true <-> exists u v, xvalue x = Some u /\ xvalue y = Some v /\ Rbar_lt u v.
Proof. exact x_ltb_spec. Qed.
Theorem C84_gt : forall x y, x_gtb x y = true <-> exists u v, xvalue x = Some u /\ xvalue y = Some v /\ Rbar_lt v u.
Proof. intros x y. unfold x_gtb. rewrite x_ltb_spec. split; intros (u & v & A & B & H); exists v, u; auto. Qed.
(** Two NaN are equal. *)
Theorem C84_eq : forall x y, x_eqb x y = true <-> xvalue x = xvalue y.
Proof. exact x_eqb_spec. Qed.
Theorem C84_ne : forall x y, x_neb x y = true <-> xvalue x <> xvalue y.
Proof. intros x y. unfold x_neb. rewrite <- x_eqb_spec. destruct (x_eqb x y); cbn [negb]; split; congruence. Qed.
(** <= and >= are right unless an operand is NaN, *)
Theorem C84_le_partial : forall x y u v, xvalue x = Some u -> xvalue y = Some v -> (x_leb x y = true <-> Rbar_le u v).
Proof. exact x_leb_spec. Qed.
Theorem C84_ge_partial : forall x y u v, xvalue x = Some u -> xvalue y = Some v -> (x_geb x y = true <-> Rbar_le v u).
Proof. intros x y u v Eu Ev. exact (x_leb_spec y x v u Ev Eu). Qed.
(** ... then they are true: *)
Theorem C84_nan_refuted : forall x, x_leb NaN x = true /\ x_geb NaN x = true /\ x_leb x NaN = true /\ x_geb x NaN = true /\ x_ltb NaN x = false /\ x_gtb NaN x = false /\
  (x <> NaN -> x_eqb NaN x = false).
Proof. intros [a| | |]; (do 6 (split; [reflexivity|])); intros H; try reflexivity. exfalso. apply H. reflexivity. Qed.
(** "not less and not greater" is not transitive: std::sort and std::set must not see NaN. *)
Theorem C84_weak_order_refuted : exists x y z, x_ltb x y = false /\ x_ltb y x = false /\ x_ltb y z = false /\ x_ltb z y = false /\ x_ltb x z = true.
Proof. exists (Text.Finite (arf_of_Z 1)), NaN, PosInf. repeat split; reflexivity. Qed.
(** Comparisons with integers *)
Theorem C84_long : forall x n,
  x_lt_long x n = x_ltb x (Text.Finite (arf_of_Z n)) /\ x_gt_long x n = x_ltb (Text.Finite (arf_of_Z n)) x /\ x_eq_long x n = x_eqb x (Text.Finite (arf_of_Z n)) /\
  x_le_long x n = x_leb x (Text.Finite (arf_of_Z n)) /\ x_ge_long x n = x_leb (Text.Finite (arf_of_Z n)) x /\ x_ne_long x n = x_neb x (Text.Finite (arf_of_Z n)).
Proof.
  assert (G : forall x n, x_gt_long x n = x_ltb (Text.Finite (arf_of_Z n)) x).
  { intros [a| | |] n; unfold x_gt_long, x_ltb; cbn [x_cmp]; try reflexivity.
    pose proof (arf_cmp_spec a (arf_of_Z n)) as A. pose proof (arf_cmp_spec (arf_of_Z n) a) as B.
    destruct (arf_cmp a (arf_of_Z n)), (arf_cmp (arf_of_Z n) a); try reflexivity; lra. }
  intros x n. split; [reflexivity|split; [apply G|split; [reflexivity|]]]. split; [unfold x_le_long, x_leb; rewrite G; reflexivity|]. split; reflexivity.
Qed.
Example C84_example : x_ltb NegInf (Text.Finite (mkArf 3 (-1))) = true /\ x_ltb (Text.Finite (mkArf 3 (-1))) PosInf = true /\ x_leb PosInf PosInf = true /\ x_eqb PosInf PosInf = true /\ x_eqb PosInf NegInf = false /\
  x_geb (Text.Finite (mkArf 3 0)) (Text.Finite (mkArf 6 (-1))) = true /\ x_neb NaN (Text.Finite (mkArf 3 0)) = true.
Proof. repeat split; reflexivity. Qed.
Theorem C84_long_value : forall n, xvalue (Text.Finite (arf_of_Z n)) = Some (Rbar.Finite (IZR n)).
Proof. intros n. cbn [xvalue]. rewrite arf_of_Z_spec. reflexivity. Qed.

(** * C85: balls *)
Theorem C85_lt : forall x y, xarb_wf x -> xarb_wf y -> xtri Rbar_lt x y (xop_lt x y).
Proof. exact xop_lt_spec. Qed.
Theorem C85_gt : forall x y, xarb_wf x -> xarb_wf y -> xtri (fun p q => Rbar_lt q p) x y (xop_gt x y).
Proof. exact xop_gt_spec. Qed.
Theorem C85_le : forall x y, xarb_wf x -> xarb_wf y -> xtri Rbar_le x y (xop_le x y).
Proof. exact xop_le_spec. Qed.
Theorem C85_ge : forall x y, xarb_wf x -> xarb_wf y -> xtri (fun p q => Rbar_le q p) x y (xop_ge x y).
Proof. exact xop_ge_spec. Qed.
Theorem C85_eq : forall x y, xarb_wf x -> xarb_wf y -> xtri (@eq Rbar) x y (xop_eq x y).
Proof. exact xop_eq_spec. Qed.
Theorem C85_ne : forall x y, xarb_wf x -> xarb_wf y -> xtri (fun p q => p <> q) x y (xop_ne x y).
Proof. exact xop_ne_spec. Qed.
(** Arithmetic encloses. *)
Theorem C85_add : forall mag_up, mag_up_ok mag_up -> forall prec x y p q r, prec_ok prec -> xarb_wf x -> xarb_wf y ->
  xcontains x p -> xcontains y q -> is_Rbar_plus p q r -> xcontains (xarb_add mag_up prec x y) r.
Proof. exact xarb_add_contains. Qed.
Theorem C85_sub : forall mag_up, mag_up_ok mag_up -> forall prec x y p q r, prec_ok prec -> xarb_wf x -> xarb_wf y ->
  xcontains x p -> xcontains y q -> is_Rbar_minus p q r -> xcontains (xarb_sub mag_up prec x y) r.
Proof. exact xarb_sub_contains. Qed.
Theorem C85_mul : forall mag_up, mag_up_ok mag_up -> forall prec x y p q r, prec_ok prec -> xarb_wf x -> xarb_wf y ->
  xcontains x p -> xcontains y q -> is_Rbar_mult p q r -> xcontains (xarb_mul mag_up prec x y) r.
Proof. exact xarb_mul_contains. Qed.
Theorem C85_neg : forall x p, xcontains x p -> xcontains (xarb_neg x) (Rbar_opp p).
Proof. exact xarb_neg_contains. Qed.

(** Comparisons with rationals are right for all points. *)
Theorem C85_rational : forall mag_up, mag_up_ok mag_up -> forall x n d, xarb_wf x -> (0 < d)%Z ->
  xsound Rbar_lt x (IZR n / IZR d) (xopq_lt mag_up x n d) /\ xsound (fun p q => Rbar_lt q p) x (IZR n / IZR d) (xopq_gt mag_up x n d) /\
  xsound Rbar_le x (IZR n / IZR d) (xopq_le mag_up x n d) /\ xsound (fun p q => Rbar_le q p) x (IZR n / IZR d) (xopq_ge mag_up x n d) /\
  xsound (@eq Rbar) x (IZR n / IZR d) (xopq_eq mag_up x n d).
Proof.
  intros mag_up Hm x n d W Hd. assert (D0 : 0 < IZR d) by (apply (IZR_lt 0); exact Hd).
  assert (Wd : xarb_wf (xarb_of_Z d)) by (cbn; lia). assert (Wn : xarb_wf (xarb_of_Z n)) by (cbn; lia).
  assert (Wt : xarb_wf (xarb_times_den mag_up x d)) by (apply xarb_mul_wf; assumption).
  assert (Cz : forall k, xcontains (xarb_of_Z k) (IZR k)).
  { intros k. exists (IZR k). split; [reflexivity|]. rewrite arf_of_Z_spec. replace (IZR k - IZR k) with 0 by ring. rewrite Rabs_R0. unfold arf2R, arf_zero. cbn [am]. lra. }
  set (scale := fun p => match p with Rbar.Finite v => Rbar.Finite (v * IZR d) | _ => p end).
  assert (Cs : forall p, xcontains x p -> xcontains (xarb_times_den mag_up x d) (scale p)).
  { intros p Hp. apply (xarb_mul_contains mag_up Hm None x (xarb_of_Z d) p (IZR d)); [exact Logic.I|exact W|exact Wd|exact Hp|apply Cz|].
    destruct p; cbn [scale]; [reflexivity|apply is_Rbar_mult_p_infty_pos; exact D0|apply is_Rbar_mult_m_infty_pos; exact D0]. }
  assert (Q : IZR n = IZR n / IZR d * IZR d) by (field; lra).
  assert (L1 : forall p, Rbar_lt (scale p) (IZR n) <-> Rbar_lt p (IZR n / IZR d)).
  { intros [v| |]; cbn [scale Rbar_lt]; try tauto. rewrite Q at 1. split; [apply Rmult_lt_reg_r; exact D0|apply Rmult_lt_compat_r; exact D0]. }
  assert (L2 : forall p, Rbar_lt (IZR n) (scale p) <-> Rbar_lt (IZR n / IZR d) p).
  { intros [v| |]; cbn [scale Rbar_lt]; try tauto. rewrite Q at 1. split; [apply Rmult_lt_reg_r; exact D0|apply Rmult_lt_compat_r; exact D0]. }
  assert (L3 : forall p, scale p = Rbar.Finite (IZR n) <-> p = Rbar.Finite (IZR n / IZR d)).
  { intros [v| |]; cbn [scale]; (split; [intros [= E]|intros [= E]]); f_equal.
    - rewrite <- E. field. lra.
    - rewrite E. field. lra. }
  assert (X : forall (Rel Rel' : Rbar -> Rbar -> Prop) o, xtri Rel (xarb_times_den mag_up x d) (xarb_of_Z n) o ->
    (forall p, Rel (scale p) (IZR n) <-> Rel' p (IZR n / IZR d)) -> xsound Rel' x (IZR n / IZR d) o).
  { intros Rel Rel' o [A B] E. split; intros Eo p Hp.
    - apply E. apply (proj1 A Eo); [apply Cs; exact Hp|apply Cz].
    - rewrite <- E. apply (proj1 B Eo); [apply Cs; exact Hp|apply Cz]. }
  split; [apply (X Rbar_lt); [apply xop_lt_spec; assumption|exact L1]|].
  split; [apply (X (fun p q => Rbar_lt q p)); [apply xop_gt_spec; assumption|exact L2]|].
  split; [apply (X Rbar_le); [apply xop_le_spec; assumption|intros p; rewrite <- !not_lt_le, L2; reflexivity]|].
  split; [apply (X (fun p q => Rbar_le q p)); [apply xop_ge_spec; assumption|intros p; rewrite <- !not_lt_le, L1; reflexivity]|].
  apply (X (@eq Rbar)); [apply xop_eq_spec; assumption|exact L3].
Qed.
(** Constants *)
Theorem C85_constants : forall p, (xcontains xarb_pos_inf p <-> p = p_infty) /\ (xcontains xarb_neg_inf p <-> p = m_infty) /\
  xcontains xarb_zero_pm_inf p /\ xcontains xarb_indeterminate p /\ ~ defined xarb_indeterminate /\ defined xarb_zero_pm_inf.
Proof.
  intros p. split; [reflexivity|]. split; [reflexivity|]. split; [exact Logic.I|]. split; [exact Logic.I|]. split; [intros H; apply H; reflexivity|discriminate].
Qed.
(** Comparisons with an indeterminate ball have no answer. *)
Theorem C85_indeterminate : forall x y, ~ defined x \/ ~ defined y ->
  xop_lt x y = None /\ xop_gt x y = None /\ xop_le x y = None /\ xop_ge x y = None /\ xop_eq x y = None /\ xop_ne x y = None.
Proof.
  assert (E : forall x y, ~ defined x \/ ~ defined y -> xarb_lt x y = false /\ xarb_le x y = false).
  { intros x y H. unfold xarb_lt, xarb_le, xopt2. destruct H as [H|H]; [destruct (undefined_ends x H) as [_ ->]; split; reflexivity|].
    destruct (undefined_ends y H) as [-> _]. destruct (xhi x); split; reflexivity. }
  intros x y H. assert (H' : ~ defined y \/ ~ defined x) by tauto. destruct (E x y H) as [A B]. destruct (E y x H') as [C D].
  unfold xop_lt, xop_gt, xop_le, xop_ge, xop_eq, xop_ne, xop_gt, xop_lt, xop_eq, xarb_gt, xarb_ge, xarb_eq, xarb_ne. rewrite A, B, C, D. repeat split; reflexivity.
Qed.
Theorem C85_is_finite : forall x, xarb_wf x -> (xarb_is_finite x = true <-> exists B, forall p, xcontains x p -> exists v, p = Rbar.Finite v /\ Rabs v <= B).
Proof.
  intros [m r] W. unfold xarb_is_finite, xcontains. cbn [xmid xrad]. split.
  - destruct m as [a| | |]; try discriminate. destruct r as [r|]; [|discriminate]. intros _. exists (Rabs (arf2R a) + arf2R r). intros p (v & -> & H). exists v. split; [reflexivity|].
    replace v with (arf2R a + (v - arf2R a)) by ring. eapply Rle_trans; [apply Rabs_triang|]. lra.
  - intros [B H]. assert (Hp : forall p, xcontains (mkXArb m r) p -> exists v, p = Rbar.Finite v) by (intros p Hp; destruct (H p Hp) as (v & E & _); exists v; exact E). clear H.
    destruct m as [a| | |], r as [r|]; try reflexivity; exfalso; try (destruct (Hp p_infty (ltac:(first [exact Logic.I|reflexivity]))) as [v E]; discriminate E);
      destruct (Hp m_infty (ltac:(first [exact Logic.I|reflexivity]))) as [v E]; discriminate E.
Qed.
(** An exact ball is a single point, unless it is NaN. *)
Theorem C85_is_exact : forall x, defined x -> xarb_is_exact x = true -> exists c, forall p, xcontains x p <-> p = c.
Proof.
  intros [m r] D H. unfold xarb_is_exact, defined, xcontains in *. cbn [xmid xrad] in *. destruct r as [r|]; [|discriminate H]. apply Z.eqb_eq in H.
  destruct m as [a| | |].
  - exists (Rbar.Finite (arf2R a)). intros p. split.
    + intros (v & -> & B). f_equal. exact (exactly a r v H B).
    + intros ->. exists (arf2R a). split; [reflexivity|]. rewrite (zero_radius r H). replace (arf2R a - arf2R a) with 0 by ring. rewrite Rabs_R0. lra.
  - exists p_infty. reflexivity.
  - exists m_infty. reflexivity.
  - exfalso. apply D. reflexivity.
Qed.
(** The bounds enclose; a bound is NaN only if the midpoint is not finite. *)
Theorem C85_interval : forall x lo hi, xarb_interval x = Some (lo, hi) -> forall p, xcontains x p ->
  (forall l, xvalue lo = Some l -> Rbar_le l p) /\ (forall h, xvalue hi = Some h -> Rbar_le p h).
Proof.
  intros [m r] lo hi E p Hp. unfold xarb_interval, xcontains in *. cbn [xmid xrad] in *. destruct m as [a| | |], r as [r|].
  - destruct (arb_interval (mkArb a (Some r))) as [[l h]|] eqn:I; [|discriminate E]. cbn [option_map] in E. injection E as <- <-. destruct Hp as (v & -> & B).
    pose proof (C05_interval_encloses _ l h I v B) as [L H]. split; intros ? [= <-]; cbn; lra.
  - injection E as <- <-. split; intros ? [= <-]; [|]; destruct p; exact Logic.I.
  - injection E as <- <-. subst p. split; intros ? [= <-]; exact Logic.I.
  - injection E as <- <-. split; intros ?; [discriminate|intros [= <-]]; destruct p; exact Logic.I.
  - injection E as <- <-. subst p. split; intros ? [= <-]; exact Logic.I.
  - injection E as <- <-. split; intros ?; [intros [= <-]|discriminate]; destruct p; exact Logic.I.
  - injection E as <- <-. split; intros ?; discriminate.
  - injection E as <- <-. split; intros ?; discriminate.
Qed.
(** On balls with finite midpoints, this is the arithmetic and the order of the model without infinities (C03, C51). *)
Theorem C85_conservative : forall mag_up prec x y,
  (forall v, contains x v <-> xcontains (to_xarb x) (Rbar.Finite v)) /\
  xarb_add mag_up prec (to_xarb x) (to_xarb y) = to_xarb (arb_add mag_up prec x y) /\
  (rad x <> None -> rad y <> None -> xarb_mul mag_up prec (to_xarb x) (to_xarb y) = to_xarb (arb_mul mag_up prec x y)) /\
  xop_lt (to_xarb x) (to_xarb y) = op_lt x y /\ xop_gt (to_xarb x) (to_xarb y) = op_gt x y /\ xop_le (to_xarb x) (to_xarb y) = op_le x y /\ xop_ge (to_xarb x) (to_xarb y) = op_ge x y.
Proof.
  assert (Lt : forall x y, xarb_lt (to_xarb x) (to_xarb y) = arb_lt x y).
  { intros [a [r|]] [b [t|]]; reflexivity. }
  assert (Le : forall x y, xarb_le (to_xarb x) (to_xarb y) = arb_le x y).
  { intros [a [r|]] [b [t|]]; try reflexivity. unfold xarb_le, arb_le, x_leb, to_xarb, xhi, xlo, arb_hi, arb_lo. cbn [mid rad xmid xrad option_map xopt2 opt2 x_sub x_add x_neg x_round].
    set (u := arf_add_exact a r). change (arf_add_exact b (arf_neg t)) with (arf_sub_exact b t). set (v := arf_sub_exact b t). unfold x_ltb, arf_leb. change (x_round None DOWN v) with (Text.Finite v). change (x_round None DOWN u) with (Text.Finite u). cbn [x_cmp].
    pose proof (arf_cmp_spec v u) as A. pose proof (arf_cmp_spec u v) as B. destruct (arf_cmp v u), (arf_cmp u v); try reflexivity; exfalso; lra. }
  intros mag_up prec x y. split; [|split; [reflexivity|split]].
  - intros v. split; [apply to_xarb_contains|]. unfold contains, xcontains, to_xarb. cbn [xmid xrad]. destruct (rad x); [|tauto]. intros (w & [= <-] & H). exact H.
  - intros Rx Ry. destruct (rad x) eqn:Ex; [|contradiction]. destruct (rad y) eqn:Ey; [|contradiction]. exact (xarb_mul_finite mag_up prec x y _ _ Ex Ey).
  - unfold xop_lt, xop_gt, xop_le, xop_ge, op_lt, op_gt, op_le, op_ge, xop_gt, xop_lt, op_gt, op_lt, xarb_ge, xarb_gt, arb_gt, arb_ge. rewrite !Lt, !Le. repeat split; reflexivity.
Qed.

Example C85_example :
  xop_gt xarb_pos_inf (xarb_of_Z 7) = Some true /\ xop_le xarb_zero_pm_inf xarb_pos_inf = Some true /\ xop_lt xarb_zero_pm_inf xarb_pos_inf = None /\
  xop_eq xarb_pos_inf xarb_pos_inf = Some true /\ xopq_lt (fun r => r) xarb_neg_inf 2 3 = Some true /\ xop_eq xarb_indeterminate xarb_indeterminate = None /\
  xarb_add (fun r => r) (Some 64%Z) xarb_pos_inf xarb_neg_inf = mkXArb NaN (Some (arf_of_Z 0)).
Proof. repeat split; reflexivity. Qed.
