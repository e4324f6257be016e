(** floor, ceil, floordiv and conversion to double of elements. *)
From Coq Require Import ZArith QArith Qcanon Bool List Reals Qreals Lia Lra Psatz.
From Flocq Require Import Core.
From Verif Require Import Arf Arb Real SpecArf ArfProofs ArbProofs Gen SpecGen GenProofs Ring SpecRing Module Element SpecModule ModuleProofs ElementProofs ElementProofs2 ElementProofs3 Loops SpecLoops Near Near2 LoopsProofs LoopsProofs2.
Import ListNotations.
Open Scope R_scope.

Lemma bounds_agree_sound {T} (f : arf -> T) eqb b v t : encloses b v -> bounds_agree f eqb (Some b) = Some (Some t) ->
  exists lo hi, arf2R lo <= v <= arf2R hi /\ f lo = t /\ eqb (f lo) (f hi) = true.
Proof.
  intros [W C] H. unfold bounds_agree in H. destruct (arb_interval b) as [[lo hi]|] eqn:E; [|discriminate]. destruct (eqb (f lo) (f hi)) eqn:Q; [|discriminate]. inversion H; subst. exists lo, hi.
  split; [exact (arb_interval_spec b lo hi E v C)|]. split; [reflexivity|exact Q].
Qed.
(** Around every number that is not an integer floor and ceil are constant. *)
Lemma not_integer_gap v : (forall n, v <> IZR n) -> exists eta n, 0 < eta /\ IZR n + eta < v /\ v < IZR n + 1 - eta.
Proof.
  intros H. exists (Rmin (v - IZR (Zfloor v)) (IZR (Zfloor v) + 1 - v) / 2), (Zfloor v). pose proof (Zfloor_lb v) as L. pose proof (Zfloor_ub v) as U. pose proof (H (Zfloor v)) as N.
  assert (P : 0 < Rmin (v - IZR (Zfloor v)) (IZR (Zfloor v) + 1 - v)) by (apply Rmin_glb_lt; lra). pose proof (Rmin_l (v - IZR (Zfloor v)) (IZR (Zfloor v) + 1 - v)). pose proof (Rmin_r (v - IZR (Zfloor v)) (IZR (Zfloor v) + 1 - v)). lra.
Qed.
Lemma floor_unique n u : IZR n <= u < IZR n + 1 -> Zfloor u = n.
Proof. intros H. apply Zfloor_imp. rewrite plus_IZR. lra. Qed.
Lemma ceil_unique n u : IZR n < u <= IZR n + 1 -> Zceil u = (n + 1)%Z.
Proof. intros H. apply Zceil_imp. rewrite plus_IZR. replace (n + 1 - 1)%Z with n by lia. lra. Qed.
(** Around a number that is not halfway between two doubles rounding is constant. *)
Definition halfway (v : R) : Prop := exists d u, is_double d /\ is_double u /\ d < u /\ v = (d + u) / 2.
Local Notation rnd64 := (round radix2 (FLT_exp (-1074) 53) ZnearestE).
Local Instance prec53 : Prec_gt_0 53. Proof. reflexivity. Qed.
Lemma rounding_constant v : ~ is_double v -> ~ halfway v -> exists eta, 0 < eta /\ forall a, v - eta <= a <= v + eta -> rnd64 a = rnd64 v.
Proof.
  intros F H. pose proof (round_DN_pt radix2 (FLT_exp (-1074) 53) v) as D. pose proof (round_UP_pt radix2 (FLT_exp (-1074) 53) v) as U.
  set (d := round radix2 (FLT_exp (-1074) 53) Zfloor v) in *. set (u := round radix2 (FLT_exp (-1074) 53) Zceil v) in *.
  destruct D as (FD & LD & MD), U as (FU & LU & MU).
  assert (d < v). { destruct LD as [L|E]; [exact L|]. exfalso. apply F. rewrite <- E. exact FD. }
  assert (v < u). { destruct LU as [L|E]; [exact L|]. exfalso. apply F. rewrite E. exact FU. }
  assert (Dpt : forall a, d <= a < u -> Rnd_DN_pt (generic_format radix2 (FLT_exp (-1074) 53)) a d).
  { intros a [La Ua]. split; [exact FD|]. split; [exact La|]. intros g Fg Lg. destruct (Rle_lt_dec g v) as [G|G]; [apply MD; assumption|]. exfalso. assert (u <= g) by (apply MU; [exact Fg|lra]). lra. }
  assert (Upt : forall a, d < a <= u -> Rnd_UP_pt (generic_format radix2 (FLT_exp (-1074) 53)) a u).
  { intros a [La Ua]. split; [exact FU|]. split; [exact Ua|]. intros g Fg Lg. destruct (Rle_lt_dec v g) as [G|G]; [apply MU; assumption|]. exfalso. assert (g <= d) by (apply MD; [exact Fg|lra]). lra. }
  assert (NM : v <> (d + u) / 2). { intros E. apply H. exists d, u. repeat split; try assumption; lra. }
  destruct (Rlt_le_dec v ((d + u) / 2)) as [LM|GM].
  - exists (Rmin (v - d) ((d + u) / 2 - v) / 2). pose proof (Rmin_l (v - d) ((d + u) / 2 - v)). pose proof (Rmin_r (v - d) ((d + u) / 2 - v)). assert (0 < Rmin (v - d) ((d + u) / 2 - v)) by (apply Rmin_glb_lt; lra).
    split; [lra|]. intros a Ha. assert (d < a < (d + u) / 2) by lra. rewrite (round_N_eq_DN_pt radix2 (FLT_exp (-1074) 53) _ a d u); [|apply Dpt; lra|apply Upt; lra|lra].
    rewrite (round_N_eq_DN_pt radix2 (FLT_exp (-1074) 53) _ v d u); [reflexivity|apply Dpt; lra|apply Upt; lra|lra].
  - exists (Rmin (u - v) (v - (d + u) / 2) / 2). pose proof (Rmin_l (u - v) (v - (d + u) / 2)). pose proof (Rmin_r (u - v) (v - (d + u) / 2)). assert (0 < Rmin (u - v) (v - (d + u) / 2)) by (apply Rmin_glb_lt; lra).
    split; [lra|]. intros a Ha. assert ((d + u) / 2 < a < u) by lra. rewrite (round_N_eq_UP_pt radix2 (FLT_exp (-1074) 53) _ a d u); [|apply Dpt; lra|apply Upt; lra|lra].
    rewrite (round_N_eq_UP_pt radix2 (FLT_exp (-1074) 53) _ v d u); [reflexivity|apply Dpt; lra|apply Upt; lra|lra].
Qed.

Section Loops.
  Variable A : ring.
  Variable S : semantics A.
  Hypothesis HL : lawful A S.
  Variable mag_up : arf -> arf.
  Hypothesis Hm : mag_up_ok mag_up.
  Variable garb : gen -> Z -> arb.
  Variable carb : car A -> Z -> arb.
  Variable rho : Z -> R.
  Variable k : R.
  Hypothesis Hk : 1 <= k <= 8.
  Local Notation elem := (elem A).
  Implicit Types x y z : elem.
  Local Notation elem_arb := (elem_arb (A := A) mag_up garb carb).
  Local Notation value := (value S rho).
  Local Notation approximated := (approximated A S garb carb rho k).
  Local Notation converging := (converging A S garb carb).

  (** * floor and ceil *)
  Lemma to_integer_sound x n : elem_wf S x -> to_integer x = Some n -> value x = IZR n.
  Proof.
    intros W H. unfold to_integer in H. destruct (to_rational x) as [q|] eqn:E; [|discriminate]. destruct (Z.eqb_spec (qc_den q) 1) as [D|]; [|discriminate]. inversion H; subst.
    rewrite (to_rational_sound A S HL x q W E rho), qc_num_den, D. field.
  Qed.
  Lemma agree_search_sound {T} (f : arf -> T) eqb x p0 rounds t : elem_wf S x -> approximated x -> (5 <= p0)%Z ->
    search rounds (fun prec => bounds_agree f eqb (elem_arb rounds x prec)) p0 = Some t ->
    exists u lo hi, perturbed ((k - 1) * bpow radix2 (1 - p0)) (value x) u /\ arf2R lo <= u <= arf2R hi /\ f lo = t /\ eqb (f lo) (f hi) = true.
  Proof.
    intros W E H0 H. apply search_sound in H; [|lia]. destruct H as (p & Hp & H). destruct (elem_arb rounds x p) as [b|] eqn:Eb; [|discriminate].
    destruct (elem_arb_point A S HL mag_up Hm garb carb rho k Hk x p rounds b W E ltac:(lia) Eb) as (u & Enc & P). destruct (bounds_agree_sound f eqb b _ t Enc H) as (lo & hi & B). exists u, lo, hi. split; [|exact B].
    apply (perturbed_weaken ((k - 1) * bpow radix2 (1 - p))); [|exact P]. apply Rmult_le_compat_l; [lra|]. apply bpow_le. lia.
  Qed.
  Local Notation eps64 := (eps64 k).
  Lemma floor_sound x rounds n : elem_wf S x -> approximated x -> elem_floor mag_up garb carb rounds x = Some n -> exists u, perturbed eps64 (value x) u /\ n = Zfloor u.
  Proof.
    intros W E H. unfold elem_floor in H. destruct (to_integer x) as [i|] eqn:Ei.
    - inversion H; subst. exists (value x). split; [apply perturbed_refl, (eps64_nonneg k Hk)|]. rewrite (to_integer_sound x n W Ei). symmetry. apply Zfloor_IZR.
    - apply agree_search_sound in H; [|exact W|exact E|unfold ARB_PRECISION_FAST; lia]. destruct H as (u & lo & hi & P & [L U] & F & Q). exists u. split; [exact P|]. apply Z.eqb_eq in Q. rewrite F in Q.
      pose proof (arf_floor_bounds lo) as B1. pose proof (arf_floor_bounds hi) as B2. rewrite F in B1. rewrite <- Q in B2. symmetry. apply floor_unique. lra.
  Qed.
  Lemma ceil_sound x rounds n : elem_wf S x -> approximated x -> elem_ceil mag_up garb carb rounds x = Some n -> exists u, perturbed eps64 (value x) u /\ n = Zceil u.
  Proof.
    intros W E H. unfold elem_ceil in H. destruct (to_integer x) as [i|] eqn:Ei.
    - inversion H; subst. exists (value x). split; [apply perturbed_refl, (eps64_nonneg k Hk)|]. rewrite (to_integer_sound x n W Ei). symmetry. apply Zceil_IZR.
    - apply agree_search_sound in H; [|exact W|exact E|unfold ARB_PRECISION_FAST; lia]. destruct H as (u & lo & hi & P & [L U] & F & Q). exists u. split; [exact P|]. apply Z.eqb_eq in Q. rewrite F in Q.
      pose proof (arf_ceil_bounds lo) as B1. pose proof (arf_ceil_bounds hi) as B2. rewrite F in B1. rewrite <- Q in B2. symmetry. replace n with ((n - 1) + 1)%Z by lia. apply ceil_unique. rewrite minus_IZR. lra.
  Qed.
  (** * Doubles *)
  Lemma double_sound x rounds a : elem_wf S x -> approximated x -> to_rational x = None -> elem_double mag_up garb carb rounds x = Some a -> exists u, perturbed ((k - 1) * bpow radix2 (-54)) (value x) u /\ arf2R a = rnd64 u.
  Proof.
    intros W E R H. unfold elem_double in H. rewrite R in H. apply agree_search_sound in H; [|exact W|exact E|lia]. destruct H as (u & lo & hi & P & [L U] & F & Q). subst a. exists u. split; [exact P|].
    apply arf_eqb_spec in Q. rewrite !arf_to_double_spec in Q. rewrite arf_to_double_spec. apply Rle_antisym; [apply round_le; [exact _|exact _|exact L]|]. rewrite Q. apply round_le; [exact _|exact _|exact U].
  Qed.

  (** * Termination *)
  Hypothesis Ht : mag_up_tight mag_up.
  Lemma agree_search_terminates {T} (f : arf -> T) eqb x p0 : (5 <= p0)%Z -> elem_wf S x -> approximated x -> converging x -> value x <> 0 ->
    (exists eta, 0 < eta /\ forall lo hi, value x - eta <= arf2R lo <= value x + eta -> value x - eta <= arf2R hi <= value x + eta -> eqb (f lo) (f hi) = true) ->
    exists N t, forall n, (N <= n)%nat -> search n (fun prec => bounds_agree f eqb (elem_arb n x prec)) p0 = Some t.
  Proof.
    intros H0 W E C V (eta & He & HQ). destruct (eventually_small (18 * (2 * k * Rabs (value x))) eta He) as [P HP].
    assert (K : forall n p b, (5 <= p)%Z -> elem_arb n x p = Some b -> exists lo hi, arb_interval b = Some (lo, hi) /\ ((P <= p)%Z -> eqb (f lo) (f hi) = true)).
    { intros n p b Hp Eb. destruct (elem_arb_sound A S HL mag_up Hm garb carb rho k Hk x p n b W E ltac:(lia) Eb) as [_ Acc].
      destruct (interval_near b (value x) _ (elem_arb_near A S HL mag_up Hm garb carb rho k Hk x p n b W E ltac:(lia) Eb) (is_accurate_le p 2 b ltac:(lia) Acc)) as (lo & hi & I & L & U).
      exists lo, hi. split; [exact I|]. intros HPp. specialize (HP p HPp). apply Rabs_le_inv in L, U. apply HQ; lra. }
    destruct (search_terminates (fun n prec => bounds_agree f eqb (elem_arb n x prec)) p0 (Z.max 5 P)) as (N & t & Hs).
    - lia.
    - intros n m p r H L. destruct (elem_arb n x p) as [b|] eqn:Eb; [|discriminate]. rewrite (elem_arb_mono A mag_up garb carb x p n m b Eb L). exact H.
    - intros p Hp. destruct (elem_arb_returns A S mag_up Hm garb carb rho k Hk Ht x p W E C (fun _ => V) ltac:(lia)) as (n & b & Eb). exists n.
      destruct (K n p b ltac:(lia) Eb) as (lo & hi & I & _). rewrite Eb. unfold bounds_agree. rewrite I. eauto.
    - intros n p r Hp H. destruct (elem_arb n x p) as [b|] eqn:Eb; [|discriminate]. destruct (K n p b ltac:(lia) Eb) as (lo & hi & I & Q).
      unfold bounds_agree in H. rewrite I, (Q ltac:(lia)) in H. inversion H; discriminate.
    - exists N, t. intros n Hn. exact (Hs n n Hn Hn).
  Qed.
  Lemma not_integer_nonzero v : (forall n, v <> IZR n) -> v <> 0.
  Proof. intros H E. apply (H 0%Z). exact E. Qed.
  Lemma floor_terminates x : elem_wf S x -> approximated x -> converging x -> (to_integer x = None -> forall n, value x <> IZR n) -> exists N n, forall m, (N <= m)%nat -> elem_floor mag_up garb carb m x = Some n.
  Proof.
    intros W E C H. unfold elem_floor. destruct (to_integer x) as [i|]; [exists 0%nat, i; reflexivity|]. specialize (H eq_refl). apply agree_search_terminates; try assumption; [unfold ARB_PRECISION_FAST; lia|apply not_integer_nonzero, H|].
    destruct (not_integer_gap _ H) as (eta & i & He & L & U). exists eta. split; [exact He|]. intros lo hi Hl Hh. apply Z.eqb_eq. rewrite !arf_floor_spec. rewrite (floor_unique i), (floor_unique i); [reflexivity|lra..].
  Qed.
  Lemma ceil_terminates x : elem_wf S x -> approximated x -> converging x -> (to_integer x = None -> forall n, value x <> IZR n) -> exists N n, forall m, (N <= m)%nat -> elem_ceil mag_up garb carb m x = Some n.
  Proof.
    intros W E C H. unfold elem_ceil. destruct (to_integer x) as [i|]; [exists 0%nat, i; reflexivity|]. specialize (H eq_refl). apply agree_search_terminates; try assumption; [unfold ARB_PRECISION_FAST; lia|apply not_integer_nonzero, H|].
    destruct (not_integer_gap _ H) as (eta & i & He & L & U). exists eta. split; [exact He|]. intros lo hi Hl Hh. apply Z.eqb_eq. rewrite !arf_ceil_spec. rewrite (ceil_unique i), (ceil_unique i); [reflexivity|lra..].
  Qed.
  Lemma double_terminates x : elem_wf S x -> approximated x -> converging x -> (to_rational x = None -> ~ is_double (value x) /\ ~ halfway (value x)) -> exists N a, forall m, (N <= m)%nat -> elem_double mag_up garb carb m x = Some a.
  Proof.
    intros W E C H. unfold elem_double. destruct (to_rational x) as [q|]; [exists 0%nat; eexists; reflexivity|]. destruct (H eq_refl) as [F M]. apply agree_search_terminates; try assumption; [lia| |].
    - intros Z0. apply F. rewrite Z0. apply generic_format_0.
    - destruct (rounding_constant _ F M) as (eta & He & HR). exists eta. split; [exact He|]. intros lo hi Hl Hh. apply arf_eqb_spec. rewrite !arf_to_double_spec. rewrite (HR (arf2R lo)), (HR (arf2R hi)); [reflexivity|lra..].
  Qed.

  (** * floordiv *)
  Lemma exact_floor_sound p : forall gs xs ys fl n, Forall (mem S p) xs -> Forall (mem S p) ys -> length xs = length ys -> exact_floor (A := A) xs ys fl = Some n ->
    (fl = Some n \/ fl = None) /\ combination S rho gs xs = IZR n * combination S rho gs ys.
  Proof.
    intros gs xs. revert gs. induction xs as [|a xs IH]; intros gs ys fl n Hx Hy HLen H; destruct ys as [|b ys]; try discriminate.
    - cbn in H. split; [left; exact H|]. destruct gs; cbn; lra.
    - inversion Hx as [|? ? Ma Mx]; subst. inversion Hy as [|? ? Mb My]; subst. injection HLen as HLen.
      assert (Z0 : forall c, cz c = true -> val S c = 0) by (intros c Hc; apply (L_eqb A S HL) in Hc; subst c; apply (L_zero A S HL p)).
      cbn [exact_floor] in H. destruct (cz a) eqn:Za, (cz b) eqn:Zb; cbn [negb] in H; try discriminate.
      + destruct (IH (match gs with [] => [] | _ :: g => g end) ys fl n Mx My HLen H) as [F V]. split; [exact F|]. destruct gs as [|g gs]; cbn; [lra|]. rewrite (Z0 a Za), (Z0 b Zb), V. ring.
      + set (f := cfloor (cquo a b)) in *. destruct (match fl with Some f' => negb (f' =? f)%Z | None => false end) eqn:Ef; [discriminate|].
        pose proof (L_imul A S HL p b (SZ f) Mb I) as LI. destruct (imul b (SZ f)) as [t|] eqn:Et; [|discriminate]. destruct (ceqb t a) eqn:Eq; [|discriminate]. apply (L_eqb A S HL) in Eq. subst t.
        destruct (IH (match gs with [] => [] | _ :: g => g end) ys (Some f) n Mx My HLen H) as [F V]. assert (En : n = f) by (destruct F as [F|F]; [inversion F; reflexivity|discriminate]). subst n. split.
        * destruct fl as [f'|]; [left|right; reflexivity]. apply negb_false_iff, Z.eqb_eq in Ef. congruence.
        * destruct gs as [|g gs]; cbn; [lra|]. destruct LI as [_ LI]. cbn [sval] in LI. rewrite LI, V. ring.
  Qed.
  Definition pair_approximated x y : Prop := generators_within k garb rho (basis (emodule x) ++ basis (emodule y)) /\ coefficients_enclosed S carb (mring (emodule x)).
  Definition pair_converging x y : Prop := (forall g, In g (basis (emodule x) ++ basis (emodule y)) -> shrinks (garb g)) /\ (forall c, mem S (mring (emodule x)) c -> shrinks (carb c)).
  Lemma common_approximated p x y x' y' : elem_wf S x -> elem_wf S y -> mring (emodule x) = p -> mring (emodule y) = p -> common x y = Ok (x', y') -> pair_approximated x y ->
    elem_wf S x' /\ elem_wf S y' /\ emodule x' = emodule y' /\ mring (emodule x') = p /\ approximated x' /\ approximated y' /\ value x' = value x /\ value y' = value y /\
    (pair_converging x y -> converging x' /\ converging y').
  Proof.
    intros Wx Wy Ex Ey Ec [HG HC]. destruct (common_spec A S HL x y x' y' Wx Wy Ec) as (Wx' & Wy' & EM & G & _). destruct (common_value A S HL x y x' y' Wx Wy Ec) as [Vx Vy].
    pose proof (common_ring A S HL p x y x' y' Wx Wy Ex Ey Ec) as Rx. assert (Ry : mring (emodule y') = p) by (rewrite <- EM; exact Rx).
    assert (G' : forall g, In g (basis (emodule x')) -> In g (basis (emodule x) ++ basis (emodule y))) by (intros g Hg; apply in_or_app, G, Hg).
    repeat (match goal with |- _ /\ _ => split end); try assumption.
    - split; [intros g prec Hg; apply HG, G', Hg|]. rewrite Rx, <- Ex. exact HC.
    - split; [intros g prec Hg; rewrite <- EM in Hg; apply HG, G', Hg|]. rewrite Ry, <- Ex. exact HC.
    - apply Vx.
    - apply Vy.
    - intros [SG SC]. split; split.
      + intros g Hg. apply SG, G', Hg.
      + intros c Hc. apply SC. rewrite Ex, <- Rx. exact Hc.
      + intros g Hg. rewrite <- EM in Hg. apply SG, G', Hg.
      + intros c Hc. apply SC. rewrite Ex, <- Ry. exact Hc.
  Qed.
  Lemma floordiv_test_sound x y rounds prec n : elem_wf S x -> elem_wf S y -> approximated x -> approximated y -> (64 <= prec)%Z -> floordiv_test mag_up garb carb rounds x y prec = Some (Some n) ->
    exists u w, perturbed eps64 (value x) u /\ perturbed eps64 (value y) w /\ n = Zfloor (u / w).
  Proof.
    intros Wx Wy Ex Ey Hp H. unfold floordiv_test in H. destruct (elem_arb rounds y prec) as [d|] eqn:Ed; [|discriminate]. destruct (op_ne d (arb_of_Z 0)); [|discriminate].
    destruct (elem_arb rounds x prec) as [s|] eqn:Es; [|discriminate].
    destruct (elem_arb_point64 A S HL mag_up Hm garb carb rho k Hk x prec rounds s Wx Ex Hp Es) as (u & [W1 C1] & P1). destruct (elem_arb_point64 A S HL mag_up Hm garb carb rho k Hk y prec rounds d Wy Ey Hp Ed) as (w & [W2 C2] & P2).
    exists u, w. split; [exact P1|]. split; [exact P2|].
    apply (bounds_agree_sound arf_floor Z.eqb _ (u / w)) in H; [|split; [apply arb_div_wf|apply arb_div_contains]; first [assumption|lia]].
    destruct H as (lo & hi & [L U] & F & Q). apply Z.eqb_eq in Q. rewrite F in Q. pose proof (arf_floor_bounds lo) as B1. pose proof (arf_floor_bounds hi) as B2. rewrite F in B1. rewrite <- Q in B2. symmetry. apply floor_unique. lra.
  Qed.
  Lemma floordiv_sound x y rounds n : elem_wf S x -> elem_wf S y -> mring (emodule y) = mring (emodule x) -> pair_approximated x y -> value y <> 0 ->
    floordiv mag_up garb carb rounds x y = Some (Ok n) -> exists u w, perturbed eps64 (value x) u /\ perturbed eps64 (value y) w /\ n = Zfloor (u / w).
  Proof.
    intros Wx Wy Er HE V H. pose proof (fun v => perturbed_refl eps64 v (eps64_nonneg k Hk)) as PR. unfold floordiv in H. destruct (nonzero x) eqn:Nx; cbn [negb] in H.
    - destruct (common x y) as [[x' y']|] eqn:Ec; [|discriminate]. destruct (common_approximated (mring (emodule x)) x y x' y' Wx Wy eq_refl Er Ec HE) as (Wx' & Wy' & EM & R' & Ex' & Ey' & Vx & Vy & _).
      rewrite <- Vx, <- Vy in *. destruct (nonzero x') eqn:Nx'; cbn [negb] in H.
      + destruct (exact_floor (coeffs x') (coeffs y') None) as [i|] eqn:Ef.
        * inversion H; subst i. destruct Wx' as (WM & Lx & Mx). destruct Wy' as (WM' & Ly & My). rewrite R' in Mx. rewrite <- EM, R' in My.
          apply (exact_floor_sound (mring (emodule x)) (basis (emodule x'))) in Ef; [|assumption|assumption|congruence]. destruct Ef as [_ Ef].
          assert (K : value x' = IZR n * value y') by (unfold SpecModule.value; rewrite <- EM; exact Ef). exists (value x'), (value y'). split; [apply PR|]. split; [apply PR|]. rewrite K. replace (IZR n * value y' / value y') with (IZR n) by (field; exact V). symmetry. apply Zfloor_IZR.
        * destruct (search rounds (floordiv_test mag_up garb carb rounds x' y') ARB_PRECISION_FAST) as [i|] eqn:Es; [|discriminate]. inversion H; subst i.
          apply search_sound in Es; [|unfold ARB_PRECISION_FAST; lia]. destruct Es as (p & Hp & Es). unfold ARB_PRECISION_FAST in Hp. apply (floordiv_test_sound x' y' rounds p n Wx' Wy' Ex' Ey' ltac:(lia) Es).
      + inversion H; subst. exists (value x'), (value y'). split; [apply PR|]. split; [apply PR|]. rewrite (zero_value_of A S HL rho x' Nx'). unfold Rdiv. rewrite Rmult_0_l. symmetry. apply (Zfloor_IZR 0).
    - inversion H; subst. exists (value x), (value y). split; [apply PR|]. split; [apply PR|]. rewrite (zero_value_of A S HL rho x Nx). unfold Rdiv. rewrite Rmult_0_l. symmetry. apply (Zfloor_IZR 0).
  Qed.
  Lemma op_ne_zero_decided b v : within k b v -> v <> 0 -> is_accurate 5 b = true -> op_ne b (arb_of_Z 0) <> None.
  Proof.
    intros E V Ha. destruct (accuracy_near k b v 5 Hk E ltac:(lia) Ha) as [_ (r & Er & Rr & _)]. destruct E as [W C]. pose proof (arb_wf_rad b r W Er) as Pr. rewrite Er in C.
    assert (H : arb_ne b (arb_of_Z 0) = true).
    { apply arb_ne_spec; [exact W|apply arb_of_arf_wf|]. intros p q Hp Hq. apply arb_of_Z_contains_iff in Hq. subst q. intros ->.
      unfold contains in Hp. rewrite Er in Hp. rewrite Rminus_0_l, Rabs_Ropp in Hp. assert (B4 : bpow radix2 (Z.opp 5) = / 32) by (cbn; lra). rewrite B4 in Rr. assert (Rabs (arf2R (mid b)) = 0) by (pose proof (Rabs_pos (arf2R (mid b))); lra).
      assert (R0 : arf2R r = 0) by lra. apply V. assert (M : arf2R (mid b) = 0) by (destruct (Req_dec (arf2R (mid b)) 0) as [|Nz]; [assumption|apply Rabs_pos_lt in Nz; lra]). rewrite M, R0, Rminus_0_r in C. destruct (Req_dec v 0) as [|Nz]; [assumption|apply Rabs_pos_lt in Nz; lra]. }
    unfold op_ne, op_eq. destruct (arb_eq b (arb_of_Z 0)); [discriminate|]. rewrite H. discriminate.
  Qed.
  Lemma floordiv_search_terminates x y : elem_wf S x -> elem_wf S y -> approximated x -> approximated y -> converging x -> converging y -> value x <> 0 -> value y <> 0 ->
    (forall n, value x / value y <> IZR n) -> exists N n, forall m, (N <= m)%nat -> search m (floordiv_test mag_up garb carb m x y) ARB_PRECISION_FAST = Some n.
  Proof.
    intros Wx Wy Ex Ey Cx Cy Vx Vy HN. destruct (not_integer_gap _ HN) as (eta & i & He & GL & GU). destruct (eventually_small (18 * (Rabs (value x / value y) * 128)) eta He) as [P HP].
    assert (K : forall n p d s, (64 <= p)%Z -> elem_arb n y p = Some d -> elem_arb n x p = Some s -> op_ne d (arb_of_Z 0) <> None /\
      exists lo hi, arb_interval (arb_div mag_up p s d) = Some (lo, hi) /\ ((P <= p)%Z -> arf_floor lo = arf_floor hi)).
    { intros n p d s Hp Ed Es. destruct (elem_arb_sound A S HL mag_up Hm garb carb rho k Hk x p n s Wx Ex ltac:(lia) Es) as [E1 A1]. destruct (elem_arb_sound A S HL mag_up Hm garb carb rho k Hk y p n d Wy Ey ltac:(lia) Ed) as [E2 A2].
      split; [apply (op_ne_zero_decided d (value y) E2 Vy), (is_accurate_le p 5); [lia|exact A2]|].
      destruct (div_near k mag_up p s d (value x) (value y) Hk Hm Ht Hp E1 E2 Vx Vy A1 A2) as [ND AD]. destruct (interval_near _ _ _ ND AD) as (lo & hi & I & L & U). exists lo, hi. split; [exact I|]. intros HPp. specialize (HP p HPp). apply Rabs_le_inv in L, U.
      rewrite !arf_floor_spec. rewrite (floor_unique i), (floor_unique i); [reflexivity|lra..]. }
    destruct (search_terminates (fun n => floordiv_test mag_up garb carb n x y) ARB_PRECISION_FAST (Z.max 64 P)) as (N & t & Hs).
    - unfold ARB_PRECISION_FAST. lia.
    - unfold floordiv_test. intros n m p r H L. destruct (elem_arb n y p) as [d|] eqn:Ed; [|discriminate]. rewrite (elem_arb_mono A mag_up garb carb y p n m d Ed L). destruct (op_ne d (arb_of_Z 0)); [|exact H].
      destruct (elem_arb n x p) as [s|] eqn:Es; [|discriminate]. rewrite (elem_arb_mono A mag_up garb carb x p n m s Es L). exact H.
    - intros p Hp. unfold ARB_PRECISION_FAST in Hp. destruct (elem_arb_returns A S mag_up Hm garb carb rho k Hk Ht x p Wx Ex Cx (fun _ => Vx) ltac:(lia)) as (n1 & s & Es). destruct (elem_arb_returns A S mag_up Hm garb carb rho k Hk Ht y p Wy Ey Cy (fun _ => Vy) ltac:(lia)) as (n2 & d & Ed).
      apply (elem_arb_mono A mag_up garb carb x p n1 (Nat.max n1 n2)) in Es; [|lia]. apply (elem_arb_mono A mag_up garb carb y p n2 (Nat.max n1 n2)) in Ed; [|lia].
      destruct (K _ p d s ltac:(lia) Ed Es) as (D & lo & hi & I & _). exists (Nat.max n1 n2). unfold floordiv_test. rewrite Ed. destruct (op_ne d (arb_of_Z 0)); [|eauto]. rewrite Es. unfold bounds_agree. rewrite I. eauto.
    - intros n p r Hp H. unfold floordiv_test in H. destruct (elem_arb n y p) as [d|] eqn:Ed; [|discriminate]. destruct (elem_arb n x p) as [s|] eqn:Es.
      + destruct (K n p d s ltac:(lia) Ed Es) as (D & lo & hi & I & F). destruct (op_ne d (arb_of_Z 0)); [|contradiction]. unfold bounds_agree in H. rewrite I, (F ltac:(lia)), Z.eqb_refl in H. inversion H; discriminate.
      + destruct (elem_arb_sound A S HL mag_up Hm garb carb rho k Hk y p n d Wy Ey ltac:(lia) Ed) as [E2 A2]. pose proof (op_ne_zero_decided d (value y) E2 Vy (is_accurate_le p 5 d ltac:(lia) A2)) as D. destruct (op_ne d (arb_of_Z 0)); [discriminate|contradiction].
    - exists N, t. intros n Hn. exact (Hs n n Hn Hn).
  Qed.
End Loops.
