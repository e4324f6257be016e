(** Property C109: which approximations of elements return. *)
From Coq Require Import ZArith QArith Qcanon Bool List Reals Qreals Lra Lia.
From Flocq Require Import Core.
From Verif Require Import Arf Arb Real SpecArf ArfProofs ArbProofs SpecReal RealProofs RealProofs2 RealProofs3 RealProofs5 RealRefuted Rand48Proofs Rand48Rational Gen SpecGen GenProofs Ring SpecRing RingProofs Module Element SpecModule ModuleProofs ElementProofs
  ElementProofs2 ElementProofs3 ElementProofs4 Loops SpecLoops Near Near2 LoopsProofs LoopsProofs2 LoopsProofs3 LoopsProofs4 LoopsProofs5 Balls PropOrder PropFloor PropDouble LoopsCases PropLoops Fast48 SpecStuck.
Import ListNotations.
Open Scope R_scope.

(** * The balls of sums of generators are never exact *)
(** The radius is positive, if there is one. *)
Definition inexact (b : arb) : Prop := match rad b with None => True | Some r => 0 < arf2R r end.
Section Inexact.
  Variables (mag_up : arf -> arf) (Hm : mag_up_ok mag_up).
  Lemma mk_ball_rad prec e r : 0 <= arf2R r -> prec_ok prec -> exists r', rad (mk_ball mag_up prec e (Some r)) = Some r' /\ arf2R r <= arf2R r'.
  Proof.
    intros Hr Hp. eexists. split; [reflexivity|]. pose proof (round_err_nonneg prec e) as N. pose proof (Hm (arf_add_exact r (round_err prec e))) as M. rewrite arf_add_exact_spec in M. lra.
  Qed.
  Lemma mk_ball_wf prec e r : match r with Some r => 0 <= arf2R r | None => True end -> arb_wf (mk_ball mag_up prec e r).
  Proof.
    intros Hr. unfold arb_wf, mk_ball. cbn. destruct r as [r|]; [|exact Logic.I]. cbn. pose proof (round_err_nonneg prec e). apply mag_up_wf; [exact Hm|]. rewrite arf_add_exact_spec. lra.
  Qed.
  Lemma add_wf prec x y : arb_wf x -> arb_wf y -> arb_wf (arb_add mag_up prec x y).
  Proof.
    intros Wx Wy. apply mk_ball_wf. destruct (rad x) as [rx|] eqn:Ex; [|exact Logic.I]. destruct (rad y) as [ry|] eqn:Ey; [|exact Logic.I]. cbn [rad2].
    pose proof (arb_wf_rad x rx Wx Ex). pose proof (arb_wf_rad y ry Wy Ey). rewrite arf_add_exact_spec. lra.
  Qed.
  Lemma add_inexact prec x y : prec_ok prec -> arb_wf x -> arb_wf y -> inexact x \/ inexact y -> inexact (arb_add mag_up prec x y).
  Proof.
    intros Hp Wx Wy H. unfold inexact, arb_add in *. destruct (rad x) as [rx|] eqn:Ex; [|exact Logic.I]. destruct (rad y) as [ry|] eqn:Ey; [|exact Logic.I]. cbn [rad2].
    pose proof (arb_wf_rad x rx Wx Ex). pose proof (arb_wf_rad y ry Wy Ey).
    destruct (mk_ball_rad prec (arf_add_exact (mid x) (mid y)) (arf_add_exact rx ry)) as (r & -> & R); [rewrite arf_add_exact_spec; lra|exact Hp|]. rewrite arf_add_exact_spec in R. lra.
  Qed.
  Lemma mul_wf prec x y : arb_wf x -> arb_wf y -> arb_wf (arb_mul mag_up prec x y).
  Proof.
    intros Wx Wy. apply mk_ball_wf. destruct (rad x) as [rx|] eqn:Ex; [|exact Logic.I]. destruct (rad y) as [ry|] eqn:Ey; [|exact Logic.I]. cbn [rad2].
    pose proof (arb_wf_rad x rx Wx Ex). pose proof (arb_wf_rad y ry Wy Ey). rewrite !arf_add_exact_spec, !arf_mul_exact_spec, !arf_abs_spec.
    pose proof (Rabs_pos (arf2R (mid x))). pose proof (Rabs_pos (arf2R (mid y))). nra.
  Qed.
  (** An inexact ball times a ball other than exactly zero. *)
  Lemma mul_inexact prec x y v : prec_ok prec -> arb_wf x -> inexact x -> encloses y v -> v <> 0 -> inexact (arb_mul mag_up prec x y).
  Proof.
    intros Hp Wx Hx [Wy Cy] Nv. unfold inexact, arb_mul, contains in *. destruct (rad x) as [rx|] eqn:Ex; [|exact Logic.I]. destruct (rad y) as [ry|] eqn:Ey; [|exact Logic.I]. cbn [rad2].
    pose proof (arb_wf_rad y ry Wy Ey) as Py. pose proof (Rabs_pos (arf2R (mid x))) as Ax. pose proof (Rabs_pos (arf2R (mid y))) as Ay.
    match goal with |- context [mk_ball mag_up prec ?e (Some ?r)] => destruct (mk_ball_rad prec e r) as (r' & -> & R) end; [|exact Hp|]; rewrite !arf_add_exact_spec, !arf_mul_exact_spec, !arf_abs_spec in *; [nra|].
    assert (K : 0 < Rabs (arf2R (mid y)) + arf2R ry).
    { destruct (Req_dec (arf2R (mid y)) 0) as [Z0|Z0]; [|pose proof (Rabs_pos_lt _ Z0); lra]. rewrite Z0 in *. rewrite Rminus_0_r in Cy. pose proof (Rabs_pos_lt _ Nv). rewrite Rabs_R0. lra. }
    assert (0 < (Rabs (arf2R (mid y)) + arf2R ry) * arf2R rx) by (apply Rmult_lt_0_compat; assumption). assert (0 <= Rabs (arf2R (mid x)) * arf2R ry) by (apply Rmult_le_pos; assumption). lra.
  Qed.
  Context {A : ring} (S : semantics A).
  Variables (garb : gen -> Z -> arb) (carb : car A -> Z -> arb).
  Lemma arb_sum_inexact prec : (0 < prec)%Z -> forall gs cs ret, arb_wf ret -> (forall g, In g gs -> arb_wf (garb g prec) /\ inexact (garb g prec)) -> Forall (fun c => encloses (carb c prec) (val S c)) cs ->
    length cs = length gs -> inexact ret \/ (exists c, In c cs /\ val S c <> 0) -> inexact (arb_sum mag_up garb carb prec gs cs ret).
  Proof.
    intros Hp. induction gs as [|g gs IH]; intros cs ret Wr Hg Hc Hl H.
    - destruct cs; [|discriminate]. cbn. destruct H as [H|(c & [] & _)]. exact H.
    - destruct cs as [|c cs]; [discriminate|]. cbn [arb_sum]. inversion Hc as [|? ? C1 C2]; subst. destruct (Hg g (or_introl eq_refl)) as [Wg Ig].
      apply IH; [apply add_wf; [exact Wr|apply mul_wf; [exact Wg|exact (proj1 C1)]]|intros h Hh; apply Hg; right; exact Hh|exact C2|injection Hl; auto|].
      destruct H as [H|(d & [<-|Hd] & Nd)].
      + left. apply add_inexact; [exact Hp|exact Wr|apply mul_wf; [exact Wg|exact (proj1 C1)]|left; exact H].
      + left. apply add_inexact; [exact Hp|exact Wr|apply mul_wf; [exact Wg|exact (proj1 C1)]|right]. apply (mul_inexact _ _ _ (val S c)); [exact Hp|exact Wg|exact Ig|exact C1|exact Nd].
      + right. exists d. auto.
  Qed.
End Inexact.
Lemma num_arb_inexact rng fuel x prec b : (0 <= prec)%Z -> num_arb rng fuel x prec = Some b -> arb_wf b /\ inexact b.
Proof.
  intros Hp H. unfold num_arb in H. rewrite num_refine_stale in H by (apply stale_inf, Hp). destruct (num_arf rng fuel x prec) as [m|]; [|discriminate]. cbn [option_map] in H. injection H as <-. split; [apply refine_ball_wf|].
  unfold inexact. destruct (refine_ball_rad m prec) as (r & -> & ->). apply ball_rad_pos.
Qed.

(** * Elements that denote zero *)
Section Stuck.
  Context {A : ring} (S : semantics A) (L : lawful A S).
  Variables (mag_up : arf -> arf) (Hm : mag_up_ok mag_up) (rng : Z -> nat -> bool) (names : Z -> atom) (rho : Z -> R) (garb : gen -> Z -> arb) (carb : car A -> Z -> arb).
  Lemma nonzero_has_coefficient (x : elem A) : nonzero x = true <-> has_coefficient x.
  Proof.
    unfold nonzero, has_coefficient. rewrite existsb_exists. split; intros (c & Hc & N); exists c; (split; [exact Hc|]).
    - intros E. apply (L_eqb A S L) in E. unfold cz in N. rewrite E in N. discriminate.
    - unfold cz. destruct (ceqb c (czero A)) eqn:E; [apply (L_eqb A S L) in E; contradiction|reflexivity].
  Qed.
  Lemma arb_loop_some x acc : forall n prec b, (2 <= prec)%Z -> arb_loop mag_up garb carb n x acc prec = Some b -> exists p, (2 <= p)%Z /\ b = arb_sum mag_up garb carb p (basis (emodule x)) (coeffs x) (arb_of_Z 0).
  Proof.
    induction n as [|n IH]; intros prec b Hp H; [discriminate|]. cbn [arb_loop] in H. cbv zeta in H. destruct (is_accurate acc _); [injection H as <-; exists prec; auto|]. apply (IH (prec * 2)%Z b ltac:(lia) H).
  Qed.
  Lemma arb_stuck x acc : elem_wf S x -> code_setting S rng names rho garb carb x -> has_coefficient x -> value S rho x = 0 -> (3 <= acc)%Z -> never (fun n => elem_arb mag_up garb carb n x acc).
  Proof.
    intros W C N V Ha n. destruct (elem_arb mag_up garb carb n x acc) as [b|] eqn:E; [exfalso|reflexivity].
    destruct (C65_within A S L mag_up Hm rng names rho garb carb x W C acc n b ltac:(lia) E) as (r & Er & [R0 R1] & R2). rewrite V in R2. rewrite Rminus_0_l, Rabs_Ropp in R2.
    assert (B : bpow radix2 (- acc) <= / 8) by (change (/ 8) with (bpow radix2 (-3)); apply bpow_le; lia). pose proof (Rabs_pos (arf2R (mid b))) as Ab. assert (arf2R r = 0) by nra.
    unfold elem_arb in E. rewrite (proj2 (nonzero_has_coefficient x) N) in E. cbn [negb] in E. pose proof (Z.log2_up_nonneg (Z.of_nat (rank (emodule x)))). apply arb_loop_some in E as (p & Hp & Eb); [|lia].
    destruct C as (_ & CB & CE & _). destruct W as (_ & Wl & Wm).
    assert (In0 : inexact b).
    { rewrite Eb. apply (arb_sum_inexact mag_up Hm S); [lia|cbn; lia| | |exact Wl|right].
      - intros g Hg. destruct (CB g p Hg Hp) as [fuel Ef]. exact (num_arb_inexact rng fuel _ p _ ltac:(lia) Ef).
      - rewrite Forall_forall in Wm |- *. intros c Hc. apply CE; [apply Wm, Hc|lia].
      - destruct N as (c & Hc & Nc). exists c. split; [exact Hc|]. intros Vc. apply Nc. rewrite Forall_forall in Wm. destruct (L_zero A S L (mring (emodule x))) as [M0 V0]. apply (L_inj A S L (mring (emodule x))); [apply Wm, Hc|exact M0|lra]. }
    unfold inexact in In0. rewrite Er in In0. lra.
  Qed.
  Lemma search_stuck {T} (test : Z -> option (option T)) : (forall p, (1 <= p)%Z -> test p = None \/ test p = Some None) -> forall n prec, (1 <= prec)%Z -> search n test prec = None.
  Proof. intros H. induction n as [|n IH]; intros prec Hp; [reflexivity|]. cbn [search]. destruct (H prec Hp) as [-> | ->]; [reflexivity|apply IH; lia]. Qed.
  Lemma search_none {T} (test : Z -> option (option T)) lo : (forall p, (lo <= p)%Z -> test p = None) -> forall n prec, (lo <= prec)%Z -> search n test prec = None.
  Proof. intros H [|n] prec Hp; [reflexivity|]. cbn [search]. rewrite H by exact Hp. reflexivity. Qed.
End Stuck.
Lemma search_stuck_from {T} lo : (1 <= lo)%Z -> forall test : Z -> option (option T), (forall p, (lo <= p)%Z -> test p = None \/ test p = Some None) -> forall n prec, (lo <= prec)%Z -> search n test prec = None.
Proof. intros Hl test H. induction n as [|n IH]; intros prec Hp; [reflexivity|]. cbn [search]. destruct (H prec Hp) as [-> | ->]; [reflexivity|apply IH; lia]. Qed.

(** arb() returns exactly if the element does not denote 0, or all its coefficients are 0. *)
Theorem C109_arb : forall A S, lawful A S -> forall mag_up, mag_up_ok mag_up -> mag_up_tight mag_up -> forall rng names rho garb carb (x : elem A), elem_wf S x -> code_setting S rng names rho garb carb x ->
  forall accuracy, (3 <= accuracy)%Z -> (returns (fun rounds => elem_arb mag_up garb carb rounds x accuracy) <-> (has_coefficient x -> value S rho x <> 0)).
Proof.
  intros A S L mag_up Hm Ht rng names rho garb carb x W C acc Ha. split.
  - intros (n & b & H) N V. pose proof (arb_stuck S L mag_up Hm rng names rho garb carb x acc W C N V Ha n) as K. cbn beta in K. congruence.
  - intros H. destruct (C65_returns A S L mag_up Hm Ht rng names rho garb carb x W C (fun N => H (proj1 (nonzero_has_coefficient S L x) N)) acc ltac:(lia)) as (b & N & K). exists N, b. apply K. apply Nat.le_refl.
Qed.
(** So all operations that look at approximations of such an element do not return, unless the answer is found in another way: because the operands are ==, or the element a rational number. *)
Theorem C109_order : forall A S, lawful A S -> forall mag_up, mag_up_ok mag_up -> forall rng names rho garb carb (x : elem A), elem_wf S x -> code_setting S rng names rho garb carb x ->
  has_coefficient x -> value S rho x = 0 ->
  (forall y, equal x y = Ok false -> never (fun n => lt_elem mag_up garb carb n x y)) /\ (forall y, equal y x = Ok false -> never (fun n => lt_elem mag_up garb carb n y x)) /\
  (forall g, eq_real x g = Ok false -> never (fun n => lt_real mag_up garb carb n x g) /\ never (fun n => gt_real mag_up garb carb n x g)) /\
  (forall m, eq_integer x m = false -> never (fun n => lt_int mag_up garb carb n x m) /\ never (fun n => gt_int mag_up garb carb n x m)) /\
  (forall q, eq_rational x q = false -> never (fun n => lt_rat mag_up garb carb n x q) /\ never (fun n => gt_rat mag_up garb carb n x q)).
Proof.
  intros A S L mag_up Hm rng names rho garb carb x W C N V.
  assert (Stuck : forall p n, (3 <= p)%Z -> elem_arb mag_up garb carb n x p = None) by (intros p n Hp; exact (arb_stuck S L mag_up Hm rng names rho garb carb x p W C N V Hp n)).
  assert (Lt : forall n test, lt mag_up garb carb n x (Ok false) test = None).
  { intros n test. unfold lt, lt_search. rewrite (search_none _ 3); [reflexivity| |unfold ARB_PRECISION_FAST; lia]. intros p Hp. rewrite Stuck by exact Hp. reflexivity. }
  assert (Gt : forall n test, gt mag_up garb carb n x (Ok false) test = None) by (intros n test; unfold gt; rewrite Lt; reflexivity).
  split; [|split; [|split; [|split]]].
  - intros y E n. unfold lt_elem. rewrite E. apply Lt.
  - intros y E n. unfold lt_elem. rewrite E. unfold lt, lt_search. rewrite (search_none _ 3); [reflexivity| |unfold ARB_PRECISION_FAST; lia]. intros p Hp.
    destruct (elem_arb mag_up garb carb n y p) as [b|]; [|reflexivity]. unfold test_elem. rewrite Stuck by exact Hp. reflexivity.
  - intros g E. split; intros n; [unfold lt_real|unfold gt_real]; rewrite E; [apply Lt|apply Gt].
  - intros m E. split; intros n; [unfold lt_int|unfold gt_int]; rewrite E; [apply Lt|apply Gt].
  - intros q E. split; intros n; [unfold lt_rat|unfold gt_rat]; rewrite E; [apply Lt|apply Gt].
Qed.
Theorem C109_integer_parts : forall A S, lawful A S -> forall mag_up, mag_up_ok mag_up -> forall rng names rho garb carb (x : elem A), elem_wf S x -> code_setting S rng names rho garb carb x ->
  has_coefficient x -> value S rho x = 0 ->
  (to_integer x = None -> never (fun n => elem_floor mag_up garb carb n x) /\ never (fun n => elem_ceil mag_up garb carb n x)) /\
  (to_rational x = None -> never (fun n => elem_double mag_up garb carb n x)).
Proof.
  intros A S L mag_up Hm rng names rho garb carb x W C N V.
  assert (Stuck : forall p n, (3 <= p)%Z -> elem_arb mag_up garb carb n x p = None) by (intros p n Hp; exact (arb_stuck S L mag_up Hm rng names rho garb carb x p W C N V Hp n)).
  split.
  - intros E. split; intros n; [unfold elem_floor|unfold elem_ceil]; rewrite E; (apply (search_none _ 3); [|unfold ARB_PRECISION_FAST; lia]); intros p Hp; rewrite Stuck by exact Hp; reflexivity.
  - intros E n. unfold elem_double. rewrite E. apply (search_none _ 3); [|lia]. intros p Hp. rewrite Stuck by exact Hp. reflexivity.
Qed.
(** x.floordiv(y) when one of them denotes 0 but has coefficients: it only returns if x is an integer multiple of y, whatever the indeterminates are. *)
Theorem C109_floordiv : forall A S, lawful A S -> forall mag_up, mag_up_ok mag_up -> forall rng names rho garb carb (x y : elem A), elem_wf S x -> elem_wf S y -> mring (emodule y) = mring (emodule x) ->
  code_setting S rng names rho garb carb x -> code_setting S rng names rho garb carb y ->
  value S rho x = 0 \/ value S rho y = 0 ->
  forall rounds m, floordiv mag_up garb carb rounds x y = Some (Ok m) -> forall sigma, value S sigma x = IZR m * value S sigma y.
Proof.
  intros A S L mag_up Hm rng names rho garb carb x y Wx Wy R Cx Cy V rounds m H sigma.
  assert (Zv : forall z : elem A, nonzero z = false -> forall s, value S s z = 0) by (intros z N s; exact (zero_value_of A S L s z N)).
  unfold floordiv in H. destruct (nonzero x) eqn:Nx; cbn [negb] in H; [|injection H as <-; rewrite (Zv x Nx); lra].
  destruct (common x y) as [[x' y']|] eqn:Ec; [|discriminate]. destruct (common_value A S L x y x' y' Wx Wy Ec) as [Vx Vy].
  destruct (nonzero x') eqn:Nx'; cbn [negb] in H; [|injection H as <-; rewrite <- Vx, (Zv x' Nx'); lra].
  destruct (common_spec A S L x y x' y' Wx Wy Ec) as (Wx' & Wy' & EM & G & _).
  pose proof (common_ring A S L (mring (emodule x)) x y x' y' Wx Wy eq_refl R Ec) as Rx. assert (Ry : mring (emodule y') = mring (emodule x)) by (rewrite <- EM; exact Rx).
  destruct (exact_floor (coeffs x') (coeffs y') None) as [i|] eqn:Ef.
  { injection H as ->. destruct Wx' as (_ & Lx & Mx). destruct Wy' as (_ & Ly & My). rewrite Rx in Mx. rewrite Ry in My.
    apply (exact_floor_sound A S L sigma (mring (emodule x)) (basis (emodule x'))) in Ef; [|assumption|assumption|congruence]. destruct Ef as [_ Ef].
    rewrite <- Vx, <- Vy. unfold value. rewrite <- EM. exact Ef. }
  exfalso. assert (K : forall z : elem A, elem_wf S z -> basis (emodule z) = basis (emodule x') -> mring (emodule z) = mring (emodule x) -> code_setting S rng names rho garb carb z).
  { intros z Wz Bz Rz. destruct Cx as (C1 & C2 & C3 & C4), Cy as (_ & C5 & _). split; [exact C1|]. rewrite Rz. split; [|split; [exact C3|exact C4]].
    intros g p Hg. rewrite Bz in Hg. apply G in Hg. destruct Hg as [Hg|Hg] in p |- *; [exact (C2 g p Hg)|exact (C5 g p Hg)]. }
  assert (Kx : code_setting S rng names rho garb carb x') by (apply K; [exact Wx'|reflexivity|exact Rx]).
  assert (Ky : code_setting S rng names rho garb carb y') by (apply K; [exact Wy'|rewrite EM; reflexivity|exact Ry]).
  destruct (search rounds (floordiv_test mag_up garb carb rounds x' y') ARB_PRECISION_FAST) as [i|] eqn:Es; [|discriminate].
  rewrite (search_stuck_from 3 ltac:(lia)) in Es; [discriminate| |unfold ARB_PRECISION_FAST; lia]. intros p Hp. unfold floordiv_test.
  rewrite <- Vx, <- Vy in V.
  destruct (nonzero y') eqn:Ny'.
  - destruct V as [V|V].
    + rewrite (arb_stuck S L mag_up Hm rng names rho garb carb x' p Wx' Kx (proj1 (nonzero_has_coefficient S L x') Nx') V Hp rounds).
      destruct (elem_arb mag_up garb carb rounds y' p) as [d|]; [|left; reflexivity]. destruct (op_ne d (arb_of_Z 0)); [left|right]; reflexivity.
    + rewrite (arb_stuck S L mag_up Hm rng names rho garb carb y' p Wy' Ky (proj1 (nonzero_has_coefficient S L y') Ny') V Hp rounds). left. reflexivity.
  - left. unfold elem_arb at 1. rewrite Ny'. cbn [negb]. destruct (op_ne (arb_of_Z 0) (arb_of_Z 0)) eqn:E0; [|discriminate E0]. destruct (elem_arb mag_up garb carb rounds x' p) as [s|]; [|reflexivity].
    unfold bounds_agree, arb_div. destruct (rad s); reflexivity.
Qed.
Lemma floordiv_no_error garb n a b c d e : floordiv (A := int_ring) up30 garb int_arb n (e2 a b) (e2 c d) <> Some (Err e).
Proof.
  unfold floordiv. destruct (negb (nonzero (A := int_ring) (e2 a b))); [discriminate|]. assert (common (A := int_ring) (e2 a b) (e2 c d) = Ok (e2 a b, e2 c d)) as -> by reflexivity.
  destruct (negb _); [discriminate|]. destruct (exact_floor _ _ _); [discriminate|]. destruct (search n _ _); discriminate.
Qed.
(** There are such elements for every two random numbers, because these are rational numbers: with integers c and d, c v + d w is zero,
    has two coefficients other than zero, and nothing can be computed about it. *)
Theorem C109_exists : forall s t, exists c d v w garb, counterexample (e2 c d) s t v w garb /\ c <> 0%Z /\ d <> 0%Z /\ IZR c * v + IZR d * w = 0 /\
  (forall accuracy, (3 <= accuracy)%Z -> never (fun n => elem_arb (A := int_ring) up30 garb int_arb n (e2 c d) accuracy)) /\
  (forall m, never (fun n => lt_int (A := int_ring) up30 garb int_arb n (e2 c d) m) /\ never (fun n => gt_int (A := int_ring) up30 garb int_arb n (e2 c d) m)) /\
  never (fun n => lt_elem (A := int_ring) up30 garb int_arb n (e2 c d) (e2 0 0)) /\ never (fun n => lt_elem (A := int_ring) up30 garb int_arb n (e2 0 0) (e2 c d)) /\
  never (fun n => elem_floor (A := int_ring) up30 garb int_arb n (e2 c d)) /\ never (fun n => elem_ceil (A := int_ring) up30 garb int_arb n (e2 c d)) /\
  never (fun n => elem_double (A := int_ring) up30 garb int_arb n (e2 c d)) /\
  never (fun n => floordiv (A := int_ring) up30 garb int_arb n (e2 c d) (e2 0 1)) /\ never (fun n => floordiv (A := int_ring) up30 garb int_arb n (e2 0 1) (e2 c d)).
Proof.
  intros s t. destruct (stream_value_exists (rand48 s)) as [v0 Hv0]. destruct (stream_value_exists (rand48 t)) as [w0 Hw0].
  destruct (rand48_rational s v0 Hv0) as (p & q & Hq & Ev). destruct (rand48_rational t w0 Hw0) as (p' & q' & Hq' & Ew).
  pose proof (stream_value_pos _ _ (rand48_nonzero s) Hv0) as Pv. pose proof (stream_value_pos _ _ (rand48_nonzero t) Hw0) as Pw.
  apply IZR_lt in Hq as Rq. apply IZR_lt in Hq' as Rq'.
  assert (Np : p <> 0%Z) by (intros ->; rewrite Ev in Pv; unfold Rdiv in Pv; rewrite Rmult_0_l in Pv; lra).
  assert (Np' : p' <> 0%Z) by (intros ->; rewrite Ew in Pw; unfold Rdiv in Pw; rewrite Rmult_0_l in Pw; lra).
  set (c := (p' * q)%Z). set (d := (- (p * q'))%Z).
  assert (Nc : c <> 0%Z) by (unfold c; nia). assert (Nd : d <> 0%Z) by (unfold d; nia).
  destruct (case s t (e2 c d) (proj1 (proj2 (e_wf c d)))) as (v & w & g0 & K). destruct K as (W & Hv & Hw & C). exists c, d, v, w, (gb s t g0).
  assert (v = v0) as -> by (exact (stream_value_unique _ _ _ Hv Hv0)). assert (w = w0) as -> by (exact (stream_value_unique _ _ _ Hw Hw0)).
  assert (E : IZR c * v0 + IZR d * w0 = 0). { rewrite Ev, Ew. unfold c, d. rewrite opp_IZR, !mult_IZR. field. lra. }
  assert (V : value int_sem (fun i => if (i =? 1)%Z then v0 else w0) (e2 c d) = 0). { unfold value, e2. cbn [coeffs emodule basis combination gen_val val int_sem]. cbn [Z.eqb Pos.eqb]. lra. }
  assert (N : has_coefficient (e2 c d)) by (exists c; split; [left; reflexivity|exact Nc]).
  split; [exact (conj W (conj Hv (conj Hw C)))|]. split; [exact Nc|]. split; [exact Nd|]. split; [exact E|].
  pose proof (C109_order int_ring int_sem int_lawful up30 up30_ok _ _ _ _ _ _ W C N V) as (O1 & O2 & _ & O3 & _).
  pose proof (C109_integer_parts int_ring int_sem int_lawful up30 up30_ok _ _ _ _ _ _ W C N V) as (F1 & F2).
  assert (T : to_rational (A := int_ring) (e2 c d) = None).
  { unfold to_rational. cbn [e2 emodule basis coeffs rational_loop]. unfold cz. cbn [ceqb int_ring czero]. assert ((c =? 0)%Z = false) as -> by (apply Z.eqb_neq, Nc). reflexivity. }
  assert (I : to_integer (A := int_ring) (e2 c d) = None) by (unfold to_integer; rewrite T; reflexivity).
  split; [intros acc Ha; exact (arb_stuck int_sem int_lawful up30 up30_ok _ _ _ _ _ _ acc W C N V Ha)|].
  split; [intros m; apply O3; unfold eq_integer, eq_rational; rewrite T; reflexivity|].
  split; [apply O1|split; [apply O2|]].
  - unfold equal. cbn. assert ((c =? 0)%Z = false) as -> by (apply Z.eqb_neq, Nc). reflexivity.
  - assert (Q : equal (A := int_ring) (e2 0 0) (e2 c d) = Ok ((0 =? c)%Z && ((0 =? d)%Z && true))) by reflexivity. rewrite Q. assert ((0 =? c)%Z = false) as -> by (apply Z.eqb_neq; auto). reflexivity.
  - destruct (F1 I) as [F3 F4]. split; [exact F3|]. split; [exact F4|]. split; [exact (F2 T)|].
    assert (C1 : code_setting int_sem rand48 (names2 s t) (fun i => if (i =? 1)%Z then v0 else w0) (gb s t g0) int_arb (e2 0 1)) by exact C. pose proof (proj1 (proj2 (e_wf 0 1))) as W1.
    split; intros n; cbv beta.
    + destruct (floordiv (A := int_ring) up30 (gb s t g0) int_arb n (e2 c d) (e2 0 1)) as [[m|e]|] eqn:Q; [exfalso|destruct (floordiv_no_error _ _ _ _ _ _ _ Q)|reflexivity].
      pose proof (C109_floordiv int_ring int_sem int_lawful up30 up30_ok _ _ _ _ _ _ _ W W1 eq_refl C C1 (or_introl V) n m Q (fun i => if (i =? 1)%Z then 1 else 0)) as X.
      unfold value, e2 in X. cbn [coeffs emodule basis combination gen_val val int_sem] in X. cbn [Z.eqb Pos.eqb] in X. apply Nc. apply eq_IZR. lra.
    + destruct (floordiv (A := int_ring) up30 (gb s t g0) int_arb n (e2 0 1) (e2 c d)) as [[m|e]|] eqn:Q; [exfalso|destruct (floordiv_no_error _ _ _ _ _ _ _ Q)|reflexivity].
      pose proof (C109_floordiv int_ring int_sem int_lawful up30 up30_ok _ _ _ _ _ _ _ W1 W eq_refl C1 C (or_intror V) n m Q) as X.
      pose proof (X (fun i => if (i =? 1)%Z then 1 else 0)) as X1. pose proof (X (fun i => if (i =? 1)%Z then 0 else 1)) as X2.
      unfold value, e2 in X1, X2. cbn [coeffs emodule basis combination gen_val val int_sem] in X1, X2. cbn [Z.eqb Pos.eqb] in X1, X2.
      assert (M0 : IZR m * IZR c = 0) by lra. apply Rmult_integral in M0. destruct M0 as [M0|M0]; [rewrite M0 in X2; lra|apply Nc, eq_IZR, M0].
Qed.
(** Both sides occur: 3 v + 5 w for two random numbers has a ball; one times the generator 0, which is == 0 and has a floor, has none. *)
Example C109_example : (exists v w garb, counterexample (e2 3 5) 1337 1338 v w garb /\ returns (fun n => elem_arb (A := int_ring) up30 garb int_arb n (e2 3 5) 64)) /\
  let z := mkElem (A := int_ring) (mkModule (A := int_ring) [GRat 0] tt) [1%Z] in
  make (A := int_ring) [GRat 0] tt = Ok (emodule z) /\ has_coefficient z /\ eq_integer z 0 = true /\
  exists v w garb, counterexample z 1337 1338 v w garb /\ never (fun n => elem_arb (A := int_ring) up30 garb int_arb n z 64) /\ forall n, elem_floor (A := int_ring) up30 garb int_arb n z = Some 0%Z.
Proof.
  split; [|intros z].
  - destruct C65_example as (v & w & garb & b & C & E & _). exists v, w, garb. split; [exact C|]. exists 5%nat, b. exact E.
  - assert (W : elem_wf int_sem z).
    { split; [split|split; [reflexivity|repeat constructor]]; [constructor; [exact Logic.I|constructor]|]. split; [intros h []|exact Logic.I]. }
    assert (N : has_coefficient z) by (exists 1%Z; split; [left; reflexivity|discriminate]).
    split; [reflexivity|]. split; [exact N|]. split; [reflexivity|]. destruct (case 1337 1338 z W) as (v & w & g0 & K). exists v, w, (gb 1337 1338 g0). split; [exact K|]. destruct K as (_ & _ & _ & C).
    split; [|intros n; reflexivity]. apply (arb_stuck int_sem int_lawful up30 up30_ok _ _ _ _ _ z 64 W C N); [|lia]. unfold value, z. cbn [coeffs emodule basis combination gen_val val int_sem]. unfold Q2R. cbn. lra.
Qed.
