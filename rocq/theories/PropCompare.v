(** Property C80: all comparisons, in both directions. *)
From Coq Require Import ZArith QArith Qcanon Bool List Reals Qreals Lra Lia.
From Flocq Require Import Core.
From Verif Require Import Arf Arb Real SpecArf ArfProofs ArbProofs SpecReal RealProofs RealProofs2 RealProofs6 RealProofs7 PropReal Gen SpecGen Ring SpecRing RingProofs Module Element SpecModule ModuleProofs Loops SpecLoops Balls LoopsCases PropOrder PropLoops Compare SpecCompare.
Import ListNotations.
Open Scope R_scope.


Lemma answers_not f P Q : answers f P -> (Q <-> ~ P) -> answers (fun n => not_outcome (f n)) Q.
Proof.
  intros (b & (N & H) & D) E. exists (negb b). split; [exists N; intros n Hn; rewrite (H n Hn); reflexivity|]. rewrite E, <- D. destruct b; cbn; intuition congruence.
Qed.
Lemma answers_iff f (P Q : Prop) : answers f P -> (P <-> Q) -> answers f Q.
Proof. intros (b & H & D) E. exists b. split; [exact H|]. tauto. Qed.
Lemma negb_iff (b : bool) (P : Prop) : (b = true <-> P) -> (negb b = true <-> ~ P).
Proof. destruct b; cbn; intuition congruence. Qed.

Theorem C80_elements : forall A S, lawful A S -> forall mag_up, mag_up_ok mag_up -> mag_up_tight mag_up -> forall garb carb rho (p : par A) gs, independent S p rho gs ->
  forall x y, among S p gs x -> among S p gs y ->
  enclosing_balls S garb carb rho x -> shrinking_balls S garb carb x -> enclosing_balls S garb carb rho y -> shrinking_balls S garb carb y ->
  answers (fun n => lt_elem mag_up garb carb n x y) (value S rho x < value S rho y) /\
  answers (fun n => gt_elem mag_up garb carb n x y) (value S rho x > value S rho y) /\
  answers (fun n => le_elem mag_up garb carb n x y) (value S rho x <= value S rho y) /\
  answers (fun n => ge_elem mag_up garb carb n x y) (value S rho x >= value S rho y) /\
  answers (fun _ => Some (equal x y)) (value S rho x = value S rho y) /\
  answers (fun _ => Some (ne_elem x y)) (value S rho x <> value S rho y).
Proof.
  intros A S L mag_up Hm Ht garb carb rho p gs HI x y Lx Ly Ex Cx Ey Cy.
  destruct (C32_elements A S L mag_up Hm Ht garb carb rho p gs HI x y Lx Ly Ex Cx Ey Cy) as (l & e & g & Hl & He & Hg & Dl & De & Dg).
  assert (Al : answers (fun n => lt_elem mag_up garb carb n x y) (value S rho x < value S rho y)) by (exists l; auto).
  assert (Ag : answers (fun n => gt_elem mag_up garb carb n x y) (value S rho x > value S rho y)) by (exists g; auto).
  assert (Ae : answers (fun _ => Some (equal x y)) (value S rho x = value S rho y)) by (exists e; split; [exists 0%nat; intros; rewrite He; reflexivity|exact De]).
  split; [exact Al|]. split; [exact Ag|]. split; [apply (answers_not _ _ _ Ag); lra|]. split; [apply (answers_not _ _ _ Al); lra|]. split; [exact Ae|].
  apply (answers_not _ _ _ Ae). tauto.
Qed.

(** Against one kind of number: what < and > and == say determines the rest. *)
Lemma both_directions l g v w : answers l (v < w) -> answers g (v > w) ->
  answers (fun n => not_outcome (g n)) (v <= w) /\ answers (fun n => not_outcome (l n)) (v >= w) /\
  answers g (w < v) /\ answers l (w > v) /\ answers (fun n => not_outcome (l n)) (w <= v) /\ answers (fun n => not_outcome (g n)) (w >= v).
Proof.
  intros Al Ag. split; [apply (answers_not _ _ _ Ag); lra|]. split; [apply (answers_not _ _ _ Al); lra|]. split; [exact Ag|]. split; [exact Al|].
  split; [apply (answers_not _ _ _ Al); lra|apply (answers_not _ _ _ Ag); lra].
Qed.
Theorem C80_integers : forall A S, lawful A S -> forall mag_up, mag_up_ok mag_up -> mag_up_tight mag_up -> forall garb carb rho (p : par A) gs, independent S p rho gs -> In (GRat 1) gs ->
  forall x, among S p gs x -> enclosing_balls S garb carb rho x -> shrinking_balls S garb carb x -> forall n,
  answers (fun k => lt_int mag_up garb carb k x n) (value S rho x < IZR n) /\ answers (fun k => gt_int mag_up garb carb k x n) (value S rho x > IZR n) /\
  answers (fun k => le_int mag_up garb carb k x n) (value S rho x <= IZR n) /\ answers (fun k => ge_int mag_up garb carb k x n) (value S rho x >= IZR n) /\
  answers (fun k => int_lt mag_up garb carb k n x) (IZR n < value S rho x) /\ answers (fun k => int_gt mag_up garb carb k n x) (IZR n > value S rho x) /\
  answers (fun k => int_le mag_up garb carb k n x) (IZR n <= value S rho x) /\ answers (fun k => int_ge mag_up garb carb k n x) (IZR n >= value S rho x) /\
  (eq_integer x n = true <-> value S rho x = IZR n) /\ (ne_int x n = true <-> value S rho x <> IZR n).
Proof.
  intros A S L mag_up Hm Ht garb carb rho p gs HI H1 x Lx Ex Cx n.
  destruct (C32_integers A S L mag_up Hm Ht garb carb rho p gs HI H1 x Lx Ex Cx n) as (l & g & Hl & Hg & Dl & De & Dg).
  assert (Al : answers (fun k => lt_int mag_up garb carb k x n) (value S rho x < IZR n)) by (exists l; auto).
  assert (Ag : answers (fun k => gt_int mag_up garb carb k x n) (value S rho x > IZR n)) by (exists g; auto).
  destruct (both_directions _ _ _ _ Al Ag) as (R1 & R2 & R3 & R4 & R5 & R6).
  split; [exact Al|]. split; [exact Ag|]. split; [exact R1|]. split; [exact R2|]. split; [exact R3|]. split; [exact R4|]. split; [exact R5|]. split; [exact R6|]. split; [exact De|].
  exact (negb_iff _ _ De).
Qed.
Theorem C80_rationals : forall A S, lawful A S -> forall mag_up, mag_up_ok mag_up -> mag_up_tight mag_up -> forall garb carb rho (p : par A) gs, independent S p rho gs -> In (GRat 1) gs ->
  forall x, among S p gs x -> enclosing_balls S garb carb rho x -> shrinking_balls S garb carb x -> forall q : Qc,
  answers (fun k => lt_rat mag_up garb carb k x q) (value S rho x < Q2R q) /\ answers (fun k => gt_rat mag_up garb carb k x q) (value S rho x > Q2R q) /\
  answers (fun k => le_rat mag_up garb carb k x q) (value S rho x <= Q2R q) /\ answers (fun k => ge_rat mag_up garb carb k x q) (value S rho x >= Q2R q) /\
  answers (fun k => rat_lt mag_up garb carb k q x) (Q2R q < value S rho x) /\ answers (fun k => rat_gt mag_up garb carb k q x) (Q2R q > value S rho x) /\
  answers (fun k => rat_le mag_up garb carb k q x) (Q2R q <= value S rho x) /\ answers (fun k => rat_ge mag_up garb carb k q x) (Q2R q >= value S rho x) /\
  (eq_rational x q = true <-> value S rho x = Q2R q) /\ (ne_rat x q = true <-> value S rho x <> Q2R q).
Proof.
  intros A S L mag_up Hm Ht garb carb rho p gs HI H1 x Lx Ex Cx q.
  destruct (C32_rationals A S L mag_up Hm Ht garb carb rho p gs HI H1 x Lx Ex Cx q) as (l & g & Hl & Hg & Dl & De & Dg).
  assert (Al : answers (fun k => lt_rat mag_up garb carb k x q) (value S rho x < Q2R q)) by (exists l; auto).
  assert (Ag : answers (fun k => gt_rat mag_up garb carb k x q) (value S rho x > Q2R q)) by (exists g; auto).
  destruct (both_directions _ _ _ _ Al Ag) as (R1 & R2 & R3 & R4 & R5 & R6).
  split; [exact Al|]. split; [exact Ag|]. split; [exact R1|]. split; [exact R2|]. split; [exact R3|]. split; [exact R4|]. split; [exact R5|]. split; [exact R6|]. split; [exact De|].
  exact (negb_iff _ _ De).
Qed.
Theorem C80_reals : forall A S, lawful A S -> forall mag_up, mag_up_ok mag_up -> mag_up_tight mag_up -> forall garb carb rho (p : par A) gs, independent S p rho gs ->
  forall x, among S p gs x -> enclosing_balls S garb carb rho x -> shrinking_balls S garb carb x -> forall r, In r (basis (emodule x)) ->
  answers (fun k => lt_real mag_up garb carb k x r) (value S rho x < gen_val rho r) /\ answers (fun k => gt_real mag_up garb carb k x r) (value S rho x > gen_val rho r) /\
  answers (fun k => le_real mag_up garb carb k x r) (value S rho x <= gen_val rho r) /\ answers (fun k => ge_real mag_up garb carb k x r) (value S rho x >= gen_val rho r) /\
  answers (fun k => real_lt mag_up garb carb k r x) (gen_val rho r < value S rho x) /\ answers (fun k => real_gt mag_up garb carb k r x) (gen_val rho r > value S rho x) /\
  answers (fun k => real_le mag_up garb carb k r x) (gen_val rho r <= value S rho x) /\ answers (fun k => real_ge mag_up garb carb k r x) (gen_val rho r >= value S rho x) /\
  answers (fun _ => Some (eq_real x r)) (value S rho x = gen_val rho r) /\ answers (fun _ => Some (ne_real x r)) (value S rho x <> gen_val rho r).
Proof.
  intros A S L mag_up Hm Ht garb carb rho p gs HI x Lx Ex Cx r Ir.
  destruct (C32_reals A S L mag_up Hm Ht garb carb rho p gs HI x Lx Ex Cx r Ir) as (l & e & g & Hl & He & Hg & Dl & De & Dg).
  assert (Al : answers (fun k => lt_real mag_up garb carb k x r) (value S rho x < gen_val rho r)) by (exists l; auto).
  assert (Ag : answers (fun k => gt_real mag_up garb carb k x r) (value S rho x > gen_val rho r)) by (exists g; auto).
  assert (Ae : answers (fun _ => Some (eq_real x r)) (value S rho x = gen_val rho r)) by (exists e; split; [exists 0%nat; intros; rewrite He; reflexivity|exact De]).
  destruct (both_directions _ _ _ _ Al Ag) as (R1 & R2 & R3 & R4 & R5 & R6).
  split; [exact Al|]. split; [exact Ag|]. split; [exact R1|]. split; [exact R2|]. split; [exact R3|]. split; [exact R4|]. split; [exact R5|]. split; [exact R6|]. split; [exact Ae|].
  apply (answers_not _ _ _ Ae). tauto.
Qed.

(** Rational real numbers: all six, and they return. *)
Theorem C80_rational_numbers : forall rng (p q : Q), exists iters0 fuel0, forall iters fuel, (iters0 <= iters)%nat -> (fuel0 <= fuel)%nat -> exists l g le ge,
  num_lt rng iters fuel (RRat p) (RRat q) = Some l /\ (l = true <-> Q2R p < Q2R q) /\
  num_gt rng iters fuel (RRat p) (RRat q) = Some g /\ (g = true <-> Q2R p > Q2R q) /\
  num_le rng iters fuel (RRat p) (RRat q) = Some le /\ (le = true <-> Q2R p <= Q2R q) /\
  num_ge rng iters fuel (RRat p) (RRat q) = Some ge /\ (ge = true <-> Q2R p >= Q2R q) /\
  (num_ne (RRat p) (RRat q) = true <-> Q2R p <> Q2R q).
Proof.
  intros rng p q.
  assert (T : forall p q, exists i0 f0, forall i f, (i0 <= i)%nat -> (f0 <= f)%nat -> exists r, num_lt rng i f (RRat p) (RRat q) = Some r).
  { clear. intros p q. destruct (Req_dec (Q2R p) (Q2R q)) as [E|N].
    - exists 0%nat, 0%nat. intros i f _ _. exists false. unfold num_lt. assert (rnum_eqb (RRat p) (RRat q) = true) as ->; [|reflexivity].
      cbn [rnum_eqb]. apply Qeq_bool_iff. apply eqR_Qeq. exact E.
    - destruct (C11_lt_terminates rng (RRat p) (RRat q) (Q2R p) (Q2R q)) as (i0 & f0 & r & H); try exact N; try reflexivity; try exact Logic.I.
      exists i0, f0. intros i f Hi Hf. exists r. apply H; assumption. }
  destruct (T p q) as (i1 & f1 & H1). destruct (T q p) as (i2 & f2 & H2). exists (Nat.max i1 i2), (Nat.max f1 f2). intros i f Hi Hf.
  destruct (H1 i f ltac:(lia) ltac:(lia)) as [l Hl]. destruct (H2 i f ltac:(lia) ltac:(lia)) as [g Hg]. exists l, g, (negb g), (negb l).
  pose proof (C11_rationals_right rng i f p q l Hl) as Dl. pose proof (C11_rationals_right rng i f q p g Hg) as Dg.
  split; [exact Hl|]. split; [exact Dl|]. split; [exact Hg|]. split; [rewrite Dg; lra|]. unfold num_le, num_ge. rewrite Hl, Hg. split; [reflexivity|]. split; [rewrite (negb_iff _ _ Dg); lra|].
  split; [reflexivity|]. split; [rewrite (negb_iff _ _ Dl); lra|]. unfold num_ne. apply negb_iff. cbn [rnum_eqb]. rewrite Qeq_bool_iff. split; [apply Qeq_eqR|apply eqR_Qeq].
Qed.
(** Random real numbers: right answers for different numbers. *)
Theorem C80_random_numbers : forall rng iters fuel s t v w, nonzero_stream (rng s) -> nonzero_stream (rng t) -> stream_value (rng s) v -> stream_value (rng t) w -> v <> w ->
  forall b, (num_gt rng iters fuel (RAtom (ARandom s)) (RAtom (ARandom t)) = Some b -> (b = true <-> v > w)) /\
            (num_le rng iters fuel (RAtom (ARandom s)) (RAtom (ARandom t)) = Some b -> (b = true <-> v <= w)) /\
            (num_ge rng iters fuel (RAtom (ARandom s)) (RAtom (ARandom t)) = Some b -> (b = true <-> v >= w)).
Proof.
  intros rng i f s t v w Ns Nt Vs Vt N b. unfold num_gt, num_le, num_ge. split; [|split].
  - intros H. rewrite (C11_randoms_right rng i f t s w v b Nt Ns Vt Vs (not_eq_sym N) H). lra.
  - destruct (num_lt rng i f (RAtom (ARandom t)) (RAtom (ARandom s))) as [c|] eqn:E; [|discriminate]. intros [= <-].
    rewrite (negb_iff _ _ (C11_randoms_right rng i f t s w v c Nt Ns Vt Vs (not_eq_sym N) E)). lra.
  - destruct (num_lt rng i f (RAtom (ARandom s)) (RAtom (ARandom t))) as [c|] eqn:E; [|discriminate]. intros [= <-].
    rewrite (negb_iff _ _ (C11_randoms_right rng i f s t v w c Ns Nt Vs Vt N E)). lra.
Qed.

(** A real number and a float, an integer, or a rational on either side: the answers are right unless the two are close to
    each other: 1/6 of the number for floats and integers, 2^-64 of it for rationals.  (Closer: C61.) *)
Lemma decides_not f (P Q : Prop) : decides f P -> (Q <-> ~ P) -> decides (fun i k => option_map negb (f i k)) Q.
Proof.
  intros (b & i0 & f0 & H & D) E. exists (negb b), i0, f0. split; [intros i k Hi Hf; rewrite (H i k Hi Hf); reflexivity|]. rewrite E. apply negb_iff. exact D.
Qed.
Lemma decides_iff f (P Q : Prop) : decides f P -> (P <-> Q) -> decides f Q.
Proof. intros (b & i0 & f0 & H & D) E. exists b, i0, f0. split; [exact H|]. tauto. Qed.

Theorem C80_floats : forall rng x v, not_product x -> num_ok rng x -> num_value rng x v -> v <> 0 -> forall a, Rabs v / 6 < Rabs (v - arf2R a) ->
  decides (fun i f => num_lt_arf rng i f x a) (v < arf2R a) /\ decides (fun i f => num_gt_arf rng i f x a) (v > arf2R a) /\
  decides (fun i f => num_le_arf rng i f x a) (v <= arf2R a) /\ decides (fun i f => num_ge_arf rng i f x a) (v >= arf2R a) /\
  decides (fun i f => arf_lt_num rng i f a x) (arf2R a < v) /\ decides (fun i f => arf_gt_num rng i f a x) (arf2R a > v) /\
  decides (fun i f => arf_le_num rng i f a x) (arf2R a <= v) /\ decides (fun i f => arf_ge_num rng i f a x) (arf2R a >= v) /\
  num_eq_arf x a = false /\ num_ne_arf x a = true.
Proof.
  intros rng x v Np Hx Hv V0 a Far. pose proof (Rabs_pos v) as Pv.
  assert (N : v <> arf2R a) by (intros ->; rewrite Rminus_diag_eq in Far by reflexivity; rewrite Rabs_R0 in Far; lra).
  assert (L : decides (fun i f => num_lt_arf rng i f x a) (v < arf2R a)).
  { destruct (C11_lt_arf_terminates rng x v a Hx Hv N) as (i0 & f0 & r & H). exists r, i0, f0. split; [exact H|].
    destruct (num_lt_arf_close rng i0 f0 x v a r Np Hx Hv V0 (H i0 f0 (Nat.le_refl _) (Nat.le_refl _))) as [A B].
    unfold Rabs in Far at 2. destruct (Rcase_abs (v - arf2R a)); destruct r; split; intros; try reflexivity; try discriminate; try lra; try (specialize (A eq_refl); lra); specialize (B eq_refl); lra. }
  assert (G : decides (fun i f => num_gt_arf rng i f x a) (v > arf2R a)).
  { destruct (num_gt_arf_terminates rng x v a Hx Hv N) as (i0 & f0 & r & H). exists r, i0, f0. split; [exact H|].
    destruct (num_gt_arf_close rng i0 f0 x v a r Np Hx Hv V0 (H i0 f0 (Nat.le_refl _) (Nat.le_refl _))) as [A B].
    unfold Rabs in Far at 2. destruct (Rcase_abs (v - arf2R a)); destruct r; split; intros; try reflexivity; try discriminate; try lra; try (specialize (A eq_refl); lra); specialize (B eq_refl); lra. }
  assert (E : num_eq_arf x a = false) by (destruct (num_eq_arf x a) eqn:E; [exfalso; apply N; exact (num_eq_arf_right rng x v a Hv E)|reflexivity]).
  split; [exact L|]. split; [exact G|]. split; [apply (decides_not _ _ _ G); lra|]. split; [apply (decides_not _ _ _ L); lra|].
  split; [apply (decides_iff _ _ _ G); lra|]. split; [apply (decides_iff _ _ _ L); lra|]. split; [apply (decides_not _ _ _ L); lra|]. split; [apply (decides_not _ _ _ G); lra|].
  split; [exact E|unfold num_ne_arf; rewrite E; reflexivity].
Qed.
Theorem C80_number_rational : forall rng mag_up, mag_up_ok mag_up -> mag_up_tight mag_up -> forall x v, not_product x -> num_ok rng x -> num_value rng x v -> v <> 0 ->
  forall q, Rabs v * bpow radix2 (-64) < Rabs (v - Q2R q) ->
  decides (fun i f => num_lt_q rng mag_up i f x q) (v < Q2R q) /\ decides (fun i f => num_gt_q rng mag_up i f x q) (v > Q2R q) /\
  decides (fun i f => num_le_q rng mag_up i f x q) (v <= Q2R q) /\ decides (fun i f => num_ge_q rng mag_up i f x q) (v >= Q2R q) /\
  decides (fun i f => q_lt_num rng mag_up i f q x) (Q2R q < v) /\ decides (fun i f => q_gt_num rng mag_up i f q x) (Q2R q > v) /\
  decides (fun i f => q_le_num rng mag_up i f q x) (Q2R q <= v) /\ decides (fun i f => q_ge_num rng mag_up i f q x) (Q2R q >= v) /\
  num_eq_q x q = false /\ num_ne_q x q = true.
Proof.
  intros rng mag_up Ho Ht x v Np Hx Hv V0 q Far. assert (Hm : mag_up_within mag_up) by (intros r0 Hr; split; [apply Ho; exact Hr|apply Ht; exact Hr]).
  assert (P64 : 0 <= Rabs v * bpow radix2 (-64)) by (apply Rmult_le_pos; [apply Rabs_pos|apply bpow_ge_0]).
  assert (N : v <> Q2R q) by (intros ->; rewrite Rminus_diag_eq in Far by reflexivity; rewrite Rabs_R0 in Far; lra).
  assert (L : decides (fun i f => num_lt_q rng mag_up i f x q) (v < Q2R q)).
  { destruct (C11_lt_rational_terminates rng mag_up x v q Hm Hx Hv N) as (i0 & f0 & r & H). exists r, i0, f0. split; [exact H|].
    destruct (num_lt_q_close rng mag_up x v q Hm Hx Hv i0 f0 r Np V0 (H i0 f0 (Nat.le_refl _) (Nat.le_refl _))) as [A B].
    set (eps := Rabs v * bpow radix2 (-64)) in *. unfold Rabs in Far. destruct (Rcase_abs (v - Q2R q)); destruct r; split; intros; try reflexivity; try discriminate; try lra; try (specialize (A eq_refl); lra); specialize (B eq_refl); lra. }
  assert (G : decides (fun i f => num_gt_q rng mag_up i f x q) (v > Q2R q)).
  { destruct (num_gt_q_terminates rng mag_up x v q Hm Hx Hv N) as (i0 & f0 & r & H). exists r, i0, f0. split; [exact H|].
    destruct (num_gt_q_close rng mag_up x v q Hm Hx Hv i0 f0 r Np V0 (H i0 f0 (Nat.le_refl _) (Nat.le_refl _))) as [A B].
    set (eps := Rabs v * bpow radix2 (-64)) in *. unfold Rabs in Far. destruct (Rcase_abs (v - Q2R q)); destruct r; split; intros; try reflexivity; try discriminate; try lra; try (specialize (A eq_refl); lra); specialize (B eq_refl); lra. }
  assert (E : num_eq_q x q = false).
  { destruct x as [p|b|ms]; try reflexivity. destruct (num_eq_q (RRat p) q) eqn:E; [|reflexivity]. exfalso. apply N. apply num_eq_q_rational in E. cbn in Hv. rewrite Hv. exact E. }
  split; [exact L|]. split; [exact G|]. split; [apply (decides_not _ _ _ G); lra|]. split; [apply (decides_not _ _ _ L); lra|].
  split; [apply (decides_iff _ _ _ G); lra|]. split; [apply (decides_iff _ _ _ L); lra|]. split; [apply (decides_not _ _ _ L); lra|]. split; [apply (decides_not _ _ _ G); lra|].
  split; [exact E|unfold num_ne_q; rewrite E; reflexivity].
Qed.
(** At any distance the six operators do not contradict each other: exactly one of <, == and > holds for floats and integers. *)
Theorem C80_floats_consistent : forall rng iters fuel x a l, num_lt_arf rng iters fuel x a = Some l -> exists g,
  num_gt_arf rng iters fuel x a = Some g /\
  (l = true /\ num_eq_arf x a = false /\ g = false \/ l = false /\ num_eq_arf x a = true /\ g = false \/ l = false /\ num_eq_arf x a = false /\ g = true) /\
  num_le_arf rng iters fuel x a = Some (l || num_eq_arf x a)%bool /\ num_ge_arf rng iters fuel x a = Some (g || num_eq_arf x a)%bool.
Proof.
  intros rng i f x a l H. unfold num_le_arf, num_ge_arf, num_gt_arf. rewrite H. destruct (num_eq_arf x a) eqn:E.
  - assert (l = false) as -> by (unfold num_lt_arf in H; rewrite E in H; congruence). exists false. cbn. auto 10.
  - exists (negb l). cbn. destruct l; cbn; auto 10.
Qed.
Example C80_floats_case : decides (fun i f => num_le_arf rand48 i f (RRat (1 # 3)) (mkArf 3 (-2))) (1 / 3 <= 3 / 4) /\
  q_lt_num rand48 (fun r => r) 1 100 (1 # 10) (RAtom (ARandom 1337)) = Some true /\ q_ge_num rand48 (fun r => r) 1 100 (9 # 10) (RAtom (ARandom 1337)) = Some true.
Proof.
  split; [|vm_compute; split; reflexivity].
  assert (F : Rabs (1/3) / 6 < Rabs (1/3 - arf2R (mkArf 3 (-2)))).
  { unfold arf2R. cbn. rewrite Rabs_pos_eq by lra. rewrite Rabs_left; lra. }
  assert (V : num_value rand48 (RRat (1 # 3)) (1 / 3)) by (cbn; unfold Q2R; cbn; lra).
  destruct (C80_floats rand48 (RRat (1 # 3)) (1/3) Logic.I Logic.I V ltac:(lra) (mkArf 3 (-2)) F) as (_ & _ & D & _).
  apply (decides_iff _ _ _ D). unfold arf2R. cbn. lra.
Qed.
Example C80_case : eventually (fun n => le_elem (A := int_ring) up30 (ideal_garb root2) int_arb n zx zy) (Ok true) /\
  eventually (fun n => int_ge (A := int_ring) up30 (ideal_garb root2) int_arb n 5 zx) (Ok false) /\
  num_le rand48 10 100 (RRat (1 # 7)) (RRat (1 # 6)) = Some true.
Proof.
  pose proof sqrt2_bounds as B. split; [|split; [|vm_compute; reflexivity]].
  - destruct (C80_elements _ _ int_lawful up30 up30_ok up30_tight _ int_arb root2 tt gens2 independent2 zx zy zx_among zy_among (ex_enc zx) (ex_shr zx) (ex_enc zy) (ex_shr zy)) as (_ & _ & (b & Hb & D) & _).
    replace b with true in Hb; [exact Hb|]. symmetry. apply D. rewrite zx_value, zy_value. lra.
  - destruct (C80_integers _ _ int_lawful up30 up30_ok up30_tight _ int_arb root2 tt gens2 independent2 in1 zx zx_among (ex_enc zx) (ex_shr zx) 5) as (_ & _ & _ & _ & _ & _ & _ & (b & Hb & D) & _).
    destruct b; [|exact Hb]. exfalso. assert (K : 5 >= value int_sem root2 zx) by (apply D; reflexivity). rewrite zx_value in K. lra.
Qed.
