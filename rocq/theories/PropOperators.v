(** Property C101: all comparisons of elements, with the balls that the library computes.
    Nothing is assumed about linear independence: only the two numbers that are compared matter. *)
From Coq Require Import ZArith QArith Qcanon Bool List Reals Qreals Lra Lia.
From Flocq Require Import Core.
From Verif Require Import Arf Arb Real SpecArf ArfProofs ArbProofs SpecReal RealProofs RealProofs2 RealProofs3 RealRefuted Rand48Proofs Gen SpecGen GenProofs Ring SpecRing RingProofs Module Element SpecModule ModuleProofs ElementProofs
  ElementProofs2 ElementProofs3 ElementProofs4 Loops SpecLoops Near Near2 LoopsProofs LoopsProofs2 LoopsProofs3 LoopsProofs4 LoopsProofs5 Balls Compare SpecCompare PropOrder PropFloor PropDouble LoopsCases PropLoops PropCompare Fast48.
Import ListNotations.
Open Scope R_scope.

Lemma eps_code : eps64 4 = code_error.
Proof. unfold eps64, code_error. ring. Qed.
Lemma code_error_pos : 0 < code_error.
Proof. unfold code_error. pose proof (bpow_gt_0 radix2 (-63)). lra. Qed.

(** * Elements *)
Theorem C101_elements : forall A S, lawful A S -> forall mag_up, mag_up_ok mag_up -> mag_up_tight mag_up -> forall rng names rho garb carb (p : par A) x y, standard S p x -> standard S p y ->
  code_setting S rng names rho garb carb x -> code_setting S rng names rho garb carb y ->
  (nonzero x = true -> value S rho x <> 0) -> (nonzero y = true -> value S rho y <> 0) ->
  equal x y = Ok true \/ code_error * (Rabs (value S rho x) + Rabs (value S rho y)) < Rabs (value S rho x - value S rho y) ->
  answers (fun n => lt_elem mag_up garb carb n x y) (value S rho x < value S rho y) /\
  answers (fun n => gt_elem mag_up garb carb n x y) (value S rho x > value S rho y) /\
  answers (fun n => le_elem mag_up garb carb n x y) (value S rho x <= value S rho y) /\
  answers (fun n => ge_elem mag_up garb carb n x y) (value S rho x >= value S rho y) /\
  answers (fun _ => Some (equal x y)) (value S rho x = value S rho y) /\
  answers (fun _ => Some (ne_elem x y)) (value S rho x <> value S rho y).
Proof.
  intros A S L mag_up Hm Ht rng names rho garb carb p x y Hx Hy Ex Ey Nx Ny Far.
  assert (EV : equal x y = Ok true -> value S rho x = value S rho y).
  { intros Eq. apply (equal_value A S L x y true (proj1 Hx) (proj1 Hy) (standard_no_zero A S p x Hx) (standard_no_zero A S p y Hy)) in Eq. exact (proj1 Eq eq_refl rho). }
  destruct (equal_total A S L x y (proj1 Hx) (proj1 Hy) (standard_combinable A S p x y Hx Hy)) as [e Ee].
  assert (De : e = true <-> value S rho x = value S rho y).
  { split; intros H; [subst e; exact (EV Ee)|]. destruct e; [reflexivity|]. destruct Far as [F|F]; [congruence|]. rewrite H, Rminus_diag_eq, Rabs_R0 in F by reflexivity.
    pose proof code_error_pos. pose proof (Rabs_pos (value S rho y)). assert (0 <= code_error * (Rabs (value S rho y) + Rabs (value S rho y))) by (apply Rmult_le_pos; lra). lra. }
  assert (K : forall x y, standard S p x -> standard S p y -> code_setting S rng names rho garb carb x -> code_setting S rng names rho garb carb y ->
    (nonzero x = true -> value S rho x <> 0) -> (nonzero y = true -> value S rho y <> 0) -> (exists e, equal x y = Ok e /\ (e = true <-> value S rho x = value S rho y)) ->
    value S rho x = value S rho y \/ code_error * (Rabs (value S rho x) + Rabs (value S rho y)) < Rabs (value S rho x - value S rho y) ->
    answers (fun n => lt_elem mag_up garb carb n x y) (value S rho x < value S rho y)).
  { clear -L Hm Ht. intros x y Hx Hy Ex Ey Nx Ny (e & Ee & De) Far.
    destruct e.
    - exists false. split; [exists 0%nat; intros n _; unfold lt_elem; rewrite Ee; reflexivity|]. pose proof (proj1 De eq_refl) as V. split; [discriminate|intros; lra].
    - assert (D : value S rho x <> value S rho y) by (intros V; apply De in V; discriminate). destruct Far as [F|F]; [contradiction|].
      destruct (C66_returns A S L mag_up Hm Ht rng names rho garb carb p x y Hx Hy Ex Ey D Nx Ny) as (c & N & Hc). exists c. split; [exists N; exact Hc|].
      exact (C66_elements A S L mag_up Hm rng names rho garb carb p x y Hx Hy Ex Ey F N c (Hc N (le_n N))). }
  assert (Far' : value S rho x = value S rho y \/ code_error * (Rabs (value S rho x) + Rabs (value S rho y)) < Rabs (value S rho x - value S rho y)) by (destruct Far as [F|F]; [left; exact (EV F)|right; exact F]).
  assert (Al := K x y Hx Hy Ex Ey Nx Ny (ex_intro _ e (conj Ee De)) Far').
  assert (Ag : answers (fun n => gt_elem mag_up garb carb n x y) (value S rho x > value S rho y)).
  { apply (K y x Hy Hx Ey Ex Ny Nx).
    - destruct (equal_total A S L y x (proj1 Hy) (proj1 Hx) (standard_combinable A S p y x Hy Hx)) as [e' Ee']. exists e'. split; [exact Ee'|].
      assert (V' := equal_value A S L y x e' (proj1 Hy) (proj1 Hx) (standard_no_zero A S p y Hy) (standard_no_zero A S p x Hx) Ee').
      assert (V := equal_value A S L x y e (proj1 Hx) (proj1 Hy) (standard_no_zero A S p x Hx) (standard_no_zero A S p y Hy) Ee).
      split; intros H; [apply V'; exact H|]. symmetry in H. apply De in H. apply V'. intros r. symmetry. apply V. exact H.
    - destruct Far' as [F|F]; [left; symmetry; exact F|right]. rewrite Rplus_comm, Rabs_minus_sym. exact F. }
  assert (Ae : answers (fun _ => Some (equal x y)) (value S rho x = value S rho y)) by (exists e; split; [exists 0%nat; intros; rewrite Ee; reflexivity|exact De]).
  split; [exact Al|]. split; [exact Ag|]. split; [apply (answers_not _ _ _ Ag); lra|]. split; [apply (answers_not _ _ _ Al); lra|]. split; [exact Ae|].
  apply (answers_not _ _ _ Ae). tauto.
Qed.

(** * Integers, rationals and generators *)
(** What < and > say about a number [u] that is close to [v] also holds for [v]. *)
Lemma far_lt v w u : Rabs (u - v) < Rabs (v - w) -> (u < w <-> v < w).
Proof. intros Z. unfold Rabs in Z. split; intros L; destruct (Rcase_abs (u - v)), (Rcase_abs (v - w)); lra. Qed.
Lemma far_gt v w u (c : bool) : Rabs (u - v) < Rabs (v - w) -> (c = true -> w <= u) -> (c = false -> u <= w) -> (c = true <-> v > w).
Proof.
  intros Z C1 C2. unfold Rabs in Z. split; [intros E; specialize (C1 E)|intros G; destruct c; [reflexivity|]; specialize (C2 eq_refl)]; destruct (Rcase_abs (u - v)), (Rcase_abs (v - w)); lra.
Qed.
Lemma perturbed_near v u w : perturbed (eps64 4) v u -> code_error * Rabs v < Rabs (v - w) -> Rabs (u - v) < Rabs (v - w).
Proof. intros P F. unfold perturbed in P. rewrite eps_code in P. lra. Qed.
Lemma far_different v w : code_error * Rabs v < Rabs (v - w) -> v <> w.
Proof. intros F E. rewrite E, Rminus_diag_eq, Rabs_R0 in F by reflexivity. pose proof code_error_pos. pose proof (Rabs_pos w). assert (0 <= code_error * Rabs w) by (apply Rmult_le_pos; lra). lra. Qed.

Theorem C101_integers : forall A S, lawful A S -> forall mag_up, mag_up_ok mag_up -> mag_up_tight mag_up -> forall rng names rho garb carb (p : par A) x, standard S p x ->
  code_setting S rng names rho garb carb x -> (nonzero x = true -> value S rho x <> 0) ->
  forall n, eq_integer x n = true \/ code_error * Rabs (value S rho x) < Rabs (value S rho x - IZR n) ->
  answers (fun k => lt_int mag_up garb carb k x n) (value S rho x < IZR n) /\ answers (fun k => gt_int mag_up garb carb k x n) (value S rho x > IZR n) /\
  answers (fun k => le_int mag_up garb carb k x n) (value S rho x <= IZR n) /\ answers (fun k => ge_int mag_up garb carb k x n) (value S rho x >= IZR n) /\
  answers (fun k => int_lt mag_up garb carb k n x) (IZR n < value S rho x) /\ answers (fun k => int_gt mag_up garb carb k n x) (IZR n > value S rho x) /\
  answers (fun k => int_le mag_up garb carb k n x) (IZR n <= value S rho x) /\ answers (fun k => int_ge mag_up garb carb k n x) (IZR n >= value S rho x) /\
  (eq_integer x n = true <-> value S rho x = IZR n) /\ (ne_int x n = true <-> value S rho x <> IZR n).
Proof.
  intros A S L mag_up Hm Ht rng names rho garb carb p x Hx Ex Nx n Far.
  assert (Ax := code_approximated A S _ _ _ _ _ x (proj1 Hx) Ex). assert (Cx := code_converging A S _ _ _ _ _ x (proj1 Hx) Ex).
  assert (EV : eq_integer x n = true -> value S rho x = IZR n).
  { intros Eq. apply (eq_integer_spec A S L x n (proj1 Hx) (standard_no_zero A S p x Hx)). exact Eq. }
  assert (De : eq_integer x n = true <-> value S rho x = IZR n).
  { split; [exact EV|]. intros V. destruct Far as [F|F]; [exact F|]. contradiction (far_different _ _ F V). }
  assert (Al : answers (fun k => lt_int mag_up garb carb k x n) (value S rho x < IZR n) /\ answers (fun k => gt_int mag_up garb carb k x n) (value S rho x > IZR n)).
  { destruct (eq_integer x n) eqn:Eq.
    - pose proof (proj1 De eq_refl) as V. split; exists false; (split; [exists 0%nat; intros k _; unfold lt_int, gt_int; rewrite Eq; reflexivity|split; [discriminate|intros; lra]]).
    - destruct Far as [F|F]; [congruence|].
      destruct (lt_int_terminates A S L mag_up Hm garb carb rho 4 four_ok Ht x n (proj1 Hx) Ax Cx Nx) as (N & l & Hl). { intros _. exact (far_different _ _ F). }
      destruct (gt_terminates A mag_up garb carb x (Ok (eq_integer x n)) (fun _ => test_int n)) as (N' & g & Hg); [exists N, l; exact Hl|]. split.
      + exists l. split; [exists N; exact Hl|]. destruct (proj1 (int_sound A S L mag_up Hm garb carb rho 4 four_ok p x n N l Hx Ax) (Hl N (le_n N))) as (u & P & C). rewrite C. apply far_lt, perturbed_near; assumption.
      + exists g. split; [exists N'; exact Hg|]. destruct (proj2 (int_sound A S L mag_up Hm garb carb rho 4 four_ok p x n N' g Hx Ax) (Hg N' (le_n N'))) as (u & P & C1 & C2 & _).
        apply (far_gt _ _ u g); [apply perturbed_near; assumption|exact C1|exact C2]. }
  destruct Al as [Al Ag]. destruct (both_directions _ _ _ _ Al Ag) as (R1 & R2 & R3 & R4 & R5 & R6).
  split; [exact Al|]. split; [exact Ag|]. split; [exact R1|]. split; [exact R2|]. split; [exact R3|]. split; [exact R4|]. split; [exact R5|]. split; [exact R6|]. split; [exact De|].
  exact (negb_iff _ _ De).
Qed.

Theorem C101_rationals : forall A S, lawful A S -> forall mag_up, mag_up_ok mag_up -> mag_up_tight mag_up -> forall rng names rho garb carb (p : par A) x, standard S p x ->
  code_setting S rng names rho garb carb x -> (nonzero x = true -> value S rho x <> 0) ->
  forall q : Qc, eq_rational x q = true \/ code_error * Rabs (value S rho x) < Rabs (value S rho x - Q2R q) ->
  answers (fun k => lt_rat mag_up garb carb k x q) (value S rho x < Q2R q) /\ answers (fun k => gt_rat mag_up garb carb k x q) (value S rho x > Q2R q) /\
  answers (fun k => le_rat mag_up garb carb k x q) (value S rho x <= Q2R q) /\ answers (fun k => ge_rat mag_up garb carb k x q) (value S rho x >= Q2R q) /\
  answers (fun k => rat_lt mag_up garb carb k q x) (Q2R q < value S rho x) /\ answers (fun k => rat_gt mag_up garb carb k q x) (Q2R q > value S rho x) /\
  answers (fun k => rat_le mag_up garb carb k q x) (Q2R q <= value S rho x) /\ answers (fun k => rat_ge mag_up garb carb k q x) (Q2R q >= value S rho x) /\
  (eq_rational x q = true <-> value S rho x = Q2R q) /\ (ne_rat x q = true <-> value S rho x <> Q2R q).
Proof.
  intros A S L mag_up Hm Ht rng names rho garb carb p x Hx Ex Nx q Far.
  assert (Ax := code_approximated A S _ _ _ _ _ x (proj1 Hx) Ex). assert (Cx := code_converging A S _ _ _ _ _ x (proj1 Hx) Ex).
  assert (EV : eq_rational x q = true -> value S rho x = Q2R q).
  { intros Eq. apply (eq_rational_spec A S L x q (proj1 Hx) (standard_no_zero A S p x Hx)). exact Eq. }
  assert (De : eq_rational x q = true <-> value S rho x = Q2R q).
  { split; [exact EV|]. intros V. destruct Far as [F|F]; [exact F|]. contradiction (far_different _ _ F V). }
  assert (Al : answers (fun k => lt_rat mag_up garb carb k x q) (value S rho x < Q2R q) /\ answers (fun k => gt_rat mag_up garb carb k x q) (value S rho x > Q2R q)).
  { destruct (eq_rational x q) eqn:Eq.
    - pose proof (proj1 De eq_refl) as V. split; exists false; (split; [exists 0%nat; intros k _; unfold lt_rat, gt_rat; rewrite Eq; reflexivity|split; [discriminate|intros; lra]]).
    - destruct Far as [F|F]; [congruence|].
      destruct (lt_rat_terminates A S L mag_up Hm garb carb rho 4 four_ok Ht x q (proj1 Hx) Ax Cx Nx) as (N & l & Hl). { intros _. exact (far_different _ _ F). }
      destruct (gt_terminates A mag_up garb carb x (Ok (eq_rational x q)) (fun _ => test_rat mag_up q)) as (N' & g & Hg); [exists N, l; exact Hl|]. split.
      + exists l. split; [exists N; exact Hl|]. destruct (proj1 (rat_sound A S L mag_up Hm garb carb rho 4 four_ok p x q N l Hx Ax) (Hl N (le_n N))) as (u & P & C). rewrite C. apply far_lt, perturbed_near; assumption.
      + exists g. split; [exists N'; exact Hg|]. destruct (proj2 (rat_sound A S L mag_up Hm garb carb rho 4 four_ok p x q N' g Hx Ax) (Hg N' (le_n N'))) as (u & P & C1 & C2 & _).
        apply (far_gt _ _ u g); [apply perturbed_near; assumption|exact C1|exact C2]. }
  destruct Al as [Al Ag]. destruct (both_directions _ _ _ _ Al Ag) as (R1 & R2 & R3 & R4 & R5 & R6).
  split; [exact Al|]. split; [exact Ag|]. split; [exact R1|]. split; [exact R2|]. split; [exact R3|]. split; [exact R4|]. split; [exact R5|]. split; [exact R6|]. split; [exact De|].
  exact (negb_iff _ _ De).
Qed.

Theorem C101_reals : forall A S, lawful A S -> forall mag_up, mag_up_ok mag_up -> mag_up_tight mag_up -> forall rng names rho garb carb (p : par A) x, standard S p x ->
  code_setting S rng names rho garb carb x -> (nonzero x = true -> value S rho x <> 0) ->
  forall r, In r (basis (emodule x)) -> gen_val rho r <> 0 -> eq_real x r = Ok true \/ code_error * (Rabs (value S rho x) + Rabs (gen_val rho r)) < Rabs (value S rho x - gen_val rho r) ->
  answers (fun k => lt_real mag_up garb carb k x r) (value S rho x < gen_val rho r) /\ answers (fun k => gt_real mag_up garb carb k x r) (value S rho x > gen_val rho r) /\
  answers (fun k => le_real mag_up garb carb k x r) (value S rho x <= gen_val rho r) /\ answers (fun k => ge_real mag_up garb carb k x r) (value S rho x >= gen_val rho r) /\
  answers (fun k => real_lt mag_up garb carb k r x) (gen_val rho r < value S rho x) /\ answers (fun k => real_gt mag_up garb carb k r x) (gen_val rho r > value S rho x) /\
  answers (fun k => real_le mag_up garb carb k r x) (gen_val rho r <= value S rho x) /\ answers (fun k => real_ge mag_up garb carb k r x) (gen_val rho r >= value S rho x) /\
  answers (fun _ => Some (eq_real x r)) (value S rho x = gen_val rho r) /\ answers (fun _ => Some (ne_real x r)) (value S rho x <> gen_val rho r).
Proof.
  intros A S L mag_up Hm Ht rng names rho garb carb p x Hx Ex Nx r Ir Nr Far.
  assert (Ax := code_approximated A S _ _ _ _ _ x (proj1 Hx) Ex). assert (Cx := code_converging A S _ _ _ _ _ x (proj1 Hx) Ex).
  assert (Wr : gen_wf r). { pose proof (proj1 (proj1 (proj1 Hx))) as F. rewrite Forall_forall in F. apply F, Ir. }
  assert (Hr : forall q, (2 <= q)%Z -> within 4 (garb r q) (gen_val rho r)) by (intros q Hq; apply (proj1 Ax); assumption).
  assert (Hr' : forall q, (64 <= q)%Z -> within 4 (garb r q) (gen_val rho r) /\ (4 = 1 \/ is_accurate q (garb r q) = true)).
  { intros q Hq. split; [apply Hr; lia|right]. destruct Ex as (V & B & _). apply (code_balls_accurate rng names rho V garb _ B (proj1 (proj1 (proj1 Hx))) r q Ir); [lia|exact Nr]. }
  assert (Tot : exists e, eq_real x r = Ok e).
  { destruct (eq_real x r) as [e|err] eqn:E; [eauto|]. assert (F : exists e, eq_real x r = Err e) by eauto. apply (eq_real_throws A) in F. destruct F as [_ F]. contradiction. }
  destruct Tot as [e Ee].
  assert (FD : code_error * (Rabs (value S rho x) + Rabs (gen_val rho r)) < Rabs (value S rho x - gen_val rho r) -> value S rho x <> gen_val rho r).
  { intros F V. rewrite V, Rminus_diag_eq, Rabs_R0 in F by reflexivity. pose proof code_error_pos. pose proof (Rabs_pos (gen_val rho r)). assert (0 <= code_error * (Rabs (gen_val rho r) + Rabs (gen_val rho r))) by (apply Rmult_le_pos; lra). lra. }
  assert (De : e = true <-> value S rho x = gen_val rho r).
  { split; intros H.
    - subst e. pose proof (eq_real_spec A S L x r true (proj1 Hx) (standard_no_zero A S p x Hx) Wr Ee) as Q. exact (proj1 Q eq_refl rho).
    - destruct Far as [F|F]; [congruence|]. contradiction (FD F H). }
  assert (Al : answers (fun k => lt_real mag_up garb carb k x r) (value S rho x < gen_val rho r) /\ answers (fun k => gt_real mag_up garb carb k x r) (value S rho x > gen_val rho r)).
  { destruct e.
    - pose proof (proj1 De eq_refl) as V. split; exists false; (split; [exists 0%nat; intros k _; unfold lt_real, gt_real; rewrite Ee; reflexivity|split; [discriminate|intros; lra]]).
    - destruct Far as [F|F]; [congruence|].
      destruct (lt_real_terminates A S L mag_up Hm garb carb rho 4 four_ok Ht x r false (proj1 Hx) Ax Cx Nx Hr (proj1 Cx r Ir) Ee) as (N & l & Hl). { intros _. exact (FD F). }
      destruct (gt_terminates A mag_up garb carb x (eq_real x r) (fun _ => test_real garb r)) as (N' & g & Hg); [exists N, l; exact Hl|]. split.
      + exists l. split; [exists N; exact Hl|]. destruct (proj1 (real_sound A S L mag_up Hm garb carb rho 4 four_ok p x r N l Hx Wr Ax Hr') (Hl N (le_n N))) as (u & w & P & P' & C). rewrite C.
        apply (perturbed_order (eps64 4)); [apply (eps64_nonneg 4 four_ok)|exact P|exact P'|]. rewrite eps_code. exact F.
      + exists g. split; [exists N'; exact Hg|]. destruct (proj2 (real_sound A S L mag_up Hm garb carb rho 4 four_ok p x r N' g Hx Wr Ax Hr') (Hg N' (le_n N'))) as (u & w & P & P' & C1 & C2 & _).
        unfold perturbed in P, P'. rewrite eps_code in P, P'. rewrite Rmult_plus_distr_l in F. apply Rabs_le_inv in P, P'. unfold Rabs at 3 in F.
        split; [intros E; specialize (C1 E)|intros G; destruct g; [reflexivity|]; specialize (C2 eq_refl)]; destruct (Rcase_abs (value S rho x - gen_val rho r)); lra. }
  destruct Al as [Al Ag]. destruct (both_directions _ _ _ _ Al Ag) as (R1 & R2 & R3 & R4 & R5 & R6).
  assert (Ae : answers (fun _ => Some (eq_real x r)) (value S rho x = gen_val rho r)) by (exists e; split; [exists 0%nat; intros; rewrite Ee; reflexivity|exact De]).
  split; [exact Al|]. split; [exact Ag|]. split; [exact R1|]. split; [exact R2|]. split; [exact R3|]. split; [exact R4|]. split; [exact R5|]. split; [exact R6|]. split; [exact Ae|].
  apply (answers_not _ _ _ Ae). tauto.
Qed.

(** * floor, ceil and floordiv *)
(** If no integer is extremely close to the element then they return, and what they return is right. *)
Lemma no_integer_between v u n : (forall k, Rabs (u - v) < Rabs (v - IZR k)) -> the_floor n u -> the_floor n v.
Proof.
  intros F [L U]. pose proof (F n) as Fn. pose proof (F (n + 1)%Z) as Fm. rewrite plus_IZR in Fm. unfold Rabs in Fn, Fm.
  split; destruct (Rcase_abs (u - v)), (Rcase_abs (v - IZR n)), (Rcase_abs (v - (IZR n + 1))); lra.
Qed.
Lemma no_integer_between_ceil v u n : (forall k, Rabs (u - v) < Rabs (v - IZR k)) -> the_ceil n u -> the_ceil n v.
Proof.
  intros F [L U]. pose proof (F n) as Fn. pose proof (F (n - 1)%Z) as Fm. rewrite minus_IZR in Fm. unfold Rabs in Fn, Fm.
  split; destruct (Rcase_abs (u - v)), (Rcase_abs (v - IZR n)), (Rcase_abs (v - (IZR n - 1))); lra.
Qed.
Theorem C101_floor_ceil : forall A S, lawful A S -> forall mag_up, mag_up_ok mag_up -> mag_up_tight mag_up -> forall rng names rho garb carb (x : elem A), elem_wf S x -> code_setting S rng names rho garb carb x ->
  (forall k, code_error * Rabs (value S rho x) < Rabs (value S rho x - IZR k)) ->
  exists n m, eventually (fun rounds => elem_floor mag_up garb carb rounds x) n /\ the_floor n (value S rho x) /\
              eventually (fun rounds => elem_ceil mag_up garb carb rounds x) m /\ the_ceil m (value S rho x).
Proof.
  intros A S L mag_up Hm Ht rng names rho garb carb x W C F.
  destruct (C67_floor_returns A S L mag_up Hm Ht rng names rho garb carb x W C) as (n & m & (N & Hn) & (M & Hmm)). { intros k. exact (far_different _ _ (F k)). }
  exists n, m. split; [exists N; exact Hn|]. split; [|split; [exists M; exact Hmm|]].
  - destruct (proj1 (C67_floor A S L mag_up Hm rng names rho garb carb x W C N n) (Hn N (le_n N))) as (u & P & Fl). apply (no_integer_between _ u n); [|exact Fl].
    intros k. apply perturbed_near; [rewrite eps_code; exact P|apply F].
  - destruct (proj2 (C67_floor A S L mag_up Hm rng names rho garb carb x W C M m) (Hmm M (le_n M))) as (u & P & Fl). apply (no_integer_between_ceil _ u m); [|exact Fl].
    intros k. apply perturbed_near; [rewrite eps_code; exact P|apply F].
Qed.
Lemma quotient_near v w u t : w <> 0 -> perturbed code_error v u -> perturbed code_error w t -> Rabs (u / t - v / w) <= 3 * code_error * Rabs (v / w).
Proof.
  intros Hw Pu Pt. unfold perturbed in Pu, Pt. assert (E : code_error <= / 16).
  { unfold code_error. assert (bpow radix2 (-63) <= bpow radix2 (-6)) by (apply bpow_le; lia). change (bpow radix2 (-6)) with (/ 64) in H. lra. }
  pose proof code_error_pos as E0. set (e := code_error) in *. pose proof (Rabs_pos_lt w Hw) as Pw.
  assert (Tw : 15 / 16 * Rabs w <= Rabs t). { assert (e * Rabs w <= / 16 * Rabs w) by (apply Rmult_le_compat_r; lra). assert (Rabs w <= Rabs t + Rabs (t - w)). { replace w with (t - (t - w)) at 1 by ring. eapply Rle_trans; [apply Rabs_triang|]. rewrite Rabs_Ropp. lra. } lra. }
  assert (Nt : t <> 0) by (intros Z0; rewrite Z0, Rabs_R0 in Tw; lra). pose proof (Rabs_pos_lt t Nt) as Pt'.
  assert (Q : u / t - v / w = ((u - v) * w - v * (t - w)) / (t * w)) by (field; auto).
  rewrite Q. unfold Rdiv at 1. rewrite Rabs_mult, Rabs_inv, Rabs_mult. unfold Rdiv. rewrite Rabs_mult, Rabs_inv.
  apply (Rmult_le_reg_r (Rabs t * Rabs w)); [apply Rmult_lt_0_compat; assumption|]. rewrite Rmult_assoc, Rinv_l, Rmult_1_r by (apply Rgt_not_eq, Rmult_lt_0_compat; assumption).
  replace (3 * e * (Rabs v * / Rabs w) * (Rabs t * Rabs w)) with (3 * e * Rabs v * Rabs t) by (field; lra).
  assert (Rabs ((u - v) * w - v * (t - w)) <= 2 * e * Rabs v * Rabs w).
  { eapply Rle_trans; [apply Rabs_triang|]. rewrite Rabs_Ropp, !Rabs_mult. pose proof (Rabs_pos v).
    assert (Rabs (u - v) * Rabs w <= e * Rabs v * Rabs w) by (apply Rmult_le_compat_r; lra). assert (Rabs v * Rabs (t - w) <= Rabs v * (e * Rabs w)) by (apply Rmult_le_compat_l; lra). lra. }
  assert (0 <= e * Rabs v) by (apply Rmult_le_pos; [lra|apply Rabs_pos]).
  assert (e * Rabs v * (15 / 16 * Rabs w) <= e * Rabs v * Rabs t) by (apply Rmult_le_compat_l; assumption). assert (0 <= e * Rabs v * Rabs w) by (apply Rmult_le_pos; lra). lra.
Qed.
Theorem C101_floordiv : forall A S, lawful A S -> forall mag_up, mag_up_ok mag_up -> mag_up_tight mag_up -> forall rng names rho garb carb (p : par A) (x y : elem A), standard S p x -> standard S p y ->
  code_setting S rng names rho garb carb x -> code_setting S rng names rho garb carb y -> value S rho y <> 0 ->
  (forall k, 3 * code_error * Rabs (value S rho x / value S rho y) < Rabs (value S rho x / value S rho y - IZR k)) ->
  exists n, eventually (fun rounds => floordiv mag_up garb carb rounds x y) (Ok n) /\ the_floor n (value S rho x / value S rho y).
Proof.
  intros A S L mag_up Hm Ht rng names rho garb carb p x y Hx Hy Cx Cy Vy F.
  destruct (C67_floordiv_returns A S L mag_up Hm Ht rng names rho garb carb p x y Hx Hy Cx Cy Vy) as (n & N & Hn).
  { intros k E. specialize (F k). assert (Q : value S rho x / value S rho y = IZR k) by (rewrite E; field; exact Vy). rewrite Q, Rminus_diag_eq, Rabs_R0 in F by reflexivity.
    pose proof code_error_pos. pose proof (Rabs_pos (IZR k)). assert (0 <= 3 * code_error * Rabs (IZR k)) by (apply Rmult_le_pos; lra). lra. }
  exists n. split; [exists N; exact Hn|].
  destruct (C67_floordiv A S L mag_up Hm rng names rho garb carb x y (proj1 Hx) (proj1 Hy) (eq_trans (proj1 (proj2 Hy)) (eq_sym (proj1 (proj2 Hx)))) Cx Cy Vy N n (Hn N (le_n N))) as (u & t & Pu & Pt & Fl).
  apply (no_integer_between _ (u / t) n); [|exact Fl]. intros k. eapply Rle_lt_trans; [apply (quotient_near _ _ _ _ Vy Pu Pt)|apply F].
Qed.

(** Two random numbers of the library: 3 v + 5 w compared with 1 and with v. *)
Example C101_example : exists v w garb, counterexample (e2 3 5) 1337 1338 v w garb /\ standard int_sem tt (e2 3 5) /\ In (GAtom 1) (basis (emodule (e2 3 5))) /\
  value int_sem (fun i => if (i =? 1)%Z then v else w) (e2 3 5) = 3 * v + 5 * w /\ 0 < v /\ 0 < 3 * v + 5 * w /\
  code_error * Rabs (3 * v + 5 * w) < Rabs (3 * v + 5 * w - IZR 1) /\ code_error * (Rabs (3 * v + 5 * w) + Rabs v) < Rabs (3 * v + 5 * w - v) /\
  le_int (A := int_ring) up30 garb int_arb 5 (e2 3 5) 1 = Some (Ok false) /\ int_gt (A := int_ring) up30 garb int_arb 5 1 (e2 3 5) = Some (Ok false) /\
  real_lt (A := int_ring) up30 garb int_arb 5 (GAtom 1) (e2 3 5) = Some (Ok true) /\ ge_real (A := int_ring) up30 garb int_arb 5 (e2 3 5) (GAtom 1) = Some (Ok true).
Proof.
  destruct (case 1337 1338 (e2 3 5) (proj1 (proj2 (e_wf _ _)))) as (v & w & g0 & C). exists v, w, (gb 1337 1338 g0). split; [exact C|].
  destruct C as (W & Hv & Hw & C). split; [split; [exact W|split; [reflexivity|intros q [E|[E|[]]]; discriminate E]]|]. split; [left; reflexivity|].
  split; [unfold value, e2; cbn; ring|].
  r48bound Hv 20%nat. r48bound Hw 20%nat. unfold code_error. simpl bpow. split; [lra|]. split; [lra|].
  split; [unfold Rabs; destruct (Rcase_abs _); destruct (Rcase_abs _); lra|].
  split; [unfold Rabs; destruct (Rcase_abs _); destruct (Rcase_abs _); destruct (Rcase_abs _); lra|].
  split; [c48g|]. split; [c48g|]. split; c48g.
Qed.
Example C101_floor_example : exists v w garb, counterexample (e2 3 5) 1337 1338 v w garb /\
  (forall k, code_error * Rabs (3 * v + 5 * w) < Rabs (3 * v + 5 * w - IZR k)) /\ (forall k, 3 * code_error * Rabs ((3 * v + 5 * w) / (6 * v + 5 * w)) < Rabs ((3 * v + 5 * w) / (6 * v + 5 * w) - IZR k)) /\
  elem_floor (A := int_ring) up30 garb int_arb 5 (e2 3 5) = Some 1%Z /\ elem_ceil (A := int_ring) up30 garb int_arb 5 (e2 3 5) = Some 2%Z /\
  floordiv (A := int_ring) up30 garb int_arb 5 (e2 3 5) (e2 6 5) = Some (Ok 0%Z).
Proof.
  destruct (case 1337 1338 (e2 3 5) (proj1 (proj2 (e_wf _ _)))) as (v & w & g0 & C). exists v, w, (gb 1337 1338 g0). split; [exact C|].
  destruct C as (W & Hv & Hw & C). r48bound Hv 20%nat. r48bound Hw 20%nat.
  assert (K : forall t n e, 0 <= e <= / 100 -> IZR n + 1 / 10 <= t <= IZR n + 9 / 10 -> 0 <= t <= 9 -> forall k, e * Rabs t < Rabs (t - IZR k)).
  { clear. intros t n e He Ht T0 k. rewrite (Rabs_pos_eq t) by lra. assert (e * t <= / 100 * 9) by (apply Rmult_le_compat; lra).
    destruct (Z_le_gt_dec k n) as [D|D].
    - apply IZR_le in D. rewrite Rabs_pos_eq by lra. lra.
    - assert (D' : (n + 1 <= k)%Z) by lia. apply IZR_le in D'. rewrite plus_IZR in D'. rewrite Rabs_left by lra. lra. }
  split; [apply (K _ 1%Z)|split; [apply (K _ 0%Z)|split; [c48g|split; c48g]]]; try (unfold code_error; simpl bpow; lra).
  - set (b := 6 * v + 5 * w). assert (Hb : 2 <= b) by (unfold b; lra). assert (Q : (3 * v + 5 * w) / b * b = 3 * v + 5 * w) by (field; lra).
    set (q := (3 * v + 5 * w) / b) in *. split; apply Rnot_lt_le; intros Lt.
    + assert (q * b <= (0 + 1 / 10) * b) by (apply Rmult_le_compat_r; lra). unfold b in *. lra.
    + assert ((0 + 9 / 10) * b <= q * b) by (apply Rmult_le_compat_r; lra). unfold b in *. lra.
  - set (b := 6 * v + 5 * w). assert (Hb : 2 <= b) by (unfold b; lra). assert (Q : (3 * v + 5 * w) / b * b = 3 * v + 5 * w) by (field; lra).
    set (q := (3 * v + 5 * w) / b) in *. split; apply Rnot_lt_le; intros Lt.
    + assert (q * b <= 0 * b) by (apply Rmult_le_compat_r; lra). unfold b in *. lra.
    + assert (9 * b <= q * b) by (apply Rmult_le_compat_r; lra). unfold b in *. lra.
Qed.
