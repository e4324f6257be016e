(** The comparisons of elements, for balls that are right up to a factor [k]. *)
From Coq Require Import ZArith QArith Qcanon Bool List Reals Qreals Lra Lia.
From Flocq Require Import Core.
From Verif Require Import Arf Arb Real SpecArf ArfProofs ArbProofs Gen SpecGen GenProofs Ring SpecRing Module Element SpecModule ModuleProofs ElementProofs
  ElementProofs2 ElementProofs3 ElementProofs4 Loops SpecLoops Near Near2 LoopsProofs LoopsProofs2 LoopsProofs3 LoopsProofs4.
Import ListNotations.
Open Scope R_scope.

Lemma perturbed_order eps v w u t : 0 <= eps -> perturbed eps v u -> perturbed eps w t -> eps * (Rabs v + Rabs w) < Rabs (v - w) -> (u < t <-> v < w).
Proof.
  unfold perturbed. intros He Hu Ht H. rewrite Rmult_plus_distr_l in H. apply Rabs_le_inv in Hu, Ht. split; intros L.
  - apply Rnot_le_lt. intros F. rewrite (Rabs_pos_eq (v - w)) in H by lra. lra.
  - rewrite (Rabs_left (v - w)) in H by lra. lra.
Qed.
Lemma perturbed_zero v u : perturbed (eps64 1) v u -> u = v.
Proof. unfold perturbed, eps64. intros H. replace ((1 - 1) * bpow radix2 (-63) * Rabs v) with 0 in H by ring. pose proof (Rabs_pos (u - v)). destruct (Req_dec (u - v) 0) as [E|E]; [lra|]. apply Rabs_pos_lt in E. lra. Qed.

Section Order.
  Variable A : ring.
  Variable S : semantics A.
  Hypothesis HL : lawful A S.
  Variable mag_up : arf -> arf.
  Hypothesis Hm : mag_up_ok mag_up.
  Variable garb : gen -> Z -> arb.
  Variable carb : car A -> Z -> arb.
  Variable rho : Z -> R.
  Variable k : R.
  Hypothesis Hk : 1 <= k <= 8.
  Variable p : par A.
  Local Notation elem := (elem A).
  Implicit Types x y z : elem.
  Local Notation value := (value S rho).
  Local Notation approximated := (approximated A S garb carb rho k).
  Local Notation eps := (eps64 k).

  Lemma lt_elem_sound x y rounds c : standard S p x -> standard S p y -> approximated x -> approximated y -> lt_elem mag_up garb carb rounds x y = Some (Ok c) ->
    exists u w, perturbed eps (value x) u /\ perturbed eps (value y) w /\ (c = true <-> u < w).
  Proof.
    intros Hx Hy Ex Ey H. apply (lt_sound A S HL mag_up Hm garb carb rho k Hk x (perturbed eps (value y)) (equal x y) (test_elem mag_up garb carb rounds y) rounds c (proj1 Hx) Ex) in H; [exact H| |].
    - intros Eq. apply (equal_value A S HL x y true (proj1 Hx) (proj1 Hy)) in Eq; [|exact (standard_no_zero A S p x Hx)|exact (standard_no_zero A S p y Hy)]. rewrite (proj1 Eq eq_refl rho). apply perturbed_refl, (eps64_nonneg k Hk).
    - apply (test_elem_sound A S HL mag_up Hm garb carb rho k Hk y rounds (proj1 Hy) Ey).
  Qed.
  (** The right hand side [w] is a number [v], or close to it. *)
  Lemma real_sound x g rounds c : standard S p x -> gen_wf g -> approximated x ->
    (forall q, (64 <= q)%Z -> within k (garb g q) (gen_val rho g) /\ (k = 1 \/ is_accurate q (garb g q) = true)) ->
    (lt_real mag_up garb carb rounds x g = Some (Ok c) -> exists u w, perturbed eps (value x) u /\ perturbed eps (gen_val rho g) w /\ (c = true <-> u < w)) /\
    (gt_real mag_up garb carb rounds x g = Some (Ok c) -> exists u w, perturbed eps (value x) u /\ perturbed eps (gen_val rho g) w /\ (c = true -> w <= u) /\ (c = false -> u <= w) /\ (eq_real x g = Ok true -> c = false)).
  Proof.
    intros Hx Wg Ex Hg.
    assert (Q : eq_real x g = Ok true -> perturbed eps (gen_val rho g) (value x)).
    { intros Eq. apply (eq_real_spec A S HL x g true (proj1 Hx) (standard_no_zero A S p x Hx) Wg) in Eq. rewrite (proj1 Eq eq_refl rho). apply perturbed_refl, (eps64_nonneg k Hk). }
    split; intros H.
    - apply (lt_sound A S HL mag_up Hm garb carb rho k Hk x (perturbed eps (gen_val rho g)) (eq_real x g) (test_real garb g) rounds c (proj1 Hx) Ex Q) in H; [exact H|]. apply (test_real_sound garb rho k Hk g Hg).
    - apply (gt_sound A S HL mag_up Hm garb carb rho k Hk x (perturbed eps (gen_val rho g)) (eq_real x g) (test_real garb g) rounds c (proj1 Hx) Ex Q) in H; [exact H|]. apply (test_real_sound garb rho k Hk g Hg).
  Qed.
  Lemma rat_sound x (r : Qc) rounds c : standard S p x -> approximated x ->
    (lt_rat mag_up garb carb rounds x r = Some (Ok c) -> exists u, perturbed eps (value x) u /\ (c = true <-> u < Q2R r)) /\
    (gt_rat mag_up garb carb rounds x r = Some (Ok c) -> exists u, perturbed eps (value x) u /\ (c = true -> Q2R r <= u) /\ (c = false -> u <= Q2R r) /\ (eq_rational x r = true -> c = false)).
  Proof.
    intros Hx Ex.
    assert (Q : Ok (eq_rational x r) = Ok true -> value x = Q2R r).
    { intros Eq. injection Eq as Eq. apply (eq_rational_spec A S HL x r (proj1 Hx) (standard_no_zero A S p x Hx)). exact Eq. }
    split; intros H.
    - apply (lt_sound A S HL mag_up Hm garb carb rho k Hk x (fun w => w = Q2R r) _ (test_rat mag_up r) rounds c (proj1 Hx) Ex Q) in H; [|apply (test_rat_sound mag_up Hm)]. destruct H as (u & w & P & -> & C). exists u. auto.
    - apply (gt_sound A S HL mag_up Hm garb carb rho k Hk x (fun w => w = Q2R r) _ (test_rat mag_up r) rounds c (proj1 Hx) Ex Q) in H; [|apply (test_rat_sound mag_up Hm)]. destruct H as (u & w & P & -> & C1 & C2 & C3). exists u. split; [exact P|]. split; [exact C1|]. split; [exact C2|]. intros E. apply C3. congruence.
  Qed.
  Lemma int_sound x n rounds c : standard S p x -> approximated x ->
    (lt_int mag_up garb carb rounds x n = Some (Ok c) -> exists u, perturbed eps (value x) u /\ (c = true <-> u < IZR n)) /\
    (gt_int mag_up garb carb rounds x n = Some (Ok c) -> exists u, perturbed eps (value x) u /\ (c = true -> IZR n <= u) /\ (c = false -> u <= IZR n) /\ (eq_integer x n = true -> c = false)).
  Proof.
    intros Hx Ex.
    assert (Q : Ok (eq_integer x n) = Ok true -> value x = IZR n).
    { intros Eq. injection Eq as Eq. apply (eq_integer_spec A S HL x n (proj1 Hx) (standard_no_zero A S p x Hx)). exact Eq. }
    split; intros H.
    - apply (lt_sound A S HL mag_up Hm garb carb rho k Hk x (fun w => w = IZR n) _ (test_int n) rounds c (proj1 Hx) Ex Q) in H; [|apply test_int_sound]. destruct H as (u & w & P & -> & C). exists u. auto.
    - apply (gt_sound A S HL mag_up Hm garb carb rho k Hk x (fun w => w = IZR n) _ (test_int n) rounds c (proj1 Hx) Ex Q) in H; [|apply test_int_sound]. destruct H as (u & w & P & -> & C1 & C2 & C3). exists u. split; [exact P|]. split; [exact C1|]. split; [exact C2|]. intros E. apply C3. congruence.
  Qed.
End Order.
