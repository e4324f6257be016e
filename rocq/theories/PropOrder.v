(** Properties C52 (Element::arb) and C32 (order of elements). *)
From Coq Require Import ZArith QArith Qcanon Bool List Reals Qreals Lra Lia.
From Flocq Require Import Core.
From Verif Require Import Arf Arb Real SpecArf ArfProofs ArbProofs SpecReal Gen SpecGen GenProofs Ring SpecRing RingProofs Module Element SpecModule ModuleProofs ElementProofs
  ElementProofs2 ElementProofs3 ElementProofs4 Loops SpecLoops Near Near2 LoopsProofs LoopsProofs2 LoopsProofs4 LoopsProofs5 Balls.
Import ListNotations.
Open Scope R_scope.

(** * Ideal balls are the case [k = 1], the code's the case [k = 4] *)
Lemma one_ok : 1 <= 1 <= 8. Proof. lra. Qed.
Lemma four_ok : 1 <= 4 <= 8. Proof. lra. Qed.
Lemma encloses_within b v : encloses b v -> within 1 b v.
Proof. intros [W C]. split; [exact W|]. unfold contains in C. destruct (rad b); [lra|exact I]. Qed.
Lemma ideal_approximated A (S : semantics A) garb carb rho x : enclosing_balls S garb carb rho x -> approximated A S garb carb rho 1 x.
Proof. intros [G C]. split; [|exact C]. intros g prec Hg Hp. apply encloses_within, G; assumption. Qed.
Lemma code_approximated A (S : semantics A) rng names rho garb carb x : elem_wf S x -> code_setting S rng names rho garb carb x -> approximated A S garb carb rho 4 x.
Proof.
  intros W (V & B & C & _). split; [|exact C]. apply (code_balls_within rng names rho V garb _ B). apply (proj1 W).
Qed.
Lemma code_converging A (S : semantics A) rng names rho garb carb x : elem_wf S x -> code_setting S rng names rho garb carb x -> converging A S garb carb x.
Proof.
  intros W (V & B & _ & C). split; [|exact C]. intros g Hg. apply (code_balls_shrink rng names rho V garb _ B (proj1 (proj1 W)) g Hg).
Qed.

(** * C52: Element::arb *)
(** The ball contains the element, if the balls of generators and coefficients are right. *)
Theorem C52_encloses : forall A S, lawful A S -> forall mag_up, mag_up_ok mag_up -> forall garb carb rho (x : elem A), elem_wf S x -> enclosing_balls S garb carb rho x ->
  forall accuracy rounds b, (2 <= accuracy)%Z -> elem_arb mag_up garb carb rounds x accuracy = Some b -> encloses b (value S rho x).
Proof.
  intros A S L mag_up Hm garb carb rho x W E acc rounds b Ha H. apply within_encloses. apply (elem_arb_sound A S L mag_up Hm garb carb rho 1 one_ok x acc rounds b W (ideal_approximated A S garb carb rho x E) Ha H).
Qed.

(** Its radius is at most |midpoint| * 2^-accuracy. *)
Lemma accurate_radius acc b : arb_wf b -> (2 <= acc)%Z -> is_accurate acc b = true -> exists r, rad b = Some r /\ arf2R r <= Rabs (arf2R (mid b)) * bpow radix2 (- acc).
Proof.
  intros W Ha H. unfold is_accurate, arb_is_exact, rel_accuracy_bits in H. destruct (rad b) as [r|] eqn:Er; [|apply Z.leb_le in H; unfold ARF_PREC_EXACT in H; lia]. pose proof (arb_wf_rad b r W Er) as Pr.
  exists r. split; [reflexivity|]. pose proof (Rabs_pos (arf2R (mid b))). pose proof (bpow_gt_0 radix2 (- acc)). destruct (Z.eqb_spec (am r) 0) as [Z0|Z0].
  - unfold arf2R at 1. rewrite Z0, Rmult_0_l. nra.
  - cbn [orb] in H. apply Z.leb_le in H. destruct (Z.eqb_spec (am (mid b)) 0) as [Z1|Z1]; [unfold ARF_PREC_EXACT in H; lia|].
    destruct (arf_expo_spec r Z0) as [_ R1]. destruct (arf_expo_spec (mid b) Z1) as [R2 _]. rewrite Rabs_pos_eq in R1 by exact Pr.
    assert (F : (arf_expo r <= (arf_expo (mid b) - 1) + - acc)%Z) by lia. apply (bpow_le radix2) in F. rewrite bpow_plus in F. nra.
Qed.
Theorem C52_accuracy : forall A S, lawful A S -> forall mag_up, mag_up_ok mag_up -> forall garb carb rho (x : elem A), elem_wf S x -> enclosing_balls S garb carb rho x ->
  forall accuracy rounds b, (2 <= accuracy)%Z -> elem_arb mag_up garb carb rounds x accuracy = Some b ->
  exists r, rad b = Some r /\ 0 <= arf2R r <= Rabs (arf2R (mid b)) * bpow radix2 (- accuracy).
Proof.
  intros A S L mag_up Hm garb carb rho x W E acc rounds b Ha H. destruct (elem_arb_sound A S L mag_up Hm garb carb rho 1 one_ok x acc rounds b W (ideal_approximated A S garb carb rho x E) Ha H) as [[Wb _] Ac].
  destruct (accurate_radius acc b Wb Ha Ac) as (r & Er & Hr). exists r. split; [exact Er|]. split; [exact (arb_wf_rad b r Wb Er)|exact Hr].
Qed.
(** It returns (for elements other than 0 with value 0 it could not). *)
Lemma elem_arb_eventually A S (L : lawful A S) mag_up (Hm : mag_up_ok mag_up) (Ht : mag_up_tight mag_up) garb carb rho k (Hk : 1 <= k <= 8) (x : elem A) acc :
  elem_wf S x -> approximated A S garb carb rho k x -> converging A S garb carb x -> (nonzero x = true -> value S rho x <> 0) -> (2 <= acc)%Z ->
  exists b, eventually (fun rounds => elem_arb mag_up garb carb rounds x acc) b.
Proof.
  intros W E C V Ha. destruct (elem_arb_returns A S mag_up Hm garb carb rho k Hk Ht x acc W E C V Ha) as (n & b & H). exists b, n. intros m Hmn. exact (elem_arb_mono A mag_up garb carb x acc n m b H Hmn).
Qed.
Theorem C52_returns : forall A S, lawful A S -> forall mag_up, mag_up_ok mag_up -> mag_up_tight mag_up -> forall garb carb rho (x : elem A), elem_wf S x ->
  enclosing_balls S garb carb rho x -> shrinking_balls S garb carb x -> (nonzero x = true -> value S rho x <> 0) ->
  forall accuracy, (2 <= accuracy)%Z -> exists b, eventually (fun rounds => elem_arb mag_up garb carb rounds x accuracy) b.
Proof.
  intros A S L mag_up Hm Ht garb carb rho x W E C V acc Ha. exact (elem_arb_eventually A S L mag_up Hm Ht garb carb rho 1 one_ok x acc W (ideal_approximated A S garb carb rho x E) C V Ha).
Qed.
(** With the balls of the code (which can be too small, C07) the element is within four
    radii: for containment something is missing, see [C76_arb_refuted]. *)
Theorem C65_within : forall A S, lawful A S -> forall mag_up, mag_up_ok mag_up -> forall rng names rho garb carb (x : elem A), elem_wf S x -> code_setting S rng names rho garb carb x ->
  forall accuracy rounds b, (2 <= accuracy)%Z -> elem_arb mag_up garb carb rounds x accuracy = Some b ->
  exists r, rad b = Some r /\ 0 <= arf2R r <= Rabs (arf2R (mid b)) * bpow radix2 (- accuracy) /\ Rabs (value S rho x - arf2R (mid b)) <= 4 * arf2R r.
Proof.
  intros A S L mag_up Hm rng names rho garb carb x W E acc rounds b Ha H. destruct (elem_arb_sound A S L mag_up Hm garb carb rho 4 four_ok x acc rounds b W (code_approximated A S rng names rho garb carb x W E) Ha H) as [[Wb B] Ac].
  destruct (accurate_radius acc b Wb Ha Ac) as (r & Er & Hr). rewrite Er in B. exists r. split; [exact Er|]. split; [|exact B]. split; [exact (arb_wf_rad b r Wb Er)|exact Hr].
Qed.
Theorem C65_returns : forall A S, lawful A S -> forall mag_up, mag_up_ok mag_up -> mag_up_tight mag_up -> forall rng names rho garb carb (x : elem A), elem_wf S x -> code_setting S rng names rho garb carb x ->
  (nonzero x = true -> value S rho x <> 0) -> forall accuracy, (2 <= accuracy)%Z -> exists b, eventually (fun rounds => elem_arb mag_up garb carb rounds x accuracy) b.
Proof.
  intros A S L mag_up Hm Ht rng names rho garb carb x W E V acc Ha.
  exact (elem_arb_eventually A S L mag_up Hm Ht garb carb rho 4 four_ok x acc W (code_approximated A S rng names rho garb carb x W E) (code_converging A S rng names rho garb carb x W E) V Ha).
Qed.

(** * C32: the order *)
(** With right balls the answers are right, whenever there is an answer. *)
Theorem C32_sound_elements : forall A S, lawful A S -> forall mag_up, mag_up_ok mag_up -> forall garb carb rho (p : par A) (x y : elem A), standard S p x -> standard S p y ->
  enclosing_balls S garb carb rho x -> enclosing_balls S garb carb rho y ->
  forall rounds c, (lt_elem mag_up garb carb rounds x y = Some (Ok c) -> (c = true <-> value S rho x < value S rho y)) /\
                   (gt_elem mag_up garb carb rounds x y = Some (Ok c) -> (c = true <-> value S rho x > value S rho y)).
Proof.
  intros A S L mag_up Hm garb carb rho p x y Hx Hy Ex Ey rounds c. apply ideal_approximated in Ex, Ey. split; intros H.
  - destruct (lt_elem_sound A S L mag_up Hm garb carb rho 1 one_ok p x y rounds c Hx Hy Ex Ey H) as (u & w & Pu & Pw & C). apply perturbed_zero in Pu, Pw. subst. exact C.
  - destruct (lt_elem_sound A S L mag_up Hm garb carb rho 1 one_ok p y x rounds c Hy Hx Ey Ex H) as (u & w & Pu & Pw & C). apply perturbed_zero in Pu, Pw. subst. exact C.
Qed.
(** If the generators are linearly independent then there is an answer: exactly one
    of <, ==, > is true, and it is the right one. *)
Theorem C32_elements : forall A S, lawful A S -> forall mag_up, mag_up_ok mag_up -> mag_up_tight mag_up -> forall garb carb rho (p : par A) gs, independent S p rho gs ->
  forall x y, among S p gs x -> among S p gs y ->
  enclosing_balls S garb carb rho x -> shrinking_balls S garb carb x -> enclosing_balls S garb carb rho y -> shrinking_balls S garb carb y ->
  exists l e g, eventually (fun rounds => lt_elem mag_up garb carb rounds x y) (Ok l) /\ equal x y = Ok e /\ eventually (fun rounds => gt_elem mag_up garb carb rounds x y) (Ok g) /\
    (l = true <-> value S rho x < value S rho y) /\ (e = true <-> value S rho x = value S rho y) /\ (g = true <-> value S rho x > value S rho y).
Proof.
  intros A S L mag_up Hm Ht garb carb rho p gs HI x y Lx Ly Ex Cx Ey Cy.
  assert (Hx := proj1 Lx). assert (Hy := proj1 Ly).
  destruct (equal_total A S L x y (proj1 Hx) (proj1 Hy) (standard_combinable A S p x y Hx Hy)) as [e Ee].
  destruct (equal_total A S L y x (proj1 Hy) (proj1 Hx) (standard_combinable A S p y x Hy Hx)) as [e' Ee'].
  pose proof (equal_decides A S L p rho gs HI x y e Lx Ly Ee) as D. pose proof (equal_decides A S L p rho gs HI y x e' Ly Lx Ee') as D'.
  pose proof (ideal_approximated A S garb carb rho x Ex) as Ax. pose proof (ideal_approximated A S garb carb rho y Ey) as Ay.
  assert (Nx : nonzero x = true -> value S rho x <> 0) by (apply (nonzero_not_zero A S L p rho gs HI x Lx)). assert (Ny : nonzero y = true -> value S rho y <> 0) by (apply (nonzero_not_zero A S L p rho gs HI y Ly)).
  destruct (lt_elem_terminates A S L mag_up Hm garb carb rho 1 one_ok Ht x y e (proj1 Hx) Ax Cx Nx (proj1 Hy) Ay Cy Ny Ee) as (N & l & Hl).
  { intros F V. apply D in V. congruence. }
  destruct (lt_elem_terminates A S L mag_up Hm garb carb rho 1 one_ok Ht y x e' (proj1 Hy) Ay Cy Ny (proj1 Hx) Ax Cx Nx Ee') as (N' & g & Hg).
  { intros F V. apply D' in V. congruence. }
  exists l, e, g. split; [exists N; exact Hl|]. split; [exact Ee|]. split; [exists N'; exact Hg|].
  split; [exact (proj1 (C32_sound_elements A S L mag_up Hm garb carb rho p x y Hx Hy Ex Ey N l) (Hl N (le_n N)))|]. split; [exact D|].
  exact (proj2 (C32_sound_elements A S L mag_up Hm garb carb rho p x y Hx Hy Ex Ey N' g) (Hg N' (le_n N'))).
Qed.

Lemma decided_order v w c (b : bool) : (c = true -> w <= v) -> (c = false -> v <= w) -> (b = true -> c = false) -> (b = true <-> v = w) -> (c = true <-> v > w).
Proof.
  intros H1 H2 H3 H4. split.
  - intros C. destruct (H1 C) as [L|E]; [exact L|]. assert (b = true) by (apply H4; auto). rewrite H3 in C by assumption. discriminate.
  - intros G. destruct c; [reflexivity|]. specialize (H2 eq_refl). lra.
Qed.
(** The same for integers, rationals and real numbers; for the first two 1 must be independent of the other generators. *)
Theorem C32_integers : forall A S, lawful A S -> forall mag_up, mag_up_ok mag_up -> mag_up_tight mag_up -> forall garb carb rho (p : par A) gs, independent S p rho gs -> In (GRat 1) gs ->
  forall x, among S p gs x -> enclosing_balls S garb carb rho x -> shrinking_balls S garb carb x ->
  forall n, exists l g, eventually (fun rounds => lt_int mag_up garb carb rounds x n) (Ok l) /\ eventually (fun rounds => gt_int mag_up garb carb rounds x n) (Ok g) /\
    (l = true <-> value S rho x < IZR n) /\ (eq_integer x n = true <-> value S rho x = IZR n) /\ (g = true <-> value S rho x > IZR n).
Proof.
  intros A S L mag_up Hm Ht garb carb rho p gs HI H1 x Lx Ex Cx n. assert (Hx := proj1 Lx). apply ideal_approximated in Ex.
  pose proof (eq_integer_decides A S L p rho gs HI H1 x n Lx) as D. pose proof (nonzero_not_zero A S L p rho gs HI x Lx) as Nx.
  destruct (lt_int_terminates A S L mag_up Hm garb carb rho 1 one_ok Ht x n (proj1 Hx) Ex Cx Nx) as (N & l & Hl). { intros F V. apply D in V. congruence. }
  destruct (gt_terminates A mag_up garb carb x (Ok (eq_integer x n)) (fun _ => test_int n)) as (N' & g & Hg); [exists N, l; exact Hl|].
  exists l, g. split; [exists N; exact Hl|]. split; [exists N'; exact Hg|].
  destruct (proj1 (int_sound A S L mag_up Hm garb carb rho 1 one_ok p x n N l Hx Ex) (Hl N (le_n N))) as (u & P & C). apply perturbed_zero in P. subst u. split; [exact C|]. split; [exact D|].
  destruct (proj2 (int_sound A S L mag_up Hm garb carb rho 1 one_ok p x n N' g Hx Ex) (Hg N' (le_n N'))) as (u & P & C1 & C2 & C3). apply perturbed_zero in P. subst u. exact (decided_order _ _ g _ C1 C2 C3 D).
Qed.
Theorem C32_rationals : forall A S, lawful A S -> forall mag_up, mag_up_ok mag_up -> mag_up_tight mag_up -> forall garb carb rho (p : par A) gs, independent S p rho gs -> In (GRat 1) gs ->
  forall x, among S p gs x -> enclosing_balls S garb carb rho x -> shrinking_balls S garb carb x ->
  forall q : Qc, exists l g, eventually (fun rounds => lt_rat mag_up garb carb rounds x q) (Ok l) /\ eventually (fun rounds => gt_rat mag_up garb carb rounds x q) (Ok g) /\
    (l = true <-> value S rho x < Q2R q) /\ (eq_rational x q = true <-> value S rho x = Q2R q) /\ (g = true <-> value S rho x > Q2R q).
Proof.
  intros A S L mag_up Hm Ht garb carb rho p gs HI H1 x Lx Ex Cx q. assert (Hx := proj1 Lx). apply ideal_approximated in Ex.
  pose proof (eq_rational_decides A S L p rho gs HI H1 x q Lx) as D. pose proof (nonzero_not_zero A S L p rho gs HI x Lx) as Nx.
  destruct (lt_rat_terminates A S L mag_up Hm garb carb rho 1 one_ok Ht x q (proj1 Hx) Ex Cx Nx) as (N & l & Hl). { intros F V. apply D in V. congruence. }
  destruct (gt_terminates A mag_up garb carb x (Ok (eq_rational x q)) (fun _ => test_rat mag_up q)) as (N' & g & Hg); [exists N, l; exact Hl|].
  exists l, g. split; [exists N; exact Hl|]. split; [exists N'; exact Hg|].
  destruct (proj1 (rat_sound A S L mag_up Hm garb carb rho 1 one_ok p x q N l Hx Ex) (Hl N (le_n N))) as (u & P & C). apply perturbed_zero in P. subst u. split; [exact C|]. split; [exact D|].
  destruct (proj2 (rat_sound A S L mag_up Hm garb carb rho 1 one_ok p x q N' g Hx Ex) (Hg N' (le_n N'))) as (u & P & C1 & C2 & C3). apply perturbed_zero in P. subst u. exact (decided_order _ _ g _ C1 C2 C3 D).
Qed.
(** The comparison with a real number throws if it is not among the generators of [x] (C53); otherwise: *)
Theorem C32_reals : forall A S, lawful A S -> forall mag_up, mag_up_ok mag_up -> mag_up_tight mag_up -> forall garb carb rho (p : par A) gs, independent S p rho gs ->
  forall x, among S p gs x -> enclosing_balls S garb carb rho x -> shrinking_balls S garb carb x ->
  forall r, In r (basis (emodule x)) -> exists l e g, eventually (fun rounds => lt_real mag_up garb carb rounds x r) (Ok l) /\ eq_real x r = Ok e /\ eventually (fun rounds => gt_real mag_up garb carb rounds x r) (Ok g) /\
    (l = true <-> value S rho x < gen_val rho r) /\ (e = true <-> value S rho x = gen_val rho r) /\ (g = true <-> value S rho x > gen_val rho r).
Proof.
  intros A S L mag_up Hm Ht garb carb rho p gs HI x Lx Ex Cx r Ir. assert (Hx := proj1 Lx).
  assert (Wr : gen_wf r). { pose proof (proj1 (proj1 (proj1 Hx))) as F. rewrite Forall_forall in F. apply F, Ir. }
  assert (Eq : forall q, r = GRat q -> q = 1%Qc). { intros q ->. apply (proj2 (proj2 Hx)), Ir. }
  assert (Hr : forall q, (2 <= q)%Z -> within 1 (garb r q) (gen_val rho r)). { intros q Hq. apply encloses_within, (proj1 Ex); assumption. }
  assert (Tot : exists e, eq_real x r = Ok e).
  { destruct (eq_real x r) as [e|err] eqn:E; [eauto|]. assert (F : exists e, eq_real x r = Err e) by eauto. apply (eq_real_throws A) in F. destruct F as [_ F]. contradiction. }
  destruct Tot as [e Ee]. pose proof (eq_real_decides A S L p rho gs HI x r e Lx (proj2 Lx r Ir) Wr Eq Ee) as D. pose proof (nonzero_not_zero A S L p rho gs HI x Lx) as Nx.
  apply ideal_approximated in Ex.
  destruct (lt_real_terminates A S L mag_up Hm garb carb rho 1 one_ok Ht x r e (proj1 Hx) Ex Cx Nx Hr (proj1 Cx r Ir) Ee) as (N & l & Hl). { intros F V. apply D in V. congruence. }
  destruct (gt_terminates A mag_up garb carb x (eq_real x r) (fun _ => test_real garb r)) as (N' & g & Hg); [exists N, l; exact Hl|].
  exists l, e, g. split; [exists N; exact Hl|]. split; [exact Ee|]. split; [exists N'; exact Hg|].
  assert (Hr' : forall q, (64 <= q)%Z -> within 1 (garb r q) (gen_val rho r) /\ (1 = 1 \/ is_accurate q (garb r q) = true)) by (intros q Hq; split; [apply Hr; lia|left; reflexivity]).
  destruct (proj1 (real_sound A S L mag_up Hm garb carb rho 1 one_ok p x r N l Hx Wr Ex Hr') (Hl N (le_n N))) as (u & w & P & P' & C). apply perturbed_zero in P, P'. subst u w. split; [exact C|]. split; [exact D|].
  destruct (proj2 (real_sound A S L mag_up Hm garb carb rho 1 one_ok p x r N' g Hx Wr Ex Hr') (Hg N' (le_n N'))) as (u & w & P & P' & C1 & C2 & C3). apply perturbed_zero in P, P'. subst u w.
  apply (decided_order _ _ g e C1 C2); [|exact D]. intros ->. exact (C3 Ee).
Qed.

(** With the balls of the code the answers are right for numbers that are not extremely close to each other ... *)
Theorem C66_elements : forall A S, lawful A S -> forall mag_up, mag_up_ok mag_up -> forall rng names rho garb carb (p : par A) x y, standard S p x -> standard S p y ->
  code_setting S rng names rho garb carb x -> code_setting S rng names rho garb carb y -> code_error * (Rabs (value S rho x) + Rabs (value S rho y)) < Rabs (value S rho x - value S rho y) ->
  forall rounds c, lt_elem mag_up garb carb rounds x y = Some (Ok c) -> (c = true <-> value S rho x < value S rho y).
Proof.
  intros A S L mag_up Hm rng names rho garb carb p x y Hx Hy Ex Ey Far rounds c H.
  destruct (lt_elem_sound A S L mag_up Hm garb carb rho 4 four_ok p x y rounds c Hx Hy (code_approximated A S _ _ _ _ _ x (proj1 Hx) Ex) (code_approximated A S _ _ _ _ _ y (proj1 Hy) Ey) H) as (u & w & P1 & P2 & C).
  rewrite C. apply (perturbed_order (eps64 4)); [apply (eps64_nonneg 4 four_ok)|exact P1|exact P2|]. unfold eps64. replace (4 - 1) with 3 by ring. exact Far.
Qed.
Theorem C66_rationals : forall A S, lawful A S -> forall mag_up, mag_up_ok mag_up -> forall rng names rho garb carb (p : par A) x, standard S p x ->
  code_setting S rng names rho garb carb x -> forall q : Qc, code_error * Rabs (value S rho x) < Rabs (value S rho x - Q2R q) ->
  forall rounds c, (lt_rat mag_up garb carb rounds x q = Some (Ok c) -> (c = true <-> value S rho x < Q2R q)) /\ (gt_rat mag_up garb carb rounds x q = Some (Ok c) -> (c = true <-> value S rho x > Q2R q)).
Proof.
  intros A S L mag_up Hm rng names rho garb carb p x Hx Ex q Far rounds c. assert (Ax := code_approximated A S _ _ _ _ _ x (proj1 Hx) Ex). set (v := value S rho x) in *.
  assert (Z : forall u, perturbed (eps64 4) v u -> Rabs (u - v) < Rabs (v - Q2R q)).
  { intros u P. unfold perturbed, eps64 in P. replace (4 - 1) with 3 in P by ring. eapply Rle_lt_trans; [exact P|]. exact Far. }
  destruct (rat_sound A S L mag_up Hm garb carb rho 4 four_ok p x q rounds c Hx Ax) as [S1 S2]. fold v in S1, S2. split; intros H.
  - destruct (S1 H) as (u & P & C). rewrite C. specialize (Z u P). unfold Rabs in Z. split; intros L1; destruct (Rcase_abs (u - v)), (Rcase_abs (v - Q2R q)); lra.
  - destruct (S2 H) as (u & P & C1 & C2 & _). specialize (Z u P). unfold Rabs in Z. split; [intros E; specialize (C1 E)|intros G; destruct c; [reflexivity|]; specialize (C2 eq_refl)]; destruct (Rcase_abs (u - v)), (Rcase_abs (v - Q2R q)); lra.
Qed.
(** ... and there is an answer if the values are different. *)
Theorem C66_returns : forall A S, lawful A S -> forall mag_up, mag_up_ok mag_up -> mag_up_tight mag_up -> forall rng names rho garb carb (p : par A) x y, standard S p x -> standard S p y ->
  code_setting S rng names rho garb carb x -> code_setting S rng names rho garb carb y -> value S rho x <> value S rho y ->
  (nonzero x = true -> value S rho x <> 0) -> (nonzero y = true -> value S rho y <> 0) ->
  exists c, eventually (fun rounds => lt_elem mag_up garb carb rounds x y) (Ok c).
Proof.
  intros A S L mag_up Hm Ht rng names rho garb carb p x y Hx Hy Ex Ey D Nx Ny. destruct (equal_total A S L x y (proj1 Hx) (proj1 Hy) (standard_combinable A S p x y Hx Hy)) as [e Ee].
  destruct (lt_elem_terminates A S L mag_up Hm garb carb rho 4 four_ok Ht x y e (proj1 Hx) (code_approximated A S _ _ _ _ _ x (proj1 Hx) Ex) (code_converging A S _ _ _ _ _ x (proj1 Hx) Ex) Nx
    (proj1 Hy) (code_approximated A S _ _ _ _ _ y (proj1 Hy) Ey) (code_converging A S _ _ _ _ _ y (proj1 Hy) Ey) Ny Ee (fun _ => D)) as (N & l & Hl).
  exists l, N. exact Hl.
Qed.
