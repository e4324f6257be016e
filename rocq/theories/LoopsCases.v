(** Cases for the properties about approximations: hypotheses that are met (ideal balls,
    independent generators, the balls of the code), and counterexamples with the balls of the code. *)
From Coq Require Import ZArith QArith Qcanon Bool List Reals Qreals Lra Lia.
From Flocq Require Import Core.
From Verif Require Import Arf Arb Real SpecArf ArfProofs ArbProofs SpecReal RealProofs RealProofs2 RealProofs3 RealRefuted Rand48Proofs Gen SpecGen GenProofs Ring SpecRing RingProofs Module Element SpecModule ModuleProofs ElementProofs
  ElementProofs2 ElementProofs3 ElementProofs4 Loops SpecLoops Near Near2 LoopsProofs LoopsProofs2 LoopsProofs3 LoopsProofs4 Balls Fast48.
Import ListNotations.
Open Scope R_scope.

(** * Radii with 30 bits, rounded up *)
Definition up30 (r : arf) : arf := arf_round CEIL 30 r.
Local Instance prec30 : Prec_gt_0 30. Proof. reflexivity. Qed.
Lemma up30_ok : mag_up_ok up30.
Proof.
  intros r Hr. unfold up30. rewrite arf_round_spec by lia. cbn [rndZ]. apply (round_UP_pt radix2 (FLX_exp 30)).
Qed.
Lemma up30_tight : mag_up_tight up30.
Proof.
  intros r Hr. unfold up30. rewrite arf_round_spec by lia. cbn [rndZ]. destruct (Req_dec (arf2R r) 0) as [->|N]; [rewrite round_0 by exact _; lra|].
  pose proof (bpow_mag_gt radix2 (arf2R r)) as B1. pose proof (bpow_mag_le radix2 (arf2R r) N) as B2. rewrite Rabs_pos_eq in B1, B2 by exact Hr.
  apply Rle_trans with (bpow radix2 (mag radix2 (arf2R r))).
  - apply (round_UP_pt radix2 (FLX_exp 30)); [|lra]. apply generic_format_bpow. unfold FLX_exp. lia.
  - replace (mag radix2 (arf2R r) : Z) with (1 + (mag radix2 (arf2R r) - 1))%Z by lia. rewrite bpow_plus. change (bpow radix2 1) with 2. lra.
Qed.

(** * Ideal balls *)
Definition ideal_ball (v : R) (prec : Z) : arb := mkArb (mkArf (Zfloor (v * bpow radix2 prec)) (- prec)) (Some (mkArf 1 (- prec))).
Definition ideal_garb (rho : Z -> R) (g : gen) (prec : Z) : arb := ideal_ball (gen_val rho g) prec.
Lemma ideal_ball_encloses v prec : encloses (ideal_ball v prec) v.
Proof.
  split; [cbn; lia|]. unfold contains, ideal_ball. cbn [rad mid]. unfold arf2R. cbn [am ae]. rewrite Rmult_1_l. pose proof (Zfloor_lb (v * bpow radix2 prec)) as L. pose proof (Zfloor_ub (v * bpow radix2 prec)) as U.
  assert (P : 0 < bpow radix2 (- prec)) by apply bpow_gt_0. assert (E : v = v * bpow radix2 prec * bpow radix2 (- prec)) by (rewrite Rmult_assoc, <- bpow_plus, Z.add_opp_diag_r; cbn; ring).
  set (m := IZR (Zfloor (v * bpow radix2 prec))) in *. rewrite E at 1. rewrite <- Rmult_minus_distr_r. rewrite Rabs_pos_eq by (apply Rmult_le_pos; lra).
  rewrite <- (Rmult_1_l (bpow radix2 (- prec))) at 2. apply Rmult_le_compat_r; lra.
Qed.
Lemma ideal_garb_enclosed rho gs : generators_enclosed (ideal_garb rho) rho gs.
Proof. intros g prec _ _. apply ideal_ball_encloses. Qed.
Lemma ideal_garb_shrinks rho g : shrinks (ideal_garb rho g).
Proof. exists 1, 0%Z. intros prec _. exists (mkArf 1 (- prec)). split; [reflexivity|]. unfold arf2R. cbn [am ae]. lra. Qed.
Lemma ideal_int rho (x : elem int_ring) : enclosing_balls int_sem (ideal_garb rho) int_arb rho x /\ shrinking_balls int_sem (ideal_garb rho) int_arb x.
Proof.
  split; split; [apply ideal_garb_enclosed|apply int_arb_encloses|intros g _; apply ideal_garb_shrinks|intros c _; apply int_arb_shrinks].
Qed.

(** * Independent generators: 1 and the square root of two, over the integers *)
Definition root2 (_ : Z) : R := sqrt (IZR 2).
Definition gens2 : list gen := [GRat 1; GAtom 1].
Lemma combination_root2 a b : IZR a + IZR b * sqrt (IZR 2) = 0 -> a = 0%Z /\ b = 0%Z.
Proof.
  intros H. destruct (Z.eq_dec b 0) as [->|N].
  - split; [|reflexivity]. apply eq_IZR. lra.
  - exfalso. apply (sqrt_irrational_Z 2 a (Z.abs b) eq_refl); [lia|]. replace (Z.abs b * Z.abs b)%Z with (b * b)%Z by lia. apply eq_IZR. rewrite !mult_IZR.
    assert (E : sqrt (IZR 2) * sqrt (IZR 2) = IZR 2) by (apply sqrt_sqrt; lra). assert (Ea : IZR a = - (IZR b * sqrt (IZR 2))) by lra. rewrite Ea. rewrite <- E at 3. ring.
Qed.
Lemma sublist_cases (l : list gen) : ascending l -> incl l gens2 -> l = [] \/ l = [GRat 1] \/ l = [GAtom 1] \/ l = [GRat 1; GAtom 1].
Proof.
  assert (C : forall g, In g gens2 -> g = GRat 1 \/ g = GAtom 1) by (intros g [E|[E|[]]]; auto).
  intros As I. destruct l as [|g l]; [auto|]. destruct As as [Ag As]. destruct l as [|h l].
  - destruct (C g (I g (or_introl eq_refl))) as [-> | ->]; auto.
  - destruct As as [Ah _]. assert (P := Ag h (or_introl eq_refl)). destruct (C g (I g (or_introl eq_refl))) as [-> | ->], (C h (I h (or_intror (or_introl eq_refl)))) as [-> | ->].
    + destruct (precedes_irrefl _ P).
    + destruct l as [|k l]; [auto|]. exfalso. pose proof (Ah k (or_introl eq_refl)) as P1. pose proof (Ag k (or_intror (or_introl eq_refl))) as P2.
      destruct (C k (I k (or_intror (or_intror (or_introl eq_refl))))) as [-> | ->]; [apply (precedes_irrefl _ P2)|apply (precedes_irrefl _ P1)].
    + destruct P as [[P _]|[_ [P _]]]; [destruct P|]. exfalso. apply P. exact Logic.I.
    + destruct (precedes_irrefl _ P).
Qed.
Lemma independent2 : independent int_sem tt root2 gens2.
Proof.
  intros z (WM & Hl & Hm) _ Hi V. unfold value in V. destruct (sublist_cases _ (proj2 WM) Hi) as [E|[E|[E|E]]]; rewrite E in Hl, V; cbn [length] in Hl.
  - destruct (coeffs z); [constructor|discriminate].
  - destruct (coeffs z) as [|a [|b l]]; [discriminate| |discriminate]. cbn [combination gen_val val int_sem] in V. constructor; [|constructor].
    replace (Q2R 1%Qc) with 1 in V by (unfold Q2R; cbn; lra). apply eq_IZR. cbn [czero int_ring]. lra.
  - destruct (coeffs z) as [|a [|b l]]; [discriminate| |discriminate]. cbn [combination gen_val val int_sem] in V. constructor; [|constructor].
    apply (combination_root2 0 a). unfold root2 in V. lra.
  - destruct (coeffs z) as [|a [|b [|c l]]]; [discriminate|discriminate| |discriminate]. cbn [combination gen_val val int_sem] in V. replace (Q2R 1%Qc) with 1 in V by (unfold Q2R; cbn; lra).
    destruct (combination_root2 a b) as [-> ->]; [unfold root2 in V; lra|]. repeat constructor.
Qed.
(** 3 + 2 sqrt 2 and 5 sqrt 2 *)
Definition zx : elem int_ring := mkElem (A := int_ring) (mkModule (A := int_ring) gens2 tt) [3; 2]%Z.
Definition zy : elem int_ring := mkElem (A := int_ring) (mkModule (A := int_ring) [GAtom 1] tt) [5]%Z.
Lemma zx_among : among int_sem tt gens2 zx.
Proof.
  split; [|intros g H; exact H]. split; [|split; [reflexivity|]].
  - split; [split|split; [reflexivity|repeat constructor]].
    + constructor; [exact Logic.I|]. constructor; [cbn; lia|constructor].
    + split; [|split; [intros h []|exact Logic.I]]. intros h [<-|[]]. left. split; [exact Logic.I|intros []].
  - intros q [H|[H|[]]]; [injection H as <-; reflexivity|discriminate].
Qed.
Lemma zy_among : among int_sem tt gens2 zy.
Proof.
  split; [|intros g [<-|[]]; right; left; reflexivity]. split; [|split; [reflexivity|]].
  - split; [split|split; [reflexivity|repeat constructor]].
    + constructor; [cbn; lia|constructor].
    + split; [intros h []|exact Logic.I].
  - intros q [H|[]]; discriminate.
Qed.

(** * The balls of the code *)
(** Two (or more) random numbers. *)
Definition names2 (s t : Z) (i : Z) : atom := ARandom (if (i =? 1)%Z then s else t).
Definition gb (s t : Z) (garb0 : gen -> Z -> arb) (g : gen) (prec : Z) : arb :=
  match num_arb rand48 300 (rnum_of (names2 s t) g) prec with Some b => b | None => garb0 g prec end.
Lemma gb_code s t garb0 gs : code_balls rand48 (names2 s t) garb0 gs -> code_balls rand48 (names2 s t) (gb s t garb0) gs.
Proof. intros H g prec Hg Hp. unfold gb. destruct (num_arb rand48 300 (rnum_of (names2 s t) g) prec) as [b|] eqn:E; [exists 300%nat; exact E|exact (H g prec Hg Hp)]. Qed.
Lemma code_case s t gs : Forall gen_wf gs -> exists v w garb0, stream_value (rand48 s) v /\ stream_value (rand48 t) w /\
  forall x : elem int_ring, basis (emodule x) = gs -> code_setting int_sem rand48 (names2 s t) (fun i => if (i =? 1)%Z then v else w) (gb s t garb0) int_arb x.
Proof.
  intros W. destruct (atom_value_exists rand48 (ARandom s)) as [v Hv]. destruct (atom_value_exists rand48 (ARandom t)) as [w Hw].
  assert (CV : code_values rand48 (names2 s t) (fun i => if (i =? 1)%Z then v else w)).
  { intros i. unfold names2. destruct (i =? 1)%Z; (split; [apply rand48_nonzero|assumption]). }
  destruct (code_balls_exist rand48 (names2 s t) _ gs CV W) as [g0 Hg]. exists v, w, g0. split; [exact Hv|]. split; [exact Hw|]. intros x E.
  unfold code_setting. rewrite E. split; [exact CV|]. split; [apply gb_code, Hg|]. split; [apply int_arb_encloses|intros c _; apply int_arb_shrinks].
Qed.
Definition e1 (c : Z) : elem int_ring := mkElem (A := int_ring) (mkModule (A := int_ring) [GAtom 1] tt) [c].
Definition e2 (c d : Z) : elem int_ring := mkElem (A := int_ring) (mkModule (A := int_ring) [GAtom 1; GAtom 2] tt) [c; d].
Definition e3 (c d : Z) : elem int_ring := mkElem (A := int_ring) (mkModule (A := int_ring) [GRat 1; GAtom 1; GAtom 2] tt) [0; c; d]%Z.
Lemma e_wf c d : elem_wf int_sem (e1 c) /\ elem_wf int_sem (e2 c d) /\ elem_wf int_sem (e3 c d).
Proof.
  assert (D : precedes (GAtom 1) (GAtom 2)). { apply precedes_deglex; [cbn; lia|cbn; lia|reflexivity]. }
  assert (D1 : forall i, precedes (GRat 1) (GAtom i)). { intros i. left. split; [exact Logic.I|intros []]. }
  split; [|split]; (split; [split|split; [reflexivity|repeat constructor]]).
  - constructor; [cbn; lia|constructor].
  - split; [intros h []|exact Logic.I].
  - constructor; [cbn; lia|]. constructor; [cbn; lia|constructor].
  - split; [intros h [<-|[]]; exact D|]. split; [intros h []|exact Logic.I].
  - constructor; [exact Logic.I|]. constructor; [cbn; lia|]. constructor; [cbn; lia|constructor].
  - split; [intros h [<-|[<-|[]]]; apply D1|]. split; [intros h [<-|[]]; exact D|]. split; [intros h []|exact Logic.I].
Qed.
Ltac c48g := unfold gb; c48.
