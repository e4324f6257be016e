(** Properties C29, C31, C32, C44, C45, C52: hypotheses that are met, and counterexamples
    with the balls of the code. *)
From Coq Require Import ZArith QArith Qcanon Bool List Reals Qreals Lra Lia.
From Flocq Require Import Core.
From Verif Require Import Arf Arb Real SpecArf ArfProofs ArbProofs SpecReal RealProofs RealProofs2 RealProofs3 RealRefuted Rand48Proofs Gen SpecGen GenProofs Ring SpecRing RingProofs Module Element SpecModule ModuleProofs ElementProofs
  ElementProofs2 ElementProofs3 ElementProofs4 Loops SpecLoops Near Near2 LoopsProofs LoopsProofs2 LoopsProofs3 LoopsProofs4 LoopsProofs5 Balls PropOrder PropFloor PropDouble LoopsCases Fast48.
Import ListNotations.
Open Scope R_scope.

(** * Hypotheses that are met: 3 + 2 sqrt 2 and 5 sqrt 2, with balls of radius 2^-prec *)
Local Notation garb0 := (ideal_garb root2).
Lemma ex_enc x : enclosing_balls int_sem garb0 int_arb root2 x. Proof. apply ideal_int. Qed.
Lemma ex_shr x : shrinking_balls int_sem garb0 int_arb x. Proof. exact (proj2 (ideal_int root2 x)). Qed.
Lemma zx_value : value int_sem root2 zx = 3 + 2 * sqrt (IZR 2).
Proof. unfold value, root2. cbn -[sqrt]. replace (Q2R 1) with 1 by (unfold Q2R; cbn; lra). ring. Qed.
Lemma zy_value : value int_sem root2 zy = 5 * sqrt (IZR 2).
Proof. unfold value, root2. cbn -[sqrt]. ring. Qed.
Lemma sqrt2_bounds : 1.4142 < sqrt (IZR 2) < 1.4143.
Proof.
  assert (E : sqrt (IZR 2) * sqrt (IZR 2) = IZR 2) by (apply sqrt_sqrt; lra). assert (P : 0 <= sqrt (IZR 2)) by apply sqrt_pos. split; nra.
Qed.
Example C52_case : exists b, eventually (fun n => elem_arb (A := int_ring) up30 garb0 int_arb n zx 64) b /\ encloses b (3 + 2 * sqrt (IZR 2)).
Proof.
  destruct (C52_returns _ _ int_lawful up30 up30_ok up30_tight garb0 int_arb root2 zx (proj1 (proj1 zx_among)) (ex_enc zx) (ex_shr zx)) with (accuracy := 64%Z) as [b Hb]; [|lia|].
  - intros _. rewrite zx_value. pose proof sqrt2_bounds. lra.
  - exists b. split; [exact Hb|]. destruct Hb as [N Hb]. rewrite <- zx_value. exact (C52_encloses _ _ int_lawful up30 up30_ok garb0 int_arb root2 zx (proj1 (proj1 zx_among)) (ex_enc zx) 64%Z N b ltac:(lia) (Hb N (le_n N))).
Qed.
Example C32_case : eventually (fun n => lt_elem (A := int_ring) up30 garb0 int_arb n zx zy) (Ok true).
Proof.
  destruct (C32_elements _ _ int_lawful up30 up30_ok up30_tight garb0 int_arb root2 tt gens2 independent2 zx zy zx_among zy_among (ex_enc zx) (ex_shr zx) (ex_enc zy) (ex_shr zy)) as (l & e & g & Hl & _ & _ & V & _).
  replace l with true in Hl; [exact Hl|]. symmetry. apply V. rewrite zx_value, zy_value. pose proof sqrt2_bounds. lra.
Qed.
Lemma in1 : In (GRat 1) gens2. Proof. left. reflexivity. Qed.
Example C31_case : eventually (fun n => elem_floor (A := int_ring) up30 garb0 int_arb n zx) 5%Z.
Proof.
  destruct (C31_returns _ _ int_lawful up30 up30_ok up30_tight garb0 int_arb root2 tt gens2 independent2 in1 zx zx_among (ex_enc zx) (ex_shr zx)) as (n & m & Hn & _).
  replace 5%Z with n; [exact Hn|]. destruct Hn as [N Hn]. destruct (C31_floor _ _ int_lawful up30 up30_ok garb0 int_arb root2 zx (proj1 (proj1 zx_among)) (ex_enc zx) N n (Hn N (le_n N))) as [L U].
  rewrite zx_value in L, U. pose proof sqrt2_bounds. assert (L1 : IZR n < IZR 6) by lra. assert (U1 : IZR 4 < IZR n) by lra. apply lt_IZR in L1, U1. lia.
Qed.
Example C29_case : eventually (fun n => floordiv (A := int_ring) up30 garb0 int_arb n zy zx) (Ok 1%Z).
Proof.
  assert (N0 : value int_sem root2 zx <> 0) by (rewrite zx_value; pose proof sqrt2_bounds; lra).
  destruct (C29_returns _ _ int_lawful ltac:(intros p c n _ E; apply eq_IZR, E) up30 up30_ok up30_tight garb0 int_arb root2 tt gens2 independent2 zy zx zy_among zx_among (ex_enc zy) (ex_shr zy) (ex_enc zx) (ex_shr zx) N0) as (n & Hn).
  replace 1%Z with n; [exact Hn|]. destruct Hn as [N Hn].
  destruct (C29_sound _ _ int_lawful up30 up30_ok garb0 int_arb root2 zy zx (proj1 (proj1 zy_among)) (proj1 (proj1 zx_among)) eq_refl (ex_enc zy) (ex_enc zx) N0 N n (Hn N (le_n N))) as [L U].
  rewrite zx_value, zy_value in L, U. pose proof sqrt2_bounds as [B1 B2]. assert (P : 0 < 3 + 2 * sqrt (IZR 2)) by lra.
  assert (E : 5 * sqrt (IZR 2) / (3 + 2 * sqrt (IZR 2)) * (3 + 2 * sqrt (IZR 2)) = 5 * sqrt (IZR 2)) by (field; lra).
  assert (Q1 : 5 * sqrt (IZR 2) / (3 + 2 * sqrt (IZR 2)) < 2) by (apply (Rmult_lt_reg_r (3 + 2 * sqrt (IZR 2))); [exact P|rewrite E; lra]).
  assert (Q2 : 1 < 5 * sqrt (IZR 2) / (3 + 2 * sqrt (IZR 2))) by (apply (Rmult_lt_reg_r (3 + 2 * sqrt (IZR 2))); [exact P|rewrite E; lra]).
  assert (L1 : IZR n < IZR 2) by lra. assert (U1 : IZR 0 < IZR n) by lra. apply lt_IZR in L1, U1. lia.
Qed.
Example C44_case : exists d, eventually (fun n => elem_double (A := int_ring) up30 garb0 int_arb n zx) d /\ arf2R d = nearest_double (3 + 2 * sqrt (IZR 2)).
Proof.
  rewrite <- zx_value. apply (C44_double _ _ int_lawful up30 up30_ok up30_tight garb0 int_arb root2 tt gens2 independent2 in1 zx zx_among (ex_enc zx) (ex_shr zx)).
  right. rewrite zx_value. pose proof sqrt2_bounds. rewrite Rabs_pos_eq by lra. apply Rle_trans with (bpow radix2 0); [apply bpow_le; lia|cbn; lra].
Qed.

(** * The balls of the code are wrong sometimes *)
(** The setting of the counterexamples: the generators are random real numbers,
    the coefficients are integers and FLINT's radii have 30 bits. *)
Definition counterexample (x : elem int_ring) (s t : Z) (v w : R) (garb : gen -> Z -> arb) : Prop :=
  elem_wf int_sem x /\ stream_value (rand48 s) v /\ stream_value (rand48 t) w /\
  code_setting int_sem rand48 (names2 s t) (fun i => if (i =? 1)%Z then v else w) garb int_arb x.
Lemma case s t x : elem_wf int_sem x -> exists v w g0, counterexample x s t v w (gb s t g0).
Proof.
  intros W. destruct (code_case s t (basis (emodule x)) (proj1 (proj1 W))) as (v & w & g0 & Hv & Hw & C). exists v, w, g0. split; [exact W|]. split; [exact Hv|]. split; [exact Hw|]. apply C. reflexivity.
Qed.

(** The ball of a random number times 1 does not contain it. *)
Theorem C76_arb_refuted : exists s t v w garb b, counterexample (e1 1) s t v w garb /\
  elem_arb (A := int_ring) up30 garb int_arb 5 (e1 1) 64 = Some b /\ ~ contains b v.
Proof.
  exists 1338%Z, 1339%Z. destruct (case 1338 1339 (e1 1) (proj1 (e_wf 1 0))) as (v & w & g0 & C). exists v, w, (gb 1338 1339 g0). eexists. split; [exact C|]. split; [c48g|].
  destruct C as (_ & H & _). unfold contains, arf2R. cbn [rad mid am ae]. simpl bpow. r48bound H 100%nat. intros C. unfold Rabs in C. destruct (Rcase_abs _) in C; lra.
Qed.
(** An integer is below the element, but < answers that it is above. *)
Theorem C76_lt_refuted : exists c n s t v w garb, counterexample (e1 c) s t v w garb /\
  lt_int (A := int_ring) up30 garb int_arb 5 (e1 c) n = Some (Ok true) /\ IZR n < IZR c * v.
Proof.
  exists 1294671889523034417486333503731246370556%Z, 804279171521573620139773775911043746229%Z, 1342%Z, 1339%Z. 
  destruct (case 1342 1339 (e1 1294671889523034417486333503731246370556) (proj1 (e_wf _ 0))) as (v & w & g0 & C). exists v, w, (gb 1342 1339 g0). split; [exact C|]. split; [c48g|].
  destruct C as (_ & H & _). r48bound H 150%nat. lra.
Qed.
(** The floor is too large. *)
Theorem C76_floor_refuted : exists c d n s t v w garb, counterexample (e2 c d) s t v w garb /\
  elem_floor (A := int_ring) up30 garb int_arb 5 (e2 c d) = Some n /\ IZR c * v + IZR d * w < IZR n.
Proof.
  pose (c := (-123095056980953491812476785228556741492)%Z). pose (d := (-18094681969457202667638443550761784399)%Z).
  exists c, d, (-48662077255495024890868434862072357020)%Z, 1797%Z, 1838%Z. 
  destruct (case 1797 1838 (e2 c d) (proj1 (proj2 (e_wf _ _)))) as (v & w & g0 & C). exists v, w, (gb 1797 1838 g0). split; [exact C|]. split; [c48g|].
  destruct C as (_ & Hv & Hw & _). subst c d. r48bound Hv 150%nat. r48bound Hw 150%nat. lra.
Qed.
(** Another double is closer. *)
Definition dc : Z := -4002165354146740772164573787778864.
Definition dd : Z := -3162548559704932745156702953916880.
Theorem C76_double_refuted : exists s t v w garb b c, counterexample (e2 dc dd) s t v w garb /\
  elem_double (A := int_ring) up30 garb int_arb 5 (e2 dc dd) = Some b /\ is_double c /\ Rabs (IZR dc * v + IZR dd * w - c) < Rabs (IZR dc * v + IZR dd * w - arf2R b).
Proof.
  exists 1721%Z, 2325%Z. destruct (case 1721 2325 (e2 dc dd) (proj1 (proj2 (e_wf _ _)))) as (v & w & g0 & C). exists v, w, (gb 1721 2325 g0). eexists. exists (-5346563826406712184280413036871680). split; [exact C|].
  split; [c48g|]. split.
  - apply generic_format_FLT. exists (Float radix2 (-5346563826406712184280413036871680 / 2 ^ 60) 60); [|cbn; lia|cbn; lia].
    unfold F2R. cbn [Fnum Fexp]. change (bpow radix2 60) with (IZR (2 ^ 60)). rewrite <- mult_IZR. f_equal.
  - destruct C as (_ & Hv & Hw & _). r48bound Hv 150%nat. r48bound Hw 150%nat. unfold dc, dd, arf2R. cbn [am ae]. simpl bpow. unfold Rabs. destruct (Rcase_abs _); destruct (Rcase_abs _); lra.
Qed.
(** The same element in two modules: == holds, but the doubles differ, and so do
    the hashes unless they collide. *)
Theorem C69_hash_refuted : exists s t v w garb a b, counterexample (e2 dc dd) s t v w garb /\ counterexample (e3 dc dd) s t v w garb /\
  equal (A := int_ring) (e2 dc dd) (e3 dc dd) = Ok true /\
  elem_double (A := int_ring) up30 garb int_arb 5 (e2 dc dd) = Some a /\ elem_double (A := int_ring) up30 garb int_arb 5 (e3 dc dd) = Some b /\ arf2R a <> arf2R b.
Proof.
  exists 1721%Z, 2325%Z. destruct (case 1721 2325 (e3 dc dd) (proj2 (proj2 (e_wf _ _)))) as (v & w & g0 & C). exists v, w, (gb 1721 2325 g0). eexists. eexists. split; [|split; [exact C|]].
  - destruct C as (_ & Hv & Hw & CV & CB & CC). split; [apply e_wf|]. split; [exact Hv|]. split; [exact Hw|]. split; [exact CV|]. split; [|exact CC]. intros g prec Hg Hp. apply CB; [|exact Hp]. right. exact Hg.
  - split; [c48g|]. split; [c48g|]. split; [c48g|]. unfold arf2R. cbn [am ae]. simpl bpow. lra.
Qed.
(** Calling simplify() changes the double (so a simplified element is no longer found in a hash table), and x + 1 - 1 has another one than x. *)
Definition one0 : elem int_ring := mkElem (A := int_ring) (mkModule (A := int_ring) [GRat 1] tt) [1%Z].
Theorem C69_simplify_refuted : exists s t v w garb a b, counterexample (e2 dc dd) s t v w garb /\ counterexample (e3 dc dd) s t v w garb /\
  simplify (A := int_ring) (e3 dc dd) = Ok (e2 dc dd) /\ bind (add (A := int_ring) (e2 dc dd) one0) (fun z => sub z one0) = Ok (e3 dc dd) /\
  elem_double (A := int_ring) up30 garb int_arb 5 (e2 dc dd) = Some a /\ elem_double (A := int_ring) up30 garb int_arb 5 (e3 dc dd) = Some b /\ arf2R a <> arf2R b.
Proof.
  destruct C69_hash_refuted as (s & t & v & w & garb & a & b & C1 & C2 & _ & E1 & E2 & N). exists s, t, v, w, garb, a, b. split; [exact C1|]. split; [exact C2|].
  split; [c48g|]. split; [c48g|]. split; [exact E1|]. split; [exact E2|exact N].
Qed.
(** The hypotheses of C65 - C68 hold for 3 v + 5 w with two random numbers v and w; what the code computes. *)
Example C65_example : exists v w garb b, counterexample (e2 3 5) 1337 1338 v w garb /\ elem_arb (A := int_ring) up30 garb int_arb 5 (e2 3 5) 64 = Some b /\
  exists r, rad b = Some r /\ 0 < arf2R r /\ Rabs (3 * v + 5 * w - arf2R (mid b)) <= 4 * arf2R r.
Proof.
  destruct (case 1337 1338 (e2 3 5) (proj1 (proj2 (e_wf _ _)))) as (v & w & g0 & C). exists v, w, (gb 1337 1338 g0). eexists. split; [exact C|]. split; [c48g|].
  destruct C as (W & Hv & Hw & C). assert (E : exists b, elem_arb (A := int_ring) up30 (gb 1337 1338 g0) int_arb 5 (e2 3 5) 64 = Some b /\ exists r, rad b = Some r /\ 0 < arf2R r).
  { eexists. split; [c48g|]. eexists. split; [reflexivity|]. unfold arf2R. cbn [am ae]. simpl bpow. lra. }
  destruct E as (b & Eb & r & Er & Pr).
  destruct (C65_within int_ring int_sem int_lawful up30 up30_ok rand48 (names2 1337 1338) _ _ _ (e2 3 5) W C 64 5 b ltac:(lia) Eb) as (r' & Er' & _ & B).
  assert (Eb' := Eb). unfold gb in Eb'; rewrite rand48_fast in Eb'; vm_compute in Eb'. injection Eb' as <-. exists r. split; [exact Er|]. split; [exact Pr|]. rewrite Er in Er'. injection Er' as <-.
  match type of B with Rabs (?a - _) <= _ => replace (3 * v + 5 * w) with a; [exact B|] end. unfold value. cbn. ring.
Qed.
(** 3 v + 5 w is smaller than 6 v + 5 w, the floor and the double of 3 v + 5 w *)
Example C66_example : exists v w garb, counterexample (e2 3 5) 1337 1338 v w garb /\ counterexample (e2 6 5) 1337 1338 v w garb /\
  standard int_sem tt (e2 3 5) /\ standard int_sem tt (e2 6 5) /\
  code_error * (Rabs (3 * v + 5 * w) + Rabs (6 * v + 5 * w)) < Rabs ((3 * v + 5 * w) - (6 * v + 5 * w)) /\
  lt_elem (A := int_ring) up30 garb int_arb 5 (e2 3 5) (e2 6 5) = Some (Ok true).
Proof.
  destruct (case 1337 1338 (e2 3 5) (proj1 (proj2 (e_wf _ _)))) as (v & w & g0 & C). exists v, w, (gb 1337 1338 g0). split; [exact C|].
  destruct C as (W & Hv & Hw & C). split; [split; [exact (proj1 (proj2 (e_wf 6 5)))|split; [exact Hv|split; [exact Hw|exact C]]]|].
  split; [split; [exact W|]|]. 2: split; [split; [exact (proj1 (proj2 (e_wf 6 5)))|]|].
  3: split; [|c48g].
  - split; [reflexivity|]. intros q [E|[E|[]]]; discriminate E.
  - split; [reflexivity|]. intros q [E|[E|[]]]; discriminate E.
  - r48bound Hv 20%nat. r48bound Hw 20%nat. unfold code_error. simpl bpow. unfold Rabs. destruct (Rcase_abs _); destruct (Rcase_abs _); destruct (Rcase_abs _); lra.
Qed.
Example C67_example : exists v w garb, counterexample (e2 3 5) 1337 1338 v w garb /\ (forall n, 3 * v + 5 * w <> IZR n) /\ exists n m, 
  elem_floor (A := int_ring) up30 garb int_arb 5 (e2 3 5) = Some n /\ elem_ceil (A := int_ring) up30 garb int_arb 5 (e2 3 5) = Some m /\ the_floor n (3 * v + 5 * w) /\ the_ceil m (3 * v + 5 * w).
Proof.
  destruct (case 1337 1338 (e2 3 5) (proj1 (proj2 (e_wf _ _)))) as (v & w & g0 & C). exists v, w, (gb 1337 1338 g0). split; [exact C|].
  destruct C as (W & Hv & Hw & C). assert (B : exists n, elem_floor (A := int_ring) up30 (gb 1337 1338 g0) int_arb 5 (e2 3 5) = Some n /\ elem_ceil (A := int_ring) up30 (gb 1337 1338 g0) int_arb 5 (e2 3 5) = Some (n + 1)%Z /\ IZR n < 3 * v + 5 * w < IZR n + 1).
  { eexists. split; [c48g|]. split; [c48g|]. r48bound Hv 20%nat. r48bound Hw 20%nat. lra. }
  destruct B as (n & F & Ce & B). split.
  - intros k E. rewrite E in B. rewrite <- plus_IZR in B. destruct B as [B1 B2]. apply lt_IZR in B1, B2. lia.
  - exists n, (n + 1)%Z. split; [exact F|]. split; [exact Ce|]. unfold the_floor, the_ceil. rewrite plus_IZR. lra.
Qed.
Example C68_example : exists v w garb d, counterexample (e2 3 5) 1337 1338 v w garb /\ to_rational (A := int_ring) (e2 3 5) = None /\
  elem_double (A := int_ring) up30 garb int_arb 5 (e2 3 5) = Some d /\ Rabs (3 * v + 5 * w - arf2R d) <= bpow radix2 (-51).
Proof.
  destruct (case 1337 1338 (e2 3 5) (proj1 (proj2 (e_wf _ _)))) as (v & w & g0 & C). exists v, w, (gb 1337 1338 g0). eexists. split; [exact C|]. split; [c48g|]. split; [c48g|].
  destruct C as (W & Hv & Hw & C). r48bound Hv 80%nat. r48bound Hw 80%nat. unfold arf2R. cbn [am ae]. simpl bpow. unfold Rabs. destruct (Rcase_abs _); lra.
Qed.
