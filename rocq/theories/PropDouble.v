(** Properties C44 (conversion to double) and C45 (hash). *)
From Coq Require Import ZArith QArith Qcanon Bool List Reals Qreals Lra Lia.
From Flocq Require Import Core.
From Verif Require Import Arf Arb Real SpecArf ArfProofs ArbProofs SpecReal Gen SpecGen GenProofs Ring SpecRing RingProofs Module Element SpecModule ModuleProofs ElementProofs
  ElementProofs2 ElementProofs3 ElementProofs4 Loops SpecLoops Near Near2 LoopsProofs LoopsProofs2 LoopsProofs3 LoopsProofs4 LoopsProofs5 Balls PropOrder.
Import ListNotations.
Open Scope R_scope.

(** * C44 *)
(** Elements that are not rational. *)
Theorem C44_irrational : forall A S, lawful A S -> forall mag_up, mag_up_ok mag_up -> forall garb carb rho (x : elem A), elem_wf S x -> enclosing_balls S garb carb rho x -> to_rational x = None ->
  forall rounds d, elem_double mag_up garb carb rounds x = Some d -> arf2R d = nearest_double (value S rho x).
Proof.
  intros A S L mag_up Hm garb carb rho x W E T rounds d H. destruct (double_sound A S L mag_up Hm garb carb rho 1 one_ok x rounds d W (ideal_approximated A S garb carb rho x E) T H) as (u & P & ->).
  unfold perturbed in P. replace ((1 - 1) * bpow radix2 (-54) * Rabs (value S rho x)) with 0 in P by ring. assert (u = value S rho x) as ->; [|reflexivity].
  destruct (Req_dec (u - value S rho x) 0) as [Z|Z]; [lra|]. apply Rabs_pos_lt in Z. lra.
Qed.
Local Instance prec53 : Prec_gt_0 53. Proof. reflexivity. Qed.
(** Rational elements: right unless the result is subnormal. *)
Lemma round_normal v : bpow radix2 (-1022) <= Rabs v -> nearest_double (round radix2 (FLX_exp 53) ZnearestE v) = nearest_double v.
Proof.
  intros H. unfold nearest_double. assert (E : round radix2 (FLX_exp 53) ZnearestE v = round radix2 (FLT_exp (-1074) 53) ZnearestE v).
  { symmetry. apply round_FLT_FLX. exact H. }
  rewrite E. apply round_generic; [exact _|]. apply generic_format_round; exact _.
Qed.
Lemma rational_double A (x : elem A) (q : Qc) mag_up garb carb rounds : to_rational x = Some q -> (q = 0%Qc \/ bpow radix2 (-1022) <= Rabs (Q2R q)) ->
  exists d, elem_double mag_up garb carb rounds x = Some d /\ arf2R d = nearest_double (Q2R q).
Proof.
  intros T R. unfold elem_double. rewrite T. eexists. split; [reflexivity|]. rewrite arf_to_double_spec, round_q_spec; [|lia|apply lt_IZR, qc_den_pos]. change (bpow radix2 0) with 1. rewrite Rmult_1_r, <- qc_num_den.
  destruct R as [->|R]; [|exact (round_normal _ R)]. replace (Q2R 0%Qc) with 0 by (unfold Q2R; cbn; lra). cbn [rndZ]. rewrite !round_0 by exact _. unfold nearest_double. rewrite round_0 by exact _. reflexivity.
Qed.
Theorem C44_rational : forall A S, lawful A S -> forall mag_up garb carb (x : elem A) (q : Qc), elem_wf S x -> no_zero_gen (basis (emodule x)) -> (forall rho, value S rho x = Q2R q) ->
  (q = 0%Qc \/ bpow radix2 (-1022) <= Rabs (Q2R q)) -> forall rounds, exists d, elem_double mag_up garb carb rounds x = Some d /\ arf2R d = nearest_double (Q2R q).
Proof.
  intros A S L mag_up garb carb x q W Z V R rounds. apply (to_rational_spec A S L x q W Z) in V. exact (rational_double A x q mag_up garb carb rounds V R).
Qed.
(** Elements in the range of normal doubles (and 0); the conversion returns if 1 and the generators are independent. *)
Theorem C44_double : forall A S, lawful A S -> forall mag_up, mag_up_ok mag_up -> mag_up_tight mag_up -> forall garb carb rho (p : par A) gs, independent S p rho gs -> In (GRat 1) gs ->
  forall x, among S p gs x -> enclosing_balls S garb carb rho x -> shrinking_balls S garb carb x -> (value S rho x = 0 \/ bpow radix2 (-1022) <= Rabs (value S rho x)) ->
  exists d, eventually (fun rounds => elem_double mag_up garb carb rounds x) d /\ arf2R d = nearest_double (value S rho x).
Proof.
  intros A S L mag_up Hm Ht garb carb rho p gs HI H1 x Lx Ex Cx R. destruct (to_rational x) as [q|] eqn:T.
  - pose proof (to_rational_sound A S L x q (proj1 (proj1 Lx)) T rho) as V. rewrite V in *.
    assert (R' : q = 0%Qc \/ bpow radix2 (-1022) <= Rabs (Q2R q)). { destruct R as [R|R]; [left|right; exact R]. apply Qc_is_canon. apply eqR_Qeq. rewrite R. unfold Q2R. cbn. lra. }
    destruct (rational_double A x q mag_up garb carb 0 T R') as (d & Hd & Vd). exists d. split; [|exact Vd]. exists 0%nat. intros n _. unfold elem_double in *. rewrite T in *. exact Hd.
  - destruct (double_terminates A S L mag_up Hm garb carb rho 1 one_ok Ht x (proj1 (proj1 Lx)) (ideal_approximated A S garb carb rho x Ex) Cx (fun _ => irrational_double A S L p rho gs HI H1 x Lx T)) as (N & d & Hd).
    exists d. split; [exists N; exact Hd|]. exact (C44_irrational A S L mag_up Hm garb carb rho x (proj1 (proj1 Lx)) Ex T N d (Hd N (le_n N))).
Qed.
(** The code: the double closest to a number that is extremely close to the element. *)
Theorem C68_double : forall A S, lawful A S -> forall mag_up, mag_up_ok mag_up -> forall rng names rho garb carb (x : elem A), elem_wf S x -> code_setting S rng names rho garb carb x -> to_rational x = None ->
  forall rounds d, elem_double mag_up garb carb rounds x = Some d -> exists u, perturbed (3 * bpow radix2 (-54)) (value S rho x) u /\ arf2R d = nearest_double u.
Proof.
  intros A S L mag_up Hm rng names rho garb carb x W E T rounds d H. apply code_approximated in E; [|exact W]. destruct (double_sound A S L mag_up Hm garb carb rho 4 four_ok x rounds d W E T H) as (u & P & ->).
  exists u. replace (4 - 1) with 3 in P by ring. split; [exact P|reflexivity].
Qed.
(** It returns if the element is neither a double nor in the middle between two doubles. *)
Theorem C68_returns : forall A S, lawful A S -> forall mag_up, mag_up_ok mag_up -> mag_up_tight mag_up -> forall rng names rho garb carb (x : elem A), elem_wf S x -> code_setting S rng names rho garb carb x ->
  ~ is_double (value S rho x) -> (forall c d, is_double c -> is_double d -> c < d -> value S rho x <> (c + d) / 2) ->
  exists d, eventually (fun rounds => elem_double mag_up garb carb rounds x) d.
Proof.
  intros A S L mag_up Hm Ht rng names rho garb carb x W C F M.
  destruct (double_terminates A S L mag_up Hm garb carb rho 4 four_ok Ht x W (code_approximated A S rng names rho garb carb x W C) (code_converging A S rng names rho garb carb x W C)) as (N & d & Hd).
  - intros _. split; [exact F|]. intros (c & d & Hc & Hd & Lt & E). exact (M c d Hc Hd Lt E).
  - exists d, N. exact Hd.
Qed.
(** Subnormal results of rational elements are rounded twice. *)
Theorem C76_subnormal_refuted : exists (x : elem rat_ring) v d c, elem_wf rat_sem x /\ (forall rho, value rat_sem rho x = v) /\ (forall mag_up garb carb rounds, elem_double mag_up garb carb rounds x = Some d) /\
  is_double c /\ Rabs (v - c) < Rabs (v - arf2R d).
Proof.
  exists (mkElem (A := rat_ring) (mkModule (A := rat_ring) [GRat 1] tt) [Q2Qc (2 ^ 59 + 1 # 2 ^ 1134)]), (IZR (2 ^ 59 + 1) * bpow radix2 (-1134)), (mkArf 0 (-1074)), (bpow radix2 (-1074)).
  assert (B : bpow radix2 (-1074) = IZR (2 ^ 60) * bpow radix2 (-1134)). { change (IZR (2 ^ 60)) with (bpow radix2 60). rewrite <- bpow_plus. reflexivity. }
  assert (P : 0 < bpow radix2 (-1134)) by apply bpow_gt_0.
  split; [|split; [|split; [|split]]].
  - split; [split; [constructor; [exact I|constructor]|split; [intros h []|exact I]]|]. split; [reflexivity|]. constructor; [exact I|constructor].
  - intros rho. unfold value. cbn [basis emodule coeffs combination gen_val]. cbn [val rat_sem]. rewrite !Q2R_Q2Qc. unfold Q2R. cbn [Qnum Qden]. change (bpow radix2 (-1134)) with (/ IZR (2 ^ 1134)). rewrite Rinv_1, Rmult_1_r, Rmult_1_r, Rplus_0_r. reflexivity.
  - intros. vm_compute. reflexivity.
  - apply generic_format_bpow. cbn. unfold FLT_exp. lia.
  - unfold arf2R. cbn [am ae]. rewrite Rmult_0_l, Rminus_0_r, B. generalize dependent (bpow radix2 (-1134)). intros t _ P.
    change (2 ^ 59 + 1)%Z with 576460752303423489%Z. change (2 ^ 60)%Z with 1152921504606846976%Z. rewrite Rabs_left by lra. rewrite Rabs_pos_eq by lra. lra.
Qed.

(** * C45 *)
(** Elements that are == have the same hash. *)
Theorem C45_elements : forall A S, lawful A S -> forall mag_up, mag_up_ok mag_up -> forall garb carb rho (p : par A) (x y : elem A), standard S p x -> standard S p y ->
  enclosing_balls S garb carb rho x -> enclosing_balls S garb carb rho y -> equal x y = Ok true ->
  forall hash, (forall a b, arf_eqb a b = true -> hash a = hash b) -> forall n m h h', elem_hash mag_up garb carb hash n x = Some h -> elem_hash mag_up garb carb hash m y = Some h' -> h = h'.
Proof.
  intros A S L mag_up Hm garb carb rho p x y Hx Hy Ex Ey Eq hash Hh n m h h' H1 H2. unfold elem_hash in *.
  destruct (elem_double mag_up garb carb n x) as [d|] eqn:D1; [|discriminate]. destruct (elem_double mag_up garb carb m y) as [d'|] eqn:D2; [|discriminate]. injection H1 as <-. injection H2 as <-. apply Hh, arf_eqb_spec.
  assert (Zx := standard_no_zero A S p x Hx). assert (Zy := standard_no_zero A S p y Hy). apply (equal_value A S L x y true (proj1 Hx) (proj1 Hy) Zx Zy) in Eq. assert (V := proj1 Eq eq_refl). clear Eq.
  assert (T : to_rational x = to_rational y).
  { destruct (to_rational x) as [q|] eqn:Tx.
    - symmetry. apply (to_rational_spec A S L y q (proj1 Hy) Zy). intros r. rewrite <- V. apply (to_rational_sound A S L x q (proj1 Hx) Tx).
    - destruct (to_rational y) as [q|] eqn:Ty; [|reflexivity]. rewrite <- Tx. apply (to_rational_spec A S L x q (proj1 Hx) Zx). intros r. rewrite V. apply (to_rational_sound A S L y q (proj1 Hy) Ty). }
  destruct (to_rational x) as [q|] eqn:Tx.
  - unfold elem_double in D1, D2. rewrite Tx in D1. rewrite <- T in D2. congruence.
  - rewrite (C44_irrational A S L mag_up Hm garb carb rho x (proj1 Hx) Ex Tx n d D1), (C44_irrational A S L mag_up Hm garb carb rho y (proj1 Hy) Ey (eq_sym T) m d' D2), V. reflexivity.
Qed.
