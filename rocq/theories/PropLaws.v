(** Property C102: the identities that test/element.test.cc:130-500 checks for a few elements, for all elements. *)
From Coq Require Import ZArith QArith Qcanon Bool List Reals Qreals Lra Lia.
From Verif Require Import Gen SpecGen GenProofs Ring SpecRing RingProofs Module Element SpecModule ModuleProofs ElementProofs Independence
  ElementProofs2 ElementProofs3 Leading Division DivisionProofs SpecLoops PropModule PropElement PropDivision.
Import ListNotations.
Open Scope R_scope.

Section Proofs.
  Variable A : ring.
  Variable S : semantics A.
  Hypothesis L : lawful A S.
  Implicit Types x y z w u : elem A.
  Implicit Types p : par A.

  (** The integers and, in a field, the rational numbers are in the ring. *)
  Lemma ring_natural p (n : nat) : exists c, mem S p c /\ val S c = INR n.
  Proof.
    induction n as [|n (c & Mc & Vc)]; [exists (czero A); exact (L_zero A S L p)|]. exists (cadd c (cone A)).
    destruct (L_add A S L p c (cone A) Mc (proj1 (L_one A S L p))) as [M V]. split; [exact M|]. rewrite V, Vc, (val_one A S L), S_INR. reflexivity.
  Qed.
  Lemma ring_integer p (n : Z) : exists c, mem S p c /\ val S c = IZR n.
  Proof.
    destruct (Z_le_gt_dec 0 n) as [P|N].
    - destruct (ring_natural p (Z.to_nat n)) as (c & Mc & Vc). exists c. split; [exact Mc|]. rewrite Vc, INR_IZR_INZ, Z2Nat.id by exact P. reflexivity.
    - destruct (ring_natural p (Z.to_nat (- n))) as (c & Mc & Vc). exists (copp c). destruct (L_opp A S L p c Mc) as [M V]. split; [exact M|].
      rewrite V, Vc, INR_IZR_INZ, Z2Nat.id, <- opp_IZR by lia. f_equal. lia.
  Qed.
  Lemma field_rational p (q : Qc) : isField A = true -> exists c, mem S p c /\ val S c = Q2R q.
  Proof.
    intros F. destruct (ring_integer p (Qnum q)) as (n & Mn & Vn). destruct (ring_integer p (Z.pos (Qden q))) as (d & Md & Vd).
    destruct (L_field A S L F p d Md) as (i & Mi & Vi). { rewrite Vd. apply not_0_IZR. discriminate. }
    destruct (L_mul A S L p n i Mn Mi) as [M V]. exists (cmul n i). split; [exact M|]. rewrite V, Vn. unfold Q2R. rewrite Vd in Vi.
    f_equal. apply (Rmult_eq_reg_r (IZR (Z.pos (Qden q)))); [|apply not_0_IZR; discriminate]. rewrite Vi. symmetry. apply Rinv_l. apply not_0_IZR. discriminate.
  Qed.
  Lemma field_inverse p c : isField A = true -> mem S p c -> val S c <> 0 -> exists i, mem S p i /\ val S i = / val S c.
  Proof.
    intros F M N. destruct (L_field A S L F p c M N) as (i & Mi & Vi). exists i. split; [exact Mi|]. apply (Rmult_eq_reg_r (val S c)); [|exact N]. rewrite Vi. symmetry. apply Rinv_l, N.
  Qed.
  (** Multiplication by a scalar that is in the ring succeeds. *)
  Lemma smul_in_ring p x s : standard S p x -> smem S p s -> (exists c, mem S p c /\ val S c = sval S s) ->
    exists z, smul x s = Ok z /\ standard S p z /\ emodule z = emodule x /\ forall rho, value S rho z = value S rho x * sval S s.
  Proof.
    intros Hx Hs (c & Mc & Vc). pose proof (proj1 (proj2 Hx)) as Rx. assert (Hs' : smem S (mring (emodule x)) s) by (rewrite Rx; exact Hs).
    assert (T : exists z, smul x s = Ok z).
    { unfold smul, imul_elem. destruct (scale_total A (fun d => imul d s) (fun d => imul_left d s) (coeffs x)) as [ds E]; [|rewrite E; cbn; eauto].
      intros d I. assert (Md : mem S p d) by (rewrite <- Rx; apply (proj1 (Forall_forall _ _) (proj2 (proj2 (proj1 Hx))) d I)).
      pose proof (L_imul A S L p d s Md Hs) as X. destruct (imul d s) as [d'|e]; [eauto|]. exfalso. apply X. exists (cmul d c). destruct (L_mul A S L p d c Md Mc) as [M V]. split; [exact M|]. rewrite V, Vc. reflexivity. }
    destruct T as [z E]. exists z. split; [exact E|]. destruct (smul_spec A S L x s z (proj1 Hx) Hs' E) as (Wz & Mz & Vz). split; [|split; [exact Mz|exact Vz]].
    split; [exact Wz|]. rewrite Mz. exact (proj2 Hx).
  Qed.
  Lemma sdiv_in_ring p x s : standard S p x -> smem S p s -> sval S s <> 0 -> (exists c, mem S p c /\ val S c = / sval S s) ->
    exists z, sdiv x s = Ok z /\ standard S p z /\ emodule z = emodule x /\ forall rho, value S rho z = value S rho x / sval S s.
  Proof.
    intros Hx Hs Ns (c & Mc & Vc). pose proof (proj1 (proj2 Hx)) as Rx. assert (Hs' : smem S (mring (emodule x)) s) by (rewrite Rx; exact Hs).
    assert (T : exists z, sdiv x s = Ok z).
    { unfold sdiv, idiv_elem. destruct (scale_total A (fun d => idiv d s) (fun d => idiv_left d s) (coeffs x)) as [ds E]; [|rewrite E; cbn; eauto].
      intros d I. assert (Md : mem S p d) by (rewrite <- Rx; apply (proj1 (Forall_forall _ _) (proj2 (proj2 (proj1 Hx))) d I)).
      pose proof (L_idiv A S L p d s Md Hs) as X. destruct (idiv d s) as [d'|e]; [eauto|]. exfalso. destruct X as [_ [X|X]]; [contradiction|]. apply X.
      exists (cmul d c). destruct (L_mul A S L p d c Md Mc) as [M V]. split; [exact M|]. rewrite V, Vc. reflexivity. }
    destruct T as [z E]. exists z. split; [exact E|]. destruct (sdiv_spec A S L x s z (proj1 Hx) Hs' Ns E) as (Wz & Mz & Vz). split; [|split; [exact Mz|exact Vz]].
    split; [exact Wz|]. rewrite Mz. exact (proj2 Hx).
  Qed.
  (** Elements of the same module with the same value are identical. *)
  Lemma value_determines p x y : standard S p x -> standard S p y -> emodule x = emodule y -> (forall rho, value S rho x = value S rho y) -> x = y.
  Proof. intros Hx Hy M V. apply (value_inj A S L x y (proj1 Hx) (proj1 Hy) M (standard_no_zero A S p x Hx) V). Qed.
  (** A nonzero element is one whose value is not constantly zero. *)
  Lemma nonzero_iff p x : standard S p x -> (nonzero x = true <-> exists rho, value S rho x <> 0).
  Proof. intros Hx. apply (nonzero_value A S L x (proj1 Hx) (standard_no_zero A S p x Hx)). Qed.
  Lemma zero_iff p x : standard S p x -> (nonzero x = false <-> forall rho, value S rho x = 0).
  Proof.
    intros Hx. split; intros H; [intros rho; rewrite (value_evalv A S rho x); apply (evalv_nonzero_false A S L _ x H)|].
    destruct (nonzero x) eqn:N; [|reflexivity]. apply (nonzero_iff p x Hx) in N. destruct N as [rho N]. exfalso. apply N, H.
  Qed.
  (** There are no zero divisors. *)
  Lemma product_zero p x y : standard S p x -> standard S p y -> (forall rho, value S rho x * value S rho y = 0) -> nonzero x = false \/ nonzero y = false.
  Proof.
    intros Hx Hy V. destruct (nonzero x) eqn:Nx; [|left; reflexivity]. destruct (nonzero y) eqn:Ny; [|right; reflexivity]. exfalso.
    destruct (top_exists A S L x (proj1 Hx) Nx) as (g & c & T). destruct (top_exists A S L y (proj1 Hy) Ny) as (h & b & T').
    destruct (top_mem A S L x g c (proj1 Hx) T) as (Wg & Ig & _ & Nc). destruct (top_mem A S L y h b (proj1 Hy) T') as (Wh & Ih & _ & Nb).
    destruct (standard_gmul A S p x y g h Hx Hy Ig Ih) as (_ & _ & k & K).
    destruct (product_coefficient A S L p x y g c h b k Hx Hy T T' K []) as [P _]; [constructor| |].
    - intros rho. cbn. symmetry. apply V.
    - cbn in P. symmetry in P. apply Rmult_integral in P. destruct P; contradiction.
  Qed.
  Lemma same_result p x z : standard S p x -> standard S p z -> (forall rho, value S rho z = value S rho x) -> same (Ok z) (Ok x).
  Proof. intros Hx Hz V. apply (std_same A S L p z x Hz Hx V); reflexivity. Qed.
  Lemma same_values p x z : standard S p x -> standard S p z -> same (Ok z) (Ok x) -> forall rho, value S rho z = value S rho x.
  Proof.
    intros Hx Hz (a & b & [= <-] & [= <-] & E). apply (equal_value A S L z x true (proj1 Hz) (proj1 Hx) (standard_no_zero A S p z Hz) (standard_no_zero A S p x Hx) E). reflexivity.
  Qed.
  (** If there is a quotient, then the division returns it from some number of steps on. *)
  Lemma quotient_found p x y w : standard S p x -> standard S p y -> standard S p w -> nonzero y = true -> (forall rho, value S rho w * value S rho y = value S rho x) ->
    exists z, eventually (fun fuel => truediv fuel x y) (Ok (Some z)) /\ standard S p z /\ (forall rho, value S rho z = value S rho w).
  Proof.
    intros Hx Hy Hw Ny V. destruct (std_mul A S L p w y Hw Hy) as (t & Et & Ht & Vt).
    assert (E : same (mul w y) (Ok x)) by (apply (std_same A S L p t x Ht Hx); [intros rho; rewrite Vt; apply V|exact Et|reflexivity]).
    destruct (C28_terminates A S L p x y Hx Hy Ny) as (n & res & R).
    destruct (C28_complete A S L p x y w n (Ok res) Hx Hy Hw Ny E (R n (le_n n))) as (z & Ez & Sz). injection Ez as ->.
    destruct (C28_sound A S L p x y z n Hx Hy (R n (le_n n))) as (Hz & _ & _). exists z. split; [exists n; exact R|]. split; [exact Hz|]. apply (same_values p w z Hw Hz Sz).
  Qed.
End Proofs.

(** * Scalars *)
(** 2 x = x + x, 0 x = x - x = 0, (-1) x = -x, 1 x = x, x / 1 = x, exactly (the same coefficients in the same module), for both types of scalars. *)
Theorem C102_scalars : forall A S, lawful A S -> forall (p : par A) (x : elem A), standard S p x ->
  (exists z, smul x (SZ 2) = Ok z /\ smul x (SQ (Q2Qc 2)) = Ok z /\ add x x = Ok z) /\
  (smul x (SZ 0) = Ok (zero_of (emodule x)) /\ smul x (SQ (Q2Qc 0)) = Ok (zero_of (emodule x)) /\ sub x x = Ok (zero_of (emodule x))) /\
  (smul x (SZ (-1)) = Ok (opp x) /\ smul x (SQ (Q2Qc (-1))) = Ok (opp x)) /\
  (smul x (SZ 1) = Ok x /\ smul x (SQ (Q2Qc 1)) = Ok x /\ sdiv x (SZ 1) = Ok x /\ sdiv x (SQ (Q2Qc 1)) = Ok x) /\
  (sdiv x (SQ (Q2Qc (1 # 2))) = smul x (SZ 2)).
Proof.
  intros A S L p x Hx. pose proof (standard_no_zero A S p x Hx) as NZ.
  assert (Q2 : Q2R (Q2Qc 2) = 2) by (rewrite Q2R_Q2Qc; unfold Q2R; cbn; field).
  assert (Q0 : Q2R (Q2Qc 0) = 0) by (rewrite Q2R_Q2Qc; unfold Q2R; cbn; field).
  assert (Q1 : Q2R (Q2Qc 1) = 1) by (rewrite Q2R_Q2Qc; unfold Q2R; cbn; field).
  assert (Qm : Q2R (Q2Qc (-1)) = -1) by (rewrite Q2R_Q2Qc; unfold Q2R; cbn; field).
  assert (Qh : Q2R (Q2Qc (1 # 2)) = / 2) by (rewrite Q2R_Q2Qc; unfold Q2R; cbn; field).
  assert (M : forall s z, smem S p s -> standard S p z -> emodule z = emodule x -> (forall rho, value S rho z = value S rho x * sval S s) -> smul x s = Ok z).
  { intros s z Hs Hz Mz V. apply (C34_multiply_complete A S L x s z (proj1 Hx)); [rewrite (proj1 (proj2 Hx)); exact Hs|exact NZ|exact (proj1 Hz)|exact Mz|exact V]. }
  assert (D : forall s z, smem S p s -> sval S s <> 0 -> standard S p z -> emodule z = emodule x -> (forall rho, value S rho z = value S rho x / sval S s) -> sdiv x s = Ok z).
  { intros s z Hs Ns Hz Mz V. apply (C34_divide_complete A S L x s z (proj1 Hx)); [rewrite (proj1 (proj2 Hx)); exact Hs|exact NZ|exact Ns|exact (proj1 Hz)|exact Mz|exact V]. }
  destruct (C22_double A S L x (proj1 Hx)) as (d & Ed & Md & Vd). destruct (std_add A S L p x x Hx Hx) as (d' & Ed' & Hd & _). assert (d' = d) as -> by congruence.
  destruct (std_zero A S L p x Hx) as [Hz Vz]. destruct (std_opp A S L p x Hx) as [Ho Vo].
  destruct (std_sub A S L p x x Hx Hx) as (e & Ee & He & Ve).
  assert (E2 : smul x (SZ 2) = Ok d) by (apply M; [exact I|exact Hd|exact Md|intros rho; rewrite Vd; cbn [sval]; ring]).
  split; [exists d; split; [exact E2|split; [|exact Ed]]; apply M; [exact I|exact Hd|exact Md|intros rho; rewrite Vd; cbn [sval]; rewrite Q2; ring]|].
  split.
  { split; [apply M; [exact I|exact Hz|reflexivity|intros rho; rewrite Vz; cbn [sval]; ring]|].
    split; [apply M; [exact I|exact Hz|reflexivity|intros rho; rewrite Vz; cbn [sval]; rewrite Q0; ring]|].
    rewrite Ee. f_equal. apply (value_determines A S L p); [exact He|exact Hz| |intros rho; rewrite Ve, Vz; ring].
    unfold sub, add, common in Ee. change (emodule (opp x)) with (emodule x) in Ee. rewrite (module_eqb_refl A S L) in Ee. injection Ee as <-. reflexivity. }
  split; [split; (apply M; [exact I|exact Ho|reflexivity|intros rho; rewrite Vo; cbn [sval]; rewrite ?Qm; ring])|].
  split.
  { split; [apply M; [exact I|exact Hx|reflexivity|intros rho; cbn [sval]; ring]|].
    split; [apply M; [exact I|exact Hx|reflexivity|intros rho; cbn [sval]; rewrite Q1; ring]|].
    split; [apply D; [exact I|cbn [sval]; lra|exact Hx|reflexivity|intros rho; cbn [sval]; field]|].
    apply D; [exact I|cbn [sval]; lra|exact Hx|reflexivity|intros rho; cbn [sval]; rewrite Q1; field]. }
  rewrite E2. apply D; [exact I|cbn [sval]; lra|exact Hd|exact Md|intros rho; rewrite Vd; cbn [sval]; rewrite Qh; field].
Qed.
(** Multiplication with an integer never throws; with a rational number and division by any nonzero scalar does not throw over a field. *)
Theorem C102_scalars_total : forall A S, lawful A S -> forall (p : par A) (x : elem A) s, standard S p x -> smem S p s ->
  ((exists n, s = SZ n) \/ (exists c, s = SE c) \/ isField A = true -> exists z, smul x s = Ok z /\ forall rho, value S rho z = value S rho x * sval S s) /\
  (isField A = true -> sval S s <> 0 -> exists z, sdiv x s = Ok z /\ forall rho, value S rho z = value S rho x / sval S s).
Proof.
  intros A S L p x s Hx Hs. split.
  - intros H. assert (K : exists c, mem S p c /\ val S c = sval S s).
    { destruct s as [n|q|c]; [exact (ring_integer A S L p n)| |exists c; split; [exact Hs|reflexivity]].
      apply (field_rational A S L p q). destruct H as [[n H]|[[c H]|H]]; try discriminate. exact H. }
    destruct (smul_in_ring A S L p x s Hx Hs K) as (z & E & _ & _ & V). exists z. split; [exact E|exact V].
  - intros F Ns. assert (K : exists c, mem S p c /\ val S c = / sval S s).
    { assert (C : exists c, mem S p c /\ val S c = sval S s).
      { destruct s as [n|q|c]; [exact (ring_integer A S L p n)|exact (field_rational A S L p q F)|exists c; split; [exact Hs|reflexivity]]. }
      destruct C as (c & Mc & Vc). rewrite <- Vc. apply (field_inverse A S L p c F Mc). rewrite Vc. exact Ns. }
    destruct (sdiv_in_ring A S L p x s Hx Hs Ns K) as (z & E & _ & _ & V). exists z. split; [exact E|exact V].
Qed.

(** * Cancellation *)
Theorem C102_cancel : forall A S, lawful A S -> forall (p : par A) (x y : elem A), standard S p x -> standard S p y ->
  same (bind (add x y) (fun s => sub s y)) (Ok x) /\ same (bind (add y x) (fun s => sub s y)) (Ok x) /\ same (bind (sub x y) (fun s => add s y)) (Ok x) /\
  same (Ok (opp (opp x))) (Ok x) /\ same (sub x y) (bind (sub y x) (fun s => Ok (opp s))).
Proof.
  intros A S L p x y Hx Hy. destruct (std_add A S L p x y Hx Hy) as (a & Ea & Ha & Va). destruct (std_add A S L p y x Hy Hx) as (b & Eb & Hb & Vb).
  destruct (std_sub A S L p x y Hx Hy) as (c & Ec & Hc & Vc). destruct (std_sub A S L p y x Hy Hx) as (d & Ed & Hd & Vd).
  destruct (std_sub A S L p a y Ha Hy) as (a' & Ea' & Ha' & Va'). destruct (std_sub A S L p b y Hb Hy) as (b' & Eb' & Hb' & Vb'). destruct (std_add A S L p c y Hc Hy) as (c' & Ec' & Hc' & Vc').
  destruct (std_opp A S L p x Hx) as [Ho Vo]. destruct (std_opp A S L p _ Ho) as [Hoo Voo]. destruct (std_opp A S L p d Hd) as [Hod Vod].
  rewrite Ea, Eb, Ec, Ed. cbn [bind].
  split; [apply (std_same A S L p a' x Ha' Hx); [intros rho; rewrite Va', Va; ring|exact Ea'|reflexivity]|].
  split; [apply (std_same A S L p b' x Hb' Hx); [intros rho; rewrite Vb', Vb; ring|exact Eb'|reflexivity]|].
  split; [apply (std_same A S L p c' x Hc' Hx); [intros rho; rewrite Vc', Vc; ring|exact Ec'|reflexivity]|].
  split; [apply (same_result A S L p); [exact Hx|exact Hoo|intros rho; rewrite Voo, Vo; ring]|].
  apply (same_result A S L p); [exact Hod|exact Hc|intros rho; rewrite Vod, Vc, Vd; ring].
Qed.

(** * Products *)
(** A product is zero only if a factor is; one can cancel a nonzero factor; x x = x only for 0 and 1. *)
Theorem C102_domain : forall A S, lawful A S -> forall (p : par A) (x y t : elem A), standard S p x -> standard S p y -> mul x y = Ok t ->
  (nonzero t = true <-> nonzero x = true /\ nonzero y = true).
Proof.
  intros A S L p x y t Hx Hy E. destruct (std_mul A S L p x y Hx Hy) as (t' & Et & Ht & Vt). assert (t' = t) as -> by congruence.
  split.
  - intros N. apply (nonzero_iff A S L p t Ht) in N. destruct N as [rho N]. rewrite Vt in N. split; [apply (nonzero_iff A S L p x Hx)|apply (nonzero_iff A S L p y Hy)]; exists rho; intros F; apply N; rewrite F; ring.
  - intros [Nx Ny]. destruct (nonzero t) eqn:N; [reflexivity|]. pose proof (proj1 (zero_iff A S L p t Ht) N) as Z.
    destruct (product_zero A S L p x y Hx Hy) as [F|F]; [intros rho; rewrite <- Vt; apply Z|congruence|congruence].
Qed.
Theorem C102_cancel_factor : forall A S, lawful A S -> forall (p : par A) (x y z : elem A), standard S p x -> standard S p y -> standard S p z -> nonzero z = true ->
  (same (mul x z) (mul y z) <-> same (Ok x) (Ok y)).
Proof.
  intros A S L p x y z Hx Hy Hz N. destruct (std_mul A S L p x z Hx Hz) as (a & Ea & Ha & Va). destruct (std_mul A S L p y z Hy Hz) as (b & Eb & Hb & Vb). rewrite Ea, Eb. split; intros H.
  - pose proof (same_values A S L p b a Hb Ha H) as V. destruct (std_sub A S L p x y Hx Hy) as (d & _ & Hd & Vd).
    destruct (product_zero A S L p d z Hd Hz) as [F|F]; [| |congruence].
    { intros rho. rewrite Vd. specialize (V rho). rewrite Va, Vb in V. lra. }
    apply (same_result A S L p y x Hy Hx). intros rho. pose proof (proj1 (zero_iff A S L p d Hd) F rho) as Z. rewrite Vd in Z. lra.
  - pose proof (same_values A S L p y x Hy Hx H) as V. apply (same_result A S L p b a Hb Ha). intros rho. rewrite Va, Vb, V. reflexivity.
Qed.
Theorem C102_idempotent : forall A S, lawful A S -> forall (p : par A) (x : elem A), standard S p x ->
  (same (mul x x) (Ok x) <-> eq_integer x 0 = true \/ eq_integer x 1 = true).
Proof.
  intros A S L p x Hx. destruct (std_mul A S L p x x Hx Hx) as (a & Ea & Ha & Va). rewrite Ea. rewrite (eq_integer_standard A S L p x 0 Hx), (eq_integer_standard A S L p x 1 Hx). split; intros H.
  - pose proof (same_values A S L p x a Hx Ha H) as V.
    destruct (of_value_standard A S p (cone A) (proj1 (L_one A S L p))) as (u & _ & Hu & Vu). destruct (std_sub A S L p x u Hx Hu) as (d & _ & Hd & Vd).
    destruct (product_zero A S L p x d Hx Hd) as [F|F].
    + intros rho. rewrite Vd, Vu, (val_one A S L). specialize (V rho). rewrite Va in V. lra.
    + left. apply (zero_iff A S L p x Hx), F.
    + right. intros rho. pose proof (proj1 (zero_iff A S L p d Hd) F rho) as Z. rewrite Vd, Vu, (val_one A S L) in Z. lra.
  - apply (same_result A S L p x a Hx Ha). intros rho. rewrite Va. destruct H as [H|H]; rewrite H; ring.
Qed.

(** * Division *)
Definition quotient_is {A} (x y w : elem A) : Prop := exists z, eventually (fun fuel => truediv fuel x y) (Ok (Some z)) /\ same (Ok z) (Ok w).
Theorem C102_division : forall A S, lawful A S -> forall (p : par A) (x y u t : elem A), standard S p x -> standard S p y -> of_value p (cone A) = Ok u ->
  (nonzero y = true -> mul x y = Ok t -> quotient_is t y x) /\
  (quotient_is x u x) /\
  (nonzero x = true -> quotient_is x x u) /\
  (nonzero x = true -> mul x x = Ok t -> quotient_is t x x) /\
  (forall a b, add x u = Ok a -> sub x u = Ok b -> nonzero b = true -> mul a b = Ok t -> quotient_is t b a) /\
  (forall n, nonzero x = true -> smul x (SZ n) = Ok t -> exists z, eventually (fun fuel => truediv fuel t x) (Ok (Some z)) /\ eq_integer z n = true).
Proof.
  intros A S L p x y u t Hx Hy Eu. destruct (of_value_standard A S p (cone A) (proj1 (L_one A S L p))) as (u' & Eu' & Hu & Vu). assert (u' = u) as -> by congruence.
  assert (Vu1 : forall rho, value S rho u = 1) by (intros rho; rewrite Vu; apply (val_one A S L)).
  assert (Q : forall a b w, standard S p a -> standard S p b -> standard S p w -> nonzero b = true -> (forall rho, value S rho w * value S rho b = value S rho a) -> quotient_is a b w).
  { intros a b w Ha Hb Hw Nb V. destruct (quotient_found A S L p a b w Ha Hb Hw Nb V) as (z & E & Hz & Vz). exists z. split; [exact E|]. apply (same_result A S L p w z Hw Hz Vz). }
  assert (P : forall a b c, standard S p a -> standard S p b -> mul a b = Ok c -> standard S p c /\ forall rho, value S rho c = value S rho a * value S rho b).
  { intros a b c Ha Hb E. destruct (std_mul A S L p a b Ha Hb) as (c' & Ec & Hc & Vc). assert (c' = c) as -> by congruence. split; assumption. }
  split; [intros N E; destruct (P x y t Hx Hy E) as [Ht Vt]; apply Q; try assumption; intros rho; rewrite Vt; reflexivity|].
  split; [apply Q; try assumption; [apply (nonzero_iff A S L p u Hu); exists (fun _ => 0); rewrite Vu1; lra|intros rho; rewrite Vu1; ring]|].
  split; [intros N; apply Q; try assumption; intros rho; rewrite Vu1; ring|].
  split; [intros N E; destruct (P x x t Hx Hx E) as [Ht Vt]; apply Q; try assumption; intros rho; rewrite Vt; reflexivity|].
  split.
  - intros a b Ea Eb N E. destruct (std_add A S L p x u Hx Hu) as (a' & Ea' & Ha & Va). assert (a' = a) as -> by congruence. destruct (std_sub A S L p x u Hx Hu) as (b' & Eb' & Hb & Vb). assert (b' = b) as -> by congruence.
    destruct (P a b t Ha Hb E) as [Ht Vt]. apply Q; try assumption. intros rho. rewrite Vt. reflexivity.
  - intros n N E. destruct (smul_in_ring A S L p x (SZ n) Hx I (ring_integer A S L p n)) as (t' & Et & Ht & _ & Vt). assert (t' = t) as -> by congruence.
    destruct (ring_integer A S L p n) as (c & Mc & Vc). destruct (of_value_standard A S p c Mc) as (w & _ & Hw & Vw).
    destruct (quotient_found A S L p t x w Ht Hx Hw N) as (z & Ez & Hz & Vz); [intros rho; rewrite Vt, Vw, Vc; cbn [sval]; ring|].
    exists z. split; [exact Ez|]. apply (eq_integer_standard A S L p z n Hz). intros rho. rewrite Vz, Vw. exact Vc.
Qed.
(** Where all indeterminates are 1, elements over the integers have integer values. *)
Lemma integer_at_one (x : elem int_ring) : standard int_sem tt x -> exists k, value int_sem (fun _ => 1) x = IZR k.
Proof.
  intros Hx. unfold value. pose proof (proj2 (proj2 Hx)) as G. revert G. generalize (coeffs x) (basis (emodule x)). clear Hx. intros cs gs. revert cs. induction gs as [|g gs IH]; intros [|c cs] G; cbn [combination]; try (exists 0%Z; reflexivity).
  destruct (IH cs (fun q H => G q (or_intror H))) as [k E]. rewrite E.
  assert (V : gen_val (fun _ => 1) g = 1).
  { destruct g as [q|i|ms]; cbn [gen_val]; [rewrite (G q (or_introl eq_refl)); unfold Q2R; cbn; field|reflexivity|]. induction ms as [|[i e] ms IHm]; cbn; [reflexivity|]. rewrite pow1, IHm. ring. intros q H. apply G. destruct H as [H|H]; [discriminate|right; exact H]. }
  rewrite V. exists (c + k)%Z. rewrite plus_IZR. cbn. ring.
Qed.
(** Over the integers 3 x is not divisible by 2 x; in general n x is divisible by m x exactly if n is divisible by m. *)
Theorem C102_integer_multiples : forall (x a b : elem int_ring) n m, standard int_sem tt x -> nonzero x = true -> m <> 0%Z -> smul x (SZ n) = Ok a -> smul x (SZ m) = Ok b ->
  (Z.divide m n -> exists z, eventually (fun fuel => truediv fuel a b) (Ok (Some z)) /\ eq_integer z (n / m) = true) /\
  (~ Z.divide m n -> eventually (fun fuel => truediv fuel a b) (Ok None)).
Proof.
  intros x a b n m Hx N Nm Ea Eb. pose proof int_lawful as L.
  destruct (smul_in_ring _ _ L tt x (SZ n) Hx I (ring_integer _ _ L tt n)) as (a' & Ea' & Ha & _ & Va). assert (a' = a) as -> by congruence.
  destruct (smul_in_ring _ _ L tt x (SZ m) Hx I (ring_integer _ _ L tt m)) as (b' & Eb' & Hb & _ & Vb). assert (b' = b) as -> by congruence. cbn [sval] in Va, Vb.
  assert (Nb : nonzero b = true).
  { apply (nonzero_iff _ _ L tt x Hx) in N. destruct N as [rho N]. apply (nonzero_iff _ _ L tt b Hb). exists rho. rewrite Vb. apply Rmult_integral_contrapositive_currified; [exact N|apply not_0_IZR, Nm]. }
  split.
  - intros [k ->]. rewrite Z.div_mul by exact Nm. destruct (of_value_standard _ int_sem tt k Logic.I) as (w & _ & Hw & Vw).
    destruct (quotient_found _ _ L tt a b w Ha Hb Hw Nb) as (z & Ez & Hz & Vz); [intros rho; rewrite Va, Vb, Vw, mult_IZR; cbn; ring|].
    exists z. split; [exact Ez|]. apply (eq_integer_standard _ _ L tt z k Hz). intros rho. rewrite Vz. apply Vw.
  - intros D. destruct (C28_terminates _ _ L tt a b Ha Hb Nb) as (k & [z|] & R); [|exists k; exact R]. exfalso. apply D.
    destruct (C28_sound _ _ L tt a b z k Ha Hb (R k (le_n k))) as (Hz & Vz & _).
    (* z m = n *)
    destruct (smul_in_ring _ _ L tt z (SZ m) Hz I (ring_integer _ _ L tt m)) as (c & Ec & Hc & Mc & Vc).
    destruct (of_value_standard _ int_sem tt n Logic.I) as (w & _ & Hw & Vw). destruct (std_sub _ _ L tt c w Hc Hw) as (d & _ & Hd & Vd).
    destruct (product_zero _ _ L tt d x Hd Hx) as [F|F]; [| |congruence].
    { intros rho. rewrite Vd, Vc, Vw. cbn. specialize (Vz rho). rewrite Va, Vb in Vz. lra. }
    pose proof (proj1 (zero_iff _ _ L tt d Hd) F (fun _ => 1)) as Z. rewrite Vd, Vw, Vc in Z. cbn [sval val int_sem] in Z.
    destruct (integer_at_one z Hz) as [k' Vk]. rewrite Vk, <- mult_IZR in Z. exists k'. apply eq_IZR. lra.
Qed.

(** * Simplification *)
Theorem C102_simplify : forall A S, lawful A S -> forall (p : par A) (x y t d : elem A), standard S p x -> standard S p y -> mul x y = Ok t -> sub t t = Ok d ->
  exists z, simplify d = Ok z /\ rank (emodule z) = 0%nat.
Proof.
  intros A S L p x y t d Hx Hy E F. destruct (std_mul A S L p x y Hx Hy) as (t' & Et & Ht & _). assert (t' = t) as -> by congruence.
  destruct (C102_scalars A S L p t Ht) as (_ & (_ & _ & D) & _). rewrite D in F. injection F as <-.
  destruct (std_zero A S L p t Ht) as [Hz _]. destruct (C33_simplify A S L _ (proj1 Hz)) as (z & Ez & Wz & _ & _ & G & _). exists z. split; [exact Ez|].
  unfold rank. destruct (basis (emodule z)) as [|g gs]; [reflexivity|]. exfalso. destruct (proj1 (G g) (or_introl eq_refl)) as (c & I & N). apply N.
  apply in_combine_r in I. unfold zero_of in I. cbn in I. apply repeat_spec in I. exact I.
Qed.

(** * Units *)
(** Over the integers the units are 1 and -1; over a field they are the nonzero constants. *)
Theorem C102_units : forall x : elem int_ring, standard int_sem tt x -> is_unit x = (eq_integer x 1 || eq_integer x (-1))%bool.
Proof.
  intros x Hx. pose proof int_lawful as L. apply eq_true_iff_eq. rewrite orb_true_iff, (eq_integer_standard _ _ L tt x 1 Hx), (eq_integer_standard _ _ L tt x (-1) Hx). split.
  - intros U. destruct (C30_sound _ _ L tt x Hx U) as (y & Hy & V).
    (* a unit is constant *)
    assert (C : exists k, forall rho, value int_sem rho x = IZR k).
    { unfold is_unit in U. destruct (nonzero x) eqn:N; [|discriminate]. cbn [negb] in U. rewrite (unit_loop_spec _ _ L) in U. destruct (top_exists _ _ L x (proj1 Hx) N) as (g & c & T).
      destruct (U g c (proj1 T) (proj1 (proj2 T))) as [Rg _]. destruct (top_mem _ _ L x g c (proj1 Hx) T) as (_ & Ig & _ & _). destruct g as [q| |]; try contradiction. pose proof (proj2 (proj2 Hx) q Ig) as E. subst q.
      exists c. intros rho. rewrite (value_evalv _ int_sem rho x). unfold evalv. rewrite (comb_single _ _ L _ _ _ (GRat 1) c); [|apply ascending_NoDup, Hx|apply T|].
      - cbn [gen_val val int_sem]. replace (Q2R (this (Q2Qc 1))) with 1 by (unfold Q2R; cbn; field). apply Rmult_1_r.
      - intros g' c' I' D. apply Classical_Prop.NNPP. intros N'. destruct (U g' c' I' N') as [R' _]. destruct g' as [q'| |]; try contradiction.
        apply D. f_equal. apply (proj2 (proj2 Hx)). apply in_combine_l in I'. exact I'. }
    destruct C as [k C]. destruct (integer_at_one y Hy) as [l El]. pose proof (V (fun _ => 1)) as E. rewrite C, El, <- mult_IZR in E. apply eq_IZR in E.
    destruct (Z.eq_mul_1 k l E) as [K|K]; subst k; [left|right]; exact C.
  - intros H. apply (C30_complete _ _ L tt x x Hx Hx). intros rho. destruct H as [H|H]; rewrite H; lra.
Qed.
Theorem C102_units_field : forall A S, lawful A S -> isField A = true -> forall (p : par A) (x : elem A), standard S p x ->
  (is_unit x = true <-> exists c, mem S p c /\ val S c <> 0 /\ forall rho, value S rho x = val S c).
Proof.
  intros A S L F p x Hx. split.
  - intros U. unfold is_unit in U. destruct (nonzero x) eqn:N; [|discriminate]. cbn [negb] in U. rewrite (unit_loop_spec _ _ L) in U. destruct (top_exists _ _ L x (proj1 Hx) N) as (g & c & T).
    destruct (U g c (proj1 T) (proj1 (proj2 T))) as [Rg _]. destruct (top_mem _ _ L x g c (proj1 Hx) T) as (_ & Ig & Mc & Nc). destruct g as [q| |]; try contradiction. pose proof (proj2 (proj2 Hx) q Ig) as E. subst q.
    exists c. split; [rewrite <- (proj1 (proj2 Hx)); exact Mc|]. split; [exact Nc|]. intros rho. rewrite (value_evalv _ S rho x). unfold evalv. rewrite (comb_single _ _ L _ _ _ (GRat 1) c); [|apply ascending_NoDup, Hx|apply T|].
    + cbn [gen_val]. replace (Q2R (this (Q2Qc 1))) with 1 by (unfold Q2R; cbn; field). apply Rmult_1_r.
    + intros g' c' I' D. apply Classical_Prop.NNPP. intros N'. destruct (U g' c' I' N') as [R' _]. destruct g' as [q'| |]; try contradiction.
      apply D. f_equal. apply (proj2 (proj2 Hx)). apply in_combine_l in I'. exact I'.
  - intros (c & Mc & Nc & V). destruct (field_inverse A S L p c F Mc Nc) as (i & Mi & Vi). destruct (of_value_standard A S p i Mi) as (w & _ & Hw & Vw).
    apply (C30_complete A S L p x w Hx Hw). intros rho. rewrite V, Vw, Vi. apply Rinv_r, Nc.
Qed.

(** * Examples *)
(** 7 (3 + 2 a + 5 a b) / (3 + 2 a + 5 a b) = 7, and it is not a multiple of 2 (3 + 2 a + 5 a b); the units. *)
Example C102_example : standard int_sem tt ex /\ nonzero ex = true /\ exists a b c z, smul ex (SZ 7) = Ok a /\ smul ex (SZ 2) = Ok b /\ smul ex (SZ 14) = Ok c /\
  truediv 10 a ex = Some (Ok (Some z)) /\ eq_integer z 7 = true /\ truediv 10 a b = Some (Ok None) /\
  eventually (fun fuel => truediv fuel a b) (Ok None) /\ (exists w, eventually (fun fuel => truediv fuel c b) (Ok (Some w)) /\ eq_integer w 7 = true) /\
  is_unit ex = false /\ exists t d r, mul ex ey = Ok t /\ nonzero t = true /\ sub t t = Ok d /\ (rank (emodule d) > rank (emodule ex))%nat /\ simplify d = Ok r /\ rank (emodule r) = 0%nat.
Proof.
  split; [exact ex_standard|]. split; [reflexivity|]. do 4 eexists. split; [vm_compute; reflexivity|]. split; [vm_compute; reflexivity|]. split; [vm_compute; reflexivity|].
  split; [vm_compute; reflexivity|]. split; [vm_compute; reflexivity|]. split; [vm_compute; reflexivity|].
  split; [|split].
  - apply (proj2 (C102_integer_multiples ex _ _ 7 2 ex_standard eq_refl ltac:(lia) eq_refl eq_refl)). intros [k K]. lia.
  - apply (proj1 (C102_integer_multiples ex _ _ 14 2 ex_standard eq_refl ltac:(lia) eq_refl eq_refl)). exists 7%Z. reflexivity.
  - split; [reflexivity|]. do 3 eexists. split; [vm_compute; reflexivity|]. split; [vm_compute; reflexivity|]. split; [vm_compute; reflexivity|]. split; [vm_compute; lia|]. split; vm_compute; reflexivity.
Qed.
