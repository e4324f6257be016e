(** Property C70: what unit() answers for any rational generator of the module. *)
From Coq Require Import ZArith QArith Qcanon Bool List Reals Qreals Lra Lia.
From Verif Require Import Gen SpecGen GenProofs Ring SpecRing RingProofs Module Element SpecModule ModuleProofs ElementProofs Independence
  ElementProofs2 ElementProofs3 Leading PropModule PropElement PropLaws.
Import ListNotations.
Open Scope R_scope.

Section Proofs.
  Variable A : ring.
  Variable S : semantics A.
  Hypothesis L : lawful A S.
  Implicit Types x y u : elem A.
  Implicit Types c d : car A.
  Implicit Types p : par A.

  (** A constant has no coefficient at an indeterminate or at a product. *)
  Lemma constant_rational x (k : R) g c : elem_wf S x -> (forall rho, value S rho x = k) -> In (g, c) (combine (basis (emodule x)) (coeffs x)) -> c <> czero A -> rational g.
  Proof.
    intros Hx V I N. destruct g as [q| |] eqn:Eg; [exact Logic.I| |]; exfalso; apply N; rewrite <- Eg in *;
      (pose proof (rlist_wf A S x Hx) as Rx; pose proof Hx as ([Wx Ax] & Lx & Mx);
       assert (Wg : gen_wf g) by (apply in_combine_l in I; apply (proj1 (Forall_forall _ _) Wx g I));
       assert (Hc : mem S (mring (emodule x)) c) by (apply in_combine_r in I; apply (proj1 (Forall_forall _ _) Mx c I));
       pose proof (rcoef_in A S _ _ g c Ax I) as C;
       assert (U : rcoef (rlist A S x) g = rcoef [(k, GRat 1)] g);
       [apply rcoef_unique; [exact Rx|constructor; [exact Logic.I|constructor]| |exact Wg]; intros rho; rewrite rlist_value, V; cbn; unfold Q2R; cbn; field|];
       change (rl A S (basis (emodule x)) (coeffs x)) with (rlist A S x) in C; rewrite C in U; cbn [rcoef] in U;
       rewrite Eg in U; cbn in U; apply (val_zero_iff A S L _ c Hc); lra).
  Qed.
  (** There is at most one coefficient at a rational generator. *)
  Lemma one_rational x g c h d : elem_wf S x -> rational g -> rational h -> In (g, c) (combine (basis (emodule x)) (coeffs x)) -> In (h, d) (combine (basis (emodule x)) (coeffs x)) -> g = h.
  Proof.
    intros Hx Rg Rh Ig Ih. pose proof (ascending_compatible _ (proj2 (proj1 Hx))) as C. apply compatible_nodup in C. apply (proj2 C); try assumption; [exact (in_combine_l _ _ _ _ Ig)|exact (in_combine_l _ _ _ _ Ih)].
  Qed.
  Lemma same_place x g c d : elem_wf S x -> In (g, c) (combine (basis (emodule x)) (coeffs x)) -> In (g, d) (combine (basis (emodule x)) (coeffs x)) -> c = d.
  Proof.
    intros Hx Ic Id. pose proof (ascending_NoDup _ (proj2 (proj1 Hx))) as D.
    assert (K : val S c = val S d). { rewrite <- (comb_indicator_in A S _ _ g c D Ic). apply (comb_indicator_in A S _ _ g d D Id). }
    pose proof (proj2 (proj2 Hx)) as Mx. rewrite Forall_forall in Mx.
    apply (L_inj A S L (mring (emodule x))); [apply Mx, (in_combine_r _ _ _ _ Ic)|apply Mx, (in_combine_r _ _ _ _ Id)|exact K].
  Qed.
  Lemma single_value x g c rho : elem_wf S x -> In (g, c) (combine (basis (emodule x)) (coeffs x)) ->
    (forall g' c', In (g', c') (combine (basis (emodule x)) (coeffs x)) -> c' <> czero A -> g' = g) -> value S rho x = val S c * gen_val rho g.
  Proof.
    intros Hx I H. rewrite (value_evalv A S rho x). unfold evalv. apply (comb_single A S L _ _ _ g c); [apply ascending_NoDup, Hx|exact I|].
    intros g' c' I' D. apply Classical_Prop.NNPP. intros N'. apply D. exact (H g' c' I' N').
  Qed.
  Lemma unit_exactly x : elem_wf S x -> no_zero_gen (basis (emodule x)) ->
    (is_unit x = true <-> exists q c d, In (GRat q) (basis (emodule x)) /\ mem S (mring (emodule x)) c /\ mem S (mring (emodule x)) d /\
      val S c * val S d = 1 /\ forall rho, value S rho x = val S c * Q2R q).
  Proof.
    intros Hx Z. split.
    - intros U. unfold is_unit in U. destruct (nonzero x) eqn:N; [|discriminate]. cbn [negb] in U. rewrite (unit_loop_spec A S L) in U.
      destruct (top_exists A S L x Hx N) as (g & c & T). destruct (U g c (proj1 T) (proj1 (proj2 T))) as [Rg Uc].
      destruct (top_mem A S L x g c Hx T) as (_ & Ig & Mc & _). apply (L_unit A S L _ c Mc) in Uc. destruct Uc as (d & Md & E).
      destruct g as [q| |]; try contradiction. exists q, c, d. split; [exact Ig|]. split; [exact Mc|]. split; [exact Md|]. split; [exact E|].
      intros rho. apply (single_value x (GRat q) c rho Hx (proj1 T)). intros g' c' I' N'. destruct (U g' c' I' N') as [R' _].
      exact (one_rational x g' c' (GRat q) c Hx R' Rg I' (proj1 T)).
    - intros (q & c & d & Iq & Mc & Md & E & V).
      assert (Nq : Q2R q <> 0). { intros F. apply Z. rewrite <- (lead_zero (GRat q) F). exact Iq. }
      assert (Nc : val S c <> 0) by (intros F; rewrite F in E; lra).
      (* the coefficient at q *)
      assert (K : exists c', In (GRat q, c') (combine (basis (emodule x)) (coeffs x))).
      { pose proof (proj1 (proj2 Hx)) as Lx. clear - Iq Lx. revert Iq Lx. generalize (basis (emodule x)) (coeffs x). induction l as [|h l IH]; intros [|a cs] I Hl; try discriminate; [destruct I|].
        destruct I as [->|I]; [exists a; left; reflexivity|]. destruct (IH cs I) as [c' K]; [cbn in Hl; lia|]. exists c'. right. exact K. }
      destruct K as [c' K].
      assert (H : forall g'' c'', In (g'', c'') (combine (basis (emodule x)) (coeffs x)) -> c'' <> czero A -> g'' = GRat q).
      { intros g'' c'' I'' N''. apply (one_rational x g'' c'' (GRat q) c' Hx); [exact (constant_rational x _ g'' c'' Hx V I'' N'')|exact Logic.I|exact I''|exact K]. }
      assert (Mc' : mem S (mring (emodule x)) c') by (pose proof (proj2 (proj2 Hx)) as Mx; rewrite Forall_forall in Mx; exact (Mx _ (in_combine_r _ _ _ _ K))).
      assert (Ec : c' = c).
      { apply (L_inj A S L (mring (emodule x))); try assumption. apply (Rmult_eq_reg_r (Q2R q)); [|exact Nq]. rewrite <- (V (fun _ => 0)).
        symmetry. exact (single_value x (GRat q) c' (fun _ => 0) Hx K H). }
      subst c'. unfold is_unit. assert (N : nonzero x = true).
      { apply (nonzero_true A S L). exists c. split; [exact (in_combine_r _ _ _ _ K)|]. intros ->. apply Nc, (val_zero A S L). }
      rewrite N. cbn [negb]. apply (unit_loop_spec A S L). intros g'' c'' I'' N''. pose proof (H g'' c'' I'' N'') as ->. split; [exact Logic.I|].
      rewrite (same_place x (GRat q) c'' c Hx I'' K). apply (L_unit A S L _ c Mc). exists d. split; assumption.
  Qed.
  Lemma nonzero_value_nonzero x k : elem_wf S x -> (forall rho, value S rho x = k) -> k <> 0 -> nonzero x = true.
  Proof.
    intros Hx V N. destruct (nonzero x) eqn:E; [reflexivity|]. exfalso. apply N. rewrite <- (V (fun _ => 0)), (value_evalv A S _ x). apply (evalv_nonzero_false A S L _ x E).
  Qed.
  Lemma unit_constant x : isField A = true -> elem_wf S x -> no_zero_gen (basis (emodule x)) -> (is_unit x = true <-> exists k, k <> 0 /\ forall rho, value S rho x = k).
  Proof.
    intros F Hx Z. rewrite (unit_exactly x Hx Z). split.
    - intros (q & c & d & Iq & Mc & Md & E & V). exists (val S c * Q2R q). split; [|exact V]. intros K. apply Rmult_integral in K. destruct K as [K|K].
      + rewrite K in E. lra.
      + apply Z. rewrite <- (lead_zero (GRat q) K). exact Iq.
    - intros (k & Nk & V). pose proof (nonzero_value_nonzero x k Hx V Nk) as N. destruct (top_exists A S L x Hx N) as (g & c & T).
      pose proof (constant_rational x k g c Hx V (proj1 T) (proj1 (proj2 T))) as Rg. destruct (top_mem A S L x g c Hx T) as (_ & Ig & Mc & Nc).
      destruct g as [q| |]; try contradiction. destruct (L_field A S L F _ c Mc Nc) as (d & Md & E). exists q, c, d.
      split; [exact Ig|]. split; [exact Mc|]. split; [exact Md|]. split; [rewrite Rmult_comm; exact E|].
      intros rho. apply (single_value x (GRat q) c rho Hx (proj1 T)). intros g' c' I' N'. apply (one_rational x g' c' (GRat q) c Hx); [|exact Logic.I|exact I'|exact (proj1 T)].
      exact (constant_rational x k g' c' Hx V I' N').
  Qed.

  (** Over a field there is an element with the same value whose only rational generator is 1. *)
  Definition normal (g : gen) : gen := match g with GRat _ => GRat 1 | _ => g end.
  Lemma normal_precedes g h : precedes g h -> precedes (normal g) (normal h).
  Proof. destruct g, h; exact (fun H => H). Qed.
  Lemma normal_ascending l : ascending l -> ascending (map normal l).
  Proof.
    induction l as [|g l IH]; [exact (fun H => H)|]. intros [H1 H2]. split; [|exact (IH H2)]. intros h Ih. apply in_map_iff in Ih. destruct Ih as (h' & <- & Ih). exact (normal_precedes g h' (H1 h' Ih)).
  Qed.
  Lemma normal_coefficients p gs : isField A = true -> forall cs, length cs = length gs -> Forall (mem S p) cs ->
    exists ds, length ds = length gs /\ Forall (mem S p) ds /\ forall rho, combination S rho (map normal gs) ds = combination S rho gs cs.
  Proof.
    intros F. induction gs as [|g gs IH]; intros [|c cs] Hl M; try discriminate; [exists []; repeat split; constructor|].
    inversion M as [|? ? Mc M']; subst. destruct (IH cs) as (ds & Ld & Md & V); [cbn in Hl; lia|exact M'|].
    destruct g as [q|i|ms].
    - destruct (field_rational A S L p q F) as (e & Me & Ve). destruct (L_mul A S L p c e Mc Me) as [M1 V1]. exists (cmul c e :: ds).
      split; [cbn; lia|]. split; [constructor; assumption|]. intros rho. cbn [map normal combination gen_val]. rewrite V, V1, Ve. replace (Q2R (this 1%Qc)) with 1 by (unfold Q2R; cbn; field). ring.
    - exists (c :: ds). split; [cbn; lia|]. split; [constructor; assumption|]. intros rho. cbn [map normal combination]. rewrite V. reflexivity.
    - exists (c :: ds). split; [cbn; lia|]. split; [constructor; assumption|]. intros rho. cbn [map normal combination]. rewrite V. reflexivity.
  Qed.
  Lemma normal_element x : isField A = true -> elem_wf S x -> exists x', standard S (mring (emodule x)) x' /\ forall rho, value S rho x' = value S rho x.
  Proof.
    intros F ([W Asc] & Lx & Mx). destruct (normal_coefficients (mring (emodule x)) (basis (emodule x)) F (coeffs x) Lx Mx) as (ds & Ld & Md & V).
    exists (mkElem (mkModule (map normal (basis (emodule x))) (mring (emodule x))) ds). split; [|exact V]. split; [split; [split|split]|split].
    - cbn. apply Forall_forall. intros g Ig. apply in_map_iff in Ig. destruct Ig as (h & <- & Ih). rewrite Forall_forall in W. specialize (W h Ih). destruct h; [exact Logic.I|exact W|exact W].
    - exact (normal_ascending _ Asc).
    - cbn. rewrite map_length. exact Ld.
    - exact Md.
    - reflexivity.
    - cbn. intros q Iq. apply in_map_iff in Iq. destruct Iq as (h & E & _). destruct h; cbn in E; [|discriminate|discriminate]. congruence.
  Qed.
  Lemma unit_field x : isField A = true -> elem_wf S x -> no_zero_gen (basis (emodule x)) ->
    (is_unit x = true <-> exists y, elem_wf S y /\ mring (emodule y) = mring (emodule x) /\ forall rho, value S rho x * value S rho y = 1).
  Proof.
    intros F Hx Z. destruct (normal_element x F Hx) as (x' & Hx' & Vx). split.
    - intros U. assert (U' : is_unit x' = true).
      { apply (C102_units_field A S L F _ x' Hx'). apply (unit_exactly x Hx Z) in U. destruct U as (q & c & d & Iq & Mc & Md & E & V).
        destruct (field_rational A S L (mring (emodule x)) q F) as (e & Me & Ve). destruct (L_mul A S L _ c e Mc Me) as [M1 V1]. exists (cmul c e). split; [exact M1|]. split.
        - rewrite V1, Ve. intros K. apply Rmult_integral in K. destruct K as [K|K]; [rewrite K in E; lra|]. apply Z. rewrite <- (lead_zero (GRat q) K). exact Iq.
        - intros rho. rewrite Vx, V, V1, Ve. reflexivity. }
      destruct (C30_sound A S L _ x' Hx' U') as (y & Hy & V). exists y. split; [exact (proj1 Hy)|]. split; [exact (proj1 (proj2 Hy))|]. intros rho. rewrite <- Vx. apply V.
    - intros (y & Hy & Ry & V). destruct (normal_element y F Hy) as (y' & Hy' & Vy). rewrite Ry in Hy'.
      assert (U' : is_unit x' = true). { apply (C30_complete A S L _ x' y' Hx' Hy'). intros rho. rewrite Vx, Vy. apply V. }
      apply (unit_constant x F Hx Z). apply (C102_units_field A S L F _ x' Hx') in U'. destruct U' as (c & Mc & Nc & Vc). exists (val S c). split; [exact Nc|].
      intros rho. rewrite <- Vx. apply Vc.
  Qed.
End Proofs.

(** * C70 *)
(** Over a field (rational numbers and number fields) unit() decides invertibility in every module: x is a unit
    if some element has a product 1 with x, and exactly if x is a constant other than 0. *)
Theorem C70_field_partial : forall A S, lawful A S -> isField A = true -> forall (x : elem A), elem_wf S x -> no_zero_gen (basis (emodule x)) ->
  (is_unit x = true <-> exists y : elem A, elem_wf S y /\ mring (emodule y) = mring (emodule x) /\ forall rho, value S rho x * value S rho y = 1) /\
  (is_unit x = true <-> exists k, k <> 0 /\ forall rho, value S rho x = k).
Proof. intros A S L F x Hx Z. split; [exact (unit_field A S L x F Hx Z)|exact (unit_constant A S L x F Hx Z)]. Qed.
(** Over any ring unit() says whether x is a unit of the ring times the rational generator of the module. *)
Theorem C70_exactly_partial : forall A S, lawful A S -> forall (x : elem A), elem_wf S x -> no_zero_gen (basis (emodule x)) ->
  (is_unit x = true <-> exists q c d, In (GRat q) (basis (emodule x)) /\ mem S (mring (emodule x)) c /\ mem S (mring (emodule x)) d /\
    val S c * val S d = 1 /\ forall rho, value S rho x = val S c * Q2R q).
Proof. exact unit_exactly. Qed.
(** Over the integers: exactly the generator itself and its negative. *)
Theorem C70_integers_partial : forall x : elem int_ring, elem_wf int_sem x -> no_zero_gen (basis (emodule x)) ->
  (is_unit x = true <-> exists q, In (GRat q) (basis (emodule x)) /\ ((forall rho, value int_sem rho x = Q2R q) \/ (forall rho, value int_sem rho x = - Q2R q))).
Proof.
  intros x Hx Z. rewrite (unit_exactly _ _ int_lawful x Hx Z). split.
  - intros (q & c & d & Iq & _ & _ & E & V). exists q. split; [exact Iq|]. cbn [val int_sem] in *. rewrite <- mult_IZR in E. apply eq_IZR in E.
    destruct (Z.eq_mul_1 c d E) as [K|K]; subst c; [left|right]; intros rho; rewrite V; first [change (1 * Q2R q = Q2R q)|change (-1 * Q2R q = - Q2R q)]; ring.
  - intros (q & Iq & [V|V]); [exists q, 1%Z, 1%Z|exists q, (-1)%Z, (-1)%Z]; (split; [exact Iq|]; split; [exact Logic.I|]; split; [exact Logic.I|]; cbn [val int_sem]; split; [lra|]; intros rho; rewrite V; lra).
Qed.
(** 1 * (2) is a unit over the rational numbers, also in the model: the hypotheses are met. *)
Definition half_of_two : elem rat_ring := mkElem (A := rat_ring) (mkModule (A := rat_ring) [GRat (Q2Qc 2); GAtom 0] tt) [Q2Qc (1 # 2); Q2Qc 0].
Example C70_field_case : elem_wf rat_sem half_of_two /\ no_zero_gen (basis (emodule half_of_two)) /\ is_unit half_of_two = true /\
  is_unit (mkElem (A := rat_ring) (mkModule (A := rat_ring) [GRat (Q2Qc 2); GAtom 0] tt) [Q2Qc (1 # 2); Q2Qc 1]) = false.
Proof.
  split; [|split; [|split; reflexivity]].
  - split; [|split; [reflexivity|repeat constructor]]. cbn [emodule half_of_two]. module_ok.
  - cbn. intros [H|[H|[]]]; discriminate.
Qed.
