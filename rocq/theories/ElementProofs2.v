(** Equality of elements as equality of values, ring laws, promotion. *)
From Coq Require Import ZArith QArith Qcanon Bool List Reals Qreals Permutation Lra Lia.
From Verif Require Import Gen SpecGen GenProofs Ring SpecRing RingProofs Module Element SpecModule ModuleProofs ElementProofs Independence.
Import ListNotations.
Open Scope R_scope.

Lemma precedes_same_mono g h : precedes g h -> same_mono g h = false /\ same_mono h g = false.
Proof.
  intros H. unfold same_mono.
  assert (g <> h) as N by (intros ->; apply (precedes_irrefl h H)).
  assert (is_rational g && is_rational h = false) as R.
  { destruct H as [[_ B]|[B _]]; destruct g, h; try reflexivity; exfalso; apply B; exact I. }
  rewrite (andb_comm (is_rational h)), R. split; apply gen_eqb_neq; congruence.
Qed.
Lemma same_mono_refl g : same_mono g g = true.
Proof. unfold same_mono. rewrite gen_eqb_refl. apply orb_true_r. Qed.
Lemma lead_zero g : lead g = 0 -> g = GRat 0%Qc.
Proof. destruct g as [q|i|ms]; cbn; intros H; try lra. f_equal. apply Q2R_Qc_inj. rewrite H. symmetry. apply Q2R_Qc_0. Qed.

Lemma in_dec_gen (g : gen) l : In g l \/ ~ In g l.
Proof. destruct (has_gen l g) eqn:E; [left; apply has_gen_spec, E|right; rewrite <- has_gen_spec; congruence]. Qed.

Section Proofs.
  Variable A : ring.
  Variable S : semantics A.
  Hypothesis L : lawful A S.
  Implicit Types M N : module A.
  Implicit Types x y z : elem A.
  Implicit Types c d : car A.
  Implicit Types cs ds : list (car A).
  Implicit Types p : par A.

  (** * Coefficients of monomials *)
  Fixpoint rl (gs : list gen) cs : list (R * gen) :=
    match gs, cs with g :: gs', c :: cs' => (val S c, g) :: rl gs' cs' | _, _ => [] end.
  Definition rlist x := rl (basis (emodule x)) (coeffs x).
  Lemma rl_value rho gs cs : rcomb rho (rl gs cs) = combination S rho gs cs.
  Proof. revert cs. induction gs as [|g gs IH]; intros [|c cs]; cbn; try reflexivity. rewrite IH. reflexivity. Qed.
  Lemma rlist_value rho x : rcomb rho (rlist x) = value S rho x.
  Proof. apply rl_value. Qed.
  Lemma rl_gens gs cs : length cs = length gs -> map snd (rl gs cs) = gs.
  Proof. revert cs. induction gs as [|g gs IH]; intros [|c cs] H; try discriminate; cbn; [reflexivity|]. rewrite IH; [reflexivity|]. cbn in H. lia. Qed.
  Lemma rlist_wf x : elem_wf S x -> Forall gen_wf (map snd (rlist x)).
  Proof. intros ([W _] & Hl & _). unfold rlist. rewrite rl_gens by exact Hl. exact W. Qed.
  Lemma rcoef_absent gs cs k : (forall g, In g gs -> same_mono g k = false) -> rcoef (rl gs cs) k = 0.
  Proof.
    revert cs. induction gs as [|g gs IH]; intros [|c cs] H; cbn; try reflexivity. rewrite (H g (or_introl eq_refl)), IH; [ring|].
    intros h Hh. apply H. right. exact Hh.
  Qed.
  Lemma rcoef_head g gs c cs : ascending (g :: gs) -> rcoef (rl (g :: gs) (c :: cs)) g = val S c * lead g.
  Proof.
    intros [H _]. cbn. rewrite same_mono_refl, rcoef_absent; [ring|]. intros h Hh. apply precedes_same_mono, H, Hh.
  Qed.
  Lemma rcoef_tail g gs c cs k : ascending (g :: gs) -> In k gs -> rcoef (rl (g :: gs) (c :: cs)) k = rcoef (rl gs cs) k.
  Proof. intros [H _] I. cbn. destruct (precedes_same_mono g k (H k I)) as [-> _]. ring. Qed.
  Lemma rcoef_in gs : forall cs g c, ascending gs -> In (g, c) (combine gs cs) -> rcoef (rl gs cs) g = val S c * lead g.
  Proof.
    induction gs as [|h gs IH]; intros [|d cs] g c Ha I; cbn in I; try contradiction. destruct I as [E|I].
    - injection E as -> ->. apply rcoef_head, Ha.
    - rewrite rcoef_tail; [|exact Ha|apply in_combine_l in I; exact I]. apply IH; [apply Ha|exact I].
  Qed.
  Lemma rl_inj gs : forall cs ds, ascending gs -> length cs = length gs -> length ds = length gs -> no_zero_gen gs ->
    (forall g, In g gs -> rcoef (rl gs cs) g = rcoef (rl gs ds) g) -> Forall2 (fun c d => val S c = val S d) cs ds.
  Proof.
    induction gs as [|g gs IH]; intros [|c cs] [|d ds] Ha Hc Hd Z H; try discriminate; [constructor|].
    constructor.
    - specialize (H g (or_introl eq_refl)). rewrite !rcoef_head in H by exact Ha. apply (Rmult_eq_reg_r (lead g)); [exact H|].
      intros E. apply Z. left. apply lead_zero, E.
    - apply IH; [apply Ha|cbn in Hc; lia|cbn in Hd; lia|intros I; apply Z; right; exact I|].
      intros h Hh. specialize (H h (or_intror Hh)). rewrite !rcoef_tail in H by assumption. exact H.
  Qed.
  Lemma Forall2_val_inj p cs ds : Forall (mem S p) cs -> Forall (mem S p) ds -> Forall2 (fun c d => val S c = val S d) cs ds -> cs = ds.
  Proof.
    intros Hc Hd F. induction F as [|c d cs ds E F IH]; [reflexivity|]. inversion Hc; subst. inversion Hd; subst.
    f_equal; [apply (L_inj A S L p); assumption|auto].
  Qed.
  Lemma value_inj x y : elem_wf S x -> elem_wf S y -> emodule x = emodule y -> no_zero_gen (basis (emodule x)) ->
    (forall rho, value S rho x = value S rho y) -> x = y.
  Proof.
    intros Hx Hy E Z H. pose proof (rlist_wf x Hx) as Rx. pose proof (rlist_wf y Hy) as Ry.
    destruct Hx as ([Wx Ax] & Lx & Mx), Hy as ([Wy Ay] & Ly & My).
    assert (coeffs x = coeffs y) as C.
    { apply (Forall2_val_inj (mring (emodule x))); [exact Mx|rewrite E; exact My|].
      apply (rl_inj (basis (emodule x))); [exact Ax|exact Lx|rewrite E; exact Ly|exact Z|].
      intros g Hg. change (rcoef (rlist x) g = rcoef (rl (basis (emodule x)) (coeffs y)) g). rewrite E.
      change (rcoef (rlist x) g = rcoef (rlist y) g). apply rcoef_unique; [exact Rx|exact Ry| |apply (proj1 (Forall_forall _ _) Wx g Hg)].
      intros rho. rewrite !rlist_value. apply H. }
    destruct x, y. cbn in *. congruence.
  Qed.

  (** * Equality *)
  Lemma common_value x y x' y' : elem_wf S x -> elem_wf S y -> common x y = Ok (x', y') ->
    (forall rho, value S rho x' = value S rho x) /\ (forall rho, value S rho y' = value S rho y).
  Proof.
    intros Hx Hy H. destruct (common_spec A S L x y x' y' Hx Hy H) as (_ & _ & _ & _ & V1 & V2).
    split; intros rho; rewrite !value_evalv; auto.
  Qed.
  Lemma equal_value x y b : elem_wf S x -> elem_wf S y -> no_zero_gen (basis (emodule x)) -> no_zero_gen (basis (emodule y)) ->
    equal x y = Ok b -> (b = true <-> forall rho, value S rho x = value S rho y).
  Proof.
    intros Hx Hy Zx Zy H. split.
    - intros B rho. apply (equal_spec A S L x y b Hx Hy H) with (v := gen_val rho) in B. rewrite !value_evalv. exact B.
    - intros V. unfold equal in H. destruct (common x y) as [[x' y']|] eqn:E; [|discriminate]. injection H as <-.
      destruct (common_spec A S L x y x' y' Hx Hy E) as (A1 & A2 & A3 & A4 & _). destruct (common_value x y x' y' Hx Hy E) as [V1 V2].
      apply (coeffs_eqb_spec A S L). assert (x' = y') as ->; [|reflexivity].
      apply value_inj; [exact A1|exact A2|exact A3| |intros rho; rewrite V1, V2; apply V].
      intros I. apply A4 in I. destruct I; [apply Zx|apply Zy]; assumption.
  Qed.
  Lemma equal_total x y : elem_wf S x -> elem_wf S y -> combinable (emodule x) (emodule y) -> exists b, equal x y = Ok b.
  Proof. intros Hx Hy C. unfold equal. destruct (common_succeeds A S L x y Hx Hy C) as (x' & y' & ->). cbn. eauto. Qed.
  Lemma equal_refl x : elem_wf S x -> equal x x = Ok true.
  Proof. intros Hx. unfold equal, common. rewrite (module_eqb_refl A S L). cbn. f_equal. apply (coeffs_eqb_spec A S L). reflexivity. Qed.
  Lemma equal_sym x y b b' : elem_wf S x -> elem_wf S y -> equal x y = Ok b -> equal y x = Ok b' -> b = b'.
  Proof.
    intros Hx Hy H H'. pose proof (equal_spec A S L x y b Hx Hy H) as E. pose proof (equal_spec A S L y x b' Hy Hx H') as E'.
    apply eq_true_iff_eq. rewrite E, E'. split; intros V v; symmetry; apply V.
  Qed.
  Lemma equal_trans x y z b : elem_wf S x -> elem_wf S y -> elem_wf S z -> equal x y = Ok true -> equal y z = Ok true -> equal x z = Ok b -> b = true.
  Proof.
    intros Hx Hy Hz H1 H2 H3. apply (equal_spec A S L x z b Hx Hz H3). intros v.
    rewrite (proj1 (equal_spec A S L x y true Hx Hy H1) eq_refl v). apply (equal_spec A S L y z true Hy Hz H2). reflexivity.
  Qed.
  Lemma zero_value M rho : value S rho (zero_of M) = 0.
  Proof. rewrite value_evalv. apply (zero_of_value A S L). Qed.
  Lemma nonzero_value x : elem_wf S x -> no_zero_gen (basis (emodule x)) -> (nonzero x = true <-> exists rho, value S rho x <> 0).
  Proof.
    intros Hx Z. split.
    - intros N. apply Classical_Pred_Type.not_all_not_ex. intros F.
      assert (x = zero_of (emodule x)) as E.
      { apply value_inj; [exact Hx|apply (zero_of_wf A S L), Hx|reflexivity|exact Z|]. intros rho. rewrite zero_value.
        destruct (Req_dec (value S rho x) 0) as [V|V]; [exact V|exfalso; exact (F rho V)]. }
      assert (nonzero x = false); [|congruence]. apply (nonzero_false A S L). rewrite E. cbn. apply Forall_repeat. reflexivity.
    - intros [rho V]. destruct (nonzero x) eqn:E; [reflexivity|]. exfalso. apply V. rewrite value_evalv. apply (evalv_nonzero_false A S L), E.
  Qed.

  (** * promote *)
  Lemma promote_value x M y : elem_wf S x -> module_wf M -> incl (basis (emodule x)) (basis M) -> promote x M = Ok y ->
    elem_wf S y /\ emodule y = M /\ forall rho, value S rho y = value S rho x.
  Proof.
    intros Hx HM I H. destruct (promote_spec A S L x M y Hx HM H) as (A1 & A2 & A3). split; [exact A1|]. split; [exact A2|].
    intros rho. rewrite !value_evalv. apply A3. apply incl_fits, I.
  Qed.
  Lemma promote_self x : promote x (emodule x) = Ok x.
  Proof. unfold promote. rewrite (module_eqb_refl A S L). reflexivity. Qed.
  Lemma in_combine_nth (gs : list gen) : forall cs g c, In (g, c) (combine gs cs) -> exists i, nth_error gs i = Some g /\ nth_error cs i = Some c.
  Proof.
    induction gs as [|h gs IH]; intros [|d cs] g c H; cbn in H; try contradiction. destruct H as [E|H].
    - injection E as -> ->. exists 0%nat. auto.
    - destruct (IH cs g c H) as [i Hi]. exists (Datatypes.S i). exact Hi.
  Qed.
  Lemma comb_fits v gs cs : comb A S v gs cs = pcomb A S v (combine gs cs).
  Proof. symmetry. apply pcomb_combine. Qed.
  (** Coefficients from values [v]: the coefficient at [g] is the value for the indicator of [g]. *)
  Lemma comb_indicator_in gs : forall cs g c, NoDup gs -> In (g, c) (combine gs cs) -> comb A S (fun h => if gen_eqb h g then 1 else 0) gs cs = val S c.
  Proof.
    induction gs as [|h gs IH]; intros [|d cs] g c N I; cbn in I; try contradiction. inversion N as [|? ? Nh N']; subst. cbn. destruct I as [E|I].
    - injection E as -> ->. rewrite gen_eqb_refl, comb_indicator by exact Nh. ring.
    - assert (gen_eqb h g = false) as -> by (apply gen_eqb_neq; intros ->; apply in_combine_l in I; contradiction). rewrite (IH cs g c N' I). ring.
  Qed.
  Lemma evalv_fits x y M : elem_wf S x -> elem_wf S y -> (forall v, evalv A S v x = evalv A S v y) -> fits A y M -> fits A x M.
  Proof.
    intros Hx Hy V F g c I Hc. destruct (in_dec_gen g (basis (emodule y))) as [D|D].
    - assert (exists d, In (g, d) (combine (basis (emodule y)) (coeffs y))) as [d Id].
      { apply In_nth_error in D. destruct D as [i D]. destruct Hy as (_ & Hl & _).
        destruct (nth_error (coeffs y) i) as [d|] eqn:Ed.
        - exists d. clear -D Ed. revert i D Ed. generalize (coeffs y). induction (basis (emodule y)) as [|h gs IH]; intros [|e cs] [|i] D Ed; cbn in *; try discriminate.
          + left. congruence. + right. apply (IH cs i); assumption.
        - exfalso. apply nth_error_None in Ed. assert (i < length (basis (emodule y)))%nat by (apply nth_error_Some; congruence). lia. }
      apply (F g d Id). intros ->. apply Hc.
      specialize (V (fun h => if gen_eqb h g then 1 else 0)). unfold evalv in V.
      rewrite (comb_indicator_in _ _ g c) in V; [|apply ascending_NoDup, Hx|exact I]. rewrite (comb_indicator_in _ _ g (czero A)) in V; [|apply ascending_NoDup, Hy|exact Id].
      rewrite (val_zero A S L) in V. apply (val_zero_iff A S L (mring (emodule x))); [|exact V].
      apply in_combine_r in I. destruct Hx as (_ & _ & Mx). apply (proj1 (Forall_forall _ _) Mx c I).
    - exfalso. apply Hc. specialize (V (fun h => if gen_eqb h g then 1 else 0)). unfold evalv in V.
      rewrite (comb_indicator_in _ _ g c) in V; [|apply ascending_NoDup, Hx|exact I]. rewrite comb_indicator in V by exact D.
      apply (val_zero_iff A S L (mring (emodule x))); [|exact V].
      apply in_combine_r in I. destruct Hx as (_ & _ & Mx). apply (proj1 (Forall_forall _ _) Mx c I).
  Qed.

  Lemma promote_up_and_back x M y : elem_wf S x -> module_wf M -> incl (basis (emodule x)) (basis M) -> mring M = mring (emodule x) ->
    promote x M = Ok y -> promote y (emodule x) = Ok x.
  Proof.
    intros Hx HM I R H. destruct (promote_spec A S L x M y Hx HM H) as (A1 & A2 & A3). specialize (A3 (incl_fits A x M I)).
    assert (F : fits A y (emodule x)) by (apply (evalv_fits y x (emodule x) A1 Hx A3), incl_fits, incl_refl).
    destruct (promote_succeeds A S L y (emodule x) A1 (proj1 Hx) F) as [x' Hx'].
    { intros c Hc. exists c. apply (L_coerce_mem A S L). rewrite A2, R in Hc. exact Hc. }
    rewrite Hx'. f_equal. destruct (promote_spec A S L y (emodule x) x' A1 (proj1 Hx) Hx') as (B1 & B2 & B3). specialize (B3 F).
    assert (coeffs x' = coeffs x) as C.
    { destruct B1 as ([_ Ax'] & Lx' & Mx'), Hx as ([_ Ax] & Lx & Mx). rewrite B2 in Lx', Mx'. apply (Forall2_val_inj (mring (emodule x))); [exact Mx'|exact Mx|].
      apply (comb_inj A S (basis (emodule x))); [apply ascending_NoDup, Ax|exact Lx'|exact Lx|]. intros v. specialize (B3 v). rewrite A3 in B3. unfold evalv in B3. rewrite B2 in B3. exact B3. }
    destruct x, x'. cbn in *. congruence.
  Qed.

  (** * The usual case: a fixed ring, the rational generator is 1 *)
  Lemma standard_no_zero p x : standard S p x -> no_zero_gen (basis (emodule x)).
  Proof. intros (_ & _ & H) I. specialize (H _ I). discriminate. Qed.
  Lemma standard_combinable p x y : standard S p x -> standard S p y -> combinable (emodule x) (emodule y).
  Proof.
    intros (_ & Rx & Qx) (_ & Ry & Qy). split; [|right; right; left; congruence].
    intros [q|i|ms] [r|j|ns] Hg Hh Rg Rh; try contradiction. rewrite (Qx q Hg), (Qy r Hh). reflexivity.
  Qed.
  Lemma common_ring p x y x' y' : elem_wf S x -> elem_wf S y -> mring (emodule x) = p -> mring (emodule y) = p -> common x y = Ok (x', y') ->
    mring (emodule x') = p.
  Proof.
    intros Hx Hy Rx Ry H. unfold common in H. destruct (module_eqb _ _); [injection H as <- <-; exact Rx|].
    destruct (span _ _) as [M|] eqn:E; [|discriminate]. cbn in H. destruct (promote x M) as [x1|] eqn:Ex; [|discriminate]. cbn in H.
    destruct (promote y M) as [y1|] eqn:Ey; [|discriminate]. injection H as <- <-.
    destruct (span_spec A S L _ _ _ (proj1 Hx) (proj1 Hy) E) as (WM & R & _). destruct (promote_spec A S L x M x1 Hx WM Ex) as (_ & -> & _).
    unfold span_ring in R. destruct (basis (emodule x)); [congruence|]. destruct (basis (emodule y)); [congruence|]. destruct R as [[_ R]|[R _]]; congruence.
  Qed.
  Lemma std_equal p x y : standard S p x -> standard S p y -> (forall rho, value S rho x = value S rho y) -> equal x y = Ok true.
  Proof.
    intros Hx Hy V. destruct (equal_total x y (proj1 Hx) (proj1 Hy) (standard_combinable p x y Hx Hy)) as [b E]. rewrite E. f_equal.
    apply (equal_value x y b (proj1 Hx) (proj1 Hy) (standard_no_zero p x Hx) (standard_no_zero p y Hy) E), V.
  Qed.
  Lemma add_value x y z : elem_wf S x -> elem_wf S y -> add x y = Ok z -> elem_wf S z /\ forall rho, value S rho z = value S rho x + value S rho y.
  Proof.
    intros Hx Hy H. destruct (add_spec A S L x y z Hx Hy H) as (A1 & A2 & _). split; [exact A1|]. intros rho. rewrite !value_evalv. apply A2.
  Qed.
  Lemma opp_value x : elem_wf S x -> elem_wf S (opp x) /\ forall rho, value S rho (opp x) = - value S rho x.
  Proof. intros Hx. destruct (opp_spec A S L x Hx) as (A1 & A2). split; [exact A1|]. intros rho. rewrite !value_evalv. apply A2. Qed.
  Lemma sub_value x y z : elem_wf S x -> elem_wf S y -> sub x y = Ok z -> elem_wf S z /\ forall rho, value S rho z = value S rho x - value S rho y.
  Proof.
    intros Hx Hy H. destruct (sub_spec A S L x y z Hx Hy H) as (A1 & A2 & _). split; [exact A1|]. intros rho. rewrite !value_evalv. apply A2.
  Qed.
  Lemma mul_value x y z : elem_wf S x -> elem_wf S y -> mul x y = Ok z -> elem_wf S z /\ forall rho, value S rho z = value S rho x * value S rho y.
  Proof.
    intros Hx Hy H. destruct (mul_spec A S L x y z Hx Hy H) as (A1 & A2 & _). split; [exact A1|]. intros rho. rewrite !value_evalv. apply A2.
  Qed.
  Lemma std_add p x y : standard S p x -> standard S p y -> exists z, add x y = Ok z /\ standard S p z /\ forall rho, value S rho z = value S rho x + value S rho y.
  Proof.
    intros Hx Hy. destruct (add_succeeds A S L x y (proj1 Hx) (proj1 Hy) (standard_combinable p x y Hx Hy)) as [z E]. exists z. split; [exact E|].
    destruct (add_value x y z (proj1 Hx) (proj1 Hy) E) as [W V]. destruct (add_spec A S L x y z (proj1 Hx) (proj1 Hy) E) as (_ & _ & G).
    split; [|exact V]. split; [exact W|]. split.
    - unfold add in E. destruct (common x y) as [[x' y']|] eqn:C; [|discriminate]. injection E as <-. cbn.
      apply (common_ring p x y x' y' (proj1 Hx) (proj1 Hy)); [apply Hx|apply Hy|exact C].
    - intros q I. apply G in I. destruct I as [I|I]; [apply (proj2 (proj2 Hx)), I|apply (proj2 (proj2 Hy)), I].
  Qed.
  Lemma std_opp p x : standard S p x -> standard S p (opp x) /\ forall rho, value S rho (opp x) = - value S rho x.
  Proof. intros Hx. destruct (opp_value x (proj1 Hx)) as [W V]. split; [|exact V]. split; [exact W|exact (proj2 Hx)]. Qed.
  Lemma std_sub p x y : standard S p x -> standard S p y -> exists z, sub x y = Ok z /\ standard S p z /\ forall rho, value S rho z = value S rho x - value S rho y.
  Proof.
    intros Hx Hy. destruct (std_opp p y Hy) as [Ho Vo]. destruct (std_add p x (opp y) Hx Ho) as (z & E & W & V). exists z. split; [exact E|]. split; [exact W|].
    intros rho. rewrite V, Vo. ring.
  Qed.
  Lemma std_gen_mul p x y g h : standard S p x -> standard S p y -> In g (basis (emodule x)) -> In h (basis (emodule y)) -> exists k, gen_mul g h = Ok k.
  Proof.
    intros Hx Hy Ig Ih. destruct (gen_mul g h) as [k|e] eqn:E; [eauto|]. exfalso.
    destruct (proj1 (gen_mul_throws g h) (ex_intro _ e E)) as (q & Nq & [[-> _]|[-> _]]); apply Nq; [apply (proj2 (proj2 Hx)), Ig|apply (proj2 (proj2 Hy)), Ih].
  Qed.
  Lemma std_mul p x y : standard S p x -> standard S p y -> exists z, mul x y = Ok z /\ standard S p z /\ forall rho, value S rho z = value S rho x * value S rho y.
  Proof.
    intros Hx Hy. assert (R : mring (emodule x) = mring (emodule y)) by (destruct Hx as (_ & -> & _), Hy as (_ & -> & _); reflexivity).
    destruct (mul_succeeds A S L x y (proj1 Hx) (proj1 Hy) (or_introl R)) as [z E]; [intros g h; apply (std_gen_mul p x y g h Hx Hy)|].
    exists z. split; [exact E|]. destruct (mul_value x y z (proj1 Hx) (proj1 Hy) E) as [W V]. split; [|exact V].
    unfold mul in E. destruct (nonzero x); cbn [negb] in E; [|injection E as <-; exact Hx]. destruct (nonzero y); cbn [negb] in E; [|injection E as <-; exact Hy].
    assert (par_eqb (mring (emodule x)) (mring (emodule y)) = true) as P by (apply (L_par_eqb A S L), R). rewrite P in E.
    destruct (mul_same_spec A S L x y z (proj1 Hx) (proj1 Hy) R E) as (_ & Rz & _ & G). split; [exact W|]. split; [rewrite Rz; apply Hx|].
    intros q I. apply G in I. destruct I as (g & h & Ig & Ih & K).
    assert (Wg : gen_wf g) by (apply (proj1 (Forall_forall _ _) (proj1 (proj1 (proj1 Hx))) g Ig)).
    assert (Wh : gen_wf h) by (apply (proj1 (Forall_forall _ _) (proj1 (proj1 (proj1 Hy))) h Ih)).
    destruct (gen_mul_rational g h (GRat q) Wg Wh K Logic.I) as [Rg Rh]. destruct g as [q1| |], h as [q2| |]; try contradiction.
    apply (proj2 (proj2 Hx)) in Ig. apply (proj2 (proj2 Hy)) in Ih. subst. rewrite gen_mul_one in K. congruence.
  Qed.

  Lemma std_same p x y : standard S p x -> standard S p y -> (forall rho, value S rho x = value S rho y) -> forall l r, l = Ok x -> r = Ok y -> same l r.
  Proof. intros Hx Hy V l r El Er. exists x, y. split; [exact El|]. split; [exact Er|]. apply (std_equal p); assumption. Qed.

  Lemma law_add_comm p x y : standard S p x -> standard S p y -> same (add x y) (add y x).
  Proof.
    intros Hx Hy. destruct (std_add p x y Hx Hy) as (a & Ea & Ha & Va). destruct (std_add p y x Hy Hx) as (b & Eb & Hb & Vb).
    apply (std_same p a b Ha Hb); [|exact Ea|exact Eb]. intros rho. rewrite Va, Vb. ring.
  Qed.
  Lemma law_add_assoc p x y z : standard S p x -> standard S p y -> standard S p z ->
    same (bind (add x y) (fun s => add s z)) (bind (add y z) (fun s => add x s)).
  Proof.
    intros Hx Hy Hz. destruct (std_add p x y Hx Hy) as (a & Ea & Ha & Va). destruct (std_add p y z Hy Hz) as (b & Eb & Hb & Vb).
    destruct (std_add p a z Ha Hz) as (u & Eu & Hu & Vu). destruct (std_add p x b Hx Hb) as (w & Ew & Hw & Vw). rewrite Ea, Eb. cbn.
    apply (std_same p u w Hu Hw); [|exact Eu|exact Ew]. intros rho. rewrite Vu, Vw, Va, Vb. ring.
  Qed.
  Lemma law_add_zero p x y : standard S p x -> standard S p y -> nonzero y = false -> same (add x y) (Ok x).
  Proof.
    intros Hx Hy N. destruct (std_add p x y Hx Hy) as (a & Ea & Ha & Va).
    apply (std_same p a x Ha Hx); [|exact Ea|reflexivity]. intros rho. rewrite Va, (value_evalv A S rho y), (evalv_nonzero_false A S L _ y N). ring.
  Qed.
  Lemma law_add_opp p x : standard S p x -> exists z, add x (opp x) = Ok z /\ nonzero z = false.
  Proof.
    intros Hx. destruct (std_opp p x Hx) as [Ho Vo]. destruct (std_add p x (opp x) Hx Ho) as (a & Ea & Ha & Va). exists a. split; [exact Ea|].
    destruct (nonzero a) eqn:N; [|reflexivity]. exfalso. apply (nonzero_value a (proj1 Ha) (standard_no_zero p a Ha)) in N. destruct N as [rho N]. apply N. rewrite Va, Vo. ring.
  Qed.
  Lemma law_mul_comm p x y : standard S p x -> standard S p y -> same (mul x y) (mul y x).
  Proof.
    intros Hx Hy. destruct (std_mul p x y Hx Hy) as (a & Ea & Ha & Va). destruct (std_mul p y x Hy Hx) as (b & Eb & Hb & Vb).
    apply (std_same p a b Ha Hb); [|exact Ea|exact Eb]. intros rho. rewrite Va, Vb. ring.
  Qed.
  Lemma law_mul_assoc p x y z : standard S p x -> standard S p y -> standard S p z ->
    same (bind (mul x y) (fun s => mul s z)) (bind (mul y z) (fun s => mul x s)).
  Proof.
    intros Hx Hy Hz. destruct (std_mul p x y Hx Hy) as (a & Ea & Ha & Va). destruct (std_mul p y z Hy Hz) as (b & Eb & Hb & Vb).
    destruct (std_mul p a z Ha Hz) as (u & Eu & Hu & Vu). destruct (std_mul p x b Hx Hb) as (w & Ew & Hw & Vw). rewrite Ea, Eb. cbn.
    apply (std_same p u w Hu Hw); [|exact Eu|exact Ew]. intros rho. rewrite Vu, Vw, Va, Vb. ring.
  Qed.
  Lemma law_distributive p x y z : standard S p x -> standard S p y -> standard S p z ->
    same (bind (add y z) (fun s => mul x s)) (bind (mul x y) (fun a => bind (mul x z) (fun b => add a b))).
  Proof.
    intros Hx Hy Hz. destruct (std_add p y z Hy Hz) as (s & Es & Hs & Vs). destruct (std_mul p x s Hx Hs) as (l & El & Hl & Vl).
    destruct (std_mul p x y Hx Hy) as (a & Ea & Ha & Va). destruct (std_mul p x z Hx Hz) as (b & Eb & Hb & Vb). destruct (std_add p a b Ha Hb) as (r & Er & Hr & Vr).
    rewrite Es, Ea. cbn. rewrite Eb. cbn. apply (std_same p l r Hl Hr); [|exact El|exact Er]. intros rho. rewrite Vl, Vs, Vr, Va, Vb. ring.
  Qed.
  Lemma of_value_standard p c : mem S p c -> exists x, of_value p c = Ok x /\ standard S p x /\ forall rho, value S rho x = val S c.
  Proof.
    intros Hc. unfold of_value. cbn. eexists. split; [reflexivity|]. split.
    - split; [split; [split; [constructor; [exact Logic.I|constructor]|split; [intros ? []|exact Logic.I]]|split; [reflexivity|constructor; [exact Hc|constructor]]]|].
      split; [reflexivity|]. intros q [[= <-]|[]]. reflexivity.
    - intros rho. unfold value. cbn. unfold Q2R. cbn. field.
  Qed.
  Lemma law_mul_one p x u : standard S p x -> of_value p (cone A) = Ok u -> same (mul x u) (Ok x).
  Proof.
    intros Hx E. destruct (of_value_standard p (cone A) (proj1 (L_one A S L p))) as (u' & E' & Hu & Vu). assert (u' = u) as -> by congruence.
    destruct (std_mul p x u Hx Hu) as (a & Ea & Ha & Va). apply (std_same p a x Ha Hx); [|exact Ea|reflexivity]. intros rho. rewrite Va, Vu, (val_one A S L). ring.
  Qed.

  (** Elements over different rings: whenever everything is defined. *)
  Lemma add_no_zero x y z : elem_wf S x -> elem_wf S y -> no_zero_gen (basis (emodule x)) -> no_zero_gen (basis (emodule y)) -> add x y = Ok z -> no_zero_gen (basis (emodule z)).
  Proof. intros Hx Hy Zx Zy H I. apply (add_spec A S L x y z Hx Hy H) in I. destruct I; auto. Qed.
  Lemma mul_no_zero x y z : elem_wf S x -> elem_wf S y -> no_zero_gen (basis (emodule x)) -> no_zero_gen (basis (emodule y)) -> mul x y = Ok z -> no_zero_gen (basis (emodule z)).
  Proof.
    intros Hx Hy Zx Zy H. destruct (nonzero x) eqn:Nx.
    2:{ unfold mul in H. rewrite Nx in H. injection H as <-. exact Zx. }
    destruct (nonzero y) eqn:Ny.
    2:{ unfold mul in H. rewrite Nx, Ny in H. injection H as <-. exact Zy. }
    intros I. apply (mul_spec A S L x y z Hx Hy H) in I; [|exact Nx|exact Ny]. destruct I as (g & h & Ig & Ih & K).
    assert (Wg : gen_wf g) by (apply (proj1 (Forall_forall _ _) (proj1 (proj1 Hx)) g Ig)).
    assert (Wh : gen_wf h) by (apply (proj1 (Forall_forall _ _) (proj1 (proj1 Hy)) h Ih)).
    destruct (gen_mul_rational g h _ Wg Wh K Logic.I) as [Rg Rh]. destruct g as [q| |], h as [r| |]; try contradiction.
    destruct (gen_mul_correct _ _ _ Wg Wh K) as [_ V]. specialize (V (fun _ => 0)). cbn [gen_val] in V. change (Q2R (this (Q2Qc 0))) with (Q2R 0) in V.
    rewrite RMicromega.Q2R_0 in V. symmetry in V. apply Rmult_integral in V. destruct V as [V|V]; [apply Zx|apply Zy].
    - replace (GRat 0) with (GRat q); [exact Ig|]. apply lead_zero. exact V.
    - replace (GRat 0) with (GRat r); [exact Ih|]. apply lead_zero. exact V.
  Qed.
  Lemma general_distributive x y z s l a b r e : elem_wf S x -> elem_wf S y -> elem_wf S z ->
    no_zero_gen (basis (emodule x)) -> no_zero_gen (basis (emodule y)) -> no_zero_gen (basis (emodule z)) ->
    add y z = Ok s -> mul x s = Ok l -> mul x y = Ok a -> mul x z = Ok b -> add a b = Ok r -> equal l r = Ok e -> e = true.
  Proof.
    intros Hx Hy Hz Zx Zy Zz Es El Ea Eb Er H.
    destruct (add_value _ _ _ Hy Hz Es) as [Ws Vs]. pose proof (add_no_zero _ _ _ Hy Hz Zy Zz Es) as Zs.
    destruct (mul_value _ _ _ Hx Ws El) as [Wl Vl]. pose proof (mul_no_zero _ _ _ Hx Ws Zx Zs El) as Zl.
    destruct (mul_value _ _ _ Hx Hy Ea) as [Wa Va]. pose proof (mul_no_zero _ _ _ Hx Hy Zx Zy Ea) as Za.
    destruct (mul_value _ _ _ Hx Hz Eb) as [Wb Vb]. pose proof (mul_no_zero _ _ _ Hx Hz Zx Zz Eb) as Zb.
    destruct (add_value _ _ _ Wa Wb Er) as [Wr Vr]. pose proof (add_no_zero _ _ _ Wa Wb Za Zb Er) as Zr.
    apply (equal_value l r e Wl Wr Zl Zr H). intros rho. rewrite Vl, Vs, Vr, Va, Vb. ring.
  Qed.
  Lemma general_mul_assoc x y z a b u w e : elem_wf S x -> elem_wf S y -> elem_wf S z ->
    no_zero_gen (basis (emodule x)) -> no_zero_gen (basis (emodule y)) -> no_zero_gen (basis (emodule z)) ->
    mul x y = Ok a -> mul a z = Ok u -> mul y z = Ok b -> mul x b = Ok w -> equal u w = Ok e -> e = true.
  Proof.
    intros Hx Hy Hz Zx Zy Zz Ea Eu Eb Ew H.
    destruct (mul_value _ _ _ Hx Hy Ea) as [Wa Va]. pose proof (mul_no_zero _ _ _ Hx Hy Zx Zy Ea) as Za.
    destruct (mul_value _ _ _ Wa Hz Eu) as [Wu Vu]. pose proof (mul_no_zero _ _ _ Wa Hz Za Zz Eu) as Zu.
    destruct (mul_value _ _ _ Hy Hz Eb) as [Wb Vb]. pose proof (mul_no_zero _ _ _ Hy Hz Zy Zz Eb) as Zb.
    destruct (mul_value _ _ _ Hx Wb Ew) as [Ww Vw]. pose proof (mul_no_zero _ _ _ Hx Wb Zx Zb Ew) as Zw.
    apply (equal_value u w e Wu Ww Zu Zw H). intros rho. rewrite Vu, Vw, Va, Vb. ring.
  Qed.
  Lemma general_mul_comm x y a b e : elem_wf S x -> elem_wf S y -> no_zero_gen (basis (emodule x)) -> no_zero_gen (basis (emodule y)) ->
    mul x y = Ok a -> mul y x = Ok b -> equal a b = Ok e -> e = true.
  Proof.
    intros Hx Hy Zx Zy Ea Eb H.
    destruct (mul_value _ _ _ Hx Hy Ea) as [Wa Va]. pose proof (mul_no_zero _ _ _ Hx Hy Zx Zy Ea) as Za.
    destruct (mul_value _ _ _ Hy Hx Eb) as [Wb Vb]. pose proof (mul_no_zero _ _ _ Hy Hx Zy Zx Eb) as Zb.
    apply (equal_value a b e Wa Wb Za Zb H). intros rho. rewrite Va, Vb. ring.
  Qed.
  Lemma general_add_assoc x y z a b u w e : elem_wf S x -> elem_wf S y -> elem_wf S z ->
    add x y = Ok a -> add a z = Ok u -> add y z = Ok b -> add x b = Ok w -> equal u w = Ok e -> e = true.
  Proof.
    intros Hx Hy Hz Ea Eu Eb Ew H.
    destruct (add_spec A S L _ _ _ Hx Hy Ea) as (Wa & Va & _). destruct (add_spec A S L _ _ _ Wa Hz Eu) as (Wu & Vu & _).
    destruct (add_spec A S L _ _ _ Hy Hz Eb) as (Wb & Vb & _). destruct (add_spec A S L _ _ _ Hx Wb Ew) as (Ww & Vw & _).
    apply (equal_spec A S L u w e Wu Ww H). intros v. rewrite Vu, Vw, Va, Vb. ring.
  Qed.
  Lemma general_add_comm x y a b e : elem_wf S x -> elem_wf S y -> add x y = Ok a -> add y x = Ok b -> equal a b = Ok e -> e = true.
  Proof.
    intros Hx Hy Ea Eb H. destruct (add_spec A S L _ _ _ Hx Hy Ea) as (Wa & Va & _). destruct (add_spec A S L _ _ _ Hy Hx Eb) as (Wb & Vb & _).
    apply (equal_spec A S L a b e Wa Wb H). intros v. rewrite Va, Vb. ring.
  Qed.
End Proofs.
