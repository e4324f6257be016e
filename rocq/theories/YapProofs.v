(** Proofs about the evaluation of expressions. *)
From Coq Require Import ZArith Bool List Reals Lia Lra.
From Verif Require Import Arf Arb SpecArf ArfProofs ArbProofs Yap SpecYap.
Import ListNotations.
Open Scope Z_scope.

Section Alias.
  Context {V : Type}.
  Variables (zero : V) (neg : V -> V) (op : binop -> Z -> rnd -> V -> V -> V).
  Notation trans := (transform zero neg op).
  Notation mean := (meaning neg op).

  Lemma write_same (m : Z -> V) x v : write m x v x = v.
  Proof. unfold write. rewrite Z.eqb_refl. reflexivity. Qed.
  Lemma write_other (m : Z -> V) x v y : y <> x -> write m x v y = m y.
  Proof. intros N. unfold write. destruct (Z.eqb_spec y x); [contradiction|reflexivity]. Qed.

  Lemma meaning_local e : forall m m' free p rd, below free e -> (forall y, y < free -> m y = m' y) ->
    mean m p rd e = mean m' p rd e.
  Proof.
    induction e; intros m m' free p0 rd0 B E; cbn [meaning below] in *.
    - rewrite E by assumption. reflexivity.
    - reflexivity.
    - erewrite IHe by eassumption. reflexivity.
    - destruct B as [B1 B2]. pose proof (IHe1 m m' free p0 rd0 B1 E) as X1. pose proof (IHe2 m m' free p0 rd0 B2 E) as X2. destruct p0, rd0; try reflexivity. rewrite X1, X2. reflexivity.
    - eapply IHe; eassumption.
    - eapply IHe; eassumption.
  Qed.

  Lemma below_mono (e : expr V) : forall a b, a <= b -> below a e -> below b e.
  Proof. induction e; intros a b L B; cbn in *; try tauto; try lia; try (eapply IHe; eassumption).
    destruct B; split; [eapply IHe1|eapply IHe2]; eassumption. Qed.

  (** Evaluation writes the meaning of the expression to [dst] and nothing else below [free]. *)
  Lemma transform_spec e : forall m free dst c, below free e -> dst < free ->
    match mean m (fst c) (snd c) e with
    | None => trans m free dst c e = None
    | Some v => exists m', trans m free dst c e = Some m' /\ m' dst = v /\ forall y, y < free -> y <> dst -> m' y = m y
    end.
  Proof.
    induction e; intros m free dst c B L; cbn [transform meaning below] in *.
    - exists (write m dst (m x)). split; [reflexivity|]. split; [apply write_same|]. intros. apply write_other; assumption.
    - exists (write m dst v). split; [reflexivity|]. split; [apply write_same|]. intros. apply write_other; assumption.
    - specialize (IHe m free dst c B L). destruct (mean m (fst c) (snd c) e); cbn.
      + destruct IHe as (m' & -> & <- & O). eexists. split; [reflexivity|]. split; [apply write_same|].
        intros. rewrite write_other by assumption. apply O; assumption.
      + rewrite IHe. reflexivity.
    - destruct B as [B1 B2].
      assert (T : forall c', c' = c -> (fst c' = None \/ snd c' = None) -> trans m free dst c (Bin o e1 e2) = None).
      { intros c' -> N. cbn [transform]. destruct (trans (write m free zero) (free + 1) free c e2) as [m1|]; [|reflexivity].
        destruct (trans m1 (free + 1) dst c e1); [|reflexivity]. destruct c as [[p|] [rd|]]; try reflexivity. destruct N; discriminate. }
      destruct c as [[p|] [rd|]]; [clear T|apply (T _ eq_refl); cbn; tauto..].
      pose proof (IHe2 (write m free zero) (free + 1) free (Some p, Some rd) ltac:(eapply below_mono; [|eassumption]; lia) ltac:(lia)) as I2.
      cbn [fst snd] in *.
      rewrite <- (meaning_local e2 m (write m free zero) free) in I2;
        [|assumption|intros; rewrite write_other by lia; reflexivity].
      destruct (mean m (Some p) (Some rd) e2) as [b|] eqn:M2.
      2:{ destruct (mean m (Some p) (Some rd) e1); rewrite I2; reflexivity. }
      destruct I2 as (m1 & -> & Eb & O2).
      pose proof (IHe1 m1 (free + 1) dst (Some p, Some rd) ltac:(eapply below_mono; [|eassumption]; lia) ltac:(lia)) as I1.
      cbn [fst snd] in *.
      rewrite <- (meaning_local e1 m m1 free) in I1;
        [|assumption|intros; rewrite O2 by lia; rewrite write_other by lia; reflexivity].
      destruct (mean m (Some p) (Some rd) e1) as [a|] eqn:M1.
      2:{ rewrite I1. reflexivity. }
      destruct I1 as (m2 & -> & Ea & O1).
      eexists. split; [reflexivity|]. split.
      + rewrite write_same, Ea. rewrite O1 by lia. rewrite Eb. reflexivity.
      + intros y Hy N. rewrite write_other by assumption. rewrite O1 by lia. rewrite O2 by lia. apply write_other. lia.
    - apply (IHe m free dst (Some p, snd c)); assumption.
    - apply (IHe m free dst (fst c, Some r)); assumption.
  Qed.

  Lemma meaning_total e : forall m p rd, exists w, mean m (Some p) (Some rd) e = Some w.
  Proof.
    induction e; intros m q s; cbn [meaning].
    - eexists; reflexivity.
    - eexists; reflexivity.
    - destruct (IHe m q s) as [w ->]. eexists; reflexivity.
    - destruct (IHe1 m q s) as [w1 ->]. destruct (IHe2 m q s) as [w2 ->]. eexists; reflexivity.
    - apply IHe.
    - apply IHe.
  Qed.
  (** A bound parameter hides the outer one. *)
  Lemma meaning_prec_bound (e : expr V) q : bound_prec e = Some q -> forall m p p' rd, mean m p rd e = mean m p' rd e.
  Proof. induction e; intros E m p0 p' rd; cbn in *; try discriminate; [reflexivity|apply IHe; assumption]. Qed.
  Lemma meaning_round_bound (e : expr V) q : bound_round e = Some q -> forall m p rd rd', mean m p rd e = mean m p rd' e.
  Proof. induction e; intros E m p0 rd rd'; cbn in *; try discriminate; [apply IHe; assumption|reflexivity]. Qed.
End Alias.

(** Balls: expressions enclose. *)
Section Balls.
  Variable mag_up : arf -> arf.
  Hypothesis ok : mag_up_ok mag_up.
  Open Scope R_scope.

  Lemma arb_v_op_contains o p rd x y u v : (0 < p)%Z -> arb_wf x -> arb_wf y -> contains x u -> contains y v ->
    arb_wf (arb_v_op mag_up o p rd x y) /\
    contains (arb_v_op mag_up o p rd x y)
      (match o with Plus => u + v | Minus => u - v | Times => u * v | Divide => u / v end).
  Proof.
    intros P Wx Wy Cx Cy. unfold arb_v_op.
    assert (PO : prec_ok (if (p =? ARF_PREC_EXACT)%Z then None else Some p)).
    { destruct (p =? ARF_PREC_EXACT)%Z; cbn; [exact I|assumption]. }
    destruct o.
    - split; [apply arb_add_wf; assumption|apply arb_add_contains; assumption].
    - split; [apply arb_add_wf; [assumption|assumption|apply arb_neg_wf; assumption]|apply arb_sub_contains; assumption].
    - split; [apply arb_mul_wf; assumption|apply arb_mul_contains; assumption].
    - split; [apply arb_div_wf; assumption|apply arb_div_contains; assumption].
  Qed.

  Lemma meaning_encloses const e : forall m rho p rd v,
    (forall x, arb_wf (m x) /\ contains (m x) (rho x)) -> constants_ok const e -> positive_precisions e ->
    match p with Some p => 0 < p | None => True end%Z ->
    meaning arb_neg (arb_v_op mag_up) m p rd e = Some v ->
    arb_wf v /\ contains v (real_meaning rho const e).
  Proof.
    induction e; intros m rho p0 rd v0 M K P PP E; cbn [meaning constants_ok positive_precisions real_meaning] in *.
    - injection E as <-. apply M.
    - injection E as <-. assumption.
    - destruct (meaning _ _ m p0 rd e) eqn:F; cbn in E; [|discriminate]. injection E as <-.
      destruct (IHe _ _ _ _ _ M K P PP F). split; [apply arb_neg_wf; assumption|apply arb_neg_contains; assumption].
    - destruct p0 as [p|], rd as [rd|]; try discriminate.
      destruct (meaning _ _ m (Some p) (Some rd) e1) eqn:F1; [|discriminate].
      destruct (meaning _ _ m (Some p) (Some rd) e2) eqn:F2; [|discriminate]. injection E as <-.
      destruct K, P. destruct (IHe1 _ _ (Some p) _ _ M ltac:(assumption) ltac:(assumption) PP F1).
      destruct (IHe2 _ _ (Some p) _ _ M ltac:(assumption) ltac:(assumption) PP F2).
      destruct (arb_v_op_contains o p rd a a0 (real_meaning rho const e1) (real_meaning rho const e2)) as [W C]; try assumption.
      split; [assumption|]. destruct o; exact C.
    - destruct P. apply (IHe m rho (Some p) rd v0); assumption.
    - eapply IHe; eassumption.
  Qed.
End Balls.

(** Arf: expressions evaluate with correct rounding at each operation. *)
Section Floats.
  Open Scope R_scope.
  Lemma rounded_exact_op o p rd a b : (0 < p)%Z ->
    option_map arf2R (arf_v_op o p rd (Some a) (Some b)) =
    real_op o (if (p =? ARF_PREC_EXACT)%Z then fun x => x else rounded p rd) (rounded p rd) (arf2R a) (arf2R b).
  Proof.
    intros P. unfold arf_v_op, real_op. destruct o.
    - destruct (p =? ARF_PREC_EXACT)%Z; cbn [option_map]; [rewrite arf_add_exact_spec|rewrite arf_add_spec by assumption]; reflexivity.
    - destruct (p =? ARF_PREC_EXACT)%Z; cbn [option_map]; [rewrite arf_sub_exact_spec|rewrite arf_sub_spec by assumption]; reflexivity.
    - destruct (p =? ARF_PREC_EXACT)%Z; cbn [option_map]; [rewrite arf_mul_exact_spec|rewrite arf_mul_spec by assumption]; reflexivity.
    - pose proof (arf_div_spec p rd a b P) as D. destruct (arf_div p rd a b) as [c|]; cbn [option_map].
      + destruct D as [N E]. destruct (Req_EM_T (arf2R b) 0); [contradiction|]. rewrite E. reflexivity.
      + destruct (Req_EM_T (arf2R b) 0); [reflexivity|contradiction].
  Qed.

  Lemma arf_meaning_rounded e : forall m p rd, positive_precisions e -> match p with Some p => 0 < p | None => True end%Z ->
    option_map (option_map arf2R) (meaning arf_v_neg arf_v_op m p rd e) =
    rounded_meaning (fun x => option_map arf2R (m x)) p rd e.
  Proof.
    induction e; intros m p0 rd0 P PP; cbn [meaning rounded_meaning positive_precisions] in *.
    - reflexivity.
    - reflexivity.
    - rewrite <- IHe by assumption. destruct (meaning _ _ m p0 rd0 e) as [[a|]|]; cbn; try reflexivity.
      rewrite arf_neg_spec. reflexivity.
    - destruct P as [P1 P2]. pose proof (IHe1 m p0 rd0 P1 PP) as I1. pose proof (IHe2 m p0 rd0 P2 PP) as I2.
      destruct p0 as [p|], rd0 as [rd|]; try reflexivity. rewrite <- I1, <- I2.
      destruct (meaning _ _ m (Some p) (Some rd) e1) as [a|]; [|reflexivity].
      destruct (meaning _ _ m (Some p) (Some rd) e2) as [b|]; [|reflexivity].
      cbn [option_map]. f_equal. destruct a as [a|], b as [b|]; try reflexivity.
      cbn [option_map]. apply rounded_exact_op. assumption.
    - destruct P. apply (IHe m (Some p) rd0); assumption.
    - apply (IHe m p0 (Some r)); assumption.
  Qed.
End Floats.
