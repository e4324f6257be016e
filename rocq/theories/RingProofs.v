(** The concrete rings satisfy the specification of rings. *)
From Coq Require Import ZArith QArith Qcanon Bool List Reals Qreals Lra Lia Znumtheory Eqdep_dec.
From Flocq Require Import Core.
From Verif Require Import Gen SpecGen GenProofs Ring SpecRing.
Import ListNotations.
Open Scope R_scope.

(** * Rational numbers *)
Lemma Qc_eqb_spec (p q : Qc) : Qc_eqb p q = true <-> p = q.
Proof. apply Qc_eqb_eq. Qed.
Lemma Qc_eqb_false (p q : Qc) : Qc_eqb p q = false <-> p <> q.
Proof. rewrite <- Qc_eqb_spec. destruct (Qc_eqb p q); intuition congruence. Qed.
Lemma Q2R_Q2Qc q : Q2R (Q2Qc q) = Q2R q.
Proof. apply Qeq_eqR. apply Qred_correct. Qed.
Lemma Q2R_Qc_of_Z n : Q2R (Qc_of_Z n) = IZR n.
Proof. unfold Qc_of_Z. rewrite Q2R_Q2Qc. unfold inject_Z, Q2R. cbn. field. Qed.
Lemma Q2R_num_den (q : Qc) : Q2R q = IZR (qc_num q) / IZR (qc_den q).
Proof. reflexivity. Qed.
Lemma qc_den_pos (q : Qc) : (0 < qc_den q)%Z.
Proof. unfold qc_den. lia. Qed.
Lemma qc_den_R (q : Qc) : 0 < IZR (qc_den q).
Proof. apply IZR_lt, qc_den_pos. Qed.
Lemma Q2R_Qc_opp (p : Qc) : Q2R (- p)%Qc = - Q2R p.
Proof. unfold Qcopp. rewrite Q2R_Q2Qc. apply Q2R_opp. Qed.
Lemma Q2R_Qc_0' (p : Qc) : Q2R p = 0 <-> p = 0%Qc.
Proof. split; [|intros ->; apply Q2R_Qc_0]. intros H. apply Q2R_Qc_inj. rewrite Q2R_Qc_0. exact H. Qed.
Lemma Q2R_Qc_inv (p : Qc) : p <> 0%Qc -> Q2R (/ p)%Qc = / Q2R p.
Proof.
  intros H. apply (Rmult_eq_reg_l (Q2R p)); [|intros H0; apply H, Q2R_Qc_0', H0].
  rewrite <- Q2R_Qc_mult, Qcmult_inv_r by exact H. rewrite Q2R_Qc_1, Rinv_r; [reflexivity|].
  intros H0. apply H, Q2R_Qc_0', H0.
Qed.
Lemma Q2R_Qc_div (p q : Qc) : q <> 0%Qc -> Q2R (p / q)%Qc = Q2R p / Q2R q.
Proof. intros H. unfold Qcdiv. rewrite Q2R_Qc_mult, Q2R_Qc_inv by exact H. reflexivity. Qed.
Lemma Q2R_Qc_minus (p q : Qc) : Q2R (p - q)%Qc = Q2R p - Q2R q.
Proof. unfold Qcminus. rewrite Q2R_Qc_plus, Q2R_Qc_opp. reflexivity. Qed.
Lemma qc_num_0 (q : Qc) : qc_num q = 0%Z <-> Q2R q = 0.
Proof.
  rewrite Q2R_num_den. pose proof (qc_den_R q). split.
  - intros ->. unfold Rdiv. ring.
  - intros H0. apply eq_IZR. apply (Rmult_eq_reg_r (/ IZR (qc_den q))); [|apply Rinv_neq_0_compat; lra].
    unfold Rdiv in H0. lra.
Qed.

(** * Integers *)
Lemma int_idiv_spec x n : match int_idiv_z x n with
  | Ok y => n <> 0%Z /\ IZR y = IZR x / IZR n
  | Err e => e = InvalidArgument /\ (n = 0%Z \/ ~ exists y : Z, IZR y = IZR x / IZR n)
  end.
Proof.
  unfold int_idiv_z. destruct (Z.eqb_spec n 0) as [->|Hn]; [split; auto|].
  assert (Hr : IZR n <> 0) by (apply not_0_IZR; exact Hn).
  destruct (Z.eqb_spec (Z.rem x n) 0) as [H|H]; cbn.
  - split; [exact Hn|]. apply Z.quot_exact in H; [|exact Hn]. rewrite H at 2. rewrite mult_IZR. field. exact Hr.
  - split; [reflexivity|]. right. intros [y Hy]. apply H.
    assert (x = (y * n)%Z) as ->; [|apply Z.rem_mul; exact Hn].
    apply eq_IZR. rewrite mult_IZR, Hy. field. exact Hr.
Qed.

Lemma int_lawful : lawful int_ring int_sem.
Proof.
  constructor; cbn -[int_idiv_z int_imul_q int_idiv_q].
  - intros [] []. tauto.
  - intros x y. apply Z.eqb_eq.
  - intros _ x y _ _. apply eq_IZR.
  - auto.
  - auto.
  - intros _ x y _ _. split; [exact I|apply plus_IZR].
  - intros _ x y _ _. split; [exact I|apply mult_IZR].
  - intros _ x _. split; [exact I|apply opp_IZR].
  - intros _ a b _ _ Hb. split; [exact I|]. intros q _ Hq. f_equal.
    rewrite <- mult_IZR in Hq. apply eq_IZR in Hq. subst a. apply Z.quot_mul. intros ->. apply Hb. reflexivity.
  - discriminate.
  - intros _ x _. split.
    + intros H. exists x. split; [exact I|]. rewrite <- mult_IZR. f_equal.
      apply orb_true_iff in H. destruct H as [H|H]; apply Z.eqb_eq in H; subst x; reflexivity.
    + intros (y & _ & H). rewrite <- mult_IZR in H. apply eq_IZR in H.
      apply orb_true_iff. rewrite !Z.eqb_eq. apply (Z.mul_eq_1 x y H).
  - intros _ x q _. split.
    + intros [= <-]. symmetry. apply Q2R_Qc_of_Z.
    + intros H. f_equal. apply Q2R_Qc_inj. rewrite Q2R_Qc_of_Z. exact H.
  - intros _ x [n|q|c] _ _; cbn -[int_idiv_z int_imul_q].
    + split; [exact I|apply mult_IZR].
    + unfold int_imul_q. pose proof (int_idiv_spec (x * qc_num q) (qc_den q)) as H. rewrite mult_IZR in H.
      pose proof (qc_den_R q) as Hd. assert (E : IZR x * Q2R q = IZR x * IZR (qc_num q) / IZR (qc_den q)) by (rewrite Q2R_num_den; field; lra).
      destruct (int_idiv_z _ _); [split; [exact I|rewrite E; apply H]|].
      destruct H as [_ [H|H]]; [pose proof (qc_den_pos q); lia|]. intros (y & _ & Hy). apply H. exists y. rewrite <- E. exact Hy.
    + split; [exact I|apply mult_IZR].
  - intros _ x s _ _.
    assert (N : forall n, match int_idiv_z x n with
      | Ok y => IZR n <> 0 /\ True /\ IZR y = IZR x / IZR n
      | Err e => e = InvalidArgument /\ (IZR n = 0 \/ ~ exists y, True /\ IZR y = IZR x / IZR n) end).
    { intros n. pose proof (int_idiv_spec x n) as H. destruct (int_idiv_z x n).
      - split; [apply not_0_IZR, H|]. split; [exact I|apply H].
      - destruct H as [He H]. split; [exact He|]. destruct H as [->|H]; [left; reflexivity|right]. intros (y & _ & Hy). apply H. exists y. exact Hy. }
    destruct s as [n|q|c]; [apply N| |apply N]. cbn -[int_idiv_z int_idiv_q]. unfold int_idiv_q.
    destruct (Z.eqb_spec (qc_num q) 0) as [H0|H0]; [split; [reflexivity|left; apply qc_num_0, H0]|].
    pose proof (int_idiv_spec (x * qc_den q) (qc_num q)) as H. rewrite mult_IZR in H.
    pose proof (qc_den_R q) as Hd. assert (Hq : IZR (qc_num q) <> 0) by (apply not_0_IZR; exact H0).
    assert (E : IZR x / Q2R q = IZR x * IZR (qc_den q) / IZR (qc_num q)) by (rewrite Q2R_num_den; field; split; lra).
    rewrite E. destruct (int_idiv_z _ _).
    + split; [rewrite <- qc_num_0; exact H0|]. split; [exact I|apply H].
    + destruct H as [He H]. split; [exact He|]. destruct H as [H|H]; [contradiction|]. right. intros (y & _ & Hy). apply H. exists y. exact Hy.
  - intros _ x y _ [= <-]. auto.
  - reflexivity.
  - intros _ _ _ _ x _. exists x. reflexivity.
  - intros []. reflexivity.
  - auto.
  - intros _ x _. change (IZR x = Q2R (Qc_of_Z x) + 1 * 0). rewrite Q2R_Qc_of_Z. ring.
  - auto.
  - intros _ x [n|q|c] _ _; cbn; (split; [exact I|]); intros [H|H]; try discriminate H; try reflexivity. apply qc_num_0 in H. rewrite H. reflexivity.
Qed.

Lemma rat_lawful : lawful rat_ring rat_sem.
Proof.
  assert (Z0 : forall n, Qc_of_Z n = 0%Qc <-> n = 0%Z).
  { intros n. rewrite <- Q2R_Qc_0', Q2R_Qc_of_Z. split; [apply eq_IZR|intros ->; reflexivity]. }
  constructor; cbn -[Qcdiv Qcplus Qcmult Qcopp Qcinv Q2R Qc_eqb Qc_of_Z].
  - intros [] []. tauto.
  - apply Qc_eqb_spec.
  - intros _ x y _ _. apply Q2R_Qc_inj.
  - intros _. split; [exact I|apply Q2R_Qc_0].
  - intros _. split; [exact I|apply Q2R_Qc_1].
  - intros _ x y _ _. split; [exact I|apply Q2R_Qc_plus].
  - intros _ x y _ _. split; [exact I|apply Q2R_Qc_mult].
  - intros _ x _. split; [exact I|apply Q2R_Qc_opp].
  - intros _ a b _ _ Hb. split; [exact I|]. intros q _ Hq. rewrite Q2R_Qc_div by (rewrite <- Q2R_Qc_0'; exact Hb).
    rewrite <- Hq. field. exact Hb.
  - intros _ _ b _ Hb. exists (/ b)%Qc. split; [exact I|]. rewrite Q2R_Qc_inv by (rewrite <- Q2R_Qc_0'; exact Hb). apply Rinv_l, Hb.
  - intros _ x _. rewrite negb_true_iff, Qc_eqb_false. split.
    + intros H. exists (/ x)%Qc. split; [exact I|]. rewrite Q2R_Qc_inv by exact H. apply Rinv_r. rewrite Q2R_Qc_0'. exact H.
    + intros (y & _ & H) ->. rewrite Q2R_Qc_0 in H. lra.
  - intros _ x q _. split; [intros [= ->]; reflexivity|]. intros H. f_equal. apply Q2R_Qc_inj, H.
  - intros _ x [n|q|c] _ _; cbn -[Qcdiv Qcplus Qcmult Qcopp Qcinv Q2R Qc_eqb Qc_of_Z]; (split; [exact I|]); rewrite Q2R_Qc_mult; try rewrite Q2R_Qc_of_Z; reflexivity.
  - intros _ x s _ _. destruct s as [n|q|c]; cbn -[Qcdiv Qcplus Qcmult Qcopp Qcinv Q2R Qc_eqb Qc_of_Z].
    + destruct (Z.eqb_spec n 0) as [->|H]; [auto|].
      split; [apply not_0_IZR, H|]. split; [exact I|]. rewrite Q2R_Qc_div by (rewrite Z0; exact H). rewrite Q2R_Qc_of_Z. reflexivity.
    + destruct (Qc_eqb q 0) eqn:E; [apply Qc_eqb_spec in E; subst q; split; [reflexivity|left; apply Q2R_Qc_0]|].
      apply Qc_eqb_false in E. split; [rewrite Q2R_Qc_0'; exact E|]. split; [exact I|apply Q2R_Qc_div, E].
    + destruct (Qc_eqb c 0) eqn:E; [apply Qc_eqb_spec in E; subst c; split; [reflexivity|left; apply Q2R_Qc_0]|].
      apply Qc_eqb_false in E. split; [rewrite Q2R_Qc_0'; exact E|]. split; [exact I|apply Q2R_Qc_div, E].
  - intros _ x y _ [= <-]. auto.
  - reflexivity.
  - intros _ _ _ _ x _. exists x. reflexivity.
  - intros []. reflexivity.
  - auto.
  - intros _ x _. ring.
  - intros p x s H _. exact H.
  - intros p x s H _. split; [exact H|reflexivity].
Qed.

(** * Quadratic fields *)
Lemma nonsquare_gt d : nonsquare d = true -> (1 < d)%Z.
Proof. unfold nonsquare. intros H. apply andb_true_iff in H. destruct H as [H _]. apply Z.ltb_lt, H. Qed.
Lemma nonsquare_spec d : nonsquare d = true -> forall x, (x * x <> d)%Z.
Proof.
  intros H x Hx. pose proof (nonsquare_gt d H) as Hd. unfold nonsquare in H. apply andb_true_iff in H. destruct H as [_ H].
  apply negb_true_iff, Z.eqb_neq in H. apply H. subst d.
  replace (x * x)%Z with (Z.abs x * Z.abs x)%Z by lia. rewrite Z.sqrt_square by lia. reflexivity.
Qed.
(** Square roots of integers that are not squares are irrational. *)
Lemma sqrt_irrational_Z d a b : nonsquare d = true -> (0 < b)%Z -> (a * a <> d * (b * b))%Z.
Proof.
  intros Hd Hb H.
  assert (Hs : Z.sqrt (d * (b * b)) = Z.abs a). { rewrite <- H. replace (a * a)%Z with (Z.abs a * Z.abs a)%Z by lia. apply Z.sqrt_square. lia. }
  (* reduce to coprime a, b *)
  pose (g := Z.gcd a b).
  assert (Hg : (0 < g)%Z) by (unfold g; pose proof (Z.gcd_nonneg a b); assert (Z.gcd a b <> 0)%Z by (intros E; apply Z.gcd_eq_0_r in E; lia); lia).
  destruct (Z.gcd_divide_l a b) as [a' Ha]. destruct (Z.gcd_divide_r a b) as [b' Hb'].
  fold g in Ha, Hb'.
  assert (Hc : Z.gcd a' b' = 1%Z).
  { assert (E : Z.gcd a b = (Z.gcd a' b' * g)%Z) by (rewrite Ha, Hb' at 1; rewrite Z.gcd_mul_mono_r_nonneg by lia; reflexivity).
    fold g in E. nia. }
  assert (E : (a' * a' = d * (b' * b'))%Z).
  { apply (Z.mul_reg_r _ _ (g * g)); [nia|]. rewrite Ha, Hb' in H. nia. }
  assert (D : (b' | a')%Z). { apply (Z.gauss b' a' a'); [exists (d * b')%Z; lia|rewrite Z.gcd_comm; exact Hc]. }
  assert (D1 : (b' | 1)%Z) by (rewrite <- Hc; apply Z.gcd_greatest; [exact D|apply Z.divide_refl]).
  apply Z.divide_1_r in D1. apply (nonsquare_spec d Hd a'). destruct D1 as [-> | ->]; lia.
Qed.
Lemma sqrt_irrational d (q : Qc) : nonsquare d = true -> Q2R q <> sqrt (IZR d).
Proof.
  intros Hd H. pose proof (nonsquare_gt d Hd). pose proof (qc_den_R q) as Hq.
  apply (sqrt_irrational_Z d (qc_num q) (qc_den q) Hd (qc_den_pos q)). apply eq_IZR. rewrite !mult_IZR.
  assert (E : Q2R q * Q2R q = IZR d) by (rewrite H; apply sqrt_sqrt, IZR_le; lia).
  rewrite Q2R_num_den in E. rewrite <- E. field. lra.
Qed.

Definition qval (x : quad) : R := Q2R (qa x) + Q2R (qb x) * sqrt (IZR (qd x)).
Definition qmem (p : qfield) (x : quad) : Prop :=
  (qb x = 0%Qc /\ qd x = 1%Z) \/ (qb x <> 0%Qc /\ match p with QTwo d _ => qd x = d | QOne _ => False end).

Lemma quad_unique d (a b a' b' : Qc) : nonsquare d = true ->
  Q2R a + Q2R b * sqrt (IZR d) = Q2R a' + Q2R b' * sqrt (IZR d) -> a = a' /\ b = b'.
Proof.
  intros Hd H. destruct (Qc_eq_dec b b') as [->|Hb].
  - split; [|reflexivity]. apply Q2R_Qc_inj. lra.
  - exfalso. apply (sqrt_irrational d ((a' - a) / (b - b'))%Qc Hd).
    assert (Hbb : (b - b')%Qc <> 0%Qc). { intros E. apply Hb. apply Q2R_Qc_inj. apply Q2R_Qc_0' in E. rewrite Q2R_Qc_minus in E. lra. }
    rewrite Q2R_Qc_div by exact Hbb. assert (Hr : Q2R (b - b')%Qc <> 0) by (rewrite Q2R_Qc_0'; exact Hbb).
    rewrite !Q2R_Qc_minus in *. field_simplify_eq; [lra|exact Hr].
Qed.

Lemma quad_mk_val a b d : qval (quad_mk a b d) = Q2R a + Q2R b * sqrt (IZR d).
Proof.
  unfold quad_mk. destruct (Qc_eqb b 0) eqn:E; [|reflexivity].
  apply Qc_eqb_spec in E. subst b. unfold qval. cbn [qa qb qd quad_of_q]. rewrite Q2R_Qc_0. ring.
Qed.
Lemma quad_mk_mem p a b d : (b <> 0%Qc -> match p with QTwo e _ => d = e | QOne _ => False end) -> qmem p (quad_mk a b d).
Proof.
  intros H. unfold quad_mk. destruct (Qc_eqb b 0) eqn:E; [left; auto|].
  apply Qc_eqb_false in E. right. cbn [qb qd]. split; [exact E|exact (H E)].
Qed.
Lemma qmem_of_q p q : qmem p (quad_of_q q).
Proof. left. auto. Qed.
Lemma qval_of_q q : qval (quad_of_q q) = Q2R q.
Proof. unfold qval. cbn [qa qb qd quad_of_q]. rewrite Q2R_Qc_0. ring. Qed.

(** Every element of a field can be written with the square root of that field. *)
Definition qroot (p : qfield) : Z := match p with QTwo d _ => d | QOne _ => 1%Z end.
Lemma qmem_val p x : qmem p x -> qval x = Q2R (qa x) + Q2R (qb x) * sqrt (IZR (qroot p)).
Proof.
  intros [[H1 H2]|[H1 H2]]; unfold qval.
  - rewrite H1, Q2R_Qc_0. ring.
  - destruct p; [contradiction|]. rewrite H2. reflexivity.
Qed.
Lemma qmem_one_b n x : qmem (QOne n) x -> qb x = 0%Qc.
Proof. intros [[H _]|[_ []]]. exact H. Qed.
Lemma quad_d_mem d H x y : qmem (QTwo d H) x -> qmem (QTwo d H) y -> qb x <> 0%Qc \/ qb y <> 0%Qc -> quad_d x y = d.
Proof.
  pose proof (nonsquare_gt d H) as Hd. unfold quad_d. intros [[A1 A2]|[A1 A2]] [[B1 B2]|[B1 B2]] E; rewrite A2.
  - destruct E; contradiction.
  - cbn. exact B2.
  - destruct (Z.eqb_spec d 1); [lia|reflexivity].
  - destruct (Z.eqb_spec d 1); [lia|reflexivity].
Qed.
Lemma quad_root p x y : qmem p x -> qmem p y -> qb x <> 0%Qc \/ qb y <> 0%Qc -> match p with QTwo e _ => quad_d x y = e | QOne _ => False end.
Proof.
  intros Hx Hy E. destruct p as [n|d H].
  - apply qmem_one_b in Hx, Hy. destruct E; contradiction.
  - apply (quad_d_mem d H x y Hx Hy E).
Qed.

Lemma quad_add_spec p x y : qmem p x -> qmem p y -> qmem p (quad_add x y) /\ qval (quad_add x y) = qval x + qval y.
Proof.
  intros Hx Hy. unfold quad_add. destruct (Qc_eq_dec (qb x) 0%Qc) as [Ex|Ex].
  - destruct (Qc_eq_dec (qb y) 0%Qc) as [Ey|Ey].
    + rewrite Ex, Ey. split.
      * apply quad_mk_mem. intros C. exfalso. apply C. reflexivity.
      * rewrite quad_mk_val, (qmem_val p x Hx), (qmem_val p y Hy), Ex, Ey, Q2R_Qc_plus. replace (0 + 0)%Qc with 0%Qc by reflexivity. rewrite Q2R_Qc_0. ring.
    + pose proof (quad_root p x y Hx Hy (or_intror Ey)) as Hr. split; [apply quad_mk_mem; intros _; exact Hr|].
      rewrite quad_mk_val, (qmem_val p x Hx), (qmem_val p y Hy), !Q2R_Qc_plus. destruct p; [contradiction|]. cbn [qroot]. rewrite Hr. ring.
  - pose proof (quad_root p x y Hx Hy (or_introl Ex)) as Hr. split; [apply quad_mk_mem; intros _; exact Hr|].
    rewrite quad_mk_val, (qmem_val p x Hx), (qmem_val p y Hy), !Q2R_Qc_plus. destruct p; [contradiction|]. cbn [qroot]. rewrite Hr. ring.
Qed.
Lemma quad_mul_spec p x y : qmem p x -> qmem p y -> qmem p (quad_mul x y) /\ qval (quad_mul x y) = qval x * qval y.
Proof.
  intros Hx Hy. unfold quad_mul. destruct (Qc_eq_dec (qb x) 0%Qc) as [Ex|Ex]; [destruct (Qc_eq_dec (qb y) 0%Qc) as [Ey|Ey]|].
  - rewrite Ex, Ey. split.
    + apply quad_mk_mem. intros C. exfalso. apply C. ring.
    + rewrite quad_mk_val, (qmem_val p x Hx), (qmem_val p y Hy), Ex, Ey, !Q2R_Qc_plus, !Q2R_Qc_mult, Q2R_Qc_0. ring.
  - pose proof (quad_root p x y Hx Hy (or_intror Ey)) as Hr. split; [apply quad_mk_mem; intros _; exact Hr|].
    rewrite quad_mk_val, (qmem_val p x Hx), (qmem_val p y Hy), !Q2R_Qc_plus, !Q2R_Qc_mult, Q2R_Qc_of_Z.
    destruct p; [contradiction|]. cbn [qroot]. rewrite Hr. pose proof (nonsquare_gt d H). pose proof (sqrt_sqrt (IZR d) (IZR_le 0 d ltac:(lia))) as S.
    rewrite <- S at 1. ring.
  - pose proof (quad_root p x y Hx Hy (or_introl Ex)) as Hr. split; [apply quad_mk_mem; intros _; exact Hr|].
    rewrite quad_mk_val, (qmem_val p x Hx), (qmem_val p y Hy), !Q2R_Qc_plus, !Q2R_Qc_mult, Q2R_Qc_of_Z.
    destruct p; [contradiction|]. cbn [qroot]. rewrite Hr. pose proof (nonsquare_gt d H). pose proof (sqrt_sqrt (IZR d) (IZR_le 0 d ltac:(lia))) as S.
    rewrite <- S at 1. ring.
Qed.
Lemma quad_opp_spec p x : qmem p x -> qmem p (quad_opp x) /\ qval (quad_opp x) = - qval x.
Proof.
  intros Hx. unfold quad_opp. split.
  - apply quad_mk_mem. intros C. destruct Hx as [[H _]|[_ H]]; [exfalso; apply C; rewrite H; reflexivity|]. exact H.
  - rewrite quad_mk_val. unfold qval. rewrite !Q2R_Qc_opp. ring.
Qed.
Lemma qval_0 p x : qmem p x -> qval x = 0 -> x = quad_of_q 0.
Proof.
  intros Hx H. destruct Hx as [[H1 H2]|[H1 H2]].
  - destruct x as [a b d]. cbn in *. subst b d. unfold quad_of_q. f_equal. unfold qval in H. cbn [qa qb qd] in H. rewrite Q2R_Qc_0 in H.
    apply Q2R_Qc_0'. lra.
  - destruct p as [n|d Hd]; [contradiction|]. exfalso. apply H1. unfold qval in H. rewrite H2 in H.
    apply (quad_unique d (qa x) (qb x) 0%Qc 0%Qc Hd). rewrite H, Q2R_Qc_0. ring.
Qed.
Lemma quad_inv_spec p x : qmem p x -> qval x <> 0 -> qmem p (quad_inv x) /\ qval (quad_inv x) = / qval x.
Proof.
  intros Hx H. unfold quad_inv. set (n := (qa x * qa x - Qc_of_Z (qd x) * (qb x * qb x))%Qc).
  assert (Hs : 0 <= IZR (qd x)).
  { apply IZR_le. destruct Hx as [[_ ->]|[_ E]]; [lia|]. destruct p as [|d Hd]; [contradiction|]. pose proof (nonsquare_gt d Hd). lia. }
  pose proof (sqrt_sqrt _ Hs) as S.
  assert (Hn : Q2R n = qval x * (Q2R (qa x) - Q2R (qb x) * sqrt (IZR (qd x)))).
  { unfold n, qval. rewrite Q2R_Qc_minus, !Q2R_Qc_mult, Q2R_Qc_of_Z. rewrite <- S at 1. ring. }
  assert (Hn0 : n <> 0%Qc).
  { rewrite <- Q2R_Qc_0'. rewrite Hn. intros E. apply Rmult_integral in E. destruct E as [E|E]; [contradiction|].
    apply H. assert (M : qmem p (mkQuad (qa x) (- qb x)%Qc (qd x))).
    { destruct Hx as [[H1 H2]|[H1 H2]]; [left|right]; cbn.
      - rewrite H1. split; [reflexivity|exact H2].
      - split; [|exact H2]. intros C. apply H1. apply Q2R_Qc_inj. apply Q2R_Qc_0' in C. rewrite Q2R_Qc_opp in C. rewrite Q2R_Qc_0. lra. }
    assert (V : qval (mkQuad (qa x) (- qb x)%Qc (qd x)) = 0) by (unfold qval; cbn [qa qb qd]; rewrite Q2R_Qc_opp; lra).
    pose proof (qval_0 p _ M V) as Q. pose proof (f_equal qa Q) as Q1. pose proof (f_equal qb Q) as Q2. cbn [qa qb quad_of_q] in Q1, Q2. unfold qval. rewrite Q1.
    assert (qb x = 0%Qc) as ->. { apply Q2R_Qc_inj. apply Q2R_Qc_0' in Q2. rewrite Q2R_Qc_opp in Q2. rewrite Q2R_Qc_0. lra. }
    rewrite Q2R_Qc_0. ring. }
  split.
  - apply quad_mk_mem. intros C. destruct Hx as [[H1 _]|[_ H2]]; [|exact H2].
    exfalso. apply C. rewrite H1. unfold Qcdiv. ring.
  - rewrite quad_mk_val, !Q2R_Qc_div, Q2R_Qc_opp by exact Hn0. assert (E : Q2R n <> 0) by (rewrite Q2R_Qc_0'; exact Hn0).
    rewrite Hn in *. apply Rmult_neq_0_reg in E. destruct E as [_ E]. field_simplify_eq; [|split; assumption]. unfold qval. ring.
Qed.
Lemma quad_div_spec p x y : qmem p x -> qmem p y -> qval y <> 0 -> qmem p (quad_div x y) /\ qval (quad_div x y) = qval x / qval y.
Proof.
  intros Hx Hy H. destruct (quad_inv_spec p y Hy H) as [Hm Hv]. destruct (quad_mul_spec p x (quad_inv y) Hx Hm) as [A B].
  split; [exact A|]. unfold quad_div. rewrite B, Hv. reflexivity.
Qed.
Lemma quad_eqb_spec x y : quad_eqb x y = true <-> x = y.
Proof.
  destruct x as [a b d], y as [a' b' d']. unfold quad_eqb. cbn. rewrite !andb_true_iff, !Qc_eqb_spec, Z.eqb_eq.
  split; [intros [[-> ->] ->]; reflexivity|]. intros H. pose proof (f_equal qa H). pose proof (f_equal qb H). pose proof (f_equal qd H). auto.
Qed.
Lemma qval_inj p x y : qmem p x -> qmem p y -> qval x = qval y -> x = y.
Proof.
  intros Hx Hy H. destruct x as [a b d], y as [a' b' d'].
  destruct p as [n|e He].
  - destruct Hx as [[H1 H2]|[_ []]], Hy as [[G1 G2]|[_ []]]. cbn in *. subst b d b' d'.
    unfold qval in H. cbn [qa qb qd] in H. rewrite Q2R_Qc_0 in H. f_equal. apply Q2R_Qc_inj. lra.
  - pose proof (qmem_val _ _ Hx) as A. pose proof (qmem_val _ _ Hy) as B. cbn [qa qb qroot] in A, B. rewrite A, B in H.
    apply (quad_unique e) in H; [|exact He]. destruct H as [-> ->]. f_equal.
    destruct Hx as [[H1 H2]|[H1 H2]], Hy as [[G1 G2]|[G1 G2]]; cbn in *; congruence.
Qed.
Lemma qfield_eqb_spec p q : qfield_eqb p q = true <-> p = q.
Proof.
  destruct p as [n|d H], q as [m|e G]; cbn; try (split; discriminate).
  - rewrite Z.eqb_eq. split; [intros ->; reflexivity|congruence].
  - rewrite Z.eqb_eq. split; [|congruence]. intros ->. f_equal. apply UIP_dec. apply bool_dec.
Qed.
Lemma quad_is_rational_spec p x q : qmem p x -> ((if quad_is_rational x then Some (qa x) else None) = Some q <-> qval x = Q2R q).
Proof.
  intros Hx. unfold quad_is_rational. destruct (Qc_eqb (qb x) 0) eqn:E.
  - apply Qc_eqb_spec in E. unfold qval. rewrite E, Q2R_Qc_0. split; [intros [= <-]; ring|]. intros H. f_equal. apply Q2R_Qc_inj. lra.
  - apply Qc_eqb_false in E. split; [discriminate|]. intros H. exfalso. apply E.
    rewrite <- (qval_of_q q) in H. apply (qval_inj p x _ Hx (qmem_of_q p q)) in H. rewrite H. reflexivity.
Qed.

Lemma quad_scalar p (s : scalar quad) : match s with SE c => qmem p c | _ => True end ->
  let c := match s with SZ n => quad_of_q (Qc_of_Z n) | SQ q => quad_of_q q | SE c => c end in
  qmem p c /\ qval c = match s with SZ n => IZR n | SQ q => Q2R q | SE c => qval c end.
Proof.
  destruct s as [n|q|c]; cbn; intros H.
  - split; [apply qmem_of_q|]. rewrite qval_of_q. apply Q2R_Qc_of_Z.
  - split; [apply qmem_of_q|]. apply qval_of_q.
  - auto.
Qed.

Lemma quad_lawful : lawful quad_ring quad_sem.
Proof.
  assert (Q0 : qval (quad_of_q 0) = 0) by (rewrite qval_of_q; apply Q2R_Qc_0).
  constructor.
  - apply qfield_eqb_spec.
  - apply quad_eqb_spec.
  - apply qval_inj.
  - intros p. split; [apply qmem_of_q|exact Q0].
  - intros p. split; [apply qmem_of_q|]. change (qval (quad_of_q 1) = 1). rewrite qval_of_q. apply Q2R_Qc_1.
  - apply quad_add_spec.
  - apply quad_mul_spec.
  - apply quad_opp_spec.
  - intros p a b Ha Hb H. destruct (quad_div_spec p a b Ha Hb H) as [A B]. split; [exact A|].
    intros q _ Hq. change (qval (quad_div a b) = qval q). rewrite B. change (qval q * qval b = qval a) in Hq. rewrite <- Hq. field. exact H.
  - intros _ p b Hb H. destruct (quad_inv_spec p b Hb H) as [A B]. exists (quad_inv b). split; [exact A|].
    change (qval (quad_inv b) * qval b = 1). rewrite B. apply Rinv_l, H.
  - intros p x Hx. change (negb (quad_eqb x (quad_of_q 0)) = true <-> exists y, qmem p y /\ qval x * qval y = 1).
    rewrite negb_true_iff. split.
    + intros H. assert (Hv : qval x <> 0). { intros E. apply (qval_0 p x Hx) in E. apply quad_eqb_spec in E. congruence. }
      destruct (quad_inv_spec p x Hx Hv) as [A B]. exists (quad_inv x). split; [exact A|]. rewrite B. apply Rinv_r, Hv.
    + intros (y & _ & H). destruct (quad_eqb x (quad_of_q 0)) eqn:E; [|reflexivity]. apply quad_eqb_spec in E. subst x. rewrite Q0 in H. lra.
  - apply quad_is_rational_spec.
  - intros p x s Hx Hs. pose proof (quad_scalar p s Hs) as [A B].
    set (c := match s with SZ n => quad_of_q (Qc_of_Z n) | SQ q => quad_of_q q | SE c => c end) in *.
    assert (imul (r := quad_ring) x s = Ok (quad_mul x c)) as -> by (destruct s; reflexivity).
    assert (Bs : qval c = sval quad_sem s) by (destruct s; [unfold c; rewrite qval_of_q; apply Q2R_Qc_of_Z|apply qval_of_q|reflexivity]).
    destruct (quad_mul_spec p x c Hx A) as [M V]. split; [exact M|]. change (qval (quad_mul x c) = qval x * sval quad_sem s).
    rewrite V, Bs. reflexivity.
  - intros p x s Hx Hs. pose proof (quad_scalar p s Hs) as [A B].
    set (c := match s with SZ n => quad_of_q (Qc_of_Z n) | SQ q => quad_of_q q | SE c => c end) in *.
    change (idiv (r := quad_ring) x s) with (if quad_eqb c (quad_of_q 0) then Err InvalidArgument else Ok (quad_div x c)).
    assert (Bs : qval c = sval quad_sem s) by (destruct s; [unfold c; rewrite qval_of_q; apply Q2R_Qc_of_Z|apply qval_of_q|reflexivity]).
    destruct (quad_eqb c (quad_of_q 0)) eqn:E.
    + apply quad_eqb_spec in E. split; [reflexivity|]. left. rewrite <- Bs, E. exact Q0.
    + assert (Hv : qval c <> 0). { intros F. apply (qval_0 p c A) in F. apply quad_eqb_spec in F. congruence. }
      destruct (quad_div_spec p x c Hx A Hv) as [M V]. split; [rewrite <- Bs; exact Hv|]. split; [exact M|].
      change (qval (quad_div x c) = qval x / sval quad_sem s). rewrite V, Bs. reflexivity.
  - intros p x y [q Hq] H. change (quad_coerce p x = Ok y) in H. unfold quad_coerce, quad_is_rational in H.
    change (qmem p y /\ qval y = qval x). change (qmem q x) in Hq.
    destruct (Qc_eqb (qb x) 0) eqn:E.
    + injection H as <-. apply Qc_eqb_spec in E. split; [|reflexivity]. destruct Hq as [Hq|[Hq _]]; [left; exact Hq|contradiction].
    + apply Qc_eqb_false in E. destruct p as [|d Hd]; [discriminate|]. destruct (Z.eqb_spec d (qd x)) as [F|F]; [|discriminate]. injection H as <-.
      split; [|reflexivity]. right. split; [exact E|congruence].
  - intros p x Hx. change (quad_coerce p x = Ok x). change (qmem p x) in Hx. unfold quad_coerce, quad_is_rational.
    destruct (Qc_eqb (qb x) 0) eqn:E; [reflexivity|]. apply Qc_eqb_false in E. destruct Hx as [[Hx _]|[_ Hx]]; [contradiction|].
    destruct p as [|d Hd]; [contradiction|]. rewrite Hx, Z.eqb_refl. reflexivity.
  - intros p q r H x Hx. change (quad_compositum p q = Ok r) in H. change (qmem p x \/ qmem q x) in Hx. change (exists y, quad_coerce r x = Ok y).
    exists x. unfold quad_coerce, quad_is_rational. destruct (Qc_eqb (qb x) 0) eqn:E; [reflexivity|]. apply Qc_eqb_false in E.
    unfold quad_compositum in H. destruct (qfield_eqb p q) eqn:Epq.
    + apply qfield_eqb_spec in Epq. subst q. injection H as <-. destruct Hx as [[[Hx _]|[_ Hx]]|[[Hx _]|[_ Hx]]]; try contradiction; destruct p; try contradiction; rewrite Hx, Z.eqb_refl; reflexivity.
    + destruct p as [n|d Hd]; cbn in H.
      * injection H as <-. destruct Hx as [Hx|[[Hx _]|[_ Hx]]]; [apply qmem_one_b in Hx; contradiction|contradiction|].
        destruct q; [contradiction|]. rewrite Hx, Z.eqb_refl. reflexivity.
      * destruct q as [m|e He]; cbn in H; [|discriminate]. injection H as <-.
        destruct Hx as [[[Hx _]|[_ Hx]]|Hx]; [contradiction| |apply qmem_one_b in Hx; contradiction]. rewrite Hx, Z.eqb_refl. reflexivity.
  - intros p. change (quad_compositum p p = Ok p). unfold quad_compositum. assert (qfield_eqb p p = true) as -> by (apply qfield_eqb_spec; reflexivity). reflexivity.
  - intros p x Hx. cbn. unfold quad_is_rational. destruct (Qc_eqb (qb x) 0) eqn:E; cbn; [destruct p; cbn; lia|].
    apply Qc_eqb_false in E. destruct Hx as [[Hx _]|[_ Hx]]; [contradiction|]. destruct p; [contradiction|cbn; lia].
  - intros p x Hx. change (qmem p x) in Hx. change (qval x = polynomial (if quad_is_rational x then [qa x] else [qa x; qb x]) (theta quad_sem p)). unfold quad_is_rational. destruct (Qc_eqb (qb x) 0) eqn:E.
    + apply Qc_eqb_spec in E. unfold qval. rewrite E, Q2R_Qc_0. cbn. ring.
    + apply Qc_eqb_false in E. unfold qval. destruct Hx as [[Hx _]|[_ Hx]]; [contradiction|]. destruct p; [contradiction|]. rewrite Hx. cbn. ring.
  - intros p x s H _. exact H.
  - intros p x s H _. split; [exact H|reflexivity].
Qed.
