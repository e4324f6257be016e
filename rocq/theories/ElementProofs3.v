(** Conversions, coefficients, scalars, simplify, change of ring. *)
From Coq Require Import ZArith QArith Qcanon Bool List Reals Qreals Permutation Lra Lia.
From Verif Require Import Gen SpecGen GenProofs Ring SpecRing RingProofs Module Element SpecModule ModuleProofs ElementProofs Independence ElementProofs2.
Import ListNotations.
Open Scope R_scope.

Lemma qc_integer (q : Qc) : (qc_den q =? 1)%Z = true <-> exists n, Q2R q = IZR n.
Proof.
  split.
  - intros E. apply Z.eqb_eq in E. exists (qc_num q). unfold qc_num, qc_den in *. unfold Q2R. rewrite E. field.
  - intros [n E]. assert (q = Qc_of_Z n) as ->; [apply Q2R_Qc_inj; rewrite E, Q2R_Qc_of_Z; reflexivity|].
    unfold qc_den, Qc_of_Z, Q2Qc. cbn [this]. rewrite Qred_identity by (cbn; apply Z.gcd_1_r). reflexivity.
Qed.
Lemma qc_integer_num (q : Qc) n : (qc_den q =? 1)%Z = true -> qc_num q = n <-> Q2R q = IZR n.
Proof.
  intros E. apply Z.eqb_eq in E. unfold qc_num, qc_den in *. unfold Q2R. rewrite E. split; [intros ->; field|].
  intros H. apply eq_IZR. rewrite <- H. field.
Qed.

Lemma app_eq_split (T : Type) (a b c d : list T) : length a = length c -> a ++ b = c ++ d -> a = c /\ b = d.
Proof.
  revert c. induction a as [|u a IH]; intros [|w c] H E; try discriminate; cbn in E; [auto|]. injection E as -> E. destruct (IH c) as [-> ->]; [cbn in H; lia|exact E|auto].
Qed.

Section Proofs.
  Variable A : ring.
  Variable S : semantics A.
  Hypothesis L : lawful A S.
  Implicit Types M N : module A.
  Implicit Types x y z : elem A.
  Implicit Types c d : car A.
  Implicit Types cs ds : list (car A).
  Implicit Types p : par A.

  (** * Conversion to rationals *)
  Lemma rational_loop_sound p gs : forall cs ret q, Forall (mem S p) cs -> rational_loop gs cs ret = Some q ->
    forall rho, Q2R q = Q2R ret + combination S rho gs cs.
  Proof.
    induction gs as [|g gs IH]; intros [|c cs] ret q Hm H rho; cbn in H; try (injection H as <-; cbn; ring).
    inversion Hm; subst. cbn [combination]. destruct (cz c) eqn:Ec.
    - apply (cz_spec A S L) in Ec. subst c. rewrite (IH cs ret q) with (rho := rho) by assumption. rewrite (val_zero A S L). ring.
    - destruct g as [r| |]; try discriminate. destruct (crational c) as [s|] eqn:Es; [|discriminate].
      rewrite (IH cs _ q) with (rho := rho) by eassumption. apply (L_rational A S L p) in Es; [|assumption].
      rewrite Q2R_Qc_plus, Q2R_Qc_mult, Es. cbn. ring.
  Qed.
  Lemma rational_loop_complete gs : forall cs ret, (forall g c, In (g, c) (combine gs cs) -> c <> czero A -> rational g /\ exists s, crational c = Some s) ->
    exists q, rational_loop gs cs ret = Some q.
  Proof.
    induction gs as [|g gs IH]; intros [|c cs] ret H; cbn; eauto. destruct (cz c) eqn:Ec.
    - apply IH. intros h d I. apply H. right. exact I.
    - apply (cz_false A S L) in Ec. destruct (H g c (or_introl eq_refl) Ec) as [R [s Es]]. destruct g; try contradiction. rewrite Es.
      apply IH. intros h d I. apply H. right. exact I.
  Qed.
  Lemma to_rational_sound x (q : Qc) : elem_wf S x -> to_rational x = Some q -> forall rho, value S rho x = Q2R q.
  Proof.
    intros (_ & _ & Hm) H rho. unfold to_rational in H. rewrite (rational_loop_sound _ _ _ _ _ Hm H rho), Q2R_Qc_0. unfold value. ring.
  Qed.
  Lemma same_mono_nonrational g (q : Qc) : ~ rational g -> same_mono (GRat q) g = false.
  Proof. intros H. destruct g; [exfalso; apply H; exact I|reflexivity|reflexivity]. Qed.
  Lemma constant_coefficients x (q : Qc) : elem_wf S x -> (forall rho, value S rho x = Q2R q) ->
    forall g c, In (g, c) (combine (basis (emodule x)) (coeffs x)) ->
      (~ rational g -> c = czero A) /\ (forall r, g = GRat r -> val S c * Q2R r = Q2R q).
  Proof.
    intros Hx V g c I. pose proof (rlist_wf A S x Hx) as Rx. pose proof Hx as ([Wx Ax] & Lx & Mx).
    assert (Wg : gen_wf g) by (apply in_combine_l in I; apply (proj1 (Forall_forall _ _) Wx g I)).
    assert (Hc : mem S (mring (emodule x)) c) by (apply in_combine_r in I; apply (proj1 (Forall_forall _ _) Mx c I)).
    pose proof (rcoef_in A S _ _ g c Ax I) as C.
    assert (U : rcoef (rlist A S x) g = rcoef [(Q2R q, GRat 1)] g).
    { apply rcoef_unique; [exact Rx|constructor; [exact Logic.I|constructor]| |exact Wg]. intros rho. rewrite rlist_value, V. cbn. unfold Q2R at 3. cbn. field. }
    change (rl A S (basis (emodule x)) (coeffs x)) with (rlist A S x) in C. rewrite C in U. cbn [rcoef] in U. split.
    - intros R. rewrite (same_mono_nonrational g 1 R) in U. apply (val_zero_iff A S L _ c Hc).
      destruct g; [exfalso; apply R; exact Logic.I| |]; cbn in U; lra.
    - intros r ->. cbn in U. rewrite U. unfold Q2R at 2. cbn. field.
  Qed.
  Lemma to_rational_complete x (q : Qc) : elem_wf S x -> no_zero_gen (basis (emodule x)) -> (forall rho, value S rho x = Q2R q) -> to_rational x = Some q.
  Proof.
    intros Hx Z V. destruct (rational_loop_complete (basis (emodule x)) (coeffs x) 0%Qc) as [r E].
    { intros g c I Hc. destruct (constant_coefficients x q Hx V g c I) as [C1 C2].
      assert (R : rational g) by (destruct (rational_dec g) as [R|R]; [exact R|exfalso; apply Hc, C1, R]). split; [exact R|].
      destruct g as [r| |]; try contradiction. specialize (C2 r eq_refl).
      assert (Hr : Q2R r <> 0). { intros E. apply Z. replace (GRat 0) with (GRat r); [apply in_combine_l in I; exact I|]. apply lead_zero. exact E. }
      exists (q / r)%Qc. destruct Hx as (_ & _ & Mx). apply in_combine_r in I. apply (L_rational A S L (mring (emodule x))); [apply (proj1 (Forall_forall _ _) Mx c I)|].
      rewrite Q2R_Qc_div. apply (Rmult_eq_reg_r (Q2R r)); [|exact Hr]. rewrite C2. field. exact Hr.
      intros ->. apply Hr. apply Q2R_Qc_0. }
    unfold to_rational. rewrite E. f_equal. apply Q2R_Qc_inj. rewrite <- (V (fun _ => 0)). symmetry. apply (to_rational_sound x r Hx E).
  Qed.
  Lemma to_rational_spec x (q : Qc) : elem_wf S x -> no_zero_gen (basis (emodule x)) -> (to_rational x = Some q <-> forall rho, value S rho x = Q2R q).
  Proof. intros Hx Z. split; [apply to_rational_sound, Hx|apply to_rational_complete; assumption]. Qed.
  Lemma to_integer_spec x n : elem_wf S x -> no_zero_gen (basis (emodule x)) -> (to_integer x = Some n <-> forall rho, value S rho x = IZR n).
  Proof.
    intros Hx Z. unfold to_integer. split.
    - destruct (to_rational x) as [q|] eqn:E; [|discriminate]. destruct (qc_den q =? 1)%Z eqn:D; [|discriminate]. intros [= <-] rho.
      rewrite (to_rational_sound x q Hx E). apply (qc_integer_num q); [exact D|reflexivity].
    - intros V. rewrite (to_rational_complete x (Qc_of_Z n) Hx Z) by (intros rho; rewrite V, Q2R_Qc_of_Z; reflexivity).
      assert (D : (qc_den (Qc_of_Z n) =? 1)%Z = true) by (apply qc_integer; exists n; apply Q2R_Qc_of_Z). rewrite D. f_equal.
      apply (qc_integer_num _ n D). apply Q2R_Qc_of_Z.
  Qed.
  Lemma eq_rational_spec x (q : Qc) : elem_wf S x -> no_zero_gen (basis (emodule x)) -> (eq_rational x q = true <-> forall rho, value S rho x = Q2R q).
  Proof.
    intros Hx Z. unfold eq_rational. rewrite <- (to_rational_spec x q Hx Z). destruct (to_rational x) as [r|]; [|split; discriminate].
    change (Qeq_bool r q) with (Qc_eqb r q). rewrite Qc_eqb_spec. split; [intros ->; reflexivity|congruence].
  Qed.
  Lemma eq_integer_spec x n : elem_wf S x -> no_zero_gen (basis (emodule x)) -> (eq_integer x n = true <-> forall rho, value S rho x = IZR n).
  Proof. intros Hx Z. unfold eq_integer. rewrite (eq_rational_spec x _ Hx Z), Q2R_Qc_of_Z. tauto. Qed.

  (** * Coefficients *)
  Lemma make_elem_spec M cs x : module_wf M -> Forall (mem S (mring M)) cs -> make_elem M cs = Ok x ->
    elem_wf S x /\ emodule x = M /\ coeffs x = cs /\ forall rho, value S rho x = combination S rho (basis M) cs.
  Proof.
    intros HM Hc H. unfold make_elem in H. destruct (Nat.eqb_spec (length cs) (rank M)) as [E|E]; [|discriminate]. injection H as <-.
    split; [split; [exact HM|split; [exact E|exact Hc]]|auto].
  Qed.
  Lemma make_elem_iff M cs : (exists x, make_elem M cs = Ok x) <-> length cs = length (basis M).
  Proof.
    unfold make_elem, rank. destruct (Nat.eqb_spec (length cs) (length (basis M))) as [E|E]; split; eauto; [intros [x H]; discriminate|contradiction].
  Qed.
  Lemma coefficient_spec x i c : coefficient x i = Ok c <-> (0 <= i)%Z /\ nth_error (coeffs x) (Z.to_nat i) = Some c.
  Proof.
    unfold coefficient. destruct ((0 <=? i)%Z && (i <? Z.of_nat (length (coeffs x)))%Z) eqn:E.
    - apply andb_true_iff in E. destruct E as [E1 E2]. apply Z.leb_le in E1. apply Z.ltb_lt in E2.
      rewrite (nth_error_nth' (coeffs x) (czero A)) by lia. split; [intros [= <-]; auto|]. intros [_ [= <-]]. reflexivity.
    - split; [discriminate|]. intros [H1 H2]. exfalso. assert (Z.to_nat i < length (coeffs x))%nat by (apply nth_error_Some; congruence).
      apply andb_false_iff in E. destruct E as [E|E]; [apply Z.leb_gt in E|apply Z.ltb_ge in E]; lia.
  Qed.
  Lemma coefficient_throws x i : (exists e, coefficient x i = Err e) <-> (i < 0 \/ Z.of_nat (length (coeffs x)) <= i)%Z.
  Proof.
    unfold coefficient. destruct ((0 <=? i)%Z && (i <? Z.of_nat (length (coeffs x)))%Z) eqn:E.
    - split; [intros [e H]; discriminate|]. apply andb_true_iff in E. destruct E as [E1 E2]. apply Z.leb_le in E1. apply Z.ltb_lt in E2. lia.
    - split; [intros _|eauto]. apply andb_false_iff in E. destruct E as [E|E]; [apply Z.leb_gt in E|apply Z.ltb_ge in E]; lia.
  Qed.
  Lemma unit_vector_nth n j i : (i < n)%nat -> nth_error (unit_vector A n j) i = Some (if Nat.eqb i j then cone A else czero A).
  Proof.
    intros H. unfold unit_vector. apply map_nth_error with (f := fun i => if Nat.eqb i j then cone A else czero A).
    rewrite (nth_error_nth' (seq 0 n) 0%nat) by (rewrite seq_length; exact H). rewrite seq_nth by exact H. reflexivity.
  Qed.
  Lemma comb_unit v gs j0 : forall j, comb A S v gs (map (fun i => if Nat.eqb i j then cone A else czero A) (seq j0 (length gs))) =
    if (j <? j0)%nat then 0 else match nth_error gs (j - j0) with Some g => v g | None => 0 end.
  Proof.
    revert j0. induction gs as [|g gs IH]; intros j0 j.
    - destruct (j <? j0)%nat; [reflexivity|]. destruct (j - j0)%nat; reflexivity.
    - cbn -[Nat.ltb]. rewrite IH. destruct (Nat.eqb_spec j0 j) as [->|E].
      + rewrite (val_one A S L). replace (j <? Datatypes.S j)%nat with true by (symmetry; apply Nat.ltb_lt; lia). rewrite Nat.ltb_irrefl, Nat.sub_diag. cbn. ring.
      + rewrite (val_zero A S L). destruct (Nat.ltb_spec j j0) as [H|H].
        * replace (j <? Datatypes.S j0)%nat with true by (symmetry; apply Nat.ltb_lt; lia). ring.
        * replace (j <? Datatypes.S j0)%nat with false by (symmetry; apply Nat.ltb_ge; lia).
          replace (j - j0)%nat with (Datatypes.S (j - Datatypes.S j0)) by lia. cbn. ring.
  Qed.
  Lemma module_gen_spec M j x : module_wf M -> module_gen M j = Ok x ->
    elem_wf S x /\ emodule x = M /\ exists g, nth_error (basis M) (Z.to_nat j) = Some g /\ (forall rho, value S rho x = gen_val rho g) /\
    forall i, (0 <= i < Z.of_nat (length (basis M)))%Z -> coefficient x i = Ok (if (i =? j)%Z then cone A else czero A).
  Proof.
    intros HM H. unfold module_gen in H. destruct (_ && _) eqn:E; [|discriminate]. injection H as <-.
    apply andb_true_iff in E. destruct E as [E1 E2]. apply Z.leb_le in E1. apply Z.ltb_lt in E2. unfold rank in *.
    assert (Len : length (unit_vector A (length (basis M)) (Z.to_nat j)) = length (basis M)) by (unfold unit_vector; rewrite map_length, seq_length; reflexivity).
    split; [split; [exact HM|split; [exact Len|]]|split; [reflexivity|]].
    - apply Forall_forall. intros c Hc. unfold unit_vector in Hc. apply in_map_iff in Hc. destruct Hc as (i & <- & _).
      destruct (Nat.eqb _ _); [apply (L_one A S L)|apply (L_zero A S L)].
    - destruct (nth_error (basis M) (Z.to_nat j)) as [g|] eqn:Eg; [|apply nth_error_None in Eg; lia]. exists g. split; [reflexivity|]. split.
      + intros rho. rewrite value_evalv. unfold evalv. cbn. unfold unit_vector. rewrite comb_unit. cbn. rewrite Nat.sub_0_r, Eg. reflexivity.
      + intros i Hi. apply coefficient_spec. split; [lia|]. cbn. rewrite unit_vector_nth by lia. f_equal.
        destruct (Z.eqb_spec i j) as [->|N]; [rewrite Nat.eqb_refl; reflexivity|]. destruct (Nat.eqb_spec (Z.to_nat i) (Z.to_nat j)); [lia|reflexivity].
  Qed.
  Lemma module_gen_throws M j : (exists e, module_gen M j = Err e) <-> (j < 0 \/ Z.of_nat (length (basis M)) <= j)%Z.
  Proof.
    unfold module_gen, rank. destruct (_ && _) eqn:E.
    - split; [intros [e H]; discriminate|]. apply andb_true_iff in E. destruct E as [E1 E2]. apply Z.leb_le in E1. apply Z.ltb_lt in E2. lia.
    - split; [intros _|eauto]. apply andb_false_iff in E. destruct E as [E|E]; [apply Z.leb_gt in E|apply Z.ltb_ge in E]; lia.
  Qed.

  (** * Scalars *)
  Lemma scale_ok p (f : car A -> result (car A)) l (s : R) cs ds :
    (forall c c', In c cs -> f c = Ok c' -> mem S p c' /\ val S c' = val S c * s) -> scale f l cs = (ds, None) ->
    length ds = length cs /\ Forall (mem S p) ds /\ forall v gs, comb A S v gs ds = comb A S v gs cs * s.
  Proof.
    revert ds. induction cs as [|c cs IH]; intros ds H E; cbn in E.
    - injection E as <-. split; [reflexivity|]. split; [constructor|]. intros v [|g gs]; cbn; ring.
    - destruct (f c) as [c'|] eqn:Ef; [|discriminate]. destruct (scale f l cs) as [r e] eqn:Es. injection E as <- ->.
      destruct (IH r) as (A1 & A2 & A3); [intros a b I; apply H; right; exact I|reflexivity|]. destruct (H c c' (or_introl eq_refl) Ef) as [B1 B2].
      split; [cbn; congruence|]. split; [constructor; assumption|]. intros v [|g gs]; cbn; [ring|]. rewrite A3, B2. ring.
  Qed.
  Lemma scale_total (f : car A -> result (car A)) l cs : (forall c, In c cs -> exists c', f c = Ok c') -> exists ds, scale f l cs = (ds, None).
  Proof.
    induction cs as [|c cs IH]; intros H; cbn; [eauto|]. destruct (H c (or_introl eq_refl)) as [c' ->].
    destruct IH as [ds ->]; [intros d I; apply H; right; exact I|]. eauto.
  Qed.
  Lemma scale_fails (f : car A -> result (car A)) l cs ds e : scale f l cs = (ds, Some e) -> exists c, In c cs /\ f c = Err e.
  Proof.
    revert ds. induction cs as [|c cs IH]; intros ds H; cbn in H; [discriminate|]. destruct (f c) as [c'|e'] eqn:E.
    - destruct (scale f l cs) as [r e'] eqn:Es. injection H as <- ->. destruct (IH r eq_refl) as (d & I & Ed). exists d. split; [right; exact I|exact Ed].
    - injection H as <- ->. exists c. split; [left; reflexivity|exact E].
  Qed.
  Lemma smul_spec x s y : elem_wf S x -> smem S (mring (emodule x)) s -> smul x s = Ok y ->
    elem_wf S y /\ emodule y = emodule x /\ forall rho, value S rho y = value S rho x * sval S s.
  Proof.
    intros (W & Hl & Hm) Hs H. unfold smul, scaled, imul_elem in H. destruct (scale _ _ _) as [cs [e|]] eqn:E; [discriminate|]. injection H as <-.
    destruct (fun H => scale_ok (mring (emodule x)) (fun c => imul c s) _ (sval S s) (coeffs x) cs H E) as (A1 & A2 & A3).
    { intros c c' I Ec. pose proof (L_imul A S L _ c s (proj1 (Forall_forall _ _) Hm c I) Hs) as X. cbn in Ec. rewrite Ec in X. exact X. }
    split; [split; [exact W|split; [cbn; congruence|exact A2]]|]. split; [reflexivity|]. intros rho. rewrite !value_evalv. unfold evalv. cbn. apply A3.
  Qed.
  (** What the result would have to be: an element of the same module with the value x * s. *)
  Lemma smul_complete x s z : elem_wf S x -> smem S (mring (emodule x)) s -> no_zero_gen (basis (emodule x)) ->
    elem_wf S z -> emodule z = emodule x -> (forall rho, value S rho z = value S rho x * sval S s) -> exists y, smul x s = Ok y.
  Proof.
    intros Hx Hs Z Hz Mz V. assert (forall c, In c (coeffs x) -> exists c', imul c s = Ok c') as T.
    { intros c I. pose proof Hx as ([Wx Ax] & Lx & Mx). destruct (In_nth_error _ _ I) as [i Ei].
      destruct (nth_error (basis (emodule x)) i) as [g|] eqn:Eg.
      2:{ exfalso. apply nth_error_None in Eg. assert (i < length (coeffs x))%nat by (apply nth_error_Some; congruence). lia. }
      pose proof Hz as (_ & Lz & Mz'). rewrite Mz in Lz.
      destruct (nth_error (coeffs z) i) as [d|] eqn:Ed.
      2:{ exfalso. apply nth_error_None in Ed. assert (i < length (coeffs x))%nat by (apply nth_error_Some; congruence). lia. }
      pose proof (L_imul A S L _ c s (proj1 (Forall_forall _ _) Mx c I) Hs) as X. destruct (imul c s) as [c'|]; [eauto|]. exfalso. apply X. exists d.
      split; [rewrite <- Mz; apply (proj1 (Forall_forall _ _) Mz'), (nth_error_In _ _ Ed)|].
      assert (Cx : In (g, c) (combine (basis (emodule x)) (coeffs x))).
      { clear -Eg Ei. revert Eg Ei. generalize (basis (emodule x)) (coeffs x). induction i as [|i IH]; intros [|h gs] [|e cs] Eg Ei; cbn in *; try discriminate; [left; congruence|right; apply IH; assumption]. }
      assert (Cz : In (g, d) (combine (basis (emodule x)) (coeffs z))).
      { clear -Eg Ed. revert Eg Ed. generalize (basis (emodule x)) (coeffs z). induction i as [|i IH]; intros [|h gs] [|e cs] Eg Ed; cbn in *; try discriminate; [left; congruence|right; apply IH; assumption]. }
      apply (rcoef_in A S _ _ g c Ax) in Cx. apply (rcoef_in A S _ _ g d Ax) in Cz.
      assert (U : rcoef (rlist A S z) g = rcoef (rscale (sval S s) (rlist A S x)) g).
      { apply rcoef_unique; [apply rlist_wf, Hz|rewrite rscale_gens; apply rlist_wf, Hx| |apply (proj1 (Forall_forall _ _) Wx), (nth_error_In _ _ Eg)].
        intros rho. rewrite rscale_comb, !rlist_value, V. ring. }
      rewrite rscale_coef in U. unfold rlist in U. rewrite Mz, Cx, Cz in U.
      apply (Rmult_eq_reg_r (lead g)); [lra|]. intros E. apply Z. rewrite <- (lead_zero g E). apply (nth_error_In _ _ Eg). }
    destruct (scale_total _ (fun c => imul_left c s) _ T) as [ds E]. unfold smul, imul_elem. rewrite E. cbn. eauto.
  Qed.
  Lemma sdiv_spec x s y : elem_wf S x -> smem S (mring (emodule x)) s -> sval S s <> 0 -> sdiv x s = Ok y ->
    elem_wf S y /\ emodule y = emodule x /\ forall rho, value S rho y = value S rho x / sval S s.
  Proof.
    intros (W & Hl & Hm) Hs Ns H. unfold sdiv, scaled, idiv_elem in H. destruct (scale _ _ _) as [cs [e|]] eqn:E; [discriminate|]. injection H as <-.
    destruct (fun H => scale_ok (mring (emodule x)) (fun c => idiv c s) _ (/ sval S s) (coeffs x) cs H E) as (A1 & A2 & A3).
    { intros c c' I Ec. pose proof (L_idiv A S L _ c s (proj1 (Forall_forall _ _) Hm c I) Hs) as X. cbn in Ec. rewrite Ec in X. destruct X as (_ & X & Y). split; [exact X|]. exact Y. }
    split; [split; [exact W|split; [cbn; congruence|exact A2]]|]. split; [reflexivity|]. intros rho. rewrite !value_evalv. unfold evalv. cbn. apply A3.
  Qed.
  Lemma sdiv_zero x s : elem_wf S x -> smem S (mring (emodule x)) s -> sval S s = 0 -> basis (emodule x) <> [] -> sdiv x s = Err InvalidArgument.
  Proof.
    intros (W & Hl & Hm) Hs Zs B. unfold sdiv, idiv_elem. destruct (coeffs x) as [|c cs]; [destruct (basis (emodule x)); [contradiction|discriminate]|].
    cbn. inversion Hm; subst. pose proof (L_idiv A S L _ c s ltac:(eassumption) Hs) as X. destruct (idiv c s) as [c'|e]; [exfalso; apply X, Zs|]. cbn. f_equal. apply X.
  Qed.
  Lemma sdiv_complete x s z : elem_wf S x -> smem S (mring (emodule x)) s -> no_zero_gen (basis (emodule x)) -> sval S s <> 0 ->
    elem_wf S z -> emodule z = emodule x -> (forall rho, value S rho z = value S rho x / sval S s) -> exists y, sdiv x s = Ok y.
  Proof.
    intros Hx Hs Z Ns Hz Mz V. assert (forall c, In c (coeffs x) -> exists c', idiv c s = Ok c') as T.
    { intros c I. pose proof Hx as ([Wx Ax] & Lx & Mx). destruct (In_nth_error _ _ I) as [i Ei].
      destruct (nth_error (basis (emodule x)) i) as [g|] eqn:Eg.
      2:{ exfalso. apply nth_error_None in Eg. assert (i < length (coeffs x))%nat by (apply nth_error_Some; congruence). lia. }
      pose proof Hz as (_ & Lz & Mz'). rewrite Mz in Lz.
      destruct (nth_error (coeffs z) i) as [d|] eqn:Ed.
      2:{ exfalso. apply nth_error_None in Ed. assert (i < length (coeffs x))%nat by (apply nth_error_Some; congruence). lia. }
      pose proof (L_idiv A S L _ c s (proj1 (Forall_forall _ _) Mx c I) Hs) as X. destruct (idiv c s) as [c'|]; [eauto|]. exfalso. destruct X as [_ [X|X]]; [contradiction|]. apply X. exists d.
      split; [rewrite <- Mz; apply (proj1 (Forall_forall _ _) Mz'), (nth_error_In _ _ Ed)|].
      assert (Cx : In (g, c) (combine (basis (emodule x)) (coeffs x))).
      { clear -Eg Ei. revert Eg Ei. generalize (basis (emodule x)) (coeffs x). induction i as [|i IH]; intros [|h gs] [|e cs] Eg Ei; cbn in *; try discriminate; [left; congruence|right; apply IH; assumption]. }
      assert (Cz : In (g, d) (combine (basis (emodule x)) (coeffs z))).
      { clear -Eg Ed. revert Eg Ed. generalize (basis (emodule x)) (coeffs z). induction i as [|i IH]; intros [|h gs] [|e cs] Eg Ed; cbn in *; try discriminate; [left; congruence|right; apply IH; assumption]. }
      apply (rcoef_in A S _ _ g c Ax) in Cx. apply (rcoef_in A S _ _ g d Ax) in Cz.
      assert (U : rcoef (rlist A S z) g = rcoef (rscale (/ sval S s) (rlist A S x)) g).
      { apply rcoef_unique; [apply rlist_wf, Hz|rewrite rscale_gens; apply rlist_wf, Hx| |apply (proj1 (Forall_forall _ _) Wx), (nth_error_In _ _ Eg)].
        intros rho. rewrite rscale_comb, !rlist_value, V. field. exact Ns. }
      rewrite rscale_coef in U. unfold rlist in U. rewrite Mz, Cx, Cz in U.
      apply (Rmult_eq_reg_r (lead g)); [unfold Rdiv; lra|]. intros E. apply Z. rewrite <- (lead_zero g E). apply (nth_error_In _ _ Eg). }
    destruct (scale_total _ (fun c => idiv_left c s) _ T) as [ds E]. unfold sdiv, idiv_elem. rewrite E. cbn. eauto.
  Qed.
  (** In place: when the first coefficient cannot be divided, nothing has changed. *)
  Lemma idiv_elem_zero x s : elem_wf S x -> smem S (mring (emodule x)) s -> sval S s = 0 -> fst (idiv_elem x s) = x.
  Proof.
    intros (W & Hl & Hm) Hs Zs. unfold idiv_elem. destruct x as [M [|c cs]]; cbn in *; [reflexivity|].
    inversion Hm; subst. pose proof (L_idiv A S L _ c s ltac:(eassumption) Hs) as X. destruct (idiv c s) as [c'|e]; [exfalso; apply X, Zs|]. cbn. rewrite (proj2 (L_idiv_left A S L _ c s ltac:(eassumption) Hs) (or_intror Zs)). reflexivity.
  Qed.

  (** * simplify *)
  Definition support (gs : list gen) cs : list gen := map fst (filter (fun x : gen * car A => let (_, c) := x in negb (cz c)) (combine gs cs)).
  Lemma support_in gs cs g : In g (support gs cs) <-> exists c, In (g, c) (combine gs cs) /\ c <> czero A.
  Proof.
    unfold support. rewrite in_map_iff. split.
    - intros ([h c] & <- & H). apply filter_In in H. destruct H as [I N]. exists c. split; [exact I|]. apply (cz_false A S L), negb_true_iff, N.
    - intros (c & I & N). exists (g, c). split; [reflexivity|]. apply filter_In. split; [exact I|]. apply negb_true_iff, (cz_false A S L), N.
  Qed.
  Lemma support_ascending gs : forall cs, ascending gs -> ascending (support gs cs).
  Proof.
    induction gs as [|g gs IH]; intros [|c cs] H; try exact I. destruct H as [H1 H2]. unfold support. cbn. destruct (cz c); cbn; [apply IH, H2|].
    split; [|apply IH, H2]. intros h Hh. apply H1. apply (support_in gs cs) in Hh. destruct Hh as (d & Id & _). apply in_combine_l in Id. exact Id.
  Qed.
  Lemma support_all gs : forall cs, length cs = length gs -> length (support gs cs) = length gs -> forallb (fun c => negb (cz c)) cs = true.
  Proof.
    assert (LE : forall gs cs, (length (support gs cs) <= length gs)%nat).
    { clear. induction gs as [|g gs IH]; intros [|c cs]; cbn; try lia. unfold support in *. cbn. destruct (cz c); cbn; specialize (IH cs); lia. }
    induction gs as [|g gs IH]; intros [|c cs] H E; try discriminate; [reflexivity|]. unfold support in E. cbn in E |- *. destruct (cz c) eqn:Ec; cbn in E |- *.
    - exfalso. specialize (LE gs cs). unfold support in LE. lia.
    - apply IH; [cbn in H; lia|]. unfold support. lia.
  Qed.
  Lemma simplify_spec x : elem_wf S x -> exists y, simplify x = Ok y /\ elem_wf S y /\ mring (emodule y) = mring (emodule x) /\
    (forall rho, value S rho y = value S rho x) /\
    (forall g, In g (basis (emodule y)) <-> exists c, In (g, c) (combine (basis (emodule x)) (coeffs x)) /\ c <> czero A) /\
    Forall (fun c => c <> czero A) (coeffs y).
  Proof.
    intros Hx. pose proof Hx as ([Wx Ax] & Lx & Mx). unfold simplify.
    assert (All : forallb (fun c => negb (cz c)) (coeffs x) = true -> Forall (fun c => c <> czero A) (coeffs x) /\
              (forall g, In g (basis (emodule x)) <-> exists c, In (g, c) (combine (basis (emodule x)) (coeffs x)) /\ c <> czero A)).
    { intros F. rewrite forallb_forall in F. assert (F' : forall c, In c (coeffs x) -> c <> czero A) by (intros c I; apply (cz_false A S L), negb_true_iff, F, I).
      split; [apply Forall_forall, F'|]. intros g. split.
      - intros I. rewrite <- (map_fst_combine A _ _ Lx) in I. apply in_map_iff in I. destruct I as ([h c] & <- & I). exists c. split; [exact I|]. apply F'. apply in_combine_r in I. exact I.
      - intros (c & I & _). apply in_combine_l in I. exact I. }
    destruct (forallb _ (coeffs x)) eqn:F.
    { exists x. destruct (All eq_refl) as [A1 A2]. auto 10. }
    change (map fst (filter _ (combine (basis (emodule x)) (coeffs x)))) with (support (basis (emodule x)) (coeffs x)).
    destruct (Nat.eqb_spec (length (support (basis (emodule x)) (coeffs x))) (rank (emodule x))) as [E|E].
    { exfalso. rewrite (support_all (basis (emodule x)) (coeffs x) Lx E) in F. discriminate. }
    set (gens := support (basis (emodule x)) (coeffs x)).
    assert (Wg : Forall gen_wf gens).
    { apply Forall_forall. intros g Hg. apply support_in in Hg. destruct Hg as (c & I & _). apply in_combine_l in I. apply (proj1 (Forall_forall _ _) Wx g I). }
    assert (Ag : ascending gens) by (apply support_ascending, Ax).
    set (M := mkModule gens (mring (emodule x)) : module A).
    assert (WM : module_wf M) by (split; assumption).
    pose proof (make_id A M WM) as EM. cbn in EM. rewrite EM. cbn [bind].
    assert (Fi : fits A x M) by (intros g c I N; apply support_in; exists c; auto).
    destruct (promote_succeeds A S L x M Hx WM Fi) as [y Ey]. { intros c Hc. exists c. apply (L_coerce_mem A S L), Hc. }
    destruct (promote_spec A S L x M y Hx WM Ey) as (B1 & B2 & B3). specialize (B3 Fi). exists y. split; [exact Ey|]. split; [exact B1|]. rewrite B2.
    split; [reflexivity|]. split; [intros rho; rewrite !value_evalv; apply B3|]. split; [intros g; apply support_in|].
    (* coefficients of y are those of x at the generators of the support *)
    apply Forall_forall. intros d Hd. destruct B1 as ([Wy Ay] & Ly & My). rewrite B2 in Ay, Ly, My.
    destruct (In_nth_error _ _ Hd) as [i Ei]. destruct (nth_error gens i) as [g|] eqn:Eg.
    2:{ apply nth_error_None in Eg. assert (i < length (coeffs y))%nat by (apply nth_error_Some; congruence). cbn in Ly. lia. }
    assert (Iy : In (g, d) (combine gens (coeffs y))).
    { clear -Eg Ei. revert Eg Ei. generalize gens (coeffs y). induction i as [|i IH]; intros [|h gs] [|e cs] Eg Ei; cbn in *; try discriminate; [left; congruence|right; apply IH; assumption]. }
    pose proof (nth_error_In _ _ Eg) as Ig. apply support_in in Ig. destruct Ig as (c & Ic & Nc). intros ->. apply Nc.
    specialize (B3 (fun h => if gen_eqb h g then 1 else 0)). unfold evalv in B3. rewrite B2 in B3. cbn [basis] in B3.
    rewrite (comb_indicator_in A S _ _ g (czero A)) in B3; [|apply ascending_NoDup, Ag|exact Iy]. rewrite (comb_indicator_in A S _ _ g c) in B3; [|apply ascending_NoDup, Ax|exact Ic].
    rewrite (val_zero A S L) in B3. apply (val_zero_iff A S L (mring (emodule x))); [|symmetry; exact B3]. apply in_combine_r in Ic. apply (proj1 (Forall_forall _ _) Mx c Ic).
  Qed.

  (** * rationalCoefficients *)
  Definition padded p c : list Qc := coordinates c ++ repeat 0%Qc (degree_of p - length (coordinates c)).
  Lemma padded_length p c : mem S p c -> length (padded p c) = degree_of p.
  Proof. intros H. unfold padded. rewrite app_length, repeat_length. pose proof (L_coordinates A S L p c H). lia. Qed.
  Lemma polynomial_padded l n t : polynomial (l ++ repeat 0%Qc n) t = polynomial l t.
  Proof.
    induction l as [|q l IH]; cbn [app polynomial]; [|rewrite IH; reflexivity]. induction n as [|n IH]; cbn [repeat polynomial]; [reflexivity|].
    rewrite IH, Q2R_Qc_0. cbn. ring.
  Qed.
  Lemma padded_value p c : mem S p c -> polynomial (padded p c) (theta S p) = val S c.
  Proof. intros H. unfold padded. rewrite polynomial_padded. symmetry. apply (L_coordinates_val A S L p c H). Qed.
  Lemma rational_coefficients_padded x : rational_coefficients x = flat_map (padded (mring (emodule x))) (coeffs x).
  Proof. reflexivity. Qed.
  Lemma rational_coefficients_length x : elem_wf S x -> length (rational_coefficients x) = (length (basis (emodule x)) * degree_of (mring (emodule x)))%nat.
  Proof.
    intros (_ & Hl & Hm). rewrite <- Hl, rational_coefficients_padded.
    clear Hl. induction Hm as [|c cs Hc Hm IH]; [reflexivity|]. cbn [flat_map]. rewrite app_length, (padded_length _ _ Hc). cbn. rewrite IH. lia.
  Qed.
  Lemma rational_coefficients_inj x y : elem_wf S x -> elem_wf S y -> emodule x = emodule y -> (rational_coefficients x = rational_coefficients y <-> coeffs x = coeffs y).
  Proof.
    intros (_ & Lx & Mx) (_ & Ly & My) E. rewrite !rational_coefficients_padded. rewrite <- E in Ly, My |- *.
    split; [|intros ->; reflexivity]. assert (Len : length (coeffs x) = length (coeffs y)) by congruence. clear Lx Ly E. revert My Len. generalize (coeffs y).
    induction Mx as [|c cs Hc Mx IH]; intros [|d ds] My Len H; try discriminate; [reflexivity|]. inversion My; subst. cbn [flat_map] in H.
    apply app_eq_split in H; [|rewrite !padded_length by assumption; reflexivity]. destruct H as [Ha Hb]. f_equal; [apply (L_inj A S L (mring (emodule x))); [assumption|assumption|rewrite <- !(padded_value (mring (emodule x))) by assumption; rewrite Ha; reflexivity]|].
    apply IH; [assumption|cbn in Len; lia|exact Hb].
  Qed.
  Lemma rational_coefficients_nth x i j c : elem_wf S x -> nth_error (coeffs x) i = Some c -> (j < degree_of (mring (emodule x)))%nat ->
    nth_error (rational_coefficients x) (i * degree_of (mring (emodule x)) + j) = Some (nth j (coordinates c) 0%Qc).
  Proof.
    intros (_ & _ & Hm) Hi Hj. rewrite rational_coefficients_padded.
    revert i Hi. induction Hm as [|d cs Hd Hm IH]; intros [|i] Hi; cbn in Hi; try discriminate; cbn [flat_map].
    - injection Hi as ->. cbn [Nat.mul Nat.add]. rewrite nth_error_app1 by (rewrite padded_length by assumption; exact Hj).
      unfold padded. rewrite (nth_error_nth' _ 0%Qc) by (fold (padded (mring (emodule x)) c); rewrite padded_length by assumption; exact Hj). f_equal.
      destruct (Nat.lt_ge_cases j (length (coordinates c))) as [H|H]; [apply app_nth1, H|].
      rewrite app_nth2 by exact H. rewrite (nth_overflow (coordinates c)) by exact H. apply nth_repeat.
    - rewrite nth_error_app2 by (rewrite padded_length by assumption; cbn; lia). rewrite padded_length by assumption. rewrite <- IH with (i := i) by exact Hi. f_equal. cbn. lia.
  Qed.
End Proofs.
