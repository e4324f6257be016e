(** Change of ring, Module::one, comparison with real numbers, multiplication with real numbers. *)
From Coq Require Import ZArith QArith Qcanon Bool List Reals Qreals Permutation Lra Lia.
From Verif Require Import Gen SpecGen GenProofs Ring SpecRing RingProofs Module Element SpecModule ModuleProofs ElementProofs Independence ElementProofs2 ElementProofs3.
Import ListNotations.
Open Scope R_scope.

(** * Change of ring *)
Section Embed.
  Variables A B : ring.
  Variable SA : semantics A.
  Variable SB : semantics B.
  Hypothesis LA : lawful A SA.
  Hypothesis LB : lawful B SB.
  Variable f : car A -> car B.
  Hypothesis F : forall p c, mem SA p c -> mem SB (trivial_par B) (f c) /\ val SB (f c) = val SA c.

  Lemma comb_embed p v gs : forall cs, Forall (mem SA p) cs -> comb B SB v gs (map f cs) = comb A SA v gs cs.
  Proof.
    induction gs as [|g gs IH]; intros [|c cs] H; cbn; try reflexivity. inversion H; subst. rewrite IH by assumption.
    destruct (F p c) as [_ ->]; [assumption|]. reflexivity.
  Qed.
  Lemma embed_spec (x : elem A) : elem_wf SA x -> exists y : elem B, change_ring f x = Ok y /\ elem_wf SB y /\ basis (emodule y) = basis (emodule x) /\ mring (emodule y) = trivial_par B /\
    coeffs y = map f (coeffs x) /\ forall rho, value SB rho y = value SA rho x.
  Proof.
    intros (W & Hl & Hm). unfold change_ring. rewrite make_succeeds by apply ascending_compatible, W. cbn [bind].
    unfold make_elem, rank. cbn [basis]. rewrite (gsort_id _ (proj1 W) (proj2 W)), map_length, Hl, Nat.eqb_refl. eexists. split; [reflexivity|]. cbn [emodule basis coeffs mring].
    split.
    - split; [exact W|]. split; [cbn; rewrite map_length; exact Hl|]. cbn. apply Forall_forall. intros c I. apply in_map_iff in I. destruct I as (d & <- & I).
      apply (F (mring (emodule x))). apply (proj1 (Forall_forall _ _) Hm d I).
    - repeat (split; [reflexivity|]). intros rho. rewrite (value_evalv B SB), (value_evalv A SA). unfold evalv. cbn [emodule basis coeffs]. apply (comb_embed (mring (emodule x))), Hm.
  Qed.
  Lemma embed_standard p (x : elem A) : standard SA p x -> exists y : elem B, change_ring f x = Ok y /\ standard SB (trivial_par B) y /\ forall rho, value SB rho y = value SA rho x.
  Proof.
    intros (W & _ & G). destruct (embed_spec x W) as (y & E & Wy & By & Ry & _ & V). exists y. split; [exact E|]. split; [|exact V].
    split; [exact Wy|]. split; [exact Ry|]. rewrite By. exact G.
  Qed.
  (** Two computations that denote the same number. *)
  Lemma embed_op p (z : elem A) (z' : elem B) l r : l = Ok z -> r = Ok z' -> standard SA p z -> standard SB (trivial_par B) z' ->
    (forall rho, value SB rho z' = value SA rho z) -> same (bind l (change_ring f)) r.
  Proof.
    intros -> -> Hz Hz' V. cbn [bind]. destruct (embed_standard p z Hz) as (u & Eu & Su & Vu). exists u, z'. split; [exact Eu|]. split; [reflexivity|].
    apply (std_equal B SB LB (trivial_par B)); [exact Su|exact Hz'|]. intros rho. rewrite Vu, V. reflexivity.
  Qed.
  Lemma embed_add p (x y : elem A) (x' y' : elem B) : standard SA p x -> standard SA p y -> change_ring f x = Ok x' -> change_ring f y = Ok y' ->
    same (bind (add x y) (change_ring f)) (add x' y').
  Proof.
    intros Hx Hy Ex Ey. destruct (embed_standard p x Hx) as (u & Eu & Su & Vu). destruct (embed_standard p y Hy) as (w & Ew & Sw & Vw).
    assert (u = x') as -> by congruence. assert (w = y') as -> by congruence.
    destruct (std_add A SA LA p x y Hx Hy) as (z & Ez & Sz & Vz). destruct (std_add B SB LB _ x' y' Su Sw) as (z' & Ez' & Sz' & Vz').
    apply (embed_op p z z'); try assumption. intros rho. rewrite Vz', Vz, Vu, Vw. reflexivity.
  Qed.
  Lemma embed_sub p (x y : elem A) (x' y' : elem B) : standard SA p x -> standard SA p y -> change_ring f x = Ok x' -> change_ring f y = Ok y' ->
    same (bind (sub x y) (change_ring f)) (sub x' y').
  Proof.
    intros Hx Hy Ex Ey. destruct (embed_standard p x Hx) as (u & Eu & Su & Vu). destruct (embed_standard p y Hy) as (w & Ew & Sw & Vw).
    assert (u = x') as -> by congruence. assert (w = y') as -> by congruence.
    destruct (std_sub A SA LA p x y Hx Hy) as (z & Ez & Sz & Vz). destruct (std_sub B SB LB _ x' y' Su Sw) as (z' & Ez' & Sz' & Vz').
    apply (embed_op p z z'); try assumption. intros rho. rewrite Vz', Vz, Vu, Vw. reflexivity.
  Qed.
  Lemma embed_mul p (x y : elem A) (x' y' : elem B) : standard SA p x -> standard SA p y -> change_ring f x = Ok x' -> change_ring f y = Ok y' ->
    same (bind (mul x y) (change_ring f)) (mul x' y').
  Proof.
    intros Hx Hy Ex Ey. destruct (embed_standard p x Hx) as (u & Eu & Su & Vu). destruct (embed_standard p y Hy) as (w & Ew & Sw & Vw).
    assert (u = x') as -> by congruence. assert (w = y') as -> by congruence.
    destruct (std_mul A SA LA p x y Hx Hy) as (z & Ez & Sz & Vz). destruct (std_mul B SB LB _ x' y' Su Sw) as (z' & Ez' & Sz' & Vz').
    apply (embed_op p z z'); try assumption. intros rho. rewrite Vz', Vz, Vu, Vw. reflexivity.
  Qed.
  Lemma embed_equal p (x y : elem A) (x' y' : elem B) : standard SA p x -> standard SA p y -> change_ring f x = Ok x' -> change_ring f y = Ok y' ->
    equal x y = equal x' y'.
  Proof.
    intros Hx Hy Ex Ey. destruct (embed_standard p x Hx) as (u & Eu & Su & Vu). destruct (embed_standard p y Hy) as (w & Ew & Sw & Vw).
    assert (u = x') as -> by congruence. assert (w = y') as -> by congruence.
    destruct (equal_total A SA LA x y (proj1 Hx) (proj1 Hy) (standard_combinable A SA p x y Hx Hy)) as [b Eb].
    destruct (equal_total B SB LB x' y' (proj1 Su) (proj1 Sw) (standard_combinable B SB _ x' y' Su Sw)) as [b' Eb'].
    rewrite Eb, Eb'. f_equal. pose proof (equal_value A SA LA x y b (proj1 Hx) (proj1 Hy) (standard_no_zero A SA p x Hx) (standard_no_zero A SA p y Hy) Eb) as P.
    pose proof (equal_value B SB LB x' y' b' (proj1 Su) (proj1 Sw) (standard_no_zero B SB _ x' Su) (standard_no_zero B SB _ y' Sw) Eb') as P'.
    assert (Q : b = true <-> b' = true); [|destruct b, b'; intuition congruence]. rewrite P, P'. split; intros V rho; specialize (V rho); rewrite ?Vu, ?Vw in *; assumption.
  Qed.
End Embed.

Lemma int_to_rat_embeds p c : mem int_sem p c -> mem rat_sem (trivial_par rat_ring) (int_to_rat c) /\ val rat_sem (int_to_rat c) = val int_sem c.
Proof. intros _. split; [exact I|]. apply Q2R_Qc_of_Z. Qed.
Lemma int_to_quad_embeds p c : mem int_sem p c -> mem quad_sem (trivial_par quad_ring) (int_to_quad c) /\ val quad_sem (int_to_quad c) = val int_sem c.
Proof. intros _. split; [apply qmem_of_q|]. exact (eq_trans (qval_of_q _) (Q2R_Qc_of_Z _)). Qed.
Lemma rat_to_quad_embeds p c : mem rat_sem p c -> mem quad_sem (trivial_par quad_ring) (rat_to_quad c) /\ val quad_sem (rat_to_quad c) = val rat_sem c.
Proof. intros _. split; [apply qmem_of_q|]. apply qval_of_q. Qed.

Section Proofs.
  Variable A : ring.
  Variable S : semantics A.
  Hypothesis L : lawful A S.
  Implicit Types M N : module A.
  Implicit Types x y z : elem A.
  Implicit Types c d : car A.
  Implicit Types cs ds : list (car A).
  Implicit Types p : par A.

  (** * one *)
  Fixpoint one_loop (integers : bool) M (j : nat) (b : list gen) : result (elem A) :=
    match b with
    | [] => Err LogicError
    | GRat q :: b' =>
        if integers then
          if (qc_num q =? 1)%Z then bind (module_gen M (Z.of_nat j)) (fun g => smul g (SZ (qc_den q))) else one_loop integers M (Datatypes.S j) b'
        else if (0 <? qc_num q)%Z then bind (module_gen M (Z.of_nat j)) (fun g => smul g (SQ (/ q)))
        else Err AssertionFailed
    | _ :: b' => one_loop integers M (Datatypes.S j) b'
    end.
  Lemma one_of_loop i M : one_of i M = one_loop i M 0 (basis M).
  Proof.
    unfold one_of. generalize O as j. induction (basis M) as [|[q| |] b IH]; intros j; cbn; try reflexivity; try apply IH.
    destruct i; [destruct (qc_num q =? 1)%Z; [reflexivity|apply IH]|]. destruct (0 <? qc_num q)%Z; reflexivity.
  Qed.
  Lemma qc_num_pos (q : Qc) : (0 < qc_num q)%Z <-> 0 < Q2R q.
  Proof.
    rewrite Q2R_num_den. pose proof (qc_den_R q). split; intros H0.
    - apply Rdiv_lt_0_compat; [apply (IZR_lt 0), H0|assumption].
    - apply lt_IZR. replace (IZR (qc_num q)) with (IZR (qc_num q) / IZR (qc_den q) * IZR (qc_den q)) by (field; lra). nra.
  Qed.
  Lemma one_loop_sound i M : module_wf M -> forall b j x, (forall k, nth_error b k = nth_error (basis M) (j + k)) -> one_loop i M j b = Ok x ->
    elem_wf S x /\ emodule x = M /\ forall rho, value S rho x = 1.
  Proof.
    intros W. induction b as [|g b IH]; intros j x N H; [discriminate|].
    assert (N' : forall k, nth_error b k = nth_error (basis M) (Datatypes.S j + k)) by (intros k; specialize (N (Datatypes.S k)); cbn in N; rewrite N; f_equal; lia).
    pose proof (N O) as N0. rewrite Nat.add_0_r in N0. cbn in N0.
    destruct g as [q| |]; cbn in H; try (apply (IH (Datatypes.S j)); assumption).
    assert (K : forall s, sval S s * Q2R q = 1 -> smem S (mring M) s -> bind (module_gen M (Z.of_nat j)) (fun g => smul g s) = Ok x -> elem_wf S x /\ emodule x = M /\ forall rho, value S rho x = 1).
    { intros s Vs Ms E. destruct (module_gen M (Z.of_nat j)) as [g|] eqn:Eg; [|discriminate]. cbn [bind] in E.
      destruct (module_gen_spec A S L M _ g W Eg) as (Wg & Mg & h & Hh & Vg & _). rewrite Nat2Z.id, <- N0 in Hh. injection Hh as <-.
      rewrite <- Mg in Ms. destruct (smul_spec A S L g s x Wg Ms E) as (Wx & Mx & Vx).
      split; [exact Wx|]. split; [congruence|]. intros rho. rewrite Vx, Vg. cbn. lra. }
    destruct i.
    - destruct (Z.eqb_spec (qc_num q) 1) as [E|E]; [|apply (IH (Datatypes.S j)); assumption].
      apply (K (SZ (qc_den q))); [|exact I|exact H]. cbn. rewrite Q2R_num_den, E. pose proof (qc_den_R q). field. lra.
    - destruct (Z.ltb_spec 0 (qc_num q)) as [E|E]; [|discriminate]. apply qc_num_pos in E. apply (K (SQ (/ q)%Qc)); [|exact I|exact H]. cbn [sval].
      rewrite Q2R_Qc_inv; [field; lra|]. intros ->. rewrite Q2R_Qc_0 in E. lra.
  Qed.
  Lemma one_sound i M x : module_wf M -> one_of i M = Ok x -> elem_wf S x /\ emodule x = M /\ forall rho, value S rho x = 1.
  Proof. intros W H. rewrite one_of_loop in H. apply (one_loop_sound i M W (basis M) 0%nat x); [reflexivity|exact H]. Qed.

  Lemma one_loop_skip i M b : forall j, (forall g, In g b -> ~ rational g) -> one_loop i M j b = Err LogicError.
  Proof.
    induction b as [|g b IH]; intros j H; cbn; [reflexivity|]. pose proof (H g (or_introl eq_refl)) as R.
    destruct g; [exfalso; apply R; exact I| |]; apply IH; intros h Hh; apply H; right; exact Hh.
  Qed.
  (** The rational generator comes first. *)
  Lemma rational_first M q : module_wf M -> In (GRat q) (basis M) -> exists b, basis M = GRat q :: b /\ forall g, In g b -> ~ rational g.
  Proof.
    intros [_ W] I0. destruct (basis M) as [|g b]; [contradiction|]. destruct W as [W1 W2]. destruct I0 as [->|I0].
    - exists b. split; [reflexivity|]. intros g Hg R. destruct (W1 g Hg) as [[_ N]|[N _]]; [contradiction|apply N; exact I].
    - exfalso. destruct (W1 _ I0) as [[_ N]|[_ [N _]]]; apply N; exact I.
  Qed.
  Lemma one_no_rational i M : module_wf M -> (forall g, In g (basis M) -> ~ rational g) ->
    one_of i M = Err LogicError /\ ~ exists x, elem_wf S x /\ emodule x = M /\ forall rho, value S rho x = 1.
  Proof.
    intros W H. rewrite one_of_loop. split; [apply one_loop_skip, H|]. intros (x & Wx & Mx & V).
    assert (V1 : forall rho, value S rho x = Q2R 1%Qc) by (intros rho; rewrite V; unfold Q2R; cbn; field).
    specialize (V (fun _ => 0)). rewrite value_evalv in V. unfold evalv in V.
    rewrite (comb_zeros A S L) in V; [lra|]. apply Forall_forall. intros c Ic.
    assert (exists g, In (g, c) (combine (basis (emodule x)) (coeffs x))) as [g Ig].
    { apply In_nth_error in Ic. destruct Ic as [n Hn]. pose proof (proj1 (nth_error_Some (coeffs x) n) ltac:(congruence)) as Ln.
      rewrite (proj1 (proj2 Wx)) in Ln. apply nth_error_Some in Ln. destruct (nth_error (basis (emodule x)) n) as [g|] eqn:Eg; [|congruence]. exists g.
      clear -Hn Eg. revert n Hn Eg. generalize (coeffs x). induction (basis (emodule x)) as [|h gs IH]; intros [|d cs] [|n] Hn Eg; try discriminate; cbn in *.
      - injection Hn as ->. injection Eg as ->. left. reflexivity.
      - right. apply (IH cs n); assumption. }
    apply (constant_coefficients A S L x _ Wx V1 g c Ig). apply H. rewrite <- Mx. apply in_combine_l in Ig. exact Ig.
  Qed.
  (** Over a field every module with a positive rational generator has a one. *)
  Lemma one_field M q : module_wf M -> In (GRat q) (basis M) -> 0 < Q2R q ->
    (exists c, mem S (mring M) c /\ val S c * Q2R q = 1) -> exists x, one_of false M = Ok x.
  Proof.
    intros W I0 P (c1 & My & Vy). rewrite one_of_loop. destruct (rational_first M q W I0) as (b & Eb & Hb). rewrite Eb. cbn [one_loop].
    assert ((0 <? qc_num q)%Z = true) as -> by (apply Z.ltb_lt, qc_num_pos, P). unfold module_gen, rank. rewrite Eb.
    replace ((0 <=? Z.of_nat 0)%Z && (Z.of_nat 0 <? Z.of_nat (length (GRat q :: b)))%Z) with true by (symmetry; apply andb_true_iff; split; [reflexivity|apply Z.ltb_lt; cbn [length]; lia]). cbn [bind].
    unfold smul, imul_elem. cbn [coeffs]. match goal with |- context [scale ?f ?l ?cs] => destruct (scale_total A f l cs) as [ds E] end.
    - intros c Ic. unfold unit_vector in Ic. apply in_map_iff in Ic. destruct Ic as (n & <- & _).
      assert (Mc : mem S (mring M) (if Nat.eqb n (Z.to_nat (Z.of_nat 0)) then cone A else czero A)) by (destruct (Nat.eqb _ _); [apply (L_one A S L)|apply (L_zero A S L)]).
      pose proof (L_imul A S L (mring M) _ (SQ (/ q)%Qc) Mc I) as X. destruct (imul _ _) as [c'|e]; [eauto|]. exfalso. apply X.
      assert (NZ : q <> 0%Qc) by (intros ->; rewrite Q2R_Qc_0 in P; lra).
      destruct (Nat.eqb _ _).
      + exists c1. split; [exact My|]. rewrite (val_one A S L). cbn [sval]. rewrite Q2R_Qc_inv by exact NZ. apply Rmult_eq_reg_r with (Q2R q); [|lra]. rewrite Vy. field. lra.
      + exists (czero A). split; [apply (L_zero A S L)|]. rewrite (val_zero A S L). ring.
    - rewrite E. cbn. eauto.
  Qed.

  (** * Comparison with a real number *)
  Lemma eq_real_loop_spec gs r : forall cs, NoDup gs -> length cs = length gs -> eq_real_loop gs cs r = true <->
    forall g c, In (g, c) (combine gs cs) -> c = if gen_eqb g r then cone A else czero A.
  Proof.
    assert (D : cone A <> czero A) by (intros E; pose proof (val_one A S L) as V1; rewrite E, (val_zero A S L) in V1; lra).
    induction gs as [|h gs IH]; intros [|d cs] N H; cbn in *; try discriminate; [split; [intros _ g c []|reflexivity]|].
    inversion N as [|? ? Nh N']; subst. specialize (IH cs N' ltac:(lia)). destruct (cz d) eqn:Ed.
    - apply (cz_spec A S L) in Ed. subst d. destruct (gen_eqb h r) eqn:Eh.
      + split; [discriminate|]. intros X. specialize (X h (czero A) (or_introl eq_refl)). rewrite Eh in X. congruence.
      + rewrite IH. split; [|intros X g c I; apply X; right; exact I]. intros X g c [E|I]; [injection E as <- <-; rewrite Eh; reflexivity|apply X, I].
    - destruct (ceqb d (cone A)) eqn:E1.
      + apply (L_eqb A S L) in E1. subst d. destruct (gen_eqb h r) eqn:Eh.
        * rewrite IH. split; [|intros X g c I; apply X; right; exact I]. intros X g c [E|I]; [injection E as <- <-; rewrite Eh; reflexivity|apply X, I].
        * split; [discriminate|]. intros X. specialize (X h (cone A) (or_introl eq_refl)). rewrite Eh in X. congruence.
      + split; [discriminate|]. intros X. specialize (X h d (or_introl eq_refl)). destruct (gen_eqb h r).
        * subst d. rewrite (proj2 (L_eqb A S L _ _) eq_refl) in E1. discriminate.
        * subst d. rewrite (proj2 (cz_spec A S L _) eq_refl) in Ed. discriminate.
  Qed.
  Lemma comb_of_indicator v r gs : forall cs, NoDup gs -> In r gs -> length cs = length gs ->
    (forall g c, In (g, c) (combine gs cs) -> c = if gen_eqb g r then cone A else czero A) -> comb A S v gs cs = v r.
  Proof.
    induction gs as [|h gs IH]; intros [|d cs] N I0 H X; try contradiction; try discriminate. cbn. inversion N as [|? ? Nh N']; subst.
    pose proof (X h d (or_introl eq_refl)) as Xd. destruct I0 as [->|I0].
    - rewrite gen_eqb_refl in Xd. subst d. rewrite (val_one A S L). rewrite (comb_zeros A S L); [ring|]. apply Forall_forall. intros c Ic.
      apply In_nth_error in Ic. destruct Ic as [n Hn]. pose proof (proj1 (nth_error_Some cs n) ltac:(congruence)) as Ln. cbn in H.
      assert (Lg : (n < length gs)%nat) by lia. apply nth_error_Some in Lg. destruct (nth_error gs n) as [g|] eqn:Eg; [|congruence].
      assert (Ig : In (g, c) (combine gs cs)).
      { clear -Hn Eg. revert cs n Hn Eg. induction gs as [|h gs IH]; intros [|d cs] [|n] Hn Eg; try discriminate; cbn in *.
        - injection Hn as ->. injection Eg as ->. left. reflexivity.
        - right. apply (IH cs n); assumption. }
      rewrite (X g c (or_intror Ig)). destruct (gen_eqb g r) eqn:E; [|reflexivity]. apply gen_eqb_eq in E. subst g. apply nth_error_In in Eg. contradiction.
    - destruct (gen_eqb h r) eqn:E; [apply gen_eqb_eq in E; subst h; contradiction|]. subst d. rewrite (val_zero A S L), (IH cs); [ring|exact N'|exact I0|cbn in H; lia|].
      intros g c I. apply X. right. exact I.
  Qed.
  Lemma gen_is_zero_spec r : gen_wf r -> (gen_is_zero r = true <-> forall rho, gen_val rho r = 0).
  Proof.
    intros W. destruct r as [q|i|ms]; cbn.
    - split.
      + intros E rho. apply Qeq_bool_iff, Qeq_eqR in E. rewrite E. unfold Q2R. cbn. field.
      + intros H. specialize (H (fun _ => 0)). apply Qeq_bool_iff, eqR_Qeq. rewrite H. unfold Q2R. cbn. field.
    - split; [discriminate|]. intros H. specialize (H (fun _ => 1)). cbn in H. lra.
    - split; [discriminate|]. intros H. specialize (H (fun _ => 1)). exfalso. clear W. assert (E : mons_val (fun _ => 1) ms = 1); [|lra].
      clear H. induction ms as [|[i e] ms IH]; cbn; [reflexivity|]. rewrite IH, pow1. ring.
  Qed.
  Lemma eq_real_spec x r b : elem_wf S x -> no_zero_gen (basis (emodule x)) -> gen_wf r -> eq_real x r = Ok b ->
    (b = true <-> forall rho, value S rho x = gen_val rho r).
  Proof.
    intros Hx Z Wr H. unfold eq_real in H. destruct (nonzero x) eqn:Nx; cbn [negb] in H.
    - destruct (has_gen (basis (emodule x)) r) eqn:Hr; [|discriminate]. injection H as <-. apply has_gen_spec in Hr.
      destruct Hx as ([W1 W2] & Hl & Hm). pose proof (ascending_NoDup _ W2) as ND.
      rewrite (eq_real_loop_spec _ _ _ ND Hl). split.
      + intros X rho. rewrite value_evalv. unfold evalv. apply comb_of_indicator; assumption.
      + intros V. apply In_nth_error in Hr. destruct Hr as [n Hn].
        assert (Ln : (n < length (basis (emodule x)))%nat) by (apply nth_error_Some; congruence).
        destruct (module_gen (emodule x) (Z.of_nat n)) as [y|e] eqn:Ey.
        2:{ exfalso. unfold module_gen, rank in Ey. destruct (_ && _) eqn:E; [discriminate|]. apply andb_false_iff in E. destruct E as [E|E]; [apply Z.leb_gt in E; lia|apply Z.ltb_ge in E; lia]. }
        pose proof Ey as Ey'. destruct (module_gen_spec A S L (emodule x) _ y (conj W1 W2) Ey) as (Wy & My & g & Hg & Vg & _).
        rewrite Nat2Z.id in Hg. assert (g = r) as -> by congruence.
        assert (x = y) as Exy.
        { apply (value_inj A S L); [split; [split; assumption|split; assumption]|exact Wy|congruence|exact Z|]. intros rho. rewrite V, Vg. reflexivity. }
        assert (Ec : coeffs x = unit_vector A (length (basis (emodule x))) n).
        { unfold module_gen, rank in Ey'. destruct (_ && _); [|discriminate]. rewrite Nat2Z.id in Ey'. assert (Q : coeffs y = unit_vector A (length (basis (emodule x))) n) by (injection Ey' as <-; reflexivity). rewrite Exy at 1. exact Q. }
        intros g c I0. destruct (in_combine_nth A _ _ _ _ I0) as (k & Hk & Ck).
        assert (Lk : (k < length (basis (emodule x)))%nat) by (apply nth_error_Some; congruence).
        rewrite Ec, (unit_vector_nth A _ _ _ Lk) in Ck. assert (Ck' : c = if Nat.eqb k n then cone A else czero A) by congruence. rewrite Ck'. destruct (Nat.eqb_spec k n) as [->|Nk].
        * assert (g = r) as -> by congruence. rewrite gen_eqb_refl. reflexivity.
        * destruct (gen_eqb g r) eqn:E; [|reflexivity]. apply gen_eqb_eq in E. subst g. exfalso. apply Nk.
          apply (proj1 (NoDup_nth_error (basis (emodule x))) ND); [exact Lk|congruence].
    - injection H as <-. rewrite (gen_is_zero_spec r Wr). split; intros V rho; specialize (V rho).
      + rewrite V, value_evalv. apply (evalv_nonzero_false A S L), Nx.
      + rewrite <- V, value_evalv. apply (evalv_nonzero_false A S L), Nx.
  Qed.
  Lemma eq_real_throws x r : (exists e, eq_real x r = Err e) <-> nonzero x = true /\ ~ In r (basis (emodule x)).
  Proof.
    unfold eq_real. destruct (nonzero x); cbn [negb].
    - destruct (has_gen _ _) eqn:E; split.
      + intros [e H]; discriminate.
      + intros [_ H]. apply has_gen_spec in E. contradiction.
      + intros _. split; [reflexivity|]. rewrite <- has_gen_spec. congruence.
      + eauto.
    - split; [intros [e H]; discriminate|intros [H _]; discriminate].
  Qed.

  (** * Multiplication with a real number *)
  Lemma mul_real_spec x g y : elem_wf S x -> gen_wf g -> mul_real x g = Ok y -> elem_wf S y /\ forall rho, value S rho y = value S rho x * gen_val rho g.
  Proof.
    intros Hx Wg H. unfold mul_real in H. destruct (make [g] (mring (emodule x))) as [M|] eqn:E; [|discriminate]. cbn [bind] in H.
    unfold make in E. cbn in E. injection E as <-. destruct (module_gen _ 0) as [u|] eqn:Eu; [|discriminate]. cbn [bind] in H.
    assert (WM : module_wf (mkModule [g] (mring (emodule x)))) by (split; [constructor; [exact Wg|constructor]|split; [intros h []|exact I]]).
    destruct (module_gen_spec A S L _ _ u WM Eu) as (Wu & Mu & h & Hh & Vh & _). cbn in Hh. injection Hh as <-.
    destruct (mul_value A S L x u y Hx Wu H) as [Wy Vy]. split; [exact Wy|]. intros rho. rewrite Vy, Vh. reflexivity.
  Qed.
  Lemma mul_real_succeeds p x g : standard S p x -> gen_wf g -> (forall q, g = GRat q -> q = 1%Qc) -> exists y, mul_real x g = Ok y.
  Proof.
    intros Hx Wg Q. unfold mul_real, make. cbn. unfold module_gen, rank. cbn [length basis]. cbn -[unit_vector mul].
    set (u := mkElem _ _). destruct (std_mul A S L p x u) as (y & E & _); [exact Hx| |eauto].
    pose proof (module_gen_spec A S L (mkModule [g] (mring (emodule x))) 0 u) as X. destruct X as (Wu & Mu & _).
    - split; [constructor; [exact Wg|constructor]|split; [intros h []|exact I]].
    - reflexivity.
    - split; [exact Wu|]. split; [exact (proj1 (proj2 Hx))|]. intros q [E|[]]. apply Q. exact E.
  Qed.
End Proofs.

(** Over the integers: the module contains 1 if and only if its rational generator is 1/d or -1/d. *)
Lemma one_int_complete (M : module int_ring) : module_wf M -> (forall q, In (GRat q) (basis M) -> 0 < Q2R q) ->
  (exists x, elem_wf int_sem x /\ emodule x = M /\ forall rho, value int_sem rho x = 1) -> exists x, one_of true M = Ok x.
Proof.
  intros W P (x & Wx & Mx & V).
  assert (D : (exists q, In (GRat q) (basis M)) \/ forall g, In g (basis M) -> ~ rational g).
  { destruct (existsb is_rational (basis M)) eqn:E.
    - left. apply existsb_exists in E. destruct E as (g & Ig & Rg). destruct g; try discriminate. eauto.
    - right. intros g Ig R. assert (existsb is_rational (basis M) = true); [|congruence]. apply existsb_exists. exists g. split; [exact Ig|]. destruct g; [reflexivity|contradiction|contradiction]. }
  destruct D as [[q I0]|N].
  2:{ exfalso. apply (proj2 (one_no_rational int_ring int_sem int_lawful true M W N)). eauto. }
  destruct (rational_first int_ring M q W I0) as (b & Eb & Hb).
  assert (V1 : forall rho, value int_sem rho x = Q2R 1%Qc) by (intros rho; rewrite V; unfold Q2R; cbn; field).
  assert (exists c, In (GRat q, c) (combine (basis (emodule x)) (coeffs x))) as [c Ic].
  { destruct Wx as (_ & Hl & _). rewrite Mx, Eb in *. destruct (coeffs x) as [|c cs]; [discriminate|]. exists c. left. reflexivity. }
  pose proof (proj2 (constant_coefficients int_ring int_sem int_lawful x _ Wx V1 _ _ Ic) q eq_refl) as E.
  assert (N1 : qc_num q = 1%Z).
  { specialize (P q I0). cbn in E. rewrite Q2R_num_den in E. pose proof (qc_den_R q) as Dq. apply qc_num_pos in P.
    assert (E' : IZR c * IZR (qc_num q) = IZR (qc_den q)).
    { replace (IZR c * IZR (qc_num q)) with (IZR c * (IZR (qc_num q) / IZR (qc_den q)) * IZR (qc_den q)) by (field; lra). rewrite E. unfold Q2R. cbn. field. }
    rewrite <- mult_IZR in E'. apply eq_IZR in E'.
    assert (Z.gcd (qc_num q) (qc_den q) = 1%Z) as G' by (apply (proj1 (Qred_iff q)), (canon q)).
    rewrite <- E', Z.mul_comm, Z.gcd_mul_diag_l in G' by lia. exact G'. }
  rewrite one_of_loop, Eb. cbn [one_loop]. rewrite N1. cbn [Z.eqb Pos.eqb]. unfold module_gen, rank. rewrite Eb.
  replace ((0 <=? Z.of_nat 0)%Z && (Z.of_nat 0 <? Z.of_nat (length (GRat q :: b)))%Z) with true by (symmetry; apply andb_true_iff; split; [reflexivity|apply Z.ltb_lt; cbn [length]; lia]).
  cbn [bind]. unfold smul, imul_elem. cbn [coeffs]. match goal with |- context [scale ?f ?l ?cs] => destruct (scale_total int_ring f l cs) as [ds Es] end.
  - intros d _. cbn. eauto.
  - rewrite Es. cbn. eauto.
Qed.

Section More.
  Variable A : ring.
  Variable S : semantics A.
  Hypothesis L : lawful A S.
  Lemma span_absorb (M N : module A) : mring M = mring N -> incl (basis N) (basis M) -> (basis M = [] -> N = M) -> span M N = Ok M.
  Proof.
    intros R I0 E. unfold span. destruct (basis M) as [|g b] eqn:B; [rewrite (E eq_refl); reflexivity|]. destruct (basis N) as [|h b'] eqn:B'; [reflexivity|].
    assert (par_eqb (mring M) (mring N) = true) as -> by (apply (L_par_eqb A S L), R). unfold span_same.
    assert (submodule N M = true) as -> by (apply submodule_spec; rewrite B, B'; exact I0). reflexivity.
  Qed.
  Lemma add_simplified (x y z : elem A) : elem_wf S x -> simplify x = Ok y -> add x y = Ok z -> emodule z = emodule x.
  Proof.
    intros Hx Es Ea. destruct (simplify_spec A S L x Hx) as (y' & E & Wy & R & _ & G & _). assert (y' = y) as -> by congruence.
    unfold add, common in Ea. destruct (module_eqb (emodule x) (emodule y)) eqn:Em; [cbn in Ea; injection Ea as <-; reflexivity|].
    rewrite (span_absorb (emodule x) (emodule y)) in Ea.
    - cbn [bind] in Ea. rewrite (promote_self A S L) in Ea. cbn [bind] in Ea. destruct (promote y (emodule x)); [|discriminate]. cbn in Ea. injection Ea as <-. reflexivity.
    - congruence.
    - intros g Hg. apply G in Hg. destruct Hg as (c & I0 & _). apply in_combine_l in I0. exact I0.
    - intros B. unfold simplify in Es. assert (Ec : coeffs x = []) by (destruct Hx as (_ & Hl & _); rewrite B in Hl; destruct (coeffs x); [reflexivity|discriminate]).
      rewrite Ec in Es. cbn in Es. injection Es as <-. reflexivity.
  Qed.
  Lemma add_simplified_total (x : elem A) : elem_wf S x -> exists y z, simplify x = Ok y /\ add x y = Ok z.
  Proof.
    intros Hx. destruct (simplify_spec A S L x Hx) as (y & E & Wy & R & _ & G & _). destruct (add_succeeds A S L x y Hx Wy) as [z Ez]; [|eauto].
    split; [|right; right; left; congruence]. intros g h Hg Hh Rg Rh. apply G in Hh. destruct Hh as (c & I0 & _). apply in_combine_l in I0.
    destruct Hx as ([_ Ax] & _). apply ascending_compatible, compatible_nodup in Ax. apply (proj2 Ax g h Hg I0 Rg Rh).
  Qed.
End More.
