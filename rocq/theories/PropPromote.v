(** Properties C63, C73, C75: exactly when promote reports, when one() returns, and when == with a number is defined. *)
From Coq Require Import ZArith QArith Qcanon Bool List Reals Qreals Lra Lia.
From Verif Require Import Gen SpecGen GenProofs Ring SpecRing RingProofs Module Element SpecModule ModuleProofs ElementProofs Independence
  ElementProofs2 ElementProofs3 ElementProofs4 Leading PartialProofs PropModule PropElement PropPartial PropLaws PropUnits.
Import ListNotations.
Open Scope R_scope.

Section Proofs.
  Variable A : ring.
  Variable S : semantics A.
  Hypothesis L : lawful A S.
  Implicit Types x y : elem A.
  Implicit Types M : module A.
  Implicit Types c d : car A.

  (** When every nonzero coefficient has a place in the target, or a generator of the target after it, the loop succeeds. *)
  Lemma promote_loop_succeeds p theirs : Forall gen_wf theirs -> ascending theirs ->
    forall ours cs, Forall gen_wf ours -> ascending ours -> length cs = length ours -> Forall (mem S p) cs ->
    (forall g c, In (g, c) (combine ours cs) -> c <> czero A -> exists t, In t theirs /\ (t = g \/ precedes g t)) ->
    exists r, promote_loop theirs ours cs p = Ok r.
  Proof.
    induction theirs as [|t ts IHt]; intros Wt At.
    - intros ours cs Wo Ao Hl Hm H. rewrite promote_loop_nil. rewrite <- Hl, firstn_all. assert (forallb cz cs = true) as ->; [|eauto].
      apply forallb_forall. intros c Ic. apply (cz_spec A S L). apply Classical_Prop.NNPP. intros N.
      assert (exists g, In (g, c) (combine ours cs)) as [g Ig].
      { clear - Ic Hl. revert ours Hl. induction cs as [|d cs IH]; [destruct Ic|]. intros [|h ours] Hl; [discriminate|]. destruct Ic as [->|Ic]; [exists h; left; reflexivity|].
        destruct (IH Ic ours) as [g Ig]; [cbn in Hl; lia|]. exists g. right. exact Ig. }
      destruct (H g c Ig N) as (u & [] & _).
    - inversion Wt as [|? ? Wt1 Wt2]; subst. destruct At as [At1 At2]. specialize (IHt Wt2 At2).
      induction ours as [|g gs IHo]; intros cs Wo Ao Hl Hm H.
      + rewrite promote_loop_none. destruct (IHt [] [] (Forall_nil _) Logic.I eq_refl (Forall_nil _)) as [r ->]; [intros ? ? []|]. cbn. eauto.
      + destruct cs as [|c cs]; [discriminate|]. inversion Wo as [|? ? Wo1 Wo2]; subst. destruct Ao as [Ao1 Ao2]. inversion Hm as [|? ? Hm1 Hm2]; subst.
        assert (Hl' : length cs = length gs) by (cbn in Hl; lia).
        rewrite promote_loop_cons. destruct (gen_eqb g t) eqn:Eg.
        * apply gen_eqb_eq in Eg. subst t. rewrite (L_coerce_mem A S L p c Hm1). cbn [bind].
          destruct (IHt gs cs Wo2 Ao2 Hl' Hm2) as [r ->]; [|cbn; eauto].
          intros h e I N. destruct (H h e (or_intror I) N) as (u & [<-|U1] & U2); [|exists u; split; assumption].
          exfalso. pose proof (Ao1 h (in_combine_l _ _ _ _ I)) as P. destruct U2 as [<-|U2]; [exact (precedes_irrefl _ P)|exact (precedes_asym _ _ P U2)].
        * destruct (deglex g t) eqn:Ed.
          -- apply (IHo cs Wo2 Ao2 Hl' Hm2). intros h e I N. exact (H h e (or_intror I) N).
          -- assert (Np : ~ precedes g t) by (intros P; apply (precedes_deglex g t Wo1 Wt1) in P; congruence).
             destruct (IHt (g :: gs) (c :: cs) Wo (conj Ao1 Ao2) Hl Hm) as [r ->]; [|cbn; eauto].
             intros h e I N. destruct (H h e I N) as (u & [<-|U1] & U2); [|exists u; split; assumption]. exfalso.
             destruct I as [I|I].
             ++ injection I as <- <-. destruct U2 as [->|U2]; [rewrite gen_eqb_refl in Eg; discriminate|contradiction].
             ++ pose proof (Ao1 h (in_combine_l _ _ _ _ I)) as P. apply Np. destruct U2 as [->|U2]; [exact P|exact (precedes_trans _ _ _ P U2)].
  Qed.
  Lemma promote_exactly x M : elem_wf S x -> module_wf M -> mring M = mring (emodule x) ->
    ((exists e, promote x M = Err e) <-> exists g c, In (g, c) (combine (basis (emodule x)) (coeffs x)) /\ c <> czero A /\ forall t, In t (basis M) -> t <> g /\ ~ precedes g t).
  Proof.
    intros Hx HM R. pose proof Hx as ([Wx Ax] & Lx & Mx). split.
    - intros [e H]. apply Classical_Prop.NNPP. intros F. unfold promote in H. destruct (module_eqb (emodule x) M); [discriminate|]. destruct (nonzero x); [|discriminate]. cbn [negb] in H.
      destruct (promote_loop_succeeds (mring M) (basis M) (proj1 HM) (proj2 HM) (basis (emodule x)) (coeffs x) Wx Ax Lx) as [r Er]; [rewrite R; exact Mx| |rewrite Er in H; discriminate].
      intros g c I N. apply Classical_Prop.NNPP. intros F'. apply F. exists g, c. split; [exact I|]. split; [exact N|]. intros t It. split.
      + intros ->. apply F'. exists g. split; [exact It|left; reflexivity].
      + intros P. apply F'. exists t. split; [exact It|right; exact P].
    - intros (g & c & I & N & H). destruct (promote x M) as [y|e] eqn:Ep; [|eauto]. exfalso. unfold promote in Ep. destruct (module_eqb (emodule x) M) eqn:E.
      { apply (module_eqb_spec A S L) in E. subst M. apply (proj1 (H g (in_combine_l _ _ _ _ I))). reflexivity. }
      assert (nonzero x = true) as En by (apply (nonzero_true A S L); exists c; split; [exact (in_combine_r _ _ _ _ I)|exact N]).
      rewrite En in Ep. cbn [negb] in Ep. destruct (promote_loop _ _ _ _) as [cs|] eqn:El; [|discriminate].
      destruct (proj2 (promote_loop_restricted A S L _ _ _ (proj1 HM) (proj2 HM) _ _ _ Wx Ax Lx Mx El) g c I N) as (t & T1 & T2). destruct (H t T1) as [H1 H2].
      destruct T2 as [T2|T2]; [exact (H1 T2)|exact (H2 T2)].
  Qed.
  Lemma kept_wf (P : gen * car A -> bool) l : Forall gen_wf (map fst l) -> Forall gen_wf (map snd (rl A S (map fst (filter P l)) (map snd (filter P l)))).
  Proof.
    intros W. rewrite rl_gens by (rewrite !map_length; reflexivity). apply Forall_forall. intros g Ig. apply in_map_iff in Ig. destruct Ig as (gc & <- & Ig). apply filter_In in Ig.
    rewrite Forall_forall in W. apply W. apply in_map. apply Ig.
  Qed.
  Lemma promote_value x M y : elem_wf S x -> no_zero_gen (basis (emodule x)) -> module_wf M -> promote x M = Ok y ->
    ((forall rho, value S rho y = value S rho x) <-> forall g c, In (g, c) (combine (basis (emodule x)) (coeffs x)) -> c <> czero A -> In g (basis M)).
  Proof.
    intros Hx Z HM H. split.
    - intros V g c I N. apply Classical_Prop.NNPP. intros F. pose proof Hx as ([Wx Ax] & Lx & Mx).
      set (P := fun gc : gen * car A => existsb (gen_eqb (fst gc)) (basis M)). set (K := filter P (combine (basis (emodule x)) (coeffs x))).
      assert (W1 : map fst (combine (basis (emodule x)) (coeffs x)) = basis (emodule x)).
      { clear - Lx. revert Lx. generalize (basis (emodule x)) (coeffs x). induction l as [|h l IH]; intros [|a l'] Hl; try discriminate; [reflexivity|]. cbn. rewrite IH; [reflexivity|]. cbn in Hl. lia. }
      assert (Wg : gen_wf g) by (rewrite Forall_forall in Wx; exact (Wx g (in_combine_l _ _ _ _ I))).
      assert (U : rcoef (rlist A S x) g = rcoef (rl A S (map fst K) (map snd K)) g).
      { apply rcoef_unique; [exact (rlist_wf A S x Hx)|unfold K; apply kept_wf; rewrite W1; exact Wx| |exact Wg]. intros rho. rewrite rlist_value, rl_value, <- V. apply (promote_kept A S L x M y Hx HM H). }
      unfold rlist in U. rewrite (rcoef_in A S _ _ g c Ax I), rcoef_absent in U.
      + apply Rmult_integral in U. destruct U as [U|U].
        * apply N. apply (val_zero_iff A S L (mring (emodule x)) c); [|exact U]. rewrite Forall_forall in Mx. exact (Mx c (in_combine_r _ _ _ _ I)).
        * apply Z. rewrite <- (lead_zero g U). exact (in_combine_l _ _ _ _ I).
      + intros h Ih. apply in_map_iff in Ih. destruct Ih as ([h' a] & E & Ih). cbn in E. subst h'. apply filter_In in Ih. destruct Ih as [Ih Eh].
        assert (D : h <> g). { intros ->. apply F. unfold P in Eh. apply existsb_exists in Eh. destruct Eh as (t & It & Et). cbn in Et. apply gen_eqb_eq in Et. subst t. exact It. }
        unfold same_mono. apply orb_false_iff. split; [|apply gen_eqb_neq, D]. destruct (is_rational h) eqn:R1; [|reflexivity]. destruct (is_rational g) eqn:R2; [|reflexivity]. exfalso. apply D.
        apply (one_rational A S x h a g c Hx); [apply is_rational_spec, R1|apply is_rational_spec, R2|exact Ih|exact I].
    - intros F rho. rewrite !(value_evalv A S). apply (promote_spec A S L x M y Hx HM H). exact F.
  Qed.
End Proofs.

(** * C63 *)
(** Over the same ring: promote throws exactly if there is a nonzero coefficient whose generator is not in the target and comes after all of its generators
    (for rational generators: the target has no other generators than a different rational one) ... *)
Theorem C63_exactly_partial : forall A S, lawful A S -> forall (x : elem A) (M : module A), elem_wf S x -> module_wf M -> mring M = mring (emodule x) ->
  ((exists e, promote x M = Err e) <-> exists g c, In (g, c) (combine (basis (emodule x)) (coeffs x)) /\ c <> czero A /\ forall t, In t (basis M) -> t <> g /\ ~ precedes g t).
Proof. exact promote_exactly. Qed.
(** ... and what it returns has the same value exactly if the generators of all nonzero coefficients are in the target. *)
Theorem C63_value_partial : forall A S, lawful A S -> forall (x : elem A) (M : module A) y, elem_wf S x -> no_zero_gen (basis (emodule x)) -> module_wf M -> promote x M = Ok y ->
  ((forall rho, value S rho y = value S rho x) <-> forall g c, In (g, c) (combine (basis (emodule x)) (coeffs x)) -> c <> czero A -> In g (basis M)).
Proof. exact promote_value. Qed.

(** * C73 *)
(** Over the integers one() returns exactly if the rational generator is 1/n for a positive n ... *)
Theorem C73_exactly_partial : forall M : module int_ring, module_wf M ->
  ((exists x, one_of true M = Ok x) <-> exists q n, In (GRat q) (basis M) /\ (0 < n)%Z /\ Q2R q = 1 / IZR n).
Proof.
  intros M W. split.
  - intros [x H]. destruct (Classical_Prop.classic (exists q, In (GRat q) (basis M))) as [[q Iq]|N].
    + exists q, (qc_den q). split; [exact Iq|]. split; [reflexivity|]. destruct (rational_first _ M q W Iq) as (b & B & R). rewrite one_of_loop, B in H. cbn [one_loop] in H.
      destruct (Z.eqb_spec (qc_num q) 1) as [E|E]; [rewrite Q2R_num_den, E; reflexivity|]. rewrite (one_loop_skip _ _ M b) in H by exact R. discriminate.
    + exfalso. destruct (one_no_rational _ _ int_lawful true M W) as [E _]; [|rewrite E in H; discriminate]. intros g Ig Rg. destruct g as [q| |]; try contradiction. apply N. exists q. exact Ig.
  - intros (q & n & Iq & Pn & E). pose proof (IZR_lt 0 n Pn) as Pn'. apply (C73_positive_partial M W).
    + intros q' Iq'. destruct (rational_first _ M q W Iq) as (b & B & R). rewrite B in Iq'. destruct Iq' as [F|Iq']; [|exfalso; exact (R _ Iq' Logic.I)].
      injection F as <-. rewrite E. apply Rdiv_lt_0_compat; lra.
    + destruct (rational_first _ M q W Iq) as (b & B & R). exists (mkElem (A := int_ring) M (n :: repeat 0%Z (length b))). split; [|split; [reflexivity|]].
      * split; [exact W|]. cbn [emodule coeffs]. rewrite B. split; [cbn; rewrite repeat_length; reflexivity|]. apply Forall_forall. intros; exact Logic.I.
      * intros rho. unfold value. cbn [emodule coeffs]. rewrite B. cbn [combination gen_val val int_sem].
        rewrite (combination_comb _ int_sem rho b), (comb_zeros _ _ int_lawful); [rewrite E; field; lra|]. apply Forall_forall. intros c Ic. apply repeat_spec in Ic. exact Ic.
Qed.
(** ... but 1 is also in the module if it is -1/n: these are all cases in which one() throws although 1 is in the module. *)
Theorem C73_missed_partial : forall M : module int_ring, module_wf M ->
  (((exists x, elem_wf int_sem x /\ emodule x = M /\ forall rho, value int_sem rho x = 1) /\ ~ exists x, one_of true M = Ok x) <->
   exists q n, In (GRat q) (basis M) /\ (0 < n)%Z /\ Q2R q = - (1 / IZR n)).
Proof.
  intros M W. split.
  - intros [(x & Hx & Mx & V) N].
    assert (V1 : nonzero x = true) by (apply (nonzero_value_nonzero _ _ int_lawful x 1 Hx V); lra).
    destruct (top_exists _ _ int_lawful x Hx V1) as (g & c & T). pose proof (constant_rational _ _ int_lawful x 1 g c Hx V (proj1 T) (proj1 (proj2 T))) as Rg.
    destruct (top_mem _ _ int_lawful x g c Hx T) as (_ & Ig & _ & Nc). destruct g as [q| |]; try contradiction.
    assert (E : IZR c * Q2R q = 1).
    { rewrite <- (V (fun _ => 0)). symmetry. apply (single_value _ _ int_lawful x (GRat q) c (fun _ => 0) Hx (proj1 T)). intros g' c' I' N'.
      apply (one_rational _ _ x g' c' (GRat q) c Hx); [exact (constant_rational _ _ int_lawful x 1 g' c' Hx V I' N')|exact Logic.I|exact I'|exact (proj1 T)]. }
    cbn [val int_sem] in Nc. rewrite Mx in Ig. exists q, (- c)%Z. split; [exact Ig|].
    assert (Eq : Q2R q = 1 / IZR c) by (apply (Rmult_eq_reg_l (IZR c)); [rewrite E; field; exact Nc|exact Nc]).
    destruct (Z_lt_le_dec 0 c) as [P|P].
    + exfalso. apply N. apply (C73_exactly_partial M W). exists q, c. repeat split; assumption.
    + split; [assert (c <> 0%Z) by (intros ->; apply Nc; reflexivity); lia|]. rewrite opp_IZR, Eq. field. exact Nc.
  - intros (q & n & Iq & Pn & E). pose proof (IZR_lt 0 n Pn) as Pn'. destruct (rational_first _ M q W Iq) as (b & B & R). split.
    + exists (mkElem (A := int_ring) M ((- n)%Z :: repeat 0%Z (length b))). split; [|split; [reflexivity|]].
      * split; [exact W|]. cbn [emodule coeffs]. rewrite B. split; [cbn; rewrite repeat_length; reflexivity|]. apply Forall_forall. intros; exact Logic.I.
      * intros rho. unfold value. cbn [emodule coeffs]. rewrite B. cbn [combination gen_val val int_sem].
        rewrite (combination_comb _ int_sem rho b), (comb_zeros _ _ int_lawful); [rewrite E, opp_IZR; field; lra|]. apply Forall_forall. intros c Ic. apply repeat_spec in Ic. exact Ic.
    + intros H. apply (C73_exactly_partial M W) in H. destruct H as (q' & n' & Iq' & Pn2 & E'). pose proof (IZR_lt 0 n' Pn2) as P2.
      rewrite B in Iq'. destruct Iq' as [F|Iq']; [|exact (R _ Iq' Logic.I)]. injection F as <-. rewrite E in E'.
      assert (0 < 1 / IZR n) by (apply Rdiv_lt_0_compat; lra). assert (0 < 1 / IZR n') by (apply Rdiv_lt_0_compat; lra). lra.
Qed.

(** Over a field the result is right exactly if the rational generator is positive (for a negative one the code makes a rational number with a
    negative denominator, which the model marks by an error); 1 is in the module for all generators other than 0. *)
Theorem C73_field_partial : forall A S, lawful A S -> isField A = true -> forall M : module A, module_wf M ->
  ((exists x, one_of false M = Ok x) <-> exists q, In (GRat q) (basis M) /\ 0 < Q2R q) /\
  ((exists x, elem_wf S x /\ emodule x = M /\ forall rho, value S rho x = 1) <-> exists q, In (GRat q) (basis M) /\ Q2R q <> 0).
Proof.
  intros A S L F M W. split.
  - split.
    + intros [x H]. destruct (Classical_Prop.classic (exists q, In (GRat q) (basis M))) as [[q Iq]|N].
      * exists q. split; [exact Iq|]. destruct (rational_first _ M q W Iq) as (b & B & R). rewrite one_of_loop, B in H. cbn [one_loop] in H.
        destruct (Z.ltb_spec 0 (qc_num q)) as [P|P]; [apply qc_num_pos, P|discriminate].
      * exfalso. destruct (one_no_rational A S L false M W) as [E _]; [|rewrite E in H; discriminate]. intros g Ig Rg. destruct g as [q| |]; try contradiction. apply N. exists q. exact Ig.
    + intros (q & Iq & P). apply (C47_complete_field A S L M q W Iq P). destruct (field_rational A S L (mring M) q F) as (c & Mc & Vc).
      destruct (L_field A S L F _ c Mc) as (d & Md & E); [lra|]. exists d. split; [exact Md|]. rewrite <- Vc. exact E.
  - split.
    + intros (x & Hx & Mx & V).
      assert (V1 : nonzero x = true) by (apply (nonzero_value_nonzero A S L x 1 Hx V); lra).
      destruct (top_exists A S L x Hx V1) as (g & c & T). pose proof (constant_rational A S L x 1 g c Hx V (proj1 T) (proj1 (proj2 T))) as Rg.
      destruct (top_mem A S L x g c Hx T) as (_ & Ig & _ & Nc). destruct g as [q| |]; try contradiction. exists q. split; [rewrite <- Mx; exact Ig|]. intros Z.
      assert (E : val S c * Q2R q = 1).
      { rewrite <- (V (fun _ => 0)). symmetry. apply (single_value A S L x (GRat q) c (fun _ => 0) Hx (proj1 T)). intros g' c' I' N'.
        apply (one_rational A S x g' c' (GRat q) c Hx); [exact (constant_rational A S L x 1 g' c' Hx V I' N')|exact Logic.I|exact I'|exact (proj1 T)]. }
      rewrite Z in E. lra.
    + intros (q & Iq & N). destruct (rational_first _ M q W Iq) as (b & B & R). destruct (field_rational A S L (mring M) q F) as (c & Mc & Vc).
      destruct (L_field A S L F _ c Mc) as (d & Md & E); [lra|]. exists (mkElem M (d :: repeat (czero A) (length b))). split; [|split; [reflexivity|]].
      * split; [exact W|]. cbn [emodule coeffs]. rewrite B. split; [cbn; rewrite repeat_length; reflexivity|]. constructor; [exact Md|]. apply Forall_forall. intros e Ie. apply repeat_spec in Ie. subst e. apply (L_zero A S L).
      * intros rho. unfold value. cbn [emodule coeffs]. rewrite B. cbn [combination gen_val].
        rewrite (combination_comb A S rho b), (comb_zeros A S L); [rewrite <- Vc, E; ring|]. apply Forall_forall. intros e Ie. apply repeat_spec in Ie. exact Ie.
Qed.

(** * C75 *)
(** == with a number is defined exactly if the element is 0 or the number is one of the generators of its module (also if its coefficient is 0). *)
Theorem C75_exactly_partial : forall A S, lawful A S -> forall (x : elem A) r, elem_wf S x -> no_zero_gen (basis (emodule x)) ->
  ((exists b, eq_real x r = Ok b) <-> (forall rho, value S rho x = 0) \/ In r (basis (emodule x))).
Proof.
  intros A S L x r Hx Z. assert (N : nonzero x = false <-> forall rho, value S rho x = 0).
  { split; [intros N rho; rewrite (value_evalv A S rho x); exact (evalv_nonzero_false A S L _ x N)|]. intros V. destruct (nonzero x) eqn:N; [|reflexivity]. exfalso.
    destruct (top_exists A S L x Hx N) as (g & c & T). pose proof (constant_rational A S L x 0 g c Hx V (proj1 T) (proj1 (proj2 T))) as Rg.
    destruct (top_mem A S L x g c Hx T) as (_ & Ig & _ & Nc). destruct g as [q| |]; try contradiction.
    assert (E : val S c * Q2R q = 0).
    { rewrite <- (V (fun _ => 0)). symmetry. apply (single_value A S L x (GRat q) c (fun _ => 0) Hx (proj1 T)). intros g' c' I' N'.
      apply (one_rational A S x g' c' (GRat q) c Hx); [exact (constant_rational A S L x 0 g' c' Hx V I' N')|exact Logic.I|exact I'|exact (proj1 T)]. }
    apply Rmult_integral in E. destruct E as [E|E]; [contradiction|]. apply Z. rewrite <- (lead_zero (GRat q) E). exact Ig. }
  rewrite <- N. pose proof (C53_throws A x r) as T. split.
  - intros [b E]. destruct (nonzero x) eqn:Nx; [|left; reflexivity]. right. apply Classical_Prop.NNPP. intros F. destruct (proj2 T (conj eq_refl F)) as [e E']. congruence.
  - intros H. destruct (eq_real x r) as [b|e] eqn:E; [eauto|]. exfalso. destruct (proj1 T (ex_intro _ e eq_refl)) as [T1 T2]. destruct H as [H|H]; [congruence|contradiction].
Qed.

(** 3 + 2 a + 5 a b loses 3 + 2 a in <a b>, and is rejected by <1, a>; -1/2 is such a module. *)
Example C63_exactly_case : elem_wf int_sem ex /\ no_zero_gen (basis (emodule ex)) /\ module_wf (zmod [gab]) /\ (exists y, promote ex (zmod [gab]) = Ok y) /\
  ~ In ga (basis (zmod [gab])) /\ In (ga, 2%Z) (combine (basis (emodule ex)) (coeffs ex)) /\ exists e, promote ex (zmod [g1; ga]) = Err e.
Proof.
  split; [exact (proj1 ex_standard)|]. split; [cbn; intros [H|[H|[H|[]]]]; discriminate|]. split; [unfold zmod; module_ok|]. split; [eexists; reflexivity|].
  split; [cbn; intros [H|[]]; discriminate|]. split; [right; left; reflexivity|]. eexists. reflexivity.
Qed.
Example C73_missed_case : module_wf (zmod [GRat (Q2Qc (-1 # 2)); ga]) /\ Q2R (Q2Qc (-1 # 2)) = - (1 / IZR 2) /\ ~ exists x, one_of true (zmod [GRat (Q2Qc (-1 # 2)); ga]) = Ok x.
Proof.
  split; [unfold zmod; module_ok|]. split; [rewrite Q2R_Q2Qc; unfold Q2R; cbn; lra|]. intros [x H]. discriminate.
Qed.
