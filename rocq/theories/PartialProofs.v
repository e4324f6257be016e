(** What promote does with elements that do not fit; exceptions of scalar division over fields; other small facts. *)
From Coq Require Import ZArith QArith Qcanon Bool List Reals Qreals Permutation Lra Lia.
From Flocq Require Import Core.
From Verif Require Import Arf Arb SpecArf ArfProofs ArbProofs Gen SpecGen GenProofs Ring SpecRing Module Element SpecModule ModuleProofs RingProofs ElementProofs ElementProofs2 ElementProofs3.
Import ListNotations.
Open Scope R_scope.

Section Promote.
  Variable A : ring.
  Variable S : semantics A.
  Hypothesis L : lawful A S.
  Implicit Types M N : module A.
  Implicit Types x y z : elem A.
  Implicit Types p q : par A.

  (** The values [v] on the generators in [theirs], 0 on all others. *)
  Definition restricted (theirs : list gen) (v : gen -> R) (g : gen) : R := if existsb (gen_eqb g) theirs then v g else 0.
  Lemma restricted_in l v g : In g l -> restricted l v g = v g.
  Proof. intros H. unfold restricted. replace (existsb (gen_eqb g) l) with true; [reflexivity|]. symmetry. apply existsb_exists. exists g. split; [exact H|apply gen_eqb_refl]. Qed.
  Lemma restricted_out l v g : ~ In g l -> restricted l v g = 0.
  Proof.
    intros H. unfold restricted. destruct (existsb (gen_eqb g) l) eqn:E; [|reflexivity]. exfalso. apply existsb_exists in E. destruct E as (h & I & J).
    apply gen_eqb_eq in J. subst h. contradiction.
  Qed.
  Lemma comb_restricted_tail t ts v gs cs : (forall g, In g gs -> g <> t) -> comb A S (restricted (t :: ts) v) gs cs = comb A S (restricted ts v) gs cs.
  Proof.
    intros H. apply comb_ext. intros g Hg. specialize (H g Hg). unfold restricted. cbn [existsb].
    replace (gen_eqb g t) with false; [reflexivity|]. symmetry. apply gen_eqb_neq, H.
  Qed.

  Lemma promote_loop_restricted q p theirs : Forall gen_wf theirs -> ascending theirs ->
    forall ours cs r, Forall gen_wf ours -> ascending ours -> length cs = length ours -> Forall (mem S q) cs ->
    promote_loop theirs ours cs p = Ok r ->
    (forall v, comb A S v theirs r = comb A S (restricted theirs v) ours cs) /\
    (forall g c, In (g, c) (combine ours cs) -> c <> czero A -> exists t, In t theirs /\ (t = g \/ precedes g t)).
  Proof.
    induction theirs as [|t ts IHt]; intros Wt At.
    - intros ours cs r Wo Ao Hl Hm H. rewrite promote_loop_nil in H. rewrite <- Hl in H.
      rewrite firstn_all in H. destruct (forallb cz cs) eqn:E; [|discriminate]. injection H as <-.
      assert (Z : Forall (fun c => c = czero A) cs) by (apply Forall_forall; intros c Hc; rewrite forallb_forall in E; apply (cz_spec A S L), E, Hc).
      split; [intros v; cbn; symmetry; apply (comb_zeros A S L), Z|].
      intros g c I N. exfalso. apply in_combine_r in I. rewrite Forall_forall in Z. exact (N (Z c I)).
    - inversion Wt as [|? ? Wt1 Wt2]; subst. destruct At as [At1 At2]. specialize (IHt Wt2 At2).
      induction ours as [|g gs IHo]; intros cs r Wo Ao Hl Hm H.
      + destruct cs; [|discriminate]. rewrite promote_loop_none in H.
        destruct (promote_loop ts [] [] p) as [r'|] eqn:E; [|discriminate]. injection H as <-.
        destruct (IHt [] [] r' (Forall_nil _) I eq_refl (Forall_nil _) E) as (A3 & _).
        split; [|intros ? ? []]. intros v. cbn [comb]. rewrite A3, (val_zero A S L). cbn. ring.
      + destruct cs as [|c cs]; [discriminate|]. inversion Wo as [|? ? Wo1 Wo2]; subst. destruct Ao as [Ao1 Ao2]. inversion Hm as [|? ? Hm1 Hm2]; subst.
        assert (Hl' : length cs = length gs) by (cbn in Hl; lia).
        rewrite promote_loop_cons in H. destruct (gen_eqb g t) eqn:Eg.
        * apply gen_eqb_eq in Eg. subst t. destruct (coerce p c) as [c'|] eqn:Ec; [|discriminate]. cbn in H.
          destruct (promote_loop ts gs cs p) as [r'|] eqn:E; [|discriminate]. injection H as <-.
          destruct (IHt gs cs r' Wo2 Ao2 Hl' Hm2 E) as (A3 & A4).
          destruct (L_coerce A S L p c c' (ex_intro _ q Hm1) Ec) as [C1 C2]. split.
          -- intros v. cbn [comb]. rewrite C2, A3, restricted_in by (left; reflexivity). f_equal. symmetry. apply comb_restricted_tail.
             intros h Hh ->. apply (precedes_irrefl g), Ao1, Hh.
          -- intros h e [I|I] N; [injection I as <- <-; exists g; split; [left; reflexivity|left; reflexivity]|].
             destruct (A4 h e I N) as (u & U1 & U2). exists u. split; [right; exact U1|exact U2].
        * destruct (deglex g t) eqn:Ed.
          -- apply precedes_deglex in Ed; [|assumption|assumption].
             destruct (IHo cs r Wo2 Ao2 Hl' Hm2 H) as (A3 & A4). split.
             ++ intros v. rewrite A3. cbn [comb]. rewrite (restricted_out _ _ g); [ring|].
                intros [->|Hin]; [apply (precedes_irrefl g Ed)|]. apply (precedes_asym g t Ed). apply At1, Hin.
             ++ intros h e [I|I] N; [injection I as <- <-; exists t; split; [left; reflexivity|right; exact Ed]|apply (A4 h e I N)].
          -- destruct (promote_loop ts (g :: gs) (c :: cs) p) as [r'|] eqn:E; [|discriminate]. injection H as <-.
             destruct (IHt (g :: gs) (c :: cs) r' Wo (conj Ao1 Ao2) Hl Hm E) as (A3 & A4). split.
             ++ intros v. change (comb A S v (t :: ts) (czero A :: r')) with (val S (czero A) * v t + comb A S v ts r'). rewrite (val_zero A S L), A3.
                rewrite comb_restricted_tail; [ring|]. intros h [->|Hh] ->; [apply gen_eqb_neq in Eg; contradiction|].
                apply Ao1 in Hh. apply precedes_deglex in Hh; [congruence|assumption|assumption].
             ++ intros h e I N. destruct (A4 h e I N) as (u & U1 & U2). exists u. split; [right; exact U1|exact U2].
  Qed.

  Lemma combination_comb rho gs cs : combination S rho gs cs = comb A S (gen_val rho) gs cs.
  Proof. revert cs. induction gs as [|g gs IH]; intros [|c cs]; cbn; try reflexivity. rewrite IH. reflexivity. Qed.

  (** The part of [x] with generators in [theirs]. *)
  Lemma comb_kept v theirs gs cs : comb A S (restricted theirs v) gs cs =
    comb A S v (map fst (filter (fun gc => existsb (gen_eqb (fst gc)) theirs) (combine gs cs))) (map snd (filter (fun gc => existsb (gen_eqb (fst gc)) theirs) (combine gs cs))).
  Proof.
    revert cs. induction gs as [|g gs IH]; intros [|c cs]; cbn [combine filter map comb]; try reflexivity.
    cbn [fst]. unfold restricted at 1. destruct (existsb (gen_eqb g) theirs); cbn [map comb fst snd]; rewrite IH; [reflexivity|ring].
  Qed.

  Lemma promote_kept x M y : elem_wf S x -> module_wf M -> promote x M = Ok y -> forall rho,
    value S rho y = combination S rho
      (map fst (filter (fun gc => existsb (gen_eqb (fst gc)) (basis M)) (combine (basis (emodule x)) (coeffs x))))
      (map snd (filter (fun gc => existsb (gen_eqb (fst gc)) (basis M)) (combine (basis (emodule x)) (coeffs x)))).
  Proof.
    intros Hx HM H rho. rewrite combination_comb, <- comb_kept, value_evalv. unfold evalv. unfold promote in H. destruct (module_eqb (emodule x) M) eqn:E.
    { injection H as <-. apply (module_eqb_spec A S L) in E. subst M. apply comb_ext. intros g I. symmetry. apply restricted_in, I. }
    destruct (nonzero x) eqn:En; cbn [negb] in H.
    - destruct (promote_loop _ _ _ _) as [cs|] eqn:Ep; [|discriminate]. injection H as <-.
      destruct Hx as ([Wx1 Wx2] & Hl & Hm). destruct HM as [WM1 WM2].
      exact (proj1 (promote_loop_restricted _ _ _ WM1 WM2 _ _ _ Wx1 Wx2 Hl Hm Ep) _).
    - injection H as <-. change (evalv A S (gen_val rho) (zero_of M) = comb A S (restricted (basis M) (gen_val rho)) (basis (emodule x)) (coeffs x)).
      rewrite (zero_of_value A S L). symmetry. apply (comb_zeros A S L). apply (nonzero_false A S L), En.
  Qed.

  Lemma promote_reports x M g c : elem_wf S x -> module_wf M -> In (g, c) (combine (basis (emodule x)) (coeffs x)) -> c <> czero A ->
    (forall t, In t (basis M) -> precedes t g) -> exists e, promote x M = Err e.
  Proof.
    intros Hx HM I N P. destruct (promote x M) as [y|e] eqn:H; [|eauto]. exfalso. unfold promote in H. destruct (module_eqb (emodule x) M) eqn:E.
    { apply (module_eqb_spec A S L) in E. subst M. apply (precedes_irrefl g), P. apply in_combine_l in I. exact I. }
    assert (nonzero x = true) as En by (apply (nonzero_true A S L); exists c; split; [apply in_combine_r in I; exact I|exact N]).
    rewrite En in H. cbn [negb] in H. destruct (promote_loop _ _ _ _) as [cs|] eqn:Ep; [|discriminate].
    destruct Hx as ([Wx1 Wx2] & Hl & Hm). destruct HM as [WM1 WM2].
    destruct (proj2 (promote_loop_restricted _ _ _ WM1 WM2 _ _ _ Wx1 Wx2 Hl Hm Ep) g c I N) as (t & T1 & [->|T2]).
    - apply (precedes_irrefl g), P, T1.
    - exact (precedes_asym _ _ T2 (P t T1)).
  Qed.

  (** Over a field a division by a scalar other than 0 does not throw. *)
  Lemma scale_ok (f : car A -> result (car A)) l cs : (forall c, In c cs -> exists d, f c = Ok d) -> exists ds, scale f l cs = (ds, None).
  Proof.
    induction cs as [|c cs IH]; intros H; cbn; [eauto|]. destruct (H c (or_introl eq_refl)) as [d ->].
    destruct IH as [ds ->]; [intros e I; apply H; right; exact I|eauto].
  Qed.
  Lemma ring_integers p n : exists c, mem S p c /\ val S c = IZR n.
  Proof.
    assert (N : forall k, exists c, mem S p c /\ val S c = INR k).
    { induction k as [|k (c & C1 & C2)]; [exists (czero A); apply (L_zero A S L)|]. exists (cadd c (cone A)).
      destruct (L_one A S L p) as [O1 O2]. destruct (L_add A S L p c (cone A) C1 O1) as [D1 D2]. split; [exact D1|]. rewrite D2, C2, O2, S_INR. reflexivity. }
    destruct (Z_le_gt_dec 0 n) as [H|H].
    - destruct (N (Z.to_nat n)) as (c & C1 & C2). exists c. split; [exact C1|]. rewrite C2, INR_IZR_INZ, Z2Nat.id by exact H. reflexivity.
    - destruct (N (Z.to_nat (- n))) as (c & C1 & C2). exists (copp c). destruct (L_opp A S L p c C1) as [D1 D2]. split; [exact D1|].
      rewrite D2, C2, INR_IZR_INZ, Z2Nat.id by lia. rewrite opp_IZR. ring.
  Qed.
  Lemma field_rationals p (q : Q) : isField A = true -> exists c, mem S p c /\ val S c = Q2R q.
  Proof.
    intros F. destruct (ring_integers p (Qnum q)) as (a & A1 & A2). destruct (ring_integers p (Zpos (Qden q))) as (b & B1 & B2).
    assert (N : val S b <> 0) by (rewrite B2; apply not_0_IZR; discriminate).
    destruct (L_field A S L F p b B1 N) as (i & I1 & I2). destruct (L_mul A S L p a i A1 I1) as [M1 M2]. exists (cmul a i). split; [exact M1|].
    rewrite M2, A2. unfold Q2R. f_equal. apply Rmult_eq_reg_r with (val S b); [|exact N]. rewrite I2, B2. symmetry. apply Rinv_l. rewrite <- B2. exact N.
  Qed.
  Lemma field_division x s : isField A = true -> elem_wf S x -> smem S (mring (emodule x)) s -> sval S s <> 0 -> exists y, idiv_elem x s = (y, None).
  Proof.
    intros F (W & Hl & Hm) Hs N.
    assert (exists c, mem S (mring (emodule x)) c /\ val S c = sval S s) as (c & C1 & C2).
    { destruct s as [n|r|c]; [apply ring_integers|apply field_rationals, F|exists c; split; [exact Hs|reflexivity]]. }
    unfold idiv_elem. destruct (scale_ok (fun c => idiv c s) (fun c => idiv_left c s) (coeffs x)) as [ds ->]; [|eauto].
    intros d I. rewrite Forall_forall in Hm. specialize (Hm d I). pose proof (L_idiv A S L _ d s Hm Hs) as H. destruct (idiv d s) as [e|e]; [eauto|].
    exfalso. destruct H as [_ [H|H]]; [contradiction|]. apply H. rewrite <- C2 in N. destruct (L_field A S L F _ c C1 N) as (i & I1 & I2).
    destruct (L_mul A S L _ d i Hm I1) as [M1 M2]. exists (cmul d i). split; [exact M1|]. rewrite M2, <- C2. apply Rmult_eq_reg_r with (val S c); [|exact N].
    rewrite Rmult_assoc, I2. unfold Rdiv. rewrite Rmult_assoc, Rinv_l by exact N. reflexivity.
  Qed.
End Promote.
