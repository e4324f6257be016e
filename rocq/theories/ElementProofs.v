(** Exact arithmetic of elements. *)
From Coq Require Import ZArith QArith Qcanon Bool List Reals Permutation Lra Lia.
From Verif Require Import Gen SpecGen GenProofs Ring SpecRing Module Element SpecModule ModuleProofs RingProofs.
Import ListNotations.
Open Scope R_scope.

Section Proofs.
  Variable A : ring.
  Variable S : semantics A.
  Hypothesis L : lawful A S.
  Implicit Types M N : module A.
  Implicit Types x y z : elem A.
  Implicit Types c d : car A.
  Implicit Types cs ds : list (car A).
  Implicit Types p q : par A.

  Lemma cz_spec c : cz c = true <-> c = czero A.
  Proof. apply (L_eqb A S L). Qed.
  Lemma cz_false c : cz c = false <-> c <> czero A.
  Proof. rewrite <- cz_spec. destruct (cz c); intuition congruence. Qed.
  Lemma val_zero : val S (czero A) = 0.
  Proof. exact (proj2 (L_zero A S L (trivial_par A))). Qed.
  Lemma val_one : val S (cone A) = 1.
  Proof. exact (proj2 (L_one A S L (trivial_par A))). Qed.
  Lemma val_zero_iff p c : mem S p c -> (val S c = 0 <-> c = czero A).
  Proof.
    intros H. split; [|intros ->; apply val_zero]. intros E. apply (L_inj A S L p); [exact H|apply (L_zero A S L p)|rewrite E; symmetry; apply val_zero].
  Qed.
  Lemma ceqb_refl c : ceqb c c = true.
  Proof. apply (L_eqb A S L). reflexivity. Qed.

  (** * Linear combinations, for arbitrary values [v] of the generators *)
  Fixpoint comb (v : gen -> R) (gs : list gen) (cs : list (car A)) : R :=
    match gs, cs with g :: gs', c :: cs' => val S c * v g + comb v gs' cs' | _, _ => 0 end.
  Definition evalv (v : gen -> R) x : R := comb v (basis (emodule x)) (coeffs x).
  Lemma value_evalv rho x : value S rho x = evalv (gen_val rho) x.
  Proof. unfold value, evalv. generalize (coeffs x). induction (basis (emodule x)) as [|g gs IH]; intros [|c cs]; cbn; try reflexivity. rewrite IH. reflexivity. Qed.

  Lemma comb_zeros v gs cs : Forall (fun c => c = czero A) cs -> comb v gs cs = 0.
  Proof.
    revert cs. induction gs as [|g gs IH]; intros [|c cs] H; cbn; try reflexivity. inversion H; subst. rewrite val_zero, IH by assumption. ring.
  Qed.
  Lemma Forall_repeat (T : Type) (P : T -> Prop) (a : T) n : P a -> Forall P (repeat a n).
  Proof. intros H. induction n; cbn; constructor; assumption. Qed.
  Lemma comb_ext v w gs cs : (forall g, In g gs -> v g = w g) -> comb v gs cs = comb w gs cs.
  Proof.
    revert cs. induction gs as [|g gs IH]; intros [|c cs] H; cbn; try reflexivity. rewrite (H g), IH; [reflexivity| |left; reflexivity].
    intros h Hh. apply H. right. exact Hh.
  Qed.
  Lemma comb_indicator gs cs g : ~ In g gs -> comb (fun h => if gen_eqb h g then 1 else 0) gs cs = 0.
  Proof.
    revert cs. induction gs as [|h gs IH]; intros [|c cs] H; cbn; try reflexivity.
    assert (gen_eqb h g = false) as -> by (apply gen_eqb_neq; intros ->; apply H; left; reflexivity).
    rewrite IH by (intros F; apply H; right; exact F). ring.
  Qed.
  Lemma comb_inj gs cs ds : NoDup gs -> length cs = length gs -> length ds = length gs ->
    (forall v, comb v gs cs = comb v gs ds) -> Forall2 (fun c d => val S c = val S d) cs ds.
  Proof.
    revert cs ds. induction gs as [|g gs IH]; intros [|c cs] [|d ds] Hn Hc Hd H; try discriminate; [constructor|].
    inversion Hn as [|? ? Hg Hn']; subst. constructor.
    - specialize (H (fun h => if gen_eqb h g then 1 else 0)). cbn in H. rewrite gen_eqb_refl, !comb_indicator in H by exact Hg. lra.
    - apply IH; [exact Hn'|cbn in Hc; lia|cbn in Hd; lia|]. intros v.
      specialize (H (fun h => if gen_eqb h g then 0 else v h)). cbn in H. rewrite gen_eqb_refl in H.
      assert (E : forall es, comb (fun h => if gen_eqb h g then 0 else v h) gs es = comb v gs es).
      { intros es. apply comb_ext. intros h Hh. assert (gen_eqb h g = false) as ->; [|reflexivity]. apply gen_eqb_neq. intros ->. contradiction. }
      rewrite !E in H. lra.
  Qed.

  Lemma nonzero_false x : nonzero x = false <-> Forall (fun c => c = czero A) (coeffs x).
  Proof.
    unfold nonzero. induction (coeffs x) as [|c cs IH]; cbn; [split; [constructor|reflexivity]|].
    rewrite orb_false_iff, IH, negb_false_iff, cz_spec. split; [intros [-> H]; constructor; auto|]. intros H. inversion H; auto.
  Qed.
  Lemma nonzero_true x : nonzero x = true <-> exists c, In c (coeffs x) /\ c <> czero A.
  Proof.
    unfold nonzero. rewrite existsb_exists. split; intros (c & H & E); exists c; (split; [exact H|]).
    - apply negb_true_iff, cz_false in E. exact E.
    - apply negb_true_iff, cz_false, E.
  Qed.
  Lemma evalv_nonzero_false v x : nonzero x = false -> evalv v x = 0.
  Proof. intros H. apply nonzero_false in H. apply comb_zeros, H. Qed.
  Lemma zero_of_wf M : module_wf M -> elem_wf S (zero_of M).
  Proof.
    intros H. split; [exact H|]. split; [apply repeat_length|]. apply Forall_repeat. apply (L_zero A S L).
  Qed.
  Lemma zero_of_value v M : evalv v (zero_of M) = 0.
  Proof. apply comb_zeros. cbn. apply Forall_repeat. reflexivity. Qed.

  (** * promote *)
  (** All generators with a nonzero coefficient are generators of [theirs]. *)
  Definition fits_in (theirs ours : list gen) (cs : list (car A)) : Prop :=
    forall g c, In (g, c) (combine ours cs) -> c <> czero A -> In g theirs.

  Lemma promote_loop_nil ours cs p : promote_loop [] ours cs p = if forallb cz (firstn (length ours) cs) then Ok [] else Err AssertionFailed.
  Proof. reflexivity. Qed.
  Lemma promote_loop_none t ts cs p : promote_loop (t :: ts) [] cs p = bind (promote_loop ts [] [] p) (fun r => Ok (czero A :: r)).
  Proof. destruct cs; reflexivity. Qed.
  Lemma promote_loop_cons t ts g gs c cs p : promote_loop (t :: ts) (g :: gs) (c :: cs) p =
    if gen_eqb g t then bind (coerce p c) (fun c' => bind (promote_loop ts gs cs p) (fun r => Ok (c' :: r)))
    else if deglex g t then promote_loop (t :: ts) gs cs p
    else bind (promote_loop ts (g :: gs) (c :: cs) p) (fun r => Ok (czero A :: r)).
  Proof. reflexivity. Qed.

  Lemma fits_tail theirs g gs c cs : fits_in theirs (g :: gs) (c :: cs) -> fits_in theirs gs cs.
  Proof. intros H h e I. apply H. right. exact I. Qed.

  Lemma promote_loop_spec q p theirs : Forall gen_wf theirs -> ascending theirs ->
    forall ours cs r, Forall gen_wf ours -> ascending ours -> length cs = length ours -> Forall (mem S q) cs ->
    promote_loop theirs ours cs p = Ok r ->
    length r = length theirs /\ Forall (mem S p) r /\
    (fits_in theirs ours cs -> forall v, comb v theirs r = comb v ours cs).
  Proof.
    induction theirs as [|t ts IHt]; intros Wt At.
    - intros ours cs r Wo Ao Hl Hm H. rewrite promote_loop_nil in H. rewrite <- Hl in H.
      rewrite firstn_all in H. destruct (forallb cz cs) eqn:E; [|discriminate]. injection H as <-.
      split; [reflexivity|]. split; [constructor|]. intros _ v. cbn. symmetry. apply comb_zeros. apply Forall_forall. intros c Hc.
      rewrite forallb_forall in E. apply cz_spec, E, Hc.
    - inversion Wt as [|? ? Wt1 Wt2]; subst. destruct At as [At1 At2]. specialize (IHt Wt2 At2).
      induction ours as [|g gs IHo]; intros cs r Wo Ao Hl Hm H.
      + destruct cs; [|discriminate]. rewrite promote_loop_none in H.
        destruct (promote_loop ts [] [] p) as [r'|] eqn:E; [|discriminate]. injection H as <-.
        destruct (IHt [] [] r' (Forall_nil _) I eq_refl (Forall_nil _) E) as (A1 & A2 & A3).
        split; [cbn; congruence|]. split; [constructor; [apply (L_zero A S L)|exact A2]|].
        intros _ v. cbn [comb]. rewrite A3; [|intros ? ? []]. rewrite val_zero. cbn. destruct ts; ring.
      + destruct cs as [|c cs]; [discriminate|]. inversion Wo as [|? ? Wo1 Wo2]; subst. destruct Ao as [Ao1 Ao2]. inversion Hm as [|? ? Hm1 Hm2]; subst.
        assert (Hl' : length cs = length gs) by (cbn in Hl; lia).
        rewrite promote_loop_cons in H. destruct (gen_eqb g t) eqn:Eg.
        * apply gen_eqb_eq in Eg. subst t. destruct (coerce p c) as [c'|] eqn:Ec; [|discriminate]. cbn in H.
          destruct (promote_loop ts gs cs p) as [r'|] eqn:E; [|discriminate]. injection H as <-.
          destruct (IHt gs cs r' Wo2 Ao2 Hl' Hm2 E) as (A1 & A2 & A3).
          destruct (L_coerce A S L p c c' (ex_intro _ q Hm1) Ec) as [C1 C2].
          split; [cbn; congruence|]. split; [constructor; assumption|].
          intros F v. cbn [comb]. rewrite C2, A3; [reflexivity|].
          intros h e I He. assert (Hin : In h (g :: ts)) by (apply (F h e); [right; exact I|exact He]).
          destruct Hin as [->|Hin]; [|exact Hin]. exfalso. apply in_combine_l in I. apply (precedes_irrefl h), Ao1, I.
        * destruct (deglex g t) eqn:Ed.
          -- apply precedes_deglex in Ed; [|assumption|assumption].
             destruct (IHo cs r Wo2 Ao2 Hl' Hm2 H) as (A1 & A2 & A3). split; [exact A1|]. split; [exact A2|].
             intros F v. rewrite A3 by (apply fits_tail in F; exact F). cbn [comb].
             assert (c = czero A) as ->.
             { destruct (cz c) eqn:Ec; [apply cz_spec, Ec|]. apply cz_false in Ec. exfalso.
               assert (Hin : In g (t :: ts)) by (apply (F g c); [left; reflexivity|exact Ec]).
               destruct Hin as [->|Hin]; [apply (precedes_irrefl g Ed)|]. apply (precedes_asym g t Ed). apply At1, Hin. }
             rewrite val_zero. ring.
          -- destruct (promote_loop ts (g :: gs) (c :: cs) p) as [r'|] eqn:E; [|discriminate]. injection H as <-.
             destruct (IHt (g :: gs) (c :: cs) r' Wo (conj Ao1 Ao2) Hl Hm E) as (A1 & A2 & A3).
             split; [cbn; congruence|]. split; [constructor; [apply (L_zero A S L)|exact A2]|].
             intros F v. change (comb v (t :: ts) (czero A :: r')) with (val S (czero A) * v t + comb v ts r'). rewrite val_zero, A3; [ring|].
             intros h e I He. assert (Hin : In h (t :: ts)) by (apply (F h e); [exact I|exact He]).
             destruct Hin as [->|Hin]; [|exact Hin]. exfalso.
             (* h = t is one of ours, but g comes first and does not precede it *)
             apply in_combine_l in I. destruct I as [->|I]; [apply gen_eqb_neq in Eg; contradiction|].
             apply Ao1 in I. apply precedes_deglex in I; [congruence|assumption|assumption].
  Qed.

  Lemma promote_loop_succeeds p theirs : Forall gen_wf theirs -> ascending theirs ->
    forall ours cs, Forall gen_wf ours -> ascending ours -> length cs = length ours ->
    (forall g c, In (g, c) (combine ours cs) -> In g theirs -> exists c', coerce p c = Ok c') ->
    fits_in theirs ours cs -> exists r, promote_loop theirs ours cs p = Ok r.
  Proof.
    induction theirs as [|t ts IHt]; intros Wt At.
    - intros ours cs Wo Ao Hl Hc F. rewrite promote_loop_nil, <- Hl, firstn_all.
      assert (forallb cz cs = true) as ->; [|eauto]. apply forallb_forall. intros c Hin.
      destruct (cz c) eqn:E; [reflexivity|]. apply cz_false in E. exfalso.
      apply In_nth with (d := c) in Hin. destruct Hin as (n & Hn & En).
      apply (F (nth n ours (GRat 0)) c); [|exact E]. rewrite <- En at 1. rewrite <- combine_nth by (symmetry; exact Hl).
      apply nth_In. rewrite combine_length. lia.
    - inversion Wt as [|? ? Wt1 Wt2]; subst. destruct At as [At1 At2]. specialize (IHt Wt2 At2).
      induction ours as [|g gs IHo]; intros cs Wo Ao Hl Hc F.
      + destruct cs; [|discriminate]. rewrite promote_loop_none.
        destruct (IHt [] [] (Forall_nil _) I eq_refl) as [r ->]; [intros ? ? []|intros ? ? []|]. cbn. eauto.
      + destruct cs as [|c cs]; [discriminate|]. inversion Wo as [|? ? Wo1 Wo2]; subst. destruct Ao as [Ao1 Ao2].
        assert (Hl' : length cs = length gs) by (cbn in Hl; lia).
        rewrite promote_loop_cons. destruct (gen_eqb g t) eqn:Eg.
        * apply gen_eqb_eq in Eg. subst t. destruct (Hc g c (or_introl eq_refl) (or_introl eq_refl)) as [c' ->]. cbn.
          destruct (IHt gs cs Wo2 Ao2 Hl') as [r ->]; [| |cbn; eauto].
          -- intros h e I J. apply (Hc h e); right; assumption.
          -- intros h e I He. assert (Hin : In h (g :: ts)) by (apply (F h e); [right; exact I|exact He]).
             destruct Hin as [->|Hin]; [|exact Hin]. exfalso. apply in_combine_l in I. apply (precedes_irrefl h), Ao1, I.
        * destruct (deglex g t) eqn:Ed.
          -- apply (IHo cs Wo2 Ao2 Hl'); [intros h e I J; apply (Hc h e); [right; exact I|exact J]|apply fits_tail in F; exact F].
          -- destruct (IHt (g :: gs) (c :: cs) Wo (conj Ao1 Ao2) Hl) as [r ->]; [| |cbn; eauto].
             ++ intros h e I J. apply (Hc h e); [exact I|right; exact J].
             ++ intros h e I He. assert (Hin : In h (t :: ts)) by (apply (F h e); [exact I|exact He]).
                destruct Hin as [->|Hin]; [|exact Hin]. exfalso.
                apply in_combine_l in I. destruct I as [->|I]; [apply gen_eqb_neq in Eg; contradiction|].
                apply Ao1 in I. apply precedes_deglex in I; [congruence|assumption|assumption].
  Qed.

  Definition fits x M : Prop := fits_in (basis M) (basis (emodule x)) (coeffs x).
  Lemma incl_fits x M : incl (basis (emodule x)) (basis M) -> fits x M.
  Proof. intros H g c I _. apply H. apply in_combine_l in I. exact I. Qed.

  Lemma promote_spec x M y : elem_wf S x -> module_wf M -> promote x M = Ok y ->
    elem_wf S y /\ emodule y = M /\ (fits x M -> forall v, evalv v y = evalv v x).
  Proof.
    intros Hx HM H. unfold promote in H. destruct (module_eqb (emodule x) M) eqn:E.
    { injection H as <-. apply (module_eqb_spec A S L) in E. split; [exact Hx|]. split; [exact E|auto]. }
    destruct (nonzero x) eqn:En; cbn [negb] in H.
    - destruct (promote_loop _ _ _ _) as [cs|] eqn:Ep; [|discriminate]. injection H as <-.
      destruct Hx as ([Wx1 Wx2] & Hl & Hm). destruct HM as [WM1 WM2].
      destruct (promote_loop_spec _ _ _ WM1 WM2 _ _ _ Wx1 Wx2 Hl Hm Ep) as (A1 & A2 & A3).
      split; [split; [split; assumption|split; assumption]|]. split; [reflexivity|]. intros F v. apply A3, F.
    - injection H as <-. split; [apply zero_of_wf, HM|]. split; [reflexivity|]. intros _ v.
      rewrite zero_of_value, evalv_nonzero_false by exact En. reflexivity.
  Qed.
  Lemma promote_succeeds x M : elem_wf S x -> module_wf M -> fits x M ->
    (forall c, mem S (mring (emodule x)) c -> exists c', coerce (mring M) c = Ok c') -> exists y, promote x M = Ok y.
  Proof.
    intros Hx HM F C. unfold promote. destruct (module_eqb _ _); [eauto|]. destruct (nonzero x); cbn; [|eauto].
    destruct Hx as ([Wx1 Wx2] & Hl & Hm). destruct HM as [WM1 WM2].
    assert (K : forall g c, In (g, c) (combine (basis (emodule x)) (coeffs x)) -> In g (basis M) -> exists c', coerce (mring M) c = Ok c').
    { intros g c I _. apply C. apply in_combine_r in I. apply (proj1 (Forall_forall _ _) Hm c I). }
    destruct (promote_loop_succeeds (mring M) _ WM1 WM2 _ _ Wx1 Wx2 Hl K F) as [r ->]. cbn. eauto.
  Qed.

  (** * common *)
  Lemma common_spec x y x' y' : elem_wf S x -> elem_wf S y -> common x y = Ok (x', y') ->
    elem_wf S x' /\ elem_wf S y' /\ emodule x' = emodule y' /\
    (forall g, In g (basis (emodule x')) <-> In g (basis (emodule x)) \/ In g (basis (emodule y))) /\
    (forall v, evalv v x' = evalv v x) /\ (forall v, evalv v y' = evalv v y).
  Proof.
    intros Hx Hy H. unfold common in H. destruct (module_eqb (emodule x) (emodule y)) eqn:E.
    { injection H as <- <-. apply (module_eqb_spec A S L) in E. rewrite <- E in *. repeat (split; [first [assumption|reflexivity|tauto]|]). auto. }
    destruct (span (emodule x) (emodule y)) as [M|] eqn:Es; [|discriminate]. cbn in H.
    destruct (promote x M) as [x1|] eqn:Ex; [|discriminate]. cbn in H. destruct (promote y M) as [y1|] eqn:Ey; [|discriminate]. injection H as <- <-.
    destruct (span_spec A S L _ _ _ (proj1 Hx) (proj1 Hy) Es) as (WM & _ & G).
    destruct (promote_spec x M x1 Hx WM Ex) as (A1 & A2 & A3). destruct (promote_spec y M y1 Hy WM Ey) as (B1 & B2 & B3).
    split; [exact A1|]. split; [exact B1|]. split; [congruence|]. split; [rewrite A2; exact G|].
    split; [apply A3|apply B3]; apply incl_fits; intros g Hg; apply G; auto.
  Qed.
  Lemma span_coerce M N P : module_wf M -> module_wf N -> span M N = Ok P ->
    (forall c, basis M <> [] -> mem S (mring M) c -> exists c', coerce (mring P) c = Ok c') /\
    (forall c, basis N <> [] -> mem S (mring N) c -> exists c', coerce (mring P) c = Ok c').
  Proof.
    intros HM HN H. destruct (span_spec A S L M N P HM HN H) as (_ & R & _). unfold span_ring in R.
    destruct (basis M) as [|g bM].
    - split; [intros c []; reflexivity|]. intros c _ Hc. subst. rewrite R. exists c. apply (L_coerce_mem A S L), Hc.
    - destruct (basis N) as [|h bN].
      + split; [|intros c []; reflexivity]. intros c _ Hc. rewrite R. exists c. apply (L_coerce_mem A S L), Hc.
      + destruct R as [[R1 R2]|[R1 R2]].
        * rewrite R2, <- R1. split; intros c _ Hc; exists c; apply (L_coerce_mem A S L), Hc.
        * split; intros c _ Hc; apply (L_compositum A S L _ _ _ R2); auto.
  Qed.
  Lemma common_succeeds x y : elem_wf S x -> elem_wf S y -> combinable (emodule x) (emodule y) -> exists x' y', common x y = Ok (x', y').
  Proof.
    intros Hx Hy [C1 C2]. unfold common. destruct (module_eqb _ _); [eauto|].
    destruct (span_succeeds A S L _ _ (proj1 Hx) (proj1 Hy) C1 C2) as [M E]. rewrite E. cbn.
    destruct (span_spec A S L _ _ _ (proj1 Hx) (proj1 Hy) E) as (WM & _ & G).
    destruct (span_coerce _ _ _ (proj1 Hx) (proj1 Hy) E) as [K1 K2].
    assert (Z : forall z, elem_wf S z -> basis (emodule z) = [] -> nonzero z = false).
    { intros z (_ & Hl & _) B. rewrite B in Hl. apply nonzero_false. destruct (coeffs z); [constructor|discriminate]. }
    assert (P : forall z, elem_wf S z -> incl (basis (emodule z)) (basis M) ->
      (forall c, basis (emodule z) <> [] -> mem S (mring (emodule z)) c -> exists c', coerce (mring M) c = Ok c') -> exists z', promote z M = Ok z').
    { intros z Hz I K. destruct (basis (emodule z)) as [|g b] eqn:B.
      - unfold promote. rewrite (Z z Hz B). cbn. destruct (module_eqb _ _); eauto.
      - apply promote_succeeds; [exact Hz|exact WM|apply incl_fits; rewrite B; exact I|]. intros c. apply K. discriminate. }
    destruct (P x Hx) as [x' ->]; [intros g Hg; apply G; auto|exact K1|]. cbn.
    destruct (P y Hy) as [y' ->]; [intros g Hg; apply G; auto|exact K2|]. cbn. eauto.
  Qed.

  (** * Addition *)
  Lemma add_coeffs_spec p l : forall r, length l = length r -> Forall (mem S p) l -> Forall (mem S p) r ->
    length (add_coeffs l r) = length l /\ Forall (mem S p) (add_coeffs l r) /\
    forall v gs, comb v gs (add_coeffs l r) = comb v gs l + comb v gs r.
  Proof.
    induction l as [|a l IH]; intros [|b r] Hl Ha Hb; try discriminate; cbn.
    - split; [reflexivity|]. split; [constructor|]. intros v [|g gs]; cbn; ring.
    - inversion Ha; subst. inversion Hb; subst. destruct (IH r) as (A1 & A2 & A3); [cbn in Hl; lia|assumption|assumption|].
      destruct (L_add A S L p a b) as [B1 B2]; [assumption|assumption|].
      split; [congruence|]. split; [constructor; assumption|]. intros v [|g gs]; cbn; [ring|]. rewrite A3, B2. ring.
  Qed.
  Lemma add_spec x y z : elem_wf S x -> elem_wf S y -> add x y = Ok z ->
    elem_wf S z /\ (forall v, evalv v z = evalv v x + evalv v y) /\
    (forall g, In g (basis (emodule z)) <-> In g (basis (emodule x)) \/ In g (basis (emodule y))).
  Proof.
    intros Hx Hy H. unfold add in H. destruct (common x y) as [[x' y']|] eqn:E; [|discriminate]. injection H as <-.
    destruct (common_spec x y x' y' Hx Hy E) as (A1 & A2 & A3 & A4 & A5 & A6).
    destruct A1 as (W & Hl & Hm). destruct A2 as (W' & Hl' & Hm').
    rewrite <- A3 in Hl', Hm'. destruct (add_coeffs_spec (mring (emodule x')) (coeffs x') (coeffs y')) as (B1 & B2 & B3); [congruence|assumption|assumption|].
    split; [|split; [|exact A4]].
    - split; [exact W|]. split; [cbn; congruence|exact B2].
    - intros v. rewrite <- A5, <- A6. unfold evalv. cbn. rewrite B3, <- A3. reflexivity.
  Qed.
  Lemma add_succeeds x y : elem_wf S x -> elem_wf S y -> combinable (emodule x) (emodule y) -> exists z, add x y = Ok z.
  Proof. intros Hx Hy C. unfold add. destruct (common_succeeds x y Hx Hy C) as (x' & y' & ->). cbn. eauto. Qed.

  (** * Negation *)
  Lemma opp_spec x : elem_wf S x -> elem_wf S (opp x) /\ forall v, evalv v (opp x) = - evalv v x.
  Proof.
    intros (W & Hl & Hm). unfold opp, evalv. cbn. split.
    - split; [exact W|]. cbn. split; [rewrite map_length; exact Hl|]. apply Forall_forall. intros c Hc.
      apply in_map_iff in Hc. destruct Hc as (d & <- & Hd). apply (L_opp A S L). apply (proj1 (Forall_forall _ _) Hm d Hd).
    - intros v. clear Hl. revert Hm. generalize (mring (emodule x)) as p. generalize (coeffs x). induction (basis (emodule x)) as [|g gs IH]; intros [|c cs] p Hm; cbn; try ring.
      inversion Hm; subst. rewrite (IH cs p) by assumption. destruct (L_opp A S L p c) as [_ ->]; [assumption|]. ring.
  Qed.
  Lemma sub_spec x y z : elem_wf S x -> elem_wf S y -> sub x y = Ok z ->
    elem_wf S z /\ (forall v, evalv v z = evalv v x - evalv v y) /\
    (forall g, In g (basis (emodule z)) <-> In g (basis (emodule x)) \/ In g (basis (emodule y))).
  Proof.
    intros Hx Hy H. destruct (opp_spec y Hy) as [Wo Vo]. destruct (add_spec x (opp y) z Hx Wo H) as (A1 & A2 & A3).
    split; [exact A1|]. split; [|exact A3]. intros v. rewrite A2, Vo. ring.
  Qed.

  (** * Multiplication *)
  Fixpoint pcomb (v : gen -> R) (l : list (gen * car A)) : R :=
    match l with [] => 0 | (g, c) :: l' => val S c * v g + pcomb v l' end.
  Lemma pcomb_combine v gs cs : pcomb v (combine gs cs) = comb v gs cs.
  Proof. revert cs. induction gs as [|g gs IH]; intros [|c cs]; cbn; try reflexivity. rewrite IH. reflexivity. Qed.
  Lemma pcomb_split v l : comb v (map fst l) (map snd l) = pcomb v l.
  Proof. induction l as [|[g c] l IH]; cbn; [reflexivity|]. rewrite IH. reflexivity. Qed.
  Lemma pcomb_perm v l r : Permutation l r -> pcomb v l = pcomb v r.
  Proof.
    intros P. induction P as [|[g c] l r P IH|[g c] [h d] l|l m r P1 IH1 P2 IH2]; cbn; [reflexivity|rewrite IH; reflexivity|ring|congruence].
  Qed.
  Definition pair_ok p (x : gen * car A) : Prop := gen_wf (fst x) /\ mem S p (snd x).
  Definition pairs_ok p (l : list (gen * car A)) : Prop := Forall (pair_ok p) l /\ NoDup (map fst l).

  Lemma accumulate_keys g c l h : In h (map fst (accumulate g c l)) <-> h = g \/ In h (map fst l).
  Proof.
    induction l as [|[k d] l IH]; cbn; [split; intros [H|H]; auto|]. destruct (gen_eqb k g) eqn:E; cbn.
    - apply gen_eqb_eq in E. subst k. split; [auto|]. intros [->|H]; auto.
    - rewrite IH. tauto.
  Qed.
  Lemma accumulate_spec p g c l : gen_wf g -> mem S p c -> pairs_ok p l ->
    pairs_ok p (accumulate g c l) /\ forall v, pcomb v (accumulate g c l) = pcomb v l + val S c * v g.
  Proof.
    intros Hg Hc. induction l as [|[h d] l IH]; intros [H1 H2]; cbn.
    - destruct (L_add A S L p (czero A) c) as [B1 B2]; [apply (L_zero A S L)|exact Hc|].
      split; [split; [constructor; [split; assumption|constructor]|constructor; [intros []|constructor]]|]. intros v. cbn. rewrite B2, val_zero. ring.
    - inversion H1 as [|? ? Hpair H1']; subst. destruct Hpair as [Hh Hd]; cbn [fst snd] in Hh, Hd. inversion H2 as [|? ? H2a H2b]; subst. destruct (gen_eqb h g) eqn:E.
      + apply gen_eqb_eq in E. subst h. destruct (L_add A S L p d c Hd Hc) as [B1 B2].
        split; [split; [constructor; [split; assumption|exact H1']|exact H2]|]. intros v. cbn. rewrite B2. ring.
      + destruct (IH (conj H1' H2b)) as [[A1 A2] A3]. split.
        * split; [constructor; [split; assumption|exact A1]|]. cbn. constructor; [|exact A2]. rewrite accumulate_keys. intros [->|H]; [rewrite gen_eqb_refl in E; discriminate|contradiction].
        * intros v. cbn. rewrite A3. ring.
  Qed.
  Lemma mul_row_spec p g c : gen_wf g -> mem S p c -> forall r acc res,
    Forall (pair_ok p) r -> pairs_ok p acc -> mul_row g c r acc = Ok res ->
    pairs_ok p res /\ (forall rho, pcomb (gen_val rho) res = pcomb (gen_val rho) acc + val S c * gen_val rho g * pcomb (gen_val rho) r) /\
    (forall k, In k (map fst res) <-> In k (map fst acc) \/ exists h, In h (map fst r) /\ gen_mul g h = Ok k).
  Proof.
    intros Hg Hc. induction r as [|[h d] r IH]; intros acc res Hr Ha H; cbn in H.
    - injection H as <-. split; [exact Ha|]. split; [intros rho; cbn; ring|]. intros k. split; [auto|]. intros [K|(h & [] & _)]; exact K.
    - inversion Hr as [|? ? Hpair Hr']; subst. destruct Hpair as [Hh Hd]; cbn [fst snd] in Hh, Hd. destruct (gen_mul g h) as [gh|] eqn:E; [|discriminate]. cbn in H.
      destruct (gen_mul_correct g h gh Hg Hh E) as [W V]. destruct (L_mul A S L p c d Hc Hd) as [M1 M2].
      destruct (accumulate_spec p gh (cmul c d) acc W M1 Ha) as [A1 A2].
      destruct (IH _ _ Hr' A1 H) as (B1 & B2 & B3). split; [exact B1|]. split.
      + intros rho. rewrite B2, A2, M2, V. cbn. ring.
      + intros k. rewrite B3, accumulate_keys. cbn. split.
        * intros [[->|K]|(h' & K1 & K2)]; [right; exists h; auto|auto|right; exists h'; auto].
        * intros [K|(h' & [->|K1] & K2)]; [auto|left; left; congruence|right; exists h'; auto].
  Qed.
  Lemma mul_rows_spec p r : Forall (pair_ok p) r -> forall l acc res,
    Forall (pair_ok p) l -> pairs_ok p acc -> mul_rows l r acc = Ok res ->
    pairs_ok p res /\ (forall rho, pcomb (gen_val rho) res = pcomb (gen_val rho) acc + pcomb (gen_val rho) l * pcomb (gen_val rho) r) /\
    (forall k, In k (map fst res) <-> In k (map fst acc) \/ exists g h, In g (map fst l) /\ In h (map fst r) /\ gen_mul g h = Ok k).
  Proof.
    intros Hr. induction l as [|[g c] l IH]; intros acc res Hl Ha H; cbn in H.
    - injection H as <-. split; [exact Ha|]. split; [intros rho; cbn; ring|]. intros k. split; [auto|]. intros [K|(g & h & [] & _)]; exact K.
    - inversion Hl as [|? ? Hpair Hl']; subst. destruct Hpair as [Hg Hc]; cbn [fst snd] in Hg, Hc. destruct (mul_row g c r acc) as [acc'|] eqn:E; [|discriminate]. cbn in H.
      destruct (mul_row_spec p g c Hg Hc r acc acc' Hr Ha E) as (A1 & A2 & A3).
      destruct (IH acc' res Hl' A1 H) as (B1 & B2 & B3). split; [exact B1|]. split.
      + intros rho. rewrite B2, A2. cbn. ring.
      + intros k. rewrite B3, A3. cbn. split.
        * intros [[K|(h & K1 & K2)]|(g' & h & K1 & K2 & K3)]; [auto|right; exists g, h; auto|right; exists g', h; auto].
        * intros [K|(g' & h & [->|K1] & K2 & K3)]; [auto|left; right; exists h; auto|right; exists g', h; auto].
  Qed.
  Lemma insert_pair_perm (x0 : gen * car A) l : Permutation (x0 :: l) (insert_pair (A := A) x0 l).
  Proof.
    induction l as [|y l IH]; cbn; [apply Permutation_refl|]. destruct (deglex (fst y) (fst x0)); [|apply Permutation_refl].
    apply (Permutation_trans (perm_swap y x0 l)). constructor. exact IH.
  Qed.
  Lemma sort_pairs_perm l : Permutation l (sort_pairs (A := A) l).
  Proof.
    induction l as [|g l IH]; cbn; [apply Permutation_refl|].
    apply (Permutation_trans (l' := g :: sort_pairs l)); [constructor; exact IH|apply insert_pair_perm].
  Qed.
  Lemma insert_pair_fst (x0 : gen * car A) l : map fst (insert_pair (A := A) x0 l) = insert (fst x0) (map fst l).
  Proof. induction l as [|y l IH]; cbn; [reflexivity|]. destruct (deglex (fst y) (fst x0)); cbn; [rewrite IH|]; reflexivity. Qed.
  Lemma sort_pairs_fst l : map fst (sort_pairs (A := A) l) = gsort (map fst l).
  Proof. induction l as [|y l IH]; cbn; [reflexivity|]. rewrite insert_pair_fst, IH. reflexivity. Qed.
  Lemma combine_ok p gs cs : Forall gen_wf gs -> Forall (mem S p) cs -> Forall (pair_ok p) (combine gs cs).
  Proof.
    intros Hg Hc. apply Forall_forall. intros [g c] H. split.
    - apply in_combine_l in H. apply (proj1 (Forall_forall _ _) Hg g H).
    - apply in_combine_r in H. apply (proj1 (Forall_forall _ _) Hc c H).
  Qed.
  Lemma map_fst_combine (gs : list gen) (cs : list (car A)) : length cs = length gs -> map fst (combine gs cs) = gs.
  Proof. revert cs. induction gs as [|g gs IH]; intros [|c cs] H; cbn in *; try discriminate; [reflexivity|]. rewrite IH by lia. reflexivity. Qed.

  Lemma mul_same_spec x y z : elem_wf S x -> elem_wf S y -> mring (emodule x) = mring (emodule y) -> mul_same x y = Ok z ->
    elem_wf S z /\ mring (emodule z) = mring (emodule x) /\ (forall rho, evalv (gen_val rho) z = evalv (gen_val rho) x * evalv (gen_val rho) y) /\
    (forall k, In k (basis (emodule z)) <-> exists g h, In g (basis (emodule x)) /\ In h (basis (emodule y)) /\ gen_mul g h = Ok k).
  Proof.
    intros ([Wx Ax] & Lx & Mx) ([Wy Ay] & Ly & My) E H. unfold mul_same in H. rewrite <- E in My.
    destruct (mul_rows _ _ _) as [l|] eqn:El; [|discriminate]. cbn [bind] in H.
    pose proof (combine_ok _ _ _ Wx Mx) as Cx. pose proof (combine_ok _ _ _ Wy My) as Cy.
    destruct (mul_rows_spec _ _ Cy _ [] l Cx (conj (Forall_nil _) (NoDup_nil _)) El) as ([A1 A2] & B & K).
    pose proof (sort_pairs_perm l) as P.
    assert (Wl : Forall gen_wf (map fst (sort_pairs l))).
    { apply Forall_forall. intros g Hg. apply in_map_iff in Hg. destruct Hg as ([g' c] & <- & Hg). apply (Permutation_in _ (Permutation_sym P)) in Hg.
      apply (proj1 (Forall_forall _ _) A1 _ Hg). }
    destruct (make _ _) as [M|] eqn:EM; [|discriminate]. cbn [bind] in H. apply make_ok in EM; [|exact Wl]. destruct EM as (WM & RM & PM & CM).
    destruct (basis_eqb _ _) eqn:Eb; [|discriminate]. injection H as <-. apply basis_eqb_spec in Eb.
    split; [|split; [exact RM|split]].
    - split; [exact WM|]. cbn. split; [rewrite Eb, !map_length; reflexivity|]. rewrite RM. apply Forall_forall. intros c Hc.
      apply in_map_iff in Hc. destruct Hc as ([g' c'] & <- & Hc). apply (Permutation_in _ (Permutation_sym P)) in Hc. apply (proj1 (Forall_forall _ _) A1 _ Hc).
    - intros rho. unfold evalv. cbn. rewrite Eb, pcomb_split, <- (pcomb_perm _ _ _ P), B, !pcomb_combine. cbn. ring.
    - intros k. cbn. rewrite Eb. rewrite (map_fst_combine _ _ Lx), (map_fst_combine _ _ Ly) in K. cbn in K.
      assert (Q : In k (map fst (sort_pairs l)) <-> In k (map fst l)).
      { split; apply Permutation_in; [apply Permutation_sym|]; apply Permutation_map, P. }
      rewrite Q, K. tauto.
  Qed.

  Lemma promote_same_basis x M : elem_wf S x -> module_wf M -> basis M = basis (emodule x) -> forall y, promote x M = Ok y ->
    elem_wf S y /\ emodule y = M /\ forall v, evalv v y = evalv v x.
  Proof.
    intros Hx HM B y H. destruct (promote_spec x M y Hx HM H) as (A1 & A2 & A3). split; [exact A1|]. split; [exact A2|].
    apply A3, incl_fits. rewrite B. apply incl_refl.
  Qed.
  Lemma mul_spec x y z : elem_wf S x -> elem_wf S y -> mul x y = Ok z ->
    elem_wf S z /\ (forall rho, evalv (gen_val rho) z = evalv (gen_val rho) x * evalv (gen_val rho) y) /\
    (nonzero x = true -> nonzero y = true ->
     forall k, In k (basis (emodule z)) <-> exists g h, In g (basis (emodule x)) /\ In h (basis (emodule y)) /\ gen_mul g h = Ok k).
  Proof.
    intros Hx Hy H. unfold mul in H. destruct (nonzero x) eqn:Nx; cbn [negb] in H.
    2:{ injection H as <-. split; [exact Hx|]. split; [|discriminate]. intros rho. rewrite (evalv_nonzero_false _ x Nx). ring. }
    destruct (nonzero y) eqn:Ny; cbn [negb] in H.
    2:{ injection H as <-. split; [exact Hy|]. split; [|discriminate]. intros rho. rewrite (evalv_nonzero_false _ y Ny). ring. }
    destruct (par_eqb _ _) eqn:E.
    - apply (L_par_eqb A S L) in E. destruct (mul_same_spec x y z Hx Hy E H) as (A1 & A2 & A3 & A4). auto.
    - destruct (compositum _ _) as [p|] eqn:Ec; [|discriminate]. cbn [bind] in H.
      rewrite (make_other A _ p (proj1 Hx)), (make_other A _ p (proj1 Hy)) in H. cbn [bind] in H.
      destruct (promote x _) as [x'|] eqn:Ex; [|discriminate]. cbn [bind] in H. destruct (promote y _) as [y'|] eqn:Ey; [|discriminate]. cbn [bind] in H.
      apply promote_same_basis in Ex; [|exact Hx|exact (proj1 Hx)|reflexivity]. apply promote_same_basis in Ey; [|exact Hy|exact (proj1 Hy)|reflexivity].
      destruct Ex as (X1 & X2 & X3), Ey as (Y1 & Y2 & Y3).
      destruct (mul_same_spec x' y' z X1 Y1) as (A1 & A2 & A3 & A4); [rewrite X2, Y2; reflexivity|exact H|].
      split; [exact A1|]. split; [intros rho; rewrite A3, X3, Y3; reflexivity|]. intros _ _ k. rewrite A4, X2, Y2. reflexivity.
  Qed.

  Lemma mul_row_succeeds g c (r : list (gen * car A)) : (forall h, In h (map fst r) -> exists k, gen_mul g h = Ok k) -> forall acc, exists res, mul_row g c r acc = Ok res.
  Proof.
    induction r as [|[h d] r IH]; intros H acc; cbn; [eauto|]. destruct (H h (or_introl eq_refl)) as [k ->]. cbn. apply IH. intros h' Hh. apply H. right. exact Hh.
  Qed.
  Lemma mul_rows_succeeds (r l : list (gen * car A)) : (forall g h, In g (map fst l) -> In h (map fst r) -> exists k, gen_mul g h = Ok k) -> forall acc, exists res, mul_rows l r acc = Ok res.
  Proof.
    induction l as [|[g c] l IH]; intros H acc; cbn; [eauto|].
    destruct (mul_row_succeeds g c r) with (acc := acc) as [acc' ->]; [intros h Hh; apply H; [left; reflexivity|exact Hh]|]. cbn. apply IH.
    intros g' h Hg Hh. apply H; [right; exact Hg|exact Hh].
  Qed.
  Lemma gen_mul_rational g h k : gen_wf g -> gen_wf h -> gen_mul g h = Ok k -> rational k -> rational g /\ rational h.
  Proof.
    intros Hg Hh E R. pose proof (gen_mul_expo g h k Hg Hh E) as X. unfold gen_mul, rational_mul in E.
    destruct g as [q|i|ms], h as [q'|j|ns]; cbn; auto; exfalso.
    - destruct (Qeq_bool q 1); [|discriminate]. injection E as <-. exact R.
    - destruct (Qeq_bool q 1); [|discriminate]. injection E as <-. exact R.
    - destruct (Qeq_bool q' 1); [|discriminate]. injection E as <-. exact R.
    - injection E as <-. exact R.
    - injection E as <-. exact R.
    - destruct (Qeq_bool q' 1); [|discriminate]. injection E as <-. exact R.
    - injection E as <-. exact R.
    - injection E as <-. exact R.
  Qed.
  Lemma mul_same_succeeds x y : elem_wf S x -> elem_wf S y -> mring (emodule x) = mring (emodule y) ->
    (forall g h, In g (basis (emodule x)) -> In h (basis (emodule y)) -> exists k, gen_mul g h = Ok k) -> exists z, mul_same x y = Ok z.
  Proof.
    intros ([Wx Ax] & Lx & Mx) ([Wy Ay] & Ly & My) E H. unfold mul_same. rewrite <- E in My.
    destruct (mul_rows_succeeds (combine (basis (emodule y)) (coeffs y)) (combine (basis (emodule x)) (coeffs x))) with (acc := @nil (gen * car A)) as [l El].
    { rewrite (map_fst_combine _ _ Lx), (map_fst_combine _ _ Ly). exact H. }
    rewrite El. cbn [bind].
    pose proof (combine_ok _ _ _ Wx Mx) as Cx. pose proof (combine_ok _ _ _ Wy My) as Cy.
    destruct (mul_rows_spec _ _ Cy _ [] l Cx (conj (Forall_nil _) (NoDup_nil _)) El) as ([A1 A2] & B & K).
    rewrite (map_fst_combine _ _ Lx), (map_fst_combine _ _ Ly) in K. cbn in K.
    rewrite sort_pairs_fst.
    assert (Wl : Forall gen_wf (map fst l)).
    { apply Forall_forall. intros g Hg. apply in_map_iff in Hg. destruct Hg as ([g' c] & <- & Hg). apply (proj1 (Forall_forall _ _) A1 _ Hg). }
    assert (Cl : compatible (map fst l)).
    { apply compatible_nodup. split; [exact A2|]. intros g h Hg Hh Rg Rh. apply K in Hg, Hh.
      destruct Hg as [[]|(g1 & h1 & I1 & J1 & M1)], Hh as [[]|(g2 & h2 & I2 & J2 & M2)].
      pose proof (proj1 (Forall_forall _ _) Wx) as Fx. pose proof (proj1 (Forall_forall _ _) Wy) as Fy.
      destruct (gen_mul_rational g1 h1 g (Fx _ I1) (Fy _ J1) M1 Rg) as [R1 R2]. destruct (gen_mul_rational g2 h2 h (Fx _ I2) (Fy _ J2) M2 Rh) as [R3 R4].
      apply ascending_compatible, compatible_nodup in Ax, Ay. destruct Ax as [_ Ax], Ay as [_ Ay].
      rewrite (Ax g1 g2 I1 I2 R1 R3), (Ay h1 h2 J1 J2 R2 R4) in M1. congruence. }
    rewrite make_succeeds by (apply (compatible_perm _ _ (gsort_perm _)), Cl). cbn [bind basis].
    assert (Ws : Forall gen_wf (gsort (map fst l))) by (apply (Permutation_Forall (gsort_perm _)), Wl).
    rewrite (gsort_id (gsort (map fst l)) Ws) by (apply gsort_ascending; assumption).
    assert (basis_eqb (gsort (map fst l)) (gsort (map fst l)) = true) as -> by (apply basis_eqb_spec; reflexivity). eauto.
  Qed.
  Lemma mul_succeeds x y : elem_wf S x -> elem_wf S y ->
    (mring (emodule x) = mring (emodule y) \/ exists p, compositum (mring (emodule x)) (mring (emodule y)) = Ok p) ->
    (forall g h, In g (basis (emodule x)) -> In h (basis (emodule y)) -> exists k, gen_mul g h = Ok k) -> exists z, mul x y = Ok z.
  Proof.
    intros Hx Hy C H. unfold mul. destruct (nonzero x); cbn [negb]; [|eauto]. destruct (nonzero y); cbn [negb]; [|eauto].
    destruct (par_eqb _ _) eqn:E.
    - apply (L_par_eqb A S L) in E. apply mul_same_succeeds; assumption.
    - destruct C as [C|[p C]]; [apply (L_par_eqb A S L) in C; congruence|]. rewrite C. cbn [bind].
      rewrite (make_other A _ p (proj1 Hx)), (make_other A _ p (proj1 Hy)). cbn [bind].
      destruct (promote_succeeds x (mkModule (basis (emodule x)) p) Hx (proj1 Hx)) as [x' Ex]; [apply incl_fits, incl_refl|intros c Hc; apply (L_compositum A S L _ _ _ C); auto|].
      destruct (promote_succeeds y (mkModule (basis (emodule y)) p) Hy (proj1 Hy)) as [y' Ey]; [apply incl_fits, incl_refl|intros c Hc; apply (L_compositum A S L _ _ _ C); auto|].
      rewrite Ex, Ey. cbn [bind].
      apply promote_same_basis in Ex; [|exact Hx|exact (proj1 Hx)|reflexivity]. apply promote_same_basis in Ey; [|exact Hy|exact (proj1 Hy)|reflexivity].
      destruct Ex as (X1 & X2 & X3), Ey as (Y1 & Y2 & Y3). apply mul_same_succeeds; [exact X1|exact Y1|rewrite X2, Y2; reflexivity|].
      rewrite X2, Y2. exact H.
  Qed.

  (** * Equality *)
  Lemma coeffs_eqb_spec (l : list (car A)) : forall r, coeffs_eqb l r = true <-> l = r.
  Proof.
    induction l as [|a l IH]; intros [|b r]; cbn; try (split; discriminate); [tauto|].
    rewrite andb_true_iff, IH, (L_eqb A S L). split; [intros [-> ->]; reflexivity|]. intros [= -> ->]. auto.
  Qed.
  Lemma equal_spec x y b : elem_wf S x -> elem_wf S y -> equal x y = Ok b -> (b = true <-> forall v, evalv v x = evalv v y).
  Proof.
    intros Hx Hy H. unfold equal in H. destruct (common x y) as [[x' y']|] eqn:E; [|discriminate]. injection H as <-.
    destruct (common_spec x y x' y' Hx Hy E) as (A1 & A2 & A3 & A4 & A5 & A6). rewrite coeffs_eqb_spec. split.
    - intros C v. rewrite <- A5, <- A6. unfold evalv. rewrite A3, C. reflexivity.
    - intros V. destruct A1 as ([_ Ax] & Lx & Mx), A2 as ([_ Ay] & Ly & My). rewrite <- A3 in Ly, My.
      assert (F : Forall2 (fun c d => val S c = val S d) (coeffs x') (coeffs y')).
      { apply (comb_inj (basis (emodule x'))); [apply ascending_NoDup, Ax|exact Lx|exact Ly|].
        intros v. specialize (V v). rewrite <- A5, <- A6 in V. unfold evalv in V. rewrite <- A3 in V. exact V. }
      clear -F Mx My L. revert Mx My. generalize (mring (emodule x')) as p. induction F as [|c d cs ds H F IH]; intros p Mx My; [reflexivity|].
      inversion Mx; subst. inversion My; subst. f_equal; [apply (L_inj A S L p); assumption|apply (IH p); assumption].
  Qed.
End Proofs.
