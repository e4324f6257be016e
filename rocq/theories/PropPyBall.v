(** Property C97: programs with balls that do not raise PrecisionError are right. *)
From Coq Require Import ZArith List Bool Reals Lra Lia Classical.
From Flocq Require Import Core.
From Verif Require Import Arf Arb SpecArf ArfProofs ArbProofs PropArith PyBall SpecPyBall.
Import ListNotations.
Open Scope R_scope.

Lemma related : forall r x y, arb_wf x -> arb_wf y -> tri (holds r) x y (cpp_relation r x y).
Proof. intros [] x y Wx Wy; [apply C03_lt|apply C03_le|apply C03_eq|apply C03_ne|apply C03_gt|apply C03_ge]; assumption. Qed.
Lemma contains_Z n : contains (arb_of_Z n) (IZR n).
Proof. unfold contains, arb_of_Z, arb_of_arf. cbn. rewrite arf_of_Z_spec, Rminus_diag_eq, Rabs_R0 by reflexivity. unfold arf2R. cbn. lra. Qed.
Lemma contains_Z_only n v : contains (arb_of_Z n) v -> v = IZR n.
Proof.
  unfold contains, arb_of_Z, arb_of_arf. cbn. rewrite arf_of_Z_spec. replace (arf2R arf_zero) with 0 by (unfold arf2R; cbn; lra). intros H.
  unfold Rabs in H. destruct (Rcase_abs _) in H; lra.
Qed.
Lemma wf_Z n : arb_wf (arb_of_Z n).
Proof. apply arb_of_arf_wf. Qed.
Lemma holds_reflected r x y : holds (reflected r) x y <-> holds r y x.
Proof. destruct r; cbn; lra. Qed.

(** * One comparison *)
(** An answer is right for all points of the balls ... *)
Theorem C97_comparison : forall mag_up, mag_up_ok mag_up -> forall bs rs r u v b x y, Forall arb_wf bs -> Forall2 contains bs rs -> (forall n d, v = Rat n d -> r <> Ne) ->
  relate mag_up bs r u v = Some (Some b) -> denotes rs u x -> denotes rs v y -> (b = true <-> holds r x y).
Proof.
  intros mag_up Hm bs rs r u v b x y W C NE H Hx Hy.
  assert (N : forall i t v0, nth_error bs i = Some t -> nth_error rs i = Some v0 -> arb_wf t /\ contains t v0).
  { intros i t v0 Hi Hv. split; [exact (proj1 (Forall_forall _ _) W t (nth_error_In _ _ Hi))|]. clear -C Hi Hv. revert i Hi Hv. induction C; intros [|i] Hi Hv; cbn in *; try discriminate; [congruence|exact (IHC i Hi Hv)]. }
  assert (T : forall o s t p q, tri (holds o) s t (Some b) -> contains s p -> contains t q -> (b = true <-> holds o p q)).
  { intros o s t p q [T1 T2] Cp Cq. destruct b; [split; [intros _; exact (proj1 T1 eq_refl p q Cp Cq)|reflexivity]|]. split; [discriminate|]. intros Hh. exfalso. exact (proj1 T2 eq_refl p q Cp Cq Hh). }
  destruct u as [i|n|n d], v as [j|n'|n' d']; cbn in H, Hx, Hy; try discriminate.
  - destruct (nth_error bs i) as [s|] eqn:Es; [|discriminate]. destruct (nth_error bs j) as [t|] eqn:Et; [|discriminate]. injection H as H.
    destruct (N i s x Es Hx) as [Ws Cs], (N j t y Et Hy) as [Wt Ct]. pose proof (related r s t Ws Wt) as R. rewrite H in R. exact (T r s t x y R Cs Ct).
  - destruct (nth_error bs i) as [s|] eqn:Es; [|discriminate]. injection H as H. subst y. destruct (N i s x Es Hx) as [Ws Cs]. pose proof (related r s _ Ws (wf_Z n')) as R. rewrite H in R. exact (T r s _ x _ R Cs (contains_Z n')).
  - destruct (nth_error bs i) as [s|] eqn:Es; [|discriminate]. injection H as H. subst y. destruct (N i s x Es Hx) as [Ws Cs]. specialize (NE n' d' eq_refl).
    destruct (C04_sound mag_up Hm s n' (Zpos d') Ws eq_refl) as (S1 & S2 & S3 & S4 & S5).
    assert (K : forall o, sound (holds o) s (IZR n' / IZR (Zpos d')) (Some b) -> (b = true <-> holds o x (IZR n' / IZR (Zpos d')))).
    { intros o [K1 K2]. destruct b; [split; [intros _; exact (K1 eq_refl x Cs)|reflexivity]|]. split; [discriminate|]. intros Hh. exfalso. exact (K2 eq_refl x Cs Hh). }
    destruct r; cbn [cpp_relation_q] in H; [rewrite H in S1|rewrite H in S3|rewrite H in S5|congruence|rewrite H in S2|rewrite H in S4]; [exact (K Lt S1)|exact (K Le S3)|exact (K Eq S5)|exact (K Gt S2)|exact (K Ge S4)].
  - destruct (nth_error bs j) as [t|] eqn:Et; [|discriminate]. injection H as H. subst x. destruct (N j t y Et Hy) as [Wt Ct]. pose proof (related (reflected r) t _ Wt (wf_Z n)) as R. rewrite H in R.
    rewrite <- (holds_reflected r y (IZR n)). exact (T (reflected r) t _ y _ R Ct (contains_Z n)).
Qed.
(** ... and PrecisionError is raised only if no answer is right for all points: the points of the two operands can be chosen such
    that the relation holds, and such that it does not hold. *)
Definition may (bs : list arb) (u : operand) (p : R) : Prop :=
  match u with Var i => exists s, nth_error bs i = Some s /\ contains s p | Int n => p = IZR n | Rat n d => p = IZR n / IZR (Zpos d) end.
Theorem C97_raises : forall mag_up bs r u v, Forall arb_wf bs -> (forall n d, v <> Rat n d) -> relate mag_up bs r u v = Some None ->
  (exists p q, may bs u p /\ may bs v q /\ holds r p q) /\ (exists p q, may bs u p /\ may bs v q /\ ~ holds r p q).
Proof.
  intros mag_up bs r u v W NR H.
  assert (N : forall i t, nth_error bs i = Some t -> arb_wf t) by (intros i t Hi; exact (proj1 (Forall_forall _ _) W t (nth_error_In _ _ Hi))).
  assert (T : forall o s t, tri (holds o) s t None -> (exists p q, contains s p /\ contains t q /\ holds o p q) /\ (exists p q, contains s p /\ contains t q /\ ~ holds o p q)).
  { intros o s t [T1 T2]. split; apply NNPP; intros K.
    - assert (X : None = Some false) by (apply T2; intros p q Cp Cq Hh; apply K; exists p, q; auto). discriminate.
    - assert (X : None = Some true) by (apply T1; intros p q Cp Cq; apply NNPP; intros Hh; apply K; exists p, q; auto). discriminate. }
  destruct u as [i|n|n d], v as [j|n'|n' d']; cbn in H; try discriminate; try (exfalso; exact (NR _ _ eq_refl)).
  - destruct (nth_error bs i) as [s|] eqn:Es; [|discriminate]. destruct (nth_error bs j) as [t|] eqn:Et; [|discriminate]. injection H as H.
    pose proof (related r s t (N i s Es) (N j t Et)) as R. rewrite H in R. destruct (T r s t R) as [(p & q & Cp & Cq & K) (p' & q' & Cp' & Cq' & K')].
    split; [exists p, q|exists p', q']; cbn; (split; [eauto|]); (split; [eauto|]); assumption.
  - destruct (nth_error bs i) as [s|] eqn:Es; [|discriminate]. injection H as H. pose proof (related r s _ (N i s Es) (wf_Z n')) as R. rewrite H in R. destruct (T r s _ R) as [(p & q & Cp & Cq & K) (p' & q' & Cp' & Cq' & K')].
    apply contains_Z_only in Cq, Cq'. subst q q'. split; [exists p, (IZR n')|exists p', (IZR n')]; cbn; (split; [eauto|]); (split; [reflexivity|]); assumption.
  - destruct (nth_error bs j) as [t|] eqn:Et; [|discriminate]. injection H as H. pose proof (related (reflected r) t _ (N j t Et) (wf_Z n)) as R. rewrite H in R. destruct (T (reflected r) t _ R) as [(p & q & Cp & Cq & K) (p' & q' & Cp' & Cq' & K')].
    apply contains_Z_only in Cq, Cq'. subst q q'. rewrite holds_reflected in K, K'. split; [exists (IZR n), p|exists (IZR n), p']; cbn; (split; [reflexivity|]); (split; [eauto|]); assumption.
Qed.

(** * Programs *)
Lemma apply_ok mag_up o prec s t x y : mag_up_ok mag_up -> arb_wf s -> arb_wf t -> contains s x -> contains t y -> arb_wf (apply mag_up o prec s t) /\ contains (apply mag_up o prec s t) (exactly o x y).
Proof.
  intros Hm Ws Wt Cs Ct. destruct (C51_wf mag_up Hm (Some (Zpos prec)) (Zpos prec) s t eq_refl Ws Wt) as (W1 & W2 & W3 & W4). destruct (C51_wf mag_up Hm (Some (Zpos prec)) (Zpos prec) s (arb_neg t) eq_refl Ws (proj2 (proj2 (proj2 (C51_wf mag_up Hm None 1%Z t t eq_refl Wt Wt))))) as (W5 & _).
  assert (P : prec_ok (Some (Zpos prec))) by reflexivity.
  destruct o; cbn; [split; [exact W1|]|split; [exact W5|]|split; [exact W2|]|split; [exact W3|]|split; [exact W4|]].
  - apply C51_add_encloses; assumption.
  - apply C51_sub_encloses; assumption.
  - apply C51_mul_encloses; assumption.
  - apply C51_div_encloses; assumption || reflexivity.
  - apply C51_neg_encloses; assumption.
Qed.
(** If the program returns on the balls, without raising PrecisionError, then it returns the same for all real numbers in the
    balls: every comparison that it makes on the way is the right one. *)
Theorem C97_program : forall mag_up, mag_up_ok mag_up -> forall bs p a, on_balls mag_up bs p (Returned a) -> without_ne p -> Forall arb_wf bs ->
  forall rs, Forall2 contains bs rs -> on_reals rs p a.
Proof.
  intros mag_up Hm bs p a H. remember (Returned a) as o eqn:Eo. revert a Eo.
  induction H as [env a0|env n p o H IH|env op prec i j s t p o Hi Hj H IH|env r u v b p q o Hr H IH|env r u v p q Hr]; intros a Eo NE W rs C; [| | | |discriminate].
  - injection Eo as ->. constructor.
  - inversion NE; subst. constructor. apply IH; [reflexivity|assumption|apply Forall_app; split; [exact W|constructor; [apply wf_Z|constructor]]|apply Forall2_app; [exact C|constructor; [apply contains_Z|constructor]]].
  - assert (K : forall k w, nth_error env k = Some w -> exists v, nth_error rs k = Some v /\ contains w v).
    { clear -C. induction C; intros [|k] w Hk; cbn in *; try discriminate; [injection Hk as ->; eauto|exact (IHC k w Hk)]. }
    destruct (K i s Hi) as (x & Hx & Cx), (K j t Hj) as (y & Hy & Cy). inversion NE; subst. apply (reals_apply rs op prec i j x y); [exact Hx|exact Hy|].
    destruct (apply_ok mag_up op prec s t x y Hm (proj1 (Forall_forall _ _) W s (nth_error_In _ _ Hi)) (proj1 (Forall_forall _ _) W t (nth_error_In _ _ Hj)) Cx Cy) as [Wa Ca].
    apply IH; [reflexivity|assumption|apply Forall_app; split; [exact W|constructor; [exact Wa|constructor]]|apply Forall2_app; [exact C|constructor; [exact Ca|constructor]]].
  - inversion NE as [| | |? ? ? ? ? N1 N2 N3]; subst. 
    assert (K : forall k w, nth_error env k = Some w -> exists v, nth_error rs k = Some v).
    { clear -C. induction C; intros [|k] w Hk; cbn in *; try discriminate; [eauto|exact (IHC k w Hk)]. }
    assert (D : exists x y, denotes rs u x /\ denotes rs v y).
    { destruct u as [i|n|n d], v as [j|n'|n' d']; cbn in Hr; try discriminate; cbn.
      - destruct (nth_error env i) as [s|] eqn:Es; [|discriminate]. destruct (nth_error env j) as [t|] eqn:Et; [|discriminate]. destruct (K i s Es) as [x Hx], (K j t Et) as [y Hy]. eauto.
      - destruct (nth_error env i) as [s|] eqn:Es; [|discriminate]. destruct (K i s Es) as [x Hx]. eauto.
      - destruct (nth_error env i) as [s|] eqn:Es; [|discriminate]. destruct (K i s Es) as [x Hx]. eauto.
      - destruct (nth_error env j) as [t|] eqn:Et; [|discriminate]. destruct (K j t Et) as [y Hy]. eauto. }
    destruct D as (x & y & Dx & Dy). pose proof (C97_comparison mag_up Hm env rs r u v b x y W C N1 Hr Dx Dy) as B. destruct b.
    + apply (reals_yes rs r u v x y); [exact Dx|exact Dy|apply B; reflexivity|]. apply IH; [reflexivity|assumption|exact W|exact C].
    + apply (reals_no rs r u v x y); [exact Dx|exact Dy|intros Hh; apply B in Hh; discriminate|]. apply IH; [reflexivity|assumption|exact W|exact C].
Qed.
(** On real numbers a program returns at most one number. *)
Theorem C97_reals_unique : forall rs p a b, on_reals rs p a -> on_reals rs p b -> a = b.
Proof.
  intros rs p a b H. revert b. assert (F : forall env u x y, denotes env u x -> denotes env u y -> x = y) by (intros env [i|n|n d] x y H1 H2; cbn in *; congruence).
  induction H as [env a0|env n p a H IH|env o prec i j x y p a Hi Hj H IH|env r u v x y p q a Hx Hy Hh H IH|env r u v x y p q a Hx Hy Hh H IH]; intros b Hb; inversion Hb; subst; auto.
  - apply IH. congruence.
  - exfalso. repeat match goal with A : denotes ?e ?w ?s, B : denotes ?e ?w ?t |- _ => assert (s = t) as -> by exact (F e w s t A B); clear B end. contradiction.
  - exfalso. repeat match goal with A : denotes ?e ?w ?s, B : denotes ?e ?w ?t |- _ => assert (s = t) as -> by exact (F e w s t A B); clear B end. contradiction.
Qed.
(** So what a program returns on balls does not depend on the radii and precisions: two runs on balls around the same numbers that
    both return, return the same. *)
Theorem C97_agree : forall mag_up, mag_up_ok mag_up -> forall bs cs p a b, on_balls mag_up bs p (Returned a) -> on_balls mag_up cs p (Returned b) -> without_ne p -> Forall arb_wf bs -> Forall arb_wf cs ->
  (exists rs, Forall2 contains bs rs /\ Forall2 contains cs rs) -> a = b.
Proof.
  intros mag_up Hm bs cs p a b H1 H2 NE W1 W2 (rs & C1 & C2). apply (C97_reals_unique rs p); [exact (C97_program mag_up Hm bs p a H1 NE W1 rs C1)|exact (C97_program mag_up Hm cs p b H2 NE W2 rs C2)].
Qed.
(** A loop: double x0 (as the last number) until it is at least 100, and return whether it is below 200 then. *)
CoFixpoint doubling (i : nat) : program := Apply Plus 64 i i (Compare Ge (Var (S i)) (Int 100) (Compare Gt (Int 200) (Var (S i)) (Return 1) (Return 0)) (doubling (S i))).
Definition unfold_program (p : program) : program := match p with Return a => Return a | Constant n q => Constant n q | Apply o k i j q => Apply o k i j q | Compare r u v q q' => Compare r u v q q' end.
Lemma unfold_program_eq p : p = unfold_program p.
Proof. destruct p; reflexivity. Qed.
Lemma doubling_without i : without_ne (doubling i).
Proof.
  revert i. cofix K. intros i. rewrite (unfold_program_eq (doubling i)). cbn. constructor. constructor; [discriminate| |apply K]. constructor; [discriminate| |]; constructor.
Qed.
Example C97_example : on_balls (fun r => r) [mkArb (arf_of_Z 3) (Some (mkArf 1 (-10)))] (doubling 0) (Returned 1) /\ without_ne (doubling 0) /\
  on_balls (fun r => r) [mkArb (arf_of_Z 25) (Some (mkArf 1 (-10)))] (doubling 0) PrecisionError.
Proof.
  split; [|split; [apply doubling_without|]].
  - do 6 (rewrite (unfold_program_eq (doubling _)); cbn [doubling unfold_program]; eapply balls_apply; [reflexivity|reflexivity|]; eapply balls_compare; [vm_compute; reflexivity|]; cbv iota).
    eapply balls_compare; [vm_compute; reflexivity|]. cbv iota. constructor.
  - do 1 (rewrite (unfold_program_eq (doubling _)); cbn [doubling unfold_program]; eapply balls_apply; [reflexivity|reflexivity|]; eapply balls_compare; [vm_compute; reflexivity|]; cbv iota).
    rewrite (unfold_program_eq (doubling _)); cbn [doubling unfold_program]; eapply balls_apply; [reflexivity|reflexivity|]. apply balls_undecided. vm_compute. reflexivity.
Qed.
