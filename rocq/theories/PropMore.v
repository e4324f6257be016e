(** Stronger versions of some properties: what is answered is not only right, it is also answered when it can be. *)
From Coq Require Import ZArith QArith Qcanon Bool List Reals Qreals Lra Lia Psatz.
From Flocq Require Import Core.
From Verif Require Import Arf Arb SpecArf ArfProofs ArbProofs SpecReal PropArith Fast48.
Import ListNotations.
Open Scope R_scope.

(** * C04: comparisons of balls with rationals are answered *)
(** There is an answer whenever it is the same for all points of the ball of twice the radius (FLINT rounds radii up, by
    much less than that). *)
Definition answered (Rel : R -> R -> Prop) (x : arb) (q : R) (o : option bool) : Prop := forall r, rad x = Some r ->
  ((forall p, Rabs (p - arf2R (mid x)) <= 2 * arf2R r -> Rel p q) -> o = Some true) /\
  ((forall p, Rabs (p - arf2R (mid x)) <= 2 * arf2R r -> ~ Rel p q) -> o = Some false).

Lemma times_den_near mag_up x d r w : mag_up_within mag_up -> arb_wf x -> (0 < d)%Z -> rad x = Some r ->
  contains (arb_times_den mag_up x d) w -> Rabs (w / IZR d - arf2R (mid x)) <= 2 * arf2R r.
Proof.
  intros Hm Wx Hd Hr C. pose proof (IZR_lt _ _ Hd) as Pd. pose proof (arb_wf_rad x r Wx Hr) as Pr.
  unfold contains, arb_times_den, arb_mul, mk_ball, arb_of_Z, arb_of_arf in C. rewrite Hr in C. cbn [rad2 rad mid option_map round_mid round_err] in C.
  rewrite arf_mul_exact_spec, arf_of_Z_spec in C.
  match type of C with _ <= arf2R (mag_up ?e) => assert (V : arf2R e = IZR d * arf2R r) end.
  { rewrite !arf_add_exact_spec, !arf_mul_exact_spec, !arf_abs_spec, arf_of_Z_spec. replace (arf2R arf_zero) with 0 by (unfold arf2R; cbn; ring).
    rewrite (Rabs_right (IZR d)) by lra. ring. }
  match type of C with _ <= arf2R (mag_up ?e) => pose proof (Hm e) as [_ U] end.
  { rewrite V. apply Rmult_le_pos; lra. }
  rewrite V in U. replace (w / IZR d - arf2R (mid x)) with ((w - arf2R (mid x) * IZR d) * / IZR d) by (field; lra).
  rewrite Rabs_mult, (Rabs_right (/ IZR d)) by (apply Rle_ge, Rlt_le, Rinv_0_lt_compat; lra).
  apply Rle_trans with ((2 * (IZR d * arf2R r)) * / IZR d); [|right; field; lra].
  apply Rmult_le_compat_r; [apply Rlt_le, Rinv_0_lt_compat; lra|]. lra.
Qed.
Lemma answered_of_tri (Rel : R -> R -> Prop) mag_up x n d o : mag_up_within mag_up -> arb_wf x -> (0 < d)%Z ->
  (forall p, Rel (p * IZR d) (IZR n) <-> Rel p (IZR n / IZR d)) -> tri Rel (arb_times_den mag_up x d) (arb_of_Z n) o -> answered Rel x (IZR n / IZR d) o.
Proof.
  intros Hm Wx Hd HR [H1 H2] r Hr. pose proof (IZR_lt _ _ Hd) as Pd. split; intros H; [apply H1|apply H2]; intros p q Cp Cq; apply arb_of_Z_contains_iff in Cq as ->;
    replace p with (p / IZR d * IZR d) by (field; lra); rewrite HR; apply H; eapply times_den_near; eauto.
Qed.
Theorem C04_answered : forall mag_up, mag_up_within mag_up -> forall x n d, arb_wf x -> (0 < d)%Z ->
  answered Rlt x (IZR n / IZR d) (opq_lt mag_up x n d) /\ answered Rgt x (IZR n / IZR d) (opq_gt mag_up x n d) /\
  answered Rle x (IZR n / IZR d) (opq_le mag_up x n d) /\ answered Rge x (IZR n / IZR d) (opq_ge mag_up x n d) /\
  answered (@eq R) x (IZR n / IZR d) (opq_eq mag_up x n d).
Proof.
  intros mag_up Hm x n d Wx Hd. assert (Ho : mag_up_ok mag_up) by (intros r Hr; apply Hm; exact Hr).
  pose proof (times_den_wf mag_up Ho x d Wx) as Wt.
  repeat apply conj; (eapply answered_of_tri; [exact Hm|exact Wx|exact Hd| |]).
  - intros p. apply cross_lt. exact Hd.
  - apply op_lt_spec; [exact Wt|apply arb_of_arf_wf].
  - intros p. apply cross_gt. exact Hd.
  - apply op_gt_spec; [exact Wt|apply arb_of_arf_wf].
  - intros p. pose proof (cross_gt n d Hd p). lra.
  - apply op_le_spec; [exact Wt|apply arb_of_arf_wf].
  - intros p. pose proof (cross_lt n d Hd p). lra.
  - apply op_ge_spec; [exact Wt|apply arb_of_arf_wf].
  - intros p. apply cross_eq. exact Hd.
  - apply op_eq_spec; [exact Wt|apply arb_of_arf_wf].
Qed.
(** In particular the comparisons of a ball that is a single point are always answered, and right. *)
Theorem C04_exact : forall mag_up, mag_up_within mag_up -> forall x n d r, arb_wf x -> (0 < d)%Z -> rad x = Some r -> arf2R r = 0 ->
  let right (Rel : R -> R -> Prop) o := exists b, o = Some b /\ (b = true <-> Rel (arf2R (mid x)) (IZR n / IZR d)) in
  right Rlt (opq_lt mag_up x n d) /\ right Rgt (opq_gt mag_up x n d) /\ right Rle (opq_le mag_up x n d) /\ right Rge (opq_ge mag_up x n d) /\ right (@eq R) (opq_eq mag_up x n d).
Proof.
  intros mag_up Hm x n d r Wx Hd Hr Z right.
  assert (G : forall (Rel : R -> R -> Prop) o, (Rel (arf2R (mid x)) (IZR n / IZR d) \/ ~ Rel (arf2R (mid x)) (IZR n / IZR d)) -> answered Rel x (IZR n / IZR d) o -> right Rel o).
  { intros Rel o D H. destruct (H r Hr) as [T F].
    assert (P : forall p, Rabs (p - arf2R (mid x)) <= 2 * arf2R r -> p = arf2R (mid x)) by (intros p Hp; rewrite Z in Hp; unfold Rabs in Hp; destruct (Rcase_abs _) in Hp; lra).
    destruct D as [D|D]; [exists true|exists false]; (split; [|split; intros; congruence || assumption || contradiction]).
    - apply T. intros p Hp. rewrite (P p Hp). exact D.
    - apply F. intros p Hp. rewrite (P p Hp). exact D. }
  destruct (C04_answered mag_up Hm x n d Wx Hd) as (A1 & A2 & A3 & A4 & A5).
  repeat apply conj; (apply G; [|assumption]); pose proof (Rtotal_order (arf2R (mid x)) (IZR n / IZR d)); lra.
Qed.
Example C04_answered_case : mag_up_within (fun r => r) /\ opq_gt (fun r => r) (mkArb (arf_of_Z 1) (Some (mkArf 1 (-3)))) 2 3 = Some true /\ opq_eq (fun r => r) (arb_of_arf (mkArf 3 (-2))) 3 4 = Some true.
Proof. split; [intros r Hr; lra|]. split; vm_compute; reflexivity. Qed.

(** * C56: what != answers *)
(** It is exactly wrong: whenever it gives an answer, the opposite holds for all points of the ball. *)
Theorem C56_opposite_partial : forall mag_up, mag_up_ok mag_up -> forall x n d, arb_wf x -> (0 < d)%Z ->
  sound (fun p q => p <> q) x (IZR n / IZR d) (option_map negb (opq_ne mag_up x n d)).
Proof.
  intros mag_up Hm x n d Wx Hd. change (opq_ne mag_up x n d) with (opq_eq mag_up x n d). destruct (opq_eq_sound mag_up Hm x n d Wx Hd) as [T F].
  destruct (opq_eq mag_up x n d) as [[|]|]; (split; [|]); cbn; intros H; try discriminate; intros p Hp.
  - intros N. exact (N (T eq_refl p Hp)).
  - exact (F eq_refl p Hp).
Qed.
Example C56_case : opq_ne (fun r => r) (mkArb (arf_of_Z 1) (Some (mkArf 1 (-3)))) 2 3 = Some false /\ opq_ne (fun r => r) (mkArb (arf_of_Z 1) (Some (mkArf 1 (-3)))) 9 8 = None.
Proof. split; vm_compute; reflexivity. Qed.

(** * C05: the interval of a ball *)
(** There is an interval for exact balls and balls with at least two bits of accuracy ... *)
Theorem C05_defined : forall x, (exists lohi, arb_interval x = Some lohi) <-> exists r, rad x = Some r /\ (arf2R r = 0 \/ (2 <= rel_accuracy_bits x)%Z).
Proof.
  intros x. unfold arb_interval. destruct (rad x) as [r|] eqn:Hr; [|split; [intros [l H]; discriminate|intros (r & H & _); discriminate]].
  assert (E : rel_accuracy_bits x = ARF_PREC_EXACT -> (2 <= rel_accuracy_bits x)%Z) by (intros ->; vm_compute; discriminate).
  assert (Z : arf2R r = 0 -> rel_accuracy_bits x = ARF_PREC_EXACT).
  { intros Z. unfold rel_accuracy_bits. rewrite Hr. replace (am r) with 0%Z; [reflexivity|]. unfold arf2R in Z. apply Rmult_integral in Z as [Z|Z]; [apply eq_IZR in Z; auto|pose proof (bpow_gt_0 radix2 (ae r)); lra]. }
  destruct (rel_accuracy_bits x =? ARF_PREC_EXACT)%Z eqn:E1; [|destruct (rel_accuracy_bits x <? 2)%Z eqn:E2].
  - apply Z.eqb_eq in E1. split; intros _; [exists r; auto|eauto].
  - split; [intros [l H]; discriminate|intros (r' & [= <-] & [H|H]); exfalso; [apply Z in H; apply Z.eqb_neq in E1; contradiction|lia]].
  - split; intros _; [exists r; split; [reflexivity|right; lia]|eauto].
Qed.
(** ... and it is as small as possible: its ends are the bounds, or the bounds rounded outwards to as many bits as the ball is accurate. *)
Theorem C05_tight : forall x lo hi r, arb_interval x = Some (lo, hi) -> rad x = Some r ->
  let low := arf2R (mid x) - arf2R r in let high := arf2R (mid x) + arf2R r in let p := rel_accuracy_bits x in
  (arf2R lo = low /\ arf2R hi = high) \/
  ((forall c, fits p c -> c <= low -> c <= arf2R lo) /\ (forall c, fits p c -> high <= c -> arf2R hi <= c) /\ fits p (arf2R lo) /\ fits p (arf2R hi)).
Proof.
  intros x lo hi r H Hr low high p. unfold arb_interval in H. rewrite Hr in H. fold p in H.
  destruct (p =? ARF_PREC_EXACT)%Z eqn:E1; [|destruct (p <? 2)%Z eqn:E2; [discriminate|]]; injection H as <- <-.
  - left. rewrite arf_sub_exact_spec, arf_add_exact_spec. auto.
  - right. assert (0 < p)%Z by lia. pose (vp := FLX_exp_valid p (prec_gt_0_ := ltac:(unfold Prec_gt_0; lia))).
    rewrite arf_sub_spec, arf_add_spec by lia. cbn [rndZ]. unfold rounded. cbn [rndZ]. fold low high. repeat apply conj.
    + intros c F L. apply round_ge_generic; auto with typeclass_instances.
    + intros c F L. apply round_le_generic; auto with typeclass_instances.
    + apply generic_format_round; auto with typeclass_instances.
    + apply generic_format_round; auto with typeclass_instances.
Qed.

(** * C62: span over different fields *)
From Verif Require Import Real Gen SpecGen GenProofs Ring SpecRing RingProofs Module SpecModule ModuleProofs SpanProofs NumberField NumberFieldProofs PropModule.
From Verif Require PropField.
Lemma span_symmetric A S (L : lawful A S) (M N : module A) : module_wf M -> module_wf N -> basis M <> [] -> compositum (mring M) (mring N) = compositum (mring N) (mring M) -> span M N = span N M.
Proof.
  intros HM HN NE C. destruct (basis M) as [|g l] eqn:BM; [contradiction|]. destruct (basis N) as [|h k] eqn:BN; [unfold span; rewrite BM, BN; reflexivity|].
  destruct (par_eqb (mring M) (mring N)) eqn:E; [apply (L_par_eqb A S L) in E; apply (span_comm A S L); assumption|].
  assert (E' : par_eqb (mring N) (mring M) = false).
  { destruct (par_eqb (mring N) (mring M)) eqn:E'; [|reflexivity]. apply (L_par_eqb A S L) in E'. symmetry in E'. apply (L_par_eqb A S L) in E'. congruence. }
  assert (U : forall X Y : module A, basis X <> [] -> basis Y <> [] -> par_eqb (mring X) (mring Y) = false ->
    span X Y = bind (compositum (mring X) (mring Y)) (fun p => bind (make (basis X) p) (fun X' => bind (make (basis Y) p) (fun Y' => span_same X' Y')))).
  { intros X Y NX NY F. unfold span. destruct (basis X); [contradiction|]. destruct (basis Y); [contradiction|]. rewrite F. reflexivity. }
  rewrite !U by congruence. rewrite C. destruct (compositum (mring N) (mring M)) as [p|e]; [|reflexivity]. cbn [bind].
  rewrite !(make_other A) by assumption. cbn [bind].
  assert (V : forall X Y : module A, basis X <> [] -> basis Y <> [] -> mring X = mring Y -> span X Y = span_same X Y).
  { intros X Y NX NY F. unfold span. destruct (basis X); [contradiction|]. destruct (basis Y); [contradiction|]. apply (L_par_eqb A S L) in F. rewrite F. reflexivity. }
  rewrite <- !V by (cbn [basis mring]; congruence). apply (span_comm A S L); [exact HM|exact HN|reflexivity].
Qed.
(** The order only matters if both fields have degree one, or if both modules have no generators. *)
Theorem C62_degree_partial : forall M N : module nf_ring, module_wf M -> module_wf N -> basis M <> [] \/ basis N <> [] ->
  nf_degree (mring M) <> 1%nat \/ nf_degree (mring N) <> 1%nat -> span M N = span N M.
Proof.
  assert (C : forall p q : nfield, nf_degree p <> 1%nat \/ nf_degree q <> 1%nat -> nf_compositum p q = nf_compositum q p).
  { intros p q D. unfold nf_compositum. destruct (nfield_eqb p q) eqn:E.
    - apply nfield_eqb_spec in E as ->. assert (nfield_eqb q q = true) as -> by (apply nfield_eqb_spec; reflexivity). reflexivity.
    - assert (nfield_eqb q p = false) as -> by (destruct (nfield_eqb q p) eqn:E'; [apply nfield_eqb_spec in E'; subst; assert (nfield_eqb p p = true) by (apply nfield_eqb_spec; reflexivity); congruence|reflexivity]).
      destruct (Nat.eqb_spec (nf_degree p) 1), (Nat.eqb_spec (nf_degree q) 1); try reflexivity. lia. }
  intros M N HM HN [NE|NE] D; [|symmetry]; (apply (span_symmetric nf_ring nf_sem nf_lawful); [assumption|assumption|exact NE|apply C; tauto]).
Qed.

(** Whenever there is a span, this is exactly when its order does not matter. *)
Theorem C62_exactly_partial : forall M N P : module nf_ring, module_wf M -> module_wf N -> span M N = Ok P ->
  (span N M = Ok P <->
   mring M = mring N \/ (basis M = [] /\ basis N <> []) \/ (basis M <> [] /\ basis N = []) \/
   (basis M <> [] /\ basis N <> [] /\ (nf_degree (mring M) <> 1%nat \/ nf_degree (mring N) <> 1%nat))).
Proof.
  intros M N P HM HN H. split.
  - intros H'. destruct (basis M) as [|g l] eqn:BM, (basis N) as [|h k] eqn:BN.
    + left. unfold span in H, H'. rewrite BM, BN in *. congruence.
    + right; left. split; [reflexivity|discriminate].
    + right; right; left. split; [discriminate|reflexivity].
    + destruct (C20_ring nf_ring nf_sem nf_lawful M N P HM HN ltac:(congruence) ltac:(congruence) H) as [[E _]|[NE C]]; [left; exact E|].
      destruct (C20_ring nf_ring nf_sem nf_lawful N M P HN HM ltac:(congruence) ltac:(congruence) H') as [[E _]|[_ C']]; [left; symmetry; exact E|].
      right; right; right. split; [discriminate|]. split; [discriminate|].
      destruct (Nat.eq_dec (nf_degree (mring M)) 1) as [D|D]; [|left; exact D]. destruct (Nat.eq_dec (nf_degree (mring N)) 1) as [D'|D']; [|right; exact D'].
      exfalso. cbn [compositum nf_ring] in C, C'. unfold nf_compositum in C, C'.
      destruct (nfield_eqb (mring M) (mring N)) eqn:E; [apply nfield_eqb_spec in E; contradiction|].
      destruct (nfield_eqb (mring N) (mring M)) eqn:E'; [apply nfield_eqb_spec in E'; congruence|].
      rewrite D, D' in *. cbn in C, C'. congruence.
  - intros [E|[[E F]|[[E F]|(E & F & D)]]].
    + rewrite <- H. symmetry. apply (C20_commutative nf_ring nf_sem nf_lawful); assumption.
    + destruct (C20_trivial nf_ring M N E F) as [A B]. congruence.
    + destruct (C20_trivial nf_ring N M F E) as [A B]. congruence.
    + rewrite <- H. symmetry. apply C62_degree_partial; tauto.
Qed.
Lemma one_minimal : minimal_polynomial [Q2Qc (-1 # 1); Q2Qc (1 # 1)] 1%R.
Proof.
  split; [apply le_n|]. split; [discriminate|]. split; [cbn; unfold Q2R; cbn; field|].
  intros [|a [|b l]] H E; cbn in H.
  - constructor.
  - constructor; [|constructor]. cbn in E. rewrite Rmult_0_r, Rplus_0_r in E.
    apply Qc_is_canon. apply eqR_Qeq. rewrite E. unfold Q2R. cbn. ring.
  - exfalso. lia.
Qed.
(** Both sides occur: two fields of degree one, and a field of degree one with one of degree three. *)
Example C62_exactly_case : exists (M N K : module nf_ring), module_wf M /\ module_wf N /\ module_wf K /\ nf_degree (mring K) = 3%nat /\
  span M N = Ok N /\ span N M = Ok M /\ M <> N /\ span M K = Ok K /\ span K M = Ok K /\ mring M <> mring K.
Proof.
  destruct PropField.cube_root_exists as [t T]. set (p := mkNfield [- Qc_of_Z 2; 0; 0; 1]%Qc t (PropField.cube_minimal t T)). set (o := mkNfield [Q2Qc (-1 # 1); Q2Qc (1 # 1)] 1%R one_minimal).
  exists (mkModule (A := nf_ring) [ga] nf_rationals), (mkModule (A := nf_ring) [ga] o), (mkModule (A := nf_ring) [ga] p).
  assert (W : forall q : nfield, module_wf (mkModule (A := nf_ring) [ga] q)).
  { intros q. split; [repeat constructor; discriminate|]. split; [intros h []|exact Logic.I]. }
  split; [apply W|]. split; [apply W|]. split; [apply W|]. split; [reflexivity|].
  assert (D : forall q r : nfield, nf_poly q <> nf_poly r -> nfield_eqb q r = false).
  { intros q r N. destruct (nfield_eqb q r) eqn:E; [apply nfield_eqb_spec in E; congruence|reflexivity]. }
  assert (U : forall q r s : nfield, nfield_eqb q r = false -> nf_compositum q r = Ok s -> span (mkModule (A := nf_ring) [ga] q) (mkModule (A := nf_ring) [ga] r) = Ok (mkModule (A := nf_ring) [ga] s)).
  { intros q r s E C. unfold span. cbn [basis mring]. change (par_eqb (r := nf_ring)) with nfield_eqb. rewrite E. change (compositum (r := nf_ring) q r) with (nf_compositum q r). rewrite C. reflexivity. }
  assert (N1 : nf_poly nf_rationals <> nf_poly o) by (intros F; injection F; discriminate).
  assert (N2 : nf_poly nf_rationals <> nf_poly p) by discriminate.
  assert (C : forall q r : nfield, nfield_eqb q r = false -> nf_degree q = 1%nat -> nf_compositum q r = Ok r) by (intros q r E F; unfold nf_compositum; rewrite E, F; reflexivity).
  split; [apply U; [apply D; exact N1|apply C; [apply D; exact N1|reflexivity]]|].
  split; [apply U; [apply D; auto|apply C; [apply D; auto|reflexivity]]|].
  split; [intros F; apply (f_equal (fun X : module nf_ring => nf_poly (mring X))) in F; contradiction|].
  split; [apply U; [apply D; exact N2|apply C; [apply D; exact N2|reflexivity]]|].
  split; [apply U; [apply D; auto|unfold nf_compositum; rewrite D by auto; reflexivity]|].
  intros F. apply (f_equal nf_poly) in F. contradiction.
Qed.

(** * C71: what a failing /= leaves behind *)
From Verif Require Import Element ElementProofs3 StoreProofs PropElement.
Lemma scale_prefix A (f : car A -> result (car A)) l cs : forall ds e, scale f l cs = (ds, Some e) -> length ds = length cs /\ exists k c, nth_error cs k = Some c /\ f c = Err e /\ nth_error ds k = Some (l c) /\
  forall i b, nth_error cs i = Some b -> ((i < k)%nat -> exists d, f b = Ok d /\ nth_error ds i = Some d) /\ ((k < i)%nat -> nth_error ds i = Some b).
Proof.
  induction cs as [|c cs IH]; cbn [scale]; intros ds e H; [discriminate|]. destruct (f c) as [c'|e'] eqn:E.
  - destruct (scale f l cs) as [r e''] eqn:Er. injection H as <- ->. destruct (IH r e eq_refl) as (K0 & k & b & K1 & K2 & K4 & K3). split; [cbn; congruence|].
    exists (Datatypes.S k), b. split; [exact K1|]. split; [exact K2|]. split; [exact K4|]. intros [|i] d Hd; cbn in Hd.
    + injection Hd as <-. split; [intros _; exists c'; auto|lia].
    + destruct (K3 i d Hd) as [G1 G2]. split; intros L; [apply G1; lia|cbn; apply G2; lia].
  - injection H as <- <-. split; [reflexivity|]. exists O, c. split; [reflexivity|]. split; [exact E|]. split; [reflexivity|]. intros [|i] b Hb; (split; [lia|]); [lia|intros _; exact Hb].
Qed.
(** The first coefficient that cannot be divided (multiplied) stops the operation: those after it are unchanged, those before it have been
    divided (multiplied).  The coefficient itself is unchanged over a field.  In all cases the element is still an element of its module. *)
Theorem C71_prefix_partial : forall A S, lawful A S -> forall (x y : elem A) s e, elem_wf S x -> smem S (mring (emodule x)) s -> sval S s <> 0 -> idiv_elem x s = (y, Some e) ->
  elem_wf S y /\ emodule y = emodule x /\ exists k c, nth_error (coeffs x) k = Some c /\ (~ exists q, mem S (mring (emodule x)) q /\ val S q = val S c / sval S s) /\
    forall i b, nth_error (coeffs x) i = Some b ->
      ((i < k)%nat -> exists d, nth_error (coeffs y) i = Some d /\ val S d = val S b / sval S s) /\ ((k < i)%nat -> nth_error (coeffs y) i = Some b).
Proof.
  intros A S L x y s e (HM & Hl & Hm) Hs NZ H. unfold idiv_elem in H. destruct (scale _ _ _) as [cs o] eqn:E. injection H as <- ->.
  destruct (scale_mem A S (mring (emodule x)) (fun c => idiv c s) (fun c => idiv_left c s) (coeffs x)) as [M1 M2];
    [intros c c' Mc Ec; pose proof (L_idiv A S L _ c s Mc Hs) as X; cbn in Ec; rewrite Ec in X; apply X|intros c Mc; exact (proj1 (L_idiv_left A S L _ c s Mc Hs))|exact Hm|].
  rewrite E in M1, M2. cbn in M1, M2. split; [split; [exact HM|split; [cbn; congruence|exact M1]]|]. split; [reflexivity|].
  destruct (scale_prefix A _ _ _ _ _ E) as (_ & k & c & K1 & K2 & _ & K3). exists k, c. split; [exact K1|]. rewrite Forall_forall in Hm. split.
  - pose proof (L_idiv A S L (mring (emodule x)) c s (Hm _ (nth_error_In _ _ K1)) Hs) as D. rewrite K2 in D. destruct D as [_ [D|D]]; [contradiction|exact D].
  - intros i b Hb. destruct (K3 i b Hb) as [G1 G2]. split; [|exact G2]. intros Li. destruct (G1 Li) as (d & D1 & D2). exists d. split; [exact D2|].
    pose proof (L_idiv A S L (mring (emodule x)) b s (Hm _ (nth_error_In _ _ Hb)) Hs) as D. rewrite D1 in D. apply D.
Qed.
Theorem C71_multiply_partial : forall A S, lawful A S -> forall (x y : elem A) s e, elem_wf S x -> smem S (mring (emodule x)) s -> imul_elem x s = (y, Some e) ->
  elem_wf S y /\ emodule y = emodule x /\ exists k c, nth_error (coeffs x) k = Some c /\ (~ exists q, mem S (mring (emodule x)) q /\ val S q = val S c * sval S s) /\
    forall i b, nth_error (coeffs x) i = Some b ->
      ((i < k)%nat -> exists d, nth_error (coeffs y) i = Some d /\ val S d = val S b * sval S s) /\ ((k < i)%nat -> nth_error (coeffs y) i = Some b).
Proof.
  intros A S L x y s e (HM & Hl & Hm) Hs H. unfold imul_elem in H. destruct (scale _ _ _) as [cs o] eqn:E. injection H as <- ->.
  destruct (scale_mem A S (mring (emodule x)) (fun c => imul c s) (fun c => imul_left c s) (coeffs x)) as [M1 M2];
    [intros c c' Mc Ec; pose proof (L_imul A S L _ c s Mc Hs) as X; cbn in Ec; rewrite Ec in X; apply X|intros c Mc; exact (L_imul_left A S L _ c s Mc Hs)|exact Hm|].
  rewrite E in M1, M2. cbn in M1, M2. split; [split; [exact HM|split; [cbn; congruence|exact M1]]|]. split; [reflexivity|].
  destruct (scale_prefix A _ _ _ _ _ E) as (_ & k & c & K1 & K2 & _ & K3). exists k, c. split; [exact K1|]. rewrite Forall_forall in Hm. split.
  - pose proof (L_imul A S L (mring (emodule x)) c s (Hm _ (nth_error_In _ _ K1)) Hs) as D. rewrite K2 in D. exact D.
  - intros i b Hb. destruct (K3 i b Hb) as [G1 G2]. split; [|exact G2]. intros Li. destruct (G1 Li) as (d & D1 & D2). exists d. split; [exact D2|].
    pose proof (L_imul A S L (mring (emodule x)) b s (Hm _ (nth_error_In _ _ Hb)) Hs) as D. rewrite D1 in D. apply D.
Qed.
(** Over the integers: dividing by an integer, the coefficient that stops the operation is unchanged as well; dividing by a rational it has already
    been multiplied with the denominator, and multiplying with a rational it has been multiplied with the numerator. *)
Theorem C71_integers_partial : forall (x y : elem int_ring) e, elem_wf int_sem x ->
  (forall n, imul_elem x (SZ n) <> (y, Some e)) /\
  (forall n, n <> 0%Z -> idiv_elem x (SZ n) = (y, Some e) -> exists k c, nth_error (coeffs x) k = Some c /\ ~ (n | c)%Z /\ nth_error (coeffs y) k = Some c) /\
  (forall q, idiv_elem x (SQ q) = (y, Some e) -> Q2R q <> 0 -> exists k c, nth_error (coeffs x) k = Some c /\ ~ (Qnum q | c * Zpos (Qden q))%Z /\ nth_error (coeffs y) k = Some (c * Zpos (Qden q))%Z) /\
  (forall q, imul_elem x (SQ q) = (y, Some e) -> exists k c, nth_error (coeffs x) k = Some c /\ ~ (Zpos (Qden q) | c * Qnum q)%Z /\ nth_error (coeffs y) k = Some (c * Qnum q)%Z).
Proof.
  intros x y e _.
  assert (D : forall c n, int_idiv_z c n = Err e -> n <> 0%Z -> ~ (n | c)%Z).
  { intros c n H N. unfold int_idiv_z in H. destruct (Z.eqb_spec n 0); [contradiction|]. destruct (Z.eqb_spec (Z.rem c n) 0) as [R|R]; [discriminate|]. intros Dv. apply R. apply Z.rem_divide; assumption. }
  repeat apply conj.
  - intros n H. unfold imul_elem in H. destruct (scale _ _ _) as [cs o] eqn:E. injection H as <- ->. destruct (scale_prefix _ _ _ _ _ _ E) as (_ & k & c & _ & K & _). discriminate.
  - intros n N H. unfold idiv_elem in H. destruct (scale _ _ _) as [cs o] eqn:E. injection H as <- ->. destruct (scale_prefix _ _ _ _ _ _ E) as (_ & k & c & K1 & K2 & K3 & _).
    exists k, c. split; [exact K1|]. split; [exact (D c n K2 N)|exact K3].
  - intros q H N. unfold idiv_elem in H. destruct (scale _ _ _) as [cs o] eqn:E. injection H as <- ->. destruct (scale_prefix _ _ _ _ _ _ E) as (_ & k & c & K1 & K2 & K3 & _).
    assert (Nq : qc_num q <> 0%Z) by (intros Z0; apply N; unfold Q2R; unfold qc_num in Z0; rewrite Z0; lra).
    cbn in K2, K3. unfold int_idiv_q in K2. apply Z.eqb_neq in Nq as Nb. rewrite Nb in K2, K3. exists k, c. split; [exact K1|]. split; [exact (D _ _ K2 Nq)|exact K3].
  - intros q H. unfold imul_elem in H. destruct (scale _ _ _) as [cs o] eqn:E. injection H as <- ->. destruct (scale_prefix _ _ _ _ _ _ E) as (_ & k & c & K1 & K2 & K3 & _).
    exists k, c. split; [exact K1|]. split; [apply (D _ _ K2); discriminate|exact K3].
Qed.
(** So a division by an integer leaves the element unchanged if its first coefficient is the one that cannot be divided. *)
Theorem C71_first_partial : forall (x : elem int_ring) n c, elem_wf int_sem x -> nth_error (coeffs x) 0 = Some c -> ~ (n | c)%Z ->
  idiv_elem x (SZ n) = (x, Some InvalidArgument) /\ idiv_elem x (SE n) = (x, Some InvalidArgument).
Proof.
  intros [M [|c' cs]] n c _ H N; [discriminate|]. cbn in H. injection H as ->. unfold idiv_elem. cbn [coeffs emodule scale idiv idiv_left int_ring].
  assert (E : int_idiv_z c n = Err InvalidArgument).
  { unfold int_idiv_z. destruct (Z.eqb_spec n 0) as [->|Nn]; [reflexivity|]. destruct (Z.eqb_spec (Z.rem c n) 0) as [R|R]; [|reflexivity]. exfalso. apply N, Z.rem_divide; assumption. }
  rewrite E. split; reflexivity.
Qed.
(** Multiplying 1 with 2/3 throws and leaves 2; dividing 1 by 2/3 throws and leaves 3. *)
Theorem C71_rational_refuted : exists x y z : elem int_ring, elem_wf int_sem x /\ imul_elem x (SQ (Q2Qc (2 # 3))) = (y, Some InvalidArgument) /\ idiv_elem x (SQ (Q2Qc (2 # 3))) = (z, Some InvalidArgument) /\
  forall rho, value int_sem rho x = 1 /\ value int_sem rho y = 2 /\ value int_sem rho z = 3.
Proof.
  exists (mkElem (A := int_ring) (zmod [g1]) [1%Z]), (mkElem (A := int_ring) (zmod [g1]) [2%Z]), (mkElem (A := int_ring) (zmod [g1]) [3%Z]).
  split; [split; [unfold zmod; cbn [emodule]; module_ok|split; [reflexivity|repeat constructor]]|]. split; [vm_compute; reflexivity|]. split; [vm_compute; reflexivity|].
  intros rho. unfold value, g1, zmod. cbn. unfold Q2R. cbn. repeat split; lra.
Qed.
(** 4 + 2 a + 5 a b, divided by 2 *)
Example C71_prefix_case : elem_wf int_sem (mkElem (A := int_ring) (zmod [g1; ga; gab]) [4; 2; 5]%Z) /\
  idiv_elem (mkElem (A := int_ring) (zmod [g1; ga; gab]) [4; 2; 5]%Z) (SZ 2) = (mkElem (A := int_ring) (zmod [g1; ga; gab]) [2; 1; 5]%Z, Some InvalidArgument) /\
  idiv_elem ex (SZ 2) = (ex, Some InvalidArgument).
Proof. split; [|split; vm_compute; reflexivity]. split; [unfold zmod; cbn [emodule]; module_ok|]. split; [reflexivity|]. repeat constructor. Qed.

(** * C60, C69, C76: right as long as the value is not close to a place where the result jumps *)
From Verif Require Import ElementProofs ElementProofs2 ElementProofs4 Loops SpecLoops Near Balls LoopsProofs LoopsProofs3 LoopsProofs4 LoopsProofs5 PropOrder PropFloor PropDouble PropReal.
Local Instance prec53' : Prec_gt_0 53. Proof. reflexivity. Qed.
Lemma nearest_closest v c : is_double c -> Rabs (v - nearest_double v) <= Rabs (v - c).
Proof.
  intros H. destruct (round_N_pt radix2 (FLT_exp (-1074) 53) (fun t => negb (Z.even t)) v) as [_ N]. specialize (N c H).
  rewrite (Rabs_minus_sym v c), (Rabs_minus_sym v). exact N.
Qed.
(** [grid m e]: the double m * 2^e has the full 53 bits, and neither it nor its successor is a power of two. *)
Definition grid (m e : Z) : Prop := (2 ^ 52 < Z.abs m < 2 ^ 53 - 1)%Z /\ (-1074 <= e)%Z.
Lemma grid_positive m e u : (2 ^ 52 < m < 2 ^ 53 - 1)%Z -> (-1074 <= e)%Z -> Rabs (u - IZR m * bpow radix2 e) < bpow radix2 (e - 1) -> nearest_double u = IZR m * bpow radix2 e.
Proof.
  intros Hm He H. set (c := IZR m * bpow radix2 e) in *. assert (F : is_double c).
  { apply generic_format_FLT. exists (Float radix2 m e); [reflexivity|cbn; lia|exact He]. }
  assert (Pe := bpow_gt_0 radix2 e). assert (P52 : bpow radix2 52 = IZR (2 ^ 52)) by reflexivity. assert (P53 : bpow radix2 53 = IZR (2 ^ 53)) by reflexivity.
  destruct Hm as [M1 M2]. assert (N1 := IZR_lt _ _ M1). assert (N2 := IZR_lt _ _ M2). rewrite minus_IZR in N2.
  assert (C1 : bpow radix2 (53 + e - 1) < c). { replace (53 + e - 1)%Z with (52 + e)%Z by ring. rewrite bpow_plus, P52. apply Rmult_lt_compat_r; assumption. }
  assert (C2 : c < bpow radix2 (53 + e)). { rewrite bpow_plus, P53. apply Rmult_lt_compat_r; [assumption|lra]. }
  assert (C0 : 0 < c) by (pose proof (bpow_gt_0 radix2 (53 + e - 1)); lra).
  assert (Mg : mag radix2 c = (53 + e)%Z :> Z). { apply mag_unique. rewrite Rabs_pos_eq by lra. lra. }
  assert (U : ulp radix2 (FLT_exp (-1074) 53) c = bpow radix2 e). { rewrite ulp_neq_0 by lra. unfold cexp. rewrite Mg. unfold FLT_exp. f_equal. lia. }
  assert (Sc : succ radix2 (FLT_exp (-1074) 53) c = c + bpow radix2 e) by (rewrite succ_eq_pos by lra; rewrite U; reflexivity).
  assert (Pc : pred radix2 (FLT_exp (-1074) 53) c = c - bpow radix2 e).
  { rewrite pred_eq_pos by lra. unfold pred_pos. rewrite Mg. destruct (Req_bool_spec c (bpow radix2 (53 + e - 1))) as [Q|_]; [lra|]. rewrite U. reflexivity. }
  assert (Hh : bpow radix2 e = 2 * bpow radix2 (e - 1)). { replace e with (1 + (e - 1))%Z at 1 by ring. rewrite bpow_plus. reflexivity. }
  apply Rabs_lt_inv in H. unfold nearest_double. apply Rle_antisym.
  - apply round_N_le_midp; [exact _|exact F|]. rewrite Sc. lra.
  - apply round_N_ge_midp; [exact _|exact F|]. rewrite Pc. lra.
Qed.
Lemma grid_nearest m e u : grid m e -> Rabs (u - IZR m * bpow radix2 e) < bpow radix2 (e - 1) -> nearest_double u = IZR m * bpow radix2 e.
Proof.
  intros [Hm He] H. destruct (Z_lt_le_dec 0 m) as [P|P].
  - apply grid_positive; [lia|exact He|exact H].
  - assert (K : nearest_double (- u) = IZR (- m) * bpow radix2 e).
    { apply grid_positive; [lia|exact He|]. rewrite opp_IZR, <- Rabs_Ropp. replace (- (- u - - IZR m * bpow radix2 e)) with (u - IZR m * bpow radix2 e) by ring. exact H. }
    unfold nearest_double in *. rewrite round_NE_opp in K. rewrite opp_IZR in K. lra.
Qed.
Lemma same_rational A S (L : lawful A S) (p : par A) (x y : elem A) : standard S p x -> standard S p y -> equal x y = Ok true -> to_rational x = to_rational y /\ forall rho, value S rho x = value S rho y.
Proof.
  intros Hx Hy Eq. assert (Zx := standard_no_zero A S p x Hx). assert (Zy := standard_no_zero A S p y Hy). apply (equal_value A S L x y true (proj1 Hx) (proj1 Hy) Zx Zy) in Eq. assert (V := proj1 Eq eq_refl). clear Eq. split; [|exact V].
  destruct (to_rational x) as [q|] eqn:Tx.
  - symmetry. apply (to_rational_spec A S L y q (proj1 Hy) Zy). intros r. rewrite <- V. apply (to_rational_sound A S L x q (proj1 Hx) Tx).
  - destruct (to_rational y) as [q|] eqn:Ty; [|reflexivity]. rewrite <- Tx. apply (to_rational_spec A S L x q (proj1 Hx) Zx). intros r. rewrite V. apply (to_rational_sound A S L y q (proj1 Hy) Ty).
Qed.
Theorem C76_floor_apart_partial : forall A S, lawful A S -> forall mag_up, mag_up_ok mag_up -> forall rng names rho garb carb (x : elem A), elem_wf S x -> code_setting S rng names rho garb carb x ->
  (forall n, code_error * Rabs (value S rho x) < Rabs (value S rho x - IZR n)) ->
  forall rounds n, (elem_floor mag_up garb carb rounds x = Some n -> the_floor n (value S rho x)) /\ (elem_ceil mag_up garb carb rounds x = Some n -> the_ceil n (value S rho x)).
Proof.
  intros A S L mag_up Hm rng names rho garb carb x W E J rounds n. set (v := value S rho x) in *. destruct (C67_floor A S L mag_up Hm rng names rho garb carb x W E rounds n) as [F C]. fold v in F, C. split; intros H.
  - destruct (F H) as (u & P & Q1 & Q2). unfold perturbed in P. split.
    + pose proof (J n) as K. unfold Rabs in P, K. destruct (Rcase_abs (u - v)), (Rcase_abs (v - IZR n)); lra.
    + pose proof (J (n + 1)%Z) as K. rewrite plus_IZR in K. unfold Rabs in P, K. destruct (Rcase_abs (u - v)), (Rcase_abs (v - (IZR n + 1))); lra.
  - destruct (C H) as (u & P & Q1 & Q2). unfold perturbed in P. split.
    + pose proof (J (n - 1)%Z) as K. rewrite minus_IZR in K. unfold Rabs in P, K. destruct (Rcase_abs (u - v)), (Rcase_abs (v - (IZR n - 1))); lra.
    + pose proof (J n) as K. unfold Rabs in P, K. destruct (Rcase_abs (u - v)), (Rcase_abs (v - IZR n)); lra.
Qed.
(** The exponent of an approximation [w] of a number close to such a double. *)
Lemma grid_mag m e v w : grid m e -> (w = 0 -> v = 0) -> Rabs (v - IZR m * bpow radix2 e) < bpow radix2 (e - 2) -> Rabs (v - w) <= 4 * bpow radix2 (mag radix2 w - 56) -> (mag radix2 w <= 53 + e)%Z.
Proof.
  intros [Hm He] ZZ H K. destruct (Z_le_gt_dec (mag radix2 w) (53 + e)) as [L|G]; [exact L|exfalso]. set (c := IZR m * bpow radix2 e) in *.
  assert (Pe := bpow_gt_0 radix2 e). assert (Hc : Rabs c <= bpow radix2 53 * bpow radix2 e - 2 * bpow radix2 e).
  { unfold c. rewrite Rabs_mult, <- abs_IZR, (Rabs_pos_eq (bpow radix2 e)) by lra. replace (bpow radix2 53 * bpow radix2 e - 2 * bpow radix2 e) with ((bpow radix2 53 - 2) * bpow radix2 e) by ring.
    apply Rmult_le_compat_r; [lra|]. change (bpow radix2 53) with (IZR (2 ^ 53)). rewrite <- minus_IZR. apply IZR_le. lia. }
  destruct (Req_dec w 0) as [->|W0].
  { rewrite (ZZ eq_refl) in H. unfold Rminus in H. rewrite Rplus_0_l, Rabs_Ropp in H. unfold c in H. rewrite Rabs_mult, <- abs_IZR, (Rabs_pos_eq (bpow radix2 e)) in H by lra.
    assert (M : (1 <= Z.abs m)%Z) by lia. apply IZR_le in M. assert (bpow radix2 (e - 2) < bpow radix2 e) by (apply bpow_lt; lia). nra. }
  set (k := mag radix2 w : Z) in *. assert (B : bpow radix2 (k - 1) <= Rabs w). { unfold k. destruct (mag radix2 w) as [k' Hk]; cbn. apply Hk, W0. }
  assert (Q : bpow radix2 (e - 2) = bpow radix2 e / 4). { unfold Zminus. rewrite bpow_plus. reflexivity. }
  assert (T : Rabs w <= Rabs c + bpow radix2 e / 4 + 4 * bpow radix2 (k - 56)).
  { replace w with (c + (v - c) + (w - v)) by ring. eapply Rle_trans; [apply Rabs_triang|]. rewrite (Rabs_minus_sym w v). apply Rplus_le_compat; [|exact K]. eapply Rle_trans; [apply Rabs_triang|]. lra. }
  assert (E56 : bpow radix2 (k - 1) = bpow radix2 55 * bpow radix2 (k - 56)). { rewrite <- bpow_plus. f_equal. ring. }
  assert (E53 : bpow radix2 (k - 56) = bpow radix2 (k - 54 - e) * bpow radix2 e / 4). { replace (k - 56)%Z with (k - 54 - e + e + (-2))%Z by ring. rewrite !bpow_plus. change (bpow radix2 (-2)) with (/ 4). field. }
  assert (G1 : 1 <= bpow radix2 (k - 54 - e)). { change 1 with (bpow radix2 0). apply bpow_le. lia. }
  change (bpow radix2 55) with (IZR (2 ^ 55)) in E56. change (bpow radix2 53) with (IZR (2 ^ 53)) in Hc. set (t := bpow radix2 (k - 54 - e)) in *. set (d := bpow radix2 e) in *. 
  assert (D : d <= t * d) by (rewrite <- (Rmult_1_l d) at 1; apply Rmult_le_compat_r; lra). rewrite E53 in *.
  change (IZR (2 ^ 55)) with 36028797018963968 in E56. change (IZR (2 ^ 53)) with 9007199254740992 in Hc. lra.
Qed.
(** Real numbers: a number that is less than a quarter of the distance of doubles away from a double is converted to it. *)
Theorem C60_apart_partial : forall rng fuel x v d m e, not_product x -> num_ok rng x -> num_value rng x v -> num_double rng fuel x = Some d ->
  grid m e -> Rabs (v - IZR m * bpow radix2 e) < bpow radix2 (e - 2) -> arf2R d = IZR m * bpow radix2 e /\ forall c, is_double c -> Rabs (v - arf2R d) <= Rabs (v - c).
Proof.
  intros rng fuel x v d m e Hp Hx Hv H G D. assert (Q : bpow radix2 (e - 1) = 2 * bpow radix2 (e - 2)). { replace (e - 1)%Z with (1 + (e - 2))%Z by ring. rewrite bpow_plus. reflexivity. }
  assert (Pe := bpow_gt_0 radix2 (e - 2)). assert (V : nearest_double v = IZR m * bpow radix2 e) by (apply grid_nearest; [exact G|lra]).
  assert (E : arf2R d = IZR m * bpow radix2 e); [|split; [exact E|intros c Hc; rewrite E, <- V; exact (nearest_closest v c Hc)]].
  unfold num_double in H. destruct (num_arf rng fuel x ARF_DOUBLE_PRECISION) as [a|] eqn:Ea; [|discriminate]. injection H as <-. rewrite arf_to_double_spec. fold (nearest_double (arf2R a)).
  assert (Ac : accurate 54 a v).
  { destruct x as [q|b|ms]; [| |contradiction].
    - cbn in Hv. subst v. destruct (Qeq_dec q 0) as [Z|Z].
      + exfalso. apply Qeq_eqR in Z. replace (Q2R 0) with 0 in Z by (unfold Q2R; cbn; lra). rewrite Z in V. unfold nearest_double in V. rewrite round_0 in V by exact _. destruct G as [G _].
        assert (Pe' := bpow_gt_0 radix2 e). assert (IZR m = 0) by nra. apply eq_IZR in H. subst m. cbn in G. lia.
      + exact (C06_rational_accurate rng fuel q 54 a ltac:(lia) Z Ea).
    - exact (C06_random_accurate rng fuel b v 54 a Hx Hv ltac:(lia) Ea). }
  unfold accurate in Ac. assert (W : (mag radix2 (arf2R a) <= 53 + e)%Z).
  { apply (grid_mag m e v); [exact G| |exact D|].
    { intros Z. destruct (RealProofs5.num_near4 rng x v fuel ARF_DOUBLE_PRECISION a Hx Hv ltac:(unfold ARF_DOUBLE_PRECISION; lia) Ea) as [[Zv _]|[Hn _]]; [exact Zv|]. exfalso. exact (Hn Z). }
    eapply Rle_trans; [exact Ac|]. replace (mag radix2 (arf2R a) - 1 - 54)%Z with (1 + (mag radix2 (arf2R a) - 56))%Z by ring. rewrite bpow_plus. change (bpow radix2 1) with 2. pose proof (bpow_gt_0 radix2 (mag radix2 (arf2R a) - 56)). lra. }
  apply grid_nearest; [exact G|]. assert (B : bpow radix2 (mag radix2 (arf2R a) - 1 - 54) <= bpow radix2 (e - 2)) by (apply bpow_le; lia).
  replace (arf2R a - IZR m * bpow radix2 e) with (- (v - arf2R a) + (v - IZR m * bpow radix2 e)) by ring. eapply Rle_lt_trans; [apply Rabs_triang|]. rewrite Rabs_Ropp. lra.
Qed.
Lemma accurate_radius_mag acc b r : arb_wf b -> (2 <= acc)%Z -> is_accurate acc b = true -> rad b = Some r -> arf2R r <= bpow radix2 (mag radix2 (arf2R (mid b)) - 1 - acc).
Proof.
  intros W Ha H Er. unfold is_accurate, arb_is_exact, rel_accuracy_bits in H. rewrite Er in H. pose proof (arb_wf_rad b r W Er) as Pr. destruct (Z.eqb_spec (am r) 0) as [Z0|Z0].
  - unfold arf2R at 1. rewrite Z0, Rmult_0_l. apply bpow_ge_0.
  - cbn [orb] in H. apply Z.leb_le in H. destruct (Z.eqb_spec (am (mid b)) 0) as [Z1|Z1]; [unfold ARF_PREC_EXACT in H; lia|].
    destruct (arf_expo_spec r Z0) as [_ R1]. rewrite Rabs_pos_eq in R1 by exact Pr. rewrite <- (arf_expo_mag (mid b) Z1). eapply Rle_trans; [apply Rlt_le, R1|]. apply bpow_le. lia.
Qed.
Lemma exact_zero acc b r v : arb_wf b -> (2 <= acc)%Z -> is_accurate acc b = true -> rad b = Some r -> arf2R (mid b) = 0 -> Rabs (v - arf2R (mid b)) <= 4 * arf2R r -> v = 0.
Proof.
  intros W Ha Ac Er Zm H. destruct (accurate_radius acc b W Ha Ac) as (r' & Er' & R). rewrite Er in Er'. injection Er' as <-. rewrite Zm in *. rewrite Rabs_R0, Rmult_0_l in R. rewrite Rminus_0_r in H.
  apply Rabs_eq_R0. pose proof (Rabs_pos v). lra.
Qed.
(** Elements: less than an eighth of the distance of doubles. *)
Lemma double_on_grid A S (L : lawful A S) mag_up (Hm : mag_up_ok mag_up) rng names rho garb carb (x : elem A) : elem_wf S x -> code_setting S rng names rho garb carb x -> to_rational x = None ->
  forall rounds d m e, elem_double mag_up garb carb rounds x = Some d -> grid m e -> Rabs (value S rho x - IZR m * bpow radix2 e) < bpow radix2 (e - 3) -> arf2R d = IZR m * bpow radix2 e.
Proof.
  intros W E T rounds d m e H G D. pose proof (code_approximated A S _ _ _ _ _ x W E) as Ax. unfold elem_double in H. rewrite T in H. apply search_sound in H; [|lia]. destruct H as (p & Hp & H). assert (Hp0 : (2 <= p)%Z) by lia.
  destruct (elem_arb mag_up garb carb rounds x p) as [b|] eqn:Eb; [|discriminate]. destruct (elem_arb_sound A S L mag_up Hm garb carb rho 4 four_ok x p rounds b W Ax ltac:(lia) Eb) as [Wb Ac].
  destruct (within_point 4 b (value S rho x) ltac:(lra) Wb) as (u & Hu & P). destruct (bounds_agree_sound arf_to_double arf_eqb b u d Hu H) as (lo & hi & [B1 B2] & F & Q). subst d.
  assert (N : arf2R (arf_to_double lo) = nearest_double u).
  { apply arf_eqb_spec in Q. rewrite !arf_to_double_spec in Q. rewrite arf_to_double_spec. unfold nearest_double. apply Rle_antisym; [apply round_le; [exact _|exact _|exact B1]|]. rewrite Q. apply round_le; [exact _|exact _|exact B2]. }
  rewrite N. apply grid_nearest; [exact G|]. destruct (accurate_radius p b (proj1 Wb) ltac:(lia) Ac) as (r & Er & _). specialize (P r Er).
  pose proof (accurate_radius_mag p b r (proj1 Wb) ltac:(lia) Ac Er) as R. destruct Wb as [Wf Wb]. rewrite Er in Wb. pose proof (arb_wf_rad b r Wf Er) as Pr.
  assert (R' : arf2R r <= bpow radix2 (mag radix2 (arf2R (mid b)) - 56)). { eapply Rle_trans; [exact R|]. apply bpow_le. lia. }
  assert (Q1 : bpow radix2 (e - 1) = 4 * bpow radix2 (e - 3)). { replace (e - 1)%Z with (2 + (e - 3))%Z by ring. rewrite bpow_plus. reflexivity. }
  assert (Q2 : bpow radix2 (e - 2) = 2 * bpow radix2 (e - 3)). { replace (e - 2)%Z with (1 + (e - 3))%Z by ring. rewrite bpow_plus. reflexivity. }
  assert (M : (mag radix2 (arf2R (mid b)) <= 53 + e)%Z). { apply (grid_mag m e (value S rho x)); [exact G| |pose proof (bpow_gt_0 radix2 (e - 3)); lra|lra].
    intros Z. apply (exact_zero p b r (value S rho x) Wf Hp0 Ac Er Z Wb). }
  assert (K : bpow radix2 (mag radix2 (arf2R (mid b)) - 56) <= bpow radix2 (e - 3)) by (apply bpow_le; lia).
  replace (u - IZR m * bpow radix2 e) with ((u - value S rho x) + (value S rho x - IZR m * bpow radix2 e)) by ring. eapply Rle_lt_trans; [apply Rabs_triang|]. lra.
Qed.
Theorem C76_double_apart_partial : forall A S, lawful A S -> forall mag_up, mag_up_ok mag_up -> forall rng names rho garb carb (x : elem A), elem_wf S x -> code_setting S rng names rho garb carb x -> to_rational x = None ->
  forall rounds d m e, elem_double mag_up garb carb rounds x = Some d -> grid m e -> Rabs (value S rho x - IZR m * bpow radix2 e) < bpow radix2 (e - 3) ->
  arf2R d = IZR m * bpow radix2 e /\ forall c, is_double c -> Rabs (value S rho x - arf2R d) <= Rabs (value S rho x - c).
Proof.
  intros A S L mag_up Hm rng names rho garb carb x W E T rounds d m e H G D. pose proof (double_on_grid A S L mag_up Hm rng names rho garb carb x W E T rounds d m e H G D) as V. split; [exact V|].
  intros c Hc. rewrite V, <- (grid_nearest m e (value S rho x) G); [exact (nearest_closest _ c Hc)|]. eapply Rlt_trans; [exact D|]. apply bpow_lt. lia.
Qed.
(** Equal elements of any two modules have the same hash, with the library's own balls, if their value is that close to a double. *)
Theorem C69_apart_partial : forall A S, lawful A S -> forall mag_up, mag_up_ok mag_up -> forall rng names rho garb carb (p : par A) (x y : elem A), standard S p x -> standard S p y ->
  code_setting S rng names rho garb carb x -> code_setting S rng names rho garb carb y -> equal x y = Ok true ->
  forall k e, grid k e -> Rabs (value S rho x - IZR k * bpow radix2 e) < bpow radix2 (e - 3) ->
  forall hash, (forall a b, arf_eqb a b = true -> hash a = hash b) -> forall n m h h', elem_hash mag_up garb carb hash n x = Some h -> elem_hash mag_up garb carb hash m y = Some h' -> h = h'.
Proof.
  intros A S L mag_up Hm rng names rho garb carb p x y Hx Hy Ex Ey Eq k e G J hash Hh n m h h' H1 H2. unfold elem_hash in *.
  destruct (elem_double mag_up garb carb n x) as [d|] eqn:D1; [|discriminate]. destruct (elem_double mag_up garb carb m y) as [d'|] eqn:D2; [|discriminate]. injection H1 as <-. injection H2 as <-. apply Hh, arf_eqb_spec.
  destruct (same_rational A S L p x y Hx Hy Eq) as [T V]. destruct (to_rational x) as [q|] eqn:Tx.
  - unfold elem_double in D1, D2. rewrite Tx in D1. rewrite <- T in D2. congruence.
  - rewrite (double_on_grid A S L mag_up Hm rng names rho garb carb x (proj1 Hx) Ex Tx n d k e D1 G J). rewrite V in J. symmetry. exact (double_on_grid A S L mag_up Hm rng names rho garb carb y (proj1 Hy) Ey (eq_sym T) m d' k e D2 G J).
Qed.
(** Cases: the random number with seed 1346 is at 2^-7 of the distance of doubles from the double 5038018749840132 * 2^-57. *)
From Verif Require Import RealProofs RealProofs2 RealProofs3 RealRefuted Rand48Proofs LoopsCases PropLoops.
Lemma grid1346 : grid 5038018749840132 (-57). Proof. split; [cbn; lia|lia]. Qed.
Lemma near1346 v e : stream_value (rand48 1346) v -> bpow radix2 (-60) <= e -> Rabs (v - 5038018749840132 * bpow radix2 (-57)) < e.
Proof. intros H He. eapply Rlt_le_trans; [|exact He]. r48bound H 100%nat. simpl bpow. unfold Rabs. destruct (Rcase_abs _); lra. Qed.
Example C60_apart_case : exists v d, num_ok rand48 (RAtom (ARandom 1346)) /\ num_value rand48 (RAtom (ARandom 1346)) v /\ num_double rand48 300 (RAtom (ARandom 1346)) = Some d /\
  Rabs (v - 5038018749840132 * bpow radix2 (-57)) < bpow radix2 (-57 - 2) /\ forall c, is_double c -> Rabs (v - arf2R d) <= Rabs (v - c).
Proof.
  destruct (atom_value_exists rand48 (ARandom 1346)) as [v Hv]. exists v. eexists. assert (K : num_ok rand48 (RAtom (ARandom 1346))) by (apply rand48_nonzero).
  assert (N : Rabs (v - 5038018749840132 * bpow radix2 (-57)) < bpow radix2 (-57 - 2)) by (apply near1346; [exact Hv|apply bpow_le; lia]).
  split; [exact K|]. split; [exact Hv|]. split; [c48g|]. split; [exact N|]. apply (C60_apart_partial rand48 300 (RAtom (ARandom 1346)) v _ 5038018749840132 (-57) Logic.I K Hv); [c48g|exact grid1346|exact N].
Qed.
Lemma e_standard c d : standard int_sem tt (e2 c d) /\ standard int_sem tt (e3 c d).
Proof. split; (split; [apply (e_wf c d)|split; [reflexivity|]]); cbn; intros q H; [destruct H as [H|[H|[]]]; discriminate H|destruct H as [H|[H|[H|[]]]]; [injection H as <-; reflexivity|discriminate H|discriminate H]]. Qed.
Lemma one_value (v w : R) : value int_sem (fun i => if (i =? 1)%Z then v else w) (e2 1 0) = v.
Proof. unfold value. cbn [combination emodule basis e2 coeffs gen_val val int_sem]. cbn [Z.eqb Pos.eqb]. lra. Qed.
Example C76_double_apart_case : exists v w garb d, counterexample (e2 1 0) 1346 1339 v w garb /\ elem_double (A := int_ring) up30 garb int_arb 5 (e2 1 0) = Some d /\
  arf2R d = 5038018749840132 * bpow radix2 (-57) /\ forall c, is_double c -> Rabs (v - arf2R d) <= Rabs (v - c).
Proof.
  destruct (case 1346 1339 (e2 1 0) (proj1 (proj2 (e_wf _ _)))) as (v & w & g0 & C). exists v, w, (gb 1346 1339 g0). eexists. split; [exact C|]. split; [c48g|]. destruct C as (W & Hv & Hw & C).
  rewrite <- (one_value v w). apply (C76_double_apart_partial _ _ int_lawful up30 up30_ok rand48 (names2 1346 1339) _ (gb 1346 1339 g0) int_arb (e2 1 0) W C eq_refl 5 _ 5038018749840132 (-57)); [c48g|exact grid1346|].
  rewrite one_value. apply near1346; [exact Hv|]. apply bpow_le. lia.
Qed.
Example C69_apart_case : exists v w garb, counterexample (e2 1 0) 1346 1339 v w garb /\ counterexample (e3 1 0) 1346 1339 v w garb /\ equal (A := int_ring) (e2 1 0) (e3 1 0) = Ok true /\
  forall hash, (forall a b, arf_eqb a b = true -> hash a = hash b) -> forall n m h h', elem_hash (A := int_ring) up30 garb int_arb hash n (e2 1 0) = Some h -> elem_hash (A := int_ring) up30 garb int_arb hash m (e3 1 0) = Some h' -> h = h'.
Proof.
  destruct (case 1346 1339 (e3 1 0) (proj2 (proj2 (e_wf _ _)))) as (v & w & g0 & C). exists v, w, (gb 1346 1339 g0).
  assert (C2 : counterexample (e2 1 0) 1346 1339 v w (gb 1346 1339 g0)).
  { destruct C as (_ & Hv & Hw & CV & CB & CC). split; [apply e_wf|]. split; [exact Hv|]. split; [exact Hw|]. split; [exact CV|]. split; [|exact CC]. intros g prec Hg Hp. apply CB; [|exact Hp]. right. exact Hg. }
  split; [exact C2|]. split; [exact C|]. split; [c48g|]. destruct C as (W & Hv & Hw & C). destruct C2 as (W2 & _ & _ & C2).
  apply (C69_apart_partial _ _ int_lawful up30 up30_ok rand48 (names2 1346 1339) _ (gb 1346 1339 g0) int_arb tt (e2 1 0) (e3 1 0) (proj1 (e_standard 1 0)) (proj2 (e_standard 1 0)) C2 C eq_refl 5038018749840132 (-57) grid1346).
  rewrite one_value. apply near1346; [exact Hv|]. apply bpow_le. lia.
Qed.
Example C76_floor_apart_case : exists v w garb, counterexample (e2 1 0) 1346 1339 v w garb /\ elem_floor (A := int_ring) up30 garb int_arb 5 (e2 1 0) = Some 0%Z /\ the_floor 0 v /\
  forall n, code_error * Rabs v < Rabs (v - IZR n).
Proof.
  destruct (case 1346 1339 (e2 1 0) (proj1 (proj2 (e_wf _ _)))) as (v & w & g0 & C). exists v, w, (gb 1346 1339 g0). split; [exact C|]. split; [c48g|]. destruct C as (W & Hv & Hw & C).
  assert (J : forall n, code_error * Rabs v < Rabs (v - IZR n)).
  { intros n. r48bound Hv 10%nat. unfold code_error. change (bpow radix2 (-63)) with (/ 9223372036854775808). rewrite (Rabs_pos_eq v) by lra. destruct (Z_le_gt_dec n 0) as [N|N].
    - apply IZR_le in N. rewrite Rabs_pos_eq by lra. lra.
    - assert (N' : (1 <= n)%Z) by lia. apply IZR_le in N'. rewrite Rabs_left by lra. lra. }
  split; [|exact J]. rewrite <- (one_value v w). apply (C76_floor_apart_partial _ _ int_lawful up30 up30_ok rand48 (names2 1346 1339) _ (gb 1346 1339 g0) int_arb (e2 1 0) W C) with (rounds := 5%nat); [|c48g].
  intros n. rewrite one_value. apply J.
Qed.

(** * C59: what the answer 0 means *)
From Verif Require Import RealProofs RealProofs2 RealProofs5.
(** A number in the ball (and not its lower end) gives 0. *)
Theorem C59_inside_partial : forall rng fuel x v b c p, not_product x -> num_ok rng x -> num_value rng x v -> contains b v -> contains b p -> p < v -> num_cmp rng fuel x b = Some c -> c = 0%Z.
Proof.
  intros rng fuel x v b c p NP K V Cv Cp Lp H. pose proof (C08_cmp_below rng fuel x v b NP K V) as Below. pose proof (C08_cmp_above rng fuel x v b NP K V) as Above. rewrite H in Below, Above.
  unfold num_cmp in H. destruct (arb_interval b) as [[lo hi]|]; [|discriminate]. destruct (num_arf _ _ _ _) as [a|]; [|discriminate]. injection H as H.
  destruct (arf_ltb a lo); [|destruct (arf_ltb hi a); [|congruence]]; subst c.
  - specialize (Below eq_refl p Cp). lra.
  - specialize (Above eq_refl v Cv). lra.
Qed.
(** If the answer is 0, then a point between the ends of the interval agrees with the number to one bit more than the ends have. *)
Theorem C59_zero_partial : forall rng fuel x v b, not_product x -> num_ok rng x -> num_value rng x v -> num_cmp rng fuel x b = Some 0%Z ->
  exists lo hi a, arb_interval b = Some (lo, hi) /\ arf2R lo <= arf2R a <= arf2R hi /\ (v = 0 /\ arf2R a = 0 \/ accurate (Z.max (arf_bits lo) (arf_bits hi) + 1) a v).
Proof.
  intros rng fuel x v b NP K V H. unfold num_cmp in H. destruct (arb_interval b) as [[lo hi]|]; [|discriminate].
  destruct (num_arf rng fuel x (Z.max (arf_bits lo) (arf_bits hi) + 1)) as [a|] eqn:E; [|discriminate]. exists lo, hi, a. split; [reflexivity|].
  destruct (arf_ltb a lo) eqn:E1; [discriminate|]. destruct (arf_ltb hi a) eqn:E2; [discriminate|]. split.
  - split; apply Rnot_lt_le; intros L; apply arf_ltb_spec in L; congruence.
  - assert (P : (1 <= Z.max (arf_bits lo) (arf_bits hi) + 1)%Z) by (destruct (Z.eq_dec (am lo) 0) as [E0|N0]; [assert (B0 : arf_bits lo = 0%Z) by (unfold arf_bits; rewrite E0; reflexivity); lia|pose proof (proj1 (proj2 (proj2 (arf_bits_spec lo N0)))); lia]). destruct x as [q|t|ms]; [| |contradiction].
    + assert (V' : v = Q2R q) by exact V. destruct (Qeq_dec q 0) as [Z0|NZ].
      * left. assert (R0 : Q2R q = 0) by (rewrite (Qeq_eqR _ _ Z0); unfold Q2R; cbn; lra). split; [lra|]. unfold num_arf in E. fold (clamp (Z.max (arf_bits lo) (arf_bits hi) + 1)) in E. rewrite clamp_pos in E by exact P. injection E as <-. exact (arf_rational_zero q _ P R0).
      * right. rewrite V'. exact (C06_rational_accurate rng fuel q _ a P NZ E).
    + right. exact (C06_random_accurate rng fuel t v _ a K V P E).
Qed.
