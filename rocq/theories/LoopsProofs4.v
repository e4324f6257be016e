(** What linear independence of the generators means for the comparisons of elements. *)
From Coq Require Import ZArith QArith Qcanon Bool List Reals Qreals Lia Lra Psatz.
From Flocq Require Import Core.
From Verif Require Import Arf Arb Real SpecArf ArfProofs ArbProofs Gen SpecGen GenProofs Ring SpecRing RingProofs Module Element SpecModule ModuleProofs ElementProofs ElementProofs2 ElementProofs3 ElementProofs4 FloorProofs PropDivision Loops SpecLoops Near Near2 LoopsProofs LoopsProofs2 LoopsProofs3.
Import ListNotations.
Open Scope R_scope.

Lemma int_floors_integers : floors_integers int_sem.
Proof. intros p c n _ H. cbn in *. apply eq_IZR, H. Qed.
Lemma is_floor_IZR n m : is_floor n (IZR m) -> n = m.
Proof. intros [H1 H2]. apply le_IZR in H1. rewrite <- (plus_IZR n 1) in H2. apply lt_IZR in H2. lia. Qed.
Lemma rat_floors_integers : floors_integers rat_sem.
Proof. intros p c n _ H. cbn in *. apply is_floor_IZR. rewrite <- H. apply rat_floor_nonneg. right. eauto. Qed.
Lemma quad_floors_integers : floors_integers quad_sem.
Proof. intros p c n M H. apply is_floor_IZR. rewrite <- H. apply (quad_floor_spec p c M). Qed.

(** Doubles, and the numbers halfway between them, are rational. *)
Lemma Q2R_bpow e : exists q : Qc, bpow radix2 e = Q2R q.
Proof.
  destruct e as [|n|n].
  - exists 1%Qc. cbn. unfold Q2R. cbn. lra.
  - exists (Qc_of_Z (Z.pow_pos 2 n)). unfold Qc_of_Z. rewrite Q2R_Q2Qc. unfold Q2R. cbn. lra.
  - exists (/ Qc_of_Z (Z.pow_pos 2 n))%Qc. assert (P : (Z.pow_pos 2 n <> 0)%Z) by (pose proof (Zpower_pos_gt_0 2 n); lia).
    assert (E : Q2R (Qc_of_Z (Z.pow_pos 2 n)) = IZR (Z.pow_pos 2 n)) by (unfold Qc_of_Z; rewrite Q2R_Q2Qc; unfold Q2R; cbn; field).
    rewrite Q2R_Qc_inv.
    + rewrite E. reflexivity.
    + intros Z0. rewrite Z0 in E. unfold Q2R in E. cbn in E. apply P, eq_IZR. rewrite <- E. lra.
Qed.
Lemma format_rational (c : R) : is_double c -> exists q : Qc, c = Q2R q.
Proof.
  unfold is_double, generic_format. intros ->. unfold F2R. cbn [Fnum Fexp]. destruct (Q2R_bpow (cexp radix2 (FLT_exp (-1074) 53) c)) as [q ->].
  exists (Qc_of_Z (Ztrunc (scaled_mantissa radix2 (FLT_exp (-1074) 53) c)) * q)%Qc. rewrite Q2R_Qc_mult. f_equal. unfold Qc_of_Z. rewrite Q2R_Q2Qc. unfold Q2R. cbn. field.
Qed.
Lemma halfway_rational (c : R) : halfway c -> exists q : Qc, c = Q2R q.
Proof.
  intros (d & u & Hd & Hu & _ & ->). destruct (format_rational d Hd) as [q ->], (format_rational u Hu) as [r ->].
  exists ((q + r) * / Qc_of_Z 2)%Qc. rewrite Q2R_Qc_mult, Q2R_Qc_plus, Q2R_Qc_inv by discriminate. unfold Rdiv. f_equal. f_equal. unfold Qc_of_Z. rewrite Q2R_Q2Qc. unfold Q2R. cbn. field.
Qed.

Section Independent.
  Variable A : ring.
  Variable S : semantics A.
  Hypothesis HL : lawful A S.
  Variable p : par A.
  Variable rho : Z -> R.
  Variable gs : list gen.
  Hypothesis HI : independent S p rho gs.
  Local Notation elem := (elem A).
  Implicit Types x y z : elem.
  Local Notation value := (value S rho).
  (** Elements whose generators are among the given ones. *)
  Definition located x : Prop := standard S p x /\ incl (basis (emodule x)) gs.

  Lemma int_member n : exists c, mem S p c /\ val S c = IZR n.
  Proof.
    assert (P : forall m : nat, exists c, mem S p c /\ val S c = IZR (Z.of_nat m)).
    { induction m as [|m [c [M V]]]; [exists (czero A); apply (L_zero A S HL p)|]. destruct (L_one A S HL p) as [M1 V1]. destruct (L_add A S HL p c (cone A) M M1) as [Ms Vs]. exists (cadd c (cone A)). split; [exact Ms|].
      rewrite Vs, V, V1, Nat2Z.inj_succ, succ_IZR. reflexivity. }
    destruct (Z.le_gt_cases 0 n) as [H|H].
    - destruct (P (Z.to_nat n)) as [c Hc]. rewrite Z2Nat.id in Hc by exact H. eauto.
    - destruct (P (Z.to_nat (- n))) as [c [M V]]. rewrite Z2Nat.id in V by lia. destruct (L_opp A S HL p c M) as [Mo Vo]. exists (copp c). split; [exact Mo|]. rewrite Vo, V, opp_IZR. ring.
  Qed.
  Lemma zero_trivial x : located x -> value x = 0 -> nonzero x = false.
  Proof. intros [Hx Ix] V. apply (nonzero_false A S HL). exact (HI x (proj1 Hx) (proj1 (proj2 Hx)) Ix V). Qed.
  Lemma nonzero_not_zero x : located x -> nonzero x = true -> value x <> 0.
  Proof. intros Hx N V. rewrite (zero_trivial x Hx V) in N. discriminate. Qed.
  (** Elements with the same value are the same. *)
  Lemma faithful x y : located x -> located y -> value x = value y -> forall r, SpecModule.value S r x = SpecModule.value S r y.
  Proof.
    intros [Hx Ix] [Hy Iy] V r. destruct (std_sub A S HL p x y Hx Hy) as (d & E & Hd & Vd).
    assert (N : nonzero d = false).
    { apply zero_trivial; [|rewrite Vd, V; ring]. split; [exact Hd|]. destruct (sub_spec A S HL x y d (proj1 Hx) (proj1 Hy) E) as (_ & _ & G). intros g Hg. apply G in Hg. destruct Hg as [Hg|Hg]; [apply Ix|apply Iy]; exact Hg. }
    pose proof (zero_value_of A S HL r d N) as Z0. rewrite Vd in Z0. lra.
  Qed.
  Lemma equal_decides x y b : located x -> located y -> equal x y = Ok b -> (b = true <-> value x = value y).
  Proof.
    intros Lx Ly E. pose proof Lx as [Hx _]. pose proof Ly as [Hy _]. rewrite (equal_value A S HL x y b (proj1 Hx) (proj1 Hy) (standard_no_zero A S p x Hx) (standard_no_zero A S p y Hy) E).
    split; [auto|]. apply faithful; assumption.
  Qed.
  (** A multiple by an integer. *)
  Lemma scaled_elem n x : located x -> exists z, located z /\ emodule z = emodule x /\ forall r, SpecModule.value S r z = IZR n * SpecModule.value S r x.
  Proof.
    intros [Hx Ix]. destruct (int_member n) as (c & Mc & Vc). destruct Hx as ((WM & Hl & Hm) & Hr & Hq).
    exists (mkElem (emodule x) (map (fun a => cmul c a) (coeffs x))). rewrite Hr in Hm. split; [split; [split; [split; [exact WM|split]|split; [exact Hr|exact Hq]]|exact Ix]|split; [reflexivity|]].
    - cbn. rewrite map_length. exact Hl.
    - cbn. rewrite Hr. apply Forall_map. apply (Forall_impl _ (P := mem S p)); [|exact Hm]. intros a Ma. apply (L_mul A S HL p c a Mc Ma).
    - intros r. unfold SpecModule.value. cbn. clear Ix Hl Hq WM Hr. revert Hm. generalize (coeffs x). induction (basis (emodule x)) as [|g b IH]; intros cs Hm; [destruct cs; cbn; ring|].
      destruct cs as [|a cs]; [cbn; ring|]. inversion Hm; subst. cbn. rewrite IH by assumption. destruct (L_mul A S HL p c a Mc ltac:(assumption)) as [_ ->]. rewrite Vc. ring.
  Qed.
  Hypothesis H1 : In (GRat 1) gs.
  Lemma int_located n : exists z, located z /\ forall r, SpecModule.value S r z = IZR n.
  Proof.
    destruct (int_member n) as (c & Mc & Vc). destruct (of_value_standard A S p c Mc) as (z & E & Hz & V). exists z. split; [|intros r; rewrite V; exact Vc].
    split; [exact Hz|]. unfold of_value in E. cbn in E. injection E as <-. cbn. intros g [<-|[]]. exact H1.
  Qed.
  Lemma rational_faithful x (q : Qc) : located x -> value x = Q2R q -> forall r, SpecModule.value S r x = Q2R q.
  Proof.
    intros Lx V r. destruct (scaled_elem (qc_den q) x Lx) as (z & Lz & _ & Vz). destruct (int_located (qc_num q)) as (w & Lw & Vw). pose proof (LoopsProofs2.qc_den_pos q) as D.
    assert (F : value z = value w) by (rewrite Vz, Vw, V, qc_num_den; field; lra). pose proof (faithful z w Lz Lw F r) as E. rewrite Vz, Vw in E. rewrite qc_num_den. apply Rmult_eq_reg_l with (IZR (qc_den q)); [|lra]. rewrite E. field. lra.
  Qed.
  Lemma eq_rational_decides x (q : Qc) : located x -> (eq_rational x q = true <-> value x = Q2R q).
  Proof.
    intros Lx. pose proof Lx as [Hx _]. rewrite (eq_rational_spec A S HL x q (proj1 Hx) (standard_no_zero A S p x Hx)). split; [auto|]. apply rational_faithful, Lx.
  Qed.
  Lemma Q2R_of_Z n : Q2R (Qc_of_Z n) = IZR n.
  Proof. unfold Qc_of_Z. rewrite Q2R_Q2Qc. unfold Q2R. cbn. field. Qed.
  Lemma eq_integer_decides x n : located x -> (eq_integer x n = true <-> value x = IZR n).
  Proof. intros Lx. unfold eq_integer. rewrite (eq_rational_decides x _ Lx), Q2R_of_Z. reflexivity. Qed.
  Lemma to_rational_none x : located x -> to_rational x = None -> forall q : Qc, value x <> Q2R q.
  Proof.
    intros Lx E q V. pose proof Lx as [Hx _]. rewrite (proj2 (to_rational_spec A S HL x q (proj1 Hx) (standard_no_zero A S p x Hx))) in E; [discriminate|]. apply rational_faithful; assumption.
  Qed.
  Lemma to_integer_none x : located x -> to_integer x = None -> forall n, value x <> IZR n.
  Proof.
    intros Lx E n V. pose proof Lx as [Hx _]. rewrite (proj2 (to_integer_spec A S HL x n (proj1 Hx) (standard_no_zero A S p x Hx))) in E; [discriminate|]. intros r. rewrite <- Q2R_of_Z. apply rational_faithful; [exact Lx|]. rewrite Q2R_of_Z. exact V.
  Qed.
  Lemma gen_located g : In g gs -> gen_wf g -> (forall q, g = GRat q -> q = 1%Qc) -> exists z, located z /\ forall r, SpecModule.value S r z = gen_val r g.
  Proof.
    intros Ig Wg Hq. exists (mkElem (mkModule [g] p) [cone A]). split.
    - split; [split; [split; [split; [constructor; [exact Wg|constructor]|split; [intros ? []|exact I]]|split; [reflexivity|constructor; [apply (L_one A S HL p)|constructor]]]|split; [reflexivity|]]|].
      + cbn. intros q [E|[]]. apply Hq, E.
      + intros h [<-|[]]. exact Ig.
    - intros r. unfold SpecModule.value. cbn. rewrite (val_one A S HL). ring.
  Qed.
  Lemma eq_real_decides x g b : located x -> In g gs -> gen_wf g -> (forall q, g = GRat q -> q = 1%Qc) -> eq_real x g = Ok b -> (b = true <-> value x = gen_val rho g).
  Proof.
    intros Lx Ig Wg Hq E. pose proof Lx as [Hx _]. rewrite (eq_real_spec A S HL x g b (proj1 Hx) (standard_no_zero A S p x Hx) Wg E). split; [auto|]. intros V r.
    destruct (gen_located g Ig Wg Hq) as (z & Lz & Vz). rewrite <- Vz. apply faithful; [exact Lx|exact Lz|]. rewrite Vz. exact V.
  Qed.
  Lemma irrational_double x : located x -> to_rational x = None -> ~ is_double (value x) /\ ~ halfway (value x).
  Proof.
    intros Lx E. split; intros F; [apply format_rational in F|apply halfway_rational in F]; destruct F as [q F]; exact (to_rational_none x Lx E q F).
  Qed.

  (** The exact division finds all integer quotients. *)
  Hypothesis HF : floors_integers S.
  Lemma exact_floor_complete n : forall xs ys fl, Forall (mem S p) xs -> Forall (mem S p) ys -> Forall2 (fun a b => val S a = IZR n * val S b) xs ys ->
    (fl = None \/ fl = Some n) -> n <> 0%Z -> exact_floor (A := A) xs ys fl = if existsb (fun b => negb (cz b)) ys then Some n else fl.
  Proof.
    intros xs ys fl Hx Hy F. revert fl. induction F as [|a b xs ys Eab F IH]; intros fl Hfl Nn; [reflexivity|]. inversion Hx as [|? ? Ma Mx]; subst. inversion Hy as [|? ? Mb My]; subst. cbn [exact_floor existsb].
    assert (ZA : cz a = cz b).
    { apply eq_true_iff_eq. rewrite !(cz_spec A S HL), <- !(val_zero_iff A S HL p) by assumption. rewrite Eab. split; intros H; [|rewrite H; ring]. apply Rmult_integral in H. destruct H as [H|H]; [apply eq_IZR in H; contradiction|exact H]. }
    rewrite ZA. destruct (cz b) eqn:Zb; cbn [negb orb]; [apply IH; assumption|].
    assert (Nb : val S b <> 0) by (intros E; apply (val_zero_iff A S HL p b Mb), (cz_spec A S HL) in E; congruence).
    destruct (int_member n) as (c & Mc & Vc). destruct (L_quo A S HL p a b Ma Mb Nb) as [Mq Vq].
    assert (Ef : cfloor (cquo a b) = n) by (apply (HF p); [exact Mq|]; rewrite (Vq c Mc); [exact Vc|rewrite Vc, Eab; reflexivity]). rewrite Ef.
    assert (E1 : (match fl with Some f' => negb (f' =? n)%Z | None => false end) = false) by (destruct Hfl as [->| ->]; [reflexivity|rewrite Z.eqb_refl; reflexivity]). rewrite E1.
    pose proof (L_imul A S HL p b (SZ n) Mb I) as LI. cbn [sval] in LI. destruct (imul b (SZ n)) as [t|e].
    - destruct LI as [Mt Vt]. assert (Et : t = a) by (apply (L_inj A S HL p); [exact Mt|exact Ma|rewrite Vt, Eab; ring]). subst t. rewrite (ceqb_refl A S HL).
      rewrite IH; [|assumption|assumption|right; reflexivity|exact Nn]. destruct (existsb (fun b => negb (cz b)) ys); reflexivity.
    - exfalso. apply LI. exists a. split; [exact Ma|rewrite Eab; ring].
  Qed.
  (** ... also if only the formal quotient is known (this does not use independence). *)
  Lemma exact_floor_formal x y n : standard S p x -> standard S p y -> emodule x = emodule y -> nonzero x = true -> (forall r, SpecModule.value S r x = IZR n * SpecModule.value S r y) -> exact_floor (coeffs x) (coeffs y) None = Some n.
  Proof.
    intros Lx Ly EM Nx Vc. assert (Zx := standard_no_zero A S p x Lx).
    destruct (proj1 (nonzero_value A S HL x (proj1 Lx) Zx) Nx) as (r & Vr).
    assert (Nn : n <> 0%Z). { intros ->. apply Vr. rewrite Vc. ring. }
    assert (Ny : nonzero y = true). { destruct (nonzero y) eqn:N; [reflexivity|]. exfalso. apply Vr. rewrite Vc, (zero_value_of A S HL r y N). ring. }
    destruct Lx as ((WM & Lx & Mx) & Rx & _). destruct Ly as ((WM' & Ly & My) & Ry & Qy). rewrite Rx in Mx. rewrite Ry in My.
    rewrite (exact_floor_complete n); [|exact Mx|exact My| |left; reflexivity|exact Nn].
    - unfold nonzero in Ny. rewrite Ny. reflexivity.
    - destruct (int_member n) as (c & Mc & Vcn).
      assert (Ex2 : x = mkElem (emodule y) (map (fun a => cmul c a) (coeffs y))).
      { apply (value_inj A S HL).
        - split; [exact WM|]. split; [exact Lx|rewrite Rx; exact Mx].
        - split; [exact WM'|]. cbn. split; [rewrite map_length; exact Ly|]. rewrite Ry. apply Forall_map. apply (Forall_impl _ (P := mem S p)); [|exact My]. intros a Ma. apply (L_mul A S HL p c a Mc Ma).
        - exact EM.
        - rewrite EM. intros I0. apply Qy in I0. discriminate.
        - intros r'. rewrite Vc. unfold SpecModule.value. cbn. clear - HL Vcn Mc My. revert My. generalize (coeffs y). induction (basis (emodule y)) as [|g b IH]; intros cs Hm; [destruct cs; cbn; ring|].
          destruct cs as [|a cs]; [cbn; ring|]. inversion Hm; subst. cbn. rewrite <- IH by assumption. destruct (L_mul A S HL p c a Mc ltac:(assumption)) as [_ ->]. rewrite Vcn. ring. }
      rewrite Ex2. cbn [coeffs]. clear - HL My Mc Vcn. induction My as [|a cs Ma My IH]; constructor; [|exact IH]. destruct (L_mul A S HL p c a Mc Ma) as [_ ->]. rewrite Vcn. reflexivity.
  Qed.
  Lemma exact_floor_finds x y n : located x -> located y -> emodule x = emodule y -> nonzero x = true -> value x = IZR n * value y -> exact_floor (coeffs x) (coeffs y) None = Some n.
  Proof.
    intros Lx Ly EM Nx V. destruct (scaled_elem n y Ly) as (z & Lz & Mz & Vz). apply exact_floor_formal; [apply Lx|apply Ly|exact EM|exact Nx|].
    intros r. rewrite <- Vz. apply (faithful x z Lx Lz). rewrite Vz. exact V.
  Qed.
End Independent.
