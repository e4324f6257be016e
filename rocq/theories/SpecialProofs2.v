(** Comparisons of floats and of balls that may be infinite or NaN, and arithmetic of such balls. *)
From Coq Require Import ZArith Bool Reals Lra Lia.
From Flocq Require Import Core.
From Coquelicot Require Import Rbar Lim_seq.
From Verif Require Import Arf Arb SpecArf ArfProofs ArbProofs Double SpecDouble Text Special SpecSpecial SpecialProofs.
Open Scope R_scope.

(** * Floats *)
Lemma x_cmp_spec x y u v : xvalue x = Some u -> xvalue y = Some v ->
  match x_cmp x y with Lt => Rbar_lt u v | Eq => u = v | Gt => Rbar_lt v u end.
Proof.
  destruct x as [a| | |], y as [b| | |]; cbn [xvalue x_cmp]; try discriminate; intros [= <-] [= <-]; try reflexivity; try exact Logic.I.
  pose proof (arf_cmp_spec a b) as C. destruct (arf_cmp a b); cbn [Rbar_lt]; [f_equal; exact C|exact C|exact C].
Qed.
Lemma x_ltb_spec x y : x_ltb x y = true <-> exists u v, xvalue x = Some u /\ xvalue y = Some v /\ Rbar_lt u v.
Proof.
  split.
  - intros H. destruct (xvalue x) as [u|] eqn:Eu.
    + destruct (xvalue y) as [v|] eqn:Ev.
      * exists u, v. split; [reflexivity|split; [reflexivity|]]. pose proof (x_cmp_spec x y u v Eu Ev) as C. unfold x_ltb in H. destruct (x_cmp x y); try discriminate H. exact C.
      * destruct y; try discriminate Ev. destruct x; discriminate H.
    + destruct x; try discriminate Eu. discriminate H.
  - intros (u & v & Eu & Ev & H). pose proof (x_cmp_spec x y u v Eu Ev) as C. unfold x_ltb. destruct (x_cmp x y); [|reflexivity|].
    + subst v. exfalso. destruct u; cbn in H; lra || exact H.
    + exfalso. apply (Rbar_lt_not_le _ _ C). apply Rbar_lt_le. exact H.
Qed.
Lemma x_leb_spec x y u v : xvalue x = Some u -> xvalue y = Some v -> (x_leb x y = true <-> Rbar_le u v).
Proof.
  intros Eu Ev. unfold x_leb. split.
  - intros H. apply Rbar_not_lt_le. intros L. assert (T : x_ltb y x = true) by (apply x_ltb_spec; exists v, u; auto). rewrite T in H. discriminate H.
  - intros H. destruct (x_ltb y x) eqn:E; [|reflexivity]. apply x_ltb_spec in E. destruct E as (v' & u' & Ev' & Eu' & L).
    rewrite Ev in Ev'. rewrite Eu in Eu'. injection Ev' as <-. injection Eu' as <-. exfalso. exact (Rbar_lt_not_le _ _ L H).
Qed.
Lemma x_eqb_spec x y : x_eqb x y = true <-> xvalue x = xvalue y.
Proof.
  destruct x as [a| | |], y as [b| | |]; cbn [x_eqb xvalue]; try (split; [reflexivity|reflexivity]); try (split; discriminate).
  rewrite arf_eqb_spec. split; [intros ->; reflexivity|intros [= H]; exact H].
Qed.

(** * Balls are intervals *)
Lemma xends x : defined x -> xarb_wf x -> exists l h L H, xlo x = Some l /\ xhi x = Some h /\ xvalue l = Some L /\ xvalue h = Some H /\
  Rbar_le L H /\ forall p, xcontains x p <-> Rbar_le L p /\ Rbar_le p H.
Proof.
  intros D W. destruct x as [m r]. unfold defined, xarb_wf in *. cbn [xmid xrad] in *. unfold xlo, xhi, xcontains. cbn [xmid xrad].
  destruct r as [r|].
  2:{ assert (forall p, True <-> Rbar_le m_infty p /\ Rbar_le p p_infty) as A.
      { intros p. split; [intros _; split; destruct p; exact Logic.I|intros _; exact Logic.I]. }
      exists NegInf, PosInf, m_infty, p_infty. destruct m; try (exfalso; apply D; reflexivity); (do 4 (split; [reflexivity|])); (split; [exact Logic.I|exact A]). }
  destruct m as [a| | |]; [| | |exfalso; apply D; reflexivity].
  - assert (R0 : 0 <= arf2R r). { unfold arf2R. apply Rmult_le_pos; [apply (IZR_le 0); exact W|apply bpow_ge_0]. }
    do 4 eexists. do 4 (split; [reflexivity|]). cbn [x_neg]. rewrite !arf_add_exact_spec, arf_neg_spec. split; [cbn; lra|].
    intros p. split.
    + intros (v & -> & B). apply Rabs_le_inv in B. cbn. lra.
    + destruct p as [v| |]; cbn [Rbar_le]; [|tauto|tauto]. intros [B1 B2]. exists v. split; [reflexivity|]. apply Rabs_le. lra.
  - exists PosInf, PosInf, p_infty, p_infty. do 4 (split; [reflexivity|]). split; [exact Logic.I|]. intros p. split.
    + intros ->. split; exact Logic.I.
    + intros [A B]. destruct p; cbn in A; [contradiction|reflexivity|contradiction].
  - exists NegInf, NegInf, m_infty, m_infty. do 4 (split; [reflexivity|]). split; [exact Logic.I|]. intros p. split.
    + intros ->. split; exact Logic.I.
    + intros [A B]. destruct p; cbn in B; [contradiction|contradiction|reflexivity].
Qed.
Lemma defined_dec x : {defined x} + {~ defined x}.
Proof. unfold defined. destruct (xmid x); [left|left|left|right; tauto]; discriminate. Qed.
Lemma undefined_ends x : ~ defined x -> xlo x = None /\ xhi x = None.
Proof. unfold defined, xlo, xhi. destruct (xmid x); intros H; try (exfalso; apply H; discriminate). split; reflexivity. Qed.

Lemma xlt_spec x y : xarb_wf x -> xarb_wf y ->
  (xarb_lt x y = true <-> defined x /\ defined y /\ forall p q, xcontains x p -> xcontains y q -> Rbar_lt p q).
Proof.
  intros Wx Wy. unfold xarb_lt. destruct (defined_dec x) as [Dx|Dx].
  2:{ destruct (undefined_ends x Dx) as [_ ->]. cbn [xopt2]. split; [discriminate|intros (H & _); contradiction]. }
  destruct (defined_dec y) as [Dy|Dy].
  2:{ destruct (undefined_ends y Dy) as [-> _]. destruct (xhi x); cbn [xopt2]; (split; [discriminate|intros (_ & H & _); contradiction]). }
  destruct (xends x Dx Wx) as (l & h & L & H & Elo & Ehi & El & Eh & Le & In).
  destruct (xends y Dy Wy) as (l' & h' & L' & H' & Elo' & Ehi' & El' & Eh' & Le' & In').
  rewrite Ehi, Elo'. cbn [xopt2]. rewrite x_ltb_spec. split.
  - intros (u & v & Eu & Ev & Lt). rewrite Eh in Eu. rewrite El' in Ev. injection Eu as <-. injection Ev as <-.
    split; [exact Dx|split; [exact Dy|]]. intros p q Hp Hq. apply In in Hp. apply In' in Hq.
    apply Rbar_le_lt_trans with H; [apply Hp|]. apply Rbar_lt_le_trans with L'; [exact Lt|apply Hq].
  - intros (_ & _ & A). exists H, L'. split; [exact Eh|split; [exact El'|]]. apply A; [apply In|apply In']; (split; [assumption|]) || idtac; try apply Rbar_le_refl; try assumption.
    split; [apply Rbar_le_refl|exact Le'].
Qed.
Lemma xle_spec x y : xarb_wf x -> xarb_wf y ->
  (xarb_le x y = true <-> defined x /\ defined y /\ forall p q, xcontains x p -> xcontains y q -> Rbar_le p q).
Proof.
  intros Wx Wy. unfold xarb_le. destruct (defined_dec x) as [Dx|Dx].
  2:{ destruct (undefined_ends x Dx) as [_ ->]. cbn [xopt2]. split; [discriminate|intros (H & _); contradiction]. }
  destruct (defined_dec y) as [Dy|Dy].
  2:{ destruct (undefined_ends y Dy) as [-> _]. destruct (xhi x); cbn [xopt2]; (split; [discriminate|intros (_ & H & _); contradiction]). }
  destruct (xends x Dx Wx) as (l & h & L & H & Elo & Ehi & El & Eh & Le & In).
  destruct (xends y Dy Wy) as (l' & h' & L' & H' & Elo' & Ehi' & El' & Eh' & Le' & In').
  rewrite Ehi, Elo'. cbn [xopt2]. rewrite (x_leb_spec _ _ _ _ Eh El'). split.
  - intros Lt. split; [exact Dx|split; [exact Dy|]]. intros p q Hp Hq. apply In in Hp. apply In' in Hq.
    apply Rbar_le_trans with H; [apply Hp|]. apply Rbar_le_trans with L'; [exact Lt|apply Hq].
  - intros (_ & _ & A). apply A; [apply In; split; [exact Le|apply Rbar_le_refl]|apply In'; split; [apply Rbar_le_refl|exact Le']].
Qed.
Lemma inhabited x : xarb_wf x -> exists p, xcontains x p.
Proof.
  intros W. destruct (defined_dec x) as [D|D].
  - destruct (xends x D W) as (l & h & L & H & _ & _ & _ & _ & Le & In). exists L. apply In. split; [apply Rbar_le_refl|exact Le].
  - exists 0. unfold xcontains. unfold defined in D. destruct (xmid x); try exact Logic.I; exfalso; apply D; discriminate.
Qed.
Lemma xne_spec x y : xarb_wf x -> xarb_wf y ->
  (xarb_ne x y = true <-> defined x /\ defined y /\ forall p q, xcontains x p -> xcontains y q -> p <> q).
Proof.
  intros Wx Wy. unfold xarb_ne. rewrite orb_true_iff, (xlt_spec x y Wx Wy), (xlt_spec y x Wy Wx).
  assert (Irr : forall p, ~ Rbar_lt p p) by (intros p H; destruct p; cbn in H; lra || exact H).
  split.
  - intros [(Dx & Dy & A)|(Dy & Dx & A)]; (split; [exact Dx|split; [exact Dy|]]); intros p q Hp Hq E; subst q.
    + exact (Irr p (A p p Hp Hq)).
    + exact (Irr p (A p p Hq Hp)).
  - intros (Dx & Dy & A).
    destruct (xends x Dx Wx) as (l & h & L & H & Elo & Ehi & El & Eh & Le & In).
    destruct (xends y Dy Wy) as (l' & h' & L' & H' & Elo' & Ehi' & El' & Eh' & Le' & In').
    destruct (Rbar_lt_dec H L') as [Lt|N1].
    + left. split; [exact Dx|split; [exact Dy|]]. intros p q Hp Hq. apply In in Hp. apply In' in Hq.
      apply Rbar_le_lt_trans with H; [apply Hp|]. apply Rbar_lt_le_trans with L'; [exact Lt|apply Hq].
    + destruct (Rbar_lt_dec H' L) as [Lt|N2].
      * right. split; [exact Dy|split; [exact Dx|]]. intros p q Hp Hq. apply In' in Hp. apply In in Hq.
        apply Rbar_le_lt_trans with H'; [apply Hp|]. apply Rbar_lt_le_trans with L; [exact Lt|apply Hq].
      * exfalso. apply Rbar_not_lt_le in N1. apply Rbar_not_lt_le in N2. destruct (Rbar_le_dec L L') as [C|C].
        -- apply (A L' L'); [apply In; split; assumption|apply In'; split; [apply Rbar_le_refl|exact Le']|reflexivity].
        -- apply Rbar_not_le_lt in C. apply (A L L); [apply In; split; [apply Rbar_le_refl|exact Le]|apply In'; split; [apply Rbar_lt_le; exact C|exact N2]|reflexivity].
Qed.
Lemma xeq_spec x y : xarb_wf x -> xarb_wf y ->
  (xarb_eq x y = true <-> defined x /\ defined y /\ forall p q, xcontains x p -> xcontains y q -> p = q).
Proof.
  intros Wx Wy. unfold xarb_eq. rewrite andb_true_iff, (xle_spec x y Wx Wy), (xle_spec y x Wy Wx). split.
  - intros [(Dx & Dy & A) (_ & _ & B)]. split; [exact Dx|split; [exact Dy|]]. intros p q Hp Hq. apply Rbar_le_antisym; [apply A; assumption|apply B; assumption].
  - intros (Dx & Dy & A). split; (split; [assumption|split; [assumption|]]); intros p q Hp Hq; [rewrite (A p q Hp Hq)|rewrite (A q p Hq Hp)]; apply Rbar_le_refl.
Qed.

(** * Three-valued answers *)
(** [t] is true iff all are related, [f] iff none is. *)
Lemma xtri_intro (Rel : Rbar -> Rbar -> Prop) x y (t f : bool) : xarb_wf x -> xarb_wf y ->
  (t = true <-> defined x /\ defined y /\ forall p q, xcontains x p -> xcontains y q -> Rel p q) ->
  (f = true <-> defined x /\ defined y /\ forall p q, xcontains x p -> xcontains y q -> ~ Rel p q) ->
  xtri Rel x y (if t then Some true else if f then Some false else None).
Proof.
  intros Wx Wy Ht Hf. destruct (inhabited x Wx) as [p0 Hp0]. destruct (inhabited y Wy) as [q0 Hq0]. unfold xtri. rewrite <- Ht, <- Hf.
  destruct t, f; split; split; intros; try reflexivity; try discriminate.
  exfalso. destruct (proj1 Ht eq_refl) as (_ & _ & A). destruct (proj1 Hf eq_refl) as (_ & _ & B). exact (B p0 q0 Hp0 Hq0 (A p0 q0 Hp0 Hq0)).
Qed.
Lemma xtri_neg Rel x y o : xtri Rel x y o -> (forall p q, ~ ~ Rel p q -> Rel p q) -> xtri (fun p q => ~ Rel p q) x y (option_map negb o).
Proof.
  intros [A B] N. split.
  - rewrite <- B. destruct o as [[|]|]; cbn; split; congruence.
  - transitivity (o = Some true); [destruct o as [[|]|]; cbn; split; congruence|]. rewrite A. split; intros (Dx & Dy & H); (split; [exact Dx|split; [exact Dy|]]); intros p q Hp Hq.
    + intros X. apply X. apply H; assumption.
    + apply N. apply H; assumption.
Qed.
Lemma xtri_ext (R S : Rbar -> Rbar -> Prop) x y o : (forall p q, R p q <-> S p q) -> xtri R x y o -> xtri S x y o.
Proof.
  intros E [A B]. split; [rewrite A|rewrite B]; split; intros (Dx & Dy & H); (split; [exact Dx|split; [exact Dy|]]); intros p q Hp Hq; specialize (H p q Hp Hq); rewrite ?E in *; assumption || (rewrite <- E in *; assumption) || (intros X; apply H; apply E; exact X).
Qed.
Lemma not_lt_le p q : ~ Rbar_lt p q <-> Rbar_le q p.
Proof. split; [apply Rbar_not_lt_le|intros H L; exact (Rbar_lt_not_le _ _ L H)]. Qed.
Lemma not_le_lt p q : ~ Rbar_le p q <-> Rbar_lt q p.
Proof. split; [apply Rbar_not_le_lt|intros H L; exact (Rbar_lt_not_le _ _ H L)]. Qed.

Lemma xop_lt_spec x y : xarb_wf x -> xarb_wf y -> xtri Rbar_lt x y (xop_lt x y).
Proof.
  intros Wx Wy. apply xtri_intro; [exact Wx|exact Wy|apply xlt_spec; assumption|]. unfold xarb_ge. rewrite (xle_spec y x Wy Wx).
  split; intros (D & D' & H); (split; [exact D'|split; [exact D|]]); intros p q Hp Hq.
  - apply not_lt_le. apply H; assumption.
  - apply not_lt_le. apply H; assumption.
Qed.
Lemma xop_gt_spec x y : xarb_wf x -> xarb_wf y -> xtri (fun p q => Rbar_lt q p) x y (xop_gt x y).
Proof.
  intros Wx Wy. apply xtri_intro; [exact Wx|exact Wy| |].
  - unfold xarb_gt. rewrite (xlt_spec y x Wy Wx). split; intros (D & D' & H); (split; [exact D'|split; [exact D|]]); intros p q Hp Hq; apply H; assumption.
  - rewrite (xle_spec x y Wx Wy). split; intros (D & D' & H); (split; [exact D|split; [exact D'|]]); intros p q Hp Hq; apply not_lt_le; apply H; assumption.
Qed.
Lemma lt_stable p q : ~ ~ Rbar_lt p q -> Rbar_lt p q.
Proof. intros H. destruct (Rbar_lt_dec p q) as [L|L]; [exact L|contradiction]. Qed.
Lemma xop_le_spec x y : xarb_wf x -> xarb_wf y -> xtri Rbar_le x y (xop_le x y).
Proof.
  intros Wx Wy. apply xtri_ext with (R := fun p q => ~ Rbar_lt q p); [intros p q; apply not_lt_le|].
  apply (xtri_neg (fun p q => Rbar_lt q p)); [apply xop_gt_spec; assumption|]. intros p q. apply lt_stable.
Qed.
Lemma xop_ge_spec x y : xarb_wf x -> xarb_wf y -> xtri (fun p q => Rbar_le q p) x y (xop_ge x y).
Proof.
  intros Wx Wy. apply xtri_ext with (R := fun p q => ~ Rbar_lt p q); [intros p q; apply not_lt_le|].
  apply (xtri_neg Rbar_lt); [apply xop_lt_spec; assumption|]. intros p q. apply lt_stable.
Qed.
Lemma xop_eq_spec x y : xarb_wf x -> xarb_wf y -> xtri (@eq Rbar) x y (xop_eq x y).
Proof. intros Wx Wy. apply xtri_intro; [exact Wx|exact Wy|apply xeq_spec; assumption|apply xne_spec; assumption]. Qed.
Lemma xop_ne_spec x y : xarb_wf x -> xarb_wf y -> xtri (fun p q => p <> q) x y (xop_ne x y).
Proof.
  intros Wx Wy. apply (xtri_neg (@eq Rbar)); [apply xop_eq_spec; assumption|]. intros p q H. destruct (Rbar_eq_dec p q) as [E|E]; [exact E|contradiction].
Qed.

(** * Arithmetic *)
Section Arith.
  Variable mag_up : arf -> arf.
  Hypothesis Hm : mag_up_ok mag_up.

  Lemma nonneg r : (0 <= am r)%Z -> 0 <= arf2R r.
  Proof. intros H. unfold arf2R. apply Rmult_le_pos; [apply (IZR_le 0); exact H|apply bpow_ge_0]. Qed.
  Definition finite_ball (x : xarb) : option arb := match xmid x with Text.Finite a => Some (mkArb a (xrad x)) | _ => None end.
  Definition to_xarb (x : arb) : xarb := mkXArb (Text.Finite (mid x)) (rad x).
  Lemma xarb_neg_contains x p : xcontains x p -> xcontains (xarb_neg x) (Rbar_opp p).
  Proof.
    destruct x as [m [r|]]; destruct m as [a| | |]; unfold xcontains, xarb_neg; cbn [xmid xrad x_neg]; try (intros _; exact Logic.I); try (intros ->; reflexivity).
    intros (v & -> & H). exists (- v). split; [reflexivity|]. rewrite arf_neg_spec. replace (- v - - arf2R a) with (- (v - arf2R a)) by ring. rewrite Rabs_Ropp. exact H.
  Qed.
  (** On balls with finite midpoints it is the arithmetic of Arb.v. *)
  Lemma xarb_add_finite prec x y : xarb_add mag_up prec (to_xarb x) (to_xarb y) = to_xarb (arb_add mag_up prec x y).
  Proof. reflexivity. Qed.
  Lemma to_xarb_contains x v : contains x v -> xcontains (to_xarb x) (Rbar.Finite v).
  Proof. unfold contains, xcontains, to_xarb. cbn [xmid xrad]. destruct (rad x) as [r|]; [|intros _; exact Logic.I]. intros H. exists v. split; [reflexivity|exact H]. Qed.
  Lemma to_xarb_contains_inv x p r : rad x = Some r -> xcontains (to_xarb x) p -> exists v, p = Rbar.Finite v /\ contains x v.
  Proof. unfold contains, xcontains, to_xarb. cbn [xmid xrad]. intros ->. intros (v & -> & H). exists v. split; [reflexivity|exact H]. Qed.

  Lemma xarb_add_contains prec x y p q r : prec_ok prec -> xarb_wf x -> xarb_wf y ->
    xcontains x p -> xcontains y q -> is_Rbar_plus p q r -> xcontains (xarb_add mag_up prec x y) r.
  Proof.
    intros Hp Wx Wy Cx Cy P. destruct x as [m rx], y as [n ry]. unfold xarb_wf in *. cbn [xrad] in *.
    destruct rx as [rx|]; [destruct ry as [ry|]|].
    2,3: unfold xarb_add, xmk_ball, xcontains; cbn [xmid xrad mag_add]; destruct (x_add None DOWN m n); cbn [xmid xrad option_map]; exact Logic.I.
    destruct m as [a| | |], n as [b| | |]; unfold xcontains in Cx, Cy; cbn [xmid xrad] in Cx, Cy;
      try (unfold xarb_add, xcontains; cbn [xmid xrad x_add xmk_ball mag_add option_map]; exact Logic.I).
    - change (mkXArb (Text.Finite a) (Some rx)) with (to_xarb (mkArb a (Some rx))). change (mkXArb (Text.Finite b) (Some ry)) with (to_xarb (mkArb b (Some ry))).
      rewrite xarb_add_finite. destruct Cx as (u & -> & Cx). destruct Cy as (v & -> & Cy). injection P as <-. apply to_xarb_contains.
      apply arb_add_contains; assumption.
    - destruct Cx as (u & -> & Cx). subst q. injection P as <-. reflexivity.
    - destruct Cx as (u & -> & Cx). subst q. injection P as <-. reflexivity.
    - destruct Cy as (u & -> & Cy). subst p. injection P as <-. reflexivity.
    - subst p q. injection P as <-. reflexivity.
    - destruct Cy as (u & -> & Cy). subst p. injection P as <-. reflexivity.
    - subst p q. injection P as <-. reflexivity.
  Qed.
  Lemma xarb_sub_contains prec x y p q r : prec_ok prec -> xarb_wf x -> xarb_wf y ->
    xcontains x p -> xcontains y q -> is_Rbar_minus p q r -> xcontains (xarb_sub mag_up prec x y) r.
  Proof.
    intros Hp Wx Wy Cx Cy P. apply (xarb_add_contains prec x (xarb_neg y) p (Rbar_opp q) r); try assumption. apply xarb_neg_contains. exact Cy.
  Qed.
  (** Products *)
  Lemma mag_mul_zero s : forall a, am a = 0%Z -> exists z, mag_mul (Some a) s = Some z.
  Proof. intros a H. destruct s as [b|]; cbn [mag_mul]; [eexists; reflexivity|]. rewrite H. eexists. reflexivity. Qed.
  Lemma xarb_mul_finite prec x y r s : rad x = Some r -> rad y = Some s -> xarb_mul mag_up prec (to_xarb x) (to_xarb y) = to_xarb (arb_mul mag_up prec x y).
  Proof. intros Hr Hs. unfold xarb_mul, arb_mul, to_xarb. cbn [xmid xrad]. rewrite Hr, Hs. reflexivity. Qed.
  Lemma whole x p : xrad x = None -> xcontains x p.
  Proof. unfold xcontains. intros ->. destruct (xmid x); exact Logic.I. Qed.
  Lemma nan x p : xmid x = NaN -> xcontains x p.
  Proof. unfold xcontains. intros ->. exact Logic.I. Qed.
  Lemma xmk_ball_mid prec e r : (forall a, e <> Text.Finite a) -> xmk_ball mag_up prec e r = mkXArb e (option_map mag_up r).
  Proof. destruct e; intros H; [exfalso; exact (H a eq_refl)|reflexivity|reflexivity|reflexivity]. Qed.
  Lemma mult_sign u v w : is_Rbar_mult u v w -> forall a, u = Rbar.Finite a -> v = p_infty \/ v = m_infty -> a <> 0 /\ (w = p_infty \/ w = m_infty).
  Proof.
    intros P a -> V. unfold is_Rbar_mult, Rbar_mult' in P. destruct V as [-> | ->]; destruct (Rle_dec 0 a) as [H|H]; try destruct (Rle_lt_or_eq_dec 0 a H) as [L|L]; try discriminate P; injection P as <-; split; try lra; auto.
  Qed.

  Lemma zero_radius r : am r = 0%Z -> arf2R r = 0.
  Proof. intros H. unfold arf2R. rewrite H. ring. Qed.
  (** A ball whose midpoint is zero before rounding *)
  Lemma zero_ball prec e r : prec_ok prec -> arf2R e = 0 -> (0 <= am r)%Z -> xcontains (xmk_ball mag_up prec (Text.Finite e) (Some r)) 0.
  Proof.
    intros Hp E0 W. unfold xmk_ball, xcontains. cbn [xmid xrad option_map]. exists 0. split; [reflexivity|].
    assert (M : arf2R (round_mid prec e) = 0).
    { unfold round_mid. destruct prec as [k|]; [|exact E0]. rewrite (arf_round_spec DOWN k e Hp), E0. apply round_0. exact (rndZ_valid DOWN). }
    rewrite M, Rminus_0_r, Rabs_R0. pose proof (nonneg r W) as N. pose proof (round_err_nonneg prec e) as N'.
    assert (S0 : 0 <= arf2R (arf_add_exact r (round_err prec e))) by (rewrite arf_add_exact_spec; lra).
    pose proof (Hm _ S0) as H. lra.
  Qed.
  Definition xinf (positive : bool) : Rbar := if positive then p_infty else m_infty.
  Lemma fin_inf prec a positive t r : is_Rbar_mult (Rbar.Finite (arf2R a)) (xinf positive) r ->
    xcontains (xmk_ball mag_up prec (x_mul None DOWN (Text.Finite a) (x_signed_inf positive)) (Some t)) r.
  Proof.
    intros P. destruct (arf_sgn_cases a) as [(E & V)|[(E & N & V)|(E & N & V)]].
    - exfalso. destruct (mult_sign _ _ _ P (arf2R a) eq_refl ltac:(destruct positive; auto)) as [X _]. exact (X V).
    - assert (r = xinf positive) as ->.
      { destruct positive; unfold xinf, is_Rbar_mult in *.
        - rewrite (is_Rbar_mult_sym _ _ _ (is_Rbar_mult_p_infty_pos (arf2R a) V)) in P. injection P as <-. reflexivity.
        - rewrite (is_Rbar_mult_sym _ _ _ (is_Rbar_mult_m_infty_pos (arf2R a) V)) in P. injection P as <-. reflexivity. }
      destruct positive; unfold x_mul, x_signed_inf; cbn [x_zero x_sgn orb]; rewrite N, E; reflexivity.
    - assert (r = xinf (negb positive)) as ->.
      { destruct positive; unfold xinf, is_Rbar_mult in *; cbn [negb].
        - rewrite (is_Rbar_mult_sym _ _ _ (is_Rbar_mult_p_infty_neg (arf2R a) V)) in P. injection P as <-. reflexivity.
        - rewrite (is_Rbar_mult_sym _ _ _ (is_Rbar_mult_m_infty_neg (arf2R a) V)) in P. injection P as <-. reflexivity. }
      destruct positive; unfold x_mul, x_signed_inf; cbn [x_zero x_sgn orb]; rewrite N, E; reflexivity.
  Qed.
  Lemma exactly a rx u : am rx = 0%Z -> Rabs (u - arf2R a) <= arf2R rx -> u = arf2R a.
  Proof. intros Z H. rewrite (zero_radius rx Z) in H. pose proof (Rabs_pos (u - arf2R a)) as A. destruct (Req_dec (u - arf2R a) 0) as [H0|H0]; [lra|]. apply Rabs_no_R0 in H0. lra. Qed.
  Lemma fin_inf_ball prec a rx n ry positive p q t1 t2 t r : n = x_signed_inf positive ->
    mag_mul (Some (arf_abs a)) ry = Some t1 -> mag_mul None rx = Some t2 ->
    xcontains (mkXArb (Text.Finite a) rx) p -> xcontains (mkXArb n ry) q -> is_Rbar_mult p q r ->
    xcontains (xmk_ball mag_up prec (x_mul None DOWN (Text.Finite a) n) (Some t)) r.
  Proof.
    intros -> E1 E2 Cx Cy P. destruct rx as [rx|]; [|discriminate E2]. cbn [mag_mul] in E2. destruct (Z.eqb_spec (am rx) 0) as [Zr|]; [|discriminate E2].
    destruct Cx as (u & -> & Cx). apply (exactly a rx u Zr) in Cx. subst u. destruct ry as [ry|].
    - assert (q = xinf positive) as -> by (destruct positive; exact Cy). apply fin_inf. exact P.
    - cbn [mag_mul] in E1. destruct (Z.eqb_spec (am (arf_abs a)) 0) as [Za|]; [|discriminate E1]. cbn [arf_abs am] in Za. assert (Za' : am a = 0%Z) by lia.
      apply nan. destruct positive; unfold x_mul, x_signed_inf; cbn [x_zero]; rewrite Za'; reflexivity.
  Qed.
  Lemma inf_inf_ball prec b c rx ry t1 t2 t p q r :
    mag_mul None ry = Some t1 -> mag_mul None rx = Some t2 ->
    xcontains (mkXArb (x_signed_inf b) rx) p -> xcontains (mkXArb (x_signed_inf c) ry) q -> is_Rbar_mult p q r ->
    xcontains (xmk_ball mag_up prec (x_mul None DOWN (x_signed_inf b) (x_signed_inf c)) (Some t)) r.
  Proof.
    intros E1 E2 Cx Cy P. destruct rx as [rx|]; [|discriminate E2]. destruct ry as [ry|]; [|discriminate E1].
    assert (p = xinf b) as -> by (destruct b; exact Cx). assert (q = xinf c) as -> by (destruct c; exact Cy).
    destruct b, c; injection P as <-; reflexivity.
  Qed.
  Lemma am_mul a b : am (arf_mul_exact a b) = (am a * am b)%Z.
  Proof. reflexivity. Qed.
  Lemma am_add_nonneg a b : (0 <= am a)%Z -> (0 <= am b)%Z -> (0 <= am (arf_add_exact a b))%Z.
  Proof.
    intros A B. unfold arf_add_exact. cbn [am]. apply Z.add_nonneg_nonneg; apply Z.mul_nonneg_nonneg; try assumption; apply Z.pow_nonneg; lia.
  Qed.
  Lemma xarb_mul_contains prec x y p q r : prec_ok prec -> xarb_wf x -> xarb_wf y ->
    xcontains x p -> xcontains y q -> is_Rbar_mult p q r -> xcontains (xarb_mul mag_up prec x y) r.
  Proof.
    intros Hp Wx Wy Cx Cy P. destruct x as [m rx], y as [n ry]. unfold xarb_wf in *. cbn [xrad] in *. unfold xarb_mul. cbn [xmid xrad].
    destruct (mag_mul (mag_of m) ry) as [t1|] eqn:E1.
    2:{ apply whole. unfold xmk_ball. destruct (x_mul None DOWN m n); reflexivity. }
    destruct (mag_mul (mag_of n) rx) as [t2|] eqn:E2.
    2:{ apply whole. unfold xmk_ball. destruct (x_mul None DOWN m n); reflexivity. }
    destruct (mag_mul rx ry) as [t3|] eqn:E3.
    2:{ apply whole. unfold xmk_ball. destruct (x_mul None DOWN m n); reflexivity. }
    cbn [mag_add].
    destruct m as [a| | |]; [| | |unfold x_mul; apply nan; reflexivity];
    (destruct n as [b| | |]; [| | |unfold x_mul; apply nan; reflexivity]); cbn [mag_of] in E1, E2.
    - (* both finite *)
      destruct rx as [rx|], ry as [ry|]; [| | |discriminate E3].
      + injection E1 as <-. injection E2 as <-. injection E3 as <-.
        destruct Cx as (u & -> & Cx). destruct Cy as (v & -> & Cy). injection P as <-.
        change (xcontains (to_xarb (arb_mul mag_up prec (mkArb a (Some rx)) (mkArb b (Some ry)))) (Rbar.Finite (u * v))).
        apply to_xarb_contains. apply arb_mul_contains; assumption.
      + (* y is everything: x is exactly zero *)
        cbn [mag_mul] in E1, E3. destruct (Z.eqb_spec (am (arf_abs a)) 0) as [Za|]; [|discriminate E1]. destruct (Z.eqb_spec (am rx) 0) as [Zr|]; [|discriminate E3].
        cbn [arf_abs am] in Za. assert (Za' : am a = 0%Z) by lia. destruct Cx as (u & -> & Cx). rewrite (zero_radius a Za'), (zero_radius rx Zr) in Cx.
        assert (U0 : u = 0). { pose proof (Rabs_pos (u - 0)). destruct (Req_dec (u - 0) 0) as [H0|H0]; [lra|]. apply Rabs_no_R0 in H0. lra. }
        subst u. destruct q as [v| |].
        * injection P as <-. rewrite Rmult_0_l. unfold x_mul, x_round. apply zero_ball; [exact Hp| |].
          -- unfold arf2R. rewrite am_mul, Za', Z.mul_0_l. ring.
          -- injection E1 as <-. injection E2 as <-. injection E3 as <-. apply am_add_nonneg; [cbn; lia|]. apply am_add_nonneg; [rewrite am_mul, Zr, Z.mul_0_r; lia|cbn; lia].
        * exfalso. destruct (mult_sign _ _ _ P 0 eq_refl ltac:(auto)) as [X _]. apply X. reflexivity.
        * exfalso. destruct (mult_sign _ _ _ P 0 eq_refl ltac:(auto)) as [X _]. apply X. reflexivity.
      + cbn [mag_mul] in E2, E3. destruct (Z.eqb_spec (am (arf_abs b)) 0) as [Zb|]; [|discriminate E2]. destruct (Z.eqb_spec (am ry) 0) as [Zr|]; [|discriminate E3].
        cbn [arf_abs am] in Zb. assert (Zb' : am b = 0%Z) by lia. destruct Cy as (u & -> & Cy). rewrite (zero_radius b Zb'), (zero_radius ry Zr) in Cy.
        assert (U0 : u = 0). { pose proof (Rabs_pos (u - 0)). destruct (Req_dec (u - 0) 0) as [H0|H0]; [lra|]. apply Rabs_no_R0 in H0. lra. }
        subst u. apply is_Rbar_mult_sym in P. destruct p as [v| |].
        * injection P as <-. rewrite Rmult_0_l. unfold x_mul, x_round. apply zero_ball; [exact Hp| |].
          -- unfold arf2R. rewrite am_mul, Zb', Z.mul_0_r. ring.
          -- injection E1 as <-. injection E2 as <-. injection E3 as <-. apply am_add_nonneg; [rewrite am_mul, Zr, Z.mul_0_r; lia|]. apply am_add_nonneg; cbn; lia.
        * exfalso. destruct (mult_sign _ _ _ P 0 eq_refl ltac:(auto)) as [X _]. apply X. reflexivity.
        * exfalso. destruct (mult_sign _ _ _ P 0 eq_refl ltac:(auto)) as [X _]. apply X. reflexivity.
    - exact (fin_inf_ball prec a rx PosInf ry true p q t1 t2 _ r eq_refl E1 E2 Cx Cy P).
    - exact (fin_inf_ball prec a rx NegInf ry false p q t1 t2 _ r eq_refl E1 E2 Cx Cy P).
    - change PosInf with (x_signed_inf true). rewrite x_mul_inf_sym. exact (fin_inf_ball prec b ry PosInf rx true q p t2 t1 _ r eq_refl E2 E1 Cy Cx (is_Rbar_mult_sym _ _ _ P)).
    - exact (inf_inf_ball prec true true rx ry t1 t2 _ p q r E1 E2 Cx Cy P).
    - exact (inf_inf_ball prec true false rx ry t1 t2 _ p q r E1 E2 Cx Cy P).
    - change NegInf with (x_signed_inf false). rewrite x_mul_inf_sym. exact (fin_inf_ball prec b ry NegInf rx false q p t2 t1 _ r eq_refl E2 E1 Cy Cx (is_Rbar_mult_sym _ _ _ P)).
    - exact (inf_inf_ball prec false true rx ry t1 t2 _ p q r E1 E2 Cx Cy P).
    - exact (inf_inf_ball prec false false rx ry t1 t2 _ p q r E1 E2 Cx Cy P).
  Qed.
  Lemma wf_mag_up r : (0 <= am r)%Z -> (0 <= am (mag_up r))%Z.
  Proof.
    intros H. pose proof (Hm r (nonneg r H)) as M. pose proof (nonneg r H) as N. destruct (Z.le_gt_cases 0 (am (mag_up r))) as [G|L]; [exact G|exfalso].
    apply (IZR_lt _ 0) in L. pose proof (bpow_gt_0 radix2 (ae (mag_up r))) as B. assert (X : arf2R (mag_up r) < 0); [|lra].
    unfold arf2R. apply Rlt_le_trans with (0 * bpow radix2 (ae (mag_up r))); [apply Rmult_lt_compat_r; assumption|lra].
  Qed.
  Lemma am_round_err prec e : (0 <= am (round_err prec e))%Z.
  Proof. unfold round_err. destruct prec as [k|]; [|cbn; lia]. destruct (arf_eqb _ e); cbn; lia. Qed.
  Lemma xmk_ball_wf prec e r : match r with Some r => (0 <= am r)%Z | None => True end -> xarb_wf (xmk_ball mag_up prec e r).
  Proof.
    intros H. unfold xmk_ball, xarb_wf. destruct e; cbn [xrad]; destruct r as [r|]; cbn [option_map]; try exact Logic.I; apply wf_mag_up; try exact H.
    apply am_add_nonneg; [exact H|apply am_round_err].
  Qed.
  Definition rad_ok (r : option arf) : Prop := match r with Some r => (0 <= am r)%Z | None => True end.
  Lemma mag_mul_ok r s : rad_ok r -> rad_ok s -> rad_ok (mag_mul r s).
  Proof.
    destruct r as [r|], s as [s|]; cbn [mag_mul rad_ok]; try tauto.
    - intros A B. rewrite am_mul. apply Z.mul_nonneg_nonneg; assumption.
    - intros A _. destruct (am r =? 0)%Z; cbn; [lia|exact Logic.I].
    - intros _ A. destruct (am s =? 0)%Z; cbn; [lia|exact Logic.I].
  Qed.
  Lemma mag_add_ok r s : rad_ok r -> rad_ok s -> rad_ok (mag_add r s).
  Proof. destruct r as [r|], s as [s|]; cbn [mag_add rad_ok]; try tauto. apply am_add_nonneg. Qed.
  Lemma mag_of_ok x : rad_ok (mag_of x).
  Proof. destruct x; cbn [mag_of rad_ok]; try exact Logic.I. cbn [arf_abs am]. apply Z.abs_nonneg. Qed.
  Lemma xarb_mul_wf prec x y : xarb_wf x -> xarb_wf y -> xarb_wf (xarb_mul mag_up prec x y).
  Proof.
    intros Wx Wy. apply xmk_ball_wf. change (rad_ok (mag_add (mag_mul (mag_of (xmid x)) (xrad y)) (mag_add (mag_mul (mag_of (xmid y)) (xrad x)) (mag_mul (xrad x) (xrad y))))).
    apply mag_add_ok; [apply mag_mul_ok; [apply mag_of_ok|exact Wy]|]. apply mag_add_ok; [apply mag_mul_ok; [apply mag_of_ok|exact Wx]|apply mag_mul_ok; assumption].
  Qed.
  Lemma xarb_add_wf prec x y : xarb_wf x -> xarb_wf y -> xarb_wf (xarb_add mag_up prec x y).
  Proof. intros Wx Wy. apply xmk_ball_wf. change (rad_ok (mag_add (xrad x) (xrad y))). apply mag_add_ok; assumption. Qed.
End Arith.
