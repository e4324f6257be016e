(** Leading terms of elements and of their products. *)
From Coq Require Import ZArith QArith Qcanon Bool List Reals Qreals Permutation Lra Lia.
From Verif Require Import Gen SpecGen GenProofs Ring SpecRing RingProofs Module Element SpecModule ModuleProofs ElementProofs Independence ElementProofs2 ElementProofs3.
Import ListNotations.
Open Scope R_scope.

Fixpoint rsum (l : list R) : R := match l with [] => 0 | a :: l' => a + rsum l' end.
Lemma rsum_zero (T : Type) (f : T -> R) l : (forall x, In x l -> f x = 0) -> rsum (map f l) = 0.
Proof. induction l as [|x l IH]; intros H; cbn; [reflexivity|]. rewrite (H x (or_introl eq_refl)), IH; [ring|]. intros y I. apply H. right. exact I. Qed.
Lemma rsum_single (T U : Type) (f : T -> R) (k : T -> U) l x0 : NoDup (map k l) -> In x0 l -> (forall x, In x l -> k x <> k x0 -> f x = 0) -> rsum (map f l) = f x0.
Proof.
  induction l as [|x l IH]; intros N I H; [destruct I|]. cbn in *. inversion N as [|? ? Nx N']; subst. destruct I as [->|I].
  - rewrite rsum_zero; [ring|]. intros y Iy. apply H; [right; exact Iy|]. intros E. apply Nx. rewrite <- E. apply in_map, Iy.
  - rewrite (H x (or_introl eq_refl)); [|intros E; apply Nx; rewrite E; apply in_map, I]. rewrite IH; [ring|exact N'|exact I|]. intros y Iy. apply H. right. exact Iy.
Qed.

(** * Products of lists of terms *)
Definition gmul (g h : gen) : gen := match gen_mul g h with Ok k => k | Err _ => GRat 1 end.
Definition rrow (x : R * gen) (r : list (R * gen)) : list (R * gen) := map (fun y => (fst x * fst y, gmul (snd x) (snd y))) r.
Definition rprod (l r : list (R * gen)) : list (R * gen) := flat_map (fun x => rrow x r) l.
Lemma rcoef_rsum l k : rcoef l k = rsum (map (fun x => if same_mono (snd x) k then fst x * lead (snd x) else 0) l).
Proof. induction l as [|[a g] l IH]; cbn; [reflexivity|]. rewrite IH. reflexivity. Qed.
Lemma rcoef_rprod l r k : rcoef (rprod l r) k = rsum (map (fun x => rcoef (rrow x r) k) l).
Proof. unfold rprod. induction l as [|x l IH]; cbn [flat_map map rsum]; [reflexivity|]. rewrite rcoef_app, IH. reflexivity. Qed.
Lemma rcomb_rprod rho l r : (forall g h, In g (map snd l) -> In h (map snd r) -> gen_wf g /\ gen_wf h /\ exists k, gen_mul g h = Ok k) ->
  rcomb rho (rprod l r) = rcomb rho l * rcomb rho r.
Proof.
  induction l as [|[a g] l IH]; intros H; cbn [rprod flat_map rcomb]; [ring|]. change (flat_map _ l) with (rprod l r). rewrite rcomb_app, IH; [|intros g' h I J; apply H; [right; exact I|exact J]].
  assert (E : rcomb rho (rrow (a, g) r) = a * gen_val rho g * rcomb rho r); [|rewrite E; ring].
  clear IH. induction r as [|[b h] r IH]; unfold rrow in *; cbn in *; [ring|]. rewrite IH; [|intros g' h' I J; apply H; [exact I|right; exact J]].
  destruct (H g h (or_introl eq_refl) (or_introl eq_refl)) as (Wg & Wh & k & K). unfold gmul. rewrite K. destruct (gen_mul_correct g h k Wg Wh K) as [_ V]. rewrite V. ring.
Qed.
Lemma rprod_wf l r : Forall gen_wf (map snd l) -> Forall gen_wf (map snd r) -> Forall gen_wf (map snd (rprod l r)).
Proof.
  intros Wl Wr. apply Forall_forall. intros k Hk. apply in_map_iff in Hk. destruct Hk as ([c k'] & <- & Hk). unfold rprod in Hk. apply in_flat_map in Hk.
  destruct Hk as ([a g] & Ig & Hk). unfold rrow in Hk. apply in_map_iff in Hk. destruct Hk as ([b h] & E & Ih). injection E as _ <-. cbn [snd]. unfold gmul.
  pose proof (proj1 (Forall_forall _ _) Wl g (in_map snd _ _ Ig)) as Wg. pose proof (proj1 (Forall_forall _ _) Wr h (in_map snd _ _ Ih)) as Wh. cbn in Wg, Wh.
  destruct (gen_mul g h) as [k|] eqn:E; [apply (gen_mul_correct g h k Wg Wh E)|exact I].
Qed.

(** Multiplication is strictly monotone. *)
Lemma gen_mul_mono g g' h h' k k' : gen_wf g -> gen_wf g' -> gen_wf h -> gen_wf h' -> gen_mul g h = Ok k -> gen_mul g' h' = Ok k' ->
  (exists m, gen_mul g' h = Ok m) -> (g = g' \/ precedes g g') -> (h = h' \/ precedes h h') -> (g <> g' \/ h <> h') -> precedes k k'.
Proof.
  intros Wg Wg' Wh Wh' E E' (m & Em) Hg Hh N.
  assert (Wk : gen_wf k) by (apply (gen_mul_correct g h k Wg Wh E)). assert (Wk' : gen_wf k') by (apply (gen_mul_correct g' h' k' Wg' Wh' E')).
  assert (Wm : gen_wf m) by (apply (gen_mul_correct g' h m Wg' Wh Em)).
  assert (A : k = m \/ precedes k m).
  { destruct Hg as [<-|Hg]; [left; congruence|right]. apply precedes_deglex; try assumption. apply (deglex_mul g g' h k m); try assumption. apply precedes_deglex; assumption. }
  assert (B : m = k' \/ precedes m k').
  { destruct Hh as [<-|Hh]; [left; congruence|right]. apply precedes_deglex; try assumption. rewrite (gen_mul_comm g' h Wg' Wh) in Em. rewrite (gen_mul_comm g' h' Wg' Wh') in E'.
    apply (deglex_mul h h' g' m k'); try assumption. apply precedes_deglex; assumption. }
  assert (C : precedes k m \/ precedes m k').
  { destruct N as [N|N].
    - destruct Hg as [Hg|Hg]; [contradiction|]. left. apply precedes_deglex; try assumption. apply (deglex_mul g g' h k m); try assumption. apply precedes_deglex; assumption.
    - destruct Hh as [Hh|Hh]; [contradiction|]. right. apply precedes_deglex; try assumption. rewrite (gen_mul_comm g' h Wg' Wh) in Em. rewrite (gen_mul_comm g' h' Wg' Wh') in E'.
      apply (deglex_mul h h' g' m k'); try assumption. apply precedes_deglex; assumption. }
  destruct C as [C|C].
  - destruct B as [<-|B]; [exact C|apply (precedes_trans _ _ _ C B)].
  - destruct A as [->|A]; [exact C|apply (precedes_trans _ _ _ A C)].
Qed.

Section Proofs.
  Variable A : ring.
  Variable S : semantics A.
  Hypothesis L : lawful A S.
  Implicit Types x y z : elem A.
  Implicit Types c d : car A.
  Implicit Types p : par A.

  (** The leading term of an element. *)
  Definition top x (g : gen) (c : car A) : Prop :=
    In (g, c) (combine (basis (emodule x)) (coeffs x)) /\ c <> czero A /\
    forall g' c', In (g', c') (combine (basis (emodule x)) (coeffs x)) -> c' <> czero A -> g' = g \/ precedes g' g.
  Lemma top_exists x : elem_wf S x -> nonzero x = true -> exists g c, top x g c.
  Proof.
    intros ([_ Ax] & Lx & _) N. unfold top. apply (nonzero_true A S L) in N. destruct N as (c0 & I0 & N0). revert Ax Lx c0 I0 N0. generalize (basis (emodule x)) (coeffs x). clear.
    induction l as [|g gs IH]; intros [|c cs] Ha Hl c0 I0 N0; try discriminate; [destruct I0|]. destruct Ha as [Ha1 Ha2].
    assert (D : (exists c1, In c1 cs /\ c1 <> czero A) \/ forall c1, In c1 cs -> c1 = czero A).
    { clear -cs. destruct (Classical_Prop.classic (exists c1, In c1 cs /\ c1 <> czero A)) as [D|D]; [left; exact D|right]. intros c1 I. apply Classical_Prop.NNPP. intros E. apply D. exists c1. auto. }
    destruct D as [(c1 & I1 & N1)|D].
    - destruct (IH cs Ha2 ltac:(cbn in Hl; lia) c1 I1 N1) as (h & d & T1 & T2 & T3). exists h, d. split; [right; exact T1|]. split; [exact T2|].
      intros g' c' [E|I] N; [injection E as <- <-; right; apply Ha1; apply in_combine_l in T1; exact T1|apply (T3 g' c' I N)].
    - destruct I0 as [->|I0]; [|exfalso; apply N0, D, I0]. exists g, c0. split; [left; reflexivity|]. split; [exact N0|].
      intros g' c' [E|I] N; [injection E as <- <-; left; reflexivity|]. exfalso. apply N, D. apply in_combine_r in I. exact I.
  Qed.
  Lemma top_mem x g c : elem_wf S x -> top x g c -> gen_wf g /\ In g (basis (emodule x)) /\ mem S (mring (emodule x)) c /\ val S c <> 0.
  Proof.
    intros ([Wx _] & _ & Mx) (I & N & _). pose proof (in_combine_l _ _ _ _ I) as Il. pose proof (in_combine_r _ _ _ _ I) as Ir.
    assert (Mc : mem S (mring (emodule x)) c) by (apply (proj1 (Forall_forall _ _) Mx c Ir)).
    split; [apply (proj1 (Forall_forall _ _) Wx g Il)|]. split; [exact Il|]. split; [exact Mc|]. intros E. apply N. apply (val_zero_iff A S L _ c Mc), E.
  Qed.
  Lemma rl_in gs : forall cs a g, In (a, g) (rl A S gs cs) <-> exists c, In (g, c) (combine gs cs) /\ a = val S c.
  Proof.
    induction gs as [|h gs IH]; intros [|d cs] a g; simpl; try solve [split; [intros []|intros (c & [] & _)]]. rewrite IH. split.
    - intros [E|(c & I & ->)]; [injection E as <- <-; exists d; auto|exists c; auto].
    - intros (c & [E|I] & ->); [injection E as -> ->; auto|right; exists c; auto].
  Qed.
  Lemma standard_lead p x g : standard S p x -> In g (basis (emodule x)) -> lead g = 1.
  Proof. intros Hx I. destruct g as [q| |]; cbn; try reflexivity. rewrite (proj2 (proj2 Hx) q I). unfold Q2R. cbn. field. Qed.
  Lemma standard_gmul p x y g h : standard S p x -> standard S p y -> In g (basis (emodule x)) -> In h (basis (emodule y)) ->
    gen_wf g /\ gen_wf h /\ exists k, gen_mul g h = Ok k.
  Proof.
    intros Hx Hy Ig Ih. split; [apply (proj1 (Forall_forall _ _) (proj1 (proj1 (proj1 Hx))) g Ig)|]. split; [apply (proj1 (Forall_forall _ _) (proj1 (proj1 (proj1 Hy))) h Ih)|].
    apply (std_gen_mul A S p x y g h Hx Hy Ig Ih).
  Qed.
  Lemma gmul_lead p x y g h : standard S p x -> standard S p y -> In g (basis (emodule x)) -> In h (basis (emodule y)) -> lead (gmul g h) = 1.
  Proof.
    intros Hx Hy Ig Ih. destruct (standard_gmul p x y g h Hx Hy Ig Ih) as (Wg & Wh & k & K). unfold gmul. rewrite K. destruct k as [q| |]; cbn; try reflexivity.
    destruct (gen_mul_rational g h _ Wg Wh K I) as [Rg Rh]. destruct g as [a| |], h as [b| |]; try contradiction.
    apply (proj2 (proj2 Hx)) in Ig. apply (proj2 (proj2 Hy)) in Ih. subst. rewrite gen_mul_one in K. injection K as <-. unfold Q2R. cbn. field.
  Qed.

  (** The coefficients of the product at and above the product of the leading generators. *)
  Lemma product_coefficient p x y g c h d k : standard S p x -> standard S p y -> top x g c -> top y h d -> gen_mul g h = Ok k ->
    forall l, Forall gen_wf (map snd l) -> (forall rho, rcomb rho l = value S rho x * value S rho y) ->
    rcoef l k = val S c * val S d /\ forall k', gen_wf k' -> precedes k k' -> rcoef l k' = 0.
  Proof.
    intros Hx Hy Tx Ty K l Wl V.
    pose proof (top_mem x g c (proj1 Hx) Tx) as (Wg & Ig & _ & _). pose proof (top_mem y h d (proj1 Hy) Ty) as (Wh & Ih & _ & _).
    assert (Wk : gen_wf k) by (apply (gen_mul_correct g h k Wg Wh K)).
    pose proof (rlist_wf A S x (proj1 Hx)) as Wx. pose proof (rlist_wf A S y (proj1 Hy)) as Wy.
    assert (Gx : map snd (rlist A S x) = basis (emodule x)) by (apply rl_gens, Hx). assert (Gy : map snd (rlist A S y) = basis (emodule y)) by (apply rl_gens, Hy).
    assert (U : forall k', gen_wf k' -> rcoef l k' = rcoef (rprod (rlist A S x) (rlist A S y)) k').
    { intros k' Wk'. apply rcoef_unique; [exact Wl|apply rprod_wf; assumption| |exact Wk']. intros rho. rewrite V, rcomb_rprod, !rlist_value; [reflexivity|].
      rewrite Gx, Gy. intros g' h' I J. apply (standard_gmul p x y g' h' Hx Hy I J). }
    (* the terms of the product *)
    assert (T : forall k' a g' b h', (k' = k \/ precedes k k') -> In (a, g') (rlist A S x) -> In (b, h') (rlist A S y) -> (g' <> g \/ h' <> h \/ k' <> k) -> a * b <> 0 -> same_mono (gmul g' h') k' = false).
    { intros k' a g' b h' Hk Ia Ib N Nz. apply rl_in in Ia, Ib. destruct Ia as (c' & Ic & ->), Ib as (d' & Id & ->).
      assert (Nc : c' <> czero A) by (intros ->; apply Nz; rewrite (val_zero A S L); ring). assert (Nd : d' <> czero A) by (intros ->; apply Nz; rewrite (val_zero A S L); ring).
      pose proof (proj2 (proj2 Tx) g' c' Ic Nc) as Hg. pose proof (proj2 (proj2 Ty) h' d' Id Nd) as Hh.
      pose proof (in_combine_l _ _ _ _ Ic) as Ig'. pose proof (in_combine_l _ _ _ _ Id) as Ih'.
      destruct (standard_gmul p x y g' h' Hx Hy Ig' Ih') as (Wg' & Wh' & m & M). destruct (standard_gmul p x y g h' Hx Hy Ig Ih') as (_ & _ & m' & M').
      unfold gmul. rewrite M.
      assert (P : precedes m k').
      { destruct (Classical_Prop.classic (g' = g /\ h' = h)) as [[-> ->]|D].
        - assert (m = k) as -> by congruence. destruct Hk as [->|Hk]; [destruct N as [N|[N|N]]; contradiction|exact Hk].
        - assert (precedes m k).
          { apply (gen_mul_mono g' g h' h m k); try assumption; [eauto|]. destruct (Classical_Prop.classic (g' = g)) as [->|D1]; [right; intros ->; apply D; auto|left; exact D1]. }
          destruct Hk as [->|Hk]; [assumption|apply (precedes_trans m k k'); assumption]. }
      exact (proj1 (precedes_same_mono _ _ P)). }
    split.
    - rewrite U by exact Wk. rewrite rcoef_rprod.
      assert (Ix : In (val S c, g) (rlist A S x)) by (apply rl_in; exists c; split; [apply Tx|reflexivity]).
      assert (Iy : In (val S d, h) (rlist A S y)) by (apply rl_in; exists d; split; [apply Ty|reflexivity]).
      rewrite (rsum_single _ _ _ snd _ (val S c, g)); [|rewrite Gx; apply ascending_NoDup, Hx|exact Ix|].
      + rewrite rcoef_rsum. unfold rrow. rewrite map_map. rewrite (rsum_single _ _ _ snd _ (val S d, h)); [|rewrite Gy; apply ascending_NoDup, Hy|exact Iy|].
        * cbn. pose proof (gmul_lead p x y g h Hx Hy Ig Ih) as E. unfold gmul in *. rewrite K in *. rewrite same_mono_refl, E. ring.
        * intros [b h'] Ib Nh. cbn in *. destruct (Req_dec (val S c * b) 0) as [Z|Z]; [rewrite Z; destruct (same_mono _ _); ring|].
          rewrite (T k (val S c) g b h' (or_introl eq_refl) Ix Ib (or_intror (or_introl Nh)) Z). reflexivity.
      + intros [a g'] Ia Ng. rewrite rcoef_rsum. unfold rrow. rewrite map_map. apply rsum_zero. intros [b h'] Ib. cbn in *.
        destruct (Req_dec (a * b) 0) as [Z|Z]; [rewrite Z; destruct (same_mono _ _); ring|].
        rewrite (T k a g' b h' (or_introl eq_refl) Ia Ib (or_introl Ng) Z). reflexivity.
    - intros k' Wk' P. rewrite U by exact Wk'. rewrite rcoef_rprod. apply rsum_zero. intros [a g'] Ia. rewrite rcoef_rsum. unfold rrow. rewrite map_map. apply rsum_zero. intros [b h'] Ib. cbn in *.
      destruct (Req_dec (a * b) 0) as [Z|Z]; [rewrite Z; destruct (same_mono _ _); ring|].
      rewrite (T k' a g' b h' (or_intror P) Ia Ib); [reflexivity| |exact Z]. right. right. intros ->. apply (precedes_irrefl k P).
  Qed.

  (** Leading terms multiply. *)
  Lemma top_product p x y z g c h d k e : standard S p x -> standard S p y -> standard S p z -> (forall rho, value S rho z = value S rho x * value S rho y) ->
    top x g c -> top y h d -> top z k e -> gen_mul g h = Ok k /\ val S e = val S c * val S d.
  Proof.
    intros Hx Hy Hz V Tx Ty Tz.
    pose proof (top_mem x g c (proj1 Hx) Tx) as (Wg & Ig & Mc & Nc). pose proof (top_mem y h d (proj1 Hy) Ty) as (Wh & Ih & Md & Nd). pose proof (top_mem z k e (proj1 Hz) Tz) as (Wk & Ik & Me & Ne).
    destruct (standard_gmul p x y g h Hx Hy Ig Ih) as (_ & _ & m & M).
    assert (Wm : gen_wf m) by (apply (gen_mul_correct g h m Wg Wh M)).
    destruct (product_coefficient p x y g c h d m Hx Hy Tx Ty M (rlist A S z) (rlist_wf A S z (proj1 Hz))) as [P1 P2]; [intros rho; rewrite rlist_value; apply V|].
    assert (Ce : rcoef (rlist A S z) k = val S e).
    { unfold rlist. rewrite (rcoef_in A S _ _ k e); [|apply Hz|apply Tz]. rewrite (standard_lead p z k Hz Ik). ring. }
    (* m occurs in z *)
    assert (Im : exists e', In (m, e') (combine (basis (emodule z)) (coeffs z)) /\ e' <> czero A).
    { apply Classical_Prop.NNPP. intros F. assert (Z : rcoef (rlist A S z) m = 0); [|rewrite P1 in Z; apply Rmult_integral in Z; destruct Z; contradiction].
      rewrite rcoef_rsum. apply rsum_zero. intros [a g'] Ia. cbn. apply rl_in in Ia. destruct Ia as (c' & Ic & ->).
      destruct (same_mono g' m) eqn:E; [|reflexivity].
      assert (Ig' : In g' (basis (emodule z))) by (apply in_combine_l in Ic; exact Ic).
      assert (g' = m) as ->.
      { unfold same_mono in E. apply orb_true_iff in E. destruct E as [E|E]; [|apply gen_eqb_eq, E]. apply andb_true_iff in E. destruct E as [E1 E2].
        destruct g' as [q'| |], m as [q''| |]; try discriminate. f_equal. rewrite (proj2 (proj2 Hz) q' Ig').
        destruct (gen_mul_rational g h _ Wg Wh M I) as [Rg Rh]. destruct g as [a| |], h as [b| |]; try contradiction.
        apply (proj2 (proj2 Hx)) in Ig. apply (proj2 (proj2 Hy)) in Ih. subst. rewrite gen_mul_one in M. congruence. }
      destruct (Classical_Prop.classic (c' = czero A)) as [->|N]; [rewrite (val_zero A S L); ring|]. exfalso. apply F. exists c'. auto. }
    destruct Im as (e' & Ie & Ne'). destruct (proj2 (proj2 Tz) m e' Ie Ne') as [<-|P].
    - split; [exact M|]. rewrite <- Ce. exact P1.
    - exfalso. apply Ne. rewrite <- Ce. apply P2; assumption.
  Qed.

  (** * Units *)
  Lemma unit_loop_spec gs : forall cs, unit_loop gs cs = true <-> forall g c, In (g, c) (combine gs cs) -> c <> czero A -> rational g /\ cunit c = true.
  Proof.
    induction gs as [|g gs IH]; intros [|c cs]; cbn; try solve [split; [intros _ ? ? []|reflexivity]]. destruct (cz c) eqn:Ec.
    - apply (cz_spec A S L) in Ec. subst c. rewrite IH. split.
      + intros H g' c' [E|I] N; [injection E as <- <-; contradiction|apply H; assumption].
      + intros H g' c' I. apply H. right. exact I.
    - apply (cz_false A S L) in Ec. destruct (is_rational g) eqn:Er; cbn.
      + destruct (cunit c) eqn:Eu; cbn.
        * rewrite IH. split.
          -- intros H g' c' [E|I] N; [injection E as <- <-; split; [destruct g; [exact Logic.I|discriminate|discriminate]|exact Eu]|apply H; assumption].
          -- intros H g' c' I. apply H. right. exact I.
        * split; [discriminate|]. intros H. destruct (H g c (or_introl eq_refl) Ec). congruence.
      + split; [discriminate|]. intros H. destruct (H g c (or_introl eq_refl) Ec) as [R _]. destruct g; [discriminate|contradiction|contradiction].
  Qed.
  Lemma comb_all_zero (v : gen -> R) gs : forall cs, (forall g c, In (g, c) (combine gs cs) -> c = czero A) -> comb A S v gs cs = 0.
  Proof.
    induction gs as [|h gs IH]; intros [|d cs] H; cbn; try reflexivity. rewrite (H h d (or_introl eq_refl)), (val_zero A S L), IH; [ring|]. intros g c I. apply (H g c). right. exact I.
  Qed.
  Lemma comb_single (v : gen -> R) gs : forall cs g c, NoDup gs -> In (g, c) (combine gs cs) -> (forall g' c', In (g', c') (combine gs cs) -> g' <> g -> c' = czero A) -> comb A S v gs cs = val S c * v g.
  Proof.
    induction gs as [|h gs IH]; intros [|d cs] g c N I H; cbn in I; try contradiction. inversion N as [|? ? Nh N']; subst. cbn. destruct I as [E|I].
    - injection E as -> ->. rewrite comb_all_zero; [ring|]. intros g' c' I. apply (H g' c'); [right; exact I|]. intros ->. apply in_combine_l in I. contradiction.
    - rewrite (H h d (or_introl eq_refl)) by (intros ->; apply in_combine_l in I; contradiction). rewrite (val_zero A S L), (IH cs g c N' I); [ring|]. intros g' c' I'. apply H. right. exact I'.
  Qed.
  Lemma is_unit_sound p x : standard S p x -> is_unit x = true -> exists y, standard S p y /\ forall rho, value S rho x * value S rho y = 1.
  Proof.
    intros Hx H. unfold is_unit in H. destruct (nonzero x) eqn:N; [|discriminate]. cbn in H. rewrite unit_loop_spec in H.
    destruct (top_exists x (proj1 Hx) N) as (g & c & T). pose proof (top_mem x g c (proj1 Hx) T) as (Wg & Ig & Mc & Nc).
    destruct (H g c (proj1 T) (proj1 (proj2 T))) as [Rg U]. destruct g as [q| |]; try contradiction. pose proof (proj2 (proj2 Hx) q Ig) as E. subst q.
    apply (L_unit A S L _ c Mc) in U. destruct U as (y & My & Ey). rewrite (proj1 (proj2 Hx)) in My. destruct (of_value_standard A S p y My) as (u & _ & Hu & Vu).
    exists u. split; [exact Hu|]. intros rho. rewrite Vu, value_evalv. unfold evalv. rewrite (comb_single _ _ _ (GRat 1) c); [|apply ascending_NoDup, Hx|apply T|].
    - cbn [gen_val]. replace (Q2R (this (Q2Qc 1))) with 1 by (unfold Q2R; cbn; field). transitivity (val S c * val S y); [ring|exact Ey].
    - intros g' c' I D. apply Classical_Prop.NNPP. intros N'. destruct (H g' c' I N') as [R' _]. destruct g' as [q'| |]; try contradiction.
      apply D. f_equal. apply (proj2 (proj2 Hx)). apply in_combine_l in I. exact I.
  Qed.
  Lemma value_one_nonzero x y : elem_wf S x -> (forall rho, value S rho x * value S rho y = 1) -> nonzero x = true.
  Proof.
    intros Hx V. destruct (nonzero x) eqn:N; [reflexivity|]. specialize (V (fun _ => 0)). rewrite (value_evalv A S _ x), (evalv_nonzero_false A S L _ x N) in V. lra.
  Qed.
  Lemma is_unit_complete p x y : standard S p x -> standard S p y -> (forall rho, value S rho x * value S rho y = 1) -> is_unit x = true.
  Proof.
    intros Hx Hy V. pose proof (value_one_nonzero x y (proj1 Hx) V) as Nx.
    pose proof (value_one_nonzero y x (proj1 Hy) (fun rho => eq_trans (Rmult_comm _ _) (V rho))) as Ny.
    destruct (top_exists x (proj1 Hx) Nx) as (g & c & Tx). destruct (top_exists y (proj1 Hy) Ny) as (h & d & Ty).
    destruct (of_value_standard A S p (cone A) (proj1 (L_one A S L p))) as (u & Eu & Hu & Vu).
    assert (Tu : top u (GRat 1) (cone A)).
    { unfold of_value in Eu. cbn in Eu. injection Eu as <-. cbn. split; [left; reflexivity|]. split.
      - intros E. pose proof (val_one A S L) as V1. rewrite E, (val_zero A S L) in V1. lra.
      - intros g' c' [E|[]] _. injection E as <- _. left. reflexivity. }
    destruct (top_product p x y u g c h d (GRat 1) (cone A) Hx Hy Hu) as [M E]; try assumption.
    { intros rho. rewrite Vu, (val_one A S L). symmetry. apply V. }
    pose proof (top_mem x g c (proj1 Hx) Tx) as (Wg & Ig & Mc & Nc). pose proof (top_mem y h d (proj1 Hy) Ty) as (Wh & Ih & Md & Nd).
    destruct (gen_mul_rational g h _ Wg Wh M I) as [Rg Rh]. unfold is_unit. rewrite Nx. cbn. apply unit_loop_spec. intros g' c' I' N'.
    assert (g' = g) as ->. { destruct (proj2 (proj2 Tx) g' c' I' N') as [->|P]; [reflexivity|]. exfalso. destruct P as [[_ P]|[_ [P _]]]; contradiction. }
    split; [exact Rg|]. assert (c' = c) as ->.
    { assert (K : val S c' = val S c).
      { rewrite <- (comb_indicator_in A S _ _ g c' (ascending_NoDup _ (proj2 (proj1 (proj1 Hx)))) I'). apply (comb_indicator_in A S _ _ g c (ascending_NoDup _ (proj2 (proj1 (proj1 Hx)))) (proj1 Tx)). }
      apply (L_inj A S L (mring (emodule x))); [|exact Mc|exact K]. apply in_combine_r in I'. apply (proj1 (Forall_forall _ _) (proj2 (proj2 (proj1 Hx))) c' I'). }
    rewrite (val_one A S L) in E. apply (L_unit A S L (mring (emodule x)) c Mc). exists d. split; [|lra].
    rewrite (proj1 (proj2 Hx)), <- (proj1 (proj2 Hy)). exact Md.
  Qed.
End Proofs.
