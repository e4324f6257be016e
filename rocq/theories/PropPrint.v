(** Property C77: printing elements. *)
From Coq Require Import ZArith QArith Qcanon Bool List Reals Qreals Lra Lia Permutation Sorting.Sorted.
From Flocq Require Import Core.
From Verif Require Import Arf Arb Real SpecArf SpecReal Gen SpecGen GenProofs Ring SpecRing RingProofs Module Element SpecModule ModuleProofs ElementProofs
  ElementProofs2 Loops SpecLoops Print SpecPrint PrintProofs PropOrder LoopsCases PropLoops.
Import ListNotations.
Open Scope R_scope.

Lemma eventually_pairs (P : nat -> gen -> gen -> Prop) (l : list (gen * gen)) : (forall g h, In (g, h) l -> exists N, forall n, (N <= n)%nat -> P n g h) ->
  exists N, forall n, (N <= n)%nat -> forall g h, In (g, h) l -> P n g h.
Proof.
  induction l as [|[a b] l IH]; intros H; [exists O; intros n _ g h []|].
  destruct IH as [N HN]; [intros g h K; apply H; right; exact K|]. destruct (H a b (or_introl eq_refl)) as [M HM].
  exists (Nat.max N M). intros n Hn g h [E|K]; [injection E as <- <-; apply HM; lia|apply HN; [lia|exact K]].
Qed.

Section Print.
  Variable A : ring.
  Variable S : semantics A.
  Hypothesis L : lawful A S.
  Variable mag_up : arf -> arf.
  Variable garb : gen -> Z -> arb.
  Variable carb : car A -> Z -> arb.
  Variable cltb : car A -> car A -> bool.
  Variable p : par A.
  Hypothesis HC : orders S p cltb.
  Variable rho : Z -> R.
  Lemma lone_wf g : gen_wf g -> elem_wf S (lone A p g).
  Proof.
    intros W. split; [|split; [reflexivity|]].
    - split; [constructor; [exact W|constructor]|]. split; [intros h []|exact Logic.I].
    - constructor; [apply (L_one A S L)|constructor].
  Qed.
  Lemma lone_value g : value S rho (lone A p g) = gen_val rho g.
  Proof. unfold value. cbn. rewrite (proj2 (L_one A S L p)). ring. Qed.
  Lemma lone_nonzero g : nonzero (lone A p g) = true.
  Proof.
    apply (nonzero_true A S L). exists (cone A). split; [left; reflexivity|]. intros E. pose proof (proj2 (L_one A S L p)) as H1. pose proof (proj2 (L_zero A S L p)) as H0. rewrite E in H1. lra.
  Qed.
  Lemma lone_equal g h : gen_wf g -> gen_wf h -> equal (lone A p g) (lone A p h) = Ok true -> g = h.
  Proof.
    intros Wg Wh E0. pose proof (proj1 (equal_spec A S L _ _ _ (lone_wf g Wg) (lone_wf h Wh) E0) eq_refl (fun k => if gen_eqb k g then 1 else 0)) as E.
    unfold evalv in E. cbn in E. rewrite (proj2 (L_one A S L p)) in E. destruct (gen_eqb g g) eqn:E1; [|rewrite (proj2 (gen_eqb_eq g g) eq_refl) in E1; discriminate].
    destruct (gen_eqb h g) eqn:E2; [apply gen_eqb_eq in E2; congruence|lra].
  Qed.
  (** It suffices that comparisons of generators are right. *)
  Lemma print_eventually gs : (forall g h, In g gs -> In h gs -> gen_val rho g = gen_val rho h -> g = h) ->
    (forall g h, In g gs -> In h gs -> exists c, eventually (fun n => lt_elem mag_up garb carb n (lone A p g) (lone A p h)) (Ok c) /\ (c = true <-> gen_val rho g < gen_val rho h)) ->
    forall x, elem_wf S x -> mring (emodule x) = p -> incl (basis (emodule x)) gs ->
    eventually (fun n => print mag_up garb carb cltb n x) (Ok (pprint A cltb true (sorted_of A cltb rho x))).
  Proof.
    intros Inj Cmp x W Hp I.
    destruct (eventually_pairs (fun n g h => exists c, lt_elem mag_up garb carb n (lone A p g) (lone A p h) = Some (Ok c) /\ (c = true <-> gen_val rho g < gen_val rho h)) (list_prod gs gs)) as [N HN].
    { intros g h K. apply in_prod_iff in K. destruct (Cmp g h (proj1 K) (proj2 K)) as (c & [M HM] & C). exists M. intros n Hn. exists c. split; [apply HM, Hn|exact C]. }
    exists N. intros n Hn. apply (print_spec A S mag_up garb carb cltb p rho gs Inj n); try assumption.
    intros g h Hg Hh. apply (HN n Hn). apply in_prod; assumption.
  Qed.
  Lemma text_iff gs : (forall g h, In g gs -> In h gs -> gen_val rho g = gen_val rho h -> g = h) ->
    (forall g h, In g gs -> In h gs -> exists c, eventually (fun n => lt_elem mag_up garb carb n (lone A p g) (lone A p h)) (Ok c) /\ (c = true <-> gen_val rho g < gen_val rho h)) ->
    forall x y, standard S p x -> standard S p y -> incl (basis (emodule x)) gs -> incl (basis (emodule y)) gs ->
    (pprint A cltb true (sorted_of A cltb rho x) = pprint A cltb true (sorted_of A cltb rho y) <-> equal x y = Ok true).
  Proof.
    intros Inj Cmp x y Hx Hy Ix Iy.
    destruct (eventually_pairs (fun n g h => exists c, lt_elem mag_up garb carb n (lone A p g) (lone A p h) = Some (Ok c) /\ (c = true <-> gen_val rho g < gen_val rho h)) (list_prod gs gs)) as [n HN].
    { intros g h K. apply in_prod_iff in K. destruct (Cmp g h (proj1 K) (proj2 K)) as (c & [M HM] & C). exists M. intros n Hn. exists c. split; [apply HM, Hn|exact C]. }
    assert (Cn : forall g h, In g gs -> In h gs -> exists c, lt_elem mag_up garb carb n (lone A p g) (lone A p h) = Some (Ok c) /\ (c = true <-> gen_val rho g < gen_val rho h)).
    { intros g h Hg Hh. apply (HN n (le_n n)). apply in_prod; assumption. }
    split.
    - intros E. apply (std_equal A S L p x y Hx Hy). intros sigma.
      pose proof (print_reads A S L mag_up garb carb cltb p rho gs Inj n Cn x sigma (proj1 Hx) (proj1 (proj2 Hx)) Ix) as R1.
      pose proof (print_reads A S L mag_up garb carb cltb p rho gs Inj n Cn y sigma (proj1 Hy) (proj1 (proj2 Hy)) Iy) as R2. rewrite E in R1. congruence.
    - apply (equal_same_text A S L mag_up garb carb cltb p rho gs Inj n Cn x y (proj1 Hx) (proj1 Hy)); [apply Hx|apply Hy|exact Ix|exact Iy].
  Qed.
End Print.

(** The setting: coefficients are compared correctly, generators are independent, and the balls enclose and get small. *)
Lemma ideal_comparisons A S (L : lawful A S) mag_up (Hm : mag_up_ok mag_up) (Ht : mag_up_tight mag_up) garb carb rho (p : par A) gs : independent S p rho gs ->
  forall l, Forall gen_wf l -> incl l gs -> (forall q, In (GRat q) l -> q = 1%Qc) -> generators_enclosed garb rho l -> (forall g, In g l -> shrinks (garb g)) ->
  coefficients_enclosed S carb p -> (forall c, mem S p c -> shrinks (carb c)) ->
  (forall g h, In g l -> In h l -> gen_val rho g = gen_val rho h -> g = h) /\
  (forall g h, In g l -> In h l -> exists c, eventually (fun n => lt_elem mag_up garb carb n (lone A p g) (lone A p h)) (Ok c) /\ (c = true <-> gen_val rho g < gen_val rho h)).
Proof.
  intros HI l Wl Il Hq Ge Gs Ce Cs.
  assert (W : forall g, In g l -> gen_wf g) by (rewrite Forall_forall in Wl; exact Wl).
  assert (Am : forall g, In g l -> among S p gs (lone A p g)).
  { intros g Hg. split; [|intros h [<-|[]]; apply Il, Hg]. split; [apply lone_wf; [exact L|apply W, Hg]|]. split; [reflexivity|]. intros q [E|[]]. apply Hq. rewrite <- E. exact Hg. }
  assert (En : forall g, In g l -> enclosing_balls S garb carb rho (lone A p g)).
  { intros g Hg. split; [|exact Ce]. intros h prec [<-|[]] Hp. apply Ge; assumption. }
  assert (Sh : forall g, In g l -> shrinking_balls S garb carb (lone A p g)).
  { intros g Hg. split; [|exact Cs]. intros h [<-|[]]. apply Gs, Hg. }
  split; intros g h Hg Hh; destruct (C32_elements A S L mag_up Hm Ht garb carb rho p gs HI _ _ (Am g Hg) (Am h Hh) (En g Hg) (Sh g Hg) (En h Hh) (Sh h Hh)) as (c & e & c' & E1 & E2 & _ & V1 & V2 & _);
    rewrite !(lone_value A S L p rho) in *.
  - intros E. apply (lone_equal A S L p g h (W g Hg) (W h Hh)). rewrite E2. f_equal. apply V2, E.
  - exists c. split; assumption.
Qed.
(** The generators of one or two elements. *)
Lemma ideal_setting A S (L : lawful A S) mag_up (Hm : mag_up_ok mag_up) (Ht : mag_up_tight mag_up) garb carb rho (p : par A) gs : independent S p rho gs ->
  forall x y, among S p gs x -> among S p gs y -> enclosing_balls S garb carb rho x -> shrinking_balls S garb carb x -> enclosing_balls S garb carb rho y -> shrinking_balls S garb carb y ->
  let l := basis (emodule x) ++ basis (emodule y) in
  (forall g h, In g l -> In h l -> gen_val rho g = gen_val rho h -> g = h) /\
  (forall g h, In g l -> In h l -> exists c, eventually (fun n => lt_elem mag_up garb carb n (lone A p g) (lone A p h)) (Ok c) /\ (c = true <-> gen_val rho g < gen_val rho h)).
Proof.
  intros HI x y [(Wx & Px & Qx) Ix] [(Wy & Py & Qy) Iy] [Ex Cx] [Sx Tx] [Ey _] [Sy _]. cbn zeta. rewrite Px in Cx, Tx.
  apply (ideal_comparisons A S L mag_up Hm Ht garb carb rho p gs HI).
  - apply Forall_app. split; [apply (proj1 (proj1 Wx))|apply (proj1 (proj1 Wy))].
  - apply incl_app; assumption.
  - intros q K. apply in_app_or in K. destruct K; [apply Qx|apply Qy]; assumption.
  - intros g prec K. apply in_app_or in K. destruct K; [apply Ex|apply Ey]; assumption.
  - intros g K. apply in_app_or in K. destruct K; [apply Sx|apply Sy]; assumption.
  - exact Cx.
  - exact Tx.
Qed.

(** What is printed denotes the element: read as a sum of products it has the same value. *)
Theorem C77_denotes : forall A S, lawful A S -> forall mag_up, mag_up_ok mag_up -> mag_up_tight mag_up -> forall garb carb rho (p : par A) gs, independent S p rho gs ->
  forall cltb, orders S p cltb -> forall x, among S p gs x -> enclosing_balls S garb carb rho x -> shrinking_balls S garb carb x ->
  exists text, eventually (fun rounds => print mag_up garb carb cltb rounds x) (Ok text) /\ reads S rho text = Some (value S rho x).
Proof.
  intros A S L mag_up Hm Ht garb carb rho p gs HI cltb HC x Ax Ex Sx. destruct (ideal_setting A S L mag_up Hm Ht garb carb rho p gs HI x x Ax Ax Ex Sx Ex Sx) as [Inj Cmp].
  assert (Ix : incl (basis (emodule x)) (basis (emodule x) ++ basis (emodule x))) by apply incl_appl, incl_refl.
  destruct Ax as [(Wx & Px & _) _]. eexists. split; [apply (print_eventually A S mag_up garb carb cltb p rho _ Inj Cmp x Wx Px Ix)|].
  destruct (eventually_pairs (fun n g h => exists c, lt_elem mag_up garb carb n (lone A p g) (lone A p h) = Some (Ok c) /\ (c = true <-> gen_val rho g < gen_val rho h))
    (list_prod (basis (emodule x) ++ basis (emodule x)) (basis (emodule x) ++ basis (emodule x)))) as [n HN].
  { intros g h K. apply in_prod_iff in K. destruct (Cmp g h (proj1 K) (proj2 K)) as (c & [M HM] & C). exists M. intros n Hn. exists c. split; [apply HM, Hn|exact C]. }
  apply (print_reads A S L mag_up garb carb cltb p rho _ Inj n); try assumption. intros g h Hg Hh. apply (HN n (le_n n)). apply in_prod; assumption.
Qed.
(** Two elements, possibly of different modules, print the same if and only if they are ==. *)
Theorem C77_same_text : forall A S, lawful A S -> forall mag_up, mag_up_ok mag_up -> mag_up_tight mag_up -> forall garb carb rho (p : par A) gs, independent S p rho gs ->
  forall cltb, orders S p cltb -> forall x y, among S p gs x -> among S p gs y ->
  enclosing_balls S garb carb rho x -> shrinking_balls S garb carb x -> enclosing_balls S garb carb rho y -> shrinking_balls S garb carb y ->
  exists text text', eventually (fun rounds => print mag_up garb carb cltb rounds x) (Ok text) /\ eventually (fun rounds => print mag_up garb carb cltb rounds y) (Ok text') /\
    (text = text' <-> equal x y = Ok true).
Proof.
  intros A S L mag_up Hm Ht garb carb rho p gs HI cltb HC x y Ax Ay Ex Sx Ey Sy. destruct (ideal_setting A S L mag_up Hm Ht garb carb rho p gs HI x y Ax Ay Ex Sx Ey Sy) as [Inj Cmp].
  assert (Ix : incl (basis (emodule x)) (basis (emodule x) ++ basis (emodule y))) by apply incl_appl, incl_refl.
  assert (Iy : incl (basis (emodule y)) (basis (emodule x) ++ basis (emodule y))) by apply incl_appr, incl_refl.
  destruct Ax as [Hx _], Ay as [Hy _]. do 2 eexists. split; [apply (print_eventually A S mag_up garb carb cltb p rho _ Inj Cmp x); [apply Hx|apply Hx|exact Ix]|].
  split; [apply (print_eventually A S mag_up garb carb cltb p rho _ Inj Cmp y); [apply Hy|apply Hy|exact Iy]|].
  apply (text_iff A S L mag_up garb carb cltb p rho _ Inj Cmp x y Hx Hy Ix Iy).
Qed.
(** The text is 0 exactly for zero, and it starts with a minus sign only if no coefficient is positive. *)
Lemma pprint_zero A S (L : lawful A S) (cltb : car A -> car A -> bool) l : pprint A cltb true l = [TZero] <-> Forall (fun t => pcoef A t = czero A) l.
Proof.
  induction l as [|[[b g] c] l IH]; [split; [constructor|reflexivity]|]. cbn [pprint]. destruct (cz c) eqn:E.
  - apply (cz_spec A S L) in E. rewrite IH. split; intros H; [constructor; [exact E|exact H]|inversion_clear H; assumption].
  - apply (cz_false A S L) in E. split; intros H; [|inversion_clear H; contradiction]. exfalso. destruct (cltb (czero A) c); cbn [app] in H; [|discriminate].
    unfold print_term in H. destruct (ceqb c (cone A)); discriminate.
Qed.
Lemma pprint_negative A S (L : lawful A S) cltb p rho l : orders S p cltb -> Forall (fun t => mem S p (pcoef A t)) l -> Forall (fun t => fst (fst t) = cltb (pcoef A t) (czero A)) l ->
  StronglySorted (plt A rho) l ->
  ((exists rest, pprint A cltb true l = TNeg :: rest) <-> (exists t, In t l /\ pcoef A t <> czero A) /\ Forall (fun t => val S (pcoef A t) <= 0) l).
Proof.
  intros HC. destruct (L_zero A S L p) as [M0 V0]. induction l as [|[[b g] c] l IH]; intros Fm Fb So.
  - split; [intros [rest H]; discriminate|intros [(t & [] & _) _]].
  - inversion_clear Fm as [|? ? Mc Fm']. inversion_clear Fb as [|? ? Bc Fb']. inversion_clear So as [|? ? So' Fo]. cbn [pcoef fst snd] in Mc, Bc. specialize (IH Fm' Fb' So'). cbn [pprint]. destruct (cz c) eqn:E.
    + apply (cz_spec A S L) in E. rewrite IH. subst c. split; intros [(t & It & Nt) F]; (split; [|]).
      * exists t. split; [right; exact It|exact Nt].
      * constructor; [cbn; lra|exact F].
      * destruct It as [<-|It]; [destruct Nt; reflexivity|]. exists t. split; assumption.
      * inversion_clear F. assumption.
    + apply (cz_false A S L) in E. destruct (cltb (czero A) c) eqn:Pc.
      * apply (HC (czero A) c M0 Mc) in Pc. rewrite V0 in Pc. split.
        -- intros [rest H]. exfalso. cbn [app] in H. unfold print_term in H. destruct (ceqb c (cone A)); discriminate.
        -- intros [_ F]. inversion_clear F as [|? ? K _]. cbn [pcoef snd] in K. lra.
      * cbn [app]. split; [|intros _; eexists; reflexivity]. intros _. split; [exists (b, g, c); split; [left; reflexivity|exact E]|].
        assert (Nc : val S c < 0).
        { destruct (Rtotal_order (val S c) 0) as [H|[H|H]]; [exact H| |].
          - destruct E. apply (val_zero_iff A S L p c Mc), H.
          - rewrite <- V0 in H. apply (HC (czero A) c M0 Mc) in H. congruence. }
        constructor; [cbn; lra|]. assert (b = true) as ->. { rewrite Bc. apply (HC c (czero A) Mc M0). lra. }
        rewrite Forall_forall in *. intros t Ht. specialize (Fo t Ht). specialize (Fb' t Ht). specialize (Fm' t Ht).
        assert (Bt : fst (fst t) = true). { destruct Fo as [[H _]|[H _]]; [discriminate|]. cbn in H. congruence. }
        rewrite Bt in Fb'. symmetry in Fb'. apply (HC _ _ Fm' M0) in Fb'. lra.
Qed.
Lemma sorted_coeffs A S (cltb : car A -> car A -> bool) rho x (P : car A -> Prop) : elem_wf S x ->
  Permutation (map (summand A cltb) (combine (basis (emodule x)) (coeffs x))) (sorted_of A cltb rho x) ->
  (Forall (fun t => P (pcoef A t)) (sorted_of A cltb rho x) <-> Forall P (coeffs x)).
Proof.
  intros (_ & Hl & _) Pm. rewrite <- (map_snd_combine A (basis (emodule x)) (coeffs x) Hl). rewrite Forall_map.
  split; intros F; rewrite Forall_forall in *.
  - intros t Ht. apply (F (summand A cltb t)). apply (Permutation_in _ Pm). apply in_map, Ht.
  - intros t Ht. apply (Permutation_in _ (Permutation_sym Pm)) in Ht. apply in_map_iff in Ht. destruct Ht as (u & <- & Hu). apply (F u Hu).
Qed.
Theorem C77_signs : forall A S, lawful A S -> forall mag_up, mag_up_ok mag_up -> mag_up_tight mag_up -> forall garb carb rho (p : par A) gs, independent S p rho gs ->
  forall cltb, orders S p cltb -> forall x, among S p gs x -> enclosing_balls S garb carb rho x -> shrinking_balls S garb carb x ->
  exists text, eventually (fun rounds => print mag_up garb carb cltb rounds x) (Ok text) /\
    (text = [TZero] <-> Forall (fun c => val S c = 0) (coeffs x)) /\
    ((exists rest, text = TNeg :: rest) <-> (exists c, In c (coeffs x) /\ val S c <> 0) /\ Forall (fun c => val S c <= 0) (coeffs x)).
Proof.
  intros A S L mag_up Hm Ht garb carb rho p gs HI cltb HC x Ax Ex Sx. destruct (ideal_setting A S L mag_up Hm Ht garb carb rho p gs HI x x Ax Ax Ex Sx Ex Sx) as [Inj Cmp].
  assert (Ix : incl (basis (emodule x)) (basis (emodule x) ++ basis (emodule x))) by apply incl_appl, incl_refl.
  destruct Ax as [(Wx & Px & _) _]. eexists. split; [apply (print_eventually A S mag_up garb carb cltb p rho _ Inj Cmp x Wx Px Ix)|].
  destruct (eventually_pairs (fun n g h => exists c, lt_elem mag_up garb carb n (lone A p g) (lone A p h) = Some (Ok c) /\ (c = true <-> gen_val rho g < gen_val rho h))
    (list_prod (basis (emodule x) ++ basis (emodule x)) (basis (emodule x) ++ basis (emodule x)))) as [n HN].
  { intros g h K. apply in_prod_iff in K. destruct (Cmp g h (proj1 K) (proj2 K)) as (c & [M HM] & C). exists M. intros n Hn. exists c. split; [apply HM, Hn|exact C]. }
  assert (Cn : forall g h, In g (basis (emodule x) ++ basis (emodule x)) -> In h (basis (emodule x) ++ basis (emodule x)) -> exists c, lt_elem mag_up garb carb n (lone A p g) (lone A p h) = Some (Ok c) /\ (c = true <-> gen_val rho g < gen_val rho h)).
  { intros g h Hg Hh. apply (HN n (le_n n)). apply in_prod; assumption. }
  destruct (print_spec A S mag_up garb carb cltb p rho _ Inj n Cn x Wx Px Ix) as (_ & Pm & So).
  pose proof (sorted_mem A S mag_up garb carb cltb p rho _ Inj n Cn x Wx Px Ix) as Fm.
  assert (Mx : forall c, In c (coeffs x) -> mem S p c). { destruct Wx as (_ & _ & Cx). rewrite Px, Forall_forall in Cx. exact Cx. }
  assert (Zx : forall c, In c (coeffs x) -> (c = czero A <-> val S c = 0)). { intros c Hc. symmetry. apply (val_zero_iff A S L p c (Mx c Hc)). }
  split.
  - rewrite (pprint_zero A S L cltb), (sorted_coeffs A S cltb rho x (fun c => c = czero A) Wx Pm). rewrite !Forall_forall. split; intros H c Hc; apply Zx; auto.
  - rewrite (pprint_negative A S L cltb p rho _ HC Fm); [|rewrite Forall_forall; intros t Hk|exact So].
    + rewrite (sorted_coeffs A S cltb rho x (fun c => val S c <= 0) Wx Pm).
      assert (Ex' : (exists t, In t (sorted_of A cltb rho x) /\ pcoef A t <> czero A) <-> exists c, In c (coeffs x) /\ val S c <> 0).
      { destruct Wx as (_ & Hl & _). split.
        - intros (t & It & Nt). apply (Permutation_in _ (Permutation_sym Pm)) in It. apply in_map_iff in It. destruct It as ([g c] & <- & K). apply in_combine_r in K. exists c. split; [exact K|]. rewrite <- (Zx c K). exact Nt.
        - intros (c & Ic & Nc). rewrite <- (map_snd_combine A (basis (emodule x)) (coeffs x) Hl) in Ic. apply in_map_iff in Ic. destruct Ic as ([g d] & E & K). cbn [snd] in E. subst d. exists (summand A cltb (g, c)).
          split; [apply (Permutation_in _ Pm), in_map, K|]. cbn. apply in_combine_r in K. rewrite (Zx c K). exact Nc. }
      rewrite Ex'. reflexivity.
    + apply (Permutation_in _ (Permutation_sym Pm)) in Hk. apply in_map_iff in Hk. destruct Hk as ([g c] & <- & K). reflexivity.
Qed.
(** With the library's own balls the same holds, if the generators are not extremely close to each other. *)
Lemma code_error_pos : 0 < code_error.
Proof. unfold code_error. pose proof (bpow_gt_0 radix2 (-63)). lra. Qed.
Lemma code_comparisons A S (L : lawful A S) mag_up (Hm : mag_up_ok mag_up) (Ht : mag_up_tight mag_up) rng names garb carb rho x :
  standard S (mring (emodule x)) x -> code_setting S rng names rho garb carb x ->
  (forall g, In g (basis (emodule x)) -> gen_val rho g <> 0) -> (forall g h, In g (basis (emodule x)) -> In h (basis (emodule x)) -> g <> h -> apart rho g h) ->
  (forall g h, In g (basis (emodule x)) -> In h (basis (emodule x)) -> gen_val rho g = gen_val rho h -> g = h) /\
  (forall g h, In g (basis (emodule x)) -> In h (basis (emodule x)) -> exists c, eventually (fun n => lt_elem mag_up garb carb n (lone A (mring (emodule x)) g) (lone A (mring (emodule x)) h)) (Ok c) /\ (c = true <-> gen_val rho g < gen_val rho h)).
Proof.
  intros (Wx & _ & Qx) (V & B & Ce & Cs) Nz Ap. set (p := mring (emodule x)) in *. set (l := basis (emodule x)) in *. pose proof code_error_pos as Cp.
  assert (W : forall g, In g l -> gen_wf g) by (pose proof (proj1 (proj1 Wx)) as F; rewrite Forall_forall in F; exact F).
  assert (D : forall g h, In g l -> In h l -> g <> h -> gen_val rho g <> gen_val rho h).
  { intros g h Hg Hh N E. specialize (Ap g h Hg Hh N). unfold apart in Ap. rewrite E, Rminus_diag_eq, Rabs_R0 in Ap by reflexivity. pose proof (Rabs_pos (gen_val rho h)). nra. }
  assert (In_eq : forall g h, In g l -> In h l -> gen_val rho g = gen_val rho h -> g = h).
  { intros g h Hg Hh E. destruct (gen_eqb g h) eqn:G; [apply gen_eqb_eq, G|]. exfalso. apply (D g h Hg Hh); [|exact E]. intros ->. rewrite (proj2 (gen_eqb_eq h h) eq_refl) in G. discriminate. }
  split; [exact In_eq|]. intros g h Hg Hh.
  assert (Hs : forall g, In g l -> standard S p (lone A p g)).
  { intros k Hk. split; [apply lone_wf; [exact L|apply W, Hk]|]. split; [reflexivity|]. intros q [E|[]]. apply Qx. rewrite <- E. exact Hk. }
  assert (Cd : forall g, In g l -> code_setting S rng names rho garb carb (lone A p g)).
  { intros k Hk. split; [exact V|]. split; [|split; [exact Ce|exact Cs]]. intros k' prec [<-|[]] Hp. apply B; assumption. }
  destruct (gen_eqb g h) eqn:G.
  - apply gen_eqb_eq in G. subst h. exists false. split; [|split; [discriminate|lra]]. exists O. intros n _. unfold lt_elem. rewrite (equal_refl A S L) by (apply (proj1 (Hs g Hg))). reflexivity.
  - assert (N : g <> h) by (intros ->; rewrite (proj2 (gen_eqb_eq h h) eq_refl) in G; discriminate).
    destruct (C66_returns A S L mag_up Hm Ht rng names rho garb carb p _ _ (Hs g Hg) (Hs h Hh) (Cd g Hg) (Cd h Hh)) as (c & N0 & Hc).
    + rewrite !(lone_value A S L p rho). apply D; assumption.
    + intros _. rewrite (lone_value A S L p rho). apply Nz, Hg.
    + intros _. rewrite (lone_value A S L p rho). apply Nz, Hh.
    + exists c. split; [exists N0; exact Hc|].
      pose proof (C66_elements A S L mag_up Hm rng names rho garb carb p _ _ (Hs g Hg) (Hs h Hh) (Cd g Hg) (Cd h Hh)) as E. rewrite !(lone_value A S L p rho) in E.
      apply (E (Ap g h Hg Hh N) N0 c). apply Hc. apply le_n.
Qed.
Theorem C77_denotes_code : forall A S, lawful A S -> forall mag_up, mag_up_ok mag_up -> mag_up_tight mag_up -> forall rng names rho garb carb (p : par A) cltb, orders S p cltb ->
  forall x, standard S p x -> code_setting S rng names rho garb carb x ->
  (forall g, In g (basis (emodule x)) -> gen_val rho g <> 0) -> (forall g h, In g (basis (emodule x)) -> In h (basis (emodule x)) -> g <> h -> apart rho g h) ->
  exists text, eventually (fun rounds => print mag_up garb carb cltb rounds x) (Ok text) /\ reads S rho text = Some (value S rho x).
Proof.
  intros A S L mag_up Hm Ht rng names rho garb carb p cltb HC x Hx Cx Nz Ap. pose proof (proj1 (proj2 Hx)) as Px. subst p.
  destruct (code_comparisons A S L mag_up Hm Ht rng names garb carb rho x Hx Cx Nz Ap) as [Inj Cmp].
  eexists. split; [apply (print_eventually A S mag_up garb carb cltb _ rho _ Inj Cmp x (proj1 Hx) eq_refl (incl_refl _))|].
  destruct (eventually_pairs (fun n g h => exists c, lt_elem mag_up garb carb n (lone A (mring (emodule x)) g) (lone A (mring (emodule x)) h) = Some (Ok c) /\ (c = true <-> gen_val rho g < gen_val rho h))
    (list_prod (basis (emodule x)) (basis (emodule x)))) as [n HN].
  { intros g h K. apply in_prod_iff in K. destruct (Cmp g h (proj1 K) (proj2 K)) as (c & [M HM] & C). exists M. intros n Hn. exists c. split; [apply HM, Hn|exact C]. }
  apply (print_reads A S L mag_up garb carb cltb (mring (emodule x)) rho _ Inj n); [|exact (proj1 Hx)|reflexivity|apply incl_refl]. intros g h Hg Hh. apply (HN n (le_n n)). apply in_prod; assumption.
Qed.

(** A case: 3 + 2 x where x is the square root of two. *)
Example C77_case : exists text, eventually (fun n => print (A := int_ring) up30 (ideal_garb root2) int_arb Z.ltb n zx) (Ok text) /\
  text = [TCoeff 3%Z; TPlus; TCoeff 2%Z; TTimes; TGen (GAtom 1)].
Proof.
  destruct (ideal_setting _ _ int_lawful up30 up30_ok up30_tight (ideal_garb root2) int_arb root2 tt gens2 independent2 zx zx zx_among zx_among (ex_enc zx) (ex_shr zx) (ex_enc zx) (ex_shr zx)) as [Inj Cmp].
  assert (Ix : incl (basis (emodule zx)) (basis (emodule zx) ++ basis (emodule zx))) by apply incl_appl, incl_refl.
  eexists. split; [apply (print_eventually int_ring int_sem up30 (ideal_garb root2) int_arb Z.ltb tt root2 _ Inj Cmp zx (proj1 (proj1 zx_among)) eq_refl Ix)|].
  unfold sorted_of. cbn -[root2 sqrt Rlt_dec]. destruct (Rlt_dec _ _) as [H|H]; [|reflexivity]. exfalso. revert H. unfold root2. replace (Q2R 1) with 1 by (unfold Q2R; cbn; lra). pose proof sqrt2_bounds. lra.
Qed.
Lemma int_orders : orders int_sem tt Z.ltb.
Proof. intros c d _ _. cbn [val int_sem]. rewrite Z.ltb_lt. split; [apply IZR_lt|apply lt_IZR]. Qed.
Lemma rat_orders : orders rat_sem tt (fun a b : Qc => negb (Qle_bool b a)).
Proof.
  intros c d _ _. cbn [val rat_sem]. rewrite negb_true_iff. split; intros H.
  - apply Qlt_Rlt. apply Qnot_le_lt. intros K. apply Qle_bool_iff in K. congruence.
  - apply not_true_is_false. intros K. apply Qle_bool_iff in K. apply Qle_Rle in K. lra.
Qed.
