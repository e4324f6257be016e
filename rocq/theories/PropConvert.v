(** Property C112: converting an element to a larger ring of coefficients (src/element.cc:128-144)
    changes nothing that can be observed exactly, and commutes with all exact operations. *)
From Coq Require Import ZArith QArith Qcanon Bool List Reals Qreals Permutation Lra Lia.
From Verif Require Import Gen SpecGen GenProofs Ring SpecRing RingProofs NumberField NumberFieldProofs Module Element SpecModule ModuleProofs ElementProofs Independence
  ElementProofs2 ElementProofs3 ElementProofs4 Division DivisionProofs SpecLoops PropModule PropElement PropDivision PropField PropLaws
  Arf Arb SpecArf Loops Compare SpecCompare LoopsProofs LoopsProofs5 Balls PropOrder PropFloor PropCompare LoopsCases PropLoops PropOrdered.
From Flocq Require Import Core.
Import ListNotations.
Open Scope R_scope.

(** [f] turns coefficients in A into coefficients in B (in the ring Ring()) with the same value. *)
Definition embedding {A B : ring} (SA : semantics A) (SB : semantics B) (f : car A -> car B) : Prop :=
  forall p c, mem SA p c -> mem SB (trivial_par B) (f c) /\ val SB (f c) = val SA c.

Section Convert.
  Variables A B : ring.
  Variable SA : semantics A.
  Variable SB : semantics B.
  Hypothesis LA : lawful A SA.
  Hypothesis LB : lawful B SB.
  Variable f : car A -> car B.
  Hypothesis F : embedding SA SB f.

  Lemma embed_no_zero (x : elem A) (x' : elem B) : basis (emodule x') = basis (emodule x) -> no_zero_gen (basis (emodule x)) -> no_zero_gen (basis (emodule x')).
  Proof. intros -> H. exact H. Qed.
  Lemma some_iff {T} (a b : option T) : (forall t, a = Some t <-> b = Some t) -> a = b.
  Proof.
    intros H. destruct a as [a|]. { symmetry. apply H. reflexivity. } destruct b as [b|]; [|reflexivity]. apply H. reflexivity.
  Qed.
  Lemma true_iff (a b : bool) : (a = true <-> b = true) -> a = b.
  Proof. destruct a, b; intuition congruence. Qed.
  Lemma embed_exact (x : elem A) : elem_wf SA x -> no_zero_gen (basis (emodule x)) -> exists x', change_ring f x = Ok x' /\
    to_rational x' = to_rational x /\ to_integer x' = to_integer x /\ (forall q, eq_rational x' q = eq_rational x q) /\
    (forall n, eq_integer x' n = eq_integer x n) /\ nonzero x' = nonzero x.
  Proof.
    intros Hx Nx. destruct (embed_spec A B SA SB f F x Hx) as (x' & E & Wx' & Bx' & _ & _ & V). exists x'. split; [exact E|].
    pose proof (embed_no_zero x x' Bx' Nx) as Nx'.
    assert (K : forall v : R, (forall rho, value SB rho x' = v) <-> (forall rho, value SA rho x = v)) by (intros v; split; intros H rho; rewrite <- (H rho), V; reflexivity).
    split. { apply some_iff. intros q. rewrite (C27_rational B SB LB x' q Wx' Nx'), (C27_rational A SA LA x q Hx Nx). apply K. }
    split. { apply some_iff. intros n. rewrite (C27_integer B SB LB x' n Wx' Nx'), (C27_integer A SA LA x n Hx Nx). apply K. }
    split. { intros q. apply true_iff. rewrite (C27_equal_rational B SB LB x' q Wx' Nx'), (C27_equal_rational A SA LA x q Hx Nx). apply K. }
    split. { intros n. apply true_iff. rewrite (C27_equal_integer B SB LB x' n Wx' Nx'), (C27_equal_integer A SA LA x n Hx Nx). apply K. }
    apply true_iff. rewrite (C26_bool B SB LB x' Wx' Nx'), (C26_bool A SA LA x Hx Nx). split; intros [rho H]; exists rho; rewrite ?V in *; assumption.
  Qed.

  Lemma embed_simplify (x y : elem A) : elem_wf SA x -> no_zero_gen (basis (emodule x)) -> simplify x = Ok y -> bind (change_ring f x) simplify = change_ring f y.
  Proof.
    intros Hx Nx Ey. destruct (simplify_spec A SA LA x Hx) as (y0 & E0 & Wy & Ry & Vy & Gy & Ny). rewrite Ey in E0. injection E0 as <-.
    destruct (embed_spec A B SA SB f F x Hx) as (x' & Ex & Wx' & Bx' & Rx' & Cx' & Vx'). rewrite Ex. cbn [bind].
    destruct (embed_spec A B SA SB f F y Wy) as (w & Ew & Ww & Bw & Rw & Cw & Vw). rewrite Ew.
    destruct (simplify_spec B SB LB x' Wx') as (z & Ez & Wz & Rz & Vz & Gz & Nz). rewrite Ez. f_equal.
    assert (Z0 : forall c, mem SA (mring (emodule x)) c -> (f c = czero B <-> c = czero A)).
    { intros c Hc. destruct (F _ c Hc) as [M V]. split; intros H.
      - apply (L_inj A SA LA (mring (emodule x)) c (czero A) Hc (proj1 (L_zero A SA LA _))). rewrite <- V, H, (proj2 (L_zero B SB LB (trivial_par B))), (proj2 (L_zero A SA LA (mring (emodule x)))). reflexivity.
      - apply (L_inj B SB LB (trivial_par B) (f c) (czero B) M (proj1 (L_zero B SB LB _))). rewrite V, H, (proj2 (L_zero B SB LB (trivial_par B))), (proj2 (L_zero A SA LA (mring (emodule x)))). reflexivity. }
    assert (Bz : basis (emodule z) = basis (emodule w)).
    { apply sorted_unique; [exact (proj2 (proj1 Wz))|exact (proj2 (proj1 Ww))|].
      apply NoDup_Permutation; [apply ascending_NoDup, (proj1 Wz)|apply ascending_NoDup, (proj1 Ww)|].
      intros g. rewrite Bw, Gz, Gy, Bx', Cx'. split.
        - intros (c & I & N). assert (I' : exists d, In (g, d) (combine (basis (emodule x)) (coeffs x)) /\ c = f d).
          { clear - I. revert I. generalize (coeffs x). induction (basis (emodule x)) as [|h gs IH]; intros [|d ds] I; cbn in I; try contradiction.
            destruct I as [I|I]; [injection I as -> <-; exists d; split; [left; reflexivity|reflexivity]|]. destruct (IH ds I) as (e & J & K). exists e. split; [right; exact J|exact K]. }
          destruct I' as (d & J & ->). exists d. split; [exact J|]. intros H. apply N, Z0; [|exact H]. apply (proj1 (Forall_forall _ _) (proj2 (proj2 Hx)) d). apply in_combine_r in J. exact J.
        - intros (d & J & N). exists (f d). split.
          * clear - J. revert J. generalize (coeffs x). induction (basis (emodule x)) as [|h gs IH]; intros [|e ds] J; cbn in J |- *; try contradiction.
            destruct J as [J|J]; [injection J as -> ->; left; reflexivity|right; apply IH, J].
          * intros H. apply N. apply Z0; [|exact H]. apply (proj1 (Forall_forall _ _) (proj2 (proj2 Hx)) d). apply in_combine_r in J. exact J. }
    assert (Mzw : emodule z = emodule w).
    { assert (Rzw : mring (emodule z) = mring (emodule w)) by congruence. clear - Bz Rzw. destruct z as [[bz rz] cz], w as [[bw rw] cw]. cbn in *. congruence. }
    apply (value_inj B SB LB); [exact Wz|exact Ww|exact Mzw| |intros rho; rewrite Vz, Vx', Vw, Vy; reflexivity].
    rewrite Bz, Bw. intros I. apply Nx. apply Gy in I. destruct I as (c & I & _). apply in_combine_l in I. exact I.
  Qed.

  (** ** Scalars *)
  Definition convert_scalar (s : scalar (car A)) : scalar (car B) := match s with SZ n => SZ n | SQ q => SQ q | SE c => SE (f c) end.
  Lemma convert_smem p s : smem SA p s -> smem SB (trivial_par B) (convert_scalar s) /\ sval SB (convert_scalar s) = sval SA s.
  Proof. destruct s as [n|q|c]; cbn; intros H; [split; [exact Logic.I|reflexivity]|split; [exact Logic.I|reflexivity]|exact (F p c H)]. Qed.
  Lemma embed_scalar op (value_of : R -> R -> R) (x y : elem A) s :
    elem_wf SA x -> no_zero_gen (basis (emodule x)) -> smem SA (mring (emodule x)) s ->
    elem_wf SA y -> emodule y = emodule x -> (forall rho, value SA rho y = value_of (value SA rho x) (sval SA s)) ->
    (forall x' z, elem_wf SB x' -> smem SB (mring (emodule x')) (convert_scalar s) -> no_zero_gen (basis (emodule x')) -> elem_wf SB z -> emodule z = emodule x' ->
       (forall rho, value SB rho z = value_of (value SB rho x') (sval SB (convert_scalar s))) -> op x' (convert_scalar s) = Ok z) ->
    bind (change_ring f x) (fun x' => op x' (convert_scalar s)) = change_ring f y.
  Proof.
    intros Hx Nx Hs Hy M V C. destruct (embed_spec A B SA SB f F x Hx) as (x' & Ex & Wx' & Bx' & Rx' & _ & Vx'). rewrite Ex. cbn [bind].
    destruct (embed_spec A B SA SB f F y Hy) as (w & Ew & Ww & Bw & Rw & _ & Vw). rewrite Ew. destruct (convert_smem _ s Hs) as [Hs' Vs].
    apply C; [exact Wx'|rewrite Rx'; exact Hs'|exact (embed_no_zero x x' Bx' Nx)|exact Ww| |intros rho; rewrite Vw, V, Vx', Vs; reflexivity].
    assert (Bb : basis (emodule w) = basis (emodule x')) by (rewrite Bw, Bx', M; reflexivity). assert (Rr : mring (emodule w) = mring (emodule x')) by congruence.
    clear - Bb Rr. destruct w as [[bz rz] cz], x' as [[bw rw] cw]. cbn in *. congruence.
  Qed.

  (** ** Quotients and units *)
  Lemma embed_quotient p (x y z : elem A) fuel : standard SA p x -> standard SA p y -> truediv fuel x y = Some (Ok (Some z)) ->
    exists x' y' w, change_ring f x = Ok x' /\ change_ring f y = Ok y' /\ same (change_ring f z) (Ok w) /\
      exists n, forall fuel', (n <= fuel')%nat -> truediv fuel' x' y' = Some (Ok (Some w)).
  Proof.
    intros Hx Hy E. destruct (C28_sound A SA LA p x y z fuel Hx Hy E) as (Hz & Vz & _).
    assert (Ny : nonzero y = true). { destruct (nonzero y) eqn:N; [reflexivity|]. rewrite (C28_zero A SA LA p x y fuel Hx Hy N) in E. discriminate. }
    destruct (embed_standard A B SA SB f F p x Hx) as (x' & Ex & Hx' & Vx'). destruct (embed_standard A B SA SB f F p y Hy) as (y' & Ey & Hy' & Vy').
    destruct (embed_standard A B SA SB f F p z Hz) as (z' & Ez & Hz' & Vz').
    assert (Ny' : nonzero y' = true).
    { destruct (embed_exact y (proj1 Hy) (standard_no_zero A SA p y Hy)) as (y0 & E0 & _ & _ & _ & _ & N). assert (y0 = y') as -> by congruence. congruence. }
    destruct (C28_terminates B SB LB (trivial_par B) x' y' Hx' Hy' Ny') as (n & res & T).
    assert (P : same (mul z' y') (Ok x')).
    { destruct (std_mul B SB LB (trivial_par B) z' y' Hz' Hy') as (t & Et & Ht & Vt). apply (std_same B SB LB (trivial_par B) t x' Ht Hx'); [|exact Et|reflexivity].
      intros rho. rewrite Vt, Vz', Vy', Vz, Vx'. reflexivity. }
    destruct (C28_complete B SB LB (trivial_par B) x' y' z' n (Ok res) Hx' Hy' Hz' Ny' P (T n (le_n n))) as (w & R & W). injection R as ->.
    exists x', y', w. split; [exact Ex|]. split; [exact Ey|]. split; [|exists n; exact T].
    destruct W as (w0 & z0 & Ew0 & Ez0 & Q). injection Ew0 as <-. injection Ez0 as <-. exists z', w. split; [exact Ez|]. split; [reflexivity|].
    assert (Hw : standard SB (trivial_par B) w) by (apply (C28_sound B SB LB (trivial_par B) x' y' w n Hx' Hy'), T, le_n).
    apply (std_equal B SB LB (trivial_par B)); [exact Hz'|exact Hw|]. intros rho. symmetry.
    apply (equal_value B SB LB w z' true (proj1 Hw) (proj1 Hz') (standard_no_zero B SB _ w Hw) (standard_no_zero B SB _ z' Hz') Q). reflexivity.
  Qed.
  Lemma embed_unit p (x : elem A) : standard SA p x -> is_unit x = true -> exists x', change_ring f x = Ok x' /\ is_unit x' = true.
  Proof.
    intros Hx U. destruct (C30_sound A SA LA p x Hx U) as (y & Hy & V).
    destruct (embed_standard A B SA SB f F p x Hx) as (x' & Ex & Hx' & Vx'). destruct (embed_standard A B SA SB f F p y Hy) as (y' & Ey & Hy' & Vy').
    exists x'. split; [exact Ex|]. apply (C30_complete B SB LB (trivial_par B) x' y' Hx' Hy'). intros rho. rewrite Vx', Vy'. apply V.
  Qed.
  (** ** Coordinates, when both rings are of degree 1 *)
  Lemma embed_coordinates (x : elem A) : elem_wf SA x -> degree_of (mring (emodule x)) = 1%nat -> degree_of (trivial_par B) = 1%nat ->
    exists x', change_ring f x = Ok x' /\ rational_coefficients x' = rational_coefficients x.
  Proof.
    intros Hx D D'. destruct (embed_spec A B SA SB f F x Hx) as (x' & Ex & Wx' & _ & Rx' & Cx' & _). exists x'. split; [exact Ex|].
    rewrite (rational_coefficients_padded A x), (rational_coefficients_padded B x'). rewrite Rx', Cx'.
    pose proof (proj2 (proj2 Hx)) as M. revert M. generalize (coeffs x). induction l as [|c cs IH]; intros M; [reflexivity|]. inversion M; subst.
    cbn [map flat_map]. rewrite IH by assumption. f_equal. destruct (F _ c H1) as [Mc Vc].
    pose proof (padded_length A SA LA _ c H1) as La. pose proof (padded_length B SB LB _ _ Mc) as Lb. rewrite D in La. rewrite D' in Lb.
    pose proof (padded_value A SA LA _ c H1) as Va. pose proof (padded_value B SB LB _ _ Mc) as Vb.
    destruct (padded A _ c) as [|q [|? ?]]; try discriminate La. destruct (padded B _ (f c)) as [|r [|? ?]]; try discriminate Lb.
    cbn [polynomial] in Va, Vb. f_equal. apply Q2R_Qc_inj. rewrite Vc in Vb. lra.
  Qed.
End Convert.

(** The four conversions that exist are embeddings. *)
Theorem C112_conversions : embedding int_sem rat_sem int_to_rat /\ embedding int_sem nf_sem int_to_nf /\ embedding rat_sem nf_sem rat_to_nf /\
  embedding int_sem quad_sem int_to_quad /\ embedding rat_sem quad_sem rat_to_quad.
Proof.
  destruct C37_embeddings as (E1 & E2 & E3). destruct C37_embeddings_number_fields as [E4 E5]. exact (conj E1 (conj E4 (conj E5 (conj E2 E3)))).
Qed.
(** ** What is observed of the converted element *)
Theorem C112_observations : forall A B SA SB, lawful A SA -> lawful B SB -> forall f : car A -> car B, embedding SA SB f ->
  forall x : elem A, elem_wf SA x -> no_zero_gen (basis (emodule x)) -> exists x', change_ring f x = Ok x' /\
  to_rational x' = to_rational x /\ to_integer x' = to_integer x /\ (forall q, eq_rational x' q = eq_rational x q) /\
  (forall n, eq_integer x' n = eq_integer x n) /\ nonzero x' = nonzero x.
Proof. exact embed_exact. Qed.
Theorem C112_rational_coefficients : forall A B SA SB, lawful A SA -> lawful B SB -> forall f : car A -> car B, embedding SA SB f ->
  forall x : elem A, elem_wf SA x -> degree_of (mring (emodule x)) = 1%nat -> degree_of (trivial_par B) = 1%nat ->
  exists x', change_ring f x = Ok x' /\ rational_coefficients x' = rational_coefficients x.
Proof. exact embed_coordinates. Qed.
(** The ring Ring() of a converted element has degree 1. *)
Theorem C112_degrees : degree_of (trivial_par int_ring) = 1%nat /\ degree_of (trivial_par rat_ring) = 1%nat /\ degree_of (trivial_par nf_ring) = 1%nat /\
  (forall p : par int_ring, degree_of p = 1%nat) /\ (forall p : par rat_ring, degree_of p = 1%nat).
Proof. repeat split; reflexivity. Qed.
(** ** It commutes with simplify, scalars, quotients and units *)
Theorem C112_simplify : forall A B SA SB, lawful A SA -> lawful B SB -> forall f : car A -> car B, embedding SA SB f ->
  forall x y : elem A, elem_wf SA x -> no_zero_gen (basis (emodule x)) -> simplify x = Ok y -> bind (change_ring f x) simplify = change_ring f y.
Proof. exact embed_simplify. Qed.
Theorem C112_multiply : forall A B SA SB, lawful A SA -> lawful B SB -> forall f : car A -> car B, embedding SA SB f ->
  forall (x y : elem A) s, elem_wf SA x -> no_zero_gen (basis (emodule x)) -> smem SA (mring (emodule x)) s -> smul x s = Ok y ->
  bind (change_ring f x) (fun x' => smul x' (convert_scalar A B f s)) = change_ring f y.
Proof.
  intros A B SA SB LA LB f F x y s Hx Nx Hs E. destruct (C34_multiply A SA LA x s y Hx Hs E) as (Hy & M & V).
  apply (embed_scalar A B SA SB f F smul Rmult x y s Hx Nx Hs Hy M V). intros x' z Hx' Hs' Nx' Hz Mz Vz. exact (C34_multiply_complete B SB LB x' _ z Hx' Hs' Nx' Hz Mz Vz).
Qed.
Theorem C112_divide : forall A B SA SB, lawful A SA -> lawful B SB -> forall f : car A -> car B, embedding SA SB f ->
  forall (x y : elem A) s, elem_wf SA x -> no_zero_gen (basis (emodule x)) -> smem SA (mring (emodule x)) s -> sval SA s <> 0 -> sdiv x s = Ok y ->
  bind (change_ring f x) (fun x' => sdiv x' (convert_scalar A B f s)) = change_ring f y.
Proof.
  intros A B SA SB LA LB f F x y s Hx Nx Hs Ns E. destruct (C34_divide A SA LA x s y Hx Hs Ns E) as (Hy & M & V).
  apply (embed_scalar A B SA SB f F sdiv Rdiv x y s Hx Nx Hs Hy M V). intros x' z Hx' Hs' Nx' Hz Mz Vz.
  apply (C34_divide_complete B SB LB x' _ z Hx' Hs' Nx'); [|exact Hz|exact Mz|exact Vz]. rewrite (proj2 (convert_smem A B SA SB f F _ s Hs)). exact Ns.
Qed.
(** A quotient that is found before is found after the conversion (but not the other way
    round: 1 / 2 exists only over the rationals, C112_example). *)
Theorem C112_quotient : forall A B SA SB, lawful A SA -> lawful B SB -> forall f : car A -> car B, embedding SA SB f ->
  forall p (x y z : elem A) fuel, standard SA p x -> standard SA p y -> truediv fuel x y = Some (Ok (Some z)) ->
  exists x' y' w, change_ring f x = Ok x' /\ change_ring f y = Ok y' /\ same (change_ring f z) (Ok w) /\
    exists n, forall fuel', (n <= fuel')%nat -> truediv fuel' x' y' = Some (Ok (Some w)).
Proof. exact embed_quotient. Qed.
Theorem C112_unit : forall A B SA SB, lawful A SA -> lawful B SB -> forall f : car A -> car B, embedding SA SB f ->
  forall p (x : elem A), standard SA p x -> is_unit x = true -> exists x', change_ring f x = Ok x' /\ is_unit x' = true.
Proof. exact embed_unit. Qed.
(** ** Two conversions in a row are one *)
Theorem C112_twice : forall A B C SA SB SC (f : car A -> car B) (g : car B -> car C), embedding SA SB f -> embedding SB SC g ->
  forall x : elem A, elem_wf SA x -> bind (change_ring f x) (change_ring g) = change_ring (fun c => g (f c)) x.
Proof.
  intros A B C SA SB SC f g F G x Hx. destruct (embed_spec A B SA SB f F x Hx) as (y & E & Wy & By & _ & Cy & _). rewrite E. cbn [bind].
  unfold change_ring. rewrite By, Cy, map_map. reflexivity.
Qed.
Theorem C112_through_rationals : forall x : elem int_ring, elem_wf int_sem x ->
  bind (change_ring int_to_rat x) (change_ring rat_to_nf) = change_ring int_to_nf x.
Proof. intros x Hx. exact (C112_twice _ _ _ int_sem rat_sem nf_sem int_to_rat rat_to_nf (proj1 C112_conversions) (proj1 (proj2 (proj2 C112_conversions))) x Hx). Qed.

(** What floor and ceil eventually return. *)
Lemma parts_value A S (L : lawful A S) mag_up garb carb rho (p : par A) gs : good_balls S mag_up garb carb rho p gs -> In (GRat 1) gs -> forall u, among S p gs u ->
  forall m, (eventually (fun n => elem_floor mag_up garb carb n u) m <-> the_floor m (value S rho u)) /\ (eventually (fun n => elem_ceil mag_up garb carb n u) m <-> the_ceil m (value S rho u)).
Proof.
  intros G I1 u Hu m. destruct (balls_of A S mag_up garb carb rho p gs G u Hu) as [Eu Cu]. destruct G as (Hm & Ht & HI & _).
  destruct (C31_returns A S L mag_up Hm Ht garb carb rho p gs HI I1 u Hu Eu Cu) as (n & k & Hn & Hk).
  assert (Tn : the_floor n (value S rho u)) by (destruct Hn as [N Hn]; exact (C31_floor A S L mag_up Hm garb carb rho u (proj1 (proj1 Hu)) Eu N n (Hn N (le_n N)))).
  assert (Tk : the_ceil k (value S rho u)) by (destruct Hk as [N Hk]; exact (C31_ceil A S L mag_up Hm garb carb rho u (proj1 (proj1 Hu)) Eu N k (Hk N (le_n N)))).
  split; split; intros H.
  - rewrite <- (eventually_unique _ _ _ Hn H). exact Tn.
  - replace m with n; [exact Hn|]. unfold the_floor in *. assert (H1 : IZR m < IZR (n + 1)) by (rewrite plus_IZR; lra). assert (H2 : IZR n < IZR (m + 1)) by (rewrite plus_IZR; lra). apply lt_IZR in H1, H2. lia.
  - rewrite <- (eventually_unique _ _ _ Hk H). exact Tk.
  - replace m with k; [exact Hk|]. unfold the_ceil in *. assert (H1 : IZR (m - 1) < IZR k) by (rewrite minus_IZR; lra). assert (H2 : IZR (k - 1) < IZR m) by (rewrite minus_IZR; lra). apply lt_IZR in H1, H2. lia.
Qed.
(** ** Order and integer parts: with the same balls around the generators, comparisons, floor and ceil of converted elements give the same. *)
Theorem C112_order : forall A B SA SB, lawful A SA -> lawful B SB -> forall f : car A -> car B, embedding SA SB f ->
  forall mag_up garb carb carb' rho (p : par A) gs, good_balls SA mag_up garb carb rho p gs -> good_balls SB mag_up garb carb' rho (trivial_par B) gs ->
  forall x y, among SA p gs x -> among SA p gs y -> exists x' y', change_ring f x = Ok x' /\ change_ring f y = Ok y' /\
  (forall c, eventually (fun n => lt_elem mag_up garb carb' n x' y') (Ok c) <-> eventually (fun n => lt_elem mag_up garb carb n x y) (Ok c)) /\
  (In (GRat 1) gs -> forall m, (eventually (fun n => elem_floor mag_up garb carb' n x') m <-> eventually (fun n => elem_floor mag_up garb carb n x) m) /\
                               (eventually (fun n => elem_ceil mag_up garb carb' n x') m <-> eventually (fun n => elem_ceil mag_up garb carb n x) m)).
Proof.
  intros A B SA SB LA LB f F mag_up garb carb carb' rho p gs G G' x y [Hx Ix] [Hy Iy].
  assert (E : forall u : elem A, standard SA p u -> (forall g, In g (basis (emodule u)) -> In g gs) -> exists u', change_ring f u = Ok u' /\ among SB (trivial_par B) gs u' /\ value SB rho u' = value SA rho u).
  { intros u Hu Iu. destruct (embed_standard A B SA SB f F p u Hu) as (u' & Eu & Hu' & Vu). exists u'. split; [exact Eu|]. split; [|apply Vu]. split; [exact Hu'|].
    destruct (embed_spec A B SA SB f F u (proj1 Hu)) as (u0 & E0 & _ & Bu & _). assert (u0 = u') as -> by congruence. rewrite Bu. exact Iu. }
  destruct (E x Hx Ix) as (x' & Ex & Ax & Vx). destruct (E y Hy Iy) as (y' & Ey & Ay & Vy). exists x', y'. split; [exact Ex|]. split; [exact Ey|].
  split.
  - intros c. rewrite (answer_iff _ _ c (lt_answers A SA LA mag_up garb carb rho p gs G x y (conj Hx Ix) (conj Hy Iy))).
    rewrite (answer_iff _ _ c (lt_answers B SB LB mag_up garb carb' rho _ gs G' x' y' Ax Ay)), Vx, Vy. tauto.
  - intros I1 m. destruct (parts_value B SB LB mag_up garb carb' rho _ gs G' I1 x' Ax m) as [-> ->]. destruct (parts_value A SA LA mag_up garb carb rho p gs G I1 x (conj Hx Ix) m) as [-> ->].
    rewrite Vx. tauto.
Qed.

(** ** Examples *)
(** 3 + 2 a + 5 a b, a unit, a quotient that exists only over the rationals, and simplification. *)
Example C112_example : standard int_sem tt ex /\ no_zero_gen (basis (emodule ex)) /\
  (exists x', change_ring int_to_rat ex = Ok x' /\ rational_coefficients x' = [Q2Qc 3; Q2Qc 2; Q2Qc 5]) /\
  (exists u u', of_value (A := int_ring) tt 2%Z = Ok u /\ is_unit u = false /\ change_ring int_to_rat u = Ok u' /\ is_unit u' = true) /\
  (exists o u, of_value (A := int_ring) tt 1%Z = Ok o /\ of_value (A := int_ring) tt 2%Z = Ok u /\ truediv 3 o u = Some (Ok None) /\
     exists o' u' q, change_ring int_to_rat o = Ok o' /\ change_ring int_to_rat u = Ok u' /\ truediv 3 o' u' = Some (Ok (Some q)) /\ to_rational q = Some (Q2Qc (1 # 2))) /\
  (exists t z, mul ex ey = Ok t /\ truediv 10 t ey = Some (Ok (Some z))).
Proof.
  split; [exact ex_standard|]. split; [exact (standard_no_zero int_ring int_sem tt ex ex_standard)|].
  split; [eexists; split; reflexivity|]. split; [do 2 eexists; repeat (split; [reflexivity|]); reflexivity|].
  split; [do 2 eexists; repeat (split; [reflexivity|]); do 3 eexists; repeat (split; [reflexivity|]); reflexivity|].
  do 2 eexists. split; reflexivity.
Qed.
(** The setting of C112_order is met by 1 and sqrt 2, with the balls of the library around integers and rationals. *)
Lemma rational_root2 (a b : Qc) : Q2R a + Q2R b * sqrt (IZR 2) = 0 -> a = 0%Qc /\ b = 0%Qc.
Proof.
  intros H. pose proof (qc_den_pos a) as Pa. pose proof (qc_den_pos b) as Pb. apply IZR_lt in Pa, Pb.
  destruct (combination_root2 (qc_num a * qc_den b) (qc_num b * qc_den a)) as [Ea Eb].
  { rewrite !mult_IZR. rewrite !Q2R_num_den in H. transitivity ((IZR (qc_num a) / IZR (qc_den a) + IZR (qc_num b) / IZR (qc_den b) * sqrt (IZR 2)) * (IZR (qc_den a) * IZR (qc_den b))); [field; lra|rewrite H; ring]. }
  assert (Za : forall c : Qc, forall d : Z, 0 < IZR d -> (qc_num c * d)%Z = 0%Z -> c = 0%Qc).
  { intros c d Pd E. apply Q2R_Qc_0'. rewrite Q2R_num_den. apply (f_equal IZR) in E. rewrite mult_IZR in E. apply Rmult_integral in E. destruct E as [E|E]; [rewrite E; unfold Rdiv; apply Rmult_0_l|lra]. }
  split; [exact (Za a _ Pb Ea)|exact (Za b _ Pa Eb)].
Qed.
Lemma independent2_rational : independent rat_sem tt root2 gens2.
Proof.
  intros z (WM & Hl & Hm) _ Hi V. unfold value in V. destruct (sublist_cases _ (proj2 WM) Hi) as [E|[E|[E|E]]]; rewrite E in Hl, V; cbn [length] in Hl.
  - destruct (coeffs z); [constructor|discriminate].
  - destruct (coeffs z) as [|a [|b l]]; [discriminate| |discriminate]. cbn [combination gen_val val rat_sem] in V. constructor; [|constructor].
    apply Q2R_Qc_0'. replace (Q2R 1%Qc) with 1 in V by (unfold Q2R; cbn; lra). lra.
  - destruct (coeffs z) as [|a [|b l]]; [discriminate| |discriminate]. cbn [combination gen_val val rat_sem] in V. constructor; [|constructor].
    apply (rational_root2 0%Qc a). rewrite Q2R_Qc_0. unfold root2 in V. lra.
  - destruct (coeffs z) as [|a [|b [|c l]]]; [discriminate|discriminate| |discriminate]. cbn [combination gen_val val rat_sem] in V. replace (Q2R 1%Qc) with 1 in V by (unfold Q2R; cbn; lra).
    destruct (rational_root2 a b) as [-> ->]; [unfold root2 in V; lra|]. repeat constructor.
Qed.
Lemma good_example_rational : good_balls rat_sem up30 (ideal_garb root2) (rat_arb up30) root2 tt gens2.
Proof.
  destruct good_example as (E1 & E2 & E3 & E4 & E5 & _). split; [exact E1|]. split; [exact E2|]. split; [|split; [exact E4|split; [exact E5|split; [exact (rat_arb_encloses up30 tt E1)|intros c _; exact (rat_arb_shrinks up30 c E2)]]]].
  apply independent2_rational.
Qed.
Example C112_order_example : exists x' y', change_ring int_to_rat zx = Ok x' /\ change_ring int_to_rat zy = Ok y' /\
  eventually (fun n => lt_elem (A := rat_ring) up30 (ideal_garb root2) (rat_arb up30) n x' y') (Ok true) /\
  eventually (fun n => elem_floor (A := rat_ring) up30 (ideal_garb root2) (rat_arb up30) n x') 5%Z.
Proof.
  destruct (C112_order _ _ _ _ int_lawful rat_lawful int_to_rat (proj1 C112_conversions) up30 (ideal_garb root2) int_arb (rat_arb up30) root2 tt gens2 good_example good_example_rational zx zy zx_among zy_among)
    as (x' & y' & Ex & Ey & O & P). exists x', y'. split; [exact Ex|]. split; [exact Ey|]. split; [apply O, C32_case|apply (P in1 5%Z), C31_case].
Qed.
