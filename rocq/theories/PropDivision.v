(** Property C28: exact division of elements. *)
From Coq Require Import ZArith QArith Qcanon Bool List Reals Qreals Lra Lia.
From Verif Require Import Gen SpecGen GenProofs Ring SpecRing RingProofs Module Element SpecModule ModuleProofs ElementProofs Independence
  ElementProofs2 ElementProofs3 Leading Division DivisionProofs PropModule PropElement.
Import ListNotations.
Open Scope R_scope.

Section Proofs.
  Variable A : ring.
  Variable S : semantics A.
  Hypothesis L : lawful A S.
  Implicit Types x y z w : elem A.
  Implicit Types p : par A.

  Lemma std_common p x y : standard S p x -> standard S p y -> exists x' y', common x y = Ok (x', y') /\ standard S p x' /\ standard S p y' /\
    (forall rho, value S rho x' = value S rho x) /\ (forall rho, value S rho y' = value S rho y).
  Proof.
    intros Hx Hy. destruct (common_succeeds A S L x y (proj1 Hx) (proj1 Hy) (standard_combinable A S p x y Hx Hy)) as (x' & y' & E). exists x', y'. split; [exact E|].
    destruct (common_spec A S L x y x' y' (proj1 Hx) (proj1 Hy) E) as (Wx & Wy & EM & G & _). destruct (common_value A S L x y x' y' (proj1 Hx) (proj1 Hy) E) as [Vx Vy].
    pose proof (common_ring A S L p x y x' y' (proj1 Hx) (proj1 Hy) (proj1 (proj2 Hx)) (proj1 (proj2 Hy)) E) as R.
    assert (Q : forall q, In (GRat q) (basis (emodule x')) -> q = 1%Qc) by (intros q I; apply G in I; destruct I as [I|I]; [apply (proj2 (proj2 Hx) q I)|apply (proj2 (proj2 Hy) q I)]).
    split; [split; [exact Wx|split; [exact R|exact Q]]|]. split; [split; [exact Wy|rewrite <- EM; split; [exact R|exact Q]]|]. split; assumption.
  Qed.
  Lemma std_zero p x : standard S p x -> standard S p (zero_of (emodule x)) /\ forall rho, value S rho (zero_of (emodule x)) = 0.
  Proof. intros Hx. split; [|apply (zero_value A S L)]. split; [apply (zero_of_wf A S L), Hx|]. exact (proj2 Hx). Qed.
  Lemma eq_integer_standard p x n : standard S p x -> (eq_integer x n = true <-> forall rho, value S rho x = IZR n).
  Proof. intros Hx. apply (eq_integer_spec A S L x n (proj1 Hx) (standard_no_zero A S p x Hx)). Qed.
  Lemma nonzero_standard p y : standard S p y -> eq_integer y 0 = false -> nonzero y = true.
  Proof.
    intros Hy E. destruct (nonzero y) eqn:N; [reflexivity|]. rewrite <- E. apply (eq_integer_standard p y 0 Hy). intros rho. rewrite (value_evalv A S rho y). apply (evalv_nonzero_false A S L _ y N).
  Qed.
  (** What the first checks do. *)
  Lemma truediv_cases p fuel x y : standard S p x -> standard S p y ->
    (eq_integer y 0 = true /\ truediv fuel x y = Some (Err InvalidArgument)) \/
    ((forall rho, value S rho y = 1) /\ truediv fuel x y = Some (Ok (Some x))) \/
    (exists x' y', standard S p x' /\ standard S p y' /\ nonzero y' = true /\ (forall rho, value S rho x' = value S rho x) /\ (forall rho, value S rho y' = value S rho y) /\
      truediv fuel x y = div_loop fuel p y' (zero_of (emodule x')) x').
  Proof.
    intros Hx Hy. unfold truediv. destruct (eq_integer y 0) eqn:E0; [left; auto|]. right. destruct (eq_integer y 1) eqn:E1; [left; split; [apply (eq_integer_standard p y 1 Hy), E1|reflexivity]|]. right.
    destruct (std_common p x y Hx Hy) as (x' & y' & E & Hx' & Hy' & Vx & Vy). rewrite E. exists x', y'. split; [exact Hx'|]. split; [exact Hy'|].
    assert (F : forall n, eq_integer y' n = eq_integer y n).
    { intros n. apply eq_true_iff_eq. rewrite (eq_integer_standard p y' n Hy'), (eq_integer_standard p y n Hy). split; intros H rho; [rewrite <- Vy|rewrite Vy]; apply H. }
    split; [apply (nonzero_standard p y' Hy'); rewrite F; exact E0|]. split; [exact Vx|]. split; [exact Vy|]. unfold truediv_same. rewrite !F, E0, E1, (proj1 (proj2 Hx')). reflexivity.
  Qed.
End Proofs.

(** The quotient that is returned is one: z * y = x, and (z * y == x) says so. *)
Theorem C28_sound : forall A S, lawful A S -> forall (p : par A) (x y z : elem A) fuel, standard S p x -> standard S p y ->
  truediv fuel x y = Some (Ok (Some z)) -> standard S p z /\ (forall rho, value S rho z * value S rho y = value S rho x) /\ same (mul z y) (Ok x).
Proof.
  intros A S L p x y z fuel Hx Hy H.
  assert (K : standard S p z /\ forall rho, value S rho z * value S rho y = value S rho x).
  { destruct (truediv_cases A S L p fuel x y Hx Hy) as [[_ E]|[[V E]|(x' & y' & Hx' & Hy' & Ny & Vx & Vy & E)]]; rewrite E in H.
    - discriminate.
    - injection H as <-. split; [exact Hx|]. intros rho. rewrite V. ring.
    - destruct (std_zero A S L p x' Hx') as [Hz Vz]. destruct (div_loop_sound A S L fuel p y' _ x' z Hy' Ny Hz Hx' H) as [Hw Vw]. split; [exact Hw|].
      intros rho. rewrite <- Vy, Vw, Vz, Vx. ring. }
  destruct K as [Hz V]. split; [exact Hz|]. split; [exact V|]. destruct (std_mul A S L p z y Hz Hy) as (t & Et & Ht & Vt).
  apply (std_same A S L p t x Ht Hx); [|exact Et|reflexivity]. intros rho. rewrite Vt. apply V.
Qed.
(** If there is a quotient, it is found. *)
Theorem C28_complete : forall A S, lawful A S -> forall (p : par A) (x y w : elem A) fuel res, standard S p x -> standard S p y -> standard S p w -> nonzero y = true ->
  same (mul w y) (Ok x) -> truediv fuel x y = Some res -> exists z, res = Ok (Some z) /\ same (Ok z) (Ok w).
Proof.
  intros A S L p x y w fuel res Hx Hy Hw Ny (t & x0 & Et & Ex & Eq) H. injection Ex as <-.
  destruct (std_mul A S L p w y Hw Hy) as (t' & Et' & Ht & Vt). rewrite Et' in Et. injection Et as ->.
  pose proof (proj1 (equal_value A S L t x true (proj1 Ht) (proj1 Hx) (standard_no_zero A S p t Ht) (standard_no_zero A S p x Hx) Eq) eq_refl) as V.
  assert (K : exists z, res = Ok (Some z)).
  { destruct (truediv_cases A S L p fuel x y Hx Hy) as [[F E]|[[_ E]|(x' & y' & Hx' & Hy' & Ny' & Vx & Vy & E)]]; rewrite E in H.
    - exfalso. apply (nonzero_value A S L y (proj1 Hy) (standard_no_zero A S p y Hy)) in Ny. destruct Ny as [rho Ny]. apply Ny. apply (eq_integer_standard A S L p y 0 Hy), F.
    - injection H as <-. eauto.
    - destruct (std_zero A S L p x' Hx') as [Hz Vz]. destruct res as [[z|]|e]; [eauto| |].
      + exfalso. apply (div_loop_complete A S L fuel p y' _ x' w Hy' Ny' Hz Hx' Hw) in H; [exact H|]. intros rho. rewrite Vx, Vy, <- V, Vt. reflexivity.
      + exfalso. apply (div_loop_no_throw A S L fuel p y' _ x' e Hy' Ny' Hz Hx' H). }
  destruct K as [z ->]. exists z. split; [reflexivity|]. destruct (C28_sound A S L p x y z fuel Hx Hy H) as (Hz & Vz & _).
  (* uniqueness: (z - w) y = 0 *)
  destruct (std_sub A S L p z w Hz Hw) as (d & _ & Hd & Vd). apply (std_same A S L p z w Hz Hw); [|reflexivity|reflexivity].
  assert (Nd : nonzero d = false).
  { destruct (nonzero d) eqn:N; [|reflexivity]. exfalso. destruct (top_exists A S L d (proj1 Hd) N) as (g & c & T). destruct (top_exists A S L y (proj1 Hy) Ny) as (h & b & T').
    destruct (top_mem A S L d g c (proj1 Hd) T) as (Wg & Ig & _ & Nc). destruct (top_mem A S L y h b (proj1 Hy) T') as (Wh & Ih & _ & Nb).
    destruct (standard_gmul A S p d y g h Hd Hy Ig Ih) as (_ & _ & k & K).
    destruct (product_coefficient A S L p d y g c h b k Hd Hy T T' K []) as [P _]; [constructor| |].
    - intros rho. cbn. rewrite Vd. transitivity (value S rho z * value S rho y - value S rho w * value S rho y); [|ring]. rewrite Vz, <- Vt, V. ring.
    - cbn in P. symmetry in P. apply Rmult_integral in P. destruct P; contradiction. }
  intros rho. pose proof (Vd rho) as E. rewrite (value_evalv A S rho d), (evalv_nonzero_false A S L _ d Nd) in E. lra.
Qed.
(** In particular dividing a product by a factor gives the other factor. *)
Theorem C28_product : forall A S, lawful A S -> forall (p : par A) (x y t : elem A) fuel res, standard S p x -> standard S p y -> nonzero y = true ->
  mul x y = Ok t -> truediv fuel t y = Some res -> exists z, res = Ok (Some z) /\ same (Ok z) (Ok x).
Proof.
  intros A S L p x y t fuel res Hx Hy Ny E H. destruct (std_mul A S L p x y Hx Hy) as (t' & Et & Ht & Vt). rewrite E in Et. injection Et as <-.
  apply (C28_complete A S L p t y x fuel res Ht Hy Hx Ny); [|exact H]. apply (std_same A S L p t t Ht Ht); [reflexivity|exact E|reflexivity].
Qed.
(** Division by zero throws, other divisions do not; they terminate. *)
Theorem C28_zero : forall A S, lawful A S -> forall (p : par A) (x y : elem A) fuel, standard S p x -> standard S p y -> nonzero y = false ->
  truediv fuel x y = Some (Err InvalidArgument).
Proof.
  intros A S L p x y fuel Hx Hy N. unfold truediv. rewrite (proj2 (eq_integer_standard A S L p y 0 Hy)); [reflexivity|].
  intros rho. rewrite (value_evalv A S rho y). apply (evalv_nonzero_false A S L _ y N).
Qed.
Theorem C28_terminates : forall A S, lawful A S -> forall (p : par A) (x y : elem A), standard S p x -> standard S p y -> nonzero y = true ->
  exists n res, forall fuel, (n <= fuel)%nat -> truediv fuel x y = Some (Ok res).
Proof.
  intros A S L p x y Hx Hy Ny. 
  destruct (std_common A S L p x y Hx Hy) as (x1 & y1 & C & Hx1 & Hy1 & Vx1 & Vy1).
    assert (N1 : nonzero y1 = true).
    { apply (nonzero_value A S L y1 (proj1 Hy1) (standard_no_zero A S p y1 Hy1)). apply (nonzero_value A S L y (proj1 Hy) (standard_no_zero A S p y Hy)) in Ny. destruct Ny as [rho Ny]. exists rho. rewrite Vy1. exact Ny. }
    destruct (div_loop_terminates A S L p y1 Hy1 N1 _ x1 (proj1 (std_zero A S L p x1 Hx1)) Hx1) as (n & res & R).
    assert (Z0 : eq_integer y 0 = false).
    { apply not_true_iff_false. intros F. apply (nonzero_value A S L y (proj1 Hy) (standard_no_zero A S p y Hy)) in Ny. destruct Ny as [rho Ny]. apply Ny. apply (eq_integer_standard A S L p y 0 Hy), F. }
    assert (F : forall k, eq_integer y1 k = eq_integer y k).
    { intros k. apply eq_true_iff_eq. rewrite (eq_integer_standard A S L p y1 k Hy1), (eq_integer_standard A S L p y k Hy). split; intros H rho; [rewrite <- Vy1|rewrite Vy1]; apply H. }
    destruct (eq_integer y 1) eqn:E1.
    + exists 0%nat, (Some x). intros fuel _. unfold truediv. rewrite Z0, E1. reflexivity.
    + exists n, res. intros fuel Hf. unfold truediv. rewrite Z0, E1, C. unfold truediv_same. rewrite !F, Z0, E1, (proj1 (proj2 Hx1)). apply (div_loop_more A n); [exact Hf|exact R].
Qed.
(** With a rational generator other than 1 it can throw although there is a quotient. *)
Definition gtwo : gen := GRat (Q2Qc 2).
Definition gtw : elem int_ring := mkElem (A := int_ring) (zmod [gtwo; ga]) [1; 0]%Z.
Theorem C64_general_refuted : exists (x y z : elem int_ring), elem_wf int_sem x /\ elem_wf int_sem y /\ elem_wf int_sem z /\
  (forall rho, value int_sem rho z * value int_sem rho y = value int_sem rho x) /\ nonzero y = true /\ forall fuel, truediv (S fuel) x y = Some (Err LogicError).
Proof.
  (* 2 a / 2, where 2 is a generator *)
  exists (mkElem (A := int_ring) (zmod [gtwo; ga]) [0; 2]%Z), gtw, (mkElem (A := int_ring) (zmod [ga]) [1%Z]).
  assert (WM : module_wf (zmod [gtwo; ga])) by (unfold zmod, gtwo, ga; module_ok).
  split; [split; [exact WM|split; [reflexivity|repeat constructor]]|]. split; [split; [exact WM|split; [reflexivity|repeat constructor]]|].
  split; [split; [unfold zmod, ga; cbn [emodule]; module_ok|split; [reflexivity|repeat constructor]]|].
  split; [|split; [reflexivity|reflexivity]].
  intros rho. unfold value, gtw, gtwo, ga. cbn [combination emodule basis zmod coeffs gen_val val int_sem]. rewrite !Q2R_Q2Qc. unfold Q2R. cbn. lra.
Qed.
(** (3 + 2 a + 5 a b) (-1 + b) / (-1 + b); and (3 + 2 a + 5 a b) is not a multiple of -1 + b. *)
Example C28_example : exists t z, mul ex ey = Ok t /\ truediv 10 t ey = Some (Ok (Some z)) /\ equal z ex = Ok true /\ truediv 10 ex ey = Some (Ok None).
Proof. eexists. eexists. split; [vm_compute; reflexivity|]. split; [vm_compute; reflexivity|]. split; vm_compute; reflexivity. Qed.
