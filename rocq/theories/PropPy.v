(** Properties C90-C93: the ring ExactReals of the Python interface. *)
From Coq Require Import ZArith Znumtheory QArith Qcanon Bool List Reals Qreals Lra Lia.
From Flocq Require Import Core.
From Verif Require Import Arf Arb Gen SpecGen GenProofs Ring SpecRing RingProofs Module Element SpecModule ModuleProofs ElementProofs ElementProofs2 ElementProofs3 Leading Division DivisionProofs PropElement PropDivision SpecArf SpecLoops Loops Balls LoopsProofs4 LoopsCases PropOrder PropLoops PropFloor Py SpecPy PyProofs.
Import ListNotations.
Open Scope R_scope.

Lemma py_equal_of A S (L : lawful A S) p (a b : elem A) l r : l = Returns a -> r = Returns b -> standard S p a -> standard S p b -> (forall rho, value S rho a = value S rho b) -> py_equal l r.
Proof. intros El Er Ha Hb V. exists a, b. split; [exact El|]. split; [exact Er|]. intros. apply (richcmp_equal L mag_up garb carb p a b Ha Hb V rounds OpEq). Qed.

(** * C90: arithmetic *)
Theorem C90_operations : forall A S, lawful A S -> forall (p : par A) x y, standard S p x -> standard S p y ->
  (exists z, py_add x y = Returns z /\ standard S p z /\ forall rho, value S rho z = value S rho x + value S rho y) /\
  (exists z, py_sub x y = Returns z /\ standard S p z /\ forall rho, value S rho z = value S rho x - value S rho y) /\
  (exists z, py_mul x y = Returns z /\ standard S p z /\ forall rho, value S rho z = value S rho x * value S rho y) /\
  (exists z, py_neg x = Returns z /\ standard S p z /\ forall rho, value S rho z = - value S rho x).
Proof.
  intros A S L p x y Hx Hy. split; [exact (py_add_spec L p x y Hx Hy)|]. split; [exact (py_sub_spec L p x y Hx Hy)|]. split; [exact (py_mul_spec L p x y Hx Hy)|exact (py_neg_spec L p x Hx)].
Qed.
Theorem C90_elements : forall A S, lawful A S -> forall p : par A,
  (forall c, mem S p c -> exists x, py_coerce p c = Returns x /\ standard S p x /\ forall rho, value S rho x = val S c) /\
  (exists o, py_zero p = Returns o /\ standard S p o /\ forall rho, value S rho o = 0) /\
  (exists i, py_one p = Returns i /\ standard S p i /\ forall rho, value S rho i = 1) /\
  (forall g, gen_wf g -> (forall q, g = GRat q -> q = 1%Qc) -> exists x, py_random p g = Returns x /\ standard S p x /\ forall rho, value S rho x = gen_val rho g) /\
  (forall c x, mem S p c -> standard S p x -> exists y, py_lmul c x = Returns y /\ standard S p y /\ forall rho, value S rho y = val S c * value S rho x).
Proof.
  intros A S L p. split; [exact (fun c => py_coerce_spec L p c)|]. split; [exact (py_zero_spec L p)|]. split; [exact (py_one_spec L p)|].
  split; [exact (py_gen_spec L p)|exact (fun c x => py_lmul_spec L p c x)].
Qed.
(** == and != do not depend on approximations: they decide equality. *)
Theorem C90_equality : forall A S, lawful A S -> forall mag_up garb carb (p : par A) x y, standard S p x -> standard S p y ->
  ((forall rho, value S rho x = value S rho y) -> forall rounds, py_richcmp mag_up garb carb rounds OpEq x y = Some (Returns true) /\ py_richcmp mag_up garb carb rounds OpNe x y = Some (Returns false)) /\
  (forall rounds b, py_richcmp mag_up garb carb rounds OpEq x y = Some (Returns b) -> (b = true <-> forall rho, value S rho x = value S rho y)) /\
  (forall rounds b, py_richcmp mag_up garb carb rounds OpNe x y = Some (Returns b) -> (b = true <-> ~ forall rho, value S rho x = value S rho y)) /\
  (forall rounds op e, py_richcmp mag_up garb carb rounds op x y <> Some (Raises e)).
Proof.
  intros A S L mag_up garb carb p x y Hx Hy. split; [|split; [|split]].
  - intros V rounds. rewrite !(richcmp_equal L mag_up garb carb p x y Hx Hy V rounds). auto.
  - intros rounds b. apply (richcmp_eq L mag_up garb carb p x y rounds b Hx Hy).
  - intros rounds b. apply (richcmp_ne L mag_up garb carb p x y rounds b Hx Hy).
  - intros rounds op e. apply (richcmp_no_raise L mag_up garb carb p x y rounds op e Hx Hy).
Qed.
Lemma one_rational_in l : ascending l -> forall q r : Qc, In (GRat q) l -> In (GRat r) l -> q = r.
Proof.
  induction l as [|g l IH]; intros H q r Iq Ir; [destruct Iq|]. destruct H as [H1 H2].
  assert (N : forall a b, ~ precedes (GRat a) (GRat b)) by (intros a b K; unfold precedes in K; cbn in K; intuition lia).
  destruct Iq as [->|Iq]; destruct Ir as [Er|Ir]; [congruence|exfalso; exact (N _ _ (H1 _ Ir))|subst g; exfalso; exact (N _ _ (H1 _ Iq))|apply IH; assumption].
Qed.
(** rational(q) is q; but the sum of rational(q) and rational(r) is only defined for q = r, as documented. *)
Theorem C90_rational : forall A S, lawful A S -> forall (p : par A) q r, exists x y, py_rational p q = Returns x /\ py_rational p r = Returns y /\ elem_wf S x /\ constant S x (Q2R q) /\ constant S y (Q2R r) /\
  (q <> r -> exists e, py_add x y = Raises (CppException e)) /\ (q = r -> exists z, py_add x y = Returns z /\ constant S z (Q2R q + Q2R r)).
Proof.
  intros A S L p q r. unfold py_rational. cbn [make bind]. eexists. eexists. split; [reflexivity|]. split; [reflexivity|].
  destruct (L_one A S L p) as [M1 V1]. 
  assert (W : forall q, elem_wf S (mkElem (mkModule [GRat q] p) [cone A])). { intros q0. split; [split; [constructor; [exact Logic.I|constructor]|cbn; tauto]|]. split; [reflexivity|]. constructor; [exact M1|constructor]. }
  assert (V : forall q, constant S (mkElem (mkModule [GRat q] p) [cone A]) (Q2R q)). { intros q0 rho. unfold value. cbn [emodule coeffs basis combination gen_val]. rewrite V1. lra. }
  split; [apply W|]. split; [apply V|]. split; [apply V|]. split.
  - intros N. unfold py_add. destruct (add _ _) as [z|e] eqn:E; [|exists e; reflexivity]. exfalso. apply N.
    destruct (add_spec A S L _ _ z (W q) (W r) E) as (Wz & _ & B). assert (Iq : In (GRat q) (basis (emodule z))) by (apply B; left; left; reflexivity). assert (Ir : In (GRat r) (basis (emodule z))) by (apply B; right; left; reflexivity).
    destruct Wz as ([_ Az] & _). apply (one_rational_in _ Az q r Iq Ir).
  - intros <-. unfold py_add, add, common. rewrite (module_eqb_refl A S L). cbn. eexists. split; [reflexivity|]. intros rho. unfold value. cbn [emodule coeffs basis combination gen_val].
    rewrite (proj2 (L_add A S L p (cone A) (cone A) M1 M1)), V1. lra.
Qed.
(** The axioms of a commutative ring, as seen with ==. *)
Theorem C90_ring : forall A S, lawful A S -> forall (p : par A) x y z, standard S p x -> standard S p y -> standard S p z ->
  py_equal (py_add x y) (py_add y x) /\
  py_equal (py_bind (py_add x y) (fun s => py_add s z)) (py_bind (py_add y z) (fun s => py_add x s)) /\
  py_equal (py_bind (py_zero p) (fun o => py_add x o)) (Returns x) /\
  py_equal (py_bind (py_neg x) (fun n => py_add x n)) (py_zero p) /\
  py_equal (py_sub x y) (py_bind (py_neg y) (fun n => py_add x n)) /\
  py_equal (py_mul x y) (py_mul y x) /\
  py_equal (py_bind (py_mul x y) (fun s => py_mul s z)) (py_bind (py_mul y z) (fun s => py_mul x s)) /\
  py_equal (py_bind (py_one p) (fun i => py_mul x i)) (Returns x) /\
  py_equal (py_bind (py_add y z) (fun s => py_mul x s)) (py_bind (py_mul x y) (fun a => py_bind (py_mul x z) (fun b => py_add a b))).
Proof.
  intros A S L p x y z Hx Hy Hz.
  destruct (py_add_spec L p x y Hx Hy) as (xy & Exy & Hxy & Vxy). destruct (py_add_spec L p y x Hy Hx) as (yx & Eyx & Hyx & Vyx).
  destruct (py_add_spec L p y z Hy Hz) as (yz & Eyz & Hyz & Vyz). destruct (py_add_spec L p xy z Hxy Hz) as (a1 & Ea1 & Ha1 & Va1). destruct (py_add_spec L p x yz Hx Hyz) as (a2 & Ea2 & Ha2 & Va2).
  destruct (py_zero_spec L p) as (o & Eo & Ho & Vo). destruct (py_add_spec L p x o Hx Ho) as (xo & Exo & Hxo & Vxo).
  destruct (py_neg_spec L p x Hx) as (nx & Enx & Hnx & Vnx). destruct (py_add_spec L p x nx Hx Hnx) as (d & Ed & Hd & Vd).
  destruct (py_neg_spec L p y Hy) as (ny & Eny & Hny & Vny). destruct (py_add_spec L p x ny Hx Hny) as (e & Ee & He & Ve). destruct (py_sub_spec L p x y Hx Hy) as (s & Es & Hs & Vs).
  destruct (py_mul_spec L p x y Hx Hy) as (mxy & Emxy & Hmxy & Vmxy). destruct (py_mul_spec L p y x Hy Hx) as (myx & Emyx & Hmyx & Vmyx).
  destruct (py_mul_spec L p y z Hy Hz) as (myz & Emyz & Hmyz & Vmyz). destruct (py_mul_spec L p mxy z Hmxy Hz) as (m1 & Em1 & Hm1 & Vm1). destruct (py_mul_spec L p x myz Hx Hmyz) as (m2 & Em2 & Hm2 & Vm2).
  destruct (py_one_spec L p) as (i & Ei & Hi & Vi). destruct (py_mul_spec L p x i Hx Hi) as (xi & Exi & Hxi & Vxi).
  destruct (py_mul_spec L p x yz Hx Hyz) as (l & El & Hl & Vl). destruct (py_mul_spec L p x z Hx Hz) as (mxz & Emxz & Hmxz & Vmxz). destruct (py_add_spec L p mxy mxz Hmxy Hmxz) as (r & Er & Hr & Vr).
  rewrite Exy, Eyx, Eyz, Eo, Enx, Eny, Es, Emxy, Emyx, Emyz, Ei, Emxz. cbn [py_bind]. rewrite Ea1, Ea2, Exo, Ed, Ee, Em1, Em2, Exi, El, Er.
  split; [apply (py_equal_of A S L p xy yx); auto; intros rho; rewrite Vxy, Vyx; ring|].
  split; [apply (py_equal_of A S L p a1 a2); auto; intros rho; rewrite Va1, Va2, Vxy, Vyz; ring|].
  split; [apply (py_equal_of A S L p xo x); auto; intros rho; rewrite Vxo, Vo; ring|].
  split; [apply (py_equal_of A S L p d o); auto; intros rho; rewrite Vd, Vnx, Vo; ring|].
  split; [apply (py_equal_of A S L p s e); auto; intros rho; rewrite Vs, Ve, Vny; ring|].
  split; [apply (py_equal_of A S L p mxy myx); auto; intros rho; rewrite Vmxy, Vmyx; ring|].
  split; [apply (py_equal_of A S L p m1 m2); auto; intros rho; rewrite Vm1, Vm2, Vmxy, Vmyz; ring|].
  split; [apply (py_equal_of A S L p xi x); auto; intros rho; rewrite Vxi, Vi; ring|].
  apply (py_equal_of A S L p l r); auto; intros rho; rewrite Vl, Vr, Vmxy, Vmxz, Vyz; ring.
Qed.
(** It is an integral domain. *)
Theorem C90_domain : forall A S, lawful A S -> forall (p : par A) x y z, standard S p x -> standard S p y -> py_mul x y = Returns z ->
  py_equal (Returns z) (py_zero p) -> py_equal (Returns x) (py_zero p) \/ py_equal (Returns y) (py_zero p).
Proof.
  intros A S L p x y z Hx Hy E (a & b & [= <-] & Eb & K). destruct (py_mul_spec L p x y Hx Hy) as (z' & E' & Hz & Vz). rewrite E in E'. injection E' as <-.
  destruct (py_zero_spec L p) as (o & Eo & Ho & Vo). rewrite Eo in Eb. injection Eb as <-.
  specialize (K (fun r => r) (fun _ _ => arb_of_Z 0) (fun _ _ => arb_of_Z 0) 0%nat). apply (richcmp_eq L _ _ _ p z o 0 true Hz Ho) in K. assert (V := proj1 K eq_refl). clear K.
  assert (Z0 : forall rho, value S rho x * value S rho y = 0) by (intros rho; rewrite <- Vz, V; apply Vo).
  destruct (domain L p x y Hx Hy Z0) as [Q|Q]; [left|right]; (eapply (py_equal_of A S L p); [reflexivity|exact Eo|assumption|exact Ho|]); intros rho; rewrite Q, Vo; reflexivity.
Qed.
Theorem C90_nontrivial : forall A S, lawful A S -> forall (p : par A), ~ py_equal (py_zero p) (py_one p).
Proof.
  intros A S L p (a & b & Ea & Eb & K). destruct (py_zero_spec L p) as (o & Eo & Ho & Vo). destruct (py_one_spec L p) as (i & Ei & Hi & Vi).
  rewrite Eo in Ea. rewrite Ei in Eb. injection Ea as <-. injection Eb as <-. specialize (K (fun r => r) (fun _ _ => arb_of_Z 0) (fun _ _ => arb_of_Z 0) 0%nat).
  apply (richcmp_eq L _ _ _ p o i 0 true Ho Hi) in K. assert (V := proj1 K eq_refl (fun _ => 0)). rewrite Vo, Vi in V. lra.
Qed.

(** * C91: division *)
Theorem C91_quotient : forall A S, lawful A S -> forall (p : par A) x y, standard S p x -> standard S p y -> ~ constant S y 0 ->
  (exists z, eventually (fun fuel => py_div fuel x y) (Returns z) /\ standard S p z /\ forall rho, value S rho z * value S rho y = value S rho x) \/
  (eventually (fun fuel => py_div fuel x y) (Raises NotRepresentableError) /\ ~ divisor S p y x).
Proof. intros A S L p x y Hx Hy N. exact (py_div_spec L p x y Hx Hy N). Qed.
Theorem C91_by_zero : forall A S, lawful A S -> forall fuel (p : par A) x y, standard S p x -> standard S p y -> constant S y 0 -> py_div fuel x y = Some (Raises (CppException InvalidArgument)).
Proof. intros A S L fuel p x y Hx Hy Z. exact (py_div_zero L p fuel x y Hx Hy Z). Qed.
Lemma unit_iff A S (L : lawful A S) (p : par A) x : standard S p x -> (is_unit x = true <-> exists y, standard S p y /\ forall rho, value S rho x * value S rho y = 1).
Proof. intros Hx. split; [apply (C30_sound A S L p x Hx)|]. intros (y & Hy & V). apply (C30_complete A S L p x y Hx Hy V). Qed.
(** ~x returns the inverse if and only if is_unit(). *)
Theorem C91_invert : forall A S, lawful A S -> forall (p : par A) x, standard S p x ->
  (py_is_unit x = Returns true /\ exists y, eventually (fun fuel => py_invert fuel p x) (Returns y) /\ standard S p y /\ forall rho, value S rho x * value S rho y = 1) \/
  (py_is_unit x = Returns false /\ exists e, eventually (fun fuel => py_invert fuel p x) (Raises e) /\ (e = NotRepresentableError \/ constant S x 0) /\ ~ exists y, standard S p y /\ forall rho, value S rho x * value S rho y = 1).
Proof.
  intros A S L p x Hx. destruct (py_one_spec L p) as (i & Ei & Hi & Vi). destruct (std_simplify L p x Hx) as (s & Es & Hs & Vs). pose proof (unit_iff A S L p x Hx) as U.
  assert (I : forall fuel, py_invert fuel p x = py_div fuel i s) by (intros fuel; unfold py_invert; rewrite Ei, Es; reflexivity). unfold py_is_unit.
  assert (D : {constant S s 0} + {~ constant S s 0}).
  { destruct (nonzero s) eqn:N; [right|left]; [|intros rho; apply (proj1 (nonzero_false L p s Hs) N)]. intros K. apply (nonzero_false L p s Hs) in K. congruence. }
  destruct D as [D|D].
  - right. assert (Z : constant S x 0) by (intros rho; rewrite <- Vs; apply D). assert (Nx : ~ exists y, standard S p y /\ forall rho, value S rho x * value S rho y = 1).
    { intros (y & _ & V). specialize (V (fun _ => 0)). rewrite Z in V. lra. }
    split; [destruct (is_unit x); [exfalso; apply Nx, U; reflexivity|reflexivity]|]. exists (CppException InvalidArgument).
    split; [exists 0%nat; intros n _; rewrite I; apply (py_div_zero L p n i s Hi Hs D)|]. auto.
  - destruct (py_div_spec L p i s Hi Hs D) as [(z & Ez & Hz & Vz)|[Ez Nz]].
    + left. assert (V : forall rho, value S rho x * value S rho z = 1) by (intros rho; rewrite <- Vs, <- (Vi rho), <- Vz; ring).
      split; [f_equal; apply U; eauto|]. exists z. split; [destruct Ez as [n Ez]; exists n; intros k Hk; rewrite I; auto|]. auto.
    + right. assert (Nx : ~ exists y, standard S p y /\ forall rho, value S rho x * value S rho y = 1).
      { intros (y & Hy & V). apply Nz. exists y. split; [exact Hy|]. intros rho. rewrite Vs, Vi, <- (V rho). ring. }
      split; [destruct (is_unit x); [exfalso; apply Nx, U; reflexivity|reflexivity]|]. exists NotRepresentableError.
      split; [destruct Ez as [n Ez]; exists n; intros k Hk; rewrite I; auto|]. auto.
Qed.
Lemma cmp_zero_spec A S (L : lawful A S) mag_up garb carb (p : par A) x rounds : standard S p x ->
  match py_cmp_zero mag_up garb carb rounds OpEq p x with None => True | Some (Returns b) => b = true <-> constant S x 0 | Some (Raises _) => False end.
Proof.
  intros Hx. destruct (py_zero_spec L p) as (o & Eo & Ho & Vo). unfold py_cmp_zero. rewrite Eo. cbn [py_then].
  destruct (py_richcmp mag_up garb carb rounds OpEq x o) as [[b|e]|] eqn:E; [| |exact Logic.I].
  - rewrite (richcmp_eq L mag_up garb carb p x o rounds b Hx Ho E). unfold constant. split; intros V rho; [rewrite V; apply Vo|rewrite V, Vo; reflexivity].
  - exact (richcmp_no_raise L mag_up garb carb p x o rounds OpEq e Hx Ho E).
Qed.
Lemma eventually_unique {T} (f : nat -> option T) r s : eventually f r -> eventually f s -> r = s.
Proof. intros [n H] [m K]. specialize (H (Nat.max n m) ltac:(lia)). specialize (K (Nat.max n m) ltac:(lia)). congruence. Qed.
(** divides() never raises, and what it returns is right, whatever the approximations are. *)
Theorem C91_divides : forall A S, lawful A S -> forall mag_up garb carb rounds fuel (p : par A) x y, standard S p x -> standard S p y ->
  match py_divides mag_up garb carb rounds fuel p x y with None => True | Some (Returns b) => b = true <-> divisor S p x y | Some (Raises _) => False end.
Proof.
  intros A S L mag_up garb carb rounds fuel p x y Hx Hy. unfold py_divides. pose proof (cmp_zero_spec A S L mag_up garb carb p x rounds Hx) as Zx.
  destruct (py_cmp_zero mag_up garb carb rounds OpEq p x) as [[b|e]|]; [| contradiction|exact Logic.I]. cbn [py_then]. destruct b.
  - assert (Z : constant S x 0) by (apply Zx; reflexivity). pose proof (cmp_zero_spec A S L mag_up garb carb p y rounds Hy) as Zy.
    destruct (py_cmp_zero mag_up garb carb rounds OpEq p y) as [[b|e]|]; [|exact Zy|exact Logic.I]. rewrite Zy. split.
    + intros K. exists y. split; [exact Hy|]. intros rho. rewrite Z, K. ring.
    + intros (z & _ & V) rho. rewrite <- V, Z. ring.
  - assert (N : ~ constant S x 0) by (intros K; apply Zx in K; discriminate).
    destruct (py_div fuel y x) as [[z|e]|] eqn:E; [| |exact Logic.I].
    + split; [intros _|reflexivity]. destruct (py_div_returned L p fuel y x z Hy Hx E) as [Hz Vz]. exists z. auto.
    + apply py_div_more in E. assert (K : e = NotRepresentableError /\ ~ divisor S p x y).
      { destruct (py_div_spec L p y x Hy Hx N) as [(z & Ez & _)|[Ez Nz]].
        - pose proof (eventually_unique _ _ _ Ez E). discriminate.
        - pose proof (eventually_unique _ _ _ Ez E) as [= <-]. auto. }
      destruct K as [-> K]. split; [discriminate|]. intros D. contradiction.
Qed.
(** gcd(): what it returns is a greatest common divisor; it gives up exactly if none of the two divides the other. *)
Theorem C91_gcd : forall A S, lawful A S -> forall mag_up garb carb rounds fuel (p : par A) x y, standard S p x -> standard S p y ->
  match py_gcd mag_up garb carb rounds fuel p x y with
  | None => True
  | Some (Returns g) => standard S p g /\ divisor S p g x /\ divisor S p g y /\ forall d, standard S p d -> divisor S p d x -> divisor S p d y -> divisor S p d g
  | Some (Raises e) => e = PyNotImplementedError /\ ~ divisor S p x y /\ ~ divisor S p y x
  end.
Proof.
  intros A S L mag_up garb carb rounds fuel p x y Hx Hy. unfold py_gcd.
  assert (Rf : forall z, standard S p z -> divisor S p z z).
  { intros z Hz. destruct (py_one_spec L p) as (i & _ & Hi & Vi). exists i. split; [exact Hi|]. intros rho. rewrite Vi. ring. }
  pose proof (C91_divides A S L mag_up garb carb rounds fuel p x y Hx Hy) as D1. destruct (py_divides mag_up garb carb rounds fuel p x y) as [[b|e]|]; [|contradiction|exact Logic.I]. cbn [py_then]. destruct b.
  - assert (D : divisor S p x y) by (apply D1; reflexivity). auto.
  - pose proof (C91_divides A S L mag_up garb carb rounds fuel p y x Hy Hx) as D2. destruct (py_divides mag_up garb carb rounds fuel p y x) as [[b|e]|]; [|contradiction|exact Logic.I]. cbn [py_then]. destruct b.
    + assert (D : divisor S p y x) by (apply D2; reflexivity). auto.
    + split; [reflexivity|]. split; intros D; [apply D1 in D|apply D2 in D]; discriminate.
Qed.

(** * C92: order *)
Section Good.
  Context {A : ring} {S : semantics A} (L : lawful A S) (mag_up : arf -> arf) (Hm : mag_up_ok mag_up) (Ht : mag_up_tight mag_up).
  Variables (garb : gen -> Z -> arb) (carb : car A -> Z -> arb) (rho : Z -> R) (p : par A) (gs : list gen).
  Hypotheses (HI : independent S p rho gs) (HB : good_balls S p garb carb rho gs).
  Lemma good_elem x : among S p gs x -> enclosing_balls S garb carb rho x /\ shrinking_balls S garb carb x.
  Proof.
    intros ((W & P & Q) & I). destruct HB as (B1 & B2 & B3 & B4). unfold enclosing_balls, shrinking_balls. rewrite P. split; split; auto.
    intros g prec Hg. apply B1. apply I, Hg.
  Qed.
  Lemma richcmp_decides x y op : among S p gs x -> among S p gs y -> exists b, eventually (fun rounds => py_richcmp mag_up garb carb rounds op x y) (Returns b) /\ (b = true <-> relation_of op (value S rho x) (value S rho y)).
  Proof.
    intros Hx Hy. destruct (good_elem x Hx) as [Ex Cx]. destruct (good_elem y Hy) as [Ey Cy].
    destruct (C32_elements A S L mag_up Hm Ht garb carb rho p gs HI x y Hx Hy Ex Cx Ey Cy) as (l & e & g & [N Hl] & He & _ & Dl & De & _).
    exists (rich_to_bool op (if l then Lt else if e then Eq else Gt)). split.
    - exists N. intros n Hn. unfold py_richcmp. rewrite (Hl n Hn), He. destruct l, e; reflexivity.
    - destruct l; [assert (V : value S rho x < value S rho y) by (apply Dl; reflexivity)|assert (V : ~ value S rho x < value S rho y) by (intros V; apply Dl in V; discriminate)].
      + destruct op; cbn; intuition (try discriminate; lra).
      + destruct e; [assert (V' : value S rho x = value S rho y) by (apply De; reflexivity)|assert (V' : value S rho x <> value S rho y) by (intros V'; apply De in V'; discriminate)];
          destruct op; cbn; intuition (try discriminate; lra).
  Qed.
  Lemma py_zero_among : In (GRat 1) gs -> exists o, py_zero (A := A) p = Returns o /\ among S p gs o /\ forall r, value S r o = 0.
  Proof.
    intros I1. destruct (py_zero_spec L p) as (o & Eo & Ho & Vo). exists o. split; [exact Eo|]. split; [|exact Vo]. split; [exact Ho|].
    destruct (py_rational_spec L p) as (u & Eu & Hu & _). unfold py_zero, py_coerce in Eo. rewrite Eu in Eo. cbn [py_bind] in Eo. unfold py_lmul in Eo.
    destruct (smul u (SE (czero A))) as [o'|] eqn:E; [|discriminate]. injection Eo as ->.
    assert (M0 : smem S (mring (emodule u)) (SE (czero A))) by (destruct (L_zero A S L (mring (emodule u))); assumption).
    destruct (smul_spec A S L u (SE (czero A)) o (proj1 Hu) M0 E) as (_ & -> & _). unfold py_rational in Eu. cbn in Eu. injection Eu as <-. intros g [<-|[]]. exact I1.
  Qed.
  Lemma cmp_zero_decides x op : In (GRat 1) gs -> among S p gs x -> exists b, eventually (fun rounds => py_cmp_zero mag_up garb carb rounds op p x) (Returns b) /\ (b = true <-> relation_of op (value S rho x) 0).
  Proof.
    intros I1 Hx. destruct (py_zero_among I1) as (o & Eo & Ho & Vo). destruct (richcmp_decides x o op Hx Ho) as (b & [N H] & D). rewrite Vo in D. exists b. split; [|exact D].
    exists N. intros n Hn. unfold py_cmp_zero. rewrite Eo. exact (H n Hn).
  Qed.
  Lemma zero_iff x : among S p gs x -> (value S rho x = 0 <-> constant S x 0).
  Proof.
    intros Hx. split; [|intros K; apply K]. intros V. pose proof Hx as ((W & P & _) & I). pose proof (HI x W P I V) as F.
    unfold constant. apply (nonzero_false L p x (proj1 Hx)). unfold nonzero. apply not_true_is_false. intros K. apply existsb_exists in K. destruct K as (c & Ic & K).
    rewrite Forall_forall in F. rewrite (F c Ic) in K. unfold cz in K. rewrite (proj2 (L_eqb A S L (czero A) (czero A)) eq_refl) in K. discriminate.
  Qed.
  Lemma divides_returns x y : In (GRat 1) gs -> among S p gs x -> among S p gs y -> exists b, eventually (fun n => py_divides mag_up garb carb n n p x y) (Returns b) /\ (b = true <-> divisor S p x y).
  Proof.
    intros I1 Hx Hy. destruct (cmp_zero_decides x OpEq I1 Hx) as (b & [N Hb] & Db). destruct (cmp_zero_decides y OpEq I1 Hy) as (c & [M Hc] & _).
    assert (K : exists r, eventually (fun n => py_divides mag_up garb carb n n p x y) r).
    { destruct b.
      - exists (Returns c). exists (Nat.max N M). intros n Hn. unfold py_divides. rewrite (Hb n ltac:(lia)). cbn [py_then]. apply Hc. lia.
      - assert (Nx : ~ constant S x 0) by (intros K; apply (zero_iff x Hx) in K; apply Db in K; discriminate).
        destruct (py_div_spec L p y x (proj1 Hy) (proj1 Hx) Nx) as [(z & [F Ez] & _)|[[F Ez] _]]; [exists (Returns true)|exists (Returns false)]; exists (Nat.max N F); intros n Hn;
          unfold py_divides; rewrite (Hb n ltac:(lia)); cbn [py_then]; rewrite (Ez n ltac:(lia)); reflexivity. }
    destruct K as [r [n K]]. pose proof (C91_divides A S L mag_up garb carb n n p x y (proj1 Hx) (proj1 Hy)) as D. rewrite (K n (Nat.le_refl n)) in D. destruct r as [d|]; [|contradiction].
    exists d. split; [exists n; exact K|exact D].
  Qed.
End Good.
(** All six comparisons return and are right; so is the test for zero. *)
Theorem C92_order : forall A S, lawful A S -> forall mag_up, mag_up_ok mag_up -> mag_up_tight mag_up -> forall garb carb rho (p : par A) gs, independent S p rho gs -> good_balls S p garb carb rho gs ->
  forall x y op, among S p gs x -> among S p gs y ->
  exists b, eventually (fun rounds => py_richcmp mag_up garb carb rounds op x y) (Returns b) /\ (b = true <-> relation_of op (value S rho x) (value S rho y)).
Proof. intros A S L mag_up Hm Ht garb carb rho p gs HI HB x y op Hx Hy. exact (richcmp_decides L mag_up Hm Ht garb carb rho p gs HI HB x y op Hx Hy). Qed.
(** abs() *)
Theorem C92_abs : forall A S, lawful A S -> forall mag_up, mag_up_ok mag_up -> mag_up_tight mag_up -> forall garb carb rho (p : par A) gs, independent S p rho gs -> good_balls S p garb carb rho gs -> In (GRat 1) gs ->
  forall x, among S p gs x -> exists z, eventually (fun rounds => py_abs mag_up garb carb rounds p x) (Returns z) /\ standard S p z /\ value S rho z = Rabs (value S rho x).
Proof.
  intros A S L mag_up Hm Ht garb carb rho p gs HI HB I1 x Hx. destruct (cmp_zero_decides L mag_up Hm Ht garb carb rho p gs HI HB x OpGe I1 Hx) as (b & [N H] & D). destruct b.
  - exists x. assert (K : value S rho x >= 0) by (apply D; reflexivity). split; [|split; [exact (proj1 Hx)|rewrite Rabs_pos_eq; lra]]. exists N. intros n Hn. unfold py_abs. rewrite (H n Hn). reflexivity.
  - assert (K : ~ value S rho x >= 0) by (intros K; apply D in K; discriminate). destruct (py_neg_spec L p x (proj1 Hx)) as (z & Ez & Hz & Vz). exists z.
    split; [|split; [exact Hz|rewrite Vz, Rabs_left; lra]]. exists N. intros n Hn. unfold py_abs. rewrite (H n Hn). cbn [py_then]. rewrite Ez. reflexivity.
Qed.
(** floor(), ceil() and // return the right integers. *)
Theorem C92_integer_parts : forall A S, lawful A S -> floors_integers S -> forall mag_up, mag_up_ok mag_up -> mag_up_tight mag_up -> forall garb carb rho (p : par A) gs, independent S p rho gs -> good_balls S p garb carb rho gs -> In (GRat 1) gs ->
  forall x y, among S p gs x -> among S p gs y ->
  (exists n, eventually (fun rounds => py_floor mag_up garb carb rounds x) (Returns n) /\ the_floor n (value S rho x)) /\
  (exists n, eventually (fun rounds => py_ceil mag_up garb carb rounds x) (Returns n) /\ the_ceil n (value S rho x)) /\
  (value S rho y <> 0 -> exists n, eventually (fun rounds => py_floordiv mag_up garb carb rounds x y) (Returns n) /\ the_floor n (value S rho x / value S rho y)).
Proof.
  intros A S L HF mag_up Hm Ht garb carb rho p gs HI HB I1 x y Hx Hy. destruct (good_elem garb carb rho p gs HB x Hx) as [Ex Cx]. destruct (good_elem garb carb rho p gs HB y Hy) as [Ey Cy].
  destruct (C31_returns A S L mag_up Hm Ht garb carb rho p gs HI I1 x Hx Ex Cx) as (n & m & [N Hn] & [M Hm']). split; [|split].
  - exists n. split; [exists N; intros k Hk; unfold py_floor; rewrite (Hn k Hk); reflexivity|]. apply (C31_floor A S L mag_up Hm garb carb rho x (proj1 (proj1 Hx)) Ex N n (Hn N (Nat.le_refl N))).
  - exists m. split; [exists M; intros k Hk; unfold py_ceil; rewrite (Hm' k Hk); reflexivity|]. apply (C31_ceil A S L mag_up Hm garb carb rho x (proj1 (proj1 Hx)) Ex M m (Hm' M (Nat.le_refl M))).
  - intros Ny. destruct (C29_returns A S L HF mag_up Hm Ht garb carb rho p gs HI x y Hx Hy Ex Cx Ey Cy Ny) as (k & K & Hk). exists k.
    split; [exists K; intros j Hj; unfold py_floordiv; rewrite (Hk j Hj); reflexivity|].
    assert (R : mring (emodule y) = mring (emodule x)) by (destruct Hx as ((_ & P & _) & _), Hy as ((_ & P' & _) & _); congruence).
    apply (C29_sound A S L mag_up Hm garb carb rho x y (proj1 (proj1 Hx)) (proj1 (proj1 Hy)) R Ex Ey Ny K k (Hk K (Nat.le_refl K))).
Qed.
Theorem C91_divides_returns : forall A S, lawful A S -> forall mag_up, mag_up_ok mag_up -> mag_up_tight mag_up -> forall garb carb rho (p : par A) gs, independent S p rho gs -> good_balls S p garb carb rho gs -> In (GRat 1) gs ->
  forall x y, among S p gs x -> among S p gs y -> exists b, eventually (fun n => py_divides mag_up garb carb n n p x y) (Returns b) /\ (b = true <-> divisor S p x y).
Proof. intros A S L mag_up Hm Ht garb carb rho p gs HI HB I1 x y Hx Hy. exact (divides_returns L mag_up Hm Ht garb carb rho p gs HI HB x y I1 Hx Hy). Qed.

(** gcd() returns or gives up. *)
Theorem C91_gcd_returns : forall A S, lawful A S -> forall mag_up, mag_up_ok mag_up -> mag_up_tight mag_up -> forall garb carb rho (p : par A) gs, independent S p rho gs -> good_balls S p garb carb rho gs -> In (GRat 1) gs ->
  forall x y, among S p gs x -> among S p gs y -> exists r, eventually (fun n => py_gcd mag_up garb carb n n p x y) r /\
  match r with
  | Returns g => divisor S p g x /\ divisor S p g y /\ (forall d, standard S p d -> divisor S p d x -> divisor S p d y -> divisor S p d g)
  | Raises e => e = PyNotImplementedError /\ ~ divisor S p x y /\ ~ divisor S p y x
  end.
Proof.
  intros A S L mag_up Hm Ht garb carb rho p gs HI HB I1 x y Hx Hy.
  assert (R : exists r, eventually (fun n => py_gcd mag_up garb carb n n p x y) r).
  { destruct (C91_divides_returns A S L mag_up Hm Ht garb carb rho p gs HI HB I1 x y Hx Hy) as (b1 & [n1 E1] & _).
    destruct (C91_divides_returns A S L mag_up Hm Ht garb carb rho p gs HI HB I1 y x Hy Hx) as (b2 & [n2 E2] & _).
    exists (if b1 then Returns x else if b2 then Returns y else Raises PyNotImplementedError). exists (n1 + n2)%nat. intros n Hn.
    unfold py_gcd. rewrite (E1 n) by lia. cbn [py_then]. destruct b1; [reflexivity|]. rewrite (E2 n) by lia. cbn [py_then]. destruct b2; reflexivity. }
  destruct R as [r [N E]]. exists r. split; [exists N; exact E|].
  pose proof (C91_gcd A S L mag_up garb carb N N p x y (proj1 Hx) (proj1 Hy)) as G. rewrite (E N (Nat.le_refl N)) in G. destruct r as [g|e]; [|exact G]. destruct G as (_ & G1 & G2 & G3). auto.
Qed.

(** * C93: conversions *)
Theorem C93_integer : forall A S, lawful A S -> forall (p : par A) x, standard S p x ->
  (forall n, py_integer x = Returns n <-> constant S x (IZR n)) /\ (forall e, py_integer x = Raises e <-> e = PyTypeError /\ ~ exists n, constant S x (IZR n)).
Proof.
  intros A S L p x Hx. pose proof (fun n => to_integer_spec A S L x n (proj1 Hx) (standard_no_zero A S p x Hx)) as T. unfold py_integer. split.
  - intros n. unfold constant. rewrite <- T. destruct (to_integer x); split; intros [= ->]; reflexivity.
  - intros e. destruct (to_integer x) as [m|] eqn:E; split; try discriminate.
    + intros [_ K]. exfalso. apply K. exists m. unfold constant. apply T. reflexivity.
    + intros [= <-]. split; [reflexivity|]. intros [n K]. apply T in K. discriminate.
    + intros [-> _]. reflexivity.
Qed.
Theorem C93_rational : forall A S, lawful A S -> forall (p : par A) x, standard S p x ->
  (forall q, py_as_rational x = Returns q <-> constant S x (Q2R q)) /\ (forall e, py_as_rational x = Raises e <-> e = PyTypeError /\ ~ exists q : Qc, constant S x (Q2R q)).
Proof.
  intros A S L p x Hx. pose proof (fun n => to_rational_spec A S L x n (proj1 Hx) (standard_no_zero A S p x Hx)) as T. unfold py_as_rational. split.
  - intros n. unfold constant. rewrite <- T. destruct (to_rational x); split; intros [= ->]; reflexivity.
  - intros e. destruct (to_rational x) as [m|] eqn:E; split; try discriminate.
    + intros [_ K]. exfalso. apply K. exists m. unfold constant. apply T. reflexivity.
    + intros [= <-]. split; [reflexivity|]. intros [n K]. apply T in K. discriminate.
    + intros [-> _]. reflexivity.
Qed.
(** Conversion to algebraic numbers. *)
Theorem C93_algebraic : forall A S, lawful A S -> forall (p : par A) x, standard S p x ->
  (forall v, py_algebraic S x = Returns v <-> constant S x v) /\ (forall e, py_algebraic S x = Raises e <-> e = PyTypeError /\ ~ exists v, constant S x v).
Proof.
  intros A S L p x Hx. pose proof (py_algebraic_spec L p x Hx) as H. destruct (py_algebraic S x) as [w|e'].
  - split; intros v; split; try discriminate.
    + intros [= <-]. exact H.
    + intros K. f_equal. rewrite <- (K (fun _ => 0)). symmetry. apply H.
    + intros [_ K]. exfalso. apply K. exists w. exact H.
  - destruct H as [-> N]. split; intros v; split; try discriminate.
    + intros K. exfalso. exact (N v K).
    + intros [= <-]. split; [reflexivity|]. intros [u K]. exact (N u K).
    + intros [-> _]. reflexivity.
Qed.
(** is_square(): of the numbers that are integers or rational numbers, it finds those that are squares in the ring. *)
Lemma mons_val_int ms : exists n, mons_val (fun _ => 0) ms = IZR n.
Proof.
  induction ms as [|[i e] ms [n IH]]; cbn [mons_val]; [exists 1%Z; reflexivity|]. destruct e; cbn [pow]; rewrite IH; [exists n|exists 0%Z]; lra.
Qed.
Lemma gen_val_int g : (forall q, g = GRat q -> q = 1%Qc) -> exists n, gen_val (fun _ => 0) g = IZR n.
Proof.
  intros Hq. destruct g as [q|i|ms]; cbn [gen_val].
  - rewrite (Hq q eq_refl). exists 1%Z. unfold Q2R. cbn. lra.
  - exists 0%Z. reflexivity.
  - apply mons_val_int.
Qed.
Lemma value_int p (z : elem int_ring) : standard int_sem p z -> exists n, value int_sem (fun _ => 0) z = IZR n.
Proof.
  intros (_ & _ & Q). unfold value. revert Q. generalize (coeffs z). generalize (basis (emodule z)). intros gs. induction gs as [|g gs IH]; intros [|c cs] Q; cbn [combination]; try (exists 0%Z; reflexivity).
  destruct (IH cs) as [n E]; [intros q I; apply Q; right; exact I|]. destruct (gen_val_int g) as [m G]; [intros q ->; apply Q; left; reflexivity|].
  exists (c * m + n)%Z. rewrite E, G. cbn [val int_sem]. rewrite plus_IZR, mult_IZR. lra.
Qed.
Lemma value_rat p (z : elem rat_ring) : standard rat_sem p z -> exists q : Qc, value rat_sem (fun _ => 0) z = Q2R q.
Proof.
  intros (_ & _ & Q). unfold value. revert Q. generalize (coeffs z). generalize (basis (emodule z)). intros gs. induction gs as [|g gs IH]; intros [|c cs] Q; cbn [combination]; try (exists 0%Qc; rewrite Q2R_Qc_0; reflexivity).
  destruct (IH cs) as [n E]; [intros q I; apply Q; right; exact I|]. destruct (gen_val_int g) as [m G]; [intros q ->; apply Q; left; reflexivity|].
  exists (c * Qc_of_Z m + n)%Qc. rewrite E, G. cbn [val rat_sem]. rewrite Q2R_Qc_plus, Q2R_Qc_mult, Q2R_Qc_of_Z. lra.
Qed.
Lemma Z_is_square_iff n : Z_is_square n = true <-> exists m, (m * m = n)%Z.
Proof.
  unfold Z_is_square. rewrite andb_true_iff, Z.leb_le, Z.eqb_eq. split.
  - intros [_ E]. exists (Z.sqrt n). exact E.
  - intros [m <-]. split; [nia|]. replace (m * m)%Z with (Z.abs m * Z.abs m)%Z by nia. rewrite Z.sqrt_square by lia. reflexivity.
Qed.
Lemma Q_is_square_iff (q : Qc) : Q_is_square q = true <-> exists r : Qc, (r * r = q)%Qc.
Proof.
  unfold Q_is_square. rewrite andb_true_iff, !Z_is_square_iff. split.
  - intros [[a Ha] [b Hb]]. unfold qc_num, qc_den in *. assert (Nb : b <> 0%Z) by (intros ->; lia). exists (Qc_of_Z a / Qc_of_Z b)%Qc.
    assert (Nb' : Qc_of_Z b <> 0%Qc). { intros K. apply Nb. apply eq_IZR. rewrite <- Q2R_Qc_of_Z, K. apply Q2R_Qc_0. }
    apply Q2R_Qc_inj. rewrite Q2R_Qc_mult, !Q2R_Qc_div by exact Nb'. rewrite !Q2R_Qc_of_Z. unfold Q2R. rewrite <- Ha, <- Hb, !mult_IZR. field. apply IZR_neq, Nb.
  - intros [r <-]. unfold qc_num, qc_den. pose proof (Qred_identity2 _ (canon r)) as G.
    assert (E : this (r * r)%Qc = (this r * this r)%Q).
    { change (Qred (this r * this r) = (this r * this r)%Q). apply Qred_identity. cbn [Qmult Qnum Qden]. rewrite Pos2Z.inj_mul.
      apply Zgcd_1_rel_prime in G. apply Zgcd_1_rel_prime. apply rel_prime_mult; apply rel_prime_sym, rel_prime_mult; apply rel_prime_sym, G. }
    rewrite E. cbn [Qmult Qnum Qden]. split; [exists (Qnum (this r)); reflexivity|exists (Zpos (Qden (this r))); rewrite Pos2Z.inj_mul; reflexivity].
Qed.
Theorem C93_is_square_ZZ : forall p x, standard int_sem p x ->
  (forall b, py_is_square_ZZ x = Returns b -> (b = true <-> square_in int_sem p x)) /\
  (forall e, py_is_square_ZZ x = Raises e <-> e = PyNotImplementedError /\ ~ exists n, constant int_sem x (IZR n)).
Proof.
  intros p x Hx. destruct (C93_integer _ _ int_lawful p x Hx) as [H1 H2]. unfold py_is_square_ZZ, py_is_square. destruct (py_integer x) as [n|e] eqn:E.
  - pose proof (proj1 (H1 n) eq_refl) as V. split; [|intros e; split; [discriminate|intros [_ K]; exfalso; apply K; exists n; exact V]].
    intros b [= <-]. rewrite Z_is_square_iff. split.
    + intros [m Em]. destruct (py_coerce_spec int_lawful p m Logic.I) as (z & _ & Hz & Vz). exists z. split; [exact Hz|]. intros rho. rewrite Vz, V. cbn [val int_sem]. rewrite <- mult_IZR, Em. reflexivity.
    + intros (z & Hz & K). destruct (value_int p z Hz) as [m Em]. exists m. apply eq_IZR. rewrite mult_IZR, <- Em, K. apply V.
  - destruct (proj1 (H2 e) eq_refl) as [-> N]. split; [discriminate|]. intros e. split; [intros [= <-]; auto|intros [-> _]; reflexivity].
Qed.
Theorem C93_is_square_QQ : forall p x, standard rat_sem p x ->
  (forall b, py_is_square_QQ x = Returns b -> (b = true <-> square_in rat_sem p x)) /\
  (forall e, py_is_square_QQ x = Raises e <-> e = PyNotImplementedError /\ ~ exists q : Qc, constant rat_sem x (Q2R q)).
Proof.
  intros p x Hx. destruct (C93_rational _ _ rat_lawful p x Hx) as [H1 H2]. unfold py_is_square_QQ, py_is_square. destruct (py_as_rational x) as [n|e] eqn:E.
  - pose proof (proj1 (H1 n) eq_refl) as V. split; [|intros e; split; [discriminate|intros [_ K]; exfalso; apply K; exists n; exact V]].
    intros b [= <-]. rewrite Q_is_square_iff. split.
    + intros [m Em]. destruct (py_coerce_spec rat_lawful p m Logic.I) as (z & _ & Hz & Vz). exists z. split; [exact Hz|]. intros rho. rewrite Vz, V. cbn [val rat_sem]. rewrite <- Em, Q2R_Qc_mult. reflexivity.
    + intros (z & Hz & K). destruct (value_rat p z Hz) as [m Em]. exists m. apply Q2R_Qc_inj. rewrite Q2R_Qc_mult, <- Em, K. apply V.
  - destruct (proj1 (H2 e) eq_refl) as [-> N]. split; [discriminate|]. intros e. split; [intros [= <-]; auto|intros [-> _]; reflexivity].
Qed.

(** * Concrete cases *)
Local Notation garb0 := (ideal_garb root2).
Lemma good2 : good_balls int_sem tt garb0 int_arb root2 gens2.
Proof. split; [apply ideal_garb_enclosed|]. split; [intros g _; apply ideal_garb_shrinks|]. split; [apply int_arb_encloses|intros c _; apply int_arb_shrinks]. Qed.
Example C90_case : exists z, py_mul zx zy = Returns z /\ py_equal (py_mul zy zx) (Returns z) /\ value int_sem root2 z = 20 + 15 * sqrt (IZR 2).
Proof.
  destruct (C90_operations _ _ int_lawful tt zx zy (proj1 zx_among) (proj1 zy_among)) as (_ & _ & (z & Ez & Hz & Vz) & _).
  destruct (C90_operations _ _ int_lawful tt zy zx (proj1 zy_among) (proj1 zx_among)) as (_ & _ & (w & Ew & Hw & Vw) & _).
  exists z. split; [exact Ez|]. split; [apply (py_equal_of _ _ int_lawful tt w z); auto; intros rho; rewrite Vw, Vz; ring|].
  rewrite Vz, zx_value, zy_value. pose proof (sqrt_sqrt (IZR 2) ltac:(lra)) as E. nra.
Qed.
(** 2 divides 6, but not the other way round; gcd finds this. *)
Definition two : elem int_ring := mkElem (A := int_ring) (mkModule (A := int_ring) [GRat 1] tt) [2]%Z.
Definition six : elem int_ring := mkElem (A := int_ring) (mkModule (A := int_ring) [GRat 1] tt) [6]%Z.
Lemma const_among n : among int_sem tt gens2 (mkElem (A := int_ring) (mkModule (A := int_ring) [GRat 1] tt) [n]).
Proof.
  split; [|intros g [<-|[]]; exact in1]. split; [|split; [reflexivity|intros q [[= <-]|[]]; reflexivity]].
  split; [split; [constructor; [exact Logic.I|constructor]|cbn; tauto]|]. split; [reflexivity|]. constructor; [exact Logic.I|constructor].
Qed.
Lemma const_value n rho : value int_sem rho (mkElem (A := int_ring) (mkModule (A := int_ring) [GRat 1] tt) [n]) = IZR n.
Proof. unfold value. cbn. replace (Q2R 1) with 1 by (unfold Q2R; cbn; lra). ring. Qed.
Definition garb1 (_ : gen) (_ : Z) : arb := mkArb (mkArf 1 0) (Some (mkArf 0 0)).
Example C91_case : py_divides (A := int_ring) up30 garb1 int_arb 9 9 tt two six = Some (Returns true) /\ py_divides (A := int_ring) up30 garb1 int_arb 9 9 tt six two = Some (Returns false) /\ py_gcd (A := int_ring) up30 garb1 int_arb 9 9 tt six two = Some (Returns two) /\
  divisor int_sem tt two six /\ ~ divisor int_sem tt six two.
Proof.
  assert (E1 : py_divides (A := int_ring) up30 garb1 int_arb 9 9 tt two six = Some (Returns true)) by (vm_compute; reflexivity).
  assert (E2 : py_divides (A := int_ring) up30 garb1 int_arb 9 9 tt six two = Some (Returns false)) by (vm_compute; reflexivity).
  split; [exact E1|]. split; [exact E2|]. split; [vm_compute; reflexivity|]. split.
  - pose proof (C91_divides _ _ int_lawful up30 garb1 int_arb 9%nat 9%nat tt two six (proj1 (const_among 2%Z)) (proj1 (const_among 6%Z))) as D. rewrite E1 in D. apply D. reflexivity.
  - pose proof (C91_divides _ _ int_lawful up30 garb1 int_arb 9%nat 9%nat tt six two (proj1 (const_among 6%Z)) (proj1 (const_among 2%Z))) as D. rewrite E2 in D. intros K. apply D in K. discriminate.
Qed.
(** 3 + 2 sqrt 2 < 5 sqrt 2, and the absolute value of the difference *)
Example C92_case : eventually (fun rounds => py_richcmp (A := int_ring) up30 garb0 int_arb rounds OpGe zy zx) (Returns true) /\
  exists d a, py_sub zx zy = Returns d /\ eventually (fun rounds => py_abs (A := int_ring) up30 garb0 int_arb rounds tt d) (Returns a) /\ value int_sem root2 a = 3 * sqrt (IZR 2) - 3.
Proof.
  pose proof sqrt2_bounds as B. split.
  - destruct (C92_order _ _ int_lawful up30 up30_ok up30_tight garb0 int_arb root2 tt gens2 independent2 good2 zy zx OpGe zy_among zx_among) as (b & E & D). replace true with b; [exact E|]. apply D. unfold relation_of. rewrite zx_value, zy_value. lra.
  - destruct (C90_operations _ _ int_lawful tt zx zy (proj1 zx_among) (proj1 zy_among)) as (_ & (d & Ed & Hd & Vd) & _). exists d.
    assert (Ad : among int_sem tt gens2 d). { split; [exact Hd|]. vm_compute in Ed. injection Ed as <-. intros g Hg. exact Hg. }
    destruct (C92_abs _ _ int_lawful up30 up30_ok up30_tight garb0 int_arb root2 tt gens2 independent2 good2 in1 d Ad) as (a & Ea & _ & Va). exists a. split; [exact Ed|]. split; [exact Ea|].
    rewrite Va, Vd, zx_value, zy_value, Rabs_left; lra.
Qed.
Example C92_parts_case : eventually (fun rounds => py_floor (A := int_ring) up30 garb0 int_arb rounds zx) (Returns 5%Z) /\ eventually (fun rounds => py_floordiv (A := int_ring) up30 garb0 int_arb rounds zy zx) (Returns 1%Z).
Proof.
  pose proof sqrt2_bounds as B. split.
  - destruct (C92_integer_parts _ _ int_lawful int_floors_integers up30 up30_ok up30_tight garb0 int_arb root2 tt gens2 independent2 good2 in1 zx zy zx_among zy_among) as ((n & En & Ln & Un) & _). replace 5%Z with n; [exact En|].
    rewrite zx_value in Ln, Un. assert (IZR n < 6) by lra. assert (4 < IZR n) by lra. apply lt_IZR in H. apply lt_IZR in H0. lia.
  - destruct (C92_integer_parts _ _ int_lawful int_floors_integers up30 up30_ok up30_tight garb0 int_arb root2 tt gens2 independent2 good2 in1 zy zx zy_among zx_among) as (_ & _ & H).
    rewrite zx_value in H. destruct H as (n & En & Ln & Un); [lra|]. replace 1%Z with n; [exact En|]. rewrite zy_value in Ln, Un.
    assert (Q : 1 < 5 * sqrt (IZR 2) / (3 + 2 * sqrt (IZR 2)) < 2). { assert (D : 0 < 3 + 2 * sqrt (IZR 2)) by lra. split; apply (Rmult_lt_reg_r (3 + 2 * sqrt (IZR 2))); try exact D; unfold Rdiv; rewrite Rmult_assoc, Rinv_l by lra; lra. }
    assert (H1 : IZR n < 2) by lra. assert (H0 : 0 < IZR n) by lra. apply lt_IZR in H1. apply lt_IZR in H0. lia.
Qed.
(** 3 + 2 X is no constant; 6 is an integer, but no square, 4 is. *)
Example C93_case : standard int_sem tt zx /\ py_integer zx = Raises PyTypeError /\ py_algebraic int_sem zx = Raises PyTypeError /\ py_is_square_ZZ zx = Raises PyNotImplementedError /\
  py_integer six = Returns 6%Z /\ py_is_square_ZZ six = Returns false /\ py_is_square_ZZ (mkElem (A := int_ring) (mkModule (A := int_ring) [GRat 1] tt) [4]%Z) = Returns true /\
  (exists v, py_algebraic int_sem six = Returns v /\ v = 6) /\ Q_is_square (Q2Qc (4 # 9)) = true /\ Q_is_square (Q2Qc (2 # 9)) = false.
Proof.
  split; [exact (proj1 zx_among)|]. split; [reflexivity|]. split; [apply (proj2 (C93_algebraic _ _ int_lawful tt zx (proj1 zx_among))); split; [reflexivity|]|].
  - intros [v V]. pose proof (V (fun _ => 0)) as V0. pose proof (V (fun _ => 1)) as V1. unfold value in V0, V1. cbn in V0, V1. lra.
  - split; [reflexivity|]. split; [vm_compute; reflexivity|]. split; [vm_compute; reflexivity|]. split; [vm_compute; reflexivity|]. split; [exists 6; split; [|reflexivity]|split; vm_compute; reflexivity].
    apply (proj1 (C93_algebraic _ _ int_lawful tt six (proj1 (const_among 6%Z)))). intros rho. apply const_value.
Qed.
