(** Proofs about Py.v *)
From Coq Require Import ZArith QArith Qcanon Bool List Reals Qreals Lra Lia.
From Verif Require Import Arf Arb Gen SpecGen GenProofs Ring SpecRing RingProofs Module Element SpecModule ModuleProofs ElementProofs Independence ElementProofs2 ElementProofs3 Leading Division DivisionProofs PropElement PropDivision SpecArf SpecLoops Loops Py.
Import ListNotations.
Open Scope R_scope.

Section PyProofs.
  Context {A : ring} {S : semantics A} (L : lawful A S).
  Implicit Types x y z : elem A.

  Lemma std_simplify p x : standard S p x -> exists y, simplify x = Ok y /\ standard S p y /\ forall rho, value S rho y = value S rho x.
  Proof.
    intros (W & P & Q). destruct (simplify_spec A S L x W) as (y & E & Wy & Ry & V & B & _). exists y. split; [exact E|]. split; [|exact V].
    split; [exact Wy|]. split; [congruence|]. intros q I. apply B in I. destruct I as (c & I & _). apply Q. apply in_combine_l in I. exact I.
  Qed.
  Lemma equal_iff p x y b : standard S p x -> standard S p y -> equal x y = Ok b -> (b = true <-> forall rho, value S rho x = value S rho y).
  Proof. intros Hx Hy E. apply (C26_equal A S L x y b (proj1 Hx) (proj1 Hy) (standard_no_zero A S p x Hx) (standard_no_zero A S p y Hy) E). Qed.
  Lemma equal_ok p x y : standard S p x -> standard S p y -> exists b, equal x y = Ok b.
  Proof. intros Hx Hy. apply (C26_defined A S L x y (proj1 Hx) (proj1 Hy)). apply (standard_combinable A S p x y Hx Hy). Qed.
  Lemma nonzero_false p x : standard S p x -> (nonzero x = false <-> forall rho, value S rho x = 0).
  Proof.
    intros Hx. pose proof (C26_bool A S L x (proj1 Hx) (standard_no_zero A S p x Hx)) as E. split.
    - intros N rho. destruct (Req_dec (value S rho x) 0) as [Z|Z]; [exact Z|]. exfalso. assert (nonzero x = true) by (apply E; exists rho; exact Z). congruence.
    - intros N. destruct (nonzero x); [|reflexivity]. destruct (proj1 E eq_refl) as [rho K]. exfalso. apply K, N.
  Qed.

  (** Creating elements *)
  Lemma py_gen_spec p g : gen_wf g -> (forall q, g = GRat q -> q = 1%Qc) -> exists x, of_cpp (bind (make [g] p) (fun M => make_elem M [cone A])) = Returns x /\ standard S p x /\ forall rho, value S rho x = gen_val rho g.
  Proof.
    intros W Q. assert (E : make (A := A) [g] p = Ok (mkModule [g] p)) by (destruct g; reflexivity).
    exists (mkElem (mkModule [g] p) [cone A]). rewrite E. cbn [bind make_elem length rank basis Nat.eqb of_cpp]. split; [reflexivity|].
    destruct (L_one A S L p) as [M1 V1]. split; [|intros rho; unfold value; cbn [emodule coeffs basis combination]; rewrite V1; lra].
    split; [|split; [reflexivity|intros q [->|[]]; apply Q; reflexivity]]. split; [split; [constructor; [exact W|constructor]|cbn; tauto]|]. split; [reflexivity|]. constructor; [exact M1|constructor].
  Qed.
  Lemma py_rational_spec p : exists x, py_rational (A := A) p 1%Qc = Returns x /\ standard S p x /\ forall rho, value S rho x = 1.
  Proof.
    destruct (py_gen_spec p (GRat 1)) as (x & E & H & V); [exact Logic.I|congruence|]. exists x. split; [exact E|]. split; [exact H|]. intros rho. rewrite V. cbn. unfold Q2R. cbn. lra.
  Qed.
  Lemma py_lmul_spec p c x : mem S p c -> standard S p x -> exists y, py_lmul c x = Returns y /\ standard S p y /\ forall rho, value S rho y = val S c * value S rho x.
  Proof.
    intros M H. pose proof H as (W & P & Q). unfold py_lmul.
    assert (T : exists y, smul x (SE c) = Ok y).
    { unfold smul, scaled, imul_elem. destruct (scale_total A (fun c0 => imul c0 (SE c)) (fun c0 => imul_left c0 (SE c)) (coeffs x)) as (ds & E); [|rewrite E; eauto].
      intros d I. destruct W as (_ & _ & F). rewrite Forall_forall in F. pose proof (F d I) as Md. rewrite P in Md.
      pose proof (L_imul A S L p d (SE c) Md M) as K. destruct (imul d (SE c)) as [y|e]; [eauto|]. exfalso. apply K. exists (cmul d c). apply (L_mul A S L p d c Md M). }
    destruct T as [y E]. rewrite E. exists y. split; [reflexivity|]. assert (Ms : smem S (mring (emodule x)) (SE c)) by (rewrite P; exact M).
    destruct (smul_spec A S L x (SE c) y W Ms E) as (Wy & My & V). split; [|intros rho; rewrite V; cbn [sval]; lra].
    split; [exact Wy|]. rewrite My. split; [exact P|exact Q].
  Qed.
  Lemma py_coerce_spec p c : mem S p c -> exists x, py_coerce p c = Returns x /\ standard S p x /\ forall rho, value S rho x = val S c.
  Proof.
    intros M. destruct (py_rational_spec p) as (u & E & Hu & Vu). destruct (py_lmul_spec p c u M Hu) as (y & Ey & Hy & Vy).
    exists y. unfold py_coerce. rewrite E. cbn [py_bind]. split; [exact Ey|]. split; [exact Hy|]. intros rho. rewrite Vy, Vu. lra.
  Qed.
  Lemma py_zero_spec p : exists x, py_zero (A := A) p = Returns x /\ standard S p x /\ forall rho, value S rho x = 0.
  Proof. destruct (L_zero A S L p) as [M V]. destruct (py_coerce_spec p _ M) as (x & E & H & K). exists x. rewrite V in K. auto. Qed.
  Lemma py_one_spec p : exists x, py_one (A := A) p = Returns x /\ standard S p x /\ forall rho, value S rho x = 1.
  Proof. destruct (L_one A S L p) as [M V]. destruct (py_coerce_spec p _ M) as (x & E & H & K). exists x. rewrite V in K. auto. Qed.

  (** Conversion to algebraic numbers *)
  Lemma constant_rational x (v : R) : elem_wf S x -> (forall rho, value S rho x = v) -> forall g c, In (g, c) (combine (basis (emodule x)) (coeffs x)) -> c <> czero A -> rational g.
  Proof.
    intros Hx V g c I Nc. pose proof (rlist_wf A S x Hx) as Rx. pose proof Hx as ([Wx Ax] & Lx & Mx).
    assert (Wg : gen_wf g) by (apply in_combine_l in I; apply (proj1 (Forall_forall _ _) Wx g I)).
    assert (Hc : mem S (mring (emodule x)) c) by (apply in_combine_r in I; apply (proj1 (Forall_forall _ _) Mx c I)).
    pose proof (rcoef_in A S _ _ g c Ax I) as C.
    assert (U : rcoef (rlist A S x) g = rcoef [(v, GRat 1)] g).
    { apply rcoef_unique; [exact Rx|constructor; [exact Logic.I|constructor]| |exact Wg]. intros rho. rewrite rlist_value, V. cbn. unfold Q2R. cbn. field. }
    change (rl A S (basis (emodule x)) (coeffs x)) with (rlist A S x) in C. rewrite C in U. cbn [rcoef] in U.
    destruct (rational_dec g) as [K|K]; [exact K|]. exfalso. apply Nc. rewrite (same_mono_nonrational g 1 K) in U. apply (val_zero_iff A S L _ c Hc).
    destruct g; [exfalso; apply K; exact Logic.I| |]; cbn in U; lra.
  Qed.
  Lemma gen_as_rational (M : module A) j g : module_wf M -> no_zero_gen (basis M) -> nth_error (basis M) j = Some g ->
    exists u, module_gen M (Z.of_nat j) = Ok u /\ match g with GRat q => py_as_rational u = Returns q | _ => py_as_rational u = Raises PyTypeError end.
  Proof.
    intros HM Hz Hj. assert (Lj : (j < length (basis M))%nat) by (apply nth_error_Some; congruence).
    destruct (C35_generator_defined A M (Z.of_nat j)) as [u Eu]; [lia|]. exists u. split; [exact Eu|].
    destruct (module_gen_spec A S L M _ u HM Eu) as (Wu & Mu & g' & Eg & Vu & _). rewrite Nat2Z.id, Hj in Eg. injection Eg as <-.
    rewrite <- Mu in Hz. unfold py_as_rational. destruct (to_rational u) as [q|] eqn:E.
    - pose proof (proj1 (to_rational_spec A S L u q Wu Hz) E) as V.
      assert (K : rational g).
      { unfold module_gen, rank in Eu. destruct (_ && _) in Eu; [|discriminate]. injection Eu as Eu. rewrite Nat2Z.id in Eu.
        apply (constant_rational u _ Wu V g (cone A)).
        - rewrite Mu. rewrite <- Eu. cbn [coeffs]. unfold unit_vector. apply nth_error_In with (n := j).
          assert (Hc : nth_error (map (fun i => if Nat.eqb i j then cone A else czero A) (seq 0 (length (basis M)))) j = Some (cone A)).
          { rewrite nth_error_map. assert (nth_error (seq 0 (length (basis M))) j = Some j) as ->; [|cbn; rewrite Nat.eqb_refl; reflexivity].
            rewrite (nth_error_nth' _ O) by (rewrite seq_length; exact Lj). rewrite seq_nth by exact Lj. reflexivity. }
          revert Hj Hc. generalize (map (fun i => if Nat.eqb i j then cone A else czero A) (seq 0 (length (basis M)))). generalize (basis M). clear. induction j; intros [|a l] [|b m] H1 H2; try discriminate; cbn in *; [congruence|]. apply IHj; assumption.
        - intros K. destruct (L_one A S L (mring M)) as [_ V1]. rewrite K in V1. rewrite (val_zero A S L) in V1. lra. }
      destruct g as [r| |]; try contradiction. f_equal. apply Q2R_Qc_inj. rewrite <- (V (fun _ => 0)). rewrite Vu. reflexivity.
    - destruct g as [r| |]; try reflexivity. exfalso. rewrite (proj2 (to_rational_spec A S L u r Wu Hz)) in E; [discriminate|]. intros rho. rewrite Vu. reflexivity.
  Qed.
  Lemma algebraic_loop_spec (M : module A) : module_wf M -> no_zero_gen (basis M) -> forall gs pre cs (ret : R), basis M = pre ++ gs -> length cs = length gs ->
    match algebraic_loop S M (Z.of_nat (length pre)) cs ret with
    | Returns v => forall rho, v = ret + combination S rho gs cs
    | Raises e => e = PyTypeError /\ exists g c, In (g, c) (combine gs cs) /\ c <> czero A /\ ~ rational g
    end.
  Proof.
    intros HM Hz. induction gs as [|g gs IH]; intros pre [|c cs] ret Hb Hl; try discriminate; [intros rho; cbn; lra|].
    cbn [algebraic_loop]. assert (Hb' : basis M = (pre ++ [g]) ++ gs) by (rewrite <- app_assoc; exact Hb). injection Hl as Hl.
    assert (Hi : (Z.of_nat (length pre) + 1)%Z = Z.of_nat (length (pre ++ [g]))) by (rewrite app_length; cbn [length]; lia). rewrite Hi. destruct (cz c) eqn:Ec.
    - apply (cz_spec A S L) in Ec. subst c. specialize (IH (pre ++ [g]) cs ret Hb' Hl). destruct (algebraic_loop S M (Z.of_nat (length (pre ++ [g]))) cs ret) as [v|e].
      + intros rho. cbn [combination]. rewrite (val_zero A S L). rewrite (IH rho). ring.
      + destruct IH as (-> & h & d & I & Nd & K). split; [reflexivity|]. exists h, d. split; [right; exact I|auto].
    - apply (cz_false A S L) in Ec.
      destruct (gen_as_rational M (length pre) g HM Hz) as (u & Eu & Ru); [rewrite Hb, nth_error_app2, Nat.sub_diag by lia; reflexivity|]. rewrite Eu. cbn [of_cpp py_bind].
      destruct g as [q|m|m]; rewrite Ru; cbn [py_bind]; try (split; [reflexivity|]; eexists; exists c; split; [left; reflexivity|]; split; [exact Ec|intros K; exact K]).
      specialize (IH (pre ++ [GRat q]) cs (ret + val S c * Q2R q) Hb' Hl). destruct (algebraic_loop S M (Z.of_nat (length (pre ++ [GRat q]))) cs (ret + val S c * Q2R q)) as [v|e].
      + intros rho. cbn [combination gen_val]. rewrite (IH rho). ring.
      + destruct IH as (-> & h & d & I & Nd & K). split; [reflexivity|]. exists h, d. split; [right; exact I|auto].
  Qed.
  Lemma py_algebraic_spec p x : standard S p x -> match py_algebraic S x with Returns v => forall rho, value S rho x = v | Raises e => e = PyTypeError /\ forall v : R, ~ forall rho, value S rho x = v end.
  Proof.
    intros Hx. pose proof (proj1 Hx) as Wx. pose proof Wx as (HM & Hl & _). unfold py_algebraic.
    pose proof (algebraic_loop_spec (emodule x) HM (standard_no_zero A S p x Hx) (basis (emodule x)) [] (coeffs x) 0 eq_refl Hl) as H. cbn [length Z.of_nat] in H.
    destruct (algebraic_loop S (emodule x) 0 (coeffs x) 0) as [v|e].
    - intros rho. rewrite (H rho). unfold value. ring.
    - destruct H as (-> & g & c & I & Nc & K). split; [reflexivity|]. intros v V. apply K. apply (constant_rational x v Wx V g c I Nc).
  Qed.
  (** Arithmetic *)
  Lemma py_add_spec p x y : standard S p x -> standard S p y -> exists z, py_add x y = Returns z /\ standard S p z /\ forall rho, value S rho z = value S rho x + value S rho y.
  Proof. intros Hx Hy. destruct (std_add A S L p x y Hx Hy) as (z & E & H & V). exists z. unfold py_add. rewrite E. auto. Qed.
  Lemma py_sub_spec p x y : standard S p x -> standard S p y -> exists z, py_sub x y = Returns z /\ standard S p z /\ forall rho, value S rho z = value S rho x - value S rho y.
  Proof. intros Hx Hy. destruct (std_sub A S L p x y Hx Hy) as (z & E & H & V). exists z. unfold py_sub. rewrite E. auto. Qed.
  Lemma py_mul_spec p x y : standard S p x -> standard S p y -> exists z, py_mul x y = Returns z /\ standard S p z /\ forall rho, value S rho z = value S rho x * value S rho y.
  Proof.
    intros Hx Hy. destruct (std_mul A S L p x y Hx Hy) as (t & E & H & V). destruct (std_simplify p t H) as (z & Ez & Hz & Vz). exists z. unfold py_mul. rewrite E. cbn [bind]. rewrite Ez.
    split; [reflexivity|]. split; [exact Hz|]. intros rho. rewrite Vz, V. reflexivity.
  Qed.
  Lemma py_neg_spec p x : standard S p x -> exists z, py_neg x = Returns z /\ standard S p z /\ forall rho, value S rho z = - value S rho x.
  Proof. intros Hx. destruct (std_opp A S L p x Hx) as (H & V). exists (opp x). unfold py_neg. auto. Qed.

  (** Zero divisors *)
  Lemma domain p x y : standard S p x -> standard S p y -> (forall rho, value S rho x * value S rho y = 0) -> (forall rho, value S rho x = 0) \/ (forall rho, value S rho y = 0).
  Proof.
    intros Hx Hy Z. destruct (nonzero x) eqn:Nx; [|left; apply (nonzero_false p x Hx), Nx]. destruct (nonzero y) eqn:Ny; [|right; apply (nonzero_false p y Hy), Ny].
    left. destruct (std_mul A S L p x y Hx Hy) as (t & E & Ht & Vt).
    assert (T0 : nonzero t = false) by (apply (nonzero_false p t Ht); intros rho; rewrite Vt; apply Z).
    destruct (C28_terminates A S L p t y Ht Hy Ny) as (n & res & R). specialize (R n (Nat.le_refl n)).
    destruct (C28_product A S L p x y t n (Ok res) Hx Hy Ny E R) as (z & [= ->] & (a & b & [= <-] & [= <-] & Eab)).
    destruct (C28_sound A S L p t y z n Ht Hy R) as (Hz & Vz & _).
    pose proof (proj1 (equal_iff p z x true Hz Hx Eab) eq_refl) as Vzx.
    (* 0 / y == x, and 0 / y is also 0: the quotient 0 of C28_complete *)
    destruct (py_zero_spec p) as (o & _ & Ho & Vo).
    destruct (std_mul A S L p o y Ho Hy) as (oy & Eo & Hoy & Voy).
    assert (Sm : same (mul o y) (Ok t)) by (exists oy, t; split; [exact Eo|]; split; [reflexivity|]; apply (std_equal A S L p oy t Hoy Ht); intros rho; rewrite Voy, Vo, Vt, Z; lra).
    destruct (C28_complete A S L p t y o n _ Ht Hy Ho Ny Sm R) as (z' & [= <-] & (a & b & [= <-] & [= <-] & Ezo)).
    pose proof (proj1 (equal_iff p z o true Hz Ho Ezo) eq_refl) as Vzo. intros rho. rewrite <- Vzx, Vzo. apply Vo.
  Qed.

  (** Division *)
  Lemma py_div_zero p fuel x y : standard S p x -> standard S p y -> (forall rho, value S rho y = 0) -> py_div fuel x y = Some (Raises (CppException InvalidArgument)).
  Proof. intros Hx Hy Z. unfold py_div. rewrite (C28_zero A S L p x y fuel Hx Hy); [reflexivity|]. apply (nonzero_false p y Hy), Z. Qed.
  Lemma std_nonzero p y : standard S p y -> ~ (forall rho, value S rho y = 0) -> nonzero y = true.
  Proof. intros Hy N. destruct (nonzero y) eqn:E; [reflexivity|]. exfalso. apply N. apply (nonzero_false p y Hy), E. Qed.
  Lemma py_div_spec p x y : standard S p x -> standard S p y -> ~ (forall rho, value S rho y = 0) ->
    (exists z, eventually (fun fuel => py_div fuel x y) (Returns z) /\ standard S p z /\ forall rho, value S rho z * value S rho y = value S rho x) \/
    (eventually (fun fuel => py_div fuel x y) (Raises NotRepresentableError) /\ ~ exists z, standard S p z /\ forall rho, value S rho z * value S rho y = value S rho x).
  Proof.
    intros Hx Hy N. apply (std_nonzero p y Hy) in N. destruct (C28_terminates A S L p x y Hx Hy N) as (n & res & R). destruct res as [z|].
    - left. destruct (C28_sound A S L p x y z n Hx Hy (R n (Nat.le_refl n))) as (Hz & Vz & _). destruct (std_simplify p z Hz) as (w & Ew & Hw & Vw). exists w.
      split; [exists n; intros fuel Hf; unfold py_div; rewrite (R fuel Hf), Ew; reflexivity|]. split; [exact Hw|]. intros rho. rewrite Vw. apply Vz.
    - right. split; [exists n; intros fuel Hf; unfold py_div; rewrite (R fuel Hf); reflexivity|]. intros (w & Hw & Vw).
      destruct (std_mul A S L p w y Hw Hy) as (t & Et & Ht & Vt).
      assert (Sm : same (mul w y) (Ok x)) by (exists t, x; split; [exact Et|]; split; [reflexivity|]; apply (std_equal A S L p t x Ht Hx); intros rho; rewrite Vt; apply Vw).
      destruct (C28_complete A S L p x y w n _ Hx Hy Hw N Sm (R n (Nat.le_refl n))) as (z & K & _). discriminate.
  Qed.
  (** Whatever comes out of / is a quotient *)
  Lemma py_div_returned p fuel x y z : standard S p x -> standard S p y -> py_div fuel x y = Some (Returns z) -> standard S p z /\ forall rho, value S rho z * value S rho y = value S rho x.
  Proof.
    intros Hx Hy. unfold py_div. destruct (truediv fuel x y) as [[[w|]|e]|] eqn:E; try discriminate. destruct (C28_sound A S L p x y w fuel Hx Hy E) as (Hw & Vw & _).
    destruct (std_simplify p w Hw) as (v & Ev & Hv & Vv). rewrite Ev. cbn [of_cpp]. intros [= <-]. split; [exact Hv|]. intros rho. rewrite Vv. apply Vw.
  Qed.

  (** More fuel does not change the outcome *)
  Lemma truediv_more fuel n x y r : (fuel <= n)%nat -> truediv fuel x y = Some r -> truediv n x y = Some r.
  Proof.
    intros H. unfold truediv. destruct (eq_integer y 0); [auto|]. destruct (eq_integer y 1); [auto|]. destruct (common x y) as [[x' y']|e]; [|auto].
    unfold truediv_same. destruct (eq_integer y' 0); [auto|]. destruct (eq_integer y' 1); [auto|]. apply (div_loop_more A fuel _ _ _ _ _ n H).
  Qed.
  Lemma py_div_more fuel x y r : py_div fuel x y = Some r -> eventually (fun fuel => py_div fuel x y) r.
  Proof.
    intros H. exists fuel. intros n Hn. unfold py_div in *. destruct (truediv fuel x y) as [t|] eqn:E; [|discriminate]. rewrite (truediv_more fuel n x y t Hn E). exact H.
  Qed.

  Section Balls.
    Variables (mag_up : arf -> arf) (garb : gen -> Z -> arb) (carb : car A -> Z -> arb).
    Notation richcmp := (py_richcmp mag_up garb carb).
    (** == does not depend on the balls. *)
    Lemma richcmp_equal p x y : standard S p x -> standard S p y -> (forall rho, value S rho x = value S rho y) -> forall rounds op, richcmp rounds op x y = Some (Returns (rich_to_bool op Eq)).
    Proof.
      intros Hx Hy V rounds op. pose proof (std_equal A S L p x y Hx Hy V) as E. unfold py_richcmp, lt_elem, lt. rewrite E. reflexivity.
    Qed.
    Lemma richcmp_eq p x y rounds b : standard S p x -> standard S p y -> richcmp rounds OpEq x y = Some (Returns b) -> (b = true <-> forall rho, value S rho x = value S rho y).
    Proof.
      intros Hx Hy. destruct (equal_ok p x y Hx Hy) as [e E]. pose proof (equal_iff p x y e Hx Hy E) as D. unfold py_richcmp, lt_elem, lt. rewrite E. destruct e.
      - cbn. intros [= <-]. tauto.
      - destruct (lt_search mag_up garb carb rounds x (test_elem mag_up garb carb rounds y)) as [[|]|]; cbn; try discriminate; intros [= <-]; tauto.
    Qed.
    Lemma richcmp_ne p x y rounds b : standard S p x -> standard S p y -> richcmp rounds OpNe x y = Some (Returns b) -> (b = true <-> ~ forall rho, value S rho x = value S rho y).
    Proof.
      intros Hx Hy. destruct (equal_ok p x y Hx Hy) as [e E]. pose proof (equal_iff p x y e Hx Hy E) as D. unfold py_richcmp, lt_elem, lt. rewrite E. destruct e.
      - cbn. intros [= <-]. rewrite <- D. intuition discriminate.
      - destruct (lt_search mag_up garb carb rounds x (test_elem mag_up garb carb rounds y)) as [[|]|]; cbn; try discriminate; intros [= <-]; rewrite <- D; intuition discriminate.
    Qed.
    Lemma richcmp_no_raise p x y rounds op e : standard S p x -> standard S p y -> richcmp rounds op x y <> Some (Raises e).
    Proof.
      intros Hx Hy. destruct (equal_ok p x y Hx Hy) as [b E]. unfold py_richcmp, lt_elem, lt. rewrite E. destruct b; [discriminate|].
      destruct (lt_search mag_up garb carb rounds x (test_elem mag_up garb carb rounds y)) as [[|]|]; discriminate.
    Qed.
  End Balls.
End PyProofs.
