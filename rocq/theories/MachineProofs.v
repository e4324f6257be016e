(** Proofs about products with machine integers as exponents. *)
From Coq Require Import ZArith QArith Qcanon Bool List Lia.
From Verif Require Import Gen SpecGen GenProofs Machine SpecMachine.
Import ListNotations.
Open Scope Z_scope.

Definition up (ms : list (Z * nat)) : list (Z * Z) := map (fun m => (fst m, Z.of_nat (snd m))) ms.
Definition fits_mons (ms : list (Z * nat)) : Prop := forall i e, In (i, e) ms -> Z.of_nat e <= INT_MAX.

Lemma pow31 : 2 ^ 31 = 2147483648. Proof. reflexivity. Qed.
Lemma is_int_spec z : is_int z = true <-> - 2 ^ 31 <= z <= 2 ^ 31 - 1.
Proof. unfold is_int, INT_MIN, INT_MAX. rewrite andb_true_iff, !Z.leb_le. reflexivity. Qed.
Lemma is_int_nat e : Z.of_nat e <= INT_MAX -> is_int (Z.of_nat e) = true.
Proof. intros H. apply is_int_spec. unfold INT_MAX in H. rewrite pow31 in *. lia. Qed.
Lemma is_int_big e : INT_MAX < Z.of_nat e -> is_int (Z.of_nat e) = false.
Proof. intros H. apply not_true_is_false. rewrite is_int_spec. unfold INT_MAX in H. lia. Qed.

Lemma up_eqb l : forall r, mmons_eqb (up l) (up r) = mons_eqb l r.
Proof.
  induction l as [|[i e] l IH]; intros [|[j f] r]; try reflexivity. cbn [up map mmons_eqb mons_eqb fst snd]. fold (up l) (up r). rewrite IH.
  f_equal. f_equal. destruct (Z.eqb_spec (Z.of_nat e) (Z.of_nat f)); destruct (Nat.eqb_spec e f); try reflexivity; lia.
Qed.
Lemma stored_eqb x y : mgen_eqb (stored x) (stored y) = gen_eqb x y.
Proof. destruct x, y; try reflexivity. exact (up_eqb ms ms0). Qed.
Lemma stored_mons x : mmons (stored x) = up (mons x).
Proof. destruct x; reflexivity. Qed.

Lemma fits_cons i e l : fits_mons ((i, e) :: l) <-> Z.of_nat e <= INT_MAX /\ fits_mons l.
Proof.
  split.
  - intros H. split; [apply (H i e); left; reflexivity|]. intros j f Hj. apply (H j f). right. exact Hj.
  - intros [H1 H2] j f [E|Hj]; [injection E as <- <-; exact H1|exact (H2 j f Hj)].
Qed.

Section Over.
  Variable over : Z -> option Z.
  Lemma merge_machine l : forall r, fits_mons (merge l r) -> mmerge over (up l) (up r) = Some (up (merge l r)).
  Proof.
    induction l as [|[i e] l IH]; intros r; [destruct r; reflexivity|].
    induction r as [|[j f] r IHr]; [reflexivity|]. rewrite merge_cons. intros H.
    change (up ((i, e) :: l)) with ((i, Z.of_nat e) :: up l) in *. change (up ((j, f) :: r)) with ((j, Z.of_nat f) :: up r).
    cbn [mmerge]. destruct (i <? j).
    - apply fits_cons in H as [_ H]. change ((j, Z.of_nat f) :: up r) with (up ((j, f) :: r)). rewrite IH by exact H. reflexivity.
    - destruct (i =? j).
      + apply fits_cons in H as [H1 H]. rewrite <- Nat2Z.inj_add. unfold int_result. rewrite is_int_nat by exact H1. rewrite IH by exact H. reflexivity.
      + apply fits_cons in H as [_ H]. cbn [mmerge] in IHr. rewrite IHr by exact H. reflexivity.
  Qed.
  (** Whatever is stored after an overflow, it is not the product. *)
  Lemma opt_cons_some {T} (o : option T) l m : opt_cons o l = Some m -> exists a l', o = Some a /\ l = Some l' /\ m = a :: l'.
  Proof. destruct o as [a|]; [|discriminate]. destruct l as [l'|]; [|discriminate]. intros [= <-]. exists a, l'. auto. Qed.
  Lemma up_ints_fits ms : (forall i e, In (i, e) (up ms) -> - 2 ^ 31 <= e <= 2 ^ 31 - 1) -> fits_mons ms.
  Proof.
    intros H i e Hi. unfold INT_MAX. apply (H i (Z.of_nat e)). apply in_map_iff. exists (i, e). split; [reflexivity|exact Hi].
  Qed.
  Lemma merge_ints l : machine over -> forall r m, (forall i e, In (i, e) l -> - 2 ^ 31 <= e <= 2 ^ 31 - 1) -> (forall i e, In (i, e) r -> - 2 ^ 31 <= e <= 2 ^ 31 - 1) ->
    mmerge over l r = Some m -> forall i e, In (i, e) m -> - 2 ^ 31 <= e <= 2 ^ 31 - 1.
  Proof.
    intros Hm. assert (IR : forall z w, int_result over z = Some w -> - 2 ^ 31 <= w <= 2 ^ 31 - 1).
    { intros z w. unfold int_result. destruct (is_int z) eqn:E; [intros [= <-]; apply is_int_spec; exact E|apply Hm]. }
    induction l as [|[i e] l IH]; intros r m Hl Hr; [destruct r; intros [= <-]; assumption|].
    revert m. induction r as [|[j f] r IHr]; intros m; [intros [= <-]; assumption|].
    cbn [mmerge]. intros H k g. destruct (i <? j).
    - apply opt_cons_some in H as (a & l' & [= <-] & E & ->). intros [[= <- <-]|Hk]; [apply (Hl i e); left; reflexivity|].
      refine (IH _ _ _ Hr E k g Hk). intros a b Hab. apply (Hl a b). right. exact Hab.
    - destruct (i =? j).
      + apply opt_cons_some in H as (a & l' & E1 & E & ->). intros [->|Hk].
        * unfold with_exponent in E1. destruct (int_result over (e + f)) as [w|] eqn:Ew; [|discriminate]. injection E1 as <- <-. exact (IR _ _ Ew).
        * refine (IH _ _ _ _ E k g Hk); intros a' b Hab; [apply (Hl a' b); right; exact Hab|apply (Hr a' b); right; exact Hab].
      + apply opt_cons_some in H as (a & l' & [= <-] & E & ->). intros [[= <- <-]|Hk]; [apply (Hr j f); left; reflexivity|].
        refine (IHr _ _ E k g Hk). intros a b Hab. apply (Hr a b). right. exact Hab.
  Qed.
  Lemma double_machine ms : fits_mons (map (fun '(i, e) => (i, (e * 2)%nat)) ms) -> mdouble over (up ms) = Some (up (map (fun '(i, e) => (i, (e * 2)%nat)) ms)).
  Proof.
    induction ms as [|[i e] ms IH]; intros H; [reflexivity|]. cbn [map] in H. apply fits_cons in H as [H1 H].
    change (up ((i, e) :: ms)) with ((i, Z.of_nat e) :: up ms). cbn [mdouble]. replace (Z.of_nat e * 2) with (Z.of_nat (e * 2)) by lia.
    unfold int_result. rewrite is_int_nat by exact H1. rewrite IH by exact H. reflexivity.
  Qed.
  Lemma double_ints ms : machine over -> forall m, mdouble over ms = Some m -> forall i e, In (i, e) m -> - 2 ^ 31 <= e <= 2 ^ 31 - 1.
  Proof.
    intros Hm. induction ms as [|[i e] ms IH]; intros m; [intros [= <-] i e []|]. cbn [mdouble]. intros H k g.
    apply opt_cons_some in H as (a & l' & E1 & E & ->). intros [->|Hk]; [|exact (IH _ E k g Hk)].
    unfold with_exponent, int_result in E1. destruct (is_int (e * 2)) eqn:Ei; [injection E1 as <- <-; apply is_int_spec; exact Ei|].
    destruct (over (e * 2)) as [w|] eqn:Ew; [|discriminate]. injection E1 as <- <-. exact (Hm _ _ Ew).
  Qed.

  Lemma persist_machine x y : fits_mons (persist x y) -> mpersist over (stored x) (stored y) = Some (up (persist x y)).
  Proof.
    unfold persist, mpersist. rewrite stored_eqb. destruct (gen_eqb x y).
    - destruct x as [q|i|ms]; [reflexivity..|]. apply double_machine.
    - rewrite !stored_mons. apply merge_machine.
  Qed.
  Lemma persist_ints x y m : machine over -> ints (stored x) -> ints (stored y) -> mpersist over (stored x) (stored y) = Some m -> forall i e, In (i, e) m -> - 2 ^ 31 <= e <= 2 ^ 31 - 1.
  Proof.
    intros Hm Hx Hy. assert (HI : forall z, ints (stored z) -> forall i e, In (i, e) (mmons (stored z)) -> - 2 ^ 31 <= e <= 2 ^ 31 - 1).
    { intros z Hz i e. destruct z as [q|j|ms]; cbn [stored mmons]; [intros []|intros [[= <- <-]|[]]; rewrite pow31; lia|exact (Hz i e)]. }
    unfold mpersist. destruct (mgen_eqb (stored x) (stored y)).
    - destruct x as [q|i|ms]; cbn [stored].
      + intros [= <-] i e [].
      + intros [= <-] j e [[= <- <-]|[]]. rewrite pow31. lia.
      + apply double_ints, Hm.
    - apply merge_ints; [exact Hm|exact (HI x Hx)|exact (HI y Hy)].
  Qed.
End Over.

Lemma in_lo ms : forall lo i e, mons_wf lo ms -> In (i, e) ms -> lo <= i.
Proof.
  induction ms as [|[j f] ms IH]; intros lo i e W; [intros []|]. destruct W as (W1 & W2 & W3). intros [[= <- <-]|H]; [exact W1|]. pose proof (IH _ i e W3 H). lia.
Qed.
Lemma in_expo lo ms i e : mons_wf lo ms -> In (i, e) ms -> expo_mons ms i = e.
Proof.
  revert lo. induction ms as [|[j f] ms IH]; intros lo W; [intros []|]. intros [[= <- <-]|H]; [exact (expo_head j f ms lo W)|].
  destruct W as (W1 & W2 & W3). pose proof (in_lo ms _ i e W3 H) as B. rewrite (expo_tail j f ms i) by lia. exact (IH _ W3 H).
Qed.
Lemma expo_in ms i : (0 < expo_mons ms i)%nat -> exists e, In (i, e) ms.
Proof.
  induction ms as [|[j f] ms IH]; cbn [expo_mons]; [lia|]. destruct (Z.eqb_spec j i) as [->|N]; [intros _; exists f; left; reflexivity|].
  intros H. destruct IH as [e He]; [lia|]. exists e. right. exact He.
Qed.
Lemma fits_expo lo ms : mons_wf lo ms -> fits_mons ms <-> forall i, Z.of_nat (expo_mons ms i) <= INT_MAX.
Proof.
  intros W. split.
  - intros H i. destruct (expo_mons ms i) eqn:E; [unfold INT_MAX; rewrite pow31; lia|]. destruct (expo_in ms i ltac:(lia)) as [e He]. rewrite <- E, (in_expo lo ms i e W He). exact (H i e He).
  - intros H i e He. rewrite <- (in_expo lo ms i e W He). apply H.
Qed.
Lemma storable_fits g : gen_wf g -> storable g <-> fits_mons (mons g).
Proof.
  intros W. rewrite (fits_expo 0 (mons g) (mons_gen_wf g W)). unfold storable, INT_MAX. split; intros H i; specialize (H i); rewrite expo_mons_gen in *; exact H.
Qed.
Lemma storable_ints g : gen_wf g -> storable g <-> ints (stored g).
Proof.
  intros W. rewrite (storable_fits g W). destruct g as [q|i|ms]; cbn [mons stored ints].
  - split; [intros _; exact Logic.I|intros _ i e []].
  - split; [intros _; exact Logic.I|]. intros _ j e [[= <- <-]|[]]. unfold INT_MAX. rewrite pow31. lia.
  - split.
    + intros H i e Hi. apply in_map_iff in Hi as ([j f] & [= <- <-] & Hj). cbn [fst snd]. pose proof (H j f Hj) as B. unfold INT_MAX in B. rewrite pow31 in *. lia.
    + apply up_ints_fits.
Qed.
Lemma mons_wf_merge x y : gen_wf x -> gen_wf y -> ~ rational x -> ~ rational y -> mons_wf 0 (persist x y).
Proof. intros Wx Wy Rx Ry. exact (proj1 (proj1 (gen_mul_correct x y (GProd (persist x y)) Wx Wy (gen_mul_total x y Rx Ry)))). Qed.

Lemma mul_machine over x y : gen_wf x -> gen_wf y -> (forall z, gen_mul x y = Ok z -> storable z) -> mgen_mul over (stored x) (stored y) = Some (stored_result (gen_mul x y)).
Proof.
  intros Wx Wy H. destruct (rational_dec x) as [Rx|Rx]; [|destruct (rational_dec y) as [Ry|Ry]].
  - destruct x as [q|i|ms]; [|destruct Rx..]. unfold mgen_mul, gen_mul, mrational_mul, rational_mul. cbn [stored]. destruct (Qeq_bool q 1); [reflexivity|]. destruct y; reflexivity.
  - destruct y as [q|i|ms]; [|destruct Ry..]. destruct x as [p|i|ms]; [destruct Rx; exact Logic.I|..]; unfold mgen_mul, gen_mul, mrational_mul, rational_mul; cbn [stored]; destruct (Qeq_bool q 1); reflexivity.
  - rewrite (gen_mul_total x y Rx Ry) in *. specialize (H _ eq_refl). apply storable_fits in H; [|exact (proj1 (persist_spec x y Wx Wy Rx Ry))].
    assert (E : mgen_mul over (stored x) (stored y) = option_map (fun ms => Ok (MProd ms)) (mpersist over (stored x) (stored y))).
    { destruct x; [destruct Rx; exact Logic.I|..]; (destruct y; [destruct Ry; exact Logic.I|..]); reflexivity. }
    rewrite E. rewrite persist_machine by exact H. reflexivity.
Qed.
Lemma mul_ints over x y z : machine over -> ints (stored x) -> ints (stored y) -> mgen_mul over (stored x) (stored y) = Some (Ok z) -> ints z.
Proof.
  intros Hm Hx Hy. destruct (rational_dec x) as [Rx|Rx]; [|destruct (rational_dec y) as [Ry|Ry]].
  - destruct x as [q|i|ms]; [|destruct Rx..]. cbn [stored mgen_mul]. unfold mrational_mul. destruct (Qeq_bool q 1); [intros [= <-]; exact Hy|]. destruct y; try discriminate. intros [= <-]. exact Logic.I.
  - destruct y as [q|i|ms]; [|destruct Ry..]. destruct x as [p|i|ms]; [destruct Rx; exact Logic.I|..]; cbn [stored mgen_mul]; unfold mrational_mul; (destruct (Qeq_bool q 1); [intros [= <-]; exact Hx|discriminate]).
  - assert (E : mgen_mul over (stored x) (stored y) = option_map (fun ms => Ok (MProd ms)) (mpersist over (stored x) (stored y))).
    { destruct x; [destruct Rx; exact Logic.I|..]; (destruct y; [destruct Ry; exact Logic.I|..]); reflexivity. }
    rewrite E. destruct (mpersist over (stored x) (stored y)) as [m|] eqn:Em; [|discriminate]. intros [= <-]. exact (persist_ints over x y m Hm Hx Hy Em).
Qed.
(** If overflow is undefined, so is every multiplication that overflows. *)
Lemma merge_undefined l : forall r m, mmerge undefined (up l) (up r) = Some m -> m = up (merge l r).
Proof.
  induction l as [|[i e] l IH]; intros r; [destruct r; intros m [= <-]; reflexivity|].
  induction r as [|[j f] r IHr]; intros m; [intros [= <-]; reflexivity|]. rewrite merge_cons.
  change (up ((i, e) :: l)) with ((i, Z.of_nat e) :: up l) in *. change (up ((j, f) :: r)) with ((j, Z.of_nat f) :: up r). cbn [mmerge]. destruct (i <? j).
  - change ((j, Z.of_nat f) :: up r) with (up ((j, f) :: r)). intros H. apply opt_cons_some in H as (a & l' & [= <-] & E & ->). rewrite (IH _ _ E). reflexivity.
  - destruct (i =? j).
    + intros H. apply opt_cons_some in H as (a & l' & E1 & E & ->). unfold with_exponent, int_result, undefined in E1. destruct (is_int (Z.of_nat e + Z.of_nat f)); [|discriminate]. injection E1 as <-.
      rewrite (IH _ _ E). cbn [up map fst snd]. rewrite Nat2Z.inj_add. reflexivity.
    + intros H. apply opt_cons_some in H as (a & l' & [= <-] & E & ->). cbn [mmerge] in IHr. rewrite (IHr _ E). reflexivity.
Qed.
Lemma double_undefined ms : forall m, mdouble undefined (up ms) = Some m -> m = up (map (fun '(i, e) => (i, (e * 2)%nat)) ms).
Proof.
  induction ms as [|[i e] ms IH]; intros m; [intros [= <-]; reflexivity|]. change (up ((i, e) :: ms)) with ((i, Z.of_nat e) :: up ms). cbn [mdouble]. intros H.
  apply opt_cons_some in H as (a & l' & E1 & E & ->). unfold with_exponent, int_result, undefined in E1. destruct (is_int (Z.of_nat e * 2)); [|discriminate]. injection E1 as <-.
  rewrite (IH _ E). cbn [up map fst snd]. rewrite Nat2Z.inj_mul. reflexivity.
Qed.
Lemma mul_undefined x y z : gen_mul x y = Ok z -> mgen_mul undefined (stored x) (stored y) <> None -> mgen_mul undefined (stored x) (stored y) = Some (Ok (stored z)).
Proof.
  intros H D. apply gen_mul_cases in H as [[-> ->]|[[-> ->]|[(p & q & -> & -> & ->)|(Rx & Ry & ->)]]].
  - reflexivity.
  - destruct x as [p|i|ms]; cbn [stored mgen_mul mrational_mul]; [|reflexivity..].
    unfold mrational_mul. destruct (Qeq_bool p 1) eqn:Eq; [apply Qc_eqb_1 in Eq; subst p; reflexivity|]. do 3 f_equal. apply Qcmult_1_r.
  - cbn [stored mgen_mul]. unfold mrational_mul. destruct (Qeq_bool p 1) eqn:Eq; [|reflexivity]. apply Qc_eqb_1 in Eq. subst p. rewrite Qcmult_1_l. reflexivity.
  - assert (E : mgen_mul undefined (stored x) (stored y) = option_map (fun ms => Ok (MProd ms)) (mpersist undefined (stored x) (stored y))).
    { destruct x; [destruct Rx; exact Logic.I|..]; (destruct y; [destruct Ry; exact Logic.I|..]); reflexivity. }
    rewrite E in *. destruct (mpersist undefined (stored x) (stored y)) as [m|] eqn:Em; [|exfalso; apply D; reflexivity]. cbn [option_map]. change (stored (GProd (persist x y))) with (MProd (up (persist x y))). do 3 f_equal.
    unfold mpersist in Em. unfold persist. rewrite stored_eqb in Em. destruct (gen_eqb x y).
    + destruct x as [q|i|ms]; cbn [stored] in Em; [injection Em as <-; reflexivity..|]. exact (double_undefined _ _ Em).
    + rewrite !stored_mons in Em. exact (merge_undefined _ _ _ Em).
Qed.

(** Division. *)
Section Division.
  Variable over : Z -> option Z.
  Lemma sub_machine l : forall r, fits_mons l -> msub_mons over (up l) (up r) = Some (option_map up (sub_mons l r)).
  Proof.
    induction l as [|[i e] l IH]; intros [|[j f] r] H; try reflexivity. apply fits_cons in H as [H1 H2]. rewrite sub_mons_cons.
    change (up ((i, e) :: l)) with ((i, Z.of_nat e) :: up l). change (up ((j, f) :: r)) with ((j, Z.of_nat f) :: up r). cbn [msub_mons]. destruct (i <? j).
    - change ((j, Z.of_nat f) :: up r) with (up ((j, f) :: r)). rewrite IH by exact H2. destruct (sub_mons l ((j, f) :: r)); reflexivity.
    - destruct (j <? i); [reflexivity|]. destruct (Nat.ltb_spec e f) as [C|C]; destruct (Z.ltb_spec (Z.of_nat e) (Z.of_nat f)) as [C'|C']; try lia; [reflexivity|].
      rewrite <- Nat2Z.inj_sub by lia. unfold int_result. rewrite is_int_nat by lia. rewrite IH by exact H2. destruct (sub_mons l r); reflexivity.
  Qed.
  Lemma sub_atom_machine l j lo : mons_wf lo l -> fits_mons l -> msub_atom over (up l) j = Some (option_map up (sub_atom l j)).
  Proof.
    revert lo. induction l as [|[i e] l IH]; intros lo W H; [reflexivity|]. apply fits_cons in H as [H1 H2]. destruct W as (W1 & W2 & W3).
    change (up ((i, e) :: l)) with ((i, Z.of_nat e) :: up l). cbn [msub_atom sub_atom]. destruct (i =? j).
    - replace (Z.of_nat e - 1) with (Z.of_nat (e - 1)) by lia. unfold int_result. rewrite is_int_nat by lia. reflexivity.
    - rewrite (IH _ W3 H2). destruct (sub_atom l j); reflexivity.
  Qed.
  Lemma normalize_machine l : mnormalize (up l) = stored (normalize l).
  Proof.
    unfold mnormalize, normalize. assert (E : filter (fun '(_, e) => negb (e =? 0)) (up l) = up (filter (fun '(_, e) => negb (Nat.eqb e 0)) l)).
    { induction l as [|[i e] l IH]; [reflexivity|]. cbn [up map filter fst snd]. fold (up l). rewrite IH. destruct (Z.eqb_spec (Z.of_nat e) 0); destruct (Nat.eqb_spec e 0); try lia; reflexivity. }
    rewrite E. destruct (filter _ l) as [|[i e] [|m ms]]; [reflexivity| |reflexivity]. cbn [up map fst snd]. destruct (Z.eqb_spec (Z.of_nat e) 1); destruct (Nat.eqb_spec e 1); try lia; reflexivity.
  Qed.
  Lemma div_machine x y : gen_wf x -> storable x -> mgen_div over (stored x) (stored y) = Some (stored_quotient (gen_div x y)).
  Proof.
    intros Wx Hx. apply storable_fits in Hx; [|exact Wx]. destruct x as [p|i|ms]; unfold mgen_div, gen_div.
    - pose proof (stored_eqb (GRat p) y) as E. cbn [stored] in *. rewrite E. destruct (gen_eqb _ y); [reflexivity|]. destruct y as [q|j|rs]; cbn [stored]; [destruct (Qeq_bool q 1); reflexivity|reflexivity..].
    - pose proof (stored_eqb (GAtom i) y) as E. cbn [stored] in *. rewrite E. destruct (gen_eqb _ y); [reflexivity|]. destruct y as [q|j|rs]; cbn [stored]; [destruct (Qeq_bool q 1); reflexivity|reflexivity..].
    - cbn [stored]. destruct y as [q|j|rs]; cbn [stored].
      + destruct (Qeq_bool q 1); reflexivity.
      + fold (up ms). rewrite (sub_atom_machine ms j 0 (proj1 Wx) Hx). cbn [option_map]. destruct (sub_atom ms j) as [l|]; cbn [option_map stored_quotient]; [rewrite normalize_machine|]; reflexivity.
      + fold (up ms) (up rs). rewrite (sub_machine ms rs Hx). cbn [option_map]. destruct (sub_mons ms rs) as [l|]; cbn [option_map stored_quotient]; [rewrite normalize_machine|]; reflexivity.
  Qed.

  (** Order. *)
  Lemma degree_machine ms : forall s, Z.of_nat (s + sum_exponents ms) <= INT_MAX -> mtotal_degree over (up ms) (Z.of_nat s) = Some (Z.of_nat (s + sum_exponents ms)).
  Proof.
    induction ms as [|[i e] ms IH]; intros s H; cbn [sum_exponents] in *; [rewrite Nat.add_0_r; reflexivity|].
    change (up ((i, e) :: ms)) with ((i, Z.of_nat e) :: up ms). cbn [mtotal_degree]. rewrite <- Nat2Z.inj_add. unfold int_result. rewrite is_int_nat by lia.
    rewrite Nat.add_assoc. apply IH. lia.
  Qed.
  Lemma deglex_loop_machine l : forall r, mdeglex_loop (up l) (up r) = deglex_loop l r.
  Proof.
    induction l as [|[i e] l IH]; intros [|[j f] r]; try reflexivity. cbn [up map mdeglex_loop deglex_loop fst snd]. fold (up l) (up r). rewrite IH.
    destruct (i <? j); [reflexivity|]. destruct (j <? i); [reflexivity|].
    destruct (Z.ltb_spec (Z.of_nat e) (Z.of_nat f)); destruct (Nat.ltb_spec e f); try lia; [reflexivity|].
    destruct (Z.ltb_spec (Z.of_nat f) (Z.of_nat e)); destruct (Nat.ltb_spec f e); try lia; reflexivity.
  Qed.
  Lemma deglex_machine x y : small x -> small y -> mdeglex over (stored x) (stored y) = deglex_opt x y.
  Proof.
    intros Sx Sy. unfold mdeglex, deglex_opt. rewrite stored_eqb. destruct (gen_eqb x y); [reflexivity|].
    destruct x as [p|i|ms], y as [q|j|rs]; try reflexivity. cbn [stored]. fold (up ms) (up rs). unfold small in Sx, Sy. cbn [degree] in Sx, Sy.
    pose proof (degree_machine ms 0 Sx) as E1. pose proof (degree_machine rs 0 Sy) as E2. cbn [Z.of_nat Nat.add] in E1, E2. rewrite E1, E2.
    rewrite !total_degree_sum. destruct (Z.eqb_spec (Z.of_nat (sum_exponents ms)) (Z.of_nat (sum_exponents rs))); destruct (Nat.eqb_spec (sum_exponents ms) (sum_exponents rs)); try lia; cbn [negb].
    - apply deglex_loop_machine.
    - destruct (Z.ltb_spec (Z.of_nat (sum_exponents ms)) (Z.of_nat (sum_exponents rs))); destruct (Nat.ltb_spec (sum_exponents ms) (sum_exponents rs)); try lia; reflexivity.
  Qed.
End Division.
Lemma degree_undefined ms : forall s d, mtotal_degree undefined (up ms) (Z.of_nat s) = Some d -> Z.of_nat s <= INT_MAX -> Z.of_nat (s + sum_exponents ms) <= INT_MAX.
Proof.
  induction ms as [|[i e] ms IH]; intros s d H Hs; cbn [sum_exponents] in *; [rewrite Nat.add_0_r; exact Hs|].
  change (up ((i, e) :: ms)) with ((i, Z.of_nat e) :: up ms) in H. cbn [mtotal_degree] in H. rewrite <- Nat2Z.inj_add in H. unfold int_result, undefined in H.
  destruct (is_int (Z.of_nat (s + e))) eqn:E; [|discriminate]. apply is_int_spec in E. rewrite Nat.add_assoc. apply (IH (s + e)%nat d H). unfold INT_MAX. lia.
Qed.
Lemma expo_degree_mons ms i : (expo_mons ms i <= sum_exponents ms)%nat.
Proof. induction ms as [|[j e] ms IH]; cbn [expo_mons sum_exponents]; [lia|]. destruct (j =? i); lia. Qed.
Lemma small_storable g : small g -> storable g.
Proof. intros H i. unfold small in H. rewrite degree_mons in H. rewrite expo_mons_gen. pose proof (expo_degree_mons (mons g) i). lia. Qed.
