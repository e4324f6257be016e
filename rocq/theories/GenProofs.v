(** Proofs about generators. *)
From Coq Require Import ZArith Zpow_facts QArith Qcanon Bool List Reals Qreals Lia Lra.
From Verif Require Import Gen SpecGen.
Import ListNotations.
Open Scope Z_scope.

(** * Equality *)
Lemma Qc_eqb_eq (p q : Qc) : Qeq_bool p q = true <-> p = q.
Proof.
  split; intros H; [|subst; apply Qeq_bool_iff; reflexivity].
  apply Qc_is_canon. apply Qeq_bool_iff. exact H.
Qed.
Lemma Qc_eqb_1 (q : Qc) : Qeq_bool q 1%Q = true <-> q = 1%Qc.
Proof. change (Qeq_bool q 1%Q) with (Qeq_bool q (1%Qc)). apply Qc_eqb_eq. Qed.

Lemma Qc_neqb_1 (q : Qc) : Qeq_bool q 1%Q = false <-> q <> 1%Qc.
Proof. rewrite <- Qc_eqb_1. destruct (Qeq_bool q 1); split; congruence. Qed.

Lemma mons_eqb_eq l r : mons_eqb l r = true <-> l = r.
Proof.
  revert r. induction l as [|[i e] l IH]; intros [|[j f] r]; cbn [mons_eqb]; try (split; [discriminate|discriminate]); [tauto|].
  rewrite !andb_true_iff, Z.eqb_eq, Nat.eqb_eq, IH. split; [intros [[-> ->] ->]; reflexivity|intros [= -> -> ->]; auto].
Qed.

Lemma gen_eqb_eq x y : gen_eqb x y = true <-> x = y.
Proof.
  destruct x as [p|i|l], y as [q|j|r]; cbn [gen_eqb]; try (split; discriminate).
  - rewrite Qc_eqb_eq. split; [intros ->; reflexivity|intros [= ->]; reflexivity].
  - rewrite Z.eqb_eq. split; [intros ->; reflexivity|intros [= ->]; reflexivity].
  - rewrite mons_eqb_eq. split; [intros ->; reflexivity|intros [= ->]; reflexivity].
Qed.
Lemma gen_eqb_refl x : gen_eqb x x = true.
Proof. apply gen_eqb_eq. reflexivity. Qed.
Lemma gen_eqb_neq x y : gen_eqb x y = false <-> x <> y.
Proof. rewrite <- gen_eqb_eq. destruct (gen_eqb x y); split; congruence. Qed.
Lemma gen_eqb_sym x y : gen_eqb x y = gen_eqb y x.
Proof. destruct (gen_eqb x y) eqn:E; symmetry; [apply gen_eqb_eq in E; subst; apply gen_eqb_refl|apply gen_eqb_neq in E; apply gen_eqb_neq; congruence]. Qed.
Definition gen_eq_dec (x y : gen) : {x = y} + {x <> y}.
Proof. destruct (gen_eqb x y) eqn:E; [left; apply gen_eqb_eq; exact E|right; apply gen_eqb_neq; exact E]. Defined.

(** * Monomials *)
Lemma mons_wf_weaken lo lo' ms : lo' <= lo -> mons_wf lo ms -> mons_wf lo' ms.
Proof. destruct ms as [|[i e] ms]; cbn [mons_wf]; [tauto|]. intros H (H1 & H2 & H3). repeat split; auto. lia. Qed.

Lemma expo_below lo ms i : mons_wf lo ms -> i < lo -> expo_mons ms i = O.
Proof.
  revert lo. induction ms as [|[j e] ms IH]; intros lo Hw Hi; cbn [expo_mons]; [reflexivity|].
  destruct Hw as (H1 & H2 & H3). rewrite (IH (j + 1)) by (try exact H3; lia). destruct (Z.eqb_spec j i); lia.
Qed.

Lemma expo_head i e ms lo : mons_wf lo ((i, e) :: ms) -> expo_mons ((i, e) :: ms) i = e.
Proof.
  intros (H1 & H2 & H3). cbn [expo_mons]. rewrite Z.eqb_refl, (expo_below (i + 1) ms i H3) by lia. lia.
Qed.
Lemma expo_tail i e ms j : j <> i -> expo_mons ((i, e) :: ms) j = expo_mons ms j.
Proof. intros H. cbn [expo_mons]. destruct (Z.eqb_spec i j); [congruence|reflexivity]. Qed.

Lemma mons_canonical l : forall r lo lo', mons_wf lo l -> mons_wf lo' r -> (forall i, expo_mons l i = expo_mons r i) -> l = r.
Proof.
  induction l as [|[i e] l IH]; intros [|[j f] r] lo lo' Hl Hr H.
  - reflexivity.
  - specialize (H j). rewrite (expo_head _ _ _ _ Hr) in H. destruct Hr as (_ & Hf & _). cbn in H. lia.
  - specialize (H i). rewrite (expo_head _ _ _ _ Hl) in H. destruct Hl as (_ & Hf & _). cbn in H. lia.
  - assert (i = j) as ->.
    { destruct (Z.lt_total i j) as [C|[C|C]]; [|exact C|]; exfalso.
      - specialize (H i). rewrite (expo_head _ _ _ _ Hl) in H. destruct Hr as (_ & _ & Hr), Hl as (_ & He & _).
        rewrite expo_tail, (expo_below _ _ _ Hr) in H by lia. lia.
      - specialize (H j). rewrite (expo_head _ _ _ _ Hr) in H. destruct Hl as (_ & _ & Hl), Hr as (_ & He & _).
        rewrite expo_tail, (expo_below _ _ _ Hl) in H by lia. lia. }
    assert (e = f) as -> by (rewrite <- (expo_head _ _ _ _ Hl), <- (expo_head _ _ _ _ Hr); apply H).
    f_equal. destruct Hl as (_ & _ & Hl), Hr as (_ & _ & Hr). apply (IH r (j + 1) (j + 1) Hl Hr).
    intros k. specialize (H k). cbn [expo_mons] in H. lia.
Qed.

Lemma merge_nil_l r : merge [] r = r.
Proof. destruct r; reflexivity. Qed.
Lemma merge_nil_r l : merge l [] = l.
Proof. destruct l as [|[i e] l]; reflexivity. Qed.
Lemma merge_cons i e l j f r : merge ((i, e) :: l) ((j, f) :: r) =
  if i <? j then (i, e) :: merge l ((j, f) :: r)
  else if i =? j then (i, (e + f)%nat) :: merge l r
  else (j, f) :: merge ((i, e) :: l) r.
Proof. reflexivity. Qed.

Lemma merge_spec l r : (forall i, expo_mons (merge l r) i = (expo_mons l i + expo_mons r i)%nat) /\
  sum_exponents (merge l r) = (sum_exponents l + sum_exponents r)%nat /\
  (forall rho, mons_val rho (merge l r) = mons_val rho l * mons_val rho r)%R /\
  forall lo, mons_wf lo l -> mons_wf lo r -> mons_wf lo (merge l r).
Proof.
  revert r. induction l as [|[i e] l IHl]; intros r.
  - rewrite merge_nil_l. split; [|split; [|split]]; [reflexivity|reflexivity|intros rho; cbn [mons_val]; ring|auto].
  - induction r as [|[j f] r IHr].
    + rewrite merge_nil_r. split; [|split; [|split]]; [intros k; cbn [expo_mons]; lia|cbn [sum_exponents]; lia|intros rho; cbn [mons_val]; ring|auto].
    + rewrite merge_cons. destruct (Z.ltb_spec i j).
      * destruct (IHl ((j, f) :: r)) as (H1 & H2 & H3 & H4). split; [|split; [|split]].
        -- intros k. cbn [expo_mons]. cbn [expo_mons] in H1. rewrite H1. lia.
        -- cbn [sum_exponents]. cbn [sum_exponents] in H2. rewrite H2. lia.
        -- intros rho. cbn [mons_val]. rewrite H3. cbn [mons_val]. ring.
        -- intros lo (A & B & C) (D & E & F). repeat split; auto. apply H4; [exact C|]. repeat split; auto. lia.
      * destruct (Z.eqb_spec i j) as [->|].
        -- destruct (IHl r) as (H1 & H2 & H3 & H4). split; [|split; [|split]].
           ++ intros k. cbn [expo_mons]. rewrite H1. destruct (j =? k); lia.
           ++ cbn [sum_exponents]. rewrite H2. lia.
           ++ intros rho. cbn [mons_val]. rewrite H3, pow_add. ring.
           ++ intros lo (A & B & C) (D & E & F). repeat split; auto. lia.
        -- destruct IHr as (H1 & H2 & H3 & H4). split; [|split; [|split]].
           ++ intros k. cbn [expo_mons]. rewrite H1. cbn [expo_mons]. lia.
           ++ cbn [sum_exponents]. rewrite H2. cbn [sum_exponents]. lia.
           ++ intros rho. cbn [mons_val]. rewrite H3. cbn [mons_val]. ring.
           ++ intros lo (A & B & C) (D & E & F). repeat split; auto. apply H4; [|exact F]. repeat split; auto. lia.
Qed.

Lemma double_merge ms : map (fun '(i, e) => (i, (e * 2)%nat)) ms = merge ms ms.
Proof.
  induction ms as [|[i e] ms IH]; [reflexivity|]. rewrite merge_cons, Z.ltb_irrefl, Z.eqb_refl. cbn [map]. rewrite IH.
  f_equal. f_equal. lia.
Qed.

Lemma persist_merge x y : ~ rational x -> persist x y = merge (mons x) (mons y).
Proof.
  intros Hx. unfold persist. destruct (gen_eqb x y) eqn:E; [|reflexivity]. apply gen_eqb_eq in E. subst y.
  destruct x as [q|i|ms]; cbn [mons]; [exfalso; apply Hx; exact I| |apply double_merge].
  rewrite merge_cons, Z.ltb_irrefl, Z.eqb_refl. reflexivity.
Qed.

Lemma mons_gen_wf x : gen_wf x -> mons_wf 0 (mons x).
Proof. destruct x; cbn [gen_wf mons mons_wf]; intros; intuition; lia. Qed.
Lemma expo_mons_gen x i : expo x i = expo_mons (mons x) i.
Proof. destruct x; cbn [expo mons expo_mons]; lia. Qed.
Lemma degree_mons x : degree x = sum_exponents (mons x).
Proof. destruct x; reflexivity. Qed.
Lemma gen_val_mons rho x : ~ rational x -> gen_val rho x = mons_val rho (mons x).
Proof. destruct x; cbn [rational gen_val mons mons_val]; intros H; [tauto| |reflexivity]. simpl. ring. Qed.
Lemma degree_pos x : gen_wf x -> ~ rational x -> (1 <= degree x)%nat.
Proof. destruct x; cbn [gen_wf degree rational]; intros; try tauto; lia. Qed.

Lemma mons_inj x y : gen_wf x -> gen_wf y -> ~ rational x -> ~ rational y -> mons x = mons y -> x = y.
Proof.
  destruct x as [p|i|l], y as [q|j|r]; cbn [gen_wf rational mons]; intros Hx Hy Rx Ry E; try tauto; try congruence.
  - subst r. cbn in Hy. lia.
  - subst l. cbn in Hx. lia.
Qed.
Lemma expo_inj x y : gen_wf x -> gen_wf y -> ~ rational x -> ~ rational y -> (forall i, expo x i = expo y i) -> x = y.
Proof.
  intros Hx Hy Rx Ry H. apply mons_inj; auto. apply (mons_canonical _ _ 0 0); [apply mons_gen_wf; auto|apply mons_gen_wf; auto|].
  intros i. rewrite <- !expo_mons_gen. apply H.
Qed.

Lemma rational_dec x : {rational x} + {~ rational x}.
Proof. destruct x; cbn [rational]; auto. Qed.
Lemma is_rational_spec x : is_rational x = true <-> rational x.
Proof. destruct x; cbn; split; auto; discriminate. Qed.

(** * Multiplication *)
Lemma persist_spec x y : gen_wf x -> gen_wf y -> ~ rational x -> ~ rational y ->
  gen_wf (GProd (persist x y)) /\ (forall i, expo (GProd (persist x y)) i = (expo x i + expo y i)%nat) /\
  degree (GProd (persist x y)) = (degree x + degree y)%nat /\
  forall rho, gen_val rho (GProd (persist x y)) = (gen_val rho x * gen_val rho y)%R.
Proof.
  intros Hx Hy Rx Ry. rewrite (persist_merge x y Rx).
  destruct (merge_spec (mons x) (mons y)) as (H1 & H2 & H3 & H4).
  cbn [gen_wf expo degree gen_val]. split; [|split; [|split]].
  - split; [apply H4; apply mons_gen_wf; assumption|]. rewrite H2, <- !degree_mons.
    pose proof (degree_pos x Hx Rx). pose proof (degree_pos y Hy Ry). lia.
  - intros i. rewrite H1, <- !expo_mons_gen. reflexivity.
  - rewrite H2, <- !degree_mons. reflexivity.
  - intros rho. rewrite H3, !gen_val_mons by assumption. reflexivity.
Qed.

Lemma Q2R_Qc_mult (p q : Qc) : Q2R (p * q)%Qc = (Q2R p * Q2R q)%R.
Proof. rewrite <- Q2R_mult. apply Qeq_eqR. apply Qred_correct. Qed.
Lemma Q2R_Qc_plus (p q : Qc) : Q2R (p + q)%Qc = (Q2R p + Q2R q)%R.
Proof. rewrite <- Q2R_plus. apply Qeq_eqR. apply Qred_correct. Qed.
Lemma Q2R_Qc_1 : Q2R 1%Qc = 1%R.
Proof. unfold Q2R. simpl. field. Qed.
Lemma Q2R_Qc_0 : Q2R 0%Qc = 0%R.
Proof. unfold Q2R. simpl. field. Qed.
Lemma Q2R_Qc_inj (p q : Qc) : Q2R p = Q2R q -> p = q.
Proof. intros H. apply Qc_is_canon. apply eqR_Qeq. exact H. Qed.

Lemma gen_mul_cases x y z : gen_mul x y = Ok z ->
  (x = GRat 1 /\ z = y) \/ (y = GRat 1 /\ z = x) \/ (exists p q, x = GRat p /\ y = GRat q /\ z = GRat (p * q)) \/
  (~ rational x /\ ~ rational y /\ z = GProd (persist x y)).
Proof.
  assert (HQ : forall q : Qc, Qeq_bool q 1 = true -> q = 1%Qc) by (intros q; apply Qc_eqb_1).
  destruct x as [p|i|l], y as [q|j|r]; unfold gen_mul, rational_mul; intros H.
  1-3: destruct (Qeq_bool p 1) eqn:E; [apply HQ in E; subst p; injection H as <-; left; auto|]; try discriminate H.
  - injection H as <-. right. right. left. exists p, q. auto.
  - destruct (Qeq_bool q 1) eqn:E; [|discriminate H]. apply HQ in E. subst q. injection H as <-. right. left. auto.
  - injection H as <-. right. right. right. cbn; tauto.
  - injection H as <-. right. right. right. cbn; tauto.
  - destruct (Qeq_bool q 1) eqn:E; [|discriminate H]. apply HQ in E. subst q. injection H as <-. right. left. auto.
  - injection H as <-. right. right. right. cbn; tauto.
  - injection H as <-. right. right. right. cbn; tauto.
Qed.

Lemma gen_mul_correct x y z : gen_wf x -> gen_wf y -> gen_mul x y = Ok z ->
  gen_wf z /\ forall rho, gen_val rho z = (gen_val rho x * gen_val rho y)%R.
Proof.
  intros Hx Hy H. apply gen_mul_cases in H. destruct H as [[-> ->]|[[-> ->]|[(p & q & -> & -> & ->)|(Rx & Ry & ->)]]].
  - split; [exact Hy|]. intros. cbn [gen_val]. rewrite Q2R_Qc_1. ring.
  - split; [exact Hx|]. intros. cbn [gen_val]. rewrite Q2R_Qc_1. ring.
  - split; [exact I|]. intros. cbn [gen_val]. apply Q2R_Qc_mult.
  - destruct (persist_spec x y Hx Hy Rx Ry) as (H1 & _ & _ & H4). auto.
Qed.

Lemma persist_comm x y : gen_wf x -> gen_wf y -> ~ rational x -> ~ rational y -> persist x y = persist y x.
Proof.
  intros Hx Hy Rx Ry. apply (mons_canonical _ _ 0 0).
  - apply (persist_spec x y Hx Hy Rx Ry).
  - apply (persist_spec y x Hy Hx Ry Rx).
  - intros i. change (expo (GProd (persist x y)) i = expo (GProd (persist y x)) i).
    rewrite (proj1 (proj2 (persist_spec x y Hx Hy Rx Ry))), (proj1 (proj2 (persist_spec y x Hy Hx Ry Rx))). lia.
Qed.

Lemma gen_mul_comm x y : gen_wf x -> gen_wf y -> gen_mul x y = gen_mul y x.
Proof.
  intros Hx Hy. destruct x as [p|i|l], y as [q|j|r]; try reflexivity.
  - unfold gen_mul, rational_mul. destruct (Qeq_bool p 1) eqn:E, (Qeq_bool q 1) eqn:F; try apply Qc_eqb_1 in E; try apply Qc_eqb_1 in F; subst; f_equal; f_equal.
    + ring.
    + ring.
    + ring.
  - cbn [gen_mul]. rewrite (persist_comm (GAtom i)); auto; cbn; tauto.
  - cbn [gen_mul]. rewrite (persist_comm (GAtom i)); auto; cbn; tauto.
  - cbn [gen_mul]. rewrite (persist_comm (GProd l)); auto; cbn; tauto.
  - cbn [gen_mul]. rewrite (persist_comm (GProd l)); auto; cbn; tauto.
Qed.

Lemma gen_mul_one x : gen_mul (GRat 1) x = Ok x.
Proof. reflexivity. Qed.
Lemma gen_mul_one_r x : gen_wf x -> gen_mul x (GRat 1) = Ok x.
Proof. intros H. rewrite gen_mul_comm; auto. exact I. Qed.

(** Exponents and rationality determine products. *)
Lemma gen_mul_expo x y z : gen_wf x -> gen_wf y -> gen_mul x y = Ok z ->
  (forall i, expo z i = (expo x i + expo y i)%nat) /\ degree z = (degree x + degree y)%nat /\ (rational z <-> rational x /\ rational y).
Proof.
  intros Hx Hy H. apply gen_mul_cases in H. destruct H as [[-> ->]|[[-> ->]|[(p & q & -> & -> & ->)|(Rx & Ry & ->)]]].
  - cbn [expo degree rational]. repeat split; try tauto. 
  - cbn [expo degree rational]. repeat split; try tauto; intros; lia.
  - cbn. repeat split; auto.
  - destruct (persist_spec x y Hx Hy Rx Ry) as (_ & H1 & H2 & _). repeat split; auto; cbn [rational]; tauto.
Qed.

Lemma gen_mul_assoc x y z a b c d : gen_wf x -> gen_wf y -> gen_wf z ->
  gen_mul x y = Ok a -> gen_mul a z = Ok b -> gen_mul y z = Ok c -> gen_mul x c = Ok d -> b = d.
Proof.
  intros Hx Hy Hz Ha Hb Hc Hd.
  destruct (gen_mul_correct _ _ _ Hx Hy Ha) as [Wa Va]. destruct (gen_mul_correct _ _ _ Wa Hz Hb) as [Wb Vb].
  destruct (gen_mul_correct _ _ _ Hy Hz Hc) as [Wc Vc]. destruct (gen_mul_correct _ _ _ Hx Wc Hd) as [Wd Vd].
  destruct (gen_mul_expo _ _ _ Hx Hy Ha) as (Ea & _ & Ra). destruct (gen_mul_expo _ _ _ Wa Hz Hb) as (Eb & _ & Rb).
  destruct (gen_mul_expo _ _ _ Hy Hz Hc) as (Ec & _ & Rc). destruct (gen_mul_expo _ _ _ Hx Wc Hd) as (Ed & _ & Rd).
  destruct (rational_dec b) as [R|R].
  - assert (rational d) as R' by tauto. destruct b as [p| |], d as [q| |]; try contradiction.
    f_equal. apply Q2R_Qc_inj. specialize (Va (fun _ => 0%R)). specialize (Vb (fun _ => 0%R)).
    specialize (Vc (fun _ => 0%R)). specialize (Vd (fun _ => 0%R)). cbn [gen_val] in *. rewrite Vb, Vd, Va, Vc. ring.
  - apply expo_inj; auto; [tauto|]. intros i. rewrite Eb, Ed, Ea, Ec. lia.
Qed.

Lemma gen_mul_throws x y : (exists e, gen_mul x y = Err e) <->
  (exists q, q <> 1%Qc /\ ((x = GRat q /\ ~ rational y) \/ (y = GRat q /\ ~ rational x))).
Proof.
  split.
  - intros [e H]. destruct x as [p|i|l], y as [q|j|r]; unfold gen_mul, rational_mul in H; try discriminate H.
    + destruct (Qeq_bool p 1); discriminate H.
    + destruct (Qeq_bool p 1) eqn:E; [discriminate H|]. exists p. split; [apply Qc_neqb_1; exact E|cbn; tauto].
    + destruct (Qeq_bool p 1) eqn:E; [discriminate H|]. exists p. split; [apply Qc_neqb_1; exact E|cbn; tauto].
    + destruct (Qeq_bool q 1) eqn:E; [discriminate H|]. exists q. split; [apply Qc_neqb_1; exact E|cbn; tauto].
    + destruct (Qeq_bool q 1) eqn:E; [discriminate H|]. exists q. split; [apply Qc_neqb_1; exact E|cbn; tauto].
  - intros (q & Hq & [[-> R]|[-> R]]).
    + assert (Qeq_bool q 1 = false) as E by (apply not_true_iff_false; rewrite Qc_eqb_1; exact Hq).
      destruct y as [p|j|r]; [exfalso; apply R; exact I| |]; unfold gen_mul, rational_mul; rewrite E; eauto.
    + assert (Qeq_bool q 1 = false) as E by (apply not_true_iff_false; rewrite Qc_eqb_1; exact Hq).
      destruct x as [p|j|r]; [exfalso; apply R; exact I| |]; unfold gen_mul, rational_mul; rewrite E; eauto.
Qed.

Lemma gen_mul_total x y : ~ rational x -> ~ rational y -> gen_mul x y = Ok (GProd (persist x y)).
Proof. destruct x, y; cbn [rational gen_mul]; tauto. Qed.

(** * Division *)
Definition nonzero_exp : Z * nat -> bool := fun '(_, e) => negb (Nat.eqb e 0).

Fixpoint mons_weak (lo : Z) (ms : list (Z * nat)) : Prop :=
  match ms with [] => True | (i, e) :: ms' => (lo <= i)%Z /\ mons_weak (i + 1) ms' end.
Lemma mons_weak_weaken lo lo' ms : lo' <= lo -> mons_weak lo ms -> mons_weak lo' ms.
Proof. destruct ms as [|[i e] ms]; cbn [mons_weak]; [tauto|]. intros H (H1 & H3). repeat split; auto. lia. Qed.
Lemma wf_weak lo ms : mons_wf lo ms -> mons_weak lo ms.
Proof. revert lo. induction ms as [|[i e] ms IH]; intros lo; cbn [mons_wf mons_weak]; [tauto|]. intros (H1 & _ & H3). auto. Qed.

Lemma filter_spec ms : (forall i, expo_mons (filter nonzero_exp ms) i = expo_mons ms i) /\
  sum_exponents (filter nonzero_exp ms) = sum_exponents ms /\
  (forall lo, mons_weak lo ms -> mons_wf lo (filter nonzero_exp ms)).
Proof.
  induction ms as [|[j e] ms (H1 & H2 & H3)]; [cbn; auto|]. cbn [filter nonzero_exp].
  destruct (Nat.eqb_spec e 0) as [->|He]; cbn [negb].
  - split; [|split]; [intros i; cbn [expo_mons]; rewrite H1; destruct (j =? i); lia|cbn [sum_exponents]; lia|].
    intros lo (A & B). apply (mons_wf_weaken (j + 1)); [lia|]. apply H3. exact B.
  - split; [|split]; [intros i; cbn [expo_mons]; rewrite H1; reflexivity|cbn [sum_exponents]; lia|].
    intros lo (A & B). repeat split; auto. lia.
Qed.

Lemma normalize_spec ms : mons_weak 0 ms -> gen_wf (normalize ms) /\ (forall i, expo (normalize ms) i = expo_mons ms i) /\
  (rational (normalize ms) -> normalize ms = GRat 1 /\ sum_exponents ms = O).
Proof.
  intros Hw. destruct (filter_spec ms) as (H1 & H2 & H3). specialize (H3 0 Hw). unfold normalize.
  change (fun '(_, e) => negb (Nat.eqb e 0)) with nonzero_exp.
  destruct (filter nonzero_exp ms) as [|[i e] [|[j f] l]] eqn:E.
  - split; [exact I|]. split; [intros k; rewrite <- H1; reflexivity|]. intros _. split; [reflexivity|]. rewrite <- H2. reflexivity.
  - destruct (Nat.eqb_spec e 1) as [->|He].
    + destruct H3 as (A & B & C). split; [exact A|]. split; [intros k; rewrite <- H1; cbn [expo expo_mons]; lia|]. intros [].
    + destruct H3 as (A & B & C). split; [|split; [intros k; rewrite <- H1; reflexivity|intros []]].
      cbn [gen_wf mons_wf sum_exponents]. repeat split; auto; lia.
  - destruct H3 as (A & B & C & D & F). split; [|split; [intros k; rewrite <- H1; reflexivity|intros []]].
    cbn [gen_wf mons_wf sum_exponents]. repeat split; auto; lia.
Qed.

Lemma sub_mons_cons i e l j f r : sub_mons ((i, e) :: l) ((j, f) :: r) =
  if i <? j then option_map (cons (i, e)) (sub_mons l ((j, f) :: r))
  else if j <? i then None else if (e <? f)%nat then None else option_map (cons (i, (e - f)%nat)) (sub_mons l r).
Proof. reflexivity. Qed.

Lemma sub_mons_spec l : forall r lo, mons_wf lo l -> mons_wf lo r ->
  match sub_mons l r with
  | Some q => mons_weak lo q /\ forall i, (expo_mons q i + expo_mons r i)%nat = expo_mons l i
  | None => exists i, (expo_mons l i < expo_mons r i)%nat
  end.
Proof.
  induction l as [|[i e] l IH]; intros [|[j f] r] lo Hl Hr.
  - split; [exact I|]. reflexivity.
  - exists j. rewrite (expo_head _ _ _ _ Hr). destruct Hr as (_ & Hf & _). exact Hf.
  - split; [apply wf_weak; exact Hl|]. intros k. cbn [expo_mons]. lia.
  - rewrite sub_mons_cons. destruct Hl as (A & B & C). destruct (Z.ltb_spec i j) as [Hij|Hij].
    + specialize (IH ((j, f) :: r) (i + 1) C). destruct (sub_mons l ((j, f) :: r)) as [q|]; cbn [option_map].
      * destruct IH as [H1 H2]; [destruct Hr as (D & E & F); repeat split; auto; lia|]. split; [repeat split; auto|].
        intros k. cbn [expo_mons] in *. specialize (H2 k). lia.
      * destruct IH as [k Hk]; [destruct Hr as (D & E & F); repeat split; auto; lia|]. exists k.
        destruct (Z.eq_dec k i) as [->|N].
        -- exfalso. destruct Hr as (D & E & F). rewrite expo_tail, (expo_below (j + 1) r i F) in Hk by lia. lia.
        -- rewrite expo_tail by exact N. exact Hk.
    + destruct (Z.ltb_spec j i).
      * exists j. rewrite (expo_head _ _ _ _ Hr). rewrite (expo_below i); [apply Hr|repeat split; auto; lia|lia].
      * assert (i = j) as -> by lia. destruct (Nat.ltb_spec e f) as [Hef|Hef].
        -- exists j. rewrite (expo_head _ _ _ _ Hr), (expo_head j e l lo) by (repeat split; auto). exact Hef.
        -- destruct Hr as (D & E & F). specialize (IH r (j + 1) C F). destruct (sub_mons l r) as [q|]; cbn [option_map].
           ++ destruct IH as [H1 H2]. split; [repeat split; auto|]. intros k. cbn [expo_mons]. specialize (H2 k). destruct (j =? k); lia.
           ++ destruct IH as [k Hk]. exists k. destruct (Z.eq_dec k j) as [->|N].
              ** exfalso. rewrite (expo_below _ _ _ F) in Hk by lia. lia.
              ** rewrite !expo_tail by exact N. exact Hk.
Qed.

Lemma sub_atom_spec l : forall j lo, mons_wf lo l ->
  match sub_atom l j with
  | Some q => mons_weak lo q /\ forall i, (expo_mons q i + (if (j =? i)%Z then 1 else 0))%nat = expo_mons l i
  | None => expo_mons l j = O
  end.
Proof.
  induction l as [|[i e] l IH]; intros j lo Hl; cbn [sub_atom]; [reflexivity|]. destruct Hl as (A & B & C).
  destruct (Z.eqb_spec i j) as [->|N].
  - split; [repeat split; [exact A|apply wf_weak; exact C]|]. intros k. cbn [expo_mons]. destruct (Z.eqb_spec j k); lia.
  - specialize (IH j (i + 1) C). destruct (sub_atom l j) as [q|]; cbn [option_map].
    + destruct IH as [H1 H2]. split; [repeat split; auto|]. intros k. cbn [expo_mons]. rewrite <- H2. lia.
    + rewrite expo_tail by congruence. exact IH.
Qed.

Lemma expo_le_mul z y x i : gen_wf z -> gen_wf y -> gen_mul z y = Ok x -> (expo y i <= expo x i)%nat.
Proof. intros Hz Hy H. destruct (gen_mul_expo _ _ _ Hz Hy H) as (E & _). rewrite E. lia. Qed.

(** Products of a given [y] with given exponents. *)
Lemma gen_mul_from_expo z y x : gen_wf z -> gen_wf y -> gen_wf x -> ~ rational y -> ~ rational x ->
  (rational z -> z = GRat 1) -> (forall i, expo x i = (expo z i + expo y i)%nat) -> gen_mul z y = Ok x.
Proof.
  intros Hz Hy Hx Ry Rx H1 He. destruct (rational_dec z) as [Rz|Rz].
  - rewrite (H1 Rz) in *. rewrite gen_mul_one. f_equal. apply expo_inj; auto. intros i. rewrite He. reflexivity.
  - rewrite gen_mul_total by assumption. f_equal. apply expo_inj; auto.
    + apply (persist_spec z y); assumption.
    + intros i. rewrite (proj1 (proj2 (persist_spec z y Hz Hy Rz Ry))), He. reflexivity.
Qed.

Lemma gen_div_sound x y z : gen_wf x -> gen_wf y -> gen_div x y = Ok (Some z) -> gen_wf z /\ gen_mul z y = Ok x.
Proof.
  intros Hx Hy. unfold gen_div. destruct x as [p|i|l].
  1,2: destruct (gen_eqb _ y) eqn:E; [apply gen_eqb_eq in E; subst y; intros [= <-]; split; [exact I|apply gen_mul_one]|];
    destruct y as [q|j|r]; try discriminate; destruct (Qeq_bool q 1) eqn:F; try discriminate; apply Qc_eqb_1 in F; subst q;
    intros [= <-]; split; [assumption|apply gen_mul_one_r; assumption].
  destruct y as [q|j|r].
  - destruct (Qeq_bool q 1) eqn:F; try discriminate; apply Qc_eqb_1 in F; subst q. intros [= <-]. split; [assumption|apply gen_mul_one_r; assumption].
  - intros [= H]. destruct Hx as [Hl Hd]. pose proof (sub_atom_spec l j 0 Hl) as S. destruct (sub_atom l j) as [q|]; [|discriminate].
    injection H as <-. destruct S as [S1 S2]. destruct (normalize_spec q S1) as (N1 & N2 & N3). split; [exact N1|].
    refine (gen_mul_from_expo _ _ (GProd l) N1 Hy (conj Hl Hd) (fun H => H) (fun H => H) (fun R => proj1 (N3 R)) _).
    intros k. rewrite N2. cbn [expo]. rewrite <- S2. reflexivity.
  - intros [= H]. destruct Hx as [Hl Hd]. pose proof (sub_mons_spec l r 0 Hl (proj1 Hy)) as S. destruct (sub_mons l r) as [q|]; [|discriminate].
    injection H as <-. destruct S as [S1 S2]. destruct (normalize_spec q S1) as (N1 & N2 & N3). split; [exact N1|].
    refine (gen_mul_from_expo _ _ (GProd l) N1 Hy (conj Hl Hd) (fun H => H) (fun H => H) (fun R => proj1 (N3 R)) _).
    intros k. rewrite N2. cbn [expo]. rewrite <- S2. reflexivity.
Qed.

Lemma gen_div_complete x y z : gen_wf x -> gen_wf y -> gen_wf z -> gen_mul z y = Ok x -> gen_div x y <> Ok None.
Proof.
  intros Hx Hy Hz Hm Hd. unfold gen_div in Hd. destruct (gen_mul_expo _ _ _ Hz Hy Hm) as (He & Hdeg & Hr).
  destruct x as [p|i|l].
  1,2: destruct (gen_eqb _ y) eqn:E; [discriminate|]; apply gen_eqb_neq in E;
       destruct y as [q|j|r]; try (destruct (Qeq_bool q 1); discriminate).
  - cbn in Hr. tauto.
  - cbn in Hr. tauto.
  - cbn [degree] in Hdeg. assert (rational z) as Rz. { destruct (rational_dec z) as [R|R]; [exact R|]. pose proof (degree_pos z Hz R). lia. }
    destruct z as [q| |]; try contradiction. unfold gen_mul, rational_mul in Hm. destruct (Qeq_bool q 1); congruence.
  - cbn [degree] in Hdeg. destruct Hy as [_ Hy]. lia.
  - destruct y as [q|j|r].
    + destruct (Qeq_bool q 1); discriminate.
    + destruct Hx as [Hl _]. pose proof (sub_atom_spec l j 0 Hl) as S. destruct (sub_atom l j) as [q|]; [discriminate|].
      specialize (He j). cbn [expo] in He. rewrite Z.eqb_refl in He. lia.
    + destruct Hx as [Hl _]. pose proof (sub_mons_spec l r 0 Hl (proj1 Hy)) as S. destruct (sub_mons l r) as [q|]; [discriminate|].
      destruct S as [k Hk]. specialize (He k). cbn [expo] in He. lia.
Qed.

Lemma gen_div_self x : gen_wf x -> gen_div x x = Ok (Some (GRat 1)).
Proof.
  intros Hx. unfold gen_div. destruct x as [p|i|l]; [rewrite gen_eqb_refl; reflexivity|rewrite gen_eqb_refl; reflexivity|].
  destruct Hx as [Hl _].
  assert (forall lo l, mons_wf lo l -> exists q, sub_mons l l = Some q /\ filter nonzero_exp q = []) as H.
  { clear. intros lo l. revert lo. induction l as [|[i e] l IH]; intros lo H; [exists []; auto|].
    rewrite sub_mons_cons, Z.ltb_irrefl, Nat.ltb_irrefl. destruct H as (A & B & C). destruct (IH _ C) as (q & -> & Hq).
    eexists. split; [reflexivity|]. cbn [filter nonzero_exp]. rewrite Nat.sub_diag. exact Hq. }
  destruct (H 0 l Hl) as (q & -> & Hq). cbn [option_map]. unfold normalize. fold nonzero_exp. change (fun '(_, e) => negb (Nat.eqb e 0)) with nonzero_exp.
  rewrite Hq. reflexivity.
Qed.

Lemma gen_div_throws x y : (exists e, gen_div x y = Err e) <-> (exists q, y = GRat q /\ q <> 1%Qc /\ x <> y).
Proof.
  assert (forall q : Qc, Qeq_bool q 1 = true \/ (Qeq_bool q 1 = false /\ q <> 1%Qc)) as HQ.
  { intros q. destruct (Qeq_bool q 1) eqn:F; [auto|right; split; [reflexivity|apply Qc_neqb_1; exact F]]. }
  split.
  - intros [e H]. unfold gen_div in H. destruct y as [q|j|r].
    + exists q. split; [reflexivity|]. destruct (HQ q) as [F|[F Nq]]; rewrite F in H.
      * destruct x as [p|i|l]; try (destruct (gen_eqb _ _) in H); discriminate.
      * split; [exact Nq|]. destruct x as [p|i|l]; try congruence. destruct (gen_eqb (GRat p) (GRat q)) eqn:E; [discriminate|]. apply gen_eqb_neq. exact E.
    + destruct x as [p|i|l]; try (destruct (gen_eqb _ _) in H); discriminate.
    + destruct x as [p|i|l]; try (destruct (gen_eqb _ _) in H); discriminate.
  - intros (q & -> & Nq & Nx). unfold gen_div. destruct (HQ q) as [F|[F _]]; [apply Qc_eqb_1 in F; contradiction|].
    rewrite F. apply gen_eqb_neq in Nx. destruct x as [p|i|l]; try rewrite Nx; eauto.
Qed.

(** * deglex *)
Lemma total_degree_sum ms : total_degree ms = sum_exponents ms.
Proof. induction ms as [|[i e] ms IH]; [reflexivity|]. cbn [total_degree fold_right sum_exponents]. unfold total_degree in IH. rewrite IH. reflexivity. Qed.

Definition lex_mons (l r : list (Z * nat)) : Prop :=
  exists i, (expo_mons r i < expo_mons l i)%nat /\ forall j, j < i -> expo_mons l j = expo_mons r j.

Lemma lex_mons_asym l r : lex_mons l r -> lex_mons r l -> False.
Proof.
  intros (i & Hi & Hi') (j & Hj & Hj'). destruct (Z.lt_total i j) as [C|[->|C]]; [specialize (Hj' i C); lia|lia|specialize (Hi' j C); lia].
Qed.

Lemma deglex_loop_spec l : forall r lo, mons_wf lo l -> mons_wf lo r -> l <> r -> sum_exponents l = sum_exponents r ->
  (deglex_loop l r = Some true /\ lex_mons l r) \/ (deglex_loop l r = Some false /\ lex_mons r l).
Proof.
  induction l as [|[i e] l IH]; intros [|[j f] r] lo Hl Hr Hn Hs.
  - congruence.
  - cbn in Hs. destruct Hr as (_ & Hf & _). lia.
  - cbn in Hs. destruct Hl as (_ & Hf & _). lia.
  - cbn [deglex_loop]. destruct (Z.ltb_spec i j) as [H|H].
    + left. split; [reflexivity|]. exists i. split.
      * rewrite (expo_head _ _ _ _ Hl). rewrite (expo_below j); [apply Hl| |exact H]. destruct Hr as (A & B & C). repeat split; auto. lia.
      * destruct Hl as (A & B & C), Hr as (D & E & F).
        intros k Hk. rewrite (expo_below i ((j, f) :: r)), (expo_below i ((i, e) :: l)); auto; repeat split; auto; lia.
    + destruct (Z.ltb_spec j i) as [H'|H'].
      * right. split; [reflexivity|]. exists j. split.
        -- rewrite (expo_head _ _ _ _ Hr). rewrite (expo_below i); [apply Hr| |exact H']. destruct Hl as (A & B & C). repeat split; auto. lia.
        -- destruct Hl as (A & B & C), Hr as (D & E & F).
           intros k Hk. rewrite (expo_below j ((j, f) :: r)), (expo_below j ((i, e) :: l)); auto; repeat split; auto; lia.
      * assert (i = j) as -> by lia. pose proof (expo_head _ _ _ _ Hl) as El. pose proof (expo_head _ _ _ _ Hr) as Er.
        destruct Hl as (A & B & C), Hr as (D & E & F).
        assert (Below : forall k, k < j -> expo_mons ((j, e) :: l) k = expo_mons ((j, f) :: r) k).
        { intros k Hk. rewrite !expo_tail, (expo_below _ _ _ C), (expo_below _ _ _ F) by lia. reflexivity. }
        destruct (Nat.ltb_spec e f); [right; split; [reflexivity|]; exists j; split; [lia|intros; symmetry; auto]|].
        destruct (Nat.ltb_spec f e); [left; split; [reflexivity|]; exists j; split; [lia|auto]|].
        assert (e = f) as -> by lia. cbn [sum_exponents] in Hs.
        assert (Lift : forall a b, mons_wf (j + 1) a -> mons_wf (j + 1) b -> lex_mons a b -> lex_mons ((j, f) :: a) ((j, f) :: b)).
        { intros a b Wa Wb (k & Hk & Hk'). exists k. cbn [expo_mons]. split; [lia|]. intros m Hm. rewrite Hk' by exact Hm. reflexivity. }
        destruct (IH r (j + 1) C F) as [[-> HL]|[-> HL]]; [congruence|lia|left|right]; split; auto.
Qed.

Lemma lex_before_mons x y : lex_before x y <-> lex_mons (mons x) (mons y).
Proof.
  unfold lex_before, lex_mons. split; intros (i & H1 & H2); exists i; split; try (intros j Hj; specialize (H2 j Hj)); rewrite ?expo_mons_gen in *; auto.
  all: rewrite <- ?expo_mons_gen in *; auto.
Qed.

(** The order as specified. *)
Definition before (x y : gen) : Prop := (rational x /\ ~ rational y) \/ (~ rational x /\ ~ rational y /\ deglex_before x y).

Lemma deglex_before_asym x y : deglex_before x y -> deglex_before y x -> False.
Proof.
  intros [H|[H L]] [H'|[H' L']]; try lia. apply lex_before_mons in L, L'. exact (lex_mons_asym _ _ L L').
Qed.

Lemma deglex_opt_spec x y : gen_wf x -> gen_wf y ->
  (deglex_opt x y = Some true /\ before x y) \/ (deglex_opt x y = Some false /\ ~ before x y).
Proof.
  intros Hx Hy. unfold deglex_opt. destruct (gen_eqb x y) eqn:E.
  - right. split; [reflexivity|]. apply gen_eqb_eq in E. subst y. intros [[R N]|(N & _ & D)]; [tauto|exact (deglex_before_asym _ _ D D)].
  - apply gen_eqb_neq in E. unfold before. destruct x as [p|i|l], y as [q|j|r]; cbn [rational]; try (right; split; [reflexivity|tauto]); try (left; split; [reflexivity|tauto]).
    + destruct (Z.ltb_spec i j).
      * left. split; [reflexivity|]. right. repeat split; try tauto. right. split; [reflexivity|]. exists i. cbn [expo].
        rewrite Z.eqb_refl. split; [destruct (Z.eqb_spec j i); lia|]. intros k Hk. destruct (Z.eqb_spec i k), (Z.eqb_spec j k); lia.
      * right. split; [reflexivity|]. intros [[[] _]|(_ & _ & [D|[_ (k & Hk & Hk')]])]; [cbn in D; lia|].
        cbn [expo] in Hk, Hk'. destruct (Z.eqb_spec i k), (Z.eqb_spec j k); try lia. subst k.
        assert (i <> j) by congruence. specialize (Hk' j). rewrite Z.eqb_refl in Hk'. destruct (Z.eqb_spec i j); [congruence|].
        specialize (Hk' ltac:(lia)). lia.
    + left. split; [reflexivity|]. right. repeat split; try tauto. left. cbn [degree]. destruct Hy as [_ Hy]. lia.
    + right. split; [reflexivity|]. destruct Hx as [_ Hx]. intros [[[] _]|(_ & _ & [D|[D _]])]; cbn [degree] in D; lia.
    + rewrite !total_degree_sum. destruct (Nat.eqb_spec (sum_exponents l) (sum_exponents r)) as [D|D]; cbn [negb].
      * assert (l <> r) as N by congruence. destruct Hx as [Hx _], Hy as [Hy _].
        destruct (deglex_loop_spec l r 0 Hx Hy N D) as [[-> L]|[-> L]]; [left|right]; split; try reflexivity.
        -- right. repeat split; try tauto. right. split; [exact D|]. apply lex_before_mons. exact L.
        -- intros [[[] _]|(_ & _ & [D'|[_ L']])]; [cbn [degree] in D'; lia|]. apply lex_before_mons in L'. exact (lex_mons_asym _ _ L L').
      * destruct (Nat.ltb_spec (sum_exponents l) (sum_exponents r)); [left|right]; split; try reflexivity.
        -- right. repeat split; try tauto. left. assumption.
        -- intros [[[] _]|(_ & _ & [D'|[D' _]])]; cbn [degree] in D'; lia.
Qed.

Lemma deglex_spec x y : gen_wf x -> gen_wf y -> (deglex x y = true <-> before x y).
Proof. intros Hx Hy. unfold deglex. destruct (deglex_opt_spec x y Hx Hy) as [[-> H]|[-> H]]; split; auto; try discriminate; tauto. Qed.
Lemma deglex_reachable x y : gen_wf x -> gen_wf y -> deglex_opt x y <> None.
Proof. intros Hx Hy. destruct (deglex_opt_spec x y Hx Hy) as [[-> _]|[-> _]]; discriminate. Qed.

Lemma lex_before_trans x y z : lex_before x y -> lex_before y z -> lex_before x z.
Proof.
  intros (i & Hi & Hi') (j & Hj & Hj'). destruct (Z.lt_total i j) as [C|[->|C]].
  - exists i. split; [rewrite <- (Hj' i C); exact Hi|]. intros k Hk. rewrite Hi', Hj' by lia. reflexivity.
  - exists j. split; [lia|]. intros k Hk. rewrite Hi', Hj' by lia. reflexivity.
  - exists j. split; [rewrite (Hi' j C); exact Hj|]. intros k Hk. rewrite Hi', Hj' by lia. reflexivity.
Qed.

Lemma before_trans x y z : before x y -> before y z -> before x z.
Proof.
  intros [[R N]|(N1 & N2 & D)] [[R' N']|(N1' & N2' & D')]; try tauto.
  - left. tauto.
  - right. repeat split; try tauto. destruct D as [D|[D L]], D' as [D'|[D' L']]; [left; lia|left; lia|left; lia|right].
    split; [congruence|exact (lex_before_trans _ _ _ L L')].
Qed.
Lemma before_irrefl x : ~ before x x.
Proof. intros [[R N]|(_ & _ & D)]; [tauto|exact (deglex_before_asym _ _ D D)]. Qed.

Lemma deglex_irrefl x : deglex x x = false.
Proof. unfold deglex, deglex_opt. rewrite gen_eqb_refl. reflexivity. Qed.
Lemma deglex_trans x y z : gen_wf x -> gen_wf y -> gen_wf z -> deglex x y = true -> deglex y z = true -> deglex x z = true.
Proof. intros Hx Hy Hz. rewrite !deglex_spec by assumption. apply before_trans. Qed.
Lemma deglex_total x y : gen_wf x -> gen_wf y -> x <> y -> ~ (rational x /\ rational y) -> deglex x y = true \/ deglex y x = true.
Proof.
  intros Hx Hy N R. rewrite !deglex_spec by assumption. unfold before.
  destruct (rational_dec x) as [Rx|Rx], (rational_dec y) as [Ry|Ry]; try tauto.
  destruct (lt_eq_lt_dec (degree x) (degree y)) as [[D|D]|D]; [left; right; repeat split; auto; left; exact D| |right; right; repeat split; auto; left; exact D].
  assert (mons x <> mons y) as Nm by (intros E; apply N; apply mons_inj; assumption).
  rewrite !degree_mons in D.
  destruct (deglex_loop_spec (mons x) (mons y) 0 (mons_gen_wf x Hx) (mons_gen_wf y Hy) Nm D) as [[_ L]|[_ L]]; apply lex_before_mons in L.
  - left. right. repeat split; auto. right. rewrite !degree_mons. auto.
  - right. right. repeat split; auto. right. rewrite !degree_mons. auto.
Qed.
Lemma deglex_asym x y : gen_wf x -> gen_wf y -> deglex x y = true -> deglex y x = false.
Proof.
  intros Hx Hy H. apply not_true_iff_false. intros H'. rewrite deglex_spec in H, H' by assumption. exact (before_irrefl x (before_trans _ _ _ H H')).
Qed.
Lemma deglex_mul x y z a b : gen_wf x -> gen_wf y -> gen_wf z -> gen_mul x z = Ok a -> gen_mul y z = Ok b ->
  deglex x y = true -> deglex a b = true.
Proof.
  intros Hx Hy Hz Ha Hb. destruct (gen_mul_correct _ _ _ Hx Hz Ha) as [Wa _]. destruct (gen_mul_correct _ _ _ Hy Hz Hb) as [Wb _].
  rewrite !deglex_spec by assumption. destruct (gen_mul_expo _ _ _ Hx Hz Ha) as (Ea & Da & Ra). destruct (gen_mul_expo _ _ _ Hy Hz Hb) as (Eb & Db & Rb).
  intros [[R N]|(N1 & N2 & D)].
  - destruct (rational_dec z) as [Rz|Rz]; [left; tauto|]. right. split; [tauto|]. split; [tauto|]. left. pose proof (degree_pos y Hy N).
    rewrite Da, Db. destruct x; try contradiction. cbn [degree]. lia.
  - right. split; [tauto|]. split; [tauto|]. destruct D as [D|[D (i & Hi & Hi')]]; [left; lia|right]. split; [lia|].
    exists i. rewrite Ea, Eb. split; [lia|]. intros j Hj. rewrite Ea, Eb, Hi' by exact Hj. reflexivity.
Qed.
(** A product comes after its factors. *)
Lemma deglex_mul_larger x z a : gen_wf x -> gen_wf z -> ~ rational z -> gen_mul x z = Ok a -> deglex x a = true.
Proof.
  intros Hx Hz Rz Ha. destruct (gen_mul_correct _ _ _ Hx Hz Ha) as [Wa _]. rewrite deglex_spec by assumption.
  destruct (gen_mul_expo _ _ _ Hx Hz Ha) as (Ea & Da & Ra). pose proof (degree_pos z Hz Rz).
  destruct (rational_dec x) as [R|R]; [left; tauto|right; repeat split; try tauto]. left. lia.
Qed.

(** * Keys *)
Lemma key_eq_spec s : forall l r lo, mons_wf lo l -> mons_wf lo r -> mons_wf lo s -> (key_eq l r s = true <-> merge l r = s).
Proof.
  induction s as [|[k g] s IH]; intros l r lo Hl Hr Hs; cbn [key_eq].
  - destruct l as [|[i e] l], r as [|[j f] r]; split; try discriminate; try reflexivity.
    rewrite merge_cons. destruct (i <? j); [discriminate|]. destruct (i =? j); discriminate.
  - destruct Hs as (A & B & C). destruct l as [|[i e] l].
    + rewrite merge_nil_l. destruct r as [|[j f] r]; [split; discriminate|].
      destruct Hr as (D & E & F).
      destruct (Z.eqb_spec j k) as [->|N]; cbn [negb orb]; [|split; [discriminate|congruence]].
      destruct (Nat.eqb_spec f g) as [->|N]; cbn [negb]; [|split; [discriminate|congruence]].
      rewrite (IH [] r (k + 1)) by (auto; exact I). rewrite merge_nil_l. split; [intros <-; reflexivity|intros [= <-]; reflexivity].
    + destruct Hl as (A' & B' & C'). destruct (Z.ltb_spec i k) as [Hik|Hik].
      { split; [discriminate|]. destruct r as [|[j f] r]; [rewrite merge_nil_r; intros [= -> _ _]; lia|].
        rewrite merge_cons. destruct (Z.ltb_spec i j); [intros [= -> _ _]; lia|]. destruct (Z.eqb_spec i j); [intros [= -> _ _]; lia|intros [= -> _ _]; lia]. }
      destruct r as [|[j f] r].
      { rewrite merge_nil_r. destruct (Z.eqb_spec i k) as [->|N]; cbn [negb orb]; [|split; [discriminate|congruence]].
        destruct (Nat.eqb_spec e g) as [->|N]; cbn [negb]; [|split; [discriminate|congruence]].
        rewrite (IH l [] (k + 1)) by (auto; exact I). rewrite merge_nil_r. split; [intros <-; reflexivity|intros [= <-]; reflexivity]. }
      destruct Hr as (D & E & F). destruct (Z.ltb_spec j k) as [Hjk|Hjk].
      { split; [discriminate|]. rewrite merge_cons. destruct (Z.ltb_spec i j); [intros [= -> _ _]; lia|]. destruct (Z.eqb_spec i j); [intros [= -> _ _]; lia|intros [= -> _ _]; lia]. }
      rewrite merge_cons. destruct (Z.eqb_spec i k) as [->|Ni], (Z.eqb_spec j k) as [->|Nj]; cbn [andb].
      * rewrite Z.ltb_irrefl, Z.eqb_refl. destruct (Nat.eqb_spec (e + f) g) as [<-|N]; cbn [negb]; [|split; [discriminate|congruence]].
        rewrite (IH l r (k + 1)) by auto. split; [intros <-; reflexivity|intros [= <-]; reflexivity].
      * destruct (Z.ltb_spec k j); [|lia]. destruct (Nat.eqb_spec e g) as [<-|N]; cbn [negb]; [|split; [discriminate|congruence]].
        rewrite (IH l ((j, f) :: r) (k + 1)) by (auto; repeat split; auto; lia). split; [intros <-; reflexivity|intros [= <-]; reflexivity].
      * destruct (Z.ltb_spec i k); [lia|]. destruct (Z.eqb_spec i k); [lia|]. destruct (Nat.eqb_spec f g) as [<-|N]; cbn [negb]; [|split; [discriminate|congruence]].
        rewrite (IH ((i, e) :: l) r (k + 1)) by (auto; repeat split; auto; lia). split; [intros <-; reflexivity|intros [= <-]; reflexivity].
      * split; [discriminate|]. destruct (Z.ltb_spec i j); [congruence|]. destruct (Z.eqb_spec i j); congruence.
Qed.


Lemma pow64_spec fuel : forall base e res, 0 <= e < 2 ^ Z.of_nat fuel ->
  pow64 fuel base e res mod 2 ^ 64 = (res * base ^ e) mod 2 ^ 64.
Proof.
  induction fuel as [|fuel IH]; intros base e res He; cbn [pow64].
  - change (2 ^ Z.of_nat 0) with 1 in He. assert (e = 0) as -> by lia. rewrite Z.pow_0_r, Z.mul_1_r. reflexivity.
  - destruct (Z.eqb_spec e 0) as [->|N]; [rewrite Z.pow_0_r, Z.mul_1_r; reflexivity|].
    rewrite Nat2Z.inj_succ, Z.pow_succ_r in He by lia.
    rewrite IH by (split; [apply Z.div_pos; lia|apply Z.div_lt_upper_bound; lia]).
    pose proof (Z.div_mod e 2 ltac:(lia)) as Hd. rewrite Zmod_odd in Hd.
    assert (Hq : 0 <= e / 2) by (apply Z.div_pos; lia).
    assert (Hsq : forall a b : Z, (a * (b * b mod 2 ^ 64) ^ (e / 2)) mod 2 ^ 64 = (a * (b * b) ^ (e / 2)) mod 2 ^ 64).
    { intros a b. rewrite Z.mul_mod by lia. rewrite (Z.mul_mod a ((b * b) ^ (e / 2))) by lia. f_equal. f_equal.
      rewrite (Zpower_mod (b * b) (e / 2) (2 ^ 64)) by lia. reflexivity. }
    rewrite Hsq.
    destruct (Z.odd e).
    + rewrite Zmult_mod_idemp_l. f_equal. rewrite Hd at 2. rewrite Z.pow_add_r, Z.pow_mul_r, Z.pow_1_r, Z.pow_2_r by lia. ring.
    + f_equal. rewrite Hd at 2. rewrite Z.add_0_r, Z.pow_mul_r, Z.pow_2_r by lia. ring.
Qed.

Lemma hash_mons_spec ms : forall h, (forall i e, In (i, e) ms -> 0 <= i) -> hash_mons ms h mod 2 ^ 64 = (h * plain_hash ms) mod 2 ^ 64.
Proof.
  induction ms as [|[i e] ms IH]; intros h Hp; cbn [hash_mons plain_hash]; [rewrite Z.mul_1_r; reflexivity|].
  rewrite IH by (intros j f Hj; apply (Hp j f); right; exact Hj).
  rewrite Zmult_mod_idemp_l. rewrite <- (Zmult_mod_idemp_l (h * _)).
  rewrite (Z.mul_mod h) by lia. rewrite pow64_spec.
  - rewrite Z.mul_1_l. rewrite (Zpower_mod (i mod 2 ^ 64)), Z.mod_mod, <- Zpower_mod by lia. rewrite <- Z.mul_mod by lia.
    rewrite Zmult_mod_idemp_l. f_equal. ring.
  - split; [lia|]. rewrite Nat2Z.inj_succ, Z2Nat.id by apply Z.log2_nonneg.
    destruct (Z.eq_dec (Z.of_nat e) 0) as [->|N]; [reflexivity|]. apply Z.log2_spec. lia.
Qed.
Lemma hash_mons_range ms h : 0 <= h < 2 ^ 64 -> 0 <= hash_mons ms h < 2 ^ 64.
Proof.
  revert h. induction ms as [|[i e] ms IH]; intros h Hh; cbn [hash_mons]; [exact Hh|]. apply IH. apply Z.mod_pos_bound. lia.
Qed.
Lemma hash_mons_plain ms : (forall i e, In (i, e) ms -> 0 <= i) -> hash_mons ms 1 = plain_hash ms mod 2 ^ 64.
Proof.
  intros H. rewrite <- (Z.mod_small (hash_mons ms 1) (2 ^ 64)) by (apply hash_mons_range; lia). rewrite hash_mons_spec by exact H. f_equal. ring.
Qed.

Lemma plain_hash_merge l r : plain_hash (merge l r) = plain_hash l * plain_hash r.
Proof.
  revert r. induction l as [|[i e] l IHl]; intros r; [rewrite merge_nil_l; cbn [plain_hash]; ring|].
  induction r as [|[j f] r IHr]; [rewrite merge_nil_r; cbn [plain_hash]; ring|].
  rewrite merge_cons. destruct (i <? j); [|destruct (Z.eqb_spec i j) as [->|]].
  - cbn [plain_hash]. rewrite IHl. cbn [plain_hash]. ring.
  - cbn [plain_hash]. rewrite IHl, Nat2Z.inj_add, Z.pow_add_r by lia. ring.
  - cbn [plain_hash]. rewrite IHr. cbn [plain_hash]. ring.
Qed.
Lemma mons_wf_ids lo ms i e : mons_wf lo ms -> In (i, e) ms -> lo <= i /\ (0 < e)%nat.
Proof.
  revert lo. induction ms as [|[j f] ms IH]; intros lo Hw Hin; [contradiction|]. destruct Hw as (A & B & C).
  destruct Hin as [[= -> ->]|Hin]; [auto|]. destruct (IH _ C Hin). split; [lia|assumption].
Qed.
Lemma hash_mons_merge l r : mons_wf 0 l -> mons_wf 0 r ->
  hash_mons (merge l r) 1 = hash_mons l 1 * hash_mons r 1 mod 2 ^ 64.
Proof.
  intros Hl Hr. destruct (merge_spec l r) as (_ & _ & _ & Hw). specialize (Hw 0 Hl Hr).
  assert (P : forall ms, mons_wf 0 ms -> hash_mons ms 1 = plain_hash ms mod 2 ^ 64).
  { intros ms W. apply hash_mons_plain. intros i e Hin. apply (mons_wf_ids _ _ _ _ W Hin). }
  rewrite !P by assumption. rewrite plain_hash_merge. apply Z.mul_mod. lia.
Qed.
