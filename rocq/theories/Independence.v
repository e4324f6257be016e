(** Products of indeterminates are linearly independent over the reals, as functions
    of the values of the indeterminates. *)
From Coq Require Import ZArith QArith Qcanon Bool List Reals Qreals Permutation Lra Lia.
From Verif Require Import Gen SpecGen GenProofs.
Import ListNotations.
Open Scope R_scope.

(** * One variable: sum of a * t^n *)
Fixpoint psum (l : list (R * nat)) (t : R) : R := match l with [] => 0 | (a, n) :: l' => a * t ^ n + psum l' t end.
Fixpoint pcoef (l : list (R * nat)) (n : nat) : R := match l with [] => 0 | (a, m) :: l' => (if Nat.eqb m n then a else 0) + pcoef l' n end.
Fixpoint pabs (l : list (R * nat)) : R := match l with [] => 0 | (a, _) :: l' => Rabs a + pabs l' end.
(** Remove the constant term and divide by t. *)
Fixpoint pshift (l : list (R * nat)) : list (R * nat) :=
  match l with [] => [] | (a, m) :: l' => match m with O => pshift l' | S m' => (a, m') :: pshift l' end end.
Lemma psum_shift l t : psum l t = pcoef l 0 + t * psum (pshift l) t.
Proof. induction l as [|[a [|m]] l IH]; cbn; [ring| |]; rewrite IH; ring. Qed.
Lemma pcoef_shift l n : pcoef (pshift l) n = pcoef l (S n).
Proof. induction l as [|[a [|m]] l IH]; cbn; [reflexivity| |]; rewrite IH; ring. Qed.
Lemma pabs_nonneg l : 0 <= pabs l.
Proof. induction l as [|[a m] l IH]; cbn; [lra|]. pose proof (Rabs_pos a). lra. Qed.
Lemma psum_bound l t : 0 < t <= 1 -> Rabs (psum l t) <= pabs l.
Proof.
  intros Ht. induction l as [|[a m] l IH]; cbn; [rewrite Rabs_R0; lra|].
  apply (Rle_trans _ _ _ (Rabs_triang _ _)). apply Rplus_le_compat; [|exact IH].
  rewrite Rabs_mult. rewrite <- (Rmult_1_r (Rabs a)) at 2. apply Rmult_le_compat_l; [apply Rabs_pos|].
  assert (P : 0 <= t ^ m <= 1). { split; [apply pow_le; lra|]. rewrite <- (pow1 m). apply pow_incr. lra. }
  rewrite Rabs_right; lra.
Qed.
Lemma psum_zero_0 l : (forall t, 0 < t -> psum l t = 0) -> pcoef l 0 = 0.
Proof.
  intros H. destruct (Req_dec (pcoef l 0) 0) as [E|E]; [exact E|]. exfalso.
  set (c := Rabs (pcoef l 0)). assert (Hc : 0 < c) by (apply Rabs_pos_lt, E).
  set (K := pabs (pshift l)). assert (HK : 0 <= K) by apply pabs_nonneg.
  set (t := Rmin 1 (c / (K + 1) / 2)).
  assert (Hq : 0 < c / (K + 1) / 2) by (apply Rdiv_lt_0_compat; [apply Rdiv_lt_0_compat|]; lra).
  assert (Ht : 0 < t <= 1). { unfold t. split; [apply Rmin_pos; lra|apply Rmin_l]. }
  pose proof (H t (proj1 Ht)) as Z. rewrite psum_shift in Z.
  assert (B : c <= t * K). { unfold c. replace (pcoef l 0) with (- (t * psum (pshift l) t)) by lra. rewrite Rabs_Ropp, Rabs_mult, (Rabs_right t) by lra.
    apply Rmult_le_compat_l; [lra|]. apply psum_bound, Ht. }
  assert (T : t <= c / (K + 1) / 2) by apply Rmin_r.
  assert (T2 : t * K <= c / (K + 1) / 2 * (K + 1)) by (apply Rmult_le_compat; lra).
  replace (c / (K + 1) / 2 * (K + 1)) with (c / 2) in T2 by (field; lra). lra.
Qed.
Lemma psum_zero n : forall l, (forall t, 0 < t -> psum l t = 0) -> pcoef l n = 0.
Proof.
  induction n as [|n IH]; intros l H; [apply psum_zero_0, H|].
  rewrite <- pcoef_shift. apply IH. intros t Ht. pose proof (psum_zero_0 l H) as Z. specialize (H t Ht). rewrite psum_shift, Z in H.
  apply (Rmult_eq_reg_l t); lra.
Qed.
Lemma pcoef_in l : NoDup (map snd l) -> forall a n, In (a, n) l -> pcoef l n = a.
Proof.
  induction l as [|[b m] l IH]; intros Hn a n H; [destruct H|]. cbn in *. inversion Hn as [|? ? Hm Hn']; subst.
  assert (Z : forall k, ~ In k (map snd l) -> pcoef l k = 0).
  { clear. induction l as [|[c j] l IH]; intros k H; cbn in *; [reflexivity|]. destruct (Nat.eqb_spec j k); [exfalso; apply H; auto|]. rewrite IH by auto. ring. }
  destruct H as [E|H].
  - injection E as -> ->. rewrite Nat.eqb_refl, Z by exact Hm. ring.
  - destruct (Nat.eqb_spec m n) as [->|E].
    + exfalso. apply Hm. apply in_map_iff. exists (a, n). auto.
    + rewrite (IH Hn' a n H). ring.
Qed.

(** * Kronecker substitution *)
Fixpoint wt (B : nat) (ms : list (Z * nat)) : nat :=
  match ms with [] => O | (i, e) :: ms' => (e * B ^ Z.to_nat i + wt B ms')%nat end.
Lemma mons_val_wt B t ms : mons_val (fun i => t ^ (B ^ Z.to_nat i)) ms = t ^ wt B ms.
Proof.
  induction ms as [|[i e] ms IH]; cbn; [reflexivity|]. rewrite IH, pow_add. f_equal. rewrite <- pow_mult. f_equal. lia.
Qed.
Lemma wt_multiple B ms : forall lo, (0 <= lo)%Z -> mons_wf lo ms -> exists k, wt B ms = (B ^ Z.to_nat lo * k)%nat.
Proof.
  induction ms as [|[i e] ms IH]; intros lo Hlo H; cbn; [exists O; lia|]. destruct H as (H1 & H2 & H3).
  destruct (IH (i + 1)%Z) as [k Hk]; [lia|exact H3|]. rewrite Hk.
  assert (E1 : Z.to_nat i = (Z.to_nat lo + Z.to_nat (i - lo))%nat) by lia.
  assert (E2 : Z.to_nat (i + 1) = (Z.to_nat lo + Z.to_nat (i + 1 - lo))%nat) by lia.
  rewrite E1, E2, !Nat.pow_add_r. exists (e * B ^ Z.to_nat (i - lo) + B ^ Z.to_nat (i + 1 - lo) * k)%nat. lia.
Qed.
Lemma wt_cons B i e ms lo : (0 <= lo)%Z -> mons_wf lo ((i, e) :: ms) -> exists k, wt B ((i, e) :: ms) = (B ^ Z.to_nat i * (e + B * k))%nat /\ wt B ms = (B ^ Z.to_nat i * (B * k))%nat.
Proof.
  intros Hlo (H1 & H2 & H3). destruct (wt_multiple B ms (i + 1)%Z) as [k Hk]; [lia|exact H3|]. exists k. cbn. rewrite Hk.
  replace (Z.to_nat (i + 1)) with (S (Z.to_nat i)) by lia. cbn [Nat.pow]. split; lia.
Qed.
Lemma digit_unique B e f k k' : (e < B)%nat -> (f < B)%nat -> (e + B * k = f + B * k')%nat -> e = f /\ k = k'.
Proof.
  intros He Hf H. assert (k = k') as ->.
  { assert (~ (k < k')%nat /\ ~ (k' < k)%nat); [|lia]. split; intros G; nia. }
  split; [lia|reflexivity].
Qed.
Lemma wt_inj B l : forall r lo, (0 <= lo)%Z -> mons_wf lo l -> mons_wf lo r ->
  (forall i e, In (i, e) l -> (e < B)%nat) -> (forall i e, In (i, e) r -> (e < B)%nat) -> wt B l = wt B r -> l = r.
Proof.
  assert (Pos : forall B i, (0 < B)%nat -> (0 < B ^ Z.to_nat i)%nat) by (intros B' i HB; apply Nat.neq_0_lt_0, Nat.pow_nonzero; lia).
  induction l as [|[i e] l IH]; intros [|[j f] r] lo Hlo Hl Hr Bl Br H.
  - reflexivity.
  - exfalso. assert (f < B)%nat by (apply (Br j f); left; reflexivity). destruct Hr as (_ & Hf & _). cbn in H. pose proof (Pos B j ltac:(lia)). nia.
  - exfalso. assert (e < B)%nat by (apply (Bl i e); left; reflexivity). destruct Hl as (_ & He & _). cbn in H. pose proof (Pos B i ltac:(lia)). nia.
  - assert (He : (e < B)%nat) by (apply (Bl i e); left; reflexivity). assert (Hf : (f < B)%nat) by (apply (Br j f); left; reflexivity).
    destruct (wt_cons B i e l lo Hlo Hl) as (k & K1 & K2). destruct (wt_cons B j f r lo Hlo Hr) as (k' & K1' & K2').
    destruct Hl as (Hi & He0 & Hl), Hr as (Hj & Hf0 & Hr). rewrite K1, K1' in H.
    destruct (Z.lt_trichotomy i j) as [C|[C|C]].
    + exfalso. replace (Z.to_nat j) with (Z.to_nat i + S (Z.to_nat (j - i - 1)))%nat in H by lia. rewrite Nat.pow_add_r in H. cbn [Nat.pow] in H.
      assert (e + B * k = 0 + B * (B ^ Z.to_nat (j - i - 1) * (f + B * k')))%nat.
      { apply (Nat.mul_cancel_l _ _ (B ^ Z.to_nat i)); [pose proof (Pos B i ltac:(lia)); lia|]. rewrite H. lia. }
      apply digit_unique in H0; lia.
    + subst j. assert (E : (e + B * k = f + B * k')%nat).
      { apply (Nat.mul_cancel_l _ _ (B ^ Z.to_nat i)); [pose proof (Pos B i ltac:(lia)); lia|exact H]. }
      apply digit_unique in E; [|assumption|assumption]. destruct E as [-> ->]. f_equal.
      apply (IH r (i + 1)%Z); [lia|assumption|assumption| | |congruence].
      * intros a b I. apply (Bl a b). right. exact I.
      * intros a b I. apply (Br a b). right. exact I.
    + exfalso. replace (Z.to_nat i) with (Z.to_nat j + S (Z.to_nat (i - j - 1)))%nat in H by lia. rewrite Nat.pow_add_r in H. cbn [Nat.pow] in H.
      assert (f + B * k' = 0 + B * (B ^ Z.to_nat (i - j - 1) * (e + B * k)))%nat.
      { apply (Nat.mul_cancel_l _ _ (B ^ Z.to_nat j)); [pose proof (Pos B j ltac:(lia)); lia|]. rewrite <- H. lia. }
      apply digit_unique in H0; lia.
Qed.

Lemma bound_exists (l : list gen) : exists B, (0 < B)%nat /\ forall g i e, In g l -> In (i, e) (mons g) -> (e < B)%nat.
Proof.
  assert (M : forall ms : list (Z * nat), exists B, forall i e, In (i, e) ms -> (e < B)%nat).
  { induction ms as [|[j f] ms [B IH]]; [exists O; intros ? ? []|]. exists (S f + B)%nat. intros i e [E|H]; [injection E as -> ->; lia|]. specialize (IH i e H). lia. }
  induction l as [|g l (B & HB & IH)]; [exists 1%nat; split; [lia|intros ? ? ? []]|].
  destruct (M (mons g)) as [C HC]. exists (B + C)%nat. split; [lia|]. intros h i e [<-|H] I; [specialize (HC i e I); lia|]. specialize (IH h i e H I). lia.
Qed.

(** * Independence *)
Fixpoint rcomb (rho : Z -> R) (l : list (R * gen)) : R := match l with [] => 0 | (a, g) :: l' => a * gen_val rho g + rcomb rho l' end.
Definition key (B : nat) (g : gen) : nat := match g with GRat _ => O | _ => wt B (mons g) end.
Definition lead (g : gen) : R := match g with GRat q => Q2R q | _ => 1 end.
Lemma key_val B t g : gen_val (fun i => t ^ (B ^ Z.to_nat i)) g = lead g * t ^ key B g.
Proof.
  destruct g as [q|i|ms].
  - cbn. ring.
  - cbn [gen_val lead key mons]. rewrite <- (mons_val_wt B t [(i, 1%nat)]). cbn. ring.
  - cbn [gen_val lead key mons]. rewrite mons_val_wt. ring.
Qed.
Lemma key_pos B g : (0 < B)%nat -> gen_wf g -> ~ rational g -> (0 < key B g)%nat.
Proof.
  intros HB Hg R. assert (P : forall i, (0 < B ^ Z.to_nat i)%nat) by (intros i; apply Nat.neq_0_lt_0, Nat.pow_nonzero; lia).
  destruct g as [q|i|ms]; [exfalso; apply R; exact I| |].
  - cbn. specialize (P i). lia.
  - destruct Hg as [H1 H2]. destruct ms as [|[i e] ms]; [cbn in H2; lia|]. destruct H1 as (_ & He & _). cbn. specialize (P i). nia.
Qed.
Lemma key_inj B g h : (0 < B)%nat -> gen_wf g -> gen_wf h -> (forall i e, In (i, e) (mons g) -> (e < B)%nat) -> (forall i e, In (i, e) (mons h) -> (e < B)%nat) ->
  key B g = key B h -> (rational g /\ rational h) \/ g = h.
Proof.
  intros HB Hg Hh Bg Bh E. destruct (rational_dec g) as [Rg|Rg], (rational_dec h) as [Rh|Rh]; auto.
  - pose proof (key_pos B h HB Hh Rh). destruct g; try contradiction. cbn in E. lia.
  - pose proof (key_pos B g HB Hg Rg). destruct h; try contradiction. cbn in E. lia.
  - right. apply mons_inj; auto. apply (wt_inj B (mons g) (mons h) 0%Z); auto; [lia|apply mons_gen_wf, Hg|apply mons_gen_wf, Hh|].
    destruct g, h; try contradiction; auto; exfalso; auto; try (apply Rg; exact I); try (apply Rh; exact I).
Qed.
Lemma NoDup_map_in (X Y : Type) (f : X -> Y) l : (forall x y, In x l -> In y l -> f x = f y -> x = y) -> NoDup l -> NoDup (map f l).
Proof.
  induction l as [|a l IH]; intros H Hn; cbn; [constructor|]. inversion Hn as [|? ? Ha Hn']; subst. constructor.
  - intros I. apply in_map_iff in I. destruct I as (b & E & I). apply Ha. rewrite <- (H b a); [exact I|right; exact I|left; reflexivity|exact E].
  - apply IH; [|exact Hn']. intros x y Hx Hy. apply H; right; assumption.
Qed.

Theorem independent (l : list (R * gen)) :
  Forall gen_wf (map snd l) -> NoDup (map snd l) ->
  (forall g h, In g (map snd l) -> In h (map snd l) -> rational g -> rational h -> g = h) ->
  ~ In (GRat 0%Qc) (map snd l) ->
  (forall rho, rcomb rho l = 0) -> forall a g, In (a, g) l -> a = 0.
Proof.
  intros W N R1 Z H a g I. destruct (bound_exists (map snd l)) as (B & HB & Bd).
  set (f := fun x : R * gen => (fst x * lead (snd x), key B (snd x))).
  assert (E : forall t, rcomb (fun i => t ^ (B ^ Z.to_nat i)) l = psum (map f l) t).
  { intros t. clear. induction l as [|[a g] l IH]; cbn; [reflexivity|]. rewrite IH, key_val. ring. }
  assert (Nk : NoDup (map snd (map f l))).
  { rewrite map_map. change (NoDup (map (fun x => key B (snd x)) l)). rewrite <- (map_map snd (key B)). apply NoDup_map_in; [|exact N].
    intros x y Hx Hy K. pose proof (proj1 (Forall_forall _ _) W) as F.
    apply (key_inj B x y HB (F x Hx) (F y Hy)) in K; [|intros i e; apply Bd, Hx|intros i e; apply Bd, Hy]. destruct K as [[Rx Ry]|K]; auto. }
  assert (P : pcoef (map f l) (key B g) = a * lead g).
  { apply pcoef_in; [exact Nk|]. apply in_map_iff. exists (a, g). auto. }
  rewrite psum_zero in P by (intros t _; rewrite <- E; apply H).
  symmetry in P. apply Rmult_integral in P. destruct P as [P|P]; [exact P|]. exfalso.
  destruct g as [q|i|ms]; cbn in P; [|lra|lra]. apply Z. apply in_map_iff. exists (a, GRat q). split; [|exact I]. cbn. f_equal. apply Q2R_Qc_inj. rewrite P. symmetry. apply Q2R_Qc_0.
Qed.

(** The coefficient of a monomial in a linear combination of generators that may be
    repeated; all rational generators belong to the monomial 1. *)
Definition same_mono (g k : gen) : bool := (is_rational g && is_rational k) || gen_eqb g k.
Fixpoint rcoef (l : list (R * gen)) (k : gen) : R :=
  match l with [] => 0 | (a, g) :: l' => (if same_mono g k then a * lead g else 0) + rcoef l' k end.
Lemma same_mono_key B g k : (0 < B)%nat -> gen_wf g -> gen_wf k -> (forall i e, In (i, e) (mons g) -> (e < B)%nat) -> (forall i e, In (i, e) (mons k) -> (e < B)%nat) ->
  Nat.eqb (key B g) (key B k) = same_mono g k.
Proof.
  intros HB Hg Hk Bg Bk. unfold same_mono. destruct (Nat.eqb_spec (key B g) (key B k)) as [E|E].
  - symmetry. apply orb_true_iff. apply (key_inj B g k HB Hg Hk Bg Bk) in E. destruct E as [[Rg Rk]|<-]; [left|right; apply gen_eqb_refl].
    destruct g, k; try contradiction; reflexivity.
  - symmetry. apply orb_false_iff. split.
    + destruct g, k; try reflexivity. cbn in E. congruence.
    + apply gen_eqb_neq. intros ->. apply E. reflexivity.
Qed.
Lemma rcomb_kronecker B t l : rcomb (fun i => t ^ (B ^ Z.to_nat i)) l = psum (map (fun x : R * gen => (fst x * lead (snd x), key B (snd x))) l) t.
Proof. induction l as [|[a g] l IH]; cbn; [reflexivity|]. rewrite IH, key_val. ring. Qed.
Theorem rcoef_zero (l : list (R * gen)) : Forall gen_wf (map snd l) -> (forall rho, rcomb rho l = 0) -> forall k, gen_wf k -> rcoef l k = 0.
Proof.
  intros W H k Hk. destruct (bound_exists (k :: map snd l)) as (B & HB & Bd).
  assert (P : pcoef (map (fun x : R * gen => (fst x * lead (snd x), key B (snd x))) l) (key B k) = rcoef l k).
  { clear H. assert (Bd' : forall g i e, In g (map snd l) -> In (i, e) (mons g) -> (e < B)%nat) by (intros g i e I; apply Bd; right; exact I).
    pose proof (fun i e => Bd k i e (or_introl eq_refl)) as Bk. clear Bd. induction l as [|[a g] l IH]; [reflexivity|]. cbn in *. inversion W; subst.
    rewrite (same_mono_key B g k HB) by (auto; intros i e; apply Bd'; auto). rewrite IH; [reflexivity|assumption|]. intros h i e I. apply Bd'. auto. }
  rewrite <- P. apply psum_zero. intros t _. rewrite <- rcomb_kronecker. apply H.
Qed.
Lemma rcoef_app l r k : rcoef (l ++ r) k = rcoef l k + rcoef r k.
Proof. induction l as [|[a g] l IH]; cbn; [ring|]. rewrite IH. ring. Qed.
Lemma rcomb_app rho l r : rcomb rho (l ++ r) = rcomb rho l + rcomb rho r.
Proof. induction l as [|[a g] l IH]; cbn; [ring|]. rewrite IH. ring. Qed.
Definition rscale (s : R) (l : list (R * gen)) : list (R * gen) := map (fun x => (s * fst x, snd x)) l.
Lemma rscale_comb s rho l : rcomb rho (rscale s l) = s * rcomb rho l.
Proof. unfold rscale. induction l as [|[a g] l IH]; cbn; [ring|]. rewrite IH. ring. Qed.
Lemma rscale_coef s l k : rcoef (rscale s l) k = s * rcoef l k.
Proof. unfold rscale. induction l as [|[a g] l IH]; cbn; [ring|]. rewrite IH. destruct (same_mono g k); ring. Qed.
Lemma rscale_gens s l : map snd (rscale s l) = map snd l.
Proof. unfold rscale. rewrite map_map. reflexivity. Qed.
(** Combinations with the same values have the same coefficients. *)
Theorem rcoef_unique l r : Forall gen_wf (map snd l) -> Forall gen_wf (map snd r) -> (forall rho, rcomb rho l = rcomb rho r) ->
  forall k, gen_wf k -> rcoef l k = rcoef r k.
Proof.
  intros Wl Wr H k Hk. assert (Z : rcoef (l ++ rscale (-1) r) k = 0).
  { apply rcoef_zero; [rewrite map_app, rscale_gens; apply Forall_app; auto| |exact Hk]. intros rho. rewrite rcomb_app, rscale_comb, H. ring. }
  rewrite rcoef_app, rscale_coef in Z. lra.
Qed.
