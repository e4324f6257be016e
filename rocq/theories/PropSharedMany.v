(** C81, all numbers: RealNumbers shared by threads, see SpecShared.v and SpecSharedMany.v for the specification. *)
From Coq Require Import ZArith QArith Bool List Lia Reals ConstructiveEpsilon.
From Verif Require Import Arf Arb SpecArf Real SpecReal RealProofs Rand48Proofs Cache CacheProofs Shared SharedProofs SpecShared SharedMany SpecSharedMany SharedManyProofs.
Import ListNotations.
Open Scope Z_scope.

Lemma clamped_max p : clamped p = Z.max 0 p.
Proof. unfold clamped. destruct (Z.ltb_spec p 1); lia. Qed.
Lemma factors_length ms : length (factors ms) = fold_right (fun m n => (snd m + n)%nat) O ms.
Proof. unfold factors. induction ms as [|[a k] ms IH]; [reflexivity|]. cbn [flat_map fold_right snd]. rewrite app_length, repeat_length, IH. reflexivity. Qed.
Lemma in_factors a ms : In a (factors ms) -> exists e, In (a, e) ms /\ e <> O.
Proof.
  unfold factors. intros I. apply in_flat_map in I. destruct I as ([b k] & Hb & I). pose proof (repeat_spec _ _ _ I) as ->. exists k. split; [exact Hb|]. destruct k; [destruct I|discriminate].
Qed.
Lemma concerned_nonneg calls x p : concerned calls x p -> 0 <= p.
Proof. induction 1; [lia| |lia]. pose proof (Z.log2_up_nonneg (3 * Z.of_nat (fold_right (fun m n => (snd m + n)%nat) O ms))). lia. Qed.
Lemma concerned_closed calls x p y q : concerned calls x p -> 0 <= p -> In (y, q) (needs x p) -> concerned calls y (clamped q).
Proof.
  intros C P0 I. destruct x as [r|[s|i e s]|ms]; cbn [needs] in I; try contradiction.
  - destruct (Z.ltb_spec 0 (p + 1 - arf_bits i)) as [L|L]; [|contradiction]. destruct I as [[= <- <-]|[]].
    rewrite clamped_id by lia. replace (p + 1 - arf_bits i - 1) with (p - arf_bits i) by lia. apply (concerned_inner calls i e s); [exact C|lia].
  - apply in_map_iff in I. destruct I as (a & [= <- <-] & Ia). destruct (in_factors a ms Ia) as (e & He & Ne).
    rewrite clamped_id by (apply working_prec_nonneg; exact P0). unfold working_prec. rewrite factors_length.
    replace (_ * 2 + (_ - 1) + 1) with (3 * Z.of_nat (fold_right (fun m n => (snd m + n)%nat) O ms)) by lia. apply (concerned_factor calls ms p a e C He Ne).
Qed.
Lemma few_usual os : few_precisions os -> forall x, exists precs, (length precs < LARGE_PREC_LIMIT)%nat /\ forall p, concerned (made os) x p -> usual p = true \/ In p precs.
Proof.
  intros F x. destruct (F x) as (precs & L & H). exists precs. split; [exact L|]. intros p C. destruct (H p C) as [->|[->|I]]; [left; reflexivity|left; reflexivity|right; exact I].
Qed.
Lemma scarce_init asked : scarce asked world_init.
Proof. constructor; [intros x; split; [constructor|intros p a []]|intros t; exact Logic.I]. Qed.
Lemma few_base digits os : few_precisions os -> forall pre suf, os = pre ++ suf -> base digits (unfold_schedule digits pre world_init).
Proof.
  intros F pre suf E. apply (schedule_few digits (concerned (made os)) (few_usual os F) (fun x p y q => concerned_closed (made os) x p y q)); [apply base_init|apply scarce_init|].
  intros t x p I. rewrite clamped_max. apply concerned_itself. exists t. rewrite E. apply in_or_app. left. exact I.
Qed.
Lemma alone_base digits t os : only t os -> forall pre suf, os = pre ++ suf -> base digits (unfold_schedule digits pre world_init).
Proof.
  intros F pre suf E. apply (schedule_alone digits t); [apply base_init|reflexivity|]. intros o I. apply (F o). rewrite E. apply in_or_app. left. exact I.
Qed.
Lemma result_value rng digits os t x p a : digits_of rng digits -> base digits (unfold_schedule digits os world_init) -> In (t, x, p, a) (results (unfold_schedule digits os world_init)) -> exists fuel, num_arf rng fuel x p = Some a.
Proof.
  intros D B I. rewrite (b_results digits _ B t x p a I). destruct (exact_num digits rng x p D) as [fuel E]. exists fuel. rewrite E, clamped_id; [reflexivity|].
  exact (n_results _ (schedule_nonneg digits os _ nonneg_init) t x p a I).
Qed.
Lemma cost_enough x : (cost x <= enough x)%nat.
Proof.
  destruct x as [q|[s|i e s]|ms]; cbn [cost enough cost_atom]; try lia. rewrite <- factors_length. apply Nat.add_le_mono_l.
  induction (factors ms) as [|a l IH]; [cbn; lia|]. cbn [map length]. change (list_sum (?b :: ?m)) with (b + list_sum m)%nat. destruct a; cbn [cost_atom]; lia.
Qed.

(** The hypothesis about [digits] can be met. *)
Theorem C81_digits : exists digits, digits_of rand48 digits.
Proof.
  assert (F : forall seed, exists z, rand48 seed z = true /\ forall i, (i < z)%nat -> rand48 seed i = false) by (intros seed; apply first_one, rand48_nonzero).
  assert (D : forall seed n, {rand48 seed n = true} + {rand48 seed n <> true}) by (intros; apply bool_dec).
  assert (G : forall seed, exists n, rand48 seed n = true) by (intros seed; destruct (F seed) as (z & H & _); exists z; exact H).
  exists (fun seed prec => match arf_random rand48 (proj1_sig (constructive_indefinite_ground_description_nat _ (D seed) (G seed)) + Z.to_nat (clamp prec + 1)) seed prec with Some a => a | None => arf_of_Z 0 end).
  intros seed prec. destruct (constructive_indefinite_ground_description_nat _ (D seed) (G seed)) as [n Hn]. cbn [proj1_sig]. exists (n + Z.to_nat (clamp prec + 1))%nat.
  destruct (F seed) as (z & Hz & H0). rewrite (arf_random_eq rand48 seed z prec _ Hz H0); [reflexivity|]. assert (z <= n)%nat; [|lia].
  destruct (Nat.le_gt_cases z n) as [|L]; [assumption|]. rewrite (H0 n L) in Hn. discriminate.
Qed.

(** As long as no number is approximated at 128 precisions other than 54 and 64, every call on any number returns what
    it returns when it is alone, whatever the schedule.  Missing: any number of precisions ([C81_threads_refuted]), and
    caches whose operations are not atomic. *)
Theorem C81_numbers_partial : forall rng digits, digits_of rng digits -> forall os, few_precisions os ->
  forall t x p a, In (t, x, p, a) (results (unfold_schedule digits os world_init)) -> exists fuel, num_arf rng fuel x p = Some a.
Proof. intros rng digits D os F t x p a I. apply (result_value rng digits os t x p a D); [apply (few_base digits os F os []); symmetry; apply app_nil_r|exact I]. Qed.
(** One thread gets what it gets without caches, at any number of precisions. *)
Theorem C81_numbers_alone : forall rng digits, digits_of rng digits -> forall t os, only t os ->
  forall u x p a, In (u, x, p, a) (results (unfold_schedule digits os world_init)) -> exists fuel, num_arf rng fuel x p = Some a.
Proof. intros rng digits D t os F u x p a I. apply (result_value rng digits os u x p a D); [apply (alone_base digits t os F os []); symmetry; apply app_nil_r|exact I]. Qed.
(** Calls return, see [C81_returns] in PropSharedSafe.v. *)
Lemma numbers_return : forall digits before t x p after, few_precisions (before ++ Asks t x p :: after) ->
  threads (unfold_schedule digits before world_init) t = Idle -> (enough x <= ticks_of t after)%nat ->
  exists a, In (t, x, Z.max 0 p, a) (results (unfold_schedule digits (before ++ Asks t x p :: after) world_init)).
Proof.
  intros digits before t x p after F Ei Le. rewrite <- clamped_max. apply asks_deliver; [apply few_base, F|exact Ei|]. pose proof (cost_enough x). unfold ticks. unfold ticks_of in Le. lia.
Qed.
(** Two threads: one approximates a product of two random numbers, the other one of its factors and a number from an
    interval; their steps alternate. *)
Definition two_factors : rnum := RProd [(ARandom 1, 1%nat); (ARandom 2, 1%nat)].
Definition from_interval : rnum := RAtom (AConstr (mkArf 3 (-1)) (-1) 2).
Definition alternating : list occurrence :=
  [Asks 0 two_factors 10] ++ [Asks 1 from_interval 15] ++ flat_map (fun _ => [Ticks 0; Ticks 1]) (seq 0 40).
Lemma alternating_few : few_precisions alternating.
Proof.
  assert (In2 : forall y p, concerned (made alternating) y p -> In (y, p) [(two_factors, 10); (from_interval, 15); (RAtom (ARandom 1), 13); (RAtom (ARandom 2), 13)]).
  { induction 1 as [x p [t I]|ms p a e C IH Ia Ne|i e s p C IH L].
    - unfold alternating in I. apply in_app_or in I. destruct I as [[[= <- <- <-]|[]]|I]; [left; reflexivity|]. apply in_app_or in I. destruct I as [[[= <- <- <-]|[]]|I]; [right; left; reflexivity|].
      exfalso. apply in_flat_map in I. destruct I as (n & _ & [E|[E|[]]]); discriminate.
    - destruct IH as [E|[E|[E|[E|[]]]]]; try discriminate E. unfold two_factors in E. apply (f_equal fst) in E as E1. apply (f_equal snd) in E as E2. cbn [fst snd] in E1, E2. subst p. injection E1 as <-.
      destruct Ia as [[= <- <-]|[[= <- <-]|[]]]; [right; right; left; reflexivity|right; right; right; left; reflexivity].
    - destruct IH as [E|[E|[E|[E|[]]]]]; try discriminate E. unfold from_interval in E. apply (f_equal fst) in E as E1. apply (f_equal snd) in E as E2. cbn [fst snd] in E1, E2. subst p. injection E1 as <- <- <-. right; right; right; left; reflexivity. }
  intros y. exists [10; 13; 15]. split; [cbn; lia|]. intros p C. right. right. destruct (In2 y p C) as [E|[E|[E|[E|[]]]]]; apply (f_equal snd) in E; cbn [snd] in E; subst p; cbn [In]; auto.
Qed.
Example C81_numbers_example : forall digits, digits_of rand48 digits ->
  exists a, In (0%nat, two_factors, 10, a) (results (unfold_schedule digits alternating world_init)) /\ exists fuel, num_arf rand48 fuel two_factors 10 = Some a.
Proof.
  intros digits D.
  destruct (numbers_return digits [] 0 two_factors 10 ([Asks 1 from_interval 15] ++ flat_map (fun _ => [Ticks 0; Ticks 1]) (seq 0 40))) as [a I]; [exact alternating_few|reflexivity|cbn; lia|].
  exists a. split; [exact I|]. exact (C81_numbers_partial rand48 digits D alternating alternating_few 0 two_factors 10 a I).
Qed.
