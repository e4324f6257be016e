(** Properties C10, C17, C38, C39: caches, ids and seeds of a process. *)
From Coq Require Import ZArith QArith Bool List Reals Lia Lra.
From Flocq Require Import Core.
From Verif Require Import Arf Arb SpecArf Real SpecReal Cache CacheProofs Seed SpecSeed SeedProofs Rand48Proofs Rand48Rational.
Import ListNotations.
Open Scope Z_scope.

(** * C10 caches *)
(** After any history [reqs] of requests to any numbers, what arf(prec) returns is
    what it would compute without any cache. *)
Theorem C10_history_independent : forall rng fuel reqs x prec h' a fuel' b,
  cached_arf rng fuel (run rng fuel reqs heap_empty) x prec = Some (h', a) ->
  num_arf rng fuel' x prec = Some b -> a = b.
Proof. exact cache_transparent. Qed.
(** It returns, whatever the history. *)
Theorem C10_returns : forall rng x prec, num_ok rng x ->
  exists fuel0, forall fuel h, (fuel0 <= fuel)%nat -> exists r, cached_arf rng fuel h x prec = Some r.
Proof. exact cached_arf_returns. Qed.
(** The cache of unusual precisions holds at most 128 entries, one per precision. *)
Theorem C10_bounded : forall rng fuel reqs x,
  (length (large (run rng fuel reqs heap_empty x)) <= 128)%nat /\
  NoDup (map fst (large (run rng fuel reqs heap_empty x))).
Proof. exact cache_bounded. Qed.
Example C10_example :
  let h := run rand48 100 [(RAtom (ARandom 1337), 5); (RProd [(ARandom 1337, 2%nat)], 7); (RAtom (ARandom 1337), 54)] heap_empty in
  map fst (large (h (RAtom (ARandom 1337)))) = [10; 5] /\
  option_map snd (cached_arf rand48 100 h (RAtom (ARandom 1337)) 5) = Some (mkArf 38 (-7)) /\
  num_arf rand48 100 (RAtom (ARandom 1337)) 5 = Some (mkArf 38 (-7)).
Proof. vm_compute. auto. Qed.

(** * C17 ids *)
(** Whatever the interleaving of the threads, ids are distinct until the 64 bit counter wraps. *)
Theorem C17_ids_distinct : forall sched, Z.of_nat (length sched) <= 2 ^ 64 ->
  NoDup (map snd (handed (id_run sched id_init))) /\ length (handed (id_run sched id_init)) = length sched.
Proof. exact id_run_distinct. Qed.
Example C17_example : handed (id_run [0; 1; 1; 0]%nat id_init) =
  [(0%nat, 2147483662); (1%nat, 2147483661); (1%nat, 2147483660); (0%nat, 2147483659)].
Proof. reflexivity. Qed.

(** * C38 seeds *)
(** The first 2^32 seeds of a process are distinct, ... *)
Theorem C38_distinct : forall n, Z.of_nat n <= 2 ^ 32 -> NoDup (seeds first_seed n).
Proof. exact (fun n => seeds_distinct n first_seed (conj (Zle_bool_imp_le 0 1337 eq_refl) (eq_refl : 1337 < 2 ^ 32))). Qed.
(** ... later ones are not. *)
Theorem C72_distinct_refuted : forall n, 2 ^ 32 < Z.of_nat n -> ~ NoDup (seeds first_seed n).
Proof. exact (fun n => seeds_repeat n first_seed (conj (Zle_bool_imp_le 0 1337 eq_refl) (eq_refl : 1337 < 2 ^ 32))). Qed.
(** Random numbers with different seeds are different real numbers ... *)
Theorem C38_values_distinct : forall s t v, 0 <= s < 2 ^ 32 -> 0 <= t < 2 ^ 32 ->
  stream_value (rand48 s) v -> stream_value (rand48 t) v -> s = t.
Proof. exact rand48_values_distinct. Qed.
(** ... all of whose digits exist ... *)
Theorem C38_nonzero : forall seed, nonzero_stream (rand48 seed).
Proof. exact rand48_nonzero. Qed.
(** ... but they are not independent of 1, or of each other, over the rationals. *)
Theorem C72_independent_refuted : forall seed v, stream_value (rand48 seed) v ->
  exists p q, 0 < q /\ v = (IZR p / IZR q)%R.
Proof. exact rand48_rational. Qed.
Example C38_example : seeds first_seed 4 = [1337; 1338; 1339; 1340] /\ exists v, stream_value (rand48 1337) v.
Proof.
  split; [reflexivity|].
  destruct (RealProofs6.num_value_unique_exists rand48 (RAtom (ARandom 1337))) as [v [Hv _]]. exists v. exact Hv.
Qed.

(** * C39 seeds and threads *)
(** Two threads can get the same seed. *)
Theorem C39_race_refuted : exists sched, handed (seed_run sched seed_init) = [(1%nat, 1337); (0%nat, 1337)].
Proof. exact (ex_intro _ [0; 1; 0; 1]%nat eq_refl). Qed.
(** Even one and the same thread can get the same seed in two calls that follow each other, if another thread is delayed. *)
Theorem C39_same_thread_refuted : exists sched, handed (seed_run sched seed_init) = [(1%nat, 1338); (0%nat, 1337); (1%nat, 1338); (1%nat, 1337)].
Proof. exact (ex_intro _ [0; 1; 1; 1; 1; 0; 1; 1]%nat eq_refl). Qed.
(** What is true for all schedules: the seeds of n calls are among the first n seeds (until
    the counter wraps). *)
Lemma seed_range sched : forall m k, (forall t v, reg m t = Some v -> first_seed <= v < first_seed + k + 1) -> first_seed <= counter m <= first_seed + k ->
  Z.of_nat (length (handed m)) = k -> (forall t v, In (t, v) (handed m) -> first_seed <= v < first_seed + k) ->
  first_seed + k + Z.of_nat (length sched) < 2 ^ 32 ->
  let m' := seed_run sched m in let k' := Z.of_nat (length (handed m')) in
  first_seed <= counter m' <= first_seed + k' /\ forall t v, In (t, v) (handed m') -> first_seed <= v < first_seed + k'.
Proof.
  induction sched as [|t sched IH]; intros m k Hr Hc Hl Hh Hb; [cbn; rewrite Hl; auto|]. cbn [length] in Hb. rewrite Nat2Z.inj_succ in Hb.
  change (seed_run (t :: sched) m) with (seed_run sched (seed_step m t)). unfold seed_step. destruct (reg m t) as [v|] eqn:E.
  - pose proof (Hr t v E) as Rv. apply (IH _ (k + 1)); cbn [reg counter handed length].
    + intros u w. unfold upd. destruct (u =? t)%nat; [discriminate|]. intros H. specialize (Hr u w H). lia.
    + rewrite Z.mod_small; [lia|]. assert (0 <= first_seed) by (cbv; discriminate). lia.
    + rewrite Nat2Z.inj_succ. lia.
    + intros u w [[= <- <-]|H]; [lia|]. specialize (Hh u w H). lia.
    + lia.
  - apply (IH _ k); cbn [reg counter handed length]; auto; [|lia].
    intros u w. unfold upd. destruct (u =? t)%nat; [intros [= <-]; lia|]. apply Hr.
Qed.
Theorem C39_range_partial : forall sched, first_seed + Z.of_nat (length sched) < 2 ^ 32 ->
  let m := seed_run sched seed_init in forall t v, In (t, v) (handed m) -> first_seed <= v < first_seed + Z.of_nat (length (handed m)).
Proof.
  intros sched H m. refine (proj2 (seed_range sched seed_init 0 _ _ eq_refl _ _)); cbn [seed_init reg counter handed length]; try lia; [discriminate|intros t v []].
Qed.
(** Calls that are not interleaved hand out distinct seeds. *)
Theorem C39_unpreempted_partial : forall calls, Z.of_nat (length calls) <= 2 ^ 32 ->
  rev (map snd (handed (seed_run (unpreempted calls) seed_init))) = seeds first_seed (length calls) /\
  NoDup (seeds first_seed (length calls)).
Proof.
  exact (fun calls H => conj (proj1 (seed_run_unpreempted calls seed_init (fun _ => eq_refl))) (C38_distinct _ H)).
Qed.
Example C39_example : handed (seed_run (unpreempted [0; 1]%nat) seed_init) = [(1%nat, 1338); (0%nat, 1337)].
Proof. reflexivity. Qed.
