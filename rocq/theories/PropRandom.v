(** Properties C42 and C43: random real numbers with bounds. *)
From Coq Require Import ZArith QArith Bool List Reals Lra Lia.
From Flocq Require Import Core.
From Verif Require Import Arf Arb Real SpecArf ArfProofs SpecReal RealProofs RealProofs2 RealProofs3 RealProofs4 RealProofs5 RealProofs6 Rand48Proofs SpecLoops RandomIn SpecRandom RandomInProofs.
Import ListNotations.
Open Scope R_scope.

(** * C42 *)
(** random(lower, upper, seed) throws exactly if the interval has no interior. *)
Theorem C42_throws : forall urandomm lower upper seed, random_in urandomm lower upper seed = Throws <-> arf2R upper <= arf2R lower.
Proof. exact random_in_throws. Qed.
Theorem C42_returns : forall urandomm lower upper seed, arf2R lower < arf2R upper -> exists r, random_in urandomm lower upper seed = Returns r.
Proof. exact random_in_returns. Qed.
(** The number is in the interval (and never the lower bound). *)
Theorem C42_range : forall rng urandomm lower upper seed r v, urandomm_ok urandomm -> nonzero_stream (rng seed) ->
  random_in urandomm lower upper seed = Returns r -> num_value rng r v -> arf2R lower < v <= arf2R upper.
Proof. exact random_in_range. Qed.
(** It is a proper real number: it has approximations for all precisions. *)
Theorem C42_approximations : forall rng urandomm lower upper seed r, urandomm_ok urandomm -> nonzero_stream (rng seed) ->
  random_in urandomm lower upper seed = Returns r -> num_ok rng r /\ forall prec, exists fuel0 a, forall fuel, (fuel0 <= fuel)%nat -> num_arf rng fuel r prec = Some a.
Proof.
  intros rng ur l u s r Hu Hs H. assert (K := random_in_ok rng ur l u s r Hu Hs H). split; [exact K|]. intros prec. apply num_arf_returns, K.
Qed.
(** The approximations are numbers of the interval, rounded. *)
Theorem C42_approximation_range : forall rng urandomm lower upper seed r fuel prec a, urandomm_ok urandomm -> nonzero_stream (rng seed) ->
  random_in urandomm lower upper seed = Returns r -> (1 <= prec)%Z -> num_arf rng fuel r prec = Some a ->
  exists z, arf2R lower <= z <= arf2R upper /\ arf2R a = rounded (prec + 1) NEAR z.
Proof. intros. eapply random_in_arf; eassumption. Qed.
(** The generator of the code, the interval from -1/4 to 3. *)
Definition ur0 (s n : Z) : Z := (s mod n)%Z.
Lemma ur0_ok : urandomm_ok ur0. Proof. intros s n H. apply Z.mod_pos_bound, H. Qed.
Example C42_case : exists r v, random_in ur0 (mkArf (-1) (-2)) (mkArf 3 0) 1337 = Returns r /\ num_value rand48 r v /\ - (1 / 4) < v <= 3.
Proof.
  eexists. assert (H : random_in ur0 (mkArf (-1) (-2)) (mkArf 3 0) 1337 = Returns (RAtom (AConstr (mkArf 10 (-2)) (-2) 1337))) by reflexivity.
  destruct (num_value_unique_exists rand48 (RAtom (AConstr (mkArf 10 (-2)) (-2) 1337))) as (v & V & _). exists v. split; [exact H|]. split; [exact V|].
  pose proof (C42_range _ _ _ _ _ _ _ ur0_ok (rand48_nonzero 1337) H V) as B. unfold arf2R in B. cbn [am ae] in B. simpl bpow in B. lra.
Qed.

(** * C43 *)
(** random(x, seed) returns for all doubles other than the largest and the smallest one. *)
Theorem C43_returns : forall urandomm x seed, inner_double (arf2R x) -> exists r, random_double urandomm x seed = Returns r.
Proof. intros ur x s [Fx B]. apply random_double_returns; assumption. Qed.
(** x is the double closest to the number. *)
Theorem C43_closest : forall rng urandomm x seed r v, urandomm_ok urandomm -> nonzero_stream (rng seed) -> inner_double (arf2R x) ->
  random_double urandomm x seed = Returns r -> num_value rng r v -> nearest_double v = arf2R x.
Proof. intros rng ur x s r v Hu Hs [Fx _]. apply random_double_near; assumption. Qed.
(** And the conversion to double returns x (although it is not correctly rounded in general, see C09). *)
Theorem C43_double : forall rng urandomm x seed r fuel d, urandomm_ok urandomm -> nonzero_stream (rng seed) -> inner_double (arf2R x) ->
  random_double urandomm x seed = Returns r -> num_double rng fuel r = Some d -> arf2R d = arf2R x.
Proof. intros rng ur x s r fuel d Hu Hs [Fx _]. apply random_double_double; assumption. Qed.
Theorem C43_double_returns : forall rng urandomm x seed r, urandomm_ok urandomm -> nonzero_stream (rng seed) -> inner_double (arf2R x) ->
  random_double urandomm x seed = Returns r -> exists fuel0, forall fuel, (fuel0 <= fuel)%nat -> exists d, num_double rng fuel r = Some d /\ arf2R d = arf2R x.
Proof.
  intros rng ur x s r Hu Hs I H. destruct I as [Fx B]. destruct (random_double_spec ur x s r Fx H) as (l & u & H' & _). assert (K := random_in_ok rng ur l u s r Hu Hs H').
  destruct (num_arf_returns rng r ARF_DOUBLE_PRECISION K) as (n & a & A). exists n. intros fuel Hf. specialize (A fuel Hf).
  assert (D : num_double rng fuel r = Some (arf_to_double a)) by (unfold num_double; rewrite A; reflexivity). exists (arf_to_double a). split; [exact D|]. exact (random_double_double ur rng x s r fuel _ Hu Hs Fx H D).
Qed.
(** Around the largest double, an infinity is passed on. *)
Theorem C43_largest_unspecified : exists x, is_double (arf2R x) /\ arf2R x = DBL_MAX /\ forall urandomm seed, random_double urandomm x seed = Unspecified.
Proof. exists (mkArf (2 ^ 53 - 1) 971). split; [exact max_format|]. split; [reflexivity|]. intros ur s. reflexivity. Qed.
(** Examples: 1 (the double before it is closer than the one after it), 0, the smallest double. *)
Lemma inner_case m e : (Z.abs m < 2 ^ 53)%Z -> (-1074 <= e <= 900)%Z -> inner_double (arf2R (mkArf m e)).
Proof.
  intros Hm He. split.
  - apply generic_format_FLT. exists (Float radix2 m e); [reflexivity|exact Hm|cbn; lia].
  - unfold arf2R. cbn [am ae]. rewrite Rabs_mult, <- abs_IZR, (Rabs_pos_eq (bpow _ _)) by apply bpow_ge_0. apply Rle_lt_trans with (IZR (2 ^ 53 - 1) * bpow radix2 900).
    + apply Rmult_le_compat; [apply IZR_le; lia|apply bpow_ge_0|apply IZR_le; lia|apply bpow_le; lia].
    + unfold DBL_MAX. apply Rmult_lt_compat_l; [apply IZR_lt; lia|apply bpow_lt; lia].
Qed.
Example C43_case : exists r d, random_double ur0 (mkArf 1 0) 1337 = Returns r /\ num_double rand48 100 r = Some d /\ arf2R d = 1.
Proof.
  eexists. eexists. assert (R1 : random_double ur0 (mkArf 1 0) 1337 = Returns (RAtom (AConstr (mkArf 18446744073709552270 (-64)) (-64) 1337))) by (vm_compute; reflexivity).
  split; [exact R1|]. split; [vm_compute; reflexivity|]. unfold arf2R. cbn [am ae]. simpl bpow. lra.
Qed.
Example C43_case_zero : exists r, random_double ur0 (mkArf 0 0) 1337 = Returns r /\ forall v, num_value rand48 r v -> nearest_double v = 0.
Proof.
  assert (I0 : inner_double (arf2R (mkArf 0 0))) by (apply inner_case; lia). destruct (C43_returns ur0 (mkArf 0 0) 1337 I0) as [r Hr]. exists r. split; [exact Hr|]. intros v V.
  rewrite (C43_closest rand48 ur0 _ 1337 r v ur0_ok (rand48_nonzero 1337) I0 Hr V). unfold arf2R. cbn [am ae]. ring.
Qed.
