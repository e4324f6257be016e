(** C100: elements used by several threads, see SpecThreads.v for the specification. *)
From Coq Require Import ZArith QArith Qcanon Bool List Reals Lia Lra.
From Flocq Require Import Core.
From Verif Require Import Arf Arb SpecArf Real SpecReal RealProofs RealProofs2 RealProofs3 RealRefuted Rand48Proofs Cache CacheProofs Shared SpecShared SharedMany SpecSharedMany SharedManyProofs SharedSafeProofs PropSharedMany Gen SpecGen Ring SpecRing Module Element SpecModule
  Loops SpecLoops LoopsCases PropLoops Threads SpecThreads ThreadsProofs Fast48.
Import ListNotations.
Open Scope Z_scope.

(** The digits of random numbers, when nothing else goes on *)
Local Notation digits f := (fun seed prec => f (RAtom (ARandom seed)) prec).

(** The hypothesis about [f] can be met. *)
Theorem C100_values : exists f, arf_of rand48 f.
Proof.
  destruct C81_digits as [d D]. exists (fun x p => exact d x (clamped p)). intros x p. exact (exact_num d rand48 x p D).
Qed.
Lemma few_right {R} f (jobs : nat -> client R) : few_calls f jobs -> forall os, (forall o, In o os -> good f jobs (fun _ => True) o) -> base (digit_of f) (unfold_schedule (digit_of f) os world_init).
Proof.
  intros Few os G. set (calls := fun x prec => exists t, In (x, prec) (calls_of f (jobs t))).
  assert (U : forall x, exists precs, (length precs < LARGE_PREC_LIMIT)%nat /\ forall p, concerned calls x p -> usual p = true \/ In p precs).
  { intros x. destruct (Few x) as (precs & L & H). exists precs. split; [exact L|]. intros p C. destruct (H p C) as [->|[->|I]]; [left; reflexivity|left; reflexivity|right; exact I]. }
  apply (schedule_few (digit_of f) (concerned calls) U (fun x p y q => concerned_closed calls x p y q)); [apply base_init|apply scarce_init|].
  intros t x p I. rewrite clamped_max. apply concerned_itself. exists t. exact (proj2 (G _ I)).
Qed.
Lemma alone_right {R} f (jobs : nat -> client R) t os : (forall o, In o os -> good f jobs (fun u => u = t) o) -> base (digit_of f) (unfold_schedule (digit_of f) os world_init).
Proof.
  intros G. apply (schedule_alone (digit_of f) t); [apply base_init|reflexivity|]. intros o I. specialize (G o I). destruct o; [exact (proj1 G)|exact G].
Qed.
Lemma total_enough f {R} (c : client R) : total (calls_of f c) = fold_right (fun r n => (S (enough (fst r)) + n)%nat) O (calls_of f c).
Proof. unfold total. induction (calls_of f c) as [|r l IH]; [reflexivity|]. cbn [map fold_right]. rewrite <- IH. reflexivity. Qed.

(** Whatever a program in one of several threads returns, it returns when it is alone.  Missing: programs that approximate a number
    at 128 or more precisions other than 54 and 64, see [C100_threads_refuted]. *)
Theorem C100_outcome_partial : forall R rng f (jobs : nat -> client R), arf_of rng f -> few_calls f jobs ->
  forall schedule t r, outcome (work (digits f) schedule (start jobs)) t = Some r -> r = alone f (jobs t).
Proof.
  intros R rng f jobs F Few schedule t r E.
  pose proof (inv_work rng f F jobs (fun _ => True) (few_right f jobs Few) schedule (start jobs) (fun t => total (calls_of f (jobs t))) (fun _ _ => Logic.I) (inv_start f jobs (fun _ => True) _ (fun t => le_n _))) as I.
  exact (inv_outcome f jobs (fun _ => True) _ _ t r I E).
Qed.
(** It does return, after enough steps of its own, whatever the other threads do. *)
Theorem C100_returns_partial : forall R rng f (jobs : nat -> client R), arf_of rng f -> few_calls f jobs ->
  forall schedule t, (steps_enough f (jobs t) <= count_occ Nat.eq_dec schedule t)%nat ->
  outcome (work (digits f) schedule (start jobs)) t = Some (alone f (jobs t)).
Proof.
  intros R rng f jobs F Few schedule t L.
  pose proof (inv_work rng f F jobs (fun _ => True) (few_right f jobs Few) schedule (start jobs) (fun t => total (calls_of f (jobs t))) (fun _ _ => Logic.I) (inv_start f jobs (fun _ => True) _ (fun t => le_n _))) as I.
  apply (inv_returns f jobs (fun _ => True) _ _ t I). unfold steps_enough in L. rewrite total_enough.
  assert (E : count_occ Nat.eq_dec schedule t = length (filter (Nat.eqb t) schedule)).
  { clear. induction schedule as [|u l IH]; [reflexivity|]. cbn [count_occ filter]. destruct (Nat.eq_dec u t) as [->|N]; [rewrite Nat.eqb_refl; cbn [length]; f_equal; exact IH|]. destruct (Nat.eqb_spec t u) as [->|_]; [contradiction|exact IH]. }
  lia.
Qed.
(** No schedule makes a thread crash, at any number of precisions. *)
Theorem C100_no_crash : forall R digits (jobs : nat -> client R) schedule t, threads (inside (work digits schedule (start jobs))) t <> Crashed.
Proof.
  intros R digits jobs schedule t E.
  assert (S : safe digits (inside (work digits schedule (start jobs)))).
  { assert (W : forall l (m : crowd (R := R)), safe digits (inside m) -> safe digits (inside (work digits l m))).
    { intros l. induction l as [|u l IH]; intros m Hm; [exact Hm|]. cbn [work fold_left]. apply IH. unfold move_on. destruct (doing m u) as [[r|x p k]|k]; cbn [inside]; [exact Hm|apply occur_safe, Hm|apply occur_safe, Hm]. }
    apply W, safe_init. }
  pose proof (s_threads digits _ S t) as H. rewrite E in H. exact H.
Qed.
(** Without other threads, at any number of precisions. *)
Theorem C100_single : forall R rng f (jobs : nat -> client R), arf_of rng f -> forall t n, (steps_enough f (jobs t) <= n)%nat ->
  outcome (work (digits f) (repeat t n) (start jobs)) t = Some (alone f (jobs t)).
Proof.
  intros R rng f jobs F t n L.
  assert (Al : forall u, In u (repeat t n) -> u = t) by (intros u I; exact (repeat_spec _ _ _ I)).
  pose proof (inv_work rng f F jobs (fun u => u = t) (alone_right f jobs t) (repeat t n) (start jobs) (fun t => total (calls_of f (jobs t))) Al (inv_start f jobs (fun u => u = t) _ (fun t => le_n _))) as I.
  apply (inv_returns f jobs (fun u => u = t) _ _ t I). unfold steps_enough in L. rewrite total_enough.
  assert (E : length (filter (Nat.eqb t) (repeat t n)) = n). { clear. induction n as [|n IH]; [reflexivity|]. cbn [repeat filter]. rewrite Nat.eqb_refl. cbn [length]. f_equal. exact IH. }
  lia.
Qed.

(** The balls that such a program works with are those of RealNumber::arb. *)
Theorem C100_balls : forall rng f names gs, arf_of rng f -> code_balls rng names (ball_of f (rnum_of names)) gs.
Proof.
  intros rng f names gs F g prec _ _. destruct (F (rnum_of names g) prec) as [fuel E]. exists fuel. unfold num_arb, num_refine, ball_of. destruct (prec <=? _); [reflexivity|]. rewrite E. reflexivity.
Qed.
(** The operations of elements are such programs: alone they compute what the operations in Loops.v compute with these balls. *)
Theorem C100_elements : forall (A : ring) mag_up number_of (carb : car A -> Z -> arb) f rounds (x y : elem A) g n q accuracy,
  let garb := ball_of f number_of in
  alone f (elem_arb_client mag_up number_of carb rounds x accuracy) = elem_arb mag_up garb carb rounds x accuracy /\
  alone f (lt_elem_client mag_up number_of carb rounds x y) = lt_elem mag_up garb carb rounds x y /\
  alone f (lt_real_client mag_up number_of carb rounds x g) = lt_real mag_up garb carb rounds x g /\
  alone f (lt_int_client mag_up number_of carb rounds x n) = lt_int mag_up garb carb rounds x n /\
  alone f (lt_rat_client mag_up number_of carb rounds x q) = lt_rat mag_up garb carb rounds x q /\
  alone f (floor_client mag_up number_of carb rounds x) = elem_floor mag_up garb carb rounds x /\
  alone f (ceil_client mag_up number_of carb rounds x) = elem_ceil mag_up garb carb rounds x /\
  alone f (double_client mag_up number_of carb rounds x) = elem_double mag_up garb carb rounds x /\
  alone f (floordiv_client mag_up number_of carb rounds x y) = floordiv mag_up garb carb rounds x y.
Proof.
  intros A mag_up number_of carb f rounds x y g n q accuracy garb. subst garb.
  split; [apply alone_elem_arb|]. split; [apply alone_lt_elem|]. split; [apply alone_lt_real|]. split; [apply alone_lt_int|]. split; [apply alone_lt_rat|]. split; [apply alone_floor|]. split; [apply alone_ceil|]. split; [apply alone_double|apply alone_floordiv].
Qed.

(** Any number of threads compute the floor of 3 + 2 r and the ceiling of 5 r, for a random number r, all at once. *)
Definition busy_jobs (s : Z) (t : nat) : client (option Z) :=
  if Nat.even t then floor_client (A := int_ring) up30 (rnum_of (names2 s s)) int_arb 8 zx else ceil_client (A := int_ring) up30 (rnum_of (names2 s s)) int_arb 8 zy.
Definition busy_precs : list Z := flat_map (fun i => map (fun j => (64 * 2 ^ Z.of_nat i + 1) * 2 ^ Z.of_nat j) (seq 0 8)) (seq 0 8) ++ map (fun k => 64 * 2 ^ Z.of_nat k) (seq 0 15).
Lemma busy_calls s f t x p : In (x, p) (calls_of f (busy_jobs s t)) -> (x = RRat 1 \/ x = RAtom (ARandom s)) /\ 0 <= p /\ In p busy_precs.
Proof.
  assert (Nm : forall g, In g gens2 -> rnum_of (names2 s s) g = RRat 1 \/ rnum_of (names2 s s) g = RAtom (ARandom s)).
  { intros g [<-|[<-|[]]]; [left; reflexivity|right; reflexivity]. }
  unfold busy_jobs. destruct (Nat.even t); intros I.
  - destruct (calls_floor _ _ _ _ _ _ _ _ I) as (i & j & Li & Lj & -> & g & Hg & ->). split; [exact (Nm g Hg)|]. change (Z.log2_up (Z.of_nat (rank (emodule zx)))) with 1.
    split; [pose proof (Z.pow_nonneg 2 (Z.of_nat i)); pose proof (Z.pow_nonneg 2 (Z.of_nat j)); nia|]. apply in_or_app. left. apply in_flat_map. exists i. split; [apply in_seq; lia|]. apply in_map_iff. exists j. split; [reflexivity|apply in_seq; lia].
  - destruct (calls_ceil _ _ _ _ _ _ _ _ I) as (i & j & Li & Lj & -> & g & Hg & ->). split; [destruct Hg as [<-|[]]; right; reflexivity|]. change (Z.log2_up (Z.of_nat (rank (emodule zy)))) with 0.
    split; [pose proof (Z.pow_nonneg 2 (Z.of_nat i)); pose proof (Z.pow_nonneg 2 (Z.of_nat j)); nia|]. apply in_or_app. right. apply in_map_iff. exists (i + j)%nat. split; [|apply in_seq; lia]. rewrite Nat2Z.inj_add, Z.pow_add_r by lia. ring.
Qed.
Lemma busy_few s f : few_calls f (busy_jobs s).
Proof.
  intros y. exists busy_precs. split; [vm_compute; lia|]. intros p C.
  assert (K : (y = RRat 1 \/ y = RAtom (ARandom s)) /\ In p busy_precs); [|tauto].
  induction C as [x p [t I]|ms p a e C IH Ia Ne|i e s' p C IH L].
  - destruct (busy_calls s f t x p I) as (H1 & H2 & H3). rewrite Z.max_r by exact H2. auto.
  - destruct IH as [[E|E] _]; discriminate E.
  - destruct IH as [[E|E] _]; discriminate E.
Qed.
Example C100_example : forall s f, arf_of rand48 f -> forall schedule t r, outcome (work (digits f) schedule (start (busy_jobs s))) t = Some r ->
  r = if Nat.even t then elem_floor (A := int_ring) up30 (ball_of f (rnum_of (names2 s s))) int_arb 8 zx else elem_ceil (A := int_ring) up30 (ball_of f (rnum_of (names2 s s))) int_arb 8 zy.
Proof.
  intros s f F schedule t r E. rewrite (C100_outcome_partial _ rand48 f (busy_jobs s) F (busy_few s f) schedule t r E). unfold busy_jobs. destruct (Nat.even t); [apply alone_floor|apply alone_ceil].
Qed.

(** With more precisions, the result of Element::arb can be wrong.  One thread approximates 1 + r, in a module with two random numbers r and r', to
    100 bits; the other asks for 128 approximations of the number 1. *)
Definition many_calls {R} (x : rnum) (r : R) : client R := fold_right (fun i c => Want x (200 + Z.of_nat i) (fun _ => c)) (Done r) (seq 0 128).
Definition one_plus : elem int_ring := mkElem (A := int_ring) (mkModule (A := int_ring) [GRat 1; GAtom 1; GAtom 2] tt) [1; 1; 0].
Lemma one_plus_wf : elem_wf int_sem one_plus.
Proof.
  split; [split|split; [reflexivity|repeat constructor]].
  - constructor; [exact Logic.I|]. constructor; [cbn; lia|]. constructor; [cbn; lia|constructor].
  - split; [intros h [<-|[<-|[]]]; left; (split; [exact Logic.I|intros []])|]. split; [|split; [intros h []|exact Logic.I]].
    intros h [<-|[]]. right. split; [intros []|]. split; [intros []|]. right. split; [reflexivity|]. exists 1. split; [cbn; lia|]. intros j L. cbn [expo]. destruct (Z.eqb_spec 1 j) as [|_]; [lia|]. destruct (Z.eqb_spec 2 j); [lia|reflexivity].
Qed.
Definition unlucky_jobs (s : Z) (u : nat) : client (option arb) :=
  match u with
  | O => elem_arb_client (A := int_ring) up30 (rnum_of (names2 s (s + 1))) int_arb 5 one_plus 100
  | 1%nat => many_calls (RRat 1) None
  | _ => Done None
  end.
Definition unlucky_schedule : list nat := repeat 0%nat 4 ++ repeat 1%nat 700 ++ repeat 0%nat 20.
Theorem C100_threads_refuted : exists s v digits, elem_wf int_sem one_plus /\ stream_value (rand48 s) v /\ digits_of rand48 digits /\
  exists b, outcome (work digits unlucky_schedule (start (unlucky_jobs s))) 0 = Some (Some b) /\ ~ contains b (1 + v)%R.
Proof.
  destruct C81_digits as [d D]. destruct (atom_value_exists rand48 (ARandom 1340)) as [v Hv].
  exists 1340, v, (fun s p => match arf_random rand48 150 s p with Some a => a | None => d s p end). split; [exact one_plus_wf|]. split; [exact Hv|]. split.
  { intros s p. destruct (arf_random rand48 150 s p) as [a|] eqn:E; [exists 150%nat; exact E|apply D]. }
  eexists. split; [c48|].
  cbn [atom_value] in Hv. unfold contains, arf2R. cbn [rad mid am ae]. simpl bpow. r48bound Hv 100%nat. intros C. unfold Rabs in C. destruct (Rcase_abs _) in C; lra.
Qed.
