(** C110: random and rational numbers compared by several threads, see SpecThreadsNumbers.v for the specification; and more on C100. *)
From Coq Require Import ZArith QArith Qcanon Bool List Lia.
From Verif Require Import Arf Arb Real Cache CacheProofs Shared SpecShared SharedMany SpecSharedMany Gen Ring Module Element Loops LoopsCases Threads SpecThreads ThreadsProofs PropThreads ThreadsNumbers SpecThreadsNumbers ThreadsNumbersProofs Fast48.
Import ListNotations.
Open Scope Z_scope.

Local Notation digits f := (fun seed prec => f (RAtom (ARandom seed)) prec).

(** Each thread makes any number of comparisons, one after the other: whatever it gets is what it gets when nothing else goes on.
    122 rounds are more than the code can make: the precision is a [long]. *)
Theorem C110_comparisons : forall rng f mag_up rounds (threads : nat -> list operation), arf_of rng f -> (rounds <= 122)%nat -> (forall t, Forall comparison (threads t)) ->
  forall schedule t l, outcome (work (digits f) schedule (start (fun t => session mag_up rounds (threads t)))) t = Some l -> answers rng mag_up rounds (threads t) l.
Proof.
  intros rng f mag_up rounds threads F R C schedule t l E.
  rewrite (C100_outcome_partial _ rng f _ F (session_few f mag_up rounds threads R C) schedule t l E). apply alone_session, F.
Qed.
(** and each thread gets there after sufficiently many steps of its own, whatever the other threads do. *)
Theorem C110_not_delayed : forall rng f mag_up rounds (threads : nat -> list operation), arf_of rng f -> (rounds <= 122)%nat -> (forall t, Forall comparison (threads t)) ->
  forall t, exists steps, forall schedule, (steps <= count_occ Nat.eq_dec schedule t)%nat ->
  exists l, outcome (work (digits f) schedule (start (fun t => session mag_up rounds (threads t)))) t = Some l /\ answers rng mag_up rounds (threads t) l.
Proof.
  intros rng f mag_up rounds threads F R C t. exists (steps_enough f (session mag_up rounds (threads t))). intros schedule L.
  eexists. split; [exact (C100_returns_partial _ rng f _ F (session_few f mag_up rounds threads R C) schedule t L)|]. apply alone_session, F.
Qed.
(** In one thread there are no restrictions: all operations, on all numbers. *)
Theorem C110_single : forall rng f mag_up rounds (threads : nat -> list operation), arf_of rng f ->
  forall t, exists steps, forall n, (steps <= n)%nat ->
  exists l, outcome (work (digits f) (repeat t n) (start (fun t => session mag_up rounds (threads t)))) t = Some l /\ answers rng mag_up rounds (threads t) l.
Proof.
  intros rng f mag_up rounds threads F t. exists (steps_enough f (session mag_up rounds (threads t))). intros n L.
  eexists. split; [exact (C100_single _ rng f _ F t n L)|]. apply alone_session, F.
Qed.
(** All operations, on all numbers, in many threads, as long as no number is approximated at 128 or more precisions (see C81 for what
    goes wrong otherwise) *)
Theorem C110_operations : forall rng f mag_up rounds (threads : nat -> list operation), arf_of rng f -> few_calls f (fun t => session mag_up rounds (threads t)) ->
  forall t, exists steps, forall schedule,
  (forall l, outcome (work (digits f) schedule (start (fun t => session mag_up rounds (threads t)))) t = Some l -> answers rng mag_up rounds (threads t) l) /\
  ((steps <= count_occ Nat.eq_dec schedule t)%nat -> exists l, outcome (work (digits f) schedule (start (fun t => session mag_up rounds (threads t)))) t = Some l).
Proof.
  intros rng f mag_up rounds threads F Few t. exists (steps_enough f (session mag_up rounds (threads t))). intros schedule. split.
  - intros l E. rewrite (C100_outcome_partial _ rng f _ F Few schedule t l E). apply alone_session, F.
  - intros L. eexists. exact (C100_returns_partial _ rng f _ F Few schedule t L).
Qed.

(** A thread for each number t, comparing two random numbers with each other, with integers, fractions and dyadic numbers *)
Definition comparing (t : nat) : list operation :=
  let n := Z.of_nat t in
  [Less (RAtom (ARandom 1)) (RAtom (ARandom (2 + n))); LessRational (RAtom (ARandom 2)) (n # 3); LessRational (RRat (1 # 3)) (1 # 2); GreaterInteger (RAtom (ARandom 1)) n;
   LessArf (RAtom (ARandom 1)) (mkArf n (-4)); ToDouble (RAtom (ARandom 2)); Less (RRat (1 # 2)) (RAtom (ARandom 1))].
Example C110_example : forall f, arf_of rand48 f ->
  (forall t, Forall comparison (comparing t)) /\
  (forall schedule t l, outcome (work (digits f) schedule (start (fun t => session up30 8 (comparing t)))) t = Some l -> answers rand48 up30 8 (comparing t) l) /\
  forall l, answers rand48 up30 8 (comparing 0) l -> l = [Truth true; Truth false; Truth true; Truth true; Truth false; Float (mkArf 6610183065830078 (-53)); Truth false].
Proof.
  intros f F. assert (C : forall t, Forall comparison (comparing t)). { intros t. unfold comparing. repeat constructor. }
  split; [exact C|]. split; [exact (C110_comparisons rand48 f up30 8 comparing F (proj1 (Nat.leb_le 8 122) eq_refl) C)|].
  intros l [n A]. specialize (A (200 + n)%nat ltac:(lia)). rewrite rand48_fast in A. unfold comparing in A.
  repeat (let H := fresh in let E := fresh in inversion A as [|? ? ? ? H E]; clear A; subst; rename E into A; revert H).
  inversion A. subst. cbn [sequential].
  assert (E1 : num_lt fast48 8 (200 + n) (RAtom (ARandom 1)) (RAtom (ARandom 2)) = Some true) by (vm_compute; reflexivity).
  assert (E2 : num_lt_q fast48 up30 8 (200 + n) (RAtom (ARandom 2)) (0 # 3) = Some false) by (vm_compute; reflexivity).
  assert (E3 : num_lt_q fast48 up30 8 (200 + n) (RRat (1 # 3)) (1 # 2) = Some true) by reflexivity.
  assert (E4 : num_gt_Z fast48 8 (200 + n) (RAtom (ARandom 1)) 0 = Some true) by (vm_compute; reflexivity).
  assert (E5 : num_lt_arf fast48 8 (200 + n) (RAtom (ARandom 1)) (mkArf 0 (-4)) = Some false) by (vm_compute; reflexivity).
  assert (E6 : num_double fast48 (200 + n) (RAtom (ARandom 2)) = Some (mkArf 6610183065830078 (-53))) by (vm_compute; reflexivity).
  assert (E7 : num_lt fast48 8 (200 + n) (RRat (1 # 2)) (RAtom (ARandom 1)) = Some false) by (vm_compute; reflexivity).
  rewrite E1, E2, E3, E4, E5, E6, E7. cbn [truth]. intros -> (d & Ed & ->) -> -> -> -> ->. injection Ed as <-. reflexivity.
Qed.

(** C100 for the remaining operations: the comparisons with > and the hash *)
Theorem C100_greater : forall (A : ring) mag_up number_of (carb : car A -> Z -> arb) f rounds (x y : elem A) g n q hash,
  let garb := ball_of f number_of in
  alone f (gt_elem_client mag_up number_of carb rounds x y) = gt_elem mag_up garb carb rounds x y /\
  alone f (gt_real_client mag_up number_of carb rounds x g) = gt_real mag_up garb carb rounds x g /\
  alone f (gt_int_client mag_up number_of carb rounds x n) = gt_int mag_up garb carb rounds x n /\
  alone f (gt_rat_client mag_up number_of carb rounds x q) = gt_rat mag_up garb carb rounds x q /\
  alone f (hash_client mag_up number_of carb hash rounds x) = elem_hash mag_up garb carb hash rounds x.
Proof.
  intros A mag_up number_of carb f rounds x y g n q hash garb. subst garb. split; [apply alone_lt_elem|].
  split; [apply alone_gt, alone_lt_real|]. split; [apply alone_gt, alone_lt_int|]. split; [apply alone_gt, alone_lt_rat|].
  unfold hash_client, elem_hash. rewrite alone_andthen. cbn [alone]. f_equal. apply alone_double.
Qed.
