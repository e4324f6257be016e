(** * C81 A real number can be used by several threads *)
From Coq Require Import ZArith QArith Reals Bool List Lia.
From Verif Require Import Arf Arb SpecArf Real Cache CacheProofs Shared SpecShared SharedProofs.
Import ListNotations.
Open Scope Z_scope.

Lemma move_same m t p : move m t p t = p.
Proof. unfold move. rewrite Nat.eqb_refl. reflexivity. Qed.
Lemma move_other m t p u : u <> t -> move m t p u = at_ m u.
Proof. intros N. unfold move. destruct (Nat.eqb_spec u t); [contradiction|reflexivity]. Qed.

(** As long as fewer than 128 different precisions other than 54 and 64 are asked for, every call returns what it
    returns when it is alone, whatever the schedule.  Missing: any number of precisions ([C81_threads_refuted]), numbers
    that are made of others, and caches whose operations are not atomic. *)
Theorem C81_threads_partial : forall rng x f, on_its_own x -> approximates rng x f -> forall precs events,
  (length precs < 128)%nat ->
  (forall t p, In (Call t p) events -> p = 54 \/ p = 64 \/ In (Z.max 0 p) precs) ->
  forall t p r, In (t, p, r) (returned (play f events shared_init)) ->
  exists a, r = Some a /\ exists fuel, num_arf rng fuel x p = Some a.
Proof.
  intros rng x f _ Hf precs events Hl Hc t p r Hi.
  assert (S : sound f precs (play f events shared_init)).
  { apply play_sound; [exact Hl|apply init_sound|]. intros u q Hu. destruct (Hc u q Hu) as [->|[->|H]].
    - left; reflexivity.
    - left; reflexivity.
    - right. unfold clamped. destruct (Z.ltb_spec q 1) as [L|L].
      + replace 0 with (Z.max 0 q) by lia. exact H.
      + replace q with (Z.max 0 q) by lia. exact H. }
  exists (f p). split; [exact (s_ret _ _ _ S t p r Hi)|exact (Hf p)].
Qed.

(** A thread that has the number for itself gets the right values for any number of precisions. *)
Definition by_thread (t : nat) (e : event) : Prop := match e with Call u _ => u = t | Step u => u = t end.
Record alone (f : Z -> arf) (precs : list Z) (t : nat) (m : shared) : Prop := mkAlone {
  a_fine : fine f precs (contents m);
  a_at : match at_ m t with None => True | Some (Look p) | Some (Count p) | Some (Wipe p) | Some (Store p) => allowed precs p
         | Some (Fetch p) => cache_find (contents m) p = Some (f p) end;
  a_ret : forall u p r, In (u, p, r) (returned m) -> r = Some (f p) }.
Lemma alone_happen f precs t m e : by_thread t e -> (forall p, e = Call t p -> allowed precs (clamped p)) -> alone f precs t m -> alone f precs t (happen f m e).
Proof.
  intros B C [F A Rt]. destruct e as [u p|u]; cbn [by_thread] in B; subst u; cbn [happen].
  - destruct (at_ m t) as [pl|] eqn:E; [constructor; rewrite ?E; assumption|]. constructor; cbn [contents at_ returned]; auto. rewrite move_same. apply C. reflexivity.
  - unfold advance. destruct (at_ m t) as [[p|p|p|p|p]|] eqn:E.
    + constructor; cbn [contents at_ returned]; auto. rewrite move_same. destruct (cache_find (contents m) p) as [a|] eqn:Ef.
      * cbv beta iota. rewrite Ef. f_equal. exact (fine_find _ _ _ _ _ F Ef).
      * destruct (usual p); exact A.
    + constructor; cbn [contents at_ returned]; auto. rewrite move_same. destruct (LARGE_PREC_LIMIT <=? length (large (contents m)))%nat; exact A.
    + constructor; cbn [contents at_ returned]; auto; [|rewrite move_same; exact A]. constructor; cbn [c54 c64 large]; [apply F|apply F|intros q a []|constructor].
    + constructor; cbn [contents at_ returned]; auto; [apply fine_put; assumption|]. rewrite move_same. rewrite find_put, Z.eqb_refl. reflexivity.
    + rewrite A. constructor; cbn [contents at_ returned]; auto; [rewrite move_same; exact Logic.I|]. intros u q r [[= <- <- <-]|Hi]; [reflexivity|eauto].
    + constructor; rewrite ?E; auto.
Qed.
Lemma alone_play f precs t : forall events m, (forall e, In e events -> by_thread t e) -> (forall p, In (Call t p) events -> allowed precs (clamped p)) ->
  alone f precs t m -> alone f precs t (play f events m).
Proof.
  induction events as [|e events IH]; intros m B C A; [exact A|]. unfold play. cbn [fold_left]. apply IH.
  - intros e' He. apply B. right. exact He.
  - intros p Hp. apply C. right. exact Hp.
  - apply alone_happen; [apply B; left; reflexivity| |exact A]. intros p ->. apply C. left. reflexivity.
Qed.
Theorem C81_alone : forall rng x f, on_its_own x -> approximates rng x f -> forall t events,
  (forall e, In e events -> match e with Call u _ => u = t | Step u => u = t end) ->
  forall u p r, In (u, p, r) (returned (play f events shared_init)) -> exists a, r = Some a /\ exists fuel, num_arf rng fuel x p = Some a.
Proof.
  intros rng x f _ Hf t events B u p r Hi.
  set (precs := flat_map (fun e => match e with Call _ q => [clamped q] | Step _ => [] end) events).
  assert (A : alone f precs t (play f events shared_init)).
  { apply alone_play; [exact B| |].
    - intros q Hq. right. apply in_flat_map. exists (Call t q). split; [exact Hq|left; reflexivity].
    - constructor; cbn; auto; [|intros v q r' []]. constructor; cbn; try discriminate; [intros q a []|constructor]. }
  exists (f p). split; [exact (a_ret _ _ _ _ A u p r Hi)|exact (Hf p)].
Qed.

(** No call waits for another thread: five steps of a thread end its call, whatever the others do in between. *)
Definition distance (p : option place) : nat :=
  match p with None => 0 | Some (Look _) => 5 | Some (Count _) => 4 | Some (Wipe _) => 3 | Some (Store _) => 2 | Some (Fetch _) => 1 end.
Lemma advance_distance f m t : (distance (at_ m t) <> 0 -> distance (at_ (advance f m t) t) < distance (at_ m t))%nat.
Proof.
  unfold advance. destruct (at_ m t) as [[p|p|p|p|p]|] eqn:E; intros H; try (cbn in H; lia).
  - cbn [at_]. rewrite move_same. destruct (cache_find (contents m) p); [cbn; lia|]. destruct (usual p); cbn; lia.
  - cbn [at_]. rewrite move_same. destruct (LARGE_PREC_LIMIT <=? length (large (contents m)))%nat; cbn; lia.
  - cbn [at_]. rewrite move_same. cbn; lia.
  - cbn [at_]. rewrite move_same. cbn; lia.
  - destruct (cache_find (contents m) p); [|destruct (usual p)]; cbn [at_]; rewrite move_same; cbn; lia.
Qed.
Lemma advance_other f m t u : u <> t -> at_ (advance f m u) t = at_ m t.
Proof.
  intros N. unfold advance. destruct (at_ m u) as [[p|p|p|p|p]|]; try reflexivity;
    try (cbn [at_]; apply move_other; congruence).
  destruct (cache_find (contents m) p); [|destruct (usual p)]; cbn [at_]; apply move_other; congruence.
Qed.
Lemma steps_end f t : forall events m, (distance (at_ m t) <= steps_of t events)%nat ->
  exists before after, events = before ++ after /\ at_ (play f before m) t = None.
Proof.
  induction events as [|e events IH]; intros m H.
  - exists [], []. split; [reflexivity|]. cbn in *. destruct (at_ m t) as [[]|]; cbn in H; try lia; reflexivity.
  - destruct (at_ m t) as [pl|] eqn:E; [|exists [], (e :: events); split; [reflexivity|exact E]].
    destruct (IH (happen f m e)) as (b & a & Eq & Hb); [|exists (e :: b), a; split; [rewrite Eq; reflexivity|exact Hb]].
    destruct e as [u p|u]; cbn [happen].
    + change (steps_of t (Call u p :: events)) with (steps_of t events) in H.
      destruct (at_ m u) eqn:Eu; [rewrite E; exact H|]. cbn [at_]. unfold move. destruct (Nat.eqb_spec t u) as [->|]; [congruence|]. rewrite E; exact H.
    + unfold steps_of in H. cbn [filter] in H. destruct (Nat.eqb_spec u t) as [->|N].
      * pose proof (advance_distance f m t) as D. cbn [length] in H. fold (steps_of t events) in H. rewrite E in D. destruct pl; cbn [distance] in *; lia.
      * rewrite (advance_other f m t u N), E. exact H.
Qed.
Theorem C81_wait_free : forall f m t events, (5 <= steps_of t events)%nat ->
  exists before after, events = before ++ after /\ at_ (play f before m) t = None.
Proof. intros f m t events H. apply steps_end. destruct (at_ m t) as [[]|]; cbn [distance]; lia. Qed.

(** Two threads are enough for arf(prec) of the number 1 to return 0: one wipes the cache after the other has stored its
    result and before it reads it. *)
Definition one_after_another (precs : list Z) : list event :=
  flat_map (fun p => [Call 0 p; Step 0; Step 0; Step 0; Step 0]) precs.
Definition unlucky : list event :=
  one_after_another (map Z.of_nat (seq 100 127)) ++
  [Call 0 300; Step 0; Step 0; Step 0;   (* thread 0 has stored the value for precision 300 ... *)
   Call 1 301; Step 1; Step 1; Step 1;   (* ... thread 1 wipes the cache ... *)
   Step 0;                               (* ... thread 0 returns *)
   Step 1; Step 1].
Theorem C81_threads_refuted : exists x f, on_its_own x /\ approximates rand48 x f /\
  exists events t prec a, In (t, prec, Some a) (returned (play f events shared_init)) /\ arf2R a = 0%R /\
  forall fuel b, num_arf rand48 fuel x prec = Some b -> arf2R b = 1%R.
Proof.
  exists (RRat 1), (fun p => arf_rational 1 (clamped p)). split; [exact Logic.I|]. split; [intros p; exists 0%nat; reflexivity|].
  exists unlucky, 0%nat, 300, (arf_of_Z 0). split; [|split].
  - assert (E : nth_error (returned (play (fun p => arf_rational 1 (clamped p)) unlucky shared_init)) 1 = Some (0%nat, 300, Some (arf_of_Z 0))) by (vm_compute; reflexivity).
    apply (nth_error_In _ 1). exact E.
  - unfold arf2R, arf_of_Z. cbn [am ae]. apply Rmult_0_l.
  - intros fuel b [= <-]. unfold arf2R. cbn. Lra.lra.
Qed.
(** The wrong value stays: no thread is in a call any more, and then every call of one thread alone returns 0. *)
Lemma advance_look f m t p a : at_ m t = Some (Look p) -> cache_find (contents m) p = Some a ->
  advance f m t = mkShared (contents m) (move m t (Some (Fetch p))) (returned m).
Proof. intros H1 H2. unfold advance. rewrite H1, H2. reflexivity. Qed.
Lemma advance_fetch f m t p a : at_ m t = Some (Fetch p) -> cache_find (contents m) p = Some a ->
  advance f m t = mkShared (contents m) (move m t None) ((t, p, Some a) :: returned m).
Proof. intros H1 H2. unfold advance. rewrite H1, H2. reflexivity. Qed.
Lemma repeat_shift {X} (x : X) n l : repeat x n ++ x :: l = x :: repeat x n ++ l.
Proof. induction n as [|n IH]; [reflexivity|]. cbn [repeat app]. rewrite IH. reflexivity. Qed.
Lemma stays f t p a n : forall k m, clamped p = p -> at_ m t = None -> cache_find (contents m) p = Some a ->
  returned (play f (flat_map (fun _ => [Call t p; Step t; Step t]) (seq k n)) m) = repeat (t, p, Some a) n ++ returned m.
Proof.
  induction n as [|n IH]; intros k m Hp Ht Hc; [reflexivity|].
  cbn [seq flat_map app]. unfold play. cbn [fold_left]. fold (play f). cbn [happen]. rewrite Ht, Hp.
  rewrite (advance_look f (mkShared (contents m) (move m t (Some (Look p))) (returned m)) t p a); [|cbn [at_]; apply move_same|cbn [contents]; exact Hc].
  match goal with |- context [advance f ?m' t] => rewrite (advance_fetch f m' t p a) end; [|cbn [at_]; apply move_same|cbn [contents]; exact Hc].
  cbn [contents returned at_]. change (fold_left (happen f)) with (play f).
  rewrite IH; [|exact Hp|cbn [at_]; apply move_same|exact Hc]. cbn [returned repeat]. apply repeat_shift.
Qed.
Theorem C81_poisoned_refuted : exists f events t prec, approximates rand48 (RRat 1) f /\ let m := play f events shared_init in (forall u, at_ m u = None) /\ forall n, returned (play f (flat_map (fun _ => [Call t prec; Step t; Step t]) (seq 0 n)) m) = repeat (t, prec, Some (arf_of_Z 0)) n ++ returned m.
Proof.
  exists (fun p => arf_rational 1 (clamped p)), unlucky, 0%nat, 300. split; [intros p; exists 0%nat; reflexivity|]. cbv zeta. split.
  - intros u. destruct u as [|[|u]]; vm_compute; reflexivity.
  - intros n. apply stays; vm_compute; reflexivity.
Qed.

(** Three threads, three precisions *)
Example C81_example :
  returned (play (fun p => arf_rational (1 # 3) (clamped p)) [Call 0 54; Call 1 54; Call 2 5; Step 0; Step 1; Step 1; Step 2; Step 0; Step 2; Step 1; Step 2; Step 0; Step 2] shared_init)
  = [(2%nat, 5, Some (arf_rational (1 # 3) 5)); (0%nat, 54, Some (arf_rational (1 # 3) 54)); (1%nat, 54, Some (arf_rational (1 # 3) 54))].
Proof. vm_compute. reflexivity. Qed.
