(** Counters hand out distinct values until they wrap. *)
From Coq Require Import ZArith Bool List Lia.
From Verif Require Import Seed SpecSeed.
Import ListNotations.
Open Scope Z_scope.

Lemma seeds_nth : forall n k next, 0 <= next < 2 ^ 32 -> (k < n)%nat ->
  nth_error (seeds next n) k = Some ((next + Z.of_nat k) mod 2 ^ 32).
Proof.
  induction n as [|n IH]; intros k next Hn Hk; [lia|]. cbn [seeds]. destruct k as [|k].
  - cbn [nth_error]. rewrite Z.add_0_r, Z.mod_small by exact Hn. reflexivity.
  - cbn [nth_error]. rewrite IH; [|apply Z.mod_pos_bound; lia|lia]. f_equal.
    rewrite Zplus_mod_idemp_l. f_equal. lia.
Qed.

Lemma seeds_length n next : length (seeds next n) = n.
Proof. revert next. induction n as [|n IH]; intros; [reflexivity|]. cbn [seeds length]. rewrite IH. reflexivity. Qed.

Lemma mod_shift_inj N a i j : 0 < N -> 0 <= i < N -> 0 <= j < N -> (a + i) mod N = (a + j) mod N -> i = j.
Proof.
  intros HN Hi Hj H.
  assert ((a + i - (a + j)) mod N = 0) as E. { rewrite Zminus_mod, H, Z.sub_diag. apply Z.mod_0_l. lia. }
  apply Z.mod_divide in E; [|lia]. destruct E as [c Hc].
  assert (c = 0) by (assert (c < 1) by nia; assert (-1 < c) by nia; lia). nia.
Qed.

Lemma seeds_distinct n next : 0 <= next < 2 ^ 32 -> Z.of_nat n <= 2 ^ 32 -> NoDup (seeds next n).
Proof.
  intros Hn Hle. apply NoDup_nth_error. intros i j Hi E. rewrite seeds_length in Hi.
  assert (Hj : (j < n)%nat).
  { assert (nth_error (seeds next n) j <> None) as H by (rewrite <- E; apply nth_error_Some; rewrite seeds_length; exact Hi).
    apply nth_error_Some in H. rewrite seeds_length in H. exact H. }
  rewrite !seeds_nth in E by assumption. injection E as E. apply mod_shift_inj in E; lia.
Qed.

Lemma seeds_range n next : 0 <= next < 2 ^ 32 -> Forall (fun s => 0 <= s < 2 ^ 32) (seeds next n).
Proof.
  revert next. induction n as [|n IH]; intros next Hn; cbn [seeds]; constructor; [exact Hn|]. apply IH. apply Z.mod_pos_bound. lia.
Qed.

Lemma seeds_repeat n next : 0 <= next < 2 ^ 32 -> 2 ^ 32 < Z.of_nat n -> ~ NoDup (seeds next n).
Proof.
  intros Hn Hgt ND. rewrite NoDup_nth_error in ND. specialize (ND 0%nat (Z.to_nat (2 ^ 32))).
  rewrite seeds_length in ND.
  assert (Hk : (Z.to_nat (2 ^ 32) < n)%nat) by lia.
  rewrite (seeds_nth n 0 next Hn), (seeds_nth n _ next Hn Hk) in ND by lia.
  rewrite Z2Nat.id in ND by lia.
  assert ((next + Z.of_nat 0) mod 2 ^ 32 = (next + 2 ^ 32) mod 2 ^ 32) as E.
  { change (Z.of_nat 0) with 0. rewrite Z.add_0_r. rewrite <- (Z_mod_plus_full next 1). reflexivity. }
  rewrite E in ND. specialize (ND ltac:(lia) eq_refl).
  apply (f_equal Z.of_nat) in ND. rewrite Z2Nat.id in ND by lia. discriminate ND.
Qed.

(** Ids: after [n] steps the values handed out are [c, c+1, ..., c+n-1]. *)
Lemma id_run_handed sched : forall m,
  map snd (handed (id_run sched m)) = rev (map (fun k => (counter m + Z.of_nat k) mod 2 ^ 64) (seq 0 (length sched))) ++ map snd (handed m)
  \/ counter m <> counter m mod 2 ^ 64.
Proof.
  induction sched as [|t sched IH] using rev_ind; intros m; [left; reflexivity|].
  destruct (IH m) as [E|E]; [|right; exact E].
  destruct (Z.eq_dec (counter m) (counter m mod 2 ^ 64)) as [C|C]; [left|right; exact C].
  unfold id_run in *. rewrite fold_left_app. cbn [fold_left id_step handed map snd].
  rewrite app_length, seq_app, map_app, rev_app_distr. cbn [length seq map rev app]. rewrite E. f_equal.
  clear E IH. revert m C. induction sched as [|u sched IH] using rev_ind; intros m C.
  - cbn [fold_left length]. change (Z.of_nat (0 + 0)) with 0. rewrite Z.add_0_r. exact C.
  - rewrite fold_left_app. cbn [fold_left id_step counter]. rewrite IH by exact C. rewrite Zplus_mod_idemp_l, app_length. cbn [length]. f_equal. lia.
Qed.

Lemma id_run_distinct sched : Z.of_nat (length sched) <= 2 ^ 64 ->
  NoDup (map snd (handed (id_run sched id_init))) /\ length (handed (id_run sched id_init)) = length sched.
Proof.
  intros Hl. destruct (id_run_handed sched id_init) as [E|E]; [|exfalso; apply E; reflexivity].
  cbn [handed id_init map] in E. rewrite app_nil_r in E. split.
  - rewrite E. apply NoDup_rev.
    assert (forall n s, Z.of_nat s + Z.of_nat n <= 2 ^ 64 ->
      NoDup (map (fun k => (counter id_init + Z.of_nat k) mod 2 ^ 64) (seq s n))) as H.
    { induction n as [|n IH]; intros s Hs; cbn [seq map]; constructor.
      - rewrite in_map_iff. intros (k & Ek & Hk). apply in_seq in Hk. apply mod_shift_inj in Ek; lia.
      - apply IH. lia. }
    apply H. lia.
  - rewrite <- (map_length snd), E, rev_length, map_length, seq_length. reflexivity.
Qed.


Lemma seed_run_unpreempted calls : forall m, (forall t, reg m t = None) ->
  rev (map snd (handed (seed_run (unpreempted calls) m))) = rev (map snd (handed m)) ++ seeds (counter m) (length calls) /\
  forall t, reg (seed_run (unpreempted calls) m) t = None.
Proof.
  induction calls as [|t calls IH]; intros m Hm; cbn [unpreempted seed_run fold_left length seeds]; [rewrite app_nil_r; auto|].
  set (m1 := seed_step (seed_step m t) t).
  assert (E : m1 = mkMachine ((counter m + 1) mod 2 ^ 32) (upd (upd (reg m) t (Some (counter m))) t None) ((t, counter m) :: handed m)).
  { unfold m1, seed_step at 2. rewrite Hm. unfold seed_step. cbn [reg counter handed]. unfold upd at 1. rewrite Nat.eqb_refl. reflexivity. }
  destruct (IH m1) as [H1 H2].
  - intros u. rewrite E. cbn [reg]. unfold upd. destruct (Nat.eqb u t); [reflexivity|]. apply Hm.
  - split; [|exact H2]. fold (seed_run (unpreempted calls) m1). rewrite H1, E. cbn [handed map snd rev counter]. rewrite <- app_assoc. reflexivity.
Qed.
