(** Proofs about ThreadsNumbers.v *)
From Coq Require Import ZArith QArith Qcanon Bool List Lia.
From Verif Require Import Arf Arb Real RealProofs RealProofs3 SpecShared SharedMany Gen Ring Module Element Loops Threads SpecThreads ThreadsProofs ThreadsNumbers SpecThreadsNumbers.
Import ListNotations.
Open Scope Z_scope.

(** [e fuel] is [v] for all large [fuel]. *)
Definition eventually {T} (e : nat -> T) (v : T) : Prop := exists n, forall fuel, (n <= fuel)%nat -> e fuel = v.
Lemma eventually_const {T} (v : T) : eventually (fun _ => v) v.
Proof. exists O. reflexivity. Qed.
Lemma eventually_bind {T U} (e : nat -> T) v (g : nat -> T -> U) w : eventually e v -> eventually (fun n => g n v) w -> eventually (fun n => g n (e n)) w.
Proof.
  intros [n E] [m G]. exists (n + m)%nat. intros k L. rewrite E by lia. apply G. lia.
Qed.
Lemma eventually_map {T U} (e : nat -> T) v (g : T -> U) : eventually e v -> eventually (fun n => g (e n)) (g v).
Proof. intros [n E]. exists n. intros k L. rewrite E by lia. reflexivity. Qed.

Section Alone.
  Variables (rng : Z -> nat -> bool) (f : rnum -> Z -> arf) (mag_up : arf -> arf).
  Hypothesis F : arf_of rng f.
  Lemma ev_arf x p : eventually (fun fuel => num_arf rng fuel x p) (Some (f x p)).
  Proof. destruct (F x p) as [n E]. exists n. intros k L. exact (num_arf_fuel rng x p n k _ L E). Qed.
  Lemma ev_double x : eventually (fun fuel => num_double rng fuel x) (Some (alone f (num_double_client x))).
  Proof. exact (eventually_map _ _ (option_map arf_to_double) (ev_arf x ARF_DOUBLE_PRECISION)). Qed.
  Lemma ev_refine x b p : eventually (fun fuel => num_refine rng fuel x b p) (Some (alone f (refine_client x b p))).
  Proof.
    unfold num_refine, refine_client. destruct (p <=? _); [apply eventually_const|]. exact (eventually_map _ _ (option_map (fun m => refine_ball m p)) (ev_arf x p)).
  Qed.
  Lemma ev_arb x p : eventually (fun fuel => num_arb rng fuel x p) (Some (alone f (num_arb_client x p))).
  Proof. apply ev_refine. Qed.
  Lemma ev_cmp x b : eventually (fun fuel => num_cmp rng fuel x b) (alone f (cmp_client x b)).
  Proof.
    unfold num_cmp, cmp_client. destruct (arb_interval b) as [[lo hi]|]; [|apply eventually_const]. cbn [alone].
    exact (eventually_map _ _ (fun o => match o with None => None | Some approx => Some (if arf_ltb approx lo then -1 else if arf_ltb hi approx then 1 else 0) end) (ev_arf x _)).
  Qed.
  Lemma ev_less_loop rounds x y : forall s o p, eventually (fun fuel => num_lt_loop rng rounds fuel x y s o p) (alone f (less_loop_client rounds x y s o p)).
  Proof.
    induction rounds as [|n IH]; intros s o p; [exact (eventually_const None)|]. cbn [num_lt_loop less_loop_client]. rewrite !alone_andthen.
    apply (eventually_bind _ _ (fun fuel v => match v with Some self' => _ | None => None end) _ (ev_refine x s p)). cbv beta.
    apply (eventually_bind _ _ (fun fuel v => match v with Some other' => _ | None => None end) _ (ev_refine y o p)). cbv beta.
    destruct (op_lt _ _); [apply eventually_const|apply IH].
  Qed.
  Lemma ev_less rounds x y : eventually (fun fuel => num_lt rng rounds fuel x y) (alone f (less_client rounds x y)).
  Proof. unfold num_lt, less_client. destruct (rnum_eqb x y); [apply eventually_const|apply ev_less_loop]. Qed.
  Lemma ev_less_arf_loop rounds x a : forall s p, eventually (fun fuel => num_lt_arf_loop rng rounds fuel x a s p) (alone f (less_arf_loop_client rounds x a s p)).
  Proof.
    induction rounds as [|n IH]; intros s p; [exact (eventually_const None)|]. cbn [num_lt_arf_loop less_arf_loop_client]. rewrite !alone_andthen.
    apply (eventually_bind _ _ (fun fuel v => match v with Some self' => _ | None => None end) _ (ev_refine x s p)). cbv beta.
    destruct (op_lt _ _); [apply eventually_const|apply IH].
  Qed.
  Lemma ev_less_arf rounds x a : eventually (fun fuel => num_lt_arf rng rounds fuel x a) (alone f (less_arf_client rounds x a)).
  Proof. unfold num_lt_arf, less_arf_client. destruct (num_eq_arf x a); [apply eventually_const|apply ev_less_arf_loop]. Qed.
  Lemma ev_greater_arf rounds x a : eventually (fun fuel => num_gt_arf rng rounds fuel x a) (alone f (greater_arf_client rounds x a)).
  Proof.
    unfold num_gt_arf, greater_arf_client. destruct (num_eq_arf x a); [apply eventually_const|]. rewrite alone_andthen. exact (eventually_map _ _ (option_map negb) (ev_less_arf rounds x a)).
  Qed.
  Lemma ev_rational op rounds x q : forall p, eventually (fun fuel => num_cmpq_loop rng op rounds fuel x q p) (alone f (rational_loop_client op rounds x q p)).
  Proof.
    induction rounds as [|n IH]; intros p; [exact (eventually_const None)|]. cbn [num_cmpq_loop rational_loop_client]. rewrite !alone_andthen.
    apply (eventually_bind _ _ (fun fuel v => match v with Some b => _ | None => None end) _ (ev_arb x p)). cbv beta.
    destruct (op _ _ _); [apply eventually_const|apply IH].
  Qed.
  Lemma ev_less_rational rounds x q : eventually (fun fuel => num_lt_q rng mag_up rounds fuel x q) (alone f (less_rational_client mag_up rounds x q)).
  Proof. unfold num_lt_q, less_rational_client. destruct x; [apply eventually_const|apply ev_rational|apply ev_rational]. Qed.
  Lemma ev_greater_rational rounds x q : eventually (fun fuel => num_gt_q rng mag_up rounds fuel x q) (alone f (greater_rational_client mag_up rounds x q)).
  Proof. unfold num_gt_q, greater_rational_client. destruct x; [apply eventually_const|apply ev_rational|apply ev_rational]. Qed.
  Lemma ev_operation rounds o : exists n, forall fuel, (n <= fuel)%nat -> sequential rng mag_up rounds fuel o (alone f (operation_client mag_up rounds o)).
  Proof.
    destruct o; cbn [operation_client sequential]; rewrite alone_andthen; cbn [alone].
    - destruct (ev_double x) as [n E]. exists n. intros k L. eexists. split; [apply E, L|reflexivity].
    - destruct (ev_arb x prec) as [n E]. exists n. intros k L. eexists. split; [apply E, L|reflexivity].
    - destruct (ev_refine x b prec) as [n E]. exists n. intros k L. eexists. split; [apply E, L|reflexivity].
    - destruct (ev_cmp x b) as [n E]. exists n. intros k L. rewrite E by exact L. reflexivity.
    - destruct (ev_less rounds x y) as [n E]. exists n. intros k L. rewrite E by exact L. reflexivity.
    - destruct (ev_less_arf rounds x a) as [n E]. exists n. intros k L. rewrite E by exact L. reflexivity.
    - destruct (ev_greater_arf rounds x a) as [n E]. exists n. intros k L. rewrite E by exact L. reflexivity.
    - destruct (ev_less_arf rounds x (arf_of_Z n)) as [m E]. exists m. intros k L. unfold num_lt_Z. rewrite E by exact L. reflexivity.
    - destruct (ev_greater_arf rounds x (arf_of_Z n)) as [m E]. exists m. intros k L. unfold num_gt_Z. rewrite E by exact L. reflexivity.
    - destruct (ev_less_rational rounds x q) as [n E]. exists n. intros k L. rewrite E by exact L. reflexivity.
    - destruct (ev_greater_rational rounds x q) as [n E]. exists n. intros k L. rewrite E by exact L. reflexivity.
  Qed.
  Lemma alone_session rounds os : answers rng mag_up rounds os (alone f (session mag_up rounds os)).
  Proof.
    induction os as [|o os [n IH]]; [exists O; intros; constructor|]. cbn [session]. rewrite !alone_andthen. cbn [alone].
    destruct (ev_operation rounds o) as [m E]. exists (n + m)%nat. intros k L. constructor; [apply E; lia|apply IH; lia].
  Qed.
End Alone.

(** * The calls of comparisons *)
Section Calls.
  Variables (f : rnum -> Z -> arf) (mag_up : arf -> arf).
  (** Only simple numbers, at 54, at powers of 2 *)
  Definition power (rounds : nat) (y : rnum) (q : Z) : Prop := simple y /\ (q = 54 \/ exists i, (i < rounds + 5)%nat /\ q = 2 * 2 ^ Z.of_nat i).
  Lemma calls_refine x b p y q : In (y, q) (calls_of f (refine_client x b p)) -> y = x /\ q = p.
  Proof. unfold refine_client. destruct (p <=? _); [intros []|]. intros [[= <- <-]|[]]. auto. Qed.
  Lemma doubled p i : p * 2 * 2 ^ Z.of_nat i = p * 2 ^ Z.of_nat (S i).
  Proof. rewrite Nat2Z.inj_succ, Z.pow_succ_r by lia. ring. Qed.
  Lemma calls_less_loop rounds x y z q : forall s o p, In (z, q) (calls_of f (less_loop_client rounds x y s o p)) -> (z = x \/ z = y) /\ exists i, (i < rounds)%nat /\ q = p * 2 ^ Z.of_nat i.
  Proof.
    induction rounds as [|n IH]; intros s o p; cbn [less_loop_client]; [intros []|]. rewrite !calls_andthen. intros I.
    apply in_app_or in I. destruct I as [I|I]; [|apply in_app_or in I; destruct I as [I|I]].
    - destruct (calls_refine _ _ _ _ _ I) as [-> ->]. split; [auto|]. exists O. split; [lia|]. cbn. lia.
    - destruct (calls_refine _ _ _ _ _ I) as [-> ->]. split; [auto|]. exists O. split; [lia|]. cbn. lia.
    - destruct (op_lt _ _); [destruct I|]. destruct (IH _ _ _ I) as (E & i & L & ->). split; [exact E|]. exists (S i). split; [lia|apply doubled].
  Qed.
  Lemma calls_less_arf_loop rounds x a z q : forall s p, In (z, q) (calls_of f (less_arf_loop_client rounds x a s p)) -> z = x /\ exists i, (i < rounds)%nat /\ q = p * 2 ^ Z.of_nat i.
  Proof.
    induction rounds as [|n IH]; intros s p; cbn [less_arf_loop_client]; [intros []|]. rewrite !calls_andthen. intros I.
    apply in_app_or in I. destruct I as [I|I].
    - destruct (calls_refine _ _ _ _ _ I) as [-> ->]. split; [auto|]. exists O. split; [lia|]. cbn. lia.
    - destruct (op_lt _ _); [destruct I|]. destruct (IH _ _ I) as (E & i & L & ->). split; [exact E|]. exists (S i). split; [lia|apply doubled].
  Qed.
  Lemma calls_rational op rounds x r z q : forall p, In (z, q) (calls_of f (rational_loop_client op rounds x r p)) -> z = x /\ exists i, (i < rounds)%nat /\ q = p * 2 ^ Z.of_nat i.
  Proof.
    induction rounds as [|n IH]; intros p; cbn [rational_loop_client]; [intros []|]. rewrite !calls_andthen. intros I.
    apply in_app_or in I. destruct I as [I|I].
    - destruct (calls_refine _ _ _ _ _ I) as [-> ->]. split; [auto|]. exists O. split; [lia|]. cbn. lia.
    - destruct (op _ _ _); [destruct I|]. destruct (IH _ I) as (E & i & L & ->). split; [exact E|]. exists (S i). split; [lia|apply doubled].
  Qed.
  Lemma calls_less_arf rounds x a z q : simple x -> In (z, q) (calls_of f (less_arf_client rounds x a)) -> power rounds z q.
  Proof.
    intros Sx. unfold less_arf_client. destruct (num_eq_arf x a); [intros []|]. intros I. destruct (calls_less_arf_loop _ _ _ _ _ _ _ I) as (-> & i & L & ->). split; [exact Sx|]. right. exists i. split; [lia|reflexivity].
  Qed.
  Lemma calls_greater_arf rounds x a z q : simple x -> In (z, q) (calls_of f (greater_arf_client rounds x a)) -> power rounds z q.
  Proof.
    intros Sx. unfold greater_arf_client. destruct (num_eq_arf x a); [intros []|]. rewrite calls_andthen. intros I. apply in_app_or in I. destruct I as [I|[]]. exact (calls_less_arf _ _ _ _ _ Sx I).
  Qed.
  Lemma fast_power p i : p = ARB_PRECISION_FAST * 2 ^ Z.of_nat i -> p = 2 * 2 ^ Z.of_nat (i + 5).
  Proof. intros ->. rewrite Nat2Z.inj_add, Z.pow_add_r by lia. change (2 ^ Z.of_nat 5) with 32. change ARB_PRECISION_FAST with 64. ring. Qed.
  Lemma calls_operation rounds o z q : comparison o -> In (z, q) (calls_of f (operation_client mag_up rounds o)) -> power rounds z q.
  Proof.
    destruct o; cbn [comparison operation_client]; intros C; try contradiction; rewrite calls_andthen; intros I; apply in_app_or in I; destruct I as [I|[]].
    - cbn in I. destruct I as [[= <- <-]|[]]. split; [exact C|left; reflexivity].
    - unfold less_client in I. destruct (rnum_eqb x y); [destruct I|]. destruct (calls_less_loop _ _ _ _ _ _ _ _ I) as (E & i & L & ->). destruct C as [Cx Cy]. split; [destruct E as [-> | ->]; assumption|]. right. exists i. split; [lia|reflexivity].
    - exact (calls_less_arf _ _ _ _ _ C I).
    - exact (calls_greater_arf _ _ _ _ _ C I).
    - exact (calls_less_arf _ _ _ _ _ C I).
    - exact (calls_greater_arf _ _ _ _ _ C I).
    - unfold less_rational_client in I. destruct x; [destruct I| |]; (destruct (calls_rational _ _ _ _ _ _ _ I) as (-> & i & L & E); split; [exact C|]; right; exists (i + 5)%nat; split; [lia|exact (fast_power _ _ E)]).
    - unfold greater_rational_client in I. destruct x; [destruct I| |]; (destruct (calls_rational _ _ _ _ _ _ _ I) as (-> & i & L & E); split; [exact C|]; right; exists (i + 5)%nat; split; [lia|exact (fast_power _ _ E)]).
  Qed.
  Lemma calls_session rounds os z q : Forall comparison os -> In (z, q) (calls_of f (session mag_up rounds os)) -> power rounds z q.
  Proof.
    induction os as [|o os IH]; intros C; cbn [session]; [intros []|]. rewrite !calls_andthen. intros I. pose proof (Forall_inv C) as Co. pose proof (Forall_inv_tail C) as Cs.
    apply in_app_or in I. destruct I as [I|I]; [exact (calls_operation _ _ _ _ Co I)|]. apply in_app_or in I. destruct I as [I|[]]. exact (IH Cs I).
  Qed.
  Lemma session_few rounds (jobs : nat -> list operation) : (rounds <= 122)%nat -> (forall t, Forall comparison (jobs t)) -> few_calls f (fun t => session mag_up rounds (jobs t)).
  Proof.
    intros L C y. exists (map (fun i => 2 * 2 ^ Z.of_nat i) (seq 0 (rounds + 5))). split; [rewrite map_length, seq_length; lia|]. intros p D.
    assert (K : power rounds y p).
    { induction D as [x p [t I]|ms p a e D IH Ia Ne|i e s p D IH Li].
      - destruct (calls_session _ _ _ _ (C t) I) as [Sx E]. assert (N : 0 <= p). { destruct E as [->|[i [_ ->]]]; [lia|]. pose proof (Z.pow_nonneg 2 (Z.of_nat i)). lia. } rewrite Z.max_r by exact N. split; [exact Sx|exact E].
      - destruct IH as [[] _].
      - destruct IH as [[] _]. }
    destruct K as [_ [->|[i [Li ->]]]]; [left; reflexivity|]. right. right. apply in_map_iff. exists i. split; [reflexivity|]. apply in_seq. lia.
  Qed.
End Calls.

(** * Elements *)
Section Elements.
  Context {A : ring}.
  Variable mag_up : arf -> arf.
  Variable number_of : gen -> rnum.
  Variable carb : car A -> Z -> arb.
  Variable f : rnum -> Z -> arf.
  Local Notation garb := (ball_of f number_of).
  Lemma alone_gt eq less rounds x test : alone f less = lt mag_up garb carb rounds x eq test -> alone f (gt_client eq less) = gt mag_up garb carb rounds x eq test.
  Proof. intros E. unfold gt_client, gt. destruct eq as [[|]|e]; try reflexivity. rewrite alone_andthen, E. reflexivity. Qed.
End Elements.
