(** Proofs about Threads.v *)
From Coq Require Import ZArith QArith Qcanon Bool List Lia.
From Verif Require Import Arf Arb Real RealProofs RealProofs3 Cache CacheProofs Shared SharedProofs SpecShared SharedMany SpecSharedMany SharedManyProofs PropSharedMany Gen Ring Module Element Loops Threads SpecThreads.
Import ListNotations.
Open Scope Z_scope.

Lemma alone_andthen {R S} f (c : client R) (d : R -> client S) : alone f (andthen c d) = alone f (d (alone f c)).
Proof. induction c as [r|x p k IH]; [reflexivity|]. cbn [andthen alone]. apply IH. Qed.
Lemma calls_andthen {R S} f (c : client R) (d : R -> client S) : calls_of f (andthen c d) = calls_of f c ++ calls_of f (d (alone f c)).
Proof. induction c as [r|x p k IH]; [reflexivity|]. cbn [andthen calls_of alone app]. f_equal. apply IH. Qed.

Section Crowd.
  Context {R : Type}.
  Variables (rng : Z -> nat -> bool) (f : rnum -> Z -> arf).
  Hypothesis F : arf_of rng f.
  Definition digit_of (s p : Z) : arf := f (RAtom (ARandom s)) p.
  Lemma digit_ok : digits_of rng digit_of.
  Proof.
    intros s p. destruct (F (RAtom (ARandom s)) p) as [fuel E]. exists fuel. unfold digit_of. rewrite <- E. unfold num_arf. cbn [arf_atom]. unfold arf_random. fold (clamp p). fold (clamp (clamp p)). rewrite clamp_idem. reflexivity.
  Qed.
  Lemma exact_f x p : exact digit_of x (clamped p) = f x p.
  Proof.
    destruct (exact_num digit_of rng x p digit_ok) as [n1 E1]. destruct (F x p) as [n2 E2]. exact (num_arf_det rng x p n1 n2 _ _ E1 E2).
  Qed.
  Lemma give_idle w t x p below : chain digit_of x p below ->
    (exists fr below', threads (give w (caches w) t x p (exact digit_of x p) below) t = Busy fr below' /\ bottom fr below' = bottom (mkFrame x p Looking) below) \/
    (threads (give w (caches w) t x p (exact digit_of x p) below) t = Idle /\ results (give w (caches w) t x p (exact digit_of x p) below) = (t, fst (bottom (mkFrame x p Looking) below), snd (bottom (mkFrame x p Looking) below), exact digit_of (fst (bottom (mkFrame x p Looking) below)) (snd (bottom (mkFrame x p Looking) below))) :: results w).
  Proof.
    intros C. destruct below as [|[y q [| | |got [|[x' p'] todo]|]] below]; cbn [chain] in C; try contradiction; cbn [give threads results].
    - right. split; [apply become_same|reflexivity].
    - left. do 2 eexists. split; [apply become_same|]. cbn [bottom]. apply bottom_stage.
  Qed.
  Lemma tick_outcome w t fr below x q : base digit_of w -> threads w t = Busy fr below -> bottom fr below = (x, q) ->
    (exists fr' below', threads (tick digit_of w t) t = Busy fr' below' /\ bottom fr' below' = (x, q)) \/
    (threads (tick digit_of w t) t = Idle /\ results (tick digit_of w t) = (t, x, q, exact digit_of x q) :: results w).
  Proof.
    intros B Et Eb. pose proof (b_threads digit_of w B t) as Tt. rewrite Et in Tt. destruct Tt as [Top Ch]. destruct fr as [y r st]. cbn [number precision] in Ch.
    unfold tick. rewrite Et. cbv zeta. destruct st as [| | |got [|[z r'] todo]|].
    - left. do 2 eexists. split; [apply become_same|]. rewrite <- Eb. apply bottom_stage.
    - left. do 2 eexists. split; [apply become_same|]. rewrite <- Eb. apply bottom_stage.
    - left. do 2 eexists. split; [apply become_same|]. rewrite <- Eb. apply bottom_stage.
    - left. do 2 eexists. split; [apply become_same|]. rewrite <- Eb. apply bottom_stage.
    - left. do 2 eexists. split; [apply become_same|]. cbn [bottom]. exact Eb.
    - unfold top_ok, holds_at in Top. cbn [stage_of number precision] in Top. rewrite Top.
      rewrite (bottom_stage y r Fetching Looking) in Eb. destruct (give_idle w t y r below Ch) as [(fr & b & E1 & E2)|[E1 E2]].
      + left. exists fr, b. split; [exact E1|]. rewrite E2. exact Eb.
      + right. split; [exact E1|]. rewrite E2, Eb. reflexivity.
  Qed.

  (** The steps that the calls of a program need *)
  Definition total (l : list (rnum * Z)) : nat := list_sum (map (fun r => S (enough (fst r))) l).
  Lemma total_cons x p l : total ((x, p) :: l) = (S (enough x) + total l)%nat.
  Proof. reflexivity. Qed.

  Variable jobs : nat -> client R.
  Variable allowed : nat -> Prop.
  Definition good (o : occurrence) : Prop := match o with Asks t x p => allowed t /\ In (x, p) (calls_of f (jobs t)) | Ticks t => allowed t end.
  Hypothesis right : forall os, (forall o, In o os -> good o) -> base digit_of (unfold_schedule digit_of os world_init).

  Definition doing_ok (w : world) (t : nat) (a : activity) (n : nat) : Prop :=
    match a with
    | Ready c => threads w t = Idle /\ alone f c = alone f (jobs t) /\ incl (calls_of f c) (calls_of f (jobs t)) /\ (total (calls_of f c) <= n)%nat
    | Waiting k => exists x p fr below, threads w t = Busy fr below /\ bottom fr below = (x, clamped p) /\ alone f (k (f x p)) = alone f (jobs t) /\ incl (calls_of f (k (f x p))) (calls_of f (jobs t)) /\
        (remaining (threads w t) + total (calls_of f (k (f x p))) <= n)%nat
    end.
  Definition inv (m : crowd) (n : nat -> nat) : Prop :=
    exists os, inside m = unfold_schedule digit_of os world_init /\ (forall o, In o os -> good o) /\ forall t, doing_ok (inside m) t (doing m t) (n t).
  Lemma doing_ok_same w w' t a n : threads w' t = threads w t -> doing_ok w t a n -> doing_ok w' t a n.
  Proof. intros E. destruct a as [c|k]; cbn [doing_ok]; rewrite E; auto. Qed.
  Lemma inv_start n : (forall t, (total (calls_of f (jobs t)) <= n t)%nat) -> inv (start jobs) n.
  Proof.
    intros N. exists []. split; [reflexivity|]. split; [intros o []|]. intros t. cbn [start doing inside doing_ok]. split; [reflexivity|]. split; [reflexivity|]. split; [apply incl_refl|apply N].
  Qed.
  Lemma occur_other w t u o : match o with Asks v _ _ | Ticks v => v = t end -> u <> t -> threads (occur digit_of w o) u = threads w u.
  Proof.
    intros E N. destruct o as [v x p|v]; subst v; cbn [occur]; [|apply tick_other; exact N].
    destruct (threads w t); try reflexivity. cbn [threads]. apply become_other, N.
  Qed.
  Definition less (n : nat -> nat) (t : nat) : nat -> nat := fun u => if Nat.eqb u t then pred (n u) else n u.
  Lemma inv_step m n t : allowed t -> inv m n -> inv (move_on digit_of m t) (less n t).
  Proof.
    intros Al (os & Ei & Go & D). pose proof (D t) as Dt. unfold move_on. destruct (doing m t) as [[r|x p k]|k] eqn:Ed; cbn [doing_ok] in Dt.
    - exists os. split; [exact Ei|]. split; [exact Go|]. intros u. unfold less. destruct (Nat.eqb_spec u t) as [Eu|N]; [|apply D]. subst u. rewrite Ed. cbn [doing_ok]. destruct Dt as (D1 & D2 & D3 & D4). repeat split; auto. cbn. lia.
    - destruct Dt as (D1 & D2 & D3 & D4). cbn [calls_of alone] in D2, D3, D4. rewrite total_cons in D4.
      exists (os ++ [Asks t x p]). cbn [inside doing]. split; [unfold unfold_schedule; rewrite fold_left_app; cbn [fold_left]; fold (unfold_schedule digit_of os world_init); rewrite <- Ei; reflexivity|]. split.
      { intros o I. apply in_app_or in I. destruct I as [I|[<-|[]]]; [exact (Go o I)|]. split; [exact Al|]. apply D3. left. reflexivity. }
      intros u. unfold less, now. destruct (Nat.eqb_spec u t) as [Eu|N].
      + subst u. cbn [doing_ok]. exists x, p, (next_call x p), []. cbn [occur]. rewrite D1. cbn [threads]. rewrite become_same. split; [reflexivity|]. split; [reflexivity|]. split; [exact D2|]. split; [intros y Hy; apply D3; right; exact Hy|].
        pose proof (cost_enough x). unfold remaining, left_of. cbn [next_call stage_of number map list_sum fold_right]. lia.
      + apply (doing_ok_same (inside m)); [|apply D]. apply (occur_other _ t); [reflexivity|exact N].
    - destruct Dt as (x & p & fr & below & D1 & D2 & D3 & D4 & D5).
      assert (B : base digit_of (inside m)) by (rewrite Ei; apply right, Go).
      cbv zeta. cbn [occur inside].
      assert (Lt : (remaining (threads (tick digit_of (inside m) t) t) < remaining (threads (inside m) t))%nat). { apply tick_remaining. rewrite D1. pose proof (remaining_busy fr below). lia. }
      exists (os ++ [Ticks t]). cbn [inside doing]. split; [unfold unfold_schedule; rewrite fold_left_app; cbn [fold_left occur]; fold (unfold_schedule digit_of os world_init); rewrite <- Ei; reflexivity|]. split.
      { intros o I. apply in_app_or in I. destruct I as [I|[<-|[]]]; [exact (Go o I)|exact Al]. }
      intros u. destruct (Nat.eq_dec u t) as [Eu|N].
      + subst u. unfold less. rewrite Nat.eqb_refl. destruct (tick_outcome (inside m) t fr below x (clamped p) B D1 D2) as [(fr' & b' & E1 & E2)|[E1 E2]].
        * rewrite E1. rewrite Ed. cbn [doing_ok]. exists x, p, fr', b'. split; [exact E1|]. split; [exact E2|]. split; [exact D3|]. split; [exact D4|]. lia.
        * rewrite E1, E2. unfold now. rewrite Nat.eqb_refl. cbn [doing_ok]. rewrite exact_f. split; [exact E1|]. split; [exact D3|]. split; [exact D4|]. lia.
      + assert (Eo : threads (tick digit_of (inside m) t) u = threads (inside m) u) by (apply tick_other; exact N).
        apply (doing_ok_same (inside m)); [exact Eo|]. unfold less. destruct (Nat.eqb_spec u t) as [|_]; [contradiction|].
        assert (match threads (tick digit_of (inside m) t) t, results (tick digit_of (inside m) t) with Idle, (_, _, _, a) :: _ => now m t (Ready (k a)) | _, _ => doing m end u = doing m u) as ->; [|apply D].
        destruct (threads (tick digit_of (inside m) t) t); try reflexivity. destruct (results (tick digit_of (inside m) t)) as [|[[[? ?] ?] a] ?]; [reflexivity|]. unfold now. destruct (Nat.eqb_spec u t) as [|_]; [contradiction|reflexivity].
  Qed.
  Lemma inv_work ts : forall m n, (forall t, In t ts -> allowed t) -> inv m n -> inv (work digit_of ts m) (fun t => n t - length (filter (Nat.eqb t) ts))%nat.
  Proof.
    induction ts as [|t ts IH]; intros m n Al I.
    - destruct I as (os & Ei & Go & D). exists os. split; [exact Ei|]. split; [exact Go|]. intros t. cbn [filter length]. rewrite Nat.sub_0_r. apply D.
    - cbn [work fold_left]. pose proof (IH (move_on digit_of m t) (less n t) (fun u Hu => Al u (or_intror Hu)) (inv_step m n t (Al t (or_introl eq_refl)) I)) as (os & Ei & Go & D).
      exists os. split; [exact Ei|]. split; [exact Go|]. intros u. specialize (D u). unfold less in D. cbn [filter]. destruct (Nat.eqb_spec u t) as [Eu|N]; [|exact D].
      cbn [length]. replace (n u - S (length (filter (Nat.eqb u) ts)))%nat with (pred (n u) - length (filter (Nat.eqb u) ts))%nat by lia. exact D.
  Qed.
  Lemma inv_outcome m n t r : inv m n -> outcome m t = Some r -> r = alone f (jobs t).
  Proof.
    intros (os & _ & _ & D). specialize (D t). unfold outcome. destruct (doing m t) as [[r'|x p k]|k]; try discriminate. intros [= <-]. exact (proj1 (proj2 D)).
  Qed.
  Lemma inv_returns m n t : inv m n -> n t = O -> outcome m t = Some (alone f (jobs t)).
  Proof.
    intros (os & _ & _ & D) N. specialize (D t). unfold outcome. destruct (doing m t) as [[r'|x p k]|k]; cbn [doing_ok] in D.
    - f_equal. exact (proj1 (proj2 D)).
    - destruct D as (_ & _ & _ & D). cbn [calls_of] in D. rewrite total_cons in D. lia.
    - destruct D as (x & p & fr & below & D1 & _ & _ & _ & D5). rewrite D1 in D5. pose proof (remaining_busy fr below). lia.
  Qed.
End Crowd.

Section Clients.
  Context {A : ring}.
  Variable mag_up : arf -> arf.
  Variable number_of : gen -> rnum.
  Variable carb : car A -> Z -> arb.
  Variable f : rnum -> Z -> arf.
  Local Notation garb := (ball_of f number_of).
  Lemma alone_arb g p : alone f (arb_client number_of g p) = garb g p.
  Proof. unfold arb_client, ball_of. destruct (p <=? _); reflexivity. Qed.
  Lemma alone_sum p gs : forall cs ret, alone f (sum_client mag_up number_of carb p gs cs ret) = arb_sum mag_up garb carb p gs cs ret.
  Proof.
    induction gs as [|g gs IH]; intros [|c cs] ret; try reflexivity. cbn [sum_client arb_sum]. rewrite alone_andthen, alone_arb. apply IH.
  Qed.
  Lemma alone_loop rounds x acc : forall p, alone f (loop_client mag_up number_of carb rounds x acc p) = arb_loop mag_up garb carb rounds x acc p.
  Proof.
    induction rounds as [|n IH]; intros p; [reflexivity|]. cbn [loop_client arb_loop]. rewrite alone_andthen, alone_sum. cbv zeta. destruct (is_accurate _ _); [reflexivity|apply IH].
  Qed.
  Lemma alone_elem_arb rounds x acc : alone f (elem_arb_client mag_up number_of carb rounds x acc) = elem_arb mag_up garb carb rounds x acc.
  Proof. unfold elem_arb_client, elem_arb. destruct (negb _); [reflexivity|apply alone_loop]. Qed.
  Lemma alone_search {T} rounds (test : Z -> client (option (option T))) test' : (forall p, alone f (test p) = test' p) -> forall p, alone f (search_client rounds test p) = search rounds test' p.
  Proof.
    intros E. induction rounds as [|n IH]; intros p; [reflexivity|]. cbn [search_client search]. rewrite alone_andthen, E. destruct (test' p) as [[r|]|]; [reflexivity|apply IH|reflexivity].
  Qed.
  Lemma alone_lt rounds x eq test test' : (forall p s, alone f (test p s) = test' p s) -> alone f (lt_client mag_up number_of carb rounds x eq test) = lt mag_up garb carb rounds x eq test'.
  Proof.
    intros E. destruct eq as [[|]|e]; try reflexivity. cbn [lt_client lt]. rewrite alone_andthen. cbn [alone]. f_equal. apply alone_search. intros p. rewrite alone_andthen, alone_elem_arb. destruct (elem_arb _ _ _ _ _ _); [apply E|reflexivity].
  Qed.
  Lemma alone_lt_elem rounds x y : alone f (lt_elem_client mag_up number_of carb rounds x y) = lt_elem mag_up garb carb rounds x y.
  Proof. apply alone_lt. intros p s. rewrite alone_andthen, alone_elem_arb. reflexivity. Qed.
  Lemma alone_lt_real rounds x g : alone f (lt_real_client mag_up number_of carb rounds x g) = lt_real mag_up garb carb rounds x g.
  Proof. apply alone_lt. intros p s. rewrite alone_andthen, alone_arb. reflexivity. Qed.
  Lemma alone_lt_int rounds x n : alone f (lt_int_client mag_up number_of carb rounds x n) = lt_int mag_up garb carb rounds x n.
  Proof. apply alone_lt. reflexivity. Qed.
  Lemma alone_lt_rat rounds x q : alone f (lt_rat_client mag_up number_of carb rounds x q) = lt_rat mag_up garb carb rounds x q.
  Proof. apply alone_lt. reflexivity. Qed.
  Lemma alone_bounds {T} rounds x (g : arf -> T) eqb p : alone f (search_client rounds (fun prec => andthen (elem_arb_client mag_up number_of carb rounds x prec) (fun b => Done (bounds_agree g eqb b))) p) = search rounds (fun prec => bounds_agree g eqb (elem_arb mag_up garb carb rounds x prec)) p.
  Proof. apply alone_search. intros q. rewrite alone_andthen, alone_elem_arb. reflexivity. Qed.
  Lemma alone_floor rounds x : alone f (floor_client mag_up number_of carb rounds x) = elem_floor mag_up garb carb rounds x.
  Proof. unfold floor_client, elem_floor. destruct (to_integer x); [reflexivity|apply alone_bounds]. Qed.
  Lemma alone_ceil rounds x : alone f (ceil_client mag_up number_of carb rounds x) = elem_ceil mag_up garb carb rounds x.
  Proof. unfold ceil_client, elem_ceil. destruct (to_integer x); [reflexivity|apply alone_bounds]. Qed.
  Lemma alone_double rounds x : alone f (double_client mag_up number_of carb rounds x) = elem_double mag_up garb carb rounds x.
  Proof. unfold double_client, elem_double. destruct (to_rational x); [reflexivity|apply alone_bounds]. Qed.
  Lemma alone_floordiv rounds x y : alone f (floordiv_client mag_up number_of carb rounds x y) = floordiv mag_up garb carb rounds x y.
  Proof.
    unfold floordiv_client, floordiv. destruct (negb (nonzero x)); [reflexivity|]. destruct (common x y) as [[x' y']|e]; [|reflexivity]. destruct (negb (nonzero x')); [reflexivity|]. destruct (exact_floor _ _ _); [reflexivity|].
    rewrite alone_andthen. cbn [alone]. f_equal. apply alone_search. intros p. unfold floordiv_test. rewrite alone_andthen, alone_elem_arb. destruct (elem_arb _ _ _ _ y' _) as [div|]; [|reflexivity].
    destruct (op_ne div _); [|reflexivity]. rewrite alone_andthen, alone_elem_arb. destruct (elem_arb _ _ _ _ x' _); reflexivity.
  Qed.
End Clients.

(** * The precisions that elements ask for *)
Section Calls.
  Context {A : ring}.
  Variable mag_up : arf -> arf.
  Variable number_of : gen -> rnum.
  Variable carb : car A -> Z -> arb.
  Variable f : rnum -> Z -> arf.
  Lemma calls_arb g p y q : In (y, q) (calls_of f (arb_client number_of g p)) -> q = p /\ y = number_of g.
  Proof. unfold arb_client. destruct (p <=? _); [intros []|]. intros [[= <- <-]|[]]. auto. Qed.
  Lemma calls_sum p y q gs : forall cs ret, In (y, q) (calls_of f (sum_client mag_up number_of carb p gs cs ret)) -> q = p /\ exists g, In g gs /\ y = number_of g.
  Proof.
    induction gs as [|g gs IH]; intros [|c cs] ret; cbn [sum_client]; try (intros []). rewrite calls_andthen. intros I. apply in_app_or in I. destruct I as [I|I].
    - destruct (calls_arb _ _ _ _ I) as [-> ->]. split; [reflexivity|]. exists g. split; [left; reflexivity|reflexivity].
    - destruct (IH _ _ I) as (-> & h & Hh & ->). split; [reflexivity|]. exists h. split; [right; exact Hh|reflexivity].
  Qed.
  Lemma calls_loop rounds x acc y q : forall p, In (y, q) (calls_of f (loop_client mag_up number_of carb rounds x acc p)) -> exists j, (j < rounds)%nat /\ q = p * 2 ^ Z.of_nat j /\ exists g, In g (basis (emodule x)) /\ y = number_of g.
  Proof.
    induction rounds as [|n IH]; intros p; cbn [loop_client]; [intros []|]. rewrite calls_andthen. intros I. apply in_app_or in I. destruct I as [I|I].
    - destruct (calls_sum _ _ _ _ _ _ I) as (-> & G). exists O. split; [lia|]. split; [cbn; lia|exact G].
    - destruct (is_accurate _ _); [destruct I|]. destruct (IH _ I) as (j & L & -> & G). exists (Datatypes.S j). split; [lia|]. split; [|exact G]. rewrite Nat2Z.inj_succ, Z.pow_succ_r by lia. ring.
  Qed.
  Lemma calls_elem_arb rounds x acc y q : In (y, q) (calls_of f (elem_arb_client mag_up number_of carb rounds x acc)) ->
    exists j, (j < rounds)%nat /\ q = (acc + Z.log2_up (Z.of_nat (rank (emodule x)))) * 2 ^ Z.of_nat j /\ exists g, In g (basis (emodule x)) /\ y = number_of g.
  Proof. unfold elem_arb_client. destruct (negb _); [intros []|apply calls_loop]. Qed.
  Lemma calls_search {T} rounds (test : Z -> client (option (option T))) r : forall p, In r (calls_of f (search_client rounds test p)) -> exists i, (i < rounds)%nat /\ In r (calls_of f (test (p * 2 ^ Z.of_nat i))).
  Proof.
    induction rounds as [|n IH]; intros p; cbn [search_client]; [intros []|]. rewrite calls_andthen. intros I. apply in_app_or in I. destruct I as [I|I].
    - exists O. split; [lia|]. change (2 ^ Z.of_nat 0) with 1. rewrite Z.mul_1_r. exact I.
    - destruct (alone f (test p)) as [[t|]|]; try destruct I. destruct (IH _ I) as (i & L & J). exists (Datatypes.S i). split; [lia|]. rewrite Nat2Z.inj_succ, Z.pow_succ_r by lia. replace (p * (2 * 2 ^ Z.of_nat i)) with (p * 2 * 2 ^ Z.of_nat i) by ring. exact J.
  Qed.
  Lemma calls_bounds {T} rounds x (h : arf -> T) eqb p y q : In (y, q) (calls_of f (search_client rounds (fun prec => andthen (elem_arb_client mag_up number_of carb rounds x prec) (fun b => Done (bounds_agree h eqb b))) p)) ->
    exists i j, (i < rounds)%nat /\ (j < rounds)%nat /\ q = (p * 2 ^ Z.of_nat i + Z.log2_up (Z.of_nat (rank (emodule x)))) * 2 ^ Z.of_nat j /\ exists g, In g (basis (emodule x)) /\ y = number_of g.
  Proof.
    intros I. destruct (calls_search _ _ _ _ I) as (i & Li & J). rewrite calls_andthen in J. apply in_app_or in J. destruct J as [J|[]].
    destruct (calls_elem_arb _ _ _ _ _ J) as (j & Lj & -> & G). exists i, j. auto.
  Qed.
  Lemma calls_floor rounds x y q : In (y, q) (calls_of f (floor_client mag_up number_of carb rounds x)) ->
    exists i j, (i < rounds)%nat /\ (j < rounds)%nat /\ q = (64 * 2 ^ Z.of_nat i + Z.log2_up (Z.of_nat (rank (emodule x)))) * 2 ^ Z.of_nat j /\ exists g, In g (basis (emodule x)) /\ y = number_of g.
  Proof. unfold floor_client. destruct (to_integer x); [intros []|]. apply calls_bounds. Qed.
  Lemma calls_ceil rounds x y q : In (y, q) (calls_of f (ceil_client mag_up number_of carb rounds x)) ->
    exists i j, (i < rounds)%nat /\ (j < rounds)%nat /\ q = (64 * 2 ^ Z.of_nat i + Z.log2_up (Z.of_nat (rank (emodule x)))) * 2 ^ Z.of_nat j /\ exists g, In g (basis (emodule x)) /\ y = number_of g.
  Proof. unfold ceil_client. destruct (to_integer x); [intros []|]. apply calls_bounds. Qed.
End Calls.
