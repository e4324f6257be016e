(** Proofs about SharedMany.v *)
From Coq Require Import ZArith QArith Bool List Lia.
From Verif Require Import Arf Arb Real RealProofs Cache CacheProofs Shared SharedProofs SpecShared SharedMany.
Import ListNotations.
Open Scope Z_scope.

Lemma clamped_nonneg p : 0 <= clamped p.
Proof. exact (clamp_nonneg p). Qed.
Lemma clamped_id p : 0 <= p -> clamped p = p.
Proof. exact (clamp_nn p). Qed.
Lemma working_prec_nonneg n p : 0 <= p -> 0 <= working_prec n p.
Proof. unfold working_prec. pose proof (Z.log2_up_nonneg (n * 2 + (n - 1) + 1)). lia. Qed.

Section Proofs.
  Variable digits : Z -> Z -> arf.
  (** * Values *)
  Definition exact0 (x : rnum) (p : Z) : arf := combined digits x p [].
  Definition exact1 (x : rnum) (p : Z) : arf := combined digits x p (map (fun '(y, q) => exact0 y (clamped q)) (needs x p)).
  Definition exact (x : rnum) (p : Z) : arf := combined digits x p (map (fun '(y, q) => exact1 y (clamped q)) (needs x p)).
  Definition answers (l : list (rnum * Z)) : list arf := map (fun '(y, q) => exact y (clamped q)) l.
  Lemma exact_random s p : exact (RAtom (ARandom s)) p = digits s p.
  Proof. reflexivity. Qed.
  Lemma exact_atom a p : exact (RAtom a) p = exact1 (RAtom a) p.
  Proof. destruct a as [s|i e s]; [reflexivity|]. unfold exact, exact1. cbn [needs]. destruct (0 <? p + 1 - arf_bits i); reflexivity. Qed.
  Lemma exact_step x p : exact x p = combined digits x p (answers (needs x p)).
  Proof.
    unfold exact, answers. f_equal. apply map_ext_in. intros [y q] Hy.
    destruct x as [r|[s|i e s]|ms]; cbn [needs] in Hy; try contradiction.
    - destruct (0 <? p + 1 - arf_bits i); [|contradiction]. destruct Hy as [[= <- <-]|[]]. reflexivity.
    - apply in_map_iff in Hy. destruct Hy as (a & [= <- <-] & _). symmetry. apply exact_atom.
  Qed.
  Lemma random_mono rng fuel fuel' s p a : (fuel <= fuel')%nat -> arf_random rng fuel s p = Some a -> arf_random rng fuel' s p = Some a.
  Proof. intros L. unfold arf_random. apply random_loop_fuel, L. Qed.
  Lemma constr_mono rng fuel fuel' i e s p a : (fuel <= fuel')%nat -> arf_constr rng fuel i e s p = Some a -> arf_constr rng fuel' i e s p = Some a.
  Proof.
    intros L. unfold arf_constr. destruct (0 <? _); [|auto]. destruct (arf_random rng fuel s _) as [b|] eqn:E; [|discriminate]. rewrite (random_mono rng fuel fuel' _ _ _ L E). auto.
  Qed.
  Lemma atom_mono rng fuel fuel' a p b : (fuel <= fuel')%nat -> arf_atom rng fuel a p = Some b -> arf_atom rng fuel' a p = Some b.
  Proof. intros L. destruct a; [apply random_mono, L|apply constr_mono, L]. Qed.
  Lemma exact_atom_num rng a p : digits_of rng digits -> exists fuel, arf_atom rng fuel a p = Some (exact (RAtom a) (clamped p)).
  Proof.
    intros D. destruct a as [s|i e s]; cbn [arf_atom].
    - destruct (D s (clamped p)) as [fuel E]. exists fuel. rewrite exact_random, <- E. unfold arf_random. fold (clamp p). change (clamped p) with (clamp p). fold (clamp (clamp p)). rewrite clamp_idem. reflexivity.
    - rewrite exact_step. unfold arf_constr. fold (clamp p). change (clamped p) with (clamp p). cbn [needs combined]. destruct (Z.ltb_spec 0 (clamp p + 1 - arf_bits i)) as [L|L].
      + assert (L0 : 0 <= clamp p + 1 - arf_bits i - 1) by lia. cbn [answers map]. rewrite exact_random, (clamped_id _ L0). destruct (D s (clamp p + 1 - arf_bits i - 1)) as [fuel E]. exists fuel. rewrite E. reflexivity.
      + exists O. reflexivity.
  Qed.
  Lemma mul_factors_num rng wp fs : digits_of rng digits -> forall ret, exists fuel, mul_factors rng fuel wp fs ret = Some (fold_left (arf_mul wp NEAR) (map (fun a => exact (RAtom a) (clamped wp)) fs) ret).
  Proof.
    intros D. induction fs as [|a fs IH]; intros ret; [exists O; reflexivity|]. cbn [mul_factors map fold_left].
    destruct (exact_atom_num rng a wp D) as [f1 E1]. destruct (IH (arf_mul wp NEAR ret (exact (RAtom a) (clamped wp)))) as [f2 E2]. exists (Nat.max f1 f2).
    rewrite (atom_mono rng f1 _ a wp _ (Nat.le_max_l _ _) E1).
    assert (Mono : forall l g g' r v, (g <= g')%nat -> mul_factors rng g wp l r = Some v -> mul_factors rng g' wp l r = Some v).
    { clear. induction l as [|b l IH]; intros g g' r v L; cbn [mul_factors]; [auto|]. destruct (arf_atom rng g b wp) as [c|] eqn:E; [|discriminate]. rewrite (atom_mono rng g g' b wp c L E). apply IH, L. }
    exact (Mono fs f2 _ _ _ (Nat.le_max_r _ _) E2).
  Qed.
  Lemma exact_num rng x p : digits_of rng digits -> exists fuel, num_arf rng fuel x p = Some (exact x (clamped p)).
  Proof.
    intros D. unfold num_arf. fold (clamp p). destruct x as [q|a|ms].
    - exists O. reflexivity.
    - destruct (exact_atom_num rng a (clamp p) D) as [fuel E]. exists fuel. rewrite E. change (clamped (clamp p)) with (clamp (clamp p)). rewrite clamp_idem. reflexivity.
    - rewrite exact_step. cbn [needs combined]. change (clamped p) with (clamp p). unfold arf_prod. destruct (mul_factors_num rng (working_prec (Z.of_nat (length (factors ms))) (clamp p)) (factors ms) D (arf_of_Z 1)) as [fuel E]. exists fuel. rewrite E. cbn [option_map]. unfold answers. rewrite map_map. reflexivity.
  Qed.

  (** * Invariants *)
  Definition work_ok (x : rnum) (p : Z) (got : list arf) (todo : list (rnum * Z)) : Prop := got ++ answers todo = answers (needs x p).
  Definition holds_at (h : heap) (x : rnum) (p : Z) : Prop := cache_find (h x) p = Some (exact x p).
  Definition top_ok (h : heap) (f : frame) : Prop :=
    match stage_of f with Working got todo => work_ok (number f) (precision f) got todo | Fetching => holds_at h (number f) (precision f) | _ => True end.
  Fixpoint chain (x : rnum) (p : Z) (below : list frame) : Prop :=
    match below with
    | [] => True
    | mkFrame y q (Working got ((x', p') :: todo)) :: below' => x' = x /\ clamped p' = p /\ work_ok y q got ((x', p') :: todo) /\ chain y q below'
    | _ => False
    end.
  Definition thread_ok (h : heap) (th : thread) : Prop := match th with Idle => True | Busy f below => top_ok h f /\ chain (number f) (precision f) below | Crashed => False end.
  Record base (w : world) : Prop := {
    b_right : forall x p a, cache_find (caches w x) p = Some a -> a = exact x p;
    b_threads : forall t, thread_ok (caches w) (threads w t);
    b_results : forall t x p a, In (t, x, p, a) (results w) -> a = exact x p }.
  Definition stage_at (w : world) (t : nat) (st : stage) : Prop := match threads w t with Busy f _ => stage_of f = st | _ => False end.

  Lemma base_init : base world_init.
  Proof.
    constructor; [|intros t; exact Logic.I|intros t x p a []].
    intros x p a. cbn. unfold cache_find. cbn. destruct (p =? ARF_DOUBLE_PRECISION); [discriminate|]. destruct (p =? ARB_PRECISION_FAST); discriminate.
  Qed.
  Lemma heap_set_same h x c : heap_set h x c x = c.
  Proof. unfold heap_set. destruct (rnum_dec x x); congruence. Qed.
  Lemma heap_set_other h x c y : y <> x -> heap_set h x c y = h y.
  Proof. intros N. unfold heap_set. destruct (rnum_dec x y); congruence. Qed.
  Lemma thread_ok_heap h h' th : (forall f b, th = Busy f b -> stage_of f = Fetching -> holds_at h (number f) (precision f) -> holds_at h' (number f) (precision f)) -> thread_ok h th -> thread_ok h' th.
  Proof.
    intros H. destruct th as [|[x p st] b|]; cbn [thread_ok top_ok stage_of number precision] in *; auto. intros [H1 H2]. split; [|exact H2].
    destruct st; auto. exact (H _ _ eq_refl eq_refl H1).
  Qed.
  Lemma put_holds h x p y q : holds_at h y q -> holds_at (heap_set h x (put (h x) p (exact x p))) y q.
  Proof.
    unfold holds_at. intros H. destruct (rnum_dec y x) as [->|N]; [|rewrite heap_set_other by exact N; exact H].
    rewrite heap_set_same, find_put. destruct (Z.eqb_spec p q) as [->|]; [reflexivity|exact H].
  Qed.
  Lemma put_right h x p : (forall y q a, cache_find (h y) q = Some a -> a = exact y q) -> forall y q a, cache_find (heap_set h x (put (h x) p (exact x p)) y) q = Some a -> a = exact y q.
  Proof.
    intros H y q a. destruct (rnum_dec y x) as [->|N]; [|rewrite heap_set_other by exact N; apply H].
    rewrite heap_set_same, find_put. destruct (Z.eqb_spec p q) as [->|]; [congruence|apply H].
  Qed.
  Lemma become_same w t th : become w t th t = th.
  Proof. unfold become. rewrite Nat.eqb_refl. reflexivity. Qed.
  Lemma become_other w t th u : u <> t -> become w t th u = threads w u.
  Proof. intros N. unfold become. apply Nat.eqb_neq in N. rewrite N. reflexivity. Qed.

  Lemma give_base w h t x p below : (forall y q a, cache_find (h y) q = Some a -> a = exact y q) -> (forall u, u <> t -> thread_ok h (threads w u)) -> (forall u y q a, In (u, y, q, a) (results w) -> a = exact y q) ->
    chain x p below -> base (give w h t x p (exact x p) below).
  Proof.
    intros Rh Th Rs C. destruct below as [|[y q [| | |got [|[x' p'] todo]|]] below]; cbn [chain] in C; try contradiction; cbn [give].
    - constructor; cbn [caches threads results]; [exact Rh| |].
      + intros u. destruct (Nat.eq_dec u t) as [->|N]; [rewrite become_same; exact Logic.I|rewrite become_other by exact N; apply Th, N].
      + intros u y q a [[= <- <- <- <-]|I]; [reflexivity|apply (Rs u y q a I)].
    - destruct C as (-> & <- & W & C). constructor; cbn [caches threads results]; [exact Rh| |exact Rs].
      intros u. destruct (Nat.eq_dec u t) as [->|N]; [rewrite become_same|rewrite become_other by exact N; apply Th, N].
      split; [|exact C]. unfold top_ok, work_ok in *. cbn [stage_of number precision]. rewrite <- W, <- app_assoc. reflexivity.
  Qed.
  Lemma tick_base w t : base w -> (stage_at w t Wiping -> forall u, u <> t -> ~ stage_at w u Fetching) -> base (tick digits w t).
  Proof.
    intros [Rh Th Rs] Hw. unfold tick. pose proof (Th t) as Tt. destruct (threads w t) as [|[x p st] below|] eqn:Et; [constructor; assumption| |contradiction].
    destruct Tt as [Top Ch]. cbn [number precision] in Ch. cbv zeta.
    assert (Go : forall st', top_ok (caches w) (mkFrame x p st') -> base (mkWorld (caches w) (become w t (Busy (mkFrame x p st') below)) (results w))).
    { intros st' Hs. constructor; cbn [caches threads results]; [exact Rh| |exact Rs]. intros u. destruct (Nat.eq_dec u t) as [->|N]; [rewrite become_same; split; [exact Hs|exact Ch]|rewrite become_other by exact N; apply Th]. }
    destruct st as [| | |got [|[y q] todo]|]; unfold top_ok in Top; cbn [stage_of number precision] in Top.
    - apply Go. destruct (cache_find (caches w x) p) as [a|] eqn:E; [|destruct (usual p); [reflexivity|exact Logic.I]]. unfold top_ok, holds_at. cbn [stage_of number precision]. rewrite E. f_equal. exact (Rh x p a E).
    - apply Go. destruct (_ <=? _)%nat; [exact Logic.I|reflexivity].
    - assert (Hu : forall u, u <> t -> ~ stage_at w u Fetching) by (apply Hw; unfold stage_at; rewrite Et; reflexivity).
      constructor; cbn [caches threads results]; [| |exact Rs].
      + intros y q a. destruct (rnum_dec y x) as [->|N]; [|rewrite heap_set_other by exact N; apply Rh]. rewrite heap_set_same. intros E. apply Rh. revert E. unfold cache_find. cbn [c54 c64 large large_find].
        destruct (q =? ARF_DOUBLE_PRECISION); [auto|]. destruct (q =? ARB_PRECISION_FAST); [auto|discriminate].
      + intros u. destruct (Nat.eq_dec u t) as [->|N]; [rewrite become_same; split; [reflexivity|exact Ch]|rewrite become_other by exact N].
        apply (thread_ok_heap (caches w)); [|apply Th]. intros f b Eu Ef. destruct (Hu u N). unfold stage_at. rewrite Eu. exact Ef.
    - assert (E : combined digits x p got = exact x p). { rewrite exact_step. unfold work_ok in Top. cbn [answers map] in Top. rewrite app_nil_r in Top. rewrite Top. reflexivity. }
      rewrite E. constructor; cbn [caches threads results]; [apply put_right, Rh| |exact Rs].
      intros u. destruct (Nat.eq_dec u t) as [->|N]; [rewrite become_same|rewrite become_other by exact N].
      + split; [|exact Ch]. unfold top_ok, holds_at. cbn [stage_of number precision]. rewrite heap_set_same, find_put, Z.eqb_refl. reflexivity.
      + apply (thread_ok_heap (caches w)); [|apply Th]. intros f b _ _. apply put_holds.
    - constructor; cbn [caches threads results]; [exact Rh| |exact Rs]. intros u. destruct (Nat.eq_dec u t) as [->|N]; [rewrite become_same|rewrite become_other by exact N; apply Th].
      split; [exact Logic.I|]. cbn [next_call number precision chain]. auto.
    - rewrite Top. apply give_base; auto.
  Qed.
  Lemma occur_base w o : base w -> (forall t, o = Ticks t -> stage_at w t Wiping -> forall u, u <> t -> ~ stage_at w u Fetching) -> base (occur digits w o).
  Proof.
    intros B H. destruct o as [t x p|t]; cbn [occur]; [|apply tick_base; [exact B|apply H; reflexivity]].
    destruct (threads w t) eqn:E; try exact B. destruct B as [Rh Th Rs]. constructor; cbn [caches threads results]; auto.
    intros u. destruct (Nat.eq_dec u t) as [->|N]; [rewrite become_same; split; exact Logic.I|rewrite become_other by exact N; apply Th].
  Qed.

  (** * Precisions are not negative *)
  Record nonneg (w : world) : Prop := { n_threads : forall t, match threads w t with Busy f below => Forall (fun f => 0 <= precision f) (f :: below) | _ => True end; n_results : forall t x p a, In (t, x, p, a) (results w) -> 0 <= p }.
  Lemma give_nonneg w h t x p a below : nonneg w -> 0 <= p -> Forall (fun f => 0 <= precision f) below -> nonneg (give w h t x p a below).
  Proof.
    intros [Nt Nr] P F.
    assert (X : forall th rs, match th with Busy f b => Forall (fun f => 0 <= precision f) (f :: b) | _ => True end -> (forall u y q b, In (u, y, q, b) rs -> 0 <= q) -> nonneg (mkWorld h (become w t th) rs)).
    { intros th rs H1 H2. constructor; cbn [threads results]; [|exact H2]. intros u. destruct (Nat.eq_dec u t) as [->|N]; [rewrite become_same; exact H1|rewrite become_other by exact N; apply Nt]. }
    destruct below as [|[y q [| | |got [|r todo]|]] below]; cbn [give]; apply X; auto; try exact Logic.I.
    - intros u y q b [[= <- <- <- <-]|I]; [exact P|exact (Nr u y q b I)].
    - inversion F; subst. constructor; assumption.
  Qed.
  Lemma occur_nonneg w o : nonneg w -> nonneg (occur digits w o).
  Proof.
    intros N0. pose proof N0 as [Nt Nr].
    assert (X : forall h t th, match th with Busy f b => Forall (fun f => 0 <= precision f) (f :: b) | _ => True end -> nonneg (mkWorld h (become w t th) (results w))).
    { intros h t th H1. constructor; cbn [threads results]; [|exact Nr]. intros u. destruct (Nat.eq_dec u t) as [->|N]; [rewrite become_same; exact H1|rewrite become_other by exact N; apply Nt]. }
    destruct o as [t x p|t]; cbn [occur].
    - destruct (threads w t); try exact N0. apply X. constructor; [apply clamped_nonneg|constructor].
    - unfold tick. pose proof (Nt t) as Tt. destruct (threads w t) as [|[x p st] below|]; try exact N0. inversion Tt as [|? ? P F]; subst. cbn [precision] in P. cbv zeta.
      destruct st as [| | |got [|[y q] todo]|]; try (apply X; constructor; assumption).
      + apply X. constructor; [apply clamped_nonneg|]. constructor; assumption.
      + destruct (cache_find (caches w x) p); [apply give_nonneg; assumption|]. destruct (usual p); [apply X; exact Logic.I|apply give_nonneg; assumption].
  Qed.
  Lemma schedule_nonneg os : forall w, nonneg w -> nonneg (unfold_schedule digits os w).
  Proof. induction os as [|o os IH]; intros w H; [exact H|]. apply IH, occur_nonneg, H. Qed.
  Lemma nonneg_init : nonneg world_init.
  Proof. constructor; [intros t; exact Logic.I|intros t x p a []]. Qed.

  (** * Few precisions *)
  Section Few.
    Variable asked : rnum -> Z -> Prop.
    Hypothesis few : forall x, exists precs, (length precs < LARGE_PREC_LIMIT)%nat /\ forall p, asked x p -> usual p = true \/ In p precs.
    Hypothesis closed : forall x p y q, asked x p -> 0 <= p -> In (y, q) (needs x p) -> asked y (clamped q).
    Definition frame_few (f : frame) : Prop := asked (number f) (precision f) /\ 0 <= precision f /\ stage_of f <> Wiping /\
      match stage_of f with Working _ todo => forall y q, In (y, q) todo -> asked y (clamped q) | _ => True end.
    Definition thread_few (th : thread) : Prop := match th with Busy f below => frame_few f /\ Forall frame_few below | _ => True end.
    Definition cache_few (x : rnum) (c : cache) : Prop := NoDup (map fst (large c)) /\ forall p a, In (p, a) (large c) -> asked x p /\ usual p = false.
    Record scarce (w : world) : Prop := { f_caches : forall x, cache_few x (caches w x); f_threads : forall t, thread_few (threads w t) }.
    Lemma cache_few_length x c : cache_few x c -> (length (large c) < LARGE_PREC_LIMIT)%nat.
    Proof.
      intros [N I]. destruct (few x) as (precs & Lp & Hp). apply Nat.le_lt_trans with (length precs); [|exact Lp]. rewrite <- (map_length fst). apply NoDup_incl_length; [exact N|].
      intros p Hi. apply in_map_iff in Hi. destruct Hi as ([q a] & <- & Hi). destruct (I q a Hi) as [A U]. cbn [fst]. destruct (Hp q A); congruence.
    Qed.
    Lemma put_few x c p a : cache_few x c -> asked x p -> cache_few x (put c p a).
    Proof.
      intros [N I] Al. unfold put. destruct (Z.eqb_spec p ARF_DOUBLE_PRECISION) as [->|N1]; [split; assumption|]. destruct (Z.eqb_spec p ARB_PRECISION_FAST) as [->|N2]; [split; assumption|].
      split; cbn [large].
      - cbn [map fst]. constructor; [|apply nodup_filter, N]. intros Hi. apply in_map_iff in Hi. destruct Hi as ([q b] & Eq & Hq). apply filter_In in Hq. cbn [fst] in *. subst q. destruct Hq as [_ Hq]. rewrite Z.eqb_refl in Hq. discriminate.
      - intros q b [[= <- <-]|Hi]; [|apply filter_In in Hi; apply (I q b), Hi]. split; [exact Al|]. unfold usual. apply orb_false_intro; apply Z.eqb_neq; assumption.
    Qed.
    Lemma tick_few w t : base w -> scarce w -> scarce (tick digits w t).
    Proof.
      intros B [Hc Ht]. unfold tick. pose proof (Ht t) as Tt. destruct (threads w t) as [|[x p st] below|] eqn:Et; try (constructor; assumption).
      destruct Tt as [(Al & P0 & Nw & Wk) Fb]. cbn [number precision stage_of] in *. cbv zeta.
      assert (Thr : forall h th rs, (forall y, cache_few y (h y)) -> thread_few th -> scarce (mkWorld h (become w t th) rs)).
      { intros h th rs Hh Hth. constructor; cbn [caches threads]; [exact Hh|]. intros u. destruct (Nat.eq_dec u t) as [->|N]; [rewrite become_same; exact Hth|rewrite become_other by exact N; apply Ht]. }
      assert (Go : forall st', st' <> Wiping -> match st' with Working _ todo => forall y q, In (y, q) todo -> asked y (clamped q) | _ => True end -> thread_few (Busy (mkFrame x p st') below)).
      { intros st' N W. split; [|exact Fb]. split; [exact Al|]. split; [exact P0|]. split; [exact N|exact W]. }
      assert (Nd : forall y q, In (y, q) (needs x p) -> asked y (clamped q)) by (intros y q; apply closed; assumption).
      destruct st as [| | |got [|[y q] todo]|].
      - apply Thr; [exact Hc|]. apply Go; destruct (cache_find (caches w x) p); try discriminate; try exact Logic.I; destruct (usual p); try discriminate; try exact Logic.I. exact Nd.
      - assert ((LARGE_PREC_LIMIT <=? length (large (caches w x)))%nat = false) as -> by (apply Nat.leb_gt; apply (cache_few_length x), Hc).
        apply Thr; [exact Hc|]. apply Go; [discriminate|exact Nd].
      - congruence.
      - apply Thr; [|apply Go; [discriminate|exact Logic.I]]. intros y. destruct (rnum_dec y x) as [->|N]; [rewrite heap_set_same; apply put_few; [apply Hc|exact Al]|rewrite heap_set_other by exact N; apply Hc].
      - apply Thr; [exact Hc|]. split.
        + split; [apply Wk; left; reflexivity|]. split; [apply clamped_nonneg|]. split; [discriminate|exact Logic.I].
        + constructor; [|exact Fb]. split; [exact Al|]. split; [exact P0|]. split; [discriminate|exact Wk].
      - assert (E : cache_find (caches w x) p = Some (exact x p)).
        { pose proof (b_threads w B t) as Tb. rewrite Et in Tb. exact (proj1 Tb). }
        rewrite E. unfold give. destruct below as [|[y q [| | |g [|r todo]|]] below]; try (apply Thr; [exact Hc|exact Logic.I]).
        inversion Fb as [|? ? (A1 & A2 & A3 & A4) Fb']; subst. cbn [number precision stage_of] in *. apply Thr; [exact Hc|]. split; [|exact Fb'].
        split; [exact A1|]. split; [exact A2|]. split; [discriminate|]. intros z r' I. apply A4. right. exact I.
    Qed.
    Lemma schedule_few os : forall w, base w -> scarce w -> (forall t x p, In (Asks t x p) os -> asked x (clamped p)) -> base (unfold_schedule digits os w) /\ scarce (unfold_schedule digits os w).
    Proof.
      induction os as [|o os IH]; intros w B F H; [split; assumption|]. cbn [unfold_schedule fold_left]. apply IH; [| |intros t x p I; apply (H t x p); right; exact I].
      - apply occur_base; [exact B|]. intros t _ Wt. exfalso. unfold stage_at in Wt. pose proof (f_threads w F t) as Tf. destruct (threads w t) as [|f b|]; try contradiction. destruct Tf as [(_ & _ & N & _) _]. contradiction.
      - destruct o as [t x p|t]; cbn [occur]; [|apply tick_few; assumption]. destruct (threads w t) eqn:E; try exact F. destruct F as [Hc Ht]. constructor; cbn [caches threads]; [exact Hc|].
        intros u. destruct (Nat.eq_dec u t) as [->|N]; [rewrite become_same|rewrite become_other by exact N; apply Ht]. split; [|constructor]. split; [apply (H t x p); left; reflexivity|]. split; [apply clamped_nonneg|]. split; [discriminate|exact Logic.I].
    Qed.
  End Few.

  (** * One thread *)
  Lemma schedule_alone t os : forall w, base w -> (forall u, u <> t -> threads w u = Idle) -> (forall o, In o os -> match o with Asks u _ _ => u = t | Ticks u => u = t end) ->
    base (unfold_schedule digits os w).
  Proof.
    induction os as [|o os IH]; intros w B I H; [exact B|]. cbn [unfold_schedule fold_left]. apply IH; [| |intros o' Ho; apply H; right; exact Ho].
    - apply occur_base; [exact B|]. intros t' -> _ u N Hu. specialize (H (Ticks t') (or_introl eq_refl)). cbn in H. subst t'. unfold stage_at in Hu. rewrite (I u N) in Hu. exact Hu.
    - intros u N. specialize (H o (or_introl eq_refl)). destruct o as [t' x p|t']; subst t'; cbn [occur].
      + destruct (threads w t) eqn:E; try (apply I, N). cbn [threads]. rewrite become_other by exact N. apply I, N.
      + assert (X : forall th h rs, threads (mkWorld h (become w t th) rs) u = Idle) by (intros; cbn [threads]; rewrite become_other by exact N; apply I, N).
        unfold tick. destruct (threads w t) as [|[x p st] below|]; try (apply I, N). destruct st as [| | |got [|[y q] todo]|]; try apply X.
        assert (Y : forall h a, threads (give w h t x p a below) u = Idle) by (intros h a; destruct below as [|[y q [| | |g [|r todo]|]] below]; apply X).
        destruct (cache_find (caches w x) p); [apply Y|]. destruct (usual p); [apply X|apply Y].
  Qed.

  (** * No waiting *)
  Definition cost_atom (a : atom) : nat := match a with ARandom _ => 5 | AConstr _ _ _ => 11 end.
  Definition cost (x : rnum) : nat := match x with RRat _ => 5 | RAtom a => cost_atom a | RProd ms => 5 + list_sum (map (fun a => S (cost_atom a)) (factors ms)) end.
  Definition due (todo : list (rnum * Z)) : nat := list_sum (map (fun r => S (cost (fst r))) todo).
  Lemma needs_cost x p : (5 + due (needs x p) <= cost x)%nat.
  Proof.
    unfold due. destruct x as [q|[s|i e s]|ms]; cbn [needs cost cost_atom]; try (cbn; lia).
    - destruct (0 <? p + 1 - arf_bits i); cbn; lia.
    - rewrite map_map. cbn [fst cost]. lia.
  Qed.
  Definition left_of (f : frame) : nat :=
    match stage_of f with Looking => cost (number f) | Counting => cost (number f) - 1 | Wiping => cost (number f) - 2 | Working _ todo => 2 + due todo | Fetching => 1 end.
  Definition later (f : frame) : nat := match stage_of f with Working _ (_ :: todo) => 2 + due todo | _ => 0 end.
  Definition remaining (th : thread) : nat := match th with Busy f below => left_of f + list_sum (map later below) | _ => 0 end.
  Lemma later_cons f below : list_sum (map later (f :: below)) = (later f + list_sum (map later below))%nat.
  Proof. reflexivity. Qed.
  Lemma due_cons r todo : due (r :: todo) = (S (cost (fst r)) + due todo)%nat.
  Proof. reflexivity. Qed.
  Lemma tick_remaining w t : remaining (threads w t) <> O -> (remaining (threads (tick digits w t) t) < remaining (threads w t))%nat.
  Proof.
    unfold tick. destruct (threads w t) as [|[x p st] below|]; cbn [remaining]; try (intros; exfalso; congruence). intros _. pose proof (needs_cost x p) as NC.
    assert (Gv : forall h a, (remaining (threads (give w h t x p a below) t) <= list_sum (map later below))%nat).
    { intros h a. destruct below as [|[y q [| | |g [|r todo]|]] below]; cbn [give threads]; rewrite become_same; cbn [remaining]; try lia. rewrite later_cons. unfold left_of, later at 2. cbn [stage_of]. lia. }
    destruct st as [| | |got [|[y q] todo]|]; cbv zeta; cbn [threads]; try (rewrite become_same; cbn [remaining]; unfold left_of; cbn [stage_of number]).
    - destruct (cache_find (caches w x) p); [lia|]. destruct (usual p); lia.
    - destruct (_ <=? _)%nat; lia.
    - lia.
    - unfold due. cbn. lia.
    - rewrite later_cons, due_cons. unfold later at 1. cbn [stage_of number next_call fst]. lia.
    - destruct (cache_find (caches w x) p); [|destruct (usual p)].
      + specialize (Gv (caches w) a). unfold left_of. cbn [stage_of]. lia.
      + cbn [threads]. rewrite become_same. unfold left_of. cbn. lia.
      + specialize (Gv (heap_set (caches w) x (put (caches w x) p (arf_of_Z 0))) (arf_of_Z 0)). unfold left_of. cbn [stage_of]. lia.
  Qed.
  Lemma tick_other w t u : u <> t -> threads (tick digits w t) u = threads w u.
  Proof.
    intros N. assert (X : forall th h rs, threads (mkWorld h (become w t th) rs) u = threads w u) by (intros; cbn [threads]; rewrite become_other by exact N; reflexivity).
    unfold tick. destruct (threads w t) as [|[x p st] below|]; try reflexivity. destruct st as [| | |got [|[y q] todo]|]; try apply X.
    assert (Y : forall h a, threads (give w h t x p a below) u = threads w u) by (intros h a; destruct below as [|[y q [| | |g [|r todo]|]] below]; apply X).
    destruct (cache_find (caches w x) p); [apply Y|]. destruct (usual p); [apply X|apply Y].
  Qed.

  (** * Calls return *)
  Definition ticks (t : nat) (os : list occurrence) : nat := length (filter (fun o => match o with Ticks u => Nat.eqb u t | Asks _ _ _ => false end) os).
  Fixpoint bottom (f : frame) (below : list frame) : rnum * Z := match below with [] => (number f, precision f) | g :: below' => bottom g below' end.
  Lemma bottom_stage x p st st' below : bottom (mkFrame x p st) below = bottom (mkFrame x p st') below.
  Proof. destruct below; reflexivity. Qed.
  Definition on_its_way (w : world) (t : nat) (x : rnum) (p : Z) : Prop :=
    (exists f below, threads w t = Busy f below /\ bottom f below = (x, p)) \/ exists a, In (t, x, p, a) (results w).
  Lemma give_way w h t x p a below : chain x p below -> (exists f below', threads (give w h t x p a below) t = Busy f below' /\ bottom f below' = bottom (mkFrame x p Looking) below) \/ In (t, fst (bottom (mkFrame x p Looking) below), snd (bottom (mkFrame x p Looking) below), a) (results (give w h t x p a below)).
  Proof.
    intros C. destruct below as [|[y q [| | |got [|[x' p'] todo]|]] below]; cbn [chain] in C; try contradiction; cbn [give threads results].
    - right. left. reflexivity.
    - left. do 2 eexists. split; [apply become_same|]. cbn [bottom]. apply bottom_stage.
  Qed.
  Lemma give_results w h t x p a below r : In r (results w) -> In r (results (give w h t x p a below)).
  Proof. intros I. destruct below as [|[y q [| | |got [|[x' p'] todo]|]] below]; cbn [give results]; auto. right. exact I. Qed.
  Lemma tick_results w t r : In r (results w) -> In r (results (tick digits w t)).
  Proof.
    intros I. unfold tick. destruct (threads w t) as [|[x p st] below|]; try exact I. destruct st as [| | |got [|[y q] todo]|]; try exact I.
    destruct (cache_find (caches w x) p); [apply give_results, I|]. destruct (usual p); [exact I|apply give_results, I].
  Qed.
  Lemma tick_way w t x p : base w -> on_its_way w t x p -> on_its_way (tick digits w t) t x p.
  Proof.
    intros B [(f & below & Et & Eb)|[a I]]; [|right; exists a; apply tick_results, I].
    pose proof (b_threads w B t) as Tt. rewrite Et in Tt. destruct Tt as [Top Ch]. destruct f as [y q st]. cbn [number precision] in Ch.
    unfold tick. rewrite Et. cbv zeta. destruct st as [| | |got [|[z r] todo]|].
    - left. do 2 eexists. split; [apply become_same|]. rewrite <- Eb. apply bottom_stage.
    - left. do 2 eexists. split; [apply become_same|]. rewrite <- Eb. apply bottom_stage.
    - left. do 2 eexists. split; [apply become_same|]. rewrite <- Eb. apply bottom_stage.
    - left. do 2 eexists. split; [apply become_same|]. rewrite <- Eb. apply bottom_stage.
    - left. do 2 eexists. split; [apply become_same|]. cbn [bottom]. exact Eb.
    - unfold top_ok, holds_at in Top. cbn [stage_of number precision] in Top. rewrite Top.
      destruct (give_way w (caches w) t y q (exact y q) below Ch) as [(f & b & E1 & E2)|I].
      + left. exists f, b. split; [exact E1|]. rewrite E2, <- Eb. apply bottom_stage.
      + right. exists (exact y q). rewrite (bottom_stage y q Looking Fetching), Eb in I. exact I.
  Qed.
  Lemma occur_results w o r : In r (results w) -> In r (results (occur digits w o)).
  Proof. destruct o as [t x p|t]; cbn [occur]; [destruct (threads w t); auto|apply tick_results]. Qed.
  Lemma schedule_results os : forall w r, In r (results w) -> In r (results (unfold_schedule digits os w)).
  Proof. induction os as [|o os IH]; intros w r I; [exact I|]. apply IH, occur_results, I. Qed.
  Lemma remaining_busy f below : (1 <= remaining (Busy f below))%nat.
  Proof.
    assert (5 <= cost (number f))%nat by (destruct f as [[q|[]|ms] p st]; cbn; lia).
    cbn [remaining]. unfold left_of. destruct (stage_of f); lia.
  Qed.
  Lemma deliver t x p os : forall w, (forall pre suf, os = pre ++ suf -> base (unfold_schedule digits pre w)) -> on_its_way w t x p ->
    (remaining (threads w t) <= ticks t os)%nat -> exists a, In (t, x, p, a) (results (unfold_schedule digits os w)).
  Proof.
    induction os as [|o os IH]; intros w B [(f & below & Et & Eb)|[a I]] Le; try (exists a; apply (schedule_results _ w), I).
    - rewrite Et in Le. pose proof (remaining_busy f below). unfold ticks in Le. cbn [filter length] in Le. lia.
    - assert (Bw : base w) by exact (B [] _ eq_refl).
      cbn [unfold_schedule fold_left]. apply IH.
      + intros pre suf E. apply (B (o :: pre) suf). cbn. f_equal. exact E.
      + destruct o as [u y q|u]; cbn [occur].
        * left. exists f, below. split; [|exact Eb]. destruct (threads w u) eqn:Eu; try exact Et. cbn [threads]. rewrite become_other; [exact Et|congruence].
        * destruct (Nat.eq_dec u t) as [->|N]; [apply tick_way; [exact Bw|left; exists f, below; split; assumption]|].
          left. exists f, below. split; [|exact Eb]. rewrite tick_other by congruence. exact Et.
      + unfold ticks in Le. cbn [filter] in Le. destruct o as [u y q|u]; cbn [occur].
        * replace (threads _ t) with (threads w t); [exact Le|]. destruct (threads w u) eqn:Eu; try reflexivity. cbn [threads]. rewrite become_other; [reflexivity|congruence].
        * destruct (Nat.eqb_spec u t) as [->|N].
          -- cbn [length] in Le. assert (Lt : (remaining (threads (tick digits w t) t) < remaining (threads w t))%nat). { apply tick_remaining. rewrite Et. pose proof (remaining_busy f below). lia. } unfold ticks. lia.
          -- rewrite tick_other by congruence. exact Le.
  Qed.
  Lemma asks_deliver t x p before after : (forall pre suf, before ++ Asks t x p :: after = pre ++ suf -> base (unfold_schedule digits pre world_init)) ->
    threads (unfold_schedule digits before world_init) t = Idle -> (cost x <= ticks t after)%nat ->
    exists a, In (t, x, clamped p, a) (results (unfold_schedule digits (before ++ Asks t x p :: after) world_init)).
  Proof.
    intros B Ei Le. unfold unfold_schedule. rewrite fold_left_app. cbn [fold_left]. fold (unfold_schedule digits before world_init). set (w := unfold_schedule digits before world_init) in *.
    assert (Ew : occur digits w (Asks t x p) = mkWorld (caches w) (become w t (Busy (next_call x p) [])) (results w)) by (cbn [occur]; rewrite Ei; reflexivity).
    rewrite Ew. apply deliver.
    - intros pre suf E. specialize (B (before ++ Asks t x p :: pre) suf). unfold unfold_schedule in B. rewrite fold_left_app in B. cbn [fold_left] in B. fold (unfold_schedule digits before world_init) in B. fold w in B. rewrite Ew in B. apply B. rewrite E, <- app_assoc. reflexivity.
    - left. exists (next_call x p), []. split; [cbn [threads]; apply become_same|reflexivity].
    - cbn [threads]. rewrite become_same. unfold remaining, left_of. cbn [next_call stage_of number map list_sum fold_right]. lia.
  Qed.
End Proofs.
