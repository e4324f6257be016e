(** Caches are transparent. *)
From Coq Require Import ZArith QArith Bool List Lia.
From Verif Require Import Arf Arb SpecArf Real SpecReal RealProofs RealProofs2 RealProofs3 Cache.
Import ListNotations.
Open Scope Z_scope.

Section Transparent.
  Variable rng : Z -> nat -> bool.

  Definition cache_ok (x : rnum) (c : cache) : Prop :=
    (forall prec a, cache_find c prec = Some a -> clamp prec = prec -> exists fuel, num_arf rng fuel x prec = Some a) /\
    (length (large c) <= LARGE_PREC_LIMIT)%nat /\ NoDup (map fst (large c)).
  Definition heap_ok (h : heap) : Prop := forall x, cache_ok x (h x).

  Lemma heap_empty_ok : heap_ok heap_empty.
  Proof.
    intros x. split; [|split; [simpl; unfold LARGE_PREC_LIMIT; lia|constructor]].
    intros prec a. unfold cache_find. simpl. destruct (_ =? _); [discriminate|]. destruct (_ =? _); discriminate.
  Qed.

  Lemma large_find_none l p : large_find l p = None -> ~ In p (map fst l).
  Proof.
    induction l as [|[q a] l IH]; simpl; [tauto|]. destruct (Z.eqb_spec q p); [discriminate|]. intros H [E|E]; [congruence|]. exact (IH H E).
  Qed.

  Lemma insert_ok x c prec a : cache_ok x c -> cache_find c prec = None ->
    (exists fuel, num_arf rng fuel x prec = Some a) -> cache_ok x (cache_insert c prec a).
  Proof.
    intros (H1 & H2 & H3) Hn Ha. unfold cache_insert, cache_find in *.
    destruct (Z.eqb_spec prec ARF_DOUBLE_PRECISION) as [E54|N54].
    - split; [|split; assumption]. intros p b. unfold cache_find; cbn [c54 c64 large].
      specialize (H1 p b). unfold cache_find in H1.
      destruct (Z.eqb_spec p ARF_DOUBLE_PRECISION); [|exact H1]. intros [= <-] _. subst. exact Ha.
    - destruct (Z.eqb_spec prec ARB_PRECISION_FAST) as [E64|N64].
      + split; [|split; assumption]. intros p b. unfold cache_find; cbn [c54 c64 large].
        specialize (H1 p b). unfold cache_find in H1.
        destruct (Z.eqb_spec p ARF_DOUBLE_PRECISION); [exact H1|].
        destruct (Z.eqb_spec p ARB_PRECISION_FAST); [|exact H1]. intros [= <-] _. subst. exact Ha.
      + set (l := if (LARGE_PREC_LIMIT <=? length (large c))%nat then [] else large c).
        assert (Hl : (length l < LARGE_PREC_LIMIT)%nat /\ NoDup (map fst l) /\ ~ In prec (map fst l) /\
                     forall p b, large_find l p = Some b -> large_find (large c) p = Some b).
        { unfold l. destruct (Nat.leb_spec LARGE_PREC_LIMIT (length (large c))).
          - repeat split; try (simpl; unfold LARGE_PREC_LIMIT; lia); simpl; auto; try constructor. discriminate.
          - repeat split; auto. apply large_find_none. exact Hn. }
        destruct Hl as (L1 & L2 & L3 & L4).
        split; [|split; [simpl; lia|simpl; constructor; assumption]].
        intros p b. unfold cache_find; cbn [c54 c64 large]. specialize (H1 p b). unfold cache_find in H1.
        destruct (Z.eqb_spec p ARF_DOUBLE_PRECISION); [exact H1|].
        destruct (Z.eqb_spec p ARB_PRECISION_FAST); [exact H1|].
        cbn [large_find]. destruct (Z.eqb_spec prec p) as [<-|]; [intros [= <-] _; exact Ha|].
        intros Hf. apply H1. apply L4. exact Hf.
  Qed.

  Lemma heap_set_ok h x c : heap_ok h -> cache_ok x c -> heap_ok (heap_set h x c).
  Proof. intros Hh Hc y. unfold heap_set. destruct (rnum_dec x y) as [<-|]; [exact Hc|apply Hh]. Qed.

  (** The result of a request: good caches and the value that would be computed without caches. *)
  Definition good (x : rnum) (prec : Z) (h : heap) (r : option (heap * arf)) : Prop :=
    forall h' a, r = Some (h', a) -> heap_ok h' /\ (exists fuel, num_arf rng fuel x prec = Some a) /\
      (forall y prec b, cache_find (h y) prec = None -> cache_find (h' y) prec = Some b -> True).

  Lemma with_cache_good h x prec compute : heap_ok h ->
    (forall h' a, compute h (clamp prec) = Some (h', a) -> heap_ok h' /\ (exists fuel, num_arf rng fuel x (clamp prec) = Some a)) ->
    (forall h' a, compute h (clamp prec) = Some (h', a) -> cache_find (h x) (clamp prec) = None -> cache_find (h' x) (clamp prec) = None) ->
    forall h' a, with_cache h x prec compute = Some (h', a) ->
      heap_ok h' /\ exists fuel, num_arf rng fuel x (clamp prec) = Some a.
  Proof.
    intros Hh Hc Hf h' a. unfold with_cache. fold (clamp prec).
    destruct (cache_find (h x) (clamp prec)) as [b|] eqn:E.
    - intros [= <- <-]. split; [exact Hh|]. destruct (Hh x) as [H1 _]. apply (H1 _ _ E). apply clamp_idem.
    - destruct (compute h (clamp prec)) as [[h1 b]|] eqn:Ec; [|discriminate]. intros [= <- <-].
      destruct (Hc h1 b eq_refl) as [Hh1 Hb]. split; [|exact Hb].
      apply heap_set_ok; [exact Hh1|]. apply insert_ok; [apply Hh1|apply (Hf h1 b); auto|exact Hb].
  Qed.

  Lemma num_arf_clamp fuel x prec : num_arf rng fuel x (clamp prec) = num_arf rng fuel x prec.
  Proof. unfold num_arf. fold (clamp prec). fold (clamp (clamp prec)). rewrite clamp_idem. reflexivity. Qed.

  (** A request for an atom only touches the caches of atoms of a lower kind and its own. *)
  Lemma cached_random_frame fuel seed h prec h' a x : cached_random rng fuel seed h prec = Some (h', a) ->
    x <> RAtom (ARandom seed) -> h' x = h x.
  Proof.
    unfold cached_random, with_cache. intros H Hx. destruct (cache_find _ _); [injection H as <- _; reflexivity|].
    destruct (arf_random _ _ _ _); [|discriminate]. cbn [option_map] in H. injection H as <- _.
    unfold heap_set. destruct (rnum_dec _ x); [congruence|reflexivity].
  Qed.

  Lemma compute_constr_frame fuel i e s h prec h' a x : compute_constr rng fuel i e s h prec = Some (h', a) ->
    x <> RAtom (ARandom s) -> h' x = h x.
  Proof.
    unfold compute_constr. intros H Hx. destruct (0 <? _).
    - destruct (cached_random _ _ _ _ _) as [[h1 b]|] eqn:E; [|discriminate]. cbn [option_map] in H. injection H as <- _.
      exact (cached_random_frame _ _ _ _ _ _ _ E Hx).
    - cbn [option_map] in H. injection H as <- _. reflexivity.
  Qed.

  Lemma cached_atom_frame fuel b h prec h' a ms : cached_atom rng fuel b h prec = Some (h', a) -> h' (RProd ms) = h (RProd ms).
  Proof.
    destruct b as [s|i e s]; cbn [cached_atom]; intros H.
    - apply (cached_random_frame _ _ _ _ _ _ _ H). discriminate.
    - unfold with_cache in H. destruct (cache_find _ _); [injection H as <- _; reflexivity|].
      destruct (compute_constr _ _ _ _ _ _ _) as [[h1 c]|] eqn:E; [|discriminate]. injection H as <- _.
      unfold heap_set. destruct (rnum_dec _ _); [discriminate|].
      apply (compute_constr_frame _ _ _ _ _ _ _ _ _ E). discriminate.
  Qed.

  Lemma compute_factors_frame fuel wp ms fs : forall h ret h' a, compute_factors rng fuel wp fs h ret = Some (h', a) -> h' (RProd ms) = h (RProd ms).
  Proof.
    induction fs as [|b fs IH]; cbn [compute_factors]; intros h ret h' a H; [injection H as <- _; reflexivity|].
    destruct (cached_atom rng fuel b h wp) as [[h1 f]|] eqn:E; [|discriminate].
    rewrite (IH _ _ _ _ H). exact (cached_atom_frame _ _ _ _ _ _ _ E).
  Qed.

  Lemma cached_random_ok fuel seed h prec h' a : heap_ok h -> cached_random rng fuel seed h prec = Some (h', a) ->
    heap_ok h' /\ exists fuel, num_arf rng fuel (RAtom (ARandom seed)) prec = Some a.
  Proof.
    intros Hh H. unfold cached_random in H. eapply with_cache_good in H.
    - destruct H as [H1 [f H2]]. split; [exact H1|]. exists f. rewrite <- num_arf_clamp. exact H2.
    - exact Hh.
    - intros h1 b Hc. cbv beta in Hc. destruct (arf_random rng fuel seed (clamp prec)) as [c|] eqn:E; [|discriminate].
      injection Hc as <- <-. split; [exact Hh|]. exists fuel. unfold num_arf. fold (clamp (clamp prec)). rewrite clamp_idem. exact E.
    - intros h1 b Hc. destruct (arf_random rng fuel seed (clamp prec)); [|discriminate]. injection Hc as <- _. auto.
  Qed.

  Lemma atom_fuel_ex fuel a prec b : arf_atom rng fuel a prec = Some b -> forall fuel', (fuel <= fuel')%nat -> arf_atom rng fuel' a prec = Some b.
  Proof. intros H fuel' Hf. exact (atom_fuel rng a prec fuel fuel' b Hf H). Qed.

  Lemma compute_constr_ok fuel i e s h prec h' a : heap_ok h -> compute_constr rng fuel i e s h prec = Some (h', a) ->
    heap_ok h' /\ exists fuel, arf_constr rng fuel i e s prec = Some a.
  Proof.
    intros Hh. unfold compute_constr, arf_constr. fold (clamp prec).
    destruct (Z.ltb_spec 0 (clamp prec + 1 - arf_bits i)) as [Hm|Hm].
    - destruct (cached_random rng fuel s h (clamp prec + 1 - arf_bits i - 1)) as [[h1 b]|] eqn:E; [|discriminate].
      cbn [option_map]. intros [= <- <-]. destruct (cached_random_ok _ _ _ _ _ _ Hh E) as [H1 [f Hf]].
      split; [exact H1|]. exists f. unfold num_arf in Hf. cbn [arf_atom] in Hf.
      fold (clamp (clamp prec + 1 - arf_bits i - 1)) in Hf. rewrite clamp_nn in Hf by lia. rewrite Hf. reflexivity.
    - cbn [option_map]. intros [= <- <-]. split; [exact Hh|]. exists 0%nat. reflexivity.
  Qed.

  Lemma cached_atom_ok fuel b h prec h' a : heap_ok h -> cached_atom rng fuel b h prec = Some (h', a) ->
    heap_ok h' /\ exists fuel, num_arf rng fuel (RAtom b) prec = Some a.
  Proof.
    intros Hh. destruct b as [s|i e s]; cbn [cached_atom]; [apply cached_random_ok; exact Hh|].
    intros H. eapply with_cache_good in H.
    - destruct H as [H1 [f H2]]. split; [exact H1|]. exists f. rewrite <- num_arf_clamp. exact H2.
    - exact Hh.
    - intros h1 c Hc. destruct (compute_constr_ok _ _ _ _ _ _ _ _ Hh Hc) as [H1 [f Hf]]. split; [exact H1|].
      exists f. unfold num_arf. fold (clamp (clamp prec)). rewrite clamp_idem. exact Hf.
    - intros h1 c Hc. rewrite (compute_constr_frame _ _ _ _ _ _ _ _ _ Hc) by discriminate. auto.
  Qed.

  Lemma compute_factors_ok fuel wp fs : 0 <= wp -> forall h ret h' a, heap_ok h ->
    compute_factors rng fuel wp fs h ret = Some (h', a) ->
    heap_ok h' /\ exists fuel, mul_factors rng fuel wp fs ret = Some a.
  Proof.
    intros Hwp. induction fs as [|b fs IH]; cbn [compute_factors mul_factors]; intros h ret h' a Hh H.
    - injection H as <- <-. split; [exact Hh|]. exists 0%nat. reflexivity.
    - destruct (cached_atom rng fuel b h wp) as [[h1 f]|] eqn:E; [|discriminate].
      destruct (cached_atom_ok _ _ _ _ _ _ Hh E) as [H1 [n1 F1]].
      destruct (IH _ _ _ _ H1 H) as [H2 [n2 F2]]. split; [exact H2|]. exists (Nat.max n1 n2).
      unfold num_arf in F1. fold (clamp wp) in F1. rewrite clamp_nn in F1 by exact Hwp.
      rewrite (atom_fuel_ex _ _ _ _ F1) by lia. apply (mul_factors_fuel rng wp fs n2); [lia|exact F2].
  Qed.

  Lemma cached_arf_ok fuel h x prec h' a : heap_ok h -> cached_arf rng fuel h x prec = Some (h', a) ->
    heap_ok h' /\ exists fuel, num_arf rng fuel x prec = Some a.
  Proof.
    intros Hh. destruct x as [q|b|ms]; cbn [cached_arf].
    - intros H. eapply with_cache_good in H.
      + destruct H as [H1 [f H2]]. split; [exact H1|]. exists f. rewrite <- num_arf_clamp. exact H2.
      + exact Hh.
      + intros h1 c [= <- <-]. split; [exact Hh|]. exists 0%nat. unfold num_arf. fold (clamp (clamp prec)). rewrite clamp_idem. reflexivity.
      + intros h1 c [= <- _]. auto.
    - apply cached_atom_ok. exact Hh.
    - intros H. eapply with_cache_good in H.
      + destruct H as [H1 [f H2]]. split; [exact H1|]. exists f. rewrite <- num_arf_clamp. exact H2.
      + exact Hh.
      + intros h1 c Hc. unfold compute_prod in Hc. set (wp := working_prec _ _) in Hc.
        destruct (compute_factors rng fuel wp (factors ms) h (arf_of_Z 1)) as [[h2 d]|] eqn:E; [|discriminate].
        cbn [option_map] in Hc. injection Hc as <- <-.
        destruct (compute_factors_ok fuel wp (factors ms) ltac:(unfold wp, working_prec; pose proof (clamp_nonneg prec); pose proof (Z.log2_up_nonneg (Z.of_nat (length (factors ms)) * 2 + (Z.of_nat (length (factors ms)) - 1) + 1)); lia) _ _ _ _ Hh E) as [H1 [f Hf]].
        split; [exact H1|]. exists f. unfold num_arf. fold (clamp (clamp prec)). rewrite clamp_idem. unfold arf_prod. fold wp. rewrite Hf. reflexivity.
      + intros h1 c Hc. unfold compute_prod in Hc.
        destruct (compute_factors _ _ _ _ _ _) as [[h2 d]|] eqn:E; [|discriminate].
        cbn [option_map] in Hc. injection Hc as <- _. rewrite (compute_factors_frame _ _ ms _ _ _ _ _ E). auto.
  Qed.

  Lemma run_ok fuel reqs : forall h, heap_ok h -> heap_ok (run rng fuel reqs h).
  Proof.
    induction reqs as [|[x prec] reqs IH]; intros h Hh; cbn [run]; [exact Hh|].
    destruct (cached_arf rng fuel h x prec) as [[h' a]|] eqn:E; [|apply IH; exact Hh].
    apply IH. exact (proj1 (cached_arf_ok _ _ _ _ _ _ Hh E)).
  Qed.

  (** The answer does not depend on the history. *)
  Lemma cache_transparent fuel reqs x prec h' a fuel' b :
    cached_arf rng fuel (run rng fuel reqs heap_empty) x prec = Some (h', a) -> num_arf rng fuel' x prec = Some b -> a = b.
  Proof.
    intros H Hb. destruct (cached_arf_ok _ _ _ _ _ _ (run_ok fuel reqs _ heap_empty_ok) H) as [_ [f Hf]].
    exact (num_arf_det rng x prec f fuel' a b Hf Hb).
  Qed.

  Lemma cache_bounded fuel reqs x : (length (large (run rng fuel reqs heap_empty x)) <= LARGE_PREC_LIMIT)%nat /\
    NoDup (map fst (large (run rng fuel reqs heap_empty x))).
  Proof. destruct (run_ok fuel reqs _ heap_empty_ok x) as (_ & H). exact H. Qed.

  (** With enough fuel every request returns, whatever the history. *)
  Lemma with_cache_returns h x prec compute (r : Prop) : (exists y, compute h (clamp prec) = Some y) ->
    exists y, with_cache h x prec compute = Some y.
  Proof.
    intros [[h1 a] H]. unfold with_cache. fold (clamp prec). destruct (cache_find _ _); [eexists; reflexivity|].
    rewrite H. eexists. reflexivity.
  Qed.

  Lemma cached_random_returns seed prec : nonzero_stream (rng seed) -> exists fuel0, forall fuel h, (fuel0 <= fuel)%nat ->
    exists r, cached_random rng fuel seed h prec = Some r.
  Proof.
    intros Hs. destruct (first_one _ Hs) as (z & H1 & H0). exists (z + Z.to_nat (clamp (clamp prec) + 1))%nat.
    intros fuel h Hf. apply with_cache_returns; [exact True|].
    rewrite (arf_random_eq rng seed z _ fuel H1 H0 Hf). eexists. reflexivity.
  Qed.

  Lemma cached_atom_returns b prec : atom_ok rng b -> exists fuel0, forall fuel h, (fuel0 <= fuel)%nat ->
    exists r, cached_atom rng fuel b h prec = Some r.
  Proof.
    destruct b as [s|i e s]; cbn [cached_atom]; [apply cached_random_returns|]. intros [Hs _].
    destruct (cached_random_returns s (clamp (clamp prec) + 1 - arf_bits i - 1) Hs) as [f0 H0].
    exists f0. intros fuel h Hf. apply with_cache_returns; [exact True|]. unfold compute_constr. fold (clamp (clamp prec)).
    destruct (0 <? _); [|eexists; reflexivity].
    destruct (H0 fuel h Hf) as [[h1 a] ->]. eexists. reflexivity.
  Qed.

  Lemma compute_factors_returns wp fs : (forall a, In a fs -> atom_ok rng a) -> exists fuel0, forall fuel h ret, (fuel0 <= fuel)%nat ->
    exists r, compute_factors rng fuel wp fs h ret = Some r.
  Proof.
    induction fs as [|b fs IH]; intros Hok; [exists 0%nat; intros; eexists; reflexivity|].
    destruct IH as [f1 H1]; [intros a Ha; apply Hok; right; exact Ha|].
    destruct (cached_atom_returns b wp (Hok b (or_introl eq_refl))) as [f2 H2].
    exists (Nat.max f1 f2). intros fuel h ret Hf. cbn [compute_factors].
    destruct (H2 fuel h ltac:(lia)) as [[h1 a] ->]. apply H1. lia.
  Qed.

  Lemma cached_arf_returns x prec : num_ok rng x -> exists fuel0, forall fuel h, (fuel0 <= fuel)%nat ->
    exists r, cached_arf rng fuel h x prec = Some r.
  Proof.
    destruct x as [q|b|ms]; cbn [cached_arf]; intros Hok.
    - exists 0%nat. intros fuel h _. apply with_cache_returns; [exact True|]. eexists. reflexivity.
    - apply cached_atom_returns. exact Hok.
    - destruct Hok as [_ Hok].
      destruct (compute_factors_returns (working_prec (Z.of_nat (length (factors ms))) (clamp prec)) (factors ms) (factors_ok rng ms Hok)) as [f0 H0].
      exists f0. intros fuel h Hf. apply with_cache_returns; [exact True|]. unfold compute_prod.
      destruct (H0 fuel h (arf_of_Z 1) Hf) as [[h1 a] ->]. eexists. reflexivity.
  Qed.
End Transparent.
