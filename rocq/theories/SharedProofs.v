(** Proofs about Shared.v *)
From Coq Require Import ZArith QArith Bool List Lia.
From Verif Require Import Arf Arb Real Cache Shared.
Import ListNotations.
Open Scope Z_scope.

Section Proofs.
  Variable approx : Z -> arf.
  Variable P : list Z.
  Definition allowed (p : Z) : Prop := usual p = true \/ In p P.

  Record fine (c : cache) : Prop := mkFine {
    fine54 : forall a, c54 c = Some a -> a = approx ARF_DOUBLE_PRECISION;
    fine64 : forall a, c64 c = Some a -> a = approx ARB_PRECISION_FAST;
    fine_large : forall p a, In (p, a) (large c) -> In p P /\ a = approx p;
    fine_nodup : NoDup (map fst (large c)) }.

  Lemma fine_find c p a : fine c -> cache_find c p = Some a -> a = approx p.
  Proof.
    intros F. unfold cache_find. destruct (Z.eqb_spec p ARF_DOUBLE_PRECISION) as [->|]; [apply F|].
    destruct (Z.eqb_spec p ARB_PRECISION_FAST) as [->|]; [apply F|].
    pose proof (fine_large c F) as H. revert H. generalize (large c) as l. induction l as [|[q b] l IH]; intros H; [discriminate|].
    cbn [large_find]. destruct (Z.eqb_spec q p) as [->|]; [intros [= <-]; apply (H p b); left; reflexivity|].
    apply IH. intros p0 a0 Hi. apply H. right. exact Hi.
  Qed.

  Lemma find_put c p a q : cache_find (put c p a) q = if p =? q then Some a else cache_find c q.
  Proof.
    unfold cache_find, put. pose proof (eq_refl : ARF_DOUBLE_PRECISION = 54) as E1. pose proof (eq_refl : ARB_PRECISION_FAST = 64) as E2. rewrite E1, E2.
    destruct (Z.eqb_spec p 54) as [Ep|Np]; [|destruct (Z.eqb_spec p 64) as [Ep|Np']]; cbn [c54 c64 large].
    - subst p. destruct (Z.eqb_spec q 54) as [->|]; [reflexivity|]. destruct (Z.eqb_spec 54 q); [lia|]. reflexivity.
    - subst p. destruct (Z.eqb_spec q 54) as [->|]; [reflexivity|]. destruct (Z.eqb_spec q 64) as [->|]; [reflexivity|]. destruct (Z.eqb_spec 64 q); [lia|]. reflexivity.
    - destruct (Z.eqb_spec q 54) as [->|]; [destruct (Z.eqb_spec p 54); [lia|reflexivity]|].
      destruct (Z.eqb_spec q 64) as [->|]; [destruct (Z.eqb_spec p 64); [lia|reflexivity]|].
      cbn [large_find]. destruct (Z.eqb_spec p q) as [->|N]; [reflexivity|].
      induction (large c) as [|[r b] l IH]; [reflexivity|]. cbn [filter fst]. destruct (Z.eqb_spec r p) as [->|]; cbn [negb large_find].
      + destruct (Z.eqb_spec p q); [lia|]. exact IH.
      + destruct (Z.eqb_spec r q); [reflexivity|exact IH].
  Qed.

  Lemma nodup_filter (f : Z * arf -> bool) l : NoDup (map fst l) -> NoDup (map fst (filter f l)).
  Proof.
    induction l as [|e l IH]; intros H; [constructor|]. inversion H; subst. cbn [filter]. destruct (f e); cbn [map]; [constructor|]; auto.
    intros Hi. apply H2. apply in_map_iff in Hi. destruct Hi as (x & Ex & Hx). apply filter_In in Hx. apply in_map_iff. exists x. tauto.
  Qed.

  Lemma fine_put c p : fine c -> allowed p -> fine (put c p (approx p)).
  Proof.
    intros F A. unfold put. destruct (Z.eqb_spec p ARF_DOUBLE_PRECISION) as [->|N1]; [|destruct (Z.eqb_spec p ARB_PRECISION_FAST) as [->|N2]].
    - constructor; cbn; try apply F. intros a [= <-]. reflexivity.
    - constructor; cbn; try apply F. intros a [= <-]. reflexivity.
    - constructor; cbn [c54 c64 large]; try apply F.
      + intros q a [[= <- <-]|Hi].
        * split; [|reflexivity]. destruct A as [U|]; [|assumption]. unfold usual in U. apply orb_prop in U. destruct U as [U|U]; apply Z.eqb_eq in U; contradiction.
        * apply filter_In in Hi. apply F. apply Hi.
      + cbn [map fst]. constructor; [|apply nodup_filter; apply F].
        intros Hi. apply in_map_iff in Hi. destruct Hi as ([q a] & Eq & Hq). apply filter_In in Hq. cbn [fst] in *. subst q.
        destruct Hq as [_ Hq]. rewrite Z.eqb_refl in Hq. discriminate.
  Qed.

  Lemma fine_length c : fine c -> (length (large c) <= length P)%nat.
  Proof.
    intros F. rewrite <- (map_length fst). apply NoDup_incl_length; [apply F|].
    intros p Hp. apply in_map_iff in Hp. destruct Hp as ([q a] & <- & Hi). apply (fine_large c F q a Hi).
  Qed.

  Definition placed (c : cache) (pl : place) : Prop :=
    match pl with
    | Look p => allowed p
    | Count p => allowed p
    | Wipe p => False
    | Store p => allowed p
    | Fetch p => allowed p /\ cache_find c p = Some (approx p)
    end.

  Record sound (m : shared) : Prop := mkSound {
    s_fine : fine (contents m);
    s_at : forall t pl, at_ m t = Some pl -> placed (contents m) pl;
    s_ret : forall t p r, In (t, p, r) (returned m) -> r = Some (approx p) }.

  Hypothesis few : (length P < LARGE_PREC_LIMIT)%nat.

  Lemma init_sound : sound shared_init.
  Proof. constructor; [constructor; try (cbn; intros; discriminate); cbn; [intros p a []|constructor]|cbn; intros; discriminate|intros t p r []]. Qed.

  Lemma move_placed m t pl c : (forall u q, at_ m u = Some q -> placed c q) -> (forall q, pl = Some q -> placed c q) ->
    forall u q, move m t pl u = Some q -> placed c q.
  Proof. intros H1 H2 u q. unfold move. destruct (Nat.eqb u t); [apply H2|apply H1]. Qed.

  Lemma advance_sound m t : sound m -> sound (advance approx m t).
  Proof.
    intros [F A Rt]. unfold advance. destruct (at_ m t) as [pl|] eqn:E; [|constructor; assumption].
    pose proof (A t pl E) as Pl. destruct pl as [p|p|p|p|p]; cbn [placed] in Pl.
    - constructor; cbn [contents at_ returned]; auto. intros u q. apply move_placed; [exact A|]. intros q' [= <-].
      destruct (cache_find (contents m) p) as [a|] eqn:Ef; [|destruct (usual p); exact Pl].
      cbn [placed]. rewrite (fine_find _ _ _ F Ef) in Ef. auto.
    - pose proof (fine_length _ F) as L.
      assert ((LARGE_PREC_LIMIT <=? length (large (contents m)))%nat = false) as -> by (apply Nat.leb_gt; lia).
      constructor; cbn [contents at_ returned]; auto. intros u q. apply move_placed; [exact A|]. intros q' [= <-]. exact Pl.
    - contradiction.
    - constructor; cbn [contents at_ returned]; [apply fine_put; assumption| |auto].
      intros u q. apply move_placed.
      + intros v q' Hv. specialize (A v q' Hv). destruct q'; cbn [placed] in *; auto. destruct A as [A1 A2]. split; [exact A1|].
        rewrite find_put. destruct (Z.eqb_spec p prec) as [->|]; [reflexivity|exact A2].
      + intros q' [= <-]. cbn [placed]. split; [exact Pl|]. rewrite find_put, Z.eqb_refl. reflexivity.
    - destruct Pl as [P1 P2]. rewrite P2. constructor; cbn [contents at_ returned]; auto.
      + intros u q. apply move_placed; [exact A|discriminate].
      + intros u q r [[= <- <- <-]|Hi]; [reflexivity|eauto].
  Qed.

  Lemma play_sound events : forall m, sound m -> (forall t p, In (Call t p) events -> allowed (clamped p)) -> sound (play approx events m).
  Proof.
    induction events as [|e events IH]; intros m S H; [exact S|]. cbn [play fold_left]. apply IH; [|intros t p Hi; apply (H t p); right; exact Hi].
    destruct e as [t p|t]; cbn [happen]; [|apply advance_sound; exact S].
    destruct (at_ m t) eqn:E; [exact S|]. destruct S as [F A Rt]. constructor; cbn [contents at_ returned]; auto.
    intros u q. apply move_placed; [exact A|]. intros q' [= <-]. cbn [placed]. apply (H t p). left. reflexivity.
  Qed.
End Proofs.
