(** Proofs about SharedMany.v: what can happen at all *)
From Coq Require Import ZArith QArith Bool List Lia.
From Verif Require Import Arf Arb Real RealProofs Cache CacheProofs Shared SharedProofs SpecShared SharedMany SharedManyProofs.
Import ListNotations.
Open Scope Z_scope.

Section Safe.
  Variable digits : Z -> Z -> arf.
  (** A value that arf can return if the calls that it makes return such values *)
  Inductive deg : rnum -> Z -> arf -> Prop :=
  | deg_zero x p : usual p = false -> deg x p (arf_of_Z 0)
  | deg_value x p got : Forall2 (fun r a => deg (fst r) (clamped (snd r)) a) (needs x p) got -> deg x p (combined digits x p got).
  Definition deg_call (r : rnum * Z) (a : arf) : Prop := deg (fst r) (clamped (snd r)) a.
  Definition work_safe (x : rnum) (p : Z) (got : list arf) (todo : list (rnum * Z)) : Prop := exists fin, needs x p = fin ++ todo /\ Forall2 deg_call fin got.
  Definition top_safe (h : heap) (f : frame) : Prop :=
    match stage_of f with Working got todo => work_safe (number f) (precision f) got todo | Fetching => usual (precision f) = true -> cache_find (h (number f)) (precision f) <> None | _ => True end.
  Fixpoint chain_safe (x : rnum) (p : Z) (below : list frame) : Prop :=
    match below with
    | [] => True
    | mkFrame y q (Working got ((x', p') :: todo)) :: below' => x' = x /\ clamped p' = p /\ work_safe y q got ((x', p') :: todo) /\ chain_safe y q below'
    | _ => False
    end.
  Definition thread_safe (h : heap) (th : thread) : Prop := match th with Idle => True | Busy f below => top_safe h f /\ chain_safe (number f) (precision f) below | Crashed => False end.
  Record safe (w : world) : Prop := {
    s_right : forall x p a, cache_find (caches w x) p = Some a -> deg x p a;
    s_threads : forall t, thread_safe (caches w) (threads w t);
    s_results : forall t x p a, In (t, x, p, a) (results w) -> deg x p a }.
  Lemma safe_init : safe world_init.
  Proof.
    constructor; [|intros t; exact Logic.I|intros t x p a []].
    intros x p a. cbn. unfold cache_find. cbn. destruct (p =? ARF_DOUBLE_PRECISION); [discriminate|]. destruct (p =? ARB_PRECISION_FAST); discriminate.
  Qed.
  (** Entries for the usual precisions stay. *)
  Definition stays (h h' : heap) : Prop := forall x p, usual p = true -> cache_find (h x) p <> None -> cache_find (h' x) p <> None.
  Lemma thread_stays h h' th : stays h h' -> thread_safe h th -> thread_safe h' th.
  Proof.
    intros H. destruct th as [|[x p st] b|]; cbn [thread_safe]; auto. intros [T C]. split; [|exact C]. unfold top_safe in *. cbn [stage_of number precision] in *. destruct st; auto.
  Qed.
  Lemma put_stays h x p a : stays h (heap_set h x (put (h x) p a)).
  Proof.
    intros y q U N. destruct (rnum_dec y x) as [->|D]; [|rewrite heap_set_other by exact D; exact N]. rewrite heap_set_same, find_put. destruct (p =? q); [discriminate|exact N].
  Qed.
  Lemma wipe_stays h x : stays h (heap_set h x (mkCache (c54 (h x)) (c64 (h x)) [])).
  Proof.
    intros y q U N. destruct (rnum_dec y x) as [->|D]; [|rewrite heap_set_other by exact D; exact N]. rewrite heap_set_same. unfold usual in U. unfold cache_find in *. cbn [c54 c64 large large_find].
    destruct (q =? ARF_DOUBLE_PRECISION); [exact N|]. destruct (q =? ARB_PRECISION_FAST); [exact N|discriminate U].
  Qed.
  Lemma put_deg h x p a : deg x p a -> (forall y q b, cache_find (h y) q = Some b -> deg y q b) -> forall y q b, cache_find (heap_set h x (put (h x) p a) y) q = Some b -> deg y q b.
  Proof.
    intros A H y q b. destruct (rnum_dec y x) as [->|D]; [|rewrite heap_set_other by exact D; apply H]. rewrite heap_set_same, find_put. destruct (Z.eqb_spec p q) as [->|]; [intros [= <-]; exact A|apply H].
  Qed.
  Lemma give_safe w h t x p a below : (forall y q b, cache_find (h y) q = Some b -> deg y q b) -> (forall u, u <> t -> thread_safe h (threads w u)) -> (forall u y q b, In (u, y, q, b) (results w) -> deg y q b) ->
    deg x p a -> chain_safe x p below -> safe (give w h t x p a below).
  Proof.
    intros Rh Th Rs A C. destruct below as [|[y q [| | |got [|[x' p'] todo]|]] below]; cbn [chain_safe] in C; try contradiction; cbn [give].
    - constructor; cbn [caches threads results]; [exact Rh| |].
      + intros u. destruct (Nat.eq_dec u t) as [->|N]; [rewrite become_same; exact Logic.I|rewrite become_other by exact N; apply Th, N].
      + intros u y q b [[= <- <- <- <-]|I]; [exact A|exact (Rs u y q b I)].
    - destruct C as (-> & <- & (fin & En & Ef) & C). constructor; cbn [caches threads results]; [exact Rh| |exact Rs].
      intros u. destruct (Nat.eq_dec u t) as [->|N]; [rewrite become_same|rewrite become_other by exact N; apply Th, N].
      split; [|exact C]. unfold top_safe, work_safe. cbn [stage_of number precision]. exists (fin ++ [(x, p')]). split; [rewrite En, <- app_assoc; reflexivity|]. apply Forall2_app; [exact Ef|]. constructor; [exact A|constructor].
  Qed.
  Lemma tick_safe w t : safe w -> safe (tick digits w t).
  Proof.
    intros [Rh Th Rs]. unfold tick. pose proof (Th t) as Tt. destruct (threads w t) as [|[x p st] below|] eqn:Et; [constructor; assumption| |contradiction].
    destruct Tt as [Top Ch]. cbn [number precision] in Ch. cbv zeta.
    assert (Go : forall st', top_safe (caches w) (mkFrame x p st') -> safe (mkWorld (caches w) (become w t (Busy (mkFrame x p st') below)) (results w))).
    { intros st' Hs. constructor; cbn [caches threads results]; [exact Rh| |exact Rs]. intros u. destruct (Nat.eq_dec u t) as [->|N]; [rewrite become_same; split; [exact Hs|exact Ch]|rewrite become_other by exact N; apply Th]. }
    assert (W0 : work_safe x p [] (needs x p)) by (exists []; split; [reflexivity|constructor]).
    destruct st as [| | |got [|[y q] todo]|]; unfold top_safe in Top; cbn [stage_of number precision] in Top.
    - apply Go. destruct (cache_find (caches w x) p) as [a|] eqn:E; [|destruct (usual p); [exact W0|exact Logic.I]]. unfold top_safe. cbn [stage_of number precision]. rewrite E. discriminate.
    - apply Go. destruct (_ <=? _)%nat; [exact Logic.I|exact W0].
    - constructor; cbn [caches threads results]; [| |exact Rs].
      + intros y q a. destruct (rnum_dec y x) as [->|N]; [|rewrite heap_set_other by exact N; apply Rh]. rewrite heap_set_same. intros E. apply Rh. revert E. unfold cache_find. cbn [c54 c64 large large_find].
        destruct (q =? ARF_DOUBLE_PRECISION); [auto|]. destruct (q =? ARB_PRECISION_FAST); [auto|discriminate].
      + intros u. destruct (Nat.eq_dec u t) as [->|N]; [rewrite become_same; split; [exact W0|exact Ch]|rewrite become_other by exact N]. apply (thread_stays (caches w)); [apply wipe_stays|apply Th].
    - assert (A : deg x p (combined digits x p got)). { apply deg_value. destruct Top as (fin & En & Ef). rewrite app_nil_r in En. rewrite En. exact Ef. }
      constructor; cbn [caches threads results]; [apply put_deg; assumption| |exact Rs].
      intros u. destruct (Nat.eq_dec u t) as [->|N]; [rewrite become_same|rewrite become_other by exact N].
      + split; [|exact Ch]. unfold top_safe. cbn [stage_of number precision]. intros _. rewrite heap_set_same, find_put, Z.eqb_refl. discriminate.
      + apply (thread_stays (caches w)); [apply put_stays|apply Th].
    - constructor; cbn [caches threads results]; [exact Rh| |exact Rs]. intros u. destruct (Nat.eq_dec u t) as [->|N]; [rewrite become_same|rewrite become_other by exact N; apply Th].
      split; [exact Logic.I|]. cbn [next_call number precision chain_safe]. auto.
    - destruct (cache_find (caches w x) p) as [a|] eqn:E.
      + apply give_safe; auto.
      + destruct (usual p) eqn:U; [destruct (Top eq_refl eq_refl)|]. pose proof (deg_zero x p U) as A. apply give_safe; auto; [apply put_deg; assumption|]. intros u N. apply (thread_stays (caches w)); [apply put_stays|apply Th].
  Qed.
  Lemma schedule_safe os : forall w, safe w -> safe (unfold_schedule digits os w).
  Proof.
    induction os as [|o os IH]; intros w B; [exact B|]. cbn [unfold_schedule fold_left]. apply IH. destruct o as [t x p|t]; cbn [occur]; [|apply tick_safe, B].
    destruct (threads w t) eqn:E; try exact B. destruct B as [Rh Th Rs]. constructor; cbn [caches threads results]; auto.
    intros u. destruct (Nat.eq_dec u t) as [->|N]; [rewrite become_same; split; exact Logic.I|rewrite become_other by exact N; apply Th].
  Qed.

  (** * Calls return *)
  Lemma give_way_safe w h t x p a below : chain_safe x p below -> (exists f below', threads (give w h t x p a below) t = Busy f below' /\ bottom f below' = bottom (mkFrame x p Looking) below) \/ In (t, fst (bottom (mkFrame x p Looking) below), snd (bottom (mkFrame x p Looking) below), a) (results (give w h t x p a below)).
  Proof.
    intros C. destruct below as [|[y q [| | |got [|[x' p'] todo]|]] below]; cbn [chain_safe] in C; try contradiction; cbn [give threads results].
    - right. left. reflexivity.
    - left. do 2 eexists. split; [apply become_same|]. cbn [bottom]. apply bottom_stage.
  Qed.
  Lemma tick_way_safe w t x p : safe w -> on_its_way w t x p -> on_its_way (tick digits w t) t x p.
  Proof.
    intros B [(f & below & Et & Eb)|[a I]]; [|right; exists a; apply tick_results, I].
    pose proof (s_threads w B t) as Tt. rewrite Et in Tt. destruct Tt as [Top Ch]. destruct f as [y q st]. cbn [number precision] in Ch.
    assert (Gv : forall h a, on_its_way (give w h t y q a below) t x p).
    { intros h a. destruct (give_way_safe w h t y q a below Ch) as [(f & b & E1 & E2)|I].
      - left. exists f, b. split; [exact E1|]. rewrite E2, <- Eb. apply bottom_stage.
      - right. exists a. rewrite (bottom_stage y q Looking st), Eb in I. exact I. }
    unfold tick. rewrite Et. cbv zeta. destruct st as [| | |got [|[z r] todo]|].
    - left. do 2 eexists. split; [apply become_same|]. rewrite <- Eb. apply bottom_stage.
    - left. do 2 eexists. split; [apply become_same|]. rewrite <- Eb. apply bottom_stage.
    - left. do 2 eexists. split; [apply become_same|]. rewrite <- Eb. apply bottom_stage.
    - left. do 2 eexists. split; [apply become_same|]. rewrite <- Eb. apply bottom_stage.
    - left. do 2 eexists. split; [apply become_same|]. cbn [bottom]. exact Eb.
    - unfold top_safe in Top. cbn [stage_of number precision] in Top. destruct (cache_find (caches w y) q); [apply Gv|]. destruct (usual q); [destruct (Top eq_refl eq_refl)|apply Gv].
  Qed.
  Lemma occur_safe w o : safe w -> safe (occur digits w o).
  Proof. intros B. exact (schedule_safe [o] w B). Qed.
  Lemma deliver_safe t x p os : forall w, safe w -> on_its_way w t x p ->
    (remaining (threads w t) <= ticks t os)%nat -> exists a, In (t, x, p, a) (results (unfold_schedule digits os w)).
  Proof.
    induction os as [|o os IH]; intros w B [(f & below & Et & Eb)|[a I]] Le; try (exists a; apply (schedule_results _ _ w), I).
    - rewrite Et in Le. pose proof (remaining_busy f below). unfold ticks in Le. cbn [filter length] in Le. lia.
    - cbn [unfold_schedule fold_left]. apply IH.
      + apply occur_safe, B.
      + destruct o as [u y q|u]; cbn [occur].
        * left. exists f, below. split; [|exact Eb]. destruct (threads w u) eqn:Eu; try exact Et. cbn [threads]. rewrite become_other; [exact Et|congruence].
        * destruct (Nat.eq_dec u t) as [->|N]; [apply tick_way_safe; [exact B|left; exists f, below; split; assumption]|].
          left. exists f, below. split; [|exact Eb]. rewrite tick_other by congruence. exact Et.
      + unfold ticks in Le. cbn [filter] in Le. destruct o as [u y q|u]; cbn [occur].
        * replace (threads _ t) with (threads w t); [exact Le|]. destruct (threads w u) eqn:Eu; try reflexivity. cbn [threads]. rewrite become_other; [reflexivity|congruence].
        * destruct (Nat.eqb_spec u t) as [->|N].
          -- cbn [length] in Le. assert (Lt : (remaining (threads (tick digits w t) t) < remaining (threads w t))%nat). { apply tick_remaining. rewrite Et. pose proof (remaining_busy f below). lia. } unfold ticks. lia.
          -- rewrite tick_other by congruence. exact Le.
  Qed.
  Lemma asks_safe t x p before after : threads (unfold_schedule digits before world_init) t = Idle -> (cost x <= ticks t after)%nat ->
    exists a, In (t, x, clamped p, a) (results (unfold_schedule digits (before ++ Asks t x p :: after) world_init)).
  Proof.
    intros Ei Le. unfold unfold_schedule. rewrite fold_left_app. cbn [fold_left]. fold (unfold_schedule digits before world_init). pose proof (schedule_safe before world_init safe_init) as Bw. set (w := unfold_schedule digits before world_init) in *.
    assert (Ew : occur digits w (Asks t x p) = mkWorld (caches w) (become w t (Busy (next_call x p) [])) (results w)) by (cbn [occur]; rewrite Ei; reflexivity).
    apply (deliver_safe t x (clamped p) after).
    - apply occur_safe, Bw.
    - rewrite Ew. left. exists (next_call x p), []. split; [cbn [threads]; apply become_same|reflexivity].
    - rewrite Ew. cbn [threads]. rewrite become_same. unfold remaining, left_of. cbn [next_call stage_of number map list_sum fold_right]. lia.
  Qed.
End Safe.
