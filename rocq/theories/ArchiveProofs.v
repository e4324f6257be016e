(** Loading arbitrary archives. *)
From Coq Require Import ZArith QArith Qcanon Bool List Reals Permutation Lia.
From Verif Require Import Arf Arb Real Gen SpecGen GenProofs Seed Factory SpecFactory FactoryProofs Ring SpecRing Module Element SpecModule ModuleProofs Serial SpecSerial SerialProofs SpecArchive.
Import ListNotations.
Open Scope Z_scope.

Section Archive.
  Variables (A : ring) (S : semantics A).
  Hypothesis L : lawful A S.

  Definition pvalid (s : state) (p : @pointer A) : Prop :=
    match p with PNum g => valid s g | PMod M => module_wf M /\ Forall (alive s) (basis M) end.
  Definition all_valid (s : state) (Ld : @loaded A) : Prop := forall k p, pointer_at Ld k = Some p -> pvalid s p.
  Lemma alive_in s g : inv s -> (alive s g <-> exists x o, In (x, o) (objs s) /\ gen_of x o = g).
  Proof. intros (Hn & _). unfold alive. split; intros (x & o & H & E); exists x, o; (split; [|exact E]); apply (lookup_in _ _ _ Hn); exact H. Qed.
  Lemma alive_mono s s' g : inv s -> inv s' -> extends s s' -> alive s g -> alive s' g.
  Proof. intros H H' [E _]. rewrite (alive_in s g H), (alive_in s' g H'). intros (x & o & Hx & Eg). exists x, o. auto. Qed.
  Lemma pvalid_mono s s' p : inv s -> inv s' -> extends s s' -> pvalid s p -> pvalid s' p.
  Proof.
    intros H H' E. destruct p as [g|M]; cbn [pvalid]; intros [W Al]; (split; [exact W|]).
    - exact (alive_mono s s' g H H' E Al).
    - apply (Forall_impl _ (fun g => alive_mono s s' g H H' E) Al).
  Qed.
  Lemma all_valid_mono s s' Ld : inv s -> inv s' -> extends s s' -> all_valid s Ld -> all_valid s' Ld.
  Proof. intros H H' E V k p Hp. exact (pvalid_mono s s' p H H' E (V k p Hp)). Qed.
  Lemma all_valid_cons s Ld k p : pvalid s p -> all_valid s Ld -> all_valid s ((k, p) :: Ld).
  Proof. intros Hp V j q. cbn [pointer_at]. destruct (k =? j); [intros [= <-]; exact Hp|apply V]. Qed.
  Lemma valid_in s x o : inv s -> In (x, o) (objs s) -> valid s (gen_of x o).
  Proof. intros H Hx. split; [exact (gen_of_wf s x o H Hx)|]. apply (alive_in s _ H). exists x, o. auto. Qed.

  Definition step_ok (s s' : state) (Ld' : @loaded A) : Prop := inv s' /\ extends s s' /\ all_valid s' Ld'.
  Lemma load_aref_ok s Ld r s' Ld' i : inv s -> all_valid s Ld -> load_aref s Ld r = Some (s', Ld', i) ->
    step_ok s s' Ld' /\ exists a, In (i, OAtom a) (objs s').
  Proof.
    intros Hs V. destruct r as [k a|k]; cbn [load_aref].
    - destruct (load_atom_data s a) as [s1 j] eqn:E. intros [= <- <- <-].
      destruct (load_atom_data_spec _ _ _ _ Hs E) as (H1 & H2 & b & H3 & _). split; [|exists b; exact H3].
      split; [exact H1|]. split; [exact H2|]. apply all_valid_cons; [|apply (all_valid_mono s); assumption].
      exact (valid_in s1 j (OAtom b) H1 H3).
    - destruct (pointer_at Ld k) as [[[q|j|ms]|M]|] eqn:E; try discriminate. intros [= <- <- <-].
      split; [split; [exact Hs|split; [apply extends_refl|exact V]]|]. destruct (V _ _ E) as [_ Al].
      apply (alive_in s _ Hs) in Al. destruct Al as (x & o & Hx & Eg). destruct o as [q|a|ms h]; try discriminate. injection Eg as ->. exists a. exact Hx.
  Qed.
  Lemma filter_keys i (ms : list (Z * nat)) : NoDup (map fst ms) -> NoDup (map fst ((i, 0%nat) :: filter (fun m => negb (fst m =? i)) ms)).
  Proof.
    intros H. cbn [map fst]. constructor.
    - rewrite in_map_iff. intros ([j f] & E & Hj). cbn in E. subst j. apply filter_In in Hj. destruct Hj as [_ Hj]. cbn in Hj. rewrite Z.eqb_refl in Hj. discriminate.
    - induction ms as [|[j f] ms IH]; cbn [filter map fst]; [constructor|]. inversion H as [|a b N1 N2]; subst. destruct (negb _); [|exact (IH N2)].
      cbn [map fst]. constructor; [|exact (IH N2)]. intros Hj. apply N1. apply in_map_iff in Hj. destruct Hj as ([j' f'] & E & Hj). cbn in E. subst j'.
      apply filter_In in Hj. change j with (fst (j, f')). apply in_map. apply Hj.
  Qed.
  Lemma load_factors_ok fs : forall s Ld s' Ld' ms, inv s -> all_valid s Ld -> load_factors s Ld fs = Some (s', Ld', ms) ->
    step_ok s s' Ld' /\ NoDup (map fst ms) /\ forall i e, In (i, e) ms -> exists a, In (i, OAtom a) (objs s').
  Proof.
    induction fs as [|[r e] fs IH]; intros s Ld s' Ld' ms Hs V; cbn [load_factors].
    - intros [= <- <- <-]. split; [split; [exact Hs|split; [apply extends_refl|exact V]]|]. split; [constructor|intros i e []].
    - destruct (load_aref s Ld r) as [[[s1 L1] i]|] eqn:E1; [|discriminate].
      destruct (load_aref_ok _ _ _ _ _ _ Hs V E1) as ((H1 & X1 & V1) & a & Ha).
      destruct (load_factors s1 L1 fs) as [[[s2 L2] ms2]|] eqn:E2; [|discriminate]. cbn [option_map]. intros [= <- <- <-].
      destruct (IH _ _ _ _ _ H1 V1 E2) as ((H2 & X2 & V2) & Nd & Al).
      split; [split; [exact H2|split; [exact (extends_trans _ _ _ X1 X2)|exact V2]]|]. split; [exact (filter_keys i ms2 Nd)|].
      intros j f [[= <- <-]|Hj]; [exists a; apply X2; exact Ha|]. apply filter_In in Hj. exact (Al j f (proj1 Hj)).
  Qed.
  Lemma sum_fold ms : fold_right (fun f n => (snd f + n)%nat) 0%nat ms = sum_exponents ms.
  Proof. induction ms as [|[i e] ms IH]; [reflexivity|]. cbn [fold_right snd]. rewrite IH. reflexivity. Qed.
  Lemma proper_product s ms : inv s -> NoDup (map fst ms) -> (forall i e, In (i, e) ms -> exists a, In (i, OAtom a) (objs s)) -> proper (GProd (id_order ms)) ->
    gen_wf (GProd (id_order ms)) /\ forall i e, In (i, e) (id_order ms) -> exists a, In (i, OAtom a) (objs s).
  Proof.
    intros Hs Nd Al [P1 P2]. rewrite sum_fold in P2. pose proof (id_order_perm ms) as Pm. split.
    - split; [|exact P2]. apply id_order_wf; [exact Nd|]. intros i e Hi. destruct (Al i e Hi) as [a Ha]. split.
      + apply (proj1 (proj2 Hs)) in Ha. lia.
      + rewrite Forall_forall in P1. apply (P1 (i, e)). apply (Permutation_in _ Pm). exact Hi.
    - intros i e Hi. apply (Al i e). apply (Permutation_in _ (Permutation_sym Pm)). exact Hi.
  Qed.
  Lemma load_ref_ok s Ld r s' Ld' g : inv s -> all_valid s Ld -> load_ref s Ld r = Some (s', Ld', g) -> proper g ->
    step_ok s s' Ld' /\ valid s' g.
  Proof.
    intros Hs V. destruct r as [k d|k]; cbn [load_ref].
    - destruct d as [q|a|fs].
      + destruct (get_rational s q) as [s1 z] eqn:E. intros [= <- <- <-] _. destruct (get_rational_spec _ _ _ _ Hs E) as (H1 & H2 & H3).
        pose proof (valid_in s1 z (ORational q) H1 H3) as Vq. split; [|exact Vq].
        split; [exact H1|]. split; [exact H2|]. apply all_valid_cons; [exact Vq|apply (all_valid_mono s); assumption].
      + destruct (load_atom_data s a) as [s1 j] eqn:E. intros [= <- <- <-] _. destruct (load_atom_data_spec _ _ _ _ Hs E) as (H1 & H2 & b & H3 & _).
        pose proof (valid_in s1 j (OAtom b) H1 H3) as Vq. split; [|exact Vq].
        split; [exact H1|]. split; [exact H2|]. apply all_valid_cons; [exact Vq|apply (all_valid_mono s); assumption].
      + destruct (load_factors s Ld fs) as [[[s1 L1] ms]|] eqn:E; [|discriminate]. cbn [option_map]. intros [= <- <- <-] Pr.
        destruct (load_factors_ok _ _ _ _ _ _ Hs V E) as ((H1 & X1 & V1) & Nd & Al).
        destruct (proper_product s1 ms H1 Nd Al Pr) as [W Al'].
        destruct (get_gen_spec s1 (GProd (id_order ms)) H1 W) as (s2 & z & o & E2 & H2 & X2 & Hz & Eo & _).
        { intros i Hi. cbn [expo] in Hi. destruct (expo_in _ _ Hi) as [e He]. exact (Al' i e He). }
        cbn [get_gen] in E2. rewrite E2. cbn [fst]. pose proof (valid_in s2 z o H2 Hz) as Vq. rewrite Eo in Vq. split; [|exact Vq].
        split; [exact H2|]. split; [exact (extends_trans _ _ _ X1 X2)|]. apply all_valid_cons; [exact Vq|apply (all_valid_mono s1); assumption].
    - destruct (pointer_at Ld k) as [[h|M]|] eqn:E; try discriminate. intros [= <- <- <-] _.
      split; [split; [exact Hs|split; [apply extends_refl|exact V]]|]. exact (V _ _ E).
  Qed.
  Lemma load_refs_ok rs : forall s Ld s' Ld' gs, inv s -> all_valid s Ld -> load_refs s Ld rs = Some (s', Ld', gs) -> Forall proper gs ->
    step_ok s s' Ld' /\ Forall (valid s') gs.
  Proof.
    induction rs as [|r rs IH]; intros s Ld s' Ld' gs Hs V; cbn [load_refs].
    - intros [= <- <- <-] _. split; [split; [exact Hs|split; [apply extends_refl|exact V]]|constructor].
    - destruct (load_ref s Ld r) as [[[s1 L1] g]|] eqn:E1; [|discriminate].
      destruct (load_refs s1 L1 rs) as [[[s2 L2] gs2]|] eqn:E2; [|discriminate]. cbn [option_map]. intros [= <- <- <-] Pr.
      inversion Pr as [|g0 gs0 P1 P2]; subst. destruct (load_ref_ok _ _ _ _ _ _ Hs V E1 P1) as ((H1 & X1 & V1) & Vg).
      destruct (IH _ _ _ _ _ H1 V1 E2 P2) as ((H2 & X2 & V2) & Vgs).
      split; [split; [exact H2|split; [exact (extends_trans _ _ _ X1 X2)|exact V2]]|]. constructor; [|exact Vgs].
      destruct Vg as [W Al]. split; [exact W|exact (alive_mono s1 s2 g H1 H2 X2 Al)].
  Qed.
  Lemma load_module_ok s Ld m s' Ld' M : inv s -> all_valid s Ld -> load_module s Ld m = Some (s', Ld', M) -> Forall proper (basis M) ->
    step_ok s s' Ld' /\ module_wf M /\ Forall (alive s') (basis M).
  Proof.
    intros Hs V. destruct m as [k rs p|k]; cbn [load_module].
    - destruct (load_refs s Ld rs) as [[[s1 L1] gs]|] eqn:E1; [|discriminate]. destruct (make gs p) as [N|] eqn:EM; [|discriminate]. intros [= <- <- <-] Pr.
      assert (Pm : Permutation gs (basis N)) by (unfold make in EM; destruct (check (gsort gs)); [|discriminate]; injection EM as <-; apply gsort_perm).
      destruct (load_refs_ok _ _ _ _ _ _ Hs V E1) as ((H1 & X1 & V1) & Vg); [exact (Permutation_Forall (Permutation_sym Pm) Pr)|].
      assert (Wg : Forall gen_wf gs) by (apply (Forall_impl _ (fun g (H : valid s1 g) => proj1 H) Vg)).
      assert (Al : Forall (alive s1) (basis N)) by (apply (Permutation_Forall Pm); apply (Forall_impl _ (fun g (H : valid s1 g) => proj2 H) Vg)).
      destruct (make_ok A gs p N Wg EM) as (WN & _). split; [|split; [exact WN|exact Al]].
      split; [exact H1|]. split; [exact X1|]. apply all_valid_cons; [split; [exact WN|exact Al]|exact V1].
    - destruct (pointer_at Ld k) as [[h|N]|] eqn:E; try discriminate. intros [= <- <- <-] _.
      split; [split; [exact Hs|split; [apply extends_refl|exact V]]|]. exact (V _ _ E).
  Qed.
  Lemma load_elems_ok xs : forall s Ld s' Ld' ys, inv s -> all_valid s Ld -> load_elems s Ld xs = Some (s', Ld', ys) -> Forall proper_elem ys -> Forall (coefficients_in S) ys ->
    step_ok s s' Ld' /\ Forall (valid_elem S s') ys.
  Proof.
    induction xs as [|x xs IH]; intros s Ld s' Ld' ys Hs V; cbn [load_elems].
    - intros [= <- <- <-] _ _. split; [split; [exact Hs|split; [apply extends_refl|exact V]]|constructor].
    - destruct (load_elem s Ld x) as [[[s1 L1] y]|] eqn:E1; [|discriminate].
      destruct (load_elems s1 L1 xs) as [[[s2 L2] ys2]|] eqn:E2; [|discriminate]. cbn [option_map]. intros [= <- <- <-] Pr Co.
      inversion Pr as [|y0 ys0 P1 P2]; subst. inversion Co as [|y0 ys0 C1 C2]; subst.
      unfold load_elem in E1. destruct (load_module s Ld (parent x)) as [[[s3 L3] M]|] eqn:EM; [|discriminate].
      unfold make_elem in E1. destruct (Nat.eqb_spec (length (saved_coeffs x)) (rank M)) as [El|]; [|discriminate]. injection E1 as <- <- <-.
      destruct (load_module_ok _ _ _ _ _ _ Hs V EM P1) as ((H1 & X1 & V1) & WM & Al).
      destruct (IH _ _ _ _ _ H1 V1 E2 P2 C2) as ((H2 & X2 & V2) & Vys).
      split; [split; [exact H2|split; [exact (extends_trans _ _ _ X1 X2)|exact V2]]|]. constructor; [|exact Vys].
      split; [split; [exact WM|split; [exact El|exact C1]]|]. unfold alive_elem. apply (Forall_impl _ (fun g => alive_mono s3 s2 g H1 H2 X2) Al).
  Qed.
  Lemma load_elems_lengths xs : forall s Ld s' Ld' ys, load_elems s Ld xs = Some (s', Ld', ys) ->
    Forall2 (fun (x : saved A) (y : elem A) => coeffs y = saved_coeffs x /\ length (coeffs y) = length (basis (emodule y))) xs ys.
  Proof.
    induction xs as [|x xs IH]; intros s Ld s' Ld' ys; cbn [load_elems]; [intros [= <- <- <-]; constructor|].
    destruct (load_elem s Ld x) as [[[s1 L1] y]|] eqn:E1; [|discriminate].
    destruct (load_elems s1 L1 xs) as [[[s2 L2] ys2]|] eqn:E2; [|discriminate]. cbn [option_map]. intros [= <- <- <-]. constructor; [|exact (IH _ _ _ _ _ E2)].
    unfold load_elem in E1. destruct (load_module s Ld (parent x)) as [[[s3 L3] M]|]; [|discriminate].
    unfold make_elem in E1. destruct (Nat.eqb_spec (length (saved_coeffs x)) (rank M)) as [El|]; [|discriminate]. injection E1 as <- <- <-. split; [reflexivity|exact El].
  Qed.
End Archive.
