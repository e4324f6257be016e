(** Element::arb and the loops that refine it: enclosure and termination. *)
From Coq Require Import ZArith QArith Qcanon Bool List Reals Qreals Lia Lra Psatz.
From Flocq Require Import Core.
From Verif Require Import Arf Arb SpecArf ArfProofs ArbProofs Gen SpecGen Ring SpecRing Module Element SpecModule Loops SpecLoops Near Near2.
Import ListNotations.
Open Scope R_scope.

(** * Searching *)
Lemma search_sound {T} rounds (test : Z -> option (option T)) : forall prec r, (1 <= prec)%Z -> search rounds test prec = Some r ->
  exists q, (prec <= q)%Z /\ test q = Some (Some r).
Proof.
  induction rounds as [|n IH]; intros prec r Hp E; [discriminate|]. cbn in E. destruct (test prec) as [[o|]|] eqn:Et; [| |discriminate].
  - inversion E; subst. exists prec. split; [lia|exact Et].
  - destruct (IH (prec * 2)%Z r ltac:(lia) E) as (q & Hq & Eq). exists q. split; [lia|exact Eq].
Qed.
Lemma search_terminates {T} (test : nat -> Z -> option (option T)) p0 P : (1 <= p0)%Z ->
  (forall n m p r, test n p = Some r -> (n <= m)%nat -> test m p = Some r) ->
  (forall p, (p0 <= p)%Z -> exists n r, test n p = Some r) ->
  (forall n p r, (P <= p)%Z -> test n p = Some r -> r <> None) ->
  exists N r, forall m n, (N <= m)%nat -> (N <= n)%nat -> search m (test n) p0 = Some r.
Proof.
  intros H0 Hmono Hret Hdec. remember (Z.to_nat (P - p0)) as k eqn:Ek. assert (G : (P - p0 <= Z.of_nat k)%Z) by lia. clear Ek. revert p0 H0 Hret G.
  induction k as [|k IH]; intros p0 H0 Hret G.
  - destruct (Hret p0 ltac:(lia)) as (n0 & r & E). destruct r as [r|]; [|exfalso; exact (Hdec n0 p0 None ltac:(lia) E eq_refl)].
    exists (S n0), r. intros m n Hm Hn. destruct m as [|m]; [lia|]. cbn. rewrite (Hmono n0 n p0 (Some r) E ltac:(lia)). reflexivity.
  - destruct (Hret p0 ltac:(lia)) as (n0 & r & E). destruct r as [r|].
    + exists (S n0), r. intros m n Hm Hn. destruct m as [|m]; [lia|]. cbn. rewrite (Hmono n0 n p0 (Some r) E ltac:(lia)). reflexivity.
    + destruct (IH (p0 * 2)%Z ltac:(lia) ltac:(intros; apply Hret; lia) ltac:(lia)) as (N & r & F). exists (S (Nat.max n0 N)), r. intros m n Hm Hn. destruct m as [|m]; [lia|]. cbn. rewrite (Hmono n0 n p0 None E ltac:(lia)). apply F; lia.
Qed.
Lemma search_mono {T} (test : nat -> Z -> option (option T)) : (forall n m p r, test n p = Some r -> (n <= m)%nat -> test m p = Some r) ->
  forall m n p r, search m (test n) p = Some r -> forall m' n', (m <= m')%nat -> (n <= n')%nat -> search m' (test n') p = Some r.
Proof.
  intros Hmono. induction m as [|m IH]; intros n p r E m' n' Hm Hn; [discriminate|]. destruct m' as [|m']; [lia|]. cbn in E |- *. destruct (test n p) as [o|] eqn:Et; [|discriminate].
  rewrite (Hmono n n' p o Et Hn). destruct o as [o|]; [exact E|]. apply (IH n (p * 2)%Z r E); lia.
Qed.

Section Loops.
  Variable A : ring.
  Variable S : semantics A.
  Hypothesis HL : lawful A S.
  Variable mag_up : arf -> arf.
  Hypothesis Hm : mag_up_ok mag_up.
  Variable garb : gen -> Z -> arb.
  Variable carb : car A -> Z -> arb.
  Variable rho : Z -> R.
  Variable k : R.
  Hypothesis Hk : 1 <= k <= 8.
  Local Notation elem := (elem A).
  Implicit Types x y z : elem.
  Local Notation arb_sum := (arb_sum (A := A) mag_up garb carb).
  Local Notation arb_loop := (arb_loop (A := A) mag_up garb carb).
  Local Notation elem_arb := (elem_arb (A := A) mag_up garb carb).
  Local Notation value := (value S rho).

  Lemma arb_of_Z_encloses n : encloses (arb_of_Z n) (IZR n).
  Proof. split; [apply arb_of_arf_wf|apply arb_of_Z_contains_iff; reflexivity]. Qed.
  Lemma arb_of_Z_near n : near (arb_of_Z n) (IZR n) 0.
  Proof. apply exact_near; [apply arb_of_arf_wf|reflexivity|]. symmetry. apply arf_of_Z_spec. Qed.
  Lemma exact_within n : within k (arb_of_Z n) (IZR n).
  Proof. apply (within_weaken 1); [apply within_encloses, arb_of_Z_encloses|lra]. Qed.
  Lemma round_within prec e v r d : prec_ok prec -> 0 <= arf2R r -> Rabs (v - arf2R e) <= d -> d <= k * arf2R r -> within k (mk_ball mag_up prec e (Some r)) v.
  Proof.
    intros Hp Hr Hv Hd. pose proof (round_err_nonneg prec e) as N1. pose proof (round_err_spec prec e Hp) as RE.
    assert (S0 : arf2R (arf_add_exact r (round_err prec e)) = arf2R r + arf2R (round_err prec e)) by apply arf_add_exact_spec.
    pose proof (Hm (arf_add_exact r (round_err prec e)) ltac:(lra)) as M.
    split; [unfold arb_wf, mk_ball; cbn; apply mag_up_wf; [exact Hm|lra]|]. cbn [mk_ball rad mid option_map].
    replace (v - arf2R (round_mid prec e)) with ((v - arf2R e) + (arf2R e - arf2R (round_mid prec e))) by ring. eapply Rle_trans; [apply Rabs_triang|].
    assert (k * (arf2R r + arf2R (round_err prec e)) <= k * arf2R (mag_up (arf_add_exact r (round_err prec e)))) by (apply Rmult_le_compat_l; lra). nra.
  Qed.
  Lemma add_within prec b1 b2 u w : prec_ok prec -> within k b1 u -> within k b2 w -> within k (arb_add mag_up prec b1 b2) (u + w).
  Proof.
    intros Hp [Wx Cx] [Wy Cy]. unfold arb_add. destruct (rad b1) as [rx|] eqn:Ex; [|split; exact I]. destruct (rad b2) as [ry|] eqn:Ey; [|split; exact I].
    pose proof (arb_wf_rad b1 rx Wx Ex). pose proof (arb_wf_rad b2 ry Wy Ey). cbn [rad2].
    apply (round_within prec _ _ _ (k * arf2R rx + k * arf2R ry)); rewrite ?arf_add_exact_spec; [exact Hp|lra| |lra].
    replace (u + w - (arf2R (mid b1) + arf2R (mid b2))) with ((u - arf2R (mid b1)) + (w - arf2R (mid b2))) by ring. eapply Rle_trans; [apply Rabs_triang|]. lra.
  Qed.
  Lemma mul_within prec b1 b2 u w : prec_ok prec -> within k b1 u -> encloses b2 w -> within k (arb_mul mag_up prec b1 b2) (u * w).
  Proof.
    intros Hp [Wx Cx] [Wy Cy]. unfold contains in Cy. unfold arb_mul. destruct (rad b1) as [rx|] eqn:Ex; [|split; exact I]. destruct (rad b2) as [ry|] eqn:Ey; [|split; exact I].
    pose proof (arb_wf_rad b1 rx Wx Ex) as Px. pose proof (arb_wf_rad b2 ry Wy Ey) as Py. pose proof (Rabs_pos (arf2R (mid b1))) as Ax. pose proof (Rabs_pos (arf2R (mid b2))) as Ay. cbn [rad2].
    assert (P1 : 0 <= Rabs (arf2R (mid b1)) * arf2R ry) by (apply Rmult_le_pos; assumption). assert (P2 : 0 <= Rabs (arf2R (mid b2)) * arf2R rx) by (apply Rmult_le_pos; assumption). assert (P3 : 0 <= arf2R rx * arf2R ry) by (apply Rmult_le_pos; assumption).
    apply (round_within prec _ _ _ (Rabs (arf2R (mid b1)) * arf2R ry + (Rabs (arf2R (mid b2)) * (k * arf2R rx) + k * arf2R rx * arf2R ry))); rewrite ?arf_add_exact_spec, ?arf_mul_exact_spec, ?arf_abs_spec; [exact Hp|lra| |nra].
    replace (u * w - arf2R (mid b1) * arf2R (mid b2)) with (arf2R (mid b1) * (w - arf2R (mid b2)) + (arf2R (mid b2) * (u - arf2R (mid b1)) + (u - arf2R (mid b1)) * (w - arf2R (mid b2)))) by ring.
    eapply Rle_trans; [apply Rabs_triang|]. rewrite Rabs_mult. apply Rplus_le_compat; [apply Rmult_le_compat_l; [exact Ax|exact Cy]|].
    eapply Rle_trans; [apply Rabs_triang|]. rewrite !Rabs_mult. apply Rplus_le_compat; [apply Rmult_le_compat_l; [exact Ay|exact Cx]|]. apply Rmult_le_compat; try apply Rabs_pos; assumption.
  Qed.
  Lemma arb_sum_within prec : (0 < prec)%Z -> forall gs cs ret u, within k ret u ->
    (forall g, In g gs -> within k (garb g prec) (gen_val rho g)) -> Forall (fun c => encloses (carb c prec) (val S c)) cs ->
    within k (arb_sum prec gs cs ret) (u + combination S rho gs cs).
  Proof.
    intros Hp. induction gs as [|g gs IH]; intros cs ret u Hr Hg Hc; [cbn; rewrite Rplus_0_r; exact Hr|]. destruct cs as [|c cs]; [cbn; rewrite Rplus_0_r; exact Hr|].
    inversion Hc as [|? ? Hc1 Hc2]; subst. cbn [Loops.arb_sum combination]. rewrite <- Rplus_assoc. apply IH; [|intros h Hh; apply Hg; right; exact Hh|exact Hc2].
    apply add_within; [exact Hp|exact Hr|]. rewrite Rmult_comm. apply mul_within; [exact Hp|apply Hg; left; reflexivity|exact Hc1].
  Qed.
  Definition approximated x : Prop := generators_within k garb rho (basis (emodule x)) /\ coefficients_enclosed S carb (mring (emodule x)).
  Lemma sum_within x prec : elem_wf S x -> approximated x -> (2 <= prec)%Z -> within k (arb_sum prec (basis (emodule x)) (coeffs x) (arb_of_Z 0)) (value x).
  Proof.
    intros (_ & _ & M) [HG HC] Hp. unfold SpecModule.value. rewrite <- (Rplus_0_l (combination _ _ _ _)). apply arb_sum_within; [lia|apply exact_within| |].
    - intros g Hg. apply HG; assumption.
    - rewrite Forall_forall in M |- *. intros c Hc. apply HC; [apply M, Hc|lia].
  Qed.
  Lemma arb_loop_sound x acc : elem_wf S x -> approximated x -> forall rounds prec b, (2 <= prec)%Z -> arb_loop rounds x acc prec = Some b -> within k b (value x) /\ is_accurate acc b = true.
  Proof.
    intros W E. induction rounds as [|n IH]; intros prec b Hp H; [discriminate|]. cbn [Loops.arb_loop] in H. cbv zeta in H. destruct (is_accurate acc _) eqn:Ea.
    - inversion H; subst. split; [apply sum_within; assumption|exact Ea].
    - apply (IH (prec * 2)%Z); [lia|exact H].
  Qed.
  Lemma start_prec x acc : (2 <= acc)%Z -> (2 <= acc + Z.log2_up (Z.of_nat (rank (emodule x))))%Z.
  Proof. intros H. pose proof (Z.log2_up_nonneg (Z.of_nat (rank (emodule x)))). lia. Qed.
  Lemma zero_value_of x : nonzero x = false -> value x = 0.
  Proof.
    unfold nonzero, SpecModule.value. generalize (basis (emodule x)). induction (coeffs x) as [|c cs IH]; intros gs H; [destruct gs; reflexivity|].
    destruct gs as [|g gs]; [reflexivity|]. cbn in H |- *. apply orb_false_iff in H. destruct H as [H1 H2]. rewrite (IH gs H2). apply negb_false_iff in H1. apply (L_eqb A S HL) in H1. subst c.
    rewrite (proj2 (L_zero A S HL (mring (emodule x)))). lra.
  Qed.
  Lemma exact_accurate acc n : is_accurate acc (arb_of_Z n) = true.
  Proof. reflexivity. Qed.
  Lemma elem_arb_sound x acc rounds b : elem_wf S x -> approximated x -> (2 <= acc)%Z -> elem_arb rounds x acc = Some b -> within k b (value x) /\ is_accurate acc b = true.
  Proof.
    intros W E Ha H. unfold Loops.elem_arb in H. destruct (nonzero x) eqn:Ex; cbn [negb] in H.
    - exact (arb_loop_sound x acc W E rounds _ b (start_prec x acc Ha) H).
    - inversion H; subst. rewrite (zero_value_of x Ex). split; [apply exact_within|reflexivity].
  Qed.
  Lemma elem_arb_near x acc rounds b : elem_wf S x -> approximated x -> (5 <= acc)%Z -> elem_arb rounds x acc = Some b -> near b (value x) (2 * k * Rabs (value x) * bpow radix2 (- acc)).
  Proof. intros W E Ha H. destruct (elem_arb_sound x acc rounds b W E ltac:(lia) H) as [H1 H2]. exact (proj1 (accuracy_near k b (value x) acc Hk H1 Ha H2)). Qed.
  (** The ball contains a number that is (for k = 1) the value of the element, or close to it. *)
  Lemma elem_arb_point x acc rounds b : elem_wf S x -> approximated x -> (5 <= acc)%Z -> elem_arb rounds x acc = Some b -> exists u, encloses b u /\ perturbed ((k - 1) * bpow radix2 (1 - acc)) (value x) u.
  Proof.
    intros W E Ha H. destruct (elem_arb_sound x acc rounds b W E ltac:(lia) H) as [H1 H2]. destruct (accuracy_near k b (value x) acc Hk H1 Ha H2) as [_ (r & Er & _ & Hr)].
    destruct (within_point k b (value x) (proj1 Hk) H1) as (u & Hu & P). exists u. split; [exact Hu|]. unfold perturbed. eapply Rle_trans; [apply P, Er|]. unfold Zminus. rewrite bpow_plus. change (bpow radix2 1) with 2.
    assert ((k - 1) * arf2R r <= (k - 1) * (2 * Rabs (value x) * bpow radix2 (- acc))) by (apply Rmult_le_compat_l; lra). lra.
  Qed.
  Lemma arb_loop_mono x acc : forall n m prec b, arb_loop n x acc prec = Some b -> (n <= m)%nat -> arb_loop m x acc prec = Some b.
  Proof.
    induction n as [|n IH]; intros m prec b H L; [discriminate|]. destruct m as [|m]; [lia|]. cbn [Loops.arb_loop] in H |- *. cbv zeta in H |- *. destruct (is_accurate acc _); [exact H|]. apply (IH m _ b H). lia.
  Qed.
  Lemma elem_arb_mono x acc n m b : elem_arb n x acc = Some b -> (n <= m)%nat -> elem_arb m x acc = Some b.
  Proof. unfold Loops.elem_arb. destruct (negb (nonzero x)); [auto|]. apply arb_loop_mono. Qed.

  (** * Termination *)
  Hypothesis Ht : mag_up_tight mag_up.
  Definition converging x : Prop :=
    (forall g, In g (basis (emodule x)) -> shrinks (garb g)) /\ (forall c, mem S (mring (emodule x)) c -> shrinks (carb c)).
  Lemma arb_sum_conv : forall gs cs (ret : Z -> arb) u, conv ret u -> (forall g, In g gs -> conv (garb g) (gen_val rho g)) -> Forall (fun c => conv (carb c) (val S c)) cs ->
    conv (fun p => arb_sum p gs cs (ret p)) (u + combination S rho gs cs).
  Proof.
    induction gs as [|g gs IH]; intros cs ret u Hr Hg Hc; [cbn; rewrite Rplus_0_r; exact Hr|]. destruct cs as [|c cs]; [cbn; rewrite Rplus_0_r; exact Hr|].
    inversion Hc as [|? ? Hc1 Hc2]; subst. cbn [Loops.arb_sum combination]. rewrite <- Rplus_assoc.
    apply (IH cs (fun p => arb_add mag_up (Some p) (ret p) (arb_mul mag_up (Some p) (garb g p) (carb c p)))); [|intros h Hh; apply Hg; right; exact Hh|exact Hc2].
    apply (conv_add mag_up ret (fun p => arb_mul mag_up (Some p) (garb g p) (carb c p))); [exact Hm|exact Ht|exact Hr|]. rewrite Rmult_comm. apply (conv_mul mag_up (garb g) (carb c)); [exact Hm|exact Ht|apply Hg; left; reflexivity|exact Hc1].
  Qed.
  Lemma sum_conv x : elem_wf S x -> approximated x -> converging x -> conv (fun p => arb_sum p (basis (emodule x)) (coeffs x) (arb_of_Z 0)) (value x).
  Proof.
    intros (_ & _ & M) [HG HC] [SG SC]. unfold SpecModule.value. rewrite <- (Rplus_0_l (combination _ _ _ _)). apply (arb_sum_conv _ _ (fun _ => arb_of_Z 0)).
    - apply conv_exact, arb_of_Z_near.
    - intros g Hg. apply (conv_intro k); [lra|apply SG, Hg|]. intros p Hp. apply HG; assumption.
    - rewrite Forall_forall in M |- *. intros c Hc. apply (conv_intro 1); [lra|apply SC, M, Hc|]. intros p Hp. apply within_encloses, HC; [apply M, Hc|lia].
  Qed.
  Lemma arb_loop_terminates x acc : elem_wf S x -> approximated x -> converging x -> value x <> 0 -> (2 <= acc)%Z -> forall prec, (2 <= prec)%Z -> exists n b, arb_loop n x acc prec = Some b.
  Proof.
    intros W E C V Ha. destruct (sum_conv x W E C) as (K & p0 & HK & Hp0 & HN).
    destruct (eventually_small (K * bpow radix2 (acc + 2)) (Rabs (value x)) (Rabs_pos_lt _ V)) as [P HP].
    assert (G : forall p, (Z.max p0 P <= p)%Z -> is_accurate acc (arb_sum p (basis (emodule x)) (coeffs x) (arb_of_Z 0)) = true).
    { intros p Hp. apply (near_accuracy _ (value x) (K * bpow radix2 (- p))); [apply HN; lia|exact V|lia|]. pose proof (HP p ltac:(lia)). lra. }
    intros prec Hprec. remember (Z.to_nat (Z.max p0 P - prec)) as j eqn:Ek. assert (D : (Z.max p0 P - prec <= Z.of_nat j)%Z) by lia. clear Ek. revert prec Hprec D.
    induction j as [|j IH]; intros prec Hprec D.
    - exists 1%nat. eexists. cbn [Loops.arb_loop]. cbv zeta. rewrite (G prec ltac:(lia)). reflexivity.
    - destruct (IH (prec * 2)%Z ltac:(lia) ltac:(lia)) as (n & b & H). exists (Datatypes.S n). cbn [Loops.arb_loop]. cbv zeta. destruct (is_accurate acc _); [eexists; reflexivity|]. exists b. exact H.
  Qed.
  Lemma elem_arb_returns x acc : elem_wf S x -> approximated x -> converging x -> (nonzero x = true -> value x <> 0) -> (2 <= acc)%Z -> exists n b, elem_arb n x acc = Some b.
  Proof.
    intros W E C V Ha. unfold Loops.elem_arb. destruct (nonzero x) eqn:Ex; cbn [negb]; [|exists 0%nat; eexists; reflexivity].
    apply arb_loop_terminates; try assumption; [apply V; reflexivity|apply start_prec, Ha].
  Qed.
End Loops.
