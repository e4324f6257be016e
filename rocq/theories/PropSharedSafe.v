(** C81: what can go wrong at most, for all schedules and any number of precisions. *)
From Coq Require Import ZArith QArith Bool List Lia Reals Lra.
From Flocq Require Import Core.
From Verif Require Import Arf Arb SpecArf ArfProofs Real SpecReal RealProofs RealProofs2 RealProofs3 RealProofs4 Rand48Proofs Cache CacheProofs Shared SharedProofs SpecShared SharedMany SpecSharedMany SpecSharedSafe SharedManyProofs SharedSafeProofs PropSharedMany.
Import ListNotations.
Open Scope Z_scope.

Lemma zero_R : arf2R (arf_of_Z 0) = 0%R.
Proof. unfold arf2R, arf_of_Z. cbn [am ae]. apply Rmult_0_l. Qed.
Lemma usual_false p : usual p = false -> p <> 54 /\ p <> 64.
Proof. unfold usual. intros U. apply orb_false_iff in U. destruct U as [U1 U2]. apply Z.eqb_neq in U1, U2. auto. Qed.
Lemma own_deg rng digits x p a : digits_of rng digits -> 0 <= p -> needs x p = [] -> deg digits x p a -> (exists fuel, num_arf rng fuel x p = Some a) \/ (p <> 54 /\ p <> 64 /\ arf2R a = 0%R).
Proof.
  intros D P E H. inversion H as [x' p' U|x' p' got G]; subst.
  - right. destruct (usual_false p U). split; [assumption|]. split; [assumption|apply zero_R].
  - left. rewrite E in G. inversion G; subst. destruct (exact_num digits rng x p D) as [fuel Ef]. exists fuel. rewrite Ef, clamped_id by exact P. rewrite exact_step, E. reflexivity.
Qed.
Lemma kept prec initial z : arf2R z = 0%R -> arf_bits initial <= prec -> arf2R (arf_round NEAR (prec + 1) (arf_add (prec + 1) NEAR initial z)) = arf2R initial.
Proof.
  intros Z0 L. pose proof (arf_bits_nonneg initial) as B. rewrite arf_round_spec, arf_add_spec, Z0, Rplus_0_r by lia.
  assert (F : fits (prec + 1) (arf2R initial)). { apply fits_mono with (Z.max 1 (arf_bits initial)); [lia|apply arf_fits]. }
  assert (Pr : Prec_gt_0 (prec + 1)) by (unfold Prec_gt_0; lia).
  rewrite (round_generic radix2 (FLX_exp (prec + 1)) (rndZ NEAR) (arf2R initial) F). apply round_generic; [exact _|exact F].
Qed.
Lemma atom_deg rng digits a p v : digits_of rng digits -> 0 <= p -> deg digits (RAtom a) p v -> possible_atom rng a p v.
Proof.
  intros D P H. destruct a as [s|i e s].
  - destruct (own_deg rng digits (RAtom (ARandom s)) p v D P eq_refl H) as [E|E]; [left; exact E|right; left; exact E].
  - destruct (Z.ltb_spec 0 (p + 1 - arf_bits i)) as [L|L].
    + inversion H as [x' p' U|x' p' got G]; subst.
      * right. left. destruct (usual_false p U). split; [assumption|]. split; [assumption|apply zero_R].
      * cbn [needs] in G. destruct (Z.ltb_spec 0 (p + 1 - arf_bits i)) as [_|]; [|lia]. inversion G as [|r b l got' Hb Hn]; subst. inversion Hn; subst. cbn [fst snd] in Hb. rewrite clamped_id in Hb by lia.
        destruct (own_deg rng digits (RAtom (ARandom s)) (p + 1 - arf_bits i - 1) b D ltac:(lia) eq_refl Hb) as [[fuel E]|(_ & _ & E)].
        -- left. destruct (exact_num digits rng (RAtom (AConstr i e s)) p D) as [f2 E2]. exists f2. rewrite E2, clamped_id, exact_step by exact P. cbn [needs]. destruct (Z.ltb_spec 0 (p + 1 - arf_bits i)) as [_|]; [|lia].
           cbn [answers map]. rewrite clamped_id by lia. rewrite exact_random. destruct (exact_num digits rng (RAtom (ARandom s)) (p + 1 - arf_bits i - 1) D) as [f3 E3]. rewrite clamped_id, exact_random in E3 by lia.
           rewrite (num_arf_det rng _ _ _ _ _ _ E E3). reflexivity.
        -- right. right. split; [lia|]. cbn [combined]. apply kept; [|lia]. rewrite arf_shl_spec, E. apply Rmult_0_l.
    + destruct (own_deg rng digits (RAtom (AConstr i e s)) p v D P) as [E|E]; [|exact H|left; exact E|right; left; exact E]. cbn [needs]. destruct (Z.ltb_spec 0 (p + 1 - arf_bits i)); [lia|reflexivity].
Qed.
Lemma num_deg rng digits x p v : digits_of rng digits -> 0 <= p -> deg digits x p v -> possible rng x p v.
Proof.
  intros D P H. destruct x as [q|a|ms]; cbn [possible].
  - exact (own_deg rng digits (RRat q) p v D P eq_refl H).
  - exact (atom_deg rng digits a p v D P H).
  - inversion H as [x' p' U|x' p' got G]; subst.
    + left. destruct (usual_false p U). split; [assumption|]. split; [assumption|apply zero_R].
    + right. exists got. split; [|reflexivity]. cbn [needs] in G. clear H.
      set (wp := working_prec (Z.of_nat (length (factors ms))) p) in *. assert (W : 0 <= wp) by (apply working_prec_nonneg, P). clearbody wp.
      remember (factors ms) as l eqn:El. clear El. revert got G. induction l as [|a l IH]; intros got G; inversion G as [|r b l' got' Hb Hn]; subst; [constructor|].
      constructor; [|apply IH, Hn]. cbn [fst snd] in Hb. rewrite clamped_id in Hb by exact W. exact (atom_deg rng digits a wp b D W Hb).
Qed.

(** No std::optional is dereferenced when it is empty. *)
Theorem C81_no_crash : forall digits os t, threads (unfold_schedule digits os world_init) t <> Crashed.
Proof.
  intros digits os t E. pose proof (s_threads digits _ (schedule_safe digits os world_init (safe_init digits)) t) as H. rewrite E in H. exact H.
Qed.
Theorem C81_possible : forall rng digits, digits_of rng digits -> forall os t x p a,
  In (t, x, p, a) (results (unfold_schedule digits os world_init)) -> possible rng x p a.
Proof.
  intros rng digits D os t x p a I. apply (num_deg rng digits); [exact D|exact (n_results _ (schedule_nonneg digits os _ nonneg_init) t x p a I)|].
  exact (s_results digits _ (schedule_safe digits os world_init (safe_init digits)) t x p a I).
Qed.
(** At the two usual precisions, random numbers and rationals always get the right value. *)
Theorem C81_usual_precisions : forall rng digits, digits_of rng digits -> forall os t x p a, on_its_own x -> p = 54 \/ p = 64 ->
  In (t, x, p, a) (results (unfold_schedule digits os world_init)) -> exists fuel, num_arf rng fuel x p = Some a.
Proof.
  intros rng digits D os t x p a O P I. pose proof (C81_possible rng digits D os t x p a I) as H. destruct x as [q|[s|i e s]|ms]; cbn [on_its_own] in O; try contradiction; cbn [possible] in H; unfold possible_atom in H;
  (destruct H as [H|H]; [exact H|lia]).
Qed.
(** Every call returns after that many steps of its thread, whatever the other threads do. *)
Theorem C81_returns : forall digits before t x p after, threads (unfold_schedule digits before world_init) t = Idle -> (enough x <= ticks_of t after)%nat ->
  exists a, In (t, x, Z.max 0 p, a) (results (unfold_schedule digits (before ++ Asks t x p :: after) world_init)).
Proof.
  intros digits before t x p after Ei Le. rewrite <- clamped_max. apply asks_safe; [exact Ei|]. pose proof (cost_enough x). unfold ticks. unfold ticks_of in Le. lia.
Qed.

(** Two threads approximate the number 1 again and again, at all precisions up to 300: the one that asks for 54 bits in between gets 1. *)
Definition many_precisions : list occurrence :=
  flat_map (fun n => [Asks 0 (RRat 1) (Z.of_nat n); Ticks 0; Ticks 1; Asks 1 (RRat 1) (300 - Z.of_nat n); Ticks 0; Ticks 0; Ticks 1; Ticks 1; Ticks 0; Ticks 1; Ticks 0]) (seq 0 300).
Example C81_safe_example : forall digits, digits_of rand48 digits -> exists a, In (0%nat, RRat 1, 54, a) (results (unfold_schedule digits (many_precisions ++ Asks 0 (RRat 1) 54 :: repeat (Ticks 0) 5) world_init)) /\
  exists fuel, num_arf rand48 fuel (RRat 1) 54 = Some a.
Proof.
  intros digits D. destruct (C81_returns digits many_precisions 0 (RRat 1) 54 (repeat (Ticks 0) 5)) as [a I]; [vm_compute; reflexivity|cbn; lia|].
  exists a. split; [exact I|]. exact (C81_usual_precisions rand48 digits D _ 0 (RRat 1) 54 a Logic.I (or_introl eq_refl) I).
Qed.
