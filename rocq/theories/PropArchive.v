(** Property C98: loading archives that this library may not have written. *)
From Coq Require Import ZArith QArith Qcanon Bool List Reals Permutation Lia Lra.
From Verif Require Import Arf Arb Real Gen SpecGen GenProofs Seed Factory SpecFactory FactoryProofs Ring SpecRing RingProofs Module Element SpecModule ModuleProofs Serial SpecSerial SerialProofs SpecArchive ArchiveProofs PropSerial.
Import ListNotations.
Open Scope Z_scope.

(** Whatever the archive, loading it throws, or there is one element for each element in the
    archive, with the coefficients from the archive and one coefficient for each generator. *)
Theorem C98_coefficients : forall A (s : state) (archive : list (saved A)) s' ys, load s archive = Some (s', ys) ->
  Forall2 (fun (x : saved A) (y : elem A) => coeffs y = saved_coeffs x /\ length (coeffs y) = length (basis (emodule y))) archive ys.
Proof.
  intros A s archive s' ys H. unfold load in H. destruct (load_elems s [] archive) as [[[s1 L1] ys1]|] eqn:E; [|discriminate]. cbn [option_map] in H. injection H as <- <-.
  exact (load_elems_lengths A archive s [] s1 L1 ys1 E).
Qed.
(** Unless the archive contains a product with an exponent 0 or of less than two factors, whatever
    is loaded could have been created by the library itself. *)
Theorem C98_elements_partial : forall A S, lawful A S -> forall (s : state) (archive : list (saved A)) s' ys, reachable s -> load s archive = Some (s', ys) ->
  Forall (coefficients_in S) ys -> Forall proper_elem ys -> Forall (valid_elem S s') ys.
Proof.
  intros A S L s archive s' ys R H Co Pr. unfold load in H. destruct (load_elems s [] archive) as [[[s1 L1] ys1]|] eqn:E; [|discriminate]. cbn [option_map] in H. injection H as <- <-.
  refine (proj2 (load_elems_ok A S archive s [] s1 L1 ys1 (reachable_inv s R) _ E Pr Co)). intros k p F. discriminate F.
Qed.
Theorem C98_real_numbers_partial : forall A (s : state) (archive : ref) s' g, reachable s -> load_real (A := A) s archive = Some (s', g) -> proper g -> valid s' g.
Proof.
  intros A s archive s' g R H Pr. unfold load_real in H. destruct (load_ref s [] archive) as [[[s1 L1] g1]|] eqn:E; [|discriminate]. cbn [option_map] in H. injection H as <- <-.
  refine (proj2 (load_ref_ok A s [] archive s1 L1 g1 (reachable_inv s R) _ E Pr)). intros k p F. discriminate F.
Qed.
(** The numbers that existed still do, unchanged, and there is still one object for each number. *)
Theorem C98_process_partial : forall A S, lawful A S -> forall (s : state) (archive : list (saved A)) s' ys, reachable s -> load s archive = Some (s', ys) ->
  Forall (coefficients_in S) ys -> Forall proper_elem ys ->
  (forall i o, lookup (objs s) i = Some o -> lookup (objs s') i = Some o) /\ interned s'.
Proof.
  intros A S L s archive s' ys R H Co Pr. unfold load in H. destruct (load_elems s [] archive) as [[[s1 L1] ys1]|] eqn:E; [|discriminate]. cbn [option_map] in H. injection H as <- <-.
  pose proof (reachable_inv s R) as Is.
  destruct (load_elems_ok A S archive s [] s1 L1 ys1 Is) as ((I1 & [X1 _] & _) & _); [intros k p F; discriminate F|exact E|exact Pr|exact Co|]. split.
  - intros i o Hi. apply (lookup_in _ _ _ (proj1 I1)). apply X1. apply (lookup_in _ _ _ (proj1 Is)). exact Hi.
  - intros x o y p Hx Hy Eg. apply (lookup_in _ _ _ (proj1 I1)) in Hx, Hy. exact (gen_of_inj s1 x o y p I1 Hx Hy Eg).
Qed.
(** In integer rings every coefficient is in the ring, so nothing has to be assumed about them. *)
Theorem C98_integers_partial : forall (s : state) (archive : list (saved int_ring)) s' ys, reachable s -> load s archive = Some (s', ys) ->
  Forall proper_elem ys -> Forall (valid_elem int_sem s') ys.
Proof.
  intros s archive s' ys R H Pr. apply (C98_elements_partial int_ring int_sem int_lawful s archive s' ys R H); [|exact Pr].
  apply Forall_forall. intros y _. apply Forall_forall. intros c _. exact Logic.I.
Qed.

(** An archive that no save writes: its references are in another order, its numbers are not shared,
    a factor is repeated. It is loaded, and the repeated factor is ignored. *)
Definition odd_archive : list (saved int_ring) :=
  [mkSaved (A := int_ring) (MFresh (A := int_ring) 77 [Fresh 8 (DProduct [(AFresh 5 (ARandom 1338), 1%nat); (AFresh 6 (ARandom 1338), 9%nat); (AFresh 4 (ARandom 1337), 1%nat)]); Fresh 9 (DAtom (ARandom 1337))] tt) [3; 7];
   mkSaved (A := int_ring) (MAgain (A := int_ring) 77) [0; 1]].
Example C98_example : reachable process /\
  load process odd_archive = Some (process, [mkElem (A := int_ring) (mkModule (A := int_ring) [GAtom a; GProd [(a, 1%nat); (b, 1%nat)]] tt) [3; 7];
                                             mkElem (A := int_ring) (mkModule (A := int_ring) [GAtom a; GProd [(a, 1%nat); (b, 1%nat)]] tt) [0; 1]]) /\
  (forall y, snd (match load process odd_archive with Some r => r | None => (process, []) end) = y -> Forall proper_elem y).
Proof.
  split; [exists ops0; reflexivity|]. split; [vm_compute; reflexivity|]. intros y.
  assert (E : snd (match load process odd_archive with Some r => r | None => (process, []) end) =
    [mkElem (A := int_ring) (mkModule (A := int_ring) [GAtom a; GProd [(a, 1%nat); (b, 1%nat)]] tt) [3; 7];
     mkElem (A := int_ring) (mkModule (A := int_ring) [GAtom a; GProd [(a, 1%nat); (b, 1%nat)]] tt) [0; 1]]) by (vm_compute; reflexivity).
  rewrite E. intros <-.
  assert (P : proper (GProd [(a, 1%nat); (b, 1%nat)])) by (split; [repeat constructor|cbn; lia]).
  constructor; [|constructor; [|constructor]]; (constructor; [exact Logic.I|constructor; [exact P|constructor]]).
Qed.
(** A module is not loaded when its coefficients are missing, when a generator is repeated, or when a reference points nowhere. *)
Example C98_rejected :
  load process [mkSaved (A := int_ring) (MFresh (A := int_ring) 1 [Fresh 2 (DAtom (ARandom 1337))] tt) []] = None /\
  load process [mkSaved (A := int_ring) (MFresh (A := int_ring) 1 [Fresh 2 (DAtom (ARandom 1337)); Fresh 3 (DAtom (ARandom 1337))] tt) [1; 2]] = None /\
  load process [mkSaved (A := int_ring) (MFresh (A := int_ring) 1 [Fresh 2 (DRational 0); Fresh 3 (DRational 1)] tt) [1; 2]] = None /\
  load process [mkSaved (A := int_ring) (MFresh (A := int_ring) 1 [Again 2] tt) [1]] = None.
Proof. repeat split; vm_compute; reflexivity. Qed.

(** A product with a single factor is accepted. The result is another object than that factor, does
    not compare equal to it, but has the same value; a module can have both as its generators. *)
Definition single_factor : list (saved int_ring) :=
  [mkSaved (A := int_ring) (MFresh (A := int_ring) 1 [Fresh 2 (DAtom (ARandom 1337)); Fresh 3 (DProduct [(AAgain 2, 1%nat)])] tt) [1; -1]].
Theorem C98_single_factor_refuted : reachable process /\ exists s' y, load process single_factor = Some (s', [y]) /\
  length (basis (emodule y)) = 2%nat /\ gen_eqb (nth 0 (basis (emodule y)) (GRat 0)) (nth 1 (basis (emodule y)) (GRat 0)) = false /\
  (forall rho, gen_val rho (nth 0 (basis (emodule y)) (GRat 0)) = gen_val rho (nth 1 (basis (emodule y)) (GRat 0))) /\
  nonzero y = true /\ (forall rho, value int_sem rho y = 0%R).
Proof.
  split; [exists ops0; reflexivity|]. eexists. eexists. split; [vm_compute; reflexivity|]. split; [reflexivity|]. split; [reflexivity|].
  split; [intros rho; cbn; ring|]. split; [reflexivity|]. intros rho. unfold value. cbn. ring.
Qed.
(** So is an empty product: it is a second number 1. *)
Theorem C98_empty_product_refuted : reachable process /\ exists s' g, load_real (A := int_ring) process (Fresh 1 (DProduct [])) = Some (s', g) /\
  alive s' g /\ gen_eqb g (GRat 1) = false /\ forall rho, gen_val rho g = gen_val rho (GRat 1).
Proof.
  split; [exists ops0; reflexivity|]. eexists. eexists. split; [vm_compute; reflexivity|]. split; [exists 2147483662, (OProd [] 1); split; reflexivity|].
  split; [reflexivity|]. intros rho. cbn. lra.
Qed.
