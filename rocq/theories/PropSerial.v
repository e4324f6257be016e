(** Properties C40, C41: serialization. *)
From Coq Require Import ZArith QArith Qcanon Bool List Reals Permutation Lia Lra.
From Verif Require Import Arf Arb Real Gen SpecGen GenProofs Seed Factory SpecFactory FactoryProofs Ring SpecRing RingProofs Module Element SpecModule ModuleProofs Serial SpecSerial SerialProofs.
Import ListNotations.
Open Scope Z_scope.

(** * C40 *)
(** Any list of elements is saved, at any time in the history of a process and wherever its
    objects are in memory; loading that archive later in the same process, while the
    generators still exist, gives back the same elements (with the same interned modules and generators). *)
Theorem C40_elements : forall A S, lawful A S -> forall (st : state) (addr : Z -> Z) (ops : list op) (xs : list (elem A)), reachable st ->
  Forall (fun x => elem_wf S x /\ alive_elem st x /\ alive_elem (run ops st) x) xs ->
  exists archive s', save st addr xs = Some archive /\ load (run ops st) archive = Some (s', xs).
Proof. intros A S L st addr ops xs R. exact (same_process A S L st addr (reachable_inv st R) ops xs). Qed.
(** The same for a single real number. *)
Theorem C40_real_numbers : forall A S, lawful A S -> forall (st : state) (addr : Z -> Z) (ops : list op) (g : gen), reachable st -> alive st g -> alive (run ops st) g ->
  exists archive s', save_real (A := A) st addr g = Some archive /\ load_real (A := A) (run ops st) archive = Some (s', g).
Proof. intros A S L st addr ops g R. exact (same_process_real A S L st addr (reachable_inv st R) ops g). Qed.
(** Loading does not change any number that exists in the process. *)
Theorem C40_nothing_changes : forall A S, lawful A S -> forall (st s : state) (addr : Z -> Z) (xs : list (elem A)) archive s' ys, reachable st -> reachable s ->
  Forall (fun x => elem_wf S x /\ alive_elem st x) xs -> save st addr xs = Some archive -> load s archive = Some (s', ys) ->
  forall i o, lookup (objs s) i = Some o -> lookup (objs s') i = Some o.
Proof.
  intros A S L st s addr xs archive s' ys R R' H E1 E2 i o Hi. pose proof (reachable_inv _ R') as Is.
  destruct (save_load A S L st addr (reachable_inv st R) s xs Is H) as (ss & s2 & ys2 & A1 & A2 & A3 & [A4 _] & _).
  rewrite E1 in A1. injection A1 as <-. rewrite E2 in A2. injection A2 as <- <-.
  apply (lookup_in _ _ _ (proj1 A3)). apply A4. apply (lookup_in _ _ _ (proj1 Is)). exact Hi.
Qed.

(** Two random numbers a, b, and a*b; 3a + 5b + 7ab and 2a over the same module. *)
Definition a : Z := first_id. Definition b : Z := first_id + 1.
Definition ops0 : list op := [GetAtom (ARandom 1337); GetAtom (ARandom 1338); Mul a b].
Definition process : state := run ops0 init.
Definition Mab : module int_ring := mkModule (A := int_ring) [GAtom a; GAtom b; GProd [(a, 1%nat); (b, 1%nat)]] tt.
Definition x0 : elem int_ring := mkElem (A := int_ring) Mab [3; 5; 7].
Definition x1 : elem int_ring := mkElem (A := int_ring) Mab [2; 0; 0].
Lemma alive_compute st (g : gen) x o : lookup (objs st) x = Some o -> gen_of x o = g -> alive st g.
Proof. intros H1 H2. exists x, o. auto. Qed.
Lemma Mab_wf : module_wf Mab.
Proof.
  split; [repeat constructor; cbn; auto with arith; discriminate|]. assert (check (basis Mab) = true) as C by reflexivity.
  apply check_spec in C. assert (gsort (basis Mab) = basis Mab) as <- by reflexivity. apply gsort_ascending; [repeat constructor; cbn; auto with arith; discriminate|exact C].
Qed.
Lemma Mab_alive ops : run ops process = process -> Forall (alive (run ops process)) (basis Mab).
Proof.
  intros ->. constructor; [apply (alive_compute _ _ a (OAtom (ARandom 1337))); reflexivity|].
  constructor; [apply (alive_compute _ _ b (OAtom (ARandom 1338))); reflexivity|].
  constructor; [|constructor]. destruct (lookup (objs process) (first_id + 2)) as [o|] eqn:E; [|discriminate E].
  apply (alive_compute _ _ (first_id + 2) o E). vm_compute in E. injection E as <-. reflexivity.
Qed.
Example C40_example : reachable process /\ Forall (fun x => elem_wf int_sem x /\ alive_elem process x /\ alive_elem (run [] process) x) [x0; x1; x0] /\
  save process (fun i => - i) [x0; x1; x0] = Some
   [mkSaved (A := int_ring) (MFresh (A := int_ring) 1 [Fresh 2 (DAtom (ARandom 1337)); Fresh 3 (DAtom (ARandom 1338)); Fresh 4 (DProduct [(AAgain 3, 1%nat); (AAgain 2, 1%nat)])] tt) [3; 5; 7];
    mkSaved (A := int_ring) (MAgain (A := int_ring) 1) [2; 0; 0];
    mkSaved (A := int_ring) (MAgain (A := int_ring) 1) [3; 5; 7]].
Proof.
  split; [exists ops0; reflexivity|]. split; [|vm_compute; reflexivity].
  assert (H : forall x, emodule x = Mab -> length (coeffs x) = 3%nat -> elem_wf int_sem x /\ alive_elem process x /\ alive_elem (run [] process) x).
  { intros x E El. unfold alive_elem. rewrite E. split; [split; [rewrite E; exact Mab_wf|split; [rewrite E; exact El|apply Forall_forall; intros; exact Logic.I]]|]. split; [exact (Mab_alive [] eq_refl)|exact (Mab_alive [] eq_refl)]. }
  repeat (constructor; [apply H; reflexivity|]). constructor.
Qed.

(** * C41 *)
(** What is always true: loading in another process succeeds, with the coefficients that
    were saved and with generators that are the same real numbers (in some order) ... *)
Theorem C41_generators_partial : forall A S, lawful A S -> forall (st s : state) (addr : Z -> Z) (xs : list (elem A)), reachable st -> reachable s ->
  Forall (fun x => elem_wf S x /\ alive_elem st x) xs ->
  exists archive s' ys, save st addr xs = Some archive /\ load s archive = Some (s', ys) /\
    Forall2 (fun x y => coeffs y = coeffs x /\ mring (emodule y) = mring (emodule x) /\ exists hs, Permutation hs (basis (emodule y)) /\
      forall rho rho', consistent st s' rho rho' -> map (gen_val rho) (basis (emodule x)) = map (gen_val rho') hs) xs ys.
Proof.
  intros A S L st s addr xs R R' H. pose proof (reachable_inv _ R') as Is. pose proof (reachable_inv _ R) as Ist.
  destruct (save_load A S L st addr Ist s xs Is H) as (ss & s' & ys & A1 & A2 & A3 & _ & A5). exists ss, s', ys. split; [exact A1|]. split; [exact A2|].
  apply (Forall2_mono (erel A st s')); [|exact A5]. intros x y E. split; [apply E|]. split; [symmetry; apply E|]. eapply erel_generators; eassumption.
Qed.
(** ... and the value is the same if the random numbers were created in the same order in both processes. *)
Theorem C41_same_order_partial : forall A S, lawful A S -> forall (st s : state) (addr : Z -> Z) (xs : list (elem A)), reachable st -> reachable s ->
  Forall (fun x => elem_wf S x /\ alive_elem st x) xs ->
  exists archive s' ys, save st addr xs = Some archive /\ load s archive = Some (s', ys) /\
    Forall2 (fun x y => same_order x st s' -> forall rho rho', consistent st s' rho rho' -> value S rho x = value S rho' y) xs ys.
Proof.
  intros A S L st s addr xs R R' H. pose proof (reachable_inv _ R') as Is. pose proof (reachable_inv _ R) as Ist.
  destruct (save_load A S L st addr Ist s xs Is H) as (ss & s' & ys & A1 & A2 & A3 & _ & A5). exists ss, s', ys. split; [exact A1|]. split; [exact A2|].
  clear A1 A2. induction A5 as [|x y xs ys E F IH]; [constructor|]. inversion H as [|x' xs' [[W _] _] H']; subst. constructor; [|exact (IH H')].
  intros Ho rho rho' Hc. eapply (erel_value A S st); eassumption.
Qed.
(** That is the case for a single element without products of random numbers, all of
    different seeds, in a process that has not used any of these seeds. *)
Theorem C41_fresh_linear_partial : forall A S, lawful A S -> forall (st s : state) (addr : Z -> Z) (x : elem A), reachable st -> reachable s ->
  elem_wf S x -> alive_elem st x -> (forall ms, ~ In (GProd ms) (basis (emodule x))) ->
  (forall i k, In (GAtom i) (basis (emodule x)) -> lookup (objs st) i = Some (OAtom k) -> forall j l, lookup (objs s) j = Some (OAtom l) -> seed_of l <> seed_of k) ->
  (forall i k j l, In (GAtom i) (basis (emodule x)) -> In (GAtom j) (basis (emodule x)) -> lookup (objs st) i = Some (OAtom k) -> lookup (objs st) j = Some (OAtom l) ->
     seed_of k = seed_of l -> i = j) ->
  exists archive s' y, save st addr [x] = Some archive /\ load s archive = Some (s', [y]) /\
    forall rho rho', consistent st s' rho rho' -> value S rho x = value S rho' y.
Proof.
  intros A S L st s addr x R R' W Al Lin Hu Hd. pose proof (reachable_inv _ R') as Is. pose proof (reachable_inv _ R) as Ist.
  apply (fresh_process A S L st addr Ist s x Is W Al).
  - apply Forall_forall. intros [q|i|ms] Hg; [exact Logic.I|exact Logic.I|exact (Lin ms Hg)].
  - intros i k Hi Hk j l Hl. refine (Hu i k Hi _ j l _); [apply (lookup_in _ _ _ (proj1 Ist)), Hk|apply (lookup_in _ _ _ (proj1 Is)), Hl].
  - intros i k j l Hi Hj Hk Hl. apply (Hd i k j l Hi Hj); apply (lookup_in _ _ _ (proj1 Ist)); assumption.
Qed.

(** In general the value is not preserved: when the other process has created b before a,
    3a + 5b is loaded as 3b + 5a. *)
Definition Ma_b : module int_ring := mkModule (A := int_ring) [GAtom a; GAtom b] tt.
Definition x2 : elem int_ring := mkElem (A := int_ring) Ma_b [3; 5].
Lemma Ma_b_wf : module_wf Ma_b.
Proof.
  split; [repeat constructor; cbn; auto with arith; discriminate|]. assert (check (basis Ma_b) = true) as C by reflexivity.
  apply check_spec in C. assert (gsort (basis Ma_b) = basis Ma_b) as <- by reflexivity. apply gsort_ascending; [repeat constructor; cbn; auto with arith; discriminate|exact C].
Qed.
Definition other : state := run [GetAtom (ARandom 1338); GetAtom (ARandom 1337)] init.
(** values: a = 1, b = 2 *)
Definition here (i : Z) : R := if Z.eqb i a then 1%R else 2%R.
Definition there (i : Z) : R := if Z.eqb i b then 1%R else 2%R.
Lemma here_there : consistent process other here there.
Proof.
  intros i j (k & l & H1 & H2 & H3). apply (lookup_in _ _ _ (proj1 (reachable_inv process (ex_intro _ ops0 eq_refl)))) in H1.
  apply (lookup_in _ _ _ (proj1 (reachable_inv other (ex_intro _ [GetAtom (ARandom 1338); GetAtom (ARandom 1337)] eq_refl)))) in H2.
  assert (O1 : objs process = [(first_id + 2, OProd [(a, 1%nat); (b, 1%nat)] (hash_mons [(a, 1%nat); (b, 1%nat)] 1)); (b, OAtom (ARandom 1338)); (a, OAtom (ARandom 1337))]) by (vm_compute; reflexivity).
  assert (O2 : objs other = [(b, OAtom (ARandom 1337)); (a, OAtom (ARandom 1338))]) by (vm_compute; reflexivity).
  rewrite O1 in H1. rewrite O2 in H2. cbn [In] in H1, H2.
  destruct H1 as [H1|[H1|[H1|[]]]]; [discriminate H1| |]; injection H1 as <- <-; (destruct H2 as [H2|[H2|[]]]; injection H2 as <- <-; [|]); first [discriminate H3|reflexivity].
Qed.
Lemma x2_alive : alive_elem process x2.
Proof.
  pose proof (Mab_alive [] eq_refl) as H. inversion H as [|? ? H1 H2]; subst. inversion H2 as [|? ? H3 H4]; subst. constructor; [exact H1|constructor; [exact H3|constructor]].
Qed.
Lemma x2_wf : elem_wf int_sem x2.
Proof. split; [exact Ma_b_wf|split; [reflexivity|repeat constructor]]. Qed.
(** The hypotheses of C41_fresh_linear_partial hold for 3a + 5b and a process that has not done anything. *)
Example C41_example : elem_wf int_sem x2 /\ alive_elem process x2 /\ reachable init /\
  save process (fun i => i) [x2] = Some [mkSaved (A := int_ring) (MFresh (A := int_ring) 1 [Fresh 2 (DAtom (ARandom 1337)); Fresh 3 (DAtom (ARandom 1338))] tt) [3; 5]] /\
  (forall i k j l, In (GAtom i) (basis (emodule x2)) -> In (GAtom j) (basis (emodule x2)) -> lookup (objs process) i = Some (OAtom k) -> lookup (objs process) j = Some (OAtom l) ->
     seed_of k = seed_of l -> i = j) /\
  same_order x2 process (run [GetAtom (ARandom 1337); GetAtom (ARandom 1338)] init).
Proof.
  split; [exact x2_wf|]. split; [exact x2_alive|]. split; [exists []; reflexivity|]. split; [vm_compute; reflexivity|]. split.
  - intros i k j l Hi Hj Hk Hl. cbn in Hi, Hj. destruct Hi as [[= <-]|[[= <-]|[]]], Hj as [[= <-]|[[= <-]|[]]]; try reflexivity;
    vm_compute in Hk, Hl; injection Hk as <-; injection Hl as <-; discriminate.
  - intros i j i' j' (g & Hg & Gi) (h & Hh & Hj) Ci Cj Lt. cbn in Hg, Hh.
    assert (Occ : forall g i, GAtom a = g \/ GAtom b = g \/ False -> (0 < expo g i)%nat -> i = a \/ i = b).
    { intros g0 i0 [<-|[<-|[]]]; cbn [expo]; intros H0; [left|right]; [destruct (Z.eqb_spec a i0)|destruct (Z.eqb_spec b i0)]; lia. }
    assert (I : i = a /\ j = b) by (destruct (Occ g i Hg Gi) as [->| ->], (Occ h j Hh Hj) as [->| ->]; unfold a, b in *; lia). destruct I as [I1 I2].
    subst i j. destruct Ci as (k & l & A1 & A2 & A3), Cj as (k' & l' & B1 & B2 & B3). vm_compute in A1, B1. injection A1 as <-. injection B1 as <-.
    set (s := run [GetAtom (ARandom 1337); GetAtom (ARandom 1338)] init) in *.
    assert (R : reachable s) by (exists [GetAtom (ARandom 1337); GetAtom (ARandom 1338)]; reflexivity).
    apply (lookup_in _ _ _ (proj1 (reachable_inv _ R))) in A2, B2.
    assert (O : objs s = [(b, OAtom (ARandom 1338)); (a, OAtom (ARandom 1337))]) by (vm_compute; reflexivity). rewrite O in A2, B2. cbn [In] in A2, B2.
    destruct A2 as [A2|[A2|[]]], B2 as [B2|[B2|[]]]; injection A2 as <- <-; injection B2 as <- <-; try discriminate A3; try discriminate B3. exact Lt.
Qed.
Theorem C41_other_order_refuted :
  reachable process /\ reachable other /\ elem_wf int_sem x2 /\ alive_elem process x2 /\ consistent process other here there /\
  exists archive y, save process (fun i => i) [x2] = Some archive /\ load other archive = Some (other, [y]) /\ value int_sem here x2 <> value int_sem there y.
Proof.
  split; [exists ops0; reflexivity|]. split; [exists [GetAtom (ARandom 1338); GetAtom (ARandom 1337)]; reflexivity|].
  split; [exact x2_wf|]. split; [exact x2_alive|]. split; [exact here_there|].
  eexists. eexists. split; [vm_compute; reflexivity|]. split; [vm_compute; reflexivity|].
  unfold value, x2, Ma_b. cbn [emodule basis coeffs combination gen_val val int_sem]. unfold here, there, a, b, first_id. cbn. lra.
Qed.
(** Not even a new process that does nothing but load one archive gets the right values: an
    archive with 5b and then 3a + 5b. *)
Definition Mb : module int_ring := mkModule (A := int_ring) [GAtom b] tt.
Definition x3 : elem int_ring := mkElem (A := int_ring) Mb [5].
Theorem C41_fresh_process_refuted :
  reachable process /\ Forall (fun x => elem_wf int_sem x /\ alive_elem process x) [x3; x2] /\ consistent process other here there /\
  exists archive y z, save process (fun i => i) [x3; x2] = Some archive /\ load init archive = Some (other, [y; z]) /\ value int_sem here x2 <> value int_sem there z.
Proof.
  split; [exists ops0; reflexivity|]. split.
  { constructor; [|constructor; [split; [exact x2_wf|exact x2_alive]|constructor]]. split.
    - split; [|split; [reflexivity|repeat constructor]]. split; [repeat constructor; discriminate|]. split; [intros h []|exact Logic.I].
    - pose proof x2_alive as H. inversion H as [|? ? H1 H2]; subst. exact H2. }
  split; [exact here_there|].
  eexists. eexists. eexists. split; [vm_compute; reflexivity|]. split; [vm_compute; reflexivity|].
  unfold value, x2, Ma_b. cbn [emodule basis coeffs combination gen_val val int_sem]. unfold here, there, a, b, first_id. cbn. lra.
Qed.
