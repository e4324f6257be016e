(** Properties C12-C16: multiplication, division, order and interning of real numbers. *)
From Coq Require Import ZArith QArith Qcanon Bool List Reals.
From Verif Require Import Arf Arb Real Gen SpecGen GenProofs Seed Factory SpecFactory FactoryProofs.
Import ListNotations.
Open Scope Z_scope.

(** * C12 multiplication *)
Theorem C12_product_value : forall x y z, gen_wf x -> gen_wf y -> gen_mul x y = Ok z ->
  gen_wf z /\ forall rho, gen_val rho z = (gen_val rho x * gen_val rho y)%R.
Proof. exact gen_mul_correct. Qed.
Theorem C12_commutative : forall x y, gen_wf x -> gen_wf y -> gen_mul x y = gen_mul y x.
Proof. exact gen_mul_comm. Qed.
Theorem C12_associative : forall x y z a b c d, gen_wf x -> gen_wf y -> gen_wf z ->
  gen_mul x y = Ok a -> gen_mul a z = Ok b -> gen_mul y z = Ok c -> gen_mul x c = Ok d -> b = d.
Proof. exact gen_mul_assoc. Qed.
Theorem C12_unital : forall x, gen_wf x -> gen_mul (GRat 1) x = Ok x /\ gen_mul x (GRat 1) = Ok x.
Proof. exact (fun x H => conj (gen_mul_one x) (gen_mul_one_r x H)). Qed.
Theorem C12_throws : forall x y, (exists e, gen_mul x y = Err e) <->
  (exists q, q <> 1%Qc /\ ((x = GRat q /\ ~ rational y) \/ (y = GRat q /\ ~ rational x))).
Proof. exact gen_mul_throws. Qed.
(** On pointers, after any history of the process: y*x is the very object x*y ... *)
Theorem C12_same_object : forall st x y st' z, reachable st -> mul st x y = Ok (st', z) -> mul st' y x = Ok (st', z).
Proof. exact mul_same_object. Qed.
(** ... x*(y*z) is the very object (x*y)*z ... *)
Theorem C12_same_object_associative : forall st x y z st1 a st2 b st3 c st4 d, reachable st ->
  mul st x y = Ok (st1, a) -> mul st1 a z = Ok (st2, b) -> mul st2 y z = Ok (st3, c) -> mul st3 x c = Ok (st4, d) -> d = b.
Proof. exact mul_assoc_object. Qed.
(** ... and it denotes the product. *)
Theorem C12_object_value : forall st x y st' z, reachable st -> mul st x y = Ok (st', z) ->
  exists ox oy o, lookup (objs st) x = Some ox /\ lookup (objs st) y = Some oy /\ lookup (objs st') z = Some o /\
    forall rho, gen_val rho (gen_of z o) = (gen_val rho (gen_of x ox) * gen_val rho (gen_of y oy))%R.
Proof. exact mul_denotes. Qed.

(** Two random numbers, ids first_id and first_id + 1, and their product. *)
Definition two : state := run [GetAtom (ARandom 1337); GetAtom (ARandom 1338)] init.
Example C12_example : reachable two /\
  gen_mul (GAtom 7) (GProd [(5, 1%nat); (7, 2%nat)]) = Ok (GProd [(5, 1%nat); (7, 3%nat)]) /\
  exists st', mul two first_id (first_id + 1) = Ok (st', first_id + 2) /\ mul st' (first_id + 1) first_id = Ok (st', first_id + 2) /\
    exists st'', mul st' (first_id + 2) first_id = Ok (st'', first_id + 3).
Proof.
  split; [exists [GetAtom (ARandom 1337); GetAtom (ARandom 1338)]; reflexivity|]. split; [vm_compute; reflexivity|].
  eexists. split; [vm_compute; reflexivity|]. split; [vm_compute; reflexivity|]. eexists. vm_compute. reflexivity.
Qed.

(** * C13 division *)
Theorem C13_division_sound : forall x y z, gen_wf x -> gen_wf y -> gen_div x y = Ok (Some z) -> gen_wf z /\ gen_mul z y = Ok x.
Proof. exact gen_div_sound. Qed.
Theorem C13_division_complete : forall x y z, gen_wf x -> gen_wf y -> gen_wf z -> gen_mul z y = Ok x -> gen_div x y <> Ok None.
Proof. exact gen_div_complete. Qed.
Theorem C13_division_self : forall x, gen_wf x -> gen_div x x = Ok (Some (GRat 1)).
Proof. exact gen_div_self. Qed.
Theorem C13_division_throws : forall x y, (exists e, gen_div x y = Err e) <-> (exists q, y = GRat q /\ q <> 1%Qc /\ x <> y).
Proof. exact gen_div_throws. Qed.
Theorem C13_division_error : forall x y e, gen_div x y = Err e -> e = LogicError.
Proof.
  intros x y e H. unfold gen_div in H. destruct x as [p|i|l]; [destruct (gen_eqb _ _); [discriminate|]..|]; (destruct y as [q|j|r]; [destruct (Qeq_bool q 1%Q)| |]; congruence).
Qed.
(** On pointers the result is the object that denotes the quotient, if there is one already. *)
Theorem C13_division_object : forall st x ox y oy, reachable st -> In (x, ox) (objs st) -> In (y, oy) (objs st) ->
  match gen_div (gen_of x ox) (gen_of y oy) with
  | Err e => div st x y = Err e
  | Ok None => div st x y = Ok None
  | Ok (Some g) => exists st' z o, div st x y = Ok (Some (st', z)) /\ reachable st' /\ extends st st' /\ In (z, o) (objs st') /\ gen_of z o = g /\
              (forall w p, In (w, p) (objs st) -> gen_of w p = g -> st' = st /\ z = w)
  end.
Proof.
  intros st x ox y oy R Hx Hy. pose proof (div_spec st x ox y oy (reachable_inv st R) Hx Hy) as H.
  destruct (gen_div (gen_of x ox) (gen_of y oy)) as [[g|]|e]; [|exact H|exact H].
  destruct H as (st' & z & o & E & I & H). exists st', z, o. split; [exact E|]. split; [|exact H].
  assert (st' = run [Div x y] st) as -> by (cbn; rewrite E; reflexivity). apply reachable_run, R.
Qed.
Example C13_example : gen_wf (GProd [(5, 1%nat); (7, 3%nat)]) /\
  gen_div (GProd [(5, 1%nat); (7, 3%nat)]) (GProd [(5, 1%nat); (7, 2%nat)]) = Ok (Some (GAtom 7)) /\
  gen_div (GProd [(5, 1%nat); (7, 3%nat)]) (GAtom 6) = Ok None.
Proof. split; [cbn; repeat split; auto with arith; discriminate|]. split; vm_compute; reflexivity. Qed.

(** * C14 deglex *)
(** It never runs into the statement marked as unreachable ... *)
Theorem C14_reachable : forall x y, gen_wf x -> gen_wf y -> deglex_opt x y <> None.
Proof. exact deglex_reachable. Qed.
(** ... and is the order of the specification (SpecGen.v) ... *)
Theorem C14_specified : forall x y, gen_wf x -> gen_wf y -> (deglex x y = true <->
  (rational x /\ ~ rational y) \/ (~ rational x /\ ~ rational y /\ deglex_before x y)).
Proof. exact deglex_spec. Qed.
Theorem C14_irreflexive : forall x, deglex x x = false.
Proof. exact deglex_irrefl. Qed.
Theorem C14_transitive : forall x y z, gen_wf x -> gen_wf y -> gen_wf z -> deglex x y = true -> deglex y z = true -> deglex x z = true.
Proof. exact deglex_trans. Qed.
Theorem C14_total : forall x y, gen_wf x -> gen_wf y -> x <> y -> ~ (rational x /\ rational y) -> deglex x y = true \/ deglex y x = true.
Proof. exact deglex_total. Qed.
Theorem C14_compatible : forall x y z a b, gen_wf x -> gen_wf y -> gen_wf z -> gen_mul x z = Ok a -> gen_mul y z = Ok b ->
  deglex x y = true -> deglex a b = true.
Proof. exact deglex_mul. Qed.
Example C14_example : deglex (GAtom 9) (GProd [(5, 2%nat)]) = true /\ deglex (GProd [(5, 2%nat)]) (GProd [(5, 1%nat); (9, 1%nat)]) = true /\
  gen_mul (GProd [(5, 2%nat)]) (GAtom 9) = Ok (GProd [(5, 2%nat); (9, 1%nat)]).
Proof. vm_compute. auto. Qed.

(** * C15 keys of products *)
(** The key of two factors equals the key of a stored product iff that is their product. *)
Theorem C15_key_equal_iff_product : forall x y s, gen_wf x -> gen_wf y -> ~ rational x -> ~ rational y -> gen_wf (GProd s) ->
  (key_eq (mons x) (mons y) s = true <-> gen_mul x y = Ok (GProd s)).
Proof.
  intros x y s Hx Hy Rx Ry [Hs _]. rewrite (gen_mul_total x y Rx Ry), (persist_merge x y Rx).
  rewrite (key_eq_spec s _ _ 0 (mons_gen_wf x Hx) (mons_gen_wf y Hy) Hs). split; [intros ->; reflexivity|congruence].
Qed.
(** Equal keys have equal hashes. *)
Theorem C15_equal_keys_equal_hashes : forall x y s, gen_wf x -> gen_wf y -> ~ rational x -> ~ rational y -> gen_wf (GProd s) ->
  key_eq (mons x) (mons y) s = true -> hash_mons s 1 = hash_mons (mons x) 1 * hash_mons (mons y) 1 mod 2 ^ 64.
Proof.
  intros x y s Hx Hy Rx Ry [Hs _] H. apply (key_eq_spec s _ _ 0 (mons_gen_wf x Hx) (mons_gen_wf y Hy) Hs) in H. subst s.
  apply hash_mons_merge; apply mons_gen_wf; assumption.
Qed.
(** The hash is the product of the ids, modulo 2^64. *)
Theorem C15_hash : forall ms, (forall i e, In (i, e) ms -> 0 <= i) -> hash_mons ms 1 = plain_hash ms mod 2 ^ 64.
Proof. exact hash_mons_plain. Qed.
(** The computed exponent vector is sorted and has positive exponents that add up. *)
Theorem C15_computed_product : forall x y, gen_wf x -> gen_wf y -> ~ rational x -> ~ rational y ->
  gen_wf (GProd (persist x y)) /\ forall i, expo (GProd (persist x y)) i = (expo x i + expo y i)%nat.
Proof. exact (fun x y a b c d => conj (proj1 (persist_spec x y a b c d)) (proj1 (proj2 (persist_spec x y a b c d)))). Qed.
Example C15_example : key_eq (mons (GAtom 7)) (mons (GProd [(5, 1%nat); (7, 2%nat)])) [(5, 1%nat); (7, 3%nat)] = true /\
  hash_mons [(5, 1%nat); (7, 3%nat)] 1 = 1715.
Proof. vm_compute. auto. Qed.

(** * C16 unique objects *)
(** Two live objects never have the same key or denote the same number ... *)
Theorem C16_unique : forall st x o y p, reachable st -> lookup (objs st) x = Some o -> lookup (objs st) y = Some p ->
  same_key o p \/ gen_of x o = gen_of y p -> x = y.
Proof. exact keys_unique. Qed.
(** ... and whatever happens ([ops]), asking again for an object that is still alive returns it. *)
Theorem C16_random_interned : forall st a st1 z ops, reachable st -> get_atom st a = (st1, z) ->
  lookup (objs (run ops st1)) z <> None -> get_atom (run ops st1) a = (run ops st1, z).
Proof. exact atom_interned. Qed.
Theorem C16_rational_interned : forall st q st1 z ops, reachable st -> get_rational st q = (st1, z) ->
  lookup (objs (run ops st1)) z <> None -> get_rational (run ops st1) q = (run ops st1, z).
Proof. exact rational_interned. Qed.
Theorem C16_product_interned : forall st x y st1 z ops, reachable st -> mul st x y = Ok (st1, z) ->
  lookup (objs (run ops st1)) x <> None -> lookup (objs (run ops st1)) y <> None -> lookup (objs (run ops st1)) z <> None ->
  mul (run ops st1) x y = Ok (run ops st1, z).
Proof. exact product_interned. Qed.
(** The data of an object never changes while it is alive, and is well-formed. *)
Theorem C16_immutable : forall st ops x o p, reachable st -> lookup (objs st) x = Some o -> lookup (objs (run ops st)) x = Some p -> o = p.
Proof.
  intros st ops x o p Hr Hx Hp. pose proof (reachable_inv st Hr) as Hi.
  apply (run_same st ops x o p Hi); [apply lookup_in in Hx; [exact Hx|apply Hi]|].
  apply lookup_in in Hp; [exact Hp|apply (run_inv ops st Hi)].
Qed.
Theorem C16_well_formed : forall st x o, reachable st -> lookup (objs st) x = Some o -> gen_wf (gen_of x o).
Proof. exact live_wf. Qed.
(** After the product dies, a new object is made; while it lives it is found again. *)
Example C16_example : let st := run [Mul first_id (first_id + 1)] two in
  lookup (objs st) (first_id + 2) <> None /\
  step st (Mul (first_id + 1) first_id) = st /\
  map fst (objs (run [Collect (first_id + 2); Mul first_id (first_id + 1)] st)) = [first_id + 3; first_id + 1; first_id] /\
  step st (Collect first_id) = st.
Proof. vm_compute. repeat split; discriminate. Qed.
