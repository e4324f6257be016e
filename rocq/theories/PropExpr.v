(** Property C99: expressions with any number of temporary objects, moves and swaps. *)
From Coq Require Import ZArith QArith Qcanon Bool List Reals Lia.
From Verif Require Import Gen SpecGen Ring SpecRing RingProofs Module Element SpecModule ModuleProofs ElementProofs ElementProofs2 ElementProofs3 ElementProofs4 PyProofs PropElement Store SpecStore StoreProofs PropStore Expr SpecExpr ExprProofs.
Import ListNotations.
Open Scope Z_scope.

Lemma room_start : room (fun _ => false) 0.
Proof. intros i _. reflexivity. Qed.
Lemma thrown_raised os : thrown os = map raised os.
Proof. reflexivity. Qed.

(** Every program runs, unless it uses a variable that does not exist (or that has been moved from) - and then everything is fine
    until then. *)
Theorem C99_programs : forall A S, lawful A S -> forall prog : list (command A), Forall (command_ok S) prog ->
  (exists m os, perform_all empty_memory prog = Some (m, os) /\ length os = length prog /\ legal (fun _ => false) prog (thrown os)) \/
  (exists p c q m os x, prog = p ++ c :: q /\ perform_all empty_memory p = Some (m, os) /\ legal (fun _ => false) p (thrown os) /\ In x (command_uses c) /\ vars m x = None).
Proof. intros A S L prog K. exact (commands_spec A S L prog empty_memory (fun _ => false) (fun _ => None) (good_start A S) room_start K). Qed.

(** After it, each variable contains the number that one gets by calculating with numbers, where assignments that have thrown had no effect. *)
Theorem C99_values : forall A S, lawful A S -> forall (prog : list (command A)) m os, Forall (command_ok S) prog -> perform_all empty_memory prog = Some (m, os) -> legal (fun _ => false) prog (thrown os) ->
  forall x f, denote_commands S (fun _ => None) prog (thrown os) x = Some f -> exists e, holds m x e /\ elem_wf S e /\ forall rho, value S rho e = f rho.
Proof.
  intros A S L prog m os K E Lg x f N. destruct (commands_good A S L prog empty_memory _ (fun _ => None) m os (good_start A S) room_start K E Lg) as (_ & G & _).
  destruct (g_number _ _ _ _ _ G x f N) as (e & Ce & V). exists e. split; [apply content_holds, Ce|]. split; [apply (g_wf _ _ _ _ _ G x e Ce)|exact V].
Qed.

(** Two variables never share an object, all objects belong to variables, and these are the variables of the program: no temporary object stays behind, whatever has been thrown. *)
Theorem C99_objects : forall A S, lawful A S -> forall (prog : list (command A)) m os, Forall (command_ok S) prog -> perform_all empty_memory prog = Some (m, os) -> legal (fun _ => false) prog (thrown os) ->
  (forall x y a, vars m x = Some a -> vars m y = Some a -> x = y) /\
  (forall a, impls m a <> None <-> exists x, vars m x = Some a) /\
  (forall x, vars m x <> None <-> exists_finally (fun _ => false) prog (thrown os) x = true) /\
  (forall x, vars m x <> None -> exists c, In c prog /\ In x (targets c)).
Proof.
  intros A S L prog m os K E Lg. destruct (commands_good A S L prog empty_memory _ (fun _ => None) m os (good_start A S) room_start K E Lg) as (_ & G & _).
  pose proof (g_ok _ _ _ _ _ G) as H.
  assert (X : forall x, vars m x <> None <-> exists_finally (fun _ => false) prog (thrown os) x = true).
  { intros x. rewrite thrown_raised, <- (g_exists _ _ _ _ _ G x). unfold content. destruct (vars m x) as [a|] eqn:Hx.
    + destruct (ok_live A m [] H x a Hx) as [e ->]. split; [eauto|discriminate].
    + split; [congruence|intros [e Ee]; discriminate]. }
  split; [exact (ok_single A m [] H)|]. split; [|split; [exact X|]].
  - intros a. split.
    + intros N. destruct (impls m a) as [e|] eqn:Ea; [|congruence]. destruct (ok_owned A m [] H a e Ea) as [[]|K0]. exact K0.
    + intros [x Hx]. destruct (ok_live A m [] H x a Hx) as [e ->]. discriminate.
  - intros x Nx. apply X in Nx. clear -Nx. revert Nx. generalize (thrown os) as ts.
    assert (Gen : forall p d ts, exists_finally d p ts x = true -> d x = true \/ exists c, In c p /\ In x (targets (A := A) c)).
    { induction p as [|c p IH]; intros d ts; cbn [exists_finally]; [auto|]. destruct ts as [|t ts]; [auto|]. intros Hx. destruct (IH _ _ Hx) as [D|(c' & I & T)]; [|right; exists c'; split; [right; exact I|exact T]].
      destruct (in_dec Z.eq_dec x (targets c)) as [I|I]; [right; exists c; split; [left; reflexivity|exact I]|]. left. rewrite (exists_next_other A d c t x I) in D. exact D. }
    intros ts Hx. destruct (Gen _ _ _ Hx) as [D|D]; [discriminate|exact D].
Qed.

(** A command only changes its targets; an assignment whose expression throws changes nothing. *)
Theorem C99_frame : forall A S, lawful A S -> forall (prog : list (command A)) m os c m' o, Forall (command_ok S) (prog ++ [c]) -> perform_all empty_memory prog = Some (m, os) -> legal (fun _ => false) prog (thrown os) ->
  (forall x, In x (command_uses c) -> vars m x <> None) -> perform m c = Some (m', o) ->
  (forall y e, ~ In y (targets c) -> (holds m' y e <-> holds m y e)) /\
  (forall z f, c = Assign z f -> o <> None -> forall y e, holds m' y e <-> holds m y e).
Proof.
  intros A S L prog m os c m' o K E Lg U P. apply Forall_app in K. destruct K as [K1 K2]. inversion K2 as [|? ? K3 _]; subst.
  destruct (commands_good A S L prog empty_memory _ (fun _ => None) m os (good_start A S) room_start K1 E Lg) as (_ & G & Rm).
  destruct (perform_spec A S L m _ _ c G Rm K3) as (m1 & ex & E1 & _ & _ & F1 & F2).
  { intros x I. destruct (exists_finally _ _ _ x) eqn:D; [reflexivity|]. destruct (U x I). apply (good_absent A S m _ _ x G D). }
  assert (m1 = m' /\ ex = o) as [-> ->] by (split; congruence). split.
  - intros y e N. rewrite <- !content_holds, (F1 y N). reflexivity.
  - intros z f Ec No y e. rewrite <- !content_holds, (F2 z f y Ec No). reflexivity.
Qed.

(** Moves and swaps do not copy: an object changes its owner. *)
Theorem C99_moves : forall A S, lawful A S -> forall (prog : list (command A)) m os x z a, Forall (command_ok S) prog -> perform_all empty_memory prog = Some (m, os) -> legal (fun _ => false) prog (thrown os) ->
  0 <= x -> 0 <= z -> vars m x = Some a ->
  (exists m', perform m (MoveTo z x) = Some (m', None) /\ vars m' z = Some a /\ impls m' a = impls m a /\ (z <> x -> vars m' x = None)) /\
  (forall b, vars m z = Some b -> exists m', perform m (Swap x z) = Some (m', None) /\ vars m' z = Some a /\ vars m' x = Some b /\ impls m' a = impls m a /\ impls m' b = impls m b).
Proof.
  intros A S L prog m os x z a K E Lg Px Pz Vx. destruct (commands_good A S L prog empty_memory _ (fun _ => None) m os (good_start A S) room_start K E Lg) as (_ & G & Rm).
  assert (D : forall v b, vars m v = Some b -> exists_finally (fun _ => false) prog (map raised os) v = true).
  { intros v b V. apply (g_exists _ _ _ _ _ G v). unfold content. rewrite V. apply (ok_live A m [] (g_ok _ _ _ _ _ G) v b V). }
  split.
  - eexists. split; [reflexivity|]. destruct (Z.eq_dec z x) as [->|N]; [unfold move; rewrite Z.eqb_refl; auto; split; [exact Vx|split; [reflexivity|congruence]]|].
    destruct (move_spec A S m _ _ z x G (D x a Vx) N) as (G1 & F1 & C1 & V1 & W1). rewrite V1, W1. split; [exact Vx|]. split; [|reflexivity].
    unfold content in C1. rewrite V1, Vx in C1. exact C1.
  - intros b Vz. eexists. split; [reflexivity|]. destruct (swap_spec A S m _ _ x z G Rm Px Pz (D x a Vx) (D z b Vz)) as (G1 & F1 & C1 & C2 & V1 & V2).
    rewrite V1, V2. split; [exact Vx|]. split; [exact Vz|]. unfold content in C1, C2. rewrite V1, Vz in C1. rewrite V2, Vx in C2. auto.
Qed.

(** Over one ring of coefficients, with no rational generators but 1 and without scalars, nothing is thrown. *)
Theorem C99_nothing_thrown : forall A S, lawful A S -> forall p (prog : list (command A)), Forall (command_ok S) prog -> Forall (plain_command S p) prog -> legal (fun _ => false) prog (map (fun _ => false) prog) ->
  exists m os, perform_all empty_memory prog = Some (m, os) /\ Forall (fun o => o = None) os /\ length os = length prog /\
    (forall x e, holds m x e -> standard S p e) /\
    (forall x, exists_finally (fun _ => false) prog (map (fun _ => false) prog) x = true -> exists f e, denote_commands S (fun _ => None) prog (map (fun _ => false) prog) x = Some f /\ holds m x e /\ forall rho, value S rho e = f rho).
Proof.
  intros A S L p prog K P Lg.
  destruct (commands_plain A S L p prog empty_memory (fun _ => false) (fun _ => None) (good_start A S) room_start) as (m & os & E & Os & Lo & St & G & De); try assumption; [discriminate|discriminate|].
  exists m, os. split; [exact E|]. split; [exact Os|]. split; [exact Lo|]. split; [intros x e He; apply (St x e), content_holds, He|]. intros x Hx. specialize (De x Hx).
  destruct (denote_commands S (fun _ => None) prog (map (fun _ => false) prog) x) as [f|] eqn:Ef; [|congruence]. destruct (g_number _ _ _ _ _ G x f Ef) as (e & Ce & V). exists f, e. split; [reflexivity|]. split; [apply content_holds, Ce|exact V].
Qed.

(** x = 3 + 2 a + 5 a b; y = -1 + b; x = x * y - (x + -y); z = std::move(x); std::swap(y, z); z = y / 8 throws; y = y - y; x = z *)
Definition demo2 : list (command int_ring) :=
  [Assign 0 (ELit ex); Assign 1 (ELit ey); Assign 0 (EBin Minus (EBin Times (EVar 0) (EVar 1)) (EBin Plus (EVar 0) (ENeg (EVar 1)))); MoveTo 2 0; Swap 1 2;
   Assign 2 (EDiv (EVar 1) (SZ 8)); Assign 1 (EBin Minus (EVar 1) (EVar 1)); Assign 0 (EVar 2)].
Ltac wf_expr := first [exact (proj1 ex_standard)|exact (proj1 ey_standard)|exact Logic.I|intros ?; exact Logic.I|apply conj; wf_expr].
Example C99_example : Forall (command_ok int_sem) demo2 /\ legal (fun _ => false) demo2 (thrown [None; None; None; None; None; Some InvalidArgument; None; None]) /\
  match perform_all empty_memory demo2 with
  | Some (m, os) => os = [None; None; None; None; None; Some InvalidArgument; None; None] /\ vars m (temp 0) = None /\
      match vars m 0, vars m 1, vars m 2 with Some a, Some b, Some c => option_map coeffs (impls m a) = option_map coeffs (impls m c) /\ option_map coeffs (impls m a) = Some (coeffs ey) | _, _, _ => False end
  | None => False
  end.
Proof.
  split; [|split].
  - unfold demo2. repeat (apply Forall_cons; [split; [cbn; intuition lia|wf_expr]|]). apply Forall_nil.
  - cbn. repeat split; intros x; intuition subst; reflexivity.
  - vm_compute. repeat split.
Qed.
Example C99_plain_example : let prog := [Assign 0 (ELit ex); Assign 1 (EBin Times (EVar 0) (EBin Plus (EVar 0) (ELit ey))); MoveTo 2 1; Swap 0 2] in
  Forall (command_ok int_sem) prog /\ Forall (plain_command int_sem tt) prog /\ legal (fun _ => false) prog (map (fun _ => false) prog).
Proof.
  cbn zeta. split; [|split].
  - repeat (apply Forall_cons; [split; [cbn; intuition lia|wf_expr]|]). apply Forall_nil.
  - repeat (apply Forall_cons; [cbn; first [exact ex_standard|exact (conj Logic.I (conj Logic.I ey_standard))|exact Logic.I]|]). apply Forall_nil.
  - cbn. repeat split; intros x; intuition subst; reflexivity.
Qed.
