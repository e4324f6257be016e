(** Property C96: the life of floats and balls. *)
From Coq Require Import ZArith List Bool Lia.
From Verif Require Import Life SpecLife LifeProofs.
Import ListNotations.

(** Every program that the compiler accepts runs without access to memory that has been freed or never existed, and in the end
    every variable has the value that the program says, whatever the limit for numbers that are stored in place. *)
Theorem C96_values : forall small prog, accepted (fun _ => None) prog -> exists m, run small empty prog = Some m /\ forall x, read m x = meaning prog x.
Proof.
  intros small prog H. destruct (run_ok small prog empty (fun _ => None) empty_ok (fun _ => eq_refl) H) as (m & E & _ & A). exists m. split; [exact E|exact A].
Qed.
(** At no time do two objects share memory, and what they point to is there. *)
Theorem C96_unshared : forall small prog m, accepted (fun _ => None) prog -> run small empty prog = Some m ->
  (forall x i a, points m x i a -> heap m a <> None) /\ (forall x i y j a, points m x i a -> points m y j a -> x = y /\ i = j).
Proof.
  intros small prog m H E. destruct (run_ok small prog empty (fun _ => None) empty_ok (fun _ => eq_refl) H) as (m' & E' & O & _). rewrite E in E'. injection E' as <-.
  exact (conj (ok_valid m O) (ok_alone m O)).
Qed.
(** No memory is lost: what is in use belongs to a variable that exists, so nothing is in use when all variables are gone. *)
Theorem C96_no_leaks : forall small prog m, accepted (fun _ => None) prog -> run small empty prog = Some m ->
  (forall a, heap m a <> None -> exists x, meaning prog x <> None /\ exists i, points m x i a) /\ ((forall x, meaning prog x = None) -> forall a, heap m a = None).
Proof.
  intros small prog m H E. destruct (run_ok small prog empty (fun _ => None) empty_ok (fun _ => eq_refl) H) as (m' & E' & O & A). rewrite E in E'. injection E' as <-.
  assert (K : forall a, heap m a <> None -> exists x, meaning prog x <> None /\ exists i, points m x i a).
  { intros a Ha. destruct (ok_owned m O a Ha) as (x & i & P). exists x. split; [|exists i; exact P]. unfold meaning. rewrite <- (A x). intros R. apply (read_lives m x O) in R. destruct P as (ws & V & _). congruence. }
  split; [exact K|]. intros N a. destruct (heap m a) eqn:Ha; [|reflexivity]. exfalso. destruct (K a ltac:(congruence)) as (x & Lx & _). exact (Lx (N x)).
Qed.
(** The statements one at a time: any accepted statement after any accepted program. *)
Theorem C96_step : forall small prog s m, accepted (fun _ => None) prog -> run small empty prog = Some m -> allowed (meaning prog) s ->
  exists m', step small m s = Some m' /\ forall x, read m' x = means (meaning prog) s x.
Proof.
  intros small prog s m H E L. destruct (run_ok small prog empty (fun _ => None) empty_ok (fun _ => eq_refl) H) as (m0 & E0 & O & A). rewrite E in E0. injection E0 as <-.
  destruct (step_ok small m (meaning prog) s O A L) as (m' & E' & _ & A'). exists m'. split; [exact E'|exact A'].
Qed.

(** A program with mantissas that need memory: copies, moves, exchanges, a conversion from an mpz_class (variable 9) that is
    changed afterwards. *)
Definition fits_word (v : Z) : bool := (Z.abs v <? 2 ^ 62)%Z.
Definition story : list statement :=
  [New 9 1 (fun _ _ => (3 ^ 100)%Z) [];
   NewMpz 0 4 (fun z i => match i with O => z | _ => 0%Z end) 9;
   Compute 9 (fun _ _ => 5%Z) [];
   NewCopy 1 0;
   Compute 0 (fun vs i => match i with O => (nth 0 (nth 0 vs []) 0 * 7)%Z | _ => 1%Z end) [1%nat];
   NewMoveArb 2 0;
   MoveAssign 1 2;
   Swap 1 0;
   Assign 2 2;
   Assign 0 2].
Example C96_example : accepted (fun _ => None) story /\
  (exists m, run fits_word empty story = Some m /\ map (read m) [0; 1; 2; 9]%nat = [Some [3 ^ 100; 0; 0; 0]; Some [0; 0; 0; 0]; Some [3 ^ 100; 0; 0; 0]; Some [5]]%Z) /\
  exists m, run fits_word empty (story ++ [Destroy 9; Destroy 2; Destroy 1; Destroy 0]) = Some m /\ heap m 0 = None /\ heap m 1 = None /\ heap m 2 = None /\ heap m 3 = None.
Proof.
  split; [|split].
  - assert (T : forall (P : nat -> Prop) y, P y -> forall z, In z [y] -> P z) by (intros P y Hy z [<-|[]]; exact Hy).
    repeat match goal with
    | |- accepted _ _ => cbn [accepted story allowed]
    | |- _ /\ _ => split
    | |- True => exact Logic.I
    | |- ~ lives _ _ => intros H; apply H; reflexivity
    | |- lives _ _ => unfold lives; intros H; vm_compute in H; discriminate
    | |- forall y, In y [] -> _ => intros y []
    | |- forall y, In y [_] -> _ => apply T
    | |- length _ = length _ => vm_compute; reflexivity
    | |- _ <> [] => intros H; vm_compute in H; discriminate
    end.
  - eexists. split; [vm_compute; reflexivity|]. vm_compute. reflexivity.
  - eexists. split; [vm_compute; reflexivity|]. repeat split; vm_compute; reflexivity.
Qed.
