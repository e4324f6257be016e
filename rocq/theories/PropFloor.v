(** Properties C31 (floor, ceil) and C29 (floordiv). *)
From Coq Require Import ZArith QArith Qcanon Bool List Reals Qreals Lra Lia.
From Flocq Require Import Core.
From Verif Require Import Arf Arb Real SpecArf ArfProofs ArbProofs SpecReal Gen SpecGen GenProofs Ring SpecRing RingProofs Module Element SpecModule ModuleProofs ElementProofs
  ElementProofs2 ElementProofs3 ElementProofs4 Loops SpecLoops Near Near2 LoopsProofs LoopsProofs2 LoopsProofs3 LoopsProofs4 LoopsProofs5 Balls PropDivision PropOrder.
Import ListNotations.
Open Scope R_scope.

(** * C31 *)
Lemma Zfloor_the v : the_floor (Zfloor v) v.
Proof. split; [apply Zfloor_lb|apply Zfloor_ub]. Qed.
Lemma Zceil_the v : the_ceil (Zceil v) v.
Proof. split; [|apply Zceil_ub]. pose proof (Zceil_lb v). lra. Qed.
Theorem C31_floor : forall A S, lawful A S -> forall mag_up, mag_up_ok mag_up -> forall garb carb rho (x : elem A), elem_wf S x -> enclosing_balls S garb carb rho x ->
  forall rounds n, elem_floor mag_up garb carb rounds x = Some n -> the_floor n (value S rho x).
Proof.
  intros A S L mag_up Hm garb carb rho x W E rounds n H. destruct (floor_sound A S L mag_up Hm garb carb rho 1 one_ok x rounds n W (ideal_approximated A S garb carb rho x E) H) as (u & P & ->).
  apply perturbed_zero in P. subst u. apply Zfloor_the.
Qed.
Theorem C31_ceil : forall A S, lawful A S -> forall mag_up, mag_up_ok mag_up -> forall garb carb rho (x : elem A), elem_wf S x -> enclosing_balls S garb carb rho x ->
  forall rounds n, elem_ceil mag_up garb carb rounds x = Some n -> the_ceil n (value S rho x).
Proof.
  intros A S L mag_up Hm garb carb rho x W E rounds n H. destruct (ceil_sound A S L mag_up Hm garb carb rho 1 one_ok x rounds n W (ideal_approximated A S garb carb rho x E) H) as (u & P & ->).
  apply perturbed_zero in P. subst u. apply Zceil_the.
Qed.
(** For elements with an integer value this does not need approximations. *)
Theorem C31_integers : forall A S, lawful A S -> forall mag_up garb carb (x : elem A) n, elem_wf S x -> no_zero_gen (basis (emodule x)) -> (forall rho, value S rho x = IZR n) ->
  forall rounds, elem_floor mag_up garb carb rounds x = Some n /\ elem_ceil mag_up garb carb rounds x = Some n.
Proof.
  intros A S L mag_up garb carb x n W Z V rounds. apply (to_integer_spec A S L x n W Z) in V. unfold elem_floor, elem_ceil. rewrite V. auto.
Qed.
(** They return, if 1 and the generators are independent. *)
Theorem C31_returns : forall A S, lawful A S -> forall mag_up, mag_up_ok mag_up -> mag_up_tight mag_up -> forall garb carb rho (p : par A) gs, independent S p rho gs -> In (GRat 1) gs ->
  forall x, among S p gs x -> enclosing_balls S garb carb rho x -> shrinking_balls S garb carb x ->
  exists n m, eventually (fun rounds => elem_floor mag_up garb carb rounds x) n /\ eventually (fun rounds => elem_ceil mag_up garb carb rounds x) m.
Proof.
  intros A S L mag_up Hm Ht garb carb rho p gs HI H1 x Lx Ex Cx. apply ideal_approximated in Ex. pose proof (to_integer_none A S L p rho gs HI H1 x Lx) as T.
  destruct (floor_terminates A S L mag_up Hm garb carb rho 1 one_ok Ht x (proj1 (proj1 Lx)) Ex Cx T) as (N & n & Hn). destruct (ceil_terminates A S L mag_up Hm garb carb rho 1 one_ok Ht x (proj1 (proj1 Lx)) Ex Cx T) as (N' & m & Hn').
  exists n, m. split; [exists N; exact Hn|exists N'; exact Hn'].
Qed.
(** The code: the floor (ceil) of a number that is extremely close to the element; so it is right unless there is an integer in between. *)
Theorem C67_floor : forall A S, lawful A S -> forall mag_up, mag_up_ok mag_up -> forall rng names rho garb carb (x : elem A), elem_wf S x -> code_setting S rng names rho garb carb x ->
  forall rounds n, (elem_floor mag_up garb carb rounds x = Some n -> exists u, perturbed code_error (value S rho x) u /\ the_floor n u) /\
                   (elem_ceil mag_up garb carb rounds x = Some n -> exists u, perturbed code_error (value S rho x) u /\ the_ceil n u).
Proof.
  intros A S L mag_up Hm rng names rho garb carb x W E rounds n. apply code_approximated in E; [|exact W].
  assert (Z : forall v u, perturbed (eps64 4) v u -> perturbed code_error v u) by (intros v u; unfold eps64, code_error; replace (4 - 1) with 3 by ring; auto). split; intros H.
  - destruct (floor_sound A S L mag_up Hm garb carb rho 4 four_ok x rounds n W E H) as (u & P & ->). exists u. split; [apply Z, P|apply Zfloor_the].
  - destruct (ceil_sound A S L mag_up Hm garb carb rho 4 four_ok x rounds n W E H) as (u & P & ->). exists u. split; [apply Z, P|apply Zceil_the].
Qed.
Theorem C67_floor_returns : forall A S, lawful A S -> forall mag_up, mag_up_ok mag_up -> mag_up_tight mag_up -> forall rng names rho garb carb (x : elem A), elem_wf S x -> code_setting S rng names rho garb carb x ->
  (forall n, value S rho x <> IZR n) -> exists n m, eventually (fun rounds => elem_floor mag_up garb carb rounds x) n /\ eventually (fun rounds => elem_ceil mag_up garb carb rounds x) m.
Proof.
  intros A S L mag_up Hm Ht rng names rho garb carb x W E V. pose proof (code_approximated A S _ _ _ _ _ x W E) as Ax. pose proof (code_converging A S _ _ _ _ _ x W E) as Cx.
  destruct (floor_terminates A S L mag_up Hm garb carb rho 4 four_ok Ht x W Ax Cx (fun _ => V)) as (N & n & Hn). destruct (ceil_terminates A S L mag_up Hm garb carb rho 4 four_ok Ht x W Ax Cx (fun _ => V)) as (N' & m & Hn').
  exists n, m. split; [exists N; exact Hn|exists N'; exact Hn'].
Qed.

(** * C29 *)
Lemma ideal_pair A (S : semantics A) garb carb rho x y : enclosing_balls S garb carb rho x -> enclosing_balls S garb carb rho y -> pair_approximated A S garb carb rho 1 x y.
Proof.
  intros Ex Ey. apply ideal_approximated in Ex, Ey. split; [|exact (proj2 Ex)]. intros g prec Hg Hp. apply in_app_or in Hg. destruct Hg as [Hg|Hg]; [apply (proj1 Ex)|apply (proj1 Ey)]; assumption.
Qed.
Lemma code_pair A (S : semantics A) rng names rho garb carb x y : elem_wf S x -> elem_wf S y -> code_setting S rng names rho garb carb x -> code_setting S rng names rho garb carb y -> pair_approximated A S garb carb rho 4 x y.
Proof.
  intros Wx Wy Ex Ey. apply code_approximated in Ex, Ey; try assumption. split; [|exact (proj2 Ex)]. intros g prec Hg Hp. apply in_app_or in Hg. destruct Hg as [Hg|Hg]; [apply (proj1 Ex)|apply (proj1 Ey)]; assumption.
Qed.
(** The result is the floor of the quotient. *)
Theorem C29_sound : forall A S, lawful A S -> forall mag_up, mag_up_ok mag_up -> forall garb carb rho (x y : elem A), elem_wf S x -> elem_wf S y -> mring (emodule y) = mring (emodule x) ->
  enclosing_balls S garb carb rho x -> enclosing_balls S garb carb rho y -> value S rho y <> 0 ->
  forall rounds n, floordiv mag_up garb carb rounds x y = Some (Ok n) -> the_floor n (value S rho x / value S rho y).
Proof.
  intros A S L mag_up Hm garb carb rho x y Wx Wy R Ex Ey Ny rounds n H.
  destruct (floordiv_sound A S L mag_up Hm garb carb rho 1 one_ok x y rounds n Wx Wy R (ideal_pair A S garb carb rho x y Ex Ey) Ny H) as (u & w & P1 & P2 & ->). apply perturbed_zero in P1, P2. subst u w. apply Zfloor_the.
Qed.
(** Integer quotients are found exactly, without approximations: *)
Theorem C29_integer_quotients : forall A S, lawful A S -> floors_integers S -> forall mag_up garb carb (p : par A) (x y : elem A), standard S p x -> standard S p y ->
  forall n, (forall rho, value S rho x = IZR n * value S rho y) -> (exists rho, value S rho y <> 0) -> forall rounds, floordiv mag_up garb carb rounds x y = Some (Ok n).
Proof.
  intros A S L HF mag_up garb carb p x y Hx Hy n V [r Nr] rounds. unfold floordiv.
  assert (N0 : (forall rho, value S rho x = 0) -> n = 0%Z). { intros Z0. specialize (Z0 r). rewrite V in Z0. apply Rmult_integral in Z0. destruct Z0 as [Z0|Z0]; [apply eq_IZR, Z0|contradiction]. }
  destruct (nonzero x) eqn:Nx; cbn [negb]; [|rewrite N0; [reflexivity|intros rho; apply (zero_value_of A S L rho x Nx)]].
  destruct (std_common A S L p x y Hx Hy) as (x' & y' & E & Hx' & Hy' & Vx & Vy). rewrite E.
  destruct (nonzero x') eqn:Nx'; cbn [negb]; [|rewrite N0; [reflexivity|intros rho; rewrite <- Vx; apply (zero_value_of A S L rho x' Nx')]].
  rewrite (exact_floor_formal A S L p HF x' y' n); [reflexivity|exact Hx'|exact Hy'| |exact Nx'|intros rho; rewrite Vx, Vy; apply V].
  apply (common_spec A S L x y x' y' (proj1 Hx) (proj1 Hy) E).
Qed.
(** It returns if the generators are independent. *)
Lemma floordiv_total A S (L : lawful A S) mag_up (Hm : mag_up_ok mag_up) (Ht : mag_up_tight mag_up) garb carb rho k (Hk : 1 <= k <= 8) p (x y : elem A) :
  standard S p x -> standard S p y -> pair_approximated A S garb carb rho k x y -> pair_converging A S garb carb x y -> value S rho y <> 0 -> (nonzero x = true -> value S rho x <> 0) ->
  (forall x' y' n, common x y = Ok (x', y') -> nonzero x' = true -> value S rho x = IZR n * value S rho y -> exact_floor (coeffs x') (coeffs y') None = Some n) ->
  exists n, eventually (fun rounds => floordiv mag_up garb carb rounds x y) (Ok n).
Proof.
  intros Hx Hy Ap Co Ny Nx X. unfold floordiv. destruct (nonzero x) eqn:N; cbn [negb]; [|exists 0%Z, 0%nat; reflexivity].
  destruct (std_common A S L p x y Hx Hy) as (x' & y' & E & Hx' & Hy' & Vx & Vy). rewrite E.
  destruct (nonzero x') eqn:N'; cbn [negb]; [|exists 0%Z, 0%nat; reflexivity].
  destruct (exact_floor (coeffs x') (coeffs y') None) as [n|] eqn:Ef; [exists n, 0%nat; reflexivity|].
  assert (R1 := proj1 (proj2 Hx)). assert (R2 := proj1 (proj2 Hy)).
  destruct (common_approximated A S L garb carb rho k p x y x' y' (proj1 Hx) (proj1 Hy) R1 R2 E Ap) as (Wx' & Wy' & EM & R' & Ax & Ay & Vx' & Vy' & Cc).
  destruct (Cc Co) as [Cx Cy].
  destruct (floordiv_search_terminates A S L mag_up Hm garb carb rho k Hk Ht x' y' Wx' Wy' Ax Ay Cx Cy) as (M & n & Hn).
  - rewrite Vx'. apply Nx. reflexivity.
  - rewrite Vy'. exact Ny.
  - intros n F. rewrite Vx', Vy' in F. rewrite (X x' y' n E N') in Ef; [discriminate|]. rewrite <- F. field. exact Ny.
  - exists n, M. intros m Hmm. rewrite (Hn m Hmm). reflexivity.
Qed.
Theorem C29_returns : forall A S, lawful A S -> floors_integers S -> forall mag_up, mag_up_ok mag_up -> mag_up_tight mag_up -> forall garb carb rho (p : par A) gs, independent S p rho gs ->
  forall x y, among S p gs x -> among S p gs y -> enclosing_balls S garb carb rho x -> shrinking_balls S garb carb x -> enclosing_balls S garb carb rho y -> shrinking_balls S garb carb y ->
  value S rho y <> 0 -> exists n, eventually (fun rounds => floordiv mag_up garb carb rounds x y) (Ok n).
Proof.
  intros A S L HF mag_up Hm Ht garb carb rho p gs HI x y Lx Ly Ex Cx Ey Cy Ny.
  apply (floordiv_total A S L mag_up Hm Ht garb carb rho 1 one_ok p x y (proj1 Lx) (proj1 Ly) (ideal_pair A S garb carb rho x y Ex Ey)); [|exact Ny|apply (nonzero_not_zero A S L p rho gs HI x Lx)|].
  - split; [|exact (proj2 Cx)]. intros g Hg. apply in_app_or in Hg. destruct Hg as [Hg|Hg]; [apply (proj1 Cx)|apply (proj1 Cy)]; exact Hg.
  - intros x' y' n E N' V. destruct (std_common A S L p x y (proj1 Lx) (proj1 Ly)) as (x2 & y2 & E2 & Hx' & Hy' & Vx & Vy). rewrite E in E2. injection E2 as <- <-.
    destruct (common_spec A S L x y x' y' (proj1 (proj1 Lx)) (proj1 (proj1 Ly)) E) as (_ & _ & EM & G & _).
    assert (Lx' : among S p gs x'). { split; [exact Hx'|]. intros g Hg. apply G in Hg. destruct Hg as [Hg|Hg]; [apply (proj2 Lx)|apply (proj2 Ly)]; exact Hg. }
    assert (Ly' : among S p gs y'). { split; [exact Hy'|]. rewrite <- EM. exact (proj2 Lx'). }
    apply (exact_floor_finds A S L p rho gs HI HF x' y' n Lx' Ly' EM N'). rewrite Vx, Vy. exact V.
Qed.
(** The code: the floor of the quotient of numbers that are extremely close to the operands. *)
Theorem C67_floordiv : forall A S, lawful A S -> forall mag_up, mag_up_ok mag_up -> forall rng names rho garb carb (x y : elem A), elem_wf S x -> elem_wf S y -> mring (emodule y) = mring (emodule x) ->
  code_setting S rng names rho garb carb x -> code_setting S rng names rho garb carb y -> value S rho y <> 0 ->
  forall rounds n, floordiv mag_up garb carb rounds x y = Some (Ok n) -> exists u w, perturbed code_error (value S rho x) u /\ perturbed code_error (value S rho y) w /\ the_floor n (u / w).
Proof.
  intros A S L mag_up Hm rng names rho garb carb x y Wx Wy R Ex Ey Ny rounds n H.
  destruct (floordiv_sound A S L mag_up Hm garb carb rho 4 four_ok x y rounds n Wx Wy R (code_pair A S rng names rho garb carb x y Wx Wy Ex Ey) Ny H) as (u & w & P1 & P2 & ->).
  exists u, w. unfold eps64 in P1, P2. replace (4 - 1) with 3 in P1, P2 by ring. split; [exact P1|]. split; [exact P2|apply Zfloor_the].
Qed.
Theorem C67_floordiv_returns : forall A S, lawful A S -> forall mag_up, mag_up_ok mag_up -> mag_up_tight mag_up -> forall rng names rho garb carb (p : par A) (x y : elem A), standard S p x -> standard S p y ->
  code_setting S rng names rho garb carb x -> code_setting S rng names rho garb carb y -> value S rho y <> 0 -> (forall n, value S rho x <> IZR n * value S rho y) ->
  exists n, eventually (fun rounds => floordiv mag_up garb carb rounds x y) (Ok n).
Proof.
  intros A S L mag_up Hm Ht rng names rho garb carb p x y Hx Hy Ex Ey Ny NI. pose proof (code_converging A S _ _ _ _ _ x (proj1 Hx) Ex) as Cx. pose proof (code_converging A S _ _ _ _ _ y (proj1 Hy) Ey) as Cy.
  apply (floordiv_total A S L mag_up Hm Ht garb carb rho 4 four_ok p x y Hx Hy (code_pair A S rng names rho garb carb x y (proj1 Hx) (proj1 Hy) Ex Ey)); [|exact Ny| |].
  - split; [|exact (proj2 Cx)]. intros g Hg. apply in_app_or in Hg. destruct Hg as [Hg|Hg]; [apply (proj1 Cx)|apply (proj1 Cy)]; exact Hg.
  - intros _ V. apply (NI 0%Z). rewrite V. ring.
  - intros x' y' n _ _ V. destruct (NI n V).
Qed.
