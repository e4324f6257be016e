(** Property C95: elements behave like numbers in programs with assignments, whatever variables are used
    on both sides, and whatever is thrown. *)
From Coq Require Import ZArith QArith Qcanon Bool List Reals Lia Lra.
From Verif Require Import Gen SpecGen Ring SpecRing RingProofs Module Element SpecModule ModuleProofs ElementProofs ElementProofs2 ElementProofs3 ElementProofs4 PyProofs PropElement Store SpecStore StoreProofs.
Import ListNotations.
Open Scope Z_scope.

Section Programs.
  Context (A : ring) (S : semantics A) (L : lawful A S).
  Implicit Types m : memory A.

  Record good m (d : Z -> bool) (n : numbers) : Prop := {
    g_ok : ok A m [];
    g_wf : forall x e, content A m x = Some e -> elem_wf S e;
    g_exists : forall x, (exists e, content A m x = Some e) <-> d x = true;
    g_number : forall x f, n x = Some f -> exists e, content A m x = Some e /\ forall rho, value S rho e = f rho
  }.

  Lemma good_put m d n x m' e v : good m d n -> frame A m [] x m' -> content A m' x = Some e -> elem_wf S e -> (forall f, v = Some f -> forall rho, value S rho e = f rho) ->
    good m' (fun y => if y =? x then true else d y) (put n x v).
  Proof.
    intros G F C W V. constructor.
    - apply F.
    - intros y e' Cy. destruct (Z.eq_dec y x) as [->|N]; [congruence|]. rewrite (fr_others _ _ _ _ _ F y N) in Cy. apply (g_wf _ _ _ G y e' Cy).
    - intros y. destruct (Z.eqb_spec y x) as [->|N]; [split; eauto|]. rewrite (fr_others _ _ _ _ _ F y N). apply (g_exists _ _ _ G).
    - intros y f. unfold put. destruct (Z.eqb_spec y x) as [->|N]; [intros E; exists e; auto|]. rewrite (fr_others _ _ _ _ _ F y N). apply (g_number _ _ _ G).
  Qed.
  Lemma good_same m d n x m' e e' : good m d n -> frame A m [] x m' -> content A m x = Some e -> content A m' x = Some e' -> elem_wf S e' -> (forall rho, value S rho e' = value S rho e) -> good m' d n.
  Proof.
    intros G F C C' W V. constructor.
    - apply F.
    - intros y f Cy. destruct (Z.eq_dec y x) as [->|N]; [congruence|]. rewrite (fr_others _ _ _ _ _ F y N) in Cy. apply (g_wf _ _ _ G y f Cy).
    - intros y. destruct (Z.eq_dec y x) as [->|N]; [|rewrite (fr_others _ _ _ _ _ F y N); apply (g_exists _ _ _ G)]. rewrite <- (g_exists _ _ _ G x). split; eauto.
    - intros y f Ny. destruct (Z.eq_dec y x) as [->|N]; [|rewrite (fr_others _ _ _ _ _ F y N); apply (g_number _ _ _ G y f Ny)].
      destruct (g_number _ _ _ G x f Ny) as (e0 & E0 & V0). exists e'. split; [exact C'|]. intros rho. rewrite V, <- V0. congruence.
  Qed.
  Lemma good_ext m d d' n n' : good m d n -> (forall x, d' x = d x) -> (forall x, n' x = n x) -> good m d' n'.
  Proof.
    intros [G1 G2 G3 G4] D N. constructor; [exact G1|exact G2| |]; intros x; [rewrite D; apply G3|]. intros f. rewrite N. apply G4.
  Qed.

  (** What one statement does. *)
  Lemma exec_spec m d n st : good m d n -> statement_ok S st -> (forall x, In x (uses st) -> d x = true) ->
    exists m' ex, exec m st = Some (m', ex) /\ good m' (exists_after d st) (denote S n st (match ex with Some _ => true | None => false end)) /\
      forall y, y <> target st -> content A m' y = content A m y.
  Proof.
    intros G K U. pose proof (g_ok _ _ _ G) as H.
    assert (Put : forall x e m' o, exec m st = Some (m', o) -> frame A m [] x m' -> target st = x -> content A m' x = Some e -> elem_wf S e ->
      (forall z, exists_after d st z = if z =? x then true else d z) ->
      forall v, (forall z, denote S n st (match o with Some _ => true | None => false end) z = put n x v z) -> (forall f, v = Some f -> forall rho, value S rho e = f rho) ->
      exists m' ex, exec m st = Some (m', ex) /\ good m' (exists_after d st) (denote S n st (match ex with Some _ => true | None => false end)) /\
      forall y, y <> target st -> content A m' y = content A m y).
    { intros x e m' o E F Ht C W D v Dn V. exists m', o. split; [exact E|]. split; [|rewrite Ht; intros y N; exact (fr_others _ _ _ _ _ F y N)].
      apply (good_ext m' (fun y => if y =? x then true else d y) _ (put n x v)); [|exact D|exact Dn]. apply (good_put m d n x m' e); assumption. }
    assert (Known : forall x, In x (uses st) -> exists e, content A m x = Some e) by (intros x I; apply (g_exists _ _ _ G), U, I).
    assert (Dx : forall x, In x (uses st) -> forall z, d z = if z =? x then true else d z).
    { intros x I z. destruct (Z.eqb_spec z x) as [->|]; [apply U, I|reflexivity]. }
    (* operators that keep the value when they throw *)
    assert (Op : forall x l res v, In x (uses st) -> content A m x = Some l -> target st = x -> (forall z, exists_after d st z = d z) ->
      performs A S (exec m st) m [] x l res ->
      (forall z, denote S n st true z = n z) -> (forall z, denote S n st false z = put n x v z) ->
      (forall r, res = Ok r -> elem_wf S r /\ forall f, v = Some f -> forall rho, value S rho r = f rho) ->
      exists m' ex, exec m st = Some (m', ex) /\ good m' (exists_after d st) (denote S n st (match ex with Some _ => true | None => false end)) /\
      forall y, y <> target st -> content A m' y = content A m y).
    { intros x l res v Ix C Ht D (m' & ex & E & F & P) N1 N2 R. destruct res as [r|e].
      - destruct P as [-> Cr]. destruct (R r eq_refl) as [Wr Vr]. apply (Put x r m' None E F Ht Cr Wr) with (v := v); [|exact N2|exact Vr].
        intros z. rewrite D. apply Dx, Ix.
      - destruct P as (Ne & l' & Cl & Wl & Vl). exists m', ex. split; [exact E|]. split; [|rewrite Ht; intros y N; exact (fr_others _ _ _ _ _ F y N)].
        apply (good_ext m' d _ n); [apply (good_same m d n x m' l l'); assumption|exact D|]. intros z. destruct ex; [apply N1|congruence]. }
    (* the value of a variable *)
    assert (Num : forall x e f, content A m x = Some e -> n x = Some f -> forall rho, value S rho e = f rho).
    { intros x e f C N rho. destruct (g_number _ _ _ G x f N) as (e' & C' & V). rewrite <- V. congruence. }
    destruct st as [x e|x y|x y|x y|x y|x y|x g|x s|x s|x|x]; cbn [statement_ok uses target] in *.
    - (* Define *) destruct (assign_ok A m [] x e H) as [F C]. apply (Put x e _ None eq_refl F eq_refl C K (fun _ => eq_refl)) with (v := Some (fun rho => value S rho e)); [reflexivity|]. intros f [= <-] rho. reflexivity.
    - (* Copy *) destruct (Known y) as [e Cy]; [left; reflexivity|]. destruct (content_inv A m y e Cy) as (a & Hy & Ha). destruct (assign_ok A m [] x e H) as [F C].
      apply (Put x e (assign m x e) None) with (v := n y); try assumption; try reflexivity; [cbn; unfold this, deref; rewrite Hy, Ha; reflexivity|apply (g_wf _ _ _ G y e Cy)|].
      intros f Nf. apply (Num y e f Cy Nf).
    - (* Opposite *) destruct (Known y) as [e Cy]; [left; reflexivity|]. destruct (content_inv A m y e Cy) as (a & Hy & Ha). destruct (assign_ok A m [] x (opp e) H) as [F C].
      destruct (opp_value A S L e (g_wf _ _ _ G y e Cy)) as [Wo Vo].
      apply (Put x (opp e) (assign m x (opp e)) None) with (v := option_map (fun u rho => (- u rho)%R) (n y)); try assumption; try reflexivity; [cbn; unfold this, deref; rewrite Hy, Ha; reflexivity|].
      intros f Nf rho. destruct (n y) as [u|] eqn:Ny; [|discriminate]. injection Nf as <-. rewrite Vo, (Num y e u Cy Ny). reflexivity.
    - (* AddTo *) destruct (Known x) as [l Cx]; [left; reflexivity|]. destruct (Known y) as [r Cy]; [right; left; reflexivity|]. destruct (content_inv A m y r Cy) as (b & Hy & Hb).
      pose proof (g_wf _ _ _ G x l Cx) as Wl. pose proof (g_wf _ _ _ G y r Cy) as Wr.
      apply (Op x l (add l r) (combine2 Rplus (n x) (n y))); try reflexivity; [left; reflexivity|exact Cx| |].
      + cbn. unfold this, deref. rewrite Hy, Hb. apply (add_to_performs A S L); assumption.
      + intros z E. destruct (add_value A S L l r z Wl Wr E) as [Wz Vz]. split; [exact Wz|]. intros f Nf rho. unfold combine2 in Nf.
        destruct (n x) as [u|] eqn:Nx; [|discriminate]. destruct (n y) as [v|] eqn:Ny; [|discriminate]. injection Nf as <-. rewrite Vz, (Num x l u Cx Nx), (Num y r v Cy Ny). reflexivity.
    - (* SubTo *) destruct (Known x) as [l Cx]; [left; reflexivity|]. destruct (Known y) as [r Cy]; [right; left; reflexivity|]. destruct (content_inv A m y r Cy) as (b & Hy & Hb).
      pose proof (g_wf _ _ _ G x l Cx) as Wl. pose proof (g_wf _ _ _ G y r Cy) as Wr.
      apply (Op x l (sub l r) (combine2 Rminus (n x) (n y))); try reflexivity; [left; reflexivity|exact Cx| |].
      + cbn. unfold this, deref. rewrite Hy, Hb. apply (sub_to_performs A S L); assumption.
      + intros z E. destruct (sub_value A S L l r z Wl Wr E) as [Wz Vz]. split; [exact Wz|]. intros f Nf rho. unfold combine2 in Nf.
        destruct (n x) as [u|] eqn:Nx; [|discriminate]. destruct (n y) as [v|] eqn:Ny; [|discriminate]. injection Nf as <-. rewrite Vz, (Num x l u Cx Nx), (Num y r v Cy Ny). reflexivity.
    - (* MulTo *) destruct (Known x) as [l Cx]; [left; reflexivity|]. destruct (Known y) as [r Cy]; [right; left; reflexivity|]. destruct (content_inv A m y r Cy) as (b & Hy & Hb).
      pose proof (g_wf _ _ _ G x l Cx) as Wl. pose proof (g_wf _ _ _ G y r Cy) as Wr.
      apply (Op x l (mul l r) (combine2 Rmult (n x) (n y))); try reflexivity; [left; reflexivity|exact Cx| |].
      + cbn. unfold this, deref. rewrite Hy, Hb. apply (mul_to_performs A S L); assumption.
      + intros z E. destruct (mul_value A S L l r z Wl Wr E) as [Wz Vz]. split; [exact Wz|]. intros f Nf rho. unfold combine2 in Nf.
        destruct (n x) as [u|] eqn:Nx; [|discriminate]. destruct (n y) as [v|] eqn:Ny; [|discriminate]. injection Nf as <-. rewrite Vz, (Num x l u Cx Nx), (Num y r v Cy Ny). reflexivity.
    - (* MulReal *) destruct (Known x) as [l Cx]; [left; reflexivity|]. pose proof (g_wf _ _ _ G x l Cx) as Wl.
      apply (Op x l (mul_real l g) (option_map (fun u rho => (u rho * gen_val rho g)%R) (n x))); try reflexivity; [left; reflexivity|exact Cx|apply (mul_real_to_performs A S L); assumption|].
      intros z E. destruct (mul_real_spec A S L l g z Wl K E) as [Wz Vz]. split; [exact Wz|]. intros f Nf rho. destruct (n x) as [u|] eqn:Nx; [|discriminate]. injection Nf as <-. rewrite Vz, (Num x l u Cx Nx). reflexivity.
    - (* MulScalar *) destruct (Known x) as [l Cx]; [left; reflexivity|]. pose proof (g_wf _ _ _ G x l Cx) as Wl. destruct (scale_to_performs A m [] x l (fun c => imul c s) (fun c => imul_left c s) H Cx) as (m' & E & F & C).
      pose proof Wl as (WM & Ln & Wm).
      destruct (scale_mem A S (mring (emodule l)) (fun c => imul c s) (fun c => imul_left c s) (coeffs l)) as [M1 M2]; [intros c c' Mc Ec; pose proof (L_imul A S L _ c s Mc (K _)) as X; cbn in Ec; rewrite Ec in X; apply X|intros c Mc; exact (L_imul_left A S L _ c s Mc (K _))|exact Wm|].
      assert (We : elem_wf S (mkElem (emodule l) (fst (scale (fun c => imul c s) (fun c => imul_left c s) (coeffs l))))) by (split; [exact WM|split; [cbn; congruence|exact M1]]).
      apply (Put x (mkElem (emodule l) (fst (scale (fun c => imul c s) (fun c => imul_left c s) (coeffs l)))) m' (snd (scale (fun c => imul c s) (fun c => imul_left c s) (coeffs l)))) with (v := if match snd (scale (fun c => imul c s) (fun c => imul_left c s) (coeffs l)) with Some _ => true | None => false end then None else option_map (fun u rho => (u rho * sval S s)%R) (n x));
        [exact E|exact F|reflexivity|exact C|exact We|apply Dx; left; reflexivity|reflexivity|].
      destruct (snd (scale (fun c => imul c s) (fun c => imul_left c s) (coeffs l))) as [ex|] eqn:Ex; [discriminate|]. intros f Nf rho. destruct (n x) as [u|] eqn:Nx; [|discriminate]. injection Nf as <-.
      destruct (smul_spec A S L l s (mkElem (emodule l) (fst (scale (fun c => imul c s) (fun c => imul_left c s) (coeffs l)))) Wl (K _)) as (_ & _ & V).
      { unfold smul, scaled, imul_elem. destruct (scale (fun c => imul c s) (fun c => imul_left c s) (coeffs l)) as [cs o]. cbn in Ex. subst o. reflexivity. }
      rewrite V, (Num x l u Cx Nx). reflexivity.
    - (* DivScalar *) destruct (Known x) as [l Cx]; [left; reflexivity|]. pose proof (g_wf _ _ _ G x l Cx) as Wl. destruct (scale_to_performs A m [] x l (fun c => idiv c s) (fun c => idiv_left c s) H Cx) as (m' & E & F & C).
      pose proof Wl as (WM & Ln & Wm).
      destruct (scale_mem A S (mring (emodule l)) (fun c => idiv c s) (fun c => idiv_left c s) (coeffs l)) as [M1 M2]; [intros c c' Mc Ec; pose proof (L_idiv A S L _ c s Mc (K _)) as X; cbn in Ec; rewrite Ec in X; apply X|intros c Mc; exact (proj1 (L_idiv_left A S L _ c s Mc (K _)))|exact Wm|].
      assert (We : elem_wf S (mkElem (emodule l) (fst (scale (fun c => idiv c s) (fun c => idiv_left c s) (coeffs l))))) by (split; [exact WM|split; [cbn; congruence|exact M1]]).
      apply (Put x (mkElem (emodule l) (fst (scale (fun c => idiv c s) (fun c => idiv_left c s) (coeffs l)))) m' (snd (scale (fun c => idiv c s) (fun c => idiv_left c s) (coeffs l)))) with (v := if match snd (scale (fun c => idiv c s) (fun c => idiv_left c s) (coeffs l)) with Some _ => true | None => false end then None else option_map (fun u rho => (u rho / sval S s)%R) (n x));
        [exact E|exact F|reflexivity|exact C|exact We|apply Dx; left; reflexivity|reflexivity|].
      destruct (snd (scale (fun c => idiv c s) (fun c => idiv_left c s) (coeffs l))) as [ex|] eqn:Ex; [discriminate|]. intros f Nf rho. destruct (n x) as [u|] eqn:Nx; [|discriminate]. injection Nf as <-.
      rewrite <- (Num x l u Cx Nx). destruct (Req_EM_T (sval S s) 0) as [Z|Z].
      + destruct (coeffs l) as [|c cs] eqn:Ec.
        * unfold value. cbn. rewrite Ec. destruct (basis (emodule l)); cbn; unfold Rdiv; rewrite Rmult_0_l; reflexivity.
        * exfalso. inversion Wm as [|? ? Mc _]. subst. cbn in Ex. pose proof (L_idiv A S L _ c s Mc (K _)) as X. destruct (idiv c s); [tauto|]. discriminate Ex.
      + destruct (sdiv_spec A S L l s (mkElem (emodule l) (fst (scale (fun c => idiv c s) (fun c => idiv_left c s) (coeffs l)))) Wl (K _) Z) as (_ & _ & V); [|apply V].
        unfold sdiv, scaled, idiv_elem. destruct (scale (fun c => idiv c s) (fun c => idiv_left c s) (coeffs l)) as [cs o]. cbn in Ex. subst o. reflexivity.
    - (* Simplify *) destruct (Known x) as [l Cx]; [left; reflexivity|]. pose proof (g_wf _ _ _ G x l Cx) as Wl. destruct (simplify_spec A S L l Wl) as (z & E & Wz & _ & Vz & _).
      apply (Op x l (simplify l) (n x)); try reflexivity; [left; reflexivity|exact Cx|apply (simplify_to_performs A S); assumption| |].
      + intros y. cbn. unfold put. destruct (Z.eqb_spec y x) as [->|]; reflexivity.
      + intros r Er. assert (r = z) as -> by congruence. split; [exact Wz|]. intros f Nf rho. rewrite Vz. apply (Num x l f Cx Nf).
    - (* Destroy *) destruct (Known x) as [l Cx]; [left; reflexivity|]. destruct (content_inv A m x l Cx) as (a & Hx & Ha).
      set (m' := mkMem (impls (free m a)) (next (free m a)) (fun y => if y =? x then None else vars (free m a) y)).
      assert (Ot : forall y, y <> x -> content A m' y = content A m y).
      { intros y N. unfold content, m'. cbn. destruct (Z.eqb_spec y x) as [|_]; [contradiction|]. destruct (vars m y) as [b|] eqn:Hy; [|reflexivity].
        destruct (Nat.eqb_spec b a) as [->|]; [|reflexivity]. exfalso. apply N. apply (ok_single A m [] H y x a Hy Hx). }
      assert (Ct : content A m' x = None) by (unfold content, m'; cbn; rewrite Z.eqb_refl; reflexivity).
      exists m', None. split; [cbn; unfold this, deref; rewrite Hx, Ha; reflexivity|]. split; [|exact Ot]. constructor.
      + constructor.
        * intros b Hb. cbn. rewrite (ok_fresh A m [] H b Hb). destruct (b =? a)%nat; reflexivity.
        * intros y b. cbn. destruct (Z.eqb_spec y x) as [|N]; [discriminate|]. intros Hy. destruct (Nat.eqb_spec b a) as [->|]; [exfalso; apply N, (ok_single A m [] H y x a Hy Hx)|apply (ok_live A m [] H y b Hy)].
        * intros y y' b. cbn. destruct (Z.eqb_spec y x) as [|N]; [discriminate|]. destruct (Z.eqb_spec y' x) as [|N']; [discriminate|]. apply (ok_single A m [] H).
        * intros t [].
        * constructor.
        * intros b f. cbn. destruct (Nat.eqb_spec b a) as [->|Nb]; [discriminate|]. intros Fb. destruct (ok_owned A m [] H b f Fb) as [[]|[y Hy]]. right. exists y.
          destruct (Z.eqb_spec y x) as [->|]; [congruence|exact Hy].
      + intros y e Cy. destruct (Z.eq_dec y x) as [->|N]; [congruence|]. rewrite (Ot y N) in Cy. apply (g_wf _ _ _ G y e Cy).
      + intros y. cbn [exists_after]. destruct (Z.eqb_spec y x) as [->|N]; [rewrite Ct; split; [intros [e E]; discriminate|discriminate]|]. rewrite (Ot y N). apply (g_exists _ _ _ G).
      + intros y f. cbn [denote]. unfold put. destruct (Z.eqb_spec y x) as [->|N]; [discriminate|]. rewrite (Ot y N). apply (g_number _ _ _ G).
  Qed.
  Lemma run_spec prog : forall m d n, good m d n -> Forall (statement_ok S) prog -> closed d prog ->
    exists m' os, run m prog = Some (m', os) /\ length os = length prog /\
      good m' (fold_left exists_after prog d) (denotes S n prog (map (fun o => match o with Some _ => true | None => false end) os)).
  Proof.
    induction prog as [|st prog IH]; intros m d n G K C; cbn [run].
    - exists m, []. auto.
    - inversion K as [|? ? K1 K2]; subst. destruct C as [C1 C2]. destruct (exec_spec m d n st G K1 C1) as (m1 & ex & -> & G1 & _). destruct (IH m1 _ _ G1 K2 C2) as (m2 & os & -> & Lo & G2).
      exists m2, (ex :: os). split; [reflexivity|]. split; [cbn; congruence|exact G2].
  Qed.
  Lemma good_start : good empty_memory (fun _ => false) (fun _ => None).
  Proof.
    constructor.
    - constructor; [reflexivity|discriminate|discriminate|intros t []|constructor|discriminate].
    - discriminate.
    - intros x. split; [intros [e E]; discriminate|discriminate].
    - discriminate.
  Qed.
End Programs.

(** The exceptions of a run *)
Definition thrown (os : list (option exn)) : list bool := map (fun o => match o with Some _ => true | None => false end) os.

(** Every program that only uses variables that exist runs without reading or writing destroyed objects, and after it
    each variable contains the number that one gets by calculating with numbers, where statements that have thrown had no
    effect. *)
Theorem C95_programs : forall A S, lawful A S -> forall prog : list (statement A), Forall (statement_ok S) prog -> closed (fun _ => false) prog ->
  exists m os, run empty_memory prog = Some (m, os) /\ length os = length prog /\
    forall x f, denotes S (fun _ => None) prog (thrown os) x = Some f -> exists e, holds m x e /\ elem_wf S e /\ forall rho, value S rho e = f rho.
Proof.
  intros A S L prog K C. destruct (run_spec A S L prog empty_memory (fun _ => false) (fun _ => None) (good_start A S) K C) as (m & os & E & Lo & G).
  exists m, os. split; [exact E|]. split; [exact Lo|]. intros x f N. destruct (g_number _ _ _ _ _ G x f N) as (e & Ce & V). exists e. split; [apply content_holds, Ce|]. split; [apply (g_wf _ _ _ _ _ G x e Ce)|exact V].
Qed.

(** Two variables never share an object, and no object is leaked: the objects are those of the variables that exist. *)
Theorem C95_objects : forall A S, lawful A S -> forall (prog : list (statement A)) m os, Forall (statement_ok S) prog -> closed (fun _ => false) prog -> run empty_memory prog = Some (m, os) ->
  (forall x y a, vars m x = Some a -> vars m y = Some a -> x = y) /\
  (forall a, impls m a <> None <-> exists x, vars m x = Some a) /\
  (forall x, vars m x <> None <-> fold_left exists_after prog (fun _ => false) x = true).
Proof.
  intros A S L prog m os K C E. destruct (run_spec A S L prog empty_memory (fun _ => false) (fun _ => None) (good_start A S) K C) as (m' & os' & E' & _ & G).
  assert (m' = m) as -> by congruence. pose proof (g_ok _ _ _ _ _ G) as H. split; [exact (ok_single A m [] H)|]. split.
  - intros a. split.
    + intros N. destruct (impls m a) as [e|] eqn:Ea; [|congruence]. destruct (ok_owned A m [] H a e Ea) as [[]|K0]. exact K0.
    + intros [x Hx]. destruct (ok_live A m [] H x a Hx) as [e ->]. discriminate.
  - intros x. rewrite <- (g_exists _ _ _ _ _ G x). unfold content. destruct (vars m x) as [a|] eqn:Hx.
    + destruct (ok_live A m [] H x a Hx) as [e ->]. split; [eauto|discriminate].
    + split; [congruence|intros [e Ee]; discriminate].
Qed.

(** A statement only changes its target: everything else stays as it is, also when it throws. *)
Theorem C95_frame : forall A S, lawful A S -> forall (prog : list (statement A)) st m os m' o, Forall (statement_ok S) (prog ++ [st]) -> closed (fun _ => false) (prog ++ [st]) ->
  run empty_memory prog = Some (m, os) -> exec m st = Some (m', o) -> forall y e, y <> target st -> (holds m' y e <-> holds m y e).
Proof.
  intros A S L prog st m os m' o K C E X y e N.
  assert (App : forall p d, closed d (p ++ [st]) -> closed d p /\ (forall x, In x (uses st) -> fold_left exists_after p d x = true)).
  { clear. induction p as [|s p IH]; intros d; cbn; [intros [H _]; auto|]. intros [H1 H2]. destruct (IH _ H2). auto. }
  destruct (App prog _ C) as [C1 C2]. apply Forall_app in K. destruct K as [K1 K2]. inversion K2 as [|? ? K3 _]; subst.
  destruct (run_spec A S L prog empty_memory (fun _ => false) (fun _ => None) (good_start A S) K1 C1) as (m1 & os1 & E1 & _ & G).
  assert (m1 = m) as -> by congruence. destruct (exec_spec A S L m _ _ st G K3 C2) as (m2 & ex & E2 & _ & F). assert (m2 = m') as -> by congruence.
  rewrite <- !content_holds, (F y N). reflexivity.
Qed.

(** Aliases make no difference: x op= y is what the operation on copies gives, also if x and y are the same variable. *)
Theorem C95_alias : forall A S, lawful A S -> forall (prog : list (statement A)) m os x y l r, Forall (statement_ok S) prog -> closed (fun _ => false) prog -> run empty_memory prog = Some (m, os) ->
  holds m x l -> holds m y r ->
  (forall z, add l r = Ok z -> exists m', exec m (AddTo x y) = Some (m', None) /\ holds m' x z) /\
  (forall z, sub l r = Ok z -> exists m', exec m (SubTo x y) = Some (m', None) /\ holds m' x z) /\
  (forall z, mul l r = Ok z -> exists m', exec m (MulTo x y) = Some (m', None) /\ holds m' x z) /\
  (forall e, add l r = Err e -> exists m' e', exec m (AddTo x y) = Some (m', Some e')) /\
  (forall e, sub l r = Err e -> exists m' e', exec m (SubTo x y) = Some (m', Some e')) /\
  (forall e, mul l r = Err e -> exists m' e', exec m (MulTo x y) = Some (m', Some e')).
Proof.
  intros A S L prog m os x y l r K C E Hl Hr. destruct (run_spec A S L prog empty_memory (fun _ => false) (fun _ => None) (good_start A S) K C) as (m1 & os1 & E1 & _ & G).
  assert (m1 = m) as -> by congruence. apply content_holds in Hl, Hr. pose proof (g_wf _ _ _ _ _ G x l Hl) as Wl. pose proof (g_wf _ _ _ _ _ G y r Hr) as Wr.
  destruct (content_inv A m y r Hr) as (b & Hy & Hb). pose proof (g_ok _ _ _ _ _ G) as H. cbn [exec]. unfold this, deref. rewrite Hy, Hb.
  assert (Good : forall o res, performs A S o m [] x l res -> forall z, res = Ok z -> exists m', o = Some (m', None) /\ holds m' x z).
  { intros o res (m' & ex & -> & _ & P) z ->. destruct P as [-> P]. exists m'. split; [reflexivity|]. apply content_holds, P. }
  assert (Bad : forall o res, performs A S o m [] x l res -> forall e, res = Err e -> exists m' e', o = Some (m', Some e')).
  { intros o res (m' & ex & -> & _ & P) e ->. destruct P as [N _]. destruct ex as [e'|]; [|congruence]. eauto. }
  pose proof (add_to_performs A S L m [] x b l r H Hl Hb Wl Wr) as P1. pose proof (sub_to_performs A S L m [] x b l r H Hl Hb Wl Wr) as P2. pose proof (mul_to_performs A S L m [] x b l r H Hl Hb Wl Wr) as P3.
  split; [exact (Good _ _ P1)|]. split; [exact (Good _ _ P2)|]. split; [exact (Good _ _ P3)|]. split; [exact (Bad _ _ P1)|]. split; [exact (Bad _ _ P2)|exact (Bad _ _ P3)].
Qed.

(** One statement, without scalars *)
Lemma exec_plain A S (L : lawful A S) p (m : memory A) d n st m1 ex : good A S m d n -> (forall x e, content A m x = Some e -> standard S p e) -> plain S p st -> (forall x, In x (uses st) -> d x = true) ->
  exec m st = Some (m1, ex) -> ex = None /\ forall e, content A m1 (target st) = Some e -> standard S p e.
Proof.
    intros G St K1 C1 E.
    assert (Known : forall x, In x (uses st) -> exists e, content A m x = Some e) by (intros x I; apply (g_exists _ _ _ _ _ G), C1, I).
    pose proof (g_ok _ _ _ _ _ G) as H.
    (* the target *)
    assert (Op : forall x l res, performs A S (exec m st) m [] x l res -> target st = x -> (exists z, res = Ok z /\ standard S p z) -> ex = None /\ forall e, content A m1 (target st) = Some e -> standard S p e).
    { intros x l res (m' & ex' & E' & _ & P) Ht (z & -> & Sz). assert (m' = m1 /\ ex' = ex) as [-> ->] by (split; congruence). destruct P as [-> P]. split; [reflexivity|]. rewrite Ht, P. intros e [= <-]. exact Sz. }
    assert (As : forall e, exec m st = Some (assign m (target st) e, None) -> standard S p e -> ex = None /\ forall e', content A m1 (target st) = Some e' -> standard S p e').
    { intros e E' Se. assert (m1 = assign m (target st) e /\ ex = None) as [-> ->] by (split; congruence). split; [reflexivity|]. rewrite (proj2 (assign_ok A m [] (target st) e H)). intros e' [= <-]. exact Se. }
    destruct st as [x e|x y|x y|x y|x y|x y|x g|x s|x s|x|x]; cbn [plain uses target] in *; try contradiction.
      - apply (As e); [reflexivity|exact K1].
      - destruct (Known y) as [e Cy]; [left; reflexivity|]. destruct (content_inv A m y e Cy) as (a & Hy & Ha). apply (As e); [cbn; unfold this, deref; rewrite Hy, Ha; reflexivity|apply (St y e Cy)].
      - destruct (Known y) as [e Cy]; [left; reflexivity|]. destruct (content_inv A m y e Cy) as (a & Hy & Ha). apply (As (opp e)); [cbn; unfold this, deref; rewrite Hy, Ha; reflexivity|apply (std_opp A S L p e (St y e Cy))].
      - destruct (Known x) as [l Cx]; [left; reflexivity|]. destruct (Known y) as [r Cy]; [right; left; reflexivity|]. destruct (content_inv A m y r Cy) as (b & Hy & Hb).
        pose proof (St x l Cx) as Sl. pose proof (St y r Cy) as Sr. apply (Op x l (add l r)); [|reflexivity|destruct (std_add A S L p l r Sl Sr) as (z & Ez & Sz & _); eauto].
        cbn. unfold this, deref. rewrite Hy, Hb. apply (add_to_performs A S L); try assumption; [apply Sl|apply Sr].
      - destruct (Known x) as [l Cx]; [left; reflexivity|]. destruct (Known y) as [r Cy]; [right; left; reflexivity|]. destruct (content_inv A m y r Cy) as (b & Hy & Hb).
        pose proof (St x l Cx) as Sl. pose proof (St y r Cy) as Sr. apply (Op x l (sub l r)); [|reflexivity|destruct (std_sub A S L p l r Sl Sr) as (z & Ez & Sz & _); eauto].
        cbn. unfold this, deref. rewrite Hy, Hb. apply (sub_to_performs A S L); try assumption; [apply Sl|apply Sr].
      - destruct (Known x) as [l Cx]; [left; reflexivity|]. destruct (Known y) as [r Cy]; [right; left; reflexivity|]. destruct (content_inv A m y r Cy) as (b & Hy & Hb).
        pose proof (St x l Cx) as Sl. pose proof (St y r Cy) as Sr. apply (Op x l (mul l r)); [|reflexivity|destruct (std_mul A S L p l r Sl Sr) as (z & Ez & Sz & _); eauto].
        cbn. unfold this, deref. rewrite Hy, Hb. apply (mul_to_performs A S L); try assumption; [apply Sl|apply Sr].
      - destruct (Known x) as [l Cx]; [left; reflexivity|]. pose proof (St x l Cx) as Sl. apply (Op x l (simplify l)); [|reflexivity|destruct (std_simplify L p l Sl) as (z & Ez & Sz & _); eauto].
        apply (simplify_to_performs A S); try assumption. apply Sl.
      - destruct (Known x) as [l Cx]; [left; reflexivity|]. destruct (content_inv A m x l Cx) as (a & Hx & Ha). cbn in E. unfold this, deref in E. rewrite Hx, Ha in E. unfold fine in E.
        split; [congruence|]. intros e Ce. assert (content A m1 x = None) as N; [|congruence].
        injection E as Em _. rewrite <- Em. unfold content. cbn. rewrite Z.eqb_refl. reflexivity.
Qed.

(** Over one ring of coefficients, with no rational generators but 1, nothing is thrown. *)
Theorem C95_nothing_thrown : forall A S, lawful A S -> forall p (prog : list (statement A)), Forall (plain S p) prog -> closed (fun _ => false) prog ->
  exists m os, run empty_memory prog = Some (m, os) /\ Forall (fun o => o = None) os /\
    (forall x e, holds m x e -> standard S p e) /\
    (forall x, fold_left exists_after prog (fun _ => false) x = true -> exists f e, denotes S (fun _ => None) prog (map (fun _ => false) prog) x = Some f /\ holds m x e /\ forall rho, value S rho e = f rho).
Proof.
  intros A S L p prog. 
  assert (Run : forall prog m d n, good A S m d n -> (forall x e, content A m x = Some e -> standard S p e) -> (forall x, d x = true -> n x <> None) -> Forall (plain S p) prog -> closed d prog ->
    exists m' os, run m prog = Some (m', os) /\ Forall (fun o => o = None) os /\ (forall x e, content A m' x = Some e -> standard S p e) /\
      good A S m' (fold_left exists_after prog d) (denotes S n prog (map (fun _ => false) prog)) /\ (forall x, fold_left exists_after prog d x = true -> denotes S n prog (map (fun _ => false) prog) x <> None)).
  { clear prog. induction prog as [|st prog IH]; intros m d n G St De K C.
    { exists m, []. split; [reflexivity|]. split; [constructor|]. split; [exact St|]. split; [exact G|exact De]. }
    inversion K as [|? ? K1 K2]; subst. destruct C as [C1 C2].
    assert (Ks : statement_ok S st) by (destruct st; cbn in *; try exact Logic.I; try contradiction; apply K1).
    destruct (exec_spec A S L m d n st G Ks C1) as (m1 & ex & E & G1 & F1).
    pose proof (exec_plain A S L p m d n st m1 ex G St K1 C1 E) as T.
    destruct T as [-> T]. rename G1 into G1'. pose proof G1' as G1. cbn [denote] in G1.
    assert (St1 : forall x e, content A m1 x = Some e -> standard S p e).
    { intros x e Ce. destruct (Z.eq_dec x (target st)) as [->|N]; [apply T, Ce|]. rewrite (F1 x N) in Ce. apply (St x e Ce). }
    destruct (IH m1 _ _ G1 St1) as (m2 & os & E2 & Os & St2 & G2 & D2); [|exact K2|exact C2|].
    { intros x. assert (U : forall y, In y (uses st) -> n y <> None) by (intros y I; apply De, C1, I).
      destruct st as [y e|y z|y z|y z|y z|y z|y g|y s|y s|y|y]; cbn [plain exists_after denote uses] in *; try contradiction; unfold put, combine2;
        try exact (De x); try (destruct (x =? y); [|exact (De x)]); try discriminate; intros _.
      - apply U. left. reflexivity.
      - specialize (U z (or_introl eq_refl)). destruct (n z); [discriminate|congruence].
      - pose proof (U y (or_introl eq_refl)) as U1. pose proof (U z (or_intror (or_introl eq_refl))) as U2. destruct (n y), (n z); congruence || discriminate.
      - pose proof (U y (or_introl eq_refl)) as U1. pose proof (U z (or_intror (or_introl eq_refl))) as U2. destruct (n y), (n z); congruence || discriminate.
      - pose proof (U y (or_introl eq_refl)) as U1. pose proof (U z (or_intror (or_introl eq_refl))) as U2. destruct (n y), (n z); congruence || discriminate. }
    exists m2, (None :: os). cbn [run]. rewrite E, E2. split; [reflexivity|]. split; [constructor; [reflexivity|exact Os]|]. split; [exact St2|]. split; [exact G2|exact D2]. }
  intros K C. destruct (Run prog empty_memory (fun _ => false) (fun _ => None) (good_start A S)) as (m & os & E & Os & St & G & D); [discriminate|discriminate|exact K|exact C|].
  exists m, os. split; [exact E|]. split; [exact Os|]. split; [intros x e He; apply (St x e), content_holds, He|]. intros x Hx. specialize (D x Hx).
  destruct (denotes S (fun _ => None) prog (map (fun _ => false) prog) x) as [f|] eqn:Ef; [|congruence]. destruct (g_number _ _ _ _ _ G x f Ef) as (e & Ce & V). exists f, e. split; [reflexivity|]. split; [apply content_holds, Ce|exact V].
Qed.

(** x = 3 + 2 a + 5 a b; y = -1 + b; x += y; x += x; x *= x; y -= y; z = x;
    z /= 8 throws since a coefficient is 4; y = -y; x.simplify(); the end of y *)
Definition demo : list (statement int_ring) :=
  [Define 0 ex; Define 1 ey; AddTo 0 1; AddTo 0 0; MulTo 0 0; SubTo 1 1; Copy 2 0; DivScalar 2 (SZ 8); Opposite 1 1; Simplify 0; Destroy 1].
Example C95_example : Forall (statement_ok int_sem) demo /\ closed (fun _ => false) demo /\
  match run empty_memory demo with
  | Some (m, os) => os = [None; None; None; None; None; None; None; Some InvalidArgument; None; None; None] /\ vars m 1 = None /\
      match vars m 0 with Some a => option_map coeffs (impls m a) = Some [16; 32; 16; 16; 96; 4; 80; 40; 100] | None => False end
  | None => False
  end.
Proof.
  split; [|split].
  - unfold demo. repeat (apply Forall_cons; [first [exact Logic.I|intros p; exact Logic.I|exact (proj1 ex_standard)|exact (proj1 ey_standard)]|]). apply Forall_nil.
  - cbn. repeat split; intros x; intuition subst; reflexivity.
  - vm_compute. repeat split.
Qed.
Example C95_plain_example : Forall (plain int_sem tt) [Define 0 ex; Copy 1 0; MulTo 0 0; SubTo 0 1] /\ closed (fun _ => false) [Define 0 ex; Copy 1 0; MulTo 0 0; SubTo 0 1].
Proof. split; [repeat (apply Forall_cons; [first [exact Logic.I|exact ex_standard]|]); apply Forall_nil|]. cbn. repeat split; intros x; intuition subst; reflexivity. Qed.
