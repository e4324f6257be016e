(** Property C71: exactly when *= and /= throw, and exactly when /= by an integer then leaves the element unchanged. *)
From Coq Require Import ZArith QArith Qcanon Bool List Reals Qreals Lra Lia.
From Verif Require Import Gen SpecGen GenProofs Ring SpecRing RingProofs Module Element SpecModule ModuleProofs ElementProofs PropModule PropElement PropMore.
Import ListNotations.
Open Scope R_scope.

Section Proofs.
  Variable A : ring.
  Variable S : semantics A.
  Hypothesis L : lawful A S.
  Implicit Types x y : elem A.
  Lemma scale_throws (f : car A -> result (car A)) l cs : (exists e, snd (scale f l cs) = Some e) <-> exists c e, In c cs /\ f c = Err e.
  Proof.
    induction cs as [|c cs IH]; cbn; [split; [intros [e H]; discriminate|intros (c & e & [] & _)]|]. destruct (f c) as [c'|e] eqn:E.
    - destruct (scale f l cs) as [r o] eqn:Es. cbn in IH |- *. rewrite IH. split.
      + intros (d & e & I & H). exists d, e. split; [right; exact I|exact H].
      + intros (d & e & [<-|I] & H); [congruence|]. exists d, e. split; [exact I|exact H].
    - cbn. split; [intros _; exists c, e; split; [left; reflexivity|exact E]|eauto].
  Qed.
  Lemma idiv_throws x s : elem_wf S x -> smem S (mring (emodule x)) s ->
    ((exists y e, idiv_elem x s = (y, Some e)) <-> exists c, In c (coeffs x) /\ (sval S s = 0 \/ ~ exists q, mem S (mring (emodule x)) q /\ val S q = val S c / sval S s)).
  Proof.
    intros (_ & _ & Mx) Hs. rewrite Forall_forall in Mx. pose proof (scale_throws (fun c => idiv c s) (fun c => idiv_left c s) (coeffs x)) as T.
    transitivity (exists e, snd (scale (fun c => idiv c s) (fun c => idiv_left c s) (coeffs x)) = Some e).
    { unfold idiv_elem. destruct (scale _ _ _) as [cs o]. cbn. split; [intros (y & e & H); injection H as _ H; eauto|intros [e H]; subst o; eauto]. }
    rewrite T. split.
    - intros (c & e & I & E). exists c. split; [exact I|]. pose proof (L_idiv A S L _ c s (Mx c I) Hs) as K. rewrite E in K. apply K.
    - intros (c & I & H). exists c. pose proof (L_idiv A S L _ c s (Mx c I) Hs) as K. destruct (idiv c s) as [d|e] eqn:E; [|exists e; split; [exact I|reflexivity]].
      exfalso. destruct K as (K1 & K2 & K3). destruct H as [H|H]; [contradiction|]. apply H. exists d. split; assumption.
  Qed.
  Lemma imul_throws x s : elem_wf S x -> smem S (mring (emodule x)) s ->
    ((exists y e, imul_elem x s = (y, Some e)) <-> exists c, In c (coeffs x) /\ ~ exists q, mem S (mring (emodule x)) q /\ val S q = val S c * sval S s).
  Proof.
    intros (_ & _ & Mx) Hs. rewrite Forall_forall in Mx. pose proof (scale_throws (fun c => imul c s) (fun c => imul_left c s) (coeffs x)) as T.
    transitivity (exists e, snd (scale (fun c => imul c s) (fun c => imul_left c s) (coeffs x)) = Some e).
    { unfold imul_elem. destruct (scale _ _ _) as [cs o]. cbn. split; [intros (y & e & H); injection H as _ H; eauto|intros [e H]; subst o; eauto]. }
    rewrite T. split.
    - intros (c & e & I & E). exists c. split; [exact I|]. pose proof (L_imul A S L _ c s (Mx c I) Hs) as K. rewrite E in K. apply K.
    - intros (c & I & H). exists c. pose proof (L_imul A S L _ c s (Mx c I) Hs) as K. destruct (imul c s) as [d|e] eqn:E; [|exists e; split; [exact I|reflexivity]].
      exfalso. apply H. exists d. exact K.
  Qed.
End Proofs.

(** * C71 *)
(** x /= s throws exactly if s is 0 and there is a coefficient, or if some coefficient cannot be divided in the ring; x *= s if some product is not in the ring. *)
Theorem C71_throws_partial : forall A S, lawful A S -> forall (x : elem A) s, elem_wf S x -> smem S (mring (emodule x)) s ->
  ((exists y e, idiv_elem x s = (y, Some e)) <-> exists c, In c (coeffs x) /\ (sval S s = 0 \/ ~ exists q, mem S (mring (emodule x)) q /\ val S q = val S c / sval S s)) /\
  ((exists y e, imul_elem x s = (y, Some e)) <-> exists c, In c (coeffs x) /\ ~ exists q, mem S (mring (emodule x)) q /\ val S q = val S c * sval S s).
Proof. intros A S L x s Hx Hs. split; [exact (idiv_throws A S L x s Hx Hs)|exact (imul_throws A S L x s Hx Hs)]. Qed.

Lemma scale_unchanged n : n <> 0%Z -> forall cs ds e, scale (A := int_ring) (fun c => int_idiv_z c n) (fun c => c) cs = (ds, Some e) ->
  (ds = cs <-> exists k c, nth_error cs k = Some c /\ ~ (n | c)%Z /\ forall i b, (i < k)%nat -> nth_error cs i = Some b -> b = 0%Z).
Proof.
  intros N. induction cs as [|c cs IH]; intros ds e H; [discriminate|]. cbn in H. unfold int_idiv_z in H at 1.
  destruct (Z.eqb_spec n 0) as [E0|_]; [contradiction|]. destruct (Z.eqb_spec (Z.rem c n) 0) as [R|R]; cbn [negb] in H.
  - destruct (scale _ _ cs) as [r o] eqn:Es. injection H as <- ->. specialize (IH r e eq_refl). apply Z.rem_divide in R; [|exact N]. destruct R as [k Ek].
    assert (Q : Z.quot c n = k) by (rewrite Ek; apply Z.quot_mul, N). rewrite Q. split.
    + intros E. injection E as E1 E2. apply IH in E2. destruct E2 as (j & d & J1 & J2 & J3). exists (Datatypes.S j), d. split; [exact J1|]. split; [exact J2|].
      assert (Zc : c = 0%Z). { rewrite E1 in Ek. assert (c * (n - 1) = 0)%Z as M by lia. apply Z.mul_eq_0 in M. destruct M as [M|M]; [exact M|]. exfalso. apply J2. exists d. lia. }
      intros [|i] b Li Hb; [cbn in Hb; congruence|]. apply (J3 i b); [lia|exact Hb].
    + intros ([|j] & d & J1 & J2 & J3).
      * exfalso. cbn in J1. injection J1 as <-. apply J2. exists k. exact Ek.
      * assert (Zc : c = 0%Z) by (apply (J3 0%nat c); [lia|reflexivity]). assert (Zk : k = 0%Z) by (rewrite Zc in Ek; symmetry in Ek; apply Z.mul_eq_0 in Ek; destruct Ek; [assumption|contradiction]).
        assert (Er : r = cs); [|rewrite Zk, Zc, Er; reflexivity].
        apply IH. exists j, d. split; [exact J1|]. split; [exact J2|]. intros i b Li Hb. apply (J3 (Datatypes.S i) b); [lia|exact Hb].
  - injection H as <- _. split; [|reflexivity]. intros _. exists 0%nat, c. split; [reflexivity|]. split; [|intros i b Li; lia].
    intros D. apply R. apply Z.rem_divide; assumption.
Qed.
(** When a division by an integer throws, the element is unchanged exactly if all coefficients before one that cannot be divided are 0. *)
Theorem C71_unchanged_partial : forall (x y : elem int_ring) n e, elem_wf int_sem x -> n <> 0%Z -> idiv_elem x (SZ n) = (y, Some e) ->
  (y = x <-> exists k c, nth_error (coeffs x) k = Some c /\ ~ (n | c)%Z /\ forall i b, (i < k)%nat -> nth_error (coeffs x) i = Some b -> b = 0%Z).
Proof.
  intros x y n e _ N H. unfold idiv_elem in H. destruct (scale _ _ _) as [ds o] eqn:E. injection H as <- ->.
  rewrite <- (scale_unchanged n N (coeffs x) ds e E). destruct x as [M cs]. cbn. split; [intros K; injection K as K; exact K|intros ->; reflexivity].
Qed.
Example C71_unchanged_case : idiv_elem (mkElem (A := int_ring) (zmod [g1; ga; gab]) [0; 3; 2]%Z) (SZ 2) = (mkElem (A := int_ring) (zmod [g1; ga; gab]) [0; 3; 2]%Z, Some InvalidArgument) /\
  elem_wf int_sem (mkElem (A := int_ring) (zmod [g1; ga; gab]) [0; 3; 2]%Z) /\ ~ (2 | 3)%Z.
Proof.
  split; [vm_compute; reflexivity|]. split; [split; [unfold zmod; cbn [emodule]; module_ok|split; [reflexivity|repeat constructor]]|]. intros [k K]. lia.
Qed.
(** When a division by a rational number throws over the integers, the element has always changed, unless the divisor is 0 or an integer;
    when a multiplication throws, unless the numerator is 1. *)
Theorem C71_changed_partial : forall (x y : elem int_ring) (q : Qc) e, elem_wf int_sem x ->
  (idiv_elem x (SQ q) = (y, Some e) -> Q2R q <> 0 -> Qden q <> 1%positive -> y <> x) /\
  (imul_elem x (SQ q) = (y, Some e) -> Qnum q <> 1%Z -> y <> x).
Proof.
  intros x y q e Hx. destruct (C71_integers_partial x y e Hx) as (_ & _ & D & M). split.
  - intros H N Nd ->. destruct (D q H N) as (k & c & K1 & K2 & K3). rewrite K1 in K3. injection K3 as K3. apply K2.
    assert (c * (Zpos (Qden q) - 1) = 0)%Z as Z by lia. apply Z.mul_eq_0 in Z. destruct Z as [Z|Z]; [exists 0%Z; rewrite Z; reflexivity|]. exfalso. apply Nd. lia.
  - intros H N ->. destruct (M q H) as (k & c & K1 & K2 & K3). rewrite K1 in K3. injection K3 as K3. apply K2.
    assert (c * (Qnum q - 1) = 0)%Z as Z by lia. apply Z.mul_eq_0 in Z. destruct Z as [Z|Z]; [exists 0%Z; rewrite Z; reflexivity|]. exfalso. apply N. lia.
Qed.
Example C71_changed_case : let x := mkElem (A := int_ring) (zmod [g1]) [1%Z] in elem_wf int_sem x /\ idiv_elem x (SQ (Q2Qc (2 # 3))) = (mkElem (A := int_ring) (zmod [g1]) [3%Z], Some InvalidArgument) /\
  Qden (Q2Qc (2 # 3)) <> 1%positive.
Proof. split; [split; [unfold zmod; cbn [emodule]; module_ok|split; [reflexivity|repeat constructor]]|]. split; [vm_compute; reflexivity|discriminate]. Qed.
