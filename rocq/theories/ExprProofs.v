(** Proofs about Expr.v *)
From Coq Require Import ZArith QArith Qcanon Bool List Reals Lia.
From Verif Require Import Gen SpecGen Ring SpecRing Module Element SpecModule ModuleProofs ElementProofs ElementProofs2 ElementProofs3 ElementProofs4 PyProofs Store SpecStore StoreProofs PropStore Expr SpecExpr.
Import ListNotations.
Open Scope Z_scope.

Lemma temp_neg k : temp k < 0.
Proof. unfold temp. lia. Qed.
Lemma temp_inj i j : temp i = temp j -> i = j.
Proof. unfold temp. lia. Qed.
(** One of the temporary objects k, ..., k' - 1 *)
Definition is_temp (k k' : nat) (y : Z) : bool := (y <? 0) && (k <=? Z.to_nat (- y - 1))%nat && (Z.to_nat (- y - 1) <? k')%nat.
Lemma is_temp_spec k k' y : is_temp k k' y = true <-> exists i, (k <= i < k')%nat /\ y = temp i.
Proof.
  unfold is_temp. rewrite !andb_true_iff, Z.ltb_lt, Nat.leb_le, Nat.ltb_lt. split.
  - intros [[H1 H2] H3]. exists (Z.to_nat (- y - 1)). split; [lia|]. unfold temp. lia.
  - intros (i & H & ->). unfold temp. split; [split|]; lia.
Qed.
Lemma is_temp_refl k y : is_temp k k y = false.
Proof. apply not_true_iff_false. rewrite is_temp_spec. intros (i & H & _). lia. Qed.
Lemma is_temp_step k k' y : (k <= k')%nat -> is_temp k (Datatypes.S k') y = (y =? temp k') || is_temp k k' y.
Proof.
  intros H. apply eq_true_iff_eq. rewrite orb_true_iff, !is_temp_spec, Z.eqb_eq. split.
  - intros (i & Hi & ->). destruct (Nat.eq_dec i k') as [->|]; [left; reflexivity|right]. exists i. split; [lia|reflexivity].
  - intros [->|(i & Hi & ->)]; [exists k'|exists i]; (split; [lia|reflexivity]).
Qed.
Lemma is_temp_app k k1 k2 y : (k <= k1 <= k2)%nat -> is_temp k k2 y = is_temp k k1 y || is_temp k1 k2 y.
Proof.
  intros H. apply eq_true_iff_eq. rewrite orb_true_iff, !is_temp_spec. split.
  - intros (i & Hi & ->). destruct (Nat.lt_ge_cases i k1); [left|right]; exists i; (split; [lia|reflexivity]).
  - intros [(i & Hi & ->)|(i & Hi & ->)]; exists i; (split; [lia|reflexivity]).
Qed.
Lemma is_temp_nonneg k k' y : 0 <= y -> is_temp k k' y = false.
Proof. intros H. unfold is_temp. assert (y <? 0 = false) as -> by (apply Z.ltb_ge; exact H). reflexivity. Qed.

Section Proofs.
  Context (A : ring) (S : semantics A) (L : lawful A S).
  Implicit Types m : memory A.
  Definition raised (ex : option exn) : bool := match ex with Some _ => true | None => false end.
  Definition live (d : Z -> bool) (k k' : nat) (y : Z) : bool := if is_temp k k' y then true else d y.

  (** * Expressions *)
  Record evaluated m (d : Z -> bool) (n : numbers) (k : nat) m' k' (r : result Z) (v : option ((Z -> R) -> R)) (n' : numbers) : Prop := {
    ev_le : (k <= k')%nat;
    ev_good : good A S m' (live d k k') n';
    ev_content : forall y, is_temp k k' y = false -> content A m' y = content A m y;
    ev_numbers : forall y, is_temp k k' y = false -> n' y = n y;
    ev_result : forall x, r = Ok x -> live d k k' x = true /\ (is_temp k k' x = true \/ 0 <= x) /\ n' x = v
  }.
  Definition room (d : Z -> bool) (k : nat) : Prop := forall i, (k <= i)%nat -> d (temp i) = false.
  Lemma room_live d k k' : room d k -> (k <= k')%nat -> room (live d k k') k'.
  Proof.
    intros Rm H i Hi. unfold live. assert (is_temp k k' (temp i) = false) as ->; [|apply Rm; lia].
    apply not_true_iff_false. rewrite is_temp_spec. intros (j & Hj & E). apply temp_inj in E. lia.
  Qed.
  (** A statement that makes a new temporary object *)
  Lemma create_spec m d n k st : good A S m d n -> statement_ok S st -> (forall x, In x (uses st) -> d x = true) -> room d k ->
    target st = temp k -> (forall y, exists_after d st y = if y =? temp k then true else d y) -> forall v, (forall y, denote S n st false y = put n (temp k) v y) -> (forall m1 ex, exec m st = Some (m1, ex) -> ex = None) ->
    exists m' n', create m k st = Some (m', Datatypes.S k, Ok (temp k)) /\ evaluated m d n k m' (Datatypes.S k) (Ok (temp k)) v n'.
  Proof.
    intros G K U Rm Ht He v Hd Hn. destruct (exec_spec A S L m d n st G K U) as (m1 & ex & E & G1 & F1). pose proof (Hn _ _ E) as ->.
    exists m1, (denote S n st false). unfold create. rewrite E. split; [reflexivity|].
    assert (Tk : forall y, is_temp k (Datatypes.S k) y = (y =? temp k)) by (intros y; rewrite is_temp_step by lia; rewrite is_temp_refl, orb_false_r; reflexivity).
    constructor.
    - lia.
    - apply (good_ext A S m1 (exists_after d st) _ (denote S n st false)); [exact G1| |reflexivity]. intros y. rewrite He. unfold live. rewrite Tk. reflexivity.
    - intros y Hy. rewrite Tk in Hy. apply Z.eqb_neq in Hy. apply F1. rewrite Ht. exact Hy.
    - intros y Hy. rewrite Tk in Hy. rewrite Hd. unfold put. rewrite Hy. reflexivity.
    - intros x [= <-]. unfold live. rewrite Tk, Z.eqb_refl. split; [reflexivity|]. split; [left; reflexivity|]. rewrite Hd. unfold put. rewrite Z.eqb_refl. reflexivity.
  Qed.
  (** A statement that changes a temporary object *)
  Lemma modify_spec m d n k i st : good A S m d n -> statement_ok S st -> (forall x, In x (uses st) -> d x = true) ->
    target st = temp i -> (forall y, exists_after d st y = d y) -> forall v, (forall y, denote S n st false y = put n (temp i) v y) -> (forall y, y <> temp i -> denote S n st true y = n y) ->
    exists m' n' r, modify m k (temp i) st = Some (m', k, r) /\ good A S m' d n' /\ (forall y, y <> temp i -> content A m' y = content A m y /\ n' y = n y) /\ (r = Ok (temp i) \/ exists err, r = Err err) /\
      (forall x, r = Ok x -> n' x = v).
  Proof.
    intros G K U Ht He v Hd Hr. destruct (exec_spec A S L m d n st G K U) as (m1 & ex & E & G1 & F1). exists m1, (denote S n st (match ex with Some _ => true | None => false end)).
    unfold modify. rewrite E. assert (G2 : good A S m1 d (denote S n st (match ex with Some _ => true | None => false end))) by (apply (good_ext A S m1 (exists_after d st) _ (denote S n st (match ex with Some _ => true | None => false end))); [exact G1|intros y; symmetry; apply He|reflexivity]).
    destruct ex as [err|].
    - exists (Err err). split; [reflexivity|]. split; [exact G2|]. split; [|split; [right; eauto|discriminate]]. intros y Hy. split; [apply F1; rewrite Ht; exact Hy|]. apply Hr, Hy.
    - exists (Ok (temp i)). split; [reflexivity|]. split; [exact G2|]. split; [|split; [left; reflexivity|]].
      + intros y Hy. split; [apply F1; rewrite Ht; exact Hy|]. rewrite Hd. unfold put. apply Z.eqb_neq in Hy. rewrite Hy. reflexivity.
      + intros x [= <-]. rewrite Hd. unfold put. rewrite Z.eqb_refl. reflexivity.
  Qed.
  (** T nrv(x); nrv op= ...; return nrv *)
  Lemma copy_modify_spec m d n k x (st : statement A) (f : option ((Z -> R) -> R) -> option ((Z -> R) -> R)) : good A S m d n -> room d k -> d x = true -> statement_ok S st ->
    (forall y, In y (uses st) -> y = temp k \/ d y = true) -> target st = temp k -> (forall d' y, exists_after d' st y = d' y) ->
    (forall n' y, (forall z, z <> temp k -> n' z = n z) -> denote S n' st false y = put n' (temp k) (f (n' (temp k))) y) -> (forall n' y, y <> temp k -> denote S n' st true y = n' y) ->
    exists m' n' r, after (create m k (Copy (temp k) x)) (fun m3 k3 t => modify m3 k3 t st) = Some (m', Datatypes.S k, r) /\ evaluated m d n k m' (Datatypes.S k) r (f (n x)) n'.
  Proof.
    intros G Rm Dx K U Ht He Hd Hr.
    destruct (create_spec m d n k (Copy (temp k) x) G Logic.I) with (v := n x) as (m1 & n1 & -> & [E1 E2 E3 E4 E5]); try reflexivity.
    { intros y [<-|[]]. exact Dx. } { exact Rm. }
    { intros m1 ex. cbn. unfold this, deref. destruct (vars m x) as [a|]; [|discriminate]. destruct (impls m a); [|discriminate]. unfold fine. congruence. }
    cbn [after]. destruct (E5 (temp k) eq_refl) as (D1 & _ & N1).
    assert (Tk : forall y, is_temp k (Datatypes.S k) y = (y =? temp k)) by (intros y; rewrite is_temp_step by lia; rewrite is_temp_refl, orb_false_r; reflexivity).
    assert (N0 : forall z, z <> temp k -> n1 z = n z) by (intros z Hz; apply E4; rewrite Tk; apply Z.eqb_neq, Hz).
    destruct (modify_spec m1 (live d k (Datatypes.S k)) n1 (Datatypes.S k) k st E2 K) with (v := f (n1 (temp k))) as (m2 & n2 & r & -> & G2 & F2 & R2 & V2).
    { intros y Hy. destruct (U y Hy) as [->|Dy]; [exact D1|]. unfold live. destruct (is_temp _ _ _); [reflexivity|exact Dy]. }
    { exact Ht. } { intros y. apply He. } { intros y. apply Hd. exact N0. } { intros y. apply Hr. }
    exists m2, n2, r. split; [reflexivity|]. constructor; [lia|exact G2| | |].
    - intros y Hy. destruct (F2 y) as [-> _]; [apply Z.eqb_neq; rewrite <- Tk; exact Hy|]. apply E3, Hy.
    - intros y Hy. destruct (F2 y) as [_ ->]; [apply Z.eqb_neq; rewrite <- Tk; exact Hy|]. apply E4, Hy.
    - intros z Hz. rewrite (V2 z Hz), N1. destruct R2 as [->|[err ->]]; [|discriminate]. injection Hz as <-. split; [exact D1|]. split; [left; rewrite Tk; apply Z.eqb_refl|reflexivity].
  Qed.
  Lemma evaluated_error m d n k m' k' err v v' n' : evaluated m d n k m' k' (Err err) v n' -> evaluated m d n k m' k' (Err err) v' n'.
  Proof. intros [E1 E2 E3 E4 E5]. constructor; try assumption. discriminate. Qed.
  Lemma evaluated_trans m d n k m1 k1 r1 v1 n1 m2 k2 r2 v2 n2 : evaluated m d n k m1 k1 r1 v1 n1 -> evaluated m1 (live d k k1) n1 k1 m2 k2 r2 v2 n2 -> evaluated m d n k m2 k2 r2 v2 n2.
  Proof.
    intros [E1 E2 E3 E4 _] [F1 F2 F3 F4 F5].
    assert (T : forall y, is_temp k k2 y = is_temp k k1 y || is_temp k1 k2 y) by (intros y; apply is_temp_app; lia).
    assert (Lv : forall y, live d k k2 y = live (live d k k1) k1 k2 y).
    { intros y. unfold live. rewrite T. destruct (is_temp k k1 y), (is_temp k1 k2 y); reflexivity. }
    constructor.
    - lia.
    - apply (good_ext A S m2 (live (live d k k1) k1 k2) _ n2); [exact F2|exact Lv|reflexivity].
    - intros y Hy. rewrite T in Hy. apply orb_false_iff in Hy. rewrite (F3 y (proj2 Hy)). apply E3, Hy.
    - intros y Hy. rewrite T in Hy. apply orb_false_iff in Hy. rewrite (F4 y (proj2 Hy)). apply E4, Hy.
    - intros x Hx. destruct (F5 x Hx) as (D & O & V). split; [rewrite Lv; exact D|]. split; [|exact V]. destruct O as [O|O]; [left|right; exact O]. rewrite T, O. apply orb_true_r.
  Qed.
  Lemma eval_spec e : forall m d n k, good A S m d n -> expr_ok S e -> (forall x, In x (mentions e) -> 0 <= x /\ d x = true) -> room d k ->
    exists m' k' r n', eval m k e = Some (m', k', r) /\ evaluated m d n k m' k' r (means S n e) n'.
  Proof.
    assert (One : forall e1 m d n k (cont : memory A -> nat -> Z -> evaluation A) (f : option ((Z -> R) -> R) -> option ((Z -> R) -> R)), (exists m' k' r n', eval m k e1 = Some (m', k', r) /\ evaluated m d n k m' k' r (means S n e1) n') ->
      (forall m1 d1 n1 k1 x, good A S m1 d1 n1 -> room d1 k1 -> d1 x = true -> exists m2 k2 r2 n2, cont m1 k1 x = Some (m2, k2, r2) /\ evaluated m1 d1 n1 k1 m2 k2 r2 (f (n1 x)) n2) -> room d k ->
      exists m' k' r n', after (eval m k e1) cont = Some (m', k', r) /\ evaluated m d n k m' k' r (f (means S n e1)) n').
    { intros e1 m d n k cont f (m1 & k1 & r & n1 & E & H) C Rm. rewrite E. destruct r as [x|err]; cbn [after].
      - destruct (ev_result _ _ _ _ _ _ _ _ _ H x eq_refl) as (D1 & O1 & V1).
        destruct (C m1 (live d k k1) n1 k1 x (ev_good _ _ _ _ _ _ _ _ _ H)) as (m2 & k2 & r2 & n2 & -> & H2); [apply room_live; [exact Rm|apply H]|exact D1|].
        rewrite V1 in H2. exists m2, k2, r2, n2. split; [reflexivity|]. exact (evaluated_trans _ _ _ _ _ _ _ _ _ _ _ _ _ _ H H2).
      - exists m1, k1, (Err err), n1. split; [reflexivity|]. exact (evaluated_error _ _ _ _ _ _ _ _ _ _ H). }
    assert (Op1 : forall (st : Z -> statement A) (f : option ((Z -> R) -> R) -> option ((Z -> R) -> R)) m1 d1 n1 k1 x, good A S m1 d1 n1 -> room d1 k1 -> d1 x = true -> (forall t, statement_ok S (st t)) -> (forall t, uses (st t) = [t]) -> (forall t, target (st t) = t) ->
      (forall t d' y, exists_after d' (st t) y = d' y) -> (forall t n' y, denote S n' (st t) false y = put n' t (f (n' t)) y) -> (forall t n' y, y <> t -> denote S n' (st t) true y = n' y) ->
      exists m2 k2 r2 n2, after (create m1 k1 (Copy (temp k1) x)) (fun m3 k3 t => modify m3 k3 t (st t)) = Some (m2, k2, r2) /\ evaluated m1 d1 n1 k1 m2 k2 r2 (f (n1 x)) n2).
    { intros st f m1 d1 n1 k1 x G1 R1 D1 K U T He Hd Hr.
      destruct (copy_modify_spec m1 d1 n1 k1 x (st (temp k1)) f G1 R1 D1) as (m2 & n2 & r & E & H); [apply K|intros y; rewrite U; intros [<-|[]]; left; reflexivity|apply T|intros d' y; apply He|intros n' y _; apply Hd|intros n' y; apply Hr|].
      exists m2, (Datatypes.S k1), r, n2. split; [|exact H]. rewrite <- E. unfold create. destruct (exec m1 (Copy (temp k1) x)) as [[m3 [err|]]|]; reflexivity. }
    induction e as [x|c|e1 IH|op e1 IH1 e2 IH2|e1 IH g|e1 IH s|e1 IH s]; intros m d n k G K M Rm; cbn [eval means expr_ok mentions] in *.
    - (* EVar *) exists m, k, (Ok x), n. split; [reflexivity|]. destruct (M x (or_introl eq_refl)) as [P D]. constructor; [lia| |reflexivity|reflexivity|].
      + apply (good_ext A S m d _ n); [exact G| |reflexivity]. intros y. unfold live. rewrite is_temp_refl. reflexivity.
      + intros z [= <-]. unfold live. rewrite is_temp_refl. auto.
    - (* ELit *) destruct (create_spec m d n k (Define (temp k) c) G K) with (v := Some (fun rho => value S rho c)) as (m' & n' & E & H); try reflexivity; [intros x []|exact Rm|intros m1 ex; cbn; unfold fine; congruence|].
      exists m', (Datatypes.S k), (Ok (temp k)), n'. split; [exact E|exact H].
    - (* ENeg *) apply (One e1 m d n k _ (option_map (fun u rho => (- u rho)%R)) (IH m d n k G K M Rm)); [|exact Rm]. intros m1 d1 n1 k1 x G1 R1 D1.
      destruct (create_spec m1 d1 n1 k1 (Opposite (temp k1) x) G1 Logic.I) with (v := option_map (fun u rho => (- u rho)%R) (n1 x)) as (m' & n' & E & H); try reflexivity; [intros y [<-|[]]; exact D1|exact R1| |].
      { intros m3 ex. cbn. unfold this, deref. destruct (vars m1 x) as [a|]; [|discriminate]. destruct (impls m1 a); [|discriminate]. unfold fine. congruence. }
      exists m', (Datatypes.S k1), (Ok (temp k1)), n'. split; [exact E|exact H].
    - (* EBin *) destruct K as [K1 K2].
      destruct (IH1 m d n k G K1 (fun x I => M x (in_or_app _ _ _ (or_introl I))) Rm) as (m1 & k1 & r1 & n1 & -> & H1).
      destruct r1 as [x|err]; cbn [after]; [|exists m1, k1, (Err err), n1; split; [reflexivity|exact (evaluated_error _ _ _ _ _ _ _ _ _ _ H1)]].
      pose proof H1 as [A1 A2 A3 A4 A5]. pose proof (room_live d k k1 Rm A1) as R1.
      assert (Tv : forall y, 0 <= y -> is_temp k k1 y = false) by (intros y; apply is_temp_nonneg).
      assert (M2 : forall y, In y (mentions e2) -> 0 <= y /\ live d k k1 y = true).
      { intros y I. destruct (M y (in_or_app _ _ _ (or_intror I))) as [P D]. split; [exact P|]. unfold live. destruct (is_temp _ _ _); [reflexivity|exact D]. }
      destruct (IH2 m1 (live d k k1) n1 k1 A2 K2 M2 R1) as (m2 & k2 & r2 & n2 & -> & H2).
      destruct r2 as [y|err]; cbn [after]; [|exists m2, k2, (Err err), n2; split; [reflexivity|]; apply (evaluated_error _ _ _ _ _ _ _ (means S n1 e2)); exact (evaluated_trans _ _ _ _ _ _ _ _ _ _ _ _ _ _ H1 H2)].
      pose proof H2 as [B1 B2 B3 B4 B5]. destruct (A5 x eq_refl) as (Dx & Ox & Vx). destruct (B5 y eq_refl) as (Dy & Oy & Vy).
      pose proof (room_live (live d k k1) k1 k2 R1 B1) as R2. set (d2 := live (live d k k1) k1 k2) in *.
      assert (Tx : is_temp k1 k2 x = false).
      { destruct Ox as [O|O]; [|apply is_temp_nonneg, O]. apply is_temp_spec in O. destruct O as (i & Hi & ->). apply not_true_iff_false. rewrite is_temp_spec. intros (j & Hj & E). apply temp_inj in E. lia. }
      assert (Dx2 : d2 x = true) by (unfold d2, live at 1; rewrite Tx; exact Dx).
      assert (Vx2 : n2 x = means S n e1) by (rewrite (B4 x Tx); exact Vx).
      assert (Vy2 : n2 y = means S n e2).
      { rewrite Vy. clear -M A4 Tv. assert (I : forall z, In z (mentions e2) -> n1 z = n z) by (intros z I; apply A4, Tv, (M z), in_or_app; right; exact I). clear M A4 Tv.
        induction e2 as [z|c|e1' IH|op' e1' IH1 e2' IH2|e1' IH g|e1' IH s|e1' IH s]; cbn [means mentions] in *; try (rewrite IH by exact I; reflexivity).
        - apply I. left. reflexivity.
        - reflexivity.
        - rewrite IH1, IH2; [reflexivity| |]; intros z Hz; apply I, in_or_app; auto. }
      assert (Ny : y <> temp k2).
      { intros E. specialize (R2 k2 (Nat.le_refl _)). rewrite <- E in R2. rewrite Dy in R2. discriminate. }
      destruct (copy_modify_spec m2 d2 n2 k2 x (compound op (temp k2) y) (fun u => combine2 (meaning_of op) u (n2 y)) B2 R2 Dx2) as (m3 & n3 & r3 & E3 & H3).
      { destruct op; exact Logic.I. } { destruct op; cbn; intros z [<-|[<-|[]]]; auto. } { destruct op; reflexivity. } { destruct op; reflexivity. }
      { intros n' z Hn'. destruct op; cbn [compound denote meaning_of]; rewrite (Hn' y Ny); reflexivity. }
      { intros n' z Hz. destruct op; reflexivity. }
      exists m3, (Datatypes.S k2), r3, n3. split.
      + rewrite <- E3. unfold create. destruct (exec m2 (Copy (temp k2) x)) as [[m4 [err|]]|]; reflexivity.
      + rewrite Vx2, Vy2 in H3. exact (evaluated_trans _ _ _ _ _ _ _ _ _ _ _ _ _ _ (evaluated_trans _ _ _ _ _ _ _ _ _ _ _ _ _ _ H1 H2) (ltac:(
          apply (fun X => match X with Build_evaluated _ _ _ _ _ _ _ _ _ a b c d0 e => Build_evaluated _ _ _ _ _ _ _ _ _ a b c d0 e end) in H3;
          constructor; [apply H3|apply (good_ext A S m3 (live d2 k2 (Datatypes.S k2)) _ n3); [apply H3|intros z; unfold live, d2; unfold live; rewrite (is_temp_app k k1 k2) by lia; destruct (is_temp k k1 z), (is_temp k1 k2 z); reflexivity|reflexivity]|apply H3|apply H3|
            intros z Hz; destruct (ev_result _ _ _ _ _ _ _ _ _ H3 z Hz) as (D & O & V); split; [|split; [exact O|exact V]]; revert D; unfold live, d2; unfold live; rewrite (is_temp_app k k1 k2) by lia; destruct (is_temp k k1 z), (is_temp k1 k2 z); auto]))).
    - (* EReal *) destruct K as [K1 K2]. apply (One e1 m d n k _ (option_map (fun u rho => (u rho * gen_val rho g)%R)) (IH m d n k G K1 M Rm)); [|exact Rm].
      intros m1 d1 n1 k1 x G1 R1 D1. apply (Op1 (fun t => MulReal t g)); try assumption; try reflexivity. intros t. exact K2.
    - (* EMul *) destruct K as [K1 K2]. apply (One e1 m d n k _ (option_map (fun u rho => (u rho * sval S s)%R)) (IH m d n k G K1 M Rm)); [|exact Rm].
      intros m1 d1 n1 k1 x G1 R1 D1. apply (Op1 (fun t => MulScalar t s)); try assumption; try reflexivity; [intros t; exact K2|]. intros t n' y Hy. cbn [denote]. unfold put. apply Z.eqb_neq in Hy. rewrite Hy. reflexivity.
    - (* EDiv *) destruct K as [K1 K2]. apply (One e1 m d n k _ (option_map (fun u rho => (u rho / sval S s)%R)) (IH m d n k G K1 M Rm)); [|exact Rm].
      intros m1 d1 n1 k1 x G1 R1 D1. apply (Op1 (fun t => DivScalar t s)); try assumption; try reflexivity; [intros t; exact K2|]. intros t n' y Hy. cbn [denote]. unfold put. apply Z.eqb_neq in Hy. rewrite Hy. reflexivity.
  Qed.

  Lemma good_absent m d n y : good A S m d n -> d y = false -> n y = None /\ content A m y = None /\ vars m y = None.
  Proof.
    intros G D. assert (C : content A m y = None).
    { destruct (content A m y) as [e|] eqn:E; [|reflexivity]. assert (X : d y = true) by (apply (g_exists A S m d n G); eauto). congruence. }
    split; [|split; [exact C|]].
    - destruct (n y) as [f|] eqn:E; [|reflexivity]. destruct (g_number A S m d n G y f E) as (e & Ce & _). congruence.
    - unfold content in C. destruct (vars m y) as [a|] eqn:E; [|reflexivity]. destruct (ok_live A m [] (g_ok A S m d n G) y a E) as [e Ee]. congruence.
  Qed.

  (** * Moves *)
  Lemma move_spec m d n z x : good A S m d n -> d x = true -> z <> x ->
    good A S (move m z x) (fun y => if y =? z then true else if y =? x then false else d y) (fun y => if y =? z then n x else if y =? x then None else n y) /\
    (forall y, y <> z -> y <> x -> content A (move m z x) y = content A m y /\ vars (move m z x) y = vars m y) /\
    content A (move m z x) z = content A m x /\ vars (move m z x) z = vars m x /\ vars (move m z x) x = None.
  Proof.
    intros G D N. pose proof (g_ok A S m d n G) as H. pose proof N as N'. apply Z.eqb_neq in N'.
    destruct (proj2 (g_exists A S m d n G x) D) as [e Ce]. destruct (content_inv A m x e Ce) as (a & Hx & Ha).
    assert (Vs : forall y, vars (move m z x) y = if y =? z then Some a else if y =? x then None else vars m y).
    { intros y. unfold move. rewrite N'. cbn. rewrite Hx. destruct (vars m z); reflexivity. }
    assert (Im : forall b, impls (move m z x) b = match vars m z with Some old => if Nat.eqb b old then None else impls m b | None => impls m b end).
    { intros b. unfold move. rewrite N'. destruct (vars m z); reflexivity. }
    assert (Nx : next (move m z x) = next m) by (unfold move; rewrite N'; destruct (vars m z); reflexivity).
    assert (Kp : forall y b, y <> z -> vars m y = Some b -> impls (move m z x) b = impls m b).
    { intros y b Hy Hb. rewrite Im. destruct (vars m z) as [old|] eqn:Ez; [|reflexivity]. destruct (Nat.eqb_spec b old) as [Eb|]; [|reflexivity]. subst old. destruct (Hy (ok_single A m [] H y z b Hb Ez)). }
    assert (Co : forall y, content A (move m z x) y = if y =? z then content A m x else if y =? x then None else content A m y).
    { intros y. unfold content at 1. rewrite Vs. destruct (Z.eqb_spec y z) as [->|Hy]; [rewrite (Kp x a (not_eq_sym N) Hx), Ha, Ce; reflexivity|].
      destruct (Z.eqb_spec y x) as [->|Hy']; [reflexivity|]. unfold content. destruct (vars m y) as [b|] eqn:Eb; [|reflexivity]. apply (Kp y b Hy Eb). }
    split; [constructor|split; [|split; [|split]]].
    - constructor.
      + intros b Hb. rewrite Nx in Hb. rewrite Im, (ok_fresh A m [] H b Hb). destruct (vars m z) as [old|]; [destruct (Nat.eqb b old)|]; reflexivity.
      + intros y b. rewrite Vs. destruct (Z.eqb_spec y z) as [->|Hy]; [intros [= <-]; rewrite (Kp x a (not_eq_sym N) Hx); eauto|].
        destruct (Z.eqb_spec y x); [discriminate|]. intros Hb. rewrite (Kp y b Hy Hb). apply (ok_live A m [] H y b Hb).
      + intros y y' b. rewrite !Vs. destruct (Z.eqb_spec y z) as [->|Hy], (Z.eqb_spec y' z) as [->|Hy']; try reflexivity.
        * intros [= <-]. destruct (Z.eqb_spec y' x) as [->|Nx']; [discriminate|]. intros Hb. destruct (Nx' (ok_single A m [] H y' x a Hb Hx)).
        * destruct (Z.eqb_spec y x) as [->|Nx']; [discriminate|]. intros Hb [= <-]. destruct (Nx' (ok_single A m [] H y x a Hb Hx)).
        * destruct (Z.eqb_spec y x); [discriminate|]. destruct (Z.eqb_spec y' x); [discriminate|]. apply (ok_single A m [] H).
      + intros t [].
      + constructor.
      + intros b f Hf. rewrite Im in Hf. right.
        assert (Fb : impls m b = Some f /\ vars m z <> Some b).
        { destruct (vars m z) as [old|]; [|split; [exact Hf|discriminate]]. destruct (Nat.eqb_spec b old) as [->|Nb]; [discriminate|]. split; [exact Hf|]. intros [= X]. congruence. }
        destruct Fb as [Fb Nz]. destruct (ok_owned A m [] H b f Fb) as [[]|[y Hy]]. destruct (Z.eq_dec y x) as [->|Ny].
        * exists z. rewrite Vs, Z.eqb_refl. congruence.
        * exists y. rewrite Vs. apply Z.eqb_neq in Ny. rewrite Ny. destruct (Z.eqb_spec y z) as [->|]; [congruence|exact Hy].
    - intros y e'. rewrite Co. destruct (y =? z); [apply (g_wf A S m d n G)|]. destruct (y =? x); [discriminate|apply (g_wf A S m d n G)].
    - intros y. rewrite Co. destruct (y =? z); [split; eauto|]. destruct (y =? x); [split; [intros [? ?]; discriminate|discriminate]|apply (g_exists A S m d n G)].
    - intros y f. rewrite Co. destruct (y =? z); [apply (g_number A S m d n G)|]. destruct (y =? x); [discriminate|apply (g_number A S m d n G)].
    - intros y Hy Hy'. apply Z.eqb_neq in Hy, Hy'. rewrite Co, Vs, Hy, Hy'. auto.
    - rewrite Co, Z.eqb_refl. reflexivity.
    - rewrite Vs, Z.eqb_refl, Hx. reflexivity.
    - rewrite Vs, Z.eqb_refl. apply not_eq_sym, Z.eqb_neq in N. rewrite N. reflexivity.
  Qed.

  (** * The end of a full expression *)
  Lemma drop_spec k : forall m d n, good A S m d n ->
    exists m', drop m k = Some m' /\ good A S m' (fun y => if is_temp 0 k y then false else d y) (fun y => if is_temp 0 k y then None else n y) /\
      forall y, is_temp 0 k y = false -> content A m' y = content A m y.
  Proof.
    induction k as [|k IH]; intros m d n G.
    - exists m. split; [reflexivity|]. split; [|reflexivity]. apply (good_ext A S m d _ n); [exact G| |]; intros y; rewrite is_temp_refl; reflexivity.
    - cbn [drop].
      assert (St : exists m1, (match vars m (temp k) with None => drop m k | Some _ => match exec m (Destroy (temp k)) with Some (m1, _) => drop m1 k | None => None end end) = drop m1 k /\
        good A S m1 (fun y => if y =? temp k then false else d y) (fun y => if y =? temp k then None else n y) /\ forall y, y <> temp k -> content A m1 y = content A m y).
      { destruct (d (temp k)) eqn:D.
        - destruct (exec_spec A S L m d n (Destroy (temp k)) G Logic.I) as (m1 & ex & E & G1 & F1); [intros x [<-|[]]; exact D|].
          exists m1. rewrite E. split; [|split; [exact G1|exact F1]].
          destruct (proj2 (g_exists A S m d n G (temp k)) D) as [e Ce]. unfold content in Ce. destruct (vars m (temp k)); [reflexivity|discriminate].
        - destruct (good_absent m d n (temp k) G D) as (N1 & N2 & N3). exists m. rewrite N3. split; [reflexivity|]. split; [|reflexivity].
          apply (good_ext A S m d _ n); [exact G| |]; intros y; destruct (Z.eqb_spec y (temp k)) as [->|]; congruence. }
      destruct St as (m1 & -> & G1 & F1). destruct (IH m1 _ _ G1) as (m2 & E2 & G2 & F2). exists m2. split; [exact E2|].
      assert (T : forall y, is_temp 0 (Datatypes.S k) y = (y =? temp k) || is_temp 0 k y) by (intros y; apply is_temp_step; lia).
      split.
      + apply (good_ext A S m2 _ _ _ _ G2); intros y; rewrite T; destruct (y =? temp k), (is_temp 0 k y); reflexivity.
      + intros y Hy. rewrite T in Hy. apply orb_false_iff in Hy. destruct Hy as [H1 H2]. rewrite (F2 y H2). apply F1, Z.eqb_neq, H1.
  Qed.

  (** * Commands *)
  Lemma exists_after_other d (st : statement A) y : y <> target st -> exists_after d st y = d y.
  Proof. intros N. apply Z.eqb_neq in N. destruct st; cbn in *; try rewrite N; reflexivity. Qed.
  Lemma exists_next_other d (c : command A) t y : ~ In y (targets c) -> exists_next d c t y = d y.
  Proof.
    intros N. destruct c as [st|z e|z x|x x']; cbn in *.
    - apply exists_after_other. intros ->. tauto.
    - destruct t; [reflexivity|]. destruct (Z.eqb_spec y z) as [->|]; tauto.
    - destruct (Z.eqb_spec y z) as [->|]; [tauto|]. destruct (Z.eqb_spec y x) as [->|]; tauto.
    - reflexivity.
  Qed.
  Lemma swap_spec m d n x y : good A S m d n -> room d 0 -> 0 <= x -> 0 <= y -> d x = true -> d y = true ->
    let m' := move (move (move m (temp 0) x) x y) y (temp 0) in
    good A S m' d (fun v => if v =? x then n y else if v =? y then n x else n v) /\ (forall v, v <> x -> v <> y -> content A m' v = content A m v /\ vars m' v = vars m v) /\
    content A m' x = content A m y /\ content A m' y = content A m x /\ vars m' x = vars m y /\ vars m' y = vars m x.
  Proof.
    intros G Rm Px Py Dx Dy m'. set (t := temp 0) in *. assert (Ht : t < 0) by apply temp_neg. assert (Dt : d t = false) by (apply Rm; lia).
    destruct (good_absent m d n t G Dt) as (Nt & Ct & Vt).
    destruct (move_spec m d n t x G Dx) as (G1 & F1 & C1 & V1 & W1); [lia|]. set (m1 := move m t x) in *.
    destruct (Z.eq_dec x y) as [Exy|Nxy].
    - subst y. assert (E2 : move m1 x x = m1) by (unfold move; rewrite Z.eqb_refl; reflexivity). subst m'. rewrite E2.
      destruct (move_spec m1 _ _ x t G1) as (G2 & F2 & C2 & V2 & W2); [rewrite Z.eqb_refl; reflexivity|lia|]. set (m2 := move m1 x t) in *.
      assert (F : forall v, v <> x -> content A m2 v = content A m v /\ vars m2 v = vars m v).
      { intros v Nv. destruct (Z.eq_dec v t) as [->|Nvt]; [split; [unfold content; rewrite W2; symmetry; exact Ct|rewrite W2; symmetry; exact Vt]|].
        destruct (F2 v Nv Nvt) as [-> ->]. apply F1; assumption. }
      split; [|split; [intros v Nv _; apply F, Nv|rewrite C2, V2; auto]].
      apply (good_ext A S m2 _ _ _ _ G2); intros v; destruct (Z.eqb_spec v x) as [->|]; try rewrite Z.eqb_refl; try congruence; destruct (Z.eqb_spec v t) as [->|]; try congruence; auto.
    - destruct (move_spec m1 _ _ x y G1) as (G2 & F2 & C2 & V2 & W2); [|exact Nxy|].
      { assert (y =? t = false) as -> by (apply Z.eqb_neq; lia). assert (y =? x = false) as -> by (apply Z.eqb_neq; lia). exact Dy. }
      set (m2 := move m1 x y) in *. destruct (F2 t) as [Ct2 Vt2]; [lia|lia|].
      destruct (move_spec m2 _ _ y t G2) as (G3 & F3 & C3 & V3 & W3); [|lia|].
      { cbv beta. assert (t =? x = false) as -> by (apply Z.eqb_neq; lia). assert (t =? y = false) as -> by (apply Z.eqb_neq; lia). rewrite Z.eqb_refl. reflexivity. }
      fold m' in G3, F3, C3, V3, W3. destruct (F3 x) as [Cx Vx]; [exact Nxy|lia|]. destruct (F1 y) as [Cy Vy]; [lia|lia|].
      split; [|split; [|rewrite Cx, Vx, C2, V2, C3, V3, Ct2, Vt2, Cy, Vy; auto]].
      + apply (good_ext A S m' _ _ _ _ G3); intros v; cbv beta;
          (destruct (Z.eqb_spec v y) as [->|Ny]; [|destruct (Z.eqb_spec v t) as [->|Ntv]; [|destruct (Z.eqb_spec v x) as [->|Nx]; [|reflexivity]]]);
          rewrite ?Z.eqb_refl; repeat match goal with |- context [?a =? ?b] => let X := fresh in assert (X : (a =? b) = false) by (apply Z.eqb_neq; lia); rewrite X; clear X end; congruence.
      + intros v Nx Ny. destruct (Z.eq_dec v t) as [->|Ntv]; [split; [unfold content; rewrite W3; symmetry; exact Ct|rewrite W3; symmetry; exact Vt]|].
        destruct (F3 v Ny Ntv) as [-> ->]. destruct (F2 v Nx Ny) as [-> ->]. apply F1; assumption.
  Qed.
  Lemma assign_spec m d n z e : good A S m d n -> room d 0 -> 0 <= z -> expr_ok S e -> (forall x, In x (mentions e) -> 0 <= x /\ d x = true) ->
    exists m' ex, perform m (Assign z e) = Some (m', ex) /\ good A S m' (exists_next d (Assign z e) (raised ex)) (denote_command S n (Assign z e) (raised ex)) /\
      (forall y, y <> z \/ ex <> None -> content A m' y = content A m y).
  Proof.
    intros G Rm Pz K M. destruct (eval_spec e m d n 0 G K M Rm) as (m1 & k & r & n1 & E & [_ E2 E3 E4 E5]). cbn [perform]. rewrite E.
    assert (Td : forall y, is_temp 0 k y = true -> d y = false /\ n y = None /\ content A m y = None).
    { intros y Hy. apply is_temp_spec in Hy. destruct Hy as (i & Hi & ->). specialize (Rm i ltac:(lia)). destruct (good_absent m d n (temp i) G Rm) as (? & ? & _). auto. }
    assert (Tz : is_temp 0 k z = false) by (apply is_temp_nonneg, Pz).
    (* dropping *)
    assert (Dr : forall m2 d2 n2 (o : option exn), good A S m2 d2 n2 -> exists m', finish m2 k o = Some (m', o) /\ good A S m' (fun y => if is_temp 0 k y then false else d2 y) (fun y => if is_temp 0 k y then None else n2 y) /\
      (forall y, is_temp 0 k y = false -> content A m' y = content A m2 y) /\ (forall y, is_temp 0 k y = true -> content A m' y = None)).
    { intros m2 d2 n2 o G2. destruct (drop_spec k m2 d2 n2 G2) as (m' & Ed & Gd & Fd). exists m'. unfold finish. rewrite Ed. split; [reflexivity|]. split; [exact Gd|]. split; [exact Fd|].
      intros y Hy. apply (good_absent m' _ _ y Gd). rewrite Hy. reflexivity. }
    destruct r as [x|err].
    - destruct (E5 x eq_refl) as (Dx & Ox & Vx). destruct (Z.ltb_spec x 0) as [Hx|Hx].
      + assert (Tx : is_temp 0 k x = true) by (destruct Ox as [O|O]; [exact O|lia]).
        destruct (move_spec m1 _ _ z x E2 Dx) as (G2 & F2 & C2 & V2 & W2); [lia|].
        destruct (Dr _ _ _ None G2) as (m' & -> & G3 & F3 & N3). exists m', None. split; [reflexivity|]. split.
        * apply (good_ext A S m' _ _ _ _ G3); intros y; cbn [exists_next denote_command raised]; unfold put; (destruct (Z.eqb_spec y z) as [->|Ny]; [rewrite Tz; auto|]); destruct (is_temp 0 k y) eqn:Ty; try apply Td, Ty;
            (destruct (Z.eqb_spec y x) as [->|]; [congruence|]); [unfold live; rewrite Ty; reflexivity|symmetry; apply E4, Ty].
        * intros y [Ny|[]]; [|reflexivity]. destruct (is_temp 0 k y) eqn:Ty; [rewrite (N3 y Ty); symmetry; apply Td, Ty|].
          rewrite (F3 y Ty). destruct (F2 y Ny) as [-> _]; [congruence|]. apply E3, Ty.
      + destruct (exec_spec A S L m1 _ _ (Copy z x) E2 Logic.I) as (m2 & ex & Ec & G2 & F2); [intros y [<-|[]]; exact Dx|].
        assert (ex = None) as ->.
        { cbn in Ec. unfold this, deref in Ec. destruct (vars m1 x) as [a|]; [|discriminate]. destruct (impls m1 a); [|discriminate]. unfold fine in Ec. congruence. }
        rewrite Ec. destruct (Dr _ _ _ None G2) as (m' & -> & G3 & F3 & N3). exists m', None. split; [reflexivity|]. split.
        * apply (good_ext A S m' _ _ _ _ G3); intros y; cbn [exists_next denote_command raised exists_after denote]; unfold put; (destruct (Z.eqb_spec y z) as [->|Ny]; [rewrite Tz; auto|]); destruct (is_temp 0 k y) eqn:Ty; try apply Td, Ty;
            [unfold live; rewrite Ty; reflexivity|symmetry; apply E4, Ty].
        * intros y [Ny|[]]; [|reflexivity]. destruct (is_temp 0 k y) eqn:Ty; [rewrite (N3 y Ty); symmetry; apply Td, Ty|].
          rewrite (F3 y Ty), (F2 y Ny). apply E3, Ty.
    - destruct (Dr _ _ _ (Some err) E2) as (m' & -> & G3 & F3 & N3). exists m', (Some err). split; [reflexivity|]. split.
      + apply (good_ext A S m' _ _ _ _ G3); intros y; cbn [exists_next denote_command raised]; destruct (is_temp 0 k y) eqn:Ty; try apply Td, Ty; [unfold live; rewrite Ty; reflexivity|symmetry; apply E4, Ty].
      + intros y _. destruct (is_temp 0 k y) eqn:Ty; [rewrite (N3 y Ty); symmetry; apply Td, Ty|]. rewrite (F3 y Ty). apply E3, Ty.
  Qed.
  Lemma perform_spec m d n c : good A S m d n -> room d 0 -> command_ok S c -> (forall x, In x (command_uses c) -> d x = true) ->
    exists m' ex, perform m c = Some (m', ex) /\ good A S m' (exists_next d c (raised ex)) (denote_command S n c (raised ex)) /\ room (exists_next d c (raised ex)) 0 /\
      (forall y, ~ In y (targets c) -> content A m' y = content A m y) /\ (forall z e y, c = Assign z e -> ex <> None -> content A m' y = content A m y).
  Proof.
    intros G Rm [Nm K] U.
    assert (Rn : forall t, room (exists_next d c t) 0).
    { intros t i Hi. rewrite exists_next_other; [apply Rm, Hi|]. intros I. specialize (Nm _ (in_or_app _ _ _ (or_introl I))). pose proof (temp_neg i). lia. }
    destruct c as [st|z e|z x|x y].
    - destruct (exec_spec A S L m d n st G K U) as (m' & ex & E & G1 & F1). exists m', ex. split; [exact E|]. split; [exact G1|]. split; [exact (Rn _)|]. split; [|discriminate].
      intros y Hy. apply F1. intros ->. apply Hy. left. reflexivity.
    - destruct (assign_spec m d n z e G Rm) as (m' & ex & E & G1 & F1); [apply Nm; left; reflexivity|exact K|intros x I; split; [apply Nm, in_or_app; right; exact I|apply U, I]|].
      exists m', ex. split; [exact E|]. split; [exact G1|]. split; [exact (Rn _)|]. split; [intros y Hy; apply F1; left; intros ->; apply Hy; left; reflexivity|]. intros z' e' y _ Hex. apply F1. right. exact Hex.
    - pose proof (U x (or_introl eq_refl)) as Dx. exists (move m z x), None. split; [reflexivity|]. 
      split; [|split; [exact (Rn false)|split; [|discriminate]]]; cbn [exists_next denote_command raised targets].
      + destruct (Z.eq_dec z x) as [->|N]; [|apply (move_spec m d n z x G Dx N)]. unfold move. rewrite Z.eqb_refl.
        apply (good_ext A S m d _ n); [exact G| |]; intros y; destruct (Z.eqb_spec y x) as [->|]; congruence.
      + intros y Hy. destruct (Z.eq_dec z x) as [->|N]; [unfold move; rewrite Z.eqb_refl; reflexivity|]. apply (move_spec m d n z x G Dx N); intros ->; apply Hy; cbn; auto.
    - destruct (swap_spec m d n x y G Rm) as (G1 & F1 & _); [apply Nm; cbn; auto|apply Nm; cbn; auto|apply U; cbn; auto|apply U; cbn; auto|].
      eexists _, None. split; [reflexivity|]. split; [exact G1|]. split; [exact (Rn _)|]. split; [|discriminate]. intros v Hv. apply F1; intros ->; apply Hv; cbn; auto.
  Qed.

  (** * Programs *)
  Lemma commands_spec prog : forall m d n, good A S m d n -> room d 0 -> Forall (command_ok S) prog ->
    (exists m' os, perform_all m prog = Some (m', os) /\ length os = length prog /\ legal d prog (map raised os)) \/
    (exists p c q m' os x, prog = p ++ c :: q /\ perform_all m p = Some (m', os) /\ legal d p (map raised os) /\ In x (command_uses c) /\ vars m' x = None).
  Proof.
    induction prog as [|c prog IH]; intros m d n G Rm K.
    - left. exists m, []. split; [reflexivity|]. split; [reflexivity|exact Logic.I].
    - inversion K as [|? ? K1 K2]; subst.
      destruct (existsb (fun x => negb (d x)) (command_uses c)) eqn:U.
      { right. apply existsb_exists in U. destruct U as (x & Ix & Dx). apply negb_true_iff in Dx. exists [], c, prog, m, [], x. split; [reflexivity|]. split; [reflexivity|]. split; [exact Logic.I|]. split; [exact Ix|]. apply (good_absent m d n x G Dx). }
      assert (U' : forall x, In x (command_uses c) -> d x = true).
      { intros x I. destruct (d x) eqn:E; [reflexivity|]. enough (X : existsb (fun x => negb (d x)) (command_uses c) = true) by congruence. apply existsb_exists. exists x. rewrite E. auto. }
      destruct (perform_spec m d n c G Rm K1 U') as (m1 & ex & E & G1 & R1 & _). destruct (IH m1 _ _ G1 R1 K2) as [(m2 & os & E2 & Lo & Lg)|(p & c' & q & m2 & os & x & Ep & E2 & Lg & Ix & Vx)].
      + left. exists m2, (ex :: os). cbn [perform_all]. rewrite E, E2. split; [reflexivity|]. split; [cbn; congruence|]. split; [exact U'|exact Lg].
      + right. exists (c :: p), c', q, m2, (ex :: os), x. split; [cbn; congruence|]. split; [cbn [perform_all]; rewrite E, E2; reflexivity|]. split; [split; [exact U'|exact Lg]|]. auto.
  Qed.
  Lemma commands_good prog : forall m d n m' os, good A S m d n -> room d 0 -> Forall (command_ok S) prog -> perform_all m prog = Some (m', os) -> legal d prog (map raised os) ->
    length os = length prog /\ good A S m' (exists_finally d prog (map raised os)) (denote_commands S n prog (map raised os)) /\ room (exists_finally d prog (map raised os)) 0.
  Proof.
    induction prog as [|c prog IH]; intros m d n m' os G Rm K E Lg; cbn [perform_all] in E.
    - injection E as <- <-. split; [reflexivity|]. split; [exact G|exact Rm].
    - inversion K as [|? ? K1 K2]; subst. destruct (perform m c) as [[m1 o]|] eqn:E1; [|discriminate]. destruct (perform_all m1 prog) as [[m2 os2]|] eqn:E2; [|discriminate]. injection E as <- <-.
      cbn [map legal] in Lg. destruct Lg as [U Lg]. destruct (perform_spec m d n c G Rm K1 U) as (m1' & ex & E & G1 & R1 & _). assert (m1' = m1 /\ ex = o) as [-> ->] by (split; congruence).
      destruct (IH m1 _ _ m2 os2 G1 R1 K2 E2 Lg) as (Lo & G2 & R2). cbn [map exists_finally denote_commands length]. split; [congruence|]. split; [exact G2|exact R2].
  Qed.

  (** * Standard elements *)
  Section Plain.
    Variable p : par A.
    Definition all_standard m : Prop := forall x e, content A m x = Some e -> standard S p e.
    Lemma plain_ok st : plain S p st -> statement_ok S st.
    Proof. destruct st; cbn; try contradiction; try exact (fun _ => Logic.I). intros H. apply H. Qed.
    Lemma step_plain m d n st m1 ex : good A S m d n -> all_standard m -> plain S p st -> (forall x, In x (uses st) -> d x = true) -> exec m st = Some (m1, ex) -> ex = None /\ all_standard m1.
    Proof.
      intros G St K U E. destruct (exec_plain A S L p m d n st m1 ex G St K U E) as [-> T]. split; [reflexivity|].
      destruct (exec_spec A S L m d n st G (plain_ok st K) U) as (m1' & ex & E' & _ & F). assert (m1' = m1) as -> by congruence.
      intros x e C. destruct (Z.eq_dec x (target st)) as [->|N]; [apply T, C|]. rewrite (F x N) in C. apply (St x e C).
    Qed.
    Lemma plain_expr_ok e : plain_expr S p e -> expr_ok S e.
    Proof. induction e; cbn; try contradiction; auto; [intros H; apply H|intros [? ?]; auto]. Qed.
    Lemma eval_plain e : forall m d n k m' k' r, good A S m d n -> plain_expr S p e -> (forall x, In x (mentions e) -> 0 <= x /\ d x = true) -> room d k -> all_standard m ->
      eval m k e = Some (m', k', r) -> (exists x, r = Ok x) /\ all_standard m'.
    Proof.
      induction e as [x|c|e1 IH|op e1 IH1 e2 IH2|e1 IH g|e1 IH s|e1 IH s]; intros m d n k m' k' r G K M Rm St E; cbn [eval plain_expr mentions] in *; try contradiction.
      - injection E as <- <- <-. eauto.
      - unfold create in E. destruct (exec m (Define (temp k) c)) as [[m1 ex]|] eqn:E1; [|discriminate].
        destruct (step_plain m d n (Define (temp k) c) m1 ex G St K) as [-> St1]; [intros x []|exact E1|]. injection E as <- <- <-. eauto.
      - destruct (eval_spec e1 m d n k G (plain_expr_ok e1 K) M Rm) as (m1 & k1 & r1 & n1 & E1 & H1). rewrite E1 in E. destruct (IH m d n k m1 k1 r1 G K M Rm St E1) as [[x ->] St1]. cbn [after] in E.
        unfold create in E. destruct (exec m1 (Opposite (temp k1) x)) as [[m2 ex]|] eqn:E2; [|discriminate].
        destruct (step_plain m1 (live d k k1) n1 (Opposite (temp k1) x) m2 ex (ev_good _ _ _ _ _ _ _ _ _ H1) St1 Logic.I) as [-> St2]; [intros y [<-|[]]; apply (ev_result _ _ _ _ _ _ _ _ _ H1 x eq_refl)|exact E2|]. injection E as <- <- <-. eauto.
      - destruct K as [K1 K2]. assert (M1 : forall x, In x (mentions e1) -> 0 <= x /\ d x = true) by (intros x I; apply M, in_or_app; auto).
        destruct (eval_spec e1 m d n k G (plain_expr_ok e1 K1) M1 Rm) as (m1 & k1 & r1 & n1 & E1 & H1). rewrite E1 in E. destruct (IH1 m d n k m1 k1 r1 G K1 M1 Rm St E1) as [[x ->] St1]. cbn [after] in E.
        pose proof H1 as [A1 A2 A3 A4 A5]. pose proof (room_live d k k1 Rm A1) as R1.
        assert (M2 : forall y, In y (mentions e2) -> 0 <= y /\ live d k k1 y = true).
        { intros y I. destruct (M y (in_or_app _ _ _ (or_intror I))) as [P D]. split; [exact P|]. unfold live. destruct (is_temp _ _ _); [reflexivity|exact D]. }
        destruct (eval_spec e2 m1 _ n1 k1 A2 (plain_expr_ok e2 K2) M2 R1) as (m2 & k2 & r2 & n2 & E2 & H2). rewrite E2 in E. destruct (IH2 m1 _ n1 k1 m2 k2 r2 A2 K2 M2 R1 St1 E2) as [[y ->] St2]. cbn [after] in E.
        pose proof H2 as [B1 B2 B3 B4 B5]. destruct (A5 x eq_refl) as (Dx & Ox & _). destruct (B5 y eq_refl) as (Dy & Oy & _). set (d2 := live (live d k k1) k1 k2) in *.
        assert (Dx2 : d2 x = true) by (unfold d2, live at 1; destruct (is_temp k1 k2 x); [reflexivity|exact Dx]).
        unfold create in E. destruct (exec m2 (Copy (temp k2) x)) as [[m3 ex]|] eqn:E3; [|discriminate].
        assert (U3 : forall v, In v (uses (Copy (A := A) (temp k2) x)) -> d2 v = true) by (intros v [<-|[]]; exact Dx2).
        destruct (step_plain m2 d2 n2 (Copy (temp k2) x) m3 ex B2 St2 Logic.I U3 E3) as [-> St3]. cbn [after] in E.
        destruct (exec_spec A S L m2 d2 n2 (Copy (temp k2) x) B2 Logic.I U3) as (m3' & ex & E3' & G3 & _). assert (m3' = m3) as -> by congruence.
        unfold modify in E. destruct (exec m3 (compound op (temp k2) y)) as [[m4 ex4]|] eqn:E4; [|discriminate].
        destruct (step_plain m3 _ _ (compound op (temp k2) y) m4 ex4 G3 St3) as [-> St4]; [destruct op; exact Logic.I| |exact E4|injection E as <- <- <-; eauto].
        intros v Hv. cbn [exists_after]. destruct (Z.eqb_spec v (temp k2)) as [->|Nv]; [reflexivity|]. destruct op; cbn in Hv; destruct Hv as [<-|[<-|[]]]; congruence.
    Qed.
    Lemma means_defined n e : plain_expr S p e -> (forall x, In x (mentions e) -> n x <> None) -> means S n e <> None.
    Proof.
      induction e as [x|c|e1 IH|op e1 IH1 e2 IH2|e1 IH g|e1 IH s|e1 IH s]; cbn [plain_expr mentions means]; intros K M; try contradiction.
      - apply M. left. reflexivity.
      - discriminate.
      - specialize (IH K M). destruct (means S n e1); [discriminate|congruence].
      - destruct K as [K1 K2]. specialize (IH1 K1 (fun x I => M x (in_or_app _ _ _ (or_introl I)))). specialize (IH2 K2 (fun x I => M x (in_or_app _ _ _ (or_intror I)))).
        unfold combine2. destruct (means S n e1), (means S n e2); congruence || discriminate.
    Qed.
    Lemma denote_defined d n st : plain S p st -> (forall x, In x (uses st) -> d x = true) -> (forall x, d x = true -> n x <> None) -> forall x, exists_after d st x = true -> denote S n st false x <> None.
    Proof.
      intros K C1 De x. assert (U : forall y, In y (uses st) -> n y <> None) by (intros y I; apply De, C1, I).
      destruct st as [y e|y z|y z|y z|y z|y z|y g|y s|y s|y|y]; cbn [plain exists_after denote uses] in *; try contradiction; unfold put, combine2;
        try exact (De x); try (destruct (x =? y); [|exact (De x)]); try discriminate; intros _.
      - apply U. left. reflexivity.
      - specialize (U z (or_introl eq_refl)). destruct (n z); [discriminate|congruence].
      - pose proof (U y (or_introl eq_refl)) as U1. pose proof (U z (or_intror (or_introl eq_refl))) as U2. destruct (n y), (n z); congruence || discriminate.
      - pose proof (U y (or_introl eq_refl)) as U1. pose proof (U z (or_intror (or_introl eq_refl))) as U2. destruct (n y), (n z); congruence || discriminate.
      - pose proof (U y (or_introl eq_refl)) as U1. pose proof (U z (or_intror (or_introl eq_refl))) as U2. destruct (n y), (n z); congruence || discriminate.
    Qed.
    Lemma perform_plain m d n c m' ex : good A S m d n -> room d 0 -> all_standard m -> command_ok S c -> plain_command S p c -> (forall x, In x (command_uses c) -> d x = true) -> (forall x, d x = true -> n x <> None) ->
      perform m c = Some (m', ex) -> ex = None /\ all_standard m' /\ forall x, exists_next d c false x = true -> denote_command S n c false x <> None.
    Proof.
      intros G Rm St [Nm Kc] K U De E. destruct c as [st|z e|z x|x y]; cbn [plain_command command_uses perform exists_next denote_command] in *.
      - destruct (step_plain m d n st m' ex G St K U E) as [-> St1]. split; [reflexivity|]. split; [exact St1|]. apply (denote_defined d n st K U De).
      - assert (M : forall x, In x (mentions e) -> 0 <= x /\ d x = true) by (intros x I; split; [apply Nm, in_or_app; right; exact I|apply U, I]).
        assert (Pz : 0 <= z) by (apply Nm; left; reflexivity).
        destruct (eval_spec e m d n 0 G Kc M Rm) as (m1 & k & r & n1 & E1 & [_ E2 E3 E4 E5]). destruct (eval_plain e m d n 0 m1 k r G K M Rm St E1) as [[x ->] St1]. rewrite E1 in E.
        destruct (E5 x eq_refl) as (Dx & Ox & Vx).
        assert (Nx : forall y, (if y =? z then true else d y) = true -> put n z (means S n e) y <> None).
        { intros y. unfold put. destruct (y =? z); [intros _; apply means_defined; [exact K|intros v I; apply De, U, I]|apply De]. }
        assert (Fi : forall m2 d2 n2 o m3 o3, good A S m2 d2 n2 -> all_standard m2 -> finish m2 k o = Some (m3, o3) -> o3 = o /\ all_standard m3).
        { intros m2 d2 n2 o m3 o3 G2 St2 Ef. destruct (drop_spec k m2 d2 n2 G2) as (m3' & Ed & Gd & Fd). unfold finish in Ef. rewrite Ed in Ef. injection Ef as <- <-. split; [reflexivity|].
          intros v f Cv. destruct (is_temp 0 k v) eqn:Tv; [|rewrite (Fd v Tv) in Cv; apply (St2 v f Cv)]. destruct (good_absent m3' _ _ v Gd) as (_ & X & _); [rewrite Tv; reflexivity|congruence]. }
        destruct (Z.ltb_spec x 0) as [Hx|Hx].
        + destruct (move_spec m1 _ _ z x E2 Dx) as (G2 & F2 & C2 & V2 & W2); [lia|].
          destruct (Fi _ _ _ None m' ex G2) as [-> St3]; [|exact E|auto]. intros v f Cv. destruct (Z.eq_dec v z) as [->|Nv]; [rewrite C2 in Cv; apply (St1 x f Cv)|].
          destruct (Z.eq_dec v x) as [->|Nv']; [unfold content in Cv; rewrite W2 in Cv; discriminate|]. destruct (F2 v Nv Nv') as [X _]. rewrite X in Cv. apply (St1 v f Cv).
        + destruct (exec m1 (Copy z x)) as [[m2 o]|] eqn:Ec; [|discriminate]. assert (Uc : forall v, In v (uses (Copy (A := A) z x)) -> live d 0 k v = true) by (intros v [<-|[]]; exact Dx).
          destruct (step_plain m1 _ n1 (Copy z x) m2 o E2 St1 Logic.I Uc Ec) as [-> St2].
          destruct (exec_spec A S L m1 _ n1 (Copy z x) E2 Logic.I Uc) as (m2' & ex' & Ec' & G2 & _). assert (m2' = m2) as -> by congruence.
          destruct (Fi _ _ _ None m' ex G2 St2 E) as [-> St3]. auto.
      - injection E as <- <-. split; [reflexivity|]. pose proof (U x (or_introl eq_refl)) as Dx. split.
        + destruct (Z.eq_dec z x) as [->|N]; [unfold move; rewrite Z.eqb_refl; exact St|]. destruct (move_spec m d n z x G Dx N) as (G2 & F2 & C2 & V2 & W2).
          intros v f Cv. destruct (Z.eq_dec v z) as [->|Nv]; [rewrite C2 in Cv; apply (St x f Cv)|].
          destruct (Z.eq_dec v x) as [->|Nv']; [unfold content in Cv; rewrite W2 in Cv; discriminate|]. destruct (F2 v Nv Nv') as [X _]. rewrite X in Cv. apply (St v f Cv).
        + intros v. destruct (v =? z); [intros _; apply De, Dx|]. destruct (v =? x); [discriminate|apply De].
      - injection E as <- <-. split; [reflexivity|]. destruct (swap_spec m d n x y G Rm) as (G1 & F1 & C1 & C2 & _); [apply Nm; cbn; auto|apply Nm; cbn; auto|apply U; cbn; auto|apply U; cbn; auto|]. split.
        + intros v f Cv. destruct (Z.eq_dec v x) as [->|Nx]; [rewrite C1 in Cv; apply (St y f Cv)|]. destruct (Z.eq_dec v y) as [->|Ny]; [rewrite C2 in Cv; apply (St x f Cv)|].
          destruct (F1 v Nx Ny) as [X _]. rewrite X in Cv. apply (St v f Cv).
        + intros v Dv. destruct (v =? x); [apply De, U; cbn; auto|]. destruct (v =? y); [apply De, U; cbn; auto|apply De, Dv].
    Qed.
    Lemma commands_plain prog : forall m d n, good A S m d n -> room d 0 -> all_standard m -> Forall (command_ok S) prog -> Forall (plain_command S p) prog -> legal d prog (map (fun _ => false) prog) -> (forall x, d x = true -> n x <> None) ->
      exists m' os, perform_all m prog = Some (m', os) /\ Forall (fun o => o = None) os /\ length os = length prog /\ all_standard m' /\
        good A S m' (exists_finally d prog (map (fun _ => false) prog)) (denote_commands S n prog (map (fun _ => false) prog)) /\
        forall x, exists_finally d prog (map (fun _ => false) prog) x = true -> denote_commands S n prog (map (fun _ => false) prog) x <> None.
    Proof.
      induction prog as [|c prog IH]; intros m d n G Rm St K P Lg De.
      - exists m, []. split; [reflexivity|]. split; [constructor|]. split; [reflexivity|]. split; [exact St|]. split; [exact G|exact De].
      - inversion K as [|? ? K1 K2]; subst. inversion P as [|? ? P1 P2]; subst. cbn [map legal exists_finally denote_commands] in *. destruct Lg as [U Lg].
        destruct (perform_spec m d n c G Rm K1 U) as (m1 & ex & E & G1 & R1 & _). destruct (perform_plain m d n c m1 ex G Rm St K1 P1 U De E) as (-> & St1 & De1).
        destruct (IH m1 _ _ G1 R1 St1 K2 P2 Lg De1) as (m2 & os & E2 & Os & Lo & St2 & G2 & De2). exists m2, (None :: os). cbn [perform_all]. rewrite E, E2.
        split; [reflexivity|]. split; [constructor; [reflexivity|exact Os]|]. split; [cbn; congruence|]. split; [exact St2|]. split; [exact G2|exact De2].
    Qed.
  End Plain.
End Proofs.
