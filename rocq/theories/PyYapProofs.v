(** Proofs about PyYap.v *)
From Coq Require Import ZArith Bool List Lia.
From Verif Require Import Arf Arb Yap SpecYap YapProofs PyYap SpecPyYap.
Import ListNotations.
Open Scope Z_scope.

Section Proofs.
  Context {V : Type}.
  Implicit Types h k : nat -> option (obj V).
  Implicit Types t u : expr V.

  (** Objects only refer to older ones. *)
  Definition crefs (o : obj V) : list nat := match o with PExpr (CBin _ l r) => [l; r] | PExpr (CNeg e) => [e] | _ => [] end.
  Definition heap_ok h (n : nat) : Prop :=
    (forall a, (n <= a)%nat -> h a = None) /\ (forall a o b, h a = Some o -> In b (refs o) \/ In b (crefs o) -> (b < a)%nat).
  Definition extends h k : Prop := forall a o, h a = Some o -> k a = Some o.
  (** The formula at [i], all of whose parts are reachable from [a]. *)
  Inductive kept h (a : nat) : nat -> expr V -> Prop :=
  | kept_num i v : h i = Some (PNum v) -> reaches h a i -> kept h a i (Const v)
  | kept_bin i o l r t u : h i = Some (PExpr (CBin o l r)) -> reaches h a i -> kept h a l t -> kept h a r u -> kept h a i (Bin o t u)
  | kept_neg i e t : h i = Some (PExpr (CNeg e)) -> reaches h a i -> kept h a e t -> kept h a i (Neg t).
  Definition good h (a : nat) t : Prop :=
    (exists v, h a = Some (PNum v) /\ t = Const v) \/ (exists v l, h a = Some (PYap v l) /\ ~ is_number t /\ kept h a v t).

  Lemma reaches_mono h k a b : extends h k -> reaches h a b -> reaches k a b.
  Proof. intros E. induction 1 as [|a o b c Ha Hb _ IH]; [constructor|]. apply (reaches_next k a o b c); auto. Qed.
  Lemma reaches_trans h a b c : reaches h a b -> reaches h b c -> reaches h a c.
  Proof. induction 1 as [|a o b d Ha Hb _ IH]; [auto|]. intros K. apply (reaches_next h a o b c); auto. Qed.
  Lemma kept_mono h k a i t : extends h k -> kept h a i t -> kept k a i t.
  Proof. intros E. induction 1; [apply kept_num|eapply kept_bin|eapply kept_neg]; eauto using reaches_mono. Qed.
  Lemma kept_from h a b i t : reaches h b a -> kept h a i t -> kept h b i t.
  Proof. intros R. induction 1; [apply kept_num|eapply kept_bin|eapply kept_neg]; eauto using reaches_trans. Qed.
  Lemma good_mono h k a t : extends h k -> good h a t -> good k a t.
  Proof. intros E [(v & H & ->)|(v & l & H & N & K)]; [left; eauto|right]. exists v, l. split; [auto|]. split; [exact N|]. apply (kept_mono h k); assumption. Qed.

  Lemma release_reaches h a b c : (forall d, reaches h b d -> d <> a) -> reaches h b c -> reaches (fun d => if Nat.eqb d a then None else h d) b c.
  Proof.
    intros N R. induction R as [|b o d c Hb Hd R IH]; [constructor|]. apply (reaches_next _ b o d c).
    - assert (b <> a) by (apply N; constructor). apply Nat.eqb_neq in H. rewrite H. exact Hb.
    - exact Hd.
    - apply IH. intros e Re. apply N. apply (reaches_next h b o d e); assumption.
  Qed.
  Lemma release_kept h a b i t : (forall d, reaches h b d -> d <> a) -> kept h b i t -> kept (fun d => if Nat.eqb d a then None else h d) b i t.
  Proof.
    intros N. induction 1 as [i v Hi R|i o l r t u Hi R _ IHl _ IHr|i e t Hi R _ IH];
      (assert (Ni : Nat.eqb i a = false) by (apply Nat.eqb_neq, N, R)); [apply kept_num|eapply kept_bin|eapply kept_neg]; try rewrite Ni; eauto using release_reaches.
  Qed.

  Lemma follow_kept h n a : heap_ok h n -> forall i t, kept h a i t -> forall fuel, (i < fuel)%nat -> follow fuel h i = Some t.
  Proof.
    intros [_ Dec]. induction 1 as [i v Hi _|i o l r t u Hi _ _ IHl _ IHr|i e t Hi _ _ IH]; intros [|f] Hf; try lia; cbn [follow]; rewrite Hi.
    - reflexivity.
    - rewrite IHl, IHr; [reflexivity| |]; assert (K := Dec i _ r Hi (or_intror (or_intror (or_introl eq_refl)))); assert (K' := Dec i _ l Hi (or_intror (or_introl eq_refl))); lia.
    - rewrite IH; [reflexivity|]. assert (K := Dec i _ e Hi (or_intror (or_introl eq_refl))). lia.
  Qed.
  Lemma kept_below h a i t : kept h a i t -> below 1 t.
  Proof. induction 1; cbn; auto. Qed.

  (** Creating objects *)
  Lemma create_ext (s : pystate V) o s' a n : create s o = (s', a) -> heap_ok (heap s) (fresh s) -> (forall b, In b (refs o) \/ In b (crefs o) -> (b < fresh s)%nat) -> n = fresh s ->
    a = n /\ extends (heap s) (heap s') /\ heap_ok (heap s') (fresh s') /\ heap s' a = Some o /\ vars s' = vars s /\ fresh s' = S n.
  Proof.
    intros E [H1 H2] Ho ->. unfold create in E. injection E as <- <-. cbn. split; [reflexivity|]. split; [|split; [split|split; [|auto]]].
    - intros b o' Hb. cbn. destruct (Nat.eqb b (fresh s)) eqn:Eb; [|exact Hb]. apply Nat.eqb_eq in Eb. subst b. rewrite H1 in Hb by lia. discriminate.
    - intros b Hb. assert (Nat.eqb b (fresh s) = false) as -> by (apply Nat.eqb_neq; lia). apply H1. lia.
    - intros b o' c Hb Hc. destruct (Nat.eqb b (fresh s)) eqn:Eb; [|exact (H2 b o' c Hb Hc)]. apply Nat.eqb_eq in Eb. subst b. injection Hb as <-. apply Ho, Hc.
    - rewrite Nat.eqb_refl. reflexivity.
  Qed.
  Lemma ext_trans h k l : extends h k -> extends k l -> extends h l.
  Proof. intros A B a o H. apply B, A, H. Qed.

  (** What the formulas of the operands are, after Yap.wrap(...).value *)
  Definition operand h (a : nat) t : Prop := match h a with Some (PYap v _) => kept h a v t | Some (PNum v) => t = Const v | _ => False end.
  Lemma good_operand h a t : good h a t -> operand h a t.
  Proof. unfold operand. intros [(v & -> & ->)|(v & l & -> & _ & K)]; auto. Qed.
  Lemma operand_live h n a t : heap_ok h n -> operand h a t -> (a < n)%nat.
  Proof. intros [H _] O. destruct (Nat.lt_ge_cases a n) as [K|K]; [exact K|]. unfold operand in O. rewrite (H a K) in O. contradiction. Qed.
  (** The operand is kept by an object from which both the operand and its unwrapped value are reached. *)
  Lemma operand_kept (s : pystate V) k a b t : operand (heap s) a t -> extends (heap s) k -> reaches k b a -> reaches k b (unwrapped s a) -> kept k b (unwrapped s a) t.
  Proof.
    unfold operand, unwrapped. intros O E R R'. destruct (heap s a) as [[v|e|l|v l]|] eqn:Ha; try contradiction.
    - subst t. apply kept_num; [apply E, Ha|exact R'].
    - apply (kept_from k a b); [exact R|]. apply (kept_mono (heap s) k); assumption.
  Qed.
  Lemma unwrapped_old (s : pystate V) a : heap_ok (heap s) (fresh s) -> (a < fresh s)%nat -> (unwrapped s a < fresh s)%nat.
  Proof.
    intros [_ D] L. unfold unwrapped. destruct (heap s a) as [[v|e|l|v l]|] eqn:Ha; try exact L.
    assert (v < a)%nat by (apply (D a _ v Ha); left; left; reflexivity). lia.
  Qed.

  Definition state_ok (s : pystate V) (F : formulas (V := V)) : Prop :=
    heap_ok (heap s) (fresh s) /\
    forall x, match F x, vars s x with Some t, Some a => good (heap s) a t | None, None => True | _, _ => False end.

  Lemma set_ok (s : pystate V) F x a t : state_ok s F -> good (heap s) a t -> state_ok (set s x (Some a)) (assigned F x (Some t)).
  Proof. intros [H1 H2] G. split; [exact H1|]. intros y. unfold assigned, set. cbn. destruct (y =? x); [exact G|apply H2]. Qed.
  Lemma grown (s s' : pystate V) F : state_ok s F -> extends (heap s) (heap s') -> heap_ok (heap s') (fresh s') -> vars s' = vars s -> state_ok s' F.
  Proof.
    intros [_ H] E O Vs. split; [exact O|]. intros x. rewrite Vs. specialize (H x). destruct (F x), (vars s x); try exact H. apply (good_mono (heap s)); assumption.
  Qed.

  Lemma yap_op_ok (s : pystate V) F op self rhs ts t0 t s' r : state_ok s F -> (exists v l, heap s self = Some (PYap v l)) -> operand (heap s) self t0 -> Forall2 (operand (heap s)) rhs ts -> ~ is_number t ->
    (forall k a i, k i = Some (PExpr (op (unwrapped s self) (map (unwrapped s) rhs))) -> reaches k a i -> kept k a (unwrapped s self) t0 -> Forall2 (kept k a) (map (unwrapped s) rhs) ts -> kept k a i t) ->
    (forall b, In b (crefs (PExpr (op (unwrapped s self) (map (unwrapped s) rhs)))) -> b = unwrapped s self \/ In b (map (unwrapped s) rhs)) ->
    yap_op s op self rhs = (s', r) -> state_ok s' F /\ good (heap s') r t.
  Proof.
    intros HS Hself Oself Orhs Nt Hop Hc E. pose proof HS as [H0 _]. unfold yap_op in E.
    assert (L0 : (self < fresh s)%nat) by (apply (operand_live (heap s) (fresh s) self t0); assumption).
    assert (Lr : forall b, In b rhs -> (b < fresh s)%nat).
    { clear - H0 Orhs. induction Orhs as [|a u rhs ts O _ IH]; intros b [].
      - subst b. apply (operand_live (heap s) (fresh s) a u); assumption.
      - apply IH. assumption. }
    assert (Lu : forall b, b = unwrapped s self \/ In b (map (unwrapped s) rhs) -> (b < fresh s)%nat).
    { intros b [->|I]; [apply unwrapped_old; assumption|]. apply in_map_iff in I. destruct I as (c & <- & I). apply unwrapped_old; auto. }
    destruct (create s (PList (unwrapped s self :: map (unwrapped s) rhs))) as [s1 operands] eqn:E1.
    destruct (create_ext s _ s1 operands (fresh s) E1 H0) as (A1 & X1 & H1 & O1 & V1 & F1); [|reflexivity|].
    { intros b [[<-|I]|[]]; apply Lu; auto. }
    destruct (create s1 (PList rhs)) as [s2 tuple] eqn:E2.
    destruct (create_ext s1 _ s2 tuple (fresh s1) E2 H1) as (A2 & X2 & H2 & O2 & V2 & F2); [|reflexivity|].
    { intros b [I|[]]. specialize (Lr b I). lia. }
    destruct (create s2 (PList [operands; self; tuple])) as [s3 lifelines] eqn:E3.
    destruct (create_ext s2 _ s3 lifelines (fresh s2) E3 H2) as (A3 & X3 & H3 & O3 & V3 & F3); [|reflexivity|].
    { intros b [[<-|[<-|[<-|[]]]]|[]]; lia. }
    destruct (create s3 (PExpr (op (unwrapped s self) (map (unwrapped s) rhs)))) as [s4 e] eqn:E4.
    destruct (create_ext s3 _ s4 e (fresh s3) E4 H3) as (A4 & X4 & H4 & O4 & V4 & F4); [|reflexivity|].
    { intros b [[]|I]. apply Hc, Lu in I. lia. }
    destruct (create_ext s4 _ s' r (fresh s4) E H4) as (A5 & X5 & H5 & O5 & V5 & F5); [|reflexivity|].
    { intros b [[<-|[<-|[]]]|[]]; lia. }
    assert (X : extends (heap s) (heap s')) by (eauto using ext_trans).
    assert (P1 : heap s' operands = Some (PList (unwrapped s self :: map (unwrapped s) rhs))) by auto.
    assert (P2 : heap s' tuple = Some (PList rhs)) by auto.
    assert (P3 : heap s' lifelines = Some (PList [operands; self; tuple])) by auto.
    assert (P4 : heap s' e = Some (PExpr (op (unwrapped s self) (map (unwrapped s) rhs)))) by auto.
    split; [apply (grown s); [exact HS|exact X|exact H5|congruence]|]. right. exists e, lifelines. split; [exact O5|]. split; [exact Nt|].
    assert (Rl : forall b, In b [operands; self; tuple] -> reaches (heap s') r b).
    { intros b I. apply (reaches_next _ r _ lifelines b O5); [right; left; reflexivity|]. apply (reaches_next _ lifelines _ b b P3 I). constructor. }
    assert (Ro : forall b, b = unwrapped s self \/ In b (map (unwrapped s) rhs) -> reaches (heap s') r b).
    { intros b I. apply (reaches_trans _ r operands b); [apply Rl; left; reflexivity|]. apply (reaches_next _ operands _ b b P1); [destruct I as [->|I]; [left; reflexivity|right; exact I]|constructor]. }
    apply (Hop (heap s') r e P4).
    - apply (reaches_next _ r _ e e O5); [left; reflexivity|constructor].
    - apply operand_kept; [exact Oself|exact X|apply Rl; right; left; reflexivity|apply Ro; left; reflexivity].
    - assert (Rt : forall b, In b rhs -> reaches (heap s') r b /\ reaches (heap s') r (unwrapped s b)).
      { intros b I. split; [|apply Ro; right; apply in_map, I]. apply (reaches_trans _ r tuple b); [apply Rl; right; right; left; reflexivity|]. apply (reaches_next _ tuple _ b b P2 I). constructor. }
      clear - Orhs Rt X. induction Orhs as [|a u rhs ts O _ IH]; cbn; constructor.
      + destruct (Rt a (or_introl eq_refl)) as [R1 R2]. apply operand_kept; assumption.
      + apply IH. intros b I. apply Rt. right. exact I.
  Qed.

  Lemma wrap_ok (s : pystate V) F a t s' w : state_ok s F -> good (heap s) a t -> wrap s a = (s', w) ->
    state_ok s' F /\ extends (heap s) (heap s') /\ (exists v l, heap s' w = Some (PYap v l)) /\ operand (heap s') w t.
  Proof.
    intros HS G E. unfold wrap in E. pose proof HS as [H0 _]. pose proof (operand_live _ _ _ _ H0 (good_operand _ _ _ G)) as L.
    destruct G as [(v & Ha & ->)|(v & l & Ha & N & K)]; rewrite Ha in E.
    - destruct (create s (PList [])) as [s1 l] eqn:E1. destruct (create_ext s _ s1 l (fresh s) E1 H0) as (A1 & X1 & H1 & O1 & V1 & F1); [|reflexivity|]; [intros b [[]|[]]|].
      destruct (create_ext s1 _ s' w (fresh s1) E H1) as (A2 & X2 & H2 & O2 & V2 & F2); [|reflexivity|]; [intros b [[<-|[<-|[]]]|[]]; lia|].
      assert (X : extends (heap s) (heap s')) by (eauto using ext_trans). split; [apply (grown s); [exact HS|exact X|exact H2|congruence]|]. split; [exact X|]. split; [eauto|].
      unfold operand. rewrite O2. apply kept_num; [apply X, Ha|]. apply (reaches_next _ w _ a a O2); [left; reflexivity|constructor].
    - injection E as <- <-. split; [exact HS|]. split; [intros b o; auto|]. split; [eauto|]. unfold operand. rewrite Ha. exact K.
  Qed.

  Lemma exec_ok (s : pystate V) F c : state_ok s F -> match c with Negate _ y => match F y with Some t => ~ is_number t | None => True end | _ => True end ->
    state_ok (py_exec s c) (understand F (Do c)).
  Proof.
    intros HS Hc. pose proof HS as [H0 HV]. destruct c as [x v|x o y z|x y|x y|x]; cbn [py_exec understand].
    - destruct (create s (PNum v)) as [s1 a] eqn:E. destruct (create_ext s _ s1 a (fresh s) E H0) as (A1 & X1 & H1 & O1 & V1 & _); [|reflexivity|]; [intros b [[]|[]]|].
      unfold bind_var. cbn [fst snd]. apply set_ok; [apply (grown s); assumption|]. left. eauto.
    - pose proof (HV y) as Hy. pose proof (HV z) as Hz. destruct (F y) as [t|], (vars s y) as [l|]; try contradiction; [|exact HS].
      destruct (F z) as [u|], (vars s z) as [r|]; try contradiction; [|exact HS].
      assert (Hr : exists q, heap s r = Some q) by (destruct Hz as [(v & -> & _)|(v & k & -> & _)]; eauto). destruct Hr as [q Hr].
      assert (Fin : forall s1 self s2 r', state_ok s1 F -> extends (heap s) (heap s1) -> (exists v l, heap s1 self = Some (PYap v l)) -> operand (heap s1) self t ->
        yap_op s1 (bin_op o) self [r] = (s2, r') -> state_ok (bind_var x (s2, r')) (assigned F x (Some (Bin o t u)))).
      { intros s1 self s2 r' S1 X1 Y1 O1 E. destruct (yap_op_ok s1 F (bin_op o) self [r] [u] t (Bin o t u) s2 r' S1 Y1 O1) as [S2 G]; [| | | |exact E|unfold bind_var; cbn [fst snd]; apply set_ok; assumption].
        - constructor; [|constructor]. apply good_operand. apply (good_mono (heap s)); assumption.
        - intros [].
        - intros k a i Hi R K1 K2. cbn [map bin_op hd] in Hi, K2. inversion K2 as [|? ? ? ? K3 _]; subst. apply (kept_bin k a i o (unwrapped s1 self) (unwrapped s1 r)); assumption.
        - cbn. intros b [<-|[<-|[]]]; auto. }
      destruct Hy as [(v & Hl & Et)|(v & k & Hl & N & K)]; rewrite Hl, Hr.
      + destruct (wrap s l) as [s1 w] eqn:Ew. destruct (wrap_ok s F l t s1 w HS) with (2 := Ew) as (S1 & X1 & Y1 & O1); [left; eauto|].
        destruct (yap_op s1 (bin_op o) w [r]) as [s2 r'] eqn:E. apply (Fin s1 w s2 r'); assumption.
      + destruct (yap_op s (bin_op o) l [r]) as [s2 r'] eqn:E. apply (Fin s l s2 r' HS); [intros b ob; auto|eauto| |exact E]. unfold operand. rewrite Hl. exact K.
    - pose proof (HV y) as Hy. destruct (F y) as [t|] eqn:Fy, (vars s y) as [a|]; try contradiction; [|exact HS].
      destruct Hy as [(v & Ha & ->)|(v & k & Ha & N & K)]; [exfalso; apply Hc; exact I|]. rewrite Ha. destruct (yap_op s neg_op a []) as [s2 r'] eqn:E.
      destruct (yap_op_ok s F neg_op a [] [] t (Neg t) s2 r' HS) as [S2 G]; [eauto|unfold operand; rewrite Ha; exact K|constructor|intros []| | |exact E|unfold bind_var; cbn [fst snd]; apply set_ok; assumption].
      + intros k' b i Hi R K1 _. apply (kept_neg k' b i (unwrapped s a)); assumption.
      + cbn. intros b [<-|[]]. auto.
    - pose proof (HV y) as Hy. destruct (F y) as [t|] eqn:Fy, (vars s y) as [a|]; try contradiction; [|exact HS]. apply set_ok; assumption.
    - split; [exact H0|]. intros y. unfold assigned, set. cbn. destruct (y =? x); [exact I|apply HV].
  Qed.
  Lemma release_ok (s : pystate V) F a : state_ok s F -> ~ reachable s a -> state_ok (release s a) F.
  Proof.
    intros [[H1 H2] HV] N. split; [split|].
    - intros b L. unfold release. cbn. destruct (Nat.eqb b a); auto.
    - intros b o c. unfold release. cbn. destruct (Nat.eqb b a); [discriminate|apply H2].
    - intros x. specialize (HV x). change (vars (release s a)) with (vars s). destruct (F x) as [t|]; [|exact HV]. destruct (vars s x) as [b|] eqn:Ex; [|exact HV].
      assert (R : forall d, reaches (heap s) b d -> d <> a) by (intros d Rd ->; apply N; exists x, b; auto).
      assert (Nb : Nat.eqb b a = false) by (apply Nat.eqb_neq, R; constructor). unfold release. cbn.
      destruct HV as [(v & Hb & ->)|(v & l & Hb & Nn & K)]; [left; exists v; rewrite Nb; auto|right; exists v, l; rewrite Nb; split; [exact Hb|split; [exact Nn|]]]. apply release_kept; assumption.
  Qed.

  Lemma history_ok es (s : pystate V) : history es s -> no_bare_negation (fun _ => None) es -> state_ok s (formulas_after es).
  Proof.
    assert (App : forall (F : formulas (V := V)) es1 e, no_bare_negation F (es1 ++ [e]) -> no_bare_negation F es1 /\ match e with Do (Negate _ y) => match fold_left understand es1 F y with Some t => ~ is_number t | None => True end | _ => True end).
    { intros F es1. revert F. induction es1 as [|d es1 IH]; intros F e; cbn [app no_bare_negation fold_left].
      - intros [H _]. split; [exact Logic.I|exact H].
      - intros [H K]. destruct (IH _ _ K) as [K1 K2]. split; [split; assumption|exact K2]. }
    induction 1 as [|es s c H IH|es s a H IH N]; intros Nb.
    - split; [split; [reflexivity|discriminate]|intros x; exact I].
    - destruct (App _ _ _ Nb) as [N1 N2]. unfold formulas_after. rewrite fold_left_app. cbn [fold_left]. apply exec_ok; [apply IH, N1|]. destruct c; try exact I. exact N2.
    - destruct (App _ _ _ Nb) as [N1 _]. unfold formulas_after. rewrite fold_left_app. cbn [fold_left understand]. apply release_ok; [apply IH, N1|exact N].
  Qed.

  Lemma call_spec zero neg op (s : pystate V) F x t p rd : state_ok s F -> F x = Some t -> ~ is_number t -> forall m,
    py_call zero neg op s x p rd = meaning neg op m (Some p) (Some rd) t.
  Proof.
    intros [H0 HV] Fx N m. specialize (HV x). rewrite Fx in HV. unfold py_call. destruct (vars s x) as [a|]; [|contradiction].
    destruct HV as [(v & _ & ->)|(v & l & Ha & _ & K)]; [exfalso; apply N; exact I|]. rewrite Ha. rewrite (follow_kept (heap s) (fresh s) a H0 v t K (S v)) by lia.
    pose proof (kept_below _ _ _ _ K) as B.
    assert (M : meaning neg op m (Some p) (Some rd) t = meaning neg op (fun _ => zero) (Some p) (Some rd) t).
    { clear - K. induction K; cbn; [reflexivity| |rewrite IHK; reflexivity]. rewrite IHK1, IHK2. reflexivity. }
    rewrite M. pose proof (transform_spec zero neg op (Round (Prec t p) rd) (fun _ => zero) 1 0 (None, None)) as T. cbn [below fst snd meaning] in T. specialize (T B ltac:(lia)).
    destruct (meaning neg op (fun _ => zero) (Some p) (Some rd) t) as [w|] eqn:E; [|rewrite T; reflexivity]. destruct T as (m' & -> & <- & _). reflexivity.
  Qed.
End Proofs.
