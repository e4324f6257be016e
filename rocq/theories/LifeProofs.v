(** The life of floats and balls: proofs. *)
From Coq Require Import ZArith List Bool Lia.
From Verif Require Import Life SpecLife.
Import ListNotations.

Record ok (m : mem) : Prop := mkOk {
  ok_valid : forall x i a, points m x i a -> heap m a <> None;
  ok_alone : forall x i y j a, points m x i a -> points m y j a -> x = y /\ i = j;
  ok_owned : forall a, heap m a <> None -> exists x i, points m x i a;
  ok_next : forall a, heap m a <> None -> (a < next m)%nat }.

Lemma word_eq_dec (w w' : word) : {w = w'} + {w <> w'}.
Proof. decide equality; [apply Z.eq_dec|apply Nat.eq_dec]. Qed.
Lemma nth_replace {A} (l : list A) : forall i j w, nth_error (replace l i w) j = if Nat.eqb i j then (if nth_error l i then Some w else None) else nth_error l j.
Proof. induction l as [|h t IH]; intros [|i] [|j] w; cbn; try reflexivity. - destruct (Nat.eqb i j); reflexivity. - apply IH. Qed.
Lemma replace_length {A} (l : list A) : forall i w, length (replace l i w) = length l.
Proof. induction l as [|h t IH]; intros [|i] w; cbn; congruence. Qed.
Lemma replace_mid {A} (pre : list A) o post v : replace (pre ++ o :: post) (length pre) v = pre ++ v :: post.
Proof. induction pre; cbn; congruence. Qed.
Lemma read_words_ext m m' ws : (forall a, In (Ptr a) ws -> heap m' a = heap m a) -> read_words m' ws = read_words m ws.
Proof.
  induction ws as [|w ws IH]; intros H; cbn; [reflexivity|]. rewrite IH by (intros a I; apply H; right; exact I).
  destruct w as [n|a]; cbn; [reflexivity|]. rewrite (H a) by (left; reflexivity). reflexivity.
Qed.
Lemma read_words_total m ws : (forall a, In (Ptr a) ws -> heap m a <> None) -> exists vs, read_words m ws = Some vs.
Proof.
  induction ws as [|w ws IH]; intros H; cbn; [eauto|]. destruct IH as [vs ->]; [intros a I; apply H; right; exact I|].
  destruct w as [n|a]; cbn; [eauto|]. destruct (heap m a) as [v|] eqn:E; [cbn; eauto|]. exfalso. exact (H a (or_introl eq_refl) E).
Qed.
Lemma read_words_length m ws vs : read_words m ws = Some vs -> length vs = length ws.
Proof.
  revert vs. induction ws as [|w ws IH]; cbn; intros vs H; [injection H as <-; reflexivity|].
  destruct (read_word m w); [|discriminate]. cbn in H. destruct (read_words m ws); [|discriminate]. cbn in H. injection H as <-. cbn. f_equal. apply IH. reflexivity.
Qed.
Lemma read_words_replace m m' : forall ws vs i w v, read_words m ws = Some vs -> (i < length ws)%nat -> read_word m' w = Some v ->
  (forall j a, j <> i -> nth_error ws j = Some (Ptr a) -> heap m' a = heap m a) -> read_words m' (replace ws i w) = Some (replace vs i v).
Proof.
  induction ws as [|w0 ws IH]; intros vs i w v H L R K; [cbn in L; lia|]. cbn in H. destruct (read_word m w0) as [v0|] eqn:E0; [|discriminate]. cbn in H.
  destruct (read_words m ws) as [vs0|] eqn:E; [|discriminate]. cbn in H. injection H as <-. destruct i as [|i]; cbn.
  - rewrite R. cbn. rewrite (read_words_ext m m' ws), E; [reflexivity|]. intros a I. destruct (In_nth_error _ _ I) as [j Hj]. exact (K (S j) a ltac:(lia) Hj).
  - assert (E0' : read_word m' w0 = Some v0) by (destruct w0 as [n|a]; [exact E0|cbn in *; rewrite (K O a ltac:(lia) eq_refl); exact E0]).
    rewrite E0'. cbn. rewrite (IH vs0 i w v eq_refl); [reflexivity|cbn in L; lia|exact R|]. intros j a N Hj. exact (K (S j) a ltac:(lia) Hj).
Qed.
Lemma in_points m x ws a : vars m x = Some ws -> In (Ptr a) ws -> exists i, points m x i a.
Proof. intros H I. destruct (In_nth_error _ _ I) as [i Hi]. exists i, ws. auto. Qed.
Lemma read_total m x ws : ok m -> vars m x = Some ws -> exists vs, read m x = Some vs /\ length vs = length ws.
Proof.
  intros O H. destruct (read_words_total m ws) as [vs E].
  { intros a I. destruct (in_points m x ws a H I) as [i P]. exact (ok_valid m O x i a P). }
  exists vs. unfold read. rewrite H. split; [exact E|exact (read_words_length m ws vs E)].
Qed.
Lemma read_lives m x : ok m -> (read m x = None <-> vars m x = None).
Proof.
  intros O. split; intros H; [|unfold read; rewrite H; reflexivity]. destruct (vars m x) as [ws|] eqn:E; [|reflexivity].
  destruct (read_total m x ws O E) as (vs & R & _). congruence.
Qed.
(** Another variable reads the same after memory it does not own has changed. *)
Lemma read_other m m' y : vars m' y = vars m y -> (forall i a, points m y i a -> heap m' a = heap m a) -> read m' y = read m y.
Proof.
  intros V H. unfold read. rewrite V. destruct (vars m y) as [ws|] eqn:E; [|reflexivity]. cbn. apply read_words_ext. intros a I.
  destruct (in_points m y ws a E I) as [i P]. exact (H i a P).
Qed.

Lemma ok_rename m m' (s : nat -> nat) : (forall a, heap m' a = heap m a) -> next m' = next m -> (forall z, s (s z) = z) ->
  (forall z i a, points m' z i a <-> points m (s z) i a) -> ok m -> ok m'.
Proof.
  intros H N I P [O1 O2 O3 O4]. split.
  - intros x i a Q. rewrite H. apply (O1 (s x) i a), P, Q.
  - intros x i y j a Q1 Q2. apply P in Q1, Q2. destruct (O2 _ _ _ _ _ Q1 Q2) as [E1 E2]. split; [|exact E2]. rewrite <- (I x), <- (I y), E1. reflexivity.
  - intros a Q. rewrite H in Q. destruct (O3 a Q) as (x & i & R). exists (s x), i. apply P. rewrite I. exact R.
  - intros a Q. rewrite H in Q. rewrite N. exact (O4 a Q).
Qed.

Lemma points_set_var m x ws y i a : points (set_var m x ws) y i a <-> (if Nat.eqb y x then exists w, ws = Some w /\ nth_error w i = Some (Ptr a) else points m y i a).
Proof. unfold points, set_var. cbn. destruct (Nat.eqb y x); reflexivity. Qed.
Lemma nth_repeat_imm n i a : nth_error (repeat (Imm 0) n) i <> Some (Ptr a).
Proof. revert i. induction n; intros [|i]; cbn; try discriminate. apply IHn. Qed.
Lemma read_zeros m n : read_words m (repeat (Imm 0) n) = Some (zero n).
Proof. unfold zero. induction n; cbn; [reflexivity|]. rewrite IHn. reflexivity. Qed.
Lemma read_init m x n : read (init m x n) x = Some (zero n).
Proof. unfold read, init, set_var. cbn. rewrite Nat.eqb_refl. apply read_zeros. Qed.
Lemma init_ok m x n : ok m -> vars m x = None -> ok (init m x n) /\ (forall y, y <> x -> read (init m x n) y = read m y) /\ vars (init m x n) x = Some (repeat (Imm 0) n).
Proof.
  intros O V. split; [|split].
  - apply (ok_rename m _ (fun z => z)); try reflexivity; [|exact O]. intros z i a. unfold init. rewrite points_set_var. destruct (Nat.eqb_spec z x) as [->|N]; [|reflexivity].
    split; [intros (w & [= <-] & H); exfalso; exact (nth_repeat_imm n i a H)|intros (ws & H & _); congruence].
  - intros y N. apply read_other; [cbn; apply Nat.eqb_neq in N; rewrite N; reflexivity|reflexivity].
  - cbn. rewrite Nat.eqb_refl. reflexivity.
Qed.

Section Small.
  Variable small : Z -> bool.
  Lemma store_word_ok m x ws i v : ok m -> vars m x = Some ws -> (i < length ws)%nat ->
    exists m' ws' vs, store_word small m x i v = Some m' /\ ok m' /\ vars m' x = Some ws' /\ length ws' = length ws /\ (forall y, y <> x -> vars m' y = vars m y /\ read m' y = read m y) /\
      read m x = Some vs /\ read m' x = Some (replace vs i v).
  Proof.
    intros O V Li. destruct (read_total m x ws O V) as (vs & R & _). assert (Rw : read_words m ws = Some vs) by (unfold read in R; rewrite V in R; exact R).
    destruct (nth_error ws i) as [w|] eqn:Ew; [|apply nth_error_None in Ew; lia]. unfold store_word. rewrite V. cbn [bind]. rewrite Ew. cbn [bind].
    assert (Other : forall j a, j <> i -> nth_error ws j = Some (Ptr a) -> points m x j a) by (intros j a _ H; exists ws; auto).
    destruct (small v) eqn:Sv.
    - destruct w as [n|a].
      + (* in place before and after *) cbn [bind]. exists (set_var m x (Some (replace ws i (Imm v)))), (replace ws i (Imm v)), vs. split; [reflexivity|].
        assert (P : forall z j a, points (set_var m x (Some (replace ws i (Imm v)))) z j a <-> points m z j a).
        { intros z j a. rewrite points_set_var. destruct (Nat.eqb_spec z x) as [->|N]; [|reflexivity]. split.
          - intros (w' & [= <-] & H). rewrite nth_replace in H. destruct (Nat.eqb_spec i j) as [->|Nj]; [rewrite Ew in H; discriminate|]. exists ws. auto.
          - intros (ws' & H1 & H2). rewrite V in H1. injection H1 as <-. exists (replace ws i (Imm v)). split; [reflexivity|]. rewrite nth_replace. destruct (Nat.eqb_spec i j) as [->|Nj]; [congruence|exact H2]. }
        split; [apply (ok_rename m _ (fun z => z)); auto|]. split; [cbn; rewrite Nat.eqb_refl; reflexivity|]. split; [apply replace_length|]. split.
        * intros y N. apply Nat.eqb_neq in N. split; [cbn; rewrite N; reflexivity|]. apply read_other; [cbn; rewrite N; reflexivity|reflexivity].
        * split; [exact R|]. unfold read. cbn. rewrite Nat.eqb_refl. cbn. apply (read_words_replace m); auto.
      + (* memory is freed *) assert (Pa : points m x i a) by (exists ws; auto). pose proof (ok_valid m O x i a Pa) as Ha. unfold free. destruct (heap m a) as [v0|] eqn:Eh; [|congruence]. cbn [bind].
        eexists _, (replace ws i (Imm v)), vs. split; [reflexivity|].
        assert (Diff : forall z j b, points m z j b -> (z <> x \/ j <> i) -> b <> a) by (intros z j b Pb D ->; destruct (ok_alone m O _ _ _ _ _ Pa Pb); destruct D; congruence).
        assert (P : forall z j b, points (set_var (set_heap m a None) x (Some (replace ws i (Imm v)))) z j b <-> points m z j b /\ b <> a).
        { intros z j b. rewrite points_set_var. destruct (Nat.eqb_spec z x) as [->|N].
          - split.
            + intros (w' & [= <-] & H). rewrite nth_replace in H. destruct (Nat.eqb_spec i j) as [->|Nj]; [rewrite Ew in H; discriminate|].
              assert (Pb : points m x j b) by (exists ws; auto). split; [exact Pb|]. apply (Diff x j b Pb). right. congruence.
            + intros [(ws' & H1 & H2) Nb]. rewrite V in H1. injection H1 as <-. exists (replace ws i (Imm v)). split; [reflexivity|]. rewrite nth_replace. destruct (Nat.eqb_spec i j) as [->|Nj]; [congruence|exact H2].
          - split; [|intros [H _]; exact H]. intros H. split; [exact H|]. apply (Diff z j b H). left. exact N. }
        split.
        { destruct O as [O1 O2 O3 O4]. split.
          - intros z j b H. apply P in H. destruct H as [H Nb]. cbn. apply Nat.eqb_neq in Nb. rewrite Nb. exact (O1 z j b H).
          - intros z j z' j' b H1 H2. apply P in H1, H2. exact (O2 _ _ _ _ _ (proj1 H1) (proj1 H2)).
          - intros b H. cbn in H. destruct (Nat.eqb_spec b a) as [Eb|Nb]; [congruence|]. destruct (O3 b H) as (z & j & Q). exists z, j. apply P. auto.
          - intros b H. cbn in *. destruct (Nat.eqb b a); [congruence|exact (O4 b H)]. }
        split; [cbn; rewrite Nat.eqb_refl; reflexivity|]. split; [apply replace_length|]. split.
        * intros y N. pose proof N as N'. apply Nat.eqb_neq in N. split; [cbn; rewrite N; reflexivity|]. apply read_other; [cbn; rewrite N; reflexivity|].
          intros j b Pb. cbn. pose proof (Diff y j b Pb (or_introl N')) as Nb. apply Nat.eqb_neq in Nb. rewrite Nb. reflexivity.
        * split; [exact R|]. unfold read. cbn. rewrite Nat.eqb_refl. cbn. apply (read_words_replace m); auto. intros j b Nj Hj. cbn.
          pose proof (Diff x j b (Other j b Nj Hj) (or_intror Nj)) as Nb. apply Nat.eqb_neq in Nb. rewrite Nb. reflexivity.
    - destruct w as [n|a].
      + (* memory is allocated *) eexists _, (replace ws i (Ptr (next m))), vs. split; [reflexivity|].
        assert (Fresh : forall z j b, points m z j b -> b <> next m) by (intros z j b Pb ->; pose proof (ok_next m O (next m) (ok_valid m O _ _ _ Pb)); lia).
        match goal with |- ok ?M /\ _ => set (m' := M) end.
        assert (P : forall z j b, points m' z j b <-> points m z j b \/ (z = x /\ j = i /\ b = next m)).
        { intros z j b. unfold m'. rewrite points_set_var. destruct (Nat.eqb_spec z x) as [->|N].
          - split.
            + intros (w' & [= <-] & H). rewrite nth_replace, Ew in H. destruct (Nat.eqb_spec i j) as [->|Nj]; [injection H as <-; auto|]. left. exists ws. auto.
            + intros H. exists (replace ws i (Ptr (next m))). split; [reflexivity|]. rewrite nth_replace, Ew. destruct H as [(ws' & H1 & H2)|(_ & -> & ->)]; [|rewrite Nat.eqb_refl; reflexivity].
              rewrite V in H1. injection H1 as <-. destruct (Nat.eqb_spec i j) as [->|Nj]; [congruence|exact H2].
          - split; [intros H; left; exact H|intros [H|[H _]]; [exact H|contradiction]]. }
        split.
        { split.
          - intros z j b H. apply P in H. cbn. destruct H as [H|(_ & _ & ->)]; [|rewrite Nat.eqb_refl; discriminate]. destruct (Nat.eqb b (next m)); [discriminate|exact (ok_valid m O z j b H)].
          - intros z j z' j' b H1 H2. apply P in H1, H2. destruct H1 as [H1|(-> & -> & ->)], H2 as [H2|(-> & -> & E)]; [exact (ok_alone m O _ _ _ _ _ H1 H2)| | |auto].
            + exfalso. exact (Fresh _ _ _ H1 E).
            + exfalso. exact (Fresh _ _ _ H2 eq_refl).
          - intros b H. cbn in H. destruct (Nat.eqb_spec b (next m)) as [Eb|Nb]; [try subst b; exists x, i; apply P; auto|]. destruct (ok_owned m O b H) as (z & j & Q). exists z, j. apply P. auto.
          - intros b H. cbn in *. destruct (Nat.eqb_spec b (next m)) as [Eb|Nb]; [try subst b; lia|]. pose proof (ok_next m O b H). lia. }
        split; [cbn; rewrite Nat.eqb_refl; reflexivity|]. split; [apply replace_length|]. split.
        * intros y N. pose proof N as N'. apply Nat.eqb_neq in N. split; [cbn; rewrite N; reflexivity|]. apply read_other; [cbn; rewrite N; reflexivity|].
          intros j b Pb. cbn. pose proof (Fresh y j b Pb) as Nb. apply Nat.eqb_neq in Nb. rewrite Nb. reflexivity.
        * split; [exact R|]. unfold read. cbn. rewrite Nat.eqb_refl. cbn. apply (read_words_replace m); auto; [cbn; rewrite Nat.eqb_refl; reflexivity|]. intros j b Nj Hj. cbn.
          pose proof (Fresh x j b (Other j b Nj Hj)) as Nb. apply Nat.eqb_neq in Nb. rewrite Nb. reflexivity.
      + (* memory is used again *) assert (Pa : points m x i a) by (exists ws; auto). pose proof (ok_valid m O x i a Pa) as Ha. destruct (heap m a) as [v0|] eqn:Eh; [|congruence].
        exists (set_heap m a (Some v)), ws, vs. split; [reflexivity|].
        assert (Diff : forall z j b, points m z j b -> (z <> x \/ j <> i) -> b <> a) by (intros z j b Pb D ->; destruct (ok_alone m O _ _ _ _ _ Pa Pb); destruct D; congruence).
        split.
        { assert (H0 : forall b, heap (set_heap m a (Some v)) b <> None <-> heap m b <> None) by (intros b; cbn; destruct (Nat.eqb_spec b a) as [->|Nb]; [split; intros; congruence|reflexivity]).
          destruct O as [O1 O2 O3 O4]. split.
          - intros z j b H. apply H0. exact (O1 z j b H).
          - exact O2.
          - intros b H. apply H0 in H. exact (O3 b H).
          - intros b H. apply H0 in H. exact (O4 b H). }
        split; [exact V|]. split; [reflexivity|]. split.
        * intros y N. split; [reflexivity|]. apply read_other; [reflexivity|]. intros j b Pb. cbn. pose proof (Diff y j b Pb (or_introl N)) as Nb. apply Nat.eqb_neq in Nb. rewrite Nb. reflexivity.
        * split; [exact R|]. unfold read. cbn. rewrite V. cbn. replace ws with (replace ws i (Ptr a)) at 1.
          -- apply (read_words_replace m); auto; [cbn; rewrite Nat.eqb_refl; reflexivity|]. intros j b Nj Hj. cbn. pose proof (Diff x j b (Other j b Nj Hj) (or_intror Nj)) as Nb. apply Nat.eqb_neq in Nb. rewrite Nb. reflexivity.
          -- clear -Ew. revert i Ew. induction ws as [|w ws IH]; intros [|i] E; cbn in *; try discriminate; [congruence|f_equal; apply IH, E].
  Qed.
  Lemma store_from_ok x : forall vs m ws pre old, ok m -> vars m x = Some ws -> read m x = Some (pre ++ old) -> length old = length vs ->
    exists m', store_from small m x (length pre) vs = Some m' /\ ok m' /\ (forall y, y <> x -> vars m' y = vars m y /\ read m' y = read m y) /\ read m' x = Some (pre ++ vs).
  Proof.
    induction vs as [|v vs IH]; intros m ws pre old O V R L; cbn.
    - destruct old; [|discriminate]. exists m. auto.
    - destruct old as [|o old]; [discriminate|]. destruct (read_total m x ws O V) as (vs0 & R0 & L0). rewrite R in R0. injection R0 as <-. rewrite app_length in L0. cbn in L0, L.
      destruct (store_word_ok m x ws (length pre) v O V ltac:(lia)) as (m1 & ws1 & vs1 & E1 & O1 & V1 & L1 & F1 & R1 & R1'). rewrite R in R1. injection R1 as <-. rewrite replace_mid in R1'.
      rewrite E1. cbn. destruct (IH m1 ws1 (pre ++ [v]) old O1 V1) as (m2 & E2 & O2 & F2 & R2); [rewrite <- app_assoc; exact R1'|lia|].
      rewrite app_length, Nat.add_1_r in E2. rewrite E2. exists m2. split; [reflexivity|]. split; [exact O2|]. split.
      + intros y N. destruct (F1 y N) as [A1 A2], (F2 y N) as [B1 B2]. split; congruence.
      + rewrite <- app_assoc in R2. exact R2.
  Qed.
  Lemma store_ok m x ws vs : ok m -> vars m x = Some ws -> length vs = length ws ->
    exists m', store small m x vs = Some m' /\ ok m' /\ (forall y, y <> x -> read m' y = read m y) /\ read m' x = Some vs.
  Proof.
    intros O V L. destruct (read_total m x ws O V) as (old & R & L0). destruct (store_from_ok x vs m ws [] old O V R ltac:(lia)) as (m' & E & O' & F & R').
    exists m'. split; [exact E|]. split; [exact O'|]. split; [intros y N; apply F, N|exact R'].
  Qed.
  Lemma read_arity m x vs : ok m -> read m x = Some vs -> arity m x = Some (length vs) /\ exists ws, vars m x = Some ws /\ length ws = length vs.
  Proof.
    intros O R. unfold read in R. unfold arity. destruct (vars m x) as [ws|] eqn:V; [|discriminate]. cbn in R |- *. apply read_words_length in R. rewrite R. eauto.
  Qed.
  Lemma write_ok m x vs f : ok m -> read m x = Some vs ->
    exists m', write small m x f = Some m' /\ ok m' /\ (forall y, y <> x -> read m' y = read m y) /\ read m' x = Some (words (length vs) f).
  Proof.
    intros O R. destruct (read_arity m x vs O R) as (Ar & ws & V & L). unfold write. rewrite Ar. cbn [bind]. apply (store_ok m x ws); [exact O|exact V|]. unfold words; rewrite map_length, seq_length. congruence.
  Qed.
  Lemma read_all_ok m xs : (forall x, In x xs -> exists v, read m x = Some v) -> read_all m xs = Some (map (value_of (read m)) xs).
  Proof.
    induction xs as [|x xs IH]; intros H; cbn; [reflexivity|]. destruct (H x (or_introl eq_refl)) as [v E]. unfold value_of at 1. rewrite E. cbn. rewrite IH by (intros y I; apply H; right; exact I). reflexivity.
  Qed.
  Lemma swap_ok m x y u v : ok m -> read m x = Some u -> read m y = Some v ->
    exists m', swap m x y = Some m' /\ ok m' /\ (forall z, z <> x -> z <> y -> read m' z = read m z) /\ read m' x = Some v /\ read m' y = Some u.
  Proof.
    intros O Rx Ry. unfold swap. destruct (vars m x) as [wx|] eqn:Vx; [|unfold read in Rx; rewrite Vx in Rx; discriminate]. destruct (vars m y) as [wy|] eqn:Vy; [|unfold read in Ry; rewrite Vy in Ry; discriminate].
    cbn [bind]. eexists. split; [reflexivity|]. unfold read in Rx, Ry. rewrite Vx in Rx. rewrite Vy in Ry. cbn in Rx, Ry. split.
    - apply (ok_rename m _ (fun z => if Nat.eqb z x then y else if Nat.eqb z y then x else z)); try reflexivity; [| |exact O].
      + intros z. destruct (Nat.eqb_spec z x) as [->|N1]; [destruct (Nat.eqb_spec y x); [auto|rewrite Nat.eqb_refl; reflexivity]|].
        destruct (Nat.eqb_spec z y) as [->|N2]; [rewrite Nat.eqb_refl; reflexivity|]. apply Nat.eqb_neq in N1, N2. rewrite N1, N2. reflexivity.
      + intros z i a. rewrite !points_set_var. destruct (Nat.eqb_spec z y) as [->|N2].
        * destruct (Nat.eqb_spec y x) as [->|N1].
          -- split; [intros (w & [= <-] & H); exists wx; auto|intros (w & H1 & H2); exists w; split; [congruence|exact H2]].
          -- split; [intros (w & [= <-] & H); exists wx; auto|intros (w & H1 & H2); exists w; split; [congruence|exact H2]].
        * try rewrite points_set_var. destruct (Nat.eqb_spec z x) as [->|N1]; [|reflexivity]. split; [intros (w & [= <-] & H); exists wy; auto|intros (w & H1 & H2); exists w; split; [congruence|exact H2]].
    - split; [|split].
      + intros z N1 N2. apply read_other; [cbn; apply Nat.eqb_neq in N1, N2; rewrite N2, N1; reflexivity|reflexivity].
      + unfold read. cbn. destruct (Nat.eqb_spec x y) as [->|N]; [rewrite Vx in Vy; injection Vy as ->; cbn [bind]; rewrite (read_words_ext m) by reflexivity; exact Ry|rewrite Nat.eqb_refl; cbn [bind]; rewrite (read_words_ext m) by reflexivity; exact Ry].
      + unfold read. cbn. rewrite Nat.eqb_refl. cbn [bind]; rewrite (read_words_ext m) by reflexivity; exact Rx.
  Qed.
  Lemma clear_ok : forall ws m, (forall a, In (Ptr a) ws -> heap m a <> None) -> (forall i j a, nth_error ws i = Some (Ptr a) -> nth_error ws j = Some (Ptr a) -> i = j) ->
    exists m', clear_words m ws = Some m' /\ next m' = next m /\ (forall y, vars m' y = vars m y) /\ forall a, (In (Ptr a) ws -> heap m' a = None) /\ (~ In (Ptr a) ws -> heap m' a = heap m a).
  Proof.
    induction ws as [|w ws IH]; intros m H D; cbn.
    - exists m. split; [reflexivity|]. split; [reflexivity|]. split; [reflexivity|]. intros a. split; [intros []|reflexivity].
    - assert (D' : forall i j a, nth_error ws i = Some (Ptr a) -> nth_error ws j = Some (Ptr a) -> i = j) by (intros i j a H1 H2; specialize (D (S i) (S j) a H1 H2); lia).
      destruct w as [n|a].
      + destruct (IH m) as (m' & E & N & V & F); [intros b I; apply H; right; exact I|exact D'|]. exists m'. split; [exact E|]. split; [exact N|]. split; [exact V|]. intros b. destruct (F b) as [F1 F2]. split.
        * intros [C|I]; [discriminate|exact (F1 I)].
        * intros NI. apply F2. intros I. apply NI. right. exact I.
      + assert (NIn : ~ In (Ptr a) ws) by (intros I; destruct (In_nth_error _ _ I) as [j Hj]; specialize (D O (S j) a eq_refl Hj); discriminate).
        pose proof (H a (or_introl eq_refl)) as Ha. unfold free. destruct (heap m a) as [v|] eqn:Ea; [|congruence]. cbn [bind].
        destruct (IH (set_heap m a None)) as (m' & E & N & V & F); [|exact D'|].
        { intros b I. cbn. destruct (Nat.eqb_spec b a) as [->|Nb]; [contradiction|]. apply H. right. exact I. }
        exists m'. split; [exact E|]. split; [exact N|]. split; [exact V|]. intros b. destruct (F b) as [F1 F2]. split.
        * intros [C|I]; [injection C as ->; rewrite (F2 NIn); cbn; rewrite Nat.eqb_refl; reflexivity|exact (F1 I)].
        * intros NI. rewrite F2 by (intros I; apply NI; right; exact I). cbn. destruct (Nat.eqb_spec b a) as [->|Nb]; [exfalso; apply NI; left; reflexivity|reflexivity].
  Qed.
  Lemma destroy_ok m x v : ok m -> read m x = Some v -> exists m', step small m (Destroy x) = Some m' /\ ok m' /\ (forall y, y <> x -> read m' y = read m y) /\ read m' x = None.
  Proof.
    intros O R. destruct (read_arity m x v O R) as (_ & ws & V & _). cbn. rewrite V. cbn [bind].
    destruct (clear_ok ws m) as (m' & E & N & Vs & F).
    { intros a I. destruct (in_points m x ws a V I) as [i P]. exact (ok_valid m O x i a P). }
    { intros i j a H1 H2. apply (ok_alone m O x i x j a); [exists ws; auto|exists ws; auto]. }
    rewrite E. cbn [bind]. exists (set_var m' x None). split; [reflexivity|].
    assert (P : forall z i a, points (set_var m' x None) z i a <-> points m z i a /\ z <> x).
    { intros z i a. rewrite points_set_var. unfold points. rewrite Vs. destruct (Nat.eqb_spec z x) as [->|Nz]; [split; [intros (w & C & _); discriminate|intros [_ C]; contradiction]|]. split; [intros H; split; [exact H|exact Nz]|intros [H _]; exact H]. }
    assert (NI : forall z i a, points m z i a -> z <> x -> ~ In (Ptr a) ws) by (intros z i a Pz Nz I; destruct (in_points m x ws a V I) as [j Pj]; destruct (ok_alone m O _ _ _ _ _ Pz Pj); contradiction).
    split; [|split].
    - split.
      + intros z i a H. apply P in H. destruct H as [H Nz]. cbn. rewrite (proj2 (F a) (NI z i a H Nz)). exact (ok_valid m O z i a H).
      + intros z i z' j a H1 H2. apply P in H1, H2. exact (ok_alone m O _ _ _ _ _ (proj1 H1) (proj1 H2)).
      + intros a H. cbn in H. destruct (in_dec word_eq_dec (Ptr a) ws) as [I|I]; [rewrite (proj1 (F a) I) in H; congruence|].
        rewrite (proj2 (F a) I) in H. destruct (ok_owned m O a H) as (z & i & Pz). exists z, i. apply P. split; [exact Pz|]. intros ->. apply I. destruct Pz as (ws' & V' & Hn). rewrite V in V'. injection V' as <-. exact (nth_error_In _ _ Hn).
      + intros a H. cbn in *. rewrite N. destruct (in_dec word_eq_dec (Ptr a) ws) as [I|I]; [rewrite (proj1 (F a) I) in H; congruence|].
        rewrite (proj2 (F a) I) in H. exact (ok_next m O a H).
    - intros y Ny. apply read_other; [cbn; apply Nat.eqb_neq in Ny; rewrite Ny; apply Vs|]. intros i a Pa. cbn. exact (proj2 (F a) (NI y i a Pa Ny)).
    - unfold read. cbn. rewrite Nat.eqb_refl. reflexivity.
  Qed.

  Definition agrees (m : mem) (e : env) : Prop := forall x, read m x = e x.
  Lemma value_agrees m e x v : agrees m e -> read m x = Some v -> value_of e x = v.
  Proof. intros A R. unfold value_of. rewrite <- (A x), R. reflexivity. Qed.
  Lemma readonly_ok m z vs : ok m -> read m z = Some vs -> vs <> [] -> exists w, readonly small m z = Some w /\ read_word m w = Some (nth 0 vs 0%Z) /\ (forall a, w = Ptr a -> points m z 0 a).
  Proof.
    intros O R N. destruct (read_arity m z vs O R) as (_ & ws & V & L). unfold read in R. rewrite V in R. cbn in R. unfold readonly. rewrite V. cbn [bind].
    destruct ws as [|w ws]; [destruct vs; [contradiction|discriminate]|]. cbn [nth_error bind]. cbn in R. destruct (read_word m w) as [v|] eqn:Ew; [|discriminate]. cbn [bind] in *.
    destruct (read_words m ws) as [vs'|]; [|discriminate]. cbn in R. injection R as <-. cbn [nth]. eexists. split; [reflexivity|]. destruct (small v); split; try assumption; try reflexivity; [discriminate|].
    intros a ->. exists (Ptr a :: ws). auto.
  Qed.
  Theorem step_ok m e s : ok m -> agrees m e -> allowed e s -> exists m', step small m s = Some m' /\ ok m' /\ agrees m' (means e s).
  Proof.
    intros O A L.
    assert (Live : forall y, lives e y -> exists v, read m y = Some v) by (intros y H; unfold lives in H; rewrite <- (A y) in H; destruct (read m y); [eauto|contradiction]).
    assert (Dead : forall y, ~ lives e y -> vars m y = None).
    { intros y H. apply (read_lives m y O). destruct (read m y) eqn:E; [|reflexivity]. exfalso. apply H. unfold lives. rewrite <- (A y), E. discriminate. }
    assert (Vals : forall ys, map (value_of (read m)) ys = map (value_of e) ys) by (intros ys; apply map_ext; intros y; unfold value_of; rewrite (A y); reflexivity).
    assert (Put : forall m' m0 x v, (forall y, y <> x -> read m' y = read m0 y) -> read m' x = v -> (forall y, y <> x -> read m0 y = e y) -> agrees m' (put e x v)).
    { intros m' m0 x v F R H y. unfold put. destruct (Nat.eqb_spec y x) as [->|N]; [exact R|]. rewrite F, H by exact N. reflexivity. }
    destruct s as [x n|x n f ys|x y|x y|x y|x n f z|x f ys|x y|x f z|x y|x y|x]; cbn [allowed means step] in *.
    - (* Default *) destruct (init_ok m x n O (Dead x L)) as (O' & F & _). exists (init m x n). split; [reflexivity|]. split; [exact O'|]. apply (Put _ m); [exact F|apply read_init|intros y _; apply A].
    - (* New *) destruct L as [Nx Ly]. destruct (init_ok m x n O (Dead x Nx)) as (O' & F & V). rewrite read_all_ok by (intros y I; apply Live, Ly, I). cbn [bind]. rewrite Vals.
      destruct (write_ok (init m x n) x (zero n) (f (map (value_of e) ys)) O' (read_init m x n)) as (m' & E & O2 & F2 & R2). exists m'. split; [exact E|]. split; [exact O2|].
      unfold zero in R2. rewrite repeat_length in R2. apply (Put _ (init m x n)); [exact F2|exact R2|]. intros y N. rewrite (F y N). apply A.
    - (* NewCopy *) destruct L as [Nx Ly]. destruct (Live y Ly) as [v Ry]. destruct (read_arity m y v O Ry) as (Ar & _). rewrite Ar. cbn [bind].
      assert (Nxy : y <> x) by (intros ->; contradiction). destruct (init_ok m x (length v) O (Dead x Nx)) as (O' & F & V). unfold set. replace (Nat.eqb x y) with false by (symmetry; apply Nat.eqb_neq; congruence).
      rewrite (F y Nxy), Ry. cbn [bind]. destruct (store_ok (init m x (length v)) x _ v O' V) as (m' & E & O2 & F2 & R2); [rewrite repeat_length; reflexivity|].
      exists m'. split; [exact E|]. split; [exact O2|]. rewrite (value_agrees m e y v A Ry). apply (Put _ (init m x (length v))); [exact F2|exact R2|]. intros z N. rewrite (F z N). apply A.
    - (* NewMoveArf *) destruct L as [Nx Ly]. destruct (Live y Ly) as [v Ry]. destruct (read_arity m y v O Ry) as (Ar & _). rewrite Ar. cbn [bind].
      assert (Nxy : y <> x) by (intros ->; contradiction). destruct (init_ok m x (length v) O (Dead x Nx)) as (O' & F & V).
      destruct (swap_ok (init m x (length v)) x y (zero (length v)) v O') as (m' & E & O2 & F2 & R1 & R2); [apply read_init|rewrite (F y Nxy); exact Ry|].
      exists m'. split; [exact E|]. split; [exact O2|]. rewrite (value_agrees m e y v A Ry). intros z. unfold put. destruct (Nat.eqb_spec z y) as [->|N1]; [exact R2|]. destruct (Nat.eqb_spec z x) as [->|N2]; [exact R1|]. rewrite (F2 z N2 N1), (F z N2). apply A.
    - (* NewMoveArb *) destruct L as [Nx Ly]. destruct (Live y Ly) as [v Ry]. destruct (read_arity m y v O Ry) as (_ & ws & V & Lw). rewrite V. cbn [bind].
      assert (Nxy : y <> x) by (intros ->; contradiction). pose proof (Dead x Nx) as Vx. eexists. split; [reflexivity|]. split.
      + apply (ok_rename m _ (fun z => if Nat.eqb z x then y else if Nat.eqb z y then x else z)); try reflexivity; [| |exact O].
        * intros z. destruct (Nat.eqb_spec z x) as [->|N1]; [destruct (Nat.eqb_spec y x); [auto|rewrite Nat.eqb_refl; reflexivity]|].
          destruct (Nat.eqb_spec z y) as [->|N2]; [rewrite Nat.eqb_refl; reflexivity|]. apply Nat.eqb_neq in N1, N2. rewrite N1, N2. reflexivity.
        * intros z i a. unfold init. rewrite !points_set_var. destruct (Nat.eqb_spec z y) as [->|N2].
          -- replace (Nat.eqb y x) with false by (symmetry; apply Nat.eqb_neq; exact Nxy). split; [intros (w & [= <-] & H); exfalso; exact (nth_repeat_imm _ i a H)|intros (w & H1 & _); congruence].
          -- try rewrite points_set_var. destruct (Nat.eqb_spec z x) as [->|N1]; [|reflexivity]. split; [intros (w & [= <-] & H); exists ws; auto|intros (w & H1 & H2); exists w; split; [congruence|exact H2]].
      + rewrite (value_agrees m e y v A Ry), <- Lw. intros z. unfold put. destruct (Nat.eqb_spec z y) as [->|N1]; [apply read_init|]. destruct (Nat.eqb_spec z x) as [->|N2].
        * unfold read, init, set_var. cbn. replace (Nat.eqb x y) with false by (symmetry; apply Nat.eqb_neq; congruence). rewrite Nat.eqb_refl. unfold read in Ry. rewrite V in Ry. cbn [bind]; rewrite (read_words_ext m) by reflexivity; exact Ry.
        * rewrite <- (A z). apply read_other; [cbn; apply Nat.eqb_neq in N1, N2; rewrite N1, N2; reflexivity|reflexivity].
    - (* NewMpz *) destruct L as (Nx & Lz & Nz). destruct (Live z Lz) as [v Rz]. rewrite (value_agrees m e z v A Rz) in *. destruct (readonly_ok m z v O Rz Nz) as (w & Ew & Rw & _). rewrite Ew. cbn [bind].
      assert (Rw' : read_word (init m x n) w = Some (nth 0 v 0%Z)) by exact Rw. rewrite Rw'. cbn [bind].
      destruct (init_ok m x n O (Dead x Nx)) as (O' & F & V). destruct (write_ok (init m x n) x (zero n) (f (nth 0 v 0%Z)) O' (read_init m x n)) as (m' & E & O2 & F2 & R2). exists m'. split; [exact E|]. split; [exact O2|].
      unfold zero in R2. rewrite repeat_length in R2. apply (Put _ (init m x n)); [exact F2|exact R2|]. intros y N. rewrite (F y N). apply A.
    - (* Compute *) destruct L as [Lx Ly]. destruct (Live x Lx) as [v Rx]. rewrite read_all_ok by (intros y I; apply Live, Ly, I). cbn [bind]. rewrite Vals.
      destruct (write_ok m x v (f (map (value_of e) ys)) O Rx) as (m' & E & O2 & F2 & R2). exists m'. split; [exact E|]. split; [exact O2|]. rewrite (value_agrees m e x v A Rx). apply (Put _ m); [exact F2|exact R2|intros y _; apply A].
    - (* Assign *) destruct L as (Lx & Ly & Le). destruct (Live x Lx) as [v Rx]. destruct (Live y Ly) as [u Ry]. rewrite (value_agrees m e x v A Rx), (value_agrees m e y u A Ry) in Le. rewrite (value_agrees m e y u A Ry). unfold set.
      destruct (Nat.eqb_spec x y) as [->|N].
      + exists m. split; [reflexivity|]. split; [exact O|]. apply (Put _ m); [reflexivity|exact Ry|intros z _; apply A].
      + rewrite Ry. cbn [bind]. destruct (read_arity m x v O Rx) as (_ & ws & V & Lw). destruct (store_ok m x ws u O V ltac:(congruence)) as (m' & E & O2 & F2 & R2).
        exists m'. split; [exact E|]. split; [exact O2|]. apply (Put _ m); [exact F2|exact R2|intros z _; apply A].
    - (* AssignMpz *) destruct L as (Lx & Lz & Nz). destruct (Live x Lx) as [v Rx]. destruct (Live z Lz) as [u Rz]. rewrite (value_agrees m e z u A Rz) in *. destruct (readonly_ok m z u O Rz Nz) as (w & Ew & Rw & _). rewrite Ew. cbn [bind]. rewrite Rw. cbn [bind].
      destruct (write_ok m x v (f (nth 0 u 0%Z)) O Rx) as (m' & E & O2 & F2 & R2). exists m'. split; [exact E|]. split; [exact O2|]. rewrite (value_agrees m e x v A Rx). apply (Put _ m); [exact F2|exact R2|intros y _; apply A].
    - (* MoveAssign *) destruct L as (Lx & Ly & Le). destruct (Live x Lx) as [v Rx]. destruct (Live y Ly) as [u Ry]. rewrite (value_agrees m e x v A Rx), (value_agrees m e y u A Ry).
      destruct (swap_ok m x y v u O Rx Ry) as (m' & E & O2 & F2 & R1 & R2). exists m'. split; [exact E|]. split; [exact O2|]. intros z. unfold put.
      destruct (Nat.eqb_spec z y) as [->|N1]; [exact R2|]. destruct (Nat.eqb_spec z x) as [->|N2]; [exact R1|]. rewrite (F2 z N2 N1). apply A.
    - (* Swap *) destruct L as (Lx & Ly & Le). destruct (Live x Lx) as [v Rx]. destruct (Live y Ly) as [u Ry]. rewrite (value_agrees m e x v A Rx), (value_agrees m e y u A Ry).
      destruct (swap_ok m x y v u O Rx Ry) as (m' & E & O2 & F2 & R1 & R2). exists m'. split; [exact E|]. split; [exact O2|]. intros z. unfold put.
      destruct (Nat.eqb_spec z y) as [->|N1]; [exact R2|]. destruct (Nat.eqb_spec z x) as [->|N2]; [exact R1|]. rewrite (F2 z N2 N1). apply A.
    - (* Destroy *) destruct (Live x L) as [v Rx]. destruct (destroy_ok m x v O Rx) as (m' & E & O2 & F2 & R2). exists m'. split; [exact E|]. split; [exact O2|]. apply (Put _ m); [exact F2|exact R2|intros y _; apply A].
  Qed.
  Lemma empty_ok : ok empty.
  Proof. split; cbn; intros; try (destruct H as (w & C & _); discriminate); try congruence. Qed.
  Theorem run_ok : forall prog m e, ok m -> agrees m e -> accepted e prog -> exists m', run small m prog = Some m' /\ ok m' /\ agrees m' (fold_left means prog e).
  Proof.
    induction prog as [|s prog IH]; intros m e O A C; cbn; [exists m; auto|]. destruct C as [L C]. destruct (step_ok m e s O A L) as (m1 & E & O1 & A1). rewrite E. cbn [bind]. exact (IH m1 (means e s) O1 A1 C).
  Qed.
End Small.
