(** Proofs about Store.v *)
From Coq Require Import ZArith QArith Qcanon Bool List Reals Lia.
From Verif Require Import Gen SpecGen Ring SpecRing Module Element SpecModule ModuleProofs ElementProofs ElementProofs2 ElementProofs3 ElementProofs4 Store SpecStore.
Import ListNotations.
Open Scope Z_scope.

Section Proofs.
  Context (A : ring) (S : semantics A) (L : lawful A S).
  Implicit Types m : memory A.
  Implicit Types e l r z : elem A.

  (** [T]: addresses of temporary objects *)
  Record ok m (T : list nat) : Prop := {
    ok_fresh : forall a, (next m <= a)%nat -> impls m a = None;
    ok_live : forall x a, vars m x = Some a -> exists e, impls m a = Some e;
    ok_single : forall x y a, vars m x = Some a -> vars m y = Some a -> x = y;
    ok_temp : forall t, In t T -> (exists e, impls m t = Some e) /\ forall x, vars m x <> Some t;
    ok_nodup : NoDup T;
    ok_owned : forall a e, impls m a = Some e -> In a T \/ exists x, vars m x = Some a
  }.
  Definition content m (x : Z) : option (elem A) := match vars m x with Some a => impls m a | None => None end.
  Lemma content_holds m x e : content m x = Some e <-> holds m x e.
  Proof.
    unfold content, holds. destruct (vars m x) as [a|]; split.
    - intros H. exists a. auto.
    - intros (b & E & H). congruence.
    - discriminate.
    - intros (b & E & _). discriminate.
  Qed.
  (** Only [x] changes. *)
  Record frame m (T : list nat) (x : Z) m' : Prop := {
    fr_ok : ok m' T;
    fr_others : forall y, y <> x -> content m' y = content m y;
    fr_temps : forall t, In t T -> impls m' t = impls m t
  }.
  Definition same_vars m m' (x : Z) : Prop := forall y, (vars m' y = None <-> (y <> x /\ vars m y = None)).

  Lemma ok_old m T a e : ok m T -> impls m a = Some e -> (a < next m)%nat.
  Proof. intros H E. destruct (Nat.lt_ge_cases a (next m)) as [K|K]; [exact K|]. rewrite (ok_fresh m T H a K) in E. discriminate. Qed.

  Lemma alloc_ok m T e m1 a : ok m T -> alloc m e = (m1, a) ->
    ok m1 (a :: T) /\ impls m1 a = Some e /\ vars m1 = vars m /\ (forall b, b <> a -> impls m1 b = impls m b) /\ a = next m.
  Proof.
    intros H E. unfold alloc in E. injection E as <- <-. cbn.
    assert (N : forall b f, impls m b = Some f -> (b =? next m)%nat = false) by (intros b f K; apply Nat.eqb_neq; pose proof (ok_old m T b f H K); lia).
    split; [|split; [rewrite Nat.eqb_refl; reflexivity|split; [reflexivity|split; [|reflexivity]]]].
    2:{ intros b Hb. apply Nat.eqb_neq in Hb. rewrite Hb. reflexivity. }
    constructor; cbn.
    - intros b Hb. assert ((b =? next m)%nat = false) as -> by (apply Nat.eqb_neq; lia). apply (ok_fresh m T H). lia.
    - intros x b Hx. destruct (ok_live m T H x b Hx) as [f F]. rewrite (N b f F). eauto.
    - apply (ok_single m T H).
    - intros t [<-|Ht].
      + rewrite Nat.eqb_refl. split; [eauto|]. intros x Hx. destruct (ok_live m T H x _ Hx) as [f F]. pose proof (ok_old m T _ f H F). lia.
      + destruct (ok_temp m T H t Ht) as [[f F] K]. rewrite (N t f F). split; [eauto|exact K].
    - constructor; [|apply (ok_nodup m T H)]. intros I. destruct (ok_temp m T H _ I) as [[f F] _]. pose proof (ok_old m T _ f H F). lia.
    - intros b f. destruct (Nat.eqb_spec b (next m)) as [->|Hb]; [left; left; reflexivity|]. intros F. destruct (ok_owned m T H b f F) as [I|I]; [left; right; exact I|right; exact I].
  Qed.
  Lemma free_temp_ok m T a : ok m (a :: T) -> ok (free m a) T /\ (forall x, content (free m a) x = content m x) /\ (forall t, In t T -> impls (free m a) t = impls m t).
  Proof.
    intros H. assert (Na : ~ In a T) by (pose proof (ok_nodup m _ H) as N; inversion N; assumption).
    assert (Nv : forall x b, vars m x = Some b -> (b =? a)%nat = false).
    { intros x b Hx. apply Nat.eqb_neq. intros ->. exact (proj2 (ok_temp m _ H a (or_introl eq_refl)) x Hx). }
    assert (Nt : forall t, In t T -> (t =? a)%nat = false) by (intros t I; apply Nat.eqb_neq; intros ->; contradiction).
    split; [|split].
    - constructor; cbn.
      + intros b Hb. rewrite (ok_fresh m _ H b Hb). destruct (b =? a)%nat; reflexivity.
      + intros x b Hx. rewrite (Nv x b Hx). apply (ok_live m _ H x b Hx).
      + apply (ok_single m _ H).
      + intros t I. rewrite (Nt t I). apply (ok_temp m _ H). right. exact I.
      + pose proof (ok_nodup m _ H) as N. inversion N; assumption.
      + intros b f. destruct (Nat.eqb_spec b a) as [->|Hb]; [discriminate|]. intros F. destruct (ok_owned m _ H b f F) as [[->|I]|I]; auto. congruence.
    - intros x. unfold content, free. cbn. destruct (vars m x) as [b|] eqn:E; [|reflexivity]. rewrite (Nv x b E). reflexivity.
    - intros t I. cbn. rewrite (Nt t I). reflexivity.
  Qed.
  Lemma write_ok m T x a e : ok m T -> vars m x = Some a -> frame m T x (write m a e) /\ content (write m a e) x = Some e.
  Proof.
    intros H Hx. split; [constructor|].
    - constructor; cbn.
      + intros b Hb. assert (E : impls m b = None) by (apply (ok_fresh m T H b Hb)). destruct (Nat.eqb_spec b a) as [->|]; [|exact E]. destruct (ok_live m T H x a Hx). congruence.
      + intros y b Hy. destruct (b =? a)%nat; [eauto|]. apply (ok_live m T H y b Hy).
      + apply (ok_single m T H).
      + intros t I. destruct (ok_temp m T H t I) as [K N]. destruct (Nat.eqb_spec t a) as [->|]; [exfalso; exact (N x Hx)|]. auto.
      + apply (ok_nodup m T H).
      + intros b f. destruct (Nat.eqb_spec b a) as [->|]; [intros _; right; eauto|]. apply (ok_owned m T H).
    - intros y Hy. unfold content, write. cbn. destruct (vars m y) as [b|] eqn:E; [|reflexivity]. destruct (Nat.eqb_spec b a) as [->|]; [|reflexivity].
      exfalso. apply Hy. apply (ok_single m T H y x a E Hx).
    - intros t I. cbn. destruct (Nat.eqb_spec t a) as [->|]; [|reflexivity]. exfalso. exact (proj2 (ok_temp m T H a I) x Hx).
    - unfold content, write. cbn. rewrite Hx, Nat.eqb_refl. reflexivity.
  Qed.
  Lemma assign_ok m T x e : ok m T -> frame m T x (assign m x e) /\ content (assign m x e) x = Some e.
  Proof.
    intros H. destruct (alloc m e) as [m1 a] eqn:E. destruct (alloc_ok m T e m1 a H E) as (H1 & F1 & V1 & O1 & ->).
    assert (Nv : forall y b, vars m y = Some b -> b <> next m) by (intros y b Hy; destruct (ok_live m T H y b Hy) as [f F]; pose proof (ok_old m T b f H F); lia).
    assert (Nt : forall t, In t T -> t <> next m) by (intros t I; destruct (ok_temp m T H t I) as [[f F] _]; pose proof (ok_old m T t f H F); lia).
    unfold assign. rewrite E.
    set (m2 := match vars m x with Some old => free m1 old | None => m1 end).
    assert (I2 : forall b, impls m2 b = if match vars m x with Some old => (b =? old)%nat | None => false end then None else impls m1 b).
    { intros b. unfold m2. destruct (vars m x); reflexivity. }
    assert (V2 : vars m2 = vars m) by (unfold m2; destruct (vars m x); exact V1).
    assert (N2 : next m2 = next m1) by (unfold m2; destruct (vars m x); reflexivity).
    assert (Nx : next m1 = Datatypes.S (next m)) by (unfold alloc in E; injection E as <-; reflexivity).
    assert (Ia : impls m2 (next m) = Some e).
    { rewrite I2. destruct (vars m x) as [old|] eqn:Ex; [|exact F1]. destruct (Nat.eqb_spec (next m) old) as [K|]; [|exact F1]. exfalso. apply (Nv x old Ex). congruence. }
    assert (Io : forall y b, y <> x -> vars m y = Some b -> impls m2 b = impls m b).
    { intros y b Hy Eb. rewrite I2, O1 by (apply (Nv y b Eb)). destruct (vars m x) as [old|] eqn:Ex; [|reflexivity]. destruct (Nat.eqb_spec b old) as [->|]; [|reflexivity].
      exfalso. apply Hy. apply (ok_single m T H y x old Eb Ex). }
    assert (It : forall t, In t T -> impls m2 t = impls m t).
    { intros t I. rewrite I2, O1 by (apply Nt, I). destruct (vars m x) as [old|] eqn:Ex; [|reflexivity]. destruct (Nat.eqb_spec t old) as [->|]; [|reflexivity].
      exfalso. exact (proj2 (ok_temp m T H old I) x Ex). }
    split; [constructor|].
    - constructor; cbn; rewrite ?V2, ?N2.
      + intros b Hb. rewrite I2. destruct (match vars m x with Some old => (b =? old)%nat | None => false end); [reflexivity|]. apply (ok_fresh m1 _ H1 b Hb).
      + intros y b. destruct (Z.eqb_spec y x) as [->|Hy]; [intros [= <-]; eauto|]. intros Eb. rewrite (Io y b Hy Eb). apply (ok_live m T H y b Eb).
      + intros y y' b. destruct (Z.eqb_spec y x) as [->|Hy], (Z.eqb_spec y' x) as [->|Hy']; try reflexivity.
        * intros [= <-] K. exfalso. exact (Nv y' _ K eq_refl).
        * intros K [= <-]. exfalso. exact (Nv y _ K eq_refl).
        * apply (ok_single m T H).
      + intros t I. rewrite (It t I). destruct (ok_temp m T H t I) as [K1 K2]. split; [exact K1|]. intros y. destruct (y =? x); [|apply K2]. intros [= K]. exact (Nt t I (eq_sym K)).
      + apply (ok_nodup m T H).
      + intros b f F. rewrite I2 in F. destruct (match vars m x with Some old => (b =? old)%nat | None => false end) eqn:Eo; [discriminate|].
        destruct (Nat.eq_dec b (next m)) as [->|Hb]; [right; exists x; rewrite Z.eqb_refl; reflexivity|]. rewrite (O1 b Hb) in F. destruct (ok_owned m T H b f F) as [I|[y Ey]]; [left; exact I|right].
        exists y. destruct (Z.eqb_spec y x) as [->|]; [|exact Ey]. rewrite Ey, Nat.eqb_refl in Eo. discriminate.
    - intros y Hy. unfold content. cbn. rewrite V2. destruct (Z.eqb_spec y x) as [|_]; [contradiction|]. destruct (vars m y) as [b|] eqn:Eb; [|reflexivity]. apply (Io y b Hy Eb).
    - intros t I. cbn. apply It, I.
    - unfold content. cbn. rewrite Z.eqb_refl. exact Ia.
  Qed.
  Lemma frame_refl m T x : ok m T -> frame m T x m.
  Proof. intros H. constructor; auto. Qed.
  Lemma frame_trans m T x m1 m2 : frame m T x m1 -> frame m1 T x m2 -> frame m T x m2.
  Proof.
    intros F G. constructor.
    - apply G.
    - intros y Hy. rewrite (fr_others _ _ _ _ G y Hy). apply F, Hy.
    - intros t I. rewrite (fr_temps _ _ _ _ G t I). apply F, I.
  Qed.
  Lemma temporary_ok m T x e k (P : memory A -> option exn -> Prop) : ok m T ->
    (forall m1 t, ok m1 (t :: T) -> impls m1 t = Some e -> (forall y, content m1 y = content m y) -> (forall u, In u T -> impls m1 u = impls m u) -> vars m1 = vars m ->
      exists m2 o, k m1 t = Some (m2, o) /\ frame m1 (t :: T) x m2 /\ forall m3, content m3 x = content m2 x -> P m3 o) ->
    exists m3 o, temporary m e k = Some (m3, o) /\ frame m T x m3 /\ P m3 o.
  Proof.
    intros H K. unfold temporary. destruct (alloc m e) as [m1 t] eqn:E. destruct (alloc_ok m T e m1 t H E) as (H1 & F1 & V1 & O1 & Et).
    destruct (K m1 t H1 F1) as (m2 & o & -> & F & HP).
    - intros y. unfold content. rewrite V1. destruct (vars m y) as [b|] eqn:Ey; [|reflexivity]. apply O1. intros ->. exact (proj2 (ok_temp m1 _ H1 t (or_introl eq_refl)) y ltac:(rewrite V1; exact Ey)).
    - intros u I. apply O1. intros ->. pose proof (ok_nodup m1 _ H1) as N. inversion N. contradiction.
    - exact V1.
    - destruct (free_temp_ok m2 T t (fr_ok _ _ _ _ F)) as (H2 & C2 & T2). exists (free m2 t), o. split; [reflexivity|]. split; [|apply HP, C2]. constructor.
      + exact H2.
      + intros y Hy. rewrite C2, (fr_others _ _ _ _ F y Hy). unfold content. rewrite V1. destruct (vars m y) as [b|] eqn:Ey; [|reflexivity]. apply O1. intros ->. exact (proj2 (ok_temp m1 _ H1 t (or_introl eq_refl)) y ltac:(rewrite V1; exact Ey)).
      + intros u I. rewrite (T2 u I), (fr_temps _ _ _ _ F u (or_intror I)). apply O1. intros ->. pose proof (ok_nodup m1 _ H1) as N. inversion N. contradiction.
  Qed.

  (** * The loop of += *)
  Lemma set_nth_split (cs : list (car A)) : forall i c, (i < length cs)%nat -> set_nth cs i c = firstn i cs ++ c :: skipn (Datatypes.S i) cs.
  Proof. induction cs as [|d cs IH]; intros i c H; cbn in H; [lia|]. destruct i as [|i]; [reflexivity|]. cbn [set_nth firstn skipn app]. rewrite IH by lia. reflexivity. Qed.
  Lemma set_nth_length (cs : list (car A)) : forall i c, length (set_nth cs i c) = length cs.
  Proof. induction cs as [|d cs IH]; intros [|i] c; cbn; auto. Qed.
  Lemma set_nth_skipn (cs : list (car A)) : forall i c, skipn (Datatypes.S i) (set_nth cs i c) = skipn (Datatypes.S i) cs.
  Proof. induction cs as [|d cs IH]; intros [|i] c; try reflexivity. exact (IH i c). Qed.
  Lemma skipn_nth (cs : list (car A)) : forall i d, (i < length cs)%nat -> skipn i cs = nth i cs d :: skipn (Datatypes.S i) cs.
  Proof. induction cs as [|a cs IH]; intros [|i] d H; cbn in H; try lia; [reflexivity|]. exact (IH i d ltac:(lia)). Qed.
  Lemma add_loop_spec n : forall m a b i M cs y, impls m a = Some (mkElem M cs) -> impls m b = Some y -> length cs = (i + n)%nat -> length (coeffs y) = (i + n)%nat ->
    exists m', add_loop m a b i n = Some (m', None) /\ vars m' = vars m /\ next m' = next m /\ (forall c, c <> a -> impls m' c = impls m c) /\
      impls m' a = Some (mkElem M (firstn i cs ++ add_coeffs (skipn i cs) (skipn i (coeffs y)))).
  Proof.
    induction n as [|n IH]; intros m a b i M cs y Ha Hb Lc Ly; cbn [add_loop].
    - exists m. split; [reflexivity|]. split; [reflexivity|]. split; [reflexivity|]. split; [auto|]. rewrite Ha. rewrite (skipn_all2 cs) by lia. cbn [add_coeffs]. rewrite firstn_all2 by lia. rewrite app_nil_r. reflexivity.
    - unfold deref. rewrite Ha, Hb. cbn [emodule coeffs].
      set (c := cadd (nth i cs (czero A)) (nth i (coeffs y) (czero A))). set (m1 := write m a (mkElem M (set_nth cs i c))).
      assert (Y : exists y', impls m1 b = Some y' /\ length (coeffs y') = (Datatypes.S i + n)%nat /\ skipn (Datatypes.S i) (coeffs y') = skipn (Datatypes.S i) (coeffs y)).
      { unfold m1, write. cbn [impls]. destruct (Nat.eqb_spec b a) as [->|].
        - eexists. split; [reflexivity|]. assert (Ey : y = mkElem M cs) by congruence. rewrite Ey. cbn [coeffs]. rewrite set_nth_length, set_nth_skipn. split; [lia|reflexivity].
        - exists y. split; [exact Hb|]. split; [lia|reflexivity]. }
      destruct Y as (y' & Hb' & Ly' & Sy).
      destruct (IH m1 a b (Datatypes.S i) M (set_nth cs i c) y') as (m' & E & V & N & O & R); [unfold m1, write; cbn; rewrite Nat.eqb_refl; reflexivity|exact Hb'|rewrite set_nth_length; lia|exact Ly'|].
      exists m'. split; [exact E|]. split; [exact V|]. split; [exact N|]. split.
      + intros d Hd. rewrite (O d Hd). unfold m1, write. cbn. apply Nat.eqb_neq in Hd. rewrite Hd. reflexivity.
      + rewrite R, Sy, set_nth_skipn. rewrite (skipn_nth cs i (czero A)) by lia. rewrite (skipn_nth (coeffs y) i (czero A)) by lia. cbn [add_coeffs]. fold c.
        rewrite set_nth_split by lia. rewrite firstn_app. rewrite firstn_length. replace (Nat.min i (length cs)) with i by lia.
        replace (Datatypes.S i - i)%nat with 1%nat by lia. rewrite (firstn_all2 (firstn i cs)) by (rewrite firstn_length; lia). cbn [firstn]. rewrite <- app_assoc. reflexivity.
  Qed.
  Lemma updated_ok m T x a e m' : ok m T -> vars m x = Some a -> vars m' = vars m -> next m' = next m -> (forall c, c <> a -> impls m' c = impls m c) -> impls m' a = Some e ->
    frame m T x m' /\ content m' x = Some e.
  Proof.
    intros H Hx V N O R. destruct (write_ok m T x a e H Hx) as [[W1 W2 W3] W4].
    assert (E : forall c, impls m' c = impls (write m a e) c) by (intros c; cbn; destruct (Nat.eqb_spec c a) as [->|]; auto).
    split; [constructor|].
    - destruct W1 as [P1 P2 P3 P4 P5 P6]. constructor.
      + intros c Hc. rewrite E. apply P1. cbn. lia.
      + intros y c Hy. rewrite E. apply (P2 y). cbn. congruence.
      + intros y y' c Hy Hy'. apply (P3 y y' c); cbn; congruence.
      + intros t I. rewrite E. destruct (P4 t I) as [Q1 Q2]. split; [exact Q1|]. rewrite V. exact Q2.
      + exact P5.
      + intros c f F. rewrite E in F. destruct (P6 c f F) as [I|[y Y]]; [auto|right]. exists y. rewrite V. exact Y.
    - intros y Hy. unfold content. rewrite V. specialize (W2 y Hy). unfold content in W2. cbn [vars write] in W2. destruct (vars m y); [rewrite E; exact W2|reflexivity].
    - intros t I. rewrite E. apply W3, I.
    - unfold content. rewrite V, Hx. exact R.
  Qed.

  (** * Operators *)
  (** What an operator on [x], which holds [l], does: the result of the pure function, or an exception and an element with the same value. *)
  Definition performs (o : outcome A) m T (x : Z) l (res : result (elem A)) : Prop :=
    exists m' ex, o = Some (m', ex) /\ frame m T x m' /\
      match res with
      | Ok z => ex = None /\ content m' x = Some z
      | Err _ => ex <> None /\ exists l', content m' x = Some l' /\ elem_wf S l' /\ forall rho, value S rho l' = value S rho l
      end.
  Lemma performs_fine m T x l : ok m T -> content m x = Some l -> performs (fine m) m T x l (Ok l).
  Proof. intros H C. exists m, None. split; [reflexivity|]. split; [apply frame_refl, H|auto]. Qed.
  Lemma performs_throws m T x l (e e' : exn) : ok m T -> content m x = Some l -> elem_wf S l -> performs (throws m e) m T x l (Err e').
  Proof. intros H C W. exists m, (Some e). split; [reflexivity|]. split; [apply frame_refl, H|]. split; [discriminate|]. exists l. auto. Qed.
  Lemma performs_from o m T x l m1 l1 res : frame m T x m1 -> (forall rho, value S rho l1 = value S rho l) -> performs o m1 T x l1 res -> performs o m T x l res.
  Proof.
    intros F V (m' & ex & E & F' & K). exists m', ex. split; [exact E|]. split; [apply (frame_trans m T x m1); assumption|]. destruct res; [exact K|].
    destruct K as (K1 & l' & K2 & K3 & K4). split; [exact K1|]. exists l'. split; [exact K2|]. split; [exact K3|]. intros rho. rewrite K4. apply V.
  Qed.
  Lemma performs_temporary m T x l e k res : ok m T ->
    (forall m1 t, ok m1 (t :: T) -> impls m1 t = Some e -> (forall y, content m1 y = content m y) -> (forall u, In u T -> impls m1 u = impls m u) -> vars m1 = vars m -> performs (k m1 t) m1 (t :: T) x l res) ->
    performs (temporary m e k) m T x l res.
  Proof.
    intros H K. unfold performs. edestruct (temporary_ok m T x e k (fun m3 ex => match res with
      | Ok z => ex = None /\ content m3 x = Some z
      | Err _ => ex <> None /\ exists l', content m3 x = Some l' /\ elem_wf S l' /\ forall rho, value S rho l' = value S rho l
      end) H) as (m3 & o & E & F & P); [|exists m3, o; auto].
    intros m1 t H1 I1 C1 U1 V1. destruct (K m1 t H1 I1 C1 U1 V1) as (m2 & ex & E & F & P). exists m2, ex. split; [exact E|]. split; [exact F|]. intros m3 C3. rewrite C3. exact P.
  Qed.
  Lemma content_inv m x e : content m x = Some e -> exists a, vars m x = Some a /\ impls m a = Some e.
  Proof. apply content_holds. Qed.

  Lemma add_loop_performs m T x a b l r : ok m T -> vars m x = Some a -> impls m a = Some l -> impls m b = Some r -> elem_wf S l -> elem_wf S r -> emodule l = emodule r ->
    performs (add_loop m a b 0 (rank (emodule l))) m T x l (Ok (mkElem (emodule l) (add_coeffs (coeffs l) (coeffs r)))).
  Proof.
    intros H Hx Ha Hb Wl Wr E. destruct l as [M cs]. cbn [emodule coeffs] in *.
    destruct (add_loop_spec (rank M) m a b 0 M cs r Ha Hb) as (m' & R & V & N & O & I); [apply Wl|unfold rank; rewrite E; apply Wr|].
    destruct (updated_ok m T x a _ m' H Hx V N O I) as [F C]. exists m', None. split; [exact R|]. split; [exact F|]. split; [reflexivity|exact C].
  Qed.

  Lemma add_to_performs m T x b l r : ok m T -> content m x = Some l -> impls m b = Some r -> elem_wf S l -> elem_wf S r -> performs (add_to m x b) m T x l (add l r).
  Proof.
    intros H C Hb Wl Wr. destruct (content_inv m x l C) as (a & Hx & Ha). unfold add_to, this, deref. rewrite Hx, Ha, Hb.
    destruct (module_eqb (emodule l) (emodule r)) eqn:Em.
    - unfold add, common. rewrite Em. cbn [bind]. apply (module_eqb_spec A S L) in Em. apply add_loop_performs; assumption.
    - unfold add, common. rewrite Em. destruct (span (emodule l) (emodule r)) as [M|e] eqn:Es; [|apply performs_throws; assumption]. cbn [bind].
      destruct (span_spec A S L _ _ M (proj1 Wl) (proj1 Wr) Es) as (WM & _ & G).
      destruct (promote r M) as [r'|e] eqn:Er; [|destruct (promote l M); apply performs_throws; assumption].
      destruct (promote_value A S L r M r' Wr WM) as (Wr' & Mr' & _); [intros g I; apply G; auto|exact Er|].
      apply performs_temporary; [exact H|]. intros m1 t H1 I1 C1 U1 V1.
      destruct (content_inv m1 x l) as (a1 & Hx1 & Ha1); [rewrite C1; exact C|]. unfold promote_to, this, deref. rewrite Hx1, Ha1.
      destruct (module_eqb (emodule l) M) eqn:E1.
      + unfold promote. rewrite E1. cbn [bind]. apply (module_eqb_spec A S L) in E1. rewrite ?Hx1, ?Ha1. apply add_loop_performs; try assumption. congruence.
      + destruct (promote l M) as [l'|e] eqn:El; [|apply performs_throws; [exact H1|rewrite C1; exact C|exact Wl]]. cbn [bind].
        destruct (promote_value A S L l M l' Wl WM) as (Wl' & Ml' & Vl'); [intros g I; apply G; auto|exact El|].
        destruct (assign_ok m1 (t :: T) x l' H1) as [F2 C2]. destruct (content_inv _ x l' C2) as (a2 & Hx2 & Ha2). rewrite Hx2, Ha2.
        apply (performs_from _ m1 (t :: T) x l (assign m1 x l') l' _ F2 Vl'). apply add_loop_performs; try assumption; [apply F2| |congruence].
        rewrite (fr_temps _ _ _ _ F2 t (or_introl eq_refl)). exact I1.
  Qed.
  Lemma sub_to_performs m T x b l r : ok m T -> content m x = Some l -> impls m b = Some r -> elem_wf S l -> elem_wf S r -> performs (sub_to m x b) m T x l (sub l r).
  Proof.
    intros H C Hb Wl Wr. unfold sub_to, deref, sub. rewrite Hb. apply performs_temporary; [exact H|]. intros m1 t H1 I1 C1 U1 V1.
    apply add_to_performs; [exact H1|rewrite C1; exact C|exact I1|exact Wl|apply (opp_value A S L), Wr].
  Qed.

  Lemma mul_row_defined g c (rs : list (gen * car A)) : forall acc res, mul_row g c rs acc = Ok res -> forall h, In h (map fst rs) -> exists k, gen_mul g h = Ok k.
  Proof.
    induction rs as [|[h d] rs IH]; intros acc res E h' []; cbn in E.
    - cbn in H. subst h'. destruct (gen_mul g h); [eauto|discriminate].
    - destruct (gen_mul g h) as [k|]; [|discriminate]. cbn in E. exact (IH _ _ E h' H).
  Qed.
  Lemma mul_rows_defined (rs : list (gen * car A)) ls : forall acc res, mul_rows ls rs acc = Ok res -> forall g h, In g (map fst ls) -> In h (map fst rs) -> exists k, gen_mul g h = Ok k.
  Proof.
    induction ls as [|[g c] ls IH]; intros acc res E g' h' []; cbn in E; destruct (mul_row g c rs acc) as [acc'|] eqn:Er; try discriminate; cbn in E; intros Ih.
    - cbn in H. subst g'. exact (mul_row_defined g c rs acc acc' Er h' Ih).
    - exact (IH _ _ E g' h' H Ih).
  Qed.
  Lemma mul_body_performs m T x a b l r : ok m T -> vars m x = Some a -> impls m a = Some l -> impls m b = Some r -> elem_wf S l -> elem_wf S r -> mring (emodule l) = mring (emodule r) ->
    performs (mul_body m a b) m T x l (mul_same l r).
  Proof.
    intros H Hx Ha Hb Wl Wr Rg. assert (C : content m x = Some l) by (unfold content; rewrite Hx; exact Ha).
    unfold mul_body, deref. rewrite Ha, Hb. pose proof (mul_same_succeeds A S L l r Wl Wr Rg) as Suc. unfold mul_same in *.
    destruct (mul_rows _ _ _) as [ps|e] eqn:Ep; [|apply performs_throws; assumption]. cbn [bind] in *.
    destruct Suc as [z Ez].
    { intros g h Ig Ih. apply (mul_rows_defined _ _ _ _ Ep); rewrite (map_fst_combine A); try assumption; [apply Wl|apply Wr]. }
    destruct (make _ _) as [M|e] eqn:EM; [|discriminate]. cbn [bind] in *. destruct (basis_eqb _ _) eqn:Eb; [|discriminate].
    set (m1 := write m a (mkElem M (coeffs l))). destruct (write_ok m T x a (mkElem M (coeffs l)) H Hx) as [F1 C1]. fold m1 in F1, C1.
    destruct (write_ok m1 T x a (mkElem M (map snd (sort_pairs ps))) (fr_ok _ _ _ _ F1) Hx) as [F2 C2].
    exists (write m1 a (mkElem M (map snd (sort_pairs ps)))), None. split; [reflexivity|]. split; [apply (frame_trans m T x m1); assumption|]. split; [reflexivity|exact C2].
  Qed.
  Lemma mul_to_performs m T x b l r : ok m T -> content m x = Some l -> impls m b = Some r -> elem_wf S l -> elem_wf S r -> performs (mul_to m x b) m T x l (mul l r).
  Proof.
    intros H C Hb Wl Wr. destruct (content_inv m x l C) as (a & Hx & Ha). unfold mul_to, this, deref. rewrite Hx, Ha, Hb. unfold mul.
    destruct (nonzero l); cbn [negb]; [|apply performs_fine; assumption].
    destruct (nonzero r); cbn [negb].
    2:{ destruct (assign_ok m T x r H) as [F C']. exists (assign m x r), None. split; [reflexivity|]. split; [exact F|]. auto. }
    destruct (par_eqb _ _) eqn:Ep; [apply (L_par_eqb A S L) in Ep; apply (mul_body_performs m T x); assumption|].
    destruct (compositum _ _) as [p|e] eqn:Ec; [|apply performs_throws; assumption]. cbn [bind].
    rewrite (make_other A _ p (proj1 Wr)), (make_other A _ p (proj1 Wl)). cbn [bind].
    set (M := mkModule (basis (emodule l)) p). set (N := mkModule (basis (emodule r)) p).
    destruct (promote r N) as [r'|e] eqn:Er; [|destruct (promote l M); apply performs_throws; assumption].
    destruct (promote_value A S L r N r' Wr (proj1 Wr) (incl_refl _) Er) as (Wr' & Mr' & _).
    apply performs_temporary; [exact H|]. intros m1 t H1 I1 C1 U1 V1.
    destruct (content_inv m1 x l) as (a1 & Hx1 & Ha1); [rewrite C1; exact C|]. unfold promote_to, this, deref. rewrite Hx1, Ha1.
    destruct (module_eqb (emodule l) M) eqn:E1.
    - unfold promote. rewrite E1. cbn [bind]. apply (module_eqb_spec A S L) in E1. rewrite ?Hx1, ?Ha1. apply (mul_body_performs m1 (t :: T) x); try assumption. rewrite E1, Mr'. reflexivity.
    - destruct (promote l M) as [l'|e] eqn:El; [|apply performs_throws; [exact H1|rewrite C1; exact C|exact Wl]]. cbn [bind].
      destruct (promote_value A S L l M l' Wl (proj1 Wl) (incl_refl _) El) as (Wl' & Ml' & Vl').
      destruct (assign_ok m1 (t :: T) x l' H1) as [F2 C2]. destruct (content_inv _ x l' C2) as (a2 & Hx2 & Ha2). rewrite Hx2, Ha2.
      apply (performs_from _ m1 (t :: T) x l (assign m1 x l') l' _ F2 Vl'). apply (mul_body_performs _ (t :: T) x); try assumption; [apply F2| |rewrite Ml', Mr'; reflexivity].
      rewrite (fr_temps _ _ _ _ F2 t (or_introl eq_refl)). exact I1.
  Qed.
  Lemma mul_real_to_performs m T x l g : ok m T -> content m x = Some l -> elem_wf S l -> gen_wf g -> performs (mul_real_to m x g) m T x l (mul_real l g).
  Proof.
    intros H C Wl Wg. destruct (content_inv m x l C) as (a & Hx & Ha). unfold mul_real_to, this, deref. rewrite Hx, Ha. unfold mul_real.
    destruct (make [g] (mring (emodule l))) as [M|e] eqn:EM; [|apply performs_throws; assumption]. cbn [bind]. destruct (module_gen M 0) as [r|e] eqn:Er; [|apply performs_throws; assumption]. cbn [bind].
    assert (Wr : elem_wf S r).
    { apply (module_gen_spec A S L M 0 r); [|exact Er]. apply (make_ok A _ _ _ (Forall_cons _ Wg (Forall_nil _)) EM). }
    apply performs_temporary; [exact H|]. intros m1 t H1 I1 C1 U1 V1. apply mul_to_performs; try assumption. rewrite C1. exact C.
  Qed.
  Lemma simplify_to_performs m T x l : ok m T -> content m x = Some l -> elem_wf S l -> performs (simplify_to m x) m T x l (simplify l).
  Proof.
    intros H C Wl. destruct (content_inv m x l C) as (a & Hx & Ha). unfold simplify_to, this, deref. rewrite Hx, Ha. unfold simplify.
    destruct (forallb _ _); [apply performs_fine; assumption|]. destruct (Nat.eqb _ _); [apply performs_fine; assumption|].
    destruct (make _ _) as [M|e]; [|apply performs_throws; assumption]. cbn [bind]. unfold promote_to, this, deref. rewrite Hx, Ha.
    destruct (module_eqb (emodule l) M) eqn:E1; [unfold promote; rewrite E1; apply performs_fine; assumption|].
    destruct (promote l M) as [l'|e] eqn:El; [|apply performs_throws; assumption].
    destruct (assign_ok m T x l' H) as [F C']. exists (assign m x l'), None. split; [reflexivity|]. split; [exact F|]. auto.
  Qed.
  Lemma scale_to_performs m T x l f left : ok m T -> content m x = Some l ->
    exists m', scale_to m x f left = Some (m', snd (scale f left (coeffs l))) /\ frame m T x m' /\ content m' x = Some (mkElem (emodule l) (fst (scale f left (coeffs l)))).
  Proof.
    intros H C. destruct (content_inv m x l C) as (a & Hx & Ha). unfold scale_to, this, deref. rewrite Hx, Ha. destruct (scale f left (coeffs l)) as [cs e]. cbn [fst snd].
    destruct (write_ok m T x a (mkElem (emodule l) cs) H Hx) as [F C']. eexists. split; [reflexivity|]. split; [exact F|exact C'].
  Qed.
  Lemma scale_mem p (f : car A -> result (car A)) left cs : (forall c c', mem S p c -> f c = Ok c' -> mem S p c') -> (forall c, mem S p c -> mem S p (left c)) -> Forall (mem S p) cs -> Forall (mem S p) (fst (scale f left cs)) /\ length (fst (scale f left cs)) = length cs.
  Proof.
    intros Hf Hleft. induction 1 as [|c cs Hc Hcs [IH1 IH2]]; cbn; [split; [constructor|reflexivity]|]. destruct (f c) as [c'|] eqn:E; [|cbn; auto].
    destruct (scale f left cs) as [rs e]. cbn in *. split; [constructor; [exact (Hf c c' Hc E)|exact IH1]|congruence].
  Qed.
End Proofs.
