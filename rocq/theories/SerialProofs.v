(** Serialization: what is loaded corresponds to what was saved. *)
From Coq Require Import ZArith QArith Qcanon Bool List Reals Permutation Lia.
From Verif Require Import Arf Arb Real Gen SpecGen GenProofs Seed Factory SpecFactory FactoryProofs Ring SpecRing Module Element SpecModule ModuleProofs Serial SpecSerial.
Import ListNotations.
Open Scope Z_scope.

(** * Sorting monomials *)
Section Orders.
  Variable addr : Z -> Z.
  Lemma by_address_perm m l : Permutation (m :: l) (by_address addr m l).
  Proof.
    induction l as [|m' l IH]; cbn [by_address]; [apply Permutation_refl|]. destruct (_ <? _); [apply Permutation_refl|].
    apply (Permutation_trans (perm_swap m' m l)). constructor. exact IH.
  Qed.
  Lemma address_order_perm ms : Permutation ms (address_order addr ms).
  Proof.
    unfold address_order. induction ms as [|m ms IH]; cbn [fold_right]; [constructor|].
    apply (Permutation_trans (l' := m :: fold_right (by_address addr) [] ms)); [constructor; exact IH|apply by_address_perm].
  Qed.
End Orders.
Lemma by_id_perm m l : Permutation (m :: l) (by_id m l).
Proof.
  induction l as [|m' l IH]; cbn [by_id]; [apply Permutation_refl|]. destruct (_ <? _); [apply Permutation_refl|].
  apply (Permutation_trans (perm_swap m' m l)). constructor. exact IH.
Qed.
Lemma id_order_perm ms : Permutation ms (id_order ms).
Proof.
  unfold id_order. induction ms as [|m ms IH]; cbn [fold_right]; [constructor|].
  apply (Permutation_trans (l' := m :: fold_right by_id [] ms)); [constructor; exact IH|apply by_id_perm].
Qed.
Lemma mons_wf_lo lo lo' ms : mons_wf lo ms -> (forall i e, In (i, e) ms -> lo' <= i) -> mons_wf lo' ms.
Proof. destruct ms as [|[i e] ms]; cbn [mons_wf]; [auto|]. intros (H1 & H2 & H3) H. split; [apply (H i e); left; reflexivity|auto]. Qed.
Lemma by_id_wf i e l : forall lo, lo <= i -> (0 < e)%nat -> (forall j f, In (j, f) l -> j <> i) -> mons_wf lo l -> mons_wf lo (by_id (i, e) l).
Proof.
  induction l as [|[j f] l IH]; intros lo Hi He Hn Hw; cbn [by_id mons_wf]; [auto|]. destruct Hw as (H1 & H2 & H3).
  cbn [fst]. destruct (Z.ltb_spec i j) as [H|H]; cbn [mons_wf].
  - split; [exact Hi|]. split; [exact He|]. split; [lia|]. auto.
  - split; [exact H1|]. split; [exact H2|]. apply IH; [|exact He| |exact H3].
    + specialize (Hn j f (or_introl eq_refl)). lia.
    + intros j' f' H'. apply (Hn j' f'). right. exact H'.
Qed.
Lemma id_order_wf ms : NoDup (map fst ms) -> (forall i e, In (i, e) ms -> 0 <= i /\ (0 < e)%nat) -> mons_wf 0 (id_order ms).
Proof.
  unfold id_order. induction ms as [|[i e] ms IH]; intros Hn H; cbn [fold_right]; [exact Logic.I|].
  inversion Hn as [|a b N1 N2]; subst. destruct (H i e (or_introl eq_refl)) as [H1 H2].
  apply by_id_wf; [exact H1|exact H2| |apply IH; [exact N2|intros j f Hj; apply (H j f); right; exact Hj]].
  intros j f Hj ->. apply (Permutation_in _ (Permutation_sym (id_order_perm ms))) in Hj. apply N1.
  change i with (fst (i, f)). apply in_map. exact Hj.
Qed.

Lemma perm_expo l r : Permutation l r -> forall i, expo_mons l i = expo_mons r i.
Proof. induction 1 as [|[j e] l r _ IH|[j e] [k f] l|l m r _ IH1 _ IH2]; intros i; cbn [expo_mons]; [reflexivity|rewrite IH; reflexivity|lia|rewrite IH1; apply IH2]. Qed.
Lemma perm_sum l r : Permutation l r -> sum_exponents l = sum_exponents r.
Proof. induction 1 as [|[j e] l r _ IH|[j e] [k f] l|l m r _ IH1 _ IH2]; cbn [sum_exponents]; lia. Qed.
Lemma perm_val rho l r : Permutation l r -> mons_val rho l = mons_val rho r.
Proof. induction 1 as [|[j e] l r _ IH|[j e] [k f] l|l m r _ IH1 _ IH2]; cbn [mons_val]; [reflexivity|rewrite IH; reflexivity|ring|congruence]. Qed.
Lemma filter_all {X} (f : X -> bool) l : (forall x, In x l -> f x = true) -> filter f l = l.
Proof. induction l as [|x l IH]; intros H; cbn [filter]; [reflexivity|]. rewrite (H x (or_introl eq_refl)), IH; [reflexivity|]. intros y Hy. apply H. right. exact Hy. Qed.
Lemma Forall2_mono {X Y} (P Q : X -> Y -> Prop) l r : (forall x y, P x y -> Q x y) -> Forall2 P l r -> Forall2 Q l r.
Proof. intros H. induction 1; constructor; auto. Qed.
Lemma Forall2_len {X Y} (P : X -> Y -> Prop) l r : Forall2 P l r -> length l = length r.
Proof. induction 1; cbn; congruence. Qed.
Lemma Forall2_in_r {X Y} (P : X -> Y -> Prop) l r y : Forall2 P l r -> In y r -> exists x, In x l /\ P x y.
Proof. induction 1 as [|a b l r H _ IH]; intros Hy; [contradiction|]. destruct Hy as [<-|Hy]; [exists a; split; [left|]; auto|]. destruct (IH Hy) as (x & H1 & H2). exists x. split; [right|]; auto. Qed.
Lemma Forall2_in_l {X Y} (P : X -> Y -> Prop) l r x : Forall2 P l r -> In x l -> exists y, In y r /\ P x y.
Proof. induction 1 as [|a b l r H _ IH]; intros Hy; [contradiction|]. destruct Hy as [<-|Hy]; [exists b; split; [left|]; auto|]. destruct (IH Hy) as (y & H1 & H2). exists y. split; [right|]; auto. Qed.
Lemma NoDup_Forall2 {X Y} (P : X -> Y -> Prop) l r : (forall x x' y, In x l -> In x' l -> P x y -> P x' y -> x = x') -> NoDup l -> Forall2 P l r -> NoDup r.
Proof.
  intros Hi Hn F. induction F as [|a b l r H F IH]; [constructor|]. inversion Hn as [|a' l' N1 N2]; subst. constructor.
  - intros Hb. destruct (Forall2_in_r _ _ _ _ F Hb) as (x & H1 & H2). rewrite (Hi a x b) in N1; [contradiction|left; reflexivity|right; exact H1|exact H|exact H2].
  - apply IH; [|exact N2]. intros x x' y Hx Hx'. apply Hi; right; assumption.
Qed.

Section Serialization.
  Variables (A : ring) (S : semantics A).
  Hypothesis L : lawful A S.
  Variable st : state.
  Variable addr : Z -> Z.
  Hypothesis Ist : inv st.
  Notation pointer := (@pointer A).

  Lemma pointer_eqb_eq (p q : pointer) : pointer_eqb p q = true <-> p = q.
  Proof.
    destruct p as [g|M], q as [h|N]; cbn [pointer_eqb]; try (split; discriminate).
    - rewrite gen_eqb_eq. split; congruence.
    - rewrite (module_eqb_spec A S L). split; congruence.
  Qed.

  (** * Corresponding numbers *)
  Notation mt s := (corresponds st s).
  Lemma mt_in s i j : inv s -> (mt s i j <-> exists a b, In (i, OAtom a) (objs st) /\ In (j, OAtom b) (objs s) /\ atom_eqb a b = true).
  Proof.
    intros Hs. split; intros (a & b & H1 & H2 & H3); exists a, b;
    [apply (lookup_in _ _ _ (proj1 Ist)) in H1; apply (lookup_in _ _ _ (proj1 Hs)) in H2|apply (lookup_in _ _ _ (proj1 Ist)) in H1; apply (lookup_in _ _ _ (proj1 Hs)) in H2]; auto.
  Qed.
  Lemma mt_inj_l s i i' j : inv s -> mt s i j -> mt s i' j -> i = i'.
  Proof.
    intros Hs H H'. apply mt_in in H, H'; try exact Hs. destruct H as (a & b & H1 & H2 & H3), H' as (a' & b' & H1' & H2' & H3').
    pose proof (inv_fun _ _ _ _ Hs H2 H2') as E. injection E as <-. destruct Ist as (_ & _ & _ & I4 & _).
    apply (I4 _ _ _ _ H1 H1'). cbn [same_key]. apply (atom_eqb_trans _ b); [exact H3|]. rewrite atom_eqb_sym. exact H3'.
  Qed.
  Lemma mt_inj_r s i j j' : inv s -> mt s i j -> mt s i j' -> j = j'.
  Proof.
    intros Hs H H'. apply mt_in in H, H'; try exact Hs. destruct H as (a & b & H1 & H2 & H3), H' as (a' & b' & H1' & H2' & H3').
    pose proof (inv_fun _ _ _ _ Ist H1 H1') as E. injection E as <-. destruct Hs as (_ & _ & _ & I4 & _).
    apply (I4 _ _ _ _ H2 H2'). cbn [same_key]. apply (atom_eqb_trans _ a); [rewrite atom_eqb_sym; exact H3|exact H3'].
  Qed.
  Lemma extends_trans s1 s2 s3 : extends s1 s2 -> extends s2 s3 -> extends s1 s3.
  Proof. intros [A1 B1] [A2 B2]. split; [auto|lia]. Qed.
  Lemma mt_mono s s' i j : inv s -> inv s' -> extends s s' -> mt s i j -> mt s' i j.
  Proof. intros Hs Hs' [E _] H. apply mt_in in H; [|exact Hs]. apply mt_in; [exact Hs'|]. destruct H as (a & b & H1 & H2 & H3). exists a, b. auto. Qed.
  Lemma mt_nonneg s i j : inv s -> mt s i j -> 0 <= j.
  Proof. intros Hs H. apply mt_in in H; [|exact Hs]. destruct H as (a & b & _ & H2 & _). destruct Hs as (_ & I2 & _). specialize (I2 _ _ H2). lia. Qed.
  Lemma mt_nonneg_l s i j : inv s -> mt s i j -> 0 <= i.
  Proof. intros Hs H. apply mt_in in H; [|exact Hs]. destruct H as (a & b & H2 & _ & _). destruct Ist as (_ & I2 & _). specialize (I2 _ _ H2). lia. Qed.

  Definition mrel s (m n : Z * nat) : Prop := mt s (fst m) (fst n) /\ snd m = snd n.
  Definition rel s (g h : gen) : Prop :=
    match g, h with
    | GRat p, GRat q => p = q
    | GAtom i, GAtom j => mt s i j
    | GProd ms, GProd ns => gen_wf (GProd ns) /\ exists ns', Forall2 (mrel s) ms ns' /\ Permutation ns' ns
    | _, _ => False
    end.
  Definition prel s (p q : pointer) : Prop :=
    match p, q with
    | PNum g, PNum h => rel s g h
    | PMod M, PMod N => mring M = mring N /\ exists hs, Forall2 (rel s) (basis M) hs /\ basis N = gsort hs
    | _, _ => False
    end.
  Lemma mrel_mono s s' m n : inv s -> inv s' -> extends s s' -> mrel s m n -> mrel s' m n.
  Proof. intros Hs Hs' E [H1 H2]. split; [exact (mt_mono _ _ _ _ Hs Hs' E H1)|exact H2]. Qed.
  Lemma rel_mono s s' g h : inv s -> inv s' -> extends s s' -> rel s g h -> rel s' g h.
  Proof.
    intros Hs Hs' E. destruct g as [p|i|ms], h as [q|j|ns]; cbn [rel]; auto; [apply mt_mono; assumption|].
    intros (W & ns' & F & P). split; [exact W|]. exists ns'. split; [|exact P]. apply (Forall2_mono (mrel s)); [|exact F]. intros m n. apply mrel_mono; assumption.
  Qed.
  Lemma prel_mono s s' p q : inv s -> inv s' -> extends s s' -> prel s p q -> prel s' p q.
  Proof.
    intros Hs Hs' E. destruct p as [g|M], q as [h|N]; cbn [prel]; auto; [apply rel_mono; assumption|].
    intros (W & hs & F & P). split; [exact W|]. exists hs. split; [|exact P]. apply (Forall2_mono (rel s)); [|exact F]. intros g h. apply rel_mono; assumption.
  Qed.
  Lemma rel_rational s g h : rel s g h -> (rational g <-> rational h).
  Proof. destruct g, h; cbn; tauto. Qed.
  Lemma rel_rat s g h : rel s g h -> rational g -> g = h.
  Proof. destruct g, h; cbn [rel rational]; try tauto. congruence. Qed.
  Lemma rel_wf s g h : inv s -> rel s g h -> gen_wf h.
  Proof. intros Hs. destruct g, h; cbn [rel]; try (intros []; fail); [intros _; exact Logic.I|apply mt_nonneg, Hs|tauto]. Qed.
  Lemma rel_mons s g h : rel s g h -> ~ rational g -> exists ns', Forall2 (mrel s) (mons g) ns' /\ Permutation ns' (mons h).
  Proof.
    destruct g as [p|i|ms], h as [q|j|ns]; cbn [rel mons rational]; try tauto.
    - intros H _. exists [(j, 1%nat)]. split; [constructor; [split; [exact H|reflexivity]|constructor]|apply Permutation_refl].
  Qed.
  Lemma mrel_expo s ms ns i j : inv s -> Forall2 (mrel s) ms ns -> mt s i j -> expo_mons ms i = expo_mons ns j.
  Proof.
    intros Hs F Hm. induction F as [|[i' e] [j' f] ms ns [H1 H2] F IH]; cbn [expo_mons]; [reflexivity|]. cbn in H1, H2. subst f. rewrite IH. f_equal.
    destruct (Z.eqb_spec i' i) as [->|N], (Z.eqb_spec j' j) as [->|N']; try reflexivity; exfalso.
    - apply N'. exact (mt_inj_r s i _ _ Hs H1 Hm).
    - apply N. exact (mt_inj_l s _ _ _ Hs H1 Hm).
  Qed.
  Lemma rel_expo s g h i j : inv s -> rel s g h -> mt s i j -> expo g i = expo h j.
  Proof.
    intros Hs Hr Hm. destruct (rational_dec g) as [R|R].
    - rewrite <- (rel_rat _ _ _ Hr R). destruct g; cbn in *; tauto.
    - destruct (rel_mons _ _ _ Hr R) as (ns' & F & P). rewrite !expo_mons_gen, <- (perm_expo _ _ P). apply (mrel_expo s); assumption.
  Qed.
  Lemma rel_occurs_l s g h i : rel s g h -> (0 < expo g i)%nat -> exists j, mt s i j.
  Proof.
    intros Hr Hp. destruct (rational_dec g) as [R|R]; [destruct g; cbn in *; try tauto; lia|].
    destruct (rel_mons _ _ _ Hr R) as (ns' & F & P). rewrite expo_mons_gen in Hp. apply expo_in in Hp. destruct Hp as [e He].
    destruct (Forall2_in_l _ _ _ _ F He) as ([j f] & _ & H & _). exists j. exact H.
  Qed.
  Lemma rel_occurs_r s g h j : rel s g h -> (0 < expo h j)%nat -> exists i, mt s i j.
  Proof.
    intros Hr Hp. destruct (rational_dec g) as [R|R]; [apply (rel_rational _ _ _ Hr) in R; destruct h; cbn in *; try tauto; lia|].
    destruct (rel_mons _ _ _ Hr R) as (ns' & F & P). rewrite expo_mons_gen, <- (perm_expo _ _ P) in Hp. apply expo_in in Hp. destruct Hp as [e He].
    destruct (Forall2_in_r _ _ _ _ F He) as ([i f] & _ & H & _). exists i. exact H.
  Qed.
  Lemma rel_degree s g h : rel s g h -> degree g = degree h.
  Proof.
    intros Hr. destruct (rational_dec g) as [R|R]; [rewrite <- (rel_rat _ _ _ Hr R); reflexivity|].
    destruct (rel_mons _ _ _ Hr R) as (ns' & F & P). rewrite !degree_mons, <- (perm_sum _ _ P). clear - F.
    induction F as [|[i e] [j f] ms ns [_ H] F IH]; cbn [sum_exponents]; [reflexivity|]. cbn in H. lia.
  Qed.
  Lemma rel_val s g h rho rho' : rel s g h -> consistent st s rho rho' -> gen_val rho g = gen_val rho' h.
  Proof.
    intros Hr Hc. destruct (rational_dec g) as [R|R]; [rewrite <- (rel_rat _ _ _ Hr R); destruct g; cbn in R; try tauto; reflexivity|].
    destruct (rel_mons _ _ _ Hr R) as (ns' & F & P).
    rewrite !gen_val_mons by (try rewrite <- (rel_rational _ _ _ Hr); exact R). rewrite <- (perm_val _ _ _ P). clear - F Hc.
    induction F as [|[i e] [j f] ms ns [H1 H] F IH]; cbn [mons_val]; [reflexivity|]. cbn in H, H1. subst f. rewrite IH, (Hc _ _ H1). reflexivity.
  Qed.
  Lemma rel_inj s g g' h : inv s -> gen_wf g -> gen_wf g' -> rel s g h -> rel s g' h -> g = g'.
  Proof.
    intros Hs W W' H H'. destruct (rational_dec g) as [R|R].
    - pose proof R as R'. apply (rel_rational _ _ _ H) in R'. apply (rel_rational _ _ _ H') in R'. rewrite (rel_rat _ _ _ H R), (rel_rat _ _ _ H' R'). reflexivity.
    - assert (R' : ~ rational g') by (rewrite (rel_rational _ _ _ H'), <- (rel_rational _ _ _ H); exact R).
      apply expo_inj; try assumption. intros i.
      destruct (expo g i) eqn:E1; destruct (expo g' i) eqn:E2; try reflexivity.
      + destruct (rel_occurs_l s g' h i H') as [j Hj]; [lia|]. rewrite (rel_expo _ _ _ _ _ Hs H Hj) in E1. rewrite (rel_expo _ _ _ _ _ Hs H' Hj) in E2. congruence.
      + destruct (rel_occurs_l s g h i H) as [j Hj]; [lia|]. rewrite (rel_expo _ _ _ _ _ Hs H Hj) in E1. rewrite (rel_expo _ _ _ _ _ Hs H' Hj) in E2. congruence.
      + destruct (rel_occurs_l s g h i H) as [j Hj]; [lia|]. rewrite (rel_expo _ _ _ _ _ Hs H Hj) in E1. rewrite (rel_expo _ _ _ _ _ Hs H' Hj) in E2. congruence.
  Qed.
  Lemma rel_compatible s gs hs : inv s -> Forall gen_wf gs -> compatible gs -> Forall2 (rel s) gs hs -> compatible hs.
  Proof.
    intros Hs W Hc F. rewrite compatible_nodup in *. destruct Hc as [N R]. rewrite Forall_forall in W. split.
    - apply (NoDup_Forall2 (rel s) gs); [|exact N|exact F]. intros x x' y Hx Hx'. apply rel_inj; auto.
    - intros g h Hg Hh Rg Rh. destruct (Forall2_in_r _ _ _ _ F Hg) as (g' & G1 & G2), (Forall2_in_r _ _ _ _ F Hh) as (h' & H1 & H2).
      apply (rel_rational _ _ _ G2) in Rg. apply (rel_rational _ _ _ H2) in Rh.
      rewrite <- (rel_rat _ _ _ G2 Rg), <- (rel_rat _ _ _ H2 Rh). apply R; assumption.
  Qed.
  Lemma rel_all_wf s gs hs : inv s -> Forall2 (rel s) gs hs -> Forall gen_wf hs.
  Proof. intros Hs. induction 1 as [|g h gs hs H F IH]; constructor; [exact (rel_wf s g h Hs H)|exact IH]. Qed.

  (** * Tables *)
  Lemma find_cons (t : @table A) p q k : find_pointer ((p, k) :: t) q = if pointer_eqb q p then Some k else find_pointer t q.
  Proof. reflexivity. Qed.
  Definition tab_ok (t : @table A) : Prop :=
    (forall p k, find_pointer t p = Some k -> k <= Z.of_nat (length t)) /\
    (forall p q k, find_pointer t p = Some k -> find_pointer t q = Some k -> p = q).
  Definition grows (t t' : @table A) : Prop := forall p k, find_pointer t p = Some k -> find_pointer t' p = Some k.
  (** What was saved and is not pending has been loaded. *)
  Definition agree (P : pointer -> Prop) s (t : @table A) (Ld : @loaded A) : Prop :=
    forall p k, find_pointer t p = Some k -> ~ P p -> exists q, pointer_at Ld k = Some q /\ prel s p q.
  Lemma register_new t p : tab_ok t -> find_pointer t p = None ->
    let k := Z.of_nat (length t) + 1 in tab_ok ((p, k) :: t) /\ grows t ((p, k) :: t) /\ find_pointer ((p, k) :: t) p = Some k.
  Proof.
    intros [T1 T2] E k. assert (Ep : find_pointer ((p, k) :: t) p = Some k) by (rewrite find_cons, (proj2 (pointer_eqb_eq p p) eq_refl); reflexivity).
    split; [split|split; [|exact Ep]].
    - intros q j. rewrite find_cons. cbn [length]. destruct (pointer_eqb q p); [intros [= <-]; unfold k; lia|]. intros H. apply T1 in H. lia.
    - intros q r j. rewrite !find_cons. destruct (pointer_eqb q p) eqn:E1, (pointer_eqb r p) eqn:E2.
      + intros _ _. apply pointer_eqb_eq in E1, E2. congruence.
      + intros [= <-] H. apply T1 in H. unfold k in H. lia.
      + intros H [= <-]. apply T1 in H. unfold k in H. lia.
      + apply T2.
    - intros q j H. rewrite find_cons. destruct (pointer_eqb q p) eqn:E1; [|exact H]. apply pointer_eqb_eq in E1. congruence.
  Qed.
  Lemma agree_new P s t Ld p k : agree P s t Ld -> agree (fun q => q = p \/ P q) s ((p, k) :: t) Ld.
  Proof.
    intros H q j. rewrite find_cons. destruct (pointer_eqb q p) eqn:E; [apply pointer_eqb_eq in E; tauto|]. intros Hq Hn. apply (H q j Hq). tauto.
  Qed.
  Lemma agree_mono P s s' t Ld : inv s -> inv s' -> extends s s' -> agree P s t Ld -> agree P s' t Ld.
  Proof. intros Hs Hs' E H p k Hp Hn. destruct (H p k Hp Hn) as (q & H1 & H2). exists q. split; [exact H1|]. exact (prel_mono _ _ _ _ Hs Hs' E H2). Qed.
  Lemma agree_done P s t Ld p k q : tab_ok t -> find_pointer t p = Some k -> prel s p q ->
    agree (fun r => r = p \/ P r) s t Ld -> agree P s t ((k, q) :: Ld).
  Proof.
    intros [_ T2] Hk Hr H r j Hj Hn. cbn [pointer_at]. destruct (Z.eqb_spec k j) as [->|N].
    - rewrite (T2 r p j Hj Hk). exists q. auto.
    - apply H; [exact Hj|]. intros [->|HP]; [congruence|contradiction].
  Qed.
  Lemma grows_trans t1 t2 t3 : grows t1 t2 -> grows t2 t3 -> grows t1 t3.
  Proof. intros H1 H2 p k H. auto. Qed.
  Lemma grows_refl t : grows t t.
  Proof. intros p k H. exact H. Qed.

  (** * Random numbers *)
  Lemma load_atom_data_spec s a s' j : inv s -> load_atom_data s a = (s', j) ->
    inv s' /\ extends s s' /\ exists b, In (j, OAtom b) (objs s') /\ atom_eqb b a = true.
  Proof.
    intros Hs. unfold load_atom_data. destruct a as [sd|i e sd].
    - apply get_atom_spec, Hs.
    - destruct (get_atom s (ARandom sd)) as [s1 z] eqn:E. cbn [fst]. destruct (get_atom_spec _ _ _ _ Hs E) as (H1 & H2 & _).
      intros E'. destruct (get_atom_spec _ _ _ _ H1 E') as (H3 & H4 & H5). split; [exact H3|]. split; [exact (extends_trans _ _ _ H2 H4)|exact H5].
  Qed.
  (** What saving and then loading something ensures. *)
  Definition ok P s (t : @table A) (Ld : @loaded A) : Prop := inv s /\ tab_ok t /\ agree P s t Ld.

  Lemma atom_round P s t Ld i a : ok P s t Ld -> In (i, OAtom a) (objs st) -> ~ P (PNum (GAtom i)) ->
    exists t' r s' Ld' j, save_atom st t i = Some (t', r) /\ load_aref s Ld r = Some (s', Ld', j) /\ ok P s' t' Ld' /\ grows t t' /\ extends s s' /\ mt s' i j.
  Proof.
    intros (Hs & Ht & Ha) Hi Hn. unfold save_atom, register. destruct (find_pointer t (PNum (GAtom i))) as [k|] eqn:E.
    - destruct (Ha _ _ E Hn) as (q & H1 & H2). destruct q as [h|N]; [|contradiction]. destruct h as [q|j|ns]; cbn [prel rel] in H2; try contradiction.
      exists t, (AAgain k), s, Ld, j. split; [reflexivity|]. cbn [load_aref]. rewrite H1. split; [reflexivity|].
      split; [split; [exact Hs|split; assumption]|]. split; [apply grows_refl|]. split; [apply extends_refl|exact H2].
    - destruct (register_new t _ Ht E) as (T1 & T2 & T3). set (k := Z.of_nat (length t) + 1) in *.
      unfold atom_at. rewrite (proj2 (lookup_in _ _ _ (proj1 Ist)) Hi). cbn [option_map].
      destruct (load_atom_data s a) as [s' j] eqn:El. destruct (load_atom_data_spec _ _ _ _ Hs El) as (H1 & H2 & b & H3 & H4).
      assert (Hm : mt s' i j) by (apply mt_in; [exact H1|]; exists a, b; rewrite atom_eqb_sym; auto).
      exists ((PNum (GAtom i), k) :: t), (AFresh k a), s', ((k, PNum (GAtom j)) :: Ld), j.
      split; [reflexivity|]. cbn [load_aref]. rewrite El. split; [reflexivity|]. split; [|split; [exact T2|split; [exact H2|exact Hm]]].
      split; [exact H1|]. split; [exact T1|]. apply (agree_done P s' _ Ld (PNum (GAtom i)) k (PNum (GAtom j)) T1 T3 Hm). apply agree_new. apply (agree_mono P s s'); assumption.
  Qed.
  Lemma factors_round P ms : forall s t Ld, ok P s t Ld -> NoDup (map fst ms) -> (forall i e, In (i, e) ms -> (exists a, In (i, OAtom a) (objs st)) /\ ~ P (PNum (GAtom i))) ->
    exists t' fs s' Ld' ns, save_factors st t ms = Some (t', fs) /\ load_factors s Ld fs = Some (s', Ld', ns) /\ ok P s' t' Ld' /\ grows t t' /\ extends s s' /\
      Forall2 (mrel s') ms ns.
  Proof.
    induction ms as [|[i e] ms IH]; intros s t Ld Hok Hn H.
    - exists t, [], s, Ld, []. split; [reflexivity|]. split; [reflexivity|]. split; [exact Hok|]. split; [apply grows_refl|]. split; [apply extends_refl|constructor].
    - inversion Hn as [|x y N1 N2]; subst. destruct (H i e (or_introl eq_refl)) as [[a Hi] HP].
      destruct (atom_round P s t Ld i a Hok Hi HP) as (t1 & r & s1 & Ld1 & j & A1 & A2 & A3 & A4 & A5 & A6).
      destruct (IH s1 t1 Ld1 A3 N2) as (t2 & fs & s2 & Ld2 & ns & B1 & B2 & B3 & B4 & B5 & B6); [intros i' e' H'; apply (H i' e'); right; exact H'|].
      exists t2, ((r, e) :: fs), s2, Ld2, ((j, e) :: ns). cbn [save_factors load_factors]. rewrite A1, B1, A2, B2. cbn [option_map].
      assert (M : mt s2 i j) by (apply (mt_mono s1); [apply A3|apply B3|exact B5|exact A6]).
      split; [reflexivity|]. split.
      + rewrite filter_all; [reflexivity|]. intros [j' e'] Hj. cbn [fst]. apply negb_true_iff, Z.eqb_neq. intros ->.
        destruct (Forall2_in_r _ _ _ _ B6 Hj) as ([i' e2] & Hi' & M' & _). cbn [fst] in M'.
        rewrite (mt_inj_l s2 _ _ _ (proj1 B3) M' M) in Hi'. apply N1. change i with (fst (i, e2)). apply in_map. exact Hi'.
      + split; [exact B3|]. split; [exact (grows_trans _ _ _ A4 B4)|]. split; [exact (extends_trans _ _ _ A5 B5)|].
        constructor; [split; [exact M|reflexivity]|exact B6].
  Qed.
  Lemma mons_wf_nodup lo ms : mons_wf lo ms -> NoDup (map fst ms).
  Proof.
    revert lo. induction ms as [|[i e] ms IH]; intros lo; cbn [mons_wf map fst]; [constructor|]. intros (_ & _ & H). constructor; [|exact (IH _ H)].
    rewrite in_map_iff. intros ([j f] & E & Hj). cbn in E. subst j. apply (mons_wf_ids _ _ _ _ H) in Hj. lia.
  Qed.
  (** Numbers whose random numbers exist in the saving process. *)
  Definition supported (g : gen) : Prop := gen_wf g /\ forall i, (0 < expo g i)%nat -> exists a, In (i, OAtom a) (objs st).
  Lemma number_round P s t Ld g : ok P s t Ld -> supported g -> (forall h, ~ P (PNum h)) ->
    exists t' r s' Ld' h, save_number st addr t g = Some (t', r) /\ load_ref s Ld r = Some (s', Ld', h) /\ ok P s' t' Ld' /\ grows t t' /\ extends s s' /\ rel s' g h.
  Proof.
    intros Hok [Wg Hg] Hn. pose proof Hok as (Hs & Ht & Ha). unfold save_number, register. destruct (find_pointer t (PNum g)) as [k|] eqn:E.
    - destruct (Ha _ _ E (Hn _)) as (q & H1 & H2). destruct q as [h|N]; [|contradiction].
      exists t, (Again k), s, Ld, h. split; [reflexivity|]. cbn [load_ref]. rewrite H1. split; [reflexivity|].
      split; [exact Hok|]. split; [apply grows_refl|]. split; [apply extends_refl|exact H2].
    - destruct (register_new t _ Ht E) as (T1 & T2 & T3). set (k := Z.of_nat (length t) + 1) in *.
      destruct g as [q|i|ms].
      + destruct (get_rational s q) as [s' z] eqn:El. destruct (get_rational_spec _ _ _ _ Hs El) as (H1 & H2 & H3).
        exists ((PNum (GRat q), k) :: t), (Fresh k (DRational q)), s', ((k, PNum (GRat q)) :: Ld), (GRat q).
        split; [reflexivity|]. cbn [load_ref]. rewrite El. split; [reflexivity|]. split; [|split; [exact T2|split; [exact H2|reflexivity]]].
        split; [exact H1|]. split; [exact T1|]. apply (agree_done P s' _ Ld _ _ _ T1 T3); [reflexivity|]. apply agree_new. apply (agree_mono P s s'); assumption.
      + destruct (Hg i) as [a Hi]; [cbn [expo]; rewrite Z.eqb_refl; lia|].
        unfold atom_at. rewrite (proj2 (lookup_in _ _ _ (proj1 Ist)) Hi). cbn [option_map].
        destruct (load_atom_data s a) as [s' j] eqn:El. destruct (load_atom_data_spec _ _ _ _ Hs El) as (H1 & H2 & b & H3 & H4).
        assert (Hm : mt s' i j) by (apply mt_in; [exact H1|]; exists a, b; rewrite atom_eqb_sym; auto).
        exists ((PNum (GAtom i), k) :: t), (Fresh k (DAtom a)), s', ((k, PNum (GAtom j)) :: Ld), (GAtom j).
        split; [reflexivity|]. cbn [load_ref]. rewrite El. split; [reflexivity|]. split; [|split; [exact T2|split; [exact H2|exact Hm]]].
        split; [exact H1|]. split; [exact T1|]. apply (agree_done P s' _ Ld (PNum (GAtom i)) k (PNum (GAtom j)) T1 T3 Hm). apply agree_new. apply (agree_mono P s s'); assumption.
      + destruct Wg as [W1 W2]. set (p := PNum (GProd ms) : pointer) in *. set (P' := fun q => q = p \/ P q).
        pose proof (address_order_perm addr ms) as Pa.
        destruct (factors_round P' (address_order addr ms) s ((p, k) :: t) Ld) as (t2 & fs & s2 & Ld2 & ns & B1 & B2 & B3 & B4 & B5 & B6).
        { split; [exact Hs|]. split; [exact T1|]. apply agree_new. exact Ha. }
        { apply (Permutation_NoDup (Permutation_map fst Pa)). exact (mons_wf_nodup _ _ W1). }
        { intros i e He. apply (Permutation_in _ (Permutation_sym Pa)) in He. split; [apply Hg; exact (in_expo 0 _ _ _ W1 He)|].
          intros [F|F]; [discriminate F|exact (Hn _ F)]. }
        destruct B3 as (S2 & T4 & Ag). pose proof (id_order_perm ns) as Pi.
        assert (Fst : Permutation (map fst ms) (map fst (address_order addr ms))) by (apply Permutation_map, Pa).
        assert (Wn : gen_wf (GProd (id_order ns))).
        { split.
          - apply id_order_wf.
            + apply (NoDup_Forall2 (mt s2) (map fst (address_order addr ms))).
              * intros x x' y _ _. apply mt_inj_l, S2.
              * apply (Permutation_NoDup Fst). exact (mons_wf_nodup _ _ W1).
              * clear - B6. induction B6 as [|m n l r [H _] F IH]; cbn [map]; constructor; assumption.
            + intros j e Hj. destruct (Forall2_in_r _ _ _ _ B6 Hj) as ([i f] & Hi & M & E'). cbn [fst snd] in M, E'. subst f. split; [exact (mt_nonneg _ _ _ S2 M)|].
              apply (Permutation_in _ (Permutation_sym Pa)) in Hi. apply (mons_wf_ids _ _ _ _ W1 Hi).
          - rewrite <- (perm_sum _ _ Pi). assert (sum_exponents (address_order addr ms) = sum_exponents ns) as <-; [|rewrite <- (perm_sum _ _ Pa); exact W2].
            clear - B6. induction B6 as [|[i e] [j f] l r [_ H] F IH]; cbn [sum_exponents]; [reflexivity|]. cbn in H. lia. }
        destruct (get_gen_spec s2 (GProd (id_order ns)) S2 Wn) as (s3 & z & o & G1 & G2 & G3 & _).
        { intros j Hj. cbn [expo] in Hj. rewrite <- (perm_expo _ _ Pi) in Hj. apply expo_in in Hj. destruct Hj as [e Hj].
          destruct (Forall2_in_r _ _ _ _ B6 Hj) as ([i f] & _ & M & _). cbn [fst] in M. apply mt_in in M; [|exact S2]. destruct M as (a & b & _ & Hb & _). eauto. }
        cbn [get_gen] in G1. rewrite B1. cbn [option_map].
        assert (Hr : rel s3 (GProd ms) (GProd (id_order ns))).
        { split; [exact Wn|]. destruct (Permutation_Forall2 (Permutation_sym Pa) B6) as (ns' & P1 & F1). exists ns'. split.
          - apply (Forall2_mono (mrel s2)); [|exact F1]. intros m n. apply mrel_mono; assumption.
          - apply Permutation_sym in P1. apply (Permutation_trans P1). exact Pi. }
        exists t2, (Fresh k (DProduct fs)), s3, ((k, PNum (GProd (id_order ns))) :: Ld2), (GProd (id_order ns)).
        split; [reflexivity|]. cbn [load_ref]. rewrite B2. cbn [option_map]. rewrite G1. split; [reflexivity|].
        split; [|split; [exact (grows_trans _ _ _ T2 B4)|split; [exact (extends_trans _ _ _ B5 G3)|exact Hr]]].
        split; [exact G2|]. split; [exact T4|]. apply (agree_done P s3 t2 Ld2 p k _ T4); [apply B4; exact T3|exact Hr|]. apply (agree_mono _ s2 s3); assumption.
  Qed.
  Lemma numbers_round P gs : forall s t Ld, ok P s t Ld -> Forall supported gs -> (forall h, ~ P (PNum h)) ->
    exists t' rs s' Ld' hs, save_numbers st addr t gs = Some (t', rs) /\ load_refs s Ld rs = Some (s', Ld', hs) /\ ok P s' t' Ld' /\ grows t t' /\ extends s s' /\
      Forall2 (rel s') gs hs.
  Proof.
    induction gs as [|g gs IH]; intros s t Ld Hok Hg Hn.
    - exists t, [], s, Ld, []. split; [reflexivity|]. split; [reflexivity|]. split; [exact Hok|]. split; [apply grows_refl|]. split; [apply extends_refl|constructor].
    - inversion Hg as [|x y G1 G2]; subst.
      destruct (number_round P s t Ld g Hok G1 Hn) as (t1 & r & s1 & Ld1 & h & A1 & A2 & A3 & A4 & A5 & A6).
      destruct (IH s1 t1 Ld1 A3 G2 Hn) as (t2 & rs & s2 & Ld2 & hs & B1 & B2 & B3 & B4 & B5 & B6).
      exists t2, (r :: rs), s2, Ld2, (h :: hs). cbn [save_numbers load_refs]. rewrite A1, B1, A2, B2. cbn [option_map].
      split; [reflexivity|]. split; [reflexivity|]. split; [exact B3|]. split; [exact (grows_trans _ _ _ A4 B4)|]. split; [exact (extends_trans _ _ _ A5 B5)|].
      constructor; [|exact B6]. apply (rel_mono s1); [apply A3|apply B3|exact B5|exact A6].
  Qed.
  Definition mod_supported (M : module A) : Prop := module_wf M /\ Forall supported (basis M).
  Lemma module_round s t Ld M : ok (fun _ => False) s t Ld -> mod_supported M ->
    exists t' r s' Ld' N, save_module st addr t M = Some (t', r) /\ load_module s Ld r = Some (s', Ld', N) /\ ok (fun _ => False) s' t' Ld' /\ grows t t' /\ extends s s' /\
      prel s' (PMod M) (PMod N).
  Proof.
    intros Hok [[Wg Wa] Hg]. pose proof Hok as (Hs & Ht & Ha). unfold save_module, register. destruct (find_pointer t (PMod M)) as [k|] eqn:E.
    - destruct (Ha _ _ E (fun f => f)) as (q & H1 & H2). destruct q as [h|N]; [contradiction|].
      exists t, (MAgain k), s, Ld, N. split; [reflexivity|]. cbn [load_module]. rewrite H1. split; [reflexivity|].
      split; [exact Hok|]. split; [apply grows_refl|]. split; [apply extends_refl|exact H2].
    - destruct (register_new t _ Ht E) as (T1 & T2 & T3). set (k := Z.of_nat (length t) + 1) in *.
      destruct (numbers_round (fun q => q = PMod M \/ False) (basis M) s ((PMod M, k) :: t) Ld) as (t2 & rs & s2 & Ld2 & hs & B1 & B2 & B3 & B4 & B5 & B6).
      { split; [exact Hs|]. split; [exact T1|]. apply agree_new. exact Ha. }
      { exact Hg. }
      { intros h [F|[]]. discriminate F. }
      destruct B3 as (S2 & T4 & Ag). pose proof (rel_compatible s2 _ _ S2 Wg (ascending_compatible _ Wa) B6) as Hc.
      assert (Hr : prel s2 (PMod M) (PMod (mkModule (gsort hs) (mring M)))) by (split; [reflexivity|]; exists hs; split; [exact B6|reflexivity]).
      exists t2, (MFresh k rs (mring M)), s2, ((k, PMod (mkModule (gsort hs) (mring M))) :: Ld2), (mkModule (gsort hs) (mring M)).
      rewrite B1. cbn [option_map load_module]. rewrite B2, (make_succeeds A hs (mring M) Hc).
      split; [reflexivity|]. split; [reflexivity|]. split; [|split; [exact (grows_trans _ _ _ T2 B4)|split; [exact B5|exact Hr]]].
      split; [exact S2|]. split; [exact T4|]. apply (agree_done _ s2 t2 Ld2 (PMod M) k _ T4); [apply B4; exact T3|exact Hr|exact Ag].
  Qed.
  Definition erel s (x y : elem A) : Prop := coeffs y = coeffs x /\ prel s (PMod (emodule x)) (PMod (emodule y)).
  Lemma elems_round xs : forall s t Ld, ok (fun _ => False) s t Ld -> Forall (fun x => mod_supported (emodule x) /\ length (coeffs x) = length (basis (emodule x))) xs ->
    exists t' ss s' Ld' ys, save_elems st addr t xs = Some (t', ss) /\ load_elems s Ld ss = Some (s', Ld', ys) /\ ok (fun _ => False) s' t' Ld' /\ extends s s' /\
      Forall2 (erel s') xs ys.
  Proof.
    induction xs as [|x xs IH]; intros s t Ld Hok Hg.
    - exists t, [], s, Ld, []. split; [reflexivity|]. split; [reflexivity|]. split; [exact Hok|]. split; [apply extends_refl|constructor].
    - inversion Hg as [|x' y [G1 G3] G2]; subst.
      destruct (module_round s t Ld _ Hok G1) as (t1 & r & s1 & Ld1 & N & A1 & A2 & A3 & A4 & A5 & A6).
      destruct (IH s1 t1 Ld1 A3 G2) as (t2 & rs & s2 & Ld2 & ys & B1 & B2 & B3 & B5 & B6).
      exists t2, (mkSaved r (coeffs x) :: rs), s2, Ld2, (mkElem N (coeffs x) :: ys). cbn [save_elems load_elems]. unfold save_elem. rewrite A1. cbn [option_map]. rewrite B1.
      unfold load_elem. cbn [parent saved_coeffs]. rewrite A2. cbn [option_map].
      assert (EN : make_elem N (coeffs x) = Ok (mkElem N (coeffs x))).
      { unfold make_elem, rank. destruct A6 as (_ & hs & F & EB). rewrite EB, <- (Permutation_length (gsort_perm hs)), <- (Forall2_len _ _ _ F), G3, Nat.eqb_refl. reflexivity. }
      rewrite EN, B2. cbn [option_map].
      split; [reflexivity|]. split; [reflexivity|]. split; [exact B3|]. split; [exact (extends_trans _ _ _ A5 B5)|].
      constructor; [|exact B6]. split; [reflexivity|]. apply (prel_mono s1); [apply A3|apply B3|exact B5|exact A6].
  Qed.
  Lemma ok_nil s : inv s -> ok (fun _ => False) s [] [].
  Proof. intros H. split; [exact H|]. split; [split; discriminate|]. intros p k F. discriminate F. Qed.
  Lemma alive_supported g : alive st g -> supported g.
  Proof.
    intros (x & o & H & <-). apply (lookup_in _ _ _ (proj1 Ist)) in H. split; [exact (gen_of_wf st x o Ist H)|]. intros i. apply (mons_live st Ist x o i H).
  Qed.
  Lemma alive_mod_supported (x : elem A) : module_wf (emodule x) -> alive_elem st x -> mod_supported (emodule x).
  Proof. intros W H. split; [exact W|]. apply (Forall_impl _ alive_supported). exact H. Qed.

  (** Saving and loading elements. *)
  Lemma save_load s (xs : list (elem A)) : inv s -> Forall (fun x => elem_wf S x /\ alive_elem st x) xs ->
    exists ss s' ys, save st addr xs = Some ss /\ load s ss = Some (s', ys) /\ inv s' /\ extends s s' /\ Forall2 (erel s') xs ys.
  Proof.
    intros Hs H. destruct (elems_round xs s [] [] (ok_nil s Hs)) as (t' & ss & s' & Ld' & ys & A1 & A2 & A3 & A4 & A5).
    { refine (Forall_impl _ _ H). intros x [W Al]. split; [exact (alive_mod_supported x (proj1 W) Al)|apply W]. }
    exists ss, s', ys. unfold save, load. rewrite A1. cbn [option_map snd]. rewrite A2. split; [reflexivity|]. split; [reflexivity|]. split; [apply A3|auto].
  Qed.
  Lemma save_load_real s g : inv s -> alive st g ->
    exists r s' h, save_real (A := A) st addr g = Some r /\ load_real (A := A) s r = Some (s', h) /\ inv s' /\ extends s s' /\ rel s' g h.
  Proof.
    intros Hs H. destruct (number_round (fun _ => False) s [] [] g (ok_nil s Hs) (alive_supported g H) (fun _ f => f)) as (t' & r & s' & Ld' & h & A1 & A2 & A3 & A4 & A5 & A6).
    exists r, s', h. unfold save_real, load_real. rewrite A1. cbn [option_map snd]. rewrite A2. split; [reflexivity|]. split; [reflexivity|]. split; [apply A3|auto].
  Qed.

  (** * In a process where the numbers still exist *)
  Lemma rel_same s g h : inv s -> gen_wf g -> (forall i a, (0 < expo g i)%nat -> In (i, OAtom a) (objs st) -> In (i, OAtom a) (objs s)) -> rel s g h -> g = h.
  Proof.
    intros Hs W Hl Hr. destruct (rational_dec g) as [R|R]; [exact (rel_rat _ _ _ Hr R)|].
    assert (Hm : forall i j, (0 < expo g i)%nat -> mt s i j -> i = j).
    { intros i j Hi M. apply (mt_inj_r s i); [exact Hs| |exact M]. apply mt_in in M; [|exact Hs]. destruct M as (a & b & M1 & _). apply mt_in; [exact Hs|].
      exists a, a. split; [exact M1|]. split; [exact (Hl i a Hi M1)|apply atom_eqb_refl]. }
    apply expo_inj; [exact W|exact (rel_wf _ _ _ Hs Hr)|exact R|rewrite <- (rel_rational _ _ _ Hr); exact R|]. intros i.
    destruct (expo g i) as [|n] eqn:E.
    - destruct (expo h i) as [|n] eqn:E'; [reflexivity|]. destruct (rel_occurs_r s g h i Hr) as [i' Hi']; [lia|].
      pose proof (rel_expo _ _ _ _ _ Hs Hr Hi') as E2. rewrite (Hm i' i) in E2; [congruence|lia|exact Hi'].
    - destruct (rel_occurs_l s g h i Hr) as [j Hj]; [lia|]. pose proof (rel_expo _ _ _ _ _ Hs Hr Hj) as E2. rewrite <- (Hm i j) in E2; [congruence|lia|exact Hj].
  Qed.
  Lemma still_alive s s' g i a : inv s -> extends s s' -> alive s g -> (forall o, In (i, OAtom a) (objs st) -> In (i, o) (objs s) -> o = OAtom a) ->
    (0 < expo g i)%nat -> In (i, OAtom a) (objs st) -> In (i, OAtom a) (objs s').
  Proof.
    intros Hs [E _] (x & o & H & <-) Hsame Hi Ha. apply (lookup_in _ _ _ (proj1 Hs)) in H. destruct (mons_live s Hs x o i H Hi) as [b Hb].
    apply E. rewrite <- (Hsame _ Ha Hb). exact Hb.
  Qed.
  Lemma same_process ops (xs : list (elem A)) : Forall (fun x => elem_wf S x /\ alive_elem st x /\ alive_elem (run ops st) x) xs ->
    exists ss s', save st addr xs = Some ss /\ load (run ops st) ss = Some (s', xs).
  Proof.
    intros H. assert (Hs : inv (run ops st)) by (apply run_inv, Ist).
    destruct (save_load (run ops st) xs Hs) as (ss & s' & ys & A1 & A2 & A3 & A4 & A5); [apply (Forall_impl _ (fun x '(conj W (conj Al _)) => conj W Al) H)|].
    exists ss, s'. split; [exact A1|]. rewrite A2. f_equal. f_equal. clear A1 A2. induction A5 as [|x y xs ys [Ec [Er (hs & F & Eb)]] _ IH]; [reflexivity|].
    inversion H as [|x' xs' [[W _] [Al1 Al2]] H']; subst. rewrite (IH H'). f_equal. destruct x as [[b p] cs], y as [[b' p'] cs']. cbn [coeffs emodule basis mring] in *. subst cs' p' b'.
    assert (hs = b) as ->; [|unfold alive_elem in *; cbn [emodule basis] in *; rewrite gsort_id; [reflexivity|apply W|apply W]].
    destruct W as [W _]. unfold alive_elem in *. cbn [basis emodule] in *. clear - F W Al1 Al2 A3 A4 Ist Hs addr L S. induction F as [|g h b hs Hr F IH]; [reflexivity|].
    inversion W; inversion Al1; inversion Al2; subst. f_equal; [|apply IH; assumption]. symmetry. apply (rel_same s'); try assumption.
    intros i a Hi Ha. apply (still_alive (run ops st) s' g i a); try assumption. intros o Ho Ho'. symmetry. exact (run_same st ops i _ _ Ist Ho Ho').
  Qed.
  Lemma same_process_real ops g : alive st g -> alive (run ops st) g ->
    exists r s', save_real (A := A) st addr g = Some r /\ load_real (A := A) (run ops st) r = Some (s', g).
  Proof.
    intros H1 H2. assert (Hs : inv (run ops st)) by (apply run_inv, Ist).
    destruct (save_load_real (run ops st) g Hs H1) as (r & s' & h & A1 & A2 & A3 & A4 & A5).
    exists r, s'. split; [exact A1|]. rewrite A2. f_equal. f_equal. symmetry. apply (rel_same s'); [exact A3|apply alive_supported, H1| |exact A5].
    intros i a Hi Ha. apply (still_alive (run ops st) s' g i a); try assumption. intros o Ho Ho'. symmetry. exact (run_same st ops i _ _ Ist Ho Ho').
  Qed.

  (** * In another process *)
  Lemma rel_precedes s g1 g2 h1 h2 : inv s -> rel s g1 h1 -> rel s g2 h2 ->
    (forall i j i' j', ((0 < expo g1 i)%nat \/ (0 < expo g2 i)%nat) -> ((0 < expo g1 j)%nat \/ (0 < expo g2 j)%nat) -> mt s i i' -> mt s j j' -> i < j -> i' < j') ->
    precedes g1 g2 -> precedes h1 h2.
  Proof.
    intros Hs R1 R2 Ho [[A1 A2]|(A1 & A2 & A3)]; unfold precedes.
    - rewrite (rel_rational _ _ _ R1) in A1. rewrite (rel_rational _ _ _ R2) in A2. auto.
    - right. rewrite <- (rel_rational _ _ _ R1), <- (rel_rational _ _ _ R2). split; [exact A1|]. split; [exact A2|].
      unfold deglex_before in *. rewrite <- (rel_degree _ _ _ R1), <- (rel_degree _ _ _ R2). destruct A3 as [A3|[A3 (i & B1 & B2)]]; [auto|]. right. split; [exact A3|].
      destruct (rel_occurs_l s g1 h1 i R1) as [i' Hi']; [lia|]. exists i'. rewrite <- (rel_expo _ _ _ _ _ Hs R1 Hi'), <- (rel_expo _ _ _ _ _ Hs R2 Hi').
      split; [exact B1|]. intros j' Hj'.
      assert (D : (expo h1 j' = 0 /\ expo h2 j' = 0)%nat \/ exists j, mt s j j' /\ ((0 < expo g1 j)%nat \/ (0 < expo g2 j)%nat)).
      { destruct (expo h1 j') as [|n] eqn:E1.
        - destruct (expo h2 j') as [|n] eqn:E2; [auto|]. right. destruct (rel_occurs_r s g2 h2 j' R2) as [j Hj]; [lia|]. exists j. split; [exact Hj|].
          rewrite (rel_expo _ _ _ _ _ Hs R2 Hj). lia.
        - right. destruct (rel_occurs_r s g1 h1 j' R1) as [j Hj]; [lia|]. exists j. split; [exact Hj|]. rewrite (rel_expo _ _ _ _ _ Hs R1 Hj). lia. }
      destruct D as [[-> ->]|(j & Hj & Hp)]; [reflexivity|]. rewrite <- (rel_expo _ _ _ _ _ Hs R1 Hj), <- (rel_expo _ _ _ _ _ Hs R2 Hj). apply B2.
      destruct (Z.lt_trichotomy j i) as [H|[->|H]]; [exact H| |].
      + rewrite (mt_inj_r s i _ _ Hs Hj Hi') in Hj'. lia.
      + pose proof (Ho i j i' j') as Q. assert (i' < j'); [|lia]. apply Q; try assumption. left. lia.
  Qed.
  Lemma rel_ascending s gs hs : inv s -> Forall2 (rel s) gs hs ->
    (forall i j i' j', (exists g, In g gs /\ (0 < expo g i)%nat) -> (exists g, In g gs /\ (0 < expo g j)%nat) -> mt s i i' -> mt s j j' -> i < j -> i' < j') ->
    ascending gs -> ascending hs.
  Proof.
    intros Hs F. induction F as [|g h gs hs Hr F IH]; intros Ho; cbn [ascending]; [auto|]. intros [H1 H2]. split.
    - intros h' Hh'. destruct (Forall2_in_r _ _ _ _ F Hh') as (g' & G1 & G2). apply (rel_precedes s g g'); try assumption; [|apply H1, G1].
      intros i j i' j' Hi Hj. apply Ho; [destruct Hi as [Hi|Hi]|destruct Hj as [Hj|Hj]]; first [exists g; split; [left; reflexivity|assumption]|exists g'; split; [right; assumption|assumption]].
    - apply IH; [|exact H2]. intros i j i' j' (g1 & G1 & G2) (g2 & G3 & G4). apply Ho; [exists g1|exists g2]; split; auto; right; assumption.
  Qed.
  Lemma rel_combination s gs hs rho rho' : consistent st s rho rho' -> Forall2 (rel s) gs hs -> forall cs, combination S rho gs cs = combination S rho' hs cs.
  Proof.
    intros Hc F. induction F as [|g h gs hs Hr F IH]; intros [|c cs]; cbn [combination]; try reflexivity. rewrite IH, (rel_val s g h rho rho' Hr Hc). reflexivity.
  Qed.
  Lemma erel_value s x y rho rho' : inv s -> module_wf (emodule x) -> erel s x y -> same_order x st s -> consistent st s rho rho' -> value S rho x = value S rho' y.
  Proof.
    intros Hs [W1 W2] (Ec & Er & hs & F & Eb) Ho Hc. unfold value. rewrite Ec, Eb.
    rewrite gsort_id; [|exact (rel_all_wf s _ _ Hs F)|].
    - apply (rel_combination s); assumption.
    - apply (rel_ascending s (basis (emodule x))); try assumption.
  Qed.
  (** The generators are the same ones, but maybe in another order. *)
  Lemma erel_generators s x y : inv s -> erel s x y -> exists hs, Permutation hs (basis (emodule y)) /\
    forall rho rho', consistent st s rho rho' -> map (gen_val rho) (basis (emodule x)) = map (gen_val rho') hs.
  Proof.
    intros Hs (Ec & Er & hs & F & Eb). exists hs. rewrite Eb. split; [apply gsort_perm|]. intros rho rho' Hc. clear Eb.
    induction F as [|g h gs hs Hr F IH]; cbn [map]; [reflexivity|]. rewrite IH, (rel_val s g h rho rho' Hr Hc). reflexivity.
  Qed.

  (** * In a fresh process *)
  (** Numbers that are not products. *)
  Definition linear (g : gen) : Prop := match g with GProd _ => False | _ => True end.
  Fixpoint increasing (lo : Z) (hs : list gen) : Prop :=
    match hs with [] => True | GRat _ :: hs' => increasing lo hs' | GAtom j :: hs' => lo <= j /\ increasing (j + 1) hs' | GProd _ :: _ => False end.
  Lemma increasing_weaken lo lo' hs : lo' <= lo -> increasing lo hs -> increasing lo' hs.
  Proof. revert lo lo'. induction hs as [|[q|j|ns] hs IH]; intros lo lo' H; cbn [increasing]; auto; [apply IH, H|]. intros [H1 H2]. split; [lia|exact H2]. Qed.
  Definition unseeded (s : state) (sd : Z) : Prop := forall j b, In (j, OAtom b) (objs s) -> seed_of b <> sd.
  Lemma atom_eqb_seed a b : atom_eqb a b = true -> seed_of a = seed_of b.
  Proof. destruct a as [x|i e x], b as [y|j f y]; cbn [atom_eqb seed_of]; try discriminate; rewrite ?andb_true_iff, ?Z.eqb_eq; tauto. Qed.
  Lemma get_atom_new s a s' j : get_atom s a = (s', j) -> (forall i b, In (i, OAtom b) (objs s) -> atom_eqb b a = false) ->
    j = next_id s /\ next_id s' = next_id s + 1 /\ objs s' = (next_id s, OAtom a) :: objs s.
  Proof.
    intros H Hn. unfold get_atom, get in H. destruct (find_key _ _) as [x|] eqn:E.
    - apply find_key_some in E. destruct E as (o & H1 & H2). destruct o as [q|b|ms h]; try discriminate. rewrite (Hn _ _ H1) in H2. discriminate.
    - injection H as <- <-. cbn [next_id objs]. auto.
  Qed.
  Lemma load_atom_data_new s a s' j : load_atom_data s a = (s', j) -> unseeded s (seed_of a) ->
    next_id s <= j < next_id s' /\ forall sd, sd <> seed_of a -> unseeded s sd -> unseeded s' sd.
  Proof.
    intros H Hn. unfold load_atom_data in H. destruct a as [sd|i e sd]; cbn [seed_of] in *.
    - destruct (get_atom_new _ _ _ _ H) as (-> & -> & E).
      { intros i b Hi. destruct (atom_eqb b (ARandom sd)) eqn:E; [|reflexivity]. apply atom_eqb_seed in E. cbn in E. exfalso. exact (Hn i b Hi E). }
      split; [lia|]. intros sd' N U k b. rewrite E. intros [[= _ <-]|Hk]; [cbn; congruence|exact (U k b Hk)].
    - destruct (get_atom s (ARandom sd)) as [s1 z] eqn:E1. cbn [fst] in H. destruct (get_atom_new _ _ _ _ E1) as (-> & N1 & O1).
      { intros k b Hi. destruct (atom_eqb b (ARandom sd)) eqn:E; [|reflexivity]. apply atom_eqb_seed in E. cbn in E. exfalso. exact (Hn k b Hi E). }
      destruct (get_atom_new _ _ _ _ H) as (-> & N2 & O2).
      { intros k b Hi. rewrite O1 in Hi. destruct (atom_eqb b (AConstr i e sd)) eqn:E; [|reflexivity]. destruct Hi as [[= _ <-]|Hi]; [discriminate E|].
        apply atom_eqb_seed in E. cbn in E. exfalso. exact (Hn k b Hi E). }
      split; [lia|]. intros sd' N U k b. rewrite O2, O1. intros [[= _ <-]|[[= _ <-]|Hk]]; [cbn; congruence|cbn; congruence|exact (U k b Hk)].
  Qed.
  Lemma get_rational_atoms s q s' z : get_rational s q = (s', z) -> next_id s <= next_id s' /\ forall i a, In (i, OAtom a) (objs s') -> In (i, OAtom a) (objs s).
  Proof.
    unfold get_rational, get. destruct (find_key _ _); intros [= <- <-]; cbn [next_id objs]; (split; [lia|]); auto. intros i a [F|H]; [discriminate F|exact H].
  Qed.
  Lemma fresh_numbers gs : forall s (t : @table A) Ld t' rs s' Ld' hs, save_numbers st addr t gs = Some (t', rs) -> load_refs (A := A) s Ld rs = Some (s', Ld', hs) ->
    Forall linear gs -> NoDup gs -> (forall g, In g gs -> find_pointer t (PNum g) = None) ->
    (forall i a, In (GAtom i) gs -> In (i, OAtom a) (objs st) -> unseeded s (seed_of a)) ->
    (forall i a j b, In (GAtom i) gs -> In (GAtom j) gs -> In (i, OAtom a) (objs st) -> In (j, OAtom b) (objs st) -> seed_of a = seed_of b -> i = j) ->
    increasing (next_id s) hs.
  Proof.
    induction gs as [|g gs IH]; intros s t Ld t' rs s' Ld' hs Hs Hl Lin Nd Hf Hu Hd; cbn [save_numbers] in Hs.
    { injection Hs as <- <-. cbn [load_refs] in Hl. injection Hl as <- <- <-. exact Logic.I. }
    inversion Lin as [|g0 gs0 L1 L2]; subst. inversion Nd as [|g0 gs0 N1 N2]; subst.
    assert (Hf' : forall k h, In h gs -> find_pointer ((PNum g, k) :: t) (PNum h) = None).
    { intros k h Hh. rewrite find_cons. destruct (pointer_eqb _ _) eqn:E; [|apply Hf; right; exact Hh]. apply pointer_eqb_eq in E. congruence. }
    unfold save_number, register in Hs. rewrite (Hf g (or_introl eq_refl)) in Hs. destruct g as [q|i|ms]; [| |contradiction].
    - set (k := Z.of_nat (length t) + 1) in *. destruct (save_numbers st addr ((PNum (GRat q), k) :: t) gs) as [[t2 rs2]|] eqn:E2; [|discriminate]. cbn [option_map] in Hs. injection Hs as <- <-.
      cbn [load_refs load_ref] in Hl. destruct (get_rational s q) as [s1 z] eqn:E1.
      destruct (load_refs s1 ((k, PNum (GRat q)) :: Ld) rs2) as [[[s2 Ld2] hs2]|] eqn:E3; [|discriminate]. cbn [option_map] in Hl. injection Hl as <- <- <-.
      destruct (get_rational_atoms _ _ _ _ E1) as [R1 R2]. cbn [increasing]. apply (increasing_weaken (next_id s1)); [exact R1|].
      apply (IH s1 _ _ _ _ _ _ _ E2 E3 L2 N2 (Hf' k)).
      + intros i a Hi Ha j b Hb. apply (Hu i a (or_intror Hi) Ha j b). apply R2. exact Hb.
      + intros i a j b Hi Hj. apply Hd; right; assumption.
    - set (k := Z.of_nat (length t) + 1) in *. unfold atom_at in Hs. destruct (lookup (objs st) i) as [[q|a|ms h]|] eqn:El; try discriminate. cbn [option_map] in Hs.
      destruct (save_numbers st addr ((PNum (GAtom i), k) :: t) gs) as [[t2 rs2]|] eqn:E2; [|discriminate]. cbn [option_map] in Hs. injection Hs as <- <-.
      apply (lookup_in _ _ _ (proj1 Ist)) in El. cbn [load_refs load_ref] in Hl. destruct (load_atom_data s a) as [s1 j] eqn:E1.
      destruct (load_refs s1 ((k, PNum (GAtom j)) :: Ld) rs2) as [[[s2 Ld2] hs2]|] eqn:E3; [|discriminate]. cbn [option_map] in Hl. injection Hl as <- <- <-.
      destruct (load_atom_data_new _ _ _ _ E1) as [R1 R2]; [apply (Hu i a (or_introl eq_refl) El)|]. cbn [increasing]. split; [lia|]. apply (increasing_weaken (next_id s1)); [lia|].
      apply (IH s1 _ _ _ _ _ _ _ E2 E3 L2 N2 (Hf' k)).
      + intros i' a' Hi' Ha'. apply R2; [|apply (Hu i' a' (or_intror Hi') Ha')]. intros Es. apply N1.
        rewrite (Hd i a i' a' (or_introl eq_refl) (or_intror Hi') El Ha' (eq_sym Es)). exact Hi'.
      + intros i' a' j' b' Hi' Hj'. apply Hd; right; assumption.
  Qed.
  Lemma increasing_in lo hs j : increasing lo hs -> In (GAtom j) hs -> lo <= j.
  Proof.
    revert lo. induction hs as [|[q|i|ns] hs IH]; intros lo H Hj; cbn [increasing] in H; try contradiction.
    - destruct Hj as [Hj|Hj]; [discriminate Hj|exact (IH _ H Hj)].
    - destruct H as [H1 H2]. destruct Hj as [[= ->]|Hj]; [exact H1|]. specialize (IH _ H2 Hj). lia.
  Qed.
  Lemma increasing_ascending s gs hs lo : inv s -> Forall2 (rel s) gs hs -> increasing lo hs -> ascending gs -> ascending hs.
  Proof.
    intros Hs F. revert lo. induction F as [|g h gs hs Hr F IH]; intros lo Hi; cbn [ascending]; [auto|]. intros [H1 H2].
    assert (R : forall h', In h' hs -> ~ rational h').
    { intros h' Hh'. destruct (Forall2_in_r _ _ _ _ F Hh') as (g' & G1 & G2). rewrite <- (rel_rational _ _ _ G2). destruct (H1 g' G1) as [[_ B]|(_ & B & _)]; exact B. }
    destruct h as [q|j|ns]; cbn [increasing] in Hi; [| |contradiction].
    - split; [|exact (IH _ Hi H2)]. intros h' Hh'. left. split; [exact Logic.I|exact (R h' Hh')].
    - destruct Hi as [Hj Hi]. split; [|exact (IH _ Hi H2)]. intros h' Hh'. right. split; [intros []|]. split; [exact (R h' Hh')|].
      assert (Q : exists j', h' = GAtom j' /\ j + 1 <= j').
      { destruct h' as [q|j'|ns]; [destruct (R _ Hh' Logic.I)|exists j'; split; [reflexivity|exact (increasing_in _ _ _ Hi Hh')]|].
        exfalso. clear - Hi Hh'. revert Hi. generalize (j + 1). induction hs as [|[q|i|ns'] hs IH]; intros lo; cbn [increasing]; try contradiction.
        - destruct Hh' as [F|F]; [discriminate F|exact (IH F lo)].
        - destruct Hh' as [F|F]; [discriminate F|]. intros [_ H]. exact (IH F _ H). }
      destruct Q as (j' & -> & Hj'). right. split; [reflexivity|]. exists j. cbn [expo]. rewrite Z.eqb_refl. rewrite (proj2 (Z.eqb_neq j' j)) by lia. split; [lia|].
      intros i Hi'. rewrite (proj2 (Z.eqb_neq j i)), (proj2 (Z.eqb_neq j' i)) by lia. reflexivity.
  Qed.
  Lemma fresh_process s (x : elem A) : inv s -> elem_wf S x -> alive_elem st x -> Forall linear (basis (emodule x)) ->
    (forall i a, In (GAtom i) (basis (emodule x)) -> In (i, OAtom a) (objs st) -> unseeded s (seed_of a)) ->
    (forall i a j b, In (GAtom i) (basis (emodule x)) -> In (GAtom j) (basis (emodule x)) -> In (i, OAtom a) (objs st) -> In (j, OAtom b) (objs st) -> seed_of a = seed_of b -> i = j) ->
    exists ss s' y, save st addr [x] = Some ss /\ load s ss = Some (s', [y]) /\ (forall rho rho', consistent st s' rho rho' -> value S rho x = value S rho' y).
  Proof.
    intros Hs W Al Lin Hu Hd.
    destruct (save_load s [x] Hs) as (ss & s' & ys & A1 & A2 & A3 & A4 & A5); [constructor; [auto|constructor]|].
    inversion A5 as [|x0 y xs0 ys0 B C]; subst. inversion C; subst. exists ss, s', y. split; [exact A1|]. split; [exact A2|]. intros rho rho' Hc.
    unfold save in A1. cbn [save_elems] in A1. unfold save_elem, save_module, register in A1. cbn [find_pointer length] in A1.
    destruct (save_numbers st addr _ (basis (emodule x))) as [[t2 rs]|] eqn:En; [|discriminate]. cbn [option_map snd] in A1. injection A1 as <-.
    unfold load in A2. cbn [load_elems] in A2. unfold load_elem, load_module in A2. cbn [parent saved_coeffs] in A2.
    destruct (load_refs s [] rs) as [[[s2 Ld2] hs]|] eqn:El; [|discriminate].
    assert (I : increasing (next_id s) hs).
    { apply (fresh_numbers (basis (emodule x)) s _ _ _ _ _ _ _ En El Lin); try assumption.
      - apply ascending_NoDup, W.
      - intros g _. reflexivity. }
    destruct (numbers_round (fun q => q = PMod (emodule x) \/ False) (basis (emodule x)) s [(PMod (emodule x), Z.of_nat 0 + 1)] []) as (t3 & rs3 & s3 & Ld3 & hs3 & B1 & B2 & B3 & _ & _ & B6).
    { split; [exact Hs|]. split; [apply (register_new [] (PMod (emodule x))); [split; discriminate|reflexivity]|]. apply agree_new. intros p k F. discriminate F. }
    { apply alive_mod_supported; [apply W|assumption]. }
    { intros h [F|[]]. discriminate F. }
    rewrite En in B1. injection B1 as <- <-. rewrite El in B2. injection B2 as <- <- <-. destruct B3 as (S2 & _).
    pose proof (increasing_ascending s2 _ _ _ S2 B6 I (proj2 (proj1 W))) as Asc.
    rewrite (make_succeeds A hs (mring (emodule x)) (ascending_compatible _ Asc)), gsort_id in A2; [|exact (rel_all_wf s2 _ _ S2 B6)|exact Asc].
    unfold make_elem in A2. destruct (Nat.eqb _ _); [|discriminate A2]. cbn [option_map] in A2. injection A2 as <- <-. unfold value. cbn [emodule coeffs basis]. apply (rel_combination s2); assumption.
  Qed.
End Serialization.
