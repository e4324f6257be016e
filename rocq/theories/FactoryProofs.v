(** Interning: invariants of all histories. *)
From Coq Require Import ZArith QArith Qcanon Bool List Reals Lia.
From Verif Require Import Arf Arb SpecArf ArfProofs Real Gen SpecGen GenProofs Seed Factory SpecFactory.
Import ListNotations.
Open Scope Z_scope.

Definition obj_ok (st : state) (o : obj) : Prop :=
  match o with
  | OProd ms h => mons_wf 0 ms /\ (2 <= sum_exponents ms)%nat /\ h = hash_mons ms 1 /\
                  forall i e, In (i, e) ms -> exists a, In (i, OAtom a) (objs st)
  | _ => True
  end.

Definition inv (st : state) : Prop :=
  NoDup (map fst (objs st)) /\
  (forall x o, In (x, o) (objs st) -> 0 <= x < next_id st) /\
  (forall x o, In (x, o) (objs st) -> obj_ok st o) /\
  (forall x o y p, In (x, o) (objs st) -> In (y, p) (objs st) -> same_key o p -> x = y) /\ 0 <= next_id st.

Lemma lookup_in l x o : NoDup (map fst l) -> (lookup l x = Some o <-> In (x, o) l).
Proof.
  induction l as [|[y p] l IH]; cbn [map lookup]; intros Hn; [split; [discriminate|contradiction]|].
  inversion Hn as [|a b N1 N2]; subst. destruct (Z.eqb_spec y x) as [->|N].
  - split; [intros [= ->]; left; reflexivity|]. intros [[= ->]|H]; [reflexivity|]. exfalso. apply N1.
    change x with (fst (x, o)). apply in_map. exact H.
  - rewrite IH by exact N2. split; [intros H; right; exact H|intros [[= -> _]|H]; [congruence|exact H]].
Qed.

Lemma inv_fun st x o p : inv st -> In (x, o) (objs st) -> In (x, p) (objs st) -> o = p.
Proof. intros (Hn & _) H1 H2. apply (lookup_in _ _ _ Hn) in H1, H2. congruence. Qed.

Lemma arf_eqb_sym a b : arf_eqb a b = arf_eqb b a.
Proof.
  unfold arf_eqb, arf_cmp. rewrite (Z.min_comm (ae a)). set (e := Z.min (ae b) (ae a)). cbv zeta.
  rewrite Z.compare_antisym. destruct (_ ?= _); reflexivity.
Qed.
Lemma atom_eqb_sym a b : atom_eqb a b = atom_eqb b a.
Proof.
  destruct a as [s|i e s], b as [t|j f t]; cbn [atom_eqb]; try reflexivity; [apply Z.eqb_sym|].
  rewrite (arf_eqb_sym i), (Z.eqb_sym e), (Z.eqb_sym s). reflexivity.
Qed.
Lemma atom_eqb_refl a : atom_eqb a a = true.
Proof.
  destruct a as [s|i e s]; cbn [atom_eqb]; [apply Z.eqb_refl|]. rewrite !Z.eqb_refl, !andb_true_r.
  unfold arf_eqb, arf_cmp. rewrite Z.compare_refl. reflexivity.
Qed.
Lemma atom_eqb_trans a b c : atom_eqb a b = true -> atom_eqb b c = true -> atom_eqb a c = true.
Proof.
  destruct a as [s|i e s], b as [t|j f t], c as [u|k g u]; cbn [atom_eqb]; try discriminate; rewrite ?andb_true_iff, ?Z.eqb_eq, ?arf_eqb_spec; [congruence|].
  intros [[-> ->] ->] [[-> ->] ->]. auto.
Qed.
Lemma same_key_sym o p : same_key o p -> same_key p o.
Proof. destruct o, p; cbn [same_key]; auto. rewrite atom_eqb_sym. auto. Qed.
Lemma same_key_refl o : same_key o o.
Proof. destruct o; cbn [same_key]; auto. apply atom_eqb_refl. Qed.

Lemma find_key_some key l x : find_key key l = Some x -> exists o, In (x, o) l /\ key o = true.
Proof.
  induction l as [|[y p] l IH]; cbn [find_key]; [discriminate|]. destruct (key p) eqn:E.
  - intros [= ->]. exists p. split; [left; reflexivity|exact E].
  - intros H. destruct (IH H) as (o & H1 & H2). exists o. split; [right; exact H1|exact H2].
Qed.
Lemma find_key_none key l : find_key key l = None -> forall x o, In (x, o) l -> key o = false.
Proof.
  induction l as [|[y p] l IH]; cbn [find_key]; intros H x o Hin; [contradiction|]. destruct (key p) eqn:E; [discriminate|].
  destruct Hin as [[= -> ->]|Hin]; [exact E|exact (IH H x o Hin)].
Qed.

Lemma extends_refl st : extends st st.
Proof. split; [auto|lia]. Qed.

Lemma same_key_trans o p q : same_key o p -> same_key p q -> same_key o q.
Proof. destruct o, p, q; cbn [same_key]; try tauto; try congruence. apply atom_eqb_trans. Qed.

Section Get.
  Variables (st : state) (key : obj -> bool) (create : obj).
  Hypothesis Hinv : inv st.
  Hypothesis Hkey : forall x o, In (x, o) (objs st) -> (key o = true <-> same_key o create).
  Hypothesis Hok : obj_ok st create.

  Lemma get_spec st' z : get st key create = (st', z) ->
    inv st' /\ extends st st' /\ (exists o, In (z, o) (objs st') /\ same_key o create).
  Proof.
    unfold get. destruct (find_key key (objs st)) as [x|] eqn:E; intros [= <- <-].
    - apply find_key_some in E. destruct E as (o & H1 & H2). split; [exact Hinv|]. split; [apply extends_refl|].
      exists o. split; [exact H1|]. apply (Hkey x o H1). exact H2.
    - destruct Hinv as (I1 & I2 & I3 & I4 & I5). pose proof (find_key_none _ _ E) as Hnone.
      set (st1 := mkState ((next_id st, create) :: objs st) (next_id st + 1)).
      assert (Ext : extends st st1) by (split; [intros x o H; right; exact H|cbn; lia]).
      assert (Hmono : forall o, obj_ok st o -> obj_ok st1 o).
      { intros [q|a|ms h]; cbn [obj_ok]; auto. intros (A & B & C & D). repeat split; auto.
        intros i e Hi. destruct (D i e Hi) as [a Ha]. exists a. right. exact Ha. }
      assert (Hnew : forall x o, In (x, o) (objs st) -> ~ same_key o create).
      { intros x o Hin Hs. apply (Hkey x o Hin) in Hs. rewrite (Hnone x o Hin) in Hs. discriminate. }
      split; [|split; [exact Ext|]].
      + split; [|split; [|split; [|split]]].
        * cbn [objs st1 map]. constructor; [|exact I1]. rewrite in_map_iff. intros ([x o] & Hx & Hin). cbn in Hx. subst x. specialize (I2 _ _ Hin). lia.
        * intros x o [[= <- <-]|Hin]; cbn [next_id st1]; [lia|]. specialize (I2 _ _ Hin). lia.
        * intros x o [[= <- <-]|Hin]; apply Hmono; [exact Hok|exact (I3 _ _ Hin)].
        * intros x o y p [[= <- <-]|Hx] [[= <- <-]|Hy] Hs; [reflexivity| | |exact (I4 _ _ _ _ Hx Hy Hs)].
          -- exfalso. apply (Hnew y p Hy). apply same_key_sym. exact Hs.
          -- exfalso. exact (Hnew x o Hx Hs).
        * cbn. lia.
      + exists create. split; [left; reflexivity|apply same_key_refl].
  Qed.

  (** An object with that key is returned if there is one. *)
  Lemma get_existing x o : In (x, o) (objs st) -> same_key o create -> get st key create = (st, x).
  Proof.
    intros Hin Hs. unfold get. destruct (find_key key (objs st)) as [y|] eqn:E.
    - apply find_key_some in E. destruct E as (p & H1 & H2). apply (Hkey y p H1) in H2.
      destruct Hinv as (_ & _ & _ & I4 & _).
      assert (y = x) as ->; [|reflexivity]. apply (I4 y p x o H1 Hin).
      apply (same_key_trans p create); [|apply same_key_sym]; assumption.
    - pose proof (find_key_none _ _ E x o Hin) as F. apply (Hkey x o Hin) in Hs. congruence.
  Qed.
End Get.

(** Live objects denote well-formed numbers; different objects denote different numbers. *)
Lemma gen_of_wf st x o : inv st -> In (x, o) (objs st) -> gen_wf (gen_of x o).
Proof.
  intros (_ & I2 & I3 & _) H. specialize (I2 _ _ H). specialize (I3 _ _ H). destruct o; cbn [gen_of gen_wf]; auto; [lia|].
  destruct I3 as (A & B & _). auto.
Qed.
Lemma gen_of_inj st x o y p : inv st -> In (x, o) (objs st) -> In (y, p) (objs st) -> gen_of x o = gen_of y p -> x = y.
Proof.
  intros (_ & _ & _ & I4 & _) Hx Hy E. destruct o, p; cbn [gen_of] in E; try discriminate.
  - injection E as ->. apply (I4 _ _ _ _ Hx Hy). reflexivity.
  - congruence.
  - injection E as ->. apply (I4 _ _ _ _ Hx Hy). reflexivity.
Qed.

(** * The operations *)
Lemma get_rational_key st (q : Qc) : forall x o, In (x, o) (objs st) ->
  (match o with ORational p => Qeq_bool p q | _ => false end = true <-> same_key o (ORational q)).
Proof. intros x [p|a|ms h] _; cbn [same_key]; [apply Qc_eqb_eq|split; [discriminate|contradiction]|split; [discriminate|contradiction]]. Qed.
Lemma get_atom_key st a : forall x o, In (x, o) (objs st) ->
  (match o with OAtom b => atom_eqb b a | _ => false end = true <-> same_key o (OAtom a)).
Proof. intros x [p|b|ms h] _; cbn [same_key]; split; try discriminate; tauto. Qed.

Lemma get_rational_spec st q st' z : inv st -> get_rational st q = (st', z) -> inv st' /\ extends st st' /\ In (z, ORational q) (objs st').
Proof.
  intros Hi H. destruct (get_spec st _ _ Hi (get_rational_key st q) I st' z H) as (H1 & H2 & o & H3 & H4). split; [exact H1|]. split; [exact H2|].
  destruct o; cbn [same_key] in H4; try contradiction. subst. exact H3.
Qed.
Lemma get_rational_existing st q x : inv st -> In (x, ORational q) (objs st) -> get_rational st q = (st, x).
Proof. intros Hi H. apply (get_existing st _ _ Hi (get_rational_key st q) x _ H). reflexivity. Qed.
Lemma get_atom_spec st a st' z : inv st -> get_atom st a = (st', z) ->
  inv st' /\ extends st st' /\ exists b, In (z, OAtom b) (objs st') /\ atom_eqb b a = true.
Proof.
  intros Hi H. destruct (get_spec st _ _ Hi (get_atom_key st a) I st' z H) as (H1 & H2 & o & H3 & H4). split; [exact H1|]. split; [exact H2|].
  destruct o as [|b|]; cbn [same_key] in H4; try contradiction. exists b. auto.
Qed.
Lemma get_atom_existing st a b x : inv st -> In (x, OAtom b) (objs st) -> atom_eqb b a = true -> get_atom st a = (st, x).
Proof. intros Hi H Hb. apply (get_existing st _ _ Hi (get_atom_key st a) x _ H). exact Hb. Qed.

Lemma factor_hash_mons st x o : inv st -> In (x, o) (objs st) -> ~ rational (gen_of x o) ->
  factor_hash x o mod 2 ^ 64 = hash_mons (mons (gen_of x o)) 1 mod 2 ^ 64.
Proof.
  intros Hi H R. pose proof (mons_gen_wf _ (gen_of_wf st x o Hi H)) as W.
  destruct Hi as (_ & I2 & I3 & _). destruct o as [q|a|ms h]; cbn [gen_of rational] in R; [tauto| |].
  - cbn [factor_hash gen_of mons]. rewrite hash_mons_spec.
    + cbn [plain_hash]. change (Z.of_nat 1) with 1. rewrite Z.pow_1_r. f_equal. ring.
    + intros i e [[= <- <-]|[]]. specialize (I2 _ _ H). lia.
  - destruct (I3 _ _ H) as (_ & _ & -> & _). reflexivity.
Qed.

  Lemma expo_in l i : (0 < expo_mons l i)%nat -> exists e, In (i, e) l.
  Proof.
    induction l as [|[j e] l IH]; cbn [expo_mons]; [lia|]. destruct (Z.eqb_spec j i) as [->|N]; [intros _; exists e; left; reflexivity|].
    intros H. destruct IH as [f Hf]; [exact H|]. exists f. right. exact Hf.
  Qed.
  Lemma in_expo lo l i e : mons_wf lo l -> In (i, e) l -> (0 < expo_mons l i)%nat.
  Proof.
    revert lo. induction l as [|[j f] l IH]; intros lo Hw Hin; [contradiction|]. destruct Hw as (A & B & C). cbn [expo_mons].
    destruct Hin as [[= -> ->]|Hin]; [rewrite Z.eqb_refl; lia|]. specialize (IH _ C Hin). lia.
  Qed.

  Lemma mons_live st (Hinv : inv st) w o i : In (w, o) (objs st) -> (0 < expo (gen_of w o) i)%nat -> exists a, In (i, OAtom a) (objs st).
  Proof.
    intros Hw He. destruct o as [q|a|l h']; cbn [gen_of expo] in He; [lia| |].
    - destruct (Z.eqb_spec w i) as [->|]; [|lia]. exists a. exact Hw.
    - destruct (expo_in _ _ He) as [e Hin]. destruct (proj1 (proj2 (proj2 Hinv)) _ _ Hw) as (_ & _ & _ & D). exact (D i e Hin).
  Qed.

Section Product.
  Variables (st : state) (x : Z) (ox : obj) (y : Z) (oy : obj).
  Hypothesis Hinv : inv st.
  Hypothesis Hx : In (x, ox) (objs st).
  Hypothesis Hy : In (y, oy) (objs st).
  Hypothesis Rx : ~ rational (gen_of x ox).
  Hypothesis Ry : ~ rational (gen_of y oy).
  Let ms := persist (gen_of x ox) (gen_of y oy).
  Let h := factor_hash x ox * factor_hash y oy mod 2 ^ 64.

  Lemma product_merge : ms = merge (mons (gen_of x ox)) (mons (gen_of y oy)).
  Proof. apply persist_merge. exact Rx. Qed.

  Lemma product_hash : h = hash_mons ms 1.
  Proof.
    unfold h. rewrite product_merge, hash_mons_merge by (apply mons_gen_wf; eapply gen_of_wf; eassumption).
    rewrite Z.mul_mod by lia. rewrite (factor_hash_mons st x ox), (factor_hash_mons st y oy) by assumption. symmetry. apply Z.mul_mod. lia.
  Qed.

  Lemma product_key : forall w o, In (w, o) (objs st) ->
    (match o with OProd ms' h' => (h' =? h) && key_eq (mons (gen_of x ox)) (mons (gen_of y oy)) ms' | _ => false end = true
     <-> same_key o (OProd ms h)).
  Proof.
    intros w [q|a|ms' h'] Hw; cbn [same_key]; try (split; [discriminate|contradiction]).
    destruct (proj1 (proj2 (proj2 Hinv)) _ _ Hw) as (A & B & C & _).
    rewrite andb_true_iff, Z.eqb_eq.
    rewrite (key_eq_spec ms' _ _ 0) by (try exact A; apply mons_gen_wf; eapply gen_of_wf; eassumption).
    rewrite <- product_merge. split; [intros [_ E]; congruence|]. intros E. split; [|congruence]. rewrite C, product_hash, E. reflexivity.
  Qed.

  Lemma product_ok : obj_ok st (OProd ms h).
  Proof.
    pose proof (gen_of_wf st x ox Hinv Hx) as Wx. pose proof (gen_of_wf st y oy Hinv Hy) as Wy.
    destruct (persist_spec _ _ Wx Wy Rx Ry) as ((W1 & W2) & E & _).
    split; [exact W1|]. split; [exact W2|]. split; [apply product_hash|].
    intros i e Hin. pose proof (in_expo 0 _ _ _ W1 Hin) as Hp. specialize (E i). cbn [expo] in E. unfold ms in Hp. rewrite E in Hp.
    destruct (Nat.eq_dec (expo (gen_of x ox) i) 0) as [Z0|N0]; [apply (mons_live st Hinv y oy)|apply (mons_live st Hinv x ox)]; auto; lia.
  Qed.

  Lemma get_product_spec st' z : get_product st x ox y oy = (st', z) ->
    inv st' /\ extends st st' /\ exists o, In (z, o) (objs st') /\ gen_of z o = GProd ms.
  Proof.
    intros H. destruct (get_spec st _ _ Hinv product_key product_ok st' z H) as (H1 & H2 & o & H3 & H4).
    split; [exact H1|]. split; [exact H2|]. exists o. split; [exact H3|]. destruct o as [|a|l h']; cbn [same_key] in H4; try contradiction.
    cbn [gen_of]. congruence.
  Qed.
  Lemma get_product_existing z o : In (z, o) (objs st) -> gen_of z o = GProd ms -> get_product st x ox y oy = (st, z).
  Proof.
    intros Hz E. apply (get_existing st _ _ Hinv product_key z o Hz). destruct o as [|a|l h']; cbn [gen_of] in E; try discriminate.
    cbn [same_key]. congruence.
  Qed.
End Product.

Lemma rational_gen_of x o : rational (gen_of x o) <-> exists q, o = ORational q.
Proof. destruct o; cbn [gen_of rational]; split; try tauto; try (intros [q' E]; discriminate). eauto. Qed.

(** Multiplication on pointers is multiplication of the numbers, and returns the
    object that denotes the product if there is one. *)
Lemma mul_spec st x ox y oy : inv st -> In (x, ox) (objs st) -> In (y, oy) (objs st) ->
  match gen_mul (gen_of x ox) (gen_of y oy) with
  | Err e => mul st x y = Err e
  | Ok g => exists st' z o, mul st x y = Ok (st', z) /\ inv st' /\ extends st st' /\ In (z, o) (objs st') /\ gen_of z o = g /\
              (forall w p, In (w, p) (objs st) -> gen_of w p = g -> st' = st /\ z = w)
  end.
Proof.
  intros Hi Hx Hy. unfold mul. pose proof (proj1 Hi) as Hn.
  rewrite (proj2 (lookup_in _ _ _ Hn) Hx), (proj2 (lookup_in _ _ _ Hn) Hy).
  assert (Hrat : forall q y oy, In (y, oy) (objs st) ->
    match rational_mul q (gen_of y oy) with
    | Err e => rational_mul_obj st q y oy = Err e
    | Ok g => exists st' z o, rational_mul_obj st q y oy = Ok (st', z) /\ inv st' /\ extends st st' /\ In (z, o) (objs st') /\ gen_of z o = g /\
              (forall w p, In (w, p) (objs st) -> gen_of w p = g -> st' = st /\ z = w)
    end).
  { clear - Hi. intros q y oy Hy. unfold rational_mul, rational_mul_obj. destruct (Qeq_bool q 1).
    - exists st, y, oy. split; [reflexivity|]. split; [exact Hi|]. split; [apply extends_refl|]. split; [exact Hy|]. split; [reflexivity|].
      intros w p Hw E. split; [reflexivity|]. symmetry. exact (gen_of_inj st w p y oy Hi Hw Hy E).
    - destruct oy as [p|a|ms h]; cbn [gen_of]; [|reflexivity|reflexivity].
      destruct (get_rational st (q * p)) as [st' z] eqn:E. destruct (get_rational_spec _ _ _ _ Hi E) as (H1 & H2 & H3).
      exists st', z, (ORational (q * p)). split; [reflexivity|]. split; [exact H1|]. split; [exact H2|]. split; [exact H3|]. split; [reflexivity|].
      intros w r Hw Er. destruct r as [r|a|ms h]; cbn [gen_of] in Er; try discriminate. injection Er as ->.
      rewrite (get_rational_existing st _ w Hi Hw) in E. injection E as <- <-. auto. }
  assert (Hprod : ~ rational (gen_of x ox) -> ~ rational (gen_of y oy) ->
    exists st' z o, Ok (get_product st x ox y oy) = Ok (st', z) /\ inv st' /\ extends st st' /\ In (z, o) (objs st') /\
      gen_of z o = GProd (persist (gen_of x ox) (gen_of y oy)) /\
      (forall w p, In (w, p) (objs st) -> gen_of w p = GProd (persist (gen_of x ox) (gen_of y oy)) -> st' = st /\ z = w)).
  { intros Rx Ry. destruct (get_product st x ox y oy) as [st' z] eqn:E.
    destruct (get_product_spec _ _ _ _ _ Hi Hx Hy Rx Ry _ _ E) as (H1 & H2 & o & H3 & H4).
    exists st', z, o. split; [reflexivity|]. split; [exact H1|]. split; [exact H2|]. split; [exact H3|]. split; [exact H4|].
    intros w p Hw Ew. rewrite (get_product_existing _ _ _ _ _ Hi Hx Hy Rx Ry w p Hw Ew) in E. injection E as <- <-. auto. }
  destruct ox as [p|a|ms h]; [exact (Hrat p y oy Hy)| |].
  - destruct oy as [q|b|ms' h']; [exact (Hrat q x (OAtom a) Hx)| |]; apply Hprod; cbn; tauto.
  - destruct oy as [q|b|ms' h']; [exact (Hrat q x (OProd ms h) Hx)| |]; apply Hprod; cbn; tauto.
Qed.

Lemma get_monomials_key st ms : inv st -> forall w o, In (w, o) (objs st) ->
  (match o with OProd ms' h' => (h' =? hash_mons ms 1) && mons_eqb ms' ms | _ => false end = true <-> same_key o (OProd ms (hash_mons ms 1))).
Proof.
  intros Hi w [q|a|ms' h'] Hw; cbn [same_key]; try (split; [discriminate|contradiction]).
  destruct (proj1 (proj2 (proj2 Hi)) _ _ Hw) as (_ & _ & C & _).
  rewrite andb_true_iff, Z.eqb_eq, mons_eqb_eq. split; [tauto|]. intros ->. auto.
Qed.

(** Looking up the result of a division. *)
Lemma get_gen_spec st g : inv st -> gen_wf g -> (forall i, (0 < expo g i)%nat -> exists a, In (i, OAtom a) (objs st)) ->
  exists st' z o, get_gen st g = (st', z) /\ inv st' /\ extends st st' /\ In (z, o) (objs st') /\ gen_of z o = g /\
  (forall w p, In (w, p) (objs st) -> gen_of w p = g -> st' = st /\ z = w).
Proof.
  intros Hi Hg Hl. destruct g as [q|i|ms]; cbn [get_gen].
  - destruct (get_rational st q) as [st' z] eqn:E. destruct (get_rational_spec _ _ _ _ Hi E) as (H1 & H2 & H3).
    exists st', z, (ORational q). split; [reflexivity|]. split; [exact H1|]. split; [exact H2|]. split; [exact H3|]. split; [reflexivity|].
    intros w r Hw Er. destruct r as [r|a|ms h]; cbn [gen_of] in Er; try discriminate. injection Er as ->.
    rewrite (get_rational_existing st _ w Hi Hw) in E. injection E as <- <-. auto.
  - destruct (Hl i) as [a Ha]; [cbn [expo]; rewrite Z.eqb_refl; lia|].
    exists st, i, (OAtom a). split; [reflexivity|]. split; [exact Hi|]. split; [apply extends_refl|]. split; [exact Ha|]. split; [reflexivity|].
    intros w p Hw E. split; [reflexivity|]. destruct p; cbn [gen_of] in E; congruence.
  - destruct (get_monomials st ms) as [st' z] eqn:E. destruct Hg as [W1 W2].
    assert (Hok : obj_ok st (OProd ms (hash_mons ms 1))).
    { split; [exact W1|]. split; [exact W2|]. split; [reflexivity|]. intros i e Hin. apply Hl. exact (in_expo 0 _ _ _ W1 Hin). }
    destruct (get_spec st _ _ Hi (get_monomials_key st ms Hi) Hok st' z E) as (H1 & H2 & o & H3 & H4).
    exists st', z, o. split; [reflexivity|]. split; [exact H1|]. split; [exact H2|]. split; [exact H3|].
    split; [destruct o; cbn [same_key gen_of] in *; try contradiction; congruence|].
    intros w p Hw Ep. unfold get_monomials in E.
    rewrite (get_existing st _ _ Hi (get_monomials_key st ms Hi) w p Hw) in E; [injection E as <- <-; auto|].
    destruct p; cbn [same_key gen_of] in *; congruence.
Qed.

Lemma div_spec st x ox y oy : inv st -> In (x, ox) (objs st) -> In (y, oy) (objs st) ->
  match gen_div (gen_of x ox) (gen_of y oy) with
  | Err e => div st x y = Err e
  | Ok None => div st x y = Ok None
  | Ok (Some g) => exists st' z o, div st x y = Ok (Some (st', z)) /\ inv st' /\ extends st st' /\ In (z, o) (objs st') /\ gen_of z o = g /\
              (forall w p, In (w, p) (objs st) -> gen_of w p = g -> st' = st /\ z = w)
  end.
Proof.
  intros Hi Hx Hy. unfold div. pose proof (proj1 Hi) as Hn.
  rewrite (proj2 (lookup_in _ _ _ Hn) Hx), (proj2 (lookup_in _ _ _ Hn) Hy).
  pose proof (gen_of_wf st x ox Hi Hx) as Wx. pose proof (gen_of_wf st y oy Hi Hy) as Wy.
  destruct (gen_div (gen_of x ox) (gen_of y oy)) as [[g|]|e] eqn:E; [|reflexivity|reflexivity].
  destruct (gen_div_sound _ _ _ Wx Wy E) as [Wg Hm].
  destruct (gen_mul_expo _ _ _ Wg Wy Hm) as (He & _).
  destruct (get_gen_spec st g Hi Wg) as (st' & z & o & H0 & H1); [|exists st', z, o; rewrite H0; split; [reflexivity|exact H1]].
  intros i Hp. apply (mons_live st Hi x ox i Hx). rewrite He. lia.
Qed.

(** * Histories *)
Lemma collect_inv st x : inv st -> inv (collect st x).
Proof.
  intros Hi. unfold collect. destruct (existsb _ (objs st)) eqn:E; [exact Hi|].
  destruct Hi as (I1 & I2 & I3 & I4 & I5).
  assert (Hsub : forall w o, In (w, o) (filter (fun '(y, _) => negb (y =? x)) (objs st)) <-> In (w, o) (objs st) /\ w <> x).
  { intros w o. rewrite filter_In. destruct (Z.eqb_spec w x); cbn [negb]; intuition congruence. }
  split; [|split; [|split; [|split]]]; cbn [objs next_id].
  - clear - I1. induction (objs st) as [|[y o] l IH]; cbn [filter map] in *; [constructor|]. inversion I1 as [|a b N1 N2]; subst.
    destruct (negb (y =? x)); cbn [map]; [|exact (IH N2)]. constructor; [|exact (IH N2)].
    intros Hin. apply N1. apply in_map_iff in Hin. destruct Hin as ([w p] & Hw & Hin). apply filter_In in Hin. apply in_map_iff. exists (w, p). tauto.
  - intros w o Hw. apply Hsub in Hw. apply (I2 w o). tauto.
  - intros w o Hw. apply Hsub in Hw. destruct Hw as [Hw _]. pose proof (I3 w o Hw) as Hok. destruct o as [q|a|ms h]; cbn [obj_ok] in *; auto.
    destruct Hok as (A & B & C & D). repeat split; auto. intros i e Hin. destruct (D i e Hin) as [a Ha]. exists a. apply Hsub. split; [exact Ha|].
    intros ->. assert (existsb (fun '(_, o) => refers x o) (objs st) = true); [|congruence].
    apply existsb_exists. exists (w, OProd ms h). split; [exact Hw|]. cbn [refers]. apply existsb_exists. exists (x, e). split; [exact Hin|apply Z.eqb_refl].
  - intros w o v p Hw Hv. apply Hsub in Hw, Hv. apply I4; tauto.
  - exact I5.
Qed.

Lemma init_inv : inv init.
Proof. split; [constructor|]. repeat split; try contradiction. unfold init, first_id; cbn; lia. Qed.

Lemma step_inv st o : inv st -> inv (step st o).
Proof.
  intros Hi. destruct o as [q|a|x y|x y|x]; cbn [step].
  - destruct (get_rational st q) as [st' z] eqn:E. apply (get_rational_spec _ _ _ _ Hi E).
  - destruct (get_atom st a) as [st' z] eqn:E. apply (get_atom_spec _ _ _ _ Hi E).
  - destruct (mul st x y) as [[st' z]|e] eqn:E; [|exact Hi].
    unfold mul in E. destruct (lookup (objs st) x) as [ox|] eqn:Lx; [|discriminate]. destruct (lookup (objs st) y) as [oy|] eqn:Ly; [|discriminate].
    apply (lookup_in _ _ _ (proj1 Hi)) in Lx, Ly. pose proof (mul_spec st x ox y oy Hi Lx Ly) as M.
    assert (E' : mul st x y = Ok (st', z)).
    { unfold mul. rewrite (proj2 (lookup_in _ _ _ (proj1 Hi)) Lx), (proj2 (lookup_in _ _ _ (proj1 Hi)) Ly). exact E. }
    destruct (gen_mul _ _); [|congruence]. destruct M as (st1 & z1 & o & H1 & H2 & _). rewrite E' in H1. injection H1 as -> ->. exact H2.
  - destruct (div st x y) as [[[st' z]|]|e] eqn:E; [|exact Hi|exact Hi].
    unfold div in E. destruct (lookup (objs st) x) as [ox|] eqn:Lx; [|discriminate]. destruct (lookup (objs st) y) as [oy|] eqn:Ly; [|discriminate].
    apply (lookup_in _ _ _ (proj1 Hi)) in Lx, Ly. pose proof (div_spec st x ox y oy Hi Lx Ly) as M.
    assert (E' : div st x y = Ok (Some (st', z))).
    { unfold div. rewrite (proj2 (lookup_in _ _ _ (proj1 Hi)) Lx), (proj2 (lookup_in _ _ _ (proj1 Hi)) Ly). exact E. }
    destruct (gen_div _ _) as [[g|]|]; [|congruence|congruence]. destruct M as (st1 & z1 & o & H1 & H2 & _). rewrite E' in H1. injection H1 as -> ->. exact H2.
  - apply collect_inv. exact Hi.
Qed.
Lemma run_inv ops : forall st, inv st -> inv (run ops st).
Proof. induction ops as [|o ops IH]; intros st Hi; cbn [run fold_left]; [exact Hi|]. apply (IH (step st o)). apply step_inv. exact Hi. Qed.

(** Ids are never reused, objects never change. *)
Definition stable (st st' : state) : Prop :=
  next_id st <= next_id st' /\ forall x o, In (x, o) (objs st') -> In (x, o) (objs st) \/ next_id st <= x.
Lemma get_stable st key create st' z : get st key create = (st', z) -> stable st st'.
Proof.
  unfold get. destruct (find_key _ _); intros [= <- <-]; split; cbn; try lia; auto. intros x o [[= <- <-]|H]; [right; lia|auto].
Qed.
Lemma stable_refl st : stable st st.
Proof. split; [lia|auto]. Qed.
Lemma rational_mul_obj_stable st q x o st' z : rational_mul_obj st q x o = Ok (st', z) -> stable st st'.
Proof.
  unfold rational_mul_obj. destruct (Qeq_bool q 1); [intros [= <- <-]; apply stable_refl|]. destruct o; try discriminate.
  intros [= H]. exact (get_stable _ _ _ _ _ H).
Qed.
Lemma step_stable st o : stable st (step st o).
Proof.
  destruct o as [q|a|x y|x y|x]; cbn [step].
  - destruct (get_rational st q) as [st' z] eqn:E. exact (get_stable _ _ _ _ _ E).
  - destruct (get_atom st a) as [st' z] eqn:E. exact (get_stable _ _ _ _ _ E).
  - destruct (mul st x y) as [[st' z]|e] eqn:E; [|apply stable_refl]. unfold mul in E.
    destruct (lookup (objs st) x) as [ox|]; [|discriminate]. destruct (lookup (objs st) y) as [oy|]; [|discriminate].
    destruct ox as [p|a|ms h]; [exact (rational_mul_obj_stable _ _ _ _ _ _ E)| |];
    (destruct oy as [q|b|ms' h']; [exact (rational_mul_obj_stable _ _ _ _ _ _ E)| |]; injection E as E; exact (get_stable _ _ _ _ _ E)).
  - destruct (div st x y) as [[[st' z]|]|e] eqn:E; [|apply stable_refl|apply stable_refl]. unfold div in E.
    destruct (lookup (objs st) x) as [ox|]; [|discriminate]. destruct (lookup (objs st) y) as [oy|]; [|discriminate].
    destruct (gen_div _ _) as [[g|]|]; try discriminate. injection E as E. destruct g as [q|i|ms]; cbn [get_gen] in E.
    + exact (get_stable _ _ _ _ _ E).
    + injection E as <- <-. apply stable_refl.
    + exact (get_stable _ _ _ _ _ E).
  - unfold collect. destruct (existsb _ _); [apply stable_refl|]. split; cbn; [lia|]. intros w o H. apply filter_In in H. tauto.
Qed.
Lemma run_stable ops : forall st, stable st (run ops st).
Proof.
  induction ops as [|o ops IH]; intros st; cbn [run fold_left]; [apply stable_refl|].
  destruct (step_stable st o) as [A B]. destruct (IH (step st o)) as [C D]. split; [unfold run in C; lia|].
  intros x p H. destruct (D x p H) as [H1|H1]; [apply B; exact H1|right; lia].
Qed.

(** The number behind an id never changes while it is alive. *)
Lemma run_same st ops x o p : inv st -> In (x, o) (objs st) -> In (x, p) (objs (run ops st)) -> o = p.
Proof.
  intros Hi Hx Hp. destruct (run_stable ops st) as [_ H]. destruct (H x p Hp) as [H1|H1]; [exact (inv_fun st x o p Hi Hx H1)|].
  destruct Hi as (_ & I2 & _). specialize (I2 _ _ Hx). lia.
Qed.

(** * Consequences for all histories *)
Lemma reachable_inv st : reachable st -> inv st.
Proof. intros [ops ->]. apply run_inv. apply init_inv. Qed.
Lemma reachable_run st ops : reachable st -> reachable (run ops st).
Proof. intros [ops' ->]. exists (ops' ++ ops). unfold run. rewrite fold_left_app. reflexivity. Qed.

Lemma mul_live st x y st' z : mul st x y = Ok (st', z) ->
  exists ox oy, lookup (objs st) x = Some ox /\ lookup (objs st) y = Some oy.
Proof. unfold mul. destruct (lookup (objs st) x) as [ox|]; [|discriminate]. destruct (lookup (objs st) y) as [oy|]; [|discriminate]. eauto. Qed.

Lemma mul_result st x y st' z : inv st -> mul st x y = Ok (st', z) ->
  exists ox oy o, In (x, ox) (objs st) /\ In (y, oy) (objs st) /\ inv st' /\ extends st st' /\ In (z, o) (objs st') /\
    gen_mul (gen_of x ox) (gen_of y oy) = Ok (gen_of z o) /\
    (forall w p, In (w, p) (objs st) -> gen_of w p = gen_of z o -> st' = st /\ z = w).
Proof.
  intros Hi H. destruct (mul_live _ _ _ _ _ H) as (ox & oy & Lx & Ly). apply (lookup_in _ _ _ (proj1 Hi)) in Lx, Ly.
  pose proof (mul_spec st x ox y oy Hi Lx Ly) as M. destruct (gen_mul _ _) as [g|e] eqn:E; [|congruence].
  destruct M as (st1 & z1 & o & H1 & H2 & H3 & H4 & H5 & H6). rewrite H in H1. injection H1 as <- <-. subst g.
  exists ox, oy, o. auto 10.
Qed.

Lemma mul_again st x ox y oy z o : inv st -> In (x, ox) (objs st) -> In (y, oy) (objs st) -> In (z, o) (objs st) ->
  gen_mul (gen_of x ox) (gen_of y oy) = Ok (gen_of z o) -> mul st x y = Ok (st, z).
Proof.
  intros Hi Hx Hy Hz E. pose proof (mul_spec st x ox y oy Hi Hx Hy) as M. rewrite E in M.
  destruct M as (st' & w & p & H1 & _ & _ & _ & _ & H6). destruct (H6 z o Hz eq_refl) as [-> ->]. exact H1.
Qed.

Lemma mul_same_object st x y st' z : reachable st -> mul st x y = Ok (st', z) -> mul st' y x = Ok (st', z).
Proof.
  intros Hr H. pose proof (reachable_inv st Hr) as Hi.
  destruct (mul_result _ _ _ _ _ Hi H) as (ox & oy & o & Hx & Hy & Hi' & Hext & Hz & E & _).
  apply (mul_again st' y oy x ox z o Hi'); [apply Hext; exact Hy|apply Hext; exact Hx|exact Hz|].
  rewrite gen_mul_comm; [exact E| |]; apply (gen_of_wf st); assumption.
Qed.

Lemma mul_assoc_object st x y z st1 a st2 b st3 c st4 d : reachable st ->
  mul st x y = Ok (st1, a) -> mul st1 a z = Ok (st2, b) -> mul st2 y z = Ok (st3, c) -> mul st3 x c = Ok (st4, d) -> d = b.
Proof.
  intros Hr H1 H2 H3 H4. pose proof (reachable_inv st Hr) as I0.
  destruct (mul_result _ _ _ _ _ I0 H1) as (ox & oy & oa & Lx & Ly & I1 & X1 & La & E1 & _).
  destruct (mul_result _ _ _ _ _ I1 H2) as (oa' & oz & ob & La' & Lz & I2 & X2 & Lb & E2 & _).
  rewrite (inv_fun st1 a oa' oa I1 La' La) in *.
  destruct (mul_result _ _ _ _ _ I2 H3) as (oy' & oz' & oc & Ly' & Lz' & I3 & X3 & Lc & E3 & _).
  assert (oy' = oy) as -> by (apply (inv_fun st2 y _ _ I2 Ly'); apply X2; apply X1; exact Ly).
  assert (oz' = oz) as -> by (apply (inv_fun st2 z _ _ I2 Lz'); apply X2; exact Lz).
  destruct (mul_result _ _ _ _ _ I3 H4) as (ox' & oc' & od & Lx' & Lc' & I4 & X4 & Ld & E4 & _).
  assert (ox' = ox) as -> by (apply (inv_fun st3 x _ _ I3 Lx'); apply X3; apply X2; apply X1; exact Lx).
  rewrite (inv_fun st3 c oc' oc I3 Lc' Lc) in *.
  assert (E : gen_of b ob = gen_of d od).
  { refine (gen_mul_assoc _ _ _ _ _ _ _ _ _ _ E1 E2 E3 E4).
    - apply (gen_of_wf st); assumption.
    - apply (gen_of_wf st); assumption.
    - apply (gen_of_wf st1); assumption. }
  symmetry. apply (gen_of_inj st4 b ob d od I4); [|exact Ld|exact E]. apply X4. apply X3. exact Lb.
Qed.

Lemma get_stays st1 z o ops : inv st1 -> In (z, o) (objs st1) -> lookup (objs (run ops st1)) z <> None -> In (z, o) (objs (run ops st1)) /\ inv (run ops st1).
Proof.
  intros Hi Hz Hl. pose proof (run_inv ops st1 Hi) as Hi'. destruct (lookup (objs (run ops st1)) z) as [p|] eqn:E; [|congruence].
  apply (lookup_in _ _ _ (proj1 Hi')) in E. rewrite (run_same st1 ops z o p Hi Hz E). auto.
Qed.

Lemma atom_interned st a st1 z ops : reachable st -> get_atom st a = (st1, z) -> lookup (objs (run ops st1)) z <> None ->
  get_atom (run ops st1) a = (run ops st1, z).
Proof.
  intros Hr H Hl. destruct (get_atom_spec _ _ _ _ (reachable_inv _ Hr) H) as (I1 & _ & b & Hz & Hb).
  destruct (get_stays st1 z _ ops I1 Hz Hl) as (Hz' & I'). exact (get_atom_existing _ a b z I' Hz' Hb).
Qed.
Lemma rational_interned st q st1 z ops : reachable st -> get_rational st q = (st1, z) -> lookup (objs (run ops st1)) z <> None ->
  get_rational (run ops st1) q = (run ops st1, z).
Proof.
  intros Hr H Hl. destruct (get_rational_spec _ _ _ _ (reachable_inv _ Hr) H) as (I1 & _ & Hz).
  destruct (get_stays st1 z _ ops I1 Hz Hl) as (Hz' & I'). exact (get_rational_existing _ q z I' Hz').
Qed.
Lemma product_interned st x y st1 z ops : reachable st -> mul st x y = Ok (st1, z) ->
  lookup (objs (run ops st1)) x <> None -> lookup (objs (run ops st1)) y <> None -> lookup (objs (run ops st1)) z <> None ->
  mul (run ops st1) x y = Ok (run ops st1, z).
Proof.
  intros Hr H Lx Ly Lz. destruct (mul_result _ _ _ _ _ (reachable_inv _ Hr) H) as (ox & oy & o & Hx & Hy & I1 & X1 & Hz & E & _).
  destruct (get_stays st1 z _ ops I1 Hz Lz) as (Hz' & I').
  destruct (get_stays st1 x _ ops I1 (proj1 X1 _ _ Hx) Lx) as (Hx' & _).
  destruct (get_stays st1 y _ ops I1 (proj1 X1 _ _ Hy) Ly) as (Hy' & _).
  exact (mul_again _ x ox y oy z o I' Hx' Hy' Hz' E).
Qed.
Lemma keys_unique st x o y p : reachable st -> lookup (objs st) x = Some o -> lookup (objs st) y = Some p ->
  same_key o p \/ gen_of x o = gen_of y p -> x = y.
Proof.
  intros Hr Hx Hy H. pose proof (reachable_inv st Hr) as Hi. apply (lookup_in _ _ _ (proj1 Hi)) in Hx, Hy.
  destruct H as [H|H]; [|exact (gen_of_inj st x o y p Hi Hx Hy H)]. destruct Hi as (_ & _ & _ & I4 & _). exact (I4 _ _ _ _ Hx Hy H).
Qed.
Lemma live_wf st x o : reachable st -> lookup (objs st) x = Some o -> gen_wf (gen_of x o).
Proof. intros Hr Hx. pose proof (reachable_inv st Hr) as Hi. apply (lookup_in _ _ _ (proj1 Hi)) in Hx. exact (gen_of_wf st x o Hi Hx). Qed.
Lemma mul_denotes st x y st' z : reachable st -> mul st x y = Ok (st', z) ->
  exists ox oy o, lookup (objs st) x = Some ox /\ lookup (objs st) y = Some oy /\ lookup (objs st') z = Some o /\
    forall rho, gen_val rho (gen_of z o) = (gen_val rho (gen_of x ox) * gen_val rho (gen_of y oy))%R.
Proof.
  intros Hr H. pose proof (reachable_inv st Hr) as Hi.
  destruct (mul_result _ _ _ _ _ Hi H) as (ox & oy & o & Hx & Hy & I1 & X1 & Hz & E & _).
  exists ox, oy, o. split; [apply lookup_in; [apply Hi|exact Hx]|]. split; [apply lookup_in; [apply Hi|exact Hy]|].
  split; [apply lookup_in; [apply I1|exact Hz]|].
  apply (gen_mul_correct _ _ _ (gen_of_wf st x ox Hi Hx) (gen_of_wf st y oy Hi Hy) E).
Qed.
