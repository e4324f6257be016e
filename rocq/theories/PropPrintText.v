(** C108: the characters that are printed for an element. *)
From Coq Require Import ZArith QArith Qcanon Qreals Bool List Ascii String Reals Lia Lra Permutation Sorting.Sorted.
From Flocq Require Import Core.
From Verif Require Import Arf Arb SpecArf Real SpecReal RealProofs3 Double SpecDouble Text SpecText PropText PropIeee Output SpecOutput OutputProofs2 OutputProofs3 PropOutput Gen SpecGen GenProofs
  Ring SpecRing RingProofs Module Element SpecModule ModuleProofs ElementProofs ElementProofs2 Loops SpecLoops Print SpecPrint PrintProofs PropOrder Rand48Proofs Fast48 LoopsCases PropLoops PropPrint PrintText SpecPrintText PrintTextProofs.
Import ListNotations.
Open Scope string_scope.

Lemma get_str_no_sign n : (0 <= n)%Z -> no_sign (get_str 10 n).
Proof. intros H t E. rewrite get_str_pos in E by exact H. pose proof (proj2 (abs_str_numeral 10 n ltac:(lia))) as K. rewrite E in K. exact (numeral_nominus _ _ _ K). Qed.
Lemma int_writes : writes int_sem tt show_int.
Proof. intros c _ H. unfold show_int. split; [apply rational_int, C79_get_str; lia|]. apply get_str_no_sign. apply le_IZR. exact H. Qed.
Lemma rat_writes : writes rat_sem tt show_rat.
Proof.
  intros c _ H. unfold show_rat. split.
  - exact (C87_rational (fun _ _ => true) 0 (this c) _ eq_refl).
  - assert (N : (0 <= Qnum (this c))%Z).
    { change (val rat_sem c) with (Q2R (this c)) in H. unfold Q2R in H. apply le_IZR. apply Rmult_le_reg_r with (/ IZR (Zpos (Qden (this c))))%R; [apply Rinv_0_lt_compat, IZR_lt; lia|]. lra. }
    unfold save_mpq. destruct (Qden (this c) =? 1)%positive; [apply get_str_no_sign, N|]. intros t E. pose proof (get_str_no_sign _ N) as K. destruct (get_str 10 (Qnum (this c))) as [|a r]; [discriminate E|].
    injection E as -> _. exact (K r eq_refl).
Qed.
Lemma one_rational : rational_text "1" 1. Proof. exact (rational_int "1" 1 (C79_get_str 10 1 ltac:(lia))). Qed.
Lemma one_no_sign : no_sign "1". Proof. intros t. discriminate. Qed.

Section Written.
  Variable A : ring.
  Variable S : semantics A.
  Hypothesis L : lawful A S.
  Variable cltb : car A -> car A -> bool.
  Variable p : par A.
  Hypothesis HC : orders S p cltb.
  Variable show_coeff : car A -> string.
  Hypothesis HW : writes S p show_coeff.
  Variable rng : Z -> nat -> bool.
  Variable names : Z -> atom.
  Variable rho : Z -> R.
  Variable gs : list gen.
  Variable fuel : nat.
  Let show_gen := show_generator rng names fuel.
  Let named := printed_name rng names rho gs.

  Lemma spell_app l r : spell show_coeff show_gen (l ++ r) = match spell show_coeff show_gen l, spell show_coeff show_gen r with Some s, Some t => Some (s ++ t) | _, _ => None end.
  Proof.
    induction l as [|t l IH]; [cbn [app spell]; destruct (spell show_coeff show_gen r); reflexivity|]. cbn [app spell]. rewrite IH. destruct (spell_token show_coeff show_gen t) as [u|]; [|reflexivity].
    destruct (spell show_coeff show_gen l) as [w|]; [|reflexivity]. destruct (spell show_coeff show_gen r) as [z|]; [|reflexivity]. f_equal.
    induction u as [|a u IHu]; [reflexivity|]. cbn [append]. f_equal. exact IHu.
  Qed.
  Definition listed (g : gen) : Prop := In g gs /\ gen_wf g /\ (rational g -> g = GRat 1).
  Lemma gen_written g s : listed g -> show_gen g = Some s -> term_text named s (gen_val rho g).
  Proof.
    intros (I & W & Q) E. destruct (rational_dec g) as [R1|R1].
    - pose proof (Q R1) as ->. injection E as <-. change (gen_val rho (GRat 1)) with (Q2R 1). unfold Q2R. cbn. replace (1 * / 1)%R with 1%R by field. apply term_number; [exact one_rational|exact one_no_sign].
    - apply term_name. exists g, fuel. repeat split; auto.
  Qed.
  Lemma append_nil_r s : s ++ "" = s.
  Proof. induction s as [|c s IH]; [reflexivity|]. cbn [append]. rewrite IH. reflexivity. Qed.
  Lemma term_written g c s : listed g -> mem S p c -> (0 < val S c)%R -> spell show_coeff show_gen (print_term g c) = Some s -> term_text named s (val S c * gen_val rho g).
  Proof.
    intros G M P E. unfold print_term in E. destruct (ceqb c (cone A)) eqn:E1.
    - apply (L_eqb A S L) in E1. subst c. rewrite (val_one A S L), Rmult_1_l. cbn [spell spell_token] in E. destruct (show_gen g) as [t|] eqn:Eg; [|discriminate]. apply some_inj in E. subst s. rewrite append_nil_r. exact (gen_written g t G Eg).
    - destruct (HW c M ltac:(lra)) as [Hr Hn]. destruct (gen_eqb g (GRat 1)) eqn:G1.
      + apply gen_eqb_eq in G1. subst g. cbn [spell spell_token] in E. apply some_inj in E. subst s. rewrite append_nil_r. change (gen_val rho (GRat 1)) with (Q2R 1). replace (val S c * Q2R 1)%R with (val S c) by (unfold Q2R; cbn; field). apply term_number; assumption.
      + cbn [spell spell_token] in E. destruct (show_gen g) as [t|] eqn:Eg; [|discriminate]. apply some_inj in E. subst s. rewrite append_nil_r. apply term_product; [exact Hr|exact Hn|].
        destruct G as (I & W & Q). exists g, fuel. repeat split; auto. intros R1. rewrite (Q R1) in G1. discriminate G1.
  Qed.
  Lemma positive_or_negative c : mem S p c -> cz c = false -> (cltb (czero A) c = true -> (0 < val S c)%R) /\ (cltb (czero A) c = false -> mem S p (copp c) /\ (0 < val S (copp c))%R /\ val S (copp c) = (- val S c)%R).
  Proof.
    intros M Z0. destruct (L_zero A S L p) as [M0 V0]. split; intros H.
    - apply (HC (czero A) c M0 M) in H. rewrite V0 in H. exact H.
    - destruct (L_opp A S L p c M) as [Mo Vo]. split; [exact Mo|]. split; [|exact Vo]. rewrite Vo. destruct (Rtotal_order (val S c) 0) as [K|[K|K]]; [lra| |].
      + apply (val_zero_iff A S L p c M) in K. apply (cz_false A S L) in Z0. contradiction.
      + rewrite <- V0 in K. apply (HC (czero A) c M0 M) in K. congruence.
  Qed.
  Lemma more_written l : Forall (fun t => mem S p (pcoef A t) /\ listed (pgen A t)) l -> forall s, spell show_coeff show_gen (pprint A cltb false l) = Some s -> more_text named s (psum A S rho l).
  Proof.
    induction l as [|[[b g] c] l IH]; intros F s E.
    - injection E as <-. constructor.
    - inversion_clear F as [|? ? [Mc Gc] F']. cbn [pcoef pgen fst snd] in Mc, Gc. cbn [pprint] in E. cbn [psum pcoef pgen fst snd]. destruct (cz c) eqn:Ez.
      + apply (cz_spec A S L) in Ez. subst c. rewrite (val_zero A S L). replace (0 * gen_val rho g + psum A S rho l)%R with (psum A S rho l) by ring. apply IH; assumption.
      + destruct (positive_or_negative c Mc Ez) as [Hp Hn]. destruct (cltb (czero A) c).
        * cbn [app] in E. cbn [spell spell_token] in E. rewrite spell_app in E. destruct (spell show_coeff show_gen (print_term g c)) as [t|] eqn:Et; [|discriminate].
          destruct (spell show_coeff show_gen (pprint A cltb false l)) as [r|] eqn:Er; [|discriminate]. apply some_inj in E. subst s. apply more_plus; [apply term_written; auto|apply IH; auto].
        * destruct (Hn eq_refl) as (Mo & Po & Vo). cbn [app] in E. cbn [spell spell_token] in E. rewrite spell_app in E. destruct (spell show_coeff show_gen (print_term g (copp c))) as [t|] eqn:Et; [|discriminate].
          destruct (spell show_coeff show_gen (pprint A cltb false l)) as [r|] eqn:Er; [|discriminate]. apply some_inj in E. subst s.
          replace (val S c * gen_val rho g + psum A S rho l)%R with (- (val S (copp c) * gen_val rho g) + psum A S rho l)%R by (rewrite Vo; ring). apply more_minus; [apply term_written; auto|apply IH; auto].
  Qed.
  Lemma sum_written l : Forall (fun t => mem S p (pcoef A t) /\ listed (pgen A t)) l -> forall s, spell show_coeff show_gen (pprint A cltb true l) = Some s -> sum_text named s (psum A S rho l).
  Proof.
    induction l as [|[[b g] c] l IH]; intros F s E.
    - injection E as <-. cbn [psum]. replace 0%R with (0 + 0)%R by ring. apply (sum_first _ "0" 0 "" 0); [|constructor]. apply term_number; [exact (rational_int "0" 0 (C79_get_str 10 0 ltac:(lia)))|intros t; discriminate].
    - inversion_clear F as [|? ? [Mc Gc] F']. cbn [pcoef pgen fst snd] in Mc, Gc. cbn [pprint] in E. cbn [psum pcoef pgen fst snd]. destruct (cz c) eqn:Ez.
      + apply (cz_spec A S L) in Ez. subst c. rewrite (val_zero A S L). replace (0 * gen_val rho g + psum A S rho l)%R with (psum A S rho l) by ring. apply IH; assumption.
      + destruct (positive_or_negative c Mc Ez) as [Hp Hn]. destruct (cltb (czero A) c).
        * cbn [app] in E. rewrite spell_app in E. destruct (spell show_coeff show_gen (print_term g c)) as [t|] eqn:Et; [|discriminate].
          destruct (spell show_coeff show_gen (pprint A cltb false l)) as [r|] eqn:Er; [|discriminate]. apply some_inj in E. subst s. apply sum_first; [apply term_written; auto|apply more_written; auto].
        * destruct (Hn eq_refl) as (Mo & Po & Vo). cbn [app] in E. cbn [spell spell_token] in E. rewrite spell_app in E. destruct (spell show_coeff show_gen (print_term g (copp c))) as [t|] eqn:Et; [|discriminate].
          destruct (spell show_coeff show_gen (pprint A cltb false l)) as [r|] eqn:Er; [|discriminate]. apply some_inj in E. subst s.
          replace (val S c * gen_val rho g + psum A S rho l)%R with (- (val S (copp c) * gen_val rho g) + psum A S rho l)%R by (rewrite Vo; ring). apply sum_negative; [apply term_written; auto|apply more_written; auto].
  Qed.
End Written.

(** * It is written, eventually *)
Lemma show_atom_returns rng a : atom_ok rng a -> exists s, eventually (fun n => show_atom rng n a) s.
Proof.
  assert (D : forall b, atom_ok rng b -> exists d, eventually (fun n => num_get_d rng n (RAtom b)) d).
  { intros b Hb. destruct (num_arf_returns rng (RAtom b) ARF_DOUBLE_PRECISION Hb) as (f0 & w & H). exists (arf_get_d w), f0. intros n Hn. unfold num_get_d. rewrite (H n Hn). reflexivity. }
  destruct a as [seed|i e seed]; intros H.
  - destruct (D _ H) as (d & N & Hd). eexists. exists N. intros n Hn. cbn [show_atom]. unfold show_random. rewrite (Hd n Hn). reflexivity.
  - destruct (D (ARandom seed) (proj1 H)) as (d & N & Hd). destruct (D (AConstr i e seed) H) as (d' & N' & Hd'). eexists. exists (Nat.max N N'). intros n Hn. cbn [show_atom]. unfold show_constrained, show_random.
    rewrite (Hd n ltac:(lia)), (Hd' n ltac:(lia)). reflexivity.
Qed.
Lemma show_generator_returns rng names g : (forall i, atom_ok rng (names i)) -> exists s, eventually (fun n => show_generator rng names n g) s.
Proof.
  intros H. unfold show_generator. destruct g as [q|i|ms]; cbn [rnum_of show_num].
  - eexists. exists 0%nat. intros n _. reflexivity.
  - apply show_atom_returns, H.
  - induction ms as [|[i k] ms IH]; cbn [map show_product]; [eexists; exists 0%nat; intros n _; reflexivity|].
    destruct (show_atom_returns rng (names i) (H i)) as (t & N & Ht). destruct IH as (r & M & Hr). eexists. exists (Nat.max N M). intros n Hn. rewrite (Ht n ltac:(lia)), (Hr n ltac:(lia)). reflexivity.
Qed.
Lemma spell_returns A (show_coeff : car A -> string) rng names l : (forall i, atom_ok rng (names i)) -> exists s, eventually (fun n => spell show_coeff (show_generator rng names n) l) s.
Proof.
  intros H. induction l as [|t l IH]; [exists "", 0%nat; intros n _; reflexivity|]. destruct IH as (r & M & Hr).
  assert (T : exists s, eventually (fun n => spell_token show_coeff (show_generator rng names n) t) s).
  { destruct t; cbn [spell_token]; try (eexists; exists 0%nat; intros n _; reflexivity). apply show_generator_returns, H. }
  destruct T as (s & N & Hs). exists (s ++ r), (Nat.max N M). intros n Hn. cbn [spell]. rewrite (Hs n ltac:(lia)), (Hr n ltac:(lia)). reflexivity.
Qed.
Lemma print_string_eventually A mag_up garb carb cltb (show_coeff : car A -> string) rng names x text : (forall i, atom_ok rng (names i)) -> eventually (fun n => print mag_up garb carb cltb n x) (Ok text) ->
  exists s fuel, eventually (fun n => print_string mag_up garb carb cltb show_coeff rng names n x) (Ok s) /\ spell show_coeff (show_generator rng names fuel) text = Some s.
Proof.
  intros H [N HN]. destruct (spell_returns A show_coeff rng names text H) as (s & M & Hs). exists s, M. split; [|apply Hs, le_n]. exists (Nat.max N M). intros n Hn. unfold print_string. rewrite (HN n ltac:(lia)). cbn [andthen]. rewrite (Hs n ltac:(lia)). reflexivity.
Qed.

(** More steps do not change what is written. *)
Lemma get_d_more rng x n m d : (n <= m)%nat -> num_get_d rng n x = Some d -> num_get_d rng m x = Some d.
Proof. intros H. unfold num_get_d. destruct (num_arf rng n x ARF_DOUBLE_PRECISION) as [a|] eqn:E; [|discriminate]. rewrite (num_arf_fuel rng x _ n m a H E). exact (fun K => K). Qed.
Lemma show_atom_more rng a n m s : (n <= m)%nat -> show_atom rng n a = Some s -> show_atom rng m a = Some s.
Proof.
  intros H. destruct a as [seed|i e seed]; cbn [show_atom]; unfold show_constrained, show_random.
  - destruct (num_get_d rng n (RAtom (ARandom seed))) as [d|] eqn:E; [|discriminate]. rewrite (get_d_more _ _ _ _ _ H E). exact (fun K => K).
  - destruct (num_get_d rng n (RAtom (ARandom seed))) as [d|] eqn:E; [|discriminate]. rewrite (get_d_more _ _ _ _ _ H E). cbn [option_map].
    destruct (num_get_d rng n (RAtom (AConstr i e seed))) as [d'|] eqn:E'; [|discriminate]. rewrite (get_d_more _ _ _ _ _ H E'). exact (fun K => K).
Qed.
Lemma show_num_more rng x n m s : (n <= m)%nat -> show_num rng n x = Some s -> show_num rng m x = Some s.
Proof.
  intros H. destruct x as [q|a|ms]; cbn [show_num]; [exact (fun K => K)|apply show_atom_more, H|]. revert s. induction ms as [|[a k] ms IH]; intros s; cbn [show_product]; [exact (fun K => K)|].
  destruct (show_atom rng n a) as [t|] eqn:E; [|discriminate]. rewrite (show_atom_more _ _ _ _ _ H E). destruct (show_product rng n ms) as [r|] eqn:Er; [|discriminate]. rewrite (IH r eq_refl). exact (fun K => K).
Qed.

(** * The theorems *)
(** A text denotes at most one number, if different random numbers are printed differently. *)
Theorem C108_unambiguous : forall rng names rho gs, told_apart rng names gs -> forall s u v,
  sum_text (printed_name rng names rho gs) s u -> sum_text (printed_name rng names rho gs) s v -> u = v.
Proof.
  intros rng names rho gs HT s u v. apply sum_unique.
  - intros t w (g & fuel & _ & W & N & E & _). exact (generator_name rng names fuel g t W N E).
  - intros t a b (g & n & Ig & Wg & Ng & Eg & ->) (h & m & Ih & Wh & Nh & Eh & ->). f_equal.
    apply (HT g h (Nat.max n m) t Ig Ih Ng Nh); [apply (show_num_more _ _ n); [lia|exact Eg]|apply (show_num_more _ _ m); [lia|exact Eh]].
Qed.
(** Integers and rational numbers are written exactly. *)
Theorem C108_integers : writes int_sem tt show_int.
Proof. exact int_writes. Qed.
Theorem C108_rationals : writes rat_sem tt show_rat.
Proof. exact rat_writes. Qed.

Lemma written A S (L : lawful A S) cltb (p : par A) (HC : orders S p cltb) show_coeff (HW : writes S p show_coeff) rng names rho gs fuel x l s :
  standard S p x -> incl (basis (emodule x)) gs -> Permutation (map (summand A cltb) (combine (basis (emodule x)) (coeffs x))) l ->
  spell show_coeff (show_generator rng names fuel) (pprint A cltb true l) = Some s -> sum_text (printed_name rng names rho gs) s (value S rho x).
Proof.
  intros (Wx & Px & Qx) Ix Pm E. unfold value. rewrite <- (psum_combine A S cltb rho). rewrite (psum_perm A S rho _ _ Pm).
  apply (sum_written A S L cltb p HC show_coeff HW rng names rho gs fuel); [|exact E]. rewrite Forall_forall. intros t Ht. apply (Permutation_in _ (Permutation_sym Pm)) in Ht. apply in_map_iff in Ht. destruct Ht as ([g c] & <- & K).
  destruct Wx as ((Wm & _) & Hl & Mx). rewrite Px in Mx. rewrite Forall_forall in Wm, Mx. pose proof (in_combine_l _ _ _ _ K) as Ig. pose proof (in_combine_r _ _ _ _ K) as Ic. split; [exact (Mx c Ic)|].
  split; [exact (Ix g Ig)|]. split; [exact (Wm g Ig)|]. intros R1. destruct g as [q| |]; try destruct R1. cbn [summand pgen fst snd]. rewrite (Qx q Ig). reflexivity.
Qed.

Lemma sorted_permutation A S mag_up garb carb cltb (p : par A) rho l : (forall g h, In g l -> In h l -> gen_val rho g = gen_val rho h -> g = h) ->
  (forall g h, In g l -> In h l -> exists c, eventually (fun n => lt_elem mag_up garb carb n (lone A p g) (lone A p h)) (Ok c) /\ (c = true <-> (gen_val rho g < gen_val rho h)%R)) ->
  forall x, elem_wf S x -> mring (emodule x) = p -> incl (basis (emodule x)) l -> Permutation (map (summand A cltb) (combine (basis (emodule x)) (coeffs x))) (sorted_of A cltb rho x).
Proof.
  intros Inj Cmp x Wx Px Ix.
  destruct (eventually_pairs (fun n g h => exists c, lt_elem mag_up garb carb n (lone A p g) (lone A p h) = Some (Ok c) /\ (c = true <-> (gen_val rho g < gen_val rho h)%R)) (list_prod l l)) as [n HN].
  { intros g h K. apply in_prod_iff in K. destruct (Cmp g h (proj1 K) (proj2 K)) as (c & [M HM] & C). exists M. intros n Hn. exists c. split; [apply HM, Hn|exact C]. }
  destruct (print_spec A S mag_up garb carb cltb p rho _ Inj n (fun g h Hg Hh => HN n (le_n n) g h (in_prod _ _ _ _ Hg Hh)) x Wx Px Ix) as (_ & Pm & _). exact Pm.
Qed.

(** The text is a sum that denotes the element's value. *)
Theorem C108_denotes : forall A S, lawful A S -> forall mag_up, mag_up_ok mag_up -> mag_up_tight mag_up -> forall garb carb rho (p : par A) gs, independent S p rho gs ->
  forall cltb, orders S p cltb -> forall show_coeff, writes S p show_coeff -> forall rng names, (forall i, atom_ok rng (names i)) ->
  forall x, among S p gs x -> enclosing_balls S garb carb rho x -> shrinking_balls S garb carb x ->
  exists s, eventually (fun n => print_string mag_up garb carb cltb show_coeff rng names n x) (Ok s) /\ sum_text (printed_name rng names rho gs) s (value S rho x).
Proof.
  intros A S L mag_up Hm Ht garb carb rho p gs HI cltb HC show_coeff HW rng names HN x Ax Ex Sx. destruct (ideal_setting A S L mag_up Hm Ht garb carb rho p gs HI x x Ax Ax Ex Sx Ex Sx) as [Inj Cmp].
  assert (Ix : incl (basis (emodule x)) (basis (emodule x) ++ basis (emodule x))) by apply incl_appl, incl_refl.
  pose proof Ax as [(Wx & Px & _) _]. pose proof (print_eventually A S mag_up garb carb cltb p rho _ Inj Cmp x Wx Px Ix) as Pe.
  destruct (print_string_eventually A mag_up garb carb cltb show_coeff rng names x _ HN Pe) as (s & fuel & E & Sp). exists s. split; [exact E|].
  apply (written A S L cltb p HC show_coeff HW rng names rho gs fuel x _ s (proj1 Ax) (proj2 Ax) (sorted_permutation A S mag_up garb carb cltb p rho _ Inj Cmp x Wx Px Ix) Sp).
Qed.
(** With the balls of the code, if the generators are not extremely close to each other. *)
Theorem C108_denotes_code : forall A S, lawful A S -> forall mag_up, mag_up_ok mag_up -> mag_up_tight mag_up -> forall rng names rho garb carb (p : par A) cltb, orders S p cltb ->
  forall show_coeff, writes S p show_coeff -> (forall i, atom_ok rng (names i)) -> forall x, standard S p x -> code_setting S rng names rho garb carb x ->
  (forall g, In g (basis (emodule x)) -> gen_val rho g <> 0%R) -> (forall g h, In g (basis (emodule x)) -> In h (basis (emodule x)) -> g <> h -> apart rho g h) ->
  exists s, eventually (fun n => print_string mag_up garb carb cltb show_coeff rng names n x) (Ok s) /\ sum_text (printed_name rng names rho (basis (emodule x))) s (value S rho x).
Proof.
  intros A S L mag_up Hm Ht rng names rho garb carb p cltb HC show_coeff HW HN x Hx Cx Nz Ap. pose proof (proj1 (proj2 Hx)) as Px. subst p.
  destruct (code_comparisons A S L mag_up Hm Ht rng names garb carb rho x Hx Cx Nz Ap) as [Inj Cmp].
  pose proof (print_eventually A S mag_up garb carb cltb _ rho _ Inj Cmp x (proj1 Hx) eq_refl (incl_refl _)) as Pe.
  destruct (print_string_eventually A mag_up garb carb cltb show_coeff rng names x _ HN Pe) as (s & fuel & E & Sp). exists s. split; [exact E|].
  apply (written A S L cltb _ HC show_coeff HW rng names rho _ fuel x _ s Hx (incl_refl _) (sorted_permutation A S mag_up garb carb cltb _ rho _ Inj Cmp x (proj1 Hx) eq_refl (incl_refl _)) Sp).
Qed.
(** Elements that are == print the same characters; elements that are not == do not, if different random numbers are printed differently. *)
Theorem C108_same : forall A S, lawful A S -> forall mag_up, mag_up_ok mag_up -> mag_up_tight mag_up -> forall garb carb rho (p : par A) gs, independent S p rho gs ->
  forall cltb, orders S p cltb -> forall show_coeff, writes S p show_coeff -> forall rng names, (forall i, atom_ok rng (names i)) ->
  forall x y, among S p gs x -> among S p gs y ->
  enclosing_balls S garb carb rho x -> shrinking_balls S garb carb x -> enclosing_balls S garb carb rho y -> shrinking_balls S garb carb y ->
  exists s t, eventually (fun n => print_string mag_up garb carb cltb show_coeff rng names n x) (Ok s) /\ eventually (fun n => print_string mag_up garb carb cltb show_coeff rng names n y) (Ok t) /\
    (equal x y = Ok true -> s = t) /\ (told_apart rng names gs -> s = t -> equal x y = Ok true).
Proof.
  intros A S L mag_up Hm Ht garb carb rho p gs HI cltb HC show_coeff HW rng names HN x y Ax Ay Ex Sx Ey Sy.
  destruct (C108_denotes A S L mag_up Hm Ht garb carb rho p gs HI cltb HC show_coeff HW rng names HN x Ax Ex Sx) as (s & Es & Vs).
  destruct (C108_denotes A S L mag_up Hm Ht garb carb rho p gs HI cltb HC show_coeff HW rng names HN y Ay Ey Sy) as (t & Et & Vt).
  exists s, t. split; [exact Es|]. split; [exact Et|]. split.
  - intros E. destruct (C77_same_text A S L mag_up Hm Ht garb carb rho p gs HI cltb HC x y Ax Ay Ex Sx Ey Sy) as (a & b & [Na Ha] & [Nb Hb] & [_ T]). specialize (T E). subst b.
    destruct Es as [N1 H1], Et as [N2 H2]. set (n := Nat.max (Nat.max Na Nb) (Nat.max N1 N2)). specialize (H1 n ltac:(unfold n; lia)). specialize (H2 n ltac:(unfold n; lia)). unfold print_string in H1, H2.
    rewrite (Ha n ltac:(unfold n; lia)) in H1. rewrite (Hb n ltac:(unfold n; lia)) in H2. rewrite H1 in H2. injection H2 as E2. exact E2.
  - intros HT E. subst t. pose proof (C108_unambiguous rng names rho gs HT s _ _ Vs Vt) as V.
    destruct (C32_elements A S L mag_up Hm Ht garb carb rho p gs HI x y Ax Ay Ex Sx Ey Sy) as (c & e & c' & _ & E2 & _ & _ & V2 & _). rewrite E2. f_equal. apply V2, V.
Qed.

(** The condition on names is needed: 1 * x and 1 * y for two different random numbers x and y, whose seeds are among the first 1200 of a
    process, are not == but print the same. *)
Definition same_name (i : Z) : atom := ARandom (if Z.eqb i 1 then 1743 else 2512).
Definition only (i : Z) : elem int_ring := mkElem (A := int_ring) (mkModule (A := int_ring) [GAtom i] tt) [1%Z].
Lemma name_1743 : show_num rand48 100 (RAtom (ARandom 1743)) = Some "ℝ(0.7873…)". Proof. c48. Qed.
Lemma name_2512 : show_num rand48 100 (RAtom (ARandom 2512)) = Some "ℝ(0.7873…)". Proof. c48. Qed.
Lemma name_42 : show_num rand48 100 (RAtom (ARandom 42)) = Some "ℝ(0.518976…)". Proof. c48. Qed.
Lemma generator_atom names i seed fuel n s : names i = ARandom seed -> show_num rand48 fuel (RAtom (ARandom seed)) = Some s -> (fuel <= n)%nat -> show_generator rand48 names n (GAtom i) = Some s.
Proof. intros E H Hn. unfold show_generator. cbn [rnum_of]. rewrite E. apply (show_num_more _ _ fuel); assumption. Qed.
Lemma same_name_text i n : (100 <= n)%nat -> show_generator rand48 same_name n (GAtom i) = Some "ℝ(0.7873…)".
Proof.
  intros Hn. destruct (Z.eqb i 1) eqn:E.
  - apply (generator_atom same_name i 1743 100 n _); [unfold same_name; rewrite E; reflexivity|exact name_1743|exact Hn].
  - apply (generator_atom same_name i 2512 100 n _); [unfold same_name; rewrite E; reflexivity|exact name_2512|exact Hn].
Qed.
Lemma print_only mag_up garb carb n i : print (A := int_ring) mag_up garb carb Z.ltb n (only i) = Some (Ok [@TGen (car int_ring) (GAtom i)]).
Proof. reflexivity. Qed.
Lemma string_only mag_up garb carb n i : (100 <= n)%nat -> print_string (A := int_ring) mag_up garb carb Z.ltb show_int rand48 same_name n (only i) = Some (Ok "ℝ(0.7873…)").
Proof. intros Hn. unfold print_string. rewrite print_only. cbn [andthen spell spell_token]. rewrite (same_name_text i n Hn). reflexivity. Qed.
Theorem C108_collision_refuted : (forall i, atom_ok rand48 (same_name i)) /\ elem_wf int_sem (only 1) /\ elem_wf int_sem (only 2) /\ equal (only 1) (only 2) = Ok false /\
  forall mag_up garb carb, exists s, eventually (fun n => print_string (A := int_ring) mag_up garb carb Z.ltb show_int rand48 same_name n (only 1)) (Ok s) /\
    eventually (fun n => print_string (A := int_ring) mag_up garb carb Z.ltb show_int rand48 same_name n (only 2)) (Ok s).
Proof.
  split; [intros i; apply rand48_nonzero|]. split; [apply (lone_wf int_ring int_sem int_lawful tt); cbn; lia|]. split; [apply (lone_wf int_ring int_sem int_lawful tt); cbn; lia|]. split; [reflexivity|].
  intros mag_up garb carb. exists "ℝ(0.7873…)". split; exists 100%nat; intros n Hn; apply string_only, Hn.
Qed.
(** A case: 3 + 2 x where x is the square root of two, under the name of the random number with seed 42. *)
Definition name42 (i : Z) : atom := ARandom 42.
Example C108_case : told_apart rand48 name42 gens2 /\ (forall i, atom_ok rand48 (name42 i)) /\
  eventually (fun n => print_string (A := int_ring) up30 (ideal_garb root2) int_arb Z.ltb show_int rand48 name42 n zx) (Ok "3 + 2*ℝ(0.518976…)").
Proof.
  split; [|split; [intros i; apply rand48_nonzero|]].
  - intros g h fuel s [<-|[<-|[]]] [<-|[<-|[]]] Ng Nh _ _; try reflexivity; exfalso; [apply Ng|apply Nh]; exact Logic.I.
  - destruct C77_case as (text & [N HN] & ->). exists (Nat.max N 100). intros n Hn. unfold print_string. rewrite (HN n ltac:(lia)). cbn [andthen spell spell_token].
    rewrite (generator_atom name42 1%Z 42 100 n _ eq_refl name_42 ltac:(lia)). reflexivity.
Qed.
Example C108_example : exists s, sum_text (printed_name rand48 name42 root2 gens2) s (3 + 2 * sqrt 2).
Proof.
  destruct (C108_denotes _ _ int_lawful up30 up30_ok up30_tight (ideal_garb root2) int_arb root2 tt gens2 independent2 Z.ltb int_orders show_int int_writes rand48 name42 (proj1 (proj2 C108_case)) zx zx_among (ex_enc zx) (ex_shr zx)) as (s & _ & V).
  rewrite zx_value in V. exists s. exact V.
Qed.
