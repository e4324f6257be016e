(** Proofs about printing elements. *)
From Coq Require Import ZArith QArith Qcanon Bool List Reals Qreals Lra Lia Permutation Sorting.Sorted.
From Verif Require Import Arf Arb Real SpecArf Gen SpecGen GenProofs Ring SpecRing Module Element SpecModule ModuleProofs ElementProofs
  ElementProofs2 Loops SpecLoops Print SpecPrint.
Import ListNotations.
Open Scope R_scope.

(** A sorted list is determined by its elements. *)
Lemma sorted_perm_eq (T : Type) (lt : T -> T -> Prop) : (forall a, ~ lt a a) -> (forall a b c, lt a b -> lt b c -> lt a c) ->
  forall l r, StronglySorted lt l -> StronglySorted lt r -> (forall a, In a l <-> In a r) -> l = r.
Proof.
  intros Irr Tr. induction l as [|a l IH]; intros r Hl Hr E.
  - destruct r as [|b r]; [reflexivity|]. destruct (proj2 (E b) (or_introl eq_refl)).
  - destruct r as [|b r]; [destruct (proj1 (E a) (or_introl eq_refl))|].
    inversion_clear Hl as [|? ? Sl Fl]. inversion_clear Hr as [|? ? Sr Fr]. rewrite Forall_forall in Fl, Fr.
    assert (a = b) as <-.
    { destruct (proj1 (E a) (or_introl eq_refl)) as [->|Ia]; [reflexivity|]. destruct (proj2 (E b) (or_introl eq_refl)) as [->|Ib]; [reflexivity|].
      destruct (Irr a). apply Tr with b; [apply Fl, Ib|apply Fr, Ia]. }
    f_equal. apply IH; [exact Sl|exact Sr|]. intros c. split; intros Hc.
    + destruct (proj1 (E c) (or_intror Hc)) as [<-|H]; [destruct (Irr a); apply Fl, Hc|exact H].
    + destruct (proj2 (E c) (or_intror Hc)) as [<-|H]; [destruct (Irr a); apply Fr, Hc|exact H].
Qed.

Section PrintProofs.
  Variable A : ring.
  Variable S : semantics A.
  Hypothesis L : lawful A S.
  Variable mag_up : arf -> arf.
  Variable garb : gen -> Z -> arb.
  Variable carb : car A -> Z -> arb.
  Variable cltb : car A -> car A -> bool.
  Variable p : par A.
  Hypothesis HC : orders S p cltb.
  Variable rho : Z -> R.
  Let v := gen_val rho.

  Definition lone (g : gen) : elem A := mkElem (mkModule [g] p) [cone A].
  Lemma lone_gen_ok g : lone_gen g p = Ok (lone g).
  Proof. reflexivity. Qed.

  Definition pterm : Type := bool * gen * car A.
  Definition full (t : pterm) : term (A := A) := let '(b, g, c) := t in (b, lone g, c).
  Definition pgen (t : pterm) : gen := snd (fst t).
  Definition pcoef (t : pterm) : car A := snd t.
  (** The order of the summands, for distinct generators. *)
  Definition plt (t u : pterm) : Prop := (fst (fst t) = false /\ fst (fst u) = true) \/ (fst (fst t) = fst (fst u) /\ v (pgen t) < v (pgen u)).
  Lemma plt_irrefl t : ~ plt t t.
  Proof. intros [[H1 H2]|[_ H]]; [congruence|lra]. Qed.
  Lemma plt_trans t u w : plt t u -> plt u w -> plt t w.
  Proof. unfold plt. intros [[H1 H2]|[H1 H2]] [[H3 H4]|[H3 H4]]; [congruence|left; split; congruence|left; split; congruence|right; split; [congruence|lra]]. Qed.

  Variable gs : list gen.
  Hypothesis Inj : forall g h, In g gs -> In h gs -> v g = v h -> g = h.
  Variable n : nat.
  Hypothesis Cmp : forall g h, In g gs -> In h gs -> exists c, lt_elem mag_up garb carb n (lone g) (lone h) = Some (Ok c) /\ (c = true <-> v g < v h).

  Definition pltb (t u : pterm) : bool :=
    if negb (fst (fst t)) && fst (fst u) then true else if fst (fst t) && negb (fst (fst u)) then false else if Rlt_dec (v (pgen t)) (v (pgen u)) then true else false.
  Fixpoint pins (t : pterm) (l : list pterm) : list pterm :=
    match l with [] => [t] | u :: l' => if pltb t u then t :: u :: l' else u :: pins t l' end.

  Lemma lt_answer g h : In g gs -> In h gs -> lt_elem mag_up garb carb n (lone g) (lone h) = Some (Ok (if Rlt_dec (v g) (v h) then true else false)).
  Proof.
    intros Hg Hh. destruct (Cmp g h Hg Hh) as (c & E & C). rewrite E. do 2 f_equal. destruct (Rlt_dec (v g) (v h)) as [H|H].
    - apply C, H.
    - destruct c; [|reflexivity]. destruct H. apply C. reflexivity.
  Qed.
  Lemma term_lt_full t u : In (pgen t) gs -> In (pgen u) gs -> pgen t <> pgen u -> term_lt mag_up garb carb cltb n (full t) (full u) = Some (Ok (pltb t u)).
  Proof.
    destruct t as [[b g] c], u as [[b' g'] c']. unfold pgen, pltb, term_lt, full, pgen. cbn [fst snd]. intros Hg Hg' D.
    destruct b, b'; cbn [negb andb]; try reflexivity; rewrite (lt_answer g g' Hg Hg'); cbn [andthen]; (destruct (Rlt_dec (v g) (v g')) as [H|H]; [reflexivity|]);
      rewrite (lt_answer g' g Hg' Hg); cbn [andthen]; (destruct (Rlt_dec (v g') (v g)) as [K|K]; [reflexivity|]); destruct D; apply Inj; [exact Hg|exact Hg'|lra|exact Hg|exact Hg'|lra].
  Qed.
  Lemma pltb_true t u : pltb t u = true <-> plt t u.
  Proof.
    unfold pltb, plt. destruct (fst (fst t)), (fst (fst u)); cbn [negb andb]; destruct (Rlt_dec (v (pgen t)) (v (pgen u))) as [H|H]; split; intros K; try reflexivity; try discriminate; auto;
      destruct K as [[K1 K2]|[K1 K2]]; try discriminate; contradiction.
  Qed.
  Lemma pltb_flip t u : In (pgen t) gs -> In (pgen u) gs -> pgen t <> pgen u -> pltb u t = negb (pltb t u).
  Proof.
    intros Ht Hu D. unfold pltb. destruct (fst (fst t)), (fst (fst u)); cbn [negb andb]; try reflexivity;
      (destruct (Rlt_dec (v (pgen t)) (v (pgen u))) as [H|H], (Rlt_dec (v (pgen u)) (v (pgen t))) as [K|K]; try reflexivity; exfalso; [lra|apply D, Inj; [exact Ht|exact Hu|lra]]).
  Qed.
  Lemma set_insert_full t l : In (pgen t) gs -> Forall (fun u => In (pgen u) gs) l -> ~ In (pgen t) (map pgen l) ->
    set_insert mag_up garb carb cltb n (full t) (map full l) = Some (Ok (map full (pins t l))).
  Proof.
    intros Ht. induction l as [|u l IH]; intros F N; [reflexivity|]. inversion_clear F as [|? ? Hu F']. cbn [map] in N. cbn [map set_insert pins].
    assert (D : pgen t <> pgen u) by (intros E; apply N; left; congruence).
    rewrite (term_lt_full t u Ht Hu D). cbn [andthen]. destruct (pltb t u) eqn:E; [reflexivity|].
    rewrite (term_lt_full u t Hu Ht (not_eq_sym D)). cbn [andthen]. rewrite (pltb_flip t u Ht Hu D), E. cbn [negb].
    rewrite IH; [reflexivity|exact F'|intros K; apply N; right; exact K].
  Qed.
  Lemma pins_perm t l : Permutation (t :: l) (pins t l).
  Proof.
    induction l as [|u l IH]; [apply Permutation_refl|]. cbn [pins]. destruct (pltb t u); [apply Permutation_refl|].
    eapply perm_trans; [apply perm_swap|]. apply perm_skip, IH.
  Qed.
  Lemma pins_sorted t l : In (pgen t) gs -> Forall (fun u => In (pgen u) gs) l -> ~ In (pgen t) (map pgen l) -> StronglySorted plt l -> StronglySorted plt (pins t l).
  Proof.
    intros Ht. induction l as [|u l IH]; intros F N H; [repeat constructor|]. inversion_clear F as [|? ? Hu F']. inversion_clear H as [|? ? Hs Hf]. cbn [map] in N. cbn [pins].
    assert (D : pgen t <> pgen u) by (intros E; apply N; left; congruence).
    destruct (pltb t u) eqn:E.
    - apply pltb_true in E. constructor; [constructor; assumption|]. constructor; [exact E|]. rewrite Forall_forall in *. intros w Hw. apply plt_trans with u; [exact E|apply Hf, Hw].
    - constructor; [apply IH; [exact F'|intros K; apply N; right; exact K|exact Hs]|]. rewrite Forall_forall in *. intros w Hw.
      apply (Permutation_in _ (Permutation_sym (pins_perm t l))) in Hw. destruct Hw as [<-|Hw]; [|apply Hf, Hw].
      apply pltb_true. rewrite (pltb_flip t u Ht Hu D), E. reflexivity.
  Qed.

  Definition summand (t : gen * car A) : pterm := (cltb (snd t) (czero A), fst t, snd t).
  Fixpoint pcollect (l : list (gen * car A)) (acc : list pterm) : list pterm :=
    match l with [] => acc | t :: l' => pcollect l' (pins (summand t) acc) end.
  Lemma pcollect_spec l : forall acc, NoDup (map pgen acc ++ map fst l) -> Forall (fun u => In (pgen u) gs) acc -> incl (map fst l) gs -> StronglySorted plt acc ->
    collect mag_up garb carb cltb n p (map fst l) (map snd l) (map full acc) = Some (Ok (map full (pcollect l acc))) /\
    Permutation (acc ++ map summand l) (pcollect l acc) /\ StronglySorted plt (pcollect l acc).
  Proof.
    induction l as [|[g c] l IH]; intros acc ND F I H.
    - cbn. rewrite app_nil_r. split; [reflexivity|]. split; [apply Permutation_refl|exact H].
    - cbn [map collect fst snd pcollect].
      assert (Hg : In (pgen (summand (g, c))) gs) by (apply I; left; reflexivity).
      assert (Ng : ~ In (pgen (summand (g, c))) (map pgen acc)).
      { intros K. cbn [map fst] in ND. apply NoDup_remove_2 in ND. apply ND, in_or_app. left. exact K. }
      pose proof (pins_perm (summand (g, c)) acc) as P.
      destruct (IH (pins (summand (g, c)) acc)) as (E & P' & H').
      + cbn [map fst] in ND. eapply Permutation_NoDup; [|exact ND]. eapply perm_trans; [apply Permutation_sym, Permutation_middle|].
        apply (Permutation_app_tail (map fst l) (Permutation_map pgen P)).
      + rewrite Forall_forall in *. intros u Hu. apply (Permutation_in _ (Permutation_sym P)) in Hu. destruct Hu as [<-|Hu]; [exact Hg|apply F, Hu].
      + intros h Hh. apply I. right. exact Hh.
      + apply pins_sorted; assumption.
      + split; [|split; [|exact H']].
        * rewrite lone_gen_ok. cbn [andthen]. change (cltb c (czero A), lone g, c) with (full (summand (g, c))). rewrite set_insert_full by assumption. cbn [andthen]. exact E.
        * eapply perm_trans; [|exact P']. eapply perm_trans; [apply Permutation_sym, Permutation_middle|].
          change (summand (g, c) :: acc ++ map summand l) with ((summand (g, c) :: acc) ++ map summand l). apply Permutation_app_tail, P.
  Qed.

  (** The loop that prints, for terms with bare generators. *)
  Fixpoint pprint (empty : bool) (l : list pterm) : list (token (car A)) :=
    match l with
    | [] => if empty then [TZero] else []
    | (_, g, c) :: l' =>
        if cz c then pprint empty l'
        else if cltb (czero A) c then (if empty then [] else [TPlus]) ++ print_term g c ++ pprint false l'
        else [if empty then TNeg else TMinus] ++ print_term g (copp c) ++ pprint false l'
    end.
  Lemma print_loop_full l : forall empty, print_loop cltb empty (map full l) = pprint empty l.
  Proof.
    induction l as [|[[b g] c] l IH]; intros empty; [reflexivity|]. cbn [map full print_loop pprint]. rewrite IH. cbn [lone emodule basis hd]. rewrite IH. reflexivity.
  Qed.
  Lemma pprint_filter l : forall empty, pprint empty (filter (fun t => negb (cz (pcoef t))) l) = pprint empty l.
  Proof.
    induction l as [|[[b g] c] l IH]; intros empty; [reflexivity|]. cbn [filter pcoef snd pprint]. destruct (cz c) eqn:E; cbn [negb]; [apply IH|]. cbn [pprint]. rewrite E, IH. reflexivity.
  Qed.

  (** Reading it. *)
  Section Reading.
    Variable sigma : Z -> R.
    Let w := gen_val sigma.
    Lemma gen_one : w (GRat 1) = 1.
    Proof. unfold w. cbn [gen_val]. unfold Q2R. cbn. lra. Qed.
    Lemma calc_term g c total sign rest : calculate S w true total sign 1 (print_term g c ++ rest) = calculate S w false total sign (val S c * w g) rest.
    Proof.
      unfold print_term. destruct (ceqb c (cone A)) eqn:E.
      - apply (L_eqb A S L) in E. subst c. cbn [app calculate]. rewrite (val_one A S L). reflexivity.
      - destruct (gen_eqb g (GRat 1)) eqn:G.
        + apply gen_eqb_eq in G. subst g. cbn [app calculate]. rewrite gen_one. f_equal. ring.
        + cbn [app calculate]. f_equal. ring.
    Qed.
    Fixpoint psum (l : list pterm) : R := match l with [] => 0 | t :: l' => val S (pcoef t) * w (pgen t) + psum l' end.
    Lemma calc_rest l : Forall (fun t => mem S p (pcoef t)) l -> forall total sign prod,
      calculate S w false total sign prod (pprint false l) = Some (total + sign * prod + psum l).
    Proof.
      induction l as [|[[b g] c] l IH]; intros F total sign prod.
      - cbn. f_equal. ring.
      - inversion_clear F as [|? ? Mc F']. cbn [pcoef snd] in Mc. cbn [pprint psum pcoef pgen fst snd]. destruct (cz c) eqn:E.
        + apply (cz_spec A S L) in E. subst c. rewrite IH by exact F'. rewrite (val_zero A S L). f_equal. ring.
        + destruct (cltb (czero A) c).
          * cbn [app calculate]. rewrite calc_term, IH by exact F'. f_equal. ring.
          * cbn [app calculate]. rewrite calc_term, IH by exact F'. rewrite (proj2 (L_opp A S L p c Mc)). f_equal. ring.
    Qed.
    Lemma reads_pprint l : Forall (fun t => mem S p (pcoef t)) l -> reads S sigma (pprint true l) = Some (psum l).
    Proof.
      induction l as [|[[b g] c] l IH]; intros F.
      - cbn. f_equal. ring.
      - inversion_clear F as [|? ? Mc F']. cbn [pcoef snd] in Mc. cbn [pprint psum pcoef pgen fst snd]. destruct (cz c) eqn:E.
        + apply (cz_spec A S L) in E. subst c. rewrite IH by exact F'. rewrite (val_zero A S L). f_equal. ring.
        + destruct (cltb (czero A) c).
          * cbn [app]. assert (R0 : forall d rest, reads S sigma (print_term g d ++ rest) = calculate S w true 0 1 1 (print_term g d ++ rest)).
            { intros d rest. unfold print_term. destruct (ceqb d (cone A)); reflexivity. }
            rewrite R0, calc_term, calc_rest by exact F'. f_equal. ring.
          * cbn [app reads]. fold w. rewrite calc_term, calc_rest by exact F'. rewrite (proj2 (L_opp A S L p c Mc)). f_equal. ring.
    Qed.
    Lemma psum_perm l r : Permutation l r -> psum l = psum r.
    Proof. induction 1; cbn [psum]; lra. Qed.
    Lemma psum_combine gs' cs : psum (map summand (combine gs' cs)) = combination S sigma gs' cs.
    Proof. revert cs. induction gs' as [|g gs' IH]; intros [|c cs]; cbn [combine map psum combination]; try reflexivity. rewrite IH. reflexivity. Qed.
  End Reading.

  (** The summands of an element that are printed, in order. *)
  Definition sorted_of (x : elem A) : list pterm := pcollect (combine (basis (emodule x)) (coeffs x)) [].
  Lemma map_snd_combine (l : list gen) : forall cs : list (car A), length cs = length l -> map snd (combine l cs) = cs.
  Proof. induction l as [|g l IH]; intros [|c cs] H; cbn in *; try discriminate; [reflexivity|]. f_equal. apply IH. lia. Qed.
  Lemma ascending_nodup l : ascending l -> NoDup l.
  Proof.
    induction l as [|g l IH]; intros H; constructor; destruct H as [H1 H2]; [|apply IH, H2]. intros K. apply (precedes_irrefl g), H1, K.
  Qed.
  Lemma print_spec x : elem_wf S x -> mring (emodule x) = p -> incl (basis (emodule x)) gs ->
    print mag_up garb carb cltb n x = Some (Ok (pprint true (sorted_of x))) /\
    Permutation (map summand (combine (basis (emodule x)) (coeffs x))) (sorted_of x) /\ StronglySorted plt (sorted_of x).
  Proof.
    intros (WM & Hl & Hm) Hp I. unfold sorted_of. destruct (pcollect_spec (combine (basis (emodule x)) (coeffs x)) []) as (E & P & H).
    - cbn [map app]. rewrite map_fst_combine by exact Hl. apply ascending_nodup, (proj2 WM).
    - constructor.
    - rewrite map_fst_combine by exact Hl. exact I.
    - constructor.
    - rewrite map_fst_combine, map_snd_combine in E by exact Hl. cbn [map] in E. unfold print. rewrite Hp, E. cbn [andthen]. rewrite print_loop_full. auto.
  Qed.
  Lemma sorted_mem x : elem_wf S x -> mring (emodule x) = p -> incl (basis (emodule x)) gs -> Forall (fun t => mem S p (pcoef t)) (sorted_of x).
  Proof.
    intros W Hp I. destruct (print_spec x W Hp I) as (_ & P & _). destruct W as (_ & _ & Hm). rewrite Hp in Hm. rewrite Forall_forall in *. intros t Ht. apply (Permutation_in _ (Permutation_sym P)) in Ht.
    apply in_map_iff in Ht. destruct Ht as ([g c] & <- & K). apply Hm. apply in_combine_r in K. exact K.
  Qed.
  Lemma print_reads x sigma : elem_wf S x -> mring (emodule x) = p -> incl (basis (emodule x)) gs -> reads S sigma (pprint true (sorted_of x)) = Some (value S sigma x).
  Proof.
    intros W Hp I. rewrite reads_pprint by (apply sorted_mem; assumption). f_equal. destruct (print_spec x W Hp I) as (_ & P & _).
    rewrite <- (psum_perm sigma _ _ P). apply psum_combine.
  Qed.

  (** Elements that are == have the same summands. *)
  Lemma equal_summands x y g c : elem_wf S x -> elem_wf S y -> mring (emodule x) = p -> mring (emodule y) = p -> (forall u, evalv A S u x = evalv A S u y) ->
    c <> czero A -> In (g, c) (combine (basis (emodule x)) (coeffs x)) -> In (g, c) (combine (basis (emodule y)) (coeffs y)).
  Proof.
    intros Wx Wy Px Py E Nc H. destruct Wx as (Mx & Lx & Cx), Wy as (My & Ly & Cy). rewrite Px in Cx. rewrite Py in Cy.
    assert (Mc : mem S p c) by (rewrite Forall_forall in Cx; apply Cx; apply in_combine_r in H; exact H).
    specialize (E (fun h => if gen_eqb h g then 1 else 0)). unfold evalv in E.
    rewrite (comb_indicator_in A S _ _ g c (ascending_nodup _ (proj2 Mx)) H) in E.
    destruct (in_dec_gen g (basis (emodule y))) as [Iy|Iy].
    - destruct (In_nth_error _ _ Iy) as [i Hi]. assert (Hd : exists d, nth_error (coeffs y) i = Some d).
      { destruct (nth_error (coeffs y) i) as [d|] eqn:Ed; [eauto|]. apply nth_error_None in Ed. exfalso. assert ((i < length (basis (emodule y)))%nat) by (apply nth_error_Some; congruence). lia. }
      destruct Hd as [d Hd]. assert (K : In (g, d) (combine (basis (emodule y)) (coeffs y))).
      { clear -Hi Hd. revert Hi Hd. generalize (coeffs y). generalize (basis (emodule y)). induction i as [|i IH]; intros [|h l] [|e cs]; cbn; intros; try discriminate.
        - left. congruence.
        - right. apply IH; assumption. }
      rewrite (comb_indicator_in A S _ _ g d (ascending_nodup _ (proj2 My)) K) in E.
      assert (c = d); [|congruence]. apply (L_inj A S L p); [exact Mc| |exact E]. rewrite Forall_forall in Cy. apply Cy. apply in_combine_r in K. exact K.
    - rewrite (comb_indicator A S _ _ g Iy) in E. destruct Nc. apply (val_zero_iff A S L p c Mc). exact E.
  Qed.
  Lemma sorted_filter (f : pterm -> bool) l : StronglySorted plt l -> StronglySorted plt (filter f l).
  Proof.
    induction 1 as [|t l H IH F]; [constructor|]. cbn [filter]. destruct (f t); [|exact IH]. constructor; [exact IH|]. rewrite Forall_forall in *. intros u Hu. apply filter_In in Hu. apply F, Hu.
  Qed.
  Lemma equal_same_text x y : elem_wf S x -> elem_wf S y -> mring (emodule x) = p -> mring (emodule y) = p -> incl (basis (emodule x)) gs -> incl (basis (emodule y)) gs ->
    equal x y = Ok true -> pprint true (sorted_of x) = pprint true (sorted_of y).
  Proof.
    intros Wx Wy Px Py Ix Iy E. assert (V : forall u, evalv A S u x = evalv A S u y) by (apply (proj1 (equal_spec A S L x y true Wx Wy E) eq_refl)).
    rewrite <- (pprint_filter (sorted_of x)), <- (pprint_filter (sorted_of y)). f_equal.
    destruct (print_spec x Wx Px Ix) as (_ & Rx & Sx), (print_spec y Wy Py Iy) as (_ & Ry & Sy).
    apply (sorted_perm_eq pterm plt plt_irrefl plt_trans); [apply sorted_filter, Sx|apply sorted_filter, Sy|].
    assert (T : forall x y : elem A, elem_wf S x -> elem_wf S y -> mring (emodule x) = p -> mring (emodule y) = p -> (forall u, evalv A S u x = evalv A S u y) ->
      Permutation (map summand (combine (basis (emodule x)) (coeffs x))) (sorted_of x) -> Permutation (map summand (combine (basis (emodule y)) (coeffs y))) (sorted_of y) ->
      forall t, In t (filter (fun t => negb (cz (pcoef t))) (sorted_of x)) -> In t (filter (fun t => negb (cz (pcoef t))) (sorted_of y))).
    { clear -L. intros x y Wx Wy Px Py V Rx Ry t Ht. apply filter_In in Ht. destruct Ht as [Ht Nz]. apply filter_In. split; [|exact Nz].
      apply (Permutation_in _ (Permutation_sym Rx)) in Ht. apply in_map_iff in Ht. destruct Ht as ([g c] & <- & K). apply (Permutation_in _ Ry). apply in_map.
      apply (equal_summands x y g c); try assumption. cbn in Nz. apply negb_true_iff in Nz. apply (cz_false A S L). exact Nz. }
    intros t. split; apply T; try assumption. intros u. symmetry. apply V.
  Qed.
End PrintProofs.
