(** Proofs about elements with machine integers as exponents. *)
From Coq Require Import ZArith QArith Qcanon Bool List Lia Permutation.
From Verif Require Import Gen SpecGen GenProofs Ring SpecRing Module Element SpecModule ModuleProofs ElementProofs Machine SpecMachine MachineProofs MachineElement SpecMachineElement.
Import ListNotations.
Open Scope Z_scope.

Definition fine (g : gen) : Prop := gen_wf g /\ small g.
Section Over.
  Variable over : Z -> option Z.
  Lemma deglex_fine g h : fine g -> fine h -> mdeglex over (stored g) (stored h) = Some (deglex g h).
  Proof.
    intros [Wg Sg] [Wh Sh]. rewrite (deglex_machine over g h Sg Sh). unfold deglex. destruct (deglex_opt_spec g h Wg Wh) as [[-> _]|[-> _]]; reflexivity.
  Qed.
  Lemma insert_machine g l : fine g -> Forall fine l -> minsert over (stored g) (map stored l) = Some (map stored (insert g l)).
  Proof.
    intros Fg. induction l as [|h l IH]; intros F; [reflexivity|]. inversion F as [|? ? Fh Fl]; subst. cbn [map minsert insert].
    rewrite (deglex_fine h g Fh Fg). destruct (deglex h g); [|reflexivity]. rewrite (IH Fl). reflexivity.
  Qed.
  Lemma sort_machine l : Forall fine l -> msort over (map stored l) = Some (map stored (gsort l)).
  Proof.
    induction l as [|g l IH]; intros F; [reflexivity|]. inversion F as [|? ? Fg Fl]; subst. cbn [map msort gsort]. rewrite (IH Fl).
    apply insert_machine; [exact Fg|]. apply (Permutation_Forall (gsort_perm l)). exact Fl.
  Qed.
  Lemma is_rational_machine g : mis_rational (stored g) = is_rational g. Proof. destruct g; reflexivity. Qed.
  Lemma check_machine l : mcheck (map stored l) = check l.
  Proof.
    induction l as [|g l IH]; [reflexivity|]. cbn [map mcheck check]. rewrite IH. f_equal. clear IH. induction l as [|h l IH]; [reflexivity|].
    cbn [map forallb]. rewrite IH, !is_rational_machine, stored_eqb. reflexivity.
  Qed.
  Lemma basis_machine l : forall r, mbasis_eqb (map stored l) (map stored r) = basis_eqb l r.
  Proof. induction l as [|g l IH]; intros [|h r]; try reflexivity. cbn [map mbasis_eqb basis_eqb]. rewrite stored_eqb, IH. reflexivity. Qed.
  Lemma has_machine l g : mhas_gen (map stored l) (stored g) = has_gen l g.
  Proof. unfold mhas_gen, has_gen. induction l as [|h l IH]; [reflexivity|]. cbn [map existsb]. rewrite stored_eqb, IH. reflexivity. Qed.
  Lemma append_machine l : forall b, mappend_missing (map stored b) (map stored l) = map stored (append_missing b l).
  Proof.
    induction l as [|g l IH]; intros b; [reflexivity|]. cbn [map mappend_missing append_missing]. rewrite has_machine, <- IH.
    destruct (has_gen b g); [reflexivity|]. rewrite map_app. reflexivity.
  Qed.
  Lemma append_fine l : forall b, Forall fine b -> Forall fine l -> Forall fine (append_missing b l).
  Proof.
    induction l as [|g l IH]; intros b Fb Fl; [exact Fb|]. inversion Fl; subst. cbn [append_missing]. apply IH; [|assumption].
    destruct (has_gen b g); [exact Fb|]. apply Forall_app. split; [exact Fb|]. constructor; auto.
  Qed.
  Lemma obind_stored {T U V W} (f : T -> V) (h : U -> W) (ma : outcome V) (a : result T) (mk : V -> outcome W) (k : T -> result U) :
    ma = stored_as f a -> (forall x, a = Ok x -> mk (f x) = stored_as h (k x)) -> obind ma mk = stored_as h (bind a k).
  Proof. intros -> H. destruct a as [x|e]; [apply H; reflexivity|reflexivity]. Qed.
  Lemma pure_stored {T U W} (h : U -> W) (a : result T) (mk : T -> outcome W) (k : T -> result U) :
    (forall x, a = Ok x -> mk x = stored_as h (k x)) -> obind_pure a mk = stored_as h (bind a k).
  Proof. intros H. destruct a as [x|e]; [apply H; reflexivity|reflexivity]. Qed.

  Context {A : ring}.
  Implicit Types M N : module A.
  Implicit Types x y : elem A.
  Definition fine_mod M : Prop := Forall fine (basis M).
  Definition fine_elem x : Prop := fine_mod (emodule x).
  Lemma make_machine b p : Forall fine b -> mmake over (map stored b) p = stored_as stored_module (make (A := A) b p).
  Proof. intros F. unfold mmake, make. rewrite (sort_machine b F), check_machine. destruct (check (gsort b)); reflexivity. Qed.
  Lemma make_fine b p M : Forall fine b -> make (A := A) b p = Ok M -> fine_mod M /\ mring M = p.
  Proof.
    intros F H. unfold make in H. destruct (check (gsort b)); [|discriminate]. injection H as <-. split; [|reflexivity].
    apply (Permutation_Forall (gsort_perm b)). exact F.
  Qed.
  Lemma submodule_machine M N : msubmodule (stored_module M) (stored_module N) = submodule M N.
  Proof.
    unfold msubmodule, submodule. cbn [stored_module mbasis]. induction (basis M) as [|g l IH]; [reflexivity|]. cbn [map forallb]. rewrite has_machine, IH. reflexivity.
  Qed.
  Lemma module_eqb_machine M N : mmodule_eqb (stored_module M) (stored_module N) = module_eqb M N.
  Proof. unfold mmodule_eqb, module_eqb. cbn [stored_module mbasis mmring]. rewrite basis_machine. reflexivity. Qed.
  Lemma span_same_machine M N : fine_mod M -> fine_mod N -> mspan_same over (stored_module M) (stored_module N) = stored_as stored_module (span_same M N).
  Proof.
    intros FM FN. unfold mspan_same, span_same. rewrite !submodule_machine. destruct (submodule N M); [reflexivity|]. destruct (submodule M N); [reflexivity|].
    cbn [stored_module mbasis mmring]. rewrite append_machine. apply make_machine. apply append_fine; assumption.
  Qed.
  Lemma span_same_fine M N K : fine_mod M -> fine_mod N -> span_same M N = Ok K -> fine_mod K.
  Proof.
    intros FM FN H. unfold span_same in H. destruct (submodule N M); [injection H as <-; exact FM|]. destruct (submodule M N); [injection H as <-; exact FN|].
    refine (proj1 (make_fine _ _ K _ H)). apply append_fine; assumption.
  Qed.
  Lemma span_machine M N : fine_mod M -> fine_mod N -> mspan over (stored_module M) (stored_module N) = stored_as stored_module (span M N) /\ (forall K, span M N = Ok K -> fine_mod K).
  Proof.
    intros FM FN. unfold mspan, span. cbn [stored_module mbasis mmring]. destruct (basis M) as [|g l] eqn:EM; cbn [map].
    { split; [reflexivity|]. intros K [= <-]. exact FN. }
    destruct (basis N) as [|h r] eqn:EN; cbn [map].
    { split; [reflexivity|]. intros K [= <-]. exact FM. }
    rewrite <- EM, <- EN. change (stored g :: map stored l) with (map stored (g :: l)). change (stored h :: map stored r) with (map stored (h :: r)). rewrite <- EM, <- EN.
    destruct (par_eqb (mring M) (mring N)); [split; [apply span_same_machine; assumption|intros K; apply span_same_fine; assumption]|]. split.
    - apply pure_stored. intros p _. apply (obind_stored stored_module stored_module); [apply make_machine, FM|]. intros M' E1. apply (obind_stored stored_module stored_module); [apply make_machine, FN|]. intros N' E2.
      apply span_same_machine; [exact (proj1 (make_fine _ _ _ FM E1))|exact (proj1 (make_fine _ _ _ FN E2))].
    - intros K. destruct (compositum (mring M) (mring N)) as [p|]; [|discriminate]. cbn [bind]. destruct (make (basis M) p) as [M'|] eqn:E1; [|discriminate]. cbn [bind].
      destruct (make (basis N) p) as [N'|] eqn:E2; [|discriminate]. cbn [bind]. apply span_same_fine; [exact (proj1 (make_fine _ _ _ FM E1))|exact (proj1 (make_fine _ _ _ FN E2))].
  Qed.

  Lemma promote_loop_machine theirs : forall ours cs p, Forall fine theirs -> Forall fine ours ->
    mpromote_loop over (map stored theirs) (map stored ours) cs p = stored_as (fun l => l) (promote_loop (A := A) theirs ours cs p).
  Proof.
    induction theirs as [|t ts IH]; intros ours cs p Ft Fo.
    - cbn [map mpromote_loop promote_loop]. rewrite map_length. fold (@cz A). destruct (forallb _ _); reflexivity.
    - inversion Ft as [|? ? Ht Hts]; subst. revert cs. induction ours as [|g gs IHo]; intros cs; cbn [map mpromote_loop promote_loop].
      + apply (obind_stored (fun l => l) (fun l => l)); [apply (IH [] [] p Hts (Forall_nil _))|]. intros r _. reflexivity.
      + inversion Fo as [|? ? Hg Hgs]; subst. destruct cs as [|c cs].
        * apply (obind_stored (fun l => l) (fun l => l)); [apply (IH [] [] p Hts (Forall_nil _))|]. intros r _. reflexivity.
        * rewrite stored_eqb. destruct (gen_eqb g t).
          { apply pure_stored. intros c' _. apply (obind_stored (fun l => l) (fun l => l)); [apply (IH gs cs p Hts Hgs)|]. intros r _. reflexivity. }
          rewrite (deglex_fine g t Hg Ht). destruct (deglex g t).
          { exact (IHo Hgs cs). }
          apply (obind_stored (fun l => l) (fun l => l)); [exact (IH (g :: gs) (c :: cs) p Hts Fo)|]. intros r _. reflexivity.
  Qed.
  Lemma nonzero_machine x : mnonzero (stored_elem x) = nonzero x. Proof. reflexivity. Qed.
  Lemma promote_machine x M : fine_elem x -> fine_mod M -> mpromote over (stored_elem x) (stored_module M) = stored_as stored_elem (promote x M).
  Proof.
    intros Fx FM. unfold mpromote, promote. rewrite nonzero_machine. cbn [stored_elem mmod]. rewrite module_eqb_machine. destruct (module_eqb _ _); [reflexivity|].
    destruct (nonzero x); cbn [negb].
    - apply (obind_stored (fun l => l) stored_elem); [apply (promote_loop_machine _ _ _ _ FM Fx)|]. intros cs _. reflexivity.
    - unfold zero_of, stored_elem, rank. cbn [emodule coeffs stored_module mbasis]. rewrite map_length. reflexivity.
  Qed.
  Lemma promote_in x M y : promote x M = Ok y -> emodule y = M \/ y = x /\ module_eqb (emodule x) M = true.
  Proof.
    unfold promote. destruct (module_eqb _ _); [intros [= <-]; right; auto|]. destruct (negb _); [intros [= <-]; left; reflexivity|].
    destruct (promote_loop _ _ _ _) as [l|]; [|discriminate]. intros [= <-]. left. reflexivity.
  Qed.
  Lemma promote_fine x M y : fine_elem x -> fine_mod M -> promote x M = Ok y -> fine_elem y.
  Proof. intros Fx FM H. apply promote_in in H as [E|[-> _]]; [unfold fine_elem; rewrite E; exact FM|exact Fx]. Qed.
  Lemma common_machine x y : fine_elem x -> fine_elem y ->
    mcommon over (stored_elem x) (stored_elem y) = stored_as (fun p => (stored_elem (fst p), stored_elem (snd p))) (common x y).
  Proof.
    intros Fx Fy. unfold mcommon, common. cbn [stored_elem mmod]. rewrite module_eqb_machine. destruct (module_eqb _ _); [reflexivity|].
    destruct (span_machine _ _ Fx Fy) as [E FK].
    apply (obind_stored stored_module (fun p => (stored_elem (fst p), stored_elem (snd p)))); [exact E|]. intros M EM. specialize (FK M EM).
    apply (obind_stored stored_elem (fun p => (stored_elem (fst p), stored_elem (snd p)))); [exact (promote_machine x M Fx FK)|]. intros x' _.
    apply (obind_stored stored_elem (fun p => (stored_elem (fst p), stored_elem (snd p)))); [exact (promote_machine y M Fy FK)|]. intros y' _. reflexivity.
  Qed.
  Lemma add_coeffs_machine (l r : list (car A)) : madd_coeffs l r = add_coeffs l r.
  Proof. reflexivity. Qed.
  Lemma add_machine x y : fine_elem x -> fine_elem y -> madd over (stored_elem x) (stored_elem y) = stored_as stored_elem (add x y).
  Proof.
    intros Fx Fy. unfold madd, add. apply (obind_stored (fun p => (stored_elem (fst p), stored_elem (snd p))) stored_elem); [apply common_machine; assumption|].
    intros [x' y'] _. cbn [fst snd stored_elem mmod mcoeffs]. rewrite add_coeffs_machine. reflexivity.
  Qed.
  Lemma sub_machine_elem x y : fine_elem x -> fine_elem y -> msub over (stored_elem x) (stored_elem y) = stored_as stored_elem (sub x y).
  Proof. intros Fx Fy. exact (add_machine x (opp y) Fx Fy). Qed.

  Definition spair (p : gen * car A) : mgen * car A := (stored (fst p), snd p).
  Definition fine_pairs (l : list (gen * car A)) : Prop := Forall (fun p => fine (fst p)) l.
  Lemma accumulate_machine g v (l : list (gen * car A)) : maccumulate (stored g) v (map spair l) = map spair (accumulate g v l).
  Proof.
    induction l as [|[h w] l IH]; [reflexivity|]. cbn [map maccumulate accumulate spair fst snd]. rewrite stored_eqb. destruct (gen_eqb h g); [reflexivity|].
    rewrite IH. reflexivity.
  Qed.
  Lemma accumulate_fine g v (l : list (gen * car A)) : fine g -> fine_pairs l -> fine_pairs (accumulate g v l).
  Proof.
    intros Fg. induction l as [|[h w] l IH]; intros F; cbn [accumulate]; [constructor; auto; constructor|]. inversion F; subst. destruct (gen_eqb h g); constructor; auto. apply IH; assumption.
  Qed.
  Lemma mul_fine g h k : fine g -> fine h -> Z.of_nat (degree g + degree h) <= 2 ^ 31 - 1 -> gen_mul g h = Ok k -> fine k.
  Proof.
    intros [Wg _] [Wh _] D E. destruct (gen_mul_correct g h k Wg Wh E) as [Wk _]. split; [exact Wk|]. destruct (gen_mul_expo g h k Wg Wh E) as (_ & Dk & _).
    unfold small. rewrite Dk. exact D.
  Qed.
  Lemma gen_mul_stored g h : fine g -> fine h -> Z.of_nat (degree g + degree h) <= 2 ^ 31 - 1 -> mgen_mul over (stored g) (stored h) = stored_as stored (gen_mul g h).
  Proof.
    intros Fg Fh D. rewrite (mul_machine over g h (proj1 Fg) (proj1 Fh)); [destruct (gen_mul g h); reflexivity|].
    intros z E. apply small_storable. exact (proj2 (mul_fine g h z Fg Fh D E)).
  Qed.
  Definition low_pairs (l r : list (gen * car A)) : Prop := forall p q, In p l -> In q r -> Z.of_nat (degree (fst p) + degree (fst q)) <= 2 ^ 31 - 1.
  Lemma mul_row_machine g c r : fine g -> fine_pairs r -> low_pairs [(g, c)] r -> forall acc, fine_pairs acc ->
    mmul_row over (stored g) c (map spair r) (map spair acc) = stored_as (map spair) (mul_row g c r acc) /\ (forall l, mul_row g c r acc = Ok l -> fine_pairs l).
  Proof.
    intros Fg. induction r as [|[h d] r IH]; intros Fr Lo acc Fa; cbn [map mmul_row mul_row spair fst snd].
    - split; [reflexivity|]. intros l [= <-]. exact Fa.
    - inversion Fr as [|? ? Fh Fr']; subst. cbn [fst] in Fh. assert (D : Z.of_nat (degree g + degree h) <= 2 ^ 31 - 1) by exact (Lo (g, c) (h, d) (or_introl eq_refl) (or_introl eq_refl)).
      assert (Lo' : low_pairs [(g, c)] r) by (intros p q Ip Iq; apply Lo; [exact Ip|right; exact Iq]).
      rewrite (gen_mul_stored g h Fg Fh D). destruct (gen_mul g h) as [k|e] eqn:E; cbn [bind].
      + change (obind (stored_as stored (Ok k)) (fun gh => mmul_row over (stored g) c (map spair r) (maccumulate gh (cmul c d) (map spair acc)))) with (mmul_row over (stored g) c (map spair r) (maccumulate (stored k) (cmul c d) (map spair acc))).
        rewrite accumulate_machine. apply (IH Fr' Lo'). apply accumulate_fine; [exact (mul_fine g h k Fg Fh D E)|exact Fa].
      + split; [reflexivity|discriminate].
  Qed.
  Lemma mul_rows_machine r : fine_pairs r -> forall l, fine_pairs l -> low_pairs l r -> forall acc, fine_pairs acc ->
    mmul_rows over (map spair l) (map spair r) (map spair acc) = stored_as (map spair) (mul_rows l r acc) /\ (forall z, mul_rows l r acc = Ok z -> fine_pairs z).
  Proof.
    intros Fr. induction l as [|[g c] l IH]; intros Fl Lo acc Fa; cbn [map mmul_rows mul_rows spair fst snd].
    - split; [reflexivity|]. intros z [= <-]. exact Fa.
    - inversion Fl as [|? ? Fg Fl']; subst. cbn [fst] in Fg.
      destruct (mul_row_machine g c r Fg Fr (fun p q Ip Iq => Lo p q (match Ip with or_introl E => or_introl E | or_intror F => False_ind _ F end) Iq) acc Fa) as [E F].
      destruct (mul_row g c r acc) as [acc'|e]; cbn [bind].
      + rewrite E. cbn [stored_as obind]. apply (IH Fl'); [|apply F; reflexivity]. intros p q Ip Iq. apply Lo; [right; exact Ip|exact Iq].
      + rewrite E. split; [reflexivity|discriminate].
  Qed.
  Lemma insert_pair_machine (x : gen * car A) l : fine (fst x) -> fine_pairs l -> minsert_pair over (spair x) (map spair l) = Some (map spair (insert_pair x l)).
  Proof.
    intros Fx. induction l as [|y l IH]; intros F; [reflexivity|]. inversion F as [|? ? Fy Fl]; subst. cbn [map minsert_pair insert_pair]. cbn [spair fst].
    rewrite (deglex_fine _ _ Fy Fx). destruct (deglex (fst y) (fst x)); [|reflexivity]. fold (spair x). rewrite (IH Fl). reflexivity.
  Qed.
  Lemma insert_pair_fine (x : gen * car A) l : fine (fst x) -> fine_pairs l -> fine_pairs (insert_pair x l).
  Proof.
    intros Fx. induction l as [|y l IH]; intros F; cbn [insert_pair]; [constructor; auto|]. inversion F; subst. destruct (deglex _ _); [|constructor; auto]. constructor; [assumption|apply IH; assumption].
  Qed.
  Lemma sort_pairs_machine (l : list (gen * car A)) : fine_pairs l -> msort_pairs over (map spair l) = Some (map spair (sort_pairs l)) /\ fine_pairs (sort_pairs l).
  Proof.
    induction l as [|x l IH]; intros F; [split; [reflexivity|constructor]|]. inversion F as [|? ? Fx Fl]; subst. destruct (IH Fl) as [E F']. cbn [map msort_pairs sort_pairs].
    rewrite E. split; [apply insert_pair_machine; assumption|apply insert_pair_fine; assumption].
  Qed.
  Lemma combine_machine gs : forall cs : list (car A), combine (map stored gs) cs = map spair (combine gs cs).
  Proof. induction gs as [|g gs IH]; intros [|c cs]; try reflexivity. cbn. rewrite IH. reflexivity. Qed.
  Lemma combine_fine gs : forall cs : list (car A), Forall fine gs -> fine_pairs (combine gs cs).
  Proof. induction gs as [|g gs IH]; intros [|c cs] F; try constructor; inversion F; subst; [assumption|apply IH; assumption]. Qed.
  Lemma fst_spair l : map fst (map spair l) = map stored (map fst l).
  Proof. rewrite !map_map. reflexivity. Qed.
  Lemma mul_same_machine x y : fine_elem x -> fine_elem y -> low_product x y -> mmul_same over (stored_elem x) (stored_elem y) = stored_as stored_elem (mul_same x y).
  Proof.
    intros Fx Fy Lo. unfold mmul_same, mul_same. cbn [stored_elem mmod mcoeffs stored_module mbasis mmring]. rewrite !combine_machine.
    assert (Lo' : low_pairs (combine (basis (emodule x)) (coeffs x)) (combine (basis (emodule y)) (coeffs y))).
    { intros [g c] [h d] Ip Iq. apply Lo; [exact (in_combine_l _ _ _ _ Ip)|exact (in_combine_l _ _ _ _ Iq)]. }
    destruct (mul_rows_machine _ (combine_fine _ (coeffs y) Fy) _ (combine_fine _ (coeffs x) Fx) Lo' [] (Forall_nil _)) as [E F].
    apply (obind_stored (map spair) stored_elem); [exact E|]. intros z Ez. specialize (F z Ez). destruct (sort_pairs_machine z F) as [E2 F2]. rewrite E2, fst_spair.
    assert (F3 : Forall fine (map fst (sort_pairs z))) by (apply Forall_map; exact F2).
    apply (obind_stored stored_module stored_elem); [apply make_machine; exact F3|]. intros M _. cbn [stored_module mbasis]. rewrite basis_machine. destruct (basis_eqb _ _); [|reflexivity].
    unfold stored_as, stored_elem. cbn [emodule coeffs]. rewrite map_map. reflexivity.
  Qed.
  Lemma mul_machine_elem x y : fine_elem x -> fine_elem y -> low_product x y -> mmul over (stored_elem x) (stored_elem y) = stored_as stored_elem (mul x y).
  Proof.
    intros Fx Fy Lo. unfold mmul, mul. rewrite !nonzero_machine. destruct (negb (nonzero x)); [reflexivity|]. destruct (negb (nonzero y)); [reflexivity|].
    cbn [stored_elem mmod stored_module mmring mbasis]. destruct (par_eqb _ _); [apply mul_same_machine; assumption|].
    apply pure_stored. intros p _. apply (obind_stored stored_module stored_elem); [apply make_machine; exact Fx|]. intros M EM. destruct (make_fine _ _ _ Fx EM) as [FM _].
    apply (obind_stored stored_elem stored_elem); [exact (promote_machine x M Fx FM)|]. intros x' Ex.
    apply (obind_stored stored_module stored_elem); [apply make_machine; exact Fy|]. intros N EN. destruct (make_fine _ _ _ Fy EN) as [FN _].
    apply (obind_stored stored_elem stored_elem); [exact (promote_machine y N Fy FN)|]. intros y' Ey.
    assert (Sub : forall b q (K : module A) (z z' : elem A), make b q = Ok K -> promote z K = Ok z' -> basis (emodule z) = b -> forall g, In g (basis (emodule z')) -> In g b).
    { intros b q K z z' HK Hz Hb g Ig. apply promote_in in Hz as [E|[-> _]]; [|rewrite <- Hb; exact Ig]. rewrite E in Ig. unfold make in HK. destruct (check _); [|discriminate]. injection HK as <-. cbn [basis] in Ig.
      apply (Permutation_in g (Permutation_sym (gsort_perm b))). exact Ig. }
    apply mul_same_machine; [exact (promote_fine x M x' Fx FM Ex)|exact (promote_fine y N y' Fy FN Ey)|].
    intros g h Ig Ih. apply Lo; [exact (Sub _ _ _ _ _ EM Ex eq_refl g Ig)|exact (Sub _ _ _ _ _ EN Ey eq_refl h Ih)].
  Qed.
  Lemma mul_real_machine x g : fine_elem x -> fine g -> (forall h, In h (basis (emodule x)) -> Z.of_nat (degree h + degree g) <= 2 ^ 31 - 1) ->
    mmul_real over (stored_elem x) (stored g) = stored_as stored_elem (mul_real x g).
  Proof.
    intros Fx Fg Lo. unfold mmul_real, mul_real. cbn [stored_elem mmod stored_module mmring]. change [stored g] with (map stored [g]).
    apply (obind_stored stored_module stored_elem); [apply make_machine; constructor; auto|]. intros M EM. unfold make in EM. cbn [gsort insert check forallb andb] in EM. injection EM as <-.
    unfold module_gen, rank. cbn [basis length]. cbn [Z.leb Z.ltb Z.compare andb bind]. apply (mul_machine_elem x (mkElem (mkModule [g] (mring (emodule x))) [cone A]) Fx); [constructor; auto|].
    intros h k Ih [<-|[]]. apply Lo. exact Ih.
  Qed.
  Lemma equal_machine x y : fine_elem x -> fine_elem y -> mequal over (stored_elem x) (stored_elem y) = stored_as (fun b => b) (equal x y).
  Proof.
    intros Fx Fy. unfold mequal, equal. apply (obind_stored (fun p => (stored_elem (fst p), stored_elem (snd p))) (fun b : bool => b)); [apply common_machine; assumption|].
    intros [x' y'] _. reflexivity.
  Qed.
  Lemma filter_machine (l : list (gen * car A)) :
    map fst (filter (fun '(_, c) => negb (ceqb c (czero A))) (map spair l)) = map stored (map fst (filter (fun '(_, c) => negb (cz c)) l)).
  Proof. unfold cz. induction l as [|[g c] l IH]; [reflexivity|]. cbn [map filter spair fst snd]. destruct (negb (ceqb c (czero A))); [|exact IH]. cbn [map fst]. rewrite IH. reflexivity. Qed.
  Lemma filter_fine (l : list (gen * car A)) : fine_pairs l -> Forall fine (map fst (filter (fun '(_, c) => negb (cz c)) l)).
  Proof.
    intros F. apply Forall_map. apply Forall_forall. intros p Ip. apply filter_In in Ip. exact (proj1 (Forall_forall _ _) F p (proj1 Ip)).
  Qed.
  Lemma simplify_machine x : fine_elem x -> msimplify over (stored_elem x) = stored_as stored_elem (simplify x).
  Proof.
    intros Fx. unfold msimplify, simplify. cbn [stored_elem mmod mcoeffs stored_module mbasis mmring].
    change (forallb (fun c => negb (cz c)) (coeffs x)) with (forallb (fun c => negb (ceqb c (czero A))) (coeffs x)).
    destruct (forallb _ (coeffs x)); [reflexivity|].
    cbv zeta. unfold rank. rewrite combine_machine, filter_machine, !map_length.
    destruct (Nat.eqb _ _); [reflexivity|].
    pose proof (filter_fine _ (combine_fine _ (coeffs x) Fx)) as F.
    apply (obind_stored stored_module stored_elem); [apply make_machine; exact F|]. intros M EM. exact (promote_machine x M Fx (proj1 (make_fine _ _ _ F EM))).
  Qed.
End Over.

(** * Division *)
From Verif Require Import ElementProofs2 Leading Division DivisionProofs PropDivision.
Lemma precedes_degree g h : precedes g h -> (degree g <= degree h)%nat.
Proof. intros [[R _]|(_ & _ & [D|[D _]])]; [destruct g; try destruct R; cbn; lia|lia|lia]. Qed.
Section DivisionOver.
  Variable over : Z -> option Z.
  Variable A : ring.
  Variable S : semantics A.
  Hypothesis L : lawful A S.
  Implicit Types x y q r : elem A.
  Implicit Types p : par A.
  Definition half x : Prop := forall g, In g (basis (emodule x)) -> 2 * Z.of_nat (degree g) <= 2 ^ 31 - 1.

  Lemma rational_loop_machine gs : forall (cs : list (car A)) ret, mrational_loop (map stored gs) cs ret = rational_loop gs cs ret.
  Proof.
    induction gs as [|g gs IH]; intros [|c cs] ret; try reflexivity. cbn [map mrational_loop rational_loop]. unfold cz. rewrite IH.
    destruct (ceqb c (czero A)); [reflexivity|]. destruct g; cbn [stored]; try reflexivity. destruct (crational c); [apply IH|reflexivity].
  Qed.
  Lemma eq_integer_machine x n : meq_integer (stored_elem x) n = eq_integer x n.
  Proof. unfold meq_integer, eq_integer, eq_rational, to_rational. cbn [stored_elem stored_module mmod mbasis mcoeffs]. rewrite rational_loop_machine. reflexivity. Qed.
  Lemma leading_loop_machine gs : forall cs : list (car A), mleading_loop (map stored gs) cs = option_map (fun r : car A * gen => (fst r, stored (snd r))) (leading_loop gs cs).
  Proof.
    induction gs as [|g gs IH]; intros [|c cs]; try reflexivity. cbn [map mleading_loop leading_loop]. rewrite IH. destruct (leading_loop gs cs); [reflexivity|]. unfold cz.
    destruct (ceqb c (czero A)); reflexivity.
  Qed.
  Lemma leading_machine x : Some (mleading (stored_elem x)) = stored_as (fun r : car A * gen => (fst r, stored (snd r))) (leading x).
  Proof. unfold mleading, leading. cbn [stored_elem stored_module mmod mbasis mcoeffs]. rewrite leading_loop_machine. destruct (leading_loop _ _); reflexivity. Qed.
  Lemma monomial_machine c g p : fine g -> mmonomial over c (stored g) p = stored_as stored_elem (monomial c g p).
  Proof.
    intros F. unfold mmonomial, monomial. change [stored g] with (map stored [g]). apply (obind_stored stored_module stored_elem); [apply make_machine; constructor; auto|].
    intros M EM. unfold make in EM. cbn [gsort insert check forallb andb] in EM. injection EM as <-.
    unfold module_gen, rank. cbn [basis length]. cbn [Z.leb Z.compare andb]. change (0 <? Z.of_nat 1) with true. cbn [bind]. change (unit_vector A 1 (Z.to_nat 0)) with [cone A].
    unfold smul, imul_elem. cbn [scale coeffs emodule]. unfold obind_pure. destruct (imul (cone A) (SE c)); reflexivity.
  Qed.
  Lemma monomial_basis c g p x : monomial (A := A) c g p = Ok x -> basis (emodule x) = [g].
  Proof.
    unfold monomial, make. cbn [gsort insert check forallb andb bind]. unfold module_gen, rank. cbn [basis length]. cbn [Z.leb Z.compare andb]. change (0 <? Z.of_nat 1) with true. cbn [bind].
    change (unit_vector A 1 (Z.to_nat 0)) with [cone A]. unfold smul, imul_elem. cbn [scale coeffs emodule]. destruct (imul (cone A) (SE c)); [|discriminate]. intros [= <-]. reflexivity.
  Qed.
  Lemma standard_wf p x g : standard S p x -> In g (basis (emodule x)) -> gen_wf g.
  Proof. intros [[[W _] _] _]. apply (proj1 (Forall_forall _ _) W). Qed.
  Lemma fine_of p x : standard S p x -> (forall g, In g (basis (emodule x)) -> small g) -> fine_elem x.
  Proof. intros H1 H2. apply Forall_forall. intros g Ig. split; [exact (standard_wf p x g H1 Ig)|apply H2, Ig]. Qed.
  Definition st2 (z : elem A * elem A) : melem A * melem A := (stored_elem (fst z), stored_elem (snd z)).
  Lemma div_step_machine p y q r : standard S p y -> standard S p q -> standard S p r -> nonzero r = true -> nonzero y = true ->
    half y -> fine_elem q -> fine_elem r -> (forall g c, top A r g c -> 2 * Z.of_nat (degree g) <= 2 ^ 31 - 1) ->
    mdiv_step over p (stored_elem y) (stored_elem q) (stored_elem r) = stored_as (option_map st2) (div_step p y q r) /\
    (forall q' r', div_step p y q r = Ok (Some (q', r')) -> fine_elem q' /\ fine_elem r').
  Proof.
    intros Hy Hq Hr Nr Ny Dy Fq Fr Dr. unfold mdiv_step, div_step.
    destruct (leading_exists A S L r (proj1 Hr) Nr) as (a & g & Ea & Ta). destruct (leading_exists A S L y (proj1 Hy) Ny) as (b & h & Eb & Tb).
    unfold obind_pure. rewrite !leading_machine, Ea, Eb. cbn [stored_as obind bind fst snd].
    destruct (top_mem A S L r g a (proj1 Hr) Ta) as (Wg & Ig & Ma & Na). destruct (top_mem A S L y h b (proj1 Hy) Tb) as (Wh & Ih & Mb & Nb).
    rewrite (proj1 (proj2 Hr)) in Ma. rewrite (proj1 (proj2 Hy)) in Mb.
    assert (Fg : fine g) by (split; [exact Wg|]; unfold small; pose proof (Dr g a Ta); lia).
    assert (Fy : fine_elem y) by (apply (fine_of p y Hy); intros g' Ig'; unfold small; pose proof (Dy g' Ig'); lia).
    rewrite (div_machine over g h Wg (small_storable g (proj2 Fg))).
    destruct (gen_div g h) as [[k|]|e] eqn:Ek; cbn [stored_quotient option_map obind bind]; [|split; [reflexivity|discriminate]..].
    destruct (gen_div_sound g h k Wg Wh Ek) as [Wk Mk].
    destruct (negb (ceqb (cmul (cquo a b) b) a)) eqn:Ec; [destruct (isField A); split; (reflexivity || discriminate)|]. apply negb_false_iff in Ec. apply (L_eqb A S L) in Ec.
    destruct (L_quo A S L p a b Ma Mb Nb) as [Mc _]. set (c := cquo a b) in *.
    destruct (monomial_spec A S L p c k Wk (quotient_standard A S g h k p r y Hr Hy Ig Ih Wk Mk) Mc) as (m & Em & Hm & _ & _).
    pose proof (monomial_basis c k p m Em) as Bm.
    destruct (gen_mul_expo k h g Wk Wh Mk) as (_ & Dk & _).
    assert (Dk' : 2 * Z.of_nat (degree k) <= 2 ^ 31 - 1) by (pose proof (Dr g a Ta); lia).
    assert (Fk : fine k) by (split; [exact Wk|unfold small; lia]).
    rewrite (monomial_machine c k p Fk), Em. cbn [stored_as obind bind].
    assert (Fm : fine_elem m) by (unfold fine_elem, fine_mod; rewrite Bm; constructor; auto).
    rewrite (add_machine over q m Fq Fm). destruct (std_add A S L p q m Hq Hm) as (s & Es & Hs & _). rewrite Es. cbn [stored_as obind bind].
    assert (Lo : low_product m y).
    { intros k' h' Ik' Ih'. rewrite Bm in Ik'. destruct Ik' as [<-|[]]. pose proof (Dy h' Ih'). lia. }
    rewrite (mul_machine_elem over m y Fm Fy Lo). destruct (std_mul A S L p m y Hm Hy) as (t & Et & Ht & _). rewrite Et. cbn [stored_as obind bind].
    assert (Ft : fine_elem t).
    { destruct (nonzero m) eqn:Nm.
      - apply Forall_forall. intros w Iw. apply (proj2 (proj2 (mul_spec A S L m y t (proj1 Hm) (proj1 Hy) Et)) Nm Ny) in Iw. destruct Iw as (k' & h' & Ik' & Ih' & E).
        apply (mul_fine k' h' w); [exact (proj1 (Forall_forall _ _) Fm k' Ik')|exact (proj1 (Forall_forall _ _) Fy h' Ih')|exact (Lo k' h' Ik' Ih')|exact E].
      - unfold mul in Et. rewrite Nm in Et. cbn [negb] in Et. injection Et as <-. exact Fm. }
    rewrite (sub_machine_elem over r t Fr Ft). destruct (std_sub A S L p r t Hr Ht) as (u & Eu & Hu & _). rewrite Eu. cbn [stored_as obind bind].
    split; [reflexivity|]. intros q' r' [= <- <-]. split; apply Forall_forall; intros w Iw.
    - apply (add_spec A S L q m s (proj1 Hq) (proj1 Hm) Es) in Iw. destruct Iw as [Iw|Iw]; [exact (proj1 (Forall_forall _ _) Fq w Iw)|exact (proj1 (Forall_forall _ _) Fm w Iw)].
    - apply (sub_spec A S L r t u (proj1 Hr) (proj1 Ht) Eu) in Iw. destruct Iw as [Iw|Iw]; [exact (proj1 (Forall_forall _ _) Fr w Iw)|exact (proj1 (Forall_forall _ _) Ft w Iw)].
  Qed.
  Lemma div_loop_machine p y : standard S p y -> nonzero y = true -> half y -> forall fuel q r, standard S p q -> standard S p r -> fine_elem q -> fine_elem r ->
    (forall g c, top A r g c -> 2 * Z.of_nat (degree g) <= 2 ^ 31 - 1) ->
    mdiv_loop over fuel p (stored_elem y) (stored_elem q) (stored_elem r) = option_map (stored_as (option_map stored_elem)) (div_loop fuel p y q r).
  Proof.
    intros Hy Ny Dy. induction fuel as [|fuel IH]; intros q r Hq Hr Fq Fr Dr; [reflexivity|]. cbn [mdiv_loop div_loop]. rewrite nonzero_machine. destruct (nonzero r) eqn:Nr; [|reflexivity]. cbn [negb].
    destruct (div_step_machine p y q r Hy Hq Hr Nr Ny Dy Fq Fr Dr) as [E F]. rewrite E. destruct (div_step p y q r) as [[[q' r']|]|e] eqn:E'; [|reflexivity..]. cbn [stored_as option_map st2 fst snd].
    destruct (div_step_sound A S L p y q r q' r' Hy Hq Hr Nr Ny E') as (Hq' & Hr' & _ & D). destruct (F q' r' eq_refl) as [Fq' Fr'].
    apply (IH q' r' Hq' Hr' Fq' Fr'). intros g' c' T'. destruct (top_exists A S L r (proj1 Hr) Nr) as (g & c & T). destruct (D g c g' c' T T') as (_ & _ & P).
    pose proof (Dr g c T). pose proof (precedes_degree g' g P). lia.
  Qed.
  Lemma truediv_machine p fuel x y : standard S p x -> standard S p y -> half x -> half y ->
    mtruediv over fuel (stored_elem x) (stored_elem y) = option_map (stored_as (option_map stored_elem)) (truediv fuel x y).
  Proof.
    intros Hx Hy Dx Dy.
    assert (Fx : fine_elem x) by (apply (fine_of p x Hx); intros g Ig; unfold small; pose proof (Dx g Ig); lia).
    assert (Fy : fine_elem y) by (apply (fine_of p y Hy); intros g Ig; unfold small; pose proof (Dy g Ig); lia).
    unfold mtruediv, truediv. rewrite !eq_integer_machine. destruct (eq_integer y 0) eqn:E0; [reflexivity|]. destruct (eq_integer y 1) eqn:E1; [reflexivity|].
    rewrite (common_machine over x y Fx Fy). destruct (std_common A S L p x y Hx Hy) as (x' & y' & E & Hx' & Hy' & Vx & Vy). rewrite E. cbn [stored_as fst snd].
    destruct (common_spec A S L x y x' y' (proj1 Hx) (proj1 Hy) E) as (_ & _ & EM & G & _ & _).
    assert (Dx' : half x') by (intros g Ig; apply G in Ig; destruct Ig as [Ig|Ig]; [apply Dx, Ig|apply Dy, Ig]).
    assert (Dy' : half y') by (intros g Ig; rewrite <- EM in Ig; apply Dx', Ig).
    unfold mtruediv_same, truediv_same. rewrite !eq_integer_machine. destruct (eq_integer y' 0) eqn:F0; [reflexivity|]. destruct (eq_integer y' 1) eqn:F1; [reflexivity|].
    assert (Ny : nonzero y' = true) by exact (nonzero_standard A S L p y' Hy' F0).
    assert (Fx' : fine_elem x') by (apply (fine_of p x' Hx'); intros g Ig; unfold small; pose proof (Dx' g Ig); lia).
    replace (mkMElem (mmod (stored_elem x')) (repeat (czero A) (length (mbasis (mmod (stored_elem x')))))) with (stored_elem (zero_of (emodule x')))
      by (unfold stored_elem, zero_of, rank; cbn [emodule coeffs mmod stored_module mbasis]; rewrite map_length; reflexivity).
    cbn [stored_elem mmod stored_module mmring]. rewrite (proj1 (proj2 Hx')).
    apply (div_loop_machine p y' Hy' Ny Dy' fuel (zero_of (emodule x')) x' (proj1 (std_zero A S L p x' Hx')) Hx'); [exact Fx'|exact Fx'|].
    intros g c [I1 _]. apply Dx'. exact (in_combine_l _ _ _ _ I1).
  Qed.
End DivisionOver.
