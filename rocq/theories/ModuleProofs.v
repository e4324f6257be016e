From Coq Require Import ZArith QArith Qcanon Bool List Reals Permutation Lia.
From Verif Require Import Gen SpecGen GenProofs Ring SpecRing Module SpecModule.
Import ListNotations.

Lemma precedes_deglex x y : gen_wf x -> gen_wf y -> (deglex x y = true <-> precedes x y).
Proof. apply deglex_spec. Qed.
Lemma precedes_trans x y z : precedes x y -> precedes y z -> precedes x z.
Proof. apply before_trans. Qed.
Lemma precedes_irrefl x : ~ precedes x x.
Proof. apply before_irrefl. Qed.
Lemma precedes_asym x y : precedes x y -> precedes y x -> False.
Proof. intros H G. apply (precedes_irrefl x). apply (precedes_trans x y x); assumption. Qed.
Lemma precedes_total x y : gen_wf x -> gen_wf y -> x <> y -> ~ (rational x /\ rational y) -> precedes x y \/ precedes y x.
Proof. intros Hx Hy H R. destruct (deglex_total x y Hx Hy H R) as [E|E]; [left|right]; apply precedes_deglex; assumption. Qed.

Lemma insert_perm g l : Permutation (g :: l) (insert g l).
Proof.
  induction l as [|h l IH]; cbn; [apply Permutation_refl|].
  destruct (deglex h g); [|apply Permutation_refl].
  apply (Permutation_trans (perm_swap h g l)). constructor. exact IH.
Qed.
Lemma gsort_perm l : Permutation l (gsort l).
Proof.
  induction l as [|g l IH]; cbn; [apply Permutation_refl|].
  apply (Permutation_trans (l' := g :: gsort l)); [constructor; exact IH|apply insert_perm].
Qed.

(** Distinct with at most one rational. *)
Definition compatible (l : list gen) : Prop :=
  ForallOrdPairs (fun g h => g <> h /\ ~ (rational g /\ rational h)) l.
Lemma compatible_perm l r : Permutation l r -> compatible l -> compatible r.
Proof.
  intros P. induction P as [|g l r P IH|g h l|l m r P1 IH1 P2 IH2]; intros H.
  - exact H.
  - inversion H as [|? ? Hg Hl]; subst. constructor; [|apply IH, Hl]. apply (Permutation_Forall P), Hg.
  - inversion H as [|? ? Hg Hl]; subst. inversion Hl as [|? ? Hh Hl']; subst. inversion Hg as [|? ? Hgh Hg']; subst.
    constructor; [|constructor; assumption]. constructor; [|exact Hh]. destruct Hgh as [X Y]. split; [congruence|]. intros [R1 R2]. apply Y. auto.
  - auto.
Qed.
Lemma check_spec l : check l = true <-> compatible l.
Proof.
  induction l as [|g l IH]; cbn; [split; [constructor|reflexivity]|].
  rewrite andb_true_iff, IH, forallb_forall. split.
  - intros [H1 H2]. constructor; [|exact H2]. apply Forall_forall. intros h Hh. specialize (H1 h Hh).
    apply andb_true_iff in H1. destruct H1 as [A B]. apply negb_true_iff in A, B. split.
    + apply gen_eqb_neq, B.
    + intros [R1 R2]. apply is_rational_spec in R1, R2. rewrite R1, R2 in A. discriminate.
  - intros H. inversion H as [|? ? Hg Hl]; subst. split; [|exact Hl]. intros h Hh.
    pose proof (proj1 (Forall_forall _ _) Hg h Hh) as [A B]. apply andb_true_iff. split; apply negb_true_iff.
    + destruct (is_rational g) eqn:E1; [|reflexivity]. destruct (is_rational h) eqn:E2; [|reflexivity]. exfalso. apply B. split; apply is_rational_spec; assumption.
    + apply gen_eqb_neq, A.
Qed.

Lemma insert_ascending g l : gen_wf g -> Forall gen_wf l -> compatible (g :: l) -> ascending l -> ascending (insert g l).
Proof.
  intros Hg. induction l as [|h l IH]; intros Hl Hc Ha; cbn; [split; [intros ? []|exact I]|].
  inversion Hl as [|? ? Hh Hl']; subst. destruct Ha as [Hp Ha]. inversion Hc as [|? ? Hgc Hlc]; subst. inversion Hgc as [|? ? Hgh Hg']; subst.
  inversion Hlc as [|? ? Hhc Hlc']; subst.
  destruct (deglex h g) eqn:E.
  - apply precedes_deglex in E; [|assumption|assumption]. split.
    + intros k Hk. apply (Permutation_in k (Permutation_sym (insert_perm g l))) in Hk. destruct Hk as [->|Hk]; [exact E|apply Hp, Hk].
    + apply IH; [exact Hl'| |exact Ha]. constructor; assumption.
  - assert (P : precedes g h).
    { destruct Hgh as [A B]. destruct (precedes_total g h Hg Hh A B) as [P|P]; [exact P|]. apply precedes_deglex in P; [congruence|assumption|assumption]. }
    split; [|split; assumption]. intros k [->|Hk]; [exact P|]. apply (precedes_trans g h k P). apply Hp, Hk.
Qed.
Lemma gsort_ascending l : Forall gen_wf l -> compatible l -> ascending (gsort l).
Proof.
  induction l as [|g l IH]; intros Hl Hc; cbn; [exact I|].
  inversion Hl; subst. inversion Hc; subst. apply insert_ascending; [assumption| | |apply IH; assumption].
  - apply (Permutation_Forall (gsort_perm l)). assumption.
  - apply (compatible_perm (g :: l)); [constructor; apply gsort_perm|exact Hc].
Qed.
Lemma ascending_compatible l : ascending l -> compatible l.
Proof.
  induction l as [|g l IH]; intros H; [constructor|]. destruct H as [H1 H2]. constructor; [|apply IH, H2].
  apply Forall_forall. intros h Hh. specialize (H1 h Hh). split.
  - intros ->. apply (precedes_irrefl h H1).
  - intros [R1 R2]. destruct H1 as [[_ N]|[N _]]; contradiction.
Qed.
(** There is only one way to sort compatible generators. *)
Lemma sorted_unique l : forall r, ascending l -> ascending r -> Permutation l r -> l = r.
Proof.
  induction l as [|g l IH]; intros r Hl Hr P.
  - symmetry. apply Permutation_nil, P.
  - destruct r as [|h r]; [exfalso; apply (Permutation_nil_cons (Permutation_sym P))|].
    destruct Hl as [Hl1 Hl2], Hr as [Hr1 Hr2].
    assert (g = h).
    { assert (I1 : In g (h :: r)) by (apply (Permutation_in g P); left; reflexivity).
      assert (I2 : In h (g :: l)) by (apply (Permutation_in h (Permutation_sym P)); left; reflexivity).
      destruct I1 as [->|I1]; [reflexivity|]. destruct I2 as [->|I2]; [reflexivity|].
      exfalso. apply (precedes_asym g h); auto. }
    subst h. f_equal. apply IH; [assumption|assumption|]. apply (Permutation_cons_inv P).
Qed.
Lemma gsort_unique l r : Forall gen_wf l -> compatible l -> ascending r -> Permutation l r -> gsort l = r.
Proof.
  intros Hl Hc Hr P. apply sorted_unique; [apply gsort_ascending; assumption|exact Hr|].
  apply (Permutation_trans (Permutation_sym (gsort_perm l)) P).
Qed.
Lemma gsort_id l : Forall gen_wf l -> ascending l -> gsort l = l.
Proof. intros H Ha. apply gsort_unique; [exact H|apply ascending_compatible, Ha|exact Ha|apply Permutation_refl]. Qed.

Lemma compatible_not_dependent l : compatible l <-> ~ obviously_dependent l.
Proof.
  split.
  - intros H (i & j & g & h & Hij & Hi & Hj & E).
    assert (W : forall i j g h, (i < j)%nat -> nth_error l i = Some g -> nth_error l j = Some h -> g <> h /\ ~ (rational g /\ rational h)).
    { clear -H. induction H as [|k l Hk Hl IH]; intros i j g h Hij Hi Hj; [destruct i; discriminate|].
      destruct j as [|j]; [lia|]. destruct i as [|i]; cbn in Hi, Hj.
      - injection Hi as <-. apply (proj1 (Forall_forall _ _) Hk h). apply (nth_error_In l j Hj).
      - apply (IH i j g h); [lia|assumption|assumption]. }
    destruct (Nat.lt_trichotomy i j) as [L|[->|L]]; [|contradiction|].
    + destruct (W i j g h L Hi Hj) as [A B]. tauto.
    + destruct (W j i h g L Hj Hi) as [A B]. destruct E as [->|[E1 E2]]; [apply A; reflexivity|apply B; auto].
  - induction l as [|g l IH]; intros H; [constructor|]. constructor.
    + apply Forall_forall. intros h Hh. apply In_nth_error in Hh. destruct Hh as [n Hn]. split.
      * intros E. apply H. exists O, (S n), g, h. cbn. repeat split; auto.
      * intros E. apply H. exists O, (S n), g, h. cbn. repeat split; auto.
    + apply IH. intros (i & j & a & b & Hij & Hi & Hj & E). apply H. exists (S i), (S j), a, b. cbn. repeat split; auto.
Qed.

Lemma basis_eqb_spec l : forall r, basis_eqb l r = true <-> l = r.
Proof.
  induction l as [|g l IH]; intros [|h r]; cbn; try (split; [discriminate|discriminate]); [tauto|].
  rewrite andb_true_iff, gen_eqb_eq, IH. split; [intros [-> ->]; reflexivity|]. intros [= -> ->]. auto.
Qed.
Lemma has_gen_spec l g : has_gen l g = true <-> In g l.
Proof.
  unfold has_gen. rewrite existsb_exists. split.
  - intros (h & Hh & E). apply gen_eqb_eq in E. subst h. exact Hh.
  - intros H. exists g. split; [exact H|apply gen_eqb_refl].
Qed.
Lemma append_missing_in b l g : In g (append_missing b l) <-> In g b \/ In g l.
Proof.
  revert b. induction l as [|h l IH]; intros b; cbn; [tauto|]. rewrite IH. destruct (has_gen b h) eqn:E.
  - apply has_gen_spec in E. split; [intros [H|H]; auto|]. intros [H|[<-|H]]; auto.
  - rewrite in_app_iff. cbn. tauto.
Qed.
Lemma append_missing_wf b l : Forall gen_wf b -> Forall gen_wf l -> Forall gen_wf (append_missing b l).
Proof.
  intros Hb Hl. apply Forall_forall. intros g H. apply append_missing_in in H.
  destruct H as [H|H]; [apply (proj1 (Forall_forall _ _) Hb g H)|apply (proj1 (Forall_forall _ _) Hl g H)].
Qed.
Lemma append_missing_nodup b l : NoDup b -> NoDup (append_missing b l).
Proof.
  revert b. induction l as [|h l IH]; intros b Hb; cbn; [exact Hb|]. apply IH. destruct (has_gen b h) eqn:E; [exact Hb|].
  apply (Permutation_NoDup (l := h :: b)); [apply Permutation_cons_append|]. constructor; [|exact Hb]. rewrite <- has_gen_spec. congruence.
Qed.
Lemma compatible_nodup l : compatible l <-> NoDup l /\ (forall g h, In g l -> In h l -> rational g -> rational h -> g = h).
Proof.
  induction l as [|g l IH]; [split; [intros _; split; [constructor|intros ? ? []]|constructor]|]. split.
  - intros H. inversion H as [|? ? Hg Hl]; subst. apply IH in Hl. destruct Hl as [Hn Hr].
    pose proof (proj1 (Forall_forall _ _) Hg) as F. split.
    + constructor; [|exact Hn]. intros I. apply (proj1 (F g I)). reflexivity.
    + intros a b [<-|Ha] [<-|Hb] Ra Rb; [reflexivity| | |apply Hr; assumption].
      * exfalso. apply (proj2 (F b Hb)). auto.
      * exfalso. apply (proj2 (F a Ha)). auto.
  - intros [Hn Hr]. inversion Hn as [|? ? Hg Hl]; subst. constructor.
    + apply Forall_forall. intros h Hh. split; [intros <-; contradiction|]. intros [R1 R2]. apply Hg.
      rewrite (Hr g h); auto; [left; reflexivity|right; exact Hh].
    + apply IH. split; [exact Hl|]. intros a b Ha Hb. apply Hr; right; assumption.
Qed.
Lemma ascending_NoDup l : ascending l -> NoDup l.
Proof. intros H. apply ascending_compatible, compatible_nodup in H. apply H. Qed.

Section Proofs.
  Variable A : ring.
  Variable S : semantics A.
  Hypothesis L : lawful A S.
  Implicit Types M N : module A.

  Lemma module_eqb_spec M N : module_eqb M N = true <-> M = N.
  Proof.
    unfold module_eqb. destruct M as [b p], N as [c q]. cbn. rewrite andb_true_iff, basis_eqb_spec, (L_par_eqb A S L).
    split; [intros [-> ->]; reflexivity|]. intros [= -> ->]. auto.
  Qed.
  Lemma module_eqb_refl M : module_eqb M M = true.
  Proof. apply module_eqb_spec. reflexivity. Qed.

  (** * make *)
  Lemma make_ok b (p : par A) M : Forall gen_wf b -> make b p = Ok M ->
    module_wf M /\ mring M = p /\ Permutation b (basis M) /\ compatible b.
  Proof.
    intros Hb H. unfold make in H. destruct (check (gsort b)) eqn:E; [|discriminate]. injection H as <-. cbn.
    apply check_spec in E. apply (compatible_perm _ b) in E; [|apply Permutation_sym, gsort_perm].
    split; [|split; [reflexivity|split; [apply gsort_perm|exact E]]]. split; cbn.
    - apply (Permutation_Forall (gsort_perm b)), Hb.
    - apply gsort_ascending; assumption.
  Qed.
  Lemma make_succeeds b (p : par A) : compatible b -> make b p = Ok (mkModule (gsort b) p).
  Proof.
    intros H. unfold make. assert (check (gsort b) = true) as ->; [|reflexivity].
    apply check_spec. apply (compatible_perm b); [apply gsort_perm|exact H].
  Qed.
  Lemma make_throws b (p : par A) : (exists e, make b p = Err e) <-> obviously_dependent b.
  Proof.
    unfold make. destruct (check (gsort b)) eqn:E.
    - apply check_spec in E. apply (compatible_perm _ b) in E; [|apply Permutation_sym, gsort_perm]. apply compatible_not_dependent in E.
      split; [intros [e H]; discriminate|contradiction].
    - split; [|intros _; exists LogicError; reflexivity]. intros _.
      destruct (Classical_Prop.classic (obviously_dependent b)) as [H|H]; [exact H|]. exfalso.
      apply compatible_not_dependent in H. apply (compatible_perm _ _ (gsort_perm b)), check_spec in H. congruence.
  Qed.
  Lemma make_permutation b c (p : par A) : Forall gen_wf b -> Permutation b c -> make b p = make c p.
  Proof.
    intros Hb P. unfold make. destruct (check (gsort b)) eqn:E.
    - apply check_spec in E. apply (compatible_perm _ b) in E; [|apply Permutation_sym, gsort_perm].
      assert (gsort b = gsort c) as G.
      { apply gsort_unique; [exact Hb|exact E| |apply (Permutation_trans P), gsort_perm].
        apply gsort_ascending; [apply (Permutation_Forall P), Hb|apply (compatible_perm _ _ P), E]. }
      rewrite <- G. assert (check (gsort b) = true) as ->; [|reflexivity]. apply check_spec, (compatible_perm b); [apply gsort_perm|exact E].
    - destruct (check (gsort c)) eqn:F; [|reflexivity]. exfalso. apply check_spec in F.
      apply (compatible_perm _ (gsort b)) in F; [apply check_spec in F; congruence|].
      apply (Permutation_trans (Permutation_sym (gsort_perm c))). apply (Permutation_trans (Permutation_sym P)), gsort_perm.
  Qed.
  Lemma make_id M : module_wf M -> make (basis M) (mring M) = Ok M.
  Proof.
    intros [H1 H2]. unfold make. rewrite (gsort_id (basis M) H1 H2).
    assert (check (basis M) = true) as -> by (apply check_spec, ascending_compatible, H2). destruct M; reflexivity.
  Qed.
  Lemma make_other M (p : par A) : module_wf M -> make (basis M) p = Ok (mkModule (basis M) p).
  Proof. intros H. exact (make_id (mkModule (basis M) p) H). Qed.

  (** * span *)
  Lemma submodule_spec M N : submodule M N = true <-> incl (basis M) (basis N).
  Proof.
    unfold submodule. rewrite forallb_forall. split; intros H g Hg; apply has_gen_spec; auto.

  Qed.
  Lemma span_same_spec M N P : module_wf M -> module_wf N -> mring M = mring N -> span_same M N = Ok P ->
    module_wf P /\ mring P = mring M /\ (forall g, In g (basis P) <-> In g (basis M) \/ In g (basis N)).
  Proof.
    intros HM HN E H. unfold span_same in H. destruct (submodule N M) eqn:E1.
    { injection H as <-. apply submodule_spec in E1. split; [exact HM|]. split; [reflexivity|]. intros g. split; [auto|]. intros [G|G]; [exact G|apply E1, G]. }
    destruct (submodule M N) eqn:E2.
    { injection H as <-. apply submodule_spec in E2. split; [exact HN|]. split; [symmetry; exact E|]. intros g. split; [auto|]. intros [G|G]; [apply E2, G|exact G]. }
    apply make_ok in H; [|apply append_missing_wf; [apply HM|apply HN]]. destruct H as (W & R & P' & _). split; [exact W|]. split; [exact R|].
    intros g. rewrite <- append_missing_in. split; intros G.
    - apply (Permutation_in g (Permutation_sym P')), G.
    - apply (Permutation_in g P'), G.
  Qed.
  Lemma span_same_succeeds M N : module_wf M -> module_wf N ->
    (forall g h, In g (basis M) -> In h (basis N) -> rational g -> rational h -> g = h) -> exists P, span_same M N = Ok P.
  Proof.
    intros [HM1 HM2] [HN1 HN2] R. unfold span_same. destruct (submodule N M); [eauto|]. destruct (submodule M N); [eauto|].
    apply ascending_compatible, compatible_nodup in HM2, HN2. destruct HM2 as [M1 M2], HN2 as [N1 N2].
    rewrite make_succeeds; [eauto|]. apply compatible_nodup. split; [apply append_missing_nodup, M1|].
    intros g h Hg Hh Rg Rh. apply append_missing_in in Hg, Hh. destruct Hg as [Hg|Hg], Hh as [Hh|Hh].
    - apply M2; assumption.
    - apply R; assumption.
    - symmetry. apply R; assumption.
    - apply N2; assumption.
  Qed.

  (** The field of the span. *)
  Definition span_ring M N (p : par A) : Prop :=
    match basis M, basis N with
    | [], _ => p = mring N
    | _, [] => p = mring M
    | _, _ => (mring M = mring N /\ p = mring M) \/ (mring M <> mring N /\ compositum (mring M) (mring N) = Ok p)
    end.
  Lemma span_spec M N P : module_wf M -> module_wf N -> span M N = Ok P ->
    module_wf P /\ span_ring M N (mring P) /\ (forall g, In g (basis P) <-> In g (basis M) \/ In g (basis N)).
  Proof.
    intros HM HN H. unfold span in H. unfold span_ring.
    destruct (basis M) as [|g0 bM] eqn:EM.
    { injection H as <-. split; [exact HN|]. split; [reflexivity|]. cbn. tauto. }
    destruct (basis N) as [|h0 bN] eqn:EN.
    { injection H as <-. split; [exact HM|]. split; [reflexivity|]. rewrite EM. cbn. tauto. }
    rewrite <- EM, <- EN in *. clear EM EN.
    destruct (par_eqb (mring M) (mring N)) eqn:E.
    - apply (L_par_eqb A S L) in E. destruct (span_same_spec M N P HM HN E H) as (W & R & G). split; [exact W|]. split; [left; auto|exact G].
    - assert (E' : mring M <> mring N) by (intros F; apply (L_par_eqb A S L) in F; congruence).
      destruct (compositum (mring M) (mring N)) as [p|] eqn:C; [|discriminate]. cbn in H.
      rewrite (make_other M p HM), (make_other N p HN) in H. cbn in H.
      destruct (span_same_spec _ _ P (HM : module_wf (mkModule (basis M) p)) (HN : module_wf (mkModule (basis N) p)) eq_refl H) as (W & R & G).
      cbn in R. split; [exact W|]. split; [right; split; [exact E'|rewrite R; reflexivity]|exact G].
  Qed.
  Lemma span_succeeds M N : module_wf M -> module_wf N ->
    (forall g h, In g (basis M) -> In h (basis N) -> rational g -> rational h -> g = h) ->
    (basis M = [] \/ basis N = [] \/ mring M = mring N \/ exists p, compositum (mring M) (mring N) = Ok p) -> exists P, span M N = Ok P.
  Proof.
    intros HM HN R C. unfold span.
    destruct (basis M) as [|g0 bM] eqn:EM; [eauto|]. destruct (basis N) as [|h0 bN] eqn:EN; [eauto|].
    rewrite <- EM, <- EN in *. assert (EM' : basis M <> []) by congruence. assert (EN' : basis N <> []) by congruence. clear EM EN.
    destruct (par_eqb (mring M) (mring N)) eqn:E; [apply span_same_succeeds; assumption|].
    destruct C as [C|[C|[C|[p C]]]]; [contradiction|contradiction|apply (L_par_eqb A S L) in C; congruence|].
    rewrite C. cbn. rewrite (make_other M p HM), (make_other N p HN). cbn. apply span_same_succeeds; assumption.
  Qed.
  Lemma wf_ext M N : module_wf M -> module_wf N -> (forall g, In g (basis M) <-> In g (basis N)) -> basis M = basis N.
  Proof.
    intros [_ HM] [_ HN] H. apply sorted_unique; [exact HM|exact HN|]. apply NoDup_Permutation; [apply ascending_NoDup, HM|apply ascending_NoDup, HN|exact H].
  Qed.
End Proofs.
