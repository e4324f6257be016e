(** Laws of the span of modules. *)
From Coq Require Import ZArith QArith Qcanon Bool List Permutation Lia.
From Verif Require Import Gen SpecGen GenProofs Ring SpecRing Module Element SpecModule ModuleProofs.
Import ListNotations.

Section Proofs.
  Variable A : ring.
  Variable S : semantics A.
  Hypothesis L : lawful A S.
  Implicit Types M N P Q K : module A.

  Definition agree M N : Prop := forall g h, In g (basis M) -> In h (basis N) -> rational g -> rational h -> g = h.
  Lemma agree_sym M N : agree M N -> agree N M.
  Proof. intros H g h Hg Hh Rg Rh. symmetry. apply H; assumption. Qed.
  Lemma wf_rational M g h : module_wf M -> In g (basis M) -> In h (basis M) -> rational g -> rational h -> g = h.
  Proof. intros [_ H]. apply ascending_compatible, compatible_nodup in H. apply H. Qed.
  Lemma span_agree M N P : module_wf M -> module_wf N -> span M N = Ok P -> agree M N.
  Proof.
    intros HM HN H g h Hg Hh Rg Rh. destruct (span_spec A S L M N P HM HN H) as (WP & _ & G).
    apply (wf_rational P g h WP); [apply G; auto|apply G; auto|exact Rg|exact Rh].
  Qed.
  Lemma make_err b (p : par A) e : make b p = Err e -> e = LogicError.
  Proof. unfold make. destruct (check _); [discriminate|]. congruence. Qed.
  Lemma span_same_ring M N P : module_wf M -> module_wf N -> mring M = mring N -> span M N = Ok P -> mring P = mring M.
  Proof.
    intros HM HN R H. destruct (span_spec A S L M N P HM HN H) as (_ & X & _). unfold span_ring in X.
    destruct (basis M); [congruence|]. destruct (basis N); [congruence|]. destruct X as [[_ X]|[X _]]; congruence.
  Qed.
  Lemma span_err M N e : mring M = mring N -> span M N = Err e -> e = LogicError.
  Proof.
    intros R H. unfold span in H. destruct (basis M); [discriminate|]. destruct (basis N); [discriminate|].
    assert (par_eqb (mring M) (mring N) = true) as E by (apply (L_par_eqb A S L), R). rewrite E in H. unfold span_same in H.
    destruct (submodule N M); [discriminate|]. destruct (submodule M N); [discriminate|]. apply make_err in H. exact H.
  Qed.
  Lemma span_dec M N : module_wf M -> module_wf N -> mring M = mring N ->
    (agree M N /\ exists P, span M N = Ok P) \/ (~ agree M N /\ span M N = Err LogicError).
  Proof.
    intros HM HN R. destruct (span M N) as [P|e] eqn:E.
    - left. split; [apply (span_agree M N P HM HN E)|eauto].
    - right. split; [|f_equal; apply (span_err M N e R E)]. intros C.
      destruct (span_succeeds A S L M N HM HN C (or_intror (or_intror (or_introl R)))) as [P E']. congruence.
  Qed.
  Lemma module_ext M N : module_wf M -> module_wf N -> mring M = mring N -> (forall g, In g (basis M) <-> In g (basis N)) -> M = N.
  Proof. intros HM HN R H. pose proof (wf_ext A M N HM HN H) as B. destruct M, N. cbn in *. congruence. Qed.

  Lemma span_comm M N : module_wf M -> module_wf N -> mring M = mring N -> span M N = span N M.
  Proof.
    intros HM HN R. destruct (span_dec M N HM HN R) as [[C [P E]]|[C E]], (span_dec N M HN HM (eq_sym R)) as [[C' [Q E']]|[C' E']]; rewrite E, E'.
    - f_equal. destruct (span_spec A S L M N P HM HN E) as (WP & _ & GP). destruct (span_spec A S L N M Q HN HM E') as (WQ & _ & GQ).
      apply module_ext; [exact WP|exact WQ| |intros g; rewrite GP, GQ; tauto].
      rewrite (span_same_ring M N P HM HN R E), (span_same_ring N M Q HN HM (eq_sym R) E'). exact R.
    - exfalso. apply C', agree_sym, C.
    - exfalso. apply C, agree_sym, C'.
    - reflexivity.
  Qed.
  Lemma span_idem M : module_wf M -> span M M = Ok M.
  Proof.
    intros HM. unfold span. destruct (basis M) eqn:B; [reflexivity|].
    assert (par_eqb (mring M) (mring M) = true) as -> by (apply (L_par_eqb A S L); reflexivity).
    unfold span_same. assert (submodule M M = true) as -> by (apply submodule_spec, incl_refl). reflexivity.
  Qed.
  Lemma span_assoc M N K : module_wf M -> module_wf N -> module_wf K -> mring M = mring N -> mring N = mring K ->
    bind (span M N) (fun P => span P K) = bind (span N K) (fun P => span M P).
  Proof.
    intros HM HN HK R1 R2.
    assert (Left : agree M N -> agree M K -> agree N K -> exists P Q, span M N = Ok P /\ span P K = Ok Q /\ module_wf Q /\ mring Q = mring M /\
              forall g, In g (basis Q) <-> In g (basis M) \/ In g (basis N) \/ In g (basis K)).
    { intros C1 C2 C3. destruct (span_dec M N HM HN R1) as [[_ [P E]]|[C _]]; [|contradiction].
      destruct (span_spec A S L M N P HM HN E) as (WP & _ & GP). pose proof (span_same_ring M N P HM HN R1 E) as RP.
      assert (RPK : mring P = mring K) by congruence.
      destruct (span_dec P K WP HK RPK) as [[_ [Q E']]|[C _]].
      - destruct (span_spec A S L P K Q WP HK E') as (WQ & _ & GQ). pose proof (span_same_ring P K Q WP HK RPK E') as RQ.
        exists P, Q. split; [exact E|]. split; [exact E'|]. split; [exact WQ|]. split; [congruence|]. intros g. rewrite GQ, GP. tauto.
      - exfalso. apply C. intros g h Hg Hh. apply GP in Hg. destruct Hg as [Hg|Hg]; [apply C2|apply C3]; assumption. }
    assert (Right : agree M N -> agree M K -> agree N K -> exists P Q, span N K = Ok P /\ span M P = Ok Q /\ module_wf Q /\ mring Q = mring M /\
              forall g, In g (basis Q) <-> In g (basis M) \/ In g (basis N) \/ In g (basis K)).
    { intros C1 C2 C3. destruct (span_dec N K HN HK R2) as [[_ [P E]]|[C _]]; [|contradiction].
      destruct (span_spec A S L N K P HN HK E) as (WP & _ & GP). pose proof (span_same_ring N K P HN HK R2 E) as RP.
      assert (RMP : mring M = mring P) by congruence.
      destruct (span_dec M P HM WP RMP) as [[_ [Q E']]|[C _]].
      - destruct (span_spec A S L M P Q HM WP E') as (WQ & _ & GQ). pose proof (span_same_ring M P Q HM WP RMP E') as RQ.
        exists P, Q. split; [exact E|]. split; [exact E'|]. split; [exact WQ|]. split; [congruence|]. intros g. rewrite GQ, GP. tauto.
      - exfalso. apply C. intros g h Hg Hh. apply GP in Hh. destruct Hh as [Hh|Hh]; [apply C1|apply C2]; assumption. }
    assert (Ln : bind (span M N) (fun P => span P K) = Err LogicError \/ (agree M N /\ agree M K /\ agree N K)).
    { destruct (span_dec M N HM HN R1) as [[C [P E]]|[C E]]; rewrite E; [|left; reflexivity]. cbn.
      destruct (span_spec A S L M N P HM HN E) as (WP & _ & GP). pose proof (span_same_ring M N P HM HN R1 E) as RP.
      assert (RPK : mring P = mring K) by congruence.
      destruct (span_dec P K WP HK RPK) as [[C' [Q E']]|[C' E']]; [right|left; exact E'].
      split; [exact C|]. split; intros g h Hg Hh; apply C'; try assumption; apply GP; auto. }
    assert (Rn : bind (span N K) (fun P => span M P) = Err LogicError \/ (agree M N /\ agree M K /\ agree N K)).
    { destruct (span_dec N K HN HK R2) as [[C [P E]]|[C E]]; rewrite E; [|left; reflexivity]. cbn.
      destruct (span_spec A S L N K P HN HK E) as (WP & _ & GP). pose proof (span_same_ring N K P HN HK R2 E) as RP.
      assert (RMP : mring M = mring P) by congruence.
      destruct (span_dec M P HM WP RMP) as [[C' [Q E']]|[C' E']]; [right|left; exact E'].
      split; [|split; [|exact C]]; intros g h Hg Hh; apply C'; try assumption; apply GP; auto. }
    assert (Both : agree M N -> agree M K -> agree N K -> bind (span M N) (fun P => span P K) = bind (span N K) (fun P => span M P)).
    { intros C1 C2 C3. destruct (Left C1 C2 C3) as (P & Q & E1 & E2 & WQ & RQ & GQ), (Right C1 C2 C3) as (P' & Q' & E1' & E2' & WQ' & RQ' & GQ').
      rewrite E1, E1'. cbn. rewrite E2, E2'. f_equal. apply module_ext; [exact WQ|exact WQ'|congruence|]. intros g. rewrite GQ, GQ'. tauto. }
    destruct Ln as [Ln|(C1 & C2 & C3)]; [|apply Both; assumption]. destruct Rn as [Rn|(C1 & C2 & C3)]; [|apply Both; assumption].
    rewrite Ln, Rn. reflexivity.
  Qed.
  Lemma span_contains M N P : module_wf M -> module_wf N -> span M N = Ok P -> submodule M P = true /\ submodule N P = true.
  Proof. intros HM HN H. destruct (span_spec A S L M N P HM HN H) as (_ & _ & G). split; apply submodule_spec; intros g Hg; apply G; auto. Qed.
  Lemma span_least M N P K : module_wf M -> module_wf N -> span M N = Ok P -> submodule M K = true -> submodule N K = true -> submodule P K = true.
  Proof.
    intros HM HN H HMK HNK. apply submodule_spec in HMK, HNK. apply submodule_spec. intros g Hg.
    apply (span_spec A S L M N P HM HN H) in Hg. destruct Hg; auto.
  Qed.
  (** Different rings: the generators still do not depend on the order. *)
  Lemma span_comm_basis M N P Q : module_wf M -> module_wf N -> span M N = Ok P -> span N M = Ok Q -> basis P = basis Q.
  Proof.
    intros HM HN E E'. destruct (span_spec A S L M N P HM HN E) as (WP & _ & GP). destruct (span_spec A S L N M Q HN HM E') as (WQ & _ & GQ).
    apply (wf_ext A); [exact WP|exact WQ|]. intros g. rewrite GP, GQ. tauto.
  Qed.
End Proofs.
