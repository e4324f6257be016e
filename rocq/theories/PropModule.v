(** Properties C18-C20: modules. *)
From Coq Require Import ZArith QArith Qcanon Bool List Reals Permutation.
From Verif Require Import Gen SpecGen GenProofs Ring SpecRing RingProofs Module SpecModule ModuleProofs SpanProofs Element ElementProofs4.
Import ListNotations.
Open Scope Z_scope.

(** Generators for the examples: 1, two random numbers, their product. *)
Definition g1 := GRat 1.
Definition ga := GAtom 5.
Definition gb := GAtom 7.
Definition gab := GProd [(5, 1%nat); (7, 1%nat)].
Lemma example_gens : Forall gen_wf [g1; ga; gb; gab].
Proof. repeat constructor; cbn; auto with arith; discriminate. Qed.

(** * C18 *)
(** Lists with the same generators give the same module (or both throw). *)
Theorem C18_canonical : forall (A : ring) (b c : list gen) (p : par A), Forall gen_wf b -> Permutation b c -> make b p = make c p.
Proof. exact make_permutation. Qed.
(** The basis is a permutation of the input, and sorted. *)
Theorem C18_sorted : forall (A : ring) (b : list gen) (p : par A) M, Forall gen_wf b -> make b p = Ok M ->
  Permutation b (basis M) /\ ascending (basis M) /\ mring M = p.
Proof. intros A b p M H E. destruct (make_ok A b p M H E) as ((_ & W) & R & P & _). auto. Qed.
(** There is only one such order. *)
Theorem C18_unique : forall l r, ascending l -> ascending r -> Permutation l r -> l = r.
Proof. intros l r. exact (sorted_unique l r). Qed.
(** Different sets of generators, or different rings, give different modules. *)
Theorem C18_faithful : forall (A : ring) (b c : list gen) (p q : par A) M, Forall gen_wf b -> Forall gen_wf c ->
  make b p = Ok M -> make c q = Ok M -> Permutation b c /\ p = q.
Proof.
  intros A b c p q M Hb Hc E F. destruct (make_ok A b p M Hb E) as (_ & R & P & _). destruct (make_ok A c q M Hc F) as (_ & R' & P' & _).
  split; [exact (Permutation_trans P (Permutation_sym P'))|congruence].
Qed.
Example C18_example : make (A := int_ring) [gab; gb; g1; ga] tt = make (A := int_ring) [ga; g1; gab; gb] tt /\
  make (A := int_ring) [gab; gb; g1; ga] tt = Ok (mkModule (A := int_ring) [g1; ga; gb; gab] tt).
Proof. split; vm_compute; reflexivity. Qed.

(** * C19 *)
Theorem C19_throws : forall (A : ring) (b : list gen) (p : par A), (exists e, make b p = Err e) <-> obviously_dependent b.
Proof. exact make_throws. Qed.
Example C19_example : make (A := int_ring) [ga; gb; ga] tt = Err LogicError /\ make (A := int_ring) [g1; ga; GRat (Qc_of_Z 2)] tt = Err LogicError /\
  make (A := int_ring) [] tt = Ok (mkModule (A := int_ring) [] tt).
Proof. repeat split; vm_compute; reflexivity. Qed.

(** * C20 *)
Theorem C20_generators : forall A S, lawful A S -> forall (M N P : module A), module_wf M -> module_wf N -> span M N = Ok P ->
  module_wf P /\ forall g, In g (basis P) <-> In g (basis M) \/ In g (basis N).
Proof. intros A S L M N P HM HN H. destruct (span_spec A S L M N P HM HN H) as (W & _ & G). auto. Qed.
(** Trivial modules contribute nothing, in particular not their field. *)
Theorem C20_trivial : forall (A : ring) (M N : module A), basis M = [] -> basis N <> [] -> span M N = Ok N /\ span N M = Ok N.
Proof.
  intros A M N E F. unfold span. rewrite E. destruct (basis N); [congruence|]. auto.
Qed.
(** Otherwise the ring is the common ring, or the compositum of the two rings. *)
Theorem C20_ring : forall A S, lawful A S -> forall (M N P : module A), module_wf M -> module_wf N -> basis M <> [] -> basis N <> [] -> span M N = Ok P ->
  (mring M = mring N /\ mring P = mring M) \/ (mring M <> mring N /\ compositum (mring M) (mring N) = Ok (mring P)).
Proof.
  intros A S L M N P HM HN EM EN H. destruct (span_spec A S L M N P HM HN H) as (_ & R & _). unfold span_ring in R.
  destruct (basis M); [congruence|]. destruct (basis N); [congruence|]. exact R.
Qed.
(** Over the same ring: span succeeds unless there are two different rational generators,
    does not depend on the order, is idempotent and associative (also in when it throws). *)
Theorem C20_succeeds : forall A S, lawful A S -> forall (M N : module A), module_wf M -> module_wf N -> mring M = mring N ->
  ((exists P, span M N = Ok P) <-> forall g h, In g (basis M) -> In h (basis N) -> rational g -> rational h -> g = h).
Proof.
  intros A S L M N HM HN R. split.
  - intros [P E]. exact (span_agree A S L M N P HM HN E).
  - intros H. apply (span_succeeds A S L M N HM HN H). auto.
Qed.
Theorem C20_commutative : forall A S, lawful A S -> forall (M N : module A), module_wf M -> module_wf N -> mring M = mring N -> span M N = span N M.
Proof. exact span_comm. Qed.
(** Over different rings the generators do not depend on the order. *)
Theorem C20_commutative_basis : forall A S, lawful A S -> forall (M N P Q : module A), module_wf M -> module_wf N ->
  span M N = Ok P -> span N M = Ok Q -> basis P = basis Q.
Proof. exact span_comm_basis. Qed.
Theorem C20_idempotent : forall A S, lawful A S -> forall (M : module A), module_wf M -> span M M = Ok M.
Proof. exact span_idem. Qed.
Theorem C20_associative : forall A S, lawful A S -> forall (M N K : module A), module_wf M -> module_wf N -> module_wf K -> mring M = mring N -> mring N = mring K ->
  bind (span M N) (fun P => span P K) = bind (span N K) (fun P => span M P).
Proof. exact span_assoc. Qed.
(** [submodule] is containment of the generators; the span is the least upper bound. *)
Theorem C20_submodule : forall (A : ring) (M N : module A), submodule M N = true <-> incl (basis M) (basis N).
Proof. exact submodule_spec. Qed.
Theorem C20_contains : forall A S, lawful A S -> forall (M N P : module A), module_wf M -> module_wf N -> span M N = Ok P ->
  submodule M P = true /\ submodule N P = true.
Proof. exact span_contains. Qed.
Theorem C20_least : forall A S, lawful A S -> forall (M N P K : module A), module_wf M -> module_wf N -> span M N = Ok P ->
  submodule M K = true -> submodule N K = true -> submodule P K = true.
Proof. exact span_least. Qed.
(** Over two different fields of degree one the field of the span does depend on the order. *)
Theorem C62_commutative_refuted : exists (M N : module quad_ring), module_wf M /\ module_wf N /\ span M N = Ok N /\ span N M = Ok M /\ M <> N.
Proof.
  exists (mkModule (A := quad_ring) [ga] (QOne 0)), (mkModule (A := quad_ring) [ga] (QOne 1)). split; [|split; [|split; [reflexivity|split; [reflexivity|discriminate]]]].
  - split; [repeat constructor; discriminate|]. split; [intros h []|exact I].
  - split; [repeat constructor; discriminate|]. split; [intros h []|exact I].
Qed.
Example C20_example : exists (M N K : module int_ring), make (A := int_ring) [g1; gab] tt = Ok M /\ make (A := int_ring) [gb; g1] tt = Ok N /\ make (A := int_ring) [ga] tt = Ok K /\
  bind (span M N) (fun P => span P K) = Ok (mkModule (A := int_ring) [g1; ga; gb; gab] tt) /\ lawful int_ring int_sem /\
  (exists M' N' : module int_ring, make (A := int_ring) [g1] tt = Ok M' /\ make (A := int_ring) [GRat (Qc_of_Z 2)] tt = Ok N' /\ span M' N' = Err LogicError).
Proof.
  do 3 eexists. repeat (split; [vm_compute; reflexivity|]). split; [exact int_lawful|]. do 2 eexists. repeat (split; [vm_compute; reflexivity|]). vm_compute. reflexivity.
Qed.
