(** Specification: which texts denote which sums of products. *)
From Coq Require Import ZArith List Ascii String Reals.
From Verif Require Import Arf Real Output SpecOutput Gen SpecGen Ring SpecRing SpecLoops.
Open Scope R_scope.

Definition no_sign (s : string) : Prop := forall t, s <> String "-" t.
Section Grammar.
  (** The names of numbers: [named s w] if [s] is a name for [w]. *)
  Variable named : string -> R -> Prop.
  (** A number, a name, or number*name. *)
  Inductive term_text : string -> R -> Prop :=
  | term_number s v : rational_text s v -> no_sign s -> term_text s v
  | term_name t w : named t w -> term_text t w
  | term_product s v t w : rational_text s v -> no_sign s -> named t w -> term_text (s ++ "*" ++ t) (v * w).
  (** Further summands. *)
  Inductive more_text : string -> R -> Prop :=
  | more_none : more_text "" 0
  | more_plus t v s w : term_text t v -> more_text s w -> more_text (" + " ++ t ++ s) (v + w)
  | more_minus t v s w : term_text t v -> more_text s w -> more_text (" - " ++ t ++ s) (- v + w).
  (** A sum: the first summand may have a minus sign. *)
  Inductive sum_text : string -> R -> Prop :=
  | sum_first t v s w : term_text t v -> more_text s w -> sum_text (t ++ s) (v + w)
  | sum_negative t v s w : term_text t v -> more_text s w -> sum_text ("-" ++ t ++ s) (- v + w).
End Grammar.
(** The names of random numbers and their products are what is printed for them. *)
Definition printed_name (rng : Z -> nat -> bool) (names : Z -> atom) (rho : Z -> R) (gs : list gen) (s : string) (w : R) : Prop :=
  exists g fuel, In g gs /\ gen_wf g /\ ~ rational g /\ show_num rng fuel (rnum_of names g) = Some s /\ w = gen_val rho g.
(** Different ones are printed differently (this can fail, see C87_collision_refuted). *)
Definition told_apart (rng : Z -> nat -> bool) (names : Z -> atom) (gs : list gen) : Prop :=
  forall g h fuel s, In g gs -> In h gs -> ~ rational g -> ~ rational h -> show_num rng fuel (rnum_of names g) = Some s -> show_num rng fuel (rnum_of names h) = Some s -> g = h.
(** Coefficients that are not negative are written as rational numbers, exactly. *)
Definition writes {A} (S : semantics A) (p : par A) (show_coeff : car A -> string) : Prop :=
  forall c, mem S p c -> 0 <= val S c -> rational_text (show_coeff c) (val S c) /\ no_sign (show_coeff c).
