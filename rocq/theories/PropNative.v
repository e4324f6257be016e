(** Property C46: native integers take part with their exact value. *)
From Coq Require Import ZArith QArith Qcanon Bool List Reals Qreals Lra Lia.
From Verif Require Import Arf Arb SpecArf ArfProofs ArbProofs Gen SpecGen Ring SpecRing Module Element SpecModule ElementProofs Loops SpecLoops
  Native SpecNative NativeProofs PropModule PropElement PropOrder.
Import ListNotations.
Open Scope R_scope.

(** The ball of a native integer is the number. *)
Theorem C46_ball : forall pl t v, platform_ok pl -> in_range pl t v ->
  arb_wf (arb_of_native pl t v) /\ forall r, contains (arb_of_native pl t v) r <-> r = IZR v.
Proof.
  intros pl t v P R. unfold arb_of_native. rewrite to_supported_exact by assumption. split; [apply arb_of_arf_wf|].
  intros r. apply arb_of_Z_contains_iff.
Qed.
(** Comparisons of balls and native integers. *)
Theorem C46_ball_comparisons : forall pl x t v, platform_ok pl -> in_range pl t v -> arb_wf x ->
  let ball := arb_of_Z v in
  tri Rlt x ball (arb_native_lt pl x t v) /\ tri Rgt x ball (arb_native_gt pl x t v) /\
  tri Rle x ball (arb_native_le pl x t v) /\ tri Rge x ball (arb_native_ge pl x t v) /\
  tri (@eq R) x ball (arb_native_eq pl x t v) /\ tri (fun p q => p <> q) x ball (arb_native_ne pl x t v).
Proof.
  intros pl x t v P R W ball. assert (Wb : arb_wf ball) by apply arb_of_arf_wf.
  unfold arb_native_lt, arb_native_gt, arb_native_le, arb_native_ge, arb_native_eq, arb_native_ne, arb_of_native.
  rewrite (to_supported_exact pl t v P R). fold ball.
  exact (conj (op_lt_spec x ball W Wb) (conj (op_gt_spec x ball W Wb) (conj (op_le_spec x ball W Wb) (conj (op_ge_spec x ball W Wb) (conj (op_eq_spec x ball W Wb) (op_ne_spec x ball W Wb)))))).
Qed.
(** Arf(int), Arf(long) and comparisons with long. *)
Theorem C46_float : forall pl v, platform_ok pl ->
  (in_range pl Int v -> arf2R (arf_of_int pl v) = IZR v) /\
  (in_range pl Long v -> arf2R (arf_of_long pl v) = IZR v /\
     forall x, (arf_lt_long pl x v = true <-> arf2R x < IZR v) /\ (arf_gt_long pl x v = true <-> arf2R x > IZR v) /\ (arf_eq_long pl x v = true <-> arf2R x = IZR v)).
Proof.
  intros pl v P. split.
  - intros R. rewrite arf_of_int_exact by assumption. apply arf_of_Z_spec.
  - intros R. unfold arf_lt_long, arf_gt_long, arf_eq_long. rewrite arf_of_long_exact by assumption. split; [apply arf_of_Z_spec|].
    intros x. rewrite <- (arf_of_Z_spec v). split; [apply arf_ltb_spec|]. split; [apply arf_ltb_spec|apply arf_eqb_spec].
Qed.

(** == of elements and native integers of any type. *)
Theorem C46_element_equal : forall A S, lawful A S -> forall pl t v (x : elem A), platform_ok pl -> in_range pl t v -> elem_wf S x -> no_zero_gen (basis (emodule x)) ->
  exists b, eq_native pl None x t v = Ok b /\ (b = true <-> forall rho, value S rho x = IZR v).
Proof.
  intros A S L pl t v x P R W Z. exists (eq_integer x v). split; [|apply (C27_equal_integer A S L); assumption].
  unfold eq_native, eq_integer. destruct t; rewrite ?to_gmp_exact by assumption; try reflexivity; rewrite parse_lexical_cast; reflexivity.
Qed.
(** If the C++ locale separates groups of three digits by a character that is neither a digit nor a letter, then == with a
    long long is as it should be up to 999, and throws from 1000 on. *)
Theorem C46_element_equal_locale : forall A (x : elem A) pl t v c, t = LongLong \/ t = ULongLong -> (c < 48 \/ 57 < c < 65 \/ 90 < c < 97 \/ 122 < c)%Z ->
  ((Z.abs v < 1000)%Z -> eq_native pl (Some c) x t v = eq_native pl None x t v) /\ ((1000 <= Z.abs v)%Z -> eq_native pl (Some c) x t v = Err InvalidArgument).
Proof.
  intros A x pl t v c T C.
  assert (D : digit c = None). { unfold digit. repeat match goal with |- context [(?a <=? ?b)%Z] => destruct (Z.leb_spec a b) end; cbn [andb]; try reflexivity; lia. }
  split; intros H; destruct T as [-> | ->]; cbn [eq_native]; rewrite ?(lexical_cast_small c v H), ?(lexical_cast_large c v D H); reflexivity.
Qed.
(** An element that is equal to a long long. *)
Theorem C46_element_equal_locale_throws : exists pl v (x : elem int_ring), platform_ok pl /\ in_range pl LongLong v /\ elem_wf int_sem x /\
  (forall rho, value int_sem rho x = IZR v) /\ eq_native pl None x LongLong v = Ok true /\ eq_native pl (Some 44%Z) x LongLong v = Err InvalidArgument.
Proof.
  exists (mkPlatform 16 32 64 64 64), 1000%Z, (mkElem (A := int_ring) (zmod [g1]) [1000%Z]).
  split; [unfold platform_ok; cbn; lia|]. split; [unfold in_range; cbn; lia|].
  split. { split; [|split; [reflexivity|repeat constructor]]. unfold zmod, g1. cbn [emodule]. module_ok. }
  split. { intros rho. cbn. unfold Q2R. cbn. lra. }
  split; vm_compute; reflexivity.
Qed.

(** The native comparisons are the comparisons with the integer. *)
Lemma native_order A (pl : platform) mag_up garb carb rounds (x : elem A) t v : platform_ok pl -> in_range pl t v ->
  lt_native pl mag_up garb carb None rounds x t v = lt_int mag_up garb carb rounds x v /\
  gt_native pl mag_up garb carb None rounds x t v = gt_int mag_up garb carb rounds x v.
Proof.
  intros P R.
  assert (E : eq_native pl None x t v = Ok (eq_integer x v)).
  { unfold eq_native, eq_integer. destruct t; rewrite ?to_gmp_exact by assumption; try reflexivity; rewrite parse_lexical_cast; reflexivity. }
  unfold lt_native, gt_native, lt_int, gt_int. rewrite E.
  assert (T : test_native pl t v = test_int v). { unfold test_native, test_int, arb_native_lt, arb_of_native. rewrite to_supported_exact by assumption. reflexivity. }
  rewrite T. split; reflexivity.
Qed.
(** <, ==, > of elements and native integers of any type: exactly the right one holds, and they terminate. *)
Theorem C46_element_order : forall A S, lawful A S -> forall mag_up, mag_up_ok mag_up -> mag_up_tight mag_up -> forall garb carb rho (p : par A) gs, independent S p rho gs -> In (GRat 1) gs ->
  forall x, among S p gs x -> enclosing_balls S garb carb rho x -> shrinking_balls S garb carb x ->
  forall pl t v, platform_ok pl -> in_range pl t v -> exists l e g,
    eventually (fun rounds => lt_native pl mag_up garb carb None rounds x t v) (Ok l) /\ eq_native pl None x t v = Ok e /\
    eventually (fun rounds => gt_native pl mag_up garb carb None rounds x t v) (Ok g) /\
    (l = true <-> value S rho x < IZR v) /\ (e = true <-> value S rho x = IZR v) /\ (g = true <-> value S rho x > IZR v).
Proof.
  intros A S L mag_up Hm Ht garb carb rho p gs HI H1 x Lx Ex Cx pl t v P R.
  destruct (C32_integers A S L mag_up Hm Ht garb carb rho p gs HI H1 x Lx Ex Cx v) as (l & g & (N & El) & (N' & Eg) & Vl & Ve & Vg).
  exists l, (eq_integer x v), g.
  split. { exists N. intros n Hn. rewrite (proj1 (native_order A pl mag_up garb carb n x t v P R)). apply El, Hn. }
  split. { unfold eq_native, eq_integer. destruct t; rewrite ?to_gmp_exact by assumption; try reflexivity; rewrite parse_lexical_cast; reflexivity. }
  split. { exists N'. intros n Hn. rewrite (proj2 (native_order A pl mag_up garb carb n x t v P R)). apply Eg, Hn. }
  split; [exact Vl|]. split; [exact Ve|exact Vg].
Qed.

(** *= and /= of elements with native integers of any type. *)
Theorem C46_element_multiply : forall A S, lawful A S -> forall pl t v (x : elem A) y, platform_ok pl -> in_range pl t v -> elem_wf S x ->
  imul_native pl x t v = (y, None) -> elem_wf S y /\ emodule y = emodule x /\ forall rho, value S rho y = value S rho x * IZR v.
Proof.
  intros A S L pl t v x y P R W E. unfold imul_native in E. rewrite to_gmp_exact in E by assumption.
  apply (C34_multiply A S L x (SZ v) y W Logic.I). unfold smul, scaled. rewrite E. reflexivity.
Qed.
Theorem C46_element_divide : forall A S, lawful A S -> forall pl t v (x : elem A) y, platform_ok pl -> in_range pl t v -> elem_wf S x -> v <> 0%Z ->
  idiv_native pl x t v = (y, None) -> elem_wf S y /\ emodule y = emodule x /\ forall rho, value S rho y = value S rho x / IZR v.
Proof.
  intros A S L pl t v x y P R W N E. unfold idiv_native in E. rewrite to_gmp_exact in E by assumption.
  apply (C34_divide A S L x (SZ v) y W Logic.I); [cbn; apply IZR_neq in N; exact N|]. unfold sdiv, scaled. rewrite E. reflexivity.
Qed.

(** The largest unsigned long long, where FLINT's words have 32 bits (and where they have 64). *)
Example C46_example : let pl32 := mkPlatform 16 32 32 64 32 in let pl64 := mkPlatform 16 32 64 64 64 in let big := 18446744073709551615%Z in
  platform_ok pl32 /\ platform_ok pl64 /\ in_range pl32 ULongLong big /\ in_range pl64 ULongLong big /\
  arb_of_native pl32 ULongLong big = arb_of_Z big /\ arb_of_native pl64 ULongLong big = arb_of_Z big /\
  lexical_cast None (-9223372036854775808) = [45; 57; 50; 50; 51; 51; 55; 50; 48; 51; 54; 56; 53; 52; 55; 55; 53; 56; 48; 56]%Z /\
  fst (imul_native pl32 ex ULongLong big) = mkElem (A := int_ring) (zmod [g1; ga; gab]) [3 * big; 2 * big; 5 * big]%Z.
Proof. cbv zeta. repeat split; try (vm_compute; congruence); try (cbn; lia). Qed.
