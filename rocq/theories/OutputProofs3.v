(** Printed numbers: which characters occur, and reading *)
From Coq Require Import ZArith Bool List Ascii String Reals Lia Lra.
From Flocq Require Import Core.
From Verif Require Import Arf Arb SpecArf ArfProofs Real Double SpecDouble Text SpecText PropText PropIeee Output SpecOutput OutputProofs OutputProofs2.
Import ListNotations.
Open Scope Z_scope.

(** * Characters *)
Fixpoint all_chars (p : ascii -> bool) (s : string) : bool := match s with EmptyString => true | String c s' => p c && all_chars p s' end.
Lemma all_app p a b : all_chars p (a ++ b) = all_chars p a && all_chars p b.
Proof. induction a as [|c a IH]; cbn [append all_chars]; [reflexivity|]. rewrite IH. apply andb_assoc. Qed.
Lemma all_without p c s : p c = false -> all_chars p s = true -> without c s.
Proof.
  intros Hc. induction s as [|d s IH]; cbn [all_chars without]; [tauto|]. rewrite andb_true_iff. intros [H K]. split; [congruence|exact (IH K)].
Qed.
Lemma without_free c s : without c s -> free c s.
Proof. exact (fun H => H). Qed.
Definition decimal_digit (c : ascii) : bool := match char_digit c with Some d => d <? 10 | None => false end.
Lemma numeral_all p s n : (forall c, decimal_digit c = true -> p c = true) -> numeral 10 s n -> all_chars p s = true.
Proof.
  intros Hp. induction 1 as [|c d s n Hd Hl H IH]; [reflexivity|]. cbn [all_chars]. rewrite IH, andb_true_r. apply Hp. unfold decimal_digit. apply char_digit_iff in Hd. rewrite Hd. apply Z.ltb_lt. exact Hl.
Qed.
Lemma integer_all p s n : (forall c, decimal_digit c = true -> p c = true) -> p "-"%char = true -> integer_text 10 s n -> all_chars p s = true.
Proof. intros Hp Hm [s' n' _ H|s' n' _ H]; cbn [all_chars]; [|rewrite Hm]; exact (numeral_all p _ _ Hp H). Qed.
Lemma unsigned_all p s v : (forall c, decimal_digit c = true -> p c = true) -> p "."%char = true -> unsigned_decimal s v -> all_chars p s = true.
Proof.
  intros Hp Hd [s' n' _ H|s' n' t' m' _ H _ K]; [exact (numeral_all p _ _ Hp H)|]. rewrite all_app. cbn [all_chars]. rewrite (numeral_all p _ _ Hp H), (numeral_all p _ _ Hp K), Hd. reflexivity.
Qed.
Definition number_char (c : ascii) : bool :=
  decimal_digit c || Ascii.eqb c "." || Ascii.eqb c "e" || Ascii.eqb c "+" || Ascii.eqb c "-" || Ascii.eqb c "i" || Ascii.eqb c "n" || Ascii.eqb c "f".
Lemma number_digit c : decimal_digit c = true -> number_char c = true.
Proof. intros H. unfold number_char. rewrite H. reflexivity. Qed.
Lemma scientific_all s v : scientific s v -> all_chars number_char s = true.
Proof.
  intros [s' v' H|s' v' t k H _ K|s' v' t k H _ K]; rewrite ?all_app; cbn [all_chars]; rewrite (unsigned_all number_char _ _ number_digit (eq_refl _) H), ?(numeral_all number_char _ _ number_digit K); reflexivity.
Qed.
Lemma decimal_all s v : decimal_text s v -> all_chars number_char s = true.
Proof. intros [s' v' H|s' v' H]; cbn [all_chars]; rewrite (scientific_all _ _ H); reflexivity. Qed.
Lemma show_double_all d : all_chars number_char (show_double d) = true.
Proof.
  destruct d as [a|[|]]; [|reflexivity..]. destruct (Z.eq_dec (am a) 0) as [E|N]; [cbn [show_double]; rewrite E; reflexivity|].
  destruct (show_double_spec a N) as (u & H & _). exact (decimal_all _ _ H).
Qed.
Lemma get_str_all n : all_chars number_char (get_str 10 n) = true.
Proof. exact (integer_all number_char _ _ number_digit (eq_refl _) (C79_get_str 10 n ltac:(lia))). Qed.
Lemma weaken p q s : (forall c, p c = true -> q c = true) -> all_chars p s = true -> all_chars q s = true.
Proof. intros H. induction s as [|c s IH]; cbn [all_chars]; [tauto|]. rewrite !andb_true_iff. intros [A B]. split; [exact (H _ A)|exact (IH B)]. Qed.
Definition float_char (c : ascii) : bool := number_char c || Ascii.eqb c "=" || Ascii.eqb c "p".
Lemma number_float c : number_char c = true -> float_char c = true.
Proof. intros H. unfold float_char. rewrite H. reflexivity. Qed.
Lemma show_finite_all a : all_chars float_char (show_arf (Finite a)) = true.
Proof.
  cbn [show_arf]. destruct (am a =? 0); [reflexivity|]. pose proof (weaken _ _ _ number_float (show_double_all (arf_get_d a))) as D. destruct (0 <=? arf_exponent a); [exact D|].
  rewrite !all_app, D, !(weaken _ _ _ number_float (get_str_all _)). reflexivity.
Qed.

(** * Reading is unambiguous *)
Lemma split_same c a b x y : without c a -> without c b -> (a ++ String c x = b ++ String c y)%string -> a = b /\ x = y.
Proof. intros A B E. pose proof (split_free c a x (without_free _ _ A)) as P. rewrite E, (split_free c b y (without_free _ _ B)) in P. injection P as -> ->. split; reflexivity. Qed.
Lemma split_other c a b x : without c a -> a = (b ++ String c x)%string -> False.
Proof. intros A ->. induction b as [|d b IH]; cbn [append without] in A; [tauto|]. apply IH. tauto. Qed.
Lemma numeral_unique s n m : numeral 10 s n -> numeral 10 s m -> n = m.
Proof.
  intros H K. pose proof (proj2 (read_digits_iff 10 s 0 n ltac:(lia))) as A. pose proof (proj2 (read_digits_iff 10 s 0 m ltac:(lia))) as B.
  rewrite A in B by (exists n; split; [exact H|ring]). specialize (B (ex_intro _ m (conj K (eq_sym (Z.add_0_l m))))). congruence.
Qed.
Lemma integer_unique s n m : integer_text 10 s n -> integer_text 10 s m -> n = m.
Proof. intros H K. apply C79_set_str in H; [|lia]. apply C79_set_str in K; [|lia]. congruence. Qed.
Lemma digit_not c : decimal_digit c = false -> forall d, decimal_digit d = true -> negb (Ascii.eqb c d) = true.
Proof. intros H d Hd. apply negb_true_iff. apply Ascii.eqb_neq. congruence. Qed.
Lemma not_self c : negb (Ascii.eqb c c) = false.
Proof. rewrite Ascii.eqb_refl. reflexivity. Qed.
Lemma numeral_without c s n : decimal_digit c = false -> numeral 10 s n -> without c s.
Proof. intros Hc H. exact (all_without (fun d => negb (Ascii.eqb c d)) c s (not_self c) (numeral_all _ s n (digit_not c Hc) H)). Qed.
Lemma integer_without c s n : decimal_digit c = false -> c <> "-"%char -> integer_text 10 s n -> without c s.
Proof. intros Hc N H. apply (all_without (fun d => negb (Ascii.eqb c d)) c s (not_self c)). apply (integer_all _ s n (digit_not c Hc)); [|exact H]. apply negb_true_iff. apply Ascii.eqb_neq. congruence. Qed.
Lemma unsigned_without c s v : decimal_digit c = false -> c <> "."%char -> unsigned_decimal s v -> without c s.
Proof. intros Hc N H. apply (all_without (fun d => negb (Ascii.eqb c d)) c s (not_self c)). apply (unsigned_all _ s v (digit_not c Hc)); [|exact H]. apply negb_true_iff. apply Ascii.eqb_neq. congruence. Qed.
Lemma unsigned_unique s : forall u v, unsigned_decimal s u -> unsigned_decimal s v -> u = v.
Proof.
  intros u v H K. destruct H as [s n _ H|s n t m _ H _ H']; inversion K as [s' n' _ K1 E1|s' n' t' m' _ K1 _ K2 E1]; subst.
  - rewrite (numeral_unique _ _ _ H K1). reflexivity.
  - exfalso. exact (split_other "." _ _ _ (numeral_without "." _ _ eq_refl H) eq_refl).
  - exfalso. exact (split_other "." _ _ _ (numeral_without "." _ _ eq_refl K1) eq_refl).
  - apply split_same in E1; [|exact (numeral_without "." _ _ eq_refl K1)|exact (numeral_without "." _ _ eq_refl H)]. destruct E1 as [-> ->].
    rewrite (numeral_unique _ _ _ H K1), (numeral_unique _ _ _ H' K2). reflexivity.
Qed.
Lemma scientific_unique s u v : scientific s u -> scientific s v -> u = v.
Proof.
  assert (W : forall t w, unsigned_decimal t w -> without "e" t) by (intros t w; apply unsigned_without; [reflexivity|discriminate]).
  intros H K. destruct H as [s u H|s u t k H _ H'|s u t k H _ H']; inversion K as [s' u' K1 E1|s' u' t' k' K1 _ K2 E1|s' u' t' k' K1 _ K2 E1]; subst;
    try (exfalso; first [exact (split_other "e" _ _ _ (W _ _ H) eq_refl)|exact (split_other "e" _ _ _ (W _ _ K1) eq_refl)]);
    try (apply split_same in E1; [|exact (W _ _ K1)|exact (W _ _ H)]; destruct E1 as [-> E2]; try discriminate E2; injection E2 as ->).
  - exact (unsigned_unique _ _ _ H K1).
  - rewrite (unsigned_unique _ _ _ H K1), (numeral_unique _ _ _ H' K2). reflexivity.
  - rewrite (unsigned_unique _ _ _ H K1), (numeral_unique _ _ _ H' K2). reflexivity.
Qed.
Lemma unsigned_head s v : unsigned_decimal s v -> exists c s', s = String c s' /\ decimal_digit c = true.
Proof.
  assert (N : forall t n, t <> EmptyString -> numeral 10 t n -> exists c s', t = String c s' /\ decimal_digit c = true).
  { intros t n Ht H. revert Ht. destruct H as [|c d t' n' Hd L _]; intros Ht; [congruence|]. exists c, t'. split; [reflexivity|]. unfold decimal_digit. apply char_digit_iff in Hd. rewrite Hd. apply Z.ltb_lt. exact L. }
  intros [s' n Hs H|s' n t m Hs H _ _]; destruct (N _ _ Hs H) as (c & r & -> & Hc); exists c; eexists; (split; [reflexivity|exact Hc]).
Qed.
Lemma scientific_head s v : scientific s v -> exists c s', s = String c s' /\ decimal_digit c = true.
Proof. intros [s' w H|s' w t k H _ _|s' w t k H _ _]; destruct (unsigned_head _ _ H) as (c & r & -> & Hc); exists c; eexists; (split; [reflexivity|exact Hc]). Qed.
Lemma decimal_unique s u v : decimal_text s u -> decimal_text s v -> u = v.
Proof.
  assert (M : forall t w, ~ scientific (String "-" t) w) by (intros t w H; destruct (scientific_head _ _ H) as (c & r & E & Hc); injection E as <- <-; discriminate Hc).
  intros H K. destruct H as [s u H|s u H]; inversion K as [s' u' K1 E1|s' u' K1 E1]; subst.
  - exact (scientific_unique _ _ _ H K1).
  - exfalso. exact (M _ _ H).
  - exfalso. exact (M _ _ K1).
  - rewrite (scientific_unique _ _ _ H K1). reflexivity.
Qed.
Lemma exact_unique s u v : exact_text s u -> exact_text s v -> u = v.
Proof.
  assert (W : forall t n, integer_text 10 t n -> without "=" t) by (intros t n; apply integer_without; [reflexivity|discriminate]).
  assert (P : forall t n, integer_text 10 t n -> without "p" t) by (intros t n; apply integer_without; [reflexivity|discriminate]).
  intros H K. destruct H as [s n H|t m M e E T H1 H2]; inversion K as [s' n' K1 E1|t' m' M' e' E' T' K1 K2 E1]; subst.
  - rewrite (integer_unique _ _ _ H K1). reflexivity.
  - exfalso. exact (split_other "=" _ _ _ (W _ _ H) eq_refl).
  - exfalso. exact (split_other "=" _ _ _ (W _ _ K1) eq_refl).
  - apply split_same in E1; [|assumption..]. destruct E1 as [-> E1]. apply split_same in E1; [|exact (P _ _ K1)|exact (P _ _ H1)]. destruct E1 as [-> ->].
    rewrite (integer_unique _ _ _ H1 K1), (integer_unique _ _ _ H2 K2). reflexivity.
Qed.
