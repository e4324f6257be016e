(** Property C79: numbers survive being written as text. *)
From Coq Require Import ZArith QArith Qcanon Bool List Ascii String Reals Lia.
From Flocq Require Import Core.
From Verif Require Import Arf Arb SpecArf ArfProofs ArbProofs Text SpecText.
Import ListNotations.
Open Scope Z_scope.

(** * Digits *)
Lemma char_digit_iff c d : char_digit c = Some d <-> digit c d.
Proof.
  unfold char_digit. set (k := Z.of_nat (nat_of_ascii c)). assert (Hc : c = ascii_of_nat (nat_of_ascii c)) by (symmetry; apply ascii_nat_embedding).
  split.
  - destruct ((48 <=? k) && (k <=? 57)) eqn:E1.
    + intros [= <-]. apply andb_true_iff in E1. rewrite !Z.leb_le in E1. rewrite Hc.
      replace (nat_of_ascii c) with (48 + (nat_of_ascii c - 48))%nat by (subst k; lia). replace (k - 48) with (Z.of_nat (nat_of_ascii c - 48)) by (subst k; lia). constructor. subst k. lia.
    + destruct ((97 <=? k) && (k <=? 122)) eqn:E2.
      * intros [= <-]. apply andb_true_iff in E2. rewrite !Z.leb_le in E2. rewrite Hc.
        replace (nat_of_ascii c) with (97 + (nat_of_ascii c - 97))%nat by (subst k; lia). replace (k - 87) with (10 + Z.of_nat (nat_of_ascii c - 97)) by (subst k; lia). apply digit_lower. subst k. lia.
      * destruct ((65 <=? k) && (k <=? 90)) eqn:E3; [|discriminate]. intros [= <-]. apply andb_true_iff in E3. rewrite !Z.leb_le in E3. rewrite Hc.
        replace (nat_of_ascii c) with (65 + (nat_of_ascii c - 65))%nat by (subst k; lia). replace (k - 55) with (10 + Z.of_nat (nat_of_ascii c - 65)) by (subst k; lia). apply digit_upper. subst k. lia.
  - intros H. inversion H as [j Hj E1 E2|j Hj E1 E2|j Hj E1 E2]; subst; clear -Hj; subst k.
    + rewrite nat_ascii_embedding by lia. replace (48 <=? _) with true by (symmetry; apply Z.leb_le; lia). replace (_ <=? 57) with true by (symmetry; apply Z.leb_le; lia). cbn [andb]. f_equal. lia.
    + rewrite nat_ascii_embedding by lia. replace (_ <=? 57) with false by (symmetry; apply Z.leb_gt; lia). rewrite andb_false_r.
      replace (97 <=? _) with true by (symmetry; apply Z.leb_le; lia). replace (_ <=? 122) with true by (symmetry; apply Z.leb_le; lia). cbn [andb]. f_equal. lia.
    + rewrite nat_ascii_embedding by lia. replace (_ <=? 57) with false by (symmetry; apply Z.leb_gt; lia). rewrite andb_false_r.
      replace (97 <=? _) with false by (symmetry; apply Z.leb_gt; lia). cbn [andb]. replace (65 <=? _) with true by (symmetry; apply Z.leb_le; lia). replace (_ <=? 90) with true by (symmetry; apply Z.leb_le; lia). cbn [andb]. f_equal. lia.
Qed.
Lemma digit_char_digit d : 0 <= d < 36 -> char_digit (digit_char d) = Some d.
Proof.
  intros H. apply char_digit_iff. unfold digit_char. destruct (Z.ltb_spec d 10).
  - replace (Z.to_nat (48 + d)) with (48 + Z.to_nat d)%nat by lia. rewrite <- (Z2Nat.id d) at 2 by lia. constructor. lia.
  - replace (Z.to_nat (87 + d)) with (97 + Z.to_nat (d - 10))%nat by lia. replace d with (10 + Z.of_nat (Z.to_nat (d - 10))) at 2 by lia. apply digit_lower. lia.
Qed.
Lemma read_digits_iff b s : forall acc v, 0 <= b -> (read_digits b s acc = Some v <-> exists n, numeral b s n /\ v = acc * b ^ Z.of_nat (String.length s) + n).
Proof.
  induction s as [|c s IH]; intros acc v Hb; cbn [read_digits String.length].
  - split.
    + intros [= <-]. exists 0. split; [constructor|]. change (Z.of_nat 0) with 0. rewrite Z.pow_0_r. ring.
    + intros (n & H & ->). inversion H; subst. change (Z.of_nat 0) with 0. rewrite Z.pow_0_r. f_equal. ring.
  - assert (Hp : b ^ Z.of_nat (S (String.length s)) = b * b ^ Z.of_nat (String.length s)) by (rewrite Nat2Z.inj_succ, Z.pow_succ_r by lia; reflexivity).
    split.
    + destruct (char_digit c) as [d|] eqn:E; [|discriminate]. destruct (Z.ltb_spec d b) as [L|L]; [|discriminate]. intros H. apply (IH _ _ Hb) in H. destruct H as (n & H & ->).
      exists (d * b ^ Z.of_nat (String.length s) + n). split; [constructor; [apply char_digit_iff; exact E|exact L|exact H]|]. rewrite Hp. ring.
    + intros (n & H & ->). inversion H as [|c' d s' n' Hd L Hs E1 E2]; subst. apply char_digit_iff in Hd. rewrite Hd. destruct (Z.ltb_spec d b) as [_|]; [|lia].
      apply IH; [exact Hb|]. exists n'. split; [exact Hs|]. rewrite Hp. ring.
Qed.
Lemma read_nat_iff b s v : 0 <= b -> (read_nat b s = Some v <-> s <> EmptyString /\ numeral b s v).
Proof.
  intros Hb. unfold read_nat. destruct s as [|c s]; [split; [discriminate|intros [H _]; congruence]|]. rewrite (read_digits_iff b) by exact Hb. split.
  - intros (n & H & ->). split; [discriminate|]. rewrite Z.mul_0_l, Z.add_0_l. exact H.
  - intros [_ H]. exists v. split; [exact H|]. ring.
Qed.
Lemma numeral_nominus b s n : ~ numeral b (String "-" s) n.
Proof. intros H. inversion H as [|c d s' n' Hd]; subst. apply char_digit_iff in Hd. discriminate. Qed.

(** What is read is what the text denotes, and all such text can be read. *)
Theorem C79_set_str : forall b s n, 0 <= b -> (set_str b s = Some n <-> integer_text b s n).
Proof.
  intros b s n Hb. unfold set_str, signed. split.
  - intros H. assert (P : read_nat b s = Some n -> integer_text b s n) by (intros K; apply read_nat_iff in K; [|exact Hb]; constructor; tauto).
    destruct s as [|c s]; [exact (P H)|]. destruct (ascii_dec c "-") as [->|Nc].
    + destruct (read_nat b s) as [m|] eqn:E; [|discriminate]. injection H as <-. apply read_nat_iff in E; [|exact Hb]. apply text_neg; tauto.
    + apply P. destruct c as [[|] [|] [|] [|] [|] [|] [|] [|]]; try exact H. congruence.
  - intros H. inversion H as [s' m N K E1 E2|s' m N K E1 E2]; subst.
    + assert (R : read_nat b s = Some n) by (apply read_nat_iff; auto). destruct s as [|c s]; [congruence|]. destruct (ascii_dec c "-") as [->|Nc]; [exfalso; exact (numeral_nominus _ _ _ K)|].
      destruct c as [[|] [|] [|] [|] [|] [|] [|] [|]]; try exact R. congruence.
    + rewrite (proj2 (read_nat_iff b s' m Hb) (conj N K)). reflexivity.
Qed.

(** * Printing *)
Lemma read_printed b : 2 <= b <= 36 -> forall fuel n acc, 0 <= n < 2 ^ Z.of_nat fuel -> (fuel > 0)%nat ->
  read_digits b (chars (digits fuel b n acc)) 0 = read_digits b (chars acc) n.
Proof.
  intros Hb fuel. induction fuel as [|f IH]; intros n acc Hn Hf; [lia|]. cbn [digits]. destruct (Z.ltb_spec n b) as [L|L].
  - cbn [chars fold_right read_digits]. fold (chars acc). rewrite digit_char_digit by lia. destruct (Z.ltb_spec n b); [|lia]. reflexivity.
  - assert (Hd : 0 <= n / b < 2 ^ Z.of_nat f).
    { split; [apply Z.div_pos; lia|]. apply Z.div_lt_upper_bound; [lia|]. rewrite Nat2Z.inj_succ, Z.pow_succ_r in Hn by lia. nia. }
    assert (Hf' : (f > 0)%nat). { destruct f; [|lia]. change (2 ^ Z.of_nat 0) with 1 in Hd. assert (1 <= n / b) by (apply Z.div_le_lower_bound; lia). lia. }
    rewrite IH by assumption. pose proof (Z.mod_pos_bound n b ltac:(lia)). cbn [chars fold_right read_digits]. fold (chars acc). rewrite digit_char_digit by lia.
    destruct (Z.ltb_spec (n mod b) b); [|lia]. f_equal. rewrite (Z.div_mod n b) at 3 by lia. ring.
Qed.
Lemma digits_head b : 2 <= b -> forall fuel n acc, 0 <= n < 2 ^ Z.of_nat fuel -> (fuel > 0)%nat ->
  (n = 0 /\ digits fuel b n acc = 0 :: acc) \/ exists d l, 0 < d < b /\ digits fuel b n acc = d :: l.
Proof.
  intros Hb fuel. induction fuel as [|f IH]; intros n acc Hn Hf; [lia|]. cbn [digits]. destruct (Z.ltb_spec n b) as [L|L].
  - destruct (Z.eq_dec n 0) as [->|N]; [left; auto|right]. exists n, acc. split; [lia|reflexivity].
  - right. assert (Hd : 1 <= n / b < 2 ^ Z.of_nat f).
    { split; [apply Z.div_le_lower_bound; lia|]. apply Z.div_lt_upper_bound; [lia|]. rewrite Nat2Z.inj_succ, Z.pow_succ_r in Hn by lia. nia. }
    assert (Hf' : (f > 0)%nat) by (destruct f; [change (2 ^ Z.of_nat 0) with 1 in Hd|]; lia).
    destruct (IH (n / b) (n mod b :: acc) ltac:(lia) Hf') as [[E _]|H]; [lia|exact H].
Qed.
Lemma fuel_ok n : Z.abs n < 2 ^ Z.of_nat (Z.to_nat (Z.log2 (Z.abs n) + 1)).
Proof.
  pose proof (Z.log2_nonneg (Z.abs n)). rewrite Z2Nat.id by lia. destruct (Z.eq_dec n 0) as [->|N]; [reflexivity|]. rewrite Z.add_1_r. apply Z.log2_spec. lia.
Qed.
Definition abs_str (b n : Z) : string := chars (digits (Z.to_nat (Z.log2 (Z.abs n) + 1)) b (Z.abs n) []).
Lemma abs_str_read b n : 2 <= b <= 36 -> read_digits b (abs_str b n) 0 = Some (Z.abs n).
Proof. intros Hb. unfold abs_str. rewrite read_printed; [reflexivity|exact Hb|pose proof (fuel_ok n); lia|pose proof (Z.log2_nonneg (Z.abs n)); lia]. Qed.
Lemma abs_str_head b n : 2 <= b -> (n = 0 /\ abs_str b n = String "0" EmptyString) \/ exists d s, 0 < d < b /\ abs_str b n = String (digit_char d) s.
Proof.
  intros Hb. unfold abs_str. destruct (digits_head b Hb (Z.to_nat (Z.log2 (Z.abs n) + 1)) (Z.abs n) []) as [[E ->]|(d & l & Hd & ->)]; [pose proof (fuel_ok n); lia|pose proof (Z.log2_nonneg (Z.abs n)); lia| |].
  - left. split; [lia|reflexivity].
  - right. exists d, (chars l). split; [exact Hd|reflexivity].
Qed.
Lemma get_str_eq b n : get_str b n = if n <? 0 then String "-" (abs_str b n) else abs_str b n.
Proof. reflexivity. Qed.
Lemma abs_str_numeral b n : 2 <= b <= 36 -> abs_str b n <> EmptyString /\ numeral b (abs_str b n) (Z.abs n).
Proof.
  intros Hb. apply read_nat_iff; [lia|]. unfold read_nat. destruct (abs_str_head b n ltac:(lia)) as [[_ E]|(d & s & _ & E)]; pose proof (abs_str_read b n Hb) as R; rewrite E in *; exact R.
Qed.
(** What is printed denotes the number. *)
Theorem C79_get_str : forall b n, 2 <= b <= 36 -> integer_text b (get_str b n) n.
Proof.
  intros b n Hb. destruct (abs_str_numeral b n Hb) as [N H]. rewrite get_str_eq. destruct (Z.ltb_spec n 0).
  - replace n with (- Z.abs n) at 2 by lia. apply text_neg; assumption.
  - rewrite Z.abs_eq in H by lia. apply text_pos; assumption.
Qed.
Lemma set_get b n : 2 <= b <= 36 -> set_str b (get_str b n) = Some n.
Proof. intros Hb. apply C79_set_str; [lia|]. apply C79_get_str. exact Hb. Qed.

(** No leading zeros: the text of an integer in base 10 is read in base 10, even though the base is guessed. *)
Lemma read_any_printed n : read_any (abs_str 10 n) = Some (Z.abs n).
Proof.
  destruct (abs_str_head 10 n ltac:(lia)) as [[-> E]|(d & s & Hd & E)]; [rewrite E; reflexivity|].
  pose proof (abs_str_read 10 n ltac:(lia)) as R. rewrite E in *.
  assert (Hd' : d = 1 \/ d = 2 \/ d = 3 \/ d = 4 \/ d = 5 \/ d = 6 \/ d = 7 \/ d = 8 \/ d = 9) by lia.
  repeat (destruct Hd' as [->|Hd']; [exact R|]). subst d. exact R.
Qed.
Lemma signed_printed read n : read (abs_str 10 n) = Some (Z.abs n) -> signed read (get_str 10 n) = Some n.
Proof.
  intros H. rewrite get_str_eq. unfold signed. destruct (Z.ltb_spec n 0) as [L|L].
  - rewrite H. cbn. f_equal. lia.
  - destruct (abs_str_head 10 n ltac:(lia)) as [[-> E]|(d & s & Hd & E)]; rewrite E in *; [exact H|]. rewrite Z.abs_eq in H by lia.
    assert (Hd' : d = 1 \/ d = 2 \/ d = 3 \/ d = 4 \/ d = 5 \/ d = 6 \/ d = 7 \/ d = 8 \/ d = 9) by lia.
    repeat (destruct Hd' as [->|Hd']; [exact H|]). subst d. exact H.
Qed.
Theorem C79_mpz : forall n, load_mpz (save_mpz n) = Some n.
Proof. intros n. apply signed_printed. apply read_any_printed. Qed.

(** * Splitting *)
Fixpoint free (c : ascii) (s : string) : Prop := match s with EmptyString => True | String d s' => c <> d /\ free c s' end.
Lemma split_free c l r : free c l -> split_at c (l ++ String c r) = Some (l, r).
Proof.
  induction l as [|d l IH]; cbn [free append split_at]; [intros _; rewrite Ascii.eqb_refl; reflexivity|]. intros [N F].
  destruct (Ascii.eqb_spec c d); [congruence|]. rewrite IH by exact F. reflexivity.
Qed.
Lemma split_none c l : free c l -> split_at c l = None.
Proof. induction l as [|d l IH]; cbn [free split_at]; [reflexivity|]. intros [N F]. destruct (Ascii.eqb_spec c d); [congruence|]. rewrite IH by exact F. reflexivity. Qed.
Lemma free_read c b s : char_digit c = None -> forall acc v, read_digits b s acc = Some v -> free c s.
Proof.
  intros Hc. induction s as [|d s IH]; intros acc v; cbn [read_digits free]; [tauto|]. destruct (char_digit d) as [e|] eqn:E; [|discriminate]. destruct (e <? b); [|discriminate].
  intros H. split; [congruence|exact (IH _ _ H)].
Qed.
Lemma free_get_str c b n : 2 <= b <= 36 -> char_digit c = None -> c <> "-"%char -> free c (get_str b n).
Proof.
  intros Hb Hc N. rewrite get_str_eq. pose proof (free_read c b _ Hc _ _ (abs_str_read b n Hb)) as F. destruct (n <? 0); [split; assumption|exact F].
Qed.

(** The rational that is read is the canonical fraction that was written. *)
Theorem C79_mpq : forall n d, load_mpq (save_mpq n d) = Some (n, Zpos d).
Proof.
  intros n d. unfold save_mpq, load_mpq. destruct (Pos.eqb_spec d 1) as [->|N].
  - rewrite split_none by (apply free_get_str; [lia|reflexivity|discriminate]). pose proof (C79_mpz n) as E. unfold load_mpz, save_mpz in E. rewrite E. reflexivity.
  - rewrite split_free by (apply free_get_str; [lia|reflexivity|discriminate]). pose proof (C79_mpz n) as E. pose proof (C79_mpz (Zpos d)) as E'. unfold load_mpz, save_mpz in E, E'. rewrite E, E'. reflexivity.
Qed.

(** * Floats *)
Lemma load_pair m e : load_arf (dump_pair m e) = undump_pair m e.
Proof.
  unfold load_arf, dump_pair. rewrite split_free by (apply free_get_str; [lia|reflexivity|discriminate]). rewrite !set_get by lia. reflexivity.
Qed.
Lemma pos_norm_idem p e : forall q e', pos_norm p e = (q, e') -> pos_norm q e' = (q, e').
Proof. revert e. induction p as [p IH|p IH|]; intros e q e'; cbn [pos_norm]; [intros [= <- <-]; reflexivity|apply IH|intros [= <- <-]; reflexivity]. Qed.
Lemma arf_norm_idem a : arf_norm (arf_norm a) = arf_norm a.
Proof.
  destruct a as [[|p|p] e]; unfold arf_norm at 2 3; cbn [am ae]; [reflexivity| |]; destruct (pos_norm p e) as [q e'] eqn:E; unfold arf_norm; cbn [am ae]; rewrite (pos_norm_idem _ _ _ _ E); reflexivity.
Qed.
Lemma norm_zero a : am (arf_norm a) = 0 -> arf_norm a = arf_zero.
Proof. destruct a as [[|p|p] e]; unfold arf_norm; cbn [am ae]; [reflexivity| |]; destruct (pos_norm p e); discriminate. Qed.
Lemma load_finite a : load_arf (dump_arf (Finite a)) = Some (Finite (arf_norm a)).
Proof.
  cbn [dump_arf]. rewrite load_pair. unfold undump_pair, arf_mantissa, arf_exponent. destruct (Z.eqb_spec (am (arf_norm a)) 0) as [E|E].
  - rewrite (norm_zero _ E). reflexivity.
  - rewrite <- (arf_norm_idem a) at 3. destruct (arf_norm a). reflexivity.
Qed.
Theorem C79_arf : forall x, exists y, load_arf (dump_arf x) = Some y /\ same_float x y.
Proof.
  intros [a| | |]; [|exists PosInf|exists NegInf|exists NaN]; try (split; [cbn [dump_arf]; rewrite load_pair; reflexivity|exact Logic.I]).
  exists (Finite (arf_norm a)). split; [apply load_finite|]. cbn. symmetry. apply arf_norm_spec.
Qed.
(** What the text "mantissa exponent" means when it is read: a mantissa zero goes with the exponents 0 (zero), -1, -2 (the infinities) and
    -3 (not a number) only, the rest is rejected. *)
Theorem C79_arf_texts : forall m e, let s := (get_str 16 m ++ String " " (get_str 16 e))%string in
  (m <> 0 -> exists a, load_arf s = Some (Finite a) /\ arf2R a = (IZR m * bpow radix2 e)%R) /\
  (m = 0 -> (e = 0 -> exists a, load_arf s = Some (Finite a) /\ arf2R a = 0%R) /\ (e = -1 -> load_arf s = Some PosInf) /\ (e = -2 -> load_arf s = Some NegInf) /\
     (e = -3 -> load_arf s = Some NaN) /\ (~ (-3 <= e <= 0) -> load_arf s = None)).
Proof.
  intros m e s. change s with (dump_pair m e). rewrite load_pair. unfold undump_pair. split.
  - intros N. rewrite (proj2 (Z.eqb_neq m 0) N). eexists. split; [reflexivity|]. apply (arf_norm_spec (mkArf m e)).
  - intros ->. cbn [Z.eqb]. split; [|split; [|split; [|split]]]; try (intros ->; reflexivity).
    + intros ->. exists arf_zero. split; [reflexivity|]. unfold arf2R. cbn. ring.
    + intros N. rewrite (proj2 (Z.eqb_neq e 0)), (proj2 (Z.eqb_neq e (-1))), (proj2 (Z.eqb_neq e (-2))), (proj2 (Z.eqb_neq e (-3))) by lia. reflexivity.
Qed.
(** The text identifies the number. *)
Theorem C79_arf_injective : forall x y, dump_arf x = dump_arf y -> same_float x y.
Proof.
  intros x y E. destruct (C79_arf x) as (x' & Hx & Sx). destruct (C79_arf y) as (y' & Hy & Sy). rewrite E, Hy in Hx. injection Hx as ->.
  destruct x, x', y; cbn in *; try tauto; congruence.
Qed.

(** * Balls *)
Lemma append_assoc (a b c : string) : ((a ++ b) ++ c = a ++ (b ++ c))%string.
Proof. induction a as [|x a IH]; cbn; [reflexivity|]. rewrite IH. reflexivity. Qed.
Lemma norm_sign a : 0 <= am a -> 0 <= am (arf_norm a).
Proof. destruct a as [[|p|p] e]; unfold arf_norm; cbn [am ae]; [lia| |lia]. destruct (pos_norm p e). cbn. lia. Qed.
Theorem C79_arb : forall x, arb_wf x -> exists y, load_arb (dump_arb x) = Some y /\ forall v, contains y v <-> contains x v.
Proof.
  intros [a r] W. set (y := mkArb (arf_norm a) (option_map arf_norm r)). exists y.
  assert (L : load_arb (dump_arb (mkArb a r)) = Some y).
  { unfold dump_arb, load_arb. cbn [mid]. unfold dump_arf at 1, dump_pair. rewrite append_assoc.
    match goal with |- context [(String " " ?e ++ ?r)%string] => change (String " " e ++ r)%string with (String " " (e ++ r)) end.
    rewrite split_free by (apply free_get_str; [lia|reflexivity|discriminate]).
    cbv beta iota. rewrite split_free by (apply free_get_str; [lia|reflexivity|discriminate]).
    change (get_str 16 (arf_mantissa a) ++ String " " (get_str 16 (arf_exponent a)))%string with (dump_arf (Finite a)). rewrite load_finite.
    unfold xradius. cbn [rad]. destruct r as [r|].
    - rewrite load_finite. unfold arb_wf in W. cbn [rad] in W. pose proof (norm_sign r W). destruct (Z.ltb_spec (am (arf_norm r)) 0); [lia|]. reflexivity.
    - cbn [dump_arf]. rewrite load_pair. reflexivity. }
  split; [exact L|]. intros v. unfold contains. subst y. cbn [rad mid]. destruct r as [r|]; cbn [option_map]; [|tauto].
  rewrite (proj1 (arf_norm_spec a)), (proj1 (arf_norm_spec r)). tauto.
Qed.

(** Any midpoint, also those that are not finite: the midpoint and the radius are restored. *)
Lemma dump_arf_pair x : exists m e, dump_arf x = dump_pair m e.
Proof. destruct x; cbn [dump_arf]; eauto. Qed.
Theorem C79_arb_any : forall a r, match r with Some r => 0 <= am r | None => True end -> exists b s, load_xarb (dump_xarb (mkXArb a r)) = Some (mkXArb b s) /\
  same_float a b /\ match r, s with Some r, Some s => arf2R s = arf2R r | None, None => True | _, _ => False end.
Proof.
  intros a r W. destruct (C79_arf a) as (b & La & Sb). exists b, (option_map arf_norm r). split.
  - unfold load_xarb, dump_xarb. cbn [xmid xrad]. destruct (dump_arf_pair a) as (m & e & E). rewrite E in *. unfold dump_pair. rewrite append_assoc.
    match goal with |- context [(String " " ?e ++ ?r)%string] => change (String " " e ++ r)%string with (String " " (e ++ r)) end.
    rewrite split_free by (apply free_get_str; [lia|reflexivity|discriminate]).
    cbv beta iota. rewrite split_free by (apply free_get_str; [lia|reflexivity|discriminate]).
    change (get_str 16 m ++ String " " (get_str 16 e))%string with (dump_pair m e). rewrite La. destruct r as [r|].
    + rewrite load_finite. pose proof (norm_sign r W). destruct (Z.ltb_spec (am (arf_norm r)) 0); [lia|]. reflexivity.
    + cbn [dump_arf]. rewrite load_pair. reflexivity.
  - split; [exact Sb|]. destruct r as [r|]; cbn [option_map]; [|exact Logic.I]. apply arf_norm_spec.
Qed.
(** It is the same function for balls with a finite midpoint. *)
Theorem C79_arb_finite : forall s x, load_arb s = Some x <-> load_xarb s = Some (mkXArb (Finite (mid x)) (rad x)).
Proof.
  intros s [a r]. unfold load_arb, load_xarb. cbn [mid rad]. destruct (split_at " " s) as [[m r1]|]; [|split; discriminate].
  destruct (split_at " " r1) as [[e r2]|]; [|split; discriminate]. destruct (load_arf _) as [[b| | |]|]; destruct (load_arf r2) as [[c| | |]|]; try (split; discriminate).
  all: try (destruct (am c <? 0); split; discriminate). 1: destruct (am c <? 0); [split; discriminate|]. all: split; intros E; injection E; intros; subst; reflexivity.
Qed.
Example C79_case_arb_infinite : dump_xarb (mkXArb NegInf (Some (mkArf 1 (-30)))) = "0 -2 1 -1e"%string /\ load_xarb "0 -3 0 -1"%string = Some (mkXArb NaN None) /\ load_xarb "0 -3 -1 1"%string = None.
Proof. vm_compute. auto. Qed.

(** * Construction from text *)
Theorem C79_of_string : forall s b e n, 0 <= b -> integer_text b s n -> exists a, arf_of_string s b e = Some a /\ arf2R a = (IZR n * bpow radix2 e)%R.
Proof.
  intros s b e n Hb H. apply C79_set_str in H; [|exact Hb]. unfold arf_of_string. rewrite H. eexists. split; reflexivity.
Qed.
(** In particular from the mantissa that is printed. *)
Theorem C79_of_mantissa : forall a b, 2 <= b <= 36 -> exists a', arf_of_string (get_str b (arf_mantissa a)) b (arf_exponent a) = Some a' /\ arf2R a' = arf2R a.
Proof.
  intros a b Hb. destruct (C79_of_string _ b (arf_exponent a) _ ltac:(lia) (C79_get_str b (arf_mantissa a) Hb)) as (a' & H & E). exists a'. split; [exact H|]. rewrite E.
  destruct (arf_norm_spec a) as [<- _]. reflexivity.
Qed.

Example C79_case_arf : dump_arf (Finite (mkArf (-12) (-7))) = "-3 -5"%string /\ load_arf "-3 -5"%string = Some (Finite (mkArf (-3) (-5))) /\
  load_arf "0 -2"%string = Some NegInf /\ load_arf "0 7"%string = None /\ load_arf "3"%string = None.
Proof. vm_compute. auto. Qed.
Example C79_case_arb : dump_arb (mkArb (mkArf 310 1) (Some (mkArf 1 (-30)))) = "9b 2 1 -1e"%string.
Proof. vm_compute. reflexivity. Qed.
Example C79_case_mpq : save_mpq (-120) 77 = "-120/77"%string /\ load_mpq "-120/77"%string = Some (-120, 77) /\ load_mpz "010"%string = Some 8 /\ arf_of_string "-1F"%string 16 3 = Some (mkArf (-31) 3).
Proof. vm_compute. auto. Qed.
