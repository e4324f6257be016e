(** Proofs about native integers. *)
From Coq Require Import ZArith QArith Qcanon Bool List Reals Lia.
From Verif Require Import Arf Arb SpecArf ArfProofs ArbProofs Gen Ring Module Element Loops Native SpecNative.
Import ListNotations.
Open Scope Z_scope.

Lemma cast_id s n v : 1 <= n -> min_of s n <= v <= max_of s n -> cast s n v = v.
Proof.
  intros N R. unfold cast, min_of, max_of in *.
  assert (P : 2 ^ n = 2 * 2 ^ (n - 1)). { replace n with (Z.succ (n - 1)) at 1 by lia. apply Z.pow_succ_r. lia. }
  assert (Q : 0 < 2 ^ (n - 1)) by (apply Z.pow_pos_nonneg; lia).
  destruct s; cbn [andb].
  - destruct (Z_lt_le_dec v 0) as [H|H].
    + replace (v mod 2 ^ n) with (v + 2 ^ n).
      * destruct (Z.leb_spec (2 ^ (n - 1)) (v + 2 ^ n)); lia.
      * apply Z.mod_unique with (-1); lia.
    + rewrite Z.mod_small by lia. destruct (Z.leb_spec (2 ^ (n - 1)) v); lia.
  - apply Z.mod_small. lia.
Qed.
Lemma limits_mono s n m : 1 <= n -> n <= m -> min_of s m <= min_of s n /\ max_of s n <= max_of s m.
Proof.
  intros N L. unfold min_of, max_of. destruct s.
  - assert (2 ^ (n - 1) <= 2 ^ (m - 1)) by (apply Z.pow_le_mono_r; lia). lia.
  - assert (2 ^ n <= 2 ^ m) by (apply Z.pow_le_mono_r; lia). lia.
Qed.
Lemma range_limits pl t v : in_range pl t v <-> min_of (is_signed t) (bits pl t) <= v <= max_of (is_signed t) (bits pl t).
Proof. unfold in_range, min_of, max_of. destruct (is_signed t); lia. Qed.
Lemma bits_pos pl t : platform_ok pl -> 1 <= bits pl t.
Proof. intros (?&?&?&?&?). destruct t; cbn; lia. Qed.

Lemma to_supported_exact pl t v : platform_ok pl -> in_range pl t v -> to_supported_integer pl t v = v.
Proof.
  intros P R. unfold to_supported_integer. apply range_limits in R.
  destruct (Z.leb_spec (min_of (is_signed t) (slong_bits pl)) (min_of (is_signed t) (bits pl t))) as [L|L]; [|reflexivity].
  destruct (Z.leb_spec (max_of (is_signed t) (bits pl t)) (max_of (is_signed t) (slong_bits pl))) as [M|M]; cbn [andb]; [|reflexivity].
  apply cast_id; [destruct P as (?&?&?&?&?); lia|lia].
Qed.
Lemma to_gmp_exact pl t v : platform_ok pl -> in_range pl t v -> to_gmp pl t v = v.
Proof.
  intros P R. apply range_limits in R. unfold to_gmp.
  assert (G : bits pl t <= long_bits pl -> cast (is_signed t) (long_bits pl) v = v).
  { intros L. pose proof (limits_mono (is_signed t) (bits pl t) (long_bits pl) (bits_pos pl t P) L).
    apply cast_id; [destruct P as (?&?&?&?&?); lia|lia]. }
  destruct P as (?&?&?&?&?). destruct t; try reflexivity; apply G; cbn; lia.
Qed.
Lemma arf_of_long_exact pl v : platform_ok pl -> in_range pl Long v -> arf_of_long pl v = arf_of_Z v.
Proof.
  intros P R. unfold arf_of_long. apply range_limits in R. cbn [is_signed bits] in R.
  assert (L : long_bits pl <= slong_bits pl) by (destruct P as (?&?&?&?&?); lia).
  pose proof (limits_mono true (long_bits pl) (slong_bits pl) (bits_pos pl Long P) L).
  rewrite cast_id; [reflexivity|destruct P as (?&?&?&?&?); lia|lia].
Qed.
Lemma arf_of_int_exact pl v : platform_ok pl -> in_range pl Int v -> arf_of_int pl v = arf_of_Z v.
Proof.
  intros P R. unfold arf_of_int.
  assert (L : int_bits pl <= long_bits pl) by (destruct P as (?&?&?&?&?); lia).
  pose proof (limits_mono true (int_bits pl) (long_bits pl) (bits_pos pl Int P) L).
  assert (R' := R). apply range_limits in R. cbn [is_signed bits] in R.
  rewrite cast_id; [|destruct P as (?&?&?&?&?); lia|lia].
  apply arf_of_long_exact; [assumption|]. apply range_limits. cbn [is_signed bits]. lia.
Qed.

(** * Decimal strings *)
Lemma digit_code d : 0 <= d <= 9 -> digit (48 + d) = Some d.
Proof. intros H. unfold digit. replace (48 <=? 48 + d) with true by lia. replace (48 + d <=? 57) with true by lia. cbn [andb]. f_equal. lia. Qed.
Lemma mod10 n : 0 <= n mod 10 <= 9.
Proof. pose proof (Z.mod_pos_bound n 10). lia. Qed.
Lemma parse_print fuel : forall c n acc, 0 <= n < 2 ^ Z.of_nat fuel -> (0 < fuel)%nat ->
  parse_digits 10 (print_digits fuel None c n acc) 0 = parse_digits 10 acc n.
Proof.
  induction fuel as [|fuel IH]; intros c n acc R F; [lia|]. cbn [print_digits]. cbv zeta.
  pose proof (Z_div_mod_eq_full n 10) as D. pose proof (mod10 n) as M.
  destruct (Z.eqb_spec (n / 10) 0) as [E|E].
  - cbn [parse_digits]. rewrite digit_code by exact M. replace (n mod 10 <? 10) with true by lia. f_equal. lia.
  - rewrite IH.
    + cbn [parse_digits]. rewrite digit_code by exact M. replace (n mod 10 <? 10) with true by lia. f_equal. lia.
    + rewrite Nat2Z.inj_succ, Z.pow_succ_r in R by lia. split; [apply Z.div_pos; lia|]. apply Z.div_lt_upper_bound; lia.
    + destruct fuel; [|lia]. exfalso. cbn in R. assert (n = 0 \/ n = 1) as [->| ->] by lia; apply E; reflexivity.
Qed.
Lemma print_first fuel : forall c n acc, 0 < n < 2 ^ Z.of_nat fuel ->
  exists d rest, print_digits fuel None c n acc = (48 + d) :: rest /\ 1 <= d <= 9.
Proof.
  induction fuel as [|fuel IH]; intros c n acc R; [cbn in R; lia|]. cbn [print_digits]. cbv zeta.
  pose proof (Z_div_mod_eq_full n 10) as D. pose proof (mod10 n) as M.
  destruct (Z.eqb_spec (n / 10) 0) as [E|E].
  - exists (n mod 10), acc. split; [reflexivity|lia].
  - apply IH. rewrite Nat2Z.inj_succ, Z.pow_succ_r in R by lia. assert (0 <= n / 10) by (apply Z.div_pos; lia).
    split; [lia|]. apply Z.div_lt_upper_bound; lia.
Qed.
Lemma parse_unsigned_print n : 0 <= n -> let s := print_digits (Z.to_nat (Z.log2 n + 1)) None 0 n [] in
  parse_unsigned s = Some n /\ exists d rest, s = (48 + d) :: rest /\ 0 <= d <= 9.
Proof.
  intros N s. pose proof (Z.log2_nonneg n) as L0.
  destruct (Z.eq_dec n 0) as [E|E].
  - subst s. rewrite E. cbn. split; [reflexivity|]. exists 0, []. split; [reflexivity|lia].
  - assert (R : 0 < n < 2 ^ Z.of_nat (Z.to_nat (Z.log2 n + 1))).
    { rewrite Z2Nat.id by lia. pose proof (Z.log2_spec n). replace (Z.log2 n + 1) with (Z.succ (Z.log2 n)) by lia. lia. }
    destruct (print_first _ 0 n [] R) as (d & rest & Es & Hd).
    pose proof (parse_print (Z.to_nat (Z.log2 n + 1)) 0 n [] ltac:(lia) ltac:(lia)) as P. fold s in P, Es. cbn [parse_digits] in P.
    split; [|exists d, rest; split; [exact Es|lia]].
    rewrite <- P, Es. assert (C : d = 1 \/ d = 2 \/ d = 3 \/ d = 4 \/ d = 5 \/ d = 6 \/ d = 7 \/ d = 8 \/ d = 9) by lia.
    destruct C as [->|[->|[->|[->|[->|[->|[->|[->| ->]]]]]]]]; reflexivity.
Qed.
Lemma parse_lexical_cast v : parse (lexical_cast None v) = Ok v.
Proof.
  unfold lexical_cast. destruct (parse_unsigned_print (Z.abs v) (Z.abs_nonneg v)) as (P & d & rest & E & Hd).
  destruct (Z.ltb_spec v 0) as [N|N].
  - unfold parse. rewrite Z.eqb_refl, P. cbn [option_map]. f_equal. lia.
  - unfold parse. rewrite E in P |- *.
    replace (48 + d =? 45) with false by lia. rewrite P. f_equal. lia.
Qed.

(** * Separators of thousands *)
Lemma parse_digits_bad b c : digit c = None -> forall s acc, In c s -> parse_digits b s acc = None.
Proof.
  intros D. induction s as [|k s IH]; intros acc []; cbn [parse_digits].
  - subst k. rewrite D. reflexivity.
  - destruct (digit k); [|reflexivity]. destruct (_ <? _); [|reflexivity]. apply IH. assumption.
Qed.
Lemma print_keeps c : forall fuel sep k n acc, In c acc -> In c (print_digits fuel sep k n acc).
Proof.
  induction fuel as [|fuel IH]; intros sep k n acc H; cbn [print_digits]; [exact H|]. cbv zeta.
  assert (K : In c (match sep with Some c0 => if (0 <? k) && (k mod 3 =? 0) then c0 :: acc else acc | None => acc end)).
  { destruct sep; [|exact H]. destruct (_ && _); [right|]; exact H. }
  destruct (n / 10 =? 0); [right; exact K|]. apply IH. right. exact K.
Qed.
Lemma print_first_sep fuel : forall sep c n acc, 0 < n < 2 ^ Z.of_nat fuel ->
  exists d rest, print_digits fuel sep c n acc = (48 + d) :: rest /\ 1 <= d <= 9.
Proof.
  induction fuel as [|fuel IH]; intros sep c n acc R; [cbn in R; lia|]. cbn [print_digits]. cbv zeta.
  pose proof (Z_div_mod_eq_full n 10) as D. pose proof (mod10 n) as M.
  destruct (Z.eqb_spec (n / 10) 0) as [E|E].
  - eexists (n mod 10), _. split; [reflexivity|lia].
  - apply IH. rewrite Nat2Z.inj_succ, Z.pow_succ_r in R by lia. assert (0 <= n / 10) by (apply Z.div_pos; lia).
    split; [lia|]. apply Z.div_lt_upper_bound; lia.
Qed.
Lemma print_separates c n fuel : 1000 <= n -> In c (print_digits (S (S (S (S fuel)))) (Some c) 0 n []).
Proof.
  intros N. cbn [print_digits].
  assert (1 <= n / 10 / 10 / 10) by (repeat (apply Z.div_le_lower_bound; [lia|]); lia).
  assert (10 <= n / 10 / 10) by (repeat (apply Z.div_le_lower_bound; [lia|]); lia).
  assert (100 <= n / 10) by (repeat (apply Z.div_le_lower_bound; [lia|]); lia).
  replace (n / 10 =? 0) with false by lia. replace (n / 10 / 10 =? 0) with false by lia. replace (n / 10 / 10 / 10 =? 0) with false by lia.
  cbn -[Z.div Z.modulo Z.eqb]. 
  destruct (n / 10 / 10 / 10 / 10 =? 0); [|apply print_keeps]; right; left; reflexivity.
Qed.
Lemma print_small c n : 0 <= n < 1000 -> forall fuel, print_digits fuel (Some c) 0 n [] = print_digits fuel None 0 n [].
Proof.
  intros N fuel. destruct fuel as [|[|[|fuel]]]; [reflexivity| | |]; cbn [print_digits]; cbn -[Z.div Z.modulo Z.eqb print_digits].
  - reflexivity.
  - reflexivity.
  - destruct (n / 10 =? 0); [reflexivity|]. destruct (n / 10 / 10 =? 0); [reflexivity|].
    replace (n / 10 / 10 / 10) with 0; [reflexivity|]. symmetry. rewrite !Z.div_div by lia. apply Z.div_small. lia.
Qed.
Lemma lexical_cast_small c v : Z.abs v < 1000 -> lexical_cast (Some c) v = lexical_cast None v.
Proof. intros H. unfold lexical_cast. rewrite print_small by lia. reflexivity. Qed.
Lemma lexical_cast_large c v : digit c = None -> 1000 <= Z.abs v -> parse (lexical_cast (Some c) v) = Err InvalidArgument.
Proof.
  intros D H.
  assert (L : 9 <= Z.log2 (Z.abs v)) by (apply Z.log2_le_pow2; lia).
  assert (R : 0 < Z.abs v < 2 ^ Z.of_nat (Z.to_nat (Z.log2 (Z.abs v) + 1))).
  { rewrite Z2Nat.id by lia. pose proof (Z.log2_spec (Z.abs v)). replace (Z.log2 (Z.abs v) + 1) with (Z.succ (Z.log2 (Z.abs v))) by lia. lia. }
  unfold lexical_cast. destruct (print_first_sep _ (Some c) 0 (Z.abs v) [] R) as (d & rest & E & Hd).
  assert (I : In c (print_digits (Z.to_nat (Z.log2 (Z.abs v) + 1)) (Some c) 0 (Z.abs v) [])).
  { replace (Z.to_nat (Z.log2 (Z.abs v) + 1)) with (S (S (S (S (Z.to_nat (Z.log2 (Z.abs v) + 1 - 4)))))) by lia. apply print_separates. exact H. }
  assert (P : parse_unsigned (print_digits (Z.to_nat (Z.log2 (Z.abs v) + 1)) (Some c) 0 (Z.abs v) []) = None).
  { pose proof (parse_digits_bad 10 c D _ 0 I) as B. rewrite E in B |- *. rewrite <- B. 
    assert (C : d = 1 \/ d = 2 \/ d = 3 \/ d = 4 \/ d = 5 \/ d = 6 \/ d = 7 \/ d = 8 \/ d = 9) by lia.
    destruct C as [->|[->|[->|[->|[->|[->|[->|[->| ->]]]]]]]]; reflexivity. }
  destruct (Z.ltb_spec v 0) as [N|N].
  - unfold parse. rewrite Z.eqb_refl, P. reflexivity.
  - unfold parse. rewrite E in P |- *. replace (48 + d =? 45) with false by lia. rewrite P. reflexivity.
Qed.
