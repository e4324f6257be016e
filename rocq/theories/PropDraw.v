(** Property C105: how many random digits a RealNumber draws. *)
From Coq Require Import ZArith QArith Bool List Reals Qreals Lra Lia.
From Flocq Require Import Core.
From Verif Require Import Arf Arb Real SpecArf SpecReal ArfProofs ArbProofs RealProofs RealProofs2 RealProofs3 RealProofs4 RealProofs5 RealProofs6 RealProofs7 SpecCost SpecDraw DrawProofs RealRefuted Fast48 Rand48Proofs.
Import ListNotations.
Open Scope R_scope.

(** arf(prec) is finished after [N] digits of every generator exactly if no random number in [x] needs more: a random number needs its
    leading zeros and [prec + 1] digits, a constrained one only the digits that its initial part does not provide, factors some guard digits. *)
Theorem C105_drawn : forall rng x, num_ok rng x -> forall prec, (0 <= prec)%Z -> forall N,
  (exists a, num_arf rng N x prec = Some a) <-> draws_at_most rng x prec N.
Proof.
  intros rng x Hok prec Hp N. rewrite <- (num_exact rng x prec N Hok Hp). destruct (num_arf rng N x prec) as [a|]; split; try congruence; [intros _; exists a; reflexivity|intros [a E]; discriminate].
Qed.
(** Such a number of digits exists, it grows with the precision, and an atom's is unique. *)
Theorem C105_bounded : forall rng x, num_ok rng x -> forall prec, exists N, draws_at_most rng x prec N /\ forall prec', (prec' <= prec)%Z -> draws_at_most rng x prec' N.
Proof.
  intros rng x Hok prec. assert (H : exists N, draws_at_most rng x prec N).
  { unfold draws_at_most. pose proof (atoms_ok rng x Hok) as Ha. induction (atoms x) as [|a l IH]; [exists 0%nat; intros a []|].
    destruct IH as [N HN]; [intros b Hb; apply Ha; right; exact Hb|]. destruct (draws_exists rng a (needed_precision x prec) (Ha a (or_introl eq_refl))) as [n Hn].
    exists (Nat.max n N). intros b [<-|Hb]; [exists n; split; [exact Hn|lia]|]. destruct (HN b Hb) as (m & Hm & Le). exists m. split; [exact Hm|lia]. }
  destruct H as [N HN]. exists N. split; [exact HN|]. intros prec' Hp. exact (draws_at_most_mono rng x prec' prec N Hok Hp HN).
Qed.
(** Digits beyond these do not matter: arf, arb, the conversion to double and cmp. *)
Theorem C105_arf : forall rng x, num_ok rng x -> forall prec, (0 <= prec)%Z -> forall N, draws_at_most rng x prec N ->
  decided_by N [x] rng (fun rng fuel => num_arf rng fuel x prec) /\ decided_by N [x] rng (fun rng fuel => num_arb rng fuel x prec).
Proof.
  intros rng x Hok prec Hp N H. destruct (num_settled rng x prec N Hok Hp H) as [a Ha]. split; [exists a|exists (refine_ball a prec)]; intros rng' fuel Hs Hf.
  - apply Ha; [apply Hs; left; reflexivity|exact Hf].
  - rewrite num_arb_eq by exact Hp. rewrite Ha by (exact Hf || (apply Hs; left; reflexivity)). reflexivity.
Qed.
Theorem C105_double : forall rng x, num_ok rng x -> forall N, draws_at_most rng x 54 N ->
  decided_by N [x] rng (fun rng fuel => num_double rng fuel x).
Proof.
  intros rng x Hok N H. destruct (num_settled rng x 54 N Hok ltac:(lia) H) as [a Ha]. exists (arf_to_double a). intros rng' fuel Hs Hf.
  unfold num_double. change ARF_DOUBLE_PRECISION with 54%Z. rewrite Ha by (exact Hf || (apply Hs; left; reflexivity)). reflexivity.
Qed.
Theorem C105_cmp : forall rng x, num_ok rng x -> forall b lo hi, arb_interval b = Some (lo, hi) -> forall N, draws_at_most rng x (Z.max (arf_bits lo) (arf_bits hi) + 1) N ->
  decided_by N [x] rng (fun rng fuel => num_cmp rng fuel x b).
Proof.
  intros rng x Hok b lo hi E N H. assert (Hp : (0 <= Z.max (arf_bits lo) (arf_bits hi) + 1)%Z) by (pose proof (arf_bits_nonneg lo); lia).
  destruct (num_settled rng x _ N Hok Hp H) as [a Ha]. eexists. intros rng' fuel Hs Hf. unfold num_cmp. rewrite E. rewrite Ha by (exact Hf || (apply Hs; left; reflexivity)). reflexivity.
Qed.
(** All of them matter: another last digit of a random number gives another approximation. *)
Theorem C105_used : forall rng seed z prec, leading_zeros (rng seed) z -> (1 <= prec)%Z ->
  let last := (z + Z.to_nat prec)%nat in
  forall rng', same_digits last (RAtom (ARandom seed)) rng rng' -> rng' seed last = negb (rng seed last) ->
  exists a a', (forall fuel, (last < fuel)%nat -> num_arf rng fuel (RAtom (ARandom seed)) prec = Some a /\ num_arf rng' fuel (RAtom (ARandom seed)) prec = Some a') /\ arf2R a <> arf2R a'.
Proof.
  intros rng seed z prec [A B] Hp last rng' Hs Hl. assert (Hs' : forall i, (i < last)%nat -> rng' seed i = rng seed i) by (intros i Hi; apply (Hs (ARandom seed)); [left; reflexivity|exact Hi]).
  assert (A' : rng' seed z = true) by (rewrite Hs' by (unfold last; lia); exact A).
  assert (B' : forall i, (i < z)%nat -> rng' seed i = false) by (intros i Hi; rewrite Hs' by (unfold last; lia); exact (B i Hi)).
  assert (E : (z + Z.to_nat (clamp prec + 1))%nat = S last) by (rewrite clamp_pos by lia; unfold last; lia).
  exists (random_closed (rng seed) z prec), (random_closed (rng' seed) z prec). split.
  - intros fuel Hf. unfold num_arf. fold (clamp prec). rewrite clamp_pos by lia. cbn [arf_atom]. split; apply arf_random_eq; try assumption; lia.
  - unfold random_closed. rewrite E. intros C. unfold arf2R in C. cbn [am ae] in C. apply Rmult_eq_reg_r in C; [|apply Rgt_not_eq, bpow2_pos]. apply eq_IZR in C.
    exact (prefix_flip (rng seed) last (rng' seed) Hl Hs' (eq_sym C)).
Qed.

(** x < y: if the numbers have at most [D] leading digits in common, precision 2 (D + 4) is enough. *)
Theorem C105_less : forall rng x y v w, num_ok rng x -> num_ok rng y -> num_value rng x v -> num_value rng y w -> v <> 0 -> w <> 0 -> v <> w ->
  forall D, common_digits v w D -> forall n, (D + 4 <= 2 * 2 ^ Z.of_nat n)%Z ->
  forall N, (let M := Z.max 2 (2 * (D + 4)) in draws_at_most rng x M N /\ draws_at_most rng y M N) ->
  decided_by N [x; y] rng (fun rng fuel => num_lt rng (n + 1) fuel x y).
Proof.
  intros rng x y v w Hx Hy Hv Hw V0 W0 Ne D HD n Hn N [H1 H2]. unfold num_lt. destruct (rnum_eqb x y); [exists false; reflexivity|].
  destruct (lt_settled rng x y v w D N _ Hx Hy Hv Hw V0 W0 Ne HD H1 H2 ltac:(lia) n 2%Z arb_zero_pm_inf arb_zero_pm_inf ltac:(lia) Hn ltac:(apply stale_inf; lia) ltac:(apply stale_inf; lia)) as [t Ht].
  exists t. intros rng' fuel Hs Hf. rewrite Nat.add_1_r. apply Ht; [apply Hs; left; reflexivity|apply Hs; right; left; reflexivity|exact Hf].
Qed.
(** Comparisons with floating point numbers and integers. *)
Theorem C105_less_arf : forall rng x v w, num_ok rng x -> num_value rng x v -> v <> 0 -> v <> arf2R w ->
  forall D, Rabs v <= bpow radix2 D * Rabs (v - arf2R w) -> forall n, (D + 4 <= 2 * 2 ^ Z.of_nat n)%Z ->
  forall N, draws_at_most rng x (Z.max 2 (2 * (D + 4))) N ->
  decided_by N [x] rng (fun rng fuel => num_lt_arf rng (n + 1) fuel x w) /\ decided_by N [x] rng (fun rng fuel => num_gt_arf rng (n + 1) fuel x w).
Proof.
  intros rng x v w Hx Hv V0 Ne D HD n Hn N H. unfold num_gt_arf, num_lt_arf. destruct (num_eq_arf x w); [split; exists false; reflexivity|].
  destruct (lt_arf_settled rng x v D N _ Hx Hv V0 H w ltac:(lia) ltac:(lia) Ne HD n 2%Z (fun _ _ => arb_zero_pm_inf) ltac:(lia) Hn ltac:(intros; apply stale_inf; lia)) as [t Ht].
  split; [exists t|exists (negb t)]; intros rng' fuel Hs Hf; rewrite Nat.add_1_r; rewrite Ht by (exact Hf || (apply Hs; left; reflexivity)); reflexivity.
Qed.
Theorem C105_less_integer : forall rng x v m, num_ok rng x -> num_value rng x v -> v <> 0 -> v <> IZR m ->
  forall D, Rabs v <= bpow radix2 D * Rabs (v - IZR m) -> forall n, (D + 4 <= 2 * 2 ^ Z.of_nat n)%Z ->
  forall N, draws_at_most rng x (Z.max 2 (2 * (D + 4))) N ->
  decided_by N [x] rng (fun rng fuel => num_lt_Z rng (n + 1) fuel x m) /\ decided_by N [x] rng (fun rng fuel => num_gt_Z rng (n + 1) fuel x m).
Proof.
  intros rng x v m Hx Hv V0 Ne D HD n Hn N H. rewrite <- (arf_of_Z_spec m) in Ne, HD. exact (C105_less_arf rng x v (arf_of_Z m) Hx Hv V0 Ne D HD n Hn N H).
Qed.
(** Comparisons with rational numbers, which start with precision 64. *)
Theorem C105_less_rational : forall mag_up, mag_up_within mag_up -> forall rng x v q, num_ok rng x -> num_value rng x v -> v <> 0 -> v <> Q2R q ->
  forall D, Rabs v <= bpow radix2 D * Rabs (v - Q2R q) -> forall n, (D + 4 <= 64 * 2 ^ Z.of_nat n)%Z ->
  forall N, draws_at_most rng x (Z.max 64 (2 * (D + 4))) N ->
  decided_by N [x] rng (fun rng fuel => num_lt_q rng mag_up (n + 1) fuel x q) /\ decided_by N [x] rng (fun rng fuel => num_gt_q rng mag_up (n + 1) fuel x q).
Proof.
  intros mag_up Hm rng x v q Hx Hv V0 Ne D HD n Hn N H. assert (Hd : 0 < Rabs (v - Q2R q)) by (apply Rabs_pos_lt; lra). pose proof (Rabs_pos v) as Pv.
  assert (Hd2 : forall p a, (D + 4 <= p)%Z -> Rabs (v - arf2R a) + ball_rad a p <= 5 * Rabs v * bpow radix2 (- p) -> Q2R q <= arf2R a + 2 * ball_rad a p -> arf2R a - 2 * ball_rad a p <= Q2R q -> False).
  { intros p a C Bn F1 F2. pose proof (small_enough (Rabs v) (Rabs (v - Q2R q)) D p Hd Pv HD C) as Sm. pose proof (Rabs_pos (v - arf2R a)) as Pva.
    pose proof (Rabs_triang (v - arf2R a) (arf2R a - Q2R q)) as T1; replace (v - arf2R a + (arf2R a - Q2R q)) with (v - Q2R q) in T1 by ring.
    assert (Rabs (arf2R a - Q2R q) <= 2 * ball_rad a p) by (apply Rabs_le; lra). lra. }
  assert (G : forall op, (forall p a, op (refine_ball a p) (Qnum q) (Zpos (Qden q)) = None -> Q2R q <= arf2R a + 2 * ball_rad a p /\ arf2R a - 2 * ball_rad a p <= Q2R q) ->
    decided_by N [x] rng (fun rng fuel => num_cmpq_loop rng op (n + 1) fuel x q ARB_PRECISION_FAST)).
  { intros op Hop. destruct (cmpq_settled rng x v D N _ Hx Hv V0 H op q ltac:(lia)) with (n := n) (p0 := 64%Z) as [t Ht]; [|lia|exact Hn|].
    - intros p a _ C Bn E. destruct (Hop p a E) as [F1 F2]. exact (Hd2 p a C Bn F1 F2).
    - exists t. intros rng' fuel Hs Hf. rewrite Nat.add_1_r. apply Ht; [apply Hs; left; reflexivity|exact Hf]. }
  split; unfold num_lt_q, num_gt_q; (destruct x; [eexists; reflexivity|..]).
  1, 2: apply G; intros p b E; destruct (opq_lt_refine mag_up q Hm b p) as (_ & _ & F); destruct (F E); lra.
  1, 2: apply G; intros p b E; destruct (opq_gt_refine mag_up q Hm b p) as (_ & _ & F); destruct (F E); lra.
Qed.

(** The random numbers with seeds 8 and 15 are 0.000101... and 0.000100...: three leading zeros each.  [x < y] needs three rounds and no
    more than 18 digits of each; the conversion of [x] to double needs exactly 58 digits, that of [x^2 y] exactly 62, and a constrained
    number with three known digits draws none for precision 2 and four (three of which are zeros) for precision 3. *)
Lemma zeros8 : leading_zeros (rand48 8) 3.
Proof. split; [c48|]. intros i Hi. destruct i as [|[|[|i]]]; [c48..|lia]. Qed.
Lemma zeros15 : leading_zeros (rand48 15) 3.
Proof. split; [c48|]. intros i Hi. destruct i as [|[|[|i]]]; [c48..|lia]. Qed.
Example C105_example : let x := RAtom (ARandom 8) in let y := RAtom (ARandom 15) in let c := RAtom (AConstr (mkArf 5 (-2)) (-2) 8) in let xxy := RProd [(ARandom 8, 2%nat); (ARandom 15, 1%nat)] in
  decided_by 18 [x; y] rand48 (fun rng fuel => num_lt rng 3 fuel x y) /\
  (forall N, (exists a, num_arf rand48 N x 54 = Some a) <-> (58 <= N)%nat) /\
  (forall N, (exists a, num_arf rand48 N xxy 54 = Some a) <-> (62 <= N)%nat) /\
  (forall N, exists a, num_arf rand48 N c 2 = Some a) /\ (forall N, (exists a, num_arf rand48 N c 3 = Some a) <-> (4 <= N)%nat).
Proof.
  intros x y c xxy.
  assert (U8 : forall n, (exists z, leading_zeros (rand48 8) z /\ n = (z + 1)%nat) <-> n = 4%nat) by (intros n; split; [intros (z & Hz & ->); rewrite (leading_zeros_unique _ _ _ Hz zeros8); reflexivity|intros ->; exists 3%nat; split; [exact zeros8|reflexivity]]).
  assert (D8 : forall p n, (0 <= p)%Z -> draws rand48 (ARandom 8) p n <-> n = (3 + Z.to_nat (p + 1))%nat).
  { intros p n Hp. unfold draws. cbn [known_digits seed_of]. destruct (Z.leb_spec (p + 1) 0); [lia|]. rewrite Z.sub_0_r. split; [intros (z & Hz & ->); rewrite (leading_zeros_unique _ _ _ Hz zeros8); reflexivity|intros ->; exists 3%nat; split; [exact zeros8|reflexivity]]. }
  assert (D15 : forall p n, (0 <= p)%Z -> draws rand48 (ARandom 15) p n <-> n = (3 + Z.to_nat (p + 1))%nat).
  { intros p n Hp. unfold draws. cbn [known_digits seed_of]. destruct (Z.leb_spec (p + 1) 0); [lia|]. rewrite Z.sub_0_r. split; [intros (z & Hz & ->); rewrite (leading_zeros_unique _ _ _ Hz zeros15); reflexivity|intros ->; exists 3%nat; split; [exact zeros15|reflexivity]]. }
  assert (Ox : num_ok rand48 x) by exact (Rand48Proofs.rand48_nonzero 8). assert (Oy : num_ok rand48 y) by exact (Rand48Proofs.rand48_nonzero 15).
  assert (Oc : num_ok rand48 c) by (split; [exact (Rand48Proofs.rand48_nonzero 8)|exists 5%Z; reflexivity]).
  assert (Op : num_ok rand48 xxy) by (split; [discriminate|]; intros a k [E|[E|[]]]; injection E as <- <-; split; try lia; apply Rand48Proofs.rand48_nonzero).
  destruct (num_value_exists rand48 x) as [v Hv]. destruct (num_value_exists rand48 y) as [w Hw].
  pose proof Hv as Bv. pose proof Hw as Bw. simpl in Bv, Bw. r48bound Bv 20%nat. r48bound Bw 20%nat.
  split; [|split; [|split; [|split]]].
  - apply (C105_less rand48 x y v w Ox Oy Hv Hw ltac:(lra) ltac:(lra) ltac:(lra) 3 ltac:(unfold common_digits; simpl bpow; unfold Rabs; destruct (Rcase_abs v); destruct (Rcase_abs w); destruct (Rcase_abs (v - w)); lra) 2 ltac:(simpl; lia)).
    cbv zeta. change (Z.max 2 (2 * (3 + 4)))%Z with 14%Z. split; intros a [<-|[]]; exists 18%nat; (split; [apply D8 + apply D15; [simpl; lia|reflexivity]|lia]).
  - intros N. rewrite (C105_drawn rand48 x Ox 54 ltac:(lia)). split.
    + intros Hd. destruct (Hd (ARandom 8) (or_introl eq_refl)) as (n & Hn & Le). apply D8 in Hn; [|simpl; lia]. subst n. exact Le.
    + intros Le a [<-|[]]. exists 58%nat. split; [apply D8; [simpl; lia|reflexivity]|exact Le].
  - intros N. rewrite (C105_drawn rand48 xxy Op 54 ltac:(lia)). split.
    + intros Hd. destruct (Hd (ARandom 8) (or_introl eq_refl)) as (n & Hn & Le). change (needed_precision xxy 54) with 58%Z in Hn. apply D8 in Hn; [|lia]. subst n. exact Le.
    + intros Le a [<-|[<-|[]]]; exists 62%nat; (split; [change (needed_precision xxy 54) with 58%Z; cbn [fst]; apply D8 + apply D15; [lia|reflexivity]|exact Le]).
  - intros N. apply (C105_drawn rand48 c Oc 2 ltac:(lia)). intros a [<-|[]]. exists 0%nat. split; [reflexivity|lia].
  - intros N. rewrite (C105_drawn rand48 c Oc 3 ltac:(lia)). split.
    + intros Hd. destruct (Hd _ (or_introl eq_refl)) as (n & Hn & Le). apply U8 in Hn. subst n. exact Le.
    + intros Le a [<-|[]]. exists 4%nat. split; [apply U8; reflexivity|exact Le].
Qed.
