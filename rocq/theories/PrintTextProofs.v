(** Proofs about printed sums *)
From Coq Require Import ZArith QArith Qcanon Qreals Bool List Ascii String Reals Lia Lra.
From Flocq Require Import Core.
From Verif Require Import Arf Arb SpecArf Real SpecReal RealProofs3 Double SpecDouble Text SpecText PropText PropIeee Output SpecOutput OutputProofs2 OutputProofs3 PropOutput Gen SpecGen GenProofs
  Ring SpecRing RingProofs Module Element SpecModule SpecLoops Print SpecPrint PrintProofs PrintText SpecPrintText.
Import ListNotations.
Open Scope string_scope.

(** * Parentheses: where the summands end *)
(** The depth after reading; no space outside of parentheses. *)
Fixpoint scan (d : nat) (s : string) : option nat :=
  match s with
  | EmptyString => Some d
  | String c s' =>
      if Ascii.eqb c "(" then scan (S d) s'
      else if Ascii.eqb c ")" then match d with O => None | S d' => scan d' s' end
      else if Ascii.eqb c " " && Nat.eqb d 0 then None
      else scan d s'
  end.
Lemma scan_app a b : forall d, scan d (a ++ b) = match scan d a with Some d' => scan d' b | None => None end.
Proof.
  induction a as [|c a IH]; intros d; [reflexivity|]. cbn [append scan]. destruct (Ascii.eqb c "("); [apply IH|]. destruct (Ascii.eqb c ")"); [destruct d; [reflexivity|apply IH]|].
  destruct (Ascii.eqb c " " && Nat.eqb d 0); [reflexivity|apply IH].
Qed.
Definition plain (c : ascii) : bool := negb (Ascii.eqb c "(") && negb (Ascii.eqb c ")") && negb (Ascii.eqb c " ").
Lemma scan_plain s : all_chars plain s = true -> forall d, scan d s = Some d.
Proof.
  induction s as [|c s IH]; intros H d; [reflexivity|]. cbn [all_chars] in H. apply andb_true_iff in H. destruct H as [Hc H]. unfold plain in Hc. rewrite !andb_true_iff, !negb_true_iff in Hc. destruct Hc as [[H1 H2] H3].
  cbn [scan]. rewrite H1, H2, H3. cbn [andb]. apply IH, H.
Qed.
Definition ends (r : string) : Prop := r = "" \/ exists t, r = String " " t.
Lemma closed_split a : forall b d r r', scan d a = Some 0%nat -> scan d b = Some 0%nat -> ends r -> ends r' -> a ++ r = b ++ r' -> a = b /\ r = r'.
Proof.
  induction a as [|c a IH]; intros b d r r' Ha Hb Hr Hr' E.
  - destruct b as [|c b]; [split; [reflexivity|exact E]|exfalso]. injection Ha as ->. cbn [append] in E. destruct Hr as [->|[t ->]]; [discriminate|]. injection E as <- _. discriminate Hb.
  - destruct b as [|c' b].
    + exfalso. injection Hb as ->. cbn [append] in E. destruct Hr' as [->|[t ->]]; [discriminate|]. injection E as -> _. discriminate Ha.
    + cbn [append] in E. injection E as <- E. cbn [scan] in Ha, Hb.
      assert (K : exists d', scan d' a = Some 0%nat /\ scan d' b = Some 0%nat).
      { destruct (Ascii.eqb c "("); [exists (S d); auto|]. destruct (Ascii.eqb c ")"); [destruct d; [discriminate|exists d; auto]|]. destruct (Ascii.eqb c " " && Nat.eqb d 0); [discriminate|exists d; auto]. }
      destruct K as (d' & K1 & K2). destruct (IH b d' r r' K1 K2 Hr Hr' E) as [-> ->]. split; reflexivity.
Qed.

(** * What is printed for real numbers *)
Lemma number_plain c : number_char c = true -> plain c = true.
Proof.
  intros H. unfold plain. destruct (Ascii.eqb_spec c "(") as [->|_]; [discriminate H|]. destruct (Ascii.eqb_spec c ")") as [->|_]; [discriminate H|]. destruct (Ascii.eqb_spec c " ") as [->|_]; [discriminate H|]. reflexivity.
Qed.
Lemma float_plain c : float_char c = true -> plain c = true.
Proof.
  intros H. unfold plain. destruct (Ascii.eqb_spec c "(") as [->|_]; [discriminate H|]. destruct (Ascii.eqb_spec c ")") as [->|_]; [discriminate H|]. destruct (Ascii.eqb_spec c " ") as [->|_]; [discriminate H|]. reflexivity.
Qed.
Lemma scan_double d n : scan n (show_double d) = Some n.
Proof. apply scan_plain. exact (weaken _ _ _ number_plain (show_double_all d)). Qed.
Lemma scan_get_str z n : scan n (get_str 10 z) = Some n.
Proof. apply scan_plain. exact (weaken _ _ _ number_plain (get_str_all z)). Qed.
Lemma scan_finite a n : scan n (show_arf (Text.Finite a)) = Some n.
Proof. apply scan_plain. exact (weaken _ _ _ float_plain (show_finite_all a)). Qed.

Lemma some_inj {T} (a b : T) : Some a = Some b -> a = b.
Proof. congruence. Qed.
(** A name: balanced, and it begins with the first byte of the letter for the real numbers. *)
Definition name (s : string) : Prop := (forall n, scan n s = Some n) /\ exists t, s = String "226" t.
Lemma random_name rng fuel seed s : show_random rng fuel seed = Some s -> name s.
Proof.
  unfold show_random. destruct (num_get_d rng fuel (RAtom (ARandom seed))) as [d|]; [|discriminate]. cbn [option_map]. intros E0. apply some_inj in E0. subst s. split; [|eexists; reflexivity].
  intros n. rewrite (scan_app "ℝ("). change (scan n "ℝ(") with (Some (S n)). cbn iota beta. rewrite scan_app, scan_double. reflexivity.
Qed.
Lemma atom_name rng fuel a s : show_atom rng fuel a = Some s -> name s.
Proof.
  destruct a as [seed|i e seed]; cbn [show_atom]; [apply random_name|]. unfold show_constrained. destruct (show_random rng fuel seed) as [inner|] eqn:E; [|discriminate]. destruct (num_get_d rng fuel (RAtom (AConstr i e seed))) as [d|]; [|discriminate].
  apply random_name in E. destruct E as [Hi _]. intros E0. apply some_inj in E0. subst s. split; [|eexists; reflexivity].
  intros n. rewrite (scan_app "ℝ("). change (scan n "ℝ(") with (Some (S n)). cbn iota beta. rewrite scan_app, scan_finite. rewrite (scan_app " + "). change (scan (S n) " + ") with (Some (S n)). cbn iota beta.
  rewrite scan_app, Hi. rewrite (scan_app "p"). change (scan (S n) "p") with (Some (S n)). cbn iota beta. rewrite scan_app, scan_get_str. rewrite (scan_app ")"). change (scan (S n) ")") with (Some n). cbn iota beta.
  destruct (double_eqb (arf_get_d i) d); [reflexivity|]. rewrite (scan_app "[∼"). change (scan n "[∼") with (Some n). cbn iota beta. rewrite scan_app, scan_double. reflexivity.
Qed.
Lemma factor_name t k : name t -> name (show_factor t k).
Proof.
  intros [H (u & ->)]. split; [|unfold show_factor; eexists; reflexivity]. intros n. unfold show_factor. rewrite scan_app, H. destruct (k =? 1)%nat; [reflexivity|]. rewrite (scan_app "^"). change (scan n "^") with (Some n). cbn iota beta. apply scan_get_str.
Qed.
Lemma product_name rng fuel ms : forall s, ms <> [] -> show_product rng fuel ms = Some s -> name s.
Proof.
  induction ms as [|[a k] ms IH]; intros s N; [congruence|]. cbn [show_product]. destruct (show_atom rng fuel a) as [t|] eqn:Ea; [|discriminate]. destruct (show_product rng fuel ms) as [r|] eqn:Er; [|discriminate]. intros E0. apply some_inj in E0. subst s.
  apply atom_name in Ea. apply (factor_name t k) in Ea. destruct Ea as [Ha (u & Hu)]. split; [|rewrite Hu; eexists; reflexivity].
  intros n. rewrite scan_app, Ha. destruct ms as [|m ms]; [reflexivity|]. rewrite (scan_app "*"). change (scan n "*") with (Some n). cbn iota beta. apply IH; [discriminate|reflexivity].
Qed.
Lemma generator_name rng names fuel g s : gen_wf g -> ~ rational g -> show_num rng fuel (rnum_of names g) = Some s -> name s.
Proof.
  intros W N. destruct g as [q|i|ms]; [destruct N; exact Logic.I|exact (atom_name rng fuel (names i) s)|]. cbn [rnum_of show_num]. apply product_name. intros E. apply map_eq_nil in E. subst ms.
  pose proof (degree_pos (GProd []) W (fun C => C)) as D. cbn in D. lia.
Qed.

(** * Numbers *)
Definition rational_char (c : ascii) : bool := decimal_digit c || Ascii.eqb c "-" || Ascii.eqb c "/".
Lemma rational_all s v : rational_text s v -> all_chars rational_char s = true.
Proof.
  assert (D : forall c, decimal_digit c = true -> rational_char c = true) by (intros c H; unfold rational_char; rewrite H; reflexivity).
  intros [t n H|t n u m H K _]; [exact (integer_all _ _ _ D eq_refl H)|]. rewrite all_app. cbn [all_chars]. rewrite (integer_all _ _ _ D eq_refl H), (integer_all _ _ _ D eq_refl K). reflexivity.
Qed.
Lemma rational_plain c : rational_char c = true -> plain c = true.
Proof.
  intros H. unfold plain. destruct (Ascii.eqb_spec c "(") as [->|_]; [discriminate H|]. destruct (Ascii.eqb_spec c ")") as [->|_]; [discriminate H|]. destruct (Ascii.eqb_spec c " ") as [->|_]; [discriminate H|]. reflexivity.
Qed.
Lemma rational_scan s v n : rational_text s v -> scan n s = Some n.
Proof. intros H. apply scan_plain. exact (weaken _ _ _ rational_plain (rational_all s v H)). Qed.
Lemma rational_star s v : rational_text s v -> without "*" s.
Proof. intros H. exact (all_without rational_char "*" s eq_refl (rational_all s v H)). Qed.
Lemma rational_head s v : rational_text s v -> no_sign s -> exists c t, s = String c t /\ c <> "-"%char /\ c <> "226"%char.
Proof.
  intros H N. pose proof (rational_all s v H) as A. destruct s as [|c t].
  - exfalso. inversion H as [s n K E|s n u m K _ _ E]; subst.
    + inversion K; congruence.
    + destruct s; discriminate.
  - exists c, t. split; [reflexivity|]. split; intros ->; [exact (N t eq_refl)|discriminate A].
Qed.
Lemma rational_unique s u v : rational_text s u -> rational_text s v -> u = v.
Proof.
  assert (W : forall t n, integer_text 10 t n -> without "/" t) by (intros t n; apply integer_without; [reflexivity|discriminate]).
  intros H K. destruct H as [s n H|s n t m H H' _]; inversion K as [s' n' K1 E1|s' n' t' m' K1 K2 _ E1]; subst.
  - rewrite (integer_unique _ _ _ H K1). reflexivity.
  - exfalso. exact (split_other "/" _ _ _ (W _ _ H) eq_refl).
  - exfalso. exact (split_other "/" _ _ _ (W _ _ K1) eq_refl).
  - apply split_same in E1; [|exact (W _ _ K1)|exact (W _ _ H)]. destruct E1 as [-> ->]. rewrite (integer_unique _ _ _ H K1), (integer_unique _ _ _ H' K2). reflexivity.
Qed.

(** * Sums are unambiguous *)
Section Unique.
  Variable named : string -> R -> Prop.
  Hypothesis Names : forall s w, named s w -> name s.
  Hypothesis Once : forall s u v, named s u -> named s v -> u = v.
  Lemma term_closed s v : term_text named s v -> scan 0 s = Some 0%nat /\ exists c t, s = String c t /\ c <> "-"%char.
  Proof.
    intros [t w H N|t w H|t w u x H N K].
    - split; [exact (rational_scan _ _ _ H)|]. destruct (rational_head t w H N) as (c & r & -> & C & _). exists c, r. auto.
    - destruct (Names t w H) as [Hs (r & ->)]. split; [apply Hs|]. exists "226"%char, r. split; [reflexivity|discriminate].
    - destruct (Names u x K) as [Hs _]. split.
      + rewrite scan_app, (rational_scan _ _ _ H), scan_app. cbn [scan Ascii.eqb]. apply Hs.
      + destruct (rational_head t w H N) as (c & r & -> & C & _). exists c. eexists. split; [reflexivity|exact C].
  Qed.
  Lemma term_unique s u v : term_text named s u -> term_text named s v -> u = v.
  Proof.
    assert (NR : forall t w x, named t w -> rational_text t x -> no_sign t -> False).
    { intros t w x H R N. destruct (Names t w H) as [_ (r & ->)]. destruct (rational_head _ _ R N) as (c & q & E & _ & C). injection E as <- _. exact (C eq_refl). }
    assert (NP : forall t w x y z, named t w -> rational_text x y -> no_sign x -> t = (x ++ "*" ++ z) -> False).
    { intros t w x y z H R N E. destruct (Names t w H) as [_ (r & ->)]. destruct (rational_head _ _ R N) as (c & q & -> & _ & C). injection E as <- _. exact (C eq_refl). }
    intros H K. destruct H as [s u H N|s w H|s u t w H N H']; inversion K as [s' u' K1 N1 E1|s' w' K1 E1|s' u' t' w' K1 N1 K2 E1]; subst.
    - exact (rational_unique _ _ _ H K1).
    - destruct (NR _ _ _ K1 H N).
    - exfalso. exact (split_other "*" _ _ _ (rational_star _ _ H) eq_refl).
    - destruct (NR _ _ _ H K1 N1).
    - exact (Once _ _ _ H K1).
    - destruct (NP _ _ _ _ _ H K1 N1 eq_refl).
    - exfalso. exact (split_other "*" _ _ _ (rational_star _ _ K1) eq_refl).
    - destruct (NP _ _ _ _ _ K1 H N eq_refl).
    - apply split_same in E1; [|exact (rational_star _ _ K1)|exact (rational_star _ _ H)]. destruct E1 as [-> ->]. rewrite (rational_unique _ _ _ H K1), (Once _ _ _ H' K2). reflexivity.
  Qed.
  Lemma more_ends s v : more_text named s v -> ends s.
  Proof. intros [|t u r w _ _|t u r w _ _]; [left; reflexivity|right; eexists; reflexivity..]. Qed.
  Lemma more_unique s u : more_text named s u -> forall v, more_text named s v -> u = v.
  Proof.
    induction 1 as [|t a r w Ht Hr IH|t a r w Ht Hr IH]; intros v K; inversion K as [E|t' a' r' w' Kt Kr E|t' a' r' w' Kt Kr E]; subst; try reflexivity.
    - try (cbn [append] in E; injection E as E). destruct (closed_split _ _ 0 _ _ (proj1 (term_closed _ _ Kt)) (proj1 (term_closed _ _ Ht)) (more_ends _ _ Kr) (more_ends _ _ Hr) E) as [-> ->]. rewrite (term_unique _ _ _ Ht Kt), (IH _ Kr). reflexivity.
    - try (cbn [append] in E; injection E as E). destruct (closed_split _ _ 0 _ _ (proj1 (term_closed _ _ Kt)) (proj1 (term_closed _ _ Ht)) (more_ends _ _ Kr) (more_ends _ _ Hr) E) as [-> ->]. rewrite (term_unique _ _ _ Ht Kt), (IH _ Kr). reflexivity.
  Qed.
  Lemma sum_unique s u v : sum_text named s u -> sum_text named s v -> u = v.
  Proof.
    assert (P : forall t a r t' r', term_text named t a -> t ++ r = "-" ++ t' ++ r' -> False).
    { intros t a r t' r' H E. destruct (term_closed t a H) as [_ (c & q & -> & C)]. injection E as E _. exact (C E). }
    intros H K. destruct H as [t a r w Ht Hr|t a r w Ht Hr]; inversion K as [t' a' r' w' Kt Kr E|t' a' r' w' Kt Kr E]; subst.
    - destruct (closed_split _ _ 0 _ _ (proj1 (term_closed _ _ Kt)) (proj1 (term_closed _ _ Ht)) (more_ends _ _ Kr) (more_ends _ _ Hr) E) as [-> ->]. rewrite (term_unique _ _ _ Ht Kt), (more_unique _ _ Hr _ Kr). reflexivity.
    - exfalso. exact (P _ _ _ _ _ Ht (eq_sym E)).
    - exfalso. exact (P _ _ _ _ _ Kt E).
    - try (cbn [append] in E; injection E as E). destruct (closed_split _ _ 0 _ _ (proj1 (term_closed _ _ Kt)) (proj1 (term_closed _ _ Ht)) (more_ends _ _ Kr) (more_ends _ _ Hr) E) as [-> ->]. rewrite (term_unique _ _ _ Ht Kt), (more_unique _ _ Hr _ Kr). reflexivity.
  Qed.
End Unique.
