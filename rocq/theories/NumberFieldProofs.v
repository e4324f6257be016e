(** The model of number fields of arbitrary degree meets the specification of rings. *)
From Coq Require Import ZArith QArith Qcanon Bool List Reals Qreals Lia Lra Classical_Prop.
From Verif Require Import Gen SpecGen GenProofs Ring SpecRing RingProofs NumberField.
Import ListNotations.
Open Scope R_scope.

(** * Polynomials *)
Lemma padd_nil_r l : padd l [] = l. Proof. destruct l; reflexivity. Qed.
Lemma polynomial_padd l r t : polynomial (padd l r) t = polynomial l t + polynomial r t.
Proof.
  revert r. induction l as [|a l IH]; intros [|b r]; cbn [padd polynomial]; try ring.
  rewrite IH, Q2R_Qc_plus. ring.
Qed.
Lemma polynomial_pscale c l t : polynomial (pscale c l) t = Q2R c * polynomial l t.
Proof. induction l as [|a l IH]; cbn [pscale map polynomial]; [ring|]. unfold pscale in IH. rewrite IH, Q2R_Qc_mult. ring. Qed.
Lemma polynomial_pmul l r t : polynomial (pmul l r) t = polynomial l t * polynomial r t.
Proof.
  induction l as [|a l IH]; cbn [pmul polynomial]; [ring|].
  rewrite polynomial_padd, polynomial_pscale. cbn [polynomial]. rewrite IH, Q2R_Qc_0. ring.
Qed.
Lemma polynomial_zeros n t : polynomial (repeat 0%Qc n) t = 0.
Proof. induction n as [|n IH]; cbn [repeat polynomial]; [reflexivity|]. rewrite IH, Q2R_Qc_0. ring. Qed.
Lemma polynomial_all_zero l t : Forall (fun c => c = 0%Qc) l -> polynomial l t = 0.
Proof. induction 1 as [|c l -> _ IH]; cbn [polynomial]; [reflexivity|]. rewrite IH, Q2R_Qc_0. ring. Qed.
Lemma polynomial_trim l t : polynomial (trim l) t = polynomial l t.
Proof.
  induction l as [|a l IH]; cbn [trim polynomial]; [reflexivity|].
  destruct (trim l) as [|b m] eqn:E.
  - rewrite <- IH. destruct (Qc_eqb a 0) eqn:F; cbn [polynomial]; [apply Qc_eqb_spec in F; rewrite F, Q2R_Qc_0|]; ring.
  - cbn [polynomial] in *. rewrite IH. reflexivity.
Qed.
Lemma polynomial_snoc l a t : polynomial (l ++ [a]) t = polynomial l t + Q2R a * t ^ length l.
Proof. induction l as [|b l IH]; cbn [app polynomial length pow]; [ring|]. rewrite IH. ring. Qed.

Lemma trim_length l : (length (trim l) <= length l)%nat.
Proof.
  induction l as [|a l IH]; cbn [trim length]; [lia|]. destruct (trim l) as [|b m]; cbn [length] in *; [destruct (Qc_eqb a 0); cbn; lia|lia].
Qed.
Lemma trim_nil l : trim l = [] <-> Forall (fun c => c = 0%Qc) l.
Proof.
  induction l as [|a l IH]; cbn [trim]; [split; constructor|]. destruct (trim l) as [|b m] eqn:E.
  - destruct (Qc_eqb a 0) eqn:F.
    + apply Qc_eqb_spec in F. split; [intros _; constructor; [exact F|apply IH; reflexivity]|reflexivity].
    + apply Qc_eqb_false in F. split; [discriminate|]. intros H. inversion H; contradiction.
  - split; [discriminate|]. intros H. inversion H as [|? ? ? H']; subst. apply IH in H'. discriminate.
Qed.
Lemma trim_trim l : trim (trim l) = trim l.
Proof.
  induction l as [|a l IH]; cbn [trim]; [reflexivity|]. destruct (trim l) as [|b m] eqn:E.
  - destruct (Qc_eqb a 0) eqn:F; cbn; [reflexivity|]. rewrite F. reflexivity.
  - cbn [trim] in *. rewrite IH. reflexivity.
Qed.
Lemma trim_cons a l : trim (a :: l) = a :: l -> trim l = l.
Proof.
  cbn [trim]. destruct (trim l) as [|b m] eqn:E.
  - destruct (Qc_eqb a 0); [discriminate|]. intros [= H]. exact H.
  - intros [= H]. exact H.
Qed.
Lemma trim_lead l : trim l = l -> l <> [] -> lead l <> 0%Qc.
Proof.
  unfold lead. induction l as [|a l IH]; [congruence|]. intros H _. destruct l as [|b l].
  - cbn in *. destruct (Qc_eqb a 0) eqn:E; [discriminate|]. apply Qc_eqb_false, E.
  - change (last (b :: l) 0%Qc <> 0%Qc). apply IH; [apply (trim_cons a), H|discriminate].
Qed.
Lemma trim_zeros n : trim (repeat 0%Qc n) = [].
Proof. apply trim_nil. apply Forall_forall. intros x H. apply repeat_spec in H. exact H. Qed.

(** Difference zero means equal up to leading zeros. *)
Lemma zero_difference l r : Forall (fun c => c = 0%Qc) (padd l (pscale (- (1)) r)) -> trim l = trim r.
Proof.
  revert r. induction l as [|a l IH]; intros [|b r]; cbn [padd pscale map]; intros H.
  - reflexivity.
  - symmetry. apply trim_nil. change (Forall (fun c : Qc => c = 0%Qc) (map (Qcmult (- (1))) (b :: r))) in H.
    rewrite Forall_map in H. eapply Forall_impl; [|exact H]. intros c E.
    assert (F : (- (1) * (- (1) * c) = c)%Qc) by ring. rewrite <- F, E. ring.
  - apply trim_nil, H.
  - inversion H as [|? ? E H']; subst. apply IH in H'. cbn [trim]. rewrite H'.
    assert (a = b) as ->; [|reflexivity]. assert (F : (a = (a + - (1) * b) + b)%Qc) by ring. rewrite F, E. ring.
Qed.

(** * Division *)
Lemma pscale_length c l : length (pscale c l) = length l. Proof. apply map_length. Qed.
Lemma padd_length l r : length (padd l r) = Nat.max (length l) (length r).
Proof. revert r. induction l as [|a l IH]; intros [|b r]; cbn [padd length]; try lia. rewrite IH. lia. Qed.
Lemma snoc_lead l : l <> [] -> l = removelast l ++ [lead l]. Proof. intros H. apply app_removelast_last, H. Qed.
Lemma padd_snoc l r a b : length l = length r -> padd (l ++ [a]) (r ++ [b]) = padd l r ++ [(a + b)%Qc].
Proof. revert r. induction l as [|c l IH]; intros [|d r] H; cbn in *; try discriminate; [reflexivity|]. rewrite IH by lia. reflexivity. Qed.
Lemma removelast_length {T} (l : list T) : length (removelast l) = (length l - 1)%nat.
Proof. induction l as [|a [|b l] IH]; [reflexivity..|]. cbn [removelast length] in *. rewrite IH. lia. Qed.

Lemma divmod_length p b : length (snd (divmod p b)) = (length b - 1)%nat /\ length (fst (divmod p b)) = length p.
Proof.
  induction p as [|a p IH]; cbn [divmod]; [split; [apply repeat_length|reflexivity]|].
  destruct (divmod p b) as [q r]. cbn [fst snd] in *. destruct IH as [A B]. split; [|cbn; lia].
  rewrite firstn_length, padd_length, pscale_length. cbn [length]. lia.
Qed.
Lemma divmod_spec p b t : b <> [] -> lead b <> 0%Qc ->
  polynomial p t = polynomial (fst (divmod p b)) t * polynomial b t + polynomial (snd (divmod p b)) t.
Proof.
  intros Hb Hl. induction p as [|a p IH]; cbn [divmod]; [cbn [fst snd polynomial]; rewrite polynomial_zeros; ring|].
  destruct (divmod_length p b) as [A B]. destruct (divmod p b) as [q r]. cbn [fst snd] in *.
  set (c := (lead (a :: r) / lead b)%Qc).
  assert (Lb : (0 < length b)%nat) by (destruct b; [congruence|cbn; lia]).
  assert (E : padd (a :: r) (pscale (- c) b) = firstn (length b - 1) (padd (a :: r) (pscale (- c) b)) ++ [0%Qc]).
  { assert (X : a :: r = removelast (a :: r) ++ [lead (a :: r)]) by (apply snoc_lead; discriminate).
    assert (Y : pscale (- c) b = pscale (- c) (removelast b) ++ [(- c * lead b)%Qc]).
    { rewrite (snoc_lead b Hb) at 1. unfold pscale. rewrite map_app. reflexivity. }
    assert (Z : padd (a :: r) (pscale (- c) b) = padd (removelast (a :: r)) (pscale (- c) (removelast b)) ++ [0%Qc]).
    { rewrite X at 1. rewrite Y. rewrite padd_snoc.
      - f_equal. f_equal. fold c. unfold c at 1. field. exact Hl.
      - rewrite pscale_length, !removelast_length. cbn [length]. lia. }
    rewrite Z. rewrite firstn_app. rewrite padd_length, pscale_length, !removelast_length. cbn [length].
    match goal with |- _ = (_ ++ firstn ?n _) ++ _ => assert (n = 0%nat) as -> by lia end. cbn [firstn]. rewrite app_nil_r. f_equal.
    rewrite firstn_all2; [reflexivity|]. rewrite padd_length, pscale_length, !removelast_length. cbn [length]. lia. }
  assert (V : polynomial (firstn (length b - 1) (padd (a :: r) (pscale (- c) b))) t = Q2R a + t * polynomial r t - Q2R c * polynomial b t).
  { transitivity (polynomial (padd (a :: r) (pscale (- c) b)) t).
    - rewrite E at 2. rewrite polynomial_snoc, Q2R_Qc_0. ring.
    - rewrite polynomial_padd, polynomial_pscale, Q2R_Qc_opp. cbn [polynomial]. ring. }
  cbn [polynomial fst snd]. rewrite V, IH. ring.
Qed.

(** A polynomial of smaller degree is its own remainder. *)
Lemma lead_zeros l n : (0 < n)%nat -> lead (l ++ repeat 0%Qc n) = 0%Qc.
Proof.
  intros H. destruct n as [|n]; [lia|]. replace (S n) with (n + 1)%nat by lia. rewrite repeat_app, app_assoc. unfold lead. apply last_last.
Qed.
Lemma padd_zeros l r : length l = length r -> Forall (fun c => c = 0%Qc) r -> padd l r = l.
Proof.
  intros H F. revert l H. induction F as [|c r -> F IH]; intros [|a l] H; cbn in *; try discriminate; [reflexivity|].
  rewrite IH by lia. f_equal. ring.
Qed.
Lemma divmod_small p b : b <> [] -> (length p <= length b - 1)%nat ->
  divmod p b = (repeat 0%Qc (length p), p ++ repeat 0%Qc (length b - 1 - length p)).
Proof.
  intros Hb. induction p as [|a p IH]; intros H; cbn [divmod length]; [rewrite Nat.sub_0_r; reflexivity|].
  cbn [length] in H. rewrite IH by lia.
  set (k := (length b - 1 - length p)%nat). assert (K : (0 < k)%nat) by (unfold k; lia).
  change (a :: p ++ repeat 0%Qc k) with ((a :: p) ++ repeat 0%Qc k). rewrite lead_zeros by exact K.
  assert (C : (0 / lead b)%Qc = 0%Qc) by (unfold Qcdiv; ring). rewrite C. cbn [repeat]. f_equal.
  rewrite padd_zeros.
  - replace k with (length b - 1 - S (length p) + 1)%nat at 1 by (unfold k; lia). rewrite repeat_app, app_assoc.
    rewrite firstn_app, firstn_all2; [|rewrite app_length, repeat_length; cbn [length]; lia].
    match goal with |- _ ++ firstn ?n _ = _ => assert (n = 0%nat) as -> by (rewrite app_length, repeat_length; cbn [length]; lia) end.
    cbn [firstn]. apply app_nil_r.
  - rewrite pscale_length, app_length, repeat_length. cbn [length]. unfold k. lia.
  - unfold pscale. apply Forall_forall. intros x Hx. apply in_map_iff in Hx. destruct Hx as (y & <- & _). ring.
Qed.
Lemma divmod_quotient_length p b : b <> [] -> (length (trim (fst (divmod p b))) <= length p - (length b - 1))%nat.
Proof.
  intros Hb. induction p as [|a p IH]; [cbn; lia|].
  destruct (Nat.le_gt_cases (length (a :: p)) (length b - 1)) as [H|H].
  - rewrite divmod_small by assumption. cbn [fst]. rewrite trim_zeros. cbn [length]. lia.
  - cbn [divmod]. destruct (divmod p b) as [q r]. cbn [fst] in *. cbn [length] in H.
    cbn [trim]. destruct (trim q) as [|x y] eqn:E; cbn [length] in *; [destruct (Qc_eqb _ 0); cbn [length]; lia|lia].
Qed.
Lemma divmod_quotient_nonzero p b : b <> [] -> lead b <> 0%Qc -> (length b <= length p)%nat -> lead p <> 0%Qc ->
  ~ Forall (fun c => c = 0%Qc) (fst (divmod p b)).
Proof.
  intros Hb Hl. induction p as [|a p IH]; intros H Hp; [destruct b; [congruence|cbn in H; lia]|].
  destruct (Nat.eq_dec (length p) (length b - 1)) as [E|E].
  - cbn [divmod]. rewrite divmod_small by (try assumption; lia). cbn [fst]. intros F. inversion F as [|? ? G _]; subst.
    apply Hp. replace (length b - 1 - length p)%nat with 0%nat in G by lia. cbn [repeat] in G. rewrite app_nil_r in G.
    assert (X : (lead (a :: p) / lead b * lead b = lead (a :: p))%Qc) by (field; exact Hl). rewrite <- X, G. ring.
  - cbn [length] in H. cbn [divmod]. destruct (divmod p b) as [q r]. cbn [fst] in *. intros F. inversion F; subst.
    match goal with F' : Forall _ q |- _ => revert F' end. apply IH; [lia|]. destruct p; [exfalso; destruct b; [congruence|]; cbn in *; lia|exact Hp].
Qed.

(** * Inverses *)
Section Field.
  Variable f : list Qc. Variable t : R.
  Hypothesis Hf : minimal_polynomial f t.
  Lemma f_nonempty : f <> []. Proof. destruct Hf as (H & _). destruct f; [cbn in H; lia|discriminate]. Qed.
  Lemma f_lead : lead f <> 0%Qc. Proof. apply Hf. Qed.
  Lemma f_zero : polynomial f t = 0. Proof. apply Hf. Qed.
  Lemma f_minimal l : (length l < length f)%nat -> polynomial l t = 0 -> Forall (fun c => c = 0%Qc) l. Proof. apply Hf. Qed.

  Lemma pmod_value l : polynomial (pmod l f) t = polynomial l t.
  Proof. unfold pmod. rewrite (divmod_spec l f t f_nonempty f_lead), f_zero. ring. Qed.
  Lemma pmod_length l : (length (pmod l f) < length f)%nat.
  Proof. unfold pmod. rewrite (proj1 (divmod_length l f)). destruct Hf as (H & _). lia. Qed.

  Lemma pinv_spec fuel b : trim b = b -> b <> [] -> (length b <= fuel)%nat -> (length b < length f)%nat ->
    (length (pinv fuel f b) < length f)%nat /\ polynomial (pinv fuel f b) t * polynomial b t = 1.
  Proof.
    revert b. induction fuel as [|fuel IH]; intros b Hb Hn H L; [destruct b; [congruence|cbn in H; lia]|].
    pose proof (trim_lead b Hb Hn) as Hl. cbn [pinv].
    destruct b as [|c [|d b]]; [congruence| |].
    - cbn [polynomial length]. destruct Hf as (H2 & _). split; [lia|]. unfold lead in Hl. cbn in Hl.
      rewrite Q2R_Qc_inv by exact Hl. field. intros E. apply Hl. apply Q2R_Qc_0', E.
    - set (b2 := c :: d :: b) in *. pose proof (divmod_spec f b2 t Hn Hl) as Sp. pose proof (divmod_quotient_length f b2 Hn) as Q.
      pose proof (divmod_quotient_nonzero f b2 Hn Hl ltac:(lia) f_lead) as N. pose proof (divmod_length f b2) as [Lr Lq].
      destruct (divmod f b2) as [q r]. cbn [fst snd] in *. rewrite f_zero in Sp.
      assert (B : polynomial b2 t <> 0).
      { intros E. apply f_minimal in E; [|exact L]. apply trim_nil in E. rewrite Hb in E. congruence. }
      assert (Qn : polynomial q t <> 0).
      { intros E. rewrite <- polynomial_trim in E. apply f_minimal in E.
        - apply trim_nil in E. rewrite trim_trim in E. apply trim_nil in E. contradiction.
        - unfold b2 in Q. cbn [length] in Q. destruct Hf as (H2 & _). lia. }
      assert (Rn : trim r <> []).
      { intros E. apply trim_nil in E. rewrite (polynomial_all_zero r t E) in Sp. apply (Rmult_integral_contrapositive_currified _ _ Qn B). lra. }
      pose proof (trim_length r) as Tr. assert (L2 : (length b2 = S (S (length b)))%nat) by reflexivity.
      destruct (IH (trim r) (trim_trim r) Rn) as [_ I]; [lia..|].
      split; [apply pmod_length|].
      rewrite pmod_value, polynomial_pscale, polynomial_pmul, Q2R_Qc_opp, Q2R_Qc_1.
      rewrite polynomial_trim in I. assert (R : polynomial r t = - (polynomial q t * polynomial b2 t)) by lra. rewrite R in I.
      etransitivity; [|exact I]. ring.
  Qed.

  Lemma polynomial_inj l r : (length l < length f)%nat -> (length r < length f)%nat -> trim l = l -> trim r = r ->
    polynomial l t = polynomial r t -> l = r.
  Proof.
    intros Ll Lr Hl Hr E. rewrite <- Hl, <- Hr. apply zero_difference. apply f_minimal.
    - rewrite padd_length, pscale_length. lia.
    - rewrite polynomial_padd, polynomial_pscale, Q2R_Qc_opp, Q2R_Qc_1, E. ring.
  Qed.
End Field.

(** * Fields and elements *)
Lemma poly_eqb_spec l r : poly_eqb l r = true <-> l = r.
Proof.
  revert r. induction l as [|a l IH]; intros [|b r]; cbn; try (split; [discriminate|discriminate]); [tauto|].
  rewrite andb_true_iff, IH, Qc_eqb_spec. split; [intros [-> ->]; reflexivity|intros [= -> ->]; auto].
Qed.
Lemma nfield_eqb_spec p q : nfield_eqb p q = true <-> p = q.
Proof.
  unfold nfield_eqb. rewrite andb_true_iff, poly_eqb_spec. destruct (Req_EM_T (nf_gen p) (nf_gen q)) as [E|E].
  - split; [|intros ->; auto]. intros [F _]. destruct p as [f t H], q as [g u K]. cbn in *. subst. f_equal. apply proof_irrelevance.
  - split; [intros [_ ?]; discriminate|]. intros ->. congruence.
Qed.
Lemma ne_eqb_spec x y : ne_eqb x y = true <-> x = y.
Proof.
  unfold ne_eqb. rewrite andb_true_iff, poly_eqb_spec. destruct x as [[p|] l], y as [[q|] r]; cbn.
  - rewrite nfield_eqb_spec. split; [intros [-> ->]; reflexivity|intros [= -> ->]; auto].
  - split; [intros [_ ?]; discriminate|discriminate].
  - split; [intros [_ ?]; discriminate|discriminate].
  - split; [intros [-> _]; reflexivity|intros [= ->]; auto].
Qed.

Local Notation nmem := (mem nf_sem).
Lemma nmem_intro (p : nfield) (x : nelem) : nmem p x <-> trim (ne_coeffs x) = ne_coeffs x /\
       match ne_field x with
       | None => (length (ne_coeffs x) <= 1)%nat
       | Some q => q = p /\ (2 <= length (ne_coeffs x) <= nf_degree p)%nat
       end.
Proof. reflexivity. Qed.
Lemma degree_pos p : (1 <= nf_degree p)%nat.
Proof. unfold nf_degree. destruct (nf_minimal p) as (H & _). lia. Qed.
Lemma degree_length p n : (n <= nf_degree p)%nat <-> (n < length (nf_poly p))%nat.
Proof. unfold nf_degree. destruct (nf_minimal p) as (H & _). lia. Qed.

(** A number in the field is the polynomial in the generator of the field, also if it is rational. *)
Lemma constant_value l t u : (length l <= 1)%nat -> polynomial l t = polynomial l u.
Proof. destruct l as [|a [|b l]]; cbn; intros H; [reflexivity|ring|lia]. Qed.
Lemma nmem_value p x : nmem p x -> ne_value x = polynomial (ne_coeffs x) (nf_gen p).
Proof. intros [_ H]. unfold ne_value. destruct (ne_field x) as [q|]; [destruct H as [-> _]; reflexivity|apply constant_value, H]. Qed.
Lemma nmem_length p x : nmem p x -> (length (ne_coeffs x) < length (nf_poly p))%nat.
Proof. intros [_ H]. apply degree_length. pose proof (degree_pos p). destruct (ne_field x); lia. Qed.

Lemma ne_mk_spec p o l : (length (trim l) <= 1)%nat \/ o = Some p -> (length l < length (nf_poly p))%nat ->
  nmem p (ne_mk o l) /\ ne_value (ne_mk o l) = polynomial l (nf_gen p).
Proof.
  intros Ho L. assert (M : nmem p (ne_mk o l)).
  { unfold ne_mk. destruct (Nat.leb_spec (length (trim l)) 1) as [H|H]; apply nmem_intro; cbn; (split; [apply trim_trim|]); [exact H|].
    destruct Ho as [Ho| ->]; [lia|]. split; [reflexivity|]. split; [lia|]. apply degree_length. pose proof (trim_length l). lia. }
  split; [exact M|]. rewrite (nmem_value p _ M). unfold ne_mk. destruct (_ <=? 1)%nat; cbn; apply polynomial_trim.
Qed.
Lemma ne_mk_none l : (length l <= 1)%nat -> forall p, nmem p (ne_mk None l) /\ ne_value (ne_mk None l) = polynomial l 0.
Proof.
  intros H p. destruct (ne_mk_spec p None l) as [A B].
  - left. pose proof (trim_length l). lia.
  - apply degree_length. pose proof (degree_pos p). lia.
  - split; [exact A|]. rewrite B. apply constant_value, H.
Qed.
Lemma ne_of_q_spec p q : nmem p (ne_of_q q) /\ ne_value (ne_of_q q) = Q2R q.
Proof. destruct (ne_mk_none [q] ltac:(cbn; lia) p) as [A B]. split; [exact A|]. unfold ne_of_q. rewrite B. cbn. ring. Qed.

Lemma common_field p x y : nmem p x -> nmem p y ->
  (ne_common x y = Some p) \/ (ne_common x y = None /\ (length (ne_coeffs x) <= 1)%nat /\ (length (ne_coeffs y) <= 1)%nat).
Proof.
  intros [_ Hx] [_ Hy]. unfold ne_common. destruct (ne_field x) as [q|]; [destruct Hx as [-> _]; left; reflexivity|].
  destruct (ne_field y) as [q|]; [destruct Hy as [-> _]; left; reflexivity|right; auto].
Qed.
Lemma ne_add_spec p x y : nmem p x -> nmem p y -> nmem p (ne_add x y) /\ ne_value (ne_add x y) = ne_value x + ne_value y.
Proof.
  intros Hx Hy. pose proof (nmem_length p x Hx). pose proof (nmem_length p y Hy). unfold ne_add.
  destruct (ne_mk_spec p (ne_common x y) (padd (ne_coeffs x) (ne_coeffs y))) as [A B].
  - destruct (common_field p x y Hx Hy) as [E|(_ & E & F)]; [right; exact E|left].
    pose proof (trim_length (padd (ne_coeffs x) (ne_coeffs y))). rewrite padd_length in *. lia.
  - rewrite padd_length. lia.
  - split; [exact A|]. rewrite B, polynomial_padd, (nmem_value p x Hx), (nmem_value p y Hy). reflexivity.
Qed.
Lemma ne_opp_spec p x : nmem p x -> nmem p (ne_opp x) /\ ne_value (ne_opp x) = - ne_value x.
Proof.
  intros Hx. pose proof (nmem_length p x Hx). unfold ne_opp.
  destruct (ne_mk_spec p (ne_field x) (pscale (- (1)) (ne_coeffs x))) as [A B].
  - destruct Hx as [_ Hx]. destruct (ne_field x) as [q|]; [destruct Hx as [-> _]; right; reflexivity|left].
    pose proof (trim_length (pscale (- (1)) (ne_coeffs x))). rewrite pscale_length in *. lia.
  - rewrite pscale_length. lia.
  - split; [exact A|]. rewrite B, polynomial_pscale, (nmem_value p x Hx), Q2R_Qc_opp, Q2R_Qc_1. ring.
Qed.
Lemma pmul_length_const l r : (length l <= 1)%nat -> (length r <= 1)%nat -> (length (pmul l r) <= 1)%nat.
Proof. destruct l as [|a [|b l]], r as [|c [|d r]]; cbn; lia. Qed.
Lemma ne_mul_spec p x y : nmem p x -> nmem p y -> nmem p (ne_mul x y) /\ ne_value (ne_mul x y) = ne_value x * ne_value y.
Proof.
  intros Hx Hy. unfold ne_mul. rewrite (nmem_value p x Hx), (nmem_value p y Hy).
  destruct (common_field p x y Hx Hy) as [E|(E & F & G)]; rewrite E.
  - destruct (ne_mk_spec p (Some p) (pmod (pmul (ne_coeffs x) (ne_coeffs y)) (nf_poly p))) as [A B]; [right; reflexivity|apply (pmod_length _ _ (nf_minimal p))|].
    split; [exact A|]. rewrite B, (pmod_value _ _ (nf_minimal p)). apply polynomial_pmul.
  - destruct (ne_mk_none _ (pmul_length_const _ _ F G) p) as [A B]. split; [exact A|]. rewrite B, polynomial_pmul.
    f_equal; apply constant_value; assumption.
Qed.
Lemma ne_value_inj p x y : nmem p x -> nmem p y -> ne_value x = ne_value y -> x = y.
Proof.
  intros Hx Hy E. rewrite (nmem_value p x Hx), (nmem_value p y Hy) in E.
  pose proof (nmem_length p x Hx). pose proof (nmem_length p y Hy). destruct Hx as [Tx Hx], Hy as [Ty Hy].
  apply (polynomial_inj _ _ (nf_minimal p)) in E; try assumption.
  destruct x as [[q|] l], y as [[q'|] r]; cbn in *; subst; try reflexivity.
  - destruct Hx as [-> _], Hy as [-> _]. reflexivity.
  - lia.
  - lia.
Qed.
Lemma ne_inv_spec p x : nmem p x -> ne_value x <> 0 -> nmem p (ne_inv x) /\ ne_value (ne_inv x) * ne_value x = 1.
Proof.
  intros Hx H. pose proof (nmem_length p x Hx) as L. pose proof (nmem_value p x Hx) as V.
  assert (N : ne_coeffs x <> []). { intros E. apply H. rewrite V, E. reflexivity. }
  destruct Hx as [T Hx]. unfold ne_inv. destruct (ne_field x) as [q|].
  - destruct Hx as [-> _]. destruct (pinv_spec _ _ (nf_minimal p) _ _ T N (le_n _) L) as [A B].
    destruct (ne_mk_spec p (Some p) _ (or_intror eq_refl) A) as [C D]. split; [exact C|].
    change (ne_value (ne_mk (Some p) (pinv (length (ne_coeffs x)) (nf_poly p) (ne_coeffs x))) * ne_value x = 1). rewrite D, V. exact B.
  - destruct (ne_coeffs x) as [|c [|d l]]; [congruence| |cbn in Hx; lia]. cbn [length pinv].
    destruct (ne_mk_none [(/ c)%Qc] ltac:(cbn; lia) p) as [A B]. split; [exact A|]. rewrite B, V. cbn [polynomial].
    rewrite V in H. cbn in H. assert (c <> 0%Qc). { intros ->. apply H. rewrite Q2R_Qc_0. ring. }
    rewrite Q2R_Qc_inv by assumption. field. intros E. apply H0. apply Q2R_Qc_0', E.
Qed.
Lemma ne_div_spec p x y : nmem p x -> nmem p y -> ne_value y <> 0 -> nmem p (ne_div x y) /\ ne_value (ne_div x y) = ne_value x / ne_value y.
Proof.
  intros Hx Hy H. destruct (ne_inv_spec p y Hy H) as [A B]. destruct (ne_mul_spec p x (ne_inv y) Hx A) as [C D].
  split; [exact C|]. unfold ne_div. rewrite D. apply (Rmult_eq_reg_r (ne_value y)); [|exact H]. rewrite Rmult_assoc, B. field. exact H.
Qed.
Lemma ne_scalar_spec p s : smem nf_sem p s -> nmem p (ne_scalar s) /\ ne_value (ne_scalar s) = sval nf_sem s.
Proof.
  destruct s as [n|q|c]; intros H; cbn [ne_scalar sval].
  - destruct (ne_of_q_spec p (Qc_of_Z n)) as [A B]. split; [exact A|]. rewrite B. apply Q2R_Qc_of_Z.
  - apply ne_of_q_spec.
  - split; [exact H|reflexivity].
Qed.
Lemma ne_zero : ne_of_q 0 = mkNelem None []. Proof. reflexivity. Qed.
Lemma ne_value_0 p x : nmem p x -> (ne_value x = 0 <-> ne_eqb x (ne_of_q 0) = true).
Proof.
  intros Hx. rewrite ne_eqb_spec. destruct (ne_of_q_spec p 0%Qc) as [A B]. rewrite Q2R_Qc_0 in B. split.
  - intros E. apply (ne_value_inj p x _ Hx A). congruence.
  - intros ->. exact B.
Qed.
Lemma ne_rational_value p x : nmem p x -> ne_is_rational x = true -> ne_value x = Q2R (ne_to_q x).
Proof.
  intros Hx H. rewrite (nmem_value p x Hx). unfold ne_is_rational, ne_to_q in *. apply Nat.leb_le in H.
  destruct (ne_coeffs x) as [|c [|d l]]; cbn [polynomial length hd] in *; [rewrite Q2R_Qc_0; reflexivity|ring|lia].
Qed.
Lemma ne_rational_spec p x q : nmem p x -> ((if ne_is_rational x then Some (ne_to_q x) else None) = Some q <-> ne_value x = Q2R q).
Proof.
  intros Hx. destruct (ne_is_rational x) eqn:E.
  - rewrite (ne_rational_value p x Hx E). split; [intros [= ->]; reflexivity|]. intros H. f_equal. apply Q2R_Qc_inj, H.
  - split; [discriminate|]. intros H. destruct (ne_of_q_spec p q) as [A B]. rewrite <- B in H. apply (ne_value_inj p x _ Hx A) in H.
    subst x. unfold ne_is_rational, ne_of_q, ne_mk in E. cbn in E. destruct (Qc_eqb q 0); discriminate.
Qed.
Lemma ne_rational_coerce p x : nmem p x -> ne_is_rational x = true -> ne_of_q (ne_to_q x) = x.
Proof.
  intros Hx H. destruct (ne_of_q_spec p (ne_to_q x)) as [A B]. apply (ne_value_inj p _ _ A Hx). rewrite B. symmetry. apply (ne_rational_value p); assumption.
Qed.
Lemma nmem_rational p q x : nmem p x -> ne_is_rational x = true -> nmem q x.
Proof. intros Hx H. rewrite <- (ne_rational_coerce p x Hx H). apply ne_of_q_spec. Qed.
Lemma nmem_degree_one p x : nmem p x -> nf_degree p = 1%nat -> ne_is_rational x = true.
Proof. intros [_ H] D. unfold ne_is_rational. apply Nat.leb_le. destruct (ne_field x); lia. Qed.
Lemma nmem_irrational p x : nmem p x -> ne_is_rational x = false -> ne_field x = Some p.
Proof. intros [_ H] E. unfold ne_is_rational in E. apply Nat.leb_gt in E. destruct (ne_field x) as [q|]; [destruct H as [-> _]; reflexivity|lia]. Qed.
Lemma nf_coerce_mem p x : nmem p x -> nf_coerce p x = Ok x.
Proof.
  intros Hx. unfold nf_coerce. destruct (ne_is_rational x) eqn:E.
  - rewrite (ne_rational_coerce p x Hx E). destruct (match ne_field x with Some q => nfield_eqb q p | None => false end); reflexivity.
  - rewrite (nmem_irrational p x Hx E). assert (nfield_eqb p p = true) as -> by (apply nfield_eqb_spec; reflexivity). reflexivity.
Qed.

Lemma nf_lawful : lawful nf_ring nf_sem.
Proof.
  constructor.
  - apply nfield_eqb_spec.
  - apply ne_eqb_spec.
  - exact ne_value_inj.
  - intros p. destruct (ne_of_q_spec p 0%Qc) as [A B]. rewrite ne_zero in *. rewrite Q2R_Qc_0 in B. split; [exact A|exact B].
  - intros p. destruct (ne_of_q_spec p 1%Qc) as [A B]. rewrite Q2R_Qc_1 in B. split; [exact A|exact B].
  - exact ne_add_spec.
  - exact ne_mul_spec.
  - exact ne_opp_spec.
  - intros p a b Ha Hb H. destruct (ne_div_spec p a b Ha Hb H) as [A B]. split; [exact A|].
    intros q _ Hq. change (ne_value (ne_div a b) = ne_value q). rewrite B. change (ne_value q * ne_value b = ne_value a) in Hq. rewrite <- Hq. field. exact H.
  - intros _ p b Hb H. exists (ne_inv b). exact (ne_inv_spec p b Hb H).
  - intros p x Hx. change (negb (ne_eqb x (ne_of_q 0)) = true <-> exists y, nmem p y /\ ne_value x * ne_value y = 1).
    rewrite negb_true_iff. split.
    + intros H. assert (Hv : ne_value x <> 0). { intros E. apply (ne_value_0 p x Hx) in E. congruence. }
      destruct (ne_inv_spec p x Hx Hv) as [A B]. exists (ne_inv x). split; [exact A|]. rewrite Rmult_comm. exact B.
    + intros (y & _ & H). destruct (ne_eqb x (ne_of_q 0)) eqn:E; [|reflexivity]. apply (ne_value_0 p x Hx) in E. rewrite E in H. lra.
  - exact ne_rational_spec.
  - intros p x s Hx Hs. destruct (ne_scalar_spec p s Hs) as [A B]. change (imul (r := nf_ring) x s) with (Ok (ne_mul x (ne_scalar s))).
    destruct (ne_mul_spec p x _ Hx A) as [M V]. split; [exact M|]. rewrite <- B. exact V.
  - intros p x s Hx Hs. destruct (ne_scalar_spec p s Hs) as [A B].
    change (idiv (r := nf_ring) x s) with (if ne_eqb (ne_scalar s) (ne_of_q 0) then Err InvalidArgument else Ok (ne_div x (ne_scalar s))).
    destruct (ne_eqb (ne_scalar s) (ne_of_q 0)) eqn:E.
    + apply (ne_value_0 p _ A) in E. split; [reflexivity|]. left. rewrite <- B. exact E.
    + assert (Hv : ne_value (ne_scalar s) <> 0). { intros F. apply (ne_value_0 p _ A) in F. congruence. }
      destruct (ne_div_spec p x _ Hx A Hv) as [M V]. rewrite <- B. split; [exact Hv|]. split; [exact M|exact V].
  - intros p x y [q Hq] H. change (nf_coerce p x = Ok y) in H. unfold nf_coerce in H. change (nmem p y /\ ne_value y = ne_value x).
    destruct (ne_is_rational x) eqn:R.
    + rewrite (ne_rational_coerce q x Hq R) in H. assert (y = x) as -> by (destruct (match ne_field x with Some q => nfield_eqb q p | None => false end); congruence).
      split; [apply (nmem_rational q); assumption|reflexivity].
    + rewrite (nmem_irrational q x Hq R) in H. destruct (nfield_eqb q p) eqn:E; [|discriminate]. apply nfield_eqb_spec in E. subst q. injection H as <-. auto.
  - exact nf_coerce_mem.
  - intros p q r H x Hx. change (nf_compositum p q = Ok r) in H. change (exists y, nf_coerce r x = Ok y). exists x. apply nf_coerce_mem.
    change (nmem p x \/ nmem q x) in Hx. unfold nf_compositum in H. destruct (nfield_eqb p q) eqn:E.
    + apply nfield_eqb_spec in E. injection H as <-. subst q. tauto.
    + destruct (Nat.eqb_spec (nf_degree p) 1) as [D|D].
      * injection H as <-. destruct Hx as [Hx|Hx]; [|exact Hx]. apply (nmem_rational p); [exact Hx|]. apply (nmem_degree_one p); assumption.
      * destruct (Nat.eqb_spec (nf_degree q) 1) as [D'|D']; [|discriminate]. injection H as <-. destruct Hx as [Hx|Hx]; [exact Hx|].
        apply (nmem_rational q); [exact Hx|]. apply (nmem_degree_one q); assumption.
  - intros p. change (nf_compositum p p = Ok p). unfold nf_compositum. assert (nfield_eqb p p = true) as -> by (apply nfield_eqb_spec; reflexivity). reflexivity.
  - intros p x Hx. apply degree_length. exact (nmem_length p x Hx).
  - exact nmem_value.
  - intros p x s H _. exact H.
  - intros p x s H _. split; [exact H|reflexivity].
Qed.

Lemma nf_floor_spec p x : nmem p x -> is_floor (ne_floor x) (ne_value x).
Proof. intros _. unfold is_floor, ne_floor. pose proof (base_Int_part (ne_value x)). lra. Qed.
