(** Proofs about the division of elements. *)
From Coq Require Import ZArith QArith Qcanon Bool List Reals Qreals Permutation Lra Lia Wellfounded.
From Verif Require Import Gen SpecGen GenProofs Ring SpecRing RingProofs Module Element SpecModule ModuleProofs ElementProofs Independence ElementProofs2 ElementProofs3 Leading Division.
Import ListNotations.

(** * The order of generators is well-founded *)
(** Shorter lists first, lists of the same length lexicographically. *)
Fixpoint lexlt (l r : list nat) : Prop :=
  match l, r with a :: l', b :: r' => (a < b)%nat \/ (a = b /\ lexlt l' r') | _, _ => False end.
Definition shortlex (l r : list nat) : Prop := (length l < length r)%nat \/ (length l = length r /\ lexlt l r).
Lemma lexlt_acc n : forall l, length l = n -> Acc (fun a b => length a = length b /\ lexlt a b) l.
Proof.
  induction n as [|n IH]; intros l Hl.
  - destruct l; [|discriminate]. constructor. intros [|? ?] [_ H]; cbn in H; [destruct H|destruct H].
  - destruct l as [|a l]; [discriminate|]. revert l Hl. induction a as [a IHa] using lt_wf_ind. intros l Hl. cbn in Hl. injection Hl as Hl.
    pose proof (IH l Hl) as Al. revert Hl. induction Al as [l _ IHl]. intros Hl. constructor. intros [|b m] [Hm Hlt]; cbn in Hm; [discriminate|]. cbn in Hlt.
    destruct Hlt as [Hlt|[-> Hlt]]; [apply IHa; [exact Hlt|cbn; lia]|]. apply IHl; [split; [lia|exact Hlt]|lia].
Qed.
Lemma shortlex_wf : well_founded shortlex.
Proof.
  intros l. remember (length l) as n eqn:E. revert l E. induction n as [n IH] using lt_wf_ind. intros l E.
  pose proof (lexlt_acc n l (eq_sym E)) as Al. revert E. induction Al as [l _ IHl]. intros E. constructor. intros m [H|[H1 H2]].
  - apply (IH (length m)); [lia|reflexivity].
  - apply IHl; [split; assumption|congruence].
Qed.
(** The ids of the factors of a product, with multiplicities. *)
Fixpoint ids (ms : list (Z * nat)) : list nat := match ms with [] => [] | (i, e) :: ms' => repeat (Z.to_nat i) e ++ ids ms' end.
Lemma ids_length ms : length (ids ms) = sum_exponents ms.
Proof. induction ms as [|[i e] ms IH]; cbn; [reflexivity|]. rewrite app_length, repeat_length, IH. reflexivity. Qed.
Lemma lexlt_app_same l a b : lexlt a b -> lexlt (l ++ a) (l ++ b).
Proof. induction l as [|x l IH]; cbn; auto. Qed.
Lemma ids_head lo ms : (0 <= lo)%Z -> mons_wf lo ms -> ids ms = [] \/ exists i m, ids ms = i :: m /\ (Z.to_nat lo <= i)%nat.
Proof.
  destruct ms as [|[i e] ms]; [left; reflexivity|]. intros H (H1 & H2 & _). right. cbn. destruct e as [|e]; [lia|]. cbn. exists (Z.to_nat i), (repeat (Z.to_nat i) e ++ ids ms). split; [reflexivity|lia].
Qed.
Lemma deglex_loop_ids l : forall r lo, (0 <= lo)%Z -> mons_wf lo l -> mons_wf lo r -> length (ids l) = length (ids r) -> deglex_loop l r = Some true -> lexlt (ids l) (ids r).
Proof.
  induction l as [|[i e] l IH]; intros [|[j f] r] lo H0 Hl Hr Hn H; try discriminate. cbn [deglex_loop] in H. destruct Hl as (L1 & L2 & L3), Hr as (R1 & R2 & R3).
  cbn in Hn. rewrite !app_length, !repeat_length in Hn.
  destruct (i <? j)%Z eqn:E1.
  - apply Z.ltb_lt in E1. cbn. destruct e as [|e]; [lia|]. destruct f as [|f]; [lia|]. cbn. left. lia.
  - destruct (j <? i)%Z eqn:E2; [discriminate|]. apply Z.ltb_ge in E1, E2. assert (i = j) as <- by lia. cbn [ids]. destruct (e <? f)%nat eqn:E3; [discriminate|]. apply Nat.ltb_ge in E3.
    destruct (f <? e)%nat eqn:E4.
    + apply Nat.ltb_lt in E4. replace e with (f + (e - f))%nat by lia. rewrite repeat_app, <- app_assoc. apply lexlt_app_same.
      destruct (ids_head (i + 1) r) as [E|(k & m & E & Hk)]; [lia|exact R3| |].
      * rewrite E in Hn. cbn in Hn. lia.
      * rewrite E. destruct (e - f)%nat as [|d] eqn:D; [lia|]. cbn. left. lia.
    + apply Nat.ltb_ge in E4. assert (e = f) as <- by lia. apply lexlt_app_same. apply (IH r (i + 1)%Z); try assumption; lia.
Qed.
Definition gids (g : gen) : list nat := ids (mons g).
Lemma precedes_shortlex g h : gen_wf g -> gen_wf h -> precedes g h -> shortlex (gids g) (gids h).
Proof.
  intros Wg Wh P. unfold gids. pose proof (proj2 (precedes_deglex g h Wg Wh) P) as D. unfold deglex, deglex_opt in D. destruct (gen_eqb g h) eqn:E; [discriminate|].
  destruct g as [p|i|l], h as [q|j|r]; try discriminate.
  - left. cbn. lia.
  - left. cbn [mons ids]. rewrite ids_length. destruct Wh. cbn. lia.
  - right. cbn [gen_wf] in Wg, Wh. cbn. split; [reflexivity|]. left. apply Z.ltb_lt in D. lia.
  - left. cbn [mons]. rewrite (ids_length r). destruct Wh. cbn. lia.
  - cbn [mons]. unfold shortlex. destruct Wg as [Wl _], Wh as [Wr _]. assert (TD : forall ms, total_degree ms = sum_exponents ms) by (induction ms as [|[i e] ms IH]; [reflexivity|]; unfold total_degree in *; cbn; rewrite IH; reflexivity).
    rewrite !TD in D. rewrite !ids_length. destruct (Nat.eqb (sum_exponents l) (sum_exponents r)) eqn:E'; cbn in D.
    + apply Nat.eqb_eq in E'. right. split; [exact E'|]. apply (deglex_loop_ids l r 0); [lia|assumption|assumption|rewrite !ids_length; exact E'|]. destruct (deglex_loop l r) as [[|]|]; [reflexivity|discriminate|discriminate].
    + left. apply Nat.ltb_lt. exact D.
Qed.
Lemma precedes_wf : well_founded (fun g h => gen_wf g /\ gen_wf h /\ precedes g h).
Proof.
  apply (wf_incl _ _ (fun g h => shortlex (gids g) (gids h))); [intros g h (Wg & Wh & P); apply precedes_shortlex; assumption|]. apply (wf_inverse_image _ _ shortlex gids), shortlex_wf.
Qed.

Open Scope R_scope.
Section Proofs.
  Variable A : ring.
  Variable S : semantics A.
  Hypothesis L : lawful A S.
  Implicit Types x y z w q r : elem A.
  Implicit Types c d : car A.
  Implicit Types p : par A.

  Notation top := (top A).
  (** * Leading terms *)
  Lemma leading_loop_none gs : forall cs, leading_loop (A := A) gs cs = None -> forall g c, In (g, c) (combine gs cs) -> c = czero A.
  Proof.
    induction gs as [|h gs IH]; intros [|d cs] H g c I; try destruct I. 
    - cbn in H. destruct (leading_loop gs cs); [discriminate|]. destruct (cz d) eqn:E; [|discriminate]. injection H0 as <- <-. apply (cz_spec A S L), E.
    - cbn in H. destruct (leading_loop gs cs) eqn:E'; [discriminate|]. apply (IH cs E' g c H0).
  Qed.
  Lemma leading_loop_some gs : forall cs c g, ascending gs -> leading_loop (A := A) gs cs = Some (c, g) ->
    In (g, c) (combine gs cs) /\ c <> czero A /\ forall g' c', In (g', c') (combine gs cs) -> c' <> czero A -> g' = g \/ precedes g' g.
  Proof.
    induction gs as [|h gs IH]; intros [|d cs] c g Ha H; try discriminate. cbn in H. destruct Ha as [Ha1 Ha2]. destruct (leading_loop gs cs) as [[c0 g0]|] eqn:E.
    - injection H as -> ->. destruct (IH cs c g Ha2 E) as (I & N & T). split; [right; exact I|]. split; [exact N|]. intros g' c' [E'|I'] N'.
      + injection E' as <- <-. right. apply Ha1. apply in_combine_l in I. exact I.
      + apply (T g' c' I' N').
    - destruct (cz d) eqn:Ed; [discriminate|]. injection H as <- <-. apply (cz_false A S L) in Ed. split; [left; reflexivity|]. split; [exact Ed|]. intros g' c' [E'|I'] N'.
      + injection E' as <- <-. left. reflexivity.
      + exfalso. apply N', (leading_loop_none gs cs E g' c' I').
  Qed.
  Lemma leading_top x c g : elem_wf S x -> leading x = Ok (c, g) -> top x g c.
  Proof.
    intros Hx H. unfold leading in H. destruct (leading_loop _ _) as [[c' g']|] eqn:E; [|discriminate]. injection H as -> ->. apply (leading_loop_some _ _ c g (proj2 (proj1 Hx)) E).
  Qed.
  Lemma leading_exists x : elem_wf S x -> nonzero x = true -> exists c g, leading x = Ok (c, g) /\ top x g c.
  Proof.
    intros Hx N. destruct (leading x) as [[c g]|e] eqn:E; [exists c, g; split; [reflexivity|apply leading_top; assumption]|]. exfalso.
    unfold leading in E. destruct (leading_loop _ _) as [[c' g']|] eqn:E'; [discriminate|]. destruct (top_exists A S L x Hx N) as (g & c & I & Nc & _). apply Nc, (leading_loop_none _ _ E' g c I).
  Qed.

  (** * Coefficients of an element as a polynomial *)
  Lemma top_coef p x g c : standard S p x -> top x g c -> rcoef (rlist A S x) g = val S c.
  Proof. intros Hx T. unfold rlist. rewrite (rcoef_in A S _ _ g c); [|apply Hx|apply T]. rewrite (standard_lead A S p x g Hx); [ring|]. apply (top_mem A S L x g c (proj1 Hx) T). Qed.
  Lemma top_above x g c k : top x g c -> precedes g k -> rcoef (rlist A S x) k = 0.
  Proof.
    intros T P. rewrite rcoef_rsum. apply rsum_zero. intros [a g'] I. cbn. apply rl_in in I. destruct I as (c' & I & ->).
    destruct (Classical_Prop.classic (c' = czero A)) as [->|N]; [rewrite (val_zero A S L); destruct (same_mono g' k); ring|].
    assert (P' : precedes g' k) by (destruct (proj2 (proj2 T) g' c' I N) as [->|P']; [exact P|exact (precedes_trans _ _ _ P' P)]).
    rewrite (proj1 (precedes_same_mono g' k P')). reflexivity.
  Qed.

  (** * One step *)
  Lemma monomial_spec p c g : gen_wf g -> (forall a : Qc, g = GRat a -> a = 1%Qc) -> mem S p c ->
    exists x, monomial c g p = Ok x /\ standard S p x /\ (forall rho, value S rho x = val S c * gen_val rho g) /\ (c <> czero A -> top x g c).
  Proof.
    intros Wg Rg Mc. unfold monomial.
    assert (C : compatible [g]) by (apply check_spec; reflexivity).
    rewrite (make_succeeds A [g] p C). cbn [bind gsort insert].
    destruct (make_ok A [g] p (mkModule [g] p)) as (WM & _); [constructor; [exact Wg|constructor]|exact (make_succeeds A [g] p C)|].
    destruct (module_gen (mkModule [g] p) 0) as [u|e] eqn:Eu; [|discriminate]. cbn [bind].
    destruct (module_gen_spec A S L _ 0 u WM Eu) as (Wu & Mu & g' & Eg' & Vu & _). cbn in Eg'. injection Eg' as <-.
    set (z := mkElem (A := A) (mkModule [g] p) [c]).
    assert (Wz : elem_wf S z) by (split; [exact WM|split; [reflexivity|constructor; [exact Mc|constructor]]]).
    assert (Nz : no_zero_gen [g]) by (intros [E|[]]; apply Rg in E; discriminate).
    assert (Vz : forall rho, value S rho z = value S rho u * val S c) by (intros rho; unfold value at 1; cbn; rewrite Vu; ring).
    destruct (smul_complete A S L u (SE c) z Wu) as (x & Ex); [rewrite Mu; exact Mc|rewrite Mu; exact Nz|exact Wz|rewrite Mu; reflexivity|exact Vz|].
    destruct (smul_spec A S L u (SE c) x Wu) as (Wx & Mx & Vx); [rewrite Mu; exact Mc|exact Ex|].
    assert (x = z) as ->.
    { apply (value_inj A S L x z Wx Wz); [rewrite Mx, Mu; reflexivity|rewrite Mx, Mu; exact Nz|]. intros rho. rewrite Vx, Vz. reflexivity. }
    exists z. split; [exact Ex|]. split; [|split].
    - split; [exact Wz|]. split; [reflexivity|]. intros q [E|[]]. apply Rg, E.
    - intros rho. rewrite Vz, Vu. ring.
    - intros Nc. split; [left; reflexivity|]. split; [exact Nc|]. intros g' c' [E|[]] _. injection E as <- _. left. reflexivity.
  Qed.
  Lemma quotient_standard g h k p x y : standard S p x -> standard S p y -> In g (basis (emodule x)) -> In h (basis (emodule y)) -> gen_wf k -> gen_mul k h = Ok g -> forall a, k = GRat a -> a = 1%Qc.
  Proof.
    intros Hx Hy Ig Ih Wk M a ->. apply gen_mul_cases in M. destruct M as [[E _]|[[-> E]|[(s & t & E & -> & ->)|(F & _)]]].
    - exact (f_equal (fun g => match g with GRat q => q | _ => 1%Qc end) E).
    - subst g. apply (proj2 (proj2 Hx) a Ig).
    - apply (f_equal (fun g => match g with GRat q => q | _ => 1%Qc end)) in E. cbn in E. subst s. apply (proj2 (proj2 Hy)) in Ih. apply (proj2 (proj2 Hx)) in Ig. subst t. rewrite Qcmult_1_r in Ig. exact Ig.
    - exfalso. apply F. exact Logic.I.
  Qed.
  (** A step that succeeds keeps x = q y + r, and the remainder gets smaller. *)
  Lemma div_step_sound p y q r q' r' : standard S p y -> standard S p q -> standard S p r -> nonzero r = true -> nonzero y = true ->
    div_step p y q r = Ok (Some (q', r')) ->
    standard S p q' /\ standard S p r' /\ (forall rho, value S rho q' * value S rho y + value S rho r' = value S rho q * value S rho y + value S rho r) /\
    forall g c g' c', top r g c -> top r' g' c' -> gen_wf g' /\ gen_wf g /\ precedes g' g.
  Proof.
    intros Hy Hq Hr Nr Ny H. unfold div_step in H.
    destruct (leading_exists r (proj1 Hr) Nr) as (a & g & Ea & Ta). destruct (leading_exists y (proj1 Hy) Ny) as (b & h & Eb & Tb). rewrite Ea, Eb in H. cbn [bind] in H.
    destruct (top_mem A S L r g a (proj1 Hr) Ta) as (Wg & Ig & Ma & Na). destruct (top_mem A S L y h b (proj1 Hy) Tb) as (Wh & Ih & Mb & Nb).
    rewrite (proj1 (proj2 Hr)) in Ma. rewrite (proj1 (proj2 Hy)) in Mb.
    destruct (gen_div g h) as [[k|]|] eqn:Ek; cbn [bind] in H; try discriminate.
    destruct (gen_div_sound g h k Wg Wh Ek) as [Wk Mk].
    destruct (negb (ceqb (cmul (cquo a b) b) a)) eqn:Ec; [destruct (isField A); discriminate|]. apply negb_false_iff in Ec. apply (L_eqb A S L) in Ec.
    destruct (L_quo A S L p a b Ma Mb Nb) as [Mc _]. set (c := cquo a b) in *.
    assert (Vc : val S c * val S b = val S a) by (rewrite <- Ec; symmetry; apply (L_mul A S L p c b Mc Mb)).
    destruct (monomial_spec p c k Wk (quotient_standard g h k p r y Hr Hy Ig Ih Wk Mk) Mc) as (m & Em & Hm & Vm & Tm). rewrite Em in H. cbn [bind] in H.
    assert (Nc : c <> czero A) by (intros E; rewrite E, (val_zero A S L) in Vc; apply Na; rewrite <- Vc; ring). specialize (Tm Nc).
    destruct (std_add A S L p q m Hq Hm) as (s & Es & Hs & Vs). rewrite Es in H. cbn [bind] in H.
    destruct (std_mul A S L p m y Hm Hy) as (t & Et & Ht & Vt). rewrite Et in H. cbn [bind] in H.
    destruct (std_sub A S L p r t Hr Ht) as (u & Eu & Hu & Vu). rewrite Eu in H. cbn [bind] in H. injection H as <- <-.
    split; [exact Hs|]. split; [exact Hu|]. split; [intros rho; rewrite Vs, Vu, Vt; ring|].
    intros g0 c0 g' c' T0 T'.
    assert (g0 = g) as ->.
    { destruct (proj2 (proj2 T0) g a (proj1 Ta) (proj1 (proj2 Ta))) as [<-|P1]; [reflexivity|].
      destruct (proj2 (proj2 Ta) g0 c0 (proj1 T0) (proj1 (proj2 T0))) as [->|P2]; [reflexivity|]. exfalso. apply (precedes_asym _ _ P1 P2). }
    destruct (top_mem A S L u g' c' (proj1 Hu) T') as (Wg' & Ig' & Mc' & Nc'). split; [exact Wg'|]. split; [exact Wg|].
    assert (U : forall k', gen_wf k' -> rcoef (rlist A S u) k' = rcoef (rlist A S r) k' - rcoef (rlist A S t) k').
    { intros k' Wk'. rewrite (rcoef_unique (rlist A S u) (rlist A S r ++ rscale (-1) (rlist A S t))); [rewrite rcoef_app, rscale_coef; ring|apply rlist_wf, Hu| | |exact Wk'].
      - rewrite map_app, rscale_gens. apply Forall_app. split; apply rlist_wf; [apply Hr|apply Ht].
      - intros rho. rewrite rcomb_app, rscale_comb, !rlist_value, Vu. ring. }
    destruct (product_coefficient A S L p m y k c h b g Hm Hy Tm Tb Mk (rlist A S t)) as [P1 P2]; [apply rlist_wf, Ht|intros rho; rewrite rlist_value; apply Vt|].
    clearbody c. assert (Ug : rcoef (rlist A S u) g = 0) by (rewrite (U g Wg), P1, (top_coef p r g a Hr Ta); lra).
    assert (Ua : forall k', gen_wf k' -> precedes g k' -> rcoef (rlist A S u) k' = 0) by (intros k' Wk' P; rewrite (U k' Wk'), (P2 k' Wk' P), (top_above r g a k' Ta P); ring).
    pose proof (top_coef p u g' c' Hu T') as Cg'.
    assert (g' <> g) as Ng by (intros ->; lra).
    assert (~ (rational g' /\ rational g)) as NR.
    { intros [R1 R2]. apply Ng. destruct g' as [s1| |], g as [s2| |]; try contradiction. apply (proj2 (proj2 Hu)) in Ig'. apply (proj2 (proj2 Hr)) in Ig. subst. reflexivity. }
    destruct (precedes_total g' g Wg' Wg Ng NR) as [P|P]; [exact P|]. exfalso. apply Nc'. rewrite <- Cg'. apply Ua; assumption.
  Qed.
  (** If the remainder is a multiple of the divisor, the step succeeds. *)
  Lemma div_step_complete p y q r w : standard S p y -> standard S p q -> standard S p r -> nonzero r = true -> nonzero y = true ->
    standard S p w -> (forall rho, value S rho r = value S rho w * value S rho y) ->
    exists q' r' w', div_step p y q r = Ok (Some (q', r')) /\ standard S p w' /\ (forall rho, value S rho r' = value S rho w' * value S rho y).
  Proof.
    intros Hy Hq Hr Nr Ny Hw V.
    assert (Nw : nonzero w = true).
    { destruct (nonzero w) eqn:N; [reflexivity|]. apply (nonzero_value A S L r (proj1 Hr) (standard_no_zero A S p r Hr)) in Nr. destruct Nr as [rho Nr]. exfalso. apply Nr.
      rewrite V, (value_evalv A S rho w), (evalv_nonzero_false A S L _ w N). ring. }
    destruct (leading_exists r (proj1 Hr) Nr) as (a & g & Ea & Ta). destruct (leading_exists y (proj1 Hy) Ny) as (b & h & Eb & Tb). destruct (leading_exists w (proj1 Hw) Nw) as (c & k & Ec & Tc).
    destruct (top_mem A S L r g a (proj1 Hr) Ta) as (Wg & Ig & Ma & Na). destruct (top_mem A S L y h b (proj1 Hy) Tb) as (Wh & Ih & Mb & Nb). destruct (top_mem A S L w k c (proj1 Hw) Tc) as (Wk & Ik & Mc & Nc).
    rewrite (proj1 (proj2 Hr)) in Ma. rewrite (proj1 (proj2 Hy)) in Mb. rewrite (proj1 (proj2 Hw)) in Mc.
    destruct (top_product A S L p w y r k c h b g a Hw Hy Hr V Tc Tb Ta) as [Mk Vk].
    destruct (gen_div g h) as [[k'|]|e] eqn:Ed.
    2:{ exfalso. apply (gen_div_complete g h k Wg Wh Wk Mk Ed). }
    2:{ exfalso. destruct (proj1 (gen_div_throws g h)) as (s & -> & Ns & _); [eauto|]. apply (proj2 (proj2 Hy)) in Ih. contradiction. }
    destruct (gen_div_sound g h k' Wg Wh Ed) as [Wk' Mk'].
    destruct (L_quo A S L p a b Ma Mb Nb) as [Md Ud]. specialize (Ud c Mc (eq_sym Vk)).
    assert (Eq : cquo a b = c) by (apply (L_inj A S L p); assumption).
    unfold div_step. rewrite Ea, Eb. cbn [bind]. rewrite Ed. cbn [bind]. rewrite Eq.
    assert (Em : cmul c b = a) by (apply (L_inj A S L p); [apply (L_mul A S L p c b Mc Mb)|exact Ma|rewrite (proj2 (L_mul A S L p c b Mc Mb)); symmetry; exact Vk]).
    rewrite Em, (proj2 (L_eqb A S L a a) eq_refl). cbn [negb].
    destruct (monomial_spec p c k' Wk' (quotient_standard g h k' p r y Hr Hy Ig Ih Wk' Mk') Mc) as (m & Em' & Hm & Vm & Tm). rewrite Em'. cbn [bind].
    destruct (std_add A S L p q m Hq Hm) as (s & Es & Hs & Vs). rewrite Es. cbn [bind].
    destruct (std_mul A S L p m y Hm Hy) as (t & Et & Ht & Vt). rewrite Et. cbn [bind].
    destruct (std_sub A S L p r t Hr Ht) as (u & Eu & Hu & Vu). rewrite Eu. cbn [bind].
    destruct (std_sub A S L p w m Hw Hm) as (v & Ev & Hv & Vv).
    exists s, u, v. split; [reflexivity|]. split; [exact Hv|]. intros rho. rewrite Vu, Vt, Vv, V. ring.
  Qed.
  (** A step does not throw. *)
  Lemma div_step_no_throw p y q r e : standard S p y -> standard S p q -> standard S p r -> nonzero r = true -> nonzero y = true -> div_step p y q r <> Err e.
  Proof.
    intros Hy Hq Hr Nr Ny H. unfold div_step in H.
    destruct (leading_exists r (proj1 Hr) Nr) as (a & g & Ea & Ta). destruct (leading_exists y (proj1 Hy) Ny) as (b & h & Eb & Tb). rewrite Ea, Eb in H. cbn [bind] in H.
    destruct (top_mem A S L r g a (proj1 Hr) Ta) as (Wg & Ig & Ma & Na). destruct (top_mem A S L y h b (proj1 Hy) Tb) as (Wh & Ih & Mb & Nb).
    rewrite (proj1 (proj2 Hr)) in Ma. rewrite (proj1 (proj2 Hy)) in Mb.
    destruct (gen_div g h) as [[k|]|e'] eqn:Ek; cbn [bind] in H; try discriminate.
    2:{ destruct (proj1 (gen_div_throws g h)) as (s & -> & Ns & _); [eauto|]. apply (proj2 (proj2 Hy)) in Ih. contradiction. }
    destruct (gen_div_sound g h k Wg Wh Ek) as [Wk Mk]. destruct (L_quo A S L p a b Ma Mb Nb) as [Mc Uc].
    destruct (negb (ceqb (cmul (cquo a b) b) a)) eqn:Ec.
    - destruct (isField A) eqn:F; [|discriminate]. apply negb_true_iff in Ec. apply not_true_iff_false in Ec. apply Ec, (L_eqb A S L).
      destruct (L_field A S L F p b Mb Nb) as (d & Md & Vd). destruct (L_mul A S L p a d Ma Md) as [Mad Vad].
      assert (V : val S (cmul a d) * val S b = val S a) by (rewrite Vad; transitivity (val S a * (val S d * val S b)); [ring|rewrite Vd; ring]).
      specialize (Uc (cmul a d) Mad V). destruct (L_mul A S L p _ b Mc Mb) as [M1 V1]. apply (L_inj A S L p); [exact M1|exact Ma|]. rewrite V1, Uc. exact V.
    - destruct (monomial_spec p (cquo a b) k Wk (quotient_standard g h k p r y Hr Hy Ig Ih Wk Mk) Mc) as (m & Em' & Hm & Vm & Tm). rewrite Em' in H. cbn [bind] in H.
      destruct (std_add A S L p q m Hq Hm) as (s & Es & Hs & Vs). rewrite Es in H. cbn [bind] in H.
      destruct (std_mul A S L p m y Hm Hy) as (t & Et & Ht & Vt). rewrite Et in H. cbn [bind] in H.
      destruct (std_sub A S L p r t Hr Ht) as (u & Eu & Hu & Vu). rewrite Eu in H. discriminate.
  Qed.

  (** * The loop *)
  Lemma div_loop_more fuel : forall p y q r res n, (fuel <= n)%nat -> div_loop fuel p y q r = Some res -> div_loop n p y q r = Some res.
  Proof.
    induction fuel as [|fuel IH]; intros p y q r res n Hn H; [discriminate|]. destruct n as [|n]; [lia|]. cbn in *. destruct (negb (nonzero r)); [exact H|].
    destruct (div_step p y q r) as [[[q' r']|]|e]; try exact H. apply (IH p y q' r' res n); [lia|exact H].
  Qed.
  Lemma div_loop_terminates p y : standard S p y -> nonzero y = true -> forall q r, standard S p q -> standard S p r ->
    exists fuel res, div_loop fuel p y q r = Some (Ok res).
  Proof.
    intros Hy Ny.
    assert (Base : forall q r, nonzero r = false -> exists fuel res, div_loop fuel p y q r = Some (Ok res)) by (intros q r N; exists 1%nat, (Some q); cbn; rewrite N; reflexivity).
    assert (Main : forall g q r c, standard S p q -> standard S p r -> top r g c -> exists fuel res, div_loop fuel p y q r = Some (Ok res)).
    { intros g. induction g as [g IH] using (well_founded_induction precedes_wf). intros q r c Hq Hr T. destruct (nonzero r) eqn:N; [|apply Base, N].
      destruct (div_step p y q r) as [[[q' r']|]|e] eqn:E.
      - destruct (div_step_sound p y q r q' r' Hy Hq Hr N Ny E) as (Hq' & Hr' & _ & D).
        assert (X : exists fuel res, div_loop fuel p y q' r' = Some (Ok res)).
        { destruct (nonzero r') eqn:N'; [|apply Base, N']. destruct (top_exists A S L r' (proj1 Hr') N') as (g' & c' & T'). apply (IH g' (D g c g' c' T T') q' r' c' Hq' Hr' T'). }
        destruct X as (fuel & res & X). exists (Datatypes.S fuel), res. cbn. rewrite N, E. exact X.
      - exists 1%nat, None. cbn. rewrite N, E. reflexivity.
      - exfalso. apply (div_step_no_throw p y q r e Hy Hq Hr N Ny E). }
    intros q r Hq Hr. destruct (nonzero r) eqn:N; [|apply Base, N]. destruct (top_exists A S L r (proj1 Hr) N) as (g & c & T). apply (Main g q r c Hq Hr T).
  Qed.
  Lemma div_loop_sound fuel : forall p y q r w, standard S p y -> nonzero y = true -> standard S p q -> standard S p r -> div_loop fuel p y q r = Some (Ok (Some w)) ->
    standard S p w /\ forall rho, value S rho w * value S rho y = value S rho q * value S rho y + value S rho r.
  Proof.
    induction fuel as [|fuel IH]; intros p y q r w Hy Ny Hq Hr H; [discriminate|]. cbn in H. destruct (nonzero r) eqn:N; cbn in H.
    - destruct (div_step p y q r) as [[[q' r']|]|e] eqn:E; try discriminate. destruct (div_step_sound p y q r q' r' Hy Hq Hr N Ny E) as (Hq' & Hr' & V & _).
      destruct (IH p y q' r' w Hy Ny Hq' Hr' H) as [Hw Vw]. split; [exact Hw|]. intros rho. rewrite Vw, V. reflexivity.
    - injection H as <-. split; [exact Hq|]. intros rho. rewrite (value_evalv A S rho r), (evalv_nonzero_false A S L _ r N). ring.
  Qed.
  Lemma div_loop_complete fuel : forall p y q r w, standard S p y -> nonzero y = true -> standard S p q -> standard S p r -> standard S p w ->
    (forall rho, value S rho r = value S rho w * value S rho y) -> div_loop fuel p y q r <> Some (Ok None).
  Proof.
    induction fuel as [|fuel IH]; intros p y q r w Hy Ny Hq Hr Hw V H; [discriminate|]. cbn in H. destruct (nonzero r) eqn:N; cbn in H; [|discriminate].
    destruct (div_step_complete p y q r w Hy Hq Hr N Ny Hw V) as (q' & r' & w' & E & Hw' & V'). rewrite E in H. destruct (div_step_sound p y q r q' r' Hy Hq Hr N Ny E) as (Hq' & Hr' & _ & _).
    apply (IH p y q' r' w' Hy Ny Hq' Hr' Hw' V' H).
  Qed.
  Lemma div_loop_no_throw fuel : forall p y q r e, standard S p y -> nonzero y = true -> standard S p q -> standard S p r -> div_loop fuel p y q r <> Some (Err e).
  Proof.
    induction fuel as [|fuel IH]; intros p y q r e Hy Ny Hq Hr H; [discriminate|]. cbn in H. destruct (nonzero r) eqn:N; cbn in H; [|discriminate].
    destruct (div_step p y q r) as [[[q' r']|]|e'] eqn:E; try discriminate.
    - destruct (div_step_sound p y q r q' r' Hy Hq Hr N Ny E) as (Hq' & Hr' & _ & _). apply (IH p y q' r' e Hy Ny Hq' Hr' H).
    - apply (div_step_no_throw p y q r e' Hy Hq Hr N Ny E).
  Qed.
End Proofs.
