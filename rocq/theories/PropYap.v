(** Property C48: expressions evaluate as if all operands had been read first. *)
From Coq Require Import ZArith Bool List Reals Lia Lra.
From Verif Require Import Arf Arb SpecArf ArfProofs ArbProofs Yap SpecYap YapProofs.
Import ListNotations.
Open Scope Z_scope.

(** x = e for floats: x becomes the rounded value of e at the time before the assignment; no
    other variable changes; the statement is rejected exactly if some operation has no precision or rounding. *)
Theorem C48_assign_float : forall (m : Z -> option arf) free x e,
  below free e -> x < free -> positive_precisions e ->
  match rounded_meaning (fun y => option_map arf2R (m y)) None None e with
  | None => arf_assign m free x e = None
  | Some v => exists m', arf_assign m free x e = Some m' /\ option_map arf2R (m' x) = v /\ forall y, y < free -> y <> x -> m' y = m y
  end.
Proof.
  intros m free x e B L P. rewrite <- arf_meaning_rounded by (assumption || exact Logic.I).
  pose proof (transform_spec (Some arf_zero) arf_v_neg arf_v_op e m free x unbound B L) as T. cbn [unbound fst snd] in T.
  unfold arf_assign, assign.
  destruct (meaning arf_v_neg arf_v_op m None None e); cbn [option_map]; [|exact T].
  destruct T as (m' & E & <- & O). exists m'. repeat split; assumption.
Qed.

(** x op= e for floats. *)
Theorem C48_inplace_float : forall (m : Z -> option arf) free x o e p rd,
  below free e -> x < free -> positive_precisions e -> bound_prec e = Some p -> bound_round e = Some rd -> 0 < p ->
  exists m' v, rounded_meaning (fun y => option_map arf2R (m y)) None None e = Some v /\ arf_inplace m free x o e = Some m' /\
    option_map arf2R (m' x) =
      match option_map arf2R (m x), v with
      | Some u, Some v => real_op o (if p =? ARF_PREC_EXACT then fun x => x else rounded p rd) (rounded p rd) u v
      | _, _ => None
      end /\
    forall y, y < free -> y <> x -> m' y = m y.
Proof.
  intros m free x o e p rd B L P BP BR Pp.
  pose proof (transform_spec (Some arf_zero) arf_v_neg arf_v_op (Round (Prec (Bin o (Var x) e) p) rd) m free x unbound) as T.
  cbn [unbound fst snd below] in T. specialize (T (conj L B) L).
  unfold arf_inplace, inplace. rewrite BP, BR.
  assert (M0 : meaning arf_v_neg arf_v_op m None None e = meaning arf_v_neg arf_v_op m (Some p) (Some rd) e).
  { rewrite (meaning_prec_bound arf_v_neg arf_v_op e p BP m None (Some p)). apply (meaning_round_bound arf_v_neg arf_v_op e rd BR). }
  cbn [meaning] in T.
  assert (D : exists w, meaning arf_v_neg arf_v_op m (Some p) (Some rd) e = Some w) by apply meaning_total.
  destruct D as [w D]. rewrite D in T. destruct T as (m' & E & F & O).
  exists m', (option_map arf2R w). rewrite <- arf_meaning_rounded by (assumption || exact Logic.I). rewrite M0, D. cbn [option_map].
  split; [reflexivity|]. split; [exact E|]. split; [|exact O].
  rewrite F. destruct (m x) as [a|]; [|reflexivity]. destruct w as [b|]; [|reflexivity]. cbn [option_map].
  apply rounded_exact_op. assumption.
Qed.

(** An annotation that is bound hides the ones around it. *)
Theorem C48_innermost_annotation : forall rho (e : expr (option arf)) p rd,
  (forall q, bound_prec e = Some q -> forall p', rounded_meaning rho p rd e = rounded_meaning rho p' rd e) /\
  (forall q, bound_round e = Some q -> forall rd', rounded_meaning rho p rd e = rounded_meaning rho p rd' e).
Proof.
  intros rho e p rd. split.
  - intros q E p'. revert p p' rd. induction e; intros; cbn in *; try discriminate; [reflexivity|apply IHe; assumption].
  - intros q E rd'. revert p rd rd'. induction e; intros; cbn in *; try discriminate; [apply IHe; assumption|reflexivity].
Qed.

(** x = e for balls: if the variables are balls around numbers, x becomes a ball around the
    value of e for these numbers; no other variable changes. *)
Theorem C48_assign_ball : forall mag_up, mag_up_ok mag_up -> forall (m : Z -> arb) rho const free x e m',
  (forall y, arb_wf (m y) /\ contains (m y) (rho y)) -> constants_ok const e -> below free e -> x < free -> positive_precisions e ->
  arb_assign mag_up m free x e = Some m' ->
  arb_wf (m' x) /\ contains (m' x) (real_meaning rho const e) /\ forall y, y < free -> y <> x -> m' y = m y.
Proof.
  intros mag_up ok m rho const free x e m' M K B L P E.
  pose proof (transform_spec (arb_of_arf arf_zero) arb_neg (arb_v_op mag_up) e m free x (None, Some NEAR) B L) as T. cbn [fst snd] in T.
  unfold arb_assign in E.
  destruct (meaning arb_neg (arb_v_op mag_up) m None (Some NEAR) e) as [v|] eqn:F; [|congruence].
  destruct T as (m1 & E1 & <- & O). assert (m1 = m') as -> by congruence.
  destruct (meaning_encloses mag_up ok const e m rho None (Some NEAR) (m' x) M K P Logic.I F). repeat split; assumption.
Qed.
(** If the whole expression has a precision, it is evaluated. *)
Theorem C48_assign_ball_defined : forall mag_up (m : Z -> arb) free x e p, below free e -> x < free ->
  exists m', arb_assign mag_up m free x (Prec e p) = Some m'.
Proof.
  intros mag_up m free x e p B L.
  pose proof (transform_spec (arb_of_arf arf_zero) arb_neg (arb_v_op mag_up) (Prec e p) m free x (None, Some NEAR) B L) as T. cbn [fst snd meaning] in T.
  destruct (meaning_total arb_neg (arb_v_op mag_up) e m p NEAR) as [w W]. rewrite W in T. destruct T as (m' & E & _). exists m'. exact E.
Qed.

(** x op= e for balls. *)
Theorem C48_inplace_ball : forall mag_up, mag_up_ok mag_up -> forall (m : Z -> arb) rho const free x o e p,
  (forall y, arb_wf (m y) /\ contains (m y) (rho y)) -> constants_ok const e -> below free e -> x < free -> positive_precisions e ->
  bound_prec e = Some p -> 0 < p ->
  exists m', arb_inplace mag_up m free x o e = Some m' /\ arb_wf (m' x) /\
    contains (m' x) (match o with
                     | Plus => rho x + real_meaning rho const e
                     | Minus => rho x - real_meaning rho const e
                     | Times => rho x * real_meaning rho const e
                     | Divide => rho x / real_meaning rho const e
                     end)%R /\
    forall y, y < free -> y <> x -> m' y = m y.
Proof.
  intros mag_up ok m rho const free x o e p M K B L P BP Pp.
  pose proof (transform_spec (arb_of_arf arf_zero) arb_neg (arb_v_op mag_up) (Round (Prec (Bin o (Var x) (Round e NEAR)) p) NEAR) m free x unbound) as T.
  cbn [unbound fst snd below] in T. specialize (T (conj L B) L). cbn [meaning] in T.
  unfold arb_inplace, inplace. cbn [bound_prec bound_round]. rewrite BP.
  destruct (meaning_total arb_neg (arb_v_op mag_up) e m p NEAR) as [w W]. rewrite W in T.
  destruct T as (m' & E & F & O). exists m'. split; [exact E|].
  destruct (meaning_encloses mag_up ok const e m rho (Some p) (Some NEAR) w M K P Pp W) as [Ww Cw].
  destruct (arb_v_op_contains mag_up ok o p NEAR (m x) w (rho x) (real_meaning rho const e)) as [W1 C1]; try assumption; try apply M.
  rewrite F. split; [exact W1|]. split; [exact C1|exact O].
Qed.

(** x = (y + x*(x - 2)(3)(FLOOR))(53, NEAR) with x = 5, y = 1/2: the operand x is read before it is
    written, x - 2 is rounded to 3 bits, the rest to 53. *)
Example C48_example :
  let m := fun z => Some (if z =? 0 then arf_of_Z 5 else if z =? 1 then mkArf 1 (-1) else arf_zero) in
  let e := Round (Prec (Bin Plus (Var 1) (Bin Times (Var 0) (Round (Prec (Bin Minus (Var 0) (Const (Some (arf_of_Z 2)))) 3) FLOOR))) 53) NEAR in
  below 2 e /\ positive_precisions e /\
  match arf_assign m 2 0 e with Some m' => option_map (arf_eqb (mkArf 31 (-1))) (m' 0) = Some true /\ m' 1 = m 1 | None => False end /\
  match arf_inplace m 2 0 Minus e with Some m' => option_map (arf_eqb (mkArf (-21) (-1))) (m' 0) = Some true | None => False end /\
  arf_assign m 2 0 (Bin Plus (Var 1) (Round (Prec (Var 0) 5) NEAR)) = None.
Proof. repeat split; vm_compute; reflexivity. Qed.

Example C48_ball_example : mag_up_ok (fun r => r) /\
  let m := fun z : Z => mkArb (arf_of_Z (3 + z)) (Some (mkArf 1 (-2))) in
  let e := Prec (Bin Times (Var 0) (Bin Minus (Const (arb_of_Z 1)) (Var 0))) 10 in
  (forall y, arb_wf (m y) /\ contains (m y) (IZR (3 + y))) /\ constants_ok (fun _ => 1%R) e /\ below 1 e /\ positive_precisions e /\
  bound_prec e = Some 10 /\
  match arb_assign (fun r => r) m 1 0 e with Some m' => arf_eqb (mid (m' 0)) (arf_of_Z (-6)) = true /\ option_map (arf_eqb (mkArf 21 (-4))) (rad (m' 0)) = Some true | None => False end.
Proof.
  split; [intros r H; apply Rle_refl|]. cbv zeta. split; [|split; [|split; [|split; [|split]]]].
  - intros y. split; [cbn; lia|]. cbn [contains]. replace (IZR (3 + y)) with (arf2R (arf_of_Z (3 + y))) by apply arf_of_Z_spec.
    apply (contains_mid (mkArb (arf_of_Z (3 + y)) (Some (mkArf 1 (-2))))). cbn. lia.
  - cbn. repeat split; try lia. apply arb_of_Z_contains_iff. reflexivity.
  - cbn. lia.
  - cbn. lia.
  - reflexivity.
  - vm_compute. split; reflexivity.
Qed.
