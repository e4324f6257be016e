(** Interning of modules: invariants of all histories. *)
From Coq Require Import ZArith QArith Qcanon Bool List Reals Lia Permutation.
From Verif Require Import Arf Arb SpecArf Real Gen SpecGen GenProofs Seed Factory SpecFactory FactoryProofs Ring SpecRing Module SpecModule ModuleProofs ModuleFactory SpecModuleFactory.
Import ListNotations.
Open Scope Z_scope.

Section Proofs.
  Variable A : ring.
  Hypothesis Hpar : forall p q : par A, par_eqb p q = true <-> p = q.
  Variable hash_ring : par A -> Z.
  Variable hash_combine : Z -> Z -> Z.
  Local Notation make_obj := (make_obj A hash_ring hash_combine).
  Local Notation mstep := (mstep A hash_ring hash_combine).
  Local Notation mrun := (mrun A hash_ring hash_combine).
  Local Notation find_mod := (find_mod A hash_ring hash_combine).
  Implicit Types st : mstate A.

  Definition stands (s : state) (x : Z) (g : gen) : Prop := exists o, In (x, o) (objs s) /\ gen_of x o = g.
  Lemma stands_fun s x g h : inv s -> stands s x g -> stands s x h -> g = h.
  Proof. intros Hi (o & H1 & <-) (p & H2 & <-). rewrite (inv_fun s x o p Hi H1 H2). reflexivity. Qed.
  Lemma stands_inj s x y g : inv s -> stands s x g -> stands s y g -> x = y.
  Proof. intros Hi (o & H1 & E1) (p & H2 & E2). apply (gen_of_inj s x o y p Hi H1 H2). congruence. Qed.
  Lemma stands_wf s x g : inv s -> stands s x g -> gen_wf g.
  Proof. intros Hi (o & H & <-). apply (gen_of_wf s); assumption. Qed.
  Lemma stands_lookup s x g : inv s -> ((exists o, lookup (objs s) x = Some o /\ gen_of x o = g) <-> stands s x g).
  Proof. intros Hi. split; intros (o & H1 & H2); exists o; split; try exact H2; apply (lookup_in _ _ _ (proj1 Hi)); exact H1. Qed.

  Definition minv st : Prop :=
    inv (nums st) /\ NoDup (map fst (mods st)) /\ (forall M o, In (M, o) (mods st) -> M < next_mod st) /\
    (forall M o, In (M, o) (mods st) -> exists gs, Forall2 (stands (nums st)) (gids o) gs /\ ascending gs) /\
    (forall M N o, In (M, o) (mods st) -> In (N, o) (mods st) -> M = N).

  Lemma mlookup_in (l : list (Z * mobj A)) M o : NoDup (map fst l) -> (mlookup l M = Some o <-> In (M, o) l).
  Proof.
    induction l as [|[N p] l IH]; cbn [map mlookup]; intros Hn; [split; [discriminate|contradiction]|].
    inversion Hn as [|a b N1 N2]; subst. destruct (Z.eqb_spec N M) as [->|Ne].
    - split; [intros [= ->]; left; reflexivity|]. intros [[= ->]|H]; [reflexivity|]. exfalso. apply N1.
      change M with (fst (M, o)). apply in_map. exact H.
    - rewrite IH by exact N2. split; [intros H; right; exact H|intros [[= -> _]|H]; [congruence|exact H]].
  Qed.

  (** * Keys *)
  Lemma ids_eqb_eq l r : ids_eqb l r = true <-> l = r.
  Proof.
    revert r. induction l as [|x l IH]; intros [|y r]; cbn [ids_eqb]; try (split; congruence). rewrite andb_true_iff, Z.eqb_eq, IH.
    split; [intros [-> ->]; reflexivity|intros [= -> ->]; auto].
  Qed.
  Lemma key_eqb_eq (k l : mobj A) : key_eqb A k l = true <-> k = l.
  Proof.
    unfold key_eqb. destruct k as [i p], l as [j q]. cbn [gring gids]. rewrite andb_true_iff, Hpar, ids_eqb_eq. split; [intros [-> ->]; reflexivity|intros [= -> ->]; auto].
  Qed.
  Lemma find_mod_some k l M : find_mod k l = Some M -> In (M, k) l.
  Proof.
    induction l as [|[N o] l IH]; cbn [ModuleFactory.find_mod]; [discriminate|]. destruct (_ && key_eqb A o k) eqn:E.
    - intros [= ->]. apply andb_true_iff in E. destruct E as [_ E]. apply key_eqb_eq in E. left. congruence.
    - intros H. right. apply IH. exact H.
  Qed.
  Lemma find_mod_none k l : find_mod k l = None -> forall M, ~ In (M, k) l.
  Proof.
    induction l as [|[N o] l IH]; cbn [ModuleFactory.find_mod]; intros H M; [intros []|]. destruct (_ && key_eqb A o k) eqn:E; [discriminate|].
    intros [[= -> ->]|Hin]; [|exact (IH H M Hin)]. rewrite Z.eqb_refl, (proj2 (key_eqb_eq k k) eq_refl) in E. discriminate.
  Qed.

  (** * Sorting *)
  Lemma pinsert_snd g l : map snd (pinsert g l) = insert (snd g) (map snd l).
  Proof. induction l as [|h l IH]; cbn; [reflexivity|]. destruct (deglex (snd h) (snd g)); cbn; [rewrite IH|]; reflexivity. Qed.
  Lemma psort_snd l : map snd (psort l) = gsort (map snd l).
  Proof. induction l as [|g l IH]; cbn; [reflexivity|]. rewrite pinsert_snd, IH. reflexivity. Qed.
  Lemma pinsert_perm g l : Permutation (g :: l) (pinsert g l).
  Proof.
    induction l as [|h l IH]; cbn; [apply Permutation_refl|]. destruct (deglex (snd h) (snd g)); [|apply Permutation_refl].
    apply (Permutation_trans (perm_swap h g l)). constructor. exact IH.
  Qed.
  Lemma psort_perm l : Permutation l (psort l).
  Proof.
    induction l as [|g l IH]; cbn; [apply Permutation_refl|]. apply (Permutation_trans (l' := g :: psort l)); [constructor; exact IH|apply pinsert_perm].
  Qed.
  Lemma resolve_spec s ids : inv s -> forall gs, Forall2 (stands s) ids gs -> resolve s ids = Some (combine ids gs).
  Proof.
    intros Hi. induction ids as [|x ids IH]; intros gs H; inversion H as [|? g ? gs' Hx Hr]; subst; [reflexivity|].
    cbn [resolve combine]. rewrite (IH _ Hr). apply (stands_lookup _ _ _ Hi) in Hx. destruct Hx as (o & -> & <-). reflexivity.
  Qed.
  Lemma resolve_live s ids l : inv s -> resolve s ids = Some l -> Forall2 (stands s) ids (map snd l) /\ l = combine ids (map snd l).
  Proof.
    intros Hi. revert l. induction ids as [|x ids IH]; intros l; cbn [resolve]; [intros [= <-]; split; [constructor|reflexivity]|].
    destruct (lookup (objs s) x) as [o|] eqn:E; [|discriminate]. destruct (resolve s ids) as [l'|]; [|discriminate]. intros [= <-].
    destruct (IH l' eq_refl) as [H1 H2]. cbn [map snd combine]. split; [|rewrite <- H2; reflexivity]. constructor; [|exact H1].
    apply (stands_lookup _ _ _ Hi). eauto.
  Qed.
  Lemma combine_snd (ids : list Z) (gs : list gen) : List.length ids = List.length gs -> map snd (combine ids gs) = gs.
  Proof. revert gs. induction ids as [|x ids IH]; intros [|g gs]; cbn; try discriminate; intros H; [reflexivity|]. rewrite IH by lia. reflexivity. Qed.
  Lemma Forall2_combine s ids gs : Forall2 (stands s) ids gs -> Forall (fun p => stands s (fst p) (snd p)) (combine ids gs).
  Proof. induction 1; cbn; constructor; auto. Qed.
  Lemma Forall_stands s l : Forall (fun p => stands s (fst p) (snd p)) l -> Forall2 (stands s) (map fst l) (map snd l).
  Proof. induction 1; cbn; constructor; auto. Qed.
  (** The sorted generators, with their ids *)
  Lemma sorted_stand s ids gs : inv s -> Forall2 (stands s) ids gs ->
    Forall2 (stands s) (map fst (psort (combine ids gs))) (gsort gs) /\ map snd (psort (combine ids gs)) = gsort gs.
  Proof.
    intros Hi H. assert (E : map snd (psort (combine ids gs)) = gsort gs) by (rewrite psort_snd, combine_snd by (clear -H; induction H; cbn; congruence); reflexivity).
    split; [|exact E]. rewrite <- E. apply Forall_stands. apply (Permutation_Forall (psort_perm _)). apply Forall2_combine. exact H.
  Qed.
  Lemma Forall2_fun s ids gs hs : inv s -> Forall2 (stands s) ids gs -> Forall2 (stands s) ids hs -> gs = hs.
  Proof.
    intros Hi H. revert hs. induction H as [|x g ids gs Hx H IH]; intros hs K; inversion K as [|? h ? hs' Kx K']; subst; [reflexivity|].
    f_equal; [exact (stands_fun s x g h Hi Hx Kx)|apply IH; exact K'].
  Qed.
  Lemma Forall2_inj s ids jds gs : inv s -> Forall2 (stands s) ids gs -> Forall2 (stands s) jds gs -> ids = jds.
  Proof.
    intros Hi H. revert jds. induction H as [|x g ids gs Hx H IH]; intros jds K; inversion K as [|y ? jds' ? Ky K']; subst; [reflexivity|].
    f_equal; [exact (stands_inj s x y g Hi Hx Ky)|apply IH; exact K'].
  Qed.
  Lemma Forall2_wf s ids gs : inv s -> Forall2 (stands s) ids gs -> Forall gen_wf gs.
  Proof. intros Hi. induction 1; constructor; [eapply stands_wf; eassumption|assumption]. Qed.

  (** * make *)
  Lemma make_obj_spec st ids gs p : minv st -> Forall2 (stands (nums st)) ids gs ->
    match make gs p with
    | Err e => make_obj st ids p = Err e
    | Ok N => exists st' M jds, make_obj st ids p = Ok (st', M) /\ minv st' /\ In (M, mkMobj jds p) (mods st') /\
                Forall2 (stands (nums st')) jds (basis N) /\ nums st' = nums st /\
                (forall M' o, In (M', o) (mods st) -> In (M', o) (mods st')) /\
                (forall M', In (M', mkMobj jds p) (mods st) -> st' = st /\ M = M')
    end.
  Proof.
    intros Hm H. pose proof Hm as (Hi & H1 & H2 & H3 & H4). unfold ModuleFactory.make_obj. rewrite (resolve_spec _ _ Hi gs H). cbv zeta.
    destruct (sorted_stand _ _ _ Hi H) as [Hs Es]. rewrite Es. set (jds := map fst (psort (combine ids gs))) in *. unfold make.
    destruct (find_mod (mkMobj jds p) (mods st)) as [M|] eqn:E.
    - apply find_mod_some in E. destruct (H3 _ _ E) as (hs & Hh & Ha). cbn [gids] in Hh. rewrite (Forall2_fun _ _ _ _ Hi Hs Hh).
      rewrite (proj2 (check_spec hs) (ascending_compatible _ Ha)). exists st, M, jds. cbn [basis]. split; [reflexivity|]. split; [exact Hm|]. split; [exact E|]. split; [exact Hh|].
      split; [reflexivity|]. split; [auto|]. intros M' HM'. split; [reflexivity|]. exact (H4 _ _ _ E HM').
    - destruct (check (gsort gs)) eqn:C; [|reflexivity]. eexists _, _, jds. split; [reflexivity|]. cbn [nums mods next_mod basis].
      assert (Ha : ascending (gsort gs)).
      { apply gsort_ascending; [exact (Forall2_wf _ _ _ Hi H)|]. apply (compatible_perm (gsort gs)); [apply Permutation_sym, gsort_perm|]. apply check_spec. exact C. }
      split; [|split; [left; reflexivity|split; [exact Hs|split; [reflexivity|split]]]].
      + split; [exact Hi|]. cbn [nums mods next_mod]. split; [|split; [|split]].
        * cbn [map fst]. constructor; [|exact H1]. rewrite in_map_iff. intros ([x o] & Hx & Hin). cbn in Hx. subst x. specialize (H2 _ _ Hin). lia.
        * intros M o [[= <- <-]|Hin]; [lia|]. specialize (H2 _ _ Hin). lia.
        * intros M o [[= <- <-]|Hin]; [exists (gsort gs); split; [exact Hs|exact Ha]|exact (H3 _ _ Hin)].
        * intros M N o [[= <- <-]|HM] [HN|HN].
          -- injection HN as <-. reflexivity.
          -- exfalso. exact (find_mod_none _ _ E N HN).
          -- injection HN as <- <-. exfalso. exact (find_mod_none _ _ E M HM).
          -- exact (H4 _ _ _ HM HN).
      + intros M' o HM. right. exact HM.
      + intros M' HM. exfalso. exact (find_mod_none _ _ E M' HM).
  Qed.

  (** * Histories *)
  Lemma get_extends s key create : extends s (fst (get s key create)).
  Proof. unfold get. destruct (find_key _ _); cbn [fst]; [apply extends_refl|]. split; cbn; [intros x o H; right; exact H|lia]. Qed.
  Lemma step_extends s o : inv s -> (forall x, o <> Collect x) -> extends s (step s o).
  Proof.
    intros Hi Hc. destruct o as [q|a|x y|x y|x]; cbn [step]; [apply get_extends|apply get_extends| | |exfalso; exact (Hc x eq_refl)].
    - destruct (mul s x y) as [[s' z]|e] eqn:E; [|apply extends_refl]. destruct (mul_result _ _ _ _ _ Hi E) as (ox & oy & o & _ & _ & _ & X & _). exact X.
    - destruct (div s x y) as [[[s' z]|]|e] eqn:E; [|apply extends_refl|apply extends_refl]. pose proof E as E'.
      unfold div in E'. destruct (lookup (objs s) x) as [ox|] eqn:Lx; [|discriminate]. destruct (lookup (objs s) y) as [oy|] eqn:Ly; [|discriminate].
      apply (lookup_in _ _ _ (proj1 Hi)) in Lx, Ly. pose proof (div_spec s x ox y oy Hi Lx Ly) as D.
      destruct (gen_div _ _) as [[g|]|]; [|congruence|congruence]. destruct D as (s1 & z1 & o & D1 & _ & X & _). rewrite E in D1. injection D1 as -> ->. exact X.
  Qed.
  Lemma stands_extends s s' x g : extends s s' -> stands s x g -> stands s' x g.
  Proof. intros [X _] (o & H & E). exists o. split; [apply X; exact H|exact E]. Qed.
  Lemma Forall2_extends s s' ids gs : extends s s' -> Forall2 (stands s) ids gs -> Forall2 (stands s') ids gs.
  Proof. intros X. induction 1; constructor; [eapply stands_extends; eassumption|assumption]. Qed.
  Lemma Forall2_collect s x ids gs : existsb (Z.eqb x) ids = false -> Forall2 (stands s) ids gs -> Forall2 (stands (collect s x)) ids gs.
  Proof.
    intros E H. induction H as [|y g ids gs (o & H & G) Hr IH]; [constructor|]. cbn [existsb] in E. apply orb_false_iff in E. destruct E as [E1 E2]. constructor; [|apply IH; exact E2].
    exists o. split; [|exact G]. unfold collect. destruct (existsb _ (objs s)); [exact H|]. cbn [objs]. apply filter_In. split; [exact H|]. rewrite Z.eqb_sym, E1. reflexivity.
  Qed.
  Lemma minv_number st s' : minv st -> inv s' -> (forall M o gs, In (M, o) (mods st) -> Forall2 (stands (nums st)) (gids o) gs -> Forall2 (stands s') (gids o) gs) ->
    minv (mkMstate s' (mods st) (next_mod st)).
  Proof.
    intros (Hi & H1 & H2 & H3 & H4) Hi' X. split; [exact Hi'|]. cbn [nums mods next_mod]. split; [exact H1|]. split; [exact H2|]. split; [|exact H4].
    intros M o Hin. destruct (H3 M o Hin) as (gs & Hg & Ha). exists gs. split; [exact (X M o gs Hin Hg)|exact Ha].
  Qed.
  Lemma mstep_inv st o : minv st -> minv (mstep st o).
  Proof.
    intros Hm. pose proof Hm as (Hi & H1 & H2 & H3 & H4). destruct o as [o|ids p|M]; cbn [ModuleFactory.mstep].
    - assert (G : (forall x, o <> Collect x) -> minv (mkMstate (step (nums st) o) (mods st) (next_mod st))).
      { intros Hc. apply minv_number; [exact Hm|apply step_inv; exact Hi|]. intros M m gs _. apply Forall2_extends. apply step_extends; assumption. }
      destruct o as [q|a|x y|x y|x]; try (apply G; discriminate). destruct (existsb _ (mods st)) eqn:E; [exact Hm|].
      apply minv_number; [exact Hm|apply collect_inv; exact Hi|]. intros M m gs Hin. apply Forall2_collect.
      destruct (existsb (Z.eqb x) (gids m)) eqn:F; [|reflexivity]. rewrite <- E. symmetry. apply existsb_exists. exists (M, m). split; [exact Hin|exact F].
    - destruct (make_obj st ids p) as [[st' M]|e] eqn:E; [|exact Hm]. pose proof E as E'. unfold ModuleFactory.make_obj in E'.
      destruct (resolve (nums st) ids) as [l|] eqn:R; [|discriminate]. destruct (resolve_live _ _ _ Hi R) as [L _].
      pose proof (make_obj_spec st ids _ p Hm L) as S. destruct (make (map snd l) p) as [N|e]; [|congruence].
      destruct S as (st1 & M1 & jds & S1 & S2 & _). rewrite E in S1. injection S1 as -> ->. exact S2.
    - split; [exact Hi|]. cbn [nums mods next_mod].
      assert (Sub : forall N o, In (N, o) (filter (fun '(N, _) => negb (N =? M)) (mods st)) -> In (N, o) (mods st)) by (intros N o H; apply filter_In in H; tauto).
      split; [|split; [|split]].
      + clear - H1. induction (mods st) as [|[y o] l IH]; cbn [filter map] in *; [constructor|]. inversion H1 as [|a b N1 N2]; subst.
        destruct (negb (y =? M)); cbn [map]; [|exact (IH N2)]. constructor; [|exact (IH N2)].
        intros Hin. apply N1. apply in_map_iff in Hin. destruct Hin as ([w p] & Hw & Hin). apply filter_In in Hin. apply in_map_iff. exists (w, p). tauto.
      + intros N o H. apply (H2 N o). apply Sub. exact H.
      + intros N o H. apply (H3 N o). apply Sub. exact H.
      + intros N N' o H H'. apply (H4 N N' o); apply Sub; assumption.
  Qed.
  Lemma minit_inv : minv minit.
  Proof. split; [apply init_inv|]. split; [constructor|]. repeat split; try contradiction. Qed.
  Lemma mrun_inv ops : forall st, minv st -> minv (mrun ops st).
  Proof. induction ops as [|o ops IH]; intros st H; [exact H|]. apply (IH (mstep st o)). apply mstep_inv. exact H. Qed.
  Lemma mreachable_inv st : mreachable hash_ring hash_combine st -> minv st.
  Proof. intros [ops ->]. apply mrun_inv. apply minit_inv. Qed.

  (** Identities of modules are not reused, modules and numbers do not change. *)
  Definition mstable st st' : Prop :=
    next_mod st <= next_mod st' /\ (forall M o, In (M, o) (mods st') -> In (M, o) (mods st) \/ next_mod st <= M) /\ stable (nums st) (nums st').
  Lemma mstable_refl st : mstable st st.
  Proof. split; [lia|]. split; [auto|apply stable_refl]. Qed.
  Lemma mstep_stable st o : mstable st (mstep st o).
  Proof.
    destruct o as [o|ids p|M]; cbn [ModuleFactory.mstep].
    - assert (G : mstable st (mkMstate (step (nums st) o) (mods st) (next_mod st))) by (split; [cbn; lia|split; [cbn; auto|apply step_stable]]).
      destruct o as [q|a|x y|x y|x]; try exact G. destruct (existsb _ (mods st)); [apply mstable_refl|exact G].
    - unfold ModuleFactory.make_obj. destruct (resolve (nums st) ids) as [l|]; [|apply mstable_refl]. destruct (find_mod _ _); [apply mstable_refl|]. destruct (check _); [|apply mstable_refl].
      split; [cbn; lia|]. split; [|apply stable_refl]. intros M o [[= <- <-]|H]; [right; lia|left; exact H].
    - split; [cbn; lia|]. split; [|apply stable_refl]. intros N o H. apply filter_In in H. left. tauto.
  Qed.
  Lemma stable_trans s1 s2 s3 : stable s1 s2 -> stable s2 s3 -> stable s1 s3.
  Proof.
    intros [a b] [c d]. split; [lia|]. intros x o H. destruct (d x o H) as [H1|H1]; [apply b; exact H1|right; lia].
  Qed.
  Lemma mrun_stable ops : forall st, mstable st (mrun ops st).
  Proof.
    induction ops as [|o ops IH]; intros st; [apply mstable_refl|]. destruct (mstep_stable st o) as (a & b & c). destruct (IH (mstep st o)) as (d & e & f).
    split; [unfold ModuleFactory.mrun in *; cbn [fold_left] in *; lia|]. split; [|exact (stable_trans _ _ _ c f)].
    intros M m H. destruct (e M m H) as [H1|H1]; [apply b; exact H1|right; lia].
  Qed.
  Lemma mrun_same st ops M o p : minv st -> In (M, o) (mods st) -> In (M, p) (mods (mrun ops st)) -> o = p.
  Proof.
    intros (Hi & H1 & H2 & H3 & H4) Ho Hp. destruct (mrun_stable ops st) as (_ & X & _). destruct (X M p Hp) as [K|K].
    - apply (mlookup_in _ _ _ H1) in Ho, K. congruence.
    - specialize (H2 _ _ Ho). lia.
  Qed.
  Lemma stands_run st ops x g h : minv st -> stands (nums st) x g -> stands (nums (mrun ops st)) x h -> g = h.
  Proof.
    intros (Hi & _) (o & H1 & <-) (p & H2 & <-). destruct (mrun_stable ops st) as (_ & _ & _ & X). destruct (X x p H2) as [K|K].
    - rewrite (inv_fun _ x o p Hi H1 K). reflexivity.
    - destruct Hi as (_ & I2 & _). specialize (I2 _ _ H1). lia.
  Qed.

  (** * In terms of the specification *)
  Lemma stand_for_iff st ids gs : minv st -> (stand_for st ids gs <-> Forall2 (stands (nums st)) ids gs).
  Proof. intros (Hi & _). unfold stand_for. split; induction 1; constructor; try assumption; apply (stands_lookup _ _ _ Hi); assumption. Qed.
  Lemma live_module_iff st M gs p : minv st -> (live_module st M gs p <-> exists ids, In (M, mkMobj ids p) (mods st) /\ Forall2 (stands (nums st)) ids gs).
  Proof.
    intros Hm. unfold live_module. split; intros (ids & H1 & H2); exists ids; (split; [apply (mlookup_in _ _ _ (proj1 (proj2 Hm))); exact H1|apply (stand_for_iff st ids gs Hm); exact H2]).
  Qed.
  Lemma live_ascending st M gs p : minv st -> live_module st M gs p -> ascending gs.
  Proof.
    intros Hm H. apply (live_module_iff _ _ _ _ Hm) in H. destruct H as (ids & H1 & H2). destruct Hm as (Hi & _ & _ & H3 & _). destruct (H3 _ _ H1) as (hs & Hh & Ha).
    rewrite (Forall2_fun _ _ _ _ Hi H2 Hh). exact Ha.
  Qed.

  Lemma make_value st ids gs p : mreachable hash_ring hash_combine st -> stand_for st ids gs ->
    match make gs p with
    | Ok N => exists st' M, make_obj st ids p = Ok (st', M) /\ live_module st' M (basis N) p
    | Err e => make_obj st ids p = Err e
    end.
  Proof.
    intros Hr H. pose proof (mreachable_inv st Hr) as Hm. apply (stand_for_iff _ _ _ Hm) in H. pose proof (make_obj_spec st ids gs p Hm H) as S.
    destruct (make gs p) as [N|e]; [|exact S]. destruct S as (st' & M & jds & S1 & S2 & S3 & S4 & _). exists st', M. split; [exact S1|].
    apply (live_module_iff _ _ _ _ S2). exists jds. auto.
  Qed.
  Lemma module_unique st M N gs hs p : mreachable hash_ring hash_combine st -> live_module st M gs p -> live_module st N hs p -> Permutation gs hs -> M = N.
  Proof.
    intros Hr HM HN P. pose proof (mreachable_inv st Hr) as Hm. pose proof (live_ascending _ _ _ _ Hm HM) as A1. pose proof (live_ascending _ _ _ _ Hm HN) as A2.
    rewrite <- (sorted_unique gs hs A1 A2 P) in HN. apply (live_module_iff _ _ _ _ Hm) in HM, HN. destruct HM as (ids & M1 & M2), HN as (jds & N1 & N2).
    destruct Hm as (Hi & _ & _ & _ & H4). rewrite <- (Forall2_inj _ _ _ _ Hi M2 N2) in N1. exact (H4 _ _ _ M1 N1).
  Qed.
  Lemma module_immutable st ops M gs p hs q : mreachable hash_ring hash_combine st -> live_module st M gs p -> live_module (mrun ops st) M hs q -> gs = hs /\ p = q.
  Proof.
    intros Hr HM HN. pose proof (mreachable_inv st Hr) as Hm. pose proof (mrun_inv ops st Hm) as Hm'.
    apply (live_module_iff _ _ _ _ Hm) in HM. apply (live_module_iff _ _ _ _ Hm') in HN. destruct HM as (ids & M1 & M2), HN as (jds & N1 & N2).
    pose proof (mrun_same st ops M _ _ Hm M1 N1) as E. injection E as <- <-. split; [|reflexivity].
    clear - Hm M2 N2. revert hs N2. induction M2 as [|x g ids gs Hx Hr IH]; intros hs N2; inversion N2 as [|? h ? hs' Hh Hhs]; subst; [reflexivity|].
    f_equal; [exact (stands_run st ops x g h Hm Hx Hh)|apply IH; exact Hhs].
  Qed.
  Lemma module_keeps_alive st M o : mreachable hash_ring hash_combine st -> mlookup (mods st) M = Some o -> exists gs, live_module st M gs (gring o) /\ Forall gen_wf gs /\ ascending gs.
  Proof.
    intros Hr H. pose proof (mreachable_inv st Hr) as Hm. pose proof H as H'. apply (mlookup_in _ _ _ (proj1 (proj2 Hm))) in H. pose proof Hm as (Hi & H1 & H2 & H3 & H4). destruct (H3 _ _ H) as (gs & Hg & Ha).
    exists gs. split; [|split; [exact (Forall2_wf _ _ _ Hi Hg)|exact Ha]]. apply live_module_iff; [exact Hm|]. exists (gids o). split; [destruct o; exact H|exact Hg].
  Qed.
  Lemma module_interned st ids gs p st1 M ops jds hs : mreachable hash_ring hash_combine st -> stand_for st ids gs -> make_obj st ids p = Ok (st1, M) ->
    mlookup (mods (mrun ops st1)) M <> None -> stand_for (mrun ops st1) jds hs -> Permutation gs hs -> make_obj (mrun ops st1) jds p = Ok (mrun ops st1, M).
  Proof.
    intros Hr H E L H' P. pose proof (mreachable_inv st Hr) as Hm. apply (stand_for_iff _ _ _ Hm) in H. pose proof (make_obj_spec st ids gs p Hm H) as S.
    destruct (make gs p) as [N|e] eqn:EN; [|congruence]. destruct S as (st' & M' & kds & S1 & S2 & S3 & S4 & _). rewrite E in S1. injection S1 as <- <-.
    set (st2 := mrun ops st1) in *. pose proof (mrun_inv ops st1 S2) as Hm2. fold st2 in Hm2. apply (stand_for_iff _ _ _ Hm2) in H'.
    pose proof (make_obj_spec st2 jds hs p Hm2 H') as S'. rewrite <- (make_permutation A gs hs p (Forall2_wf _ _ _ (proj1 Hm) H) P), EN in S'.
    destruct S' as (st3 & M3 & lds & T1 & T2 & T3 & T4 & T5 & T6 & T7).
    destruct (mlookup (mods st2) M) as [o|] eqn:Lo; [|congruence]. apply (mlookup_in _ _ _ (proj1 (proj2 Hm2))) in Lo.
    pose proof (mrun_same st1 ops M _ _ S2 S3 Lo) as <-.
    destruct Hm2 as (Hi2 & _ & _ & H3 & _). destruct (H3 _ _ Lo) as (ks & Hk & _). cbn [gids] in Hk.
    assert (ks = basis N) as ->.
    { clear - S2 S4 Hk. subst st2. revert ks Hk. induction S4 as [|x g l gs Hx Hr IH]; intros ks N2; inversion N2 as [|? h ? hs' Hh Hhs]; subst; [reflexivity|].
      f_equal; [symmetry; exact (stands_run st1 ops x g h S2 Hx Hh)|apply IH; exact Hhs]. }
    rewrite T5 in T4. rewrite (Forall2_inj _ _ _ _ Hi2 Hk T4) in Lo. destruct (T7 M Lo) as [-> ->]. exact T1.
  Qed.
End Proofs.
