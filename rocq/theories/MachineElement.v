(** Model of modules and elements whose generators have machine integers as exponents (Machine.v): the arithmetic of
    Module.v, Element.v and Division.v with every operation on generators possibly undefined.
    A result is [None] when the behaviour is undefined, else what is returned or thrown. *)
From Coq Require Import ZArith QArith Qcanon Bool List.
From Verif Require Import Gen Ring Machine.
Import ListNotations.
Open Scope Z_scope.

Definition outcome (T : Type) := option (result T).
Definition obind {T U} (r : outcome T) (f : T -> outcome U) : outcome U :=
  match r with Some (Ok x) => f x | Some (Err e) => Some (Err e) | None => None end.
Definition obind_pure {T U} (r : result T) (f : T -> outcome U) : outcome U := obind (Some r) f.

Section MachineElement.
  Variable over : Z -> option Z.

  (** src/module.cc:116: std::sort by deglex, whose result is undefined when that of a comparison is.  As in Module.v the
      algorithm is insertion; which pairs std::sort compares depends on the library. *)
  Fixpoint minsert (g : mgen) (l : list mgen) : option (list mgen) :=
    match l with
    | [] => Some [g]
    | h :: l' =>
        match mdeglex over h g with
        | None => None
        | Some true => option_map (cons h) (minsert g l')
        | Some false => Some (g :: l)
        end
    end.
  Fixpoint msort (l : list mgen) : option (list mgen) :=
    match l with
    | [] => Some []
    | g :: l' => match msort l' with None => None | Some l'' => minsert g l'' end
    end.
  Definition mis_rational (g : mgen) : bool := match g with MRat _ => true | _ => false end.
  (** src/module.cc:47-58 *)
  Fixpoint mcheck (l : list mgen) : bool :=
    match l with
    | [] => true
    | g :: l' => forallb (fun h => negb (mis_rational g && mis_rational h) && negb (mgen_eqb g h)) l' && mcheck l'
    end.
  Fixpoint mbasis_eqb (l r : list mgen) : bool :=
    match l, r with
    | [], [] => true
    | g :: l', h :: r' => mgen_eqb g h && mbasis_eqb l' r'
    | _, _ => false
    end.
  Definition mhas_gen (l : list mgen) (g : mgen) : bool := existsb (fun h => mgen_eqb g h) l.
  (** src/module.cc:166-171 *)
  Fixpoint mappend_missing (b l : list mgen) : list mgen :=
    match l with
    | [] => b
    | g :: l' => mappend_missing (if mhas_gen b g then b else b ++ [g]) l'
    end.

  Variable A : ring.
  (** src/module.cc:65-66 *)
  Record mmodule := mkMModule { mbasis : list mgen; mmring : par A }.
  Definition mmodule_eqb (M N : mmodule) : bool := mbasis_eqb (mbasis M) (mbasis N) && par_eqb (mmring M) (mmring N).
  (** src/module.cc:114-120 *)
  Definition mmake (b : list mgen) (p : par A) : outcome mmodule :=
    match msort b with
    | None => None
    | Some b' => Some (if mcheck b' then Ok (mkMModule b' p) else Err LogicError)
    end.
  (** src/module.cc:177-185 *)
  Definition msubmodule (M N : mmodule) : bool := forallb (mhas_gen (mbasis N)) (mbasis M).
  (** src/module.cc:158-173 *)
  Definition mspan_same (M N : mmodule) : outcome mmodule :=
    if msubmodule N M then Some (Ok M)
    else if msubmodule M N then Some (Ok N)
    else mmake (mappend_missing (mbasis M) (mbasis N)) (mmring M).
  (** src/module.cc:144-174 *)
  Definition mspan (M N : mmodule) : outcome mmodule :=
    match mbasis M, mbasis N with
    | [], _ => Some (Ok N)
    | _, [] => Some (Ok M)
    | _, _ =>
        if par_eqb (mmring M) (mmring N) then mspan_same M N
        else obind_pure (compositum (mmring M) (mmring N)) (fun p =>
             obind (mmake (mbasis M) p) (fun M' =>
             obind (mmake (mbasis N) p) (fun N' => mspan_same M' N')))
    end.

  (** src/element.cc:55-84 *)
  Record melem := mkMElem { mmod : mmodule; mcoeffs : list (car A) }.
  (** src/element.cc:804-806 *)
  Definition mnonzero (x : melem) : bool := existsb (fun c => negb (ceqb c (czero A))) (mcoeffs x).
  (** src/element.cc:855-897 *)
  Fixpoint mpromote_loop (theirs ours : list mgen) (cs : list (car A)) (p : par A) : outcome (list (car A)) :=
    match theirs with
    | [] => Some (if forallb (fun c => ceqb c (czero A)) (firstn (length ours) cs) then Ok [] else Err AssertionFailed)
    | t :: ts =>
        (fix inner (ours : list mgen) (cs : list (car A)) : outcome (list (car A)) :=
           match ours, cs with
           | g :: gs, c :: cs' =>
               if mgen_eqb g t then obind_pure (coerce p c) (fun c' => obind (mpromote_loop ts gs cs' p) (fun r => Some (Ok (c' :: r))))
               else match mdeglex over g t with
                    | None => None
                    | Some true => inner gs cs'
                    | Some false => obind (mpromote_loop ts ours cs p) (fun r => Some (Ok (czero A :: r)))
                    end
           | _, _ => obind (mpromote_loop ts [] [] p) (fun r => Some (Ok (czero A :: r)))
           end) ours cs
    end.
  Definition mpromote (x : melem) (M : mmodule) : outcome melem :=
    if mmodule_eqb (mmod x) M then Some (Ok x)
    else if negb (mnonzero x) then Some (Ok (mkMElem M (repeat (czero A) (length (mbasis M)))))
    else obind (mpromote_loop (mbasis M) (mbasis (mmod x)) (mcoeffs x) (mmring M)) (fun cs => Some (Ok (mkMElem M cs))).
  (** src/element.cc:211-213 *)
  Definition mcommon (x y : melem) : outcome (melem * melem) :=
    if mmodule_eqb (mmod x) (mmod y) then Some (Ok (x, y))
    else obind (mspan (mmod x) (mmod y)) (fun M =>
         obind (mpromote x M) (fun x' => obind (mpromote y M) (fun y' => Some (Ok (x', y'))))).
  Fixpoint madd_coeffs (l r : list (car A)) : list (car A) :=
    match l, r with a :: l', b :: r' => cadd a b :: madd_coeffs l' r' | _, _ => [] end.
  (** src/element.cc:210-220 operator+= *)
  Definition madd (x y : melem) : outcome melem :=
    obind (mcommon x y) (fun '(x', y') => Some (Ok (mkMElem (mmod x') (madd_coeffs (mcoeffs x') (mcoeffs y'))))).
  (** src/element.cc:275-282, 223-225 *)
  Definition mopp (x : melem) : melem := mkMElem (mmod x) (map copp (mcoeffs x)).
  Definition msub (x y : melem) : outcome melem := madd x (mopp y).

  (** src/element.cc:240-249 *)
  Fixpoint maccumulate (g : mgen) (v : car A) (l : list (mgen * car A)) : list (mgen * car A) :=
    match l with
    | [] => [(g, cadd (czero A) v)]
    | (h, w) :: l' => if mgen_eqb h g then (h, cadd w v) :: l' else (h, w) :: maccumulate g v l'
    end.
  Fixpoint mmul_row (g : mgen) (c : car A) (r : list (mgen * car A)) (acc : list (mgen * car A)) : outcome (list (mgen * car A)) :=
    match r with
    | [] => Some (Ok acc)
    | (h, d) :: r' => obind (mgen_mul over g h) (fun gh => mmul_row g c r' (maccumulate gh (cmul c d) acc))
    end.
  Fixpoint mmul_rows (l r : list (mgen * car A)) (acc : list (mgen * car A)) : outcome (list (mgen * car A)) :=
    match l with
    | [] => Some (Ok acc)
    | (g, c) :: l' => obind (mmul_row g c r acc) (fun acc' => mmul_rows l' r acc')
    end.
  (** src/element.cc:251-252 *)
  Fixpoint minsert_pair (x : mgen * car A) (l : list (mgen * car A)) : option (list (mgen * car A)) :=
    match l with
    | [] => Some [x]
    | y :: l' =>
        match mdeglex over (fst y) (fst x) with
        | None => None
        | Some true => option_map (cons y) (minsert_pair x l')
        | Some false => Some (x :: l)
        end
    end.
  Fixpoint msort_pairs (l : list (mgen * car A)) : option (list (mgen * car A)) :=
    match l with
    | [] => Some []
    | x :: l' => match msort_pairs l' with None => None | Some l'' => minsert_pair x l'' end
    end.
  (** src/element.cc:240-266 *)
  Definition mmul_same (x y : melem) : outcome melem :=
    obind (mmul_rows (combine (mbasis (mmod x)) (mcoeffs x)) (combine (mbasis (mmod y)) (mcoeffs y)) []) (fun products =>
    match msort_pairs products with
    | None => None
    | Some sorted =>
        obind (mmake (map fst sorted) (mmring (mmod x))) (fun M =>
        Some (if mbasis_eqb (mbasis M) (map fst sorted) then Ok (mkMElem M (map snd sorted)) else Err AssertionFailed))
    end).
  (** src/element.cc:228-267 operator*= *)
  Definition mmul (x y : melem) : outcome melem :=
    if negb (mnonzero x) then Some (Ok x)
    else if negb (mnonzero y) then Some (Ok y)
    else if par_eqb (mmring (mmod x)) (mmring (mmod y)) then mmul_same x y
    else obind_pure (compositum (mmring (mmod x)) (mmring (mmod y))) (fun p =>
         obind (mmake (mbasis (mmod x)) p) (fun M => obind (mpromote x M) (fun x' =>
         obind (mmake (mbasis (mmod y)) p) (fun N => obind (mpromote y N) (fun y' => mmul_same x' y'))))).
  (** src/element.cc:270-272 operator*=(RealNumber); src/module.cc:188-192 for the generator of the module *)
  Definition mmul_real (x : melem) (g : mgen) : outcome melem :=
    obind (mmake [g] (mmring (mmod x))) (fun M => mmul x (mkMElem M [cone A])).
  (** src/module.cc:188-192 gen and src/element.cc:338-346: a generator times a coefficient *)
  Definition mmonomial (c : car A) (g : mgen) (p : par A) : outcome melem :=
    obind (mmake [g] p) (fun M => obind_pure (imul (cone A) (SE c)) (fun c' => Some (Ok (mkMElem M [c'])))).
  (** src/element.cc:745-764 and 683-726, as in Element.v *)
  Fixpoint mrational_loop (gs : list mgen) (cs : list (car A)) (ret : Qc) : option Qc :=
    match gs, cs with
    | g :: gs', c :: cs' =>
        if ceqb c (czero A) then mrational_loop gs' cs' ret
        else match g with
             | MRat q => match crational c with None => None | Some r => mrational_loop gs' cs' (ret + q * r)%Qc end
             | _ => None
             end
    | _, _ => Some ret
    end.
  Definition meq_integer (x : melem) (n : Z) : bool :=
    match mrational_loop (mbasis (mmod x)) (mcoeffs x) 0%Qc with Some r => Qeq_bool r (Qc_of_Z n) | None => false end.
  (** src/element.cc:434-441 *)
  Fixpoint mleading_loop (gs : list mgen) (cs : list (car A)) : option (car A * mgen) :=
    match gs, cs with
    | g :: gs', c :: cs' =>
        match mleading_loop gs' cs' with
        | Some r => Some r
        | None => if ceqb c (czero A) then None else Some (c, g)
        end
    | _, _ => None
    end.
  Definition mleading (x : melem) : result (car A * mgen) :=
    match mleading_loop (mbasis (mmod x)) (mcoeffs x) with Some r => Ok r | None => Err LogicError end.
  (** src/element.cc:443-462 *)
  Definition mdiv_step (p : par A) (rhs quotient remainder : melem) : outcome (option (melem * melem)) :=
    obind_pure (mleading remainder) (fun '(a, g) =>
    obind_pure (mleading rhs) (fun '(b, h) =>
    obind (mgen_div over g h) (fun gq =>
    match gq with
    | None => Some (Ok None)
    | Some k =>
        let c := cquo a b in
        if negb (ceqb (cmul c b) a) then Some (if isField A then Err AssertionFailed else Ok None)
        else obind (mmonomial c k p) (fun partial =>
             obind (madd quotient partial) (fun quotient' =>
             obind (mmul partial rhs) (fun product =>
             obind (msub remainder product) (fun remainder' => Some (Ok (Some (quotient', remainder')))))))
    end))).
  (** src/element.cc:443-464; [fuel] as in Division.v, the outer option is [None] when it did not suffice. *)
  Fixpoint mdiv_loop (fuel : nat) (p : par A) (rhs quotient remainder : melem) : option (outcome (option melem)) :=
    match fuel with
    | O => None
    | S fuel' =>
        if negb (mnonzero remainder) then Some (Some (Ok (Some quotient)))
        else match mdiv_step p rhs quotient remainder with
             | None => Some None
             | Some (Err e) => Some (Some (Err e))
             | Some (Ok None) => Some (Some (Ok None))
             | Some (Ok (Some (q, r))) => mdiv_loop fuel' p rhs q r
             end
    end.
  (** src/element.cc:418-431 *)
  Definition mtruediv_same (fuel : nat) (x y : melem) : option (outcome (option melem)) :=
    if meq_integer y 0 then Some (Some (Err InvalidArgument))
    else if meq_integer y 1 then Some (Some (Ok (Some x)))
    else mdiv_loop fuel (mmring (mmod x)) y (mkMElem (mmod x) (repeat (czero A) (length (mbasis (mmod x))))) x.
  Definition mtruediv (fuel : nat) (x y : melem) : option (outcome (option melem)) :=
    if meq_integer y 0 then Some (Some (Err InvalidArgument))
    else if meq_integer y 1 then Some (Some (Ok (Some x)))
    else match mcommon x y with
         | None => Some None
         | Some (Err e) => Some (Some (Err e))
         | Some (Ok (x', y')) => mtruediv_same fuel x' y'
         end.
  (** src/element.cc:767-774 operator== *)
  Fixpoint mcoeffs_eqb (l r : list (car A)) : bool :=
    match l, r with
    | [], [] => true
    | a :: l', b :: r' => ceqb a b && mcoeffs_eqb l' r'
    | _, _ => false
    end.
  Definition mequal (x y : melem) : outcome bool :=
    obind (mcommon x y) (fun '(x', y') => Some (Ok (mcoeffs_eqb (mcoeffs x') (mcoeffs y')))).
  (** src/element.cc:900-918 *)
  Definition msimplify (x : melem) : outcome melem :=
    if forallb (fun c => negb (ceqb c (czero A))) (mcoeffs x) then Some (Ok x)
    else
      let gens := map fst (filter (fun '(_, c) => negb (ceqb c (czero A))) (combine (mbasis (mmod x)) (mcoeffs x))) in
      if Nat.eqb (length gens) (length (mbasis (mmod x))) then Some (Ok x)
      else obind (mmake gens (mmring (mmod x))) (fun M => mpromote x M).
End MachineElement.
Arguments mbasis {A}. Arguments mmring {A}. Arguments mmod {A}. Arguments mcoeffs {A}. Arguments mkMModule {A}. Arguments mkMElem {A}.
Arguments mmodule_eqb {A}. Arguments mmake _ {A}. Arguments msubmodule {A}. Arguments mspan_same _ {A}. Arguments mspan _ {A}. Arguments mnonzero {A}.
Arguments mpromote_loop _ {A}. Arguments mpromote _ {A}. Arguments mcommon _ {A}. Arguments madd_coeffs {A}. Arguments madd _ {A}. Arguments mopp {A}. Arguments msub _ {A}.
Arguments maccumulate {A}. Arguments mmul_row _ {A}. Arguments mmul_rows _ {A}. Arguments minsert_pair _ {A}. Arguments msort_pairs _ {A}. Arguments mmul_same _ {A}.
Arguments mmul _ {A}. Arguments mmul_real _ {A}.
Arguments mmonomial _ {A}. Arguments mrational_loop {A}. Arguments meq_integer {A}. Arguments mleading_loop {A}. Arguments mleading {A}. Arguments mdiv_step _ {A}. Arguments mdiv_loop _ {A}.
Arguments mtruediv_same _ {A}. Arguments mtruediv _ {A}.
Arguments mcoeffs_eqb {A}. Arguments mequal _ {A}. Arguments msimplify _ {A}.
