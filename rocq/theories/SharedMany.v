(** All real numbers of a process, used by several threads at once: the steps of RealNumberBase::arf,
    src/real_number.cc:195-219, including those of the numbers that a number is made of
    (src/constrained_random_real_number.cc:75-99 asks inner, src/real_number_product.cc:519-553 its factors).  Shared.v is
    about a single number.

    Simplified as there: every access to a cache is one atomic step.  A thread is a stack of calls. *)
From Coq Require Import ZArith QArith Bool List.
From Verif Require Import Arf Arb Real Cache Shared.
Import ListNotations.
Open Scope Z_scope.

Section Many.
  (** The digits of random numbers, src/random_real_number.cc:66-92 *)
  Variable digits : Z -> Z -> arf.

  (** The calls of arf on other numbers, in this order, within arf_(prec): src/constrained_random_real_number.cc:87,
      src/real_number_product.cc:535-537 *)
  Definition needs (x : rnum) (prec : Z) : list (rnum * Z) :=
    match x with
    | RRat _ | RAtom (ARandom _) => []
    | RAtom (AConstr initial _ seed) =>
        let missing := prec + 1 - arf_bits initial in
        if 0 <? missing then [(RAtom (ARandom seed), missing - 1)] else []
    | RProd ms => map (fun a => (RAtom a, working_prec (Z.of_nat (length (factors ms))) prec)) (factors ms)
    end.
  (** What arf_(prec) makes of their results; prec is not negative.  As in Real.v *)
  Definition combined (x : rnum) (prec : Z) (got : list arf) : arf :=
    match x with
    | RRat q => arf_rational q prec
    | RAtom (ARandom seed) => digits seed prec
    | RAtom (AConstr initial e _) =>
        arf_round NEAR (prec + 1) (match got with [] => initial | additional :: _ => arf_add (prec + 1) NEAR initial (arf_shl additional (e - 1)) end)
    | RProd ms => arf_round NEAR (prec + 1) (fold_left (arf_mul (working_prec (Z.of_nat (length (factors ms))) prec) NEAR) got (arf_of_Z 1))
    end.

  (** Where a call of x.arf(prec) is, see [place] in Shared.v. *)
  Inductive stage :=
  | Looking | Counting | Wiping
  | Working (got : list arf) (todo : list (rnum * Z))   (* in arf_: the results so far, the calls to come; the first one of them may be on its way *)
  | Fetching.
  Record frame := mkFrame { number : rnum; precision : Z; stage_of : stage }.
  (** Idle: not in a call.  Crashed: an empty std::optional has been dereferenced. *)
  Inductive thread := Idle | Busy (f : frame) (below : list frame) | Crashed.

  (** All caches, the threads, and what the calls of the program have returned: thread, number, precision and value *)
  Record world := mkWorld { caches : heap; threads : nat -> thread; results : list (nat * rnum * Z * arf) }.
  Definition world_init : world := mkWorld heap_empty (fun _ => Idle) [].
  Definition become (w : world) (t : nat) (th : thread) : nat -> thread := fun u => if Nat.eqb u t then th else threads w u.

  Definition next_call (x : rnum) (prec : Z) : frame := mkFrame x (clamped prec) Looking.
  (** arf returns a *)
  Definition give (w : world) (h : heap) (t : nat) (x : rnum) (prec : Z) (a : arf) (below : list frame) : world :=
    match below with
    | [] => mkWorld h (become w t Idle) ((t, x, prec, a) :: results w)
    | mkFrame y q (Working got (_ :: todo)) :: below' => mkWorld h (become w t (Busy (mkFrame y q (Working (got ++ [a]) todo)) below')) (results w)
    | _ => mkWorld h (become w t Crashed) (results w)
    end.
  (** One step of thread t *)
  Definition tick (w : world) (t : nat) : world :=
    match threads w t with
    | Idle | Crashed => w
    | Busy (mkFrame x prec st) below =>
        let h := caches w in
        let go st' := mkWorld h (become w t (Busy (mkFrame x prec st') below)) (results w) in
        match st with
        | Looking => go (match cache_find (h x) prec with Some _ => Fetching | None => if usual prec then Working [] (needs x prec) else Counting end)
        | Counting => go (if (LARGE_PREC_LIMIT <=? length (large (h x)))%nat then Wiping else Working [] (needs x prec))
        | Wiping => mkWorld (heap_set h x (mkCache (c54 (h x)) (c64 (h x)) [])) (become w t (Busy (mkFrame x prec (Working [] (needs x prec))) below)) (results w)
        | Working got ((y, q) :: todo) => mkWorld h (become w t (Busy (next_call y q) (mkFrame x prec st :: below))) (results w)
        | Working got [] => mkWorld (heap_set h x (put (h x) prec (combined x prec got))) (become w t (Busy (mkFrame x prec Fetching) below)) (results w)
        | Fetching =>
            match cache_find (h x) prec with
            | Some a => give w h t x prec a below
            | None =>
                if usual prec then mkWorld h (become w t Crashed) (results w)
                else (* std::unordered_map::operator[] inserts Arf(), which is zero *)
                  give w (heap_set h x (put (h x) prec (arf_of_Z 0))) t x prec (arf_of_Z 0) below
            end
        end
    end.

  (** A schedule: a thread that is not in a call calls x.arf(prec), or a thread takes a step. *)
  Inductive occurrence := Asks (t : nat) (x : rnum) (prec : Z) | Ticks (t : nat).
  Definition occur (w : world) (o : occurrence) : world :=
    match o with
    | Asks t x prec => match threads w t with Idle => mkWorld (caches w) (become w t (Busy (next_call x prec) [])) (results w) | _ => w end
    | Ticks t => tick w t
    end.
  Definition unfold_schedule (os : list occurrence) (w : world) : world := fold_left occur os w.
End Many.
