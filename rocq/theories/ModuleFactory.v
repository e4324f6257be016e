(** Model of the interning of modules, src/module.cc:68-120, on top of the objects of Factory.v.

    A module refers to its generators by their objects and keeps them alive; the key in the
    factory are the ids of the generators and the ring.  As for real numbers, the contract of the
    unique factory is modelled, and the machine is sequential. *)
From Coq Require Import ZArith QArith Qcanon Bool List.
From Verif Require Import Arf Arb Real Gen Seed Factory Ring Module.
Import ListNotations.
Open Scope Z_scope.

Section Interning.
  Variable A : ring.
  (** flatsurf::hash of a ring (src/integer_ring.cc:92, src/rational_field.cc:86, src/number_field.cc:91)
      and flatsurf::hash_combine *)
  Variable hash_ring : par A -> Z.
  Variable hash_combine : Z -> Z -> Z.

  (** src/module.cc:65-66, 68-74: what a module stores, the generators by their ids *)
  Record mobj := mkMobj { gids : list Z; gring : par A }.
  (** The live real numbers; the live modules, and a counter for their identities. *)
  Record mstate := mkMstate { nums : state; mods : list (Z * mobj); next_mod : Z }.
  Definition minit : mstate := mkMstate init [] 0.

  Fixpoint mlookup (l : list (Z * mobj)) (M : Z) : option mobj :=
    match l with [] => None | (N, o) :: l' => if N =? M then Some o else mlookup l' M end.

  (** src/module.cc:80-92 Key::Hash *)
  Definition mhash (k : mobj) : Z := fold_left hash_combine (gids k) (hash_ring (gring k)).
  Fixpoint ids_eqb (l r : list Z) : bool :=
    match l, r with
    | [], [] => true
    | x :: l', y :: r' => (x =? y) && ids_eqb l' r'
    | _, _ => false
    end.
  (** src/module.cc:76-78 Key::operator== *)
  Definition key_eqb (k l : mobj) : bool := par_eqb (gring k) (gring l) && ids_eqb (gids k) (gids l).
  (** The factory looks for a key that has the same hash and is equal. *)
  Fixpoint find_mod (k : mobj) (l : list (Z * mobj)) : option Z :=
    match l with
    | [] => None
    | (M, o) :: l' => if (mhash o =? mhash k) && key_eqb o k then Some M else find_mod k l'
    end.

  (** The generators that pointers stand for; [None] if there is a dangling pointer. *)
  Fixpoint resolve (st : state) (ids : list Z) : option (list (Z * gen)) :=
    match ids with
    | [] => Some []
    | x :: ids' => match lookup (objs st) x, resolve st ids' with
                   | Some o, Some l => Some ((x, gen_of x o) :: l)
                   | _, _ => None
                   end
    end.
  (** src/module.cc:116 std::sort by deglex, as in Module.v *)
  Fixpoint pinsert (g : Z * gen) (l : list (Z * gen)) : list (Z * gen) :=
    match l with
    | [] => [g]
    | h :: l' => if deglex (snd h) (snd g) then h :: pinsert g l' else g :: l
    end.
  Fixpoint psort (l : list (Z * gen)) : list (Z * gen) :=
    match l with [] => [] | g :: l' => pinsert g (psort l') end.

  (** src/module.cc:114-120 Module::make: sort, ask the factory; if there is no such module, the
      constructor (47-58) checks the generators. *)
  Definition make_obj (st : mstate) (ids : list Z) (p : par A) : result (mstate * Z) :=
    match resolve (nums st) ids with
    | None => Err InvalidArgument (* dangling pointer: cannot happen *)
    | Some l =>
        let s := psort l in
        let k := mkMobj (map fst s) p in
        match find_mod k (mods st) with
        | Some M => Ok (st, M)
        | None => if check (map snd s) then Ok (mkMstate (nums st) ((next_mod st, k) :: mods st) (next_mod st + 1), next_mod st)
                  else Err LogicError
        end
    end.

  (** A real number can disappear if no live module refers to it; a module at any time (when nobody holds it). *)
  Definition mod_refers (x : Z) (o : mobj) : bool := existsb (Z.eqb x) (gids o).
  Inductive mop :=
  | Number (o : op)
  | Make (ids : list Z) (p : par A)
  | CollectModule (M : Z).
  Definition mstep (st : mstate) (o : mop) : mstate :=
    match o with
    | Number (Collect x) =>
        if existsb (fun '(_, m) => mod_refers x m) (mods st) then st
        else mkMstate (collect (nums st) x) (mods st) (next_mod st)
    | Number o => mkMstate (step (nums st) o) (mods st) (next_mod st)
    | Make ids p => match make_obj st ids p with Ok (st', _) => st' | Err _ => st end
    | CollectModule M => mkMstate (nums st) (filter (fun '(N, _) => negb (N =? M)) (mods st)) (next_mod st)
    end.
  Definition mrun (ops : list mop) (st : mstate) : mstate := fold_left mstep ops st.
End Interning.
Arguments mkMobj {A}. Arguments gids {A}. Arguments gring {A}. Arguments mkMstate {A}. Arguments nums {A}. Arguments mods {A}. Arguments next_mod {A}.
Arguments mlookup {A}. Arguments minit {A}. Arguments Number {A}. Arguments Make {A}. Arguments CollectModule {A}.
