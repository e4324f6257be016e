(** The life of floats and balls: src/arf.cc:57-126, 223-225, src/arb.cc:60-120, 284-312, 329-331.
    An Arf is one FLINT struct (exponent, mantissa), an Arb two of them (midpoint and radius).
    The words of a struct are numbers that are stored in place, or pointers to memory that
    belongs to the struct.  The same holds for the mpz_class numbers that are converted.

    Simplifications: a block of memory holds one integer (the limbs of a mantissa, or of an
    exponent that does not fit into a word); which numbers are stored in place is a parameter.
    FLINT's functions are modelled by what their documentation says: arf_init, arb_init,
    arf_set, arb_set, arf_swap, arb_swap, arf_clear, arb_clear, and the functions that
    compute read their operands and then write the result. *)
From Coq Require Import ZArith List Bool Lia.
Import ListNotations.

Inductive word := Imm (n : Z) | Ptr (a : nat).
Record mem := mkMem { heap : nat -> option Z; next : nat; vars : nat -> option (list word) }.
Definition set_heap (m : mem) (a : nat) (v : option Z) : mem :=
  mkMem (fun b => if Nat.eqb b a then v else heap m b) (next m) (vars m).
Definition set_var (m : mem) (x : nat) (v : option (list word)) : mem :=
  mkMem (heap m) (next m) (fun y => if Nat.eqb y x then v else vars m y).
Definition empty : mem := mkMem (fun _ => None) 0 (fun _ => None).

(** [None]: undefined behaviour (access to memory that has been freed, freeing twice, a
    variable that does not exist). *)
Definition bind {A B} (x : option A) (f : A -> option B) : option B := match x with Some a => f a | None => None end.
Definition read_word (m : mem) (w : word) : option Z := match w with Imm n => Some n | Ptr a => heap m a end.
Fixpoint read_words (m : mem) (ws : list word) : option (list Z) :=
  match ws with
  | [] => Some []
  | w :: ws' => bind (read_word m w) (fun v => bind (read_words m ws') (fun vs => Some (v :: vs)))
  end.
Definition read (m : mem) (x : nat) : option (list Z) := bind (vars m x) (read_words m).
Fixpoint read_all (m : mem) (xs : list nat) : option (list (list Z)) :=
  match xs with
  | [] => Some []
  | x :: xs' => bind (read m x) (fun v => bind (read_all m xs') (fun vs => Some (v :: vs)))
  end.
Definition free (m : mem) (a : nat) : option mem := match heap m a with Some _ => Some (set_heap m a None) | None => None end.
Fixpoint replace {A} (ws : list A) (i : nat) (w : A) : list A :=
  match ws, i with
  | [], _ => []
  | _ :: ws', O => w :: ws'
  | w' :: ws', S i' => w' :: replace ws' i' w
  end.

Section Small.
  Variable small : Z -> bool.
  (** Writing one word of a struct (_fmpz_promote, _fmpz_demote; ARF_PROMOTE, ARF_DEMOTE): memory that is
      not needed any more is freed, memory that is there is used again. *)
  Definition store_word (m : mem) (x i : nat) (v : Z) : option mem :=
    bind (vars m x) (fun ws => bind (nth_error ws i) (fun w =>
      if small v then
        bind (match w with Ptr a => free m a | Imm _ => Some m end) (fun m' => Some (set_var m' x (Some (replace ws i (Imm v)))))
      else match w with
           | Ptr a => match heap m a with Some _ => Some (set_heap m a (Some v)) | None => None end
           | Imm _ => Some (set_var (mkMem (fun b => if Nat.eqb b (next m) then Some v else heap m b) (S (next m)) (vars m)) x (Some (replace ws i (Ptr (next m)))))
           end)).
  Fixpoint store_from (m : mem) (x i : nat) (vs : list Z) : option mem :=
    match vs with [] => Some m | v :: vs' => bind (store_word m x i v) (fun m' => store_from m' x (S i) vs') end.
  Definition store (m : mem) (x : nat) (vs : list Z) : option mem := store_from m x 0 vs.

  (** arf_init, arb_init: zero, which needs no memory.  Whatever was in the struct is lost. *)
  Definition init (m : mem) (x n : nat) : mem := set_var m x (Some (repeat (Imm 0) n)).
  (** arf_set, arb_set *)
  Definition set (m : mem) (x y : nat) : option mem := if Nat.eqb x y then Some m else bind (read m y) (store m x).
  (** arf_swap, arb_swap *)
  Definition swap (m : mem) (x y : nat) : option mem :=
    bind (vars m x) (fun wx => bind (vars m y) (fun wy => Some (set_var (set_var m x (Some wy)) y (Some wx)))).
  (** arf_clear, arb_clear *)
  Fixpoint clear_words (m : mem) (ws : list word) : option mem :=
    match ws with
    | [] => Some m
    | Imm _ :: ws' => clear_words m ws'
    | Ptr a :: ws' => bind (free m a) (fun m' => clear_words m' ws')
    end.

  (** What a program can do with these objects.  Variables are numbers; n is the number of words of the type. *)
  Inductive statement :=
  | Default (x n : nat)                                            (* Arf x; Arb x; *)
  | New (x n : nat) (f : list (list Z) -> nat -> Z) (ys : list nat) (* Arb x(value), Arb x = (y + z)(prec), ... *)
  | NewCopy (x y : nat)                                            (* Arb x(y) *)
  | NewMoveArf (x y : nat)                                         (* Arf x(std::move(y)) *)
  | NewMoveArb (x y : nat)                                         (* Arb x(std::move(y)) *)
  | NewMpz (x n : nat) (f : Z -> nat -> Z) (z : nat)               (* Arb x(z), z an mpz_class *)
  | Compute (x : nat) (f : list (list Z) -> nat -> Z) (ys : list nat) (* x = 3, x <<= 2, x = (y + z)(prec), z += 1, ... *)
  | Assign (x y : nat)                                             (* x = y *)
  | AssignMpz (x : nat) (f : Z -> nat -> Z) (z : nat)              (* x = z, z an mpz_class *)
  | MoveAssign (x y : nat)                                         (* x = std::move(y) *)
  | Swap (x y : nat)                                               (* swap(x, y) *)
  | Destroy (x : nat).                                             (* end of the scope of x *)

  Definition arity (m : mem) (x : nat) : option nat := option_map (@length word) (vars m x).
  (** fmpz_init_set_readonly: an fmpz_t which, if the number does not fit into a word, points to the memory of
      the mpz_class; fmpz_clear_readonly does not free it.  So only its value is read. *)
  Definition readonly (m : mem) (z : nat) : option word := bind (vars m z) (fun ws => bind (nth_error ws 0) (fun w =>
    bind (read_word m w) (fun v => Some (if small v then Imm v else w)))).
  (** Stores a result into a struct that exists. *)
  Definition write (m : mem) (x : nat) (f : nat -> Z) : option mem := bind (arity m x) (fun n => store m x (map f (seq 0 n))).
  Definition step (m : mem) (s : statement) : option mem :=
    match s with
    | Default x n => Some (init m x n)                                                     (* arf.cc:57, arb.cc:60 *)
    | New x n f ys => bind (read_all m ys) (fun vs => write (init m x n) x (f vs))         (* arf.cc:59-91, arb.cc:62-95, 104-114 *)
    | NewCopy x y => bind (arity m y) (fun n => set (init m x n) x y)                      (* arf.cc:89, arb.cc:68 *)
    | NewMoveArf x y => bind (arity m y) (fun n => swap (init m x n) x y)                  (* arf.cc:93, 108-111 *)
    | NewMoveArb x y => bind (vars m y) (fun ws => Some (init (set_var m x (Some ws)) y (length ws))) (* arb.cc:70-73 *)
    | NewMpz x n f z => bind (readonly m z) (fun w => let m' := init m x n in bind (read_word m' w) (fun v => write m' x (f v))) (* arb.cc:97-102 *)
    | Compute x f ys => bind (read_all m ys) (fun vs => write m x (f vs))                  (* arf.cc:113-133, arb.cc:293-305 *)
    | Assign x y => set m x y                                                              (* arf.cc:103-106, arb.cc:284-287 *)
    | AssignMpz x f z => bind (readonly m z) (fun w => bind (read_word m w) (fun v => write m x (f v))) (* arb.cc:307-313 *)
    | MoveAssign x y => swap m x y                                                         (* arf.cc:108-111, arb.cc:289-292 *)
    | Swap x y => swap m x y                                                               (* arf.cc:223-225, arb.cc:329-331 *)
    | Destroy x => bind (vars m x) (fun ws => bind (clear_words m ws) (fun m' => Some (set_var m' x None))) (* arf.cc:95, arb.cc:116 *)
    end.
  Fixpoint run (m : mem) (prog : list statement) : option mem :=
    match prog with [] => Some m | s :: prog' => bind (step m s) (fun m' => run m' prog') end.
End Small.
