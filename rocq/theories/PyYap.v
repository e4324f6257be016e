(** Expressions of Arf and Arb in Python: pyexactreal/src/pyexactreal/cppyy_exactreal.py.

    Evaluating a+b of C++ later means to follow references to a and b (boost::yap keeps references
    to operands, exact-real/cppyy.hpp:71-86 takes them by reference).  These references are
    not known to Python, whose garbage collector frees all objects that cannot be reached from variables
    through Python references.  The model is a heap of Python objects; C++ references are the identities of
    the Python objects (proxies) that own the C++ objects.

    Simplifications: operands are numbers (of one type, Arf or Arb) or expressions, not Python integers;
    numbers are not changed after they have been created; all objects are released by the collector
    (reference counts only make this earlier); in a method, the stack keeps all operands alive, so that
    nothing is released while a statement runs. *)
From Coq Require Import ZArith Bool List.
From Verif Require Import Arf Arb Yap.
Import ListNotations.
Open Scope Z_scope.

Section PyYap.
  Variable V : Type.

  (** The C++ expressions, by the references they contain. *)
  Inductive cexpr := CBin (o : binop) (l r : nat) | CNeg (e : nat).
  (** Python objects: proxies of numbers and of C++ expressions, lists (or tuples), instances of
      the class Yap, cppyy_exactreal.py:213-236, with the attributes value and _lifelines. *)
  Inductive obj := PNum (v : V) | PExpr (e : cexpr) | PList (l : list nat) | PYap (value lifelines : nat).
  (** Objects are numbered in the order of their creation; variables are numbered. *)
  Record pystate := mkPy { heap : nat -> option obj; fresh : nat; vars : Z -> option nat }.
  Definition py_start : pystate := mkPy (fun _ => None) 0 (fun _ => None).

  (** The references that Python knows. *)
  Definition refs (o : obj) : list nat :=
    match o with PNum _ | PExpr _ => [] | PList l => l | PYap v l => [v; l] end.
  Inductive reaches (h : nat -> option obj) : nat -> nat -> Prop :=
  | reaches_self a : reaches h a a
  | reaches_next a o b c : h a = Some o -> In b (refs o) -> reaches h b c -> reaches h a c.
  Definition reachable (s : pystate) (a : nat) : Prop := exists x b, vars s x = Some b /\ reaches (heap s) b a.

  Definition create (s : pystate) (o : obj) : pystate * nat :=
    (mkPy (fun a => if Nat.eqb a (fresh s) then Some o else heap s a) (S (fresh s)) (vars s), fresh s).
  Definition set (s : pystate) (x : Z) (a : option nat) : pystate :=
    mkPy (heap s) (fresh s) (fun y => if y =? x then a else vars s y).
  Definition release (s : pystate) (a : nat) : pystate :=
    mkPy (fun b => if Nat.eqb b a then None else heap s b) (fresh s) (vars s).

  (** cppyy_exactreal.py:237-240: Yap.wrap(operand).value *)
  Definition unwrapped (s : pystate) (a : nat) : nat :=
    match heap s a with Some (PYap v _) => v | _ => a end.
  (** cppyy_exactreal.py:237-240: Yap.wrap(operand), with the empty list of 232 as lifelines *)
  Definition wrap (s : pystate) (a : nat) : pystate * nat :=
    match heap s a with
    | Some (PYap _ _) => (s, a)
    | _ => let '(s, l) := create s (PList []) in create s (PYap a l)
    end.
  (** cppyy_exactreal.py:242-263 Yap._op; [op] is what op(operands) calls *)
  Definition yap_op (s : pystate) (op : nat -> list nat -> cexpr) (self : nat) (rhs : list nat) : pystate * nat :=
    let l := unwrapped s self in
    let rs := map (unwrapped s) rhs in
    let '(s, operands) := create s (PList (l :: rs)) in
    let '(s, rhs) := create s (PList rhs) in
    let '(s, lifelines) := create s (PList [operands; self; rhs]) in
    let '(s, e) := create s (PExpr (op l rs)) in
    create s (PYap e lifelines).
  Definition bin_op (o : binop) (l : nat) (rs : list nat) : cexpr := CBin o l (hd l rs).
  Definition neg_op (l : nat) (rs : list nat) : cexpr := CNeg l.

  (** Statements: x = Arb(...), x = y o z, x = -y, x = y, del x *)
  Inductive statement := New (x : Z) (v : V) | Binary (x : Z) (o : binop) (y z : Z) | Negate (x y : Z) | Alias (x y : Z) | Del (x : Z).
  (** x = f(...), where f has created an object *)
  Definition bind_var (x : Z) (r : pystate * nat) : pystate := set (fst r) x (Some (snd r)).
  Definition py_exec (s : pystate) (c : statement) : pystate :=
    match c with
    | New x v => bind_var x (create s (PNum v))
    | Binary x o y z =>
        match vars s y, vars s z with
        | Some l, Some r =>
            match heap s l, heap s r with
            (* cppyy_exactreal.py:167-173, enable_yap: operators of numbers *)
            | Some (PNum _), Some _ => let '(s', w) := wrap s l in bind_var x (yap_op s' (bin_op o) w [r])
            (* cppyy_exactreal.py:265-331: operators of Yap *)
            | Some (PYap _ _), Some _ => bind_var x (yap_op s (bin_op o) l [r])
            (* cppyy_exactreal.py:105-122, enable_arithmetic: operators of C++ expressions *)
            | Some (PExpr _), Some (PNum _) | Some (PExpr _), Some (PExpr _) => bind_var x (create s (PExpr (CBin o l r)))
            (* TypeError *)
            | _, _ => s
            end
        | _, _ => s (* NameError *)
        end
    | Negate x y =>
        match vars s y with
        | Some a =>
            match heap s a with
            (* cppyy_exactreal.py:333-346 *)
            | Some (PYap _ _) => bind_var x (yap_op s neg_op a [])
            (* cppyy_exactreal.py:124, cppyy.hpp:85-86 *)
            | Some (PNum _) | Some (PExpr _) => bind_var x (create s (PExpr (CNeg a)))
            | _ => s
            end
        | None => s
        end
    | Alias x y => match vars s y with Some a => set s x (Some a) | None => s end
    | Del x => set s x None
    end.

  (** What can happen: a statement, or an object is released by the collector. *)
  Inductive py_event := Do (c : statement) | Release (a : nat).
  Inductive history : list py_event -> pystate -> Prop :=
  | history_start : history [] py_start
  | history_do es s c : history es s -> history (es ++ [Do c]) (py_exec s c)
  | history_release es s a : history es s -> ~ reachable s a -> history (es ++ [Release a]) (release s a).

  (** Evaluation follows the references of C++; [None]: a reference to an object that has been released. *)
  Fixpoint follow (fuel : nat) (h : nat -> option obj) (a : nat) : option (expr V) :=
    match fuel with
    | O => None
    | S f =>
        match h a with
        | Some (PNum v) => Some (Const v)
        | Some (PExpr (CBin o l r)) => match follow f h l, follow f h r with Some t, Some u => Some (Bin o t u) | _, _ => None end
        | Some (PExpr (CNeg e)) => option_map Neg (follow f h e)
        | _ => None
        end
    end.
  Variable zero : V.
  Variable neg : V -> V.
  Variable op : binop -> Z -> rnd -> V -> V -> V.
  (** cppyy_exactreal.py:348-360 Yap.__call__, cppyy.hpp:51-61: x(prec) or x(prec, round) *)
  Definition py_call (s : pystate) (x : Z) (p : Z) (rd : rnd) : option V :=
    match vars s x with
    | Some a =>
        match heap s a with
        | Some (PYap v _) =>
            match follow (S v) (heap s) v with
            | Some t => option_map (fun m => m 0) (transform zero neg op (fun _ => zero) 1 0 (None, None) (Round (Prec t p) rd))
            | None => None
            end
        | _ => None
        end
    | None => None
    end.
End PyYap.
Arguments PNum {V}. Arguments PExpr {V}. Arguments PList {V}. Arguments PYap {V}. Arguments heap {V}. Arguments fresh {V}. Arguments vars {V}. Arguments mkPy {V}. Arguments py_start {V}.
Arguments refs {V}. Arguments reaches {V}. Arguments reaches_self {V}. Arguments reaches_next {V}. Arguments reachable {V}. Arguments create {V}. Arguments set {V}. Arguments release {V}. Arguments unwrapped {V}. Arguments wrap {V}. Arguments yap_op {V}.
Arguments New {V}. Arguments Binary {V}. Arguments Negate {V}. Arguments Alias {V}. Arguments Del {V}. Arguments bind_var {V}. Arguments py_exec {V}. Arguments Do {V}. Arguments Release {V}.
Arguments history {V}. Arguments history_start {V}. Arguments history_do {V}. Arguments history_release {V}. Arguments follow {V}. Arguments py_call {V}.
