(** * Variable and Parameter objects (copy, move, assignment)

    Model of the object level of src/Scalar/Variable.cpp and src/Scalar/Parameter.cpp:
    several C++ objects can share one VarWrap and one value through shared pointers.
    ScalarModel.v names a variable by its index; here the objects, their shared pointers
    and their flags are explicit.

    Simplifications: a program variable is named by a number, the name of a Parameter by
    another; the operator trees are walked by structural recursion (operators never
    share nodes, see ScalarModel.v); m_gh_vec is empty (plain Variables), m_cache and the
    symbolic temporaries are not kept (no operation of this file reads them). *)

From Coq Require Import List Arith Bool.
From Verif Require Import Num ScalarModel.
Import ListNotations.
Open Scope num_scope.

Section Objects.
Context {T : Type} {N : Num T}.

(** Variable.hpp:41-63, IVariable.hpp / MetaVariable.hpp (m_visited).  [o_idx = None] is
    the moved-from index -1; a moved-from shared pointer is [None]. *)
Record vobj : Type := mkV {
  o_idx : option nat;
  o_wrap : option nat;       (* m_var, shared *)
  o_base : option nat;       (* m_value_var, shared *)
  o_vis : bool
}.

(** Parameter.hpp:27-36 and MetaVariable's mp_tmp: the hidden Variable. *)
Record pobj : Type := mkP { p_idx : option nat; p_tmp : option nat }.

(** User variables, hidden variables (the ones allocated for parameters), parameters,
    the shared cells, the next free index (m_idx_count) and cell. *)
Record ostate : Type := mkS {
  vars : nat -> option vobj;
  hids : nat -> option vobj;
  pars : nat -> option pobj;
  wrapc : nat -> T * T;      (* VarWrap: m_value, m_dvalue *)
  basec : nat -> T;          (* *m_value_var *)
  count : nat;
  cells : nat;
  nhid : nat
}.

Definition set {A} (f : nat -> A) (k : nat) (x : A) : nat -> A :=
  fun j => if Nat.eqb j k then x else f j.

Definition put_var (x : nat) (o : option vobj) (s : ostate) : ostate :=
  mkS (set (vars s) x o) (hids s) (pars s) (wrapc s) (basec s) (count s) (cells s) (nhid s).
Definition put_hid (x : nat) (o : option vobj) (s : ostate) : ostate :=
  mkS (vars s) (set (hids s) x o) (pars s) (wrapc s) (basec s) (count s) (cells s) (nhid s).
Definition put_par (x : nat) (o : option pobj) (s : ostate) : ostate :=
  mkS (vars s) (hids s) (set (pars s) x o) (wrapc s) (basec s) (count s) (cells s) (nhid s).
Definition put_wrap (r : nat) (w : T * T) (s : ostate) : ostate :=
  mkS (vars s) (hids s) (pars s) (set (wrapc s) r w) (basec s) (count s) (cells s) (nhid s).
Definition put_base (r : nat) (b : T) (s : ostate) : ostate :=
  mkS (vars s) (hids s) (pars s) (wrapc s) (set (basec s) r b) (count s) (cells s) (nhid s).

(** *m_value_var = value; m_var->setConstructor(value) (Variable.cpp:46-48, 58-60;
    VarWrap.cpp:60-63).  Through a null pointer: no result. *)
Definition store (o : vobj) (c : T) (s : ostate) : option ostate :=
  match o_base o, o_wrap o with
  | Some b, Some w => Some (put_wrap w (c, n0) (put_base b c s))
  | _, _ => None
  end.

(** Variable(const Type&), Variable.cpp:44-53: fresh index, fresh shared cells (the
    default member initialisers of Variable.hpp:46-49). *)
Definition fresh_obj (s : ostate) : vobj * ostate :=
  (mkV (Some (count s)) (Some (cells s)) (Some (cells s)) false,
   mkS (vars s) (hids s) (pars s) (wrapc s) (basec s)
       (Datatypes.S (count s)) (Datatypes.S (cells s)) (nhid s)).

Definition new_var (x : nat) (c : T) (s : ostate) : option ostate :=
  let '(o, s1) := fresh_obj s in
  do s2 <- store o c s1; Some (put_var x (Some o) s2).

(** Variable(const Variable&), Variable.cpp:70-77. *)
Definition copy_obj (o : vobj) : vobj := mkV (o_idx o) (o_wrap o) (o_base o) (o_vis o).

Definition copy_var (x y : nat) (s : ostate) : option ostate :=
  do o <- vars s y; Some (put_var x (Some (copy_obj o)) s).

(** Variable(Variable&&), Variable.cpp:80-87: what the source keeps. *)
Definition moved_obj (o : vobj) : vobj := mkV None None None false.

Definition move_var (x y : nat) (s : ostate) : option ostate :=
  do o <- vars s y;
  Some (put_var x (Some (copy_obj o)) (put_var y (Some (moved_obj o)) s)).

(** Variable::swap, Variable.cpp:28-35. *)
Definition swap_obj (a b : vobj) : vobj * vobj :=
  (mkV (o_idx b) (o_wrap b) (o_base b) (o_vis b), mkV (o_idx a) (o_wrap a) (o_base a) (o_vis a)).

(** operator=(const Variable&), Variable.cpp:90-94: Variable{exp}.swap( *this ), then the
    temporary dies. *)
Definition assign_var (x y : nat) (s : ostate) : option ostate :=
  do ox <- vars s x; do oy <- vars s y;
  let '(_, ox') := swap_obj (copy_obj oy) ox in
  Some (put_var x (Some ox') s).

(** operator=(Variable&&), Variable.cpp:96-100; x = std::move(x) first empties x, then
    swaps the temporary back. *)
Definition moveassign_var (x y : nat) (s : ostate) : option ostate :=
  do oy <- vars s y;
  let tmp := copy_obj oy in
  let s1 := put_var y (Some (moved_obj oy)) s in
  do ox <- vars s1 x;
  let '(_, ox') := swap_obj tmp ox in
  Some (put_var x (Some ox') s1).

(** operator=(const Type&), Variable.cpp:56-67. *)
Definition set_var (x : nat) (c : T) (s : ostate) : option ostate :=
  do o <- vars s x; store o c s.

(** Parameter(const Type&), Parameter.cpp:39-42. *)
Definition new_par (p : nat) (c : T) (s : ostate) : option ostate :=
  let s0 := mkS (vars s) (hids s) (pars s) (wrapc s) (basec s)
                (Datatypes.S (count s)) (cells s) (nhid s) in
  let '(o, s1) := fresh_obj s0 in
  do s2 <- store o c s1;
  let s3 := put_hid (nhid s2) (Some o) s2 in
  let s4 := put_par p (Some (mkP (Some (count s)) (Some (nhid s2)))) s3 in
  Some (mkS (vars s4) (hids s4) (pars s4) (wrapc s4) (basec s4) (count s4) (cells s4)
            (Datatypes.S (nhid s4))).

(** Parameter(const Parameter&), Parameter.cpp:45-48. *)
Definition copy_par (p q : nat) (s : ostate) : option ostate :=
  do o <- pars s q; Some (put_par p (Some (mkP (p_idx o) (p_tmp o))) s).

(** Parameter::swap exchanges m_nidx and m_cache only, Parameter.cpp:26-29. *)
Definition swap_par (a b : pobj) : pobj * pobj :=
  (mkP (p_idx b) (p_tmp a), mkP (p_idx a) (p_tmp b)).

(** operator=(const Parameter&), Parameter.cpp:57-60. *)
Definition assign_par (p q : nat) (s : ostate) : option ostate :=
  do op <- pars s p; do oq <- pars s q;
  let '(_, op') := swap_par (mkP (p_idx oq) (p_tmp oq)) op in
  Some (put_par p (Some op') s).

(** operator=(Parameter&&), Parameter.cpp:63-66, with the move constructor 51-54. *)
Definition moveassign_par (p q : nat) (s : ostate) : option ostate :=
  do oq <- pars s q;
  let tmp := mkP (p_idx oq) (p_tmp oq) in
  let s1 := put_par q (Some (mkP None None)) s in
  do op <- pars s1 p;
  let '(_, op') := swap_par tmp op in
  Some (put_par p (Some op') s1).

(** operator=(const Type&), Parameter.cpp:69-72: *mp_tmp = value. *)
Definition set_par (p : nat) (c : T) (s : ostate) : option ostate :=
  do o <- pars s p; do t <- p_tmp o; do v <- hids s t; store v c s.

(** ** Expressions over these objects *)

Inductive tree : Type :=
| TV (x : nat)
| TP (p : nat)
| TU (k : @uop T) (t : tree)
| TB (k : @bop T) (l r : tree).

(** Variable::reset on a plain variable, Variable.cpp:245-271 (m_gh_vec empty). *)
Definition reset_obj (o : vobj) (s : ostate) : option (vobj * ostate) :=
  match o_base o, o_wrap o with
  | Some b, Some w =>
      Some (mkV (o_idx o) (o_wrap o) (o_base o) false,
            put_wrap w (basec s b, n0) s)
  | _, _ => None
  end.

(** Variable::eval on a plain variable, Variable.cpp:129-151. *)
Definition eval_obj (o : vobj) (s : ostate) : option (T * vobj * ostate) :=
  match o_base o, o_wrap o with
  | Some b, Some w =>
      if o_vis o then Some (fst (wrapc s w), o, s)
      else let s1 := put_wrap w (basec s b, snd (wrapc s w)) s in
           Some (fst (wrapc s1 w), mkV (o_idx o) (o_wrap o) (o_base o) true, s1)
  | _, _ => None
  end.

Definition same_idx (a b : option nat) : bool :=
  match a, b with
  | Some i, Some j => Nat.eqb i j
  | None, None => true
  | _, _ => false
  end.

(** Variable::devalF on a plain variable, Variable.cpp:154-177. *)
Definition dev_obj (y : vobj) (o : vobj) (s : ostate) : option (T * vobj * ostate) :=
  match o_wrap o with
  | Some w =>
      let o1 := mkV (o_idx o) (o_wrap o) (o_base o) true in
      Some (if same_idx (o_idx o) (o_idx y) then n1 else snd (wrapc s w), o1, s)
  | None => None
  end.

(** reset() over the tree (BinaryOps/*.hpp, UnaryOps/*.hpp: reset both operands);
    Parameter::reset resets mp_tmp (Parameter.cpp:79-83, MetaVariable.cpp:26-44). *)
Fixpoint treset (t : tree) (s : ostate) : option ostate :=
  match t with
  | TV x => do o <- vars s x; do (o1, s1) <- reset_obj o s; Some (put_var x (Some o1) s1)
  | TP p => do q <- pars s p; do h <- p_tmp q; do o <- hids s h;
            do (o1, s1) <- reset_obj o s; Some (put_hid h (Some o1) s1)
  | TU _ t => treset t s
  | TB _ l r => do s1 <- treset l s; treset r s1
  end.

(** eval() over the tree; Parameter::eval is mp_tmp->getValue() (Parameter.cpp:75-77). *)
Fixpoint teval (t : tree) (s : ostate) : option (T * ostate) :=
  match t with
  | TV x => do o <- vars s x; do (v, o1, s1) <- eval_obj o s; Some (v, put_var x (Some o1) s1)
  | TP p => do q <- pars s p; do h <- p_tmp q; do o <- hids s h; do w <- o_wrap o;
            Some (fst (wrapc s w), s)
  | TU k t => do (v, s1) <- teval t s; Some (uval k v, s1)
  | TB k l r =>
      if b_right_first_eval k
      then do (v, s1) <- teval r s; do (u, s2) <- teval l s1; Some (bval k u v, s2)
      else do (u, s1) <- teval l s; do (v, s2) <- teval r s1; Some (bval k u v, s2)
  end.

(** devalF() over the tree: as in ScalarModel.v (operand derivatives, then operand values;
    the linear nodes' operand values are taken too, their result is not used). *)
Fixpoint tdev (y : vobj) (t : tree) (s : ostate) : option (T * ostate) :=
  match t with
  | TV x => do o <- vars s x; do (v, o1, s1) <- dev_obj y o s; Some (v, put_var x (Some o1) s1)
  | TP p => Some (n0, s)
  | TU k t => do (d, s1) <- tdev y t s; do (v, s2) <- teval t s1; Some (ufwd k v d, s2)
  | TB k l r =>
      do (du, s1) <- tdev y l s; do (dv, s2) <- tdev y r s1;
      do (v, s3) <- teval r s2; do (u, s4) <- teval l s3;
      Some (bfwd k u v du dv, s4)
  end.

(** ** Programs *)

Inductive cmd : Type :=
| NewV (x : nat) (c : T)          (* Variable x{c}; *)
| CopyV (x y : nat)               (* Variable x{y}; *)
| MoveV (x y : nat)               (* Variable x{std::move(y)}; *)
| AssignV (x y : nat)             (* x = y; *)
| MoveAssignV (x y : nat)         (* x = std::move(y); *)
| SetV (x : nat) (c : T)          (* x = c; *)
| NewP (p : nat) (c : T)          (* Parameter p{c}; *)
| CopyP (p q : nat)               (* Parameter p{q}; *)
| AssignP (p q : nat)             (* p = q; *)
| MoveAssignP (p q : nat)         (* p = std::move(q); *)
| SetP (p : nat) (c : T)          (* p = c; *)
| EvalV (x : nat)                 (* Eval(x), CommonFunctions.hpp:84-87: x.getValue() *)
| EvalE (t : tree)                (* Expression e{t}; Eval(e): reset, then eval *)
| DevalE (t : tree) (y : nat)     (* Expression e{t}; DevalF(e, y): reset, then devalF *)
| DevalV (x y : nat).             (* DevalF(x, y), CommonFunctions.hpp:112-114 *)

(** EvalExp / DevalFExp, src/Scalar/CommonFunctions.cpp; the Expression constructor wraps
    the tree in [t * (Type)1] (Expression.hpp:44-68). *)
Definition wrapped (t : tree) : tree := TU (UProdC n1) t.

Definition ostep (c : cmd) (s : ostate) : option (option T * ostate) :=
  match c with
  | NewV x c => do s' <- new_var x c s; Some (None, s')
  | CopyV x y => do s' <- copy_var x y s; Some (None, s')
  | MoveV x y => do s' <- move_var x y s; Some (None, s')
  | AssignV x y => do s' <- assign_var x y s; Some (None, s')
  | MoveAssignV x y => do s' <- moveassign_var x y s; Some (None, s')
  | SetV x c => do s' <- set_var x c s; Some (None, s')
  | NewP p c => do s' <- new_par p c s; Some (None, s')
  | CopyP p q => do s' <- copy_par p q s; Some (None, s')
  | AssignP p q => do s' <- assign_par p q s; Some (None, s')
  | MoveAssignP p q => do s' <- moveassign_par p q s; Some (None, s')
  | SetP p c => do s' <- set_par p c s; Some (None, s')
  | EvalV x => do o <- vars s x; do w <- o_wrap o; Some (Some (fst (wrapc s w)), s)
  | EvalE t => do s1 <- treset (wrapped t) s; do (v, s2) <- teval (wrapped t) s1;
               Some (Some v, s2)
  | DevalE t y => do s1 <- treset (wrapped t) s; do o <- vars s1 y;
                  do (v, s2) <- tdev o (wrapped t) s1; Some (Some v, s2)
  | DevalV x y => do ox <- vars s x; do oy <- vars s y;
                  Some (Some (if same_idx (o_idx ox) (o_idx oy) then n1 else n0), s)
  end.

Fixpoint orun (l : list cmd) (s : ostate) : option (list (option T) * ostate) :=
  match l with
  | [] => Some ([], s)
  | c :: l => do (a, s1) <- ostep c s; do (as_, s2) <- orun l s1; Some (a :: as_, s2)
  end.

Definition start : ostate :=
  mkS (fun _ => None) (fun _ => None) (fun _ => None) (fun _ => (n0, n0)) (fun _ => n0) 0 0 0.

End Objects.


