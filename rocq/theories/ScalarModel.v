(** * The scalar engine (TensorR1)

    Model of src/Scalar/{Variable,Expression,Parameter,MetaVariable,CommonFunctions}.cpp and of
    include/Scalar/{Variable,Expression,Parameter,IVariable}.hpp, BinaryOps/*, UnaryOps/*.

    Simplifications, common to the whole file:
    - an object is named by its m_nidx.  Copies of a plain Variable share m_nidx, value
      and base (Variable.cpp:70-77) and are identified here; the object level is in VarObj.v;
    - operator nodes are trees: every operator clones its operands (cloneExp) and
      Expression's constructor and assignment wrap the result in [expr*(Type)1]
      (Expression.hpp:44-68), so no node is shared by two trees;
    - an operator's own m_cache is used only when it is the root of an assignment, and is
      then rebuilt from empty; it is therefore the result of [trav] instead of a field;
    - pointers are never null; EXECUTION_PAR is sequential;
    - recursion through pointers is bounded by fuel, [None] meaning "did not return";
      ScalarTerm.v proves that fuel given by the number of objects always suffices. *)

From Coq Require Import List Arith Bool.
From Verif Require Import Num.
Import ListNotations.
Open Scope num_scope.

Notation "'do' p <- a ; b" := (match a with Some p => b | None => None end)
  (at level 200, p pattern, a at level 100, b at level 200).

Section Engine.
Context {T : Type} {N : Num T}.

(** ** Operators *)

(** Unary nodes.  Nodes with one constant operand are unary:
    GenericProduct<Type,T>, GenericSum<Type,T>, GenericDiv<Type,T>, GenericPow<Type,T>,
    GenericPow<T,Type>, and the constant variants of BINARY_SCALAR_OPERATOR. *)
Inductive uop : Type :=
| UFun (f : ufun)                    (* GenericSin.hpp ... GenericLog.hpp *)
| UProdC (c : T)                     (* GenericProduct.hpp:218-366 *)
| USumC (c : T)                      (* GenericSum.hpp:206-360 *)
| UDivC (c : T)                      (* GenericDiv.hpp:228-380 *)
| UPowCL (c : T)                     (* pow(c, x), GenericPow.hpp:225-376 *)
| UPowCR (c : T)                     (* pow(x, c), GenericPow.hpp:379-532 *)
| UCust (f f' : T -> T)              (* UNARY_SCALAR_OPERATOR, GenericScalarUnary.hpp:27-116 *)
| UCustL (f f3 : T -> T -> T) (c : T)  (* GenericScalarBinary.hpp, <Type,T>: FUNC1, FUNC3 *)
| UCustR (f f2 : T -> T -> T) (c : T). (* GenericScalarBinary.hpp, <T,Type>: FUNC1, FUNC2 *)

Inductive bop : Type :=
| BSum                               (* GenericSum.hpp:30-200 *)
| BSub                               (* GenericSub.hpp:28-205 *)
| BProd                              (* GenericProduct.hpp:28-214 *)
| BDiv                               (* GenericDiv.hpp:28-224 *)
| BPow                               (* GenericPow.hpp:28-222 *)
| BCust (f f2 f3 : T -> T -> T).     (* BINARY_SCALAR_OPERATOR FUNC1 FUNC2 FUNC3 *)

(** Derivative factor of the <cmath> functions, as written in devalF of each header
    (GenericSin.hpp:85, GenericCos.hpp:85, ..., GenericLog.hpp:85); traverse uses the same
    factor (lines 106 and 128 of each). *)
Definition dfun (f : ufun) (u : T) : T :=
  match f with
  | FSin => nfun FCos u                            (* GenericSin.hpp:74-86, 89-145 *)
  | FCos => nm1 * nfun FSin u                      (* GenericCos.hpp:74-86, 89-145 *)
  | FTan => n1 + nfun FTan u * nfun FTan u         (* GenericTan.hpp:74-86, 89-148 *)
  | FSinh => nfun FCosh u                          (* GenericSinh.hpp:74-86, 89-145 *)
  | FCosh => nfun FSinh u                          (* GenericCosh.hpp:74-86, 89-145 *)
  | FTanh => n1 - (nfun FTanh u * nfun FTanh u)    (* GenericTanh.hpp:74-86, 89-148 *)
  | FASin => n1 / nfun FSqrt (n1 - (u * u))        (* GenericASin.hpp:74-87, 90-149 *)
  | FACos => nm1 / nfun FSqrt (n1 - (u * u))       (* GenericACos.hpp:74-87, 90-149 *)
  | FATan => n1 / (n1 + (u * u))                   (* GenericATan.hpp:74-87, 90-148 *)
  | FASinh => n1 / nfun FSqrt (n1 + (u * u))       (* GenericASinh.hpp:73-86, 89-147 *)
  | FACosh => n1 / nfun FSqrt ((u * u) - n1)       (* GenericACosh.hpp:74-87, 90-148 *)
  | FATanh => nm1 / ((u * u) - n1)                 (* GenericATanh.hpp:74-87, 90-148 *)
  | FSqrt => nhalf / nfun FSqrt u                  (* GenericSqrt.hpp:74-86, 89-147 *)
  | FExp => nfun FExp u                            (* GenericExp.hpp:74-86, 89-145 *)
  | FLog => n1 / u                                 (* GenericLog.hpp:74-86, 89-144 *)
  end.

(** eval() of unary nodes (e.g. GenericProduct.hpp:273-276, GenericDiv.hpp:277-281,
    GenericPow.hpp:274-277 and 428-432). *)
Definition uval (k : uop) (x : T) : T :=
  match k with
  | UFun f => nfun f x
  | UProdC c => c * x
  | USumC c => c + x
  | UDivC c => c * (n1 / x)
  | UPowCL c => npow c x
  | UPowCR c => npow x c
  | UCust f _ => f x
  | UCustL f _ c => f c x
  | UCustR f _ c => f x c
  end.

(** devalF() of unary nodes, given the operand's value x and derivative dx
    (GenericProduct.hpp:279-283, GenericSum.hpp devalF, GenericDiv.hpp:284-290,
    GenericPow.hpp:280-285 and 435-440). *)
Definition ufwd (k : uop) (x dx : T) : T :=
  match k with
  | UFun f => dfun f x * dx
  | UProdC c => c * dx
  | USumC _ => dx
  | UDivC c => (nm1 * (c * dx)) * ((n1 / x) * (n1 / x))
  | UPowCL c => (npow c x * dx) * nfun FLog c
  | UPowCR c => c * (npow x (c - n1) * dx)
  | UCust _ f' => f' x * dx
  | UCustL _ f3 c => f3 c x * dx
  | UCustR _ f2 c => f2 x c * dx
  end.

(** Does devalF / traverse call eval() on the operand?  Not for the linear nodes. *)
Definition u_evals (k : uop) : bool :=
  match k with UProdC _ | USumC _ => false | _ => true end.

(** traverse(): number added to cache[operand].  [None] is the first step
    (cache == nullptr), [Some c] an inner node whose own entry is [c] (cCache). *)
Definition uadj (k : uop) (m : option T) (x : T) : T :=
  match k, m with
  | UFun f, None => dfun f x
  | UFun f, Some c => dfun f x * c
  | UProdC a, None => a
  | UProdC a, Some c => c * a
  | USumC _, None => n1
  | USumC _, Some c => c
  | UDivC a, None => (nm1 * a) * ((n1 / x) * (n1 / x))
  | UDivC a, Some c => c * ((nm1 * a) * ((n1 / x) * (n1 / x)))
  | UPowCL a, None => npow a x * nfun FLog a
  | UPowCL a, Some c => c * (npow a x * nfun FLog a)
  | UPowCR a, None => a * npow x (a - n1)
  | UPowCR a, Some c => (a * npow x (a - n1)) * c
  | UCust _ f', None => f' x
  | UCust _ f', Some c => f' x * c
  | UCustL _ f3 a, None => f3 a x
  | UCustL _ f3 a, Some c => f3 a x * c
  | UCustR _ f2 a, None => f2 x a
  | UCustR _ f2 a, Some c => f2 x a * c
  end.

Definition guarded (a : T) (g : T -> T) : option (T -> T) :=
  if neqb a n0 then None else Some g.

(** traverse(): what is added to cache[idx] for an entry (idx,val) of the operand's own
    m_cache; [None] when the "!= 0" guard skips the loop. *)
Definition umrg (k : uop) (m : option T) (x : T) : option (T -> T) :=
  match k, m with
  | USumC _, None => Some (fun val => val)
  | USumC _, Some c => guarded c (fun val => val * c)
  | UCustL _ f3 a, None => Some (fun val => val * f3 a x)
  | UCustL _ f3 a, Some c => guarded c (fun val => (val * f3 a x) * c)
  | UCustR _ f2 a, None => Some (fun val => val * f2 x a)
  | UCustR _ f2 a, Some c => guarded c (fun val => (val * f2 x a) * c)
  | _, _ => guarded (uadj k m x) (fun val => val * uadj k m x)
  end.

(** eval() of binary nodes. *)
Definition bval (k : bop) (u v : T) : T :=
  match k with
  | BSum => u + v
  | BSub => u - v
  | BProd => u * v
  | BDiv => u * (n1 / v)
  | BPow => npow u v
  | BCust f _ _ => f u v
  end.

(** devalF() of binary nodes (GenericSum.hpp, GenericSub.hpp, GenericProduct.hpp:84-91,
    GenericDiv.hpp:86-94, GenericPow.hpp:85-92, GenericScalarBinary.hpp). *)
Definition bfwd (k : bop) (u v du dv : T) : T :=
  match k with
  | BSum => du + dv
  | BSub => du - dv
  | BProd => (du * v) + (dv * u)
  | BDiv => ((du * v) - (dv * u)) * ((n1 / v) * (n1 / v))
  | BPow => npow u v * (((v / u) * du) + (dv * nfun FLog u))
  | BCust _ f2 f3 => f2 u v * du + f3 u v * dv
  end.

Definition b_evals (k : bop) : bool :=
  match k with BSum | BSub => false | _ => true end.

(** Order of the two eval() calls: in eval() only GenericProduct.hpp:78-79 takes the
    right operand first; in devalF() and traverse() Product, Div and Pow do. *)
Definition b_right_first_eval (k : bop) : bool :=
  match k with BProd => true | _ => false end.
Definition b_right_first (k : bop) : bool :=
  match k with BProd | BDiv | BPow => true | _ => false end.

Definition badjL (k : bop) (m : option T) (u v : T) : T :=
  match k, m with
  | BSum, None | BSub, None => n1
  | BSum, Some c | BSub, Some c => c
  | BProd, None => v
  | BProd, Some c => v * c
  | BDiv, None => n1 / v
  | BDiv, Some c => (n1 / v) * c
  | BPow, None => (v / u) * npow u v
  | BPow, Some c => ((v / u) * npow u v) * c
  | BCust _ f2 _, None => f2 u v
  | BCust _ f2 _, Some c => f2 u v * c
  end.

Definition badjR (k : bop) (m : option T) (u v : T) : T :=
  match k, m with
  | BSum, None => n1
  | BSum, Some c => c
  | BSub, None => nm1
  | BSub, Some c => nm1 * c
  | BProd, None => u
  | BProd, Some c => u * c
  | BDiv, None => ((nm1 * u) * (n1 / v)) * (n1 / v)
  | BDiv, Some c => (((nm1 * u) * (n1 / v)) * (n1 / v)) * c
  | BPow, None => nfun FLog u * npow u v
  | BPow, Some c => (nfun FLog u * npow u v) * c
  | BCust _ _ f3, None => f3 u v
  | BCust _ _ f3, Some c => f3 u v * c
  end.

Definition bmrgL (k : bop) (m : option T) (u v : T) : option (T -> T) :=
  match k, m with
  | BSum, None | BSub, None => Some (fun val => val)
  | BSum, Some c | BSub, Some c => guarded c (fun val => val * c)
  | BCust _ f2 _, None => Some (fun val => val * f2 u v)
  | BCust _ f2 _, Some c => guarded c (fun val => (val * f2 u v) * c)
  | _, _ => guarded (badjL k m u v) (fun val => val * badjL k m u v)
  end.

Definition bmrgR (k : bop) (m : option T) (u v : T) : option (T -> T) :=
  match k, m with
  | BSum, None => Some (fun val => val)
  | BSum, Some c => guarded c (fun val => val * c)
  | BSub, None => Some (fun val => nm1 * val)
  | BSub, Some c => guarded c (fun val => (nm1 * val) * c)
  | BCust _ _ f3, None => Some (fun val => val * f3 u v)
  | BCust _ _ f3, Some c => guarded c (fun val => (val * f3 u v) * c)
  | _, _ => guarded (badjR k m u v) (fun val => val * badjR k m u v)
  end.

(** ** Objects *)

(** A node of an expression tree.  [Leaf v] is a Variable or Expression object with
    index v; [Par p tv] a Parameter with index p whose mp_tmp is the variable tv
    (Parameter.cpp:32-41); inner nodes carry their own m_nidx. *)
Inductive op : Type :=
| Leaf (v : nat)
| Par (p tv : nat)
| Un (k : uop) (id : nat) (e : op)
| Bin (k : bop) (id : nat) (l r : op).

(** m_nidx of a node. *)
Definition nid (o : op) : nat :=
  match o with Leaf v => v | Par p _ => p | Un _ id _ => id | Bin _ id _ _ => id end.

(** OMPair (CommonHeader.hpp): map from index to accumulated derivative. *)
Definition cache := list (nat * T).

Fixpoint cget (c : cache) (k : nat) : T :=
  match c with
  | [] => n0
  | (k', x) :: c' => if Nat.eqb k k' then x else cget c' k
  end.

(** cache[k] as an rvalue: inserts Type() when absent. *)
Fixpoint ctouch (c : cache) (k : nat) : cache :=
  match c with
  | [] => [(k, n0)]
  | (k', x) :: c' => if Nat.eqb k k' then c else (k', x) :: ctouch c' k
  end.

(** cache[k] += a. *)
Fixpoint cadd (k : nat) (a : T) (c : cache) : cache :=
  match c with
  | [] => [(k, n0 + a)]
  | (k', x) :: c' => if Nat.eqb k k' then (k', x + a) :: c' else (k', x) :: cadd k a c'
  end.

(** for_each over the operand's m_cache: cache[idx] += g(val). *)
Definition cmerge (g : T -> T) (src dst : cache) : cache :=
  fold_left (fun d p => cadd (fst p) (g (snd p)) d) src dst.

(** Variable.hpp:42-58: *m_value_var, m_var->m_value, m_var->m_dvalue, m_gh_vec,
    m_cache, m_visited. *)
Record cell : Type := mkCell {
  c_base : T;
  c_val : T;
  c_dval : T;
  c_items : list op;
  c_cache : cache;
  c_vis : bool
}.

(** MetaVariable.hpp:27-31: mp_tmp and mp_dtmp of any node (symbolic temporaries). *)
Record memo : Type := mkMemo { m_tmp : option nat; m_dtmp : list (nat * nat) }.

(** The objects alive in the program; [next] is CommonHeader::m_idx_count
    (CommonHeader.hpp:371). *)
Record heap : Type := mkHeap {
  cells : nat -> cell;
  memos : nat -> memo;
  next : nat
}.

Definition upd {A} (f : nat -> A) (k : nat) (a : A) : nat -> A :=
  fun j => if Nat.eqb j k then a else f j.

Definition setc (h : heap) (v : nat) (c : cell) : heap :=
  mkHeap (upd (cells h) v c) (memos h) (next h).

Definition set_val (x : T) (c : cell) : cell :=
  mkCell (c_base c) x (c_dval c) (c_items c) (c_cache c) (c_vis c).
Definition set_dval (x : T) (c : cell) : cell :=
  mkCell (c_base c) (c_val c) x (c_items c) (c_cache c) (c_vis c).
Definition set_cache (k : cache) (c : cell) : cell :=
  mkCell (c_base c) (c_val c) (c_dval c) (c_items c) k (c_vis c).
Definition set_vis (b : bool) (c : cell) : cell :=
  mkCell (c_base c) (c_val c) (c_dval c) (c_items c) (c_cache c) b.
Definition set_items (l : list op) (c : cell) : cell :=
  mkCell (c_base c) (c_val c) (c_dval c) l (c_cache c) (c_vis c).

(** Update one object in place. *)
Definition modc (f : cell -> cell) (v : nat) (h : heap) : heap := setc h v (f (cells h v)).

(** std::for_each over m_gh_vec. *)
Fixpoint each {A} (f : A -> heap -> option heap) (l : list A) (h : heap) : option heap :=
  match l with
  | [] => Some h
  | a :: l' => do h1 <- f a h; each f l' h1
  end.

(** ** eval *)

Section EvalOp.
Variable ev : nat -> heap -> option (T * heap).   (* Variable::eval on a leaf *)

(** eval() of operator nodes; Parameter::eval (Parameter.cpp:81-83). *)
Fixpoint eval_op (o : op) (h : heap) : option (T * heap) :=
  match o with
  | Leaf v => ev v h
  | Par _ tv => Some (c_val (cells h tv), h)
  | Un k _ e => do (x, h1) <- eval_op e h; Some (uval k x, h1)
  | Bin k _ l r =>
      if b_right_first_eval k then
        do (v, h1) <- eval_op r h; do (u, h2) <- eval_op l h1; Some (bval k u v, h2)
      else
        do (u, h1) <- eval_op l h; do (v, h2) <- eval_op r h1; Some (bval k u v, h2)
  end.

(** The pair of eval() calls made by devalF and traverse of a binary node. *)
Definition eval_two (k : bop) (l r : op) (h : heap) : option (T * T * heap) :=
  if b_evals k then
    if b_right_first k then
      do (v, h1) <- eval_op r h; do (u, h2) <- eval_op l h1; Some (u, v, h2)
    else
      do (u, h1) <- eval_op l h; do (v, h2) <- eval_op r h1; Some (u, v, h2)
  else Some (n0, n0, h).
Definition eval_one (k : uop) (e : op) (h : heap) : option (T * heap) :=
  if u_evals k then eval_op e h else Some (n0, h).
End EvalOp.

(** Variable::eval (Variable.cpp:130-151). *)
Fixpoint eval_var (fuel : nat) (v : nat) (h : heap) : option (T * heap) :=
  match fuel with
  | O => None
  | S f =>
      let c := cells h v in
      if c_vis c then Some (c_val c, h)
      else
        let h0 := setc h v (set_vis true (set_val (c_base c) c)) in
        do h1 <- each (fun o h' => do (x, h'') <- eval_op (eval_var f) o h';
                                   Some (modc (set_val x) v h'')) (c_items c) h0;
        Some (c_val (cells h1 v), h1)
  end.

(** ** devalF *)

Section DevalOp.
Variable ev df : nat -> heap -> option (T * heap).

(** devalF() of operator nodes; Parameter::devalF (Parameter.cpp:101-103). *)
Fixpoint devalF_op (o : op) (h : heap) : option (T * heap) :=
  match o with
  | Leaf v => df v h
  | Par _ _ => Some (n0, h)
  | Un k _ e =>
      do (dx, h1) <- devalF_op e h;
      do (x, h2) <- eval_one ev k e h1;
      Some (ufwd k x dx, h2)
  | Bin k _ l r =>
      do (du, h1) <- devalF_op l h;
      do (dv, h2) <- devalF_op r h1;
      do (uv, h3) <- eval_two ev k l r h2;
      Some (bfwd k (fst uv) (snd uv) du dv, h3)
  end.
End DevalOp.

(** Variable::devalF (Variable.cpp:154-176). *)
Fixpoint devalF_var (fuel : nat) (var : nat) (v : nat) (h : heap) : option (T * heap) :=
  match fuel with
  | O => None
  | S f =>
      let c := cells h v in
      do h1 <- (if c_vis c then Some h
                else each (fun o h' =>
                       do (d, h2) <- devalF_op (eval_var f) (devalF_var f var) o h';
                       do (x, h3) <- eval_op (eval_var f) o (modc (set_dval d) v h2);
                       Some (modc (set_val x) v h3)) (c_items c) (setc h v (set_vis true c)));
      Some (if Nat.eqb v var then n1 else c_dval (cells h1 v), h1)
  end.

(** ** traverse *)

(** m_cache of an operand: only Variable/Expression objects ever hold entries. *)
Definition own_cache (o : op) (h : heap) : cache :=
  match o with Leaf v => c_cache (cells h v) | _ => [] end.

Section TravOp.
Variable ev : nat -> heap -> option (T * heap).
Variable tv : nat -> heap -> option heap.          (* Variable::traverse(..) on a leaf *)

(** traverse(cache) (e.g. GenericProduct.hpp:94-186).  [root] is the first-step branch
    (cache == nullptr, cache == &m_cache cleared by the caller).  Called on an operand
    only if its m_visited is false; Parameter::traverse does nothing
    (Parameter.cpp:111-113). *)
Fixpoint trav (root : bool) (o : op) (c : cache) (h : heap) : option (cache * heap) :=
  match o with
  | Leaf v => if c_vis (cells h v) then Some (c, h) else do h1 <- tv v h; Some (c, h1)
  | Par _ _ => Some (c, h)
  | Un k id e =>
      let m := if root then None else Some (cget c id) in
      let c0 := if root then c else ctouch c id in
      do (c1, h1) <- trav false e c0 h;
      do (x, h2) <- eval_one ev k e h1;
      let c2 := cadd (nid e) (uadj k m x) c1 in
      let c3 := match umrg k m x with
                | None => c2
                | Some g => cmerge g (own_cache e h2) c2
                end in
      trav false e c3 h2
  | Bin k id l r =>
      let m := if root then None else Some (cget c id) in
      let c0 := if root then c else ctouch c id in
      do (c1, h1) <- trav false l c0 h;
      do (c2, h2) <- trav false r c1 h1;
      do (uv, h3) <- eval_two ev k l r h2;
      let u := fst uv in let v := snd uv in
      let c3 := cadd (nid l) (badjL k m u v) c2 in
      let c4 := cadd (nid r) (badjR k m u v) c3 in
      let c5 := match bmrgL k m u v with
                | None => c4 | Some g => cmerge g (own_cache l h3) c4 end in
      let c6 := match bmrgR k m u v with
                | None => c5 | Some g => cmerge g (own_cache r h3) c5 end in
      do (c7, h4) <- trav false l c6 h3;
      trav false r c7 h4
  end.

(** item->traverse() with no argument, returning the item's m_cache. *)
Definition trav_item (o : op) (h : heap) : option (cache * heap) :=
  match o with
  | Leaf v => do h1 <- tv v h; Some (c_cache (cells h1 v), h1)
  | Par _ _ => Some ([], h)
  | _ => trav true o [] h
  end.
End TravOp.

(** Variable::traverse (Variable.cpp:227-243). *)
Fixpoint trav_var (fuel : nat) (v : nat) (h : heap) : option heap :=
  match fuel with
  | O => None
  | S f =>
      let c := cells h v in
      if c_vis c then Some h
      else each (fun o h' =>
             do (k, h2) <- trav_item (eval_var f) (trav_var f) o h';
             do (x, h3) <- eval_op (eval_var f) o h2;
             let k' := match o with Leaf w => c_cache (cells h3 w) | _ => k end in
             Some (modc (set_cache k') v (modc (set_val x) v h3)))
           (c_items c) (setc h v (set_vis true c))
  end.

(** ** reset *)

Section ResetOp.
Variable rv : nat -> heap -> option heap.          (* Variable::reset on an object *)

(** MetaVariable::resetTemp (MetaVariable.cpp:26-41). *)
Definition reset_temp (id : nat) (h : heap) : option heap :=
  let m := memos h id in
  do h1 <- (match m_tmp m with None => Some h | Some t => rv t h end);
  each (fun p h' => rv (snd p) h') (m_dtmp m) h1.

(** BINARY_RESET / UNARY_RESET (IVariable.hpp:59-97); Parameter::reset
    (Parameter.cpp:85-89), whose mp_tmp is the variable tv. *)
Fixpoint reset_op (o : op) (h : heap) : option heap :=
  match o with
  | Leaf v => rv v h
  | Par _ tv => rv tv h
  | Un _ id e => do h1 <- reset_temp id h; reset_op e h1
  | Bin _ id l r => do h1 <- reset_temp id h; do h2 <- reset_op l h1; reset_op r h2
  end.
End ResetOp.

Definition cleaned (c : cell) : cell :=
  mkCell (c_base c) (c_base c) n0 (c_items c) [] false.

(** Variable::reset (Variable.cpp:251-276). *)
Fixpoint reset_var (fuel : nat) (v : nat) (h : heap) : option heap :=
  match fuel with
  | O => None
  | S f =>
      let c := cells h v in
      do h1 <- (if c_vis c
                then each (reset_op (reset_var f)) (c_items c) (setc h v (set_vis false c))
                else Some h);
      reset_temp (reset_var f) v (modc cleaned v h1)
  end.

(** Variable::resetImpl (Variable.cpp:118-127). *)
Definition reset_impl (fuel : nat) (v : nat) (h : heap) : option heap :=
  do h1 <- each (reset_op (reset_var fuel)) (c_items (cells h v)) (modc (set_vis true) v h);
  Some (modc (set_vis false) v h1).

(** ** The API (CommonFunctions.cpp:30-75) *)

(** TensorR1::Eval(Expression&). *)
Definition Eval (fuel : nat) (e : nat) (h : heap) : option (T * heap) :=
  do h1 <- reset_impl fuel e h; eval_var fuel e h1.

(** TensorR1::DevalF(Expression&, const Variable&). *)
Definition DevalF (fuel : nat) (e x : nat) (h : heap) : option (T * heap) :=
  do h1 <- reset_impl fuel e h; devalF_var fuel x e h1.

(** TensorR1::PreComp(Expression&). *)
Definition PreComp (fuel : nat) (e : nat) (h : heap) : option heap :=
  do h1 <- reset_impl fuel e h; trav_var fuel e h1.

(** TensorR1::DevalR(Expression&, const Variable&) = Variable::devalR
    (Variable.cpp:179-181): m_cache[var.m_nidx]. *)
Definition DevalR (e x : nat) (h : heap) : T * heap :=
  (cget (c_cache (cells h e)) x,
   modc (fun c => set_cache (ctouch (c_cache c) x) c) e h).

(** Variable::operator=(const Type&) (Variable.cpp:56-67): value, base, derivative 0, no
    items, no cache; the visited flag is untouched. *)
Definition SetVar (v : nat) (x : T) (h : heap) : heap :=
  modc (fun c => mkCell x x n0 [] [] (c_vis c)) v h.

(** Successive DevalR(root, x) calls for x in xs (user code). *)
Fixpoint reads (root : nat) (xs : list nat) (h : heap) : list T * heap :=
  match xs with
  | [] => ([], h)
  | x :: xs' => let (d, h1) := DevalR root x h in
                let (ds, h2) := reads root xs' h1 in (d :: ds, h2)
  end.

End Engine.

Arguments op T : clear implicits.
Arguments uop T : clear implicits.
Arguments bop T : clear implicits.
Arguments cache T : clear implicits.
Arguments cell T : clear implicits.
Arguments heap T : clear implicits.
