(** * Client programs of the scalar API and their reference meaning

    Part 1 is the reference: what a user means by a program that creates variables,
    parameters and expressions, reassigns them and queries them.  It knows nothing of node indices,
    visited flags, caches or resets.  Part 2 is the model of the corresponding library code. *)

From Coq Require Import List Arith Bool.
From Verif Require Import Num ScalarModel ScalarSpec ScalarReset.
Import ListNotations.
Open Scope num_scope.

Section User.
Context {T : Type} {N : Num T}.

(** ** Part 1: reference *)

(** An arithmetic expression as written by the user.  [TRef v]: the Variable or
    Expression with handle v; [TPar p]: the Parameter with handle p.  [TClone t] is t
    (it records an internal copy made by two of the overloaded operators). *)
Inductive term : Type :=
| TRef (v : nat)
| TPar (p : nat)
| TUn (k : uop T) (t : term)
| TBin (k : bop T) (l r : term)
| TClone (t : term).

Fixpoint trefs (t : term) : list nat :=
  match t with
  | TRef v => [v] | TPar _ => []
  | TUn _ t => trefs t | TBin _ l r => trefs l ++ trefs r | TClone t => trefs t
  end.
Fixpoint tpars (t : term) : list nat :=
  match t with
  | TRef _ => [] | TPar p => [p]
  | TUn _ t => tpars t | TBin _ l r => tpars l ++ tpars r | TClone t => tpars t
  end.

(** One assignment received by an expression: from a term, from another Expression, or
    the initial zero of a default-constructed Expression. *)
Inductive item : Type := ITerm (t : term) | ICopy (e : nat) | IZero.
Definition irefs (i : item) : list nat :=
  match i with ITerm t => trefs t | ICopy e => [e] | IZero => [] end.
Definition ipars (i : item) : list nat :=
  match i with ITerm t => tpars t | _ => [] end.

Inductive obj : Type := OVar (x : T) | OPar (x : T) | OExp (l : list item).
Definition store : Type := nat -> option obj.
Definition put (st : store) (v : nat) (o : obj) : store := at_ v (Some o) st.

Definition is_exp (st : store) (v : nat) : Prop := exists l, st v = Some (OExp l).
Definition is_var (st : store) (v : nat) : Prop := exists x, st v = Some (OVar x).
Definition is_par (st : store) (v : nat) : Prop := exists x, st v = Some (OPar x).

(** Value and derivative of a term. *)
Fixpoint tsem (lv : nat -> T) (t : term) : T :=
  match t with
  | TRef v => lv v | TPar p => lv p
  | TUn k t => mean1 k (tsem lv t)
  | TBin k l r => mean2 k (tsem lv l) (tsem lv r)
  | TClone t => tsem lv t
  end.
Fixpoint tdsem (lv ld : nat -> T) (t : term) : T :=
  match t with
  | TRef v => ld v | TPar _ => n0
  | TUn k t => chain1 k (tsem lv t) (tdsem lv ld t)
  | TBin k l r => chain2 k (tsem lv l) (tsem lv r) (tdsem lv ld l) (tdsem lv ld r)
  | TClone t => tdsem lv ld t
  end.
(** Assigning a term multiplies it by 1 (Expression.hpp:53,66): the identity in exact
    arithmetic and in IEEE arithmetic; kept visible because no law is assumed. *)
Definition isem (lv : nat -> T) (i : item) : T :=
  match i with ITerm t => n1 * tsem lv t | ICopy e => lv e | IZero => n0 end.
Definition idsem (lv ld : nat -> T) (i : item) : T :=
  match i with ITerm t => n1 * tdsem lv ld t | ICopy e => ld e | IZero => n0 end.

Definition udep (st : store) (v w : nat) : Prop :=
  exists l i, st v = Some (OExp l) /\ In i l /\ (In w (irefs i) \/ In w (ipars i)).
Inductive ureach (st : store) (v : nat) : nat -> Prop :=
| ureach_refl : ureach st v v
| ureach_step w x : ureach st v w -> udep st w x -> ureach st v x.

(** [W]: value of everything below root.  The assignments of an expression are executed
    in order from 0; a mention of itself is the value so far. *)
Definition uvalues (st : store) (root : nat) (W : nat -> T) : Prop :=
  forall v, ureach st root v -> W v =
    match st v with
    | Some (OVar x) | Some (OPar x) => x
    | Some (OExp l) => fold_left (fun cur i => isem (at_ v cur W) i) l n0
    | None => n0
    end.
(** [D]: derivative with respect to x of everything below root. *)
Definition uderivs (st : store) (root : nat) (W : nat -> T) (x : nat) (D : nat -> T) : Prop :=
  forall v, ureach st root v -> D v =
    if Nat.eqb v x then n1 else
    match st v with
    | Some (OExp l) => snd (fold_left (fun p i => (isem (at_ v (fst p) W) i,
          idsem (at_ v (fst p) W) (at_ x n1 (at_ v (snd p) D)) i)) l (n0, n0))
    | _ => n0
    end.

(** No mutual recursion below root. *)
Definition ustrat (st : store) (root : nat) : Prop :=
  exists rank : nat -> nat, forall v w, ureach st root v -> udep st v w -> w = v \/ rank w < rank v.

(** Divisors of variable quotients are invertible. *)
Fixpoint tdiv_ok (lv : nat -> T) (t : term) : Prop :=
  match t with
  | TRef _ | TPar _ => True
  | TUn _ t => tdiv_ok lv t
  | TBin k l r => tdiv_ok lv l /\ tdiv_ok lv r /\
      match k with BDiv => invertible (tsem lv r) | _ => True end
  | TClone t => tdiv_ok lv t
  end.
Fixpoint idivs_ok (W : nat -> T) (v : nat) (cur : T) (l : list item) : Prop :=
  match l with
  | [] => True
  | i :: l' => match i with ITerm t => tdiv_ok (at_ v cur W) t | _ => True end /\
               idivs_ok W v (isem (at_ v cur W) i) l'
  end.
Definition udivs_ok (st : store) (root : nat) (W : nat -> T) : Prop :=
  forall v l, ureach st root v -> st v = Some (OExp l) -> idivs_ok W v n0 l.

(** Targets for which reverse mode is specified: variables, and expressions that are not the
    root, not self-referential and not copied verbatim ("Expression b = a" or "b = a"). *)
Definition utarget (st : store) (root x : nat) : Prop :=
  is_var st x \/
  exists l, st x = Some (OExp l) /\ x <> root /\ (forall i, In i l -> ~ In x (irefs i)) /\
    forall v l', ureach st root v -> st v = Some (OExp l') -> ~ In (ICopy x) l'.

(** Commands. *)
Inductive cmd : Type :=
| CVar (x : T)                    (* Variable v{x} *)
| CPar (x : T)                    (* Parameter p{x} *)
| CEmpty                          (* Expression e; *)
| CExpr (t : term)                (* Expression e = t; *)
| CCopy (e : nat)                 (* Expression f = e; *)
| CAssign (e : nat) (t : term)    (* e = t; *)
| CAssignE (e e' : nat)           (* e = e'; for Expressions *)
| CSet (v : nat) (x : T)          (* v = x; for a Variable *)
| CSetPar (p : nat) (x : T)       (* p = x; *)
| CEval (r : nat)                 (* Eval(r) *)
| CDevalF (r x : nat)             (* DevalF(r, x) *)
| CGrad (r : nat) (xs : list nat).  (* PreComp(r); DevalR(r, x) for x in xs *)

Inductive out : Type := ONone | OHandle (v : nat) | ONums (l : list T).

(** Effect on the store; [o] supplies the handle of a new object. *)
Definition mentions (e : nat) (t : term) : bool := existsb (Nat.eqb e) (trefs t).
Definition uafter (st : store) (c : cmd) (o : out) : store :=
  match c, o with
  | CVar x, OHandle v => put st v (OVar x)
  | CPar x, OHandle v => put st v (OPar x)
  | CEmpty, OHandle v => put st v (OExp [IZero])
  | CExpr t, OHandle v => put st v (OExp [ITerm t])
  | CCopy e, OHandle v => put st v (OExp [ICopy e])
  | CAssign e t, _ =>
      match st e with
      | Some (OExp l) => put st e (OExp (if mentions e t then l ++ [ITerm t] else [ITerm t]))
      | _ => st
      end
  | CAssignE e e', _ =>
      match st e with
      | Some (OExp l) => put st e (OExp (if Nat.eqb e e' then l ++ [ICopy e'] else [ICopy e']))
      | _ => st
      end
  | CSet v x, _ => put st v (OVar x)
  | CSetPar p x, _ => put st p (OPar x)
  | _, _ => st
  end.

(** What each command must return. *)
Definition uanswer (st : store) (c : cmd) (o : out) : Prop :=
  match c with
  | CVar _ | CPar _ | CEmpty | CExpr _ | CCopy _ => exists v, o = OHandle v /\ st v = None
  | CAssign _ _ | CAssignE _ _ | CSet _ _ | CSetPar _ _ => o = ONone
  | CEval r => exists y, o = ONums [y] /\ forall W, uvalues st r W -> y = W r
  | CDevalF r x => exists y, o = ONums [y] /\
      forall W D, uvalues st r W -> uderivs st r W x D -> y = D r
  | CGrad r xs => exists ys, o = ONums ys /\ length ys = length xs /\
      forall W, NumLaws N -> uvalues st r W -> udivs_ok st r W ->
      forall i x, nth_error xs i = Some x -> utarget st r x ->
      forall D, uderivs st r W x D -> nth_error ys i = Some (D r)
  end.

(** Expressions below a queried root have been touched by the engine. *)
Definition uroot (c : cmd) : option nat :=
  match c with CEval r | CDevalF r _ | CGrad r _ => Some r | _ => None end.
Definition touch (st : store) (c : cmd) (t : nat -> Prop) : nat -> Prop :=
  match uroot c with Some r => fun v => t v \/ ureach st r v | None => t end.

Definition term_ok (st : store) (t : term) : Prop :=
  (forall v, In v (trefs t) -> is_var st v \/ is_exp st v) /\
  (forall p, In p (tpars t) -> is_par st p).
Definition query_ok (st : store) (touched : nat -> Prop) (r : nat) : Prop :=
  is_exp st r /\ ustrat st r /\
  forall v w, ureach st r v -> v <> r -> is_exp st v -> ~ touched v -> udep st v w -> is_exp st w ->
    ~ touched w.
(** Legal commands: objects exist and have the right kind, no mutual recursion below a
    queried root, and -- the only restriction on histories -- below the root no expression that
    was never part of a query refers to one that was. *)
Definition legal (st : store) (touched : nat -> Prop) (c : cmd) : Prop :=
  match c with
  | CVar _ | CPar _ | CEmpty => True
  | CExpr t => term_ok st t
  | CCopy e => is_exp st e
  | CAssign e t => is_exp st e /\ term_ok st t
  | CAssignE e e' => is_exp st e /\ is_exp st e'
  | CSet v _ => is_var st v
  | CSetPar p _ => is_par st p
  | CEval r => query_ok st touched r
  | CDevalF r x => query_ok st touched r /\ (is_var st x \/ is_exp st x)
  | CGrad r xs => query_ok st touched r /\ forall x, In x xs -> is_var st x \/ is_exp st x
  end.

(** A client: an arbitrary program that looks at every result before choosing its next
    command. *)
Inductive prog : Type := Done | Do (c : cmd) (k : out -> prog).

Fixpoint well_behaved (st : store) (touched : nat -> Prop) (p : prog) : Prop :=
  match p with
  | Done => True
  | Do c k => legal st touched c /\
      forall o, uanswer st c o -> well_behaved (uafter st c o) (touch st c touched) (k o)
  end.
Fixpoint all_correct (st : store) (p : prog) (os : list out) : Prop :=
  match p, os with
  | Done, [] => True
  | Do c k, o :: os' => uanswer st c o /\ all_correct (uafter st c o) (k o) os'
  | _, _ => False
  end.

(** ** Part 2: the library *)

(** cloneExp() (IVariable.hpp:52-54; Variable.hpp:120, Parameter.hpp:88, GenericSum.hpp:201, ...):
    leaves return *this; an operator re-executes itself, cloning its operands first.  [n] is
    m_idx_count; the two operands of a binary operator are cloned left to right
    (GenericProduct.hpp:378-384). *)
Fixpoint clone (o : op T) (n : nat) : op T * nat :=
  match o with
  | Leaf v => (Leaf v, n)
  | Par p tv => (Par p tv, n)
  | Un k _ e => let (e', n1) := clone e n in (Un k n1 e', S n1)
  | Bin k _ l r => let (l', n1) := clone l n in let (r', n2) := clone r n1 in (Bin k n2 l' r', S n2)
  end.

(** Execution of the overloaded operators of a user expression, operands before
    operators, left operand first (C++ leaves that order open; it only affects which fresh index is
    used).  mp_tmp of Parameter p is the variable p+1 (Parameter.cpp:32-41). *)
Fixpoint build (t : term) (n : nat) : op T * nat :=
  match t with
  | TRef v => (Leaf v, n)
  | TPar p => (Par p (S p), n)
  | TUn k t => let (e, n1) := build t n in let (e', n2) := clone e n1 in (Un k n2 e', S n2)
  | TBin k l r =>
      let (a, n1) := build l n in let (b, n2) := build r n1 in
      let (a', n3) := clone a n2 in let (b', n4) := clone b n3 in (Bin k n4 a' b', S n4)
  | TClone t => let (e, n1) := build t n in clone e n1
  end.

(** findMe (IVariable.hpp:104-147, Variable.cpp:284-290, Parameter.cpp:124-130). *)
Fixpoint find_me (e : nat) (o : op T) : bool :=
  match o with
  | Leaf v => Nat.eqb e v
  | Par p _ => Nat.eqb e p
  | Un _ _ a => find_me e a
  | Bin _ _ l r => find_me e l || find_me e r
  end.

Definition fresh_cell (x : T) (l : list (op T)) : cell T := mkCell x x n0 l [] false.
Definition bump (n : nat) (h : heap T) : heap T := mkHeap (cells h) (memos h) n.

(** Expression's constructors: the base class Variable() takes an index (Variable.cpp:38),
    which is then replaced by a fresh one (Expression.hpp:47, Expression.cpp:28,36). *)
Definition new_exp (items : nat -> list (op T) * nat) (n : nat) (h : heap T) : nat * heap T :=
  let e := S n in
  let (l, n') := items (S e) in
  (e, bump n' (setc h e (fresh_cell n0 l))).
(** push_back(expr * (Type)1) (Expression.hpp:51,66). *)
Definition wrap (o : op T) (n : nat) : list (op T) * nat :=
  let (o', k) := clone o n in ([Un (UProdC n1) k o'], S k).

(** Fuel for the recursive functions: ScalarTerm.v shows that it never runs out. *)
Definition fuel_for (pad : nat) (h : heap T) : nat := depth (next h) + pad.

Definition step (pad : nat) (c : cmd) (h : heap T) : option (out * heap T) :=
  match c with
  | CVar x =>                                            (* Variable.cpp:44-53 *)
      let v := next h in Some (OHandle v, bump (S v) (setc h v (fresh_cell x [])))
  | CPar x =>                                            (* Parameter.cpp:38-41 *)
      let p := next h in Some (OHandle p, bump (S (S p)) (setc h (S p) (fresh_cell x [])))
  | CEmpty =>                                            (* Expression.cpp:27-33 *)
      let (e, h1) := new_exp (fun n => ([Leaf 1], n)) (next h) h in Some (OHandle e, h1)
  | CExpr t =>                                           (* Expression.hpp:44-52 *)
      let (o, n1) := build t (next h) in
      let (e, h1) := new_exp (wrap o) n1 h in Some (OHandle e, h1)
  | CCopy e' =>                                          (* Expression.cpp:35-41 *)
      let (e, h1) := new_exp (fun n => ([Leaf e'], n)) (next h) h in Some (OHandle e, h1)
  | CAssign e t =>                                       (* Expression.hpp:57-68 *)
      let (o, n1) := build t (next h) in
      let (l, n2) := wrap o n1 in
      Some (ONone, bump n2 (modc (fun c => set_items ((if find_me e o then c_items c else []) ++ l) c) e h))
  | CAssignE e e' =>                                     (* Expression.cpp:43-52 *)
      Some (ONone, modc (fun c => set_items ((if Nat.eqb e e' then c_items c else []) ++ [Leaf e']) c) e h)
  | CSet v x => Some (ONone, SetVar v x h)               (* Variable.cpp:56-67 *)
  | CSetPar p x => Some (ONone, SetVar (S p) x h)        (* Parameter.cpp:70-73 *)
  | CEval r => do (y, h1) <- Eval (fuel_for pad h) r h; Some (ONums [y], h1)
  | CDevalF r x => do (y, h1) <- DevalF (fuel_for pad h) r x h; Some (ONums [y], h1)
  | CGrad r xs => do h1 <- PreComp (fuel_for pad h) r h;
                  let (ys, h2) := reads r xs h1 in Some (ONums ys, h2)
  end.

Fixpoint exec (pad : nat) (p : prog) (h : heap T) : option (list out * heap T) :=
  match p with
  | Done => Some ([], h)
  | Do c k => do (o, h1) <- step pad c h; do (os, h2) <- exec pad (k o) h1; Some (o :: os, h2)
  end.

(** Static objects: Variable::t1 has index 0 and Variable::t0 index 1 (Variable.cpp:24-25). *)
Definition heap0 : heap T :=
  mkHeap (fun v => if Nat.eqb v 0 then fresh_cell n1 [] else fresh_cell n0 [])
         (fun _ => mkMemo None []) 2.
Definition store0 : store := fun _ => None.

End User.
