(** * Specification: derived matrix functions

    Programs over the library's matrix functions and what their values are, entry by entry,
    over the real numbers.  Nothing here mentions how the library builds the functions. *)

From Coq Require Import List Arith Reals.
Import ListNotations.
Set Implicit Arguments.
Unset Strict Implicit.
Local Open Scope R_scope.

Inductive axis : Set := ROW | COLUMN | ALL.
Inductive cataxis : Set := VERTICAL | HORIZONTAL.

(** Calls of the library's matrix functions; XMat o is a matrix object. *)
Inductive fexp : Type :=
| XMat (o : nat)
| XSum (a b : fexp) | XSub (a b : fexp) | XMul (a b : fexp) | XHad (a b : fexp)
| XTr (a : fexp) | XScale (c : R) (a : fexp) | XShift (c : R) (a : fexp)
| XFun (f f' : R -> R) (a : fexp)             (* an element-wise function and its derivative *)
| XQuot (a b : fexp)                          (* a / b *)
| XOver (a : fexp) (c : R)                    (* a / c *)
| XBroadcast (ax : axis) (a : fexp) (n : nat)
| XSigma (ax : axis) (a : fexp)
| XTrace (a : fexp)
| XFrob (a : fexp)
| XConcat (ax : cataxis) (a b : fexp)
| XSoftMax (ax : axis) (a : fexp)
| XPow (n : nat) (a : fexp)
| XExp (n : nat) (a : fexp)
| XLog (n : nat) (a : fexp).

Section Dims.
(** Dimensions of the matrix objects. *)
Variables dr dc : nat -> nat.
Fixpoint frows (d : fexp) : nat :=
  match d with
  | XMat o => dr o
  | XSum a _ | XSub a _ | XMul a _ | XHad a _ => frows a
  | XTr a => fcols a
  | XScale _ a | XShift _ a | XFun _ _ a | XQuot a _ | XOver a _ => frows a
  | XBroadcast COLUMN a _ => frows a
  | XBroadcast _ _ n => n
  | XSigma COLUMN a => frows a
  | XSigma _ _ | XTrace _ | XFrob _ => 1
  | XConcat VERTICAL a b => frows a + frows b
  | XConcat HORIZONTAL a _ => frows a
  | XSoftMax _ a | XPow _ a | XExp _ a | XLog _ a => frows a
  end
with fcols (d : fexp) : nat :=
  match d with
  | XMat o => dc o
  | XSum a _ | XSub a _ | XHad a _ => fcols a
  | XMul _ b => fcols b
  | XTr a => frows a
  | XScale _ a | XShift _ a | XFun _ _ a | XQuot a _ | XOver a _ => fcols a
  | XBroadcast ROW a _ => fcols a
  | XBroadcast _ _ n => n
  | XSigma ROW a => fcols a
  | XSigma _ _ | XTrace _ | XFrob _ => 1
  | XConcat VERTICAL a _ => fcols a
  | XConcat HORIZONTAL a b => fcols a + fcols b
  | XSoftMax _ a | XPow _ a | XExp _ a | XLog _ a => fcols a
  end.

(** f 0 + ... + f (n-1). *)
Fixpoint total (n : nat) (f : nat -> R) : R := match n with 0%nat => 0 | S k => total k f + f k end.
Definition delta (i j : nat) : R := if Nat.eqb i j then 1 else 0.
(** Powers of an n x n matrix. *)
Fixpoint power (n : nat) (m : nat -> nat -> R) (k : nat) : nat -> nat -> R :=
  match k with 0%nat => delta | S k' => fun i j => total n (fun a => m i a * power n m k' a j) end.

(** Entries of the matrix objects. *)
Variable V : nat -> nat -> nat -> R.
Fixpoint fval (d : fexp) : nat -> nat -> R :=
  match d with
  | XMat o => V o
  | XSum a b => fun i j => fval a i j + fval b i j
  | XSub a b => fun i j => fval a i j - fval b i j
  | XMul a b => fun i j => total (fcols a) (fun k => fval a i k * fval b k j)
  | XHad a b => fun i j => fval a i j * fval b i j
  | XTr a => fun i j => fval a j i
  | XScale c a => fun i j => c * fval a i j
  | XShift c a => fun i j => c + fval a i j
  | XFun f _ a => fun i j => f (fval a i j)
  | XQuot a b => fun i j => fval a i j / fval b i j
  | XOver a c => fun i j => fval a i j / c
  | XBroadcast COLUMN a _ => fun i _ => fval a i 0%nat
  | XBroadcast ROW a _ => fun _ j => fval a 0%nat j
  | XBroadcast ALL a _ => fun _ _ => fval a 0%nat 0%nat
  | XSigma ROW a => fun _ j => total (frows a) (fun k => fval a k j)
  | XSigma COLUMN a => fun i _ => total (fcols a) (fun k => fval a i k)
  | XSigma ALL a => fun _ _ => total (frows a) (fun k => total (fcols a) (fun l => fval a k l))
  | XTrace a => fun _ _ => total (frows a) (fun k => fval a k k)
  | XFrob a => fun _ _ => sqrt (total (frows a) (fun k => total (fcols a) (fun l => fval a k l * fval a k l)))
  | XConcat VERTICAL a b => fun i j => if Nat.ltb i (frows a) then fval a i j else fval b (i - frows a) j
  | XConcat HORIZONTAL a b => fun i j => if Nat.ltb j (fcols a) then fval a i j else fval b i (j - fcols a)
  | XSoftMax ROW a => fun i j => exp (fval a i j) / total (frows a) (fun k => exp (fval a k j))
  | XSoftMax COLUMN a => fun i j => exp (fval a i j) / total (fcols a) (fun k => exp (fval a i k))
  | XSoftMax ALL a => fun i j => exp (fval a i j) / total (frows a) (fun k => total (fcols a) (fun l => exp (fval a k l)))
  | XPow n a => power (frows a) (fval a) n
  | XExp n a => fun i j => total (S n) (fun k => power (frows a) (fval a) k i j / INR (fact k))
  | XLog n a => fun i j =>
      total n (fun k => - / INR (S k) * power (frows a) (fun p q => delta p q - fval a p q) (S k) i j)
  end.

(** The calls make sense: the dimensions match, quotients are taken of positive entries, and
    the exponential series has at most 20 terms besides the unit matrix. *)
Fixpoint fok (d : fexp) : Prop :=
  match d with
  | XMat _ => True
  | XSum a b | XSub a b | XHad a b => fok a /\ fok b /\ frows a = frows b /\ fcols a = fcols b
  | XMul a b => fok a /\ fok b /\ fcols a = frows b
  | XTr a | XScale _ a | XShift _ a | XFun _ _ a | XSigma _ a | XFrob a | XSoftMax _ a => fok a
  | XQuot a b => fok a /\ fok b /\ frows a = frows b /\ fcols a = fcols b /\
      forall i j, (i < frows a)%nat -> (j < fcols a)%nat -> 0 < fval a i j /\ 0 < fval b i j
  | XOver a c => fok a /\ c <> 0
  | XBroadcast COLUMN a n => fok a /\ fcols a = 1%nat /\ (0 < n)%nat
  | XBroadcast ROW a n => fok a /\ frows a = 1%nat /\ (0 < n)%nat
  | XBroadcast ALL a n => fok a /\ frows a = 1%nat /\ fcols a = 1%nat /\ (0 < n)%nat
  | XConcat VERTICAL a b => fok a /\ fok b /\ fcols a = fcols b
  | XConcat HORIZONTAL a b => fok a /\ fok b /\ frows a = frows b
  | XTrace a | XPow _ a | XLog _ a => fok a /\ frows a = fcols a
  | XExp n a => fok a /\ frows a = fcols a /\ (n <= 20)%nat
  end.
(** Points at which the functions are differentiable. *)
Fixpoint fsmooth (d : fexp) : Prop :=
  match d with
  | XMat _ => True
  | XSum a b | XSub a b | XHad a b | XMul a b | XQuot a b | XConcat _ a b => fsmooth a /\ fsmooth b
  | XTr a | XScale _ a | XShift _ a | XOver a _ | XBroadcast _ a _ | XSigma _ a | XTrace a | XSoftMax _ a
  | XPow _ a | XExp _ a | XLog _ a => fsmooth a
  | XFun f f' a => fsmooth a /\
      forall i j, (i < frows a)%nat -> (j < fcols a)%nat -> derivable_pt_lim f (fval a i j) (f' (fval a i j))
  | XFrob a => fsmooth a /\ exists i j, (i < frows a)%nat /\ (j < fcols a)%nat /\ fval a i j <> 0
  end.
(** The matrix objects a program mentions. *)
Fixpoint fmats (d : fexp) : list nat :=
  match d with
  | XMat o => [o]
  | XSum a b | XSub a b | XHad a b | XMul a b | XQuot a b | XConcat _ a b => fmats a ++ fmats b
  | XTr a | XScale _ a | XShift _ a | XFun _ _ a | XOver a _ | XBroadcast _ a _ | XSigma _ a | XTrace a | XFrob a | XSoftMax _ a
  | XPow _ a | XExp _ a | XLog _ a => fmats a
  end.
End Dims.
