(** * Derived matrix functions: element-wise quotient, broadcast, Sigma, trace, Frobenius
    norm, concat, SoftMax, pow, MatrixExp, MatrixLog

    Each function only builds an expression out of the operators of MatEngine.v.  A builder
    draws node numbers from a counter (m_idx_count) and may fail an ASSERT.

    Simplifications: Type is the real numbers; the registered matrices (Ones, Eye, Zeros)
    and the block unit matrices of concat are objects of the graph, their entries those of
    the environment (that the registry and setBlockMat produce these entries is C37 and
    C28); the memo table of Factorial is left out (it stores what is returned). *)

From Coq Require Import List Arith Bool ZArith Reals.
From Verif Require Import Num NumInst MatMem MatEngine MatFunSpec.
Import ListNotations.
Set Implicit Arguments.
Unset Strict Implicit.

(** size_t. *)
Definition wrap64 (z : Z) : Z := (z mod 2 ^ 64)%Z.
(** CommonMatFunctions.cpp:26-32. *)
Fixpoint Factorial (n : nat) : Z :=
  match n with 0 => 1%Z | Datatypes.S m => wrap64 (Z.of_nat n * Factorial m) end.

(** The matrices the functions take from the registries (MatrixBasics.cpp:30-124) and create. *)
Record lib : Type := Lib {
  l_ones : nat -> nat -> obj; l_eye : nat -> obj; l_zeros : nat -> obj;
  l_top : nat -> nat -> obj; l_bottom : nat -> nat -> obj; l_left : nat -> nat -> obj; l_right : nat -> nat -> obj }.

Section Fun.
Variable G : graph R.
Variable K : lib.
(** Log, Sqrt and their derivatives (UnaryFunctions.hpp:72-94). *)
Variables lg dlg sq dsq : R -> R.

Definition build (A : Type) : Type := nat -> option (A * nat).
Definition bret {A} (a : A) : build A := fun n => Some (a, n).
Definition bbind {A C} (c : build A) (k : A -> build C) : build C := fun n => match c n with Some (a, n') => k a n' | None => None end.
Notation "x <- c ;; k" := (bbind c (fun x => k)) (at level 61, c at next level, right associativity).
Definition bassert (b : bool) : build unit := fun n => if b then Some (tt, n) else None.
Definition node : build nat := fun n => Some (n, Datatypes.S n).

(** cloneExp: a new copy of every operator node, the same matrix objects
    (e.g. GenericMatProduct.hpp:88-91, GenericMatUnary.hpp:43, MatrixVirtuals.ipp). *)
Fixpoint clone (e : mexp R) : build (mexp R) :=
  match e with
  | MLeaf o => bret (MLeaf o)
  | MBin k _ l r => l' <- clone l ;; r' <- clone r ;; i <- node ;; bret (MBin k i l' r')
  | MUn k _ a => a' <- clone a ;; i <- node ;; bret (MUn k i a')
  end.
(** operator+, -, *, ^ on matrices (e.g. GenericMatProduct.hpp:856-868, GenericMatSub.hpp:327-337,
    GenericMatHadamard.hpp:358-370). *)
Definition bin (k : bop) (l r : mexp R) : build (mexp R) :=
  l' <- clone l ;; r' <- clone r ;; i <- node ;; bret (MBin k i l' r').
(** transpose, scalar * matrix, scalar + matrix, UNARY_MATRIX_OPERATOR functions. *)
Definition un (k : uop R) (e : mexp R) : build (mexp R) :=
  e' <- clone e ;; i <- node ;; bret (MUn k i e').
Notation "l *m r" := (bin BProd l r) (at level 40).
(** CommonMatFunctions.hpp:297-304. *)
Definition ExpM (e : mexp R) : build (mexp R) := un (UFun exp exp) e.
Definition LogM (e : mexp R) : build (mexp R) := un (UFun lg dlg) e.
Definition SqrtM (e : mexp R) : build (mexp R) := un (UFun sq dsq) e.
Definition OnesRef (r c : nat) : mexp R := MLeaf (l_ones K r c).
Definition EyeRef (n : nat) : mexp R := MLeaf (l_eye K n).
Definition ZerosRef (n : nat) : mexp R := MLeaf (l_zeros K n).
Notation rows := (rows G).
Notation cols := (cols G).

(** Matrix / scalar, GenericMatProduct.hpp:883-887. *)
Definition over (v : mexp R) (u : R) : build (mexp R) := v' <- clone v ;; un (USProd (1 / u)%R) v'.
(** Matrix / matrix, CommonMatFunctions.hpp:324-341. *)
Definition quotient (X Y : mexp R) : build (mexp R) :=
  _ <- bassert ((rows X =? rows Y) && (cols X =? cols Y)) ;;
  a <- LogM X ;; b <- LogM Y ;; d <- bin BSub a b ;; ExpM d.
(** CommonMatFunctions.hpp:343-358. *)
Definition broadcast (ax : axis) (X : mexp R) (n : nat) : build (mexp R) :=
  _ <- bassert ((cols X =? 1) || (rows X =? 1)) ;;
  match ax with
  | COLUMN => X *m OnesRef 1 n
  | ROW => OnesRef n 1 *m X
  | ALL => a <- OnesRef n 1 *m X ;; a *m OnesRef 1 n
  end.
(** CommonMatFunctions.hpp:360-373. *)
Definition Sigma (ax : axis) (X : mexp R) : build (mexp R) :=
  match ax with
  | ROW => OnesRef 1 (rows X) *m X
  | COLUMN => X *m OnesRef (cols X) 1
  | ALL => a <- OnesRef 1 (rows X) *m X ;; a *m OnesRef (cols X) 1
  end.
(** CommonMatFunctions.hpp:375-383. *)
Definition trace (X : mexp R) : build (mexp R) :=
  _ <- bassert (rows X =? cols X) ;; a <- bin BHad X (EyeRef (rows X)) ;; Sigma ALL a.
(** CommonMatFunctions.hpp:385-389. *)
Definition MatrixFrobeniusNorm (X : mexp R) : build (mexp R) :=
  a <- bin BHad X X ;; b <- Sigma ALL a ;; SqrtM b.
(** CommonMatFunctions.hpp:391-423. *)
Definition concat (ax : cataxis) (X Y : mexp R) : build (mexp R) :=
  match ax with
  | VERTICAL =>
      _ <- bassert (cols X =? cols Y) ;;
      a <- MLeaf (l_top K (rows X) (rows Y)) *m X ;; b <- MLeaf (l_bottom K (rows X) (rows Y)) *m Y ;; bin BSum a b
  | HORIZONTAL =>
      _ <- bassert (rows X =? rows Y) ;;
      a <- X *m MLeaf (l_left K (cols X) (cols Y)) ;; b <- Y *m MLeaf (l_right K (cols X) (cols Y)) ;; bin BSum a b
  end.
(** CommonMatFunctions.hpp:425-436. *)
Definition SoftMax (ax : axis) (X : mexp R) : build (mexp R) :=
  e <- ExpM X ;; s <- Sigma ax e ;; l <- LogM s ;;
  b <- match ax with
       | ROW => OnesRef (rows X) 1 *m l
       | COLUMN => l *m OnesRef 1 (cols X)
       | ALL => a <- OnesRef (rows X) 1 *m l ;; a *m OnesRef 1 (cols X)
       end ;;
  d <- bin BSub X b ;; ExpM d.
(** CommonMatFunctions.hpp:438-453. *)
Fixpoint pow (n : nat) (X : mexp R) : build (mexp R) :=
  _ <- bassert (rows X =? cols X) ;;
  match n with
  | 0 => bret (EyeRef (rows X))
  | Datatypes.S m => p <- pow m X ;; X *m p
  end.
(** CommonMatFunctions.hpp:455-470. *)
Fixpoint MatrixExp (n : nat) (X : mexp R) : build (mexp R) :=
  _ <- bassert (rows X =? cols X) ;;
  match n with
  | 0 => bret (EyeRef (rows X))
  | Datatypes.S m => p <- pow n X ;; q <- over p (IZR (Factorial n)) ;; r <- MatrixExp m X ;; bin BSum q r
  end.
(** CommonMatFunctions.hpp:472-487. *)
Fixpoint MatrixLog (n : nat) (X : mexp R) : build (mexp R) :=
  _ <- bassert (rows X =? cols X) ;;
  match n with
  | 0 => bret (ZerosRef (rows X))
  | Datatypes.S m =>
      d <- bin BSub (EyeRef (rows X)) X ;; p <- pow n d ;; q <- un (USProd (-1 / IZR (Z.of_nat n))%R) p ;;
      r <- MatrixLog m X ;; bin BSum q r
  end.

(** A program of calls: the operands are built first, then the function is called. *)
Fixpoint make (d : fexp) : build (mexp R) :=
  match d with
  | XMat o => bret (MLeaf o)
  | XSum a b => x <- make a ;; y <- make b ;; bin BSum x y
  | XSub a b => x <- make a ;; y <- make b ;; bin BSub x y
  | XMul a b => x <- make a ;; y <- make b ;; bin BProd x y
  | XHad a b => x <- make a ;; y <- make b ;; bin BHad x y
  | XTr a => x <- make a ;; un UTr x
  | XScale c a => x <- make a ;; un (USProd c) x
  | XShift c a => x <- make a ;; un (USSum c) x
  | XFun f f' a => x <- make a ;; un (UFun f f') x
  | XQuot a b => x <- make a ;; y <- make b ;; quotient x y
  | XOver a c => x <- make a ;; over x c
  | XBroadcast ax a n => x <- make a ;; broadcast ax x n
  | XSigma ax a => x <- make a ;; Sigma ax x
  | XTrace a => x <- make a ;; trace x
  | XFrob a => x <- make a ;; MatrixFrobeniusNorm x
  | XConcat ax a b => x <- make a ;; y <- make b ;; concat ax x y
  | XSoftMax ax a => x <- make a ;; SoftMax ax x
  | XPow n a => x <- make a ;; pow n x
  | XExp n a => x <- make a ;; MatrixExp n x
  | XLog n a => x <- make a ;; MatrixLog n x
  end.
End Fun.
