(** * vec: model

    vec(X) evaluates its operand and changes the dimensions of the matrix the operand returned
    (GenericMatVec.hpp:81-108).  Expressions here are operators over vec and over the vec-free expressions of
    MatEngine.v.  Simplifications, beyond those of MatEngine.v:
    - named matrices are built from vec-free expressions;
    - the Matrix<Variable> Y(1, n, X.getMatrixPtr()) that devalF creates is one object per X, [row_of X], instead of a
      new one per call (only its number is read, and it differs from all others);
    - reverse mode through vec (traverse, GenericMatVec.hpp:110-210) is not modelled. *)

From Coq Require Import List Arith Bool Lia.
From Verif Require Import Num MatMem Kernels Registry Backend Slots Exec MatEngine KernelProofs MatGraph MatSpec.
Import ListNotations.
Set Implicit Arguments.
Unset Strict Implicit.

Section Syntax.
Context {T : Type}.
Inductive vexp : Type :=
| VE (e : mexp T)
| VVec (id : nat) (a : vexp)
| VBin (k : bop) (id : nat) (l r : vexp)
| VUn (k : uop T) (id : nat) (a : vexp).
End Syntax.
Arguments vexp : clear implicits.

Section Model.
Context {T : Type} {N : Num T}.
Variable S : sched T.
Variable B : backend (T := T).
Variable G : graph T.
Variable row_of : obj -> obj.
Notation E A := (E (T := T) A).
Notation "x <- c ;; k" := (ebind c (fun x => k)) (at level 61, c at next level, right associativity).

(** getNumRows / getNumColumns (GenericMatVec.hpp:54-64 for vec). *)
Fixpoint vrows (e : vexp T) : nat :=
  match e with
  | VE e => rows G e
  | VVec _ a => vrows a * vcols a
  | VBin _ _ l _ => vrows l
  | VUn UTr _ a => vcols a
  | VUn (UDet _ _) _ _ => 1
  | VUn _ _ a => vrows a
  end
with vcols (e : vexp T) : nat :=
  match e with
  | VE e => cols G e
  | VVec _ a => 1
  | VBin _ _ _ r => vcols r
  | VUn UTr _ a => vrows a
  | VUn (UDet _ _) _ _ => 1
  | VUn _ _ a => vcols a
  end.
Definition vverify (k : bop) (l r : vexp T) : bool :=
  match k with
  | BProd => vcols l =? vrows r
  | _ => (vrows l =? vrows r) && (vcols l =? vcols r)
  end.
Definition vun_verify (k : uop T) (a : vexp T) : bool :=
  match k with UInv _ | UDet _ _ => vrows a =? vcols a | _ => true end.

Variable rho : env T.
(** eval: GenericMatVec.hpp:81-91 for vec; the operators as in MatEngine.v. *)
Fixpoint veval (fuel : nat) (e : vexp T) : E ptr :=
  match e with
  | VE e => eval S B G rho fuel e
  | VVec _ a =>
      p <- veval fuel a ;;
      _ <- lift (reshape p (vrows a * vcols a) 1) ;;
      eret p
  | VBin k id l r =>
      _ <- eassert (vverify k l r) ;;
      p <- veval fuel l ;; q <- veval fuel r ;;
      _ <- unalias id 0 1 [p; q] ;;
      _ <- exec S B (bin_eval k id p q) ;;
      slot (ONode id 0)
  | VUn k id a =>
      _ <- eassert (vun_verify k a) ;;
      p <- veval fuel a ;;
      _ <- unalias id 0 (eval_last k) [p] ;;
      _ <- exec S B (un_eval rho k id p) ;;
      slot (ONode id 0)
  end.

(** devalF: GenericMatVec.hpp:93-108 for vec. *)
Fixpoint vdevalF (fuel : nat) (x : obj) (e : vexp T) : E ptr :=
  let xr := g_rows G x in let xc := g_cols G x in
  match e with
  | VE e => devalF S B G rho fuel x e
  | VVec _ a =>
      dp <- vdevalF fuel (row_of x) a ;;
      _ <- lift (reshape dp (vrows a * vcols a * xr) (1 * xc)) ;;
      eret dp
  | VBin k id l r =>
      _ <- eassert (vverify k l r) ;;
      dp <- vdevalF fuel x l ;; dq <- vdevalF fuel x r ;;
      match k with
      | BSum | BSub =>
          _ <- unalias id 1 2 [dp; dq] ;;
          _ <- exec S B (sum_dev k id dp dq) ;;
          slot (ONode id 1)
      | _ =>
          p <- veval fuel l ;; q <- veval fuel r ;;
          _ <- unalias id 1 6 [dp; dq; p; q] ;;
          _ <- exec S B (prod_dev k id xr xc dp dq p q) ;;
          slot (ONode id 1)
      end
  | VUn (USSum _) _ a => vdevalF fuel x a
  | VUn (USSumE s _) id a =>
      dp <- vdevalF fuel x a ;;
      _ <- unalias id 0 9 [dp] ;;
      _ <- exec S B (ssum_dev G rho s id x (vrows a) (vcols a) dp) ;;
      slot (ONode id 1)
  | VUn (USProdE s _) id a =>
      dp <- vdevalF fuel x a ;; p <- veval fuel a ;;
      _ <- unalias id 0 13 [dp; p] ;;
      _ <- exec S B (sprod_dev G rho s id x (vrows a) (vcols a) dp p) ;;
      slot (ONode id 1)
  | VUn (UFun _ f') id a =>
      dp <- vdevalF fuel x a ;; p <- veval fuel a ;;
      _ <- unalias id 1 4 [dp; p] ;;
      _ <- exec S B (fun_dev f' id xr xc dp p) ;;
      slot (ONode id 3)
  | VUn (UInv g) id a =>
      _ <- eassert (vun_verify (UInv g) a) ;;
      dp <- vdevalF fuel x a ;; p <- veval fuel a ;;
      _ <- unalias id 0 16 [dp; p] ;;
      _ <- exec S B (inv_dev g id xr xc dp p) ;;
      slot (ONode id 6)
  | VUn (UDet g d) id a =>
      _ <- eassert (vun_verify (UDet g d) a) ;;
      dp <- vdevalF fuel x a ;; p <- veval fuel a ;;
      _ <- unalias id 1 11 [dp; p] ;;
      _ <- exec S B (det_dev g d id xr xc (vrows a) dp p) ;;
      slot (ONode id 8)
  | VUn (USProd c) id a =>
      dp <- vdevalF fuel x a ;;
      _ <- unalias id 0 5 [dp] ;;
      _ <- exec S B (lin_dev (USProd c) id xr xc (vrows a) (vcols a) dp) ;;
      slot (ONode id 1)
  | VUn UTr id a =>
      dp <- vdevalF fuel x a ;;
      _ <- unalias id 1 2 [dp] ;;
      _ <- exec S B (lin_dev UTr id xr xc (vrows a) (vcols a) dp) ;;
      slot (ONode id 1)
  end.

(** reset: GenericMatVec.hpp:218-221, IMatrix.hpp:76-87. *)
Fixpoint vreset (fuel : nat) (e : vexp T) : E unit :=
  match e with
  | VE e => reset G fuel e
  | VVec _ a => vreset fuel a
  | VBin _ _ l r => _ <- vreset fuel l ;; vreset fuel r
  | VUn _ _ a => vreset fuel a
  end.
(** CommonMatFunctions.hpp:46-77. *)
Definition VEval (fuel : nat) (e : vexp T) : E ptr := _ <- vreset fuel e ;; veval fuel e.
Definition VDevalF (fuel : nat) (e : vexp T) (x : obj) : E ptr := _ <- vreset fuel e ;; vdevalF fuel x e.
End Model.

(** ** Specification *)
Section Spec.
Context {T : Type} {N : Num T}.
Variable G : graph T.
Variable rho : env T.
(** Entry (i, j): vec stacks the entries of its operand row by row. *)
Inductive vden : vexp T -> (nat -> nat -> T) -> Prop :=
| vden_plain e F : den G rho e F -> vden (VE e) F
| vden_vec id a F : vden a F -> vden (VVec id a) (fun i _ => F (i / vcols G a) (i mod vcols G a))
| vden_sum id l r F F' : vden l F -> vden r F' -> vden (VBin BSum id l r) (fun i j => nadd (F i j) (F' i j))
| vden_sub id l r F F' : vden l F -> vden r F' -> vden (VBin BSub id l r) (fun i j => nsub (F i j) (F' i j))
| vden_had id l r F F' : vden l F -> vden r F' -> vden (VBin BHad id l r) (fun i j => nmul (F i j) (F' i j))
| vden_prod id l r F F' : vden l F -> vden r F' ->
    vden (VBin BProd id l r) (fun i j => sum_n (vcols G l) (fun a => nmul (F i a) (F' a j)))
| vden_tr id e F : vden e F -> vden (VUn UTr id e) (fun i j => F j i)
| vden_sprod c id e F : vden e F -> vden (VUn (USProd c) id e) (fun i j => nmul c (F i j))
| vden_ssum c id e F : vden e F -> vden (VUn (USSum c) id e) (fun i j => nadd c (F i j))
| vden_fun f f' id e F : vden e F -> vden (VUn (UFun f f') id e) (fun i j => f (F i j))
| vden_sprode s vs id e F : vden e F -> vden (VUn (USProdE s vs) id e) (fun i j => nmul (e_val rho s 0) (F i j))
| vden_ssume s vs id e F : vden e F -> vden (VUn (USSumE s vs) id e) (fun i j => nadd (e_val rho s 0) (F i j))
| vden_inv g id e F : vden e F -> vden (VUn (UInv g) id e) (inverse g (vrows G e) F)
| vden_determinant g d id e F : vden e F -> vden (VUn (UDet g d) id e) (fun _ _ => d (vrows G e) (row_major (vrows G e) F)).

(** ... and derivative of entry (l, k) by entry (i, j) of x. *)
Variable x : obj.
Inductive vdif : vexp T -> (nat -> nat -> T) -> (nat -> nat -> nat -> nat -> T) -> Prop :=
| vdif_plain e F D : dif G rho x e F D -> vdif (VE e) F D
| vdif_vec id a F D : vdif a F D ->
    vdif (VVec id a) (fun i _ => F (i / vcols G a) (i mod vcols G a)) (fun l _ i j => D (l / vcols G a) (l mod vcols G a) i j)
| vdif_sum id l r F D F' D' : vdif l F D -> vdif r F' D' ->
    vdif (VBin BSum id l r) (fun i j => nadd (F i j) (F' i j)) (fun l k i j => nadd (D l k i j) (D' l k i j))
| vdif_sub id l r F D F' D' : vdif l F D -> vdif r F' D' ->
    vdif (VBin BSub id l r) (fun i j => nsub (F i j) (F' i j)) (fun l k i j => nsub (D l k i j) (D' l k i j))
| vdif_had id l r F D F' D' : vdif l F D -> vdif r F' D' ->
    vdif (VBin BHad id l r) (fun i j => nmul (F i j) (F' i j))
      (fun l k i j => nadd (nmul (D l k i j) (F' l k)) (nmul (F l k) (D' l k i j)))
| vdif_prod id l r F D F' D' : vdif l F D -> vdif r F' D' ->
    vdif (VBin BProd id l r) (fun i j => sum_n (vcols G l) (fun a => nmul (F i a) (F' a j)))
      (fun q k i j => sum_n (vcols G l) (fun a => nadd (nmul (D q a i j) (F' a k)) (nmul (F q a) (D' a k i j))))
| vdif_tr id e F D : vdif e F D -> vdif (VUn UTr id e) (fun i j => F j i) (fun l k i j => D k l i j)
| vdif_sprod c id e F D : vdif e F D -> vdif (VUn (USProd c) id e) (fun i j => nmul c (F i j)) (fun l k i j => nmul c (D l k i j))
| vdif_ssum c id e F D : vdif e F D -> vdif (VUn (USSum c) id e) (fun i j => nadd c (F i j)) D
| vdif_fun f f' id e F D : vdif e F D ->
    vdif (VUn (UFun f f') id e) (fun i j => f (F i j)) (fun l k i j => nmul (f' (F l k)) (D l k i j))
| vdif_sprode s vs id e F D : vdif e F D ->
    vdif (VUn (USProdE s vs) id e) (fun i j => nmul (e_val rho s 0) (F i j))
      (fun l k i j => nadd (nmul (e_der rho s 0 x (i * g_cols G x + j)) (F l k)) (nmul (e_val rho s 0) (D l k i j)))
| vdif_ssume s vs id e F D : vdif e F D ->
    vdif (VUn (USSumE s vs) id e) (fun i j => nadd (e_val rho s 0) (F i j))
      (fun l k i j => nadd (e_der rho s 0 x (i * g_cols G x + j)) (D l k i j))
| vdif_inv g id e F D : vdif e F D ->
    vdif (VUn (UInv g) id e) (inverse g (vrows G e) F)
      (fun l k i j => nmul nm1 (sum_n (vrows G e) (fun b =>
         nmul (sum_n (vrows G e) (fun a => nmul (inverse g (vrows G e) F l a) (D a b i j))) (inverse g (vrows G e) F b k))))
| vdif_determinant g d id e F D : vdif e F D ->
    vdif (VUn (UDet g d) id e) (fun _ _ => d (vrows G e) (row_major (vrows G e) F))
      (fun _ _ i j => sum_n (vrows G e) (fun b => sum_n (vrows G e) (fun a =>
         nmul (nmul (d (vrows G e) (row_major (vrows G e) F)) (inverse g (vrows G e) F b a)) (D a b i j)))).
End Spec.
