(** * The matrix expression engine: eval, devalF, reset

    Matrix<T> objects (leaves and named expressions) and the operator nodes between them.

    Simplifications, beyond those of MatMem.v:
    - All matrices use the CPU allocator.
    - A Matrix<Expression> built from an expression has exactly one item in m_gh_vec
      (several items, F = F + ..., are modelled in MatRec.v), so its dimensions are fixed
      when it is built.
    - A scalar operand of a matrix product or sum is evaluated and differentiated by the
      scalar engine (TensorR1::Eval, PreComp, DevalR; ScalarModel.v and ScalarMat.v); here its
      value and its derivatives are part of the environment.
    - The user-visible entries of leaf matrices (mp_mat) are kept in an environment; only
      results, derivatives and scratch matrices live in the memory of MatMem.v.  Scalar
      evaluation of entries (CoolDiff::TensorR1::Eval, DevalR) is the environment's
      job; it is modelled in ScalarModel.v.
    - Recursion carries fuel; running out is a separate outcome, and the theorems show
      that it does not happen once there is enough fuel.
    - A null mp_result/mp_dresult is dereferenced by every caller, so returning it is
      undefined behaviour here. *)

From Coq Require Import List Arith Bool Lia.
From Verif Require Import Num MatMem Kernels KernelFacts KernelProofs KernelBlocks Registry KernelStep Backend Square Slots Exec.
Import ListNotations.
Set Implicit Arguments.
Unset Strict Implicit.

(** Matrix<T> objects and operator nodes are named by numbers. *)
Definition obj := nat.

(** Places that own a pointer to a Matrix<Type>: slot k of an operator's mp_arr, and
    mp_result / mp_dresult of a leaf matrix (Matrix.hpp:128-131). *)
Inductive owner : Set := ONode (id k : nat) | ORes (o : obj) | ODres (o : obj).
Definition owner_eq (a b : owner) : {a = b} + {a <> b}.
Proof. decide equality; apply Nat.eq_dec. Defined.

Section Syntax.
Context {T : Type}.
(** GenericMatSum, GenericMatSub, GenericMatProduct, GenericMatHadamard. *)
Inductive bop : Type := BSum | BSub | BProd | BHad.
(** GenericMatTranspose, GenericMatScalarProduct, GenericMatScalarSum and the classes made
    by UNARY_MATRIX_OPERATOR (function and derivative); GenericMatInv and GenericMatDet,
    which carry the Eigen routines g (inverse) and d (determinant) of Square.v.
    GenericMatScalarProductExp and GenericMatScalarSumExp, whose left operand s is a scalar
    Expression, Variable or Parameter: s stands for its value e_val s 0 and its derivatives
    e_der s 0, and vs lists the variables that occur in it (1x1 objects, see g_vid). *)
Inductive uop : Type := USProdE (s : obj) (vs : list obj) | USSumE (s : obj) (vs : list obj) | UTr | USProd (c : T) | USSum (c : T) | UFun (f f' : T -> T)
| UInv (g : nat -> list T -> list T) | UDet (g : nat -> list T -> list T) (d : nat -> list T -> T).
(** Expressions: objects are shared, operator nodes are not (operators clone their
    operands, cloneExp in MatOperators and e.g. GenericMatProduct.hpp:88-91). *)
Inductive mexp : Type :=
| MLeaf (o : obj)
| MBin (k : bop) (id : nat) (l r : mexp)
| MUn (k : uop) (id : nat) (e : mexp).
(** Matrix<Type>/Matrix<Parameter>, an Eye matrix, Matrix<Variable>, Matrix<Expression>
    with explicit entries, and Matrix<Expression> built from expression e: node id is the
    product e * Eye(columns) that the constructor pushes (Matrix.hpp:193-213). *)
Inductive kind : Type := LConst | LEye | LVar | LEnt | KExp (id : nat) (e : mexp) (y : obj).

(** The static part of the object graph: kinds, dimensions, m_nidx of the matrix and of
    the entries of a Matrix<Variable>. *)
Record graph : Type := Graph {
  g_kind : obj -> kind; g_rows : obj -> nat; g_cols : obj -> nat;
  g_nidx : obj -> nat; g_vid : obj -> nat -> nat }.
(** Current entries of the leaf matrices, and derivatives of the entries of a
    Matrix<Expression> by the entries of a Matrix<Variable> (row-major positions). *)
Record env : Type := Env { e_val : obj -> nat -> T; e_der : obj -> nat -> obj -> nat -> T }.

Fixpoint nodes (e : mexp) : list nat :=
  match e with MLeaf _ => [] | MBin _ id l r => id :: nodes l ++ nodes r | MUn _ id a => id :: nodes a end.
Fixpoint leaves (e : mexp) : list obj :=
  match e with MLeaf o => [o] | MBin _ _ l r => leaves l ++ leaves r | MUn _ _ a => leaves a end.
End Syntax.
Arguments uop : clear implicits.
Arguments mexp : clear implicits.
Arguments kind : clear implicits.
Arguments graph : clear implicits.
Arguments env : clear implicits.

(** The item held by an object, m_gh_vec[0]. *)
Definition item {T} (id : nat) (e : mexp T) (y : obj) : mexp T := MBin BProd id e (MLeaf y).

Section Engine.
Context {T : Type} {N : Num T}.
Variable S : sched T.
Variable B : backend (T := T).
Variable G : graph T.

(** Matrix.hpp:106-131: m_visited (MetaMatrix.hpp), m_eval, m_devalf, and mp_result,
    mp_dresult of a named expression (they alias a slot of its item). *)
Record flags : Type := Fl { f_vis : bool; f_eval : bool; f_dev : bool; f_res : option ptr; f_dres : option ptr }.
Record st : Type := St { mm : mem T; ar : owner -> option ptr; fl : obj -> flags }.

Inductive eres (A : Type) : Type := EOk (a : A) | ERejected | EUndef | ENoFuel.
Arguments ERejected {A}.
Arguments EUndef {A}.
Arguments ENoFuel {A}.
Definition E (A : Type) : Type := st -> eres (A * st).
Definition eret {A} (a : A) : E A := fun s => EOk (a, s).
Definition ebind {A C} (c : E A) (k : A -> E C) : E C :=
  fun s => match c s with EOk (a, s') => k a s' | ERejected => ERejected | EUndef => EUndef | ENoFuel => ENoFuel end.
Notation "x <- c ;; k" := (ebind c (fun x => k)) (at level 61, c at next level, right associativity).
Definition eassert (b : bool) : E unit := fun s => if b then EOk (tt, s) else ERejected.
(** A memory operation. *)
Definition lift {A} (c : M T A) : E A := fun s =>
  match c (mm s) with Ok (a, m) => EOk (a, St m (ar s) (fl s)) | Rejected => ERejected | Undefined => EUndef end.
(** A memory operation whose result is stored in the pointer w. *)
Definition lift_to (w : owner) (c : M T ptr) : E ptr := fun s =>
  match c (mm s) with Ok (p, m) => EOk (p, St m (sset owner_eq (ar s) w p) (fl s)) | Rejected => ERejected | Undefined => EUndef end.
Definition setf (o : obj) (f : flags -> flags) : E unit := fun s =>
  EOk (tt, St (mm s) (ar s) (fun o' => if o' =? o then f (fl s o') else fl s o')).
Definition getf (o : obj) : E flags := fun s => EOk (fl s o, s).
Definition nonnull (r : option ptr) : E ptr := match r with Some p => eret p | None => fun _ => EUndef end.
(** A sequence of kernel calls on the operator's scratch slots. *)
Definition exec (prog : list (instr T owner)) : E unit := fun s =>
  match run owner_eq S B prog (ar s) (mm s) with Ok (a, m) => EOk (tt, St m a (fl s)) | Rejected => ERejected | Undefined => EUndef end.
Definition slot (w : owner) : E ptr := fun s => match ar s w with Some p => EOk (p, s) | None => EUndef end.

Definition set_vis f := Fl true (f_eval f) (f_dev f) (f_res f) (f_dres f).
Definition set_eval f := Fl (f_vis f) true (f_dev f) (f_res f) (f_dres f).
Definition set_dev f := Fl (f_vis f) (f_eval f) true (f_res f) (f_dres f).
Definition set_res p f := Fl (f_vis f) true (f_dev f) (Some p) (f_dres f).
Definition set_dres p f := Fl (f_vis f) (f_eval f) true (f_res f) (Some p).
Definition clear f := Fl false false false (f_res f) (f_dres f).

(** getNumRows / getNumColumns of the operators and of Matrix<T>. *)
Fixpoint rows (e : mexp T) : nat :=
  match e with
  | MLeaf o => g_rows G o
  | MBin _ _ l _ => rows l
  | MUn UTr _ a => cols a
  | MUn (UDet _ _) _ _ => 1
  | MUn _ _ a => rows a
  end
with cols (e : mexp T) : nat :=
  match e with
  | MLeaf o => g_cols G o
  | MBin _ _ _ r => cols r
  | MUn UTr _ a => rows a
  | MUn (UDet _ _) _ _ => 1
  | MUn _ _ a => cols a
  end.
(** verifyDim of the binary operators (GenericMatSum.hpp:41-52, GenericMatProduct.hpp:42-49). *)
Definition verify (k : bop) (l r : mexp T) : bool :=
  match k with
  | BProd => cols l =? rows r
  | _ => (rows l =? rows r) && (cols l =? cols r)
  end.

(** verifyDim of GenericMatInv and GenericMatDet (GenericMatInv.hpp:40-47, GenericMatDet.hpp:40-47);
    the other unary operators check nothing. *)
Definition un_verify (k : uop T) (a : mexp T) : bool :=
  match k with UInv _ | UDet _ _ => rows a =? cols a | _ => true end.

(** "Reset function" of every eval/devalF: own slots first..last-1 that alias one of the
    operands are set to null before the kernels run (e.g. GenericMatProduct.hpp:101-109). *)
Definition aliased (s : st) (id : nat) (ps : list ptr) (k : nat) : bool :=
  match ar s (ONode id k) with Some q => existsb (Nat.eqb q) ps | None => false end.
Definition unalias (id first last : nat) (ps : list ptr) : E unit := fun s =>
  if existsb (aliased s id ps) (seq first (last - first)) then
    EOk (tt, St (mm s) (fun w => match w with
                                 | ONode id' k => if (id' =? id) && (first <=? k) && (k <? last) && aliased s id ps k then None else ar s w
                                 | _ => ar s w end) (fl s))
  else EOk (tt, s).

(** *** Kernel sequences of the operators *)
(** Evaluation: GenericMatSum.hpp:95-120, GenericMatSub.hpp:95-118, GenericMatProduct.hpp:93-115,
    GenericMatHadamard.hpp:96-118. *)
Definition bin_eval (k : bop) (id : nat) (l r : ptr) : list (instr T owner) :=
  [(ONode id 0, match k with
                | BSum => KAdd (OPtr l) (OPtr r) | BSub => KSub (OPtr l) (OPtr r)
                | BProd => KMul (OPtr l) (OPtr r) | BHad => KHad (OPtr l) (OPtr r) end)].
(** Derivative of sums: GenericMatSum.hpp:122-144, GenericMatSub.hpp:120-142. *)
Definition sum_dev (k : bop) (id : nat) (dl dr : ptr) : list (instr T owner) :=
  [(ONode id 1, match k with BSub => KSub (OPtr dl) (OPtr dr) | _ => KAdd (OPtr dl) (OPtr dr) end)].
(** Derivative of products: GenericMatProduct.hpp:118-159, GenericMatHadamard.hpp:120-159. *)
Definition prod_dev (k : bop) (id xr xc : nat) (dl dr l r : ptr) : list (instr T owner) :=
  match k with
  | BHad =>
      [(ONode id 4, KKron (OPtr l) (OOnes xr xc)); (ONode id 5, KKron (OPtr r) (OOnes xr xc));
       (ONode id 2, KHad (OSlot (ONode id 4)) (OPtr dr)); (ONode id 3, KHad (OPtr dl) (OSlot (ONode id 5)));
       (ONode id 1, KAdd (OSlot (ONode id 2)) (OSlot (ONode id 3)))]
  | _ =>
      [(ONode id 4, KKron (OPtr l) (OEye xr)); (ONode id 5, KKron (OPtr r) (OEye xc));
       (ONode id 2, KMul (OSlot (ONode id 4)) (OPtr dr)); (ONode id 3, KMul (OPtr dl) (OSlot (ONode id 5)));
       (ONode id 1, KAdd (OSlot (ONode id 2)) (OSlot (ONode id 3)))]
  end.
Variable rho : env T.
(** GenericMatTranspose.hpp:80-99, GenericMatUnary.hpp:44-51, GenericMatSum.hpp:376-394,
    GenericMatProduct.hpp:407-424, GenericMatInv.hpp:90-108, GenericMatDet.hpp:90-111, and with
    a scalar expression GenericMatSum.hpp:575-592, GenericMatProduct.hpp:616-633. *)
Definition un_eval (k : uop T) (id : nat) (a : ptr) : list (instr T owner) :=
  [(ONode id 0, match k with
                | USProdE s _ => KSMul (e_val rho s 0) (OPtr a) | USSumE s _ => KSAdd (e_val rho s 0) (OPtr a)
                | UTr => KTr (OPtr a) | USProd c => KSMul c (OPtr a) | USSum c => KSAdd c (OPtr a) | UFun f _ => KMap f (OPtr a)
                | UInv g => KInv g (OPtr a) | UDet _ d => KDet d (OPtr a) end)].
(** GenericMatTranspose.hpp:101-122, GenericMatProduct.hpp:426-440. *)
Definition lin_dev (k : uop T) (id xr xc fr fc : nat) (da : ptr) : list (instr T owner) :=
  [(ONode id 1, match k with USProd c => KSMul c (OPtr da) | _ => KDtr fr fc xr xc (OPtr da) end)].
(** GenericMatUnary.hpp:52-68. *)
Definition fun_dev (f' : T -> T) (id xr xc : nat) (da a : ptr) : list (instr T owner) :=
  [(ONode id 1, KMap f' (OPtr a)); (ONode id 2, KKron (OSlot (ONode id 1)) (OOnes xr xc));
   (ONode id 3, KHad (OSlot (ONode id 2)) (OPtr da))].
(** GenericMatInv.hpp:126-142. *)
Definition inv_dev (g : nat -> list T -> list T) (id xr xc : nat) (da a : ptr) : list (instr T owner) :=
  [(ONode id 1, KInv g (OPtr a)); (ONode id 2, KKron (OSlot (ONode id 1)) (OEye xr)); (ONode id 3, KKron (OSlot (ONode id 1)) (OEye xc));
   (ONode id 4, KMul (OSlot (ONode id 2)) (OPtr da)); (ONode id 5, KMul (OSlot (ONode id 4)) (OSlot (ONode id 3)));
   (ONode id 6, KSMul nm1 (OSlot (ONode id 5)))].
(** GenericMatDet.hpp:132-162; n is the number of rows of the operand. *)
Definition det_dev (g : nat -> list T -> list T) (d : nat -> list T -> T) (id xr xc n : nat) (da a : ptr) : list (instr T owner) :=
  [(ONode id 1, KInv g (OPtr a)); (ONode id 2, KTr (OSlot (ONode id 1))); (ONode id 9, KDet d (OPtr a));
   (ONode id 10, KSMulAt (OSlot (ONode id 9)) (OSlot (ONode id 2)));
   (ONode id 3, KKron (OSlot (ONode id 10)) (OOnes xr xc)); (ONode id 4, KHad (OSlot (ONode id 3)) (OPtr da));
   (ONode id 5, KKron (OOnes 1 n) (OEye xr)); (ONode id 6, KKron (OOnes n 1) (OEye xc));
   (ONode id 7, KMul (OSlot (ONode id 5)) (OSlot (ONode id 4))); (ONode id 8, KMul (OSlot (ONode id 7)) (OSlot (ONode id 6)))].
(** GenericMatSum.hpp:595-622: the derivatives of the scalar by the entries of x, for every
    entry of the operand. *)
Definition ssum_dev (s : obj) (id : nat) (x : obj) (fr fc : nat) (da : ptr) : list (instr T owner) :=
  let xr := g_rows G x in let xc := g_cols G x in
  [(ONode id 2, KFill xr xc (e_der rho s 0 x)); (ONode id 3, KKron (OOnes fr fc) (OSlot (ONode id 2)));
   (ONode id 1, KAdd (OSlot (ONode id 3)) (OPtr da))].
(** GenericMatProduct.hpp:636-676. *)
Definition sprod_dev (s : obj) (id : nat) (x : obj) (fr fc : nat) (da a : ptr) : list (instr T owner) :=
  let xr := g_rows G x in let xc := g_cols G x in
  [(ONode id 2, KFill xr xc (e_der rho s 0 x)); (ONode id 5, KKron (OOnes fr fc) (OSlot (ONode id 2)));
   (ONode id 6, KKron (OPtr a) (OOnes xr xc)); (ONode id 4, KSMul (e_val rho s 0) (OPtr da));
   (ONode id 3, KHad (OSlot (ONode id 5)) (OSlot (ONode id 6))); (ONode id 1, KAdd (OSlot (ONode id 4)) (OSlot (ONode id 3)))].
(** The slots the reset function of eval looks at: all 16 in GenericMatInv (GenericMatInv.hpp:97). *)
Definition eval_last (k : uop T) : nat := match k with USProd _ => 5 | USProdE _ _ => 13 | USSumE _ _ => 9 | UInv _ => 16 | _ => 1 end.

(** *** Leaf matrices *)
Definition leaf_entry (o : obj) (n : nat) : T :=
  match g_kind G o with
  | LEye => if n / g_cols G o =? n mod g_cols G o then n1 else n0
  | _ => e_val rho o n
  end.
(** setEval, MatrixUtils.ipp:95-101. *)
Definition set_entries (o : obj) (p : ptr) : M T unit :=
  for_each (seq 0 (g_rows G o * g_cols G o)) (fun n => rawset p n (leaf_entry o n)).
(** Matrix<T>::eval of a leaf, MatrixVirtuals.ipp:28-59. *)
Definition eval_leaf (o : obj) : E ptr :=
  p <- (fun s => lift_to (ORes o) (pool CPU (ar s (ORes o)) (g_rows G o) (g_cols G o)) s) ;;
  f <- getf o ;;
  _ <- (if f_eval f then eret tt else (_ <- lift (set_entries o p) ;; setf o set_eval)) ;;
  _ <- setf o set_vis ;;
  eret p.
(** setDevalF, MatrixUtils.ipp:104-180: entries of a Matrix<Expression>; the identity
    pattern of X by itself (ones only); or a comparison of variable numbers. *)
Definition set_derivs (o x : obj) (p : ptr) : M T unit :=
  let xr := g_rows G x in let xc := g_cols G x in
  match g_kind G o with
  | LVar =>
      if g_nidx G o =? g_nidx G x then
        par_each S (seq 0 (xr * xc)) (fun n =>
          let j := n mod xc in let i := (n - j) / xc in set2 p (i * xr + i) (j * xc + j) n1)
      else
        par_each2 S (seq 0 (g_rows G o * g_cols G o)) (seq 0 (xr * xc)) (fun n' n =>
          let k := n' mod g_cols G o in let l := (n' - k) / g_cols G o in
          let j := n mod xc in let i := (n - j) / xc in
          set2 p (l * xr + i) (k * xc + j)
            (if g_vid G o (l * g_cols G o + k) =? g_vid G x (i * xc + j) then n1 else n0))
  | LEnt =>
      par_each2 S (seq 0 (g_rows G o * g_cols G o)) (seq 0 (xr * xc)) (fun n' n =>
        let k := n' mod g_cols G o in let l := (n' - k) / g_cols G o in
        let j := n mod xc in let i := (n - j) / xc in
        set2 p (l * xr + i) (k * xc + j) (e_der rho o (l * g_cols G o + k) x (i * xc + j)))
  | _ => ret tt
  end.
(** Matrix<T>::devalF of a leaf, MatrixVirtuals.ipp:62-100. *)
Definition devalF_leaf (x o : obj) : E ptr :=
  p <- (fun s => lift_to (ODres o) (pool CPU (ar s (ODres o)) (g_rows G o * g_rows G x) (g_cols G o * g_cols G x)) s) ;;
  f <- getf o ;;
  _ <- (if f_dev f then eret tt else (_ <- lift (set_derivs o x p) ;; setf o set_dev)) ;;
  _ <- setf o set_vis ;;
  eret p.

(** *** The recursive traversals *)
(** eval: MatrixVirtuals.ipp:28-59 for named expressions, and the operators' eval. *)
Fixpoint eval (fuel : nat) (e : mexp T) : E ptr :=
  match fuel with
  | 0 => fun _ => ENoFuel
  | Datatypes.S n =>
    match e with
    | MLeaf o =>
        match g_kind G o with
        | KExp id a y =>
            f <- getf o ;;
            _ <- (if f_vis f then eret tt else
                    (_ <- setf o (fun f => set_vis (set_eval f)) ;;
                     p <- eval n (item id a y) ;;
                     setf o (set_res p))) ;;
            f <- getf o ;; nonnull (f_res f)
        | _ => eval_leaf o
        end
    | MBin k id l r =>
        _ <- eassert (verify k l r) ;;
        p <- eval n l ;; q <- eval n r ;;
        _ <- unalias id 0 1 [p; q] ;;
        _ <- exec (bin_eval k id p q) ;;
        slot (ONode id 0)
    | MUn k id a =>
        _ <- eassert (un_verify k a) ;;
        p <- eval n a ;;
        _ <- unalias id 0 (eval_last k) [p] ;;
        _ <- exec (un_eval k id p) ;;
        slot (ONode id 0)
    end
  end.

(** devalF: MatrixVirtuals.ipp:62-100 for named expressions, and the operators' devalF.
    GenericMatScalarSum also stores the operand's pointer in its own slot 1
    (GenericMatSum.hpp:397-401); nothing in forward mode reads that slot, so the store is
    left out. *)
Fixpoint devalF (fuel : nat) (x : obj) (e : mexp T) : E ptr :=
  match fuel with
  | 0 => fun _ => ENoFuel
  | Datatypes.S n =>
    let xr := g_rows G x in let xc := g_cols G x in
    match e with
    | MLeaf o =>
        match g_kind G o with
        | KExp id a y =>
            f <- getf o ;;
            _ <- (if f_vis f then eret tt else
                    (_ <- setf o (fun f => set_vis (set_dev f)) ;;
                     dp <- devalF n x (item id a y) ;;
                     _ <- setf o (set_dres dp) ;;
                     p <- eval n (item id a y) ;;
                     setf o (set_res p))) ;;
            f <- getf o ;; nonnull (f_dres f)
        | _ => devalF_leaf x o
        end
    | MBin k id l r =>
        _ <- eassert (verify k l r) ;;
        dp <- devalF n x l ;; dq <- devalF n x r ;;
        match k with
        | BSum | BSub =>
            _ <- unalias id 1 2 [dp; dq] ;;
            _ <- exec (sum_dev k id dp dq) ;;
            slot (ONode id 1)
        | _ =>
            p <- eval n l ;; q <- eval n r ;;
            _ <- unalias id 1 6 [dp; dq; p; q] ;;
            _ <- exec (prod_dev k id xr xc dp dq p q) ;;
            slot (ONode id 1)
        end
    | MUn (USSum _) _ a => devalF n x a
    | MUn (USSumE s _) id a =>
        dp <- devalF n x a ;;
        _ <- unalias id 0 9 [dp] ;;
        _ <- exec (ssum_dev s id x (rows a) (cols a) dp) ;;
        slot (ONode id 1)
    | MUn (USProdE s _) id a =>
        dp <- devalF n x a ;; p <- eval n a ;;
        _ <- unalias id 0 13 [dp; p] ;;
        _ <- exec (sprod_dev s id x (rows a) (cols a) dp p) ;;
        slot (ONode id 1)
    | MUn (UFun _ f') id a =>
        dp <- devalF n x a ;; p <- eval n a ;;
        _ <- unalias id 1 4 [dp; p] ;;
        _ <- exec (fun_dev f' id xr xc dp p) ;;
        slot (ONode id 3)
    | MUn (UInv g) id a =>
        _ <- eassert (un_verify (UInv g) a) ;;
        dp <- devalF n x a ;; p <- eval n a ;;
        _ <- unalias id 0 16 [dp; p] ;;
        _ <- exec (inv_dev g id xr xc dp p) ;;
        slot (ONode id 6)
    | MUn (UDet g d) id a =>
        _ <- eassert (un_verify (UDet g d) a) ;;
        dp <- devalF n x a ;; p <- eval n a ;;
        _ <- unalias id 1 11 [dp; p] ;;
        _ <- exec (det_dev g d id xr xc (rows a) dp p) ;;
        slot (ONode id 8)
    | MUn (USProd c) id a =>
        dp <- devalF n x a ;;
        _ <- unalias id 0 5 [dp] ;;
        _ <- exec (lin_dev (USProd c) id xr xc (rows a) (cols a) dp) ;;
        slot (ONode id 1)
    | MUn UTr id a =>
        dp <- devalF n x a ;;
        _ <- unalias id 1 2 [dp] ;;
        _ <- exec (lin_dev UTr id xr xc (rows a) (cols a) dp) ;;
        slot (ONode id 1)
    end
  end.

(** reset: MatrixVirtuals.ipp:133-155; operators always recurse (IMatrix.hpp:76-87). *)
Fixpoint reset (fuel : nat) (e : mexp T) : E unit :=
  match fuel with
  | 0 => fun _ => ENoFuel
  | Datatypes.S n =>
    match e with
    | MLeaf o =>
        f <- getf o ;;
        if f_vis f then
          _ <- setf o clear ;;
          match g_kind G o with KExp id a y => reset n (item id a y) | _ => eret tt end
        else eret tt
    | MBin _ _ l r => _ <- reset n l ;; reset n r
    | MUn _ _ a => reset n a
    end
  end.

(** CommonMatFunctions.hpp:46-77. *)
Definition Eval (fuel : nat) (e : mexp T) : E ptr := _ <- reset fuel e ;; eval fuel e.
Definition DevalF (fuel : nat) (e : mexp T) (x : obj) : E ptr := _ <- reset fuel e ;; devalF fuel x e.
End Engine.
Arguments ERejected {A}.
Arguments EUndef {A}.
Arguments ENoFuel {A}.
