(** * Symbolic differentiation in the scalar engine

    Model of symEval and symDeval of src/Scalar/{Variable,Parameter}.cpp and of the operators in
    include/Scalar/{BinaryOps,UnaryOps}, and of SymDiff (Expression.cpp:59-63,
    CommonFunctions.cpp:72-75).

    Simplifications, beyond those of ScalarModel.v and ScalarUser.v:
    - C++ leaves the order open in which the operands of an overloaded operator are evaluated;
      it is an arbitrary choice [lr], made for every pair of operands of a formula;
    - all EVAL/DEVAL calls of a formula are made before its operator nodes are built (the
      interleaving only affects which fresh index is used). *)

From Coq Require Import List Arith Bool.
From Verif Require Import Num ScalarModel ScalarSpec ScalarReset ScalarUser.
Import ListNotations.
Open Scope num_scope.

Section Sym.
Context {T : Type} {N : Num T}.
Notation heap := (heap T).
Notation op := (op T).
Notation term := (term (T := T)).

(** EVAL_L, EVAL_R, DEVAL_L, DEVAL_R (CommonHeader.hpp:96-101).  The operand of a unary node
    is [SL]. *)
Inductive side : Set := SL | SR.
Inductive form : Type :=
| FE (s : side)
| FD (s : side)
| FU (k : uop T) (f : form)
| FB (k : bop T) (a b : form).

(** c - f and f - c for a number c (GenericSub.hpp:221-233). *)
Definition csub (c : T) (f : form) : form := FU (USumC c) (FU (UProdC nm1) f).
Definition subc (f : form) (c : T) : form := FU (USumC (nm1 * c)) f.
Definition fn (f : ufun) (a : form) : form := FU (UFun f) a.

(** symEval of nodes with one operand: GenericSin.hpp:57 ... GenericLog.hpp:57,
    GenericProduct.hpp:250, GenericSum.hpp:243, GenericDiv.hpp:260, GenericPow.hpp:257, 411;
    custom operators: ASSERT(false), GenericScalarUnary.hpp:40-43, GenericScalarBinary.hpp:161, 249. *)
Definition sym_val1 (k : uop T) : option form :=
  match k with
  | UFun f => Some (fn f (FE SL))
  | UProdC c => Some (FU (UProdC c) (FE SL))
  | USumC c => Some (FU (USumC c) (FE SL))
  | UDivC c => Some (FU (UDivC n1) (FE SL))
  | UPowCL c => Some (FU (UPowCL c) (FE SL))
  | UPowCR c => Some (FU (UPowCR c) (FE SL))
  | UCust _ _ | UCustL _ _ _ | UCustR _ _ _ => None
  end.
(** GenericSum.hpp:60, GenericSub.hpp:60, GenericProduct.hpp:59, GenericDiv.hpp:60,
    GenericPow.hpp:60; GenericScalarBinary.hpp:42-45. *)
Definition sym_val2 (k : bop T) : option form :=
  match k with
  | BSum => Some (FB BSum (FE SL) (FE SR))
  | BSub => Some (FB BSub (FE SL) (FE SR))
  | BProd => Some (FB BProd (FE SR) (FE SL))
  | BDiv => Some (FB BDiv (FE SL) (FE SR))
  | BPow => Some (FB BPow (FE SL) (FE SR))
  | BCust _ _ _ => None
  end.

(** The factor in symDeval of the <cmath> functions (GenericSin.hpp:67 ... GenericLog.hpp:67,
    GenericASinh.hpp:66). *)
Definition sym_fun (f : ufun) : form :=
  match f with
  | FSin => fn FCos (FE SL)                                                                (* GenericSin.hpp:55-71 *)
  | FCos => FU (UProdC nm1) (fn FSin (FE SL))                                              (* GenericCos.hpp:55-71 *)
  | FTan => FU (USumC n1) (FB BProd (fn FTan (FE SL)) (fn FTan (FE SL)))                   (* GenericTan.hpp:55-71 *)
  | FSinh => fn FCosh (FE SL)                                                              (* GenericSinh.hpp:55-71 *)
  | FCosh => fn FSinh (FE SL)                                                              (* GenericCosh.hpp:55-71 *)
  | FTanh => csub n1 (FB BProd (fn FTanh (FE SL)) (fn FTanh (FE SL)))                      (* GenericTanh.hpp:55-71 *)
  | FASin => FU (UDivC n1) (fn FSqrt (csub n1 (FB BProd (FE SL) (FE SL))))                 (* GenericASin.hpp:55-71 *)
  | FACos => FU (UDivC nm1) (fn FSqrt (csub n1 (FB BProd (FE SL) (FE SL))))                (* GenericACos.hpp:55-71 *)
  | FATan => FU (UDivC n1) (FU (USumC n1) (FB BProd (FE SL) (FE SL)))                      (* GenericATan.hpp:55-71 *)
  | FASinh => FU (UDivC n1) (fn FSqrt (FU (USumC n1) (FB BProd (FE SL) (FE SL))))          (* GenericASinh.hpp:54-70 *)
  | FACosh => FU (UDivC n1) (fn FSqrt (subc (FB BProd (FE SL) (FE SL)) n1))                (* GenericACosh.hpp:55-71 *)
  | FATanh => FU (UDivC nm1) (subc (FB BProd (FE SL) (FE SL)) n1)                          (* GenericATanh.hpp:55-71 *)
  | FSqrt => FU (UDivC nhalf) (fn FSqrt (FE SL))                                           (* GenericSqrt.hpp:55-71 *)
  | FExp => fn FExp (FE SL)                                                                (* GenericExp.hpp:55-71 *)
  | FLog => FU (UDivC n1) (FE SL)                                                          (* GenericLog.hpp:55-71 *)
  end.
(** symDeval: GenericProduct.hpp:260, GenericSum.hpp:253, GenericDiv.hpp:270,
    GenericPow.hpp:267, 421. *)
Definition sym_der1 (k : uop T) : option form :=
  match k with
  | UFun f => Some (FB BProd (sym_fun f) (FD SL))
  | UProdC c => Some (FU (UProdC c) (FD SL))
  | USumC _ => Some (FD SL)
  | UDivC c => Some (FB BDiv (FU (UProdC nm1) (FU (UProdC c) (FD SL))) (FB BProd (FE SL) (FE SL)))
  | UPowCL c => Some (FU (UProdC (nfun FLog c)) (FB BProd (FU (UPowCL c) (FE SL)) (FD SL)))
  | UPowCR c => Some (FB BProd (FU (UProdC c) (FU (UPowCR (c - n1)) (FE SL))) (FD SL))
  | UCust _ _ | UCustL _ _ _ | UCustR _ _ _ => None
  end.
(** GenericSum.hpp:70, GenericSub.hpp:70, GenericProduct.hpp:69, GenericDiv.hpp:70,
    GenericPow.hpp:70; GenericScalarBinary.hpp:46-49. *)
Definition sym_der2 (k : bop T) : option form :=
  match k with
  | BSum => Some (FB BSum (FD SL) (FD SR))
  | BSub => Some (FB BSub (FD SL) (FD SR))
  | BProd => Some (FB BSum (FB BProd (FD SL) (FE SR)) (FB BProd (FD SR) (FE SL)))
  | BDiv => Some (FB BDiv (FB BSub (FB BProd (FE SR) (FD SL)) (FB BProd (FE SL) (FD SR)))
                          (FB BProd (FE SR) (FE SR)))
  | BPow => Some (FB BProd (FB BPow (FE SL) (FE SR))
                    (FB BSum (FB BProd (FB BDiv (FE SR) (FE SL)) (FD SL)) (FB BProd (FD SR) (fn FLog (FE SL)))))
  | BCust _ _ _ => None
  end.

(** mp_dtmp.find and mp_dtmp[k] = t. *)
Fixpoint mfind (l : list (nat * nat)) (k : nat) : option nat :=
  match l with [] => None | (j, t) :: l' => if Nat.eqb k j then Some t else mfind l' k end.
Fixpoint mput (l : list (nat * nat)) (k t : nat) : list (nat * nat) :=
  match l with
  | [] => [(k, t)]
  | (j, u) :: l' => if Nat.eqb k j then (k, t) :: l' else (j, u) :: mput l' k t
  end.
Definition setm (h : heap) (id : nat) (m : memo) : heap := mkHeap (cells h) (upd (memos h) id m) (next h).
(** mp_tmp = t. *)
Definition set_tmp (id t : nat) (h : heap) : heap := setm h id (mkMemo (Some t) (m_dtmp (memos h id))).
(** mp_dtmp[k] = t. *)
Definition set_dtmp (id k t : nat) (h : heap) : heap :=
  setm h id (mkMemo (m_tmp (memos h id)) (mput (m_dtmp (memos h id)) k t)).

(** Allocate<Expression>(term) (Expression.hpp:44-52). *)
Definition alloc_exp (t : term) (h : heap) : nat * heap :=
  let (o, n) := build t (next h) in new_exp (wrap o) n h.
(** Allocate<Variable>(x) (Variable.cpp:44-53). *)
Definition alloc_var (x : T) (h : heap) : nat * heap :=
  (next h, bump (S (next h)) (setc h (next h) (fresh_cell x []))).

Variable lr : form -> bool.

(** Evaluate the EVAL and DEVAL calls of a formula; the result is the term the overloaded
    operators are applied to. *)
Section Gather.
Variable rE rD : side -> heap -> option (nat * heap).
Fixpoint gather (f : form) (h : heap) : option (term * heap) :=
  match f with
  | FE s => do (v, h1) <- rE s h; Some (TRef v, h1)
  | FD s => do (v, h1) <- rD s h; Some (TRef v, h1)
  | FU k a => do (t, h1) <- gather a h; Some (TUn k t, h1)
  | FB k a b =>
      if lr f then
        do (t, h1) <- gather a h; do (u, h2) <- gather b h1; Some (TBin k t u, h2)
      else
        do (u, h1) <- gather b h; do (t, h2) <- gather a h1; Some (TBin k t u, h2)
  end.
End Gather.

(** symEval: Variable.cpp:184-186, Parameter.cpp:92-94, and the operators, which keep the
    result in mp_tmp (e.g. GenericProduct.hpp:56-63). *)
Fixpoint symEval_op (o : op) (h : heap) : option (nat * heap) :=
  match o with
  | Leaf v => Some (match m_tmp (memos h v) with Some t => t | None => v end, h)
  | Par _ tv => Some (tv, h)
  | Un k id e =>
      match m_tmp (memos h id) with
      | Some t => Some (t, h)
      | None =>
          do f <- sym_val1 k;
          do (t, h1) <- gather (fun _ => symEval_op e) (fun _ _ => None) f h;
          let (x, h2) := alloc_exp t h1 in Some (x, set_tmp id x h2)
      end
  | Bin k id l r =>
      match m_tmp (memos h id) with
      | Some t => Some (t, h)
      | None =>
          do f <- sym_val2 k;
          do (t, h1) <- gather (fun s => match s with SL => symEval_op l | SR => symEval_op r end) (fun _ _ => None) f h;
          let (x, h2) := alloc_exp t h1 in Some (x, set_tmp id x h2)
      end
  end.

Section SymD.
Variable x : nat.                                    (* m_nidx of the variable *)
Variable sd : nat -> heap -> option (nat * heap).    (* Variable::symDeval on a leaf *)
(** symDeval: Parameter.cpp:97-100 (the static variable t0 has index 1), and the operators, which
    keep the result in mp_dtmp (e.g. GenericProduct.hpp:66-73). *)
Fixpoint symDeval_op (o : op) (h : heap) : option (nat * heap) :=
  match o with
  | Leaf v => sd v h
  | Par _ _ => Some (1, h)
  | Un k id e =>
      match mfind (m_dtmp (memos h id)) x with
      | Some t => Some (t, h)
      | None =>
          do f <- sym_der1 k;
          do (t, h1) <- gather (fun _ => symEval_op e) (fun _ => symDeval_op e) f h;
          let (d, h2) := alloc_exp t h1 in Some (d, set_dtmp id x d h2)
      end
  | Bin k id l r =>
      match mfind (m_dtmp (memos h id)) x with
      | Some t => Some (t, h)
      | None =>
          do f <- sym_der2 k;
          do (t, h1) <- gather (fun s => match s with SL => symEval_op l | SR => symEval_op r end)
                               (fun s => match s with SL => symDeval_op l | SR => symDeval_op r end) f h;
          let (d, h2) := alloc_exp t h1 in Some (d, set_dtmp id x d h2)
      end
  end.
End SymD.

(** Variable::symDeval (Variable.cpp:189-218); the static variable t1 has index 0. *)
Fixpoint symDeval_var (fuel : nat) (x v : nat) (h : heap) : option (nat * heap) :=
  match fuel with
  | O => None
  | S f =>
      let h0 := match mfind (m_dtmp (memos h v)) v with
                | Some _ => h
                | None => let (t, h1) := alloc_var n0 h in set_dtmp v v t h1
                end in
      do h1 <- (if c_vis (cells h0 v) then Some h0
                else
                  do h2 <- each (fun o a =>
                             do (d, a1) <- symDeval_op x (symDeval_var f x) o a;
                             do (e, a2) <- symEval_op o (set_dtmp v v d a1);
                             Some (set_tmp v e a2)) (c_items (cells h0 v)) (modc (set_vis true) v h0);
                  Some (modc (set_vis false) v h2));
      if Nat.eqb v x then Some (0, h1)
      else do d <- mfind (m_dtmp (memos h1 v)) v; Some (d, h1)
  end.

(** Expression::SymDiff (Expression.cpp:59-63), Variable::SymDiff (Variable.cpp:221-224). *)
Definition SymDiff (fuel : nat) (r x : nat) (h : heap) : option (nat * heap) :=
  let (d, h1) := new_exp (fun n => ([Leaf 1], n)) (next h) h in
  do h2 <- reset_impl fuel r h1;
  do (t, h3) <- symDeval_var fuel x r h2;
  let (l, n) := wrap (Leaf t) (next h3) in
  Some (d, bump n (modc (set_items l) d h3)).
End Sym.
