(** * Matrix expressions with several items: F = e0; F = F + e1; ...

    Matrix<Expression>::operator= appends to m_gh_vec when the right-hand side mentions the matrix itself
    (Matrix.hpp:208-240, findMe: MatrixUtils.ipp); eval, devalF and reset run through all items.
    MatEngine.v has the first item only. *)
From Coq Require Import List Arith Bool Lia.
From Verif Require Import Num MatMem Kernels Registry Backend Slots Exec MatEngine.
Import ListNotations.
Set Implicit Arguments.
Unset Strict Implicit.
Local Open Scope nat_scope.

Section Rec.
Context {T : Type} {N : Num T}.
Variable S : sched T.
Variable B : backend (T := T).
Variable G : graph T.
(** m_gh_vec[1..] of every named matrix: node number of the product with the unit matrix, expression,
    unit matrix. *)
Variable more : obj -> list (nat * mexp T * obj).
Variable rho : env T.
Notation st := (st (T := T)).
Notation "x <- c ;; k" := (ebind c (fun x => k)) (at level 61, c at next level, right associativity).

(** findMe: is the matrix v itself an operand (MatrixUtils.ipp:183-189, CommonHeader.hpp:104-154 and the findMe of the
    operators, e.g. GenericMatSum.hpp:80-82). Named operands are compared, their definitions are not searched. *)
Fixpoint find_me (v : obj) (e : mexp T) : bool :=
  match e with MLeaf o => o =? v | MBin _ _ l r => find_me v l || find_me v r | MUn _ _ a => find_me v a end.
(** operator=, Matrix.hpp:208-240: m_gh_vec after v = a. The flags that it clears, and the results that it
    releases, belong to a matrix that is assigned to after an evaluation; this is not modelled. *)
Definition assign (v : obj) (items : list (nat * mexp T * obj)) (m : nat * mexp T * obj) : list (nat * mexp T * obj) :=
  (if find_me v (snd (fst m)) then items else []) ++ [m].
(** std::for_each over m_gh_vec, MatrixVirtuals.ipp:46-53: mp_result and m_eval are set after every item.
    m_rows and m_cols are also set after every item; this is left out: the theorems are about items of one shape. *)
Fixpoint each_eval (o : obj) (run : mexp T -> E ptr) (l : list (nat * mexp T * obj)) : E (T := T) unit :=
  match l with
  | [] => eret tt
  | (id, a, y) :: t => p <- run (item id a y) ;; _ <- setf o (set_res p) ;; each_eval o run t
  end.
(** MatrixVirtuals.ipp:28-59; operators as in MatEngine.eval. *)
Fixpoint xeval (fuel : nat) (e : mexp T) : E ptr :=
  match fuel with
  | 0 => fun _ => ENoFuel
  | Datatypes.S n =>
    match e with
    | MLeaf o =>
        match g_kind G o with
        | KExp id a y =>
            f <- getf o ;;
            _ <- (if f_vis f then eret tt else
                    (_ <- setf o (fun f => set_vis (set_eval f)) ;;
                     each_eval o (xeval n) ((id, a, y) :: more o))) ;;
            f <- getf o ;; nonnull (f_res f)
        | _ => eval_leaf G rho o
        end
    | MBin k id l r =>
        _ <- eassert (verify G k l r) ;;
        p <- xeval n l ;; q <- xeval n r ;;
        _ <- unalias id 0 1 [p; q] ;;
        _ <- exec S B (bin_eval k id p q) ;;
        slot (ONode id 0)
    | MUn k id a =>
        _ <- eassert (un_verify G k a) ;;
        p <- xeval n a ;;
        _ <- unalias id 0 (eval_last k) [p] ;;
        _ <- exec S B (un_eval rho k id p) ;;
        slot (ONode id 0)
    end
  end.

(** MatrixVirtuals.ipp:84-95: the derivative of the item first, then its value. *)
Fixpoint each_devalF (o : obj) (rund rune : mexp T -> E ptr) (l : list (nat * mexp T * obj)) : E (T := T) unit :=
  match l with
  | [] => eret tt
  | (id, a, y) :: t =>
      dp <- rund (item id a y) ;; _ <- setf o (set_dres dp) ;;
      p <- rune (item id a y) ;; _ <- setf o (set_res p) ;;
      each_devalF o rund rune t
  end.
(** MatrixVirtuals.ipp:62-100; operators as in MatEngine.devalF. *)
Fixpoint xdevalF (fuel : nat) (x : obj) (e : mexp T) : E ptr :=
  match fuel with
  | 0 => fun _ => ENoFuel
  | Datatypes.S n =>
    let xr := g_rows G x in let xc := g_cols G x in
    match e with
    | MLeaf o =>
        match g_kind G o with
        | KExp id a y =>
            f <- getf o ;;
            _ <- (if f_vis f then eret tt else
                    (_ <- setf o (fun f => set_vis (set_dev f)) ;;
                     each_devalF o (xdevalF n x) (xeval n) ((id, a, y) :: more o))) ;;
            f <- getf o ;; nonnull (f_dres f)
        | _ => devalF_leaf S G rho x o
        end
    | MBin k id l r =>
        _ <- eassert (verify G k l r) ;;
        dp <- xdevalF n x l ;; dq <- xdevalF n x r ;;
        match k with
        | BSum | BSub =>
            _ <- unalias id 1 2 [dp; dq] ;;
            _ <- exec S B (sum_dev k id dp dq) ;;
            slot (ONode id 1)
        | _ =>
            p <- xeval n l ;; q <- xeval n r ;;
            _ <- unalias id 1 6 [dp; dq; p; q] ;;
            _ <- exec S B (prod_dev k id xr xc dp dq p q) ;;
            slot (ONode id 1)
        end
    | MUn (USSum _) _ a => xdevalF n x a
    | MUn (USSumE s _) id a =>
        dp <- xdevalF n x a ;;
        _ <- unalias id 0 9 [dp] ;;
        _ <- exec S B (ssum_dev G rho s id x (rows G a) (cols G a) dp) ;;
        slot (ONode id 1)
    | MUn (USProdE s _) id a =>
        dp <- xdevalF n x a ;; p <- xeval n a ;;
        _ <- unalias id 0 13 [dp; p] ;;
        _ <- exec S B (sprod_dev G rho s id x (rows G a) (cols G a) dp p) ;;
        slot (ONode id 1)
    | MUn (UFun _ f') id a =>
        dp <- xdevalF n x a ;; p <- xeval n a ;;
        _ <- unalias id 1 4 [dp; p] ;;
        _ <- exec S B (fun_dev f' id xr xc dp p) ;;
        slot (ONode id 3)
    | MUn (UInv g) id a =>
        _ <- eassert (un_verify G (UInv g) a) ;;
        dp <- xdevalF n x a ;; p <- xeval n a ;;
        _ <- unalias id 0 16 [dp; p] ;;
        _ <- exec S B (inv_dev g id xr xc dp p) ;;
        slot (ONode id 6)
    | MUn (UDet g d) id a =>
        _ <- eassert (un_verify G (UDet g d) a) ;;
        dp <- xdevalF n x a ;; p <- xeval n a ;;
        _ <- unalias id 1 11 [dp; p] ;;
        _ <- exec S B (det_dev g d id xr xc (rows G a) dp p) ;;
        slot (ONode id 8)
    | MUn (USProd c) id a =>
        dp <- xdevalF n x a ;;
        _ <- unalias id 0 5 [dp] ;;
        _ <- exec S B (lin_dev (USProd c) id xr xc (rows G a) (cols G a) dp) ;;
        slot (ONode id 1)
    | MUn UTr id a =>
        dp <- xdevalF n x a ;;
        _ <- unalias id 1 2 [dp] ;;
        _ <- exec S B (lin_dev UTr id xr xc (rows G a) (cols G a) dp) ;;
        slot (ONode id 1)
    end
  end.

(** MatrixVirtuals.ipp:133-155: all items are reset. *)
Fixpoint each_reset (run : mexp T -> E (T := T) unit) (l : list (nat * mexp T * obj)) : E (T := T) unit :=
  match l with [] => eret tt | (id, a, y) :: t => _ <- run (item id a y) ;; each_reset run t end.
Fixpoint xreset (fuel : nat) (e : mexp T) : E unit :=
  match fuel with
  | 0 => fun _ => ENoFuel
  | Datatypes.S n =>
    match e with
    | MLeaf o =>
        f <- getf o ;;
        if f_vis f then
          _ <- setf o clear ;;
          match g_kind G o with KExp id a y => each_reset (xreset n) ((id, a, y) :: more o) | _ => eret tt end
        else eret tt
    | MBin _ _ l r => _ <- xreset n l ;; xreset n r
    | MUn _ _ a => xreset n a
    end
  end.
(** CommonMatFunctions.hpp:46-77. *)
Definition XEval (fuel : nat) (e : mexp T) : E ptr := _ <- xreset fuel e ;; xeval fuel e.
Definition XDevalF (fuel : nat) (e : mexp T) (x : obj) : E ptr := _ <- xreset fuel e ;; xdevalF fuel x e.
End Rec.
