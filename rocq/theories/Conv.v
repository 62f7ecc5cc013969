(** * Convolution (model)

    Simplifications: size_t is unbounded, so a kernel larger than the padded input (where
    the C++ subtraction wraps around) is [Undefined]; the casts to int in the ASSERTs are
    comparisons with zero. *)

From Coq Require Import List Arith Bool Lia.
From Verif Require Import Num MatMem Kernels KernelFacts KernelProofs KernelBlocks Registry KernelStep Backend Slots Exec.
Import ListNotations.
Set Implicit Arguments.
Unset Strict Implicit.

Section Conv.
Context {T : Type} {N : Num T}.
Notation mem := (mem T).
Notation M := (M T).
Notation "x <- c ;; k" := (bind c (fun x => k)) (at level 61, c at next level, right associativity).
Notation "c ;;; k" := (bind c (fun _ => k)) (at level 61, right associativity).
Variable S : sched T.
Variable B : backend (T := T).

(** The handler's static scratch array mp_arr (MatConvNaiveHandler.hpp:33-34): it survives
    from one call to the next. *)
Definition scratch : Type := nat -> option ptr.

(** Output size, MatConvNaiveHandler.hpp:61-68. *)
Definition conv_out (n pad k stride : nat) : nat := (n + 2 * pad - k) / stride + 1.

(** The kernel calls for output cell (i,j), MatConvNaiveHandler.hpp:88-97. *)
Definition conv_cell (sx sy cr cc : nat) (rhs : ptr) (i j : nat) : list (instr T nat) :=
  [ (1, KBlock (i * sx) (i * sx + cr - 1) (j * sy) (j * sy + cc - 1) (OSlot 0));
    (2, KHad (OSlot 1) (OPtr rhs));
    (3, KMul (OOnes 1 cr) (OSlot 2));
    (4, KMul (OSlot 3) (OOnes cc 1)) ].
(** MatConvNaiveHandler.hpp:79-101. *)
Fixpoint conv_loop (sx sy cr cc : nat) (rhs result : ptr) (cells : list (nat * nat)) (arr : scratch) : M scratch :=
  match cells with
  | [] => ret arr
  | (i, j) :: cs =>
      for_each [1; 2; 3; 4] (fun k => reset_zero (arr k)) ;;;
      arr' <- run Nat.eq_dec S B (conv_cell sx sy cr cc rhs i j) arr ;;
      match arr' 4 with Some p => setBlockMat S result (i, i) (j, j) p | None => fun _ => Undefined end ;;;
      conv_loop sx sy cr cc rhs result cs arr'
  end.
(** MatConvNaiveHandler::handle, MatConvNaiveHandler.hpp:41-101. *)
Definition MatConvNaive (sx sy px py : nat) (lhs rhs : ptr) (arr : scratch) (result : option ptr) : M (ptr * scratch) :=
  assert ((0 <? sx) && (0 <? sy)) ;;;
  lo <- deref lhs ;; ro <- deref rhs ;;
  assert (space_eqb (o_space lo) (o_space ro)) ;;;
  if (o_rows lo + 2 * px <? o_rows ro) || (o_cols lo + 2 * py <? o_cols ro) then fun _ => Undefined else
  p0 <- pad S lhs px py (arr 0) ;;
  let rows := conv_out (o_rows lo) px (o_rows ro) sx in
  let cols := conv_out (o_cols lo) py (o_cols ro) sy in
  r <- pool (o_space ro) result rows cols ;;
  arr' <- conv_loop sx sy (o_rows ro) (o_cols ro) rhs r (list_prod (seq 0 rows) (seq 0 cols)) (sset Nat.eq_dec arr 0 p0) ;;
  ret (r, arr').

(** MatConvEigenHandler::handle, MatConvEigenHandler.hpp:60-113, with EigenConvolve2D (31-52).
    Eigen's order of summation is not modelled. *)
Definition MatConvEigen (sx sy px py : nat) (lhs rhs : ptr) (padbuf : option ptr) (result : option ptr) : M (ptr * ptr) :=
  assert ((0 <? sx) && (0 <? sy)) ;;;
  lo <- deref lhs ;; ro <- deref rhs ;;
  assert (space_eqb (o_space lo) (o_space ro)) ;;;
  reset_zero padbuf ;;;
  if (o_rows lo + 2 * px <? o_rows ro) || (o_cols lo + 2 * py <? o_cols ro) then fun _ => Undefined else
  p0 <- pad S lhs px py padbuf ;;
  r <- pool (o_space ro) result (conv_out (o_rows lo) px (o_rows ro) sx) (conv_out (o_cols lo) py (o_cols ro) sy) ;;
  assign r (fun m i j => sum_n (o_rows ro) (fun k => sum_n (o_cols ro) (fun l =>
    nmul (val m p0 (i * sx + k) (j * sy + l)) (val m rhs k l)))) ;;;
  ret (r, p0).

(** The derivative handler's loop body, MatDervConvNaiveHandler.hpp:88-122. *)
Definition derv_conv_cell (xr xc sx sy cr cc : nat) (rhs drhs : ptr) (i j : nat) : list (instr T nat) :=
  [ (2, KBlock (i * sx) (i * sx + cr - 1) (j * sy) (j * sy + cc - 1) (OSlot 1));
    (3, KBlock (i * sx * xr) (i * sx * xr + xr * cr - 1) (j * sy * xc) (j * sy * xc + xc * cc - 1) (OSlot 0));
    (4, KKron (OSlot 2) (OOnes xr xc));
    (5, KKron (OPtr rhs) (OOnes xr xc));
    (6, KHad (OSlot 4) (OPtr drhs));
    (7, KHad (OSlot 3) (OSlot 5));
    (8, KAdd (OSlot 6) (OSlot 7));
    (9, KKron (OOnes 1 cr) (OEye xr));
    (10, KKron (OOnes cc 1) (OEye xc));
    (11, KMul (OSlot 9) (OSlot 8));
    (12, KMul (OSlot 11) (OSlot 10)) ].
(** MatDervConvNaiveHandler.hpp:80-130. *)
Fixpoint derv_conv_loop (xr xc sx sy cr cc : nat) (rhs drhs result : ptr) (cells : list (nat * nat)) (arr : scratch) : M scratch :=
  match cells with
  | [] => ret arr
  | (i, j) :: cs =>
      for_each [2; 3; 4; 5; 6; 7; 8; 9; 10; 11; 12] (fun k => reset_zero (arr k)) ;;;
      arr' <- run Nat.eq_dec S B (derv_conv_cell xr xc sx sy cr cc rhs drhs i j) arr ;;
      match arr' 12 with
      | Some p => setBlockMat S result (i * xr, (i + 1) * xr - 1) (j * xc, (j + 1) * xc - 1) p
      | None => fun _ => Undefined
      end ;;;
      derv_conv_loop xr xc sx sy cr cc rhs drhs result cs arr'
  end.
(** MatDervConvNaiveHandler::handle, MatDervConvNaiveHandler.hpp:46-132. *)
Definition MatDervConvNaive (xr xc sx sy px py : nat) (lhs dlhs rhs drhs : ptr) (arr : scratch) (result : option ptr) : M (ptr * scratch) :=
  assert ((0 <? sx) && (0 <? sy)) ;;;
  lo <- deref lhs ;; ro <- deref rhs ;; dlo <- deref dlhs ;; dro <- deref drhs ;;
  assert (space_eqb (o_space lo) (o_space ro) && space_eqb (o_space ro) (o_space dlo) && space_eqb (o_space dlo) (o_space dro)) ;;;
  if (o_rows lo + 2 * px <? o_rows ro) || (o_cols lo + 2 * py <? o_cols ro) then fun _ => Undefined else
  p0 <- pad S dlhs (px * xr) (py * xc) (arr 0) ;;
  p1 <- pad S lhs px py (arr 1) ;;
  let rows := conv_out (o_rows lo) px (o_rows ro) sx in
  let cols := conv_out (o_cols lo) py (o_cols ro) sy in
  r <- pool (o_space ro) result (rows * xr) (cols * xc) ;;
  arr' <- derv_conv_loop xr xc sx sy (o_rows ro) (o_cols ro) rhs drhs r (list_prod (seq 0 rows) (seq 0 cols))
            (sset Nat.eq_dec (sset Nat.eq_dec arr 0 p0) 1 p1) ;;
  ret (r, arr').

(** ** Specification *)
(** The input surrounded by pr rows and pc columns of zeros on each side. *)
Definition padded (v : mat T) (pr pc : nat) : mat T :=
  Mat (mr v + 2 * pr) (mc v + 2 * pc) (fun i j =>
    if (pr <=? i) && (i <? pr + mr v) && (pc <=? j) && (j <? pc + mc v) then mf v (i - pr) (j - pc) else n0).
(** Cross-correlation with strides: output (i,j) is the sum over the window of the padded
    input at (i*sx, j*sy) of its products with the kernel. *)
Definition convolution (sx sy px py : nat) (x k : mat T) : mat T :=
  Mat (conv_out (mr x) px (mr k) sx) (conv_out (mc x) py (mc k) sy) (fun i j =>
    sum_n (mr k) (fun a => sum_n (mc k) (fun b => nmul (mf (padded x px py) (i * sx + a) (j * sy + b)) (mf k a b)))).
End Conv.
