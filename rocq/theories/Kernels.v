(** * Matrix kernels (naive CPU backend), accessors and special matrices

    Loops marked EXECUTION_PAR take a schedule (see MatMem.v); every loop body performs
    its reads before its single write, so an iteration is one atomic step. *)

From Coq Require Import List Arith Bool Lia Permutation.
From Verif Require Import Num MatMem.
Import ListNotations.
Set Implicit Arguments.

Section Kernels.
Context {T : Type} {N : Num T}.
Notation mem := (mem T).
Notation M := (M T).
Notation sched := (sched T).
Notation "x <- c ;; k" := (bind c (fun x => k)) (at level 61, c at next level, right associativity).
Notation "c ;;; k" := (bind c (fun _ => k)) (at level 61, right associativity).
Variable S : sched.

(** Common shape of MatAdd/MatSub/MatHadamardNaiveHandler::handle. *)
Definition elementwise (op : T -> T -> T) (lhs rhs : ptr) (result : option ptr) : M ptr :=
  lo <- deref lhs ;;
  ro <- deref rhs ;;
  assert ((o_rows lo =? o_rows ro) && (o_cols ro =? o_cols lo)) ;;;
  assert (space_eqb (o_space lo) (o_space ro)) ;;;
  p <- pool (o_space ro) result (o_rows lo) (o_cols ro) ;;
  par_each S (seq 0 (o_rows lo * o_cols ro)) (fun n =>
    a <- raw lhs n ;; b <- raw rhs n ;; rawset p n (op a b)) ;;;
  ret p.
(** MatAddNaiveHandler.hpp:31-60. *)
Definition MatAdd := elementwise nadd.
(** MatSubNaiveHandler.hpp:26-57. *)
Definition MatSub := elementwise nsub.
(** MatHadamardNaiveHandler.hpp:31-61. *)
Definition MatHadamard := elementwise nmul.

(** Common shape of MatScalarAdd/MatScalarMul/MatUnaryNaiveHandler::handle. *)
Definition elementwise1 (op : T -> T) (rhs : ptr) (result : option ptr) : M ptr :=
  ro <- deref rhs ;;
  p <- pool (o_space ro) result (o_rows ro) (o_cols ro) ;;
  par_each S (seq 0 (o_rows ro * o_cols ro)) (fun n => a <- raw rhs n ;; rawset p n (op a)) ;;;
  ret p.
(** MatScalarAddNaiveHandler.hpp:29-48. *)
Definition MatScalarAdd (c : T) := elementwise1 (fun v => nadd c v).
(** MatScalarMulNaiveHandler.hpp:31-50. *)
Definition MatScalarMul (c : T) := elementwise1 (fun v => nmul c v).
(** MatUnaryNaiveHandler.hpp:31-50. *)
Definition MatUnary (rhs : ptr) (func : T -> T) := elementwise1 func rhs.

(** MatMulNaiveHandler.hpp:31-81 (MATRIX_TRANSPOSED_MUL is deprecated and off).  The
    inner accumulation is EXECUTION_SEQ. *)
Fixpoint inner_product (lhs rhs : ptr) (i j : nat) (ms : list nat) (tmp : T) : M T :=
  match ms with
  | [] => ret tmp
  | m :: ms' => a <- at2 lhs i m ;; b <- at2 rhs m j ;; inner_product lhs rhs i j ms' (nadd tmp (nmul a b))
  end.
Definition MatMul (lhs rhs : ptr) (result : option ptr) : M ptr :=
  lo <- deref lhs ;;
  ro <- deref rhs ;;
  assert (o_cols lo =? o_rows ro) ;;;
  assert (space_eqb (o_space lo) (o_space ro)) ;;;
  p <- pool (o_space ro) result (o_rows lo) (o_cols ro) ;;
  po <- deref p ;;
  assert (negb (o_nidx lo =? o_nidx po)) ;;;
  assert (negb (o_nidx ro =? o_nidx po)) ;;;
  par_each S (seq 0 (o_rows lo * o_cols ro)) (fun n =>
    let j := n mod o_cols ro in
    let i := (n - j) / o_cols ro in
    tmp <- inner_product lhs rhs i j (seq 0 (o_rows ro)) n0 ;;
    set2 p i j tmp) ;;;
  ret p.

(** MatKronNaiveHandler.hpp:31-67. *)
Definition MatKron (lhs rhs : ptr) (result : option ptr) : M ptr :=
  lo <- deref lhs ;;
  ro <- deref rhs ;;
  assert (space_eqb (o_space lo) (o_space ro)) ;;;
  p <- pool (o_space ro) result (o_rows lo * o_rows ro) (o_cols lo * o_cols ro) ;;
  par_each2 S (seq 0 (o_rows lo * o_cols lo)) (seq 0 (o_rows ro * o_cols ro)) (fun n1 n2 =>
    let j := n1 mod o_cols lo in
    let i := (n1 - j) / o_cols lo in
    v <- at2 lhs i j ;;
    if neqb v n0 then ret tt
    else
      let m := n2 mod o_cols ro in
      let l := (n2 - m) / o_cols ro in
      b <- at2 rhs l m ;;
      set2 p (i * o_rows ro + l) (j * o_cols ro + m) (nmul b v)) ;;;
  ret p.

(** MatTransposeNaiveHandler.hpp:31-53 (real Type: no conjugation). *)
Definition MatTranspose (rhs : ptr) (result : option ptr) : M ptr :=
  ro <- deref rhs ;;
  p <- pool (o_space ro) result (o_cols ro) (o_rows ro) ;;
  par_each S (seq 0 (o_rows ro * o_cols ro)) (fun n =>
    let j := n mod o_cols ro in
    let i := (n - j) / o_cols ro in
    a <- at2 rhs i j ;;
    set2 p j i a) ;;;
  ret p.

(** MatDervTransposeNaiveHandler.hpp:30-66. *)
Definition MatDervTranspose (nrows_f ncols_f nrows_x ncols_x : nat) (rhs : ptr) (result : option ptr) : M ptr :=
  ro <- deref rhs ;;
  p <- pool (o_space ro) result (ncols_f * nrows_x) (nrows_f * ncols_x) ;;
  par_each2 S (seq 0 (ncols_f * nrows_f)) (seq 0 (ncols_x * nrows_x)) (fun n1 n2 =>
    let j := n1 mod ncols_f in
    let i := (n1 - j) / ncols_f in
    let m := n2 mod ncols_x in
    let l := (n2 - m) / ncols_x in
    a <- at2 rhs (l + i * nrows_x) (m + j * ncols_x) ;;
    set2 p (l + j * nrows_x) (m + i * ncols_x) a) ;;;
  ret p.

(** MatTraceNaiveHandler.hpp:31-54, executed in one thread: the loop body
    [tmp = tmp + rhs(n,n)] runs once per n in the order of the schedule. *)
Fixpoint trace_loop (rhs : ptr) (ns : list nat) (tmp : T) : M T :=
  match ns with
  | [] => ret tmp
  | n :: ns' => a <- at2 rhs n n ;; trace_loop rhs ns' (nadd tmp a)
  end.
Definition MatTrace (rhs : ptr) (result : option ptr) : M ptr :=
  ro <- deref rhs ;;
  assert (o_rows ro =? o_cols ro) ;;;
  p <- pool (o_space ro) result 1 1 ;;
  tmp <- (fun m => trace_loop rhs (S m (seq 0 (o_rows ro))) n0 m) ;;
  set1 p 0 tmp ;;;
  ret p.

(** ** Rows, columns, blocks, padding *)

(** Matrix::getRow, MatrixAccessors.ipp:144-160 (the new matrix uses the default, CPU, allocator). *)
Definition getRow (p : ptr) (i : nat) : M ptr :=
  o <- deref p ;;
  assert (i <? o_rows o) ;;;
  t <- new_mat CPU (o_cols o) 1 None ;;
  par_each S (seq 0 (o_cols o)) (fun k => a <- raw p (i * o_cols o + k) ;; rawset t k a) ;;;
  ret t.

(** Matrix::getColumn, MatrixAccessors.ipp:162-198.  The lambda's local i shadows the argument. *)
Definition getColumn (p : ptr) (i : nat) : M ptr :=
  o <- deref p ;;
  assert (i <? o_cols o) ;;;
  t <- new_mat CPU (o_rows o) 1 None ;;
  par_each S (seq 0 (o_rows o)) (fun n =>
    let j := n mod o_cols o in
    let i := (n - j) / o_cols o in
    a <- raw p (j * o_rows o + i) ;;
    rawset t j a) ;;;
  ret t.

(** Matrix::getBlockMat, MatrixUtils.ipp:26-52. *)
Definition getBlockMat (p : ptr) (rows cols : nat * nat) (result : option ptr) : M ptr :=
  o <- deref p ;;
  assert (fst rows <? o_rows o) ;;;
  assert (snd rows <? o_rows o) ;;;
  assert (fst cols <? o_cols o) ;;;
  assert (snd cols <? o_cols o) ;;;
  assert (fst rows <=? snd rows) ;;;
  assert (fst cols <=? snd cols) ;;;
  r <- pool (o_space o) result (snd rows - fst rows + 1) (snd cols - fst cols + 1) ;;
  par_each2 S (seq (fst rows) (snd rows + 1 - fst rows)) (seq (fst cols) (snd cols + 1 - fst cols)) (fun i j =>
    a <- at2 p i j ;; set2 r (i - fst rows) (j - fst cols) a) ;;;
  ret r.

(** Matrix::setBlockMat, MatrixUtils.ipp:54-83. *)
Definition setBlockMat (p : ptr) (rows cols : nat * nat) (src : ptr) : M unit :=
  o <- deref p ;;
  assert (fst rows <? o_rows o) ;;;
  assert (snd rows <? o_rows o) ;;;
  assert (fst cols <? o_cols o) ;;;
  assert (snd cols <? o_cols o) ;;;
  assert (fst rows <=? snd rows) ;;;
  assert (fst cols <=? snd cols) ;;;
  so <- deref src ;;
  assert (snd rows - fst rows + 1 =? o_rows so) ;;;
  assert (snd cols - fst cols + 1 =? o_cols so) ;;;
  par_each2 S (seq (fst rows) (snd rows + 1 - fst rows)) (seq (fst cols) (snd cols + 1 - fst cols)) (fun i j =>
    a <- at2 src (i - fst rows) (j - fst cols) ;; set2 p i j a).

(** Matrix::pad, MatrixUtils.ipp:85-91. *)
Definition pad (p : ptr) (r c : nat) (result : option ptr) : M ptr :=
  o <- deref p ;;
  q <- pool (o_space o) result (o_rows o + 2 * r) (o_cols o + 2 * c) ;;
  setBlockMat q (r, r + o_rows o - 1) (c, c + o_cols o - 1) p ;;;
  ret q.

(** ** Special matrices *)
Definition key_eqb (a b : special * space * nat * nat) : bool :=
  match a, b with
  | (k1, s1, n1, m1), (k2, s2, n2, m2) =>
      match k1, k2 with KEye, KEye => true | KZeros, KZeros => true | KOnes, KOnes => true | _, _ => false end
      && space_eqb s1 s2 && (n1 =? n2) && (m1 =? m2)
  end.
Fixpoint find_special (k : special * space * nat * nat) (r : registry) : option ptr :=
  match r with
  | [] => None
  | (k', p) :: r' => if key_eqb k k' then Some p else find_special k r'
  end.
Definition lookup_special (k : special * space * nat * nat) : M (option ptr) :=
  fun m => Ok (find_special k (specials m), m).
Definition register_special (k : special * space * nat * nat) (p : ptr) : M unit :=
  fun m => Ok (tt, MkMem (objs m) (next m) (junk m) ((k, p) :: specials m)).

(** Eye, MatrixBasics.cpp:29-55. *)
Definition Eye (sp : space) (n : nat) : M ptr :=
  it <- lookup_special (KEye, sp, n, n) ;;
  match it with
  | Some p => ret p
  | None =>
      p <- pool sp None n n ;;
      par_each S (seq 0 n) (fun i => set2 p i i n1) ;;;
      register_special (KEye, sp, n, n) p ;;; ret p
  end.
(** Zeros, MatrixBasics.cpp:61-81. *)
Definition Zeros (sp : space) (n m : nat) : M ptr :=
  it <- lookup_special (KZeros, sp, n, m) ;;
  match it with
  | Some p => ret p
  | None => p <- pool sp None n m ;; register_special (KZeros, sp, n, m) p ;;; ret p
  end.
(** Ones, MatrixBasics.cpp:93-113. *)
Definition Ones (sp : space) (n m : nat) : M ptr :=
  it <- lookup_special (KOnes, sp, n, m) ;;
  match it with
  | Some p => ret p
  | None => p <- pool_with (Some n1) sp None n m ;; register_special (KOnes, sp, n, m) p ;;; ret p
  end.

End Kernels.
