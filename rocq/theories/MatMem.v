(** * Matrices in memory

    Matrix<Type> objects live in a memory and are addressed by pointers, so that kernels
    can be given a result pointer that is null, stale, or one of their own operands.

    Simplifications: size_t is an unbounded natural number; an object owns exactly one
    buffer (mp_allocator, MatrixConstructors.ipp:71-84); ASSERT is active
    (USE_DYNAMIC_ASSERTIONS, CommonHeader.hpp:273-300) and stops the computation
    ([Rejected]); touching memory outside a buffer or through a dangling pointer is
    [Undefined]. *)

From Coq Require Import List Arith Bool Lia Permutation.
From Verif Require Import Num.
Import ListNotations.
Set Implicit Arguments.

Inductive res (A : Type) : Type :=
| Ok (a : A)
| Rejected                      (* an ASSERT failed, CommonHeader.hpp:289-300 *)
| Undefined.                    (* undefined behaviour *)
Arguments Rejected {A}.
Arguments Undefined {A}.

(** [list_set l k x] is [l] with element [k] replaced. *)
Fixpoint list_set {A} (l : list A) (k : nat) (x : A) : list A :=
  match l, k with
  | [], _ => []
  | _ :: l', 0 => x :: l'
  | y :: l', S k' => y :: list_set l' k' x
  end.

Section Mem.
Context {T : Type} {N : Num T}.

(** Allocation strategy of a matrix (CPUMemoryStrategy.hpp, GPUPinnedMemoryStrategy.hpp). *)
Inductive space : Set := CPU | GPU.
Definition space_eqb (a b : space) : bool :=
  match a, b with CPU, CPU => true | GPU, GPU => true | _, _ => false end.

(** Matrix.hpp:98-125: m_nidx, allocator kind, m_rows, m_cols and the allocator's buffer. *)
Record mobj : Type := MkObj { o_nidx : nat; o_space : space; o_rows : nat; o_cols : nat; o_buf : list T }.

(** The registries of special matrices (function-local statics of MatrixBasics.cpp:29-113),
    keyed by kind, allocator and size. *)
Inductive special : Set := KEye | KZeros | KOnes.
Definition registry : Set := list ((special * space * nat * nat) * nat).

(** All Matrix<Type> objects ever created (MemoryManager keeps them alive until exit,
    MemoryManager.hpp:36-42), the global counter m_idx_count, and what uninitialised
    pinned memory happens to contain (for the matrix numbered k, at position l), and the
    special-matrix registries.  None is a matrix whose buffer was given back by deallocator()
    (Matrix.hpp:216-222) and is null: nothing of it is read any more in the model (its m_rows and
    m_cols could be, in the program). *)
Record mem : Type := MkMem { objs : list (option mobj); next : nat; junk : nat -> nat -> T;
  specials : registry }.
Definition ptr := nat.

Definition get (m : mem) (p : ptr) : option mobj := match nth_error (objs m) p with Some o => o | None => None end.
Definition put (m : mem) (p : ptr) (o : mobj) : mem := MkMem (list_set (objs m) p (Some o)) (next m) (junk m) (specials m).

Definition M (A : Type) : Type := mem -> res (A * mem).
Definition ret {A} (a : A) : M A := fun m => Ok (a, m).
Definition bind {A B} (c : M A) (k : A -> M B) : M B :=
  fun m => match c m with Ok (a, m') => k a m' | Rejected => Rejected | Undefined => Undefined end.
Definition assert (b : bool) : M unit := fun m => if b then Ok (tt, m) else Rejected.

(** Dereferencing a pointer. *)
Definition deref (p : ptr) : M mobj :=
  fun m => match get m p with Some o => Ok (o, m) | None => Undefined end.

(** getMatrixPtr()[k], MatrixAccessors.ipp:51-77. *)
Definition raw (p : ptr) (k : nat) : M T :=
  fun m => match get m p with
           | Some o => match nth_error (o_buf o) k with Some x => Ok (x, m) | None => Undefined end
           | None => Undefined
           end.
Definition rawset (p : ptr) (k : nat) (x : T) : M unit :=
  fun m => match get m p with
           | Some o => if k <? length (o_buf o)
                       then Ok (tt, put m p (MkObj (o_nidx o) (o_space o) (o_rows o) (o_cols o) (list_set (o_buf o) k x)))
                       else Undefined
           | None => Undefined
           end.

(** operator()(i,j), MatrixAccessors.ipp:107-121. *)
Definition at2 (p : ptr) (i j : nat) : M T :=
  bind (deref p) (fun o =>
  bind (assert (i <? o_rows o)) (fun _ =>
  bind (assert (j <? o_cols o)) (fun _ =>
  raw p (i * o_cols o + j)))).
Definition set2 (p : ptr) (i j : nat) (x : T) : M unit :=
  bind (deref p) (fun o =>
  bind (assert (i <? o_rows o)) (fun _ =>
  bind (assert (j <? o_cols o)) (fun _ =>
  rawset p (i * o_cols o + j) x))).

(** operator[](l), MatrixAccessors.ipp:123-135. *)
Definition at1 (p : ptr) (l : nat) : M T :=
  bind (deref p) (fun o => bind (assert (l <? o_rows o * o_cols o)) (fun _ => raw p l)).
Definition set1 (p : ptr) (l : nat) (x : T) : M unit :=
  bind (deref p) (fun o => bind (assert (l <? o_rows o * o_cols o)) (fun _ => rawset p l x)).

(** Contents of a new buffer: filled when a value is given (MatrixConstructors.ipp:63-67),
    value-initialised on the CPU (CPUMemoryStrategy.hpp:36-40, new T[N]{}), and not
    initialised at all on the GPU (GPUPinnedMemoryStrategy.hpp:37-41, cudaMallocHost). *)
Definition new_buf (sp : space) (n : nat) (fill : option T) (j : nat -> T) : list T :=
  match fill, sp with
  | Some v, _ => repeat v n
  | None, CPU => repeat n0 n
  | None, GPU => map j (seq 0 n)
  end.

(** Matrix(rows, cols[, val], alloc_type), MatrixConstructors.ipp:63-84. *)
Definition new_mat (sp : space) (rows cols : nat) (fill : option T) : M ptr :=
  bind (assert ((0 <? rows) && (0 <? cols))) (fun _ m =>
    Ok (length (objs m),
        MkMem (objs m ++ [Some (MkObj (next m) sp rows cols (new_buf sp (rows * cols) fill (junk m (next m))))])
              (S (next m)) (junk m) (specials m))).

(** Matrix::reshape, MatrixUtils.ipp:217-222. *)
Definition reshape (p : ptr) (rows cols : nat) : M unit :=
  bind (deref p) (fun o =>
  bind (assert (rows * cols =? o_rows o * o_cols o)) (fun _ m =>
    Ok (tt, put m p (MkObj (o_nidx o) (o_space o) rows cols (o_buf o))))).

(** MemoryManager::MatrixPool, MemoryManager.hpp:50-69. *)
Definition pool_with (fill : option T) (sp : space) (r : option ptr) (rows cols : nat) : M ptr :=
  match r with
  | None => new_mat sp rows cols fill
  | Some p =>
      bind (deref p) (fun o =>
      if rows * cols =? o_rows o * o_cols o then bind (reshape p rows cols) (fun _ => ret p)
      else if negb ((rows =? o_rows o) && (cols =? o_cols o)) then new_mat sp rows cols fill
      else ret p)
  end.
Definition pool := pool_with None.

(** std::for_each over a list of indices.  With USE_CXX_PARALLEL_POLICY the iterations
    of a loop marked EXECUTION_PAR run in an arbitrary order (CommonHeader.hpp:49-57);
    a schedule is any function that reorders the index list. *)
Fixpoint for_each {I : Type} (l : list I) (body : I -> M unit) : M unit :=
  match l with
  | [] => ret tt
  | i :: l' => bind (body i) (fun _ => for_each l' body)
  end.

Definition sched : Type := mem -> forall I : Set, list I -> list I.
Definition valid_sched (S : sched) : Prop := forall m (I : Set) (l : list I), Permutation (S m I l) l.
Definition in_order : sched := fun _ _ l => l.

Definition par_each (S : sched) {I : Set} (l : list I) (body : I -> M unit) : M unit :=
  fun m => for_each (S m I l) body m.

(** A loop nest whose two loops are both parallel: any order of the index pairs. *)
Definition par_each2 (S : sched) {I J : Set} (l1 : list I) (l2 : list J) (body : I -> J -> M unit) : M unit :=
  par_each S (list_prod l1 l2) (fun ij => body (fst ij) (snd ij)).

(** ResetZero, MetaMatrix.cpp:29-41 (std::fill of the whole buffer). *)
Definition reset_zero (r : option ptr) : M unit :=
  match r with
  | None => ret tt
  | Some p => bind (deref p) (fun o m =>
      Ok (tt, put m p (MkObj (o_nidx o) (o_space o) (o_rows o) (o_cols o) (repeat n0 (length (o_buf o))))))
  end.

(** ** Observations, used in specifications *)
(** The object behind p is a rows x cols matrix with that many elements. *)
Definition is_mat (m : mem) (p : ptr) (rows cols : nat) : Prop :=
  exists k sp b, get m p = Some (MkObj k sp rows cols b) /\ length b = rows * cols.
(** Element in row i, column j (row major). *)
Definition val (m : mem) (p : ptr) (i j : nat) : T :=
  match get m p with Some o => nth (i * o_cols o + j) (o_buf o) n0 | None => n0 end.
Definition num_elem (m : mem) (p : ptr) : nat :=
  match get m p with Some o => o_rows o * o_cols o | None => 0 end.
Definition space_of (m : mem) (p : ptr) : space := match get m p with Some o => o_space o | None => CPU end.
Definition name (m : mem) (p : ptr) : nat := match get m p with Some o => o_nidx o | None => 0 end.

(** Every object owns rows*cols elements, at least one, and was numbered by the counter. *)
Definition good (m : mem) : Prop :=
  forall p o, get m p = Some o ->
    0 < o_rows o /\ 0 < o_cols o /\ length (o_buf o) = o_rows o * o_cols o /\ o_nidx o < next m.
(** A result pointer: null or an existing matrix. *)
Definition res_ok (m : mem) (r : option ptr) : Prop :=
  match r with None => True | Some p => exists o, get m p = Some o end.

(** Matrices keep their numbers; at most one matrix was created, with the next number. *)
Definition numbered (m m' : mem) : Prop :=
  (forall q, q < length (objs m) -> name m' q = name m q) /\
  ((length (objs m') = length (objs m) /\ next m' = next m) \/
   (length (objs m') = S (length (objs m)) /\ next m' = S (next m) /\ name m' (length (objs m)) = next m)).

(** [stored m m' r p R C F]: a kernel called with result pointer r on memory m ended in
    memory m' with its result in p, an R x C matrix with entries F; p is r itself
    whenever r's element count was R*C and a new matrix otherwise; nothing else changed. *)
Definition stored (m m' : mem) (r : option ptr) (p : ptr) (R C : nat) (F : nat -> nat -> T) : Prop :=
  is_mat m' p R C /\
  (forall i j, i < R -> j < C -> val m' p i j = F i j) /\
  match r with
  | Some q => if num_elem m q =? R * C then p = q else p = length (objs m)
  | None => p = length (objs m)
  end /\
  (forall q, q <> p -> get m' q = get m q) /\
  specials m' = specials m /\ numbered m m' /\ good m'.

End Mem.
Arguments mem : clear implicits.
Arguments mobj : clear implicits.
Arguments M : clear implicits.
Arguments sched : clear implicits.
