(** * Matrix objects: construction, copy, move, assignment, cloning, destruction

    Model of the object level of Matrix<T>: several matrix objects can share one memory strategy through a
    shared_ptr, a strategy holds a raw pointer to a buffer, and a flag says whether the destructor frees
    the buffer (MatrixConstructors.ipp, MatrixAccessors.ipp, CPUMemoryStrategy.hpp, IMemoryStrategy.hpp).  The
    matrix memory of MatMem.v leaves this level out: there an object owns one buffer for ever.

    Simplifications: matrices of numbers (the copy constructor of a Matrix<Expression> stores a pointer to the original
    instead, MatrixConstructors.ipp:139-142, and is not modelled); CPU strategy; size_t is unbounded; strategies are never
    reused, and their destructor does nothing (CPUMemoryStrategy.hpp:82), so reference counts do not matter; program
    variables that are matrices, and the user's own arrays, are named by numbers.  Evaluation flags and caches
    are in MatEngine.v. *)
From Coq Require Import List Arith Bool Lia.
From Verif Require Import MatMem.
Import ListNotations.
Set Implicit Arguments.
Unset Strict Implicit.

Definition upd {A} (f : nat -> A) (k : nat) (v : A) : nat -> A := fun k' => if k' =? k then v else f k'.

Section MatObj.
Context {T : Type}.
(** The value of T{} (new T[N]{}, CPUMemoryStrategy.hpp:37). *)
Variable zero : T.

(** A pointer into a buffer: buffer and offset; None is nullptr. *)
Definition raw_ptr : Type := option (nat * nat).
(** Buffers: never allocated or freed, allocated by the library with new[], allocated by the user. *)
Inductive buffer : Type := BGone | BLib (l : list T) | BUser (l : list T).
Definition contents (b : buffer) : option (list T) := match b with BGone => None | BLib l => Some l | BUser l => Some l end.
Definition with_contents (b : buffer) (l : list T) : buffer := match b with BGone => BGone | BLib _ => BLib l | BUser _ => BUser l end.

(** Matrix.hpp:106-117: m_rows, m_cols, mp_allocator (None is a null shared_ptr), m_dest. *)
Record object : Type := Obj { rows_ : nat; cols_ : nat; strat_ : option nat; dest_ : bool }.
(** The matrix objects alive, mp_ptr of the strategies (CPUMemoryStrategy.hpp:29), the buffers, the user's arrays. *)
Record world : Type := World { mats : nat -> option object; ptrs : nat -> raw_ptr; n_strats : nat;
  bufs : nat -> buffer; n_bufs : nat; arrays : nat -> option nat }.
Definition start : world := World (fun _ => None) (fun _ => None) 0 (fun _ => BGone) 0 (fun _ => None).

Definition set_mat (w : world) (x : nat) (o : option object) : world :=
  World (upd (mats w) x o) (ptrs w) (n_strats w) (bufs w) (n_bufs w) (arrays w).
Definition set_ptr (w : world) (k : nat) (p : raw_ptr) : world :=
  World (mats w) (upd (ptrs w) k p) (n_strats w) (bufs w) (n_bufs w) (arrays w).
Definition set_buf (w : world) (b : nat) (c : buffer) : world :=
  World (mats w) (ptrs w) (n_strats w) (upd (bufs w) b c) (n_bufs w) (arrays w).

(** std::make_shared<CPUMemoryStrategy<T>>() (Matrix.hpp:77-80). *)
Definition new_strat (w : world) : nat * world :=
  (n_strats w, World (mats w) (upd (ptrs w) (n_strats w) None) (Datatypes.S (n_strats w)) (bufs w) (n_bufs w) (arrays w)).
(** allocate (CPUMemoryStrategy.hpp:35-39); what the strategy pointed to before is not freed. *)
Definition allocate (w : world) (k n : nat) : res world :=
  if 0 <? n then
    Ok (World (mats w) (upd (ptrs w) k (Some (n_bufs w, 0))) (n_strats w) (upd (bufs w) (n_bufs w) (BLib (repeat zero n))) (Datatypes.S (n_bufs w)) (arrays w))
  else Rejected.
(** deallocate (CPUMemoryStrategy.hpp:42-47): delete[] of anything but the start of a live new[] array is undefined. *)
Definition deallocate (w : world) (k : nat) : res world :=
  match ptrs w k with
  | None => Ok w
  | Some (b, off) =>
      match bufs w b, off with
      | BLib _, 0 => Ok (set_ptr (set_buf w b BGone) k None)
      | _, _ => Undefined
      end
  end.
(** getMatrixPtr (MatrixAccessors.ipp:51-58, 70-77). *)
Definition matrix_ptr (w : world) (o : object) : raw_ptr := match strat_ o with None => None | Some k => ptrs w k end.

(** Reading and writing n elements from a pointer on. *)
Definition peek (w : world) (p : raw_ptr) (i : nat) : res T :=
  match p with
  | None => Undefined
  | Some (b, off) => match contents (bufs w b) with
                     | None => Undefined
                     | Some l => match nth_error l (off + i) with Some v => Ok v | None => Undefined end
                     end
  end.
Definition poke (w : world) (p : raw_ptr) (i : nat) (v : T) : res world :=
  match p with
  | None => Undefined
  | Some (b, off) => match contents (bufs w b) with
                     | None => Undefined
                     | Some l => if off + i <? length l then Ok (set_buf w b (with_contents (bufs w b) (list_set l (off + i) v))) else Undefined
                     end
  end.
Definition then_ {A B} (c : res A) (k : A -> res B) : res B :=
  match c with Ok a => k a | Rejected => Rejected | Undefined => Undefined end.
Notation "x <- c ;; k" := (then_ c (fun x => k)) (at level 61, c at next level, right associativity).
Definition check (b : bool) : res unit := if b then Ok tt else Rejected.
(** A program variable that does not exist is not used. *)
Definition alive (w : world) (x : nat) : res object := match mats w x with Some o => Ok o | None => Undefined end.

(** std::copy(src, src + n, dst), element by element from the front; undefined if dst is inside the source range. *)
Fixpoint copy_from (w : world) (src dst : raw_ptr) (i n : nat) : res world :=
  match n with
  | 0 => Ok w
  | Datatypes.S n' => v <- peek w src i ;; w' <- poke w dst i v ;; copy_from w' src dst (Datatypes.S i) n'
  end.
Definition inside (src dst : raw_ptr) (n : nat) : bool :=
  match src, dst with
  | Some (b, o), Some (b', o') => (b =? b') && (o <=? o') && (o' <? o + n)
  | _, _ => false
  end.
Definition std_copy (w : world) (src dst : raw_ptr) (n : nat) : res world :=
  if inside src dst n then Undefined else copy_from w src dst 0 n.
(** std::fill. *)
Fixpoint fill_from (w : world) (dst : raw_ptr) (i n : nat) (v : T) : res world :=
  match n with
  | 0 => Ok w
  | Datatypes.S n' => w' <- poke w dst i v ;; fill_from w' dst (Datatypes.S i) n' v
  end.

(** Matrix(rows, cols) (MatrixConstructors.ipp:70-84). *)
Definition construct (w : world) (r c : nat) : res (object * world) :=
  let '(k, w1) := new_strat w in
  _ <- check ((0 <? r) && (0 <? c)) ;;
  w2 <- allocate w1 k (r * c) ;;
  Ok (Obj r c (Some k) true, w2).
(** Matrix(rows, cols, val) (MatrixConstructors.ipp:64-67). *)
Definition construct_fill (w : world) (r c : nat) (v : T) : res (object * world) :=
  ow <- construct w r c ;;
  w' <- fill_from (snd ow) (matrix_ptr (snd ow) (fst ow)) 0 (r * c) v ;;
  Ok (fst ow, w').
(** setMatrixPtr (MatrixAccessors.ipp:61-67). *)
Definition set_matrix_ptr (w : world) (o : object) (p : raw_ptr) : res world :=
  _ <- check (negb (dest_ o)) ;;
  Ok (match strat_ o with None => w | Some k => set_ptr w k p end).
(** Matrix(rows, cols, ptr) (MatrixConstructors.ipp:89-102). *)
Definition construct_view (w : world) (r c : nat) (p : raw_ptr) : res (object * world) :=
  let '(k, w1) := new_strat w in
  _ <- check ((0 <? r) && (0 <? c)) ;;
  let o := Obj r c (Some k) false in
  w2 <- set_matrix_ptr w1 o p ;;
  Ok (o, w2).
(** Copy constructor (MatrixConstructors.ipp:122-143); (m.mp_allocator)->allocatorType() on a null allocator is undefined. *)
Definition construct_copy (w : world) (m : object) : res (object * world) :=
  match strat_ m with
  | None => Undefined
  | Some _ =>
      let '(k, w1) := new_strat w in
      let o := Obj (rows_ m) (cols_ m) (Some k) true in
      match matrix_ptr w1 m with
      | None => Ok (o, w1)
      | Some _ =>
          w2 <- allocate w1 k (rows_ m * cols_ m) ;;
          w3 <- std_copy w2 (matrix_ptr w2 m) (matrix_ptr w2 o) (rows_ m * cols_ m) ;;
          Ok (o, w3)
      end
  end.
(** Destructor (MatrixConstructors.ipp:179-185) and deallocator (MatrixAccessors.ipp:36-41). *)
Definition destruct_ (w : world) (o : object) : res world :=
  if dest_ o then match strat_ o with None => Ok w | Some k => deallocate w k end else Ok w.
(** Move constructor (MatrixConstructors.ipp:155-167): the new object, and what is left of the old one (its dimensions
    become (size_t)-1; nothing may read them, they are 0 here). *)
Definition moved : object := Obj 0 0 None true.

(** Pointers the user can pass: null, or a place in one of his arrays. *)
Inductive user_ptr : Type := PNull | PAt (a off : nat).
Definition resolve (w : world) (p : user_ptr) : res raw_ptr :=
  match p with
  | PNull => Ok None
  | PAt a off => match arrays w a with Some b => Ok (Some (b, off)) | None => Undefined end
  end.

(** Statements of a user's program. *)
Inductive stmt : Type :=
| SNew (x r c : nat)                      (* Matrix<T> x(r, c); *)
| SFill (x r c : nat) (v : T)             (* Matrix<T> x(r, c, v); *)
| SView (x r c : nat) (p : user_ptr)      (* Matrix<T> x(r, c, p); *)
| SCopy (x y : nat)                       (* Matrix<T> x(y); *)
| SMove (x y : nat)                       (* Matrix<T> x(std::move(y)); *)
| SAssign (x y : nat)                     (* x = y; *)
| SMoveAssign (x y : nat)                 (* x = std::move(y); *)
| SClone (x y : nat)                      (* Matrix<T>* x = nullptr; y.clone(x);   or y.clone(x) if x exists *)
| SDestroy (x : nat)                      (* end of x's scope *)
| SWrite (x i j : nat) (v : T)            (* x(i, j) = v; *)
| SSetPtr (x : nat) (p : user_ptr)        (* x.setMatrixPtr(p); *)
| SCopyData (x y : nat)                   (* x.copyData(y); *)
| SReshape (x r c : nat)                  (* x.reshape(r, c); *)
| SArray (a : nat) (l : list T)           (* T* a = new T[n]; filled with l *)
| SArrayWrite (a i : nat) (v : T)         (* a[i] = v; *)
| SArrayDelete (a : nat).                 (* delete[] a; *)

(** A new program variable. *)
Definition declare (x : nat) (c : res (object * world)) : res world :=
  ow <- c ;; match mats (snd ow) x with None => Ok (set_mat (snd ow) x (Some (fst ow))) | Some _ => Undefined end.

Definition exec (w : world) (s : stmt) : res world :=
  match s with
  | SNew x r c => declare x (construct w r c)
  | SFill x r c v => declare x (construct_fill w r c v)
  | SView x r c p => p' <- resolve w p ;; declare x (construct_view w r c p')
  | SCopy x y => m <- alive w y ;; declare x (construct_copy w m)
  | SMove x y => m <- alive w y ;; declare x (Ok (m, set_mat w y (Some moved)))
  (* Matrix<T>{m}.swap( *this ) (MatrixConstructors.ipp:146-152): the temporary takes the old contents and is destroyed *)
  | SAssign x y =>
      m <- alive w y ;; old <- alive w x ;;
      tw <- construct_copy w m ;;
      destruct_ (set_mat (snd tw) x (Some (fst tw))) old
  (* Matrix<T>{std::move(m)}.swap( *this ) (MatrixConstructors.ipp:170-176) *)
  | SMoveAssign x y =>
      m <- alive w y ;;
      let w1 := set_mat w y (Some moved) in
      old <- alive w1 x ;;
      destruct_ (set_mat w1 x (Some m)) old
  (* clone and assignClone (MatrixConstructors.ipp:41-57, 104-113) *)
  | SClone x y =>
      m <- alive w y ;;
      match mats w x with
      | Some _ => Ok (set_mat w x (Some (Obj (rows_ m) (cols_ m) (strat_ m) false)))
      | None =>
          ow <- construct_view w (rows_ m) (cols_ m) None ;;
          Ok (set_mat (snd ow) x (Some (Obj (rows_ m) (cols_ m) (strat_ m) false)))
      end
  | SDestroy x => o <- alive w x ;; destruct_ (set_mat w x None) o
  (* operator() (MatrixAccessors.ipp:115-121) *)
  | SWrite x i j v =>
      o <- alive w x ;; _ <- check ((i <? rows_ o) && (j <? cols_ o)) ;;
      poke w (matrix_ptr w o) (i * cols_ o + j) v
  | SSetPtr x p => p' <- resolve w p ;; o <- alive w x ;; set_matrix_ptr w o p'
  (* copyData (MatrixAccessors.ipp:87-91) *)
  | SCopyData x y =>
      o <- alive w x ;; m <- alive w y ;; _ <- check (rows_ o * cols_ o =? rows_ m * cols_ m) ;;
      std_copy w (matrix_ptr w m) (matrix_ptr w o) (rows_ o * cols_ o)
  (* reshape (MatrixUtils.ipp:218-222) *)
  | SReshape x r c =>
      o <- alive w x ;; _ <- check (r * c =? rows_ o * cols_ o) ;;
      Ok (set_mat w x (Some (Obj r c (strat_ o) (dest_ o))))
  | SArray a l =>
      match arrays w a with
      | Some _ => Undefined
      | None => Ok (World (mats w) (ptrs w) (n_strats w) (upd (bufs w) (n_bufs w) (BUser l)) (Datatypes.S (n_bufs w)) (upd (arrays w) a (Some (n_bufs w))))
      end
  | SArrayWrite a i v => p <- resolve w (PAt a 0) ;; poke w p i v
  | SArrayDelete a =>
      match arrays w a with
      | Some b => Ok (World (mats w) (ptrs w) (n_strats w) (upd (bufs w) b BGone) (n_bufs w) (upd (arrays w) a None))
      | None => Undefined
      end
  end.
Fixpoint run (w : world) (p : list stmt) : res world :=
  match p with [] => Ok w | s :: p' => w' <- exec w s ;; run w' p' end.
(** x(i, j) as a value (MatrixAccessors.ipp:107-113). *)
Definition read (w : world) (x i j : nat) : res T :=
  o <- alive w x ;; _ <- check ((i <? rows_ o) && (j <? cols_ o)) ;; peek w (matrix_ptr w o) (i * cols_ o + j).
(** getNumRows, getNumColumns. *)
Definition dims (w : world) (x : nat) : option (nat * nat) := match mats w x with Some o => Some (rows_ o, cols_ o) | None => None end.
(** a[i] for an array of the user. *)
Definition array_read (w : world) (a i : nat) : res T := p <- resolve w (PAt a 0) ;; peek w p i.
End MatObj.
Arguments world : clear implicits.
Arguments buffer : clear implicits.
Arguments stmt : clear implicits.
