(** * Reverse mode of the matrix expression engine: traverse, PreComp, DevalR

    Simplifications, beyond those of MatEngine.v:
    - Matrix::clone makes a second header for the same buffer (assignClone shares the
      allocator, MatrixConstructors.ipp:42-57, 105-113); here a clone is the same pointer.
    - The iteration order of the hash maps, and of the parallel loops over them, is an
      arbitrary function [ord]; the theorems assume only that it permutes the entries.
    - The item of a named expression is always a product with a unit matrix
      (Matrix.hpp:193-213), so of the branches for cache == nullptr only the one of
      GenericMatProduct runs. *)

From Coq Require Import List Arith Bool Lia.
From Verif Require Import Num MatMem Kernels KernelFacts KernelProofs KernelBlocks Registry KernelStep Backend Slots Exec MatEngine.
Import ListNotations.
Set Implicit Arguments.
Unset Strict Implicit.

(** m_nidx of operator nodes and of matrices (one global counter, MetaVariable.hpp). *)
Inductive key : Set := KNode (id : nat) | KMat (nidx : nat).
Definition key_eq (a b : key) : {a = b} + {a <> b}.
Proof. decide equality; apply Nat.eq_dec. Defined.
(** OMMatPair: map from m_nidx to a matrix. *)
Definition cache : Set := list (key * ptr).
Fixpoint cget (c : cache) (k : key) : option ptr :=
  match c with [] => None | (k', p) :: c' => if key_eq k' k then Some p else cget c' k end.
Fixpoint cput (c : cache) (k : key) (p : ptr) : cache :=
  match c with [] => [(k, p)] | (k', p') :: c' => if key_eq k' k then (k, p) :: c' else (k', p') :: cput c' k p end.

Section Reverse.
Context {T : Type} {N : Num T}.
Variable S : sched T.
Variable B : backend (T := T).
Variable G : graph T.
Variable ord : cache -> cache.
Notation st := (st (T := T)).

Definition key_of (e : mexp T) : key := match e with MLeaf o => KMat (g_nidx G o) | MBin _ id _ _ | MUn _ id _ => KNode id end.

(** m_cache of operators and of matrices, m_clone_counter + 1 and m_cloned of operators
    (MetaMatrix.hpp:34-49). *)
Record rst : Type := RSt { rb : st; rnc : nat -> cache; roc : obj -> cache; rcnt : nat -> nat; rcl : nat -> nat -> option ptr }.
Definition R (A : Type) : Type := rst -> eres (A * rst).
Definition rret {A} (a : A) : R A := fun s => EOk (a, s).
Definition rbind {A C} (c : R A) (k : A -> R C) : R C :=
  fun s => match c s with EOk (a, s') => k a s' | ERejected => ERejected | EUndef => EUndef | ENoFuel => ENoFuel end.
Notation "x <- c ;; k" := (rbind c (fun x => k)) (at level 61, c at next level, right associativity).
(** A computation on the state of MatEngine.v. *)
Definition rl {A} (c : E A) : R A := fun s =>
  match c (rb s) with EOk (a, b) => EOk (a, RSt b (rnc s) (roc s) (rcnt s) (rcl s)) | ERejected => ERejected | EUndef => EUndef | ENoFuel => ENoFuel end.
Definition rassert (b : bool) : R unit := fun s => if b then EOk (tt, s) else ERejected.
Definition set_nc (id : nat) (c : cache) : R unit := fun s =>
  EOk (tt, RSt (rb s) (fun i => if i =? id then c else rnc s i) (roc s) (rcnt s) (rcl s)).
Definition set_oc (o : obj) (c : cache) : R unit := fun s =>
  EOk (tt, RSt (rb s) (rnc s) (fun i => if i =? o then c else roc s i) (rcnt s) (rcl s)).
Definition set_cnt (id : nat) (n : nat) : R unit := fun s =>
  EOk (tt, RSt (rb s) (rnc s) (roc s) (fun i => if i =? id then n else rcnt s i) (rcl s)).
Definition set_cl (id k : nat) (p : ptr) : R unit := fun s =>
  EOk (tt, RSt (rb s) (rnc s) (roc s) (rcnt s) (fun i j => if (i =? id) && (j =? k) then Some p else rcl s i j)).
Definition find_nc (r : nat) (k : key) : R (option ptr) := fun s => EOk (cget (rnc s r) k, s).
Fixpoint each {A} (l : list A) (f : A -> R unit) : R unit :=
  match l with [] => rret tt | a :: t => _ <- f a ;; each t f end.

(** cache[k] += p in place, or cache[k] = p (e.g. GenericMatProduct.hpp:193-203); r is the
    operator whose m_cache is being filled. *)
Definition accumulate (r : nat) (k : key) (p : ptr) : R unit :=
  c <- find_nc r k ;;
  p' <- match c with Some pc => rl (lift (b_add B pc p (Some pc))) | None => rret p end ;;
  fun s => set_nc r (cput (rnc s r) k p') s.
(** m_cloned[incFunc()], MetaMatrix.cpp:50-56: the number of the slot used next. *)
Definition next_slot (id : nat) : R nat := fun s => (_ <- set_cnt id (Datatypes.S (rcnt s id)) ;; rret (rcnt s id)) s.
(** The clone loop, GenericMatProduct.hpp:205-208: every entry of the cache gets a header
    in m_cloned. *)
Definition clone_all (r id : nat) : R unit := fun s =>
  each (ord (rnc s r)) (fun kp => j <- next_slot id ;; set_cl id j (snd kp)) s.
(** m_cache of an operand. *)
Definition child_cache (e : mexp T) (s : rst) : cache :=
  match e with MLeaf o => roc s o | MBin _ id _ _ | MUn _ id _ => rnc s id end.
(** The loop over the operand's m_cache, GenericMatProduct.hpp:210-226: v is the first
    element of the operand's contribution, which must be 1x1. *)
Definition merge (r id : nat) (e : mexp T) (k : nat) (v : T) : R unit := fun s =>
  each (ord (child_cache e s)) (fun kp =>
    p <- rl (slot (ONode id k)) ;; o <- rl (lift (deref p)) ;;
    _ <- rassert ((o_rows o =? 1) && (o_cols o =? 1)) ;;
    j <- next_slot id ;;
    p' <- (fun s => rl (lift (b_smul B v (snd kp) (rcl s id j))) s) ;;
    _ <- set_cl id j p' ;;
    accumulate r (fst kp) p') s.
(** ScalarSpl, Matrix.cpp:28-31. *)
Definition first (id k : nat) : R T := p <- rl (slot (ONode id k)) ;; rl (lift (raw p 0)).
(** After the kernels of an operator ran: contributions of slots k to its operands e; [scal]
    is what an operator with a scalar operand does in between. *)
Definition contribute (r id : nat) (outs : list (mexp T * nat)) (scal : R unit) : R unit :=
  let adds := each outs (fun ek => p <- rl (slot (ONode id (snd ek))) ;; accumulate r (key_of (fst ek)) p) in
  match outs with
  | [(l, k); (l', k')] =>
      v <- first id k ;; v' <- first id k' ;;
      _ <- adds ;; _ <- clone_all r id ;;
      _ <- merge r id l k v ;; merge r id l' k' v'
  | [(l, k)] => v <- first id k ;; _ <- adds ;; _ <- clone_all r id ;; _ <- scal ;; merge r id l k v
  | _ => rret tt
  end.

(** Kernels of the reverse pass, c is the adjoint of the operator itself:
    GenericMatProduct.hpp:260-270, GenericMatHadamard.hpp:259-268, GenericMatSum.hpp:234-236,
    GenericMatSub.hpp:234-236. *)
Definition bin_back (k : bop) (id : nat) (c l r : ptr) : list (instr T owner) :=
  match k with
  | BProd => [(ONode id 9, KTr (OPtr l)); (ONode id 8, KTr (OPtr r));
              (ONode id 10, KMul (OPtr c) (OSlot (ONode id 8))); (ONode id 11, KMul (OSlot (ONode id 9)) (OPtr c))]
  | BHad => [(ONode id 9, KSMul n1 (OPtr l)); (ONode id 8, KSMul n1 (OPtr r));
             (ONode id 10, KHad (OPtr c) (OSlot (ONode id 8))); (ONode id 11, KHad (OSlot (ONode id 9)) (OPtr c))]
  | BSum => [(ONode id 4, KSMul n1 (OPtr c)); (ONode id 5, KSMul n1 (OPtr c))]
  | BSub => [(ONode id 4, KSMul n1 (OPtr c)); (ONode id 5, KSMul nm1 (OPtr c))]
  end.
Definition bin_outs (k : bop) : nat * nat := match k with BProd | BHad => (10, 11) | _ => (4, 5) end.
Variable rho : env T.
(** GenericMatTranspose.hpp:184-186, GenericMatProduct.hpp:502, GenericMatSum.hpp:461,
    GenericMatUnary.hpp:113-114, GenericMatInv.hpp:216-220, GenericMatDet.hpp:240-252, and with a scalar
    Expression, Variable or Parameter as operand GenericMatProduct.hpp:747-751, GenericMatSum.hpp:709-712;
    z is the first element of c, with the dimensions of c. *)
Definition un_back (k : uop T) (id : nat) (z : T * (nat * nat)) (c a : ptr) : list (instr T owner) :=
  match k with
  | USProdE s _ => [(ONode id 9, KTr (OPtr c)); (ONode id 10, KMul (OSlot (ONode id 9)) (OPtr a)); (ONode id 11, KTrace (OSlot (ONode id 10)));
                    (ONode id 12, KSMul (e_val rho s 0) (OPtr c))]
  | USSumE _ _ => [(ONode id 6, KMul (OOnes 1 (fst (snd z))) (OPtr c)); (ONode id 7, KMul (OSlot (ONode id 6)) (OOnes (snd (snd z)) 1));
                   (ONode id 8, KSMul n1 (OPtr c))]
  | UTr => [(ONode id 4, KTr (OPtr c))]
  | USProd s => [(ONode id 3, KSMul s (OPtr c))]
  | USSum _ => [(ONode id 3, KSMul n1 (OPtr c))]
  | UFun _ f' => [(ONode id 5, KMap f' (OPtr a)); (ONode id 6, KHad (OSlot (ONode id 5)) (OPtr c))]
  | UInv g => [(ONode id 11, KTr (OPtr a)); (ONode id 12, KInv g (OSlot (ONode id 11)));
               (ONode id 13, KMul (OSlot (ONode id 12)) (OPtr c)); (ONode id 14, KMul (OSlot (ONode id 13)) (OSlot (ONode id 12)));
               (ONode id 15, KSMul nm1 (OSlot (ONode id 14)))]
  | UDet g d => [(ONode id 15, KInv g (OPtr a)); (ONode id 16, KTr (OSlot (ONode id 15))); (ONode id 17, KDet d (OPtr a));
                 (ONode id 18, KSMulAt (OSlot (ONode id 17)) (OSlot (ONode id 16))); (ONode id 19, KSMul (fst z) (OSlot (ONode id 18)))]
  end.
Definition un_out (k : uop T) : nat := match k with USProdE _ _ => 12 | USSumE _ _ => 8 | UTr => 4 | UFun _ _ => 6 | UInv _ => 15 | UDet _ _ => 19 | _ => 3 end.
(** The operators whose traverse evaluates the operand (GenericMatUnary.hpp:105-112, GenericMatInv.hpp:212, GenericMatDet.hpp:236,
    GenericMatProduct.hpp:744). *)
Definition ureads (k : uop T) : bool := match k with USProdE _ _ | UFun _ _ | UInv _ | UDet _ _ => true | _ => false end.
(** The root product with a unit matrix, GenericMatProduct.hpp:186-188. *)
Definition root_back (id : nat) (l r : ptr) : list (instr T owner) :=
  [(ONode id 7, KTr (OPtr l)); (ONode id 6, KTr (OPtr r))].

(** What is read off the adjoint: its first element, GenericMatDet.hpp:228; its dimensions,
    GenericMatSum.hpp:705-706 (read here before the operand is visited, which does not change them). *)
Definition adj_info (k : uop T) (pc : ptr) : R (T * (nat * nat)) :=
  match k with
  | UDet _ _ => z <- rl (lift (raw pc 0)) ;; rret (z, (0, 0))
  | USSumE _ _ => o <- rl (lift (deref pc)) ;; rret (n0, (o_rows o, o_cols o))
  | _ => rret (n0, (0, 0))
  end.
(** mp_arr11_val, mp_arr7_val: GenericMatProduct.hpp:753, GenericMatSum.hpp:714. *)
Definition weight (k : uop T) (id : nat) : R T :=
  match k with USProdE _ _ => first id 11 | USSumE _ _ => first id 7 | _ => rret n0 end.
(** "Modify cache for left node", GenericMatProduct.hpp:768-783, GenericMatSum.hpp:729-744: for
    every variable v of the scalar, weight * d s / d v.  m_cache_v was filled by PreComp of the
    scalar expression on the first visit after reset (GenericMatProduct.hpp:803-808), so it has the
    derivatives at the current values; its entries other than those for variables are never looked
    up and are left out.  The matrices m_cloned[...] are slots 20, 21, ... here (no clone ever
    takes their place: the numbers of a pass do not depend on values).  The assertion that slot 11
    (7) is 1x1 cannot fail. *)
Definition scalar_entry (r id j : nat) (z : T) (s v : obj) : R unit :=
  _ <- rl (exec S B [(ONode id j, KSMul (nmul z (e_der rho s 0 v 0)) (OEye 1))]) ;;
  p <- rl (slot (ONode id j)) ;; accumulate r (KMat (g_nidx G v)) p.
Fixpoint scalar_entries (r id j : nat) (z : T) (s : obj) (vs : list obj) : R unit :=
  match vs with [] => rret tt | v :: t => _ <- scalar_entry r id j z s v ;; scalar_entries r id (Datatypes.S j) z s t end.
Definition scalar_part (r id : nat) (k : uop T) (z : T) : R unit :=
  match k with USProdE s vs | USSumE s vs => scalar_entries r id 20 z s vs | _ => rret tt end.

(** traverse: Matrix.hpp / MatrixVirtuals.ipp:103-122, and the operators' traverse
    (GenericMatProduct.hpp:162-330 and its siblings).  Operators evaluate their operands
    only where the derivative needs them. *)
Fixpoint trav (fuel : nat) (r : nat) (e : mexp T) : R unit :=
  match fuel with
  | 0 => fun _ => ENoFuel
  | Datatypes.S n =>
    match e with
    | MLeaf o =>
        f <- rl (getf o) ;;
        if f_vis f then rret tt else
          _ <- rl (setf o set_vis) ;;
          match g_kind G o with
          | KExp id a y =>
              _ <- set_nc id [] ;;
              _ <- trav n id a ;; _ <- trav n id (MLeaf y) ;;
              p <- rl (eval S B G rho n a) ;; q <- rl (eval S B G rho n (MLeaf y)) ;;
              _ <- rl (exec S B (root_back id p q)) ;;
              _ <- contribute id id [(a, 6); (MLeaf y, 7)] (rret tt) ;;
              _ <- trav n id a ;; _ <- trav n id (MLeaf y) ;;
              p <- rl (eval S B G rho n (item id a y)) ;;
              _ <- rl (setf o (set_res p)) ;;
              fun s => set_oc o (rnc s id) s
          | _ => rret tt
          end
    | MBin k id l r' =>
        c <- find_nc r (KNode id) ;;
        _ <- match c with
             | None => rret tt
             | Some pc =>
                 _ <- trav n r l ;; _ <- trav n r r' ;;
                 _ <- match k with
                      | BProd | BHad =>
                          p <- rl (eval S B G rho n l) ;; q <- rl (eval S B G rho n r') ;; rl (exec S B (bin_back k id pc p q))
                      | _ => rl (exec S B (bin_back k id pc pc pc))
                      end ;;
                 contribute r id [(l, fst (bin_outs k)); (r', snd (bin_outs k))] (rret tt)
             end ;;
        _ <- trav n r l ;; trav n r r'
    | MUn k id a =>
        c <- find_nc r (KNode id) ;;
        _ <- match c with
             | None => rret tt
             | Some pc =>
                 z <- adj_info k pc ;;
                 _ <- trav n r a ;;
                 _ <- (if ureads k then (p <- rl (eval S B G rho n a) ;; rl (exec S B (un_back k id z pc p)))
                       else rl (exec S B (un_back k id z pc pc))) ;;
                 w <- weight k id ;;
                 contribute r id [(a, un_out k)] (scalar_part r id k w)
             end ;;
        trav n r a
    end
  end.

(** reset, now with the caches and counters: MatrixVirtuals.ipp:133-155, IMatrix.hpp:76-87. *)
Fixpoint rreset (fuel : nat) (e : mexp T) : R unit :=
  match fuel with
  | 0 => fun _ => ENoFuel
  | Datatypes.S n =>
    match e with
    | MLeaf o =>
        f <- rl (getf o) ;;
        _ <- (if f_vis f then
                (_ <- rl (setf o clear) ;;
                 match g_kind G o with KExp id a y => rreset n (item id a y) | _ => rret tt end)
              else rret tt) ;;
        set_oc o []
    | MBin _ id l r => _ <- set_cnt id 0 ;; _ <- set_nc id [] ;; _ <- rreset n l ;; rreset n r
    | MUn _ id a => _ <- set_cnt id 0 ;; _ <- set_nc id [] ;; rreset n a
    end
  end.

(** CommonMatFunctions.hpp:46-77. *)
Definition REval (fuel : nat) (e : mexp T) : R ptr := _ <- rreset fuel e ;; rl (eval S B G rho fuel e).
Definition RDevalF (fuel : nat) (e : mexp T) (x : obj) : R ptr := _ <- rreset fuel e ;; rl (devalF S B G rho fuel x e).
(** PreComp of a named expression, CommonMatFunctions.hpp:80-92; resetImpl,
    MatrixUtils.ipp:192-214. *)
Definition PreComp (fuel : nat) (o : obj) : R unit :=
  match g_kind G o with
  | KExp id a y => _ <- rl (setf o clear) ;; _ <- set_oc o [] ;; _ <- rreset fuel (item id a y) ;; trav fuel 0 (MLeaf o)
  | _ => _ <- rreset fuel (MLeaf o) ;; trav fuel 0 (MLeaf o)
  end.
(** DevalR, CommonMatFunctions.hpp:95-118: is_base_of_v<U, MetaMatrix> is false for every
    matrix type U, so the branch that uses the shape of F is taken. *)
Definition DevalR (o x : obj) : R ptr := fun s =>
  match cget (roc s o) (KMat (g_nidx G x)) with
  | Some p => EOk (p, s)
  | None => rl (lift (Zeros CPU (g_rows G o) (g_cols G o))) s
  end.
End Reverse.
