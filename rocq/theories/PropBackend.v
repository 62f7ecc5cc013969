(** * Property C35: the backends agree *)
From Coq Require Import List Arith Bool Lia ZArith Permutation.
From Verif Require Import Num NumInst MatMem Kernels KernelFacts KernelProofs KernelBlocks Registry KernelStep Backend Cuda CudaKernels CudaTiled.
Import ListNotations.
Local Open Scope nat_scope.

(** The device buffer [buf] contains the matrix v, row by row. *)
Definition device_copy {T} (w : loc -> T) (buf : nat) (v : mat T) : Prop :=
  forall i j, i < mr v -> j < mc v -> w (Glob buf (i * mc v + j)) = mf v i j.
(** After the launch the device buffer [buf] contains v and no other device memory has changed. *)
Definition leaves {T} (w : loc -> T) (buf : nat) (v : mat T) (w' : loc -> T) : Prop :=
  device_copy w' buf v /\ forall b i, b <> buf \/ mr v * mc v <= i -> w' (Glob b i) = w (Glob b i).
(** The constants of the handlers: THREAD_SIZE and TILE_SIZE are 32, TILE_DIM is 32 and
    BLOCK_ROWS is 8 (MatrixStaticHandler.hpp:26, MatMulCUDAHandler.cuh:28, MatTransposeCUDAHandler.cuh:28-29). *)
Definition on_grid {T} rows cols (len : nat -> nat) prog (w : loc -> T) post :=
  launch_ok (tiles 32 rows cols) (exists_in len 0 0 0) prog w post.

(** ** Element-wise CUDA kernels, also in place: every schedule ends with the right entries *)
Theorem C35_cuda_elementwise : forall {T} {N : Num T} (op : T -> T -> T) a b c (w : loc -> T) len va vb,
  same_dims va vb -> device_copy w a va -> device_copy w b vb ->
  mr va * mc va <= len a -> mr va * mc va <= len b -> mr va * mc va <= len c ->
  on_grid (mr va) (mc va) len (zip_kernel op 32 (mr va) (mc va) a b c) w (leaves w c (mzip op va vb)).
Proof.
  intros T N op a b c w len va vb (E1 & E2) Da Db La Lb Lc g n s H.
  destruct (@zip_ok T N 32 (mr va) (mc va) c ltac:(lia) op a b w len La Lb Lc g n s H) as (P & Q & R).
  split; [exact P|]. split; [exact Q|]. intros F. destruct (R F) as (R1 & R2). split; [|exact R2].
  intros i j Hi Hj. simpl in *. rewrite R1, (Da i j) by auto. rewrite E2, (Db i j) by lia. reflexivity.
Qed.
Print Assumptions C35_cuda_elementwise.
Theorem C35_cuda_map : forall {T} {N : Num T} (f : T -> T) a c (w : loc -> T) len va,
  device_copy w a va -> mr va * mc va <= len a -> mr va * mc va <= len c ->
  on_grid (mr va) (mc va) len (map_kernel f 32 (mr va) (mc va) a c) w (leaves w c (mmap f va)).
Proof.
  intros T N f a c w len va Da La Lc g n s H.
  destruct (@map_ok T N 32 (mr va) (mc va) c ltac:(lia) f a w len La Lc g n s H) as (P & Q & R).
  split; [exact P|]. split; [exact Q|]. intros F. destruct (R F) as (R1 & R2). split; [|exact R2].
  intros i j Hi Hj. simpl in *. rewrite R1, (Da i j) by auto. reflexivity.
Qed.
Print Assumptions C35_cuda_map.
Theorem C35_cuda_kron : forall {T} {N : Num T} a b c (w : loc -> T) len va vb,
  device_copy w a va -> device_copy w b vb -> a <> c -> b <> c ->
  mr va * mc va <= len a -> mr vb * mc vb <= len b -> (mr va * mr vb) * (mc va * mc vb) <= len c ->
  on_grid (mr va * mr vb) (mc va * mc vb) len (kron_kernel 32 (mr va) (mc va) (mr vb) (mc vb) a b c) w (leaves w c (mkron va vb)).
Proof.
  intros T N a b c w len va vb Da Db Na Nb La Lb Lc g n s H.
  destruct (@kron_ok_cuda T N 32 (mr va) (mc va) (mr vb) (mc vb) a b c w len ltac:(lia) La Lb Lc Na Nb g n s H) as (P & Q & R).
  split; [exact P|]. split; [exact Q|]. intros F. destruct (R F) as (R1 & R2). split; [|exact R2].
  intros i j Hi Hj. simpl in *. assert (mr vb <> 0) by (intros E; rewrite E in Hi; lia). assert (mc vb <> 0) by (intros E; rewrite E in Hj; lia).
  rewrite R1, Da, Db; auto; try (apply Nat.mod_upper_bound; assumption); apply Nat.div_lt_upper_bound; lia.
Qed.
Print Assumptions C35_cuda_kron.

(** ** Tiled product: shared memory, two barriers per tile, sizes that are not multiples of 32 *)
Theorem C35_cuda_product : forall {T} {N : Num T}, (forall x : T, nadd x (nmul n0 n0) = x) ->
  forall a b c (w : loc -> T) len va vb,
  mc va = mr vb -> device_copy w a va -> device_copy w b vb -> a <> c -> b <> c ->
  mr va * mc va <= len a -> mr vb * mc vb <= len b -> mr va * mc vb <= len c ->
  launch_ok (tiles 32 (mr va) (mc vb)) (exists_in len 2 32 32) (mul_kernel 32 (mr va) (mc va) (mc vb) a b c) w (leaves w c (mmul va vb)).
Proof.
  intros T N pad a b c w len va vb Ch Da Db Na Nb La Lb Lc g n s H.
  assert (Lb' : mc va * mc vb <= len b) by (rewrite Ch; exact Lb).
  destruct (@mul_cuda_ok T N 32 (mr va) (mc va) (mc vb) a b c w len ltac:(lia) La Lb' Lc Na Nb pad g n s H) as (P & Q & R).
  split; [exact P|]. split; [exact Q|]. intros F. destruct (R F) as (R1 & R2). split; [|exact R2].
  intros i j Hi Hj. simpl in *. rewrite R1 by auto. unfold mres. apply sum_n_ext. intros k Hk.
  rewrite (Da i k), (Db k j) by (auto; lia). reflexivity.
Qed.
Print Assumptions C35_cuda_product.
Theorem C35_cuda_transpose : forall {T} {N : Num T} a c (w : loc -> T) len va,
  device_copy w a va -> a <> c -> mr va * mc va <= len a -> mc va * mr va <= len c ->
  launch_ok (tr_tiles 32 8 (mr va) (mc va)) (exists_in len 1 32 33) (tr_kernel 32 8 (mr va) (mc va) a c) w (leaves w c (mtr va)).
Proof.
  intros T N a c w len va Da Na La Lc g n s H.
  destruct (@tr_cuda_ok T N 4 8 (mr va) (mc va) a c w len ltac:(lia) ltac:(lia) La Lc Na g n s H) as (P & Q & R).
  split; [exact P|]. split; [exact Q|]. intros F. destruct (R F) as (R1 & R2). split; [|exact R2].
  intros i j Hi Hj. simpl in *. rewrite R1 by auto. unfold tres. now apply Da.
Qed.
Print Assumptions C35_cuda_transpose.

(** ** CPU: Eigen and naive kernels compute, and reject, the same *)
Theorem C35_cpu : forall {T} {N : Num T} (S : sched T), valid_sched S -> forall h, (h = HEigen -> NumLaws N) ->
  let B := backend_of S h in
  forall m a b r va vb, tame m -> holds m a va -> holds m b vb -> slot_ok m r -> r <> Some a -> r <> Some b ->
  (same_dims va vb ->
    (exists p m', b_add B a b r m = Ok (p, m') /\ wrote m r p (mzip nadd va vb) m') /\
    (exists p m', b_sub B a b r m = Ok (p, m') /\ wrote m r p (mzip nsub va vb) m') /\
    (exists p m', b_had B a b r m = Ok (p, m') /\ wrote m r p (mzip nmul va vb) m')) /\
  (~ same_dims va vb -> b_add B a b r m = Rejected /\ b_sub B a b r m = Rejected /\ b_had B a b r m = Rejected) /\
  (mc va = mr vb -> exists p m', b_mul B a b r m = Ok (p, m') /\ wrote m r p (mmul va vb) m') /\
  (mc va <> mr vb -> b_mul B a b r m = Rejected) /\
  (forall c, exists p m', b_smul B c a r m = Ok (p, m') /\ wrote m r p (mmap (nmul c) va) m') /\
  (forall c, exists p m', b_sadd B c a r m = Ok (p, m') /\ wrote m r p (mmap (nadd c) va) m') /\
  (forall f, exists p m', b_map B f a r m = Ok (p, m') /\ wrote m r p (mmap f va) m') /\
  (exists p m', b_tr B a r m = Ok (p, m') /\ wrote m r p (mtr va) m').
Proof.
  intros T N S VS h L B m a b r va vb Tm Ha Hb Hr Na Nb.
  destruct (backend_value VS (h := h) L) as [Oa Os Oh Om Osm Osa Ou Ot]. destruct (backend_rejects S h) as (Ra & Rs & Rh & Rm).
  split; [intros D; split; [|split]; [eapply Oa|eapply Os|eapply Oh]; eauto|].
  split; [intros D; split; [|split]; [eapply Ra|eapply Rs|eapply Rh]; eauto|].
  split; [intros D; eapply Om; eauto|]. split; [intros D; eapply Rm; eauto|].
  split; [intros c; eapply Osm; eauto|]. split; [intros c; eapply Osa; eauto|].
  split; [intros f; eapply Ou; eauto|]. eapply Ot; eauto.
Qed.
Print Assumptions C35_cpu.
(** So for every operation the CPU result and the device result are the same matrix; e.g. the product: *)
Theorem C35_agree : forall {T} {N : Num T} (S : sched T), valid_sched S -> NumLaws N -> forall h m a b r va vb (w : loc -> T) da db dc len,
  tame m -> holds m a va -> holds m b vb -> slot_ok m r -> r <> Some a -> r <> Some b -> mc va = mr vb ->
  device_copy w da va -> device_copy w db vb -> da <> dc -> db <> dc ->
  mr va * mc va <= len da -> mr vb * mc vb <= len db -> mr va * mc vb <= len dc ->
  exists p m', b_mul (backend_of S h) a b r m = Ok (p, m') /\ is_mat m' p (mr va) (mc vb) /\
    launch_ok (tiles 32 (mr va) (mc vb)) (exists_in len 2 32 32) (mul_kernel 32 (mr va) (mc va) (mc vb) da db dc) w
      (fun w' => forall i j, i < mr va -> j < mc vb -> w' (Glob dc (i * mc vb + j)) = val m' p i j).
Proof.
  intros T N S VS L h m a b r va vb w da db dc len Tm Ha Hb Hr Na Nb Ch Da Db Nd1 Nd2 La Lb Lc.
  destruct (C35_cpu S VS h (fun _ => L) m a b r va vb Tm Ha Hb Hr Na Nb) as (_ & _ & Om & _).
  destruct (Om Ch) as (p & m' & E & W). exists p, m'. split; [exact E|]. split; [apply W|].
  assert (pad : forall x : T, nadd x (nmul n0 n0) = x).
  { intros x. rewrite (laws_mul0 L). rewrite (Ring_theory.Radd_comm (law_ring N L)). apply (Ring_theory.Radd_0_l (law_ring N L)). }
  intros g n s H. destruct (C35_cuda_product pad da db dc w len va vb Ch Da Db Nd1 Nd2 La Lb Lc g n s H) as (P & Q & R).
  split; [exact P|]. split; [exact Q|]. intros F i j Hi Hj. destruct (R F) as (R1 & _). specialize (R1 i j Hi Hj). simpl in R1. rewrite R1.
  symmetry. exact (holds_val (wr_holds W) Hi Hj).
Qed.
Print Assumptions C35_agree.

(** Every launch can be run to completion, from any point of any schedule. *)
Theorem C35_completes : forall {T} ths inb (prog : thread -> list (cinstr (T := T))) w post g n s,
  launch_ok ths inb prog w post -> steps ths inb n (start prog w g) s ->
  exists n' s', steps ths inb n' (start prog w g) s' /\ finished ths s' /\ post (cells s').
Proof. exact (@launch_completes). Qed.
Print Assumptions C35_completes.

(** A 3x2 by 2x5 product on a device with garbage in shared memory. *)
Definition wz : loc -> Z := fun l => match l with Glob 0 i => Z.of_nat (i + 1) | Glob 1 i => Z.of_nat (10 * i) | _ => 77%Z end.
Definition va_z : mat Z := Mat 3 2 (fun i j => Z.of_nat (i * 2 + j + 1)).
Definition vb_z : mat Z := Mat 2 5 (fun i j => Z.of_nat (10 * (i * 5 + j))).
Example C35_cuda_nonvacuous : exists n s,
  steps (tiles 32 3 5) (exists_in (fun _ => 15) 2 32 32) n (start (mul_kernel (N := NumZ) 32 3 2 5 0 1 2) wz (fun _ _ => 99%Z)) s /\
  finished (tiles 32 3 5) s /\ cells s (Glob 2 14) = 740%Z.
Proof.
  assert (D0 : device_copy wz 0 va_z) by (intros i j Hi Hj; reflexivity).
  assert (D1 : device_copy wz 1 vb_z) by (intros i j Hi Hj; reflexivity).
  destruct (@C35_completes Z (tiles 32 3 5) (exists_in (fun _ => 15) 2 32 32) (mul_kernel (N := NumZ) 32 3 2 5 0 1 2) wz
    (leaves wz 2 (mmul (N := NumZ) va_z vb_z)) (fun _ _ => 99%Z) 0 (start (mul_kernel (N := NumZ) 32 3 2 5 0 1 2) wz (fun _ _ => 99%Z))) as (n & s & H & F & P).
  - apply (@C35_cuda_product Z NumZ) with (va := va_z) (vb := vb_z); auto; try discriminate; try (simpl; lia).
  - constructor.
  - exists n, s. split; [exact H|]. split; [exact F|]. destruct P as (P & _). exact (P 2 4 ltac:(simpl; lia) ltac:(simpl; lia)).
Qed.
