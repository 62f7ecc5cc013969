(** * Properties C34, C43, C53, C54: convolutions *)
From Coq Require Import List Arith Bool Lia ZArith Reals.
From Verif Require Import Num NumInst MatMem Kernels KernelFacts KernelProofs KernelBlocks KernelMore Registry KernelStep Backend Slots Exec Sums Conv ConvProofs ConvDerv ConvHist ConvRev.
Import ListNotations.
Local Open Scope nat_scope.

(** ** Specification, spelled out once more at the level of entries *)
(** [convolution] and [dconvolution] unfold to the formulas of the properties. *)
Lemma convolution_spec : forall {T} {N : Num T} sx sy px py (x k : mat T),
  mr (convolution sx sy px py x k) = (mr x + 2 * px - mr k) / sx + 1 /\
  mc (convolution sx sy px py x k) = (mc x + 2 * py - mc k) / sy + 1 /\
  (forall i j, mf (convolution sx sy px py x k) i j =
     sum_n (mr k) (fun a => sum_n (mc k) (fun b => nmul (mf (padded x px py) (i * sx + a) (j * sy + b)) (mf k a b)))) /\
  (forall i j, i < mr x -> j < mc x -> mf (padded x px py) (px + i) (py + j) = mf x i j) /\
  (forall i j, i < px \/ px + mr x <= i \/ j < py \/ py + mc x <= j -> mf (padded x px py) i j = n0).
Proof.
  intros T N sx sy px py x k. split; [reflexivity|]. split; [reflexivity|]. split; [reflexivity|]. split.
  - intros i j Hi Hj. simpl. replace (px <=? px + i) with true by (symmetry; apply Nat.leb_le; lia).
    replace (px + i <? px + mr x) with true by (symmetry; apply Nat.ltb_lt; lia). replace (py <=? py + j) with true by (symmetry; apply Nat.leb_le; lia).
    replace (py + j <? py + mc x) with true by (symmetry; apply Nat.ltb_lt; lia). simpl. f_equal; lia.
  - intros i j H. simpl. destruct ((px <=? i) && (i <? px + mr x) && (py <=? j) && (j <? py + mc x)) eqn:E; auto.
    rewrite !andb_true_iff, !Nat.leb_le, !Nat.ltb_lt in E. lia.
Qed.

(** ** Concrete memories *)
Definition mem_cv : mem Z := mem_of [mk 0 4 4 (repeat 1%Z 16); mk 1 1 1 [1%Z]; mk 2 2 2 [1;2;3;4]%Z; mk 3 3 3 [1;2;3;4;5;6;7;8;9]%Z; mk 4 2 2 [1;0;0;2]%Z].
Lemma tame_cv : tame mem_cv.
Proof.
  split; [|split; [split|]].
  - intros p o H. do 5 (destruct p as [|p]; [injection H as <-; simpl; repeat split; lia|]). destruct p; discriminate.
  - intros p o H. do 5 (destruct p as [|p]; [injection H as <-; simpl; split; [reflexivity|lia]|]). destruct p; discriminate.
  - intros p q o o' H H'. do 5 (destruct p as [|p]; [injection H as <-; do 5 (destruct q as [|q]; [injection H' as <-; simpl; congruence|]); destruct q; discriminate|]). destruct p; discriminate.
  - intros k sp R C p [].
Qed.
Notation none := (fun _ : nat => @None ptr).
Definition Bz (h : handler) : backend := backend_of Zin h.
Lemma Zin_ok : valid_sched Zin.
Proof. intros m I l. apply Permutation.Permutation_refl. Qed.

(** ** C34 *)
(** Eigen's handler: right whatever the scratch buffer contains. *)
Theorem C34_eigen : forall {T} {N : Num T} (S : sched T), valid_sched S ->
  forall (m : mem T) padbuf sx sy px py lhs rhs result vx vk,
  tame m -> slot_ok m padbuf -> slot_ok m result -> holds m lhs vx -> holds m rhs vk ->
  (forall q, padbuf = Some q -> q <> lhs /\ q <> rhs /\ result <> Some q) -> (forall q, result = Some q -> q <> lhs /\ q <> rhs) ->
  0 < sx -> 0 < sy -> mr vk <= mr vx + 2 * px -> mc vk <= mc vx + 2 * py ->
  exists r p0 m', MatConvEigen S sx sy px py lhs rhs padbuf result m = Ok ((r, p0), m') /\
    holds m' r (convolution sx sy px py vx vk) /\ (result = Some r \/ length (objs m) <= r) /\
    (forall q, q < length (objs m) -> result <> Some q -> padbuf <> Some q -> get m' q = get m q).
Proof.
  intros T N S VS m padbuf sx sy px py lhs rhs result vx vk Tm Sp Sr Hx Hk Hp Hr Psx Psy Br Bc.
  destruct (conv_eigen_ok VS Tm Sp Sr Hx Hk Hp Hr Psx Psy Br Bc) as (r & p0 & m' & E & Hh & Wh & _ & _ & _ & _ & _ & Ev).
  exists r, p0, m'. split; [exact E|]. split; [exact Hh|]. split; [exact Wh|].
  intros q Lq N1 N2. apply (ev_frame Ev Lq). intros [Q|Q]; auto.
Qed.
Print Assumptions C34_eigen.
Example C34_eigen_nonvacuous : tame mem_cv /\ exists r p m', MatConvEigen Zin 1 1 1 1 3 4 (Some 0) None mem_cv = Ok ((r, p), m') /\
  is_mat m' r 4 4 /\ val m' r 1 1 = 11%Z /\ val m' r 0 0 = 2%Z.
Proof. split; [exact tame_cv|]. eexists _, _, _. split; [vm_compute; reflexivity|]. split; [eexists _, _, _; split; reflexivity|]. split; reflexivity. Qed.

(** The naive handler: right after every history of convolutions whose reused padding
    buffers fit ([fits]: same input size and padding as the previous call, or no padding, or
    another number of padded elements), whatever other computations ran in between, with
    either backend for the inner kernels. *)
Theorem C34_history : forall {T} {N : Num T}, NumLaws N -> forall (S : sched T), valid_sched S -> forall h m arr last sx sy px py lhs rhs result vx vk,
  conv_hist S (backend_of S h) m arr last -> conv_call m arr sx sy px py lhs rhs result vx vk -> fits last (mr vx) (mc vx) px py ->
  exists r arr' m', MatConvNaive S (backend_of S h) sx sy px py lhs rhs arr result m = Ok ((r, arr'), m') /\
    holds m' r (convolution sx sy px py vx vk) /\ (result = Some r \/ length (objs m) <= r) /\
    (forall q, q < length (objs m) -> result <> Some q -> (forall k, arr k <> Some q) -> get m' q = get m q) /\
    conv_hist S (backend_of S h) m' arr' (Some (mr vx, mc vx, px, py)).
Proof.
  exact (fun T N L S VS h => @conv_history_ok T N L S VS (backend_of S h) (@backend_value T N S VS h (fun _ => L)) (backend_kron_zeroed VS h L)).
Qed.
Print Assumptions C34_history.
Definition V_of (m : mem Z) (p R C : nat) : mat Z := Mat R C (val m p).
Example C34_nonvacuous : conv_hist Zin (Bz HNaive) mem_cv none None /\
  conv_call mem_cv none 2 1 1 0 3 4 None (V_of mem_cv 3 3 3) (V_of mem_cv 4 2 2) /\
  exists r arr m', MatConvNaive Zin (Bz HNaive) 2 1 1 0 3 4 none None mem_cv = Ok ((r, arr), m') /\
    is_mat m' r 2 2 /\ val m' r 0 0 = 4%Z /\ val m' r 1 0 = 20%Z.
Proof.
  split; [constructor; exact tame_cv|]. split.
  - constructor; simpl; try lia; try discriminate.
    + split; [eexists _, _, _; split; reflexivity|auto].
    + split; [eexists _, _, _; split; reflexivity|auto].
    + split; [exact Logic.I|]. discriminate.
  - eexists _, _, _. split; [vm_compute; reflexivity|]. split; [eexists _, _, _; split; reflexivity|]. split; reflexivity.
Qed.
(** False in general: convolve a 4x4 matrix of ones without padding, then a 2x2 matrix with
    padding 1 (also 16 padded elements): the corner of the result is 1, not 0. *)
Theorem C34_refuted : exists r1 arr1 m1 r2 arr2 m2,
  conv_call mem_cv none 1 1 0 0 0 1 None (V_of mem_cv 0 4 4) (V_of mem_cv 1 1 1) /\
  MatConvNaive Zin (Bz HNaive) 1 1 0 0 0 1 none None mem_cv = Ok ((r1, arr1), m1) /\
  conv_call m1 arr1 1 1 1 1 2 1 None (V_of m1 2 2 2) (V_of m1 1 1 1) /\
  MatConvNaive Zin (Bz HNaive) 1 1 1 1 2 1 arr1 None m1 = Ok ((r2, arr2), m2) /\
  val m2 r2 0 0 = 1%Z /\ mf (convolution 1 1 1 1 (V_of m1 2 2 2) (V_of m1 1 1 1)) 0 0 = 0%Z.
Proof.
  eexists _, _, _, _, _, _. split; [|split; [|split; [|split]]].
  - constructor; simpl; try lia; try discriminate.
    + split; [eexists _, _, _; split; reflexivity|auto].
    + split; [eexists _, _, _; split; reflexivity|auto].
    + split; [exact Logic.I|]. discriminate.
  - vm_compute. reflexivity.
  - constructor; try (simpl; lia).
    + split; [eexists _, _, _; split; reflexivity|auto].
    + split; [eexists _, _, _; split; reflexivity|auto].
    + intros k. do 5 (destruct k as [|k]; [discriminate|]). discriminate.
    + intros k. do 5 (destruct k as [|k]; [discriminate|]). discriminate.
    + split; [exact Logic.I|]. discriminate.
  - vm_compute. reflexivity.
  - split; vm_compute; reflexivity.
Qed.
Print Assumptions C34_refuted.
(** Zero strides are rejected. *)
Theorem C34_reject : forall {T} {N : Num T} (S : sched T) (B : backend) sx sy px py lhs rhs arr result (m : mem T), sx = 0 \/ sy = 0 ->
  MatConvNaive S B sx sy px py lhs rhs arr result m = Rejected /\ MatConvEigen S sx sy px py lhs rhs (arr 0) result m = Rejected.
Proof. intros T N S B sx sy px py lhs rhs arr result m [-> | ->]; unfold MatConvNaive, MatConvEigen, bind, assert; simpl; auto. rewrite andb_false_r. auto. Qed.
Print Assumptions C34_reject.

(** ** C53 The forward derivative of a convolution *)
Theorem C53_history : forall {T} {N : Num T}, NumLaws N -> forall (S : sched T), valid_sched S ->
  forall h m arr last xr xc sx sy px py lhs dlhs rhs drhs result vx vdx vk vdk,
  dconv_hist S (backend_of S h) m arr last -> dconv_call m arr xr xc sx sy px py lhs dlhs rhs drhs result vx vdx vk vdk ->
  dfits last (mr vx) (mc vx) px py xr xc ->
  exists r arr' m', MatDervConvNaive S (backend_of S h) xr xc sx sy px py lhs dlhs rhs drhs arr result m = Ok ((r, arr'), m') /\
    holds m' r (dconvolution xr xc sx sy px py vx vdx vk vdk) /\ (result = Some r \/ length (objs m) <= r) /\
    (forall q, q < length (objs m) -> result <> Some q -> (forall k, arr k <> Some q) -> get m' q = get m q) /\
    dconv_hist S (backend_of S h) m' arr' (Some (mr vx, mc vx, px, py, xr, xc)).
Proof.
  exact (fun T N L S VS h => @dconv_history_ok T N L S VS (backend_of S h) (@backend_value T N S VS h (fun _ => L)) (backend_kron_zeroed VS h L)).
Qed.
Print Assumptions C53_history.
(** ... and that matrix is the derivative in the sense of calculus: if the (u,w) components of
    dx and dk are the derivatives of the entries of the input and of the kernel, the (u,w)
    component of the result is the derivative of the entry of the convolution. *)
Theorem C53_calculus : forall (x k : R -> mat R) (dx dk : mat R) xr xc sx sy px py u w t i j, u < xr -> w < xc ->
  (forall s, mr (x s) = mr (x t) /\ mc (x s) = mc (x t) /\ mr (k s) = mr (k t) /\ mc (k s) = mc (k t)) ->
  mr dx = mr (x t) * xr -> mc dx = mc (x t) * xc ->
  (forall i j, i < mr (x t) -> j < mc (x t) -> derivable_pt_lim (fun s => mf (x s) i j) t (mf dx (i * xr + u) (j * xc + w))) ->
  (forall i j, i < mr (k t) -> j < mc (k t) -> derivable_pt_lim (fun s => mf (k s) i j) t (mf dk (i * xr + u) (j * xc + w))) ->
  derivable_pt_lim (fun s => mf (convolution sx sy px py (x s) (k s)) i j) t
    (mf (dconvolution xr xc sx sy px py (x t) dx (k t) dk) (i * xr + u) (j * xc + w)).
Proof. exact conv_diff. Qed.
Print Assumptions C53_calculus.
Example C53_calculus_nonvacuous : derivable_pt_lim (fun s => mf (Mat 1 1 (fun _ _ => s)) 0 0) 3%R (mf (Mat 2 2 (fun i j => if (i =? 1) && (j =? 0) then 1%R else 0%R)) 1 0).
Proof. simpl. exact (derivable_pt_lim_id 3). Qed.
(** Derivative of conv(X, K) with respect to a 1x1 variable: dX = ones, dK = 0. *)
Definition mem_dv : mem Z := mem_of [mk 0 4 4 (repeat 1%Z 16); mk 1 1 1 [1%Z]; mk 2 2 2 [1;2;3;4]%Z; mk 3 2 2 [1;1;1;1]%Z; mk 4 1 1 [0%Z]].
Lemma tame_dv : tame mem_dv.
Proof.
  split; [|split; [split|]].
  - intros p o H. do 5 (destruct p as [|p]; [injection H as <-; simpl; repeat split; lia|]). destruct p; discriminate.
  - intros p o H. do 5 (destruct p as [|p]; [injection H as <-; simpl; split; [reflexivity|lia]|]). destruct p; discriminate.
  - intros p q o o' H H'. do 5 (destruct p as [|p]; [injection H as <-; do 5 (destruct q as [|q]; [injection H' as <-; simpl; congruence|]); destruct q; discriminate|]). destruct p; discriminate.
  - intros k sp R C p [].
Qed.
Example C53_nonvacuous : dconv_hist Zin (Bz HNaive) mem_dv none None /\
  dconv_call mem_dv none 1 1 1 1 1 1 2 3 1 4 None (V_of mem_dv 2 2 2) (V_of mem_dv 3 2 2) (V_of mem_dv 1 1 1) (V_of mem_dv 4 1 1) /\
  exists r arr m', MatDervConvNaive Zin (Bz HNaive) 1 1 1 1 1 1 2 3 1 4 none None mem_dv = Ok ((r, arr), m') /\
    is_mat m' r 4 4 /\ val m' r 0 0 = 0%Z /\ val m' r 1 1 = 1%Z.
Proof.
  split; [constructor; exact tame_dv|]. split.
  - constructor; simpl; try lia; try discriminate; try (split; [eexists _, _, _; split; reflexivity|auto]); auto.
    split; [exact Logic.I|]. discriminate.
  - eexists _, _, _. split; [vm_compute; reflexivity|]. split; [eexists _, _, _; split; reflexivity|]. split; reflexivity.
Qed.
(** False in general: the derivative's padding buffer is never cleared either. *)
Theorem C53_refuted : exists r1 arr1 m1 r2 arr2 m2,
  MatDervConvNaive Zin (Bz HNaive) 1 1 1 1 0 0 0 0 1 1 none None mem_dv = Ok ((r1, arr1), m1) /\
  dconv_call m1 arr1 1 1 1 1 1 1 2 3 1 4 None (V_of m1 2 2 2) (V_of m1 3 2 2) (V_of m1 1 1 1) (V_of m1 4 1 1) /\
  MatDervConvNaive Zin (Bz HNaive) 1 1 1 1 1 1 2 3 1 4 arr1 None m1 = Ok ((r2, arr2), m2) /\
  val m2 r2 0 0 = 1%Z /\ mf (dconvolution 1 1 1 1 1 1 (V_of m1 2 2 2) (V_of m1 3 2 2) (V_of m1 1 1 1) (V_of m1 4 1 1)) 0 0 = 0%Z.
Proof.
  eexists _, _, _, _, _, _. split; [vm_compute; reflexivity|]. split.
  - constructor; try (simpl; lia); try (split; [eexists _, _, _; split; reflexivity|auto]); auto.
    + intros q k Hq. assert (Hq' : q = 1 \/ q = 2 \/ q = 3 \/ q = 4) by (simpl in Hq; lia).
      do 13 (destruct k as [|k]; [intros [= <-]; lia|]). discriminate.
    + split; [exact Logic.I|]. discriminate.
  - split; [vm_compute; reflexivity|]. split; vm_compute; reflexivity.
Qed.
Print Assumptions C53_refuted.

(** ** C43 Reverse mode *)
(** The adjoint of the kernel is right for stride 1: its shape is the kernel's, and its
    pairing with any direction dK is the pairing of the incoming adjoint with conv(X, dK). *)
Theorem C43_kernel : forall {T} {N : Num T}, NumLaws N -> forall (S : sched T), valid_sched S ->
  forall (m : mem T) padbuf a2 a3 px py left right c vx vk vc,
  tame m -> slot_ok m padbuf -> slot_ok m a2 -> slot_ok m a3 -> holds m left vx -> holds m right vk -> holds m c vc ->
  (forall q, padbuf = Some q -> q <> left /\ q <> right /\ q <> c /\ a2 <> Some q /\ a3 <> Some q) ->
  (forall q, a2 = Some q -> q <> left /\ q <> right /\ q <> c /\ a3 <> Some q) ->
  (forall q, a3 = Some q -> q <> left /\ q <> right /\ q <> c) ->
  mr vk <= mr vx + 2 * px -> mc vk <= mc vx + 2 * py ->
  mr vc = mr (convolution 1 1 px py vx vk) -> mc vc = mc (convolution 1 1 px py vx vk) ->
  mr vk <= mr vc + 2 * px -> mc vk <= mc vc + 2 * py ->
  exists r2 r3 pb m' g, conv_traverse S 1 1 px py left right c padbuf a2 a3 m = Ok ((r2, r3, pb), m') /\
    holds m' r3 g /\ mr g = mr vk /\ mc g = mc vk /\
    forall dk, mr dk = mr vk -> mc dk = mc vk ->
      pairing (mr vc) (mc vc) vc (convolution 1 1 px py vx dk) = pairing (mr vk) (mc vk) g dk.
Proof.
  intros T N L S VS m padbuf a2 a3 px py left right c vx vk vc Tm Sp S2 S3 Hx Hk Hc Dp D2 D3 Br Bc Cr Cc Br' Bc'.
  destruct (conv_traverse_ok VS Tm Sp S2 S3 Hx Hk Hc Dp D2 D3 Br Bc Cr Cc Br' Bc') as (r2 & r3 & pb & m' & E & H2 & H3).
  destruct (tame_pos Tm Hk) as [PR PC].
  exists r2, r3, pb, m', (convolution 1 1 px py vx vc). split; [exact E|]. split; [exact H3|].
  destruct (@kernel_adjoint T N L px py vx vk vc vk PR PC Br Bc eq_refl eq_refl Cr Cc) as (A1 & A2 & _). split; [exact A1|]. split; [exact A2|].
  intros dk E1 E2. exact (proj2 (proj2 (@kernel_adjoint T N L px py vx vk vc dk PR PC Br Bc E1 E2 Cr Cc))).
Qed.
Print Assumptions C43_kernel.
(** The adjoint of the input: its shape is the input's exactly for "same" padding
    (2p + 1 = kernel size) ... *)
Theorem C43_input_shape : forall {T} {N : Num T}, NumLaws N -> forall (S : sched T), valid_sched S ->
  forall (m : mem T) padbuf a2 a3 px py left right c vx vk vc,
  tame m -> slot_ok m padbuf -> slot_ok m a2 -> slot_ok m a3 -> holds m left vx -> holds m right vk -> holds m c vc ->
  (forall q, padbuf = Some q -> q <> left /\ q <> right /\ q <> c /\ a2 <> Some q /\ a3 <> Some q) ->
  (forall q, a2 = Some q -> q <> left /\ q <> right /\ q <> c /\ a3 <> Some q) ->
  (forall q, a3 = Some q -> q <> left /\ q <> right /\ q <> c) ->
  mr vk <= mr vx + 2 * px -> mc vk <= mc vx + 2 * py ->
  mr vc = mr (convolution 1 1 px py vx vk) -> mc vc = mc (convolution 1 1 px py vx vk) ->
  mr vk <= mr vc + 2 * px -> mc vk <= mc vc + 2 * py ->
  exists r2 r3 pb m' g, conv_traverse S 1 1 px py left right c padbuf a2 a3 m = Ok ((r2, r3, pb), m') /\ holds m' r2 g /\
    (mr g = mr vx /\ mc g = mc vx <-> mr vk = 2 * px + 1 /\ mc vk = 2 * py + 1) /\
    (* ... and then it is right for kernels that equal their rotation by 180 degrees *)
    (mr vk = 2 * px + 1 -> mc vk = 2 * py + 1 ->
     (forall a b, a < mr vk -> b < mc vk -> mf vk a b = mf vk (mr vk - 1 - a) (mc vk - 1 - b)) ->
     forall dx, mr dx = mr vx -> mc dx = mc vx ->
      pairing (mr vx) (mc vx) vc (convolution 1 1 px py dx vk) = pairing (mr vx) (mc vx) g dx).
Proof.
  intros T N L S VS m padbuf a2 a3 px py left right c vx vk vc Tm Sp S2 S3 Hx Hk Hc Dp D2 D3 Br Bc Cr Cc Br' Bc'.
  destruct (conv_traverse_ok VS Tm Sp S2 S3 Hx Hk Hc Dp D2 D3 Br Bc Cr Cc Br' Bc') as (r2 & r3 & pb & m' & E & H2 & H3).
  exists r2, r3, pb, m', (convolution 1 1 px py vc vk). split; [exact E|]. split; [exact H2|].
  cbn [mr convolution] in Cr. cbn [mc convolution] in Cc. rewrite conv_out_1 in Cr by auto. rewrite conv_out_1 in Cc by auto. split.
  - cbn [mr mc convolution]. rewrite !conv_out_1 by auto. lia.
  - intros K1 K2 Sym dx X1 X2. rewrite (@input_adjoint T N L px py vx vk vc dx); auto; try lia.
    unfold pairing. apply sum_n_ext. intros i _. apply sum_n_ext. intros j _. f_equal. cbn [mf convolution].
    apply sum_n_ext. intros a Ha. apply sum_n_ext. intros b Hb. f_equal. simpl. symmetry. now apply Sym.
Qed.
Print Assumptions C43_input_shape.
(** False otherwise: 3x3 input, 2x2 kernel, no padding, adjoint 2x2: the input's adjoint has
    one row; and with "same" padding and the kernel (0 0 1) the adjoint (1 0 0) is pulled back
    to 0 at the entry the output depends on. *)
Theorem C43_refuted :
  (exists r2 r3 pb m', conv_traverse Zin 1 1 0 0 3 4 4 None None None mem_cv = Ok ((r2, r3, pb), m') /\
     is_mat mem_cv 3 3 3 /\ is_mat m' r2 1 1) /\
  (let k := Mat 1 3 (fun _ b => if b =? 2 then 1%Z else 0%Z) in let c := Mat 1 3 (fun _ b => if b =? 0 then 1%Z else 0%Z) in
   pairing 1 3 c (convolution 1 1 0 1 (Mat 1 3 (fun _ b => if b =? 1 then 1%Z else 0%Z)) k) = 1%Z /\
   mf (convolution 1 1 0 1 c k) 0 1 = 0%Z) /\
  (* stride 2, padding 1: the 1x2 kernel's adjoint is 1x1 *)
  (let m := mem_of [mk 0 1 3 [5;6;7]%Z; mk 1 1 2 [1;1]%Z; mk 2 1 2 [1;1]%Z] in
   exists r2 r3 pb m', conv_traverse Zin 2 2 0 1 0 1 2 None None None m = Ok ((r2, r3, pb), m') /\ is_mat m 1 1 2 /\ is_mat m' r3 1 1).
Proof.
  split.
  - eexists _, _, _, _. split; [vm_compute; reflexivity|]. split; eexists _, _, _; split; reflexivity.
  - split; [split; reflexivity|]. eexists _, _, _, _. split; [vm_compute; reflexivity|]. split; eexists _, _, _; split; reflexivity.
Qed.
Print Assumptions C43_refuted.
Example C43_nonvacuous : exists r2 r3 pb m', conv_traverse Zin 1 1 0 0 3 4 4 None None None mem_cv = Ok ((r2, r3, pb), m') /\
  is_mat m' r3 2 2 /\ val m' r3 0 0 = 11%Z /\ val m' r3 1 1 = 23%Z.
Proof. eexists _, _, _, _. split; [vm_compute; reflexivity|]. split; [eexists _, _, _; split; reflexivity|]. split; reflexivity. Qed.

(** ** C54 Dimension check *)
(** Model of GenericMatConv::verifyDim with getNumRows/getNumColumns (GenericMatConv.hpp:45-48,
    77-84): size_t arithmetic modulo 2^64, then a cast to a 32-bit int. *)
Local Open Scope Z_scope.
Definition u64 (z : Z) : Z := z mod 2 ^ 64.
Definition to_int (z : Z) : Z := let w := z mod 2 ^ 32 in if w <? 2 ^ 31 then w else w - 2 ^ 32.
Definition out_size (n p k s : Z) : Z := u64 (u64 (n + 2 * p - k) / s + 1).
Definition verify_dim (nr nc pr pc kr kc sx sy : Z) : bool := (0 <? to_int (out_size nr pr kr sx)) || (0 <? to_int (out_size nc pc kc sy)).
Lemma out_size_small n p k s : 0 < s -> 0 <= n + 2 * p - k < 2 ^ 30 -> to_int (out_size n p k s) = (n + 2 * p - k) / s + 1.
Proof.
  intros Hs H. unfold out_size, u64, to_int.
  assert (0 <= (n + 2 * p - k) / s) by (apply Z.div_pos; lia).
  assert ((n + 2 * p - k) / s <= n + 2 * p - k) by (apply Z.div_le_upper_bound; nia).
  change (2 ^ 64) with 18446744073709551616. change (2 ^ 32) with 4294967296. change (2 ^ 31) with 2147483648. change (2 ^ 30) with 1073741824 in *.
  rewrite (Z.mod_small (n + 2 * p - k)) by lia.
  rewrite (Z.mod_small (_ / s + 1) 18446744073709551616) by lia. rewrite Z.mod_small by lia.
  destruct (_ <? 2147483648) eqn:E; auto. apply Z.ltb_ge in E. lia.
Qed.
(** Every legal convolution is accepted ... *)
Theorem C54_accepts : forall nr nc pr pc kr kc sx sy, 0 < sx -> 0 < sy ->
  0 <= nr + 2 * pr - kr < 2 ^ 30 -> 0 <= nc + 2 * pc - kc < 2 ^ 30 -> verify_dim nr nc pr pc kr kc sx sy = true.
Proof.
  intros nr nc pr pc kr kc sx sy Hx Hy Hr Hc. unfold verify_dim. rewrite out_size_small by auto.
  assert (0 <= (nr + 2 * pr - kr) / sx) by (apply Z.div_pos; lia). apply orb_true_iff. left. apply Z.ltb_lt. lia.
Qed.
Print Assumptions C54_accepts.
(** ... but so is every kernel that is too tall, as long as it is not too wide. *)
Theorem C54_refuted : forall nr nc pr pc kr kc sx sy, 0 < sy -> 0 <= nc + 2 * pc - kc < 2 ^ 30 -> nr + 2 * pr < kr ->
  verify_dim nr nc pr pc kr kc sx sy = true.
Proof.
  intros nr nc pr pc kr kc sx sy Hy Hc _. unfold verify_dim. rewrite (out_size_small nc) by auto.
  assert (0 <= (nc + 2 * pc - kc) / sy) by (apply Z.div_pos; lia). apply orb_true_iff. right. apply Z.ltb_lt. lia.
Qed.
Print Assumptions C54_refuted.
Example C54_nonvacuous : verify_dim 2 2 0 0 5 2 1 1 = true /\ verify_dim 2 2 0 0 3 3 1 1 = false /\ verify_dim 3 3 1 1 3 3 2 2 = true.
Proof. repeat split; reflexivity. Qed.
