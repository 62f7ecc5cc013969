(** * Convolutions: reverse mode and calculus *)
From Coq Require Import List Arith Bool Lia Ring Reals Lra.
From Verif Require Import Num MatMem Kernels KernelFacts KernelProofs KernelBlocks KernelMore Registry KernelStep Backend Slots Exec Sums Conv ConvProofs ConvDerv NumInst Calculus.
Import ListNotations.
Set Implicit Arguments.
Unset Strict Implicit.
Local Open Scope nat_scope.

Section Rev.
Context {T : Type} {N : Num T}.
Notation mem := (mem T).
Notation M := (M T).
Notation mat := (mat T).
Notation "x <- c ;; k" := (bind c (fun x => k)) (at level 61, c at next level, right associativity).
Variable S : sched T.
Implicit Types (m : mem).

(** GenericMatConv::traverse with the cached adjoint c of the node, the two MATRIX_CONV calls
    (GenericMatConv.hpp:262-285) with Eigen's handler.  An adjoint padding that would be
    negative wraps around in C++: [Undefined] here.  The cache bookkeeping around the calls is
    not part of this definition. *)
Definition conv_traverse (sx sy px py : nat) (left right c : ptr) (padbuf arr2 arr3 : option ptr) : M (ptr * ptr * ptr) :=
  rp <- MatConvEigen S sx sy px py c right padbuf arr2 ;;
  lo <- deref left ;; ro <- deref right ;; co <- deref c ;;
  if (sx * (o_rows ro - 1) + o_rows co <? o_rows lo) || (sy * (o_cols ro - 1) + o_cols co <? o_cols lo) then fun _ => Undefined else
  let px' := (sx * (o_rows ro - 1) + o_rows co - o_rows lo) / 2 in
  let py' := (sy * (o_cols ro - 1) + o_cols co - o_cols lo) / 2 in
  rq <- MatConvEigen S sx sy px' py' left c (Some (snd rp)) arr3 ;;
  ret (fst rp, fst rq, snd rq).

(** Sum of the products of the entries: the pairing of an adjoint with a direction. *)
Definition pairing (R C : nat) (v w : mat) : T := sum_n R (fun i => sum_n C (fun j => nmul (mf v i j) (mf w i j))).

Hypothesis L : NumLaws N.
Add Ring TR : (law_ring N L).

Lemma conv_out_1 n p k : k <= n + 2 * p -> conv_out n p k 1 = n + 2 * p - k + 1.
Proof. intros H. unfold conv_out. now rewrite Nat.div_1_r. Qed.

Lemma sum4_swap R C R' C' (f : nat -> nat -> nat -> nat -> T) :
  sum_n R (fun i => sum_n C (fun j => sum_n R' (fun a => sum_n C' (fun b => f i j a b)))) =
  sum_n R' (fun a => sum_n C' (fun b => sum_n R (fun i => sum_n C (fun j => f i j a b)))).
Proof.
  transitivity (sum_n R (fun i => sum_n R' (fun a => sum_n C' (fun b => sum_n C (fun j => f i j a b))))).
  { apply sum_n_ext. intros i _. rewrite (sum_swap L). apply sum_n_ext. intros a _. apply (sum_swap L). }
  rewrite (sum_swap L). apply sum_n_ext. intros a _. apply (sum_swap L).
Qed.

(** The kernel adjoint. *)
Lemma kernel_adjoint px py (x k c dk : mat) :
  0 < mr k -> 0 < mc k -> mr k <= mr x + 2 * px -> mc k <= mc x + 2 * py -> mr dk = mr k -> mc dk = mc k ->
  mr c = conv_out (mr x) px (mr k) 1 -> mc c = conv_out (mc x) py (mc k) 1 ->
  let g := convolution 1 1 px py x c in
  mr g = mr k /\ mc g = mc k /\
  pairing (mr c) (mc c) c (convolution 1 1 px py x dk) = pairing (mr k) (mc k) g dk.
Proof.
  intros Pr Pc Hr Hc Dr Dc Cr Cc g. rewrite conv_out_1 in Cr by auto. rewrite conv_out_1 in Cc by auto. split; [|split].
  - unfold g. cbn [mr convolution]. rewrite conv_out_1; lia.
  - unfold g. cbn [mc convolution]. rewrite conv_out_1; lia.
  - unfold pairing, g. cbn [mf convolution].
    transitivity (sum_n (mr c) (fun i => sum_n (mc c) (fun j => sum_n (mr k) (fun a => sum_n (mc k) (fun b =>
       nmul (mf c i j) (nmul (mf (padded x px py) (i * 1 + a) (j * 1 + b)) (mf dk a b))))))).
    { apply sum_n_ext. intros i _. apply sum_n_ext. intros j _. rewrite Dr, Dc. rewrite <- (sum_mul_l L). apply sum_n_ext. intros a _. now rewrite <- (sum_mul_l L). }
    rewrite sum4_swap. apply sum_n_ext. intros a _. apply sum_n_ext. intros b _.
    rewrite <- (sum_mul_r L). apply sum_n_ext. intros i _. rewrite <- (sum_mul_r L). apply sum_n_ext. intros j _.
    replace (a * 1 + i) with (i * 1 + a) by lia. replace (b * 1 + j) with (j * 1 + b) by lia. ring.
Qed.

Lemma sum_rev n (f : nat -> T) : sum_n n f = sum_n n (fun k => f (n - 1 - k)).
Proof.
  induction n as [|n IH]; auto.
  transitivity (nadd (f n) (sum_n n (fun k => f (n - 1 - k)))); [simpl; rewrite <- IH; ring|].
  change (Datatypes.S n) with (1 + n). rewrite (@sum_app T N L 1 n). f_equal.
  - rewrite (sum_1 L). f_equal. lia.
  - apply sum_n_ext. intros k Hk. f_equal. lia.
Qed.
Lemma padded_sum (v : mat) px py s t :
  mf (padded v px py) s t = sum_n (mr v) (fun i => sum_n (mc v) (fun j => if (s =? i + px) && (t =? j + py) then mf v i j else n0)).
Proof.
  simpl. destruct ((px <=? s) && (s <? px + mr v) && (py <=? t) && (t <? py + mc v)) eqn:E.
  - rewrite !andb_true_iff, !Nat.leb_le, !Nat.ltb_lt in E. destruct E as (((A1 & A2) & A3) & A4).
    rewrite <- (@sum_delta T N L (mr v) (s - px) (fun i => mf v i (t - py))) by lia.
    apply sum_n_ext. intros i Hi.
    destruct (i =? s - px) eqn:Ei.
    + apply Nat.eqb_eq in Ei. replace (s =? i + px) with true by (symmetry; apply Nat.eqb_eq; lia). simpl.
      rewrite <- (@sum_delta T N L (mc v) (t - py) (fun j => mf v i j)) by lia.
      apply sum_n_ext. intros j Hj. replace (t =? j + py) with (j =? t - py); auto.
      apply eq_true_iff_eq. rewrite !Nat.eqb_eq. lia.
    + apply Nat.eqb_neq in Ei. symmetry. apply (sum_zero L). intros j Hj. replace (s =? i + px) with false; auto. symmetry. apply Nat.eqb_neq. lia.
  - symmetry. apply (sum_zero L). intros i Hi. apply (sum_zero L). intros j Hj.
    destruct ((s =? i + px) && (t =? j + py)) eqn:E2; auto. apply andb_prop in E2. destruct E2 as [B1 B2]. apply Nat.eqb_eq in B1, B2.
    exfalso. revert E. rewrite <- not_true_iff_false. intros E. apply E. rewrite !andb_true_iff, !Nat.leb_le, !Nat.ltb_lt. lia.
Qed.

(** The kernel read from the other corner. *)
Definition rotated (k : mat) : mat := Mat (mr k) (mc k) (fun a b => mf k (mr k - 1 - a) (mc k - 1 - b)).

(** The correct adjoint of the input with "same" padding convolves with the rotated kernel. *)
Lemma input_adjoint px py (x k c dx : mat) :
  mr k = 2 * px + 1 -> mc k = 2 * py + 1 -> mr dx = mr x -> mc dx = mc x -> mr c = mr x -> mc c = mc x ->
  pairing (mr x) (mc x) c (convolution 1 1 px py dx k) = pairing (mr x) (mc x) (convolution 1 1 px py c (rotated k)) dx.
Proof.
  intros Kr Kc Dr Dc Cr Cc. unfold pairing. cbn [mf convolution].
  set (f := fun i j a b i' j' => if (i + a =? i' + px) && (j + b =? j' + py) then nmul (nmul (mf c i j) (mf dx i' j')) (mf k a b) else n0).
  transitivity (sum_n (mr x) (fun i => sum_n (mc x) (fun j => sum_n (mr k) (fun a => sum_n (mc k) (fun b =>
     sum_n (mr x) (fun i' => sum_n (mc x) (fun j' => f i j a b i' j'))))))).
  { apply sum_n_ext. intros i _. apply sum_n_ext. intros j _. rewrite <- (sum_mul_l L). apply sum_n_ext. intros a _. rewrite <- (sum_mul_l L). apply sum_n_ext. intros b _.
    rewrite padded_sum, Dr, Dc. rewrite <- (sum_mul_r L), <- (sum_mul_l L). apply sum_n_ext. intros i' _. rewrite <- (sum_mul_r L), <- (sum_mul_l L). apply sum_n_ext. intros j' _.
    unfold f. rewrite !Nat.mul_1_r. destruct (_ && _); ring. }
  symmetry.
  transitivity (sum_n (mr x) (fun i' => sum_n (mc x) (fun j' => sum_n (mr k) (fun a => sum_n (mc k) (fun b =>
     sum_n (mr x) (fun i => sum_n (mc x) (fun j => f i j a b i' j'))))))).
  { apply sum_n_ext. intros i' _. apply sum_n_ext. intros j' _. cbn [rotated mr mc mf].
    rewrite (sum_rev (mr k)). rewrite <- (sum_mul_r L). apply sum_n_ext. intros a Ha. rewrite (sum_rev (mc k)). rewrite <- (sum_mul_r L). apply sum_n_ext. intros b Hb.
    rewrite padded_sum, Cr, Cc. rewrite <- !(sum_mul_r L). apply sum_n_ext. intros i _. rewrite <- !(sum_mul_r L). apply sum_n_ext. intros j _.
    unfold f. replace (mr k - 1 - (mr k - 1 - a)) with a by lia. replace (mc k - 1 - (mc k - 1 - b)) with b by lia.
    replace (i' * 1 + (mr k - 1 - a) =? i + px) with (i + a =? i' + px) by (apply eq_true_iff_eq; rewrite !Nat.eqb_eq; lia).
    replace (j' * 1 + (mc k - 1 - b) =? j + py) with (j + b =? j' + py) by (apply eq_true_iff_eq; rewrite !Nat.eqb_eq; lia).
    destruct (_ && _); ring. }
  (* bring both to the order a, b, i, j, i', j' *)
  transitivity (sum_n (mr k) (fun a => sum_n (mc k) (fun b => sum_n (mr x) (fun i' => sum_n (mc x) (fun j' => sum_n (mr x) (fun i => sum_n (mc x) (fun j => f i j a b i' j'))))))).
  { apply (sum4_swap (mr x) (mc x) (mr k) (mc k) (fun i' j' a b => sum_n (mr x) (fun i => sum_n (mc x) (fun j => f i j a b i' j')))). }
  symmetry.
  transitivity (sum_n (mr k) (fun a => sum_n (mc k) (fun b => sum_n (mr x) (fun i => sum_n (mc x) (fun j => sum_n (mr x) (fun i' => sum_n (mc x) (fun j' => f i j a b i' j'))))))).
  { apply (sum4_swap (mr x) (mc x) (mr k) (mc k) (fun i j a b => sum_n (mr x) (fun i' => sum_n (mc x) (fun j' => f i j a b i' j')))). }
  apply sum_n_ext. intros a _. apply sum_n_ext. intros b _.
  apply (sum4_swap (mr x) (mc x) (mr x) (mc x) (fun i j i' j' => f i j a b i' j')).
Qed.

Hypothesis VS : valid_sched S.

(** What the two calls compute, for stride 1. *)
Theorem conv_traverse_ok m padbuf a2 a3 px py left right c vx vk vc :
  tame m -> slot_ok m padbuf -> slot_ok m a2 -> slot_ok m a3 ->
  holds m left vx -> holds m right vk -> holds m c vc ->
  (forall q, padbuf = Some q -> q <> left /\ q <> right /\ q <> c /\ a2 <> Some q /\ a3 <> Some q) ->
  (forall q, a2 = Some q -> q <> left /\ q <> right /\ q <> c /\ a3 <> Some q) ->
  (forall q, a3 = Some q -> q <> left /\ q <> right /\ q <> c) ->
  mr vk <= mr vx + 2 * px -> mc vk <= mc vx + 2 * py ->
  mr vc = conv_out (mr vx) px (mr vk) 1 -> mc vc = conv_out (mc vx) py (mc vk) 1 ->
  mr vk <= mr vc + 2 * px -> mc vk <= mc vc + 2 * py ->
  exists r2 r3 pb m', conv_traverse 1 1 px py left right c padbuf a2 a3 m = Ok ((r2, r3, pb), m') /\
    holds m' r2 (convolution 1 1 px py vc vk) /\ holds m' r3 (convolution 1 1 px py vx vc).
Proof.
  intros Tm Sp S2 S3 Hx Hk Hc Dp D2 D3 Br Bc Cr Cc Br' Bc'.
  rewrite conv_out_1 in Cr by auto. rewrite conv_out_1 in Cc by auto. destruct (tame_pos Tm Hk) as [PRk PCk].
  destruct (@conv_eigen_ok T N S VS m padbuf 1 1 px py c right a2 vc vk Tm Sp S2 Hc Hk) as (r2 & pb & m1 & E1 & H2 & W2 & Wp & Nr2 & Np & N2p & Hpb & Ev1); auto.
  { intros q Q. destruct (Dp _ Q) as (_ & A1 & A2 & A3 & _). auto. }
  { intros q Q. destruct (D2 _ Q) as (_ & A1 & A2 & _). auto. }
  pose proof (ev_len Ev1) as Le. pose proof (ev_tame Ev1) as Tm1.
  assert (Kp : forall q w, a2 <> Some q -> padbuf <> Some q -> holds m q w -> holds m1 q w).
  { intros q w Q1 Q2 H. eapply holds_evolves; eauto. intros [Q|Q]; auto. }
  assert (Hx1 : holds m1 left vx). { apply Kp; auto; intros Q; [destruct (D2 _ Q)|destruct (Dp _ Q)]; intuition congruence. }
  assert (Hk1 : holds m1 right vk). { apply Kp; auto; intros Q; [destruct (D2 _ Q)|destruct (Dp _ Q)]; intuition congruence. }
  assert (Hc1 : holds m1 c vc). { apply Kp; auto; intros Q; [destruct (D2 _ Q)|destruct (Dp _ Q)]; intuition congruence. }
  assert (Ep : (1 * (mr vk - 1) + mr vc - mr vx) / 2 = px).
  { replace (1 * (mr vk - 1) + mr vc - mr vx) with (px * 2) by lia. now apply Nat.div_mul. }
  assert (Eq : (1 * (mc vk - 1) + mc vc - mc vx) / 2 = py).
  { replace (1 * (mc vk - 1) + mc vc - mc vx) with (py * 2) by lia. now apply Nat.div_mul. }
  assert (Lp : length (objs m) <= pb \/ padbuf = Some pb) by tauto.
  assert (Pb : pb <> left /\ pb <> right /\ pb <> c /\ a3 <> Some pb).
  { pose proof (holds_lt Hx). pose proof (holds_lt Hk). pose proof (holds_lt Hc). destruct Lp as [Q|Q].
    - assert (a3 <> Some pb). { intros ->. destruct S3 as ((o & Ho) & _). apply get_lt in Ho. lia. } repeat split; auto; lia.
    - destruct (Dp _ Q) as (? & ? & ? & ? & ?). auto. }
  assert (Na3 : forall q, a3 = Some q -> q < length (objs m) /\ a2 <> Some q /\ padbuf <> Some q).
  { intros q ->. destruct S3 as ((o & Ho) & _). split; [exact (get_lt Ho)|]. split; intros Q; [destruct (D2 _ Q) as (_ & _ & _ & A)|destruct (Dp _ Q) as (_ & _ & _ & _ & A)]; auto. }
  assert (S3' : slot_ok m1 a3).
  { destruct a3 as [q|]; simpl; auto. destruct (Na3 _ eq_refl) as (Lq & A1 & A2). destruct S3 as ((o & Ho) & Nsq).
    split; [exists o; rewrite (ev_frame Ev1 Lq); auto; tauto|]. rewrite (ev_special Ev1 Lq). exact Nsq. }
  destruct (@conv_eigen_ok T N S VS m1 (Some pb) 1 1 px py left c a3 vx vc Tm1) as (r3 & pb' & m2 & E2 & H3 & W3 & _ & _ & _ & _ & _ & Ev2); auto; try lia.
  { split; [exact (holds_get Hpb)|exact Np]. }
  { intros q [= <-]. tauto. }
  { intros q Q. destruct (D3 _ Q) as (A1 & _ & A2). auto. }
  exists r2, r3, pb', m2. split; [|split].
  - unfold conv_traverse. unfold bind at 1. rewrite E1.
    destruct Hx1 as ((k1 & sp1 & b1 & G1 & _) & _). destruct Hk1 as ((k2 & sp2 & b2 & G2 & _) & _). destruct Hc1 as ((k3 & sp3 & b3 & G3 & _) & _).
    unfold bind at 1, deref at 1. rewrite G1. unfold bind at 1, deref at 1. rewrite G2. unfold bind at 1, deref at 1. rewrite G3. cbn [o_rows o_cols fst snd].
    replace (1 * (mr vk - 1) + mr vc <? mr vx) with false by (symmetry; apply Nat.ltb_ge; lia).
    replace (1 * (mc vk - 1) + mc vc <? mc vx) with false by (symmetry; apply Nat.ltb_ge; lia). cbn [orb]. cbv zeta.
    rewrite Ep, Eq. unfold bind at 1. rewrite E2. reflexivity.
  - eapply holds_evolves; [exact Ev2| |exact H2]. intros [Q|[= Q]]; [|auto].
    destruct (Na3 _ Q) as (Lq & A1 & _). destruct W2 as [W|W]; [auto|lia].
  - exact H3.
Qed.
End Rev.

(** ** Calculus *)
Section Calc.
Local Open Scope R_scope.
Lemma dlim_sum n (f : nat -> R -> R) (d : nat -> R) t : (forall k, (k < n)%nat -> derivable_pt_lim (f k) t (d k)) ->
  derivable_pt_lim (fun s => sum_n n (fun k => f k s)) t (sum_n n d).
Proof.
  induction n as [|n IH]; intros H; simpl.
  - apply dlim_const.
  - apply (dlim_plus (fun s => sum_n n (fun k => f k s)) (f n)); auto.
Qed.
Lemma padded_diff (x : R -> mat R) (dx : mat R) px py xr xc u w t i j : (u < xr)%nat -> (w < xc)%nat ->
  (forall s, mr (x s) = mr (x t) /\ mc (x s) = mc (x t)) -> mr dx = (mr (x t) * xr)%nat -> mc dx = (mc (x t) * xc)%nat ->
  (forall i j, (i < mr (x t))%nat -> (j < mc (x t))%nat -> derivable_pt_lim (fun s => mf (x s) i j) t (mf dx (i * xr + u) (j * xc + w))) ->
  derivable_pt_lim (fun s => mf (padded (x s) px py) i j) t (mf (padded dx (px * xr) (py * xc)) (i * xr + u) (j * xc + w)).
Proof.
  intros Hu Hw Hd Dr Dc H. simpl. rewrite Dr, Dc.
  assert (E : (px * xr <=? i * xr + u) && (i * xr + u <? px * xr + mr (x t) * xr) && (py * xc <=? j * xc + w) && (j * xc + w <? py * xc + mc (x t) * xc)
            = (px <=? i) && (i <? px + mr (x t)) && (py <=? j) && (j <? py + mc (x t))).
  { apply eq_true_iff_eq. rewrite !andb_true_iff, !Nat.leb_le, !Nat.ltb_lt. split; intros (((A1 & A2) & A3) & A4); repeat split; nia. }
  rewrite E. destruct ((px <=? i) && (i <? px + mr (x t)) && (py <=? j) && (j <? py + mc (x t))) eqn:Eb.
  - rewrite !andb_true_iff, !Nat.leb_le, !Nat.ltb_lt in Eb. destruct Eb as (((A1 & A2) & A3) & A4).
    apply (dlim_ext (fun s => mf (x s) (i - px) (j - py))).
    + intros s. destruct (Hd s) as [-> ->]. apply Nat.leb_le in A1, A3. apply Nat.ltb_lt in A2, A4. now rewrite A1, A2, A3, A4.
    + replace (i * xr + u - px * xr)%nat with ((i - px) * xr + u)%nat by nia. replace (j * xc + w - py * xc)%nat with ((j - py) * xc + w)%nat by nia.
      apply H; lia.
  - apply (dlim_ext (fun _ => 0)).
    + intros s. destruct (Hd s) as [-> ->]. now rewrite Eb.
    + apply dlim_const.
Qed.
Theorem conv_diff (x k : R -> mat R) (dx dk : mat R) xr xc sx sy px py u w t i j : (u < xr)%nat -> (w < xc)%nat ->
  (forall s, mr (x s) = mr (x t) /\ mc (x s) = mc (x t) /\ mr (k s) = mr (k t) /\ mc (k s) = mc (k t)) ->
  mr dx = (mr (x t) * xr)%nat -> mc dx = (mc (x t) * xc)%nat ->
  (forall i j, (i < mr (x t))%nat -> (j < mc (x t))%nat -> derivable_pt_lim (fun s => mf (x s) i j) t (mf dx (i * xr + u) (j * xc + w))) ->
  (forall i j, (i < mr (k t))%nat -> (j < mc (k t))%nat -> derivable_pt_lim (fun s => mf (k s) i j) t (mf dk (i * xr + u) (j * xc + w))) ->
  derivable_pt_lim (fun s => mf (convolution sx sy px py (x s) (k s)) i j) t
    (mf (dconvolution xr xc sx sy px py (x t) dx (k t) dk) (i * xr + u) (j * xc + w)).
Proof.
  intros Hu Hw Hd Dr Dc Hx Hk. cbn [convolution dconvolution mf]. cbv zeta.
  destruct (divmod_block i Hu) as [-> ->]. destruct (divmod_block j Hw) as [-> ->].
  apply (dlim_ext (fun s => sum_n (mr (k t)) (fun a => sum_n (mc (k t)) (fun b => nmul (mf (padded (x s) px py) (i * sx + a) (j * sy + b)) (mf (k s) a b))))).
  { intros s. destruct (Hd s) as (_ & _ & -> & ->). reflexivity. }
  apply dlim_sum. intros a Ha. apply dlim_sum. intros b Hb. cbn [nadd nmul NumR].
  eapply dlim_val; [|apply dlim_mult; [apply (@padded_diff x dx px py xr xc u w t (i * sx + a) (j * sy + b)); auto|apply Hk; auto]].
  - cbv beta. apply Rplus_comm.
  - intros s. destruct (Hd s) as (A1 & A2 & _). auto.
Qed.
End Calc.
