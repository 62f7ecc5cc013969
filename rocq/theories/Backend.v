(** * Backends

    The matrix operators call the kernels through the dispatch chain
    Eigen -> CUDA -> Naive (MatOperators.cpp:77-300).  This file models the Eigen kernels,
    the dispatch for a build without CUDA, and says what a backend guarantees. *)

From Coq Require Import List Arith Bool Lia Permutation Ring.
From Verif Require Import Num MatMem Kernels KernelFacts KernelProofs KernelBlocks Registry KernelStep.
Import ListNotations.
Set Implicit Arguments.
Unset Strict Implicit.

(** ** Matrix algebra (specification) *)
Section Algebra.
Context {T : Type} {N : Num T}.
Notation mat := (mat T).
Definition mzip (op : T -> T -> T) (v w : mat) : mat := Mat (mr v) (mc v) (fun i j => op (mf v i j) (mf w i j)).
Definition madd := mzip nadd.
Definition msub := mzip nsub.
Definition mhad := mzip nmul.
Definition mmap (f : T -> T) (v : mat) : mat := Mat (mr v) (mc v) (fun i j => f (mf v i j)).
Definition mmul (v w : mat) : mat := Mat (mr v) (mc w) (fun i j => sum_n (mc v) (fun k => nmul (mf v i k) (mf w k j))).
Definition mtr (v : mat) : mat := Mat (mc v) (mr v) (fun i j => mf v j i).
Definition mkron (v w : mat) : mat :=
  Mat (mr v * mr w) (mc v * mc w) (fun x y => nmul (mf v (x / mr w) (y / mc w)) (mf w (x mod mr w) (y mod mc w))).
(** Transposition of the block pattern of a derivative matrix, blocks kept. *)
Definition mdtr (Rf Cf Rx Cx : nat) (v : mat) : mat :=
  Mat (Cf * Rx) (Rf * Cx) (fun x y => mf v (y / Cx * Rx + x mod Rx) (x / Rx * Cx + y mod Cx)).
Definition meye (n : nat) : mat := Mat n n (fun i j => if i =? j then n1 else n0).
Definition mones (R C : nat) : mat := Mat R C (fun _ _ => n1).
Definition mzeros (R C : nat) : mat := Mat R C (fun _ _ => n0).
Definition same_dims (v w : mat) : Prop := mr v = mr w /\ mc v = mc w.
End Algebra.

Section Backend.
Context {T : Type} {N : Num T}.
Notation mem := (mem T).
Notation M := (M T).
Notation mat := (mat T).
Notation "x <- c ;; k" := (bind c (fun x => k)) (at level 61, c at next level, right associativity).
Notation "c ;;; k" := (bind c (fun _ => k)) (at level 61, right associativity).
Variable S : sched T.
Implicit Types (m : mem).

(** Eigen::Map<EigenMatrix>(p, rows, cols) = expression: every element of the result is
    overwritten, row major (EigenMatrix, CommonHeader.hpp:64-74).  Eigen evaluates a
    product into a temporary first, so the right-hand side is read from the memory before
    the assignment. *)
Definition assign (p : ptr) (F : mem -> nat -> nat -> T) : M unit := fun m =>
  match get m p with
  | Some o => Ok (tt, put m p (MkObj (o_nidx o) (o_space o) (o_rows o) (o_cols o)
                (map (fun n => F m (n / o_cols o) (n mod o_cols o)) (seq 0 (o_rows o * o_cols o)))))
  | None => Undefined
  end.

(** MatAddEigenHandler.hpp:31-68, MatSubEigenHandler.hpp:26-63, MatHadamardEigenHandler.hpp:31-68. *)
Definition eig_zip (op : T -> T -> T) (lhs rhs : ptr) (result : option ptr) : M ptr :=
  lo <- deref lhs ;; ro <- deref rhs ;;
  assert ((o_rows lo =? o_rows ro) && (o_cols ro =? o_cols lo)) ;;;
  assert (space_eqb (o_space lo) (o_space ro)) ;;;
  p <- pool (o_space ro) result (o_rows lo) (o_cols ro) ;;
  assign p (fun m i j => op (val m lhs i j) (val m rhs i j)) ;;; ret p.
(** MatScalarAddEigenHandler.hpp:29-56, MatScalarMulEigenHandler.hpp:31-60, MatUnaryEigenHandler.hpp:31-58. *)
Definition eig_map (f : T -> T) (rhs : ptr) (result : option ptr) : M ptr :=
  ro <- deref rhs ;;
  p <- pool (o_space ro) result (o_rows ro) (o_cols ro) ;;
  assign p (fun m i j => f (val m rhs i j)) ;;; ret p.
(** MatMulEigenHandler.hpp:31-70.  Eigen's order of summation is not modelled: the sum is
    taken from left to right. *)
Definition eig_mul (lhs rhs : ptr) (result : option ptr) : M ptr :=
  lo <- deref lhs ;; ro <- deref rhs ;;
  assert (o_cols lo =? o_rows ro) ;;;
  assert (space_eqb (o_space lo) (o_space ro)) ;;;
  p <- pool (o_space ro) result (o_rows lo) (o_cols ro) ;;
  assign p (fun m i j => sum_n (o_cols lo) (fun k => nmul (val m lhs i k) (val m rhs k j))) ;;; ret p.
(** MatKronEigenHandler.hpp:31-64 (Eigen::kroneckerProduct: block (i,j) is lhs(i,j) * rhs). *)
Definition eig_kron (lhs rhs : ptr) (result : option ptr) : M ptr :=
  lo <- deref lhs ;; ro <- deref rhs ;;
  assert (space_eqb (o_space lo) (o_space ro)) ;;;
  p <- pool (o_space ro) result (o_rows lo * o_rows ro) (o_cols lo * o_cols ro) ;;
  assign p (fun m x y => nmul (val m lhs (x / o_rows ro) (y / o_cols ro)) (val m rhs (x mod o_rows ro) (y mod o_cols ro))) ;;;
  ret p.
(** MatTransposeEigenHandler.hpp:31-57. *)
Definition eig_transpose (rhs : ptr) (result : option ptr) : M ptr :=
  ro <- deref rhs ;;
  p <- pool (o_space ro) result (o_cols ro) (o_rows ro) ;;
  assign p (fun m i j => val m rhs j i) ;;; ret p.

(** The kernels the operators call.  MatrixDervTranspose has only the naive handler
    (MatOperators.cpp:165-176). *)
Record backend : Type := Bk {
  b_add : ptr -> ptr -> option ptr -> M ptr;
  b_sub : ptr -> ptr -> option ptr -> M ptr;
  b_had : ptr -> ptr -> option ptr -> M ptr;
  b_mul : ptr -> ptr -> option ptr -> M ptr;
  b_kron : ptr -> ptr -> option ptr -> M ptr;
  b_smul : T -> ptr -> option ptr -> M ptr;
  b_sadd : T -> ptr -> option ptr -> M ptr;
  b_map : (T -> T) -> ptr -> option ptr -> M ptr;
  b_tr : ptr -> option ptr -> M ptr
}.

(** setCPUHandler, GlobalParameters.cpp:25-33 (EIGEN is the default, GlobalParameters.hpp). *)
Inductive handler : Set := HEigen | HNaive.
(** EIGEN_BACKEND_HANDLER, MatrixStaticHandler.hpp:64-66: Eigen runs when it is selected
    and the right operand is in CPU memory; otherwise the call falls through to CUDA and,
    without CUDA, to the naive kernel. *)
Definition dispatch (h : handler) (rhs : ptr) (eig naive : M ptr) : M ptr :=
  o <- deref rhs ;;
  match h, o_space o with HEigen, CPU => eig | _, _ => naive end.

(** MatOperators.cpp:77-215. *)
Definition backend_of (h : handler) : backend := Bk
  (fun a b r => dispatch h b (eig_zip nadd a b r) (MatAdd S a b r))
  (fun a b r => dispatch h b (eig_zip nsub a b r) (MatSub S a b r))
  (fun a b r => dispatch h b (eig_zip nmul a b r) (MatHadamard S a b r))
  (fun a b r => dispatch h b (eig_mul a b r) (MatMul S a b r))
  (fun a b r => dispatch h b (eig_kron a b r) (MatKron S a b r))
  (fun c a r => dispatch h a (eig_map (fun v => nmul v c) a r) (MatScalarMul S c a r))
  (fun c a r => dispatch h a (eig_map (fun v => nadd v c) a r) (MatScalarAdd S c a r))
  (fun f a r => dispatch h a (eig_map f a r) (MatUnary S a f r))
  (fun a r => dispatch h a (eig_transpose a r) (MatTranspose S a r)).

(** ** What a backend guarantees *)
Definition bin_ok (op : ptr -> ptr -> option ptr -> M ptr) (ok : mat -> mat -> Prop) (f : mat -> mat -> mat) : Prop :=
  forall m a b r va vb, tame m -> holds m a va -> holds m b vb -> slot_ok m r -> r <> Some a -> r <> Some b -> ok va vb ->
  exists p m', op a b r m = Ok (p, m') /\ wrote m r p (f va vb) m'.
Definition un_ok (op : ptr -> option ptr -> M ptr) (f : mat -> mat) : Prop :=
  forall m a r va, tame m -> holds m a va -> slot_ok m r -> r <> Some a ->
  exists p m', op a r m = Ok (p, m') /\ wrote m r p (f va) m'.
Definition bin_rejects (op : ptr -> ptr -> option ptr -> M ptr) (ok : mat -> mat -> Prop) : Prop :=
  forall m a b r va vb, holds m a va -> holds m b vb -> ~ ok va vb -> op a b r m = Rejected.

Definition chain (v w : mat) : Prop := mc v = mr w.
Record value_ok (B : backend) : Prop := {
  ok_add : bin_ok (b_add B) same_dims madd;
  ok_sub : bin_ok (b_sub B) same_dims msub;
  ok_had : bin_ok (b_had B) same_dims mhad;
  ok_mul : bin_ok (b_mul B) chain mmul;
  ok_smul : forall c, un_ok (b_smul B c) (mmap (nmul c));
  ok_sadd : forall c, un_ok (b_sadd B c) (mmap (nadd c));
  ok_map : forall f, un_ok (b_map B f) (mmap f);
  ok_tr : un_ok (b_tr B) mtr
}.
(** The Kronecker kernel is right whatever the result buffer contains (Eigen). *)
Definition kron_ok (B : backend) : Prop := bin_ok (b_kron B) (fun _ _ => True) mkron.
(** The Kronecker kernel is right if the result buffer is null or all zero (both backends). *)
Definition zeroed m (r : option ptr) : Prop :=
  match r with Some q => forall o, get m q = Some o -> forall k, nth k (o_buf o) n0 = n0 | None => True end.
Definition kron_zeroed_ok (B : backend) : Prop :=
  forall m a b r va vb, tame m -> holds m a va -> holds m b vb -> slot_ok m r -> r <> Some a -> r <> Some b -> zeroed m r ->
  exists p m', b_kron B a b r m = Ok (p, m') /\ wrote m r p (mkron va vb) m'.
End Backend.

(** ** Both backends give the mathematical result *)
Section Proofs.
Context {T : Type} {N : Num T}.
Notation mem := (mem T).
Notation M := (M T).
Notation mat := (mat T).
Variable S : sched T.
Hypothesis VS : valid_sched S.
Implicit Types (m : mem).

Lemma wrote_meq m r p v w m' : wrote m r p v m' -> meq v w -> wrote m r p w m'.
Proof. intros [A B D E F] Q. constructor; auto; [eapply holds_meq; eauto|]. destruct Q as (Q1 & Q2 & _). intros q o H Ho H1 H2. apply (F q o); congruence. Qed.

Lemma not_op m r R C a : r <> Some a -> not_operand m r R C a.
Proof. destruct r as [q|]; simpl; [|auto]. intros H _ ->. auto. Qed.

Lemma holds_val m p v i j : holds m p v -> i < mr v -> j < mc v -> val m p i j = mf v i j.
Proof. intros (_ & V). apply V. Qed.

Section Zero.
Hypothesis L : NumLaws N.
Add Ring TR : (law_ring N L).
Lemma laws_mul0 (x : T) : nmul n0 x = n0.
Proof. ring. Qed.
Lemma laws_mul0r (x : T) : nmul x n0 = n0.
Proof. ring. Qed.
End Zero.

(** *** Naive kernels *)
Lemma naive_zip op : bin_ok (elementwise S op) same_dims (mzip op).
Proof.
  intros m a b r va vb Tm Ha Hb Hr Na Nb (E1 & E2).
  destruct (@elementwise_ok T N S VS op a b r m (mr va) (mc va)) as (p & m' & E & St).
  - apply Tm.
  - apply Ha.
  - rewrite E1, E2. apply Hb.
  - now rewrite !(tame_cpu _ Tm).
  - now apply slot_res.
  - exists p, m'. split; [exact E|]. eapply wrote_meq.
    + eapply stored_wrote; eauto. eapply pres_elementwise; [|exact E]. apply Tm.
    + split; [reflexivity|]. split; [reflexivity|]. simpl. intros i j Hi Hj. rewrite (holds_val Ha), (holds_val Hb); auto; lia.
Qed.
Lemma naive_map f : un_ok (elementwise1 S f) (mmap f).
Proof.
  intros m a r va Tm Ha Hr Na.
  destruct (@elementwise1_ok T N S VS f a r m (mr va) (mc va)) as (p & m' & E & St).
  - apply Tm.
  - apply Ha.
  - now apply slot_res.
  - exists p, m'. split; [exact E|]. eapply wrote_meq.
    + eapply stored_wrote; eauto. eapply pres_elementwise1; [|exact E]. apply Tm.
    + split; [reflexivity|]. split; [reflexivity|]. simpl. intros i j Hi Hj. now rewrite (holds_val Ha).
Qed.
Lemma naive_mul : bin_ok (MatMul S) chain mmul.
Proof.
  intros m a b r va vb Tm Ha Hb Hr Na Nb Ec.
  destruct (@MatMul_ok T N S VS a b r m (mr va) (mc va) (mc vb)) as (p & m' & E & St).
  - apply Tm.
  - apply Ha.
  - rewrite Ec. apply Hb.
  - now rewrite !(tame_cpu _ Tm).
  - now apply slot_res.
  - destruct r as [q|]; [|auto]. intros _. destruct Hr as (Hq & _).
    split; apply tame_names; auto; try (eapply holds_get; eassumption); congruence.
  - exists p, m'. split; [exact E|]. eapply wrote_meq.
    + eapply stored_wrote; eauto. eapply pres_MatMul; [|exact E]. apply Tm.
    + split; [reflexivity|]. split; [reflexivity|]. simpl. intros i j Hi Hj. apply sum_n_ext. intros k Hk.
      rewrite (holds_val Ha), (holds_val Hb); auto. unfold chain in Ec. lia.
Qed.
Lemma naive_tr : un_ok (MatTranspose S) mtr.
Proof.
  intros m a r va Tm Ha Hr Na.
  destruct (@MatTranspose_ok T N S VS a r m (mr va) (mc va)) as (p & m' & E & St).
  - apply Tm.
  - apply Ha.
  - now apply slot_res.
  - now apply not_op.
  - exists p, m'. split; [exact E|]. eapply wrote_meq.
    + eapply stored_wrote; eauto. eapply pres_MatTranspose; [|exact E]. apply Tm.
    + split; [reflexivity|]. split; [reflexivity|]. simpl. intros i j Hi Hj. now rewrite (holds_val Ha).
Qed.
Lemma naive_dtr Rf Cf Rx Cx m a r va : tame m -> holds m a va -> slot_ok m r -> r <> Some a ->
  mr va = Rf * Rx -> mc va = Cf * Cx ->
  exists p m', MatDervTranspose S Rf Cf Rx Cx a r m = Ok (p, m') /\ wrote m r p (mdtr Rf Cf Rx Cx va) m'.
Proof.
  intros Tm Ha Hr Na ER EC. destruct (tame_pos Tm Ha) as [PR PC].
  destruct (@derv_transpose_ok T N S VS Rf Cf Rx Cx a r m) as (p & m' & E & St).
  - apply Tm.
  - rewrite <- ER, <- EC. apply Ha.
  - now apply slot_res.
  - now apply not_op.
  - exists p, m'. split; [exact E|]. eapply wrote_meq.
    + eapply stored_wrote; eauto. eapply pres_MatDervTranspose; [|exact E]. apply Tm.
    + split; [reflexivity|]. split; [reflexivity|]. simpl. intros i j Hi Hj. rewrite (holds_val Ha); auto.
      * rewrite ER. assert (Cx <> 0) by nia. assert (Rx <> 0) by nia.
        pose proof (Nat.mod_upper_bound i Rx ltac:(auto)). assert (j / Cx < Rf) by (apply Nat.div_lt_upper_bound; lia). nia.
      * rewrite EC. assert (Cx <> 0) by nia. assert (Rx <> 0) by nia.
        pose proof (Nat.mod_upper_bound j Cx ltac:(auto)). assert (i / Rx < Cf) by (apply Nat.div_lt_upper_bound; lia). nia.
Qed.
Lemma naive_kron_zeroed (L : NumLaws N) : forall m a b r va vb, tame m -> holds m a va -> holds m b vb -> slot_ok m r ->
  r <> Some a -> r <> Some b -> zeroed m r ->
  exists p m', MatKron S a b r m = Ok (p, m') /\ wrote m r p (mkron va vb) m'.
Proof.
  intros m a b r va vb Tm Ha Hb Hr Na Nb Hz. destruct (tame_pos Tm Ha) as [PRa PCa]. destruct (tame_pos Tm Hb) as [PRb PCb].
  destruct (@MatKron_ok T N S VS a b r m (mr va) (mc va) (mr vb) (mc vb)) as (p & m' & E & St).
  - apply Tm.
  - apply Ha.
  - apply Hb.
  - now rewrite !(tame_cpu _ Tm).
  - now apply slot_res.
  - now apply not_op.
  - now apply not_op.
  - exists p, m'. split; [exact E|]. eapply wrote_meq.
    + eapply stored_wrote; eauto. eapply pres_MatKron; [|exact E]. apply Tm.
    + split; [reflexivity|]. split; [reflexivity|]. simpl. intros x y Hx Hy.
      assert (x / mr vb < mr va) by (apply Nat.div_lt_upper_bound; lia).
      assert (y / mc vb < mc va) by (apply Nat.div_lt_upper_bound; lia).
      pose proof (Nat.mod_upper_bound x (mr vb) ltac:(lia)). pose proof (Nat.mod_upper_bound y (mc vb) ltac:(lia)).
      rewrite (holds_val Ha), (holds_val Hb) by auto.
      destruct (neqb (mf va (x / mr vb) (y / mc vb)) n0) eqn:Ez.
      * apply (law_eqb N L) in Ez. rewrite Ez, (laws_mul0 L). rewrite (tame_cpu _ Tm).
        destruct r as [q|]; [|now apply old_fresh].
        unfold old_val. destruct (get m q) as [o|] eqn:Hq; [|reflexivity].
        destruct (_ =? _); [apply (Hz o Hq)|]. exact (old_fresh m Hx Hy).
      * apply (Rmul_comm (law_ring N L)).
Qed.

(** *** Eigen kernels *)
Lemma pres_assign p F : pres (assign (T := T) p F).
Proof.
  intros m a m' Q E. unfold assign in E. destruct (get m p) as [o|] eqn:Ho; try discriminate. injection E as _ <-.
  eapply spaced_put; eauto. simpl. eapply Q; eauto.
Qed.
Lemma assign_stored m r p m1 R C sp F G : good m -> pooled None sp m r R C p m1 -> 
  (forall i j, i < R -> j < C -> F m1 i j = G i j) ->
  exists m', assign p F m1 = Ok (tt, m') /\ stored m m' r p R C G.
Proof.
  intros Gm P HF. destruct (pooled_obj Gm P) as (o & Ho & oR & oC & Lo).
  unfold assign. rewrite Ho. eexists. split; [reflexivity|].
  set (b := map (fun n => F m1 (n / o_cols o) (n mod o_cols o)) (seq 0 (o_rows o * o_cols o))).
  assert (E : put m1 p (MkObj (o_nidx o) (o_space o) (o_rows o) (o_cols o) b) = upd m1 p b).
  { unfold upd. now rewrite Ho. }
  rewrite E. eapply stored_intro; eauto.
  - unfold b. rewrite map_length, seq_length. congruence.
  - intros i j Hi Hj. unfold b. pose proof (idx_bound Hi Hj) as Q. rewrite nth_error_map.
    rewrite (nth_error_nth' _ 0) by (rewrite seq_length; congruence). simpl.
    rewrite seq_nth by congruence. simpl. rewrite oC, idx_row, idx_col by auto. now rewrite HF.
Qed.
Lemma pooled_val fill sp m r R C p m1 a i j : pooled fill sp m r R C p m1 -> (exists o, get m a = Some o) -> r <> Some a ->
  val m1 a i j = val m a i j.
Proof.
  intros P (o & Ho) Na. unfold val. rewrite (pl_frame P); [reflexivity|].
  destruct (pl_cases P) as [(-> & _)|(-> & _)]; [congruence|]. apply get_lt in Ho. lia.
Qed.

Lemma eig_zip_ok op : bin_ok (eig_zip op) same_dims (mzip op).
Proof.
  intros m a b r va vb Tm Ha Hb Hr Na Nb (E1 & E2).
  pose proof Ha as ((ka & sa & ba & Ga & La) & Va). pose proof Hb as ((kb & sb & bb & Gb & Lb) & Vb).
  destruct (tame_pos Tm Ha) as [PR PC]. destruct Tm as (Gm & Sp & Ro).
  assert (sa = CPU /\ sb = CPU) as [-> ->] by (split; [apply (proj1 Sp _ _ Ga)|apply (proj1 Sp _ _ Gb)]).
  destruct (pool_ok None CPU Gm (slot_res Hr) PR PC) as (p & m1 & Ep & P).
  assert (HF : forall i j, i < mr va -> j < mc va -> op (val m1 a i j) (val m1 b i j) = mf (mzip op va vb) i j).
  { intros i j Hi Hj. rewrite (pooled_val i j P (holds_get Ha) Na), (pooled_val i j P (holds_get Hb) Nb).
    rewrite (holds_val Ha), (holds_val Hb) by (auto; lia). reflexivity. }
  destruct (assign_stored Gm P (F := fun m i j => op (val m a i j) (val m b i j)) HF) as (m' & Ea & St).
  assert (E : eig_zip op a b r m = Ok (p, m')).
  { unfold eig_zip. unfold bind at 1, deref at 1. rewrite Ga. unfold bind at 1, deref at 1. rewrite Gb. cbn [o_rows o_cols o_space].
    rewrite <- E1, <- E2, !Nat.eqb_refl. unfold bind at 1, assert at 1. cbn [andb]. unfold bind at 1, assert at 1. cbn [space_eqb].
    unfold bind at 1. unfold pool. rewrite Ep. unfold bind at 1. rewrite Ea. reflexivity. }
  exists p, m'. split; [exact E|].
  apply (@stored_wrote T N m m' r p (mr va) (mc va) (mf (mzip op va vb))); auto; [split; auto|].
  assert (Q : pres (eig_zip op a b r)).
  { unfold eig_zip. apply pres_deref. intros o Ho. apply pres_deref. intros o' Ho'.
    do 2 (apply pres_bind; [apply pres_assert|intros _]). rewrite Ho'. apply pres_bind; [apply pres_pool|intros q].
    apply pres_bind; [apply pres_assign|intros; apply pres_ret]. }
  exact (Q _ _ _ Sp E).
Qed.
Lemma eig_map_ok f g : (forall x, f x = g x) -> un_ok (eig_map f) (mmap g).
Proof.
  intros Hfg m a r va Tm Ha Hr Na. pose proof Ha as ((ka & sa & ba & Ga & La) & Va).
  destruct (tame_pos Tm Ha) as [PR PC]. destruct Tm as (Gm & Sp & Ro).
  assert (sa = CPU) as -> by (apply (proj1 Sp _ _ Ga)).
  destruct (pool_ok None CPU Gm (slot_res Hr) PR PC) as (p & m1 & Ep & P).
  assert (HF : forall i j, i < mr va -> j < mc va -> f (val m1 a i j) = mf (mmap g va) i j).
  { intros i j Hi Hj. rewrite (pooled_val i j P (holds_get Ha) Na). rewrite (holds_val Ha) by auto. apply Hfg. }
  destruct (assign_stored Gm P (F := fun m i j => f (val m a i j)) HF) as (m' & Ea & St).
  assert (E : eig_map f a r m = Ok (p, m')).
  { unfold eig_map. unfold bind at 1, deref at 1. rewrite Ga. cbn [o_rows o_cols o_space].
    unfold bind at 1. unfold pool. rewrite Ep. unfold bind at 1. rewrite Ea. reflexivity. }
  exists p, m'. split; [exact E|].
  apply (@stored_wrote T N m m' r p (mr va) (mc va) (mf (mmap g va))); auto; [split; auto|].
  assert (Q : pres (eig_map f a r)).
  { unfold eig_map. apply pres_deref. intros o Ho. rewrite Ho. apply pres_bind; [apply pres_pool|intros q].
    apply pres_bind; [apply pres_assign|intros; apply pres_ret]. }
  exact (Q _ _ _ Sp E).
Qed.
Lemma eig_mul_ok : bin_ok eig_mul chain mmul.
Proof.
  intros m a b r va vb Tm Ha Hb Hr Na Nb Ec. unfold chain in Ec.
  pose proof Ha as ((ka & sa & ba & Ga & La) & Va). pose proof Hb as ((kb & sb & bb & Gb & Lb) & Vb).
  destruct (tame_pos Tm Ha) as [PR _]. destruct (tame_pos Tm Hb) as [_ PC]. destruct Tm as (Gm & Sp & Ro).
  assert (sa = CPU /\ sb = CPU) as [-> ->] by (split; [apply (proj1 Sp _ _ Ga)|apply (proj1 Sp _ _ Gb)]).
  destruct (pool_ok None CPU Gm (slot_res Hr) PR PC) as (p & m1 & Ep & P).
  assert (HF : forall i j, i < mr va -> j < mc vb -> sum_n (mc va) (fun k => nmul (val m1 a i k) (val m1 b k j)) = mf (mmul va vb) i j).
  { intros i j Hi Hj. apply sum_n_ext. intros k Hk. rewrite (pooled_val i k P (holds_get Ha) Na), (pooled_val k j P (holds_get Hb) Nb).
    rewrite (holds_val Ha), (holds_val Hb) by (auto; lia). reflexivity. }
  destruct (assign_stored Gm P (F := fun m i j => sum_n (mc va) (fun k => nmul (val m a i k) (val m b k j))) HF) as (m' & Ea & St).
  assert (E : eig_mul a b r m = Ok (p, m')).
  { unfold eig_mul. unfold bind at 1, deref at 1. rewrite Ga. unfold bind at 1, deref at 1. rewrite Gb. cbn [o_rows o_cols o_space].
    rewrite <- Ec, !Nat.eqb_refl. unfold bind at 1, assert at 1. unfold bind at 1, assert at 1. cbn [space_eqb].
    unfold bind at 1. unfold pool. rewrite Ep. unfold bind at 1. rewrite Ea. reflexivity. }
  exists p, m'. split; [exact E|].
  apply (@stored_wrote T N m m' r p (mr va) (mc vb) (mf (mmul va vb))); auto; [split; auto|].
  assert (Q : pres (eig_mul a b r)).
  { unfold eig_mul. apply pres_deref. intros o Ho. apply pres_deref. intros o' Ho'.
    do 2 (apply pres_bind; [apply pres_assert|intros _]). rewrite Ho'. apply pres_bind; [apply pres_pool|intros q].
    apply pres_bind; [apply pres_assign|intros; apply pres_ret]. }
  exact (Q _ _ _ Sp E).
Qed.
Lemma eig_kron_ok : bin_ok eig_kron (fun _ _ => True) mkron.
Proof.
  intros m a b r va vb Tm Ha Hb Hr Na Nb _.
  pose proof Ha as ((ka & sa & ba & Ga & La) & Va). pose proof Hb as ((kb & sb & bb & Gb & Lb) & Vb).
  destruct (tame_pos Tm Ha) as [PRa PCa]. destruct (tame_pos Tm Hb) as [PRb PCb]. destruct Tm as (Gm & Sp & Ro).
  assert (sa = CPU /\ sb = CPU) as [-> ->] by (split; [apply (proj1 Sp _ _ Ga)|apply (proj1 Sp _ _ Gb)]).
  destruct (@pool_ok T N None CPU r (mr va * mr vb) (mc va * mc vb) m Gm (slot_res Hr)) as (p & m1 & Ep & P); [nia|nia|].
  assert (HF : forall i j, i < mr va * mr vb -> j < mc va * mc vb ->
    nmul (val m1 a (i / mr vb) (j / mc vb)) (val m1 b (i mod mr vb) (j mod mc vb)) = mf (mkron va vb) i j).
  { intros i j Hi Hj. rewrite (pooled_val _ _ P (holds_get Ha) Na), (pooled_val _ _ P (holds_get Hb) Nb).
    assert (i / mr vb < mr va) by (apply Nat.div_lt_upper_bound; lia).
    assert (j / mc vb < mc va) by (apply Nat.div_lt_upper_bound; lia).
    pose proof (Nat.mod_upper_bound i (mr vb) ltac:(lia)). pose proof (Nat.mod_upper_bound j (mc vb) ltac:(lia)).
    rewrite (holds_val Ha), (holds_val Hb) by auto. reflexivity. }
  destruct (assign_stored Gm P (F := fun m i j => nmul (val m a (i / mr vb) (j / mc vb)) (val m b (i mod mr vb) (j mod mc vb))) HF) as (m' & Ea & St).
  assert (E : eig_kron a b r m = Ok (p, m')).
  { unfold eig_kron. unfold bind at 1, deref at 1. rewrite Ga. unfold bind at 1, deref at 1. rewrite Gb. cbn [o_rows o_cols o_space].
    unfold bind at 1, assert at 1. cbn [space_eqb].
    unfold bind at 1. unfold pool. rewrite Ep. unfold bind at 1. rewrite Ea. reflexivity. }
  exists p, m'. split; [exact E|].
  apply (@stored_wrote T N m m' r p (mr va * mr vb) (mc va * mc vb) (mf (mkron va vb))); auto; [split; auto|].
  assert (Q : pres (eig_kron a b r)).
  { unfold eig_kron. apply pres_deref. intros o Ho. apply pres_deref. intros o' Ho'.
    do 1 (apply pres_bind; [apply pres_assert|intros _]). rewrite Ho'. apply pres_bind; [apply pres_pool|intros q].
    apply pres_bind; [apply pres_assign|intros; apply pres_ret]. }
  exact (Q _ _ _ Sp E).
Qed.
Lemma eig_tr_ok : un_ok eig_transpose mtr.
Proof.
  intros m a r va Tm Ha Hr Na. pose proof Ha as ((ka & sa & ba & Ga & La) & Va).
  destruct (tame_pos Tm Ha) as [PR PC]. destruct Tm as (Gm & Sp & Ro).
  assert (sa = CPU) as -> by (apply (proj1 Sp _ _ Ga)).
  destruct (pool_ok None CPU Gm (slot_res Hr) PC PR) as (p & m1 & Ep & P).
  assert (HF : forall i j, i < mc va -> j < mr va -> val m1 a j i = mf (mtr va) i j).
  { intros i j Hi Hj. rewrite (pooled_val j i P (holds_get Ha) Na). rewrite (holds_val Ha) by auto. reflexivity. }
  destruct (assign_stored Gm P (F := fun m i j => val m a j i) HF) as (m' & Ea & St).
  assert (E : eig_transpose a r m = Ok (p, m')).
  { unfold eig_transpose. unfold bind at 1, deref at 1. rewrite Ga. cbn [o_rows o_cols o_space].
    unfold bind at 1. unfold pool. rewrite Ep. unfold bind at 1. rewrite Ea. reflexivity. }
  exists p, m'. split; [exact E|].
  apply (@stored_wrote T N m m' r p (mc va) (mr va) (mf (mtr va))); auto; [split; auto|].
  assert (Q : pres (eig_transpose a r)).
  { unfold eig_transpose. apply pres_deref. intros o Ho. rewrite Ho. apply pres_bind; [apply pres_pool|intros q].
    apply pres_bind; [apply pres_assign|intros; apply pres_ret]. }
  exact (Q _ _ _ Sp E).
Qed.

(** *** The dispatched operations *)
Lemma dispatch_bin h (e n : ptr -> ptr -> option ptr -> M ptr) ok f : (h = HEigen -> bin_ok e ok f) -> (h = HNaive -> bin_ok n ok f) ->
  bin_ok (fun a b r => dispatch h b (e a b r) (n a b r)) ok f.
Proof.
  intros He Hn m a b r va vb Tm Ha Hb Hr Na Nb Hok.
  pose proof Hb as ((kb & sb & bb & Gb & Lb) & Vb). unfold dispatch, bind, deref. rewrite Gb. simpl.
  assert (sb = CPU) as -> by (apply (proj1 (proj1 (proj2 Tm)) _ _ Gb)).
  destruct h; [now apply He|now apply Hn].
Qed.
Lemma dispatch_un h (e n : ptr -> option ptr -> M ptr) f : (h = HEigen -> un_ok e f) -> (h = HNaive -> un_ok n f) ->
  un_ok (fun a r => dispatch h a (e a r) (n a r)) f.
Proof.
  intros He Hn m a r va Tm Ha Hr Na.
  pose proof Ha as ((kb & sb & bb & Gb & Lb) & Vb). unfold dispatch, bind, deref. rewrite Gb. simpl.
  assert (sb = CPU) as -> by (apply (proj1 (proj1 (proj2 Tm)) _ _ Gb)).
  destruct h; [now apply He|now apply Hn].
Qed.

(** The naive backend computes the documented values over any number type; for Eigen the
    scalar operations have their arguments swapped, so commutativity is used. *)
Lemma backend_value h : (h = HEigen -> NumLaws N) -> value_ok (backend_of S h).
Proof.
  intros L. constructor; simpl.
  - apply dispatch_bin; intros _; [apply eig_zip_ok|apply naive_zip].
  - apply dispatch_bin; intros _; [apply eig_zip_ok|apply naive_zip].
  - apply dispatch_bin; intros _; [apply eig_zip_ok|apply naive_zip].
  - apply dispatch_bin; intros _; [apply eig_mul_ok|apply naive_mul].
  - intros c. apply dispatch_un; intros E; [|apply naive_map]. apply eig_map_ok. intros x. apply (Rmul_comm (law_ring N (L E))).
  - intros c. apply dispatch_un; intros E; [|apply naive_map]. apply eig_map_ok. intros x. apply (Radd_comm (law_ring N (L E))).
  - intros f. apply dispatch_un; intros E; [|apply naive_map]. apply eig_map_ok. auto.
  - apply dispatch_un; intros _; [apply eig_tr_ok|apply naive_tr].
Qed.
Lemma eigen_kron : kron_ok (backend_of S HEigen).
Proof. unfold kron_ok. simpl. apply (@dispatch_bin HEigen eig_kron (MatKron S)); [intros _; apply eig_kron_ok|discriminate]. Qed.
Lemma backend_kron_zeroed h : NumLaws N -> kron_zeroed_ok (backend_of S h).
Proof.
  intros L m a b r va vb Tm Ha Hb Hr Na Nb Hz.
  destruct h; [now apply eigen_kron|].
  pose proof Hb as ((kb & sb & bb & Gb & Lb) & Vb). simpl. unfold dispatch, bind, deref. rewrite Gb. simpl.
  now apply naive_kron_zeroed.
Qed.
End Proofs.

(** Both backends reject operands of the wrong shape. *)
Section Reject.
Context {T : Type} {N : Num T}.
Notation M := (M T).
Variable S : sched T.
Lemma dispatch_rejects h (e n : ptr -> ptr -> option ptr -> M ptr) ok : bin_rejects e ok -> bin_rejects n ok ->
  bin_rejects (fun a b r => dispatch h b (e a b r) (n a b r)) ok.
Proof.
  intros He Hn m a b r va vb Ha Hb No. pose proof Hb as ((kb & sb & bb & Gb & Lb) & Vb). unfold dispatch, bind, deref. rewrite Gb. simpl.
  destruct h; [destruct sb|]; eauto.
Qed.
Lemma eig_zip_rejects op : bin_rejects (eig_zip (T := T) op) same_dims.
Proof.
  intros m a b r va vb Ha Hb No. pose proof Ha as ((ka & sa & ba & Ga & La) & Va). pose proof Hb as ((kb & sb & bb & Gb & Lb) & Vb).
  unfold eig_zip, bind, deref. rewrite Ga, Gb. cbn [o_rows o_cols].
  destruct (Nat.eqb_spec (mr va) (mr vb)) as [E1|], (Nat.eqb_spec (mc vb) (mc va)) as [E2|]; try reflexivity.
  destruct No. split; auto.
Qed.
Lemma naive_zip_rejects op : bin_rejects (elementwise S op) same_dims.
Proof.
  intros m a b r va vb Ha Hb No. eapply elementwise_reject; [apply Ha|apply Hb|].
  unfold same_dims in No. destruct (Nat.eq_dec (mr va) (mr vb)); [right|now left]. intros E. auto.
Qed.
Lemma eig_mul_rejects : bin_rejects (eig_mul (T := T)) chain.
Proof.
  intros m a b r va vb Ha Hb No. pose proof Ha as ((ka & sa & ba & Ga & La) & Va). pose proof Hb as ((kb & sb & bb & Gb & Lb) & Vb).
  unfold eig_mul, bind, deref. rewrite Ga, Gb. cbn [o_rows o_cols].
  destruct (Nat.eqb_spec (mc va) (mr vb)) as [E1|]; [destruct No; exact E1|reflexivity].
Qed.
Lemma naive_mul_rejects : bin_rejects (MatMul S) chain.
Proof. intros m a b r va vb Ha Hb No. eapply MatMul_reject; [apply Ha|apply Hb|exact No]. Qed.
Lemma backend_rejects h : bin_rejects (b_add (backend_of S h)) same_dims /\ bin_rejects (b_sub (backend_of S h)) same_dims /\
  bin_rejects (b_had (backend_of S h)) same_dims /\ bin_rejects (b_mul (backend_of S h)) chain.
Proof.
  split; [|split; [|split]]; simpl; apply dispatch_rejects; auto using eig_zip_rejects, eig_mul_rejects, naive_mul_rejects; apply naive_zip_rejects.
Qed.
End Reject.
