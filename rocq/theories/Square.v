(** * The inverse and determinant kernels

    Both only have an Eigen implementation.  The numerical routine itself (A.inverse(),
    A.determinant()) is a parameter: [g n] maps the row-major entries of an n x n matrix
    to the row-major entries of the result, [d n] to a number.  Theorems that need the
    routine to be right say so. *)

From Coq Require Import List Arith Bool Lia.
From Verif Require Import Num MatMem Kernels KernelFacts KernelProofs KernelBlocks Registry KernelStep Backend.
Import ListNotations.
Set Implicit Arguments.
Unset Strict Implicit.

Section Kernels.
Context {T : Type} {N : Num T}.
Notation M := (M T).
Notation "x <- c ;; k" := (bind c (fun x => k)) (at level 61, c at next level, right associativity).
Notation "c ;;; k" := (bind c (fun _ => k)) (at level 61, right associativity).

(** MatInverseEigenHandler.hpp:31-57 (MatOperators.cpp:168-175). *)
Definition MatInverse (g : nat -> list T -> list T) (rhs : ptr) (result : option ptr) : M ptr :=
  ro <- deref rhs ;;
  assert (o_rows ro =? o_cols ro) ;;;
  p <- pool (o_space ro) result (o_rows ro) (o_cols ro) ;;
  ro <- deref rhs ;;
  for_each (seq 0 (o_rows ro * o_cols ro)) (fun k => rawset p k (nth k (g (o_rows ro) (o_buf ro)) n0)) ;;;
  ret p.
(** MatDetEigenHandler.hpp:31-56 (MatOperators.cpp:178-185). *)
Definition MatDet (d : nat -> list T -> T) (rhs : ptr) (result : option ptr) : M ptr :=
  ro <- deref rhs ;;
  assert (o_rows ro =? o_cols ro) ;;;
  p <- pool (o_space ro) result 1 1 ;;
  ro <- deref rhs ;;
  set2 p 0 0 (d (o_rows ro) (o_buf ro)) ;;;
  ret p.
End Kernels.

(** The row-major entries of a matrix, its inverse and its determinant. *)
Section Values.
Context {T : Type} {N : Num T}.
Definition flat (v : mat T) : list T := map (fun k => mf v (k / mc v) (k mod mc v)) (seq 0 (mr v * mc v)).
Definition minv (g : nat -> list T -> list T) (v : mat T) : mat T :=
  Mat (mr v) (mc v) (fun i j => nth (i * mc v + j) (g (mr v) (flat v)) n0).
Definition mdet (d : nat -> list T -> T) (v : mat T) : mat T := Mat 1 1 (fun _ _ => d (mr v) (flat v)).

Lemma flat_meq v w : meq v w -> flat v = flat w.
Proof.
  intros (E1 & E2 & E3). unfold flat. rewrite E1, E2. apply map_ext_in. intros k Hk. apply in_seq in Hk.
  assert (mc w <> 0) by nia. apply E3; [rewrite E1; apply Nat.div_lt_upper_bound; lia|rewrite E2; now apply Nat.mod_upper_bound].
Qed.
Lemma meq_inv g v w : meq v w -> meq (minv g v) (minv g w).
Proof.
  intros E. pose proof (flat_meq E) as F. destruct E as (E1 & E2 & _). split; [exact E1|]. split; [exact E2|].
  simpl. intros i j _ _. now rewrite F, E1, E2.
Qed.
Lemma meq_det d v w : meq v w -> meq (mdet d v) (mdet d w).
Proof.
  intros E. pose proof (flat_meq E) as F. destruct E as (E1 & _). split; [reflexivity|]. split; [reflexivity|].
  simpl. intros i j _ _. now rewrite F, E1.
Qed.
End Values.

Section Step.
Context {T : Type} {N : Num T}.
Notation mem := (mem T).
Implicit Types m : mem.

Lemma holds_buf m p v o : holds m p v -> get m p = Some o -> o_rows o = mr v /\ o_cols o = mc v /\ o_buf o = flat v.
Proof.
  intros ((k & sp & b & Hg & L) & V) Ho. rewrite Hg in Ho. injection Ho as <-. cbn [o_rows o_cols o_buf].
  split; [reflexivity|]. split; [reflexivity|]. unfold flat. apply nth_ext with (d := n0) (d' := n0).
  - rewrite map_length, seq_length. exact L.
  - intros n Hn. rewrite L in Hn. assert (mc v <> 0) by nia.
    set (f := fun k0 => mf v (k0 / mc v) (k0 mod mc v)).
    rewrite (@nth_indep _ (map f _) n n0 (f 0)) by (rewrite map_length, seq_length; exact Hn).
    rewrite (map_nth f), seq_nth by exact Hn. unfold f. simpl.
    rewrite <- V by (try (apply Nat.div_lt_upper_bound; lia); now apply Nat.mod_upper_bound).
    unfold val. rewrite Hg. cbn [o_cols o_buf]. rewrite (Nat.mul_comm (n / mc v)), <- Nat.div_mod by auto. reflexivity.
Qed.

Lemma pool_frame m r R C p m1 a o : pooled None CPU m r R C p m1 -> r <> Some a -> get m a = Some o -> p <> a /\ get m1 a = Some o.
Proof.
  intros P Nr Ha. assert (Ne : p <> a).
  { intros ->. destruct (pl_cases P) as [(-> & _)|(-> & _)]; [congruence|]. pose proof (get_lt Ha). lia. }
  split; [exact Ne|]. rewrite <- Ha. apply (pl_frame P). congruence.
Qed.

Lemma pres_MatInverse g a r : pres (MatInverse g a r).
Proof.
  apply pres_deref. intros o Ho. apply pres_bind; [apply pres_assert|intros _]. apply pres_bind; [rewrite Ho; apply pres_pool|intros p].
  apply pres_deref. intros o' _. apply pres_bind; [|intros; apply pres_ret]. apply pres_for. intros. apply pres_rawset.
Qed.
Lemma pres_MatDet d a r : pres (MatDet d a r).
Proof.
  apply pres_deref. intros o Ho. apply pres_bind; [apply pres_assert|intros _]. apply pres_bind; [rewrite Ho; apply pres_pool|intros p].
  apply pres_deref. intros o' _. apply pres_bind; [apply pres_set2|intros; apply pres_ret].
Qed.

Lemma inv_step g m a r v : tame m -> holds m a v -> slot_ok m r -> r <> Some a -> mr v = mc v ->
  exists p m', MatInverse g a r m = Ok (p, m') /\ wrote m r p (minv g v) m'.
Proof.
  intros Tm Ha Hr Na Sq. destruct (tame_pos Tm Ha) as [PR PC]. destruct (holds_get Ha) as (o & Ho).
  destruct (holds_buf Ha Ho) as (E1 & E2 & E3). assert (Sp : o_space o = CPU) by (eapply Tm; eauto).
  destruct (pool_ok None CPU (proj1 Tm) (slot_res Hr) PR PC) as (p & m1 & E & P).
  destruct (pooled_obj (proj1 Tm) P) as (ob & Hob & oR & oC & Lo).
  destruct (pool_frame P Na Ho) as [Ne Ho1].
  destruct (@scatter T nat m1 p ob (seq 0 (mr v * mc v)) (fun n => n) (fun n => Some (nth n (g (mr v) (flat v)) n0))
             (fun n => rawset p n (nth n (g (mr v) (flat v)) n0)) Hob) as (b' & Ef & A1 & A2 & A3).
  - apply seq_NoDup.
  - intros i Hi _. apply in_seq in Hi. lia.
  - auto.
  - intros i b Hi Lb _. apply in_seq in Hi. apply (rawset_upd _ Hob). lia.
  - assert (Er : MatInverse g a r m = Ok (p, upd m1 p b')).
    { unfold MatInverse, bind, deref, assert, ret. rewrite Ho, E1, E2, Sq, Nat.eqb_refl, Sp. rewrite Sq in E. unfold pool. rewrite E, Ho1, E1, E2, E3.
      rewrite Ef. reflexivity. }
    exists p, (upd m1 p b'). split; [exact Er|].
    apply stored_wrote; auto.
    + eapply stored_intro; eauto. intros i j Hi Hj. apply (A2 _ _); [|reflexivity].
      apply in_seq. pose proof (idx_bound Hi Hj). lia.
    + eapply pres_MatInverse; [|exact Er]. apply Tm.
Qed.
Lemma det_step d m a r v : tame m -> holds m a v -> slot_ok m r -> r <> Some a -> mr v = mc v ->
  exists p m', MatDet d a r m = Ok (p, m') /\ wrote m r p (mdet d v) m'.
Proof.
  intros Tm Ha Hr Na Sq. destruct (holds_get Ha) as (o & Ho).
  destruct (holds_buf Ha Ho) as (E1 & E2 & E3). assert (Sp : o_space o = CPU) by (eapply Tm; eauto).
  destruct (@pool_ok T N None CPU r 1 1 m (proj1 Tm) (slot_res Hr) ltac:(lia) ltac:(lia)) as (p & m1 & E & P).
  destruct (pooled_obj (proj1 Tm) P) as (ob & Hob & oR & oC & Lo).
  destruct (pool_frame P Na Ho) as [Ne Ho1].
  set (b' := list_set (o_buf ob) 0 (d (mr v) (flat v))).
  assert (Er : MatDet d a r m = Ok (p, upd m1 p b')).
  { unfold MatDet, bind at 1, deref at 1. rewrite Ho, E1, E2, Sq, Nat.eqb_refl. unfold bind at 1, assert at 1.
    unfold bind at 1. rewrite Sp. unfold pool. rewrite E. unfold bind at 1, deref at 1. rewrite Ho1, E1, E3.
    unfold bind at 1, set2. unfold bind at 1, deref. rewrite Hob, oR, oC. unfold bind, assert. cbn [Nat.ltb Nat.leb].
    pose proof (@rawset_upd T m1 p ob (o_buf ob) 0 (d (mr v) (flat v)) Hob ltac:(lia)) as Q. rewrite (upd_id Hob) in Q.
    simpl. rewrite Q. reflexivity. }
  exists p, (upd m1 p b'). split; [exact Er|]. apply stored_wrote; auto.
  - eapply stored_intro; eauto.
    + unfold b'. now rewrite length_list_set.
    + intros i j Hi Hj. assert (i = 0) as -> by lia. assert (j = 0) as -> by lia. simpl. unfold b'.
      destruct (o_buf ob); [simpl in Lo; lia|reflexivity].
  - eapply pres_MatDet; [|exact Er]. apply Tm.
Qed.
(** Reading the first element. *)
Lemma holds_first m a v : tame m -> holds m a v -> raw a 0 m = Ok (mf v 0 0, m).
Proof.
  intros Tm Ha. destruct (tame_pos Tm Ha) as [PR PC]. destruct Ha as ((k & sp & b & Hg & L) & V).
  rewrite <- V by auto. unfold val. rewrite Hg. cbn [o_cols o_buf]. eapply raw_ok; [exact Hg|]. cbn [o_buf]. simpl.
  destruct b; [simpl in L; nia|reflexivity].
Qed.
(** Non-square matrices are rejected. *)
Lemma inv_rejects g m a r v : holds m a v -> mr v <> mc v -> MatInverse g a r m = Rejected.
Proof.
  intros Ha Ne. destruct (holds_get Ha) as (o & Ho). destruct (holds_buf Ha Ho) as (E1 & E2 & _).
  unfold MatInverse, bind, deref, assert. rewrite Ho, E1, E2. apply Nat.eqb_neq in Ne. now rewrite Ne.
Qed.
Lemma det_rejects d m a r v : holds m a v -> mr v <> mc v -> MatDet d a r m = Rejected.
Proof.
  intros Ha Ne. destruct (holds_get Ha) as (o & Ho). destruct (holds_buf Ha Ho) as (E1 & E2 & _).
  unfold MatDet, bind, deref, assert. rewrite Ho, E1, E2. apply Nat.eqb_neq in Ne. now rewrite Ne.
Qed.
End Step.
