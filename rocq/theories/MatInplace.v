(** * Accumulation in place: A = A + B *)
From Coq Require Import List Arith Bool Lia.
From Verif Require Import Num MatMem Kernels KernelFacts KernelProofs KernelBlocks Registry KernelStep Backend MatLeaf.
Import ListNotations.
Set Implicit Arguments.
Unset Strict Implicit.

Section Inplace.
Context {T : Type} {N : Num T}.
Notation mem := (mem T).
Notation mat := (mat T).
Variable S : sched T.
Hypothesis VS : valid_sched S.
Implicit Types (m : mem).

Definition accum_ok (B : backend (T := T)) : Prop :=
  forall m a b va vb, tame m -> holds m a va -> holds m b vb -> ~ is_special m a -> same_dims va vb ->
  exists m', b_add B a b (Some a) m = Ok (a, m') /\ wrote m (Some a) a (madd va vb) m'.

Lemma stored_same m m' a R C F p : is_mat m a R C -> stored m m' (Some a) p R C F -> p = a.
Proof.
  intros (k & sp & b & Hg & _) (_ & _ & W & _). unfold num_elem in W. rewrite Hg in W. cbn [o_rows o_cols] in W. now rewrite Nat.eqb_refl in W.
Qed.

Lemma naive_accum m a b va vb : tame m -> holds m a va -> holds m b vb -> ~ is_special m a -> same_dims va vb ->
  exists m', MatAdd S a b (Some a) m = Ok (a, m') /\ wrote m (Some a) a (madd va vb) m'.
Proof.
  intros Tm Ha Hb Ns (E1 & E2).
  assert (So : slot_ok m (Some a)) by (split; [exact (holds_get Ha)|exact Ns]).
  destruct (@elementwise_ok T N S VS nadd a b (Some a) m (mr va) (mc va)) as (p & m' & E & St).
  - apply Tm.
  - apply Ha.
  - rewrite E1, E2. apply Hb.
  - now rewrite !(tame_cpu _ Tm).
  - now apply slot_res.
  - pose proof (stored_same (proj1 Ha) St) as ->. exists m'. split; [exact E|]. eapply wrote_meq.
    + eapply stored_wrote; eauto. eapply pres_elementwise; [|exact E]. apply Tm.
    + split; [reflexivity|]. split; [reflexivity|]. simpl. intros i j Hi Hj. rewrite (holds_val Ha), (holds_val Hb); auto; lia.
Qed.

Lemma eig_accum m a b va vb : tame m -> holds m a va -> holds m b vb -> ~ is_special m a -> same_dims va vb ->
  exists m', eig_zip nadd a b (Some a) m = Ok (a, m') /\ wrote m (Some a) a (madd va vb) m'.
Proof.
  intros Tm Ha Hb Ns (E1 & E2). pose proof Tm as Tm0.
  assert (So : slot_ok m (Some a)) by (split; [exact (holds_get Ha)|exact Ns]).
  pose proof Ha as ((ka & sa & ba & Ga & La) & Va). pose proof Hb as ((kb & sb & bb & Gb & Lb) & Vb).
  destruct (tame_pos Tm Ha) as [PR PC]. destruct Tm as (Gm & Sp & Ro).
  assert (sa = CPU /\ sb = CPU) as [-> ->] by (split; [apply (proj1 Sp _ _ Ga)|apply (proj1 Sp _ _ Gb)]).
  pose proof (pool_same Ha) as Ps.
  destruct (pool_ok None CPU Gm (slot_res So) PR PC) as (p & m1 & Ep & P).
  assert (Q : p = a /\ m1 = m) by (unfold pool in Ps; rewrite Ps in Ep; injection Ep as <- <-; auto). destruct Q as [-> ->].
  assert (HF : forall i j, i < mr va -> j < mc va -> nadd (val m a i j) (val m b i j) = mf (madd va vb) i j).
  { intros i j Hi Hj. rewrite (holds_val Ha), (holds_val Hb) by (auto; lia). reflexivity. }
  destruct (assign_stored Gm P (F := fun m i j => nadd (val m a i j) (val m b i j)) HF) as (m' & Ea & St).
  assert (E : eig_zip nadd a b (Some a) m = Ok (a, m')).
  { unfold eig_zip. unfold bind at 1, deref at 1. rewrite Ga. unfold bind at 1, deref at 1. rewrite Gb. cbn [o_rows o_cols o_space].
    rewrite <- E1, <- E2, !Nat.eqb_refl. unfold bind at 1, assert at 1. cbn [andb]. unfold bind at 1, assert at 1. cbn [space_eqb].
    unfold bind at 1. unfold pool. rewrite Ep. unfold bind at 1. rewrite Ea. reflexivity. }
  exists m'. split; [exact E|].
  apply (@stored_wrote T N m m' (Some a) a (mr va) (mc va) (mf (madd va vb))); auto.
  assert (Q : pres (eig_zip nadd a b (Some a))).
  { unfold eig_zip. apply pres_deref. intros o Ho. apply pres_deref. intros o' Ho'.
    do 2 (apply pres_bind; [apply pres_assert|intros _]). rewrite Ho'. apply pres_bind; [apply pres_pool|intros q].
    apply pres_bind; [apply pres_assign|intros; apply pres_ret]. }
  exact (Q _ _ _ Sp E).
Qed.

Lemma backend_accum h : accum_ok (backend_of S h).
Proof.
  intros m a b va vb Tm Ha Hb Ns D. pose proof Hb as ((kb & sb & bb & Gb & Lb) & Vb).
  simpl. unfold dispatch. unfold bind at 1, deref at 1. rewrite Gb. cbn [o_space].
  assert (sb = CPU) as -> by (apply (proj1 (proj1 (proj2 Tm)) _ _ Gb)).
  destruct h; [now apply eig_accum|now apply naive_accum].
Qed.
End Inplace.
