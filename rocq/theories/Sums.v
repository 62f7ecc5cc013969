(** * Finite sums over a commutative ring *)
From Coq Require Import List Arith Bool Lia Ring.
From Verif Require Import Num KernelFacts KernelProofs.
Set Implicit Arguments.
Unset Strict Implicit.

Section Sums.
Context {T : Type} {N : Num T}.
Hypothesis L : NumLaws N.
Add Ring TR : (law_ring N L).
Implicit Types (f g : nat -> T).

Lemma sum_zero n f : (forall k, k < n -> f k = n0) -> sum_n n f = n0.
Proof. induction n as [|n IH]; intros H; simpl; auto. rewrite IH by (intros; apply H; lia). rewrite H by lia. ring. Qed.
Lemma sum_add n f g : sum_n n (fun k => nadd (f k) (g k)) = nadd (sum_n n f) (sum_n n g).
Proof. induction n as [|n IH]; simpl; [ring|]. rewrite IH. ring. Qed.
Lemma sum_mul_l n c f : sum_n n (fun k => nmul c (f k)) = nmul c (sum_n n f).
Proof. induction n as [|n IH]; simpl; [ring|]. rewrite IH. ring. Qed.
Lemma sum_mul_r n c f : sum_n n (fun k => nmul (f k) c) = nmul (sum_n n f) c.
Proof. induction n as [|n IH]; simpl; [ring|]. rewrite IH. ring. Qed.
Lemma sum_swap n p (f : nat -> nat -> T) : sum_n n (fun i => sum_n p (fun j => f i j)) = sum_n p (fun j => sum_n n (fun i => f i j)).
Proof.
  induction n as [|n IH]; simpl.
  - symmetry. apply sum_zero. auto.
  - rewrite IH. rewrite <- sum_add. reflexivity.
Qed.
Lemma sum_delta n i f : i < n -> sum_n n (fun k => if k =? i then f k else n0) = f i.
Proof.
  induction n as [|n IH]; intros H; [lia|]. simpl. destruct (Nat.eq_dec i n) as [->|Ne].
  - rewrite Nat.eqb_refl. rewrite sum_zero; [ring|]. intros k Hk. destruct (k =? n) eqn:E; auto. apply Nat.eqb_eq in E. lia.
  - rewrite IH by lia. destruct (n =? i) eqn:E; [apply Nat.eqb_eq in E; lia|]. ring.
Qed.
Lemma sum_delta_mul_l n i f : i < n -> sum_n n (fun k => nmul (if k =? i then n1 else n0) (f k)) = f i.
Proof.
  intros H. rewrite <- (sum_delta f H). apply sum_n_ext. intros k _. destruct (k =? i); ring.
Qed.
Lemma sum_delta_mul_r n i f : i < n -> sum_n n (fun k => nmul (f k) (if k =? i then n1 else n0)) = f i.
Proof.
  intros H. rewrite <- (sum_delta f H). apply sum_n_ext. intros k _. destruct (k =? i); ring.
Qed.
Lemma sum_app n p f : sum_n (n + p) f = nadd (sum_n n f) (sum_n p (fun k => f (n + k))).
Proof.
  induction p as [|p IH]; simpl; [rewrite Nat.add_0_r; ring|]. rewrite Nat.add_succ_r. simpl. rewrite IH. ring.
Qed.
(** A sum over pairs, numbered row by row. *)
Lemma sum_prod a b f : sum_n (a * b) f = sum_n a (fun i => sum_n b (fun j => f (i * b + j))).
Proof.
  induction a as [|a IH]; simpl; auto. rewrite Nat.add_comm, sum_app, IH. f_equal.
Qed.
Lemma sum_1 f : sum_n 1 f = f 0.
Proof. simpl. ring. Qed.
End Sums.
