(** * Arrays of scratch matrices

    Operators and handlers keep arrays of pointers to scratch matrices (mp_arr).  A slot
    array is sound when its pointers are pairwise different, exist, and are neither
    special matrices nor any of the external matrices the computation reads. *)

From Coq Require Import List Arith Bool Lia.
From Verif Require Import Num MatMem Kernels KernelFacts KernelProofs KernelBlocks Registry KernelStep.
Import ListNotations.
Set Implicit Arguments.
Unset Strict Implicit.

Section Slots.
Context {T : Type} {N : Num T} {K : Type}.
Variable keq : forall a b : K, {a = b} + {a <> b}.
Notation mem := (mem T).
Notation mat := (mat T).
Implicit Types (m : mem) (v : mat) (arr : K -> option ptr) (X : ptr -> Prop).

Definition sset arr (k : K) (p : ptr) : K -> option ptr := fun k' => if keq k' k then Some p else arr k'.
Definition snull arr (k : K) : K -> option ptr := fun k' => if keq k' k then None else arr k'.

Record slots m arr X : Prop := {
  sl_tame : tame m;
  sl_slot : forall k p, arr k = Some p -> (exists o, get m p = Some o) /\ ~ is_special m p /\ ~ X p;
  sl_inj : forall k k' p, arr k = Some p -> arr k' = Some p -> k = k';
  sl_ext : forall q, X q -> exists o, get m q = Some o
}.

Lemma sset_same arr k p : sset arr k p k = Some p.
Proof. unfold sset. destruct (keq k k); congruence. Qed.
Lemma sset_other arr k p k' : k' <> k -> sset arr k p k' = arr k'.
Proof. intros H. unfold sset. destruct (keq k' k); congruence. Qed.

Lemma slots_ok m arr X k : slots m arr X -> slot_ok m (arr k).
Proof. intros H. destruct (arr k) as [p|] eqn:E; simpl; auto. destruct (sl_slot H E) as (A & B & _). auto. Qed.

(** Matrices that a write to slot k does not touch. *)
Definition safe m arr X (k : K) (q : ptr) : Prop :=
  X q \/ is_special m q \/ exists k', k' <> k /\ arr k' = Some q.
Lemma safe_not m arr X k q : slots m arr X -> safe m arr X k q -> arr k <> Some q.
Proof.
  intros H [Hx|[Hs|(k' & Ne & E)]] E'.
  - destruct (sl_slot H E') as (_ & _ & Q). auto.
  - destruct (sl_slot H E') as (_ & Q & _). auto.
  - apply Ne. eapply (sl_inj H); eauto.
Qed.

Lemma slot_write m arr X k p v m' : slots m arr X -> wrote m (arr k) p v m' ->
  slots m' (sset arr k p) X /\ holds m' p v /\
  (forall q w, arr k <> Some q -> holds m q w -> holds m' q w) /\
  (forall q, q < length (objs m) -> arr k <> Some q -> get m' q = get m q).
Proof.
  intros H [Hh Hw Hp Ev].
  assert (Fr : forall q, q < length (objs m) -> arr k <> Some q -> get m' q = get m q) by (intros; apply Ev; auto).
  assert (Lt : forall q, (exists o, get m q = Some o) -> q < length (objs m)) by (intros q (o & Ho); exact (get_lt Ho)).
  assert (Old : forall k' q, k' <> k -> arr k' = Some q -> q < length (objs m) /\ get m' q = get m q /\ q <> p).
  { intros k' q Ne E. destruct (sl_slot H E) as (Ex & _ & _). pose proof (Lt _ Ex) as L.
    assert (Q : arr k <> Some q) by (intros E'; apply Ne; eapply (sl_inj H); eauto).
    split; [auto|]. split; [auto|]. intros ->. destruct Hw as [Hw|Hw]; [auto|lia]. }
  split; [|split; [|split]].
  - constructor.
    + apply Ev.
    + intros k' q E. destruct (keq k' k) as [->|Ne].
      * rewrite sset_same in E. injection E as <-. split; [exact (holds_get Hh)|]. split; [exact Hp|].
        intros Hx. destruct Hw as [Hw|Hw]; [destruct (sl_slot H Hw) as (_ & _ & Q); auto|].
        pose proof (Lt _ (sl_ext H Hx)). lia.
      * rewrite sset_other in E by auto. destruct (sl_slot H E) as (Ex & Ns & Nx). destruct (Old _ _ Ne E) as (L & G & _).
        split; [now rewrite G|]. split; [|exact Nx]. rewrite (ev_special Ev L). exact Ns.
    + intros k1 k2 q E1 E2. destruct (keq k1 k) as [->|N1], (keq k2 k) as [->|N2].
      * reflexivity.
      * rewrite sset_same in E1. injection E1 as <-. rewrite sset_other in E2 by auto. destruct (Old _ _ N2 E2) as (_ & _ & Q). congruence.
      * rewrite sset_same in E2. injection E2 as <-. rewrite sset_other in E1 by auto. destruct (Old _ _ N1 E1) as (_ & _ & Q). congruence.
      * rewrite sset_other in E1, E2 by auto. eapply (sl_inj H); eauto.
    + intros q Hx. destruct (sl_ext H Hx) as (o & Ho). exists o. rewrite Fr; auto; [exact (get_lt Ho)|].
      intros E. destruct (sl_slot H E) as (_ & _ & Q). auto.
  - exact Hh.
  - intros q w Nq Hq. eapply holds_evolves; eauto.
  - exact Fr.
Qed.

(** Requests of special matrices and other steps that change no existing matrix. *)
Lemma slot_quiet m arr X m' : slots m arr X -> evolves nothing m m' ->
  slots m' arr X /\ (forall q w, holds m q w -> holds m' q w) /\ (forall q, q < length (objs m) -> get m' q = get m q).
Proof.
  intros H Ev. assert (Fr : forall q, q < length (objs m) -> get m' q = get m q) by (intros q L; apply Ev; auto).
  split; [|split].
  - constructor.
    + apply Ev.
    + intros k p E. destruct (sl_slot H E) as ((o & Ho) & Ns & Nx). pose proof (get_lt Ho) as L.
      split; [exists o; now rewrite Fr|]. split; [|exact Nx]. rewrite (ev_special Ev L). exact Ns.
    + apply (sl_inj H).
    + intros q Hx. destruct (sl_ext H Hx) as (o & Ho). exists o. rewrite Fr; auto. exact (get_lt Ho).
  - intros q w Hq. eapply holds_evolves; eauto.
  - exact Fr.
Qed.
Lemma special_not_slot m arr X k q : slots m arr X -> is_special m q -> arr k <> Some q.
Proof. intros H Hs E. destruct (sl_slot H E) as (_ & Q & _). auto. Qed.
Lemma ext_not_slot m arr X k q : slots m arr X -> X q -> arr k <> Some q.
Proof. intros H Hs E. destruct (sl_slot H E) as (_ & _ & Q). auto. Qed.
Lemma other_not_slot m arr X k k' q : slots m arr X -> k' <> k -> arr k' = Some q -> arr k <> Some q.
Proof. intros H Ne E E'. apply Ne. eapply (sl_inj H); eauto. Qed.
End Slots.
