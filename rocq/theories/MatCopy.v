(** * Copying a matrix that takes part in expressions

    The copy constructor copies the flags m_eval and m_devalf, but neither mp_result nor mp_dresult, and the copy is not
    marked visited (MatrixConstructors.ipp:122-143, IMatrix.hpp:31-36).  The entries of the copy are those of the original
    (C61); here only the state of the evaluation engine matters. *)
From Coq Require Import List Arith Bool Lia.
From Verif Require Import Num MatMem Kernels KernelFacts KernelProofs KernelBlocks KernelMore Registry KernelStep Backend Slots Exec ConvProofs MatEngine MatGraph MatLeaf MatEval MatDeval MatHist MatSpec MatCalls.
Import ListNotations.
Set Implicit Arguments.
Unset Strict Implicit.

(** Flags and result pointers of a copy (MatrixConstructors.ipp:122-130). *)
Definition copy_flags (f : flags) : flags := Fl false (f_eval f) (f_dev f) None None.
(** Matrix<T> o'(o), where o' has not been used before. *)
Definition copied {T} (o o' : obj) (s : st (T := T)) : st := St (mm s) (ar s) (fun k => if k =? o' then copy_flags (fl s o) else fl s k).
(** o' is a new object. *)
Definition fresh {T} (o' : obj) (s : st (T := T)) : Prop :=
  fl s o' = Fl false false false None None /\ ar s (ORes o') = None /\ ar s (ODres o') = None.

Section Copy.
Context {T : Type} {N : Num T}.
Variable S : sched T.
Hypothesis VS : valid_sched S.
Variable B : backend (T := T).
Variable G : graph T.
Variable host : nat -> option obj.
Variable rank : obj -> nat.
Hypothesis WF : wf_graph G host rank.
Notation st := (st (T := T)).
Implicit Types (s : st).

(** A pool request without an earlier result gives zeros. *)
Lemma pool_zeros m R C : tame m -> 0 < R -> 0 < C -> exists p m1, pool CPU None R C m = Ok (p, m1) /\ wrote m None p (Mat R C (fun _ _ => n0)) m1.
Proof.
  intros Tm PR PC. destruct (@pool_ok T N None CPU None R C m (proj1 Tm) Logic.I PR PC) as (p & m1 & E & P).
  destruct (pooled_obj (proj1 Tm) P) as (ob & Ho & oR & oC & Lo).
  assert (Z : forall k, nth k (o_buf ob) n0 = n0) by (destruct (pooled_buf eq_refl P Ho) as [(o' & Q & _)|Z]; [discriminate|exact Z]).
  exists p, m1. split; [exact E|]. rewrite <- (upd_id Ho). apply stored_wrote; auto.
  - exact Logic.I.
  - eapply stored_intro; eauto. intros i j Hi Hj. rewrite (nth_error_def n0) by (rewrite Lo; apply idx_bound; auto). now rewrite Z.
  - rewrite (upd_id Ho). eapply pres_pool; [|exact E]. apply Tm.
Qed.

Lemma leaf_den rho o : is_leaf G o -> mval G rho (MLeaf o) (leaf_mat G rho o).
Proof. intros H. now constructor. Qed.

(** The first evaluation of the copy of an evaluated leaf. *)
Lemma copy_first rho o o' s : Inv G s -> is_leaf G o' -> g_kind G o' <> LEye -> fresh o' s -> f_eval (fl s o) = true ->
  exists p s', (forall f, 1 <= f -> Eval S B G rho f (MLeaf o') (copied o o' s) = EOk (p, s')) /\
    holds (mm s') p (Mat (g_rows G o') (g_cols G o') (fun _ _ => n0)) /\ Inv G s'.
Proof.
  intros I Hl Ne (Fo & Ar & Ad) Ev. destruct (wf_pos WF o') as [PR PC].
  destruct (@pool_zeros (mm s) (g_rows G o') (g_cols G o') (sl_tame (inv_slots I)) PR PC) as (p & m1 & E & W).
  assert (W' : wrote (mm s) (ar s (ORes o')) p (Mat (g_rows G o') (g_cols G o') (fun _ _ => n0)) m1) by (rewrite Ar; exact W).
  destruct (slot_write owner_eq (inv_slots I) W') as (Sl & Hh & _ & Fr).
  assert (A1 : mm (copied o o' s) = mm s) by reflexivity. assert (A2 : ar (copied o o' s) = ar s) by reflexivity.
  assert (A3 : fl (copied o o' s) o' = copy_flags (fl s o)) by (simpl; now rewrite Nat.eqb_refl).
  assert (A4 : forall k, k <> o' -> fl (copied o o' s) k = fl s k) by (intros k Hk; simpl; apply Nat.eqb_neq in Hk; now rewrite Hk).
  revert A1 A2 A3 A4. generalize (copied o o' s). intros sc A1 A2 A3 A4.
  exists p. exists (St m1 (sset owner_eq (ar s) (ORes o') p) (fun k => if k =? o' then set_vis (fl sc k) else fl sc k)). split; [|split].
  - intros f Hf. destruct f as [|f]; [lia|]. unfold Eval, ebind. cbn [reset]. unfold ebind at 1, getf. rewrite A3. cbn [copy_flags f_vis].
    unfold eret. cbn [eval].
    assert (El : eval_leaf G rho o' sc = EOk (p, St m1 (sset owner_eq (ar s) (ORes o') p) (fun k => if k =? o' then set_vis (fl sc k) else fl sc k))).
    { unfold eval_leaf, ebind, lift_to. rewrite A1, A2, Ar, E. unfold getf. cbn [fl]. rewrite A3. cbn [copy_flags f_eval]. rewrite Ev. reflexivity. }
    unfold is_leaf in Hl. destruct (g_kind G o'); try contradiction; exact El.
  - exact Hh.
  - constructor; cbn [mm ar fl].
    + exact Sl.
    + intros k. cbn [fl]. destruct (Nat.eqb_spec k o') as [->|Nk]; [intros _; reflexivity|]. rewrite A4 by auto. apply (inv_fi I).
    + intros k Hk He. destruct (Nat.eqb_spec k o') as [->|Nk]; [congruence|]. rewrite A4 in He by auto.
      destruct (inv_eye I Hk He) as (q & Eq & Hq). exists q. rewrite sset_other by congruence. split; [exact Eq|].
      destruct (sl_slot (inv_slots I) Eq) as ((ob & Ho) & _). eapply holds_same; [|exact Hq]. apply Fr; [exact (get_lt Ho)|]. rewrite Ar. discriminate.
    + apply (dclean_DC_keep (G := G) (inv_slots I) (inv_dc I)); cbn [ar mm].
      * intros k _. now rewrite sset_other.
      * intros k q Eq. destruct (sl_slot (inv_slots I) Eq) as ((ob & Ho) & _). apply Fr; [exact (get_lt Ho)|]. rewrite Ar. discriminate.
Qed.
(** The copy of a leaf that has not been evaluated is a new leaf. *)
Lemma copy_untouched o o' s : Inv G s -> f_vis (fl s o) = false -> fresh o' s -> Inv G (copied o o' s) /\ forall k, fl (copied o o' s) k = fl s k.
Proof.
  intros I V (Fo & _ & _).
  assert (F : forall k, fl (copied o o' s) k = fl s k).
  { intros k. simpl. destruct (Nat.eqb_spec k o') as [->|]; [|reflexivity]. rewrite Fo. unfold copy_flags.
    destruct (f_eval (fl s o)) eqn:E1; [rewrite (inv_fi I (or_introl E1)) in V; discriminate|].
    destruct (f_dev (fl s o)) eqn:E2; [rewrite (inv_fi I (or_intror E2)) in V; discriminate|]. reflexivity. }
  split; [|exact F]. constructor.
  - exact (inv_slots I).
  - intros k. rewrite !F. apply (inv_fi I).
  - intros k Hk He. rewrite F in He. exact (inv_eye I Hk He).
  - exact (inv_dc I).
Qed.
End Copy.
