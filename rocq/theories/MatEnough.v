(** * A bound on the recursion of Eval and DevalF that does not depend on the state *)
From Coq Require Import List Arith Bool Lia.
From Verif Require Import Num MatMem Kernels KernelFacts KernelProofs KernelBlocks Registry KernelStep Backend Slots Exec MatEngine MatGraph MatSpec MatCalls MatFuel.
Import ListNotations.
Set Implicit Arguments.
Unset Strict Implicit.

Section Enough.
Context {T : Type} {N : Num T}.
Variable S : sched T.
Variable B : backend (T := T).
Variable G : graph T.
Variable host : nat -> option obj.
Variable rank : obj -> nat.
Hypothesis WF : wf_graph G host rank.
Implicit Type rho : env T.

Definition enough {A} (c : E (T := T) A) : Prop := forall s, c s <> ENoFuel.
Lemma enough_bind A C (c : E (T := T) A) (k : A -> E C) : enough c -> (forall a, enough (k a)) -> enough (ebind c k).
Proof. intros H Hk s. unfold ebind. specialize (H s). destruct (c s) as [[a s']| | |]; try discriminate; [apply Hk|congruence]. Qed.
Lemma enough_ret A (a : A) : enough (eret a).
Proof. intros s. discriminate. Qed.
Lemma enough_assert b : enough (eassert b).
Proof. intros s. unfold eassert. destruct b; discriminate. Qed.
Lemma enough_lift A (c : M T A) : enough (lift c).
Proof. intros s. unfold lift. destruct (c (mm s)) as [[a m]| |]; discriminate. Qed.
Lemma enough_lift_to w (c : st (T := T) -> M T ptr) : enough (fun s => lift_to w (c s) s).
Proof. intros s. unfold lift_to. destruct (c s (mm s)) as [[a m]| |]; discriminate. Qed.
Lemma enough_setf o f : enough (setf o f).
Proof. intros s. discriminate. Qed.
Lemma enough_getf o : enough (getf o).
Proof. intros s. discriminate. Qed.
Lemma enough_nonnull r : enough (nonnull r).
Proof. intros s. destruct r; discriminate. Qed.
Lemma enough_exec prog : enough (exec S B prog).
Proof. intros s. unfold exec. destruct (run _ _ _ _ _ _) as [[a m]| |]; discriminate. Qed.
Lemma enough_slot w : enough (slot w).
Proof. intros s. unfold slot. destruct (ar s w); discriminate. Qed.
Lemma enough_unalias id a b ps : enough (unalias id a b ps).
Proof. intros s. unfold unalias. destruct (existsb _ _); discriminate. Qed.
Ltac prim := repeat first [apply enough_ret | apply enough_assert | apply enough_lift | apply enough_lift_to | apply enough_setf | apply enough_getf
  | apply enough_nonnull | apply enough_exec | apply enough_slot | apply enough_unalias | assumption
  | apply enough_bind; [|intros ?] | match goal with |- enough (if ?b then _ else _) => destruct b end].
Lemma enough_leaf rho o : enough (eval_leaf G rho o).
Proof. unfold eval_leaf. prim. Qed.
Lemma enough_dleaf rho x o : enough (devalF_leaf S G rho x o).
Proof. unfold devalF_leaf. prim. Qed.

Theorem eval_enough : forall lv e, (forall o, In o (leaves e) -> rank o < lv) -> exists n, forall rho f, n <= f -> enough (eval S B G rho f e).
Proof.
  induction lv as [lv IHlv] using lt_wf_ind. induction e as [o|k id l IHl r IHr|k id a IHa]; intros Hl.
  - destruct (g_kind G o) as [| | | |id a y] eqn:Ek.
    1-4: exists 1; intros rho f Hf; destruct f as [|f]; [lia|]; cbn [eval]; rewrite Ek; apply enough_leaf.
    destruct (IHlv (rank o) (Hl o (or_introl eq_refl)) (item id a y)) as (n & H).
    { intros o' Ho. exact (wf_rank WF Ek Ho). }
    exists (Datatypes.S n). intros rho f Hf. destruct f as [|f]; [lia|]. cbn [eval]. rewrite Ek.
    assert (Q : enough (eval S B G rho f (item id a y))) by (apply H; lia). prim.
  - destruct IHl as (n1 & H1); [intros o Ho; apply Hl; simpl; apply in_or_app; auto|].
    destruct IHr as (n2 & H2); [intros o Ho; apply Hl; simpl; apply in_or_app; auto|].
    exists (Datatypes.S (max n1 n2)). intros rho f Hf. destruct f as [|f]; [lia|]. cbn [eval].
    assert (Q1 : enough (eval S B G rho f l)) by (apply H1; lia). assert (Q2 : enough (eval S B G rho f r)) by (apply H2; lia). prim.
  - destruct IHa as (n1 & H1); [exact Hl|]. exists (Datatypes.S n1). intros rho f Hf. destruct f as [|f]; [lia|]. cbn [eval].
    assert (Q1 : enough (eval S B G rho f a)) by (apply H1; lia). prim.
Qed.
Theorem devalF_enough x : forall lv e, (forall o, In o (leaves e) -> rank o < lv) -> exists n, forall rho f, n <= f -> enough (devalF S B G rho f x e).
Proof.
  induction lv as [lv IHlv] using lt_wf_ind. induction e as [o|k id l IHl r IHr|k id a IHa]; intros Hl.
  - destruct (g_kind G o) as [| | | |id a y] eqn:Ek.
    1-4: exists 1; intros rho f Hf; destruct f as [|f]; [lia|]; cbn [devalF]; rewrite Ek; apply enough_dleaf.
    assert (Lt : forall o', In o' (leaves (item id a y)) -> rank o' < rank o) by (intros o' Ho; exact (wf_rank WF Ek Ho)).
    destruct (IHlv (rank o) (Hl o (or_introl eq_refl)) (item id a y) Lt) as (n & H).
    destruct (@eval_enough (rank o) (item id a y) Lt) as (n' & H').
    exists (Datatypes.S (max n n')). intros rho f Hf. destruct f as [|f]; [lia|]. cbn [devalF]. rewrite Ek.
    assert (Q : enough (devalF S B G rho f x (item id a y))) by (apply H; lia).
    assert (Q' : enough (eval S B G rho f (item id a y))) by (apply H'; lia). prim.
  - assert (Ll : forall o, In o (leaves l) -> rank o < lv) by (intros o Ho; apply Hl; simpl; apply in_or_app; auto).
    assert (Lr : forall o, In o (leaves r) -> rank o < lv) by (intros o Ho; apply Hl; simpl; apply in_or_app; auto).
    destruct (IHl Ll) as (n1 & H1). destruct (IHr Lr) as (n2 & H2).
    destruct (eval_enough Ll) as (n3 & H3). destruct (eval_enough Lr) as (n4 & H4).
    exists (Datatypes.S (max (max n1 n2) (max n3 n4))). intros rho f Hf. destruct f as [|f]; [lia|]. cbn [devalF].
    assert (Q1 : enough (devalF S B G rho f x l)) by (apply H1; lia). assert (Q2 : enough (devalF S B G rho f x r)) by (apply H2; lia).
    assert (Q3 : enough (eval S B G rho f l)) by (apply H3; lia). assert (Q4 : enough (eval S B G rho f r)) by (apply H4; lia).
    destruct k; prim.
  - destruct (IHa Hl) as (n1 & H1). destruct (eval_enough (e := a) Hl) as (n2 & H2).
    exists (Datatypes.S (max n1 n2)). intros rho f Hf. destruct f as [|f]; [lia|]. cbn [devalF].
    assert (Q1 : enough (devalF S B G rho f x a)) by (apply H1; lia). assert (Q2 : enough (eval S B G rho f a)) by (apply H2; lia).
    destruct k; prim.
Qed.
Theorem reset_enough : forall lv e, (forall o, In o (leaves e) -> rank o < lv) -> exists n, forall f, n <= f -> enough (reset G f e).
Proof.
  induction lv as [lv IHlv] using lt_wf_ind. induction e as [o|k id l IHl r IHr|k id a IHa]; intros Hl.
  - destruct (g_kind G o) as [| | | |id a y] eqn:Ek.
    1-4: exists 1; intros f Hf; destruct f as [|f]; [lia|]; cbn [reset]; rewrite Ek; prim.
    destruct (IHlv (rank o) (Hl o (or_introl eq_refl)) (item id a y)) as (n & H).
    { intros o' Ho. exact (wf_rank WF Ek Ho). }
    exists (Datatypes.S n). intros f Hf. destruct f as [|f]; [lia|]. cbn [reset]. rewrite Ek.
    assert (Q : enough (reset G f (item id a y))) by (apply H; lia). prim.
  - destruct IHl as (n1 & H1); [intros o Ho; apply Hl; simpl; apply in_or_app; auto|].
    destruct IHr as (n2 & H2); [intros o Ho; apply Hl; simpl; apply in_or_app; auto|].
    exists (Datatypes.S (max n1 n2)). intros f Hf. destruct f as [|f]; [lia|]. cbn [reset].
    assert (Q1 : enough (reset G f l)) by (apply H1; lia). assert (Q2 : enough (reset G f r)) by (apply H2; lia). prim.
  - destruct IHa as (n1 & H1); [exact Hl|]. exists (Datatypes.S n1). intros f Hf. destruct f as [|f]; [lia|]. cbn [reset]. apply H1. lia.
Qed.
Lemma ranks (e : mexp T) : exists lv, forall o, In o (leaves e) -> rank o < lv.
Proof.
  exists (Datatypes.S (list_max (map rank (leaves e)))). intros o Ho. apply le_n_S.
  pose proof (proj1 (list_max_le (map rank (leaves e)) _) (Nat.le_refl _)) as Q. rewrite Forall_forall in Q. apply Q. now apply in_map.
Qed.
(** One bound for all entries and all states. *)
Theorem Eval_enough e : exists n, forall rho f, n <= f -> enough (Eval S B G rho f e).
Proof.
  destruct (ranks e) as (lv & H). destruct (reset_enough H) as (n1 & H1). destruct (eval_enough H) as (n2 & H2).
  exists (max n1 n2). intros rho f Hf. unfold Eval. apply enough_bind; [apply H1; lia|intros _; apply H2; lia].
Qed.
Theorem DevalF_enough e x : exists n, forall rho f, n <= f -> enough (DevalF S B G rho f e x).
Proof.
  destruct (ranks e) as (lv & H). destruct (reset_enough H) as (n1 & H1). destruct (devalF_enough x H) as (n2 & H2).
  exists (max n1 n2). intros rho f Hf. unfold DevalF. apply enough_bind; [apply H1; lia|intros _; apply H2; lia].
Qed.
End Enough.
