(** * train: a chain of gradient steps *)
From Coq Require Import List Arith Bool Lia Permutation Ring.
From Verif Require Import Num MatMem Kernels KernelFacts KernelProofs KernelBlocks KernelMore Registry KernelStep Backend Slots Exec ConvProofs Sums Determ MatEngine MatGraph MatLeaf MatEval MatDeval MatHist MatSpec MatCalls MatFuel MatRev MatInplace RevVals MatRevOk MatRevCall MatRevHist Param EnvExt Threads Train TrainSpec TrainOk TrainRun.
Import ListNotations.
Set Implicit Arguments.
Unset Strict Implicit.

Section All.
Context {T : Type} {N : Num T}.
Variable S : sched T.
Variable B : backend (T := T).
Variable G : graph T.
Variable ord : cache -> cache.
Variable host : nat -> option obj.
Hypothesis L : NumLaws N.
Hypothesis VS : valid_sched S.
Hypothesis BV : value_ok B.
Hypothesis BK : kron_ok B \/ kron_zeroed_ok B.
Hypothesis BA : accum_ok B.
Variable rank : obj -> nat.
Hypothesis WF : wf_graph G host rank.
Hypothesis Hord : forall c, Permutation (ord c) c.
Notation store := (store (T := T)).
Notation rst := (rst (T := T)).
Implicit Types (st : store) (e : rst).
Notation reached := (rreached S B G ord host).
Variables (F : obj) (id : nat) (a : mexp T) (y : obj) (ls : list layer) (masks_of : obj -> bool) (X Y : obj) (Xd Yd : nat -> T).
Definition inputs_of (o : obj) : bool := masks_of o || (o =? X) || (o =? Y).
Hypothesis NW : network G F id a y ls inputs_of.
Variable out : mexp T.
Hypothesis Or : root host out.
Hypothesis Of : fits G out.
Hypothesis Ol : forall o, In o (leaves out) -> is_leaf G o.
Variables (th display : bool) (alpha : T).
Notation training := (train S B G ord th display alpha F out ls masks_of X Y Xd Yd).
Notation steps := (sgd G alpha a ls masks_of X Y Xd Yd).

Hypothesis HXY : X <> Y.
Lemma out_inputs o : masks_of o = false -> o <> X -> o <> Y -> inputs_of o = false.
Proof. intros M NX NY. unfold inputs_of. rewrite M. apply Nat.eqb_neq in NX, NY. now rewrite NX, NY. Qed.
(** The entries of masks, X and Y before a step do not matter. *)
Lemma sgd_inputs ws : forall st st1 st', (forall o k, inputs_of o = false -> st1 o k = st o k) -> steps ws st1 st' -> steps ws st st'.
Proof.
  intros st st1 st' H Hs. inversion Hs as [? ? Q|w ws' ? s0 s1 ? Q HX HY Hd Hr]; subst.
  - apply sgd_done. intros o k M NX NY Nb. rewrite Q by auto. apply H. now apply out_inputs.
  - eapply sgd_step; [|exact HX|exact HY|exact Hd|exact Hr]. intros o k M NX NY. rewrite Q by auto. apply H. now apply out_inputs.
Qed.
Lemma fed st masks w : (forall o, masks_of o = match masks o with Some _ => true | None => false end) -> let st0 := feed (rows_from G X Y Xd Yd w) (feed masks st) in
  (forall o k, masks_of o = false -> o <> X -> o <> Y -> st0 o k = st o k) /\ shows G X Xd w st0 /\ shows G Y Yd w st0.
Proof.
  intros Hm st0. unfold st0, shows, feed, rows_from. split; [|split].
  - intros o k M NX NY. apply Nat.eqb_neq in NX, NY. rewrite NX, NY. rewrite Hm in M. destruct (masks o); [discriminate|reflexivity].
  - intros i j _ _. rewrite Nat.eqb_refl. f_equal. nia.
  - intros i j _ _. destruct (Nat.eqb_spec Y X) as [E|_]; [now elim HXY|]. rewrite Nat.eqb_refl. f_equal. nia.
Qed.
Lemma masks_in masks : (forall o, masks_of o = match masks o with Some _ => true | None => false end) -> forall o, masks o <> (@None (nat -> T)) -> inputs_of o = true.
Proof. intros H o Ho. unfold inputs_of. rewrite H. destruct (masks o); [reflexivity|now elim Ho]. Qed.
Lemma rows_in w o : rows_from G X Y Xd Yd w o <> None -> inputs_of o = true.
Proof.
  unfold rows_from, inputs_of. destruct (o =? X); [intros _; now rewrite orb_true_r|]. destruct (o =? Y); [intros _; now rewrite orb_true_r|]. intros H. now elim H.
Qed.
Theorem train_steps ws e st e' st' : training ws e st e' st' -> reached e -> reached e' /\ steps ws st st'.
Proof.
  induction 1 as [e st|w ws masks e st e1 st1 loss e' st' Hm Hb Ht IH|ws masks w e st p e1 e' st' Hm (n & E) Ht IH]; intros Re.
  - split; [exact Re|]. apply sgd_done. auto.
  - destruct (minibatch_ok L VS BV BK BA WF Hord NW th display alpha st Re (masks_in Hm) (rows_in (w := w))) as [_ Q].
    destruct (Q _ _ _ Hb) as (R1 & D1 & _). destruct (IH R1) as [R2 S2]. destruct (fed st w Hm) as (Q1 & Q2 & Q3). split; [exact R2|]. eapply sgd_step; eauto.
  - assert (R1 : reached e1).
    { eapply rr_call with (a := AEval (env_of (feed (rows_from G X Y Xd Yd w) (feed masks st))) out); [exact Re|now apply settled_plain| |exists n; exact E].
      split; [exact Or|]. split; [exact Of|exact Logic.I]. }
    destruct (IH R1) as [R2 S2]. split; [exact R2|]. eapply sgd_inputs; [|exact S2].
    intros o k H. unfold inputs_of in H. apply orb_false_elim in H. destruct H as [H HY]. apply orb_false_elim in H. destruct H as [H HX].
    unfold feed, rows_from. rewrite HX, HY. rewrite Hm in H. destruct (masks o); [discriminate|reflexivity].
Qed.
(** Training finishes. *)
Theorem train_total ws : forall e st, reached e -> exists e' st', training ws e st e' st'.
Proof.
  induction ws as [|w ws IH]; intros e st Re; [exists e, st; apply tr_done|].
  set (masks := fun o : obj => if masks_of o then Some (fun _ : nat => n1) else None).
  assert (Hm : forall o, masks_of o = match masks o with Some _ => true | None => false end) by (intros o; unfold masks; destruct (masks_of o); reflexivity).
  destruct (minibatch_ok L VS BV BK BA WF Hord NW th display alpha st Re (masks_in Hm) (rows_in (w := w))) as [(e1 & st1 & loss & Hb) Q].
  destruct (Q _ _ _ Hb) as (R1 & _). destruct (IH e1 st1 R1) as (e' & st' & Ht). exists e', st'. eapply tr_batch; eauto.
Qed.
End All.
