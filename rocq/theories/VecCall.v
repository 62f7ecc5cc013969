(** * vec: calls and histories of calls *)

From Coq Require Import List Arith Bool Lia.
From Verif Require Import Num MatMem Kernels KernelFacts KernelProofs KernelBlocks KernelMore Registry KernelStep Backend Slots Exec ConvProofs MatEngine MatGraph MatLeaf MatEval MatDeval MatHist MatSpec MatCalls Vec VecOk.
Import ListNotations.
Set Implicit Arguments.
Unset Strict Implicit.

Lemma reach_leaves {T} (G : graph T) e e' o : (forall a, In a (leaves e) -> In a (leaves e')) -> reach G e o -> reach G e' o.
Proof. intros H. induction 1 as [o Ho|o id a y o' Ho IH Hk Hin]; [apply reach_leaf; auto|]. eapply reach_item; eauto. Qed.

Section Call.
Context {T : Type} {N : Num T}.
Variable S : sched T.
Hypothesis VS : valid_sched S.
Variable B : backend (T := T).
Hypothesis BV : value_ok B.
Hypothesis BK : kron_ok B \/ kron_zeroed_ok B.
Variable G : graph T.
Variable host : nat -> option obj.
Variable rank : obj -> nat.
Hypothesis WF : wf_graph G host rank.
Notation mat := (mat T).
Notation st := (st (T := T)).
Implicit Types (s : st) (e : vexp T).
Notation vis s o := (f_vis (fl s o) = true).

(** ** reset *)
Section Reset.
Variable U : obj -> Prop.
Hypothesis UC : forall o id (a : mexp T) y o', U o -> g_kind G o = KExp id a y -> In o' (leaves (item id a y)) -> U o'.
Notation below := (below rank U).
Notation J := (J G rank U).
Lemma vreset_ok lv : forall e s, (forall o, In o (leaves (shape e)) -> below lv o) -> J lv s ->
  exists n s', (forall f, n <= f -> vreset G f e s = EOk (tt, s')) /\ cleared s s' /\ (forall o, ~ below lv o -> fl s' o = fl s o) /\
    J lv s' /\ (forall o, In o (leaves (shape e)) -> g_kind G o <> LEye -> f_vis (fl s' o) = false).
Proof.
  induction e as [e|id a IHa|k id l IHl r IHr|k id a IHa]; intros s Hl Hj.
  - exact (reset_ok WF UC Hl Hj).
  - exact (IHa s Hl Hj).
  - destruct (IHl s) as (nl & s1 & E1 & C1 & H1 & J1 & L1); [intros o Ho; apply Hl; simpl; apply in_or_app; auto|exact Hj|].
    destruct (IHr s1) as (nr & s2 & E2 & C2 & H2 & J2 & L2); [intros o Ho; apply Hl; simpl; apply in_or_app; auto|exact J1|].
    exists (max nl nr), s2. split.
    { intros f Hf. cbn [vreset]. unfold ebind. rewrite E1 by lia. apply E2. lia. }
    split; [eapply cleared_trans; eauto|]. split; [intros o Nb; rewrite H2; auto|]. split; [exact J2|].
    simpl. intros o Ho Ne. apply in_app_or in Ho. destruct Ho as [Ho|Ho]; [apply (cleared_mono C2)|]; auto.
  - exact (IHa s Hl Hj).
Qed.
End Reset.
Lemma vreset_root e s : settled G (shape e) s ->
  exists n s', (forall f, n <= f -> vreset G f e s = EOk (tt, s')) /\ cleared s s' /\ (forall o, ~ reach G (shape e) o -> fl s' o = fl s o) /\
    (forall o, reach G (shape e) o -> g_kind G o <> LEye -> f_vis (fl s' o) = false).
Proof.
  intros Hs. destruct (@vreset_ok (reach G (shape e)) (@reach_closed T G (shape e)) (top rank (shape e)) e s) as (n & s' & E & C & H & Hj & L).
  - intros o Ho. apply (below_reach WF). now apply reach_leaf.
  - intros o id a y o' [Ro _]. eauto.
  - exists n, s'. split; [exact E|]. split; [exact C|]. split; [intros o Nr; apply H; intros [R _]; auto|].
    intros o Ho. induction Ho as [o Hin|o id a y o' Ho IH Hk Hin]; [auto|]. intros Ne. eapply Hj; eauto; [now apply (below_reach WF)|]. apply IH. congruence.
Qed.

(** ** Eval *)
Variable dcl : mem T -> obj -> option ptr -> Prop.
Hypothesis dcl_same : forall m m' o r, (forall p, r = Some p -> get m' p = get m p) -> dcl m o r -> dcl m' o r.
Variable rho : env T.
(** vec(vec(... of one of the user's matrices, which is not a unit matrix. *)
Fixpoint outer e : Prop :=
  match e with
  | VVec _ a => outer a
  | VE (MLeaf o) => g_kind G o <> LEye
  | _ => False
  end.
Definition able e : Prop := tidy e \/ outer e.

Definition done e s v : Prop :=
  exists n p s', (forall f, n <= f -> VEval S B G rho f e s = EOk (p, s')) /\ at_ s' (vloc G e) p v /\ Inv_with G dcl s' /\
    (forall o, reach G (shape e) o -> vis s' o) /\ (forall o, ~ reach G (shape e) o -> fl s' o = fl s o).

Lemma done_tidy e s v : Inv_with G dcl s -> settled G (shape e) s -> root host (shape e) -> tidy e -> vmval G rho e v -> done e s v.
Proof.
  intros I Hs Hr Ht Hv. destruct (vreset_root Hs) as (n0 & s0 & E0 & C0 & H0 & V0).
  pose proof (Inv_with_cleared I C0) as I0. pose proof (root_pre_with WF rho I0 Hr V0) as P.
  destruct (veval_ok VS BV BK WF (@reach_closed T G (shape e)) Ht P Hv) as (n & p & s' & E & Q).
  assert (Nb : forall o, ~ reach G (shape e) o -> fl s' o = fl s0 o) by (intros o Nr; apply (w_high Q); intros [R _]; auto).
  exists (max n0 n), p, s'. split; [|split; [exact (w_at Q)|split; [|split]]].
  - intros f Hf. unfold VEval, ebind. rewrite E0 by lia. apply E. lia.
  - constructor.
    + apply Q.
    + apply Q.
    + intros o Hk He. destruct (f_eval (fl s0 o)) eqn:E1.
      * destruct (inv_eye I0 Hk E1) as (q & Hq). exists q. exact (keeps_at (w_frame Q) (w := ORes o) E1 Hq).
      * assert (Ro : reach G (shape e) o).
        { destruct (reach_dec WF (shape e) o) as [R|R]; [exact R|]. rewrite (Nb _ R) in He. congruence. }
        pose proof (w_pi Q (below_reach WF Ro)) as Qo. rewrite Hk in Qo. destruct (Qo He) as (q & Eq & Hq). exists q. split; [exact Eq|].
        eapply holds_meq; [exact Hq|]. now apply (eye_meq WF).
    + eapply (DC_keep dcl_same); [exact (inv_slots I0)|exact (inv_dc I0)|intros o _; apply (w_dres Q)|].
      intros o q Eq. apply (proj2 (w_frame Q) (ODres o)); [exact Logic.I|exact Eq].
  - intros o Ho. induction Ho as [o Hin|o id a y o' Ho IH Hk Hin]; [exact (w_leaves Q Hin)|]. exact (w_vc Q (below_reach WF Ho) Hk IH Hin).
  - intros o Nr. rewrite Nb, H0; auto.
Qed.

(** Reshaping a matrix that no other call relies on. *)
Lemma Inv_reshape s w p v R C : Inv_with G dcl s -> at_ s w p v -> 0 < R -> 0 < C -> R * C = mr v * mc v ->
  (forall o, g_kind G o = LEye -> w <> ORes o) -> (forall o, w <> ODres o) ->
  exists m', reshape p R C (mm s) = Ok (tt, m') /\ holds m' p (refold R C v) /\ Inv_with G dcl (St m' (ar s) (fl s)).
Proof.
  intros I At PR PC En Ne Nd. destruct (reshape_step (inv_slots I) At PR PC En) as (m' & Er & Sl & Hh & K).
  exists m'. split; [exact Er|]. split; [exact Hh|]. constructor.
  - exact Sl.
  - exact (inv_fi I).
  - intros o Hk He. destruct (inv_eye I Hk He) as (q & Hq). exists q. refine (keeps_at K _ Hq). apply not_eq_sym. auto.
  - eapply (DC_keep dcl_same); [exact (inv_slots I)|exact (inv_dc I)|reflexivity|].
    intros o q Eq. refine (proj2 (proj2 K (ODres o) q _ Eq)). apply not_eq_sym. auto.
Qed.

Lemma vloc_dres e o : vloc G e <> ODres o.
Proof.
  induction e as [e|id a IHa|k id l IHl r IHr|k id a IHa]; simpl; auto; try discriminate.
  pose proof (loc_0 G e) as Z. destruct (loc G e); [discriminate..|destruct Z].
Qed.
Lemma outer_eye e o : outer e -> g_kind G o = LEye -> vloc G e <> ORes o.
Proof.
  induction e as [e|id a IHa|k id l IHl r IHr|k id a IHa]; simpl; auto; try tauto.
  destruct e as [o'|k id l r|k id a]; try tauto. simpl. intros H Hk. destruct (g_kind G o') eqn:Ek; try discriminate; intros [= E]; congruence.
Qed.

Lemma done_outer e s v : Inv_with G dcl s -> settled G (shape e) s -> root host (shape e) -> outer e -> vmval G rho e v -> done e s v.
Proof.
  intros I. revert v. induction e as [e|id a IHa|k id l IHl r IHr|k id a IHa]; intros v Hs Hr Ho Hv; try (destruct Ho; fail).
  - apply done_tidy; auto. exact Logic.I.
  - inversion Hv as [|? ? va Ha| |]; subst.
    assert (Hs' : settled G (shape a) s) by (intros o id' b y o' R; apply Hs; exact (@reach_leaves T G (shape a) (shape (VVec id a)) _ (fun _ h => h) R)).
    assert (Hr' : root host (shape a)).
    { destruct Hr as [Nd Hh]. simpl in Nd, Hh. inversion Nd; subst. split; auto. }
    destruct (IHa va Hs' Hr' Ho Ha) as (n & p & s' & E & At & I' & V & H).
    destruct (vmval_pos WF Ha) as [P1 P2]. destruct (vmval_dims WF Ha) as [D1 D2].
    destruct (@Inv_reshape s' (vloc G a) p va (mr va * mc va) 1) as (m' & Er & Hh & I2); auto.
    { now apply Nat.mul_pos_pos. }
    { lia. }
    { intros o. now apply outer_eye. }
    { intros o. apply vloc_dres. }
    exists n, p, (St m' (ar s') (fl s')). split; [|split; [|split; [exact I2|split]]].
    + intros f Hf. specialize (E f Hf). unfold VEval, ebind in *. cbn [vreset]. destruct (vreset G f a s) as [[[] s0]| | |]; try discriminate.
      cbn [Vec.veval]. unfold ebind. rewrite E. unfold lift. rewrite <- D1, <- D2, Er. reflexivity.
    + split; [exact (proj1 At)|exact Hh].
    + intros o R. apply V. exact (@reach_leaves T G (shape (VVec id a)) (shape a) _ (fun _ h => h) R).
    + intros o R. apply H. intros R'. apply R. exact (@reach_leaves T G (shape a) (shape (VVec id a)) _ (fun _ h => h) R').
Qed.

Theorem vcall_eval_with e s v : Inv_with G dcl s -> settled G (shape e) s -> root host (shape e) -> able e -> vmval G rho e v -> done e s v.
Proof. intros I Hs Hr [Ht|Ho]; [now apply done_tidy|now apply done_outer]. Qed.
End Call.
