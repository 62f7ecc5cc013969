(** * PreComp and DevalR *)
From Coq Require Import List Arith Bool Lia Permutation Ring.
From Verif Require Import Num MatMem Kernels KernelFacts KernelProofs KernelBlocks KernelMore Registry KernelStep Backend Slots Exec ConvProofs Sums MatEngine MatGraph MatLeaf MatEval MatDeval MatHist MatSpec MatCalls MatRev MatInplace RevVals MatRevOk.
Import ListNotations.
Set Implicit Arguments.
Unset Strict Implicit.

Section ResetSim.
Context {T : Type} {N : Num T}.
Variable G : graph T.
Notation rst := (rst (T := T)).

(** reset with caches does on flags what reset of MatEngine.v does. *)
Record swept (e : mexp T) (s s' : rst) : Prop := {
  sw_nc : forall i, rnc s' i = rnc s i \/ rnc s' i = [];
  sw_oc : forall o, roc s' o = roc s o \/ roc s' o = [];
  sw_cl : rcl s' = rcl s;
  sw_nodes : forall i, In i (nodes e) -> rnc s' i = [];
  sw_leaves : forall o, In o (leaves e) -> roc s' o = [];
  sw_far : forall o, ~ reach G e o -> roc s' o = roc s o
}.
Lemma rreset_sim f : forall e s b', reset G f e (rb s) = EOk (tt, b') -> exists s', rreset G f e s = EOk (tt, s') /\ rb s' = b' /\ swept e s s'.
Proof.
  induction f as [|f IH]; intros e s b' H; [discriminate|]. destruct e as [o|k id l r|k id a].
  - cbn [reset] in H. unfold ebind, getf in H. cbn [rreset]. unfold rbind at 1. unfold rl at 1, getf at 1.
    replace (RSt (rb s) (rnc s) (roc s) (rcnt s) (rcl s)) with s by (destruct s; reflexivity).
    destruct (f_vis (fl (rb s) o)) eqn:Vo.
    + rewrite setf_eq in H. set (b0 := St _ _ _) in H.
      assert (Q : exists s1, (match g_kind G o with KExp id a y => rreset G f (item id a y) | _ => rret tt end) (up s b0) = EOk (tt, s1) /\ rb s1 = b' /\
                  (forall i, rnc s1 i = rnc s i \/ rnc s1 i = []) /\ (forall a, roc s1 a = roc s a \/ roc s1 a = []) /\ rcl s1 = rcl s /\
                  (forall a, ~ reach G (MLeaf o) a -> roc s1 a = roc s a)).
      { destruct (g_kind G o) as [| | | |id a y] eqn:Ek.
        1-4: injection H as <-; exists (up s b0); split; [reflexivity|]; split; [reflexivity|]; repeat (split; [auto|]); auto.
        destruct (IH (item id a y) (up s b0) b' H) as (s1 & E1 & E2 & [W1 W2 W3 W4 W5 W6]). exists s1. split; [exact E1|]. split; [exact E2|].
        split; [exact W1|]. split; [exact W2|]. split; [exact W3|]. intros a' Nr. apply W6. intros Q. apply Nr.
        eapply reach_trans; [apply reach_leaf; simpl; auto|exact Ek|exact Q]. }
      destruct Q as (s1 & E1 & E2 & W1 & W2 & W3 & W6).
      exists (RSt (rb s1) (rnc s1) (fun i => if i =? o then [] else roc s1 i) (rcnt s1) (rcl s1)). split; [|split; [exact E2|]].
      * unfold rbind at 1. unfold rbind at 1. unfold rl at 1. rewrite setf_eq. fold b0. change (RSt b0 (rnc s) (roc s) (rcnt s) (rcl s)) with (up s b0).
        rewrite E1. reflexivity.
      * constructor; cbn [rnc roc rcl]; auto.
        -- intros a. destruct (Nat.eqb_spec a o); auto.
        -- intros i [].
        -- intros a [<-|[]]. now rewrite Nat.eqb_refl.
        -- intros a Nr. destruct (Nat.eqb_spec a o) as [->|]; [|auto]. exfalso. apply Nr. apply reach_leaf. simpl. auto.
    + injection H as <-. exists (RSt (rb s) (rnc s) (fun i => if i =? o then [] else roc s i) (rcnt s) (rcl s)). split; [reflexivity|]. split; [reflexivity|].
      constructor; cbn [rnc roc rcl]; auto.
      * intros a. destruct (Nat.eqb_spec a o); auto.
      * intros i [].
      * intros a [<-|[]]. now rewrite Nat.eqb_refl.
      * intros a Nr. destruct (Nat.eqb_spec a o) as [->|]; [|auto]. exfalso. apply Nr. apply reach_leaf. simpl. auto.
  - cbn [reset] in H. unfold ebind in H. destruct (reset G f l (rb s)) as [[[] b1]| | |] eqn:El; try discriminate.
    set (s0 := RSt (rb s) (fun i => if i =? id then [] else rnc s i) (roc s) (fun i => if i =? id then 0 else rcnt s i) (rcl s)).
    destruct (IH l s0 b1 El) as (s1 & E1 & F1 & [W1 W2 W3 W4 W5 W6]). rewrite <- F1 in H.
    destruct (IH r s1 b' H) as (s2 & E2 & F2 & [V1 V2 V3 V4 V5 V6]).
    exists s2. split; [cbn [rreset]; unfold rbind, set_cnt, set_nc; cbn [rb rnc roc rcnt rcl]; fold s0; rewrite E1; exact E2|]. split; [exact F2|].
    assert (A1 : forall i, rnc s1 i = [] -> rnc s2 i = []) by (intros i Q; destruct (V1 i); congruence).
    assert (A2 : forall i, roc s1 i = [] -> roc s2 i = []) by (intros i Q; destruct (V2 i); congruence).
    assert (Z : forall i, rnc s1 i = rnc s i \/ rnc s1 i = []).
    { intros i. destruct (W1 i) as [Q|Q]; [|auto]. rewrite Q. unfold s0; cbn [rnc]. destruct (i =? id); auto. }
    constructor.
    + intros i. destruct (V1 i) as [->|]; [apply Z|auto].
    + intros i. destruct (V2 i) as [->|]; [apply W2|auto].
    + rewrite V3. exact W3.
    + simpl. intros i [<-|Q]; [apply A1; destruct (W1 id) as [-> | ->]; [unfold s0; cbn [rnc]; now rewrite Nat.eqb_refl|reflexivity]|].
      apply in_app_or in Q. destruct Q; auto.
    + simpl. intros o Q. apply in_app_or in Q. destruct Q; auto.
    + intros o Q. rewrite V6, W6; [reflexivity| |]; intros Q'; apply Q; clear -Q'; induction Q'; try (now (apply reach_leaf; simpl; apply in_or_app; auto)); eapply reach_item; eauto.
  - cbn [reset] in H.
    set (s0 := RSt (rb s) (fun i => if i =? id then [] else rnc s i) (roc s) (fun i => if i =? id then 0 else rcnt s i) (rcl s)).
    destruct (IH a s0 b' H) as (s1 & E1 & F1 & [W1 W2 W3 W4 W5 W6]).
    exists s1. split; [cbn [rreset]; unfold rbind, set_cnt, set_nc; cbn [rb rnc roc rcnt rcl]; exact E1|]. split; [exact F1|].
    constructor; auto.
    + intros i. destruct (W1 i) as [Q|Q]; [|auto]. rewrite Q. unfold s0; cbn [rnc]. destruct (i =? id); auto.
    + simpl. intros i [<-|Q]; [|auto]. destruct (W1 id) as [-> | ->]; [unfold s0; cbn [rnc]; now rewrite Nat.eqb_refl|reflexivity].
    + intros o Q. rewrite W6; [reflexivity|]. intros Q'; apply Q; clear -Q'; induction Q'; try (now (apply reach_leaf; simpl; auto)); eapply reach_item; eauto.
Qed.
(** More fuel does not change the outcome. *)
Definition rmore {A} (c c' : R (T := T) A) : Prop := forall s, c s = ENoFuel \/ c s = c' s.
Lemma rmore_refl A (c : R (T := T) A) : rmore c c.
Proof. intros s. now right. Qed.
Lemma rmore_bind A C (c c' : R (T := T) A) (k k' : A -> R C) : rmore c c' -> (forall a, rmore (k a) (k' a)) -> rmore (rbind c k) (rbind c' k').
Proof.
  intros H Hk s. unfold rbind. destruct (H s) as [->| <-]; [now left|]. destruct (c s) as [[a s']| | |]; auto. apply Hk.
Qed.
Lemma rreset_more n : forall e, rmore (rreset G n e) (rreset G (Datatypes.S n) e).
Proof.
  induction n as [|n IH]; intros e; [intros s; now left|].
  destruct e as [o|k id l r|k id a].
  - cbn [rreset]. apply rmore_bind; [apply rmore_refl|intros f]. apply rmore_bind; [|intros _; apply rmore_refl]. destruct (f_vis f); [|apply rmore_refl].
    apply rmore_bind; [apply rmore_refl|intros _]. destruct (g_kind G o); try apply rmore_refl. apply IH.
  - change (rmore (rreset G (Datatypes.S n) (MBin k id l r)) (rreset G (Datatypes.S (Datatypes.S n)) (MBin k id l r))).
    cbn [rreset]. apply rmore_bind; [apply rmore_refl|intros _]. apply rmore_bind; [apply rmore_refl|intros _]. apply rmore_bind; [apply IH|intros _]. apply IH.
  - change (rmore (rreset G (Datatypes.S n) (MUn k id a)) (rreset G (Datatypes.S (Datatypes.S n)) (MUn k id a))).
    cbn [rreset]. apply rmore_bind; [apply rmore_refl|intros _]. apply rmore_bind; [apply rmore_refl|intros _]. apply IH.
Qed.
Lemma rreset_fuel n f e s x : n <= f -> rreset G n e s = EOk x -> rreset G f e s = EOk x.
Proof.
  intros H Hn. induction H as [|f H IH]; [exact Hn|]. destruct (rreset_more f e s) as [E|E]; congruence.
Qed.
End ResetSim.

(** ** The value of the adjoint of x *)
Section Value.
Context {T : Type} {N : Num T}.
Variable L : NumLaws N.
Add Ring TRing : (law_ring N L).
Variable G : graph T.
Variable host : nat -> option obj.
Variable rank : obj -> nat.
Hypothesis WF : wf_graph G host rank.
Variable rho : env T.
Notation vtr := (vtr G rho).

Lemma aadd_keeps (ac : acache (T := T)) k v k' : ac k' <> None -> aadd ac k v k' <> None.
Proof. intros H. unfold aadd, aput. destruct (key_eq k' k); [discriminate|exact H]. Qed.
Lemma sadd_keeps z so vs : forall (ac : acache (T := T)) k, ac k <> None -> sadd G rho z so vs ac k <> None.
Proof.
  induction vs as [|v vs IH]; intros ac k H; [exact H|].
  change (sadd G rho z so vs (aadd ac (KMat (g_nidx G v)) (sentry rho z so v)) k <> None). apply IH, aadd_keeps, H.
Qed.
Lemma sadd_in z so vs v : In v vs -> forall ac : acache (T := T), sadd G rho z so vs ac (KMat (g_nidx G v)) <> None.
Proof.
  induction vs as [|w vs IH]; [intros []|]. intros Hin ac.
  change (sadd G rho z so vs (aadd ac (KMat (g_nidx G w)) (sentry rho z so w)) (KMat (g_nidx G v)) <> None).
  destruct Hin as [->|Hin]; [|now apply IH]. apply sadd_keeps. rewrite aadd_same. discriminate.
Qed.
Lemma uadd_keeps k z (ac : acache (T := T)) k' : ac k' <> None -> uadd G rho k z ac k' <> None.
Proof. destruct k; cbn [uadd]; auto using sadd_keeps. Qed.
Lemma uadd_in k z (ac : acache (T := T)) v : In v (uvars k) -> uadd G rho k z ac (KMat (g_nidx G v)) <> None.
Proof. destruct k; cbn [uadd uvars]; try (intros []; fail); intros H; now apply sadd_in. Qed.
Lemma vtr_keeps e : forall ac k, ac k <> None -> vtr e ac k <> None.
Proof.
  induction e as [o|k0 id l IHl r IHr|k0 id a IHa]; intros ac k H; simpl; auto.
  - destruct (ac (KNode id)); auto. cbv zeta. apply IHr, IHl, aadd_keeps, aadd_keeps, H.
  - destruct (ac (KNode id)); auto. apply IHa, uadd_keeps, aadd_keeps, H.
Qed.
(** The pass reaches every leaf, and every variable of a scalar operand. *)
Lemma vtr_leaf e : forall ac o, ac (key_of G e) <> None -> In o (keyed e) -> vtr e ac (KMat (g_nidx G o)) <> None.
Proof.
  induction e as [o1|k0 id l IHl r IHr|k0 id a IHa]; intros ac o H Hin; unfold keyed in *; rewrite ?svars_bin, ?svars_un in Hin; simpl in *.
  - destruct Hin as [->|[]]. exact H.
  - destruct (ac (KNode id)) as [c|]; [|congruence]. cbv zeta.
    assert (Ne : forall (ac : acache (T := T)) k v, aadd ac k v k <> None) by (intros; rewrite aadd_same; discriminate).
    assert (Hin' : In o (leaves l ++ svars l) \/ In o (leaves r ++ svars r)) by (rewrite !in_app_iff in *; tauto). destruct Hin' as [Hin'|Hin'].
    + apply vtr_keeps, IHl; [|exact Hin']. apply aadd_keeps, Ne.
    + apply IHr; [|exact Hin']. apply vtr_keeps, Ne.
  - destruct (ac (KNode id)) as [c|]; [|congruence]. rewrite !in_app_iff in Hin. destruct (in_dec Nat.eq_dec o (uvars k0)) as [Q|Q].
    + apply vtr_keeps. now apply uadd_in.
    + apply IHa; [|rewrite in_app_iff; tauto]. apply uadd_keeps. rewrite aadd_same. discriminate.
Qed.

Variables (F : obj) (id0 : nat) (a0 : mexp T) (y0 : obj).
Hypothesis HF : g_kind G F = KExp id0 a0 y0.
Hypothesis HP : plain G (item id0 a0 y0).
Hypothesis SQ : g_rows G F = g_cols G F.
Variable x : obj.
Hypothesis Xv : g_kind G x = LVar.
Notation itm := (item id0 a0 y0).
Hypothesis OX : only_x G rho x itm.

Lemma adjoint_value v F0 D : fits G a0 -> solvable G rho a0 -> dif G rho x a0 F0 D -> In x (keyed a0) ->
  exists u, adjoints G rho a0 y0 v (KMat (g_nidx G x)) = Some u /\
    forall i j, i < g_rows G x -> j < g_cols G x -> mf u i j = sum_n (g_rows G F) (fun l => D l l i j).
Proof.
  intros Hf So HD Hx. destruct (wf_dims WF HF) as [Dm1 Dm2]. destruct (wf_eye WF HF) as (Ye & Y1 & Y2).
  assert (Ha : has_dims G a0 (mtr (leaf_mat G rho y0))) by (split; cbn [mtr leaf_mat mr mc]; congruence).
  assert (Nd : NoDup (nodes a0)).
  { destruct (wf_nodes WF HF) as [Nd _]. simpl in Nd. rewrite app_nil_r in Nd. inversion Nd; auto. }
  assert (Pa : plain G a0) by (intros o Ho; apply HP; simpl; apply in_or_app; auto).
  assert (Oa : only_x G rho x a0) by (split; [intros o Ho; apply (proj1 OX); simpl; apply in_or_app; auto|intros so vs Q; apply (proj2 OX); simpl; apply in_or_app; auto]).
  assert (Ny : g_nidx G y0 <> g_nidx G x).
  { intros E. assert (In y0 (leaves itm)) by (simpl; apply in_or_app; simpl; auto). assert (y0 = x) by (apply (proj1 OX); auto). congruence. }
  unfold adjoints. set (c := mtr (leaf_mat G rho y0)) in *.
  assert (Ns : seeds G rho a0 y0 v (key_of G a0) <> None).
  { unfold seeds. fold c. apply aadd_keeps. rewrite aadd_same. discriminate. }
  destruct (vtr a0 (seeds G rho a0 y0 v) (KMat (g_nidx G x))) as [u|] eqn:Eu; [|exfalso; exact (vtr_leaf Ns Hx Eu)].
  exists u. split; [reflexivity|]. intros i j Hi Hj.
  transitivity (weigh G a0 c D i j).
  - assert (V : val_at (vtr a0 (seeds G rho a0 y0 v)) (KMat (g_nidx G x)) i j = mf u i j) by (unfold val_at; now rewrite Eu).
    rewrite <- V. clear Eu V u.
    assert (V0 : val_at (seeds G rho a0 y0 v) (KMat (g_nidx G x)) i j = direct G x a0 c i j).
    { unfold seeds. fold c. rewrite val_at_other by congruence. rewrite (val_at_child L). unfold ac0, val_at. ring. }
    generalize (@vtr_grad T N L G host rank WF rho x Xv a0 (seeds G rho a0 y0 v) F0 D Pa Hf So Nd Oa HD). intros Q.
    assert (Fr : fresh (seeds G rho a0 y0 v) (sub_ids a0)).
    { intros k Hk. unfold seeds. rewrite aadd_other by discriminate. rewrite aadd_top; [reflexivity|]. intros Q'. exact (top_sub Nd Q' Hk). }
    specialize (Q Fr). clear So. revert Q V0 HD Hf Oa Pa Ha. generalize Ns. unfold seeds. fold c. clear Ns Hx Fr. generalize a0. intros a Ns Q V0 HD Hf Oa Pa Ha. destruct a as [o|k id l r|k id e].
    + cbn [RevVals.vtr]. rewrite V0. eapply direct_leaf; eauto. apply Pa. simpl. auto.
    + rewrite (Q c) by (auto; cbn [key_of]; rewrite aadd_other, aadd_same by discriminate; reflexivity). rewrite V0. simpl direct. ring.
    + rewrite (Q c) by (auto; cbn [key_of]; rewrite aadd_other, aadd_same by discriminate; reflexivity). rewrite V0. simpl direct. ring.
  - unfold weigh. rewrite <- Dm1, <- Dm2, <- SQ. apply sum_n_ext. intros l Hl.
    assert (El : forall k, k < g_rows G F -> mf c l k = if k =? l then n1 else n0).
    { intros k Hk. destruct (eye_meq WF rho Ye) as (_ & _ & Q). unfold c. cbn [mtr mf]. 
      rewrite Q by (cbn [leaf_mat mr mc]; congruence). reflexivity. }
    rewrite (sum_n_ext (g := fun k => nmul (if k =? l then n1 else n0) (D l k i j))) by (intros k Hk; now rewrite El).
    exact (@sum_delta_mul_l T N L _ l (fun k => D l k i j) Hl).
Qed.
(** x does not occur. *)
Lemma keyed_item o : In o (keyed itm) <-> In o (keyed a0) \/ o = y0.
Proof. unfold keyed, item. rewrite svars_bin. simpl. rewrite !in_app_iff. simpl. clear. intuition. Qed.
Lemma adjoint_none v : (forall o, In o (keyed itm) -> g_nidx G o <> g_nidx G x) -> adjoints G rho a0 y0 v (KMat (g_nidx G x)) = None.
Proof.
  intros H. unfold adjoints. rewrite vtr_other.
  - unfold seeds. rewrite aadd_other.
    + rewrite aadd_other; [reflexivity|]. assert (H' : forall o, In o (keyed a0) -> g_nidx G o <> g_nidx G x) by (intros o Ho; apply H; rewrite keyed_item; auto).
      revert H'. generalize a0. intros [o| |] H'; cbn [key_of]; try discriminate.
      intros [= E]. symmetry in E. revert E. apply H'. simpl. auto.
    + intros [= E]. symmetry in E. revert E. apply H. rewrite keyed_item. auto.
  - discriminate.
  - intros o Ho [= E]. symmetry in E. revert E. apply H. rewrite keyed_item. auto.
Qed.
End Value.

Section Call.
Context {T : Type} {N : Num T}.
Variable S : sched T.
Hypothesis VS : valid_sched S.
Variable B : backend (T := T).
Hypothesis BV : value_ok B.
Hypothesis BK : kron_ok B \/ kron_zeroed_ok B.
Hypothesis BA : accum_ok B.
Variable G : graph T.
Variable host : nat -> option obj.
Variable rank : obj -> nat.
Hypothesis WF : wf_graph G host rank.
Variable ord : cache -> cache.
Hypothesis Hord : forall c, Permutation (ord c) c.
Notation mat := (mat T).
Notation rst := (rst (T := T)).
Notation vis s o := (f_vis (fl s o) = true).

(** The state between calls, with caches. *)
Record RInv (s : rst) : Prop := {
  ri_inv : Inv G (rb s);
  ri_nc : forall i, (forall o a y, g_kind G o <> KExp i a y) -> rnc s i = [];
  ri_oc : forall o, is_leaf G o -> roc s o = []
}.
Lemma RInv_swept e s s' : RInv s -> Inv G (rb s') -> swept G e s s' -> RInv s'.
Proof.
  intros [A C D] I [W1 W2 _ _ _ _]. constructor; [exact I| |].
  - intros i Hi. destruct (W1 i) as [-> | ->]; auto.
  - intros o Ho. destruct (W2 o) as [-> | ->]; auto.
Qed.

Section Pre.
Variable rho : env T.
Variables (F : obj) (id0 : nat) (a0 : mexp T) (y0 : obj).
Hypothesis HF : g_kind G F = KExp id0 a0 y0.
Hypothesis HP : plain G (item id0 a0 y0).
Hypothesis HV : forall v, In v (svars a0) -> g_rows G v = 1 /\ g_cols G v = 1.
Hypothesis INJ : forall o o', KU id0 a0 y0 o -> KU id0 a0 y0 o' -> g_nidx G o = g_nidx G o' -> o = o'.
Hypothesis SQ : g_rows G F = g_cols G F.
Notation itm := (item id0 a0 y0).
Notation Uo := (U id0 a0 y0).

Lemma reach_plain o : reach G itm o <-> In o (leaves itm).
Proof.
  split; [|apply reach_leaf]. induction 1 as [o H|o id a y o' _ IH Hk Hin]; [exact H|].
  specialize (HP IH). unfold is_leaf in HP. now rewrite Hk in HP.
Qed.
Lemma cleared_F (s : st (T := T)) : FI s -> cleared s (St (mm s) (ar s) (fun o' => if o' =? F then clear (fl s o') else fl s o')).
Proof.
  intros Fi. split; [reflexivity|]. split; [reflexivity|]. intros o. cbn [fl]. destruct (Nat.eqb_spec o F) as [->|]; [|auto].
  destruct (f_vis (fl s F)) eqn:V; [auto|]. left. pose proof (Fi F) as Q. rewrite V in Q. destruct (fl s F) as [v e d r dr]; simpl in *. subst v.
  destruct e; [specialize (Q (or_introl eq_refl)); discriminate|]. destruct d; [specialize (Q (or_intror eq_refl)); discriminate|]. reflexivity.
Qed.

(** What PreComp leaves behind: the cache of F holds the adjoints. *)
Definition precomped (v : mat) (s : rst) : Prop :=
  (forall k u, adjoints G rho a0 y0 v k = Some u -> exists p, cget (roc s F) k = Some p /\ holds (mm (rb s)) p u) /\
  (forall k, adjoints G rho a0 y0 v k = None -> cget (roc s F) k = None) /\
  dims_ok G id0 a0 y0 (adjoints G rho a0 y0 v).

Theorem call_precomp s v : RInv s -> mval G rho a0 v ->
  exists n s', (forall f, n <= f -> PreComp S B G ord rho f F s = EOk (tt, s')) /\ precomped v s' /\ RInv s' /\
    vis (rb s') F /\ (forall o, In o (leaves itm) -> vis (rb s') o) /\
    (forall o, o <> F -> ~ In o (leaves itm) -> fl (rb s') o = fl (rb s) o) /\ (forall o, o <> F -> ~ In o (leaves itm) -> roc s' o = roc s o).
Proof.
  intros I Hv.
  assert (NF : ~ In F (leaves itm)) by (intros Q; specialize (HP Q); unfold is_leaf in HP; now rewrite HF in HP).
  set (bA := St (mm (rb s)) (ar (rb s)) (fun o' => if o' =? F then clear (fl (rb s) o') else fl (rb s) o')).
  set (sA := RSt bA (rnc s) (fun i => if i =? F then [] else roc s i) (rcnt s) (rcl s)).
  pose proof (cleared_F (inv_fi (ri_inv I))) as CA. fold bA in CA.
  pose proof (Inv_cleared (ri_inv I) CA) as IA.
  assert (RA : RInv sA).
  { constructor; [exact IA|exact (ri_nc I)|]. intros o Ho. unfold sA; cbn [roc]. destruct (o =? F); [reflexivity|]. now apply (ri_oc I). }
  assert (St0 : settled G itm bA) by (apply settled_plain; exact HP).
  destruct (reset_root WF St0) as (nR & bC & ER & CC & HC & VC0).
  pose proof (Inv_cleared IA CC) as IC.
  assert (FC : f_vis (fl bC F) = false).
  { rewrite HC by (rewrite reach_plain; exact NF). unfold bA; cbn [fl]. now rewrite Nat.eqb_refl. }
  destruct (@rreset_sim T G nR itm sA bC (ER nR (le_n _))) as (sC & ERS & EbC & SW).
  rewrite <- EbC in *. pose proof (RInv_swept RA IC SW) as RC. clear bC EbC.
  set (b1 := St (mm (rb sC)) (ar (rb sC)) (fun o' => if o' =? F then set_vis (fl (rb sC) o') else fl (rb sC) o')).
  set (s1 := RSt b1 (fun i => if i =? id0 then [] else rnc sC i) (roc sC) (rcnt sC) (rcl sC)).
  assert (F1 : forall o, o <> F -> fl b1 o = fl (rb sC) o) by (intros o Ne; simpl; apply Nat.eqb_neq in Ne; now rewrite Ne).
  assert (F1F : fl b1 F = set_vis (fl (rb sC) F)) by (simpl; now rewrite Nat.eqb_refl).
  assert (UF : forall o, In o (leaves itm) -> o <> F) by (intros o Q ->; auto).
  assert (G1 : good G rank rho F id0 a0 y0 s1).
  { constructor; unfold s1; cbn [rb rnc roc].
    - apply (inv_slots IC).
    - intros o Q. destruct (Nat.eq_dec o F) as [->|Ne]; [rewrite F1F; reflexivity|]. rewrite F1 in * by auto. apply (inv_fi IC), Q.
    - intros o [Uo _]. rewrite F1 by auto. pose proof (HP Uo) as Lo. destruct (LEye_dec G o) as [Hk|Hk].
      + rewrite Hk. intros Q. destruct (inv_eye IC Hk Q) as (q & Eq & Hq). exists q. split; [exact Eq|]. eapply holds_meq; [exact Hq|]. apply meq_sym, (eye_meq WF), Hk.
      + assert (V : f_vis (fl (rb sC) o) = false) by (apply VC0; [now apply reach_leaf|exact Hk]).
        unfold is_leaf in Lo. destruct (g_kind G o); [| | | |tauto]; intros Q; rewrite (inv_fi IC (or_introl Q)) in V; discriminate.
    - intros o id e y o' [Uo _] Hk. specialize (HP Uo). unfold is_leaf in HP. now rewrite Hk in HP.
    - rewrite F1F. reflexivity.
    - intros i Hi. destruct (i =? id0); [reflexivity|]. apply (sw_nodes SW). simpl. right. now rewrite app_nil_r.
    - intros o Uo. apply (sw_leaves SW), Uo. }
  assert (C1 : rnc s1 id0 = []) by (unfold s1; cbn [rnc]; now rewrite Nat.eqb_refl).
  destruct (below_root_ok VS BV BK BA WF Hord HF HP HV INJ SQ G1 C1 Hv) as (n2 & s2 & W & E2 & G2 & A2 & D2 & X2 & V2).
  destruct (wf_dims WF HF) as [Dm1 Dm2]. destruct (wf_eye WF HF) as (_ & Y1 & Y2).
  assert (Hy : mval G rho (MLeaf y0) (leaf_mat G rho y0)) by (apply mval_leaf; apply HP; apply y0_U).
  assert (Hit : mval G rho itm (bin_val BProd v (leaf_mat G rho y0))).
  { apply (mval_bin (k := BProd)); auto. destruct (mval_dims WF Hv) as [L1 L2]. cbn [bin_dims leaf_mat mr]. congruence. }
  destruct (eval_step VS BV BK WF HF HP G2 A2 (sub_item WF HF) Hit) as (n3 & p & b3 & E3 & Q3 & G3 & A3 & X3 & _).
  set (b4 := St (mm b3) (ar b3) (fun o' => if o' =? F then set_res p (fl b3 o') else fl b3 o')).
  set (s4 := RSt b4 (rnc s2) (fun i => if i =? F then rnc s2 id0 else roc s2 i) (rcnt s2) (rcl s2)).
  pose proof (ext_trans X2 X3) as X.
  exists (Datatypes.S (max nR (max n2 n3))), s4.
  assert (F4 : forall o, o <> F -> fl b4 o = fl b3 o) by (intros o Ne; simpl; apply Nat.eqb_neq in Ne; now rewrite Ne).
  assert (F4F : fl b4 F = set_res p (fl b3 F)) by (simpl; now rewrite Nat.eqb_refl).
  split; [|split; [|split; [|split; [|split; [|split]]]]].
  - intros f Hf. unfold PreComp. rewrite HF. unfold rbind at 1. unfold rl at 1. rewrite setf_eq. unfold rbind at 1, set_oc at 1.
    unfold rbind at 1. cbn [rb rnc roc rcnt rcl]. change (RSt _ _ _ _ _) with sA.
    rewrite (@rreset_fuel T G nR f itm sA (tt, sC) ltac:(lia) ERS). destruct f as [|f]; [lia|]. cbn [trav].
    unfold rbind at 1. unfold rl at 1, getf at 1. rewrite FC. unfold rbind at 1. unfold rl at 1. rewrite setf_eq. rewrite HF. unfold rbind at 1. unfold set_nc at 1.
    cbn [rb rnc roc rcnt rcl]. change (RSt _ _ _ _ _) with s1.
    specialize (E2 f ltac:(lia)). unfold below_root in E2.
    do 7 (unfold rbind at 1 in E2; unfold rbind at 1;
      match type of E2 with match ?c with _ => _ end = _ => destruct c as [[? ?]| | |]; try discriminate E2 end).
    unfold rbind at 1. rewrite E2. unfold rbind at 1. unfold rl at 1. rewrite E3 by lia. unfold rbind at 1. unfold rl at 1. rewrite setf_eq. reflexivity.
  - split; [|split; [|exact D2]].
    + intros k u Ek. destruct (ag_some A3 Ek) as (w & q & _ & Hc & Ha). exists q. split; [|exact (proj2 Ha)].
      unfold s4; cbn [roc]. rewrite Nat.eqb_refl. exact Hc.
    + intros k Ek. unfold s4; cbn [roc]. rewrite Nat.eqb_refl. exact (ag_none A2 Ek).
  - constructor; [constructor|..]; unfold s4; cbn [rb rnc roc].
    + exact (q_slots Q3).
    + intros o Q. destruct (Nat.eq_dec o F) as [->|Ne]; [rewrite F4F; cbn [set_res f_vis]; apply (gd_F G3)|]. rewrite F4 in * by auto. apply (q_fi Q3), Q.
    + intros o Hk. assert (Ne : o <> F) by (intros ->; congruence). rewrite F4 by auto. intros He.
      destruct (f_eval (fl b1 o)) eqn:E1.
      * rewrite F1 in E1 by auto. destruct (inv_eye IC Hk E1) as (q & Hq). exists q. apply (keeps_at (x_frame X) (w := ORes o)); [change (f_eval (fl b1 o) = true); rewrite F1 by auto; exact E1|exact Hq].
      * assert (Uo : Uo o).
        { destruct (in_dec Nat.eq_dec o (leaves itm)) as [Q|Q]; [exact Q|]. pose proof (x_high X) as Hh. cbn [up rb] in Hh. rewrite Hh in He; [cbn [s1 rb] in He; congruence|]. intros [Q' _]; auto. }
        pose proof (gd_pi G3 (U_below WF HF Uo)) as Qo. rewrite Hk in Qo. destruct (Qo He) as (q & Eq & Hq). exists q. split; [exact Eq|].
        eapply holds_meq; [exact Hq|]. now apply (eye_meq WF).
    + eapply (@dclean_DC_keep T N G b1); [exact (inv_slots IC)|exact (inv_dc IC)|intros o _; apply (x_dres X)|].
      intros o q Eq. apply (proj2 (x_frame X) (ODres o)); [exact Logic.I|exact Eq].
    + intros i Hi. rewrite (x_nc X2) by (intros ->; exact (Hi _ _ _ HF)). unfold s1; cbn [rnc]. destruct (i =? id0); [reflexivity|]. now apply (ri_nc RC).
    + intros o Ho. destruct (Nat.eqb_spec o F) as [->|Ne]; [unfold is_leaf in Ho; now rewrite HF in Ho|]. rewrite (x_oc X2). now apply (ri_oc RC).
  - cbn [s4 rb]. rewrite F4F. cbn [set_res f_vis]. exact (gd_F G3).
  - intros o Ho. cbn [s4 rb]. rewrite F4 by auto. apply (x_vis X3). auto.
  - intros o Ne No. cbn [s4 rb]. rewrite F4 by auto. pose proof (x_high X) as Hh. cbn [up rb] in Hh. rewrite Hh by (intros [Q' _]; auto).
    cbn [s1 rb]. rewrite F1, HC by (auto; rewrite reach_plain; auto). unfold bA; cbn [fl]. apply Nat.eqb_neq in Ne. now rewrite Ne.
  - intros o Ne No. unfold s4; cbn [roc]. rewrite (x_oc X2). apply Nat.eqb_neq in Ne. rewrite Ne. unfold s1; cbn [roc]. rewrite (sw_far SW) by (rewrite reach_plain; auto).
    unfold sA; cbn [roc]. now rewrite Ne.
Qed.
End Pre.
End Call.
