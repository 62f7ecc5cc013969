(** * Reverse mode on the memory: traverse computes the adjoints of RevVals.v *)
From Coq Require Import List Arith Bool Lia Permutation.
From Verif Require Import Num MatMem Kernels KernelFacts KernelProofs KernelBlocks KernelMore Registry KernelStep Backend Square Slots Exec ConvProofs MatEngine MatGraph MatLeaf MatEval MatDeval MatHist MatRev MatInplace RevVals.
Import ListNotations.
Set Implicit Arguments.
Unset Strict Implicit.

Section Caches.
Lemma cget_put_same c k p : cget (cput c k p) k = Some p.
Proof. induction c as [|[k' q] c IH]; simpl; [destruct (key_eq k k); congruence|]. destruct (key_eq k' k); simpl; destruct (key_eq _ k); congruence. Qed.
Lemma cget_put_other c k p k' : k' <> k -> cget (cput c k p) k' = cget c k'.
Proof.
  intros Ne. induction c as [|[k2 q] c IH]; simpl; [destruct (key_eq k k'); congruence|].
  destruct (key_eq k2 k) as [->|]; simpl; [destruct (key_eq k k'); congruence|]. destruct (key_eq k2 k'); auto.
Qed.
End Caches.

Section RevOk.
Context {T : Type} {N : Num T}.
Variable S : sched T.
Hypothesis VS : valid_sched S.
Variable B : backend (T := T).
Hypothesis BV : value_ok B.
Hypothesis BK : kron_ok B \/ kron_zeroed_ok B.
Hypothesis BA : accum_ok B.
Variable G : graph T.
Variable host : nat -> option obj.
Variable rank : obj -> nat.
Hypothesis WF : wf_graph G host rank.
Variable ord : cache -> cache.
Hypothesis Hord : forall c, Permutation (ord c) c.
Variable rho : env T.
Variables (F : obj) (id0 : nat) (a0 : mexp T) (y0 : obj).
Hypothesis HF : g_kind G F = KExp id0 a0 y0.
Hypothesis HP : plain G (item id0 a0 y0).
Notation mat := (mat T).
Notation rst := (rst (T := T)).
Notation vis s o := (f_vis (fl s o) = true).
Notation lv := (rank F).
Definition U (o : obj) : Prop := In o (leaves (item id0 a0 y0)).
(** The objects with an entry of their own in the cache: the leaves and the scalar variables,
    which are 1x1. *)
Definition KU (o : obj) : Prop := In o (keyed (item id0 a0 y0)).
Hypothesis HV : forall o, In o (svars a0) -> g_rows G o = 1 /\ g_cols G o = 1.
Notation below := (below rank U).

Lemma UC : forall o id e y o', U o -> g_kind G o = KExp id e y -> In o' (leaves (item id e y)) -> U o'.
Proof. intros o id e y o' Uo Hk. exfalso. specialize (HP Uo). unfold is_leaf in HP. now rewrite Hk in HP. Qed.
Lemma U_below o : U o -> below lv o.
Proof. intros H. split; [exact H|]. exact (wf_rank WF HF H). Qed.
Lemma root_ids : ~ In id0 (nodes a0) /\ NoDup (nodes a0).
Proof. destruct (wf_nodes WF HF) as [Nd _]. simpl in Nd. rewrite app_nil_r in Nd. inversion Nd; auto. Qed.
Lemma ids_host i : i = id0 \/ In i (nodes a0) -> host i = Some F.
Proof. intros H. apply (proj2 (wf_nodes WF HF)). simpl. rewrite app_nil_r. destruct H; auto. Qed.

(** ** The state during the pass *)
Record good (s : rst) : Prop := {
  gd_slots : slots (mm (rb s)) (ar (rb s)) none;
  gd_fi : FI (rb s);
  gd_pi : PI G rank rho U lv (rb s);
  gd_vc : VC G rank U lv (rb s);
  gd_F : vis (rb s) F;
  gd_nc : forall i, In i (nodes a0) -> rnc s i = [];
  gd_oc : forall o, U o -> roc s o = []
}.
(** The cache of the root product holds the adjoints ac, in scratch matrices owned by W. *)
Record agree (s : rst) (ac : acache (T := T)) (W : owner -> Prop) : Prop := {
  ag_own : forall w, W w -> exists i k, w = ONode i k /\ k <> 0;
  ag_some : forall k v, ac k = Some v -> exists w p, W w /\ cget (rnc s id0) k = Some p /\ at_ (rb s) w p v;
  ag_none : forall k, ac k = None -> cget (rnc s id0) k = None;
  ag_inj : forall k k' p, cget (rnc s id0) k = Some p -> cget (rnc s id0) k' = Some p -> k = k'
}.
Definition stays (b : st (T := T)) (w : owner) : Prop :=
  match w with ORes o => f_eval (fl b o) = true | ODres _ => True | ONode _ _ => False end.
Record ext (s s' : rst) : Prop := {
  x_vis : forall o, vis (rb s) o -> vis (rb s') o;
  x_eval : forall o, f_eval (fl (rb s) o) = true -> f_eval (fl (rb s') o) = true;
  x_dev : forall o, f_dev (fl (rb s') o) = f_dev (fl (rb s) o) /\ f_dres (fl (rb s') o) = f_dres (fl (rb s) o);
  x_high : forall o, ~ below lv o -> fl (rb s') o = fl (rb s) o;
  x_dres : forall o, ar (rb s') (ODres o) = ar (rb s) (ODres o);
  x_frame : keeps (stays (rb s)) (rb s) (rb s');
  x_nc : forall i, i <> id0 -> rnc s' i = rnc s i;
  x_oc : forall o, roc s' o = roc s o;
  x_cache : forall k p, cget (rnc s id0) k = Some p -> cget (rnc s' id0) k = Some p
}.
Lemma ext_refl s : ext s s.
Proof. constructor; auto. apply keeps_refl. Qed.
Lemma ext_trans s s1 s2 : ext s s1 -> ext s1 s2 -> ext s s2.
Proof.
  intros A C. constructor.
  - intros o H. apply (x_vis C), (x_vis A), H.
  - intros o H. apply (x_eval C), (x_eval A), H.
  - intros o. destruct (x_dev A o), (x_dev C o). split; congruence.
  - intros o H. rewrite (x_high C), (x_high A); auto.
  - intros o. rewrite (x_dres C), (x_dres A); auto.
  - eapply keeps_trans; [exact (x_frame A)| |exact (x_frame C)]. intros [i k|o|o]; simpl; auto. apply (x_eval A).
  - intros i H. rewrite (x_nc C), (x_nc A); auto.
  - intros o. rewrite (x_oc C), (x_oc A); auto.
  - intros k p H. apply (x_cache C), (x_cache A), H.
Qed.
Lemma agree_keep s s' ac W : agree s ac W -> rnc s' id0 = rnc s id0 -> keeps W (rb s) (rb s') -> agree s' ac W.
Proof.
  intros A E K. constructor; [apply A| | |].
  - intros k v H. destruct (ag_some A H) as (w & p & Hw & Hc & Ha). exists w, p. rewrite E. split; [auto|]. split; [auto|]. eapply keeps_at; eauto.
  - intros k H. rewrite E. now apply (ag_none A).
  - intros k k' p. rewrite E. apply (ag_inj A).
Qed.
Lemma agree_weaken s ac (W W' : owner -> Prop) : agree s ac W -> (forall w, W w -> W' w) -> (forall w, W' w -> exists i k, w = ONode i k /\ k <> 0) -> agree s ac W'.
Proof.
  intros A H1 H2. constructor; auto; try apply A. intros k v H. destruct (ag_some A H) as (w & p & Hw & Q). exists w, p. auto.
Qed.

(** *** Changing only clone slots and counters *)
Definition up (s : rst) (b : st (T := T)) : rst := RSt b (rnc s) (roc s) (rcnt s) (rcl s).
Definition same_core (s s' : rst) : Prop := rb s' = rb s /\ rnc s' = rnc s /\ roc s' = roc s.
Lemma core_good s s' : same_core s s' -> good s -> good s'.
Proof. intros (E1 & E2 & E3) H. destruct s as [b1 u1 u2 u3 u4], s' as [b2 v1 v2 v3 v4]; cbn [rb rnc roc] in *; subst. destruct H. constructor; cbn [rb rnc roc] in *; auto. Qed.
Lemma core_agree s s' ac W : same_core s s' -> agree s ac W -> agree s' ac W.
Proof. intros (E1 & E2 & E3) H. destruct s as [b1 u1 u2 u3 u4], s' as [b2 v1 v2 v3 v4]; cbn [rb rnc roc] in *; subst. destruct H. constructor; cbn [rb rnc roc] in *; auto. Qed.
Lemma core_ext s s' : same_core s s' -> ext s s'.
Proof. intros (E1 & E2 & E3). destruct s as [b1 u1 u2 u3 u4], s' as [b2 v1 v2 v3 v4]; cbn [rb rnc roc] in *; subst. constructor; cbn [rb rnc roc] in *; auto. apply keeps_refl. Qed.

Lemma clone_each id (l : cache) : forall s : rst, exists s', each l (fun kp => rbind (next_slot id) (fun j => set_cl id j (snd kp))) s = EOk (tt, s') /\ same_core s s'.
Proof.
  induction l as [|kp l IH]; intros s.
  - exists s. split; [reflexivity|]. split; auto.
  - cbn [each]. unfold rbind at 1. unfold next_slot at 1. unfold rbind at 1 2, set_cnt at 1, rret at 1. unfold set_cl at 1.
    match goal with |- exists s', each l _ ?s1 = _ /\ _ => destruct (IH s1) as (s' & E & C) end.
    exists s'. split; [exact E|]. exact C.
Qed.
Lemma clone_all_ok r id (s : rst) : exists s', clone_all ord r id s = EOk (tt, s') /\ same_core s s'.
Proof. apply clone_each. Qed.
Definition operand_ok (e : mexp T) : Prop := match e with MLeaf o => U o | MBin _ i _ _ | MUn _ i _ => In i (nodes a0) end.
Lemma merge_nil r id e k v s : good s -> operand_ok e -> merge B ord r id e k v s = EOk (tt, s).
Proof.
  intros H He. unfold merge. replace (child_cache e s) with (@nil (key * ptr)).
  - rewrite (Permutation_nil (Permutation_sym (Hord []))). reflexivity.
  - symmetry. destruct e as [o|? i ? ?|? i ?]; simpl in *; [now apply (gd_oc H)|now apply (gd_nc H)..].
Qed.
Lemma first_ok id k p v (s : rst) : at_ (rb s) (ONode id k) p v -> 0 < mr v -> 0 < mc v -> exists t, first id k s = EOk (t, s).
Proof.
  intros [E H] P1 P2. destruct H as ((kd & sp & b & Hg & Hb) & _). unfold first, rbind, rl, slot, lift. cbn [rb]. rewrite E. cbn [mm rb].
  assert (Q : 0 < length b) by nia. destruct b as [|t b]; [simpl in Q; lia|]. exists t.
  rewrite (@raw_ok T (mm (rb s)) p _ 0 t Hg eq_refl). destruct s as [[m a f] x1 x2 x3 x4]. reflexivity.
Qed.

(** *** Accumulation *)
Lemma slots_arr m (arr arr' : owner -> option ptr) X : slots m arr X -> (forall w, arr' w = arr w) -> slots m arr' X.
Proof.
  intros H E. constructor; [apply H| | |apply H].
  - intros k p. rewrite E. apply (sl_slot H).
  - intros k k' p. rewrite !E. apply (sl_inj H).
Qed.
Definition plus (W : owner -> Prop) (w : owner) : owner -> Prop := fun w' => W w' \/ w' = w.

Lemma accumulate_ok s ac W k w p v : slots (mm (rb s)) (ar (rb s)) none -> agree s ac W ->
  at_ (rb s) w p v -> ~ W w -> (exists i j, w = ONode i j /\ j <> 0) -> (forall u, ac k = Some u -> same_dims u v) ->
  exists s', accumulate B id0 k p s = EOk (tt, s') /\ slots (mm (rb s')) (ar (rb s')) none /\ agree s' (aadd ac k v) (plus W w) /\
    fl (rb s') = fl (rb s) /\ ar (rb s') = ar (rb s) /\ keeps (fun w' => ~ W w') (rb s) (rb s') /\
    (forall i, i <> id0 -> rnc s' i = rnc s i) /\ roc s' = roc s /\ (forall k p, cget (rnc s id0) k = Some p -> cget (rnc s' id0) k = Some p).
Proof.
  intros Sl Ag [Ew Hp] Nw Hw Hd.
  assert (Ow : forall w', plus W w w' -> exists i k, w' = ONode i k /\ k <> 0) by (intros w' [Q| ->]; [exact (ag_own Ag Q)|exact Hw]).
  unfold accumulate, rbind, find_nc. destruct (ac k) as [u|] eqn:Ek.
  - destruct (ag_some Ag Ek) as (wk & pc & Hwk & Hc & Ec & Hu). rewrite Hc.
    assert (Np : pc <> p) by (intros ->; apply Nw; now rewrite (sl_inj Sl Ew Ec)).
    destruct (BA (sl_tame Sl) Hu Hp (proj1 (proj2 (sl_slot Sl Ec))) (Hd _ eq_refl)) as (m' & Em & Wr).
    unfold rl, lift. rewrite Em. unfold set_nc. cbn [rb rnc roc rcnt rcl].
    rewrite <- Ec in Wr. destruct (slot_write owner_eq Sl Wr) as (Sl' & Hh & Kh & Fr). rewrite Ec in *.
    assert (Kp : keeps (fun w' => w' <> wk) (rb s) (St m' (ar (rb s)) (fl (rb s)))).
    { split; [split; [|split; [|split]]; cbn [mm ar]; [apply Wr|auto|intros q Hq; apply (ev_special (wr_evolves Wr) Hq)|intros q Hq Hn; apply Fr; [exact Hq|rewrite <- Ec; apply Hn]]|].
      intros w' q Nq Eq. cbn [ar mm]. split; [exact Eq|]. destruct (sl_slot Sl Eq) as ((o & Ho) & _). apply Fr; [exact (get_lt Ho)|].
      intros [= ->]. apply Nq. exact (sl_inj Sl Eq Ec). }
    eexists. split; [reflexivity|]. cbn [rb rnc roc mm ar fl]. split; [|split; [|split; [|split; [|split; [|split]]]]]; auto.
    + eapply slots_arr; [exact Sl'|]. intros w'. unfold sset. destruct (owner_eq w' wk) as [->|]; auto.
    + constructor; [exact Ow| | |]; cbn [rb rnc]; rewrite Nat.eqb_refl.
      * intros k' v'. unfold aadd, aput. destruct (key_eq k' k) as [->|Ne].
        -- rewrite Ek. intros [= <-]. exists wk, pc. split; [now left|]. rewrite cget_put_same. split; [reflexivity|]. split; [exact Ec|exact Hh].
        -- intros E'. destruct (ag_some Ag E') as (w' & p' & Hw' & Hc' & Ha'). exists w', p'. split; [now left|]. rewrite cget_put_other by auto. split; [exact Hc'|].
           eapply keeps_at; [exact Kp| |exact Ha']. intros ->. destruct Ha' as [Ea' _]. rewrite Ec in Ea'. injection Ea' as <-. apply Ne. exact (ag_inj Ag Hc' Hc).
      * intros k'. unfold aadd, aput. destruct (key_eq k' k) as [->|Ne]; [discriminate|]. intros E'. rewrite cget_put_other by auto. now apply (ag_none Ag).
      * intros k1 k2 q. destruct (key_eq k1 k) as [->|N1], (key_eq k2 k) as [->|N2]; rewrite ?cget_put_same, ?cget_put_other by auto; auto.
        -- intros [= <-] E2. exact (ag_inj Ag Hc E2).
        -- intros E1 [= <-]. exact (ag_inj Ag E1 Hc).
        -- apply (ag_inj Ag).
    + eapply keeps_weaken; [exact Kp|]. intros w' Q ->. auto.
    + intros i Ni. apply Nat.eqb_neq in Ni. now rewrite Ni.
    + split; [reflexivity|]. rewrite Nat.eqb_refl. intros k' q Q. destruct (key_eq k' k) as [->|Ne]; [rewrite cget_put_same; congruence|now rewrite cget_put_other].
  - rewrite (ag_none Ag Ek). unfold rret, set_nc. cbn [rb rnc roc rcnt rcl].
    assert (Nc : forall k', cget (rnc s id0) k' <> Some p).
    { intros k' E'. destruct (ac k') as [u|] eqn:Ek'; [|rewrite (ag_none Ag Ek') in E'; discriminate].
      destruct (ag_some Ag Ek') as (w' & p' & Hw' & Hc' & Ea' & _). assert (p' = p) by congruence. subst. apply Nw. now rewrite (sl_inj Sl Ew Ea'). }
    eexists. split; [reflexivity|]. cbn [rb rnc roc mm ar fl]. split; [|split; [|split; [|split; [|split; [|split]]]]]; auto.
    + constructor; [exact Ow| | |]; cbn [rb rnc]; rewrite Nat.eqb_refl.
      * intros k' v'. unfold aadd, aput. destruct (key_eq k' k) as [->|Ne].
        -- rewrite Ek. intros [= <-]. exists w, p. split; [now right|]. rewrite cget_put_same. split; [reflexivity|]. split; [exact Ew|exact Hp].
        -- intros E'. destruct (ag_some Ag E') as (w' & p' & Hw' & Hc' & Ha'). exists w', p'. split; [now left|]. rewrite cget_put_other by auto. auto.
      * intros k'. unfold aadd, aput. destruct (key_eq k' k) as [->|Ne]; [discriminate|]. intros E'. rewrite cget_put_other by auto. now apply (ag_none Ag).
      * intros k1 k2 q. destruct (key_eq k1 k) as [->|N1], (key_eq k2 k) as [->|N2]; rewrite ?cget_put_same, ?cget_put_other by auto; auto.
        -- intros [= <-] E2. exfalso. exact (Nc _ E2).
        -- intros E1 [= <-]. exfalso. exact (Nc _ E1).
        -- apply (ag_inj Ag).
    + apply keeps_refl.
    + intros i Ni. apply Nat.eqb_neq in Ni. now rewrite Ni.
    + split; [reflexivity|]. rewrite Nat.eqb_refl. intros k' q Q. destruct (key_eq k' k) as [->|Ne]; [rewrite (ag_none Ag Ek) in Q; discriminate|now rewrite cget_put_other].
Qed.

(** Steps that keep flags, and all places but scratch slots other than number 0. *)
Lemma good_keep s s' : good s -> slots (mm (rb s')) (ar (rb s')) none -> fl (rb s') = fl (rb s) ->
  keeps (fun w => match w with ONode i k => k = 0 /\ (forall a, host i = Some a -> rank a < lv) | _ => True end) (rb s) (rb s') -> (forall i, i <> id0 -> rnc s' i = rnc s i) -> (forall o, roc s' o = roc s o) -> good s'.
Proof.
  intros H Sl Ef K En Eo. constructor.
  - exact Sl.
  - eapply FI_keep; [exact (gd_fi H)|]. intros o. now rewrite Ef.
  - eapply PI_keep; [exact (gd_pi H)|intros o _; now rewrite Ef|]. eapply keeps_weaken; [exact K|].
    intros w (o & Bo & ->). simpl. destruct (g_kind G o) as [| | | |i e y] eqn:Ek; auto. split; [reflexivity|].
    intros a Ha. rewrite (exp_host WF Ek) in Ha. injection Ha as <-. apply Bo.
  - eapply VC_keep; [exact (gd_vc H)|]. intros o. now rewrite Ef.
  - rewrite Ef. apply (gd_F H).
  - intros i Hi. rewrite En; [now apply (gd_nc H)|]. intros ->. now apply (proj1 root_ids).
  - intros o Ho. rewrite Eo. now apply (gd_oc H).
Qed.
Lemma ext_keep s s' : fl (rb s') = fl (rb s) -> (forall o, ar (rb s') (ODres o) = ar (rb s) (ODres o)) ->
  keeps (fun w => match w with ONode i k => False | _ => True end) (rb s) (rb s') -> (forall i, i <> id0 -> rnc s' i = rnc s i) -> (forall o, roc s' o = roc s o) ->
  (forall k p, cget (rnc s id0) k = Some p -> cget (rnc s' id0) k = Some p) -> ext s s'.
Proof.
  intros Ef Ed K En Eo Ec. constructor; rewrite ?Ef; auto. eapply keeps_weaken; [exact K|]. intros [i k|o|o]; simpl; auto.
Qed.
Lemma good_acc s s' ac W : good s -> agree s ac W -> slots (mm (rb s')) (ar (rb s')) none -> fl (rb s') = fl (rb s) -> ar (rb s') = ar (rb s) ->
  keeps (fun w' => ~ W w') (rb s) (rb s') -> (forall i, i <> id0 -> rnc s' i = rnc s i) -> roc s' = roc s ->
  (forall k p, cget (rnc s id0) k = Some p -> cget (rnc s' id0) k = Some p) -> good s' /\ ext s s'.
Proof.
  intros H Ag Sl Ef Ea K En Eo Ec. assert (Q : forall w, match w with ONode i k => k = 0 | _ => True end -> ~ W w).
  { intros w Hw HW. destruct (ag_own Ag HW) as (i & k & -> & Nk). auto. }
  split.
  - eapply good_keep; eauto; [|intros o; now rewrite Eo]. eapply keeps_weaken; [exact K|]. intros w Hw. apply Q. destruct w; tauto.
  - apply ext_keep; auto; [intros o; now rewrite Ea| |intros o; now rewrite Eo]. eapply keeps_weaken; [exact K|]. intros w Hw. apply Q. destruct w; tauto.
Qed.

(** *** Contributions of an operator to its operands *)
Lemma U_KU o : U o -> KU o.
Proof. intros H. unfold KU, keyed. apply in_or_app. auto. Qed.
Lemma svars_KU o : In o (svars a0) -> KU o.
Proof. intros H. unfold KU, keyed. apply in_or_app. right. unfold item. rewrite svars_bin. apply in_or_app. auto. Qed.
Lemma contribute2 s ac W id k1 k2 p1 p2 v1 v2 l r : good s -> agree s ac W ->
  at_ (rb s) (ONode id k1) p1 v1 -> at_ (rb s) (ONode id k2) p2 v2 -> k1 <> 0 -> k2 <> 0 -> k1 <> k2 ->
  ~ W (ONode id k1) -> ~ W (ONode id k2) -> 0 < mr v1 -> 0 < mc v1 -> 0 < mr v2 -> 0 < mc v2 -> operand_ok l -> operand_ok r ->
  (forall u, ac (key_of G l) = Some u -> same_dims u v1) -> (forall u, aadd ac (key_of G l) v1 (key_of G r) = Some u -> same_dims u v2) ->
  exists s', contribute B G ord id0 id [(l, k1); (r, k2)] (rret tt) s = EOk (tt, s') /\ good s' /\
    agree s' (aadd (aadd ac (key_of G l) v1) (key_of G r) v2) (plus (plus W (ONode id k1)) (ONode id k2)) /\ ext s s'.
Proof.
  intros H Ag A1 A2 Z1 Z2 Nk W1 W2 P1 P2 P3 P4 Ol Or D1 D2.
  destruct (first_ok A1 P1 P2) as (t1 & E1). destruct (first_ok A2 P3 P4) as (t2 & E2).
  unfold contribute. unfold rbind at 1. rewrite E1. unfold rbind at 1. rewrite E2.
  destruct (@accumulate_ok s ac W (key_of G l) (ONode id k1) p1 v1) as (s1 & Ea & Sl1 & Ag1 & Ef1 & Ear1 & K1 & En1 & Eo1 & Ec1); eauto; [apply H|].
  destruct (good_acc H Ag Sl1 Ef1 Ear1 K1 En1 Eo1 Ec1) as [G1 X1].
  assert (A2' : at_ (rb s1) (ONode id k2) p2 v2) by (eapply keeps_at; [exact K1|exact W2|exact A2]).
  assert (W2' : ~ plus W (ONode id k1) (ONode id k2)) by (intros [Q|Q]; [auto|congruence]).
  destruct (@accumulate_ok s1 _ _ (key_of G r) (ONode id k2) p2 v2 Sl1 Ag1 A2' W2') as (s2 & Eb & Sl2 & Ag2 & Ef2 & Ear2 & K2 & En2 & Eo2 & Ec2); eauto.
  destruct (good_acc G1 Ag1 Sl2 Ef2 Ear2 K2 En2 Eo2 Ec2) as [G2 X2].
  destruct (clone_all_ok id0 id s2) as (s3 & Ec & C3).
  exists s3. split; [|split; [exact (core_good C3 G2)|split; [exact (core_agree C3 Ag2)|]]].
  - cbn [each fst snd]. unfold rbind at 1. unfold rbind at 1. unfold rbind at 1. unfold rl at 1. unfold slot at 1. rewrite (proj1 A1).
    replace (RSt (rb s) (rnc s) (roc s) (rcnt s) (rcl s)) with s by (destruct s; reflexivity). rewrite Ea.
    unfold rbind at 1. unfold rbind at 1. unfold rl at 1. unfold slot at 1. rewrite (proj1 A2').
    replace (RSt (rb s1) (rnc s1) (roc s1) (rcnt s1) (rcl s1)) with s1 by (destruct s1; reflexivity). rewrite Eb. unfold rret at 1.
    unfold rbind at 1. rewrite Ec. unfold rbind at 1. rewrite (merge_nil _ _ _ _ (core_good C3 G2) Ol). apply (merge_nil _ _ _ _ (core_good C3 G2) Or).
  - eapply ext_trans; [exact X1|]. eapply ext_trans; [exact X2|]. now apply core_ext.
Qed.
Lemma contribute1 s ac W id k1 p1 v1 l scal (P : acache (T := T) -> (owner -> Prop) -> Prop) : good s -> agree s ac W ->
  at_ (rb s) (ONode id k1) p1 v1 -> k1 <> 0 -> ~ W (ONode id k1) -> 0 < mr v1 -> 0 < mc v1 -> operand_ok l ->
  (forall u, ac (key_of G l) = Some u -> same_dims u v1) ->
  (forall s1, good s1 -> agree s1 (aadd ac (key_of G l) v1) (plus W (ONode id k1)) ->
     exists s2 ac' W', scal s1 = EOk (tt, s2) /\ good s2 /\ agree s2 ac' W' /\ ext s1 s2 /\ P ac' W') ->
  exists s' ac' W', contribute B G ord id0 id [(l, k1)] scal s = EOk (tt, s') /\ good s' /\ agree s' ac' W' /\ ext s s' /\ P ac' W'.
Proof.
  intros H Ag A1 Z1 W1 P1 P2 Ol D1 Sc.
  destruct (first_ok A1 P1 P2) as (t1 & E1).
  unfold contribute. unfold rbind at 1. rewrite E1.
  destruct (@accumulate_ok s ac W (key_of G l) (ONode id k1) p1 v1) as (s1 & Ea & Sl1 & Ag1 & Ef1 & Ear1 & K1 & En1 & Eo1 & Ec1); eauto; [apply H|].
  destruct (good_acc H Ag Sl1 Ef1 Ear1 K1 En1 Eo1 Ec1) as [G1 X1].
  destruct (clone_all_ok id0 id s1) as (s3 & Ec & C3).
  destruct (Sc s3 (core_good C3 G1) (core_agree C3 Ag1)) as (s4 & ac' & W' & Es & G4 & A4 & X4 & HP4).
  exists s4, ac', W'. split; [|split; [exact G4|split; [exact A4|split; [|exact HP4]]]].
  - cbn [each fst snd]. unfold rbind at 1. unfold rbind at 1. unfold rbind at 1. unfold rl at 1. unfold slot at 1. rewrite (proj1 A1).
    replace (RSt (rb s) (rnc s) (roc s) (rcnt s) (rcl s)) with s by (destruct s; reflexivity). rewrite Ea. unfold rret at 1.
    unfold rbind at 1. rewrite Ec. unfold rbind at 1. rewrite Es. apply (merge_nil _ _ _ _ G4 Ol).
  - eapply ext_trans; [exact X1|]. eapply ext_trans; [|exact X4]. now apply core_ext.
Qed.

(** *** Evaluating operands, running the kernels *)
Definition sub (e : mexp T) : Prop := (forall o, In o (leaves e) -> U o) /\ NoDup (nodes e) /\ (forall i, In i (nodes e) -> host i = Some F) /\
  (forall o, In o (svars e) -> In o (svars a0)) /\ (In id0 (nodes e) -> e = item id0 a0 y0).
Lemma good_pre e s : good s -> sub e -> pre G host rank rho U lv e (rb s).
Proof.
  intros H (S1 & S2 & S3 & _ & S5). constructor; try apply H.
  - intros o Ho. apply U_below. auto.
  - exact S2.
  - intros i o Hi Eo. rewrite (S3 i Hi) in Eo. injection Eo as <-. split; [apply (gd_F H)|lia].
  - intros i o a y Hi Hk. pose proof (exp_host WF Hk) as Eh. rewrite (S3 i Hi) in Eh. injection Eh as <-. rewrite HF in Hk. injection Hk as <- <- <-. auto.
Qed.
Lemma eval_step e v s ac W : good s -> agree s ac W -> sub e -> mval G rho e v ->
  exists n p b', (forall f, n <= f -> eval S B G rho f e (rb s) = EOk (p, b')) /\ post G host rank rho U lv e (rb s) p v b' /\
    good (up s b') /\ agree (up s b') ac W /\ ext s (up s b') /\ keeps W (rb s) b'.
Proof.
  intros H Ag Hs Hv. destruct (eval_ok VS BV BK WF UC (good_pre H Hs) Hv) as (n & p & b' & E & Q).
  assert (KW : keeps W (rb s) b').
  { eapply keeps_weaken; [exact (q_frame Q)|]. intros w Hw. destruct (ag_own Ag Hw) as (i & k & -> & Nk). simpl. auto. }
  exists n, p, b'. split; [exact E|]. split; [exact Q|]. split; [|split; [|split; [|exact KW]]].
  - constructor; cbn [up rb rnc roc]; [exact (q_slots Q)|exact (q_fi Q)|exact (q_pi Q)|exact (q_vc Q)|exact (q_vis Q (gd_F H))|apply (gd_nc H)|apply (gd_oc H)].
  - eapply agree_keep; [exact Ag|reflexivity|exact KW].
  - constructor; cbn [up rb rnc roc]; auto; [exact (q_vis Q)|exact (q_eval Q)|exact (q_dev Q)|exact (q_high Q)|exact (q_dres Q)|]. eapply keeps_weaken; [exact (q_frame Q)|].
    intros [i k|o|o]; simpl; tauto.
Qed.
Lemma exec_step prog env' s ac W id : good s -> agree s ac W -> host id = Some F -> (forall d, In d (dsts prog) -> ~ W d) ->
  (forall d, In d (dsts prog) -> exists k, d = ONode id k) -> NoDup (dsts prog) -> Forall no_self prog ->
  (forall p, uses_ptr prog p -> exists w v, at_ (rb s) w p v /\ forall k, w <> ONode id k) ->
  (forall d op, In (d, op) prog -> is_kron op = false) ->
  vrun owner_eq (contents (rb s)) prog (fun _ => None) = Some env' ->
  exists b', exec S B prog (rb s) = EOk (tt, b') /\ good (up s b') /\ agree (up s b') ac W /\ ext s (up s b') /\
    (forall k v, env' k = Some v -> exists p, at_ b' k p v).
Proof.
  intros H Ag Hh Nw Hd Nd Ns Hp Hk Hv.
  destruct (@exec_ok T N S VS B BV BK G (rb s) prog env' (gd_slots H) Nd Ns) as (b' & E & Ef & Sl & Hat & K & Un & _); auto.
  - intros p Hu. destruct (Hp p Hu) as (w & v & [Ew Hw] & Nq). split; [eauto|]. intros d Hin. destruct (Hd _ Hin) as (k & ->).
    eapply other_not_slot; [exact (gd_slots H)| |exact Ew]. apply Nq.
  - exists b'. split; [exact E|]. split; [|split; [|split; [|exact Hat]]].
    + eapply good_keep; [exact H|exact Sl|exact Ef| |auto|auto]. cbn [up rb]. eapply keeps_weaken; [exact K|].
      intros w Hw Hin. destruct (Hd _ Hin) as (k & ->). destruct Hw as [_ Hw]. specialize (Hw _ Hh). lia.
    + eapply agree_keep; [exact Ag|reflexivity|]. cbn [up rb]. eapply keeps_weaken; [exact K|]. intros w Hw Hin. exact (Nw _ Hin Hw).
    + apply ext_keep; cbn [up rb rnc roc]; auto.
      * intros o. apply Un. intros Hin. destruct (Hd _ Hin) as (k & Q). discriminate.
      * eapply keeps_weaken; [exact K|]. intros w Hw Hin. destruct (Hd _ Hin) as (k & ->). exact Hw.
Qed.

(** *** Values of the kernel sequences *)
Lemma vset_same (env : owner -> option mat) k v : vset owner_eq env k v k = Some v.
Proof. unfold vset. destruct (owner_eq k k); congruence. Qed.
Lemma vset_other (env : owner -> option mat) k v k' : k' <> k -> vset owner_eq env k v k' = env k'.
Proof. intros H. unfold vset. destruct (owner_eq k' k); congruence. Qed.
Definition reads (k : bop) : bool := match k with BProd | BHad => true | _ => false end.
Lemma bin_back_run k id (b : st (T := T)) pc c p q v w : holds (mm b) pc c -> (reads k = true -> holds (mm b) p v /\ holds (mm b) q w) ->
  bin_dims k v w -> mr c = mr v -> mc c = mc w ->
  exists env' u1 u2, vrun owner_eq (contents b) (bin_back k id pc p q) (fun _ => None) = Some env' /\
    env' (ONode id (fst (bin_outs k))) = Some u1 /\ meq u1 (fst (bin_adj k c v w)) /\
    env' (ONode id (snd (bin_outs k))) = Some u2 /\ meq u2 (snd (bin_adj k c v w)).
Proof.
  intros Hc Hr Hd D1 D2. destruct (contents_meq Hc) as [_ Mc]. pose proof Mc as (C1 & C2 & _).
  assert (NE : forall i j, i <> j -> ONode id i <> ONode id j) by (intros i j Q [= E]; auto).
  destruct k; cbn [bin_dims bin_back bin_outs bin_adj fst snd reads] in *; unfold same_dims in *.
  - do 3 eexists. split; [|split; [|split; [|split]]].
    + eapply vrun_step; [reflexivity|]. eapply vrun_step; [reflexivity|]. reflexivity.
    + rewrite vset_other, vset_same by (apply NE; lia). reflexivity.
    + exact (meq_map _ Mc).
    + rewrite vset_same. reflexivity.
    + exact (meq_map _ Mc).
  - do 3 eexists. split; [|split; [|split; [|split]]].
    + eapply vrun_step; [reflexivity|]. eapply vrun_step; [reflexivity|]. reflexivity.
    + rewrite vset_other, vset_same by (apply NE; lia). reflexivity.
    + exact (meq_map _ Mc).
    + rewrite vset_same. reflexivity.
    + exact (meq_map _ Mc).
  - destruct (Hr eq_refl) as [Hp Hq]. destruct (contents_meq Hp) as [_ Mp], (contents_meq Hq) as [_ Mq].
    pose proof Mp as (P1 & P2 & _). pose proof Mq as (Q1 & Q2 & _).
    do 3 eexists. split; [|split; [|split; [|split]]].
    + eapply vrun_step; [reflexivity|]. eapply vrun_step; [reflexivity|]. eapply vrun_step.
      { apply veval_mul; [reflexivity|cbn [vfetch]; apply vset_same|]. cbn [mtr mr]. congruence. }
      eapply vrun_step; [|reflexivity]. apply veval_mul; [cbn [vfetch]; rewrite !vset_other by (apply NE; lia); apply vset_same|reflexivity|cbn [mtr mc]; congruence].
    + rewrite vset_other, vset_same by (apply NE; lia). reflexivity.
    + apply meq_mul; [exact Mc|exact (meq_tr Mq)|]. cbn [mtr mr]. congruence.
    + rewrite vset_same. reflexivity.
    + apply meq_mul; [exact (meq_tr Mp)|exact Mc|]. cbn [mtr mc]. congruence.
  - destruct (Hr eq_refl) as [Hp Hq]. destruct (contents_meq Hp) as [_ Mp], (contents_meq Hq) as [_ Mq].
    pose proof Mp as (P1 & P2 & _). pose proof Mq as (Q1 & Q2 & _). destruct Hd as [Hd1 Hd2].
    do 3 eexists. split; [|split; [|split; [|split]]].
    + eapply vrun_step; [reflexivity|]. eapply vrun_step; [reflexivity|]. eapply vrun_step.
      { apply veval_had; [reflexivity|cbn [vfetch]; apply vset_same| |]; cbn [mmap mr mc]; congruence. }
      eapply vrun_step; [|reflexivity]. apply veval_had; [cbn [vfetch]; rewrite !vset_other by (apply NE; lia); apply vset_same|reflexivity|cbn [mmap mr]; congruence|cbn [mmap mc]; congruence].
    + rewrite vset_other, vset_same by (apply NE; lia). reflexivity.
    + apply meq_zip; [exact Mc|exact (meq_map _ Mq)|]. split; cbn [mmap mr mc]; congruence.
    + rewrite vset_same. reflexivity.
    + apply meq_zip; [exact (meq_map _ Mp)|exact Mc|]. split; cbn [mmap mr mc]; congruence.
Qed.
(** Dimensions of adjoint and operand. *)
Lemma outside_dsts (prog : list (instr T owner)) (W : owner -> Prop) id : (forall k, ~ W (ONode id k)) -> (forall d, In d (dsts prog) -> exists k, d = ONode id k) -> forall d, In d (dsts prog) -> ~ W d.
Proof. intros H Hd d Hin Q. destruct (Hd _ Hin) as (k & ->). exact (H k Q). Qed.
Definition wslot (k : uop T) : option nat := match k with USProdE _ _ => Some 11 | USSumE _ _ => Some 7 | _ => None end.
Definition uback_dims (k : uop T) (c v : mat) : Prop := match k with UDet _ _ => mr v = mc v | UInv _ => same_dims c v /\ mr v = mc v | _ => same_dims c v end.
Lemma un_back_run k id (b : st (T := T)) pc c p v : holds (mm b) pc c -> 0 < mr c -> 0 < mc c -> (ureads k = true -> holds (mm b) p v /\ uback_dims k c v) ->
  exists env' u, vrun owner_eq (contents b) (un_back rho k id (mf c 0 0, (mr c, mc c)) pc p) (fun _ => None) = Some env' /\
    env' (ONode id (un_out k)) = Some u /\ meq u (un_adj rho k c v) /\
    (forall j, wslot k = Some j -> exists w, env' (ONode id j) = Some w /\ mf w 0 0 = un_weight k c v).
Proof.
  intros Hc Pc1 Pc2 Hr. destruct (contents_meq Hc) as [_ Mc]. pose proof Mc as (C1 & C2 & _).
  destruct k as [so vs|so vs| |t|t|f f'|g|g d].
  3-8: match goal with |- exists env' u, ?A /\ ?B' /\ ?C /\ _ => enough (Q : exists env' u, A /\ B' /\ C) by (destruct Q as (env' & u & Q1 & Q2 & Q3); exists env', u; split; [exact Q1|]; split; [exact Q2|]; split; [exact Q3|discriminate]) end.
  all: cbn [un_back un_out un_adj ureads uback_dims wslot fst snd] in *.
  { assert (NE : forall i j, i <> j -> ONode id i <> ONode id j) by (intros; congruence).
    destruct (Hr eq_refl) as [Hp [D1 D2]]. destruct (contents_meq Hp) as [_ Mp]. pose proof Mp as (P1 & P2 & _).
    do 2 eexists. split; [|split; [|split]].
    + eapply vrun_step; [apply veval_tr; reflexivity|].
      eapply vrun_step; [apply veval_mul; [cbn [vfetch]; apply vset_same|reflexivity|cbn [mtr mr mc]; congruence]|].
      eapply vrun_step; [apply veval_trace; [cbn [vfetch]; apply vset_same|cbn [mmul mtr mr mc]; congruence]|].
      eapply vrun_step; [apply veval_smul; reflexivity|]. reflexivity.
    + apply vset_same.
    + exact (meq_map _ Mc).
    + intros j [= <-]. eexists. split; [rewrite vset_other by (apply NE; lia); apply vset_same|].
      cbn [un_weight mtrace mf].
      assert (Q : meq (mmul (mtr (contents b pc)) (contents b p)) (mmul (mtr c) v)) by (apply meq_mul; [exact (meq_tr Mc)|exact Mp|cbn [mtr mc]; congruence]).
      destruct Q as (Q1 & Q2 & Q3). rewrite <- Q1. apply sum_n_ext. intros q Hq. apply Q3; [exact Hq|]. cbn [mmul mtr mr mc] in *. congruence. }
  { assert (NE : forall i j, i <> j -> ONode id i <> ONode id j) by (intros; congruence).
    do 2 eexists. split; [|split; [|split]].
    + eapply vrun_step; [apply veval_mul; [apply vfetch_ones; lia|reflexivity|cbn [mones mr mc]; congruence]|].
      eapply vrun_step; [apply veval_mul; [cbn [vfetch]; apply vset_same|apply vfetch_ones; lia|cbn [mmul mones mr mc]; congruence]|].
      eapply vrun_step; [apply veval_smul; reflexivity|]. reflexivity.
    + apply vset_same.
    + exact (meq_map _ Mc).
    + intros j [= <-]. eexists. split; [rewrite vset_other by (apply NE; lia); apply vset_same|].
      cbn [un_weight].
      assert (Q : meq (mmul (mmul (mones 1 (mr c)) (contents b pc)) (mones (mc c) 1)) (mmul (mmul (mones 1 (mr c)) c) (mones (mc c) 1))).
      { apply meq_mul; [apply meq_mul; [apply meq_refl|exact Mc|cbn [mones mr mc]; congruence]|apply meq_refl|cbn [mmul mones mr mc]; congruence]. }
      destruct Q as (Q1 & Q2 & Q3). apply Q3; cbn [mmul mones mr mc]; lia. }
  - do 2 eexists. split; [eapply vrun_step; [reflexivity|reflexivity]|]. split; [apply vset_same|]. exact (meq_tr Mc).
  - do 2 eexists. split; [eapply vrun_step; [reflexivity|reflexivity]|]. split; [apply vset_same|]. exact (meq_map _ Mc).
  - do 2 eexists. split; [eapply vrun_step; [reflexivity|reflexivity]|]. split; [apply vset_same|]. exact (meq_map _ Mc).
  - destruct (Hr eq_refl) as [Hp [D1 D2]]. destruct (contents_meq Hp) as [_ Mp]. pose proof Mp as (P1 & P2 & _).
    do 2 eexists. split; [|split].
    + eapply vrun_step; [reflexivity|]. eapply vrun_step; [|reflexivity]. apply veval_had; [cbn [vfetch]; apply vset_same|reflexivity| |]; cbn [mmap mr mc]; congruence.
    + apply vset_same.
    + apply meq_zip; [exact (meq_map _ Mp)|exact Mc|]. split; cbn [mmap mr mc]; congruence.
  - destruct (Hr eq_refl) as [Hp [[D1 D2] Sq]]. destruct (contents_meq Hp) as [_ Mp]. pose proof Mp as (P1 & P2 & _).
    assert (NE : forall i j, i <> j -> ONode id i <> ONode id j) by (intros; congruence).
    do 2 eexists. split; [|split].
    + eapply vrun_step; [apply veval_tr; reflexivity|].
      eapply vrun_step; [apply veval_inv; [cbn [vfetch]; apply vset_same|cbn [mtr mr mc]; congruence]|].
      eapply vrun_step; [apply veval_mul; [cbn [vfetch]; apply vset_same|reflexivity|cbn [minv mtr mr mc]; congruence]|].
      eapply vrun_step; [apply veval_mul; [cbn [vfetch]; apply vset_same|cbn [vfetch]; rewrite vset_other by (apply NE; lia); apply vset_same|cbn [mmul minv mtr mr mc]; congruence]|].
      eapply vrun_step; [apply veval_smul; cbn [vfetch]; apply vset_same|]. reflexivity.
    + apply vset_same.
    + apply meq_map. assert (Mi : meq (minv g (mtr (contents b p))) (minv g (mtr v))) by exact (meq_inv g (meq_tr Mp)).
      apply meq_mul; [apply meq_mul; [exact Mi|exact Mc|]|exact Mi|]; cbn [mmul minv mtr mr mc]; congruence.
  - destruct (Hr eq_refl) as [Hp Sq]. destruct (contents_meq Hp) as [_ Mp]. pose proof Mp as (P1 & P2 & _).
    assert (NE : forall i j, i <> j -> ONode id i <> ONode id j) by (intros; congruence).
    do 2 eexists. split; [|split].
    + eapply vrun_step; [apply veval_inv; [reflexivity|congruence]|].
      eapply vrun_step; [apply veval_tr; cbn [vfetch]; apply vset_same|].
      eapply vrun_step; [apply veval_det; [reflexivity|congruence]|].
      eapply vrun_step; [apply veval_smulat; [cbn [vfetch]; apply vset_same|cbn [vfetch]; rewrite vset_other by (apply NE; lia); apply vset_same]|].
      eapply vrun_step; [apply veval_smul; cbn [vfetch]; apply vset_same|]. reflexivity.
    + apply vset_same.
    + apply meq_map. cbn [mdet mf]. rewrite (flat_meq Mp), P1. apply meq_map, meq_tr, meq_inv. exact Mp.
Qed.

(** *** The kernels of one operator *)
Definition outside (W : owner -> Prop) (id : nat) : Prop := forall k, ~ W (ONode id k).
Lemma back_facts k id pc p q : NoDup (dsts (bin_back k id pc p q)) /\ Forall no_self (bin_back k id pc p q) /\
  (forall d, In d (dsts (bin_back k id pc p q)) -> exists k, d = ONode id k) /\ (forall d op, In (d, op) (bin_back k id pc p q) -> is_kron op = false) /\
  (forall z, uses_ptr (bin_back k id pc p q) z -> z = pc \/ (reads k = true /\ (z = p \/ z = q))).
Proof.
  split; [|split; [|split; [|split]]].
  - destruct k; cbn; repeat constructor; simpl; intuition discriminate.
  - destruct k; cbn; repeat constructor; unfold no_self; simpl; intuition discriminate.
  - destruct k; cbn; intros d H; repeat (destruct H as [<-|H]; [eauto|]); destruct H.
  - destruct k; cbn; intros d op H; repeat (destruct H as [[= <- <-]|H]; [reflexivity|]); destruct H.
  - intros z (i & Hi & Hz). destruct k; cbn in Hi; cbn [reads]; repeat (destruct Hi as [<-|Hi]; [simpl in Hz; intuition congruence|]); destruct Hi.
Qed.
Lemma uback_facts k id z0 pc p : NoDup (dsts (un_back rho k id z0 pc p)) /\ Forall no_self (un_back rho k id z0 pc p) /\
  (forall d, In d (dsts (un_back rho k id z0 pc p)) -> exists k, d = ONode id k) /\ (forall d op, In (d, op) (un_back rho k id z0 pc p) -> is_kron op = false) /\
  (forall z, uses_ptr (un_back rho k id z0 pc p) z -> z = pc \/ (ureads k = true /\ z = p)).
Proof.
  split; [|split; [|split; [|split]]].
  - destruct k; cbn; repeat constructor; simpl; intuition discriminate.
  - destruct k; cbn; repeat constructor; unfold no_self; simpl; intuition discriminate.
  - destruct k; cbn; intros dd H; repeat (destruct H as [<-|H]; [eauto|]); destruct H.
  - destruct k; cbn; intros dd op H; repeat (destruct H as [[= <- <-]|H]; [reflexivity|]); destruct H.
  - intros z (i & Hi & Hz). destruct k; cbn in Hi; cbn [ureads]; repeat (destruct Hi as [<-|Hi]; [simpl in Hz; intuition congruence|]); destruct Hi.
Qed.

(** Evaluating both operands. *)
Lemma eval2 l r v w s ac W id : good s -> agree s ac W -> sub l -> sub r -> (forall i, In i (nodes l) -> ~ In i (nodes r)) ->
  ~ In id (nodes l) -> ~ In id (nodes r) -> host id = Some F -> mval G rho l v -> mval G rho r w ->
  exists n p q b b', (forall f, n <= f -> eval S B G rho f l (rb s) = EOk (p, b) /\ eval S B G rho f r b = EOk (q, b')) /\
    good (up s b') /\ agree (up s b') ac W /\ ext s (up s b') /\ keeps W (rb s) b' /\
    (exists wp, at_ b' wp p v /\ forall k, wp <> ONode id k) /\ (exists wq, at_ b' wq q w /\ forall k, wq <> ONode id k) /\
    (forall o, In o (leaves l) \/ In o (leaves r) -> vis b' o).
Proof.
  intros H Ag Sl Sr Dj Nl Nr Hh Hv Hw.
  destruct (eval_step H Ag Sl Hv) as (n1 & p & b & E1 & Q1 & G1 & A1 & X1 & K1).
  destruct (eval_step G1 A1 Sr Hw) as (n2 & q & b' & E2 & Q2 & G2 & A2 & X2 & K2). cbn [up rb] in *.
  exists (max n1 n2), p, q, b, b'. split; [intros f Hf; split; [apply E1|apply E2]; lia|]. split; [exact G2|]. split; [exact A2|]. split; [exact (ext_trans X1 X2)|]. split; [eapply keeps_trans; [exact K1| |exact K2]; auto|].
  assert (Hh' : forall a, host id = Some a -> lv <= rank a) by (intros a Ea; rewrite Hh in Ea; injection Ea as <-; lia).
  split; [|split].
  - exists (loc G l). split.
    + eapply keeps_at; [exact (q_frame Q2)| |exact (q_at Q1)]. eapply (operand_kept BK); [exact Q1|exact (good_pre H Sl)| |exact Dj].
      exact (p_hosts (good_pre G1 Sr)).
    + intros k. eapply (operand_loc Q1); [intros o Ho; apply U_below; now apply Sl|exact Nl|exact Hh'].
  - exists (loc G r). split; [exact (q_at Q2)|]. intros k. eapply (operand_loc Q2); [intros o Ho; apply U_below; now apply Sr|exact Nr|exact Hh'].
  - intros o [Ho|Ho]; [apply (q_vis Q2); exact (q_leaves Q1 Ho)|exact (q_leaves Q2 Ho)].
Qed.
Definition bin_phase f k id pc l r : R unit :=
  match k with
  | BProd | BHad => rbind (rl (eval S B G rho f l)) (fun p => rbind (rl (eval S B G rho f r)) (fun q => rl (exec S B (bin_back k id pc p q))))
  | _ => rl (exec S B (bin_back k id pc pc pc))
  end.
Lemma bin_phase_ok k id l r c v w s ac W pc wc : good s -> agree s ac W -> sub l -> sub r -> (forall i, In i (nodes l) -> ~ In i (nodes r)) ->
  ~ In id (nodes l) -> ~ In id (nodes r) -> host id = Some F -> mval G rho l v -> mval G rho r w -> bin_dims k v w ->
  outside W id -> W wc -> at_ (rb s) wc pc c -> mr c = mr v -> mc c = mc w ->
  exists n b', (forall f, n <= f -> bin_phase f k id pc l r s = EOk (tt, up s b')) /\ good (up s b') /\ agree (up s b') ac W /\ ext s (up s b') /\
    (exists p1, at_ b' (ONode id (fst (bin_outs k))) p1 (fst (bin_adj k c v w))) /\ (exists p2, at_ b' (ONode id (snd (bin_outs k))) p2 (snd (bin_adj k c v w))).
Proof.
  intros H Ag Sl Sr Dj Nl Nr Hh Hv Hw Hd Ho Hwc Hc D1 D2.
  assert (Nwc : forall j, wc <> ONode id j) by (intros j ->; exact (Ho j Hwc)).
  destruct (reads k) eqn:Rk.
  - destruct (eval2 H Ag Sl Sr Dj Nl Nr Hh Hv Hw) as (n & p & q & b & b2 & E & G2 & A2 & X2 & K2 & (wp & Hp & Np) & (wq & Hq & Nq) & _).
    pose proof (keeps_at K2 Hwc Hc) as Hc2.
    destruct (@bin_back_run k id b2 pc c p q v w (proj2 Hc2)) as (env' & u1 & u2 & Er & Eu1 & M1 & Eu2 & M2); auto.
    { intros _. split; [apply Hp|apply Hq]. }
    destruct (back_facts k id pc p q) as (B1 & B2 & B3 & B4 & B5).
    destruct (@exec_step (bin_back k id pc p q) env' (up s b2) ac W id G2 A2 Hh (outside_dsts Ho B3) B3 B1 B2) as (b3 & Ee & G3 & A3 & X3 & At); auto.
    { intros z Hz. destruct (B5 z Hz) as [->|[_ [-> | ->]]]; cbn [up rb]; eauto. }
    exists n, b3. split; [|split; [exact G3|split; [exact A3|split; [exact (ext_trans X2 X3)|]]]].
    + intros f Hf. destruct (E f Hf) as [E1 E2]. cbn [up rb] in Ee. unfold bin_phase.
      destruct k; try discriminate Rk; unfold rbind, rl; rewrite E1; cbn [rb]; rewrite E2; cbn [rb]; rewrite Ee; reflexivity.
    + destruct (At _ _ Eu1) as (p1 & Q1 & Q2). destruct (At _ _ Eu2) as (p2 & Q3 & Q4).
      split; [exists p1|exists p2]; split; auto; eapply holds_meq; eauto.
  - destruct (@bin_back_run k id (rb s) pc c pc pc v w (proj2 Hc)) as (env' & u1 & u2 & Er & Eu1 & M1 & Eu2 & M2); auto.
    { rewrite Rk. discriminate. }
    destruct (back_facts k id pc pc pc) as (B1 & B2 & B3 & B4 & B5).
    destruct (@exec_step (bin_back k id pc pc pc) env' s ac W id H Ag Hh (outside_dsts Ho B3) B3 B1 B2) as (b3 & Ee & G3 & A3 & X3 & At); auto.
    { intros z Hz. destruct (B5 z Hz) as [->|[Q _]]; [eauto|congruence]. }
    exists 0, b3. split; [|split; [exact G3|split; [exact A3|split; [exact X3|]]]].
    + intros f Hf. unfold bin_phase. destruct k; try discriminate Rk; unfold rl; rewrite Ee; reflexivity.
    + destruct (At _ _ Eu1) as (p1 & Q1 & Q2). destruct (At _ _ Eu2) as (p2 & Q3 & Q4).
      split; [exists p1|exists p2]; split; auto; eapply holds_meq; eauto.
Qed.

Definition un_phase f k id z pc a : R unit :=
  if ureads k then rbind (rl (eval S B G rho f a)) (fun p => rl (exec S B (un_back rho k id z pc p)))
  else rl (exec S B (un_back rho k id z pc pc)).
Lemma un_phase_ok k id a c v s ac W pc wc : good s -> agree s ac W -> sub a ->
  ~ In id (nodes a) -> host id = Some F -> mval G rho a v ->
  outside W id -> W wc -> at_ (rb s) wc pc c -> (ureads k = true -> uback_dims k c v) -> 0 < mr c -> 0 < mc c ->
  exists n b', (forall f, n <= f -> un_phase f k id (mf c 0 0, (mr c, mc c)) pc a s = EOk (tt, up s b')) /\ good (up s b') /\ agree (up s b') ac W /\ ext s (up s b') /\
    (exists p1, at_ b' (ONode id (un_out k)) p1 (un_adj rho k c v)) /\ weight k id (up s b') = EOk (un_weight k c v, up s b').
Proof.
  intros H Ag Sa Na Hh Hv Ho Hwc Hc Hd Pc1 Pc2.
  assert (Wt : forall (b : st (T := T)) env', slots (mm b) (ar b) none -> (forall k v, env' k = Some v -> exists p, at_ b k p v) ->
    (forall j, wslot k = Some j -> exists w, env' (ONode id j) = Some w /\ mf w 0 0 = un_weight k c v) -> weight k id (up s b) = EOk (un_weight k c v, up s b)).
  { intros b env' Sl At Q. assert (Fi : forall j, wslot k = Some j -> first id j (up s b) = EOk (un_weight k c v, up s b)).
    { intros j Ej. destruct (Q j Ej) as (w & Ew & Mw). destruct (At _ _ Ew) as (q & Eq & Hq).
      unfold first, rbind, rl, slot, lift. cbn [up rb]. rewrite Eq. cbn [rb mm]. rewrite (holds_first (sl_tame Sl) Hq), Mw. destruct b. reflexivity. }
    unfold weight. destruct k; try reflexivity; now apply Fi. }
  assert (Nwc : forall j, wc <> ONode id j) by (intros j ->; exact (Ho j Hwc)).
  destruct (ureads k) eqn:Rk.
  - destruct (eval_step H Ag Sa Hv) as (n & p & b2 & E & Q & G2 & A2 & X2 & K2).
    pose proof (keeps_at K2 Hwc Hc) as Hc2.
    assert (Hh' : forall a, host id = Some a -> lv <= rank a) by (intros z Ea; rewrite Hh in Ea; injection Ea as <-; lia).
    assert (Np : forall j, loc G a <> ONode id j).
    { intros j. eapply (operand_loc Q); [intros o Hin; apply U_below; now apply Sa|exact Na|exact Hh']. }
    destruct (@un_back_run k id b2 pc c p v (proj2 Hc2)) as (env' & u1 & Er & Eu1 & M1 & Mw); auto.
    { intros _. split; [apply (q_at Q)|auto]. }
    destruct (uback_facts k id (mf c 0 0, (mr c, mc c)) pc p) as (B1 & B2 & B3 & B4 & B5).
    destruct (@exec_step (un_back rho k id (mf c 0 0, (mr c, mc c)) pc p) env' (up s b2) ac W id G2 A2 Hh (outside_dsts Ho B3) B3 B1 B2) as (b3 & Ee & G3 & A3 & X3 & At); auto.
    { intros z Hz. destruct (B5 z Hz) as [->|[_ ->]]; cbn [up rb]; [eauto|]. exists (loc G a), v. split; [exact (q_at Q)|exact Np]. }
    exists n, b3. split; [|split; [exact G3|split; [exact A3|split; [exact (ext_trans X2 X3)|split]]]].
    + intros f Hf. cbn [up rb] in Ee. unfold un_phase.
      rewrite Rk; unfold rbind, rl; rewrite (E f Hf); cbn [rb]; rewrite Ee; reflexivity.
    + destruct (At _ _ Eu1) as (p1 & Q1 & Q2). exists p1. split; auto. eapply holds_meq; eauto.
    + exact (Wt b3 env' (gd_slots G3) At Mw).
  - destruct (@un_back_run k id (rb s) pc c pc v (proj2 Hc)) as (env' & u1 & Er & Eu1 & M1 & Mw); auto.
    { rewrite Rk. discriminate. }
    destruct (uback_facts k id (mf c 0 0, (mr c, mc c)) pc pc) as (B1 & B2 & B3 & B4 & B5).
    destruct (@exec_step (un_back rho k id (mf c 0 0, (mr c, mc c)) pc pc) env' s ac W id H Ag Hh (outside_dsts Ho B3) B3 B1 B2) as (b3 & Ee & G3 & A3 & X3 & At); auto.
    { intros z Hz. destruct (B5 z Hz) as [->|[Q _]]; [eauto|congruence]. }
    exists 0, b3. split; [|split; [exact G3|split; [exact A3|split; [exact X3|split]]]].
    + intros f Hf. unfold un_phase. rewrite Rk; unfold rl; rewrite Ee; reflexivity.
    + destruct (At _ _ Eu1) as (p1 & Q1 & Q2). exists p1. split; auto. eapply holds_meq; eauto.
    + exact (Wt b3 env' (gd_slots G3) At Mw).
Qed.

(** *** traverse *)
Hypothesis INJ : forall o o', KU o -> KU o' -> g_nidx G o = g_nidx G o' -> o = o'.
Notation vtr := (vtr G rho).
Notation trav := (trav S B G ord rho).
Definition dims_ok (ac : acache (T := T)) : Prop := forall o u, KU o -> ac (KMat (g_nidx G o)) = Some u -> mr u = g_rows G o /\ mc u = g_cols G o.
Lemma dims_aadd ac e v : dims_ok ac -> sub e -> has_dims G e v -> dims_ok (aadd ac (key_of G e) v).
Proof.
  intros H (Hs & _) Hd o u Uo. unfold aadd, aput. destruct (key_eq _ _) as [E|E]; [|now apply H]. rewrite <- E.
  destruct e as [o'| |]; simpl in E; try discriminate. injection E as E.
  assert (o = o') as <- by (apply INJ; auto; apply U_KU, Hs; simpl; auto). destruct Hd as [D1 D2].
  intros [= <-]. destruct (ac _) as [u'|] eqn:Eu; [|split; assumption]. simpl. exact (H o u' Uo Eu).
Qed.
Lemma dims_entry ac v (u : mat) : dims_ok ac -> In v (svars a0) -> mr u = 1 -> mc u = 1 -> dims_ok (aadd ac (KMat (g_nidx G v)) u).
Proof.
  intros H Hv D1 D2 o w Uo. unfold aadd, aput. destruct (key_eq _ _) as [E|E]; [|now apply H]. rewrite <- E. injection E as E.
  assert (o = v) as -> by (apply INJ; auto using svars_KU). destruct (HV Hv) as [V1 V2].
  intros [= <-]. destruct (ac _) as [u'|] eqn:Eu; [|split; congruence]. simpl. exact (H v u' Uo Eu).
Qed.
(** The entries for the variables of a scalar operand. *)
Lemma scalar_entries_ok z so id vs : host id = Some F -> (forall v, In v vs -> In v (svars a0)) ->
  forall j s ac W, good s -> agree s ac W -> dims_ok ac -> j <> 0 -> (forall i, j <= i -> ~ W (ONode id i)) ->
  exists s' W', scalar_entries S B G rho id0 id j z so vs s = EOk (tt, s') /\ good s' /\ agree s' (sadd G rho z so vs ac) W' /\ ext s s' /\
    dims_ok (sadd G rho z so vs ac) /\ (forall w, W' w -> W w \/ exists i, w = ONode id i).
Proof.
  intros Hh. induction vs as [|v vs IH]; intros Hin j s ac W H Ag Hd Zj Nw.
  - exists s, W. split; [reflexivity|]. split; [exact H|]. split; [exact Ag|]. split; [apply ext_refl|]. split; [exact Hd|]. auto.
  - set (t := nmul z (e_der rho so 0 v 0)). set (prog := ([(ONode id j, KSMul t (OEye 1))] : list (instr T owner))).
    destruct (@exec_step prog (vset owner_eq (fun _ => None) (ONode id j) (sentry rho z so v)) s ac W id H Ag Hh) as (b1 & E1 & G1 & A1 & X1 & At).
    { intros d [<-|[]]. apply Nw. lia. }
    { intros d [<-|[]]. exists j. reflexivity. }
    { constructor; [intros []|constructor]. }
    { constructor; [|constructor]. intros Q. destruct Q as [Q|[]]; discriminate Q. }
    { intros q (i & [<-|[]] & Hq). simpl in Hq. intuition discriminate. }
    { intros d op [[= <- <-]|[]]. reflexivity. }
    { reflexivity. }
    destruct (At _ _ (vset_same _ _ _)) as (q & Aq). set (k := KMat (g_nidx G v)).
    assert (Kv : In v (svars a0)) by (apply Hin; simpl; auto).
    destruct (@accumulate_ok (up s b1) ac W k (ONode id j) q (sentry rho z so v)) as (s2 & Ea & Sl2 & Ag2 & Ef2 & Ear2 & K2 & En2 & Eo2 & Ec2); auto.
    { apply G1. }
    { eauto. }
    { intros u Eu. destruct (HV Kv) as [V1 V2]. destruct (Hd v u (svars_KU Kv) Eu). split; cbn [sentry mmap meye mr mc]; congruence. }
    destruct (good_acc G1 A1 Sl2 Ef2 Ear2 K2 En2 Eo2 Ec2) as [G2 X2].
    destruct (IH (fun w Q => Hin w (or_intror Q)) (Datatypes.S j) s2 (aadd ac k (sentry rho z so v)) (plus W (ONode id j))) as (s3 & W3 & E3 & G3 & A3 & X3 & D3 & B3); auto.
    { apply dims_entry; auto. }
    { intros i Hi [Q|[= Q]]; [apply (Nw i); [lia|exact Q]|lia]. }
    exists s3, W3. split; [|split; [exact G3|split; [exact A3|split; [|split; [exact D3|]]]]].
    + cbn [scalar_entries]. unfold rbind at 1. unfold scalar_entry. unfold rbind at 1. unfold rl at 1. fold t. fold prog. rewrite E1.
      unfold rbind at 1. unfold rl at 1. unfold slot. cbn [rb]. rewrite (proj1 Aq). change (RSt _ _ _ _ _) with (up s b1). fold k. rewrite Ea. exact E3.
    + eapply ext_trans; [exact X1|]. eapply ext_trans; [exact X2|exact X3].
    + intros w Q. destruct (B3 w Q) as [[Q'|Q']|Q']; eauto.
Qed.
Lemma vtr_skip e ac : (forall i, In i (top_ids e) -> ac (KNode i) = None) -> vtr e ac = ac.
Proof. destruct e as [o|k i l r|k i a]; simpl; intros H; [reflexivity| |]; now rewrite H by auto. Qed.
Lemma up_up s b b' : up (up s b) b' = up s b'.
Proof. reflexivity. Qed.
Lemma rl_vis o (s : rst) : rl (setf o set_vis) s = EOk (tt, up s (St (mm (rb s)) (ar (rb s)) (fun o' => if o' =? o then set_vis (fl (rb s) o') else fl (rb s) o'))).
Proof. reflexivity. Qed.

(** A leaf is only marked. *)
Lemma trav_leaf o s ac W : good s -> agree s ac W -> U o ->
  exists s', (forall f, 1 <= f -> trav f id0 (MLeaf o) s = EOk (tt, s')) /\ good s' /\ agree s' ac W /\ ext s s' /\ vis (rb s') o.
Proof.
  intros H Ag Uo. pose proof (HP Uo) as Hl. unfold is_leaf in Hl.
  destruct (f_vis (fl (rb s) o)) eqn:Vo.
  - exists s. split; [|split; [exact H|split; [exact Ag|split; [apply ext_refl|exact Vo]]]].
    intros [|f] Hf; [lia|]. cbn [MatRev.trav]. unfold rbind, rl, getf. rewrite Vo. destruct s; reflexivity.
  - set (b := St (mm (rb s)) (ar (rb s)) (fun o' => if o' =? o then set_vis (fl (rb s) o') else fl (rb s) o')).
    assert (Fo : forall o', o' <> o -> fl b o' = fl (rb s) o') by (intros o' Ne; simpl; apply Nat.eqb_neq in Ne; now rewrite Ne).
    assert (Fe : fl b o = set_vis (fl (rb s) o)) by (simpl; now rewrite Nat.eqb_refl).
    assert (Fl : forall o', f_eval (fl b o') = f_eval (fl (rb s) o') /\ f_dev (fl b o') = f_dev (fl (rb s) o') /\ f_res (fl b o') = f_res (fl (rb s) o') /\ f_dres (fl b o') = f_dres (fl (rb s) o')).
    { intros o'. destruct (Nat.eq_dec o' o) as [->|Ne]; [rewrite Fe; auto|rewrite Fo; auto]. }
    assert (Vm : forall o', vis (rb s) o' -> vis b o').
    { intros o' V. destruct (Nat.eq_dec o' o) as [->|Ne]; [now rewrite Fe|now rewrite Fo]. }
    exists (up s b). split; [|split; [|split; [|split]]].
    + intros [|f] Hf; [lia|]. cbn [MatRev.trav]. unfold rbind. unfold rl at 1, getf at 1. rewrite Vo.
      replace (RSt (rb s) (rnc s) (roc s) (rcnt s) (rcl s)) with s by (destruct s; reflexivity). rewrite rl_vis. fold b.
      destruct (g_kind G o); try tauto; reflexivity.
    + constructor; cbn [up rb rnc roc]; try apply H.
      * intros o'. destruct (Fl o') as (-> & -> & _). intros Q. apply Vm. now apply (gd_fi H).
      * intros o' Bo. pose proof (gd_pi H Bo) as Q. destruct (Fl o') as (E1 & _ & E2 & _). rewrite E1, E2.
        pose proof (HP (proj1 Bo)) as Hl'. unfold is_leaf in Hl'. destruct (g_kind G o'); try tauto; exact Q.
      * intros o1 id e y o' B1 Hk. exfalso. pose proof (HP (proj1 B1)) as Hl'. unfold is_leaf in Hl'. now rewrite Hk in Hl'.
      * apply Vm, (gd_F H).
    + eapply agree_keep; [exact Ag|reflexivity|]. split; [now apply grew_same|]; intros w q _ E; auto.
    + constructor; cbn [up rb rnc roc]; auto.
      * intros o'. destruct (Fl o') as (-> & _). auto.
      * intros o'. destruct (Fl o') as (_ & -> & _ & ->). auto.
      * intros o' Nb. apply Fo. intros ->. apply Nb. now apply U_below.
      * split; [now apply grew_same|]; intros w q _ E; auto.
    + cbn [up rb]. now rewrite Fe.
Qed.

Lemma sub_bin k id l r : sub (MBin k id l r) -> sub l /\ sub r /\ (forall i, In i (nodes l) -> ~ In i (nodes r)) /\ ~ In id (nodes l) /\ ~ In id (nodes r).
Proof.
  intros (H1 & H2 & H3 & H4 & H5). assert (Q5 : forall i, In i (nodes l ++ nodes r) -> i <> id0).
  { intros i Hi ->. specialize (H5 (or_intror Hi)). injection H5 as _ E5 _ _. inversion H2; subst. contradiction. }
  simpl in *. inversion H2 as [|? ? Ni Nd]; subst. destruct (NoDup_app_inv Nd) as (Nl & Nr & Dj). rewrite in_app_iff in Ni. rewrite svars_bin in H4.
  split; [|split; [|split; [exact Dj|tauto]]].
  - split; [intros o Ho; apply H1, in_or_app; auto|]. split; [exact Nl|]. split; [intros i Hi; apply H3; right; apply in_or_app; auto|]. split; [intros o Ho; apply H4, in_or_app; auto|]. intros Q. elim (Q5 id0); [apply in_or_app; auto|reflexivity].
  - split; [intros o Ho; apply H1, in_or_app; auto|]. split; [exact Nr|]. split; [intros i Hi; apply H3; right; apply in_or_app; auto|]. split; [intros o Ho; apply H4, in_or_app; auto|]. intros Q. elim (Q5 id0); [apply in_or_app; auto|reflexivity].
Qed.
Lemma sub_un k id a : sub (MUn k id a) -> sub a /\ ~ In id (nodes a).
Proof.
  intros (H1 & H2 & H3 & H4 & H5). assert (Q5 : ~ In id0 (nodes a)) by (intros Q; specialize (H5 (or_intror Q)); discriminate).
  simpl in *. inversion H2; subst. split; [|auto]. rewrite svars_un in H4. split; [auto|]. split; [auto|]. split; [auto|]. split; [intros o Ho; apply H4, in_or_app; auto|]. intros Q. now elim Q5.
Qed.
Lemma op_ok e : sub e -> (forall i, In i (nodes e) -> In i (nodes a0)) -> operand_ok e.
Proof. intros (H & _) Hn. destruct e; simpl in *; auto. Qed.
Lemma sub_plain e : sub e -> plain G e.
Proof. intros (H & _) o Ho. apply HP. now apply H. Qed.
Lemma bin_adj_pos k c v w : 0 < mr c -> 0 < mc c -> 0 < mr v -> 0 < mc v -> 0 < mr w -> 0 < mc w ->
  0 < mr (fst (bin_adj k c v w)) /\ 0 < mc (fst (bin_adj k c v w)) /\ 0 < mr (snd (bin_adj k c v w)) /\ 0 < mc (snd (bin_adj k c v w)).
Proof. destruct k; simpl; auto. Qed.
Lemma un_adj_pos k c v : 0 < mr c -> 0 < mc c -> 0 < mr v -> 0 < mc v -> 0 < mr (un_adj rho k c v) /\ 0 < mc (un_adj rho k c v).
Proof. destruct k; cbn [un_adj mtr mmap mmul minv mhad mzip mr mc]; auto. Qed.

Theorem trav_ok e : forall s ac W v, good s -> agree s ac W -> sub e -> (forall i, In i (nodes e) -> In i (nodes a0)) -> mval G rho e v ->
  fresh ac (sub_ids e) -> (forall i, In i (nodes e) -> outside W i) -> dims_ok ac ->
  (forall c, ac (key_of G e) = Some c -> has_dims G e c) ->
  exists n s' W', (forall f, n <= f -> trav f id0 e s = EOk (tt, s')) /\ good s' /\ agree s' (vtr e ac) W' /\
    (forall w, W' w -> W w \/ exists i k, w = ONode i k /\ In i (nodes e) /\ ac (key_of G e) <> None) /\
    dims_ok (vtr e ac) /\ ext s s' /\ (forall o, In o (leaves e) -> vis (rb s') o).
Proof.
  induction e as [o|k id l IHl r IHr|k id a IHa]; intros s ac W v H Ag Hs Hn Hv Hf Hw Hd Hc.
  - destruct (trav_leaf (o := o) H Ag (proj1 Hs o (or_introl eq_refl))) as (s' & E & H' & Ag' & X & V).
    exists 1, s', W. split; [exact E|]. split; [exact H'|]. split; [exact Ag'|]. split; [auto|]. split; [exact Hd|]. split; [exact X|]. intros o' [<-|[]]. exact V.
  - inversion Hv as [| |k' id' l' r' vl vr Hl Hr Hb|]; subst.
    destruct (sub_bin Hs) as (Sl & Sr & Dj & Nl & Nr).
    assert (Hnl : forall i, In i (nodes l) -> In i (nodes a0)) by (intros i Q; apply Hn; simpl; right; apply in_or_app; auto).
    assert (Hnr : forall i, In i (nodes r) -> In i (nodes a0)) by (intros i Q; apply Hn; simpl; right; apply in_or_app; auto).
    assert (Hhid : host id = Some F) by (apply Hs; simpl; auto).
    simpl in Hf.
    assert (Fl : forall i, In i (nodes l) -> ac (KNode i) = None) by (intros i Q; apply Hf, in_or_app; auto).
    assert (Fr : forall i, In i (nodes r) -> ac (KNode i) = None) by (intros i Q; apply Hf, in_or_app; auto).
    assert (TN : forall (e : mexp T) i, In i (top_ids e) -> In i (nodes e)) by (intros e i; destruct e; simpl; tauto).
    assert (Kd : forall e ac', sub e -> (forall i, In i (nodes e) -> ac' (KNode i) = None) -> dims_ok ac' -> forall c, ac' (key_of G e) = Some c -> has_dims G e c).
    { intros e ac' Se Q D c. destruct e as [o| |]; simpl in *; [intros E; exact (D o c (U_KU (proj1 Se o (or_introl eq_refl))) E)|rewrite Q by auto; discriminate..]. }
    (* first visit of the operands *)
    destruct (IHl s ac W vl H Ag Sl Hnl Hl) as (n1 & s1 & W1 & E1 & G1 & A1 & B1 & D1 & X1 & V1); auto.
    { intros i Q. apply Fl. now apply sub_nodes. }
    { intros i Q. apply Hw. simpl. right. apply in_or_app. auto. }
    { exact (Kd l ac Sl Fl Hd). }
    rewrite (vtr_skip (fun i Q => Fl i (TN l i Q))) in A1, D1.
    assert (B1' : forall w, W1 w -> W w).
    { intros w Q. destruct (B1 _ Q) as [Q'|(i & j & _ & Q1 & Q2)]; [exact Q'|]. exfalso. apply Q2.
      destruct l; simpl in *; [tauto|apply Fl; auto..]. }
    destruct (IHr s1 ac W1 vr G1 A1 Sr Hnr Hr) as (n2 & s2 & W2 & E2 & G2 & A2 & B2 & D2 & X2 & V2); auto.
    { intros i Q. apply Fr. now apply sub_nodes. }
    { intros i Q j Q'. apply (Hw i) with j; [simpl; right; apply in_or_app; auto|auto]. }
    { exact (Kd r ac Sr Fr Hd). }
    rewrite (vtr_skip (fun i Q => Fr i (TN r i Q))) in A2, D2.
    assert (B2' : forall w, W2 w -> W w).
    { intros w Q. destruct (B2 _ Q) as [Q'|(i & j & _ & Q1 & Q2)]; [auto|]. exfalso. apply Q2.
      destruct r; simpl in *; [tauto|apply Fr; auto..]. }
    pose proof (ext_trans X1 X2) as X12.
    destruct (ac (KNode id)) as [c|] eqn:Ec.
    + (* adjoint present *)
      assert (Dc : has_dims G (MBin k id l r) c) by (apply Hc; exact Ec).
      destruct (ag_some Ag Ec) as (wc0 & pc0 & _ & Cc0 & _).
      destruct (ag_some A2 Ec) as (wc & pc & Hwc & Cc & Hpc).
      assert (pc0 = pc) by (rewrite (x_cache X12 Cc0) in Cc; congruence). subst pc0.
      destruct (mval_dims WF Hl) as [L1 L2]. destruct (mval_dims WF Hr) as [R1 R2]. destruct Dc as [Dc1 Dc2]. cbn [rows cols] in Dc1, Dc2.
      destruct (@bin_phase_ok k id l r c vl vr s2 ac W2 pc wc) as (n3 & b3 & E3 & G3 & A3 & X3 & (p1 & At1) & (p2 & At2)); auto; try congruence.
      { intros j Q. apply (Hw id) with j; simpl; auto. }
      destruct (mval_pos WF Hl) as [PL1 PL2]. destruct (mval_pos WF Hr) as [PR1 PR2].
      assert (PC1 : 0 < mr c) by congruence. assert (PC2 : 0 < mc c) by congruence.
      destruct (bin_adj_pos k PC1 PC2 PL1 PL2 PR1 PR2) as (PA1 & PA2 & PA3 & PA4).
      assert (Vl : vl = pval G rho l) by (apply mval_plain; [now apply sub_plain|exact Hl]).
      assert (Vr : vr = pval G rho r) by (apply mval_plain; [now apply sub_plain|exact Hr]).
      destruct (@bin_adj_dims T N G k l r c vl vr (conj L1 L2) (conj R1 R2) Hb Dc1 Dc2) as [Al Ar].
      set (dl := fst (bin_adj k c vl vr)) in *. set (dr := snd (bin_adj k c vl vr)) in *.
      set (ac2 := aadd (aadd ac (key_of G l) dl) (key_of G r) dr).
      assert (Hd1 : dims_ok (aadd ac (key_of G l) dl)) by (apply dims_aadd; auto).
      assert (Hd2 : dims_ok ac2) by (apply dims_aadd; auto).
      assert (Sd : forall e (u w : mat), has_dims G e u -> has_dims G e w -> same_dims u w) by (intros e u w [] []; split; congruence).
      assert (O1 : fst (bin_outs k) <> 0) by (destruct k; discriminate). assert (O2 : snd (bin_outs k) <> 0) by (destruct k; discriminate).
      assert (O3 : fst (bin_outs k) <> snd (bin_outs k)) by (destruct k; discriminate).
      assert (Ow : outside W2 id) by (intros j Q; apply (Hw id) with j; simpl; auto).
      destruct (@contribute2 (up s2 b3) ac W2 id (fst (bin_outs k)) (snd (bin_outs k)) p1 p2 dl dr l r) as (s4 & E4 & G4 & A4 & X4); auto.
      { now apply op_ok. }
      { now apply op_ok. }
      { intros u Eu. apply (Sd l); [|exact Al]. exact (Kd l ac Sl Fl Hd u Eu). }
      { intros u Eu. apply (Sd r); [|exact Ar]. apply (Kd r (aadd ac (key_of G l) dl) Sr); auto.
        intros i Q. rewrite aadd_node; [auto|]. intros Q'. exact (Dj i Q' Q). }
      fold ac2 in A4. set (W4 := plus (plus W2 (ONode id (fst (bin_outs k)))) (ONode id (snd (bin_outs k)))) in *.
      assert (K2 : forall i, ~ In i (top_ids l) -> ~ In i (top_ids r) -> ac2 (KNode i) = ac (KNode i)) by (intros i Q1 Q2; unfold ac2; now rewrite !aadd_top).
      assert (Nsl : NoDup (nodes l)) by apply Sl. assert (Nsr : NoDup (nodes r)) by apply Sr.
      assert (OutW4 : forall i, In i (nodes l ++ nodes r) -> outside W4 i).
      { intros i Q j Q'. assert (i <> id) by (intros ->; apply in_app_or in Q; tauto).
        destruct Q' as [[Q'|Q']|Q']; [|congruence..]. apply (Hw i) with j; [simpl; auto|auto]. }
      destruct (IHl s4 ac2 W4 vl G4 A4 Sl Hnl Hl) as (n5 & s5 & W5 & E5 & G5 & A5 & B5 & D5 & X5 & V5); auto.
      { intros i Q. rewrite K2; [apply Fl; now apply sub_nodes| |].
        - intros Q'. exact (top_sub Nsl Q' Q).
        - intros Q'. apply (Dj i); [now apply sub_nodes|auto]. }
      { intros i Q. apply OutW4. apply in_or_app. auto. }
      { intros c' Ec'. destruct l as [o| |]; [apply (Hd2 o c'); [apply U_KU, Sl; simpl; auto|exact Ec']| |];
          (unfold ac2 in Ec'; rewrite aadd_other, aadd_same in Ec'; [|intros E; symmetry in E; apply key_of_id in E; apply (Dj _ (or_introl eq_refl) E)];
           cbn [key_of] in Ec'; rewrite Fl in Ec' by (simpl; auto); injection Ec' as <-; exact Al). }
      assert (K3 : forall i, In i (nodes r) -> vtr l ac2 (KNode i) = ac2 (KNode i)).
      { intros i Q. apply vtr_node. intros Q'. apply (Dj i); [now apply sub_nodes|exact Q]. }
      destruct (IHr s5 (vtr l ac2) W5 vr G5 A5 Sr Hnr Hr) as (n6 & s6 & W6 & E6 & G6 & A6 & B6 & D6 & X6 & V6); auto.
      { intros i Q. rewrite K3 by now apply sub_nodes. rewrite K2; [apply Fr; now apply sub_nodes| |].
        - intros Q'. apply (Dj i); [auto|now apply sub_nodes].
        - intros Q'. exact (top_sub Nsr Q' Q). }
      { intros i Q j Q'. destruct (B5 _ Q') as [Q''|(i' & j' & [= <- <-] & Q'' & _)]; [apply (OutW4 i) with j; [apply in_or_app; auto|auto]|]. exact (Dj i Q'' Q). }
      { intros c' Ec'. destruct r as [o| |]; [apply (D5 o c'); [apply U_KU, Sr; simpl; auto|exact Ec']| |];
          (cbn [key_of] in Ec'; rewrite K3 in Ec' by (simpl; auto); unfold ac2 in Ec'; cbn [key_of] in Ec'; rewrite aadd_same in Ec';
           rewrite aadd_node in Ec' by (intros E; apply (Dj _ E); simpl; auto); rewrite Fr in Ec' by (simpl; auto); injection Ec' as <-; exact Ar). }
      exists (Datatypes.S (max (max n1 n2) (max n3 (max n5 n6)))), s6, W6.
      assert (Ev : vtr (MBin k id l r) ac = vtr r (vtr l ac2)).
      { cbn [RevVals.vtr]. rewrite Ec. cbv zeta. rewrite <- Vl, <- Vr. reflexivity. }
      rewrite Ev. split; [|split; [exact G6|split; [exact A6|split; [|split; [exact D6|split]]]]].
      * intros [|f] Hfu; [lia|]. cbn [MatRev.trav]. unfold rbind at 1. unfold find_nc at 1. rewrite Cc0.
        unfold rbind at 1. unfold rbind at 1. rewrite E1 by lia. unfold rbind at 1. rewrite E2 by lia.
        match goal with |- context [rbind (match k with BSum => _ | BSub => _ | BProd => _ | BHad => _ end) ?kk] =>
          change (match rbind (bin_phase f k id pc l r) kk s2 with EOk (a, s') => rbind (trav f id0 l) (fun _ => trav f id0 r) s' | ERejected => ERejected | EUndef => EUndef | ENoFuel => ENoFuel end = EOk (tt, s6)) end.
        unfold rbind at 1. rewrite E3 by lia. rewrite E4. unfold rbind. rewrite E5 by lia. apply E6. lia.
      * intros w Q. destruct (B6 _ Q) as [Q'|(i & j & -> & Q' & _)].
        2: right; exists i, j; split; [reflexivity|]; split; [simpl; right; apply in_or_app; auto|simpl; congruence].
        destruct (B5 _ Q') as [Q2|(i & j & -> & Q2 & _)].
        2: right; exists i, j; split; [reflexivity|]; split; [simpl; right; apply in_or_app; auto|simpl; congruence].
        destruct Q2 as [[Q2|Q2]|Q2]; [left; auto|right; do 2 eexists; split; [exact Q2|]; split; [simpl; auto|simpl; congruence]..].
      * eapply ext_trans; [exact X12|]. eapply ext_trans; [exact X3|]. eapply ext_trans; [exact X4|]. eapply ext_trans; [exact X5|exact X6].
      * simpl. intros o Ho. apply in_app_or in Ho. destruct Ho as [Ho|Ho]; [apply (x_vis X6); auto|auto].
    + (* no adjoint *)
      exists (Datatypes.S (max n1 n2)), s2, W2.
      assert (Ev : vtr (MBin k id l r) ac = ac) by (cbn [RevVals.vtr]; now rewrite Ec).
      rewrite Ev. split; [|split; [exact G2|split; [exact A2|split; [|split; [exact Hd|split; [exact X12|]]]]]].
      * intros [|f] Hfu; [lia|]. cbn [MatRev.trav]. unfold rbind at 1. unfold find_nc at 1. rewrite (ag_none Ag Ec).
        unfold rbind at 1, rret at 1. unfold rbind. rewrite E1 by lia. apply E2. lia.
      * intros w Q. left. auto.
      * simpl. intros o Ho. apply in_app_or in Ho. destruct Ho as [Ho|Ho]; [apply (x_vis X2); auto|auto].
  - inversion Hv as [| | |k' id' a' va Ha Ud]; subst.
    destruct (sub_un Hs) as (Sa & Na).
    assert (Hna : forall i, In i (nodes a) -> In i (nodes a0)) by (intros i Q; apply Hn; simpl; auto).
    assert (Hhid : host id = Some F) by (apply Hs; simpl; auto).
    simpl in Hf. change (forall i, In i (nodes a) -> ac (KNode i) = None) in Hf.
    assert (TN : forall (e : mexp T) i, In i (top_ids e) -> In i (nodes e)) by (intros e i; destruct e; simpl; tauto).
    assert (Kd : forall c, ac (key_of G a) = Some c -> has_dims G a c).
    { intros c. destruct a as [o| |]; simpl in *; [intros E; exact (Hd o c (U_KU (proj1 Sa o (or_introl eq_refl))) E)|rewrite Hf by auto; discriminate..]. }
    destruct (IHa s ac W va H Ag Sa Hna Ha) as (n1 & s1 & W1 & E1 & G1 & A1 & B1 & D1 & X1 & V1); auto.
    { intros i Q. apply Hf. now apply sub_nodes. }
    { intros i Q. apply Hw. simpl. auto. }
    rewrite (vtr_skip (fun i Q => Hf i (TN a i Q))) in A1, D1.
    assert (B1' : forall w, W1 w -> W w).
    { intros w Q. destruct (B1 _ Q) as [Q'|(i & j & _ & Q1 & Q2)]; [exact Q'|]. exfalso. apply Q2.
      destruct a; simpl in *; [tauto|apply Hf; auto..]. }
    destruct (ac (KNode id)) as [c|] eqn:Ec.
    + assert (Dc : has_dims G (MUn k id a) c) by (apply Hc; exact Ec).
      destruct (ag_some Ag Ec) as (wc0 & pc0 & _ & Cc0 & Hpc0).
      destruct (ag_some A1 Ec) as (wc & pc & Hwc & Cc & Hpc).
      assert (pc0 = pc) by (rewrite (x_cache X1 Cc0) in Cc; congruence). subst pc0.
      destruct (mval_dims WF Ha) as [L1 L2].
      destruct (mval_pos WF Ha) as [PL1 PL2]. 
      assert (PC : 0 < mr c /\ 0 < mc c).
      { destruct Dc as [Dc1 Dc2]. destruct k; first [change (mr c = 1) in Dc1; change (mc c = 1) in Dc2; split; lia | change (mr c = cols G a) in Dc1; change (mc c = rows G a) in Dc2; split; congruence | change (mr c = rows G a) in Dc1; change (mc c = cols G a) in Dc2; split; congruence]. }
      destruct (@un_phase_ok k id a c va s1 ac W1 pc wc) as (n3 & b3 & E3 & G3 & A3 & X3 & (p1 & At1) & Ewt); auto; try tauto.
      { intros j Q. apply (Hw id) with j; simpl; auto. }
      { intros Rk. destruct Dc as [Dc1 Dc2]. destruct k; try discriminate Rk; [| | |exact Ud]; change (mr c = rows G a) in Dc1; change (mc c = cols G a) in Dc2.
        - split; congruence.
        - split; congruence.
        - split; [split; congruence|exact Ud]. }
      destruct (un_adj_pos k (proj1 PC) (proj2 PC) PL1 PL2) as (PA1 & PA2).
      assert (Vl : va = pval G rho a) by (apply mval_plain; [now apply sub_plain|exact Ha]).
      pose proof (@un_adj_dims T N G rho k id a c va (conj L1 L2) Ud Dc) as Al.
      set (dl := un_adj rho k c va) in *. set (wt := un_weight k c va) in *.
      set (ac2 := uadd G rho k wt (aadd ac (key_of G a) dl)).
      assert (Hd2' : dims_ok (aadd ac (key_of G a) dl)) by (apply dims_aadd; auto).
      assert (O1 : un_out k <> 0) by (destruct k; discriminate).
      assert (O2 : un_out k < 20) by (destruct k; simpl; lia).
      assert (Ow : outside W1 id) by (intros j Q; apply (Hw id) with j; simpl; auto).
      assert (Hu : forall v, In v (uvars k) -> In v (svars a0)).
      { intros v Q. destruct Hs as (_ & _ & _ & Q'). apply Q'. rewrite svars_un. apply in_or_app. auto. }
      destruct (@contribute1 (up s1 b3) ac W1 id (un_out k) p1 dl a (scalar_part S B G rho id0 id k wt)
        (fun ac' W' => ac' = ac2 /\ dims_ok ac2 /\ forall w, W' w -> W1 w \/ exists i, w = ONode id i)) as (s4 & ac4 & W4 & E4 & G4 & A4 & X4 & Eac & Hd2 & Hw4); auto.
      { now apply op_ok. }
      { intros u Eu. destruct (Kd u Eu), Al. split; congruence. }
      { intros t Gt At. assert (Pw : forall w, plus W1 (ONode id (un_out k)) w -> W1 w \/ exists i, w = ONode id i) by (intros w [Q|Q]; eauto).
        assert (Sc : forall so vs, (forall v, In v vs -> In v (svars a0)) -> exists s2 ac' W', scalar_entries S B G rho id0 id 20 wt so vs t = EOk (tt, s2) /\ good s2 /\ agree s2 ac' W' /\ ext t s2 /\
          ac' = sadd G rho wt so vs (aadd ac (key_of G a) dl) /\ dims_ok (sadd G rho wt so vs (aadd ac (key_of G a) dl)) /\ forall w, W' w -> W1 w \/ exists i, w = ONode id i).
        { intros so vs Q. destruct (@scalar_entries_ok wt so id vs Hhid Q 20 t _ _ Gt At Hd2') as (s2 & W2 & Z1 & Z2 & Z3 & Z4 & Z5 & Z6); [discriminate| |].
          - intros i Hi [Q'|[= Q']]; [exact (Ow i Q')|lia].
          - exists s2, (sadd G rho wt so vs (aadd ac (key_of G a) dl)), W2. repeat (split; [assumption|]). split; [reflexivity|]. split; [assumption|].
            intros w Q'. destruct (Z6 w Q') as [Q2|Q2]; auto. }
        destruct k; try (exists t, (aadd ac (key_of G a) dl), (plus W1 (ONode id (un_out k))); split; [reflexivity|]; split; [exact Gt|]; split; [exact At|]; split; [apply ext_refl|]; split; [reflexivity|]; split; [exact Hd2'|exact Pw]; fail).
        all: try (exists t; do 2 eexists; split; [reflexivity|]; split; [exact Gt|]; split; [exact At|]; split; [apply ext_refl|]; split; [reflexivity|]; split; [exact Hd2'|exact Pw]; fail).
        all: exact (Sc s0 vs Hu). }
      subst ac4.
      assert (Nsa : NoDup (nodes a)) by apply Sa.
      destruct (IHa s4 ac2 W4 va G4 A4 Sa Hna Ha) as (n5 & s5 & W5 & E5 & G5 & A5 & B5 & D5 & X5 & V5); auto.
      { intros i Q. unfold ac2. rewrite uadd_node. rewrite aadd_top; [apply Hf; now apply sub_nodes|]. intros Q'. exact (top_sub Nsa Q' Q). }
      { intros i Q j Q'. destruct (Hw4 _ Q') as [Q2|(j' & [= Q2 _])]; [apply (Hw i) with j; simpl; auto|congruence]. }
      { intros c' Ec'. destruct a as [o| |]; [apply (Hd2 o c'); [apply U_KU, Sa; simpl; auto|exact Ec']| |];
          (unfold ac2 in Ec'; cbn [key_of] in Ec'; rewrite uadd_node in Ec'; rewrite aadd_same in Ec'; cbn [key_of] in Ec'; rewrite Hf in Ec' by (simpl; auto); injection Ec' as <-; exact Al). }
      exists (Datatypes.S (max n1 (max n3 n5))), s5, W5.
      assert (Ev : vtr (MUn k id a) ac = vtr a ac2).
      { cbn [RevVals.vtr]. rewrite Ec. rewrite <- Vl. reflexivity. }
      rewrite Ev. split; [|split; [exact G5|split; [exact A5|split; [|split; [exact D5|split]]]]].
      * set (z := match k with UDet _ _ => (mf c 0 0, (0, 0)) | USSumE _ _ => (n0, (mr c, mc c)) | _ => (n0, (0, 0)) end).
        assert (Ez : adj_info k pc s = EOk (z, s)).
        { assert (Es : RSt (St (mm (rb s)) (ar (rb s)) (fl (rb s))) (rnc s) (roc s) (rcnt s) (rcl s) = s) by (destruct s as [[m ar0 fl0] u1 u2 u3 u4]; reflexivity).
          unfold z, adj_info. destruct k; try reflexivity; unfold rbind, rl, lift, rret.
          - destruct Hpc0 as [_ ((kd & sp & bb & Hg & _) & _)]. unfold deref. rewrite Hg. cbn [o_rows o_cols]. now rewrite Es.
          - rewrite (holds_first (sl_tame (gd_slots H)) (proj2 Hpc0)). now rewrite Es. }
        assert (E3z : forall f, n3 <= f -> un_phase f k id z pc a s1 = EOk (tt, up s1 b3)).
        { intros f' Hf'. rewrite <- (E3 f' Hf'). unfold z. destruct k; reflexivity. }
        intros [|f] Hfu; [lia|]. cbn [MatRev.trav]. unfold rbind at 1. unfold find_nc at 1. rewrite Cc0.
        unfold rbind at 1. unfold rbind at 1. rewrite Ez. unfold rbind at 1. rewrite E1 by lia.
        match goal with |- context [rbind (if ureads k then _ else _) ?kk] =>
          change (match rbind (un_phase f k id z pc a) kk s1 with EOk (a', s') => trav f id0 a s' | ERejected => ERejected | EUndef => EUndef | ENoFuel => ENoFuel end = EOk (tt, s5)) end.
        unfold rbind at 1. rewrite E3z by lia. unfold rbind at 1. rewrite Ewt. rewrite E4. apply E5. lia.
      * intros w Q. destruct (B5 _ Q) as [Q'|(i & j & -> & Q' & _)].
        2: right; exists i, j; split; [reflexivity|]; split; [simpl; auto|simpl; congruence].
        destruct (Hw4 _ Q') as [Q2|(j & Q2)]; [left; auto|right; do 2 eexists; split; [exact Q2|]; split; [simpl; auto|simpl; congruence]].
      * eapply ext_trans; [exact X1|]. eapply ext_trans; [exact X3|]. eapply ext_trans; [exact X4|exact X5].
      * simpl. exact V5.
    + exists (Datatypes.S n1), s1, W1.
      assert (Ev : vtr (MUn k id a) ac = ac) by (cbn [RevVals.vtr]; now rewrite Ec).
      rewrite Ev. split; [|split; [exact G1|split; [exact A1|split; [|split; [exact Hd|split; [exact X1|exact V1]]]]]].
      * intros [|f] Hfu; [lia|]. cbn [MatRev.trav]. unfold rbind at 1. unfold find_nc at 1. rewrite (ag_none Ag Ec).
        unfold rbind at 1, rret at 1. apply E1. lia.
      * intros w Q. left. auto.
Qed.

(** *** The root product *)
Definition ac0 : acache (T := T) := fun _ => None.
(** Adjoints of the two operands of the root product expr * Eye. *)
Definition seeds (v : mat) : acache := aadd (aadd ac0 (key_of G a0) (mtr (leaf_mat G rho y0))) (KMat (g_nidx G y0)) (mtr v).
Definition adjoints (v : mat) : acache := vtr a0 (seeds v).
Lemma root_run (b : st (T := T)) p q v w : holds (mm b) p v -> holds (mm b) q w ->
  exists env' u1 u2, vrun owner_eq (contents b) (root_back (T := T) id0 p q) (fun _ => None) = Some env' /\
    env' (ONode id0 7) = Some u1 /\ meq u1 (mtr v) /\ env' (ONode id0 6) = Some u2 /\ meq u2 (mtr w).
Proof.
  intros Hp Hq. destruct (contents_meq Hp) as [_ Mp], (contents_meq Hq) as [_ Mq].
  do 3 eexists. split; [eapply vrun_step; [reflexivity|]; eapply vrun_step; [reflexivity|]; reflexivity|].
  split; [rewrite vset_other by discriminate; apply vset_same|]. split; [exact (meq_tr Mp)|]. split; [apply vset_same|exact (meq_tr Mq)].
Qed.
Lemma root_facts p q : NoDup (dsts (root_back (T := T) id0 p q)) /\ Forall no_self (root_back (T := T) id0 p q) /\
  (forall d, In d (dsts (root_back (T := T) id0 p q)) -> exists k, d = ONode id0 k) /\ (forall d op, In (d, op) (root_back (T := T) id0 p q) -> is_kron op = false) /\
  (forall z, uses_ptr (root_back (T := T) id0 p q) z -> z = p \/ z = q).
Proof.
  split; [|split; [|split; [|split]]].
  - cbn; repeat constructor; simpl; intuition discriminate.
  - cbn; repeat constructor; unfold no_self; simpl; intuition discriminate.
  - cbn; intros d H; repeat (destruct H as [<-|H]; [eauto|]); destruct H.
  - cbn; intros d op H; repeat (destruct H as [[= <- <-]|H]; [reflexivity|]); destruct H.
  - intros z (i & Hi & Hz). cbn in Hi; repeat (destruct Hi as [<-|Hi]; [simpl in Hz; intuition congruence|]); destruct Hi.
Qed.
Lemma y0_U : U y0.
Proof. unfold U. simpl. apply in_or_app. simpl. auto. Qed.
Lemma sub_a0 : sub a0.
Proof.
  split; [|split; [exact (proj2 root_ids)|]].
  - intros o Ho. unfold U. simpl. apply in_or_app. auto.
  - split; [intros i Hi; apply ids_host; auto|]. split; [auto|]. intros Q. elim (proj1 root_ids Q).
Qed.
Lemma sub_y0 : sub (MLeaf y0).
Proof. split; [|split; [constructor|split; [intros i []|split; [intros i []|intros []]]]]. intros o [<-|[]]. exact y0_U. Qed.
Lemma sub_item : sub (item id0 a0 y0).
Proof.
  split; [auto|]. destruct (wf_nodes WF HF) as [Nd Hh]. split; [exact Nd|]. split; [exact Hh|]. split; [|auto]. intros o. unfold item. rewrite svars_bin, in_app_iff. intros [Q|[]]. exact Q.
Qed.

(** The pass below the root, from a state in which nothing below is visited. *)
Definition below_root (f : nat) : R unit :=
  rbind (trav f id0 a0) (fun _ => rbind (trav f id0 (MLeaf y0)) (fun _ =>
  rbind (rl (eval S B G rho f a0)) (fun p => rbind (rl (eval S B G rho f (MLeaf y0))) (fun q =>
  rbind (rl (exec S B (root_back (T := T) id0 p q))) (fun _ =>
  rbind (contribute B G ord id0 id0 [(a0, 6); (MLeaf y0, 7)] (rret tt)) (fun _ =>
  rbind (trav f id0 a0) (fun _ => trav f id0 (MLeaf y0)))))))).
Hypothesis SQ : g_rows G F = g_cols G F.
Lemma below_root_ok s v : good s -> rnc s id0 = [] -> mval G rho a0 v ->
  exists n s' W, (forall f, n <= f -> below_root f s = EOk (tt, s')) /\ good s' /\ agree s' (adjoints v) W /\ dims_ok (adjoints v) /\ ext s s' /\
    (forall o, U o -> vis (rb s') o).
Proof.
  intros H Hc Hv.
  assert (Ag0 : agree s ac0 (fun _ => False)).
  { constructor; rewrite ?Hc; simpl; try discriminate; try tauto. }
  assert (Dk0 : dims_ok ac0) by (intros o u _; discriminate).
  assert (Hn : forall i, In i (nodes a0) -> In i (nodes a0)) by auto.
  destruct (@trav_ok a0 s ac0 (fun _ => False) v) as (n1 & s1 & W1 & E1 & G1 & A1 & B1 & _ & X1 & V1); auto using sub_a0.
  { intros i _. reflexivity. }
  { intros i _ j []. }
  { intros c. discriminate. }
  rewrite vtr_skip in A1 by reflexivity.
  assert (W1n : forall w, ~ W1 w).
  { intros w Q. destruct (B1 _ Q) as [[]|(i & k & _ & _ & Q')]. apply Q'. reflexivity. }
  destruct (trav_leaf G1 A1 y0_U) as (s2 & E2 & G2 & A2 & X2 & V2).
  assert (Hy : mval G rho (MLeaf y0) (leaf_mat G rho y0)) by (apply mval_leaf; apply HP; exact y0_U).
  destruct (root_ids) as [Ni Nd].
  assert (Hh0 : host id0 = Some F) by (apply ids_host; auto).
  destruct (@eval2 a0 (MLeaf y0) v (leaf_mat G rho y0) s2 ac0 W1 id0 G2 A2 sub_a0 sub_y0) as (n3 & p & q & b & b3 & E3 & G3 & A3 & X3 & K3 & (wp & Hp & Np) & (wq & Hq & Nq) & V3); auto.
  destruct (root_run (proj2 Hp) (proj2 Hq)) as (env' & u1 & u2 & Er & Eu1 & M1 & Eu2 & M2).
  destruct (root_facts p q) as (C1 & C2 & C3 & C4 & C5).
  destruct (@exec_step (root_back (T := T) id0 p q) env' (up s2 b3) ac0 W1 id0 G3 A3 Hh0 (fun d _ => W1n d) C3 C1 C2) as (b4 & E4 & G4 & A4 & X4 & At); auto.
  { intros z Hz. destruct (C5 z Hz) as [-> | ->]; cbn [up rb]; eauto. }
  destruct (At _ _ Eu1) as (p7 & Q7 & H7). destruct (At _ _ Eu2) as (p6 & Q6 & H6).
  apply (fun Q => holds_meq Q M1) in H7. apply (fun Q => holds_meq Q M2) in H6.
  destruct (mval_dims WF Hv) as [L1 L2]. destruct (mval_pos WF Hv) as [P1 P2].
  destruct (wf_dims WF HF) as [D1 D2]. destruct (wf_eye WF HF) as (_ & Y1 & Y2). destruct (wf_pos WF y0) as [PY1 PY2].
  assert (Ha : has_dims G a0 (mtr (leaf_mat G rho y0))) by (split; cbn [mtr leaf_mat mr mc]; congruence).
  assert (Hya : has_dims G (MLeaf y0) (mtr v)) by (split; cbn [mtr mr mc]; [change (mc v = g_rows G y0)|change (mr v = g_cols G y0)]; congruence).
  assert (Hd1 : dims_ok (aadd ac0 (key_of G a0) (mtr (leaf_mat G rho y0)))) by (apply dims_aadd; auto using sub_a0).
  assert (Hd2 : dims_ok (seeds v)) by (exact (dims_aadd Hd1 sub_y0 Hya)).
  destruct (@contribute2 (up s2 b4) ac0 W1 id0 6 7 p6 p7 (mtr (leaf_mat G rho y0)) (mtr v) a0 (MLeaf y0)) as (s5 & E5 & G5 & A5 & X5); auto.
  { split; [exact Q6|exact H6]. }
  { split; [exact Q7|exact H7]. }
  { apply op_ok; [exact sub_a0|auto]. }
  { exact y0_U. }
  { discriminate. }
  { intros u Eu. destruct (Hd1 y0 u (U_KU y0_U) Eu) as [U1 U2]. split; cbn [mtr mr mc]; destruct Hya as [Z1 Z2]; cbn [mtr mr mc] in Z1, Z2;
      [change (mc v = g_rows G y0) in Z1|change (mr v = g_cols G y0) in Z2]; congruence. }
  change (aadd (aadd ac0 (key_of G a0) (mtr (leaf_mat G rho y0))) (key_of G (MLeaf y0)) (mtr v)) with (seeds v) in A5.
  assert (Sn : forall i, ~ In i (top_ids a0) -> seeds v (KNode i) = None).
  { intros i Q. unfold seeds. rewrite aadd_other by discriminate. now rewrite aadd_top. }
  destruct (@trav_ok a0 s5 (seeds v) (plus (plus W1 (ONode id0 6)) (ONode id0 7)) v) as (n6 & s6 & W6 & E6 & G6 & A6 & B6 & D6 & X6 & V6); auto using sub_a0.
  { intros i Q. apply Sn. intros Q'. exact (top_sub Nd Q' Q). }
  { intros i Q j Q'. assert (i <> id0) by (intros ->; auto). destruct Q' as [[Q'|Q']|Q']; [exact (W1n _ Q')|congruence..]. }
  { intros c Ec. revert Ec Ha Hd2. generalize sub_a0. unfold seeds. generalize a0. intros e Se Ec Ha' Hd2'.
    destruct e as [o| |]; [apply (Hd2' o c); [apply U_KU, Se; simpl; auto|exact Ec]| |];
      (cbn [key_of] in Ec; rewrite aadd_other, aadd_same in Ec by discriminate; injection Ec as <-; exact Ha'). }
  destruct (trav_leaf G6 A6 y0_U) as (s7 & E7 & G7 & A7 & X7 & V7).
  exists (Datatypes.S (max n1 (max n3 n6))), s7, W6. split; [|split; [exact G7|split; [exact A7|split; [exact D6|split]]]].
  - intros f Hf. unfold below_root. unfold rbind at 1. rewrite E1 by lia. unfold rbind at 1. rewrite E2 by lia.
    destruct (E3 f ltac:(lia)) as [E3a E3b]. unfold rbind at 1. unfold rl at 1. rewrite E3a. unfold rbind at 1. unfold rl at 1. cbn [rb]. rewrite E3b.
    unfold rbind at 1. unfold rl at 1. cbn [rb up] in *. rewrite E4.
    change (rbind (contribute B G ord id0 id0 [(a0, 6); (MLeaf y0, 7)] (rret tt)) (fun _ => rbind (trav f id0 a0) (fun _ => trav f id0 (MLeaf y0))) (up s2 b4) = EOk (tt, s7)).
    unfold rbind at 1. rewrite E5. unfold rbind at 1. rewrite E6 by lia. apply E7. lia.
  - eapply ext_trans; [exact X1|]. eapply ext_trans; [exact X2|]. eapply ext_trans; [exact X3|]. eapply ext_trans; [exact X4|].
    eapply ext_trans; [exact X5|]. eapply ext_trans; [exact X6|exact X7].
  - intros o Ho. unfold U in Ho. simpl in Ho. apply in_app_or in Ho. destruct Ho as [Ho|[<-|[]]]; [|exact V7]. apply (x_vis X7). auto.
Qed.
End RevOk.
