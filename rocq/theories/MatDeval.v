(** * Forward-mode derivatives of matrix expressions: proofs *)

From Coq Require Import List Arith Bool Lia.
From Verif Require Import Num MatMem Kernels KernelFacts KernelProofs KernelBlocks KernelMore Registry KernelStep Backend Square Slots Exec ConvProofs MatEngine MatGraph MatLeaf MatEval.
Import ListNotations.
Set Implicit Arguments.
Unset Strict Implicit.

Section Deval.
Context {T : Type} {N : Num T}.
Variable S : sched T.
Hypothesis VS : valid_sched S.
Variable B : backend (T := T).
Hypothesis BV : value_ok B.
Hypothesis KO : kron_ok B.
Variable G : graph T.
Variable host : nat -> option obj.
Variable rank : obj -> nat.
Hypothesis WF : wf_graph G host rank.
Variable rho : env T.
Variable U : obj -> Prop.
Hypothesis UC : forall o id e y o', U o -> g_kind G o = KExp id e y -> In o' (leaves (item id e y)) -> U o'.
Variable x : obj.
(** What mp_dresult of a leaf may contain before its derivative is computed, and that the derivative then is right. *)
Variable dcl : mem T -> obj -> option ptr -> Prop.
Hypothesis dcl_same : forall m m' o r, (forall p, r = Some p -> get m' p = get m p) -> dcl m o r -> dcl m' o r.
Hypothesis dcl_write : forall m r o, is_leaf G o -> tame m -> slot_ok m r -> dcl m o r ->
  exists p m1 m', pool CPU r (g_rows G o * g_rows G x) (g_cols G o * g_cols G x) m = Ok (p, m1) /\ set_derivs S G rho o x p m1 = Ok (tt, m') /\
    wrote m r p (leaf_dmat G rho x o) m' /\ dcl m' o (Some p).
Notation mat := (mat T).
Notation st := (st (T := T)).
Implicit Types (s : st) (e : mexp T).
Notation eval := (eval S B G rho).
Notation devalF := (devalF S B G rho).
Notation exec := (exec S B).
Notation vis s o := (f_vis (fl s o) = true).
Notation below := (below rank U).
Notation PI := (PI G rank rho U).
Notation VC := (VC G rank U).
Notation hosts_ok := (hosts_ok host rank).
Notation pre := (pre G host rank rho U).
Notation post := (post G host rank rho U).
Notation kept := (kept host).
Notation stable := (stable G).
Notation loc := (loc G).
Notation xr := (g_rows G x).
Notation xc := (g_cols G x).
Let BK : kron_ok B \/ kron_zeroed_ok B := or_introl KO.

(** *** Dimensions *)
Lemma mder_dims e v dv : mder G rho x e v dv -> mr dv = mr v * xr /\ mc dv = mc v * xc.
Proof.
  induction 1 as [o Hl|o id e y v dv Hk Hv IH|k id l r v dv w dw Hl IHl Hr IHr Hd|k id e v dv He IH Hd]; auto.
  - destruct IHl as [L1 L2], IHr as [R1 R2].
    destruct k; cbn [bin_dims bin_val bin_der madd msub mhad mzip mmul mkron mones meye mr mc] in *; unfold same_dims in *;
      try (split; congruence); intuition congruence.
  - destruct IH as [I1 I2]. destruct k; cbn [un_dims un_val un_der sder mfill madd mtr mmap mdtr mhad mzip mkron mones meye mmul minv mdet mr mc] in *; split; congruence.
Qed.

(** Where the derivative of an expression is. *)
Fixpoint dloc e : owner :=
  match e with
  | MLeaf o => match g_kind G o with KExp id _ _ => ONode id 1 | _ => ODres o end
  | MBin _ id _ _ => ONode id 1
  | MUn (UFun _ _) id _ => ONode id 3
  | MUn (USSum _) _ a => dloc a
  | MUn (UInv _) id _ => ONode id 6
  | MUn (UDet _ _) id _ => ONode id 8
  | MUn _ id _ => ONode id 1
  end.

(** *** Invariants *)
Definition PD (lv : nat) s : Prop := forall o, below lv o ->
  match g_kind G o with
  | KExp id e y => vis s o -> forall v dv, mder G rho x (item id e y) v dv ->
      exists p, f_dres (fl s o) = Some p /\ at_ s (ONode id 1) p dv
  | _ => ~ is_const G o -> f_dev (fl s o) = true -> exists p, at_ s (ODres o) p (leaf_dmat G rho x o)
  end.
Definition DC s : Prop := forall o, is_leaf G o -> dcl (mm s) o (ar s (ODres o)).

Record dpre (lv : nat) e s : Prop := { dp_pre : pre lv e s; dp_pd : PD lv s; dp_dc : DC s }.
Definition dkept e s (w : owner) : Prop :=
  match w with
  | ORes o => f_eval (fl s o) = true
  | ODres o => (f_dev (fl s o) = true \/ is_const G o) /\ exists p, at_ s (ODres o) p (leaf_dmat G rho x o)
  | ONode i k => ~ In i (nodes e) /\ forall o, host i = Some o -> vis s o
  end.
Record dpost (lv : nat) e s (p : ptr) (dv : mat) s' : Prop := {
  r_slots : slots (mm s') (ar s') none;
  r_fi : FI s';
  r_pi : PI lv s';
  r_vc : VC lv s';
  r_pd : PD lv s';
  r_dc : DC s';
  r_at : at_ s' (dloc e) p dv;
  r_vis : forall o, vis s o -> vis s' o;
  r_eval : forall o, f_eval (fl s o) = true -> f_eval (fl s' o) = true;
  r_dev : forall o, f_dev (fl s o) = true -> f_dev (fl s' o) = true;
  r_high : forall o, ~ below lv o -> fl s' o = fl s o;
  r_leaves : forall o, In o (leaves e) -> vis s' o;
  r_stable : match dloc e with
             | ODres o => f_dev (fl s' o) = true /\ exists p, at_ s' (ODres o) p (leaf_dmat G rho x o)
             | ONode i _ => In i (nodes e) \/ exists o, In o (leaves e) /\ host i = Some o /\ vis s' o
             | ORes _ => False
             end;
  r_frame : keeps (dkept e s) s s';
  r_sized : stable s s'
}.

Lemma dloc_0 e : match dloc e with ONode _ k => k <> 0 | ORes _ => False | ODres _ => True end.
Proof.
  induction e as [o|k id l _ r _|k id a IH]; simpl; auto.
  - destruct (g_kind G o); auto.
  - destruct k; auto.
Qed.

Lemma PD_keep lv s s' : PD lv s -> (forall o, below lv o -> f_dev (fl s' o) = f_dev (fl s o) /\ f_dres (fl s' o) = f_dres (fl s o)) ->
  (forall o, ~ is_leaf G o -> below lv o -> f_vis (fl s' o) = f_vis (fl s o)) ->
  keeps (fun w => exists o, below lv o /\ w = dloc (MLeaf o)) s s' -> PD lv s'.
Proof.
  intros H Ef Ev K o Bo. specialize (H o Bo). destruct (Ef o Bo) as [-> ->].
  assert (Lo : exists o', below lv o' /\ dloc (MLeaf o) = dloc (MLeaf o')) by (exists o; auto). simpl in Lo.
  specialize (Ev o). unfold is_leaf in Ev.
  destruct (g_kind G o) as [| | | |id e y] eqn:Ek.
  1-4: intros Nc Q; destruct (H Nc Q) as (p & Hp); exists p; eapply keeps_at; [exact K|exact Lo|exact Hp].
  rewrite Ev by auto.
  intros Q v dv Hv. destruct (H Q v dv Hv) as (p & E1 & Hp). exists p. split; [exact E1|]. eapply keeps_at; [exact K|exact Lo|exact Hp].
Qed.
Lemma DC_keep s s' : slots (mm s) (ar s) none -> DC s -> (forall o, is_leaf G o -> ar s' (ODres o) = ar s (ODres o)) ->
  (forall o p, ar s (ODres o) = Some p -> get (mm s') p = get (mm s) p) -> DC s'.
Proof. intros Sl H E K o Ho. rewrite E by auto. eapply dcl_same; [|exact (H o Ho)]. eauto. Qed.

Lemma dloc_not_node lv o id k : below lv o -> (forall a, host id = Some a -> lv <= rank a) -> dloc (MLeaf o) <> ONode id k.
Proof.
  intros [_ Ro] Hh E. simpl in E. destruct (g_kind G o) as [| | | |id' e y] eqn:Ek; try discriminate. injection E as -> _.
  specialize (Hh _ (exp_host WF Ek)). lia.
Qed.

Lemma doperand_loc lv e s s1 p v id k : dpost lv e s p v s1 -> (forall o, In o (leaves e) -> below lv o) -> ~ In id (nodes e) ->
  (forall a, host id = Some a -> lv <= rank a) -> dloc e <> ONode id k.
Proof.
  intros P Hl Hn Hh E. pose proof (r_stable P) as Q. rewrite E in Q. destruct Q as [Q|(o & Ho & Eo & _)]; [auto|].
  specialize (Hh _ Eo). destruct (Hl _ Ho) as [_ R]. lia.
Qed.

(** The derivative of e survives the derivative of e2, and evaluations. *)
Lemma doperand_kept lv e s s1 p v e2 : dpost lv e s p v s1 -> dpre lv e s -> hosts_ok lv e2 s1 ->
  (forall i, In i (nodes e) -> ~ In i (nodes e2)) -> dkept e2 s1 (dloc e).
Proof.
  intros P Pe H2 Dj. pose proof (r_stable P) as Q. unfold dkept.
  destruct (dloc e) as [i k|o|o]; [|tauto|tauto]. destruct Q as [Q|(o & Ho & Eo & Vo)].
  - split; [auto|]. intros o Eo. destruct (p_hosts (dp_pre Pe) Q Eo) as [V _]. exact (r_vis P V).
  - split.
    + intros Hi. destruct (H2 _ _ Hi Eo) as [_ R]. destruct (p_leaves (dp_pre Pe) Ho) as [_ R']. lia.
    + intros o' Eo'. congruence.
Qed.
Lemma dloc_kept e e2 s : kept e2 s (dloc e).
Proof. pose proof (dloc_0 e) as Z. destruct (dloc e); simpl; auto; tauto. Qed.

Lemma dkept_bin k id l r s w : dkept (MBin k id l r) s w -> dkept l s w /\ dkept r s w /\ forall kk, w <> ONode id kk.
Proof.
  destruct w as [i kk|o|o]; simpl; [|intros H; repeat split; auto; discriminate|intros (H & p & Hp); split; [eauto|split; [eauto|discriminate]]].
  intros [H H']. rewrite in_app_iff in H. split; [tauto|]. split; [tauto|]. intros k' [= E _]. subst. apply H. auto.
Qed.
Lemma dkept_un k id a s w : dkept (MUn k id a) s w -> dkept a s w /\ forall kk, w <> ONode id kk.
Proof.
  destruct w as [i kk|o|o]; simpl; [|intros H; repeat split; auto; discriminate|intros (H & p & Hp); split; [eauto|discriminate]].
  intros [H H']. split; [tauto|]. intros k' [= E _]. subst. apply H. auto.
Qed.
(** What devalF keeps, eval keeps. *)
Lemma dkept_kept e s w : dkept e s w -> kept e s w.
Proof. destruct w as [i k|o|o]; simpl; auto. Qed.
(** Later states of the same pass. *)
Lemma dkept_next e s s' w : (forall o, vis s o -> vis s' o) -> (forall o, f_eval (fl s o) = true -> f_eval (fl s' o) = true) ->
  (forall o, f_dev (fl s o) = true -> f_dev (fl s' o) = true) -> (forall q, ar s w = Some q -> ar s' w = Some q /\ get (mm s') q = get (mm s) q) ->
  dkept e s w -> dkept e s' w.
Proof.
  intros M1 M2 M3 K. destruct w as [i k|o|o]; simpl; auto.
  - intros [H H']. split; auto.
  - intros (H & p & Ep & Hp). split; [intuition|]. destruct (K _ Ep) as [Ep' Gp]. exists p. split; [exact Ep'|exact (holds_same Gp Hp)].
Qed.

(** *** Leaves *)
Lemma leaf_dec o : is_const G o \/ ~ is_const G o.
Proof. unfold is_const. destruct (g_kind G o) eqn:E; auto; right; intros [Q|Q]; discriminate. Qed.
Lemma const_derivs o p m : is_const G o -> set_derivs S G rho o x p m = Ok (tt, m).
Proof. intros [H|H]; unfold set_derivs; rewrite H; reflexivity. Qed.

Lemma devalF_leaf_step lv o s : is_leaf G o -> dpre lv (MLeaf o) s ->
  exists p s', devalF_leaf S G rho x o s = EOk (p, s') /\ slots (mm s') (ar s') none /\ at_ s' (ODres o) p (leaf_dmat G rho x o) /\
    (forall o', fl s' o' = if o' =? o then Fl true (f_eval (fl s o)) true (f_res (fl s o)) (f_dres (fl s o)) else fl s o') /\
    keeps (fun w => w <> ODres o \/ dkept (MLeaf o) s w) s s' /\ DC s' /\ stable s s'.
Proof.
  intros Hl [P Hpd Hdc]. pose proof (p_slots P) as Sl. pose proof (p_leaves P (or_introl eq_refl)) as Bo.
  assert (Case : (f_dev (fl s o) = true /\ ~ is_const G o) \/ (f_dev (fl s o) = false \/ is_const G o)).
  { destruct (f_dev (fl s o)); destruct (leaf_dec o); auto. }
  destruct Case as [[Ee Nc]|Case].
  - pose proof (Hpd o Bo) as Q. assert (exists p, at_ s (ODres o) p (leaf_dmat G rho x o)) as (p & Ep & Hp).
    { unfold is_leaf in Hl. destruct (g_kind G o); tauto || (apply Q; auto). }
    exists p. eexists. split; [|split; [|split; [|split; [|split; [|split]]]]].
    + unfold devalF_leaf, ebind, lift_to. rewrite Ep. pose proof (pool_same Hp) as Ps. cbn [mr mc leaf_dmat layout] in Ps. rewrite Ps. unfold getf. cbn [fl].
      rewrite Ee. unfold eret. rewrite setf_eq. reflexivity.
    + cbn [mm ar]. now apply slots_sset_same.
    + split; cbn [mm ar]; [apply sset_same|exact Hp].
    + cbn [fl]. intros o'. destruct (o' =? o) eqn:Eo; [|reflexivity]. apply Nat.eqb_eq in Eo. subst o'. unfold set_vis. now rewrite Ee.
    + split.
      { split; [|split]; cbn [mm ar]; auto. intros w q. destruct (owner_eq w (ODres o)) as [->|Ne]; [rewrite sset_same; intros Q1; left; congruence|rewrite sset_other; auto]. }
      intros w q _ E. cbn [mm ar]. split; [|reflexivity]. destruct (owner_eq w (ODres o)) as [->|Ne]; [rewrite sset_same; congruence|now rewrite sset_other].
    + intros o' Ho'. cbn [mm ar]. destruct (Nat.eq_dec o' o) as [->|Ne]; [rewrite sset_same, <- Ep; auto|rewrite sset_other by congruence; auto].
    + intros o' id a y q _ Z. unfold sized_at in *. cbn [mm ar]. rewrite sset_other by discriminate. exact Z.
  - destruct (dcl_write Hl (sl_tame Sl) (slots_ok (ODres o) Sl) (Hdc o Hl)) as (p & m1 & m' & E1 & E2 & W & Dc).
    destruct (slot_write owner_eq Sl W) as (Sl' & Hh & _ & Fr).
    set (s' := St m' (sset owner_eq (ar s) (ODres o) p)
       (fun o' => if o' =? o then Fl true (f_eval (fl s o)) true (f_res (fl s o)) (f_dres (fl s o)) else fl s o')).
    assert (Er : exists s2, devalF_leaf S G rho x o s = EOk (p, s2) /\ mm s2 = mm s' /\ ar s2 = ar s' /\ forall o', fl s2 o' = fl s' o').
    { unfold devalF_leaf, ebind, lift_to, lift. rewrite E1. unfold getf. cbn [fl]. destruct (f_dev (fl s o)) eqn:Ee.
      - destruct Case as [Q|Hc]; [discriminate|]. rewrite (const_derivs _ _ Hc) in E2. injection E2 as <-.
        unfold eret. rewrite setf_eq. eexists. split; [reflexivity|]. cbn [mm ar fl]. split; [reflexivity|]. split; [reflexivity|].
        intros o'. unfold s'. cbn [fl]. destruct (o' =? o) eqn:Eo; [|reflexivity]. apply Nat.eqb_eq in Eo. subst o'. unfold set_vis. now rewrite Ee.
      - cbn [mm]. rewrite E2. rewrite !setf_eq. unfold eret. eexists. split; [reflexivity|]. cbn [mm ar fl]. split; [reflexivity|]. split; [reflexivity|].
        intros o'. unfold s'. cbn [fl]. destruct (o' =? o) eqn:Eo; [|reflexivity]. apply Nat.eqb_eq in Eo. now subst o'. }
    destruct Er as (s2 & Er & Em & Ea & Ef). exists p, s2. split; [exact Er|].
    assert (Fr' : forall w q, w <> ODres o -> ar s w = Some q -> get m' q = get (mm s) q).
    { intros w q Nw E. destruct (sl_slot Sl E) as ((ob & Ho) & _). apply Fr; [exact (get_lt Ho)|]. eapply other_not_slot; eauto. }
    rewrite Em, Ea. split; [exact Sl'|]. split; [split; rewrite ?Em, ?Ea; unfold s'; cbn [mm ar]; [apply sset_same|exact Hh]|]. split; [exact Ef|]. split; [|split].
    + split.
      { unfold grew. rewrite Em, Ea. unfold s'. cbn [mm ar]. split; [apply W|]. split; [|split; [intros q Hq; apply (ev_special (wr_evolves W) Hq)|intros q Hq Hn; apply Fr; [exact Hq|exact (Hn (ODres o))]]].
        intros w q. destruct (owner_eq w (ODres o)) as [->|Ne]; [rewrite sset_same; intros [= <-]; exact (wr_where W)|rewrite sset_other; auto]. }
      intros w q Hw E. rewrite Em, Ea. unfold s'. cbn [mm ar]. destruct (owner_eq w (ODres o)) as [->|Nw].
      * destruct Hw as [Hw|Hw]; [congruence|]. destruct Hw as (Hd & q' & Eq' & Hq').
        pose proof (pool_same Hq') as Ps. cbn [mr mc leaf_dmat layout] in Ps. rewrite Eq' in E1. rewrite Ps in E1. injection E1 as -> ->.
        rewrite sset_same. assert (q = p) by congruence. subst q. split; [reflexivity|].
        destruct Case as [Q|Hc]; [|rewrite (const_derivs _ _ Hc) in E2; injection E2 as <-; reflexivity].
        destruct Hd as [Hd|Hc]; [congruence|]. rewrite (const_derivs _ _ Hc) in E2; injection E2 as <-; reflexivity.
      * rewrite sset_other by auto. split; [exact E|]. eauto.
    + intros o' Ho'. rewrite Em, Ea. unfold s'. cbn [mm ar]. destruct (Nat.eq_dec o' o) as [->|Ne]; [rewrite sset_same; exact Dc|].
      rewrite sset_other by congruence. eapply dcl_same; [|exact (Hdc o' Ho')]. intros q Eq. apply (Fr' (ODres o')); [congruence|exact Eq].
    + intros o' id a y q _ Z. unfold sized_at. rewrite Em, Ea. refine (@sized_other T N s m' (fl s) (ODres o) p _ _ _ _ Sl Fr _ Z). discriminate.
Qed.

Lemma dloc_leaf o : is_leaf G o -> dloc (MLeaf o) = ODres o.
Proof. intros H. unfold is_leaf in H. simpl. destruct (g_kind G o); tauto. Qed.

Lemma devalF_leaf_ok lv o s : is_leaf G o -> dpre lv (MLeaf o) s ->
  exists p s', devalF_leaf S G rho x o s = EOk (p, s') /\ dpost lv (MLeaf o) s p (leaf_dmat G rho x o) s'.
Proof.
  intros Hl DP. destruct (devalF_leaf_step Hl DP) as (p & s' & E & Sl' & At & Ef & K & Dc & Sz). exists p, s'. split; [exact E|].
  destruct DP as [P Hpd Hdc]. pose proof (p_leaves P (or_introl eq_refl)) as Bo.
  assert (Fo : forall o', o' <> o -> fl s' o' = fl s o') by (intros o' Ne; rewrite Ef; apply Nat.eqb_neq in Ne; now rewrite Ne).
  assert (Fs : fl s' o = Fl true (f_eval (fl s o)) true (f_res (fl s o)) (f_dres (fl s o))) by (rewrite Ef; now rewrite Nat.eqb_refl).
  assert (Vm : forall o', vis s o' -> vis s' o').
  { intros o' V. destruct (Nat.eq_dec o' o) as [->|Ne]; [now rewrite Fs|now rewrite Fo]. }
  constructor; auto.
  - intros o'. destruct (Nat.eq_dec o' o) as [->|Ne]; [rewrite Fs; auto|]. rewrite Fo by auto. apply (p_fi P).
  - intros o' Bo'. pose proof (p_pi P Bo') as Q. destruct (Nat.eq_dec o' o) as [->|Ne].
    + rewrite Fs. unfold is_leaf in Hl. destruct (g_kind G o); try tauto; cbn [f_eval]; intros Q1; destruct (Q Q1) as (q & Hq); exists q;
        (eapply keeps_at; [exact K|left; discriminate|exact Hq]).
    + rewrite (Fo _ Ne). destruct (g_kind G o') as [| | | |id e y].
      1-4: intros Q1; destruct (Q Q1) as (q & Hq); exists q; eapply keeps_at; [exact K|left; discriminate|exact Hq].
      intros Q1 v Hv. destruct (Q Q1 v Hv) as (q & Eq & Hq). exists q. split; [exact Eq|]. eapply keeps_at; [exact K|left; discriminate|exact Hq].
  - intros a id e y o' Ba Hk Va Hin. apply Vm. eapply (p_vc P); eauto.
    destruct (Nat.eq_dec a o) as [->|Ne]; [|now rewrite Fo in Va]. unfold is_leaf in Hl. rewrite Hk in Hl. tauto.
  - intros o' Bo'. pose proof (Hpd o' Bo') as Q. destruct (Nat.eq_dec o' o) as [->|Ne].
    + unfold is_leaf in Hl. destruct (g_kind G o); try tauto; intros _ _; eauto.
    + rewrite (Fo _ Ne). destruct (g_kind G o') as [| | | |id e y].
      1-4: intros Nc Q1; destruct (Q Nc Q1) as (q & Hq); exists q; eapply keeps_at; [exact K|left; congruence|exact Hq].
      intros Q1 v dv Hv. destruct (Q Q1 v dv Hv) as (q & Eq & Hq). exists q. split; [exact Eq|]. eapply keeps_at; [exact K|left; discriminate|exact Hq].
  - rewrite (dloc_leaf Hl). exact At.
  - intros o'. destruct (Nat.eq_dec o' o) as [->|Ne]; [rewrite Fs; auto|now rewrite Fo].
  - intros o'. destruct (Nat.eq_dec o' o) as [->|Ne]; [rewrite Fs; auto|rewrite Fo; auto].
  - intros o' Nb. apply Fo. intros ->. auto.
  - intros o' [<-|[]]. now rewrite Fs.
  - rewrite (dloc_leaf Hl). rewrite Fs. split; [reflexivity|]. eauto.
  - eapply keeps_weaken; [exact K|]. intros w Hw. now right.
Qed.

(** *** Value-level runs of the derivative programs *)
Lemma vset_same (env : owner -> option mat) k v : vset owner_eq env k v k = Some v.
Proof. unfold vset. destruct (owner_eq k k); congruence. Qed.
Lemma vset_other (env : owner -> option mat) k v k' : k' <> k -> vset owner_eq env k v k' = env k'.
Proof. intros H. unfold vset. destruct (owner_eq k' k); congruence. Qed.
Ltac fetch := cbn [vfetch]; repeat (rewrite vset_other by congruence); apply vset_same.

Notation dims dv v := (mr dv = mr v * xr /\ mc dv = mc v * xc).
Lemma sum_vrun k id p q s v dv w dw : (k = BSum \/ k = BSub) -> holds (mm s) p dv -> holds (mm s) q dw -> dims dv v -> dims dw w -> bin_dims k v w ->
  exists env', vrun owner_eq (contents s) (sum_dev k id p q) (fun _ => None) = Some env' /\
    exists u, env' (ONode id 1) = Some u /\ meq u (bin_der G x k v dv w dw).
Proof.
  intros Hk Hp Hq (D1 & D2) (D3 & D4) Hd. destruct (contents_meq Hp) as [_ Mp], (contents_meq Hq) as [_ Mq].
  pose proof Mp as (P1 & P2 & _). pose proof Mq as (Q1 & Q2 & _).
  assert (Sd : same_dims dv dw /\ mr (contents s p) = mr (contents s q) /\ mc (contents s p) = mc (contents s q)).
  { destruct Hk as [-> | ->]; simpl in Hd; destruct Hd as [Hd1 Hd2]; unfold same_dims; repeat split; congruence. }
  destruct Sd as (Sd & S1 & S2).
  destruct Hk as [-> | ->].
  - exists (vset owner_eq (fun _ => None) (ONode id 1) (madd (contents s p) (contents s q))). split.
    + unfold sum_dev. eapply vrun_step; [apply veval_add; [reflexivity|reflexivity|exact S1|exact S2]|]. reflexivity.
    + eexists. split; [apply vset_same|]. apply meq_zip; auto. split; congruence.
  - exists (vset owner_eq (fun _ => None) (ONode id 1) (msub (contents s p) (contents s q))). split.
    + unfold sum_dev. eapply vrun_step; [apply veval_sub; [reflexivity|reflexivity|exact S1|exact S2]|]. reflexivity.
    + eexists. split; [apply vset_same|]. apply meq_zip; auto. split; congruence.
Qed.

Lemma prod_vrun k id dp dq p q s v dv w dw : (k = BProd \/ k = BHad) ->
  holds (mm s) dp dv -> holds (mm s) dq dw -> holds (mm s) p v -> holds (mm s) q w -> dims dv v -> dims dw w -> bin_dims k v w ->
  exists env', vrun owner_eq (contents s) (prod_dev k id xr xc dp dq p q) (fun _ => None) = Some env' /\
    exists u, env' (ONode id 1) = Some u /\ meq u (bin_der G x k v dv w dw).
Proof.
  intros Hk Hdp Hdq Hp Hq (D1 & D2) (D3 & D4) Hd. destruct (wf_pos WF x) as [PX PY].
  destruct (contents_meq Hp) as [_ Mp], (contents_meq Hq) as [_ Mq], (contents_meq Hdp) as [_ Mdp], (contents_meq Hdq) as [_ Mdq].
  pose proof Mp as (P1 & P2 & _). pose proof Mq as (Q1 & Q2 & _). pose proof Mdp as (P3 & P4 & _). pose proof Mdq as (Q3 & Q4 & _).
  set (cp := contents s p) in *. set (cq := contents s q) in *. set (dcp := contents s dp) in *. set (dcq := contents s dq) in *.
  destruct Hk as [-> | ->]; simpl in Hd.
  - eexists. split.
    + unfold prod_dev.
      eapply vrun_step; [apply veval_kron; [reflexivity|now apply vfetch_eye]|].
      eapply vrun_step; [apply veval_kron; [reflexivity|now apply vfetch_eye]|].
      eapply vrun_step; [apply veval_mul; [fetch|reflexivity|]|].
      { cbn [mkron meye mc mr]. fold cp dcq. congruence. }
      eapply vrun_step; [apply veval_mul; [reflexivity|fetch|]|].
      { cbn [mkron meye mc mr]. fold cq dcp. congruence. }
      eapply vrun_step; [apply veval_add; [fetch|fetch| |]|].
      { cbn [mkron mmul meye mc mr]. fold cp dcp. congruence. }
      { cbn [mkron mmul meye mc mr]. fold cq dcq. congruence. }
      reflexivity.
    + eexists. split; [apply vset_same|]. fold cp cq dcp dcq. cbn [bin_der].
      apply meq_zip.
      * apply meq_mul; [apply meq_kron; auto using meq_refl|exact Mdq|]. cbn [mkron meye mc mr]. congruence.
      * apply meq_mul; [exact Mdp|apply meq_kron; auto using meq_refl|]. cbn [mkron meye mc mr]. congruence.
      * split; cbn [mkron mmul meye mc mr]; congruence.
  - destruct Hd as [Hd1 Hd2]. eexists. split.
    + unfold prod_dev.
      eapply vrun_step; [apply veval_kron; [reflexivity|now apply vfetch_ones]|].
      eapply vrun_step; [apply veval_kron; [reflexivity|now apply vfetch_ones]|].
      eapply vrun_step; [apply veval_had; [fetch|reflexivity| |]|].
      { cbn [mkron mones mc mr]. fold cp dcq. congruence. }
      { cbn [mkron mones mc mr]. fold cp dcq. congruence. }
      eapply vrun_step; [apply veval_had; [reflexivity|fetch| |]|].
      { cbn [mkron mones mc mr]. fold cq dcp. congruence. }
      { cbn [mkron mones mc mr]. fold cq dcp. congruence. }
      eapply vrun_step; [apply veval_add; [fetch|fetch| |]|].
      { cbn [mkron mones mhad mzip mc mr]. fold cp dcp. congruence. }
      { cbn [mkron mones mhad mzip mc mr]. fold cp dcp. congruence. }
      reflexivity.
    + eexists. split; [apply vset_same|]. fold cp cq dcp dcq. cbn [bin_der].
      apply meq_zip.
      * apply meq_zip; [apply meq_kron; auto using meq_refl|exact Mdq|]. split; cbn [mkron mones mc mr]; congruence.
      * apply meq_zip; [exact Mdp|apply meq_kron; auto using meq_refl|]. split; cbn [mkron mones mc mr]; congruence.
      * split; cbn [mkron mones mhad mzip mc mr]; congruence.
Qed.

(** The operators that only differentiate their operand. *)
Definition lin (k : uop T) : Prop := match k with UTr | USProd _ | USSumE _ _ => True | _ => False end.
Definition ln_dev (k : uop T) (id fr fc : nat) (dp : ptr) : list (instr T owner) :=
  match k with USSumE s _ => ssum_dev G rho s id x fr fc dp | _ => lin_dev k id xr xc fr fc dp end.
Lemma lin_vrun k id p s v dv : lin k -> holds (mm s) p dv -> dims dv v -> 0 < mr v -> 0 < mc v ->
  exists env', vrun owner_eq (contents s) (ln_dev k id (mr v) (mc v) p) (fun _ => None) = Some env' /\
    exists u, env' (ONode id 1) = Some u /\ meq u (un_der G rho x k v dv).
Proof.
  intros Hk Hp (D1 & D2) PR PC. destruct (wf_pos WF x) as [PX PY]. destruct (contents_meq Hp) as [_ Mp]. pose proof Mp as (P1 & P2 & _).
  destruct k as [|so vs| |c| | | |]; try contradiction; cbn [ln_dev].
  - eexists. split.
    + unfold ssum_dev. eapply vrun_step; [apply veval_fill; assumption|].
      eapply vrun_step; [apply veval_kron; [now apply vfetch_ones|fetch]|].
      eapply vrun_step; [apply veval_add; [fetch|reflexivity| |]|].
      { cbn [mkron mones mfill mc mr]. congruence. }
      { cbn [mkron mones mfill mc mr]. congruence. }
      reflexivity.
    + eexists. split; [apply vset_same|]. cbn [un_der]. apply meq_zip; [apply meq_refl|exact Mp|].
      split; cbn [mkron mones sder mfill mc mr]; congruence.
  - eexists. split.
    + unfold lin_dev. eapply vrun_step; [apply veval_dtr; [reflexivity| |]|]; [congruence|congruence|reflexivity].
    + eexists. split; [apply vset_same|]. apply meq_dtr; auto; congruence.
  - destruct (@veval_un T N owner (contents s) (fun _ => None) (OPtr p) (contents s p) eq_refl) as (E1 & _).
    eexists. split.
    + unfold lin_dev. eapply vrun_step; [apply E1|]. reflexivity.
    + eexists. split; [apply vset_same|]. now apply meq_map.
Qed.
Lemma fun_vrun f f' id dp p s v dv : holds (mm s) dp dv -> holds (mm s) p v -> dims dv v ->
  exists env', vrun owner_eq (contents s) (fun_dev f' id xr xc dp p) (fun _ => None) = Some env' /\
    exists u, env' (ONode id 3) = Some u /\ meq u (un_der G rho x (UFun f f') v dv).
Proof.
  intros Hdp Hp (D1 & D2). destruct (wf_pos WF x) as [PX PY].
  destruct (contents_meq Hp) as [_ Mp], (contents_meq Hdp) as [_ Mdp]. pose proof Mp as (P1 & P2 & _). pose proof Mdp as (P3 & P4 & _).
  destruct (@veval_un T N owner (contents s) (fun _ => None) (OPtr p) (contents s p) eq_refl) as (_ & _ & E1 & _).
  eexists. split.
  - unfold fun_dev. eapply vrun_step; [apply E1|].
    eapply vrun_step; [apply veval_kron; [fetch|now apply vfetch_ones]|].
    eapply vrun_step; [apply veval_had; [fetch|reflexivity| |]|].
    { cbn [mkron mones mmap mc mr]. congruence. }
    { cbn [mkron mones mmap mc mr]. congruence. }
    reflexivity.
  - eexists. split; [apply vset_same|]. cbn [un_der]. apply meq_zip; [|exact Mdp|].
    + apply meq_kron; auto using meq_refl, meq_map.
    + split; cbn [mkron mones mmap mc mr]; congruence.
Qed.

Lemma sprod_vrun so vs id dp p s v dv : holds (mm s) dp dv -> holds (mm s) p v -> dims dv v -> 0 < mr v -> 0 < mc v ->
  exists env', vrun owner_eq (contents s) (sprod_dev G rho so id x (mr v) (mc v) dp p) (fun _ => None) = Some env' /\
    exists u, env' (ONode id 1) = Some u /\ meq u (un_der G rho x (USProdE so vs) v dv).
Proof.
  intros Hdp Hp (D1 & D2) PR PC. destruct (wf_pos WF x) as [PX PY].
  destruct (contents_meq Hp) as [_ Mp], (contents_meq Hdp) as [_ Mdp]. pose proof Mp as (P1 & P2 & _). pose proof Mdp as (P3 & P4 & _).
  eexists. split.
  - unfold sprod_dev. eapply vrun_step; [apply veval_fill; assumption|].
    eapply vrun_step; [apply veval_kron; [now apply vfetch_ones|fetch]|].
    eapply vrun_step; [apply veval_kron; [reflexivity|now apply vfetch_ones]|].
    eapply vrun_step; [apply veval_smul; reflexivity|].
    eapply vrun_step; [apply veval_had; [fetch|fetch| |]|].
    { cbn [mkron mones mfill mc mr]. congruence. }
    { cbn [mkron mones mfill mc mr]. congruence. }
    eapply vrun_step; [apply veval_add; [fetch|fetch| |]|].
    { cbn [mkron mones mfill mhad mzip mmap mc mr]. congruence. }
    { cbn [mkron mones mfill mhad mzip mmap mc mr]. congruence. }
    reflexivity.
  - eexists. split; [apply vset_same|]. cbn [un_der]. apply meq_zip; [now apply meq_map|apply meq_zip; [apply meq_refl|apply meq_kron; auto using meq_refl|]|].
    + split; cbn [mkron mones sder mfill mc mr]; congruence.
    + split; cbn [mkron mones sder mfill mhad mzip mmap mc mr]; congruence.
Qed.

(** Running the derivative kernels of a node after its operands. *)
Lemma inv_vrun g id dp p s v dv : holds (mm s) dp dv -> holds (mm s) p v -> dims dv v -> mr v = mc v ->
  exists env', vrun owner_eq (contents s) (inv_dev g id xr xc dp p) (fun _ => None) = Some env' /\
    exists u, env' (ONode id 6) = Some u /\ meq u (un_der G rho x (UInv g) v dv).
Proof.
  intros Hdp Hp (D1 & D2) Sq. destruct (wf_pos WF x) as [PX PY].
  destruct (contents_meq Hp) as [_ Mp], (contents_meq Hdp) as [_ Mdp]. pose proof Mp as (P1 & P2 & _). pose proof Mdp as (P3 & P4 & _).
  eexists. split.
  - unfold inv_dev. eapply vrun_step; [apply veval_inv; [reflexivity|congruence]|].
    eapply vrun_step; [apply veval_kron; [fetch|now apply vfetch_eye]|].
    eapply vrun_step; [apply veval_kron; [fetch|now apply vfetch_eye]|].
    eapply vrun_step; [apply veval_mul; [fetch|reflexivity|]|].
    { cbn [mkron meye minv mc mr]. congruence. }
    eapply vrun_step; [apply veval_mul; [fetch|fetch|]|].
    { cbn [mkron meye minv mmul mc mr]. congruence. }
    eapply vrun_step; [apply veval_smul; fetch|].
    reflexivity.
  - eexists. split; [apply vset_same|]. cbn [un_der]. apply meq_map. apply meq_mul; [apply meq_mul; [apply meq_kron; auto using meq_refl, meq_inv|exact Mdp|]|apply meq_kron; auto using meq_refl, meq_inv|];
    cbn [mkron meye minv mmul mc mr]; congruence.
Qed.
Lemma det_vrun g d id dp p s v dv : holds (mm s) dp dv -> holds (mm s) p v -> dims dv v -> mr v = mc v -> 0 < mr v ->
  exists env', vrun owner_eq (contents s) (det_dev g d id xr xc (mr v) dp p) (fun _ => None) = Some env' /\
    exists u, env' (ONode id 8) = Some u /\ meq u (un_der G rho x (UDet g d) v dv).
Proof.
  intros Hdp Hp (D1 & D2) Sq Pv. destruct (wf_pos WF x) as [PX PY].
  destruct (contents_meq Hp) as [_ Mp], (contents_meq Hdp) as [_ Mdp]. pose proof Mp as (P1 & P2 & _). pose proof Mdp as (P3 & P4 & _).
  eexists. split.
  - unfold det_dev. eapply vrun_step; [apply veval_inv; [reflexivity|congruence]|].
    eapply vrun_step; [apply veval_tr; fetch|].
    eapply vrun_step; [apply veval_det; [reflexivity|congruence]|].
    eapply vrun_step; [apply veval_smulat; [fetch|fetch]|].
    eapply vrun_step; [apply veval_kron; [fetch|now apply vfetch_ones]|].
    eapply vrun_step; [apply veval_had; [fetch|reflexivity| |]|].
    { cbn [mkron mones mmap mtr minv mc mr]. congruence. }
    { cbn [mkron mones mmap mtr minv mc mr]. congruence. }
    eapply vrun_step; [apply veval_kron; [apply vfetch_ones; lia|now apply vfetch_eye]|].
    eapply vrun_step; [apply veval_kron; [apply vfetch_ones; lia|now apply vfetch_eye]|].
    eapply vrun_step; [apply veval_mul; [fetch|fetch|]|].
    { cbn [mkron mones mhad mzip mmap meye mtr minv mc mr]. congruence. }
    eapply vrun_step; [apply veval_mul; [fetch|fetch|]|].
    { cbn [mkron mones mhad mzip mmap meye mtr minv mmul mc mr]. congruence. }
    reflexivity.
  - eexists. split; [apply vset_same|]. cbn [un_der mdet mf]. rewrite (flat_meq Mp), P1.
    apply meq_mul; [apply meq_mul; [apply meq_refl|apply meq_zip; [apply meq_kron; auto using meq_refl, meq_map, meq_tr, meq_inv|exact Mdp|]|]|apply meq_refl|];
    try split; cbn [mkron mones mhad mzip mmap meye mtr minv mmul mc mr]; congruence.
Qed.
(** The operators that differentiate and evaluate their operand. *)
Definition rd_dev (k : uop T) (id n c : nat) (dp p : ptr) : list (instr T owner) :=
  match k with USProdE s _ => sprod_dev G rho s id x n c dp p | UFun _ f' => fun_dev f' id xr xc dp p | UInv g => inv_dev g id xr xc dp p | UDet g d => det_dev g d id xr xc n dp p | _ => [] end.
Definition rd_res (k : uop T) : nat := match k with USProdE _ _ => 1 | UFun _ _ => 3 | UInv _ => 6 | _ => 8 end.
Definition rd (k : uop T) : Prop := match k with USProdE _ _ | UFun _ _ | UInv _ | UDet _ _ => True | _ => False end.
Lemma rd_vrun k id dp p s v dv : rd k -> holds (mm s) dp dv -> holds (mm s) p v -> dims dv v -> un_dims k v -> 0 < mr v -> 0 < mc v ->
  exists env', vrun owner_eq (contents s) (rd_dev k id (mr v) (mc v) dp p) (fun _ => None) = Some env' /\
    exists u, env' (ONode id (rd_res k)) = Some u /\ meq u (un_der G rho x k v dv).
Proof.
  destruct k as [so vs|so vs| |c|c|f f'|g|g d]; try contradiction; intros _ H1 H2 H3 H4 H5 H6; simpl in H4;
    [now apply sprod_vrun|now apply fun_vrun|now apply inv_vrun|now apply det_vrun].
Qed.

Lemma dfinish lv id res s2 prog env' u (val : mat) ps : slots (mm s2) (ar s2) none -> PI lv s2 -> VC lv s2 -> FI s2 -> PD lv s2 -> DC s2 ->
  (forall w, In w (dsts prog) -> exists k, w = ONode id (Datatypes.S k)) -> NoDup (dsts prog) -> Forall no_self prog -> (forall p, uses_ptr prog p -> In p ps) ->
  (forall p, In p ps -> exists w v, at_ s2 w p v /\ forall k, w <> ONode id k) ->
  (forall a, host id = Some a -> lv <= rank a) ->
  vrun owner_eq (contents s2) prog (fun _ => None) = Some env' -> env' (ONode id res) = Some u -> meq u val ->
  exists p s3, (forall a b, unalias id a b ps s2 = EOk (tt, s2)) /\ exec prog s2 = EOk (tt, s3) /\ slot (ONode id res) s3 = EOk (p, s3) /\
    at_ s3 (ONode id res) p val /\
    slots (mm s3) (ar s3) none /\ PI lv s3 /\ VC lv s3 /\ FI s3 /\ PD lv s3 /\ DC s3 /\ fl s3 = fl s2 /\
    keeps (fun w => forall k, w <> ONode id k) s2 s3 /\ stable s2 s3.
Proof.
  intros Sl Hpi Hvc Hfi Hpd Hdc Ds Nd Ns Hu Hat Hh Hv Eu Mu.
  destruct (@exec_ok T N S VS B BV BK G s2 prog env') as (s3 & E & Ef & Sl3 & Hat3 & K & Un & Sz); auto.
  - intros p Hp. destruct (Hat p (Hu p Hp)) as (w & v & [Ew Hw] & Nw). split; [eauto|]. intros d Hd. destruct (Ds d Hd) as (k & ->).
    eapply other_not_slot; eauto.
  - destruct (Hat3 _ _ Eu) as (p & Ep & Hp). exists p, s3.
    assert (Nin : forall w, (forall k, w <> ONode id k) -> ~ In w (dsts prog)).
    { intros w Nw Hin. destruct (Ds w Hin) as (k & Q). exact (Nw _ Q). }
    assert (K' : keeps (fun w => forall k, w <> ONode id k) s2 s3).
    { eapply keeps_weaken; [exact K|]. exact Nin. }
    split; [|split; [exact E|split; [|split; [|split; [exact Sl3|split; [|split; [|split; [|split; [|split; [|split; [exact Ef|split; [exact K'|]]]]]]]]]]]].
    + intros a b. apply unalias_ok. intros k p' Hp'. destruct (Hat _ Hp') as (w & v & [Ew _] & Nw). eapply other_not_slot; eauto.
    + unfold slot. now rewrite Ep.
    + split; [exact Ep|]. exact (holds_meq Hp Mu).
    + eapply PI_keep; [exact Hpi|intros o _; now rewrite Ef|]. eapply keeps_weaken; [exact K'|].
      intros w (o & Bo & ->) k. now apply (loc_not_node WF (U := U) (lv := lv)).
    + eapply VC_keep; [exact Hvc|]. intros o. now rewrite Ef.
    + eapply FI_keep; [exact Hfi|]. intros o. now rewrite Ef.
    + eapply PD_keep; [exact Hpd|intros o _; rewrite Ef; auto|intros; now rewrite Ef|]. eapply keeps_weaken; [exact K'|].
      intros w (o & Bo & ->) k. now apply (dloc_not_node (lv := lv)).
    + eapply DC_keep; [exact Sl|exact Hdc| |].
      * intros o Ho. apply Un. apply Nin. discriminate.
      * intros o q Eq. apply (proj2 K' (ODres o)); [discriminate|exact Eq].
    + apply Sz. intros o i a y w _ Hin. destruct (Ds _ Hin) as (k & Q). discriminate.
Qed.

(** Evaluating an operand whose leaves have been differentiated. *)
Lemma eval_after lv e s v : dpre lv e s -> (forall o, In o (leaves e) -> vis s o) -> mval G rho e v ->
  exists n p s', (forall f, n <= f -> eval f e s = EOk (p, s')) /\ post lv e s p v s' /\ PD lv s' /\ DC s' /\
    (forall o, ~ is_leaf G o -> fl s' o = fl s o).
Proof.
  intros [P Hpd Hdc] Hvis Hv.
  destruct (eval_ok VS BV BK WF UC P Hv) as (n & p & s' & E & Q). exists n, p, s'. split; [exact E|]. split; [exact Q|].
  assert (Hx : forall o, ~ is_leaf G o -> fl s' o = fl s o) by (apply (q_exp Q); auto).
  split; [|split; [|exact Hx]].
  - eapply PD_keep; [exact Hpd|intros o _; apply (q_dev Q)|intros o Ho _; now rewrite Hx|].
    eapply keeps_weaken; [exact (q_frame Q)|]. intros w (o & _ & ->). apply dloc_kept.
  - eapply DC_keep; [apply P|exact Hdc|intros o _; apply (q_dres Q)|]. intros o q Eq. apply (proj2 (q_frame Q) (ODres o)); [exact Logic.I|exact Eq].
Qed.

Lemma dpre_sub lv e a s : dpre lv e s -> (forall o, In o (leaves a) -> In o (leaves e)) -> (forall i, In i (nodes a) -> In i (nodes e)) ->
  NoDup (nodes a) -> (forall i b y, In i (nodes a) -> e <> item i b y) -> dpre lv a s.
Proof. intros [P Hp Hd] L Nn Nd Ne. constructor; auto. eapply pre_sub; eauto. Qed.
Lemma dpre_next lv e s s1 p v a : dpost lv e s p v s1 -> dpre lv a s -> dpre lv a s1.
Proof.
  intros Q [P Hp Hd]. constructor; try apply Q. constructor; try apply Q; try apply P.
  intros i o Hi Eo. destruct (p_hosts P Hi Eo) as [V R]. split; [exact (r_vis Q V)|exact R].
Qed.
Lemma dpre_eval lv e s s1 p v a : post lv e s p v s1 -> PD lv s1 -> DC s1 -> dpre lv a s -> dpre lv a s1.
Proof.
  intros Q Hp' Hd' [P Hp Hd]. constructor; auto. eapply pre_next; eauto.
Qed.

(** *** The derivative theorem *)
Theorem devalF_ok : forall lv e s v dv, dpre lv e s -> mder G rho x e v dv ->
  exists n p s', (forall f, n <= f -> devalF f x e s = EOk (p, s')) /\ dpost lv e s p dv s'.
Proof.
  induction lv as [lv IHlv] using lt_wf_ind.
  induction e as [o|k id l IHl r IHr|k id a IHa]; intros s v dv DP Hv.
  - inversion Hv as [o' Hl|o' id e y v' dv' Hk Hi| |]; subst.
    + destruct (devalF_leaf_ok Hl DP) as (p & s' & E & Q). exists 1, p, s'. split; [|exact Q].
      intros f Hf. destruct f as [|f]; [lia|]. unfold is_leaf in Hl. simpl. destruct (g_kind G o); tauto.
    + pose proof DP as [P Hpd Hdc]. pose proof (p_leaves P (or_introl eq_refl)) as Bo.
      assert (Lc : dloc (MLeaf o) = ONode id 1) by (simpl; now rewrite Hk).
      assert (Nleaf : ~ is_leaf G o) by (unfold is_leaf; rewrite Hk; tauto).
      destruct (f_vis (fl s o)) eqn:Vo.
      * (* already visited in this pass *)
        pose proof (Hpd _ Bo) as Q. rewrite Hk in Q. destruct (Q Vo v dv Hi) as (p & Er & At).
        exists 1, p, s. split.
        -- intros f Hf. destruct f as [|f]; [lia|]. cbn [MatEngine.devalF]. rewrite Hk. unfold ebind, getf. rewrite Vo. unfold eret at 1. rewrite Er. reflexivity.
        -- constructor; auto; try apply P.
           ++ now rewrite Lc.
           ++ intros o' [<-|[]]. exact Vo.
           ++ rewrite Lc. right. exists o. split; [simpl; auto|]. split; [exact (exp_host WF Hk)|exact Vo].
           ++ apply keeps_refl.
           ++ now apply stable_same.
      * (* first visit *)
        set (s0 := St (mm s) (ar s) (fun o' => if o' =? o then set_vis (set_dev (fl s o')) else fl s o')).
        assert (F0 : forall o', o' <> o -> fl s0 o' = fl s o').
        { intros o' Ne. simpl. apply Nat.eqb_neq in Ne. now rewrite Ne. }
        assert (F0o : fl s0 o = set_vis (set_dev (fl s o))) by (simpl; now rewrite Nat.eqb_refl).
        assert (M0 : forall o', vis s o' -> vis s0 o').
        { intros o' V. destruct (Nat.eq_dec o' o) as [->|Ne]; [now rewrite F0o|now rewrite F0]. }
        assert (Lt : forall o', In o' (leaves (item id e y)) -> below (rank o) o').
        { intros o' Hin. split; [eapply UC; eauto; apply Bo|]. eapply (wf_rank WF); eauto. }
        assert (Up : forall o', below (rank o) o' -> below lv o' /\ o' <> o).
        { intros o' [Uo Ro]. destruct Bo as [_ Ro']. split; [split; [auto|lia]|]. intros ->. lia. }
        assert (P0 : dpre (rank o) (item id e y) s0).
        { constructor; [constructor| |].
          - apply P.
          - intros o'. destruct (Nat.eq_dec o' o) as [->|Ne]; [rewrite F0o; auto|rewrite F0 by auto; apply (p_fi P)].
          - intros o' Bo'. destruct (Up _ Bo') as [Bo'' Ne]. rewrite F0 by auto. exact (p_pi P Bo'').
          - intros a id' e' y' o' Ba Hka Va Hin. destruct (Up _ Ba) as [Ba' Ne]. rewrite F0 in Va by auto. apply M0. eapply (p_vc P); eauto.
          - exact Lt.
          - exact (proj1 (wf_nodes WF Hk)).
          - intros i o' Hi' Eo. rewrite (proj2 (wf_nodes WF Hk) _ Hi') in Eo. injection Eo as <-. split; [now rewrite F0o|lia].
          - exact (tops_item WF Hk).
          - intros o' Bo'. destruct (Up _ Bo') as [Bo'' Ne]. rewrite F0 by auto. exact (Hpd _ Bo'').
          - exact Hdc. }
        destruct (IHlv (rank o) (proj2 Bo) (item id e y) s0 v dv P0 Hi) as (n & dp & s1 & E & Q).
        set (s2 := St (mm s1) (ar s1) (fun o' => if o' =? o then set_dres dp (fl s1 o') else fl s1 o')).
        assert (F2 : forall o', o' <> o -> fl s2 o' = fl s1 o').
        { intros o' Ne. simpl. apply Nat.eqb_neq in Ne. now rewrite Ne. }
        assert (F1o : fl s1 o = fl s0 o) by (apply (r_high Q); intros [_ R]; lia).
        assert (F2o : fl s2 o = set_dres dp (set_vis (set_dev (fl s o)))) by (simpl; rewrite Nat.eqb_refl, F1o, F0o; reflexivity).
        assert (M2 : forall o', vis s1 o' -> vis s2 o').
        { intros o' V. destruct (Nat.eq_dec o' o) as [->|Ne]; [now rewrite F2o|now rewrite F2]. }
        assert (P2 : dpre (rank o) (item id e y) s2).
        { pose proof (dpre_next Q P0) as [P1 Hpd1 Hdc1]. constructor; [constructor| |].
          - apply P1.
          - intros o'. destruct (Nat.eq_dec o' o) as [->|Ne]; [rewrite F2o; auto|rewrite F2 by auto; apply (p_fi P1)].
          - intros o' Bo'. destruct (Up _ Bo') as [_ Ne]. rewrite F2 by auto. exact (p_pi P1 Bo').
          - intros a id' e' y' o' Ba Hka Va Hin. destruct (Up _ Ba) as [_ Ne]. rewrite F2 in Va by auto. apply M2. eapply (p_vc P1); eauto.
          - exact Lt.
          - exact (proj1 (wf_nodes WF Hk)).
          - intros i o' Hi' Eo. rewrite (proj2 (wf_nodes WF Hk) _ Hi') in Eo. injection Eo as <-. split; [now rewrite F2o|lia].
          - exact (tops_item WF Hk).
          - intros o' Bo'. destruct (Up _ Bo') as [_ Ne]. rewrite F2 by auto. exact (Hpd1 _ Bo').
          - exact Hdc1. }
        assert (V2 : forall o', In o' (leaves (item id e y)) -> vis s2 o') by (intros o' Ho'; apply M2, (r_leaves Q Ho')).
        destruct (eval_after P2 V2 (mder_val Hi)) as (n' & p & s3 & E' & Q' & Pd3 & Dc3 & Fx3).
        set (s4 := St (mm s3) (ar s3) (fun o' => if o' =? o then set_res p (fl s3 o') else fl s3 o')).
        assert (F4 : forall o', o' <> o -> fl s4 o' = fl s3 o').
        { intros o' Ne. simpl. apply Nat.eqb_neq in Ne. now rewrite Ne. }
        assert (F3o : fl s3 o = fl s2 o) by (apply (q_high Q'); intros [_ R]; lia).
        assert (F4o : fl s4 o = set_res p (set_dres dp (set_vis (set_dev (fl s o))))) by (simpl; rewrite Nat.eqb_refl, F3o, F2o; reflexivity).
        assert (M4 : forall o', vis s3 o' -> vis s4 o').
        { intros o' V. destruct (Nat.eq_dec o' o) as [->|Ne]; [now rewrite F4o|now rewrite F4]. }
        assert (Hh : forall o', ~ below (rank o) o' -> o' <> o -> fl s4 o' = fl s o').
        { intros o' Nb Ne. rewrite F4, (q_high Q'), F2, (r_high Q), F0; auto. }
        assert (KK : forall w q, dkept (item id e y) s0 w -> ar s w = Some q -> ar s4 w = Some q /\ get (mm s4) q = get (mm s) q).
        { intros w q Hw Eq. destruct (proj2 (r_frame Q) _ _ Hw Eq) as [A1 A2].
          assert (Hw2 : kept (item id e y) s2 w).
          { destruct w as [i kk|o'|o']; cbn [MatEval.kept dkept] in *; auto.
            - right. destruct Hw as [Hw Hw']. split; [exact Hw|]. intros o' Eo. apply M2, (r_vis Q), Hw', Eo.
            - destruct (Nat.eq_dec o' o) as [->|Ne]; [|rewrite F2 by auto; apply (r_eval Q Hw)].
              rewrite F2o. cbn [set_dres set_vis set_dev f_eval]. rewrite F0o in Hw. exact Hw. }
          destruct (proj2 (q_frame Q') _ _ Hw2 A1) as [A3 A4]. cbn [mm ar s4]. split; [exact A3|]. rewrite A4. exact A2. }
        assert (At4 : forall w q u, dkept (item id e y) s0 w -> at_ s w q u -> at_ s4 w q u).
        { intros w q u Hw [A1 A2]. destruct (KK w q Hw A1) as [A3 A4]. split; [exact A3|exact (holds_same A4 A2)]. }
        assert (Atd : at_ s4 (ONode id 1) dp dv).
        { pose proof (r_at Q) as A. change (dloc (item id e y)) with (ONode id 1) in A. change (at_ s3 (ONode id 1) dp dv).
          eapply keeps_at; [exact (q_frame Q')| |exact A]. simpl. left. discriminate. }
        exists (Datatypes.S (max n n')), dp, s4. split.
        -- intros f Hf. destruct f as [|f]; [lia|]. cbn [MatEngine.devalF]. rewrite Hk. unfold ebind, getf. rewrite Vo. rewrite setf_eq.
           fold s0. rewrite (E f) by lia. rewrite setf_eq. fold s2. rewrite (E' f) by lia. rewrite setf_eq. fold s4. unfold nonnull, eret. cbn [fl].
           rewrite F4o. reflexivity.
        -- constructor.
           ++ apply Q'.
           ++ intros o'. destruct (Nat.eq_dec o' o) as [->|Ne]; [rewrite F4o; auto|rewrite F4 by auto; apply (q_fi Q')].
           ++ intros o' Bo'. destruct (Nat.eq_dec o' o) as [->|Ne].
              ** rewrite Hk. intros _ w Hw. exists p. rewrite F4o. split; [reflexivity|]. rewrite <- (mval_fun (mder_val Hi) Hw). exact (q_at Q').
              ** destruct (Nat.lt_ge_cases (rank o') (rank o)) as [R|R].
                 --- rewrite F4 by auto. exact (q_pi Q' (conj (proj1 Bo') R)).
                 --- rewrite Hh by (auto; intros [_ R']; lia).
                     pose proof (p_pi P Bo') as Qo. destruct (g_kind G o') as [| | | |id' e' y'] eqn:Ek.
                     1-4: intros Q1; destruct (Qo Q1) as (q & Hq); exists q; apply At4; [|exact Hq]; simpl;
                       apply Nat.eqb_neq in Ne; now rewrite Ne.
                     intros Q1 w Hw. destruct (Qo Q1 w Hw) as (q & Eq & Hq). exists q. split; [exact Eq|].
                     apply At4; [|exact Hq]. simpl. pose proof (exp_host WF Ek) as Eh. split.
                     +++ intros Hin. pose proof (proj2 (wf_nodes WF Hk) _ Hin) as Eh'. congruence.
                     +++ intros o2 E2. rewrite Eh in E2. injection E2 as <-. apply Nat.eqb_neq in Ne. now rewrite Ne.
           ++ intros a id' e' y' o' Ba Hka Va Hin. destruct (Nat.eq_dec a o) as [->|Ne].
              ** rewrite Hk in Hka. injection Hka as <- <- <-. apply M4. exact (q_leaves Q' Hin).
              ** destruct (Nat.lt_ge_cases (rank a) (rank o)) as [R|R].
                 --- rewrite F4 in Va by auto. apply M4. exact (q_vc Q' (conj (proj1 Ba) R) Hka Va Hin).
                 --- rewrite Hh in Va by (auto; intros [_ R']; lia). apply M4, (q_vis Q'), M2, (r_vis Q), M0. exact (p_vc P Ba Hka Va Hin).
           ++ intros o' Bo'. destruct (Nat.eq_dec o' o) as [->|Ne].
              ** rewrite Hk. intros _ w dw Hw. exists dp. rewrite F4o. split; [reflexivity|]. rewrite <- (mder_fun Hi Hw). exact Atd.
              ** destruct (Nat.lt_ge_cases (rank o') (rank o)) as [R|R].
                 --- rewrite F4 by auto. exact (Pd3 _ (conj (proj1 Bo') R)).
                 --- rewrite Hh by (auto; intros [_ R']; lia).
                     pose proof (Hpd _ Bo') as Qo. destruct (g_kind G o') as [| | | |id' e' y'] eqn:Ek.
                     1-4: intros Nc Q1; destruct (Qo Nc Q1) as (q & Hq); exists q; apply At4; [|exact Hq]; split;
                       [left; rewrite F0 by auto; exact Q1|exists q; exact Hq].
                     intros Q1 w dw Hw. destruct (Qo Q1 w dw Hw) as (q & Eq & Hq). exists q. split; [exact Eq|].
                     apply At4; [|exact Hq]. simpl. pose proof (exp_host WF Ek) as Eh. split.
                     +++ intros Hin. pose proof (proj2 (wf_nodes WF Hk) _ Hin) as Eh'. congruence.
                     +++ intros o2 E2. rewrite Eh in E2. injection E2 as <-. apply Nat.eqb_neq in Ne. now rewrite Ne.
           ++ exact Dc3.
           ++ rewrite Lc. exact Atd.
           ++ intros o' V. apply M4, (q_vis Q'), M2, (r_vis Q), M0, V.
           ++ intros o' V. destruct (Nat.eq_dec o' o) as [->|Ne]; [now rewrite F4o|]. rewrite F4 by auto. apply (q_eval Q'). rewrite F2 by auto. apply (r_eval Q). now rewrite F0.
           ++ intros o' V. destruct (Nat.eq_dec o' o) as [->|Ne]; [now rewrite F4o|]. rewrite F4 by auto. rewrite (proj1 (q_dev Q' o')). rewrite F2 by auto. apply (r_dev Q). now rewrite F0.
           ++ intros o' Nb. apply Hh; [|intros ->; auto]. intros Bl. apply Nb. now apply Up.
           ++ intros o' [<-|[]]. now rewrite F4o.
           ++ rewrite Lc. right. exists o. split; [simpl; auto|]. split; [exact (exp_host WF Hk)|now rewrite F4o].
           ++ split; [exact (@grew_trans T s0 s3 s3 (@grew_trans T s0 s1 s3 (proj1 (r_frame Q)) (proj1 (q_frame Q'))) (@grew_same T s3 s4 eq_refl eq_refl))|].
              intros w q Hw Eq. apply KK; [|exact Eq]. destruct w as [i kk|o'|o']; cbn [dkept] in *.
              ** destruct Hw as [_ Hw]. split; [|intros o' Eo; apply M0; auto].
                 intros Hin. specialize (Hw _ (proj2 (wf_nodes WF Hk) _ Hin)). congruence.
              ** destruct (Nat.eq_dec o' o) as [->|Ne]; [now rewrite F0o|now rewrite F0].
              ** destruct Hw as [Hw Hw']. split; [|exact Hw']. destruct (Nat.eq_dec o' o) as [->|Ne]; [now left; rewrite F0o|now rewrite F0].
           ++ exact (@stable_trans T G s0 s3 s3 (@stable_trans T G s0 s1 s3 (r_sized Q) (q_sized Q')) (@stable_same T G s3 s4 eq_refl eq_refl)).
  - inversion Hv as [| |k' id' l' r' vl dl vr dr Hl Hr Hd|]; subst.
    pose proof DP as [P Hpd Hdc].
    pose proof (p_nodes P) as Nd. simpl in Nd. inversion Nd as [|? ? Ni Nd']; subst.
    destruct (NoDup_app_inv Nd') as (Ndl & Ndr & Dj).
    assert (Pl : dpre lv l s) by (eapply dpre_sub; [exact DP| | |auto|intros i b z Hi; apply not_item; [exact Ni|apply in_or_app; auto]]; simpl; intros; rewrite ?in_app_iff; auto).
    assert (Pr : dpre lv r s) by (eapply dpre_sub; [exact DP| | |auto|intros i b z Hi; apply not_item; [exact Ni|apply in_or_app; auto]]; simpl; intros; rewrite ?in_app_iff; auto).
    destruct (IHl s vl dl Pl Hl) as (nl & dp & s1 & El & Ql).
    pose proof (dpre_next Ql Pr) as Pr1. pose proof (dpre_next Ql Pl) as Pl1.
    destruct (IHr s1 vr dr Pr1 Hr) as (nr & dq & s2 & Er & Qr).
    pose proof (dpre_next Qr Pr1) as Pr2. pose proof (dpre_next Qr Pl1) as Pl2.
    pose proof (keeps_at (r_frame Qr) (doperand_kept Ql Pl (p_hosts (dp_pre Pr1)) Dj) (r_at Ql)) as Atdp. pose proof (r_at Qr) as Atdq.
    assert (Hh : forall a, host id = Some a -> lv <= rank a) by (intros a Ea; eapply (p_hosts P); [simpl; auto|exact Ea]).
    assert (Nil : ~ In id (nodes l)) by (intros Q; apply Ni; apply in_or_app; auto).
    assert (Nir : ~ In id (nodes r)) by (intros Q; apply Ni; apply in_or_app; auto).
    assert (Ndlp : forall k0, dloc l <> ONode id k0).
    { intros k0. eapply doperand_loc; [exact Ql|apply (p_leaves (dp_pre Pl))|auto|auto]. }
    assert (Ndlq : forall k0, dloc r <> ONode id k0).
    { intros k0. eapply doperand_loc; [exact Qr|apply (p_leaves (dp_pre Pr))|auto|auto]. }
    assert (K2 : forall w, dkept (MBin k id l r) s w -> dkept (MBin k id l r) s2 w /\
              forall q, ar s w = Some q -> ar s2 w = Some q /\ get (mm s2) q = get (mm s) q).
    { intros w Hw. destruct (dkept_bin Hw) as (Kl & Kr & _).
      assert (Kr1 : dkept r s1 w).
      { eapply dkept_next; [apply (r_vis Ql)|apply (r_eval Ql)|apply (r_dev Ql)| |exact Kr]. intros q. exact (proj2 (r_frame Ql) w q Kl). }
      assert (Kq : forall q, ar s w = Some q -> ar s2 w = Some q /\ get (mm s2) q = get (mm s) q).
      { intros q Eq. destruct (proj2 (r_frame Ql) _ _ Kl Eq) as [A1 A2]. destruct (proj2 (r_frame Qr) _ _ Kr1 A1) as [A3 A4]. split; congruence. }
      split; [|exact Kq]. eapply dkept_next; [| | | |exact Hw]; auto.
      - intros o V. apply (r_vis Qr), (r_vis Ql), V.
      - intros o V. apply (r_eval Qr), (r_eval Ql), V.
      - intros o V. apply (r_dev Qr), (r_dev Ql), V. }
    destruct (mder_dims Hl) as [L1 L2], (mder_dims Hr) as [R1 R2].
    assert (Hcase : (k = BSum \/ k = BSub) \/ (k = BProd \/ k = BHad)) by (destruct k; auto).
    destruct Hcase as [Hk|Hk].
    + destruct (@sum_vrun k id dp dq s2 vl dl vr dr Hk (proj2 Atdp) (proj2 Atdq) (conj L1 L2) (conj R1 R2) Hd) as (env' & Hvr & u & Eu & Mu).
      destruct (@dfinish lv id 1 s2 (sum_dev k id dp dq) env' u (bin_der G x k vl dl vr dr) [dp; dq]) as (z & s3 & Eun & Ex & Esl & At & Sl3 & Pi3 & Vc3 & Fi3 & Pd3 & Dc3 & Ef & K & Sz); auto; try apply Qr.
      { intros w [<-|[]]. exists 0. reflexivity. }
      { repeat constructor. auto. }
      { unfold sum_dev. repeat constructor. unfold no_self. destruct Hk as [-> | ->]; simpl; intuition discriminate. }
      { intros t (i & [<-|[]] & Hin). destruct Hk as [-> | ->]; simpl in Hin; destruct Hin as [Hin|[Hin|[]]]; injection Hin as ->; simpl; auto. }
      { intros t [<-|[<-|[]]]; [exists (dloc l), dl|exists (dloc r), dr]; auto. }
      exists (Datatypes.S (max nl nr)), z, s3. split.
      * intros f Hf. destruct f as [|f]; [lia|]. cbn [MatEngine.devalF]. unfold ebind, eassert. rewrite (verify_ok WF (mder_val Hl) (mder_val Hr) Hd).
        rewrite El by lia. rewrite Er by lia. destruct Hk as [-> | ->]; rewrite Eun, Ex; exact Esl.
      * constructor; auto.
        -- intros o V. rewrite Ef. apply (r_vis Qr), (r_vis Ql), V.
        -- intros o V. rewrite Ef. apply (r_eval Qr), (r_eval Ql), V.
        -- intros o V. rewrite Ef. apply (r_dev Qr), (r_dev Ql), V.
        -- intros o Nb. rewrite Ef, (r_high Qr) by auto. now apply (r_high Ql).
        -- simpl. intros o Ho. rewrite Ef. apply in_app_or in Ho. destruct Ho as [Ho|Ho]; [apply (r_vis Qr), (r_leaves Ql), Ho|exact (r_leaves Qr Ho)].
        -- simpl. auto.
        -- split; [exact (grew_trans (grew_trans (proj1 (r_frame Ql)) (proj1 (r_frame Qr))) (proj1 K))|].
           intros w q Hw Eq. destruct (K2 w Hw) as [Hw2 Kq]. destruct (Kq q Eq) as [A1 A2]. destruct (dkept_bin Hw) as (_ & _ & Nw).
           destruct (proj2 K w q Nw A1) as [A3 A4]. split; congruence.
        -- exact (stable_trans (stable_trans (r_sized Ql) (r_sized Qr)) Sz).
    + assert (Vl2 : forall o, In o (leaves l) -> vis s2 o) by (intros o Ho; apply (r_vis Qr), (r_leaves Ql), Ho).
      destruct (eval_after Pl2 Vl2 (mder_val Hl)) as (nl' & p & s3 & El' & Ql' & Pd3 & Dc3 & Fx3).
      pose proof (dpre_eval Ql' Pd3 Dc3 Pr2) as Pr3.
      assert (Vr3 : forall o, In o (leaves r) -> vis s3 o) by (intros o Ho; apply (q_vis Ql'), (r_leaves Qr), Ho).
      destruct (eval_after Pr3 Vr3 (mder_val Hr)) as (nr' & q & s4 & Er' & Qr' & Pd4 & Dc4 & Fx4).
      pose proof (keeps_at (q_frame Qr') (operand_kept BK Ql' (dp_pre Pl2) (p_hosts (dp_pre Pr3)) Dj) (q_at Ql')) as Atp. pose proof (q_at Qr') as Atq.
      pose proof (keeps_at (q_frame Qr') (dloc_kept l r s3) (keeps_at (q_frame Ql') (dloc_kept l l s2) Atdp)) as Atdp4.
      pose proof (keeps_at (q_frame Qr') (dloc_kept r r s3) (keeps_at (q_frame Ql') (dloc_kept r l s2) Atdq)) as Atdq4.
      assert (Nlp : forall k0, loc l <> ONode id k0).
      { intros k0. eapply operand_loc; [exact Ql'|apply (p_leaves (dp_pre Pl))|auto|auto]. }
      assert (Nlq : forall k0, loc r <> ONode id k0).
      { intros k0. eapply operand_loc; [exact Qr'|apply (p_leaves (dp_pre Pr))|auto|auto]. }
      destruct (@prod_vrun k id dp dq p q s4 vl dl vr dr Hk (proj2 Atdp4) (proj2 Atdq4) (proj2 Atp) (proj2 Atq) (conj L1 L2) (conj R1 R2) Hd) as (env' & Hvr & u & Eu & Mu).
      destruct (@dfinish lv id 1 s4 (prod_dev k id xr xc dp dq p q) env' u (bin_der G x k vl dl vr dr) [dp; dq; p; q]) as (z & s5 & Eun & Ex & Esl & At & Sl5 & Pi5 & Vc5 & Fi5 & Pd5 & Dc5 & Ef & K & Sz); auto; try apply Qr'.
      { destruct Hk as [-> | ->]; simpl; intros w Hw; repeat destruct Hw as [<-|Hw]; eauto; destruct Hw. }
      { destruct Hk as [-> | ->]; simpl; repeat constructor; simpl; intuition congruence. }
      { destruct Hk as [-> | ->]; simpl; repeat constructor; unfold no_self; simpl; intuition congruence. }
      { intros t (i & Hi & Hin). destruct Hk as [-> | ->]; destruct Hi as [<-|[<-|[<-|[<-|[<-|[]]]]]]; simpl in Hin;
          (destruct Hin as [Hin|[Hin|[]]]; first [discriminate|injection Hin as ->; simpl; auto]). }
      { intros t Ht. simpl in Ht. destruct Ht as [<-|[<-|[<-|[<-|[]]]]]; [exists (dloc l), dl|exists (dloc r), dr|exists (loc l), vl|exists (loc r), vr]; auto. }
      assert (M4v : forall o, vis s o -> vis s4 o) by (intros o V; apply (q_vis Qr'), (q_vis Ql'), (r_vis Qr), (r_vis Ql), V).
      exists (Datatypes.S (max (max nl nr) (max nl' nr'))), z, s5. split.
      * intros f Hf. destruct f as [|f]; [lia|]. cbn [MatEngine.devalF]. unfold ebind, eassert. rewrite (verify_ok WF (mder_val Hl) (mder_val Hr) Hd).
        rewrite El by lia. rewrite Er by lia. destruct Hk as [-> | ->]; rewrite El', Er' by lia; rewrite Eun, Ex; exact Esl.
      * constructor; auto.
        -- intros o V. rewrite Ef. auto.
        -- intros o V. rewrite Ef. apply (q_eval Qr'), (q_eval Ql'), (r_eval Qr), (r_eval Ql), V.
        -- intros o V. rewrite Ef. rewrite (proj1 (q_dev Qr' o)), (proj1 (q_dev Ql' o)). apply (r_dev Qr), (r_dev Ql), V.
        -- intros o Nb. rewrite Ef, (q_high Qr'), (q_high Ql'), (r_high Qr) by auto. now apply (r_high Ql).
        -- simpl. intros o Ho. rewrite Ef. apply (q_vis Qr'). apply in_app_or in Ho. destruct Ho as [Ho|Ho]; [apply (q_vis Ql'), Vl2, Ho|apply Vr3, Ho].
        -- simpl. auto.
        -- split; [exact (grew_trans (grew_trans (grew_trans (grew_trans (proj1 (r_frame Ql)) (proj1 (r_frame Qr))) (proj1 (q_frame Ql'))) (proj1 (q_frame Qr'))) (proj1 K))|].
           intros w q' Hw Eq. destruct (K2 w Hw) as [Hw2 Kq]. destruct (Kq q' Eq) as [A1 A2]. destruct (dkept_bin Hw) as (_ & _ & Nw).
           destruct (dkept_bin Hw2) as (Kl2 & Kr2 & _).
           destruct (proj2 (q_frame Ql') _ _ (dkept_kept Kl2) A1) as [A3 A4].
           assert (Kr3 : kept r s3 w) by (eapply kept_mono; [apply (q_vis Ql')|apply (q_eval Ql')|exact (dkept_kept Kr2)]).
           destruct (proj2 (q_frame Qr') _ _ Kr3 A3) as [A5 A6].
           destruct (proj2 K w q' Nw A5) as [A7 A8]. split; congruence.
        -- exact (stable_trans (stable_trans (stable_trans (stable_trans (r_sized Ql) (r_sized Qr)) (q_sized Ql')) (q_sized Qr')) Sz).
  - inversion Hv as [| | |k' id' a' va da Ha Hd]; subst.
    pose proof DP as [P Hpd Hdc].
    pose proof (p_nodes P) as Nd. simpl in Nd. inversion Nd as [|? ? Ni Nda]; subst.
    assert (Pa : dpre lv a s) by (eapply dpre_sub; [exact DP| | |auto|discriminate]; simpl; auto).
    destruct (IHa s va da Pa Ha) as (na & dp & s1 & Ea & Qa). pose proof (r_at Qa) as Atdp.
    pose proof (dpre_next Qa Pa) as Pa1.
    assert (Hh : forall b, host id = Some b -> lv <= rank b) by (intros b Eb; eapply (p_hosts P); [simpl; auto|exact Eb]).
    assert (Ndlp : forall k0, dloc a <> ONode id k0).
    { intros k0. eapply doperand_loc; [exact Qa|apply (p_leaves (dp_pre Pa))|auto|auto]. }
    destruct (mder_dims Ha) as [L1 L2]. destruct (mval_dims WF (mder_val Ha)) as [V1 V2].
    assert (Hcase : lin k \/ (exists c, k = USSum c) \/ rd k) by (destruct k; simpl; eauto 6).
    destruct (mval_pos WF (mder_val Ha)) as [PVr PVc].
    destruct Hcase as [Hk|[(c & ->)|Hk]].
    + destruct (@lin_vrun k id dp s1 va da Hk (proj2 Atdp) (conj L1 L2) PVr PVc) as (env' & Hvr & u & Eu & Mu).
      destruct (@dfinish lv id 1 s1 (ln_dev k id (mr va) (mc va) dp) env' u (un_der G rho x k va da) [dp]) as (z & s3 & Eun & Ex & Esl & At & Sl3 & Pi3 & Vc3 & Fi3 & Pd3 & Dc3 & Ef & K & Sz); auto; try apply Qa.
      { intros w Hw. destruct k; try contradiction; simpl in Hw; repeat (destruct Hw as [<-|Hw]; [eexists; reflexivity|]); destruct Hw. }
      { destruct k; try contradiction; simpl; repeat constructor; simpl; intuition congruence. }
      { destruct k; try contradiction; simpl; repeat constructor; unfold no_self; simpl; intuition congruence. }
      { intros t (i & Hi & Hin). destruct k; try contradiction; simpl in Hi; repeat (destruct Hi as [<-|Hi];
          [simpl in Hin; repeat (destruct Hin as [Hin|Hin]; [try discriminate; injection Hin as ->; simpl; auto|]); destruct Hin|]); destruct Hi. }
      { intros t [<-|[]]. exists (dloc a), da. auto. }
      assert (Dl : dloc (MUn k id a) = ONode id 1) by (destruct k; try contradiction; reflexivity).
      exists (Datatypes.S na), z, s3. split.
      * intros f Hf. destruct f as [|f]; [lia|]. cbn [MatEngine.devalF]. unfold ebind. rewrite V1, V2 in Ex.
        destruct k; try contradiction; rewrite Ea by lia; cbn [ln_dev] in Ex; rewrite Eun, Ex; exact Esl.
      * constructor; auto; rewrite ?Dl; auto.
        -- intros o V. rewrite Ef. apply (r_vis Qa), V.
        -- intros o V. rewrite Ef. apply (r_eval Qa), V.
        -- intros o V. rewrite Ef. apply (r_dev Qa), V.
        -- intros o Nb. rewrite Ef. now apply (r_high Qa).
        -- simpl. intros o Ho. rewrite Ef. exact (r_leaves Qa Ho).
        -- simpl. auto.
        -- split; [exact (grew_trans (proj1 (r_frame Qa)) (proj1 K))|].
           intros w q Hw Eq. destruct (dkept_un Hw) as (Ka & Nw). destruct (proj2 (r_frame Qa) _ _ Ka Eq) as [A1 A2].
           destruct (proj2 K w q Nw A1) as [A3 A4]. split; congruence.
        -- exact (stable_trans (r_sized Qa) Sz).
    + exists (Datatypes.S na), dp, s1. split.
      * intros f Hf. destruct f as [|f]; [lia|]. cbn [MatEngine.devalF]. apply Ea. lia.
      * constructor; try apply Qa; auto.
        -- pose proof (r_stable Qa) as Q. simpl. destruct (dloc a); auto. destruct Q as [Q|Q]; auto.
        -- split; [exact (proj1 (r_frame Qa))|]. intros w q Hw Eq. destruct (dkept_un Hw) as (Ka & Nw). exact (proj2 (r_frame Qa) _ _ Ka Eq).
    + destruct (eval_after Pa1 (fun o Ho => r_leaves Qa Ho) (mder_val Ha)) as (na' & p & s2 & Ea' & Qa' & Pd2 & Dc2 & Fx2).
      pose proof (q_at Qa') as Atp. pose proof (keeps_at (q_frame Qa') (dloc_kept a a s1) Atdp) as Atdp2.
      assert (Nlp : forall k0, loc a <> ONode id k0).
      { intros k0. eapply operand_loc; [exact Qa'|apply (p_leaves (dp_pre Pa))|auto|auto]. }
      destruct (@rd_vrun k id dp p s2 va da Hk (proj2 Atdp2) (proj2 Atp) (conj L1 L2) Hd PVr PVc) as (env' & Hvr & u & Eu & Mu).
      destruct (@dfinish lv id (rd_res k) s2 (rd_dev k id (mr va) (mc va) dp p) env' u (un_der G rho x k va da) [dp; p]) as (z & s3 & Eun & Ex & Esl & At & Sl3 & Pi3 & Vc3 & Fi3 & Pd3 & Dc3 & Ef & K & Sz); auto; try apply Qa'.
      { intros w Hw. destruct k; try contradiction; simpl in Hw; repeat (destruct Hw as [<-|Hw]; [eexists; reflexivity|]); destruct Hw. }
      { destruct k; try contradiction; simpl; repeat constructor; simpl; intuition congruence. }
      { destruct k; try contradiction; simpl; repeat constructor; unfold no_self; simpl; intuition congruence. }
      { intros t (i & Hi & Hin). destruct k; try contradiction; simpl in Hi; repeat (destruct Hi as [<-|Hi];
          [simpl in Hin; repeat (destruct Hin as [Hin|Hin]; [try discriminate; injection Hin as ->; simpl; auto|]); destruct Hin|]); destruct Hi. }
      { intros t [<-|[<-|[]]]; [exists (dloc a), da|exists (loc a), va]; auto. }
      exists (Datatypes.S (max na na')), z, s3. split.
      * intros f Hf. destruct f as [|f]; [lia|]. pose proof (un_verify_ok WF (mder_val Ha) Hd) as Uv. rewrite V1, V2 in Ex. cbn [MatEngine.devalF]. unfold ebind, eassert.
        destruct k; try contradiction; rewrite ?Uv; rewrite Ea, Ea' by lia; cbn [rd_dev] in Ex; rewrite Eun, Ex; exact Esl.
      * assert (Dl : dloc (MUn k id a) = ONode id (rd_res k)) by (destruct k; try contradiction; reflexivity).
        constructor; auto; rewrite ?Dl; auto.
        -- intros o V. rewrite Ef. apply (q_vis Qa'), (r_vis Qa), V.
        -- intros o V. rewrite Ef. apply (q_eval Qa'), (r_eval Qa), V.
        -- intros o V. rewrite Ef. rewrite (proj1 (q_dev Qa' o)). apply (r_dev Qa), V.
        -- intros o Nb. rewrite Ef, (q_high Qa') by auto. now apply (r_high Qa).
        -- simpl. intros o Ho. rewrite Ef. apply (q_vis Qa'), (r_leaves Qa), Ho.
        -- simpl. auto.
        -- split; [exact (grew_trans (grew_trans (proj1 (r_frame Qa)) (proj1 (q_frame Qa'))) (proj1 K))|].
           intros w q Hw Eq. destruct (dkept_un Hw) as (Ka & Nw). destruct (proj2 (r_frame Qa) _ _ Ka Eq) as [A1 A2].
           assert (Ka1 : kept a s1 w) by (eapply kept_mono; [apply (r_vis Qa)|apply (r_eval Qa)|exact (dkept_kept Ka)]).
           destruct (proj2 (q_frame Qa') _ _ Ka1 A1) as [A3 A4]. destruct (proj2 K w q Nw A3) as [A5 A6]. split; congruence.
        -- exact (stable_trans (stable_trans (r_sized Qa) (q_sized Qa')) Sz).
Qed.
End Deval.
