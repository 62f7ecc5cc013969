(** * vec: proofs *)

From Coq Require Import List Arith Bool Lia.
From Verif Require Import Num MatMem Kernels KernelFacts KernelProofs KernelBlocks KernelMore Registry KernelStep Backend Square Slots Exec ConvProofs MatEngine MatGraph MatLeaf MatEval MatDeval MatHist MatSpec MatCalls Vec.
Import ListNotations.
Set Implicit Arguments.
Unset Strict Implicit.

(** ** Reshaping the matrix behind a pointer *)
Section Reshape.
Context {T : Type} {N : Num T}.
Notation mat := (mat T).
(** The same entries in storage order, in R rows and C columns. *)
Definition refold (R C : nat) (v : mat) : mat :=
  Mat R C (fun i j => mf v ((i * C + j) / mc v) ((i * C + j) mod mc v)).

Lemma refold_meq R C (v w : mat) : meq v w -> R * C = mr v * mc v -> 0 < mc v -> meq (refold R C v) (refold R C w).
Proof.
  intros (E1 & E2 & E3) Hn Hc. split; [reflexivity|]. split; [reflexivity|]. simpl. intros i j Hi Hj. rewrite <- E2.
  assert (Q : i * C + j < mr v * mc v) by (rewrite <- Hn; now apply idx_bound).
  destruct (divmod_lt Hc Q) as (Q1 & Q2 & _). now apply E3.
Qed.

Lemma reshape_wrote (m : mem T) p v R C : tame m -> slot_ok m (Some p) -> holds m p v -> 0 < R -> 0 < C -> R * C = mr v * mc v ->
  exists m', reshape p R C m = Ok (tt, m') /\ wrote m (Some p) p (refold R C v) m'.
Proof.
  intros Tm So Hh PR PC En. pose proof Tm as (Gm & Sp & Ro). pose proof (tame_pos Tm Hh) as [PV PW].
  pose proof Hh as ((k & sp & b & Hg & Lb) & V). pose proof (get_lt Hg) as Lt.
  set (ob := MkObj k sp R C b). exists (put m p ob).
  assert (Er : reshape p R C m = Ok (tt, put m p ob)).
  { unfold reshape, bind, deref, assert. rewrite Hg. cbn [o_rows o_cols o_nidx o_space o_buf]. rewrite En, Nat.eqb_refl. reflexivity. }
  split; [exact Er|].
  assert (Gp : get (put m p ob) p = Some ob) by (apply get_put_same; exact Lt).
  assert (Ho : forall q, q <> p -> get (put m p ob) q = get m q) by (intros q Nq; apply get_put_other; auto).
  apply (@stored_wrote T N m (put m p ob) (Some p) p R C); auto; [|exact (pres_reshape Sp Er)].
  split; [exists k, sp, b; split; [exact Gp|lia]|]. split.
  { intros i j Hi Hj. unfold val. rewrite Gp. cbn [o_cols o_buf ob].
    assert (Q : i * C + j < mr v * mc v) by (rewrite <- En; now apply idx_bound).
    destruct (divmod_lt PW Q) as (Q1 & Q2 & Q3). rewrite Q3 at 1. cbn [refold mf]. rewrite <- (V _ _ Q1 Q2). unfold val. rewrite Hg. reflexivity. }
  split; [unfold num_elem; rewrite Hg; cbn [o_rows o_cols]; rewrite <- En, Nat.eqb_refl; reflexivity|].
  split; [exact Ho|]. split; [reflexivity|]. split; [eapply numbered_put; eauto|].
  intros q o' Hq. destruct (Nat.eq_dec q p) as [->|Nq].
  - rewrite Gp in Hq. injection Hq as <-. destruct (Gm _ _ Hg) as (_ & _ & L' & L2). cbn in *. repeat apply conj; auto. congruence.
  - rewrite Ho in Hq by auto. exact (Gm _ _ Hq).
Qed.
End Reshape.

(** ** Evaluation *)
Section Syn.
Context {T : Type} {N : Num T}.
(** The operators and matrices of an expression: vec counts as an operator. *)
Fixpoint shape (e : vexp T) : mexp T :=
  match e with
  | VE e => e
  | VVec id a => MUn (USProd n1) id (shape a)
  | VBin k id l r => MBin k id (shape l) (shape r)
  | VUn k id a => MUn k id (shape a)
  end.
(** The value of e is kept in a matrix that belongs to an operator of e. *)
Fixpoint own (e : vexp T) : Prop :=
  match e with
  | VE (MLeaf _) => False
  | VE _ => True
  | VVec _ a => own a
  | _ => True
  end.
(** vec is applied to operators only, not to the user's matrices. *)
Fixpoint tidy (e : vexp T) : Prop :=
  match e with
  | VE _ => True
  | VVec _ a => own a /\ tidy a
  | VBin _ _ l r => tidy l /\ tidy r
  | VUn _ _ a => tidy a
  end.
Variable G : graph T.
Definition vun_fits (k : uop T) (a : vexp T) : Prop :=
  match k with USProdE s _ | USSumE s _ => g_kind G s = LEnt | UInv _ | UDet _ _ => vrows G a = vcols G a | _ => True end.
Fixpoint vloc (e : vexp T) : owner :=
  match e with
  | VE e => loc G e
  | VVec _ a => vloc a
  | VBin _ id _ _ | VUn _ id _ => ONode id 0
  end.
Lemma own_loc e : own e -> exists i, vloc e = ONode i 0 /\ In i (nodes (shape e)).
Proof.
  induction e as [e|id a IH|k id l IHl r IHr|k id a IHa]; simpl; intros H; eauto.
  - destruct e as [o|k id l r|k id a]; [destruct H|exists id; simpl; auto..].
  - destruct (IH H) as (i & E & Hi). eauto.
Qed.
(** Dimensions match, and named matrices are built from expressions whose dimensions match. *)
Inductive vfits : vexp T -> Prop :=
| vfits_plain e : fits G e -> vfits (VE e)
| vfits_vec id a : vfits a -> vfits (VVec id a)
| vfits_prod id l r : vfits l -> vfits r -> vcols G l = vrows G r -> vfits (VBin BProd id l r)
| vfits_zip k id l r : k <> BProd -> vfits l -> vfits r -> vrows G l = vrows G r -> vcols G l = vcols G r -> vfits (VBin k id l r)
| vfits_un k id a : vfits a -> vun_fits k a -> vfits (VUn k id a).
Variable rho : env T.
Inductive vmval : vexp T -> mat T -> Prop :=
| vmval_plain e v : mval G rho e v -> vmval (VE e) v
| vmval_vec id a v : vmval a v -> vmval (VVec id a) (refold (mr v * mc v) 1 v)
| vmval_bin k id l r v w : vmval l v -> vmval r w -> bin_dims k v w -> vmval (VBin k id l r) (bin_val k v w)
| vmval_un k id a v : vmval a v -> un_dims k v -> vmval (VUn k id a) (un_val rho k v).

(** As a matrix. *)
Definition vmat_of e (F : nat -> nat -> T) : mat T := Mat (vrows G e) (vcols G e) F.
Lemma vden_total e : vfits e -> exists F, vden G rho e F.
Proof.
  induction 1 as [e Hf|id a Ha (F & HF)|id l r Hl (F & HF) Hr (F' & HF') E|k id l r Nk Hl (F & HF) Hr (F' & HF') E1 E2|k id a Ha (F & HF) Hu].
  - destruct (den_total rho Hf) as (F & HF). exists F. now constructor.
  - eexists. constructor. exact HF.
  - eexists. eapply vden_prod; eauto.
  - destruct k; [..|congruence|]; eexists; [eapply vden_sum|eapply vden_sub|eapply vden_had]; eauto.
  - destruct k; eexists; [eapply vden_sprode|eapply vden_ssume|eapply vden_tr|eapply vden_sprod|eapply vden_ssum|eapply vden_fun|eapply vden_inv|eapply vden_determinant]; eauto.
Qed.
End Syn.

Section VDen.
Context {T : Type} {N : Num T}.
Variable L : NumLaws N.
Variable G : graph T.
Variable host : nat -> option obj.
Variable rank : obj -> nat.
Hypothesis WF : wf_graph G host rank.
Variable rho : env T.
Lemma vmval_dims e v : vmval G rho e v -> mr v = vrows G e /\ mc v = vcols G e.
Proof.
  induction 1 as [e v Hv|id a v Ha [I1 I2]|k id l r v w Hl [L1 L2] Hr [R1 R2] Hd|k id a v Ha [I1 I2] Hu].
  - exact (mval_dims WF Hv).
  - change (mr v * mc v = vrows G a * vcols G a /\ 1 = 1). split; congruence.
  - change (mr (bin_val k v w) = vrows G l /\ mc (bin_val k v w) = vcols G r).
    destruct k; cbn [bin_dims bin_val madd msub mhad mzip mmul mr mc] in *; unfold same_dims in *; intuition congruence.
  - destruct k; cbn [un_dims un_val mtr mmap minv mdet mr mc] in *; split; first [assumption|reflexivity|congruence].
Qed.
Lemma vmval_pos e v : vmval G rho e v -> 0 < mr v /\ 0 < mc v.
Proof.
  induction 1 as [e v Hv|id a v Ha [I1 I2]|k id l r v w Hl [L1 L2] Hr [R1 R2] Hd|k id a v Ha [I1 I2] Hu].
  - exact (mval_pos WF Hv).
  - simpl. split; [now apply Nat.mul_pos_pos|lia].
  - destruct k; simpl in *; unfold same_dims in *; intuition.
  - destruct k; simpl; intuition.
Qed.
Lemma vverify_ok k l r v w : vmval G rho l v -> vmval G rho r w -> bin_dims k v w -> vverify G k l r = true.
Proof.
  intros Hl Hr Hd. destruct (vmval_dims Hl) as [L1 L2], (vmval_dims Hr) as [R1 R2].
  destruct k; simpl in *; unfold same_dims in *; rewrite <- ?L1, <- ?L2, <- ?R1, <- ?R2;
    rewrite ?andb_true_iff, ?Nat.eqb_eq; intuition.
Qed.
Lemma vun_verify_ok k a v : vmval G rho a v -> un_dims k v -> vun_verify G k a = true.
Proof.
  intros Ha Hd. destruct (vmval_dims Ha) as [D1 D2]. destruct k; simpl in *; auto; apply Nat.eqb_eq; congruence.
Qed.
Lemma vmval_fun e v : vmval G rho e v -> forall v', vmval G rho e v' -> v = v'.
Proof.
  induction 1 as [e v H|id a v H IH|k id l r v w H1 IH1 H2 IH2 Hd|k id a v H IH Hu]; intros v' Hv'; inversion Hv' as [? ? Q|? ? ? Q|? ? ? ? ? ? Q1 Q2 Q3|? ? ? ? Q Qu]; subst.
  - exact (mval_fun H Q).
  - now rewrite (IH _ Q).
  - now rewrite (IH1 _ Q1), (IH2 _ Q2).
  - now rewrite (IH _ Q).
Qed.
Theorem vden_vmval e : vfits G e -> forall F, vden G rho e F -> exists v, vmval G rho e v /\ meq v (vmat_of G e F).
Proof.
  induction 1 as [e Hf|id a Ha IH|id l r Hl IHl Hr IHr E|k id l r Nk Hl IHl Hr IHr E1 E2|k id a Ha IH Hu]; intros F0 HF.
  - inversion HF; subst. destruct (den_mval L WF Hf H0) as (v & Hv & Mv). exists v. split; [now constructor|exact Mv].
  - inversion HF as [|? ? F Fa| | | | | | | | | | | |]; subst. destruct (IH F Fa) as (v & Hv & Mv). exists (refold (mr v * mc v) 1 v). split; [now constructor|].
    destruct (vmval_dims Hv) as [D1 D2], (vmval_pos Hv) as [P1 P2].
    eapply meq_trans; [apply (refold_meq Mv); [apply Nat.mul_1_r|exact P2]|].
    split; [change (mr v * mc v = vrows G a * vcols G a); congruence|]. split; [reflexivity|].
    cbn [refold vmat_of mf mr mc]. intros i j Hi Hj. replace (i * 1 + j) with i by lia. reflexivity.
  - inversion HF as [| | | | |? ? ? F F' Fl Fr| | | | | | | |]; subst. destruct (IHl F Fl) as (v & Hv & Mv), (IHr F' Fr) as (w & Hw & Mw).
    destruct (vmval_dims Hv) as [D1 D2], (vmval_dims Hw) as [D3 D4].
    exists (mmul v w). split; [apply (@vmval_bin T N G rho BProd id l r v w Hv Hw); simpl; congruence|].
    eapply meq_trans; [apply (meq_mul Mv Mw); congruence|]. split; [reflexivity|]. split; [reflexivity|]. intros i j Hi Hj. reflexivity.
  - assert (exists F F' op, vden G rho l F /\ vden G rho r F' /\ F0 = (fun i j => op (F i j) (F' i j)) /\
      forall v w, same_dims v w -> bin_dims k v w /\ bin_val k v w = mzip op v w) as (F & F' & op & Fl & Fr & -> & Hop).
    { destruct k; [| |congruence|]; inversion HF; subst; do 3 eexists; repeat apply conj; eauto. }
    destruct (IHl F Fl) as (v & Hv & Mv), (IHr F' Fr) as (w & Hw & Mw). destruct (vmval_dims Hv) as [D1 D2], (vmval_dims Hw) as [D3 D4].
    assert (Sd : same_dims v w) by (split; congruence). destruct (Hop v w Sd) as [Hd Eb].
    exists (bin_val k v w). split; [now constructor|]. rewrite Eb. eapply meq_trans; [apply (meq_zip op Mv Mw Sd)|].
    split; [reflexivity|]. split; [exact E2|]. intros i j Hi Hj. reflexivity.
  - assert (exists F, vden G rho a F) as (F & Fa) by (inversion HF; subst; eauto).
    destruct (IH F Fa) as (v & Hv & Mv). exists (un_val rho k v).
    assert (Ud : un_dims k v) by (destruct (vmval_dims Hv) as [D1 D2]; destruct k; simpl in *; congruence || exact Logic.I). split; [now constructor|].
    assert (Fd : forall F', vden G rho a F' -> meq v (vmat_of G a F')).
    { intros F' Fa'. destruct (IH F' Fa') as (v' & Hv' & Mv').
      rewrite (vmval_fun Hv Hv'). exact Mv'. }
    destruct k; inversion HF as [| | | | | |? ? F2 Fa2|? ? ? F2 Fa2|? ? ? F2 Fa2|? ? ? ? F2 Fa2|? ? ? ? F2 Fa2|? ? ? ? F2 Fa2|? ? ? F2 Fa2|? ? ? ? F2 Fa2]; subst; specialize (Fd _ Fa2); clear Mv; rename Fd into Mv; simpl.
    + eapply meq_trans; [apply (meq_map _ Mv)|]. apply meq_refl.
    + eapply meq_trans; [apply (meq_map _ Mv)|]. apply meq_refl.
    + eapply meq_trans; [apply (meq_tr Mv)|]. apply meq_refl.
    + eapply meq_trans; [apply (meq_map _ Mv)|]. apply meq_refl.
    + eapply meq_trans; [apply (meq_map _ Mv)|]. apply meq_refl.
    + eapply meq_trans; [apply (meq_map _ Mv)|]. apply meq_refl.
    + eapply meq_trans; [apply (meq_inv _ Mv)|]. simpl in Hu. split; [reflexivity|]. split; [reflexivity|]. intros; unfold minv, inverse, row_major, flat, vmat_of; cbn [mf mr mc]; rewrite <- ?Hu; reflexivity.
    + eapply meq_trans; [apply (meq_det _ Mv)|]. simpl in Hu. split; [reflexivity|]. split; [reflexivity|]. intros; unfold mdet, row_major, flat, vmat_of; cbn [mf mr mc]; rewrite <- ?Hu; reflexivity.
Qed.
End VDen.

Section VEvalOk.
Context {T : Type} {N : Num T}.
Variable S : sched T.
Hypothesis VS : valid_sched S.
Variable B : backend (T := T).
Hypothesis BV : value_ok B.
Hypothesis BK : kron_ok B \/ kron_zeroed_ok B.
Variable G : graph T.
Variable host : nat -> option obj.
Variable rank : obj -> nat.
Hypothesis WF : wf_graph G host rank.
Variable rho : env T.
Variable U : obj -> Prop.
Hypothesis UC : forall o id e y o', U o -> g_kind G o = KExp id e y -> In o' (leaves (item id e y)) -> U o'.
Notation mat := (mat T).
Notation st := (st (T := T)).
Implicit Types (s : st) (e : vexp T).
Notation vis s o := (f_vis (fl s o) = true).
Notation pre := (pre G host rank rho U).
Notation hosts_ok := (hosts_ok host rank).
Notation kept := (kept host).
Notation below := (below rank U).
Notation PI := (PI G rank rho U).
Notation VC := (VC G rank U).
Notation vloc := (vloc G).
Notation veval := (veval S B G rho).

Record vpost (lv : nat) e s (p : ptr) (v : mat) s' : Prop := {
  w_slots : slots (mm s') (ar s') none;
  w_fi : FI s';
  w_pi : PI lv s';
  w_vc : VC lv s';
  w_at : at_ s' (vloc e) p v;
  w_vis : forall o, vis s o -> vis s' o;
  w_eval : forall o, f_eval (fl s o) = true -> f_eval (fl s' o) = true;
  w_high : forall o, ~ below lv o -> fl s' o = fl s o;
  w_leaves : forall o, In o (leaves (shape e)) -> vis s' o;
  w_stable : match vloc e with
             | ORes o => f_eval (fl s' o) = true
             | ONode i k => k = 0 /\ (In i (nodes (shape e)) \/ exists o, In o (leaves (shape e)) /\ host i = Some o /\ vis s' o)
             | ODres _ => False
             end;
  w_frame : keeps (kept (shape e) s) s s';
  w_dres : forall o, ar s' (ODres o) = ar s (ODres o)
}.

Lemma vpost_plain lv (e : mexp T) s p v s' : post G host rank rho U lv e s p v s' -> vpost lv (VE e) s p v s'.
Proof.
  intros Q. constructor; try apply Q. pose proof (q_stable Q) as H. pose proof (loc_0 G e) as Z. simpl in *.
  destruct (loc G e); auto.
Qed.
Lemma voperand_loc lv e s s1 p v id k : vpost lv e s p v s1 -> (forall o, In o (leaves (shape e)) -> below lv o) -> ~ In id (nodes (shape e)) ->
  (forall a, host id = Some a -> lv <= rank a) -> vloc e <> ONode id k.
Proof.
  intros P Hl Hn Hh E. pose proof (w_stable P) as Q. rewrite E in Q. destruct Q as [_ [Q|(o & Ho & Eo & _)]]; [auto|].
  specialize (Hh _ Eo). destruct (Hl _ Ho) as [_ R]. lia.
Qed.
Lemma voperand_kept lv e s s1 p v e2 : vpost lv e s p v s1 -> pre lv (shape e) s -> hosts_ok lv (shape e2) s1 ->
  (forall i, In i (nodes (shape e)) -> ~ In i (nodes (shape e2))) -> kept (shape e2) s1 (vloc e).
Proof.
  intros P Pe H2 Dj. pose proof (w_stable P) as Q. unfold kept.
  destruct (vloc e) as [i k|o|o]; [|exact Q|tauto]. right. destruct Q as [_ [Q|(o & Ho & Eo & Vo)]].
  - split; [auto|]. intros o Eo. destruct (p_hosts Pe Q Eo) as [V _]. exact (w_vis P V).
  - split.
    + intros Hi. destruct (H2 _ _ Hi Eo) as [_ R]. destruct (p_leaves Pe Ho) as [_ R']. lia.
    + intros o' Eo'. congruence.
Qed.
Lemma vpre_next lv e s s1 p v a : vpost lv e s p v s1 -> pre lv a s -> pre lv a s1.
Proof.
  intros Q P. constructor; try apply Q; try apply P.
  intros i o Hi Eo. destruct (p_hosts P Hi Eo) as [V R]. split; [exact (w_vis Q V)|exact R].
Qed.

(** Reshaping the matrix in place w. *)
Lemma reshape_step s w p v R C : slots (mm s) (ar s) none -> at_ s w p v -> 0 < R -> 0 < C -> R * C = mr v * mc v ->
  exists m', reshape p R C (mm s) = Ok (tt, m') /\ slots m' (ar s) none /\ holds m' p (refold R C v) /\
    keeps (fun w' => w' <> w) s (St m' (ar s) (fl s)).
Proof.
  intros Sl [Ew Hh] PR PC En.
  destruct (@reshape_wrote T N (mm s) p v R C (sl_tame Sl)) as (m' & Er & W); auto.
  { rewrite <- Ew. apply (slots_ok _ Sl). }
  rewrite <- Ew in W. destruct (slot_write owner_eq Sl W) as (Sl' & Hh' & _ & Fr). exists m'. split; [exact Er|]. split; [|split; [exact Hh'|]].
  - assert (Q : forall k, sset owner_eq (ar s) w p k = ar s k).
    { intros k. unfold sset. destruct (owner_eq k w) as [->|]; congruence. }
    constructor; [apply Sl'| | |apply Sl'].
    + intros k q. rewrite <- Q. apply (sl_slot Sl').
    + intros k k' q. rewrite <- !Q. apply (sl_inj Sl').
  - split.
    { split; [|split; [|split]]; cbn [mm ar]; [apply W|auto| |]; intros q Hq; [apply (ev_special (wr_evolves W) Hq)|]. intros Hn. apply Fr; [exact Hq|apply Hn]. }
    intros w' q Nw Eq. cbn [ar mm]. split; [exact Eq|]. destruct (sl_slot Sl Eq) as ((ob & Ho) & _). apply Fr; [exact (get_lt Ho)|].
    exact (other_not_slot Sl Nw Eq).
Qed.

Theorem veval_ok lv : forall e s v, tidy e -> pre lv (shape e) s -> vmval G rho e v ->
  exists n p s', (forall f, n <= f -> veval f e s = EOk (p, s')) /\ vpost lv e s p v s'.
Proof.
  induction e as [e|id a IHa|k id l IHl r IHr|k id a IHa]; intros s v Ht P Hv.
  - inversion Hv as [? ? Q| | |]; subst. destruct (eval_ok VS BV BK WF UC P Q) as (n & p & s' & E & Qp).
    exists n, p, s'. split; [exact E|]. now apply vpost_plain.
  - destruct Ht as [Ow Ht]. inversion Hv as [|? ? va Ha| |]; subst. cbn [shape] in P.
    pose proof (p_nodes P) as Nd. simpl in Nd. inversion Nd as [|? ? Ni Nda]; subst.
    assert (Pa : pre lv (shape a) s) by (eapply pre_sub; [exact P| | |auto|discriminate]; simpl; auto).
    destruct (IHa s va Ht Pa Ha) as (na & p & s1 & Ea & Qa). destruct (vmval_pos WF Ha) as [P1 P2]. destruct (vmval_dims WF Ha) as [D1 D2].
    destruct (@reshape_step s1 (vloc a) p va (mr va * mc va) 1) as (m' & Er & Sl' & Hh & K); try apply Qa; [now apply Nat.mul_pos_pos|lia|lia|].
    destruct (own_loc G Ow) as (i & El & Hi).
    exists na, p, (St m' (ar s1) (fl s1)). split.
    + intros f Hf. cbn [Vec.veval]. unfold ebind. rewrite (Ea f Hf). unfold lift. rewrite <- D1, <- D2, Er. reflexivity.
    + constructor; try apply Qa; auto.
      * eapply PI_keep; [apply Qa|reflexivity|]. eapply keeps_weaken; [exact K|]. intros w (o & Bo & ->). rewrite El.
        apply (loc_not_node WF (lv := lv) Bo). intros b Eb. exact (proj2 (p_hosts Pa Hi Eb)).
      * split; [apply Qa|exact Hh].
      * cbn [VecOk.vloc]. rewrite El. cbn [shape nodes]. split; [reflexivity|]. left. now right.
      * eapply keeps_trans; [eapply keeps_weaken; [exact (w_frame Qa)|intros w Hw; apply (kept_un BK Hw)]|intros w Hw; exact Hw|].
        eapply keeps_weaken; [exact K|]. intros w Hw. rewrite El. intros ->. destruct (kept_un BK Hw) as [[Q|[Q _]] _]; auto.
  - destruct Ht as [Tl Tr]. inversion Hv as [| |k' id' l' r' vl vr Hl Hr Hd|]; subst. cbn [shape] in P.
    pose proof (p_nodes P) as Nd. simpl in Nd. inversion Nd as [|? ? Ni Nd']; subst.
    destruct (NoDup_app_inv Nd') as (Ndl & Ndr & Dj).
    assert (Pl : pre lv (shape l) s) by (eapply pre_sub; [exact P| | |auto|intros i b z Hi; apply not_item; [exact Ni|apply in_or_app; auto]]; simpl; intros; rewrite ?in_app_iff; auto).
    assert (Pr : pre lv (shape r) s) by (eapply pre_sub; [exact P| | |auto|intros i b z Hi; apply not_item; [exact Ni|apply in_or_app; auto]]; simpl; intros; rewrite ?in_app_iff; auto).
    destruct (IHl s vl Tl Pl Hl) as (nl & p & s1 & El & Ql).
    pose proof (vpre_next Ql Pr) as Pr1.
    destruct (IHr s1 vr Tr Pr1 Hr) as (nr & q & s2 & Er & Qr).
    pose proof (keeps_at (w_frame Qr) (voperand_kept Ql Pl (p_hosts Pr1) Dj) (w_at Ql)) as Atp. pose proof (w_at Qr) as Atq.
    assert (Hh : forall a, host id = Some a -> lv <= rank a) by (intros a Ea; eapply (p_hosts P); [simpl; auto|exact Ea]).
    assert (Nlp : forall k0, vloc l <> ONode id k0).
    { intros k0. eapply voperand_loc; [exact Ql|apply (p_leaves Pl)| |auto]. intros Q. apply Ni. apply in_or_app; auto. }
    assert (Nlq : forall k0, vloc r <> ONode id k0).
    { intros k0. eapply voperand_loc; [exact Qr|apply (p_leaves Pr)| |auto]. intros Q. apply Ni. apply in_or_app; auto. }
    destruct (@bin_vrun T N B BK k id p q s2 vl vr (proj2 Atp) (proj2 Atq) Hd) as (env' & Hvr & u & Eu & Mu).
    destruct (@finish T N S VS B BV BK G host rank WF rho U lv id s2 (bin_eval k id p q) env' u (bin_val k vl vr) [p; q]) as (z & s3 & Eun & Ex & Esl & At & Sl3 & Pi3 & Vc3 & Fi3 & Ef & K & Un & _); auto; try apply Qr.
    { unfold bin_eval. repeat constructor. unfold no_self. simpl. destruct k; simpl; intuition discriminate. }
    { intros t (i & [<-|[]] & Hin). destruct k; simpl in Hin; destruct Hin as [Hin|[Hin|[]]]; injection Hin as ->; simpl; auto. }
    { intros d op [[= <- <-]|[]]. destruct k; reflexivity. }
    { intros t [<-|[<-|[]]]; [exists (vloc l), vl|exists (vloc r), vr]; auto. }
    exists (max nl nr), z, s3. split.
    + intros f Hf. cbn [Vec.veval]. unfold ebind, eassert. rewrite (vverify_ok WF Hl Hr Hd).
      rewrite El by lia. rewrite Er by lia. rewrite Eun, Ex. exact Esl.
    + constructor; auto.
      * intros o V. rewrite Ef. apply (w_vis Qr), (w_vis Ql), V.
      * intros o V. rewrite Ef. apply (w_eval Qr), (w_eval Ql), V.
      * intros o Nb. rewrite Ef, (w_high Qr) by auto. now apply (w_high Ql).
      * simpl. intros o Ho. rewrite Ef. apply in_app_or in Ho. destruct Ho as [Ho|Ho]; [apply (w_vis Qr), (w_leaves Ql), Ho|exact (w_leaves Qr Ho)].
      * simpl. auto.
      * cbn [shape]. eapply keeps_trans; [eapply keeps_weaken; [exact (w_frame Ql)|intros w Hw; apply (kept_bin BK Hw)]| |].
        { intros w Hw. exact Hw. }
        eapply keeps_trans; [eapply keeps_weaken; [exact (w_frame Qr)|]|intros w Hw; exact Hw|].
        -- intros w Hw. eapply kept_mono; [apply (w_vis Ql)|apply (w_eval Ql)|]. apply (kept_bin BK Hw).
        -- eapply keeps_weaken; [exact K|]. intros w Hw. apply (kept_bin BK Hw).
      * intros o. rewrite Un by discriminate. rewrite (w_dres Qr). apply (w_dres Ql).
  - inversion Hv as [| | |k' id' a' va Ha Hd]; subst. cbn [shape] in P.
    pose proof (p_nodes P) as Nd. simpl in Nd. inversion Nd as [|? ? Ni Nda]; subst.
    assert (Pa : pre lv (shape a) s) by (eapply pre_sub; [exact P| | |auto|discriminate]; simpl; auto).
    destruct (IHa s va Ht Pa Ha) as (na & p & s1 & Ea & Qa). pose proof (w_at Qa) as Atp.
    assert (Hh : forall b, host id = Some b -> lv <= rank b) by (intros b Eb; eapply (p_hosts P); [simpl; auto|exact Eb]).
    assert (Nlp : forall k0, vloc a <> ONode id k0).
    { intros k0. eapply voperand_loc; [exact Qa|apply (p_leaves Pa)|auto|auto]. }
    destruct (@un_vrun T N rho k id p s1 va (proj2 Atp) Hd) as (env' & Hvr & u & Eu & Mu).
    destruct (@finish T N S VS B BV BK G host rank WF rho U lv id s1 (un_eval rho k id p) env' u (un_val rho k va) [p]) as (z & s3 & Eun & Ex & Esl & At & Sl3 & Pi3 & Vc3 & Fi3 & Ef & K & Un & _); auto; try apply Qa.
    { unfold un_eval. repeat constructor. unfold no_self. simpl. destruct k; simpl; intuition discriminate. }
    { intros t (i & [<-|[]] & Hin). destruct k; simpl in Hin; destruct Hin as [Hin|[]]; injection Hin as ->; simpl; auto. }
    { intros d op [[= <- <-]|[]]. destruct k; reflexivity. }
    { intros t [<-|[]]. exists (vloc a), va. auto. }
    exists na, z, s3. split.
    + intros f Hf. cbn [Vec.veval]. unfold ebind, eassert. rewrite (vun_verify_ok WF Ha Hd).
      rewrite Ea by lia. rewrite Eun, Ex. exact Esl.
    + constructor; auto.
      * intros o V. rewrite Ef. apply (w_vis Qa), V.
      * intros o V. rewrite Ef. apply (w_eval Qa), V.
      * intros o Nb. rewrite Ef. now apply (w_high Qa).
      * simpl. intros o Ho. rewrite Ef. exact (w_leaves Qa Ho).
      * simpl. auto.
      * cbn [shape]. eapply keeps_trans; [eapply keeps_weaken; [exact (w_frame Qa)|intros w Hw; apply (kept_un BK Hw)]|intros w Hw; exact Hw|].
        eapply keeps_weaken; [exact K|]. intros w Hw. apply (kept_un BK Hw).
      * intros o. rewrite Un by discriminate. apply (w_dres Qa).
Qed.
End VEvalOk.
