(** * Evaluation of matrix expressions: proofs *)

From Coq Require Import List Arith Bool Lia.
From Verif Require Import Num MatMem Kernels KernelFacts KernelProofs KernelBlocks KernelMore Registry KernelStep Backend Square Slots Exec ConvProofs MatEngine MatGraph MatLeaf.
Import ListNotations.
Set Implicit Arguments.
Unset Strict Implicit.

(** ** Operations respect equality of matrices *)
Section Congr.
Context {T : Type} {N : Num T}.
Notation mat := (mat T).
Lemma meq_zip op (v v' w w' : mat) : meq v v' -> meq w w' -> same_dims v w -> meq (mzip op v w) (mzip op v' w').
Proof.
  intros (A1 & A2 & A3) (B1 & B2 & B3) (D1 & D2). split; [exact A1|]. split; [exact A2|]. simpl. intros i j Hi Hj.
  f_equal; [now apply A3|]. apply B3; congruence.
Qed.
Lemma meq_map f (v v' : mat) : meq v v' -> meq (mmap f v) (mmap f v').
Proof. intros (A1 & A2 & A3). split; [exact A1|]. split; [exact A2|]. simpl. intros i j Hi Hj. f_equal. now apply A3. Qed.
Lemma meq_mul (v v' w w' : mat) : meq v v' -> meq w w' -> mc v = mr w -> meq (mmul v w) (mmul v' w').
Proof.
  intros (A1 & A2 & A3) (B1 & B2 & B3) D. split; [exact A1|]. split; [exact B2|]. simpl. intros i j Hi Hj. rewrite <- A2.
  apply sum_n_ext. intros k Hk. f_equal; [now apply A3|]. apply B3; congruence.
Qed.
Lemma meq_tr (v v' : mat) : meq v v' -> meq (mtr v) (mtr v').
Proof. intros (A1 & A2 & A3). split; [exact A2|]. split; [exact A1|]. simpl. intros i j Hi Hj. now apply A3. Qed.
Lemma meq_kron (v v' w w' : mat) : meq v v' -> meq w w' -> 0 < mr w -> 0 < mc w -> meq (mkron v w) (mkron v' w').
Proof.
  intros (A1 & A2 & A3) (B1 & B2 & B3) P1 P2. split; [simpl; congruence|]. split; [simpl; congruence|]. simpl. intros i j Hi Hj.
  rewrite <- B1, <- B2. destruct (divmod_lt P1 Hi) as (Q1 & Q2 & _), (divmod_lt P2 Hj) as (Q3 & Q4 & _).
  f_equal; [now apply A3|now apply B3].
Qed.
Lemma meq_dtr Rf Cf Rx Cx (v v' : mat) : meq v v' -> mr v = Rf * Rx -> mc v = Cf * Cx -> 0 < Rx -> 0 < Cx ->
  meq (mdtr Rf Cf Rx Cx v) (mdtr Rf Cf Rx Cx v').
Proof.
  intros (A1 & A2 & A3) D1 D2 P1 P2. split; [reflexivity|]. split; [reflexivity|]. simpl. intros i j Hi Hj.
  destruct (divmod_lt P1 Hi) as (Q1 & Q2 & _), (divmod_lt P2 Hj) as (Q3 & Q4 & _).
  apply A3; [rewrite D1|rewrite D2]; now apply idx_bound.
Qed.
End Congr.

Lemma NoDup_app_inv (A : Type) (l r : list A) : NoDup (l ++ r) -> NoDup l /\ NoDup r /\ forall i, In i l -> ~ In i r.
Proof.
  induction l as [|a l IH]; simpl; intros H.
  - split; [constructor|]. auto.
  - inversion H as [|? ? Ha Hr]; subst. destruct (IH Hr) as (I1 & I2 & I3). rewrite in_app_iff in Ha.
    split; [constructor; tauto|]. split; [exact I2|]. intros i [->|Hi]; [tauto|auto].
Qed.

Section Eval.
Context {T : Type} {N : Num T}.
Variable S : sched T.
Hypothesis VS : valid_sched S.
Variable B : backend (T := T).
Hypothesis BV : value_ok B.
Hypothesis BK : kron_ok B \/ kron_zeroed_ok B.
Variable G : graph T.
Variable host : nat -> option obj.
Variable rank : obj -> nat.
Hypothesis WF : wf_graph G host rank.
Variable rho : env T.
Notation mat := (mat T).
Notation st := (st (T := T)).
Implicit Types (s : st) (e : mexp T).
Notation eval := (eval S B G rho).
Notation exec := (exec S B).
Definition none : ptr -> Prop := fun _ => False.
Notation vis s o := (f_vis (fl s o) = true).

(** *** Steps of the engine monad *)
(** What stays: the pointer in place w and the matrix behind it. *)
(** Pointers come from their old places or are new, no old matrix becomes special, and matrices
    that are in no place do not change. *)
Definition grew s s' : Prop :=
  length (objs (mm s)) <= length (objs (mm s')) /\
  (forall w q, ar s' w = Some q -> ar s w = Some q \/ length (objs (mm s)) <= q) /\
  (forall q, q < length (objs (mm s)) -> is_special (mm s') q -> is_special (mm s) q) /\
  (forall q, q < length (objs (mm s)) -> (forall w, ar s w <> Some q) -> get (mm s') q = get (mm s) q).
(** The place of the value of a named expression keeps its matrix, once that has the dimensions
    of the expression. *)
Definition sized_at s (w : owner) (q : ptr) (R C : nat) : Prop :=
  ar s w = Some q /\ exists o, get (mm s) q = Some o /\ o_rows o = R /\ o_cols o = C.
Definition stable s s' : Prop := forall o id a y q, g_kind G o = KExp id a y ->
  sized_at s (ONode id 0) q (g_rows G o) (g_cols G o) -> sized_at s' (ONode id 0) q (g_rows G o) (g_cols G o).
Lemma stable_same s s' : mm s' = mm s -> ar s' = ar s -> stable s s'.
Proof. intros E1 E2 o id a y q _. unfold sized_at. now rewrite E1, E2. Qed.
Lemma stable_trans s s' s2 : stable s s' -> stable s' s2 -> stable s s2.
Proof. intros H H' o id a y q Hk Hz. eapply H'; eauto. Qed.
Definition keeps (P : owner -> Prop) s s' : Prop := grew s s' /\
  forall w q, P w -> ar s w = Some q -> ar s' w = Some q /\ get (mm s') q = get (mm s) q.
Lemma grew_same s s' : mm s' = mm s -> ar s' = ar s -> grew s s'.
Proof. intros E1 E2. unfold grew. rewrite E1, E2. auto. Qed.
Lemma grew_trans s s' s2 : grew s s' -> grew s' s2 -> grew s s2.
Proof.
  intros (L1 & F1 & S1 & K1) (L2 & F2 & S2 & K2). split; [lia|]. split; [|split].
  - intros w q E. destruct (F2 _ _ E) as [E'|E']; [auto|right; lia].
  - intros q Hq H. apply S1; auto. apply S2; auto. lia.
  - intros q Hq H. rewrite (K2 q); [auto|lia|]. intros w E. destruct (F1 _ _ E) as [E'|E']; [exact (H _ E')|lia].
Qed.
Definition at_ s (w : owner) (p : ptr) (v : mat) : Prop := ar s w = Some p /\ holds (mm s) p v.

Lemma keeps_refl P s : keeps P s s.
Proof. split; [now apply grew_same|]. intros w q _ H. auto. Qed.
Lemma keeps_trans (P Q : owner -> Prop) s s' s2 : keeps P s s' -> (forall w, P w -> Q w) -> keeps Q s' s2 -> keeps P s s2.
Proof. intros [W H] I [W' H']. split; [exact (grew_trans W W')|]. intros w q Hw E. destruct (H _ _ Hw E) as [E1 G1]. destruct (H' _ _ (I _ Hw) E1) as [E2 G2]. split; congruence. Qed.
Lemma keeps_weaken (P Q : owner -> Prop) s s' : keeps Q s s' -> (forall w, P w -> Q w) -> keeps P s s'.
Proof. intros [W H] I. split; [exact W|]. intros w q Hw E. auto. Qed.
Lemma keeps_at P s s' w p v : keeps P s s' -> P w -> at_ s w p v -> at_ s' w p v.
Proof. intros [_ K] Hw [E H]. destruct (K _ _ Hw E) as [E' G']. split; [exact E'|]. exact (holds_same G' H). Qed.

Definition contents s (p : ptr) : mat :=
  match get (mm s) p with Some o => Mat (o_rows o) (o_cols o) (val (mm s) p) | None => Mat 0 0 (fun _ _ => n0) end.
Lemma contents_meq s p v : holds (mm s) p v -> holds (mm s) p (contents s p) /\ meq (contents s p) v.
Proof.
  intros H. pose proof H as ((k & sp & b & Hg & L) & V). unfold contents. rewrite Hg. cbn [o_rows o_cols].
  assert (Hc : holds (mm s) p (Mat (mr v) (mc v) (val (mm s) p))).
  { split; [exists k, sp, b; auto|]. intros i j _ _. reflexivity. }
  split; [exact Hc|]. split; [reflexivity|]. split; [reflexivity|]. simpl. auto.
Qed.

Lemma exec_ok s prog env' : slots (mm s) (ar s) none -> NoDup (dsts prog) -> Forall no_self prog ->
  (forall p, uses_ptr prog p -> (exists v, holds (mm s) p v) /\ forall d, In d (dsts prog) -> ar s d <> Some p) ->
  (kron_ok B \/ forall d op, In (d, op) prog -> is_kron op = false) ->
  vrun owner_eq (contents s) prog (fun _ => None) = Some env' ->
  exists s', exec prog s = EOk (tt, s') /\ fl s' = fl s /\ slots (mm s') (ar s') none /\
    (forall k v, env' k = Some v -> exists p, at_ s' k p v) /\ keeps (fun w => ~ In w (dsts prog)) s s' /\
    (forall w, ~ In w (dsts prog) -> ar s' w = ar s w) /\
    ((forall o id a y v, g_kind G o = KExp id a y -> In (ONode id 0) (dsts prog) -> env' (ONode id 0) = Some v -> mr v = g_rows G o /\ mc v = g_cols G o) -> stable s s').
Proof.
  intros Sl Nd Nf Hp Hk Hv.
  destruct (@run_ok T N owner owner_eq S VS B BV BK prog (mm s) (ar s) none (fun _ => None) (contents s) env') as (arr' & m' & E & Sl' & Ag & Ev & Un & Wh & Ru); auto.
  - intros k v Q. discriminate.
  - intros p Hu. destruct (Hp p Hu) as [(v & Hh) Hd]. split; [exact (proj1 (contents_meq Hh))|exact Hd].
  - destruct Hk as [Hk|Hk]; [auto|right]. intros d op Hin Ik. rewrite (Hk _ _ Hin) in Ik. discriminate.
  - exists (St m' arr' (fl s)). split; [unfold MatEngine.exec; now rewrite E|]. split; [reflexivity|]. split; [exact Sl'|]. split.
    + intros k v Q. destruct (Ag _ _ Q) as (p & Ep & Hh). exists p. split; auto.
    + split; [|split; [simpl; intros w Hw; now rewrite Un|]].
      2: { intros Hz o id a y q Hko (Eq & ob & Ho & Er & Ec). unfold sized_at. cbn [mm ar].
          destruct (in_dec owner_eq (ONode id 0) (dsts prog)) as [Hin|Hin].
          - destruct (@vrun_dst _ _ _ owner_eq _ prog _ _ _ Hv Hin) as (v & Ev'). destruct (Hz _ _ _ _ _ Hko Hin Ev') as [Z1 Z2].
            pose proof (Ru _ _ _ _ Hin Ev' Eq Ho (eq_trans Er (eq_sym Z1)) (eq_trans Ec (eq_sym Z2))) as Eq'. split; [exact Eq'|].
            destruct (Ag _ _ Ev') as (q' & Eq2 & ((k' & sp' & b' & Hg & _) & _)). assert (q' = q) as -> by congruence.
            exists (MkObj k' sp' (mr v) (mc v) b'). auto.
          - split; [now rewrite Un|]. exists ob. split; [|auto]. rewrite <- Ho. apply (ev_frame Ev (get_lt Ho)).
            intros (d & Hd & Ed). apply Hin. rewrite (sl_inj Sl Eq Ed). exact Hd. }
      split.
      { split; [|split; [|split]]; cbn [mm ar]; [apply Ev|exact Wh| |].
        - intros q Hq. apply (ev_special Ev Hq).
        - intros q Hq Hn. apply (ev_frame Ev Hq). intros (d & _ & Ed). exact (Hn _ Ed). }
      intros w q Hw Eq. simpl. rewrite Un by auto. split; [exact Eq|].
      destruct (sl_slot Sl Eq) as ((o & Ho) & _). apply (ev_frame Ev (get_lt Ho)).
      intros (d & Hd & Ed). apply Hw. rewrite (sl_inj Sl Eq Ed). exact Hd.
Qed.

Lemma sized_other s m' f w p w0 q R C : slots (mm s) (ar s) none ->
  (forall q, q < length (objs (mm s)) -> ar s w <> Some q -> get m' q = get (mm s) q) -> w0 <> w ->
  sized_at s w0 q R C -> sized_at (St m' (sset owner_eq (ar s) w p) f) w0 q R C.
Proof.
  intros Sl Fr Ne (Eq & ob & Ho & D). split; cbn [mm ar]; [now rewrite sset_other|]. exists ob. split; [|exact D].
  rewrite <- Ho. apply Fr; [exact (get_lt Ho)|]. eapply other_not_slot; eauto.
Qed.
Lemma unalias_ok s id a b ps : (forall k p, In p ps -> ar s (ONode id k) <> Some p) -> unalias id a b ps s = EOk (tt, s).
Proof.
  intros H. unfold unalias. replace (existsb (aliased s id ps) (seq a (b - a))) with false; [reflexivity|].
  symmetry. apply not_true_iff_false. intros Q. apply existsb_exists in Q. destruct Q as (k & _ & Q).
  unfold aliased in Q. destruct (ar s (ONode id k)) as [q|] eqn:Eq; [|discriminate].
  apply existsb_exists in Q. destruct Q as (p & Hp & Ep). apply Nat.eqb_eq in Ep. subst q. exact (H k p Hp Eq).
Qed.

Lemma slots_sset_same m (arr : owner -> option ptr) X w p : slots m arr X -> arr w = Some p -> slots m (sset owner_eq arr w p) X.
Proof.
  intros Sl E. assert (Q : forall k, sset owner_eq arr w p k = arr k).
  { intros k. unfold sset. destruct (owner_eq k w) as [->|]; congruence. }
  constructor; [apply Sl| |  |apply Sl].
  - intros k q. rewrite Q. apply (sl_slot Sl).
  - intros k k' q. rewrite !Q. apply (sl_inj Sl).
Qed.

(** *** Dimensions *)
Lemma mval_dims e v : mval G rho e v -> mr v = rows G e /\ mc v = cols G e.
Proof.
  clear BK.
  induction 1 as [o Hl|o id e y v Hk Hv IH|k id l r v w Hl IHl Hr IHr Hd|k id e v He IH Hd].
  - split; reflexivity.
  - destruct (wf_dims WF Hk) as [D1 D2]. destruct (wf_eye WF Hk) as (_ & _ & D3). destruct IH as [I1 I2]. change (rows G (item id e y)) with (rows G e) in I1. change (cols G (item id e y)) with (g_cols G y) in I2.
    change (mr v = g_rows G o /\ mc v = g_cols G o). split; congruence.
  - change (mr (bin_val k v w) = rows G l /\ mc (bin_val k v w) = cols G r). destruct IHl as [L1 L2], IHr as [R1 R2].
    destruct k; cbn [bin_dims bin_val madd msub mhad mzip mmul mr mc] in *; unfold same_dims in *; intuition congruence.
  - destruct IH as [I1 I2]. destruct k; cbn [un_val mtr mmap minv mdet mr mc]; split; first [assumption|reflexivity].
Qed.
Lemma mval_pos e v : mval G rho e v -> 0 < mr v /\ 0 < mc v.
Proof.
  clear BK.
  induction 1 as [o Hl|o id e y v Hk Hv IH|k id l r v w Hl IHl Hr IHr Hd|k id e v He IH]; auto.
  - apply (wf_pos WF).
  - destruct k; simpl in *; unfold same_dims in *; intuition.
  - destruct k; simpl; intuition.
Qed.
Lemma verify_ok k l r v w : mval G rho l v -> mval G rho r w -> bin_dims k v w -> verify G k l r = true.
Proof.
  clear BK.
  intros Hl Hr Hd. destruct (mval_dims Hl) as [L1 L2], (mval_dims Hr) as [R1 R2].
  destruct k; simpl in *; unfold same_dims in *; rewrite <- ?L1, <- ?L2, <- ?R1, <- ?R2;
    rewrite ?andb_true_iff, ?Nat.eqb_eq; intuition.
Qed.
Lemma un_verify_ok k a v : mval G rho a v -> un_dims k v -> un_verify G k a = true.
Proof.
  clear BK.
  intros Ha Hd. destruct (mval_dims Ha) as [L1 L2]. destruct k; simpl in *; rewrite <- ?L1, <- ?L2; rewrite ?Nat.eqb_eq; auto.
Qed.

(** *** Invariants *)
(** The objects under consideration: closed under following the items. *)
Variable U : obj -> Prop.
Hypothesis UC : forall o id e y o', U o -> g_kind G o = KExp id e y -> In o' (leaves (item id e y)) -> U o'.
Definition below (lv : nat) (o : obj) : Prop := U o /\ rank o < lv.

(** Where the value of an expression is. *)
Definition loc e : owner :=
  match e with
  | MLeaf o => match g_kind G o with KExp id _ _ => ONode id 0 | _ => ORes o end
  | MBin _ id _ _ | MUn _ id _ => ONode id 0
  end.

Definition PI (lv : nat) s : Prop := forall o, below lv o ->
  match g_kind G o with
  | KExp id e y => vis s o -> forall v, mval G rho (item id e y) v -> exists p, f_res (fl s o) = Some p /\ at_ s (ONode id 0) p v
  | _ => f_eval (fl s o) = true -> exists p, at_ s (ORes o) p (leaf_mat G rho o)
  end.
(** Items of visited expressions are visited. *)
Definition VC (lv : nat) s : Prop := forall o id e y o', below lv o -> g_kind G o = KExp id e y -> vis s o ->
  In o' (leaves (item id e y)) -> vis s o'.
Definition FI s : Prop := forall o, f_eval (fl s o) = true \/ f_dev (fl s o) = true -> vis s o.

Definition hosts_ok (lv : nat) e s : Prop := forall i o, In i (nodes e) -> host i = Some o -> vis s o /\ lv <= rank o.
(** A node of e that is the item of a named expression is e itself. *)
Definition tops e : Prop := forall i o a y, In i (nodes e) -> g_kind G o = KExp i a y -> e = item i a y.
Record pre (lv : nat) e s : Prop := {
  p_slots : slots (mm s) (ar s) none;
  p_fi : FI s;
  p_pi : PI lv s;
  p_vc : VC lv s;
  p_leaves : forall o, In o (leaves e) -> below lv o;
  p_nodes : NoDup (nodes e);
  p_hosts : hosts_ok lv e s;
  p_tops : tops e
}.
Definition kept e s (w : owner) : Prop :=
  match w with
  | ORes o => f_eval (fl s o) = true
  | ODres _ => True
  | ONode i k => k <> 0 \/ (~ In i (nodes e) /\ forall o, host i = Some o -> vis s o)
  end.
Record post (lv : nat) e s (p : ptr) (v : mat) s' : Prop := {
  q_slots : slots (mm s') (ar s') none;
  q_fi : FI s';
  q_pi : PI lv s';
  q_vc : VC lv s';
  q_at : at_ s' (loc e) p v;
  q_vis : forall o, vis s o -> vis s' o;
  q_eval : forall o, f_eval (fl s o) = true -> f_eval (fl s' o) = true;
  q_dev : forall o, f_dev (fl s' o) = f_dev (fl s o) /\ f_dres (fl s' o) = f_dres (fl s o);
  q_high : forall o, ~ below lv o -> fl s' o = fl s o;
  q_leaves : forall o, In o (leaves e) -> vis s' o;
  q_exp : (forall o, In o (leaves e) -> ~ is_leaf G o -> vis s o) -> forall o, ~ is_leaf G o -> fl s' o = fl s o;
  q_stable : match loc e with
             | ORes o => f_eval (fl s' o) = true
             | ONode i _ => In i (nodes e) \/ exists o, In o (leaves e) /\ host i = Some o /\ vis s' o
             | ODres _ => False
             end;
  q_frame : keeps (kept e s) s s';
  q_dres : forall o, ar s' (ODres o) = ar s (ODres o);
  q_sized : stable s s'
}.

Lemma loc_0 e : match loc e with ONode _ k => k = 0 | ORes _ => True | ODres _ => False end.
Proof. destruct e as [o|k id l r|k id a]; simpl; auto. destruct (g_kind G o); auto. Qed.

(** Flags may be updated as long as nothing is forgotten. *)
Lemma PI_keep lv s s' : PI lv s -> (forall o, below lv o -> fl s' o = fl s o) ->
  keeps (fun w => exists o, below lv o /\ w = loc (MLeaf o)) s s' -> PI lv s'.
Proof.
  intros H Ef K o Bo. specialize (H o Bo). rewrite (Ef o Bo).
  assert (Lo : exists o', below lv o' /\ loc (MLeaf o) = loc (MLeaf o')) by (exists o; auto). simpl in Lo.
  destruct (g_kind G o) as [| | | |id e y] eqn:Ek.
  1-4: intros Q; destruct (H Q) as (p & Hp); exists p; eapply keeps_at; [exact K|exact Lo|exact Hp].
  intros Q v Hv. destruct (H Q v Hv) as (p & E1 & Hp). exists p. split; [exact E1|]. eapply keeps_at; [exact K|exact Lo|exact Hp].
Qed.
Lemma VC_keep lv s s' : VC lv s -> (forall o, f_vis (fl s' o) = f_vis (fl s o)) -> VC lv s'.
Proof. intros H E o id e y o' Bo Hk. rewrite !E. eauto. Qed.
Lemma FI_keep s s' : FI s -> (forall o, fl s' o = fl s o) -> FI s'.
Proof. intros H E o. rewrite E. apply H. Qed.

Lemma exp_host o id e y : g_kind G o = KExp id e y -> host id = Some o.
Proof. intros Hk. destruct (wf_nodes WF Hk) as [_ H]. apply H. simpl. auto. Qed.

(** A location used by an object below lv is not a node whose host is above lv. *)
Lemma loc_not_node lv o id k : below lv o -> (forall a, host id = Some a -> lv <= rank a) -> loc (MLeaf o) <> ONode id k.
Proof.
  intros [_ Ro] Hh E. simpl in E. destruct (g_kind G o) as [| | | |id' e y] eqn:Ek; try discriminate. injection E as -> _.
  specialize (Hh _ (exp_host Ek)). lia.
Qed.

(** The location of an operand is not a node of the operator itself. *)
Lemma operand_loc lv e s s1 p v id k : post lv e s p v s1 -> (forall o, In o (leaves e) -> below lv o) -> ~ In id (nodes e) ->
  (forall a, host id = Some a -> lv <= rank a) -> loc e <> ONode id k.
Proof.
  intros P Hl Hn Hh E. pose proof (q_stable P) as Q. rewrite E in Q. destruct Q as [Q|(o & Ho & Eo & _)]; [auto|].
  specialize (Hh _ Eo). destruct (Hl _ Ho) as [_ R]. lia.
Qed.

(** The value of e survives the evaluation of e2. *)
Lemma operand_kept lv e s s1 p v e2 : post lv e s p v s1 -> pre lv e s -> hosts_ok lv e2 s1 ->
  (forall i, In i (nodes e) -> ~ In i (nodes e2)) -> kept e2 s1 (loc e).
Proof.
  intros P Pe H2 Dj. pose proof (q_stable P) as Q. pose proof (loc_0 e) as Z. unfold kept.
  destruct (loc e) as [i k|o|o]; [|exact Q|tauto]. right. destruct Q as [Q|(o & Ho & Eo & Vo)].
  - split; [auto|]. intros o Eo. destruct (p_hosts Pe Q Eo) as [V _]. exact (q_vis P V).
  - split.
    + intros Hi. destruct (H2 _ _ Hi Eo) as [_ R]. destruct (p_leaves Pe Ho) as [_ R']. lia.
    + intros o' Eo'. congruence.
Qed.

Lemma kept_bin k id l r s w : kept (MBin k id l r) s w -> kept l s w /\ kept r s w /\ w <> ONode id 0.
Proof.
  destruct w as [i kk|o|o]; simpl; [|intros H; repeat split; auto; discriminate|intros H; repeat split; auto; discriminate].
  intros [H|[H H']].
  - split; [auto|]. split; [auto|]. intros [= _ E]. auto.
  - rewrite in_app_iff in H. split; [right; tauto|]. split; [right; tauto|]. intros [= E _]. subst. apply H. auto.
Qed.
Lemma kept_un k id a s w : kept (MUn k id a) s w -> kept a s w /\ w <> ONode id 0.
Proof.
  destruct w as [i kk|o|o]; simpl; [|intros H; split; auto; discriminate|intros H; split; auto; discriminate].
  intros [H|[H H']].
  - split; [auto|]. intros [= _ E]. auto.
  - split; [right; tauto|]. intros [= E _]. subst. apply H. auto.
Qed.
Lemma kept_mono e s s' w : (forall o, vis s o -> vis s' o) -> (forall o, f_eval (fl s o) = true -> f_eval (fl s' o) = true) ->
  kept e s w -> kept e s' w.
Proof. intros M1 M2. destruct w as [i k|o|o]; simpl; auto. intros [H|[H H']]; [auto|right]. split; auto. Qed.

(** *** Leaves *)
Lemma setf_eq (o : obj) f s : setf o f s = EOk (tt, St (mm s) (ar s) (fun o' => if o' =? o then f (fl s o') else fl s o')).
Proof. reflexivity. Qed.

Lemma eval_leaf_step lv o s : is_leaf G o -> pre lv (MLeaf o) s ->
  exists p s', eval_leaf G rho o s = EOk (p, s') /\ slots (mm s') (ar s') none /\ at_ s' (ORes o) p (leaf_mat G rho o) /\
    (forall o', fl s' o' = if o' =? o then Fl true true (f_dev (fl s o)) (f_res (fl s o)) (f_dres (fl s o)) else fl s o') /\
    keeps (fun w => w <> ORes o \/ f_eval (fl s o) = true) s s' /\ (forall w, w <> ORes o -> ar s' w = ar s w) /\ stable s s'.
Proof.
  intros Hl P. pose proof (p_slots P) as Sl. pose proof (p_leaves P (or_introl eq_refl)) as Bo.
  destruct (f_eval (fl s o)) eqn:Ee.
  - pose proof (p_pi P Bo) as Q. assert (exists p, at_ s (ORes o) p (leaf_mat G rho o)) as (p & Ep & Hp).
    { unfold is_leaf in Hl. destruct (g_kind G o); tauto || (apply Q; exact Ee). }
    exists p. eexists. split; [|split; [|split; [|split; [|split]]]].
    + unfold eval_leaf, ebind, lift_to. rewrite Ep. pose proof (pool_same Hp) as Ps. cbn [mr mc leaf_mat] in Ps. rewrite Ps. unfold getf. cbn [fl].
      rewrite Ee. unfold eret. rewrite setf_eq. reflexivity.
    + cbn [mm ar]. now apply slots_sset_same.
    + split; cbn [mm ar]; [apply sset_same|exact Hp].
    + cbn [fl]. intros o'. destruct (o' =? o) eqn:Eo; [|reflexivity]. apply Nat.eqb_eq in Eo. subst o'. unfold set_vis. now rewrite Ee.
    + split.
      { split; [|split]; cbn [mm ar]; auto. intros w q. destruct (owner_eq w (ORes o)) as [->|Ne]; [rewrite sset_same; intros Q1; left; congruence|rewrite sset_other; auto]. }
      intros w q _ E. cbn [mm ar]. split; [|reflexivity]. destruct (owner_eq w (ORes o)) as [->|Ne]; [rewrite sset_same; congruence|now rewrite sset_other].
    + split; [cbn [ar]; intros w Nw; now apply sset_other|]. intros o' id a y q _ Z. exact Z.
  - destruct (@leaf_write T N G rho (wf_pos WF) (mm s) (ar s (ORes o)) o (sl_tame Sl) (slots_ok _ Sl)) as (p & m1 & m' & E1 & E2 & W).
    destruct (slot_write owner_eq Sl W) as (Sl' & Hh & _ & Fr).
    exists p. eexists. split; [|split; [|split; [|split; [|split]]]].
    + unfold eval_leaf, ebind, lift_to, lift. rewrite E1. unfold getf. cbn [fl]. rewrite Ee. cbn [mm]. rewrite E2. rewrite !setf_eq. unfold eret. reflexivity.
    + exact Sl'.
    + split; cbn [mm ar]; [apply sset_same|exact Hh].
    + cbn [fl]. intros o'. destruct (o' =? o) eqn:Eo; [|reflexivity]. apply Nat.eqb_eq in Eo. now subst o'.
    + split.
      { split; [|split; [|split]]; cbn [mm ar]; [apply W| |intros q Hq; apply (ev_special (wr_evolves W) Hq)|intros q Hq Hn; apply Fr; [exact Hq|exact (Hn (ORes o))]].
        intros w q. destruct (owner_eq w (ORes o)) as [->|Ne]; [rewrite sset_same; intros [= <-]; exact (wr_where W)|rewrite sset_other; auto]. }
      intros w q [Nw|Q] E; [|discriminate]. cbn [mm ar]. rewrite sset_other by auto. split; [exact E|].
      destruct (sl_slot Sl E) as ((ob & Ho) & _). apply Fr; [exact (get_lt Ho)|]. eapply other_not_slot; eauto.
    + split; [cbn [ar]; intros w Nw; now apply sset_other|]. intros o' id a y q _. refine (@sized_other s m' _ (ORes o) p _ _ _ _ Sl Fr _). discriminate.
Qed.

Lemma loc_inj o o' : loc (MLeaf o) = loc (MLeaf o') -> o = o'.
Proof.
  simpl. destruct (g_kind G o) eqn:E, (g_kind G o') eqn:E'; intros H; try discriminate; try congruence.
  injection H as ->. apply exp_host in E, E'. congruence.
Qed.
Lemma loc_leaf o : is_leaf G o -> loc (MLeaf o) = ORes o.
Proof. intros H. unfold is_leaf in H. unfold loc. destruct (g_kind G o); tauto. Qed.

Lemma eval_leaf_ok lv o s : is_leaf G o -> pre lv (MLeaf o) s ->
  exists p s', eval_leaf G rho o s = EOk (p, s') /\ post lv (MLeaf o) s p (leaf_mat G rho o) s'.
Proof.
  intros Hl P. destruct (eval_leaf_step Hl P) as (p & s' & E & Sl' & At & Ef & K & Un & Sz). exists p, s'. split; [exact E|].
  pose proof (p_leaves P (or_introl eq_refl)) as Bo.
  assert (Fo : forall o', o' <> o -> fl s' o' = fl s o') by (intros o' Ne; rewrite Ef; apply Nat.eqb_neq in Ne; now rewrite Ne).
  assert (Fs : fl s' o = Fl true true (f_dev (fl s o)) (f_res (fl s o)) (f_dres (fl s o))) by (rewrite Ef; now rewrite Nat.eqb_refl).
  assert (Vm : forall o', vis s o' -> vis s' o').
  { intros o' V. destruct (Nat.eq_dec o' o) as [->|Ne]; [now rewrite Fs|now rewrite Fo]. }
  constructor; auto.
  - intros o'. destruct (Nat.eq_dec o' o) as [->|Ne]; [rewrite Fs; auto|]. rewrite Fo by auto. apply (p_fi P).
  - intros o' Bo'. destruct (Nat.eq_dec o' o) as [->|Ne].
    + unfold is_leaf in Hl. destruct (g_kind G o); try tauto; intros _; eauto.
    + pose proof (p_pi P Bo') as Q. rewrite (Fo _ Ne).
      assert (Nl : loc (MLeaf o') <> ORes o).
      { rewrite <- (loc_leaf Hl). intros Q'. apply Ne. now apply loc_inj. }
      simpl in Nl. destruct (g_kind G o') as [| | | |id e y].
      1-4: intros Q1; destruct (Q Q1) as (q & Hq); exists q; eapply keeps_at; [exact K|now left|exact Hq].
      intros Q1 v Hv. destruct (Q Q1 v Hv) as (q & Eq & Hq). exists q. split; [exact Eq|]. eapply keeps_at; [exact K|now left|exact Hq].
  - intros a id e y o' Ba Hk Va Hin. apply Vm. eapply (p_vc P); eauto.
    destruct (Nat.eq_dec a o) as [->|Ne]; [|now rewrite Fo in Va]. unfold is_leaf in Hl. rewrite Hk in Hl. tauto.
  - rewrite (loc_leaf Hl). exact At.
  - intros o'. destruct (Nat.eq_dec o' o) as [->|Ne]; [rewrite Fs; auto|now rewrite Fo].
  - intros o'. destruct (Nat.eq_dec o' o) as [->|Ne]; [rewrite Fs; auto|rewrite Fo; auto].
  - intros o' Nb. apply Fo. intros ->. auto.
  - intros o' [<-|[]]. now rewrite Fs.
  - intros _ o' Nl. apply Fo. intros ->. auto.
  - rewrite (loc_leaf Hl). now rewrite Fs.
  - eapply keeps_weaken; [exact K|]. intros w. destruct (owner_eq w (ORes o)) as [->|]; simpl; auto.
  - intros o'. apply Un. discriminate.
Qed.

(** *** Binary and unary operators *)
Lemma bin_vrun k id p q s v w : holds (mm s) p v -> holds (mm s) q w -> bin_dims k v w ->
  exists env', vrun owner_eq (contents s) (bin_eval k id p q) (fun _ => None) = Some env' /\
    exists u, env' (ONode id 0) = Some u /\ meq u (bin_val k v w).
Proof.
  intros Hp Hq Hd. destruct (contents_meq Hp) as [_ Mp], (contents_meq Hq) as [_ Mq].
  pose proof Mp as (P1 & P2 & _). pose proof Mq as (Q1 & Q2 & _).
  assert (Ev : exists u, veval (contents s) (fun _ : owner => None) (match k return kern T owner with
                | BSum => KAdd (OPtr p) (OPtr q) | BSub => KSub (OPtr p) (OPtr q)
                | BProd => KMul (OPtr p) (OPtr q) | BHad => KHad (OPtr p) (OPtr q) end) = Some u /\ meq u (bin_val k v w)).
  { destruct k; simpl in Hd; unfold same_dims in Hd.
    1: exists (madd (contents s p) (contents s q)); split; [apply veval_add; auto; intuition congruence|].
    2: exists (msub (contents s p) (contents s q)); split; [apply veval_sub; auto; intuition congruence|].
    3: exists (mmul (contents s p) (contents s q)); split; [apply veval_mul; auto; intuition congruence|].
    4: exists (mhad (contents s p) (contents s q)); split; [apply veval_had; auto; intuition congruence|].
    1,2,4: apply meq_zip; auto; split; intuition congruence.
    apply meq_mul; auto. congruence. }
  destruct Ev as (u & Eu & Mu). exists (vset owner_eq (fun _ => None) (ONode id 0) u). split.
  - unfold bin_eval. cbn [vrun]. now rewrite Eu.
  - exists u. split; [|exact Mu]. unfold vset. destruct (owner_eq _ _); congruence.
Qed.
Lemma un_vrun k id p s v : holds (mm s) p v -> un_dims k v ->
  exists env', vrun owner_eq (contents s) (un_eval rho k id p) (fun _ => None) = Some env' /\
    exists u, env' (ONode id 0) = Some u /\ meq u (un_val rho k v).
Proof.
  intros Hp Hd. destruct (contents_meq Hp) as [_ Mp].
  destruct (@veval_un T N owner (contents s) (fun _ => None) (OPtr p) (contents s p) eq_refl) as (E1 & E2 & E3 & E4).
  assert (E5 : un_dims k (contents s p)) by (destruct Mp as (D1 & D2 & _); destruct k; simpl in *; congruence).
  exists (vset owner_eq (fun _ => None) (ONode id 0) (un_val rho k (contents s p))). split.
  - unfold un_eval. cbn [vrun]. destruct k; rewrite ?E1, ?E2, ?E3, ?E4; try reflexivity; simpl in E5;
      cbn [veval v1 vfetch]; rewrite E5, Nat.eqb_refl; reflexivity.
  - exists (un_val rho k (contents s p)). split; [unfold vset; destruct (owner_eq _ _); congruence|].
    destruct k; simpl; [now apply meq_map|now apply meq_map|now apply meq_tr|now apply meq_map..|now apply meq_inv|now apply meq_det].
Qed.

(** Running the evaluation kernel of a node after its operands. *)
Lemma finish lv id s2 prog env' u (val : mat) ps : slots (mm s2) (ar s2) none -> PI lv s2 -> VC lv s2 -> FI s2 ->
  dsts prog = [ONode id 0] -> Forall no_self prog -> (forall p, uses_ptr prog p -> In p ps) ->
  (forall d op, In (d, op) prog -> is_kron op = false) ->
  (forall p, In p ps -> exists w v, at_ s2 w p v /\ forall k, w <> ONode id k) ->
  (forall a, host id = Some a -> lv <= rank a) ->
  vrun owner_eq (contents s2) prog (fun _ => None) = Some env' -> env' (ONode id 0) = Some u -> meq u val ->
  exists p s3, (forall a b, unalias id a b ps s2 = EOk (tt, s2)) /\ exec prog s2 = EOk (tt, s3) /\ slot (ONode id 0) s3 = EOk (p, s3) /\
    at_ s3 (ONode id 0) p val /\
    slots (mm s3) (ar s3) none /\ PI lv s3 /\ VC lv s3 /\ FI s3 /\ fl s3 = fl s2 /\ keeps (fun w => w <> ONode id 0) s2 s3 /\
    (forall w, w <> ONode id 0 -> ar s3 w = ar s2 w) /\
    ((forall o a y, g_kind G o = KExp id a y -> mr val = g_rows G o /\ mc val = g_cols G o) -> stable s2 s3).
Proof.
  intros Sl Hpi Hvc Hfi Ds Ns Hu Nk Hat Hh Hv Eu Mu.
  destruct (@exec_ok s2 prog env') as (s3 & E & Ef & Sl3 & Hat3 & K & Un & Sz); auto.
  - rewrite Ds. repeat constructor. auto.
  - intros p Hp. destruct (Hat p (Hu p Hp)) as (w & v & [Ew Hw] & Nw). split; [eauto|]. rewrite Ds. intros d [<-|[]].
    eapply other_not_slot; eauto.
  - destruct (Hat3 _ _ Eu) as (p & Ep & Hp). exists p, s3.
    assert (K' : keeps (fun w => w <> ONode id 0) s2 s3).
    { eapply keeps_weaken; [exact K|]. intros w Nw. rewrite Ds. intros [Q|[]]. auto. }
    split; [|split; [exact E|split; [|split; [|split; [exact Sl3|split; [|split; [|split; [|split; [exact Ef|split; [exact K'|]]]]]]]]]].
    + intros a b. apply unalias_ok. intros k p' Hp'. destruct (Hat _ Hp') as (w & v & [Ew _] & Nw). eapply other_not_slot; eauto.
    + unfold slot. now rewrite Ep.
    + split; [exact Ep|]. exact (holds_meq Hp Mu).
    + eapply PI_keep; [exact Hpi|intros o _; now rewrite Ef|]. eapply keeps_weaken; [exact K'|].
      intros w (o & Bo & ->). now apply (loc_not_node (lv := lv)).
    + eapply VC_keep; [exact Hvc|]. intros o. now rewrite Ef.
    + eapply FI_keep; [exact Hfi|]. intros o. now rewrite Ef.
    + split; [intros w Nw; apply Un; rewrite Ds; intros [Q|[]]; auto|]. intros Hz. apply Sz.
      rewrite Ds. intros o i a y w Hk [Q|[]] Ew. injection Q as <-. rewrite Eu in Ew. injection Ew as <-.
      destruct Mu as (-> & -> & _). eapply Hz; eauto.
Qed.

Lemma pre_sub lv e a s : pre lv e s -> (forall o, In o (leaves a) -> In o (leaves e)) -> (forall i, In i (nodes a) -> In i (nodes e)) ->
  NoDup (nodes a) -> (forall i b y, In i (nodes a) -> e <> item i b y) -> pre lv a s.
Proof.
  intros P L Nn Nd Ne. constructor; try apply P; auto.
  - intros o Ho. apply (p_leaves P). auto.
  - intros i o Hi. apply (p_hosts P). auto.
  - intros i o b y Hi Hk. elim (Ne i b y Hi). eapply (p_tops P); eauto.
Qed.
Lemma tops_item o id e y : g_kind G o = KExp id e y -> tops (item id e y).
Proof.
  intros Hk i o' a z Hi Hk'. destruct (wf_nodes WF Hk) as [_ H1]. pose proof (exp_host Hk') as H2.
  assert (o' = o) as -> by (specialize (H1 _ Hi); congruence). rewrite Hk in Hk'. now injection Hk' as <- <- <-.
Qed.
Lemma tops_bin k id l r v o a y : tops (MBin k id l r) -> mval G rho (MBin k id l r) v -> g_kind G o = KExp id a y ->
  mr v = g_rows G o /\ mc v = g_cols G o.
Proof.
  intros Ht Hv Hk. pose proof (Ht id o a y (or_introl eq_refl) Hk) as E. rewrite E in Hv.
  destruct (mval_dims Hv) as [-> ->]. destruct (wf_dims WF Hk) as [-> ->]. destruct (wf_eye WF Hk) as (_ & _ & D). split; [reflexivity|]. exact D.
Qed.
Lemma tops_un k id b (v : mat) o a y : tops (MUn k id b) -> g_kind G o = KExp id a y -> mr v = g_rows G o /\ mc v = g_cols G o.
Proof. intros Ht Hk. pose proof (Ht id o a y (or_introl eq_refl) Hk) as E. discriminate. Qed.
Lemma not_item k id (l r : mexp T) i b y : ~ In id (nodes l ++ nodes r) -> In i (nodes l ++ nodes r) -> MBin k id l r <> item i b y.
Proof. intros Ni Hi E. injection E as _ -> _ _. contradiction. Qed.
Lemma pre_next lv e s s1 p v a : post lv e s p v s1 -> pre lv a s -> pre lv a s1.
Proof.
  intros Q P. constructor; try apply Q; try apply P.
  intros i o Hi Eo. destruct (p_hosts P Hi Eo) as [V R]. split; [exact (q_vis Q V)|exact R].
Qed.

(** *** The evaluation theorem *)
Theorem eval_ok : forall lv e s v, pre lv e s -> mval G rho e v ->
  exists n p s', (forall f, n <= f -> eval f e s = EOk (p, s')) /\ post lv e s p v s'.
Proof.
  induction lv as [lv IHlv] using lt_wf_ind.
  induction e as [o|k id l IHl r IHr|k id a IHa]; intros s v P Hv.
  - inversion Hv as [o' Hl|o' id e y v' Hk Hi| |]; subst.
    + destruct (eval_leaf_ok Hl P) as (p & s' & E & Q). exists 1, p, s'. split; [|exact Q].
      intros f Hf. destruct f as [|f]; [lia|]. unfold is_leaf in Hl. simpl. destruct (g_kind G o); tauto.
    + pose proof (p_leaves P (or_introl eq_refl)) as Bo.
      assert (Lc : loc (MLeaf o) = ONode id 0) by (simpl; now rewrite Hk).
      assert (Nleaf : ~ is_leaf G o) by (unfold is_leaf; rewrite Hk; tauto).
      destruct (f_vis (fl s o)) eqn:Vo.
      * (* already visited in this pass *)
        pose proof (p_pi P Bo) as Q. rewrite Hk in Q. destruct (Q Vo v Hi) as (p & Er & At).
        exists 1, p, s. split.
        -- intros f Hf. destruct f as [|f]; [lia|]. cbn [MatEngine.eval]. rewrite Hk. unfold ebind, getf. rewrite Vo. unfold eret at 1. rewrite Er. reflexivity.
        -- constructor; auto; try apply P.
           ++ now rewrite Lc.
           ++ intros o' [<-|[]]. exact Vo.
           ++ rewrite Lc. right. exists o. split; [simpl; auto|]. split; [exact (exp_host Hk)|exact Vo].
           ++ apply keeps_refl.
           ++ now apply stable_same.
      * (* first visit *)
        set (s0 := St (mm s) (ar s) (fun o' => if o' =? o then set_vis (set_eval (fl s o')) else fl s o')).
        assert (F0 : forall o', o' <> o -> fl s0 o' = fl s o').
        { intros o' Ne. simpl. apply Nat.eqb_neq in Ne. now rewrite Ne. }
        assert (F0o : fl s0 o = set_vis (set_eval (fl s o))) by (simpl; now rewrite Nat.eqb_refl).
        assert (M0 : forall o', vis s o' -> vis s0 o').
        { intros o' V. destruct (Nat.eq_dec o' o) as [->|Ne]; [now rewrite F0o|now rewrite F0]. }
        assert (Lt : forall o', In o' (leaves (item id e y)) -> below (rank o) o').
        { intros o' Hin. split; [eapply UC; eauto; apply Bo|]. eapply (wf_rank WF); eauto. }
        assert (Up : forall o', below (rank o) o' -> below lv o' /\ o' <> o).
        { intros o' [Uo Ro]. destruct Bo as [_ Ro']. split; [split; [auto|lia]|]. intros ->. lia. }
        assert (P0 : pre (rank o) (item id e y) s0).
        { constructor.
          - apply P.
          - intros o'. destruct (Nat.eq_dec o' o) as [->|Ne]; [rewrite F0o; auto|rewrite F0 by auto; apply (p_fi P)].
          - intros o' Bo'. destruct (Up _ Bo') as [Bo'' Ne]. rewrite F0 by auto. exact (p_pi P Bo'').
          - intros a id' e' y' o' Ba Hka Va Hin. destruct (Up _ Ba) as [Ba' Ne]. rewrite F0 in Va by auto. apply M0. eapply (p_vc P); eauto.
          - exact Lt.
          - exact (proj1 (wf_nodes WF Hk)).
          - intros i o' Hi' Eo. rewrite (proj2 (wf_nodes WF Hk) _ Hi') in Eo. injection Eo as <-. split; [now rewrite F0o|lia].
          - exact (tops_item Hk). }
        destruct (IHlv (rank o) (proj2 Bo) (item id e y) s0 v P0 Hi) as (n & p & s1 & E & Q).
        set (s2 := St (mm s1) (ar s1) (fun o' => if o' =? o then set_res p (fl s1 o') else fl s1 o')).
        assert (F2 : forall o', o' <> o -> fl s2 o' = fl s1 o').
        { intros o' Ne. simpl. apply Nat.eqb_neq in Ne. now rewrite Ne. }
        assert (F1o : fl s1 o = fl s0 o) by (apply (q_high Q); intros [_ R]; lia).
        assert (F2o : fl s2 o = set_res p (set_vis (set_eval (fl s o)))) by (simpl; rewrite Nat.eqb_refl, F1o, F0o; reflexivity).
        assert (M2 : forall o', vis s1 o' -> vis s2 o').
        { intros o' V. destruct (Nat.eq_dec o' o) as [->|Ne]; [now rewrite F2o|now rewrite F2]. }
        assert (Hh : forall o', ~ below (rank o) o' -> o' <> o -> fl s2 o' = fl s o').
        { intros o' Nb Ne. rewrite F2, (q_high Q), F0; auto. }
        exists (Datatypes.S n), p, s2. split.
        -- intros f Hf. destruct f as [|f]; [lia|]. cbn [MatEngine.eval]. rewrite Hk. unfold ebind, getf. rewrite Vo. rewrite setf_eq.
           fold s0. rewrite (E f) by lia. rewrite setf_eq. fold s2. unfold nonnull, eret. cbn [fl].
           rewrite F2o. reflexivity.
        -- constructor.
           ++ apply Q.
           ++ intros o'. destruct (Nat.eq_dec o' o) as [->|Ne]; [rewrite F2o; auto|rewrite F2 by auto; apply (q_fi Q)].
           ++ intros o' Bo'. destruct (Nat.eq_dec o' o) as [->|Ne].
              ** rewrite Hk. intros _ w Hw. exists p. rewrite F2o. split; [reflexivity|]. rewrite <- (mval_fun Hi Hw). exact (q_at Q).
              ** destruct (Nat.lt_ge_cases (rank o') (rank o)) as [R|R].
                 --- rewrite F2 by auto. exact (q_pi Q (conj (proj1 Bo') R)).
                 --- rewrite Hh by (auto; intros [_ R']; lia).
                     pose proof (p_pi P Bo') as Qo. destruct (g_kind G o') as [| | | |id' e' y'] eqn:Ek.
                     1-4: intros Q1; destruct (Qo Q1) as (q & Hq); exists q; eapply (keeps_at (q_frame Q)); [|exact Hq]; simpl;
                       apply Nat.eqb_neq in Ne; now rewrite Ne.
                     intros Q1 w Hw. destruct (Qo Q1 w Hw) as (q & Eq & Hq). exists q. split; [exact Eq|].
                     eapply (keeps_at (q_frame Q)); [|exact Hq]. simpl. right. pose proof (exp_host Ek) as Eh. split.
                     +++ intros Hin. pose proof (proj2 (wf_nodes WF Hk) _ Hin) as Eh'. congruence.
                     +++ intros o2 E2. rewrite Eh in E2. injection E2 as <-. apply Nat.eqb_neq in Ne. now rewrite Ne.
           ++ intros a id' e' y' o' Ba Hka Va Hin. destruct (Nat.eq_dec a o) as [->|Ne].
              ** rewrite Hk in Hka. injection Hka as <- <- <-. apply M2. exact (q_leaves Q Hin).
              ** destruct (Nat.lt_ge_cases (rank a) (rank o)) as [R|R].
                 --- rewrite F2 in Va by auto. apply M2. exact (q_vc Q (conj (proj1 Ba) R) Hka Va Hin).
                 --- rewrite Hh in Va by (auto; intros [_ R']; lia). apply M2. apply (q_vis Q). apply M0. exact (p_vc P Ba Hka Va Hin).
           ++ rewrite Lc. exact (q_at Q).
           ++ intros o' V. apply M2. apply (q_vis Q). auto.
           ++ intros o' V. destruct (Nat.eq_dec o' o) as [->|Ne]; [now rewrite F2o|]. rewrite F2 by auto. apply (q_eval Q). now rewrite F0.
           ++ intros o'. destruct (Nat.eq_dec o' o) as [->|Ne]; [rewrite F2o; auto|]. rewrite F2 by auto. destruct (q_dev Q o') as [-> ->]. rewrite F0; auto.
           ++ intros o' Nb. apply Hh; [|intros ->; auto]. intros Bl. apply Nb. now apply Up.
           ++ intros o' [<-|[]]. now rewrite F2o.
           ++ intros Hall. exfalso. rewrite (Hall o) in Vo; [discriminate|simpl; auto|auto].
           ++ rewrite Lc. right. exists o. split; [simpl; auto|]. split; [exact (exp_host Hk)|now rewrite F2o].
           ++ change (keeps (kept (MLeaf o) s) s0 s1). eapply keeps_weaken; [exact (q_frame Q)|].
              intros [i kk|o'|o'] Hw; cbn [kept] in *; auto.
              ** destruct Hw as [Hw|[_ Hw]]; [auto|right]. split; [|intros o' Eo; apply M0; auto].
                 intros Hin. specialize (Hw _ (proj2 (wf_nodes WF Hk) _ Hin)). congruence.
              ** destruct (Nat.eq_dec o' o) as [->|Ne]; [now rewrite F0o|now rewrite F0].
           ++ intros o'. exact (q_dres Q o').
           ++ exact (q_sized Q).
  - inversion Hv as [| |k' id' l' r' vl vr Hl Hr Hd|]; subst.
    pose proof (p_nodes P) as Nd. simpl in Nd. inversion Nd as [|? ? Ni Nd']; subst.
    destruct (NoDup_app_inv Nd') as (Ndl & Ndr & Dj).
    assert (Pl : pre lv l s) by (eapply pre_sub; [exact P| | |auto|intros i b z Hi; apply not_item; [exact Ni|apply in_or_app; auto]]; simpl; intros; rewrite ?in_app_iff; auto).
    assert (Pr : pre lv r s) by (eapply pre_sub; [exact P| | |auto|intros i b z Hi; apply not_item; [exact Ni|apply in_or_app; auto]]; simpl; intros; rewrite ?in_app_iff; auto).
    destruct (IHl s vl Pl Hl) as (nl & p & s1 & El & Ql).
    pose proof (pre_next Ql Pr) as Pr1.
    destruct (IHr s1 vr Pr1 Hr) as (nr & q & s2 & Er & Qr).
    pose proof (keeps_at (q_frame Qr) (operand_kept Ql Pl (p_hosts Pr1) Dj) (q_at Ql)) as Atp. pose proof (q_at Qr) as Atq.
    assert (Hh : forall a, host id = Some a -> lv <= rank a) by (intros a Ea; eapply (p_hosts P); [simpl; auto|exact Ea]).
    assert (Nlp : forall k0, loc l <> ONode id k0).
    { intros k0. eapply operand_loc; [exact Ql|apply (p_leaves Pl)| |auto]. intros Q. apply Ni. apply in_or_app; auto. }
    assert (Nlq : forall k0, loc r <> ONode id k0).
    { intros k0. eapply operand_loc; [exact Qr|apply (p_leaves Pr)| |auto]. intros Q. apply Ni. apply in_or_app; auto. }
    destruct (@bin_vrun k id p q s2 vl vr (proj2 Atp) (proj2 Atq) Hd) as (env' & Hvr & u & Eu & Mu).
    destruct (@finish lv id s2 (bin_eval k id p q) env' u (bin_val k vl vr) [p; q]) as (z & s3 & Eun & Ex & Esl & At & Sl3 & Pi3 & Vc3 & Fi3 & Ef & K & Un & Sz); auto; try apply Qr.
    { unfold bin_eval. repeat constructor. unfold no_self. simpl. destruct k; simpl; intuition discriminate. }
    { intros t (i & [<-|[]] & Hin). destruct k; simpl in Hin; destruct Hin as [Hin|[Hin|[]]]; injection Hin as ->; simpl; auto. }
    { intros d op [[= <- <-]|[]]. destruct k; reflexivity. }
    { intros t [<-|[<-|[]]]; [exists (loc l), vl|exists (loc r), vr]; auto. }
    exists (Datatypes.S (max nl nr)), z, s3. split.
    + intros f Hf. destruct f as [|f]; [lia|]. cbn [MatEngine.eval]. unfold ebind, eassert. rewrite (verify_ok Hl Hr Hd).
      rewrite El by lia. rewrite Er by lia. rewrite Eun, Ex. exact Esl.
    + constructor; auto.
      * intros o V. rewrite Ef. apply (q_vis Qr), (q_vis Ql), V.
      * intros o V. rewrite Ef. apply (q_eval Qr), (q_eval Ql), V.
      * intros o. rewrite Ef. destruct (q_dev Qr o) as [-> ->]. apply (q_dev Ql).
      * intros o Nb. rewrite Ef, (q_high Qr) by auto. now apply (q_high Ql).
      * simpl. intros o Ho. rewrite Ef. apply in_app_or in Ho. destruct Ho as [Ho|Ho]; [apply (q_vis Qr), (q_leaves Ql), Ho|exact (q_leaves Qr Ho)].
      * simpl. intros Hall o No. rewrite Ef. rewrite (q_exp Qr); auto.
        -- apply (q_exp Ql); auto. intros o' Ho'. apply Hall. apply in_or_app; auto.
        -- intros o' Ho' No'. apply (q_vis Ql). apply Hall; auto. apply in_or_app; auto.
      * simpl. auto.
      * eapply keeps_trans; [eapply keeps_weaken; [exact (q_frame Ql)|intros w Hw; apply (kept_bin Hw)]| |].
        { intros w Hw. exact Hw. }
        eapply keeps_trans; [eapply keeps_weaken; [exact (q_frame Qr)|]|intros w Hw; exact Hw|].
        -- intros w Hw. eapply kept_mono; [apply (q_vis Ql)|apply (q_eval Ql)|]. apply (kept_bin Hw).
        -- eapply keeps_weaken; [exact K|]. intros w Hw. apply (kept_bin Hw).
      * intros o. rewrite Un by discriminate. rewrite (q_dres Qr). apply (q_dres Ql).
      * refine (stable_trans (stable_trans (q_sized Ql) (q_sized Qr)) (Sz _)). intros o a y Ho. exact (tops_bin (p_tops P) Hv Ho).
  - inversion Hv as [| | |k' id' a' va Ha Hd]; subst.
    pose proof (p_nodes P) as Nd. simpl in Nd. inversion Nd as [|? ? Ni Nda]; subst.
    assert (Pa : pre lv a s) by (eapply pre_sub; [exact P| | |auto|discriminate]; simpl; auto).
    destruct (IHa s va Pa Ha) as (na & p & s1 & Ea & Qa). pose proof (q_at Qa) as Atp.
    assert (Hh : forall b, host id = Some b -> lv <= rank b) by (intros b Eb; eapply (p_hosts P); [simpl; auto|exact Eb]).
    assert (Nlp : forall k0, loc a <> ONode id k0).
    { intros k0. eapply operand_loc; [exact Qa|apply (p_leaves Pa)|auto|auto]. }
    destruct (@un_vrun k id p s1 va (proj2 Atp) Hd) as (env' & Hvr & u & Eu & Mu).
    destruct (@finish lv id s1 (un_eval rho k id p) env' u (un_val rho k va) [p]) as (z & s3 & Eun & Ex & Esl & At & Sl3 & Pi3 & Vc3 & Fi3 & Ef & K & Un & Sz); auto; try apply Qa.
    { unfold un_eval. repeat constructor. unfold no_self. simpl. destruct k; simpl; intuition discriminate. }
    { intros t (i & [<-|[]] & Hin). destruct k; simpl in Hin; destruct Hin as [Hin|[]]; injection Hin as ->; simpl; auto. }
    { intros d op [[= <- <-]|[]]. destruct k; reflexivity. }
    { intros t [<-|[]]. exists (loc a), va. auto. }
    exists (Datatypes.S na), z, s3. split.
    + intros f Hf. destruct f as [|f]; [lia|]. cbn [MatEngine.eval]. unfold ebind, eassert. rewrite (un_verify_ok Ha Hd).
      rewrite Ea by lia. rewrite Eun, Ex. exact Esl.
    + constructor; auto.
      * intros o V. rewrite Ef. apply (q_vis Qa), V.
      * intros o V. rewrite Ef. apply (q_eval Qa), V.
      * intros o. rewrite Ef. apply (q_dev Qa).
      * intros o Nb. rewrite Ef. now apply (q_high Qa).
      * simpl. intros o Ho. rewrite Ef. exact (q_leaves Qa Ho).
      * simpl. intros Hall o No. rewrite Ef. apply (q_exp Qa); auto.
      * simpl. auto.
      * eapply keeps_trans; [eapply keeps_weaken; [exact (q_frame Qa)|intros w Hw; apply (kept_un Hw)]|intros w Hw; exact Hw|].
        eapply keeps_weaken; [exact K|]. intros w Hw. apply (kept_un Hw).
      * intros o. rewrite Un by discriminate. apply (q_dres Qa).
      * refine (stable_trans (q_sized Qa) (Sz _)). intros o b y Ho. exact (tops_un _ (p_tops P) Ho).
Qed.
End Eval.
