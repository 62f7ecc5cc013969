(** * Histories of Eval, DevalF, PreComp and DevalR *)
From Coq Require Import List Arith Bool Lia Permutation Ring.
From Verif Require Import Num MatMem Kernels KernelFacts KernelProofs KernelBlocks KernelMore Registry KernelStep Backend Slots Exec ConvProofs Sums MatEngine MatGraph MatLeaf MatEval MatDeval MatHist MatSpec MatCalls MatFuel MatRev MatInplace RevVals MatRevOk MatRevCall.
Import ListNotations.
Set Implicit Arguments.
Unset Strict Implicit.

(** A program that has only built its matrices; the clone counters start at 0
    (MetaMatrix.hpp:38), reset sets them to -1 (MetaMatrix.cpp:60-62). *)
Definition rinit {T} (m : mem T) : rst (T := T) := RSt (init m) (fun _ => []) (fun _ => []) (fun _ => 1) (fun _ _ => None).

Section Hist.
Context {T : Type} {N : Num T}.
Variable S : sched T.
Variable B : backend (T := T).
Variable G : graph T.
Variable ord : cache -> cache.
Variable host : nat -> option obj.
Notation rst := (rst (T := T)).
Implicit Types (s : rst).

Definition rcall (fuel : nat) (a : act T) : R (T := T) ptr :=
  match a with AEval rho e => REval S B G rho fuel e | ADevalF rho e x => RDevalF S B G rho fuel e x end.
(** F is a square named expression over matrices; its matrices and the variables of its scalar
    operands have different numbers. *)
Record rev_root (F : obj) (id : nat) (a : mexp T) (y : obj) : Prop := {
  rr_kind : g_kind G F = KExp id a y;
  rr_plain : forall o, In o (y :: leaves a) -> is_leaf G o;
  rr_ids : forall o o', In o (y :: keyed a) -> In o' (y :: keyed a) -> g_nidx G o = g_nidx G o' -> o = o';
  rr_square : g_rows G F = g_cols G F;
  rr_fits : fits G a
}.
(** States of a program that has built the matrices of G and then called Eval and DevalF on
    settled expressions, PreComp on such F and DevalR. *)
Inductive rreached : rst -> Prop :=
| rr_init m : tame m -> rreached (rinit m)
| rr_call s a p s' : rreached s -> settled G (act_exp a) (rb s) -> act_ok B G host a ->
    (exists n, forall f, n <= f -> rcall f a s = EOk (p, s')) -> rreached s'
| rr_pre s rho F id a y s' : rreached s -> rev_root F id a y ->
    (exists n, forall f, n <= f -> PreComp S B G ord rho f F s = EOk (tt, s')) -> rreached s'
| rr_dev s F x p s' : rreached s -> DevalR G F x s = EOk (p, s') -> rreached s'.

Hypothesis L : NumLaws N.
Hypothesis VS : valid_sched S.
Hypothesis BV : value_ok B.
Hypothesis BK : kron_ok B \/ kron_zeroed_ok B.
Hypothesis BA : accum_ok B.
Variable rank : obj -> nat.
Hypothesis WF : wf_graph G host rank.
Hypothesis Hord : forall c, Permutation (ord c) c.

Lemma item_leaves id (a : mexp T) y o : In o (leaves (item id a y)) <-> In o (y :: leaves a).
Proof. simpl. rewrite in_app_iff. simpl. tauto. Qed.

Lemma item_keyed id (a : mexp T) y o : In o (keyed (item id a y)) <-> In o (y :: keyed a).
Proof. rewrite keyed_item. simpl. split; intros [H|H]; auto. Qed.
Lemma svars_in e v : In v (svars e) -> exists (s : obj) vs, In (s, vs) (sops (T := T) e) /\ In v vs.
Proof. unfold svars. rewrite in_flat_map. intros ([s vs] & H1 & H2). eauto. Qed.
(** The variables of scalar operands are scalars. *)
Lemma fits_svars e : fits G e -> forall v, In v (svars e) -> g_kind G v = LVar /\ g_rows G v = 1 /\ g_cols G v = 1.
Proof.
  induction e as [o|k id l IHl r IHr|k id a IHa]; intros H v Hv.
  - destruct Hv.
  - rewrite svars_bin in Hv. apply in_app_or in Hv. inversion H; subst; destruct Hv; auto.
  - rewrite svars_un in Hv. apply in_app_or in Hv. assert (Q : fits G a /\ un_fits G k a) by (inversion H; auto). destruct Q as [Q1 Q2].
    destruct Hv as [Hv|Hv]; [|auto]. destruct k; try destruct Hv; cbn [un_fits uvars] in *; apply (proj2 (proj2 Q2)), Hv.
Qed.
Lemma RInv_init m : tame m -> RInv G (rinit m).
Proof. intros Tm. constructor; [now apply Inv_init|reflexivity|reflexivity]. Qed.
(** Eval and DevalF with caches do what they do in MatEngine.v. *)
Lemma rcall_right a s : RInv G s -> settled G (act_exp a) (rb s) -> act_ok B G host a ->
  exists n p s', (forall f, n <= f -> rcall f a s = EOk (p, s')) /\ right G a (mm (rb s')) p /\ RInv G s' /\
    (forall o, In o (leaves (act_exp a)) -> roc s' o = []) /\
    (forall o, reach G (act_exp a) o -> f_vis (fl (rb s') o) = true) /\ (forall o, ~ reach G (act_exp a) o -> fl (rb s') o = fl (rb s) o).
Proof.
  intros I Hs Ha. destruct (call_right L VS BV BK WF (ri_inv I) Hs Ha) as (n & p & b' & E & Rt & I' & V & Hn).
  destruct (reset_root WF Hs) as (n0 & b0 & E0 & _).
  destruct (@rreset_sim T G n0 (act_exp a) s b0 (E0 n0 (le_n _))) as (s0 & Er & Eb & SW).
  exists (max n n0), p, (up s0 b').
  assert (C : forall f, max n n0 <= f -> match a with AEval rho e => eval S B G rho f e (rb s0) | ADevalF rho e x => devalF S B G rho f x e (rb s0) end = EOk (p, b')).
  { intros f Hf. specialize (E f ltac:(lia)). specialize (E0 f ltac:(lia)). destruct a as [rho e|rho e x]; cbn [call act_exp] in *;
      unfold Eval, DevalF, ebind in E; rewrite E0, <- Eb in E; exact E. }
  split; [|split; [exact Rt|split; [|split; [exact (sw_leaves SW)|auto]]]].
  - intros f Hf. specialize (C f Hf). pose proof (@rreset_fuel T G n0 f (act_exp a) s _ ltac:(lia) Er) as Q.
    destruct a as [rho e|rho e x]; cbn [rcall act_exp] in *; unfold REval, RDevalF, rbind, rl; rewrite Q; unfold rl; rewrite C; reflexivity.
  - constructor; [exact I'| |]; cbn [up rnc roc].
    + intros i Hi. destruct (sw_nc SW i) as [-> | ->]; [now apply (ri_nc I)|reflexivity].
    + intros o Ho. destruct (sw_oc SW o) as [-> | ->]; [now apply (ri_oc I)|reflexivity].
Qed.

Lemma pre_right s rho F id a y : RInv G s -> rev_root F id a y ->
  exists n s' v, (forall f, n <= f -> PreComp S B G ord rho f F s = EOk (tt, s')) /\ mval G rho a v /\
    precomped G rho F id a y v s' /\ RInv G s'.
Proof.
  intros I [Hk Hp Hi Hq Hf]. destruct (den_total rho Hf) as (F0 & HF0). destruct (den_mval L WF Hf HF0) as (v & Hv & _).
  destruct (@call_precomp T N S VS B BV BK BA G host rank WF ord Hord rho F id a y Hk) with (s := s) (v := v) as (n & s' & E & P & I' & _); auto.
  - intros o Ho. apply Hp. exact (proj1 (item_leaves id a y o) Ho).
  - intros w Hw. apply (fits_svars Hf Hw).
  - intros o o' Ho Ho'. apply Hi; [exact (proj1 (item_keyed id a y o) Ho)|exact (proj1 (item_keyed id a y o') Ho')].
  - exists n, s', v. auto.
Qed.
Lemma dev_some s F x p : cget (roc s F) (KMat (g_nidx G x)) = Some p -> DevalR G F x s = EOk (p, s).
Proof. intros H. unfold DevalR. now rewrite H. Qed.
(** A missing entry: zeros in the shape of F. *)
Lemma dev_none s F x : RInv G s -> cget (roc s F) (KMat (g_nidx G x)) = None ->
  exists p s', DevalR G F x s = EOk (p, s') /\ holds (mm (rb s')) p (mzeros (g_rows G F) (g_cols G F)) /\ RInv G s' /\
    (forall q w, holds (mm (rb s)) q w -> holds (mm (rb s')) q w) /\ roc s' = roc s /\ fl (rb s') = fl (rb s).
Proof.
  intros I H. unfold DevalR. rewrite H. destruct (wf_pos WF F) as [P1 P2].
  destruct (request_step VS (k := KZeros) (sl_tame (inv_slots (ri_inv I))) P1 P2) as (p & m' & E & Hp & _ & Ev); [discriminate|].
  destruct (slot_quiet (inv_slots (ri_inv I)) Ev) as (Sl' & Kh & Fr).
  exists p, (up s (St m' (ar (rb s)) (fl (rb s)))). split; [|split; [exact Hp|split; [|split; [exact Kh|auto]]]].
  - unfold rl, lift. cbn [request] in E. rewrite E. reflexivity.
  - constructor; [|apply (ri_nc I)|apply (ri_oc I)]. constructor; cbn [up rb mm ar fl].
    + exact Sl'.
    + apply (inv_fi (ri_inv I)).
    + intros o Hk He. destruct (inv_eye (ri_inv I) Hk He) as (q & Eq & Hq). exists q. auto.
    + eapply dclean_DC_keep; [exact (inv_slots (ri_inv I))|exact (inv_dc (ri_inv I))|reflexivity|]. cbn [mm].
      intros o q Eq. apply Fr. destruct (sl_slot (inv_slots (ri_inv I)) Eq) as ((o' & Ho') & _). exact (get_lt Ho').
Qed.

Lemma rreached_RInv s : rreached s -> RInv G s.
Proof.
  induction 1 as [m Tm|s a p s' H IH Hs Ha (n & E)|s rho F id a y s' H IH Hr (n & E)|s F x p s' H IH E].
  - now apply RInv_init.
  - destruct (rcall_right IH Hs Ha) as (n2 & q & s2 & E2 & _ & I2 & _). specialize (E (n + n2) ltac:(lia)). specialize (E2 (n + n2) ltac:(lia)). congruence.
  - destruct (pre_right rho IH Hr) as (n2 & s2 & v & E2 & _ & _ & I2). specialize (E (n + n2) ltac:(lia)). specialize (E2 (n + n2) ltac:(lia)). congruence.
  - destruct (cget (roc s F) (KMat (g_nidx G x))) as [q|] eqn:Ec.
    + rewrite (dev_some Ec) in E. congruence.
    + destruct (dev_none (F := F) IH Ec) as (q & s2 & E2 & _ & I2 & _). congruence.
Qed.

(** ** PreComp, then any number of DevalR *)
(** The answer for x: the derivative of the trace of F by the entries of x, or, if x does
    not occur, zeros in the shape of F. *)
Inductive answer (rho : env T) (F : obj) (a : mexp T) (y : obj) (x : obj) (m : mem T) (p : ptr) : Prop :=
| ans_occurs F0 D : In x (keyed a) -> dif G rho x a F0 D ->
    holds m p (Mat (g_rows G x) (g_cols G x) (fun i j => sum_n (g_rows G F) (fun l => D l l i j))) -> answer rho F a y x m p
| ans_absent : (forall o, In o (y :: keyed a) -> o <> x) ->
    holds m p (mzeros (g_rows G F) (g_cols G F)) -> answer rho F a y x m p.
Fixpoint asked (rho : env T) (F : obj) (a : mexp T) (y : obj) (l : list obj) (s : rst) : Prop :=
  match l with
  | [] => True
  | x :: t => exists p s', DevalR G F x s = EOk (p, s') /\ answer rho F a y x (mm (rb s')) p /\ asked rho F a y t s'
  end.
(** x is a matrix of independent variables, or a scalar variable; its number is its own, the
    matrices of scalar expressions among the leaves do not depend on it, and no scalar operand
    does unless x is one of its scalar variables. *)
Definition variable_of (rho : env T) (a : mexp T) (y x : obj) : Prop := g_kind G x = LVar /\
  (forall o, In o (y :: leaves a) -> (g_nidx G o = g_nidx G x -> o = x) /\ (g_kind G o = LEnt -> forall n k, e_der rho o n x k = n0)) /\
  (forall (so : obj) vs, In (so, vs) (sops a) -> (forall v, In v vs -> g_nidx G v = g_nidx G x -> v = x) /\ (~ In x vs -> forall n, e_der rho so 0 x n = n0)).

Lemma asked_ok rho F id a y v : rev_root F id a y -> mval G rho a v -> forall l s, RInv G s -> precomped G rho F id a y v s ->
  (forall x, In x l -> variable_of rho a y x) -> (forall x, In x l -> In x (keyed a) -> solvable G rho a) -> asked rho F a y l s.
Proof.
  intros [Hk Hp Hi Hq Hf] Hv. induction l as [|x l IH]; intros s I P Hl Hsv; [exact Logic.I|].
  assert (Hsv' : forall x, In x l -> In x (keyed a) -> solvable G rho a) by (intros z Hz; apply Hsv; simpl; auto).
  assert (Hl' : forall x, In x l -> variable_of rho a y x) by (intros z Hz; apply Hl; simpl; auto).
  destruct (Hl x (or_introl eq_refl)) as (Xv & Ox & Os). simpl.
  destruct (in_dec Nat.eq_dec x (keyed a)) as [Hx|Nx].
  - assert (Sv : solvable G rho a) by (eapply Hsv; [left; reflexivity|exact Hx]).
    destruct (dif_total rho x Hf) as (F0 & D & HD).
    destruct (@adjoint_value T N L G host rank WF rho F id a y Hk) with (x := x) (v := v) (F0 := F0) (D := D) as (u & Eu & Mu); auto.
    { intros o Ho. apply Hp. exact (proj1 (item_leaves id a y o) Ho). }
    { split; [intros o Ho; apply Ox; exact (proj1 (item_leaves id a y o) Ho)|]. intros so vs Q. apply Os. simpl in Q. now rewrite app_nil_r in Q. }
    destruct P as (P1 & P2 & P3). destruct (P1 _ _ Eu) as (p & Ep & Hp').
    exists p, s. split; [now apply dev_some|]. split; [|apply IH; auto; exact (conj P1 (conj P2 P3))].
    eapply ans_occurs; [exact Hx|exact HD|]. eapply holds_meq; [exact Hp'|].
    destruct (P3 x u) as [D1 D2]; [apply (proj2 (item_keyed id a y x)); simpl; auto|exact Eu|]. split; [exact D1|]. split; [exact D2|]. cbn [mf].
    rewrite D1, D2. exact Mu.
  - assert (Nl : forall o, In o (y :: keyed a) -> o <> x).
    { intros o [<-|Ho] E; subst; [|auto]. destruct (wf_eye WF Hk) as [Q _]. congruence. }
    destruct P as (P1 & P2 & P3).
    assert (En : adjoints G rho a y v (KMat (g_nidx G x)) = None).
    { apply adjoint_none with (id0 := id). intros o Ho E. apply (proj1 (item_keyed id a y o)) in Ho. apply (Nl o Ho).
      assert (Q : In o (y :: leaves a) \/ In o (svars a)) by (unfold keyed in Ho; simpl in *; rewrite in_app_iff in Ho; tauto).
      destruct Q as [Q|Q]; [now apply Ox|]. destruct (svars_in Q) as (so & vs & Q1 & Q2). exact (proj1 (Os so vs Q1) o Q2 E). }
    destruct (dev_none (F := F) I (P2 _ En)) as (p & s' & E & Hz & I' & Kh & Er & Ef).
    exists p, s'. split; [exact E|]. split; [now apply ans_absent|]. apply IH; auto.
    split; [|split; [|exact P3]].
    + intros k u Ek. destruct (P1 k u Ek) as (q & Eq & Hq'). exists q. rewrite Er. auto.
    + intros k Ek. rewrite Er. auto.
Qed.
End Hist.

(** ** Fuel *)
Section Fuel.
Context {T : Type} {N : Num T}.
Variable S : sched T.
Variable B : backend (T := T).
Variable G : graph T.
Variable ord : cache -> cache.
Variable rho : env T.

Lemma rmore_rl A (c c' : E (T := T) A) : more c c' -> rmore (rl c) (rl c').
Proof. intros H s. unfold rl. destruct (H (rb s)) as [->| ->]; auto. Qed.
Lemma trav_more n : forall r e, rmore (trav S B G ord rho n r e) (trav S B G ord rho (Datatypes.S n) r e).
Proof.
  induction n as [|n IH]; intros r e; [intros s; now left|].
  assert (EM : forall e, rmore (rl (eval S B G rho n e)) (rl (eval S B G rho (Datatypes.S n) e))) by (intros e'; apply rmore_rl, eval_more).
  destruct e as [o|k id l r'|k id a].
  - cbn [trav]. apply rmore_bind; [apply rmore_refl|intros f]. destruct (f_vis f); [apply rmore_refl|].
    apply rmore_bind; [apply rmore_refl|intros _]. destruct (g_kind G o); try apply rmore_refl.
    apply rmore_bind; [apply rmore_refl|intros _]. apply rmore_bind; [apply IH|intros _]. apply rmore_bind; [apply IH|intros _].
    apply rmore_bind; [apply EM|intros p]. apply rmore_bind; [apply EM|intros q]. apply rmore_bind; [apply rmore_refl|intros _].
    apply rmore_bind; [apply rmore_refl|intros _]. apply rmore_bind; [apply IH|intros _]. apply rmore_bind; [apply IH|intros _].
    apply rmore_bind; [apply EM|intros p']. apply rmore_refl.
  - change (rmore (trav S B G ord rho (Datatypes.S n) r (MBin k id l r')) (trav S B G ord rho (Datatypes.S (Datatypes.S n)) r (MBin k id l r'))).
    cbn [trav]. apply rmore_bind; [apply rmore_refl|intros c]. apply rmore_bind.
    + destruct c as [pc|]; [|apply rmore_refl]. apply rmore_bind; [apply IH|intros _]. apply rmore_bind; [apply IH|intros _].
      apply rmore_bind; [|intros _; apply rmore_refl]. destruct k; try apply rmore_refl;
      (apply rmore_bind; [apply EM|intros p]; apply rmore_bind; [apply EM|intros q]; apply rmore_refl).
    + intros _. apply rmore_bind; [apply IH|intros _; apply IH].
  - change (rmore (trav S B G ord rho (Datatypes.S n) r (MUn k id a)) (trav S B G ord rho (Datatypes.S (Datatypes.S n)) r (MUn k id a))).
    cbn [trav]. apply rmore_bind; [apply rmore_refl|intros c]. apply rmore_bind.
    + destruct c as [pc|]; [|apply rmore_refl]. apply rmore_bind; [apply rmore_refl|intros z]. apply rmore_bind; [apply IH|intros _].
      apply rmore_bind; [|intros _; apply rmore_refl]. destruct (ureads k); [|apply rmore_refl].
      apply rmore_bind; [apply EM|intros p]; apply rmore_refl.
    + intros _. apply IH.
Qed.
Lemma PreComp_more n F : rmore (PreComp S B G ord rho n F) (PreComp S B G ord rho (Datatypes.S n) F).
Proof.
  unfold PreComp. destruct (g_kind G F).
  1-4: apply rmore_bind; [apply rreset_more|intros _; apply trav_more].
  apply rmore_bind; [apply rmore_refl|intros _]. apply rmore_bind; [apply rmore_refl|intros _]. apply rmore_bind; [apply rreset_more|intros _; apply trav_more].
Qed.
Lemma PreComp_fuel n f F s : n <= f -> PreComp S B G ord rho n F s <> ENoFuel -> PreComp S B G ord rho f F s = PreComp S B G ord rho n F s.
Proof.
  intros H Hn. induction H as [|f H IH]; [reflexivity|]. rewrite <- IH. destruct (PreComp_more f F s) as [E|E]; [|now symmetry].
  exfalso. apply Hn. now rewrite <- IH.
Qed.
End Fuel.
