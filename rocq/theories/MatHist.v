(** * Calls of Eval and DevalF, and histories of calls *)

From Coq Require Import List Arith Bool Lia.
From Verif Require Import Num MatMem Kernels KernelFacts KernelProofs KernelBlocks KernelMore Registry KernelStep Backend Slots Exec ConvProofs MatEngine MatGraph MatLeaf MatEval MatDeval.
Import ListNotations.
Set Implicit Arguments.
Unset Strict Implicit.

Section Hist.
Context {T : Type} {N : Num T}.
Variable S : sched T.
Hypothesis VS : valid_sched S.
Variable B : backend (T := T).
Hypothesis BV : value_ok B.
Hypothesis BK : kron_ok B \/ kron_zeroed_ok B.
Variable G : graph T.
Variable host : nat -> option obj.
Variable rank : obj -> nat.
Hypothesis WF : wf_graph G host rank.
Notation mat := (mat T).
Notation st := (st (T := T)).
Implicit Types (s : st) (e : mexp T).
Notation vis s o := (f_vis (fl s o) = true).

Lemma LEye_dec o : g_kind G o = LEye \/ g_kind G o <> LEye.
Proof. destruct (g_kind G o); auto; right; discriminate. Qed.

(** ** reset *)
(** Below an expression that has not been visited nothing has been visited; unit matrices
    do not matter, their value never changes. *)
Definition settled e s : Prop := forall o id a y o', reach G e o -> g_kind G o = KExp id a y -> f_vis (fl s o) = false ->
  In o' (leaves (item id a y)) -> g_kind G o' <> LEye -> f_vis (fl s o') = false.

Definition cleared s s' : Prop := mm s' = mm s /\ ar s' = ar s /\ forall o, fl s' o = fl s o \/ (vis s o /\ fl s' o = clear (fl s o)).
Lemma cleared_refl s : cleared s s.
Proof. split; [reflexivity|]. split; [reflexivity|]. auto. Qed.
Lemma cleared_vis s s' o : cleared s s' -> f_vis (fl s o) = false -> fl s' o = fl s o.
Proof. intros (_ & _ & H) V. destruct (H o) as [E|[V' _]]; congruence. Qed.
Lemma cleared_mono s s' o : cleared s s' -> f_vis (fl s o) = false -> f_vis (fl s' o) = false.
Proof. intros C V. rewrite (cleared_vis C V). exact V. Qed.
Lemma cleared_trans s s' s2 : cleared s s' -> cleared s' s2 -> cleared s s2.
Proof.
  intros (A1 & A2 & A3) (B1 & B2 & B3). split; [congruence|]. split; [congruence|]. intros o.
  destruct (A3 o) as [E|[V E]]; destruct (B3 o) as [E'|[V' E']].
  - left. congruence.
  - right. rewrite <- E. auto.
  - right. split; [exact V|]. congruence.
  - rewrite E in V'. discriminate.
Qed.

Section Reset.
Variable U : obj -> Prop.
Hypothesis UC : forall o id e y o', U o -> g_kind G o = KExp id e y -> In o' (leaves (item id e y)) -> U o'.
Notation below := (below rank U).
Definition J (lv : nat) s : Prop := forall o id a y o', below lv o -> g_kind G o = KExp id a y -> f_vis (fl s o) = false ->
  In o' (leaves (item id a y)) -> g_kind G o' <> LEye -> f_vis (fl s o') = false.

Lemma reset_ok : forall lv e s, (forall o, In o (leaves e) -> below lv o) -> J lv s ->
  exists n s', (forall f, n <= f -> reset G f e s = EOk (tt, s')) /\ cleared s s' /\ (forall o, ~ below lv o -> fl s' o = fl s o) /\
    J lv s' /\ (forall o, In o (leaves e) -> g_kind G o <> LEye -> f_vis (fl s' o) = false).
Proof.
  induction lv as [lv IHlv] using lt_wf_ind.
  induction e as [o|k id l IHl r IHr|k id a IHa]; intros s Hl Hj.
  - pose proof (Hl o (or_introl eq_refl)) as Bo.
    destruct (f_vis (fl s o)) eqn:Vo.
    + set (s0 := St (mm s) (ar s) (fun o' => if o' =? o then clear (fl s o') else fl s o')).
      assert (F0 : forall o', o' <> o -> fl s0 o' = fl s o').
      { intros o' Ne. simpl. apply Nat.eqb_neq in Ne. now rewrite Ne. }
      assert (F0o : fl s0 o = clear (fl s o)) by (simpl; now rewrite Nat.eqb_refl).
      assert (C0 : cleared s s0).
      { split; [reflexivity|]. split; [reflexivity|]. intros o'. destruct (Nat.eq_dec o' o) as [->|Ne]; auto. }
      assert (Un : f_vis (fl s0 o) = false) by (now rewrite F0o).
      assert (Hn : forall o', ~ below lv o' -> fl s0 o' = fl s o').
      { intros o' Nb. apply F0. intros ->. auto. }
      destruct (g_kind G o) as [| | | |id a y] eqn:Ek.
      1-4: exists 1, s0; split; [intros f Hf; destruct f as [|f]; [lia|]; cbn [reset]; unfold ebind, getf; rewrite Vo, setf_eq; fold s0; rewrite Ek; reflexivity|];
        split; [exact C0|]; split; [exact Hn|]; split; [|intros o' [<-|[]] _; exact Un];
        intros o1 id1 a1 y1 o' Bo1 Hk1 V1 Hin Ne'; destruct (Nat.eq_dec o1 o) as [->|Ne]; [congruence|]; rewrite F0 in V1 by auto;
        apply (cleared_mono C0); eapply Hj; eauto.
      assert (Lt : forall o', In o' (leaves (item id a y)) -> below (rank o) o').
      { intros o' Hin. split; [eapply UC; eauto; apply Bo|]. eapply (wf_rank WF); eauto. }
      assert (Up : forall o', below (rank o) o' -> below lv o' /\ o' <> o).
      { intros o' [Uo Ro]. destruct Bo as [_ Ro']. split; [split; [auto|lia]|]. intros ->. lia. }
      assert (J0 : J (rank o) s0).
      { intros o1 id1 a1 y1 o' Bo1 Hk1 V1 Hin Ne'. destruct (Up _ Bo1) as [Bo1' Ne]. rewrite F0 in V1 by auto. apply (cleared_mono C0). eapply Hj; eauto. }
      destruct (IHlv (rank o) (proj2 Bo) (item id a y) s0 Lt J0) as (n & s1 & E & C1 & H1 & J1 & L1).
      exists (Datatypes.S n), s1. split; [intros f Hf; destruct f as [|f]; [lia|]; cbn [reset]; unfold ebind, getf; rewrite Vo, setf_eq; fold s0; rewrite Ek; apply E; lia|].
      split; [eapply cleared_trans; eauto|]. split; [|split].
      * intros o' Nb. rewrite H1; auto. intros Bl. apply Nb. now apply Up.
      * intros o1 id1 a1 y1 o' Bo1 Hk1 V1 Hin Ne'. destruct (Nat.eq_dec o1 o) as [->|Ne].
        { rewrite Ek in Hk1. injection Hk1 as <- <- <-. auto. }
        destruct (Nat.lt_ge_cases (rank o1) (rank o)) as [R|R].
        { eapply J1; [split; [apply Bo1|exact R]| | | |]; eauto. }
        rewrite H1, F0 in V1 by (auto; intros [_ R']; lia). apply (cleared_mono C1), (cleared_mono C0). eapply Hj; eauto.
      * intros o' [<-|[]] _. now apply (cleared_mono C1).
    + exists 1, s. split; [intros f Hf; destruct f as [|f]; [lia|]; cbn [reset]; unfold ebind, getf; rewrite Vo; reflexivity|].
      split; [apply cleared_refl|]. split; [auto|]. split; [exact Hj|]. intros o' [<-|[]] _. exact Vo.
  - destruct (IHl s) as (nl & s1 & E1 & C1 & H1 & J1 & L1); [intros o Ho; apply Hl; simpl; apply in_or_app; auto|exact Hj|].
    destruct (IHr s1) as (nr & s2 & E2 & C2 & H2 & J2 & L2); [intros o Ho; apply Hl; simpl; apply in_or_app; auto|exact J1|].
    exists (Datatypes.S (max nl nr)), s2. split.
    { intros f Hf. destruct f as [|f]; [lia|]. cbn [reset]. unfold ebind. rewrite E1 by lia. apply E2. lia. }
    split; [eapply cleared_trans; eauto|]. split; [intros o Nb; rewrite H2; auto|]. split; [exact J2|].
    simpl. intros o Ho Ne. apply in_app_or in Ho. destruct Ho as [Ho|Ho]; [apply (cleared_mono C2)|]; auto.
  - destruct (IHa s) as (na & s1 & E1 & C1 & H1 & J1 & L1); [intros o Ho; apply Hl; exact Ho|exact Hj|].
    exists (Datatypes.S na), s1. split; [|auto]. intros f Hf. destruct f as [|f]; [lia|]. cbn [reset]. apply E1. lia.
Qed.
End Reset.

(** ** The state between calls *)
(** What mp_dresult of the leaves may contain. *)
Variable dcl : mem T -> obj -> option ptr -> Prop.
Hypothesis dcl_same : forall m m' o r, (forall p, r = Some p -> get m' p = get m p) -> dcl m o r -> dcl m' o r.
(** Initially nothing is allocated and nothing is visited; every call keeps this. *)
Record Inv_with s : Prop := {
  inv_slots : slots (mm s) (ar s) none;
  inv_fi : FI s;
  inv_eye : forall o, g_kind G o = LEye -> f_eval (fl s o) = true ->
      exists p, ar s (ORes o) = Some p /\ holds (mm s) p (Mat (g_rows G o) (g_cols G o) (mf (meye (g_cols G o))));
  inv_dc : DC G dcl s
}.
(** Expressions the user passes to Eval and DevalF: a named matrix, or an expression
    whose operator nodes do not belong to a named matrix. *)
Definition root e : Prop := NoDup (nodes e) /\ forall i, In i (nodes e) -> host i = None.
Definition evaluated e s : Prop := forall o, reach G e o -> g_kind G o <> LEye -> vis s o.

Lemma evaluated_settled e s : evaluated e s -> settled e s.
Proof. intros H o id a y o' Ho Hk V. rewrite (H o Ho) in V by congruence. discriminate. Qed.

Lemma eye_mat rho o : g_kind G o = LEye -> leaf_mat G rho o = Mat (g_rows G o) (g_cols G o) (fun i j => leaf_entry G rho o (i * g_cols G o + j)).
Proof. reflexivity. Qed.
Lemma eye_meq rho o : g_kind G o = LEye ->
  meq (leaf_mat G rho o) (Mat (g_rows G o) (g_cols G o) (mf (meye (g_cols G o)))).
Proof.
  intros H. split; [reflexivity|]. split; [reflexivity|]. simpl. intros i j Hi Hj. unfold leaf_entry. rewrite H.
  destruct (wf_pos WF o) as [_ P]. rewrite (Nat.div_add_l i (g_cols G o) j) by lia. rewrite (Nat.div_small j) by exact Hj.
  rewrite (Nat.add_comm (i * g_cols G o)), Nat.mod_add, Nat.mod_small by lia. rewrite Nat.add_0_r. reflexivity.
Qed.

Definition top e : nat := Datatypes.S (fold_right max 0 (map rank (leaves e))).
Lemma top_leaves e o : In o (leaves e) -> rank o < top e.
Proof.
  unfold top. induction (leaves e) as [|a t IH]; [intros []|]. simpl. intros [->|H]; [lia|]. specialize (IH H). lia.
Qed.
Lemma top_reach e o : reach G e o -> rank o < top e.
Proof. induction 1 as [o H|o id a y o' _ IH Hk Hin]; [now apply top_leaves|]. pose proof (wf_rank WF Hk Hin). lia. Qed.
Lemma reach_closed e : forall o id a y o', reach G e o -> g_kind G o = KExp id a y -> In o' (leaves (item id a y)) -> reach G e o'.
Proof. intros. eapply reach_item; eauto. Qed.
Lemma below_reach e o : reach G e o -> below rank (reach G e) (top e) o.
Proof. intros H. split; [exact H|now apply top_reach]. Qed.

Lemma reach_dec e o : reach G e o \/ ~ reach G e o.
Proof.
  assert (H : forall lv e, (forall a, In a (leaves e) -> rank a < lv) -> reach G e o \/ ~ reach G e o).
  { clear e. induction lv as [lv IH] using lt_wf_ind. intros e Hl.
    assert (D : forall l, (forall a, In a l -> rank a < lv) ->
              (exists a, In a l /\ (a = o \/ exists id b y, g_kind G a = KExp id b y /\ reach G (item id b y) o)) \/
              ~ (exists a, In a l /\ (a = o \/ exists id b y, g_kind G a = KExp id b y /\ reach G (item id b y) o))).
    { induction l as [|a l IHl]; intros Hla.
      - right. intros (a & [] & _).
      - destruct IHl as [(b & Hb & Q)|Nq]; [intros b Hb; apply Hla; simpl; auto|left; exists b; simpl; auto|].
        assert (Da : (a = o \/ exists id b y, g_kind G a = KExp id b y /\ reach G (item id b y) o) \/
                     ~ (a = o \/ exists id b y, g_kind G a = KExp id b y /\ reach G (item id b y) o)).
        { destruct (Nat.eq_dec a o) as [Q|Q]; [auto|]. destruct (g_kind G a) as [| | | |id b y] eqn:Ek.
          1-4: right; intros [Q'|(id & b & y & Q' & _)]; [auto|discriminate].
          destruct (IH (rank a) (Hla a (or_introl eq_refl)) (item id b y)) as [R|R]; [intros c Hc; eapply (wf_rank WF); eauto|left; right; eauto 6|].
          right. intros [Q'|(id' & b' & y' & Q' & R')]; [auto|]. injection Q' as <- <- <-. auto. }
        destruct Da as [Da|Da]; [left; exists a; simpl; auto|]. right. intros (c & [<-|Hc] & Q); [auto|]. apply Nq. eauto. }
    destruct (D (leaves e) Hl) as [(a & Ha & [->|(id & b & y & Hk & R)])|Nq].
    - left. now apply reach_leaf.
    - left. eapply reach_trans; [apply reach_leaf; exact Ha|exact Hk|exact R].
    - right. intros R. apply Nq. clear -R. induction R as [o Ho|o1 id a y o' Ho IHo Hk Hin].
      + exists o. auto.
      + destruct IHo as (c & Hc & [->|(id' & b & y' & Hk' & R)]).
        * exists o1. split; [exact Hc|]. right. exists id, a, y. split; [exact Hk|]. now apply reach_leaf.
        * exists c. split; [exact Hc|]. right. exists id', b, y'. split; [exact Hk'|]. eapply reach_item; eauto. }
  apply (H (top e)). apply top_leaves.
Qed.

(** After reset, nothing reachable except unit matrices is visited. *)
Lemma reset_root e s : settled e s ->
  exists n s', (forall f, n <= f -> reset G f e s = EOk (tt, s')) /\ cleared s s' /\ (forall o, ~ reach G e o -> fl s' o = fl s o) /\
    (forall o, reach G e o -> g_kind G o <> LEye -> f_vis (fl s' o) = false).
Proof.
  intros Hs. destruct (@reset_ok (reach G e) (@reach_closed e) (top e) e s) as (n & s' & E & C & H & Hj & L).
  - intros o Ho. apply below_reach. now apply reach_leaf.
  - intros o id a y o' [Ro _]. eauto.
  - exists n, s'. split; [exact E|]. split; [exact C|]. split; [intros o Nr; apply H; intros [R _]; auto|].
    intros o Ho. induction Ho as [o Hin|o id a y o' Ho IH Hk Hin]; [auto|]. intros Ne. eapply Hj; eauto; [now apply below_reach|]. apply IH. congruence.
Qed.

Lemma Inv_with_cleared s s' : Inv_with s -> cleared s s' -> Inv_with s'.
Proof.
  intros [Sl Fi Ei Dc] (Em & Ea & Ef). constructor.
  - now rewrite Em, Ea.
  - intros o. destruct (Ef o) as [-> |[_ ->]]; [apply Fi|]. simpl. intros [Q|Q]; discriminate.
  - intros o Hk. rewrite Em, Ea. destruct (Ef o) as [-> |[_ ->]]; [now apply Ei|]. simpl. discriminate.
  - intros o Ho. rewrite Em, Ea. now apply Dc.
Qed.

Section Call.
Variable rho : env T.
(** The state in which the traversal proper starts. *)
Lemma root_pre_with e s : Inv_with s -> root e -> (forall o, reach G e o -> g_kind G o <> LEye -> f_vis (fl s o) = false) ->
  pre G host rank rho (reach G e) (top e) e s.
Proof.
  intros [Sl Fi Ei Dc] [Nd Hh] Hv. constructor; auto.
  - intros o [Ro _]. destruct (LEye_dec o) as [Hk|Hk].
    + rewrite Hk. intros Q. destruct (Ei o Hk Q) as (p & Ep & Hp). exists p. split; [exact Ep|]. eapply holds_meq; [exact Hp|]. apply meq_sym, eye_meq, Hk.
    + pose proof (Hv o Ro Hk) as V. destruct (g_kind G o); [| | | |congruence]; intros Q; rewrite (Fi o (or_introl Q)) in V; discriminate.
  - intros o id a y o' [Ro _] Hk V. rewrite (Hv o Ro) in V by congruence. discriminate.
  - intros o Ho. apply below_reach. now apply reach_leaf.
  - intros i o Hi. rewrite (Hh i Hi). discriminate.
  - intros i o a y Hi Hk. pose proof (exp_host WF Hk) as Q. rewrite (Hh i Hi) in Q. discriminate.
Qed.

(** Eval on a settled expression. *)
Theorem call_eval_with e s v : Inv_with s -> settled e s -> root e -> mval G rho e v ->
  exists n p s', (forall f, n <= f -> Eval S B G rho f e s = EOk (p, s')) /\ holds (mm s') p v /\ Inv_with s' /\
    (forall o, reach G e o -> vis s' o) /\ (forall o, ~ reach G e o -> fl s' o = fl s o).
Proof.
  intros I Hs Hr Hv. destruct (reset_root Hs) as (n0 & s0 & E0 & C0 & H0 & V0).
  pose proof (Inv_with_cleared I C0) as I0. pose proof (root_pre_with I0 Hr V0) as P.
  destruct (eval_ok VS BV BK WF (@reach_closed e) P Hv) as (n & p & s' & E & Q).
  assert (Nb : forall o, ~ reach G e o -> fl s' o = fl s0 o) by (intros o Nr; apply (q_high Q); intros [R _]; auto).
  exists (max n0 n), p, s'. split; [|split; [exact (proj2 (q_at Q))|split; [|split]]].
  - intros f Hf. unfold Eval, ebind. rewrite E0 by lia. apply E. lia.
  - constructor.
    + apply Q.
    + apply Q.
    + intros o Hk He. destruct (f_eval (fl s0 o)) eqn:E1.
      * destruct (inv_eye I0 Hk E1) as (q & Hq). exists q. exact (keeps_at (q_frame Q) (w := ORes o) E1 Hq).
      * assert (Ro : reach G e o).
        { destruct (reach_dec e o) as [R|R]; [exact R|]. rewrite (Nb _ R) in He. congruence. }
        pose proof (q_pi Q (below_reach Ro)) as Qo. rewrite Hk in Qo. destruct (Qo He) as (q & Eq & Hq). exists q. split; [exact Eq|].
        eapply holds_meq; [exact Hq|]. now apply eye_meq.
    + eapply (DC_keep dcl_same); [exact (inv_slots I0)|exact (inv_dc I0)|intros o _; apply (q_dres Q)|].
      intros o q Eq. apply (proj2 (q_frame Q) (ODres o)); [exact Logic.I|exact Eq].
  - intros o Ho. induction Ho as [o Hin|o id a y o' Ho IH Hk Hin]; [exact (q_leaves Q Hin)|]. exact (q_vc Q (below_reach Ho) Hk IH Hin).
  - intros o Nr. rewrite Nb, H0; auto.
Qed.

(** DevalF on a settled expression. *)
Theorem call_devalF_with (KO : kron_ok B) x e s v dv :
  (forall m r o, is_leaf G o -> tame m -> slot_ok m r -> dcl m o r ->
    exists p m1 m', pool CPU r (g_rows G o * g_rows G x) (g_cols G o * g_cols G x) m = Ok (p, m1) /\ set_derivs S G rho o x p m1 = Ok (tt, m') /\
      wrote m r p (leaf_dmat G rho x o) m' /\ dcl m' o (Some p)) ->
  Inv_with s -> settled e s -> root e -> mder G rho x e v dv ->
  exists n p s', (forall f, n <= f -> DevalF S B G rho f e x s = EOk (p, s')) /\ at_ s' (dloc G e) p dv /\ Inv_with s' /\
    (forall o, reach G e o -> vis s' o) /\ (forall o, ~ reach G e o -> fl s' o = fl s o).
Proof.
  intros DW I Hs Hr Hv. destruct (reset_root Hs) as (n0 & s0 & E0 & C0 & H0 & V0).
  pose proof (Inv_with_cleared I C0) as I0. pose proof (root_pre_with I0 Hr V0) as P.
  assert (DP : dpre G host rank rho (reach G e) x dcl (top e) e s0).
  { constructor; [exact P| |apply I0]. intros o [Ro _]. destruct (LEye_dec o) as [Hk|Hk].
    - rewrite Hk. intros Nc. exfalso. apply Nc. now right.
    - pose proof (V0 o Ro Hk) as V. destruct (g_kind G o); [| | | |congruence]; intros _ Q; rewrite (inv_fi I0 (or_intror Q)) in V; discriminate. }
  destruct (devalF_ok VS BV KO WF (@reach_closed e) dcl_same DW DP Hv) as (n & p & s' & E & Q).
  assert (Nb : forall o, ~ reach G e o -> fl s' o = fl s0 o) by (intros o Nr; apply (r_high Q); intros [R _]; auto).
  exists (max n0 n), p, s'. split; [|split; [exact (r_at Q)|split; [|split]]].
  - intros f Hf. unfold DevalF, ebind. rewrite E0 by lia. apply E. lia.
  - constructor.
    + apply Q.
    + apply Q.
    + intros o Hk He. destruct (f_eval (fl s0 o)) eqn:E1.
      * destruct (inv_eye I0 Hk E1) as (q & Hq). exists q. exact (keeps_at (r_frame Q) (w := ORes o) E1 Hq).
      * assert (Ro : reach G e o).
        { destruct (reach_dec e o) as [R|R]; [exact R|]. rewrite (Nb _ R) in He. congruence. }
        pose proof (r_pi Q (below_reach Ro)) as Qo. rewrite Hk in Qo. destruct (Qo He) as (q & Eq & Hq). exists q. split; [exact Eq|].
        eapply holds_meq; [exact Hq|]. now apply eye_meq.
    + apply Q.
  - intros o Ho. induction Ho as [o Hin|o id a y o' Ho IH Hk Hin]; [exact (r_leaves Q Hin)|]. exact (r_vc Q (below_reach Ho) Hk IH Hin).
  - intros o Nr. rewrite Nb, H0; auto.
Qed.
End Call.
End Hist.

(** The invariant of programs without vec: mp_dresult of a leaf is zero outside the positions its own derivative sets. *)
Section Plain.
Context {T : Type} {N : Num T}.
Variable S : sched T.
Hypothesis VS : valid_sched S.
Variable B : backend (T := T).
Hypothesis BV : value_ok B.
Hypothesis BK : kron_ok B \/ kron_zeroed_ok B.
Variable G : graph T.
Variable host : nat -> option obj.
Variable rank : obj -> nat.
Hypothesis WF : wf_graph G host rank.
Notation st := (st (T := T)).
Implicit Types (s : st) (e : mexp T).
Definition Inv s : Prop := Inv_with G (dclean G) s.
Lemma dclean_DC_keep s s' : slots (mm s) (ar s) none -> DC G (dclean G) s -> (forall o, is_leaf G o -> ar s' (ODres o) = ar s (ODres o)) ->
  (forall o p, ar s (ODres o) = Some p -> get (mm s') p = get (mm s) p) -> DC G (dclean G) s'.
Proof. apply DC_keep. intros m m' o r. apply dclean_same. Qed.
Lemma Inv_cleared s s' : Inv s -> cleared s s' -> Inv s'.
Proof. apply Inv_with_cleared. Qed.
Theorem call_eval rho e s v : Inv s -> settled G e s -> root host e -> mval G rho e v ->
  exists n p s', (forall f, n <= f -> Eval S B G rho f e s = EOk (p, s')) /\ holds (mm s') p v /\ Inv s' /\
    (forall o, reach G e o -> f_vis (fl s' o) = true) /\ (forall o, ~ reach G e o -> fl s' o = fl s o).
Proof. apply (call_eval_with VS BV BK WF). intros m m' o r. apply dclean_same. Qed.
Theorem call_devalF (KO : kron_ok B) rho x e s v dv : g_kind G x = LVar -> distinct_vars G -> Inv s -> settled G e s -> root host e -> mder G rho x e v dv ->
  exists n p s', (forall f, n <= f -> DevalF S B G rho f e x s = EOk (p, s')) /\ holds (mm s') p dv /\ Inv s' /\
    (forall o, reach G e o -> f_vis (fl s' o) = true) /\ (forall o, ~ reach G e o -> fl s' o = fl s o).
Proof.
  intros Xv DV I Hs Hr Hd.
  destruct (@call_devalF_with T N S VS B BV G host rank WF (dclean G) (@dclean_same T N G) rho KO x e s v dv) as (n & p & s' & E & At & Q); auto.
  - intros m r o. exact (@dleaf_write T N S VS G rho (wf_pos WF) x Xv DV m r o).
  - exists n, p, s'. split; [exact E|]. split; [exact (proj2 At)|exact Q].
Qed.
End Plain.
