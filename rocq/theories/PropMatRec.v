(** * Property C76: matrices assigned to several times, F = e0; F = e1(F); ... *)
From Coq Require Import List Arith Bool Lia ZArith.
From Verif Require Import Num NumInst MatMem Kernels KernelFacts KernelProofs KernelBlocks KernelMore Registry KernelStep Backend Slots Exec Sums MatEngine MatGraph MatLeaf MatEval MatDeval MatHist MatSpec MatCalls MatFuel MatRec MatRecSim MatRecOk MatRecRun MatRecSpec MatRecGrow PropMatrix.
Import ListNotations.
Set Implicit Arguments.
Unset Strict Implicit.
Local Open Scope nat_scope.

(** ** Specification
    [assigned G F rho ms V X]: starting from F = V, the assignments F = a for the members of ms, in order, with
    F inside a standing for its value before that assignment, end in F = X (MatRecSpec.v). [assigned_dif] the
    same with derivatives by x. Spelled out for one assignment: *)
Lemma assigned_one : forall {T} {N : Num T} (G : graph T) F rho id a y V X,
  assigned G F rho [(id, a, y)] V X <-> den (as_leaf G F) (with_value G F rho V) a X.
Proof.
  intros. split; [|intros H; econstructor; [exact H|constructor]].
  intros H. inversion H as [|? ? ? ? ? ? ? Ha Hl]; subst. inversion Hl; subst. exact Ha.
Qed.
(** In [as_leaf G F] with [with_value] the entries of F are those of V. *)
Lemma with_value_entries : forall {T} {N : Num T} (G : graph T) F rho V i j, j < g_cols G F ->
  g_kind (as_leaf G F) F = LEnt /\ e_val (with_value G F rho V) F (i * g_cols G F + j) = V i j.
Proof. intros. simpl. rewrite Nat.eqb_refl. split; [reflexivity|]. now apply entry_at. Qed.
Lemma with_deriv_entries : forall {T} {N : Num T} (G : graph T) F rho V x D l k i j, k < g_cols G F -> j < g_cols G x ->
  e_der (with_deriv G F rho V x D) F (l * g_cols G F + k) x (i * g_cols G x + j) = D l k i j.
Proof.
  intros. simpl. rewrite Nat.eqb_refl.
  rewrite (@entry_at _ l k (g_cols G F) (fun a b => D a b ((i * g_cols G x + j) / g_cols G x) ((i * g_cols G x + j) mod g_cols G x))) by assumption.
  now apply (@entry_at _ i j (g_cols G x) (D l k)).
Qed.
(** Nothing else changes. *)
Lemma with_value_others : forall {T} {N : Num T} (G : graph T) F rho V o, o <> F ->
  g_kind (as_leaf G F) o = g_kind G o /\ e_val (with_value G F rho V) o = e_val rho o.
Proof. intros T N G F rho V o H. simpl. apply Nat.eqb_neq in H. rewrite H. auto. Qed.
(** The value is unique. *)
Lemma assigned_det : forall {T} {N : Num T} (G : graph T) F rho ms V X, assigned G F rho ms V X -> forall X', assigned G F rho ms V X' -> X = X'.
Proof.
  induction 1 as [V|id a y l V V' X Ha Hl IH]; intros X' H; inversion H; subst; [reflexivity|]. apply IH. match goal with Q : den _ _ a _ |- _ => now rewrite (den_det Ha Q) end.
Qed.

(** ** Calls *)
Definition xcall {T} {N : Num T} (S : sched T) (B : backend (T := T)) (G : graph T) (more : obj -> list (nat * mexp T * obj)) (f : nat) (a : act T) : E ptr :=
  match a with AEval rho e => XEval S B G more rho f e | ADevalF rho e x => XDevalF S B G more rho f e x end.
Definition xreturns {T} {N : Num T} (S : sched T) (h : handler) (G : graph T) (more : obj -> list (nat * mexp T * obj)) (a : act T) (s : st (T := T)) (p : ptr) (s' : st (T := T)) : Prop :=
  exists n, forall f, n <= f -> xcall S (backend_of S h) G more f a s = EOk (p, s').
(** F has the items (id0,a0,y0) and then ms. *)
Definition only (T : Type) (F : obj) (ms : list (nat * mexp T * obj)) : obj -> list (nat * mexp T * obj) := fun o => if o =? F then ms else [].
(** States of a program that has built its matrices, assigned to F, then called Eval and DevalF of F and
    assigned to F again, from F itself, in any order. The operands of a right-hand side that is assigned after a call have to
    be settled, as for C38: plain matrices always are ([ready_leaves]). *)
Inductive xreached {T} {N : Num T} (S : sched T) (h : handler) (G : graph T) (F : obj) : list (nat * mexp T * obj) -> st (T := T) -> Prop :=
| xreached_init ms m : tame m -> xreached S h G F ms (init m)
| xreached_eval ms s rho p s' : xreached S h G F ms s -> xreturns S h G (only F ms) (AEval rho (MLeaf F)) s p s' -> xreached S h G F ms s'
| xreached_devalF ms s rho x p s' : h = HEigen -> distinct_vars G -> g_kind G x = LVar -> xreached S h G F ms s -> xreturns S h G (only F ms) (ADevalF rho (MLeaf F) x) s p s' -> xreached S h G F ms s'
| xreached_assign ms s id a y : xreached S h G F ms s -> find_me F a = true -> ready G F a s -> xreached S h G F (ms ++ [(id, a, y)]) s.

Section Main.
Context {T : Type} {N : Num T}.
Variable L : NumLaws N.
Variable S : sched T.
Hypothesis VS : valid_sched S.
Variable G : graph T.
Variable host : nat -> option obj.
Variable rank : obj -> nat.
Variable F : obj.
Variable ms : list (nat * mexp T * obj).
Variable bnd : nat.
Variable id0 : nat.
Variable a0 : mexp T.
Variable y0 : obj.
Hypothesis W : rec_wf G host rank F ms bnd id0 a0 y0.
Hypothesis Fit0 : fits G (MLeaf F).
Hypothesis Fit : forall id a y, In (id, a, y) ms -> fits G a.
Variable h : handler.
Notation part := (part F bnd).
Notation G' := (chain G F ms bnd).
Notation n := (length ms).
Notation all := (all F ms bnd id0 a0 y0).
Lemma upto (P : nat -> mat T -> Prop) (k : nat) : (forall j, j <= k -> exists v, P j v) -> exists V, forall j, j <= k -> P j (V j).
Proof.
  induction k as [|k IH]; intros H.
  - destruct (H 0 ltac:(lia)) as (v & Hv). exists (fun _ => v). intros j Hj. now replace j with 0 by lia.
  - destruct IH as (V & HV); [intros j Hj; apply H; lia|]. destruct (H (Datatypes.S k) ltac:(lia)) as (v & Hv). exists (fun j => if j =? Datatypes.S k then v else V j).
    intros j Hj. destruct (Nat.eqb_spec j (Datatypes.S k)) as [->|Ne]; [exact Hv|]. apply HV. lia.
Qed.
Lemma values rho : exists V, (forall j, j <= n -> mval G' rho (MLeaf (part j)) (V j)) /\
  exists Y X, den G rho (MLeaf F) Y /\ assigned G F rho ms Y X /\ meq (V n) (mat_of G (MLeaf F) X).
Proof.
  destruct (chain_den W Fit0 Fit rho) as (Y & X & X' & H1 & H2 & H3 & H4). pose proof (chain_wf W) as WF'.
  destruct (den_mval L WF' (chain_fits W Fit0 Fit (le_n n)) H3) as (v & Hv & Mv).
  destruct (@upto (fun j v => mval G' rho (MLeaf (part j)) v /\ (j = n -> meq v (mat_of G (MLeaf F) X))) n) as (V & HV).
  { intros j Hj. destruct (Nat.eq_dec j n) as [->|Ne].
    - exists v. split; [exact Hv|]. intros _. eapply meq_trans; [exact Mv|]. unfold mat_of. cbn [MatEngine.rows MatEngine.cols].
      destruct (@rows_part T G F ms bnd (rw_bnd W) n (le_n n)) as [-> ->]. split; [reflexivity|]. split; [reflexivity|]. simpl. intros i k Hi Hk. symmetry. now apply H4.
    - pose proof (chain_fits W Fit0 Fit Hj) as Fj. destruct (den_total rho Fj) as (Z & HZ). destruct (den_mval L WF' Fj HZ) as (u & Hu & _). exists u. split; [exact Hu|tauto]. }
  exists V. split; [intros j Hj; now apply HV|]. exists Y, X. split; [exact H1|]. split; [exact H2|]. now apply HV.
Qed.
Lemma derivs rho x : g_kind G x = LVar -> distinct_vars G -> exists V DV, (forall j, j <= n -> mder G' rho x (MLeaf (part j)) (V j) (DV j)) /\
  exists Y D X, dif G rho x (MLeaf F) Y D /\ assigned_dif G F rho x ms Y D X /\ meq (DV n) (jac_of G x (MLeaf F) X).
Proof.
  intros Xv Dv. destruct (chain_dif W Fit0 Fit rho Xv) as (Y & D & X & X' & Y' & H1 & H2 & H3 & H4). pose proof (chain_wf W) as WF'.
  pose proof (chain_distinct W Dv) as Dv'. pose proof (chain_var W Xv) as Xv'. pose proof (x_lt W Xv) as Lx.
  destruct (dif_mder L WF' Xv' Dv' (chain_fits W Fit0 Fit (le_n n)) H3) as (v & dv & Hv & Mv & Mdv).
  destruct (@upto (fun j dv => (exists v, mder G' rho x (MLeaf (part j)) v dv) /\ (j = n -> meq dv (jac_of G x (MLeaf F) X))) n) as (DV & HD).
  { intros j Hj. destruct (Nat.eq_dec j n) as [->|Ne].
    - exists dv. split; [exists v; exact Hv|]. intros _. eapply meq_trans; [exact Mdv|]. unfold jac_of, layout. cbn [MatEngine.rows MatEngine.cols].
      destruct (@rows_part T G F ms bnd (rw_bnd W) n (le_n n)) as [-> ->]. rewrite (rows_old G F ms Lx), (cols_old G F ms Lx). split; [reflexivity|]. split; [reflexivity|]. simpl.
      intros i k Hi Hk. symmetry. destruct (wf_pos (rw_wf W) x) as [P1 P2]. destruct (divmod_lt P1 Hi) as (A1 & A2 & _). destruct (divmod_lt P2 Hk) as (B1 & B2 & _). now apply H4.
    - pose proof (chain_fits W Fit0 Fit Hj) as Fj. destruct (dif_total rho x Fj) as (Z & Z' & HZ). destruct (dif_mder L WF' Xv' Dv' Fj HZ) as (u & du & Hu & _). exists du. split; [exists u; exact Hu|tauto]. }
  destruct (@upto (fun j v => mder G' rho x (MLeaf (part j)) v (DV j)) n) as (V & HV).
  { intros j Hj. destruct (HD j Hj) as [Q _]. exact Q. }
  exists V, DV. split; [exact HV|]. exists Y, D, X. split; [exact H1|]. split; [exact H2|]. now apply HD.
Qed.
Definition good (s : st (T := T)) : Prop := exists c, joined rank F ms bnd s c /\ Inv G' c /\ settled G' all c.
Lemma good_init m : tame m -> good (init m).
Proof.
  intros Tm. exists (init m). split; [split; [split; [reflexivity|split; [reflexivity|auto]]|auto]|].
  split; [now apply Inv_init|]. intros o id a y o' _ _ _ _ _. reflexivity.
Qed.
Lemma good_eval s rho : good s -> exists Y X p s', den G rho (MLeaf F) Y /\ assigned G F rho ms Y X /\
  xreturns S h G (only F ms) (AEval rho (MLeaf F)) s p s' /\ holds (mm s') p (mat_of G (MLeaf F) X) /\ good s'.
Proof.
  intros (c & J & I & Hs). destruct (values rho) as (V & HV & Y & X & H1 & H2 & H3).
  destruct (@rec_eval T N S VS (backend_of S h) (backend_value VS (fun _ => L)) (or_intror (backend_kron_zeroed VS h L)) G host rank F ms bnd id0 a0 y0 W rho V HV s c J I Hs)
    as (g & p & s' & c' & E & Hp & J' & I' & Hs').
  exists Y, X, p, s'. split; [exact H1|]. split; [exact H2|]. split; [exists g; exact E|]. split; [exact (holds_meq Hp H3)|]. exists c'. auto.
Qed.
Lemma good_devalF s rho x : h = HEigen -> g_kind G x = LVar -> distinct_vars G -> good s -> exists Y D X p s', dif G rho x (MLeaf F) Y D /\ assigned_dif G F rho x ms Y D X /\
  xreturns S h G (only F ms) (ADevalF rho (MLeaf F) x) s p s' /\ holds (mm s') p (jac_of G x (MLeaf F) X) /\ good s'.
Proof.
  intros Eh Xv DV (c & J & I & Hs). destruct (derivs rho Xv DV) as (V & Dv & HV & Y & D & X & H1 & H2 & H3).
  assert (KO : kron_ok (backend_of S h)) by (subst h; now apply eigen_kron).
  destruct (@rec_devalF T N S VS (backend_of S h) (backend_value VS (fun _ => L)) (or_intror (backend_kron_zeroed VS h L)) G host rank F ms bnd id0 a0 y0 W KO rho x Xv DV V Dv HV s c J I Hs)
    as (g & p & s' & c' & E & Hp & J' & I' & Hs').
  exists Y, D, X, p, s'. split; [exact H1|]. split; [exact H2|]. split; [exists g; exact E|]. split; [exact (holds_meq Hp H3)|]. exists c'. auto.
Qed.
Lemma xreturns_det a s p s' q s2 : xreturns S h G (only F ms) a s p s' -> xreturns S h G (only F ms) a s q s2 -> p = q /\ s' = s2.
Proof.
  intros (m & E) (k & E2). specialize (E (m + k) ltac:(lia)). specialize (E2 (m + k) ltac:(lia)). split; congruence.
Qed.
End Main.
Lemma reached_good {T} {N : Num T} (L : NumLaws N) (S : sched T) (VS : valid_sched S) h (G : graph T) host rank F bnd id0 a0 y0 ms s :
  xreached S h G F ms s -> rec_wf G host rank F ms bnd id0 a0 y0 -> fits G (MLeaf F) -> (forall id a y, In (id, a, y) ms -> fits G a) ->
  good G rank F ms bnd id0 a0 y0 s.
Proof.
  induction 1 as [ms m Tm|ms s rho p s' R IH E|ms s rho x p s' Eh DV Xv R IH E|ms s id a y R IH Me Rd]; intros W F0 Fi; [now apply good_init| | |].
  - destruct (good_eval L VS W F0 Fi h rho (IH W F0 Fi)) as (_ & _ & q & s2 & _ & _ & E2 & _ & Q). now destruct (xreturns_det E E2) as [_ ->].
  - destruct (good_devalF L VS W F0 Fi rho Eh Xv DV (IH W F0 Fi)) as (_ & _ & _ & q & s2 & _ & _ & E2 & _ & Q). now destruct (xreturns_det E E2) as [_ ->].
  - destruct (IH (wf_before W) F0) as (c & J & I & Hs); [intros i b z H; apply (Fi i b z), in_or_app; now left|].
    destruct (grow W J I Hs Rd) as (c' & J' & I' & Hs'). exists c'. auto.
Qed.

(** ** C76 *)
(** A matrix F, first assigned a0, then the members of ms one after the other, each over F itself and over
    matrices built before F: in every state that calls on F lead to, and for every environment, Eval F
    returns the matrix that the assignments give when they are executed in this order. *)
Theorem C76_eval : forall {T} {N : Num T}, NumLaws N -> forall (S : sched T), valid_sched S ->
  forall (h : handler) (G : graph T) host rank F ms bnd id0 a0 y0, rec_wf G host rank F ms bnd id0 a0 y0 ->
  fits G (MLeaf F) -> (forall id a y, In (id, a, y) ms -> fits G a) ->
  forall s, xreached S h G F ms s -> forall rho : env T,
  exists Y X p s', den G rho (MLeaf F) Y /\ assigned G F rho ms Y X /\
    xreturns S h G (only F ms) (AEval rho (MLeaf F)) s p s' /\ holds (mm s') p (mat_of G (MLeaf F) X) /\ xreached S h G F ms s'.
Proof.
  intros T N L S VS h G host rank F ms bnd id0 a0 y0 W F0 Fi s R rho.
  destruct (good_eval L VS W F0 Fi h (s := s) rho) as (Y & X & p & s' & H1 & H2 & H3 & H4 & _); [exact (reached_good L VS R W F0 Fi)|].
  exists Y, X, p, s'. split; [exact H1|]. split; [exact H2|]. split; [exact H3|]. split; [exact H4|]. eapply xreached_eval; eauto.
Qed.
Print Assumptions C76_eval.
(** The same for forward derivatives (Eigen backend). *)
Theorem C76_devalF : forall {T} {N : Num T}, NumLaws N -> forall (S : sched T), valid_sched S ->
  forall (G : graph T) host rank F ms bnd id0 a0 y0, rec_wf G host rank F ms bnd id0 a0 y0 -> distinct_vars G ->
  fits G (MLeaf F) -> (forall id a y, In (id, a, y) ms -> fits G a) ->
  forall s, xreached S HEigen G F ms s -> forall (rho : env T) x, g_kind G x = LVar ->
  exists Y D X p s', dif G rho x (MLeaf F) Y D /\ assigned_dif G F rho x ms Y D X /\
    xreturns S HEigen G (only F ms) (ADevalF rho (MLeaf F) x) s p s' /\ holds (mm s') p (jac_of G x (MLeaf F) X) /\ xreached S HEigen G F ms s'.
Proof.
  intros T N L S VS G host rank F ms bnd id0 a0 y0 W DV F0 Fi s R rho x Xv.
  destruct (good_devalF L VS W F0 Fi (h := HEigen) (s := s) rho (x := x) eq_refl Xv DV) as (Y & D & X & p & s' & H1 & H2 & H3 & H4 & _); [exact (reached_good L VS R W F0 Fi)|].
  exists Y, D, X, p, s'. split; [exact H1|]. split; [exact H2|]. split; [exact H3|]. split; [exact H4|]. eapply xreached_devalF; eauto.
Qed.
Print Assumptions C76_devalF.
(** One assignment on top of the first, entry by entry: after F = a0; F = a; Eval returns a with the entries
    of a0 for those of F. *)
Theorem C76_twice : forall {T} {N : Num T}, NumLaws N -> forall (S : sched T), valid_sched S ->
  forall (h : handler) (G : graph T) host rank F id a y bnd id0 a0 y0, rec_wf G host rank F [(id, a, y)] bnd id0 a0 y0 ->
  fits G (MLeaf F) -> fits G a ->
  forall s, xreached S h G F [(id, a, y)] s -> forall rho : env T,
  exists Y X p s', den G rho a0 Y /\ den (as_leaf G F) (with_value G F rho Y) a X /\
    xreturns S h G (only F [(id, a, y)]) (AEval rho (MLeaf F)) s p s' /\ holds (mm s') p (mat_of G (MLeaf F) X).
Proof.
  intros T N L S VS h G host rank F id a y bnd id0 a0 y0 W F0 Fa s R rho.
  destruct (C76_eval L VS (h := h) W F0) with (s := s) (rho := rho) as (Y & X & p & s' & H1 & H2 & H3 & H4 & _); [|exact R|].
  { intros id' a' y' [Q|[]]. injection Q as <- <- <-. exact Fa. }
  exists Y, X, p, s'. split; [|split; [now apply assigned_one in H2|auto]].
  inversion H1; subst; [|unfold is_leaf in *|].
  - match goal with Q : g_kind G F = LEye |- _ => rewrite (rw_F W) in Q; discriminate end.
  - match goal with Q : match g_kind G F with _ => _ end |- _ => rewrite (rw_F W) in Q; tauto end.
  - match goal with Q : g_kind G F = KExp _ _ _ |- _ => rewrite (rw_F W) in Q; injection Q as <- <- <- end. assumption.
Qed.
Print Assumptions C76_twice.

(** The items of F after a history of assignments F = a are built by operator=, which asks whether F is an operand
    of a: if it is, the item is appended, and otherwise it replaces all items. So Eval returns the value that the whole
    history of assignments gives when it is executed from start to end, from any value V0 of F. *)
Lemma assign_incl (T : Type) F (l : list (nat * mexp T * obj)) : incl (fold_left (assign F) l []) l.
Proof.
  induction l as [|m l IH] using rev_ind; [intros q []|]. rewrite fold_left_app. simpl. intros q Hq. unfold assign in Hq.
  apply in_app_or in Hq. apply in_or_app. destruct Hq as [Hq|Hq]; [|now right]. left. destruct (find_me F (snd (fst m))); [auto|destruct Hq].
Qed.
Theorem C76_history : forall {T} {N : Num T}, NumLaws N -> forall (S : sched T), valid_sched S ->
  forall (h : handler) (G : graph T) host rank F ms bnd id0 a0 y0, rec_wf G host rank F ms bnd id0 a0 y0 ->
  forall l, (forall id a y, In (id, a, y) l -> fits G a /\ forall o, In o (leaves a) -> o = F \/ clean rank F bnd o) ->
  fold_left (assign F) l [] = (id0, a0, y0) :: ms ->
  forall s, xreached S h G F ms s -> forall (rho : env T) V0,
  exists X p s', assigned G F rho l V0 X /\
    xreturns S h G (only F ms) (AEval rho (MLeaf F)) s p s' /\ holds (mm s') p (mat_of G (MLeaf F) X) /\ xreached S h G F ms s'.
Proof.
  intros T N L S VS h G host rank F ms bnd id0 a0 y0 W l Hl El s R rho V0.
  assert (Hl' : Forall (fun m => tidy G rank F bnd (snd (fst m))) l).
  { apply Forall_forall. intros [[id a] y] H. destruct (Hl id a y H) as [Q1 Q2]. split; [exact Q1|exact Q2]. }
  pose proof (@assign_incl T F l) as Inc. rewrite El in Inc.
  assert (Fa : fits G a0 /\ over rank F bnd a0) by (apply (Hl id0 a0 y0), Inc; simpl; auto).
  assert (F0 : fits G (MLeaf F)) by (eapply fits_exp; [apply (rw_F W)|apply Fa]).
  assert (Fi : forall id a y, In (id, a, y) ms -> fits G a) by (intros id a y H; apply (Hl id a y), Inc; simpl; auto).
  destruct (history_total W rho Hl' V0) as (X & HX). pose proof (history_items W Hl' HX) as HI. rewrite El in HI. inversion HI as [|? ? ? ? ? Y ? Ha Hm]; subst.
  apply (den_free W) in Ha; [|apply Fa|apply Fa|apply (over_0 W)].
  destruct (C76_eval L VS W F0 Fi R rho) as (Y' & X' & p & s' & H1 & H2 & H3 & H4 & H5).
  assert (Y' = Y) by (eapply den_det; [exact H1|]; eapply den_exp; [apply (rw_F W)|exact Ha]). subst Y'.
  rewrite (assigned_det H2 Hm) in H4. exists X, p, s'. auto.
Qed.
Print Assumptions C76_history.

(** ** A concrete program *)
Lemma xcall_le {T} {N : Num T} (S : sched T) h (G : graph T) more a s p s' k :
  xcall S (backend_of S h) G more k a s = EOk (p, s') -> xreturns S h G more a s p s'.
Proof.
  intros E. exists k. intros f Hf. destruct a as [rho e|rho e x]; simpl in *.
  - refine (mono_ok (c' := XEval S (backend_of S h) G more rho f e) _ E). apply mono_bind.
    + apply (mono_le (c := fun f => xreset G more f e)); [intros; apply xreset_mono|exact Hf].
    + intros _. apply (mono_le (c := fun f => xeval S (backend_of S h) G more rho f e)); [intros; apply xeval_mono|exact Hf].
  - refine (mono_ok (c' := XDevalF S (backend_of S h) G more rho f e x) _ E). apply mono_bind.
    + apply (mono_le (c := fun f => xreset G more f e)); [intros; apply xreset_mono|exact Hf].
    + intros _. apply (mono_le (c := fun f => xdevalF S (backend_of S h) G more rho f x e)); [intros; apply xdevalF_mono|exact Hf].
Qed.
Lemma xrun3' {T} {N : Num T} (S : sched T) h (G : graph T) m1 m2 m3 a b c s (P : ptr -> st (T := T) -> ptr -> st (T := T) -> ptr -> st (T := T) -> Prop) k :
  (match xcall S (backend_of S h) G m1 k a s with EOk (p, s') =>
     match xcall S (backend_of S h) G m2 k b s' with EOk (q, s2) =>
       match xcall S (backend_of S h) G m3 k c s2 with EOk (r, s3) => P p s' q s2 r s3 | _ => False end | _ => False end | _ => False end) ->
  exists p s' q s2 r s3, xreturns S h G m1 a s p s' /\ xreturns S h G m2 b s' q s2 /\ xreturns S h G m3 c s2 r s3 /\ P p s' q s2 r s3.
Proof.
  destruct (xcall S (backend_of S h) G m1 k a s) as [[p s']| | |] eqn:E; [|intros []..].
  destruct (xcall S (backend_of S h) G m2 k b s') as [[q s2]| | |] eqn:E2; [|intros []..].
  destruct (xcall S (backend_of S h) G m3 k c s2) as [[r s3]| | |] eqn:E3; [|intros []..].
  intros H. exists p, s', q, s2, r, s3. split; [exact (xcall_le E)|]. split; [exact (xcall_le E2)|]. split; [exact (xcall_le E3)|exact H].
Qed.
Definition xrun3 {T} {N : Num T} (S : sched T) h (G : graph T) more := @xrun3' T N S h G more more more.
(** X : 2x2; A = X * X; F = A + X; F = F * A; F = F ^ X + F (^ the Hadamard product). *)
Definition rec_objs : list (gobj (T := Z)) :=
  [ (LVar, (2, 2)); (LEye, (2, 2)); (KExp 10 (MBin BProd 11 (MLeaf 0) (MLeaf 0)) 1, (2, 2));
    (KExp 20 (MBin BSum 21 (MLeaf 2) (MLeaf 0)) 1, (2, 2)) ].
Definition rec_graph : graph Z := graph_of rec_objs.
Definition rec_ms : list (nat * mexp Z * obj) :=
  [ (30, MBin BProd 31 (MLeaf 3) (MLeaf 2), 1); (40, MBin BSum 41 (MBin BHad 42 (MLeaf 3) (MLeaf 0)) (MLeaf 3), 1) ].
Definition rec_host (i : nat) : option obj := if 20 <=? i then Some 3 else host_of rec_objs i.
Lemma rec_ok : rec_wf rec_graph rec_host (fun o => o) 3 rec_ms 4 20 (MBin BSum 21 (MLeaf 2) (MLeaf 0)) 1.
Proof.
  constructor.
  - solve_wf.
  - reflexivity.
  - lia.
  - intros o id a y o' Ho H Hin. each o 8; try lia; try discriminate H; injection H as <- <- <-; simpl in Hin; leaf_in Hin; lia.
  - intros o Ho. each o 8; try lia; try reflexivity.
  - intros id a y o [H|[H|[]]] Hin; injection H as <- <- <-; simpl in Hin; leaf_in Hin; unfold clean; auto; right; lia.
  - intros id a y [H|[H|[]]]; injection H as <- <- <-; split; reflexivity.
  - intros id a y [H|[H|[]]]; injection H as <- <- <-; repeat split; reflexivity.
  - simpl. repeat constructor; simpl; intuition discriminate.
  - intros id a y i [H|[H|[]]] Hin; injection H as <- <- <-; simpl in Hin; leaf_in Hin; reflexivity.
Qed.
Lemma rec_fits : fits rec_graph (MLeaf 3) /\ (forall id a y, In (id, a, y) rec_ms -> fits rec_graph a).
Proof.
  assert (F0 : fits rec_graph (MLeaf 0)) by now apply fits_leaf.
  assert (F2 : fits rec_graph (MLeaf 2)) by (eapply fits_exp; [reflexivity|]; now apply fits_prod).
  assert (F3 : fits rec_graph (MLeaf 3)) by (eapply fits_exp; [reflexivity|]; apply fits_zip; auto; discriminate).
  split; [exact F3|]. intros id a y [H|[H|[]]]; injection H as <- <- <-; [now apply fits_prod|].
  apply fits_zip; auto; [discriminate|]. apply fits_zip; auto. discriminate.
Qed.
Lemma rec_distinct : distinct_vars rec_graph.
Proof.
  intros o o' H H' Ne.
  assert (o = 0) by (each o 5; try lia; try discriminate; destruct o; discriminate).
  assert (o' = 0) by (each o' 5; try lia; try discriminate; destruct o'; discriminate). congruence.
Qed.
(** X = [1 2; 0 3]: A = [1 8; 0 9], A + X = [2 10; 0 12], times A [2 106; 0 108], Hadamard X plus itself
    [4 318; 0 432]. Entry (0,0)
    is x^3 (x + 1)^2, whose derivative at x = 1 is 16. Then Eval again, with X = 1. *)
Example C76_nonvacuous : xreached Zin HEigen rec_graph 3 rec_ms (init mem0) /\
  exists p s' q s2 r s3, xreturns Zin HEigen rec_graph (only 3 rec_ms) (AEval (ent [[1;2;0;3]]%Z) (MLeaf 3)) (init mem0) p s' /\
    xreturns Zin HEigen rec_graph (only 3 rec_ms) (ADevalF (ent [[1;2;0;3]]%Z) (MLeaf 3) 0) s' q s2 /\
    xreturns Zin HEigen rec_graph (only 3 rec_ms) (AEval (ent [[1;0;0;1]]%Z) (MLeaf 3)) s2 r s3 /\
    (entries (mm s') p = Some [4; 318; 0; 432]%Z /\ val (mm s2) q (0 * 2 + 0) (0 * 2 + 0) = 16%Z /\ entries (mm s3) r = Some [4; 0; 0; 4]%Z).
Proof.
  split; [constructor; exact tame0|].
  apply (xrun3 (k := 12) (P := fun p s' q s2 r s3 => entries (mm s') p = Some [4; 318; 0; 432]%Z /\ val (mm s2) q (0 * 2 + 0) (0 * 2 + 0) = 16%Z /\ entries (mm s3) r = Some [4; 0; 0; 4]%Z)).
  vm_compute. auto.
Qed.
(** The same with the last assignment made after a first Eval: Eval F; F = F ^ X + F; Eval F; DevalF F X. *)
Example C76_between_nonvacuous : exists p s' q s2 r s3,
  xreturns Zin HEigen rec_graph (only 3 (firstn 1 rec_ms)) (AEval (ent [[1;2;0;3]]%Z) (MLeaf 3)) (init mem0) p s' /\
  xreturns Zin HEigen rec_graph (only 3 rec_ms) (AEval (ent [[1;2;0;3]]%Z) (MLeaf 3)) s' q s2 /\
  xreturns Zin HEigen rec_graph (only 3 rec_ms) (ADevalF (ent [[1;2;0;3]]%Z) (MLeaf 3) 0) s2 r s3 /\
  xreached Zin HEigen rec_graph 3 (firstn 1 rec_ms) s' /\ xreached Zin HEigen rec_graph 3 rec_ms s' /\
  entries (mm s') p = Some [2; 106; 0; 108]%Z /\ entries (mm s2) q = Some [4; 318; 0; 432]%Z /\ val (mm s3) r (0 * 2 + 0) (0 * 2 + 0) = 16%Z.
Proof.
  set (ok := fun p s' q s2 r s3 => f_vis (fl (T := Z) s' 3) = true /\ entries (mm s') p = Some [2; 106; 0; 108]%Z /\ entries (mm s2) q = Some [4; 318; 0; 432]%Z /\ val (mm s3) r (0 * 2 + 0) (0 * 2 + 0) = 16%Z).
  assert (H : exists p s' q s2 r s3,
    xreturns Zin HEigen rec_graph (only 3 (firstn 1 rec_ms)) (AEval (ent [[1;2;0;3]]%Z) (MLeaf 3)) (init mem0) p s' /\
    xreturns Zin HEigen rec_graph (only 3 rec_ms) (AEval (ent [[1;2;0;3]]%Z) (MLeaf 3)) s' q s2 /\
    xreturns Zin HEigen rec_graph (only 3 rec_ms) (ADevalF (ent [[1;2;0;3]]%Z) (MLeaf 3) 0) s2 r s3 /\ ok p s' q s2 r s3).
  { apply (xrun3' (k := 12)). vm_compute. auto. }
  destruct H as (p & s' & q & s2 & r & s3 & H1 & H2 & H3 & V & A & B & C). exists p, s', q, s2, r, s3.
  assert (R : xreached Zin HEigen rec_graph 3 (firstn 1 rec_ms) s') by (eapply xreached_eval; [constructor; exact tame0|exact H1]).
  repeat (split; [first [assumption|idtac]|]); [|assumption].
  refine (xreached_assign (ms := firstn 1 rec_ms) 40 1 R _ _); [reflexivity|].
  apply ready_leaves; [exact V|]. intros o Hin Ne. simpl in Hin. leaf_in Hin; try contradiction; reflexivity || exact Logic.I.
Qed.
(** The history F = X; F = F + X (discarded by the next, which does not mention F); F = A + X; F = F * A; ... *)
Example C76_history_nonvacuous : let l := (70, MLeaf 0, 1) :: (71, MBin BSum 72 (MLeaf 3) (MLeaf 0), 1) :: (20, MBin BSum 21 (MLeaf 2) (MLeaf 0), 1) :: rec_ms in
  fold_left (assign 3) l [] = (20, MBin BSum 21 (MLeaf 2) (MLeaf 0), 1) :: rec_ms /\
  (forall id a y, In (id, a, y) l -> fits rec_graph a /\ forall o, In o (leaves a) -> o = 3 \/ clean (fun o => o) 3 4 o).
Proof.
  cbv zeta. split; [reflexivity|]. destruct rec_fits as [F3 Fm].
  assert (F0 : fits rec_graph (MLeaf 0)) by now apply fits_leaf.
  assert (F2 : fits rec_graph (MLeaf 2)) by (eapply fits_exp; [reflexivity|]; now apply fits_prod).
  intros id a y H. split.
  - destruct H as [H|[H|[H|H]]]; [..|now apply (Fm id a y)]; injection H as <- <- <-; auto; apply fits_zip; auto; discriminate.
  - intros o Hin. destruct H as [H|[H|[H|[H|[H|[]]]]]]; injection H as <- <- <-; simpl in Hin; leaf_in Hin; unfold clean; auto; right; lia.
Qed.
(** findMe does not search the definitions of named operands: after F = X; A = F + X; F = A * X; the items of F
    are replaced although A mentions F, and Eval F dereferences the null result of F. *)
Definition cyc_graph : graph Z := graph_of
  [ (LVar, (1, 1)); (LEye, (1, 1)); (KExp 10 (MBin BSum 11 (MLeaf 3) (MLeaf 0)) 1, (1, 1)); (KExp 20 (MBin BProd 21 (MLeaf 2) (MLeaf 0)) 1, (1, 1)) ].
Theorem C76_indirect_refuted : exists (G : graph Z) F A a y,
  (exists id e, g_kind G A = KExp id e y /\ In F (leaves e)) /\ In A (leaves a) /\
  fold_left (assign F) [(5, MLeaf 0, y); (20, a, y)] [] = [(20, a, y)] /\ g_kind G F = KExp 20 a y /\
  forall h rho, exists k, forall f, k <= f -> xcall Zin (backend_of Zin h) G (only F []) f (AEval rho (MLeaf F)) (init mem0) = EUndef.
Proof.
  exists cyc_graph, 3, 2, (MBin BProd 21 (MLeaf 2) (MLeaf 0)), 1. split; [exists 10, (MBin BSum 11 (MLeaf 3) (MLeaf 0)); split; [reflexivity|simpl; auto]|].
  split; [simpl; auto|]. split; [reflexivity|]. split; [reflexivity|]. intros h rho. exists 12. intros f Hf.
  do 12 (destruct f as [|f]; [lia|]). reflexivity.
Qed.
Print Assumptions C76_indirect_refuted.
