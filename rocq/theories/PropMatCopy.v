(** * C63: copies of matrices that have been evaluated *)
From Coq Require Import List Arith Bool Lia ZArith.
From Verif Require Import Num NumInst MatMem Kernels KernelFacts KernelProofs KernelBlocks KernelMore Registry KernelStep Backend Slots Exec ConvProofs MatEngine MatGraph MatLeaf MatEval MatDeval MatHist MatSpec MatCalls MatFuel MatCopy PropMatrix.
Import ListNotations.
Set Implicit Arguments.
Unset Strict Implicit.
Local Open Scope nat_scope.

(** A copy made before the original takes part in an evaluation is an ordinary matrix: every call on it, and on anything
    else, is right. *)
Theorem C63_copy_before_evaluation : forall {T} {N : Num T}, NumLaws N -> forall (S : sched T), valid_sched S ->
  forall (h : handler) (G : graph T) host rank, wf_graph G host rank ->
  forall s, reached S h G host s -> forall o o', f_vis (fl s o) = false -> fresh o' s ->
  forall a, act_ok (backend_of S h) G host a -> settled G (act_exp a) s ->
  exists p s', returns S h G a (copied o o' s) p s' /\ right G a (mm s') p.
Proof.
  intros T N L S VS h G host rank WF s R o o' V F a Ha Hs.
  destruct (copy_untouched (reached_Inv L VS WF R) V F) as (I & E).
  assert (Hs' : settled G (act_exp a) (copied o o' s)) by (intros k id e y k' H1 H2 H3 H4 H5; rewrite E in *; eapply Hs; eauto).
  destruct (right_call L VS WF I Hs' Ha) as (p & s' & H & Hr & _). eauto.
Qed.
Lemma eval_marks {T} {N : Num T} (S : sched T) h (G : graph T) rho o s p s' : is_leaf G o -> returns S h G (AEval rho (MLeaf o)) s p s' -> f_eval (fl s' o) = true.
Proof.
  intros Hl (n & E). specialize (E (Datatypes.S n) ltac:(lia)). cbn [call] in E. unfold Eval, ebind in E.
  destruct (reset G (Datatypes.S n) (MLeaf o) s) as [[u s1]| | |]; try discriminate. cbn [eval] in E.
  assert (E' : eval_leaf G rho o s1 = EOk (p, s')) by (unfold is_leaf in Hl; destruct (g_kind G o); try contradiction; exact E). clear E.
  unfold eval_leaf, ebind, lift_to in E'. destruct (pool CPU (ar s1 (ORes o)) (g_rows G o) (g_cols G o) (mm s1)) as [[q m]| |]; try discriminate.
  unfold getf in E'. cbn [fl] in E'. destruct (f_eval (fl s1 o)) eqn:Ev.
  - unfold eret, setf in E'. injection E' as <- <-. cbn [fl]. rewrite Nat.eqb_refl. exact Ev.
  - unfold lift in E'. cbn [mm] in E'. destruct (set_entries G rho o q m) as [[u' m']| |]; try discriminate.
    unfold eret, setf in E'. injection E' as <- <-. cbn [fl]. rewrite Nat.eqb_refl. reflexivity.
Qed.
(** A copy of a matrix that has been evaluated: the first evaluation of the copy returns zeros, whatever its entries are; the
    second one is right. *)
Theorem C63_copy_after_evaluation_refuted : forall {T} {N : Num T}, NumLaws N -> forall (S : sched T), valid_sched S ->
  forall (h : handler) (G : graph T) host rank, wf_graph G host rank ->
  forall s0 rho0 o p0 s, reached S h G host s0 -> is_leaf G o -> returns S h G (AEval rho0 (MLeaf o)) s0 p0 s ->
  forall o', is_leaf G o' -> g_kind G o' <> LEye -> fresh o' s -> forall rho,
  exists p s' q s2, returns S h G (AEval rho (MLeaf o')) (copied o o' s) p s' /\
    (forall i j, i < g_rows G o' -> j < g_cols G o' -> val (mm s') p i j = n0) /\
    returns S h G (AEval rho (MLeaf o')) s' q s2 /\ right G (AEval rho (MLeaf o')) (mm s2) q.
Proof.
  intros T N L S VS h G host rank WF s0 rho0 o p0 s R Hl Hr o' Hl' Ne F rho.
  assert (Ev := eval_marks Hl Hr).
  assert (Plain : forall k, is_leaf G k -> forall s, settled G (MLeaf k) s).
  { intros k Hk s1. apply settled_plain. intros k' [<-|[]]. exact Hk. }
  assert (Ok : forall k rho, is_leaf G k -> act_ok (backend_of S h) G host (AEval rho (MLeaf k))).
  { intros k rho1 Hk. split; [split; [constructor|intros i []]|]. split; [now apply fits_leaf|exact Logic.I]. }
  assert (R' : reached S h G host s) by (eapply (reached_call (a := AEval rho0 (MLeaf o))); eauto).
  destruct (@copy_first T N S (backend_of S h) G host rank WF rho o o' s (reached_Inv L VS WF R') Hl' Ne F Ev) as (p & s' & E & H & I).
  destruct (right_call L VS WF I (a := AEval rho (MLeaf o')) (Plain _ Hl' s') (Ok _ rho Hl')) as (q & s2 & E2 & Hr2 & _).
  exists p, s', q, s2. split; [exists 1; exact E|]. split; [|auto].
  intros i j Hi Hj. exact (proj2 H i j Hi Hj).
Qed.
(** The same inside an expression: A : 2x2, B = A + A; Eval(B); A' a copy of A; the first Eval(A' + A') is the zero matrix. *)
Definition cp_objs : list (gobj (T := Z)) :=
  [ (LConst, (2, 2)); (LConst, (2, 2)); (LEye, (2, 2));
    (KExp 30 (MBin BSum 31 (MLeaf 0) (MLeaf 0)) 2, (2, 2)); (KExp 40 (MBin BSum 41 (MLeaf 1) (MLeaf 1)) 2, (2, 2)) ].
Definition cp_graph : graph Z := graph_of cp_objs.
Lemma cp_wf : wf_graph cp_graph (host_of cp_objs) (fun o => o).
Proof. solve_wf. Qed.
Definition cp_env := ent [[1; 2; 3; 4]; [1; 2; 3; 4]]%Z.
Definition is_none {A} (x : option A) : bool := match x with None => true | Some _ => false end.
Definition unused (f : flags) : bool := match f with Fl false false false None None => true | _ => false end.
Lemma is_none_ok {A} (x : option A) : is_none x = true -> x = None.
Proof. destruct x; [discriminate|reflexivity]. Qed.
Lemma unused_ok f : unused f = true -> f = Fl false false false None None.
Proof. destruct f as [[] [] [] [] []]; try discriminate. reflexivity. Qed.
Theorem C63_copy_in_expression_refuted : exists (G : graph Z) host rank m rho,
  wf_graph G host rank /\ tame m /\ exists r s p s' q s2,
    returns Zin HEigen G (AEval rho (MLeaf 3)) (init m) r s /\ fresh 1 s /\ e_val rho 1 = e_val rho 0 /\
    returns Zin HEigen G (AEval rho (MLeaf 4)) (copied 0 1 s) p s' /\ returns Zin HEigen G (AEval rho (MLeaf 4)) s' q s2 /\
    (forall i j, i < 2 -> j < 2 -> val (mm s') p i j = 0%Z) /\ val (mm s2) q 0 0 = 2%Z /\ val (mm s2) q 1 1 = 8%Z.
Proof.
  exists cp_graph, (host_of cp_objs), (fun o => o), mem0, cp_env. split; [exact cp_wf|]. split; [exact tame0|].
  pose (B := backend_of Zin HEigen).
  assert (Q : match outcome Zin B cp_graph (AEval cp_env (MLeaf 3)) (init mem0) with
    | Some (_, s) => unused (fl s 1) = true /\ is_none (ar s (ORes 1)) = true /\ is_none (ar s (ODres 1)) = true /\
        match outcome Zin B cp_graph (AEval cp_env (MLeaf 4)) (copied 0 1 s) with
        | Some (p, s') => (val (mm s') p 0 0 = 0%Z /\ val (mm s') p 0 1 = 0%Z /\ val (mm s') p 1 0 = 0%Z /\ val (mm s') p 1 1 = 0%Z) /\
            match outcome Zin B cp_graph (AEval cp_env (MLeaf 4)) s' with
            | Some (q, s2) => val (mm s2) q 0 0 = 2%Z /\ val (mm s2) q 1 1 = 8%Z | None => False end
        | None => False end
    | None => False end) by (vm_compute; repeat split).
  destruct (outcome Zin B cp_graph (AEval cp_env (MLeaf 3)) (init mem0)) as [[r s]|] eqn:E1; [|contradiction].
  destruct Q as (F1 & F2 & F3 & Q).
  destruct (outcome Zin B cp_graph (AEval cp_env (MLeaf 4)) (copied 0 1 s)) as [[p s']|] eqn:E2; [|contradiction]. destruct Q as ((Z0 & Z1 & Z2 & Z3) & Q).
  destruct (outcome Zin B cp_graph (AEval cp_env (MLeaf 4)) s') as [[q s2]|] eqn:E3; [|contradiction].
  exists r, s, p, s', q, s2. split; [exact (outcome_returns E1)|]. split.
  { split; [exact (unused_ok F1)|]. split; [exact (is_none_ok F2)|exact (is_none_ok F3)]. }
  split; [reflexivity|]. split; [exact (outcome_returns E2)|]. split; [exact (outcome_returns E3)|]. split; [|exact Q].
  intros i j Hi Hj. destruct i as [|[|i]]; [| |lia]; (destruct j as [|[|j]]; [| |lia]); assumption.
Qed.
(** The hypotheses of the general theorems are met: 0 evaluated, 1 not, or nothing evaluated yet. *)
Example C63_nonvacuous : exists p s, reached Zin HEigen cp_graph (host_of cp_objs) (init mem0) /\ is_leaf cp_graph 0 /\ is_leaf cp_graph 1 /\
  returns Zin HEigen cp_graph (AEval cp_env (MLeaf 0)) (init mem0) p s /\ g_kind cp_graph 1 <> LEye /\ fresh 1 s /\
  f_vis (fl (init mem0) 0) = false /\ fresh 1 (init mem0).
Proof.
  destruct (@run1 _ _ Zin HEigen cp_graph (AEval cp_env (MLeaf 0)) (init mem0) (fun p s => unused (fl s 1) = true /\ is_none (ar s (ORes 1)) = true /\ is_none (ar s (ODres 1)) = true))
    as (p & s & E & F1 & F2 & F3); [vm_compute; repeat split|].
  exists p, s. split; [apply reached_init; exact tame0|]. split; [exact Logic.I|]. split; [exact Logic.I|]. split; [exact E|]. split; [discriminate|].
  split; [|split; [reflexivity|repeat split]]. split; [exact (unused_ok F1)|]. split; [exact (is_none_ok F2)|exact (is_none_ok F3)].
Qed.
Print Assumptions C63_copy_before_evaluation.
Print Assumptions C63_copy_after_evaluation_refuted.
Print Assumptions C63_copy_in_expression_refuted.
