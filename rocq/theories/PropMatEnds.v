(** * Property C74: every call on matrices ends, cyclic definitions included *)
From Coq Require Import List Arith Bool Lia ZArith Permutation.
From Verif Require Import Num NumInst MatMem Kernels KernelFacts KernelProofs KernelBlocks KernelMore Registry KernelStep Backend Slots Exec Sums MatEngine MatGraph MatLeaf MatEval MatDeval MatHist MatSpec MatCalls MatFuel MatRev MatRevCall MatRevHist MatEnds PropMatrix PropReverse.
Import ListNotations.
Set Implicit Arguments.
Unset Strict Implicit.
Local Open Scope nat_scope.

(** L lists the Matrix<Expression> objects of the program. *)
Definition names {T} (G : graph T) (L : list obj) : Prop := forall o id a y, g_kind G o = KExp id a y -> In o L.

(** Eval and DevalF: one bound on the depth of the recursion for all entries and all states
    (reachable or not), schedules, backends and graphs: expressions may refer to themselves or to each other.
    The call returns, is rejected by an assertion or leaves the defined behaviour. *)
Theorem C74_calls_end : forall {T} {N : Num T} (S : sched T) B (G : graph T) L, names G L ->
  forall e, exists bound, forall rho s fuel, bound <= fuel ->
    Eval S B G rho fuel e s <> ENoFuel /\ forall x, DevalF S B G rho fuel e x s <> ENoFuel.
Proof.
  intros T N S B G L HL e. exists (need G L (length L) e). intros rho s fuel Hf.
  pose proof (@reset_ends T G L HL fuel _ _ Hf s (count_le _ _ _)) as Hr. split; [|intros x].
  - unfold Eval, ebind. destruct (reset G fuel e s) as [[[] s1]| | |]; try discriminate; [|destruct Hr].
    pose proof (@eval_ends T N S B G L HL rho fuel _ _ Hf s1 (count_le _ _ _)) as He. intros E. rewrite E in He. exact He.
  - unfold DevalF, ebind. destruct (reset G fuel e s) as [[[] s1]| | |]; try discriminate; [|destruct Hr].
    pose proof (@devalF_ends T N S B G L HL rho x fuel _ _ Hf s1 (count_le _ _ _)) as He. intros E. rewrite E in He. exact He.
Qed.
Print Assumptions C74_calls_end.
(** PreComp, and Eval and DevalF in programs that also use reverse mode (they clear the caches). *)
Theorem C74_reverse_ends : forall {T} {N : Num T} (S : sched T) B (G : graph T) L, names G L ->
  forall ord e, exists bound, forall rho s fuel, bound <= fuel ->
    REval S B G rho fuel e s <> ENoFuel /\ (forall x, RDevalF S B G rho fuel e x s <> ENoFuel) /\
    forall F, e = MLeaf F -> PreComp S B G ord rho fuel F s <> ENoFuel.
Proof.
  intros T N S B G L HL ord e. exists (Datatypes.S (need G L (length L) e) + height G L). intros rho s fuel Hf0.
  assert (Hf : need G L (length L) e <= fuel) by lia.
  pose proof (@rreset_ends T G L HL fuel _ _ Hf s (count_le _ _ _)) as Hr. split; [|split; [intros x|]].
  - unfold REval, rbind. destruct (rreset G fuel e s) as [[[] s1]| | |]; try discriminate; [|destruct Hr].
    pose proof (@rends_rl T L _ _ _ _ (@eval_ends T N S B G L HL rho fuel _ _ Hf) s1 (count_le _ _ _)) as He. intros E. rewrite E in He. exact He.
  - unfold RDevalF, rbind. destruct (rreset G fuel e s) as [[[] s1]| | |]; try discriminate; [|destruct Hr].
    pose proof (@rends_rl T L _ _ _ _ (@devalF_ends T N S B G L HL rho x fuel _ _ Hf) s1 (count_le _ _ _)) as He. intros E. rewrite E in He. exact He.
  - intros F ->. unfold PreComp.
    assert (Tr : forall s, trav S B G ord rho fuel 0 (MLeaf F) s <> ENoFuel).
    { intros s1 E. pose proof (@trav_ends T N S B G L HL ord rho fuel _ 0 _ Hf s1 (count_le _ _ _)) as He. rewrite E in He. exact He. }
    destruct (g_kind G F) as [| | | |id a y] eqn:Ek.
    1-4: unfold rbind; destruct (rreset G fuel (MLeaf F) s) as [[[] s1]| | |]; try discriminate; [apply Tr|destruct Hr].
    assert (Hi : need G L (length L) (item id a y) <= fuel).
    { pose proof (item_depth HL Ek). unfold need in *. lia. }
    unfold rbind at 1 2. cbn [rl setf set_oc]. unfold rbind.
    match goal with |- context [rreset G fuel (item id a y) ?s0] => pose proof (@rreset_ends T G L HL fuel _ _ Hi s0 (count_le _ _ _)) as Hr2; destruct (rreset G fuel (item id a y) s0) as [[[] s1]| | |]; try discriminate; [apply Tr|destruct Hr2] end.
Qed.
Print Assumptions C74_reverse_ends.

(** For programs without cycles the calls return the right matrices: one bound for all histories. *)
Theorem C74_uniform : forall {T} {N : Num T}, NumLaws N -> forall (S : sched T), valid_sched S ->
  forall (h : handler) (G : graph T) host rank, wf_graph G host rank -> forall L, names G L ->
  forall e, root host e -> fits G e -> exists bound, forall s, reached S h G host s -> settled G e s ->
  forall rho fuel, bound <= fuel ->
  exists F p s', den G rho e F /\ call S (backend_of S h) G fuel (AEval rho e) s = EOk (p, s') /\ holds (mm s') p (mat_of G e F) /\ reached S h G host s'.
Proof.
  intros T N Lw S VS h G host rank WF L HL e Hr Hf. destruct (C74_calls_end S (backend_of S h) HL e) as (bound & Hb). exists bound.
  intros s R Hs rho fuel Hfu. destruct (C38_eval Lw VS WF R rho Hr Hf Hs) as (F & p & s' & HF & (n & E) & Hp & R').
  exists F, p, s'. split; [exact HF|]. split; [|split; [exact Hp|exact R']].
  rewrite <- (E (max n fuel)) by lia. symmetry. apply call_fuel; [lia|]. exact (proj1 (Hb rho s fuel Hfu)).
Qed.
Print Assumptions C74_uniform.

(** ** Refuted: cyclic definitions are evaluated
    F = G + A; G = F + A for a 1x1 matrix A: the first Eval(F) ends, dereferencing the null result of the
    visited F, with every sufficient depth. *)
Definition cy_objs {T} : list (gobj (T := T)) :=
  [ (LConst, (1, 1)); (LEye, (1, 1));
    (KExp 40 (MBin BSum 41 (MLeaf 3) (MLeaf 0)) 1, (1, 1));
    (KExp 42 (MBin BSum 43 (MLeaf 2) (MLeaf 0)) 1, (1, 1)) ].
Definition cy_graph {T} : graph T := graph_of cy_objs.
Lemma cy_names : names (T := Z) cy_graph [2; 3].
Proof. intros o id a y H. each o 4; try discriminate H; simpl; auto. destruct o; discriminate H. Qed.
Definition cy_env : env Z := Env (fun _ _ => 1%Z) (fun _ _ _ _ => 0%Z).
Definition cy_call (f : nat) := call Zin (backend_of Zin HEigen) cy_graph f (AEval cy_env (MLeaf 2)) (init mem0).
Theorem C74_cycle_is_undefined_refuted : exists bound, forall fuel, bound <= fuel -> cy_call fuel = EUndef.
Proof.
  exists 20. intros fuel Hf. assert (E : cy_call 20 = EUndef) by (vm_compute; reflexivity).
  unfold cy_call in *. rewrite (call_fuel Hf) by congruence. exact E.
Qed.
Print Assumptions C74_cycle_is_undefined_refuted.

(** ** Concrete instances *)
(** The graph of C38's example has finitely many named expressions, and a cyclic one exists (above). *)
Lemma ex_names : names (T := Z) ex_graph (seq 0 20).
Proof. intros o id a y H. apply in_seq. each o 20; try lia. exfalso. revert H. unfold ex_graph, graph_of. cbn. repeat (destruct o; try discriminate). Qed.
Example C74_nonvacuous : names ex_graph (seq 0 20) /\ wf_graph ex_graph (host_of ex_objs) (fun o => o) /\ root (host_of ex_objs) (MLeaf 4 : mexp Z) /\ fits ex_graph (MLeaf 4) /\
  reached Zin HEigen ex_graph (host_of ex_objs) (init mem0) /\ settled ex_graph (MLeaf 4) (init mem0).
Proof.
  split; [exact ex_names|]. split; [exact ex_wf|]. split; [apply ex_root|]. split; [exact ex_fits|]. destruct (C38_nonvacuous HEigen) as (A & C & _). auto.
Qed.
