(** * Properties C42, C46, C55, C56: reverse mode of matrix expressions *)
From Coq Require Import List Arith Bool Lia ZArith Permutation.
From Verif Require Import Num NumInst MatMem Kernels KernelFacts KernelProofs KernelBlocks KernelMore Registry KernelStep Backend Slots Exec Sums ConvProofs MatEngine MatGraph MatLeaf MatEval MatDeval MatHist MatSpec MatCalls MatFuel MatRev MatInplace RevVals MatRevOk MatRevCall MatRevHist PropMatrix.
Import ListNotations.
Set Implicit Arguments.
Unset Strict Implicit.

(** PreComp(F) returns, with the state s' after it. *)
Definition precomputes {T} {N : Num T} (S : sched T) (h : handler) (G : graph T) (ord : cache -> cache) (rho : env T) (F : obj) (s s' : rst (T := T)) : Prop :=
  exists n, forall f, n <= f -> PreComp S (backend_of S h) G ord rho f F s = EOk (tt, s').
Definition computes {T} {N : Num T} (S : sched T) (h : handler) (G : graph T) (a : act T) (s : rst (T := T)) (p : ptr) (s' : rst (T := T)) : Prop :=
  exists n, forall f, n <= f -> rcall S (backend_of S h) G f a s = EOk (p, s').

(** ** C42 *)
(** After any history: PreComp(F), then any number of calls DevalR(F, x).  For x in F the
    result has the shape of x and entry (i,j) is the derivative of the trace of F by x(i,j).
    solvable: inverses in F, if any, are of invertible matrices. *)
Theorem C42_gradient : forall {T} {N : Num T}, NumLaws N -> forall (S : sched T), valid_sched S ->
  forall (h : handler) (G : graph T) host rank, wf_graph G host rank ->
  forall ord, (forall c, Permutation (ord c) c) ->
  forall s, rreached S (backend_of S h) G ord host s ->
  forall (rho : env T) F id a y, rev_root G F id a y -> solvable G rho a ->
  forall l, (forall x, In x l -> variable_of G rho a y x) ->
  exists s', precomputes S h G ord rho F s s' /\ asked G rho F a y l s' /\ rreached S (backend_of S h) G ord host s'.
Proof.
  intros T N L S VS h G host rank WF ord Ho s Rs rho F id a y Hr Sv l Hl.
  pose proof (rreached_RInv L VS (backend_value VS (fun _ => L)) (or_intror (backend_kron_zeroed VS h L)) (backend_accum VS h) WF Ho Rs) as I.
  destruct (pre_right L VS (backend_value VS (fun _ => L)) (or_intror (backend_kron_zeroed VS h L)) (backend_accum VS h) WF Ho rho I Hr) as (n & s' & v & E & Hv & P & I').
  exists s'. split; [now exists n|]. split; [exact (asked_ok L VS (or_intror (backend_kron_zeroed VS h L)) WF Hr Hv I' P Hl (fun _ _ _ => Sv))|]. eapply rr_pre; eauto.
Qed.
Print Assumptions C42_gradient.
(** The same for a scalar F, spelled out: entry (i,j) of DevalR(F, x) is dF/dx(i,j). *)
Theorem C42_scalar : forall {T} {N : Num T}, NumLaws N -> forall (S : sched T), valid_sched S ->
  forall (h : handler) (G : graph T) host rank, wf_graph G host rank ->
  forall ord, (forall c, Permutation (ord c) c) ->
  forall s, rreached S (backend_of S h) G ord host s ->
  forall (rho : env T) F id a y, rev_root G F id a y -> solvable G rho a -> g_rows G F = 1 ->
  forall x, In x (keyed a) -> variable_of G rho a y x ->
  exists F0 D s1 s' p, dif G rho x (MLeaf F) F0 D /\ precomputes S h G ord rho F s s1 /\ DevalR G F x s1 = EOk (p, s') /\
    holds (mm (rb s')) p (Mat (g_rows G x) (g_cols G x) (fun i j => D 0 0 i j)).
Proof.
  intros T N L S VS h G host rank WF ord Ho s Rs rho F id a y Hr Sv H1 x Hx Vx.
  destruct (C42_gradient L VS WF Ho Rs (rho := rho) Hr Sv (l := [x])) as (s' & E & Q & _); [intros z [<-|[]]; exact Vx|].
  destruct Q as (p & s2 & Ed & An & _).
  destruct An as [F0 D _ HD Hp|Na _]; [|exfalso; apply (Na x); [right; exact Hx|reflexivity]].
  exists F0, D, s', s2, p. split; [eapply dif_exp; [exact (rr_kind Hr)|exact HD]|]. split; [exact E|]. split; [exact Ed|].
  eapply holds_meq; [exact Hp|]. split; [reflexivity|]. split; [reflexivity|]. cbn [mf]. intros i j _ _. rewrite H1. apply (sum_1 L).
Qed.
Print Assumptions C42_scalar.

(** ... and is what DevalF(F, x) returns, called in the same state. *)
Theorem C42_agrees_with_devalF : forall {T} {N : Num T}, NumLaws N -> forall (S : sched T), valid_sched S ->
  forall (G : graph T) host rank, wf_graph G host rank -> distinct_vars G ->
  forall ord, (forall c, Permutation (ord c) c) ->
  forall s, rreached S (backend_of S HEigen) G ord host s ->
  forall (rho : env T) F id a y, rev_root G F id a y -> solvable G rho a -> g_rows G F = 1 -> settled G (MLeaf F) (rb s) ->
  forall x, In x (keyed a) -> variable_of G rho a y x ->
  exists v s1 s' p q s2, precomputes S HEigen G ord rho F s s1 /\ DevalR G F x s1 = EOk (p, s') /\ holds (mm (rb s')) p v /\
    computes S HEigen G (ADevalF rho (MLeaf F) x) s q s2 /\ holds (mm (rb s2)) q v.
Proof.
  intros T N L S VS G host rank WF DV ord Ho s Rs rho F id a y Hr Sv H1 Hs x Hx Vx.
  destruct (C42_scalar L VS WF Ho Rs Hr Sv H1 Hx Vx) as (F0 & D & s1 & s' & p & HD & E1 & E2 & Hp).
  pose proof (rreached_RInv L VS (backend_value VS (fun _ => L)) (or_intror (backend_kron_zeroed VS HEigen L)) (backend_accum VS HEigen) WF Ho Rs) as I.
  destruct (rcall_right L VS (backend_value VS (fun _ => L)) (or_intror (backend_kron_zeroed VS HEigen L)) WF (a := ADevalF rho (MLeaf F) x) I Hs) as (n & q & s2 & E & (F1 & D1 & HD1 & Hq) & _).
  { split; [split; [constructor|intros i []]|]. split; [eapply fits_exp; [exact (rr_kind Hr)|exact (rr_fits Hr)]|].
    split; [now apply eigen_kron|]. split; [exact (proj1 Vx)|exact DV]. }
  exists (jac_of G x (MLeaf F) D1), s1, s', p, q, s2. split; [exact E1|]. split; [exact E2|]. split; [|split; [now exists n|exact Hq]].
  eapply holds_meq; [exact Hp|]. cbn [act_exp] in HD1. destruct (dif_fun_det HD HD1) as [_ ->].
  pose proof (rr_square Hr) as Q. unfold jac_of, layout. cbn [rows cols]. rewrite <- Q, H1, !Nat.mul_1_l. split; [reflexivity|]. split; [reflexivity|].
  cbn [mf mr mc]. intros i j Hi Hj. now rewrite !Nat.div_small, !Nat.mod_small by auto.
Qed.
Print Assumptions C42_agrees_with_devalF.

(** ** Concrete programs *)
Definition pre_outcome {T} {N : Num T} (S : sched T) B (G : graph T) ord rho F (s : rst (T := T)) : option (rst (T := T)) :=
  match PreComp S B G ord rho 30 F s with EOk (_, s') => Some s' | _ => None end.
Lemma pre_outcome_returns {T} {N : Num T} (S : sched T) h (G : graph T) ord rho F s s' :
  pre_outcome S (backend_of S h) G ord rho F s = Some s' -> precomputes S h G ord rho F s s'.
Proof.
  unfold pre_outcome. intros H. exists 30. intros f Hf.
  destruct (PreComp S (backend_of S h) G ord rho 30 F s) as [[[] r]| | |] eqn:E; try discriminate. injection H as ->.
  rewrite (PreComp_fuel Hf) by congruence. exact E.
Qed.
Lemma rcall_more {T} {N : Num T} (S : sched T) B (G : graph T) n a : rmore (rcall S B G n a) (rcall S B G (Datatypes.S n) a).
Proof.
  destruct a; cbn [rcall]; (apply rmore_bind; [apply rreset_more|intros _]); apply rmore_rl; [apply eval_more|apply devalF_more].
Qed.
Definition call_outcome {T} {N : Num T} (S : sched T) B (G : graph T) a (s : rst (T := T)) : option (ptr * rst (T := T)) :=
  match rcall S B G 30 a s with EOk r => Some r | _ => None end.
Lemma call_outcome_returns {T} {N : Num T} (S : sched T) h (G : graph T) a s p s' :
  call_outcome S (backend_of S h) G a s = Some (p, s') -> computes S h G a s p s'.
Proof.
  unfold call_outcome. intros H. exists 30. intros f Hf.
  destruct (rcall S (backend_of S h) G 30 a s) as [r| | |] eqn:E; try discriminate. injection H as ->.
  assert (Q : forall f, 30 <= f -> rcall S (backend_of S h) G f a s = rcall S (backend_of S h) G 30 a s).
  { clear f Hf. intros f Hf. induction Hf as [|f Hf IH]; [reflexivity|]. rewrite <- IH. destruct (rcall_more S (backend_of S h) G f a s) as [E'|E']; [|now symmetry]. congruence. }
  rewrite Q by auto. exact E.
Qed.
Definition answers {T} {N : Num T} (G : graph T) (F x : obj) (s : rst (T := T)) : option (option (list T)) :=
  match DevalR G F x s with EOk (p, s') => Some (entries (mm (rb s')) p) | _ => None end.
Lemma pre1 {T} {N : Num T} (S : sched T) h (G : graph T) ord rho F s (P : rst (T := T) -> Prop) :
  (match pre_outcome S (backend_of S h) G ord rho F s with Some s' => P s' | None => False end) ->
  exists s', precomputes S h G ord rho F s s' /\ P s'.
Proof.
  destruct (pre_outcome S (backend_of S h) G ord rho F s) as [s'|] eqn:E; [|intros []]. intros H. exists s'. split; [exact (pre_outcome_returns E)|exact H].
Qed.
Lemma call1 {T} {N : Num T} (S : sched T) h (G : graph T) a s (P : ptr -> rst (T := T) -> Prop) :
  (match call_outcome S (backend_of S h) G a s with Some (p, s') => P p s' | None => False end) ->
  exists p s', computes S h G a s p s' /\ P p s'.
Proof.
  destruct (call_outcome S (backend_of S h) G a s) as [[p s']|] eqn:E; [|intros []]. intros H. exists p, s'. split; [exact (call_outcome_returns E)|exact H].
Qed.

(** X : 1x2, Y : 2x1, Z : 2x2, F = (X % X) * Y + X * (2 * transpose(X)), H = transpose(Z) * Z + Z. *)
Definition rv_objs : list (gobj (T := Z)) :=
  [ (LVar, (1, 2)); (LVar, (2, 1)); (LEye, (1, 1));
    (KExp 30 (MBin BSum 31 (MBin BProd 32 (MBin BHad 33 (MLeaf 0) (MLeaf 0)) (MLeaf 1)) (MBin BProd 34 (MLeaf 0) (MUn (USProd 2%Z) 35 (MUn UTr 36 (MLeaf 0))))) 2, (1, 1));
    (LVar, (2, 2)); (LEye, (2, 2));
    (KExp 40 (MBin BSum 41 (MBin BProd 42 (MUn UTr 43 (MLeaf 4)) (MLeaf 4)) (MLeaf 4)) 5, (2, 2)) ].
Definition rv_graph : graph Z := graph_of rv_objs.
Lemma rv_wf : wf_graph rv_graph (host_of rv_objs) (fun o => o).
Proof. solve_wf. Qed.
Definition rv_env := ent [[3; 5]; [7; 11]; []; []; [1; 2; 3; 4]]%Z.
Lemma rv_root : exists id a y, rev_root rv_graph 3 id a y /\ In 0 (leaves a) /\ In 1 (leaves a) /\
  variable_of rv_graph rv_env a y 0 /\ variable_of rv_graph rv_env a y 1 /\ variable_of rv_graph rv_env a y 4 /\ ~ In 4 (y :: keyed a).
Proof.
  do 3 eexists. split; [constructor|split; [|split; [|split; [|split; [|split]]]]].
  - reflexivity.
  - intros o Ho. simpl in Ho. repeat (destruct Ho as [<-|Ho]; [exact Logic.I|]). destruct Ho.
  - intros o o' _ _. auto.
  - reflexivity.
  - repeat first [apply fits_zip; [discriminate| | |reflexivity|reflexivity] | apply fits_prod; [| |reflexivity] | apply fits_un; [|exact Logic.I] | now apply fits_leaf].
  - simpl. auto.
  - simpl. tauto.
  - split; [reflexivity|]. split; [|intros so vs []]. intros o Ho. split; [auto|]. simpl in Ho. repeat (destruct Ho as [<-|Ho]; [discriminate|]). destruct Ho.
  - split; [reflexivity|]. split; [|intros so vs []]. intros o Ho. split; [auto|]. simpl in Ho. repeat (destruct Ho as [<-|Ho]; [discriminate|]). destruct Ho.
  - split; [reflexivity|]. split; [|intros so vs []]. intros o Ho. split; [auto|]. simpl in Ho. repeat (destruct Ho as [<-|Ho]; [discriminate|]). destruct Ho.
  - simpl. intuition discriminate.
Qed.
Definition rv0 : rst (T := Z) := rinit mem0.
(** dF/dX(0,j) = 2 X(0,j) Y(j,0) + 4 X(0,j),  dF/dY(j,0) = X(0,j)^2; d trace(H) / dZ = 2 Z + 1. *)
Example C42_nonvacuous : forall h, rreached Zin (backend_of Zin h) rv_graph (fun c => c) (host_of rv_objs) rv0 /\
  (exists s', precomputes Zin h rv_graph (fun c => c) rv_env 3 rv0 s' /\
    answers rv_graph 3 0 s' = Some (Some [54; 130]%Z) /\ answers rv_graph 3 1 s' = Some (Some [9; 25]%Z)) /\
  (exists s', precomputes Zin h rv_graph (@rev _) rv_env 6 rv0 s' /\ answers rv_graph 6 4 s' = Some (Some [3; 4; 6; 9]%Z)).
Proof.
  intros h. split; [constructor; exact tame0|]. split.
  - apply (pre1 (P := fun s' => answers rv_graph 3 0 s' = Some (Some [54; 130]%Z) /\ answers rv_graph 3 1 s' = Some (Some [9; 25]%Z))).
    destruct h; vm_compute; split; reflexivity.
  - apply (pre1 (P := fun s' => answers rv_graph 6 4 s' = Some (Some [3; 4; 6; 9]%Z))). destruct h; vm_compute; reflexivity.
Qed.

(** *** Limits of C42 *)
(** X : 2x2, A = X * X, B = A * X with A a named expression, not scalar: PreComp(B) is
    rejected, although B is square and every operator fits. *)
Definition nn_objs : list (gobj (T := Z)) :=
  [ (LVar, (2, 2)); (LEye, (2, 2)); (LEye, (2, 2));
    (KExp 30 (MBin BProd 31 (MLeaf 0) (MLeaf 0)) 1, (2, 2)); (KExp 40 (MBin BProd 41 (MLeaf 3) (MLeaf 0)) 2, (2, 2)) ].
Definition nn_graph : graph Z := graph_of nn_objs.
Lemma nn_wf : wf_graph nn_graph (host_of nn_objs) (fun o => o).
Proof. solve_wf. Qed.
Theorem C42_nested_matrices_refuted : exists (G : graph Z) host rank F rho,
  wf_graph G host rank /\ fits G (MLeaf F) /\ g_rows G F = g_cols G F /\
  forall h f, 30 <= f -> PreComp Zin (backend_of Zin h) G (fun c => c) rho f F rv0 = ERejected.
Proof.
  exists nn_graph, (host_of nn_objs), (fun o => o), 4, (ent [[1; 2; 3; 4]]%Z). split; [exact nn_wf|]. split; [|split; [reflexivity|]].
  - eapply fits_exp; [reflexivity|]. apply fits_prod; [|now apply fits_leaf|reflexivity]. eapply fits_exp; [reflexivity|]. apply fits_prod; [| |reflexivity]; now apply fits_leaf.
  - intros h f Hf.
    assert (E : match PreComp Zin (backend_of Zin h) nn_graph (fun c => c) (ent [[1; 2; 3; 4]]%Z) 30 4 rv0 with ERejected => True | _ => False end) by (destruct h; vm_compute; exact Logic.I).
    rewrite (PreComp_fuel Hf); destruct (PreComp Zin (backend_of Zin h) nn_graph (fun c => c) (ent [[1; 2; 3; 4]]%Z) 30 4 rv0); try tauto; discriminate.
Qed.
Print Assumptions C42_nested_matrices_refuted.
(** X : 1x1, M a matrix whose only entry is the scalar expression X(0,0)^2, F = X % M = X^3:
    at X = 3 DevalF(F,X) is 27, DevalR(F,X) is 9. *)
Definition me_objs : list (gobj (T := Z)) :=
  [ (LVar, (1, 1)); (LEnt, (1, 1)); (LEye, (1, 1)); (KExp 30 (MBin BHad 31 (MLeaf 0) (MLeaf 1)) 2, (1, 1)) ].
Definition me_graph : graph Z := graph_of me_objs.
Lemma me_wf : wf_graph me_graph (host_of me_objs) (fun o => o).
Proof. solve_wf. Qed.
Definition me_env : env Z := Env (fun o _ => match o with 0 => 3%Z | 1 => 9%Z | _ => 0%Z end) (fun o _ x _ => match o, x with 1, 0 => 6%Z | _, _ => 0%Z end).
Theorem C42_matrices_of_expressions_refuted : exists (G : graph Z) host rank F id a y x rho,
  wf_graph G host rank /\ rev_root G F id a y /\ g_rows G F = 1 /\ In x (leaves a) /\ g_kind G x = LVar /\
  exists F0 D, dif G rho x (MLeaf F) F0 D /\ D 0 0 0 0 = 27%Z /\
  (exists q s2, computes Zin HEigen G (ADevalF rho (MLeaf F) x) rv0 q s2 /\ entries (mm (rb s2)) q = Some [27]%Z) /\
  (exists s', precomputes Zin HEigen G (fun c => c) rho F rv0 s' /\ answers G F x s' = Some (Some [9]%Z)).
Proof.
  exists me_graph, (host_of me_objs), (fun o => o), 3. do 3 eexists. exists 0, me_env. split; [exact me_wf|]. split; [constructor|].
  - reflexivity.
  - intros o Ho. simpl in Ho. repeat (destruct Ho as [<-|Ho]; [exact Logic.I|]). destruct Ho.
  - auto.
  - reflexivity.
  - apply fits_zip; [discriminate| | |reflexivity|reflexivity]; now apply fits_leaf.
  - split; [reflexivity|]. split; [simpl; auto|]. split; [reflexivity|]. do 2 eexists. split.
    { eapply dif_exp; [reflexivity|]. apply dif_had; [apply (dif_var (G := me_graph) (rho := me_env) 0 (o := 0))|apply (dif_ent (G := me_graph) (rho := me_env) 0 (o := 1))];
        try reflexivity; [apply (den_leaf (G := me_graph) me_env (o := 0))|apply (den_leaf (G := me_graph) me_env (o := 1))]; try discriminate; exact Logic.I. }
    split; [reflexivity|]. split.
    + apply (call1 (P := fun q s2 => entries (mm (rb s2)) q = Some [27]%Z)). vm_compute. reflexivity.
    + apply (pre1 (P := fun s' => answers me_graph 3 0 s' = Some (Some [9]%Z))). vm_compute. reflexivity.
Qed.
Print Assumptions C42_matrices_of_expressions_refuted.

(** ** C46 *)
(** What holds: for an x that does not occur DevalR returns zeros, in the shape of F. *)
Theorem C46_absent : forall {T} {N : Num T}, NumLaws N -> forall (S : sched T), valid_sched S ->
  forall (h : handler) (G : graph T) host rank, wf_graph G host rank ->
  forall ord, (forall c, Permutation (ord c) c) ->
  forall s, rreached S (backend_of S h) G ord host s ->
  forall (rho : env T) F id a y, rev_root G F id a y ->
  forall x, variable_of G rho a y x -> ~ In x (keyed a) ->
  exists s1 s' p, precomputes S h G ord rho F s s1 /\ DevalR G F x s1 = EOk (p, s') /\ holds (mm (rb s')) p (mzeros (g_rows G F) (g_cols G F)).
Proof.
  intros T N L S VS h G host rank WF ord Ho s Rs rho F id a y Hr x Vx Nx.
  pose proof (rreached_RInv L VS (backend_value VS (fun _ => L)) (or_intror (backend_kron_zeroed VS h L)) (backend_accum VS h) WF Ho Rs) as I.
  destruct (pre_right L VS (backend_value VS (fun _ => L)) (or_intror (backend_kron_zeroed VS h L)) (backend_accum VS h) WF Ho rho I Hr) as (n & s' & v & E & Hv & P & I').
  destruct (asked_ok L VS (or_intror (backend_kron_zeroed VS h L)) WF Hr Hv I' P (l := [x])) as (p & s2 & Ed & An & _).
  { intros z [<-|[]]; exact Vx. }
  { intros z [<-|[]] Hz. contradiction. }
  destruct An as [F0 D Hx _ _|_ Hp]; [contradiction|]. exists s', s2, p. split; [now exists n|]. auto.
Qed.
Print Assumptions C46_absent.
(** F : 1x1 and Z : 2x2 does not occur in it: DevalR(F, Z) is 1x1. *)
Theorem C46_shape_refuted : exists (G : graph Z) host rank F id a y x rho,
  wf_graph G host rank /\ rev_root G F id a y /\ variable_of G rho a y x /\ ~ In x (keyed a) /\ g_rows G x = 2 /\ g_cols G x = 2 /\
  exists s1 s' p, precomputes Zin HEigen G (fun c => c) rho F rv0 s1 /\ DevalR G F x s1 = EOk (p, s') /\
    holds (mm (rb s')) p (mzeros 1 1).
Proof.
  exists rv_graph, (host_of rv_objs), (fun o => o), 3. destruct rv_root as (id & a & y & Hr & H0 & H1 & V0 & V1 & V4 & N4). exists id, a, y, 4, rv_env.
  split; [exact rv_wf|]. split; [exact Hr|]. split; [exact V4|]. split; [intros Q; apply N4; simpl; auto|]. split; [reflexivity|]. split; [reflexivity|].
  exact (@C46_absent Z NumZ LawsZ Zin (fun m I l => Permutation_refl l) HEigen rv_graph _ _ rv_wf (fun c => c) (fun c => Permutation_refl c) rv0 (rr_init Zin (backend_of Zin HEigen) rv_graph (fun c => c) (host_of rv_objs) tame0) rv_env 3 id a y Hr 4 V4 (fun Q => N4 (or_intror Q))).
Qed.
Print Assumptions C46_shape_refuted.

(** ** C55 *)
(** Eval(e) or DevalF(e, .) empties the caches of the matrices of e: DevalR(F, x) for an F in
    e, in particular e = F itself, then returns zeros for every x. *)
Theorem C55_cleared : forall {T} {N : Num T}, NumLaws N -> forall (S : sched T), valid_sched S ->
  forall (h : handler) (G : graph T) host rank, wf_graph G host rank ->
  forall ord, (forall c, Permutation (ord c) c) ->
  forall s, rreached S (backend_of S h) G ord host s ->
  forall a, settled G (act_exp a) (rb s) -> act_ok (backend_of S h) G host a ->
  forall F x, In F (leaves (act_exp a)) ->
  exists p s1 q s', computes S h G a s p s1 /\ DevalR G F x s1 = EOk (q, s') /\ holds (mm (rb s')) q (mzeros (g_rows G F) (g_cols G F)).
Proof.
  intros T N L S VS h G host rank WF ord Ho s Rs a Hs Ha F x HF.
  pose proof (rreached_RInv L VS (backend_value VS (fun _ => L)) (or_intror (backend_kron_zeroed VS h L)) (backend_accum VS h) WF Ho Rs) as I.
  destruct (rcall_right L VS (backend_value VS (fun _ => L)) (or_intror (backend_kron_zeroed VS h L)) WF I Hs Ha) as (n & p & s1 & E & _ & I1 & C & _).
  destruct (dev_none (S := S) VS WF (F := F) (x := x) I1) as (q & s' & E' & Hq & _); [now rewrite (C F HF)|].
  exists p, s1, q, s'. split; [now exists n|]. auto.
Qed.
Print Assumptions C55_cleared.
(** PreComp(F); DevalR(F,X) is the gradient; Eval(F); DevalR(F,X) is zero. *)
Theorem C55_gradient_survives_refuted : exists (G : graph Z) host rank F id a y x rho,
  wf_graph G host rank /\ rev_root G F id a y /\ In x (leaves a) /\ variable_of G rho a y x /\
  exists s1 p s2, precomputes Zin HEigen G (fun c => c) rho F rv0 s1 /\ computes Zin HEigen G (AEval rho (MLeaf F)) s1 p s2 /\
    (answers G F x s1 = Some (Some [9; 25]%Z) /\ answers G F x s2 = Some (Some [0]%Z)).
Proof.
  exists rv_graph, (host_of rv_objs), (fun o => o), 3. destruct rv_root as (id & a & y & Hr & H0 & H1 & V0 & V1 & V4 & N4). exists id, a, y, 1, rv_env.
  split; [exact rv_wf|]. split; [exact Hr|]. split; [exact H1|]. split; [exact V1|].
  destruct (@pre1 Z NumZ Zin HEigen rv_graph (fun c => c) rv_env 3 rv0 (fun s1 => answers rv_graph 3 1 s1 = Some (Some [9; 25]%Z) /\
    match call_outcome Zin (backend_of Zin HEigen) rv_graph (AEval rv_env (MLeaf 3)) s1 with Some (p, s') => answers rv_graph 3 1 s' = Some (Some [0]%Z) | None => False end))
    as (s1 & E1 & V & Q); [vm_compute; split; reflexivity|].
  destruct (@call1 Z NumZ Zin HEigen rv_graph (AEval rv_env (MLeaf 3)) s1 (fun p s' => answers rv_graph 3 1 s' = Some (Some [0]%Z)) Q) as (p & s2 & E2 & V2).
  exists s1, p, s2. auto.
Qed.
Print Assumptions C55_gradient_survives_refuted.

(** ** C56 *)
(** Where all operands of F are matrices PreComp may be repeated: both times every DevalR
    gives the right answer. *)
Theorem C56_repeat : forall {T} {N : Num T}, NumLaws N -> forall (S : sched T), valid_sched S ->
  forall (h : handler) (G : graph T) host rank, wf_graph G host rank ->
  forall ord, (forall c, Permutation (ord c) c) ->
  forall s, rreached S (backend_of S h) G ord host s ->
  forall (rho : env T) F id a y, rev_root G F id a y -> solvable G rho a ->
  forall l, (forall x, In x l -> variable_of G rho a y x) ->
  exists s1 s2, precomputes S h G ord rho F s s1 /\ asked G rho F a y l s1 /\ precomputes S h G ord rho F s1 s2 /\ asked G rho F a y l s2.
Proof.
  intros T N L S VS h G host rank WF ord Ho s Rs rho F id a y Hr Sv l Hl.
  destruct (C42_gradient L VS WF Ho Rs (rho := rho) Hr Sv Hl) as (s1 & E1 & A1 & R1).
  destruct (C42_gradient L VS WF Ho R1 (rho := rho) Hr Sv Hl) as (s2 & E2 & A2 & _).
  exists s1, s2. auto.
Qed.
Print Assumptions C56_repeat.
(** With
    named expressions inside named expressions the second PreComp can use, for a product,
    a header that still shares its buffer with an entry of the cache: whether the result is
    right depends on the iteration order of the hash map.
    X, Y : 1x1, A = X * Y, B = A * X, F = B * Y, at X = 2, Y = 3: dF/dX = 36. *)
Definition nest_objs : list (gobj (T := Z)) :=
  [ (LVar, (1, 1)); (LVar, (1, 1)); (LEye, (1, 1)); (LEye, (1, 1)); (LEye, (1, 1));
    (KExp 30 (MBin BProd 31 (MLeaf 0) (MLeaf 1)) 2, (1, 1));
    (KExp 40 (MBin BProd 41 (MLeaf 5) (MLeaf 0)) 3, (1, 1));
    (KExp 50 (MBin BProd 51 (MLeaf 6) (MLeaf 1)) 4, (1, 1)) ].
Definition nest_graph : graph Z := graph_of nest_objs.
Lemma nest_wf : wf_graph nest_graph (host_of nest_objs) (fun o => o).
Proof. solve_wf. Qed.
Definition nest_env := ent [[2]; [3]]%Z.
Theorem C56_repeat_refuted : exists (G : graph Z) host rank F x rho,
  wf_graph G host rank /\ g_rows G F = 1 /\ g_cols G F = 1 /\ fits G (MLeaf F) /\ g_kind G x = LVar /\
  (exists s1 s2, precomputes Zin HEigen G (fun c => c) rho F rv0 s1 /\ precomputes Zin HEigen G (fun c => c) rho F s1 s2 /\
    answers G F x s1 = Some (Some [36]%Z) /\ answers G F x s2 = Some (Some [24]%Z)) /\
  (exists s1 s2, precomputes Zin HEigen G (@rev _) rho F rv0 s1 /\ precomputes Zin HEigen G (@rev _) rho F s1 s2 /\
    answers G F x s1 = Some (Some [36]%Z) /\ answers G F x s2 = Some (Some [36]%Z)).
Proof.
  exists nest_graph, (host_of nest_objs), (fun o => o), 7, 0, nest_env. split; [exact nest_wf|]. split; [reflexivity|]. split; [reflexivity|]. split.
  { eapply fits_exp; [reflexivity|]. apply fits_prod; [|now apply fits_leaf|reflexivity]. eapply fits_exp; [reflexivity|]. apply fits_prod; [|now apply fits_leaf|reflexivity].
    eapply fits_exp; [reflexivity|]. apply fits_prod; [| |reflexivity]; now apply fits_leaf. }
  split; [reflexivity|]. split.
  - destruct (@pre1 Z NumZ Zin HEigen nest_graph (fun c => c) nest_env 7 rv0 (fun s1 => answers nest_graph 7 0 s1 = Some (Some [36]%Z) /\
      match pre_outcome Zin (backend_of Zin HEigen) nest_graph (fun c => c) nest_env 7 s1 with Some s' => answers nest_graph 7 0 s' = Some (Some [24]%Z) | None => False end))
      as (s1 & E1 & V & Q); [vm_compute; split; reflexivity|].
    destruct (@pre1 Z NumZ Zin HEigen nest_graph (fun c => c) nest_env 7 s1 (fun s' => answers nest_graph 7 0 s' = Some (Some [24]%Z)) Q) as (s2 & E2 & V2).
    exists s1, s2. auto.
  - destruct (@pre1 Z NumZ Zin HEigen nest_graph (@rev _) nest_env 7 rv0 (fun s1 => answers nest_graph 7 0 s1 = Some (Some [36]%Z) /\
      match pre_outcome Zin (backend_of Zin HEigen) nest_graph (@rev _) nest_env 7 s1 with Some s' => answers nest_graph 7 0 s' = Some (Some [36]%Z) | None => False end))
      as (s1 & E1 & V & Q); [vm_compute; split; reflexivity|].
    destruct (@pre1 Z NumZ Zin HEigen nest_graph (@rev _) nest_env 7 s1 (fun s' => answers nest_graph 7 0 s' = Some (Some [36]%Z)) Q) as (s2 & E2 & V2).
    exists s1, s2. auto.
Qed.
Print Assumptions C56_repeat_refuted.
