(** * Properties C69, C70: matrix expressions with scalar expressions as operands

    s * M, M * s, M / s = M * (1/s), s + M and M + s where s is a Variable, Parameter or scalar
    Expression (GenericMatProduct.hpp:561-836 and 898-925, GenericMatSum.hpp:529-780 and 833-850). *)
From Coq Require Import List Arith Bool Lia ZArith Permutation Reals Ring.
From Verif Require Import Num NumInst MatMem Kernels KernelFacts KernelProofs KernelBlocks KernelMore Registry KernelStep Backend Slots Exec Sums ConvProofs MatEngine MatGraph MatLeaf MatEval MatDeval MatHist MatSpec MatCalls MatFuel MatCalc MatRev MatInplace RevVals MatRevOk MatRevCall MatRevHist PropMatrix PropReverse.
Import ListNotations.
Set Implicit Arguments.
Unset Strict Implicit.
Local Open Scope nat_scope.
Notation R := Rdefinitions.R.

Section Ring.
Context {T : Type} {N : Num T}.
Variable L : NumLaws N.
Add Ring TRing : (law_ring N L).
Lemma absorb (u v : T) : nadd (nmul n0 u) v = v.
Proof. ring. Qed.
End Ring.

(** ** C69: values and Jacobians *)
(** so is the scalar, with value e_val rho so 0, and vs are its variables. *)
Theorem C69_product_value : forall {T} {N : Num T}, NumLaws N -> forall (S : sched T), valid_sched S ->
  forall (h : handler) (G : graph T) host rank, wf_graph G host rank ->
  forall s, reached S h G host s ->
  forall (rho : env T) so vs id e, scalar_ok G so vs -> root host (MUn (USProdE so vs) id e) -> fits G e -> settled G (MUn (USProdE so vs) id e) s ->
  forall F, den G rho e F ->
  exists p s', returns S h G (AEval rho (MUn (USProdE so vs) id e)) s p s' /\
    holds (mm s') p (Mat (rows G e) (cols G e) (fun i j => nmul (e_val rho so 0) (F i j))) /\ reached S h G host s'.
Proof.
  intros T N L S VS h G host rank WF s R rho so vs id e Hso Hr Hf Hs F HF.
  destruct (C38_eval L VS WF R rho Hr (fits_un id Hf (k := USProdE so vs) Hso) Hs) as (F' & p & s' & HF' & E & Hp & R').
  exists p, s'. split; [exact E|]. split; [|exact R']. rewrite (den_det HF' (den_sprode so vs id HF)) in Hp. exact Hp.
Qed.
Print Assumptions C69_product_value.
Theorem C69_sum_value : forall {T} {N : Num T}, NumLaws N -> forall (S : sched T), valid_sched S ->
  forall (h : handler) (G : graph T) host rank, wf_graph G host rank ->
  forall s, reached S h G host s ->
  forall (rho : env T) so vs id e, scalar_ok G so vs -> root host (MUn (USSumE so vs) id e) -> fits G e -> settled G (MUn (USSumE so vs) id e) s ->
  forall F, den G rho e F ->
  exists p s', returns S h G (AEval rho (MUn (USSumE so vs) id e)) s p s' /\
    holds (mm s') p (Mat (rows G e) (cols G e) (fun i j => nadd (e_val rho so 0) (F i j))) /\ reached S h G host s'.
Proof.
  intros T N L S VS h G host rank WF s R rho so vs id e Hso Hr Hf Hs F HF.
  destruct (C38_eval L VS WF R rho Hr (fits_un id Hf (k := USSumE so vs) Hso) Hs) as (F' & p & s' & HF' & E & Hp & R').
  exists p, s'. split; [exact E|]. split; [|exact R']. rewrite (den_det HF' (den_ssume so vs id HF)) in Hp. exact Hp.
Qed.
Print Assumptions C69_sum_value.
(** DevalF by a matrix x of variables, on whose entries so may depend: block (l,k) of the result
    is ds/dx * e(l,k) + so * d e(l,k)/dx, and ds/dx + d e(l,k)/dx. *)
Theorem C69_product_jacobian : forall {T} {N : Num T}, NumLaws N -> forall (S : sched T), valid_sched S ->
  forall (G : graph T) host rank, wf_graph G host rank -> distinct_vars G ->
  forall s, reached S HEigen G host s ->
  forall (rho : env T) so vs id e x, scalar_ok G so vs -> g_kind G x = LVar -> root host (MUn (USProdE so vs) id e) -> fits G e -> settled G (MUn (USProdE so vs) id e) s ->
  forall F D, dif G rho x e F D ->
  exists p s', returns S HEigen G (ADevalF rho (MUn (USProdE so vs) id e) x) s p s' /\ is_mat (mm s') p (rows G e * g_rows G x) (cols G e * g_cols G x) /\
    forall l k i j, l < rows G e -> k < cols G e -> i < g_rows G x -> j < g_cols G x ->
      val (mm s') p (l * g_rows G x + i) (k * g_cols G x + j) =
      nadd (nmul (e_der rho so 0 x (i * g_cols G x + j)) (F l k)) (nmul (e_val rho so 0) (D l k i j)).
Proof.
  intros T N L S VS G host rank WF DV s R rho so vs id e x Hso Xv Hr Hf Hs F D HD.
  destruct (C40_entries L VS WF DV R rho Xv Hr (fits_un id Hf (k := USProdE so vs) Hso) Hs) as (F' & D' & p & s' & HD' & E & Hm & Hv).
  destruct (dif_fun_det HD' (dif_sprode so vs id HD)) as [_ ->]. exists p, s'. split; [exact E|]. split; [exact Hm|exact Hv].
Qed.
Print Assumptions C69_product_jacobian.
Theorem C69_sum_jacobian : forall {T} {N : Num T}, NumLaws N -> forall (S : sched T), valid_sched S ->
  forall (G : graph T) host rank, wf_graph G host rank -> distinct_vars G ->
  forall s, reached S HEigen G host s ->
  forall (rho : env T) so vs id e x, scalar_ok G so vs -> g_kind G x = LVar -> root host (MUn (USSumE so vs) id e) -> fits G e -> settled G (MUn (USSumE so vs) id e) s ->
  forall F D, dif G rho x e F D ->
  exists p s', returns S HEigen G (ADevalF rho (MUn (USSumE so vs) id e) x) s p s' /\ is_mat (mm s') p (rows G e * g_rows G x) (cols G e * g_cols G x) /\
    forall l k i j, l < rows G e -> k < cols G e -> i < g_rows G x -> j < g_cols G x ->
      val (mm s') p (l * g_rows G x + i) (k * g_cols G x + j) = nadd (e_der rho so 0 x (i * g_cols G x + j)) (D l k i j).
Proof.
  intros T N L S VS G host rank WF DV s R rho so vs id e x Hso Xv Hr Hf Hs F D HD.
  destruct (C40_entries L VS WF DV R rho Xv Hr (fits_un id Hf (k := USSumE so vs) Hso) Hs) as (F' & D' & p & s' & HD' & E & Hm & Hv).
  destruct (dif_fun_det HD' (dif_ssume so vs id HD)) as [_ ->]. exists p, s'. split; [exact E|]. split; [exact Hm|exact Hv].
Qed.
Print Assumptions C69_sum_jacobian.
(** Over the reals: entry (i,j) of x is t, so has the value sv t, which has the derivative the
    scalar engine says (varies, va_ent), and e the value Ft t: the result is the derivative of
    sv t * Ft t l k. *)
Theorem C69_limit : forall (S : sched R), valid_sched S ->
  forall (G : graph R) host rank, wf_graph G host rank -> distinct_vars G ->
  forall s, reached S HEigen G host s ->
  forall so vs id e x i j, scalar_ok G so vs -> g_kind G x = LVar -> i < g_rows G x -> j < g_cols G x ->
  root host (MUn (USProdE so vs) id e) -> fits G e -> settled G (MUn (USProdE so vs) id e) s ->
  forall (rho_ : R -> env R) t0, varies G x i j rho_ t0 -> smooth G (rho_ t0) e ->
  forall (sv : R -> R) Ft, (forall t, sv t = e_val (rho_ t) so 0) -> (forall t, den G (rho_ t) e (Ft t)) ->
  exists p s', returns S HEigen G (ADevalF (rho_ t0) (MUn (USProdE so vs) id e) x) s p s' /\
    is_mat (mm s') p (rows G e * g_rows G x) (cols G e * g_cols G x) /\
    forall l k, l < rows G e -> k < cols G e ->
      derivable_pt_lim (fun t => sv t * Ft t l k)%R t0 (val (mm s') p (l * g_rows G x + i) (k * g_cols G x + j)).
Proof.
  intros S VS G host rank WF DV s R so vs id e x i j Hso Xv Hi Hj Hr Hf Hs rho_ t0 V Sm sv Ft Hsv HFt.
  assert (Sm' : smooth G (rho_ t0) (MUn (USProdE so vs) id e)) by (apply sm_un; [exact Sm|exact Logic.I]).
  destruct (C41_limit VS WF DV R Xv Hi Hj Hr (fits_un id Hf (k := USProdE so vs) Hso) Hs V Sm') as (Gt & p & s' & HG & E & Hm & Hl).
  exists p, s'. split; [exact E|]. split; [exact Hm|]. intros l k Bl Bk. specialize (Hl l k Bl Bk).
  apply (@lim_ext _ (fun t => Gt t l k) t0); [|exact Hl]. intros t. rewrite (den_det (HG t) (den_sprode so vs id (HFt t))), Hsv. reflexivity.
Qed.
Print Assumptions C69_limit.

(** ** C70: reverse mode *)
(** After any history: PreComp(F), then DevalR(F, v) for a scalar variable v of the scalar operands
    of F (v itself is none of the matrices in F): a 1x1 matrix with the derivative of the trace
    of F by v. *)
Theorem C70_scalar_variable : forall {T} {N : Num T}, NumLaws N -> forall (S : sched T), valid_sched S ->
  forall (h : handler) (G : graph T) host rank, wf_graph G host rank ->
  forall ord, (forall c, Permutation (ord c) c) ->
  forall s, rreached S (backend_of S h) G ord host s ->
  forall (rho : env T) F id a y, rev_root G F id a y -> solvable G rho a ->
  forall so vs v, In (so, vs) (sops a) -> In v vs -> variable_of G rho a y v ->
  exists F0 D s1 p s', dif G rho v a F0 D /\ precomputes S h G ord rho F s s1 /\ DevalR G F v s1 = EOk (p, s') /\
    holds (mm (rb s')) p (Mat 1 1 (fun _ _ => sum_n (g_rows G F) (fun l => D l l 0 0))).
Proof.
  intros T N L S VS h G host rank WF ord Ho s Rs rho F id a y Hr Sv so vs v Hso Hv Vv.
  assert (Sa : In v (svars a)) by (unfold svars; apply in_flat_map; exists (so, vs); auto).
  destruct (C42_gradient L VS WF Ho Rs (rho := rho) Hr Sv (l := [v])) as (s1 & E & Q & _); [intros z [<-|[]]; exact Vv|].
  destruct Q as (p & s' & Ed & An & _). destruct An as [F0 D _ HD Hp|Na _]; [|exfalso; apply (Na v); [right; apply in_or_app; auto|reflexivity]].
  exists F0, D, s1, p, s'. split; [exact HD|]. split; [exact E|]. split; [exact Ed|].
  destruct (fits_svars (rr_fits Hr) Sa) as (_ & R1 & C1). rewrite R1, C1 in Hp. eapply holds_meq; [exact Hp|].
  split; [reflexivity|]. split; [reflexivity|]. cbn [mr mc mf]. intros i j Hi Hj. replace i with 0 by lia. replace j with 0 by lia. reflexivity.
Qed.
Print Assumptions C70_scalar_variable.
(** F := s * e: by a matrix x of variables in e on which s does not depend, DevalR(F, x) is s times
    the derivative of the trace of e; by a variable v of s it is ds/dv trace(e) + s d trace(e)/dv. *)
Theorem C70_scaled : forall {T} {N : Num T}, NumLaws N -> forall (S : sched T), valid_sched S ->
  forall (h : handler) (G : graph T) host rank, wf_graph G host rank ->
  forall ord, (forall c, Permutation (ord c) c) ->
  forall s, rreached S (backend_of S h) G ord host s ->
  forall (rho : env T) O id so vs i1 e y, rev_root G O id (MUn (USProdE so vs) i1 e) y -> solvable G rho e ->
  exists s1, precomputes S h G ord rho O s s1 /\
  (forall x F D, In x (leaves e) -> ~ In x vs -> variable_of G rho (MUn (USProdE so vs) i1 e) y x -> dif G rho x e F D ->
    exists p s', DevalR G O x s1 = EOk (p, s') /\
      holds (mm (rb s')) p (Mat (g_rows G x) (g_cols G x) (fun i j => nmul (e_val rho so 0) (sum_n (g_rows G O) (fun l => D l l i j))))) /\
  (forall v F D, In v vs -> variable_of G rho (MUn (USProdE so vs) i1 e) y v -> dif G rho v e F D ->
    exists p s', DevalR G O v s1 = EOk (p, s') /\
      holds (mm (rb s')) p (Mat 1 1 (fun _ _ => nadd (nmul (e_der rho so 0 v 0) (sum_n (g_rows G O) (fun l => F l l)))
                                                     (nmul (e_val rho so 0) (sum_n (g_rows G O) (fun l => D l l 0 0)))))).
Proof.
  intros T N L S VS h G host rank WF ord Ho s Rs rho O id so vs i1 e y Hr Sv. set (a := MUn (USProdE so vs) i1 e) in *.
  assert (Sv' : solvable G rho a) by (split; [exact Sv|exact Logic.I]).
  pose proof (rreached_RInv L VS (backend_value VS (fun _ => L)) (or_intror (backend_kron_zeroed VS h L)) (backend_accum VS h) WF Ho Rs) as I.
  destruct (pre_right L VS (backend_value VS (fun _ => L)) (or_intror (backend_kron_zeroed VS h L)) (backend_accum VS h) WF Ho rho I Hr) as (n & s1 & w & E & Hv & P & I').
  assert (Ask : forall x, variable_of G rho a y x -> asked G rho O a y [x] s1).
  { intros x Vx. apply (asked_ok L VS (or_intror (backend_kron_zeroed VS h L)) WF Hr Hv I' P); [intros z [<-|[]]; exact Vx|intros z _ _; exact Sv']. }
  exists s1. split; [now exists n|]. split.
  - intros x F D Hx Nx Vx HD. destruct (Ask x Vx) as (p & s' & Ed & An & _).
    destruct An as [F0 D0 _ HD0 Hp|Na _]; [|exfalso; apply (Na x); [right; apply in_or_app; left; exact Hx|reflexivity]].
    exists p, s'. split; [exact Ed|]. eapply holds_meq; [exact Hp|]. split; [reflexivity|]. split; [reflexivity|]. cbn [mr mc mf]. intros i j Hi Hj.
    destruct (dif_fun_det HD0 (dif_sprode so vs i1 HD)) as [_ ->]. destruct Vx as (_ & _ & Os).
    destruct (Os so vs (or_introl eq_refl)) as [_ Z]. rewrite <- (sum_mul_l L). apply sum_n_ext. intros l _. rewrite (Z Nx). apply (absorb L).
  - intros v F D Hx Vx HD. destruct (Ask v Vx) as (p & s' & Ed & An & _).
    assert (Sa : In v (svars a)) by (unfold a; rewrite svars_un; apply in_or_app; left; exact Hx).
    destruct An as [F0 D0 _ HD0 Hp|Na _]; [|exfalso; apply (Na v); [right; apply in_or_app; right; exact Sa|reflexivity]].
    destruct (fits_svars (rr_fits Hr) Sa) as (_ & R1 & C1).
    exists p, s'. split; [exact Ed|]. eapply holds_meq; [exact Hp|]. split; [exact R1|]. split; [exact C1|]. cbn [mr mc mf]. rewrite R1, C1. intros i j Hi Hj.
    replace i with 0 by lia. replace j with 0 by lia.
    destruct (dif_fun_det HD0 (dif_sprode so vs i1 HD)) as [_ ->]. rewrite (sum_add L), !(sum_mul_l L). reflexivity.
Qed.
Print Assumptions C70_scaled.
(** Over the reals, for a scalar F: when the variable v of the scalar operands is t, F has the value
    Ft t, and DevalR(F, v) is its derivative. *)
Theorem C70_limit : forall (S : sched R), valid_sched S ->
  forall (h : handler) (G : graph R) host rank, wf_graph G host rank ->
  forall ord, (forall c, Permutation (ord c) c) ->
  forall s, rreached S (backend_of S h) G ord host s ->
  forall F id a y, rev_root G F id a y -> g_rows G F = 1 ->
  forall so vs v, In (so, vs) (sops a) -> In v vs ->
  forall (rho_ : R -> env R) t0, varies G v 0 0 rho_ t0 -> smooth G (rho_ t0) a -> solvable G (rho_ t0) a -> variable_of G (rho_ t0) a y v ->
  forall Ft, (forall t, den G (rho_ t) (MLeaf F) (Ft t)) ->
  exists s1 p s' d, precomputes S h G ord (rho_ t0) F s s1 /\ DevalR G F v s1 = EOk (p, s') /\
    holds (mm (rb s')) p (Mat 1 1 (fun _ _ => d)) /\ derivable_pt_lim (fun t => Ft t 0 0) t0 d.
Proof.
  intros S VS h G host rank WF ord Ho s Rs F id a y Hr H1 so vs v Hso Hv rho_ t0 Va Sm Sv Vv Ft HFt.
  destruct (C70_scalar_variable LawsR VS WF Ho Rs Hr Sv Hso Hv Vv) as (F0 & D & s1 & p & s' & HD & E & Ed & Hp).
  exists s1, p, s', (D 0 0 0 0). split; [exact E|]. split; [exact Ed|]. split.
  - rewrite H1 in Hp. eapply holds_meq; [exact Hp|]. split; [reflexivity|]. split; [reflexivity|]. cbn [mf]. intros i j _ _. exact (sum_1 LawsR _).
  - assert (Sa : In v (svars a)) by (unfold svars; apply in_flat_map; exists (so, vs); auto).
    destruct (fits_svars (rr_fits Hr) Sa) as (_ & R1 & C1). pose proof (wf_dims WF (rr_kind Hr)) as [Q1 Q2]. pose proof (rr_square Hr) as Q3.
    destruct (dif_lim WF Va (rr_fits Hr) Sm HD) as (Gt & _ & HG & Hl); [lia|lia|].
    apply (@lim_ext _ (fun t => Gt t 0 0) t0); [|apply Hl; lia]. intros t.
    now rewrite (den_det (HFt t) (den_exp (rr_kind Hr) (HG t))).
Qed.
Print Assumptions C70_limit.

(** *** Limits of C70 *)
(** X : 1x1, v its only entry, F = v * X = v^2.  DevalF(F, X) is 2 v, DevalR(F, X) only the part
    through the matrix X, and DevalR(F, v) only the part through the scalar v.  (Object 2 is v as
    the variable of the scalar operand 1: PreComp keeps a number of its own for it.) *)
Definition sv_objs : list (gobj (T := Z)) :=
  [ (LVar, (1, 1)); (LEnt, (1, 1)); (LVar, (1, 1)); (LEye, (1, 1)); (KExp 30 (MUn (USProdE 1 [2]) 31 (MLeaf 0)) 3, (1, 1)) ].
Definition sv_graph : graph Z := graph_of sv_objs.
Lemma sv_wf : wf_graph sv_graph (host_of sv_objs) (fun o => o).
Proof. solve_wf. Qed.
Definition sv_env : env Z := Env (fun o _ => match o with 0 | 1 | 2 => 3%Z | _ => 0%Z end) (fun o _ x _ => match o, x with 1, 0 | 1, 2 => 1%Z | _, _ => 0%Z end).
Theorem C70_entries_of_matrices_refuted : exists (G : graph Z) host rank F id a y x v rho,
  wf_graph G host rank /\ rev_root G F id a y /\ g_rows G F = 1 /\ In x (leaves a) /\ g_kind G x = LVar /\ In v (svars a) /\
  exists F0 D, dif G rho x (MLeaf F) F0 D /\ D 0 0 0 0 = 6%Z /\
  (exists q s2, computes Zin HEigen G (ADevalF rho (MLeaf F) x) rv0 q s2 /\ entries (mm (rb s2)) q = Some [6]%Z) /\
  (exists s', precomputes Zin HEigen G (fun c => c) rho F rv0 s' /\ answers G F x s' = Some (Some [3]%Z) /\ answers G F v s' = Some (Some [3]%Z)).
Proof.
  exists sv_graph, (host_of sv_objs), (fun o => o), 4. do 3 eexists. exists 0, 2, sv_env. split; [exact sv_wf|]. split; [constructor|].
  - reflexivity.
  - intros o Ho. simpl in Ho. repeat (destruct Ho as [<-|Ho]; [exact Logic.I|]). destruct Ho.
  - auto.
  - reflexivity.
  - apply fits_un; [now apply fits_leaf|]. split; [reflexivity|]. split; [constructor; [intros []|constructor]|]. intros v [<-|[]]. repeat split.
  - split; [reflexivity|]. split; [simpl; auto|]. split; [reflexivity|]. split; [simpl; auto|]. do 2 eexists. split.
    { eapply dif_exp; [reflexivity|]. apply dif_sprode. apply (dif_var (G := sv_graph) (rho := sv_env) 0 (o := 0)); [reflexivity|].
      apply (den_leaf (G := sv_graph) sv_env (o := 0)); [exact Logic.I|discriminate]. }
    split; [reflexivity|]. split.
    + apply (call1 (P := fun q s2 => entries (mm (rb s2)) q = Some [6]%Z)). vm_compute. reflexivity.
    + apply (pre1 (P := fun s' => answers sv_graph 4 0 s' = Some (Some [3]%Z) /\ answers sv_graph 4 2 s' = Some (Some [3]%Z))). vm_compute. split; reflexivity.
Qed.
Print Assumptions C70_entries_of_matrices_refuted.

(** ** Concrete programs *)
(** X : 2x2, v scalar, s = v^2, F = (s * X) + (s + X * X); E = s * X with s = X(0,0) * X(1,1). *)
Definition ms_objs : list (gobj (T := Z)) :=
  [ (LVar, (2, 2)); (LEnt, (1, 1)); (LVar, (1, 1)); (LEye, (2, 2));
    (KExp 30 (MBin BSum 31 (MUn (USProdE 1 [2]) 32 (MLeaf 0)) (MUn (USSumE 1 [2]) 33 (MBin BProd 34 (MLeaf 0) (MLeaf 0)))) 3, (2, 2)) ].
Definition ms_graph : graph Z := graph_of ms_objs.
Lemma ms_wf : wf_graph ms_graph (host_of ms_objs) (fun o => o).
Proof. solve_wf. Qed.
Lemma ms_scalar : scalar_ok ms_graph 1 [2].
Proof. split; [reflexivity|]. split; [constructor; [intros []|constructor]|]. intros v [<-|[]]. repeat split. Qed.
Definition ms_env : env Z := Env (fun o n => match o with 0 => nth n [1; 2; 3; 4]%Z 0%Z | 1 => 9%Z | 2 => 3%Z | _ => 0%Z end) (fun o _ x _ => match o, x with 1, 2 => 6%Z | _, _ => 0%Z end).
Definition ms_env' : env Z := Env (fun o n => match o with 0 => nth n [1; 2; 3; 4]%Z 0%Z | 1 => 4%Z | _ => 0%Z end) (fun o _ x n => match o, x with 1, 0 => nth n [4; 0; 0; 1]%Z 0%Z | _, _ => 0%Z end).
Lemma ms_distinct : distinct_vars ms_graph.
Proof.
  intros o o' H H' Ne.
  assert (Q : o = 0 \/ o = 2) by (each o 5; try lia; try discriminate; destruct o; discriminate).
  assert (Q' : o' = 0 \/ o' = 2) by (each o' 5; try lia; try discriminate; destruct o'; discriminate).
  assert (D : o = 0 /\ o' = 2 \/ o = 2 /\ o' = 0) by lia. destruct D as [[-> ->] | [-> ->]]; (split; [simpl; lia|]); simpl; lia.
Qed.
Example C69_nonvacuous : reached Zin HEigen ms_graph (host_of ms_objs) (init mem0) /\ scalar_ok ms_graph 1 [2] /\
  root (host_of ms_objs) (MUn (USProdE 1 [2]) 60 (MLeaf 0) : mexp Z) /\ fits ms_graph (MLeaf 0) /\ distinct_vars ms_graph /\
  settled ms_graph (MUn (USProdE 1 [2]) 60 (MLeaf 0)) (init mem0) /\
  (forall h, exists p s', returns Zin h ms_graph (AEval ms_env' (MUn (USProdE 1 [2]) 60 (MLeaf 0))) (init mem0) p s' /\ entries (mm s') p = Some [4; 8; 12; 16]%Z) /\
  (exists p s', returns Zin HEigen ms_graph (ADevalF ms_env' (MUn (USProdE 1 [2]) 60 (MLeaf 0)) 0) (init mem0) p s' /\
    entries (mm s') p = Some [8; 0; 8; 4; 0; 1; 0; 2; 12; 0; 16; 0; 4; 3; 0; 8]%Z) /\
  (exists p s', returns Zin HEigen ms_graph (ADevalF ms_env' (MUn (USSumE 1 [2]) 60 (MLeaf 0)) 0) (init mem0) p s' /\
    entries (mm s') p = Some [5; 0; 4; 1; 0; 1; 0; 1; 4; 0; 4; 0; 1; 1; 0; 2]%Z).
Proof.
  split; [constructor; exact tame0|]. split; [exact ms_scalar|]. split; [split; [repeat constructor; simpl; tauto|intros i [<-|[]]; reflexivity]|].
  split; [now apply fits_leaf|]. split; [|split; [|split; [|split]]].
  - exact ms_distinct.
  - apply settled_plain. intros o [<-|[]]; exact Logic.I.
  - intros h. apply (run1 (P := fun p s' => entries (mm s') p = Some [4; 8; 12; 16]%Z)). destruct h; vm_compute; reflexivity.
  - apply (run1 (P := fun p s' => entries (mm s') p = Some [8; 0; 8; 4; 0; 1; 0; 2; 12; 0; 16; 0; 4; 3; 0; 8]%Z)). vm_compute; reflexivity.
  - apply (run1 (P := fun p s' => entries (mm s') p = Some [5; 0; 4; 1; 0; 1; 0; 1; 4; 0; 4; 0; 1; 1; 0; 2]%Z)). vm_compute; reflexivity.
Qed.
(** d trace(F) / dX = s 1 + 2 X^T, d trace(F) / dv = 2 v (trace(X) + 2). *)
Example C70_nonvacuous : forall h, rreached Zin (backend_of Zin h) ms_graph (fun c => c) (host_of ms_objs) rv0 /\
  (exists id a y, rev_root ms_graph 4 id a y /\ solvable ms_graph ms_env a /\ variable_of ms_graph ms_env a y 0 /\ variable_of ms_graph ms_env a y 2 /\ In 0 (leaves a) /\ In (1, [2]) (sops a)) /\
  (exists s', precomputes Zin h ms_graph (fun c => c) ms_env 4 rv0 s' /\
    answers ms_graph 4 0 s' = Some (Some [11; 6; 4; 17]%Z) /\ answers ms_graph 4 2 s' = Some (Some [42]%Z)).
Proof.
  intros h. split; [constructor; exact tame0|]. split.
  - do 3 eexists. split; [constructor|].
    + reflexivity.
    + intros o Ho. simpl in Ho. repeat (destruct Ho as [<-|Ho]; [exact Logic.I|]). destruct Ho.
    + auto.
    + reflexivity.
    + apply fits_zip; [discriminate| | |reflexivity|reflexivity]; (apply fits_un; [|exact ms_scalar]); [now apply fits_leaf|]. apply fits_prod; [| |reflexivity]; now apply fits_leaf.
    + split; [repeat split|]. split; [|split; [|split; [simpl; auto|simpl; auto]]].
      * split; [reflexivity|]. split.
        -- intros o Ho. split; [auto|]. simpl in Ho. repeat (destruct Ho as [<-|Ho]; [discriminate|]). destruct Ho.
        -- intros so vs Q. simpl in Q. destruct Q as [[= <- <-]|[[= <- <-]|[]]]; (split; [intros v [<-|[]]; discriminate|reflexivity]).
      * split; [reflexivity|]. split.
        -- intros o Ho. split; [auto|]. simpl in Ho. repeat (destruct Ho as [<-|Ho]; [discriminate|]). destruct Ho.
        -- intros so vs Q. simpl in Q. destruct Q as [[= <- <-]|[[= <- <-]|[]]]; (split; [auto|]); intros Z; exfalso; apply Z; simpl; auto.
  - apply (pre1 (P := fun s' => answers ms_graph 4 0 s' = Some (Some [11; 6; 4; 17]%Z) /\ answers ms_graph 4 2 s' = Some (Some [42]%Z))).
    destruct h; vm_compute; split; reflexivity.
Qed.
