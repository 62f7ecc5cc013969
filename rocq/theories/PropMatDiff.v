(** * Property C77: differences and quotients of a matrix and a scalar *)
From Coq Require Import List Arith Bool Lia ZArith Reals Ring.
From Verif Require Import Num NumInst MatMem Kernels KernelFacts KernelMore KernelStep Backend Slots Exec MatEngine MatGraph MatLeaf MatEval MatDeval MatHist MatSpec MatCalls MatFuel MatCalc RevVals PropMatrix.
Import ListNotations.
Set Implicit Arguments.
Unset Strict Implicit.
Local Open Scope nat_scope.

(** c a number, s a scalar Variable, Parameter or Expression with variables vs. neg and inv are the objects
    that the scalar operators build, (Type)(-1) * s (GenericProduct.hpp:389) and 1 / s. *)
Inductive mixed (T : Type) : Type :=
| NumMinus (c : T) | MinusNum (c : T) | OverNum (c : T)
| ScaMinus (s : obj) (vs : list obj) | MinusSca (s neg : obj) (vs : list obj) | OverSca (s inv : obj) (vs : list obj).
Arguments MinusNum {T} c.
Arguments OverNum {T} c.
Arguments ScaMinus {T} s vs.
Arguments MinusSca {T} s neg vs.
Arguments OverSca {T} s inv vs.

Section Model.
Context {T : Type} {N : Num T}.
(** What the operators build, with node ids id and id': c - M = c + (-1) * M (GenericMatSub.hpp:341-345),
    M - c = M + (-1 * c) (347-352; M + c = c + M, GenericMatSum.hpp:826-830), M / c = (1/c) * M
    (GenericMatProduct.hpp:883-887), s - M = s + (-1) * M (GenericMatSub.hpp:354-359), M - s = M + (-1) * s (361-366),
    M / s = M * (1/s) (GenericMatProduct.hpp:910-915; M * s = s * M, 917-923). *)
Definition build (k : mixed T) (id id' : nat) (e : mexp T) : mexp T :=
  match k with
  | NumMinus c => MUn (USSum c) id (MUn (USProd nm1) id' e)
  | MinusNum c => MUn (USSum (nmul nm1 c)) id e
  | OverNum c => MUn (USProd (ndiv n1 c)) id e
  | ScaMinus s vs => MUn (USSumE s vs) id (MUn (USProd nm1) id' e)
  | MinusSca _ neg vs => MUn (USSumE neg vs) id e
  | OverSca _ inv vs => MUn (USProdE inv vs) id e
  end.
(** The scalar operands are as built: neg has the value and the derivatives of -s, inv the value of 1/s. *)
Definition built (G : graph T) (rho : env T) (k : mixed T) : Prop :=
  match k with
  | NumMinus _ | MinusNum _ | OverNum _ => True
  | ScaMinus s vs => scalar_ok G s vs
  | MinusSca s neg vs => scalar_ok G neg vs /\ e_val rho neg 0 = nmul nm1 (e_val rho s 0) /\ forall x n, e_der rho neg 0 x n = nmul nm1 (e_der rho s 0 x n)
  | OverSca s inv vs => scalar_ok G inv vs /\ e_val rho inv 0 = ndiv n1 (e_val rho s 0)
  end.

(** ** Specification: an entry f of M gives this entry, *)
Definition entry (rho : env T) (k : mixed T) (f : T) : T :=
  match k with
  | NumMinus c => nsub c f
  | MinusNum c => nsub f c
  | OverNum c => nmul f (ndiv n1 c)
  | ScaMinus s _ => nsub (e_val rho s 0) f
  | MinusSca s _ _ => nsub f (e_val rho s 0)
  | OverSca s _ _ => nmul f (ndiv n1 (e_val rho s 0))
  end.
(** and if f has the derivative d by entry n of x, the entry has this one. *)
Definition slope (rho : env T) (k : mixed T) (x n : nat) (f d : T) : T :=
  match k with
  | NumMinus _ => nsub n0 d
  | MinusNum _ => d
  | OverNum c => nmul d (ndiv n1 c)
  | ScaMinus s _ => nsub (e_der rho s 0 x n) d
  | MinusSca s _ _ => nsub d (e_der rho s 0 x n)
  | OverSca s inv _ => nadd (nmul d (ndiv n1 (e_val rho s 0))) (nmul f (e_der rho inv 0 x n))
  end.

Lemma build_rows G k id id' e : rows G (build k id id' e) = rows G e.
Proof. now destruct k. Qed.
Lemma build_cols G k id id' e : cols G (build k id id' e) = cols G e.
Proof. now destruct k. Qed.
Lemma build_fits G rho k id id' e : built G rho k -> fits G e -> fits G (build k id id' e).
Proof. intros B H. destruct k; simpl in *; repeat apply fits_un; try exact H; try exact Logic.I; tauto. Qed.

Variable L : NumLaws N.
Add Ring TRing : (law_ring N L).
Lemma m1_l (u : T) : nmul nm1 u = nopp u.
Proof. rewrite (law_m1 N L). ring. Qed.
Lemma build_den G rho k id id' e F : built G rho k -> den G rho e F ->
  exists F', den G rho (build k id id' e) F' /\ forall i j, F' i j = entry rho k (F i j).
Proof.
  intros B H. destruct k; simpl in *.
  - eexists. split; [apply den_ssum, den_sprod, H|]. intros i j. simpl. rewrite m1_l. ring.
  - eexists. split; [apply den_ssum, H|]. intros i j. simpl. rewrite m1_l. ring.
  - eexists. split; [apply den_sprod, H|]. intros i j. simpl. ring.
  - eexists. split; [apply den_ssume, den_sprod, H|]. intros i j. simpl. rewrite m1_l. ring.
  - eexists. split; [apply den_ssume, H|]. intros i j. simpl. destruct B as (_ & -> & _). rewrite m1_l. ring.
  - eexists. split; [apply den_sprode, H|]. intros i j. simpl. destruct B as (_ & ->). ring.
Qed.
Lemma build_dif G rho k id id' e x F D : built G rho k -> dif G rho x e F D ->
  exists F' D', dif G rho x (build k id id' e) F' D' /\ forall l c i j, D' l c i j = slope rho k x (i * g_cols G x + j) (F l c) (D l c i j).
Proof.
  intros B H. destruct k; simpl in *.
  - do 2 eexists. split; [apply dif_ssum, dif_sprod, H|]. intros. simpl. rewrite m1_l. ring.
  - do 2 eexists. split; [apply dif_ssum, H|]. reflexivity.
  - do 2 eexists. split; [apply dif_sprod, H|]. intros. simpl. ring.
  - do 2 eexists. split; [apply dif_ssume, dif_sprod, H|]. intros. simpl. rewrite m1_l. ring.
  - do 2 eexists. split; [apply dif_ssume, H|]. intros. simpl. destruct B as (_ & _ & ->). rewrite m1_l. ring.
  - do 2 eexists. split; [apply dif_sprode, H|]. intros. simpl. destruct B as (_ & ->). ring.
Qed.
End Model.

(** ** C77 *)
Theorem C77_value : forall {T} {N : Num T}, NumLaws N -> forall (S : sched T), valid_sched S ->
  forall (h : handler) (G : graph T) host rank, wf_graph G host rank ->
  forall s, reached S h G host s ->
  forall (rho : env T) k id id' e, built G rho k -> root host (build k id id' e) -> fits G e -> settled G (build k id id' e) s ->
  forall F, den G rho e F ->
  exists p s', returns S h G (AEval rho (build k id id' e)) s p s' /\
    holds (mm s') p (Mat (rows G e) (cols G e) (fun i j => entry rho k (F i j))) /\ reached S h G host s'.
Proof.
  intros T N L S VS h G host rank WF s R rho k id id' e B Hr Hf Hs F HF.
  destruct (C38_eval L VS WF R rho Hr (build_fits id id' B Hf) Hs) as (F2 & p & s' & HF2 & E & Hp & R').
  exists p, s'. split; [exact E|]. split; [|exact R']. destruct (build_den L id id' B HF) as (F3 & HF3 & Q).
  rewrite (den_det HF2 HF3) in Hp. eapply holds_meq; [exact Hp|]. unfold mat_of. rewrite build_rows, build_cols.
  split; [reflexivity|]. split; [reflexivity|]. intros i j _ _. exact (Q i j).
Qed.
Print Assumptions C77_value.
Theorem C77_jacobian : forall {T} {N : Num T}, NumLaws N -> forall (S : sched T), valid_sched S ->
  forall (G : graph T) host rank, wf_graph G host rank -> distinct_vars G ->
  forall s, reached S HEigen G host s ->
  forall (rho : env T) k id id' e x, built G rho k -> g_kind G x = LVar -> root host (build k id id' e) -> fits G e -> settled G (build k id id' e) s ->
  forall F D, dif G rho x e F D ->
  exists p s', returns S HEigen G (ADevalF rho (build k id id' e) x) s p s' /\ is_mat (mm s') p (rows G e * g_rows G x) (cols G e * g_cols G x) /\
    forall l c i j, l < rows G e -> c < cols G e -> i < g_rows G x -> j < g_cols G x ->
      val (mm s') p (l * g_rows G x + i) (c * g_cols G x + j) = slope rho k x (i * g_cols G x + j) (F l c) (D l c i j).
Proof.
  intros T N L S VS G host rank WF DV s R rho k id id' e x B Xv Hr Hf Hs F D HD.
  destruct (C40_entries L VS WF DV R rho Xv Hr (build_fits id id' B Hf) Hs) as (F2 & D2 & p & s' & HD2 & E & Hm & Hv).
  exists p, s'. split; [exact E|]. destruct (build_dif L id id' B HD) as (F3 & D3 & HD3 & Q).
  destruct (dif_fun_det HD2 HD3) as [_ ->]. rewrite build_rows, build_cols in *. split; [exact Hm|].
  intros l c i j H1 H2 H3 H4. rewrite <- Q. now apply Hv.
Qed.
Print Assumptions C77_jacobian.
(** Over the reals the derivative is the one of calculus: when entry (i,j) of x is t, e has the value Ft t, and the
    scalar operands are as built for every t, DevalF returns the derivatives of c - Ft, Ft - c, Ft / c, s - Ft, Ft - s, Ft / s. *)
Definition curve (rho_ : R -> env R) (k : mixed R) (f : R -> R) (t : R) : R :=
  match k with
  | NumMinus c => c - f t | MinusNum c => f t - c | OverNum c => f t / c
  | ScaMinus s _ => e_val (rho_ t) s 0 - f t | MinusSca s _ _ => f t - e_val (rho_ t) s 0 | OverSca s _ _ => f t / e_val (rho_ t) s 0
  end%R.
Theorem C77_limit : forall (S : sched R), valid_sched S ->
  forall (G : graph R) host rank, wf_graph G host rank -> distinct_vars G ->
  forall s, reached S HEigen G host s ->
  forall k id id' e x i j, g_kind G x = LVar -> i < g_rows G x -> j < g_cols G x ->
  root host (build k id id' e) -> fits G e -> settled G (build k id id' e) s ->
  forall (rho_ : R -> env R) t0, varies G x i j rho_ t0 -> smooth G (rho_ t0) e -> (forall t, built G (rho_ t) k) ->
  forall Ft, (forall t, den G (rho_ t) e (Ft t)) ->
  exists p s', returns S HEigen G (ADevalF (rho_ t0) (build k id id' e) x) s p s' /\
    is_mat (mm s') p (rows G e * g_rows G x) (cols G e * g_cols G x) /\
    forall l c, l < rows G e -> c < cols G e ->
      derivable_pt_lim (curve rho_ k (fun t => Ft t l c)) t0 (val (mm s') p (l * g_rows G x + i) (c * g_cols G x + j)).
Proof.
  intros S VS G host rank WF DV s R k id id' e x i j Xv Hi Hj Hr Hf Hs rho_ t0 V Sm B Ft HFt.
  assert (Sm' : smooth G (rho_ t0) (build k id id' e)) by (destruct k; simpl; repeat (apply sm_un; [|exact Logic.I]); exact Sm).
  destruct (C41_limit VS WF DV R Xv Hi Hj Hr (build_fits id id' (B t0) Hf) Hs V Sm') as (Gt & p & s' & HG & E & Hm & Hl).
  rewrite build_rows, build_cols in *. exists p, s'. split; [exact E|]. split; [exact Hm|]. intros l c Bl Bc. specialize (Hl l c Bl Bc).
  apply (@lim_ext _ (fun t => Gt t l c) t0); [|exact Hl]. intros t. destruct (build_den LawsR id id' (B t) (HFt t)) as (F3 & HF3 & Q).
  rewrite (den_det (HG t) HF3), Q. destruct k; simpl; unfold Rdiv; try reflexivity; now rewrite Rmult_1_l.
Qed.
Print Assumptions C77_limit.

(** ** A concrete program: X = [1 2; 3 4], s = X(0,0) * X(1,1) = 4 (object 1), -s (object 2) *)
Definition df_objs : list (gobj (T := Z)) := [ (LVar, (2, 2)); (LEnt, (1, 1)); (LEnt, (1, 1)) ].
Definition df_graph : graph Z := graph_of df_objs.
Lemma df_wf : wf_graph df_graph (host_of df_objs) (fun o => o).
Proof. solve_wf. Qed.
Definition df_env : env Z := Env (fun o n => match o with 0 => nth n [1; 2; 3; 4]%Z 0%Z | 1 => 4%Z | 2 => (-4)%Z | _ => 0%Z end)
  (fun o _ x n => match o, x with 1, 0 => nth n [4; 0; 0; 1]%Z 0%Z | 2, 0 => nth n [-4; 0; 0; -1]%Z 0%Z | _, _ => 0%Z end).
Example C77_nonvacuous : reached Zin HEigen df_graph (host_of df_objs) (init mem0) /\ fits df_graph (MLeaf 0) /\ distinct_vars df_graph /\
  (forall k, In k [NumMinus 10%Z; MinusNum 10%Z; ScaMinus 1 []; MinusSca 1 2 []] -> built df_graph df_env k /\
    root (host_of df_objs) (build k 60 61 (MLeaf 0)) /\ settled df_graph (build k 60 61 (MLeaf 0)) (init mem0)) /\
  (exists p s', returns Zin HEigen df_graph (AEval df_env (build (MinusSca 1 2 []) 60 61 (MLeaf 0))) (init mem0) p s' /\ entries (mm s') p = Some [-3; -2; -1; 0]%Z) /\
  (exists p s', returns Zin HEigen df_graph (AEval df_env (build (NumMinus 10%Z) 60 61 (MLeaf 0))) (init mem0) p s' /\ entries (mm s') p = Some [9; 8; 7; 6]%Z) /\
  (exists p s', returns Zin HEigen df_graph (ADevalF df_env (build (ScaMinus 1 []) 60 61 (MLeaf 0)) 0) (init mem0) p s' /\
    entries (mm s') p = Some [3; 0; 4; -1; 0; 1; 0; 1; 4; 0; 4; 0; -1; 1; 0; 0]%Z).
Proof.
  split; [constructor; exact tame0|]. split; [now apply fits_leaf|]. split.
  - intros o o' H H' Ne. exfalso. assert (o = 0) by (each o 4; try lia; try discriminate; destruct o; discriminate).
    assert (o' = 0) by (each o' 4; try lia; try discriminate; destruct o'; discriminate). congruence.
  - split; [|split; [|split]].
    + assert (SO : forall o, o = 1 \/ o = 2 -> scalar_ok df_graph o []) by (intros o [-> | ->]; (split; [reflexivity|split; [constructor|intros v []]])).
      assert (DE : forall x n, e_der df_env 2 0 x n = nmul nm1 (e_der df_env 1 0 x n)).
      { intros x n. destruct x; [|reflexivity]. destruct n as [|[|[|[|[|n]]]]]; reflexivity. }
      intros k [<-|[<-|[<-|[<-|[]]]]]; (split; [|split; [split; [repeat constructor; simpl; intuition discriminate|]|apply settled_plain; intros o [<-|[]]; exact Logic.I]]);
        try (intros i Hi; simpl in Hi; repeat (destruct Hi as [<-|Hi]; [reflexivity|]); destruct Hi); simpl; auto.
    + apply (run1 (P := fun p s' => entries (mm s') p = Some [-3; -2; -1; 0]%Z)). vm_compute. reflexivity.
    + apply (run1 (P := fun p s' => entries (mm s') p = Some [9; 8; 7; 6]%Z)). vm_compute. reflexivity.
    + apply (run1 (P := fun p s' => entries (mm s') p = Some [3; 0; 4; -1; 0; 1; 0; 1; 4; 0; 4; 0; -1; 1; 0; 0]%Z)). vm_compute. reflexivity.
Qed.
