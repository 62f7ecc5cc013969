(** * Property C73: the Gauss-Newton example with a matrix of residuals *)
From Coq Require Import List Arith Bool Lia ZArith Reals Lra.
From Verif Require PropGauss.
From Verif Require Import Num NumInst MatMem Kernels KernelFacts KernelProofs KernelBlocks KernelMore Registry KernelStep Backend Slots Exec Sums ConvProofs MatEngine MatGraph MatLeaf MatEval MatDeval MatHist MatSpec MatCalls MatFuel MatAssign EnvExt PropMatrix PropAssign PropStable MatEnough GaussNewton GaussMatrix.
Import ListNotations.
Set Implicit Arguments.
Unset Strict Implicit.
Local Open Scope nat_scope.

(** A program has built its matrices (m holds the data matrices), called Eval and DevalF and
    assigned expressions in any order, and now runs a new GaussNewton object with an OracleMatrix
    for the residual column F and the row of variables x.  solve() comes to its end and has
    performed max_iter Gauss-Newton steps for the residuals and Jacobians F denotes at each data
    row; afterwards the data are as before and every settled expression is still evaluated right. *)
Theorem C73_solve : forall {T} {N : Num T}, NumLaws N -> forall (S : sched T), valid_sched S ->
  forall (m : mem T) (G : graph T) host s, from S HEigen m G host s -> distinct_vars G ->
  forall ent der, (forall n n' : nums T, (forall o j, n o j = n' o j) -> forall o j, ent n o j = ent n' o j) ->
  (forall n n' : nums T, (forall o j, n o j = n' o j) -> forall o j y k, der n o j y k = der n' o j y k) ->
  forall F id e y x, g_kind G F = KExp id e y -> fits G (MLeaf F) -> settled G (MLeaf F) s -> g_kind G x = LVar ->
  g_cols G F = 1 -> g_rows G x = 1 ->
  exists bound, forall fuel, bound <= fuel ->
  forall llt max_iter size dat D num, data_ok G m dat D size ->
  exists h' a' m', matrix_solve S (backend_of S HEigen) G ent der fuel llt dat F x max_iter size (Eng (ar s) (fl s) num, fun _ => None) (mm s) = Ok ((h', a'), m') /\
    gm_path G (entries G ent der) D F x size llt max_iter num (h_num h') /\
    data_ok G m' dat D size /\
    forall rho d, root host d -> fits G d -> settled G d (St m' (h_ar h') (h_fl h')) ->
    exists V p s2, den G rho d V /\ returns S HEigen G (AEval rho d) (St m' (h_ar h') (h_fl h')) p s2 /\ holds (mm s2) p (mat_of G d V).
Proof.
  intros T N L S VS m G host s R DV ent der EE DE F id e y x Hk Hf Hs Xv F1 X1.
  destruct (lived_Inv L VS (from_lived R)) as (I & Ow & rank & WF).
  destruct (Eval_enough S (backend_of S HEigen) WF (MLeaf F)) as (b1 & B1). destruct (DevalF_enough S (backend_of S HEigen) WF (MLeaf F) x) as (b2 & B2).
  exists (max b1 b2). intros fuel Hfu llt max_iter size dat D num HD.
  destruct (from_above L VS R) as (Ln & Ab & Fr).
  assert (Hlt : forall q, In q (map fst dat) -> q < length (objs m)).
  { intros q Hq. exact (data_lt HD Hq). }
  assert (HI : MI G dat D size F num (Eng (ar s) (fl s) num) (fun _ => None) (mm s)).
  { assert (Es : St (mm s) (ar s) (fl s) = s) by (destruct s; reflexivity).
    constructor; cbn [h_ar h_fl h_num]; rewrite ?Es; auto; try discriminate.
    - constructor; [exact (sl_tame (inv_slots I))|discriminate|discriminate|intros q []].
    - refine (data_keep _ HD). intros p v Hp. apply holds_same. apply Fr. auto.
    - intros p k w Hp. split; [discriminate|]. intros E. pose proof (proj1 Ab w p E). specialize (Hlt p Hp). lia. }
  assert (Hd : 0 < g_cols G x) by apply (wf_pos WF).
  destruct (@solve_ok T N L S VS G host rank WF DV ent der EE DE dat D size F x id e y Hk Hf Xv F1 X1 fuel
     (fun rho => B1 rho fuel (Nat.le_trans _ _ _ (Nat.le_max_l _ _) Hfu)) (fun rho => B2 rho fuel (Nat.le_trans _ _ _ (Nat.le_max_r _ _) Hfu)) llt Hd
     max_iter num (Eng (ar s) (fl s) num) (fun _ => None) (mm s) HI) as (h' & a' & m' & num' & E & Pa & I'); try discriminate.
  exists h', a', m'. split; [|split; [|split]].
  - unfold matrix_solve, accepts. rewrite F1, X1, Nat.mul_1_l. exact E.
  - exact (path_end Pa (mi_num I')).
  - exact (mi_data I').
  - intros rho d Rd Fd Sd.
    assert (Oka : act_ok (backend_of S HEigen) G host (AEval rho d)) by (split; [exact Rd|]; split; [exact Fd|exact Logic.I]).
    destruct (act_full L VS WF (mi_inv I') (mi_own I') (a := AEval rho d) Sd Oka) as (p & s2 & E2 & (V & HV & Hp) & _).
    exists V, p, s2. auto.
Qed.
Print Assumptions C73_solve.

(** The oracle is refused when F is not a column or x is not a row. *)
Theorem C73_refused : forall {T} {N : Num T} (S : sched T) B (G : graph T) ent der fuel llt dat F x max_iter size s m,
  g_cols G F <> 1 \/ g_rows G x <> 1 ->
  matrix_solve S B G ent der fuel llt dat F x max_iter size s m = Rejected.
Proof.
  intros. unfold matrix_solve, accepts. destruct (Nat.eqb_spec (g_cols G F) 1), (Nat.eqb_spec (g_rows G x) 1); cbn [andb]; try reflexivity. tauto.
Qed.
Print Assumptions C73_refused.

(** ** Least squares *)
(** Sum of the squares of the residuals at the entries num. *)
Definition cost (G : graph R) read (D : list (mat R * obj)) F x size (num : nums R) (c : R) : Prop :=
  exists V J, (forall i, i < size -> dif G (read (with_row D i num)) x (MLeaf F) (V i) (J i)) /\
    c = sum_n size (fun i => sum_n (g_rows G F) (fun l => Rmult (V i l 0) (V i l 0))).
(** The residuals are affine in the entries of x, with coefficients a and constants c. *)
Definition affine (G : graph R) read (D : list (mat R * obj)) F x size (num : nums R) (a : nat -> nat -> nat -> R) (c : nat -> nat -> R) : Prop :=
  forall num' i V J, (forall o j, o <> x -> ~ datum D o j -> num' o j = num o j) -> i < size ->
    dif G (read (with_row D i num')) x (MLeaf F) V J ->
    forall l, l < g_rows G F -> V l 0 = Rplus (c i l) (sum_n (g_cols G x) (fun k => Rmult (a i l k) (num' x k))) /\
      forall k, k < g_cols G x -> J l 0 0 k = a i l k.

(** One iteration with an exact solver ends at a least-squares solution. *)
Theorem C73_least_squares : forall (G : graph R) read D F x size llt num num' a c,
  (forall j, ~ datum D x j) -> affine G read D F x size num a c ->
  (forall A B, (forall i k, i < g_cols G x -> k < g_cols G x -> A i k = sum_n size (fun u => sum_n (g_rows G F) (fun l => Rmult (a u l i) (a u l k)))) ->
     forall k, k < g_cols G x -> sum_n (g_cols G x) (fun l => Rmult (A k l) (llt (g_cols G x) A B l)) = B k) ->
  gm_path G read D F x size llt 1 num num' ->
  forall num2, (forall o j, o <> x -> ~ datum D o j -> num2 o j = num o j) ->
  forall c' c2, cost G read D F x size num' c' -> cost G read D F x size num2 c2 -> (c' <= c2)%R.
Proof.
  intros G read D F x size llt num num' a c Nx Af Ex Pa num2 H2 c' c2 (V' & J' & HV' & ->) (V2 & J2 & HV2 & ->).
  inversion Pa as [|n nu V J gA gB d num1 nu' VJ XA XB Xd Mv Pa1]; subst. inversion Pa1 as [nu nu' Ed|]; subst. clear Pa Pa1.
  set (R0 := g_rows G F) in *. set (n := g_cols G x) in *.
  assert (M1 : forall k, k < n -> num' x k = (num x k - d k)%R).
  { intros k Hk. rewrite Ed, Mv by auto. rewrite Nat.eqb_refl. cbn [andb]. destruct (Nat.ltb_spec k n); [reflexivity|lia]. }
  assert (M2 : forall o j, o <> x -> ~ datum D o j -> num' o j = num o j).
  { intros o j Ho Hn. rewrite Ed, Mv by auto. destruct (Nat.eqb_spec o x); [congruence|reflexivity]. }
  set (b := fun i l => (c i l + sum_n n (fun k => (a i l k * num x k)%R))%R).
  set (Ja := fun q => Mat 1 n (fun _ k => a (q / R0) (q mod R0) k)).
  set (ra := fun q => b (q / R0) (q mod R0)).
  assert (FlatF : forall f g : nat -> nat -> R, (forall i l, i < size -> l < R0 -> f i l = g i l) ->
     sum_n size (fun i => sum_n R0 (fun l => f i l)) = sum_n (size * R0) (fun q => g (q / R0) (q mod R0))).
  { intros f g Hfg. rewrite (sum_prod LawsR size R0). apply sum_n_ext. intros i Hi. apply sum_n_ext. intros l Hl. rewrite (Hfg i l Hi Hl).
    rewrite (Nat.div_add_l i R0 l) by lia. rewrite (Nat.div_small l) by lia. rewrite (Nat.add_comm (i * R0)), Nat.mod_add, Nat.mod_small by lia. now rewrite Nat.add_0_r. }
  assert (Sv : forall k, k < n -> sum_n n (fun l => Rmult (gram (size * R0) Ja k l) (d l)) = grad (size * R0) Ja (fun i => inl (ra i)) k).
  { intros k Hk.
    assert (EA : forall i k', i < n -> k' < n -> gA i k' = gram (size * R0) Ja i k').
    { intros i k' Hi Hk'. rewrite XA by auto. unfold gram. cbn [Ja mr mf sum_n nadd n0 nmul NumR].
      rewrite (FlatF _ (fun u l => (a u l i * a u l k')%R)); [apply sum_n_ext; intros; cbn [sum_n n0 nadd nmul NumR]; ring|].
      intros u l Hu Hl. cbn [nmul NumR]. rewrite !(fun k Hk => proj2 (Af num u _ _ (fun o j _ _ => eq_refl) Hu (VJ u Hu) l Hl) k Hk) by auto. reflexivity. }
    transitivity (sum_n n (fun l => Rmult (gA k l) (llt n gA gB l))).
    2: { rewrite Ex; [|intros i k' Hi Hk'; rewrite XA by auto|exact Hk].
      + rewrite XB by auto. unfold grad. cbn [as_column].
        rewrite (FlatF _ (fun u l => (b u l * a u l k)%R)); [reflexivity|]. intros u l Hu Hl.
        destruct (Af num u _ _ (fun o j _ _ => eq_refl) Hu (VJ u Hu) l Hl) as [Q1 Q2]. rewrite Q1, Q2 by auto. cbn [nmul NumR]. unfold b. apply Rmult_comm.
      + apply sum_n_ext. intros u Hu. apply sum_n_ext. intros l Hl. cbn [nmul NumR].
        rewrite !(fun k Hk => proj2 (Af num u _ _ (fun o j _ _ => eq_refl) Hu (VJ u Hu) l Hl) k Hk) by auto. reflexivity. }
    apply sum_n_ext. intros l Hl. now rewrite EA, Xd by auto. }
  pose proof (@PropGauss.C51_linear_least_squares (size * R0) n Ja ra d (fun _ => eq_refl) Sv (fun k => (num x k - num2 x k)%R)) as LS.
  assert (Row : forall nm (e : nat -> R) Vn Jn, (forall o j, o <> x -> ~ datum D o j -> nm o j = num o j) ->
     (forall i, i < size -> dif G (read (with_row D i nm)) x (MLeaf F) (Vn i) (Jn i)) -> (forall k, k < n -> nm x k = (num x k - e k)%R) ->
     sum_n size (fun i => sum_n R0 (fun l => Rmult (Vn i l 0) (Vn i l 0))) = sum_n (size * R0) (fun q => Rmult (PropGauss.step_of Ja n ra e q) (PropGauss.step_of Ja n ra e q))).
  { intros nm e Vn Jn Hm HVn He.
    rewrite (FlatF _ (fun i l => ((b i l - sum_n n (fun k => (a i l k * e k)%R)) * (b i l - sum_n n (fun k => (a i l k * e k)%R)))%R)); [reflexivity|].
    intros i l Hi Hl. assert (Q : Vn i l 0 = (b i l - sum_n n (fun k => (a i l k * e k)%R))%R).
    { rewrite (proj1 (Af nm i _ _ Hm Hi (HVn i Hi) l Hl)). fold n. unfold b.
      assert (W : sum_n n (fun k => (a i l k * nm x k)%R) = (sum_n n (fun k => (a i l k * num x k)%R) - sum_n n (fun k => (a i l k * e k)%R))%R).
      { transitivity (sum_n n (fun k => (a i l k * (num x k - e k))%R)); [apply sum_n_ext; intros k Hk; now rewrite He|].
        clear. induction n as [|q IH]; cbn [sum_n nadd n0 NumR]; [ring|]. rewrite IH. ring. }
      rewrite W. ring. }
    now rewrite Q. }
  assert (M3 : forall k, k < n -> num2 x k = (num x k - (num x k - num2 x k))%R) by (intros; ring).
  rewrite (Row num' d V' J' M2 HV' M1), (Row num2 _ V2 J2 H2 HV2 M3). exact LS.
Qed.
Print Assumptions C73_least_squares.

(** ** A concrete instance
    Residual column F = transpose(P % X) - transpose(Q) (% the entrywise product), 2x1, for a row X
    of two variables, P and Q filled from the rows of 2x2 data matrices; X starts at (5, 7). *)
Definition gm_objs {T} : list (gobj (T := T)) :=
  [ (LVar, (1, 2)); (LConst, (1, 2)); (LConst, (1, 2)); (LEye, (1, 1));
    (KExp 40 (MBin BSub 41 (MUn UTr 42 (MBin BHad 43 (MLeaf 1) (MLeaf 0))) (MUn UTr 44 (MLeaf 2))) 3, (2, 1)) ].
Definition gm_graph {T} : graph T := graph_of gm_objs.
Lemma gm_wf : wf_graph (T := Z) gm_graph (host_of (@gm_objs Z)) (fun o => o).
Proof. solve_wf. Qed.
Lemma gm_distinct : distinct_vars (T := Z) gm_graph.
Proof.
  intros o o' H H' Ne. assert (o = 0) by (each o 5; try reflexivity; try discriminate; destruct o; discriminate).
  assert (o' = 0) by (each o' 5; try reflexivity; try discriminate; destruct o'; discriminate). congruence.
Qed.
Lemma gm_fits : fits (T := Z) gm_graph (MLeaf 4).
Proof.
  eapply fits_exp; [reflexivity|]. apply fits_zip; [discriminate| | |reflexivity|reflexivity]; (apply fits_un; [|exact Logic.I]); [|now apply fits_leaf].
  apply fits_zip; [discriminate| | |reflexivity|reflexivity]; now apply fits_leaf.
Qed.
Definition gm_mem : mem Z := mem_of [mk 0 2 2 [1;0;0;1]%Z; mk 1 2 2 [3;0;0;4]%Z].
Lemma gm_tame : tame gm_mem.
Proof.
  split; [|split; [split|]].
  - intros p o H. do 2 (destruct p as [|p]; [injection H as <-; simpl; repeat split; lia|]). destruct p; discriminate.
  - intros p o H. do 2 (destruct p as [|p]; [injection H as <-; simpl; split; [reflexivity|lia]|]). destruct p; discriminate.
  - intros p q o o' H H'. do 2 (destruct p as [|p]; [injection H as <-; do 2 (destruct q as [|q]; [injection H' as <-; simpl; congruence|]); destruct q; discriminate|]). destruct p; discriminate.
  - intros k sp R C p [].
Qed.
Definition gm_diag {T} (z a b : T) : mat T := Mat 2 2 (fun i j => if i =? j then (if i =? 0 then a else b) else z).
Definition gm_D : list (mat Z * obj) := [(gm_diag 0%Z 1%Z 1%Z, 1); (gm_diag 0%Z 3%Z 4%Z, 2)].
Lemma gm_ok : data_ok gm_graph gm_mem [(0, 1); (1, 2)] gm_D 2.
Proof.
  constructor; [|constructor; [|constructor]]; cbn [fst snd]; (split; [|split; [reflexivity|split; vm_compute; lia]]);
    (split; [eexists _, _, _; split; reflexivity|]); cbn [mr mc gm_diag]; intros i j Hi Hj;
    (destruct i as [|[|i]]; [| |lia]); (destruct j as [|[|j]]; [reflexivity|reflexivity|lia]).
Qed.
Definition gm_num : nums Z := fun o j => match o, j with 0, 0 => 5%Z | 0, 1 => 7%Z | _, _ => 0%Z end.
Definition zero_ent : nums Z -> obj -> nat -> Z := fun _ _ _ => 0%Z.
Definition zero_der : nums Z -> obj -> nat -> obj -> nat -> Z := fun _ _ _ _ _ => 0%Z.
Definition same (dim : nat) (A : nat -> nat -> Z) (B : nat -> Z) (k : nat) : Z := B k.

(** All hypotheses of [C73_solve] hold; A is the identity, and one step with the solver for it goes
    to X = (3, 4). *)
Example C73_nonvacuous :
  from Zin HEigen gm_mem gm_graph (host_of (@gm_objs Z)) (init gm_mem) /\ distinct_vars (T := Z) gm_graph /\ fits (T := Z) gm_graph (MLeaf 4) /\
  settled gm_graph (MLeaf 4) (init gm_mem) /\ data_ok gm_graph gm_mem [(0, 1); (1, 2)] gm_D 2 /\
  exists h' a' m', matrix_solve Zin (backend_of Zin HEigen) gm_graph zero_ent zero_der 20 same [(0, 1); (1, 2)] 4 0 1 2
      (Eng (ar (init gm_mem)) (fl (init gm_mem)) gm_num, fun _ => None) gm_mem = Ok ((h', a'), m') /\
    h_num h' 0 0 = 3%Z /\ h_num h' 0 1 = 4%Z.
Proof.
  split; [exact (from_init Zin HEigen gm_wf gm_tame)|]. split; [exact gm_distinct|]. split; [exact gm_fits|].
  split; [apply untouched_settled; intros o _ _; reflexivity|]. split; [exact gm_ok|].
  assert (Q : match matrix_solve Zin (backend_of Zin HEigen) gm_graph zero_ent zero_der 20 same [(0, 1); (1, 2)] 4 0 1 2
      (Eng (ar (init gm_mem)) (fl (init gm_mem)) gm_num, fun _ => None) gm_mem with
     | Ok ((h', a'), m') => h_num h' 0 0 = 3%Z /\ h_num h' 0 1 = 4%Z | _ => False end) by (vm_compute; split; reflexivity).
  destruct (matrix_solve _ _ _ _ _ _ _ _ _ _ _ _ _ _) as [[[h' a'] m']| |]; try contradiction. exists h', a', m'. split; [reflexivity|exact Q].
Qed.

(** The same residuals over the reals are affine in X. *)
Definition gm_DR : list (mat R * obj) := [(gm_diag 0%R 1%R 1%R, 1); (gm_diag 0%R 3%R 4%R, 2)].
Example C73_least_squares_nonvacuous : forall num,
  affine (gm_graph (T := R)) (entries gm_graph (fun _ _ _ => 0%R) (fun _ _ _ _ _ => 0%R)) gm_DR 4 0 2 num
    (fun i l k => if i =? l then if l =? k then 1 else 0 else 0)%R (fun i l => if i =? l then (if i =? 0 then -3 else -4) else 0)%R.
Proof.
  intros num num' i V J Hn Hi HJ.
  inversion HJ as [o F0 Hc| | |o id e y F0 D0 Hk HD| | | | | | | | | | | |]; subst; try (destruct Hc; discriminate); try discriminate.
  injection Hk as <- <- <-. inversion HD as [| | | | |id l r Fa Da Fb Db Ha Hb| | | | | | | | | |]; subst.
  inversion Ha as [| | | | | | | |id e Fc Dc Hc| | | | | | |]; subst. inversion Hb as [| | | | | | | |id e Fd Dd Hd| | | | | | |]; subst.
  inversion Hc as [| | | | | |id l r Fe De Ff Df He Hf| | | | | | | | |]; subst. clear HJ HD Ha Hb Hc.
  assert (Lv : forall o (Fo : nat -> nat -> R), o < 3 -> den gm_graph (entries gm_graph (fun _ _ _ => 0%R) (fun _ _ _ _ _ => 0%R) (with_row gm_DR i num')) (MLeaf o) Fo ->
     Fo = fun a b => with_row gm_DR i num' o (a * 2 + b)).
  { intros o Fo Ho HF. destruct o as [|[|[|o]]]; [| | |lia]; inversion HF; subst; try discriminate; reflexivity. }
  assert (Dv : forall o F0 D0, o < 3 -> dif gm_graph (entries gm_graph (fun _ _ _ => 0%R) (fun _ _ _ _ _ => 0%R) (with_row gm_DR i num')) 0 (MLeaf o) F0 D0 ->
     F0 = (fun a b => with_row gm_DR i num' o (a * 2 + b)) /\
     forall l k i j, D0 l k i j = if (o =? 0) && (l =? i) && (k =? j) then 1%R else 0%R).
  { intros o F0 D0 Ho H. destruct o as [|[|[|o]]]; [| | |lia]; inversion H; subst; try discriminate; try (match goal with Q : is_const _ 0 |- _ => destruct Q; discriminate end);
      (split; [apply Lv; [lia|assumption]|reflexivity]). }
  destruct (Dv 1 _ _ ltac:(lia) He) as [-> Ee]. destruct (Dv 0 _ _ ltac:(lia) Hf) as [-> Ef]. destruct (Dv 2 _ _ ltac:(lia) Hd) as [-> Ed].
  change (g_rows gm_graph 4) with 2. change (g_cols gm_graph 0) with 2. intros l Hl.
  split.
  - destruct i as [|[|i]]; [| |lia]; (destruct l as [|[|l]]; [| |lia]); cbn; ring.
  - intros k Hk. cbv beta. rewrite Ee, Ef, Ed.
    destruct i as [|[|i]]; [| |lia]; (destruct l as [|[|l]]; [| |lia]); (destruct k as [|[|k]]; [| |lia]); cbn; ring.
Qed.
