(** * Property C45: the derived matrix functions *)
From Coq Require Import List Arith Bool Lia ZArith Reals Lra Cantor.
From Verif Require Import Num NumInst MatMem Kernels KernelFacts KernelProofs KernelBlocks KernelMore Registry KernelStep Backend Slots Exec Sums ConvDerv MatEngine MatGraph MatLeaf MatEval MatDeval MatHist MatSpec MatCalls MatFuel MatCalc Calculus Activation MatFunSpec MatFun MatFunOk PropMatrix.
Import ListNotations.
Set Implicit Arguments.
Unset Strict Implicit.
Local Open Scope nat_scope.

(** Log and Sqrt where they are real functions: what they return elsewhere is left open. *)
Definition log_sqrt (lg dlg sq dsq : R -> R) : Prop :=
  (forall x, (0 < x)%R -> lg x = ln x /\ derivable_pt_lim lg x (dlg x)) /\
  (forall x, (0 <= x)%R -> sq x = sqrt x) /\ (forall x, (0 < x)%R -> derivable_pt_lim sq x (dsq x)).
(** The library's Log, DLog, Sqrt, DSqrt are such functions. *)
Lemma library_log_sqrt : log_sqrt (cfun_val CLog) (cfun_val CDLog) (cfun_val CSqrt) (cfun_val CDSqrt).
Proof.
  split; [|split]; [|reflexivity|]; intros x H; [split; [reflexivity|exact (table_ok Activation.LogM x H Logic.I)]|exact (table_ok Activation.SqrtM x H Logic.I)].
Qed.

Lemma settled_parts {T} (G : graph T) e (ms : list nat) s : (forall o, In o (leaves e) -> is_leaf G o \/ In o ms) ->
  (forall o, In o ms -> settled G (MLeaf o) s) -> settled G e s.
Proof.
  intros Hl Hm o id a y o' Ho Hk Hv Hin Ne.
  assert (Q : exists u, In u ms /\ reach G (MLeaf u) o).
  { clear Hv Hin Ne. revert id a y Hk. induction Ho as [o Ho|o id1 a1 y1 o2 Ho IH Hk1 Hin1]; intros id a y Hk.
    - destruct (Hl o Ho) as [L|M]; [unfold is_leaf in L; rewrite Hk in L; tauto|]. exists o. split; [exact M|]. apply reach_leaf. now left.
    - destruct (IH _ _ _ Hk1) as (u & Mu & Ru). exists u. split; [exact Mu|]. eapply reach_item; eauto. }
  destruct Q as (u & Mu & Ru). exact (Hm u Mu o id a y o' Ru Hk Hv Hin Ne).
Qed.

(** K: the registered matrices; V o: the entries of matrix object o; n: the next free node
    number; d: any program of calls that makes sense (fok).  In every state s the program
    can be in, building d succeeds and evaluating the result returns the matrix of d. *)
Theorem C45_values : forall (S : sched R), valid_sched S ->
  forall (h : handler) (G : graph R) host rank, wf_graph G host rank ->
  forall s, reached S h G host s ->
  forall rho K, lib_ok G rho K -> forall lg dlg sq dsq, log_sqrt lg dlg sq dsq ->
  forall (V : nat -> nat -> nat -> R) d,
  (forall o, In o (fmats d) -> fits G (MLeaf o) /\ den G rho (MLeaf o) (V o) /\ settled G (MLeaf o) s) ->
  fok (g_rows G) (g_cols G) V d ->
  forall n, (forall i, n <= i -> host i = None) ->
  exists e n', make G K lg dlg sq dsq d n = Some (e, n') /\
    exists p s', returns S h G (AEval rho e) s p s' /\
      holds (mm s') p (Mat (frows (g_rows G) (g_cols G) d) (fcols (g_rows G) (g_cols G) d) (fval (g_rows G) (g_cols G) V d)) /\
      reached S h G host s'.
Proof.
  intros S VS h G host rank WF s Rs rho K HK lg dlg sq dsq (LG & SQ & DSQ) V d Hm Hok n Hn.
  assert (M : makes G (fun _ => rho) 0%R False (fmats d) (make G K lg dlg sq dsq d) (frows (g_rows G) (g_cols G) d) (fcols (g_rows G) (g_cols G) d) (fun t => fval (g_rows G) (g_cols G) V d)).
  { apply (make_ok WF (rho_ := fun _ => rho) (fun _ => HK) LG SQ DSQ (fun e He _ => cont_const rho 0%R He) (V_ := fun _ => V)); [|exact Hok|tauto].
    intros o Ho. destruct (Hm o Ho) as (A & B & _). split; [exact Ho|]. split; [exact A|]. split; [auto|intros []]. }
  destruct (M n) as (e & n' & E & Le & Nd & Ie & Gd). exists e, n'. split; [exact E|].
  destruct (C38_eval LawsR VS WF Rs rho (e := e)) as (F & p & s' & HF & Rt & Hp & Rs').
  - split; [exact Nd|]. intros i Hi. apply Hn. apply Ie in Hi. lia.
  - exact (gd_fits Gd).
  - eapply settled_parts; [exact (gd_leaves Gd)|]. intros o Ho. now apply Hm.
  - exists p, s'. split; [exact Rt|]. split; [|exact Rs']. eapply holds_meq; [exact Hp|].
    split; [exact (gd_rows Gd)|]. split; [exact (gd_cols Gd)|]. simpl. rewrite (gd_rows Gd), (gd_cols Gd). exact (good_here Gd HF).
Qed.
Print Assumptions C45_values.

(** Derivatives: entry (i,j) of the variable matrix x is t; V_ t are the entries of the
    matrix objects then.  DevalF of the built expression by x holds the derivatives of the
    entries of d, where d is differentiable (fsmooth). *)
Theorem C45_derivatives : forall (S : sched R), valid_sched S ->
  forall (G : graph R) host rank, wf_graph G host rank -> distinct_vars G ->
  forall s, reached S HEigen G host s ->
  forall x i j, g_kind G x = LVar -> i < g_rows G x -> j < g_cols G x ->
  forall rho_ t0, varies G x i j rho_ t0 ->
  forall K, lib_ok G (rho_ t0) K -> forall lg dlg sq dsq, log_sqrt lg dlg sq dsq ->
  forall (V_ : R -> nat -> nat -> nat -> R) d,
  (forall o, In o (fmats d) -> fits G (MLeaf o) /\ (forall t, den G (rho_ t) (MLeaf o) (V_ t o)) /\ MatCalc.smooth G (rho_ t0) (MLeaf o) /\ settled G (MLeaf o) s) ->
  fok (g_rows G) (g_cols G) (V_ t0) d -> fsmooth (g_rows G) (g_cols G) (V_ t0) d ->
  forall n, (forall i, n <= i -> host i = None) ->
  exists e n', make G K lg dlg sq dsq d n = Some (e, n') /\
    exists p s', returns S HEigen G (ADevalF (rho_ t0) e x) s p s' /\
      is_mat (mm s') p (frows (g_rows G) (g_cols G) d * g_rows G x) (fcols (g_rows G) (g_cols G) d * g_cols G x) /\
      forall l k, l < frows (g_rows G) (g_cols G) d -> k < fcols (g_rows G) (g_cols G) d ->
        derivable_pt_lim (fun t => fval (g_rows G) (g_cols G) (V_ t) d l k) t0 (val (mm s') p (l * g_rows G x + i) (k * g_cols G x + j)).
Proof.
  intros S VS G host rank WF DV s Rs x i j Xv Hi Hj rho_ t0 Va K HK lg dlg sq dsq (LG & SQ & DSQ) V_ d Hm Hok Hsm n Hn.
  assert (M : makes G rho_ t0 True (fmats d) (make G K lg dlg sq dsq d) (frows (g_rows G) (g_cols G) d) (fcols (g_rows G) (g_cols G) d) (fun t => fval (g_rows G) (g_cols G) (V_ t) d)).
  { apply (make_ok WF (lib_varies Va HK) LG SQ DSQ (fun e He Hs => cont_varies WF Hi Hj Va He (Hs Logic.I))); [|exact Hok|auto].
    intros o Ho. destruct (Hm o Ho) as (A & B & C & _). auto. }
  destruct (M n) as (e & n' & E & Le & Nd & Ie & Gd). exists e, n'. split; [exact E|].
  assert (Rt0 : root host e) by (split; [exact Nd|intros q Hq; apply Hn; apply Ie in Hq; lia]).
  assert (St : settled G e s) by (eapply settled_parts; [exact (gd_leaves Gd)|intros o Ho; now apply Hm]).
  destruct (C41_limit VS WF DV Rs Xv Hi Hj Rt0 (gd_fits Gd) St Va (gd_smooth Gd Logic.I)) as (Ft & p & s' & HF & Rt & Im & Hl).
  exists p, s'. split; [exact Rt|]. rewrite (gd_rows Gd), (gd_cols Gd) in Im. split; [exact Im|]. intros l k Bl Bk.
  destruct (gd_val Gd) as (del & Pd & Q).
  apply (dlim_loc (fun t => Ft t l k) (fun t => fval (g_rows G) (g_cols G) (V_ t) d l k) t0 _ del Pd).
  - intros t Ht. destruct (Q t Ht) as (F & HF' & EF). rewrite <- EF by auto. now rewrite (den_det (HF t) HF').
  - apply Hl; [now rewrite (gd_rows Gd)|now rewrite (gd_cols Gd)].
Qed.
Print Assumptions C45_derivatives.

(** ** What the functions do not do *)
(** The element-wise quotient is exp(log x - log y): whatever Log returns for non-positive
    numbers, the result is positive, so it is not x / y where x / y is zero or negative. *)
Theorem C45_quotient_refuted : forall (S : sched R), valid_sched S ->
  forall (h : handler) (G : graph R) host rank, wf_graph G host rank ->
  forall s, reached S h G host s ->
  forall rho (lg dlg : R -> R) o o' n, is_leaf G o -> is_leaf G o' -> g_rows G o = g_rows G o' -> g_cols G o = g_cols G o' ->
  (forall i, n <= i -> host i = None) ->
  forall F F' i j, den G rho (MLeaf o) F -> den G rho (MLeaf o') F' -> i < g_rows G o -> j < g_cols G o -> (F i j / F' i j <= 0)%R ->
  exists e n', quotient G lg dlg (MLeaf o) (MLeaf o') n = Some (e, n') /\
    exists p s', returns S h G (AEval rho e) s p s' /\ is_mat (mm s') p (g_rows G o) (g_cols G o) /\
      (0 < val (mm s') p i j)%R /\ val (mm s') p i j <> (F i j / F' i j)%R.
Proof.
  intros S VS h G host rank WF s Rs rho lg dlg o o' n Lo Lo' Er Ec Hn F F' i j HF HF' Hi Hj Neg.
  assert (Gl : forall u, is_leaf G u -> forall Fu, den G rho (MLeaf u) Fu -> good G (fun _ => rho) 0%R False [] (MLeaf u) (g_rows G u) (g_cols G u) (fun _ => Fu)).
  { intros u Lu Fu HFu. split; auto.
    - now apply fits_leaf.
    - apply near_all. intros _. exists Fu. auto.
    - intros [].
    - intros v [<-|[]]. auto. }
  pose proof (Gl o Lo F HF) as Gx. pose proof (Gl o' Lo' F' HF') as Gy. rewrite <- Er, <- Ec in Gy.
  assert (M : makes G (fun _ => rho) 0%R False [] (quotient G lg dlg (MLeaf o) (MLeaf o')) (g_rows G o) (g_cols G o) (fun _ i j => exp (lg (F i j) - lg (F' i j)))).
  { apply makes_assert; [apply andb_true_intro; split; apply Nat.eqb_eq; assumption|].
    eapply makes_bind; [apply makes_un; intros id; apply good_fun; [exact Gx|intros []]|]. intros e He.
    eapply makes_bind; [apply makes_un; intros id; apply good_fun; [exact Gy|intros []]|]. intros e' He'.
    eapply makes_bind; [apply makes_bin; intros id; apply good_sub; [exact He|exact He']|]. intros e2 He2.
    apply makes_un. intros id. apply (good_fun id He2). intros []. }
  destruct (M n) as (e & n' & E & Le & Nd & Ie & Gd). exists e, n'. split; [exact E|].
  destruct (C38_eval LawsR VS WF Rs rho (e := e)) as (F2 & p & s' & HF2 & Rt & Hp & Rs').
  - split; [exact Nd|]. intros q Hq. apply Hn. apply Ie in Hq. lia.
  - exact (gd_fits Gd).
  - apply settled_plain. intros u Hu. destruct (gd_leaves Gd Hu) as [L|[]]. exact L.
  - exists p, s'. split; [exact Rt|]. destruct Hp as (Im & Hv). simpl in Im, Hv. rewrite (gd_rows Gd), (gd_cols Gd) in Im, Hv. split; [exact Im|].
    rewrite Hv by auto. rewrite (good_here Gd HF2) by auto. pose proof (exp_pos (lg (F i j) - lg (F' i j))). split; [exact H|lra].
Qed.
Print Assumptions C45_quotient_refuted.

(** MatrixExp<N> divides by a factorial computed in 64 bits.  For N = 21 the result is not
    the truncated series, for any 1 x 1 matrix other than zero; from N = 66 on the divisor
    is zero. *)
Lemma power_1 (f : nat -> nat -> R) k : power 1 f k 0 0 = (f 0%nat 0%nat ^ k)%R.
Proof. induction k as [|k IH]; [reflexivity|]. simpl. simpl in IH. rewrite IH. ring. Qed.
Lemma Factorial_21 : IZR (Factorial 21) <> INR (fact 21).
Proof.
  rewrite INR_IZR_INZ, <- zfact_fact. intros H. apply eq_IZR in H. vm_compute in H. discriminate.
Qed.
Lemma Factorial_21_pos : IZR (Factorial 21) <> 0%R.
Proof. apply (not_0_IZR (Factorial 21)). vm_compute. discriminate. Qed.
Theorem C45_exponential_refuted : forall (S : sched R), valid_sched S ->
  forall (h : handler) (G : graph R) host rank, wf_graph G host rank ->
  forall s, reached S h G host s ->
  forall rho K, lib_ok G rho K -> forall o n, is_leaf G o -> g_rows G o = 1 -> g_cols G o = 1 -> (forall i, n <= i -> host i = None) ->
  forall F, den G rho (MLeaf o) F -> F 0 0 <> 0%R ->
  exists e n', MatrixExp G K 21 (MLeaf o) n = Some (e, n') /\
    exists p s', returns S h G (AEval rho e) s p s' /\ is_mat (mm s') p 1 1 /\
      val (mm s') p 0 0 <> total 22 (fun k => F 0%nat 0%nat ^ k / INR (fact k))%R.
Proof.
  intros S VS h G host rank WF s Rs rho K HK o n Lo Er Ec Hn F HF Nz.
  assert (Gx : good G (fun _ => rho) 0%R False [] (MLeaf o) 1 1 (fun _ => F)).
  { split; auto.
    - now apply fits_leaf.
    - apply near_all. intros _. exists F. auto.
    - intros [].
    - intros v [<-|[]]. auto. }
  pose proof (makes_mexp_any WF (fun _ => HK) 21 Gx) as M.
  destruct (M n) as (e & n' & E & Le & Nd & Ie & Gd). exists e, n'. split; [exact E|].
  destruct (C38_eval LawsR VS WF Rs rho (e := e)) as (F2 & p & s' & HF2 & Rt & Hp & Rs').
  - split; [exact Nd|]. intros q Hq. apply Hn. apply Ie in Hq. lia.
  - exact (gd_fits Gd).
  - apply settled_plain. intros u Hu. destruct (gd_leaves Gd Hu) as [L|[]]. exact L.
  - exists p, s'. split; [exact Rt|]. destruct Hp as (Im & Hv). simpl in Im, Hv. rewrite (gd_rows Gd), (gd_cols Gd) in Im, Hv. split; [exact Im|].
    rewrite Hv by lia. rewrite (good_here Gd HF2) by lia. change (total 22 ?u) with (total 21%nat u + u 21%nat)%R. cbv beta. rewrite power_1. intros H.
    rewrite (total_ext (g := fun k => F 0%nat 0%nat ^ k / INR (fact k))%R) in H by (intros k Hk; now rewrite power_1, Factorial_ok by lia).
    apply Rplus_eq_reg_l in H. unfold Rdiv in H. apply Rmult_eq_reg_l in H; [|now apply pow_nonzero].
    apply Factorial_21. rewrite <- (Rinv_inv (IZR (Factorial 21))), H, Rinv_inv. reflexivity.
Qed.
Print Assumptions C45_exponential_refuted.
Theorem C45_factorial_wraps : (forall n, (n <= 20)%nat -> Factorial n = Z.of_nat (fact n)) /\
  (forall n, (n <= 65)%nat -> Factorial n <> 0%Z) /\ (forall n, (66 <= n)%nat -> Factorial n = 0%Z).
Proof.
  split; [intros n H; now rewrite <- zfact_fact, Factorial_zfact|]. split.
  - intros n H. do 66 (destruct n as [|n]; [vm_compute; discriminate|]). lia.
  - intros n H. induction H as [|n H IH]; [vm_compute; reflexivity|]. cbn [Factorial]. rewrite IH, Z.mul_0_r. reflexivity.
Qed.
Print Assumptions C45_factorial_wraps.

(** The shape checks: a call with operands of the wrong shape fails an ASSERT. *)
Theorem C45_shapes_checked : forall (G : graph R) K lg dlg X Y n,
  (~ (rows G X = rows G Y /\ cols G X = cols G Y) -> quotient G lg dlg X Y n = None) /\
  (cols G X <> cols G Y -> concat G K VERTICAL X Y n = None) /\
  (rows G X <> rows G Y -> concat G K HORIZONTAL X Y n = None) /\
  (rows G X <> cols G X -> trace G K X n = None /\ forall k, pow G K k X n = None /\ MatrixExp G K k X n = None /\ MatrixLog G K k X n = None) /\
  (rows G X <> 1 -> cols G X <> 1 -> forall ax k, broadcast G K ax X k n = None).
Proof.
  intros G K lg dlg X Y n. split; [|split; [|split; [|split]]].
  - intros H. unfold quotient, bbind, bassert. destruct (Nat.eqb_spec (rows G X) (rows G Y)), (Nat.eqb_spec (cols G X) (cols G Y)); try reflexivity. tauto.
  - intros H. apply Nat.eqb_neq in H. unfold concat, bbind, bassert. now rewrite H.
  - intros H. apply Nat.eqb_neq in H. unfold concat, bbind, bassert. now rewrite H.
  - intros H. apply Nat.eqb_neq in H. unfold trace, bbind, bassert. rewrite H. split; [reflexivity|].
    intros [|k]; cbn [pow MatrixExp MatrixLog]; unfold bbind, bassert; rewrite H; auto.
  - intros H H' ax k. apply Nat.eqb_neq in H, H'. unfold broadcast, bbind, bassert. now rewrite H, H'.
Qed.
Print Assumptions C45_shapes_checked.
Lemma checked_prod (G : graph R) id l r : checked G (MBin BProd id l r) -> checked G l /\ cols G l = rows G r.
Proof. intros H. inversion H; subst; auto; congruence. Qed.
(** broadcast with its default axis accepts any row or column, but the expression it builds
    is rejected by every evaluation unless the matrix is 1 x 1. *)
Theorem C45_broadcast_refuted : forall (S : sched R) (h : handler) (G : graph R) rho K o n k,
  g_cols G (l_ones K k 1) = 1 -> g_rows G (l_ones K 1 k) = 1 ->
  (g_rows G o = 1 /\ g_cols G o <> 1) \/ (g_rows G o <> 1 /\ g_cols G o = 1) ->
  exists e n', broadcast G K ALL (MLeaf o) k n = Some (e, n') /\
    forall f s p s', Eval S (backend_of S h) G rho f e s <> EOk (p, s').
Proof.
  intros S h G rho K o n k O2 O3 H.
  assert (A : (g_cols G o =? 1) || (g_rows G o =? 1) = true).
  { apply orb_true_iff. rewrite !Nat.eqb_eq. tauto. }
  unfold broadcast, bbind, bassert. cbn [rows cols]. rewrite A. do 2 eexists. split; [reflexivity|].
  intros f s p s' E. apply C38_rejects in E. apply checked_prod in E. destruct E as (Cl & Q). apply checked_prod in Cl. destruct Cl as (_ & Q').
  change (g_cols G (l_ones K k 1) = g_rows G o) in Q'. change (g_cols G o = g_rows G (l_ones K 1 k)) in Q. lia.
Qed.
Print Assumptions C45_broadcast_refuted.

(** ** A concrete program *)
(** A graph with a 2 x 2 variable matrix X (object 0) and all registered matrices. *)
Definition decode (o : obj) : option (nat * (nat * nat)) :=
  match o with 0 => None | Datatypes.S m => let (tag, q) := of_nat m in Some (tag, of_nat q) end.
Definition encode (tag r c : nat) : obj := Datatypes.S (to_nat (tag, to_nat (r, c))).
Lemma decode_encode tag r c : decode (encode tag r c) = Some (tag, (r, c)).
Proof. unfold decode, encode. rewrite cancel_of_to, cancel_of_to. reflexivity. Qed.
Definition fx_dims (o : obj) : nat * nat :=
  match decode o with
  | None => (2, 2)
  | Some (0, (r, c)) => (r, c)
  | Some (1, (r, _)) | Some (2, (r, _)) => (r, r)
  | Some (3, (a, b)) => (a + b, a) | Some (4, (a, b)) => (a + b, b)
  | Some (5, (a, b)) => (a, a + b) | Some (6, (a, b)) => (b, a + b)
  | _ => (1, 1)
  end.
Definition fx_graph : graph R :=
  Graph (fun o => match decode o with None => LVar | Some (1, _) => LEye | Some _ => LConst end)
        (fun o => Nat.max 1 (fst (fx_dims o))) (fun o => Nat.max 1 (snd (fx_dims o))) (fun o => o) (fun o n => n).
Definition fx_lib : lib :=
  Lib (encode 0) (fun n => encode 1 n n) (fun n => encode 2 n n) (encode 3) (encode 4) (encode 5) (encode 6).
(** X = [t 2; 3 5]. *)
Definition fx_env (t : R) : env R :=
  Env (fun o n => match decode o with
       | None => match n with 0 => t | 1 => 2%R | 2 => 3%R | _ => 5%R end
       | Some (0, _) => 1%R
       | Some (2, _) => 0%R
       | Some (3, (a, _)) => delta (n / a) (n mod a)
       | Some (4, (a, b)) => delta (n / b) (a + n mod b)
       | Some (5, (a, b)) => delta (n / (a + b)) (n mod (a + b))
       | Some (6, (a, b)) => delta (a + n / (a + b)) (n mod (a + b))
       | _ => 0%R
       end) (fun _ _ _ _ => 0%R).
Lemma fx_wf : wf_graph fx_graph (fun _ => None) (fun o => o).
Proof.
  split.
  - intros o. cbn [g_rows g_cols fx_graph]. lia.
  - intros o id e y o' H. simpl in H. destruct (decode o) as [[[|[|tag]] q]|]; discriminate.
  - intros o id e y H. simpl in H. destruct (decode o) as [[[|[|tag]] q]|]; discriminate.
  - intros o id e y H. simpl in H. destruct (decode o) as [[[|[|tag]] q]|]; discriminate.
  - intros o id e y H. simpl in H. destruct (decode o) as [[[|[|tag]] q]|]; discriminate.
Qed.
Lemma fx_lib_ok t : lib_ok fx_graph (fx_env t) fx_lib.
Proof.
  split; intros; cbn [g_kind g_rows g_cols fx_graph fx_lib l_ones l_eye l_zeros l_top l_bottom l_left l_right e_val fx_env]; unfold fx_dims;
    rewrite !decode_encode; (split; [reflexivity|]); (split; [cbn [fst snd]; lia|]);
    [..|idtac]; try (cbn [fst snd]; lia); (split; [cbn [fst snd]; lia|]); intros i j Hi Hj; cbn [fst snd].
  - reflexivity.
  - reflexivity.
  - destruct (divmod_block i Hj) as [E1 E2]. now rewrite E1, E2.
  - destruct (divmod_block i Hj) as [E1 E2]. now rewrite E1, E2.
  - destruct (divmod_block i Hj) as [E1 E2]. now rewrite E1, E2.
  - destruct (divmod_block i Hj) as [E1 E2]. now rewrite E1, E2.
Qed.
Definition fx_val (t : R) (o : nat) : nat -> nat -> R := fun i j => e_val (fx_env t) o (i * g_cols fx_graph o + j).
(** norm of [ X / exp(X) | SoftMax<ROW>(X) * MatrixExp<20>(MatrixLog<3>(X)) ]. *)
Definition fx_prog : fexp :=
  XFrob (XConcat HORIZONTAL (XQuot (XMat 0) (XFun exp exp (XMat 0))) (XMul (XSoftMax ROW (XMat 0)) (XExp 20 (XLog 3 (XMat 0))))).
Lemma fx_entry i j : (0 < fx_val 1 0 i j)%R.
Proof. unfold fx_val. cbn [e_val fx_env decode]. generalize (i * g_cols fx_graph 0 + j). intros [|[|[|n]]]; lra. Qed.
Lemma fx_fok : fok (g_rows fx_graph) (g_cols fx_graph) (fx_val 1) fx_prog.
Proof.
  cbn [fx_prog fok]. repeat split; try lia; try apply fx_entry; try apply exp_pos.
Qed.
Lemma fx_fsmooth : fsmooth (g_rows fx_graph) (g_cols fx_graph) (fx_val 1) fx_prog.
Proof.
  cbn [fx_prog fsmooth]. split; [split; [split; [exact Logic.I|split; [exact Logic.I|intros; apply derivable_pt_lim_exp]]|tauto]|].
  exists 0, 0. split; [cbn; lia|]. split; [cbn; lia|].
  cbn [fval]. change (0 <? fcols (g_rows fx_graph) (g_cols fx_graph) (XQuot (XMat 0) (XFun exp exp (XMat 0)))) with true. cbv iota beta.
  cbn [fval]. apply Rgt_not_eq. apply Rdiv_lt_0_compat; [apply fx_entry|apply exp_pos].
Qed.
Lemma fx_var o : g_kind fx_graph o = LVar -> o = 0.
Proof. simpl. destruct o as [|o]; [reflexivity|]. unfold decode. destruct (of_nat o) as [[|[|tag]] q]; discriminate. Qed.
Example C45_nonvacuous :
  wf_graph fx_graph (fun _ => None) (fun o => o) /\ distinct_vars fx_graph /\
  (forall h, reached (in_order (T := R)) h fx_graph (fun _ => None) (init memR)) /\ (forall t, lib_ok fx_graph (fx_env t) fx_lib) /\
  varies fx_graph 0 0 0 fx_env 1%R /\ fok (g_rows fx_graph) (g_cols fx_graph) (fx_val 1) fx_prog /\ fsmooth (g_rows fx_graph) (g_cols fx_graph) (fx_val 1) fx_prog /\
  (forall o, In o (fmats fx_prog) -> fits fx_graph (MLeaf o) /\ (forall t, den fx_graph (fx_env t) (MLeaf o) (fx_val t o)) /\
     MatCalc.smooth fx_graph (fx_env 1) (MLeaf o) /\ settled fx_graph (MLeaf o) (init memR)) /\
  frows (g_rows fx_graph) (g_cols fx_graph) fx_prog = 1 /\
  (** trace(pow<2>(X)) = 38 for X = [1 2; 3 5] *)
  fval (g_rows fx_graph) (g_cols fx_graph) (fx_val 1) (XTrace (XPow 2 (XMat 0))) 0 0 = 38%R.
Proof.
  assert (Lf : is_leaf fx_graph 0) by exact Logic.I.
  split; [exact fx_wf|]. split; [intros o o' H H' Ne; apply fx_var in H, H'; congruence|].
  split. { intros h. constructor. split; [|split; [split|]].
    - intros p o H. destruct p; discriminate.
    - intros p o H. destruct p; discriminate.
    - intros p q o o' H. destruct p; discriminate.
    - intros k sp R0 C p []. }
  split; [exact fx_lib_ok|]. split.
  { split.
    - reflexivity.
    - intros t o n Hk Hn. apply fx_var in Hk. subst o. simpl in *. destruct n as [|n]; [destruct Hn; congruence|reflexivity].
    - intros t o n Hk. cbn [e_val fx_env]. cbn [g_kind fx_graph] in Hk. destruct (decode o); [reflexivity|discriminate].
    - intros o n Hk. simpl in Hk. destruct (decode o) as [[[|[|tag]] q]|]; discriminate. }
  split; [exact fx_fok|]. split; [exact fx_fsmooth|]. split.
  { intros o Ho. assert (o = 0) as -> by (simpl in Ho; tauto || (repeat (destruct Ho as [Ho|Ho]; [auto|]); destruct Ho)).
    split; [now apply fits_leaf|]. split; [intros t; apply (den_leaf (G := fx_graph) (fx_env t) (o := 0)); [exact Lf|discriminate]|].
    split; [now apply sm_leaf|]. intros o id a y o' _ _ _ _ _. reflexivity. }
  split; [reflexivity|]. cbv [fval frows fcols total power delta fx_val fx_env fx_graph e_val g_rows g_cols fx_dims decode Nat.max fst snd Nat.eqb Nat.mul Nat.add]. ring.
Qed.
