(** * Properties C64-C66: gradients by weights and training *)
From Coq Require Import List Arith Bool Lia ZArith Permutation Reals.
From Verif Require Import Num NumInst MatMem Kernels KernelFacts KernelProofs KernelBlocks KernelMore Registry KernelStep Backend Slots Exec Sums ConvProofs MatEngine MatGraph MatLeaf MatEval MatDeval MatHist MatSpec MatCalls MatFuel MatCalc MatRev MatInplace RevVals MatRevOk MatRevCall MatRevHist PropMatrix PropReverse Param EnvExt Misc Threads Train TrainSpec TrainOk TrainRun TrainAll TrainCalc.
Import ListNotations.
Set Implicit Arguments.
Unset Strict Implicit.
Local Open Scope nat_scope.
Notation R := Rdefinitions.R.

(** ** C64 *)
(** After any history: PreComp(F), then DevalR(F, W) for any number of matrices W in F, in
    any order; the entries of W may be plain numbers.  Entry (i,j) of the result is the
    derivative of the trace of F by W(i,j), W regarded as a matrix of variables. *)
Fixpoint gradients {T} {N : Num T} (G : graph T) (rho : env T) (F : obj) (a : mexp T) (l : list obj) (s : rst (T := T)) : Prop :=
  match l with
  | [] => True
  | w :: t => exists p s' F0 D, DevalR G F w s = EOk (p, s') /\ dif (as_var G w) rho w a F0 D /\
      holds (mm (rb s')) p (Mat (g_rows G w) (g_cols G w) (fun i j => sum_n (g_rows G F) (fun l => D l l i j))) /\ gradients G rho F a t s'
  end.
Theorem C64_gradient_by_numbers : forall {T} {N : Num T}, NumLaws N -> forall (S : sched T), valid_sched S ->
  forall (h : handler) (G : graph T) host rank, wf_graph G host rank ->
  forall ord, (forall c, Permutation (ord c) c) ->
  forall s, rreached S (backend_of S h) G ord host s ->
  forall (rho : env T) F id a y, rev_root G F id a y -> solvable G rho a ->
  forall l, (forall w, In w l -> In w (leaves a) /\ differentiable G rho a y w) ->
  exists s', precomputes S h G ord rho F s s' /\ gradients G rho F a l s' /\ rreached S (backend_of S h) G ord host s'.
Proof.
  intros T N L S VS h G host rank WF ord Ho s Rs rho F id a y Hr Sv l Hl.
  pose proof (rreached_RInv L VS (backend_value VS (fun _ => L)) (or_intror (backend_kron_zeroed VS h L)) (backend_accum VS h) WF Ho Rs) as I.
  destruct (pre_right L VS (backend_value VS (fun _ => L)) (or_intror (backend_kron_zeroed VS h L)) (backend_accum VS h) WF Ho rho I Hr) as (n & s' & v & E & Hv & P & I').
  exists s'. split; [now exists n|]. split; [|eapply rr_pre; eauto].
  induction l as [|w l IH]; [exact Logic.I|]. destruct (Hl w (or_introl eq_refl)) as [Hw Dw].
  destruct (@gradient_of T N G host L rank WF rho F id a y v w s' Hr Hv I' P Dw Sv (in_or_app _ _ _ (or_introl Hw))) as (p & F0 & D & Ed & HD & Hp).
  cbn [gradients]. exists p, s', F0, D. split; [exact Ed|]. split; [exact HD|]. split; [exact Hp|]. apply IH. intros w' Hw'. apply Hl. simpl. auto.
Qed.
Print Assumptions C64_gradient_by_numbers.
(** Over the reals, for a scalar F whose matrices hold the numbers st: entry (i,j) is the limit of
    the difference quotients of the value of F when W(i,j) is changed. *)
Theorem C64_limit : forall (S : sched R), valid_sched S ->
  forall (h : handler) (G : graph R) host rank, wf_graph G host rank ->
  forall ord, (forall c, Permutation (ord c) c) ->
  forall s, rreached S (backend_of S h) G ord host s ->
  forall (st : store (T := R)) F id a y, rev_root G F id a y -> solvable G (env_of st) a -> smooth G (env_of st) a -> g_rows G F = 1 ->
  forall w, In w (leaves a) -> g_kind G w = LConst -> (forall o, In o (y :: keyed a) -> g_nidx G o = g_nidx G w -> o = w) ->
  exists s1 p s', precomputes S h G ord (env_of st) F s s1 /\ DevalR G F w s1 = EOk (p, s') /\ is_mat (mm (rb s')) p (g_rows G w) (g_cols G w) /\
    forall i j, i < g_rows G w -> j < g_cols G w ->
      exists Ft, (forall t, den G (env_of (put st w (i * g_cols G w + j) t)) a (Ft t)) /\
        derivable_pt_lim (fun t => Ft t 0 0) (st w (i * g_cols G w + j)) (val (mm (rb s')) p i j).
Proof.
  intros S VS h G host rank WF ord Ho s Rs st F id a y Hr Sv Sm H1 w Hw Kw Ow.
  destruct (@C64_gradient_by_numbers R NumR LawsR S VS h G host rank WF ord Ho s Rs (env_of st) F id a y Hr Sv [w]) as (s1 & E1 & Q & _).
  { intros w' [<-|[]]. split; [exact Hw|]. split; [now left|]. split.
    - intros o Hin. split; [apply Ow|reflexivity]. destruct Hin as [Hin|Hin]; [now left|right; apply in_or_app; now left].
    - intros so vs Q. split; [|reflexivity]. intros v Hv. apply Ow. right. apply in_or_app. right. unfold svars. apply in_flat_map. exists (so, vs). auto. }
  destruct Q as (p & s' & F0 & D & E2 & HD & [Hm Hv] & _). exists s1, p, s'. split; [exact E1|]. split; [exact E2|]. split; [exact Hm|].
  intros i j Hi Hj. destruct (grad_calculus WF Kw (rr_fits Hr) Sm HD Hi Hj) as (Ft & Hd & Hl). exists Ft. split; [exact Hd|].
  cbn [mr mc mf] in Hv. rewrite Hv by auto. rewrite H1, (sum_1 LawsR).
  pose proof (wf_dims WF (rr_kind Hr)) as Q. apply Hl.
  - destruct Q as [Q _]. lia.
  - destruct Q as [_ Q]. pose proof (rr_square Hr). lia.
Qed.
Print Assumptions C64_limit.

(** ** C65 *)
(** One mini-batch, with or without threads, for every schedule: every entry of every weight and
    bias changes by alpha times the derivative of the error by this entry, all derivatives at
    the old parameters (and the new masks, X and Y); nothing else changes but the batch
    matrices; the loss shown is the error at the old parameters.  And there is an outcome. *)
Theorem C65_minibatch : forall {T} {N : Num T}, NumLaws N -> forall (S : sched T), valid_sched S ->
  forall (h : handler) (G : graph T) host rank, wf_graph G host rank ->
  forall ord, (forall c, Permutation (ord c) c) ->
  forall e, rreached S (backend_of S h) G ord host e ->
  forall F id a y ls inputs, network G F id a y ls inputs ->
  forall (masks data : obj -> option (nat -> T)), (forall o, masks o <> None -> inputs o = true) -> (forall o, data o <> None -> inputs o = true) ->
  forall (threading display : bool) (alpha : T) (st : store (T := T)),
  (exists e' st' loss, minibatch S (backend_of S h) G ord threading display alpha F ls masks data e st e' st' loss) /\
  forall e' st' loss, minibatch S (backend_of S h) G ord threading display alpha F ls masks data e st e' st' loss ->
    descends G alpha a ls (feed data (feed masks st)) st' /\
    (display = true -> exists F0, den G (env_of (feed data (feed masks st))) a F0 /\ loss = F0 0 0) /\
    rreached S (backend_of S h) G ord host e'.
Proof.
  intros T N L S VS h G host rank WF ord Ho e Re F id a y ls inputs NW masks data Hm Hd th display alpha st.
  destruct (minibatch_ok L VS (backend_value VS (fun _ => L)) (or_intror (backend_kron_zeroed VS h L)) (backend_accum VS h) WF Ho NW th display alpha st Re Hm Hd) as [A C].
  split; [exact A|]. intros e' st' loss H. destruct (C e' st' loss H) as (C1 & C2 & C3). auto.
Qed.
Print Assumptions C65_minibatch.
(** Two outcomes, whatever the schedules and with or without threads: the same parameters. *)
Theorem C65_deterministic : forall {T} {N : Num T}, NumLaws N -> forall (S : sched T), valid_sched S ->
  forall (h h' : handler) (G : graph T) host rank, wf_graph G host rank ->
  forall ord ord', (forall c, Permutation (ord c) c) -> (forall c, Permutation (ord' c) c) ->
  forall e1 e2, rreached S (backend_of S h) G ord host e1 -> rreached S (backend_of S h') G ord' host e2 ->
  forall F id a y ls inputs, network G F id a y ls inputs ->
  forall (masks data : obj -> option (nat -> T)), (forall o, masks o <> None -> inputs o = true) -> (forall o, data o <> None -> inputs o = true) ->
  forall th1 th2 dp1 dp2 (alpha : T) (st : store (T := T)) e1' e2' st1 st2 loss1 loss2,
  minibatch S (backend_of S h) G ord th1 dp1 alpha F ls masks data e1 st e1' st1 loss1 ->
  minibatch S (backend_of S h') G ord' th2 dp2 alpha F ls masks data e2 st e2' st2 loss2 ->
  forall o k, ~ In o (batches ls) -> st1 o k = st2 o k.
Proof.
  intros T N L S VS h h' G host rank WF ord ord' Ho Ho' e1 e2 R1 R2 F id a y ls inputs NW masks data Hm Hd th1 th2 dp1 dp2 alpha st e1' e2' st1 st2 loss1 loss2 H1 H2 o k No.
  destruct (proj2 (C65_minibatch L VS WF Ho R1 NW Hm Hd th1 dp1 alpha st) _ _ _ H1) as ((A1 & A2 & A3) & _).
  destruct (proj2 (C65_minibatch L VS WF Ho' R2 NW Hm Hd th2 dp2 alpha st) _ _ _ H2) as ((B1 & B2 & B3) & _).
  destruct (in_dec Nat.eq_dec o (params ls)) as [Hp|Np]; [|rewrite A3, B3 by auto; reflexivity].
  destruct (le_lt_dec (g_rows G o * g_cols G o) k) as [Hk|Hk]; [rewrite A2, B2 by auto; reflexivity|].
  destruct (A1 o Hp) as (F0 & D & HD & E). destruct (B1 o Hp) as (F1 & D1 & HD1 & E'). destruct (dif_fun_det HD HD1) as [_ <-].
  assert (Q : g_cols G o <> 0) by nia. rewrite (Nat.div_mod k (g_cols G o) Q), (Nat.mul_comm (g_cols G o)).
  pose proof (Nat.mod_upper_bound k _ Q) as Bm.
  assert (Bd : k / g_cols G o < g_rows G o) by (apply Nat.div_lt_upper_bound; [exact Q|lia]).
  rewrite E, E' by auto. reflexivity.
Qed.
Print Assumptions C65_deterministic.
(** Over the reals the derivatives are those of calculus. *)
Theorem C65_real : forall (S : sched R), valid_sched S ->
  forall (h : handler) (G : graph R) host rank, wf_graph G host rank ->
  forall ord, (forall c, Permutation (ord c) c) ->
  forall e, rreached S (backend_of S h) G ord host e ->
  forall F id a y ls inputs, network G F id a y ls inputs ->
  forall (masks data : obj -> option (nat -> R)), (forall o, masks o <> None -> inputs o = true) -> (forall o, data o <> None -> inputs o = true) ->
  forall (threading display : bool) (alpha : R) (st : store (T := R)), smooth G (env_of (feed data (feed masks st))) a ->
  forall e' st' loss, minibatch S (backend_of S h) G ord threading display alpha F ls masks data e st e' st' loss ->
  forall u i j, In u (params ls) -> i < g_rows G u -> j < g_cols G u -> let n := i * g_cols G u + j in let st0 := feed data (feed masks st) in
    exists (error : R -> nat -> nat -> R) g, (forall t, den G (env_of (put st0 u n t)) a (error t)) /\
      derivable_pt_lim (fun t => error t 0 0) (st0 u n) g /\ st' u n = (st0 u n + alpha * g)%R.
Proof.
  intros S VS h G host rank WF ord Ho e Re F id a y ls inputs NW masks data Hm Hd th display alpha st Sm e' st' loss H u i j Hu Hi Hj n st0.
  destruct (proj2 (C65_minibatch LawsR VS WF Ho Re NW Hm Hd th display alpha st) _ _ _ H) as ((A & _) & _).
  destruct (A u Hu) as (F0 & D & HD & E). destruct (nw_params NW Hu) as [_ Ku].
  destruct (grad_calculus WF Ku (nw_fits NW) Sm HD Hi Hj) as (Ft & Hden & Hl). exists Ft, (D 0 0 i j). split; [exact Hden|]. split.
  - destruct (wf_dims WF (nw_kind NW)) as [Q1 Q2]. destruct (nw_scalar NW) as [Q3 Q4]. apply Hl; lia.
  - exact (E i j Hi Hj).
Qed.
Print Assumptions C65_real.

(** *** Limits of C65 *)
(** The same Layer added twice: the NeuralNet's copies share W and b, and each makes its own
    batch matrices.  With threads both GDOptimizers update W at the same time: from the same
    state W may receive both updates or lose one. *)
Theorem C65_shared_layer_refuted : forall {T} {N : Num T} (alpha : T) (st : store (T := T)), exists (G : graph T) (l1 l2 : layer),
  l_W l1 = l_W l2 /\ l_b l1 = l_b l2 /\ NoDup (batches [l1; l2]) /\
  (exists st', optimize G true alpha [l1; l2] st st' /\
     st' (l_W l1) 0 = nadd (nadd (st (l_W l1) 0) (nmul alpha (st (l_WB l1) 0))) (nmul alpha (st (l_WB l2) 0))) /\
  (exists st', optimize G true alpha [l1; l2] st st' /\ st' (l_W l1) 0 = nadd (st (l_W l1) 0) (nmul alpha (st (l_WB l2) 0))).
Proof.
  intros T N alpha st. exists (Graph (fun _ => LConst) (fun _ => 1) (fun _ => 1) (fun o => o) (fun o _ => o)), (Layer 0 1 2 3 (1, 1)), (Layer 0 1 4 5 (1, 1)).
  split; [reflexivity|]. split; [reflexivity|]. split; [repeat constructor; simpl; intuition discriminate|].
  set (t := fun x d => Task (T := T) n0 [ILoad d 0; IMul alpha; IStore d 0; ILoad x 0; IAddFrom d 0; IStore x 0]).
  set (gs := [[t 0 2]; [t 1 3]; [t 0 4]; [t 1 5]]).
  split.
  - exists (alone (t 1 5) (alone (t 0 4) (alone (t 1 3) (alone (t 0 2) st)))). split; [split; [reflexivity|]|reflexivity].
    change (run ([t 0 2] ++ [t 1 3] ++ [t 0 4] ++ [t 1 5]) st (alone (t 1 5) (alone (t 0 4) (alone (t 1 3) (alone (t 0 2) st))))).
    repeat (eapply run_app; [apply run_one|]). apply run_one.
  - assert (Q : exists st', run [t 0 2; t 1 3; t 0 4; t 1 5] st st' /\ at_ st' (0, 0) = nadd (st 0 0) (nmul alpha (st 4 0))).
    { (* the first GDOptimizer on W, up to its last store *)
      set (s1 := put st 2 0 (nmul alpha (st 2 0))). set (v1 := nadd (st 0 0) (nmul alpha (st 2 0))).
      (* the second one: it still reads the old W *)
      set (s2 := put s1 4 0 (nmul alpha (st 4 0))). set (v2 := nadd (st 0 0) (nmul alpha (st 4 0))).
      set (s3 := put (put s2 0 0 v1) 0 0 v2).
      destruct (run_total [Task v1 []; t 1 3; Task v2 []; t 1 5] s3) as (st' & H). exists st'. split.
      - change (run ([] ++ t 0 2 :: [t 1 3; t 0 4; t 1 5]) st st').
        do 5 (apply run_step; cbn [exec fst snd]). cbn [app].
        change (run ([Task v1 [IStore 0 0]; t 1 3] ++ t 0 4 :: [t 1 5]) s1 st').
        do 5 (apply run_step; cbn [exec fst snd]). cbn [app].
        change (run ([] ++ Task v1 [IStore 0 0] :: [t 1 3; Task v2 [IStore 0 0]; t 1 5]) s2 st').
        apply run_step. cbn [exec fst snd app].
        change (run ([Task v1 []; t 1 3] ++ Task v2 [IStore 0 0] :: [t 1 5]) (put s2 0 0 v1) st').
        apply run_step. exact H.
      - rewrite (run_frame H); [reflexivity|].
        intros t' Ht (i & Hi & W). cbn [In] in Ht. destruct Ht as [<-|[<-|[<-|[<-|[]]]]]; cbn [t_code t In] in Hi;
          repeat (destruct Hi as [<-|Hi]; [cbn [iwrites] in W; first [contradiction|discriminate]|]); destruct Hi. }
    destruct Q as (st' & H & E). exists st'. split; [split; [reflexivity|exact H]|exact E].
Qed.
Print Assumptions C65_shared_layer_refuted.
(** A layer whose weights do not occur in the error: DevalR then gives zeros in the shape of
    the error (C46), and adding them to the batch matrix fails; training stops, unless the
    weights are 1x1. *)
Theorem C65_unused_layer_refuted : forall {T} {N : Num T}, NumLaws N -> forall (S : sched T), valid_sched S ->
  forall (h : handler) (G : graph T) host rank, wf_graph G host rank ->
  forall ord, (forall c, Permutation (ord c) c) ->
  forall e, rreached S (backend_of S h) G ord host e ->
  forall F id a y, rev_root G F id a y -> g_rows G F = 1 ->
  forall (l : layer) ls, (forall o, In o (y :: keyed a) -> g_nidx G o <> g_nidx G (l_W l)) -> l_dim l <> (1, 1) ->
  forall th display alpha masks data st, ~ exists e' st' loss, minibatch S (backend_of S h) G ord th display alpha F (l :: ls) masks data e st e' st' loss.
Proof.
  intros T N L S VS h G host rank WF ord Ho e Re F id a y Hr H1 l ls Nw Nd th display alpha masks data st (e' & st' & loss & st1 & e1 & st2 & _ & (e2 & gs & (n & E) & Hg & _) & _).
  pose proof (rreached_RInv L VS (backend_value VS (fun _ => L)) (or_intror (backend_kron_zeroed VS h L)) (backend_accum VS h) WF Ho Re) as I.
  destruct (pre_right L VS (backend_value VS (fun _ => L)) (or_intror (backend_kron_zeroed VS h L)) (backend_accum VS h) WF Ho (env_of (feed data st1)) I Hr) as (n' & s' & v & E' & Hv & (P1 & P2 & P3) & I').
  assert (Q : e2 = s').
  { specialize (E (n + n') ltac:(lia)). specialize (E' (n + n') ltac:(lia)). congruence. }
  subst e2. clear E E' n n'.
  assert (En : adjoints G (env_of (feed data st1)) a y v (KMat (g_nidx G (l_W l))) = None).
  { apply adjoint_none with (id0 := id). intros o Hin. apply (proj1 (item_keyed id a y o)) in Hin. now apply Nw. }
  destruct (dev_none VS WF I' (P2 _ En)) as (p & s1 & Ed & Hz & I1 & _).
  cbn [gather] in Hg. unfold rbind at 1 in Hg. rewrite Ed in Hg.
  assert (T2 : exists q s2, DevalR G F (l_b l) s1 = EOk (q, s2) /\ holds (mm (rb s2)) p (mzeros (g_rows G F) (g_cols G F))).
  { destruct (cget (roc s1 F) (KMat (g_nidx G (l_b l)))) as [q|] eqn:Ec; [exists q, s1; split; [now apply dev_some|exact Hz]|].
    destruct (dev_none VS WF I1 Ec) as (q & s2 & Eq & _ & _ & Kh & _). exists q, s2. auto. }
  destruct T2 as (q & s2 & Eq & Hz2). unfold rbind at 1 in Hg. rewrite Eq in Hg.
  rewrite <- (rr_square Hr), H1 in Hz2. destruct Hz2 as [(k & sp & b & Hget & Hl) _]. cbn [mzeros mr mc] in Hget.
  unfold rbind at 1 in Hg. unfold add_to at 1, rbind at 1, rl, lift, deref in Hg. rewrite Hget in Hg. cbn [o_rows o_cols] in Hg.
  unfold rbind at 1, rassert in Hg.
  destruct (l_dim l) as [r c]. cbn [fst snd] in Hg. destruct (Nat.eqb_spec 1 r) as [<-|]; [destruct (Nat.eqb_spec 1 c) as [<-|]; [now elim Nd|]|]; discriminate Hg.
Qed.
Print Assumptions C65_unused_layer_refuted.

(** ** C66 *)
(** train: one such step per window, over the windows of Misc.v repeated for every epoch;
    evaluating the network for the accuracy in between does not matter. *)
Theorem C66_train : forall {T} {N : Num T}, NumLaws N -> forall (S : sched T), valid_sched S ->
  forall (h : handler) (G : graph T) host rank, wf_graph G host rank ->
  forall ord, (forall c, Permutation (ord c) c) ->
  forall e, rreached S (backend_of S h) G ord host e ->
  forall F id a y ls masks_of X Y, network G F id a y ls (inputs_of masks_of X Y) -> X <> Y ->
  forall out, root host out -> fits G out -> (forall o, In o (leaves out) -> is_leaf G o) ->
  forall (Xd Yd : nat -> T) (threading display : bool) (alpha : T) (st : store (T := T)) (epochs : nat) (n b : Z), (1 <= b <= n)%Z -> (n + b < 2 ^ 64)%Z ->
  exists l, epoch n b = Some l /\ (forall w, In w l -> 0 <= w /\ w + b <= n)%Z /\ (forall i, 0 <= i < n -> exists w, In w l /\ w <= i < w + b)%Z /\
    let windows := concat (repeat (map Z.to_nat l) epochs) in
    (exists e' st', train S (backend_of S h) G ord threading display alpha F out ls masks_of X Y Xd Yd windows e st e' st') /\
    (forall e' st', train S (backend_of S h) G ord threading display alpha F out ls masks_of X Y Xd Yd windows e st e' st' ->
       sgd G alpha a ls masks_of X Y Xd Yd windows st st' /\ rreached S (backend_of S h) G ord host e').
Proof.
  intros T N L S VS h G host rank WF ord Ho e Re F id a y ls masks_of X Y NW HXY out Or Of Ol Xd Yd th display alpha st epochs n b Hb Hn.
  destruct (epoch_ok n b Hb Hn) as (l & E & A & C). exists l. split; [exact E|]. split; [exact A|]. split; [exact C|]. split.
  - apply (train_total L VS (backend_value VS (fun _ => L)) (or_intror (backend_kron_zeroed VS h L)) (backend_accum VS h) WF Ho Xd Yd NW). exact Re.
  - intros e' st' Ht.
    destruct (train_steps L VS (backend_value VS (fun _ => L)) (or_intror (backend_kron_zeroed VS h L)) (backend_accum VS h) WF Ho NW Or Of Ol HXY Ht Re) as [R1 S1]. auto.
Qed.
Print Assumptions C66_train.

(** ** A concrete network *)
(** X : 2x2 (two rows of data), weights W : 1x2, bias b : 1x1, mask M : 2x1,
    d = M^(X*transpose(W)) + ones*b - Y, error = transpose(d)*d. *)
Definition tn_d {T} (i : nat) : mexp T :=
  MBin BSub i (MBin BSum (i + 1) (MBin BHad (i + 2) (MLeaf 5) (MBin BProd (i + 3) (MLeaf 0) (MUn UTr (i + 4) (MLeaf 2)))) (MBin BProd (i + 5) (MLeaf 6) (MLeaf 3))) (MLeaf 1).
Definition tn_a {T} : mexp T := MBin BProd 31 (MUn UTr 32 (tn_d 33)) (tn_d 40).
Definition tn_objs {T} : list (gobj (T := T)) :=
  [ (LConst, (2, 2)); (LConst, (2, 1)); (LConst, (1, 2)); (LConst, (1, 1)); (LEye, (1, 1)); (LConst, (2, 1)); (LConst, (2, 1));
    (KExp 30 tn_a 4, (1, 1)); (LConst, (1, 2)); (LConst, (1, 1)) ].
Definition tn_graph {T} : graph T := graph_of tn_objs.
Ltac wf12 := constructor;
  [ intros o; each o 12; try (destruct o); simpl; lia
  | intros o id e y o' H Hin; each o 12; try (destruct o); try discriminate H; injection H as <- <- <-; simpl in Hin; leaf_in Hin; lia
  | intros o id e y H; each o 12; try (destruct o); try discriminate H; injection H as <- <- <-;
    (split; [repeat constructor; simpl; intuition discriminate | intros i Hin; simpl in Hin; leaf_in Hin; reflexivity])
  | intros o id e y H; each o 12; try (destruct o); try discriminate H; injection H as <- <- <-; split; reflexivity
  | intros o id e y H; each o 12; try (destruct o); try discriminate H; injection H as <- <- <-; repeat split; reflexivity ].
Lemma tn_wf {T} : wf_graph (T := T) tn_graph (host_of (T := T) tn_objs) (fun o => o).
Proof. wf12. Qed.
Definition tn_layers : list layer := [Layer 2 3 8 9 (1, 2)].
Definition tn_masks (o : obj) : bool := o =? 5.
Lemma tn_network {T} {N : Num T} : network (T := T) tn_graph 7 30 tn_a 4 tn_layers (inputs_of tn_masks 0 1).
Proof.
  constructor.
  - reflexivity.
  - split; reflexivity.
  - intros o Ho. left. simpl in Ho. repeat (destruct Ho as [<-|Ho]; [reflexivity|]). destruct Ho.
  - intros o o' _ _. auto.
  - unfold tn_a, tn_d. repeat first [apply fits_zip; [discriminate| | |reflexivity|reflexivity] | apply fits_prod; [| |reflexivity] | apply fits_un; [|exact Logic.I] | now apply fits_leaf].
  - intros st. repeat split.
  - intros u Hu. simpl in Hu. destruct Hu as [<-|[<-|[]]]; (split; [simpl; tauto|reflexivity]).
  - repeat constructor; simpl; intuition discriminate.
  - intros o Ho. simpl in Ho. destruct Ho as [<-|[<-|[]]]; (split; [|intros []]); simpl; intuition discriminate.
  - intros l [<-|[]]. repeat split.
  - intros o Ho. unfold inputs_of, tn_masks in Ho. apply orb_prop in Ho. destruct Ho as [Ho|Ho]; [apply orb_prop in Ho; destruct Ho as [Ho|Ho]|]; apply Nat.eqb_eq in Ho; subst; split; simpl; intuition discriminate.
Qed.
Definition tn_store : store (T := Z) := fun o k => nth k (nth o [[1; 2; 3; 4]; [2; 9]; [1; 1]; [0]; []; [1; 2]; [1; 1]]%Z []) 0%Z.
Example C64_nonvacuous : forall h, rreached Zin (backend_of Zin h) tn_graph (fun c => c) (host_of (T := Z) tn_objs) rv0 /\
  rev_root (T := Z) tn_graph 7 30 tn_a 4 /\ solvable tn_graph (env_of tn_store) tn_a /\ differentiable tn_graph (env_of tn_store) tn_a 4 2 /\ In 2 (leaves (T := Z) tn_a) /\
  (exists s', precomputes Zin h tn_graph (fun c => c) (env_of tn_store) 7 rv0 s' /\
    answers (T := Z) tn_graph 7 2 s' = Some (Some [62; 84]%Z) /\ answers (T := Z) tn_graph 7 3 s' = Some (Some [12]%Z)).
Proof.
  intros h. split; [constructor; exact tame0|]. split; [exact (net_root tn_wf tn_network)|]. split; [exact (nw_inverses tn_network tn_store)|].
  split; [apply (net_diff tn_network); simpl; auto|]. split; [simpl; tauto|].
  apply (pre1 (P := fun s' => answers (T := Z) tn_graph 7 2 s' = Some (Some [62; 84]%Z) /\ answers (T := Z) tn_graph 7 3 s' = Some (Some [12]%Z))). destruct h; vm_compute; split; reflexivity.
Qed.
(** One mini-batch with rate alpha = -1 from tn_store, the mask and the rows as in tn_store:
    weights (1,1) and bias 0 become (-61,-83) and -12, in every execution; the loss is 26. *)
Definition tn_rows := rows_from (T := Z) tn_graph 0 1 (fun k => nth k [1; 2; 3; 4]%Z 0%Z) (fun k => nth k [2; 9]%Z 0%Z) 0.
Definition tn_mask (o : obj) : option (nat -> Z) := if o =? 5 then Some (fun k => nth k [1; 2]%Z 0%Z) else None.
Ltac dif_leaves := first [apply dif_const; [left; reflexivity|apply den_leaf; [exact Logic.I|discriminate]] | apply dif_var; [reflexivity|apply den_leaf; [exact Logic.I|discriminate]]].
Ltac dif_all := unfold tn_a, tn_d; repeat first [apply dif_sum | apply dif_sub | apply dif_had | eapply dif_prod | apply dif_tr | dif_leaves].
Example C65_nonvacuous : forall h th, network (T := Z) tn_graph 7 30 tn_a 4 tn_layers (inputs_of tn_masks 0 1) /\
  (exists e' st' loss, minibatch Zin (backend_of Zin h) tn_graph (fun c => c) th true (-1)%Z 7 tn_layers tn_mask tn_rows rv0 tn_store e' st' loss) /\
  (forall e' st' loss, minibatch Zin (backend_of Zin h) tn_graph (fun c => c) th true (-1)%Z 7 tn_layers tn_mask tn_rows rv0 tn_store e' st' loss ->
    st' 2 0 = (-61)%Z /\ st' 2 1 = (-83)%Z /\ st' 3 0 = (-12)%Z /\ loss = 26%Z).
Proof.
  intros h th. split; [exact tn_network|].
  destruct (@C65_minibatch Z NumZ LawsZ Zin (fun m I l => Permutation_refl l) h tn_graph _ _ (@tn_wf Z) (fun c => c) (fun c => Permutation_refl c) rv0) with (F := 7) (id := 30) (a := @tn_a Z) (y := 4)
    (ls := tn_layers) (inputs := inputs_of tn_masks 0 1) (masks := tn_mask) (data := tn_rows) (threading := th) (display := true) (alpha := (-1)%Z) (st := tn_store) as [A C].
  - constructor. exact tame0.
  - exact tn_network.
  - intros o Ho. unfold tn_mask in Ho. unfold inputs_of, tn_masks. destruct (o =? 5); [reflexivity|now elim Ho].
  - apply rows_in.
  - split; [exact A|]. intros e' st' loss H. destruct (C e' st' loss H) as ((D & _) & Ls & _).
    destruct (Ls eq_refl) as (F0 & HF & ->).
    destruct (D 2 ltac:(simpl; auto)) as (F1 & D1 & HD1 & E1). destruct (D 3 ltac:(simpl; auto)) as (F2 & D2 & HD2 & E2).
    assert (Q1 : exists F D, dif (as_var (T := Z) tn_graph 2) (env_of (feed tn_rows (feed tn_mask tn_store))) 2 tn_a F D /\ D 0 0 0 0 = 62%Z /\ D 0 0 0 1 = 84%Z /\ F 0 0 = 26%Z).
    { do 2 eexists. split; [dif_all|]. vm_compute. repeat split. }
    assert (Q2 : exists F D, dif (as_var (T := Z) tn_graph 3) (env_of (feed tn_rows (feed tn_mask tn_store))) 3 tn_a F D /\ D 0 0 0 0 = 12%Z).
    { do 2 eexists. split; [dif_all|]. vm_compute. repeat split. }
    assert (Q3 : exists F, den (T := Z) tn_graph (env_of (feed tn_rows (feed tn_mask tn_store))) tn_a F /\ F 0 0 = 26%Z).
    { eexists. split; [unfold tn_a, tn_d; repeat first [apply den_sum | apply den_sub | apply den_had | eapply den_prod | apply den_tr | apply den_leaf; [exact Logic.I|discriminate]]|]. vm_compute. reflexivity. }
    destruct Q1 as (F1' & D1' & HD1' & V1 & V2 & _). destruct (dif_fun_det HD1 HD1') as [_ ->].
    destruct Q2 as (F2' & D2' & HD2' & V3). destruct (dif_fun_det HD2 HD2') as [_ ->].
    destruct Q3 as (F3 & HF3 & V4). rewrite (den_det HF HF3), V4.
    specialize (E1 0) as E10. pose proof (E10 0 ltac:(vm_compute; auto) ltac:(vm_compute; auto)) as W0. pose proof (E10 1 ltac:(vm_compute; auto) ltac:(vm_compute; auto)) as W1.
    pose proof (E2 0 0 ltac:(vm_compute; auto) ltac:(vm_compute; auto)) as B0. clear - W0 W1 B0 V1 V2 V3. cbn [tn_graph graph_of tn_objs] in *.
    rewrite V1 in W0. rewrite V2 in W1. rewrite V3 in B0. split; [exact W0|]. split; [exact W1|]. split; [exact B0|reflexivity].
Qed.
(** Three rows of data, batch size 2: windows 0 and 1 in every epoch. *)
Example C66_nonvacuous : forall h, rreached Zin (backend_of Zin h) tn_graph (fun c => c) (host_of (T := Z) tn_objs) rv0 /\ network (T := Z) tn_graph 7 30 tn_a 4 tn_layers (inputs_of tn_masks 0 1) /\
  root (T := Z) (host_of (T := Z) tn_objs) (MBin BProd 60 (MLeaf 0) (MUn UTr 61 (MLeaf 2))) /\ fits (T := Z) tn_graph (MBin BProd 60 (MLeaf 0) (MUn UTr 61 (MLeaf 2))) /\
  epoch 3 2 = Some [0; 1]%Z.
Proof.
  intros h. split; [constructor; exact tame0|]. split; [exact tn_network|]. split; [|split].
  - split; [repeat constructor; simpl; intuition discriminate|]. intros i [<-|[<-|[]]]; reflexivity.
  - repeat first [apply fits_prod; [| |reflexivity] | apply fits_un; [|exact Logic.I] | now apply fits_leaf].
  - reflexivity.
Qed.
(** The same network over the reals. *)
Example C65_real_nonvacuous : forall st : store (T := R), network (T := R) tn_graph 7 30 tn_a 4 tn_layers (inputs_of tn_masks 0 1) /\ smooth tn_graph (env_of st) tn_a.
Proof.
  intros st. split; [exact tn_network|]. unfold tn_a, tn_d. repeat first [apply sm_bin | apply sm_un; [|exact Logic.I] | apply sm_leaf; exact Logic.I].
Qed.
