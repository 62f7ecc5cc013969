(** * C82: a training step of the neural network example *)
From Coq Require Import List Arith Bool Lia ZArith Permutation Reals Lra.
From Verif Require Import Num NumInst MatMem Kernels KernelFacts KernelProofs KernelBlocks KernelMore Registry KernelStep Backend Slots Exec Sums ConvProofs ConvDerv MatEngine MatGraph MatLeaf MatEval MatDeval MatHist MatSpec MatCalls MatFuel MatCalc Calculus MatRev MatInplace RevVals MatRevOk MatRevCall MatRevHist PropMatrix PropReverse Param EnvExt Misc PropSquare Activation MatFunSpec MatFun MatFunOk PropMatFun MatFunGrad ExampleNet PropNet Threads Train TrainSpec TrainOk TrainRun TrainAll TrainCalc PropTrain PropFunGrad.
Import ListNotations.
Set Implicit Arguments.
Unset Strict Implicit.
Local Open Scope nat_scope.
Notation R := Rdefinitions.R.

(** The layers of the training loop hold the weights and biases of the neurons. *)
Definition same_layers (ls : list neuron) (lls : list layer) : Prop := Forall2 (fun l ll => l_W ll = w_of l /\ l_b ll = b_of l) ls lls.
Lemma params_in ls lls u : same_layers ls lls -> In u (params lls) -> exists l, In l ls /\ (u = w_of l \/ u = b_of l).
Proof.
  induction 1 as [|l ll ls lls [E1 E2] H IH]; cbn [params flat_map]; [intros []|]. intros Q. apply in_app_iff in Q as [[<-|[<-|[]]]|Q].
  - exists l. split; [now left|]. now left.
  - exists l. split; [now left|]. now right.
  - destruct (IH Q) as (l' & Hl & E). exists l'. split; [now right|exact E].
Qed.
(** Writing other matrices does not touch the registered ones. *)
Lemma lib_feed (G : graph R) K rho rho' : (forall o k, own K o \/ e_val rho' o k = e_val rho o k) -> lib_ok G rho K -> lib_ok G rho' K.
Proof.
  intros H [A B C D E F Q].
  assert (Z : forall o k, (exists a b, o = l_ones K a b \/ o = l_zeros K a \/ o = l_top K a b \/ o = l_bottom K a b \/ o = l_left K a b \/ o = l_right K a b) -> e_val rho' o k = e_val rho o k).
  { intros o k (a & b & W). destruct (H o k) as [O|O]; [|exact O]. destruct (O a b) as (Q1 & Q2 & Q3 & Q4 & Q5 & Q6). intuition. }
  split; intros.
  - destruct (A r c) as (Q1 & Q2 & Q3 & Q4); auto. repeat (split; [assumption|]). intros. rewrite Z by (exists r, c; tauto). auto.
  - auto.
  - destruct (C n) as (Q1 & Q2 & Q3 & Q4); auto. repeat (split; [assumption|]). intros. rewrite Z by (exists n, n; tauto). auto.
  - destruct (D a b) as (Q1 & Q2 & Q3 & Q4); auto. repeat (split; [assumption|]). intros. rewrite Z by (exists a, b; tauto). auto.
  - destruct (E a b) as (Q1 & Q2 & Q3 & Q4); auto. repeat (split; [assumption|]). intros. rewrite Z by (exists a, b; tauto). auto.
  - destruct (F a b) as (Q1 & Q2 & Q3 & Q4); auto. repeat (split; [assumption|]). intros. rewrite Z by (exists a, b; tauto). auto.
  - destruct (Q a b) as (Q1 & Q2 & Q3 & Q4); auto. repeat (split; [assumption|]). intros. rewrite Z by (exists a, b; tauto). auto.
Qed.

(** One mini-batch of the example, with or without threads: new masks and rows of the data give the entries st0; the loss shown
    is the cross entropy of the scores at st0, and every weight and bias changes by alpha times the derivative of
    the cross entropy by it, all at st0. *)
Theorem C82_minibatch : forall (S : sched R), valid_sched S ->
  forall (h : handler) (G : graph R) host rank, wf_graph G host rank ->
  forall ord, (forall c, Permutation (ord c) c) ->
  forall s, rreached S (backend_of S h) G ord host s ->
  forall X Y ls, of_numbers G (net_mats X Y ls) -> shapes (g_rows G) (g_cols G) (g_rows G X) (g_cols G X) ls ->
  let classes := width (g_rows G) (g_cols G X) ls in g_rows G Y = g_rows G X -> g_cols G Y = classes ->
  forall K n e n', make G K (cfun_val CLog) (cfun_val CDLog) (cfun_val CSqrt) (cfun_val CDSqrt) (error_call (g_rows G X) X Y ls) n = Some (e, n') ->
  forall F id y lls inputs, network G F id e y lls inputs -> same_layers ls lls -> inputs Y = true ->
  (forall o, inputs o = true \/ In o (params lls) -> own K o) ->
  forall (masks data : obj -> option (nat -> R)), (forall o, masks o <> None -> inputs o = true) -> (forall o, data o <> None -> inputs o = true) ->
  forall (st : store (T := R)), lib_ok G (env_of st) K ->
  let st0 := feed data (feed masks st) in
  forall label, (forall i, i < g_rows G X -> label i < classes /\
    forall u, u < classes -> entry_of G st0 Y i u = if u =? label i then 1%R else 0%R) ->
  off_kinks (g_cols G) (entry_of G st0) (g_rows G X) (entry_of G st0 X) ls ->
  let loss_at := fun st' => cross_entropy (g_rows G X) classes (scores (g_cols G) (entry_of G st') X ls) label in
  forall (threading display : bool) (alpha : R),
  (exists s' st' loss, minibatch S (backend_of S h) G ord threading display alpha F lls masks data s st s' st' loss) /\
  forall s' st' loss, minibatch S (backend_of S h) G ord threading display alpha F lls masks data s st s' st' loss ->
    (display = true -> loss = loss_at st0) /\
    (forall u i j, In u (params lls) -> i < g_rows G u -> j < g_cols G u -> let k := i * g_cols G u + j in
       exists g, derivable_pt_lim (fun t => loss_at (put st0 u k t)) (st0 u k) g /\ st' u k = (st u k + alpha * g)%R) /\
    rreached S (backend_of S h) G ord host s'.
Proof.
  intros S VS h G host rank WF ord Ho s Rs X Y ls Num Sh classes Y1 Y2 K n e n' E F id y lls inputs NW SL IY Own masks data Hm Hd st HK st0 label Lab Ok loss_at th display alpha.
  destruct (C65_minibatch LawsR VS WF Ho Rs NW Hm Hd th display alpha st) as [A C]. split; [exact A|].
  intros s' st' loss H. destruct (C s' st' loss H) as ((C1 & _ & _) & C2 & C3). fold st0 in C1, C2.
  assert (HK0 : lib_ok G (env_of st0) K).
  { apply (lib_feed (rho := env_of st)); [|exact HK]. intros o k. cbn [env_of e_val]. unfold st0, feed.
    destruct (data o) as [f|] eqn:Ed; [left; apply Own; left; apply Hd; congruence|].
    destruct (masks o) as [f|] eqn:Em; [left; apply Own; left; apply Hm; congruence|]. now right. }
  destruct (wf_pos WF X) as [PB PX].
  assert (PC : 0 < classes) by (pose proof (proj2 (wf_pos WF Y)) as Q; rewrite Y2 in Q; exact Q).
  destruct (@error_dims (g_rows G) (g_cols G) (entry_of G st0) _ PB X eq_refl ls Sh Y (conj Y1 Y2)) as (D1 & D2 & Fok).
  assert (Nm : forall o, In o (fmats (error_call (g_rows G X) X Y ls)) -> g_kind G o = LConst \/ g_kind G o = LVar) by (intros o Hin; left; apply Num; exact (error_mats Hin)).
  assert (Fs : fsmooth (g_rows G) (g_cols G) (entry_of G st0) (error_call (g_rows G X) X Y ls)) by (now apply (@net_fsmooth (g_rows G) (g_cols G) (entry_of G st0) (g_rows G X) X Y ls classes)).
  assert (Ev : forall st1, (forall q, st1 Y q = st0 Y q) -> forall a b, fval (g_rows G) (g_cols G) (entry_of G st1) (error_call (g_rows G X) X Y ls) a b = loss_at st1).
  { intros st1 EY a b. apply (@error_value (g_rows G) (g_cols G) (entry_of G st1) _ PB X eq_refl ls Sh PC Y (conj Y1 Y2) label).
    intros i Hi. destruct (Lab i Hi) as [P Q]. split; [exact P|]. intros u Hu. rewrite <- (Q u Hu). unfold entry_of. apply EY. }
  split; [|split; [|exact C3]].
  - intros Dp. destruct (C2 Dp) as (F0 & HF & ->).
    rewrite (built_value WF HK0 library_log_sqrt Nm Fok E HF) by (rewrite ?D1, ?D2; lia). now apply Ev.
  - intros u i j Hu Hi Hj k. destruct (C1 u Hu) as (F0 & D & HD & Es). destruct (nw_params NW Hu) as [_ Ku].
    exists (D 0 0 i j). split.
    + destruct (built WF HK0 library_log_sqrt Nm Fok Fs E) as (_ & _ & Er & Ec).
      apply (Calculus.dlim_loc (fun t => fval (g_rows G) (g_cols G) (entry_of G (put st0 u k t)) (error_call (g_rows G X) X Y ls) 0 0) (fun t => loss_at (put st0 u k t)) _ _ 1); [lra| |].
      * intros t _. apply Ev. intros q. unfold put. destruct (Nat.eqb_spec Y u) as [Eq|]; [|reflexivity].
        exfalso. subst u. destruct (nw_inputs NW IY) as [Q _]. now apply Q.
      * apply (entry_slope WF HK0 library_log_sqrt Nm Fok Fs Ku (Own _ (or_intror Hu)) E HD Hi Hj); [rewrite Er, D1|rewrite Ec, D2]; lia.
    + pose proof (Es i j Hi Hj) as Ek. fold k in Ek. rewrite Ek.
      assert (Q : st0 u k = st u k).
      { unfold st0, feed. destruct (data u) as [f|] eqn:Ed; [exfalso; destruct (nw_inputs NW (Hd u ltac:(congruence))) as [Q _]; now apply Q|].
        destruct (masks u) as [f|] eqn:Em; [exfalso; destruct (nw_inputs NW (Hm u ltac:(congruence))) as [Q _]; now apply Q|reflexivity]. }
      rewrite Q. reflexivity.
Qed.
Print Assumptions C82_minibatch.

(** *** A network that meets the hypotheses *)
(** Two samples with four inputs, two layers of four units, labels 0 and 1; all weights, biases and masks 1.  Objects 8 r _
    have r rows and one column, objects 9 r _ have r rows and four columns; the batch matrices are those with a number from 10 on. *)
Definition tg_dims (o : obj) : nat * nat := match decode o with Some (8, (r, _)) => (r, 1) | Some (9, (r, _)) => (r, 4) | _ => fx_dims o end.
Definition tg_rows (o : obj) : nat := Nat.max 1 (fst (tg_dims o)).
Definition tg_cols (o : obj) : nat := Nat.max 1 (snd (tg_dims o)).
Definition tg_kind (o : obj) : MatEngine.kind R := match decode o with Some (1, _) => LEye | _ => LConst end.
Definition tg_with (id : nat) (e : mexp R) : graph R :=
  Graph (fun o => if o =? fg_F then KExp id e fg_eye else tg_kind o) tg_rows tg_cols (fun o => o) (fun o n => n).
Definition tg_X : obj := encode 9 2 1.
Definition tg_Y : obj := encode 9 2 0.
Definition tg_net : list neuron := [Neuron (encode 9 4 2) (encode 8 4 2) (encode 9 2 2); Neuron (encode 9 4 3) (encode 8 4 3) (encode 9 2 3)].
Definition tg_layers : list layer :=
  [Layer (encode 9 4 2) (encode 8 4 2) (encode 9 4 10) (encode 8 4 10) (4, 4); Layer (encode 9 4 3) (encode 8 4 3) (encode 9 4 11) (encode 8 4 11) (4, 4)].
Definition tg_inputs (o : obj) : bool := (o =? tg_X) || (o =? tg_Y) || (o =? encode 9 2 2) || (o =? encode 9 2 3).
Definition tg_st : store (T := R) := fun o k =>
  match decode o with Some (8, _) => 1%R | Some (9, (_, 0)) => delta (k / 4) (k mod 4) | Some (9, _) => 1%R | _ => e_val (fx_env 1) o k end.

(** The objects that must not occur in the error: itself and the batch matrices. *)
Definition tg_ghost (o : obj) : bool := match decode o with Some (7, _) => true | Some (8, (_, c)) | Some (9, (_, c)) => 10 <=? c | _ => false end.
(** A graph in which these are no matrices of numbers. *)
Definition tg_zero : graph R :=
  Graph (fun o => if tg_ghost o then KExp o (MLeaf (encode 0 (tg_rows o) (tg_cols o))) (encode 1 (tg_cols o) (tg_cols o)) else tg_kind o) tg_rows tg_cols (fun o => o) (fun o n => n).
Lemma tg_dims_of t r c : tg_rows (encode t r c) = Nat.max 1 (fst (match t with 8 => (r, 1) | 9 => (r, 4) | _ => fx_dims (encode t r c) end)) /\
  tg_cols (encode t r c) = Nat.max 1 (snd (match t with 8 => (r, 1) | 9 => (r, 4) | _ => fx_dims (encode t r c) end)).
Proof. unfold tg_rows, tg_cols, tg_dims. rewrite decode_encode. do 10 (destruct t as [|t]; [split; reflexivity|]). split; reflexivity. Qed.
Lemma tg_one r c : tg_rows (encode 0 r c) = Nat.max 1 r /\ tg_cols (encode 0 r c) = Nat.max 1 c.
Proof. destruct (tg_dims_of 0 r c) as [-> ->]. unfold fx_dims. now rewrite decode_encode. Qed.
Lemma tg_eye_dims r : tg_rows (encode 1 r r) = Nat.max 1 r /\ tg_cols (encode 1 r r) = Nat.max 1 r.
Proof. destruct (tg_dims_of 1 r r) as [-> ->]. unfold fx_dims. now rewrite decode_encode. Qed.
Lemma tg_pos o : 0 < tg_rows o /\ 0 < tg_cols o.
Proof. unfold tg_rows, tg_cols. lia. Qed.
Lemma tg_zero_wf : wf_graph tg_zero (fun i => Some i) (fun o => if tg_ghost o then 1 else 0).
Proof.
  assert (A : forall o id e y, g_kind tg_zero o = KExp id e y -> tg_ghost o = true /\ id = o /\ e = MLeaf (encode 0 (tg_rows o) (tg_cols o)) /\ y = encode 1 (tg_cols o) (tg_cols o)).
  { intros o id e y H. cbn [tg_zero g_kind] in H. destruct (tg_ghost o); [injection H as <- <- <-; auto|]. unfold tg_kind in H. destruct (decode o) as [[[|[|t]] q]|]; discriminate. }
  split.
  - exact tg_pos.
  - intros o id e y o' H Hin. destruct (A _ _ _ _ H) as (-> & -> & -> & ->). cbn [item leaves app In] in Hin.
    assert (Q : tg_ghost o' = false) by (destruct Hin as [<-|[<-|[]]]; unfold tg_ghost; now rewrite decode_encode). rewrite Q. lia.
  - intros o id e y H. destruct (A _ _ _ _ H) as (G1 & -> & -> & ->). cbn [item nodes app]. split; [repeat constructor; intros []|]. intros i [<-|[]]. reflexivity.
  - intros o id e y H. destruct (A _ _ _ _ H) as (G1 & -> & -> & ->). cbn [rows cols tg_zero g_rows g_cols]. destruct (tg_one (tg_rows o) (tg_cols o)) as [-> ->]. pose proof (tg_pos o). lia.
  - intros o id e y H. destruct (A _ _ _ _ H) as (G1 & -> & -> & ->). cbn [cols tg_zero g_rows g_cols g_kind].
    destruct (tg_eye_dims (tg_cols o)) as [-> ->]. destruct (tg_one (tg_rows o) (tg_cols o)) as [_ ->].
    assert (Q : tg_ghost (encode 1 (tg_cols o) (tg_cols o)) = false) by (unfold tg_ghost; now rewrite decode_encode). rewrite Q.
    unfold tg_kind. rewrite decode_encode. pose proof (tg_pos o). repeat split; lia.
Qed.
Lemma tg_lib (G : graph R) : (forall t r c, t < 7 -> g_kind G (encode t r c) = tg_kind (encode t r c)) -> g_rows G = tg_rows -> g_cols G = tg_cols -> lib_ok G (env_of tg_st) fx_lib.
Proof.
  intros Kd ER EC.
  assert (Kd' : forall t r c, t < 7 -> g_kind G (encode t r c) = g_kind fx_graph (encode t r c)).
  { intros t r c Ht. rewrite Kd by exact Ht. unfold tg_kind. cbn [g_kind fx_graph]. rewrite decode_encode. reflexivity. }
  assert (D : forall t r c, t < 7 -> g_rows G (encode t r c) = g_rows fx_graph (encode t r c) /\ g_cols G (encode t r c) = g_cols fx_graph (encode t r c)).
  { intros t r c Ht. rewrite ER, EC. destruct (tg_dims_of t r c) as [-> ->]. do 7 (destruct t as [|t]; [split; reflexivity|]). lia. }
  assert (En : forall t r c k, t < 7 -> e_val (env_of tg_st) (encode t r c) k = e_val (fx_env 1) (encode t r c) k).
  { intros t r c k Ht. cbn [env_of e_val]. unfold tg_st at 1. rewrite decode_encode. do 7 (destruct t as [|t]; [reflexivity|]). lia. }
  destruct (fx_lib_ok 1) as [A B C D0 E F H]. split; intros; cbn [fx_lib l_ones l_eye l_zeros l_top l_bottom l_left l_right];
    rewrite Kd' by lia; rewrite (fun t r c h => proj1 (D t r c h)), (fun t r c h => proj2 (D t r c h)) by lia.
  - destruct (A r c) as (Q1 & Q2 & Q3 & Q4); auto. split; [exact Q1|]. split; [exact Q2|]. split; [exact Q3|]. intros i j Hi Hj. rewrite En by lia. exact (Q4 i j Hi Hj).
  - exact (B n ltac:(assumption)).
  - destruct (C n) as (Q1 & Q2 & Q3 & Q4); auto. split; [exact Q1|]. split; [exact Q2|]. split; [exact Q3|]. intros i j Hi Hj. rewrite En by lia. exact (Q4 i j Hi Hj).
  - destruct (D0 a b) as (Q1 & Q2 & Q3 & Q4); auto. split; [exact Q1|]. split; [exact Q2|]. split; [exact Q3|]. intros i j Hi Hj. rewrite En by lia. exact (Q4 i j Hi Hj).
  - destruct (E a b) as (Q1 & Q2 & Q3 & Q4); auto. split; [exact Q1|]. split; [exact Q2|]. split; [exact Q3|]. intros i j Hi Hj. rewrite En by lia. exact (Q4 i j Hi Hj).
  - destruct (F a b) as (Q1 & Q2 & Q3 & Q4); auto. split; [exact Q1|]. split; [exact Q2|]. split; [exact Q3|]. intros i j Hi Hj. rewrite En by lia. exact (Q4 i j Hi Hj).
  - destruct (H a b) as (Q1 & Q2 & Q3 & Q4); auto. split; [exact Q1|]. split; [exact Q2|]. split; [exact Q3|]. intros i j Hi Hj. rewrite En by lia. exact (Q4 i j Hi Hj).
Qed.
Lemma tg_own t r c : t = 8 \/ t = 9 -> own fx_lib (encode t r c).
Proof.
  intros Ht a b. cbn [fx_lib l_ones l_zeros l_top l_bottom l_left l_right].
  repeat split; intros E; apply encode_inj in E; destruct Ht as [-> | ->]; discriminate.
Qed.
Lemma tg_shapes : shapes tg_rows tg_cols 2 4 tg_net /\ width tg_rows 4 tg_net = 4 /\ tg_rows tg_X = 2 /\ tg_cols tg_X = 4 /\ tg_rows tg_Y = 2 /\ tg_cols tg_Y = 4.
Proof.
  unfold tg_net, tg_X, tg_Y. cbn [shapes width w_of b_of d_of].
  rewrite !(fun t r c => proj1 (tg_dims_of t r c)), !(fun t r c => proj2 (tg_dims_of t r c)). cbn. repeat split.
Qed.
Definition tg_masks (o : obj) : option (nat -> R) := if o =? encode 9 2 2 then Some (fun _ => 1%R) else None.
Definition tg_data (o : obj) : option (nat -> R) := if o =? tg_X then Some (fun _ => 1%R) else None.
Lemma tg_fed o k : feed tg_data (feed tg_masks tg_st) o k = tg_st o k.
Proof.
  unfold feed, tg_data, tg_masks. destruct (Nat.eqb_spec o tg_X) as [->|_]; [unfold tg_st, tg_X; now rewrite decode_encode|].
  destruct (Nat.eqb_spec o (encode 9 2 2)) as [->|_]; [unfold tg_st; now rewrite decode_encode|reflexivity].
Qed.
Lemma tg_ones t r c k : t = 8 \/ t = 9 /\ 0 < c -> tg_st (encode t r c) k = 1%R.
Proof. intros H. unfold tg_st. rewrite decode_encode. destruct H as [-> |[-> H]]; [reflexivity|]. destruct c; [lia|reflexivity]. Qed.
Lemma tg_off V : (forall t r c i j, t = 8 \/ t = 9 /\ 0 < c -> V (encode t r c) i j = 1%R) -> off_kinks tg_cols V 2 (V tg_X) tg_net.
Proof.
  intros O.
  assert (L : forall x, (0 <= x)%R -> leaky x = x) by (intros x Hx; unfold leaky; destruct (Rle_dec 0 x); [reflexivity|contradiction]).
  assert (CW : forall k, tg_cols (encode 9 4 k) = 4) by (intros k; now rewrite (proj2 (tg_dims_of _ _ _))).
  set (l1 := Neuron (encode 9 4 2) (encode 8 4 2) (encode 9 2 2)). set (l2 := Neuron (encode 9 4 3) (encode 8 4 3) (encode 9 2 3)).
  assert (P1 : forall i u, pre_act tg_cols V (V tg_X) l1 i u = 5%R).
  { intros i u. unfold pre_act, l1. cbn [w_of b_of d_of]. rewrite CW. cbn [total]. unfold tg_X. rewrite !O by (first [left; reflexivity | right; split; [reflexivity|lia]]). lra. }
  assert (U : forall i v, unit_out tg_cols V (V tg_X) l1 i v = 5%R).
  { intros i v. unfold unit_out. fold (pre_act tg_cols V (V tg_X) l1 i v). rewrite P1, L by lra. unfold l1. cbn [d_of]. rewrite O by (right; split; [reflexivity|lia]). lra. }
  assert (P2 : forall i u, pre_act tg_cols V (unit_out tg_cols V (V tg_X) l1) l2 i u = 21%R).
  { intros i u. unfold pre_act, l2. cbn [w_of b_of d_of]. rewrite CW. cbn [total]. rewrite !U. rewrite !O by (first [left; reflexivity | right; split; [reflexivity|lia]]). lra. }
  unfold tg_net. cbn [off_kinks]. fold l1 l2. split; [intros i u _ _; rewrite P1; lra|]. split; [intros i u _ _; rewrite P2; lra|exact Logic.I].
Qed.
Ltac enc_ne := let E := fresh in intros E; apply encode_inj in E; discriminate.
Example C82_nonvacuous : exists n' e, let G := tg_with n' e in
  wf_graph G (fun _ => Some fg_F) (fun o => if o =? fg_F then 1 else 0) /\
  (forall h, rreached (in_order (T := R)) (backend_of (in_order (T := R)) h) G (fun c => c) (fun _ => Some fg_F) (rinit memR)) /\
  of_numbers G (net_mats tg_X tg_Y tg_net) /\ shapes (g_rows G) (g_cols G) (g_rows G tg_X) (g_cols G tg_X) tg_net /\
  g_rows G tg_Y = g_rows G tg_X /\ g_cols G tg_Y = width (g_rows G) (g_cols G tg_X) tg_net /\
  make G fx_lib (cfun_val CLog) (cfun_val CDLog) (cfun_val CSqrt) (cfun_val CDSqrt) (error_call (g_rows G tg_X) tg_X tg_Y tg_net) 0 = Some (e, n') /\
  network G fg_F n' e fg_eye tg_layers tg_inputs /\ same_layers tg_net tg_layers /\ tg_inputs tg_Y = true /\
  (forall o, tg_inputs o = true \/ In o (params tg_layers) -> own fx_lib o) /\
  (forall o, tg_masks o <> None -> tg_inputs o = true) /\ (forall o, tg_data o <> None -> tg_inputs o = true) /\
  lib_ok G (env_of tg_st) fx_lib /\ let st0 := feed tg_data (feed tg_masks tg_st) in
  (forall i, i < g_rows G tg_X -> i < width (g_rows G) (g_cols G tg_X) tg_net /\
     forall u, u < width (g_rows G) (g_cols G tg_X) tg_net -> entry_of G st0 tg_Y i u = if u =? i then 1%R else 0%R) /\
  off_kinks (g_cols G) (entry_of G st0) (g_rows G tg_X) (entry_of G st0 tg_X) tg_net.
Proof.
  destruct tg_shapes as (Sh & Wd & X1 & X2 & Y1 & Y2).
  assert (Lib0 : lib_ok tg_zero (env_of tg_st) fx_lib).
  { apply tg_lib; [|reflexivity|reflexivity]. intros t r c Ht. cbn [tg_zero g_kind]. unfold tg_ghost. rewrite decode_encode. do 7 (destruct t as [|t]; [reflexivity|]). lia. }
  assert (NM : forall o, In o (net_mats tg_X tg_Y tg_net) -> exists t r c, o = encode t r c /\ (t = 8 \/ t = 9) /\ c < 10).
  { intros o Ho. unfold net_mats, tg_net in Ho. cbn [flat_map app w_of b_of d_of In] in Ho.
    repeat (destruct Ho as [<-|Ho]; [do 3 eexists; split; [reflexivity|]; split; [auto|lia]|]). destruct Ho. }
  assert (Num0 : of_numbers tg_zero (net_mats tg_X tg_Y tg_net)).
  { intros o Ho. destruct (NM o Ho) as (t & r & c & -> & Ht & Hc). cbn [tg_zero g_kind]. unfold tg_ghost, tg_kind. rewrite decode_encode. apply Nat.leb_gt in Hc. rewrite Hc.
    destruct Ht as [-> | ->]; reflexivity. }
  assert (Sh1 : shapes tg_rows tg_cols (tg_rows tg_X) (tg_cols tg_X) tg_net) by (rewrite X1, X2; exact Sh).
  assert (Wd1 : width tg_rows (tg_cols tg_X) tg_net = 4) by (rewrite X2; exact Wd).
  destruct (@error_dims tg_rows tg_cols (entry_of tg_zero tg_st) _ (proj1 (tg_pos tg_X)) tg_X eq_refl tg_net Sh1 tg_Y) as (D1 & D2 & Fok); [split; congruence|].
  rewrite X1 in D1, D2, Fok.
  destruct library_log_sqrt as (LG & SQ & DSQ).
  assert (M : makes tg_zero (fun _ => env_of tg_st) 0%R False (fmats (error_call 2 tg_X tg_Y tg_net)) (make tg_zero fx_lib (cfun_val CLog) (cfun_val CDLog) (cfun_val CSqrt) (cfun_val CDSqrt) (error_call 2 tg_X tg_Y tg_net))
                (frows tg_rows tg_cols (error_call 2 tg_X tg_Y tg_net)) (fcols tg_rows tg_cols (error_call 2 tg_X tg_Y tg_net)) (fun _ => fval tg_rows tg_cols (entry_of tg_zero tg_st) (error_call 2 tg_X tg_Y tg_net))).
  { apply (make_ok tg_zero_wf (rho_ := fun _ => env_of tg_st) (fun _ => Lib0) LG SQ DSQ (fun e He _ => cont_const (env_of tg_st) 0%R He) (V_ := fun _ => entry_of tg_zero tg_st)); [|exact Fok|tauto].
    intros o Ho. destruct (num_den (G := tg_zero) (H := tg_zero) (o := o) (env_of tg_st) eq_refl (or_introl (Num0 o (error_mats Ho)))) as (A & B & C). split; [exact Ho|]. split; [exact A|]. split; [intros _; exact B|tauto]. }
  destruct (M 0) as (e & n' & E & Le & Nd & Ie & Gd). exists n', e. intros G.
  assert (Lv : forall o, In o (leaves e) -> tg_ghost o = false).
  { intros o Ho. assert (Q : is_leaf tg_zero o).
    { destruct (gd_leaves Gd Ho) as [Q|Q]; [exact Q|]. unfold is_leaf. now rewrite (Num0 o (error_mats Q)). }
    unfold is_leaf in Q. cbn [tg_zero g_kind] in Q. destruct (tg_ghost o); [destruct Q|reflexivity]. }
  assert (Gf : tg_ghost fg_F = true) by (unfold tg_ghost, fg_F; now rewrite decode_encode).
  assert (Nf : forall o, tg_ghost o = false -> (o =? fg_F) = false).
  { intros o Ho. apply Nat.eqb_neq. intros ->. congruence. }
  assert (Ge : tg_ghost fg_eye = false) by (unfold tg_ghost, fg_eye; now rewrite decode_encode).
  assert (Fd : tg_rows fg_F = 1 /\ tg_cols fg_F = 1).
  { unfold fg_F. destruct (tg_dims_of 7 1 1) as [-> ->]. unfold fx_dims. rewrite decode_encode. split; reflexivity. }
  assert (Wf : wf_graph G (fun _ => Some fg_F) (fun o => if o =? fg_F then 1 else 0)).
  { assert (A : forall o id' e' y, g_kind G o = KExp id' e' y -> o = fg_F /\ id' = n' /\ e' = e /\ y = fg_eye).
    { intros o id' e' y H. cbn [G tg_with g_kind] in H. destruct (Nat.eqb_spec o fg_F) as [->|]; [injection H as <- <- <-; auto|].
      unfold tg_kind in H. destruct (decode o) as [[[|[|t]] q]|]; discriminate. }
    assert (Rw : rows G e = 1 /\ cols G e = 1) by (split; [exact (eq_trans (gd_rows Gd) D1)|exact (eq_trans (gd_cols Gd) D2)]). destruct Rw as [Rw Cw].
    split.
    - exact tg_pos.
    - intros o id' e' y o' H Hin. destruct (A _ _ _ _ H) as (-> & -> & -> & ->). rewrite Nat.eqb_refl. cbn [item leaves] in Hin.
      assert (Q : tg_ghost o' = false) by (apply in_app_iff in Hin; destruct Hin as [Hin|[<-|[]]]; auto). rewrite (Nf _ Q). lia.
    - intros o id' e' y H. destruct (A _ _ _ _ H) as (-> & -> & -> & ->). cbn [item nodes]. rewrite app_nil_r. split; [|auto].
      constructor; [|exact Nd]. intros Q. apply Ie in Q. lia.
    - intros o id' e' y H. destruct (A _ _ _ _ H) as (-> & -> & -> & ->). rewrite Rw, Cw. exact Fd.
    - intros o id' e' y H. destruct (A _ _ _ _ H) as (-> & -> & -> & ->). rewrite Cw. cbn [G tg_with g_kind g_rows g_cols]. rewrite (Nf _ Ge).
      unfold fg_eye. destruct (tg_eye_dims 1) as [-> ->]. unfold tg_kind. rewrite decode_encode. repeat split. }
  assert (Num : of_numbers G (net_mats tg_X tg_Y tg_net)).
  { intros o Ho. pose proof (NM o Ho) as (t & r & c & Eo & Ht & Hc). assert (Q : (o =? fg_F) = false) by (apply Nat.eqb_neq; rewrite Eo; intros Q; apply encode_inj in Q; destruct Ht; subst t; discriminate).
    cbn [G tg_with g_kind]. rewrite Q. unfold tg_kind. rewrite Eo, decode_encode. destruct Ht as [-> | ->]; reflexivity. }
  assert (Lib : lib_ok G (env_of tg_st) fx_lib).
  { apply tg_lib; [|reflexivity|reflexivity]. intros t r c Ht. cbn [G tg_with g_kind]. rewrite fg_other by lia. reflexivity. }
  assert (Ef : make G fx_lib (cfun_val CLog) (cfun_val CDLog) (cfun_val CSqrt) (cfun_val CDSqrt) (error_call 2 tg_X tg_Y tg_net) 0 = Some (e, n')) by exact E.
  assert (Pl : plain e) by exact (make_plain Ef).
  cbn [G tg_with g_rows g_cols]. fold G. rewrite Wd1, X1, X2, Y1, Y2.
  split; [exact Wf|]. split; [intros h; apply rr_init; exact tameR|]. split; [exact Num|]. split; [exact Sh|]. split; [reflexivity|]. split; [reflexivity|]. split; [exact Ef|]. split.
  { constructor.
    - cbn [G tg_with g_kind]. now rewrite Nat.eqb_refl.
    - exact Fd.
    - intros o Ho. cbn [G tg_with g_kind]. rewrite (Nf _ (Lv _ Ho)). unfold tg_kind. destruct (decode o) as [[[|[|t]] q]|]; auto.
    - intros o o' _ _ Q. exact Q.
    - refine (@built_fits G _ _ Wf tg_st fx_lib Lib _ _ _ _ library_log_sqrt (error_call 2 tg_X tg_Y tg_net) _ Fok 0 e n' Ef).
      intros o Ho. left. exact (Num o (error_mats Ho)).
    - intros st. now apply plain_solvable.
    - intros u Hu. assert (Q : exists l, In l tg_net /\ (u = w_of l \/ u = b_of l)).
      { apply (@params_in tg_net tg_layers); [|exact Hu]. repeat constructor. }
      split.
      + destruct Q as (l & Hl & Q). apply (make_keeps (o := u) (d := error_call 2 tg_X tg_Y tg_net)) in Ef; [exact Ef|].
        unfold error_call, final_layer. cbn [mentions]. right. apply mentions_layers. right. eauto.
      + apply Num. destruct Q as (l & Hl & Q). unfold net_mats. right. right. apply in_flat_map. exists l. split; [exact Hl|]. destruct Q as [->| ->]; simpl; auto.
    - cbn [tg_layers params batches flat_map app l_W l_b l_WB l_bB].
      repeat (constructor; [intros Q; cbn [In] in Q; repeat (destruct Q as [Q|Q]; [revert Q; enc_ne|]); exact Q|]). constructor.
    - intros o Ho. assert (Q : tg_ghost o = true).
      { cbn [tg_layers batches flat_map app l_WB l_bB In] in Ho. repeat (destruct Ho as [<-|Ho]; [unfold tg_ghost; now rewrite decode_encode|]). destruct Ho. }
      split; [intros [<-|Hin]; [congruence|apply Lv in Hin; congruence]|]. rewrite (plain_scals Pl). intros [].
    - intros l Hl. cbn [G tg_with g_rows g_cols]. cbn [tg_layers In] in Hl. destruct Hl as [<-|[<-|[]]]; cbn [l_W l_b l_dim fst];
        rewrite !(fun t r c => proj1 (tg_dims_of t r c)), !(fun t r c => proj2 (tg_dims_of t r c)); repeat split.
    - intros o Ho. unfold tg_inputs in Ho. repeat rewrite orb_true_iff in Ho. rewrite !Nat.eqb_eq in Ho.
      cbn [tg_layers params batches flat_map app l_W l_b l_WB l_bB].
      destruct Ho as [[[-> | ->]| ->]| ->]; unfold tg_X, tg_Y; (split; intros Q; cbn [In] in Q; repeat (destruct Q as [Q|Q]; [revert Q; enc_ne|]); exact Q). }
  split; [repeat constructor|]. split; [unfold tg_inputs; now rewrite Nat.eqb_refl, orb_true_r|]. split.
  { intros o [Ho|Ho].
    - unfold tg_inputs in Ho. repeat rewrite orb_true_iff in Ho. rewrite !Nat.eqb_eq in Ho. destruct Ho as [[[-> | ->]| ->]| ->]; apply tg_own; auto.
    - cbn [tg_layers params flat_map app l_W l_b In] in Ho. repeat (destruct Ho as [<-|Ho]; [apply tg_own; auto|]). destruct Ho. }
  split. { intros o. unfold tg_masks, tg_inputs. destruct (o =? encode 9 2 2); [intros _; now rewrite !orb_true_r|congruence]. }
  split. { intros o. unfold tg_data, tg_inputs. destruct (o =? tg_X); [intros _; reflexivity|congruence]. }
  split; [exact Lib|]. split.
  - intros i Hi. split; [lia|]. intros u Hu. unfold entry_of. rewrite tg_fed. cbn [G tg_with g_cols]. rewrite Y2. unfold tg_st, tg_Y. rewrite decode_encode.
    destruct (divmod_block i Hu) as [-> ->]. unfold delta. now rewrite Nat.eqb_sym.
  - apply tg_off. intros t r c i j Ht. unfold entry_of. rewrite tg_fed. now apply tg_ones.
Qed.
