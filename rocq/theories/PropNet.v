(** * C80: the network of the neural network example *)
From Coq Require Import List Arith Bool Lia ZArith Reals Lra.
From Verif Require Import Num NumInst MatMem Kernels KernelFacts KernelProofs KernelBlocks KernelMore Registry KernelStep Backend Slots Exec Sums ConvDerv MatEngine MatGraph MatLeaf MatEval MatDeval MatHist MatSpec MatCalls MatFuel MatCalc Calculus Activation MatFunSpec MatFun MatFunOk PropMatrix PropMatFun ExampleNet.
Import ListNotations.
Set Implicit Arguments.
Unset Strict Implicit.
Local Open Scope nat_scope.

(** The matrices of the network; they hold numbers. *)
Definition net_mats (X Y : nat) (ls : list neuron) : list nat := X :: Y :: flat_map (fun l => [w_of l; b_of l; d_of l]) ls.
Definition of_numbers (G : graph R) (l : list nat) : Prop := forall o, In o l -> g_kind G o = LConst.
(** Entry (i,j) of matrix o. *)
Definition at_ij (G : graph R) (rho : env R) (o i j : nat) : R := e_val rho o (i * g_cols G o + j).

Lemma layer_mats batch ls : forall h o, In o (fmats (fold_left (layer_call batch) ls h)) -> In o (fmats h) \/ In o (flat_map (fun l => [w_of l; b_of l; d_of l]) ls).
Proof.
  induction ls as [|l ls IH]; intros h o H; cbn [fold_left flat_map] in *; [now left|].
  destruct (IH _ _ H) as [Q|Q]; [|right; apply in_app_iff; now right].
  cbn [layer_call fmats] in Q. repeat (apply in_app_iff in Q as [Q|Q]); try (now left);
    (destruct Q as [<-|[]] || idtac); right; cbn [In app]; auto.
Qed.
Lemma error_mats batch X Y ls o : In o (fmats (error_call batch X Y ls)) -> In o (net_mats X Y ls).
Proof.
  unfold error_call, final_layer. cbn [fmats app]. intros [<-|H]; [simpl; auto|].
  destruct (layer_mats H) as [[<-|[]]|Q]; [simpl; auto|]. simpl. auto.
Qed.
Lemma final_mats batch X Y ls o : In o (fmats (final_layer batch X ls)) -> In o (net_mats X Y ls).
Proof. intros H. apply (@error_mats batch X Y ls). unfold error_call. cbn [fmats app]. now right. Qed.
Lemma const_leaf (G : graph R) rho o : g_kind G o = LConst -> is_leaf G o /\ fits G (MLeaf o) /\ den G rho (MLeaf o) (at_ij G rho o).
Proof.
  intros H. assert (L : is_leaf G o) by (unfold is_leaf; rewrite H; exact Logic.I). split; [exact L|]. split; [now constructor|].
  apply den_leaf; [exact L|]. rewrite H. discriminate.
Qed.
Lemma const_settled (G : graph R) s o : g_kind G o = LConst -> settled G (MLeaf o) s.
Proof. intros H. apply settled_plain. intros o' [<-|[]]. apply (const_leaf (Env (fun _ _ => 0%R) (fun _ _ _ _ => 0%R)) H). Qed.

(** ** Prediction *)
(** In any state the program can be in: the example's layers are built, and Eval of the final layer returns for every sample
    the softmax of the scores the layers compute from X: positive numbers with sum 1. *)
Theorem C80_prediction : forall (S : sched R), valid_sched S ->
  forall (h : handler) (G : graph R) host rank, wf_graph G host rank ->
  forall s, reached S h G host s ->
  forall rho K, lib_ok G rho K ->
  forall X Y ls, of_numbers G (net_mats X Y ls) -> shapes (g_rows G) (g_cols G) (g_rows G X) (g_cols G X) ls ->
  forall n, (forall i, n <= i -> host i = None) ->
  let z := scores (g_cols G) (at_ij G rho) X ls in let classes := width (g_rows G) (g_cols G X) ls in
  exists e n', make G K (cfun_val CLog) (cfun_val CDLog) (cfun_val CSqrt) (cfun_val CDSqrt) (final_layer (g_rows G X) X ls) n = Some (e, n') /\
    exists p s', returns S h G (AEval rho e) s p s' /\ is_mat (mm s') p (g_rows G X) classes /\ reached S h G host s' /\
      forall i, i < g_rows G X ->
        (forall u, u < classes -> val (mm s') p i u = (exp (z i u) / total classes (fun v => exp (z i v)))%R /\ (0 < val (mm s') p i u)%R) /\
        total classes (fun u => val (mm s') p i u) = 1%R.
Proof.
  intros S VS h G host rank WF s Rs rho K HK X Y ls Num Sh n Hn z classes.
  destruct (wf_pos WF X) as [PB PX].
  assert (PC : 0 < classes).
  { unfold classes. clear - WF Sh PX. revert Sh PX. generalize (g_cols G X) as k. induction ls as [|l t IH]; intros k Sh PX; cbn [width]; [exact PX|].
    apply IH; [apply Sh|]. apply (wf_pos WF). }
  destruct (@last_dims (g_rows G) (g_cols G) (at_ij G rho) _ PB X eq_refl ls Sh) as (D1 & D2 & Ok).
  destruct (@C45_values S VS h G host rank WF s Rs rho K HK _ _ _ _ library_log_sqrt (at_ij G rho) (final_layer (g_rows G X) X ls)) with (n := n)
    as (e & n' & E & p & s' & Rt & [Hm Hv] & Rs'); auto.
  { intros o Ho. apply (@final_mats _ _ Y) in Ho. apply Num in Ho. destruct (const_leaf rho Ho) as (_ & A & B). split; [exact A|]. split; [exact B|]. now apply const_settled. }
  exists e, n'. split; [exact E|]. exists p, s'. split; [exact Rt|]. cbn [mr mc mf] in Hm, Hv.
  unfold final_layer in Hm, Hv at 1 2. cbn [frows fcols] in Hm, Hv. fold (last_layer (g_rows G X) X ls) in Hm, Hv. rewrite D1, D2 in Hm, Hv.
  split; [exact Hm|]. split; [exact Rs'|]. intros i Hi.
  assert (Q : forall u, u < classes -> val (mm s') p i u = softmax classes z i u).
  { intros u Hu. rewrite Hv by auto. apply (@final_value (g_rows G) (g_cols G) (at_ij G rho) _ PB X eq_refl ls Sh). }
  split.
  - intros u Hu. rewrite (Q u Hu). split; [reflexivity|]. now apply (@softmax_pos (g_rows G) (g_cols G) (at_ij G rho) X ls PC).
  - transitivity (total classes (softmax classes z i)); [apply total_ext; exact Q|]. now apply (@softmax_one (g_rows G) (g_cols G) (at_ij G rho) X ls PC).
Qed.
Print Assumptions C80_prediction.

(** ** Error *)
(** With one-hot labels (C79) the error is the cross entropy: the sum over the samples of minus the logarithm of the
    probability predicted for the label. *)
Theorem C80_error : forall (S : sched R), valid_sched S ->
  forall (h : handler) (G : graph R) host rank, wf_graph G host rank ->
  forall s, reached S h G host s ->
  forall rho K, lib_ok G rho K ->
  forall X Y ls, of_numbers G (net_mats X Y ls) -> shapes (g_rows G) (g_cols G) (g_rows G X) (g_cols G X) ls ->
  let classes := width (g_rows G) (g_cols G X) ls in g_rows G Y = g_rows G X -> g_cols G Y = classes ->
  forall label, (forall i, i < g_rows G X -> label i < classes /\
    forall u, u < classes -> at_ij G rho Y i u = if u =? label i then 1%R else 0%R) ->
  forall n, (forall i, n <= i -> host i = None) ->
  let z := scores (g_cols G) (at_ij G rho) X ls in
  exists e n', make G K (cfun_val CLog) (cfun_val CDLog) (cfun_val CSqrt) (cfun_val CDSqrt) (error_call (g_rows G X) X Y ls) n = Some (e, n') /\
    exists p s', returns S h G (AEval rho e) s p s' /\ is_mat (mm s') p 1 1 /\ reached S h G host s' /\
      val (mm s') p 0 0 = total (g_rows G X) (fun i => ln (total classes (fun u => exp (z i u))) - z i (label i))%R.
Proof.
  intros S VS h G host rank WF s Rs rho K HK X Y ls Num Sh classes Y1 Y2 label Lab n Hn z.
  destruct (wf_pos WF X) as [PB PX].
  assert (PC : 0 < classes) by (pose proof (proj2 (wf_pos WF Y)) as Q; rewrite Y2 in Q; exact Q).
  destruct (@error_dims (g_rows G) (g_cols G) (at_ij G rho) _ PB X eq_refl ls Sh Y (conj Y1 Y2)) as (D1 & D2 & Ok).
  destruct (@C45_values S VS h G host rank WF s Rs rho K HK _ _ _ _ library_log_sqrt (at_ij G rho) (error_call (g_rows G X) X Y ls)) with (n := n)
    as (e & n' & E & p & s' & Rt & [Hm Hv] & Rs'); auto.
  { intros o Ho. apply error_mats in Ho. apply Num in Ho. destruct (const_leaf rho Ho) as (_ & A & B). split; [exact A|]. split; [exact B|]. now apply const_settled. }
  exists e, n'. split; [exact E|]. exists p, s'. split; [exact Rt|]. cbn [mr mc mf] in Hm, Hv. rewrite D1, D2 in Hm, Hv.
  split; [exact Hm|]. split; [exact Rs'|]. rewrite Hv by lia.
  exact (@error_value (g_rows G) (g_cols G) (at_ij G rho) _ PB X eq_refl ls Sh PC Y (conj Y1 Y2) label Lab 0 0).
Qed.
Print Assumptions C80_error.

(** Two samples with four inputs, two layers of three units each, labels 0 and 1; all weights 1. *)
Lemma fx_ones r c : g_rows fx_graph (encode 0 r c) = Nat.max 1 r /\ g_cols fx_graph (encode 0 r c) = Nat.max 1 c /\
  g_kind fx_graph (encode 0 r c) = LConst /\ forall t n, e_val (fx_env t) (encode 0 r c) n = 1%R.
Proof. cbn [g_rows g_cols g_kind fx_graph e_val fx_env]. unfold fx_dims. rewrite decode_encode. repeat split; intros; now rewrite decode_encode. Qed.
Lemma fx_labels : g_rows fx_graph (encode 5 2 1) = 2 /\ g_cols fx_graph (encode 5 2 1) = 3 /\ g_kind fx_graph (encode 5 2 1) = LConst /\
  forall t n, e_val (fx_env t) (encode 5 2 1) n = delta (n / 3) (n mod 3).
Proof. cbn [g_rows g_cols g_kind fx_graph e_val fx_env]. unfold fx_dims. rewrite decode_encode. repeat split; intros; now rewrite decode_encode. Qed.
Definition fx_net : list neuron :=
  [Neuron (encode 0 3 4) (encode 0 3 1) (encode 0 2 3); Neuron (encode 0 3 3) (encode 0 3 1) (encode 0 2 3)].
Example C80_nonvacuous :
  let G := fx_graph in let X := encode 0 2 4 in let Y := encode 5 2 1 in
  wf_graph G (fun _ => None) (fun o => o) /\ (forall h, reached (in_order (T := R)) h G (fun _ => None) (init memR)) /\
  lib_ok G (fx_env 1) fx_lib /\ of_numbers G (net_mats X Y fx_net) /\ shapes (g_rows G) (g_cols G) (g_rows G X) (g_cols G X) fx_net /\
  g_rows G Y = g_rows G X /\ g_cols G Y = width (g_rows G) (g_cols G X) fx_net /\
  (forall i, i < g_rows G X -> i < width (g_rows G) (g_cols G X) fx_net /\
     forall u, u < width (g_rows G) (g_cols G X) fx_net -> at_ij G (fx_env 1) Y i u = if u =? i then 1%R else 0%R) /\
  scores (g_cols G) (at_ij G (fx_env 1)) X fx_net 1 2 = 16%R.
Proof.
  cbv zeta. split; [exact fx_wf|]. split.
  { intros h. constructor. split; [|split; [split|]].
    - intros p o H. destruct p; discriminate.
    - intros p o H. destruct p; discriminate.
    - intros p q o o' H. destruct p; discriminate.
    - intros k sp R0 C p []. }
  split; [exact (fx_lib_ok 1)|].
  destruct fx_labels as (Y1 & Y2 & Y3 & Y4).
  split. { intros o Ho. unfold net_mats, fx_net in Ho. cbn [flat_map app w_of b_of d_of In] in Ho.
    repeat (destruct Ho as [<-|Ho]; [solve [exact Y3|apply fx_ones]|]). destruct Ho. }
  assert (D : forall r c, g_rows fx_graph (encode 0 r c) = Nat.max 1 r /\ g_cols fx_graph (encode 0 r c) = Nat.max 1 c) by (intros r c; split; apply fx_ones).
  split. { unfold fx_net. cbn [shapes w_of b_of d_of]. rewrite !(fun r c => proj1 (D r c)), !(fun r c => proj2 (D r c)). repeat split. }
  assert (Wd : width (g_rows fx_graph) (g_cols fx_graph (encode 0 2 4)) fx_net = 3).
  { unfold fx_net. cbn [width w_of]. now rewrite (proj1 (D 3 3)). }
  rewrite Wd, Y1, Y2, (proj1 (D 2 4)). split; [reflexivity|]. split; [reflexivity|]. split.
  - intros i Hi. change (Nat.max 1 2) with 2 in Hi. split; [lia|]. intros u Hu. unfold at_ij. rewrite Y4, Y2.
    destruct (divmod_block i Hu) as [-> ->]. unfold delta. now rewrite Nat.eqb_sym.
  - assert (O : forall r c i j, at_ij fx_graph (fx_env 1) (encode 0 r c) i j = 1%R) by (intros; unfold at_ij; apply fx_ones).
    unfold scores, fx_net. cbn [fold_left]. unfold unit_out. cbn [w_of b_of d_of]. rewrite !(fun r c => proj2 (D r c)). cbn [Nat.max total].
    rewrite !O.
    assert (L : forall x, (0 <= x)%R -> leaky x = x) by (intros x Hx; unfold leaky; destruct (Rle_dec 0 x); [reflexivity|contradiction]).
    rewrite !(L (0 + 1 * 1 + 1 * 1 + 1 * 1 + 1 * 1 + 1)%R) by lra. rewrite L by lra. lra.
Qed.
