(** * C81: gradients of objectives written with the library's functions *)
From Coq Require Import List Arith Bool Lia ZArith Permutation Reals Lra.
From Verif Require Import Num NumInst MatMem Kernels KernelFacts KernelProofs KernelBlocks KernelMore Registry KernelStep Backend Slots Exec Sums ConvProofs ConvDerv MatEngine MatGraph MatLeaf MatEval MatDeval MatHist MatSpec MatCalls MatFuel MatCalc Calculus MatRev MatInplace RevVals MatRevOk MatRevCall MatRevHist PropMatrix PropReverse Param EnvExt Misc PropSquare Activation MatFunSpec MatFun MatFunOk PropMatFun MatFunGrad ExampleNet PropNet Threads Train TrainSpec TrainOk TrainRun TrainAll TrainCalc PropTrain.
Import ListNotations.
Set Implicit Arguments.
Unset Strict Implicit.
Local Open Scope nat_scope.
Notation R := Rdefinitions.R.

(** The entries of the matrices: st o k is the k-th number of matrix o, row after row. *)
Definition entry_of (G : graph R) (st : store (T := R)) (o i j : nat) : R := st o (i * g_cols G o + j).
(** DevalR(F, w) for the matrices w of a list, one after the other, from state s: the result has the size of w, and its entry
    (i,j) is the derivative of the number f, which depends on the entries of all matrices, by the entry (i,j) of w. *)
Fixpoint slopes (G : graph R) (st : store (T := R)) (F : obj) (f : store (T := R) -> R) (l : list obj) (s : rst (T := R)) : Prop :=
  match l with
  | [] => True
  | w :: t => exists p s', DevalR G F w s = EOk (p, s') /\ is_mat (mm (rb s')) p (g_rows G w) (g_cols G w) /\
      (forall i j, i < g_rows G w -> j < g_cols G w ->
         derivable_pt_lim (fun u => f (put st w (i * g_cols G w + j) u)) (st w (i * g_cols G w + j)) (val (mm (rb s')) p i j)) /\
      slopes G st F f t s'
  end.

Section One.
Variable G : graph R.
Variable host : nat -> option obj.
Variable rank : obj -> nat.
Hypothesis WF : wf_graph G host rank.
Variable st : store (T := R).
Variable K : lib.
Hypothesis HK : lib_ok G (env_of st) K.
Variables lg dlg sq dsq : R -> R.
Hypothesis LS : log_sqrt lg dlg sq dsq.
Variable d : fexp.
Hypothesis Num : forall o, In o (fmats d) -> g_kind G o = LConst \/ g_kind G o = LVar.
Hypothesis Ok : fok (g_rows G) (g_cols G) (entry_of G st) d.
Hypothesis Sm : fsmooth (g_rows G) (g_cols G) (entry_of G st) d.

Lemma num_den H rho o : g_cols H o = g_cols G o -> g_kind H o = LConst \/ g_kind H o = LVar -> fits H (MLeaf o) /\ den H rho (MLeaf o) (fun i j => e_val rho o (i * g_cols G o + j)) /\ is_leaf H o.
Proof.
  intros Ec Hk. assert (L : is_leaf H o) by (unfold is_leaf; destruct Hk as [->| ->]; exact Logic.I). split; [now constructor|]. split; [|exact L].
  rewrite <- Ec. apply den_leaf; [exact L|]. destruct Hk as [E|E]; rewrite E; discriminate.
Qed.
Lemma smooth_num H rho o : is_leaf H o -> MatCalc.smooth H rho (MLeaf o).
Proof. intros. now constructor. Qed.
Lemma built_fits n e n' : make G K lg dlg sq dsq d n = Some (e, n') -> fits G e.
Proof.
  intros E. destruct LS as (LG & SQ & DSQ).
  assert (M : makes G (fun _ => env_of st) 0%R False (fmats d) (make G K lg dlg sq dsq d) (frows (g_rows G) (g_cols G) d) (fcols (g_rows G) (g_cols G) d) (fun _ => fval (g_rows G) (g_cols G) (entry_of G st) d)).
  { apply (make_ok WF (rho_ := fun _ => env_of st) (fun _ => HK) LG SQ DSQ (fun e He _ => cont_const (env_of st) 0%R He) (V_ := fun _ => entry_of G st)); [|exact Ok|tauto].
    intros o Ho. destruct (num_den (H := G) (env_of st) eq_refl (Num Ho)) as (A & B & C). split; [exact Ho|]. split; [exact A|]. split; [intros _; exact B|tauto]. }
  destruct (M n) as (e1 & n1 & E1 & _ & _ & _ & Gd). rewrite E in E1. injection E1 as <- <-. exact (gd_fits Gd).
Qed.
(** The value of the expression built. *)
Lemma built_value n e n' F0 : make G K lg dlg sq dsq d n = Some (e, n') -> den G (env_of st) e F0 ->
  forall i j, i < frows (g_rows G) (g_cols G) d -> j < fcols (g_rows G) (g_cols G) d -> F0 i j = fval (g_rows G) (g_cols G) (entry_of G st) d i j.
Proof.
  intros E HF. destruct LS as (LG & SQ & DSQ).
  assert (M : makes G (fun _ => env_of st) 0%R False (fmats d) (make G K lg dlg sq dsq d) (frows (g_rows G) (g_cols G) d) (fcols (g_rows G) (g_cols G) d) (fun _ => fval (g_rows G) (g_cols G) (entry_of G st) d)).
  { apply (make_ok WF (rho_ := fun _ => env_of st) (fun _ => HK) LG SQ DSQ (fun e He _ => cont_const (env_of st) 0%R He) (V_ := fun _ => entry_of G st)); [|exact Ok|tauto].
    intros o Ho. destruct (num_den (H := G) (env_of st) eq_refl (Num Ho)) as (A & B & C). split; [exact Ho|]. split; [exact A|]. split; [intros _; exact B|tauto]. }
  destruct (M n) as (e1 & n1 & E1 & _ & _ & _ & Gd). rewrite E in E1. injection E1 as <- <-. intros i j Hi Hj. exact (good_here Gd HF Hi Hj).
Qed.
(** The expression built fits and is smooth. *)
Lemma built n e n' : make G K lg dlg sq dsq d n = Some (e, n') ->
  fits G e /\ MatCalc.smooth G (env_of st) e /\ rows G e = frows (g_rows G) (g_cols G) d /\ cols G e = fcols (g_rows G) (g_cols G) d.
Proof.
  intros E. destruct LS as (LG & SQ & DSQ).
  assert (M : makes G (fun _ => env_of st) 0%R True (fmats d) (make G K lg dlg sq dsq d) (frows (g_rows G) (g_cols G) d) (fcols (g_rows G) (g_cols G) d) (fun _ => fval (g_rows G) (g_cols G) (entry_of G st) d)).
  { apply (make_ok WF (rho_ := fun _ => env_of st) (fun _ => HK) LG SQ DSQ (fun e He _ => cont_const (env_of st) 0%R He) (V_ := fun _ => entry_of G st)); [|exact Ok|auto].
    intros o Ho. destruct (num_den (H := G) (env_of st) eq_refl (Num Ho)) as (A & B & C). split; [exact Ho|]. split; [exact A|]. split; [intros _; exact B|]. intros _. now apply smooth_num. }
  destruct (M n) as (e1 & n1 & E1 & _ & _ & _ & Gd). rewrite E in E1. injection E1 as <- <-.
  split; [exact (gd_fits Gd)|]. split; [exact (gd_smooth Gd Logic.I)|]. split; [exact (gd_rows Gd)|exact (gd_cols Gd)].
Qed.
Variable w : obj.
Hypothesis Kw : g_kind G w = LConst.
Hypothesis Ow : own K w.
Lemma entry_slope n e n' F0 D i j : make G K lg dlg sq dsq d n = Some (e, n') -> dif (as_var G w) (env_of st) w e F0 D -> i < g_rows G w -> j < g_cols G w ->
  forall l k, l < rows G e -> k < cols G e ->
  derivable_pt_lim (fun u => fval (g_rows G) (g_cols G) (entry_of G (put st w (i * g_cols G w + j) u)) d l k) (st w (i * g_cols G w + j)) (D l k i j).
Proof.
  intros E HD Hi Hj l k Bl Bk. destruct (built E) as (Hf & Hs & Er & Ec).
  destruct (grad_calculus WF Kw Hf Hs HD Hi Hj) as (Ft & HF & Hl).
  set (m := i * g_cols G w + j) in *. set (t0 := st w m) in *. destruct LS as (LG & SQ & DSQ).
  pose proof (or_introl Kw : g_kind G w = LConst \/ g_kind G w = LVar) as Hx.
  assert (E0 : forall o q, put st w m t0 o q = st o q).
  { intros o q. unfold put. destruct (Nat.eqb_spec o w) as [->|]; [|reflexivity]. destruct (Nat.eqb_spec q m) as [->|]; reflexivity. }
  assert (Va : varies (as_var G w) w i j (fun t => env_of (put st w m t)) t0).
  { constructor; cbn [as_var g_cols g_kind env_of e_val e_der].
    + intros t. fold m. apply put_same.
    + intros t o q _ Q. fold m in Q. unfold put. destruct (Nat.eqb_spec o w) as [->|]; [|reflexivity]. destruct (Nat.eqb_spec q m) as [->|]; [|reflexivity]. destruct Q as [Q|Q]; now elim Q.
    + intros t o q Q. unfold put. destruct (o =? w); [discriminate|reflexivity].
    + intros o q Q. destruct (o =? w) eqn:Eo; [discriminate|]. unfold put. rewrite Eo. cbn [andb]. apply (derivable_pt_lim_const (st o q)). }
  assert (HK' : forall t, lib_ok (as_var G w) (env_of (put st w m t)) K).
  { intros t. apply (lib_turn Ow HK); [rewrite Kw; discriminate|]. intros o q Ne. cbn [env_of e_val]. unfold put. apply Nat.eqb_neq in Ne. now rewrite Ne. }
  pose proof (as_var_wf Hx WF) as WF'.
  assert (M : makes (as_var G w) (fun t => env_of (put st w m t)) t0 True (fmats d) (make (as_var G w) K lg dlg sq dsq d) (frows (g_rows G) (g_cols G) d) (fcols (g_rows G) (g_cols G) d)
                (fun t => fval (g_rows G) (g_cols G) (entry_of G (put st w m t)) d)).
  { apply (make_ok WF' HK' LG SQ DSQ (fun e He Hs => cont_varies WF' (Hi : i < g_rows (as_var G w) w) (Hj : j < g_cols (as_var G w) w) Va He (Hs Logic.I)) (V_ := fun t => entry_of G (put st w m t))).
    - intros o Ho. assert (Hk : g_kind (as_var G w) o = LConst \/ g_kind (as_var G w) o = LVar).
      { cbn [as_var g_kind]. destruct (o =? w); [now right|now apply Num]. }
      destruct (num_den (H := as_var G w) (env_of st) eq_refl Hk) as (A & _ & C). split; [exact Ho|]. split; [exact A|]. split; [|intros _; now apply smooth_num].
      intros t. exact (proj1 (proj2 (num_den (H := as_var G w) (env_of (put st w m t)) eq_refl Hk))).
    - apply (fok_ext (V := entry_of G st)); [|exact Ok]. intros o a b. unfold entry_of. now rewrite E0.
    - intros _. apply (fsmooth_ext (V := entry_of G st)); [|exact Sm]. intros o a b. unfold entry_of. now rewrite E0. }
  assert (Mk : make (as_var G w) K lg dlg sq dsq d = make G K lg dlg sq dsq d).
  { reflexivity. }
  rewrite Mk in M. destruct (M n) as (e1 & n1 & E1 & _ & _ & _ & Gd). rewrite E in E1. injection E1 as <- <-.
  destruct (gd_val Gd) as (del & Pd & Q).
  apply (Calculus.dlim_loc (fun t => Ft t l k) (fun t => fval (g_rows G) (g_cols G) (entry_of G (put st w m t)) d l k) t0 _ del Pd).
  - intros t Ht. destruct (Q t Ht) as (F & HF' & EF). rewrite <- EF by congruence. apply (proj1 (as_var_den Hx _ _ _)) in HF'. now rewrite (den_det (HF t) HF').
  - now apply Hl.
Qed.
End One.

(** ** The objective written with the library's functions *)
(** F is the Matrix<Expression> that holds what the calls d build; its value is one number.  After any history: PreComp(F),
    then DevalR(F, w) for any matrices of numbers w that occur in d, in any order. *)
Theorem C81_gradient : forall (S : sched R), valid_sched S ->
  forall (h : handler) (G : graph R) host rank, wf_graph G host rank ->
  forall ord, (forall c, Permutation (ord c) c) ->
  forall s, rreached S (backend_of S h) G ord host s ->
  forall (st : store (T := R)) K, lib_ok G (env_of st) K -> forall lg dlg sq dsq, log_sqrt lg dlg sq dsq ->
  forall d, (forall o, In o (fmats d) -> g_kind G o = LConst \/ g_kind G o = LVar) ->
  frows (g_rows G) (g_cols G) d = 1 -> fcols (g_rows G) (g_cols G) d = 1 ->
  fok (g_rows G) (g_cols G) (entry_of G st) d -> fsmooth (g_rows G) (g_cols G) (entry_of G st) d ->
  forall n e n', make G K lg dlg sq dsq d n = Some (e, n') ->
  forall F id y, rev_root G F id e y ->
  forall l, (forall w, In w l -> mentions w d /\ g_kind G w = LConst /\ own K w) ->
  exists s', precomputes S h G ord (env_of st) F s s' /\ slopes G st F (fun st' => fval (g_rows G) (g_cols G) (entry_of G st') d 0 0) l s' /\ rreached S (backend_of S h) G ord host s'.
Proof.
  intros S VS h G host rank WF ord Ho s Rs st K HK lg dlg sq dsq LS d Num R1 C1 Ok Sm n e n' E F id y Hr l Hl.
  destruct (built WF HK LS Num Ok Sm E) as (Hf & Hs & Er & Ec).
  assert (Lv : forall w, In w l -> In w (leaves e)).
  { intros w Hw. destruct (Hl w Hw) as (M & _). exact (make_keeps M E). }
  destruct (@C64_gradient_by_numbers R NumR LawsR S VS h G host rank WF ord Ho s Rs (env_of st) F id e y Hr (smooth_solvable Hs) l) as (s1 & E1 & Q & Rs1).
  { intros w Hw. destruct (Hl w Hw) as (M & Kw & Ow). split; [now apply Lv|].
    assert (U : forall o, In o (y :: keyed e) -> g_nidx G o = g_nidx G w -> o = w).
    { intros o Hin. apply (rr_ids Hr); [exact Hin|]. right. apply in_or_app. left. now apply Lv. }
    split; [now left|]. split.
    - intros o Hin. split; [apply U|reflexivity]. destruct Hin as [Hin|Hin]; [now left|right; apply in_or_app; now left].
    - intros so vs Q. split; [|reflexivity]. intros v Hv. apply U. right. apply in_or_app. right. unfold svars. apply in_flat_map. exists (so, vs). auto. }
  exists s1. split; [exact E1|]. split; [|exact Rs1]. clear Rs E1 Rs1 Lv. revert s1 Q.
  induction l as [|w l IH]; intros s1 Q; cbn [gradients slopes] in *; [auto|].
  destruct Q as (p & s' & F0 & D & E2 & HD & [Hm Hv] & Q). destruct (Hl w (or_introl eq_refl)) as (M & Kw & Ow).
  exists p, s'. split; [exact E2|]. split; [exact Hm|]. split; [|apply IH; [intros w' Hw'; apply Hl; now right|exact Q]].
  intros i j Hi Hj. cbn [mr mc mf] in Hv. rewrite Hv by auto. destruct (wf_dims WF (rr_kind Hr)) as [Q1 _]. rewrite Q1, Er, R1, (sum_1 LawsR).
  apply (entry_slope WF HK LS Num Ok Sm Kw Ow E HD Hi Hj); [rewrite Er, R1|rewrite Ec, C1]; lia.
Qed.
Print Assumptions C81_gradient.

(** ** The error of the neural network example *)
Lemma slopes_ext G st F (f f' : store (T := R) -> R) l : (forall w k t, In w l -> f (put st w k t) = f' (put st w k t)) -> forall s, slopes G st F f l s -> slopes G st F f' l s.
Proof.
  induction l as [|w l IH]; intros E s H; cbn [slopes] in *; [auto|]. destruct H as (p & s' & A & B & C & D). exists p, s'. split; [exact A|]. split; [exact B|]. split.
  - intros i j Hi Hj. apply (Calculus.dlim_loc (fun u => f (put st w (i * g_cols G w + j) u)) (fun u => f' (put st w (i * g_cols G w + j) u)) _ _ 1); [lra|intros u _; apply E; now left|now apply C].
  - apply IH; [intros w' k t Hw; apply E; now right|exact D].
Qed.
Lemma mentions_layers batch o ls : forall h, mentions o h \/ (exists l, In l ls /\ (o = w_of l \/ o = b_of l)) -> mentions o (fold_left (layer_call batch) ls h).
Proof.
  induction ls as [|l ls IH]; intros h [H|H]; cbn [fold_left]; auto.
  - destruct H as (l & [] & _).
  - apply IH. left. cbn [layer_call mentions]. auto.
  - apply IH. destruct H as (l' & [->|Hin] & Q); [left; cbn [layer_call mentions]; destruct Q as [->| ->]; auto|right; eauto].
Qed.
Section NetSmooth.
Variables dr dc : nat -> nat.
Variable V : nat -> nat -> nat -> R.
Variable batch : nat.

Lemma net_smooth ls : forall h F n, frows dr dc h = batch -> fcols dr dc h = n -> shapes dr dc batch n ls ->
  (forall i u, fval dr dc V h i u = F i u) -> fsmooth dr dc V h -> off_kinks dc V batch F ls -> fsmooth dr dc V (fold_left (layer_call batch) ls h).
Proof.
  induction ls as [|l ls IH]; intros h F n Hr Hc Hs HF Sm Ho; cbn [fold_left]; [exact Sm|].
  destruct Hs as (E1 & E2 & E3 & E4 & E5 & Hs). destruct Ho as [Hk Ho].
  apply (IH (layer_call batch h l) (unit_out dc V F l) (dr (w_of l))); [cbn; exact E4|cbn; exact E5|exact Hs| | |exact Ho].
  - intros i u. exact (@net_value dr dc V batch [l] h F n Hr Hc (conj E1 (conj E2 (conj E3 (conj E4 (conj E5 Logic.I))))) HF i u).
  - cbn [layer_call fsmooth]. repeat (split; [solve [exact Sm|exact Logic.I|repeat split; exact Sm]|]). cbn [frows fcols]. intros i u Hi Hu. rewrite Hr in Hi.
    apply (table_ok Activation.LeakyReLUM); [exact Logic.I|]. cbn [Activation.smooth fval]. rewrite Hc.
    intros Q. rewrite <- E5 in Hu. apply (Hk i u Hi Hu). rewrite <- Q. unfold pre_act. f_equal. rewrite E1. apply total_ext. intros v _. rewrite HF. ring.
Qed.
End NetSmooth.
Lemma net_fsmooth dr dc V batch X Y ls classes : 0 < batch -> dr X = batch -> shapes dr dc batch (dc X) ls -> classes = width dr (dc X) ls -> 0 < classes ->
  off_kinks dc V batch (V X) ls -> fsmooth dr dc V (error_call batch X Y ls).
Proof.
  intros PB HX Sh -> PC Ok. unfold error_call, final_layer. cbn [fsmooth]. split; [exact Logic.I|].
  destruct (@last_dims dr dc V _ PB X HX ls Sh) as (L1 & L2 & _). split.
  - apply (@net_smooth dr dc V batch ls (XMat X) (V X) (dc X)); auto. exact Logic.I.
  - intros i u Hi Hu. fold (last_layer batch X ls). fold (final_layer batch X ls). rewrite (@final_value dr dc V _ PB X HX ls Sh).
    apply (table_ok Activation.LogM); [|exact Logic.I]. cbn [Activation.mdom]. now apply (@softmax_pos dr dc V X ls PC).
Qed.
(** The cross entropy is differentiated: DevalR(error, W) after PreComp(error), for any weights and biases, one after the
    other, at points where no unit is at the kink of its LeakyReLU. *)
Theorem C81_network : forall (S : sched R), valid_sched S ->
  forall (h : handler) (G : graph R) host rank, wf_graph G host rank ->
  forall ord, (forall c, Permutation (ord c) c) ->
  forall s, rreached S (backend_of S h) G ord host s ->
  forall (st : store (T := R)) K, lib_ok G (env_of st) K ->
  forall X Y ls, of_numbers G (net_mats X Y ls) -> shapes (g_rows G) (g_cols G) (g_rows G X) (g_cols G X) ls ->
  let classes := width (g_rows G) (g_cols G X) ls in g_rows G Y = g_rows G X -> g_cols G Y = classes ->
  forall label, (forall i, i < g_rows G X -> label i < classes /\
    forall u, u < classes -> entry_of G st Y i u = if u =? label i then 1%R else 0%R) ->
  off_kinks (g_cols G) (entry_of G st) (g_rows G X) (entry_of G st X) ls ->
  forall n e n', make G K (cfun_val CLog) (cfun_val CDLog) (cfun_val CSqrt) (cfun_val CDSqrt) (error_call (g_rows G X) X Y ls) n = Some (e, n') ->
  forall F id y, rev_root G F id e y ->
  forall l, (forall w, In w l -> (exists u, In u ls /\ (w = w_of u \/ w = b_of u)) /\ w <> Y /\ own K w) ->
  exists s', precomputes S h G ord (env_of st) F s s' /\
    slopes G st F (fun st' => cross_entropy (g_rows G X) classes (scores (g_cols G) (entry_of G st') X ls) label) l s' /\
    rreached S (backend_of S h) G ord host s'.
Proof.
  intros S VS h G host rank WF ord Ho s Rs st K HK X Y ls Num Sh classes Y1 Y2 label Lab Ok n e n' E F id y Hr l Hl.
  destruct (wf_pos WF X) as [PB PX].
  assert (PC : 0 < classes) by (pose proof (proj2 (wf_pos WF Y)) as Q; rewrite Y2 in Q; exact Q).
  destruct (@error_dims (g_rows G) (g_cols G) (entry_of G st) _ PB X eq_refl ls Sh Y (conj Y1 Y2)) as (D1 & D2 & Fok).
  destruct (@C81_gradient S VS h G host rank WF ord Ho s Rs st K HK _ _ _ _ library_log_sqrt (error_call (g_rows G X) X Y ls)) with (n := n) (e := e) (n' := n') (F := F) (id := id) (y := y) (l := l)
    as (s' & A & B & C); auto.
  - intros o Hin. left. apply Num. exact (error_mats Hin).
  - now apply (@net_fsmooth (g_rows G) (g_cols G) (entry_of G st) (g_rows G X) X Y ls classes).
  - intros w Hw. destruct (Hl w Hw) as ((u & Hu & Q) & _ & Ow). split; [|split; [|exact Ow]].
    + unfold error_call, final_layer. cbn [mentions]. right. apply mentions_layers. right. eauto.
    + apply Num. unfold net_mats. right. right. apply in_flat_map. exists u. split; [exact Hu|]. destruct Q as [->| ->]; simpl; auto.
  - exists s'. split; [exact A|]. split; [|exact C]. refine (@slopes_ext _ _ _ _ _ _ _ _ B).
    intros w k t Hw. destruct (Hl w Hw) as (_ & Ny & _).
    apply (@error_value (g_rows G) (g_cols G) (entry_of G (put st w k t)) _ PB X eq_refl ls Sh PC Y (conj Y1 Y2) label).
    intros i Hi. destruct (Lab i Hi) as [P Q]. split; [exact P|]. intros u Hu. rewrite <- (Q u Hu). unfold entry_of, put.
    destruct (Nat.eqb_spec Y w) as [Eq|]; [now elim Ny|reflexivity].
Qed.
Print Assumptions C81_network.

(** Two samples with four inputs, two layers of four units each, labels 0 and 1; all weights 1.  The Matrix<Expression>
    object fg_F holds the error. *)
Definition fg_F : obj := encode 7 1 1.
Definition fg_X : obj := encode 0 2 4.
Definition fg_Y : obj := encode 5 2 2.
Definition fg_eye : obj := encode 1 1 1.
Definition fg_W (k : nat) : obj := encode 2 4 k.
Definition fg_net : list neuron := [Neuron (fg_W 0) (encode 0 4 1) (encode 0 2 4); Neuron (fg_W 1) (encode 0 4 1) (encode 0 2 4)].
Definition fg_st : store (T := R) := fun o k => if (o =? fg_W 0) || (o =? fg_W 1) then 1%R else e_val (fx_env 1) o k.
Definition fg_with (id : nat) (e : mexp R) : graph R :=
  Graph (fun o => if o =? fg_F then KExp id e fg_eye else g_kind fx_graph o) (g_rows fx_graph) (g_cols fx_graph) (fun o => o) (fun o n => n).
Lemma encode_inj t r c t' r' c' : encode t r c = encode t' r' c' -> (t, (r, c)) = (t', (r', c')).
Proof. intros E. apply (f_equal decode) in E. rewrite !decode_encode in E. now injection E as -> -> ->. Qed.
Lemma fg_other t r c : t <> 7 -> (encode t r c =? fg_F) = false.
Proof. intros H. apply Nat.eqb_neq. intros E. apply encode_inj in E. congruence. Qed.
Lemma fg_entries t r c k : t <> 2 \/ r = c -> fg_st (encode t r c) k = e_val (fx_env 1) (encode t r c) k.
Proof.
  intros H. unfold fg_st. destruct (Nat.eqb_spec (encode t r c) (fg_W 0)) as [E|_]; [apply encode_inj in E; injection E as -> -> ->; lia|].
  destruct (Nat.eqb_spec (encode t r c) (fg_W 1)) as [E|_]; [apply encode_inj in E; injection E as -> -> ->; lia|]. reflexivity.
Qed.
Lemma fg_dims : g_rows fx_graph fg_F = 1 /\ g_cols fx_graph fg_F = 1 /\ g_kind fx_graph fg_eye = LEye /\ g_rows fx_graph fg_eye = 1 /\ g_cols fx_graph fg_eye = 1.
Proof. unfold fg_F, fg_eye. cbn [g_rows g_cols g_kind fx_graph]. unfold fx_dims. rewrite !decode_encode. repeat split. Qed.
Lemma fg_leaf id e id' e' o : is_leaf (fg_with id e) o -> is_leaf (fg_with id' e') o.
Proof. unfold is_leaf. cbn [fg_with g_kind]. destruct (o =? fg_F); auto. Qed.
Lemma fg_wf id e : ~ In fg_F (leaves e) -> NoDup (id :: nodes e) -> rows (fg_with id e) e = 1 -> cols (fg_with id e) e = 1 ->
  wf_graph (fg_with id e) (fun _ => Some fg_F) (fun o => if o =? fg_F then 1 else 0).
Proof.
  intros Nf Nd R1 C1. destruct fg_dims as (Q1 & Q2 & Q3 & Q4 & Q5).
  assert (A : forall o id' e' y, g_kind (fg_with id e) o = KExp id' e' y -> o = fg_F /\ id' = id /\ e' = e /\ y = fg_eye).
  { intros o id' e' y H. cbn [fg_with g_kind] in H. destruct (Nat.eqb_spec o fg_F) as [->|]; [injection H as <- <- <-; auto|].
    cbn [fx_graph g_kind] in H. destruct (decode o) as [[[|[|t]] q]|]; discriminate. }
  split.
  - intros o. apply (wf_pos fx_wf).
  - intros o id' e' y o' H Hin. destruct (A _ _ _ _ H) as (-> & -> & -> & ->). rewrite Nat.eqb_refl. cbn [item leaves] in Hin.
    assert (Ne : o' <> fg_F).
    { intros ->. apply in_app_iff in Hin. destruct Hin as [Hin|[Hin|[]]]; [now apply Nf|]. apply encode_inj in Hin. discriminate. }
    apply Nat.eqb_neq in Ne. rewrite Ne. lia.
  - intros o id' e' y H. destruct (A _ _ _ _ H) as (-> & -> & -> & ->). cbn [item nodes]. rewrite app_nil_r. split; [exact Nd|auto].
  - intros o id' e' y H. destruct (A _ _ _ _ H) as (-> & -> & -> & ->). rewrite R1, C1. auto.
  - intros o id' e' y H. destruct (A _ _ _ _ H) as (-> & -> & -> & ->). rewrite C1. split; [|auto].
    cbn [fg_with g_kind]. unfold fg_eye. rewrite fg_other by discriminate. exact Q3.
Qed.
Lemma fg_lib id e : lib_ok (fg_with id e) (env_of fg_st) fx_lib.
Proof.
  assert (Kd : forall t r c, t <> 7 -> g_kind (fg_with id e) (encode t r c) = g_kind fx_graph (encode t r c)).
  { intros t r c Ht. cbn [fg_with g_kind]. now rewrite fg_other. }
  assert (En : forall t r c k, t <> 2 \/ r = c -> e_val (env_of fg_st) (encode t r c) k = e_val (fx_env 1) (encode t r c) k) by (intros; now apply fg_entries).
  destruct (fx_lib_ok 1) as [A B C D E F H]. split; intros.
  - cbn [fx_lib l_ones]. rewrite Kd by discriminate. destruct (A r c ltac:(assumption) ltac:(assumption)) as (Q1 & Q2 & Q3 & Q4).
    split; [exact Q1|]. split; [exact Q2|]. split; [exact Q3|]. intros i j Hi Hj. rewrite En by (left; discriminate). exact (Q4 i j Hi Hj).
  - cbn [fx_lib l_eye]. rewrite Kd by discriminate. exact (B n ltac:(assumption)).
  - cbn [fx_lib l_zeros]. rewrite Kd by discriminate. destruct (C n ltac:(assumption)) as (Q1 & Q2 & Q3 & Q4).
    split; [exact Q1|]. split; [exact Q2|]. split; [exact Q3|]. intros i j Hi Hj. rewrite En by now right. exact (Q4 i j Hi Hj).
  - cbn [fx_lib l_top]. rewrite Kd by discriminate. destruct (D a b ltac:(assumption) ltac:(assumption)) as (Q1 & Q2 & Q3 & Q4).
    split; [exact Q1|]. split; [exact Q2|]. split; [exact Q3|]. intros i j Hi Hj. rewrite En by (left; discriminate). exact (Q4 i j Hi Hj).
  - cbn [fx_lib l_bottom]. rewrite Kd by discriminate. destruct (E a b ltac:(assumption) ltac:(assumption)) as (Q1 & Q2 & Q3 & Q4).
    split; [exact Q1|]. split; [exact Q2|]. split; [exact Q3|]. intros i j Hi Hj. rewrite En by (left; discriminate). exact (Q4 i j Hi Hj).
  - cbn [fx_lib l_left]. rewrite Kd by discriminate. destruct (F a b ltac:(assumption) ltac:(assumption)) as (Q1 & Q2 & Q3 & Q4).
    split; [exact Q1|]. split; [exact Q2|]. split; [exact Q3|]. intros i j Hi Hj. rewrite En by (left; discriminate). exact (Q4 i j Hi Hj).
  - cbn [fx_lib l_right]. rewrite Kd by discriminate. destruct (H a b ltac:(assumption) ltac:(assumption)) as (Q1 & Q2 & Q3 & Q4).
    split; [exact Q1|]. split; [exact Q2|]. split; [exact Q3|]. intros i j Hi Hj. rewrite En by (left; discriminate). exact (Q4 i j Hi Hj).
Qed.
Lemma fg_mats id e : let G := fg_with id e in
  (of_numbers G (net_mats fg_X fg_Y fg_net) /\ shapes (g_rows G) (g_cols G) 2 4 fg_net /\ width (g_rows G) 4 fg_net = 4) /\
  (g_rows G fg_X = 2 /\ g_cols G fg_X = 4 /\ g_rows G fg_Y = 2 /\ g_cols G fg_Y = 4) /\
  (forall i j, entry_of G fg_st fg_X i j = 1%R) /\ (forall i j, j < 4 -> entry_of G fg_st fg_Y i j = delta i j) /\
  (forall k, k < 2 -> g_rows G (fg_W k) = 4 /\ g_cols G (fg_W k) = 4 /\ own fx_lib (fg_W k) /\ fg_W k <> fg_Y /\ forall i j, entry_of G fg_st (fg_W k) i j = 1%R) /\
  off_kinks (g_cols G) (entry_of G fg_st) 2 (entry_of G fg_st fg_X) fg_net.
Proof.
  intros G.
  assert (Kd : forall t r c, t <> 7 -> g_kind G (encode t r c) = g_kind fx_graph (encode t r c)).
  { intros t r c Ht. cbn [G fg_with g_kind]. now rewrite fg_other. }
  assert (D : forall t r c, g_rows G (encode t r c) = Nat.max 1 (fst (fx_dims (encode t r c))) /\ g_cols G (encode t r c) = Nat.max 1 (snd (fx_dims (encode t r c)))) by (intros; split; reflexivity).
  assert (D0 : forall r c, fx_dims (encode 0 r c) = (r, c)) by (intros; unfold fx_dims; now rewrite decode_encode).
  assert (D2 : forall r c, fx_dims (encode 2 r c) = (r, r)) by (intros; unfold fx_dims; now rewrite decode_encode).
  assert (D5 : forall r c, fx_dims (encode 5 r c) = (r, r + c)) by (intros; unfold fx_dims; now rewrite decode_encode).
  assert (Wk : forall k, k < 2 -> forall q, fg_st (fg_W k) q = 1%R).
  { intros k Hk q. unfold fg_st. destruct k as [|[|k]]; [now rewrite Nat.eqb_refl|rewrite Nat.eqb_refl, orb_true_r; reflexivity|lia]. }
  assert (O : forall r c q, fg_st (encode 0 r c) q = 1%R).
  { intros r c q. rewrite fg_entries by (left; discriminate). cbn [e_val fx_env]. now rewrite decode_encode. }
  split; [split; [|split]|split; [|split; [|split; [|split]]]].
  - intros o Ho. unfold net_mats, fg_net in Ho. cbn [flat_map app w_of b_of d_of In] in Ho.
    repeat (destruct Ho as [<-|Ho]; [unfold fg_X, fg_Y, fg_W; rewrite Kd by discriminate; cbn [g_kind fx_graph]; now rewrite decode_encode|]). destruct Ho.
  - unfold fg_net, fg_W. cbn [shapes w_of b_of d_of]. rewrite !(fun t r c => proj1 (D t r c)), !(fun t r c => proj2 (D t r c)), !D0, !D2. repeat split.
  - unfold fg_net, fg_W. cbn [width w_of]. now rewrite (proj1 (D _ _ _)), D2.
  - unfold fg_X, fg_Y. rewrite !(fun t r c => proj1 (D t r c)), !(fun t r c => proj2 (D t r c)), D0, D5. repeat split.
  - intros i j. apply O.
  - intros i j Hj. unfold entry_of, fg_Y. rewrite (proj2 (D _ _ _)), D5, fg_entries by (left; discriminate). cbn [e_val fx_env]. rewrite decode_encode.
    destruct (divmod_block i (Hj : j < 2 + 2)) as [E1 E2]. change (Nat.max 1 (snd (2, 2 + 2))) with (2 + 2). now rewrite E1, E2.
  - intros k Hk. unfold fg_W at 1 2. rewrite (proj1 (D _ _ _)), (proj2 (D _ _ _)), D2. split; [reflexivity|]. split; [reflexivity|]. split; [|split].
    + intros a b. unfold fg_W. cbn [fx_lib l_ones l_zeros l_top l_bottom l_left l_right]. repeat split; intros E; apply encode_inj in E; try discriminate. injection E as E1 E2. lia.
    + unfold fg_W, fg_Y. intros E. apply encode_inj in E. discriminate.
    + intros i j. unfold entry_of. now apply Wk.
  - assert (L : forall x, (0 <= x)%R -> leaky x = x) by (intros x Hx; unfold leaky; destruct (Rle_dec 0 x); [reflexivity|contradiction]).
    assert (CW : forall k, g_cols G (fg_W k) = 4) by (intros k; unfold fg_W; now rewrite (proj2 (D _ _ _)), D2).
    assert (CD : g_cols G (encode 0 2 4) = 4) by (now rewrite (proj2 (D _ _ _)), D0).
    unfold fg_net. cbn [off_kinks w_of b_of d_of]. rewrite CD.
    assert (P1 : forall i u, pre_act (g_cols G) (entry_of G fg_st) (entry_of G fg_st fg_X) (Neuron (fg_W 0) (encode 0 4 1) (encode 0 2 4)) i u = 5%R).
    { intros i u. unfold pre_act. cbn [w_of b_of d_of]. rewrite CW. cbn [total]. unfold entry_of, fg_X. rewrite !Wk by lia. rewrite !O. lra. }
    assert (P2 : forall i u, pre_act (g_cols G) (entry_of G fg_st) (unit_out (g_cols G) (entry_of G fg_st) (entry_of G fg_st fg_X) (Neuron (fg_W 0) (encode 0 4 1) (encode 0 2 4))) (Neuron (fg_W 1) (encode 0 4 1) (encode 0 2 4)) i u = 21%R).
    { intros i u. unfold pre_act. cbn [w_of b_of d_of]. rewrite CW.
      assert (U : forall v, unit_out (g_cols G) (entry_of G fg_st) (entry_of G fg_st fg_X) (Neuron (fg_W 0) (encode 0 4 1) (encode 0 2 4)) i v = 5%R).
      { intros v. unfold unit_out. fold (pre_act (g_cols G) (entry_of G fg_st) (entry_of G fg_st fg_X) (Neuron (fg_W 0) (encode 0 4 1) (encode 0 2 4)) i v). rewrite P1, L by lra. cbn [d_of]. unfold entry_of. rewrite O. lra. }
      cbn [total]. rewrite !U. unfold entry_of. rewrite !Wk by lia. rewrite !O. lra. }
    split; [intros i u _ _; rewrite P1; lra|]. split; [intros i u _ _; rewrite P2; lra|exact Logic.I].
Qed.
Example C81_nonvacuous : exists n' e, let G := fg_with n' e in
  wf_graph G (fun _ => Some fg_F) (fun o => if o =? fg_F then 1 else 0) /\
  (forall h, rreached (in_order (T := R)) (backend_of (in_order (T := R)) h) G (fun c => c) (fun _ => Some fg_F) (rinit memR)) /\
  lib_ok G (env_of fg_st) fx_lib /\ of_numbers G (net_mats fg_X fg_Y fg_net) /\ shapes (g_rows G) (g_cols G) (g_rows G fg_X) (g_cols G fg_X) fg_net /\
  g_rows G fg_Y = g_rows G fg_X /\ g_cols G fg_Y = width (g_rows G) (g_cols G fg_X) fg_net /\
  (forall i, i < g_rows G fg_X -> i < width (g_rows G) (g_cols G fg_X) fg_net /\
     forall u, u < width (g_rows G) (g_cols G fg_X) fg_net -> entry_of G fg_st fg_Y i u = if u =? i then 1%R else 0%R) /\
  off_kinks (g_cols G) (entry_of G fg_st) (g_rows G fg_X) (entry_of G fg_st fg_X) fg_net /\
  make G fx_lib (cfun_val CLog) (cfun_val CDLog) (cfun_val CSqrt) (cfun_val CDSqrt) (error_call (g_rows G fg_X) fg_X fg_Y fg_net) 0 = Some (e, n') /\
  rev_root G fg_F n' e fg_eye /\
  (forall w, In w [fg_W 1; fg_W 0] -> (exists u, In u fg_net /\ (w = w_of u \/ w = b_of u)) /\ w <> fg_Y /\ own fx_lib w).
Proof.
  pose (G0 := fg_with 0 (MLeaf (encode 0 1 1))).
  assert (W0 : wf_graph G0 (fun _ => Some fg_F) (fun o => if o =? fg_F then 1 else 0)).
  { apply fg_wf.
    - intros [E|[]]. apply encode_inj in E. discriminate.
    - repeat constructor. intros [].
    - cbn [rows fg_with g_rows fx_graph]. unfold fx_dims. now rewrite decode_encode.
    - cbn [cols fg_with g_cols fx_graph]. unfold fx_dims. now rewrite decode_encode. }
  destruct (fg_mats 0 (MLeaf (encode 0 1 1))) as ((Num & Sh & Wd) & (X1 & X2 & Y1 & Y2) & _). fold G0 in Num, Sh, Wd, X1, X2, Y1, Y2.
  destruct (wf_pos W0 fg_X) as [PB _].
  assert (Sh1 : shapes (g_rows G0) (g_cols G0) (g_rows G0 fg_X) (g_cols G0 fg_X) fg_net) by (rewrite X1, X2; exact Sh).
  assert (Wd1 : width (g_rows G0) (g_cols G0 fg_X) fg_net = 4) by (rewrite X2; exact Wd).
  destruct (@error_dims (g_rows G0) (g_cols G0) (entry_of G0 fg_st) _ PB fg_X eq_refl fg_net Sh1 fg_Y) as (D1 & D2 & Fok); [split; congruence|].
  rewrite X1 in D1, D2, Fok.
  destruct library_log_sqrt as (LG & SQ & DSQ).
  assert (M : makes G0 (fun _ => env_of fg_st) 0%R False (fmats (error_call 2 fg_X fg_Y fg_net)) (make G0 fx_lib (cfun_val CLog) (cfun_val CDLog) (cfun_val CSqrt) (cfun_val CDSqrt) (error_call 2 fg_X fg_Y fg_net))
                (frows (g_rows G0) (g_cols G0) (error_call 2 fg_X fg_Y fg_net)) (fcols (g_rows G0) (g_cols G0) (error_call 2 fg_X fg_Y fg_net)) (fun _ => fval (g_rows G0) (g_cols G0) (entry_of G0 fg_st) (error_call 2 fg_X fg_Y fg_net))).
  { apply (make_ok W0 (rho_ := fun _ => env_of fg_st) (fun _ => @fg_lib _ _) LG SQ DSQ (fun e He _ => cont_const (env_of fg_st) 0%R He) (V_ := fun _ => entry_of G0 fg_st)); [|exact Fok|tauto].
    intros o Ho. destruct (num_den (G := G0) (H := G0) (o := o) (env_of fg_st) eq_refl (or_introl (Num o (error_mats Ho)))) as (A & B & C). split; [exact Ho|]. split; [exact A|]. split; [intros _; exact B|tauto]. }
  destruct (M 0) as (e & n' & E & Le & Nd & Ie & Gd). exists n', e. intros G.
  assert (Lv : forall o, In o (leaves e) -> is_leaf G0 o).
  { intros o Ho. destruct (gd_leaves Gd Ho) as [Q|Q]; [exact Q|]. unfold is_leaf. now rewrite (Num o (error_mats Q)). }
  assert (Nf : ~ In fg_F (leaves e)).
  { intros Q. apply Lv in Q. unfold is_leaf in Q. cbn [G0 fg_with g_kind] in Q. rewrite Nat.eqb_refl in Q. exact Q. }
  assert (Wf : wf_graph G (fun _ => Some fg_F) (fun o => if o =? fg_F then 1 else 0)).
  { apply fg_wf; [exact Nf| |exact (eq_trans (gd_rows Gd) D1)|exact (eq_trans (gd_cols Gd) D2)]. constructor; [|exact Nd]. intros Q. apply Ie in Q. lia. }
  destruct (fg_mats n' e) as ((Num' & Sh' & Wd') & (X1' & X2' & Y1' & Y2') & EX & EY & EW & OK). fold G in Num', Sh', Wd', X1', X2', Y1', Y2', EX, EY, EW, OK.
  rewrite X1', X2', Wd', Y1', Y2'.
  assert (Lib : lib_ok G (env_of fg_st) fx_lib) by apply fg_lib.
  split; [exact Wf|]. split; [intros h; apply rr_init; exact tameR|]. split; [exact Lib|]. split; [exact Num'|]. split; [exact Sh'|].
  split; [reflexivity|]. split; [reflexivity|]. split.
  { intros i Hi. split; [lia|]. intros u Hu. rewrite EY by exact Hu. unfold delta. now rewrite Nat.eqb_sym. }
  split; [exact OK|]. split; [exact E|]. split.
  - constructor.
    + cbn [G fg_with g_kind]. now rewrite Nat.eqb_refl.
    + intros o [<-|Ho]; [|exact (fg_leaf n' e (Lv o Ho))]. unfold is_leaf. cbn [G fg_with g_kind]. unfold fg_eye. rewrite fg_other by discriminate.
      cbn [fx_graph g_kind]. rewrite decode_encode. exact Logic.I.
    + intros o o' _ _ Q. exact Q.
    + destruct fg_dims as (Q1 & Q2 & _). cbn [G fg_with g_rows g_cols]. congruence.
    + refine (@built_fits G _ _ Wf fg_st fx_lib Lib _ _ _ _ library_log_sqrt (error_call 2 fg_X fg_Y fg_net) _ Fok 0 e n' E).
      intros o Ho. left. exact (Num' o (error_mats Ho)).
  - intros w Hw. destruct Hw as [<-|[<-|[]]].
    + destruct (EW 1 ltac:(lia)) as (_ & _ & A & B & _). split; [|auto]. exists (Neuron (fg_W 1) (encode 0 4 1) (encode 0 2 4)). split; [right; now left|now left].
    + destruct (EW 0 ltac:(lia)) as (_ & _ & A & B & _). split; [|auto]. exists (Neuron (fg_W 0) (encode 0 4 1) (encode 0 2 4)). split; [now left|now left].
Qed.
