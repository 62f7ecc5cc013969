(** * Training makes gradient steps: the engine's part *)
From Coq Require Import List Arith Bool Lia Permutation Ring.
From Verif Require Import Num MatMem Kernels KernelFacts KernelProofs KernelBlocks KernelMore Registry KernelStep Backend Slots Exec ConvProofs Sums Determ MatEngine MatGraph MatLeaf MatEval MatDeval MatHist MatSpec MatCalls MatFuel MatRev MatInplace RevVals MatRevOk MatRevCall MatRevHist Param EnvExt Threads Train TrainSpec TrainOk.
Import ListNotations.
Set Implicit Arguments.
Unset Strict Implicit.

Section Run.
Context {T : Type} {N : Num T}.
Variable S : sched T.
Variable B : backend (T := T).
Variable G : graph T.
Variable ord : cache -> cache.
Variable host : nat -> option obj.
Hypothesis L : NumLaws N.
Add Ring TRing : (law_ring N L).
Hypothesis VS : valid_sched S.
Hypothesis BV : value_ok B.
Hypothesis BK : kron_ok B \/ kron_zeroed_ok B.
Hypothesis BA : accum_ok B.
Variable rank : obj -> nat.
Hypothesis WF : wf_graph G host rank.
Hypothesis Hord : forall c, Permutation (ord c) c.
Notation store := (store (T := T)).
Notation rst := (rst (T := T)).
Implicit Types (st : store) (e : rst).
Variables (F : obj) (id : nat) (a : mexp T) (y : obj) (ls : list layer) (inputs : obj -> bool).
Hypothesis NW : network G F id a y ls inputs.

Lemma net_leaf o : In o (y :: leaves a) -> g_kind G o = LConst \/ g_kind G o = LEye.
Proof. intros [<-|H]; [right; exact (proj1 (wf_eye WF (nw_kind NW)))|exact (nw_numbers NW H)]. Qed.
Lemma net_root : rev_root G F id a y.
Proof.
  constructor.
  - exact (nw_kind NW).
  - intros o Ho. unfold is_leaf. destruct (net_leaf Ho) as [-> | ->]; exact Logic.I.
  - exact (nw_nidx NW).
  - destruct (nw_scalar NW) as [-> ->]. reflexivity.
  - exact (nw_fits NW).
Qed.
Lemma net_diff st u : In u (params ls) -> differentiable G (env_of st) a y u.
Proof.
  intros Hu. destruct (nw_params NW Hu) as [U1 U2]. assert (Ku : In u (y :: keyed a)) by (right; unfold keyed; apply in_or_app; auto).
  split; [now left|]. split.
  - intros o Ho. split; [|reflexivity]. intros E. apply (nw_nidx NW); auto. destruct Ho as [Ho|Ho]; [now left|right; unfold keyed; apply in_or_app; auto].
  - intros so vs Q. split; [|reflexivity]. intros w Hw E. apply (nw_nidx NW); auto. right. unfold keyed. apply in_or_app. right.
    unfold svars. apply in_flat_map. exists (so, vs). auto.
Qed.
(** The derivative of the error by a parameter. *)
Definition is_grad st (u : obj) (d : nat -> nat -> T) : Prop :=
  exists F0 D, dif (as_var G u) (env_of st) u a F0 D /\ forall i j, i < g_rows G u -> j < g_cols G u -> d i j = D 0 0 i j.
Lemma dev_param st v u e : mval G (env_of st) a v -> RInv G e -> precomped G (env_of st) F id a y v e -> In u (params ls) ->
  exists p d, DevalR G F u e = EOk (p, e) /\ is_grad st u d /\ holds (mm (rb e)) p (Mat (g_rows G u) (g_cols G u) d).
Proof.
  intros Hv I P Hu.
  destruct (@gradient_of T N G host L rank WF (env_of st) F id a y v u e net_root Hv I P (net_diff st Hu) (nw_inverses NW st) (in_or_app _ _ _ (or_introl (proj1 (nw_params NW Hu)))))
    as (p & F0 & D & E & HD & Hp).
  exists p, (fun i j => sum_n (g_rows G F) (fun l => D l l i j)). split; [exact E|]. split; [|exact Hp].
  exists F0, D. split; [exact HD|]. intros i j _ _. rewrite (proj1 (nw_scalar NW)). apply (sum_1 L).
Qed.
Lemma add_to_ok u r c p f e : holds (mm (rb e)) p (Mat r c f) ->
  exists d, add_to u r c p e = EOk (add_tasks u d, e) /\ length d = r * c /\ forall i j, i < r -> j < c -> nth (i * c + j) d n0 = f i j.
Proof.
  intros [(k & sp & b & Hg & Hl) Hv]. cbn [mr mc mf] in *. exists b. split; [|split; [exact Hl|]].
  - unfold add_to, rbind, rl, lift, deref. rewrite Hg. unfold rassert. cbn [o_rows o_cols]. rewrite !Nat.eqb_refl. cbn [andb]. unfold rret. cbn [o_buf].
    destruct e as [[m r0 f0] ? ? ? ?]. reflexivity.
  - intros i j Hi Hj. specialize (Hv i j Hi Hj). unfold val in Hv. rewrite Hg in Hv. exact Hv.
Qed.
(** What gather collects for the layers. *)
Definition collected st (l : layer) (gs : list (list (task (T := T)))) : Prop :=
  exists dW db fW fb, In (add_tasks (l_WB l) dW) gs /\ In (add_tasks (l_bB l) db) gs /\ length dW = w_size l /\ length db = b_size l /\
    is_grad st (l_W l) fW /\ is_grad st (l_b l) fb /\
    (forall i j, i < g_rows G (l_W l) -> j < g_cols G (l_W l) -> nth (i * g_cols G (l_W l) + j) dW n0 = fW i j) /\
    (forall i j, i < g_rows G (l_b l) -> j < g_cols G (l_b l) -> nth (i * g_cols G (l_b l) + j) db n0 = fb i j).
Lemma gather_ok st v e : mval G (env_of st) a v -> RInv G e -> precomped G (env_of st) F id a y v e ->
  forall ls', (forall l, In l ls' -> In l ls) -> exists gs, gather G F ls' e = EOk (gs, e) /\ owned ls' gs /\
    (forall g t, In g gs -> In t g -> within (fun o => In o (batches ls')) t) /\ forall l, In l ls' -> collected st l gs.
Proof.
  intros Hv I P. induction ls' as [|l ls' IH]; intros Hs.
  - exists []. split; [reflexivity|]. split; [constructor|]. split; [intros g t []|intros l []].
  - destruct (IH (fun l' H => Hs l' (or_intror H))) as (gs & E & Ow & Wi & Co).
    pose proof (Hs l (or_introl eq_refl)) as Hl.
    assert (Pw : In (l_W l) (params ls)) by (apply in_flat_map; exists l; simpl; auto).
    assert (Pb : In (l_b l) (params ls)) by (apply in_flat_map; exists l; simpl; auto).
    destruct (dev_param Hv I P Pw) as (p & fW & Ep & Gw & Hp). destruct (dev_param Hv I P Pb) as (q & fb & Eq & Gb & Hq).
    destruct (nw_dims NW Hl) as (D1 & D2 & D3).
    assert (D4 : g_rows G (l_W l) = fst (l_dim l) /\ g_cols G (l_W l) = snd (l_dim l)) by (rewrite <- D1; auto). destruct D4 as [D4 D5].
    rewrite D4, D5 in Hp. rewrite D2, D3 in Hq.
    destruct (add_to_ok (l_WB l) Hp) as (dW & Ew & Lw & Vw). destruct (add_to_ok (l_bB l) Hq) as (db & Eb & Lb & Vb).
    exists (add_tasks (l_WB l) dW :: add_tasks (l_bB l) db :: gs). split; [|split; [|split]].
    + cbn [gather]. unfold rbind at 1. rewrite Ep. unfold rbind at 1. rewrite Eq. unfold rbind at 1. rewrite Ew. unfold rbind at 1. rewrite Eb.
      unfold rbind. rewrite E. reflexivity.
    + constructor; auto using add_pair; intros t Ht; (eapply weaken_within; [|exact (add_within Ht)]); auto.
    + intros g t [<-|[<-|Hg]] Ht; simpl.
      * eapply weaken_within; [|exact (add_within Ht)]. auto.
      * eapply weaken_within; [|exact (add_within Ht)]. auto.
      * eapply weaken_within; [|exact (Wi g t Hg Ht)]. auto.
    + intros l' [<-|Hl'].
      * exists dW, db, fW, fb. split; [simpl; auto|]. split; [simpl; auto|]. split; [exact Lw|]. split; [unfold b_size; lia|]. split; [exact Gw|]. split; [exact Gb|].
        rewrite D4, D5, D2, D3. auto.
      * destruct (Co l' Hl') as (dW' & db' & fW' & fb' & Q1 & Q2 & Q). exists dW', db', fW', fb'. split; [simpl; auto|]. split; [simpl; auto|]. exact Q.
Qed.

Notation reached := (rreached S B G ord host).
Lemma reached_inv e : reached e -> RInv G e.
Proof. intros H. exact (rreached_RInv L VS BV BK BA WF Hord H). Qed.
Lemma precomp_ok st e : reached e -> exists n e1 v, (forall f, n <= f -> PreComp S B G ord (env_of st) f F e = EOk (tt, e1)) /\
  mval G (env_of st) a v /\ precomped G (env_of st) F id a y v e1 /\ reached e1 /\ evaluated G (MLeaf F) (rb e1).
Proof.
  intros Re. pose proof (reached_inv Re) as I. destruct net_root as [Hk Hp Hi Hq Hf].
  destruct (den_total (env_of st) Hf) as (F0 & HF0). destruct (den_mval L WF Hf HF0) as (v & Hv & _).
  assert (HP : plain G (item id a y)) by (intros o Ho; apply Hp; exact (proj1 (leaves_item id a y o) Ho)).
  destruct (@call_precomp T N S VS B BV BK BA G host rank WF ord Hord (env_of st) F id a y Hk) with (s := e) (v := v) as (n & s' & E & P & I' & V1 & V2 & _); auto.
  - intros w Hw. exact (proj2 (fits_svars Hf Hw)).
  - intros o o' Ho Ho'. apply Hi; [exact (proj1 (item_keyed id a y o) Ho)|exact (proj1 (item_keyed id a y o') Ho')].
  - exists n, s', v. split; [exact E|]. split; [exact Hv|]. split; [exact P|]. split; [eapply rr_pre; [exact Re|exact net_root|exists n; exact E]|].
    intros o Ho Ne.
    assert (Z : o = F \/ In o (leaves (item id a y))).
    { clear Ne. induction Ho as [o Ho|o id1 a1 y1 o2 Ho IH Hk1 Hin]; [left; destruct Ho as [<-|[]]; reflexivity|].
      destruct IH as [->|IH].
      - rewrite Hk in Hk1. injection Hk1 as <- <- <-. now right.
      - specialize (HP _ IH). unfold is_leaf in HP. now rewrite Hk1 in HP. }
    destruct Z as [->|Z]; [exact V1|exact (V2 _ Z)].
Qed.
Lemma fuel_det {A} (f : nat -> A) x x' : (exists n, forall k, n <= k -> f k = x) -> (exists n, forall k, n <= k -> f k = x') -> x = x'.
Proof. intros (n & H) (n' & H'). rewrite <- (H (n + n')) by lia. apply H'. lia. Qed.

(** Any outcome of accumulateGradients, and that there is one. *)
Lemma accumulate_ok th st e : reached e ->
  (exists e' st', accumulateGradients S B G ord th F ls e st e' st') /\
  forall e' st', accumulateGradients S B G ord th F ls e st e' st' -> reached e' /\ evaluated G (MLeaf F) (rb e') /\
    (forall l, In l ls -> exists fW fb, is_grad st (l_W l) fW /\ is_grad st (l_b l) fb /\
      (forall i j, i < g_rows G (l_W l) -> j < g_cols G (l_W l) -> st' (l_WB l) (i * g_cols G (l_W l) + j) = nadd (st (l_WB l) (i * g_cols G (l_W l) + j)) (fW i j)) /\
      (forall i j, i < g_rows G (l_b l) -> j < g_cols G (l_b l) -> st' (l_bB l) (i * g_cols G (l_b l) + j) = nadd (st (l_bB l) (i * g_cols G (l_b l) + j)) (fb i j))) /\
    (forall o k, ~ In o (batches ls) -> st' o k = st o k).
Proof.
  intros Re. destruct (precomp_ok st Re) as (n & e1 & v & E & Hv & P & R1 & Ev).
  destruct (gather_ok Hv (reached_inv R1) P (ls' := ls)) as (gs & Eg & Ow & Wi & Co); [auto|].
  split.
  - destruct (runs_total th gs st) as (st' & Hr). exists e1, st', e1, gs. split; [exists n; exact E|]. auto.
  - intros e' st' (e2 & gs' & E2 & Eg' & Hr).
    assert (Q : EOk (tt, e1) = EOk (tt, e2)) by (eapply fuel_det; [exists n; exact E|exact E2]). injection Q as <-.
    rewrite Eg in Eg'. injection Eg' as <- <-. apply runs_run in Hr. pose proof (owned_pairwise Ow (nw_distinct NW)) as Pw.
    split; [exact R1|]. split; [exact Ev|]. split.
    + intros l Hl. destruct (Co l Hl) as (dW & db & fW & fb & Q1 & Q2 & L1 & L2 & G1 & G2 & V1 & V2).
      destruct (nw_dims NW Hl) as (D1 & D2 & D3).
      assert (D4 : w_size l = g_rows G (l_W l) * g_cols G (l_W l)) by (unfold w_size; rewrite <- D1; reflexivity).
      exists fW, fb. split; [exact G1|]. split; [exact G2|]. split; intros i j Hi Hj.
      * rewrite <- V1 by auto. apply (@add_effect T N (l_WB l) dW gs); auto. rewrite L1, D4. nia.
      * rewrite <- V2 by auto. apply (@add_effect T N (l_bB l) db gs); auto. rewrite L2. unfold b_size. rewrite <- D2. rewrite D3 in Hj |- *. lia.
    + intros o k No. eapply untouched_cell; [exact Hr|exact Pw|]. intros g t Hg Ht. eapply within_not; [exact (Wi g t Hg Ht)|exact No].
Qed.

(** ** One mini-batch *)
Lemma net_reach o : reach G a o -> In o (leaves a).
Proof.
  induction 1 as [o H|o id1 a1 y1 o2 H IH Hk Hin]; [exact H|]. destruct (nw_numbers NW IH) as [Q|Q]; congruence.
Qed.
Lemma var_reach u o : In u (params ls) -> reach (as_var G u) a o -> In o (leaves a).
Proof.
  intros Hu. destruct (nw_params NW Hu) as [_ Ku].
  induction 1 as [o H|o id1 a1 y1 o2 H IH Hk Hin]; [exact H|]. apply (proj1 (as_var_kexp (or_introl Ku) _ _ _ _)) in Hk. destruct (nw_numbers NW IH) as [Q|Q]; congruence.
Qed.
(** Stores with the same entries except for batch matrices. *)
Definition off_batches st st' : Prop := forall o k, ~ In o (batches ls) -> st' o k = st o k.
Lemma no_batch o : In o (leaves a) -> ~ In o (batches ls).
Proof. intros Ho Hb. apply (proj1 (nw_batches NW Hb)). now right. Qed.
Lemma no_batch_scalar o : In o (scals a) -> ~ In o (batches ls).
Proof. intros Ho Hb. exact (proj2 (nw_batches NW Hb) Ho). Qed.
Lemma grad_off st st' u d : In u (params ls) -> off_batches st st' -> is_grad st' u d -> is_grad st u d.
Proof.
  intros Hu H (F0 & D & HD & E). destruct (@dif_ext T N (as_var G u) (env_of st') (env_of st) u a F0 D HD) as (F1 & D1 & HD1 & _ & E1).
  - intros o Ho. split; [|reflexivity]. intros k. apply H. destruct Ho as [Ho|[Ho|(o1 & id1 & a1 & y1 & Ho & Hk & _)]]; [apply no_batch; exact (var_reach Hu Ho)|now apply no_batch_scalar|].
    exfalso. destruct (nw_params NW Hu) as [_ Ku]. apply (proj1 (as_var_kexp (or_introl Ku) _ _ _ _)) in Hk. destruct (nw_numbers NW (var_reach Hu Ho)) as [Q|Q]; congruence.
  - exists F1, D1. split; [exact HD1|]. intros i j Hi Hj. rewrite E by auto. apply E1.
Qed.
Lemma val_off st st' F0 : off_batches st st' -> den G (env_of st') a F0 -> exists F1, den G (env_of st) a F1 /\ F0 0 0 = F1 0 0.
Proof.
  intros H HF. destruct (@den_ext T N G (env_of st') (env_of st) a F0 HF) as (F1 & HF1 & E).
  - intros o Ho. split; [|reflexivity]. intros k. apply H. destruct Ho as [Ho|[Ho|(o1 & id1 & a1 & y1 & Ho & Hk & _)]]; [apply no_batch; exact (net_reach Ho)|now apply no_batch_scalar|].
    exfalso. destruct (nw_numbers NW (net_reach Ho)) as [Q|Q]; congruence.
  - exists F1. auto.
Qed.
Lemma feed_out inp st o k : inp o = None -> feed inp st o k = st o k.
Proof. intros H. unfold feed. now rewrite H. Qed.
(** Eval(err) when err has just been computed. *)
Lemma loss_ok display st e : reached e -> evaluated G (MLeaf F) (rb e) ->
  (exists e' loss, show_loss S B G display F e st e' loss) /\
  forall e' loss, show_loss S B G display F e st e' loss -> reached e' /\ (display = true -> exists F0, den G (env_of st) a F0 /\ loss = F0 0 0).
Proof.
  intros Re Ev. destruct display; cbn [show_loss].
  - assert (Aok : act_ok B G host (AEval (env_of st) (MLeaf F))).
    { split; [split; [constructor|intros i []]|]. split; [eapply fits_exp; [exact (nw_kind NW)|exact (nw_fits NW)]|exact Logic.I]. }
    pose proof (evaluated_settled Ev) as Hs.
    destruct (rcall_right L VS BV BK WF (a := AEval (env_of st) (MLeaf F)) (reached_inv Re) Hs Aok) as (n & p & e1 & E & (F0 & HF0 & Hp) & _).
    cbn [act_exp rcall] in *.
    assert (HF1 : den G (env_of st) a F0).
    { inversion HF0 as [o E1|o E1 E2|o id1 e1' y1 F1 Hk H| | | | | | | | | | | | ]; subst.
      - rewrite (nw_kind NW) in E1. discriminate.
      - unfold is_leaf in E1. rewrite (nw_kind NW) in E1. destruct E1.
      - rewrite (nw_kind NW) in Hk. injection Hk as <- <- <-. exact H. }
    destruct (nw_scalar NW) as [R1 C1].
    assert (Rw : raw p 0 (mm (rb e1)) = Ok (F0 0 0, mm (rb e1))).
    { destruct Hp as [(k & sp & b & Hg & Hl) Hv]. unfold mat_of in *. cbn [mr mc mf rows cols] in *. rewrite R1, C1 in *.
      specialize (Hv 0 0 ltac:(lia) ltac:(lia)). unfold raw, deref, bind. rewrite Hg. cbn [o_buf]. destruct b as [|z [|]]; try discriminate.
      unfold val in Hv. rewrite Hg in Hv. cbn in Hv |- *. now rewrite Hv. }
    split.
    + exists e1, (F0 0 0), p, (mm (rb e1)). split; [exists n; exact E|exact Rw].
    + intros e' loss (p' & m' & E' & Rw').
      assert (Q : EOk (p, e1) = EOk (p', e')) by (eapply fuel_det; [exists n; exact E|exact E']). injection Q as <- <-.
      split; [eapply rr_call with (a := AEval (env_of st) (MLeaf F)); [exact Re|exact Hs|exact Aok|exists n; exact E]|]. intros _. exists F0. split; [exact HF1|]. rewrite Rw in Rw'. congruence.
  - split; [exists e, n0; auto|]. intros e' loss [-> _]. split; [exact Re|discriminate].
Qed.

Lemma minibatch_ok th display alpha masks data st e : reached e ->
  (forall o, masks o <> None -> inputs o = true) -> (forall o, data o <> None -> inputs o = true) ->
  (exists e' st' loss, minibatch S B G ord th display alpha F ls masks data e st e' st' loss) /\
  forall e' st' loss, minibatch S B G ord th display alpha F ls masks data e st e' st' loss -> reached e' /\
    descends G alpha a ls (feed data (feed masks st)) st' /\
    (display = true -> exists F0, den G (env_of (feed data (feed masks st))) a F0 /\ loss = F0 0 0).
Proof.
  intros Re Hm Hd.
  assert (Q : forall inp : obj -> option (nat -> T), (forall o, inp o <> None -> inputs o = true) -> forall o, In o (params ls) \/ In o (batches ls) -> inp o = None).
  { intros inp Hi o Ho. destruct (inp o) eqn:E; [|reflexivity]. exfalso. destruct (nw_inputs NW (o := o)) as [A1 A2]; [apply Hi; congruence|]. tauto. }
  split.
  - unfold minibatch. destruct (runs_total th (flat_map (fun l => [zero_tasks (T := T) (l_WB l) (w_size l); zero_tasks (l_bB l) (b_size l)]) ls) (feed masks st)) as (st1 & H1).
    destruct (accumulate_ok th (feed data st1) Re) as [(e1 & st2 & H2) H2'].
    destruct (H2' e1 st2 H2) as (R1 & Ev & _). destruct (loss_ok display st2 R1 Ev) as [(e' & loss & H3) _].
    destruct (runs_total th (flat_map (fun l => [gd_tasks (T := T) alpha (l_W l) (l_WB l) (w_size l); gd_tasks alpha (l_b l) (l_bB l) (b_size l)]) ls) st2) as (st' & H4).
    exists e', st', loss, st1, e1, st2. split; [exact H1|]. split; [exact H2|]. split; [exact H3|]. split; [|exact H4].
    apply forallb_forall. intros l Hl. destruct (nw_dims NW Hl) as (D1 & D2 & D3). unfold gd_ok. rewrite <- D1 in *. cbn [fst snd] in *. rewrite D2, D3, !Nat.eqb_refl. reflexivity.
  - intros e' st' loss (st1 & e1 & st2 & H1 & H2 & H3 & H4).
    destruct (reset_effect (nw_distinct NW) H1) as (Z1 & Z2 & Z3).
    destruct (accumulate_ok th (feed data st1) Re) as [_ H2']. destruct (H2' _ _ H2) as (R1 & Ev & Gr & Ac). clear H2'.
    destruct (loss_ok display st2 R1 Ev) as [_ H3']. destruct (H3' _ _ H3) as [R2 Ls]. clear H3'.
    destruct (optimize_effect (nw_distinct NW) H4) as (O1 & O2 & O3 & O4 & O5).
    set (S0 := feed data (feed masks st)).
    assert (B1 : off_batches S0 (feed data st1)).
    { intros o k No. unfold S0, feed at 1 2. destruct (data o); [reflexivity|]. now apply Z3. }
    assert (B2 : off_batches S0 st2) by (intros o k No; rewrite Ac by auto; now apply B1).
    assert (NP : forall u, In u (params ls) -> ~ In u (batches ls)).
    { intros u Hu Hb. apply (proj1 (nw_batches NW Hb)). right. exact (proj1 (nw_params NW Hu)). }
    assert (W0 : forall l k, In l ls -> k < w_size l -> feed data st1 (l_WB l) k = n0).
    { intros l k Hl Hk. rewrite feed_out; [now apply Z1|]. apply (Q data Hd). right. apply in_flat_map. exists l. simpl. auto. }
    assert (b0 : forall l k, In l ls -> k < b_size l -> feed data st1 (l_bB l) k = n0).
    { intros l k Hl Hk. rewrite feed_out; [now apply Z2|]. apply (Q data Hd). right. apply in_flat_map. exists l. simpl. auto. }
    split; [exact R2|]. split; [split; [|split]|].
    + intros u Hu. pose proof Hu as Hu'. apply in_flat_map in Hu'. destruct Hu' as (l & Hl & Hc).
      destruct (Gr l Hl) as (fW & fb & G1 & G2 & V1 & V2). destruct (nw_dims NW Hl) as (D1 & D2 & D3).
      assert (D4 : w_size l = g_rows G (l_W l) * g_cols G (l_W l)) by (unfold w_size; rewrite <- D1; reflexivity).
      destruct Hc as [<-|[<-|[]]].
      * destruct (grad_off Hu B1 G1) as (F0 & D & HD & E). exists F0, D. split; [exact HD|]. intros i j Hi Hj.
        assert (K : i * g_cols G (l_W l) + j < w_size l) by (rewrite D4; nia).
        rewrite O1, V1, W0, E, B2 by auto. ring.
      * destruct (grad_off Hu B1 G2) as (F0 & D & HD & E). exists F0, D. split; [exact HD|]. intros i j Hi Hj.
        assert (K : i * g_cols G (l_b l) + j < b_size l) by (unfold b_size; rewrite <- D2; rewrite D3 in *; nia).
        rewrite O2, V2, b0, E, B2 by auto. ring.
    + intros u k Hu Hk. pose proof Hu as Hu'. apply in_flat_map in Hu'. destruct Hu' as (l & Hl & Hc). destruct (nw_dims NW Hl) as (D1 & D2 & D3).
      assert (D4 : w_size l = g_rows G (l_W l) * g_cols G (l_W l)) by (unfold w_size; rewrite <- D1; reflexivity).
      destruct Hc as [<-|[<-|[]]]; [rewrite O3 by (auto; lia)|rewrite O4 by (auto; unfold b_size; rewrite <- D2; rewrite D3 in Hk; lia)]; now apply B2, NP.
    + intros o k No Nb. rewrite O5 by auto. now apply B2.
    + intros Ed. destruct (Ls Ed) as (F0 & HF & ->). destruct (val_off B2 HF) as (F1 & HF1 & E). exists F1. auto.
Qed.
End Run.
