(** * Training makes gradient steps *)
From Coq Require Import List Arith Bool Lia Permutation Ring.
From Verif Require Import Num MatMem Kernels KernelFacts KernelProofs KernelBlocks KernelMore Registry KernelStep Backend Slots Exec ConvProofs Sums Determ MatEngine MatGraph MatLeaf MatEval MatDeval MatHist MatSpec MatCalls MatFuel MatRev MatInplace RevVals MatRevOk MatRevCall MatRevHist Param EnvExt Threads Train TrainSpec.
Import ListNotations.
Set Implicit Arguments.
Unset Strict Implicit.

(** ** Tasks of layers are independent *)
Section Tasks.
Context {T : Type} {N : Num T}.
Notation store := (store (T := T)).
Notation task := (task (T := T)).
Implicit Types (t : task) (ts : list task) (st : store).

Definition uses t (c : nat * nat) : Prop := reads t c \/ writes t c.
Definition within (P : nat -> Prop) t : Prop := forall c, uses t c -> P (fst c).
Lemma indep_uses t t' : (forall c, uses t c -> uses t' c -> False) -> independent t t'.
Proof. intros H. split; intros c W; split; intros Q; apply (H c); unfold uses; auto. Qed.
Lemma pairwise_app ts : forall ts', pairwise ts -> pairwise ts' -> (forall t t', In t ts -> In t' ts' -> independent t t') -> pairwise (ts ++ ts').
Proof.
  induction ts as [|t ts IH]; intros ts' H H' I; simpl; auto. destruct H as [H1 H2]. split.
  - intros t' Ht. apply in_app_or in Ht. destruct Ht as [Ht|Ht]; [auto|apply I; simpl; auto].
  - apply IH; auto. intros; apply I; simpl; auto.
Qed.
Lemma pairwise_map {A} (mk : A -> task) (key : A -> nat) l : NoDup (map key l) -> (forall a c, uses (mk a) c -> snd c = key a) -> pairwise (map mk l).
Proof.
  intros Nd H. induction l as [|a l IH]; simpl; auto. simpl in Nd. inversion Nd as [|? ? Ni Nl]; subst. split; [|auto].
  intros t' Ht. apply in_map_iff in Ht. destruct Ht as (b & <- & Hb). apply indep_uses. intros c U1 U2.
  apply Ni. rewrite <- (H a c U1), (H b c U2). now apply in_map.
Qed.
Ltac cells := unfold uses, reads, writes in *; cbn [t_code In] in *;
  repeat match goal with
  | H : _ \/ _ |- _ => destruct H
  | H : exists _, _ |- _ => destruct H as (? & ? & ?)
  | H : False |- _ => destruct H
  | H : ?x = _ |- _ => subst x
  | H : _ = ?x |- _ => subst x
  end; cbn [ireads iwrites] in *; try tauto; subst; cbn [fst snd] in *.
Lemma zero_pair u n : pairwise (zero_tasks (T := T) u n).
Proof. apply pairwise_map with (key := fun k => k); [rewrite map_id; apply seq_NoDup|]. intros k c H. cells; auto. Qed.
Lemma zero_within u n t : In t (zero_tasks u n) -> within (fun o => o = u) t.
Proof. intros H c Uc. apply in_map_iff in H. destruct H as (k & <- & _). cells; auto. Qed.
Lemma add_pair u (d : list T) : pairwise (add_tasks u d).
Proof.
  apply pairwise_map with (key := fst).
  - assert (E : forall (a : nat) (d : list T), map fst (combine (seq a (length d)) d) = seq a (length d)).
    { intros a d0. revert a. induction d0 as [|x d0 IH]; intros a; simpl; auto. now rewrite IH. }
    rewrite E. apply seq_NoDup.
  - intros kv c H. cells; auto.
Qed.
Lemma add_within u d t : In t (add_tasks (T := T) u d) -> within (fun o => o = u) t.
Proof. intros H c Uc. apply in_map_iff in H. destruct H as (k & <- & _). cells; auto. Qed.
Lemma gd_pair alpha x d n : pairwise (gd_tasks (T := T) alpha x d n).
Proof. apply pairwise_map with (key := fun k => k); [rewrite map_id; apply seq_NoDup|]. intros k c H. cells; auto. Qed.
Lemma gd_within alpha x d n t : In t (gd_tasks (T := T) alpha x d n) -> within (fun o => o = x \/ o = d) t.
Proof. intros H c Uc. apply in_map_iff in H. destruct H as (k & <- & _). cells; auto. Qed.

(** Two groups per layer, each on the matrices of that layer. *)
Inductive owned : list layer -> list (list task) -> Prop :=
| ow_nil : owned [] []
| ow_cons l ls g1 g2 gs : pairwise g1 -> pairwise g2 -> (forall t, In t g1 -> within (fun o => o = l_W l \/ o = l_WB l) t) ->
    (forall t, In t g2 -> within (fun o => o = l_b l \/ o = l_bB l) t) -> owned ls gs -> owned (l :: ls) (g1 :: g2 :: gs).
Definition objs_of (ls : list layer) : list obj := params ls ++ batches ls.
Lemma owned_within ls gs : owned ls gs -> forall t, In t (concat gs) -> within (fun o => In o (objs_of ls)) t.
Proof.
  induction 1 as [|l ls g1 g2 gs P1 P2 W1 W2 H IH]; intros t Ht c Uc; [destruct Ht|].
  simpl in Ht. rewrite !in_app_iff in Ht. unfold objs_of. rewrite in_app_iff. simpl.
  destruct Ht as [Ht|[Ht|Ht]].
  - destruct (W1 t Ht c Uc); intuition.
  - destruct (W2 t Ht c Uc); intuition.
  - pose proof (IH t Ht c Uc) as Q. unfold objs_of in Q. rewrite in_app_iff in Q. tauto.
Qed.
Lemma nodup_cons l ls : NoDup (objs_of (l :: ls)) -> NoDup (objs_of ls) /\
  (forall o, In o [l_W l; l_b l; l_WB l; l_bB l] -> ~ In o (objs_of ls)) /\ NoDup [l_W l; l_b l; l_WB l; l_bB l].
Proof.
  intros H. assert (P : Permutation (objs_of (l :: ls)) ([l_W l; l_b l; l_WB l; l_bB l] ++ objs_of ls)).
  { unfold objs_of. simpl. do 2 apply perm_skip. change (l_WB l :: l_bB l :: params ls ++ batches ls) with ([l_WB l; l_bB l] ++ params ls ++ batches ls).
    change (l_WB l :: l_bB l :: batches ls) with ([l_WB l; l_bB l] ++ batches ls). rewrite !app_assoc. apply Permutation_app_tail. apply Permutation_app_comm. }
  apply (Permutation_NoDup P) in H. clear P. revert H. generalize [l_W l; l_b l; l_WB l; l_bB l]. intros A H.
  induction A as [|a A IH]; simpl in *; [repeat split; auto; try constructor; intros o []|].
  inversion H as [|? ? Ni Nd]; subst. destruct (IH Nd) as (Q1 & Q2 & Q3). split; [exact Q1|]. split.
  - intros o [<-|Ho]; [intros Q; apply Ni, in_or_app; auto|auto].
  - constructor; [|exact Q3]. intros Q. apply Ni, in_or_app. auto.
Qed.
Lemma owned_pairwise ls gs : owned ls gs -> NoDup (objs_of ls) -> pairwise (concat gs).
Proof.
  induction 1 as [|l ls g1 g2 gs P1 P2 W1 W2 H IH]; intros Nd; [exact Logic.I|].
  destruct (nodup_cons Nd) as (N1 & N2 & N3). simpl.
  assert (Q : NoDup [l_W l; l_b l; l_WB l; l_bB l]) by exact N3. clear N3.
  assert (D : l_W l <> l_b l /\ l_W l <> l_bB l /\ l_WB l <> l_b l /\ l_WB l <> l_bB l).
  { inversion Q as [|? ? A1 Q1]; subst. inversion Q1 as [|? ? A2 Q2]; subst. inversion Q2 as [|? ? A3 Q3]; subst. simpl in *. intuition congruence. }
  apply pairwise_app; [exact P1|apply pairwise_app; [exact P2|auto|]|].
  - intros t t' Ht Ht'. apply indep_uses. intros c U1 U2. pose proof (W2 t Ht c U1) as A. pose proof (owned_within H Ht' U2) as C. cbv beta in *.
    apply (N2 (fst c)); [|exact C]. simpl. intuition.
  - intros t t' Ht Ht'. apply indep_uses. intros c U1 U2. pose proof (W1 t Ht c U1) as A. cbv beta in A. apply in_app_or in Ht'. destruct Ht' as [Ht'|Ht'].
    + pose proof (W2 t' Ht' c U2) as C. cbv beta in C. destruct D as (D1 & D2 & D3 & D4). destruct A, C; congruence.
    + pose proof (owned_within H Ht' U2) as C. cbv beta in *. apply (N2 (fst c)); [|exact C]. simpl. intuition.
Qed.

(** ** Effects of the groups *)
Lemma put_same st u k v : put st u k v u k = v.
Proof. unfold put. now rewrite !Nat.eqb_refl. Qed.
Lemma put_obj st u k v u' k' : u' <> u -> put st u k v u' k' = st u' k'.
Proof. intros H. unfold put. apply Nat.eqb_neq in H. now rewrite H. Qed.
Lemma zero_effect u n gs st st' k : run (concat gs) st st' -> pairwise (concat gs) -> In (zero_tasks u n) gs -> k < n -> st' u k = n0.
Proof.
  intros R P Hg Hk. destruct (run_independent R P) as [A _].
  set (t := Task n0 [IConst n0; IStore u k]).
  assert (Ht : In t (concat gs)) by (apply in_concat; exists (zero_tasks u n); split; [exact Hg|]; apply in_map_iff; exists k; split; [reflexivity|apply in_seq; lia]).
  assert (W : writes t (u, k)) by (exists (IStore u k); simpl; auto).
  pose proof (A t (u, k) Ht W) as E. unfold at_, alone in E. cbn [fst snd t_code t_reg solo exec t] in E. rewrite put_same in E. exact E.
Qed.
Lemma add_effect u (d : list T) gs st st' k : run (concat gs) st st' -> pairwise (concat gs) -> In (add_tasks u d) gs -> k < length d ->
  st' u k = nadd (st u k) (nth k d n0).
Proof.
  intros R P Hg Hk. destruct (run_independent R P) as [A _].
  set (t := Task n0 [ILoad u k; IAdd (nth k d n0); IStore u k]).
  assert (Ht : In t (concat gs)).
  { apply in_concat; exists (add_tasks u d); split; [exact Hg|]; apply in_map_iff; exists (k, nth k d n0); split; [reflexivity|].
    assert (E : (k, nth k d n0) = nth k (combine (seq 0 (length d)) d) (0, n0)) by (rewrite combine_nth by apply seq_length; rewrite seq_nth by auto; reflexivity).
    rewrite E. apply nth_In. rewrite combine_length, seq_length. lia. }
  assert (W : writes t (u, k)) by (exists (IStore u k); simpl; auto).
  pose proof (A t (u, k) Ht W) as E. unfold at_, alone in E. cbn [fst snd t_code t_reg solo exec t] in E. rewrite put_same in E. exact E.
Qed.
Lemma gd_effect alpha x d n gs st st' k : run (concat gs) st st' -> pairwise (concat gs) -> In (gd_tasks alpha x d n) gs -> k < n -> x <> d ->
  st' x k = nadd (st x k) (nmul alpha (st d k)).
Proof.
  intros R P Hg Hk Ne. destruct (run_independent R P) as [A _].
  set (t := Task n0 [ILoad d k; IMul alpha; IStore d k; ILoad x k; IAddFrom d k; IStore x k]).
  assert (Ht : In t (concat gs)) by (apply in_concat; exists (gd_tasks alpha x d n); split; [exact Hg|]; apply in_map_iff; exists k; split; [reflexivity|apply in_seq; lia]).
  assert (W : writes t (x, k)) by (exists (IStore x k); simpl; tauto).
  pose proof (A t (x, k) Ht W) as E. unfold at_, alone in E. cbn [fst snd t_code t_reg solo exec t] in E. rewrite !put_same in E.
  rewrite put_obj in E by auto. exact E.
Qed.
Lemma untouched_cell gs st st' u k : run (concat gs) st st' -> pairwise (concat gs) -> (forall g t, In g gs -> In t g -> ~ writes t (u, k)) -> st' u k = st u k.
Proof.
  intros R P H. destruct (run_independent R P) as [_ A]. apply (A (u, k)). intros t Ht. apply in_concat in Ht. destruct Ht as (g & Hg & Ht). eauto.
Qed.
Lemma within_not (Q : nat -> Prop) t u k : within Q t -> ~ Q u -> ~ writes t (u, k).
Proof. intros W Nq H. apply Nq. apply (W (u, k)). now right. Qed.
Lemma gd_writes alpha x d n t v k : In t (gd_tasks alpha x d n) -> writes t (v, k) -> (v = x \/ v = d) /\ k < n.
Proof.
  intros H W. apply in_map_iff in H. destruct H as (k' & <- & Hk). apply in_seq in Hk. destruct W as (i & Hi & W). cbn [t_code In] in Hi.
  destruct Hi as [<-|[<-|[<-|[<-|[<-|[<-|[]]]]]]]; simpl in W; try tauto; injection W as -> ->; split; auto; lia.
Qed.
End Tasks.

Section Steps.
Context {T : Type} {N : Num T}.
Notation store := (store (T := T)).
Notation task := (task (T := T)).
Implicit Types (st : store).

Lemma weaken_within (P Q : nat -> Prop) (t : task) : (forall o, P o -> Q o) -> within P t -> within Q t.
Proof. intros H W c Uc. auto. Qed.
Lemma zero_owned ls : owned ls (flat_map (fun l => [zero_tasks (T := T) (l_WB l) (w_size l); zero_tasks (l_bB l) (b_size l)]) ls).
Proof.
  induction ls as [|l ls IH]; simpl; constructor; auto using zero_pair.
  - intros t Ht. eapply weaken_within; [|exact (zero_within Ht)]. auto.
  - intros t Ht. eapply weaken_within; [|exact (zero_within Ht)]. auto.
Qed.
Lemma gd_owned alpha ls : owned ls (flat_map (fun l => [gd_tasks (T := T) alpha (l_W l) (l_WB l) (w_size l); gd_tasks alpha (l_b l) (l_bB l) (b_size l)]) ls).
Proof.
  induction ls as [|l ls IH]; simpl; constructor; auto using gd_pair; intros t Ht; exact (gd_within Ht).
Qed.
Lemma reset_effect th ls st st' : NoDup (objs_of ls) -> resetMiniBatch th ls st st' ->
  (forall l k, In l ls -> k < w_size l -> st' (l_WB l) k = n0) /\ (forall l k, In l ls -> k < b_size l -> st' (l_bB l) k = n0) /\
  (forall o k, ~ In o (batches ls) -> st' o k = st o k).
Proof.
  intros Nd R. apply runs_run in R. pose proof (owned_pairwise (zero_owned ls) Nd) as P.
  split; [|split].
  - intros l k Hl Hk. eapply zero_effect; [exact R|exact P| |exact Hk]. apply in_flat_map. exists l. simpl. auto.
  - intros l k Hl Hk. eapply zero_effect; [exact R|exact P| |exact Hk]. apply in_flat_map. exists l. simpl. auto.
  - intros o k Ho. eapply untouched_cell; [exact R|exact P|]. intros g t Hg Ht. apply in_flat_map in Hg. destruct Hg as (l & Hl & [<-|[<-|[]]]).
    + eapply within_not; [exact (zero_within Ht)|]. intros ->. apply Ho. apply in_flat_map. exists l. simpl. auto.
    + eapply within_not; [exact (zero_within Ht)|]. intros ->. apply Ho. apply in_flat_map. exists l. simpl. auto.
Qed.
Lemma distinct_in ls l : NoDup (objs_of ls) -> In l ls -> l_W l <> l_WB l /\ l_b l <> l_bB l.
Proof.
  induction ls as [|l' ls IH]; intros Nd Hl; [destruct Hl|]. destruct Hl as [<-|Hl]; destruct (nodup_cons Nd) as (N1 & N2 & N3); [|auto].
  inversion N3 as [|? ? A1 Q1]; subst. inversion Q1 as [|? ? A2 Q2]; subst. simpl in *. intuition.
Qed.
Lemma optimize_effect (G : graph T) th alpha ls st st' : NoDup (objs_of ls) -> optimize G th alpha ls st st' ->
  (forall l k, In l ls -> k < w_size l -> st' (l_W l) k = nadd (st (l_W l) k) (nmul alpha (st (l_WB l) k))) /\
  (forall l k, In l ls -> k < b_size l -> st' (l_b l) k = nadd (st (l_b l) k) (nmul alpha (st (l_bB l) k))) /\
  (forall l k, In l ls -> w_size l <= k -> st' (l_W l) k = st (l_W l) k) /\ (forall l k, In l ls -> b_size l <= k -> st' (l_b l) k = st (l_b l) k) /\
  (forall o k, ~ In o (params ls) -> ~ In o (batches ls) -> st' o k = st o k).
Proof.
  intros Nd [_ R]. apply runs_run in R. pose proof (owned_pairwise (gd_owned alpha ls) Nd) as P.
  assert (Ot : forall g t, In g (flat_map (fun l => [gd_tasks (T := T) alpha (l_W l) (l_WB l) (w_size l); gd_tasks alpha (l_b l) (l_bB l) (b_size l)]) ls) -> In t g ->
    forall v k, writes t (v, k) -> exists l, In l ls /\ ((v = l_W l \/ v = l_WB l) /\ k < w_size l \/ (v = l_b l \/ v = l_bB l) /\ k < b_size l)).
  { intros g t Hg Ht v k Hw. apply in_flat_map in Hg. destruct Hg as (l & Hl & [<-|[<-|[]]]); exists l; (split; [exact Hl|]); [left|right]; exact (gd_writes Ht Hw). }
  assert (Un : forall l l', In l ls -> In l' ls -> (l_W l = l_W l' -> l = l') /\ (l_b l = l_b l' -> l = l') /\ l_W l <> l_WB l' /\ l_W l <> l_b l' /\ l_W l <> l_bB l' /\ l_b l <> l_WB l' /\ l_b l <> l_bB l').
  { clear P R Ot. assert (Mem : forall ls l, In l ls -> forall o, In o [l_W l; l_b l; l_WB l; l_bB l] -> In o (objs_of ls)).
    { intros ls0 l0 H0 o Ho. unfold objs_of. apply in_or_app. unfold params, batches. rewrite !in_flat_map. simpl in Ho. simpl.
      destruct Ho as [<-|[<-|[<-|[<-|[]]]]]; [left|left|right|right]; exists l0; auto. }
    induction ls as [|l0 ls IH]; intros l l' Hl Hl'; [destruct Hl|]. destruct (nodup_cons Nd) as (N1 & N2 & N3).
    assert (D0 : l_W l0 <> l_WB l0 /\ l_W l0 <> l_b l0 /\ l_W l0 <> l_bB l0 /\ l_b l0 <> l_WB l0 /\ l_b l0 <> l_bB l0).
    { inversion N3 as [|? ? A1 Q1]; subst. inversion Q1 as [|? ? A2 Q2]; subst. inversion Q2 as [|? ? A3 Q3]; subst. simpl in *. intuition congruence. }
    assert (X : forall l', In l' ls -> forall o o', In o [l_W l0; l_b l0; l_WB l0; l_bB l0] -> In o' [l_W l'; l_b l'; l_WB l'; l_bB l'] -> o <> o').
    { intros l2 H2 o o' Ho Ho' ->. apply (N2 o' Ho). exact (Mem ls l2 H2 o' Ho'). }
    destruct Hl as [<-|Hl], Hl' as [<-|Hl'].
    - intuition.
    - repeat split; intros E; exfalso; revert E; refine (X l' Hl' _ _ _ _); simpl; auto.
    - repeat split; intros E; exfalso; symmetry in E; revert E; refine (X l Hl _ _ _ _); simpl; auto.
    - apply IH; auto. }
  split; [|split; [|split; [|split]]].
  - intros l k Hl Hk. eapply gd_effect; [exact R|exact P| |exact Hk|apply (distinct_in Nd Hl)]. apply in_flat_map. exists l. simpl. auto.
  - intros l k Hl Hk. eapply gd_effect; [exact R|exact P| |exact Hk|apply (distinct_in Nd Hl)]. apply in_flat_map. exists l. simpl. auto.
  - intros l k Hl Hk. eapply untouched_cell; [exact R|exact P|]. intros g t Hg Ht Hw. destruct (Ot g t Hg Ht _ _ Hw) as (l' & Hl' & Q).
    destruct (Un l l' Hl Hl') as (U1 & U2 & U3 & U4 & U5 & U6 & U7). destruct Q as [[[E|E] Q]|[[E|E] Q]]; try congruence. specialize (U1 E). subst l'. lia.
  - intros l k Hl Hk. eapply untouched_cell; [exact R|exact P|]. intros g t Hg Ht Hw. destruct (Ot g t Hg Ht _ _ Hw) as (l' & Hl' & Q).
    destruct (Un l l' Hl Hl') as (U1 & U2 & U3 & U4 & U5 & U6 & U7). destruct (Un l' l Hl' Hl) as (_ & _ & _ & V4 & _).
    destruct Q as [[[E|E] Q]|[[E|E] Q]]; try congruence. specialize (U2 E). subst l'. lia.
  - intros o k Np Nb. eapply untouched_cell; [exact R|exact P|]. intros g t Hg Ht Hw. destruct (Ot g t Hg Ht _ _ Hw) as (l' & Hl' & Q).
    assert (In o (params ls) \/ In o (batches ls)); [|tauto]. unfold params, batches. rewrite !in_flat_map.
    destruct Q as [[[E|E] Q]|[[E|E] Q]]; subst o; [left|right|left|right]; exists l'; simpl; auto.
Qed.
End Steps.

Lemma run_frame {T} {N : Num T} (ts : list (task (T := T))) s s' c : run ts s s' -> (forall t, In t ts -> ~ writes t c) -> at_ s' c = at_ s c.
Proof.
  induction 1 as [ts s H|ts1 r i code ts2 s s' H IH]; intros Hw; [reflexivity|].
  rewrite IH.
  - apply exec_same. intros Q. apply (Hw (Task r (i :: code))); [apply in_or_app; simpl; auto|]. exists i. simpl. auto.
  - intros t Ht Q. apply in_app_or in Ht. cbn [In] in Ht. destruct Ht as [Ht|[<-|Ht]].
    + apply (Hw t); [apply in_or_app; auto|exact Q].
    + apply (Hw (Task r (i :: code))); [apply in_or_app; simpl; auto|]. exact (shrink_writes r i Q).
    + apply (Hw t); [apply in_or_app; simpl; auto|exact Q].
Qed.
