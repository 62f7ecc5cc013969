(** * The reset pass: it terminates, and it leaves a settled graph clean *)

From Coq Require Import List Arith Bool Lia.
From Verif Require Import Num ScalarModel ScalarSpec.
Import ListNotations.

Section Reset.
Context {T : Type} {N : Num T}.
Notation heap := (heap T).

(** Symbolic temporaries lie below the node that owns them, for some order. *)
Definition leveled (n : nat) (lev : nat -> nat) (m : nat -> memo) : Prop :=
  (forall id, lev id <= n) /\
  (forall id t, m_tmp (m id) = Some t -> t < n /\ lev t < lev id) /\
  (forall id x t, In (x, t) (m_dtmp (m id)) -> t < n /\ lev t < lev id).
(** Heap bounds: every index mentioned is below [n]; no cycle of symbolic temporaries. *)
Record bounded (n : nat) (h : heap) : Prop := {
  b_leaf : forall v o w, In o (c_items (cells h v)) -> In w (leaves o) -> w < n;
  b_memo : exists lev, leveled n lev (memos h)
}.

Lemma upd_same {A} (f : nat -> A) k a : upd f k a k = a.
Proof. unfold upd. now rewrite Nat.eqb_refl. Qed.
Lemma upd_other {A} (f : nat -> A) k a j : j <> k -> upd f k a j = f j.
Proof. intros H. unfold upd. apply Nat.eqb_neq in H. now rewrite H. Qed.
Lemma at_same {A} v (a : A) f : at_ v a f v = a.
Proof. unfold at_. now rewrite Nat.eqb_refl. Qed.
Lemma at_other {A} v (a : A) f x : x <> v -> at_ v a f x = f x.
Proof. intros H. unfold at_. apply Nat.eqb_neq in H. now rewrite H. Qed.

Lemma setc_same (h : heap) v c : cells (setc h v c) v = c.
Proof. apply upd_same. Qed.
Lemma setc_other (h : heap) v c w : w <> v -> cells (setc h v c) w = cells h w.
Proof. apply upd_other. Qed.
Lemma modc_same (h : heap) v f : cells (modc f v h) v = f (cells h v).
Proof. apply setc_same. Qed.
Lemma modc_other (h : heap) v f w : w <> v -> cells (modc f v h) w = cells h w.
Proof. apply setc_other. Qed.
Lemma memos_setc (h : heap) v c : memos (setc h v c) = memos h.
Proof. reflexivity. Qed.
Lemma memos_modc (h : heap) v f : memos (modc f v h) = memos h.
Proof. reflexivity. Qed.
Lemma next_setc (h : heap) v c : next (setc h v c) = next h.
Proof. reflexivity. Qed.

(** Same graph: base values and assignments, memo tables, counter. *)
Definition same_graph (h h' : heap) : Prop :=
  (forall w, c_base (cells h' w) = c_base (cells h w)) /\
  (forall w, c_items (cells h' w) = c_items (cells h w)) /\
  memos h' = memos h /\ next h' = next h.

Lemma same_graph_refl h : same_graph h h.
Proof. repeat split. Qed.
Lemma same_graph_trans h1 h2 h3 : same_graph h1 h2 -> same_graph h2 h3 -> same_graph h1 h3.
Proof. intros (A & B & C & D) (A' & B' & C' & D'). repeat split; intros; congruence. Qed.
Lemma same_graph_sym h1 h2 : same_graph h1 h2 -> same_graph h2 h1.
Proof. intros (A & B & C & D). repeat split; intros; congruence. Qed.

Lemma same_graph_mod (h : heap) v f :
  c_base (f (cells h v)) = c_base (cells h v) -> c_items (f (cells h v)) = c_items (cells h v) ->
  same_graph h (modc f v h).
Proof.
  intros A B. repeat split; intros w; destruct (Nat.eq_dec w v) as [->|Hw];
    rewrite ?modc_same, ?modc_other by assumption; auto.
Qed.
Lemma same_graph_setc (h : heap) v c :
  c_base c = c_base (cells h v) -> c_items c = c_items (cells h v) -> same_graph h (setc h v c).
Proof.
  intros A B. repeat split; intros w; destruct (Nat.eq_dec w v) as [->|Hw];
    rewrite ?setc_same, ?setc_other by assumption; auto.
Qed.

Lemma same_graph_bounded n h h' : same_graph h h' -> bounded n h -> bounded n h'.
Proof.
  intros (A & B & C & D) [b1 b2]. constructor.
  - intros v o w. rewrite B. eauto.
  - rewrite C. auto.
Qed.

Definition depc (h : heap) (v w : nat) : Prop :=
  exists o, In o (c_items (cells h v)) /\ In w (leaves o).

(** What a piece of the reset pass does: every cell is left alone or cleaned, and the
    operands of every cell that goes from visited to unvisited are clean. *)
Record RR (h h' : heap) : Prop := {
  rr_cell : forall w, cells h' w = cells h w \/ cells h' w = cleaned (cells h w);
  rr_memo : memos h' = memos h;
  rr_next : next h' = next h;
  rr_dep : forall w x, c_vis (cells h w) = true -> c_vis (cells h' w) = false ->
             depc h w x -> clean (cells h' x)
}.

Lemma cleaned_clean c : clean (cleaned c).
Proof. repeat split; auto. Qed.
Lemma RR_same_graph h h' : RR h h' -> same_graph h h'.
Proof.
  intros [A B C D]. repeat split; auto; intros w; destruct (A w) as [->| ->]; reflexivity.
Qed.
Lemma RR_clean h h' x : RR h h' -> clean (cells h x) -> clean (cells h' x).
Proof. intros [A _ _ _] H. destruct (A x) as [->| ->]; auto using cleaned_clean. Qed.
Lemma RR_unvis h h' x : RR h h' -> c_vis (cells h x) = false -> c_vis (cells h' x) = false.
Proof. intros [A _ _ _] H. destruct (A x) as [->| ->]; auto. Qed.
Lemma depc_graph h h' v w : same_graph h h' -> depc h v w -> depc h' v w.
Proof. intros (A & B & _) (o & H1 & H2). exists o. rewrite B. auto. Qed.

Lemma RR_refl h : RR h h.
Proof. constructor; auto. congruence. Qed.
Lemma RR_trans h1 h2 h3 : RR h1 h2 -> RR h2 h3 -> RR h1 h3.
Proof.
  intros R1 R2. pose proof R1 as [A1 B1 C1 D1]. pose proof R2 as [A2 B2 C2 D2].
  constructor; try congruence.
  - intros w. destruct (A1 w) as [E1|E1], (A2 w) as [E2|E2]; rewrite E2, E1; auto.
  - intros w x V1 V3 Hd.
    destruct (c_vis (cells h2 w)) eqn:V2.
    + eapply D2; eauto. eapply depc_graph; [|exact Hd]. now apply RR_same_graph.
    + eapply RR_clean; eauto.
Qed.

(** Number of visited cells below n. *)
Definition cv (n : nat) (h : heap) : nat :=
  length (filter (fun v => c_vis (cells h v)) (seq 0 n)).

Lemma filter_le {A} (p q : A -> bool) l :
  (forall a, In a l -> q a = true -> p a = true) -> length (filter q l) <= length (filter p l).
Proof.
  induction l as [|a l IH]; simpl; intros H; auto.
  assert (length (filter q l) <= length (filter p l)) by (apply IH; auto).
  destruct (q a) eqn:Q.
  - rewrite (H a) by auto. simpl. lia.
  - destruct (p a); simpl; lia.
Qed.
Lemma filter_lt {A} (p q : A -> bool) l a0 :
  (forall a, In a l -> q a = true -> p a = true) -> In a0 l -> p a0 = true -> q a0 = false ->
  length (filter q l) < length (filter p l).
Proof.
  induction l as [|a l IH]; simpl; intros H Hin Hp Hq; [easy|].
  destruct Hin as [->|Hin].
  - rewrite Hp, Hq. simpl.
    assert (length (filter q l) <= length (filter p l)) by (apply filter_le; auto). lia.
  - assert (length (filter q l) < length (filter p l)) by (apply IH; auto).
    destruct (q a) eqn:Q.
    + rewrite (H a) by auto. simpl. lia.
    + destruct (p a); simpl; lia.
Qed.

Lemma cv_bound n h : cv n h <= n.
Proof.
  unfold cv. rewrite <- (seq_length n 0) at 2.
  generalize (seq 0 n). induction l; simpl; auto. destruct (c_vis _); simpl; lia.
Qed.
Lemma RR_cv n h h' : RR h h' -> cv n h' <= cv n h.
Proof.
  intros R. apply filter_le. intros a _ H.
  destruct (c_vis (cells h a)) eqn:E; auto. now rewrite (RR_unvis _ _ _ R E) in H.
Qed.

(** [each] preserves a relation. *)
Lemma each_RR {A} (f : A -> heap -> option heap) (P : heap -> Prop) (l : list A) :
  forall h,
  P h -> (forall h h', RR h h' -> P h -> P h') ->
  (forall a h, In a l -> P h -> exists h', f a h = Some h' /\ RR h h') ->
  exists h', each f l h = Some h' /\ RR h h'.
Proof.
  induction l as [|a l IH]; intros h Ph Hp Hf; simpl.
  - exists h. split; auto using RR_refl.
  - destruct (Hf a h) as (h1 & E1 & R1); auto with datatypes. rewrite E1.
    destruct (IH h1) as (h2 & E2 & R2); eauto.
    + intros b h' Hb. apply Hf. now right.
    + exists h2. split; eauto using RR_trans.
Qed.

Lemma b_tmp_lt n h id t : bounded n h -> m_tmp (memos h id) = Some t -> t < n.
Proof. intros B E. destruct (b_memo _ _ B) as (lev & _ & L & _). apply L in E. lia. Qed.
Lemma b_dtmp_lt n h id x t : bounded n h -> In (x, t) (m_dtmp (memos h id)) -> t < n.
Proof. intros B E. destruct (b_memo _ _ B) as (lev & _ & _ & L). apply L in E. lia. Qed.

(** Indices named by a tree's temporaries are handled by [reset_temp]. *)
Section Op.
Variable n : nat.
Variable rv : nat -> heap -> option heap.
Variable k : nat.
Variable M : nat -> memo.
Definition Pk (h : heap) : Prop := bounded n h /\ cv n h <= k /\ memos h = M.
Hypothesis Hrv : forall v h, Pk h -> v < n ->
  exists h', rv v h = Some h' /\ RR h h' /\ clean (cells h' v).

Lemma Pk_RR h h' : RR h h' -> Pk h -> Pk h'.
Proof.
  intros R (B & C & D). split; [|split].
  - eapply same_graph_bounded; eauto using RR_same_graph.
  - pose proof (RR_cv n _ _ R). lia.
  - rewrite (rr_memo _ _ R). auto.
Qed.

Lemma reset_temp_ok id h : Pk h -> exists h', reset_temp rv id h = Some h' /\ RR h h'.
Proof.
  intros P. unfold reset_temp.
  assert (exists h1, match m_tmp (memos h id) with None => Some h | Some t => rv t h end = Some h1
                     /\ RR h h1) as (h1 & E1 & R1).
  { destruct (m_tmp (memos h id)) as [t|] eqn:E.
    - destruct (Hrv t h) as (h1 & E1 & R1 & _); auto.
      + eapply b_tmp_lt; [exact (proj1 P)|eauto].
      + eauto.
    - exists h. auto using RR_refl. }
  rewrite E1.
  destruct (each_RR (fun p h' => rv (snd p) h') (fun h' => Pk h' /\ memos h' = memos h)
              (m_dtmp (memos h id)) h1) as (h2 & E2 & R2).
  - split; [eauto using Pk_RR|]. apply R1.
  - intros a b R [Pa Ea]. split; [eauto using Pk_RR|]. rewrite (rr_memo _ _ R). auto.
  - intros [x t] h' Hin [P' E']. simpl.
    destruct (Hrv t h') as (h'' & E'' & R'' & _); auto.
    + rewrite <- E' in Hin. eapply b_dtmp_lt; [exact (proj1 P')|eauto].
    + eauto.
  - exists h2. split; eauto using RR_trans.
Qed.

Lemma reset_op_ok o : forall h, Pk h -> (forall w, In w (leaves o) -> w < n) ->
  exists h', reset_op rv o h = Some h' /\ RR h h' /\ forall w, In w (leaves o) -> clean (cells h' w).
Proof.
  induction o as [v|p tv|u id e IHe|b id l IHl r IHr]; intros h P HL; simpl in *.
  - destruct (Hrv v h) as (h' & E & R & C); auto.
    exists h'. split; [|split]; auto. intros w [<-|[]]; auto.
  - destruct (Hrv tv h) as (h' & E & R & C); auto.
    exists h'. split; [|split]; auto. intros w [<-|[]]; auto.
  - destruct (reset_temp_ok id h P) as (h1 & E1 & R1). rewrite E1.
    destruct (IHe h1) as (h2 & E2 & R2 & C2); eauto using Pk_RR.
    exists h2. split; [|split]; eauto using RR_trans.
  - destruct (reset_temp_ok id h P) as (h1 & E1 & R1). rewrite E1.
    destruct (IHl h1) as (h2 & E2 & R2 & C2); eauto using Pk_RR.
    { intros w Hw. apply HL. apply in_or_app. auto. }
    rewrite E2.
    destruct (IHr h2) as (h3 & E3 & R3 & C3); eauto using Pk_RR.
    { intros w Hw. apply HL. apply in_or_app. auto. }
    exists h3. split; [|split]; eauto using RR_trans.
    intros w Hw. apply in_app_or in Hw. destruct Hw; eauto using RR_clean.
Qed.

Lemma reset_items_ok l : forall h, Pk h -> (forall o w, In o l -> In w (leaves o) -> w < n) ->
  exists h', each (reset_op rv) l h = Some h' /\ RR h h' /\
    forall o w, In o l -> In w (leaves o) -> clean (cells h' w).
Proof.
  induction l as [|o l IH]; intros h P HL; simpl.
  - exists h. split; [|split]; auto using RR_refl. intros ? ? [].
  - destruct (reset_op_ok o h P) as (h1 & E1 & R1 & C1).
    { intros; eapply HL; eauto; now left. }
    rewrite E1.
    destruct (IH h1) as (h2 & E2 & R2 & C2); eauto using Pk_RR.
    { intros; eapply HL; eauto; now right. }
    exists h2. split; [|split]; eauto using RR_trans.
    intros o' w [<-|Ho] Hw; eauto using RR_clean.
Qed.
End Op.

(** The reset of one object terminates and does what [RR] says. *)
Lemma reset_var_ok n lev : forall fuel v h, bounded n h -> leveled n lev (memos h) -> v < n ->
  cv n h * S n + lev v < fuel ->
  exists h', reset_var fuel v h = Some h' /\ RR h h' /\ clean (cells h' v).
Proof.
  induction fuel as [|f IH]; intros v h B Lv Hv Hf; [lia|].
  cbn [reset_var].
  set (c := cells h v).
  assert (Htemp : forall h2, bounded n h2 -> memos h2 = memos h -> cv n h2 <= cv n h ->
     exists h3, reset_temp (reset_var f) v h2 = Some h3 /\ RR h2 h3).
  { intros h2 B2 M2 C2. unfold reset_temp.
    set (Q := fun h' => bounded n h' /\ cv n h' <= cv n h /\ memos h' = memos h2).
    assert (HQ : forall a b, RR a b -> Q a -> Q b).
    { intros a b R (Q1 & Q2 & Q3). split; [|split].
      - eapply same_graph_bounded; eauto using RR_same_graph.
      - pose proof (RR_cv n _ _ R). lia.
      - rewrite (rr_memo _ _ R). auto. }
    assert (Hrec : forall t a, t < n /\ lev t < lev v -> Q a -> exists b, reset_var f t a = Some b /\ RR a b).
    { intros t a Ht (Q1 & Q2 & Q3).
      destruct (IH t a) as (b & E & R & _); auto; try lia.
      { rewrite Q3, M2. auto. }
      { assert (cv n a * S n <= cv n h * S n) by (apply Nat.mul_le_mono_r; auto). lia. }
      eauto. }
    assert (Q h2) by (split; auto).
    assert (exists h1, match m_tmp (memos h2 v) with None => Some h2 | Some t => reset_var f t h2 end
                        = Some h1 /\ RR h2 h1) as (h1 & E1 & R1).
    { destruct (m_tmp (memos h2 v)) as [t|] eqn:E.
      - apply Hrec; auto. destruct Lv as (_ & L & _). apply L. rewrite <- M2. auto.
      - eauto using RR_refl. }
    rewrite E1.
    destruct (each_RR (fun p h' => reset_var f (snd p) h') Q (m_dtmp (memos h2 v)) h1)
      as (h3 & E3 & R3); eauto.
    - intros [x t] a Hin Qa. simpl. apply Hrec; auto. destruct Lv as (_ & _ & L). apply (L v x). rewrite <- M2. auto.
    - exists h3. eauto using RR_trans. }
  assert (Hmain : exists h1,
     (if c_vis c then each (reset_op (reset_var f)) (c_items c) (setc h v (set_vis false c))
      else Some h) = Some h1 /\ bounded n h1 /\ cv n h1 <= cv n h /\ RR h (modc cleaned v h1)).
  { destruct (c_vis c) eqn:Vc.
    - set (h0 := setc h v (set_vis false c)).
      assert (SG : same_graph h h0) by (apply same_graph_setc; reflexivity).
      assert (B0 : bounded n h0) by (eapply same_graph_bounded; eauto).
      assert (CV0 : cv n h0 < cv n h).
      { apply filter_lt with (a0 := v).
        - intros a _. destruct (Nat.eq_dec a v) as [->|Ha].
          + intros _. exact Vc.
          + unfold h0. rewrite setc_other; auto.
        - apply in_seq. lia.
        - exact Vc.
        - unfold h0. now rewrite setc_same. }
      destruct (reset_items_ok n (reset_var f) (cv n h0) (memos h)) with (l := c_items c) (h := h0)
        as (h1 & E1 & R1 & C1).
      { intros w h' (B' & C' & M') Hw. apply IH; auto; [now rewrite M'|].
        pose proof (proj1 Lv w).
        assert (cv n h' * S n <= (cv n h - 1) * S n) by (apply Nat.mul_le_mono_r; lia).
        assert ((cv n h - 1) * S n + S n <= cv n h * S n).
        { destruct (cv n h); simpl; lia. }
        lia. }
      { split; auto. }
      { intros o w Ho Hw. exact (b_leaf n h B v o w Ho Hw). }
      exists h1. split; auto.
      assert (SG1 : same_graph h h1) by (eapply same_graph_trans; [exact SG|apply RR_same_graph; auto]).
      split; [eapply same_graph_bounded; eauto|].
      split; [pose proof (RR_cv n _ _ R1); lia|].
      constructor.
      + intros w. destruct (Nat.eq_dec w v) as [->|Hw].
        * right. rewrite modc_same.
          destruct (rr_cell _ _ R1 v) as [-> | ->]; unfold h0; rewrite setc_same; reflexivity.
        * rewrite modc_other by auto.
          destruct (rr_cell _ _ R1 w) as [-> | ->]; unfold h0; rewrite setc_other by auto; auto.
      + rewrite memos_modc. rewrite (rr_memo _ _ R1). reflexivity.
      + simpl. rewrite (rr_next _ _ R1). reflexivity.
      + intros w x V1 V2 Hd. destruct (Nat.eq_dec x v) as [->|Hx].
        { rewrite modc_same. apply cleaned_clean. }
        rewrite modc_other by auto.
        destruct (Nat.eq_dec w v) as [->|Hw].
        * destruct Hd as (o & Ho & Hx'). eapply C1; eauto.
        * rewrite modc_other in V2 by auto.
          eapply (rr_dep _ _ R1) with (w := w); eauto.
          -- unfold h0. now rewrite setc_other.
          -- eapply depc_graph; eauto.
    - exists h. split; auto. split; auto. split; auto.
      constructor; auto.
      + intros w. destruct (Nat.eq_dec w v) as [->|Hw].
        * right. apply modc_same.
        * left. now apply modc_other.
      + intros w x V1 V2 Hd. destruct (Nat.eq_dec w v) as [->|Hw].
        * fold c in V1. congruence.
        * rewrite modc_other in V2; congruence. }
  destruct Hmain as (h1 & E1 & B1 & CV1 & R1). rewrite E1.
  destruct (Htemp (modc cleaned v h1)) as (h3 & E3 & R3).
  { eapply same_graph_bounded; [|exact B]. apply RR_same_graph; auto. }
  { exact (rr_memo _ _ R1). }
  { pose proof (RR_cv n _ _ R1). lia. }
  exists h3. split; auto. split; [eauto using RR_trans|].
  eapply RR_clean; eauto. rewrite modc_same. apply cleaned_clean.
Qed.

(** Recursion depth that always suffices. *)
Definition depth (n : nat) : nat := S (S (S n * S n)).

Lemma reset_var_total n v h fuel : bounded n h -> v < n -> depth n <= fuel ->
  exists h', reset_var fuel v h = Some h' /\ RR h h' /\ clean (cells h' v).
Proof.
  intros B Hv Hf. destruct (b_memo _ _ B) as (lev & Lv).
  apply reset_var_ok with (n := n) (lev := lev); auto.
  pose proof (proj1 Lv v). pose proof (cv_bound n h). unfold depth in Hf.
  assert (cv n h * S n <= n * S n) by (apply Nat.mul_le_mono_r; auto).
  simpl in Hf. lia.
Qed.

(** resetImpl terminates, and below its root everything becomes clean. *)
Lemma reset_impl_ok n v h fuel : bounded n h -> depth n <= fuel ->
  exists h', reset_impl fuel v h = Some h' /\ same_graph h h' /\
    c_vis (cells h' v) = false /\
    (forall w, w <> v -> c_vis (cells h w) = false -> c_vis (cells h' w) = false) /\
    (forall w, w <> v -> cells h' w = cells h w \/ cells h' w = cleaned (cells h w)) /\
    (depc h v v -> clean (cells h' v)) /\
    (settled h v -> forall w, reach (graph_of h) v w -> w <> v -> clean (cells h' w)).
Proof.
  intros B Hf. unfold reset_impl.
  set (h0 := modc (set_vis true) v h).
  assert (SG0 : same_graph h h0) by (apply same_graph_mod; reflexivity).
  destruct (reset_items_ok n (reset_var fuel) n (memos h)) with (l := c_items (cells h v)) (h := h0)
    as (h1 & E1 & R1 & C1).
  { intros w h' (B' & _) Hw. apply reset_var_total with (n := n); auto. }
  { split; [eapply same_graph_bounded; eauto|]. split; [apply cv_bound|reflexivity]. }
  { intros o w Ho Hw. exact (b_leaf n h B v o w Ho Hw). }
  rewrite E1.
  set (h2 := modc (set_vis false) v h1).
  assert (SG2 : same_graph h h2).
  { eapply same_graph_trans; [exact SG0|]. eapply same_graph_trans; [apply RR_same_graph; eauto|].
    apply same_graph_mod; reflexivity. }
  assert (Hoth : forall w, w <> v -> cells h2 w = cells h w \/ cells h2 w = cleaned (cells h w)).
  { intros w Hw. unfold h2. rewrite modc_other by auto.
    replace (cells h w) with (cells h0 w) by (unfold h0; now rewrite modc_other).
    apply R1. }
  assert (Hself : depc h v v -> clean (cells h2 v)).
  { intros (o & Ho & Hv). unfold h2. rewrite modc_same.
    destruct (C1 o v Ho Hv) as (c1 & c2 & c3 & c4).
    repeat split; auto. }
  exists h2. split; auto. split; auto. split; [unfold h2; now rewrite modc_same|].
  split.
  { intros w Hw V. destruct (Hoth w Hw) as [-> | ->]; auto. }
  split; auto. split; auto.
  intros [St1 St2] w Hr.
  induction Hr as [|u x Hr IH Hd]; intros Hne; [congruence|].
  destruct (Nat.eq_dec u v) as [->|Hu].
  - destruct Hd as (o & Ho & Hx). unfold h2. rewrite modc_other by auto. eapply C1; eauto.
  - specialize (IH Hu). unfold h2. rewrite modc_other by auto.
    destruct (c_vis (cells h u)) eqn:Vu.
    + eapply (rr_dep _ _ R1) with (w := u).
      * unfold h0. now rewrite modc_other.
      * unfold h2 in IH. rewrite modc_other in IH by auto.
        destruct IH as (_ & _ & _ & [IH|IH]); auto.
        exfalso. destruct Hd as (o & Ho & _).
        assert (E : c_items (cells h1 u) = items (graph_of h) u).
        { unfold items, graph_of. simpl. destruct SG2 as (_ & SG2 & _). rewrite <- SG2. unfold h2.
          now rewrite modc_other. }
        rewrite <- E in Ho. rewrite IH in Ho. destruct Ho.
      * eapply depc_graph; [exact SG0|]. exact Hd.
    + assert (Hc : clean (cells h x)) by (eapply St2; eauto).
      destruct (rr_cell _ _ R1 x) as [-> | ->]; auto using cleaned_clean.
      unfold h0. now rewrite modc_other.
Qed.

Lemma same_graph_graph_of h h' v : same_graph h h' -> graph_of h' v = graph_of h v.
Proof. intros (A & B & _). unfold graph_of. now rewrite A, B. Qed.

Lemma reach_graph h h' v w : same_graph h h' -> reach (graph_of h) v w -> reach (graph_of h') v w.
Proof.
  intros SG H. induction H as [|u x H IH (o & Ho & Hx)]; [constructor|].
  econstructor; eauto. exists o. split; auto. unfold items in *.
  now rewrite (same_graph_graph_of _ _ u SG).
Qed.

End Reset.
