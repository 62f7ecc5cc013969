(** * Eval, DevalF, PreComp and DevalR on a settled state (lemmas for C01, C03, C05-C07) *)

From Coq Require Import List Arith Bool Lia.
From Verif Require Import Num ScalarModel ScalarSpec ScalarReset ScalarEval ScalarRev ScalarTerm.
Import ListNotations.

Section Api.
Context {T : Type} {N : Num T}.
Notation heap := (heap T).
Notation graph := (graph (T := T)).

(** ** Graphs equal at every object *)
Definition geq (g g' : graph) : Prop := forall v, g v = g' v.
Lemma geq_sym g g' : geq g g' -> geq g' g.
Proof. intros H v. now rewrite H. Qed.
Lemma dep_ext g g' v w : geq g g' -> dep g v w -> dep g' v w.
Proof. intros E (o & Ho & Hw). exists o. unfold items in *. now rewrite <- (E v). Qed.
Lemma reach_ext g g' r w : geq g g' -> reach g r w -> reach g' r w.
Proof. intros E H. induction H; [constructor|]. econstructor; eauto using dep_ext. Qed.
Lemma values_ext g g' r W : geq g g' -> values g r W -> values g' r W.
Proof.
  intros E H v Hr. rewrite (H v) by (eapply reach_ext; [apply geq_sym; eauto|auto]).
  unfold items, base. now rewrite (E v).
Qed.
Lemma derivs_ext g g' r W x D : geq g g' -> derivs g r W x D -> derivs g' r W x D.
Proof.
  intros E H v Hr. rewrite (H v) by (eapply reach_ext; [apply geq_sym; eauto|auto]).
  unfold items, base. now rewrite (E v).
Qed.
Lemma stratified_ext g g' r : geq g g' -> stratified g r -> stratified g' r.
Proof.
  intros E (rank & H). exists rank. intros v w Hv Hd. apply geq_sym in E.
  apply H; eauto using reach_ext, dep_ext.
Qed.
Lemma reach_trans (g : graph) a b c : reach g a b -> reach g b c -> reach g a c.
Proof. intros H1 H2. induction H2; auto. econstructor; eauto. Qed.

(** ** Values and derivatives exist and are unique *)
Fixpoint wv (g : graph) (f : nat) (v : nat) : T :=
  match f with
  | O => base g v
  | S f => fold_left (fun cur o => sem (at_ v cur (wv g f)) o) (items g v) (base g v)
  end.
Lemma fold_ext {A B} (f f' : A -> B -> A) l : (forall a b, In b l -> f a b = f' a b) ->
  forall a, fold_left f l a = fold_left f' l a.
Proof.
  induction l as [|b l IH]; intros H a; simpl; auto.
  rewrite H by (simpl; auto). apply IH. intros; apply H; simpl; auto.
Qed.
Lemma values_exist g root : stratified g root -> exists W, values g root W.
Proof.
  intros (rank & R).
  assert (St : forall f f' v, reach g root v -> rank v < f -> rank v < f' -> wv g f v = wv g f' v).
  { induction f as [|f IH]; intros f' v Hr Hf Hf'; [lia|].
    destruct f' as [|f']; [lia|]. cbn [wv]. apply fold_ext. intros cur o Ho. apply sem_ext.
    intros w Hw. unfold at_. destruct (Nat.eqb_spec w v) as [->|Hn]; auto.
    assert (Hd : dep g v w) by (exists o; auto).
    destruct (R v w Hr Hd) as [|L]; [congruence|].
    apply IH; try lia. econstructor; eauto. }
  set (W := fun v => wv g (S (rank v)) v).
  exists W. intros v Hr.
  change (W v) with (fold_left (fun cur o => sem (at_ v cur (wv g (rank v))) o) (items g v) (base g v)).
  apply fold_ext. intros cur o Ho. apply sem_ext. intros w Hw.
  unfold at_. destruct (Nat.eqb_spec w v) as [->|Hn]; auto.
  assert (Hd : dep g v w) by (exists o; auto).
  destruct (R v w Hr Hd) as [|L]; [congruence|].
  apply St; try lia. econstructor; eauto.
Qed.
Lemma values_unique g root W W' : stratified g root -> values g root W -> values g root W' ->
  forall v, reach g root v -> W v = W' v.
Proof.
  intros (rank & R) H H'.
  assert (A : forall k v, rank v < k -> reach g root v -> W v = W' v).
  { induction k as [|k IH]; intros v Hk Hr; [lia|].
    rewrite (H v Hr), (H' v Hr). apply fold_ext. intros cur o Ho. apply sem_ext.
    intros w Hw. unfold at_. destruct (Nat.eqb_spec w v) as [->|Hn]; auto.
    assert (Hd : dep g v w) by (exists o; auto).
    destruct (R v w Hr Hd) as [|L]; [congruence|].
    apply IH; try lia. econstructor; eauto. }
  intros v Hr. apply (A (S (rank v))); auto.
Qed.

Fixpoint dv (g : graph) (W : nat -> T) (x : nat) (f : nat) (v : nat) : T :=
  match f with
  | O => n0
  | S f => if Nat.eqb v x then n1 else
     snd (fold_left (fun p o => (sem (at_ v (fst p) W) o,
              dsem (at_ v (fst p) W) (at_ x n1 (at_ v (snd p) (dv g W x f))) o))
            (items g v) (base g v, n0))
  end.
Lemma derivs_exist g root W x : stratified g root -> exists D, derivs g root W x D.
Proof.
  intros (rank & R).
  assert (Ext : forall (D D' : nat -> T) v, reach g root v ->
     (forall w, reach g root w -> rank w < rank v -> D w = D' w) ->
     (if Nat.eqb v x then n1 else snd (fold_left (fun p o => (sem (at_ v (fst p) W) o,
              dsem (at_ v (fst p) W) (at_ x n1 (at_ v (snd p) D)) o)) (items g v) (base g v, n0))) =
     (if Nat.eqb v x then n1 else snd (fold_left (fun p o => (sem (at_ v (fst p) W) o,
              dsem (at_ v (fst p) W) (at_ x n1 (at_ v (snd p) D')) o)) (items g v) (base g v, n0)))).
  { intros D D' v Hr HD. destruct (Nat.eqb v x); auto. f_equal. apply fold_ext. intros p o Ho.
    f_equal. apply dsem_ext; auto. intros w Hw. unfold at_.
    destruct (Nat.eqb w x); auto. destruct (Nat.eqb_spec w v) as [->|Hn]; auto.
    assert (Hd : dep g v w) by (exists o; auto).
    destruct (R v w Hr Hd) as [|L]; [congruence|]. apply HD; auto. econstructor; eauto. }
  assert (St : forall f f' v, reach g root v -> rank v < f -> rank v < f' -> dv g W x f v = dv g W x f' v).
  { induction f as [|f IH]; intros f' v Hr Hf Hf'; [lia|].
    destruct f' as [|f']; [lia|]. cbn [dv]. apply Ext; auto. intros w Hw L. apply IH; auto; lia. }
  set (D := fun v => dv g W x (S (rank v)) v).
  exists D. intros v Hr.
  change (D v) with (if Nat.eqb v x then n1 else
     snd (fold_left (fun p o => (sem (at_ v (fst p) W) o,
              dsem (at_ v (fst p) W) (at_ x n1 (at_ v (snd p) (dv g W x (rank v)))) o))
            (items g v) (base g v, n0))).
  apply Ext; auto. intros w Hw L. apply St; auto; lia.
Qed.
Lemma derivs_unique g root W x D D' : stratified g root -> derivs g root W x D -> derivs g root W x D' ->
  forall v, reach g root v -> D v = D' v.
Proof.
  intros (rank & R) H H'.
  assert (A : forall k v, rank v < k -> reach g root v -> D v = D' v).
  { induction k as [|k IH]; intros v Hk Hr; [lia|].
    rewrite (H v Hr), (H' v Hr). destruct (Nat.eqb v x); auto. f_equal.
    apply fold_ext. intros p o Ho. f_equal. apply dsem_ext; auto.
    intros w Hw. unfold at_. destruct (Nat.eqb w x); auto.
    destruct (Nat.eqb_spec w v) as [->|Hn]; auto.
    assert (Hd : dep g v w) by (exists o; auto).
    destruct (R v w Hr Hd) as [|L]; [congruence|].
    apply IH; try lia. econstructor; eauto. }
  intros v Hr. apply (A (S (rank v))); auto.
Qed.

(** Ranks below n. *)
Definition crank (n : nat) (rank : nat -> nat) (v : nat) : nat :=
  length (filter (fun w => Nat.ltb (rank w) (rank v)) (seq 0 n)).
Lemma crank_bound n rank v : crank n rank v <= n.
Proof.
  unfold crank. rewrite <- (seq_length n 0) at 2.
  generalize (seq 0 n). induction l; simpl; auto. destruct (Nat.ltb _ _); simpl; lia.
Qed.
Lemma crank_lt n rank v w : w < n -> rank w < rank v -> crank n rank w < crank n rank v.
Proof.
  intros Hw Hr. apply filter_lt with (a0 := w).
  - intros a _ H. apply Nat.ltb_lt in H. apply Nat.ltb_lt. lia.
  - apply in_seq. lia.
  - now apply Nat.ltb_lt.
  - apply Nat.ltb_ge. lia.
Qed.

(** ** One call on a root *)

Record ready (n : nat) (h : heap) (root : nat) : Prop := {
  rdy_b : bounded n h;
  rdy_root : root < n;
  rdy_expr : c_items (cells h root) <> [];
  rdy_strat : stratified (graph_of h) root;
  rdy_par : params_plain (graph_of h);
  rdy_settled : settled h root
}.

Lemma reach_lt n (h : heap) root v : bounded n h -> root < n -> reach (graph_of h) root v -> v < n.
Proof.
  intros B R H. induction H as [|w x H IH (o & Ho & Hx)]; auto. exact (b_leaf n h B w o x Ho Hx).
Qed.
Lemma reach_closed n (h : heap) root : bounded n h -> root < n -> closed n (reach (graph_of h) root) h.
Proof.
  intros B R. split; [intros v; now apply reach_lt|].
  intros v o w Hv Ho Hw. econstructor; eauto. exists o. auto.
Qed.

(** A rank usable by the pass lemmas. *)
Lemma ready_rank n (h : heap) root : ready n h root -> exists rank : nat -> nat,
  (forall v, rank v <= n) /\
  (forall v o w, reach (graph_of h) root v -> In o (c_items (cells h v)) -> In w (leaves o) ->
      w = v \/ rank w < rank v) /\
  (forall v, reach (graph_of h) root v -> v = root \/ rank v < rank root).
Proof.
  intros [B R E (rank & S) P St]. exists (crank n rank). split; [apply crank_bound|].
  assert (A : forall v o w, reach (graph_of h) root v -> In o (c_items (cells h v)) -> In w (leaves o) ->
      w = v \/ crank n rank w < crank n rank v).
  { intros v o w Hv Ho Hw. assert (Hd : dep (graph_of h) v w) by (exists o; auto).
    destruct (S v w Hv Hd) as [|L]; auto. right. apply crank_lt; auto.
    exact (b_leaf n h B v o w Ho Hw). }
  split; auto.
  intros v Hr. induction Hr as [|w x Hr IH (o & Ho & Hx)]; auto.
  destruct (A w o x Hr Ho Hx) as [->|L]; auto. right. destruct IH as [->|]; auto. lia.
Qed.

Definition pset (h : heap) (root : nat) := reach (graph_of h) root.

(** State between reset and the pass. *)
Record mid (h h1 : heap) (root : nat) : Prop := {
  mid_g : same_graph h h1;
  mid_v : c_vis (cells h1 root) = false;
  mid_self : depc h root root -> clean (cells h1 root);
  mid_c : forall w, reach (graph_of h) root w -> w <> root -> clean (cells h1 w)
}.
Lemma reset_mid n h root fuel : ready n h root -> depth n <= fuel ->
  exists h1, reset_impl fuel root h = Some h1 /\ mid h h1 root.
Proof.
  intros [B R E S P St] Hf.
  destruct (reset_impl_ok n root h fuel B Hf) as (h1 & E1 & G1 & V1 & _ & _ & Sf & C1).
  exists h1. split; auto. constructor; auto.
Qed.

(** After a pass over everything reachable the state is settled again. *)
Lemma pass_settled n h h1 h2 root : ready n h root -> mid h h1 root ->
  pass (pset h root) h1 h2 -> c_vis (cells h2 root) = true -> settled h2 root.
Proof.
  intros Rd M P V.
  assert (SG : same_graph h h2) by (eapply same_graph_trans; [apply M|apply P]).
  assert (SG' : same_graph h2 h) by now apply same_graph_sym.
  assert (Vis : forall v, reach (graph_of h) root v -> c_items (cells h v) <> [] -> c_vis (cells h2 v) = true).
  { intros v Hr. induction Hr as [|u x Hr IH (o & Ho & Hx)]; intros Hne; auto.
    assert (Hu : c_items (cells h u) <> []) by (intros E; unfold items, graph_of in Ho; simpl in Ho; rewrite E in Ho; destruct Ho).
    specialize (IH Hu).
    destruct (leaves_split o x Hx) as [Hv|Hp].
    - eapply (p_clos _ _ _ P) with (u := u) (o := o); auto.
      + destruct (Nat.eq_dec u root) as [->|Hn]; [apply M|].
        destruct (mid_c _ _ _ M u Hr Hn) as (_ & _ & _ & [C|C]); auto.
        destruct (mid_g _ _ _ M) as (_ & G & _). rewrite G in C. congruence.
      + destruct (mid_g _ _ _ M) as (_ & G & _). rewrite G. exact Ho.
    - exfalso. apply Hne. exact (rdy_par _ _ _ Rd u o x Ho Hp). }
  split.
  - intros v Hr Hi. apply (reach_graph _ _ _ _ SG') in Hr.
    assert (Hi' : c_items (cells h v) = []) by (destruct SG as (_ & G & _); now rewrite <- G).
    apply (p_plain _ _ _ P).
    + destruct (mid_g _ _ _ M) as (_ & G & _). now rewrite G.
    + apply (mid_c _ _ _ M); auto. intros ->. now apply (rdy_expr _ _ _ Rd).
  - intros v w Hr (o & Ho & Hw) Hn Vv. exfalso. apply (reach_graph _ _ _ _ SG') in Hr.
    rewrite Vis in Vv; [discriminate|auto|].
    intros E. assert (E' : c_items (cells h2 v) = []) by (destruct SG as (_ & G & _); now rewrite G).
    unfold items, graph_of in Ho. simpl in Ho. rewrite E' in Ho. destruct Ho.
Qed.

Lemma ready_same n h h' root : ready n h root -> same_graph h h' -> settled h' root -> ready n h' root.
Proof.
  intros [B R E S P St] SG St'. constructor; auto.
  - eapply same_graph_bounded; eauto.
  - destruct SG as (_ & G & _). now rewrite G.
  - eapply stratified_ext; [|exact S]. intros v. symmetry. now apply same_graph_graph_of.
  - intros v o tv. unfold items. rewrite !(same_graph_graph_of _ _ _ SG). apply P.
Qed.

Lemma fuel_room n : S (S n) < depth n.
Proof. unfold depth. simpl. lia. Qed.
Lemma fuel_cu n (h : heap) fuel : depth n <= fuel -> cu n h < fuel.
Proof. intros H. pose proof (cu_bound n h). pose proof (fuel_room n). lia. Qed.

(** The graph as seen after reset. *)
Lemma mid_graph_is h h1 root : mid h h1 root ->
  graph_is (fun v => c_base (cells h v)) (fun v => c_items (cells h v)) h1.
Proof. intros M. destruct (mid_g _ _ _ M) as (A & B & _). split; auto. Qed.

Lemma Eval_ok n h root W fuel : ready n h root -> depth n <= fuel -> values (graph_of h) root W ->
  exists h', Eval fuel root h = Some (W root, h') /\ same_graph h h' /\ settled h' root.
Proof.
  intros Rd Hf HW. destruct (reset_mid n h root fuel Rd Hf) as (h1 & E1 & M).
  destruct (ready_rank n h root Rd) as (rank & Rb & Rr & Rt).
  unfold Eval. rewrite E1.
  destruct (eval_var_ok (fun v => c_base (cells h v)) (fun v => c_items (cells h v))
      (reach (graph_of h) root) rank) with (W := W) (f := fuel) (v := root) (h := h1)
    as (h2 & E2 & U2 & I2 & D2); auto.
  - intros v o w Sv Ho Hw. econstructor; eauto. exists o. auto.
  - intros v o w Sv Ho Hw. exact (rdy_par _ _ _ Rd v o w Ho Hw).
  - constructor.
  - pose proof (Rb root). pose proof (fuel_room n). lia.
  - eapply mid_graph_is; eauto.
  - intros w Sw Rw. left. apply (mid_c _ _ _ M); auto. intros ->. lia.
  - right. apply M.
  - assert (Cl : closed n (pset h root) h1).
    { eapply pass_closed; [exact (mid_g _ _ _ M)|]. apply (reach_closed n); [exact (rdy_b _ _ _ Rd)|exact (rdy_root _ _ _ Rd)]. }
    destruct (eval_var_term n (pset h root) fuel root h1) as (x & h2' & E2' & P2 & V2); auto.
    { constructor. }
    { now apply fuel_cu. }
    rewrite E2 in E2'. injection E2' as <- <-.
    exists h2. split; auto. split.
    + eapply same_graph_trans; [exact (mid_g _ _ _ M)|exact (p_graph _ _ _ P2)].
    + eapply pass_settled; eauto.
Qed.

Lemma DevalF_ok n h root W x D fuel : ready n h root -> depth n <= fuel ->
  values (graph_of h) root W -> derivs (graph_of h) root W x D ->
  exists h', DevalF fuel root x h = Some (D root, h') /\ same_graph h h' /\ settled h' root.
Proof.
  intros Rd Hf HW HD. destruct (reset_mid n h root fuel Rd Hf) as (h1 & E1 & M).
  destruct (ready_rank n h root Rd) as (rank & Rb & Rr & Rt).
  unfold DevalF. rewrite E1.
  destruct (devalF_var_ok (fun v => c_base (cells h v)) (fun v => c_items (cells h v))
      (reach (graph_of h) root) rank) with (W := W) (x := x) (D := D) (f := fuel) (v := root) (h := h1)
    as (h2 & E2 & U2 & I2 & M2 & D2); auto.
  - intros v o w Sv Ho Hw. econstructor; eauto. exists o. auto.
  - intros v o w Sv Ho Hw. exact (rdy_par _ _ _ Rd v o w Ho Hw).
  - constructor.
  - pose proof (Rb root). pose proof (fuel_room n). lia.
  - eapply mid_graph_is; eauto.
  - intros w Sw Rw. left. apply (mid_c _ _ _ M); auto. intros ->. lia.
  - right. split; [apply M|].
    destruct (in_dec Nat.eq_dec root (flat_map leaves (c_items (cells h root)))) as [Hi|Hi].
    + left. apply in_flat_map in Hi. destruct Hi as (o & Ho & Hr).
      destruct (mid_self _ _ _ M) as (C1 & C2 & _); [exists o; auto|].
      rewrite C1, C2. destruct (mid_g _ _ _ M) as (G & _). now rewrite G.
    + right. split; [apply Rd|]. intros o Ho Hr. apply Hi. apply in_flat_map. eauto.
  - assert (Cl : closed n (pset h root) h1).
    { eapply pass_closed; [exact (mid_g _ _ _ M)|]. apply (reach_closed n); [exact (rdy_b _ _ _ Rd)|exact (rdy_root _ _ _ Rd)]. }
    destruct (devalF_var_term n (pset h root) x fuel root h1) as (y & h2' & E2' & P2 & V2); auto.
    { constructor. }
    { now apply fuel_cu. }
    rewrite E2 in E2'. injection E2' as <- <-.
    exists h2. split; auto. split.
    + eapply same_graph_trans; [exact (mid_g _ _ _ M)|exact (p_graph _ _ _ P2)].
    + eapply pass_settled; eauto.
Qed.

(** [x] is a legitimate target of reverse mode. *)
Definition rev_target (g : graph) (root x : nat) : Prop :=
  target_ok g root x /\ x <> root /\ (forall o, In o (items g x) -> ~ In x (leaves o)).

Lemma PreComp_ok n h root fuel : ready n h root -> depth n <= fuel ->
  exists h', PreComp fuel root h = Some h' /\ same_graph h h' /\ settled h' root /\
    forall (L : NumLaws N) W x D, values (graph_of h) root W -> derivs (graph_of h) root W x D ->
      divisors_ok (graph_of h) root W -> unique_ids (graph_of h) root ->
      rev_target (graph_of h) root x ->
      cget (c_cache (cells h' root)) x = D root.
Proof.
  intros Rd Hf. destruct (reset_mid n h root fuel Rd Hf) as (h1 & E1 & M).
  unfold PreComp. rewrite E1.
  assert (Cl : closed n (pset h root) h1).
  { eapply pass_closed; [exact (mid_g _ _ _ M)|]. apply (reach_closed n); [exact (rdy_b _ _ _ Rd)|exact (rdy_root _ _ _ Rd)]. }
  destruct (trav_var_term n (pset h root) fuel root h1) as (h2 & E2 & P2 & V2); auto.
  { constructor. }
  { now apply fuel_cu. }
  exists h2. split; auto. split.
  { eapply same_graph_trans; [exact (mid_g _ _ _ M)|exact (p_graph _ _ _ P2)]. }
  split; [eapply pass_settled; eauto|].
  intros L W x D HW HD Hdiv (U1 & U2 & U3) ((T1 & T2 & T3) & Hxr & Hxs).
  destruct (ready_rank n h root Rd) as (rank & Rb & Rr & Rt).
  destruct (trav_var_ok L (fun v => c_base (cells h v)) (fun v => c_items (cells h v))
      (reach (graph_of h) root) rank) with (W := W) (t := x) (D := D) (f := fuel) (v := root) (h := h1)
    as (h2' & E2' & U2' & I2 & M2 & D2); auto.
  - intros v o w Sv Ho Hw. econstructor; eauto. exists o. auto.
  - intros v o w Sv Ho Hw. exact (rdy_par _ _ _ Rd v o w Ho Hw).
  - constructor.
  - pose proof (Rb root). pose proof (fuel_room n). lia.
  - eapply mid_graph_is; eauto.
  - intros w Sw Rw. left. apply (mid_c _ _ _ M); auto. intros ->. lia.
  - right. split; [apply M|].
    destruct (in_dec Nat.eq_dec root (flat_map leaves (c_items (cells h root)))) as [Hi|Hi].
    + left. apply in_flat_map in Hi. destruct Hi as (o & Ho & Hr).
      destruct (mid_self _ _ _ M) as (C1 & C2 & C3 & _); [exists o; auto|].
      rewrite C1, C3. destruct (mid_g _ _ _ M) as (G & _). now rewrite G.
    + right. split; [apply Rd|]. intros o Ho Hr. apply Hi. apply in_flat_map. eauto.
  - rewrite E2 in E2'. injection E2' as <-.
    rewrite (rd_c _ _ _ _ _ _ _ _ D2). unfold cd. destruct (Nat.eqb_spec root x); congruence.
Qed.

(** Reading a derivative does not disturb anything. *)
Lemma DevalR_ok n h root x : ready n h root ->
  let h' := snd (DevalR root x h) in
  same_graph h h' /\ settled h' root /\
  forall y, cget (c_cache (cells h' root)) y = cget (c_cache (cells h root)) y.
Proof.
  intros Rd. cbn zeta. unfold DevalR. cbn [snd].
  set (h' := modc _ root h).
  assert (SG : same_graph h h') by (apply same_graph_mod; reflexivity).
  assert (SG' : same_graph h' h) by now apply same_graph_sym.
  destruct (ready_rank n h root Rd) as (rank & Rb & Rr & Rt).
  destruct (rdy_settled _ _ _ Rd) as [S1 S2].
  split; auto. split.
  - split.
    + intros v Hr Hi. apply (reach_graph _ _ _ _ SG') in Hr.
      assert (v <> root).
      { intros ->. apply (rdy_expr _ _ _ Rd). unfold h' in Hi. rewrite modc_same in Hi. exact Hi. }
      unfold h' in *. rewrite modc_other in * by auto. auto.
    + intros v w Hr (o & Ho & Hw) Hn Vv. apply (reach_graph _ _ _ _ SG') in Hr.
      unfold items in Ho. rewrite (same_graph_graph_of _ _ _ SG) in Ho.
      unfold h' in *. rewrite modc_other in Vv by auto.
      destruct (Nat.eq_dec w root) as [->|Hw'].
      * exfalso. destruct (Rr v o root Hr Ho Hw) as [|L1]; [congruence|].
        destruct (Rt v Hr) as [|L2]; [congruence|lia].
      * rewrite modc_other by auto. apply (S2 v w); auto. exists o. auto.
  - intros y. unfold h'. rewrite modc_same. simpl. apply cget_ctouch.
Qed.

(** Assigning a number to a plain variable (or to the variable behind a parameter). *)
Definition gset (v : nat) (x : T) (g : graph) : graph := at_ v (x, []) g.
Lemma SetVar_graph h v x w : graph_of (SetVar v x h) w = gset v x (graph_of h) w.
Proof.
  unfold graph_of, gset, SetVar, at_. destruct (Nat.eqb_spec w v) as [->|Hn].
  - now rewrite modc_same.
  - now rewrite modc_other.
Qed.
Lemma SetVar_ready n h root v x : ready n h root -> c_items (cells h v) = [] -> ready n (SetVar v x h) root.
Proof.
  intros [B R E S P [S1 S2]] Hv.
  assert (It : forall w, c_items (cells (SetVar v x h) w) = c_items (cells h w)).
  { intros w. unfold SetVar. destruct (Nat.eq_dec w v) as [->|Hn].
    - rewrite modc_same. auto.
    - now rewrite modc_other. }
  assert (Dp : forall a b, dep (graph_of (SetVar v x h)) a b <-> dep (graph_of h) a b).
  { intros a b. unfold dep, items, graph_of. cbn [snd]. rewrite It. tauto. }
  assert (Rc : forall w, reach (graph_of (SetVar v x h)) root w -> reach (graph_of h) root w).
  { intros w H. induction H; [constructor|]. econstructor; eauto. now apply Dp. }
  constructor; auto.
  - destruct B as [b1 b2]. constructor; auto. intros w o u. rewrite It. eauto.
  - now rewrite It.
  - destruct S as (rank & S). exists rank. intros a b Ha Hb. apply S; auto. now apply Dp.
  - intros a o tv. unfold items, graph_of. cbn [snd]. rewrite !It. apply P.
  - split.
    + intros w Hr Hi. rewrite It in Hi. apply Rc in Hr. specialize (S1 w Hr Hi). unfold SetVar.
      destruct (Nat.eq_dec w v) as [->|Hn].
      * rewrite modc_same. repeat split; simpl; auto.
      * now rewrite modc_other.
    + intros a b Ha Hd Hn Va. apply Rc in Ha. apply Dp in Hd.
      assert (Va' : c_vis (cells h a) = false).
      { unfold SetVar in Va. destruct (Nat.eq_dec a v) as [->|Hav].
        - rewrite modc_same in Va. exact Va.
        - now rewrite modc_other in Va. }
      specialize (S2 a b Ha Hd Hn Va'). unfold SetVar.
      destruct (Nat.eq_dec b v) as [->|Hbv].
      * rewrite modc_same. repeat split; simpl; auto.
      * now rewrite modc_other.
Qed.

End Api.
