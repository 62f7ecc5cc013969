(** * Histories of calls (C07, C08, C20) *)

From Coq Require Import List Arith Bool Lia.
From Verif Require Import Num ScalarModel ScalarSpec ScalarReset ScalarEval ScalarRev ScalarTerm ScalarApi.
Import ListNotations.

Section Hist.
Context {T : Type} {N : Num T}.
Notation heap := (heap T).
Notation graph := (graph (T := T)).

(** What a user can do with one expression between constructions: assign a number to a
    variable (or to the variable behind a parameter), ask for the value, for a forward
    derivative, or run PreComp and read any number of reverse derivatives. *)
Inductive query : Type :=
| QSet (v : nat) (x : T)
| QEval
| QDevalF (x : nat)
| QGrad (xs : list nat).

(** The calls made by the program (model of user code; no library function). *)
Definition run1 (fuel root : nat) (q : query) (h : heap) : option (list T * heap) :=
  match q with
  | QSet v x => Some ([], SetVar v x h)
  | QEval => do (y, h1) <- Eval fuel root h; Some ([y], h1)
  | QDevalF x => do (y, h1) <- DevalF fuel root x h; Some ([y], h1)
  | QGrad xs => do h1 <- PreComp fuel root h; Some (reads root xs h1)
  end.
Fixpoint run (fuel root : nat) (qs : list query) (h : heap) : option (list (list T) * heap) :=
  match qs with
  | [] => Some ([], h)
  | q :: qs' => do (o, h1) <- run1 fuel root q h; do (os, h2) <- run fuel root qs' h1; Some (o :: os, h2)
  end.

(** ** What the answers should be, in terms of the current graph only *)
Definition answer (g : graph) (root : nat) (q : query) (out : list T) : Prop :=
  match q with
  | QSet _ _ => out = []
  | QEval => forall W, values g root W -> out = [W root]
  | QDevalF x => forall W D, values g root W -> derivs g root W x D -> out = [D root]
  | QGrad xs => length out = length xs /\
      forall W, NumLaws N -> values g root W -> divisors_ok g root W -> unique_ids g root ->
      forall i x, nth_error xs i = Some x -> rev_target g root x ->
      forall D, derivs g root W x D -> nth_error out i = Some (D root)
  end.
Definition after (q : query) (g : graph) : graph :=
  match q with QSet v x => gset v x g | _ => g end.
Fixpoint answers (g : graph) (root : nat) (qs : list query) (outs : list (list T)) : Prop :=
  match qs, outs with
  | [], [] => True
  | q :: qs', o :: os => answer g root q o /\ answers (after q g) root qs' os
  | _, _ => False
  end.

(** Only plain variables are assigned numbers. *)
Definition sets_plain (g : graph) (qs : list query) : Prop :=
  forall v x, In (QSet v x) qs -> items g v = [].

(** ** Proof *)
Lemma divisors_ext (g g' : graph) r W : geq g g' -> divisors_ok g r W -> divisors_ok g' r W.
Proof.
  intros E H v Hr. unfold items, base. rewrite <- (E v). apply (H v).
  eapply reach_ext; [apply geq_sym; eauto|auto].
Qed.
Lemma unique_ext (g g' : graph) r : geq g g' -> unique_ids g r -> unique_ids g' r.
Proof.
  intros E (A & B & C). assert (E' := geq_sym _ _ E).
  assert (Hn : forall v, node_ids g' v = node_ids g v) by (intros v; unfold node_ids, items; now rewrite (E v)).
  split; [|split].
  - intros v Hr. rewrite Hn. apply A. eauto using reach_ext.
  - intros v w k Hv Hw Hne. rewrite !Hn. apply B; eauto using reach_ext.
  - intros v w k o Hv Hw Hk Ho. rewrite Hn in Hk. unfold items in Ho. rewrite <- (E w) in Ho.
    apply (C v w k o); eauto using reach_ext.
Qed.
Lemma rev_target_ext (g g' : graph) r x : geq g g' -> rev_target g r x -> rev_target g' r x.
Proof.
  intros E ((A & B & C) & H1 & H2). assert (E' := geq_sym _ _ E).
  split; [split; [|split]|split]; auto.
  - intros v Hr. unfold node_ids, items. rewrite <- (E v). apply A. eauto using reach_ext.
  - intros v o Hr Ho. unfold items in Ho. rewrite <- (E v) in Ho. apply (B v o); eauto using reach_ext.
  - intros v Hr Ho. unfold items in Ho. rewrite <- (E v) in Ho. apply (C v); eauto using reach_ext.
  - intros o Ho. unfold items in Ho. rewrite <- (E x) in Ho. auto.
Qed.
Lemma answer_ext g g' r q o : geq g g' -> answer g r q o -> answer g' r q o.
Proof.
  intros E. assert (E' := geq_sym _ _ E). destruct q; simpl; intros H; auto.
  - intros W HW. apply H. eauto using values_ext.
  - intros W D HW HD. apply (H W); eauto using values_ext, derivs_ext.
  - destruct H as [H1 H2]. split; auto. intros W L HW Hd Hu i x Hi Ht D HD.
    eapply (H2 W); eauto using values_ext, derivs_ext, divisors_ext, unique_ext, rev_target_ext.
Qed.
Lemma after_ext q g g' : geq g g' -> geq (after q g) (after q g').
Proof. intros E v. destruct q; simpl; auto. unfold gset, at_. now rewrite (E v). Qed.
Lemma answers_ext r qs : forall g g' os, geq g g' -> answers g r qs os -> answers g' r qs os.
Proof.
  induction qs as [|q qs IH]; intros g g' [|o os] E; simpl; auto.
  intros [H1 H2]. split; eauto using answer_ext, after_ext.
Qed.

Lemma reads_ok n root xs : forall h, ready n h root ->
  same_graph h (snd (reads root xs h)) /\ settled (snd (reads root xs h)) root /\
  fst (reads root xs h) = map (cget (c_cache (cells h root))) xs.
Proof.
  induction xs as [|x xs IH]; intros h Rd.
  - simpl. split; [apply same_graph_refl|]. split; [apply Rd|auto].
  - destruct (DevalR_ok n h root x Rd) as (G & S & C).
    cbn [reads]. destruct (DevalR root x h) as [d h1] eqn:E.
    assert (Ed : d = cget (c_cache (cells h root)) x) by (unfold DevalR in E; congruence).
    cbn [snd] in *.
    destruct (IH h1) as (G1 & S1 & F1); [eapply ready_same; eauto|].
    destruct (reads root xs h1) as [ds h2]. cbn [fst snd] in *.
    split; [eauto using same_graph_trans|]. split; auto.
    simpl. f_equal; auto. rewrite F1. apply map_ext. auto.
Qed.

Lemma run1_ok n fuel root q h : ready n h root -> depth n <= fuel ->
  (forall v x, q = QSet v x -> c_items (cells h v) = []) ->
  exists o h', run1 fuel root q h = Some (o, h') /\ ready n h' root /\
    answer (graph_of h) root q o /\ geq (after q (graph_of h)) (graph_of h').
Proof.
  intros Rd Hf Hq.
  destruct (values_exist (graph_of h) root (rdy_strat _ _ _ Rd)) as [W0 HW0].
  destruct q as [v x| |x|xs]; cbn [run1 answer after].
  - exists [], (SetVar v x h). split; auto. split; [apply SetVar_ready; eauto|]. split; auto.
    intros w. now rewrite SetVar_graph.
  - destruct (Eval_ok n h root W0 fuel Rd Hf HW0) as (h' & E & G & S). rewrite E.
    exists [W0 root], h'. split; auto. split; [eapply ready_same; eauto|]. split.
    + intros W HW. f_equal. eapply values_unique; eauto; [apply Rd|constructor].
    + intros w. symmetry. now apply same_graph_graph_of.
  - destruct (derivs_exist (graph_of h) root W0 x (rdy_strat _ _ _ Rd)) as [D0 HD0].
    destruct (DevalF_ok n h root W0 x D0 fuel Rd Hf HW0 HD0) as (h' & E & G & S). rewrite E.
    exists [D0 root], h'. split; auto. split; [eapply ready_same; eauto|]. split.
    + intros W D HW HD.
      destruct (DevalF_ok n h root W x D fuel Rd Hf HW HD) as (h'' & E' & _). congruence.
    + intros w. symmetry. now apply same_graph_graph_of.
  - destruct (PreComp_ok n h root fuel Rd Hf) as (h1 & E & G & S & C). rewrite E.
    assert (Rd1 : ready n h1 root) by (eapply ready_same; eauto).
    destruct (reads_ok n root xs h1 Rd1) as (G2 & S2 & F2).
    destruct (reads root xs h1) as [os h2] eqn:Er. cbn [fst snd] in *.
    exists os, h2. split; auto. split; [eapply ready_same; [exact Rd1| |]; auto|]. split.
    + split; [rewrite F2; now rewrite map_length|].
      intros W L HW Hd Hu i x Hi Ht D HD. rewrite F2.
      rewrite (map_nth_error _ _ _ Hi). f_equal. eapply C; eauto.
    + intros w. symmetry. rewrite (same_graph_graph_of _ _ _ G2). now apply same_graph_graph_of.
Qed.

(** Every answer is the one determined by the current numbers. *)
Theorem history_ok n fuel root : depth n <= fuel -> forall qs h, ready n h root ->
  sets_plain (graph_of h) qs ->
  exists outs h', run fuel root qs h = Some (outs, h') /\ ready n h' root /\
    answers (graph_of h) root qs outs.
Proof.
  intros Hf. induction qs as [|q qs IH]; intros h Rd Hp.
  - exists [], h. simpl. auto.
  - destruct (run1_ok n fuel root q h Rd Hf) as (o & h1 & E1 & Rd1 & A1 & G1).
    { intros v x ->. apply (Hp v x). simpl; auto. }
    destruct (IH h1 Rd1) as (os & h2 & E2 & Rd2 & A2).
    { intros v x Hin. unfold items. rewrite <- (G1 v).
      destruct q as [v' x'| | |]; simpl; try (apply (Hp v x); simpl; auto).
      unfold gset, at_. destruct (Nat.eqb v v'); auto. apply (Hp v x); simpl; auto. }
    cbn [run]. rewrite E1, E2. exists (o :: os), h2. split; auto. split; auto.
    simpl. split; auto. eapply answers_ext; [apply geq_sym; exact G1|exact A2].
Qed.

(** *** Histories on many roots *)

(** Everything below e has been evaluated, plain variables carry their number. *)
Definition evaluated (h : heap) (e : nat) : Prop :=
  forall v, reach (graph_of h) e v ->
    (c_items (cells h v) = [] -> clean (cells h v)) /\ (c_items (cells h v) <> [] -> c_vis (cells h v) = true).
Lemma evaluated_settled h e : evaluated h e -> settled h e.
Proof.
  intros H. split; [intros v Hr; now apply H|].
  intros v w Hr (o & Ho & Hw) _ Vv. exfalso.
  destruct (H v Hr) as [_ Hv]. rewrite Hv in Vv; [discriminate|].
  intros E. unfold items, graph_of in Ho. simpl in Ho. rewrite E in Ho. destruct Ho.
Qed.

Definition no_symbolic (h : heap) : Prop := forall id, memos h id = mkMemo None [].
(** With no symbolic temporaries, reset only touches what is reachable. *)
Lemma reset_frame (P : nat -> Prop) fuel : forall h v h', no_symbolic h ->
  (forall u o w, P u -> In o (c_items (cells h u)) -> In w (leaves o) -> P w) -> P v ->
  reset_var fuel v h = Some h' ->
  same_graph h h' /\ (forall w, cells h' w = cells h w \/ cells h' w = cleaned (cells h w)) /\
  (forall w, ~ P w -> cells h' w = cells h w).
Proof.
  set (Q := fun h h' : heap => same_graph h h' /\
     (forall w, cells h' w = cells h w \/ cells h' w = cleaned (cells h w)) /\
     (forall w, ~ P w -> cells h' w = cells h w)).
  assert (Qr : forall h, Q h h) by (intros h; split; [apply same_graph_refl|auto]).
  assert (Qt : forall h1 h2 h3, Q h1 h2 -> Q h2 h3 -> Q h1 h3).
  { intros h1 h2 h3 (A & B & C) (A' & B' & C'). split; [eauto using same_graph_trans|]. split.
    - intros w. destruct (B w) as [E1|E1], (B' w) as [E2|E2]; rewrite E2, E1; auto.
    - intros w Hw. rewrite C', C; auto. }
  induction fuel as [|f IH]; intros h v h' Hm Hc Hv E; [discriminate|].
  cbn [reset_var] in E.
  set (HP := fun h : heap => no_symbolic h /\
     forall u o w, P u -> In o (c_items (cells h u)) -> In w (leaves o) -> P w).
  assert (HPs : forall h h', same_graph h h' -> HP h -> HP h').
  { intros a b (G1 & G2 & G3 & G4) [X Y]. split.
    - intros id. rewrite G3. apply X.
    - intros u o w. rewrite G2. apply Y. }
  assert (Ht : forall id h h1, no_symbolic h -> reset_temp (reset_var f) id h = Some h1 -> h1 = h).
  { intros id a b Hn. unfold reset_temp. rewrite (Hn id). simpl. congruence. }
  assert (Ho : forall o a b, HP a -> (forall w, In w (leaves o) -> P w) ->
     reset_op (reset_var f) o a = Some b -> Q a b).
  { induction o as [w|p tv|u id e IHe|k id l IHl r IHr]; intros a b Ha Hl Eo; cbn [reset_op] in Eo.
    - destruct Ha as [Ha1 Ha2]. exact (IH a w b Ha1 Ha2 (Hl w (or_introl eq_refl)) Eo).
    - destruct Ha as [Ha1 Ha2]. exact (IH a tv b Ha1 Ha2 (Hl tv (or_introl eq_refl)) Eo).
    - destruct (reset_temp (reset_var f) id a) as [a1|] eqn:E1; [|discriminate].
      apply Ht in E1; [|apply Ha]. subst a1. eapply IHe; eauto.
    - destruct (reset_temp (reset_var f) id a) as [a1|] eqn:E1; [|discriminate].
      apply Ht in E1; [|apply Ha]. subst a1.
      destruct (reset_op (reset_var f) l a) as [a2|] eqn:E2; [|discriminate].
      assert (Q1 : Q a a2) by (eapply IHl; eauto; intros; apply Hl, in_or_app; auto).
      eapply Qt; [exact Q1|]. eapply IHr; [eapply HPs; [exact (proj1 Q1)|auto]|intros; apply Hl, in_or_app; auto|exact Eo]. }
  assert (Hi : forall l a b, HP a -> (forall o w, In o l -> In w (leaves o) -> P w) ->
     each (reset_op (reset_var f)) l a = Some b -> Q a b).
  { induction l as [|o l IHl]; intros a b Ha Hl Eo; cbn [each] in Eo.
    - injection Eo as <-. apply Qr.
    - destruct (reset_op (reset_var f) o a) as [a1|] eqn:E1; [|discriminate].
      assert (Q1 : Q a a1) by (eapply Ho; eauto; intros; eapply Hl; eauto; simpl; auto).
      eapply Qt; [exact Q1|]. eapply IHl; [eapply HPs; [exact (proj1 Q1)|auto]|intros; eapply Hl; eauto; simpl; auto|exact Eo]. }
  set (body := if c_vis (cells h v)
      then each (reset_op (reset_var f)) (c_items (cells h v)) (setc h v (set_vis false (cells h v)))
      else Some h) in E.
  destruct body as [h1|] eqn:Eb; [|discriminate].
  assert (Q1 : Q h (modc cleaned v h1)).
  { unfold body in Eb. destruct (c_vis (cells h v)).
    - set (h0 := setc h v (set_vis false (cells h v))) in *.
      assert (SG0 : same_graph h h0) by (apply same_graph_setc; reflexivity).
      assert (Q0 : Q h0 h1).
      { eapply Hi; [|intros o w Hin; eapply (Hc v); eauto|exact Eb]. eapply HPs; [exact SG0|split; auto]. }
      destruct Q0 as (A & B & C).
      split; [eapply same_graph_trans; [exact SG0|]; eapply same_graph_trans; [exact A|apply same_graph_mod; reflexivity]|].
      split.
      + intros w. destruct (Nat.eq_dec w v) as [->|Hn].
        * right. rewrite modc_same. destruct (B v) as [-> | ->]; unfold h0; rewrite setc_same; reflexivity.
        * rewrite modc_other by auto. replace (cells h w) with (cells h0 w) by (unfold h0; now rewrite setc_other). apply B.
      + intros w Hw. assert (w <> v) by (intros ->; auto). rewrite modc_other, C by auto.
        unfold h0. now rewrite setc_other.
    - injection Eb as <-. split; [apply same_graph_mod; reflexivity|]. split.
      + intros w. destruct (Nat.eq_dec w v) as [->|Hn].
        * right. now rewrite modc_same.
        * left. now rewrite modc_other.
      + intros w Hw. assert (w <> v) by (intros ->; auto). now rewrite modc_other. }
  apply Ht in E; [subst h'; exact Q1|].
  intros id. destruct Q1 as ((_ & _ & G & _) & _). rewrite G. apply Hm.
Qed.

Lemma reset_impl_frame fuel r h h' : no_symbolic h -> reset_impl fuel r h = Some h' ->
  forall w, ~ reach (graph_of h) r w -> cells h' w = cells h w.
Proof.
  intros Hm. unfold reset_impl. set (h0 := modc (set_vis true) r h).
  set (P := reach (graph_of h) r).
  set (HP := fun a : heap => no_symbolic a /\
     forall u o w, P u -> In o (c_items (cells a u)) -> In w (leaves o) -> P w).
  assert (HPs : forall a b, same_graph a b -> HP a -> HP b).
  { intros a b (G1 & G2 & G3 & G4) [X Y]. split.
    - intros id. rewrite G3. apply X.
    - intros u o w. rewrite G2. apply Y. }
  assert (H0 : HP h).
  { split; auto. intros u o w Hu Ho Hw. econstructor; eauto. exists o. auto. }
  assert (Ho : forall o a b, HP a -> (forall w, In w (leaves o) -> P w) ->
     reset_op (reset_var fuel) o a = Some b -> same_graph a b /\ forall w, ~ P w -> cells b w = cells a w).
  { induction o as [w|p tv|u id e IHe|k id l IHl ro IHr]; intros a b Ha Hl Eo; cbn [reset_op] in Eo.
    - destruct Ha as [Ha1 Ha2].
      destruct (reset_frame P fuel a w b Ha1 Ha2 (Hl w (or_introl eq_refl)) Eo) as (A & _ & B). auto.
    - destruct Ha as [Ha1 Ha2].
      destruct (reset_frame P fuel a tv b Ha1 Ha2 (Hl tv (or_introl eq_refl)) Eo) as (A & _ & B). auto.
    - unfold reset_temp in Eo. rewrite (proj1 Ha id) in Eo. simpl in Eo. eapply IHe; eauto.
    - unfold reset_temp in Eo. rewrite (proj1 Ha id) in Eo. simpl in Eo.
      destruct (reset_op (reset_var fuel) l a) as [a2|] eqn:E2; [|discriminate].
      destruct (IHl a a2 Ha) as [G1 C1]; auto; [intros; apply Hl, in_or_app; auto|].
      destruct (IHr a2 b) as [G2 C2]; auto; [eapply HPs; eauto|intros; apply Hl, in_or_app; auto|].
      split; [eauto using same_graph_trans|]. intros w Hw. rewrite C2, C1; auto. }
  assert (Hi : forall l a b, HP a -> (forall o w, In o l -> In w (leaves o) -> P w) ->
     each (reset_op (reset_var fuel)) l a = Some b -> same_graph a b /\ forall w, ~ P w -> cells b w = cells a w).
  { induction l as [|o l IHl]; intros a b Ha Hl Eo; cbn [each] in Eo.
    - injection Eo as <-. split; [apply same_graph_refl|auto].
    - destruct (reset_op (reset_var fuel) o a) as [a1|] eqn:E1; [|discriminate].
      destruct (Ho o a a1 Ha) as [G1 C1]; auto; [intros; eapply Hl; eauto; simpl; auto|].
      destruct (IHl a1 b) as [G2 C2]; auto; [eapply HPs; eauto|intros; eapply Hl; eauto; simpl; auto|].
      split; [eauto using same_graph_trans|]. intros w Hw. rewrite C2, C1; auto. }
  destruct (each (reset_op (reset_var fuel)) (c_items (cells h r)) h0) as [h1|] eqn:E; [|discriminate].
  intros E'. injection E' as <-. intros w Hw.
  assert (w <> r) by (intros ->; apply Hw; constructor).
  rewrite modc_other by auto.
  destruct (Hi (c_items (cells h r)) h0 h1) as [_ C]; auto.
  - eapply HPs; [|exact H0]. apply same_graph_mod; reflexivity.
  - intros o x Ho' Hx. eapply (proj2 H0); eauto. constructor.
  - rewrite C by auto. unfold h0. now rewrite modc_other.
Qed.

(** After a pass over r everything below r is evaluated. *)
Lemma pass_evaluated n h h1 h2 r : ready n h r -> mid h h1 r ->
  pass (pset h r) h1 h2 -> c_vis (cells h2 r) = true -> evaluated h2 r.
Proof.
  intros Rd M P V v Hr.
  assert (SG : same_graph h h2) by (eapply same_graph_trans; [exact (mid_g _ _ _ M)|exact (p_graph _ _ _ P)]).
  pose proof (pass_settled n h h1 h2 r Rd M P V) as St.
  split; [intros Hi; now apply St|].
  intros Hne.
  assert (Hr' : reach (graph_of h) r v).
  { eapply reach_graph; [apply same_graph_sym; exact SG|exact Hr]. }
  assert (Hne' : c_items (cells h v) <> []) by (destruct SG as (_ & G & _); now rewrite <- G).
  clear Hne Hr. revert Hne'. induction Hr' as [|u x Hr IH (o & Ho & Hx)]; intros Hne; auto.
  assert (Hu : c_items (cells h u) <> []) by (intros E; unfold items, graph_of in Ho; simpl in Ho; rewrite E in Ho; destruct Ho).
  specialize (IH Hu).
  destruct (leaves_split o x Hx) as [Hv|Hp].
  - eapply (p_clos _ _ _ P) with (u := u) (o := o); auto.
    + destruct (Nat.eq_dec u r) as [->|Hn]; [apply M|].
      destruct (mid_c _ _ _ M u Hr Hn) as (_ & _ & _ & [C|C]); auto.
      destruct (mid_g _ _ _ M) as (_ & G & _). rewrite G in C. congruence.
    + destruct (mid_g _ _ _ M) as (_ & G & _). rewrite G. exact Ho.
  - exfalso. apply Hne. exact (rdy_par _ _ _ Rd u o x Ho Hp).
Qed.

Definition all_plain_clean (h : heap) : Prop := forall v, c_items (cells h v) = [] -> clean (cells h v).

(** Effect of one query on the rest of the heap. *)
Definition keeps (h h' : heap) (r : nat) : Prop :=
  same_graph h h' /\ evaluated h' r /\ (forall e, evaluated h e -> evaluated h' e) /\ (all_plain_clean h -> all_plain_clean h') /\
  (forall w, ~ reach (graph_of h) r w -> cells h' w = cells h w).

Lemma pass_keeps n h h1 h2 r fuel : ready n h r -> no_symbolic h -> depth n <= fuel ->
  reset_impl fuel r h = Some h1 -> pass (pset h r) h1 h2 -> c_vis (cells h2 r) = true ->
  keeps h h2 r.
Proof.
  intros Rd Hs Hf E P V.
  destruct (reset_mid n h r fuel Rd Hf) as (h1' & E' & M). rewrite E in E'. injection E' as <-.
  assert (SG : same_graph h h2) by (eapply same_graph_trans; [exact (mid_g _ _ _ M)|exact (p_graph _ _ _ P)]).
  pose proof (pass_evaluated n h h1 h2 r Rd M P V) as Ev.
  destruct (reset_impl_ok n r h fuel (rdy_b _ _ _ Rd) Hf) as (h1' & E1 & _ & _ & _ & Hc & _ & _).
  rewrite E in E1. injection E1 as <-.
  assert (Pc : forall v, c_items (cells h v) = [] -> clean (cells h v) -> clean (cells h2 v)).
  { intros v Hi Hcl.
    assert (Hn : v <> r) by (intros ->; now apply (rdy_expr _ _ _ Rd)).
    apply (p_plain _ _ _ P).
    - destruct (mid_g _ _ _ M) as (_ & G & _). now rewrite G.
    - destruct (Hc v Hn) as [-> | ->]; auto using cleaned_clean. }
  split; auto. split; auto. split; [|split].
  - intros e He v Hr.
    assert (Hr' : reach (graph_of h) e v).
    { eapply reach_graph; [apply same_graph_sym; exact SG|exact Hr]. }
    destruct (He v Hr') as [A B]. destruct SG as (_ & G & _ & _). rewrite G.
    split; [auto|]. intros Hne. destruct (c_vis (cells h2 v)) eqn:Vv; auto.
    assert (No : ~ reach (graph_of h) r v).
    { intros Hx. destruct (Ev v) as [_ Q].
      - eapply reach_graph; [|exact Hx].
        eapply same_graph_trans; [exact (mid_g _ _ _ M)|exact (p_graph _ _ _ P)].
      - rewrite Q in Vv; [discriminate|now rewrite G]. }
    rewrite (p_out _ _ _ P v No) in Vv.
    rewrite (reset_impl_frame fuel r h h1 Hs E v No) in Vv. rewrite B in Vv; auto.
  - intros Ha v Hi. destruct SG as (_ & G & _ & _). rewrite G in Hi. auto.
  - intros w Hw. rewrite (p_out _ _ _ P w Hw). exact (reset_impl_frame fuel r h h1 Hs E w Hw).
Qed.

Lemma run1_keeps n fuel r q h : ready n h r -> no_symbolic h -> depth n <= fuel ->
  match q with QSet _ _ => False | _ => True end ->
  forall o h', run1 fuel r q h = Some (o, h') -> keeps h h' r.
Proof.
  intros Rd Hs Hf Hq o h' E.
  destruct (reset_mid n h r fuel Rd Hf) as (h1 & E1 & M).
  assert (Cl : closed n (pset h r) h1).
  { eapply pass_closed; [exact (mid_g _ _ _ M)|]. apply (reach_closed n); [exact (rdy_b _ _ _ Rd)|exact (rdy_root _ _ _ Rd)]. }
  destruct q as [v x| |x|xs]; [contradiction| | |]; cbn [run1] in E.
  - unfold Eval in E. rewrite E1 in E.
    destruct (eval_var_term n (pset h r) fuel r h1) as (y & h2 & E2 & P2 & V2);
      [constructor|auto|now apply fuel_cu|].
    rewrite E2 in E. injection E as <- <-. eapply pass_keeps; eauto.
  - unfold DevalF in E. rewrite E1 in E.
    destruct (devalF_var_term n (pset h r) x fuel r h1) as (y & h2 & E2 & P2 & V2);
      [constructor|auto|now apply fuel_cu|].
    rewrite E2 in E. injection E as <- <-. eapply pass_keeps; eauto.
  - unfold PreComp in E. rewrite E1 in E.
    destruct (trav_var_term n (pset h r) fuel r h1) as (h2 & E2 & P2 & V2);
      [constructor|auto|now apply fuel_cu|].
    rewrite E2 in E.
    assert (K : keeps h h2 r) by (eapply pass_keeps; eauto).
    (* reads change only the cache of r, which is not plain *)
    assert (Rr : forall xs a o b, c_items (cells a r) <> [] -> reads r xs a = (o, b) ->
      same_graph a b /\ (forall w, w <> r -> cells b w = cells a w) /\ c_vis (cells b r) = c_vis (cells a r)).
    { induction xs0 as [|x xs' IH]; intros a oo b Hne; cbn [reads].
      - intros Eq. injection Eq as <- <-. split; [apply same_graph_refl|auto].
      - unfold DevalR at 1.
        set (a1 := modc _ r a). destruct (reads r xs' a1) as [ds b'] eqn:Er.
        intros Eq. injection Eq as <- <-.
        destruct (IH a1 ds b') as (G & C & V); auto.
        { unfold a1. rewrite modc_same. exact Hne. }
        split; [eapply same_graph_trans; [|exact G]; apply same_graph_mod; reflexivity|].
        split.
        + intros w Hw. rewrite C by auto. unfold a1. now rewrite modc_other.
        + rewrite V. unfold a1. now rewrite modc_same. }
    destruct (reads r xs h2) as [oo b] eqn:Er. injection E as <- <-.
    destruct K as (G & Ev & Ke & Ka & Kf).
    assert (Hne2 : c_items (cells h2 r) <> []).
    { destruct G as (_ & G & _). rewrite G. exact (rdy_expr _ _ _ Rd). }
    destruct (Rr xs h2 oo b Hne2 Er) as (G2 & C2 & V3).
    assert (Kb : forall e, evaluated h2 e -> evaluated b e).
    { intros e He v Hr.
      assert (Hr' : reach (graph_of h2) e v).
      { eapply reach_graph; [apply same_graph_sym; exact G2|exact Hr]. }
      destruct (He v Hr') as [A B].
      destruct (Nat.eq_dec v r) as [->|Hn].
      - destruct G2 as (_ & G2 & _). rewrite G2. split; [congruence|]. rewrite V3. auto.
      - rewrite C2 by auto. auto. }
    split; [eauto using same_graph_trans|]. split; auto. split; auto. split.
    2:{ intros w Hw. rewrite C2; auto. intros ->. apply Hw. constructor. }
    intros Ha v Hi. destruct (Nat.eq_dec v r) as [->|Hn].
    { destruct G2 as (_ & G2 & _). rewrite G2 in Hi. congruence. }
    rewrite C2 in * by auto. apply Ka; auto.
Qed.

End Hist.
