(** * The passes terminate on every graph, cyclic ones included (lemmas for C02)

    Each recursive call on an unvisited object marks it visited, so the depth of recursion is
    bounded by the number of unvisited objects.  The same induction yields the effect of a
    pass on the visited flags and on plain variables. *)

From Coq Require Import List Arith Bool Lia.
From Verif Require Import Num ScalarModel ScalarSpec ScalarReset ScalarEval.
Import ListNotations.

Section Term.
Context {T : Type} {N : Num T}.
Notation heap := (heap T).

Variable n : nat.
Variable S0 : nat -> Prop.

(** A set of objects below n closed under "refers to". *)
Definition closed (h : heap) : Prop :=
  (forall v, S0 v -> v < n) /\
  (forall v o w, S0 v -> In o (c_items (cells h v)) -> In w (leaves o) -> S0 w).

Record pass (h h' : heap) : Prop := {
  p_graph : same_graph h h';
  p_mono : vmono h h';
  p_clos : forall u o w, c_vis (cells h u) = false -> c_vis (cells h' u) = true ->
      In o (c_items (cells h u)) -> In w (vleaves o) -> c_vis (cells h' w) = true;
  p_plain : forall u, c_items (cells h u) = [] -> clean (cells h u) -> clean (cells h' u);
  p_out : forall w, ~ S0 w -> cells h' w = cells h w
}.

Lemma pass_refl h : pass h h.
Proof. constructor; auto using same_graph_refl, vmono_refl. congruence. Qed.
Lemma pass_trans h1 h2 h3 : pass h1 h2 -> pass h2 h3 -> pass h1 h3.
Proof.
  intros [G1 M1 C1 P1 O1] [G2 M2 C2 P2 O2]. constructor.
  - eauto using same_graph_trans.
  - eauto using vmono_trans.
  - intros u o w V1 V3 Ho Hw. destruct (c_vis (cells h2 u)) eqn:V2.
    + apply M2. eapply C1; eauto.
    + eapply C2; eauto. destruct G1 as (_ & G1 & _). now rewrite G1.
  - intros u Hi Hc. apply P2; auto. rewrite (proj1 (proj2 G1)). exact Hi.
  - intros w Hw. rewrite O2, O1; auto.
Qed.
Lemma pass_closed h h' : same_graph h h' -> closed h -> closed h'.
Proof.
  intros (_ & G & _) [A B]. split; auto. intros v o w Sv. rewrite G. eauto.
Qed.
Lemma pass_mod h v f : S0 v -> c_items (cells h v) <> [] ->
  c_base (f (cells h v)) = c_base (cells h v) -> c_items (f (cells h v)) = c_items (cells h v) ->
  c_vis (f (cells h v)) = c_vis (cells h v) -> pass h (modc f v h).
Proof.
  intros Sv Hne Hb Hi Hv. constructor.
  - now apply same_graph_mod.
  - now apply vmono_upd.
  - intros u o w V1 V2. exfalso. destruct (Nat.eq_dec u v) as [->|Hu].
    + rewrite modc_same in V2. congruence.
    + rewrite modc_other in V2; congruence.
  - intros u Hu Hc. destruct (Nat.eq_dec u v) as [->|Hn]; [congruence|]. now rewrite modc_other.
  - intros w Hw. apply modc_other. intros ->. auto.
Qed.

(** Unvisited objects. *)
Definition cu (h : heap) : nat := length (filter (fun v => negb (c_vis (cells h v))) (seq 0 n)).
Lemma cu_bound h : cu h <= n.
Proof.
  unfold cu. rewrite <- (seq_length n 0) at 2.
  generalize (seq 0 n). induction l; simpl; auto. destruct (negb _); simpl; lia.
Qed.
Lemma cu_mono h h' : vmono h h' -> cu h' <= cu h.
Proof.
  intros M. apply filter_le. intros a _ H. destruct (c_vis (cells h a)) eqn:V; auto.
  now rewrite (M a V) in H.
Qed.
Lemma cu_visit h h' v : vmono h h' -> v < n -> c_vis (cells h v) = false -> c_vis (cells h' v) = true ->
  cu h' < cu h.
Proof.
  intros M Hv V V'. apply filter_lt with (a0 := v).
  - intros a _ H. destruct (c_vis (cells h a)) eqn:Va; auto. now rewrite (M a Va) in H.
  - apply in_seq. lia.
  - now rewrite V.
  - now rewrite V'.
Qed.

Definition ev_ok (f : nat) (ev : nat -> heap -> option (T * heap)) : Prop :=
  forall w h, S0 w -> closed h -> cu h < f ->
    exists x h', ev w h = Some (x, h') /\ pass h h' /\ c_vis (cells h' w) = true.

Lemma eval_op_term f ev o : ev_ok f ev -> (forall w, In w (leaves o) -> S0 w) ->
  forall h, closed h -> cu h < f ->
  exists x h', eval_op ev o h = Some (x, h') /\ pass h h' /\
    forall w, In w (vleaves o) -> c_vis (cells h' w) = true.
Proof.
  intros He. induction o as [v|p tv|u id e IHe|b id l IHl r IHr]; intros Hl h C Hf; cbn [eval_op].
  - destruct (He v h) as (x & h' & E & P & V); auto; [apply Hl; simpl; auto|].
    rewrite E. exists x, h'. split; auto. split; auto. intros w [<-|[]]; auto.
  - eexists _, h. split; [reflexivity|]. split; [apply pass_refl|]. intros w [].
  - destruct (IHe Hl h C Hf) as (x & h' & E & P & V). rewrite E. eauto.
  - assert (Sl : forall w, In w (leaves l) -> S0 w) by (intros; apply Hl, in_or_app; auto).
    assert (Sr : forall w, In w (leaves r) -> S0 w) by (intros; apply Hl, in_or_app; auto).
    destruct (b_right_first_eval b).
    + destruct (IHr Sr h C Hf) as (y & h1 & E1 & P1 & V1). rewrite E1.
      destruct (IHl Sl h1) as (x & h2 & E2 & P2 & V2).
      { eapply pass_closed; [exact (p_graph _ _ P1)|auto]. }
      { pose proof (cu_mono _ _ (p_mono _ _ P1)). lia. }
      rewrite E2. eexists _, h2. split; [reflexivity|]. split; [eauto using pass_trans|].
      intros w Hw. apply in_app_or in Hw. destruct Hw as [Hw|Hw]; auto.
      apply (p_mono _ _ P2); auto.
    + destruct (IHl Sl h C Hf) as (y & h1 & E1 & P1 & V1). rewrite E1.
      destruct (IHr Sr h1) as (x & h2 & E2 & P2 & V2).
      { eapply pass_closed; [exact (p_graph _ _ P1)|auto]. }
      { pose proof (cu_mono _ _ (p_mono _ _ P1)). lia. }
      rewrite E2. eexists _, h2. split; [reflexivity|]. split; [eauto using pass_trans|].
      intros w Hw. apply in_app_or in Hw. destruct Hw as [Hw|Hw]; auto.
      apply (p_mono _ _ P2); auto.
Qed.

Lemma eval_two_term f ev k l r : ev_ok f ev ->
  (forall w, In w (leaves l) -> S0 w) -> (forall w, In w (leaves r) -> S0 w) ->
  forall h, closed h -> cu h < f ->
  exists x h', eval_two ev k l r h = Some (x, h') /\ pass h h'.
Proof.
  intros He Sl Sr h C Hf. unfold eval_two. destruct (b_evals k); [|eauto using pass_refl].
  destruct (b_right_first k).
  - destruct (eval_op_term f ev r He Sr h C Hf) as (y & h1 & E1 & P1 & V1). rewrite E1.
    destruct (eval_op_term f ev l He Sl h1) as (x & h2 & E2 & P2 & V2).
    { eapply pass_closed; [exact (p_graph _ _ P1)|auto]. }
    { pose proof (cu_mono _ _ (p_mono _ _ P1)). lia. }
    rewrite E2. eauto using pass_trans.
  - destruct (eval_op_term f ev l He Sl h C Hf) as (y & h1 & E1 & P1 & V1). rewrite E1.
    destruct (eval_op_term f ev r He Sr h1) as (x & h2 & E2 & P2 & V2).
    { eapply pass_closed; [exact (p_graph _ _ P1)|auto]. }
    { pose proof (cu_mono _ _ (p_mono _ _ P1)). lia. }
    rewrite E2. eauto using pass_trans.
Qed.
Lemma eval_one_term f ev k e : ev_ok f ev -> (forall w, In w (leaves e) -> S0 w) ->
  forall h, closed h -> cu h < f ->
  exists x h', eval_one ev k e h = Some (x, h') /\ pass h h'.
Proof.
  intros He Se h C Hf. unfold eval_one. destruct (u_evals k); [|eauto using pass_refl].
  destruct (eval_op_term f ev e He Se h C Hf) as (y & h1 & E1 & P1 & V1). eauto.
Qed.

(** The loop over the assignments of v, started with v marked visited. *)
Lemma items_term v (step : op T -> heap -> option heap) f its :
  S0 v ->
  (forall o h, In o its -> closed h -> cu h < f -> c_items (cells h v) <> [] ->
     exists h', step o h = Some h' /\ pass h h' /\ forall w, In w (vleaves o) -> c_vis (cells h' w) = true) ->
  forall l h, (forall o, In o l -> In o its) -> closed h -> cu h < f ->
    (l <> [] -> c_items (cells h v) <> []) ->
  exists h', each step l h = Some h' /\ pass h h' /\
    forall o w, In o l -> In w (vleaves o) -> c_vis (cells h' w) = true.
Proof.
  intros Sv Hs. induction l as [|o l IH]; intros h Hin C Hf Hne.
  - exists h. split; auto. split; [apply pass_refl|]. intros o w [].
  - cbn [each]. destruct (Hs o h) as (h1 & E1 & P1 & V1); auto.
    { apply Hin; simpl; auto. }
    { apply Hne. discriminate. }
    rewrite E1. destruct (IH h1) as (h2 & E2 & P2 & V2).
    { intros; apply Hin; simpl; auto. }
    { eapply pass_closed; [exact (p_graph _ _ P1)|auto]. }
    { pose proof (cu_mono _ _ (p_mono _ _ P1)). lia. }
    { intros _. destruct (p_graph _ _ P1) as (_ & G & _). rewrite G. apply Hne. discriminate. }
    exists h2. split; auto. split; [eauto using pass_trans|].
    intros o' w [<-|Ho] Hw; eauto. apply (p_mono _ _ P2); eauto.
Qed.

(** Entering an object and running its loop. *)
Lemma enter_term v h h0 h1 : S0 v -> c_vis (cells h v) = false ->
  (exists c, h0 = setc h v c /\ c_base c = c_base (cells h v) /\ c_items c = c_items (cells h v) /\
     c_vis c = true /\ (c_items (cells h v) = [] -> clean (cells h v) -> clean c)) ->
  pass h0 h1 ->
  (forall o w, In o (c_items (cells h v)) -> In w (vleaves o) -> c_vis (cells h1 w) = true) ->
  pass h h1 /\ c_vis (cells h1 v) = true.
Proof.
  intros Sv Vv (c & -> & Hb & Hi & Hv & Hp) P L.
  assert (V1 : c_vis (cells h1 v) = true).
  { apply (p_mono _ _ P). now rewrite setc_same. }
  split; auto.
  constructor.
  - eapply same_graph_trans; [apply (same_graph_setc h v c); auto|exact (p_graph _ _ P)].
  - intros w Hw. apply (p_mono _ _ P). destruct (Nat.eq_dec w v) as [->|Hn].
    + now rewrite setc_same.
    + now rewrite setc_other.
  - intros u o w Vu Vu' Ho Hw. destruct (Nat.eq_dec u v) as [->|Hn]; [eauto|].
    apply (p_clos _ _ P u o w); try rewrite setc_other; auto.
  - intros u Hu Hc. destruct (Nat.eq_dec u v) as [->|Hn].
    + apply (p_plain _ _ P); rewrite setc_same; auto. congruence.
    + apply (p_plain _ _ P); rewrite setc_other; auto.
  - intros w Hw. rewrite (p_out _ _ P) by auto. apply setc_other. intros ->. auto.
Qed.

Lemma eval_var_term : forall f, ev_ok f (eval_var f).
Proof.
  induction f as [|f IHf]; intros v h Sv C Hf; [lia|].
  cbn [eval_var]. destruct (c_vis (cells h v)) eqn:Vv; [eauto 6 using pass_refl|].
  set (h0 := setc h v (set_vis true (set_val (c_base (cells h v)) (cells h v)))).
  assert (M0 : vmono h h0).
  { intros w Hw. unfold h0. destruct (Nat.eq_dec w v) as [->|]; [now rewrite setc_same|now rewrite setc_other]. }
  assert (V0 : c_vis (cells h0 v) = true) by (unfold h0; now rewrite setc_same).
  assert (C0 : closed h0) by (eapply pass_closed; [|exact C]; apply same_graph_setc; reflexivity).
  assert (Hu : cu h0 < f).
  { pose proof (cu_visit h h0 v M0 (proj1 C v Sv) Vv V0). lia. }
  set (step := fun o h' => do (x, h'') <- eval_op (eval_var f) o h'; Some (modc (set_val x) v h'')).
  destruct (items_term v step f (c_items (cells h v)) Sv) with (l := c_items (cells h v)) (h := h0)
    as (h1 & E1 & P1 & L1); auto.
  { intros o h' Ho C' Hf' Hne. unfold step.
    destruct (eval_op_term f (eval_var f) o IHf) with (h := h') as (x & h2 & E2 & P2 & V2); auto.
    { intros w Hw. exact (proj2 C v o w Sv Ho Hw). }
    assert (Pm : pass h2 (modc (set_val x) v h2)).
    { apply pass_mod; auto. destruct (p_graph _ _ P2) as (_ & G & _). now rewrite G. }
    rewrite E2. eexists. split; [reflexivity|]. split; [eauto using pass_trans|].
    intros w Hw. apply (p_mono _ _ Pm); auto. }
  { intros Hl. unfold h0. rewrite setc_same. exact Hl. }
  destruct (enter_term v h h0 h1 Sv Vv) as [P V]; auto.
  { eexists. split; [reflexivity|]. repeat split; auto. all: intros; try reflexivity.
    - apply H0.
    - apply H0. }
  rewrite E1. eauto.
Qed.

Lemma devalF_op_term f ev df o : ev_ok f ev -> ev_ok f df -> (forall w, In w (leaves o) -> S0 w) ->
  forall h, closed h -> cu h < f ->
  exists x h', devalF_op ev df o h = Some (x, h') /\ pass h h' /\
    forall w, In w (vleaves o) -> c_vis (cells h' w) = true.
Proof.
  intros He Hd. induction o as [v|p tv|u id e IHe|b id l IHl r IHr]; intros Hl h C Hf; cbn [devalF_op].
  - destruct (Hd v h) as (x & h' & E & P & V); auto; [apply Hl; simpl; auto|].
    rewrite E. exists x, h'. split; auto. split; auto. intros w [<-|[]]; auto.
  - eexists _, h. split; [reflexivity|]. split; [apply pass_refl|]. intros w [].
  - destruct (IHe Hl h C Hf) as (x & h1 & E & P & V). rewrite E.
    destruct (eval_one_term f ev u e He Hl h1) as (y & h2 & E2 & P2).
    { eapply pass_closed; [exact (p_graph _ _ P)|auto]. }
    { pose proof (cu_mono _ _ (p_mono _ _ P)). lia. }
    rewrite E2. eexists _, h2. split; [reflexivity|]. split; [eauto using pass_trans|].
    intros w Hw. apply (p_mono _ _ P2). auto.
  - assert (Sl : forall w, In w (leaves l) -> S0 w) by (intros; apply Hl, in_or_app; auto).
    assert (Sr : forall w, In w (leaves r) -> S0 w) by (intros; apply Hl, in_or_app; auto).
    destruct (IHl Sl h C Hf) as (y & h1 & E1 & P1 & V1). rewrite E1.
    assert (C1 : closed h1) by (eapply pass_closed; [exact (p_graph _ _ P1)|auto]).
    pose proof (cu_mono _ _ (p_mono _ _ P1)).
    destruct (IHr Sr h1) as (x & h2 & E2 & P2 & V2); auto; [lia|].
    rewrite E2.
    pose proof (cu_mono _ _ (p_mono _ _ P2)).
    destruct (eval_two_term f ev b l r He Sl Sr h2) as (z & h3 & E3 & P3); [|lia|].
    { eapply pass_closed; [exact (p_graph _ _ P2)|auto]. }
    rewrite E3. eexists _, h3. split; [reflexivity|]. split; [eauto using pass_trans|].
    intros w Hw. apply (p_mono _ _ P3). apply in_app_or in Hw. destruct Hw as [Hw|Hw]; auto. apply (p_mono _ _ P2); auto.
Qed.

Lemma devalF_var_term x : forall f, ev_ok f (devalF_var f x).
Proof.
  induction f as [|f IHf]; intros v h Sv C Hf; [lia|].
  cbn [devalF_var]. destruct (c_vis (cells h v)) eqn:Vv; [eauto 6 using pass_refl|].
  set (h0 := setc h v (set_vis true (cells h v))).
  assert (M0 : vmono h h0) by apply vmono_setvis.
  assert (V0 : c_vis (cells h0 v) = true) by (unfold h0; now rewrite setc_same).
  assert (C0 : closed h0) by (eapply pass_closed; [|exact C]; apply same_graph_setc; reflexivity).
  assert (Hu : cu h0 < f).
  { pose proof (cu_visit h h0 v M0 (proj1 C v Sv) Vv V0). lia. }
  set (step := fun o h' => do (d, h2) <- devalF_op (eval_var f) (devalF_var f x) o h';
                       do (x, h3) <- eval_op (eval_var f) o (modc (set_dval d) v h2);
                       Some (modc (set_val x) v h3)).
  destruct (items_term v step f (c_items (cells h v)) Sv) with (l := c_items (cells h v)) (h := h0)
    as (h1 & E1 & P1 & L1); auto.
  { intros o h' Ho C' Hf' Hne. unfold step.
    assert (So : forall w, In w (leaves o) -> S0 w).
    { intros w Hw. exact (proj2 C v o w Sv Ho Hw). }
    destruct (devalF_op_term f (eval_var f) (devalF_var f x) o (eval_var_term f) IHf So h' C' Hf')
      as (d & h2 & E2 & P2 & V2).
    assert (Hne2 : c_items (cells h2 v) <> []).
    { destruct (p_graph _ _ P2) as (_ & G & _). now rewrite G. }
    assert (Pm : pass h2 (modc (set_dval d) v h2)) by (apply pass_mod; auto).
    pose proof (pass_trans _ _ _ P2 Pm) as P2m.
    rewrite E2.
    destruct (eval_op_term f (eval_var f) o (eval_var_term f) So (modc (set_dval d) v h2))
      as (z & h3 & E3 & P3 & V3).
    { eapply pass_closed; [exact (p_graph _ _ P2m)|auto]. }
    { pose proof (cu_mono _ _ (p_mono _ _ P2m)). lia. }
    rewrite E3.
    assert (Pm3 : pass h3 (modc (set_val z) v h3)).
    { apply pass_mod; auto. destruct (p_graph _ _ P3) as (_ & G & _). rewrite G.
      rewrite modc_same. exact Hne2. }
    eexists. split; [reflexivity|]. split; [eauto using pass_trans|].
    intros w Hw. apply (p_mono _ _ Pm3); auto. }
  { intros Hl. unfold h0. rewrite setc_same. exact Hl. }
  destruct (enter_term v h h0 h1 Sv Vv) as [P V]; auto.
  { eexists. split; [reflexivity|]. repeat split; auto; apply H0. }
  fold step. rewrite E1. eauto.
Qed.

Lemma trav_term f ev tv o : ev_ok f ev ->
  (forall w h, S0 w -> closed h -> cu h < f ->
     exists h', tv w h = Some h' /\ pass h h' /\ c_vis (cells h' w) = true) ->
  (forall w, In w (leaves o) -> S0 w) ->
  forall root c h, closed h -> cu h < f ->
  exists c' h', trav ev tv root o c h = Some (c', h') /\ pass h h' /\
    forall w, In w (vleaves o) -> c_vis (cells h' w) = true.
Proof.
  intros He Ht. induction o as [v|p tv'|u id e IHe|b id l IHl r IHr]; intros Hl root c h C Hf; cbn [trav].
  - destruct (c_vis (cells h v)) eqn:Vv.
    + exists c, h. split; auto. split; [apply pass_refl|]. intros w [<-|[]]; auto.
    + destruct (Ht v h) as (h' & E & P & V); auto; [apply Hl; simpl; auto|].
      rewrite E. exists c, h'. split; auto. split; auto. intros w [<-|[]]; auto.
  - exists c, h. split; auto. split; [apply pass_refl|]. intros w [].
  - destruct (IHe Hl false (if root then c else ctouch c id) h C Hf) as (c1 & h1 & E1 & P1 & V1).
    rewrite E1. pose proof (cu_mono _ _ (p_mono _ _ P1)).
    assert (C1 : closed h1) by (eapply pass_closed; [exact (p_graph _ _ P1)|auto]).
    destruct (eval_one_term f ev u e He Hl h1) as (x & h2 & E2 & P2); auto; [lia|].
    rewrite E2. pose proof (cu_mono _ _ (p_mono _ _ P2)).
    match goal with |- context[trav ev tv false e ?c3 h2] =>
      destruct (IHe Hl false c3 h2) as (c4 & h4 & E4 & P4 & V4) end; [|lia|].
    { eapply pass_closed; [exact (p_graph _ _ P2)|auto]. }
    rewrite E4. eexists _, h4. split; [reflexivity|]. split; [eauto using pass_trans|]. auto.
  - assert (Sl : forall w, In w (leaves l) -> S0 w) by (intros; apply Hl, in_or_app; auto).
    assert (Sr : forall w, In w (leaves r) -> S0 w) by (intros; apply Hl, in_or_app; auto).
    destruct (IHl Sl false (if root then c else ctouch c id) h C Hf) as (c1 & h1 & E1 & P1 & V1).
    rewrite E1. pose proof (cu_mono _ _ (p_mono _ _ P1)).
    assert (C1 : closed h1) by (eapply pass_closed; [exact (p_graph _ _ P1)|auto]).
    destruct (IHr Sr false c1 h1) as (c2 & h2 & E2 & P2 & V2); auto; [lia|].
    rewrite E2. pose proof (cu_mono _ _ (p_mono _ _ P2)).
    assert (C2 : closed h2) by (eapply pass_closed; [exact (p_graph _ _ P2)|auto]).
    destruct (eval_two_term f ev b l r He Sl Sr h2) as (uv & h3 & E3 & P3); auto; [lia|].
    rewrite E3. pose proof (cu_mono _ _ (p_mono _ _ P3)).
    assert (C3 : closed h3) by (eapply pass_closed; [exact (p_graph _ _ P3)|auto]).
    cbn zeta.
    match goal with |- context[trav ev tv false l ?c6 h3] =>
      destruct (IHl Sl false c6 h3) as (c7 & h4 & E4 & P4 & V4) end; auto; [lia|].
    rewrite E4. pose proof (cu_mono _ _ (p_mono _ _ P4)).
    assert (C4 : closed h4) by (eapply pass_closed; [exact (p_graph _ _ P4)|auto]).
    destruct (IHr Sr false c7 h4) as (c8 & h5 & E5 & P5 & V5); auto; [lia|].
    rewrite E5. eexists _, h5. split; [reflexivity|].
    split; [eauto 6 using pass_trans|].
    intros w Hw. apply in_app_or in Hw. destruct Hw as [Hw|Hw]; auto. apply (p_mono _ _ P5); auto.
Qed.

Lemma trav_var_term : forall f w h, S0 w -> closed h -> cu h < f ->
  exists h', trav_var f w h = Some h' /\ pass h h' /\ c_vis (cells h' w) = true.
Proof.
  induction f as [|f IHf]; intros v h Sv C Hf; [lia|].
  cbn [trav_var]. destruct (c_vis (cells h v)) eqn:Vv; [eauto 6 using pass_refl|].
  set (h0 := setc h v (set_vis true (cells h v))).
  assert (M0 : vmono h h0) by apply vmono_setvis.
  assert (V0 : c_vis (cells h0 v) = true) by (unfold h0; now rewrite setc_same).
  assert (C0 : closed h0) by (eapply pass_closed; [|exact C]; apply same_graph_setc; reflexivity).
  assert (Hu : cu h0 < f).
  { pose proof (cu_visit h h0 v M0 (proj1 C v Sv) Vv V0). lia. }
  set (step := fun o h' =>
             do (k, h2) <- trav_item (eval_var f) (trav_var f) o h';
             do (x, h3) <- eval_op (eval_var f) o h2;
             let k' := match o with Leaf w => c_cache (cells h3 w) | _ => k end in
             Some (modc (set_cache k') v (modc (set_val x) v h3))).
  destruct (items_term v step f (c_items (cells h v)) Sv) with (l := c_items (cells h v)) (h := h0)
    as (h1 & E1 & P1 & L1); auto.
  { intros o h' Ho C' Hf' Hne. unfold step.
    assert (So : forall w, In w (leaves o) -> S0 w).
    { intros w Hw. exact (proj2 C v o w Sv Ho Hw). }
    assert (Hi : exists k h2, trav_item (eval_var f) (trav_var f) o h' = Some (k, h2) /\ pass h' h2).
    { destruct o as [w|p tv'|u id e|b id l r]; cbn [trav_item].
      - destruct (IHf w h') as (h2 & E2 & P2 & V2); auto; [apply So; simpl; auto|]. rewrite E2. eauto.
      - eauto using pass_refl.
      - destruct (trav_term f _ _ (Un u id e) (eval_var_term f) IHf So true [] h' C' Hf') as (k & h2 & E2 & P2 & _). eauto.
      - destruct (trav_term f _ _ (Bin b id l r) (eval_var_term f) IHf So true [] h' C' Hf') as (k & h2 & E2 & P2 & _). eauto. }
    destruct Hi as (k & h2 & E2 & P2). rewrite E2.
    destruct (eval_op_term f (eval_var f) o (eval_var_term f) So h2) as (z & h3 & E3 & P3 & V3).
    { eapply pass_closed; [exact (p_graph _ _ P2)|auto]. }
    { pose proof (cu_mono _ _ (p_mono _ _ P2)). lia. }
    rewrite E3.
    assert (Hne3 : c_items (cells h3 v) <> []).
    { destruct (p_graph _ _ P3) as (_ & G & _), (p_graph _ _ P2) as (_ & G2 & _). now rewrite G, G2. }
    assert (Pm3 : pass h3 (modc (set_val z) v h3)) by (apply pass_mod; auto).
    eexists. split; [reflexivity|]. cbn zeta.
    match goal with |- pass _ (modc ?ff v ?h4) /\ _ =>
      assert (Pm4 : pass h4 (modc ff v h4)) end.
    { apply pass_mod; auto. rewrite modc_same. exact Hne3. }
    split; [eauto 6 using pass_trans|].
    intros w Hw. apply (p_mono _ _ Pm4). apply (p_mono _ _ Pm3); auto. }
  { intros Hl. unfold h0. rewrite setc_same. exact Hl. }
  destruct (enter_term v h h0 h1 Sv Vv) as [P V]; auto.
  { eexists. split; [reflexivity|]. repeat split; auto; apply H0. }
  fold step. rewrite E1. eauto.
Qed.

End Term.
