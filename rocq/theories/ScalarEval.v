(** * The evaluation and forward passes compute the specified values (lemmas for C01, C03) *)

From Coq Require Import List Arith Bool Lia.
From Verif Require Import Num ScalarModel ScalarSpec ScalarReset.
Import ListNotations.

Section Passes.
Context {T : Type} {N : Num T}.
Notation heap := (heap T).

(** The model's operator tables agree with the specification's. *)
Lemma uval_mean k x : uval k x = mean1 k x.
Proof. destruct k; reflexivity. Qed.
Lemma bval_mean k u v : bval k u v = mean2 k u v.
Proof. destruct k; reflexivity. Qed.
Lemma dfun_dmean f u : dfun f u = dmean f u.
Proof. destruct f; reflexivity. Qed.
Lemma ufwd_chain k x dx : ufwd k x dx = chain1 k x dx.
Proof. destruct k; simpl; rewrite ?dfun_dmean; reflexivity. Qed.
Lemma bfwd_chain k u v du dv : bfwd k u v du dv = chain2 k u v du dv.
Proof. destruct k; reflexivity. Qed.
Lemma ufwd_noeval k x y dx : u_evals k = false -> ufwd k x dx = ufwd k y dx.
Proof. destruct k; simpl; congruence || reflexivity. Qed.
Lemma bfwd_noeval k u v u' v' du dv : b_evals k = false -> bfwd k u v du dv = bfwd k u' v' du dv.
Proof. destruct k; simpl; congruence || reflexivity. Qed.

Lemma sem_ext lv lv' (o : op T) : (forall w, In w (leaves o) -> lv w = lv' w) -> sem lv o = sem lv' o.
Proof.
  induction o as [v|p tv|u id e IHe|b id l IHl r IHr]; simpl; intros H; auto.
  - now rewrite IHe.
  - rewrite IHl, IHr; auto; intros; apply H, in_or_app; auto.
Qed.
Lemma dsem_ext lv lv' ld ld' (o : op T) :
  (forall w, In w (leaves o) -> lv w = lv' w) -> (forall w, In w (leaves o) -> ld w = ld' w) ->
  dsem lv ld o = dsem lv' ld' o.
Proof.
  induction o as [v|p tv|u id e IHe|b id l IHl r IHr]; simpl; intros H H'; auto.
  - rewrite IHe by auto. now rewrite (sem_ext lv lv').
  - rewrite IHl, IHr, (sem_ext lv lv' l), (sem_ext lv lv' r); auto;
    intros; (apply H || apply H'); apply in_or_app; auto.
Qed.

(** A pass changes only cells satisfying P, and never the graph. *)
Definition unch (P : nat -> Prop) (h h' : heap) : Prop :=
  same_graph h h' /\ forall w, ~ P w -> cells h' w = cells h w.

Lemma unch_refl P h : unch P h h.
Proof. split; auto using same_graph_refl. Qed.
Lemma unch_trans P h1 h2 h3 : unch P h1 h2 -> unch P h2 h3 -> unch P h1 h3.
Proof.
  intros [A B] [A' B']. split; [eauto using same_graph_trans|].
  intros w Hw. rewrite B', B; auto.
Qed.
Lemma unch_weaken (P Q : nat -> Prop) h h' : (forall w, P w -> Q w) -> unch P h h' -> unch Q h h'.
Proof. intros HPQ [A B]. split; auto. Qed.

(** Evaluation of a tree whose variable leaves are all visited reads their values and
    changes nothing. *)

(** Leaves that are variables (not parameters). *)
Fixpoint vleaves (o : op T) : list nat :=
  match o with
  | Leaf v => [v]
  | Par _ _ => []
  | Un _ _ e => vleaves e
  | Bin _ _ l r => vleaves l ++ vleaves r
  end.
Lemma vleaves_leaves o w : In w (vleaves o) -> In w (leaves o).
Proof.
  induction o; simpl; intros H; auto; try contradiction.
  apply in_app_or in H. apply in_or_app. tauto.
Qed.
Lemma pars_leaves o w : In w (pars o) -> In w (leaves (T:=T) o).
Proof.
  induction o; simpl; intros H; auto; try contradiction.
  apply in_app_or in H. apply in_or_app. tauto.
Qed.
Lemma leaves_split o w : In w (leaves o) -> In w (vleaves o) \/ In w (pars o).
Proof.
  induction o; simpl; intros H; auto.
  apply in_app_or in H. rewrite !in_app_iff. tauto.
Qed.

Lemma eval_vis f (o : op T) (h : heap) :
  (forall w, In w (vleaves o) -> c_vis (cells h w) = true) ->
  eval_op (eval_var (S f)) o h = Some (sem (fun w => c_val (cells h w)) o, h).
Proof.
  induction o as [v|p tv|u id e IHe|b id l IHl r IHr]; intros H.
  - simpl. rewrite H by (simpl; auto). reflexivity.
  - reflexivity.
  - cbn [eval_op sem]. rewrite IHe by auto. now rewrite uval_mean.
  - cbn [eval_op sem]. assert (El := IHl (fun w Hw => H w (in_or_app _ _ _ (or_introl Hw)))).
    assert (Er := IHr (fun w Hw => H w (in_or_app _ _ _ (or_intror Hw)))).
    destruct (b_right_first_eval b); rewrite ?El, ?Er, ?El, ?bval_mean; reflexivity.
Qed.

Lemma eval_two_vis f k (l r : op T) (h : heap) :
  (forall w, In w (vleaves l ++ vleaves r) -> c_vis (cells h w) = true) ->
  eval_two (eval_var (S f)) k l r h =
  Some (if b_evals k then (sem (fun w => c_val (cells h w)) l, sem (fun w => c_val (cells h w)) r)
        else (n0, n0), h).
Proof.
  intros H. unfold eval_two. destruct (b_evals k); auto.
  assert (El := eval_vis f l h (fun w Hw => H w (in_or_app _ _ _ (or_introl Hw)))).
  assert (Er := eval_vis f r h (fun w Hw => H w (in_or_app _ _ _ (or_intror Hw)))).
  destruct (b_right_first k); rewrite ?El, ?Er, ?El; reflexivity.
Qed.
Lemma eval_one_vis f k (e : op T) (h : heap) :
  (forall w, In w (vleaves e) -> c_vis (cells h w) = true) ->
  eval_one (eval_var (S f)) k e h =
  Some (if u_evals k then sem (fun w => c_val (cells h w)) e else n0, h).
Proof.
  intros H. unfold eval_one. destruct (u_evals k); auto. now apply eval_vis.
Qed.

(** ** Common setting: a graph with a rank, closed set of objects S *)
Variable bs : nat -> T.
Variable its : nat -> list (op T).
Variable S0 : nat -> Prop.
Variable rank : nat -> nat.
Hypothesis S_dep : forall v o w, S0 v -> In o (its v) -> In w (leaves o) -> S0 w.
Hypothesis S_rank : forall v o w, S0 v -> In o (its v) -> In w (leaves o) -> w = v \/ rank w < rank v.
Hypothesis S_par : forall v o w, S0 v -> In o (its v) -> In w (pars o) -> its w = [].

Definition graph_is (h : heap) : Prop :=
  (forall w, c_base (cells h w) = bs w) /\ (forall w, c_items (cells h w) = its w).

Lemma graph_is_same h h' : same_graph h h' -> graph_is h -> graph_is h'.
Proof. intros (A & B & _) [C D]. split; intros; congruence. Qed.

Variable W : nat -> T.
Hypothesis W_eq : forall v, S0 v ->
  W v = fold_left (fun cur o => sem (at_ v cur W) o) (its v) (bs v).

Lemma W_plain v : S0 v -> its v = [] -> W v = bs v.
Proof. intros H E. rewrite W_eq by auto. now rewrite E. Qed.

(** ** The eval pass *)

Definition edone (h : heap) w := c_vis (cells h w) = true /\ c_val (cells h w) = W w.
Definition EInv (r : nat) (h : heap) : Prop :=
  forall w, S0 w -> rank w < r -> clean (cells h w) \/ edone h w.
Definition below (r : nat) (w : nat) : Prop := S0 w /\ rank w < r.
Definition upto (v : nat) (w : nat) : Prop := w = v \/ below (rank v) w.

Lemma plain_val h w : graph_is h -> S0 w -> its w = [] -> clean (cells h w) \/ edone h w ->
  c_val (cells h w) = W w.
Proof.
  intros [G1 G2] Hs E [(C1 & _)|(_ & C)]; auto.
  rewrite C1, G1. symmetry. now apply W_plain.
Qed.

Lemma eval_op_ok f v cur (o : op T) : S0 v ->
  (forall w h, S0 w -> rank w < rank v -> graph_is h -> EInv (rank v) h ->
     exists h', eval_var f w h = Some (W w, h') /\ unch (below (rank v)) h h' /\ EInv (rank v) h') ->
  0 < f ->
  (forall w, In w (leaves o) -> S0 w /\ (w = v \/ rank w < rank v)) ->
  (forall w, In w (pars o) -> its w = []) -> its v <> [] ->
  forall h, graph_is h -> EInv (rank v) h -> c_vis (cells h v) = true -> c_val (cells h v) = cur ->
  exists h', eval_op (eval_var f) o h = Some (sem (at_ v cur W) o, h') /\
     unch (below (rank v)) h h' /\ EInv (rank v) h'.
Proof.
  intros Sv IH Hf.
  assert (Hv : forall h h', unch (below (rank v)) h h' -> cells h' v = cells h v).
  { intros h h' [_ U]. apply U. intros [_ L]. lia. }
  induction o as [w|p tv|u id e IHe|b id l IHl r IHr]; intros HL HP Hne h G E V C.
  - simpl. destruct (HL w) as [Sw [->|Rw]]; [simpl; auto| |].
    + exists h. rewrite at_same. destruct f as [|f]; [lia|]. simpl. rewrite V, C.
      auto using unch_refl.
    + rewrite at_other by (intros ->; lia). apply IH; auto.
  - exists h. simpl.
    destruct (HL tv) as [Sw [->|Rw]]; [simpl; auto| |].
    { exfalso. apply Hne. apply HP. simpl; auto. }
    rewrite at_other by (intros ->; lia).
    rewrite (plain_val h tv); auto using unch_refl.
    apply HP. simpl; auto.
  - cbn [eval_op sem]. destruct (IHe HL HP Hne h G E V C) as (h1 & E1 & U1 & I1).
    rewrite E1, uval_mean. eauto.
  - cbn [eval_op sem].
    assert (HLl : forall w, In w (leaves l) -> S0 w /\ (w = v \/ rank w < rank v))
      by (intros; apply HL, in_or_app; auto).
    assert (HLr : forall w, In w (leaves r) -> S0 w /\ (w = v \/ rank w < rank v))
      by (intros; apply HL, in_or_app; auto).
    assert (HPl : forall w, In w (pars l) -> its w = []) by (intros; apply HP, in_or_app; auto).
    assert (HPr : forall w, In w (pars r) -> its w = []) by (intros; apply HP, in_or_app; auto).
    destruct (b_right_first_eval b).
    + destruct (IHr HLr HPr Hne h G E V C) as (h1 & E1 & U1 & I1). rewrite E1.
      destruct (IHl HLl HPl Hne h1) as (h2 & E2 & U2 & I2); auto;
        try (rewrite (Hv _ _ U1); auto; fail).
      { eapply graph_is_same; [apply U1|auto]. }
      rewrite E2, bval_mean. eauto using unch_trans.
    + destruct (IHl HLl HPl Hne h G E V C) as (h1 & E1 & U1 & I1). rewrite E1.
      destruct (IHr HLr HPr Hne h1) as (h2 & E2 & U2 & I2); auto;
        try (rewrite (Hv _ _ U1); auto; fail).
      { eapply graph_is_same; [apply U1|auto]. }
      rewrite E2, bval_mean. eauto using unch_trans.
Qed.

Lemma EInv_upd r h v f : r <= rank v -> EInv r h -> EInv r (modc f v h).
Proof.
  intros H E w Sw Rw.
  assert (Hw : w <> v) by (intros ->; lia).
  specialize (E w Sw Rw). unfold edone in *. now rewrite modc_other.
Qed.
Lemma EInv_setc r h v c : r <= rank v -> EInv r h -> EInv r (setc h v c).
Proof.
  intros H E w Sw Rw.
  assert (Hw : w <> v) by (intros ->; lia).
  specialize (E w Sw Rw). unfold edone in *. now rewrite setc_other.
Qed.
Lemma unch_upd (P : nat -> Prop) (h : heap) v f : P v -> c_base (f (cells h v)) = c_base (cells h v) ->
  c_items (f (cells h v)) = c_items (cells h v) -> unch P h (modc f v h).
Proof.
  intros Hp A B. split; [now apply same_graph_mod|].
  intros w Hw. apply modc_other. intros ->. auto.
Qed.
Lemma unch_setc (P : nat -> Prop) (h : heap) v c : P v -> c_base c = c_base (cells h v) ->
  c_items c = c_items (cells h v) -> unch P h (setc h v c).
Proof.
  intros Hp A B. split; [now apply same_graph_setc|].
  intros w Hw. apply setc_other. intros ->. auto.
Qed.

Lemma below_upto v w : below (rank v) w -> upto v w.
Proof. right. auto. Qed.

Lemma start_of h w : graph_is h -> S0 w -> clean (cells h w) \/ edone h w ->
  edone h w \/ c_vis (cells h w) = false.
Proof.
  intros G Sw [C|D]; auto. destruct (c_vis (cells h w)) eqn:V; auto. left. split; auto.
  apply plain_val; auto. destruct C as (_ & _ & _ & [C|C]); [congruence|].
  now rewrite <- (proj2 G).
Qed.

(** Eval of one object: returns its value, marks it and everything it needed as done. *)
Lemma eval_var_ok : forall f v h, S0 v -> S (rank v) < f -> graph_is h -> EInv (rank v) h ->
  (edone h v \/ c_vis (cells h v) = false) ->
  exists h', eval_var f v h = Some (W v, h') /\ unch (upto v) h h' /\ EInv (rank v) h' /\ edone h' v.
Proof.
  induction f as [|f IHf]; intros v h Sv Rf G E Hstart; [lia|].
  cbn [eval_var].
  destruct (c_vis (cells h v)) eqn:Vv.
  { destruct Hstart as [[_ D]|D]; [|discriminate].
    exists h. rewrite D. unfold edone. auto using unch_refl. }
  set (h0 := setc h v (set_vis true (set_val (c_base (cells h v)) (cells h v)))).
  assert (U0 : unch (upto v) h h0) by (apply unch_setc; [left|..]; reflexivity).
  assert (G0 : graph_is h0) by (eapply graph_is_same; [apply U0|auto]).
  assert (E0 : EInv (rank v) h0) by (apply EInv_setc; auto).
  assert (IH : forall w h, S0 w -> rank w < rank v -> graph_is h -> EInv (rank v) h ->
     exists h', eval_var f w h = Some (W w, h') /\ unch (below (rank v)) h h' /\ EInv (rank v) h').
  { intros w h' Sw Rw G' E'.
    destruct (IHf w h') as (h'' & E'' & U'' & I'' & D''); auto; try lia.
    { intros x Sx Rx; apply E'; auto; lia. }
    { apply start_of; auto. }
    exists h''. split; auto. split.
    { eapply unch_weaken; [|exact U'']. intros x [->|[Sx Rx]]; split; auto; lia. }
    intros x Sx Rx. destruct (Nat.eq_dec x w) as [->|Hx]; [auto|].
    destruct (lt_dec (rank x) (rank w)); [apply I''; auto|].
    unfold edone. destruct U'' as [_ U'']. rewrite U''; [apply E'; auto|].
    intros [->|[_ L]]; auto; lia. }
  (* the loop over the assignments *)
  assert (Loop : forall l h1 cur, (forall o, In o l -> In o (its v)) ->
     graph_is h1 -> EInv (rank v) h1 -> c_vis (cells h1 v) = true -> c_val (cells h1 v) = cur ->
     exists h2, each (fun o h' => do (x, h'') <- eval_op (eval_var f) o h';
                                  Some (modc (set_val x) v h'')) l h1 = Some h2 /\
       unch (upto v) h1 h2 /\ EInv (rank v) h2 /\ c_vis (cells h2 v) = true /\
       c_val (cells h2 v) = fold_left (fun cur o => sem (at_ v cur W) o) l cur).
  { induction l as [|o l IHl]; intros h1 cur Hin G1 E1 V1 C1.
    - exists h1. simpl. auto using unch_refl.
    - cbn [each fold_left].
      assert (Ho : In o (its v)) by (apply Hin; simpl; auto).
      destruct (eval_op_ok f v cur o Sv IH) with (h := h1) as (h2 & E2 & U2 & I2); auto; try lia.
      { intros w Hw. split; [eapply S_dep; eauto|eapply S_rank; eauto]. }
      { intros w Hw. eapply S_par; eauto. }
      { intros E'. rewrite E' in Ho. destruct Ho. }
      rewrite E2.
      assert (Vv2 : cells h2 v = cells h1 v) by (apply U2; intros [_ L]; lia).
      set (h3 := modc (set_val (sem (at_ v cur W) o)) v h2).
      assert (U3 : unch (upto v) h1 h3).
      { eapply unch_trans; [eapply unch_weaken; [apply below_upto|exact U2]|].
        apply unch_upd; [left|..]; reflexivity. }
      destruct (IHl h3 (sem (at_ v cur W) o)) as (h4 & E4 & U4 & I4 & V4 & C4).
      { intros; apply Hin; simpl; auto. }
      { eapply graph_is_same; [apply U3|auto]. }
      { apply EInv_upd; auto. }
      { unfold h3. rewrite modc_same, Vv2. auto. }
      { unfold h3. rewrite modc_same. reflexivity. }
      exists h4. split; auto. split; [eauto using unch_trans|]. auto. }
  destruct (Loop (c_items (cells h v)) h0 (bs v)) as (h1 & E1 & U1 & I1 & V1 & C1); auto.
  { intros o. now rewrite (proj2 G). }
  { unfold h0. now rewrite setc_same. }
  { unfold h0. rewrite setc_same. simpl. apply (proj1 G). }
  rewrite (proj2 G), <- W_eq in C1 by auto.
  rewrite E1. exists h1. rewrite C1. unfold edone. eauto 10 using unch_trans.
Qed.

(** ** The forward pass *)

Definition vmono (h h' : heap) : Prop :=
  forall w, c_vis (cells h w) = true -> c_vis (cells h' w) = true.
Lemma vmono_refl h : vmono h h.
Proof. red; auto. Qed.
Lemma vmono_trans h1 h2 h3 : vmono h1 h2 -> vmono h2 h3 -> vmono h1 h3.
Proof. unfold vmono; auto. Qed.
Lemma vmono_upd (h : heap) v f : c_vis (f (cells h v)) = c_vis (cells h v) -> vmono h (modc f v h).
Proof.
  intros H w Hw. destruct (Nat.eq_dec w v) as [->|Hn].
  - rewrite modc_same. congruence.
  - now rewrite modc_other.
Qed.
Lemma vmono_setvis (h : heap) v : vmono h (setc h v (set_vis true (cells h v))).
Proof.
  intros w Hw. destruct (Nat.eq_dec w v) as [->|Hn].
  - now rewrite setc_same.
  - now rewrite setc_other.
Qed.

Lemma edone_or_plain h w : graph_is h -> S0 w -> clean (cells h w) \/ edone h w ->
  c_vis (cells h w) = true \/ its w = [] -> c_val (cells h w) = W w.
Proof.
  intros G Sw C [V|P].
  - destruct C as [C|[_ D]]; auto. apply plain_val; auto.
    destruct C as (_ & _ & _ & [C|C]); [congruence|]. now rewrite <- (proj2 G).
  - now apply plain_val.
Qed.

Variable x : nat.
Variable D : nat -> T.
Definition dfold (v : nat) : T * T :=
  fold_left (fun p o => (sem (at_ v (fst p) W) o,
                         dsem (at_ v (fst p) W) (at_ x n1 (at_ v (snd p) D)) o))
            (its v) (bs v, n0).
Hypothesis D_eq : forall v, S0 v -> D v = if Nat.eqb v x then n1 else snd (dfold v).

Definition fdone (h : heap) w := edone h w /\ c_dval (cells h w) = snd (dfold w).
Definition FInv (r : nat) (h : heap) : Prop :=
  forall w, S0 w -> rank w < r -> clean (cells h w) \/ fdone h w.

Lemma FInv_EInv r h : FInv r h -> EInv r h.
Proof. intros F w Sw Rw. destruct (F w Sw Rw) as [|[]]; auto. Qed.

Lemma FInv_upd r h v f : r <= rank v -> FInv r h -> FInv r (modc f v h).
Proof.
  intros H E w Sw Rw.
  assert (Hw : w <> v) by (intros ->; lia).
  specialize (E w Sw Rw). unfold fdone, edone in *. now rewrite modc_other.
Qed.
Lemma FInv_setc r h v c : r <= rank v -> FInv r h -> FInv r (setc h v c).
Proof. apply FInv_upd with (f := fun _ => c). Qed.

(** Values read from a heap in which all variable leaves are visited. *)
Lemma sem_cells v cur (o : op T) h :
  (forall w, In w (leaves o) -> S0 w /\ (w = v \/ rank w < rank v)) ->
  (forall w, In w (pars o) -> its w = []) -> its v <> [] ->
  graph_is h -> EInv (rank v) h -> c_val (cells h v) = cur ->
  (forall w, In w (vleaves o) -> c_vis (cells h w) = true) ->
  sem (fun w => c_val (cells h w)) o = sem (at_ v cur W) o.
Proof.
  intros HL HP Hne G E C V. apply sem_ext. intros w Hw.
  destruct (HL w Hw) as [Sw [->|Rw]]; [now rewrite at_same|].
  rewrite at_other by (intros ->; lia).
  apply edone_or_plain; auto.
  destruct (leaves_split o w Hw); auto.
Qed.

Lemma devalF_op_ok f v cur dcur (o : op T) : S0 v ->
  (forall w h, S0 w -> rank w < rank v -> graph_is h -> FInv (rank v) h ->
     exists h', devalF_var (S f) x w h = Some (D w, h') /\ unch (below (rank v)) h h' /\
        FInv (rank v) h' /\ vmono h h' /\ c_vis (cells h' w) = true) ->
  (forall w, In w (leaves o) -> S0 w /\ (w = v \/ rank w < rank v)) ->
  (forall w, In w (pars o) -> its w = []) -> its v <> [] ->
  forall h, graph_is h -> FInv (rank v) h -> c_vis (cells h v) = true ->
    c_val (cells h v) = cur -> c_dval (cells h v) = dcur ->
  exists h', devalF_op (eval_var (S f)) (devalF_var (S f) x) o h =
      Some (dsem (at_ v cur W) (at_ x n1 (at_ v dcur D)) o, h') /\
     unch (below (rank v)) h h' /\ FInv (rank v) h' /\ vmono h h' /\
     (forall w, In w (vleaves o) -> c_vis (cells h' w) = true).
Proof.
  intros Sv IH.
  assert (Hv : forall h h', unch (below (rank v)) h h' -> cells h' v = cells h v).
  { intros h h' [_ U]. apply U. intros [_ L]. lia. }
  induction o as [w|p tv|u id e IHe|b id l IHl r IHr]; intros HL HP Hne h G E V C DC.
  - simpl. destruct (HL w) as [Sw [->|Rw]]; [simpl; auto| |].
    + exists h. rewrite V. split.
      { unfold at_. destruct (Nat.eqb v x); auto. now rewrite Nat.eqb_refl, DC. }
      split; [apply unch_refl|]. split; auto. split; [apply vmono_refl|].
      intros w [<-|[]]; auto.
    + replace (at_ x n1 (at_ v dcur D) w) with (D w).
      * destruct (IH w h) as (h' & E' & U' & F' & M' & V'); auto.
        exists h'. split; auto. split; auto. split; auto. split; auto.
        intros w' [<-|[]]; auto.
      * unfold at_. destruct (Nat.eqb_spec w v) as [->|]; [lia|].
        rewrite (D_eq w) by auto. destruct (Nat.eqb w x); auto.
  - exists h. simpl. split; auto. split; [apply unch_refl|]. split; auto.
    split; [apply vmono_refl|]. intros w [].
  - cbn [devalF_op dsem].
    destruct (IHe HL HP Hne h G E V C DC) as (h1 & E1 & U1 & F1 & M1 & L1). rewrite E1.
    rewrite eval_one_vis by auto.
    exists h1. split; auto. f_equal. f_equal. rewrite ufwd_chain.
    destruct (u_evals u) eqn:Ue.
    + f_equal. apply sem_cells; auto.
      * eapply graph_is_same; [apply U1|auto].
      * now apply FInv_EInv.
      * now rewrite (Hv _ _ U1).
    + rewrite <- !ufwd_chain. now apply ufwd_noeval.
  - cbn [devalF_op dsem].
    assert (HLl : forall w, In w (leaves l) -> S0 w /\ (w = v \/ rank w < rank v))
      by (intros; apply HL, in_or_app; auto).
    assert (HLr : forall w, In w (leaves r) -> S0 w /\ (w = v \/ rank w < rank v))
      by (intros; apply HL, in_or_app; auto).
    assert (HPl : forall w, In w (pars l) -> its w = []) by (intros; apply HP, in_or_app; auto).
    assert (HPr : forall w, In w (pars r) -> its w = []) by (intros; apply HP, in_or_app; auto).
    destruct (IHl HLl HPl Hne h G E V C DC) as (h1 & E1 & U1 & F1 & M1 & L1). rewrite E1.
    assert (G1 : graph_is h1) by (eapply graph_is_same; [apply U1|auto]).
    destruct (IHr HLr HPr Hne h1) as (h2 & E2 & U2 & F2 & M2 & L2); auto;
      try (rewrite (Hv _ _ U1); auto; fail).
    rewrite E2.
    assert (G2 : graph_is h2) by (eapply graph_is_same; [apply U2|auto]).
    assert (Cv2 : cells h2 v = cells h v) by (rewrite (Hv _ _ U2); apply (Hv _ _ U1)).
    assert (L12 : forall w, In w (vleaves l ++ vleaves r) -> c_vis (cells h2 w) = true).
    { intros w Hw. apply in_app_or in Hw. destruct Hw; auto. }
    rewrite eval_two_vis by auto.
    exists h2. split; [|split; [eauto using unch_trans|split; [auto|split; [eauto using vmono_trans|auto]]]].
    f_equal. f_equal. rewrite bfwd_chain.
    destruct (b_evals b) eqn:Be; cbn [fst snd].
    + f_equal; apply sem_cells; auto using FInv_EInv; try (rewrite Cv2; auto; fail);
        intros w Hw; apply L12, in_or_app; auto.
    + rewrite <- !bfwd_chain. now apply bfwd_noeval.
Qed.

Lemma fstart_of h w : graph_is h -> S0 w -> clean (cells h w) \/ fdone h w ->
  fdone h w \/ (c_vis (cells h w) = false /\ c_val (cells h w) = bs w /\ c_dval (cells h w) = n0).
Proof.
  intros G Sw [C|F]; auto.
  destruct (c_vis (cells h w)) eqn:V.
  - left. assert (P : its w = []).
    { destruct C as (_ & _ & _ & [C|C]); [congruence|]. now rewrite <- (proj2 G). }
    repeat split; auto; [now apply plain_val; auto|].
    unfold dfold. rewrite P. simpl. apply C.
  - right. destruct C as (C1 & C2 & _). rewrite C1, C2, (proj1 G). auto.
Qed.

(** Forward derivative of one object.  The start state of v is: done, or unvisited with
    its base value and derivative 0 (or anything, if its assignments do not mention v and
    there is at least one). *)
Lemma devalF_var_ok : forall f v h, S0 v -> S (S (rank v)) < f -> graph_is h -> FInv (rank v) h ->
  (fdone h v \/ (c_vis (cells h v) = false /\
     ((c_val (cells h v) = bs v /\ c_dval (cells h v) = n0) \/
      (its v <> [] /\ forall o, In o (its v) -> ~ In v (leaves o))))) ->
  exists h', devalF_var f x v h = Some (D v, h') /\ unch (upto v) h h' /\ FInv (rank v) h' /\
    vmono h h' /\ fdone h' v.
Proof.
  induction f as [|f IHf]; intros v h Sv Rf G E Hstart; [lia|].
  cbn [devalF_var].
  destruct (c_vis (cells h v)) eqn:Vv.
  { destruct Hstart as [F|[F _]]; [|discriminate].
    exists h. rewrite (D_eq v) by auto.
    split; [|split; [|split; [|split]]]; auto using unch_refl, vmono_refl.
    destruct F as [_ F]. now rewrite F. }
  set (h0 := setc h v (set_vis true (cells h v))).
  assert (U0 : unch (upto v) h h0) by (apply unch_setc; [left|..]; reflexivity).
  assert (G0 : graph_is h0) by (eapply graph_is_same; [apply U0|auto]).
  assert (E0 : FInv (rank v) h0) by (apply FInv_setc; auto).
  assert (M0 : vmono h h0) by apply vmono_setvis.
  destruct f as [|f]; [lia|].
  assert (IH : forall w h, S0 w -> rank w < rank v -> graph_is h -> FInv (rank v) h ->
     exists h', devalF_var (S f) x w h = Some (D w, h') /\ unch (below (rank v)) h h' /\
        FInv (rank v) h' /\ vmono h h' /\ c_vis (cells h' w) = true).
  { intros w h' Sw Rw G' E'.
    destruct (IHf w h') as (h'' & E'' & U'' & I'' & M'' & D''); auto; try lia.
    { intros y Sy Ry; apply E'; auto; lia. }
    { destruct (fstart_of h' w) as [|(A1 & A2 & A3)]; auto. }
    exists h''. split; auto. split.
    { eapply unch_weaken; [|exact U'']. intros y [->|[Sy Ry]]; split; auto; lia. }
    split; [|split; [auto|apply D'']].
    intros y Sy Ry. destruct (Nat.eq_dec y w) as [->|Hy]; [auto|].
    destruct (lt_dec (rank y) (rank w)); [apply I''; auto|].
    unfold fdone, edone. destruct U'' as [_ U'']. rewrite U''; [apply E'; auto|].
    intros [->|[_ L]]; auto; lia. }
  (* the loop over the assignments, from the pair (cur, dcur) *)
  set (step := fun o h' =>
     do (d, h2) <- devalF_op (eval_var (S f)) (devalF_var (S f) x) o h';
     do (z, h3) <- eval_op (eval_var (S f)) o (modc (set_dval d) v h2);
     Some (modc (set_val z) v h3)).
  assert (One : forall o h1 cur dcur, In o (its v) -> graph_is h1 -> FInv (rank v) h1 ->
     c_vis (cells h1 v) = true -> c_val (cells h1 v) = cur -> c_dval (cells h1 v) = dcur ->
     exists h2, step o h1 = Some h2 /\ unch (upto v) h1 h2 /\ FInv (rank v) h2 /\ vmono h1 h2 /\
       c_vis (cells h2 v) = true /\ c_val (cells h2 v) = sem (at_ v cur W) o /\
       c_dval (cells h2 v) = dsem (at_ v cur W) (at_ x n1 (at_ v dcur D)) o).
  { intros o h1 cur dcur Ho G1 E1 V1 C1 D1. unfold step.
    assert (HL : forall w, In w (leaves o) -> S0 w /\ (w = v \/ rank w < rank v)).
    { intros w Hw. split; [eapply S_dep; eauto|eapply S_rank; eauto]. }
    assert (HP : forall w, In w (pars o) -> its w = []) by (intros w Hw; eapply S_par; eauto).
    assert (Hne : its v <> []) by (intros E'; rewrite E' in Ho; destruct Ho).
    destruct (devalF_op_ok f v cur dcur o Sv IH HL HP Hne h1) as (h2 & E2 & U2 & I2 & M2 & L2); auto.
    rewrite E2.
    assert (Vv2 : cells h2 v = cells h1 v) by (apply U2; intros [_ L]; lia).
    set (d := dsem (at_ v cur W) (at_ x n1 (at_ v dcur D)) o).
    set (h3 := modc (set_dval d) v h2).
    assert (V3 : vmono h2 h3) by (apply vmono_upd; reflexivity).
    assert (U3 : unch (upto v) h1 h3).
    { eapply unch_trans; [eapply unch_weaken; [apply below_upto|exact U2]|].
      apply unch_upd; [left|..]; reflexivity. }
    assert (I3 : FInv (rank v) h3) by (apply FInv_upd; auto).
    rewrite eval_vis by (intros w Hw; apply V3; auto).
    assert (Es : sem (fun w => c_val (cells h3 w)) o = sem (at_ v cur W) o).
    { apply sem_cells; auto using FInv_EInv.
      - eapply graph_is_same; [apply U3|auto].
      - unfold h3. rewrite modc_same, Vv2. auto. }
    rewrite Es. exists (modc (set_val (sem (at_ v cur W) o)) v h3). split; auto.
    split; [eapply unch_trans; [exact U3|]; apply unch_upd; [left|..]; reflexivity|].
    split; [apply FInv_upd; auto|].
    split; [eapply vmono_trans; [exact M2|]; eapply vmono_trans; [exact V3|]; apply vmono_upd; reflexivity|].
    unfold h3. rewrite !modc_same, Vv2. simpl. auto. }
  assert (Loop : forall l h1 p, (forall o, In o l -> In o (its v)) ->
     graph_is h1 -> FInv (rank v) h1 -> c_vis (cells h1 v) = true ->
     c_val (cells h1 v) = fst p -> c_dval (cells h1 v) = snd p ->
     exists h2, each step l h1 = Some h2 /\
       unch (upto v) h1 h2 /\ FInv (rank v) h2 /\ vmono h1 h2 /\ c_vis (cells h2 v) = true /\
       (c_val (cells h2 v), c_dval (cells h2 v)) =
         fold_left (fun p o => (sem (at_ v (fst p) W) o,
                         dsem (at_ v (fst p) W) (at_ x n1 (at_ v (snd p) D)) o)) l p).
  { induction l as [|o l IHl]; intros h1 p Hin G1 E1 V1 C1 D1.
    - exists h1. simpl. rewrite C1, D1. destruct p. repeat split; auto using vmono_refl.
    - cbn [each fold_left].
      destruct (One o h1 (fst p) (snd p)) as (h2 & E2 & U2 & I2 & M2 & V2 & C2 & D2); auto.
      { apply Hin. simpl. auto. }
      rewrite E2.
      destruct (IHl h2 (sem (at_ v (fst p) W) o,
                        dsem (at_ v (fst p) W) (at_ x n1 (at_ v (snd p) D)) o))
        as (h4 & E4 & U4 & I4 & M4 & V4 & C4); auto.
      { intros; apply Hin; simpl; auto. }
      { eapply graph_is_same; [apply U2|auto]. }
      exists h4. split; auto. split; [eauto using unch_trans|]. split; auto.
      split; [eauto using vmono_trans|]. auto. }
  assert (Run : exists h2, each step (its v) h0 = Some h2 /\
       unch (upto v) h0 h2 /\ FInv (rank v) h2 /\ vmono h0 h2 /\ c_vis (cells h2 v) = true /\
       (c_val (cells h2 v), c_dval (cells h2 v)) = dfold v).
  { destruct Hstart as [[[F _] _]|[_ [[A B]|[Hne Hns]]]]; [congruence| |].
    - unfold dfold. apply (Loop (its v) h0 (bs v, n0)); auto; unfold h0; rewrite setc_same; auto.
    - (* first assignment does not read v: the start value is irrelevant *)
      unfold dfold. destruct (its v) as [|o l] eqn:El; [congruence|].
      cbn [each fold_left].
      destruct (One o h0 (c_val (cells h0 v)) (c_dval (cells h0 v)))
        as (h2 & E2 & U2 & I2 & M2 & V2 & C2 & D2); auto.
      { simpl; auto. }
      { unfold h0. now rewrite setc_same. }
      rewrite E2.
      assert (No : forall w, In w (leaves o) -> w <> v).
      { intros w Hw ->. eapply Hns; eauto. simpl; auto. }
      assert (Es : forall a b, sem (at_ v a W) o = sem (at_ v b W) o).
      { intros a b. apply sem_ext. intros w Hw. rewrite !at_other; auto. }
      assert (Ed : forall a b c d, dsem (at_ v a W) (at_ x n1 (at_ v c D)) o =
                                   dsem (at_ v b W) (at_ x n1 (at_ v d D)) o).
      { intros a b c d. apply dsem_ext; intros w Hw; [rewrite !at_other; auto|].
        unfold at_ at 1 3. destruct (Nat.eqb w x); auto. rewrite !at_other; auto. }
      destruct (Loop l h2 (sem (at_ v (bs v) W) o, dsem (at_ v (bs v) W) (at_ x n1 (at_ v n0 D)) o))
        as (h4 & E4 & U4 & I4 & M4 & V4 & C4); auto.
      { intros; simpl; auto. }
      { eapply graph_is_same; [apply U2|auto]. }
      { rewrite C2. apply Es. }
      { rewrite D2. apply Ed. }
      exists h4. split; auto. split; [eauto using unch_trans|]. split; auto.
      split; [eauto using vmono_trans|]. auto. }
  destruct Run as (h2 & E2 & U2 & I2 & M2 & V2 & C2).
  rewrite (proj2 G). fold step. rewrite E2. exists h2.
  assert (Hval : c_val (cells h2 v) = fst (dfold v)) by now rewrite <- C2.
  assert (Hd : c_dval (cells h2 v) = snd (dfold v)) by now rewrite <- C2.
  split; [rewrite Hd, (D_eq v) by auto; reflexivity|].
  split; [eauto using unch_trans|]. split; auto. split; [eauto using vmono_trans|].
  split; auto. split; auto. rewrite Hval, W_eq by auto. unfold dfold. clear.
  assert (Gn : forall l p q, fst p = q ->
    fst (fold_left (fun p o => (sem (at_ v (fst p) W) o,
                         dsem (at_ v (fst p) W) (at_ x n1 (at_ v (snd p) D)) o)) l p) =
    fold_left (fun cur o => sem (at_ v cur W) o) l q).
  { induction l as [|o l IH]; intros p q Hpq; simpl; auto. apply IH. simpl. now rewrite Hpq. }
  now apply Gn.
Qed.

End Passes.
