(** * Consequences for client programs

    Facts about the reference semantics of ScalarUser.v (existence, uniqueness, unrelated
    variables, iteration) and about the states reachable by legal client commands. *)

From Coq Require Import List Arith Bool Lia Ring.
From Verif Require Import Num ScalarModel ScalarSpec ScalarReset ScalarEval ScalarRev ScalarTerm ScalarApi
  ScalarHist ScalarUser ScalarBuild.
Import ListNotations.
Open Scope num_scope.

Section ScalarFacts.
Context {T : Type} {N : Num T}.
Notation term := (term (T := T)). Notation item := (item (T := T)). Notation store := (store (T := T)).
Notation cmd := (cmd (T := T)).
Notation heap := (heap T).

(** ** Terms depend only on what they mention *)
Lemma tsem_ext (t : term) lv lv' : (forall v, In v (trefs t) \/ In v (tpars t) -> lv v = lv' v) ->
  tsem lv t = tsem lv' t.
Proof.
  induction t as [v|p|k t IH|k l IHl r IHr|t IH]; simpl; intros H; auto.
  - now rewrite IH.
  - rewrite IHl, IHr; auto; intros v [Hv|Hv]; apply H; rewrite !in_app_iff; auto.
Qed.
Lemma tdsem_ext (t : term) lv lv' ld ld' : (forall v, In v (trefs t) \/ In v (tpars t) -> lv v = lv' v) ->
  (forall v, In v (trefs t) -> ld v = ld' v) -> tdsem lv ld t = tdsem lv' ld' t.
Proof.
  induction t as [v|p|k t IH|k l IHl r IHr|t IH]; simpl; intros H H'; auto.
  - rewrite (tsem_ext t lv lv'), IH; auto.
  - rewrite (tsem_ext l lv lv'), (tsem_ext r lv lv'), IHl, IHr; auto;
      intros; try apply H; try apply H'; rewrite !in_app_iff; tauto.
Qed.
Definition ialls (i : item) := irefs i ++ ipars i.
Lemma isem_ext (i : item) lv lv' : (forall v, In v (irefs i) \/ In v (ipars i) -> lv v = lv' v) ->
  isem lv i = isem lv' i.
Proof. destruct i; simpl; intros H; auto. f_equal. now apply tsem_ext. Qed.
Lemma idsem_ext (i : item) lv lv' ld ld' : (forall v, In v (irefs i) \/ In v (ipars i) -> lv v = lv' v) ->
  (forall v, In v (irefs i) -> ld v = ld' v) -> idsem lv ld i = idsem lv' ld' i.
Proof. destruct i; simpl; intros H H'; auto. f_equal. now apply tdsem_ext. Qed.

Lemma ureach_trans (st : store) a b c : ureach st a b -> ureach st b c -> ureach st a c.
Proof. intros H1 H2. induction H2; auto. econstructor; eauto. Qed.
Lemma uvalues_sub (st : store) r r' W : ureach st r r' -> uvalues st r W -> uvalues st r' W.
Proof. intros H V v Hv. apply V. eapply ureach_trans; eauto. Qed.
Lemma uderivs_sub (st : store) r r' W x D : ureach st r r' -> uderivs st r W x D -> uderivs st r' W x D.
Proof. intros H V v Hv. apply V. eapply ureach_trans; eauto. Qed.
Lemma ustrat_sub (st : store) r r' : ureach st r r' -> ustrat st r -> ustrat st r'.
Proof. intros H (k & R). exists k. intros v w Hv Hd. apply R; auto. eapply ureach_trans; eauto. Qed.

(** ** The reference value and derivative exist and are unique *)
Definition ustep (st : store) (W : nat -> T) (v : nat) : T :=
  match st v with
  | Some (OVar x) | Some (OPar x) => x
  | Some (OExp l) => fold_left (fun cur i => isem (at_ v cur W) i) l n0
  | None => n0
  end.
Definition udstep (st : store) (W : nat -> T) (x : nat) (D : nat -> T) (v : nat) : T :=
  if Nat.eqb v x then n1 else
  match st v with
  | Some (OExp l) => snd (fold_left (fun p i => (isem (at_ v (fst p) W) i,
        idsem (at_ v (fst p) W) (at_ x n1 (at_ v (snd p) D)) i)) l (n0, n0))
  | _ => n0
  end.

Lemma ustep_ext (st : store) W W' v : (forall w, udep st v w -> w <> v -> W w = W' w) -> ustep st W v = ustep st W' v.
Proof.
  intros H. unfold ustep. destruct (st v) as [[x|x|l]|] eqn:E; auto.
  apply fold_ext. intros cur i Hi. apply isem_ext. intros w Hw. unfold at_.
  destruct (Nat.eqb_spec w v) as [->|Hn]; auto. apply H; auto. exists l, i; auto.
Qed.
Lemma udstep_ext (st : store) W W' x D D' v : (forall w, udep st v w -> w <> v -> W w = W' w) ->
  (forall w, udep st v w -> w <> v -> D w = D' w) -> udstep st W x D v = udstep st W' x D' v.
Proof.
  intros H H'. unfold udstep. destruct (Nat.eqb v x); auto. destruct (st v) as [[y|y|l]|] eqn:E; auto.
  f_equal. apply fold_ext. intros p i Hi.
  assert (A : forall w, In w (irefs i) \/ In w (ipars i) -> at_ v (fst p) W w = at_ v (fst p) W' w).
  { intros w Hw. unfold at_. destruct (Nat.eqb_spec w v) as [->|Hn]; auto. apply H; auto. exists l, i; auto. }
  f_equal; [now apply isem_ext|]. apply idsem_ext; auto.
  intros w Hw. unfold at_. destruct (Nat.eqb w x); auto. destruct (Nat.eqb_spec w v) as [->|Hn]; auto.
  apply H'; auto. exists l, i; auto.
Qed.

(** Well-founded recursion on the rank, by fuel. *)
Section Fix.
Variables (st : store) (root : nat) (F : (nat -> T) -> nat -> T).
Hypothesis Fext : forall W W' v, (forall w, udep st v w -> w <> v -> W w = W' w) -> F W v = F W' v.
Hypothesis S_ok : ustrat st root.
Fixpoint ufix (f : nat) (v : nat) : T := match f with O => n0 | S f => F (ufix f) v end.
Lemma fix_exists : exists W, forall v, ureach st root v -> W v = F W v.
Proof.
  destruct S_ok as (rank & R).
  assert (St : forall f f' v, ureach st root v -> rank v < f -> rank v < f' -> ufix f v = ufix f' v).
  { induction f as [|f IH]; intros f' v Hr Hf Hf'; [lia|].
    destruct f' as [|f']; [lia|]. cbn [ufix]. apply Fext. intros w Hw Hn.
    destruct (R v w Hr Hw) as [|L]; [congruence|].
    apply IH; try lia. econstructor; eauto. }
  exists (fun v => ufix (S (rank v)) v). intros v Hr. cbn [ufix]. apply Fext. intros w Hw Hn.
  destruct (R v w Hr Hw) as [|L]; [congruence|]. change (ufix (rank v) w = ufix (S (rank w)) w).
  apply St; try lia. econstructor; eauto.
Qed.
Lemma fix_unique W W' : (forall v, ureach st root v -> W v = F W v) ->
  (forall v, ureach st root v -> W' v = F W' v) -> forall v, ureach st root v -> W v = W' v.
Proof.
  destruct S_ok as (rank & R). intros H H'.
  assert (A : forall k v, rank v < k -> ureach st root v -> W v = W' v).
  { induction k as [|k IH]; intros v Hk Hr; [lia|].
    rewrite (H v Hr), (H' v Hr). apply Fext. intros w Hw Hn.
    destruct (R v w Hr Hw) as [|L]; [congruence|].
    apply IH; try lia. econstructor; eauto. }
  intros v Hr. apply (A (S (rank v))); auto.
Qed.
End Fix.

Lemma uvalues_exist (st : store) r : ustrat st r -> exists W, uvalues st r W.
Proof. intros H. apply (fix_exists st r (ustep st)); auto. intros. now apply ustep_ext. Qed.
Lemma uvalues_unique (st : store) r W W' : ustrat st r -> uvalues st r W -> uvalues st r W' ->
  forall v, ureach st r v -> W v = W' v.
Proof. intros H. apply (fix_unique st r (ustep st)); auto. intros. now apply ustep_ext. Qed.
Lemma uderivs_exist (st : store) r W x : ustrat st r -> exists D, uderivs st r W x D.
Proof. intros H. apply (fix_exists st r (udstep st W x)); auto. intros. now apply udstep_ext. Qed.
Lemma uderivs_unique (st : store) r W x D D' : ustrat st r -> uderivs st r W x D -> uderivs st r W x D' ->
  forall v, ureach st r v -> D v = D' v.
Proof. intros H. apply (fix_unique st r (udstep st W x)); auto. intros. now apply udstep_ext. Qed.
Lemma uderivs_same (st : store) r W W' x D : (forall v, ureach st r v -> W v = W' v) ->
  uderivs st r W x D -> uderivs st r W' x D.
Proof.
  intros E H v Hv. rewrite (H v Hv). change (udstep st W x D v = udstep st W' x D v).
  apply udstep_ext; auto. intros w Hw _. apply E. econstructor; eauto.
Qed.

(** ** A variable that does not occur has derivative 0 *)
Section Zero.
Hypothesis L : NumLaws N.
Add Ring Tring : (law_ring N L).
Lemma chain1_0 k (x : T) : chain1 k x n0 = n0.
Proof. destruct k; simpl; ring. Qed.
Lemma chain2_0 k (x y : T) : chain2 k x y n0 n0 = n0.
Proof. destruct k; simpl; ring. Qed.
Lemma tdsem_0 lv ld (t : term) : (forall v, In v (trefs t) -> ld v = n0) -> tdsem lv ld t = n0.
Proof.
  induction t as [v|p|k t IH|k l IHl r IHr|t IH]; simpl; intros H; auto.
  - rewrite IH by auto. apply chain1_0.
  - rewrite IHl, IHr by (intros; apply H; rewrite in_app_iff; auto). apply chain2_0.
Qed.
Lemma idsem_0 lv ld (i : item) : (forall v, In v (irefs i) -> ld v = n0) -> idsem lv ld i = n0.
Proof. destruct i; simpl; intros H; auto. rewrite tdsem_0 by auto. ring. Qed.
Theorem unrelated_0 (st : store) r W x D : ustrat st r -> uderivs st r W x D -> ~ ureach st r x -> D r = n0.
Proof.
  intros (rank & R) HD Hx.
  assert (A : forall k v, rank v < k -> ureach st r v -> D v = n0).
  { induction k as [|k IH]; intros v Hk Hr; [lia|].
    rewrite (HD v Hr). destruct (Nat.eqb_spec v x) as [->|Hvx]; [contradiction|].
    destruct (st v) as [[y|y|l]|] eqn:E; auto.
    enough (G : forall l' p, incl l' l -> snd p = n0 -> snd (fold_left (fun p i => (isem (at_ v (fst p) W) i,
        idsem (at_ v (fst p) W) (at_ x n1 (at_ v (snd p) D)) i)) l' p) = n0).
    { apply G; [apply incl_refl|reflexivity]. }
    induction l' as [|i l' IHl]; intros p Hl Hp; auto. cbn [fold_left]. apply IHl.
    { intros j Hj. apply Hl. now right. }
    cbn [snd]. apply idsem_0. intros w Hw.
    assert (Hd : udep st v w) by (exists l, i; split; auto; split; [apply Hl; now left|auto]).
    unfold at_. destruct (Nat.eqb_spec w x) as [->|Hwx]; [exfalso; apply Hx; econstructor; eauto|].
    destruct (Nat.eqb_spec w v); auto.
    destruct (R v w Hr Hd) as [|Lt]; [contradiction|]. apply IH; try lia. econstructor; eauto. }
  apply (A (S (rank r))); auto. constructor.
Qed.
End Zero.

(** ** States reachable by client commands *)
Inductive reached : heap -> store -> (nat -> Prop) -> Prop :=
| reached0 : reached heap0 store0 (fun _ => False)
| reached_step h st tc c pad o h' : reached h st tc -> legal st tc c -> step pad c h = Some (o, h') ->
    reached h' (uafter st c o) (touch st c tc).

Lemma reached_inv h st tc : reached h st tc -> Inv h st tc.
Proof.
  induction 1 as [|h st tc c pad o h' _ I Hl E]; [apply inv0|].
  destruct (step_ok pad h st tc c I Hl) as (o' & h1 & E' & _ & I'). rewrite E' in E. injection E as <- <-. exact I'.
Qed.
Theorem reached_answer h st tc c pad : reached h st tc -> legal st tc c ->
  exists o h', step pad c h = Some (o, h') /\ uanswer st c o /\ reached h' (uafter st c o) (touch st c tc).
Proof.
  intros R Hl. destruct (step_ok pad h st tc c (reached_inv _ _ _ R) Hl) as (o & h' & E & A & _).
  exists o, h'. repeat split; auto. econstructor; eauto.
Qed.

(** *** Eval, DevalF and gradients as plain equations *)
Theorem reached_eval h st tc pad r : reached h st tc -> query_ok st tc r ->
  exists W h', uvalues st r W /\ step pad (CEval r) h = Some (ONums [W r], h').
Proof.
  intros R Q. destruct (reached_answer h st tc (CEval r) pad R Q) as (o & h' & E & (y & -> & A) & _).
  destruct (uvalues_exist st r (proj1 (proj2 Q))) as (W & V). exists W, h'. split; auto. now rewrite <- (A W V).
Qed.
Theorem reached_devalF h st tc pad r x : reached h st tc -> query_ok st tc r -> is_val st x ->
  exists W D h', uvalues st r W /\ uderivs st r W x D /\ step pad (CDevalF r x) h = Some (ONums [D r], h').
Proof.
  intros R Q Hx. destruct (reached_answer h st tc (CDevalF r x) pad R (conj Q Hx)) as (o & h' & E & (y & -> & A) & _).
  destruct (uvalues_exist st r (proj1 (proj2 Q))) as (W & V).
  destruct (uderivs_exist st r W x (proj1 (proj2 Q))) as (D & HD). exists W, D, h'. repeat split; auto.
  now rewrite <- (A W D V HD).
Qed.
Theorem reached_grad h st tc pad r xs : NumLaws N -> reached h st tc -> query_ok st tc r ->
  (forall x, In x xs -> is_val st x) ->
  exists W ys h', uvalues st r W /\ step pad (CGrad r xs) h = Some (ONums ys, h') /\ length ys = length xs /\
    (udivs_ok st r W -> forall i x, nth_error xs i = Some x -> utarget st r x ->
       exists D, uderivs st r W x D /\ nth_error ys i = Some (D r)).
Proof.
  intros L R Q Hx. destruct (reached_answer h st tc (CGrad r xs) pad R (conj Q Hx)) as (o & h' & E & (ys & -> & Hlen & A) & _).
  destruct (uvalues_exist st r (proj1 (proj2 Q))) as (W & V).
  exists W, ys, h'. repeat split; auto. intros Hd i x Hi Ht.
  destruct (uderivs_exist st r W x (proj1 (proj2 Q))) as (D & HD). exists D. split; auto. eapply A; eauto.
Qed.
End ScalarFacts.
