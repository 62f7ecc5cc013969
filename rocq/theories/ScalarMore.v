(** * Corollaries about client programs: one root (C07), iteration (C09), reassignment (C10),
      construction (C12) *)

From Coq Require Import List Arith Bool Lia Ring.
From Verif Require Import Num ScalarModel ScalarSpec ScalarReset ScalarEval ScalarRev ScalarTerm ScalarApi
  ScalarHist ScalarUser ScalarBuild ScalarFacts.
Import ListNotations.
Open Scope num_scope.

Section More.
Context {T : Type} {N : Num T}.
Notation term := (term (T := T)). Notation item := (item (T := T)). Notation store := (store (T := T)).
Notation cmd := (cmd (T := T)). Notation heap := (heap T). Notation prog := (prog (T := T)). Notation out := (out (T := T)).

(** Straight-line programs. *)
Fixpoint line (cs : list cmd) : prog := match cs with [] => Done | c :: cs' => Do c (fun _ => line cs') end.

(** ** C07: one root *)
(** Commands that set numbers or query root r. *)
Definition on_root (st : store) (r : nat) (c : cmd) : Prop :=
  match c with
  | CSet v _ => is_var st v
  | CSetPar p _ => is_par st p
  | CEval r' => r' = r
  | CDevalF r' x => r' = r /\ (is_var st x \/ is_exp st x)
  | CGrad r' xs => r' = r /\ forall x, In x xs -> is_var st x \/ is_exp st x
  | _ => False
  end.

(** Same objects and same assignments, possibly other numbers. *)
Definition alike (st st' : store) : Prop := forall v,
  match st v, st' v with
  | None, None => True
  | Some (OVar _), Some (OVar _) => True
  | Some (OPar _), Some (OPar _) => True
  | Some (OExp l), Some (OExp l') => l = l'
  | _, _ => False
  end.
Lemma alike_refl st : alike st st.
Proof. intros v. destruct (st v) as [[]|]; auto. Qed.
Lemma alike_sym st st' : alike st st' -> alike st' st.
Proof. intros H v. specialize (H v). destruct (st v) as [[]|], (st' v) as [[]|]; auto. Qed.
Lemma alike_var st st' v : alike st st' -> is_var st v -> is_var st' v.
Proof. intros H [x E]. specialize (H v). rewrite E in H. destruct (st' v) as [[y| |]|] eqn:E'; try contradiction. exists y; auto. Qed.
Lemma alike_par st st' v : alike st st' -> is_par st v -> is_par st' v.
Proof. intros H [x E]. specialize (H v). rewrite E in H. destruct (st' v) as [[|y|]|] eqn:E'; try contradiction. exists y; auto. Qed.
Lemma alike_items st st' v l : alike st st' -> st v = Some (OExp l) -> st' v = Some (OExp l).
Proof. intros H E. specialize (H v). rewrite E in H. destruct (st' v) as [[| |l']|]; try contradiction. now subst. Qed.
Lemma alike_exp st st' v : alike st st' -> is_exp st v -> is_exp st' v.
Proof. intros H [l E]. exists l. eapply alike_items; eauto. Qed.
Lemma alike_dep st st' v w : alike st st' -> udep st v w -> udep st' v w.
Proof. intros H (l & i & E & R). exists l, i. split; auto. eapply alike_items; eauto. Qed.
Lemma alike_reach st st' r v : alike st st' -> ureach st r v -> ureach st' r v.
Proof. intros H R. induction R; econstructor; eauto using alike_dep. Qed.
Lemma alike_query st st' tc r : alike st st' -> query_ok st tc r -> query_ok st' tc r.
Proof.
  intros H (E & (k & S) & Q). assert (H' := alike_sym _ _ H). split; [eauto using alike_exp|]. split.
  - exists k. intros v w Hv Hw. apply S; eauto using alike_reach, alike_dep.
  - intros v w Hv Hn Hx Ht Hd Hw. eapply Q with (v := v); eauto using alike_reach, alike_dep, alike_exp.
Qed.
Lemma alike_on_root st st' r c : alike st st' -> on_root st r c -> on_root st' r c.
Proof.
  intros H. destruct c; simpl; try tauto; eauto using alike_var, alike_par.
  - intros [-> [X|X]]; split; eauto using alike_var, alike_exp.
  - intros [-> X]; split; auto. intros x Hx. destruct (X x Hx); eauto using alike_var, alike_exp.
Qed.
Lemma alike_after st r c o : on_root st r c -> alike st (uafter st c o).
Proof.
  destruct c; simpl; try contradiction; intros Hc; auto using alike_refl; intros w; unfold put, at_.
  - destruct (Nat.eqb_spec w v) as [->|]; [|apply alike_refl]. destruct Hc as [y E]. now rewrite E.
  - destruct (Nat.eqb_spec w p) as [->|]; [|apply alike_refl]. destruct Hc as [y E]. now rewrite E.
Qed.
Lemma query_touched st tc c r : on_root st r c -> query_ok st tc r -> query_ok st (touch st c tc) r.
Proof.
  intros Hc (E & S & Q). split; auto. split; auto. intros v w Hv Hn Hx Ht Hd Hw. unfold touch in *.
  destruct (uroot c) as [r'|] eqn:U; [|eauto]. destruct c; simpl in U; try discriminate; injection U as <-;
    simpl in Hc; try subst; exfalso; apply Ht; right; try destruct Hc as [<- _]; auto.
Qed.
Theorem one_root_ok r cs : forall st tc, query_ok st tc r -> Forall (on_root st r) cs -> well_behaved st tc (line cs).
Proof.
  induction cs as [|c cs IH]; intros st tc Q F; cbn [line well_behaved]; auto.
  inversion F as [|? ? Hc F']; subst. split.
  - destruct c; simpl in *; try contradiction; auto; try (subst; auto; fail); destruct Hc as [-> ?]; auto.
  - intros o _. assert (A := alike_after st r c o Hc). apply IH.
    + eapply alike_query; eauto. now apply query_touched.
    + eapply Forall_impl; [|exact F']. intros c' Hc'. eapply alike_on_root; eauto.
Qed.

(** ** C12: construction *)
Definition creates (c : cmd) : Prop :=
  match c with CVar _ | CPar _ | CEmpty | CExpr _ | CCopy _ => True | _ => False end.
Lemma create_frame pad c h o h' : creates c -> step pad c h = Some (o, h') ->
  next h < next h' /\ memos h' = memos h /\ (forall w, w < next h -> cells h' w = cells h w) /\
  exists v, o = OHandle v /\ next h <= v < next h'.
Proof.
  destruct c as [x|x| |t|e|e t|e e'|v x|p x|r|r x|r xs]; try contradiction; intros _; cbn [step].
  - intros E. injection E as <- <-. cbn. repeat split; auto.
    + intros w Hw. unfold upd. destruct (Nat.eqb_spec w (next h)); auto; lia.
    + eexists; split; [reflexivity|lia].
  - intros E. injection E as <- <-. cbn. repeat split; auto.
    + intros w Hw. unfold upd. destruct (Nat.eqb_spec w (S (next h))); auto; lia.
    + eexists; split; [reflexivity|lia].
  - intros E. injection E as <- <-. cbn. repeat split; auto.
    + intros w Hw. unfold upd. destruct (Nat.eqb_spec w (S (next h))); auto; lia.
    + eexists; split; [reflexivity|lia].
  - destruct (build t (next h)) as [b n1] eqn:Eb. pose proof (build_rep t (next h)) as [B1 B2]. rewrite Eb in B1, B2.
    unfold new_exp. destruct (wrap b (S (S n1))) as [l n2] eqn:Ew.
    pose proof (proj1 (wrap_spec b t (S (S n1)) B2)) as Wp. rewrite Ew in Wp. cbn [fst snd] in *.
    intros E. injection E as <- <-. cbn. repeat split; auto; try lia.
    + intros w Hw. unfold upd. destruct (Nat.eqb_spec w (S n1)); auto; lia.
    + eexists; split; [reflexivity|lia].
  - intros E. injection E as <- <-. cbn. repeat split; auto.
    + intros w Hw. unfold upd. destruct (Nat.eqb_spec w (S (next h))); auto; lia.
    + eexists; split; [reflexivity|lia].
Qed.
(** Nothing in a store refers to an object that does not exist. *)
Lemma nothing_refers h st tc v w : Inv h st tc -> udep st v w -> st w <> None.
Proof.
  intros I H. destruct (udep_kind h st tc I v w H) as [[[x E]|[x E]]|[x E]]; congruence.
Qed.
Lemma ureach_put_old h st tc v o r w : Inv h st tc -> st v = None -> st r <> None ->
  ureach (put st v o) r w <-> ureach st r w.
Proof.
  intros I Hv Hr. split; intros H.
  - assert (X : ureach st r w /\ st w <> None); [|tauto].
    induction H as [|w x H IH Hd]; [split; [constructor|auto]|].
    destruct IH as [IH1 IH2]. assert (D : udep st w x).
    { destruct Hd as (l & i & E & R). exists l, i. split; auto.
      rewrite put_other in E; auto. congruence. }
    split; [econstructor; eauto|]. eapply nothing_refers; eauto.
  - assert (X : forall w, ureach st r w -> st w <> None) by (intros; eapply ureach_dom; eauto).
    induction H as [|w x H IH Hd]; [constructor|]. econstructor; [apply IH|].
    destruct Hd as (l & i & E & R). exists l, i. split; auto. rewrite put_other; auto. intros ->. congruence.
Qed.
Lemma uvalues_put_old h st tc v o r W : Inv h st tc -> st v = None -> st r <> None ->
  uvalues (put st v o) r W <-> uvalues st r W.
Proof.
  intros I Hv Hr.
  assert (E : forall w, ureach st r w -> put st v o w = st w).
  { intros w Hw. apply put_other. intros ->. now apply (ureach_dom h st tc I r v Hr Hw). }
  split; intros H w Hw.
  - rewrite (H w) by (eapply ureach_put_old; eauto). now rewrite E.
  - apply (ureach_put_old h st tc v o r w I Hv Hr) in Hw. rewrite (H w Hw). now rewrite E.
Qed.
Lemma uderivs_put_old h st tc v o r W x D : Inv h st tc -> st v = None -> st r <> None ->
  uderivs (put st v o) r W x D <-> uderivs st r W x D.
Proof.
  intros I Hv Hr.
  assert (E : forall w, ureach st r w -> put st v o w = st w).
  { intros w Hw. apply put_other. intros ->. now apply (ureach_dom h st tc I r v Hr Hw). }
  split; intros H w Hw.
  - rewrite (H w) by (eapply ureach_put_old; eauto). now rewrite E.
  - apply (ureach_put_old h st tc v o r w I Hv Hr) in Hw. rewrite (H w Hw). now rewrite E.
Qed.
Lemma create_store st c o : creates c -> uanswer st c o -> exists v ob, o = OHandle v /\ st v = None /\ uafter st c o = put st v ob.
Proof. destruct c; try contradiction; intros _ (w & -> & E); eexists _, _; repeat split; auto. Qed.
Lemma query_put_old h st tc v o r : Inv h st tc -> st v = None -> query_ok st tc r -> query_ok (put st v o) tc r.
Proof.
  intros I Hv ([l E] & (k & S) & Q). assert (Hr : st r <> None) by congruence.
  assert (Hrv : r <> v) by congruence.
  assert (U : forall w, ureach (put st v o) r w -> w <> v /\ ureach st r w).
  { intros w Hw. apply (ureach_put_old h st tc v o r w I Hv Hr) in Hw. split; auto. intros ->.
    now apply (ureach_dom h st tc I r v Hr Hw). }
  assert (Dp : forall a b, a <> v -> udep (put st v o) a b -> udep st a b).
  { intros a b Ha (l0 & i & E0 & R). exists l0, i. rewrite put_other in E0; auto. }
  split; [exists l; rewrite put_other; auto|]. split.
  - exists k. intros a b Ha Hd. destruct (U a Ha). apply S; auto.
  - intros a b Ha Hn [la Ea] Ht Hd [lb Eb]. destruct (U a Ha) as [Hav Hra]. assert (Hdst := Dp a b Hav Hd).
    assert (Hbv : b <> v) by (intros ->; now apply (nothing_refers h st tc a v I Hdst)).
    rewrite put_other in Ea, Eb by auto. eapply Q; eauto; eexists; eauto.
Qed.
(** Creating an object changes no query result. *)
Theorem create_preserves h st tc pad c o h1 r : reached h st tc -> legal st tc c -> creates c ->
  step pad c h = Some (o, h1) -> query_ok st tc r ->
  forall pad' q, (q = CEval r \/ (exists x, is_val st x /\ q = CDevalF r x)) ->
  exists a h' h1', step pad' q h = Some (a, h') /\ step pad' q h1 = Some (a, h1').
Proof.
  intros R Hl Hc E Q pad' q Hq. assert (I := reached_inv _ _ _ R).
  destruct (reached_answer h st tc c pad R Hl) as (o' & h1' & E' & A & R1).
  rewrite E' in E. injection E as -> ->.
  destruct (create_store st c o Hc A) as (v & ob & Eo & Hv & Es).
  rewrite Es in R1.
  assert (Et : touch st c tc = tc) by (destruct c; try contradiction; reflexivity). rewrite Et in R1.
  assert (Q1 := query_put_old h st tc v ob r I Hv Q).
  assert (Hr : st r <> None) by (destruct Q as ([l El] & _); congruence).
  destruct Hq as [->|(x & Hx & ->)].
  - destruct (reached_eval h st tc pad' r R Q) as (W & h' & V & S1).
    destruct (reached_eval h1 _ tc pad' r R1 Q1) as (W1 & h1' & V1 & S2).
    apply (uvalues_put_old h st tc v ob r W1 I Hv Hr) in V1.
    rewrite (uvalues_unique st r W1 W (proj1 (proj2 Q)) V1 V r) in S2 by constructor. eauto.
  - assert (Hx1 : is_val (put st v ob) x).
    { assert (x <> v) by (intros ->; destruct Hx as [[? X]|[? X]]; congruence).
      destruct Hx as [[y X]|[l X]]; [left; exists y|right; exists l]; rewrite put_other; auto. }
    destruct (reached_devalF h st tc pad' r x R Q Hx) as (W & D & h' & V & HD & S1).
    destruct (reached_devalF h1 _ tc pad' r x R1 Q1 Hx1) as (W1 & D1 & h1' & V1 & HD1 & S2).
    apply (uvalues_put_old h st tc v ob r W1 I Hv Hr) in V1.
    apply (uderivs_put_old h st tc v ob r W1 x D1 I Hv Hr) in HD1.
    assert (EW := uvalues_unique st r W1 W (proj1 (proj2 Q)) V1 V).
    apply (uderivs_same st r W1 W) in HD1; auto.
    rewrite (uderivs_unique st r W x D1 D (proj1 (proj2 Q)) HD1 HD r) in S2 by constructor. eauto.
Qed.
(** Indices of operator nodes are unique in every reachable state. *)
Theorem reached_unique h st tc : reached h st tc ->
  (forall v, NoDup (node_ids (graph_of h) v)) /\
  (forall v w k, v <> w -> In k (node_ids (graph_of h) v) -> ~ In k (node_ids (graph_of h) w)) /\
  (forall v k, In k (node_ids (graph_of h) v) -> st k = None /\ 2 <= k < next h).
Proof.
  intros R. assert (I := reached_inv _ _ _ R). split; [exact (i_nodup _ _ _ I)|]. split; [exact (i_disj _ _ _ I)|].
  intros v k Hk. destruct (i_ids _ _ _ I v k Hk) as (A & B & _). auto.
Qed.

(** ** Programs over an acyclic store *)
(** No mutual recursion anywhere, and no never-queried expression refers to a queried one. *)
Definition tidy (st : store) (tc : nat -> Prop) : Prop :=
  (exists rank : nat -> nat, forall v w, udep st v w -> w = v \/ rank w < rank v) /\
  (forall v w, is_exp st v -> ~ tc v -> udep st v w -> is_exp st w -> ~ tc w).
Lemma tidy_query st tc r : tidy st tc -> is_exp st r -> query_ok st tc r.
Proof.
  intros [(k & R) Q] E. split; auto. split.
  - exists k. auto.
  - intros v w _ _ Hx Ht Hd Hw. exact (Q v w Hx Ht Hd Hw).
Qed.
(** The store after e received the assignments l, with everything else as in st. *)
Definition extends (st st' : store) (e : nat) (l : list item) : Prop :=
  st' e = Some (OExp l) /\ forall v, v <> e -> st' v = st v.

Lemma rank_ext (st st' : store) e l : (forall v w, udep st v w -> st w <> None) -> st e = None ->
  extends st st' e l ->
  (forall i w, In i l -> In w (irefs i) \/ In w (ipars i) -> w = e \/ st w <> None) ->
  (exists rank : nat -> nat, forall v w, udep st v w -> w = v \/ rank w < rank v) ->
  exists rank : nat -> nat, forall v w, udep st' v w -> w = v \/ rank w < rank v.
Proof.
  intros Hn He [E1 E2] Hl (k & R).
  set (ws := flat_map (fun i => irefs i ++ ipars i) l).
  exists (fun v => if Nat.eqb v e then S (list_max (map k ws)) else k v).
  intros v w (l' & i & E & Hi & Hw). destruct (Nat.eqb_spec v e) as [->|Hv].
  - rewrite E1 in E. injection E as <-. destruct (Hl i w Hi Hw) as [->|Hsw]; auto.
    destruct (Nat.eqb_spec w e) as [->|Hwe]; [contradiction|]. right.
    assert (L : k w <= list_max (map k ws)).
    { assert (F := proj1 (list_max_le (map k ws) (list_max (map k ws))) (le_n _)).
      rewrite Forall_forall in F. apply F. apply in_map. unfold ws. apply in_flat_map.
      exists i. split; auto. rewrite in_app_iff. auto. }
    lia.
  - rewrite E2 in E by auto. assert (D : udep st v w) by (exists l', i; auto).
    destruct (Nat.eqb_spec w e) as [->|Hwe]; [exfalso; now apply (Hn v e D)|]. auto.
Qed.
Lemma tidy_ext h st tc st' e l : Inv h st tc -> tidy st tc -> st e = None -> extends st st' e l ->
  (forall i w, In i l -> In w (irefs i) \/ In w (ipars i) -> w = e \/ st w <> None) ->
  query_ok st' tc e.
Proof.
  intros I [Rk Q] He X Hl. destruct X as [X1 X2]. split; [exists l; auto|]. split.
  - destruct (rank_ext st st' e l) as (k & R); auto.
    + intros v w. apply (nothing_refers h st tc v w I).
    + split; auto.
    + exists k. auto.
  - intros v w _ Hne [lv Ev] Ht Hd [lw Ew]. rewrite X2 in Ev by auto.
    destruct Hd as (l' & i & E & R). rewrite X2 in E by auto.
    assert (D : udep st v w) by (exists l', i; auto).
    assert (Hwe : w <> e) by (intros ->; now apply (nothing_refers h st tc v e I D)).
    rewrite X2 in Ew by auto. eapply Q; [exists lv; eauto| | |]; eauto. exists lw; auto.
Qed.

(** ** C09: iteration *)
Lemma reached_step' h st tc c pad : reached h st tc -> legal st tc c -> exists o h', step pad c h = Some (o, h') /\ uanswer st c o /\
  reached h' (uafter st c o) (touch st c tc).
Proof. apply reached_answer. Qed.

Lemma exec_line_app pad cs cs' : forall h os h1 os' h2, exec pad (line cs) h = Some (os, h1) ->
  exec pad (line cs') h1 = Some (os', h2) -> exec pad (line (cs ++ cs')) h = Some (os ++ os', h2).
Proof.
  induction cs as [|c cs IH]; intros h os h1 os' h2 E1 E2.
  - simpl in E1. injection E1 as <- <-. exact E2.
  - cbn [line exec app] in *. destruct (step pad c h) as [[o ha]|]; [|discriminate].
    destruct (exec pad (line cs) ha) as [[os1 hb]|] eqn:E; [|discriminate]. injection E1 as <- <-.
    now rewrite (IH ha os1 hb os' h2 E E2).
Qed.

(** Body of a self-referential assignment: refers to e, to existing objects, to nothing else. *)
Definition body_ok (st : store) (e : nat) (t : term) : Prop :=
  (forall v, In v (trefs t) -> v = e \/ is_var st v \/ is_exp st v) /\
  (forall p, In p (tpars t) -> is_par st p) /\ mentions e t = true.

Lemma repeat_snoc {A} (a : A) n : repeat a n ++ [a] = repeat a (S n).
Proof. induction n; simpl; auto. f_equal. exact IHn. Qed.

Lemma iterate_reached pad e body st n : st e = None -> body_ok st e body -> forall h st1 tc l, reached h st1 tc ->
  extends st st1 e l ->
  exists h' st2, exec pad (line (repeat (CAssign e body) n)) h = Some (repeat ONone n, h') /\ reached h' st2 tc /\
    extends st st2 e (l ++ repeat (ITerm body) n).
Proof.
  intros He (B1 & B2 & B3). induction n as [|n IH]; intros h st1 tc l R X.
  - exists h, st1. rewrite app_nil_r. auto.
  - destruct X as [X1 X2]. destruct (reached_answer h st1 tc (CAssign e body) pad R) as (o & h1 & E & A & R1).
    { split; [exists l; auto|]. split.
      - intros v Hv. destruct (B1 v Hv) as [->|Hv']; [right; exists l; auto|].
        assert (v <> e) by (intros ->; destruct Hv' as [[? Y]|[? Y]]; congruence).
        destruct Hv' as [[x Y]|[x Y]]; [left; exists x|right; exists x]; rewrite X2; auto.
      - intros p Hp. destruct (B2 p Hp) as [x Y]. assert (p <> e) by (intros ->; congruence).
        exists x. rewrite X2; auto. }
    simpl in A. subst o. cbn [uafter] in R1. rewrite X1, B3 in R1.
    change (touch st1 (CAssign e body) tc) with tc in R1.
    destruct (IH h1 (put st1 e (OExp (l ++ [ITerm body]))) tc (l ++ [ITerm body]) R1) as (h2 & st2 & E2 & R2 & X').
    { split; [apply put_same|]. intros v Hv. rewrite put_other; auto. }
    exists h2, st2. cbn [repeat line exec]. rewrite E, E2. split; auto. split; auto.
    rewrite <- app_assoc in X'. exact X'.
Qed.

(** n-fold application. *)
Fixpoint iter {A} (n : nat) (f : A -> A) (a : A) : A := match n with O => a | S n => f (iter n f a) end.

Lemma at_at {A} v (a b : A) f x : at_ v a (at_ v b f) x = at_ v a f x.
Proof. unfold at_. now destruct (Nat.eqb x v). Qed.
Lemma fold_repeat {A B} (f : A -> B -> A) b n : forall a, fold_left f (repeat b n) a = iter n (fun a => f a b) a.
Proof.
  induction n as [|n IH]; intros a; auto. cbn [repeat fold_left]. rewrite IH.
  clear IH. induction n as [|n IH]; auto. cbn [iter]. now rewrite IH.
Qed.

(** e = init; then n times e = body. *)
Definition loop_prog (init : term) (body : nat -> term) (n : nat) (qs : nat -> list cmd) : prog :=
  Do (CExpr init) (fun o => match o with OHandle e => line (repeat (CAssign e (body e)) n ++ qs e) | _ => Done end).

(** Value and derivative of every object of an acyclic store. *)
Definition all_values (st : store) (W : nat -> T) : Prop := forall v, uvalues st v W.
Definition all_derivs (st : store) (W : nat -> T) (x : nat) (D : nat -> T) : Prop := forall v, uderivs st v W x D.
Lemma global_fix (st : store) (F : (nat -> T) -> nat -> T) :
  (forall W W' v, (forall w, udep st v w -> w <> v -> W w = W' w) -> F W v = F W' v) ->
  (exists rank : nat -> nat, forall v w, udep st v w -> w = v \/ rank w < rank v) -> exists W, forall v, W v = F W v.
Proof.
  intros Fext (rank & R).
  assert (St : forall f f' v, rank v < f -> rank v < f' -> ufix F f v = ufix F f' v).
  { induction f as [|f IH]; intros f' v Hf Hf'; [lia|].
    destruct f' as [|f']; [lia|]. cbn [ufix]. apply Fext. intros w Hw Hn.
    destruct (R v w Hw) as [|L]; [congruence|]. apply IH; lia. }
  exists (fun v => ufix F (S (rank v)) v). intros v. cbn [ufix]. apply Fext. intros w Hw Hn.
  destruct (R v w Hw) as [|L]; [congruence|]. change (ufix F (rank v) w = ufix F (S (rank w)) w).
  apply St; lia.
Qed.
Lemma all_values_exist st tc : tidy st tc -> exists W, all_values st W.
Proof.
  intros [R _]. destruct (global_fix st (ustep st)) as (W & H); auto using ustep_ext.
  exists W. intros v w _. exact (H w).
Qed.
Lemma all_derivs_exist st tc W x : tidy st tc -> exists D, all_derivs st W x D.
Proof.
  intros [R _]. destruct (global_fix st (udstep st W x)) as (D & H); auto.
  - intros. now apply udstep_ext.
  - exists D. intros v w _. exact (H w).
Qed.

Lemma iter_fst {A B} (f : A -> A) (g : A -> B -> B) n : forall p,
  fst (iter n (fun p => (f (fst p), g (fst p) (snd p))) p) = iter n f (fst p).
Proof. induction n as [|n IH]; intros p; auto. cbn [iter fst]. now rewrite IH. Qed.
Lemma iter_ext {A} (f g : A -> A) n : (forall a, f a = g a) -> forall a, iter n f a = iter n g a.
Proof. intros H. induction n as [|n IH]; intros a; auto. cbn [iter]. now rewrite IH, H. Qed.

Theorem iteration pad h st tc init body n x : reached h st tc -> tidy st tc -> term_ok st init ->
  (forall e, st e = None -> body_ok st e (body e)) -> is_val st x ->
  exists e h' W D, st e = None /\ all_values st W /\ all_derivs st W x D /\
    let value := fun y => n1 * tsem (at_ e y W) (body e) in
    let deriv := fun y d => n1 * tdsem (at_ e y W) (at_ e d D) (body e) in
    let result := iter n (fun p => (value (fst p), deriv (fst p) (snd p))) (n1 * tsem W init, n1 * tdsem W D init) in
    exec pad (loop_prog init body n (fun e => [CEval e; CDevalF e x])) h =
      Some (OHandle e :: repeat ONone n ++ [ONums [fst result]; ONums [snd result]], h').
Proof.
  intros R Ty Hi Hb Hx. assert (I := reached_inv _ _ _ R).
  destruct (reached_answer h st tc (CExpr init) pad R Hi) as (o & h1 & E1 & (e & -> & He) & R1).
  cbn [uafter] in R1. change (touch st (CExpr init) tc) with tc in R1.
  specialize (Hb e He). set (st1 := put st e (OExp [ITerm init])) in *.
  assert (X1 : extends st st1 e [ITerm init]).
  { split; [apply put_same|]. intros v Hv. now apply put_other. }
  destruct (iterate_reached pad e (body e) st n He Hb h1 st1 tc [ITerm init] R1 X1) as (h2 & st2 & E2 & R2 & X2).
  set (l := [ITerm init] ++ repeat (ITerm (body e)) n) in *.
  assert (Hie : forall w, In w (trefs init) \/ In w (tpars init) -> w <> e).
  { intros w Hw ->. destruct Hi as [H1 H2]. destruct Hw as [Hw|Hw]; [destruct (H1 e Hw) as [[? Y]|[? Y]]|destruct (H2 e Hw) as [? Y]]; congruence. }
  assert (Hl : forall i w, In i l -> In w (irefs i) \/ In w (ipars i) -> w = e \/ st w <> None).
  { intros i w Hil Hw. unfold l in Hil. destruct Hil as [<-|Hil].
    - right. destruct Hi as [H1 H2]. destruct Hw as [Hw|Hw]; [destruct (H1 w Hw) as [[? Y]|[? Y]]|destruct (H2 w Hw) as [? Y]]; congruence.
    - apply repeat_spec in Hil. subst i. destruct Hb as (H1 & H2 & _).
      destruct Hw as [Hw|Hw]; [destruct (H1 w Hw) as [->|[[? Y]|[? Y]]]; auto; right; congruence|].
      right. destruct (H2 w Hw) as [? Y]; congruence. }
  assert (Q2 : query_ok st2 tc e) by (eapply tidy_ext; eauto).
  assert (Hxe : x <> e) by (intros ->; destruct Hx as [[? Y]|[? Y]]; congruence).
  assert (Hx2 : is_val st2 x).
  { destruct Hx as [[y Y]|[y Y]]; [left|right]; exists y; rewrite (proj2 X2); auto. }
  destruct (reached_answer h2 st2 tc (CEval e) pad R2 Q2) as (o3 & h3 & E3 & (y & -> & A3) & R3).
  cbn [uafter] in R3.
  assert (Q3 : query_ok st2 (touch st2 (CEval e) tc) e).
  { apply query_touched; auto. reflexivity. }
  destruct (reached_answer h3 st2 _ (CDevalF e x) pad R3 (conj Q3 Hx2)) as (o4 & h4 & E4 & (d & -> & A4) & R4).
  destruct (all_values_exist st tc Ty) as (W & V).
  destruct (all_derivs_exist st tc W x Ty) as (D & HD).
  exists e, h4, W, D. split; auto. split; auto. split; auto. cbv zeta.
  set (value := fun y => n1 * tsem (at_ e y W) (body e)).
  set (deriv := fun y d => n1 * tdsem (at_ e y W) (at_ e d D) (body e)).
  set (result := iter n _ _).
  (* the value of e in the final store *)
  assert (Oth : forall v w, v <> e -> udep st2 v w -> udep st v w /\ w <> e).
  { intros v w Hv (l' & i & El & Rl). rewrite (proj2 X2) in El by auto.
    assert (Dd : udep st v w) by (exists l', i; auto). split; auto.
    intros ->. now apply (nothing_refers h st tc v e I Dd). }
  assert (Ustep2 : forall (F : nat -> T) v, v <> e -> ustep st2 (at_ e (fst result) W) v = ustep st W v).
  { intros _ v Hv. transitivity (ustep st2 W v).
    - apply ustep_ext. intros w Hw _. destruct (Oth v w Hv Hw) as [_ Hwe]. now apply at_other.
    - unfold ustep. now rewrite (proj2 X2). }
  assert (V2 : uvalues st2 e (at_ e (fst result) W)).
  { intros v _. destruct (Nat.eq_dec v e) as [->|Hv].
    - rewrite at_same, (proj1 X2). unfold l. cbn [app fold_left].
      rewrite fold_repeat.
      assert (Hq : fst result = iter n value (n1 * tsem W init)) by (unfold result; now rewrite iter_fst).
      rewrite Hq at 1.
      transitivity (iter n (fun a => isem (at_ e a (at_ e (fst result) W)) (ITerm (body e))) (n1 * tsem W init)).
      + apply iter_ext. intros a. unfold value. cbn [isem]. f_equal. apply tsem_ext. intros w _. symmetry. apply at_at.
      + cbn [isem]. do 2 f_equal. apply tsem_ext. intros w Hw. rewrite at_at, at_other; auto.
    - rewrite at_other by auto. change (W v = ustep st2 (at_ e (fst result) W) v).
      rewrite Ustep2 by auto. exact (V v v (ureach_refl _ _)). }
  assert (D2 : uderivs st2 e (at_ e (fst result) W) x (at_ e (snd result) D)).
  { intros v _. destruct (Nat.eq_dec v e) as [->|Hv].
    - rewrite at_same, (proj1 X2). destruct (Nat.eqb_spec e x) as [|_]; [congruence|]. f_equal.
      unfold l. cbn [app fold_left]. rewrite fold_repeat. cbn [fst snd].
      assert (Dx : D x = n1). { rewrite (HD x x) by constructor. now rewrite Nat.eqb_refl. }
      assert (Din : forall d w, In w (trefs (body e)) \/ In w (trefs init) ->
         at_ x n1 (at_ e d (at_ e (snd result) D)) w = at_ e d D w).
      { intros d0 w _. unfold at_ at 1. destruct (Nat.eqb_spec w x) as [->|Hwx].
        - rewrite at_other by auto. auto.
        - apply at_at. }
      transitivity (iter n (fun p => (value (fst p), deriv (fst p) (snd p)))
         (isem (at_ e n0 (at_ e (fst result) W)) (ITerm init),
          idsem (at_ e n0 (at_ e (fst result) W)) (at_ x n1 (at_ e n0 (at_ e (snd result) D))) (ITerm init))).
      + unfold result at 1. f_equal. cbn [isem idsem]. f_equal; f_equal.
        * apply tsem_ext. intros w Hw. rewrite at_at, at_other; auto.
        * apply tdsem_ext.
          -- intros w Hw. rewrite at_at, at_other; auto.
          -- intros w Hw. rewrite Din by auto. rewrite at_other; auto.
      + apply iter_ext. intros p. cbn [isem idsem]. unfold value, deriv. f_equal; f_equal.
        * apply tsem_ext. intros w _. symmetry. apply at_at.
        * apply tdsem_ext.
          -- intros w _. symmetry. apply at_at.
          -- intros w Hw. symmetry. apply Din. auto.
    - rewrite at_other by auto.
      change (D v = udstep st2 (at_ e (fst result) W) x (at_ e (snd result) D) v).
      rewrite (HD v v) by constructor. change (udstep st W x D v = udstep st2 (at_ e (fst result) W) x (at_ e (snd result) D) v).
      transitivity (udstep st2 W x D v).
      + unfold udstep. now rewrite (proj2 X2).
      + symmetry. apply udstep_ext; intros w Hw _; destruct (Oth v w Hv Hw) as [_ Hwe]; now apply at_other. }
  specialize (A3 _ V2). specialize (A4 _ _ V2 D2). rewrite at_same in A3, A4. subst y d.
  unfold loop_prog. cbn [exec]. rewrite E1.
  rewrite (exec_line_app pad (repeat (CAssign e (body e)) n) [CEval e; CDevalF e x] h1 _ h2
            [ONums [fst result]; ONums [snd result]] h4 E2); [reflexivity|].
  cbn [line exec]. now rewrite E3, E4.
Qed.

(** With exact arithmetic the factors 1 disappear; the textbook example x^(n+1). *)
Definition npown (x : T) (n : nat) : T := iter n (fun y => y * x) n1.
Section Ring.
Hypothesis L : NumLaws N.
Add Ring Tring2 : (law_ring N L).
Theorem power_loop pad h st tc x c n : reached h st tc -> tidy st tc -> st x = Some (OVar c) ->
  exists e h' d, exec pad (loop_prog (TRef x) (fun e => TBin BProd (TRef e) (TRef x)) n (fun e => [CEval e; CDevalF e x])) h =
    Some (OHandle e :: repeat ONone n ++ [ONums [npown c (S n)]; ONums [d]], h') /\
    d = iter (S n) (nadd (npown c n)) n0.
Proof.
  intros R Ty Hx.
  destruct (iteration pad h st tc (TRef x) (fun e => TBin BProd (TRef e) (TRef x)) n x) as (e & h' & W & D & He & V & HD & E); auto.
  - split; [intros v [<-|[]]; left; exists c; auto|intros p []].
  - intros e He. split; [|split].
    + intros v [<-|[<-|[]]]; auto. right. left. exists c; auto.
    + intros p [].
    + unfold mentions. simpl. now rewrite Nat.eqb_refl.
  - left. exists c; auto.
  - cbv zeta in E. exists e, h'.
    assert (Hxe : x <> e) by congruence.
    assert (Wx : W x = c). { rewrite (V x x) by constructor. now rewrite Hx. }
    assert (Dx : D x = n1). { rewrite (HD x x) by constructor. now rewrite Nat.eqb_refl. }
    set (F := fun p : T * T => _) in E.
    assert (G : forall k, iter k F (n1 * tsem W (TRef x), n1 * tdsem W D (TRef x)) =
       (npown c (S k), iter (S k) (nadd (npown c k)) n0)).
    { assert (Sm : forall k (a b : T), iter k (nadd (a * b)) n0 = iter k (nadd a) n0 * b).
      { induction k as [|k IH]; intros a b; cbn [iter]; [ring|]. rewrite IH. ring. }
      induction k as [|k IH]; cbn [iter].
      - unfold npown. cbn [tsem tdsem iter]. rewrite Wx, Dx. f_equal; ring.
      - rewrite IH. unfold F. cbn [fst snd tsem tdsem mean2 chain2].
        rewrite !at_same, !at_other, Wx, Dx by auto. f_equal.
        + unfold npown. cbn [iter]. ring.
        + replace (npown c (S k)) with (npown c k * c) by reflexivity. rewrite Sm. cbn [iter]. ring. }
    rewrite G in E. cbn [fst snd] in E. eexists. split; [exact E|reflexivity].
Qed.

End Ring.

(** ** C10: reassignment *)
(** [e = t] gives e the value of t computed with the old values, whether or not t mentions e; only an
    expression that reaches e through another expression is excluded. *)
Theorem assign_ok pad h st tc e t x : reached h st tc -> tidy st tc -> is_exp st e -> term_ok st t ->
  (forall v, In v (trefs t) -> v = e \/ ~ ureach st v e) -> is_val st x -> x <> e ->
  exists h' W D, all_values st W /\ all_derivs st W x D /\
    exec pad (line [CAssign e t; CEval e; CDevalF e x]) h =
      Some ([ONone; ONums [n1 * tsem W t]; ONums [n1 * tdsem W D t]], h').
Proof.
  intros R Ty He Ht Hr Hx Hxe. assert (I := reached_inv _ _ _ R).
  destruct (reached_answer h st tc (CAssign e t) pad R (conj He Ht)) as (o & h1 & E1 & A1 & R1).
  simpl in A1. subst o. destruct He as [l0 El]. cbn [uafter] in R1. rewrite El in R1.
  change (touch st (CAssign e t) tc) with tc in R1.
  set (pre := if mentions e t then l0 else []).
  assert (El2 : (if mentions e t then l0 ++ [ITerm t] else [ITerm t]) = pre ++ [ITerm t]).
  { unfold pre. now destruct (mentions e t). }
  rewrite El2 in R1. clear El2.
  set (st2 := put st e (OExp (pre ++ [ITerm t]))) in *.
  assert (X1 : st2 e = Some (OExp (pre ++ [ITerm t]))) by apply put_same.
  assert (X2 : forall v, v <> e -> st2 v = st v) by (intros; now apply put_other).
  destruct Ty as [(k & Rk) Qk].
  set (B := fun w => w <> e /\ forall z, ureach st w z -> z <> e).
  assert (Kr : forall v w, ureach st v w -> k w <= k v).
  { intros v w H. induction H as [|a b Ha IH Hd]; auto. destruct (Rk a b Hd) as [->|]; lia. }
  assert (Tt : forall w, In w (trefs t) \/ In w (tpars t) -> w = e \/ B w).
  { intros w Hw. destruct (Nat.eq_dec w e) as [|Hwe]; auto. right. split; auto.
    intros z Hz ->. destruct Hw as [Hw|Hw].
    - destruct (Hr w Hw) as [|Hn]; contradiction.
    - destruct (proj2 Ht w Hw) as [c Ec]. clear - Hz Ec El.
      assert (Y : forall z, ureach st w z -> z = w).
      { intros z0 H0. induction H0 as [|a b Hab IH Hd]; auto. subst a. destruct Hd as (l & i & E & _). congruence. }
      rewrite (Y e Hz) in El. congruence. }
  assert (Tm : forall i w, In i (pre ++ [ITerm t]) -> In w (irefs i) \/ In w (ipars i) -> w = e \/ B w).
  { intros i w Hi Hw. apply in_app_or in Hi. destruct Hi as [Hi|[<-|[]]]; [|now apply Tt].
    assert (D : udep st e w). { exists l0, i. split; auto. split; auto. unfold pre in Hi. destruct (mentions e t); auto; destruct Hi. }
    destruct (Rk e w D) as [|Lt]; auto. right. split; [intros ->; lia|]. intros z Hz ->. pose proof (Kr w e Hz). lia. }
  assert (Dp : forall v w, B v -> udep st2 v w -> udep st v w /\ B w).
  { intros v w [Hv Hb] (l & i & E & Hl). rewrite X2 in E by auto.
    assert (D : udep st v w) by (exists l, i; auto). split; auto.
    assert (RR1 : ureach st v w) by (econstructor; [constructor|exact D]).
    split; [now apply Hb|]. intros z Hz. apply Hb. eapply ureach_trans; eauto. }
  assert (Below : forall v, ureach st2 e v -> v = e \/ B v).
  { intros v Hv. induction Hv as [|a b Ha IH Hd]; auto. destruct IH as [->|IH].
    - destruct Hd as (l & i & E & Hin & Hw). rewrite X1 in E. injection E as <-. eauto.
    - right. exact (proj2 (Dp a b IH Hd)). }
  assert (S2 : ustrat st2 e).
  { set (ws := flat_map (fun i => irefs i ++ ipars i) (pre ++ [ITerm t])).
    exists (fun v => if Nat.eqb v e then S (list_max (map k ws)) else k v).
    intros v w Hv Hd. destruct (Below v Hv) as [->|Hb].
    - rewrite Nat.eqb_refl. destruct Hd as (l & i & E & Hin & Hw). rewrite X1 in E. injection E as <-.
      destruct (Nat.eqb_spec w e); auto. right.
      assert (F := proj1 (list_max_le (map k ws) (list_max (map k ws))) (le_n _)).
      rewrite Forall_forall in F. specialize (F (k w)). apply Nat.lt_succ_r. apply F. apply in_map. unfold ws.
      apply in_flat_map. exists i. split; auto. rewrite in_app_iff. auto.
    - destruct (Dp v w Hb Hd) as [D [Hwe _]]. destruct Hb as [Hve _].
      destruct (Nat.eqb_spec v e); [contradiction|]. destruct (Nat.eqb_spec w e); [contradiction|]. auto. }
  assert (Q2 : query_ok st2 tc e).
  { split; [exists (pre ++ [ITerm t]); auto|]. split; auto. intros v w Hv Hne [lv Ev] Htc Hd [lw Ew].
    destruct (Below v Hv) as [->|Hb]; [contradiction|]. destruct (Dp v w Hb Hd) as [D [Hwe _]].
    rewrite X2 in Ev, Ew by auto. eapply Qk; eauto; eexists; eauto. }
  assert (Hx2 : is_val st2 x).
  { destruct Hx as [[y Y]|[y Y]]; [left|right]; exists y; rewrite X2; auto. }
  destruct (reached_answer h1 st2 tc (CEval e) pad R1 Q2) as (o3 & h3 & E3 & (y & -> & A3) & R3).
  cbn [uafter] in R3.
  assert (Q3 : query_ok st2 (touch st2 (CEval e) tc) e).
  { apply query_touched; auto. reflexivity. }
  destruct (reached_answer h3 st2 _ (CDevalF e x) pad R3 (conj Q3 Hx2)) as (o4 & h4 & E4 & (d & -> & A4) & R4).
  assert (Ty : tidy st tc) by (split; [exists k; auto|auto]).
  destruct (all_values_exist st tc Ty) as (W & V).
  destruct (all_derivs_exist st tc W x Ty) as (D & HD).
  exists h4, W, D. split; auto. split; auto.
  assert (Dx : D x = n1). { rewrite (HD x x) by constructor. now rewrite Nat.eqb_refl. }
  set (y2 := n1 * tsem W t). set (d2 := n1 * tdsem W D t).
  (* executing the kept assignments gives the old value and derivative *)
  set (step2 := fun (p : T * T) (i : item) => (isem (at_ e (fst p) (at_ e y2 W)) i,
        idsem (at_ e (fst p) (at_ e y2 W)) (at_ x n1 (at_ e (snd p) (at_ e d2 D))) i)).
  set (step1 := fun (p : T * T) (i : item) => (isem (at_ e (fst p) W) i,
        idsem (at_ e (fst p) W) (at_ x n1 (at_ e (snd p) D)) i)).
  assert (S12 : forall p i, step2 p i = step1 p i).
  { intros p i. unfold step1, step2. f_equal.
    - apply isem_ext. intros w _. apply at_at.
    - apply idsem_ext; intros w _; [apply at_at|].
      destruct (Nat.eq_dec w x) as [->|Hwx]; [now rewrite !at_same|]. rewrite !(at_other x) by auto. apply at_at. }
  assert (F12 : forall l p, fold_left step2 l p = fold_left step1 l p).
  { intros l p. apply fold_ext. intros; apply S12. }
  assert (Ffst : forall l p, fold_left (fun cur i => isem (at_ e cur (at_ e y2 W)) i) l (fst p) = fst (fold_left step2 l p)).
  { induction l as [|i l IH]; intros p; auto. cbn [fold_left]. exact (IH (step2 p i)). }
  assert (Old : mentions e t = true -> fold_left step1 l0 (n0, n0) = (W e, D e)).
  { intros _. rewrite (surjective_pairing (fold_left step1 l0 (n0, n0))). f_equal.
    - rewrite (V e e) by constructor. rewrite El.
      assert (G : forall l p, fst (fold_left step1 l p) = fold_left (fun cur i => isem (at_ e cur W) i) l (fst p)).
      { induction l as [|i l IH]; intros p; auto. cbn [fold_left]. rewrite IH. reflexivity. }
      now rewrite G.
    - rewrite (HD e e) by constructor. rewrite El. destruct (Nat.eqb_spec e x); [congruence|]. reflexivity. }
  assert (Fin : fold_left step1 (pre ++ [ITerm t]) (n0, n0) = (y2, d2)).
  { rewrite fold_left_app. cbn [fold_left]. unfold step1 at 1, pre.
    destruct (mentions e t) eqn:M.
    - rewrite Old by auto. cbn [fst snd isem idsem]. unfold y2, d2. f_equal; f_equal.
      + apply tsem_ext. intros w _. unfold at_. destruct (Nat.eqb_spec w e) as [->|]; auto.
      + apply tdsem_ext; intros w _; [unfold at_; destruct (Nat.eqb_spec w e) as [->|]; auto|].
        destruct (Nat.eq_dec w x) as [->|Hwx]; [now rewrite at_same|]. rewrite (at_other x) by auto.
        unfold at_. destruct (Nat.eqb_spec w e) as [->|]; auto.
    - cbn [fold_left fst snd isem idsem].
      assert (Ne : forall w, In w (trefs t) \/ In w (tpars t) -> w <> e).
      { intros w Hw ->. destruct Hw as [Hw|Hw].
        - unfold mentions in M. rewrite <- not_true_iff_false in M. apply M. apply existsb_exists. exists e. split; auto. apply Nat.eqb_refl.
        - destruct (proj2 Ht e Hw) as [c Ec]. congruence. }
      unfold y2, d2. f_equal; f_equal.
      + apply tsem_ext. intros w Hw. rewrite at_other; auto.
      + apply tdsem_ext; intros w Hw; [rewrite at_other; auto|].
        destruct (Nat.eq_dec w x) as [->|Hwx]; [now rewrite at_same|]. rewrite (at_other x), at_other by auto. reflexivity. }
  assert (V2 : uvalues st2 e (at_ e y2 W)).
  { intros v Hv. destruct (Below v Hv) as [->|Hb].
    - rewrite at_same, X1. change (y2 = fold_left (fun cur i => isem (at_ e cur (at_ e y2 W)) i) (pre ++ [ITerm t]) (fst (@n0 T N, @n0 T N))).
      rewrite Ffst, F12, Fin. reflexivity.
    - rewrite at_other by exact (proj1 Hb).
      change (W v = ustep st2 (at_ e y2 W) v).
      rewrite (V v v) by constructor. change (ustep st W v = ustep st2 (at_ e y2 W) v).
      transitivity (ustep st2 W v); [unfold ustep; now rewrite X2 by exact (proj1 Hb)|]. symmetry. apply ustep_ext.
      intros w Hw _. destruct (Dp v w Hb Hw) as [_ [Hwe _]]. now apply at_other. }
  assert (D2 : uderivs st2 e (at_ e y2 W) x (at_ e d2 D)).
  { intros v Hv. destruct (Below v Hv) as [->|Hb].
    - rewrite at_same, X1. destruct (Nat.eqb_spec e x) as [|_]; [congruence|].
      change (d2 = snd (fold_left step2 (pre ++ [ITerm t]) (n0, n0))). now rewrite F12, Fin.
    - rewrite at_other by exact (proj1 Hb).
      change (D v = udstep st2 (at_ e y2 W) x (at_ e d2 D) v).
      rewrite (HD v v) by constructor.
      change (udstep st W x D v = udstep st2 (at_ e y2 W) x (at_ e d2 D) v).
      transitivity (udstep st2 W x D v); [unfold udstep; now rewrite X2 by exact (proj1 Hb)|]. symmetry. apply udstep_ext;
      intros w Hw _; destruct (Dp v w Hb Hw) as [_ [Hwe _]]; now apply at_other. }
  specialize (A3 _ V2). specialize (A4 _ _ V2 D2). rewrite at_same in A3, A4. subst y d.
  cbn [line exec]. now rewrite E1, E3, E4.
Qed.
End More.
