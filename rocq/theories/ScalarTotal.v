(** * Every client program returns (C02)

    Like [well_behaved], but with no restriction on recursion or on histories: commands only
    have to name existing objects of the right kind.  Expressions may refer to each other in cycles. *)

From Coq Require Import List Arith Bool Lia.
From Verif Require Import Num ScalarModel ScalarSpec ScalarReset ScalarEval ScalarRev ScalarTerm ScalarApi
  ScalarHist ScalarUser ScalarBuild ScalarFacts.
Import ListNotations.

Section Total.
Context {T : Type} {N : Num T}.
Notation term := (term (T := T)). Notation item := (item (T := T)). Notation store := (store (T := T)).
Notation cmd := (cmd (T := T)). Notation heap := (heap T). Notation prog := (prog (T := T)). Notation op := (op T).

Definition typed (st : store) (c : cmd) : Prop :=
  match c with
  | CVar _ | CPar _ | CEmpty => True
  | CExpr t => term_ok st t
  | CCopy e => is_exp st e
  | CAssign e t => is_exp st e /\ term_ok st t
  | CAssignE e e' => is_exp st e /\ is_exp st e'
  | CSet v _ => is_var st v
  | CSetPar p _ => is_par st p
  | CEval r => is_exp st r
  | CDevalF r x => is_exp st r /\ (is_var st x \/ is_exp st x)
  | CGrad r xs => is_exp st r /\ forall x, In x xs -> is_var st x \/ is_exp st x
  end.
(** The form of the result, without its correctness. *)
Definition shaped (st : store) (c : cmd) (o : out (T := T)) : Prop :=
  match c with
  | CVar _ | CPar _ | CEmpty | CExpr _ | CCopy _ => exists v, o = OHandle v /\ st v = None
  | CAssign _ _ | CAssignE _ _ | CSet _ _ | CSetPar _ _ => o = ONone
  | CEval _ | CDevalF _ _ => exists y, o = ONums [y]
  | CGrad _ xs => exists ys, o = ONums ys /\ length ys = length xs
  end.
Fixpoint well_typed (st : store) (p : prog) : Prop :=
  match p with
  | Done => True
  | Do c k => typed st c /\ forall o, shaped st c o -> well_typed (uafter st c o) (k o)
  end.
Fixpoint prog_shaped (st : store) (p : prog) (os : list (out (T := T))) : Prop :=
  match p, os with
  | Done, [] => True
  | Do c k, o :: os' => shaped st c o /\ prog_shaped (uafter st c o) (k o) os'
  | _, _ => False
  end.

Record TInv (h : heap) (st : store) : Prop := {
  t_leaf : forall v o w, In o (c_items (cells h v)) -> In w (leaves o) -> w < next h;
  t_memo : no_symbolic h;
  t_dom : forall v, st v <> None -> v < next h;
  t_par : forall p, is_par st p -> S p < next h;
  t_two : 2 <= next h
}.
Lemma t_bounded h st : TInv h st -> bounded (next h) h.
Proof.
  intros I. constructor; [exact (t_leaf _ _ I)|].
  exists (fun _ => 0). split; [intros; lia|]. split; intros id; rewrite (t_memo _ _ I id); simpl; [discriminate|contradiction].
Qed.

(** A call on any root returns and leaves the graph as it was. *)
Lemma Eval_term h st r pad : TInv h st -> r < next h ->
  exists y h', Eval (fuel_for pad h) r h = Some (y, h') /\ same_graph h h'.
Proof.
  intros I Hr. unfold Eval, fuel_for.
  destruct (reset_impl_ok (next h) r h (depth (next h) + pad) (t_bounded _ _ I)) as (h1 & E1 & G1 & _); [lia|].
  rewrite E1.
  assert (C : closed (next h) (fun w => w < next h) h1).
  { split; auto. intros v o w _ Ho Hw. destruct G1 as (_ & G & _). rewrite G in Ho. exact (t_leaf _ _ I v o w Ho Hw). }
  destruct (eval_var_term (next h) (fun w => w < next h) (depth (next h) + pad) r h1 Hr C) as (y & h2 & E2 & P & _).
  { pose proof (cu_bound (next h) h1). unfold depth. nia. }
  exists y, h2. split; auto. eapply same_graph_trans; [exact G1|exact (p_graph _ _ _ P)].
Qed.
Lemma DevalF_term h st r x pad : TInv h st -> r < next h ->
  exists y h', DevalF (fuel_for pad h) r x h = Some (y, h') /\ same_graph h h'.
Proof.
  intros I Hr. unfold DevalF, fuel_for.
  destruct (reset_impl_ok (next h) r h (depth (next h) + pad) (t_bounded _ _ I)) as (h1 & E1 & G1 & _); [lia|].
  rewrite E1.
  assert (C : closed (next h) (fun w => w < next h) h1).
  { split; auto. intros v o w _ Ho Hw. destruct G1 as (_ & G & _). rewrite G in Ho. exact (t_leaf _ _ I v o w Ho Hw). }
  destruct (devalF_var_term (next h) (fun w => w < next h) x (depth (next h) + pad) r h1 Hr C) as (y & h2 & E2 & P & _).
  { pose proof (cu_bound (next h) h1). unfold depth. nia. }
  exists y, h2. split; auto. eapply same_graph_trans; [exact G1|exact (p_graph _ _ _ P)].
Qed.
Lemma PreComp_term h st r pad : TInv h st -> r < next h ->
  exists h', PreComp (fuel_for pad h) r h = Some h' /\ same_graph h h'.
Proof.
  intros I Hr. unfold PreComp, fuel_for.
  destruct (reset_impl_ok (next h) r h (depth (next h) + pad) (t_bounded _ _ I)) as (h1 & E1 & G1 & _); [lia|].
  rewrite E1.
  assert (C : closed (next h) (fun w => w < next h) h1).
  { split; auto. intros v o w _ Ho Hw. destruct G1 as (_ & G & _). rewrite G in Ho. exact (t_leaf _ _ I v o w Ho Hw). }
  destruct (trav_var_term (next h) (fun w => w < next h) (depth (next h) + pad) r h1 Hr C) as (h2 & E2 & P & _).
  { pose proof (cu_bound (next h) h1). unfold depth. nia. }
  exists h2. split; auto. eapply same_graph_trans; [exact G1|exact (p_graph _ _ _ P)].
Qed.
Lemma reads_graph r xs : forall h : heap, same_graph h (snd (reads r xs h)).
Proof.
  induction xs as [|x xs IH]; intros h; [apply same_graph_refl|]. cbn [reads]. unfold DevalR.
  set (h1 := modc _ r h). specialize (IH h1). destruct (reads r xs h1) as [ds h2]. simpl in *.
  eapply same_graph_trans; [|exact IH]. apply same_graph_mod; reflexivity.
Qed.
Lemma tinv_graph h h' st : TInv h st -> same_graph h h' -> TInv h' st.
Proof.
  intros I (_ & G & M & X). constructor.
  - intros v o w. rewrite G, X. exact (t_leaf _ _ I v o w).
  - intros id. rewrite M. exact (t_memo _ _ I id).
  - rewrite X. exact (t_dom _ _ I).
  - rewrite X. exact (t_par _ _ I).
  - rewrite X. exact (t_two _ _ I).
Qed.
(** One cell replaced, counter advanced, one object added or changed. *)
Lemma tinv_put h st v ob n c u : TInv h st -> next h <= n -> v < n -> (forall x, ob = OPar x -> S v < n) ->
  (forall o w, In o (c_items c) -> In w (leaves o) -> w < n) ->
  TInv (bump n (setc h u c)) (put st v ob).
Proof.
  intros I Hn Hv Hp Hc. constructor.
  - intros w o z. cbn [cells bump next setc]. unfold upd. destruct (Nat.eqb w u); intros Ho Hz; eauto.
    pose proof (t_leaf _ _ I w o z Ho Hz). lia.
  - exact (t_memo _ _ I).
  - intros w Hw. apply put_none in Hw. cbn [next bump]. destruct Hw as [->|Hw]; auto. pose proof (t_dom _ _ I w Hw). lia.
  - intros p [x Hx]. cbn [next bump]. destruct (Nat.eq_dec p v) as [->|Hne].
    + rewrite put_same in Hx. injection Hx as ->. eauto.
    + rewrite put_other in Hx by auto. assert (X := t_par _ _ I p (ex_intro _ x Hx)). lia.
  - cbn [next bump]. pose proof (t_two _ _ I). lia.
Qed.

Lemma term_leaves h st (t : term) (o : op) w : TInv h st -> term_ok st t -> rep o t -> In w (leaves o) -> w < next h.
Proof.
  intros I [H1 H2] R Hw. destruct (rep_leaves o t R w Hw) as [Hv|(p & Hp & ->)].
  - apply (t_dom _ _ I). destruct (H1 w Hv) as [[x E]|[x E]]; congruence.
  - apply (t_par _ _ I). auto.
Qed.

Theorem step_total pad h st c : TInv h st -> typed st c ->
  exists o h', step pad c h = Some (o, h') /\ shaped st c o /\ TInv h' (uafter st c o).
Proof.
  intros I Hl.
  assert (Hfresh : forall k, next h <= k -> st k = None).
  { intros k Hk. destruct (st k) eqn:E; auto. assert (X : st k <> None) by congruence. apply (t_dom _ _ I) in X. lia. }
  assert (He : forall e, is_exp st e -> e < next h).
  { intros e [l E]. apply (t_dom _ _ I). congruence. }
  pose proof (t_two _ _ I) as H2.
  destruct c as [x|x| |t|e|e t|e e'|v x|p x|r|r x|r xs]; cbn [step typed] in *.
  - eexists _, _. split; [reflexivity|]. split; [exists (next h); auto|]. cbn [uafter].
    apply tinv_put; auto; try discriminate; intros o w [].
  - eexists _, _. split; [reflexivity|]. split; [exists (next h); auto|]. cbn [uafter].
    apply tinv_put; auto; intros o w [].
  - unfold new_exp. eexists _, _. split; [reflexivity|]. split; [exists (S (next h)); auto|]. cbn [uafter].
    apply tinv_put; auto; try discriminate. intros o w [<-|[]] [<-|[]]. lia.
  - destruct (build t (next h)) as [o n1] eqn:Eb.
    pose proof (build_rep t (next h)) as [B1 B2]. rewrite Eb in B1, B2. cbn [fst snd] in *.
    unfold new_exp. destruct (wrap o (S (S n1))) as [l n2] eqn:Ew.
    pose proof (wrap_spec o t (S (S n1)) B2) as Wp. rewrite Ew in Wp.
    eexists _, _. split; [reflexivity|]. split; [exists (S n1); auto|]. cbn [uafter].
    unfold wrap in Ew. destruct (clone o (S (S n1))) as [o' k] eqn:Ec. injection Ew as <- <-.
    assert (R' : rep o' t). { pose proof (clone_rep o t B2 (S (S n1))) as X. now rewrite Ec in X. }
    cbn [snd] in Wp. apply tinv_put; auto; try lia; try discriminate.
    intros z w [<-|[]] Hw. cbn [leaves] in Hw. pose proof (term_leaves h st t o' w I Hl R' Hw). lia.
  - unfold new_exp. eexists _, _. split; [reflexivity|]. split; [exists (S (next h)); auto|]. cbn [uafter].
    apply tinv_put; auto; try discriminate. intros o w [<-|[]] [<-|[]]. specialize (He e Hl). lia.
  - destruct Hl as [Hexp Ht]. destruct (build t (next h)) as [o n1] eqn:Eb.
    pose proof (build_rep t (next h)) as [B1 B2]. rewrite Eb in B1, B2. cbn [fst snd] in *.
    unfold wrap. destruct (clone o n1) as [o' k] eqn:Ec.
    assert (R' : rep o' t). { pose proof (clone_rep o t B2 n1) as X. now rewrite Ec in X. }
    assert (Hk : n1 <= k). { pose proof (clone_ids o n1) as [X _]. now rewrite Ec in X. }
    eexists _, _. split; [reflexivity|]. split; [reflexivity|].
    destruct Hexp as [l0 E0]. cbn [uafter]. rewrite E0. unfold modc.
    assert (He0 := He e (ex_intro _ _ E0)).
    apply tinv_put; auto; try lia; try discriminate. cbn [c_items set_items].
    intros z w Hz Hw. apply in_app_or in Hz. destruct Hz as [Hz|[<-|[]]].
    + destruct (find_me e o); [|destruct Hz]. pose proof (t_leaf _ _ I e z w Hz Hw). lia.
    + cbn [leaves] in Hw. pose proof (term_leaves h st t o' w I Ht R' Hw). lia.
  - destruct Hl as [[l0 E0] Hexp']. eexists _, _. split; [reflexivity|]. split; [reflexivity|].
    cbn [uafter]. rewrite E0. assert (He0 := He e (ex_intro _ _ E0)). specialize (He e' Hexp').
    match goal with |- TInv (modc ?f e h) _ => assert (E : modc f e h = bump (next h) (setc h e (f (cells h e)))) by reflexivity end.
    rewrite E. apply tinv_put; auto; try lia; try discriminate.
    cbn [c_items set_items]. intros z w Hz Hw. apply in_app_or in Hz. destruct Hz as [Hz|[<-|[]]].
    + destruct (Nat.eqb e e'); [|destruct Hz]. exact (t_leaf _ _ I e z w Hz Hw).
    + destruct Hw as [<-|[]]. exact He.
  - eexists _, _. split; [reflexivity|]. split; [reflexivity|]. cbn [uafter]. destruct Hl as [y Hy].
    unfold SetVar. match goal with |- TInv (modc ?f v h) _ => assert (E : modc f v h = bump (next h) (setc h v (f (cells h v)))) by reflexivity end.
    rewrite E. apply tinv_put; auto; try discriminate; [apply (t_dom _ _ I); congruence|intros o w []].
  - eexists _, _. split; [reflexivity|]. split; [reflexivity|]. cbn [uafter].
    assert (Hp := t_par _ _ I p Hl). destruct Hl as [y Hy].
    unfold SetVar. match goal with |- TInv (modc ?f (S p) h) _ => assert (E : modc f (S p) h = bump (next h) (setc h (S p) (f (cells h (S p))))) by reflexivity end.
    rewrite E. apply tinv_put; auto; [apply (t_dom _ _ I); congruence|intros o w []].
  - destruct (Eval_term h st r pad I (He r Hl)) as (y & h' & E & G). rewrite E. exists (ONums [y]), h'.
    split; auto. split; [eexists; reflexivity|]. cbn [uafter]. eapply tinv_graph; eauto.
  - destruct Hl as [Hl Hx]. destruct (DevalF_term h st r x pad I (He r Hl)) as (y & h' & E & G). rewrite E. exists (ONums [y]), h'.
    split; auto. split; [eexists; reflexivity|]. cbn [uafter]. eapply tinv_graph; eauto.
  - destruct Hl as [Hl Hx]. destruct (PreComp_term h st r pad I (He r Hl)) as (h' & E & G). rewrite E.
    pose proof (reads_len r xs h') as Hlen. pose proof (reads_graph r xs h') as G'.
    destruct (reads r xs h') as [ys h2]. exists (ONums ys), h2.
    split; auto. split; [eexists; split; [reflexivity|exact Hlen]|]. cbn [uafter].
    eapply tinv_graph; [eapply tinv_graph|]; eauto.
Qed.
Lemma tinv0 : TInv heap0 store0.
Proof.
  constructor.
  - intros v o w. simpl. destruct (Nat.eqb v 0); intros [].
  - intros id. reflexivity.
  - intros v H. now destruct H.
  - intros p [x H]. discriminate.
  - auto.
Qed.
Theorem exec_total pad p : forall h st, TInv h st -> well_typed st p ->
  exists os h', exec pad p h = Some (os, h') /\ prog_shaped st p os.
Proof.
  induction p as [|c k IH]; intros h st I Hw.
  - exists [], h. simpl. auto.
  - destruct Hw as [Hl Hw]. destruct (step_total pad h st c I Hl) as (o & h1 & E1 & A1 & I1).
    destruct (IH o h1 _ I1 (Hw o A1)) as (os & h2 & E2 & A2).
    exists (o :: os), h2. cbn [exec]. rewrite E1, E2. simpl. auto.
Qed.
End Total.
