(** * Values and derivatives depend only on the entries of the leaves *)
From Coq Require Import List Arith Bool Lia.
From Verif Require Import Num MatMem Kernels KernelFacts KernelProofs KernelBlocks KernelMore KernelStep Backend Square Sums Determ MatEngine MatGraph MatLeaf MatEval MatDeval MatSpec.
Import ListNotations.
Set Implicit Arguments.
Unset Strict Implicit.

Section Ext.
Context {T : Type} {N : Num T}.
Variable G : graph T.
Variables rho rho' : env T.
Definition same_entries (e : mexp T) : Prop := forall o, reach G e o \/ scalar_in G e o ->
  (forall k, e_val rho o k = e_val rho' o k) /\ (forall k y j, e_der rho o k y j = e_der rho' o k y j).
Lemma scalar_bin k id l r s : scalar_in G l s \/ scalar_in G r s -> scalar_in G (MBin k id l r) s.
Proof.
  intros [[H|(o & i & a & y & Ho & Hk & H)]|[H|(o & i & a & y & Ho & Hk & H)]].
  - left. simpl. apply in_or_app. auto.
  - right. exists o, i, a, y. split; [|auto]. clear - Ho. induction Ho; [apply reach_leaf; simpl; apply in_or_app; auto|eapply reach_item; eauto].
  - left. simpl. apply in_or_app. auto.
  - right. exists o, i, a, y. split; [|auto]. clear - Ho. induction Ho; [apply reach_leaf; simpl; apply in_or_app; auto|eapply reach_item; eauto].
Qed.
Lemma scalar_un k id e s : scalar_in G e s -> scalar_in G (MUn k id e) s.
Proof.
  intros [H|(o & i & a & y & Ho & Hk & H)].
  - left. simpl. apply in_or_app. auto.
  - right. exists o, i, a, y. split; [|auto]. clear - Ho. induction Ho; [apply reach_leaf; simpl; auto|eapply reach_item; eauto].
Qed.
Lemma scalar_item o id a y s : g_kind G o = KExp id a y -> scalar_in G a s -> scalar_in G (MLeaf o) s.
Proof.
  intros Hk [H|(o' & i & b & y' & Ho & Hk' & H)]; right.
  - exists o, id, a, y. split; [apply reach_leaf; simpl; auto|auto].
  - exists o', i, b, y'. split; [|auto]. eapply reach_trans; [apply reach_leaf; simpl; auto|exact Hk|].
    clear - Ho. induction Ho; [apply reach_leaf; simpl; apply in_or_app; auto|eapply reach_item; eauto].
Qed.
Lemma same_bin k id l r : same_entries (MBin k id l r) -> same_entries l /\ same_entries r.
Proof.
  intros H. split; intros o [Ho|Ho]; apply H; [left|right; apply scalar_bin; auto|left|right; apply scalar_bin; auto];
    induction Ho; first [solve [apply reach_leaf; simpl; apply in_or_app; auto] | solve [eapply reach_item; eauto]].
Qed.
Lemma same_un k id a : same_entries (MUn k id a) -> same_entries a.
Proof. intros H o [Ho|Ho]; apply H; [left|right; now apply scalar_un]; induction Ho; first [solve [apply reach_leaf; simpl; auto] | solve [eapply reach_item; eauto]]. Qed.
Lemma same_exp o id a y : g_kind G o = KExp id a y -> same_entries (MLeaf o) -> same_entries a.
Proof.
  intros Hk H o' [Ho|Ho]; apply H; [left|right; eapply scalar_item; eauto]. eapply reach_trans; [apply reach_leaf; simpl; auto|exact Hk|].
  clear - Ho. induction Ho; [apply reach_leaf; simpl; apply in_or_app; auto|eapply reach_item; eauto].
Qed.
Lemma row_major_ext n (F F' : nat -> nat -> T) : (forall i j, F i j = F' i j) -> row_major n F = row_major n F'.
Proof. intros H. unfold row_major. apply map_ext. intros k. apply H. Qed.
Lemma inverse_ext_all g n (F F' : nat -> nat -> T) : (forall i j, F i j = F' i j) -> forall i j, inverse g n F i j = inverse g n F' i j.
Proof. intros H i j. unfold inverse. now rewrite (row_major_ext n H). Qed.

Lemma den_ext e F : den G rho e F -> same_entries e -> exists F', den G rho' e F' /\ forall i j, F i j = F' i j.
Proof.
  induction 1 as [o E|o E1 E2|o id e y F Hk H IH|id l r F F' H1 IH1 H2 IH2|id l r F F' H1 IH1 H2 IH2|id l r F F' H1 IH1 H2 IH2|id l r F F' H1 IH1 H2 IH2|id e F H IH|c id e F H IH|c id e F H IH|f f' id e F H IH|s vs id e F H IH|s vs id e F H IH|g id e F H IH|g d id e F H IH]; intros Hs.
  - eexists. split; [now apply den_eye|reflexivity].
  - eexists. split; [now apply den_leaf|]. intros i j. apply Hs. left. apply reach_leaf. simpl. auto.
  - destruct (IH (same_exp Hk Hs)) as (F' & HF & E). exists F'. split; [eapply den_exp; eauto|exact E].
  - destruct (same_bin Hs) as [Sl Sr]. destruct (IH1 Sl) as (A & HA & EA). destruct (IH2 Sr) as (C & HC & EC).
    eexists. split; [eapply den_sum; eauto|]. intros i j. cbv beta. now rewrite EA, EC.
  - destruct (same_bin Hs) as [Sl Sr]. destruct (IH1 Sl) as (A & HA & EA). destruct (IH2 Sr) as (C & HC & EC).
    eexists. split; [eapply den_sub; eauto|]. intros i j. cbv beta. now rewrite EA, EC.
  - destruct (same_bin Hs) as [Sl Sr]. destruct (IH1 Sl) as (A & HA & EA). destruct (IH2 Sr) as (C & HC & EC).
    eexists. split; [eapply den_had; eauto|]. intros i j. cbv beta. now rewrite EA, EC.
  - destruct (same_bin Hs) as [Sl Sr]. destruct (IH1 Sl) as (A & HA & EA). destruct (IH2 Sr) as (C & HC & EC).
    eexists. split; [eapply den_prod; eauto|]. intros i j. apply sum_n_ext. intros k _. now rewrite EA, EC.
  - destruct (IH (same_un Hs)) as (A & HA & EA). eexists. split; [eapply den_tr; eauto|]. intros i j. apply EA.
  - destruct (IH (same_un Hs)) as (A & HA & EA). eexists. split; [eapply den_sprod; eauto|]. intros i j. cbv beta. now rewrite EA.
  - destruct (IH (same_un Hs)) as (A & HA & EA). eexists. split; [eapply den_ssum; eauto|]. intros i j. cbv beta. now rewrite EA.
  - destruct (IH (same_un Hs)) as (A & HA & EA). eexists. split; [eapply den_fun; eauto|]. intros i j. cbv beta. now rewrite EA.
  - destruct (IH (same_un Hs)) as (A & HA & EA). destruct (Hs s) as [Ev _]; [right; left; simpl; auto|]. eexists. split; [eapply den_sprode; eauto|]. intros i j. cbv beta. now rewrite EA, Ev.
  - destruct (IH (same_un Hs)) as (A & HA & EA). destruct (Hs s) as [Ev _]; [right; left; simpl; auto|]. eexists. split; [eapply den_ssume; eauto|]. intros i j. cbv beta. now rewrite EA, Ev.
  - destruct (IH (same_un Hs)) as (A & HA & EA). eexists. split; [eapply den_inv; eauto|]. now apply inverse_ext_all.
  - destruct (IH (same_un Hs)) as (A & HA & EA). eexists. split; [eapply den_determinant; eauto|]. intros i j. cbv beta. now rewrite (row_major_ext _ EA).
Qed.
Variable x : obj.
Lemma dif_ext e F D : dif G rho x e F D -> same_entries e ->
  exists F' D', dif G rho' x e F' D' /\ (forall i j, F i j = F' i j) /\ (forall l k i j, D l k i j = D' l k i j).
Proof.
  induction 1 as [o F Hc HF|o F Hk HF|o F Hk HF|o id e y F D Hk HD IH|id l r F D F' D' HDl IHl HDr IHr|id l r F D F' D' HDl IHl HDr IHr
    |id l r F D F' D' HDl IHl HDr IHr|id l r F D F' D' HDl IHl HDr IHr|id e F D HD IH|c id e F D HD IH|c id e F D HD IH|f f' id e F D HD IH|s vs id e F D HD IH|s vs id e F D HD IH|g id e F D HD IH|g d id e F D HD IH]; intros Hs.
  - destruct (den_ext HF Hs) as (F' & HF' & E). do 2 eexists. split; [eapply dif_const; eauto|]. auto.
  - destruct (den_ext HF Hs) as (F' & HF' & E). do 2 eexists. split; [eapply dif_var; eauto|]. auto.
  - destruct (den_ext HF Hs) as (F' & HF' & E). do 2 eexists. split; [eapply dif_ent; eauto|]. split; [exact E|]. intros l k i j. apply Hs. left. apply reach_leaf. simpl. auto.
  - destruct (IH (same_exp Hk Hs)) as (F' & D' & HF & E1 & E2). exists F', D'. split; [eapply dif_exp; eauto|auto].
  - destruct (same_bin Hs) as [Sl Sr]. destruct (IHl Sl) as (A & DA & HA & EA & EDA). destruct (IHr Sr) as (C & DC & HC & EC & EDC).
    do 2 eexists. split; [eapply dif_sum; eauto|]. split; intros; cbv beta; [now rewrite EA, EC|now rewrite EDA, EDC].
  - destruct (same_bin Hs) as [Sl Sr]. destruct (IHl Sl) as (A & DA & HA & EA & EDA). destruct (IHr Sr) as (C & DC & HC & EC & EDC).
    do 2 eexists. split; [eapply dif_sub; eauto|]. split; intros; cbv beta; [now rewrite EA, EC|now rewrite EDA, EDC].
  - destruct (same_bin Hs) as [Sl Sr]. destruct (IHl Sl) as (A & DA & HA & EA & EDA). destruct (IHr Sr) as (C & DC & HC & EC & EDC).
    do 2 eexists. split; [eapply dif_had; eauto|]. split; intros; cbv beta; [now rewrite EA, EC|now rewrite EDA, EDC, EA, EC].
  - destruct (same_bin Hs) as [Sl Sr]. destruct (IHl Sl) as (A & DA & HA & EA & EDA). destruct (IHr Sr) as (C & DC & HC & EC & EDC).
    do 2 eexists. split; [eapply dif_prod; eauto|]. split; intros; apply sum_n_ext; intros b _; [now rewrite EA, EC|now rewrite EDA, EDC, EA, EC].
  - destruct (IH (same_un Hs)) as (A & DA & HA & EA & EDA). do 2 eexists. split; [eapply dif_tr; eauto|]. auto.
  - destruct (IH (same_un Hs)) as (A & DA & HA & EA & EDA). do 2 eexists. split; [eapply dif_sprod; eauto|]. split; intros; cbv beta; [now rewrite EA|now rewrite EDA].
  - destruct (IH (same_un Hs)) as (A & DA & HA & EA & EDA). do 2 eexists. split; [eapply dif_ssum; eauto|]. split; intros; cbv beta; [now rewrite EA|now rewrite EDA].
  - destruct (IH (same_un Hs)) as (A & DA & HA & EA & EDA). do 2 eexists. split; [eapply dif_fun; eauto|]. split; intros; cbv beta; [now rewrite EA|now rewrite EDA, EA].
  - destruct (IH (same_un Hs)) as (A & DA & HA & EA & EDA). destruct (Hs s) as [Ev Ed]; [right; left; simpl; auto|]. do 2 eexists. split; [eapply dif_sprode; eauto|]. split; intros; cbv beta; [now rewrite EA, Ev|now rewrite EDA, EA, Ev, Ed].
  - destruct (IH (same_un Hs)) as (A & DA & HA & EA & EDA). destruct (Hs s) as [Ev Ed]; [right; left; simpl; auto|]. do 2 eexists. split; [eapply dif_ssume; eauto|]. split; intros; cbv beta; [now rewrite EA, Ev|now rewrite EDA, Ed].
  - destruct (IH (same_un Hs)) as (A & DA & HA & EA & EDA). do 2 eexists. split; [eapply dif_inv; eauto|]. split; [now apply inverse_ext_all|].
    intros l k i j. f_equal. apply sum_n_ext. intros b _. f_equal; [|now apply inverse_ext_all].
    apply sum_n_ext. intros q _. f_equal; [now apply inverse_ext_all|apply EDA].
  - destruct (IH (same_un Hs)) as (A & DA & HA & EA & EDA). do 2 eexists. split; [eapply dif_determinant; eauto|].
    split; intros; cbv beta; [now rewrite (row_major_ext _ EA)|].
    apply sum_n_ext. intros b _. apply sum_n_ext. intros q _. f_equal; [|apply EDA]. f_equal; [now rewrite (row_major_ext _ EA)|now apply inverse_ext_all].
Qed.
End Ext.
