(** * Training steps are steps along the calculus gradient *)
From Coq Require Import List Arith Bool Lia Reals Lra.
From Verif Require Import Num NumInst MatMem Kernels KernelFacts KernelProofs KernelBlocks KernelMore KernelStep Backend Square Sums Determ InvCalc MatEngine MatGraph MatLeaf MatEval MatSpec MatCalc Param EnvExt Threads Train TrainSpec TrainOk.
Import ListNotations.
Set Implicit Arguments.
Unset Strict Implicit.
Local Open Scope nat_scope.

Section Calc.
Variable G : graph R.
Variable host : nat -> option obj.
Variable rank : obj -> nat.
Hypothesis WF : wf_graph G host rank.
Variable u : obj.
Hypothesis Hu : g_kind G u = LConst.
Notation G' := (as_var G u).
Notation store := (store (T := R)).
Implicit Types (st : store).

Lemma same_all st st' (H : graph R) (e : mexp R) : (forall o k, st' o k = st o k) -> same_entries H (env_of st) (env_of st') e.
Proof. intros E o _. split; [intros k; symmetry; apply E|reflexivity]. Qed.
Lemma den_all st st' e F : (forall o k, st' o k = st o k) -> den G (env_of st') e F -> exists F', den G (env_of st) e F' /\ forall i j, F i j = F' i j.
Proof. intros E H. apply (den_ext H). apply same_all. intros o k. symmetry. apply E. Qed.
Lemma smooth_turn st st' e : (forall o k, st' o k = st o k) -> smooth G (env_of st) e -> smooth G' (env_of st') e.
Proof.
  intros E. pose proof (or_introl Hu : g_kind G u = LConst \/ g_kind G u = LVar) as Hx.
  assert (E' : forall o k, st o k = st' o k) by (intros; symmetry; apply E).
  induction 1 as [o Ho|o id e y Hk H IH|k id l r H1 IH1 H2 IH2|k id e H IH Hk|f f' id e H IH Hd|g id e F X H IH Hi HF HX|g d id e F X H IH Hi Hm HF HX].
  - apply sm_leaf. now apply as_var_leaf.
  - eapply sm_exp; [apply as_var_kexp; [exact Hx|exact Hk]|exact IH].
  - now apply sm_bin.
  - now apply sm_un.
  - apply sm_fun; [exact IH|]. intros F l k HF Hl Hk. apply (proj1 (as_var_den Hx _ _ _)) in HF. destruct (den_all E HF) as (F' & HF' & Q). rewrite Q.
    destruct (as_var_dims G u e) as [D1 D2]. rewrite D1 in Hl. rewrite D2 in Hk. now apply Hd.
  - destruct (den_all E' HF) as (F' & HF' & Q). destruct (as_var_dims G u e) as [D1 D2].
    eapply sm_inv with (F := F') (X := X); [exact IH|now rewrite D1|now apply as_var_den|]. rewrite D1.
    eapply inverse_ext; [| |exact HX]; intros; [apply Q|reflexivity].
  - destruct (den_all E' HF) as (F' & HF' & Q). destruct (as_var_dims G u e) as [D1 D2].
    eapply sm_det with (F := F') (X := X); [exact IH|now rewrite D1|now rewrite D1|now apply as_var_den|]. rewrite D1.
    eapply inverse_ext; [| |exact HX]; intros; [apply Q|reflexivity].
Qed.
(** D, the derivative of a by u regarded as variables, is the calculus derivative of the value
    of a as a function of one entry of u. *)
Theorem grad_calculus a st F0 D i j : fits G a -> smooth G (env_of st) a -> dif G' (env_of st) u a F0 D -> i < g_rows G u -> j < g_cols G u ->
  exists Ft, (forall t, den G (env_of (put st u (i * g_cols G u + j) t)) a (Ft t)) /\
    forall l k, l < rows G a -> k < cols G a -> derivable_pt_lim (fun t => Ft t l k) (st u (i * g_cols G u + j)) (D l k i j).
Proof.
  intros Hf Hs HD Hi Hj. set (n := i * g_cols G u + j). pose proof (or_introl Hu : g_kind G u = LConst \/ g_kind G u = LVar) as Hx.
  assert (E : forall o k, put st u n (st u n) o k = st o k).
  { intros o k. unfold put. destruct (Nat.eqb_spec o u) as [->|]; [|reflexivity]. destruct (Nat.eqb_spec k n) as [->|]; reflexivity. }
  destruct (dif_ext HD (rho' := env_of (put st u n (st u n)))) as (F1 & D1 & HD1 & _ & ED); [now apply same_all|].
  destruct (@dif_lim G' host rank (as_var_wf Hx WF) u i j (fun t => env_of (put st u n t)) (st u n)) with (e := a) (F := F1) (D := D1) as (Ft & _ & Hd & Hl); auto.
  - constructor; cbn [as_var g_cols g_kind env_of e_val e_der].
    + intros t. fold n. apply put_same.
    + intros t o k _ Q. fold n in Q. unfold put. destruct (Nat.eqb_spec o u) as [->|]; [|reflexivity]. destruct (Nat.eqb_spec k n) as [->|]; [|reflexivity]. destruct Q as [Q|Q]; now elim Q.
    + intros t o k Q. unfold put. destruct (o =? u); [discriminate|reflexivity].
    + intros o k Q. destruct (o =? u) eqn:Eo; [discriminate|]. unfold put. rewrite Eo. cbn [andb]. apply (derivable_pt_lim_const (st o k)).
  - now apply as_var_fits.
  - now apply smooth_turn with (st := st).
  - exists Ft. split; [intros t; apply (proj1 (as_var_den Hx _ _ _)); apply Hd|]. intros l k Bl Bk. rewrite ED.
    destruct (as_var_dims G u a) as [Q1 Q2]. apply Hl; [now rewrite Q1|now rewrite Q2].
Qed.
End Calc.
