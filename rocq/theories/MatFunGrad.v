(** * Gradients by matrices of numbers of what calls of the library's functions build *)
From Coq Require Import List Arith Bool Lia ZArith Reals Lra.
From Verif Require Import Num NumInst MatMem Kernels KernelFacts KernelProofs KernelMore Sums MatEngine MatGraph MatSpec MatCalc MatFunSpec MatFun MatFunOk RevVals Param EnvExt.
Import ListNotations.
Set Implicit Arguments.
Unset Strict Implicit.
Local Open Scope nat_scope.
Notation R := Rdefinitions.R.

(** ** Specification: what is used *)
(** Matrix o occurs in the expression (a power 0 is the unit matrix, whatever the base). *)
Fixpoint mentions (o : nat) (d : fexp) : Prop :=
  match d with
  | XMat o' => o' = o
  | XSum a b | XSub a b | XMul a b | XHad a b | XQuot a b | XConcat _ a b => mentions o a \/ mentions o b
  | XTr a | XScale _ a | XShift _ a | XFun _ _ a | XOver a _ | XBroadcast _ a _ | XSigma _ a | XTrace a | XFrob a | XSoftMax _ a => mentions o a
  | XPow n a | XExp n a | XLog n a => 0 < n /\ mentions o a
  end.
(** Matrix o is none of the matrices the library registers or creates. *)
Definition own (K : lib) (o : nat) : Prop := forall a b,
  o <> l_ones K a b /\ o <> l_zeros K a /\ o <> l_top K a b /\ o <> l_bottom K a b /\ o <> l_left K a b /\ o <> l_right K a b.

(** ** Values depend on the entries only *)
Lemma power_ext n m m' k : (forall i j, m i j = m' i j) -> forall i j, power n m k i j = power n m' k i j.
Proof. intros E. induction k as [|k IH]; intros i j; cbn [power]; [reflexivity|]. apply total_ext. intros a _. now rewrite E, IH. Qed.
Section Ext.
Variables dr dc : nat -> nat.
Variables V V' : nat -> nat -> nat -> R.
Hypothesis E : forall o i j, V o i j = V' o i j.
Lemma fval_ext d : forall i j, fval dr dc V d i j = fval dr dc V' d i j.
Proof.
  induction d as [o|a IHa b IHb|a IHa b IHb|a IHa b IHb|a IHa b IHb|a IHa|c a IHa|c a IHa|u u' a IHa|a IHa b IHb|a IHa c|ax a IHa n|ax a IHa|a IHa|a IHa|ax a IHa b IHb|ax a IHa|n a IHa|n a IHa|n a IHa];
    intros i j; try (cbn [fval]; congruence).
  - cbn [fval]. apply total_ext. intros k _. now rewrite IHa, IHb.
  - destruct ax; cbn [fval]; auto.
  - destruct ax; cbn [fval]; apply total_ext; intros k _; auto. apply total_ext. auto.
  - cbn [fval]. apply total_ext. auto.
  - cbn [fval]. f_equal. apply total_ext. intros k _. apply total_ext. intros l _. now rewrite IHa.
  - destruct ax; cbn [fval]; [destruct (i <? _)|destruct (j <? _)]; auto.
  - destruct ax; cbn [fval]; rewrite IHa; f_equal; apply total_ext; intros k _; try (now rewrite IHa). apply total_ext. intros l _. now rewrite IHa.
  - cbn [fval]. now apply power_ext.
  - cbn [fval]. apply total_ext. intros k _. f_equal. now apply power_ext.
  - cbn [fval]. apply total_ext. intros k _. f_equal. apply power_ext. intros p q. now rewrite IHa.
Qed.
Lemma fok_ext d : fok dr dc V d -> fok dr dc V' d.
Proof.
  induction d as [o|a IHa b IHb|a IHa b IHb|a IHa b IHb|a IHa b IHb|a IHa|c a IHa|c a IHa|u u' a IHa|a IHa b IHb|a IHa c|ax a IHa n|ax a IHa|a IHa|a IHa|ax a IHa b IHb|ax a IHa|n a IHa|n a IHa|n a IHa];
    try destruct ax; cbn [fok]; try tauto.
  intros (A & B & C & D & P). repeat (split; [tauto|]). intros i j Hi Hj. rewrite <- !fval_ext. auto.
Qed.
Lemma fsmooth_ext d : fsmooth dr dc V d -> fsmooth dr dc V' d.
Proof.
  induction d as [o|a IHa b IHb|a IHa b IHb|a IHa b IHb|a IHa b IHb|a IHa|c a IHa|c a IHa|u u' a IHa|a IHa b IHb|a IHa c|ax a IHa n|ax a IHa|a IHa|a IHa|ax a IHa b IHb|ax a IHa|n a IHa|n a IHa|n a IHa];
    cbn [fsmooth]; try tauto.
  - intros (A & P). split; [tauto|]. intros i j Hi Hj. rewrite <- !fval_ext. auto.
  - intros (A & i & j & Hi & Hj & P). split; [tauto|]. exists i, j. rewrite <- fval_ext. auto.
Qed.
End Ext.

(** ** Inverses at smooth points exist *)
Lemma smooth_solvable (G : graph R) rho e : smooth G rho e -> solvable G rho e.
Proof.
  induction 1 as [o Ho|o id e y Hk H IH|k id l r H1 IH1 H2 IH2|k id e H IH Hk|f f' id e H IH Hd|g id e F X H IH Hi HF HX|g d id e F X H IH Hi Hm HF HX]; cbn [solvable]; auto.
  - split; [exact IH|]. destruct k; try exact I; contradiction.
  - split; [exact IH|]. split; [exact Hi|]. intros F' HF'. exists X. now rewrite (den_det HF' HF).
Qed.

(** ** The matrices used are leaves of the expression *)
Section Keep.
Variable G : graph R.
Variable K : lib.
Variables lg dlg sq dsq : R -> R.
Definition gives {A} (P : A -> Prop) (c : build A) : Prop := forall n x n', c n = Some (x, n') -> P x.
Lemma gives_bind {A C} (Q : A -> Prop) (P : C -> Prop) (c : build A) (k : A -> build C) :
  gives Q c -> (forall x, Q x -> gives P (k x)) -> gives P (bbind c k).
Proof. intros Hc Hk n x n' H. unfold bbind in H. destruct (c n) as [[y m]|] eqn:E; [|discriminate]. exact (Hk y (Hc _ _ _ E) _ _ _ H). Qed.
Lemma gives_any {A} (c : build A) : gives (fun _ => True) c.
Proof. intros n x n' _. exact I. Qed.
Lemma clone_keeps e : gives (fun e' => leaves e' = leaves e) (clone e).
Proof.
  induction e as [o|k id l IHl r IHr|k id a IHa]; cbn [clone].
  - intros n x n' H. injection H as <- <-. reflexivity.
  - eapply gives_bind; [exact IHl|]. intros l' El. eapply gives_bind; [exact IHr|]. intros r' Er. eapply gives_bind; [apply gives_any|]. intros i _ n x n' H.
    injection H as <- <-. cbn [leaves]. now rewrite El, Er.
  - eapply gives_bind; [exact IHa|]. intros a' Ea. eapply gives_bind; [apply gives_any|]. intros i _ n x n' H. injection H as <- <-. exact Ea.
Qed.
Variable o : obj.
Definition has (e : mexp R) : Prop := In o (leaves e).
Lemma bin_keeps k l r : has l \/ has r -> gives has (bin k l r).
Proof.
  intros H. unfold bin. eapply gives_bind; [apply clone_keeps|]. intros l' El. eapply gives_bind; [apply clone_keeps|]. intros r' Er.
  eapply gives_bind; [apply gives_any|]. intros i _ n x n' Q. injection Q as <- <-. unfold has. cbn [leaves]. rewrite El, Er. apply in_or_app. exact H.
Qed.
Lemma un_keeps k e : has e -> gives has (un k e).
Proof.
  intros H. unfold un. eapply gives_bind; [apply clone_keeps|]. intros e' Ee. eapply gives_bind; [apply gives_any|]. intros i _ n x n' Q. injection Q as <- <-.
  unfold has. cbn [leaves]. now rewrite Ee.
Qed.
Lemma clone_has e : has e -> gives has (clone e).
Proof. intros H n x n' Q. unfold has. now rewrite (@clone_keeps e _ _ _ Q). Qed.
Ltac keep := first
  [ apply un_keeps; assumption | apply bin_keeps; solve [left; assumption|right; assumption] | apply clone_has; assumption].
Ltac step := eapply gives_bind; [first [apply un_keeps; assumption | apply bin_keeps; solve [left; assumption|right; assumption] | apply clone_has; assumption]|intros ? ?].
Lemma quotient_keeps X Y : has X \/ has Y -> gives has (quotient G lg dlg X Y).
Proof.
  intros H. unfold quotient, LogM, ExpM. eapply gives_bind; [apply gives_any|intros _ _]. destruct H as [H|H].
  - step. eapply gives_bind; [apply gives_any|intros ? _]. step. keep.
  - eapply gives_bind; [apply gives_any|intros ? _]. step. step. keep.
Qed.
Lemma over_keeps X c : has X -> gives has (over X c).
Proof. intros H. unfold over. step. now apply un_keeps. Qed.
Lemma broadcast_keeps ax X n : has X -> gives has (broadcast G K ax X n).
Proof. intros H. unfold broadcast. eapply gives_bind; [apply gives_any|intros _ _]. destruct ax; [keep|keep|step; keep]. Qed.
Lemma Sigma_keeps ax X : has X -> gives has (Sigma G K ax X).
Proof. intros H. unfold Sigma. destruct ax; [keep|keep|step; keep]. Qed.
Lemma trace_keeps X : has X -> gives has (trace G K X).
Proof. intros H. unfold trace. eapply gives_bind; [apply gives_any|intros _ _]. step. now apply Sigma_keeps. Qed.
Lemma frob_keeps X : has X -> gives has (MatrixFrobeniusNorm G K sq dsq X).
Proof.
  intros H. unfold MatrixFrobeniusNorm, SqrtM. step. eapply gives_bind; [now apply Sigma_keeps|]. intros ? ?. now apply un_keeps.
Qed.
Lemma concat_keeps ax X Y : has X \/ has Y -> gives has (concat G K ax X Y).
Proof.
  intros H. unfold concat. destruct ax; (eapply gives_bind; [apply gives_any|intros _ _]); destruct H as [H|H];
    first [step; eapply gives_bind; [apply gives_any|intros ? _]; keep; fail | eapply gives_bind; [apply gives_any|intros ? _]; step; keep].
Qed.
Lemma softmax_keeps ax X : has X -> gives has (SoftMax G K lg dlg ax X).
Proof.
  intros H. unfold SoftMax, ExpM, LogM. eapply gives_bind; [apply gives_any|intros ? _]. eapply gives_bind; [apply gives_any|intros ? _].
  eapply gives_bind; [apply gives_any|intros ? _]. eapply gives_bind; [apply gives_any|intros ? _]. step. now apply un_keeps.
Qed.
Lemma pow_keeps n X : 0 < n -> has X -> gives has (pow G K n X).
Proof.
  intros Hn H. destruct n as [|n]; [lia|]. cbn [pow]. eapply gives_bind; [apply gives_any|intros _ _]. eapply gives_bind; [apply gives_any|intros ? _]. keep.
Qed.
Lemma mexp_keeps n X : 0 < n -> has X -> gives has (MatrixExp G K n X).
Proof.
  intros Hn H. destruct n as [|n]; [lia|]. cbn [MatrixExp]. eapply gives_bind; [apply gives_any|intros _ _].
  eapply gives_bind; [exact (@pow_keeps (S n) X Hn H)|intros ? ?]. eapply gives_bind; [now apply over_keeps|intros ? ?]. eapply gives_bind; [apply gives_any|intros ? _]. keep.
Qed.
Lemma mlog_keeps n X : 0 < n -> has X -> gives has (MatrixLog G K n X).
Proof.
  intros Hn H. destruct n as [|n]; [lia|]. cbn [MatrixLog]. eapply gives_bind; [apply gives_any|intros _ _]. step.
  eapply gives_bind; [eapply (@pow_keeps (S n)); assumption|intros ? ?]. step. eapply gives_bind; [apply gives_any|intros ? _]. keep.
Qed.
Lemma make_keeps d : mentions o d -> gives has (make G K lg dlg sq dsq d).
Proof.
  induction d as [o'|a IHa b IHb|a IHa b IHb|a IHa b IHb|a IHa b IHb|a IHa|c a IHa|c a IHa|u u' a IHa|a IHa b IHb|a IHa c|ax a IHa n|ax a IHa|a IHa|a IHa|ax a IHa b IHb|ax a IHa|n a IHa|n a IHa|n a IHa];
    cbn [mentions make]; intros H.
  - subst o'. intros n x n' Q. injection Q as <- <-. now left.
  - destruct H as [H|H]; [eapply gives_bind; [exact (IHa H)|]; intros x Hx; eapply gives_bind; [apply gives_any|]; intros y _|eapply gives_bind; [apply gives_any|]; intros x _; eapply gives_bind; [exact (IHb H)|]; intros y Hy]; apply bin_keeps; auto.
  - destruct H as [H|H]; [eapply gives_bind; [exact (IHa H)|]; intros x Hx; eapply gives_bind; [apply gives_any|]; intros y _|eapply gives_bind; [apply gives_any|]; intros x _; eapply gives_bind; [exact (IHb H)|]; intros y Hy]; apply bin_keeps; auto.
  - destruct H as [H|H]; [eapply gives_bind; [exact (IHa H)|]; intros x Hx; eapply gives_bind; [apply gives_any|]; intros y _|eapply gives_bind; [apply gives_any|]; intros x _; eapply gives_bind; [exact (IHb H)|]; intros y Hy]; apply bin_keeps; auto.
  - destruct H as [H|H]; [eapply gives_bind; [exact (IHa H)|]; intros x Hx; eapply gives_bind; [apply gives_any|]; intros y _|eapply gives_bind; [apply gives_any|]; intros x _; eapply gives_bind; [exact (IHb H)|]; intros y Hy]; apply bin_keeps; auto.
  - eapply gives_bind; [exact (IHa H)|]. intros x Hx. now apply un_keeps.
  - eapply gives_bind; [exact (IHa H)|]. intros x Hx. now apply un_keeps.
  - eapply gives_bind; [exact (IHa H)|]. intros x Hx. now apply un_keeps.
  - eapply gives_bind; [exact (IHa H)|]. intros x Hx. now apply un_keeps.
  - destruct H as [H|H]; [eapply gives_bind; [exact (IHa H)|]; intros x Hx; eapply gives_bind; [apply gives_any|]; intros y _|eapply gives_bind; [apply gives_any|]; intros x _; eapply gives_bind; [exact (IHb H)|]; intros y Hy]; apply quotient_keeps; auto.
  - eapply gives_bind; [exact (IHa H)|]. intros x Hx. now apply over_keeps.
  - eapply gives_bind; [exact (IHa H)|]. intros x Hx. now apply broadcast_keeps.
  - eapply gives_bind; [exact (IHa H)|]. intros x Hx. now apply Sigma_keeps.
  - eapply gives_bind; [exact (IHa H)|]. intros x Hx. now apply trace_keeps.
  - eapply gives_bind; [exact (IHa H)|]. intros x Hx. now apply frob_keeps.
  - destruct H as [H|H]; [eapply gives_bind; [exact (IHa H)|]; intros x Hx; eapply gives_bind; [apply gives_any|]; intros y _|eapply gives_bind; [apply gives_any|]; intros x _; eapply gives_bind; [exact (IHb H)|]; intros y Hy]; apply concat_keeps; auto.
  - eapply gives_bind; [exact (IHa H)|]. intros x Hx. now apply softmax_keeps.
  - destruct H as [Hn H]. eapply gives_bind; [exact (IHa H)|]. intros x Hx. now apply pow_keeps.
  - destruct H as [Hn H]. eapply gives_bind; [exact (IHa H)|]. intros x Hx. now apply mexp_keeps.
  - destruct H as [Hn H]. eapply gives_bind; [exact (IHa H)|]. intros x Hx. now apply mlog_keeps.
Qed.
End Keep.

(** ** The registered matrices with w regarded as variables *)
Lemma lib_turn (G : graph R) K w rho rho' : own K w -> lib_ok G rho K -> (g_kind G w <> LEye) ->
  (forall o k, o <> w -> e_val rho' o k = e_val rho o k) -> lib_ok (as_var G w) rho' K.
Proof.
  intros O H Ne E. assert (Kd : forall o, o <> w -> g_kind (as_var G w) o = g_kind G o) by (intros o; apply as_var_other).
  destruct H as [A B C D E' F H].
  assert (Nw : forall o, (exists a b, o = l_ones K a b \/ o = l_zeros K a \/ o = l_top K a b \/ o = l_bottom K a b \/ o = l_left K a b \/ o = l_right K a b) -> o <> w).
  { intros o (a & b & Q) ->. destruct (O a b) as (Q1 & Q2 & Q3 & Q4 & Q5 & Q6). intuition congruence. }
  split; intros.
  - destruct (A r c) as (Q1 & Q2 & Q3 & Q4); auto. assert (N : l_ones K r c <> w) by (apply Nw; exists r, c; tauto). rewrite Kd by exact N. repeat (split; [assumption|]). intros. rewrite E by exact N. auto.
  - destruct (B n) as (Q1 & Q2 & Q3); auto. assert (N : l_eye K n <> w) by (intros Q; apply Ne; now rewrite <- Q). rewrite Kd by exact N. auto.
  - destruct (C n) as (Q1 & Q2 & Q3 & Q4); auto. assert (N : l_zeros K n <> w) by (apply Nw; exists n, n; tauto). rewrite Kd by exact N. repeat (split; [assumption|]). intros. rewrite E by exact N. auto.
  - destruct (D a b) as (Q1 & Q2 & Q3 & Q4); auto. assert (N : l_top K a b <> w) by (apply Nw; exists a, b; tauto). rewrite Kd by exact N. repeat (split; [assumption|]). intros. rewrite E by exact N. auto.
  - destruct (E' a b) as (Q1 & Q2 & Q3 & Q4); auto. assert (N : l_bottom K a b <> w) by (apply Nw; exists a, b; tauto). rewrite Kd by exact N. repeat (split; [assumption|]). intros. rewrite E by exact N. auto.
  - destruct (F a b) as (Q1 & Q2 & Q3 & Q4); auto. assert (N : l_left K a b <> w) by (apply Nw; exists a, b; tauto). rewrite Kd by exact N. repeat (split; [assumption|]). intros. rewrite E by exact N. auto.
  - destruct (H a b) as (Q1 & Q2 & Q3 & Q4); auto. assert (N : l_right K a b <> w) by (apply Nw; exists a, b; tauto). rewrite Kd by exact N. repeat (split; [assumption|]). intros. rewrite E by exact N. auto.
Qed.

(** ** No inverses, determinants or scalar operands in what the functions build *)
Fixpoint plain {T} (e : mexp T) : Prop :=
  match e with
  | MLeaf _ => True
  | MBin _ _ l r => plain l /\ plain r
  | MUn k _ a => plain a /\ match k with UTr | USProd _ | USSum _ | UFun _ _ => True | _ => False end
  end.
Lemma plain_solvable (G : graph R) rho e : plain e -> solvable G rho e.
Proof. induction e as [o|k id l IHl r IHr|k id a IHa]; cbn [plain solvable]; auto; [tauto|]. intros [A B]. split; [auto|]. destruct k; tauto. Qed.
Lemma plain_scals (e : mexp R) : plain e -> scals e = [].
Proof.
  induction e as [o|k id l IHl r IHr|k id a IHa]; cbn [plain scals]; auto.
  - intros [A B]. now rewrite IHl, IHr.
  - intros [A B]. rewrite IHa by exact A. destruct k; tauto || reflexivity.
Qed.
Section Plain.
Variable G : graph R.
Variable K : lib.
Variables lg dlg sq dsq : R -> R.
Notation pl := (gives (@plain R)).
Lemma ret_pl e : plain e -> pl (bret e).
Proof. intros H n x n' Q. injection Q as <- <-. exact H. Qed.
Lemma clone_pl e : plain e -> pl (clone e).
Proof.
  induction e as [o|k id l IHl r IHr|k id a IHa]; cbn [clone plain]; intros H.
  - now apply ret_pl.
  - eapply gives_bind; [exact (IHl (proj1 H))|]. intros l' El. eapply gives_bind; [exact (IHr (proj2 H))|]. intros r' Er. eapply gives_bind; [apply gives_any|]. intros i _. now apply ret_pl.
  - eapply gives_bind; [exact (IHa (proj1 H))|]. intros a' Ea. eapply gives_bind; [apply gives_any|]. intros i _. apply ret_pl. split; [exact Ea|apply H].
Qed.
Lemma bin_pl k l r : plain l -> plain r -> pl (bin k l r).
Proof.
  intros A B. unfold bin. eapply gives_bind; [now apply clone_pl|]. intros l' El. eapply gives_bind; [now apply clone_pl|]. intros r' Er.
  eapply gives_bind; [apply gives_any|]. intros i _. now apply ret_pl.
Qed.
Lemma un_pl k e : plain e -> match k with UTr | USProd _ | USSum _ | UFun _ _ => True | _ => False end -> pl (un k e).
Proof.
  intros A B. unfold un. eapply gives_bind; [now apply clone_pl|]. intros e' Ee. eapply gives_bind; [apply gives_any|]. intros i _. apply ret_pl. now split.
Qed.
Lemma leaf_pl o : plain (MLeaf o : mexp R). Proof. exact I. Qed.
Ltac fin := first [apply un_pl; [assumption|exact I] | apply bin_pl; first [assumption|exact I] | apply clone_pl; assumption].
Ltac go := repeat first [fin | eapply gives_bind; [first [fin | apply gives_any]|intros ? ?]].
Lemma quotient_pl X Y : plain X -> plain Y -> pl (quotient G lg dlg X Y).
Proof. intros A B. unfold quotient, LogM, ExpM. go. Qed.
Lemma over_pl X c : plain X -> pl (over X c).
Proof. intros A. unfold over. go. Qed.
Lemma broadcast_pl ax X n : plain X -> pl (broadcast G K ax X n).
Proof. intros A. unfold broadcast, OnesRef. eapply gives_bind; [apply gives_any|intros _ _]. destruct ax; go. Qed.
Lemma Sigma_pl ax X : plain X -> pl (Sigma G K ax X).
Proof. intros A. unfold Sigma, OnesRef. destruct ax; go. Qed.
Lemma trace_pl X : plain X -> pl (trace G K X).
Proof. intros A. unfold trace, EyeRef. eapply gives_bind; [apply gives_any|intros _ _]. eapply gives_bind; [fin|intros ? ?]. now apply Sigma_pl. Qed.
Lemma frob_pl X : plain X -> pl (MatrixFrobeniusNorm G K sq dsq X).
Proof. intros A. unfold MatrixFrobeniusNorm, SqrtM. eapply gives_bind; [fin|intros ? ?]. eapply gives_bind; [now apply Sigma_pl|intros ? ?]. fin. Qed.
Lemma concat_pl ax X Y : plain X -> plain Y -> pl (concat G K ax X Y).
Proof. intros A B. unfold concat. destruct ax; (eapply gives_bind; [apply gives_any|intros _ _]); go. Qed.
Lemma softmax_pl ax X : plain X -> pl (SoftMax G K lg dlg ax X).
Proof.
  intros A. unfold SoftMax, ExpM, LogM, OnesRef. eapply gives_bind; [fin|intros ? ?]. eapply gives_bind; [now apply Sigma_pl|intros ? ?]. eapply gives_bind; [fin|intros ? ?].
  eapply gives_bind with (Q := @plain R); [destruct ax; go|intros ? ?]. go.
Qed.
Lemma pow_pl n X : plain X -> pl (pow G K n X).
Proof.
  intros A. induction n as [|n IH]; cbn [pow]; (eapply gives_bind; [apply gives_any|intros _ _]); [now apply ret_pl|]. eapply gives_bind; [exact IH|intros ? ?]. fin.
Qed.
Lemma mexp_pl n X : plain X -> pl (MatrixExp G K n X).
Proof.
  intros A. induction n as [|n IH]; cbn [MatrixExp]; (eapply gives_bind; [apply gives_any|intros _ _]); [now apply ret_pl|].
  eapply gives_bind; [exact (@pow_pl (S n) X A)|intros ? ?]. eapply gives_bind; [now apply over_pl|intros ? ?]. eapply gives_bind; [exact IH|intros ? ?]. fin.
Qed.
Lemma mlog_pl n X : plain X -> pl (MatrixLog G K n X).
Proof.
  intros A. induction n as [|n IH]; cbn [MatrixLog]; (eapply gives_bind; [apply gives_any|intros _ _]); [now apply ret_pl|].
  eapply gives_bind; [apply bin_pl; [exact I|exact A]|intros ? ?]. eapply gives_bind; [eapply (@pow_pl (S n)); assumption|intros ? ?]. eapply gives_bind; [fin|intros ? ?].
  eapply gives_bind; [exact IH|intros ? ?]. fin.
Qed.
Lemma make_plain d : pl (make G K lg dlg sq dsq d).
Proof.
  induction d as [o'|a IHa b IHb|a IHa b IHb|a IHa b IHb|a IHa b IHb|a IHa|c a IHa|c a IHa|u u' a IHa|a IHa b IHb|a IHa c|ax a IHa n|ax a IHa|a IHa|a IHa|ax a IHa b IHb|ax a IHa|n a IHa|n a IHa|n a IHa];
    cbn [make]; try (now apply ret_pl); (eapply gives_bind; [exact IHa|intros x Hx]); try (eapply gives_bind; [exact IHb|intros z Hz]);
    first [fin|now apply quotient_pl|now apply over_pl|now apply broadcast_pl|now apply Sigma_pl|now apply trace_pl|now apply frob_pl|now apply concat_pl|now apply softmax_pl|now apply pow_pl|now apply mexp_pl|now apply mlog_pl].
Qed.
End Plain.
