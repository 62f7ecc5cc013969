(** * Threads on the entries of matrices

    NeuralNet runs ResetZero, MatrixAdd and GDOptimizer on std::threads
    (example/NeuralNet/include/NeuralNet.hpp:33-110); the loops inside are parallel too
    (EXECUTION_PAR).  Here every entry is a task of its own and the tasks interleave
    arbitrarily, instruction by instruction; a sequential loop is one of the
    interleavings. *)
From Coq Require Import List Arith Bool Lia.
From Verif Require Import Num.
Import ListNotations.
Set Implicit Arguments.
Unset Strict Implicit.

Section Threads.
Context {T : Type} {N : Num T}.

(** Entries of the user's matrices, row-major. *)
Definition store : Type := nat -> nat -> T.
(** What one task does: its register, and entry k of matrix u. *)
Inductive instr : Type :=
| IConst (v : T) | ILoad (u k : nat) | IAdd (v : T) | IAddFrom (u k : nat) | IMul (v : T) | IStore (u k : nat).
Record task : Type := Task { t_reg : T; t_code : list instr }.
Implicit Types (s : store) (t : task) (c : nat * nat) (ts : list task).

Definition put s (u k : nat) (v : T) : store := fun u' k' => if (u' =? u) && (k' =? k) then v else s u' k'.
Definition exec (i : instr) (r : T) s : T * store :=
  match i with
  | IConst v => (v, s)
  | ILoad u k => (s u k, s)
  | IAdd v => (nadd r v, s)
  | IAddFrom u k => (nadd r (s u k), s)
  | IMul v => (nmul v r, s)
  | IStore u k => (r, put s u k r)
  end.
(** All complete interleavings. *)
Inductive run : list task -> store -> store -> Prop :=
| run_done ts s : (forall t, In t ts -> t_code t = []) -> run ts s s
| run_step ts1 r i code ts2 s s' : run (ts1 ++ Task (fst (exec i r s)) code :: ts2) (snd (exec i r s)) s' ->
    run (ts1 ++ Task r (i :: code) :: ts2) s s'.
(** One group of tasks after the other. *)
Fixpoint run_seq (gs : list (list task)) s s' : Prop :=
  match gs with [] => s' = s | g :: gs' => exists s1, run g s s1 /\ run_seq gs' s1 s' end.
(** With and without threads. *)
Definition runs (threading : bool) (gs : list (list task)) s s' : Prop :=
  if threading then run (concat gs) s s' else run_seq gs s s'.

(** One task alone. *)
Fixpoint solo (code : list instr) (r : T) s : store :=
  match code with [] => s | i :: code' => solo code' (fst (exec i r s)) (snd (exec i r s)) end.
Definition alone t s : store := solo (t_code t) (t_reg t) s.
(** Entries read and written. *)
Definition ireads (i : instr) c : Prop := match i with ILoad u k | IAddFrom u k => c = (u, k) | _ => False end.
Definition iwrites (i : instr) c : Prop := match i with IStore u k => c = (u, k) | _ => False end.
Definition reads t c : Prop := exists i, In i (t_code t) /\ ireads i c.
Definition writes t c : Prop := exists i, In i (t_code t) /\ iwrites i c.
Definition at_ s c : T := s (fst c) (snd c).
(** Neither writes what the other uses. *)
Definition independent t t' : Prop :=
  (forall c, writes t c -> ~ reads t' c /\ ~ writes t' c) /\ (forall c, writes t' c -> ~ reads t c /\ ~ writes t c).
Fixpoint pairwise ts : Prop :=
  match ts with [] => True | t :: ts' => (forall t', In t' ts' -> independent t t') /\ pairwise ts' end.

Lemma put_at s u k v c : at_ (put s u k v) c = v /\ c = (u, k) \/ at_ (put s u k v) c = at_ s c /\ c <> (u, k).
Proof.
  unfold at_, put. destruct c as [u' k']. cbn [fst snd]. destruct (Nat.eqb_spec u' u) as [->|Ne]; cbn [andb].
  - destruct (Nat.eqb_spec k' k) as [->|Ne]; [left; auto|right; split; [auto|congruence]].
  - right. split; [auto|congruence].
Qed.
Lemma exec_writes i r s c : at_ (snd (exec i r s)) c <> at_ s c -> iwrites i c.
Proof.
  destruct i; simpl; try (intros H; now elim H). intros H. destruct (put_at s u k r c) as [[_ E]|[E _]]; [exact E|now elim H].
Qed.
Lemma exec_same i r s c : ~ iwrites i c -> at_ (snd (exec i r s)) c = at_ s c.
Proof.
  destruct i; simpl; auto. intros H. destruct (put_at s u k r c) as [[_ E]|[E _]]; [now elim H|exact E].
Qed.
Lemma exec_agree i r s s2 : (forall c, ireads i c -> at_ s c = at_ s2 c) -> fst (exec i r s) = fst (exec i r s2).
Proof. destruct i; simpl; intros H; auto; [exact (H (u, k) eq_refl)|f_equal; exact (H (u, k) eq_refl)]. Qed.
Lemma exec_put i r s s2 c : (forall c, ireads i c -> at_ s c = at_ s2 c) -> iwrites i c -> at_ (snd (exec i r s)) c = at_ (snd (exec i r s2)) c.
Proof.
  destruct i; simpl; try tauto. intros _ ->. destruct (put_at s u k r (u, k)) as [[-> _]|[_ E]]; [|now elim E].
  destruct (put_at s2 u k r (u, k)) as [[-> _]|[_ E]]; [reflexivity|now elim E].
Qed.
Lemma solo_frame code : forall r s c, (forall i, In i code -> ~ iwrites i c) -> at_ (solo code r s) c = at_ s c.
Proof.
  induction code as [|i code IH]; intros r s c H; simpl; auto. rewrite IH by (intros; apply H; simpl; auto).
  apply exec_same. apply H. simpl. auto.
Qed.
(** A task alone depends only on what it reads. *)
Lemma solo_agree code : forall r s s2, (forall i c, In i code -> ireads i c -> at_ s c = at_ s2 c) ->
  forall c, (exists i, In i code /\ iwrites i c) \/ at_ s c = at_ s2 c -> at_ (solo code r s) c = at_ (solo code r s2) c.
Proof.
  induction code as [|i code IH]; intros r s s2 H c Hc; simpl.
  - destruct Hc as [(i & [] & _)|E]; exact E.
  - assert (Hi : forall c, ireads i c -> at_ s c = at_ s2 c) by (intros c' Q; apply (H i c'); simpl; auto).
    rewrite (exec_agree r Hi). set (r' := fst (exec i r s2)).
    assert (Q : forall c', at_ s c' = at_ s2 c' -> at_ (snd (exec i r s)) c' = at_ (snd (exec i r s2)) c').
    { intros c' E. destruct i; simpl; auto. destruct (put_at s u k r c') as [[-> E1]|[-> E1]]; destruct (put_at s2 u k r c') as [[-> E2]|[-> E2]]; congruence. }
    apply IH.
    + intros i' c' Hin Hr. apply Q. apply (H i' c'); simpl; auto.
    + destruct Hc as [(i' & [<-|Hin] & Hw)|E]; [|left; eauto|right; auto]. right. exact (exec_put r Hi Hw).
Qed.
Lemma pairwise_mid ts1 : forall t ts2, pairwise (ts1 ++ t :: ts2) <->
  pairwise (ts1 ++ ts2) /\ (forall t', In t' (ts1 ++ ts2) -> independent t t').
Proof.
  assert (Sy : forall t t', independent t t' -> independent t' t) by (intros t t' [A C]; split; auto).
  induction ts1 as [|t1 ts1 IH]; intros t ts2; simpl.
  - tauto.
  - rewrite IH. split.
    + intros [H [H1 H2]]. split; [split; [|exact H1]|].
      * intros t' Ht. apply H. apply in_app_or in Ht. apply in_or_app. simpl. tauto.
      * intros t' [<-|Ht]; [|auto]. apply Sy. apply H. apply in_or_app. simpl. auto.
    + intros [[H H1] H2]. split; [|split; [exact H1|auto]].
      intros t' Ht. apply in_app_or in Ht. simpl in Ht. destruct Ht as [Ht|[<-|Ht]]; [apply H, in_or_app; auto| |apply H, in_or_app; auto].
      apply Sy. apply H2. auto.
Qed.
Lemma shrink_reads r r' i code c : reads (Task r' code) c -> reads (Task r (i :: code)) c.
Proof. intros (j & Hj & Q). exists j. simpl in *. auto. Qed.
Lemma shrink_writes r r' i code c : writes (Task r' code) c -> writes (Task r (i :: code)) c.
Proof. intros (j & Hj & Q). exists j. simpl in *. auto. Qed.
Lemma shrink_indep r r' i code t' : independent (Task r (i :: code)) t' -> independent (Task r' code) t'.
Proof.
  intros [A C]. split.
  - intros c W. apply A. now apply (shrink_writes r i) in W.
  - intros c W. destruct (C c W) as [R1 W1]. split; intros Q; [apply R1; now apply (shrink_reads r i) in Q|apply W1; now apply (shrink_writes r i) in Q].
Qed.
Lemma writes_dec t c : writes t c \/ ~ writes t c.
Proof.
  destruct t as [r code]. unfold writes. cbn [t_code]. induction code as [|i code IH]; [right; intros (i & [] & _)|].
  assert (D : iwrites i c \/ ~ iwrites i c).
  { destruct i; simpl; auto. destruct c as [u' k']. destruct (Nat.eq_dec u' u) as [->|]; [destruct (Nat.eq_dec k' k) as [->|]|]; [left; auto|right; congruence|right; congruence]. }
  destruct D as [D|D]; [left; exists i; simpl; auto|]. destruct IH as [(j & Hj & W)|IH]; [left; exists j; simpl; auto|].
  right. intros (j & [<-|Hj] & W); [auto|]. apply IH. eauto.
Qed.
(** Independent tasks: whatever the interleaving, every task has the effect it has alone. *)
Theorem run_independent ts s s' : run ts s s' -> pairwise ts ->
  (forall t c, In t ts -> writes t c -> at_ s' c = at_ (alone t s) c) /\ (forall c, (forall t, In t ts -> ~ writes t c) -> at_ s' c = at_ s c).
Proof.
  induction 1 as [ts s H|ts1 r i code ts2 s s' H IH]; intros P.
  - split; [|auto]. intros t c Ht (i & Hi & _). rewrite (H t Ht) in Hi. destruct Hi.
  - apply pairwise_mid in P. destruct P as [P1 P2].
    set (t0 := Task r (i :: code)) in *. set (t1 := Task (fst (exec i r s)) code) in *. set (s1 := snd (exec i r s)) in *.
    assert (P' : pairwise (ts1 ++ t1 :: ts2)).
    { apply pairwise_mid. split; [exact P1|]. intros t' Ht. exact (shrink_indep (fst (exec i r s)) (P2 t' Ht)). }
    destruct (IH P') as [IH1 IH2].
    assert (A0 : alone t0 s = alone t1 s1) by reflexivity.
    assert (W0 : forall c, iwrites i c -> writes t0 c) by (intros c W; exists i; simpl; auto).
    split.
    + intros t c Ht Hw. apply in_app_or in Ht. cbn [In] in Ht.
      assert (Q : t = t0 \/ In t (ts1 ++ ts2)) by (destruct Ht as [Ht|[Ht|Ht]]; [right; apply in_or_app; auto|left; auto|right; apply in_or_app; auto]).
      clear Ht. destruct Q as [->|Ht].
      * rewrite A0. destruct (writes_dec t1 c) as [W1|W1].
        -- apply IH1; [apply in_or_app; simpl; auto|exact W1].
        -- rewrite IH2.
           ++ unfold alone. rewrite solo_frame; [reflexivity|]. intros j Hj Q. apply W1. exists j. auto.
           ++ intros t Ht Q. apply in_app_or in Ht. cbn [In] in Ht.
              assert (Z : t = t1 \/ In t (ts1 ++ ts2)) by (destruct Ht as [Ht|[Ht|Ht]]; [right; apply in_or_app; auto|left; auto|right; apply in_or_app; auto]).
              destruct Z as [->|Z]; [auto|]. destruct (P2 t Z) as [_ C]. destruct (C c Q) as [_ C2]. auto.
      * rewrite (IH1 t c); [|apply in_app_or in Ht; apply in_or_app; simpl; tauto|exact Hw].
        unfold alone. apply solo_agree.
        -- intros j c' Hj Hr. unfold s1. apply exec_same. intros Q. destruct (P2 t Ht) as [A _]. destruct (A c' (W0 _ Q)) as [A1 _]. apply A1. exists j. auto.
        -- left. exact Hw.
    + intros c Hc. rewrite IH2.
      * unfold s1. apply exec_same. intros Q. apply (Hc t0); [apply in_or_app; simpl; auto|auto].
      * intros t Ht Q. apply in_app_or in Ht. cbn [In] in Ht. destruct Ht as [Ht|[<-|Ht]].
        -- apply (Hc t); [apply in_or_app; auto|exact Q].
        -- apply (Hc t0); [apply in_or_app; simpl; auto|]. exact (shrink_writes r i Q).
        -- apply (Hc t); [apply in_or_app; simpl; auto|exact Q].
Qed.

(** Sequential execution is one of the interleavings. *)
Lemma run_idle ts g s s' : (forall t, In t g -> t_code t = []) -> run ts s s' -> run (g ++ ts) s s'.
Proof.
  intros Hg H. induction H as [ts s H|ts1 r i code ts2 s s' H IH].
  - apply run_done. intros t Ht. apply in_app_or in Ht. destruct Ht; auto.
  - rewrite app_assoc. apply run_step. rewrite <- app_assoc. exact IH.
Qed.
Lemma run_app g ts s s1 s2 : run g s s1 -> run ts s1 s2 -> run (g ++ ts) s s2.
Proof.
  intros H H2. induction H as [g s H|g1 r i code g2 s s' H IH]; [now apply run_idle|].
  rewrite <- app_assoc. simpl. apply run_step. specialize (IH H2). rewrite <- app_assoc in IH. exact IH.
Qed.
Lemma run_seq_run gs : forall s s', run_seq gs s s' -> run (concat gs) s s'.
Proof.
  induction gs as [|g gs IH]; intros s s' H; simpl in *.
  - subst. apply run_done. intros t [].
  - destruct H as (s1 & H1 & H2). eapply run_app; eauto.
Qed.
Lemma runs_run th gs s s' : runs th gs s s' -> run (concat gs) s s'.
Proof. destruct th; simpl; [auto|apply run_seq_run]. Qed.
(** There is an execution. *)
Lemma run_one t s : run [t] s (alone t s).
Proof.
  destruct t as [r code]. unfold alone. cbn [t_code t_reg]. revert r s. induction code as [|i code IH]; intros r s; simpl.
  - apply run_done. intros t [<-|[]]. reflexivity.
  - change [Task r (i :: code)] with ([] ++ Task r (i :: code) :: []). apply run_step. apply IH.
Qed.
Lemma run_total ts : forall s, exists s', run ts s s'.
Proof.
  induction ts as [|t ts IH]; intros s.
  - exists s. apply run_done. intros t [].
  - destruct (IH (alone t s)) as (s' & H). exists s'. change (t :: ts) with ([t] ++ ts). eapply run_app; [apply run_one|exact H].
Qed.
Lemma runs_total th gs : forall s, exists s', runs th gs s s'.
Proof.
  destruct th; simpl; [intros s; apply run_total|]. induction gs as [|g gs IH]; intros s; simpl; [eauto|].
  destruct (run_total g s) as (s1 & H1). destruct (IH s1) as (s' & H'). exists s', s1. auto.
Qed.
End Threads.
