(** * Further kernel facts: getColumn on square matrices, order-independent sums, the racy
    trace loop, and executed counterexamples over the integers *)

From Coq Require Import List Arith Bool Lia Permutation ZArith Ring.
From Verif Require Import Num NumInst MatMem Kernels KernelFacts KernelProofs KernelBlocks.
Import ListNotations.
Set Implicit Arguments.
Unset Strict Implicit.

Section Column.
Context {T : Type} {N : Num T}.
Variable S : sched T.
Hypothesis VS : valid_sched S.
Implicit Types (m : mem T).

(** On a square matrix getColumn returns column 0, whichever column is asked for. *)
Lemma get_column_square m p R i : good m -> is_mat m p R R -> i < R ->
  exists t m', getColumn S p i m = Ok (t, m') /\ stored m m' None t R 1 (fun k _ => val m p k 0).
Proof.
  intros G (k & sp & b & H & L) Hi. destruct (G _ _ H) as (PR & PC & _ & _). simpl in PR, PC.
  unfold getColumn. unfold bind at 1. unfold deref at 1. rewrite H. cbn [o_rows o_cols].
  unfold bind at 1. unfold assert at 1. apply Nat.ltb_lt in Hi. rewrite Hi.
  destruct (@pool_ok T N None CPU None R 1 m G Logic.I PR ltac:(lia)) as (t & m1 & Ep & P).
  unfold pool_with in Ep. unfold bind at 1. rewrite Ep.
  destruct (pooled_obj G P) as (o & Ho & oR & oC & Lo).
  assert (Ne : p <> t). { apply (pooled_not_operand P H). exact Logic.I. }
  edestruct (@par_scatter T S nat m1 t o (seq 0 R) (fun n => n) (fun n => Some (val m p n 0))
     (fun n => let j := n mod R in let i := (n - j) / R in bind (raw p (j * R + i)) (fun a => rawset t j a)) VS Ho) as (bf & E & L1 & W & F).
  - apply seq_NoDup.
  - intros n Hn _. apply in_seq in Hn. lia.
  - auto.
  - intros n c Hn Lc Hc. apply in_seq in Hn. cbv zeta. rewrite Nat.mod_small by lia.
    replace ((n - n) / R) with 0 by (rewrite Nat.sub_diag; symmetry; apply Nat.div_0_l; lia). unfold bind at 1.
    assert (Q : nth_error b (n * R + 0) = Some (val m p n 0)) by (eapply val_is; eauto; lia).
    rewrite raw_upd_other by auto. unfold raw. rewrite (pl_frame P) by auto. rewrite H. cbn [o_buf]. rewrite Q.
    eapply rawset_upd; eauto. lia.
  - cbv zeta in E. unfold bind at 1. cbv zeta. rewrite E. exists t, (upd m1 t bf). split; [reflexivity|].
    eapply stored_intro; eauto. intros a z Ha Hz. replace (a * 1 + z) with a by lia.
    apply (W a); [apply in_seq; lia|reflexivity].
Qed.
End Column.

Section Sums.
Context {T : Type} {N : Num T}.
Hypothesis L : NumLaws N.
Add Ring num_ring : (law_ring _ L).

(** Exact addition does not depend on the order of the summands. *)
Lemma fold_perm (f : nat -> T) l1 l2 : Permutation l1 l2 ->
  forall t, fold_left (fun a k => nadd a (f k)) l1 t = fold_left (fun a k => nadd a (f k)) l2 t.
Proof.
  induction 1 as [|x l1 l2 P IH|x y l|l1 l2 l3 P1 IH1 P2 IH2]; intros t; simpl; auto.
  - f_equal. ring.
  - now rewrite IH1.
Qed.
Lemma fold_any_order (f : nat -> T) n l : Permutation l (seq 0 n) ->
  fold_left (fun a k => nadd a (f k)) l n0 = sum_n n f.
Proof. intros P. rewrite (fold_perm f P). apply fold_sum. Qed.
End Sums.

(** ** The trace loop with the iterations really interleaved

    MatTraceNaiveHandler.hpp:47-50 with EXECUTION_PAR = std::execution::par: each
    iteration loads the shared tmp, adds its diagonal entry and stores.  (In C++ this
    is a data race, hence undefined; the interleaving semantics is the most favourable
    reading.) *)
Section Race.
Context {T : Type} {N : Num T}.
Variable d : nat -> T.                    (* the diagonal *)
Variable n : nat.
Inductive phase : Type := Todo | Loaded (v : T) | Done.
Definition rstate : Type := (T * (nat -> phase))%type.
Definition setp (f : nat -> phase) (i : nat) (x : phase) : nat -> phase := fun k => if k =? i then x else f k.
Inductive rstep : rstate -> rstate -> Prop :=
| r_load t f i : i < n -> f i = Todo -> rstep (t, f) (t, setp f i (Loaded t))
| r_store t f i v : i < n -> f i = Loaded v -> rstep (t, f) (nadd v (d i), setp f i Done).
Inductive rsteps : rstate -> rstate -> Prop :=
| rs_refl s s' : fst s = fst s' -> (forall k, snd s k = snd s' k) -> rsteps s s'
| rs_step s1 s2 s3 : rstep s1 s2 -> rsteps s2 s3 -> rsteps s1 s3.
Definition rstart : rstate := (n0, fun _ => Todo).
(** The value stored to the result when every iteration has finished. *)
Definition trace_outcome (x : T) : Prop := exists s, rsteps rstart s /\ fst s = x /\ forall i, i < n -> snd s i = Done.

Lemma rstep_ext s1 s2 s1' : rstep s1 s2 -> fst s1 = fst s1' -> (forall k, snd s1 k = snd s1' k) ->
  exists s2', rstep s1' s2' /\ fst s2 = fst s2' /\ forall k, snd s2 k = snd s2' k.
Proof.
  intros St E1 E2. destruct s1' as [t' f']. simpl in *. inversion St as [t f i Hi Hf|t f i v Hi Hf]; subst; simpl in *.
  - eexists. split; [apply r_load with (i := i); auto; now rewrite <- E2|]. simpl. split; auto.
    intros k. unfold setp. destruct (k =? i); auto.
  - eexists. split; [apply r_store with (i := i) (v := v); auto; now rewrite <- E2|]. simpl. split; auto.
    intros k. unfold setp. destruct (k =? i); auto.
Qed.
Lemma rsteps_pre s1 s2 : rsteps s1 s2 -> forall s1', fst s1' = fst s1 -> (forall k, snd s1' k = snd s1 k) -> rsteps s1' s2.
Proof.
  induction 1 as [s s' E1 E2|s1 s2 s3 St Ss IH]; intros s1' H1 H2.
  - apply rs_refl; [congruence|]. intros k. rewrite H2. apply E2.
  - destruct (@rstep_ext s1 s2 s1' St) as (s2' & St' & A & B); auto.
    eapply rs_step; [exact St'|]. apply IH; auto.
Qed.
Lemma rsteps_trans s1 s2 s3 : rsteps s1 s2 -> rsteps s2 s3 -> rsteps s1 s3.
Proof.
  induction 1 as [s s' E1 E2|s1 s2 s2' St Ss IH]; intros H.
  - eapply rsteps_pre; eauto.
  - eapply rs_step; eauto.
Qed.

Lemma all_load k : k <= n -> rsteps rstart (n0, fun i => if i <? k then Loaded n0 else Todo).
Proof.
  induction k as [|k IH]; intros Hk.
  - apply rs_refl; reflexivity.
  - eapply rsteps_trans; [apply IH; lia|]. eapply rs_step.
    + apply r_load with (i := k); [lia|]. simpl. rewrite Nat.ltb_irrefl. reflexivity.
    + apply rs_refl; [reflexivity|]. intros i. simpl. unfold setp.
      destruct (Nat.eqb_spec i k); destruct (Nat.ltb_spec i (S k)); destruct (Nat.ltb_spec i k); try lia; auto.
Qed.
Lemma store_others k : k < n -> forall j, j <= n ->
  exists t, rsteps (n0, fun i => if i <? n then Loaded n0 else Todo)
     (t, fun i => if (i <? j) && negb (i =? k) then Done else if i <? n then Loaded n0 else Todo).
Proof.
  intros Hk. induction j as [|j IH]; intros Hj.
  - exists n0. apply rs_refl; reflexivity.
  - destruct IH as (t & IH); [lia|]. destruct (Nat.eq_dec j k) as [->|Ne].
    + exists t. eapply rsteps_trans; [exact IH|]. apply rs_refl; [reflexivity|]. intros i. simpl.
      destruct (Nat.eqb_spec i k); simpl; [now rewrite !andb_false_r|].
      destruct (Nat.ltb_spec i (S k)); destruct (Nat.ltb_spec i k); try lia; auto.
    + exists (nadd n0 (d j)). eapply rsteps_trans; [exact IH|]. eapply rs_step.
      * apply r_store with (i := j) (v := n0); [lia|]. rewrite Nat.ltb_irrefl. simpl.
        destruct (Nat.ltb_spec j n); [reflexivity|lia].
      * apply rs_refl; [reflexivity|]. intros i. simpl. unfold setp.
        destruct (Nat.eqb_spec i j); destruct (Nat.eqb_spec i k); destruct (Nat.ltb_spec i (S j)); destruct (Nat.ltb_spec i j);
          simpl; try lia; auto.
Qed.
(** Lost updates: the loop may end with any single diagonal entry. *)
Lemma trace_lost k : k < n -> trace_outcome (nadd n0 (d k)).
Proof.
  intros Hk. destruct (@store_others k Hk n (le_n n)) as (t & Hs).
  eexists. split; [|split].
  - eapply rsteps_trans; [apply (@all_load n); lia|]. eapply rsteps_trans; [exact Hs|]. eapply rs_step.
    + apply r_store with (i := k) (v := n0); [lia|]. rewrite Nat.eqb_refl, andb_false_r.
      destruct (Nat.ltb_spec k n); [reflexivity|lia].
    + apply rs_refl; [reflexivity|]. intros i. reflexivity.
  - reflexivity.
  - intros i Hi. simpl. unfold setp. destruct (Nat.eqb_spec i k); auto.
    destruct (Nat.ltb_spec i n); [reflexivity|lia].
Qed.
(** The sequential outcome is also possible. *)
Lemma trace_sequential : trace_outcome (sum_n n d).
Proof.
  assert (A : forall k, k <= n -> rsteps rstart (sum_n k d, fun i => if i <? k then Done else Todo)).
  { induction k as [|k IH]; intros Hk.
    - apply rs_refl; reflexivity.
    - eapply rsteps_trans; [apply IH; lia|]. eapply rs_step.
      + apply r_load with (i := k); [lia|]. rewrite Nat.ltb_irrefl. reflexivity.
      + eapply rs_step.
        * apply r_store with (i := k) (v := sum_n k d); [lia|]. unfold setp. now rewrite Nat.eqb_refl.
        * apply rs_refl; [reflexivity|]. intros i. simpl. unfold setp.
          destruct (Nat.eqb_spec i k); destruct (Nat.ltb_spec i (S k)); destruct (Nat.ltb_spec i k); try lia; auto. }
  eexists. split; [apply (A n); lia|]. split; [reflexivity|]. intros i Hi. simpl.
  destruct (Nat.ltb_spec i n); [reflexivity|lia].
Qed.
End Race.

(** ** Executed counterexamples *)
Section Witness.
Definition mk (k : nat) (R C : nat) (b : list Z) : mobj Z := MkObj k CPU R C b.
Definition mem_of (l : list (mobj Z)) : mem Z := MkMem (map Some l) (length l) (fun _ _ => 0%Z) [].
Definition Zin : sched Z := in_order (T := Z).

(** Three matrices: a 2x2, a 4x4 full of nines, a 1x1 zero and a 1x1 seven. *)
Definition m_ex : mem Z := mem_of [mk 0 2 2 [1;2;3;4]%Z; mk 1 4 4 (repeat 9%Z 16); mk 2 1 1 [0%Z]; mk 3 1 1 [7%Z]; mk 4 2 2 [9;9;9;9]%Z].

Lemma good_ex : good m_ex.
Proof.
  intros p o H. do 5 (destruct p as [|p]; [injection H as <-; simpl; repeat split; lia|]). destruct p; discriminate.
Qed.

Lemma pad_stale : exists m', pad Zin 0 1 1 (Some 1) m_ex = Ok (1, m') /\ val m' 1 0 0 = 9%Z.
Proof. eexists. split; reflexivity. Qed.
Lemma kron_stale : exists m', MatKron Zin 2 0 (Some 4) m_ex = Ok (4, m') /\ val m' 4 1 1 = 9%Z.
Proof. eexists. split; reflexivity. Qed.
Lemma transpose_in_place : exists m', MatTranspose Zin 0 (Some 0) m_ex = Ok (0, m') /\ val m_ex 0 1 0 = 3%Z /\ val m' 0 0 1 = 2%Z.
Proof. eexists. repeat split; reflexivity. Qed.
Lemma column_wrong : exists t m', getColumn Zin 0 1 m_ex = Ok (t, m') /\ val m_ex 0 0 1 = 2%Z /\ val m' t 0 0 = 1%Z.
Proof. eexists _, _. repeat split; reflexivity. Qed.
End Witness.
