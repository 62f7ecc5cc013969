(** * Element access, blocks, rows, padding, special matrices *)

From Coq Require Import List Arith Bool Lia Permutation.
From Verif Require Import Num MatMem Kernels KernelFacts KernelProofs.
Import ListNotations.
Set Implicit Arguments.
Unset Strict Implicit.

Section Blocks.
Context {T : Type} {N : Num T}.
Notation mem := (mem T).
Notation M := (M T).
Variable S : sched T.
Hypothesis VS : valid_sched S.
Implicit Types (m : mem).

(** ** Element access *)
Lemma at2_val m p R C i j : is_mat m p R C -> i < R -> j < C -> at2 p i j m = Ok (val m p i j, m).
Proof.
  intros (k & sp & b & H & L) Hi Hj. eapply at2_ok; eauto. simpl. eapply val_is; eauto.
Qed.
Lemma at1_val m p R C i j : is_mat m p R C -> i < R -> j < C -> at1 p (i * C + j) m = Ok (val m p i j, m).
Proof.
  intros (k & sp & b & H & L) Hi Hj. unfold at1, bind, deref, assert. rewrite H. simpl.
  pose proof (idx_bound Hi Hj) as Q. apply Nat.ltb_lt in Q. rewrite Q.
  eapply raw_ok; eauto. simpl. eapply val_is; eauto.
Qed.
Lemma at2_reject m p R C i j : is_mat m p R C -> R <= i \/ C <= j -> at2 p i j m = Rejected.
Proof.
  intros (k & sp & b & H & L) D. unfold at2, bind, deref, assert. rewrite H. simpl.
  destruct (i <? R) eqn:E; auto. destruct (j <? C) eqn:E'; auto. apply Nat.ltb_lt in E, E'. lia.
Qed.
Lemma set2_reject m p R C i j x : is_mat m p R C -> R <= i \/ C <= j -> set2 p i j x m = Rejected.
Proof.
  intros (k & sp & b & H & L) D. unfold set2, bind, deref, assert. rewrite H. simpl.
  destruct (i <? R) eqn:E; auto. destruct (j <? C) eqn:E'; auto. apply Nat.ltb_lt in E, E'. lia.
Qed.
Lemma at1_reject m p R C l : is_mat m p R C -> R * C <= l -> at1 p l m = Rejected.
Proof.
  intros (k & sp & b & H & L) D. unfold at1, bind, deref, assert. rewrite H. simpl.
  destruct (l <? R * C) eqn:E; auto. apply Nat.ltb_lt in E. lia.
Qed.
Lemma set1_reject m p R C l x : is_mat m p R C -> R * C <= l -> set1 p l x m = Rejected.
Proof.
  intros (k & sp & b & H & L) D. unfold set1, bind, deref, assert. rewrite H. simpl.
  destruct (l <? R * C) eqn:E; auto. apply Nat.ltb_lt in E. lia.
Qed.

Definition poke m p l x : mem := match get m p with Some o => upd m p (list_set (o_buf o) l x) | None => m end.
Lemma set2_poke m p R C i j x : is_mat m p R C -> i < R -> j < C -> set2 p i j x m = Ok (tt, poke m p (i * C + j) x).
Proof.
  intros (k & sp & b & H & L) Hi Hj. pose proof (@set2_upd _ m p _ b i j x H Hi Hj) as Q. simpl in Q.
  rewrite L in Q. specialize (Q (idx_bound Hi Hj)).
  pose proof (upd_id H) as U. simpl in U. rewrite U in Q. rewrite Q. unfold poke. rewrite H. reflexivity.
Qed.
Lemma set1_poke m p R C l x : is_mat m p R C -> l < R * C -> set1 p l x m = Ok (tt, poke m p l x).
Proof.
  intros (k & sp & b & H & L) Hl. unfold set1, bind, deref, assert. rewrite H. simpl.
  apply Nat.ltb_lt in Hl as Q. rewrite Q.
  pose proof (@rawset_upd _ m p _ b l x H ltac:(lia)) as Q'.
  pose proof (upd_id H) as U. simpl in U. rewrite U in Q'. rewrite Q'. unfold poke. rewrite H. reflexivity.
Qed.
Lemma poke_val m p R C l x q Rq Cq i j : is_mat m p R C -> l < R * C -> is_mat m q Rq Cq -> i < Rq -> j < Cq ->
  val (poke m p l x) q i j = if (q =? p) && (l =? i * Cq + j) then x else val m q i j.
Proof.
  intros (k & sp & b & H & L) Hl (k' & sp' & b' & H' & L') Hi Hj. unfold poke. rewrite H. simpl.
  destruct (q =? p) eqn:E.
  - apply Nat.eqb_eq in E. subst q. rewrite H in H'. injection H' as <- <- <- <- <-.
    unfold val. rewrite (get_upd_same _ H), H. simpl.
    destruct (l =? i * C + j) eqn:E.
    + apply Nat.eqb_eq in E. subst l. apply nth_error_nth. rewrite nth_list_set_eq; auto. lia.
    + apply Nat.eqb_neq in E. pose proof (nth_list_set_neq b x E) as Q.
      pose proof (idx_bound Hi Hj) as B.
      rewrite (nth_error_def n0) in Q by (rewrite length_list_set; lia).
      rewrite (nth_error_def n0) in Q by lia. congruence.
  - apply Nat.eqb_neq in E. simpl. unfold val. rewrite get_upd_other by auto. reflexivity.
Qed.
Lemma poke_mat m p R C l x q Rq Cq : is_mat m p R C -> is_mat m q Rq Cq -> is_mat (poke m p l x) q Rq Cq.
Proof.
  intros (k & sp & b & H & L) (k' & sp' & b' & H' & L'). unfold poke. rewrite H. simpl.
  destruct (Nat.eq_dec q p) as [->|Ne].
  - rewrite H in H'. injection H' as <- <- <- <- <-. exists k, sp, (list_set b l x). rewrite (get_upd_same _ H).
    split; [reflexivity|]. now rewrite length_list_set.
  - exists k', sp', b'. rewrite get_upd_other by auto. auto.
Qed.

(** ** Blocks *)
Definition block_ok (R C r0 r1 c0 c1 : nat) : Prop := r0 <= r1 /\ r1 < R /\ c0 <= c1 /\ c1 < C.

Ltac asserts := repeat match goal with
  | |- context [bind (assert ?b) ?k ?m] => 
      let E := fresh in assert (E : b = true) by (first [apply Nat.ltb_lt | apply Nat.leb_le | apply Nat.eqb_eq]; lia);
      unfold bind at 1; unfold assert at 1; rewrite E; clear E
  end.

Lemma set_block_ok m p src R C r0 r1 c0 c1 : good m -> is_mat m p R C -> block_ok R C r0 r1 c0 c1 ->
  is_mat m src (r1 - r0 + 1) (c1 - c0 + 1) -> src <> p ->
  exists m', setBlockMat S p (r0, r1) (c0, c1) src m = Ok (tt, m') /\
    is_mat m' p R C /\
    (forall i j, i < R -> j < C -> val m' p i j =
       if (r0 <=? i) && (i <=? r1) && (c0 <=? j) && (j <=? c1) then val m src (i - r0) (j - c0) else val m p i j) /\
    (forall q, q <> p -> get m' q = get m q) /\ specials m' = specials m /\ good m' /\
    (forall q, name m' q = name m q) /\ next m' = next m /\ length (objs m') = length (objs m).
Proof.
  intros G (k & sp & b & H & L) (B1 & B2 & B3 & B4) (k' & sp' & b' & H' & L') Ne.
  unfold setBlockMat. unfold bind at 1. unfold deref at 1. rewrite H. cbn [fst snd o_rows o_cols].
  asserts. unfold bind at 1. unfold deref at 1. rewrite H'. cbn [fst snd o_rows o_cols]. asserts.
  set (src_ij := fun q : nat * nat => nth ((fst q - r0) * (c1 - c0 + 1) + (snd q - c0)) b' n0).
  edestruct (@par_scatter T S (nat * nat) m p _ (list_prod (seq r0 (r1 + 1 - r0)) (seq c0 (c1 + 1 - c0)))
     (fun q => fst q * C + snd q) (fun q => Some (src_ij q))
     (fun q => (fun i j => bind (at2 src (i - r0) (j - c0)) (fun a => set2 p i j a)) (fst q) (snd q)) VS H)
     as (bf & E & L1 & W & F).
  - apply NoDup_prod; apply seq_NoDup.
  - intros [i j] Hi _. apply in_prod_iff in Hi. destruct Hi as [H1 H2]. apply in_seq in H1, H2. simpl.
    rewrite L. apply idx_bound; lia.
  - intros [i j] [i2 j2] Hi Hi2 _ _ E. apply in_prod_iff in Hi, Hi2. destruct Hi as [H1 H2]. destruct Hi2 as [H1' H2'].
    apply in_seq in H1, H2, H1', H2'. simpl in E. apply idx_inj in E; try lia. destruct E. congruence.
  - intros [i j] c Hi Lc Hc. apply in_prod_iff in Hi. destruct Hi as [H1 H2]. apply in_seq in H1, H2. cbn [fst snd].
    unfold bind at 1.
    erewrite at2_other; eauto; simpl; try lia.
    2:{ apply nth_error_def with (d := n0). rewrite L'. apply idx_bound; lia. }
    erewrite set2_upd; eauto; simpl; try lia. 2:{ simpl in Lc. rewrite Lc, L. apply idx_bound; lia. }
    reflexivity.
  - simpl in L1. unfold par_each2. rewrite E. exists (upd m p bf). split; [reflexivity|].
    pose proof (get_upd_same bf H) as Hp. split; [|split; [|split; [|split; [|split; [|split; [|split]]]]]].
    + exists k, sp, bf. split; [exact Hp|congruence].
    + intros i j Hi Hj. unfold val at 1. rewrite Hp. simpl.
      destruct ((r0 <=? i) && (i <=? r1) && (c0 <=? j) && (j <=? c1)) eqn:Q.
      * repeat rewrite andb_true_iff in Q. destruct Q as (((Q1 & Q2) & Q3) & Q4).
        apply Nat.leb_le in Q1, Q2, Q3, Q4.
        apply nth_error_nth. unfold val. rewrite H'. simpl.
        apply (W (i, j)); [|reflexivity]. apply in_prod_iff. split; apply in_seq; lia.
      * unfold val. rewrite H. simpl.
        assert (nth_error bf (i * C + j) = nth_error b (i * C + j)) as Q'.
        { apply F. intros [i2 j2] Hin _ Eq. apply in_prod_iff in Hin. destruct Hin as [H1 H2]. apply in_seq in H1, H2.
          simpl in Eq. apply idx_inj in Eq; try lia. destruct Eq as [-> ->].
          assert (W' : (r0 <=? i) && (i <=? r1) && (c0 <=? j) && (j <=? c1) = true).
          { repeat rewrite andb_true_iff. repeat split; apply Nat.leb_le; lia. }
          congruence. }
        pose proof (idx_bound Hi Hj) as Bd.
        rewrite (nth_error_def n0) in Q' by lia. rewrite (nth_error_def n0) in Q' by lia. congruence.
    + intros q Hq. apply get_upd_other; auto.
    + apply specials_upd.
    + eapply good_upd; eauto.
    + intros q. unfold name. destruct (Nat.eq_dec p q) as [<-|D]; [rewrite Hp, H; reflexivity|now rewrite get_upd_other].
    + apply next_upd.
    + apply objs_upd.
Qed.

Lemma set_block_reject m p src R C Rs Cs r0 r1 c0 c1 : is_mat m p R C -> is_mat m src Rs Cs ->
  ~ (block_ok R C r0 r1 c0 c1 /\ Rs = r1 - r0 + 1 /\ Cs = c1 - c0 + 1) -> setBlockMat S p (r0, r1) (c0, c1) src m = Rejected.
Proof.
  intros (k & sp & b & H & L) (k' & sp' & b' & H' & L') D. unfold block_ok in D.
  unfold setBlockMat, bind, deref, assert. rewrite H. cbn [fst snd o_rows o_cols].
  destruct (r0 <? R) eqn:E1; auto. destruct (r1 <? R) eqn:E2; auto. destruct (c0 <? C) eqn:E3; auto.
  destruct (c1 <? C) eqn:E4; auto. destruct (r0 <=? r1) eqn:E5; auto. destruct (c0 <=? c1) eqn:E6; auto.
  rewrite H'. cbn [fst snd o_rows o_cols].
  destruct (r1 - r0 + 1 =? Rs) eqn:E7; auto. destruct (c1 - c0 + 1 =? Cs) eqn:E8; auto.
  apply Nat.ltb_lt in E1, E2, E3, E4. apply Nat.leb_le in E5, E6. apply Nat.eqb_eq in E7, E8. intuition lia.
Qed.

Lemma get_block_ok m p r R C r0 r1 c0 c1 : good m -> is_mat m p R C -> block_ok R C r0 r1 c0 c1 -> res_ok m r ->
  not_operand m r (r1 - r0 + 1) (c1 - c0 + 1) p ->
  exists t m', getBlockMat S p (r0, r1) (c0, c1) r m = Ok (t, m') /\
    stored m m' r t (r1 - r0 + 1) (c1 - c0 + 1) (fun i j => val m p (r0 + i) (c0 + j)).
Proof.
  intros G (k & sp & b & H & L) (B1 & B2 & B3 & B4) Hr Hn.
  unfold getBlockMat. unfold bind at 1. unfold deref at 1. rewrite H. cbn [fst snd o_rows o_cols o_space].
  asserts.
  destruct (@pool_ok T N None sp r (r1 - r0 + 1) (c1 - c0 + 1) m G Hr) as (t & m1 & Ep & P); try lia.
  unfold bind at 1. unfold pool. rewrite Ep.
  destruct (pooled_obj G P) as (o & Ho & oR & oC & Lo).
  pose proof (pooled_not_operand P H Hn) as Ne.
  edestruct (@par_scatter T S (nat * nat) m1 t o (list_prod (seq r0 (r1 + 1 - r0)) (seq c0 (c1 + 1 - c0)))
     (fun q => (fst q - r0) * (c1 - c0 + 1) + (snd q - c0)) (fun q => Some (val m p (fst q) (snd q)))
     (fun q => (fun i j => bind (at2 p i j) (fun a => set2 t (i - r0) (j - c0) a)) (fst q) (snd q)) VS Ho)
     as (bf & E & L1 & W & F).
  - apply NoDup_prod; apply seq_NoDup.
  - intros [i j] Hi _. apply in_prod_iff in Hi. destruct Hi as [H1 H2]. apply in_seq in H1, H2. simpl.
    rewrite Lo. apply idx_bound; lia.
  - intros [i j] [i2 j2] Hi Hi2 _ _ E. apply in_prod_iff in Hi, Hi2. destruct Hi as [H1 H2]. destruct Hi2 as [H1' H2'].
    apply in_seq in H1, H2, H1', H2'. simpl in E. apply idx_inj in E; try lia. destruct E. f_equal; lia.
  - intros [i j] c Hi Lc Hc. apply in_prod_iff in Hi. destruct Hi as [H1 H2]. apply in_seq in H1, H2. cbn [fst snd].
    unfold bind at 1.
    assert (Hi : i < R) by lia. assert (Hj : j < C) by lia.
    rewrite (at2_operand c P H L Ne Hi Hj).
    erewrite set2_upd; eauto; rewrite ?oR, ?oC; try lia; try reflexivity; rewrite ?Lc, ?Lo; apply idx_bound; lia.
  - unfold bind at 1. unfold par_each2. rewrite E. exists t, (upd m1 t bf). split; [reflexivity|].
    eapply stored_intro; eauto. intros i j Hi Hj.
    specialize (W (r0 + i, c0 + j) _ ltac:(apply in_prod_iff; split; apply in_seq; lia) eq_refl). cbn [fst snd] in W.
    replace (r0 + i - r0) with i in W by lia. replace (c0 + j - c0) with j in W by lia. exact W.
Qed.

Lemma get_block_reject m p r R C r0 r1 c0 c1 : is_mat m p R C -> ~ block_ok R C r0 r1 c0 c1 ->
  getBlockMat S p (r0, r1) (c0, c1) r m = Rejected.
Proof.
  intros (k & sp & b & H & L) D. unfold block_ok in D.
  unfold getBlockMat, bind, deref, assert. rewrite H. cbn [fst snd o_rows o_cols].
  destruct (r0 <? R) eqn:E1; auto. destruct (r1 <? R) eqn:E2; auto. destruct (c0 <? C) eqn:E3; auto.
  destruct (c1 <? C) eqn:E4; auto. destruct (r0 <=? r1) eqn:E5; auto. destruct (c0 <=? c1) eqn:E6; auto.
  apply Nat.ltb_lt in E1, E2, E3, E4. apply Nat.leb_le in E5, E6. intuition lia.
Qed.

(** ** Rows and columns *)
Lemma get_row_ok m p R C i : good m -> is_mat m p R C -> i < R ->
  exists t m', getRow S p i m = Ok (t, m') /\ stored m m' None t C 1 (fun k _ => val m p i k).
Proof.
  intros G (k & sp & b & H & L) Hi. destruct (G _ _ H) as (PR & PC & _ & _). simpl in PR, PC.
  unfold getRow. unfold bind at 1. unfold deref at 1. rewrite H. cbn [o_rows o_cols]. asserts.
  destruct (@pool_ok T N None CPU None C 1 m G Logic.I PC ltac:(lia)) as (t & m1 & Ep & P).
  unfold pool_with in Ep. unfold bind at 1. rewrite Ep.
  destruct (pooled_obj G P) as (o & Ho & oR & oC & Lo).
  assert (Ne : p <> t). { apply (pooled_not_operand P H). exact Logic.I. }
  edestruct (@par_scatter T S nat m1 t o (seq 0 C) (fun n => n) (fun n => Some (val m p i n))
     (fun n => bind (raw p (i * C + n)) (fun a => rawset t n a)) VS Ho) as (bf & E & L1 & W & F).
  - apply seq_NoDup.
  - intros n Hn _. apply in_seq in Hn. lia.
  - auto.
  - intros n c Hn Lc Hc. apply in_seq in Hn. unfold bind at 1.
    assert (Q : nth_error b (i * C + n) = Some (val m p i n)) by (eapply val_is; eauto; lia).
    rewrite raw_upd_other by auto. unfold raw. rewrite (pl_frame P) by auto. rewrite H. simpl. rewrite Q.
    eapply rawset_upd; eauto. lia.
  - unfold bind at 1. rewrite E. exists t, (upd m1 t bf). split; [reflexivity|].
    eapply stored_intro; eauto. intros a z Ha Hz. replace (a * 1 + z) with a by lia.
    apply (W a); [apply in_seq; lia|reflexivity].
Qed.
Lemma get_row_reject m p R C i : is_mat m p R C -> R <= i -> getRow S p i m = Rejected.
Proof.
  intros (k & sp & b & H & L) Hi. unfold getRow, bind, deref, assert. rewrite H. simpl.
  destruct (i <? R) eqn:E; auto. apply Nat.ltb_lt in E. lia.
Qed.
Lemma get_column_ignores m p R C i i' : is_mat m p R C -> i < C -> i' < C -> getColumn S p i m = getColumn S p i' m.
Proof.
  intros (k & sp & b & H & L) Hi Hi'. unfold getColumn, bind, deref, assert. rewrite H. simpl.
  apply Nat.ltb_lt in Hi, Hi'. rewrite Hi, Hi'. reflexivity.
Qed.

(** ** Padding *)
Lemma pad_ok m p R C pr pc r : good m -> is_mat m p R C -> res_ok m r -> not_operand m r (R + 2 * pr) (C + 2 * pc) p ->
  exists t m', pad S p pr pc r m = Ok (t, m') /\
    stored m m' r t (R + 2 * pr) (C + 2 * pc) (fun i j =>
      if (pr <=? i) && (i <? pr + R) && (pc <=? j) && (j <? pc + C) then val m p (i - pr) (j - pc)
      else old_val m r (space_of m p) (R + 2 * pr) (C + 2 * pc) i j).
Proof.
  intros G (k & sp & b & H & L) Hr Hn. destruct (G _ _ H) as (PR & PC & _ & _). simpl in PR, PC.
  unfold pad. unfold bind at 1. unfold deref at 1. rewrite H. cbn [o_rows o_cols o_space].
  destruct (@pool_ok T N None sp r (R + 2 * pr) (C + 2 * pc) m G Hr) as (t & m1 & Ep & P); try lia.
  unfold bind at 1. unfold pool. rewrite Ep.
  destruct (pooled_obj G P) as (o & Ho & oR & oC & Lo).
  pose proof (pooled_not_operand P H Hn) as Ne.
  destruct (@set_block_ok m1 t p (R + 2 * pr) (C + 2 * pc) pr (pr + R - 1) pc (pc + C - 1)) as (m2 & E & I2 & V & Fr & Sp & G2 & Nm2).
  - apply (pl_good P).
  - exists (o_nidx o), (o_space o), (o_buf o). split; [rewrite Ho; destruct o; simpl in *; subst; reflexivity|congruence].
  - repeat split; lia.
  - exists k, sp, b. rewrite (pl_frame P) by auto. split; [rewrite H; f_equal; f_equal; lia|].
    replace (pr + R - 1 - pr + 1) with R by lia. replace (pc + C - 1 - pc + 1) with C by lia. auto.
  - auto.
  - unfold bind at 1. rewrite E. exists t, m2. split; [reflexivity|].
    split; [exact I2|split; [|split; [exact (pl_where P)|split; [|split; [|split]]]]].
    + intros i j Hi Hj. rewrite V by auto.
      replace (i <=? pr + R - 1) with (i <? pr + R) by (destruct (Nat.leb_spec i (pr + R - 1)); [apply Nat.ltb_lt|apply Nat.ltb_ge]; lia).
      replace (j <=? pc + C - 1) with (j <? pc + C) by (destruct (Nat.leb_spec j (pc + C - 1)); [apply Nat.ltb_lt|apply Nat.ltb_ge]; lia).
      destruct (_ && _).
      * unfold val. rewrite (pl_frame P) by auto. reflexivity.
      * unfold val. rewrite Ho. rewrite oC. apply nth_error_nth.
        replace (space_of m p) with sp by (unfold space_of; rewrite H; reflexivity).
        eapply pooled_old; eauto.
    + intros q Hq. rewrite Fr by auto. apply (pl_frame P); auto.
    + rewrite Sp. apply (pl_special P).
    + destruct Nm2 as (N1 & N2 & N3). destruct (pl_num P) as (Q1 & Q2). split.
      * intros q Hq. rewrite N1. auto.
      * rewrite N2, N3, N1. exact Q2.
    + exact G2.
Qed.

Lemma old_fresh m R C i j : i < R -> j < C -> old_val m None CPU R C i j = n0.
Proof.
  intros Hi Hj. unfold old_val, new_buf. pose proof (idx_bound Hi Hj).
  apply nth_error_nth. rewrite (nth_error_nth' _ n0) by (rewrite repeat_length; auto). f_equal. apply nth_repeat.
Qed.
Lemma old_other_size m q R C i j : i < R -> j < C -> (exists o, get m q = Some o) -> num_elem m q <> R * C ->
  old_val m (Some q) CPU R C i j = n0.
Proof.
  intros Hi Hj (o & Ho) D. unfold old_val. unfold num_elem in D. rewrite Ho in *.
  apply Nat.eqb_neq in D. rewrite D. exact (old_fresh m Hi Hj).
Qed.

(** ResetZero before a kernel: the reused buffer is zero. *)
Lemma reset_zero_ok m r : good m -> res_ok m r ->
  exists m', reset_zero r m = Ok (tt, m') /\ good m' /\ res_ok m' r /\
    (forall q, r <> Some q -> get m' q = get m q) /\ specials m' = specials m /\ next m' = next m /\ length (objs m') = length (objs m) /\
    (forall q, num_elem m' q = num_elem m q) /\ (forall q, name m' q = name m q) /\ (forall q, space_of m' q = space_of m q) /\
    (forall q R C, is_mat m q R C -> is_mat m' q R C) /\
    forall R C i j, i < R -> j < C -> old_val m' r CPU R C i j = n0.
Proof.
  intros G Hr. destruct r as [p|].
  - destruct Hr as (o & Ho). unfold reset_zero, bind, deref. rewrite Ho.
    set (b := repeat n0 (length (o_buf o)) : list T).
    assert (Em : put m p (MkObj (o_nidx o) (o_space o) (o_rows o) (o_cols o) b) = upd m p b).
    { unfold upd. rewrite Ho. reflexivity. }
    rewrite Em. pose proof (get_upd_same b Ho) as Hp. eexists. split; [reflexivity|].
    split. { eapply good_upd; eauto. unfold b. apply repeat_length. }
    split. { exists (with_buf o b). exact Hp. }
    split. { intros q Hq. apply get_upd_other. congruence. }
    split; [apply specials_upd|]. split; [apply next_upd|]. split; [apply objs_upd|].
    split; [|split; [|split; [|split]]].
    + intros q. unfold num_elem. destruct (Nat.eq_dec p q) as [<-|Ne]; [rewrite Hp, Ho; reflexivity|now rewrite get_upd_other].
    + intros q. unfold name. destruct (Nat.eq_dec p q) as [<-|Ne]; [rewrite Hp, Ho; reflexivity|now rewrite get_upd_other].
    + intros q. unfold space_of. destruct (Nat.eq_dec p q) as [<-|Ne]; [rewrite Hp, Ho; reflexivity|now rewrite get_upd_other].
    + intros q R C (k & sp & b' & Hq & Lq). destruct (Nat.eq_dec p q) as [<-|Ne].
      * rewrite Hq in Ho. injection Ho as <-. exists k, sp, b. split; [exact Hp|]. unfold b. rewrite repeat_length. exact Lq.
      * exists k, sp, b'. rewrite get_upd_other; auto.
    + intros R C i j Hi Hj. unfold old_val. rewrite Hp. simpl.
      destruct (o_rows o * o_cols o =? R * C) eqn:E.
      * apply Nat.eqb_eq in E. destruct (G _ _ Ho) as (_ & _ & Lo & _). pose proof (idx_bound Hi Hj).
        unfold b. apply nth_error_nth. rewrite (nth_error_nth' _ n0) by (rewrite repeat_length; lia). f_equal. apply nth_repeat.
      * exact (old_fresh m Hi Hj).
  - exists m. split; [reflexivity|]. split; [exact G|]. split; [exact Logic.I|]. repeat (split; [auto|]). intros R C i j Hi Hj. apply old_fresh; auto.
Qed.

End Blocks.
