(** * Correctness of the naive kernels for every result buffer and schedule *)

From Coq Require Import List Arith Bool Lia Permutation.
From Verif Require Import Num MatMem Kernels KernelFacts.
Import ListNotations.
Set Implicit Arguments.
Unset Strict Implicit.

(** Independent description of sums: f 0 + f 1 + ... + f (n-1), added left to right to zero. *)
Section Sum.
Context {T : Type} {N : Num T}.
Fixpoint sum_n (n : nat) (f : nat -> T) : T :=
  match n with 0 => n0 | S k => nadd (sum_n k f) (f k) end.
Lemma fold_sum n (f : nat -> T) : fold_left (fun a k => nadd a (f k)) (seq 0 n) n0 = sum_n n f.
Proof. induction n as [|n IH]; auto. rewrite seq_S, fold_left_app. simpl. now rewrite IH. Qed.
Lemma sum_n_ext n (f g : nat -> T) : (forall k, k < n -> f k = g k) -> sum_n n f = sum_n n g.
Proof. induction n as [|n IH]; intros H; simpl; auto. rewrite IH by (intros; apply H; lia). now rewrite H by lia. Qed.
End Sum.

Section Proofs.
Context {T : Type} {N : Num T}.
Notation mem := (mem T).
Notation M := (M T).
Variable S : sched T.
Hypothesis VS : valid_sched S.
Implicit Types (m : mem).

Lemma space_eqb_refl s : space_eqb s s = true.
Proof. destruct s; reflexivity. Qed.

Lemma val_is m p k sp R C b i j : get m p = Some (MkObj k sp R C b) -> length b = R * C -> i < R -> j < C ->
  nth_error b (i * C + j) = Some (val m p i j).
Proof. intros H L Hi Hj. apply (val_nth (o := MkObj k sp R C b)) ; auto. Qed.

(** An operand read during the loop, result buffer currently b. *)
Lemma raw_operand fill sp m r R C p m' q oq o b k x : pooled fill sp m r R C p m' ->
  get m q = Some oq -> (q = p -> o_rows oq = R /\ o_cols oq = C) -> get m' p = Some o ->
  nth_error (o_buf oq) k = Some x -> (q = p -> nth_error b k = nth_error (o_buf o) k) ->
  raw q k (upd m' p b) = Ok (x, upd m' p b).
Proof.
  intros P Hq Hs Ho E Hb. pose proof (pooled_operand P Hq Hs) as Hq'.
  destruct (Nat.eq_dec q p) as [->|Ne].
  - rewrite Hq' in Ho. injection Ho as <-. eapply raw_upd_same; eauto. rewrite Hb; auto.
  - rewrite raw_upd_other by auto. rewrite (raw_ok Hq' E). reflexivity.
Qed.

Lemma elementwise_ok op a b r m R C : good m -> is_mat m a R C -> is_mat m b R C -> space_of m a = space_of m b ->
  res_ok m r ->
  exists p m', elementwise S op a b r m = Ok (p, m') /\
    stored m m' r p R C (fun i j => op (val m a i j) (val m b i j)).
Proof.
  intros G (ka & sa & ba & Ha & La) (kb & sb & bb & Hb & Lb) Es Hr.
  destruct (G _ _ Ha) as (PR & PC & _ & _). simpl in PR, PC.
  unfold space_of in Es. rewrite Ha, Hb in Es. simpl in Es. subst sb.
  unfold elementwise. unfold bind at 1. unfold deref at 1. rewrite Ha.
  unfold bind at 1. unfold deref at 1. rewrite Hb. cbn [o_rows o_cols o_space].
  unfold bind at 1. unfold assert at 1. rewrite !Nat.eqb_refl. cbn [andb].
  unfold bind at 1. unfold assert at 1. rewrite space_eqb_refl.
  destruct (pool_ok None sa G Hr PR PC) as (p & m1 & Ep & P).
  unfold bind at 1. unfold pool. rewrite Ep.
  destruct (pooled_obj G P) as (o & Ho & oR & oC & Lo).
  edestruct (@par_scatter T S nat m1 p o (seq 0 (R * C)) (fun n => n)
     (fun n => Some (op (nth n ba n0) (nth n bb n0)))
     (fun n => bind (raw a n) (fun x => bind (raw b n) (fun y => rawset p n (op x y)))) VS Ho) as (b' & E & L' & W & _).
  - apply seq_NoDup.
  - intros n Hn _. apply in_seq in Hn. lia.
  - auto.
  - intros n c Hn Lc Hc. apply in_seq in Hn.
    assert (Hk : nth_error c n = nth_error (o_buf o) n). { apply Hc. intros j _ Hj _. auto. }
    unfold bind at 1.
    rewrite (raw_operand P Ha (fun _ => conj eq_refl eq_refl) Ho (nth_error_def n0 (l := ba) (k := n) ltac:(lia)) (fun _ => Hk)).
    unfold bind at 1.
    rewrite (raw_operand P Hb (fun _ => conj eq_refl eq_refl) Ho (nth_error_def n0 (l := bb) (k := n) ltac:(lia)) (fun _ => Hk)).
    eapply rawset_upd; eauto. lia.
  - unfold bind at 1. cbv zeta in E. rewrite E. exists p, (upd m1 p b'). split; [reflexivity|].
    eapply stored_intro; eauto.
    intros i j Hi Hj. unfold val. rewrite Ha, Hb. simpl. apply W; auto.
    apply in_seq. pose proof (idx_bound Hi Hj). lia.
Qed.

Lemma elementwise_reject op a b r m Ra Ca Rb Cb : is_mat m a Ra Ca -> is_mat m b Rb Cb ->
  (Ra <> Rb \/ Ca <> Cb) -> elementwise S op a b r m = Rejected.
Proof.
  intros (ka & sa & ba & Ha & La) (kb & sb & bb & Hb & Lb) D.
  unfold elementwise, bind, deref, assert. rewrite Ha, Hb. simpl.
  destruct (Ra =? Rb) eqn:E1; auto. destruct (Cb =? Ca) eqn:E2; auto. apply Nat.eqb_eq in E1, E2. intuition congruence.
Qed.

Lemma elementwise1_ok op a r m R C : good m -> is_mat m a R C -> res_ok m r ->
  exists p m', elementwise1 S op a r m = Ok (p, m') /\ stored m m' r p R C (fun i j => op (val m a i j)).
Proof.
  intros G (ka & sa & ba & Ha & La) Hr.
  destruct (G _ _ Ha) as (PR & PC & _ & _). simpl in PR, PC.
  unfold elementwise1. unfold bind at 1. unfold deref at 1. rewrite Ha. cbn [o_rows o_cols o_space].
  destruct (pool_ok None sa G Hr PR PC) as (p & m1 & Ep & P).
  unfold bind at 1. unfold pool. rewrite Ep.
  destruct (pooled_obj G P) as (o & Ho & oR & oC & Lo).
  edestruct (@par_scatter T S nat m1 p o (seq 0 (R * C)) (fun n => n) (fun n => Some (op (nth n ba n0)))
     (fun n => bind (raw a n) (fun x => rawset p n (op x))) VS Ho) as (b' & E & L' & W & _).
  - apply seq_NoDup.
  - intros n Hn _. apply in_seq in Hn. lia.
  - auto.
  - intros n c Hn Lc Hc. apply in_seq in Hn.
    assert (Hk : nth_error c n = nth_error (o_buf o) n). { apply Hc. intros j _ Hj _. auto. }
    unfold bind at 1.
    rewrite (raw_operand P Ha (fun _ => conj eq_refl eq_refl) Ho (nth_error_def n0 (l := ba) (k := n) ltac:(lia)) (fun _ => Hk)).
    eapply rawset_upd; eauto. lia.
  - unfold bind at 1. cbv zeta in E. rewrite E. exists p, (upd m1 p b'). split; [reflexivity|].
    eapply stored_intro; eauto.
    intros i j Hi Hj. unfold val. rewrite Ha. simpl. apply W; auto.
    apply in_seq. pose proof (idx_bound Hi Hj). lia.
Qed.

(** ** Kernels whose operands are not the result matrix *)
(** Operand q (not the result) read through operator() while the result buffer is b. *)
Lemma at2_operand fill sp m r R C p m' q k s Rq Cq bq b i j : pooled fill sp m r R C p m' ->
  get m q = Some (MkObj k s Rq Cq bq) -> length bq = Rq * Cq -> q <> p -> i < Rq -> j < Cq ->
  at2 q i j (upd m' p b) = Ok (val m q i j, upd m' p b).
Proof.
  intros P Hq Lq Ne Hi Hj. eapply at2_other; eauto.
  - rewrite (pl_frame P); eauto.
  - auto.
  - auto.
  - simpl. eapply val_is; eauto.
Qed.

Lemma inner_product_ok m a b i j ms t : 
  (forall k, In k ms -> at2 a i k m = Ok (val m a i k, m) /\ at2 b k j m = Ok (val m b k j, m)) ->
  inner_product a b i j ms t m = Ok (fold_left (fun acc k => nadd acc (nmul (val m a i k) (val m b k j))) ms t, m).
Proof.
  revert t. induction ms as [|k ms IH]; intros t H; [reflexivity|].
  simpl. unfold bind. destruct (H k (or_introl eq_refl)) as [-> E]. rewrite E.
  apply IH. intros k' Hk'. apply H. right; auto.
Qed.

(** The pooled result is not an operand: it is new, or it is a different matrix. *)
Definition not_operand m (r : option ptr) (R C : nat) (a : ptr) : Prop :=
  match r with Some q => num_elem m q = R * C -> q <> a | None => True end.
Lemma pooled_not_operand fill sp m r R C p m' a o : pooled fill sp m r R C p m' -> get m a = Some o ->
  not_operand m r R C a -> a <> p.
Proof.
  intros P Ha H. destruct (pl_cases P) as [(-> & o' & Ho & E & _)|(-> & _ & _)].
  - simpl in H. intros ->. apply H; auto. unfold num_elem. now rewrite Ho.
  - apply get_lt in Ha. lia.
Qed.

Lemma pooled_name fill sp m r R C p m' a oa o : good m -> pooled fill sp m r R C p m' -> get m a = Some oa ->
  get m' p = Some o ->
  (match r with Some q => num_elem m q = R * C -> name m q <> o_nidx oa | None => True end) -> o_nidx oa <> o_nidx o.
Proof.
  intros G P Ha Ho H. destruct (pl_cases P) as [(-> & o' & Ho' & E & Hm)|(-> & Hm & _)].
  - rewrite Hm in Ho. injection Ho as <-. simpl. unfold num_elem, name in H. rewrite Ho' in H. intros Eq. apply H; auto.
  - rewrite Hm in Ho. injection Ho as <-. simpl. destruct (G _ _ Ha) as (_ & _ & _ & L). lia.
Qed.

Lemma val_upd_other m p q b i j : p <> q -> val (upd m p b) q i j = val m q i j.
Proof. intros H. unfold val. now rewrite get_upd_other. Qed.

Lemma MatMul_ok a b r m R K C : good m -> is_mat m a R K -> is_mat m b K C -> space_of m a = space_of m b ->
  res_ok m r ->
  match r with Some q => num_elem m q = R * C -> name m q <> name m a /\ name m q <> name m b | None => True end ->
  exists p m', MatMul S a b r m = Ok (p, m') /\
    stored m m' r p R C (fun i j => sum_n K (fun k => nmul (val m a i k) (val m b k j))).
Proof.
  intros G (ka & sa & ba & Ha & La) (kb & sb & bb & Hb & Lb) Es Hr Hn.
  destruct (G _ _ Ha) as (PR & PK & _ & _). destruct (G _ _ Hb) as (_ & PC & _ & _). simpl in PR, PC, PK.
  unfold space_of in Es. rewrite Ha, Hb in Es. simpl in Es. subst sb.
  assert (Na : match r with Some q => num_elem m q = R * C -> name m q <> ka | None => True end).
  { destruct r as [q|]; auto. intros E. destruct (Hn E) as [H _]. unfold name in H at 2. rewrite Ha in H. exact H. }
  assert (Nb : match r with Some q => num_elem m q = R * C -> name m q <> kb | None => True end).
  { destruct r as [q|]; auto. intros E. destruct (Hn E) as [_ H]. unfold name in H at 2. rewrite Hb in H. exact H. }
  unfold MatMul. unfold bind at 1. unfold deref at 1. rewrite Ha.
  unfold bind at 1. unfold deref at 1. rewrite Hb. cbn [o_rows o_cols o_space o_nidx].
  unfold bind at 1. unfold assert at 1. rewrite !Nat.eqb_refl.
  unfold bind at 1. unfold assert at 1. rewrite space_eqb_refl.
  destruct (pool_ok None sa G Hr PR PC) as (p & m1 & Ep & P).
  unfold bind at 1. unfold pool. rewrite Ep.
  destruct (pooled_obj G P) as (o & Ho & oR & oC & Lo).
  unfold bind at 1. unfold deref at 1. rewrite Ho.
  pose proof (pooled_name G P Ha Ho Na) as D1. pose proof (pooled_name G P Hb Ho Nb) as D2. simpl in D1, D2.
  apply Nat.eqb_neq in D1. apply Nat.eqb_neq in D2.
  unfold bind at 1. unfold assert at 1. rewrite D1. cbn [negb].
  unfold bind at 1. unfold assert at 1. rewrite D2. cbn [negb].
  assert (Ne_a : a <> p).
  { eapply pooled_not_operand; eauto. destruct r as [q|]; simpl; auto. intros E ->. apply (Na E). unfold name. now rewrite Ha. }
  assert (Ne_b : b <> p).
  { eapply pooled_not_operand; eauto. destruct r as [q|]; simpl; auto. intros E ->. apply (Nb E). unfold name. now rewrite Hb. }
  edestruct (@par_scatter T S nat m1 p o (seq 0 (R * C)) (fun n => n)
     (fun n => Some (sum_n K (fun k => nmul (val m a (n / C) k) (val m b k (n mod C)))))
     (fun n => let j := n mod C in let i := (n - j) / C in
        bind (inner_product a b i j (seq 0 K) n0) (fun tmp => set2 p i j tmp)) VS Ho) as (b' & E & L' & W & _).
  - apply seq_NoDup.
  - intros n Hi _. apply in_seq in Hi. lia.
  - auto.
  - intros n c Hi Lc Hc. apply in_seq in Hi. destruct (@idx_split n R C ltac:(lia)) as (I1 & I2 & I3).
    cbv zeta. rewrite idx_div. unfold bind at 1.
    rewrite inner_product_ok.
    2:{ intros k Hk. apply in_seq in Hk.
        rewrite !val_upd_other by auto.
        replace (val m1 a (n / C) k) with (val m a (n / C) k) by (unfold val; rewrite (pl_frame P); auto).
        replace (val m1 b k (n mod C)) with (val m b k (n mod C)) by (unfold val; rewrite (pl_frame P); auto).
        split; eapply at2_operand; eauto; lia. }
    erewrite set2_upd; eauto; try lia.
    rewrite oC, I3. f_equal. f_equal. f_equal. f_equal. rewrite fold_sum. apply sum_n_ext. intros k Hk.
    rewrite !val_upd_other by auto.
    unfold val. rewrite !(pl_frame P) by auto. reflexivity.
  - unfold bind at 1. cbv zeta in E. rewrite E. exists p, (upd m1 p b'). split; [reflexivity|].
    eapply stored_intro; eauto.
    intros i j Hi Hj. erewrite W; [|apply in_seq; pose proof (idx_bound Hi Hj); lia|reflexivity].
    f_equal. rewrite idx_row, idx_col by auto. reflexivity.
Qed.

Lemma MatMul_reject a b r m Ra Ca Rb Cb : is_mat m a Ra Ca -> is_mat m b Rb Cb -> Ca <> Rb -> MatMul S a b r m = Rejected.
Proof.
  intros (ka & sa & ba & Ha & La) (kb & sb & bb & Hb & Lb) D.
  unfold MatMul, bind, deref, assert. rewrite Ha, Hb. simpl.
  destruct (Ca =? Rb) eqn:E; auto. apply Nat.eqb_eq in E. congruence.
Qed.

(** Passing one of the operands as a result of matching size is rejected. *)
Lemma MatMul_alias a b q m R K C : good m -> is_mat m a R K -> is_mat m b K C -> space_of m a = space_of m b ->
  (exists o, get m q = Some o) -> num_elem m q = R * C -> (name m q = name m a \/ name m q = name m b) ->
  MatMul S a b (Some q) m = Rejected.
Proof.
  intros G (ka & sa & ba & Ha & La) (kb & sb & bb & Hb & Lb) Es Hr He Hn.
  destruct (G _ _ Ha) as (PR & PK & _ & _). destruct (G _ _ Hb) as (_ & PC & _ & _). simpl in PR, PC, PK.
  unfold space_of in Es. rewrite Ha, Hb in Es. simpl in Es. subst sb.
  unfold MatMul. unfold bind at 1. unfold deref at 1. rewrite Ha.
  unfold bind at 1. unfold deref at 1. rewrite Hb. cbn [o_rows o_cols o_space o_nidx].
  unfold bind at 1. unfold assert at 1. rewrite !Nat.eqb_refl.
  unfold bind at 1. unfold assert at 1. rewrite space_eqb_refl.
  destruct (@pool_ok T N None sa (Some q) R C m G Hr PR PC) as (p & m1 & Ep & P).
  unfold bind at 1. unfold pool. rewrite Ep.
  destruct (pl_cases P) as [(Eq & o & Ho & E & Hm)|(_ & _ & Hm)]; [|congruence].
  injection Eq as <-.
  unfold bind at 1. unfold deref at 1. rewrite Hm. cbn [o_nidx].
  unfold name in Hn. rewrite Ha, Hb, Ho in Hn. simpl in Hn.
  unfold bind at 1. unfold assert at 1.
  destruct (ka =? o_nidx o) eqn:E1; [reflexivity|]. cbn [negb].
  unfold bind at 1. unfold assert at 1.
  destruct (kb =? o_nidx o) eqn:E2; [reflexivity|].
  apply Nat.eqb_neq in E1, E2. destruct Hn; congruence.
Qed.

(** ** Transpose *)
Lemma MatTranspose_ok a r m R C : good m -> is_mat m a R C -> res_ok m r -> not_operand m r C R a ->
  exists p m', MatTranspose S a r m = Ok (p, m') /\ stored m m' r p C R (fun i j => val m a j i).
Proof.
  intros G (ka & sa & ba & Ha & La) Hr Hn.
  destruct (G _ _ Ha) as (PR & PC & _ & _). simpl in PR, PC.
  unfold MatTranspose. unfold bind at 1. unfold deref at 1. rewrite Ha. cbn [o_rows o_cols o_space].
  destruct (pool_ok None sa G Hr PC PR) as (p & m1 & Ep & P).
  unfold bind at 1. unfold pool. rewrite Ep.
  destruct (pooled_obj G P) as (o & Ho & oR & oC & Lo).
  pose proof (pooled_not_operand P Ha Hn) as Ne.
  edestruct (@par_scatter T S nat m1 p o (seq 0 (R * C)) (fun n => (n mod C) * R + n / C)
     (fun n => Some (val m a (n / C) (n mod C)))
     (fun n => let j := n mod C in let i := (n - j) / C in
        bind (at2 a i j) (fun x => set2 p j i x)) VS Ho) as (b' & E & L' & W & _).
  - apply seq_NoDup.
  - intros n Hi _. apply in_seq in Hi. destruct (@idx_split n R C ltac:(lia)) as (I1 & I2 & I3).
    rewrite Lo. apply idx_bound; auto.
  - intros n n' Hi Hi' _ _ E. apply in_seq in Hi, Hi'.
    destruct (@idx_split n R C ltac:(lia)) as (I1 & I2 & I3). destruct (@idx_split n' R C ltac:(lia)) as (J1 & J2 & J3).
    destruct (idx_inj I1 J1 E) as [E1 E2]. rewrite <- I3, <- J3. congruence.
  - intros n c Hi Lc Hc. apply in_seq in Hi. destruct (@idx_split n R C ltac:(lia)) as (I1 & I2 & I3).
    cbv zeta. rewrite idx_div. unfold bind at 1.
    rewrite (at2_operand c P Ha La Ne I1 I2).
    erewrite set2_upd; eauto.
    all: rewrite ?oR, ?oC; auto. rewrite Lc, Lo. apply idx_bound; auto.
  - unfold bind at 1. cbv zeta in E. rewrite E. exists p, (upd m1 p b'). split; [reflexivity|].
    eapply stored_intro; eauto.
    intros i j Hi Hj.
    assert (Q : nth_error b' ((j * C + i) mod C * R + (j * C + i) / C) = Some (val m a ((j * C + i) / C) ((j * C + i) mod C))).
    { apply W; auto. apply in_seq. pose proof (idx_bound Hj Hi). lia. }
    rewrite idx_col, idx_row in Q by auto. exact Q.
Qed.

Lemma derv_transpose_ok Rf Cf Rx Cx a r m : good m -> is_mat m a (Rf * Rx) (Cf * Cx) -> res_ok m r ->
  not_operand m r (Cf * Rx) (Rf * Cx) a ->
  exists p m', MatDervTranspose S Rf Cf Rx Cx a r m = Ok (p, m') /\
    stored m m' r p (Cf * Rx) (Rf * Cx) (fun x y => val m a (y / Cx * Rx + x mod Rx) (x / Rx * Cx + y mod Cx)).
Proof.
  intros G (ka & sa & ba & Ha & La) Hr Hn.
  destruct (G _ _ Ha) as (PR & PC & _ & _). simpl in PR, PC.
  assert (QR : 0 < Cf * Rx) by nia. assert (QC : 0 < Rf * Cx) by nia.
  unfold MatDervTranspose. unfold bind at 1. unfold deref at 1. rewrite Ha. cbn [o_rows o_cols o_space].
  destruct (pool_ok None sa G Hr QR QC) as (p & m1 & Ep & P).
  unfold bind at 1. unfold pool. rewrite Ep.
  destruct (pooled_obj G P) as (o & Ho & oR & oC & Lo).
  pose proof (pooled_not_operand P Ha Hn) as Ne.
  edestruct (@par_scatter T S (nat * nat) m1 p o (list_prod (seq 0 (Cf * Rf)) (seq 0 (Cx * Rx)))
     (fun q => (snd q / Cx + (fst q mod Cf) * Rx) * (Rf * Cx) + (snd q mod Cx + (fst q / Cf) * Cx))
     (fun q => Some (val m a (snd q / Cx + (fst q / Cf) * Rx) (snd q mod Cx + (fst q mod Cf) * Cx)))
     (fun q => (fun n1 n2 => let j := n1 mod Cf in let i := (n1 - j) / Cf in
        let k := n2 mod Cx in let l := (n2 - k) / Cx in
        bind (at2 a (l + i * Rx) (k + j * Cx)) (fun x => set2 p (l + j * Rx) (k + i * Cx) x)) (fst q) (snd q)) VS Ho)
     as (b' & E & L' & W & _).
  - apply NoDup_prod; apply seq_NoDup.
  - intros [n1 n2] Hi _. apply in_prod_iff in Hi. destruct Hi as [H1 H2]. apply in_seq in H1, H2. simpl.
    destruct (@idx_split n1 Rf Cf ltac:(lia)) as (I1 & I2 & I3). destruct (@idx_split n2 Rx Cx ltac:(lia)) as (J1 & J2 & J3).
    rewrite Lo. apply idx_bound.
    + rewrite Nat.add_comm. apply idx_bound; auto.
    + rewrite Nat.add_comm. apply idx_bound; auto.
  - intros [n1 n2] [n1' n2'] Hi Hi' _ _ E. apply in_prod_iff in Hi, Hi'. destruct Hi as [H1 H2]. destruct Hi' as [H1' H2'].
    apply in_seq in H1, H2, H1', H2'. simpl in E.
    destruct (@idx_split n1 Rf Cf ltac:(lia)) as (I1 & I2 & I3). destruct (@idx_split n2 Rx Cx ltac:(lia)) as (J1 & J2 & J3).
    destruct (@idx_split n1' Rf Cf ltac:(lia)) as (I1' & I2' & I3'). destruct (@idx_split n2' Rx Cx ltac:(lia)) as (J1' & J2' & J3').
    apply idx_inj in E.
    2:{ rewrite Nat.add_comm. apply idx_bound; auto. }
    2:{ rewrite Nat.add_comm. apply idx_bound; auto. }
    destruct E as [E1 E2]. rewrite !(Nat.add_comm (_ / Cx)) in E1. rewrite !(Nat.add_comm (_ mod Cx)) in E2.
    destruct (idx_inj J1 J1' E1) as [F1 F2]. destruct (idx_inj J2 J2' E2) as [F3 F4].
    f_equal; congruence.
  - intros [n1 n2] c Hi Lc Hc. apply in_prod_iff in Hi. destruct Hi as [H1 H2]. apply in_seq in H1, H2. simpl fst; simpl snd.
    destruct (@idx_split n1 Rf Cf ltac:(lia)) as (I1 & I2 & I3). destruct (@idx_split n2 Rx Cx ltac:(lia)) as (J1 & J2 & J3).
    cbv beta zeta. cbn [fst snd]. rewrite !idx_div. unfold bind at 1.
    assert (A1 : n2 / Cx + n1 / Cf * Rx < Rf * Rx) by (rewrite Nat.add_comm; apply idx_bound; auto).
    assert (A2 : n2 mod Cx + n1 mod Cf * Cx < Cf * Cx) by (rewrite Nat.add_comm; apply idx_bound; auto).
    assert (A3 : n2 / Cx + n1 mod Cf * Rx < Cf * Rx) by (rewrite Nat.add_comm; apply idx_bound; auto).
    assert (A4 : n2 mod Cx + n1 / Cf * Cx < Rf * Cx) by (rewrite Nat.add_comm; apply idx_bound; auto).
    rewrite (at2_operand c P Ha La Ne A1 A2).
    erewrite set2_upd; eauto; rewrite ?oR, ?oC; auto.
    rewrite Lc, Lo. apply idx_bound; auto.
  - unfold bind at 1. unfold par_each2. cbv zeta in E. rewrite E. exists p, (upd m1 p b'). split; [reflexivity|].
    eapply stored_intro; eauto. intros x y Hx Hy.
    destruct (@idx_split x Cf Rx ltac:(lia)) as (I1 & I2 & I3). destruct (@idx_split y Rf Cx ltac:(lia)) as (J1 & J2 & J3).
    specialize (W ((y / Cx) * Cf + x / Rx, (x mod Rx) * Cx + y mod Cx) _
       ltac:(apply in_prod_iff; split; apply in_seq; [pose proof (idx_bound J1 I1)|pose proof (idx_bound I2 J2)]; lia) eq_refl).
    cbn [fst snd] in W. rewrite !idx_row, !idx_col in W by auto.
    rewrite (Nat.add_comm (x mod Rx)), (Nat.add_comm (y mod Cx)), I3, J3 in W.
    rewrite (Nat.add_comm (x mod Rx)), (Nat.add_comm (y mod Cx)) in W. exact W.
Qed.

(** ** Kronecker product *)
(** The contents of the pooled result buffer before the kernel writes to it. *)
Definition old_val m (r : option ptr) (sp : space) (R C : nat) (i j : nat) : T :=
  match r with
  | Some q => match get m q with
              | Some o => if o_rows o * o_cols o =? R * C then nth (i * C + j) (o_buf o) n0
                          else nth (i * C + j) (new_buf sp (R * C) None (junk m (next m))) n0
              | None => n0
              end
  | None => nth (i * C + j) (new_buf sp (R * C) None (junk m (next m))) n0
  end.
Lemma pooled_old sp m r R C p m' o i j : res_ok m r -> pooled None sp m r R C p m' -> get m' p = Some o -> length (o_buf o) = R * C ->
  i < R -> j < C -> nth_error (o_buf o) (i * C + j) = Some (old_val m r sp R C i j).
Proof.
  intros Hr P Ho Lo Hi Hj. rewrite (nth_error_def n0) by (rewrite Lo; apply idx_bound; auto). f_equal.
  destruct (pl_cases P) as [(-> & o' & Ho' & E & Hm)|(-> & Hm & D)].
  - rewrite Hm in Ho. injection Ho as <-. unfold old_val. rewrite Ho', E, Nat.eqb_refl. reflexivity.
  - rewrite Hm in Ho. injection Ho as <-. unfold old_val. destruct r as [q|]; [|reflexivity].
    destruct Hr as (oq & Hq). unfold num_elem in D. rewrite Hq in *.
    destruct (o_rows oq * o_cols oq =? R * C) eqn:E; [apply Nat.eqb_eq in E; congruence|reflexivity].
Qed.

Lemma MatKron_ok a b r m Ra Ca Rb Cb : good m -> is_mat m a Ra Ca -> is_mat m b Rb Cb -> space_of m a = space_of m b ->
  res_ok m r -> not_operand m r (Ra * Rb) (Ca * Cb) a -> not_operand m r (Ra * Rb) (Ca * Cb) b ->
  exists p m', MatKron S a b r m = Ok (p, m') /\
    stored m m' r p (Ra * Rb) (Ca * Cb) (fun x y =>
      if neqb (val m a (x / Rb) (y / Cb)) n0 then old_val m r (space_of m b) (Ra * Rb) (Ca * Cb) x y
      else nmul (val m b (x mod Rb) (y mod Cb)) (val m a (x / Rb) (y / Cb))).
Proof.
  intros G (ka & sa & ba & Ha & La) (kb & sb & bb & Hb & Lb) Es Hr Hna Hnb.
  destruct (G _ _ Ha) as (PRa & PCa & _ & _). destruct (G _ _ Hb) as (PRb & PCb & _ & _). simpl in PRa, PCa, PRb, PCb.
  unfold space_of in Es. rewrite Ha, Hb in Es. simpl in Es. subst sb.
  assert (QR : 0 < Ra * Rb) by nia. assert (QC : 0 < Ca * Cb) by nia.
  unfold MatKron. unfold bind at 1. unfold deref at 1. rewrite Ha.
  unfold bind at 1. unfold deref at 1. rewrite Hb. cbn [o_rows o_cols o_space].
  unfold bind at 1. unfold assert at 1. rewrite space_eqb_refl.
  destruct (pool_ok None sa G Hr QR QC) as (p & m1 & Ep & P).
  unfold bind at 1. unfold pool. rewrite Ep.
  destruct (pooled_obj G P) as (o & Ho & oR & oC & Lo).
  pose proof (pooled_not_operand P Ha Hna) as Nea. pose proof (pooled_not_operand P Hb Hnb) as Neb.
  set (w := fun q : nat * nat => let v := val m a (fst q / Ca) (fst q mod Ca) in
      if neqb v n0 then None else Some (nmul (val m b (snd q / Cb) (snd q mod Cb)) v)).
  edestruct (@par_scatter T S (nat * nat) m1 p o (list_prod (seq 0 (Ra * Ca)) (seq 0 (Rb * Cb)))
     (fun q => ((fst q / Ca) * Rb + snd q / Cb) * (Ca * Cb) + ((fst q mod Ca) * Cb + snd q mod Cb)) w
     (fun q => (fun n1 n2 => let j := n1 mod Ca in let i := (n1 - j) / Ca in
        bind (at2 a i j) (fun v => if neqb v n0 then ret tt else
        let k := n2 mod Cb in let l := (n2 - k) / Cb in
        bind (at2 b l k) (fun y => set2 p (i * Rb + l) (j * Cb + k) (nmul y v)))) (fst q) (snd q)) VS Ho)
     as (b' & E & L' & W & F).
  - apply NoDup_prod; apply seq_NoDup.
  - intros [n1 n2] Hi _. apply in_prod_iff in Hi. destruct Hi as [H1 H2]. apply in_seq in H1, H2. simpl.
    destruct (@idx_split n1 Ra Ca ltac:(lia)) as (I1 & I2 & I3). destruct (@idx_split n2 Rb Cb ltac:(lia)) as (J1 & J2 & J3).
    rewrite Lo. apply idx_bound; apply idx_bound; auto.
  - intros [n1 n2] [n1' n2'] Hi Hi' _ _ E. apply in_prod_iff in Hi, Hi'. destruct Hi as [H1 H2]. destruct Hi' as [H1' H2'].
    apply in_seq in H1, H2, H1', H2'. simpl in E.
    destruct (@idx_split n1 Ra Ca ltac:(lia)) as (I1 & I2 & I3). destruct (@idx_split n2 Rb Cb ltac:(lia)) as (J1 & J2 & J3).
    destruct (@idx_split n1' Ra Ca ltac:(lia)) as (I1' & I2' & I3'). destruct (@idx_split n2' Rb Cb ltac:(lia)) as (J1' & J2' & J3').
    apply idx_inj in E; [|apply idx_bound; auto|apply idx_bound; auto].
    destruct E as [E1 E2].
    destruct (idx_inj J1 J1' E1) as [F1 F2]. destruct (idx_inj J2 J2' E2) as [F3 F4].
    f_equal; congruence.
  - intros [n1 n2] c Hi Lc Hc. apply in_prod_iff in Hi. destruct Hi as [H1 H2]. apply in_seq in H1, H2. unfold w. simpl fst; simpl snd.
    destruct (@idx_split n1 Ra Ca ltac:(lia)) as (I1 & I2 & I3). destruct (@idx_split n2 Rb Cb ltac:(lia)) as (J1 & J2 & J3).
    cbv beta zeta. cbn [fst snd]. rewrite !idx_div. unfold bind at 1.
    rewrite (at2_operand c P Ha La Nea I1 I2).
    destruct (neqb _ n0); [reflexivity|].
    unfold bind at 1. rewrite (at2_operand c P Hb Lb Neb J1 J2).
    erewrite set2_upd; eauto; rewrite ?oR, ?oC; auto.
    + apply idx_bound; auto.
    + apply idx_bound; auto.
    + rewrite Lc, Lo. apply idx_bound; apply idx_bound; auto.
  - unfold bind at 1. unfold par_each2. cbv zeta in E. rewrite E. exists p, (upd m1 p b'). split; [reflexivity|].
    eapply stored_intro; eauto.
    intros x y Hx Hy.
    destruct (@idx_split x Ra Rb ltac:(lia)) as (I1 & I2 & I3). destruct (@idx_split y Ca Cb ltac:(lia)) as (J1 & J2 & J3).
    set (q := ((x / Rb) * Ca + y / Cb, (x mod Rb) * Cb + y mod Cb)).
    assert (Iq : In q (list_prod (seq 0 (Ra * Ca)) (seq 0 (Rb * Cb)))).
    { apply in_prod_iff. split; apply in_seq; [pose proof (idx_bound I1 J1)|pose proof (idx_bound I2 J2)]; lia. }
    assert (Lq : ((fst q / Ca) * Rb + snd q / Cb) * (Ca * Cb) + ((fst q mod Ca) * Cb + snd q mod Cb) = x * (Ca * Cb) + y).
    { unfold q. simpl fst; simpl snd. rewrite !idx_row, !idx_col by auto. rewrite I3, J3. reflexivity. }
    assert (Wq : w q = if neqb (val m a (x / Rb) (y / Cb)) n0 then None else Some (nmul (val m b (x mod Rb) (y mod Cb)) (val m a (x / Rb) (y / Cb)))).
    { unfold w, q. simpl fst; simpl snd. rewrite !idx_row, !idx_col by auto. reflexivity. }
    destruct (neqb (val m a (x / Rb) (y / Cb)) n0) eqn:Z.
    + rewrite F.
      * replace (space_of m b) with sa by (unfold space_of; rewrite Hb; reflexivity). eapply pooled_old; eauto.
      * intros q' Hq' Wq' Eq. rewrite <- Lq in Eq.
        destruct q' as [n1 n2]. apply in_prod_iff in Hq'. destruct Hq' as [H1 H2]. apply in_seq in H1, H2. simpl fst in Eq; simpl snd in Eq.
        destruct (@idx_split n1 Ra Ca ltac:(lia)) as (K1 & K2 & K3). destruct (@idx_split n2 Rb Cb ltac:(lia)) as (K1' & K2' & K3').
        unfold q in Eq. simpl in Eq. rewrite !idx_row, !idx_col in Eq by auto.
        apply idx_inj in Eq; [|apply idx_bound; auto|apply idx_bound; auto].
        destruct Eq as [E1 E2]. destruct (idx_inj K1' I2 E1) as [F1 F2]. destruct (idx_inj K2' J2 E2) as [F3 F4].
        apply Wq'. unfold w. simpl. rewrite F1, F3, Z. reflexivity.
    + rewrite <- Lq. apply W; auto.
Qed.

(** ** Trace *)
Lemma trace_loop_ok m a ns t : (forall n, In n ns -> at2 a n n m = Ok (val m a n n, m)) ->
  trace_loop a ns t m = Ok (fold_left (fun acc n => nadd acc (val m a n n)) ns t, m).
Proof.
  revert t. induction ns as [|n ns IH]; intros t H; [reflexivity|].
  simpl. unfold bind. rewrite (H n (or_introl eq_refl)). apply IH. intros k Hk. apply H. right; auto.
Qed.

(** The diagonal entries are added in the order of some permutation. *)
Lemma MatTrace_from a r m n : good m -> is_mat m a n n -> res_ok m r -> not_operand m r 1 1 a ->
  exists p m' order, MatTrace S a r m = Ok (p, m') /\ (exists m1, order = S m1 (seq 0 n)) /\
    stored m m' r p 1 1 (fun _ _ => fold_left (fun acc k => nadd acc (val m a k k)) order n0).
Proof.
  intros G (ka & sa & ba & Ha & La) Hr Hn.
  destruct (G _ _ Ha) as (PR & PC & _ & _). simpl in PR, PC.
  unfold MatTrace. unfold bind at 1. unfold deref at 1. rewrite Ha. cbn [o_rows o_cols o_space].
  unfold bind at 1. unfold assert at 1. rewrite Nat.eqb_refl.
  destruct (@pool_ok T N None sa r 1 1 m G Hr) as (p & m1 & Ep & P); try lia.
  unfold bind at 1. unfold pool. rewrite Ep.
  destruct (pooled_obj G P) as (o & Ho & oR & oC & Lo).
  pose proof (pooled_not_operand P Ha Hn) as Ne.
  unfold bind at 1. rewrite trace_loop_ok.
  2:{ intros k Hk. apply (Permutation_in _ (VS m1 (seq 0 n))) in Hk. apply in_seq in Hk.
      replace (val m1 a k k) with (val m a k k) by (unfold val; rewrite (pl_frame P); auto).
      assert (K : k < n) by lia.
      pose proof (@at2_operand _ _ _ _ _ _ _ _ _ _ _ _ _ _ (o_buf o) k k P Ha La Ne K K) as Q.
      rewrite (upd_id Ho) in Q. exact Q. }
  set (t := fold_left _ _ _).
  unfold bind at 1. unfold set1. unfold bind at 1. unfold deref at 1. rewrite Ho. unfold bind at 1. unfold assert at 1.
  rewrite oR, oC. simpl Nat.ltb.
  pose proof (@rawset_upd _ m1 p o (o_buf o) 0 t Ho ltac:(lia)) as Q. rewrite (upd_id Ho) in Q. cbn [Nat.mul Nat.add]. 
  change (0 <? 1) with true. cbv iota. rewrite Q.
  exists p, (upd m1 p (list_set (o_buf o) 0 t)), (S m1 (seq 0 n)). split; [reflexivity|]. split; [eauto|].
  eapply stored_intro; eauto.
  - now rewrite length_list_set.
  - intros i j Hi Hj. replace (i * 1 + j) with 0 by lia. rewrite nth_list_set_eq by lia. f_equal.
    unfold t. clear Q t. set (l := S m1 (seq 0 n)). clearbody l. generalize (n0 : T). induction l as [|k l IH]; intros z; simpl; auto.
    rewrite <- IH. f_equal. f_equal. unfold val. rewrite (pl_frame P); auto.
Qed.

Lemma MatTrace_ok a r m n : good m -> is_mat m a n n -> res_ok m r -> not_operand m r 1 1 a ->
  exists p m' order, MatTrace S a r m = Ok (p, m') /\ Permutation order (seq 0 n) /\
    stored m m' r p 1 1 (fun _ _ => fold_left (fun acc k => nadd acc (val m a k k)) order n0).
Proof.
  intros G Ha Hr Hn. destruct (MatTrace_from G Ha Hr Hn) as (p & m' & o & E & (m1 & ->) & St). exists p, m', (S m1 (seq 0 n)).
  split; [exact E|]. split; [apply VS|exact St].
Qed.

Lemma MatTrace_reject a r m R C : is_mat m a R C -> R <> C -> MatTrace S a r m = Rejected.
Proof.
  intros (ka & sa & ba & Ha & La) D. unfold MatTrace, bind, deref, assert. rewrite Ha. simpl.
  destruct (R =? C) eqn:E; auto. apply Nat.eqb_eq in E. congruence.
Qed.

End Proofs.
