(** * The chain of a matrix with several items is a well-formed program *)
From Coq Require Import List Arith Bool Lia.
From Verif Require Import Num MatMem Kernels KernelFacts Registry Backend Slots Exec MatEngine MatGraph MatEval MatSpec MatRec MatRecSim.
Import ListNotations.
Set Implicit Arguments.
Unset Strict Implicit.
Local Open Scope nat_scope.

Section Wf.
Context {T : Type} {N : Num T}.
Variable G : graph T.
Variable host : nat -> option obj.
Variable rank : obj -> nat.
Variable F : obj.
Variable ms : list (nat * mexp T * obj).
Variable bnd : nat.
(** The matrix F is assigned an expression first, and then, for every member of ms, an expression over F
    itself and over matrices built before F. *)
Definition clean (o : obj) : Prop := o < bnd /\ rank o < rank F.
Record rec_wf (id0 : nat) (a0 : mexp T) (y0 : obj) : Prop := {
  rw_wf : wf_graph G host rank;
  rw_F : g_kind G F = KExp id0 a0 y0;
  rw_bnd : F < bnd;
  rw_old : forall o id a y o', o < bnd -> g_kind G o = KExp id a y -> In o' (leaves (item id a y)) -> o' < bnd;
  rw_new : forall o, bnd <= o -> g_kind G o = LConst;
  rw_leaves : forall id a y o, In (id, a, y) ms -> In o (leaves (item id a y)) -> o = F \/ clean o;
  rw_dims : forall id a y, In (id, a, y) ms -> rows G a = g_rows G F /\ cols G a = g_cols G F;
  rw_eye : forall id a y, In (id, a, y) ms -> g_kind G y = LEye /\ g_rows G y = cols G a /\ g_cols G y = cols G a;
  rw_nodup : NoDup (nodes (item id0 a0 y0) ++ flat_map (fun m => nodes (item (fst (fst m)) (snd (fst m)) (snd m))) ms);
  rw_host : forall id a y i, In (id, a, y) ms -> In i (nodes (item id a y)) -> host i = Some F
}.
Variable id0 : nat.
Variable a0 : mexp T.
Variable y0 : obj.
Hypothesis W : rec_wf id0 a0 y0.
Notation part := (part F bnd).
Notation sub := (MatRecSim.sub (T := T) F).
Notation G' := (chain G F ms bnd).
Notation n := (length ms).
Definition items : list (nat * mexp T * obj) := (id0, a0, y0) :: ms.

Lemma sub_id e : sub F e = e.
Proof. induction e as [o|b id l IHl r IHr|u id a IHa]; simpl; [destruct (Nat.eqb_spec o F) as [->|]; reflexivity|now rewrite IHl, IHr|now rewrite IHa]. Qed.
Lemma y_not_F id a y : In (id, a, y) ms -> y <> F.
Proof. intros H ->. destruct (rw_eye W H) as [E _]. rewrite (rw_F W) in E. discriminate. Qed.
Lemma sub_item q id a y : y <> F -> sub q (item id a y) = item id (sub q a) y.
Proof. intros H. unfold item. simpl. apply Nat.eqb_neq in H. now rewrite H. Qed.
Lemma y0_not_F : y0 <> F.
Proof. intros ->. destruct (wf_eye (rw_wf W) (rw_F W)) as [E _]. rewrite (rw_F W) in E. discriminate. Qed.
Lemma items_y j id a y : nth_error items j = Some (id, a, y) -> y <> F.
Proof.
  destruct j as [|j]; simpl; intros H; [injection H as <- <- <-; apply y0_not_F|]. apply nth_error_In in H. eapply y_not_F; eauto.
Qed.
Lemma F_not_clean : ~ clean F.
Proof. intros [_ H]. lia. Qed.
Lemma clean_closed o id a y o' : clean o -> g_kind G o = KExp id a y -> In o' (leaves (item id a y)) -> clean o'.
Proof. intros [H1 H2] Hk Hin. split; [eapply (rw_old W); eauto|]. pose proof (wf_rank (rw_wf W) Hk Hin). lia. Qed.
Lemma leaf0 o : In o (leaves (item id0 a0 y0)) -> clean o.
Proof. intros H. split; [eapply (rw_old W); [apply (rw_bnd W)|apply (rw_F W)|exact H]|]. exact (wf_rank (rw_wf W) (rw_F W) H). Qed.
Lemma items_leaves j id a y o : nth_error items j = Some (id, a, y) -> In o (leaves (item id a y)) -> clean o \/ (negb (j =? 0) = true /\ o = F).
Proof.
  destruct j as [|j]; simpl; intros H Hin; [injection H as <- <- <-; left; now apply leaf0|].
  apply nth_error_In in H. destruct (rw_leaves W H Hin) as [->|C]; auto.
Qed.
Lemma kind_item j id a y : nth_error items j = Some (id, a, y) -> g_kind G' (part j) = KExp id (sub (part (j - 1)) a) y.
Proof.
  destruct j as [|j]; intros H.
  - simpl in H. injection H as <- <- <-. change (part 0) with F. simpl Nat.sub. change (part 0) with F. rewrite sub_id, (kind_old G F ms (rw_bnd W)). apply (rw_F W).
  - simpl in H. rewrite (kind_part G F bnd H). simpl Nat.sub. now rewrite Nat.sub_0_r.
Qed.
Lemma items_len j id a y : nth_error items j = Some (id, a, y) -> j <= n.
Proof. intros H. assert (j < length items) by (apply nth_error_Some; congruence). simpl in *. lia. Qed.
Lemma items_some j : j <= n -> exists id a y, nth_error items j = Some (id, a, y).
Proof.
  intros H. destruct (nth_error items j) as [[[id a] y]|] eqn:E; [eauto|]. apply nth_error_None in E. simpl in E. lia.
Qed.
(** Every object of the chain is old or a part. *)
Lemma kinds o : (o < bnd /\ g_kind G' o = g_kind G o) \/ (exists j id a y, o = part (Datatypes.S j) /\ nth_error ms j = Some (id, a, y)) \/ g_kind G' o = LConst.
Proof.
  destruct (Nat.lt_ge_cases o bnd) as [H|H]; [left; split; [exact H|now apply kind_old]|right].
  destruct (nth_error ms (o - bnd)) as [[[id a] y]|] eqn:E.
  - left. exists (o - bnd), id, a, y. split; [simpl; lia|exact E].
  - right. simpl. replace (bnd <=? o) with true by (symmetry; now apply Nat.leb_le). rewrite E. now apply (rw_new W).
Qed.

(** *** Who owns a node, and in which order the objects are built *)
Fixpoint find_item (i : nat) (l : list (nat * mexp T * obj)) : option nat :=
  match l with
  | [] => None
  | (id, a, y) :: t => if existsb (Nat.eqb i) (nodes (item id a y)) then Some 0 else option_map Datatypes.S (find_item i t)
  end.
Definition host' (i : nat) : option obj := match find_item i ms with Some j => Some (part (Datatypes.S j)) | None => host i end.
Definition rank' (o : obj) : nat := if bnd <=? o then rank F * Datatypes.S n + Datatypes.S (o - bnd) else rank o * Datatypes.S n.

Lemma mem_nodes i (l : list nat) : existsb (Nat.eqb i) l = true <-> In i l.
Proof. rewrite existsb_exists. split; [intros (k & H & E); apply Nat.eqb_eq in E; now subst|intros H; exists i; split; [exact H|apply Nat.eqb_refl]]. Qed.
Lemma find_none i l : find_item i l = None <-> (forall id a y, In (id, a, y) l -> ~ In i (nodes (item id a y))).
Proof.
  induction l as [|[[id a] y] t IH]; cbn [find_item]; [split; [intros _ id a y []|reflexivity]|].
  destruct (existsb (Nat.eqb i) (nodes (item id a y))) eqn:E.
  - split; [discriminate|]. intros H. apply mem_nodes in E. destruct (H id a y (or_introl eq_refl) E).
  - split.
    + intros H. destruct (find_item i t) eqn:Et; [discriminate|]. intros id' a' y' [[= <- <- <-]|Hin].
      * intros Q. apply mem_nodes in Q. congruence.
      * now apply IH.
    + intros H. replace (find_item i t) with (@None nat); [reflexivity|]. symmetry. apply IH. intros id1 a1 y1 H0. apply (H id1 a1 y1). now right.
Qed.
Lemma find_some i l j : find_item i l = Some j -> exists id a y, nth_error l j = Some (id, a, y) /\ In i (nodes (item id a y)).
Proof.
  revert j. induction l as [|[[id a] y] t IH]; cbn [find_item]; intros j H; [discriminate|].
  destruct (existsb (Nat.eqb i) (nodes (item id a y))) eqn:E.
  - injection H as <-. exists id, a, y. split; [reflexivity|]. now apply mem_nodes.
  - destruct (find_item i t) as [j'|]; [|discriminate]. injection H as <-. destruct (IH j' eq_refl) as (? & ? & ? & ? & ?). simpl. eauto 6.
Qed.
Definition its (l : list (nat * mexp T * obj)) := flat_map (fun m => nodes (item (fst (fst m)) (snd (fst m)) (snd m))) l.
Lemma in_its l id a y i : In (id, a, y) l -> In i (nodes (item id a y)) -> In i (its l).
Proof. intros H Hi. apply in_flat_map. exists (id, a, y). auto. Qed.
Lemma find_at i l : NoDup (its l) -> forall j id a y, nth_error l j = Some (id, a, y) -> In i (nodes (item id a y)) -> find_item i l = Some j.
Proof.
  induction l as [|[[id a] y] t IH]; intros Nd j id' a' y' H Hin; [destruct j; discriminate|].
  unfold its in Nd. cbn [flat_map fst snd] in Nd. destruct (NoDup_app_inv Nd) as (N1 & N2 & Dj). cbn [find_item].
  destruct j as [|j]; simpl in H.
  - injection H as <- <- <-. apply mem_nodes in Hin. rewrite Hin. reflexivity.
  - destruct (existsb (Nat.eqb i) (nodes (item id a y))) eqn:E.
    + apply mem_nodes in E. destruct (Dj i E). eapply in_its; [eapply nth_error_In; eauto|exact Hin].
    + rewrite (IH N2 _ _ _ _ H Hin). reflexivity.
Qed.
Lemma its_nodup l j id a y : NoDup (its l) -> nth_error l j = Some (id, a, y) -> NoDup (nodes (item id a y)).
Proof.
  revert j. induction l as [|[[id' a'] y'] t IH]; intros j Nd H; [destruct j; discriminate|].
  unfold its in Nd. cbn [flat_map fst snd] in Nd. destruct (NoDup_app_inv Nd) as (N1 & N2 & _).
  destruct j as [|j]; simpl in H; [injection H as <- <- <-; exact N1|]. eapply IH; eauto.
Qed.
Lemma host_none i o : host i = Some o -> o <> F -> find_item i ms = None.
Proof. intros H Ne. apply find_none. intros id a y Hin Hi. rewrite (rw_host W Hin Hi) in H. congruence. Qed.
Lemma host_old i : host i = None -> host' i = None.
Proof.
  intros H. unfold host'. replace (find_item i ms) with (@None nat); [exact H|]. symmetry. apply find_none. intros id a y Hin Hi.
  rewrite (rw_host W Hin Hi) in H. discriminate.
Qed.
Lemma rank_old o : o < bnd -> rank' o = rank o * Datatypes.S n.
Proof. intros H. unfold rank'. apply Nat.leb_gt in H. now rewrite H. Qed.
Lemma rank_part j : rank' (part j) = rank F * Datatypes.S n + j.
Proof.
  destruct j as [|j].
  - change (part 0) with F. rewrite rank_old by apply (rw_bnd W). lia.
  - unfold rank'. simpl. replace (bnd <=? bnd + j) with true by (symmetry; apply Nat.leb_le; lia). f_equal. lia.
Qed.
Lemma rank_clean o : clean o -> rank' o < rank F * Datatypes.S n.
Proof. intros [H1 H2]. rewrite rank_old by exact H1. apply Nat.mul_lt_mono_pos_r; [apply Nat.lt_0_succ|exact H2]. Qed.
Lemma old_dims e : (forall o, In o (leaves e) -> o < bnd) -> rows G' e = rows G e /\ cols G' e = cols G e.
Proof. intros H. pose proof (@rows_sub T G F ms bnd (rw_bnd W) 0 (Nat.le_0_l _) e H) as Q. change (MatRecSim.part F bnd 0) with F in Q. rewrite sub_id in Q. exact Q. Qed.
Lemma item_bnd id a y o : In (id, a, y) ms -> In o (leaves (item id a y)) -> o < bnd.
Proof. intros H Hin. destruct (rw_leaves W H Hin) as [->|[C _]]; [apply (rw_bnd W)|exact C]. Qed.
Lemma in_item id (a : mexp T) y o : In o (leaves a) -> In o (leaves (item id a y)).
Proof. intros H. unfold item. simpl. apply in_or_app. auto. Qed.

Theorem chain_wf : wf_graph G' host' rank'.
Proof.
  pose proof (rw_wf W) as W0. pose proof (rw_bnd W) as HF.
  assert (Nd : NoDup (its ms)) by (pose proof (rw_nodup W) as Q; apply NoDup_app_inv in Q; tauto).
  constructor.
  - intros o. cbn [chain g_rows g_cols]. destruct (is_part ms bnd o); apply (wf_pos W0).
  - intros o id e y o' Hk Hin. destruct (kinds o) as [[Ho E]|[(j & id' & a' & y' & -> & Hj)|E]]; [| |congruence].
    + rewrite E in Hk. rewrite rank_old by (exact (rw_old W Ho Hk Hin)). rewrite rank_old by exact Ho.
      apply Nat.mul_lt_mono_pos_r; [lia|]. exact (wf_rank W0 Hk Hin).
    + rewrite (kind_part G F bnd Hj) in Hk. injection Hk as <- <- <-. rewrite rank_part. pose proof (nth_error_In _ _ Hj) as Hm.
      assert (Q : o' = part j \/ clean o').
      { rewrite <- (sub_item _ _ _ (y_not_F Hm)) in Hin. destruct (leaves_sub Hin) as [[-> _]|[Ne Hin']]; [auto|]. destruct (rw_leaves W Hm Hin'); tauto. }
      destruct Q as [->|C]; [rewrite rank_part; lia|]. pose proof (rank_clean C). lia.
  - intros o id e y Hk. destruct (kinds o) as [[Ho E]|[(j & id' & a' & y' & -> & Hj)|E]]; [| |congruence].
    + rewrite E in Hk. destruct (wf_nodes W0 Hk) as [N1 N2]. split; [exact N1|]. intros i Hi. unfold host'.
      destruct (Nat.eq_dec o F) as [->|Ne].
      * rewrite (rw_F W) in Hk. injection Hk as <- <- <-. replace (find_item i ms) with (@None nat); [now apply N2|]. symmetry. apply find_none.
        intros id a y Hin Hi'. destruct (NoDup_app_inv (rw_nodup W)) as (_ & _ & Dj). apply (Dj i Hi). eapply in_its; eauto.
      * rewrite (host_none (N2 i Hi) Ne). now apply N2.
    + rewrite (kind_part G F bnd Hj) in Hk. injection Hk as <- <- <-. pose proof (nth_error_In _ _ Hj) as Hm.
      rewrite <- (sub_item _ _ _ (y_not_F Hm)), nodes_sub. split; [eapply its_nodup; eauto|]. intros i Hi. unfold host'. now rewrite (find_at Nd Hj Hi).
  - intros o id e y Hk. destruct (kinds o) as [[Ho E]|[(j & id' & a' & y' & -> & Hj)|E]]; [| |congruence].
    + rewrite E in Hk. rewrite (rows_old G F ms Ho), (cols_old G F ms Ho). destruct (@old_dims e) as [-> ->]; [intros o' Ho'; eapply (rw_old W Ho Hk); now apply in_item|].
      exact (wf_dims W0 Hk).
    + rewrite (kind_part G F bnd Hj) in Hk. injection Hk as <- <- <-. pose proof (nth_error_In _ _ Hj) as Hm.
      assert (Hlen : j < length ms) by (apply nth_error_Some; congruence).
      destruct (@rows_part T G F ms bnd HF (Datatypes.S j) ltac:(lia)) as [-> ->].
      destruct (@rows_sub T G F ms bnd HF j ltac:(lia) a') as [-> ->]; [intros o Ho; eapply item_bnd; eauto; now apply in_item|].
      destruct (rw_dims W Hm) as [-> ->]. auto.
  - intros o id e y Hk. destruct (kinds o) as [[Ho E]|[(j & id' & a' & y' & -> & Hj)|E]]; [| |congruence].
    + rewrite E in Hk. destruct (wf_eye W0 Hk) as (K & R & C).
      assert (Hy : y < bnd) by (eapply (rw_old W Ho Hk); unfold item; simpl; apply in_or_app; simpl; auto).
      rewrite (kind_old G F ms Hy), (rows_old G F ms Hy), (cols_old G F ms Hy). destruct (@old_dims e) as [_ ->]; [intros o' Ho'; eapply (rw_old W Ho Hk); now apply in_item|]. auto.
    + rewrite (kind_part G F bnd Hj) in Hk. injection Hk as <- <- <-. pose proof (nth_error_In _ _ Hj) as Hm.
      assert (Hlen : j < length ms) by (apply nth_error_Some; congruence).
      assert (Hy : y' < bnd) by (eapply item_bnd; [exact Hm|]; unfold item; simpl; apply in_or_app; simpl; auto).
      rewrite (kind_old G F ms Hy), (rows_old G F ms Hy), (cols_old G F ms Hy).
      destruct (@rows_sub T G F ms bnd HF j ltac:(lia) a') as [_ ->]; [intros o Ho; eapply item_bnd; eauto; now apply in_item|]. exact (rw_eye W Hm).
Qed.
End Wf.
