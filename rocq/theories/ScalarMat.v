(** * Derivatives of an Expression by all elements of a Matrix<Variable>
      (TensorR2::DevalF, include/Matrix/CommonMatFunctions.hpp:119-160)

    Simplifications: a Matrix<Variable> is the row-major list of the handles of its elements; the
    result matrix (CreateMatrix, line 122) is an array of numbers of the same length with
    arbitrary initial contents.  The destruction of the vector of copies (its reset has no
    observable effect: the handles are not reachable any more) is not modelled.  The overload for operator
    nodes that are not Expressions (lines 143-159) is not modelled. *)

From Coq Require Import List Arith Bool Lia Permutation.
From Verif Require Import Num ScalarModel ScalarSpec ScalarReset ScalarEval ScalarRev ScalarTerm ScalarApi
  ScalarHist ScalarUser ScalarBuild ScalarFacts ScalarMore.
Import ListNotations.
Open Scope num_scope.

Section Model.
Context {T : Type} {N : Num T}.
Notation heap := (heap T).
Variable pad : nat.
(** Vector<Expression> exp_coll(n), line 132: n default-constructed expressions. *)
Fixpoint make_copies (n : nat) (h : heap) : option (list nat * heap) :=
  match n with
  | O => Some ([], h)
  | S n => match step pad CEmpty h with
           | Some (OHandle c, h1) => do (cs, h2) <- make_copies n h1; Some (c :: cs, h2)
           | _ => None
           end
  end.
(** std::fill(exp_coll.begin(), exp_coll.end(), exp), line 134: copy assignments. *)
Fixpoint fill_copies (e : nat) (cs : list nat) (h : heap) : option heap :=
  match cs with
  | [] => Some h
  | c :: cs => do (o, h1) <- step pad (CAssignE c e) h; fill_copies e cs h1
  end.
(** std::transform over the elements in [order], lines 127-128 and 137-138: element k of the result is
    DevalF(k-th expression, k-th variable). *)
Fixpoint transform (es xs : list nat) (order : list nat) (res : nat -> T) (h : heap) : option ((nat -> T) * heap) :=
  match order with
  | [] => Some (res, h)
  | k :: t => match nth_error es k, nth_error xs k with
              | Some c, Some x => match step pad (CDevalF c x) h with
                                  | Some (ONums [y], h1) => transform es xs t (upd res k y) h1
                                  | _ => None
                                  end
              | _, _ => None
              end
  end.
(** Lines 124-141; [direct] is exp.isRecursive() && serial. *)
Definition MDevalF (direct : bool) (e : nat) (xs order : list nat) (res : nat -> T) (h : heap) : option ((nat -> T) * heap) :=
  if direct then transform (repeat e (length xs)) xs order res h
  else match make_copies (length xs) h with
       | Some (cs, h1) => do h2 <- fill_copies e cs h1; transform cs xs order res h2
       | None => None
       end.
End Model.

Section Proofs.
Context {T : Type} {N : Num T}.
Notation store := (store (T := T)). Notation heap := (heap T).

(** st' has the objects of st, and copies of e or empty expressions. *)
Definition grown (e : nat) (st st' : store) : Prop := forall v,
  (st v <> None -> st' v = st v) /\ (st v = None -> st' v = None \/ st' v = Some (OExp [ICopy e]) \/ st' v = Some (OExp [IZero])).
Lemma grown_refl e st : grown e st st.
Proof. intros v. split; auto. Qed.

Section Grown.
Variables (h0 : heap) (st st' : store) (tc : nat -> Prop) (e : nat).
Hypothesis I : Inv h0 st tc.
Hypothesis E : is_exp st e.
Hypothesis Gr : grown e st st'.
Let Ne : st e <> None.
Proof. destruct E as [l Q]. congruence. Qed.
Lemma grown_old v : st v <> None -> st' v = st v.
Proof. exact (proj1 (Gr v)). Qed.
Lemma grown_dep v w : st v <> None -> udep st' v w <-> udep st v w.
Proof. intros Hv. unfold udep. now rewrite (grown_old v Hv). Qed.
Lemma grown_reach w : ureach st' e w <-> ureach st e w.
Proof.
  split; intros H.
  - assert (X : ureach st e w /\ st w <> None); [|tauto]. induction H as [|v w Hv IH Hd]; [split; [constructor|exact Ne]|].
    destruct IH as [Hr Hn]. apply (grown_dep v w Hn) in Hd. split; [econstructor; eauto|]. exact (nothing_refers h0 st tc v w I Hd).
  - induction H as [|v w Hv IH Hd]; [constructor|]. econstructor; [exact IH|]. apply grown_dep; auto. exact (ureach_dom h0 st tc I e v Ne Hv).
Qed.
Lemma grown_values W : uvalues st' e W <-> uvalues st e W.
Proof.
  split; intros H v Hv.
  - rewrite (H v) by now apply grown_reach. now rewrite (grown_old v (ureach_dom h0 st tc I e v Ne Hv)).
  - apply grown_reach in Hv. rewrite (H v Hv). now rewrite (grown_old v (ureach_dom h0 st tc I e v Ne Hv)).
Qed.
Lemma grown_derivs W x D : uderivs st' e W x D <-> uderivs st e W x D.
Proof.
  split; intros H v Hv.
  - rewrite (H v) by now apply grown_reach. now rewrite (grown_old v (ureach_dom h0 st tc I e v Ne Hv)).
  - apply grown_reach in Hv. rewrite (H v Hv). now rewrite (grown_old v (ureach_dom h0 st tc I e v Ne Hv)).
Qed.
Lemma grown_val x : is_val st x -> is_val st' x.
Proof. intros [[y Q]|[l Q]]; [left; exists y|right; exists l]; rewrite grown_old; congruence. Qed.
Lemma grown_exp v : st v <> None -> is_exp st' v -> is_exp st v.
Proof. intros Hv [l Q]. rewrite (grown_old v Hv) in Q. now exists l. Qed.

(** No never-queried expression below e (and e itself, unless it is the root) refers to a queried one. *)
Definition ready (root : bool) (tc : nat -> Prop) : Prop :=
  forall v w, ureach st e v -> (root = true -> v <> e) -> is_exp st v -> ~ tc v -> udep st v w -> is_exp st w -> ~ tc w.
Lemma ready_query tc' : ustrat st e -> ready true tc' -> query_ok st' tc' e.
Proof.
  intros (rank & Rk) Rd. split; [destruct E as [l Q]; exists l; rewrite grown_old; auto|]. split.
  - exists rank. intros v w Hv Hd. apply grown_reach in Hv. apply (grown_dep v w (ureach_dom h0 st tc I e v Ne Hv)) in Hd. auto.
  - intros v w Hv Hne Hx Ht Hd Hw. apply grown_reach in Hv. pose proof (ureach_dom h0 st tc I e v Ne Hv) as Hn.
    apply (grown_dep v w Hn) in Hd. apply (Rd v w); auto; [now apply grown_exp|]. apply grown_exp; auto. exact (nothing_refers h0 st tc v w I Hd).
Qed.
Section Copy.
Variable c : nat.
Hypothesis Hc : st c = None.
Hypothesis Ec : st' c = Some (OExp [ICopy e]).
Let Nce : c <> e.
Proof. intros Q. apply Ne. now rewrite <- Q. Qed.
Lemma copy_dep w : udep st' c w <-> w = e.
Proof.
  split.
  - intros (l & i & Q & Hi & Hw). rewrite Ec in Q. injection Q as <-. destruct Hi as [<-|[]]. simpl in Hw. intuition.
  - intros ->. exists [ICopy e], (ICopy e). split; [exact Ec|]. simpl. auto.
Qed.
Lemma copy_reach w : ureach st' c w <-> w = c \/ ureach st e w.
Proof.
  split; intros H.
  - induction H as [|v w Hv IH Hd]; [auto|]. destruct IH as [->|IH].
    + apply copy_dep in Hd. subst. right. constructor.
    + right. apply (grown_dep v w (ureach_dom h0 st tc I e v Ne IH)) in Hd. econstructor; eauto.
  - destruct H as [->|H]; [constructor|]. apply grown_reach in H.
    assert (R1 : ureach st' c e) by (econstructor; [constructor|now apply copy_dep]).
    induction H as [|v w Hv IH Hd]; auto. econstructor; eauto.
Qed.
Lemma copy_query tc' : ustrat st e -> ready false tc' -> query_ok st' tc' c.
Proof.
  intros (rank & Rk) Rd. split; [now exists [ICopy e]|]. split.
  - exists (fun v => if Nat.eqb v c then S (rank e) else rank v). intros v w Hv Hd. apply copy_reach in Hv. destruct Hv as [->|Hv].
    + rewrite Nat.eqb_refl. apply copy_dep in Hd. subst w. right. destruct (Nat.eqb_spec e c) as [Q|_]; [now symmetry in Q|lia].
    + pose proof (ureach_dom h0 st tc I e v Ne Hv) as Hn. apply (grown_dep v w Hn) in Hd.
      pose proof (nothing_refers h0 st tc v w I Hd) as Hw.
      destruct (Nat.eqb_spec v c) as [Q|_]; [congruence|]. destruct (Nat.eqb_spec w c) as [Q|_]; [congruence|]. auto.
  - intros v w Hv Hne Hx Ht Hd Hw. apply copy_reach in Hv. destruct Hv as [->|Hv]; [congruence|].
    pose proof (ureach_dom h0 st tc I e v Ne Hv) as Hn. apply (grown_dep v w Hn) in Hd.
    apply (Rd v w); auto; [discriminate|now apply grown_exp|]. apply grown_exp; auto. exact (nothing_refers h0 st tc v w I Hd).
Qed.
Lemma copy_values W : uvalues st e W -> uvalues st' c (at_ c (W e) W).
Proof.
  intros V v Hv. apply copy_reach in Hv. destruct Hv as [->|Hv].
  - rewrite at_same, Ec. cbn [fold_left isem]. rewrite at_other by auto. rewrite at_other; auto.
  - pose proof (ureach_dom h0 st tc I e v Ne Hv) as Hn. rewrite at_other by congruence. rewrite (grown_old v Hn).
    rewrite (V v Hv). change (ustep st W v = ustep st (at_ c (W e) W) v). apply ustep_ext. intros w Hw _.
    rewrite at_other; auto. intros ->. now apply (nothing_refers h0 st tc v c I Hw).
Qed.
Lemma copy_derivs W x D : x <> c -> uvalues st e W -> uderivs st e W x D -> uderivs st' c (at_ c (W e) W) x (at_ c (D e) D).
Proof.
  intros Hx V HD v Hv. apply copy_reach in Hv. destruct Hv as [->|Hv].
  - rewrite at_same, Ec. destruct (Nat.eqb_spec c x) as [Q|_]; [congruence|]. cbn [fold_left idsem snd].
    destruct (Nat.eq_dec e x) as [Q|Q].
    + subst x. rewrite at_same. rewrite (HD e) by constructor. now rewrite Nat.eqb_refl.
    + rewrite !at_other by auto. reflexivity.
  - pose proof (ureach_dom h0 st tc I e v Ne Hv) as Hn. rewrite at_other by congruence. rewrite (grown_old v Hn).
    rewrite (HD v Hv). change (udstep st W x D v = udstep st (at_ c (W e) W) x (at_ c (D e) D) v).
    apply udstep_ext; intros w Hw _; (rewrite at_other; auto; intros ->; now apply (nothing_refers h0 st tc v c I Hw)).
Qed.
End Copy.
End Grown.

(** ** The copies *)
Lemma makes_ok pad e st n : is_exp st e -> forall h st1 tc, reached h st1 tc -> grown e st st1 ->
  exists cs h' st', make_copies pad n h = Some (cs, h') /\ length cs = n /\ reached h' st' tc /\ grown e st st' /\
    NoDup cs /\ (forall c, In c cs -> st1 c = None /\ is_exp st' c) /\ (forall v, st1 v <> None -> st' v = st1 v).
Proof.
  intros E. induction n as [|n IH]; intros h st1 tc R Gr.
  - exists [], h, st1. split; [reflexivity|]. split; [reflexivity|]. split; [exact R|]. split; [exact Gr|]. split; [constructor|]. split; [intros c []|auto].
  - destruct (reached_answer h st1 tc CEmpty pad R Logic.I) as (o & h1 & E1 & (c & -> & Hc) & R1). cbn [uafter] in R1. change (touch st1 CEmpty tc) with tc in R1.
    assert (Gr1 : grown e st (put st1 c (OExp [IZero]))).
    { intros v. split; intros Hv.
      - rewrite put_other; [now apply Gr|]. intros ->. rewrite (proj1 (Gr c) Hv) in Hc. contradiction.
      - destruct (Nat.eq_dec v c) as [->|Q]; [rewrite put_same; auto|]. rewrite put_other by auto. now apply Gr. }
    destruct (IH h1 _ tc R1 Gr1) as (cs & h' & st' & E2 & Hl & R2 & Gr2 & Nd & Hcs & Ho).
    exists (c :: cs), h', st'. cbn [make_copies]. rewrite E1, E2. split; [reflexivity|]. split; [simpl; now rewrite Hl|]. split; [exact R2|]. split; [exact Gr2|].
    split; [|split].
    + constructor; auto. intros Hin. destruct (Hcs c Hin) as [Q _]. rewrite put_same in Q. discriminate.
    + intros d [<-|Hd].
      * split; auto. exists [IZero]. rewrite Ho; rewrite put_same; congruence.
      * destruct (Hcs d Hd) as [Q1 Q2]. split; auto. destruct (Nat.eq_dec d c) as [->|Qd]; [auto|]. now rewrite put_other in Q1.
    + intros v Hv. assert (v <> c) by congruence. rewrite Ho; rewrite put_other; auto.
Qed.
Lemma fills_ok pad e st cs : is_exp st e -> NoDup cs -> (forall c, In c cs -> st c = None) -> forall h st1 tc, reached h st1 tc -> grown e st st1 ->
  (forall c, In c cs -> is_exp st1 c) ->
  exists h' st', fill_copies pad e cs h = Some h' /\ reached h' st' tc /\ grown e st st' /\
    (forall c, In c cs -> st' c = Some (OExp [ICopy e])) /\ (forall v, ~ In v cs -> st' v = st1 v).
Proof.
  intros E. induction cs as [|c cs IH]; intros Nd Hn h st1 tc R Gr Hx.
  - exists h, st1. split; [reflexivity|]. split; [exact R|]. split; [exact Gr|]. split; [intros c []|auto].
  - inversion Nd as [|? ? Ni Nd']; subst. assert (E1 : is_exp st1 e) by (destruct E as [l Q]; exists l; rewrite (proj1 (Gr e)); congruence).
    destruct (reached_answer h st1 tc (CAssignE c e) pad R (conj (Hx c (or_introl eq_refl)) E1)) as (o & h1 & S1 & A & R1). simpl in A. subst o.
    cbn [uafter] in R1. change (touch st1 (CAssignE c e) tc) with tc in R1. destruct (Hx c (or_introl eq_refl)) as [l El]. rewrite El in R1.
    assert (Nce : c <> e). { intros Q. destruct E as [le Qe]. rewrite <- Q, (Hn c (or_introl eq_refl)) in Qe. discriminate. }
    rewrite (proj2 (Nat.eqb_neq c e) Nce) in R1.
    assert (Gr1 : grown e st (put st1 c (OExp [ICopy e]))).
    { intros v. split; intros Hv.
      - rewrite put_other; [now apply Gr|]. intros ->. apply Hv. apply Hn. now left.
      - destruct (Nat.eq_dec v c) as [->|Q]; [rewrite put_same; auto|]. rewrite put_other by auto. now apply Gr. }
    destruct (IH Nd' (fun d Hd => Hn d (or_intror Hd)) h1 _ tc R1 Gr1) as (h' & st' & S2 & R2 & Gr2 & Hcs & Ho).
    { intros d Hd. destruct (Nat.eq_dec d c) as [->|Q]; [exists [ICopy e]; apply put_same|]. destruct (Hx d (or_intror Hd)) as [l' Q']. exists l'. rewrite put_other; auto. }
    exists h', st'. cbn [fill_copies]. rewrite S1. split; [exact S2|]. split; [exact R2|]. split; [exact Gr2|]. split.
    + intros d [<-|Hd]; auto. rewrite Ho by auto. apply put_same.
    + intros v Hv. rewrite Ho by (intros Q; apply Hv; now right). apply put_other. intros ->. apply Hv. now left.
Qed.

(** ** The transformation *)
Lemma touched_ready (st : store) e (st' : store) c tc b : is_exp st e -> (forall v, ureach st e v -> ureach st' c v) -> forall x, ready st e b (touch st' (CDevalF c x) tc).
Proof. intros E H x v w Hv _ Hx Ht. exfalso. apply Ht. unfold touch. cbn [uroot]. right. auto. Qed.

Lemma transform_ok pad h0 (st : store) tc0 e es xs b (st' : store) W :
  Inv h0 st tc0 -> is_exp st e -> ustrat st e -> grown e st st' -> uvalues st e W ->
  (forall x, In x xs -> is_val st x) ->
  (forall c, In c es -> (c = e /\ b = true) \/ (st c = None /\ st' c = Some (OExp [ICopy e]) /\ b = false)) ->
  length es = length xs ->
  forall order res h tc, reached h st' tc -> ready st e b tc -> NoDup order -> (forall k, In k order -> k < length xs) ->
  exists res' h' tc', transform pad es xs order res h = Some (res', h') /\ reached h' st' tc' /\ (forall v, tc v -> tc' v) /\
    (forall k, ~ In k order -> res' k = res k) /\
    forall k x D, In k order -> nth_error xs k = Some x -> uderivs st e W x D -> res' k = D e.
Proof.
  intros I E St Gr V Hxs Hes Hl. induction order as [|k order IH]; intros res h tc R Rd Nd Hk.
  - exists res, h, tc. repeat split; auto. contradiction.
  - inversion Nd as [|? ? Ni Nd']; subst. assert (Lk : k < length xs) by (apply Hk; now left).
    destruct (nth_error xs k) as [x|] eqn:Ex; [|apply nth_error_None in Ex; lia].
    destruct (nth_error es k) as [c|] eqn:Ec; [|apply nth_error_None in Ec; lia].
    assert (Hx : is_val st x) by (apply Hxs; exact (nth_error_In _ _ Ex)).
    pose proof (grown_val st st' e Gr x Hx) as Hx'.
    assert (A : query_ok st' tc c /\ (forall v, ureach st e v -> ureach st' c v) /\ forall D, uderivs st e W x D -> exists W' D', uvalues st' c W' /\ uderivs st' c W' x D' /\ D' c = D e).
    { destruct (Hes c (nth_error_In _ _ Ec)) as [[-> ->]|(Hc & Qc & ->)].
      - split; [exact (ready_query h0 st st' tc0 e I E Gr tc St Rd)|]. split; [intros v; apply (grown_reach h0 st st' tc0 e I E Gr)|].
        intros D HD. exists W, D. split; [now apply (grown_values h0 st st' tc0 e I E Gr)|]. split; [now apply (grown_derivs h0 st st' tc0 e I E Gr)|reflexivity].
      - split; [exact (copy_query h0 st st' tc0 e I E Gr c Hc Qc tc St Rd)|]. split; [intros v Hv; apply (copy_reach h0 st st' tc0 e I E Gr c Qc); auto|].
        intros D HD. exists (at_ c (W e) W), (at_ c (D e) D). split; [now apply (copy_values h0 st st' tc0 e I E Gr c Hc Qc)|].
        split; [|apply at_same]. apply (copy_derivs h0 st st' tc0 e I E Gr c Hc Qc); auto. intros ->. destruct Hx as [[? Q]|[? Q]]; congruence. }
    destruct A as (Q & Rc & AD).
    destruct (reached_answer h st' tc (CDevalF c x) pad R (conj Q Hx')) as (o & h1 & S1 & (y & -> & Ay) & R1). cbn [uafter] in R1.
    destruct (IH (upd res k y) h1 _ R1 (touched_ready st e st' c tc b E Rc x) Nd' (fun j Hj => Hk j (or_intror Hj))) as (res' & h' & tc' & S2 & R2 & Tc & Ho & Hd).
    exists res', h', tc'. cbn [transform]. rewrite Ec, Ex, S1. split; [exact S2|]. split; [exact R2|]. split; [|split].
    + intros v Hv. apply Tc. unfold touch. cbn [uroot]. auto.
    + intros j Hj. rewrite Ho by (intros Q'; apply Hj; now right). unfold upd. destruct (Nat.eqb_spec j k) as [->|]; auto. exfalso. apply Hj. now left.
    + intros j x' D [<-|Hj] Hx'' HD; [|eauto]. rewrite Ex in Hx''. injection Hx'' as <-. rewrite Ho by auto. unfold upd. rewrite Nat.eqb_refl.
      destruct (AD D HD) as (W' & D' & V' & HD' & <-). exact (Ay W' D' V' HD').
Qed.

Theorem mdevalF_ok pad h st tc e xs direct order res : reached h st tc -> query_ok st tc e ->
  (direct = false -> tc e \/ forall w, udep st e w -> is_exp st w -> ~ tc w) ->
  (forall x, In x xs -> is_val st x) -> Permutation order (seq 0 (length xs)) ->
  exists res' h' st' tc', MDevalF pad direct e xs order res h = Some (res', h') /\
    reached h' st' tc' /\ (forall v, st v <> None -> st' v = st v) /\
    forall W, uvalues st e W -> forall k x D, nth_error xs k = Some x -> uderivs st e W x D -> res' k = D e.
Proof.
  intros R Q Hd Hxs Po. pose proof (reached_inv _ _ _ R) as I. destruct Q as (E & St & Qt).
  destruct (uvalues_exist st e St) as (W & V).
  assert (Nd : NoDup order) by (apply (Permutation_NoDup (Permutation_sym Po)); apply seq_NoDup).
  assert (Hk : forall k, In k order <-> k < length xs).
  { intros k. rewrite Po, in_seq. lia. }
  assert (Fin : forall (res' : nat -> T), (forall k x D, In k order -> nth_error xs k = Some x -> uderivs st e W x D -> res' k = D e) ->
     forall W, uvalues st e W -> forall k x D, nth_error xs k = Some x -> uderivs st e W x D -> res' k = D e).
  { intros res' H W' V' k x D Hx HD. apply (H k x D); auto.
    - apply Hk. apply nth_error_Some. congruence.
    - apply (uderivs_same st e W' W); auto. exact (uvalues_unique st e W' W St V' V). }
  unfold MDevalF. destruct direct.
  - destruct (transform_ok pad h st tc e (repeat e (length xs)) xs true st W I E St (grown_refl e st) V Hxs) with (order := order) (res := res) (h := h) (tc := tc)
      as (res' & h' & tc' & S1 & R1 & _ & _ & H); auto.
    + intros c Hc. apply repeat_spec in Hc. auto.
    + apply repeat_length.
    + intros v w Hv Hne. apply Qt; auto.
    + intros k. apply Hk.
    + exists res', h', st, tc'. split; [exact S1|]. split; [exact R1|]. split; [auto|]. now apply Fin.
  - destruct (makes_ok pad e st (length xs) E h st tc R (grown_refl e st)) as (cs & h1 & st1 & S1 & Hl & R1 & Gr1 & Nc & Hcs & Ho).
    destruct (fills_ok pad e st cs E Nc (fun c Hc => proj1 (Hcs c Hc)) h1 st1 tc R1 Gr1 (fun c Hc => proj2 (Hcs c Hc))) as (h2 & st2 & S2 & R2 & Gr2 & Hc2 & Ho2).
    rewrite S1, S2.
    destruct (transform_ok pad h st tc e cs xs false st2 W I E St Gr2 V Hxs) with (order := order) (res := res) (h := h2) (tc := tc)
      as (res' & h' & tc' & S3 & R3 & _ & _ & H); auto.
    + intros c Hc. right. split; [exact (proj1 (Hcs c Hc))|]. split; [auto|reflexivity].
    + intros v w Hv _ Hx Ht Hdp Hw. destruct (Nat.eq_dec v e) as [Qv|Qv]; [|exact (Qt v w Hv Qv Hx Ht Hdp Hw)]. subst v.
      destruct (Hd eq_refl) as [Q|Q]; [contradiction|]. now apply Q.
    + intros k. apply Hk.
    + exists res', h', st2, tc'. split; [exact S3|]. split; [exact R3|]. split; [intros v; apply Gr2|]. now apply Fin.
Qed.
End Proofs.
