(** * Facts about the matrix memory: pools, loops of disjoint writes *)

From Coq Require Import List Arith Bool Lia Permutation.
From Verif Require Import Num MatMem Kernels.
Import ListNotations.
Set Implicit Arguments.
Unset Strict Implicit.

Lemma length_list_set A (l : list A) k x : length (list_set l k x) = length l.
Proof. revert k. induction l as [|y l IH]; intros [|k]; simpl; auto. Qed.
Lemma nth_list_set_eq A (l : list A) k x : k < length l -> nth_error (list_set l k x) k = Some x.
Proof. revert k. induction l as [|y l IH]; intros [|k] H; simpl in *; try lia; auto. apply IH; lia. Qed.
Lemma nth_list_set_neq A (l : list A) k k' x : k <> k' -> nth_error (list_set l k x) k' = nth_error l k'.
Proof. revert k k'. induction l as [|y l IH]; intros [|k] [|k'] H; simpl; auto; try congruence. Qed.
Lemma list_set_id A (l : list A) k x : nth_error l k = Some x -> list_set l k x = l.
Proof. revert k. induction l as [|y l IH]; intros [|k] H; simpl in *; try congruence. f_equal; auto. Qed.
Lemma list_set_set A (l : list A) k x y : list_set (list_set l k x) k y = list_set l k y.
Proof. revert k. induction l as [|z l IH]; intros [|k]; simpl; auto. f_equal; auto. Qed.
Lemma nth_error_lt A (l : list A) k x : nth_error l k = Some x -> k < length l.
Proof. intros H. apply nth_error_Some. congruence. Qed.
Lemma nth_error_def A (l : list A) k d : k < length l -> nth_error l k = Some (nth k l d).
Proof. intros H. apply nth_error_nth'. auto. Qed.

(** Row-major index arithmetic. *)
Lemma idx_bound R C i j : i < R -> j < C -> i * C + j < R * C.
Proof. intros. nia. Qed.
Lemma idx_col C i j : j < C -> (i * C + j) mod C = j.
Proof. intros H. rewrite Nat.add_comm, Nat.mod_add by lia. apply Nat.mod_small; auto. Qed.
Lemma idx_row C i j : j < C -> (i * C + j) / C = i.
Proof. intros H. rewrite Nat.div_add_l by lia. rewrite Nat.div_small by auto. lia. Qed.
Lemma idx_inj C i j i' j' : j < C -> j' < C -> i * C + j = i' * C + j' -> i = i' /\ j = j'.
Proof.
  intros H H' E. pose proof (idx_row i H). pose proof (idx_row i' H').
  pose proof (idx_col i H). pose proof (idx_col i' H'). rewrite E in *. split; congruence.
Qed.
(** i = (n - n mod C) / C, as the loops compute it. *)
Lemma idx_div n C : (n - n mod C) / C = n / C.
Proof.
  destruct C as [|C]; [reflexivity|].
  rewrite (Nat.div_mod n (S C)) at 1 by lia.
  replace (S C * (n / S C) + n mod S C - n mod S C) with (n / S C * S C) by lia.
  apply Nat.div_mul. lia.
Qed.
Lemma idx_split n R C : n < R * C -> n / C < R /\ n mod C < C /\ n / C * C + n mod C = n.
Proof.
  intros H. assert (C <> 0) by nia. split; [|split].
  - apply Nat.div_lt_upper_bound; lia.
  - apply Nat.mod_upper_bound; auto.
  - pose proof (Nat.div_mod n C). lia.
Qed.

Section Facts.
Context {T : Type} {N : Num T}.
Notation mem := (mem T).
Notation M := (M T).
Notation sched := (sched T).
Implicit Types (m : mem).

Definition with_buf (o : mobj T) (b : list T) : mobj T := MkObj (o_nidx o) (o_space o) (o_rows o) (o_cols o) b.
(** Memory with the buffer of p replaced. *)
Definition upd m (p : ptr) (b : list T) : mem :=
  match get m p with Some o => put m p (with_buf o b) | None => m end.

Lemma get_put_same m p o : p < length (objs m) -> get (put m p o) p = Some o.
Proof. intros H. unfold get, put. simpl. rewrite nth_list_set_eq; auto. Qed.
Lemma get_put_other m p q o : p <> q -> get (put m p o) q = get m q.
Proof. intros H. unfold get, put. simpl. rewrite nth_list_set_neq; auto. Qed.
Lemma get_lt m p o : get m p = Some o -> p < length (objs m).
Proof. unfold get. destruct (nth_error (objs m) p) eqn:E; [|discriminate]. intros _. eapply nth_error_lt; eauto. Qed.
Lemma get_nth m p o : get m p = Some o -> nth_error (objs m) p = Some (Some o).
Proof. unfold get. destruct (nth_error (objs m) p) as [x|]; [now intros ->|discriminate]. Qed.
Lemma get_out m p : length (objs m) <= p -> get m p = None.
Proof. intros L. unfold get. now rewrite (proj2 (nth_error_None _ _)). Qed.
Lemma get_upd_same m p o b : get m p = Some o -> get (upd m p b) p = Some (with_buf o b).
Proof. intros H. unfold upd. rewrite H. apply get_put_same. eapply get_lt; eauto. Qed.
Lemma get_upd_other m p q b : p <> q -> get (upd m p b) q = get m q.
Proof. intros H. unfold upd. destruct (get m p); auto. apply get_put_other; auto. Qed.
Lemma upd_id m p o : get m p = Some o -> upd m p (o_buf o) = m.
Proof.
  intros H. unfold upd. rewrite H. unfold put, with_buf. destruct o; simpl.
  rewrite (list_set_id (get_nth H)). destruct m; reflexivity.
Qed.
Lemma upd_upd m p o b b' : get m p = Some o -> upd (upd m p b) p b' = upd m p b'.
Proof.
  intros H. unfold upd at 1. rewrite (get_upd_same b H). unfold upd. rewrite H.
  unfold put. simpl. rewrite list_set_set. reflexivity.
Qed.
Lemma specials_upd m p b : specials (upd m p b) = specials m.
Proof. unfold upd. destruct (get m p); reflexivity. Qed.
Lemma next_upd m p b : next (upd m p b) = next m.
Proof. unfold upd. destruct (get m p); reflexivity. Qed.
Lemma objs_upd m p b : length (objs (upd m p b)) = length (objs m).
Proof. unfold upd. destruct (get m p); simpl; auto. apply length_list_set. Qed.

Lemma good_upd m p o b : good m -> get m p = Some o -> length b = length (o_buf o) -> good (upd m p b).
Proof.
  intros G H L q oq Hq. rewrite next_upd. destruct (Nat.eq_dec p q) as [<-|Ne].
  - rewrite (get_upd_same b H) in Hq. injection Hq as <-. simpl.
    destruct (G _ _ H) as (A & B & D & E). repeat apply conj; auto. congruence.
  - rewrite get_upd_other in Hq by auto. apply (G _ _ Hq).
Qed.

(** Reads and writes in a memory whose p-buffer is b. *)
Lemma raw_upd_same m p o b k x : get m p = Some o -> nth_error b k = Some x -> raw p k (upd m p b) = Ok (x, upd m p b).
Proof. intros H E. unfold raw. rewrite (get_upd_same b H). simpl. now rewrite E. Qed.
Lemma raw_upd_other m p q b k : p <> q -> raw q k (upd m p b) =
  match raw q k m with Ok (x, _) => Ok (x, upd m p b) | Rejected => Rejected | Undefined => Undefined end.
Proof. intros H. unfold raw. rewrite get_upd_other by auto. destruct (get m q); auto. destruct (nth_error _ k); auto. Qed.
Lemma raw_ok m p o k x : get m p = Some o -> nth_error (o_buf o) k = Some x -> raw p k m = Ok (x, m).
Proof. intros H E. unfold raw. rewrite H, E. reflexivity. Qed.
Lemma rawset_upd m p o b k x : get m p = Some o -> k < length b ->
  rawset p k x (upd m p b) = Ok (tt, upd m p (list_set b k x)).
Proof.
  intros H L. unfold rawset. rewrite (get_upd_same b H). simpl.
  apply Nat.ltb_lt in L. rewrite L. f_equal. f_equal.
  rewrite <- (upd_upd b (list_set b k x) H). unfold upd at 2. rewrite (get_upd_same b H). reflexivity.
Qed.
Lemma at2_ok m p o i j x : get m p = Some o -> i < o_rows o -> j < o_cols o ->
  nth_error (o_buf o) (i * o_cols o + j) = Some x -> at2 p i j m = Ok (x, m).
Proof.
  intros H A B E. unfold at2, bind, deref, assert. rewrite H.
  apply Nat.ltb_lt in A, B. rewrite A, B. eapply raw_ok; eauto.
Qed.
Lemma at2_other m p q b o i j x : p <> q -> get m q = Some o -> i < o_rows o -> j < o_cols o ->
  nth_error (o_buf o) (i * o_cols o + j) = Some x -> at2 q i j (upd m p b) = Ok (x, upd m p b).
Proof. intros Ne H A B E. eapply at2_ok; eauto. rewrite get_upd_other; auto. Qed.
Lemma at2_same m p o b i j x : get m p = Some o -> i < o_rows o -> j < o_cols o ->
  nth_error b (i * o_cols o + j) = Some x -> at2 p i j (upd m p b) = Ok (x, upd m p b).
Proof. intros H A B E. apply (at2_ok (get_upd_same b H)); auto. Qed.
Lemma set2_upd m p o b i j x : get m p = Some o -> i < o_rows o -> j < o_cols o -> i * o_cols o + j < length b ->
  set2 p i j x (upd m p b) = Ok (tt, upd m p (list_set b (i * o_cols o + j) x)).
Proof.
  intros H A B L. unfold set2, bind, deref, assert. rewrite (get_upd_same b H). simpl.
  apply Nat.ltb_lt in A, B. rewrite A, B. eapply rawset_upd; eauto.
Qed.

(** ** A loop whose iterations write disjoint cells gives the same result in any order *)
Section Scatter.
Context {I : Type}.
Variables (m : mem) (p : ptr) (o : mobj T) (l : list I) (loc : I -> nat) (w : I -> option T) (body : I -> M unit).
Hypothesis Hp : get m p = Some o.
Hypothesis Hnd : NoDup l.
Hypothesis Hb : forall i, In i l -> w i <> None -> loc i < length (o_buf o).
Hypothesis Hinj : forall i j, In i l -> In j l -> w i <> None -> w j <> None -> loc i = loc j -> i = j.
Hypothesis Hbody : forall i b, In i l -> length b = length (o_buf o) ->
  (forall k, (forall j, In j l -> j <> i -> w j <> None -> loc j <> k) -> nth_error b k = nth_error (o_buf o) k) ->
  body i (upd m p b) = Ok (tt, upd m p (match w i with Some x => list_set b (loc i) x | None => b end)).

Definition after (don : list I) (b : list T) : Prop :=
  length b = length (o_buf o) /\
  (forall i x, In i don -> w i = Some x -> nth_error b (loc i) = Some x) /\
  (forall k, (forall i, In i don -> w i <> None -> loc i <> k) -> nth_error b k = nth_error (o_buf o) k).

Lemma scatter_from : forall todo don b, l = don ++ todo -> after don b ->
  exists b', for_each todo body (upd m p b) = Ok (tt, upd m p b') /\ after l b'.
Proof.
  induction todo as [|i todo IH]; intros don b E A.
  - exists b. rewrite app_nil_r in E. subst don. split; auto.
  - destruct A as (A1 & A2 & A3).
    assert (Ii : In i l) by (rewrite E; apply in_or_app; right; left; auto).
    assert (Nd : ~ In i don). { intros H. rewrite E in Hnd. apply NoDup_remove_2 in Hnd. apply Hnd. apply in_or_app; auto. }
    assert (Sub : forall j, In j don -> In j l) by (intros j H; rewrite E; apply in_or_app; auto).
    cbn [for_each]. unfold bind. rewrite (@Hbody i b Ii A1).
    2:{ intros k Hk. apply A3. intros j Hj Wj. apply Hk; auto. intros ->. auto. }
    set (b1 := match w i with Some x => list_set b (loc i) x | None => b end).
    apply (IH (don ++ [i])).
    + rewrite E, <- app_assoc. reflexivity.
    + unfold b1. destruct (w i) as [x|] eqn:Wi.
      * assert (Li : loc i < length b) by (rewrite A1; apply Hb; auto; congruence).
        split; [rewrite length_list_set; auto|split].
        -- intros j y Hj Wj. apply in_app_or in Hj. destruct Hj as [Hj|[<-|[]]].
           ++ rewrite nth_list_set_neq; [apply A2; auto|]. intros Eq.
              assert (i = j) by (apply Hinj; auto; congruence). subst j. auto.
           ++ rewrite nth_list_set_eq; auto. congruence.
        -- intros k Hk. rewrite nth_list_set_neq.
           ++ apply A3. intros j Hj. apply Hk. apply in_or_app; auto.
           ++ apply Hk; [apply in_or_app; right; left; auto | congruence].
      * split; [auto|split].
        -- intros j y Hj Wj. apply in_app_or in Hj. destruct Hj as [Hj|[<-|[]]]; [auto|congruence].
        -- intros k Hk. apply A3. intros j Hj. apply Hk. apply in_or_app; auto.
Qed.

Lemma scatter : exists b', for_each l body m = Ok (tt, upd m p b') /\ after l b'.
Proof.
  assert (G : exists b', for_each l body (upd m p (o_buf o)) = Ok (tt, upd m p b') /\ after l b').
  2:{ rewrite (upd_id Hp) in G. exact G. }
  apply (@scatter_from l []); auto.
  split; [auto|split]; [intros ? ? []|auto].
Qed.
End Scatter.

(** The same for a parallel loop: the hypotheses only concern the set of iterations. *)
Lemma par_scatter (S : sched) (I : Set) m p o (l : list I) loc w (body : I -> M unit) :
  valid_sched S -> get m p = Some o -> NoDup l ->
  (forall i, In i l -> w i <> None -> loc i < length (o_buf o)) ->
  (forall i j, In i l -> In j l -> w i <> None -> w j <> None -> loc i = loc j -> i = j) ->
  (forall i b, In i l -> length b = length (o_buf o) ->
     (forall k, (forall j, In j l -> j <> i -> w j <> None -> loc j <> k) -> nth_error b k = nth_error (o_buf o) k) ->
     body i (upd m p b) = Ok (tt, upd m p (match w i with Some x => list_set b (loc i) x | None => b end))) ->
  exists b', par_each S l body m = Ok (tt, upd m p b') /\ length b' = length (o_buf o) /\
    (forall i x, In i l -> w i = Some x -> nth_error b' (loc i) = Some x) /\
    (forall k, (forall i, In i l -> w i <> None -> loc i <> k) -> nth_error b' k = nth_error (o_buf o) k).
Proof.
  intros VS Hp Hnd Hb Hinj Hbody. pose proof (VS m I l) as P.
  assert (Iff : forall i, In i (S m I l) <-> In i l).
  { intros i. split; apply Permutation_in; auto. now apply Permutation_sym. }
  destruct (@scatter I m p o (S m I l) loc w body Hp) as (b' & E & A1 & A2 & A3).
  - eapply Permutation_NoDup; [apply Permutation_sym, P|auto].
  - intros i Hi. apply Hb. now apply Iff.
  - intros i j Hi Hj. apply Hinj; now apply Iff.
  - intros i b Hi L K. apply Hbody; auto; [now apply Iff|].
    intros k Hk. apply K. intros j Hj. apply Hk. now apply Iff.
  - exists b'. split; [exact E|split; [exact A1|split]].
    + intros i x Hi. apply A2. now apply Iff.
    + intros k Hk. apply A3. intros i Hi. apply Hk. now apply Iff.
Qed.

Lemma NoDup_app2 (A : Type) (l1 l2 : list A) : NoDup l1 -> NoDup l2 -> (forall x, In x l1 -> ~ In x l2) -> NoDup (l1 ++ l2).
Proof.
  intros H1 H2 D. induction H1 as [|x l1 Hx H1 IH]; simpl; auto. constructor.
  - intros H. apply in_app_or in H. destruct H as [H|H]; auto. apply (D x); simpl; auto.
  - apply IH. intros y Hy. apply D. simpl; auto.
Qed.
Lemma NoDup_prod (A B : Type) (l1 : list A) (l2 : list B) : NoDup l1 -> NoDup l2 -> NoDup (list_prod l1 l2).
Proof.
  intros H1 H2. induction H1 as [|x l1 Hx H1 IH]; simpl; [constructor|].
  apply NoDup_app2; auto.
  - apply FinFun.Injective_map_NoDup; auto. intros a b E. congruence.
  - intros [a b] Hin. apply in_map_iff in Hin. destruct Hin as (y & E & _). injection E as -> ->.
    intros Hin. apply in_prod_iff in Hin. tauto.
Qed.

(** ** MatrixPool *)
Record pooled (fill : option T) (sp : space) m (r : option ptr) (R C : nat) (p : ptr) m' : Prop := {
  pl_cases :
    (r = Some p /\ exists o, get m p = Some o /\ o_rows o * o_cols o = R * C /\
       get m' p = Some (MkObj (o_nidx o) (o_space o) R C (o_buf o))) \/
    (p = length (objs m) /\ get m' p = Some (MkObj (next m) sp R C (new_buf sp (R * C) fill (junk m (next m)))) /\
       match r with Some q => num_elem m q <> R * C | None => True end);
  pl_where : match r with
             | Some q => if num_elem m q =? R * C then p = q else p = length (objs m)
             | None => p = length (objs m)
             end;
  pl_frame : forall q, q <> p -> get m' q = get m q;
  pl_special : specials m' = specials m;
  pl_num : numbered m m';
  pl_good : good m'
}.

Lemma length_new_buf sp n fill j : length (new_buf (T := T) sp n fill j) = n.
Proof. destruct fill, sp; simpl; rewrite ?repeat_length, ?map_length, ?seq_length; auto. Qed.

Lemma new_mat_ok sp R C fill m : good m -> 0 < R -> 0 < C ->
  exists m', new_mat sp R C fill m = Ok (length (objs m), m') /\
    get m' (length (objs m)) = Some (MkObj (next m) sp R C (new_buf sp (R * C) fill (junk m (next m)))) /\
    (forall q, q <> length (objs m) -> get m' q = get m q) /\ specials m' = specials m /\ good m' /\
    next m' = S (next m) /\ length (objs m') = S (length (objs m)).
Proof.
  intros G HR HC. unfold new_mat, bind, assert.
  assert (E : (0 <? R) && (0 <? C) = true). { apply andb_true_intro. split; apply Nat.ltb_lt; auto. }
  rewrite E. eexists. split; [reflexivity|].
  assert (Gn : get (MkMem (objs m ++ [Some (MkObj (next m) sp R C (new_buf sp (R * C) fill (junk m (next m))))]) (S (next m)) (junk m) (specials m))
    (length (objs m)) = Some (MkObj (next m) sp R C (new_buf sp (R * C) fill (junk m (next m))))).
  { unfold get. simpl. rewrite nth_error_app2, Nat.sub_diag by lia. reflexivity. }
  assert (Go : forall q, q <> length (objs m) -> get (MkMem (objs m ++ [Some (MkObj (next m) sp R C (new_buf sp (R * C) fill (junk m (next m))))]) (S (next m)) (junk m) (specials m)) q = get m q).
  { intros q Hq. unfold get. simpl. destruct (Nat.lt_ge_cases q (length (objs m))) as [L|L].
    - rewrite nth_error_app1; auto.
    - rewrite (proj2 (nth_error_None (objs m) q)) by lia. rewrite (proj2 (nth_error_None _ _)); [reflexivity|]. rewrite app_length. simpl. lia. }
  split; [exact Gn|]. split; [exact Go|]. split; [reflexivity|]. split.
  - intros q oq Hq. destruct (Nat.eq_dec q (length (objs m))) as [->|Ne].
    + rewrite Gn in Hq. injection Hq as <-. simpl. rewrite length_new_buf. repeat apply conj; auto; lia.
    + rewrite Go in Hq by auto. destruct (G _ _ Hq) as (A & B & D & F). simpl. repeat apply conj; auto; lia.
  - simpl. rewrite app_length. simpl. split; [auto|lia].
Qed.

Lemma numbered_put m p o o' : get m p = Some o -> o_nidx o' = o_nidx o -> numbered m (put m p o').
Proof.
  intros H E. pose proof (get_lt H) as L. split.
  - intros q _. unfold name. destruct (Nat.eq_dec p q) as [<-|Ne].
    + rewrite get_put_same by auto. now rewrite H.
    + now rewrite get_put_other.
  - left. unfold put. simpl. split; auto. apply length_list_set.
Qed.
Lemma numbered_upd m p b : numbered m (upd m p b).
Proof.
  unfold upd. destruct (get m p) as [o|] eqn:H; [now apply numbered_put with (o := o)|].
  split; auto.
Qed.
Lemma numbered_upd_r m m' p b : numbered m m' -> numbered m (upd m' p b).
Proof.
  intros (A & B). destruct (@numbered_upd m' p b) as (A' & _). rewrite <- (objs_upd m' p b) in B.
  assert (Q : forall q, name (upd m' p b) q = name m' q).
  { intros q. destruct (Nat.lt_ge_cases q (length (objs m'))) as [L|L]; [auto|].
    unfold name. rewrite !get_out; [reflexivity|auto|rewrite objs_upd; auto]. }
  split; [intros q Hq; rewrite Q; auto|]. rewrite Q, next_upd. exact B.
Qed.
Lemma numbered_new sp R C fill m m' : new_mat sp R C fill m = Ok (length (objs m), m') -> numbered m m'.
Proof.
  unfold new_mat, bind, assert. destruct (_ && _); [|discriminate]. intros E. apply (f_equal (fun r => match r with Ok (_, x) => x | _ => m end)) in E.
  subst m'. split.
  - intros q Hq. unfold name, get. simpl. now rewrite nth_error_app1.
  - right. simpl. rewrite app_length. simpl. split; [lia|split; [auto|]]. unfold name, get. simpl.
    rewrite nth_error_app2, Nat.sub_diag by lia. reflexivity.
Qed.

Lemma pool_ok fill sp r R C m : good m -> res_ok m r -> 0 < R -> 0 < C ->
  exists p m', pool_with fill sp r R C m = Ok (p, m') /\ pooled fill sp m r R C p m'.
Proof.
  intros G HR H1 H2. destruct r as [q|].
  - destruct HR as (o & Ho). unfold pool_with. unfold bind at 1. unfold deref. rewrite Ho.
    destruct (R * C =? o_rows o * o_cols o) eqn:E.
    + exists q. unfold reshape, bind, deref, assert, ret. rewrite Ho, E.
      eexists. split; [reflexivity|]. apply Nat.eqb_eq in E.
      pose proof (get_lt Ho) as L.
      assert (Gq : get (put m q (MkObj (o_nidx o) (o_space o) R C (o_buf o))) q = Some (MkObj (o_nidx o) (o_space o) R C (o_buf o))).
      { apply get_put_same; auto. }
      constructor.
      * left. split; auto. exists o. repeat apply conj; auto.
      * unfold num_elem. rewrite Ho. rewrite <- E, Nat.eqb_refl. reflexivity.
      * intros q' Hq'. apply get_put_other; auto.
      * reflexivity.
      * now apply numbered_put with (o := o).
      * intros q' o' Hq'. destruct (Nat.eq_dec q q') as [<-|Ne].
        -- rewrite Gq in Hq'. injection Hq' as <-. simpl. destruct (G _ _ Ho) as (A & B & D & F).
           repeat apply conj; auto. congruence.
        -- rewrite get_put_other in Hq' by auto. apply (G _ _ Hq').
    + assert (E2 : negb ((R =? o_rows o) && (C =? o_cols o)) = true).
      { destruct (R =? o_rows o) eqn:E3; auto. destruct (C =? o_cols o) eqn:E4; auto.
        apply Nat.eqb_eq in E3, E4. apply Nat.eqb_neq in E. subst. congruence. }
      rewrite E2. destruct (new_mat_ok sp fill G H1 H2) as (m' & Em & Gn & Fr & Sp & G' & _).
      exists (length (objs m)), m'. split; [exact Em|]. apply Nat.eqb_neq in E.
      constructor; auto; [| |now apply numbered_new in Em].
      * right. split; auto. split; auto. unfold num_elem. rewrite Ho. auto.
      * unfold num_elem. rewrite Ho. destruct (o_rows o * o_cols o =? R * C) eqn:E3; auto.
        apply Nat.eqb_eq in E3. congruence.
  - destruct (new_mat_ok sp fill G H1 H2) as (m' & Em & Gn & Fr & Sp & G' & _).
    exists (length (objs m)), m'. split; [exact Em|]. apply numbered_new in Em as Nm. constructor; auto.
Qed.

(** Consequences used by every kernel. *)
Lemma pooled_obj fill sp m r R C p m' : good m -> pooled fill sp m r R C p m' ->
  exists o, get m' p = Some o /\ o_rows o = R /\ o_cols o = C /\ length (o_buf o) = R * C.
Proof.
  intros G P. destruct (pl_cases P) as [(-> & o & Ho & E & Hm)|(-> & Hm & _)].
  - eexists. split; [exact Hm|]. simpl. repeat apply conj; auto. destruct (G _ _ Ho) as (_ & _ & L & _). congruence.
  - eexists. split; [exact Hm|]. simpl. rewrite length_new_buf. auto.
Qed.

(** An operand of the result's own shape keeps its contents even when it is the result. *)
Lemma pooled_operand fill sp m r R C p m' q oq : pooled fill sp m r R C p m' ->
  get m q = Some oq -> (q = p -> o_rows oq = R /\ o_cols oq = C) -> get m' q = Some oq.
Proof.
  intros P Hq Hs. destruct (Nat.eq_dec q p) as [->|Ne].
  - destruct (pl_cases P) as [(_ & o & Ho & E & Hm)|(-> & Hm & _)].
    + rewrite Hq in Ho. injection Ho as <-. destruct (Hs eq_refl) as [<- <-]. rewrite Hm. destruct oq; reflexivity.
    + apply get_lt in Hq. lia.
  - rewrite (pl_frame P); auto.
Qed.

Lemma stored_intro fill sp m r R C p m' o b (F : nat -> nat -> T) : pooled fill sp m r R C p m' ->
  get m' p = Some o -> o_rows o = R -> o_cols o = C -> length (o_buf o) = R * C -> length b = length (o_buf o) ->
  (forall i j, i < R -> j < C -> nth_error b (i * C + j) = Some (F i j)) ->
  stored m (upd m' p b) r p R C F.
Proof.
  intros P Ho HR HC Lo Lb HF. unfold stored. pose proof (get_upd_same b Ho) as Hp. split; [|split; [|split; [|split; [|split; [|split]]]]].
  - exists (o_nidx o), (o_space o), b. rewrite Hp. unfold with_buf. subst. split; congruence.
  - intros i j Hi Hj. unfold val. rewrite Hp. simpl. rewrite HC.
    apply nth_error_nth. auto.
  - apply (pl_where P).
  - intros q Hq. rewrite get_upd_other by auto. apply (pl_frame P); auto.
  - rewrite specials_upd. apply (pl_special P).
  - apply numbered_upd_r. apply (pl_num P).
  - apply good_upd with (o := o); auto. apply (pl_good P).
Qed.

Lemma val_nth m p o i j : get m p = Some o -> i < o_rows o -> j < o_cols o -> length (o_buf o) = o_rows o * o_cols o ->
  nth_error (o_buf o) (i * o_cols o + j) = Some (val m p i j).
Proof. intros H Hi Hj L. unfold val. rewrite H. apply nth_error_def. rewrite L. apply idx_bound; auto. Qed.

End Facts.
