(** * A matrix with several items runs like a chain of matrices with one item each *)
From Coq Require Import List Arith Bool Lia.
From Verif Require Import Num MatMem Kernels Registry Backend Slots Exec MatEngine MatGraph MatRec.
Import ListNotations.
Set Implicit Arguments.
Unset Strict Implicit.
Local Open Scope nat_scope.

(** ** The chain F = e0; F1 = e1(F); F2 = e2(F1); ... *)
Section Chain.
Context {T : Type} {N : Num T}.
Variable G : graph T.
Variable F : obj.
Variable ms : list (nat * mexp T * obj).
(** Objects from bnd on are not used by the program. *)
Variable bnd : nat.
Definition more_of (o : obj) : list (nat * mexp T * obj) := if o =? F then ms else [].
Definition part (k : nat) : obj := match k with 0 => F | Datatypes.S j => bnd + j end.
Fixpoint sub (q : obj) (e : mexp T) : mexp T :=
  match e with
  | MLeaf o => if o =? F then MLeaf q else MLeaf o
  | MBin k id l r => MBin k id (sub q l) (sub q r)
  | MUn k id a => MUn k id (sub q a)
  end.
Definition is_part (o : obj) : bool := (bnd <=? o) && (o <? bnd + length ms).
Definition chain : graph T :=
  Graph (fun o => if bnd <=? o then match nth_error ms (o - bnd) with Some (id, a, y) => KExp id (sub (part (o - bnd)) a) y | None => g_kind G o end
                  else g_kind G o)
        (fun o => if is_part o then g_rows G F else g_rows G o)
        (fun o => if is_part o then g_cols G F else g_cols G o)
        (g_nidx G) (g_vid G).

Lemma kind_old o : o < bnd -> g_kind chain o = g_kind G o.
Proof. intros H. simpl. apply Nat.leb_gt in H. now rewrite H. Qed.
Lemma rows_old o : o < bnd -> g_rows chain o = g_rows G o.
Proof. intros H. simpl. unfold is_part. apply Nat.leb_gt in H. now rewrite H. Qed.
Lemma cols_old o : o < bnd -> g_cols chain o = g_cols G o.
Proof. intros H. simpl. unfold is_part. apply Nat.leb_gt in H. now rewrite H. Qed.
Lemma kind_part j id a y : nth_error ms j = Some (id, a, y) -> g_kind chain (part (Datatypes.S j)) = KExp id (sub (part j) a) y.
Proof.
  intros H. simpl. replace (bnd <=? bnd + j) with true by (symmetry; apply Nat.leb_le; lia).
  replace (bnd + j - bnd) with j by lia. now rewrite H.
Qed.
Hypothesis HF : F < bnd.
Lemma rows_part k : k <= length ms -> g_rows chain (part k) = g_rows G F /\ g_cols chain (part k) = g_cols G F.
Proof.
  intros H. destruct k as [|k]; simpl.
  - change F with (part 0). split; [apply rows_old|apply cols_old]; exact HF.
  - unfold is_part. replace (bnd <=? bnd + k) with true by (symmetry; apply Nat.leb_le; lia).
    replace (bnd + k <? bnd + length ms) with true by (symmetry; apply Nat.ltb_lt; lia). auto.
Qed.
Lemma part_inj j k : part j = part k -> j = k.
Proof. destruct j, k; simpl; lia. Qed.
Lemma rows_sub k : k <= length ms -> forall e, (forall o, In o (leaves e) -> o < bnd) ->
  rows chain (sub (part k) e) = rows G e /\ cols chain (sub (part k) e) = cols G e.
Proof.
  intros Hk. induction e as [o|b id l IHl r IHr|u id a IHa]; intros Hl.
  - cbn [sub]. destruct (Nat.eqb_spec o F) as [->|Ne]; cbn [rows cols].
    + now apply rows_part.
    + split; [apply rows_old|apply cols_old]; apply Hl; simpl; auto.
  - cbn [sub rows cols]. split; [apply IHl|apply IHr]; intros; apply Hl; simpl; apply in_or_app; auto.
  - destruct (IHa Hl) as [E1 E2]. cbn [sub]. destruct u; cbn [rows cols]; auto.
Qed.
Lemma sub_same q e : ~ In F (leaves e) -> sub q e = e.
Proof.
  induction e as [o|b id l IHl r IHr|u id a IHa]; simpl; intros H.
  - destruct (Nat.eqb_spec o F) as [->|]; [tauto|reflexivity].
  - rewrite IHl, IHr; auto; intros Q; apply H; apply in_or_app; auto.
  - now rewrite IHa.
Qed.
Lemma nodes_sub q e : nodes (sub q e) = nodes e.
Proof. induction e as [o|b id l IHl r IHr|u id a IHa]; simpl; [now destruct (o =? F)|now rewrite IHl, IHr|now rewrite IHa]. Qed.
Lemma leaves_sub q e o : In o (leaves (sub q e)) -> (o = q /\ In F (leaves e)) \/ (o <> F /\ In o (leaves e)).
Proof.
  induction e as [o'|b id l IHl r IHr|u id a IHa]; simpl.
  - destruct (Nat.eqb_spec o' F) as [->|Ne]; simpl; intros [<-|[]]; auto.
  - intros H. apply in_app_or in H. destruct H as [H|H]; [destruct (IHl H) as [[E Q]|[E Q]]|destruct (IHr H) as [[E Q]|[E Q]]]; [left|right|left|right]; (split; [exact E|apply in_or_app; auto]).
  - exact IHa.
Qed.
Lemma leaves_sub_in q e o : o <> F -> In o (leaves e) -> In o (leaves (sub q e)).
Proof.
  intros Ne. induction e as [o'|b id l IHl r IHr|u id a IHa]; simpl; [|intros H; apply in_app_or in H; apply in_or_app; tauto|exact IHa].
  intros [->|[]]. apply Nat.eqb_neq in Ne. rewrite Ne. simpl. auto.
Qed.
End Chain.

(** ** Lock-step *)
Section Sim.
Context {T : Type} {N : Num T}.
Variable S : sched T.
Variable B : backend (T := T).
Variable G : graph T.
Variable F : obj.
Variable ms : list (nat * mexp T * obj).
Variable bnd : nat.
Hypothesis HF : F < bnd.
Variable rho : env T.
Notation G' := (chain G F ms bnd).
Notation part := (part F bnd).
Notation sub := (sub F).
Notation st := (st (T := T)).
(** Objects built before F, on which F depends. *)
Variable clean : obj -> Prop.
Hypothesis clean_bnd : forall o, clean o -> o < bnd.
Hypothesis clean_F : ~ clean F.
Hypothesis clean_closed : forall o id a y o', clean o -> g_kind G o = KExp id a y -> In o' (leaves (item id a y)) -> clean o'.
Lemma clean_part o k : clean o -> o <> part k.
Proof. intros H ->. destruct k as [|k]; [now apply clean_F|]. apply clean_bnd in H. simpl in H. lia. Qed.

Definition simw (s c : st) : Prop := mm s = mm c /\ ar s = ar c /\ forall o, clean o -> fl s o = fl c o.
(** The flags of F on one side and of the parts on the other are not touched. *)
Definition apart (s c s1 c1 : st) : Prop := fl s1 F = fl s F /\ forall k, fl c1 (part k) = fl c (part k).
Lemma apart_refl s c : apart s c s c. Proof. split; auto. Qed.
Lemma apart_same s c s1 c1 : fl s1 = fl s -> fl c1 = fl c -> apart s c s1 c1. Proof. intros E E'. split; [now rewrite E|]. intros k. now rewrite E'. Qed.
Lemma apart_trans s c s1 c1 s2 c2 : apart s c s1 c1 -> apart s1 c1 s2 c2 -> apart s c s2 c2.
Proof. intros [A A'] [D D']. split; [congruence|]. intros k. now rewrite D', A'. Qed.

Section Par.
(** What is known about these flags. *)
Variable R : st -> st -> Prop.
Hypothesis R_apart : forall s c s1 c1, R s c -> apart s c s1 c1 -> R s1 c1.
Definition par {A} (m m' : E (T := T) A) : Prop := forall s c, simw s c -> R s c ->
  match m s, m' c with
  | EOk (a, s1), EOk (a', c1) => a = a' /\ simw s1 c1 /\ apart s c s1 c1
  | ERejected, ERejected | EUndef, EUndef | ENoFuel, ENoFuel => True
  | _, _ => False
  end.
Lemma par_ret {A} (a : A) : par (eret a) (eret a).
Proof. intros s c W _. simpl. split; [reflexivity|]. split; [exact W|now apply apart_same]. Qed.
Lemma par_bind {A C} (m m' : E A) (k k' : A -> E C) : par m m' -> (forall a, par (k a) (k' a)) -> par (ebind m k) (ebind m' k').
Proof.
  intros Hm Hk s c W HR. unfold ebind. specialize (Hm s c W HR).
  destruct (m s) as [[a s1]| | |], (m' c) as [[a' c1]| | |]; try tauto. destruct Hm as (<- & W1 & A1).
  specialize (Hk a s1 c1 W1 (R_apart HR A1)). destruct (k a s1) as [[b s2]| | |], (k' a c1) as [[b' c2]| | |]; try tauto.
  destruct Hk as (<- & W2 & A2). split; [reflexivity|]. split; [exact W2|]. eapply apart_trans; eauto.
Qed.
Lemma par_assert b : par (eassert b) (eassert b).
Proof. intros s c W _. unfold eassert. destruct b; [|exact Logic.I]. split; [reflexivity|]. split; [exact W|now apply apart_same]. Qed.
Lemma par_fail {A} : par (A := A) (fun _ => ENoFuel) (fun _ => ENoFuel).
Proof. intros s c _ _. exact Logic.I. Qed.
Lemma par_nonnull r : par (nonnull r) (nonnull r).
Proof. destruct r; [apply par_ret|]. intros s c _ _. exact Logic.I. Qed.
Lemma par_getf o : clean o -> par (getf o) (getf o).
Proof. intros Ho s c W _. simpl. split; [now apply W|]. split; [exact W|now apply apart_same]. Qed.
Lemma par_setf o f : clean o -> par (setf o f) (setf o f).
Proof.
  intros Ho s c (W1 & W2 & W3) _. simpl. split; [reflexivity|]. split; [|split; simpl].
  - split; [exact W1|]. split; [exact W2|]. intros o' Ho'. simpl. rewrite W3 by exact Ho'. reflexivity.
  - destruct (Nat.eqb_spec F o) as [<-|]; [tauto|reflexivity].
  - intros k. destruct (Nat.eqb_spec (part k) o) as [E|]; [|reflexivity]. subst o. destruct (clean_part (k := k) Ho); reflexivity.
Qed.
Lemma par_lift {A} (m : M T A) : par (lift m) (lift m).
Proof.
  intros s c (W1 & W2 & W3) _. unfold lift. rewrite <- W1. destruct (m (mm s)) as [[a m1]| |]; try exact Logic.I.
  split; [reflexivity|]. split; [|now apply apart_same]. split; [reflexivity|]. split; [exact W2|exact W3].
Qed.
Lemma par_lift_to w (m : M T ptr) : par (lift_to w m) (lift_to w m).
Proof.
  intros s c (W1 & W2 & W3) _. unfold lift_to. rewrite <- W1. destruct (m (mm s)) as [[a m1]| |]; try exact Logic.I.
  split; [reflexivity|]. split; [|now apply apart_same]. split; [reflexivity|]. split; [simpl; now rewrite W2|exact W3].
Qed.
Lemma par_exec prog : par (exec S B prog) (exec S B prog).
Proof.
  intros s c (W1 & W2 & W3) _. unfold exec. rewrite <- W1, <- W2. destruct (run owner_eq S B prog (ar s) (mm s)) as [[a m1]| |]; try exact Logic.I.
  split; [reflexivity|]. split; [|now apply apart_same]. split; [reflexivity|]. split; [reflexivity|exact W3].
Qed.
Lemma par_slot w : par (slot w) (slot w).
Proof.
  intros s c W _. pose proof W as (W1 & W2 & W3). unfold slot. rewrite <- W2. destruct (ar s w); [|exact Logic.I].
  split; [reflexivity|]. split; [exact W|now apply apart_same].
Qed.
Lemma par_unalias id a b ps : par (unalias id a b ps) (unalias id a b ps).
Proof.
  intros s c W _. pose proof W as (W1 & W2 & W3). unfold unalias. 
  assert (E : forall k, aliased c id ps k = aliased s id ps k) by (intros k; unfold aliased; now rewrite W2).
  replace (existsb (aliased c id ps) (seq a (b - a))) with (existsb (aliased s id ps) (seq a (b - a))).
  2:{ induction (seq a (b - a)) as [|k l IH]; simpl; [reflexivity|]. now rewrite E, IH. }
  destruct (existsb (aliased s id ps) (seq a (b - a))).
  - split; [reflexivity|]. split; [|now apply apart_same]. split; [exact W1|]. split; [|exact W3]. simpl. unfold aliased. rewrite <- W2. reflexivity.
  - split; [reflexivity|]. split; [exact W|now apply apart_same].
Qed.
Lemma par_pool w o R1 C1 : par (fun s => lift_to (T := T) w (pool CPU (ar s (o)) R1 C1) s) (fun s => lift_to w (pool CPU (ar s (o)) R1 C1) s).
Proof.
  intros s c (W1 & W2 & W3) _. unfold lift_to. rewrite <- W1, <- W2. destruct (pool CPU (ar s o) R1 C1 (mm s)) as [[a m1]| |]; try exact Logic.I.
  split; [reflexivity|]. split; [|now apply apart_same]. split; [reflexivity|]. split; [reflexivity|exact W3].
Qed.

Lemma par_leaf o : clean o -> par (eval_leaf G rho o) (eval_leaf G' rho o).
Proof.
  intros Ho. pose proof (clean_bnd Ho) as Hb. unfold eval_leaf. rewrite (rows_old G F ms Hb), (cols_old G F ms Hb).
  apply par_bind; [apply par_pool|intros p]. apply par_bind; [now apply par_getf|intros f]. apply par_bind; [|intros []; apply par_bind; [now apply par_setf|intros []; apply par_ret]].
  destruct (f_eval f); [apply par_ret|]. apply par_bind; [|intros []; now apply par_setf].
  unfold set_entries, leaf_entry. rewrite (rows_old G F ms Hb), (cols_old G F ms Hb), (kind_old G F ms Hb). apply par_lift.
Qed.
Lemma par_dleaf x o : x < bnd -> clean o -> par (devalF_leaf S G rho x o) (devalF_leaf S G' rho x o).
Proof.
  intros Hx Ho. pose proof (clean_bnd Ho) as Hb. unfold devalF_leaf. rewrite (rows_old G F ms Hb), (cols_old G F ms Hb), (rows_old G F ms Hx), (cols_old G F ms Hx).
  apply par_bind; [apply par_pool|intros p]. apply par_bind; [now apply par_getf|intros f]. apply par_bind; [|intros []; apply par_bind; [now apply par_setf|intros []; apply par_ret]].
  destruct (f_dev f); [apply par_ret|]. apply par_bind; [|intros []; now apply par_setf].
  unfold set_derivs. rewrite (rows_old G F ms Hb), (cols_old G F ms Hb), (kind_old G F ms Hb), (rows_old G F ms Hx), (cols_old G F ms Hx).
  cbn [chain g_nidx g_vid]. apply par_lift.
Qed.

(** What is known when F itself is met. *)
Variable k : nat.
Hypothesis Hk : k <= length ms.
Variable b : bool.
Definition mention (e : mexp T) : Prop := forall o, In o (leaves e) -> clean o \/ (b = true /\ o = F).
Lemma mention_bnd e o : mention e -> In o (leaves e) -> o < bnd.
Proof. intros H Hin. destruct (H o Hin) as [C|[_ ->]]; auto. Qed.
Lemma mention_item o id a y : clean o -> g_kind G o = KExp id a y -> mention (item id a y) /\ sub (part k) (item id a y) = item id a y.
Proof.
  intros Ho Hk'. split; [intros o' Hin; left; eapply clean_closed; eauto|]. apply sub_same.
  intros Q. apply clean_F. eapply clean_closed; eauto.
Qed.
Lemma clean_more o : clean o -> more_of F ms o = [].
Proof. intros Ho. unfold more_of. destruct (Nat.eqb_spec o F) as [->|]; tauto. Qed.
Lemma par_verify q l r : mention l -> mention r -> verify G' q (sub (part k) l) (sub (part k) r) = verify G q l r.
Proof.
  intros Hl Hr. destruct (rows_sub G HF Hk (fun o H => mention_bnd Hl H)) as [E1 E2], (rows_sub G HF Hk (fun o H => mention_bnd Hr H)) as [E3 E4].
  unfold verify. now rewrite E1, E2, E3, E4.
Qed.
Lemma par_un_verify q a : mention a -> un_verify G' q (sub (part k) a) = un_verify G q a.
Proof. intros Ha. destruct (rows_sub G HF Hk (fun o H => mention_bnd Ha H)) as [E1 E2]. unfold un_verify. now rewrite E1, E2. Qed.
Lemma mention_bin q id l r : mention (MBin q id l r) -> mention l /\ mention r.
Proof. intros H. split; intros o Ho; apply H; simpl; apply in_or_app; auto. Qed.

Section Run.
(** F is being evaluated: it is visited, and both sides have the same pointers. *)
Hypothesis Read : b = true -> forall s c, R s c ->
  f_vis (fl s F) = true /\ f_vis (fl c (part k)) = true /\ f_res (fl s F) = f_res (fl c (part k)).
Hypothesis FK : exists id a y, g_kind G F = KExp id a y.
Hypothesis PK : exists id a y, g_kind G' (part k) = KExp id a y.

Lemma sim_eval : forall f e, mention e -> par (xeval S B G (more_of F ms) rho f e) (eval S B G' rho f (sub (part k) e)).
Proof.
  induction f as [|f IH]; intros e He; [apply par_fail|]. destruct e as [o|q id l r|q id a]; cbn [xeval sub].
  - destruct (Nat.eqb_spec o F) as [->|Ne].
    + destruct (He F (or_introl eq_refl)) as [C|[Hb _]]; [now destruct clean_F|].
      destruct FK as (id & a & y & Ek), PK as (id' & a' & y' & Ek'). cbn [eval]. rewrite Ek, Ek'. intros s c W HR.
      destruct (Read Hb HR) as (V & V' & Er). unfold ebind, getf. rewrite V, V'. unfold eret. cbn beta iota. rewrite Er.
      destruct (f_res (fl c (part k))); simpl; [|exact Logic.I]. split; [reflexivity|]. split; [exact W|now apply apart_same].
    + destruct (He o (or_introl eq_refl)) as [C|[_ E]]; [|congruence]. cbn [eval]. rewrite (kind_old G F ms (clean_bnd C)).
      destruct (g_kind G o) as [| | | |id a y] eqn:Ek; try now apply par_leaf.
      apply par_bind; [now apply par_getf|intros g]. apply par_bind; [|intros []; apply par_bind; [now apply par_getf|intros g'; apply par_nonnull]].
      destruct (f_vis g); [apply par_ret|]. apply par_bind; [now apply par_setf|intros []]. rewrite (clean_more C). cbn [each_eval].
      destruct (mention_item C Ek) as [Mi Si]. pose proof (IH _ Mi) as P. rewrite Si in P.
      intros s c W HR. pose proof (par_bind P (fun p => par_setf (set_res p) C) W HR) as Q. unfold ebind in *.
      destruct (xeval S B G (more_of F ms) rho f (item id a y) s) as [[p s1]| | |]; exact Q.
  - cbn [eval]. destruct (mention_bin He) as [Hl Hr]. rewrite par_verify by auto. apply par_bind; [apply par_assert|intros []].
    apply par_bind; [now apply IH|intros p]. apply par_bind; [now apply IH|intros p']. apply par_bind; [apply par_unalias|intros []].
    apply par_bind; [apply par_exec|intros []]. apply par_slot.
  - cbn [eval]. assert (Ha : mention a) by exact He. rewrite par_un_verify by auto. apply par_bind; [apply par_assert|intros []].
    apply par_bind; [now apply IH|intros p]. apply par_bind; [apply par_unalias|intros []]. apply par_bind; [apply par_exec|intros []]. apply par_slot.
Qed.
Hypothesis ReadD : b = true -> forall s c, R s c -> f_dres (fl s F) = f_dres (fl c (part k)).
Lemma sim_devalF x : x < bnd -> forall f e, mention e -> par (xdevalF S B G (more_of F ms) rho f x e) (devalF S B G' rho f x (sub (part k) e)).
Proof.
  intros Hx. induction f as [|f IH]; intros e He; [apply par_fail|]. destruct e as [o|q id l r|q id a]; cbn [xdevalF sub].
  - destruct (Nat.eqb_spec o F) as [->|Ne].
    + destruct (He F (or_introl eq_refl)) as [C|[Hb _]]; [now destruct clean_F|].
      destruct FK as (id & a & y & Ek), PK as (id' & a' & y' & Ek'). cbn [devalF]. rewrite Ek, Ek'. intros s c W HR.
      destruct (Read Hb HR) as (V & V' & _). pose proof (ReadD Hb HR) as Er. unfold ebind, getf. rewrite V, V'. unfold eret. cbn beta iota. rewrite Er.
      destruct (f_dres (fl c (part k))); simpl; [|exact Logic.I]. split; [reflexivity|]. split; [exact W|now apply apart_same].
    + destruct (He o (or_introl eq_refl)) as [C|[_ E]]; [|congruence]. cbn [devalF]. rewrite (kind_old G F ms (clean_bnd C)).
      destruct (g_kind G o) as [| | | |id a y] eqn:Ek; try now apply par_dleaf.
      apply par_bind; [now apply par_getf|intros g]. apply par_bind; [|intros []; apply par_bind; [now apply par_getf|intros g'; apply par_nonnull]].
      destruct (f_vis g); [apply par_ret|]. apply par_bind; [now apply par_setf|intros []]. rewrite (clean_more C). cbn [each_devalF].
      destruct (mention_item C Ek) as [Mi Si]. pose proof (IH _ Mi) as P. rewrite Si in P.
      apply par_bind; [exact P|intros dp]. apply par_bind; [now apply par_setf|intros []].
      pose proof (sim_eval f Mi) as P'. rewrite Si in P'.
      intros s c W HR. pose proof (par_bind P' (fun p => par_setf (set_res p) C) W HR) as Q. unfold ebind in *.
      destruct (xeval S B G (more_of F ms) rho f (item id a y) s) as [[p s1]| | |]; exact Q.
  - cbn [devalF]. destruct (mention_bin He) as [Hl Hr]. rewrite par_verify by auto. rewrite (rows_old G F ms Hx), (cols_old G F ms Hx).
    apply par_bind; [apply par_assert|intros []].
    apply par_bind; [now apply IH|intros dp]. apply par_bind; [now apply IH|intros dq].
    destruct q; try (apply par_bind; [apply par_unalias|intros []]; apply par_bind; [apply par_exec|intros []]; apply par_slot);
      (apply par_bind; [now apply sim_eval|intros p]; apply par_bind; [now apply sim_eval|intros p']; apply par_bind; [apply par_unalias|intros []];
       apply par_bind; [apply par_exec|intros []]; apply par_slot).
  - cbn [devalF]. assert (Ha : mention a) by exact He. rewrite (rows_old G F ms Hx), (cols_old G F ms Hx).
    destruct (rows_sub G HF Hk (fun o H => mention_bnd Ha H)) as [E1 E2].
    destruct q; rewrite ?par_un_verify, ?E1, ?E2 by auto; unfold ssum_dev, sprod_dev; rewrite ?(rows_old G F ms Hx), ?(cols_old G F ms Hx);
      try (now apply IH);
      repeat (apply par_bind; [first [now apply IH|now apply sim_eval|apply par_assert|apply par_unalias|apply par_exec]|intros ?]); apply par_slot.
Qed.
End Run.

(** reset when F is not visited. *)
Hypothesis Off : b = true -> forall s c, R s c -> f_vis (fl s F) = false /\ f_vis (fl c (part k)) = false.
Lemma sim_reset : forall f e, mention e -> par (xreset G (more_of F ms) f e) (reset G' f (sub (part k) e)).
Proof.
  induction f as [|f IH]; intros e He; [apply par_fail|]. destruct e as [o|q id l r|q id a]; cbn [xreset sub].
  - destruct (Nat.eqb_spec o F) as [->|Ne].
    + destruct (He F (or_introl eq_refl)) as [C|[Hb _]]; [now destruct clean_F|]. cbn [reset]. intros s c W HR.
      destruct (Off Hb HR) as (V & V'). unfold ebind, getf. rewrite V, V'. split; [reflexivity|]. split; [exact W|now apply apart_same].
    + destruct (He o (or_introl eq_refl)) as [C|[_ E]]; [|congruence]. cbn [reset]. rewrite (kind_old G F ms (clean_bnd C)).
      apply par_bind; [now apply par_getf|intros g]. destruct (f_vis g); [|apply par_ret]. apply par_bind; [now apply par_setf|intros []].
      destruct (g_kind G o) as [| | | |id a y] eqn:Ek; try apply par_ret. rewrite (clean_more C). cbn [each_reset].
      destruct (mention_item C Ek) as [Mi Si]. pose proof (IH _ Mi) as P. rewrite Si in P.
      intros s c W HR. specialize (P s c W HR). unfold ebind.
      destruct (xreset G (more_of F ms) f (item id a y) s) as [[[] s1]| | |]; exact P.
  - cbn [reset]. destruct (mention_bin He) as [Hl Hr]. apply par_bind; [now apply IH|intros []]. now apply IH.
  - cbn [reset]. now apply IH.
Qed.
End Par.
End Sim.
