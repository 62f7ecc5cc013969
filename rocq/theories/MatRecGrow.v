(** * Assigning to a matrix between the calls: one more item *)
From Coq Require Import List Arith Bool Lia.
From Verif Require Import Num MatMem Kernels KernelFacts Registry KernelStep Backend Slots Exec MatEngine MatGraph MatLeaf MatEval MatDeval MatHist MatSpec MatCalls MatRec MatRecSim MatRecOk MatRecRun.
Import ListNotations.
Set Implicit Arguments.
Unset Strict Implicit.
Local Open Scope nat_scope.

(** The operands of the new right-hand side, other than F, can be evaluated now; if F has not been evaluated
    since its first assignment, neither have they. *)
Definition ready {T} (G : graph T) (F : obj) (a : mexp T) (s : st (T := T)) : Prop :=
  forall o, In o (leaves a) -> o <> F -> settled G (MLeaf o) s /\ (f_vis (fl s F) = true \/ untouched G (MLeaf o) s).
Lemma ready_leaves {T} (G : graph T) F (a : mexp T) s : f_vis (fl s F) = true -> (forall o, In o (leaves a) -> o <> F -> is_leaf G o) -> ready G F a s.
Proof. intros V H o Ho Ne. split; [|now left]. apply settled_plain. intros o' [<-|[]]. auto. Qed.

Section Grow.
Context {T : Type} {N : Num T}.
Variable G : graph T.
Variable host : nat -> option obj.
Variable rank : obj -> nat.
Variable F : obj.
Variable ms : list (nat * mexp T * obj).
Variable id : nat.
Variable a : mexp T.
Variable y : obj.
Variable bnd : nat.
Variable id0 : nat.
Variable a0 : mexp T.
Variable y0 : obj.
Notation ms' := (ms ++ [(id, a, y)]).
Hypothesis W : rec_wf G host rank F ms' bnd id0 a0 y0.
Notation part := (part F bnd).
Notation sub := (MatRecSim.sub (T := T) F).
Notation n := (length ms).
Notation clean := (clean rank F bnd).

Lemma wf_before : rec_wf G host rank F ms bnd id0 a0 y0.
Proof.
  assert (I : forall q, In q ms -> In q ms') by (intros q H; apply in_or_app; now left).
  constructor.
  - exact (rw_wf W).
  - exact (rw_F W).
  - exact (rw_bnd W).
  - exact (rw_old W).
  - exact (rw_new W).
  - intros i b z o H. exact (rw_leaves W (I _ H)).
  - intros i b z H. exact (rw_dims W (I _ H)).
  - intros i b z H. exact (rw_eye W (I _ H)).
  - pose proof (rw_nodup W) as Q. rewrite flat_map_app, app_assoc in Q. apply NoDup_app_inv in Q. tauto.
  - intros i b z k H. exact (rw_host W (I _ H)).
Qed.
Let W0 := wf_before.
Let HF : F < bnd := rw_bnd W.
Notation G1 := (chain G F ms bnd).
Notation G2 := (chain G F ms' bnd).
Notation all1 := (all F ms bnd id0 a0 y0).
Notation all2 := (all F ms' bnd id0 a0 y0).
Notation new := (part (Datatypes.S n)).
Lemma kind_same o : o <> new -> g_kind G2 o = g_kind G1 o.
Proof.
  intros Ne. simpl in *. destruct (bnd <=? o) eqn:E; [|reflexivity]. apply Nat.leb_le in E.
  destruct (Nat.lt_ge_cases (o - bnd) n) as [H|H]; [now rewrite nth_error_app1|].
  rewrite (proj2 (nth_error_None ms (o - bnd))) by lia. rewrite (proj2 (nth_error_None ms' (o - bnd))); [reflexivity|]. rewrite app_length. simpl. lia.
Qed.
Lemma dims_same o : o <> new -> g_rows G2 o = g_rows G1 o /\ g_cols G2 o = g_cols G1 o.
Proof.
  intros Ne. assert (E : is_part ms' bnd o = is_part ms bnd o).
  { unfold is_part. rewrite app_length. simpl length. destruct (bnd <=? o) eqn:E; [|reflexivity]. simpl andb. apply Nat.leb_le in E. simpl in Ne.
    destruct (Nat.ltb_spec o (bnd + n)) as [H|H]; [apply Nat.ltb_lt; lia|apply Nat.ltb_ge; lia]. }
  cbn [chain g_rows g_cols]. rewrite E. auto.
Qed.
Lemma kind_new : g_kind G2 new = KExp id (sub (part n) a) y.
Proof. apply kind_part. rewrite nth_error_app2, Nat.sub_diag by lia. reflexivity. Qed.
Lemma kind_new1 : g_kind G1 new = LConst.
Proof.
  destruct (kinds W0 new) as [[H _]|[(j & i & b & z & E & Hj)|E]]; [simpl in H; lia| |exact E].
  simpl in E. assert (j = n) by lia. subst j. assert (n < n) by (apply nth_error_Some; congruence). lia.
Qed.
Lemma clean_new o : clean o -> o <> new.
Proof. intros [H _]. simpl. lia. Qed.
(** Items of the old chain do not mention the new part. *)
Lemma old_item o i b z o' : g_kind G1 o = KExp i b z -> In o' (leaves (item i b z)) -> o' <> new.
Proof.
  intros Hk Hin. pose proof (wf_rank (chain_wf W0) Hk Hin) as R.
  destruct (kinds W0 o) as [[Ho E]|[(j & i' & b' & z' & -> & Hj)|E]]; [| |congruence].
  - rewrite E in Hk. assert (o' < bnd) by exact (rw_old W Ho Hk Hin). simpl. lia.
  - assert (j < n) by (apply nth_error_Some; congruence). intros ->. rewrite !(rank_part W0) in R. lia.
Qed.
Definition grown (v : bool) (c : st (T := T)) : st (T := T) :=
  St (mm c) (ar c) (fun o => if o =? new then Fl v false false None None else fl c o).
Lemma grown_Inv v c : Inv G1 c -> Inv G2 (grown v c).
Proof.
  intros [Sl Fi Ey Dc]. constructor.
  - exact Sl.
  - intros o H. cbn [grown fl] in *. destruct (o =? new); [destruct H; discriminate|exact (Fi o H)].
  - intros o Hk He. cbn [grown fl mm ar] in *. destruct (Nat.eqb_spec o new) as [->|Ne]; [discriminate|].
    rewrite (kind_same Ne) in Hk. destruct (dims_same Ne) as [-> ->]. exact (Ey o Hk He).
  - intros o Hl. destruct (Nat.eq_dec o new) as [->|Ne]; [unfold is_leaf in Hl; rewrite kind_new in Hl; tauto|].
    assert (Hl1 : is_leaf G1 o) by (unfold is_leaf in *; now rewrite <- (kind_same Ne)). pose proof (Dc o Hl1) as D.
    change (ar (grown v c)) with (ar c). change (mm (grown v c)) with (mm c). unfold dclean in *. destruct (ar c (ODres o)) as [p|]; [|exact Logic.I].
    intros ob Hob. destruct (D ob Hob) as [D1 D2]. unfold is_const, diagonal in *. rewrite (kind_same Ne). destruct (dims_same Ne) as [-> ->]. auto.
Qed.
Lemma parts_leaves (l : list (nat * mexp T * obj)) j o : In o (leaves (parts F bnd l j)) -> o = F \/ exists i, j <= i < j + length l /\ o = part i.
Proof.
  revert j. induction l as [|m t IH]; intros j H; simpl in H; [destruct H as [H|[]]; auto|]. destruct H as [H|H]; [right; exists j; simpl; split; [lia|now symmetry]|].
  destruct (IH _ H) as [Q|(i & Hi & Q)]; [auto|]. right. exists i. simpl. split; [lia|exact Q].
Qed.
Lemma parts_in (l : list (nat * mexp T * obj)) j i : j <= i < j + length l -> In (part i) (leaves (parts F bnd l j)).
Proof.
  revert j. induction l as [|m t IH]; intros j H; simpl in H; [lia|]. simpl. destruct (Nat.eq_dec i j) as [->|Ne]; [auto|]. right. apply IH. lia.
Qed.
Lemma in_m : In (id, a, y) ms'.
Proof. apply in_or_app. simpl. auto. Qed.
Lemma reach_grow o : reach G2 all2 o -> o = new \/ reach G1 all1 o \/ (exists o1, In o1 (leaves (item id a y)) /\ o1 <> F /\ clean o /\ reach G (MLeaf o1) o).
Proof.
  induction 1 as [o Hin|o i b z o' Ho IH Hk Hin].
  - assert (Q : exists k, k <= Datatypes.S n /\ o = part k).
    { destruct (parts_leaves Hin) as [->|(k & Hk & ->)]; [exists 0; split; [lia|reflexivity]|]. exists k. split; [|reflexivity]. unfold items in Hk. simpl in Hk. rewrite app_length in Hk. simpl in Hk. lia. }
    destruct Q as (k & Hk & ->). destruct (Nat.eq_dec k (Datatypes.S n)) as [->|Ne]; [now left|]. right. left. apply reach_leaf. apply parts_in. simpl. lia.
  - destruct (Nat.eq_dec o new) as [->|No].
    + clear IH. rewrite kind_new in Hk. injection Hk as <- <- <-. rewrite <- (sub_item _ _ _ (y_not_F W in_m)) in Hin.
      destruct (leaves_sub Hin) as [[-> _]|[Ne Hin']]; [right; left; apply reach_leaf; apply parts_in; simpl; lia|].
      right. right. exists o'. destruct (rw_leaves W in_m Hin') as [->|C]; [tauto|]. split; [exact Hin'|]. split; [exact Ne|]. split; [exact C|]. apply reach_leaf. simpl. auto.
    + rewrite (kind_same No) in Hk. destruct IH as [|[R|(o1 & H1 & H2 & C & R)]]; [tauto| |].
      * right. left. eapply reach_item; eauto.
      * rewrite (kind_old G F ms (proj1 C)) in Hk. right. right. exists o1. split; [exact H1|]. split; [exact H2|]. split; [exact (clean_closed W C Hk Hin)|]. eapply reach_item; eauto.
Qed.
Theorem grow s c : joined rank F ms bnd s c -> Inv G1 c -> settled G1 all1 c -> ready G F a s ->
  exists c', joined rank F ms' bnd s c' /\ Inv G2 c' /\ settled G2 all2 c'.
Proof.
  intros [Hw Hv] I Hs R. exists (grown (f_vis (fl s F)) c). split; [|split; [now apply grown_Inv|]].
  - split.
    + destruct Hw as (A & B & C). split; [exact A|]. split; [exact B|]. intros o Ho. cbn [grown fl]. destruct (Nat.eqb_spec o new) as [->|_]; [destruct (clean_new Ho eq_refl)|auto].
    + intros j Hj. rewrite app_length in Hj. simpl in Hj. cbn [grown fl]. destruct (Nat.eqb_spec (part j) new) as [E|Ne]; [reflexivity|].
      apply Hv. assert (j <> Datatypes.S n) by (intros ->; tauto). lia.
  - assert (Vc : forall o, clean o -> f_vis (fl (grown (f_vis (fl s F)) c) o) = f_vis (fl s o)).
    { intros o Ho. cbn [grown fl]. destruct (Nat.eqb_spec o new) as [->|_]; [destruct (clean_new Ho eq_refl)|]. destruct Hw as (_ & _ & C). now rewrite C. }
    assert (Kc : forall o, clean o -> g_kind G2 o = g_kind G o) by (intros o C; rewrite (kind_same (clean_new C)); now apply kind_old; destruct C).
    intros o i b z o' Ho Hk V Hin Ne. destruct (Nat.eq_dec o new) as [->|No].
    + rewrite kind_new in Hk. injection Hk as <- <- <-. cbn [grown fl] in V. rewrite Nat.eqb_refl in V. simpl in V.
      rewrite <- (sub_item _ _ _ (y_not_F W in_m)) in Hin. destruct (leaves_sub Hin) as [[-> _]|[Nf Hin']].
      * cbn [grown fl]. destruct (Nat.eqb_spec (part n) new) as [E|_]; [exact V|]. rewrite Hv by lia. exact V.
      * destruct (rw_leaves W in_m Hin') as [->|C]; [tauto|]. rewrite (Vc _ C). rewrite (Kc _ C) in Ne.
        unfold item in Hin'. simpl in Hin'. apply in_app_or in Hin'. destruct Hin' as [Hin'|[<-|[]]]; [|destruct (rw_eye W in_m) as [Q _]; congruence].
        destruct (R o' Hin' Nf) as [_ [Q|Q]]; [congruence|]. apply Q; [apply reach_leaf; simpl; auto|exact Ne].
    + rewrite (kind_same No) in Hk. destruct (reach_grow Ho) as [|[Ro|(o1 & H1 & H2 & C & Ro)]]; [tauto| |].
      * assert (V1 : f_vis (fl c o) = false) by (cbn [grown fl] in V; destruct (Nat.eqb_spec o new); [tauto|exact V]).
        pose proof (old_item Hk Hin) as Nn. rewrite (kind_same Nn) in Ne. cbn [grown fl]. destruct (Nat.eqb_spec o' new) as [|_]; [tauto|]. exact (Hs o i b z o' Ro Hk V1 Hin Ne).
      * rewrite (kind_old G F ms (proj1 C)) in Hk. rewrite (Vc _ C) in V. pose proof (clean_closed W C Hk Hin) as C'. rewrite (Vc _ C'). rewrite (Kc _ C') in Ne.
        unfold item in H1. simpl in H1. apply in_app_or in H1. destruct H1 as [H1|[<-|[]]].
        { destruct (R o1 H1 H2) as [Q _]. exact (Q o i b z o' Ro Hk V Hin Ne). }
        { destruct (rw_eye W in_m) as [Q _]. exfalso. assert (E : o = y); [|congruence]. clear - Q Ro. induction Ro as [o Hl|o j q w o1 Ho IH Hk1 Hin]; [destruct Hl as [<-|[]]; reflexivity|congruence]. }
Qed.
End Grow.
