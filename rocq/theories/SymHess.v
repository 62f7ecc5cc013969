(** * Differentiating one expression several times (lemmas for C21, C58) *)

From Coq Require Import List Arith Bool Lia Ring.
From Verif Require Import Num ScalarModel ScalarSpec ScalarReset ScalarEval ScalarTerm ScalarApi ScalarHist ScalarUser ScalarBuild
  ScalarFacts ScalarMore ScalarSym SymForm SymOk SymInit SymSess.
Import ListNotations.
Open Scope num_scope.

(** ** Resetting a root also resets what its memos hold *)
Section Reset.
Context {T : Type} {N : Num T}.
Notation heap := (heap T). Notation op := (op T).

Lemma each_clean (rv : nat -> heap -> option heap) (Q : heap -> Prop) (l : list (nat * nat)) : (forall a b, RR a b -> Q a -> Q b) ->
  (forall t a, In t (map snd l) -> Q a -> exists b, rv t a = Some b /\ RR a b /\ clean (cells b t)) ->
  forall h, Q h -> exists h', each (fun p a => rv (snd p) a) l h = Some h' /\ RR h h' /\ forall t, In t (map snd l) -> clean (cells h' t).
Proof.
  intros HQ. induction l as [|[x t] l IH]; intros Hr h Qh; cbn [each map snd].
  - exists h. split; auto. split; [apply RR_refl|intros t []].
  - destruct (Hr t h) as (h1 & E1 & R1 & C1); [left; auto|auto|]. rewrite E1.
    destruct (IH (fun u a Hu => Hr u a (or_intror Hu)) h1 (HQ _ _ R1 Qh)) as (h2 & E2 & R2 & C2).
    exists h2. split; auto. split; [eapply RR_trans; eauto|]. intros u [<-|Hu]; auto. eapply RR_clean; eauto.
Qed.
Lemma reset_temp_clean n (rv : nat -> heap -> option heap) id h : bounded n h ->
  (forall t a, bounded n a -> t < n -> exists b, rv t a = Some b /\ RR a b /\ clean (cells b t)) ->
  exists h', reset_temp rv id h = Some h' /\ RR h h' /\ forall t, In t (map snd (m_dtmp (memos h id))) -> clean (cells h' t).
Proof.
  intros B Hr. unfold reset_temp. set (Q := fun a : heap => bounded n a).
  assert (HQ : forall a b, RR a b -> Q a -> Q b) by (intros a b R; apply same_graph_bounded; now apply RR_same_graph).
  assert (exists h1, match m_tmp (memos h id) with None => Some h | Some t => rv t h end = Some h1 /\ RR h h1) as (h1 & E1 & R1).
  { destruct (m_tmp (memos h id)) as [t|] eqn:E.
    - destruct (Hr t h B) as (h1 & A & C & _); [eapply b_tmp_lt; eauto|]. eauto.
    - exists h. auto using RR_refl. }
  rewrite E1. destruct (each_clean rv Q (m_dtmp (memos h id)) HQ) with (h := h1) as (h2 & E2 & R2 & C2).
  - intros t a Ht Qa. apply Hr; auto. apply in_map_iff in Ht. destruct Ht as ([x u] & <- & Hu). exact (b_dtmp_lt n h id x u B Hu).
  - apply (HQ h); auto.
  - exists h2. split; auto. split; auto. eapply RR_trans; eauto.
Qed.
Lemma reset_var_less n f v h : bounded n h -> v < n -> depth n <= S f -> exists h', reset_var f v h = Some h' /\ RR h h' /\ clean (cells h' v).
Proof.
  intros B Hv Hf. destruct (b_memo _ _ B) as (lev & Lv). apply reset_var_ok with (n := n) (lev := lev); auto.
  pose proof (proj1 Lv v). pose proof (cv_bound n h). unfold depth in Hf.
  assert (cv n h * S n <= n * S n) by (apply Nat.mul_le_mono_r; auto). simpl in Hf. lia.
Qed.
Lemma reset_linked n fuel o h : bounded n h -> depth n <= fuel -> (forall w, In w (leaves o) -> w < n) ->
  exists h', reset_op (reset_var fuel) o h = Some h' /\ RR h h' /\ (forall t, linked h o t -> clean (cells h' t)).
Proof.
  intros B Hf Hl.
  assert (Full : forall e h, bounded n h -> (forall w, In w (leaves e) -> w < n) -> exists h', reset_op (reset_var fuel) e h = Some h' /\ RR h h').
  { intros e h' B' He. destruct (reset_op_ok n (reset_var fuel) n (memos h')) with (o := e) (h := h') as (h2 & E2 & R2 & _); auto.
    - intros v a (Ba & _) Hv. apply reset_var_total with (n := n); auto.
    - split; auto. split; auto. apply cv_bound.
    - eauto. }
  assert (Tmp : forall id, exists h', reset_temp (reset_var fuel) id h = Some h' /\ RR h h' /\ forall t, In t (map snd (m_dtmp (memos h id))) -> clean (cells h' t)).
  { intros id. apply (reset_temp_clean n); auto. intros t a Ba Ht. apply reset_var_total with (n := n); auto. }
  destruct o as [v|p tv|k id e|k id l r]; cbn [reset_op linked leaves] in *.
  - destruct fuel as [|f]; [unfold depth in Hf; lia|].
    destruct (reset_var_total n v h (S f) B) as (h' & E & R & C); [apply Hl; left; auto|auto|]. exists h'. split; auto. split; auto.
    cbn [reset_var] in E.
    assert (Hr : forall w a, bounded n a -> w < n -> exists b, reset_var f w a = Some b /\ RR a b /\ clean (cells b w)).
    { intros w a Ba Hw. apply reset_var_less with (n := n); auto. }
    set (h0 := setc h v (set_vis false (cells h v))) in *.
    assert (SG : same_graph h h0) by (apply same_graph_setc; reflexivity).
    assert (exists h1, (if c_vis (cells h v) then each (reset_op (reset_var f)) (c_items (cells h v)) h0 else Some h) = Some h1 /\ same_graph h h1) as (h1 & E1 & SG1).
    { destruct (c_vis (cells h v)); [|exists h; split; auto using same_graph_refl].
      destruct (reset_items_ok n (reset_var f) n (memos h)) with (l := c_items (cells h v)) (h := h0) as (h1 & E1 & R1 & _).
      - intros w a (Ba & _) Hw. auto.
      - split; [eapply same_graph_bounded; eauto|]. split; [apply cv_bound|apply SG].
      - intros o w Ho Hw. eapply (b_leaf _ _ B); eauto.
      - exists h1. split; auto. eapply same_graph_trans; [exact SG|now apply RR_same_graph]. }
    rewrite E1 in E. assert (SG2 : same_graph h (modc cleaned v h1)) by (eapply same_graph_trans; [exact SG1|apply same_graph_mod; reflexivity]).
    destruct (reset_temp_clean n (reset_var f) v (modc cleaned v h1)) as (h2 & E2 & _ & C2).
    + eapply same_graph_bounded; eauto.
    + auto.
    + rewrite E2 in E. injection E as <-. intros t Ht. apply C2.
      assert (M : memos (modc cleaned v h1) = memos h) by apply SG2. now rewrite M.
  - destruct (reset_var_total n tv h fuel B) as (h' & E & R & C); [apply Hl; left; auto|auto|]. exists h'. split; auto. split; auto. intros t [].
  - destruct (Tmp id) as (h1 & E1 & R1 & C1). rewrite E1.
    destruct (Full e h1) as (h2 & E2 & R2); [eapply same_graph_bounded; eauto using RR_same_graph|auto|].
    exists h2. split; auto. split; [eapply RR_trans; eauto|]. intros t Ht. eapply RR_clean; [exact R2|]. auto.
  - destruct (Tmp id) as (h1 & E1 & R1 & C1). rewrite E1.
    destruct (Full l h1) as (h2 & E2 & R2); [eapply same_graph_bounded; eauto using RR_same_graph|intros; apply Hl, in_or_app; auto|]. rewrite E2.
    assert (R12 := RR_trans _ _ _ R1 R2).
    destruct (Full r h2) as (h3 & E3 & R3); [eapply same_graph_bounded; eauto using RR_same_graph|intros; apply Hl, in_or_app; auto|].
    exists h3. split; auto. split; [eapply RR_trans; eauto|]. intros t Ht. eapply RR_clean; [exact R3|]. eapply RR_clean; [exact R2|]. auto.
Qed.
(** resetImpl on r, whose item is o. *)
Lemma reset_root n r o h fuel : bounded n h -> depth n <= fuel -> c_items (cells h r) = [o] ->
  exists h', reset_impl fuel r h = Some h' /\
    (forall t, linked h o t -> t <> r -> clean (cells h' t)) /\
    (forall w, w <> r -> cells h' w = cells h w \/ cells h' w = cleaned (cells h w)) /\
    (forall u w, u <> r -> w <> r -> c_vis (cells h u) = true -> c_vis (cells h' u) = false -> depc h u w -> clean (cells h' w)).
Proof.
  intros B Hf Ei. unfold reset_impl. rewrite Ei. cbn [each]. set (h0 := modc (set_vis true) r h).
  assert (SG0 : same_graph h h0) by (apply same_graph_mod; reflexivity).
  destruct (reset_linked n fuel o h0) as (h1 & E1 & R1 & C1); auto.
  { eapply same_graph_bounded; eauto. }
  { intros w Hw. eapply (b_leaf _ _ B r o); eauto. rewrite Ei. left; auto. }
  rewrite E1. exists (modc (set_vis false) r h1). split; auto. split; [|split].
  - intros t Ht Hn. rewrite modc_other by auto. apply C1. exact Ht.
  - intros w Hw. rewrite modc_other by auto. destruct (rr_cell _ _ R1 w) as [E|E]; unfold h0 in E; rewrite modc_other in E; auto.
  - intros u w Hu Hw V1 V2 D. rewrite modc_other in * by auto. apply (rr_dep _ _ R1 u w); auto.
    + unfold h0. now rewrite modc_other.
    + eapply depc_graph; eauto.
Qed.
End Reset.

(** ** A copy of a root *)
Section Copy.
Context {T : Type} {N : Num T}.
Notation graph := (graph (T := T)).
Variables (g : graph) (m d : nat).
Hypothesis Hm : items g m = [Leaf d].
Hypothesis Hn : ~ reach g d m.
Lemma copy_ne : d <> m.
Proof. intros ->. apply Hn. constructor. Qed.
Lemma copy_up v : reach g d v -> reach g m v.
Proof.
  intros H. induction H as [|a b H IH Hab]; [|econstructor; eauto]. econstructor; [constructor|].
  exists (Leaf d). rewrite Hm. simpl; auto.
Qed.
Lemma copy_reach v : reach g m v -> v = m \/ reach g d v.
Proof.
  intros H. induction H as [|a b H IH Hab]; auto. right. destruct IH as [->|IH]; [|econstructor; eauto].
  destruct Hab as (o & Ho & Hb). rewrite Hm in Ho. destruct Ho as [<-|[]]. destruct Hb as [<-|[]]. constructor.
Qed.
Lemma copy_off v w o : reach g d v -> In o (items g v) -> In w (leaves o) -> w <> m.
Proof. intros H Ho Hw ->. apply Hn. econstructor; [exact H|]. exists o; auto. Qed.
Lemma values_copy W : values g d W -> values g m (at_ m (W d) W).
Proof.
  intros H v Hv. destruct (copy_reach v Hv) as [->|Hv'].
  - rewrite Hm, at_same. cbn [fold_left sem]. rewrite at_other by apply copy_ne. now rewrite at_other by apply copy_ne.
  - assert (Ne : v <> m) by (intros ->; contradiction). rewrite at_other by auto. rewrite (H v Hv'). apply fold_ext. intros cur o Ho.
    apply sem_ext. intros w Hw. unfold at_. destruct (Nat.eqb_spec w v); auto.
    destruct (Nat.eqb_spec w m) as [->|]; auto. exfalso. exact (copy_off v m o Hv' Ho Hw eq_refl).
Qed.
Lemma derivs_copy W x D : x <> m -> derivs g d W x D -> derivs g m (at_ m (W d) W) x (at_ m (D d) D).
Proof.
  intros Hx H v Hv. destruct (copy_reach v Hv) as [->|Hv'].
  - rewrite Hm, at_same. destruct (Nat.eqb_spec m x) as [->|_]; [congruence|]. cbn [fold_left snd dsem].
    unfold at_. destruct (Nat.eqb_spec d x) as [->|Hd].
    + rewrite (H x) by constructor. now rewrite Nat.eqb_refl.
    + destruct (Nat.eqb_spec d m) as [E|_]; [exfalso; now apply copy_ne|]. reflexivity.
  - assert (Ne : v <> m) by (intros ->; contradiction). rewrite at_other by auto. rewrite (H v Hv'). destruct (Nat.eqb v x); auto.
    f_equal. apply fold_ext. intros [c1 c2] o Ho. cbn [fst snd].
    assert (E : forall (F F' : nat -> T), (forall w, w <> m -> F w = F' w) -> forall w, In w (leaves o) -> F w = F' w).
    { intros F F' HF w Hw. apply HF. exact (copy_off v w o Hv' Ho Hw). }
    f_equal; [apply sem_ext|apply dsem_ext]; apply E; intros w Hw; unfold at_;
      repeat match goal with |- context [Nat.eqb w ?a] => destruct (Nat.eqb_spec w a); auto; try congruence end.
Qed.
Lemma unique_copy : unique_ids g d -> (forall v, reach g d v -> ~ In d (node_ids g v)) -> unique_ids g m.
Proof.
  intros (A & B & C) Hd. assert (Em : node_ids g m = []) by (unfold node_ids; rewrite Hm; reflexivity). split; [|split].
  - intros v Hv. destruct (copy_reach v Hv) as [->|]; auto. rewrite Em. constructor.
  - intros v w k Hv Hw Hne. destruct (copy_reach v Hv) as [->|Hv']; [rewrite Em; intros []|].
    destruct (copy_reach w Hw) as [->|Hw']; [rewrite Em; intros _ []|]. now apply B.
  - intros v w k o Hv Hw Hk Ho. destruct (copy_reach v Hv) as [->|Hv']; [rewrite Em in Hk; destruct Hk|].
    destruct (copy_reach w Hw) as [->|Hw']; [|eauto]. rewrite Hm in Ho. destruct Ho as [<-|[]].
    intros [<-|[]]. now apply (Hd v).
Qed.
Lemma target_copy x : x <> m -> rev_target g d x -> rev_target g m x.
Proof.
  intros Hx ((A & B & C) & D & E). split; [split; [|split]|split]; auto.
  - intros v Hv. destruct (copy_reach v Hv) as [->|]; auto. unfold node_ids. rewrite Hm. intros [].
  - intros v o Hv Ho. destruct (copy_reach v Hv) as [->|Hv']; [|eauto]. rewrite Hm in Ho. destruct Ho as [<-|[]]. intros [].
  - intros v Hv Ho. destruct (copy_reach v Hv) as [->|Hv']; [|eapply C; eauto]. rewrite Hm in Ho. destruct Ho as [X|[]]. congruence.
Qed.
Lemma divs_copy W : divisors_ok g d W -> divisors_ok g m (at_ m (W d) W).
Proof.
  intros H v Hv. destruct (copy_reach v Hv) as [->|Hv'].
  - rewrite Hm. cbn [divs_ok div_ok]. auto.
  - assert (Ne : v <> m) by (intros ->; contradiction). specialize (H v Hv').
    assert (X : forall l cur, (forall o, In o l -> In o (items g v)) -> divs_ok W v cur l -> divs_ok (at_ m (W d) W) v cur l).
    { induction l as [|o l IH]; intros cur Hl; cbn [divs_ok]; auto. intros [P1 P2].
      assert (Eq : forall w, In w (leaves o) -> at_ v cur W w = at_ v cur (at_ m (W d) W) w).
      { intros w Hw. unfold at_. destruct (Nat.eqb_spec w v); auto. destruct (Nat.eqb_spec w m) as [->|]; auto.
        exfalso. refine (copy_off v m o Hv' _ Hw eq_refl). apply Hl. simpl; auto. }
      split; [eapply div_ok_ext; eauto|]. rewrite <- (sem_ext (at_ v cur W)) by auto. apply IH; auto. intros; apply Hl; simpl; auto. }
    apply X; auto.
Qed.
Lemma strat_copy : stratified g d -> (forall v w, reach g d v -> dep g v w -> w <> d) -> stratified g m.
Proof.
  intros (rank & Rk) Hd. exists (at_ m (S (rank d)) rank). intros v w Hv (o & Ho & Hw).
  destruct (copy_reach v Hv) as [->|Hv'].
  - rewrite Hm in Ho. destruct Ho as [<-|[]]. destruct Hw as [<-|[]]. right. rewrite at_same, at_other by apply copy_ne. lia.
  - assert (v <> m) by (intros ->; contradiction). pose proof (copy_off v w o Hv' Ho Hw).
    rewrite !at_other by auto. apply Rk; auto. exists o; auto.
Qed.
(** A query of the copy gives the answer the original would give. *)
Definition wrt (q : query (T := T)) (x : nat) : Prop := match q with QDevalF y => x = y | QGrad xs => In x xs | _ => False end.
Lemma answer_copy q o : (forall v, reach g d v -> ~ In d (node_ids g v)) -> (forall x, wrt q x -> x <> m) ->
  answer g m q o -> answer g d q o.
Proof.
  intros Hd Hx. destruct q as [v x| |x|xs]; cbn [answer wrt] in *; auto.
  - intros H W HW. rewrite (H _ (values_copy W HW)). now rewrite at_same.
  - intros H W D HW HD. rewrite (H _ _ (values_copy W HW) (derivs_copy W x D (Hx x eq_refl) HD)). now rewrite at_same.
  - intros [H1 H2]. split; auto. intros W L HW Hv Hu i x Hi Ht D HD.
    assert (Ne : x <> m) by (apply Hx; eapply nth_error_In; eauto).
    rewrite (H2 _ L (values_copy W HW) (divs_copy W Hv) (unique_copy Hu Hd) i x Hi (target_copy x Ne Ht) _ (derivs_copy W x D Ne HD)).
    now rewrite at_same.
Qed.
End Copy.

(** ** The models *)
(** Matrix<Expression>(n, 1) and CreateMatrix (MatrixConstructors.ipp:66-84; Expression.cpp:27-33): one index for the
    matrix, then n default expressions.  Simplification: n > 0 is asserted by the callers below; memory is not modelled. *)
Section Model.
Context {T : Type} {N : Num T}.
Notation heap := (heap T).
Definition mat_index (h : heap) : heap := bump (S (next h)) h.
Fixpoint elems (n : nat) (h : heap) : list nat * heap :=
  match n with
  | O => ([], h)
  | S n => let (m, h1) := new_exp (fun k => ([Leaf 1], k)) (next h) h in
           let (ms, h2) := elems n h1 in (m :: ms, h2)
  end.

(** result(i, j) = y. *)
Definition set2 (i j : nat) (y : T) (H : nat -> nat -> T) : nat -> nat -> T :=
  fun a b => if (Nat.eqb a i && Nat.eqb b j)%bool then y else H a b.

Variable lr : form (T := T) -> bool.
(** The inner loop of HessianR (CommonMatFunctions.hpp:211-218), js = the values of j; m: firstSym[i]. *)
Fixpoint hess_cols (m i : nat) (xs js : list nat) (H : nat -> nat -> T) (h : heap) : (nat -> nat -> T) * heap :=
  match js with
  | [] => (H, h)
  | j :: js' =>
      if Nat.ltb i j then
        let (y, h1) := DevalR m (nth j xs 0) h in
        let H1 := set2 i j y H in hess_cols m i xs js' (set2 j i (H1 i j) H1) h1
      else if Nat.eqb i j then
        let (y, h1) := DevalR m (nth j xs 0) h in hess_cols m i xs js' (set2 i j y H) h1
      else hess_cols m i xs js' H h
  end.
(** The outer loop (CommonMatFunctions.hpp:207-219); ms: the elements of firstSym. *)
Fixpoint hess_rows (pad e : nat) (ms xs rs : list nat) (H : nat -> nat -> T) (h : heap) : option ((nat -> nat -> T) * heap) :=
  match rs with
  | [] => Some (H, h)
  | i :: rs' =>
      do (d, h1) <- SymDiff lr (depth (S (S (next h))) + pad) e (nth i xs 0) h;
      do (u, h2) <- step pad (CAssignE (nth i ms 0) d) h1;
      do h3 <- PreComp (fuel_for pad h2) (nth i ms 0) h2;
      let (H1, h4) := hess_cols (nth i ms 0) i xs (seq 0 (S i)) H h3 in
      hess_rows pad e ms xs rs' H1 h4
  end.
(** HessianR(exp, vec) (CommonMatFunctions.hpp:200-222).  A vector of length 0 fails the ASSERT in Matrix(rows, cols)
    (MatrixConstructors.ipp:81); CreateMatrix returns a matrix of zeros. *)
Definition HessianR (pad e : nat) (xs : list nat) (h : heap) : option ((nat -> nat -> T) * heap) :=
  if Nat.eqb (length xs) 0 then None else
  let (ms, h1) := elems (length xs) (mat_index (mat_index h)) in
  hess_rows pad e ms xs (seq 0 (length xs)) (fun _ _ => n0) h1.

(** SymGradient(exp, vec), SymMatDiff(exp, X) (CommonMatFunctions.hpp:232-240, 279-287): one derivative per element. *)
Fixpoint grad_rows (pad e : nat) (ps : list (nat * nat)) (h : heap) : option heap :=
  match ps with
  | [] => Some h
  | (m, x) :: ps' =>
      do (d, h1) <- SymDiff lr (depth (S (S (next h))) + pad) e x h;
      do (u, h2) <- step pad (CAssignE m d) h1;
      grad_rows pad e ps' h2
  end.
Definition SymGradient (pad e : nat) (xs : list nat) (h : heap) : option (list nat * heap) :=
  if Nat.eqb (length xs) 0 then None else
  let (ms, h1) := elems (length xs) (mat_index h) in
  do h2 <- grad_rows pad e (combine ms xs) h1; Some (ms, h2).

(** SymHessian(exp, vec) (CommonMatFunctions.hpp:250-269); element (i, j) is [nth (i * n + j) ms]. *)
Fixpoint shess_cols (pad e i : nat) (ms xs js : list nat) (h : heap) : option heap :=
  match js with
  | [] => Some h
  | j :: js' =>
      let n := length xs in
      if Nat.ltb i j then
        do (d, h1) <- SymDiff lr (depth (S (S (next h))) + pad) e (nth i xs 0) h;
        do (d2, h2) <- SymDiff lr (depth (S (S (next h1))) + pad) d (nth j xs 0) h1;
        do (u, h3) <- step pad (CAssignE (nth (i * n + j) ms 0) d2) h2;
        do (u', h4) <- step pad (CAssignE (nth (j * n + i) ms 0) (nth (i * n + j) ms 0)) h3;
        shess_cols pad e i ms xs js' h4
      else if Nat.eqb i j then
        do (d, h1) <- SymDiff lr (depth (S (S (next h))) + pad) e (nth i xs 0) h;
        do (d2, h2) <- SymDiff lr (depth (S (S (next h1))) + pad) d (nth j xs 0) h1;
        do (u, h3) <- step pad (CAssignE (nth (i * n + j) ms 0) d2) h2;
        shess_cols pad e i ms xs js' h3
      else shess_cols pad e i ms xs js' h
  end.
Fixpoint shess_rows (pad e : nat) (ms xs rs : list nat) (h : heap) : option heap :=
  match rs with
  | [] => Some h
  | i :: rs' => do h1 <- shess_cols pad e i ms xs (seq 0 (S i)) h; shess_rows pad e ms xs rs' h1
  end.
Definition SymHessian (pad e : nat) (xs : list nat) (h : heap) : option (list nat * heap) :=
  if Nat.eqb (length xs) 0 then None else
  let (ms, h1) := elems (length xs * length xs) (mat_index h) in
  do h2 <- shess_rows pad e ms xs (seq 0 (length xs)) h1; Some (ms, h2).

(** OracleScalar (OracleScalar.hpp:45-56, OracleScalar.cpp:25-59).  m_jacobian_sym is a default Matrix<Expression>: one
    element (MatrixConstructors.ipp:61); operator[] asserts the index (MatrixAccessors.ipp:130-135). *)
Definition oracle_new (h : heap) : list nat * heap := elems 1 (mat_index h).
(** symJacob *)
Fixpoint sym_jacob (pad e i : nat) (ms xs : list nat) (h : heap) : option heap :=
  match xs with
  | [] => Some h
  | x :: xs' =>
      do (d, h1) <- SymDiff lr (depth (S (S (next h))) + pad) e x h;
      do m <- nth_error ms i;
      do (u, h2) <- step pad (CAssignE m d) h1;
      sym_jacob pad e (S i) ms xs' h2
  end.
(** The inner loop of hessian() (OracleScalar.cpp:48-55). *)
Fixpoint ora_cols (m i : nat) (xs js : list nat) (H : nat -> nat -> T) (h : heap) : (nat -> nat -> T) * heap :=
  match js with
  | [] => (H, h)
  | j :: js' =>
      if Nat.ltb j i then
        let (y, h1) := DevalR m (nth j xs 0) h in
        let H1 := set2 i j y H in ora_cols m i xs js' (set2 j i (H1 i j) H1) h1
      else if Nat.eqb i j then
        let (y, h1) := DevalR m (nth j xs 0) h in ora_cols m i xs js' (set2 i j y H) h1
      else ora_cols m i xs js' H h
  end.
Fixpoint ora_rows (pad : nat) (ms xs rs : list nat) (H : nat -> nat -> T) (h : heap) : option ((nat -> nat -> T) * heap) :=
  match rs with
  | [] => Some (H, h)
  | i :: rs' =>
      do m <- nth_error ms i;
      do h1 <- PreComp (fuel_for pad h) m h;
      let (H1, h2) := ora_cols m i xs (seq 0 (S i)) H h1 in ora_rows pad ms xs rs' H1 h2
  end.
(** hessian(); [Hm]: *m_hessian, None before the first call. *)
Definition oracle_hessian (pad e : nat) (ms xs : list nat) (Hm : option (nat -> nat -> T)) (h : heap) : option ((nat -> nat -> T) * heap) :=
  match Hm with
  | Some H => ora_rows pad ms xs (seq 0 (length xs)) H h
  | None => do h1 <- sym_jacob pad e 0 ms xs (mat_index h); ora_rows pad ms xs (seq 0 (length xs)) (fun _ _ => n0) h1
  end.
End Model.

(** ** Several derivatives of one expression *)
Section Many.
Context {T : Type} {N : Num T}.
Hypotheses (L : NumLaws N) (DL : DivLaws N).
Notation heap := (heap T). Notation op := (op T). Notation store := (store (T := T)). Notation item := (item (T := T)).
Notation cmd := (cmd (T := T)). Notation out := (out (T := T)). Notation ghost := (ghost (T := T)).
Variable lr : form (T := T) -> bool.
Variables (h0 : heap) (st : store) (tc : nat -> Prop) (e : nat).
Hypothesis R : reached h0 st tc.
Hypothesis Q : query_ok st tc e.
Let I : Inv h0 st tc := reached_inv _ _ _ R.
Notation S0 := (next h0).
Variables GV GD : nat -> Prop.
Variable NC : Prop.
Hypothesis HG : forall v, S0 <= v -> GV v \/ GD v -> NC.
Hypothesis HNC : NC -> forall v, GV v /\ GD v.
Variable sm1 : uop T -> T -> Prop.
Variable sm2 : bop T -> T -> T -> Prop.
Variable Sm0 : (nat -> T) -> Prop.
Hypothesis Hsm : forall u, sm1 (UProdC n1) u.
Hypothesis HsV1 : forall k f u d, nice1 k -> sm1 k u -> sym_val1 k = Some f -> fsm sm1 sm2 (fun _ => u) d f.
Hypothesis HsD1 : forall k f u d, nice1 k -> sm1 k u -> sym_der1 k = Some f -> fsm sm1 sm2 (fun _ => u) d f.
Hypothesis HsV2 : forall k f e d, nice2 k -> sm2 k (e SL) (e SR) -> sym_val2 k = Some f -> fsm sm1 sm2 e d f.
Hypothesis HsD2 : forall k f e d, nice2 k -> sm2 k (e SL) (e SR) -> sym_der2 k = Some f -> fsm sm1 sm2 e d f.
Notation liv := (live S0 GV GD NC sm1 sm2 Sm0).
Notation SIv := (SInv S0 GV GD NC sm1 sm2 Sm0).
Notation ses := (sess h0 st e GV GD NC sm1 sm2 Sm0).
Notation vlow := (var_low h0 st tc R). Notation plow := (par_low h0 st tc R).

Record keeps (h : heap) (g : ghost) (st' : store) : Prop := {
  k_inv : SIv h g;
  k_e : gR g e;
  k_items : forall v, v < S0 -> c_items (cells h v) = c_items (cells h0 v);
  k_P : forall v, v < S0 -> (gP g v <-> inP h0 e v);
  k_N : forall id s, gN g id = Some s -> id < S0 -> st id = None;
  k_alike : ScalarMore.alike st st';
  k_var : forall v x, st' v = Some (OVar x) -> c_base (cells h v) = x;
  k_par : forall p x, st' p = Some (OPar x) -> c_base (cells h (S p)) = x
}.
Lemma sess_keeps h g r st' : ses h g r st' -> gR g e -> keeps h g st'.
Proof. intros [A B C D E F G H] Re. constructor; auto. apply A. Qed.
Lemma keeps_sess h g r st' : keeps h g st' -> gR g r -> settled h r -> calm h g r -> r = e \/ S0 <= r -> ses h g r st'.
Proof. intros [A B C D E F G H] Rr St Cm Hr. constructor; auto. repeat apply conj; auto; apply St. Qed.
Definition spotless (h : heap) (g : ghost) : Prop := forall v, gP g v -> clean (cells h v).
Lemma keeps_clean h g r st' : keeps h g st' -> spotless h g -> gR g r -> r = e \/ S0 <= r -> ses h g r st'.
Proof.
  intros K Cl Rr Hr. apply keeps_sess; auto; [|intros v Pv _; auto].
  eapply clean_settled; eauto. apply (k_inv _ _ _ K).
Qed.
Lemma keeps_move h h' g st' : keeps h g st' -> next h <= next h' -> memos h' = memos h ->
  (forall v, gP g v \/ gR g v \/ v < S0 -> cells h' v = cells h v) ->
  (forall v o w, In o (c_items (cells h' v)) -> In w (leaves o) -> w < next h') ->
  (forall v o w, In o (c_items (cells h' v)) -> In w (pars o) -> c_items (cells h' w) = []) -> keeps h' g st'.
Proof.
  intros [A B C D E F G H] Hn Hm Hc Hl Hp.
  constructor; auto.
  - apply (SInv_move _ _ _ _ _ _ _ h); auto.
    + intros v Hv. rewrite Hc by tauto. auto.
    + intros v Kv. rewrite Hc; auto. left. now apply (s_K _ _ _ _ _ _ _ _ _ A).
  - intros v Hv. now rewrite Hc, C by auto.
  - intros v y Ey. assert (Hv : is_var st v) by (apply (alike_var st'); [now apply ScalarMore.alike_sym|exists y; auto]).
    destruct (vlow v Hv). rewrite Hc by (right; right; lia). auto.
  - intros p y Ey. assert (Hv : is_par st p) by (apply (alike_par st'); [now apply ScalarMore.alike_sym|exists y; auto]).
    destruct (plow p Hv) as (_ & ? & _). rewrite Hc by (right; right; lia). auto.
Qed.

(** SymDiff of a root whose reset cleans everything. *)
Lemma again fuel r x h g st' : keeps h g st' -> gR g r -> r = e \/ S0 <= r -> depth (S (S (next h))) <= fuel ->
  (SIv (entered h) g -> forall h2, reset_impl fuel r (entered h) = Some h2 -> spotless h2 g) ->
  exists d h' g', SymDiff lr fuel r x h = Some (d, h') /\ keeps h' g' st' /\ spotless h' g' /\ gR g' d /\ later h g h' g' /\ next h < d /\
    (forall v, v <> d -> gR g' v -> gR g v) /\ (forall v, next h <= v -> v < d -> ~ gP g' v) /\
    exists o k t, c_items (cells h r) = [o] /\ c_items (cells h' d) = [Un (UProdC n1) k (Leaf t)] /\ gP g' t /\
      (c_items (cells h' t) = [] \/ linked h' o t) /\
      (GD r -> forall W D, sol h' g' W -> dsol h' g' x W D -> sem W (Un (UProdC n1) k (Leaf t)) = if Nat.eqb r x then n1 else dsem W D o).
Proof.
  intros K Rr Hr Hf HC. pose proof (k_inv _ _ _ K) as SI.
  destruct (SymDiff_gen L DL lr S0 GV GD NC HG HNC sm1 sm2 Sm0 Hsm HsV1 HsD1 HsV2 HsD2 fuel r x h g SI Rr Hf HC)
    as (d & h' & g' & E & Lv & La & Hd & Cl & Rd & Gap & X).
  exists d, h', g'. split; auto. split; [|repeat apply conj; auto; apply Lv].
  pose proof (s_S0 _ _ _ _ _ _ _ _ _ SI) as H0.
  destruct K as [S1 S2 S3 S4 S5 S6 S7 S8]. constructor; auto.
  - apply Lv.
  - now apply (l_R _ _ _ _ La).
  - intros v Hv. rewrite (l_items _ _ _ _ La) by lia. auto.
  - intros v Hv. rewrite <- S4 by auto. split; [apply (l_dec _ _ _ _ La); lia|apply (l_P _ _ _ _ La)].
  - intros id s Es Hid. apply (S5 id s); auto. apply (l_Ndec _ _ _ _ La); auto. lia.
  - intros v y Ey. assert (Hv : is_var st v) by (apply (alike_var st'); [now apply ScalarMore.alike_sym|exists y; auto]).
    destruct (vlow v Hv). rewrite (l_base _ _ _ _ La) by lia. auto.
  - intros p y Ey. assert (Hv : is_par st p) by (apply (alike_par st'); [now apply ScalarMore.alike_sym|exists y; auto]).
    destruct (plow p Hv) as (_ & ? & _). rewrite (l_base _ _ _ _ La) by lia. auto.
Qed.

(** The only dirty objects are below t, which resetting r reaches. *)
Definition primed (h : heap) (g : ghost) (r : nat) : Prop :=
  exists o t, c_items (cells h r) = [o] /\ gP g t /\ (c_items (cells h t) = [] \/ linked h o t) /\
  (forall v, gP g v -> ~ reach (graph_of h) t v -> clean (cells h v)) /\
  (forall v, reach (graph_of h) t v -> c_items (cells h v) = [] -> clean (cells h v)) /\
  (forall v w, reach (graph_of h) t v -> dep (graph_of h) v w -> c_vis (cells h v) = false -> clean (cells h w)).
Lemma reach_P h g v w : SIv h g -> gP g v -> reach (graph_of h) v w -> gP g w.
Proof.
  intros SI Pv H. induction H as [|a b H IH (o & Ho & Hb)]; auto.
  eapply known_P; [eapply (s_known _ _ _ _ _ _ _ _ _ SI a o); auto|auto].
Qed.
Lemma primed_reset fuel r h g : SIv h g -> gR g r -> primed h g r -> depth (S (S (next h))) <= fuel ->
  SIv (entered h) g -> forall h2, reset_impl fuel r (entered h) = Some h2 -> spotless h2 g.
Proof.
  intros SI Rr (o & t & Eo & Pt & Lk & Out & Pl & Dp) Hf I1 h2 E2.
  assert (C1 : forall v, v < next h -> cells (entered h) v = cells h v).
  { intros w Hw. unfold entered. rewrite cells_bump. apply setc_other. lia. }
  assert (Plt : forall v, gP g v \/ gR g v -> v < next h) by apply (s_lt _ _ _ _ _ _ _ _ _ SI).
  assert (Nr : forall v, gP g v -> v <> r) by (intros v Pv ->; now apply (s_R _ _ _ _ _ _ _ _ _ SI r Rr)).
  destruct (reset_root (next (entered h)) r o (entered h) fuel) as (h2' & E2' & Cl & Ch & Dc).
  { eapply SInv_bounded; eauto. }
  { exact Hf. }
  { rewrite C1; auto. }
  rewrite E2 in E2'. injection E2' as <-.
  assert (Stay : forall v, gP g v -> clean (cells h v) -> clean (cells h2 v)).
  { intros v Pv Cv. destruct (Ch v (Nr v Pv)) as [X|X]; rewrite X; [rewrite C1; auto|apply cleaned_clean]. }
  assert (Reach : forall v, reach (graph_of h) t v -> clean (cells h2 v)).
  { assert (Ct : clean (cells h2 t)).
    { destruct Lk as [Lk|Lk]; [apply Stay; auto; apply Pl; auto; constructor|]. apply Cl; auto. }
    intros v Hv. induction Hv as [|a b Hv IH Hab]; auto.
    assert (Pa : gP g a) by exact (reach_P h g t a SI Pt Hv). assert (Pb : gP g b) by exact (reach_P h g t b SI Pt (reach_step _ _ _ _ Hv Hab)).
    destruct (c_vis (cells h a)) eqn:Ev; [|apply Stay; auto; eapply Dp; eauto].
    apply (Dc a b); auto.
    - rewrite C1; auto.
    - destruct IH as (_ & _ & _ & [X|X]); auto. exfalso. destruct Hab as (u & Hu & _). unfold items, graph_of in Hu. cbn [snd] in Hu.
      assert (Y : c_items (cells h2 a) = c_items (cells h a)) by (destruct (Ch a (Nr a Pa)) as [Z|Z]; rewrite Z, C1; auto).
      rewrite X in Y. rewrite <- Y in Hu. destruct Hu.
    - destruct Hab as (u & Hu & Hb). exists u. rewrite C1 by auto. auto. }
  intros v Pv. destruct (s_rank _ _ _ _ _ _ _ _ _ SI) as (rank & Rk).
  destruct (reach_dec_rank h t rank) with (v := v) as [A|A]; auto.
  intros a b Ha (u & Hu & Hb). apply (Rk a u b); auto. exact (reach_P h g t a SI Pt Ha).
Qed.

(** *** Matrix elements *)
Definition spare (h : heap) (g : ghost) (m : nat) : Prop :=
  S0 <= m /\ m < next h /\ ~ gP g m /\ ~ gR g m /\ gN g m = None /\ c_items (cells h m) <> [].
Lemma spare_later h g h' g' d m : later h g h' g' -> next h < d -> (forall v, v <> d -> gR g' v -> gR g v) -> spare h g m -> spare h' g' m.
Proof.
  intros La Hd Rd (A & B & C & D & E & F). repeat apply conj; auto.
  - pose proof (l_next _ _ _ _ La). lia.
  - intros X. apply C. eapply (l_dec _ _ _ _ La); eauto.
  - intros X. apply D. apply Rd; auto. lia.
  - destruct (gN g' m) eqn:X; auto. apply (l_Ndec _ _ _ _ La) in X; auto. congruence.
  - rewrite (l_items _ _ _ _ La); auto.
Qed.

(** m is a copy of the root d. *)
Definition copied (h : heap) (g : ghost) (d m : nat) (st' : store) : Prop :=
  ses h g d st' /\ spare h g m /\ c_items (cells h m) = [Leaf d] /\ settled h m.
Lemma node_of h g r st' v k : ses h g r st' -> reach (graph_of h) r v -> In k (node_ids (graph_of h) v) -> exists s, gN g k = Some s.
Proof.
  intros S Hv Hk. destruct (se_live _ _ _ _ _ _ _ _ _ _ _ _ _ S) as (SI & Hr & _). apply in_flat_map in Hk. destruct Hk as (o & A & B).
  unfold items, graph_of in A. cbn [snd] in A. eapply known_ids; [eapply (s_known _ _ _ _ _ _ _ _ _ SI v o); auto|auto].
  destruct (root_reach S0 GV GD NC sm1 sm2 Sm0 h g r v SI Hr Hv) as [->|]; auto.
Qed.
Lemma copied_off h g d m st' : copied h g d m st' -> ~ reach (graph_of h) d m.
Proof.
  intros (S & (_ & _ & A & B & _) & _) Hm. destruct (se_live _ _ _ _ _ _ _ _ _ _ _ _ _ S) as (SI & Hr & _).
  destruct (root_reach S0 GV GD NC sm1 sm2 Sm0 h g d m SI Hr Hm) as [->|]; auto.
Qed.
Lemma copied_ready h g d m st' : copied h g d m st' -> ready (next h) h m.
Proof.
  intros C. pose proof (copied_off _ _ _ _ _ C) as Off. destruct C as (S & (A & B & C & D & E & F) & Im & St).
  destruct (se_live _ _ _ _ _ _ _ _ _ _ _ _ _ S) as (SI & Hr & _). constructor; auto.
  - eapply SInv_bounded; eauto.
  - eapply strat_copy; eauto; [eapply root_strat; eauto|].
    intros v w Hv (o & Ho & Hw) ->. apply (s_R _ _ _ _ _ _ _ _ _ SI d Hr).
    eapply known_P; [eapply (s_known _ _ _ _ _ _ _ _ _ SI v o); auto|auto].
    destruct (root_reach S0 GV GD NC sm1 sm2 Sm0 h g d v SI Hr Hv) as [->|]; auto.
  - intros v o w Ho Hw. exact (s_par _ _ _ _ _ _ _ _ _ SI v o w Ho Hw).
Qed.
Lemma copied_calm h g d m st' : copied h g d m st' -> calm h g m.
Proof.
  intros C v Pv Hv. destruct (se_live _ _ _ _ _ _ _ _ _ _ _ _ _ (proj1 C)) as (SI & Hr & _ & Cm). apply Cm; auto.
  intros X. apply Hv. eapply copy_up; eauto. apply C.
Qed.
Lemma copied_live h g d m : SIv h g -> gR g d -> spare h g m -> c_items (cells h m) = [Leaf d] -> ~ reach (graph_of h) d m ->
  settled h m -> calm h g m -> liv h g d.
Proof.
  intros SI Hr (A & B & C & D & _) Im Off [S1 S2] Cm. split; auto. split; auto. split.
  - split.
    + intros v Hv. apply S1. eapply copy_up; eauto.
    + intros v w Hv Hd Hn. apply S2; auto; [eapply copy_up; eauto|]. intros ->. contradiction.
  - intros v Pv Hv. apply Cm; auto. intros X. destruct (copy_reach (graph_of h) m d Im v X) as [->|]; auto.
Qed.

(** firstSym[i] = ... *)
Lemma assign_ok pad m d h g st' : keeps h g st' -> spotless h g -> gR g d -> S0 <= d -> spare h g m ->
  exists h', step pad (CAssignE m d) h = Some (ONone, h') /\ copied h' g d m st' /\ keeps h' g st' /\ spotless h' g /\
    next h' = next h /\ memos h' = memos h /\ (forall v, v <> m -> cells h' v = cells h v).
Proof.
  intros K Cl Hr Hd Sp. pose proof Sp as (A & B & C & D & E & F). cbn [step].
  pose proof (k_inv _ _ _ K) as SI.
  assert (Ne : m <> d) by (intros ->; contradiction). assert (Em : Nat.eqb m d = false) by (now apply Nat.eqb_neq). rewrite Em.
  set (h' := modc _ m h). assert (C1 : forall v, v <> m -> cells h' v = cells h v) by (intros v Hv; unfold h'; now rewrite modc_other).
  assert (Im : c_items (cells h' m) = [Leaf d]) by (unfold h'; rewrite modc_same; reflexivity).
  assert (Nx : next h' = next h) by reflexivity.
  assert (Dlt : d < next h) by (apply (s_lt _ _ _ _ _ _ _ _ _ SI); auto).
  assert (K' : keeps h' g st').
  { apply (keeps_move h); auto.
    - intros v Hv. apply C1. intros ->. destruct Hv as [|[|]]; try contradiction. lia.
    - intros v o w Ho Hw. rewrite Nx. destruct (Nat.eq_dec v m) as [->|Hn].
      + rewrite Im in Ho. destruct Ho as [<-|[]]. destruct Hw as [<-|[]]. auto.
      + rewrite C1 in Ho by auto. eapply (s_leaf _ _ _ _ _ _ _ _ _ SI); eauto.
    - intros v o w Ho Hw. destruct (Nat.eq_dec v m) as [->|Hn].
      + rewrite Im in Ho. destruct Ho as [<-|[]]. destruct Hw.
      + rewrite C1 in Ho by auto. pose proof (s_par _ _ _ _ _ _ _ _ _ SI v o w Ho Hw) as X.
        rewrite C1; auto. intros ->. contradiction. }
  assert (Cl' : spotless h' g) by (intros v Pv; rewrite C1; auto; intros ->; contradiction).
  assert (Off : ~ reach (graph_of h') d m).
  { intros X. destruct (root_reach S0 GV GD NC sm1 sm2 Sm0 h' g d m (k_inv _ _ _ K') Hr X) as [->|]; contradiction. }
  exists h'. split; auto. split; [|repeat apply conj; auto].
  split; [apply keeps_clean; auto|]. split; [repeat apply conj; auto; rewrite Im; discriminate|]. split; auto. split.
  - intros v Hv Hi. destruct (copy_reach (graph_of h') m d Im v Hv) as [->|X]; [congruence|].
    destruct (root_reach S0 GV GD NC sm1 sm2 Sm0 h' g d v (k_inv _ _ _ K') Hr X) as [->|]; auto.
    exfalso. now apply (s_Rne _ _ _ _ _ _ _ _ _ (k_inv _ _ _ K') d Hr).
  - intros v w Hv (o & Ho & Hw) Hn _. destruct (copy_reach (graph_of h') m d Im v Hv) as [->|X]; [congruence|]. apply Cl'.
    eapply known_P; [eapply (s_known _ _ _ _ _ _ _ _ _ (k_inv _ _ _ K') v o); auto|auto].
    destruct (root_reach S0 GV GD NC sm1 sm2 Sm0 h' g d v (k_inv _ _ _ K') Hr X) as [->|]; auto.
Qed.

(** Queries of the copy. *)
Definition turn (d : nat) (c : cmd) : cmd :=
  match c with CEval _ => CEval d | CDevalF _ z => CDevalF d z | CGrad _ zs => CGrad d zs | c => c end.
Lemma copied_query pad q h g d m st' : copied h g d m st' -> match q with QSet _ _ => False | _ => True end ->
  (forall x, wrt q x -> x <> m) ->
  exists o h', run1 (fuel_for pad h) m q h = Some (o, h') /\ copied h' g d m st' /\ answer (graph_of h) d q o /\
    (forall v, c_items (cells h' v) = c_items (cells h v)) /\ (forall v, c_base (cells h' v) = c_base (cells h v)) /\ memos h' = memos h /\ next h' = next h.
Proof.
  intros C Hq Hx. pose proof (copied_off _ _ _ _ _ C) as Off. pose proof (copied_ready _ _ _ _ _ C) as Rd.
  pose proof (copied_calm _ _ _ _ _ C) as Cm. destruct C as (S & Sp & Im & St).
  pose proof (se_live _ _ _ _ _ _ _ _ _ _ _ _ _ S) as (SI & Hr & _).
  destruct (any_query S0 GV GD NC sm1 sm2 Sm0 (fuel_for pad h) m q h g SI Rd Cm) as (o & h' & E & SI' & Rd' & Cm' & An & Ge & Nx).
  { unfold fuel_for. lia. }
  { intros v x ->. contradiction. }
  assert (SG : same_graph h h').
  { eapply (run1_next _ m q h o h'); [exact Rd|unfold fuel_for; apply Nat.le_add_r|exact Hq|exact E]. }
  assert (Ev : forall v, graph_of h v = graph_of h' v) by (intros v; rewrite <- (Ge v); destruct q; [contradiction|auto..]).
  assert (Hi : forall v, c_items (cells h' v) = c_items (cells h v)) by (intros v; specialize (Ev v); unfold graph_of in Ev; congruence).
  assert (Hb : forall v, c_base (cells h' v) = c_base (cells h v)) by (intros v; specialize (Ev v); unfold graph_of in Ev; congruence).
  assert (Off' : ~ reach (graph_of h') d m).
  { intros X. apply Off. eapply reach_ext; [|exact X]. intros v. now rewrite Ev. }
  assert (Sp' : spare h' g m).
  { destruct Sp as (A & B & C & D & F & G). repeat apply conj; auto; [now rewrite Nx|now rewrite Hi]. }
  assert (Im' : c_items (cells h' m) = [Leaf d]) by now rewrite Hi.
  exists o, h'. split; auto. split.
  { split; [|split; [auto|split; [auto|apply Rd']]].
    eapply sess_same; eauto. eapply (copied_live h' g d m); eauto. apply Rd'. }
  split; [|repeat apply conj; auto; apply SG].
  apply (answer_copy (graph_of h) m d Im Off q o); auto. intros v Hv Hk. destruct (node_of h g d st' v d S Hv Hk) as (s & Es).
  now apply (s_N _ _ _ _ _ _ _ _ _ SI d s Es).
Qed.
Lemma obj_low z : is_var st z \/ is_exp st z -> z < S0.
Proof. intros H. apply (i_dom _ _ _ I). destruct H as [[x E]|[x E]]; congruence. Qed.
Lemma copied_cmd pad c h g d m st' : copied h g d m st' -> on_root st m c ->
  exists o h', step pad c h = Some (o, h') /\ copied h' g d m (uafter st' c o) /\ reply st h g d (turn d c) o /\
    (forall v, c_items (cells h' v) = c_items (cells h v)) /\ (forall W, sol h g W <-> sol h' g W) /\
    (forall v, S0 <= v -> c_base (cells h' v) = c_base (cells h v)) /\ memos h' = memos h /\ next h' = next h.
Proof.
  intros C Hc. pose proof C as (S & Sp & Im & St).
  pose proof (se_live _ _ _ _ _ _ _ _ _ _ _ _ _ S) as (SI & Hr & _).
  pose proof Sp as (Sm & _).
  assert (Low : forall z, is_var st z \/ is_exp st z -> z <> m) by (intros z Hz ->; apply obj_low in Hz; lia).
  assert (Upd : forall c, (exists v x, c = CSet v x) \/ (exists v x, c = CSetPar v x) -> on_root st m c ->
    exists o h', step pad c h = Some (o, h') /\ copied h' g d m (uafter st' c o) /\ reply st h g d (turn d c) o /\
    (forall v, c_items (cells h' v) = c_items (cells h v)) /\ (forall W, sol h g W <-> sol h' g W) /\
    (forall v, S0 <= v -> c_base (cells h' v) = c_base (cells h v)) /\ memos h' = memos h /\ next h' = next h).
  { clear c Hc. intros c Hform Hc. assert (Hc' : on_root st d c) by (destruct Hform as [(v & x & ->)|(v & x & ->)]; exact Hc).
    destruct (sess_cmd L h0 st tc e R Q GV GD NC sm1 sm2 Sm0 pad c h g d st' S Hc') as (o & h' & E & S' & Re & Hi & Hs & Hb).
    assert (X : exists w x, h' = SetVar w x h /\ c_items (cells h w) = []).
    { destruct Hform as [(v & x & ->)|(v & x & ->)]; cbn [step] in E; injection E as <- <-; eexists; eexists; (split; [reflexivity|]);
        rewrite (se_items _ _ _ _ _ _ _ _ _ _ _ _ _ S).
      - now apply vlow. - now apply vlow. - now apply plow. - now apply plow. }
    destruct X as (w & x & -> & Ew).
    assert (Rd' : ready (next h) (SetVar w x h) m) by (apply SetVar_ready; auto; eapply copied_ready; eauto).
    exists o, (SetVar w x h). split; auto. split; [|repeat apply conj; auto; destruct Hform as [(v & y & ->)|(v & y & ->)]; exact Re].
    split; auto. split; [|split; [now rewrite Hi|apply Rd']].
    destruct Sp as (A & B & C' & D & F & G). repeat apply conj; auto. now rewrite Hi. }
  destruct c as [x|x| |t|a|a t|a b|v x|p x|r'|r' z|r' zs]; cbn [on_root] in Hc; try contradiction; cbn [turn].
  - apply Upd; eauto.
  - apply Upd; eauto.
  - clear Upd. subst r'. destruct (copied_query pad QEval h g d m st' C Logic.I) as (o & h' & E & C' & An & Hi & Hb & Hm); [intros x []|].
    cbn [run1] in E. cbn [step]. destruct (Eval (fuel_for pad h) m h) as [[y h1]|]; [|discriminate]. injection E as <- <-.
    exists (ONums [y]), h1. split; auto. split; auto.
    split; [eapply reply_eval; eauto|]. split; [auto|split; [intros W; apply sol_same; auto|split; [auto|exact Hm]]].
  - clear Upd. destruct Hc as [-> Hz]. destruct (copied_query pad (QDevalF z) h g d m st' C Logic.I) as (o & h' & E & C' & An & Hi & Hb & Hm).
    { intros x ->. auto. }
    cbn [run1] in E. cbn [step]. destruct (DevalF (fuel_for pad h) m z h) as [[y h1]|]; [|discriminate]. injection E as <- <-.
    exists (ONums [y]), h1. split; auto. split; auto.
    split; [eapply reply_devalF; eauto|]. split; [auto|split; [intros W; apply sol_same; auto|split; [auto|exact Hm]]].
  - clear Upd. destruct Hc as [-> Hz]. destruct (copied_query pad (QGrad zs) h g d m st' C Logic.I) as (o & h' & E & C' & An & Hi & Hb & Hm).
    { intros x Hx. auto. }
    cbn [run1] in E. cbn [step]. destruct (PreComp (fuel_for pad h) m h) as [h1|]; [|discriminate].
    destruct (reads m zs h1) as [ys h2]. injection E as <- <-.
    exists (ONums ys), h2. split; auto. split; auto.
    split; [eapply reply_grad; eauto|]. split; [auto|split; [intros W; apply sol_same; auto|split; [auto|exact Hm]]].
Qed.

(** After queries of the copy only, e can be differentiated again. *)
Lemma copied_primed h g d m st' o k t : copied h g d m st' -> c_items (cells h e) = [o] -> c_items (cells h d) = [Un (UProdC n1) k (Leaf t)] ->
  gP g t -> c_items (cells h t) = [] \/ linked h o t -> primed h g e.
Proof.
  intros C Eo Ed Pt Lk. pose proof (copied_off _ _ _ _ _ C) as Off. pose proof (copied_calm _ _ _ _ _ C) as Cm.
  destruct C as (S & Sp & Im & [S1 S2]). pose proof (se_live _ _ _ _ _ _ _ _ _ _ _ _ _ S) as (SI & Hr & _).
  pose proof Sp as (_ & _ & NP & _).
  assert (Up : forall v, reach (graph_of h) t v -> reach (graph_of h) m v).
  { intros v Hv. eapply copy_up; eauto. induction Hv as [|a b Hv IH Hab]; [|econstructor; eauto].
    econstructor; [constructor|]. exists (Un (UProdC n1) k (Leaf t)). unfold items, graph_of. cbn [snd]. rewrite Ed. simpl; auto. }
  exists o, t. repeat apply conj; auto.
  - intros v Pv Hv. apply Cm; auto. intros X. destruct (copy_reach (graph_of h) m d Im v X) as [->|Y]; [contradiction|].
    apply Hv. clear X. assert (Z : v = d \/ reach (graph_of h) t v).
    { induction Y as [|a b Y IH (u & Hu & Hb)]; auto. right. assert (Pa : a = d \/ gP g a) by (eapply root_reach; eauto).
      unfold items, graph_of in Hu. cbn [snd] in Hu. destruct Pa as [->|Pa].
      - rewrite Ed in Hu. destruct Hu as [<-|[]]. destruct Hb as [<-|[]]. constructor.
      - destruct (IH Pa) as [->|Z].
        + intros Z. apply Hv. econstructor; [exact Z|]. exists u. auto.
        + exfalso. now apply (s_R _ _ _ _ _ _ _ _ _ SI d Hr).
        + econstructor; [exact Z|]. exists u. auto. }
    destruct Z as [->|Z]; auto. exfalso. now apply (s_R _ _ _ _ _ _ _ _ _ SI d Hr).
  - intros v w Hv Hd. apply S2; auto. intros ->. apply NP. exact (reach_P h g t m SI Pt Hv).
Qed.

Lemma copied_clean m d h g st' : keeps h g st' -> spotless h g -> gR g d -> S0 <= d -> spare h g m -> c_items (cells h m) = [Leaf d] ->
  copied h g d m st'.
Proof.
  intros K Cl Hr Hd Sp Im. pose proof Sp as (A & B & C & D & E & F). pose proof (k_inv _ _ _ K) as SI.
  split; [apply keeps_clean; auto|]. split; auto. split; auto. split.
  - intros v Hv Hi. destruct (copy_reach (graph_of h) m d Im v Hv) as [->|X]; [congruence|].
    destruct (root_reach S0 GV GD NC sm1 sm2 Sm0 h g d v SI Hr X) as [->|]; auto.
    exfalso. now apply (s_Rne _ _ _ _ _ _ _ _ _ SI d Hr).
  - intros v w Hv (o & Ho & Hw) Hn _. destruct (copy_reach (graph_of h) m d Im v Hv) as [->|X]; [congruence|]. apply Cl.
    eapply known_P; [eapply (s_known _ _ _ _ _ _ _ _ _ SI v o); auto|auto].
    destruct (root_reach S0 GV GD NC sm1 sm2 Sm0 h g d v SI Hr X) as [->|]; auto.
Qed.

(** New objects elsewhere change nothing. *)
Lemma sess_index h g r st' : ses h g r st' -> gR g e -> ses (mat_index h) g r st'.
Proof.
  intros S Ge. pose proof (se_live _ _ _ _ _ _ _ _ _ _ _ _ _ S) as (SI & _).
  assert (X : forall v o, next h <= v -> In o (c_items (cells h v)) -> forall w, In w (leaves o) -> w < next h).
  { intros v o _ Ho w Hw. eapply (s_leaf _ _ _ _ _ _ _ _ _ SI); eauto. }
  constructor; try apply S. destruct (se_live _ _ _ _ _ _ _ _ _ _ _ _ _ S) as (A & B & C & D).
  split; [|split; [auto|split; [exact C|exact D]]].
  apply (SInv_move _ _ _ _ _ _ _ h); auto.
  - simpl. lia.
  - intros v o w Ho Hw. simpl. assert (w < next h) by (eapply (s_leaf _ _ _ _ _ _ _ _ _ SI); eauto). lia.
  - intros v o w Ho Hw. eapply (s_par _ _ _ _ _ _ _ _ _ SI); eauto.
Qed.
Lemma spare_mono h h' g m : next h <= next h' -> (forall v, v < next h -> cells h' v = cells h v) -> spare h g m -> spare h' g m.
Proof. intros Hn Hc (A & B & C & D & E & F). repeat apply conj; auto; [lia|now rewrite Hc]. Qed.
Lemma elems_ok n : forall h g r st', ses h g r st' -> gR g e -> exists ms h', elems n h = (ms, h') /\ ses h' g r st' /\ length ms = n /\ NoDup ms /\
  (forall m, In m ms -> spare h' g m /\ c_items (cells h' m) = [Leaf 1] /\ next h <= m) /\ next h <= next h' /\ (forall v, v < next h -> cells h' v = cells h v).
Proof.
  induction n as [|n IH]; intros h g r st' S Ge; cbn [elems].
  { exists [], h. split; auto. split; auto. split; auto. split; [constructor|]. split; [intros m []|]. auto. }
  change (new_exp (fun k => ([Leaf 1], k)) (next h) h) with (Datatypes.S (next h), entered h).
  pose proof (se_live _ _ _ _ _ _ _ _ _ _ _ _ _ S) as (SI & _).
  assert (Cm : cells (entered h) (Datatypes.S (next h)) = fresh_cell n0 [Leaf 1]).
  { unfold entered. rewrite cells_bump. apply setc_same. }
  assert (Co : forall v, v <> Datatypes.S (next h) -> cells (entered h) v = cells h v).
  { intros v Hv. unfold entered. rewrite cells_bump. now apply setc_other. }
  assert (Nx : next (entered h) = Datatypes.S (Datatypes.S (next h))) by reflexivity.
  assert (H2 : 1 < next h).
  { apply (s_lt _ _ _ _ _ _ _ _ _ SI). left. apply (s_K _ _ _ _ _ _ _ _ _ SI). apply (s_t0 _ _ _ _ _ _ _ _ _ SI). }
  assert (SI1 : SIv (entered h) g).
  { apply (SInv_move _ _ _ _ _ _ _ h); auto.
    - rewrite Nx. lia.
    - intros v Hv. rewrite Co; auto. apply (s_lt _ _ _ _ _ _ _ _ _ SI) in Hv. lia.
    - intros v Kv. rewrite Co; auto. assert (v < next h) by (apply (s_lt _ _ _ _ _ _ _ _ _ SI); left; now apply (s_K _ _ _ _ _ _ _ _ _ SI)). lia.
    - intros v o w Ho Hw. rewrite Nx. destruct (Nat.eq_dec v (Datatypes.S (next h))) as [->|Hne].
      + rewrite Cm in Ho. destruct Ho as [<-|[]]. destruct Hw as [<-|[]]. lia.
      + rewrite Co in Ho by auto. pose proof (s_leaf _ _ _ _ _ _ _ _ _ SI v o w Ho Hw). lia.
    - intros v o w Ho Hw. destruct (Nat.eq_dec v (Datatypes.S (next h))) as [->|Hne].
      + rewrite Cm in Ho. destruct Ho as [<-|[]]. destruct Hw.
      + rewrite Co in Ho by auto. rewrite Co; [eapply (s_par _ _ _ _ _ _ _ _ _ SI); eauto|].
        assert (w < next h) by (eapply (s_leaf _ _ _ _ _ _ _ _ _ SI); eauto; now apply pars_leaves). lia. }
  assert (S1 : ses (entered h) g r st').
  { destruct (se_live _ _ _ _ _ _ _ _ _ _ _ _ _ S) as (_ & Hr & [St1 St2] & Cl).
    assert (Rl : forall v, reach (graph_of h) r v -> v < next h).
    { intros v Hv. apply (s_lt _ _ _ _ _ _ _ _ _ SI). destruct (root_reach S0 GV GD NC sm1 sm2 Sm0 h g r v SI Hr Hv) as [->|]; auto. }
    assert (Re1 : forall v, reach (graph_of (entered h)) r v -> reach (graph_of h) r v).
    { intros w Hw. induction Hw as [|a b Hw IHw (o & Ho & Hb)]; [constructor|].
      econstructor; [exact IHw|]. exists o. split; auto. unfold items, graph_of in *. cbn [snd] in *. rewrite <- Co; auto. apply Rl in IHw. lia. }
    assert (Re2 : forall v, reach (graph_of h) r v -> reach (graph_of (entered h)) r v).
    { intros w Hw. induction Hw as [|a b Hw IHw (o & Ho & Hb)]; [constructor|].
      econstructor; [exact IHw|]. exists o. split; auto. unfold items, graph_of in *. cbn [snd] in *. rewrite Co; auto. apply Rl in Hw. lia. }
    assert (K : keeps (entered h) g st').
    { destruct (sess_keeps h g r st' S Ge) as [A B C D E F G H]. pose proof (s_S0 _ _ _ _ _ _ _ _ _ SI). constructor; auto.
      - intros v Hv. rewrite Co by lia. auto.
      - intros v y Ey. assert (Hv : is_var st v) by (apply (alike_var st'); [now apply ScalarMore.alike_sym|exists y; auto]).
        destruct (vlow v Hv). rewrite Co by lia. auto.
      - intros p y Ey. assert (Hv : is_par st p) by (apply (alike_par st'); [now apply ScalarMore.alike_sym|exists y; auto]).
        destruct (plow p Hv) as (_ & ? & _). rewrite Co by lia. auto. }
    apply keeps_sess; auto.
    - split.
      + intros v Hv Hi. apply Re1 in Hv. assert (v <> Datatypes.S (next h)) by (apply Rl in Hv; lia). rewrite Co in * by auto. auto.
      + intros u w Hu (o & Ho & Hw) Hne Hvis. pose proof (Re1 u Hu) as Hu'. unfold items, graph_of in Ho. cbn [snd] in Ho.
        assert (u <> Datatypes.S (next h)) by (apply Rl in Hu'; lia). rewrite Co in Ho, Hvis by auto.
        assert (Hd : dep (graph_of h) u w) by (exists o; auto).
        rewrite Co; [apply (St2 u w); auto|]. assert (w < next h) by (apply Rl; econstructor; eauto). lia.
    - intros v Pv Hv. assert (v < next h) by (apply (s_lt _ _ _ _ _ _ _ _ _ SI); auto). rewrite Co by lia. apply Cl; auto.
    - apply (se_r _ _ _ _ _ _ _ _ _ _ _ _ _ S). }
  destruct (IH (entered h) g r st' S1 Ge) as (ms & h' & E & S' & Len & Nd & Sp & Hn & Hc). rewrite E.
  exists (Datatypes.S (next h) :: ms), h'. split; auto. split; auto. split; [simpl; now rewrite Len|]. rewrite Nx in *. split; [|split; [|split]].
  - constructor; auto. intros X. apply Sp in X. lia.
  - intros m [<-|Hm]; [|destruct (Sp m Hm) as (A & B & C); split; auto; split; auto; lia].
    rewrite Hc by lia. rewrite Cm. split; [|split; [reflexivity|lia]]. pose proof (s_S0 _ _ _ _ _ _ _ _ _ SI).
    repeat apply conj; auto; try lia.
    + intros X. assert (Datatypes.S (next h) < next h) by (apply (s_lt _ _ _ _ _ _ _ _ _ SI); auto). lia.
    + intros X. assert (Datatypes.S (next h) < next h) by (apply (s_lt _ _ _ _ _ _ _ _ _ SI); auto). lia.
    + destruct (gN g (Datatypes.S (next h))) as [s|] eqn:X; auto. destruct (s_N _ _ _ _ _ _ _ _ _ SI _ s X) as (_ & _ & Y & _). lia.
    + rewrite Hc, Cm by lia. discriminate.
  - lia.
  - intros v Hv. rewrite Hc by lia. apply Co. lia.
Qed.
End Many.
