(** * The Gauss-Newton example with a matrix oracle

    Model of OracleMatrix.cpp and of setDataUnit / updateMatrix of
    example/GaussNewton/src/GaussNewton.cpp on top of the matrix engine (MatEngine.v), and proof
    that it is an oracle in the sense of GaussNewton.v for the residual column the client's
    expression denotes.

    Simplifications: pairs of a data matrix and its parameter matrix with a null pointer are left
    out of the list [dat]; the EXECUTION_PAR loop of the update visits distinct variables, taken
    in order. *)

From Coq Require Import List Arith Bool Lia.
From Verif Require GaussScalar.
From Verif Require Import Num MatMem Kernels KernelFacts KernelProofs KernelBlocks Registry KernelStep Backend Slots Exec Sums ConvProofs MatEngine MatGraph MatLeaf MatEval MatDeval MatHist MatSpec MatCalls MatFuel MatInplace MatAssign EnvExt PropMatrix PropAssign PropStable MatEnough GaussNewton.
Import ListNotations.
Set Implicit Arguments.
Unset Strict Implicit.
Local Open Scope nat_scope.

(** Entries of the client's Matrix<Variable> and Matrix<Parameter> objects (row-major). *)
Notation nums T := (obj -> nat -> T).

Section Model.
Context {T : Type} {N : Num T}.
Notation M := (M T).
Notation "x <- c ;; k" := (bind c (fun x => k)) (at level 61, c at next level, right associativity).
Notation arr := (gk -> option ptr).
Variable S : sched T.
Variable B : backend (T := T).
Variable G : graph T.
(** The engine sees the current entries of variables and parameters; entries of matrices of scalar
    expressions, and their derivatives, are functions of them (ScalarEval.v). *)
Variable ent : nums T -> obj -> nat -> T.
Variable der : nums T -> obj -> nat -> obj -> nat -> T.
Definition entries (num : nums T) : env T :=
  Env (fun o j => match g_kind G o with LVar | LConst => num o j | _ => ent num o j end) (der num).

(** State of the engine outside the matrix memory, and the entries. *)
Record eng : Type := Eng { h_ar : owner -> option ptr; h_fl : obj -> flags; h_num : nums T }.

(** A call of the engine inside the matrix memory. *)
Definition enter (c : E (T := T) ptr) (h : eng) : M (ptr * eng) := fun m =>
  match c (St m (h_ar h) (h_fl h)) with
  | EOk (p, s) => Ok ((p, Eng (ar s) (fl s) (h_num h)), mm s)
  | ERejected => Rejected
  | _ => Undefined
  end.
Definition put1 (num : nums T) (o : obj) (j : nat) (v : T) : nums T :=
  fun o' j' => if (o' =? o) && (j' =? j) then v else num o' j'.

(** The inner loops of setDataUnit, GaussNewton.cpp:28-30, 35-37; the range check is that of
    operator[], MatrixAccessors.ipp:132-135. *)
Fixpoint set_row (X : ptr) (o : obj) (i : nat) (js : list nat) (num : nums T) : M (nums T) :=
  match js with
  | [] => ret num
  | j :: js =>
      v <- at2 X i j ;;
      if j <? g_rows G o * g_cols G o then set_row X o i js (put1 num o j v) else fun _ => Rejected
  end.
(** setDataUnit, GaussNewton.cpp:25-39. *)
Fixpoint set_data (dat : list (ptr * obj)) (i : nat) (num : nums T) : M (nums T) :=
  match dat with
  | [] => ret num
  | (X, o) :: dat =>
      b <- deref X ;;
      num1 <- set_row X o i (seq 0 (o_cols b)) num ;;
      set_data dat i num1
  end.

Variable fuel : nat.
(** setDataUnit(i); evalMat(); jacobian()  (GaussNewton.cpp:73-78, OracleMatrix.cpp:36-42). *)
Definition matrix_oracle (dat : list (ptr * obj)) (F x : obj) : oracle (T := T) eng :=
  fun i h a =>
  num <- set_data dat i (h_num h) ;;
  r <- enter (Eval S B G (entries num) fuel (MLeaf F)) (Eng (h_ar h) (h_fl h) num) ;;
  j <- enter (DevalF S B G (entries num) fuel (MLeaf F) x) (snd r) ;;
  ret (RMat (fst r), fst j, (snd j, a)).

(** updateMatrix, GaussNewton.cpp:128-136: X[i] = Eval(X[i]) - delX[i], where Eval of a Variable is
    getValue() (CommonFunctions.hpp:106-108). *)
Definition matrix_update (x : obj) (dim : nat) (d : nat -> T) (h : eng) : eng :=
  Eng (h_ar h) (h_fl h) (fold_left (fun num k => put1 num x k (nsub (num x k) (d k))) (seq 0 dim) (h_num h)).

(** The checks of the constructor, OracleMatrix.cpp:26-27. *)
Definition accepts (F x : obj) : bool := (g_cols G F =? 1) && (g_rows G x =? 1).
Variable llt : nat -> (nat -> nat -> T) -> (nat -> T) -> nat -> T.
(** An OracleMatrix for F and x, given to a GaussNewton object, and solve()
    (OracleMatrix.cpp:24-28, GaussNewton.cpp:177-215); getVariableSize() is the number of entries of
    x (OracleMatrix.cpp:24, 58-60). *)
Definition matrix_solve (dat : list (ptr * obj)) (F x : obj) (max_iter size : nat) (s : eng * arr) : M (eng * arr) :=
  if accepts F x then solve B (matrix_oracle dat F x) llt (matrix_update x) max_iter size (g_rows G x * g_cols G x) s
  else fun _ => Rejected.
End Model.

(** ** Specification *)
Section Spec.
Context {T : Type} {N : Num T}.
Notation mat := (mat T).

(** The entries with data row i in the parameters. *)
Definition put_row (X : mat) (o : obj) (i : nat) (num : nums T) : nums T :=
  fun o' j => if (o' =? o) && (j <? mc X) then mf X i j else num o' j.
Definition with_row (D : list (mat * obj)) (i : nat) (num : nums T) : nums T :=
  fold_left (fun num q => put_row (fst q) (snd q) i num) D num.
(** Entry j of parameter matrix o is set by the data. *)
Definition datum (D : list (mat * obj)) (o : obj) (j : nat) : Prop := exists X, In (X, o) D /\ j < mc X.

(** The client's data matrices hold D, one row for each data unit, and the parameter matrices are
    large enough. *)
Definition data_ok (G : graph T) (m : mem T) (dat : list (ptr * obj)) (D : list (mat * obj)) (size : nat) : Prop :=
  Forall2 (fun p q => holds m (fst p) (fst q) /\ snd p = snd q /\ size <= mr (fst q) /\ mc (fst q) <= g_rows G (snd q) * g_cols G (snd q)) dat D.

(** n Gauss-Newton steps for the residual column F (values V, derivatives J by entry k of x at
    every data row): each moves x by the solver's answer for A = sum J^T J and B = sum J^T V at the
    current entries.  Entries set by the data are left open: they do not matter. *)
Inductive gm_path (G : graph T) (read : nums T -> env T) (D : list (mat * obj)) (F x : obj) (size : nat)
  (llt : nat -> (nat -> nat -> T) -> (nat -> T) -> nat -> T) : nat -> nums T -> nums T -> Prop :=
| gm_done num num' : (forall o j, ~ datum D o j -> num' o j = num o j) -> gm_path G read D F x size llt 0 num num'
| gm_step n num V J gA gB d num1 num' :
    (forall i, i < size -> dif G (read (with_row D i num)) x (MLeaf F) (V i) (J i)) ->
    (forall i k, i < g_cols G x -> k < g_cols G x ->
       gA i k = sum_n size (fun u => sum_n (g_rows G F) (fun l => nmul (J u l 0 0 i) (J u l 0 0 k)))) ->
    (forall k, k < g_cols G x ->
       gB k = sum_n size (fun u => sum_n (g_rows G F) (fun l => nmul (J u l 0 0 k) (V u l 0)))) ->
    (forall k, k < g_cols G x -> d k = llt (g_cols G x) gA gB k) ->
    (forall o j, ~ datum D o j -> num1 o j = if (o =? x) && (j <? g_cols G x) then nsub (num x j) (d j) else num o j) ->
    gm_path G read D F x size llt n num1 num' ->
    gm_path G read D F x size llt (Datatypes.S n) num num'.
End Spec.

(** ** Proof *)
Lemma dif_det {T} {N : Num T} (G : graph T) rho x e F D : dif G rho x e F D -> forall F' D', dif G rho x e F' D' -> F = F' /\ D = D'.
Proof.
  assert (Den : forall o F F', den G rho (MLeaf o) F -> den G rho (MLeaf o) F' -> F = F') by (intros; eapply den_det; eauto).
  assert (NC : forall o, is_const G o -> forall i a y, g_kind G o <> KExp i a y) by (intros o [Q|Q]; congruence).
  assert (NV : forall o, is_const G o -> g_kind G o <> LVar) by (intros o [Q|Q]; congruence).
  assert (NE : forall o, is_const G o -> g_kind G o <> LEnt) by (intros o [Q|Q]; congruence).
  induction 1; intros F2 D2 H2; inversion H2; subst; try congruence;
    try (match goal with Q : is_const G ?o, Q' : g_kind G ?o = _ |- _ => exfalso; first [eapply NC; eauto; fail | eapply NV; eauto; fail | eapply NE; eauto; fail] end);
    try (split; [eapply Den; eauto|reflexivity]);
    try (match goal with Q : g_kind G ?o = KExp _ _ _, Q' : g_kind G ?o = KExp _ _ _ |- _ => rewrite Q in Q'; injection Q' as <- <- <-; auto end);
    repeat match goal with IH : forall F' D', dif _ _ _ ?e F' D' -> _, Q : dif _ _ _ ?e ?a ?b |- _ => destruct (IH _ _ Q) as [-> ->]; clear IH end; auto.
Qed.

Lemma choose (A : Type) (d : A) (P : nat -> A -> Prop) n : (forall i, i < n -> exists y, P i y) -> exists f, forall i, i < n -> P i (f i).
Proof.
  induction n as [|n IH]; intros H; [exists (fun _ => d); lia|].
  destruct IH as (f & Hf); [auto|]. destruct (H n) as (y & Hy); [lia|].
  exists (fun i => if i =? n then y else f i). intros i Hi. destruct (Nat.eqb_spec i n) as [->|Ne]; [exact Hy|]. apply Hf. lia.
Qed.
Lemma new_wrote {T} {N : Num T} (m : mem T) R C : tame m -> 0 < R -> 0 < C ->
  exists p m', new_mat CPU R C None m = Ok (p, m') /\ wrote m None p (mzeros R C) m'.
Proof. exact (@GaussScalar.new_wrote T N m R C). Qed.

Section Proofs.
Context {T : Type} {N : Num T}.
Notation mem := (mem T).
Notation mat := (mat T).
Notation arr := (gk -> option ptr).
Notation "a .[ k := p ]" := (sset gk_eq a k p) (at level 1, format "a .[ k := p ]").
Hypothesis L : NumLaws N.
Variable S : sched T.
Hypothesis VS : valid_sched S.
Notation B := (backend_of S HEigen).
Variable G : graph T.
Variable host : nat -> option obj.
Variable rank : obj -> nat.
Hypothesis WF : wf_graph G host rank.
Hypothesis DV : distinct_vars G.
Variable ent : nums T -> obj -> nat -> T.
Variable der : nums T -> obj -> nat -> obj -> nat -> T.
Hypothesis ent_ext : forall n n' : nums T, (forall o j, n o j = n' o j) -> forall o j, ent n o j = ent n' o j.
Hypothesis der_ext : forall n n' : nums T, (forall o j, n o j = n' o j) -> forall o j y k, der n o j y k = der n' o j y k.
Notation read := (entries G ent der).
Variable dat : list (ptr * obj).
Variable D : list (mat * obj).
Variable size : nat.
Variables F x : obj.
Variables (fid : nat) (fe : mexp T) (fy : obj).
Hypothesis FK : g_kind G F = KExp fid fe fy.
Hypothesis FF : fits G (MLeaf F).
Hypothesis XK : g_kind G x = LVar.
Hypothesis F1 : g_cols G F = 1.
Hypothesis X1 : g_rows G x = 1.
Notation dim := (g_cols G x).

(** *** The engine does not mind writes to other matrices *)
Lemma Inv_frame m m' (A : owner -> option ptr) f (W : ptr -> Prop) : evolves W m m' -> (forall w q, A w = Some q -> ~ W q) ->
  Inv G (St m A f) -> Inv G (St m' A f).
Proof.
  intros Ev Nw [I1 I2 I3 I4].
  assert (Sm : forall w q, A w = Some q -> get m' q = get m q).
  { intros w q E. destruct (sl_slot I1 E) as ((o & Ho) & _). apply (ev_frame Ev); [exact (get_lt Ho)|eauto]. }
  constructor.
  - constructor; [apply Ev| |exact (sl_inj I1)|intros q []]. cbn [mm ar]. intros w q E.
    destruct (sl_slot I1 E) as ((o & Ho) & Ns & _). pose proof (get_lt Ho) as Lt. split; [exists o; now rewrite (Sm w q E)|]. split; [|intros []].
    rewrite (ev_special Ev Lt). exact Ns.
  - exact I2.
  - intros o Hk He. destruct (I3 o Hk He) as (p & Ep & Hp). exists p. split; [exact Ep|]. cbn [mm ar] in *. apply (holds_same (m := m)); [eauto|exact Hp].
  - intros o Ho. cbn [mm ar]. specialize (I4 o Ho). cbn [mm ar] in I4. eapply dclean_same; [|exact I4]. intros p Ep. eauto.
Qed.
Lemma Own_frame m m' (A : owner -> option ptr) f (W : ptr -> Prop) : evolves W m m' -> Own G (St m A f) -> Own G (St m' A f).
Proof.
  intros Ev H o id e y p Hk Hp. destruct (H o id e y p Hk Hp) as (Lt & Ns & Q). cbn [mm ar] in *. pose proof (ev_len Ev). split; [lia|]. split; [|exact Q].
  rewrite (ev_special Ev Lt). exact Ns.
Qed.

Record MI (num : nums T) (h : eng (T := T)) (a : arr) (m : mem) : Prop := {
  mi_inv : Inv G (St m (h_ar h) (h_fl h));
  mi_own : Own G (St m (h_ar h) (h_fl h));
  mi_set : settled G (MLeaf F) (St m (h_ar h) (h_fl h));
  mi_num : forall o j, ~ datum D o j -> h_num h o j = num o j;
  mi_slots : slots m a (fun _ => False);
  mi_apart : forall k w p, a k = Some p -> h_ar h w <> Some p;
  mi_data : data_ok G m dat D size;
  mi_out : forall p k w, In p (map fst dat) -> a k <> Some p /\ h_ar h w <> Some p
}.

Lemma data_keep m m' : (forall p v, In p (map fst dat) -> holds m p v -> holds m' p v) -> data_ok G m dat D size -> data_ok G m' dat D size.
Proof.
  unfold data_ok. intros K H. revert K. induction H as [|y z l l' (A & C) H IH]; intros K; constructor.
  - split; [|exact C]. apply K; [now left|exact A].
  - apply IH. intros p v Hp. apply K. now right.
Qed.
Lemma data_lt m : data_ok G m dat D size -> forall q, In q (map fst dat) -> q < length (objs m).
Proof.
  intros A3 q Hq. induction A3 as [|y z l l' (X & _) A3 IH]; [destruct Hq|].
  destruct Hq as [<-|Hq]; [exact (holds_lt X)|auto].
Qed.

Lemma mi_evolves num h a m k m' : MI num h a m -> evolves (fun q => a k = Some q) m m' ->
  Inv G (St m' (h_ar h) (h_fl h)) /\ Own G (St m' (h_ar h) (h_fl h)) /\ data_ok G m' dat D size.
Proof.
  intros [A1 A2 A3 A4 A5 A6 A7 A8] Ev. split; [|split].
  - eapply Inv_frame; [exact Ev| |exact A1]. intros w q E X. exact (A6 k w q X E).
  - eapply Own_frame; [exact Ev|exact A2].
  - eapply data_keep; [|exact A7]. intros p v Hp. apply (holds_evolves Ev). exact (proj1 (A8 p k (ONode 0 0) Hp)).
Qed.
Lemma mi_frame num h a m k p v m' : MI num h a m -> wrote m (a k) p v m' -> MI num h a.[k := p] m'.
Proof.
  intros HI W. pose proof (mi_evolves HI (wr_evolves W)) as (Q1 & Q2 & Q3). destruct HI as [A1 A2 A3 A4 A5 A6 A7 A8].
  destruct (slot_write gk_eq A5 W) as (S' & Hp & Fr & _).
  constructor; auto.
  - intros k' w q. destruct (gk_eq k' k) as [->|Ne]; [|rewrite sset_other by auto; apply A6].
    rewrite sset_same. intros [= <-] X. destruct (wr_where W) as [Y|Y]; [exact (A6 k w p Y X)|].
    destruct (sl_slot (inv_slots A1) X) as ((o & Ho) & _). cbn [mm] in Ho. pose proof (get_lt Ho). lia.
  - intros q k' w Hq. split; [|exact (proj2 (A8 q k' w Hq))]. destruct (gk_eq k' k) as [->|Ne].
    + rewrite sset_same. intros [= <-]. destruct (wr_where W) as [X|X]; [exact (proj1 (A8 _ _ (ONode 0 0) Hq) X)|]. apply (data_lt A7) in Hq. lia.
    + rewrite sset_other by auto. exact (proj1 (A8 q k' w Hq)).
Qed.
Lemma mi_zero num h a m k p m' : MI num h a m -> a k = Some p -> evolves (fun q => a k = Some q) m m' -> MI num h a m'.
Proof.
  intros HI E Ev. pose proof (mi_evolves HI Ev) as (Q1 & Q2 & Q3). destruct HI as [A1 A2 A3 A4 A5 A6 A7 A8]. constructor; auto.
  constructor; [apply Ev| |exact (sl_inj A5)|intros q []].
  intros k' q E'. destruct (sl_slot A5 E') as ((o & Ho) & Ns & _). pose proof (get_lt Ho) as Lt.
  split; [|split; [now rewrite (ev_special Ev Lt)|auto]]. apply (ev_live Ev). eauto.
Qed.

(** *** setDataUnit *)
Lemma with_row_app i : forall (l : list (mat * obj)) num o j,
  with_row l i num o j = (if existsb (fun q : mat * obj => (o =? snd q) && (j <? mc (fst q))) l then with_row l i (fun _ _ => n0) o j else num o j).
Proof.
  induction l as [|q l IH]; intros num o j; [reflexivity|]. unfold with_row in *. cbn [fold_left existsb].
  rewrite IH. rewrite (IH (put_row (fst q) (snd q) i (fun _ _ => n0))). unfold put_row. destruct (existsb (fun q : mat * obj => (o =? snd q) && (j <? mc (fst q))) l) eqn:E; [now rewrite orb_true_r|].
  rewrite orb_false_r. destruct ((o =? snd q) && (j <? mc (fst q))); reflexivity.
Qed.
Lemma datum_dec (l : list (mat * obj)) o j : existsb (fun q : mat * obj => (o =? snd q) && (j <? mc (fst q))) l = true <-> datum l o j.
Proof.
  rewrite existsb_exists. split.
  - intros ((X & o') & Hin & E). cbn [fst snd] in E. apply andb_true_iff in E as [E1 E2]. apply Nat.eqb_eq in E1. apply Nat.ltb_lt in E2. subst o'. exists X. auto.
  - intros (X & Hin & Hj). exists (X, o). split; [exact Hin|]. cbn [fst snd]. rewrite Nat.eqb_refl. simpl. now apply Nat.ltb_lt.
Qed.
Lemma with_row_ext i num num' : (forall o j, ~ datum D o j -> num' o j = num o j) -> forall o j, with_row D i num' o j = with_row D i num o j.
Proof.
  intros H o j. rewrite (with_row_app i D num'), (with_row_app i D num). destruct (existsb (fun q : mat * obj => (o =? snd q) && (j <? mc (fst q))) D) eqn:E; [reflexivity|].
  apply H. intros X. apply datum_dec in X. congruence.
Qed.
Lemma with_row_off i num o j : ~ datum D o j -> with_row D i num o j = num o j.
Proof. intros H. rewrite with_row_app. destruct (existsb (fun q : mat * obj => (o =? snd q) && (j <? mc (fst q))) D) eqn:E; [|reflexivity]. exfalso. apply H. now apply datum_dec. Qed.

Lemma at2_holds m X (v : mat) i j : holds m X v -> i < mr v -> j < mc v -> at2 X i j m = Ok (mf v i j, m).
Proof.
  intros ((k & sp & b & Hg & Lb) & E) Hi Hj.
  eapply at2_ok; [exact Hg|exact Hi|exact Hj|]. cbn [o_buf o_cols].
  rewrite <- (E i j Hi Hj). unfold val. rewrite Hg. cbn [o_buf o_cols]. apply nth_error_def. rewrite Lb. now apply idx_bound.
Qed.
Lemma set_row_ok m X (v : mat) o i : holds m X v -> i < mr v -> mc v <= g_rows G o * g_cols G o ->
  forall n k num, k + n = mc v -> exists num', set_row G X o i (seq k n) num m = Ok (num', m) /\
    forall o' j, num' o' j = if (o' =? o) && (k <=? j) && (j <? mc v) then mf v i j else num o' j.
Proof.
  intros HX Hi Hl. induction n as [|n IH]; intros k num Hk.
  - exists num. split; [reflexivity|]. intros o' j. destruct (Nat.leb_spec k j), (Nat.ltb_spec j (mc v)); try lia; rewrite ?andb_false_r; reflexivity.
  - destruct (IH (Datatypes.S k) (put1 num o k (mf v i k))) as (num' & E & Q); [lia|]. exists num'. split.
    + cbn [seq set_row]. unfold bind. rewrite (at2_holds HX Hi) by lia. destruct (Nat.ltb_spec k (g_rows G o * g_cols G o)); [exact E|lia].
    + intros o' j. rewrite Q. unfold put1. destruct (Nat.eqb_spec o' o) as [->|Ne]; [|reflexivity]. cbn [andb].
      destruct (Nat.eqb_spec j k) as [->|Nj].
      * destruct (Nat.leb_spec (Datatypes.S k) k); [lia|]. destruct (Nat.leb_spec k k); [|lia]. destruct (Nat.ltb_spec k (mc v)); [reflexivity|lia].
      * destruct (Nat.leb_spec (Datatypes.S k) j), (Nat.leb_spec k j); try lia; reflexivity.
Qed.
Lemma set_data_ok m i : i < size -> forall dt Dt num, data_ok G m dt Dt size ->
  exists num', set_data G dt i num m = Ok (num', m) /\ forall o j, num' o j = with_row Dt i num o j.
Proof.
  intros Hi dt Dt num HD. revert num.
  induction HD as [|[X o] [v o'] dt Dt (HX & Eq & Sz & Ln) HD IH]; intros num.
  - exists num. split; reflexivity.
  - cbn [fst snd] in *. subst o'.
    destruct (@set_row_ok m X v o i HX ltac:(lia) Ln (mc v) 0 num eq_refl) as (num1 & E1 & Q1).
    destruct (IH num1) as (num2 & E2 & Q2). exists num2. split.
    + cbn [set_data]. destruct HX as ((k & sp & b & Hg & Lb) & _). unfold bind, deref. rewrite Hg. cbn [o_cols]. rewrite E1. exact E2.
    + intros o' j. rewrite Q2. unfold with_row. cbn [fold_left fst snd].
      change (with_row Dt i num1 o' j = with_row Dt i (put_row v o i num) o' j).
      rewrite (with_row_app i Dt num1), (with_row_app i Dt (put_row v o i num)). destruct (existsb (fun q : mat * obj => (o' =? snd q) && (j <? mc (fst q))) Dt); [reflexivity|].
      rewrite Q1. unfold put_row. destruct (o' =? o); reflexivity.
Qed.

(** *** Calls of the engine *)
Variable fuel : nat.
Hypothesis Fuel1 : forall rho, enough (Eval S B G rho fuel (MLeaf F)).
Hypothesis Fuel2 : forall rho, enough (DevalF S B G rho fuel (MLeaf F) x).
Lemma returns_fuel a s p s' : (call S B G fuel a s <> ENoFuel) -> returns S HEigen G a s p s' -> call S B G fuel a s = EOk (p, s').
Proof.
  intros Nf (n & E). rewrite <- (E (max n fuel)) by lia. symmetry. apply call_fuel; [lia|exact Nf].
Qed.

Lemma same_read n n' e : (forall o j, n o j = n' o j) -> same_entries G (read n) (read n') e.
Proof.
  intros H o _. split; intros; cbn [entries e_val e_der]; [|now apply der_ext]. destruct (g_kind G o); auto.
Qed.

Section Fixed.
Variable num : nums T.
Variable V : nat -> nat -> nat -> T.
Variable J : nat -> nat -> nat -> nat -> nat -> T.
Hypothesis VJ : forall i, i < size -> dif G (read (with_row D i num)) x (MLeaf F) (V i) (J i).
Definition Jm (i : nat) : mat := Mat (g_rows G F) dim (fun l k => J i l 0 0 k).
Definition Vm (i : nat) : mat := Mat (g_rows G F) 1 (V i).

Lemma jac_flat (Q : nat -> nat -> nat -> nat -> T) : meq (jac_of G x (MLeaf F) Q) (Mat (g_rows G F) dim (fun l k => Q l 0 0 k)).
Proof.
  unfold jac_of, layout. rewrite X1. change (MatEngine.rows G (MLeaf F)) with (g_rows G F). change (MatEngine.cols G (MLeaf F)) with (g_cols G F). rewrite F1.
  split; [simpl; lia|]. split; [simpl; lia|]. cbn [mr mc mf]. intros i j Hi Hj.
  rewrite Nat.div_1_r, Nat.mod_1_r, Nat.div_small, Nat.mod_small by lia. reflexivity.
Qed.

Theorem matrix_oracle_right : oracle_right (matrix_oracle S B G ent der fuel dat F x) size dim (MI num) Jm (fun i => inr (Vm i)).
Proof.
  constructor.
  - intros h a m HI. exact (mi_slots HI).
  - intros h a m k p v m' HI Hk W. exact (mi_frame HI W).
  - intros h a m k p m' HI Hk E Ev. eapply mi_zero; eauto.
  - intros i h a m Hi HI.
    destruct (@set_data_ok m i Hi dat D (h_num h) (mi_data HI)) as (num1 & E1 & Q1).
    assert (Q : forall o j, num1 o j = with_row D i num o j).
    { intros o j. rewrite Q1. apply with_row_ext. exact (mi_num HI). }
    set (rho := read num1).
    set (s0 := St m (h_ar h) (h_fl h)).
    assert (Rt : root host (@MLeaf T F)) by (split; [constructor|intros q []]).
    assert (Ok1 : act_ok B G host (AEval rho (MLeaf F))) by (split; [exact Rt|]; split; [exact FF|exact Logic.I]).
    assert (Ok2 : act_ok B G host (ADevalF rho (MLeaf F) x)) by (split; [exact Rt|]; split; [exact FF|]; split; [now apply eigen_kron|auto]).
    destruct (act_full L VS WF (mi_inv HI) (mi_own HI) (a := AEval rho (MLeaf F)) (mi_set HI) Ok1)
      as (p & s1 & R1 & (V1 & HV1 & Hp1) & I1 & O1 & Ap & G1 & St1 & _ & _ & Vis1 & _).
    assert (Set1 : settled G (MLeaf F) s1) by (apply evaluated_settled; intros o Ho _; now apply Vis1).
    destruct (act_full L VS WF I1 O1 (a := ADevalF rho (MLeaf F) x) Set1 Ok2)
      as (j & s2 & R2 & (V2 & J2 & HJ2 & Hj2) & I2 & O2 & Aj & G2 & St2 & _ & K2 & Vis2 & _).
    assert (Set2 : settled G (MLeaf F) s2) by (apply evaluated_settled; intros o Ho _; now apply Vis2).
    apply returns_fuel in R1; [|apply Fuel1]. apply returns_fuel in R2; [|apply Fuel2].
    cbn [call] in R1, R2. simpl in Ap, Aj. rewrite FK in Ap, Aj.
    assert (HV2 : den G rho (MLeaf F) V2) by (eapply dif_den; eauto).
    destruct (K2 F fid fe fy V2 eq_refl FK HV2) as (p' & Ep' & Hp').
    assert (Z1 : sized_at s1 (ONode fid 0) p (g_rows G F) (g_cols G F)) by exact (sized_holds (conj Ap Hp1)).
    destruct (St2 F fid fe fy p FK Z1) as [Z2 _]. assert (p' = p) by congruence. subst p'.
    (* the specification's value and derivative *)
    destruct (@dif_ext T N G (read (with_row D i num)) rho x (MLeaf F) (V i) (J i) (VJ Hi)) as (V' & J' & HJ' & EV & EJ).
    { apply same_read. intros o k. symmetry. apply Q. }
    destruct (dif_det HJ' HJ2) as [-> ->].
    exists (RMat p), j, (Eng (ar s2) (fl s2) num1), a, (mm s2).
    assert (G12 : grew s0 s2) by (eapply grew_trans; eauto).
    destruct G12 as (Ln & Wh & Sp & Fr). cbn [s0 mm ar] in Ln, Wh, Sp, Fr.
    assert (Old : forall k q, a k = Some q -> q < length (objs m)).
    { intros k q E. destruct (sl_slot (mi_slots HI) E) as ((o & Ho) & _). exact (get_lt Ho). }
    assert (Keep : forall k q, a k = Some q -> get (mm s2) q = get m q).
    { intros k q E. apply Fr; [eauto|]. intros w X. exact (mi_apart HI E X). }
    assert (Ap2 : forall k w q, a k = Some q -> ar s2 w <> Some q).
    { intros k w q E X. destruct (Wh w q X) as [Y|Y]; [exact (mi_apart HI E Y)|]. specialize (Old k q E). lia. }
    split; [|split; [|split; [|split; [|split; [|split; [|split]]]]]].
    + unfold matrix_oracle, bind. rewrite E1. cbv beta. unfold enter. cbn [h_ar h_fl]. fold rho. rewrite R1. cbn [snd h_ar h_fl h_num]. 
      replace (St (mm s1) (ar s1) (fl s1)) with s1 by (destruct s1; reflexivity). rewrite R2. reflexivity.
    + constructor; cbn [h_ar h_fl h_num].
      * replace (St (mm s2) (ar s2) (fl s2)) with s2 by (destruct s2; reflexivity). exact I2.
      * replace (St (mm s2) (ar s2) (fl s2)) with s2 by (destruct s2; reflexivity). exact O2.
      * replace (St (mm s2) (ar s2) (fl s2)) with s2 by (destruct s2; reflexivity). exact Set2.
      * intros o k Hn. rewrite Q. now apply with_row_off.
      * constructor; [exact (sl_tame (inv_slots I2))| |exact (sl_inj (mi_slots HI))|intros q []].
        intros k q E. destruct (sl_slot (mi_slots HI) E) as ((o & Ho) & Ns & _). split; [exists o; now rewrite (Keep k q E)|]. split; [|auto].
        intros X. apply Ns. apply Sp; [eauto|exact X].
      * exact Ap2.
      * eapply data_keep; [|exact (mi_data HI)]. intros q v Hq Hv. apply (holds_same (m := m)); [|exact Hv]. apply Fr; [exact (holds_lt Hv)|].
        intros w. exact (proj2 (mi_out HI GA w Hq)).
      * intros q k w Hq. split; [exact (proj1 (mi_out HI k w Hq))|]. intros X. destruct (Wh w q X) as [Y|Y]; [exact (proj2 (mi_out HI k w Hq) Y)|].
        pose proof (data_lt (mi_data HI) Hq). lia.
    + reflexivity.
    + intros k q v _ E Hq. apply (holds_same (m := m)); [eauto|exact Hq].
    + eapply holds_meq; [exact Hj2|]. eapply meq_trans; [apply jac_flat|]. split; [reflexivity|]. split; [reflexivity|]. cbn [Jm mf]. intros l k Hl Hk.
      symmetry. apply EJ.
    + intros k _ E. exact (Ap2 k _ _ E Aj).
    + reflexivity.
    + split; [|split; [|split; reflexivity]].
      * eapply holds_meq; [exact Hp'|]. unfold mat_of. change (MatEngine.rows G (MLeaf F)) with (g_rows G F). change (MatEngine.cols G (MLeaf F)) with (g_cols G F). rewrite F1.
        split; [reflexivity|]. split; [reflexivity|]. cbn [Vm mf]. intros l k Hl Hk. symmetry. apply EV.
      * intros k _ E. exact (Ap2 k _ _ E Ep').
Qed.
End Fixed.

(** Residual and Jacobian exist. *)
Lemma residual_exists num : exists V J, forall i, i < size -> dif G (read (with_row D i num)) x (MLeaf F) (V i) (J i).
Proof.
  destruct (@choose ((nat -> nat -> T) * (nat -> nat -> nat -> nat -> T)) (fun _ _ => n0, fun _ _ _ _ => n0)
    (fun i q => dif G (read (with_row D i num)) x (MLeaf F) (fst q) (snd q)) size) as (f & Hf).
  - intros i _. destruct (dif_total (read (with_row D i num)) x FF) as (V & J & H). exists (V, J). exact H.
  - exists (fun i => fst (f i)), (fun i => snd (f i)). exact Hf.
Qed.

(** *** The update *)
Lemma upd_ok (d : nat -> T) : forall n k (num : nums T) o j,
  fold_left (fun num k => put1 num x k (nsub (num x k) (d k))) (seq k n) num o j =
  if (o =? x) && (k <=? j) && (j <? k + n) then nsub (num x j) (d j) else num o j.
Proof.
  induction n as [|n IH]; intros k num o j.
  - destruct (Nat.leb_spec k j), (Nat.ltb_spec j (k + 0)); try lia; rewrite ?andb_false_r; reflexivity.
  - cbn [seq fold_left]. rewrite IH. unfold put1. rewrite Nat.eqb_refl. cbn [andb].
    destruct (Nat.eqb_spec o x) as [->|Ne]; [|reflexivity]. cbn [andb].
    destruct (Nat.eqb_spec j k) as [->|Nj].
    + destruct (Nat.leb_spec (Datatypes.S k) k); [lia|]. destruct (Nat.leb_spec k k); [|lia]. destruct (Nat.ltb_spec k (k + Datatypes.S n)); [reflexivity|lia].
    + destruct (Nat.leb_spec (Datatypes.S k) j), (Nat.leb_spec k j), (Nat.ltb_spec j (Datatypes.S k + n)), (Nat.ltb_spec j (k + Datatypes.S n)); try lia; reflexivity.
Qed.

(** *** solve() *)
Variable llt : nat -> (nat -> nat -> T) -> (nat -> T) -> nat -> T.
Hypothesis Hdim : 0 < dim.
Lemma path_end n num num' num2 : gm_path G read D F x size llt n num num' -> (forall o j, ~ datum D o j -> num2 o j = num' o j) ->
  gm_path G read D F x size llt n num num2.
Proof.
  induction 1 as [num num' H|n num V J gA gB d num1 num' H1 H2 H3 H4 H5 P IH]; intros E.
  - constructor. intros o j Hn. rewrite E, H; auto.
  - econstructor; eauto.
Qed.
Lemma iters_ok : forall n num h a m A Bp Dp v w u, MI num h a m ->
  a GA = Some A -> a GB = Some Bp -> a GD = Some Dp ->
  holds m A v -> mr v = dim -> mc v = dim -> holds m Bp w -> mr w = dim -> mc w = 1 ->
  holds m Dp u -> mr u = dim -> mc u = 1 ->
  exists h' a' m' num', iters B (matrix_oracle S B G ent der fuel dat F x) llt (matrix_update x) n size dim (h, a) m = Ok ((h', a'), m') /\
    gm_path G read D F x size llt n num num' /\ MI num' h' a' m'.
Proof.
  induction n as [|n IH]; intros num h a m A Bp Dp v w u HI EA EB ED HA A1 A2 HB B1 B2 HD D1 D2.
  - exists h, a, m, num. split; [reflexivity|]. split; [now constructor|exact HI].
  - destruct (residual_exists num) as (V & J & VJ). pose proof (matrix_oracle_right VJ) as OR.
    destruct (@iter_ok T N B (backend_value VS (fun _ => L)) (backend_accum VS HEigen) _ _ size dim Hdim _ _ _ OR llt (matrix_update x) h a m A Bp Dp v w u)
      as (h1 & a1 & m1 & m2 & gA & gB & d & _ & E & XA & XB & Xd & I2 & EA2 & EB2 & ED2 & HA2 & HB2 & HD2); auto.
    set (num1 := fun o j => if (o =? x) && (j <? dim) then nsub (num x j) (d j) else num o j).
    assert (I3 : MI num1 (matrix_update x dim d h1) a1 m2).
    { destruct I2 as [C1 C2 C3 C4 C5 C6 C7 C8]. constructor; auto. cbn [matrix_update h_num]. intros o j Hn. rewrite upd_ok. cbn [Nat.leb Nat.add]. rewrite andb_true_r.
      unfold num1. destruct (Nat.eqb_spec o x) as [->|Ne]; cbn [andb]; [|auto]. destruct (j <? dim); [|auto]. now rewrite C4. }
    destruct (IH num1 _ a1 m2 A Bp Dp _ _ _ I3 EA2 EB2 ED2 HA2 eq_refl eq_refl HB2 eq_refl eq_refl HD2 eq_refl eq_refl)
      as (h' & a' & m' & num' & E' & Pa & I').
    exists h', a', m', num'. split; [cbn [iters]; unfold bind; rewrite E; exact E'|]. split; [|exact I'].
    econstructor; [exact VJ|exact XA|exact XB|exact Xd| |exact Pa]. intros o j _. reflexivity.
Qed.
Lemma ensure_ok num h a m k R C : MI num h a m -> 0 < R -> 0 < C ->
  (forall p, a k = Some p -> exists w, holds m p w /\ mr w = R /\ mc w = C) ->
  exists a' m' p w, ensure k R C a m = Ok (a', m') /\ MI num h a' m' /\ a' k = Some p /\ holds m' p w /\ mr w = R /\ mc w = C /\
    (forall k', k' <> k -> a' k' = a k') /\ (forall q v, holds m q v -> holds m' q v).
Proof.
  intros HI HR HC Hp. unfold ensure. destruct (a k) as [p|] eqn:E.
  - destruct (Hp p eq_refl) as (w & Hw & R1 & R2). exists a, m, p, w. unfold ret. auto 10.
  - destruct (@new_wrote T N m R C (sl_tame (mi_slots HI)) HR HC) as (p & m' & En & W).
    exists (a.[k := p]), m', p, (mzeros R C). unfold bind. rewrite En. split; [reflexivity|].
    rewrite <- E in W. pose proof (mi_frame HI W) as HI'. destruct (slot_write gk_eq (mi_slots HI) W) as (_ & Hp' & Fr & _).
    split; [exact HI'|]. split; [apply sset_same|]. split; [exact Hp'|]. split; [reflexivity|]. split; [reflexivity|].
    split; [intros k' Ne; now apply sset_other|]. intros q v Hq. apply Fr; [now rewrite E|exact Hq].
Qed.
(** solve(): the object may be new or have been used before. *)
Theorem solve_ok max_iter num h a m : MI num h a m ->
  (forall p, a GA = Some p -> exists w, holds m p w /\ mr w = dim /\ mc w = dim) ->
  (forall p, a GB = Some p -> exists w, holds m p w /\ mr w = dim /\ mc w = 1) ->
  (forall p, a GD = Some p -> exists w, holds m p w /\ mr w = dim /\ mc w = 1) ->
  exists h' a' m' num', solve B (matrix_oracle S B G ent der fuel dat F x) llt (matrix_update x) max_iter size dim (h, a) m = Ok ((h', a'), m') /\
    gm_path G read D F x size llt max_iter num num' /\ MI num' h' a' m'.
Proof.
  intros HI HA HB HD.
  destruct (@ensure_ok num h a m GD dim 1 HI) as (a1 & m1 & pD & wD & E1 & I1 & K1 & H1 & R1 & C1 & O1 & Fr1); auto.
  destruct (@ensure_ok num h a1 m1 GA dim dim I1) as (a2 & m2 & pA & wA & E2 & I2 & K2 & H2 & R2 & C2 & O2 & Fr2); auto.
  { intros p. rewrite O1 by discriminate. intros E. destruct (HA p E) as (w & Hw & R). exists w. split; auto. }
  destruct (@ensure_ok num h a2 m2 GB dim 1 I2) as (a3 & m3 & pB & wB & E3 & I3 & K3 & H3 & R3 & C3 & O3 & Fr3); auto.
  { intros p. rewrite O2, O1 by discriminate. intros E. destruct (HB p E) as (w & Hw & R). exists w. split; auto. }
  destruct (@iters_ok max_iter num h a3 m3 pA pB pD wA wB wD I3) as (h' & a' & m' & num' & E & Pa & I'); auto.
  - rewrite O3 by discriminate. exact K2.
  - rewrite O3, O2 by discriminate. exact K1.
  - exists h', a', m', num'. split; [|auto]. unfold solve; unfold bind at 1; cbn [fst snd]; rewrite E1; unfold bind at 1; rewrite E2; unfold bind at 1; rewrite E3; exact E.
Qed.
End Proofs.
