(** * Property C75: Eval in floating point *)
From Coq Require Import List Arith Bool Lia ZArith Reals Lra.
From Flocq Require Import Core.Core IEEE754.BinarySingleNaN.
From Verif Require Import Num NumInst MatMem Kernels KernelFacts KernelProofs KernelBlocks KernelMore Registry KernelStep Backend Square Slots Exec MatEngine MatGraph MatLeaf MatEval MatDeval MatHist ConvDerv MatSpec MatCalls MatFuel FloatEval PropMatrix.
From Verif Require PropKernel PropConv.
Import ListNotations.
Set Implicit Arguments.
Unset Strict Implicit.
Local Open Scope nat_scope.

(** ** States of a program that has built its matrices and then called Eval on settled expressions,
    with the naive handlers; no law of the number type is used *)
Inductive evaluated {T} {N : Num T} (S : sched T) (G : graph T) (host : nat -> option obj) : st (T := T) -> Prop :=
| evaluated_init m : tame m -> evaluated S G host (init m)
| evaluated_call rho e s p s' : evaluated S G host s -> root host e -> fits G e -> settled G e s ->
    returns S HNaive G (AEval rho e) s p s' -> evaluated S G host s'.
Lemma evaluated_Inv {T} {N : Num T} (S : sched T) (G : graph T) host rank s :
  valid_sched S -> wf_graph G host rank -> evaluated S G host s -> Inv G s.
Proof.
  intros VS WF. induction 1 as [m Tm|rho e s p s' R IH Hr Hf Hs E]; [now apply Inv_init|].
  destruct (float_call VS WF rho IH Hs Hr Hf) as (F & n & q & s2 & _ & E2 & _ & I2).
  destruct (returns_det E (ex_intro _ n E2)) as [_ ->]. exact I2.
Qed.

(** Entry (i,j) of the returned matrix is the outcome of one fixed sequence of the number type's own operations
    ([fval], FloatEval.v), for every number type, IEEE or other. *)
Theorem C75_value : forall {T} {N : Num T} (S : sched T), valid_sched S ->
  forall (G : graph T) host rank, wf_graph G host rank -> forall s, evaluated S G host s ->
  forall (rho : env T) e, root host e -> fits G e -> settled G e s ->
  exists F p s', fval G rho e F /\ returns S HNaive G (AEval rho e) s p s' /\
    is_mat (mm s') p (rows G e) (cols G e) /\
    (forall i j, i < rows G e -> j < cols G e -> val (mm s') p i j = F i j) /\ evaluated S G host s'.
Proof.
  intros T N S VS G host rank WF s R rho e Hr Hf Hs.
  destruct (float_call VS WF rho (evaluated_Inv VS WF R) Hs Hr Hf) as (F & n & p & s' & HF & E & (Hm & Hv) & _).
  exists F, p, s'. split; [exact HF|]. split; [exists n; exact E|]. split; [exact Hm|]. split; [exact Hv|].
  eapply evaluated_call; eauto. exists n. exact E.
Qed.
Print Assumptions C75_value.

(** Two calls with the same entries, under two schedules, after two histories: bitwise the same result. *)
Theorem C75_reproducible : forall {T} {N : Num T} (S1 S2 : sched T), valid_sched S1 -> valid_sched S2 ->
  forall (G : graph T) host rank, wf_graph G host rank ->
  forall s1 s2, evaluated S1 G host s1 -> evaluated S2 G host s2 ->
  forall (rho : env T) e, root host e -> fits G e -> settled G e s1 -> settled G e s2 ->
  exists p s1' q s2', returns S1 HNaive G (AEval rho e) s1 p s1' /\ returns S2 HNaive G (AEval rho e) s2 q s2' /\
    is_mat (mm s1') p (rows G e) (cols G e) /\ is_mat (mm s2') q (rows G e) (cols G e) /\
    forall i j, i < rows G e -> j < cols G e -> val (mm s1') p i j = val (mm s2') q i j.
Proof.
  intros T N S1 S2 V1 V2 G host rank WF s1 s2 R1 R2 rho e Hr Hf H1 H2.
  destruct (C75_value V1 WF R1 rho Hr Hf H1) as (F & p & s1' & HF & E1 & M1 & W1 & _).
  destruct (C75_value V2 WF R2 rho Hr Hf H2) as (F' & q & s2' & HF' & E2 & M2 & W2 & _).
  exists p, s1', q, s2'. split; [exact E1|]. split; [exact E2|]. split; [exact M1|]. split; [exact M2|].
  intros i j Hi Hj. rewrite W1, W2 by auto. now rewrite (fval_det HF HF').
Qed.
Print Assumptions C75_reproducible.

(** ** IEEE double precision, round to nearest even; std::pow and the <cmath> functions are arbitrary *)
Definition double := binary_float 53 1024.
#[export] Instance prec53 : Prec_gt_0 53 := eq_refl.
#[export] Instance emax53 : Prec_lt_emax 53 1024 := eq_refl.
Definition one : double := @Bone 53 1024 _ _.
Definition zero : double := B754_zero false.
Definition IEEE (pw : double -> double -> double) (fn : ufun -> double -> double) : Num double :=
  {| n0 := zero; n1 := one; nm1 := Bopp one; nhalf := Bdiv mode_NE one (Bplus mode_NE one one);
     nadd := Bplus mode_NE; nsub := Bminus mode_NE; nmul := Bmult mode_NE; ndiv := Bdiv mode_NE;
     npow := pw; nfun := fn; neqb := @Beqb 53 1024 |}.
(** -0 becomes +0. *)
Definition unsigned (x : double) : double := match x with B754_zero _ => zero | _ => x end.

Lemma one_fin : is_finite one = true. Proof. apply is_finite_Bone. Qed.
Lemma mult_one (x : double) : Bmult mode_NE x one = x.
Proof.
  destruct x as [s|s| |s m e Hb].
  - vm_compute. destruct s; reflexivity.
  - vm_compute. destruct s; reflexivity.
  - vm_compute. reflexivity.
  - set (x := B754_finite s m e Hb : double). pose proof (Bmult_correct 53 1024 _ _ mode_NE x one) as H.
    assert (E1 : B2R one = 1%R) by apply Bone_correct. rewrite E1, Rmult_1_r in H.
    rewrite round_generic in H; [|apply valid_rnd_N|apply generic_format_B2R].
    rewrite Rlt_bool_true in H; [|apply abs_B2R_lt_emax]. destruct H as (H1 & H2 & H3).
    rewrite one_fin in H2. change (is_finite x) with true in H2. change (true && true) with true in H2.
    apply B2R_Bsign_inj; [exact H2|reflexivity|exact H1|].
    rewrite H3 by (destruct (Bmult mode_NE x one); [reflexivity|reflexivity|discriminate|reflexivity]).
    assert (E2 : Bsign one = false) by apply Bsign_Bone. rewrite E2. now destruct (Bsign x).
Qed.
Lemma mult_zero (x : double) : is_finite x = true -> exists b, Bmult mode_NE x zero = B754_zero b.
Proof. destruct x as [s|s| |s m e Hb]; try discriminate; intros _; eexists; reflexivity. Qed.
Lemma mult_zero_inf (x : double) : is_finite x = false -> Bmult mode_NE x zero = B754_nan.
Proof. destruct x as [s|s| |s m e Hb]; try discriminate; reflexivity. Qed.
Lemma plus_nan_l (x : double) : Bplus mode_NE B754_nan x = B754_nan. Proof. now destruct x. Qed.
Lemma plus_nan_r (x : double) : Bplus mode_NE x B754_nan = B754_nan. Proof. now destruct x. Qed.
Lemma plus_zero_r (x : double) b : x <> B754_zero true -> Bplus mode_NE x (B754_zero b) = x.
Proof. destruct x as [[]|s| |s m e Hb], b; intros H; try reflexivity; congruence. Qed.
Lemma plus_zero_l (x : double) : Bplus mode_NE zero x = unsigned x.
Proof. destruct x as [[]|s| |s m e Hb]; reflexivity. Qed.
Lemma unsigned_not (x : double) : unsigned x <> B754_zero true.
Proof. destruct x; discriminate. Qed.

Section Double.
Variable pw : double -> double -> double.
Variable fn : ufun -> double -> double.
Local Instance NF : Num double := IEEE pw fn.
(** All entries of the row finite but possibly the j-th. *)
Lemma dot_unit_finite n (a : nat -> double) j : (forall k, k < n -> k <> j -> is_finite (a k) = true) ->
  dot n a (fun k => unit_entry k j) = if j <? n then unsigned (a j) else zero.
Proof.
  induction n as [|n IH]; intros Hf; [destruct j; reflexivity|]. cbn [dot]. rewrite IH by (intros; apply Hf; lia).
  unfold unit_entry. destruct (Nat.eqb_spec n j) as [->|Ne].
  - replace (j <? j) with false by (symmetry; apply Nat.ltb_ge; lia). replace (j <? Datatypes.S j) with true by (symmetry; apply Nat.ltb_lt; lia).
    simpl. rewrite mult_one. apply plus_zero_l.
  - simpl. destruct (mult_zero (x := a n)) as (b & ->); [apply Hf; lia|].
    replace (j <? Datatypes.S n) with (j <? n) by (destruct (Nat.ltb_spec j n), (Nat.ltb_spec j (Datatypes.S n)); auto; lia).
    apply plus_zero_r. destruct (j <? n); [apply unsigned_not|discriminate].
Qed.
Lemma dot_unit_nan n (a : nat -> double) j k : k < n -> k <> j -> is_finite (a k) = false -> dot n a (fun k => unit_entry k j) = B754_nan.
Proof.
  induction n as [|n IH]; intros Hk Ne Hf; [lia|]. cbn [dot]. destruct (Nat.eq_dec k n) as [->|Nk].
  - unfold unit_entry at 2. destruct (Nat.eqb_spec n j); [congruence|]. simpl. rewrite (mult_zero_inf Hf). apply plus_nan_r.
  - rewrite IH by (auto; lia). apply plus_nan_l.
Qed.

(** What Eval returns for a named expression, against the value F of its right-hand side, entry by entry:
    the entry itself (-0 as +0) when the other entries of its row are finite, NaN when one is infinite or NaN. *)
Theorem C75_named : forall (S : sched double), valid_sched S ->
  forall (G : graph double) host rank, wf_graph G host rank -> forall s, evaluated S G host s ->
  forall (rho : env double) o id e y, g_kind G o = KExp id e y -> fits G (MLeaf o) -> settled G (MLeaf o) s ->
  exists F p s', fval G rho e F /\ returns S HNaive G (AEval rho (MLeaf o)) s p s' /\ is_mat (mm s') p (rows G e) (cols G e) /\
    forall i j, i < rows G e -> j < cols G e ->
      ((forall k, k < cols G e -> k <> j -> is_finite (F i k) = true) -> val (mm s') p i j = unsigned (F i j)) /\
      (forall k, k < cols G e -> k <> j -> is_finite (F i k) = false -> val (mm s') p i j = B754_nan).
Proof.
  intros S VS G host rank WF s R rho o id e y Hk Hf Hs.
  destruct (C75_value VS WF R rho (e := MLeaf o) (conj (NoDup_nil _) (fun i (H : In i []) => match H with end)) Hf Hs) as (F' & p & s' & HF & E & M & W & _).
  destruct (wf_dims WF Hk) as [D1 D2]. change (is_mat (mm s') p (g_rows G o) (g_cols G o)) in M. change (forall i j, i < g_rows G o -> j < g_cols G o -> val (mm s') p i j = F' i j) in W. rewrite D1, D2 in M. rewrite ?D1, ?D2 in W.
  inversion HF as [o' Q|o' Q|o' id' e' y' F Q HF1 Eo EF| | | | | | | | | | | |]; subst; [congruence|unfold is_leaf in Q; rewrite Hk in Q; tauto|].
  rewrite Hk in Q. injection Q as <- <- <-. exists F, p, s'. split; [exact HF1|]. split; [exact E|]. split; [exact M|].
  intros i j Hi Hj. rewrite W by auto. split.
  - intros Hfin. rewrite dot_unit_finite by exact Hfin. now apply Nat.ltb_lt in Hj as ->.
  - intros k Hb Nk Hinf. now apply dot_unit_nan with k.
Qed.
End Double.
Print Assumptions C75_named.

(** ** Refuted: a named expression has the value of its right-hand side
    F = A with A = [inf, 1], 1x2: Eval(F) returns [inf, NaN] (library functions return anything). *)
Definition inf : double := B754_infinity false.
Definition in_objs : list (gobj (T := double)) :=
  [ (LConst, (1, 2)); (LEye, (2, 2)); (KExp 30 (MLeaf 0) 1, (1, 2)) ].
Definition in_graph : graph double := graph_of in_objs.
Lemma in_wf : wf_graph in_graph (host_of in_objs) (fun o => o).
Proof. solve_wf. Qed.
Lemma in_fits : fits in_graph (MLeaf 2).
Proof. eapply fits_exp; [reflexivity|]. now apply fits_leaf. Qed.
Definition memD : mem double := MkMem [] 0 (fun _ _ => zero) [].
Lemma tameD pw fn : tame (N := IEEE pw fn) memD.
Proof.
  split; [|split; [split|]].
  - intros p o H. destruct p; discriminate.
  - intros p o H. destruct p; discriminate.
  - intros p q o o' H. destruct p; discriminate.
  - intros k sp R C p [].
Qed.
Definition in_env : env double := Env (fun _ n => if n =? 0 then inf else one) (fun _ _ _ _ => zero).
Theorem C75_infinity_refuted : forall pw fn (S : sched double), valid_sched S ->
  let NF := IEEE pw fn in
  exists G host rank m o id e y rho, wf_graph G host rank /\ tame (N := NF) m /\ g_kind G o = KExp id e y /\ fits G (MLeaf o) /\ settled G (MLeaf o) (init m) /\
  exists F p s', fval (N := NF) G rho e F /\ returns (N := NF) S HNaive G (AEval rho (MLeaf o)) (init m) p s' /\
    F 0 1 = one /\ val (N := NF) (mm s') p 0 0 = inf /\ val (N := NF) (mm s') p 0 1 = B754_nan.
Proof.
  intros pw fn S VS NF. exists in_graph, (host_of in_objs), (fun o => o), memD, 2, 30, (MLeaf 0), 1, in_env.
  split; [exact in_wf|]. split; [exact (tameD pw fn)|]. split; [reflexivity|]. split; [exact in_fits|].
  assert (Hs : settled in_graph (MLeaf 2) (init memD)) by (intros o id a y o' _ _ _ _ _; reflexivity).
  split; [exact Hs|].
  destruct (@C75_named pw fn S VS in_graph _ _ in_wf _ (evaluated_init S in_graph (host_of in_objs) (tameD pw fn)) in_env 2 30 (MLeaf 0) 1 eq_refl in_fits Hs) as (F & p & s' & HF & E & M & V).
  exists F, p, s'. split; [exact HF|]. split; [exact E|].
  assert (EF : forall j, F 0 j = if j =? 0 then inf else one).
  { inversion HF; subst; [discriminate|reflexivity|discriminate]. }
  split; [now rewrite EF|]. destruct (V 0 0) as [V1 _]; [vm_compute; lia..|]. destruct (V 0 1) as [_ V2]; [vm_compute; lia..|].
  split; [etransitivity; [apply V1|now rewrite EF]|].
  - intros [|k] Hk Nk; [congruence|]. rewrite EF. exact one_fin.
  - apply (V2 0); [vm_compute; lia|lia|]. now rewrite EF.
Qed.
Print Assumptions C75_infinity_refuted.

(** 1x1 doubles x = 0.1, y = 0.2: x + y + 0.3 is not x + (y + 0.3), and Eval returns each as written. *)
Definition lit (m : positive) (e : Z) (H : SpecFloat.bounded 53 1024 m e = true) : double := B754_finite false m e H.
Definition d01 := lit (m := 7205759403792794) (e := -56) eq_refl.
Definition d02 := lit (m := 7205759403792794) (e := -55) eq_refl.
Definition d03 := lit (m := 5404319552844595) (e := -54) eq_refl.
Definition fl_objs : list (gobj (T := double)) :=
  [ (LVar, (1, 1)); (LVar, (1, 1)); (LConst, (1, 1)); (LEye, (1, 1));
    (KExp 30 (MBin BSum 31 (MBin BSum 32 (MLeaf 0) (MLeaf 1)) (MLeaf 2)) 3, (1, 1));
    (KExp 40 (MBin BSum 41 (MLeaf 0) (MBin BSum 42 (MLeaf 1) (MLeaf 2))) 3, (1, 1)) ].
Definition fl_graph : graph double := graph_of fl_objs.
Definition fl_env : env double := Env (fun o _ => match o with 0 => d01 | 1 => d02 | _ => d03 end) (fun _ _ _ _ => zero).
Example C75_nonvacuous : forall pw fn, let NF := IEEE pw fn in let S := in_order (T := double) in
  valid_sched S /\ wf_graph fl_graph (host_of fl_objs) (fun o => o) /\ tame (N := NF) memD /\
  (forall o, o = 4 \/ o = 5 -> fits fl_graph (MLeaf o) /\ settled fl_graph (MLeaf o) (init memD)) /\
  exists p s' q s2, returns (N := NF) S HNaive fl_graph (AEval fl_env (MLeaf 4)) (init memD) p s' /\
    returns (N := NF) S HNaive fl_graph (AEval fl_env (MLeaf 5)) s' q s2 /\
    (B2SF (val (N := NF) (mm s') p 0 0) = SpecFloat.S754_finite false 5404319552844596 (-53) /\
     B2SF (val (N := NF) (mm s2) q 0 0) = SpecFloat.S754_finite false 5404319552844595 (-53)).
Proof.
  intros pw fn NF S. split; [intros m l; apply Permutation.Permutation_refl|]. split; [solve_wf|]. split; [apply tameD|]. split.
  { intros o Ho. split; [|intros o1 id a y o' _ _ _ _ _; reflexivity].
    destruct Ho as [->| ->]; (eapply fits_exp; [reflexivity|]; repeat (apply fits_zip; [discriminate| | |reflexivity|reflexivity] || now apply fits_leaf)). }
  apply (run2 (N := NF) (P := fun p s' q s2 => B2SF (val (N := NF) (mm s') p 0 0) = SpecFloat.S754_finite false 5404319552844596 (-53) /\
     B2SF (val (N := NF) (mm s2) q 0 0) = SpecFloat.S754_finite false 5404319552844595 (-53))).
  vm_compute. split; reflexivity.
Qed.
