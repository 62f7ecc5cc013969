(** * Element-wise functions of the matrix API and their derivative tables (C48)

    include/Matrix/UnaryFunctions.hpp:40-157 over exact reals, the pairing made by UNARY_MATRIX_OPERATOR
    (CommonMatFunctions.hpp:292-321), and the two CUDA lookup tables (UnaryFunctions.hpp:160-207). *)

From Coq Require Import Reals Lra List Bool Arith.
From Verif Require Import Num NumInst Calculus.
Import ListNotations.
Local Open Scope R_scope.

(** ** Model *)
(** Names of the C++ functions. *)
Inductive cfun : Type :=
| CSin | CDSin | CCos | CDCos | CExp | CLog | CDLog | CSqrt | CDSqrt | CTanh | CDTanh
| CSigmoid | CDSigmoid | CReLU | CDReLU | CLeakyReLU | CDLeakyReLU | CAbs | CDAbs.

(** UnaryFunctions.hpp:134 (NEG_SLOPE): a literal 0.01. *)
Definition neg_slope : R := 1 / 100.
Definition if_nonneg (x a b : R) : R := if Rle_dec 0 x then a else b.
Definition indicator (b : bool) : R := if b then 1 else 0.
Definition Rltb (x y : R) : bool := if Rlt_dec x y then true else false.

(** UnaryFunctions.hpp:40-157. *)
Definition cfun_val (f : cfun) (x : R) : R :=
  match f with
  | CSin => sin x | CDSin => cos x
  | CCos => cos x | CDCos => -1 * sin x
  | CExp => exp x
  | CLog => ln x | CDLog => 1 / x
  | CSqrt => sqrt x | CDSqrt => 1 / (2 * sqrt x)
  | CTanh => tanh x | CDTanh => 1 - tanh x * tanh x
  | CSigmoid => 1 / (1 + exp (- x))
  | CDSigmoid => let res := 1 / (1 + exp (- x)) in res * (1 - res)
  | CReLU => if_nonneg x x 0 | CDReLU => if_nonneg x 1 0
  | CLeakyReLU => if_nonneg x x (neg_slope * x) | CDLeakyReLU => if_nonneg x 1 neg_slope
  | CAbs => Rabs x | CDAbs => indicator (Rltb 0 x) - indicator (Rltb x 0)
  end.

(** The matrix operators SinM ... AbsM and the functions they are built from
    (CommonMatFunctions.hpp:292-321). *)
Inductive mfun : Type := SinM | CosM | ExpM | LogM | SqrtM | TanhM | SigmoidM | ReLUM | LeakyReLUM | AbsM.
Definition value_of (m : mfun) : cfun :=
  match m with
  | SinM => CSin | CosM => CCos | ExpM => CExp | LogM => CLog | SqrtM => CSqrt | TanhM => CTanh
  | SigmoidM => CSigmoid | ReLUM => CReLU | LeakyReLUM => CLeakyReLU | AbsM => CAbs
  end.
Definition deriv_of (m : mfun) : cfun :=
  match m with
  | SinM => CDSin | CosM => CDCos | ExpM => CExp | LogM => CDLog | SqrtM => CDSqrt | TanhM => CDTanh
  | SigmoidM => CDSigmoid | ReLUM => CDReLU | LeakyReLUM => CDLeakyReLU | AbsM => CDAbs
  end.

(** enum DEVICE_FUNCTIONS (UnaryFunctions.hpp:160-172): numbered in order. *)
Inductive dev : Type :=
| SIN | DSIN | COS | DCOS | EXP | LOG | DLOG | SQRT | DSQRT | TANH | DTANH
| SIGMOID | DSIGMOID | RELU | DRELU | LEAKYRELU | DLEAKYRELU | ABS | DABS.
Definition dev_index (d : dev) : nat :=
  match d with
  | SIN => 0 | DSIN => 1 | COS => 2 | DCOS => 3 | EXP => 4 | LOG => 5 | DLOG => 6 | SQRT => 7 | DSQRT => 8
  | TANH => 9 | DTANH => 10 | SIGMOID => 11 | DSIGMOID => 12 | RELU => 13 | DRELU => 14
  | LEAKYRELU => 15 | DLEAKYRELU => 16 | ABS => 17 | DABS => 18
  end%nat.
(** DeviceFunctionsInit (UnaryFunctions.hpp:179-192): a sequence of array stores. *)
Definition device_init : list (dev * cfun) :=
  [(SIN, CSin); (DSIN, CDSin); (COS, CCos); (DCOS, CDCos); (EXP, CExp); (LOG, CLog); (DLOG, CDLog);
   (SQRT, CSqrt); (DSQRT, CDSqrt); (TANH, CTanh); (DTANH, CDTanh); (SIGMOID, CSigmoid); (DSIGMOID, CDSigmoid);
   (RELU, CReLU); (DRELU, CDReLU); (LEAKYRELU, CLeakyReLU); (DLEAKYRELU, CDLeakyReLU); (ABS, CAbs); (DABS, CDAbs)].
Definition device_functions : nat -> option cfun :=
  fold_left (fun a p k => if Nat.eqb k (dev_index (fst p)) then Some (snd p) else a k) device_init (fun _ => None).
(** device_functions_map (UnaryFunctions.hpp:195-207). *)
Definition device_functions_map (f : cfun) : nat :=
  dev_index match f with
  | CSin => SIN | CDSin => DSIN | CCos => COS | CDCos => DCOS | CExp => EXP | CLog => LOG | CDLog => DLOG
  | CSqrt => SQRT | CDSqrt => DSQRT | CTanh => TANH | CDTanh => DTANH | CSigmoid => SIGMOID
  | CDSigmoid => DSIGMOID | CReLU => RELU | CDReLU => DRELU | CLeakyReLU => LEAKYRELU
  | CDLeakyReLU => DLEAKYRELU | CAbs => ABS | CDAbs => DABS
  end.

(** ** Specification *)
(** The mathematical functions, written independently. *)
Definition math (m : mfun) (x : R) : R :=
  match m with
  | SinM => sin x | CosM => cos x | ExpM => exp x | LogM => ln x | SqrtM => sqrt x | TanhM => tanh x
  | SigmoidM => / (1 + exp (- x))
  | ReLUM => Rmax x 0
  | LeakyReLUM => Rmax x (x / 100)
  | AbsM => Rmax x (- x)
  end.
Definition mdom (m : mfun) (x : R) : Prop := match m with LogM | SqrtM => 0 < x | _ => True end.

(** ** Proofs *)
Lemma math_ok m x : cfun_val (value_of m) x = math m x.
Proof.
  destruct m; simpl; auto.
  - unfold Rdiv. ring.
  - unfold if_nonneg, Rmax. destruct (Rle_dec 0 x), (Rle_dec x 0); lra.
  - unfold if_nonneg, neg_slope, Rmax. destruct (Rle_dec 0 x), (Rle_dec x (x / 100)); lra.
  - unfold Rmax. destruct (Rle_dec x (- x)); [rewrite Rabs_left1|rewrite Rabs_right]; lra.
Qed.
Lemma near_pos x y : 0 < x -> Rabs (y - x) < x -> 0 < y.
Proof. intros H Hy. apply Rabs_def2 in Hy. lra. Qed.
Lemma near_neg x y : x < 0 -> Rabs (y - x) < - x -> y < 0.
Proof. intros H Hy. apply Rabs_def2 in Hy. lra. Qed.
(** A function equal to a*y for y>0 and b*y for y<0. *)
Lemma kink f a b x : (forall y, 0 < y -> f y = a * y) -> (forall y, y < 0 -> f y = b * y) -> x <> 0 ->
  derivable_pt_lim f x (if Rlt_dec 0 x then a else b).
Proof.
  intros Hp Hn Hx. destruct (Rlt_dec 0 x) as [H|H].
  - apply (dlim_loc (fun y => a * y) f x a x H); [intros y Hy; symmetry; apply Hp; now apply (near_pos x)|].
    eapply dlim_val; [|apply dlim_mult; [apply dlim_const|apply dlim_id]]. cbv beta. ring.
  - assert (H' : x < 0) by lra.
    apply (dlim_loc (fun y => b * y) f x b (- x)); [lra|intros y Hy; symmetry; apply Hn; now apply (near_neg x)|].
    eapply dlim_val; [|apply dlim_mult; [apply dlim_const|apply dlim_id]]. cbv beta. ring.
Qed.
Lemma no_kink f a b d : f 0 = 0 -> (forall y, 0 < y -> f y = a * y) -> (forall y, y < 0 -> f y = b * y) -> a <> b ->
  ~ derivable_pt_lim f 0 d.
Proof.
  intros H0 Hp Hn Hab H.
  assert (He : 0 < Rabs (a - b) / 2) by (assert (P := Rabs_pos_lt (a - b)); lra).
  destruct (H _ He) as (del & P). assert (Hd := cond_pos del).
  assert (P1 := P (del / 2) ltac:(lra)). assert (P2 := P (- (del / 2)) ltac:(lra)).
  rewrite Rabs_right in P1 by lra. rewrite Rabs_left in P2 by lra.
  specialize (P1 ltac:(lra)). specialize (P2 ltac:(lra)).
  rewrite Rplus_0_l, H0, Hp in P1 by lra. rewrite Rplus_0_l, H0, Hn in P2 by lra.
  replace ((a * (del / 2) - 0) / (del / 2) - d) with (a - d) in P1 by (field; lra).
  replace ((b * - (del / 2) - 0) / - (del / 2) - d) with (b - d) in P2 by (field; lra).
  assert (Q := Rabs_triang (a - d) (- (b - d))). rewrite Rabs_Ropp in Q.
  replace (a - d + - (b - d)) with (a - b) in Q by ring. lra.
Qed.
Definition smooth (m : mfun) (x : R) : Prop := match m with ReLUM | LeakyReLUM | AbsM => x <> 0 | _ => True end.
Ltac rel := intros; unfold if_nonneg, neg_slope, indicator, Rltb;
  repeat match goal with |- context [Rle_dec ?a ?b] => destruct (Rle_dec a b) | |- context [Rlt_dec ?a ?b] => destruct (Rlt_dec a b) end; lra.
Lemma table_ok m x : mdom m x -> smooth m x -> derivable_pt_lim (cfun_val (value_of m)) x (cfun_val (deriv_of m) x).
Proof.
  destruct m; cbn [mdom smooth value_of deriv_of]; intros Hd Hs.
  - exact (dlim_fun FSin x Logic.I).
  - exact (dlim_fun FCos x Logic.I).
  - exact (dlim_fun FExp x Logic.I).
  - exact (dlim_fun FLog x Hd).
  - eapply dlim_val; [|exact (dlim_fun FSqrt x Hd)]. simpl. assert (Q := sqrt_lt_R0 _ Hd). field. lra.
  - exact (dlim_fun FTanh x Logic.I).
  - assert (P := exp_pos (- x)). unfold cfun_val at 1.
    eapply dlim_val; [|apply dlim_div; [apply dlim_const|apply dlim_plus; [apply dlim_const|
      apply (dlim_comp (fun y => - y) exp x (-1)); [|apply derivable_pt_lim_exp]]|lra]].
    + simpl. unfold Rsqr. field. lra.
    + apply (dlim_ext (fun y => 0 - y)); [intros; ring|]. eapply dlim_val; [|apply dlim_minus; [apply dlim_const|apply dlim_id]]. ring.
  - eapply dlim_val; [|apply (kink _ 1 0); auto; cbn [cfun_val]; rel]. cbn [cfun_val]; rel.
  - eapply dlim_val; [|apply (kink _ 1 (1/100)); auto; cbn [cfun_val]; rel]. cbn [cfun_val]; rel.
  - eapply dlim_val; [|apply (kink _ 1 (-1)); auto; cbn [cfun_val]; intros; [rewrite Rabs_right|rewrite Rabs_left]; lra]. cbn [cfun_val]; rel.
Qed.
Lemma table_complete m x d : mdom m x -> derivable_pt_lim (math m) x d -> d = cfun_val (deriv_of m) x.
Proof.
  intros Hd H. apply (dlim_ext (math m) (cfun_val (value_of m))) in H; [|intros; symmetry; apply math_ok].
  assert (S : smooth m x \/ ~ smooth m x) by (destruct m; simpl; auto; destruct (Req_dec x 0); auto).
  destruct S as [S|S].
  - eapply uniqueness_limite; [exact H|]. now apply table_ok.
  - exfalso. destruct m; simpl in S; try (apply S; exact Logic.I);
      (assert (x = 0) as -> by (destruct (Req_dec x 0); [auto|contradiction])); revert H; cbn [value_of].
    + apply (no_kink _ 1 0); cbn [cfun_val]; try lra; rel.
    + apply (no_kink _ 1 (1/100)); cbn [cfun_val]; try lra; rel.
    + apply (no_kink _ 1 (-1)); cbn [cfun_val]; try lra.
      * apply Rabs_R0.
      * intros; rewrite Rabs_right; lra.
      * intros; rewrite Rabs_left; lra.
Qed.
Lemma device_ok f : device_functions (device_functions_map f) = Some f.
Proof. destruct f; reflexivity. Qed.
