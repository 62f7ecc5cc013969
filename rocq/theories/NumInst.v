(** * Instances of [Num]: integers (for executable witnesses) and exact reals *)

From Coq Require Import ZArith Reals Lra Ring List Bool.
From Verif Require Import Num.

(** Integers: [nfun] is unused by the witnesses (identity), division truncates. *)
Global Instance NumZ : Num Z := {
  n0 := 0%Z; n1 := 1%Z; nm1 := (-1)%Z; nhalf := 0%Z;
  nadd := Z.add; nsub := Z.sub; nmul := Z.mul; ndiv := Z.div; npow := Z.pow;
  nfun := fun _ x => x; neqb := Z.eqb
}.

Lemma LawsZ : NumLaws NumZ.
Proof.
  constructor.
  - constructor; unfold nopp; cbn [n0 n1 nadd nsub nmul NumZ]; intros; ring.
  - reflexivity.
  - simpl. intros x H. now apply Z.eqb_eq.
Qed.

Open Scope R_scope.

(** std::pow on the reals: defined for positive bases and for integer exponents. *)
Definition Rpow (x y : R) : R :=
  if Rlt_dec 0 x then Rpower x y
  else if Req_EM_T y (IZR (up y - 1)) then powerRZ x (up y - 1) else 0.
Definition Racosh (x : R) : R := ln (x + sqrt (x * x - 1)).
Definition Ratanh (x : R) : R := (ln (1 + x) - ln (1 - x)) / 2.

Definition Rfun (f : ufun) : R -> R :=
  match f with
  | FSin => sin | FCos => cos | FTan => tan
  | FSinh => sinh | FCosh => cosh | FTanh => tanh
  | FASin => asin | FACos => acos | FATan => atan
  | FASinh => arcsinh | FACosh => Racosh | FATanh => Ratanh
  | FSqrt => sqrt | FExp => exp | FLog => ln
  end.

Definition Reqb (x y : R) : bool := if Req_EM_T x y then true else false.

Global Instance NumR : Num R := {
  n0 := 0; n1 := 1; nm1 := -1; nhalf := / 2;
  nadd := Rplus; nsub := Rminus; nmul := Rmult; ndiv := Rdiv; npow := Rpow;
  nfun := Rfun; neqb := Reqb
}.

Lemma LawsR : NumLaws NumR.
Proof.
  constructor.
  - constructor; unfold nopp; cbn [n0 n1 nadd nsub nmul NumR]; intros; ring.
  - unfold nopp; simpl. lra.
  - simpl. unfold Reqb. intros x. destruct (Req_EM_T x 0); auto. discriminate.
Qed.

Lemma invertibleR (v : R) : v <> 0 -> invertible v.
Proof. intros H. unfold invertible. simpl. field. auto. Qed.

Lemma up_IZR z : (up (IZR z) - 1)%Z = z.
Proof.
  assert (E : (z + 1)%Z = up (IZR z)).
  { apply tech_up; rewrite plus_IZR; lra. }
  rewrite <- E. ring.
Qed.
Lemma Rpow_pos x y : 0 < x -> Rpow x y = Rpower x y.
Proof. intros H. unfold Rpow. destruct (Rlt_dec 0 x); [reflexivity|contradiction]. Qed.
Lemma Rpow_int x z : Rpow x (IZR z) = powerRZ x z.
Proof.
  unfold Rpow. destruct (Rlt_dec 0 x) as [H|H].
  - symmetry. now apply powerRZ_Rpower.
  - rewrite up_IZR. destruct (Req_EM_T (IZR z) (IZR z)); [reflexivity|congruence].
Qed.
