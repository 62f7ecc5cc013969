(** * Derivatives of the elementary functions on the reals

    Pure calculus, no model: [derivable_pt_lim f x d] is the standard library's "d is the limit of the difference
    quotient of f at x". *)

From Coq Require Import Reals Lra Lia ZArith.
From Verif Require Import Num NumInst ScalarModel ScalarSpec.
Local Open Scope R_scope.

(** Transport along pointwise and local equality. *)
Lemma dlim_ext f g x d : (forall y, f y = g y) -> derivable_pt_lim f x d -> derivable_pt_lim g x d.
Proof. intros E H eps He. destruct (H eps He) as (del & P). exists del. intros h Hh Hl. rewrite <- !E. auto. Qed.
Lemma dlim_loc f g x d r : 0 < r -> (forall y, Rabs (y - x) < r -> f y = g y) ->
  derivable_pt_lim f x d -> derivable_pt_lim g x d.
Proof.
  intros Hr E H eps He. destruct (H eps He) as (del & P).
  assert (Hm : 0 < Rmin del r) by (apply Rmin_pos; auto; apply cond_pos).
  exists (mkposreal _ Hm). simpl. intros h Hh Hl. rewrite <- (E (x + h)), <- (E x).
  - apply P; auto. eapply Rlt_le_trans; [exact Hl|apply Rmin_l].
  - unfold Rminus. rewrite Rplus_opp_r, Rabs_R0. auto.
  - replace (x + h - x) with h by ring. eapply Rlt_le_trans; [exact Hl|apply Rmin_r].
Qed.
Lemma dlim_val f x d d' : d = d' -> derivable_pt_lim f x d -> derivable_pt_lim f x d'.
Proof. now intros ->. Qed.
Lemma dlim_const c x : derivable_pt_lim (fun _ => c) x 0.
Proof. exact (derivable_pt_lim_const c x). Qed.
Lemma dlim_id x : derivable_pt_lim (fun y => y) x 1.
Proof. exact (derivable_pt_lim_id x). Qed.
Lemma dlim_plus f g x a b : derivable_pt_lim f x a -> derivable_pt_lim g x b ->
  derivable_pt_lim (fun y => f y + g y) x (a + b).
Proof. exact (derivable_pt_lim_plus f g x a b). Qed.
Lemma dlim_minus f g x a b : derivable_pt_lim f x a -> derivable_pt_lim g x b ->
  derivable_pt_lim (fun y => f y - g y) x (a - b).
Proof. exact (derivable_pt_lim_minus f g x a b). Qed.
Lemma dlim_mult f g x a b : derivable_pt_lim f x a -> derivable_pt_lim g x b ->
  derivable_pt_lim (fun y => f y * g y) x (a * g x + f x * b).
Proof. exact (derivable_pt_lim_mult f g x a b). Qed.
Lemma dlim_div f g x a b : derivable_pt_lim f x a -> derivable_pt_lim g x b -> g x <> 0 ->
  derivable_pt_lim (fun y => f y / g y) x ((a * g x - b * f x) / Rsqr (g x)).
Proof. exact (derivable_pt_lim_div f g x a b). Qed.
Lemma dlim_comp f g x a b : derivable_pt_lim f x a -> derivable_pt_lim g (f x) b ->
  derivable_pt_lim (fun y => g (f y)) x (b * a).
Proof. exact (derivable_pt_lim_comp f g x a b). Qed.

(** Open domains of the functions (a point of the domain has a neighbourhood in it). *)
Definition fdom (f : ufun) (u : R) : Prop :=
  match f with
  | FTan => cos u <> 0
  | FASin | FACos | FATanh => -1 < u < 1
  | FACosh => 1 < u
  | FSqrt | FLog => 0 < u
  | _ => True
  end.

Lemma sinh_cosh x : cosh x * cosh x - sinh x * sinh x = 1.
Proof. unfold sinh, cosh. assert (E : exp x * exp (- x) = 1) by (rewrite <- exp_plus, Rplus_opp_r; apply exp_0). lra. Qed.
Lemma cosh_pos x : 0 < cosh x.
Proof. unfold cosh. assert (H := exp_pos x). assert (H' := exp_pos (- x)). lra. Qed.
Lemma sq_sum x : cos x * cos x + sin x * sin x = 1.
Proof. assert (H := sin2_cos2 x). unfold Rsqr in H. lra. Qed.
Lemma dlim_tan x : cos x <> 0 -> derivable_pt_lim tan x (1 + tan x * tan x).
Proof.
  intros H. unfold tan at 1. eapply dlim_val; [|apply (dlim_div sin cos x (cos x) (- sin x)); auto;
    [apply derivable_pt_lim_sin|apply derivable_pt_lim_cos]].
  unfold tan, Rsqr. field. auto.
Qed.
Lemma dlim_tanh x : derivable_pt_lim tanh x (1 - tanh x * tanh x).
Proof.
  assert (H := cosh_pos x). unfold tanh at 1. eapply dlim_val; [|apply (dlim_div sinh cosh x (cosh x) (sinh x)); try lra;
    [apply derivable_pt_lim_sinh|apply derivable_pt_lim_cosh]].
  unfold tanh, Rsqr. field. lra.
Qed.
Lemma dlim_asin x : -1 < x < 1 -> derivable_pt_lim asin x (1 / sqrt (1 - x * x)).
Proof.
  intros H. assert (E := derive_pt_asin x H). unfold Rsqr in E.
  apply (derive_pt_eq_1 asin x _ (derivable_pt_asin x H)). rewrite <- E. reflexivity.
Qed.
Lemma dlim_acos x : -1 < x < 1 -> derivable_pt_lim acos x (-1 / sqrt (1 - x * x)).
Proof.
  intros H. assert (E := derive_pt_acos x H). unfold Rsqr in E.
  apply (derive_pt_eq_1 acos x _ (derivable_pt_acos x H)). rewrite <- E. reflexivity.
Qed.
Lemma dlim_acosh x : 1 < x -> derivable_pt_lim Racosh x (1 / sqrt (x * x - 1)).
Proof.
  intros H. assert (P : 0 < x * x - 1) by (assert (0 < (x - 1) * (x + 1)) by (apply Rmult_lt_0_compat; lra); lra).
  assert (Q := sqrt_lt_R0 _ P).
  eapply dlim_val; [|apply (dlim_comp (fun y => y + sqrt (y * y - 1)) ln x (1 + / (2 * sqrt (x * x - 1)) * (x + x)))].
  - instantiate (1 := / (x + sqrt (x * x - 1))). field. split; lra.
  - apply dlim_plus; [apply dlim_id|]. apply (dlim_comp (fun y => y * y - 1) sqrt).
    + eapply dlim_val; [|apply dlim_minus; [apply dlim_mult; apply dlim_id|apply dlim_const]]. cbv beta. ring.
    + now apply derivable_pt_lim_sqrt.
  - apply derivable_pt_lim_ln. lra.
Qed.
Lemma dlim_atanh x : -1 < x < 1 -> derivable_pt_lim Ratanh x (-1 / (x * x - 1)).
Proof.
  intros H. unfold Ratanh.
  eapply dlim_val; [|apply (dlim_ext (fun y => (ln (1 + y) - ln (1 - y)) * / 2)); [reflexivity|];
    apply dlim_mult; [apply dlim_minus|apply dlim_const];
    [apply (dlim_comp (fun y => 1 + y) ln x 1 (/ (1 + x)))|apply (dlim_comp (fun y => 1 - y) ln x (0 - 1) (/ (1 - x)))]].
  - cbv beta. field. assert ((1 - x) * (1 + x) <> 0) by (apply Rmult_integral_contrapositive; split; lra). repeat split; lra.
  - eapply dlim_val; [|apply dlim_plus; [apply dlim_const|apply dlim_id]]. cbv beta. ring.
  - apply derivable_pt_lim_ln. lra.
  - apply dlim_minus; [apply dlim_const|apply dlim_id].
  - apply derivable_pt_lim_ln. lra.
Qed.

(** The derivative table of the library's elementary functions. *)
Lemma dlim_fun f u : fdom f u -> derivable_pt_lim (Rfun f) u (dmean f u).
Proof.
  destruct f; cbn [fdom Rfun dmean nfun NumR n1 nm1 nhalf nadd nsub nmul ndiv]; intros H.
  - apply derivable_pt_lim_sin.
  - eapply dlim_val; [|apply derivable_pt_lim_cos]. ring.
  - now apply dlim_tan.
  - apply derivable_pt_lim_sinh.
  - apply derivable_pt_lim_cosh.
  - apply dlim_tanh.
  - now apply dlim_asin.
  - now apply dlim_acos.
  - eapply dlim_val; [|apply derivable_pt_lim_atan]. unfold Rsqr, Rdiv. rewrite ?Rmult_1_l. try reflexivity; f_equal; ring.
  - eapply dlim_val; [|apply derivable_pt_lim_arcsinh]. unfold Rdiv. rewrite Rmult_1_l. f_equal. f_equal. ring.
  - now apply dlim_acosh.
  - now apply dlim_atanh.
  - eapply dlim_val; [|now apply derivable_pt_lim_sqrt]. assert (Q := sqrt_lt_R0 _ H). field. lra.
  - apply derivable_pt_lim_exp.
  - eapply dlim_val; [|now apply derivable_pt_lim_ln]. field. lra.
Qed.

(** pow with a constant exponent: positive base, or integer exponent. *)
Definition powdom (u c : R) : Prop := 0 < u \/ exists z, c = IZR z /\ (u <> 0 \/ (0 <= z)%Z).
Lemma dlim_pow_const u c : powdom u c -> derivable_pt_lim (fun y => Rpow y c) u (c * Rpow u (c - 1)).
Proof.
  intros [H|(z & -> & H)].
  - apply (dlim_loc (fun y => Rpower y c) _ u _ u H).
    + intros y Hy. rewrite Rpow_pos; auto. apply Rabs_def2 in Hy. lra.
    + rewrite Rpow_pos by auto. now apply derivable_pt_lim_power.
  - rewrite <- minus_IZR, Rpow_int.
    apply (dlim_ext (fun y => powerRZ y z)); [intros; now rewrite Rpow_int|].
    destruct z as [|p|p].
    + simpl. eapply dlim_val; [|apply dlim_const]. ring.
    + simpl powerRZ at 1. eapply dlim_val; [|apply derivable_pt_lim_pow].
      rewrite INR_IZR_INZ, positive_nat_Z. f_equal.
      replace (Z.pos p - 1)%Z with (Z.of_nat (pred (Pos.to_nat p))) by lia. now rewrite <- pow_powerRZ.
    + assert (Hu : u <> 0) by (destruct H as [|H]; [auto|lia]).
      assert (Hp : forall n, u ^ n <> 0) by (intros; now apply pow_nonzero).
      simpl powerRZ at 1. eapply dlim_val; [|apply (dlim_ext (fun y => 1 / y ^ Pos.to_nat p)); [intros; unfold Rdiv; ring|];
        apply dlim_div; [apply dlim_const|apply derivable_pt_lim_pow|auto]].
      replace (Z.neg p - 1)%Z with (Z.neg (p + 1)) by lia. simpl powerRZ.
      replace (IZR (Z.neg p)) with (- INR (Pos.to_nat p)) by (rewrite INR_IZR_INZ, positive_nat_Z, <- opp_IZR; reflexivity).
      destruct (Pos2Nat.is_succ p) as (m & Em). rewrite Pos2Nat.inj_add, Em.
      replace (S m + Pos.to_nat 1)%nat with (S (S m)) by lia. cbn [pred]. rewrite <- !tech_pow_Rmult. unfold Rsqr.
      assert (Q := Hp m). field. auto.
Qed.
Lemma dlim_pow_base c u : 0 < c -> derivable_pt_lim (fun y => Rpow c y) u (Rpow c u * ln c).
Proof.
  intros H. apply (dlim_ext (fun y => exp (y * ln c))); [intros; now rewrite Rpow_pos|].
  rewrite Rpow_pos by auto. unfold Rpower. apply (dlim_comp (fun y => y * ln c) exp); [|apply derivable_pt_lim_exp].
  eapply dlim_val; [|apply dlim_mult; [apply dlim_id|apply dlim_const]]. cbv beta. ring.
Qed.

(** Total differentiability of a two-argument function. *)
Definition diff2 (f : R -> R -> R) (u v a b : R) : Prop :=
  forall eps, 0 < eps -> exists del, 0 < del /\ forall h k, Rabs h < del -> Rabs k < del ->
    Rabs (f (u + h) (v + k) - f u v - a * h - b * k) <= eps * (Rabs h + Rabs k).
Lemma dlim_incr g x d : derivable_pt_lim g x d -> forall eps, 0 < eps -> exists del, 0 < del /\
  forall h, Rabs h < del -> Rabs (g (x + h) - g x - d * h) <= eps * Rabs h.
Proof.
  intros H eps He. destruct (H eps He) as (del & P). exists del. split; [apply cond_pos|]. intros h Hh.
  destruct (Req_dec h 0) as [->|Hn].
  - rewrite Rplus_0_r, Rabs_R0. replace (g x - g x - d * 0) with 0 by ring. rewrite Rabs_R0. lra.
  - replace (g (x + h) - g x - d * h) with (((g (x + h) - g x) / h - d) * h) by (field; auto).
    rewrite Rabs_mult. apply Rmult_le_compat_r; [apply Rabs_pos|]. left. now apply P.
Qed.
Lemma dlim_comp2 f g1 g2 x a b d1 d2 : diff2 f (g1 x) (g2 x) a b ->
  derivable_pt_lim g1 x d1 -> derivable_pt_lim g2 x d2 ->
  derivable_pt_lim (fun y => f (g1 y) (g2 y)) x (a * d1 + b * d2).
Proof.
  intros F H1 H2 eps He.
  set (K := Rabs d1 + Rabs d2 + 2). assert (A1 := Rabs_pos d1). assert (A2 := Rabs_pos d2).
  assert (HK : 0 < K) by (unfold K; lra).
  set (M := Rabs a + Rabs b + 1). assert (A3 := Rabs_pos a). assert (A4 := Rabs_pos b).
  assert (HM : 0 < M) by (unfold M; lra).
  assert (E1 : 0 < eps / (4 * K)) by (apply Rdiv_lt_0_compat; lra).
  assert (E2 : 0 < Rmin 1 (eps / (4 * M))) by (apply Rmin_pos; [lra|apply Rdiv_lt_0_compat; lra]).
  destruct (F _ E1) as (del & Hd & PF).
  destruct (dlim_incr g1 x d1 H1 _ E2) as (r1 & Hr1 & P1). destruct (dlim_incr g2 x d2 H2 _ E2) as (r2 & Hr2 & P2).
  assert (Hdel : 0 < Rmin (Rmin r1 r2) (del / K)).
  { apply Rmin_pos; [now apply Rmin_pos|now apply Rdiv_lt_0_compat]. }
  exists (mkposreal _ Hdel). simpl. intros h Hn Hh.
  assert (B1 : Rabs h < r1) by (eapply Rlt_le_trans; [exact Hh|]; eapply Rle_trans; [apply Rmin_l|apply Rmin_l]).
  assert (B2 : Rabs h < r2) by (eapply Rlt_le_trans; [exact Hh|]; eapply Rle_trans; [apply Rmin_l|apply Rmin_r]).
  assert (B3 : Rabs h < del / K) by (eapply Rlt_le_trans; [exact Hh|apply Rmin_r]).
  specialize (P1 h B1). specialize (P2 h B2).
  set (e := Rmin 1 (eps / (4 * M))) in *.
  assert (e1 : e <= 1) by apply Rmin_l. assert (e2 : e <= eps / (4 * M)) by apply Rmin_r.
  set (k1 := g1 (x + h) - g1 x) in *. set (k2 := g2 (x + h) - g2 x) in *.
  assert (Ah := Rabs_pos h). assert (Ah' : 0 < Rabs h) by now apply Rabs_pos_lt.
  assert (S1 : Rabs k1 <= (Rabs d1 + 1) * Rabs h).
  { replace k1 with ((k1 - d1 * h) + d1 * h) by ring. eapply Rle_trans; [apply Rabs_triang|]. rewrite Rabs_mult.
    assert (e * Rabs h <= 1 * Rabs h) by (apply Rmult_le_compat_r; auto). lra. }
  assert (S2 : Rabs k2 <= (Rabs d2 + 1) * Rabs h).
  { replace k2 with ((k2 - d2 * h) + d2 * h) by ring. eapply Rle_trans; [apply Rabs_triang|]. rewrite Rabs_mult.
    assert (e * Rabs h <= 1 * Rabs h) by (apply Rmult_le_compat_r; auto). lra. }
  assert (BK : K * Rabs h < del).
  { apply (Rmult_lt_compat_l K) in B3; auto. replace (K * (del / K)) with del in B3 by (field; lra). exact B3. }
  assert (L1 : Rabs k1 < del).
  { eapply Rle_lt_trans; [exact S1|]. eapply Rle_lt_trans; [|exact BK]. apply Rmult_le_compat_r; auto. unfold K; lra. }
  assert (L2 : Rabs k2 < del).
  { eapply Rle_lt_trans; [exact S2|]. eapply Rle_lt_trans; [|exact BK]. apply Rmult_le_compat_r; auto. unfold K; lra. }
  specialize (PF k1 k2 L1 L2).
  replace (g1 x + k1) with (g1 (x + h)) in PF by (unfold k1; ring).
  replace (g2 x + k2) with (g2 (x + h)) in PF by (unfold k2; ring).
  set (df := f (g1 (x + h)) (g2 (x + h)) - f (g1 x) (g2 x)) in *.
  replace (df / h - (a * d1 + b * d2)) with ((df - (a * d1 + b * d2) * h) * / h) by (field; auto).
  rewrite Rabs_mult, Rabs_inv. apply (Rmult_lt_reg_r (Rabs h)); auto. rewrite Rmult_assoc, Rinv_l by lra. rewrite Rmult_1_r.
  replace (df - (a * d1 + b * d2) * h) with ((df - a * k1 - b * k2) + (a * (k1 - d1 * h) + b * (k2 - d2 * h))) by ring.
  eapply Rle_lt_trans; [apply Rabs_triang|].
  assert (T1 : Rabs (df - a * k1 - b * k2) <= eps / 4 * Rabs h).
  { eapply Rle_trans; [exact PF|]. eapply Rle_trans.
    - apply Rmult_le_compat_l; [lra|]. apply (Rle_trans _ (K * Rabs h)); [unfold K; lra|apply Rle_refl].
    - right. field. lra. }
  assert (T2 : Rabs (a * (k1 - d1 * h) + b * (k2 - d2 * h)) <= eps / 4 * Rabs h).
  { eapply Rle_trans; [apply Rabs_triang|]. rewrite !Rabs_mult.
    apply (Rle_trans _ (M * (e * Rabs h))).
    - unfold M. assert (Rabs a * Rabs (k1 - d1 * h) <= Rabs a * (e * Rabs h)) by (apply Rmult_le_compat_l; auto).
      assert (Rabs b * Rabs (k2 - d2 * h) <= Rabs b * (e * Rabs h)) by (apply Rmult_le_compat_l; auto).
      assert (0 <= e * Rabs h) by (apply Rmult_le_pos; lra). lra.
    - rewrite <- Rmult_assoc. apply Rmult_le_compat_r; auto.
      apply (Rmult_le_compat_l M) in e2; [|lra]. replace (M * (eps / (4 * M))) with (eps / 4) in e2 by (field; lra). exact e2. }
  assert (0 < eps * Rabs h) by (apply Rmult_lt_0_compat; auto). lra.
Qed.
