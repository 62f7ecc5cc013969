(** * Calculus: C04 (derivatives are derivatives), C11 (operator sugar), C48 (activation functions) *)

From Coq Require Import List Arith Bool Reals Lra Lia.
From Verif Require Import Num NumInst ScalarModel ScalarSpec ScalarUser ScalarBuild ScalarFacts ScalarMore ScalarWitness
  PropScalar Calculus ScalarCalc Activation.
Import ListNotations.
Local Open Scope nat_scope.

(** ** C04 DevalF is the derivative in the sense of calculus *)
(** [eval_at pad h r x a]: the number returned by Eval(r) in the program "x = a; Eval(r)" run from state h. *)
Theorem C04_forward_is_derivative : forall pad h (st : store (T := R)) tc r x c,
  reached h st tc -> query_ok st tc r -> st x = Some (OVar c) ->
  (forall W, uvalues st r W -> in_domain st r W) ->
  (forall a, exists h', exec pad (line [CSet x a; CEval r]) h = Some ([ONone; ONums [eval_at pad h r x a]], h')) /\
  exists d h', step pad (CDevalF r x) h = Some (ONums [d], h') /\ derivable_pt_lim (eval_at pad h r x) c d.
Proof. exact devalF_is_derivative. Qed.
Print Assumptions C04_forward_is_derivative.
Theorem C04_reverse_is_derivative : forall pad pad' h (st : store (T := R)) tc r xs i x c,
  reached h st tc -> query_ok st tc r -> (forall z, In z xs -> is_var st z \/ is_exp st z) ->
  nth_error xs i = Some x -> st x = Some (OVar c) ->
  (forall W, uvalues st r W -> in_domain st r W) ->
  exists ys h' d, step pad (CGrad r xs) h = Some (ONums ys, h') /\ nth_error ys i = Some d /\
    derivable_pt_lim (eval_at pad' h r x) c d.
Proof. exact reverse_is_derivative. Qed.
Print Assumptions C04_reverse_is_derivative.
(** x = 2; f = pow(x, log(x)); f = f / sqrt(x) (self-referential). *)
Definition calc : list (cmd (T := R)) :=
  [CVar 2%R; CExpr (TBin BPow (TRef 2) (TUn (UFun FLog) (TRef 2)));
   CAssign 7 (TBin BDiv (TRef 7) (TUn (UFun FSqrt) (TRef 2)))].
Definition calc_out : list (out (T := R)) := [OHandle 2; OHandle 7; ONone].
Lemma calc_reached : exists h, reached h (after_run store0 calc calc_out) (fun _ => False).
Proof.
  destruct (exec_split 0 calc heap0 calc_out) as (h & E); [reflexivity|]. exists h.
  apply (run_reached 0 calc heap0 store0 (fun _ => False) calc_out h reached0); auto.
  unfold calc, calc_out. cbn [legal_run]. repeat apply conj; try exact Logic.I; legal_tac.
Qed.
Example C04_nonvacuous : exists h, let st := after_run store0 calc calc_out in
  reached h st (fun _ => False) /\ query_ok st (fun _ => False) 7 /\ st 2 = Some (OVar 2%R) /\ ureach st 7 2 /\
  (forall W, uvalues st 7 W -> in_domain st 7 W).
Proof.
  destruct calc_reached as (h & Re). exists h. cbv zeta.
  assert (Dp : forall v w, udep (after_run store0 calc calc_out) v w -> v = 7 /\ (w = 2 \/ w = 7)).
  { intros v w Hd. unfold calc, calc_out in Hd. cbn [after_run uafter] in Hd. dep_tac; lia. }
  split; [exact Re|]. split; [|split; [reflexivity|split]].
  - apply tidy_query; [|eexists; reflexivity]. split; [|auto]. exists (fun v => v). intros v w Hd. destruct (Dp v w Hd) as (-> & [-> | ->]); lia.
  - eapply ureach_step; [apply ureach_refl|]. eexists _, _. split; [reflexivity|]. split; [left; reflexivity|left; simpl; auto].
  - intros W V v l Hv E.
    assert (v = 7) as ->.
    { destruct (Nat.eq_dec v 7); auto. exfalso.
      assert (v = 2) as ->; [|discriminate E].
      induction Hv as [|a b _ IH Hd]; [congruence|]. destruct (Dp a b Hd) as (_ & [|]); congruence. }
    injection E as <-.
    assert (V2 : W 2 = 2%R).
    { rewrite (V 2); [reflexivity|]. eapply ureach_step; [apply ureach_refl|].
      eexists _, _. split; [reflexivity|]. split; [left; reflexivity|left; simpl; auto]. }
    assert (Q := sqrt_lt_R0 2 ltac:(lra)).
    cbn [idom tdom udom bdom fdom tsem at_ Nat.eqb isem]. rewrite V2. cbn [mean1 nfun NumR Rfun]. repeat apply conj; try exact Logic.I; lra.
Qed.

(** ** C11 Operator sugar means what it says *)
(** [sugar]: the eleven operators with a numeric operand; [desugar s t]: the nodes the library builds for it; [sugar_fun]:
    the function the user means.  The returned derivative is g'(v)*dv with g' the derivative of that function. *)
Lemma sugar_means pad h (st : store (T := R)) tc s t x : reached h st tc -> tidy st tc -> term_ok st t -> is_var st x \/ is_exp st x ->
  exists e W D d h', st e = None /\ all_values st W /\ all_derivs st W x D /\
    exec pad (Do (CExpr (desugar s t)) (fun o => match o with OHandle e => line [CEval e; CDevalF e x] | _ => Done end)) h =
      Some ([OHandle e; ONums [sugar_fun s (tsem W t)]; ONums [d * tdsem W D t]%R], h') /\
    (sugar_dom s (tsem W t) -> derivable_pt_lim (sugar_fun s) (tsem W t) d).
Proof.
  intros Re Ty Ht Hx.
  assert (Ht' : term_ok st (desugar s t)) by (destruct s; exact Ht).
  destruct (custom_ok R NumR pad h st tc (desugar s t) x Re Ty Ht' Hx) as (e & W & D & h' & He & V & HD & E).
  destruct (sugar_term s W D t) as (E1 & d & E2 & E3). exists e, W, D, d, h'.
  split; [exact He|]. split; [exact V|]. split; [exact HD|]. split; [|exact E3].
  rewrite E1, E2 in E. cbn [nmul n1 NumR] in E. rewrite !Rmult_1_l in E. exact E.
Qed.
Theorem C11_operator_sugar : forall pad h (st : store (T := R)) tc s t x,
  reached h st tc -> tidy st tc -> term_ok st t -> is_var st x \/ is_exp st x ->
  exists e W D d h', st e = None /\ all_values st W /\ all_derivs st W x D /\
    exec pad (Do (CExpr (desugar s t)) (fun o => match o with OHandle e => line [CEval e; CDevalF e x] | _ => Done end)) h =
      Some ([OHandle e; ONums [sugar_fun s (tsem W t)]; ONums [d * tdsem W D t]%R], h') /\
    (sugar_dom s (tsem W t) -> derivable_pt_lim (sugar_fun s) (tsem W t) d).
Proof. exact sugar_means. Qed.
Print Assumptions C11_operator_sugar.
Example C11_nonvacuous : exists h, let st := after_run store0 calc calc_out in
  reached h st (fun _ => False) /\ tidy st (fun _ => False) /\ term_ok st (TRef 7) /\ is_var st 2.
Proof.
  destruct calc_reached as (h & Re). exists h. cbv zeta. split; [exact Re|]. split; [|split].
  - split; [|auto]. exists (fun v => v). intros v w Hd. unfold calc, calc_out in Hd. cbn [after_run uafter] in Hd. dep_tac; lia.
  - split; [intros v [<-|[]]; right; eexists; reflexivity|intros p []].
  - eexists; reflexivity.
Qed.

(** ** C48 Activation functions and their derivative tables *)
(** Each operator SinM ... AbsM computes the named function, and wherever in its domain that function has a
    derivative d, the function paired with it by the library returns d; away from the kinks it does have one. *)
Theorem C48_activation_values : forall m x, cfun_val (value_of m) x = math m x.
Proof. exact math_ok. Qed.
Theorem C48_activation_derivatives : forall m x,
  (forall d, mdom m x -> derivable_pt_lim (math m) x d -> cfun_val (deriv_of m) x = d) /\
  (mdom m x -> smooth m x -> derivable_pt_lim (math m) x (cfun_val (deriv_of m) x)).
Proof.
  exact (fun m x => conj (fun d Hd H => eq_sym (table_complete m x d Hd H))
    (fun Hd Hs => dlim_ext _ _ x _ (math_ok m) (table_ok m x Hd Hs))).
Qed.
Print Assumptions C48_activation_derivatives.
(** The CUDA tables select the function itself. *)
Theorem C48_device_tables : forall f, device_functions (device_functions_map f) = Some f.
Proof. exact device_ok. Qed.
Print Assumptions C48_device_tables.
Example C48_nonvacuous : mdom LogM 2 /\ smooth LeakyReLUM (-3) /\ cfun_val (deriv_of LeakyReLUM) (-3) = (1 / 100)%R.
Proof. simpl. repeat apply conj; try lra. unfold if_nonneg, neg_slope. destruct (Rle_dec 0 (-3)); lra. Qed.
