(** * Concrete programs for symbolic differentiation: non-vacuity and refutations *)

From Coq Require Import List Arith Bool ZArith Lia Reals Lra.
From Verif Require Import Num NumInst ScalarModel ScalarSpec ScalarReset ScalarUser ScalarBuild ScalarFacts ScalarMore ScalarWitness
  Calculus ScalarCalc ScalarSym SymForm SymOk SymUser SymCalc.
Import ListNotations.
Local Open Scope nat_scope.

(** ** SymDiff followed by commands, SymDiff after commands *)
Section Diff.
Context {T : Type} {N : Num T}.
Definition outs {A B} (p : option (A * B)) : option A := option_map fst p.
Definition diff_run (b : bool) (e x : nat) (cs : nat -> list (cmd (T := T))) (h : heap T) :=
  match sym_diff (fun _ => b) 0 e x h with
  | Some (d, h1) => match exec 0 (line (cs d)) h1 with Some (os, h2) => Some ((d, os), h2) | None => None end
  | None => None
  end.
Lemma diff_run_inv b e x cs h d os : outs (diff_run b e x cs h) = Some (d, os) ->
  exists h1 h2, sym_diff (fun _ => b) 0 e x h = Some (d, h1) /\ exec 0 (line (cs d)) h1 = Some (os, h2).
Proof.
  unfold outs, diff_run. destruct (sym_diff (fun _ => b) 0 e x h) as [[d' h1]|]; [|discriminate].
  destruct (exec 0 (line (cs d')) h1) as [[os' h2]|] eqn:E; [|discriminate]. simpl. intros X. injection X as -> ->. eauto.
Qed.
Lemma via {A} (pre : list (cmd (T := T))) po (f : heap T -> option A) r :
  match exec 0 (line pre) heap0 with Some (os, h) => Some (os, f h) | None => None end = Some (po, r) ->
  exists h, exec 0 (line pre) heap0 = Some (po, h) /\ f h = r.
Proof. destruct (exec 0 (line pre) heap0) as [[os h]|]; [|discriminate]. intros E. injection E as -> E. eauto. Qed.
End Diff.

Notation nohist := (fun _ : nat => False).
Ltac below_tac := intros H; induction H as [|v w _ IH Hd]; [simpl; auto 10|]; dep_tac; simpl; auto 10.
Ltac cases_tac Hv := simpl in Hv; repeat (destruct Hv as [<-|Hv]); try destruct Hv.

(** ** Over the integers: x, a = x*x, then e = a*a (first program) or e = x*a (second) *)
Local Open Scope Z_scope.
Definition quad (b : bool) : list (cmd (T := Z)) :=
  [ CVar 2; CExpr (TBin BProd (TRef 2) (TRef 2)); CExpr (TBin BProd (TRef (if b then 2 else 5)) (TRef 5)) ].
Definition quad_out : list (out (T := Z)) := [OHandle 2; OHandle 5; OHandle 10].
Definition quad_store b := after_run store0 (quad b) quad_out.
Lemma quad_dep b v w : udep (quad_store b) v w -> (w < v)%nat.
Proof. intros Hd. unfold quad_store in Hd. destruct b; cbn [after_run quad quad_out] in Hd; dep_tac; lia. Qed.
Lemma quad_legal b : legal_run store0 nohist (quad b) quad_out.
Proof. destruct b; cbn [quad quad_out legal_run]; repeat apply conj; try exact Logic.I; legal_tac. Qed.
Lemma quad_query b : query_ok (quad_store b) nohist 10.
Proof.
  apply tidy_query; [|eexists; reflexivity]. split; [|auto]. exists (fun v => v). intros v w Hd. right. now apply (quad_dep b).
Qed.
Lemma quad_plain b : plain_graph (quad_store b) 10.
Proof.
  split; [intros v _ Hd; apply quad_dep in Hd; lia|]. intros v l t _ E Hi. destruct b; cbn in E; unfold put, at_, store0 in E;
    repeat (match type of E with context [Nat.eqb v ?k] => destruct (Nat.eqb_spec v k) as [->|]; cbn in E end); try discriminate;
    injection E as <-; destruct Hi as [Hi|[]]; injection Hi as <-; simpl; tauto.
Qed.
Lemma quad_quot b : quotients_ok (quad_store b) 10.
Proof.
  exists (fun _ => True), (fun _ => True). split; auto. split; intros v l i _ E Hi; destruct b; cbn in E; unfold put, at_, store0 in E;
    repeat (match type of E with context [Nat.eqb v ?k] => destruct (Nat.eqb_spec v k) as [->|]; cbn in E end); try discriminate;
    injection E as <-; destruct Hi as [<-|[]]; simpl; tauto.
Qed.
Lemma quad_reached b h : exec 0 (line (quad b)) heap0 = Some (quad_out, h) -> reached h (quad_store b) nohist.
Proof. intros E. exact (run_reached 0 (quad b) heap0 store0 _ quad_out h reached0 (quad_legal b) E). Qed.

(** The derivative of e with respect to x in a store where x = c. *)
Definition only_der (st : store (T := Z)) (e x : nat) (d : Z) : Prop :=
  forall W D, uvalues st e W -> uderivs st e W x D -> D e = d.
Ltac reach_tac := repeat first [apply ureach_refl | eapply ureach_step; [apply ureach_refl|] | eapply ureach_step].
Lemma dep_at (st : store (T := Z)) v w i : st v = Some (OExp [i]) -> In w (irefs i) -> udep st v w.
Proof. intros E H. exists [i], i. simpl. auto. Qed.
Lemma quad_der b x0 : only_der (put (quad_store b) 2 (OVar x0)) 10 2 (if b then 3 * x0 * x0 else 4 * x0 * x0 * x0).
Proof.
  intros W D V HD. set (st := put (quad_store b) 2 (OVar x0)) in *.
  assert (R5 : ureach st 10 5).
  { eapply ureach_step; [apply ureach_refl|]. eapply dep_at; [destruct b; reflexivity|]. destruct b; simpl; auto. }
  assert (R2 : ureach st 10 2).
  { eapply ureach_step; [exact R5|]. eapply dep_at; [destruct b; reflexivity|]. simpl; auto. }
  pose proof (V 2%nat R2) as V2. pose proof (V 5%nat R5) as V5.
  pose proof (HD 2%nat R2) as D2. pose proof (HD 5%nat R5) as D5. pose proof (HD 10%nat (ureach_refl _ _)) as D10.
  destruct b; cbn -[Z.mul Z.add] in V2, V5, D2, D5, D10; unfold at_ in *; cbn -[Z.mul Z.add] in V2, V5, D2, D5, D10; rewrite D10, ?D5, ?V5, ?D2, ?V2; ring.
Qed.

(** C57: Eval(e) after SymDiff(e, x), then x = 3. *)
Definition bad57 (b : bool) : Z := if b then 22 else 78.
Lemma quad_run57 b : exists h, exec 0 (line (quad b)) heap0 = Some (quad_out, h) /\
  outs (diff_run b 10 2 (fun d => [CEval 10; CSet 2 3; CEval d]) h) = Some (14%nat, [ONums [if b then 8 else 16]; ONone; ONums [bad57 b]]).
Proof. apply via. destruct b; vm_compute; reflexivity. Qed.
Lemma interleave_refutes b : exists h st e x d h1 z y h2, reached (T := Z) h st nohist /\ query_ok st nohist e /\ plain_graph st e /\
  quotients_ok st e /\ is_var st x /\ sym_diff (fun _ => b) 0 e x h = Some (d, h1) /\
  exec 0 (line [CEval e; CSet x 3; CEval d]) h1 = Some ([ONums [z]; ONone; ONums [y]], h2) /\
  forall W D, uvalues (put st x (OVar 3)) e W -> uderivs (put st x (OVar 3)) e W x D -> y <> D e.
Proof.
  destruct (quad_run57 b) as (h & E & X). apply diff_run_inv in X. destruct X as (h1 & h2 & Ed & Ex).
  exists h, (quad_store b), 10%nat, 2%nat, 14%nat, h1, (if b then 8 else 16), (bad57 b), h2.
  split; [now apply quad_reached|]. split; [apply quad_query|]. split; [apply quad_plain|]. split; [apply quad_quot|].
  split; [eexists; destruct b; reflexivity|]. split; [exact Ed|]. split; [exact Ex|].
  intros W D V HD. rewrite (quad_der b 3 W D V HD). destruct b; discriminate.
Qed.

(** C16: SymDiff(e, x), then a = x, then SymDiff(e, x) again.  e = a*a, x = 2. *)
Definition two_diffs (b : bool) (h : heap Z) :=
  match sym_diff (fun _ => b) 0 10 2 h with
  | Some (d, h1) =>
      match step 0 (CAssign 5 (TRef 2)) h1 with
      | Some (o, h2) => match diff_run b 10 2 (fun d => [CEval d; CEval 10]) h2 with Some (r, _) => Some (d, o, r) | None => None end
      | None => None
      end
  | None => None
  end.
Definition bad16 (b : bool) : Z := if b then 32 else 24.
Lemma quad_run16 b : exists h, exec 0 (line (quad false)) heap0 = Some (quad_out, h) /\
  two_diffs b h = Some (14%nat, ONone, (73%nat, [ONums [bad16 b]; ONums [4]])).
Proof. apply via. destruct b; vm_compute; reflexivity. Qed.
Lemma reassign_refutes b : exists h st e x a t d h1 h2 d2 h3 y h4, reached (T := Z) h st nohist /\ query_ok st nohist e /\ is_var st x /\
  is_exp st a /\ sym_diff (fun _ => b) 0 e x h = Some (d, h1) /\ step 0 (CAssign a t) h1 = Some (ONone, h2) /\
  plain_graph (uafter st (CAssign a t) ONone) e /\ quotients_ok (uafter st (CAssign a t) ONone) e /\
  sym_diff (fun _ => b) 0 e x h2 = Some (d2, h3) /\ exec 0 (line [CEval d2; CEval e]) h3 = Some ([ONums [y]; ONums [4]], h4) /\
  forall W D, uvalues (uafter st (CAssign a t) ONone) e W -> uderivs (uafter st (CAssign a t) ONone) e W x D -> W e = 4 /\ y <> D e.
Proof.
  destruct (quad_run16 b) as (h & E & X). unfold two_diffs in X.
  destruct (sym_diff (fun _ => b) 0 10 2 h) as [[d h1]|] eqn:E1; [|discriminate].
  destruct (step 0 (CAssign 5 (TRef 2)) h1) as [[o h2]|] eqn:E2; [|discriminate].
  destruct (diff_run b 10 2 (fun d => [CEval d; CEval 10]) h2) as [[r h4]|] eqn:E3; [|discriminate].
  injection X as -> -> ->.
  destruct (diff_run_inv b 10 2 (fun d => [CEval d; CEval 10]) h2 73%nat [ONums [bad16 b]; ONums [4]]) as (h3 & h5 & F1 & F2); [now rewrite E3|].
  set (st' := uafter (quad_store false) (CAssign 5 (TRef 2)) ONone).
  assert (Dep : forall v w, udep st' v w -> (w < v)%nat).
  { intros v w Hd. unfold st', quad_store in Hd. cbn [after_run quad quad_out] in Hd. cbn in Hd. dep_tac; lia. }
  exists h, (quad_store false), 10%nat, 2%nat, 5%nat, (TRef 2), 14%nat, h1, h2, 73%nat, h3, (bad16 b), h5.
  split; [now apply quad_reached|]. split; [apply quad_query|]. split; [eexists; reflexivity|]. split; [eexists; reflexivity|].
  split; [exact E1|]. split; [exact E2|]. split; [|split; [|split; [exact F1|split; [exact F2|]]]].
  - split; [intros v _ Hd; apply Dep in Hd; lia|]. intros v l t _ Es Hi. cbn in Es; unfold put, at_, store0 in Es;
      repeat (match type of Es with context [Nat.eqb v ?k] => destruct (Nat.eqb_spec v k) as [->|]; cbn in Es end); try discriminate;
      injection Es as <-; destruct Hi as [Hi|[]]; injection Hi as <-; simpl; tauto.
  - exists (fun _ => True), (fun _ => True). split; auto. split; intros v l i _ Es Hi; cbn in Es; unfold put, at_, store0 in Es;
      repeat (match type of Es with context [Nat.eqb v ?k] => destruct (Nat.eqb_spec v k) as [->|]; cbn in Es end); try discriminate;
      injection Es as <-; destruct Hi as [<-|[]]; simpl; tauto.
  - intros W D V HD.
    assert (R5 : ureach st' 10 5) by (eapply ureach_step; [apply ureach_refl|]; eapply dep_at; [reflexivity|simpl; auto]).
    assert (R2 : ureach st' 10 2) by (eapply ureach_step; [exact R5|]; eapply dep_at; [reflexivity|simpl; auto]).
    pose proof (V 2%nat R2) as V2. pose proof (V 5%nat R5) as V5. pose proof (V 10%nat (ureach_refl _ _)) as V10.
    pose proof (HD 2%nat R2) as D2. pose proof (HD 5%nat R5) as D5. pose proof (HD 10%nat (ureach_refl _ _)) as D10.
    cbn in V2, V5, V10, D2, D5, D10; unfold at_ in *; cbn in V2, V5, V10, D2, D5, D10; rewrite V10, D10, ?D5, ?V5, ?D2, ?V2.
    split; [reflexivity|]. destruct b; discriminate.
Qed.

(** ** Over the reals *)
Local Open Scope R_scope.

(** C14: x = 1, e = x * (2 / x). *)
Definition quot_prog {T} {N : Num T} : list (cmd (T := T)) :=
  [CVar n1; CExpr (TBin BProd (TRef 2) (TUn (UDivC (nadd n1 n1)) (TRef 2)))].
Definition quot_out {T} : list (out (T := T)) := [OHandle 2; OHandle 7].
Lemma quot_run0 T (N : Num T) b : exists y, exec 0 (line quot_prog) heap0 <> None /\
  match exec 0 (line quot_prog) heap0 with
  | Some (os, h) => Some (os, outs (diff_run b 7 2 (fun d => [CEval d]) h)) | None => None
  end = Some (quot_out, Some (12%nat, [ONums [y]])) /\
  ((forall x, nmul n1 x = x) -> (forall x, nmul x n1 = x) -> (forall x, ndiv x n1 = x) -> y = nadd n1 (nmul nm1 (nadd n1 n1))).
Proof.
  destruct N as [z o m hf ad su mu di po fu eq]. cbn [n0 n1 nm1 nhalf nadd nmul ndiv nfun].
  destruct b; (eexists; split; [vm_compute; discriminate|]; split; [vm_compute; reflexivity|]);
    intros H1 H2 H3; repeat rewrite ?H1, ?H2, ?H3; reflexivity.
Qed.
Definition quot_store : store (T := R) := after_run store0 quot_prog quot_out.
Lemma quot_dep v w : udep quot_store v w -> (w < v)%nat.
Proof. intros Hd. unfold quot_store in Hd. cbn [after_run quot_prog quot_out] in Hd. dep_tac; lia. Qed.
Lemma quot_legal : legal_run store0 nohist (quot_prog (N := NumR)) quot_out.
Proof. cbn [quot_prog quot_out legal_run]; repeat apply conj; try exact Logic.I; legal_tac. Qed.
Lemma quot_query : query_ok quot_store nohist 7.
Proof.
  apply tidy_query; [|eexists; reflexivity]. split; [|auto]. exists (fun v => v). intros v w Hd. right. now apply quot_dep.
Qed.
Lemma quot_plain : plain_graph quot_store 7.
Proof.
  split; [intros v _ Hd; apply quot_dep in Hd; lia|]. intros v l t _ E Hi. cbn in E; unfold put, at_, store0 in E;
    repeat (match type of E with context [Nat.eqb v ?k] => destruct (Nat.eqb_spec v k) as [->|]; cbn in E end); try discriminate;
    injection E as <-; destruct Hi as [Hi|[]]; injection Hi as <-; simpl; tauto.
Qed.
Lemma quotient_refutes b : exists h st e x d h1 y h2, reached (T := R) h st nohist /\ query_ok st nohist e /\ plain_graph st e /\
  is_var st x /\ sym_diff (fun _ => b) 0 e x h = Some (d, h1) /\ exec 0 (line [CEval d]) h1 = Some ([ONums [y]], h2) /\
  forall W D, uvalues st e W -> uderivs st e W x D -> y <> D e.
Proof.
  destruct (quot_run0 R NumR b) as (y & _ & E & Hy). apply via in E. destruct E as (h & E & X).
  apply diff_run_inv in X. destruct X as (h1 & h2 & Ed & Ex).
  exists h, quot_store, 7%nat, 2%nat, 12%nat, h1, y, h2.
  split; [exact (run_reached 0 quot_prog heap0 store0 _ quot_out h reached0 quot_legal E)|].
  split; [apply quot_query|]. split; [apply quot_plain|]. split; [eexists; reflexivity|]. split; [exact Ed|]. split; [exact Ex|].
  intros W D V HD.
  assert (R2 : ureach quot_store 7 2).
  { eapply ureach_step; [apply ureach_refl|]. eexists _, _. split; [reflexivity|]. split; [simpl; eauto|]. simpl; auto. }
  pose proof (V 2%nat R2) as V2. pose proof (HD 2%nat R2) as D2. pose proof (HD 7%nat (ureach_refl _ _)) as D7.
  cbn in V2, D2, D7. unfold at_ in *. cbn in D7. rewrite V2 in D7.
  cbn [nmul n1 nadd nm1 ndiv NumR] in Hy. rewrite Hy; try (intros; lra).
Qed.

(** C15: x = 1, e = sqrt(x * x), whose second derivative at 1 is 0. *)
Definition root_prog {T} {N : Num T} : list (cmd (T := T)) :=
  [CVar n1; CExpr (TUn (UFun FSqrt) (TBin BProd (TRef 2) (TRef 2)))].
Definition root_acts {T} : list (act T) := [ADiff 2; ADiff 2; AEval].
Lemma root_run0 T (N : Num T) b : exists y,
  match exec 0 (line root_prog) heap0 with
  | Some (os, h) => Some (os, outs (play (fun _ => b) 0 7 root_acts h)) | None => None
  end = Some (quot_out, Some [OHandle 12; OHandle 60; ONums [y]]) /\
  ((forall x, nmul n1 x = x) -> (forall x, nmul x n1 = x) -> (forall x, nmul n0 x = n0) -> (forall x, nmul x n0 = n0) ->
   (forall x, nadd n0 x = x) -> (forall x, nadd x n0 = x) -> (forall x, ndiv x n1 = x) -> nfun FSqrt n1 = n1 ->
   nmul nhalf (nadd n1 n1) = n1 -> y = nadd (nmul (nmul nm1 nhalf) (nadd n1 n1)) (nadd n1 n1)).
Proof.
  destruct N as [z o m hf ad su mu di po fu eq]. cbn [n0 n1 nm1 nhalf nadd nmul ndiv nfun].
  destruct b; (eexists; split; [vm_compute; reflexivity|]);
    intros H1 H2 H3 H4 H5 H6 H7 H8 H9; repeat rewrite ?H1, ?H2, ?H3, ?H4, ?H5, ?H6, ?H7, ?H8, ?H9; reflexivity.
Qed.
Definition root_store : store (T := R) := after_run store0 root_prog quot_out.
Lemma root_dep v w : udep root_store v w -> (w < v)%nat.
Proof. intros Hd. unfold root_store in Hd. cbn [after_run root_prog quot_out] in Hd. dep_tac; lia. Qed.
Lemma root_legal : legal_run store0 nohist (root_prog (N := NumR)) quot_out.
Proof. cbn [root_prog quot_out legal_run]; repeat apply conj; try exact Logic.I; legal_tac. Qed.
Lemma root_query : query_ok root_store nohist 7.
Proof.
  apply tidy_query; [|eexists; reflexivity]. split; [|auto]. exists (fun v => v). intros v w Hd. right. now apply root_dep.
Qed.
Lemma root_plain : plain_graph root_store 7.
Proof.
  split; [intros v _ Hd; apply root_dep in Hd; lia|]. intros v l t _ E Hi. cbn in E; unfold put, at_, store0 in E;
    repeat (match type of E with context [Nat.eqb v ?k] => destruct (Nat.eqb_spec v k) as [->|]; cbn in E end); try discriminate;
    injection E as <-; destruct Hi as [Hi|[]]; injection Hi as <-; simpl; tauto.
Qed.
Lemma partial_unique f x s a b : partial f x s a -> partial f x s b -> a = b.
Proof. apply uniqueness_limite. Qed.
Lemma root_value t : exists W, uvalues (at_vals root_store t) 7 W /\ W 7%nat = sqrt (t 2%nat * t 2%nat).
Proof.
  exists (fun v => match v with 2%nat => t 2%nat | 7%nat => sqrt (t 2%nat * t 2%nat) | _ => 0 end). split; auto.
  assert (Be : forall v, ureach (at_vals root_store t) 7 v -> In v [2; 7]%nat).
  { intros v Hv. induction Hv as [|v w _ IH (l & i & E & Hi & Hw)]; [simpl; auto|].
    simpl in IH. destruct IH as [<-|[<-|[]]]; cbn in E; [discriminate|]. injection E as <-. destruct Hi as [<-|[]].
    simpl in Hw. simpl. tauto. }
  intros v Hv. apply Be in Hv. simpl in Hv. destruct Hv as [<-|[<-|[]]]; cbn; [reflexivity|]. unfold at_. cbn. ring.
Qed.
Lemma sqrt_refutes b : exists h st e x s y h', reached (T := R) h st nohist /\ query_ok st nohist e /\ plain_graph st e /\
  is_var st x /\ vals_of st s /\ s x = 1 /\
  (exists d d2, play (fun _ => b) 0 e [ADiff x; ADiff x; AEval] h = Some ([OHandle d; OHandle d2; ONums [y]], h')) /\
  forall f f' z, (forall t W, uvalues (at_vals st t) e W -> f t = W e) -> (forall t, 0 < t x -> partial f x t (f' t)) ->
    partial f' x s z -> y <> z.
Proof.
  destruct (root_run0 R NumR b) as (y & E & Hy). apply via in E. destruct E as (h & E & X). unfold outs in X.
  destruct (play (fun _ => b) 0 7 root_acts h) as [[os h']|] eqn:Ep; [|discriminate]. simpl in X. injection X as ->.
  exists h, root_store, 7%nat, 2%nat, (fun _ => 1), y, h'.
  split; [exact (run_reached 0 root_prog heap0 store0 _ quot_out h reached0 root_legal E)|].
  split; [apply root_query|]. split; [apply root_plain|]. split; [eexists; reflexivity|]. split; [|split; [auto|split; [eexists _, _; exact Ep|]]].
  { intros v x Hv. cbn in Hv; unfold put, at_, store0 in Hv.
    repeat (match type of Hv with context [Nat.eqb v ?k] => destruct (Nat.eqb_spec v k) as [->|]; cbn in Hv end);
      destruct Hv as [Hv|Hv]; try discriminate; injection Hv; auto. }
  intros f f' z Hf Hf' Hz.
  assert (Ff : forall t, f t = sqrt (t 2%nat * t 2%nat)).
  { intros t. destruct (root_value t) as (W & V & <-). now apply Hf. }
  assert (One : forall t, 0 < t 2%nat -> f' t = 1).
  { intros t Ht. apply (partial_unique f 2%nat t); [now apply Hf'|]. unfold partial.
    apply (dlim_loc (fun a => a) _ _ _ (t 2%nat)); auto using dlim_id.
    intros a Ha. apply Rabs_def2 in Ha. rewrite Ff, at_same. symmetry. apply sqrt_square. lra. }
  assert (Z0 : z = 0).
  { apply (partial_unique f' 2%nat (fun _ => 1)); auto. unfold partial.
    apply (dlim_loc (fun _ => 1) _ _ _ 1); [lra| |apply dlim_const].
    intros a Ha. apply Rabs_def2 in Ha. symmetry. apply One. rewrite at_same. lra. }
  subst z. cbn [nmul n0 n1 nadd nm1 ndiv nhalf nfun NumR Rfun] in Hy. rewrite Hy; try (intros; lra). apply sqrt_1.
Qed.

(** A graph that satisfies the hypotheses of C13 and one for C15. *)
Definition good_prog : list (cmd (T := R)) :=
  [ CVar 3; CPar 5; CExpr (TBin BSum (TBin BProd (TRef 2) (TPar 3)) (TUn (UDivC 2) (TRef 2)));
    CExpr (TBin BSum (TUn (UFun FSin) (TBin BProd (TRef 2) (TPar 3))) (TBin BDiv (TUn (UFun FLog) (TRef 2)) (TRef 2))) ].
Definition good_out : list (out (T := R)) := [OHandle 2; OHandle 3; OHandle 11; OHandle 28].
Definition good_store : store (T := R) := after_run store0 good_prog good_out.
Lemma good_dep v w : udep good_store v w -> (w < v)%nat.
Proof. intros Hd. unfold good_store in Hd. cbn [after_run good_prog good_out] in Hd. dep_tac; lia. Qed.
Lemma good_legal : legal_run store0 nohist good_prog good_out.
Proof. cbn [good_prog good_out legal_run]; repeat apply conj; try exact Logic.I; legal_tac. Qed.
Lemma good_reached : exists h, reached h good_store nohist.
Proof.
  destruct (exec_split 0 good_prog heap0 good_out) as (h & E); [reflexivity|].
  exists h. exact (run_reached 0 good_prog heap0 store0 _ good_out h reached0 good_legal E).
Qed.
Lemma good_query e : e = 11%nat \/ e = 28%nat -> query_ok good_store nohist e.
Proof.
  intros He. apply tidy_query; [|destruct He as [-> | ->]; eexists; reflexivity].
  split; [|auto]. exists (fun v => v). intros v w Hd. right. now apply good_dep.
Qed.
Ltac store_tac E v := cbn in E; unfold put, at_, store0 in E;
    repeat (match type of E with context [Nat.eqb v ?k] => destruct (Nat.eqb_spec v k) as [->|]; cbn in E end); try discriminate.
Lemma good_plain e : plain_graph good_store e.
Proof.
  split; [intros v _ Hd; apply good_dep in Hd; lia|]. intros v l t _ E Hi. store_tac E v;
    injection E as <-; destruct Hi as [Hi|[]]; injection Hi as <-; simpl; tauto.
Qed.
Lemma good_quot : quotients_ok good_store 11.
Proof.
  exists (fun v => v = 2%nat), (fun v => v = 2%nat \/ v = 11%nat). split; auto. split.
  - intros v l i -> E. cbn in E. discriminate.
  - intros v l i [-> | ->] E Hi; cbn in E; [discriminate|]. injection E as <-. destruct Hi as [<-|[]]. simpl. tauto.
Qed.
Lemma good_below v : ureach good_store 28 v -> v = 2%nat \/ v = 3%nat \/ v = 28%nat.
Proof.
  intros H. induction H as [|v w _ IH (l & i & E & Hi & Hw)]; [auto|].
  destruct IH as [-> |[-> | ->]]; cbn in E; try discriminate. injection E as <-. destruct Hi as [<-|[]]. simpl in Hw. intuition.
Qed.
Lemma good_closed : closed_graph good_store 28.
Proof.
  split; [intros v _ Hd; apply good_dep in Hd; lia|]. intros v l t Hv E Hi. apply good_below in Hv.
  destruct Hv as [-> |[-> | ->]]; cbn in E; try discriminate. injection E as <-. destruct Hi as [Hi|[]]. injection Hi as <-. simpl. tauto.
Qed.
Lemma good_smooth t : 0 < t 2%nat -> smooth_at good_store 28 t.
Proof.
  intros Ht W V v l u Hv E Hi. apply good_below in Hv.
  destruct Hv as [-> |[-> | ->]]; cbn in E; try discriminate. injection E as <-. destruct Hi as [Hi|[]]. injection Hi as <-.
  assert (V2 : W 2%nat = t 2%nat).
  { rewrite (V 2%nat); [reflexivity|]. eapply ureach_step; [apply ureach_refl|]. eexists _, _. split; [reflexivity|].
    split; [left; reflexivity|]. left. simpl. auto. }
  cbn [tsmooth tsem bdom]. unfold smooth1. cbn [udom fdom tsem]. rewrite V2. repeat apply conj; auto; lra.
Qed.
