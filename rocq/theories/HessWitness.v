(** * Concrete programs for Hessians and symbolic gradients: non-vacuity and refutations *)

From Coq Require Import List Arith Bool ZArith Lia Reals Lra.
From Verif Require Import Num NumInst ScalarModel ScalarSpec ScalarReset ScalarUser ScalarBuild ScalarFacts ScalarMore ScalarWitness
  Calculus ScalarCalc ScalarSym SymForm SymOk SymUser SymCalc SymHess SymHessCalc SymWitness.
Import ListNotations.
Local Open Scope nat_scope.

(** ** x = 2, y = 3, e = x * y *)
Definition mix_prog : list (cmd (T := R)) := [CVar 2%R; CVar 3%R; CExpr (TBin BProd (TRef 2) (TRef 3))].
Definition mix_out : list (out (T := R)) := [OHandle 2; OHandle 3; OHandle 6].
Definition mix_store : store (T := R) := after_run store0 mix_prog mix_out.
Definition mix_vals (v : nat) : R := if Nat.eqb v 2 then 2%R else 3%R.
Lemma mix_dep v w : udep mix_store v w -> w < v.
Proof. intros Hd. unfold mix_store in Hd. cbn [after_run mix_prog mix_out] in Hd. dep_tac; lia. Qed.
Lemma mix_legal : legal_run store0 nohist mix_prog mix_out.
Proof. cbn [mix_prog mix_out legal_run]; repeat apply conj; try exact Logic.I; legal_tac. Qed.
Lemma mix_reached : exists h, reached h mix_store nohist.
Proof.
  destruct (exec_split 0 mix_prog heap0 mix_out) as (h & E); [reflexivity|].
  exists h. exact (run_reached 0 mix_prog heap0 store0 _ mix_out h reached0 mix_legal E).
Qed.
Lemma mix_query : query_ok mix_store nohist 6.
Proof.
  apply tidy_query; [|eexists; reflexivity]. split; [|auto]. exists (fun v => v). intros v w Hd. right. now apply mix_dep.
Qed.
Lemma mix_closed : closed_graph mix_store 6.
Proof.
  split; [intros v _ Hd; apply mix_dep in Hd; lia|]. intros v l t _ E Hi. store_tac E v.
  injection E as <-. destruct Hi as [Hi|[]]. injection Hi as <-. simpl. tauto.
Qed.
Lemma mix_smooth s : smooth_at mix_store 6 s.
Proof.
  intros W V v l t _ E Hi. store_tac E v. injection E as <-. destruct Hi as [Hi|[]]. injection Hi as <-.
  cbn [tsmooth bdom]. auto.
Qed.
Lemma mix_vals_of : vals_of mix_store mix_vals.
Proof.
  intros v x Hv. cbn in Hv; unfold put, at_, store0, mix_vals in *.
  repeat (match type of Hv with context [Nat.eqb v ?k] => destruct (Nat.eqb_spec v k) as [->|]; cbn in Hv end);
      destruct Hv as [Hv|Hv]; try discriminate; injection Hv as <-; reflexivity.
Qed.
Lemma mix_vars : Forall (is_var mix_store) [2; 3].
Proof. repeat constructor; eexists; reflexivity. Qed.
Definition mix_f (t : nat -> R) : R := (t 2%nat * t 3%nat)%R.
Lemma mix_value t : exists W, uvalues (at_vals mix_store t) 6 W /\ W 6 = mix_f t.
Proof.
  exists (fun v => match v with 2 => t 2 | 3 => t 3 | 6 => mix_f t | _ => 0%R end). split; auto.
  assert (Be : forall v, ureach (at_vals mix_store t) 6 v -> In v [2; 3; 6]).
  { intros v Hv. induction Hv as [|v w _ IH (l & i & E & Hi & Hw)]; [simpl; auto|].
    simpl in IH. destruct IH as [<-|[<-|[<-|[]]]]; cbn in E; try discriminate. injection E as <-. destruct Hi as [<-|[]].
    simpl in Hw. simpl. tauto. }
  intros v Hv. apply Be in Hv. simpl in Hv. destruct Hv as [<-|[<-|[<-|[]]]]; cbn; try reflexivity. unfold at_. cbn. unfold mix_f. ring.
Qed.
Lemma mix_f_is t W : uvalues (at_vals mix_store t) 6 W -> mix_f t = W 6.
Proof.
  intros V. unfold mix_f.
  assert (D : forall w, In w [2; 3] -> ureach (at_vals mix_store t) 6 w).
  { intros w Hw. eapply ureach_step; [apply ureach_refl|]. eexists _, _. split; [reflexivity|]. split; [simpl; eauto|]. simpl in *. tauto. }
  pose proof (V 2 (D 2 ltac:(simpl; auto))) as V2. pose proof (V 3 (D 3 ltac:(simpl; auto))) as V3.
  pose proof (V 6 (ureach_refl _ _)) as V6. cbn in V2, V3, V6. unfold at_ in V6. cbn in V6. rewrite V6, V2, V3. ring.
Qed.
(** The mixed derivative is 1 everywhere. *)
Lemma mix_mixed f f' s m : (forall t W, uvalues (at_vals mix_store t) 6 W -> f t = W 6) -> (forall t, partial f 2 t (f' t)) -> partial f' 3 s m -> m = 1%R.
Proof.
  intros Hf P1 P2.
  assert (Ff : forall t, f t = mix_f t) by (intros t; destruct (mix_value t) as (W & V & <-); now apply Hf).
  assert (F' : forall t, f' t = t 3).
  { intros t. apply (partial_unique f 2 t); auto. unfold partial. apply (dlim_ext (fun a => a * t 3%nat)%R).
    - intros a. rewrite Ff. unfold mix_f. now rewrite at_same, at_other.
    - pose proof (derivable_pt_lim_mult (fun a => a) (fun _ => t 3%nat) (t 2%nat) 1 0 (dlim_id _) (dlim_const _ _)) as X.
      cbv beta in X. rewrite Rmult_0_r, Rplus_0_r, Rmult_1_l in X. exact X. }
  apply (partial_unique f' 3 s); auto. unfold partial. apply (dlim_ext (fun a => a)); [|apply dlim_id].
  intros a. now rewrite F', at_same.
Qed.

(** ** C58: x = 2, y = 5, a = x*x, e = a*y (or y*a); the second entry of the gradient is a *)
Local Open Scope Z_scope.
Definition sweep_prog (b : bool) : list (cmd (T := Z)) :=
  [CVar 2; CVar 5; CExpr (TBin BProd (TRef 2) (TRef 2)); CExpr (if b then TBin BProd (TRef 6) (TRef 3) else TBin BProd (TRef 3) (TRef 6))].
Definition sweep_out : list (out (T := Z)) := [OHandle 2; OHandle 3; OHandle 6; OHandle 11].
Definition sweep_store b := after_run store0 (sweep_prog b) sweep_out.
Lemma sweep_dep b v w : udep (sweep_store b) v w -> (w < v)%nat.
Proof. intros Hd. unfold sweep_store in Hd. destruct b; cbn [after_run sweep_prog sweep_out] in Hd; dep_tac; lia. Qed.
Lemma sweep_legal b : legal_run store0 nohist (sweep_prog b) sweep_out.
Proof. destruct b; cbn [sweep_prog sweep_out legal_run]; repeat apply conj; try exact Logic.I; legal_tac. Qed.
Lemma sweep_query b : query_ok (sweep_store b) nohist 11.
Proof.
  apply tidy_query; [|eexists; reflexivity]. split; [|auto]. exists (fun v => v). intros v w Hd. right. now apply (sweep_dep b).
Qed.
Lemma sweep_plain b : plain_graph (sweep_store b) 11.
Proof.
  split; [intros v _ Hd; apply sweep_dep in Hd; lia|]. intros v l t _ E Hi. destruct b; store_tac E v;
    injection E as <-; destruct Hi as [Hi|[]]; injection Hi as <-; simpl; tauto.
Qed.
Definition sweep_run (b : bool) (h : heap Z) :=
  match SymGradient (fun _ => b) 0 11 [2; 3]%nat h with
  | Some (ms, h1) => match exec 0 (line [CEval (nth 0 ms 0%nat); CSet 2 3; CEval (nth 1 ms 0%nat)]) h1 with Some (os, h2) => Some (ms, os, h2) | None => None end
  | None => None
  end.
Lemma sweep_runs b : exists h, exec 0 (line (sweep_prog b)) heap0 = Some (sweep_out, h) /\
  option_map fst (sweep_run b h) = Some ([16; 18]%nat, [ONums [20]; ONone; ONums [4]]).
Proof. apply via. destruct b; vm_compute; reflexivity. Qed.
Lemma sweep_der b : only_der (put (sweep_store b) 2 (OVar 3)) 11 3 9.
Proof.
  intros W D V HD. set (st := put (sweep_store b) 2 (OVar 3)) in *.
  assert (R6 : ureach st 11 6) by (eapply ureach_step; [apply ureach_refl|]; eapply dep_at; [destruct b; reflexivity|destruct b; simpl; auto]).
  assert (R3 : ureach st 11 3) by (eapply ureach_step; [apply ureach_refl|]; eapply dep_at; [destruct b; reflexivity|destruct b; simpl; auto]).
  assert (R2 : ureach st 11 2) by (eapply ureach_step; [exact R6|]; eapply dep_at; [destruct b; reflexivity|destruct b; simpl; auto]).
  pose proof (V 2%nat R2) as V2. pose proof (V 6%nat R6) as V6. pose proof (V 3%nat R3) as V3.
  pose proof (HD 2%nat R2) as D2. pose proof (HD 3%nat R3) as D3. pose proof (HD 6%nat R6) as D6. pose proof (HD 11%nat (ureach_refl _ _)) as D11.
  destruct b; cbn -[Z.mul Z.add] in V2, V3, V6, D2, D3, D6, D11; unfold at_ in *; cbn -[Z.mul Z.add] in V2, V3, V6, D2, D3, D6, D11;
  rewrite D11, ?D6, ?D3, ?D2, ?V6, ?V2, ?V3; reflexivity.
Qed.
Lemma sweep_refutes b : exists h st e x y ms h1 m0 m1 z d h2, reached (T := Z) h st nohist /\ query_ok st nohist e /\ plain_graph st e /\
  is_var st x /\ is_var st y /\ SymGradient (fun _ => b) 0 e [x; y] h = Some (ms, h1) /\ ms = [m0; m1] /\
  exec 0 (line [CEval m0; CSet x 3; CEval m1]) h1 = Some ([ONums [z]; ONone; ONums [d]], h2) /\
  forall W D, uvalues (put st x (OVar 3)) e W -> uderivs (put st x (OVar 3)) e W y D -> d <> D e.
Proof.
  destruct (sweep_runs b) as (h & E & X). unfold sweep_run in X.
  destruct (SymGradient (fun _ => b) 0 11 [2; 3]%nat h) as [[ms h1]|] eqn:Eg; [|discriminate].
  destruct (exec 0 (line [CEval (nth 0 ms 0%nat); CSet 2 3; CEval (nth 1 ms 0%nat)]) h1) as [[os h2]|] eqn:Ex; [|discriminate].
  cbn [option_map fst] in X. injection X as -> ->.
  exists h, (sweep_store b), 11%nat, 2%nat, 3%nat, [16; 18]%nat, h1, 16%nat, 18%nat, 20, 4, h2.
  split; [exact (run_reached 0 (sweep_prog b) heap0 store0 _ sweep_out h reached0 (sweep_legal b) E)|].
  split; [apply sweep_query|]. split; [apply sweep_plain|]. split; [eexists; reflexivity|]. split; [eexists; reflexivity|].
  split; [exact Eg|]. split; [reflexivity|]. split; [exact Ex|].
  intros W D V HD. rewrite (sweep_der b W D V HD). discriminate.
Qed.
