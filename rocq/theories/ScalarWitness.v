(** * Concrete client programs (over the integers): non-vacuity and refutations *)

From Coq Require Import List Arith Bool ZArith Lia.
From Verif Require Import Num NumInst ScalarModel ScalarSpec ScalarReset ScalarUser ScalarBuild ScalarFacts ScalarMore.
Import ListNotations.

(** ** Running a list of commands *)
Section Run.
Context {T : Type} {N : Num T}.
Fixpoint legal_run (st : store (T := T)) (tc : nat -> Prop) (cs : list cmd) (os : list out) : Prop :=
  match cs, os with
  | [], [] => True
  | c :: cs', o :: os' => legal st tc c /\ legal_run (uafter st c o) (touch st c tc) cs' os'
  | _, _ => False
  end.
Fixpoint after_run (st : store (T := T)) (cs : list cmd) (os : list out) : store :=
  match cs, os with c :: cs', o :: os' => after_run (uafter st c o) cs' os' | _, _ => st end.
Fixpoint touch_run (st : store (T := T)) (tc : nat -> Prop) (cs : list cmd) (os : list out) : nat -> Prop :=
  match cs, os with c :: cs', o :: os' => touch_run (uafter st c o) (touch st c tc) cs' os' | _, _ => tc end.
Lemma run_reached pad cs : forall h st tc os h', reached h st tc -> legal_run st tc cs os ->
  exec pad (line cs) h = Some (os, h') -> reached h' (after_run st cs os) (touch_run st tc cs os).
Proof.
  induction cs as [|c cs IH]; intros h st tc os h' R L E.
  - simpl in E. injection E as <- <-. exact R.
  - cbn [line exec] in E. destruct (step pad c h) as [[o h1]|] eqn:E1; [|discriminate].
    destruct (exec pad (line cs) h1) as [[os1 h2]|] eqn:E2; [|discriminate]. injection E as <- <-.
    destruct L as [L1 L2]. cbn [after_run touch_run]. eapply IH; [|exact L2|exact E2]. econstructor; eauto.
Qed.
Lemma exec_split pad cs : forall (h : heap T) os, option_map fst (exec pad (line cs) h) = Some os ->
  exists h', exec pad (line cs) h = Some (os, h').
Proof. intros h os. destruct (exec pad (line cs) h) as [[os1 h']|]; simpl; [|discriminate]. intros E. injection E as ->. eauto. Qed.
End Run.

(** Proving legality of concrete commands. *)
Ltac dep_tac :=
  match goal with
  | H : udep _ ?v ?w |- _ =>
      let l := fresh "l" in let i := fresh "i" in let E := fresh "E" in let Hin := fresh "Hin" in let Hw := fresh "Hw" in
      destruct H as (l & i & E & Hin & Hw); cbn in E; unfold put, at_, store0 in E;
      repeat (match type of E with context [Nat.eqb v ?k] =>
                destruct (Nat.eqb_spec v k) as [->|]; cbn in E end);
      try discriminate; injection E as <-; simpl in Hin, Hw;
      repeat match goal with
      | H : _ \/ _ |- _ => destruct H
      | H : False |- _ => destruct H
      | H : _ = _ |- _ => subst; simpl in *
      end
  end.
Ltac kind_tac := first [left; eexists; reflexivity | right; eexists; reflexivity | eexists; reflexivity].
Ltac in_tac := lazymatch goal with |- forall v, In v _ -> _ =>
  intros ?v ?Hv; simpl in Hv; repeat (destruct Hv as [<-|Hv]); try destruct Hv; kind_tac end.
Ltac legal_tac :=
  cbn [legal]; unfold query_ok, term_ok; repeat apply conj; try exact Logic.I; try kind_tac; try in_tac.
(** Acyclic because references point to older objects. *)
Ltac strat_tac := exists (fun v => v); intros ?v ?w _ ?Hd; dep_tac; auto; lia.

Local Open Scope Z_scope.
Notation Zc := (cmd (T := Z)).

(** A program using sharing, a parameter, self reference and re-assignment. *)
Definition demo : list Zc :=
  [ CVar 3;                                                     (* x : 2 *)
    CVar 4;                                                     (* y : 3 *)
    CPar 5;                                                     (* p : 4 *)
    CExpr (TBin BSum (TBin BProd (TRef 2) (TRef 3)) (TPar 4));  (* f : 10 = x*y + p *)
    CExpr (TBin BProd (TRef 10) (TRef 2));                      (* g : 16 = f*x *)
    CExpr (TRef 2);                                             (* e : 20 = x *)
    CAssign 20 (TBin BProd (TRef 20) (TRef 2));                 (* e = e*x *)
    CAssign 20 (TBin BSum (TRef 20) (TRef 16)) ].               (* e = e + g *)
Definition demo_out : list (out (T := Z)) :=
  [OHandle 2; OHandle 3; OHandle 4; OHandle 10; OHandle 16; OHandle 20; ONone; ONone].
Definition demo_store : store := after_run store0 demo demo_out.

Lemma demo_run : exists h, exec 0 (line demo) heap0 = Some (demo_out, h).
Proof. apply exec_split. vm_compute. reflexivity. Qed.
Lemma demo_legal : legal_run store0 (fun _ => False) demo demo_out.
Proof. cbn [demo demo_out legal_run]. repeat apply conj; try exact Logic.I; legal_tac. Qed.
Lemma demo_reached : exists h, reached h demo_store (fun _ => False).
Proof.
  destruct demo_run as (h & E). exists h.
  exact (run_reached 0 demo heap0 store0 (fun _ => False) demo_out h reached0 demo_legal E).
Qed.
Lemma demo_dep v w : udep demo_store v w -> w = v \/ (w < v)%nat.
Proof. intros Hd. unfold demo_store in Hd. cbn [after_run demo demo_out] in Hd. dep_tac; auto; right; lia. Qed.
Lemma demo_tidy : tidy demo_store (fun _ => False).
Proof. split; [exists (fun v => v); apply demo_dep|auto]. Qed.
Lemma demo_query : query_ok demo_store (fun _ => False) 20.
Proof. apply tidy_query; [exact demo_tidy|]. eexists. reflexivity. Qed.

(** ** Values of the demo store *)
Definition demo_W : nat -> Z := fun v =>
  (match v with 2%nat => 3 | 3%nat => 4 | 4%nat => 5 | 10%nat => 17 | 16%nat => 51 | 20%nat => 60 | _ => 0 end).
Lemma demo_below v : ureach demo_store 20 v -> In v [2; 3; 4; 10; 16; 20]%nat.
Proof.
  intros H. induction H as [|v w _ IH Hd]; [simpl; auto 10|].
  unfold demo_store in Hd. cbn [after_run demo demo_out] in Hd. dep_tac; simpl; auto 10.
Qed.
Lemma demo_values : uvalues demo_store 20 demo_W.
Proof.
  intros v Hv. apply demo_below in Hv. simpl in Hv.
  repeat (destruct Hv as [<-|Hv]); try destruct Hv; reflexivity.
Qed.
Lemma demo_divs : udivs_ok demo_store 20 demo_W.
Proof.
  intros v l Hv E. apply demo_below in Hv. simpl in Hv.
  repeat (destruct Hv as [<-|Hv]); try destruct Hv; cbv in E; try discriminate; injection E as <-; simpl; repeat split; auto.
Qed.

(** ** C08: a stale intermediate *)
Definition stale : list Zc :=
  [ CVar 1;                                     (* x : 2 *)
    CExpr (TUn (UProdC 2) (TRef 2));            (* a = 2*x *)
    CExpr (TUn (USumC 1) (TRef 5));             (* b = a + 1 *)
    CExpr (TUn (USumC 1) (TRef 10));             (* c = b + 1 *)
    CEval 5;
    CSet 2 5 ].
Definition stale_out : list (out (T := Z)) := [OHandle 2; OHandle 5; OHandle 10; OHandle 15; ONums [2]; ONone].
Definition stale_store : store := after_run store0 stale stale_out.
Lemma stale_dep v w : udep stale_store v w -> w = v \/ (w < v)%nat.
Proof. intros Hd. unfold stale_store in Hd. cbn [after_run stale stale_out] in Hd. dep_tac; auto; right; lia. Qed.
Lemma stale_below v : ureach stale_store 15 v -> In v [2; 5; 10; 15]%nat.
Proof.
  intros H. induction H as [|v w _ IH Hd]; [simpl; auto 10|].
  unfold stale_store in Hd. cbn [after_run stale stale_out] in Hd. dep_tac; simpl; auto 10.
Qed.
Lemma stale_legal : legal_run store0 (fun _ => False) stale stale_out.
Proof.
  cbn [stale stale_out legal_run]. repeat apply conj; try exact Logic.I; legal_tac.
  - exists (fun v => v). intros v w _ Hd. cbn [uafter] in Hd. dep_tac; auto; right; lia.
  - unfold touch; cbn [uroot]. intros; auto.
Qed.
Definition stale_W : nat -> Z := fun v =>
  (match v with 2%nat => 5 | 5%nat => 10 | 10%nat => 11 | 15%nat => 12 | _ => 0 end).
Lemma stale_values : uvalues stale_store 15 stale_W.
Proof.
  intros v Hv. apply stale_below in Hv. simpl in Hv.
  repeat (destruct Hv as [<-|Hv]); try destruct Hv; reflexivity.
Qed.
Lemma stale_run : exists h, exec 0 (line stale) heap0 = Some (stale_out, h) /\
  exists h', step 0 (CEval 15) h = Some (ONums [4], h').
Proof.
  assert (E : option_map (fun p => option_map fst (step 0 (CEval 15) (snd p))) (exec 0 (line stale) heap0) = Some (Some (ONums [4]))) by (vm_compute; reflexivity).
  assert (E' : option_map fst (exec 0 (line stale) heap0) = Some stale_out) by (vm_compute; reflexivity).
  destruct (exec 0 (line stale) heap0) as [[os h]|]; [|discriminate]. cbn [option_map fst snd] in *.
  injection E' as ->. exists h. split; auto.
  destruct (step 0 (CEval 15) h) as [[o h']|]; [|discriminate]. cbn in E. injection E as ->. eauto.
Qed.
Lemma stale_refutes : exists h st tc r W y h', reached (T := Z) h st tc /\ is_exp st r /\ ustrat st r /\ uvalues st r W /\
  step 0 (CEval r) h = Some (ONums [y], h') /\ y <> W r.
Proof.
  destruct stale_run as (h & E & h' & E').
  exists h, stale_store, (touch_run store0 (fun _ => False) stale stale_out), 15%nat, stale_W, 4, h'.
  split; [exact (run_reached 0 stale heap0 store0 _ stale_out h reached0 stale_legal E)|].
  split; [eexists; reflexivity|]. split; [exists (fun v => v); intros v w _; apply stale_dep|].
  split; [exact stale_values|]. split; [exact E'|]. discriminate.
Qed.

(** ** C23: expression targets outside [utarget] *)
Definition targets : list Zc :=
  [ CVar 3;                                      (* x : 2 *)
    CExpr (TRef 2);                              (* e : 4 = x *)
    CAssign 4 (TBin BProd (TRef 4) (TRef 2));    (* e = e*x *)
    CExpr (TUn (UProdC 2) (TRef 4));             (* f : 11 = 2*e *)
    CExpr (TUn (USumC 7) (TRef 2));              (* a : 16 = x + 7 *)
    CCopy 16 ].                                   (* b : 20;  Expression b = a *)
Definition targets_out : list (out (T := Z)) := [OHandle 2; OHandle 4; ONone; OHandle 11; OHandle 16; OHandle 20].
Definition targets_store : store := after_run store0 targets targets_out.
Lemma targets_dep v w : udep targets_store v w -> w = v \/ (w < v)%nat.
Proof. intros Hd. unfold targets_store in Hd. cbn [after_run targets targets_out] in Hd. dep_tac; auto; right; lia. Qed.
Lemma targets_legal : legal_run store0 (fun _ => False) targets targets_out.
Proof. cbn [targets targets_out legal_run]. repeat apply conj; try exact Logic.I; legal_tac. Qed.
Lemma targets_reached : exists h, exec 0 (line targets) heap0 = Some (targets_out, h) /\ reached h targets_store (fun _ => False).
Proof.
  destruct (exec_split 0 targets heap0 targets_out) as (h & E); [vm_compute; reflexivity|].
  exists h. split; auto. exact (run_reached 0 targets heap0 store0 _ targets_out h reached0 targets_legal E).
Qed.
Definition targets_W : nat -> Z := fun v =>
  (match v with 2%nat => 3 | 4%nat => 9 | 11%nat => 18 | 16%nat => 10 | 20%nat => 10 | _ => 0 end).
Lemma targets_below r v : In r [2; 4; 11; 16; 20]%nat -> ureach targets_store r v -> In v [2; 4; 11; 16; 20]%nat.
Proof.
  intros Hr H. induction H as [|v w _ IH Hd]; auto.
  unfold targets_store in Hd. cbn [after_run targets targets_out] in Hd. dep_tac; simpl; auto 10.
Qed.
Lemma targets_values r : In r [2; 4; 11; 16; 20]%nat -> uvalues targets_store r targets_W.
Proof.
  intros Hr v Hv. apply targets_below in Hv; auto. simpl in Hv.
  repeat (destruct Hv as [<-|Hv]); try destruct Hv; reflexivity.
Qed.
Lemma targets_divs r : In r [2; 4; 11; 16; 20]%nat -> udivs_ok targets_store r targets_W.
Proof.
  intros Hr v l Hv E. apply targets_below in Hv; auto. simpl in Hv.
  repeat (destruct Hv as [<-|Hv]); try destruct Hv; cbv in E; try discriminate; injection E as <-; simpl; repeat split; auto.
Qed.
(** Derivatives with respect to x of 2, 4, 11, 16, 20, given by hand. *)
Definition dtable (l : list Z) : nat -> Z := fun v =>
  (match v with 2%nat => nth 0 l 0 | 4%nat => nth 1 l 0 | 11%nat => nth 2 l 0 | 16%nat => nth 3 l 0 | 20%nat => nth 4 l 0 | _ => 0 end).
Lemma targets_query r : In r [4; 11; 16; 20]%nat -> query_ok targets_store (fun _ => False) r.
Proof.
  intros Hr. apply tidy_query.
  - split; [exists (fun v => v); apply targets_dep|auto].
  - simpl in Hr. repeat (destruct Hr as [<-|Hr]); try destruct Hr; eexists; reflexivity.
Qed.
(** Reverse mode asked for expression x of root r gives y, the derivative is d. *)
Definition disagree (r x : nat) (y d : Z) (dt : list Z) : Prop :=
  uderivs targets_store r targets_W x (dtable dt) /\ dtable dt r = d /\
  option_map (fun p => option_map fst (step 0 (CGrad r [x]) (snd p))) (exec 0 (line targets) heap0) = Some (Some (ONums [y])).
Ltac disagree_tac := split; [intros v Hv; apply targets_below in Hv; [|simpl; auto 10]; simpl in Hv;
    repeat (destruct Hv as [<-|Hv]); try destruct Hv; reflexivity|split; [reflexivity|vm_compute; reflexivity]].
Lemma root_target : disagree 11 11 0 1 [0; 0; 1; 0; 0].
Proof. disagree_tac. Qed.
Lemma self_target : disagree 11 4 8 2 [0; 1; 2; 0; 0].
Proof. disagree_tac. Qed.
Lemma copy_target : disagree 20 16 0 1 [0; 0; 0; 1; 1].
Proof. disagree_tac. Qed.
Lemma target_refutes r x y d dt : In r [4; 11; 16; 20]%nat -> In x [4; 11; 16; 20]%nat -> disagree r x y d dt -> y <> d ->
  exists h st tc W D h', reached (T := Z) h st tc /\ query_ok st tc r /\ is_exp st x /\ uvalues st r W /\ udivs_ok st r W /\
    uderivs st r W x D /\ step 0 (CGrad r [x]) h = Some (ONums [y], h') /\ y <> D r.
Proof.
  intros Hr Hx (HD & Hd & E) Hne. destruct targets_reached as (h & Er & R). rewrite Er in E. cbn [option_map snd] in E.
  destruct (step 0 (CGrad r [x]) h) as [[o h']|] eqn:Es; [|discriminate]. cbn in E. injection E as ->.
  assert (Hr' : In r [2; 4; 11; 16; 20]%nat) by (right; exact Hr).
  exists h, targets_store, (fun _ => False), targets_W, (dtable dt), h'.
  split; auto. split; [now apply targets_query|]. split.
  { simpl in Hx. repeat (destruct Hx as [<-|Hx]); try destruct Hx; eexists; reflexivity. }
  split; [now apply targets_values|]. split; [now apply targets_divs|]. split; auto. split; auto. congruence.
Qed.
