(** * More fuel does not change the outcome of a call *)
From Coq Require Import List Arith Bool Lia.
From Verif Require Import Num MatMem Kernels KernelFacts KernelProofs KernelBlocks Registry KernelStep Backend Slots Exec MatEngine MatSpec MatCalls.
Import ListNotations.
Set Implicit Arguments.
Unset Strict Implicit.

Section Fuel.
Context {T : Type} {N : Num T}.
Variable S : sched T.
Variable B : backend (T := T).
Variable G : graph T.
Variable rho : env T.

(** c' does what c does, unless c runs out of fuel. *)
Definition more {A} (c c' : E (T := T) A) : Prop := forall s, c s = ENoFuel \/ c s = c' s.
Lemma more_refl A (c : E (T := T) A) : more c c.
Proof. intros s. now right. Qed.
Lemma more_bind A C (c c' : E (T := T) A) (k k' : A -> E C) : more c c' -> (forall a, more (k a) (k' a)) -> more (ebind c k) (ebind c' k').
Proof.
  intros H Hk s. unfold ebind. destruct (H s) as [->| <-]; [now left|]. destruct (c s) as [[a s']| | |]; auto. apply Hk.
Qed.
Lemma more_trans A (c c' c2 : E (T := T) A) : more c c' -> more c' c2 -> more c c2.
Proof. intros H H' s. destruct (H s) as [E|E]; [now left|]. rewrite E. destruct (H' s) as [E'|E']; [left; congruence|now right]. Qed.
Ltac mono := repeat first [apply more_refl | apply more_bind; [|intros ?]].

Lemma eval_more n : forall e, more (eval S B G rho n e) (eval S B G rho (Datatypes.S n) e).
Proof.
  induction n as [|n IH]; intros e; [intros s; now left|].
  destruct e as [o|k id l r|k id a].
  - cbn [eval]. destruct (g_kind G o); try apply more_refl. apply more_bind; [apply more_refl|intros f].
    apply more_bind; [|intros _; apply more_refl]. destruct (f_vis f); [apply more_refl|].
    apply more_bind; [apply more_refl|intros _]. apply more_bind; [apply IH|intros p; apply more_refl].
  - change (more (eval S B G rho (Datatypes.S n) (MBin k id l r)) (eval S B G rho (Datatypes.S (Datatypes.S n)) (MBin k id l r))).
    cbn [eval]. apply more_bind; [apply more_refl|intros _]. apply more_bind; [apply IH|intros p]. apply more_bind; [apply IH|intros q]. apply more_refl.
  - change (more (eval S B G rho (Datatypes.S n) (MUn k id a)) (eval S B G rho (Datatypes.S (Datatypes.S n)) (MUn k id a))).
    cbn [eval]. apply more_bind; [apply more_refl|intros _]. apply more_bind; [apply IH|intros p]. apply more_refl.
Qed.
Lemma devalF_more x n : forall e, more (devalF S B G rho n x e) (devalF S B G rho (Datatypes.S n) x e).
Proof.
  induction n as [|n IH]; intros e; [intros s; now left|].
  destruct e as [o|k id l r|k id a].
  - cbn [devalF]. destruct (g_kind G o); try apply more_refl. apply more_bind; [apply more_refl|intros f].
    apply more_bind; [|intros _; apply more_refl]. destruct (f_vis f); [apply more_refl|].
    apply more_bind; [apply more_refl|intros _]. apply more_bind; [apply IH|intros dp]. apply more_bind; [apply more_refl|intros _].
    apply more_bind; [apply eval_more|intros p; apply more_refl].
  - change (more (devalF S B G rho (Datatypes.S n) x (MBin k id l r)) (devalF S B G rho (Datatypes.S (Datatypes.S n)) x (MBin k id l r))).
    cbn [devalF]. apply more_bind; [apply more_refl|intros _]. apply more_bind; [apply IH|intros p]. apply more_bind; [apply IH|intros q].
    destruct k; try apply more_refl; (apply more_bind; [apply eval_more|intros a]; apply more_bind; [apply eval_more|intros b]; apply more_refl).
  - change (more (devalF S B G rho (Datatypes.S n) x (MUn k id a)) (devalF S B G rho (Datatypes.S (Datatypes.S n)) x (MUn k id a))).
    destruct k; cbn [devalF]; try apply IH; try (apply more_bind; [apply more_refl|intros _]); (apply more_bind; [apply IH|intros p]); try apply more_refl;
      (apply more_bind; [apply eval_more|intros b]; apply more_refl).
Qed.
Lemma reset_more n : forall e, more (reset G n e) (reset G (Datatypes.S n) e).
Proof.
  induction n as [|n IH]; intros e; [intros s; now left|].
  destruct e as [o|k id l r|k id a].
  - cbn [reset]. apply more_bind; [apply more_refl|intros f]. destruct (f_vis f); [|apply more_refl].
    apply more_bind; [apply more_refl|intros _]. destruct (g_kind G o); try apply more_refl. apply IH.
  - change (more (reset G (Datatypes.S n) (MBin k id l r)) (reset G (Datatypes.S (Datatypes.S n)) (MBin k id l r))).
    cbn [reset]. apply more_bind; [apply IH|intros _]. apply IH.
  - change (more (reset G (Datatypes.S n) (MUn k id a)) (reset G (Datatypes.S (Datatypes.S n)) (MUn k id a))). cbn [reset]. apply IH.
Qed.
End Fuel.

Section Calls.
Context {T : Type} {N : Num T}.
Variable S : sched T.
Variable B : backend (T := T).
Variable G : graph T.
Lemma call_more n a : more (call S B G n a) (call S B G (Datatypes.S n) a).
Proof.
  destruct a; simpl; (apply more_bind; [apply reset_more|intros _]); [apply eval_more|apply devalF_more].
Qed.
Theorem call_fuel n f a s : n <= f -> call S B G n a s <> ENoFuel -> call S B G f a s = call S B G n a s.
Proof.
  intros H Hn. induction H as [|f H IH]; [reflexivity|]. rewrite <- IH. destruct (call_more f a s) as [E|E]; [|now symmetry].
  exfalso. apply Hn. now rewrite <- IH.
Qed.
End Calls.

(** Running concrete programs: the result of a call, and all entries of a returned matrix. *)
Definition outcome {T} {N : Num T} (S : sched T) B (G : graph T) (a : act T) (s : st (T := T)) : option (ptr * st (T := T)) :=
  match call S B G 20 a s with EOk r => Some r | _ => None end.
Definition entries {T} {N : Num T} (m : mem T) (p : ptr) : option (list T) := option_map (@o_buf T) (get m p).
Lemma outcome_returns {T} {N : Num T} (S : sched T) B (G : graph T) a s p s' : outcome S B G a s = Some (p, s') ->
  exists n, forall f, n <= f -> call S B G f a s = EOk (p, s').
Proof.
  unfold outcome. intros H. exists 20. intros f Hf.
  destruct (call S B G 20 a s) as [r| | |] eqn:E; try discriminate. injection H as ->.
  rewrite (call_fuel Hf) by congruence. exact E.
Qed.
