(** * C17, C19: copies of variables and parameters *)

From Coq Require Import List Arith Bool ZArith Lia.
From Verif Require Import Num NumInst ScalarModel VarObj VarObjSpec.
Import ListNotations.
Set Implicit Arguments.
Unset Strict Implicit.

Section Props.
Context {T : Type} {N : Num T}.

(** [c] makes the name z denote something else. *)
Definition rebinds (z : nat) (c : @cmd T) : Prop :=
  match c with
  | NewV x _ | CopyV x _ | AssignV x _ => x = z
  | MoveV x y | MoveAssignV x y => x = z \/ y = z
  | _ => False
  end.

(** x is made from y by a copy, or assigned y. *)
Definition from_copy (x y : nat) (c : @cmd T) : Prop := c = CopyV x y \/ c = AssignV x y.

(** t with x replaced by y. *)
Fixpoint rename (x y : nat) (t : @tree T) : tree :=
  match t with
  | TV z => TV (if Nat.eqb z x then y else z)
  | TP p => TP p
  | TU k t => TU k (rename x y t)
  | TB k l r => TB k (rename x y l) (rename x y r)
  end.

(** x and y are one variable in state s: a number assigned through one is read through
    the other, expressions cannot tell them apart, nor can derivatives. *)
Definition one_variable (x y : nat) (s : ostate) (n : names) : Prop :=
  (forall c, exists s' s'', ostep (SetV x c) s = Some (None, s') /\
                            ostep (EvalV y) s' = Some (Some c, s'')) /\
  (forall c, exists s' s'', ostep (SetV y c) s = Some (None, s') /\
                            ostep (EvalV x) s' = Some (Some c, s'')) /\
  (exists v s' s'', ostep (EvalV x) s = Some (Some v, s') /\
                    ostep (EvalV y) s = Some (Some v, s'')) /\
  (exists s', ostep (DevalV x y) s = Some (Some n1, s')) /\
  (forall t v, sval n t = Some v ->
     exists u s' s'', ostep (EvalE t) s = Some (Some u, s') /\
                      ostep (EvalE (rename x y t)) s = Some (Some u, s'')) /\
  (forall t v, sval n t = Some v ->
     exists d s' s'', ostep (DevalE t x) s = Some (Some d, s') /\
                      ostep (DevalE t y) s = Some (Some d, s'')).

Lemma sval_sder n y : forall t v, sval n t = Some v -> exists d, sder n y t = Some d.
Proof.
  induction t as [x|p|k t IH|k l IHl r IHr]; cbn; intros d E.
  - destruct (class_of (vcls n) x); [eauto|discriminate].
  - destruct (class_of (pcls n) p); [eauto|discriminate].
  - destruct (sval n t); [|discriminate]. destruct (IH _ eq_refl) as [? ->]. eauto.
  - destruct (sval n l); [|discriminate]. destruct (sval n r); [|discriminate].
    destruct (IHl _ eq_refl) as [? ->]. destruct (IHr _ eq_refl) as [? ->]. eauto.
Qed.

Lemma sval_rename n x y : class_of (vcls n) x = class_of (vcls n) y ->
  forall t, sval n (rename x y t) = sval n t.
Proof.
  intros E. induction t as [z|p|k t IH|k l IHl r IHr]; cbn; auto.
  - destruct (Nat.eqb_spec z x) as [->|]; [now rewrite E|auto].
  - now rewrite IH.
  - now rewrite IHl, IHr.
Qed.

Lemma one_class x y k s n f : R s n f ->
  class_of (vcls n) x = Some k -> class_of (vcls n) y = Some k -> one_variable x y s n.
Proof.
  intros H X Y.
  assert (S : forall a b c, class_of (vcls n) a = Some k -> class_of (vcls n) b = Some k ->
    exists s' s'', ostep (SetV a c) s = Some (None, s') /\ ostep (EvalV b) s' = Some (Some c, s'')).
  { intros a b c A B.
    assert (Q : sstep (SetV a c) n = Some (None, renumber k c n)) by (cbn; now rewrite A).
    destruct (sstep_ok H Q) as [s1 [f1 [-> H1]]].
    assert (Q' : sstep (EvalV b) (renumber k c n) = Some (Some c, renumber k c n)).
    { cbn [sstep renumber vcls number]. rewrite B. now rewrite set_eq. }
    destruct (sstep_ok H1 Q') as [s2 [f2 [E2 H2]]]. eauto. }
  assert (E : forall a, class_of (vcls n) a = Some k ->
    exists s', ostep (EvalV a) s = Some (Some (number n k), s')).
  { intros a A. assert (Q : sstep (EvalV a) n = Some (Some (number n k), n)) by (cbn; now rewrite A).
    destruct (sstep_ok H Q) as [s1 [f1 [E1 H1]]]. eauto. }
  split; [intros; apply S; auto|]. split; [intros; apply S; auto|]. split.
  { destruct (E x X) as [s1 E1], (E y Y) as [s2 E2]. eauto. }
  split.
  { assert (Q : sstep (DevalV x y) n = Some (Some n1, n)) by (cbn; now rewrite X, Y, Nat.eqb_refl).
    destruct (sstep_ok H Q) as [s1 [f1 [E1 H1]]]. eauto. }
  split.
  - intros t v V.
    assert (Q1 : sstep (EvalE t) n = Some (Some (nmul n1 v), n)) by (cbn; now rewrite V).
    assert (Q2 : sstep (EvalE (rename x y t)) n = Some (Some (nmul n1 v), n)).
    { cbn. rewrite sval_rename by congruence. now rewrite V. }
    destruct (sstep_ok H Q1) as [s1 [f1 [E1 H1]]]. destruct (sstep_ok H Q2) as [s2 [f2 [E2 H2]]]. eauto.
  - intros t v V. destruct (sval_sder k V) as [d D].
    assert (Q1 : sstep (DevalE t x) n = Some (Some (nmul n1 d), n)) by (cbn; now rewrite X, D).
    assert (Q2 : sstep (DevalE t y) n = Some (Some (nmul n1 d), n)) by (cbn; now rewrite Y, D).
    destruct (sstep_ok H Q1) as [s1 [f1 [E1 H1]]]. destruct (sstep_ok H Q2) as [s2 [f2 [E2 H2]]]. eauto.
Qed.

Lemma class_kept z c n a n' : sstep c n = Some (a, n') -> ~ rebinds z c ->
  class_of (vcls n') z = class_of (vcls n) z.
Proof.
  destruct c; cbn [sstep rebinds]; intros E D.
  1: injection E as _ <-; unfold class_of; cbn; now rewrite set_ne by congruence.
  all: repeat match type of E with (match ?q with _ => _ end) = _ => destruct q eqn:?; [|discriminate] end;
    injection E as _ <-; auto; unfold class_of; cbn; rewrite ?set_ne; auto; intuition.
Qed.

Lemma classes_kept z : forall l n as_ n', srun l n = Some (as_, n') ->
  Forall (fun c => ~ rebinds z c) l -> class_of (vcls n') z = class_of (vcls n) z.
Proof.
  induction l as [|c l IH]; cbn; intros n as_ n' E F.
  - now injection E as _ <-.
  - destruct (sstep c n) as [[a m]|] eqn:C; [|discriminate].
    destruct (srun l m) as [[bs m']|] eqn:D; [|discriminate]. injection E as _ <-.
    inversion F; subst. rewrite (IH _ _ _ D) by auto. eapply class_kept; eauto.
Qed.

Lemma srun_app l1 l2 n as_ n' : srun (l1 ++ l2) n = Some (as_, n') ->
  exists a1 m a2, srun l1 n = Some (a1, m) /\ srun l2 m = Some (a2, n') /\ as_ = a1 ++ a2.
Proof.
  revert n as_. induction l1 as [|c l IH]; cbn; intros n as_ E.
  - exists [], n, as_. auto.
  - destruct (sstep c n) as [[a m]|] eqn:C; [|discriminate].
    destruct (srun (l ++ l2) m) as [[bs m']|] eqn:D; [|discriminate]. injection E as <- <-.
    destruct (IH _ _ D) as [a1 [m1 [a2 [-> [E2 ->]]]]]. exists (a :: a1), m1, a2. auto.
Qed.

Lemma reach l as_ n : srun l nobody = Some (as_, n) ->
  exists s f, orun l start = Some (as_, s) /\ R s n f.
Proof. intros E. exact (run_ok R_start E). Qed.

(** The objects of the library behave like alias classes: whatever the program declares,
    copies, moves, assigns and evaluates, every answer is the one the class reading gives. *)
Theorem C17_objects_are_alias_classes l as_ n :
  srun l nobody = Some (as_, n) -> exists s, orun l start = Some (as_, s).
Proof. intros E. destruct (reach E) as [s [f [H _]]]. eauto. Qed.

(** A copy, or an assignment of one Variable to another, makes the two names one variable,
    and they stay so through any further program that does not rebind one of them. *)
Theorem C17_copies_alias l1 k l2 x y as_ n :
  srun (l1 ++ k :: l2) nobody = Some (as_, n) -> from_copy x y k ->
  Forall (fun c => ~ rebinds x c) l2 -> Forall (fun c => ~ rebinds y c) l2 ->
  exists s, orun (l1 ++ k :: l2) start = Some (as_, s) /\ one_variable x y s n.
Proof.
  intros E K Fx Fy. destruct (reach E) as [s [f [Q H]]]. exists s. split; auto.
  destruct (srun_app E) as [a1 [m [a2 [E1 [E2 _]]]]]. cbn in E2.
  destruct (sstep k m) as [[a m1]|] eqn:C; [|discriminate].
  destruct (srun l2 m1) as [[bs m2]|] eqn:D; [|discriminate]. injection E2 as _ ->.
  assert (exists c, class_of (vcls m1) x = Some c /\ class_of (vcls m1) y = Some c) as [c [X Y]].
  { destruct K as [-> | ->]; cbn in C.
    - destruct (class_of (vcls m) y) as [c|] eqn:Y; [|discriminate]. injection C as _ <-.
      exists c. unfold class_of in *. cbn. rewrite set_eq. split; auto.
      destruct (Nat.eq_dec y x) as [->|]; [now rewrite set_eq|now rewrite set_ne].
    - destruct (vcls m x); [|discriminate].
      destruct (class_of (vcls m) y) as [c|] eqn:Y; [|discriminate]. injection C as _ <-.
      exists c. unfold class_of in *. cbn. rewrite set_eq. split; auto.
      destruct (Nat.eq_dec y x) as [->|]; [now rewrite set_eq|now rewrite set_ne]. }
  apply one_class with (k := c) (f := f); auto.
  - rewrite (classes_kept D) by auto. exact X.
  - rewrite (classes_kept D) by auto. exact Y.
Qed.

(** Chains: names that reach one class by any route are one variable. *)
Theorem C17_chains_alias l as_ n x y k :
  srun l nobody = Some (as_, n) ->
  class_of (vcls n) x = Some k -> class_of (vcls n) y = Some k ->
  exists s, orun l start = Some (as_, s) /\ one_variable x y s n.
Proof.
  intros E X Y. destruct (reach E) as [s [f [Q H]]]. exists s. split; auto.
  eapply one_class; eauto.
Qed.

(** Names in different classes do not interfere. *)
Theorem C17_others_do_not_interfere l as_ n x y i j c :
  srun l nobody = Some (as_, n) ->
  class_of (vcls n) x = Some i -> class_of (vcls n) y = Some j -> i <> j ->
  exists s v s1 s2 s3, orun l start = Some (as_, s) /\
    ostep (EvalV y) s = Some (Some v, s1) /\ ostep (SetV x c) s = Some (None, s2) /\
    ostep (EvalV y) s2 = Some (Some v, s3) /\ ostep (DevalV x y) s = Some (Some n0, s).
Proof.
  intros E X Y D. destruct (reach E) as [s [f [Q H]]].
  assert (Q1 : sstep (EvalV y) n = Some (Some (number n j), n)) by (cbn; now rewrite Y).
  assert (Q2 : sstep (SetV x c) n = Some (None, renumber i c n)) by (cbn; now rewrite X).
  assert (Q3 : sstep (EvalV y) (renumber i c n) = Some (Some (number n j), renumber i c n)).
  { cbn. rewrite Y. now rewrite set_ne by congruence. }
  assert (Q4 : sstep (DevalV x y) n = Some (Some n0, n)).
  { cbn. rewrite X, Y. now rewrite (proj2 (Nat.eqb_neq i j) D). }
  destruct (sstep_ok H Q1) as [s1 [f1 [E1 H1]]]. destruct (sstep_ok H Q2) as [s2 [f2 [E2 H2]]].
  destruct (sstep_ok H2 Q3) as [s3 [f3 [E3 H3]]]. destruct (sstep_ok H Q4) as [s4 [f4 [E4 H4]]].
  exists s, (number n j), s1, s2, s3. do 4 (split; auto).
  rewrite E4. cbn in E4. destruct (vars s x), (vars s y); try discriminate. now injection E4 as _ <-.
Qed.

(** ** Parameters *)

(** p = q leaves p with its own value, whatever the history. *)
Theorem C19_parameter_assignment_keeps_the_old_value l as_ n p q i j :
  srun l nobody = Some (as_, n) ->
  class_of (pcls n) p = Some i -> class_of (pcls n) q = Some j ->
  exists s v s1 s2 s3, orun l start = Some (as_, s) /\
    ostep (EvalE (TP p)) s = Some (Some v, s1) /\ ostep (AssignP p q) s = Some (None, s2) /\
    ostep (EvalE (TP p)) s2 = Some (Some v, s3).
Proof.
  intros E P Q. destruct (reach E) as [s [f [O H]]].
  assert (Q1 : sstep (EvalE (TP p)) n = Some (Some (nmul n1 (number n i)), n)).
  { cbn. now rewrite P. }
  assert (Q2 : sstep (AssignP p q) n = Some (None, n)) by (cbn; now rewrite P, Q).
  destruct (sstep_ok H Q1) as [s1 [f1 [E1 H1]]]. destruct (sstep_ok H Q2) as [s2 [f2 [E2 H2]]].
  destruct (sstep_ok H2 Q1) as [s3 [f3 [E3 H3]]]. exists s, (nmul n1 (number n i)), s1, s2, s3. auto.
Qed.

(** What does work: a copy-constructed parameter, and assignment of a number. *)
Theorem C19_copy_constructed_parameters_alias l as_ n p q j :
  srun l nobody = Some (as_, n) -> class_of (pcls n) q = Some j ->
  exists s s1, orun l start = Some (as_, s) /\ ostep (CopyP p q) s = Some (None, s1) /\
    (forall c a b, (a = p \/ a = q) -> (b = p \/ b = q) ->
       exists s2 s3, ostep (SetP a c) s1 = Some (None, s2) /\
                     ostep (EvalE (TP b)) s2 = Some (Some (nmul n1 c), s3)).
Proof.
  intros E Q. destruct (reach E) as [s [f [O H]]].
  assert (Q2 : sstep (CopyP p q) n = Some (None, pjoin p j n)) by (cbn; now rewrite Q).
  destruct (sstep_ok H Q2) as [s1 [f1 [E1 H1]]]. exists s, s1. split; auto. split; auto.
  assert (C : forall a, a = p \/ a = q -> class_of (pcls (pjoin p j n)) a = Some j).
  { intros a A. unfold class_of, pjoin in *. cbn. destruct (Nat.eq_dec a p) as [->|D].
    - now rewrite set_eq.
    - rewrite set_ne by auto. destruct A as [->| ->]; [congruence|exact Q]. }
  intros c a b A B.
  assert (Q3 : sstep (SetP a c) (pjoin p j n) = Some (None, renumber j c (pjoin p j n))).
  { cbn [sstep]. now rewrite (C a A). }
  destruct (sstep_ok H1 Q3) as [s2 [f2 [E2 H2]]].
  assert (Q4 : sstep (EvalE (TP b)) (renumber j c (pjoin p j n)) =
               Some (Some (nmul n1 c), renumber j c (pjoin p j n))).
  { cbn [sstep sval]. change (pcls (renumber j c (pjoin p j n))) with (pcls (pjoin p j n)).
    rewrite (C b B). cbn. now rewrite set_eq. }
  destruct (sstep_ok H2 Q4) as [s3 [f3 [E3 H3]]]. eauto.
Qed.

End Props.

(** ** The hypotheses are met, and the failing expectation fails *)

Definition story : list (@cmd Z) :=
  [ NewV 0 2%Z; CopyV 1 0; NewV 2 7%Z; EvalE (TB BProd (TV 0) (TV 1)); AssignV 2 1;
    SetV 1 5%Z; EvalV 0; DevalE (TB BProd (TV 0) (TB BProd (TV 1) (TV 2))) 2 ]%Z.

(** x = 2; y copies x; z = 7; x*y = 4; z = y; y = 5; then x reads 5 and
    d(x*y*z)/dz = 3*25. *)
Example C17_nonvacuous : exists n, srun story nobody =
  Some ([None; None; None; Some 4%Z; None; None; Some 5%Z; Some 75%Z], n) /\
  class_of (vcls n) 0 = Some 0 /\ class_of (vcls n) 2 = Some 0.
Proof. vm_compute. eexists. split; [reflexivity|]. split; reflexivity. Qed.

Definition pstory : list (@cmd Z) := [ NewP 0 1%Z; NewP 1 2%Z; AssignP 0 1 ].

Theorem C19_parameter_assignment_refuted :
  ~ (forall (l : list (@cmd Z)) as_ s p q v s',
       orun (l ++ [AssignP p q]) start = Some (as_, s) ->
       ostep (EvalE (TP q)) s = Some (Some v, s') ->
       exists s'', ostep (EvalE (TP p)) s = Some (Some v, s'')).
Proof.
  intros H. destruct (orun pstory start) as [[as_ s]|] eqn:E; [|vm_compute in E; discriminate].
  assert (Q : exists s', ostep (EvalE (TP 1)) s = Some (Some 2%Z, s')).
  { vm_compute in E. injection E as _ <-. vm_compute. eexists. reflexivity. }
  destruct Q as [s' Q]. destruct (H [NewP 0 1%Z; NewP 1 2%Z] as_ s 0 1 2%Z s' E Q) as [s'' B].
  vm_compute in E. injection E as _ <-. vm_compute in B. discriminate.
Qed.

Example C19_nonvacuous : exists a n, srun [NewP 0 1%Z; NewP 1 2%Z] nobody = Some (a, n) /\
  class_of (pcls n) 0 = Some 0 /\ class_of (pcls n) 1 = Some 1.
Proof. vm_compute. do 2 eexists. split; [reflexivity|]. split; reflexivity. Qed.

Print Assumptions C17_objects_are_alias_classes.
Print Assumptions C17_copies_alias.
Print Assumptions C17_chains_alias.
Print Assumptions C17_others_do_not_interfere.
Print Assumptions C19_parameter_assignment_keeps_the_old_value.
Print Assumptions C19_copy_constructed_parameters_alias.
Print Assumptions C19_parameter_assignment_refuted.
