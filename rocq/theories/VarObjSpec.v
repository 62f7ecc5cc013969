(** * What copying variables and parameters should mean

    A specification with aliases instead of objects: every name stands for a *class* of
    names that share one number. *)

From Coq Require Import List Arith Bool Lia.
From Verif Require Import Num ScalarModel VarObj.
Import ListNotations.
Open Scope num_scope.
Set Implicit Arguments.
Unset Strict Implicit.

Section Spec.
Context {T : Type} {N : Num T}.

(** [None]: not declared; [Some None]: moved from; [Some (Some k)]: in class k. *)
Record names : Type := mkN {
  vcls : nat -> option (option nat);
  pcls : nat -> option (option nat);
  number : nat -> T;
  classes : nat
}.

Definition class_of (m : nat -> option (option nat)) (x : nat) : option nat :=
  do o <- m x; o.

(** A new name in a class of its own. *)
Definition own_class (x : nat) (c : T) (n : names) : names :=
  mkN (set (vcls n) x (Some (Some (classes n)))) (pcls n) (set (number n) (classes n) c)
      (Datatypes.S (classes n)).
Definition own_pclass (x : nat) (c : T) (n : names) : names :=
  mkN (vcls n) (set (pcls n) x (Some (Some (classes n)))) (set (number n) (classes n) c)
      (Datatypes.S (classes n)).
Definition join (x k : nat) (n : names) : names :=
  mkN (set (vcls n) x (Some (Some k))) (pcls n) (number n) (classes n).
Definition pjoin (x k : nat) (n : names) : names :=
  mkN (vcls n) (set (pcls n) x (Some (Some k))) (number n) (classes n).
Definition leave (x : nat) (n : names) : names :=
  mkN (set (vcls n) x (Some None)) (pcls n) (number n) (classes n).
Definition pleave (x : nat) (n : names) : names :=
  mkN (vcls n) (set (pcls n) x (Some None)) (number n) (classes n).
Definition renumber (k : nat) (c : T) (n : names) : names :=
  mkN (vcls n) (pcls n) (set (number n) k c) (classes n).

(** The value of an expression, and its derivative with respect to the class k. *)
Fixpoint sval (n : names) (t : tree) : option T :=
  match t with
  | TV x => do k <- class_of (vcls n) x; Some (number n k)
  | TP p => do k <- class_of (pcls n) p; Some (number n k)
  | TU k t => do v <- sval n t; Some (uval k v)
  | TB k l r => do u <- sval n l; do v <- sval n r; Some (bval k u v)
  end.

Fixpoint sder (n : names) (y : nat) (t : tree) : option T :=
  match t with
  | TV x => do k <- class_of (vcls n) x; Some (if Nat.eqb k y then n1 else n0)
  | TP p => do _ <- class_of (pcls n) p; Some n0
  | TU k t => do d <- sder n y t; do v <- sval n t; Some (ufwd k v d)
  | TB k l r => do du <- sder n y l; do dv <- sder n y r;
                do u <- sval n l; do v <- sval n r; Some (bfwd k u v du dv)
  end.

(** One command.  [None]: the program dereferences a null pointer or uses an undeclared
    name, nothing is claimed. *)
Definition sstep (c : cmd) (n : names) : option (option T * names) :=
  match c with
  | NewV x c => Some (None, own_class x c n)
  | CopyV x y => do k <- class_of (vcls n) y; Some (None, join x k n)
  | MoveV x y => do k <- class_of (vcls n) y; Some (None, join x k (leave y n))
  | AssignV x y => do _ <- vcls n x; do k <- class_of (vcls n) y; Some (None, join x k n)
  | MoveAssignV x y =>
      do _ <- vcls n x; do k <- class_of (vcls n) y; Some (None, join x k (leave y n))
  | SetV x c => do k <- class_of (vcls n) x; Some (None, renumber k c n)
  | NewP p c => Some (None, own_pclass p c n)
  | CopyP p q => do k <- class_of (pcls n) q; Some (None, pjoin p k n)
  | AssignP p q => do _ <- class_of (pcls n) p; do _ <- class_of (pcls n) q; Some (None, n)
  | MoveAssignP p q =>
      do _ <- class_of (pcls n) p; do _ <- class_of (pcls n) q; Some (None, pleave q n)
  | SetP p c => do k <- class_of (pcls n) p; Some (None, renumber k c n)
  | EvalV x => do k <- class_of (vcls n) x; Some (Some (number n k), n)
  | EvalE t => do v <- sval n t; Some (Some (n1 * v), n)
  | DevalE t y => do k <- class_of (vcls n) y; do d <- sder n k t; Some (Some (n1 * d), n)
  | DevalV x y => do i <- class_of (vcls n) x; do j <- class_of (vcls n) y;
                  Some (Some (if Nat.eqb i j then n1 else n0), n)
  end.

Fixpoint srun (l : list cmd) (n : names) : option (list (option T) * names) :=
  match l with
  | [] => Some ([], n)
  | c :: l => do (a, n1) <- sstep c n; do (as_, n2) <- srun l n1; Some (a :: as_, n2)
  end.

Definition nobody : names := mkN (fun _ => None) (fun _ => None) (fun _ => n0) 0.

(** ** The objects implement the classes *)

Definition live (f : nat -> nat) (r : nat) (o : vobj) : Prop :=
  o_wrap o = Some r /\ o_base o = Some r /\ o_idx o = Some (f r).

Record R (s : ostate) (n : names) (f : nat -> nat) : Prop := {
  r_v : forall x, match vcls n x with
                  | None => vars s x = None
                  | Some None => exists o, vars s x = Some o /\ o_wrap o = None
                  | Some (Some k) => k < cells s /\ exists o, vars s x = Some o /\ live f k o
                  end;
  r_p : forall p k, class_of (pcls n) p = Some k ->
          k < cells s /\ exists q h o, pars s p = Some q /\ p_tmp q = Some h /\ h < nhid s /\
            hids s h = Some o /\ live f k o;
  r_num : forall k, k < cells s -> basec s k = number n k /\ wrapc s k = (number n k, n0);
  r_cells : classes n = cells s;
  r_inj : forall i j, i < cells s -> j < cells s -> f i = f j -> i = j;
  r_lt : forall i, i < cells s -> f i < count s
}.

Lemma set_eq {A} (f : nat -> A) k x : set f k x k = x.
Proof. unfold set. now rewrite Nat.eqb_refl. Qed.
Lemma set_ne {A} (f : nat -> A) k x j : j <> k -> set f k x j = f j.
Proof. intros. unfold set. now rewrite (proj2 (Nat.eqb_neq _ _) H). Qed.

Lemma R_v_live s n f x k : R s n f -> class_of (vcls n) x = Some k ->
  k < cells s /\ exists o, vars s x = Some o /\ live f k o.
Proof.
  intros H E. unfold class_of in E. generalize (r_v H x).
  destruct (vcls n x) as [[j|]|]; try discriminate. injection E as ->. auto.
Qed.

Lemma R_same s n f x o o' :
  R s n f -> vars s x = Some o -> o_wrap o' = o_wrap o -> o_base o' = o_base o ->
  o_idx o' = o_idx o -> R (put_var x (Some o') s) n f.
Proof.
  intros H E W B I. destruct H as [v p m c j l]. constructor; cbn; auto.
  intros y. destruct (Nat.eq_dec y x) as [->|D].
  - rewrite set_eq. generalize (v x). rewrite E. destruct (vcls n x) as [[k|]|]; [|..|discriminate].
    + intros [L [o1 [E1 [A1 [A2 A3]]]]]. injection E1 as <-. split; auto. exists o'. split; auto.
      split; [congruence|split; congruence].
    + intros [o1 [E1 A]]. injection E1 as <-. exists o'. split; auto. congruence.
  - rewrite set_ne by auto. apply v.
Qed.

Lemma R_same_hid s n f x o o' :
  R s n f -> hids s x = Some o -> o_wrap o' = o_wrap o -> o_base o' = o_base o ->
  o_idx o' = o_idx o -> R (put_hid x (Some o') s) n f.
Proof.
  intros H E W B I. destruct H as [v p m c j l]. constructor; cbn; auto.
  intros y k Y. destruct (p y k Y) as [L [q [h [o1 [E1 [E2 [E3 [E4 [A1 [A2 A3]]]]]]]]]].
  split; auto. exists q, h. destruct (Nat.eq_dec h x) as [->|D].
  - rewrite set_eq. exists o'. rewrite E in E4. injection E4 as <-. 
    split; auto. split; auto. split; auto. split; auto. split; [congruence|split; congruence].
  - rewrite set_ne by auto. exists o1. do 4 (split; auto). split; auto.
Qed.

Lemma R_wrap s n f k : R s n f -> k < cells s -> R (put_wrap k (number n k, n0) s) n f.
Proof.
  intros H K. destruct H as [v p m c j l]. constructor; cbn; auto.
  intros i L. destruct (m i L) as [A B]. split; auto.
  destruct (Nat.eq_dec i k) as [->|D]; [apply set_eq|rewrite set_ne by auto; exact B].
Qed.

(** After reset, eval and devalF of any expression the objects still implement the same
    classes; the results are those of the specification. *)
Lemma treset_ok : forall t s n f v, R s n f -> sval n t = Some v ->
  exists s', treset t s = Some s' /\ R s' n f.
Proof.
  induction t as [x|p|k t IH|k l IHl r IHr]; cbn; intros s n f v H E.
  - destruct (class_of (vcls n) x) as [i|] eqn:C; [|discriminate].
    destruct (R_v_live H C) as [L [o [O [A1 [A2 A3]]]]]. rewrite O. unfold reset_obj.
    rewrite A1, A2. eexists. split; [reflexivity|].
    destruct (r_num H L) as [B1 B2]. rewrite B1.
    eapply R_same with (o := o); cbn; auto. now apply R_wrap.
  - destruct (class_of (pcls n) p) as [i|] eqn:C; [|discriminate].
    destruct (r_p H C) as [L [q [h [o [E1 [E2 [E3 [E4 [A1 [A2 A3]]]]]]]]]].
    rewrite E1, E2, E4. unfold reset_obj. rewrite A1, A2. eexists. split; [reflexivity|].
    destruct (r_num H L) as [B1 B2]. rewrite B1.
    eapply R_same_hid with (o := o); cbn; auto. now apply R_wrap.
  - destruct (sval n t) eqn:V; [|discriminate]. eauto.
  - destruct (sval n l) eqn:V; [|discriminate]. destruct (sval n r) eqn:W; [|discriminate].
    destruct (IHl s n f _ H V) as [s1 [-> H1]]. eauto.
Qed.

Lemma teval_ok : forall t s n f v, R s n f -> sval n t = Some v ->
  exists s', teval t s = Some (v, s') /\ R s' n f.
Proof.
  induction t as [x|p|k t IH|k l IHl r IHr]; cbn; intros s n f v H E.
  - destruct (class_of (vcls n) x) as [i|] eqn:C; [|discriminate]. injection E as <-.
    destruct (R_v_live H C) as [L [o [O [A1 [A2 A3]]]]]. rewrite O. unfold eval_obj.
    rewrite A1, A2. destruct (r_num H L) as [B1 B2]. destruct (o_vis o).
    + rewrite B2. eexists. split; [reflexivity|]. eapply R_same; eauto.
    + cbn. rewrite set_eq, B1, B2. cbn. eexists. split; [reflexivity|].
      eapply R_same with (o := o); cbn; auto. now apply R_wrap.
  - destruct (class_of (pcls n) p) as [i|] eqn:C; [|discriminate]. injection E as <-.
    destruct (r_p H C) as [L [q [h [o [E1 [E2 [E3 [E4 [A1 [A2 A3]]]]]]]]]].
    rewrite E1, E2, E4, A1. destruct (r_num H L) as [B1 B2]. rewrite B2. eauto.
  - destruct (sval n t) eqn:V; [|discriminate]. injection E as <-.
    destruct (IH s n f _ H V) as [s1 [-> H1]]. eauto.
  - destruct (sval n l) eqn:V; [|discriminate]. destruct (sval n r) eqn:W; [|discriminate].
    injection E as <-. destruct (b_right_first_eval k).
    + destruct (IHr s n f _ H W) as [s1 [-> H1]]. destruct (IHl s1 n f _ H1 V) as [s2 [-> H2]]. eauto.
    + destruct (IHl s n f _ H V) as [s1 [-> H1]]. destruct (IHr s1 n f _ H1 W) as [s2 [-> H2]]. eauto.
Qed.

Lemma tdev_ok : forall t s n f y oy v, R s n f -> y < cells s -> o_idx oy = Some (f y) ->
  sder n y t = Some v -> exists s', tdev oy t s = Some (v, s') /\ R s' n f /\ cells s' = cells s.
Proof.
  assert (CE : forall t s v s', teval t s = Some (v, s') -> cells s' = cells s).
  { induction t as [x|p|k t IH|k l IHl r IHr]; cbn; intros s v s' E.
    - destruct (vars s x) as [o|]; [|discriminate]. unfold eval_obj in E.
      destruct (o_base o), (o_wrap o); try discriminate. destruct (o_vis o); now injection E as _ <-.
    - destruct (pars s p) as [q|]; [|discriminate]. destruct (p_tmp q) as [h|]; [|discriminate].
      destruct (hids s h) as [o|]; [|discriminate]. destruct (o_wrap o); [|discriminate].
      now injection E as _ <-.
    - destruct (teval t s) as [[u s1]|] eqn:Q; [|discriminate]. injection E as _ <-. eauto.
    - destruct (b_right_first_eval k).
      + destruct (teval r s) as [[u s1]|] eqn:Q; [|discriminate].
        destruct (teval l s1) as [[u2 s2]|] eqn:Q2; [|discriminate]. injection E as _ <-.
        rewrite (IHl _ _ _ Q2). eauto.
      + destruct (teval l s) as [[u s1]|] eqn:Q; [|discriminate].
        destruct (teval r s1) as [[u2 s2]|] eqn:Q2; [|discriminate]. injection E as _ <-.
        rewrite (IHr _ _ _ Q2). eauto. }
  induction t as [x|p|k t IH|k l IHl r IHr]; cbn; intros s n f y oy v H Y OY E.
  - destruct (class_of (vcls n) x) as [i|] eqn:C; [|discriminate]. injection E as <-.
    destruct (R_v_live H C) as [L [o [O [A1 [A2 A3]]]]]. rewrite O. unfold dev_obj.
    rewrite A1, A3, OY. destruct (r_num H L) as [B1 B2]. rewrite B2. cbn.
    replace (Nat.eqb (f i) (f y)) with (Nat.eqb i y).
    + eexists. split; [reflexivity|]. split; [|reflexivity]. eapply R_same; eauto.
    + destruct (Nat.eqb_spec i y) as [->|D]; [now rewrite Nat.eqb_refl|].
      symmetry. apply Nat.eqb_neq. intros F. apply D. apply (r_inj H); auto.
  - destruct (class_of (pcls n) p); [|discriminate]. injection E as <-. eauto.
  - destruct (sder n y t) eqn:D; [|discriminate]. destruct (sval n t) eqn:V; [|discriminate].
    injection E as <-. destruct (IH s n f y oy _ H Y OY D) as [s1 [-> [H1 C1]]].
    destruct (teval_ok H1 V) as [s2 [Q H2]]. rewrite Q. eexists. split; [reflexivity|].
    split; auto. rewrite (CE _ _ _ _ Q). exact C1.
  - destruct (sder n y l) eqn:D1; [|discriminate]. destruct (sder n y r) eqn:D2; [|discriminate].
    destruct (sval n l) eqn:V1; [|discriminate]. destruct (sval n r) eqn:V2; [|discriminate].
    injection E as <-. destruct (IHl s n f y oy _ H Y OY D1) as [s1 [-> [H1 C1]]].
    rewrite <- C1 in Y. destruct (IHr s1 n f y oy _ H1 Y OY D2) as [s2 [-> [H2 C2]]].
    destruct (teval_ok H2 V2) as [s3 [Q3 H3]]. rewrite Q3.
    destruct (teval_ok H3 V1) as [s4 [Q4 H4]]. rewrite Q4.
    eexists. split; [reflexivity|]. split; auto.
    rewrite (CE _ _ _ _ Q4), (CE _ _ _ _ Q3). congruence.
Qed.

Lemma sder_sval n y : forall t d, sder n y t = Some d -> exists v, sval n t = Some v.
Proof.
  induction t as [x|p|k t IH|k l IHl r IHr]; cbn; intros d E.
  - destruct (class_of (vcls n) x); [eauto|discriminate].
  - destruct (class_of (pcls n) p); [eauto|discriminate].
  - destruct (sder n y t); [|discriminate]. destruct (sval n t); [eauto|discriminate].
  - destruct (sder n y l); [|discriminate]. destruct (sder n y r); [|discriminate].
    destruct (sval n l); [|discriminate]. destruct (sval n r); [eauto|discriminate].
Qed.

Lemma join_ok s n f x k o : R s n f -> k < cells s -> live f k o ->
  R (put_var x (Some o) s) (join x k n) f.
Proof.
  intros H K V. destruct H as [v p m c j l]. constructor; cbn; auto.
  intros y. destruct (Nat.eq_dec y x) as [->|D].
  - rewrite !set_eq. split; auto. exists o; auto.
  - rewrite !set_ne by auto. apply v.
Qed.

Lemma leave_ok s n f x o : R s n f -> o_wrap o = None ->
  R (put_var x (Some o) s) (leave x n) f.
Proof.
  intros H V. destruct H as [v p m c j l]. constructor; cbn; auto.
  intros y. destruct (Nat.eq_dec y x) as [->|D].
  - rewrite !set_eq. exists o; auto.
  - rewrite !set_ne by auto. apply v.
Qed.

Lemma renumber_ok s n f k o c : R s n f -> k < cells s -> live f k o ->
  exists s', store o c s = Some s' /\ R s' (renumber k c n) f.
Proof.
  intros H K [A1 [A2 A3]]. unfold store. rewrite A1, A2. eexists. split; [reflexivity|].
  destruct H as [v p m w j l]. constructor; cbn; auto.
  intros i L. destruct (m i L) as [B1 B2]. destruct (Nat.eq_dec i k) as [->|D].
  - rewrite !set_eq. auto.
  - rewrite !set_ne by auto. auto.
Qed.

Lemma fresh_ok s n f x c : R s n f ->
  exists s' f', new_var x c s = Some s' /\ R s' (own_class x c n) f'.
Proof.
  intros H. unfold new_var, fresh_obj, store. cbn. eexists.
  exists (fun i => if Nat.eqb i (cells s) then count s else f i). split; [reflexivity|].
  destruct H as [v p m w j l]. constructor; cbn.
  - intros y. rewrite w. destruct (Nat.eq_dec y x) as [->|D].
    + rewrite !set_eq. split; [lia|]. eexists. split; [reflexivity|].
      split; [reflexivity|split; [reflexivity|]]. cbn. now rewrite Nat.eqb_refl.
    + rewrite !set_ne by auto. generalize (v y). destruct (vcls n y) as [[k|]|]; auto.
      intros [L [o [O [A1 [A2 A3]]]]]. split; [lia|]. exists o. split; auto. split; auto. split; auto.
      rewrite (proj2 (Nat.eqb_neq k (cells s))); [auto|lia].
  - intros q k Q. destruct (p q k Q) as [L [a [h [o [E1 [E2 [E3 [E4 [A1 [A2 A3]]]]]]]]]].
    split; [lia|]. exists a, h, o. do 4 (split; auto). split; auto. split; auto.
    rewrite (proj2 (Nat.eqb_neq k (cells s))); [auto|lia].
  - intros k L. rewrite w. destruct (Nat.eq_dec k (cells s)) as [->|D].
    + rewrite !set_eq. auto.
    + rewrite !set_ne by auto. apply m. lia.
  - now rewrite w.
  - intros a b A B. destruct (Nat.eqb_spec a (cells s)), (Nat.eqb_spec b (cells s)); subst; auto.
    + intros F. assert (f b < count s) by (apply l; lia). lia.
    + intros F. assert (f a < count s) by (apply l; lia). lia.
    + apply j; lia.
  - intros i I. destruct (Nat.eqb_spec i (cells s)); [lia|]. assert (f i < count s) by (apply l; lia). lia.
Qed.

Lemma fresh_par_ok s n f x c : R s n f ->
  exists s' f', new_par x c s = Some s' /\ R s' (own_pclass x c n) f'.
Proof.
  intros H. unfold new_par, fresh_obj, store. cbn. eexists.
  exists (fun i => if Nat.eqb i (cells s) then Datatypes.S (count s) else f i).
  split; [reflexivity|].
  destruct H as [v p m w j l]. constructor; cbn.
  - intros y. generalize (v y). destruct (vcls n y) as [[k|]|]; auto.
    intros [L [o [O [A1 [A2 A3]]]]]. split; [lia|]. exists o. split; auto. split; auto. split; auto.
    rewrite (proj2 (Nat.eqb_neq k (cells s))); [auto|lia].
  - intros q k. unfold class_of; cbn. destruct (Nat.eq_dec q x) as [->|D].
    + rewrite !set_eq. intros Q. injection Q as <-. rewrite w. split; [lia|]. do 3 eexists.
      split; [reflexivity|]. split; [reflexivity|]. split; [cbn; lia|]. cbn. rewrite !set_eq.
      split; [reflexivity|]. split; [reflexivity|]. split; [reflexivity|]. cbn. now rewrite Nat.eqb_refl.
    + rewrite !set_ne by auto. intros Q.
      destruct (p q k Q) as [L [a [h [o [E1 [E2 [E3 [E4 [A1 [A2 A3]]]]]]]]]].
      split; [lia|]. exists a, h, o. split; auto. split; auto. split; [lia|].
      rewrite set_ne by lia. split; auto. split; auto. split; auto.
      rewrite (proj2 (Nat.eqb_neq k (cells s))); [auto|lia].
  - intros k L. rewrite w. destruct (Nat.eq_dec k (cells s)) as [->|D].
    + rewrite !set_eq. auto.
    + rewrite !set_ne by auto. apply m. lia.
  - now rewrite w.
  - intros a b A B. destruct (Nat.eqb_spec a (cells s)), (Nat.eqb_spec b (cells s)); subst; auto.
    + intros F. assert (f b < count s) by (apply l; lia). lia.
    + intros F. assert (f a < count s) by (apply l; lia). lia.
    + apply j; lia.
  - intros i I. destruct (Nat.eqb_spec i (cells s)); [lia|]. assert (f i < count s) by (apply l; lia). lia.
Qed.

(** Replacing a parameter object by one with the same hidden variable. *)
Lemma par_same s n f p o o' : R s n f -> pars s p = Some o -> p_tmp o' = p_tmp o ->
  R (put_par p (Some o') s) n f.
Proof.
  intros H E W. destruct H as [v P m c j l]. constructor; cbn; auto.
  intros q k Q. destruct (P q k Q) as [L [a [h [b [E1 E2]]]]]. split; auto.
  destruct (Nat.eq_dec q p) as [->|D].
  - rewrite set_eq. exists o', h, b. rewrite E in E1. injection E1 as <-. rewrite W. split; auto.
  - rewrite set_ne by auto. eauto 10.
Qed.

Lemma pjoin_ok s n f p q k o : R s n f -> class_of (pcls n) q = Some k -> pars s q = Some o ->
  R (put_par p (Some (mkP (p_idx o) (p_tmp o))) s) (pjoin p k n) f.
Proof.
  intros H C E. destruct (r_p H C) as [L [a [h [b [E1 E2]]]]]. rewrite E in E1. injection E1 as <-.
  destruct H as [v P m c j l]. constructor; cbn; auto.
  intros r i. unfold class_of; cbn. destruct (Nat.eq_dec r p) as [->|D].
  - rewrite !set_eq. intros Q. injection Q as <-. split; auto.
    exists (mkP (p_idx o) (p_tmp o)), h, b. auto.
  - rewrite !set_ne by auto. intros Q. apply P. exact Q.
Qed.

Lemma pleave_ok s n f q o : R s n f -> R (put_par q (Some o) s) (pleave q n) f.
Proof.
  intros H. destruct H as [v P m c j l]. constructor; cbn; auto.
  intros r i. unfold class_of; cbn. destruct (Nat.eq_dec r q) as [->|D].
  - rewrite !set_eq. discriminate.
  - rewrite !set_ne by auto. apply P.
Qed.

Lemma sstep_ok s n f c a n' : R s n f -> sstep c n = Some (a, n') ->
  exists s' f', ostep c s = Some (a, s') /\ R s' n' f'.
Proof.
  intros H E. destruct c as [x c|x y|x y|x y|x y|x c|p c|p q|p q|p q|p c|x|t|t y|x y];
    cbn [sstep ostep] in *.
  - injection E as <- <-. destruct (fresh_ok x c H) as [s' [f' [-> H']]]. eauto.
  - destruct (class_of (vcls n) y) as [k|] eqn:C; [|discriminate]. injection E as <- <-.
    destruct (R_v_live H C) as [L [o [O V]]]. unfold copy_var. rewrite O.
    do 2 eexists. split; [reflexivity|]. eapply join_ok; eauto.
  - destruct (class_of (vcls n) y) as [k|] eqn:C; [|discriminate]. injection E as <- <-.
    destruct (R_v_live H C) as [L [o [O V]]]. unfold move_var. rewrite O.
    do 2 eexists. split; [reflexivity|]. eapply join_ok; [eapply leave_ok; eauto|auto|exact V].
  - destruct (vcls n x) as [cx|] eqn:X; [|discriminate].
    destruct (class_of (vcls n) y) as [k|] eqn:C; [|discriminate]. injection E as <- <-.
    destruct (R_v_live H C) as [L [o [O V]]]. unfold assign_var. rewrite O.
    assert (exists ox, vars s x = Some ox) as [ox ->].
    { generalize (r_v H x). rewrite X. destruct cx; [intros [_ [? [? _]]]|intros [? [? _]]]; eauto. }
    do 2 eexists. split; [reflexivity|]. eapply join_ok; eauto.
  - destruct (vcls n x) as [cx|] eqn:X; [|discriminate].
    destruct (class_of (vcls n) y) as [k|] eqn:C; [|discriminate]. injection E as <- <-.
    destruct (R_v_live H C) as [L [o [O V]]]. unfold moveassign_var. rewrite O.
    assert (exists ox, vars (put_var y (Some (moved_obj o)) s) x = Some ox) as [ox ->].
    { cbn. destruct (Nat.eq_dec x y) as [->|D]; [rewrite set_eq; eauto|rewrite set_ne by auto].
      generalize (r_v H x). rewrite X. destruct cx; [intros [_ [? [? _]]]|intros [? [? _]]]; eauto. }
    do 2 eexists. split; [reflexivity|]. eapply join_ok; [eapply leave_ok; eauto|auto|exact V].
  - destruct (class_of (vcls n) x) as [k|] eqn:C; [|discriminate]. injection E as <- <-.
    destruct (R_v_live H C) as [L [o [O V]]]. unfold set_var. rewrite O.
    destruct (renumber_ok c H L V) as [s' [-> H']]. eauto.
  - injection E as <- <-. destruct (fresh_par_ok p c H) as [s' [f' [-> H']]]. eauto.
  - destruct (class_of (pcls n) q) as [k|] eqn:C; [|discriminate]. injection E as <- <-.
    destruct (r_p H C) as [L [a [h [b [E1 E2]]]]]. unfold copy_par. rewrite E1.
    do 2 eexists. split; [reflexivity|]. eapply pjoin_ok; eauto.
  - destruct (class_of (pcls n) p) as [kp|] eqn:Cp; [|discriminate].
    destruct (class_of (pcls n) q) as [k|] eqn:C; [|discriminate]. injection E as <- <-.
    destruct (r_p H C) as [L [a [h [b [E1 E2]]]]].
    destruct (r_p H Cp) as [Lp [ap [hp [bp [Ep1 Ep2]]]]]. unfold assign_par. rewrite E1, Ep1. cbn.
    do 2 eexists. split; [reflexivity|]. eapply par_same; eauto.
  - destruct (class_of (pcls n) p) as [kp|] eqn:Cp; [|discriminate].
    destruct (class_of (pcls n) q) as [k|] eqn:C; [|discriminate]. injection E as <- <-.
    destruct (r_p H C) as [L [a [h [b [E1 E2]]]]].
    destruct (r_p H Cp) as [Lp [ap [hp [bp [Ep1 Ep2]]]]]. unfold moveassign_par. rewrite E1.
    assert (exists ox, pars (put_par q (Some (mkP None None)) s) p = Some ox) as [ox Q].
    { cbn. destruct (Nat.eq_dec p q) as [->|D]; [rewrite set_eq; eauto|rewrite set_ne by auto; eauto]. }
    rewrite Q. cbn. do 2 eexists. split; [reflexivity|].
    eapply par_same with (o := ox); eauto. eapply pleave_ok; eauto.
  - destruct (class_of (pcls n) p) as [k|] eqn:C; [|discriminate]. injection E as <- <-.
    destruct (r_p H C) as [L [a [h [b [E1 [E2 [E3 [E4 V]]]]]]]]. unfold set_par. rewrite E1, E2, E4.
    destruct (renumber_ok c H L V) as [s' [-> H']]. eauto.
  - destruct (class_of (vcls n) x) as [k|] eqn:C; [|discriminate]. injection E as <- <-.
    destruct (R_v_live H C) as [L [o [O [A1 [A2 A3]]]]]. rewrite O, A1.
    destruct (r_num H L) as [_ ->]. eauto.
  - destruct (sval n t) as [v|] eqn:V; [|discriminate]. injection E as <- <-. cbn.
    destruct (treset_ok H V) as [s1 [-> H1]]. destruct (teval_ok H1 V) as [s2 [-> H2]]. eauto.
  - destruct (class_of (vcls n) y) as [k|] eqn:C; [|discriminate].
    destruct (sder n k t) as [d|] eqn:D; [|discriminate]. injection E as <- <-. cbn.
    destruct (sder_sval D) as [v V].
    destruct (treset_ok H V) as [s1 [-> H1]]. destruct (R_v_live H1 C) as [L [o [O [A1 [A2 A3]]]]].
    rewrite O. destruct (tdev_ok H1 L A3 D) as [s2 [-> [H2 _]]].
    destruct (teval_ok H2 V) as [s3 [-> H3]]. eauto.
  - destruct (class_of (vcls n) x) as [i|] eqn:C; [|discriminate].
    destruct (class_of (vcls n) y) as [k|] eqn:D; [|discriminate]. injection E as <- <-.
    destruct (R_v_live H C) as [L [o [O [A1 [A2 A3]]]]]. rewrite O.
    destruct (R_v_live H D) as [L' [o' [O' [A1' [A2' A3']]]]]. rewrite O', A3, A3'. cbn.
    replace (Nat.eqb (f i) (f k)) with (Nat.eqb i k); [eauto|].
    destruct (Nat.eqb_spec i k) as [->|B]; [now rewrite Nat.eqb_refl|].
    symmetry. apply Nat.eqb_neq. intros F. apply B. apply (r_inj H); auto.
Qed.

Theorem run_ok : forall l s n f as_ n', R s n f -> srun l n = Some (as_, n') ->
  exists s' f', orun l s = Some (as_, s') /\ R s' n' f'.
Proof.
  induction l as [|c l IH]; cbn; intros s n f as_ n' H E.
  - injection E as <- <-. eauto.
  - destruct (sstep c n) as [[a n1]|] eqn:C; [|discriminate].
    destruct (srun l n1) as [[bs n2]|] eqn:D; [|discriminate]. injection E as <- <-.
    destruct (sstep_ok H C) as [s1 [f1 [-> H1]]].
    destruct (IH _ _ _ _ _ H1 D) as [s2 [f2 [-> H2]]]. eauto.
Qed.

Lemma R_start : R start nobody (fun i => i).
Proof.
  constructor; cbn; auto; try (intros; lia). unfold class_of; cbn. discriminate.
Qed.

End Spec.
