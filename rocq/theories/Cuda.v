(** * A machine for the CUDA kernels

    The CUDA handlers launch kernels on a grid of blocks of threads.  This file models
    their execution: every thread runs its own straight-line program (the kernel's body
    specialised to blockIdx and threadIdx, loops unrolled), the threads of the grid are
    interleaved instruction by instruction in an arbitrary order, the threads of a block
    share memory and synchronise with __syncthreads.  An access outside a buffer is not
    executable: a machine that would have to perform one is stuck.

    Simplifications: indices are unbounded naturals (the code mixes unsigned 32-bit and
    size_t); memory is sequentially consistent (a load is one step, a store is one step);
    warps are not modelled; kernel launches and cudaDeviceSynchronize do not fail. *)

From Coq Require Import List Arith Bool Lia.
From Verif Require Import Num.
Import ListNotations.
Set Implicit Arguments.
Unset Strict Implicit.

(** blockIdx.y, blockIdx.x, threadIdx.y, threadIdx.x. *)
Record thread : Set := Th { t_by : nat; t_bx : nat; t_ty : nat; t_tx : nat }.
Definition thread_eq (a b : thread) : {a = b} + {a <> b}.
Proof. decide equality; apply Nat.eq_dec. Defined.
Definition same_block (a b : thread) : Prop := t_by a = t_by b /\ t_bx a = t_bx b.

(** A cell of a device buffer, or of a __shared__ array of a block. *)
Inductive loc : Set := Glob (buf idx : nat) | Shr (by_ bx arr y x : nat).
Definition loc_eq (a b : loc) : {a = b} + {a <> b}.
Proof. decide equality; apply Nat.eq_dec. Defined.

Section Machine.
Context {T : Type}.

Inductive cinstr : Type :=
| CLd (r : nat) (l : loc)                          (* register r := cell l *)
| CSt (l : loc) (r : nat)                          (* cell l := register r *)
| COp (r : nat) (f : T -> T -> T) (a b : nat)      (* r := f a b *)
| CBar.                                            (* __syncthreads() *)

Record cst : Type := Cst {
  cells : loc -> T;
  regs : thread -> nat -> T;
  rest : thread -> list cinstr;                    (* what the thread still has to do *)
  cnt : thread -> nat                              (* barriers it has passed *)
}.
Definition rset (g : nat -> T) (r : nat) (v : T) : nat -> T := fun r' => if r' =? r then v else g r'.
Definition cset (w : loc -> T) (l : loc) (v : T) : loc -> T := fun l' => if loc_eq l' l then v else w l'.
Definition tset {A} (g : thread -> A) (th : thread) (v : A) : thread -> A := fun th' => if thread_eq th' th then v else g th'.

Section Steps.
Variable ths : list thread.          (* the threads of the grid *)
Variable inb : loc -> Prop.          (* the cells that exist *)

Inductive step (s : cst) : cst -> Prop :=
| step_ld th r l p : In th ths -> rest s th = CLd r l :: p -> inb l ->
    step s (Cst (cells s) (tset (regs s) th (rset (regs s th) r (cells s l))) (tset (rest s) th p) (cnt s))
| step_st th l r p : In th ths -> rest s th = CSt l r :: p -> inb l ->
    step s (Cst (cset (cells s) l (regs s th r)) (regs s) (tset (rest s) th p) (cnt s))
| step_op th r f a b p : In th ths -> rest s th = COp r f a b :: p ->
    step s (Cst (cells s) (tset (regs s) th (rset (regs s th) r (f (regs s th a) (regs s th b)))) (tset (rest s) th p) (cnt s))
| step_bar th p : In th ths -> rest s th = CBar :: p ->
    (* every thread of the block has arrived at this barrier or passed it *)
    (forall th', In th' ths -> same_block th th' -> cnt s th < cnt s th' \/ (cnt s th' = cnt s th /\ exists q, rest s th' = CBar :: q)) ->
    step s (Cst (cells s) (regs s) (tset (rest s) th p) (tset (cnt s) th (S (cnt s th)))).

Inductive steps : nat -> cst -> cst -> Prop :=
| steps_0 s : steps 0 s s
| steps_S n s s1 s2 : steps n s s1 -> step s1 s2 -> steps (S n) s s2.

Definition finished (s : cst) : Prop := forall th, In th ths -> rest s th = [].

Variable prog : thread -> list cinstr.
(** Start of a launch: shared memory and registers hold arbitrary values. *)
Definition start (w : loc -> T) (g : thread -> nat -> T) : cst := Cst w g prog (fun _ => 0).

(** Every schedule of the launch ends, never gets stuck, and leaves memory satisfying [post]. *)
Definition launch_ok (w : loc -> T) (post : (loc -> T) -> Prop) : Prop :=
  forall g n s, steps n (start w g) s ->
    (finished s \/ exists s', step s s') /\
    n <= list_sum (map (fun th => length (prog th)) ths) /\
    (finished s -> post (cells s)).
(** Every partial run can be completed. *)
Lemma launch_completes w post g n s : launch_ok w post -> steps n (start w g) s ->
  exists n' s', steps n' (start w g) s' /\ finished s' /\ post (cells s').
Proof.
  intros H. remember (list_sum (map (fun th => length (prog th)) ths) - n) as d eqn:Ed.
  revert n s Ed. induction d as [|d IH]; intros n s Ed Hs; destruct (H g n s Hs) as (P & B & Q); destruct P as [F|(s' & St)].
  - exists n, s. auto.
  - destruct (H g (S n) s' (steps_S Hs St)) as (_ & B' & _). lia.
  - exists n, s. auto.
  - apply (IH (S n) s'); [lia|]. econstructor; eauto.
Qed.
End Steps.

(** ** Verification conditions

    A cell has at most one owner, the only thread that stores to it.  [rd l k] says that
    after k barriers the cell may be read by the other threads of the owner's block, and
    then its content is [ov l k]. *)
Section VC.
Variable ths : list thread.
Variable inb : loc -> Prop.
Variable prog : thread -> list cinstr.
Variable init : loc -> T.
Variable own : loc -> option thread.
Variable rd : loc -> nat -> Prop.
Variable ov : loc -> nat -> T.
Variable fin : loc -> T -> Prop.

Fixpoint vc (th : thread) (p : list cinstr) (k : nat) (g : nat -> T) (w : loc -> T) : Prop :=
  (forall l, own l = Some th -> rd l k -> w l = ov l k) /\
  match p with
  | [] => forall l v, own l = Some th -> fin l v -> w l = v
  | CLd r l :: p => inb l /\
      ((own l = Some th /\ vc th p k (rset g r (w l)) w) \/
       (own l = None /\ vc th p k (rset g r (init l)) w) \/
       (exists o, own l = Some o /\ In o ths /\ same_block th o /\ rd l k /\ vc th p k (rset g r (ov l k)) w))
  | CSt l r :: p => inb l /\ own l = Some th /\ vc th p k g (cset w l (g r))
  | COp r f a b :: p => vc th p k (rset g r (f (g a) (g b))) w
  | CBar :: p => vc th p (S k) g w
  end.
Definition bars (p : list cinstr) : nat := length (filter (fun i => match i with CBar => true | _ => false end) p).

Lemma vc_stable th p k g w : vc th p k g w -> forall l, own l = Some th -> rd l k -> w l = ov l k.
Proof. destruct p as [|[]]; intros H; destruct H as [H _]; exact H. Qed.
Lemma vc_ext th p : forall k g w w', (forall l, own l = Some th -> w l = w' l) -> vc th p k g w -> vc th p k g w'.
Proof.
  induction p as [|i p IH]; intros k g w w' E H; destruct H as [St H]; (split; [intros l Ho R; rewrite <- E by auto; auto|]).
  - intros l v Ho F. rewrite <- E by auto. auto.
  - destruct i as [r l|l r|r f a b|].
    + destruct H as [I H]. split; [exact I|]. destruct H as [[Ho H]|[[Ho H]|(o & Ho & Io & Sb & R & H)]].
      * left. split; auto. rewrite <- E by auto. now apply (IH _ _ w).
      * right. left. split; auto. now apply (IH _ _ w).
      * right. right. exists o. repeat (split; [assumption|]). now apply (IH _ _ w).
    + destruct H as (I & Ho & H). split; [exact I|]. split; [exact Ho|]. apply (IH _ _ (cset w l (g r))); auto.
      intros l' Ho'. unfold cset. destruct (loc_eq l' l); auto.
    + now apply (IH _ _ w).
    + now apply (IH _ _ w).
Qed.

Hypothesis balanced : forall a b, In a ths -> In b ths -> same_block a b -> bars (prog a) = bars (prog b).

Record inv (s : cst) : Prop := {
  inv_vc : forall th, In th ths -> vc th (rest s th) (cnt s th) (regs s th) (cells s);
  inv_init : forall l, own l = None -> cells s l = init l;
  inv_bar : forall a b, In a ths -> In b ths -> same_block a b -> cnt s b < cnt s a ->
     cnt s a = S (cnt s b) /\ exists q, rest s b = CBar :: q;
  inv_cnt : forall a, In a ths -> cnt s a + bars (rest s a) = bars (prog a)
}.

Lemma tset_same {A} (g : thread -> A) th v : tset g th v th = v.
Proof. unfold tset. destruct (thread_eq th th); congruence. Qed.
Lemma tset_other {A} (g : thread -> A) th v x : x <> th -> tset g th v x = g x.
Proof. unfold tset. destruct (thread_eq x th); congruence. Qed.

Lemma inv_step s s' : inv s -> step ths inb s s' -> inv s'.
Proof.
  intros [V I B C] H. destruct H as [th r l p It Er Hb|th l r p It Er Hb|th r f a b p It Er|th p It Er Hb].
  - (* load *)
    constructor; simpl; auto.
    + intros x Ix. destruct (thread_eq x th) as [->|Ne]; [|rewrite !tset_other by auto; auto].
      rewrite !tset_same. pose proof (V th It) as W. rewrite Er in W. destruct W as [_ (_ & W)].
      destruct W as [[Ho W]|[[Ho W]|(o & Ho & Io & Sb & R & W)]].
      * exact W.
      * rewrite (I l Ho). exact W.
      * replace (cells s l) with (ov l (cnt s th)); [exact W|]. symmetry.
        destruct (lt_eq_lt_dec (cnt s o) (cnt s th)) as [[Lt|Eq]|Gt].
        -- destruct (B th o It Io Sb Lt) as (E & q & Eq). pose proof (V o Io) as Wo. rewrite Eq in Wo. destruct Wo as [_ Wo].
           rewrite E in *. apply (vc_stable Wo); auto.
        -- rewrite <- Eq in *. apply (vc_stable (V o Io)); auto.
        -- assert (Sb' : same_block o th) by (destruct Sb; split; auto).
           destruct (B o th Io It Sb' Gt) as (_ & q & Eq). rewrite Er in Eq. discriminate.
    + intros a b Ia Ib Sb Lt. destruct (B a b Ia Ib Sb Lt) as (E & q & Eq). split; auto.
      destruct (thread_eq b th) as [->|Ne]; [rewrite Er in Eq; discriminate|]. rewrite tset_other by auto. eauto.
    + intros a Ia. destruct (thread_eq a th) as [->|Ne]; [|rewrite tset_other by auto; auto].
      rewrite tset_same. rewrite <- (C th It), Er. reflexivity.
  - (* store *)
    pose proof (V th It) as W. rewrite Er in W. destruct W as [_ (_ & Ho & W)].
    constructor; simpl; auto.
    + intros x Ix. destruct (thread_eq x th) as [->|Ne]; [rewrite !tset_same; exact W|]. rewrite !tset_other by auto.
      apply vc_ext with (w := cells s); auto. intros l' Ho'. unfold cset. destruct (loc_eq l' l) as [->|]; auto. congruence.
    + intros l' Ho'. unfold cset. destruct (loc_eq l' l) as [->|]; auto. congruence.
    + intros a b Ia Ib Sb Lt. destruct (B a b Ia Ib Sb Lt) as (E & q & Eq). split; auto.
      destruct (thread_eq b th) as [->|Ne]; [rewrite Er in Eq; discriminate|]. rewrite tset_other by auto. eauto.
    + intros a Ia. destruct (thread_eq a th) as [->|Ne]; [|rewrite tset_other by auto; auto].
      rewrite tset_same. rewrite <- (C th It), Er. reflexivity.
  - (* arithmetic *)
    pose proof (V th It) as W. rewrite Er in W. destruct W as [_ W].
    constructor; simpl; auto.
    + intros x Ix. destruct (thread_eq x th) as [->|Ne]; [rewrite !tset_same; exact W|rewrite !tset_other by auto; auto].
    + intros a' b' Ia Ib Sb Lt. destruct (B a' b' Ia Ib Sb Lt) as (E & q & Eq). split; auto.
      destruct (thread_eq b' th) as [->|Ne]; [rewrite Er in Eq; discriminate|]. rewrite tset_other by auto. eauto.
    + intros x Ia. destruct (thread_eq x th) as [->|Ne]; [|rewrite tset_other by auto; auto].
      rewrite tset_same. rewrite <- (C th It), Er. reflexivity.
  - (* barrier *)
    pose proof (V th It) as W. rewrite Er in W. destruct W as [_ W].
    constructor; simpl; auto.
    + intros x Ix. destruct (thread_eq x th) as [->|Ne]; [rewrite !tset_same; exact W|rewrite !tset_other by auto; auto].
    + intros a b Ia Ib Sb Lt. destruct (thread_eq a th) as [->|Na], (thread_eq b th) as [->|Nb].
      * lia.
      * rewrite tset_same in *. rewrite !tset_other in * by auto. destruct (Hb b Ib Sb) as [L|(E & q & Eq)]; [lia|].
        split; [lia|eauto].
      * rewrite tset_same in *. rewrite !tset_other in * by auto. destruct (B a th Ia It Sb ltac:(lia)) as (E & _). lia.
      * rewrite !tset_other in * by auto. auto.
    + intros x Ia. destruct (thread_eq x th) as [->|Ne]; [|rewrite !tset_other by auto; auto].
      rewrite !tset_same. rewrite <- (C th It), Er. unfold bars at 2. simpl. unfold bars. lia.
Qed.

Lemma inv_start w g : (forall th, In th ths -> forall g, vc th (prog th) 0 g w) -> (forall l, own l = None -> w l = init l) -> inv (start prog w g).
Proof. intros V I. constructor; simpl; auto. intros a b _ _ _ H. lia. Qed.

(** *** No deadlock *)
Lemma min_elem (A : Type) (f : A -> nat) (l : list A) : l <> [] -> exists x, In x l /\ forall y, In y l -> f x <= f y.
Proof.
  induction l as [|a l IH]; intros H; [congruence|]. destruct l as [|b l].
  - exists a. split; [now left|]. intros y [-> | []]. lia.
  - destruct IH as (x & Ix & Mx); [discriminate|]. destruct (le_lt_dec (f a) (f x)) as [L|L].
    + exists a. split; [now left|]. intros y [-> | Iy]; [lia|]. specialize (Mx y Iy). lia.
    + exists x. split; [now right|]. intros y [-> | Iy]; [lia|]. auto.
Qed.
Definition is_bar (p : list cinstr) : bool := match p with CBar :: _ => true | _ => false end.
Definition is_nil (p : list cinstr) : bool := match p with [] => true | _ => false end.
Lemma progress s : inv s -> finished ths s \/ exists s', step ths inb s s'.
Proof.
  intros [V I B C].
  destruct (forallb (fun th => is_nil (rest s th)) ths) eqn:En.
  { left. rewrite forallb_forall in En. intros th It. specialize (En th It). destruct (rest s th); [auto|discriminate]. }
  right.
  destruct (existsb (fun th => negb (is_nil (rest s th)) && negb (is_bar (rest s th))) ths) eqn:Ex.
  { apply existsb_exists in Ex. destruct Ex as (th & It & Hx). rewrite andb_true_iff, !negb_true_iff in Hx. destruct Hx as [H1 H2].
    pose proof (V th It) as W. destruct (rest s th) as [|i p] eqn:Er; [discriminate|]. destruct W as [_ W].
    destruct i as [r l|l r|r f a b|]; try discriminate.
    - destruct W as (Hi & _). eexists. eapply step_ld; eauto.
    - destruct W as (Hi & _). eexists. eapply step_st; eauto.
    - eexists. eapply step_op; eauto. }
  assert (Hb : forall th, In th ths -> rest s th = [] \/ exists q, rest s th = CBar :: q).
  { intros th It. destruct (rest s th) as [|i p] eqn:Er; auto. right.
    assert (Q : existsb (fun th => negb (is_nil (rest s th)) && negb (is_bar (rest s th))) ths = true -> False) by congruence.
    destruct i; try (exfalso; apply Q; apply existsb_exists; exists th; rewrite Er; split; [exact It|reflexivity]). eauto. }
  assert (E0 : exists th0, In th0 ths /\ rest s th0 <> []).
  { assert (Q : ~ forall th, In th ths -> is_nil (rest s th) = true) by (rewrite <- forallb_forall; congruence).
    clear - Q. induction ths as [|a l IH]; [exfalso; apply Q; intros th []|].
    destruct (rest s a) eqn:Ea.
    - assert (Q' : ~ forall th, In th l -> is_nil (rest s th) = true).
      { intros H. apply Q. intros th [<- | It]; [now rewrite Ea|auto]. }
      destruct (IH Q') as (x & Ix & Hx). exists x. split; [now right|auto].
    - exists a. split; [now left|]. rewrite Ea. discriminate. }
  destruct E0 as (th0 & I0 & R0).
  set (blk := filter (fun th => (t_by th =? t_by th0) && (t_bx th =? t_bx th0) && negb (is_nil (rest s th))) ths).
  assert (Hin : forall th, In th blk <-> In th ths /\ same_block th0 th /\ rest s th <> []).
  { intros th. unfold blk, same_block. rewrite filter_In, !andb_true_iff, !Nat.eqb_eq, negb_true_iff. split.
    - intros (It & (E1 & E2) & E3). repeat split; auto. intros E. rewrite E in E3. discriminate.
    - intros (It & (E1 & E2) & E3). repeat split; auto. destruct (rest s th); [congruence|reflexivity]. }
  destruct (@min_elem _ (cnt s) blk) as (th & Ith & Mth).
  { intros E. assert (Q : In th0 blk) by (apply Hin; repeat split; auto). rewrite E in Q. destruct Q. }
  apply Hin in Ith. destruct Ith as (It & Sb & Rn). destruct (Hb th It) as [Er|(p & Er)]; [congruence|].
  eexists. eapply step_bar; eauto. intros th' It' Sb'.
  destruct (Hb th' It') as [Er'|(q & Er')].
  - left. pose proof (C th' It') as C1. pose proof (C th It) as C2. rewrite Er in C2. rewrite Er' in C1. unfold bars in C1 at 1. unfold bars in C2 at 1. simpl in C1, C2.
    rewrite (balanced It It' Sb') in C2. lia.
  - assert (Q : In th' blk).
    { apply Hin. split; [auto|]. split; [destruct Sb, Sb'; split; congruence|]. rewrite Er'. discriminate. }
    specialize (Mth th' Q). destruct (Nat.eq_dec (cnt s th) (cnt s th')); [right|left; lia]. split; [auto|eauto].
Qed.

(** *** Termination *)
Definition left_to_do (s : cst) : nat := list_sum (map (fun th => length (rest s th)) ths).
Hypothesis nodup : NoDup ths.
Lemma todo_tset (r : thread -> list cinstr) th p i : In th ths -> r th = i :: p ->
  S (list_sum (map (fun x => length (tset r th p x)) ths)) = list_sum (map (fun x => length (r x)) ths).
Proof.
  clear - nodup. intros It Er. induction ths as [|a l IH]; [destruct It|].
  inversion nodup as [|? ? Na Nl]; subst. simpl. destruct (thread_eq a th) as [->|Ne].
  - rewrite tset_same, Er. simpl. f_equal. f_equal. f_equal. apply map_ext_in. intros x Ix. rewrite tset_other; auto. intros ->. auto.
  - rewrite tset_other by auto. destruct It as [-> |It]; [congruence|]. rewrite <- (IH Nl It). lia.
Qed.
Lemma step_todo s s' : step ths inb s s' -> S (left_to_do s') = left_to_do s.
Proof. intros H. destruct H; unfold left_to_do; simpl; eapply todo_tset; eauto. Qed.
Lemma steps_todo n s s' : steps ths inb n s s' -> n + left_to_do s' = left_to_do s.
Proof. induction 1 as [|n s s1 s2 H IH St]; auto. apply step_todo in St. lia. Qed.
Lemma steps_inv n s s' : steps ths inb n s s' -> inv s -> inv s'.
Proof. induction 1 as [|n s s1 s2 H IH St]; auto. intros H1. exact (inv_step (IH H1) St). Qed.

Theorem vc_sound w (post : (loc -> T) -> Prop) : (forall l, own l = None -> w l = init l) ->
  (forall th, In th ths -> forall g, vc th (prog th) 0 g w) ->
  (forall w', (forall l, own l = None -> w' l = init l) ->
     (forall l v th, own l = Some th -> In th ths -> fin l v -> w' l = v) -> post w') ->
  launch_ok ths inb prog w post.
Proof.
  intros I V P g n s H. pose proof (steps_inv H (inv_start g V I)) as J.
  split; [now apply progress|]. split.
  - apply steps_todo in H. unfold left_to_do in H. simpl in H. lia.
  - intros F. apply P; [apply (inv_init J)|]. intros l v th Ho It Hf.
    pose proof (inv_vc J It) as W. rewrite (F th It) in W. destruct W as [_ W]. eauto.
Qed.
End VC.
End Machine.
