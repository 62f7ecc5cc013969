(** * Histories of Eval and DevalF calls meet the specification *)

From Coq Require Import List Arith Bool Lia.
From Verif Require Import Num MatMem Kernels KernelFacts KernelProofs KernelBlocks KernelMore Registry KernelStep Backend Slots Exec ConvProofs MatEngine MatGraph MatLeaf MatEval MatDeval MatHist MatSpec.
Import ListNotations.
Set Implicit Arguments.
Unset Strict Implicit.

(** A program that has only built its matrices: nothing evaluated. *)
Definition init {T} (m : mem T) : st (T := T) := St m (fun _ => None) (fun _ => Fl false false false None None).

(** Calls, each with the entries the leaf matrices have at that moment. *)
Inductive act (T : Type) : Type := AEval (rho : env T) (e : mexp T) | ADevalF (rho : env T) (e : mexp T) (x : obj).
Definition act_exp {T} (a : act T) : mexp T := match a with AEval _ e | ADevalF _ e _ => e end.

Section Calls.
Context {T : Type} {N : Num T}.
Variable S : sched T.
Variable B : backend (T := T).
Variable G : graph T.
Notation st := (st (T := T)).
Implicit Types (s : st) (e : mexp T).

Definition call (fuel : nat) (a : act T) : E ptr :=
  match a with AEval rho e => Eval S B G rho fuel e | ADevalF rho e x => DevalF S B G rho fuel e x end.
(** The matrix returned for call a: the value of the expression at the current entries, or
    its derivative by x at the current entries. *)
Definition right (a : act T) (m : mem T) (p : ptr) : Prop :=
  match a with
  | AEval rho e => exists F, den G rho e F /\ holds m p (mat_of G e F)
  | ADevalF rho e x => exists F D, dif G rho x e F D /\ holds m p (jac_of G x e D)
  end.
(** Every call of the list returns, with the right result. *)
Fixpoint plays (l : list (act T)) s : Prop :=
  match l with
  | [] => True
  | a :: t => exists n p s', (forall f, n <= f -> call f a s = EOk (p, s')) /\ right a (mm s') p /\ plays t s'
  end.

Hypothesis L : NumLaws N.
Hypothesis VS : valid_sched S.
Hypothesis BV : value_ok B.
Hypothesis BK : kron_ok B \/ kron_zeroed_ok B.
Variable host : nat -> option obj.
Variable rank : obj -> nat.
Hypothesis WF : wf_graph G host rank.

Lemma Inv_init m : tame m -> Inv G (init m).
Proof.
  intros Tm. constructor; simpl; try discriminate.
  - constructor; simpl; try discriminate; [exact Tm|]. intros q [].
  - intros o [Q|Q]; discriminate.
  - intros o Ho. simpl. exact Logic.I.
Qed.
Definition act_ok (a : act T) : Prop :=
  root host (act_exp a) /\ fits G (act_exp a) /\
  match a with AEval _ _ => True | ADevalF _ _ x => kron_ok B /\ g_kind G x = LVar /\ distinct_vars G end.

Theorem call_right a s : Inv G s -> settled G (act_exp a) s -> act_ok a ->
  exists n p s', (forall f, n <= f -> call f a s = EOk (p, s')) /\ right a (mm s') p /\ Inv G s' /\
    (forall o, reach G (act_exp a) o -> f_vis (fl s' o) = true) /\ (forall o, ~ reach G (act_exp a) o -> fl s' o = fl s o).
Proof.
  intros I Hs (Hr & Hf & Ha). destruct a as [rho e|rho e x]; simpl in *.
  - destruct (den_total rho Hf) as (F & HF). destruct (den_mval L WF Hf HF) as (v & Hv & Mv).
    destruct (call_eval VS BV BK WF I Hs Hr Hv) as (n & p & s' & E & Hp & I' & V & H). exists n, p, s'. split; [exact E|]. split; [|auto].
    exists F. split; [exact HF|]. exact (holds_meq Hp Mv).
  - destruct Ha as (KO & Xv & DV). destruct (dif_total rho x Hf) as (F & D & HD).
    destruct (dif_mder L WF Xv DV Hf HD) as (v & dv & Hv & Mv & Mdv).
    destruct (call_devalF VS BV WF KO Xv DV I Hs Hr Hv) as (n & p & s' & E & Hp & I' & V & H). exists n, p, s'. split; [exact E|]. split; [|auto].
    exists F, D. split; [exact HD|]. exact (holds_meq Hp Mdv).
Qed.

(** None of the matrices of e, except unit matrices, has been evaluated. *)
Definition untouched e s : Prop := forall o, reach G e o -> g_kind G o <> LEye -> f_vis (fl s o) = false.
Definition disjoint e e' : Prop := forall o, reach G e o -> reach G e' o -> g_kind G o = LEye.

Lemma untouched_settled e s : untouched e s -> settled G e s.
Proof. intros H o id a y o' Ho Hk _ Hin Ne. apply H; [|exact Ne]. eapply reach_item; eauto. Qed.

Theorem history_right l : forall s, Inv G s -> Forall act_ok l ->
  (forall a, In a l -> evaluated G (act_exp a) s \/
     (untouched (act_exp a) s /\ forall b, In b l -> act_exp b = act_exp a \/ disjoint (act_exp a) (act_exp b))) ->
  plays l s.
Proof.
  induction l as [|a l IH]; intros s I Ok H; [exact Logic.I|].
  inversion Ok as [|? ? Oa Ol]; subst.
  assert (Hs : settled G (act_exp a) s).
  { destruct (H a (or_introl eq_refl)) as [Q|[Q _]]; [now apply evaluated_settled|now apply untouched_settled]. }
  destruct (call_right I Hs Oa) as (n & p & s' & E & R & I' & V & Nv). exists n, p, s'. split; [exact E|]. split; [exact R|].
  apply IH; auto. intros b Hb. destruct (H b (or_intror Hb)) as [Q|[Q Dj]].
  - left. intros o Ho Ne. destruct (reach_dec WF (act_exp a) o) as [Ra|Ra]; [auto|]. rewrite Nv by auto. auto.
  - destruct (Dj a (or_introl eq_refl)) as [Ea|Da].
    + left. intros o Ho _. apply V. now rewrite Ea.
    + right. split; [|intros c Hc; apply Dj; now right].
      intros o Ho Ne. rewrite Nv; [auto|]. intros Ra. apply Ne. auto.
Qed.
End Calls.

(** Expressions of operators over matrices, without named sub-expressions, are always
    settled: reset reaches all their matrices. *)
Lemma settled_plain {T} (G : graph T) e s : (forall o, In o (leaves e) -> is_leaf G o) -> settled G e s.
Proof.
  intros H o id a y o' Ho Hk. exfalso.
  assert (Q : is_leaf G o); [|unfold is_leaf in Q; now rewrite Hk in Q].
  clear Hk. induction Ho as [o Ho|o1 id1 a1 y1 o2 Ho IH Hk Hin]; [auto|]. unfold is_leaf in IH. rewrite Hk in IH. tauto.
Qed.
