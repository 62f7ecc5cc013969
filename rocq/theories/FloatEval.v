(** * Eval of matrix expressions over any number type

    With the naive handlers, Eval performs a fixed sequence of scalar operations, whatever their
    laws: the theorems here hold for IEEE arithmetic.  (Reverse and forward mode need the ring laws and are not
    covered; Eigen does not document the order of its sums.) *)
From Coq Require Import List Arith Bool Lia.
From Verif Require Import Num MatMem Kernels KernelFacts KernelProofs KernelBlocks Registry KernelStep Backend Square Slots Exec MatEngine MatGraph MatLeaf MatEval MatDeval MatHist ConvDerv MatSpec MatCalls.
Import ListNotations.
Set Implicit Arguments.
Unset Strict Implicit.
Local Open Scope nat_scope.

(** ** Specification: the operations performed for entry (i,j), in their order *)
Section Spec.
Context {T : Type} {N : Num T}.
Variable G : graph T.
Variable rho : env T.
Notation rows := (rows G).
Notation cols := (cols G).
(** a_1 b_1 + ... + a_n b_n, added up from zero on the left. *)
Fixpoint dot (n : nat) (a b : nat -> T) : T := match n with 0 => n0 | Datatypes.S k => nadd (dot k a b) (nmul (a k) (b k)) end.
Definition unit_entry (k j : nat) : T := if k =? j then n1 else n0.
(** A named expression is its right-hand side times a unit matrix. *)
Inductive fval : mexp T -> (nat -> nat -> T) -> Prop :=
| fv_eye o : g_kind G o = LEye -> fval (MLeaf o) unit_entry
| fv_leaf o : is_leaf G o -> g_kind G o <> LEye -> fval (MLeaf o) (fun i j => e_val rho o (i * g_cols G o + j))
| fv_exp o id e y F : g_kind G o = KExp id e y -> fval e F -> fval (MLeaf o) (fun i j => dot (cols e) (F i) (fun k => unit_entry k j))
| fv_sum id l r F F' : fval l F -> fval r F' -> fval (MBin BSum id l r) (fun i j => nadd (F i j) (F' i j))
| fv_sub id l r F F' : fval l F -> fval r F' -> fval (MBin BSub id l r) (fun i j => nsub (F i j) (F' i j))
| fv_had id l r F F' : fval l F -> fval r F' -> fval (MBin BHad id l r) (fun i j => nmul (F i j) (F' i j))
| fv_prod id l r F F' : fval l F -> fval r F' -> fval (MBin BProd id l r) (fun i j => dot (cols l) (F i) (fun a => F' a j))
| fv_tr id e F : fval e F -> fval (MUn UTr id e) (fun i j => F j i)
| fv_sprod c id e F : fval e F -> fval (MUn (USProd c) id e) (fun i j => nmul c (F i j))
| fv_ssum c id e F : fval e F -> fval (MUn (USSum c) id e) (fun i j => nadd c (F i j))
| fv_fun f f' id e F : fval e F -> fval (MUn (UFun f f') id e) (fun i j => f (F i j))
| fv_sprode s vs id e F : fval e F -> fval (MUn (USProdE s vs) id e) (fun i j => nmul (e_val rho s 0) (F i j))
| fv_ssume s vs id e F : fval e F -> fval (MUn (USSumE s vs) id e) (fun i j => nadd (e_val rho s 0) (F i j))
| fv_inv g id e F : fval e F -> fval (MUn (UInv g) id e) (inverse g (rows e) F)
| fv_determinant g d id e F : fval e F -> fval (MUn (UDet g d) id e) (fun _ _ => d (rows e) (row_major (rows e) F)).

Lemma fval_det e F : fval e F -> forall F', fval e F' -> F = F'.
Proof.
  induction 1; intros F2 HF2; inversion HF2; subst; try congruence; try (f_equal; auto; fail);
    try (match goal with Q : is_leaf _ ?o, Q' : g_kind G ?o = KExp _ _ _ |- _ => unfold is_leaf in Q; rewrite Q' in Q; tauto end);
    try (repeat match goal with IH : forall F', fval ?e F' -> _, Q : fval ?e ?a |- _ => rewrite (IH _ Q); clear IH end; reflexivity).
  match goal with Q : g_kind G o = KExp _ _ _, Q' : g_kind G o = KExp _ _ _ |- _ => rewrite Q in Q'; injection Q' as <- <- <- end.
  match goal with IH : forall F', fval e F' -> _, Q : fval e ?a |- _ => rewrite (IH _ Q) end. reflexivity.
Qed.
Lemma fval_total e : fits G e -> exists F, fval e F.
Proof.
  induction 1 as [o Hl|o id e y Hk Hf (F & HF)|id l r Hl (F & HF) Hr (F' & HF') E|k id l r Nk Hl (F & HF) Hr (F' & HF') E1 E2|k id e He (F & HF) Hu].
  - assert (g_kind G o = LEye \/ g_kind G o <> LEye) as [E|E] by (destruct (g_kind G o); auto; right; discriminate);
      eexists; [now apply fv_eye|now apply fv_leaf].
  - eexists. eapply fv_exp; eauto.
  - eexists. eapply fv_prod; eauto.
  - destruct k; try congruence; eexists; [eapply fv_sum|eapply fv_sub|eapply fv_had]; eauto.
  - destruct k; eexists; [eapply fv_sprode|eapply fv_ssume|eapply fv_tr|eapply fv_sprod|eapply fv_ssum|eapply fv_fun|eapply fv_inv|eapply fv_determinant]; eauto.
Qed.
End Spec.

(** ** The kernel sequences perform these operations *)
Section Agree.
Context {T : Type} {N : Num T}.
Variable G : graph T.
Variable host : nat -> option obj.
Variable rank : obj -> nat.
Hypothesis WF : wf_graph G host rank.
Variable rho : env T.
Notation rows := (rows G).
Notation cols := (cols G).
Notation fval := (fval G rho).

Lemma dot_sum n (a b : nat -> T) : dot n a b = sum_n n (fun k => nmul (a k) (b k)).
Proof. induction n as [|n IH]; cbn [dot sum_n]; [reflexivity|now rewrite IH]. Qed.
Lemma feye_leaf y n : g_kind G y = LEye -> g_rows G y = n -> g_cols G y = n -> meq (leaf_mat G rho y) (meye n).
Proof.
  intros Hk E1 E2. split; [exact E1|]. split; [exact E2|]. simpl. intros i j Hi Hj. unfold leaf_entry. rewrite Hk.
  destruct (divmod_block i Hj) as [-> ->]. reflexivity.
Qed.
Theorem fval_mval e : fits G e -> forall F, fval e F -> exists v, mval G rho e v /\ meq v (mat_of G e F).
Proof.
  induction 1 as [o Hl|o id e y Hk Hf IH|id l r Hl IHl Hr IHr E|k id l r Nk Hl IHl Hr IHr E1 E2|k id e He IH Hu]; intros F HF.
  - exists (leaf_mat G rho o). split; [now constructor|]. split; [reflexivity|]. split; [reflexivity|]. simpl. intros i j Hi Hj. unfold leaf_entry.
    inversion HF; subst.
    + match goal with Q : g_kind G o = LEye |- _ => rewrite Q end. destruct (divmod_block i Hj) as [-> ->]. reflexivity.
    + destruct (g_kind G o); congruence.
    + match goal with Q : g_kind G o = KExp _ _ _ |- _ => unfold is_leaf in Hl; rewrite Q in Hl; tauto end.
  - inversion HF as [o' Q|o' Q|o' id' e' y' F' Q| | | | | | | | | | | |]; subst; [congruence|unfold is_leaf in Q; rewrite Hk in Q; tauto|].
    rewrite Hk in Q. injection Q as <- <- <-.
    match goal with Q : fval e F' |- _ => destruct (IH F' Q) as (v & Hv & Mv) end.
    destruct (wf_eye WF Hk) as (Ky & Ry & Cy). destruct Mv as (Rv & Cv & Ev). simpl in Rv, Cv, Ev.
    exists (mmul v (leaf_mat G rho y)). split.
    + eapply mval_exp; [exact Hk|]. apply (mval_bin (k := BProd)); [exact Hv|constructor; unfold is_leaf; now rewrite Ky|]. simpl. congruence.
    + destruct (wf_dims WF Hk) as [D1 D2]. destruct (feye_leaf Ky Ry Cy) as (A1 & A2 & A3). simpl in A1, A2, A3.
      split; [change (mr v = g_rows G o); congruence|]. split; [change (g_cols G y = g_cols G o); congruence|].
      simpl. intros i j Hi Hj. rewrite dot_sum. rewrite Cv. apply sum_n_ext. intros k Hk'. rewrite Ev by congruence.
      rewrite A3 by congruence. reflexivity.
  - inversion HF; subst.
    match goal with Ql : fval l ?a, Qr : fval r ?b |- _ => destruct (IHl a Ql) as (v & Hv & Mv), (IHr b Qr) as (w & Hw & Mw) end.
    pose proof Mv as (Rv & Cv & _). pose proof Mw as (Rw & Cw & _). simpl in Rv, Cv, Rw, Cw.
    exists (mmul v w). split; [apply (mval_bin (k := BProd)); auto; simpl; congruence|].
    eapply meq_trans; [apply meq_mul; [exact Mv|exact Mw|congruence]|]. split; [reflexivity|]. split; [reflexivity|]. simpl. intros. now rewrite dot_sum.
  - destruct k; [| |congruence|]; inversion HF; subst;
    match goal with Ql : fval l ?a, Qr : fval r ?b |- _ => destruct (IHl a Ql) as (v & Hv & Mv), (IHr b Qr) as (w & Hw & Mw) end;
    pose proof Mv as (Rv & Cv & _); pose proof Mw as (Rw & Cw & _); simpl in Rv, Cv, Rw, Cw;
    (assert (Sd : same_dims v w) by (split; congruence)).
    + exists (madd v w). split; [apply (mval_bin (k := BSum)); auto|].
      eapply meq_trans; [apply meq_zip; [exact Mv|exact Mw|exact Sd]|]. split; [reflexivity|]. split; [exact E2|]. reflexivity.
    + exists (msub v w). split; [apply (mval_bin (k := BSub)); auto|].
      eapply meq_trans; [apply meq_zip; [exact Mv|exact Mw|exact Sd]|]. split; [reflexivity|]. split; [exact E2|]. reflexivity.
    + exists (mhad v w). split; [apply (mval_bin (k := BHad)); auto|].
      eapply meq_trans; [apply meq_zip; [exact Mv|exact Mw|exact Sd]|]. split; [reflexivity|]. split; [exact E2|]. reflexivity.
  - destruct k; inversion HF; subst; match goal with Q : fval e ?a |- _ => destruct (IH a Q) as (v & Hv & Mv) end;
      [exists (un_val rho (USProdE s vs) v)|exists (un_val rho (USSumE s vs) v)|exists (un_val rho UTr v)|exists (un_val rho (USProd c) v)|exists (un_val rho (USSum c) v)|exists (un_val rho (UFun f f') v)
      |exists (un_val rho (UInv g) v)|exists (un_val rho (UDet g d) v)];
      (split; [constructor; [exact Hv|]; pose proof Mv as (Rv & Cv & _); simpl in Rv, Cv, Hu |- *; first [exact Logic.I|congruence]|]);
      [eapply meq_trans; [exact (meq_map _ Mv)|]|eapply meq_trans; [exact (meq_map _ Mv)|]|eapply meq_trans; [exact (meq_tr Mv)|]|eapply meq_trans; [exact (meq_map _ Mv)|]..
      |eapply meq_trans; [exact (meq_inv _ Mv)|]|eapply meq_trans; [exact (meq_det _ Mv)|]];
      (split; [reflexivity|]; split; [reflexivity|]); simpl in Hu; try reflexivity; intros; unfold minv, mdet, inverse, row_major, flat, mat_of; cbn [mf mr mc]; rewrite <- ?Hu; reflexivity.
Qed.
End Agree.

(** ** Eval does not use the Kronecker kernel *)
Section Calls.
Context {T : Type} {N : Num T}.
Variable S : sched T.
Variable G : graph T.
Notation B := (backend_of S HNaive).
Definition no_kron : backend (T := T) :=
  Bk (b_add B) (b_sub B) (b_had B) (b_mul B) (b_kron (backend_of S HEigen)) (b_smul B) (b_sadd B) (b_map B) (b_tr B).
Lemma eval_no_kron rho : forall f e s, eval S B G rho f e s = eval S no_kron G rho f e s.
Proof.
  assert (Bd : forall A C (c c' : E (T := T) A) (k k' : A -> E C) s, (forall s, c s = c' s) -> (forall a s, k a s = k' a s) -> ebind c k s = ebind c' k' s).
  { intros A C c c' k k' s Hc Hk. unfold ebind. rewrite Hc. destruct (c' s) as [[a s']| | |]; auto. }
  induction f as [|f IH]; intros e s; [reflexivity|]. destruct e as [o|k id l r|k id a]; cbn [eval].
  - destruct (g_kind G o); try reflexivity. apply Bd; [reflexivity|intros q s1]. apply Bd; [|reflexivity]. intros s2. destruct (f_vis q); [reflexivity|].
    apply Bd; [reflexivity|intros _ s3]. apply Bd; [apply IH|reflexivity].
  - apply Bd; [reflexivity|intros _ s1]. apply Bd; [apply IH|intros p s2]. apply Bd; [apply IH|intros q s3]. apply Bd; [reflexivity|intros _ s4].
    apply Bd; [|reflexivity]. intros s5. destruct k; reflexivity.
  - apply Bd; [reflexivity|intros _ s1]. apply Bd; [apply IH|intros p s2]. apply Bd; [reflexivity|intros _ s4].
    apply Bd; [|reflexivity]. intros s5. destruct k; reflexivity.
Qed.
Lemma Eval_no_kron rho f e s : Eval S B G rho f e s = Eval S no_kron G rho f e s.
Proof. unfold Eval, ebind. destruct (reset G f e s) as [[[] s1]| | |]; auto using eval_no_kron. Qed.

Hypothesis VS : valid_sched S.
Lemma no_kron_value : value_ok no_kron.
Proof.
  assert (V : value_ok B) by (apply (backend_value VS); discriminate). destruct V. constructor; assumption.
Qed.
Variable host : nat -> option obj.
Variable rank : obj -> nat.
Hypothesis WF : wf_graph G host rank.
Theorem float_call rho e s : Inv G s -> settled G e s -> root host e -> fits G e ->
  exists F n p s', fval G rho e F /\ (forall f, n <= f -> Eval S B G rho f e s = EOk (p, s')) /\ holds (mm s') p (mat_of G e F) /\ Inv G s'.
Proof.
  intros I Hs Hr Hf. destruct (fval_total rho Hf) as (F & HF). destruct (fval_mval WF Hf HF) as (v & Hv & Mv).
  assert (KO : kron_ok no_kron) by exact (eigen_kron S).
  destruct (call_eval VS no_kron_value (or_introl KO) WF I Hs Hr Hv) as (n & p & s' & E & Hp & I' & _).
  exists F, n, p, s'. split; [exact HF|]. split; [|split; [exact (holds_meq Hp Mv)|exact I']].
  intros f Hfu. rewrite Eval_no_kron. auto.
Qed.
End Calls.
