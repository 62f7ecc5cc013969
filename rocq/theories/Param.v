(** * DevalR by matrices of numbers

    DevalR(F, X) does not ask whether X is a matrix of variables (CommonMatFunctions.hpp:95-118):
    neural networks differentiate by their weights, which are Matrix<Type>. *)
From Coq Require Import List Arith Bool Lia Permutation.
From Verif Require Import Num MatMem Kernels KernelFacts KernelProofs KernelBlocks KernelMore Registry KernelStep Backend Slots Exec ConvProofs Sums Determ MatEngine MatGraph MatLeaf MatEval MatDeval MatHist MatSpec MatCalls MatFuel MatRev MatInplace RevVals MatRevOk MatRevCall MatRevHist.
Import ListNotations.
Set Implicit Arguments.
Unset Strict Implicit.

(** The same matrices with x regarded as a matrix of independent variables: derivatives by
    the entries of x are derivatives in this graph. *)
Definition as_var {T} (G : graph T) (x : obj) : graph T :=
  Graph (fun o => if o =? x then LVar else g_kind G o) (g_rows G) (g_cols G) (g_nidx G) (g_vid G).

Section Param.
Context {T : Type} {N : Num T}.
Variable G : graph T.
Variable x : obj.
(** Matrix<Type>, Matrix<Parameter> or Matrix<Variable>. *)
Hypothesis Hx : g_kind G x = LConst \/ g_kind G x = LVar.
Notation G' := (as_var G x).
Variable rho : env T.

Lemma as_var_at : g_kind G' x = LVar.
Proof. simpl. now rewrite Nat.eqb_refl. Qed.
Lemma as_var_other o : o <> x -> g_kind G' o = g_kind G o.
Proof. intros H. simpl. apply Nat.eqb_neq in H. now rewrite H. Qed.
Lemma as_var_kexp o id a y : g_kind G' o = KExp id a y <-> g_kind G o = KExp id a y.
Proof.
  destruct (Nat.eq_dec o x) as [->|Ne]; [rewrite as_var_at; destruct Hx as [E|E]; rewrite E; split; discriminate|]. now rewrite as_var_other.
Qed.
Lemma as_var_eye o : g_kind G' o = LEye <-> g_kind G o = LEye.
Proof.
  destruct (Nat.eq_dec o x) as [->|Ne]; [rewrite as_var_at; destruct Hx as [E|E]; rewrite E; split; discriminate|]. now rewrite as_var_other.
Qed.
Lemma as_var_ent o : g_kind G' o = LEnt <-> g_kind G o = LEnt.
Proof.
  destruct (Nat.eq_dec o x) as [->|Ne]; [rewrite as_var_at; destruct Hx as [E|E]; rewrite E; split; discriminate|]. now rewrite as_var_other.
Qed.
Lemma as_var_leaf o : is_leaf G' o <-> is_leaf G o.
Proof.
  unfold is_leaf. destruct (Nat.eq_dec o x) as [->|Ne]; [rewrite as_var_at; destruct Hx as [E|E]; rewrite E; tauto|]. now rewrite as_var_other.
Qed.
Lemma as_var_dims (e : mexp T) : rows G' e = rows G e /\ cols G' e = cols G e.
Proof.
  induction e as [o|k id l [IH1 IH2] r [IH3 IH4]|k id a [IH1 IH2]]; [split; reflexivity| |].
  - destruct k; split; cbn [rows cols]; assumption.
  - destruct k; split; cbn [rows cols]; auto.
Qed.
Lemma as_var_wf host rank : wf_graph G host rank -> wf_graph G' host rank.
Proof.
  intros [W1 W2 W3 W4 W5]. constructor.
  - exact W1.
  - intros o id e y o' H. apply (proj1 (as_var_kexp _ _ _ _)) in H. eapply W2; eauto.
  - intros o id e y H. apply (proj1 (as_var_kexp _ _ _ _)) in H. eapply W3; eauto.
  - intros o id e y H. apply (proj1 (as_var_kexp _ _ _ _)) in H. destruct (as_var_dims e) as [-> ->]. exact (W4 _ _ _ _ H).
  - intros o id e y H. apply (proj1 (as_var_kexp _ _ _ _)) in H. destruct (as_var_dims e) as [_ ->]. rewrite as_var_eye. exact (W5 _ _ _ _ H).
Qed.
Lemma as_var_fits e : fits G e -> fits G' e.
Proof.
  induction 1 as [o Hl|o id e y Hk Hf IH|id l r Hl IHl Hr IHr E|k id l r Nk Hl IHl Hr IHr E1 E2|k id e He IH Hu].
  - apply fits_leaf. now apply as_var_leaf.
  - eapply fits_exp; [apply as_var_kexp; exact Hk|exact IH].
  - apply fits_prod; auto.
  - apply fits_zip; auto.
  - apply fits_un; [exact IH|]. destruct k; auto; destruct Hu as (H1 & H2 & H3); (split; [now apply as_var_ent|split; [exact H2|]]);
      intros v Hv; destruct (H3 v Hv) as (Q1 & Q2 & Q3); (split; [|split; assumption]); (destruct (Nat.eq_dec v x) as [->|Ne]; [apply as_var_at|rewrite as_var_other by exact Ne; exact Q1]).
Qed.
Lemma as_var_den e F : den G' rho e F <-> den G rho e F.
Proof.
  split; intros H.
  - induction H as [o E|o E1 E2|o id e y F Hk H IH|id l r F F' H1 IH1 H2 IH2|id l r F F' H1 IH1 H2 IH2|id l r F F' H1 IH1 H2 IH2|id l r F F' H1 IH1 H2 IH2|id e F H IH|c id e F H IH|c id e F H IH|f f' id e F H IH|so vs id e F H IH|so vs id e F H IH|g id e F H IH|g d id e F H IH].
    + apply den_eye. now apply as_var_eye.
    + apply as_var_leaf in E1. apply (@den_leaf T N G rho o E1). intros E. apply E2. now apply as_var_eye.
    + eapply den_exp; [apply as_var_kexp; exact Hk|exact IH].
    + now apply den_sum.
    + now apply den_sub.
    + now apply den_had.
    + exact (den_prod (G := G) id IH1 IH2).
    + now apply den_tr.
    + now apply den_sprod.
    + now apply den_ssum.
    + now apply den_fun.
    + now apply den_sprode.
    + now apply den_ssume.
    + exact (den_inv (G := G) g id IH).
    + exact (den_determinant (G := G) g d id IH).
  - induction H as [o E|o E1 E2|o id e y F Hk H IH|id l r F F' H1 IH1 H2 IH2|id l r F F' H1 IH1 H2 IH2|id l r F F' H1 IH1 H2 IH2|id l r F F' H1 IH1 H2 IH2|id e F H IH|c id e F H IH|c id e F H IH|f f' id e F H IH|so vs id e F H IH|so vs id e F H IH|g id e F H IH|g d id e F H IH].
    + apply den_eye. now apply as_var_eye.
    + apply as_var_leaf in E1. apply (@den_leaf T N G' rho o E1). intros E. apply E2. now apply as_var_eye.
    + eapply den_exp; [apply as_var_kexp; exact Hk|exact IH].
    + now apply den_sum.
    + now apply den_sub.
    + now apply den_had.
    + exact (den_prod (G := G') id IH1 IH2).
    + now apply den_tr.
    + now apply den_sprod.
    + now apply den_ssum.
    + now apply den_fun.
    + now apply den_sprode.
    + now apply den_ssume.
    + exact (den_inv (G := G') g id IH).
    + exact (den_determinant (G := G') g d id IH).
Qed.
Lemma as_var_solvable e : solvable G rho e -> solvable G' rho e.
Proof.
  induction e as [o|k id l IHl r IHr|k id a IHa]; simpl; auto.
  - intros [A C]. auto.
  - intros [A C]. split; auto. destruct k; auto. destruct (as_var_dims a) as [-> _]. destruct C as [C1 C2]. split; auto.
    intros F HF. apply C2. now apply as_var_den.
Qed.
Lemma as_var_leaf_mat o : leaf_mat G' rho o = leaf_mat G rho o.
Proof.
  unfold leaf_mat, leaf_entry. simpl. destruct (Nat.eqb_spec o x) as [->|Ne]; [|reflexivity].
  destruct Hx as [E|E]; rewrite E; reflexivity.
Qed.
Lemma as_var_pval e : pval G' rho e = pval G rho e.
Proof. induction e as [o|k id l IHl r IHr|k id a IHa]; simpl; [apply as_var_leaf_mat|now rewrite IHl, IHr|now rewrite IHa]. Qed.
Lemma as_var_vtr e : forall ac, vtr G' rho e ac = vtr G rho e ac.
Proof.
  induction e as [o|k id l IHl r IHr|k id a IHa]; intros ac; simpl; auto.
  - destruct (ac (KNode id)); auto. cbv zeta. rewrite IHr, IHl, !as_var_pval. reflexivity.
  - destruct (ac (KNode id)); auto. rewrite IHa, as_var_pval. reflexivity.
Qed.
Lemma as_var_adjoints a y v : adjoints G' rho a y v = adjoints G rho a y v.
Proof. unfold adjoints, seeds. rewrite as_var_vtr, as_var_leaf_mat. reflexivity. Qed.
End Param.

Lemma leaves_item {T} id (a : mexp T) y o : In o (leaves (item id a y)) <-> In o (y :: leaves a).
Proof. simpl. rewrite in_app_iff. simpl. tauto. Qed.

Section Asked.
Context {T : Type} {N : Num T}.
Variable S : sched T.
Variable B : backend (T := T).
Variable G : graph T.
Variable host : nat -> option obj.
Notation rst := (rst (T := T)).
Hypothesis L : NumLaws N.
Hypothesis VS : valid_sched S.
Variable rank : obj -> nat.
Hypothesis WF : wf_graph G host rank.
Implicit Types (s : rst).

(** x may be differentiated by: its entries are numbers, parameters or variables, its number
    is its own, and the matrices of scalar expressions and the scalar operands in F do not depend
    on it (a scalar operand may if x is one of its scalar variables). *)
Definition differentiable (rho : env T) (a : mexp T) (y x : obj) : Prop := (g_kind G x = LConst \/ g_kind G x = LVar) /\
  (forall o, In o (y :: leaves a) -> (g_nidx G o = g_nidx G x -> o = x) /\ (g_kind G o = LEnt -> forall n k, e_der rho o n x k = n0)) /\
  (forall (so : obj) vs, In (so, vs) (sops a) -> (forall v, In v vs -> g_nidx G v = g_nidx G x -> v = x) /\ (~ In x vs -> forall n, e_der rho so 0 x n = n0)).
(** DevalR(F, x) for x in F, after PreComp(F): the derivative of the trace of F by the entries
    of x, regarded as variables. *)
Lemma gradient_of rho F id a y v x s : rev_root G F id a y -> mval G rho a v -> RInv G s -> precomped G rho F id a y v s ->
  differentiable rho a y x -> solvable G rho a -> In x (keyed a) ->
  exists p F0 D, DevalR G F x s = EOk (p, s) /\ dif (as_var G x) rho x a F0 D /\
    holds (mm (rb s)) p (Mat (g_rows G x) (g_cols G x) (fun i j => sum_n (g_rows G F) (fun l => D l l i j))).
Proof.
  intros [Hk Hp Hi Hq Hf] Hv I P (Xk & Ox & Os) Sv Hin.
  destruct (dif_total rho x (as_var_fits Xk Hf)) as (F0 & D & HD).
  destruct (@adjoint_value T N L (as_var G x) host rank (as_var_wf Xk WF) rho F id a y) with (x := x) (v := v) (F0 := F0) (D := D) as (u & Eu & Mu); auto.
  { now apply as_var_kexp. }
  { intros o Ho. apply as_var_leaf; [exact Xk|]. apply Hp. exact (proj1 (leaves_item id a y o) Ho). }
  { now apply as_var_at. }
  { split; [|intros so vs Q; apply Os; simpl in Q; now rewrite app_nil_r in Q].
    intros o Ho. apply (proj1 (leaves_item id a y o)) in Ho. destruct (Ox o Ho) as [O1 O2]. split; [exact O1|]. intros E. apply O2. exact (proj1 (as_var_ent Xk o) E). }
  { now apply as_var_fits. }
  { now apply as_var_solvable. }
  rewrite (as_var_adjoints Xk) in Eu. cbn [as_var g_nidx] in Eu.
  destruct P as (P1 & P2 & P3). destruct (P1 _ _ Eu) as (p & Ep & Hp').
  exists p, F0, D. split; [now apply dev_some|]. split; [exact HD|]. eapply holds_meq; [exact Hp'|].
  destruct (P3 x u) as [D1 D2]; [apply (proj2 (item_keyed id a y x)); right; exact Hin|exact Eu|]. split; [exact D1|]. split; [exact D2|].
  cbn [mf]. rewrite D1, D2. exact Mu.
Qed.
End Asked.
