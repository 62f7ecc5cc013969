(** * The matrix derivative is the calculus derivative *)

From Coq Require Import List Arith Bool Lia Reals Lra.
From Verif Require Import Num NumInst MatMem Kernels KernelFacts KernelProofs KernelBlocks KernelMore KernelStep Backend Sums Determ InvCalc MatEngine MatGraph MatLeaf MatSpec.
Import ListNotations.
Set Implicit Arguments.
Unset Strict Implicit.
Local Open Scope nat_scope.

Section Calc.
Variable G : graph R.
Variable host : nat -> option obj.
Variable rank : obj -> nat.
Hypothesis WF : wf_graph G host rank.
Variable x : obj.
Variables i j : nat.

(** Element-wise functions are differentiable, with the given derivative, at the entries
    they are applied to; inverses and determinants are taken of invertible matrices, by
    routines that are right. *)
Inductive smooth (rho : env R) : mexp R -> Prop :=
| sm_leaf o : is_leaf G o -> smooth rho (MLeaf o)
| sm_exp o id e y : g_kind G o = KExp id e y -> smooth rho e -> smooth rho (MLeaf o)
| sm_bin k id l r : smooth rho l -> smooth rho r -> smooth rho (MBin k id l r)
| sm_un k id e : smooth rho e -> match k with USProdE _ _ | USSumE _ _ | UTr | USProd _ | USSum _ => True | _ => False end -> smooth rho (MUn k id e)
| sm_fun f f' id e : smooth rho e ->
    (forall F l k, den G rho e F -> l < rows G e -> k < cols G e -> derivable_pt_lim f (F l k) (f' (F l k))) ->
    smooth rho (MUn (UFun f f') id e)
| sm_inv g id e F X : smooth rho e -> inverts g (rows G e) -> den G rho e F -> is_inverse (rows G e) F X -> smooth rho (MUn (UInv g) id e)
| sm_det g d id e F X : smooth rho e -> inverts g (rows G e) -> measures d (rows G e) -> den G rho e F -> is_inverse (rows G e) F X ->
    smooth rho (MUn (UDet g d) id e).

(** Entry (i,j) of x is the parameter t; the other entries of variable matrices and the
    constants stay; entries that are scalar expressions have the derivatives that e_der
    says (the scalar engine's gradients, see C01 and C12). *)
Record varies (rho_ : R -> env R) (t0 : R) : Prop := {
  va_x : forall t, e_val (rho_ t) x (i * g_cols G x + j) = t;
  va_var : forall t o n, g_kind G o = LVar -> (o <> x \/ n <> i * g_cols G x + j) -> e_val (rho_ t) o n = e_val (rho_ t0) o n;
  va_const : forall t o n, g_kind G o = LConst -> e_val (rho_ t) o n = e_val (rho_ t0) o n;
  va_ent : forall o n, g_kind G o = LEnt ->
      derivable_pt_lim (fun t => e_val (rho_ t) o n) t0 (e_der (rho_ t0) o n x (i * g_cols G x + j))
}.

Lemma lim_ext f g t d : (forall u, f u = g u) -> derivable_pt_lim g t d -> derivable_pt_lim f t d.
Proof.
  intros E H eps Pe. destruct (H eps Pe) as (dl & Hd). exists dl. intros h Nh Hh. rewrite !E. now apply Hd.
Qed.
Lemma lim_eq f t d d' : d = d' -> derivable_pt_lim f t d -> derivable_pt_lim f t d'.
Proof. now intros ->. Qed.
Lemma lim_sum n (f : nat -> R -> R) (d : nat -> R) t : (forall a, a < n -> derivable_pt_lim (f a) t (d a)) ->
  derivable_pt_lim (fun u => sum_n n (fun a => f a u)) t (sum_n n d).
Proof.
  induction n as [|n IH]; intros H; simpl.
  - apply (derivable_pt_lim_const 0%R).
  - apply (derivable_pt_lim_plus (fun u => sum_n n (fun a => f a u)) (f n)); [apply IH; intros; apply H; lia|apply H; lia].
Qed.

Theorem dif_lim rho_ t0 : varies rho_ t0 -> forall e, fits G e -> smooth (rho_ t0) e -> forall F D, dif G (rho_ t0) x e F D ->
  i < g_rows G x -> j < g_cols G x ->
  exists Ft, Ft t0 = F /\ (forall t, den G (rho_ t) e (Ft t)) /\
    forall l k, l < rows G e -> k < cols G e -> derivable_pt_lim (fun t => Ft t l k) t0 (D l k i j).
Proof.
  intros V e Hf Hs F D HD Bi Bj. revert Hf Hs. destruct V as [Vx Vv Vc Ve].
  assert (LF : forall o F, is_leaf G o -> g_kind G o <> LEye -> den G (rho_ t0) (MLeaf o) F ->
    F = (fun a b => e_val (rho_ t0) o (a * g_cols G o + b))).
  { intros o F0 Hl Ne HF. eapply den_det; [exact HF|]. now apply den_leaf. }
  induction HD as [o F Hc HF|o F Hk HF|o F Hk HF|o id e y F D Hk HD IH|id l r F D F' D' HDl IHl HDr IHr|id l r F D F' D' HDl IHl HDr IHr
    |id l r F D F' D' HDl IHl HDr IHr|id l r F D F' D' HDl IHl HDr IHr|id e F D HD IH|c id e F D HD IH|c id e F D HD IH|f f' id e F D HD IH|s vs id e F D HD IH|s vs id e F D HD IH|g id e F D HD IH|g d id e F D HD IH]; intros Hf Hs.
  - (* constants *)
    destruct Hc as [Hc|Hc].
    + assert (Hl : is_leaf G o) by (unfold is_leaf; now rewrite Hc). assert (Ne : g_kind G o <> LEye) by congruence.
      exists (fun t a b => e_val (rho_ t) o (a * g_cols G o + b)). split; [symmetry; now apply LF|]. split; [intros t; now apply den_leaf|].
      intros l k _ _. eapply lim_ext; [intros u; apply Vc; exact Hc|]. apply (derivable_pt_lim_const (e_val (rho_ t0) o (l * g_cols G o + k))).
    + exists (fun _ => F). split; [reflexivity|]. split.
      * intros t. assert (F = fun a b => if a =? b then n1 else n0) as -> by (eapply den_det; [exact HF|now apply den_eye]). now apply den_eye.
      * intros l k _ _. apply (derivable_pt_lim_const (F l k)).
  - (* variables *)
    assert (Hl : is_leaf G o) by (unfold is_leaf; now rewrite Hk). assert (Ne : g_kind G o <> LEye) by congruence.
    exists (fun t a b => e_val (rho_ t) o (a * g_cols G o + b)). split; [symmetry; now apply LF|]. split; [intros t; now apply den_leaf|].
    intros l k Bl Bk. change (k < g_cols G o) in Bk. destruct (Nat.eqb_spec o x) as [->|No]; cbn [andb].
    + destruct (Nat.eqb_spec l i) as [->|Nl], (Nat.eqb_spec k j) as [->|Nk]; cbn [andb].
      * eapply lim_ext; [intros u; apply Vx|]. apply derivable_pt_lim_id.
      * eapply lim_ext; [intros u; apply Vv; [exact Hk|right; lia]|]. apply (derivable_pt_lim_const (e_val (rho_ t0) x (i * g_cols G x + k))).
      * eapply lim_ext; [intros u; apply Vv; [exact Hk|right; nia]|]. apply (derivable_pt_lim_const (e_val (rho_ t0) x (l * g_cols G x + j))).
      * eapply lim_ext; [intros u; apply Vv; [exact Hk|right; nia]|]. apply (derivable_pt_lim_const (e_val (rho_ t0) x (l * g_cols G x + k))).
    + eapply lim_ext; [intros u; apply Vv; [exact Hk|now left]|]. apply (derivable_pt_lim_const (e_val (rho_ t0) o (l * g_cols G o + k))).
  - (* scalar expressions as entries *)
    assert (Hl : is_leaf G o) by (unfold is_leaf; now rewrite Hk). assert (Ne : g_kind G o <> LEye) by congruence.
    exists (fun t a b => e_val (rho_ t) o (a * g_cols G o + b)). split; [symmetry; now apply LF|]. split; [intros t; now apply den_leaf|].
    intros l k _ _. now apply Ve.
  - (* named expressions *)
    assert (Fe : fits G e) by (inversion Hf as [o' Q|o' ? ? ? Q Q2| | |]; subst; [unfold is_leaf in Q; rewrite Hk in Q; tauto|rewrite Hk in Q; injection Q as <- <- <-; exact Q2]).
    assert (Se : smooth (rho_ t0) e) by (inversion Hs as [o' Q|o' ? ? ? Q Q2| | | | |]; subst; [unfold is_leaf in Q; rewrite Hk in Q; tauto|rewrite Hk in Q; injection Q as <- <- <-; exact Q2]).
    destruct (IH Fe Se) as (Ft & E & Hd & Hl). exists Ft. split; [exact E|]. split; [intros t; eapply den_exp; eauto|].
    destruct (wf_dims WF Hk) as [W1 W2]. intros l k Bl Bk. change (l < g_rows G o) in Bl. change (k < g_cols G o) in Bk. apply Hl; congruence.
  - inversion Hf; inversion Hs; subst. destruct IHl as (Ft & E & Hd & Hl); auto. destruct IHr as (Ft' & E' & Hd' & Hl'); auto.
    exists (fun t a b => nadd (Ft t a b) (Ft' t a b)). split; [now rewrite E, E'|]. split; [intros t; now constructor|].
    intros q k Bl Bk. apply (derivable_pt_lim_plus (fun t => Ft t q k) (fun t => Ft' t q k)); [apply Hl|apply Hl']; auto; cbn [rows cols] in *; congruence.
  - inversion Hf; inversion Hs; subst. destruct IHl as (Ft & E & Hd & Hl); auto. destruct IHr as (Ft' & E' & Hd' & Hl'); auto.
    exists (fun t a b => nsub (Ft t a b) (Ft' t a b)). split; [now rewrite E, E'|]. split; [intros t; now constructor|].
    intros q k Bl Bk. apply (derivable_pt_lim_minus (fun t => Ft t q k) (fun t => Ft' t q k)); [apply Hl|apply Hl']; auto; cbn [rows cols] in *; congruence.
  - inversion Hf; inversion Hs; subst. destruct IHl as (Ft & E & Hd & Hl); auto. destruct IHr as (Ft' & E' & Hd' & Hl'); auto.
    exists (fun t a b => nmul (Ft t a b) (Ft' t a b)). split; [now rewrite E, E'|]. split; [intros t; now constructor|].
    intros q k Bl Bk. rewrite <- E, <- E'.
    apply (derivable_pt_lim_mult (fun t => Ft t q k) (fun t => Ft' t q k)); [apply Hl|apply Hl']; auto; cbn [rows cols] in *; congruence.
  - inversion Hf; inversion Hs; subst; try congruence. destruct IHl as (Ft & E & Hd & Hl); auto. destruct IHr as (Ft' & E' & Hd' & Hl'); auto.
    exists (fun t a b => sum_n (cols G l) (fun c => nmul (Ft t a c) (Ft' t c b))). split; [now rewrite E, E'|]. split; [intros t; now constructor|].
    intros q k Bl Bk. rewrite <- E, <- E'. apply (lim_sum (f := fun c t => nmul (Ft t q c) (Ft' t c k))
      (d := fun a => nadd (nmul (D q a i j) (Ft' t0 a k)) (nmul (Ft t0 q a) (D' a k i j)))). intros a Ba.
    apply (derivable_pt_lim_mult (fun t => Ft t q a) (fun t => Ft' t a k)); [apply Hl|apply Hl']; auto; cbn [rows cols] in *; congruence.
  - inversion Hf; inversion Hs; subst. destruct IH as (Ft & E & Hd & Hl); auto.
    exists (fun t a b => Ft t b a). split; [now rewrite E|]. split; [intros t; now constructor|].
    intros q k Bl Bk. apply Hl; auto.
  - inversion Hf; inversion Hs; subst. destruct IH as (Ft & E & Hd & Hl); auto.
    exists (fun t a b => nmul c (Ft t a b)). split; [now rewrite E|]. split; [intros t; now constructor|].
    intros q k Bl Bk. apply (derivable_pt_lim_scal (fun t => Ft t q k)). apply Hl; auto.
  - inversion Hf; inversion Hs; subst. destruct IH as (Ft & E & Hd & Hl); auto.
    exists (fun t a b => nadd c (Ft t a b)). split; [now rewrite E|]. split; [intros t; now constructor|].
    intros q k Bl Bk. eapply lim_eq; [|apply (derivable_pt_lim_plus (fun _ => c) (fun t => Ft t q k)); [apply derivable_pt_lim_const|apply Hl; auto]]. ring.
  - inversion Hf; subst. inversion Hs as [ | | |k0 id0 e0 Q0 Q1|g g' id0 e0 Q0 Q1| |]; subst; [tauto|]. destruct IH as (Ft & E & Hd & Hl); auto.
    exists (fun t a b => f (Ft t a b)). split; [now rewrite E|]. split; [intros t; now constructor|].
    intros q k Bl Bk. rewrite <- E. eapply lim_eq; [|apply (derivable_pt_lim_comp (fun t => Ft t q k) f); [apply Hl; auto|]].
    + reflexivity.
    + apply Q1; auto.
  - assert (Ks : g_kind G s = LEnt) by (inversion Hf as [| | | |? ? ? ? Qu]; exact (proj1 Qu)).
    inversion Hf; inversion Hs; subst. destruct IH as (Ft & E & Hd & Hl); auto.
    exists (fun t a b => nmul (e_val (rho_ t) s 0) (Ft t a b)). split; [now rewrite E|]. split; [intros t; now constructor|].
    intros q k Bl Bk. rewrite <- E.
    apply (derivable_pt_lim_mult (fun t => e_val (rho_ t) s 0) (fun t => Ft t q k)); [now apply Ve|now apply Hl].
  - assert (Ks : g_kind G s = LEnt) by (inversion Hf as [| | | |? ? ? ? Qu]; exact (proj1 Qu)).
    inversion Hf; inversion Hs; subst. destruct IH as (Ft & E & Hd & Hl); auto.
    exists (fun t a b => nadd (e_val (rho_ t) s 0) (Ft t a b)). split; [now rewrite E|]. split; [intros t; now constructor|].
    intros q k Bl Bk. apply (derivable_pt_lim_plus (fun t => e_val (rho_ t) s 0) (fun t => Ft t q k)); [now apply Ve|now apply Hl].
  - assert (Q : fits G e /\ rows G e = cols G e) by (inversion Hf; auto). destruct Q as [Fe Sq].
    inversion Hs as [ | | |k0 id0 e0 Q0 Q1| |g0 id0 e0 F0 X Q0 Q1 Q2 Q3|]; subst; [tauto|]. destruct IH as (Ft & E & Hd & Hl); auto.
    assert (F0 = Ft t0) as -> by (eapply den_det; eauto).
    exists (fun t => inverse g (rows G e) (Ft t)). split; [now rewrite E|]. split; [intros t; now constructor|].
    intros l k Bl Bk. cbn [rows cols] in Bl, Bk.
    eapply lim_eq; [|eapply (inv_derivative (n := rows G e) (Ft := Ft) (Xt := fun t => inverse g (rows G e) (Ft t)) (E := fun a b => D a b i j));
      [intros; apply Hl; congruence|intros u Y HY; eapply Q1; exact HY|eauto|exact Bl|congruence]].
    rewrite E. match goal with |- _ = nmul nm1 ?y => change (- y = -1 * y)%R; ring end.
  - assert (Q : fits G e /\ rows G e = cols G e) by (inversion Hf; auto). destruct Q as [Fe Sq].
    inversion Hs as [ | | |k0 id0 e0 Q0 Q1| | |g0 d0 id0 e0 F0 X Q0 Q1 Qd Q2 Q3]; subst; [tauto|]. destruct IH as (Ft & E & Hd & Hl); auto.
    assert (F0 = Ft t0) as -> by (eapply den_det; eauto).
    exists (fun t _ _ => d (rows G e) (row_major (rows G e) (Ft t))). split; [now rewrite E|]. split; [intros t; now constructor|].
    intros l k _ _. eapply lim_ext; [intros u; apply Qd|]. rewrite Qd, <- E.
    apply (det_derivative (E := fun a b => D a b i j)); [intros; apply Hl; congruence|]. eapply Q1; eauto.
Qed.
End Calc.
