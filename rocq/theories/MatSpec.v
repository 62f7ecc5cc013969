(** * Specification: what a matrix expression denotes, and its derivative

    Written entry by entry, without the library's kernels, without its Kronecker products
    and without the unit factor a named expression multiplies with. *)

From Coq Require Import List Arith Bool Lia Ring.
From Verif Require Import Num MatMem Kernels KernelFacts KernelProofs KernelBlocks KernelMore KernelStep Backend Square Exec Sums Determ ConvDerv MatEngine MatGraph MatLeaf MatEval MatDeval.
Import ListNotations.
Set Implicit Arguments.
Unset Strict Implicit.

Section Spec.
Context {T : Type} {N : Num T}.
Variable G : graph T.

(** Inverses and determinants are of square matrices; a scalar operand is an object whose
    entry 0 is a scalar expression, its variables are listed once and are 1x1 matrices of
    variables. *)
Definition scalar_ok (s : obj) (vs : list obj) : Prop :=
  g_kind G s = LEnt /\ NoDup vs /\ forall v, In v vs -> g_kind G v = LVar /\ g_rows G v = 1 /\ g_cols G v = 1.
Definition un_fits (k : uop T) (e : mexp T) : Prop :=
  match k with USProdE s vs | USSumE s vs => scalar_ok s vs | UInv _ | UDet _ _ => rows G e = cols G e | _ => True end.
(** The row-major entries of an n x n matrix, and entry (i,j) of its inverse as computed
    by the routine g. *)
Definition row_major (n : nat) (F : nat -> nat -> T) : list T := map (fun k => F (k / n) (k mod n)) (seq 0 (n * n)).
Definition inverse (g : nat -> list T -> list T) (n : nat) (F : nat -> nat -> T) (i j : nat) : T :=
  nth (i * n + j) (g n (row_major n F)) n0.
(** The operands of every operator have matching dimensions. *)
Inductive fits : mexp T -> Prop :=
| fits_leaf o : is_leaf G o -> fits (MLeaf o)
| fits_exp o id e y : g_kind G o = KExp id e y -> fits e -> fits (MLeaf o)
| fits_prod id l r : fits l -> fits r -> cols G l = rows G r -> fits (MBin BProd id l r)
| fits_zip k id l r : k <> BProd -> fits l -> fits r -> rows G l = rows G r -> cols G l = cols G r -> fits (MBin k id l r)
| fits_un k id e : fits e -> un_fits k e -> fits (MUn k id e).

Variable rho : env T.
(** Entry (i,j) of an expression. *)
Inductive den : mexp T -> (nat -> nat -> T) -> Prop :=
| den_eye o : g_kind G o = LEye -> den (MLeaf o) (fun i j => if i =? j then n1 else n0)
| den_leaf o : is_leaf G o -> g_kind G o <> LEye -> den (MLeaf o) (fun i j => e_val rho o (i * g_cols G o + j))
| den_exp o id e y F : g_kind G o = KExp id e y -> den e F -> den (MLeaf o) F
| den_sum id l r F F' : den l F -> den r F' -> den (MBin BSum id l r) (fun i j => nadd (F i j) (F' i j))
| den_sub id l r F F' : den l F -> den r F' -> den (MBin BSub id l r) (fun i j => nsub (F i j) (F' i j))
| den_had id l r F F' : den l F -> den r F' -> den (MBin BHad id l r) (fun i j => nmul (F i j) (F' i j))
| den_prod id l r F F' : den l F -> den r F' ->
    den (MBin BProd id l r) (fun i j => sum_n (cols G l) (fun a => nmul (F i a) (F' a j)))
| den_tr id e F : den e F -> den (MUn UTr id e) (fun i j => F j i)
| den_sprod c id e F : den e F -> den (MUn (USProd c) id e) (fun i j => nmul c (F i j))
| den_ssum c id e F : den e F -> den (MUn (USSum c) id e) (fun i j => nadd c (F i j))
| den_fun f f' id e F : den e F -> den (MUn (UFun f f') id e) (fun i j => f (F i j))
| den_sprode s vs id e F : den e F -> den (MUn (USProdE s vs) id e) (fun i j => nmul (e_val rho s 0) (F i j))
| den_ssume s vs id e F : den e F -> den (MUn (USSumE s vs) id e) (fun i j => nadd (e_val rho s 0) (F i j))
| den_inv g id e F : den e F -> den (MUn (UInv g) id e) (inverse g (rows G e) F)
| den_determinant g d id e F : den e F -> den (MUn (UDet g d) id e) (fun _ _ => d (rows G e) (row_major (rows G e) F)).

Variable x : obj.
(** Derivative of entry (l,k) of an expression by entry (i,j) of x. *)
Inductive dif : mexp T -> (nat -> nat -> T) -> (nat -> nat -> nat -> nat -> T) -> Prop :=
| dif_const o F : is_const G o -> den (MLeaf o) F -> dif (MLeaf o) F (fun _ _ _ _ => n0)
| dif_var o F : g_kind G o = LVar -> den (MLeaf o) F ->
    dif (MLeaf o) F (fun l k i j => if (o =? x) && (l =? i) && (k =? j) then n1 else n0)
| dif_ent o F : g_kind G o = LEnt -> den (MLeaf o) F ->
    dif (MLeaf o) F (fun l k i j => e_der rho o (l * g_cols G o + k) x (i * g_cols G x + j))
| dif_exp o id e y F D : g_kind G o = KExp id e y -> dif e F D -> dif (MLeaf o) F D
| dif_sum id l r F D F' D' : dif l F D -> dif r F' D' ->
    dif (MBin BSum id l r) (fun i j => nadd (F i j) (F' i j)) (fun l k i j => nadd (D l k i j) (D' l k i j))
| dif_sub id l r F D F' D' : dif l F D -> dif r F' D' ->
    dif (MBin BSub id l r) (fun i j => nsub (F i j) (F' i j)) (fun l k i j => nsub (D l k i j) (D' l k i j))
| dif_had id l r F D F' D' : dif l F D -> dif r F' D' ->
    dif (MBin BHad id l r) (fun i j => nmul (F i j) (F' i j))
      (fun l k i j => nadd (nmul (D l k i j) (F' l k)) (nmul (F l k) (D' l k i j)))
| dif_prod id l r F D F' D' : dif l F D -> dif r F' D' ->
    dif (MBin BProd id l r) (fun i j => sum_n (cols G l) (fun a => nmul (F i a) (F' a j)))
      (fun q k i j => sum_n (cols G l) (fun a => nadd (nmul (D q a i j) (F' a k)) (nmul (F q a) (D' a k i j))))
| dif_tr id e F D : dif e F D -> dif (MUn UTr id e) (fun i j => F j i) (fun l k i j => D k l i j)
| dif_sprod c id e F D : dif e F D -> dif (MUn (USProd c) id e) (fun i j => nmul c (F i j)) (fun l k i j => nmul c (D l k i j))
| dif_ssum c id e F D : dif e F D -> dif (MUn (USSum c) id e) (fun i j => nadd c (F i j)) D
| dif_fun f f' id e F D : dif e F D ->
    dif (MUn (UFun f f') id e) (fun i j => f (F i j)) (fun l k i j => nmul (f' (F l k)) (D l k i j))
| dif_sprode s vs id e F D : dif e F D -> (* d(s F) = ds F + s dF *)
    dif (MUn (USProdE s vs) id e) (fun i j => nmul (e_val rho s 0) (F i j))
      (fun l k i j => nadd (nmul (e_der rho s 0 x (i * g_cols G x + j)) (F l k)) (nmul (e_val rho s 0) (D l k i j)))
| dif_ssume s vs id e F D : dif e F D ->
    dif (MUn (USSumE s vs) id e) (fun i j => nadd (e_val rho s 0) (F i j))
      (fun l k i j => nadd (e_der rho s 0 x (i * g_cols G x + j)) (D l k i j))
| dif_inv g id e F D : dif e F D -> (* -F^-1 (dF) F^-1 *)
    dif (MUn (UInv g) id e) (inverse g (rows G e) F)
      (fun l k i j => nmul nm1 (sum_n (rows G e) (fun b =>
         nmul (sum_n (rows G e) (fun a => nmul (inverse g (rows G e) F l a) (D a b i j))) (inverse g (rows G e) F b k))))
| dif_determinant g d id e F D : dif e F D -> (* det F * trace (F^-1 dF) *)
    dif (MUn (UDet g d) id e) (fun _ _ => d (rows G e) (row_major (rows G e) F))
      (fun _ _ i j => sum_n (rows G e) (fun b => sum_n (rows G e) (fun a =>
         nmul (nmul (d (rows G e) (row_major (rows G e) F)) (inverse g (rows G e) F b a)) (D a b i j)))).

Lemma dif_den e F D : dif e F D -> den e F.
Proof. induction 1; try assumption; try (econstructor; eauto; fail). Qed.

Lemma den_det e F : den e F -> forall F', den e F' -> F = F'.
Proof.
  induction 1; intros F2 HF2; inversion HF2; subst; try congruence; try (f_equal; auto; fail);
    try (match goal with Q : is_leaf _ ?o, Q' : g_kind G ?o = KExp _ _ _ |- _ => unfold is_leaf in Q; rewrite Q' in Q; tauto end);
    try (repeat match goal with IH : forall F', den ?e F' -> _, Q : den ?e ?a |- _ => rewrite (IH _ Q); clear IH end; reflexivity).
  match goal with Q : g_kind G o = KExp _ _ _, Q' : g_kind G o = KExp _ _ _ |- _ => rewrite Q in Q'; injection Q' as <- <- <- end. auto.
Qed.

Lemma den_total e : fits e -> exists F, den e F.
Proof.
  induction 1 as [o Hl|o id e y Hk Hf (F & HF)|id l r Hl (F & HF) Hr (F' & HF') E|k id l r Nk Hl (F & HF) Hr (F' & HF') E1 E2|k id e He (F & HF) Hu].
  - assert (g_kind G o = LEye \/ g_kind G o <> LEye) as [E|E] by (destruct (g_kind G o); auto; right; discriminate);
      eexists; [now apply den_eye|now apply den_leaf].
  - exists F. eapply den_exp; eauto.
  - eexists. eapply den_prod; eauto.
  - destruct k; [..|congruence|]; eexists; [eapply den_sum|eapply den_sub|eapply den_had]; eauto.
  - destruct k; eexists; [eapply den_sprode|eapply den_ssume|eapply den_tr|eapply den_sprod|eapply den_ssum|eapply den_fun|eapply den_inv|eapply den_determinant]; eauto.
Qed.
Lemma dif_total e : fits e -> exists F D, dif e F D.
Proof.
  induction 1 as [o Hl|o id e y Hk Hf (F & D & HF)|id l r Hl (F & D & HF) Hr (F' & D' & HF') E|k id l r Nk Hl (F & D & HF) Hr (F' & D' & HF') E1 E2|k id e He (F & D & HF) Hu].
  - destruct (den_total (fits_leaf Hl)) as (F & HF). exists F. unfold is_leaf in Hl. destruct (g_kind G o) eqn:E; try tauto; eexists.
    + eapply dif_const; [left|]; eauto.
    + eapply dif_const; [right|]; eauto.
    + eapply dif_var; eauto.
    + eapply dif_ent; eauto.
  - exists F, D. eapply dif_exp; eauto.
  - do 2 eexists. eapply dif_prod; eauto.
  - destruct k; [..|congruence|]; do 2 eexists; [eapply dif_sum|eapply dif_sub|eapply dif_had]; eauto.
  - destruct k; do 2 eexists; [eapply dif_sprode|eapply dif_ssume|eapply dif_tr|eapply dif_sprod|eapply dif_ssum|eapply dif_fun|eapply dif_inv|eapply dif_determinant]; eauto.
Qed.
(** As matrices. *)
Definition mat_of e F : mat T := Mat (rows G e) (cols G e) F.
(** Entry (l,k) by entry (i,j) is in row l*xr+i and column k*xc+j. *)
Definition jac_of e D : mat T := layout G x (rows G e) (cols G e) D.
End Spec.

(** ** The kernel sequences compute the specification *)
Section Agree.
Context {T : Type} {N : Num T}.
Variable L : NumLaws N.
Add Ring TRing : (law_ring N L).
Variable G : graph T.
Variable host : nat -> option obj.
Variable rank : obj -> nat.
Hypothesis WF : wf_graph G host rank.
Variable rho : env T.
Notation mat := (mat T).
Notation rows := (rows G).
Notation cols := (cols G).

Lemma mult_eye (v w : mat) n : mc v = n -> meq w (meye n) -> meq (mmul v w) v.
Proof.
  intros E (W1 & W2 & W3). simpl in W1, W2. split; [reflexivity|]. split; [simpl; congruence|]. simpl. intros i j Hi Hj.
  rewrite W2 in Hj. rewrite (sum_n_ext (g := fun k => nmul (mf v i k) (if k =? j then n1 else n0))).
  - apply (sum_delta_mul_r L). congruence.
  - intros k Hk. f_equal. rewrite W3 by congruence. reflexivity.
Qed.
Lemma eye_leaf y n : g_kind G y = LEye -> g_rows G y = n -> g_cols G y = n -> meq (leaf_mat G rho y) (meye n).
Proof.
  intros Hk E1 E2. split; [exact E1|]. split; [exact E2|]. simpl. intros i j Hi Hj. unfold leaf_entry. rewrite Hk.
  destruct (divmod_block i Hj) as [-> ->]. reflexivity.
Qed.
Lemma eye_is_leaf y : g_kind G y = LEye -> is_leaf G y.
Proof. intros H. unfold is_leaf. now rewrite H. Qed.

Lemma fits_dims o id e y : g_kind G o = KExp id e y -> rows e = g_rows G o /\ cols e = g_cols G o.
Proof. intros Hk. destruct (wf_dims WF Hk). auto. Qed.

Theorem den_mval e : fits G e -> forall F, den G rho e F -> exists v, mval G rho e v /\ meq v (mat_of G e F).
Proof.
  induction 1 as [o Hl|o id e y Hk Hf IH|id l r Hl IHl Hr IHr E|k id l r Nk Hl IHl Hr IHr E1 E2|k id e He IH Hu]; intros F HF.
  - exists (leaf_mat G rho o). split; [now constructor|]. split; [reflexivity|]. split; [reflexivity|]. simpl. intros i j Hi Hj. unfold leaf_entry.
    inversion HF; subst.
    + match goal with Q : g_kind G o = LEye |- _ => rewrite Q end. destruct (divmod_block i Hj) as [-> ->]. reflexivity.
    + destruct (g_kind G o); congruence.
    + match goal with Q : g_kind G o = KExp _ _ _ |- _ => unfold is_leaf in Hl; rewrite Q in Hl; tauto end.
  - inversion HF as [o' Q|o' Q| | | | | | | | | | | | |]; subst; [congruence|unfold is_leaf in Q; rewrite Hk in Q; tauto|].
    match goal with Q : g_kind G o = _ |- _ => rewrite Hk in Q; injection Q as <- <- <- end.
    match goal with Q : den _ _ e F |- _ => destruct (IH F Q) as (v & Hv & Mv) end.
    destruct (wf_eye WF Hk) as (Ky & Ry & Cy). pose proof Mv as (Rv & Cv & _). simpl in Rv, Cv.
    exists (mmul v (leaf_mat G rho y)). split.
    + eapply mval_exp; [exact Hk|]. apply (mval_bin (k := BProd)); [exact Hv|constructor; now apply eye_is_leaf|]. simpl. congruence.
    + eapply meq_trans; [eapply mult_eye; [exact Cv|now apply eye_leaf]|].
      destruct (fits_dims Hk) as [D1 D2]. destruct Mv as (_ & _ & Mv). split; [change (mr v = g_rows G o); congruence|]. split; [change (mc v = g_cols G o); congruence|exact Mv].
  - inversion HF; subst.
    match goal with Ql : den _ _ l ?a, Qr : den _ _ r ?b |- _ => destruct (IHl a Ql) as (v & Hv & Mv), (IHr b Qr) as (w & Hw & Mw) end.
    pose proof Mv as (Rv & Cv & _). pose proof Mw as (Rw & Cw & _). simpl in Rv, Cv, Rw, Cw.
    exists (mmul v w). split; [apply (mval_bin (k := BProd)); auto; simpl; congruence|].
    eapply meq_trans; [apply meq_mul; [exact Mv|exact Mw|congruence]|]. split; [reflexivity|]. split; [reflexivity|]. reflexivity.
  - destruct k; [| |congruence|]; inversion HF; subst;
    match goal with Ql : den _ _ l ?a, Qr : den _ _ r ?b |- _ => destruct (IHl a Ql) as (v & Hv & Mv), (IHr b Qr) as (w & Hw & Mw) end;
    pose proof Mv as (Rv & Cv & _); pose proof Mw as (Rw & Cw & _); simpl in Rv, Cv, Rw, Cw;
    (assert (Sd : same_dims v w) by (split; congruence)).
    + exists (madd v w). split; [apply (mval_bin (k := BSum)); auto|].
      eapply meq_trans; [apply meq_zip; [exact Mv|exact Mw|exact Sd]|]. split; [reflexivity|]. split; [exact E2|]. reflexivity.
    + exists (msub v w). split; [apply (mval_bin (k := BSub)); auto|].
      eapply meq_trans; [apply meq_zip; [exact Mv|exact Mw|exact Sd]|]. split; [reflexivity|]. split; [exact E2|]. reflexivity.
    + exists (mhad v w). split; [apply (mval_bin (k := BHad)); auto|].
      eapply meq_trans; [apply meq_zip; [exact Mv|exact Mw|exact Sd]|]. split; [reflexivity|]. split; [exact E2|]. reflexivity.
  - destruct k; inversion HF; subst; match goal with Q : den _ _ e ?a |- _ => destruct (IH a Q) as (v & Hv & Mv) end;
      [exists (un_val rho (USProdE s vs) v)|exists (un_val rho (USSumE s vs) v)|exists (un_val rho UTr v)|exists (un_val rho (USProd c) v)|exists (un_val rho (USSum c) v)|exists (un_val rho (UFun f f') v)
      |exists (un_val rho (UInv g) v)|exists (un_val rho (UDet g d) v)];
      (split; [constructor; [exact Hv|]; pose proof Mv as (Rv & Cv & _); simpl in Rv, Cv, Hu |- *; first [exact Logic.I|congruence]|]);
      [eapply meq_trans; [exact (meq_map _ Mv)|]|eapply meq_trans; [exact (meq_map _ Mv)|]|eapply meq_trans; [exact (meq_tr Mv)|]|eapply meq_trans; [exact (meq_map _ Mv)|]..
      |eapply meq_trans; [exact (meq_inv _ Mv)|]|eapply meq_trans; [exact (meq_det _ Mv)|]];
      (split; [reflexivity|]; split; [reflexivity|]); simpl in Hu; try reflexivity; intros; unfold minv, mdet, inverse, row_major, flat, mat_of; cbn [mf mr mc]; rewrite <- ?Hu; reflexivity.
Qed.

Variable x : obj.
Notation xr := (g_rows G x).
Notation xc := (g_cols G x).

Lemma layout_ext R C D D' : (forall l k i j, l < R -> k < C -> i < xr -> j < xc -> D l k i j = D' l k i j) ->
  meq (layout G x R C D) (layout G x R C D').
Proof.
  intros H. destruct (wf_pos WF x) as [PX PY]. split; [reflexivity|]. split; [reflexivity|]. simpl. intros s t Hs Ht.
  destruct (divmod_lt PX Hs) as (A1 & A2 & _), (divmod_lt PY Ht) as (B1 & B2 & _). now apply H.
Qed.
(** Block product rules. *)
Lemma kron_mul v w R C D : mr v = R -> mc w = C * xc -> mr w = mc v * xr -> meq w (layout G x (mc v) C D) ->
  meq (mmul (mkron v (meye xr)) w) (layout G x R C (fun l k i j => sum_n (mc v) (fun a => nmul (mf v l a) (D a k i j)))).
Proof.
  intros E1 E2 E3 (_ & _ & Mw). destruct (wf_pos WF x) as [PX PY]. split; [simpl; congruence|]. split; [exact E2|]. simpl. intros s t Hs Ht.
  rewrite E1 in Hs. rewrite E2 in Ht. destruct (divmod_lt PX Hs) as (A1 & A2 & A3), (divmod_lt PY Ht) as (B1 & B2 & _).
  rewrite (sum_prod L). apply sum_n_ext. intros a Ha.
  rewrite (sum_n_ext (g := fun b => nmul (nmul (mf v (s / xr) a) (D a (t / xc) b (t mod xc))) (if b =? s mod xr then n1 else n0))).
  - apply (sum_delta_mul_r L (fun b => nmul (mf v (s / xr) a) (D a (t / xc) b (t mod xc))) A2).
  - intros b Hb. destruct (divmod_block a Hb) as [Da Db]. rewrite Da, Db, (Nat.eqb_sym b).
    rewrite Mw by (rewrite ?E2, ?E3; auto; now apply idx_bound). simpl. rewrite Da, Db. ring.
Qed.
Lemma mul_kron v w n R C D : mr v = R * xr -> mc v = n * xc -> mr w = n -> mc w = C -> meq v (layout G x R n D) ->
  meq (mmul v (mkron w (meye xc))) (layout G x R C (fun l k i j => sum_n n (fun a => nmul (D l a i j) (mf w a k)))).
Proof.
  intros E1 E2 E3 E4 (_ & _ & Mv). destruct (wf_pos WF x) as [PX PY]. split; [exact E1|]. split; [simpl; congruence|]. simpl. intros s t Hs Ht.
  rewrite E1 in Hs. rewrite E4 in Ht. destruct (divmod_lt PX Hs) as (A1 & A2 & A3), (divmod_lt PY Ht) as (B1 & B2 & _).
  rewrite E2. rewrite (sum_prod L). apply sum_n_ext. intros a Ha.
  rewrite (sum_n_ext (g := fun b => nmul (nmul (D (s / xr) a (s mod xr) b) (mf w a (t / xc))) (if b =? t mod xc then n1 else n0))).
  - apply (sum_delta_mul_r L (fun b => nmul (D (s / xr) a (s mod xr) b) (mf w a (t / xc))) B2).
  - intros b Hb. destruct (divmod_block a Hb) as [Da Db]. rewrite Da, Db.
    rewrite Mv by (rewrite ?E1, ?E2; auto; now apply idx_bound). simpl. rewrite Da, Db. ring.
Qed.
Lemma kron_had v w R C D : mr v = R -> mc v = C -> mr w = R * xr -> mc w = C * xc -> meq w (layout G x R C D) ->
  meq (mhad (mkron v (mones xr xc)) w) (layout G x R C (fun l k i j => nmul (mf v l k) (D l k i j))).
Proof.
  intros E1 E2 E3 E4 (_ & _ & Mw). split; [simpl; congruence|]. split; [simpl; congruence|]. simpl. intros s t Hs Ht.
  rewrite E1 in Hs. rewrite E2 in Ht. rewrite Mw by congruence. simpl. ring.
Qed.
Lemma had_kron v w R C D : mr v = R * xr -> mc v = C * xc -> meq v (layout G x R C D) ->
  meq (mhad v (mkron w (mones xr xc))) (layout G x R C (fun l k i j => nmul (D l k i j) (mf w l k))).
Proof.
  intros E1 E2 (_ & _ & Mv). split; [exact E1|]. split; [exact E2|]. simpl. intros s t Hs Ht. rewrite Mv by auto. simpl. ring.
Qed.
Lemma layout_zip op R C D D' : meq (mzip op (layout G x R C D) (layout G x R C D')) (layout G x R C (fun l k i j => op (D l k i j) (D' l k i j))).
Proof. apply meq_refl. Qed.
Lemma scalar_layout s R C : meq (mkron (mones R C) (sder G rho x s)) (layout G x R C (fun _ _ i j => e_der rho s 0 x (i * xc + j))).
Proof. split; [reflexivity|]. split; [reflexivity|]. simpl. intros q t _ _. ring. Qed.
Lemma meq_layout_dims v R C D : meq v (layout G x R C D) -> mr v = R * xr /\ mc v = C * xc.
Proof. intros (A & A' & _). auto. Qed.

(** The computation differentiates by x, the specification by z; s1, s2: the entry of z that is entry (i, j) of x. *)
Section Renamed.
Variables (z : obj) (s1 s2 : nat -> nat -> nat).
Definition renamed (D : nat -> nat -> nat -> nat -> T) : nat -> nat -> nat -> nat -> T := fun l k i j => D l k (s1 i j) (s2 i j).
Hypothesis Leaf : forall o F D, is_leaf G o -> dif G rho z (MLeaf o) F D -> forall l k i j, l < g_rows G o -> k < g_cols G o -> i < xr -> j < xc ->
  leaf_der G rho x o l k i j = renamed D l k i j.

Hypothesis Scal : forall s i j, i < xr -> j < xc ->
  e_der rho s 0 x (i * xc + j) = e_der rho s 0 z (s1 i j * g_cols G z + s2 i j).

Theorem dif_mder_renamed e : fits G e -> forall F D, dif G rho z e F D ->
  exists v dv, mder G rho x e v dv /\ meq v (mat_of G e F) /\ meq dv (jac_of G x e (renamed D)).
Proof.
  induction 1 as [o Hl|o id e y Hk Hf IH|id l r Hl IHl Hr IHr E|k id l r Nk Hl IHl Hr IHr E1 E2|k id e He IH Hu]; intros F D HD.
  - exists (leaf_mat G rho o), (leaf_dmat G rho x o). split; [now constructor|]. split.
    + destruct (den_mval (fits_leaf Hl) (dif_den HD)) as (v & Hv & Mv). inversion Hv; subst; [exact Mv|].
      match goal with Q : g_kind G o = KExp _ _ _ |- _ => unfold is_leaf in Hl; rewrite Q in Hl; tauto end.
    + apply layout_ext. intros l k i j. eapply Leaf; eauto.
  - inversion HD as [o' F' Hc|o' F' Q|o' F' Q|o' id' e' y' F' D' Q HD'| | | | | | | | | | | |]; subst; [destruct Hc; congruence|congruence|congruence|].
    rewrite Hk in Q; injection Q as <- <- <-.
    destruct (IH F D HD') as (v & dv & Hv & Mv & Mdv).
    destruct (wf_eye WF Hk) as (Ky & Ry & Cy). pose proof Mv as (Rv & Cv & _). simpl in Rv, Cv. destruct (meq_layout_dims Mdv) as [Rd Cd].
    destruct (fits_dims Hk) as [D1 D2].
    exists (mmul v (leaf_mat G rho y)), (bin_der G x BProd v dv (leaf_mat G rho y) (leaf_dmat G rho x y)). split; [|split].
    + eapply mder_exp; [exact Hk|]. apply (mder_bin (k := BProd)); [exact Hv|constructor; now apply eye_is_leaf|]. simpl. congruence.
    + eapply meq_trans; [eapply mult_eye; [exact Cv|now apply eye_leaf]|].
      destruct Mv as (_ & _ & Mv). split; [change (mr v = g_rows G o); congruence|]. split; [change (mc v = g_cols G o); congruence|exact Mv].
    + cbn [bin_der].
      assert (Z : meq (leaf_dmat G rho x y) (layout G x (mc v) (cols e) (fun _ _ _ _ => n0))).
      { split; [simpl; congruence|]. split; [simpl; congruence|]. simpl. intros s t _ _. unfold leaf_der. now rewrite Ky. }
      pose proof (@kron_mul v (leaf_dmat G rho x y) (rows e) (cols e) _ Rv ltac:(simpl; congruence) ltac:(simpl; congruence) Z) as M1.
      pose proof (@mul_kron dv (leaf_mat G rho y) (cols e) (rows e) (cols e) (renamed D) Rd Cd Ry Cy Mdv) as M2.
      eapply meq_trans; [apply meq_zip; [exact M1|exact M2|split; cbn [mkron mmul mhad mzip meye mones leaf_mat leaf_dmat layout mr mc]; rewrite ?Rv, ?Cv, ?Rw, ?Cw; congruence]|].
      unfold jac_of. cbn [MatEngine.rows MatEngine.cols]. rewrite <- D1, <- D2.
      eapply meq_trans; [apply layout_zip|]. apply layout_ext. intros q k i j Bq Bk Bi Bj.
      rewrite (sum_zero L) by (intros; ring).
      rewrite (sum_n_ext (g := fun a => nmul (renamed D q a i j) (if a =? k then n1 else n0))).
      * rewrite (sum_delta_mul_r L (fun a => renamed D q a i j) Bk). ring.
      * intros a Ha. f_equal. destruct (eye_leaf Ky Ry Cy) as (_ & _ & Me). rewrite Me; [reflexivity|simpl; congruence|simpl; congruence].
  - inversion HD; subst.
    match goal with Ql : dif _ _ _ l ?a ?b, Qr : dif _ _ _ r ?c ?d |- _ =>
      destruct (IHl a b Ql) as (v & dv & Hv & Mv & Mdv), (IHr c d Qr) as (w & dw & Hw & Mw & Mdw) end.
    pose proof Mv as (Rv & Cv & Vv). pose proof Mw as (Rw & Cw & Vw). simpl in Rv, Cv, Rw, Cw, Vv, Vw.
    destruct (meq_layout_dims Mdv) as [Rdv Cdv]. destruct (meq_layout_dims Mdw) as [Rdw Cdw].
    exists (mmul v w), (bin_der G x BProd v dv w dw). split; [|split].
    + apply (mder_bin (k := BProd)); auto. simpl. congruence.
    + eapply meq_trans; [apply meq_mul; [exact Mv|exact Mw|congruence]|]. split; [reflexivity|]. split; [reflexivity|]. reflexivity.
    + cbn [bin_der]. assert (Mdw' : meq dw (layout G x (mc v) (cols r) (renamed D'))) by (rewrite Cv, E; exact Mdw).
      pose proof (@kron_mul v dw (rows l) (cols r) _ Rv Cdw ltac:(congruence) Mdw') as M1.
      pose proof (@mul_kron dv w (cols l) (rows l) (cols r) _ Rdv Cdv ltac:(congruence) Cw Mdv) as M2.
      eapply meq_trans; [apply meq_zip; [exact M1|exact M2|split; cbn [mkron mmul mhad mzip meye mones leaf_mat leaf_dmat layout mr mc]; rewrite ?Rv, ?Cv, ?Rw, ?Cw; congruence]|].
      eapply meq_trans; [apply layout_zip|]. apply layout_ext. intros q k i j Bq Bk Bi Bj.
      rewrite Cv, <- (sum_add L). apply sum_n_ext. intros a Ha.
      rewrite Vv by (rewrite ?Rv, ?Cv; assumption). rewrite Vw by (rewrite ?Rw, ?Cw, <- ?E; assumption). unfold renamed. ring.
  - destruct k; [| |congruence|]; inversion HD; subst;
    (match goal with Ql : dif _ _ _ l ?a ?b, Qr : dif _ _ _ r ?c ?d |- _ =>
      destruct (IHl a b Ql) as (v & dv & Hv & Mv & Mdv), (IHr c d Qr) as (w & dw & Hw & Mw & Mdw) end);
    pose proof Mv as (Rv & Cv & Vv); pose proof Mw as (Rw & Cw & Vw); simpl in Rv, Cv, Rw, Cw, Vv, Vw;
    destruct (meq_layout_dims Mdv) as [Rdv Cdv]; destruct (meq_layout_dims Mdw) as [Rdw Cdw];
    (assert (Sd : same_dims v w) by (split; congruence)); (assert (Sdd : same_dims dv dw) by (split; congruence)).
    + exists (madd v w), (madd dv dw). split; [apply (mder_bin (k := BSum)); auto|]. split.
      * eapply meq_trans; [apply meq_zip; [exact Mv|exact Mw|exact Sd]|]. split; [reflexivity|]. split; [exact E2|]. reflexivity.
      * eapply meq_trans; [apply meq_zip; [exact Mdv|exact Mdw|exact Sdd]|]. split; [reflexivity|]. split; [change (cols l * xc = cols r * xc); congruence|]. reflexivity.
    + exists (msub v w), (msub dv dw). split; [apply (mder_bin (k := BSub)); auto|]. split.
      * eapply meq_trans; [apply meq_zip; [exact Mv|exact Mw|exact Sd]|]. split; [reflexivity|]. split; [exact E2|]. reflexivity.
      * eapply meq_trans; [apply meq_zip; [exact Mdv|exact Mdw|exact Sdd]|]. split; [reflexivity|]. split; [change (cols l * xc = cols r * xc); congruence|]. reflexivity.
    + exists (mhad v w), (bin_der G x BHad v dv w dw). split; [apply (mder_bin (k := BHad)); auto|]. split.
      * eapply meq_trans; [apply meq_zip; [exact Mv|exact Mw|exact Sd]|]. split; [reflexivity|]. split; [exact E2|]. reflexivity.
      * cbn [bin_der].
        assert (Mdw' : meq dw (layout G x (rows l) (cols l) (renamed D'))) by (rewrite E1, E2; exact Mdw).
        pose proof (@kron_had v dw (rows l) (cols l) (renamed D') Rv Cv ltac:(congruence) ltac:(congruence) Mdw') as M1.
        pose proof (@had_kron dv w (rows l) (cols l) _ Rdv Cdv Mdv) as M2.
        eapply meq_trans; [apply meq_zip; [exact M1|exact M2|split; cbn [mkron mmul mhad mzip meye mones leaf_mat leaf_dmat layout mr mc]; rewrite ?Rv, ?Cv, ?Rw, ?Cw; congruence]|].
        eapply meq_trans; [apply layout_zip|]. unfold jac_of. cbn [MatEngine.rows MatEngine.cols]. rewrite <- E2.
        apply layout_ext. intros q k i j Bq Bk Bi Bj. rewrite Vv by (rewrite ?Rv, ?Cv; assumption). rewrite Vw by (rewrite ?Rw, ?Cw, <- ?E1, <- ?E2; assumption). unfold renamed. ring.
  - destruct k; inversion HD; subst; (match goal with Q : dif _ _ _ e ?a ?b |- _ => destruct (IH a b Q) as (v & dv & Hv & Mv & Mdv) end);
    pose proof Mv as (Rv & Cv & Vv); simpl in Rv, Cv, Vv; destruct (meq_layout_dims Mdv) as [Rdv Cdv]; destruct (wf_pos WF x) as [PX PY].
    + exists (un_val rho (USProdE s vs) v), (un_der G rho x (USProdE s vs) v dv). split; [constructor; simpl; auto|]. split.
      * eapply meq_trans; [exact (meq_map _ Mv)|]. split; [reflexivity|]. split; [reflexivity|]. reflexivity.
      * cbn [un_der]. rewrite Rv, Cv.
        pose proof (@had_kron (mkron (mones (rows e) (cols e)) (sder G rho x s)) v (rows e) (cols e) _ ltac:(reflexivity) ltac:(reflexivity) (scalar_layout s (rows e) (cols e))) as M1.
        eapply meq_trans; [apply meq_zip; [exact (meq_map _ Mdv)|exact M1|split; cbn [mmap mhad mzip mkron mones sder mfill mr mc]; congruence]|].
        unfold jac_of. cbn [MatEngine.rows MatEngine.cols].
        split; [reflexivity|]. split; [reflexivity|]. simpl. intros q t Hq Ht.
        destruct (divmod_lt PX Hq) as (A1 & A2 & _), (divmod_lt PY Ht) as (B1 & B2 & _).
        rewrite Vv by (rewrite ?Rv, ?Cv; assumption). unfold renamed. rewrite (Scal s A2 B2). ring.
    + exists (un_val rho (USSumE s vs) v), (un_der G rho x (USSumE s vs) v dv). split; [constructor; simpl; auto|]. split.
      * eapply meq_trans; [exact (meq_map _ Mv)|]. split; [reflexivity|]. split; [reflexivity|]. reflexivity.
      * cbn [un_der]. rewrite Rv, Cv.
        eapply meq_trans; [apply meq_zip; [apply scalar_layout|exact Mdv|split; cbn [mkron mones sder mfill mr mc]; congruence]|].
        unfold jac_of. cbn [MatEngine.rows MatEngine.cols].
        split; [reflexivity|]. split; [reflexivity|]. simpl. intros q t Hq Ht.
        destruct (divmod_lt PX Hq) as (A1 & A2 & _), (divmod_lt PY Ht) as (B1 & B2 & _).
        unfold renamed. now rewrite (Scal s A2 B2).
    + exists (un_val rho UTr v), (un_der G rho x UTr v dv). split; [constructor; simpl; auto|]. split.
      * eapply meq_trans; [exact (meq_tr Mv)|]. split; [reflexivity|]. split; [reflexivity|]. reflexivity.
      * cbn [un_der]. rewrite Rv, Cv. eapply meq_trans; [apply meq_dtr; [exact Mdv|exact Rdv|exact Cdv|exact PX|exact PY]|].
        split; [reflexivity|]. split; [reflexivity|]. simpl. intros s t Hs Ht.
        destruct (divmod_lt PX Hs) as (A1 & A2 & _), (divmod_lt PY Ht) as (B1 & B2 & _).
        destruct (divmod_block (t / xc) A2) as [-> ->]. destruct (divmod_block (s / xr) B2) as [-> ->]. reflexivity.
    + exists (un_val rho (USProd c) v), (un_der G rho x (USProd c) v dv). split; [constructor; simpl; auto|]. split.
      * eapply meq_trans; [exact (meq_map _ Mv)|]. split; [reflexivity|]. split; [reflexivity|]. reflexivity.
      * cbn [un_der]. eapply meq_trans; [exact (meq_map _ Mdv)|]. split; [reflexivity|]. split; [reflexivity|]. reflexivity.
    + exists (un_val rho (USSum c) v), (un_der G rho x (USSum c) v dv). split; [constructor; simpl; auto|]. split.
      * eapply meq_trans; [exact (meq_map _ Mv)|]. split; [reflexivity|]. split; [reflexivity|]. reflexivity.
      * exact Mdv.
    + exists (un_val rho (UFun f f') v), (un_der G rho x (UFun f f') v dv). split; [constructor; simpl; auto|]. split.
      * eapply meq_trans; [exact (meq_map _ Mv)|]. split; [reflexivity|]. split; [reflexivity|]. reflexivity.
      * cbn [un_der].
        pose proof (@kron_had (mmap f' v) dv (rows e) (cols e) _ Rv Cv Rdv Cdv Mdv) as M1.
        eapply meq_trans; [exact M1|]. apply layout_ext. intros q k i j Bq Bk Bi Bj. simpl. rewrite Vv by (rewrite ?Rv, ?Cv; assumption). reflexivity.
    + simpl in Hu. assert (Sq : mr v = mc v) by congruence.
      assert (Mi : meq (minv g v) (Mat (rows e) (cols e) (inverse g (rows e) F0))).
      { eapply meq_trans; [exact (meq_inv g Mv)|]. split; [reflexivity|]. split; [reflexivity|]. simpl. intros. unfold inverse, row_major, flat, mat_of. simpl. now rewrite <- Hu. }
      exists (un_val rho (UInv g) v), (un_der G rho x (UInv g) v dv). split; [constructor; simpl; auto|]. split; [exact Mi|].
      destruct Mi as (_ & _ & Mi). cbn [mr mc mf minv] in Mi.
      cbn [un_der].
      assert (M1 : meq (mmul (mkron (minv g v) (meye xr)) dv) (layout G x (rows e) (cols e) (fun l k i j => sum_n (mc v) (fun a => nmul (mf (minv g v) l a) (renamed D0 a k i j))))).
      { apply (@kron_mul (minv g v) dv (rows e) (cols e)); cbn [minv mr mc]; auto; try congruence. rewrite <- Sq, Rv. exact Mdv. }
      assert (M2 : meq (mmul (mmul (mkron (minv g v) (meye xr)) dv) (mkron (minv g v) (meye xc))) (layout G x (rows e) (cols e) (fun l k i j => sum_n (cols e) (fun b => nmul (sum_n (mc v) (fun a => nmul (mf (minv g v) l a) (renamed D0 a b i j))) (mf (minv g v) b k))))).
      { apply (@mul_kron _ (minv g v) (cols e) (rows e) (cols e)); cbn [minv mmul mkron meye mr mc]; auto; try congruence. }
      eapply meq_trans; [apply meq_map; exact M2|]. split; [reflexivity|]. split; [reflexivity|]. simpl. intros s t Hs Ht.
      destruct (divmod_lt PX Hs) as (A1 & A2 & _), (divmod_lt PY Ht) as (B1 & B2 & _). rewrite <- Hu. unfold renamed. f_equal.
      assert (Ec : mc v = rows e) by congruence. apply sum_n_ext. intros b Hb. f_equal; [|apply Mi; congruence].
      etransitivity; [|apply (f_equal (fun n => sum_n n _) Ec)]. apply sum_n_ext. intros a Ha. f_equal. apply Mi; congruence.
    + simpl in Hu. assert (Sq : mr v = mc v) by congruence.
      assert (Fl : flat v = row_major (rows e) F0).
      { rewrite (flat_meq Mv). unfold flat, row_major, mat_of. cbn [mr mc mf]. now rewrite <- Hu. }
      exists (un_val rho (UDet g d) v), (un_der G rho x (UDet g d) v dv). split; [constructor; simpl; auto|]. split.
      { split; [reflexivity|]. split; [reflexivity|]. simpl. intros _ _ _ _. now rewrite Fl, Rv. }
      assert (Mi : forall i j, i < rows e -> j < rows e -> mf (minv g v) i j = inverse g (rows e) F0 i j).
      { intros. cbn [minv mf]. unfold inverse. now rewrite Fl, <- Sq, Rv. }
      cbn [un_der]. set (w := mmap (nmul (d (mr v) (flat v))) (mtr (minv g v))).
      assert (M0 : meq (mhad (mkron w (mones xr xc)) dv) (layout G x (rows e) (cols e) (fun l k i j => nmul (mf w l k) (renamed D0 l k i j)))).
      { apply (@kron_had w dv (rows e) (cols e)); unfold w; cbn [mmap mtr minv mr mc]; auto; congruence. }
      assert (M1 : meq (mmul (mkron (mones 1 (mr v)) (meye xr)) (mhad (mkron w (mones xr xc)) dv))
                       (layout G x 1 (cols e) (fun l k i j => sum_n (mr v) (fun a => nmul (mf (mones 1 (mr v)) l a) (nmul (mf w a k) (renamed D0 a k i j)))))).
      { apply (@kron_mul (mones 1 (mr v)) _ 1 (cols e)); cbn [mhad mzip mkron mones meye mr mc]; auto.
        - unfold w. cbn [mmap mtr minv mr mc]. congruence.
        - rewrite Rv. exact M0. }
      assert (M2 : meq (mmul (mmul (mkron (mones 1 (mr v)) (meye xr)) (mhad (mkron w (mones xr xc)) dv)) (mkron (mones (mr v) 1) (meye xc)))
                       (layout G x 1 1 (fun l k i j => sum_n (cols e) (fun b => nmul (sum_n (mr v) (fun a => nmul (mf (mones 1 (mr v)) l a) (nmul (mf w a b) (renamed D0 a b i j)))) (mf (mones (mr v) 1) b k))))).
      { apply (@mul_kron _ (mones (mr v) 1) (cols e) 1 1); auto.
        - cbn [mmul mhad mzip mkron mones mc]. unfold w. cbn [mmap mtr minv mr mc]. congruence.
        - cbn [mones mr]. congruence. }
      eapply meq_trans; [exact M2|]. unfold jac_of. cbn [MatEngine.rows MatEngine.cols].
      apply layout_ext. intros l k i j _ _ Bi Bj. rewrite <- Hu. apply sum_n_ext. intros b Hb.
      cbn [mones mf]. rewrite Rv.
      match goal with |- nmul ?y n1 = _ => transitivity y; [ring|] end.
      apply sum_n_ext. intros a Ha. unfold w. cbn [mmap mtr mf]. rewrite (Mi b a Hb Ha), Fl, ?Rv. unfold renamed. ring.
Qed.
End Renamed.

Hypothesis Xvar : g_kind G x = LVar.
Hypothesis DV : distinct_vars G.
Lemma leaf_der_dif o F D : is_leaf G o -> dif G rho x (MLeaf o) F D -> forall l k i j, l < g_rows G o -> k < g_cols G o -> i < xr -> j < xc ->
  leaf_der G rho x o l k i j = D l k i j.
Proof.
  intros Hl HD l k i j Bl Bk Bi Bj. unfold leaf_der. inversion HD as [o' F' Hc|o' F' Hk|o' F' Hk|o' id e y F' D' Hk| | | | | | | | | | | |]; subst.
  - destruct Hc as [-> | ->]; reflexivity.
  - rewrite Hk. destruct (Nat.eq_dec o x) as [->|Ne].
    + rewrite !Nat.eqb_refl. reflexivity.
    + destruct (DV Hk Xvar Ne) as [Nn Nv]. apply Nat.eqb_neq in Nn. rewrite Nn. apply Nat.eqb_neq in Ne. rewrite Ne. simpl.
      replace (_ =? _) with false; [reflexivity|]. symmetry. apply Nat.eqb_neq. apply Nv; now apply idx_bound.
  - rewrite Hk. reflexivity.
  - unfold is_leaf in Hl. rewrite Hk in Hl. tauto.
Qed.

Theorem dif_mder e : fits G e -> forall F D, dif G rho x e F D ->
  exists v dv, mder G rho x e v dv /\ meq v (mat_of G e F) /\ meq dv (jac_of G x e D).
Proof. apply (@dif_mder_renamed x (fun i _ => i) (fun _ j => j)); [exact leaf_der_dif|reflexivity]. Qed.
End Agree.

(** The routines are right: g inverts every matrix that has an inverse, d computes
    determinants. *)
Definition inverts {T} {N : Num T} (g : nat -> list T -> list T) (n : nat) : Prop :=
  forall F X, is_inverse n F X -> is_inverse n F (inverse g n F).
Definition measures {T} {N : Num T} (d : nat -> list T -> T) (n : nat) : Prop :=
  forall F, d n (row_major n F) = determinant n F.
