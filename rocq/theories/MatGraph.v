(** * What the kernel sequences of an expression compute

    The exact composition of kernel operations, before any algebra: [mval] for eval and
    [mder] for devalF.  The specification proper is in MatSpec.v.  Also the static
    well-formedness of an object graph. *)

From Coq Require Import List Arith Bool Lia.
From Verif Require Import Num MatMem Kernels KernelFacts KernelProofs KernelBlocks Registry KernelStep Backend Square Slots Exec MatEngine.
Import ListNotations.
Set Implicit Arguments.
Unset Strict Implicit.

Section Values.
Context {T : Type} {N : Num T}.
Variable G : graph T.
Variable rho : env T.
Notation mat := (mat T).

Definition is_leaf (o : obj) : Prop := match g_kind G o with KExp _ _ _ => False | _ => True end.
(** The entries of a leaf matrix. *)
Definition leaf_mat (o : obj) : mat :=
  Mat (g_rows G o) (g_cols G o) (fun i j => leaf_entry G rho o (i * g_cols G o + j)).

Definition bin_dims (k : bop) (v w : mat) : Prop := match k with BProd => mc v = mr w | _ => same_dims v w end.
Definition bin_val (k : bop) (v w : mat) : mat :=
  match k with BSum => madd v w | BSub => msub v w | BProd => mmul v w | BHad => mhad v w end.
Definition un_val (k : uop T) (v : mat) : mat :=
  match k with USProdE s _ => mmap (nmul (e_val rho s 0)) v | USSumE s _ => mmap (nadd (e_val rho s 0)) v
  | UTr => mtr v | USProd c => mmap (nmul c) v | USSum c => mmap (nadd c) v | UFun f _ => mmap f v
  | UInv g => minv g v | UDet _ d => mdet d v end.
Definition un_dims (k : uop T) (v : mat) : Prop := match k with UInv _ | UDet _ _ => mr v = mc v | _ => True end.

Inductive mval : mexp T -> mat -> Prop :=
| mval_leaf o : is_leaf o -> mval (MLeaf o) (leaf_mat o)
| mval_exp o id e y v : g_kind G o = KExp id e y -> mval (item id e y) v -> mval (MLeaf o) v
| mval_bin k id l r v w : mval l v -> mval r w -> bin_dims k v w -> mval (MBin k id l r) (bin_val k v w)
| mval_un k id e v : mval e v -> un_dims k v -> mval (MUn k id e) (un_val k v).

(** Derivatives, in the layout of the library: entry (l,k) of the expression by entry
    (i,j) of x is in row l*xr+i and column k*xc+j. *)
Variable x : obj.
Notation xr := (g_rows G x).
Notation xc := (g_cols G x).
Definition layout (R C : nat) (D : nat -> nat -> nat -> nat -> T) : mat :=
  Mat (R * xr) (C * xc) (fun s t => D (s / xr) (t / xc) (s mod xr) (t mod xc)).
(** Derivative of entry (l,k) of leaf o by entry (i,j) of x. *)
Definition leaf_der (o : obj) (l k i j : nat) : T :=
  match g_kind G o with
  | LVar => if g_nidx G o =? g_nidx G x then (if (l =? i) && (k =? j) then n1 else n0)
            else (if g_vid G o (l * g_cols G o + k) =? g_vid G x (i * xc + j) then n1 else n0)
  | LEnt => e_der rho o (l * g_cols G o + k) x (i * xc + j)
  | _ => n0
  end.
Definition leaf_dmat (o : obj) : mat := layout (g_rows G o) (g_cols G o) (leaf_der o).

Definition bin_der (k : bop) (v dv w dw : mat) : mat :=
  match k with
  | BSum => madd dv dw
  | BSub => msub dv dw
  | BProd => madd (mmul (mkron v (meye xr)) dw) (mmul dv (mkron w (meye xc)))
  | BHad => madd (mhad (mkron v (mones xr xc)) dw) (mhad dv (mkron w (mones xr xc)))
  end.
(** The derivatives of the scalar s by the entries of x. *)
Definition sder (s : obj) : mat := mfill xr xc (e_der rho s 0 x).
Definition un_der (k : uop T) (v dv : mat) : mat :=
  match k with
  | USProdE s _ => madd (mmap (nmul (e_val rho s 0)) dv) (mhad (mkron (mones (mr v) (mc v)) (sder s)) (mkron v (mones xr xc)))
  | USSumE s _ => madd (mkron (mones (mr v) (mc v)) (sder s)) dv
  | UTr => mdtr (mr v) (mc v) xr xc dv
  | USProd c => mmap (nmul c) dv
  | USSum _ => dv
  | UFun _ f' => mhad (mkron (mmap f' v) (mones xr xc)) dv
  | UInv g => mmap (nmul nm1) (mmul (mmul (mkron (minv g v) (meye xr)) dv) (mkron (minv g v) (meye xc)))
  | UDet g d => mmul (mmul (mkron (mones 1 (mr v)) (meye xr))
                           (mhad (mkron (mmap (nmul (d (mr v) (flat v))) (mtr (minv g v))) (mones xr xc)) dv))
                     (mkron (mones (mr v) 1) (meye xc))
  end.
Inductive mder : mexp T -> mat -> mat -> Prop :=
| mder_leaf o : is_leaf o -> mder (MLeaf o) (leaf_mat o) (leaf_dmat o)
| mder_exp o id e y v dv : g_kind G o = KExp id e y -> mder (item id e y) v dv -> mder (MLeaf o) v dv
| mder_bin k id l r v dv w dw : mder l v dv -> mder r w dw -> bin_dims k v w ->
    mder (MBin k id l r) (bin_val k v w) (bin_der k v dv w dw)
| mder_un k id e v dv : mder e v dv -> un_dims k v -> mder (MUn k id e) (un_val k v) (un_der k v dv).

Lemma mval_fun e v : mval e v -> forall w, mval e w -> v = w.
Proof.
  induction 1 as [o Hl|o id e y v Hk Hv IH|k id l r v w Hl IHl Hr IHr Hd|k id e v He IH Hd]; intros u Hu; inversion Hu; subst.
  - reflexivity.
  - unfold is_leaf in Hl. match goal with Q : g_kind G o = _ |- _ => rewrite Q in Hl end. tauto.
  - match goal with Q : is_leaf o |- _ => unfold is_leaf in Q; rewrite Hk in Q; tauto end.
  - match goal with Q : g_kind G o = _ |- _ => rewrite Hk in Q; injection Q as <- <- <- end. auto.
  - f_equal; auto.
  - f_equal; auto.
Qed.
Lemma mder_val e v dv : mder e v dv -> mval e v.
Proof. induction 1; econstructor; eauto. Qed.
Lemma mder_fun e v dv : mder e v dv -> forall w dw, mder e w dw -> dv = dw.
Proof.
  induction 1 as [o Hl|o id e y v dv Hk Hv IH|k id l r v dv w dw Hl IHl Hr IHr Hd|k id e v dv He IH Hd]; intros u du Hu; inversion Hu; subst.
  - reflexivity.
  - unfold is_leaf in Hl. match goal with Q : g_kind G o = _ |- _ => rewrite Q in Hl end. tauto.
  - match goal with Q : is_leaf o |- _ => unfold is_leaf in Q; rewrite Hk in Q; tauto end.
  - match goal with Q : g_kind G o = _ |- _ => rewrite Hk in Q; injection Q as <- <- <- end. eauto.
  - match goal with H1 : mder l ?a _, H2 : mder r ?b _ |- bin_der _ _ _ _ _ = bin_der _ ?a _ ?b _ =>
      rewrite (IHl _ _ H1), (IHr _ _ H2), (mval_fun (mder_val Hl) (mder_val H1)), (mval_fun (mder_val Hr) (mder_val H2)) end. reflexivity.
  - match goal with H1 : mder e ?a _ |- _ => rewrite (IH _ _ H1), (mval_fun (mder_val He) (mder_val H1)) end. reflexivity.
Qed.
End Values.

(** ** Well-formed graphs *)
Section Wf.
Context {T : Type}.
Variable G : graph T.
(** The object an operator node belongs to, if any, and a numbering of the objects by
    order of construction. *)
Record wf_graph (host : nat -> option obj) (rank : obj -> nat) : Prop := {
  wf_pos : forall o, 0 < g_rows G o /\ 0 < g_cols G o;
  wf_rank : forall o id e y o', g_kind G o = KExp id e y -> In o' (leaves (item id e y)) -> rank o' < rank o;
  wf_nodes : forall o id e y, g_kind G o = KExp id e y -> NoDup (nodes (item id e y)) /\
               forall i, In i (nodes (item id e y)) -> host i = Some o;
  wf_dims : forall o id e y, g_kind G o = KExp id e y -> g_rows G o = rows G e /\ g_cols G o = cols G e;
  wf_eye : forall o id e y, g_kind G o = KExp id e y -> g_kind G y = LEye /\ g_rows G y = cols G e /\ g_cols G y = cols G e
}.
(** Objects reachable from an expression. *)
Inductive reach (e : mexp T) : obj -> Prop :=
| reach_leaf o : In o (leaves e) -> reach e o
| reach_item o id a y o' : reach e o -> g_kind G o = KExp id a y -> In o' (leaves (item id a y)) -> reach e o'.
(** Scalar operands of an expression, and of the named expressions it is made of. *)
Fixpoint scals (e : mexp T) : list obj :=
  match e with
  | MLeaf _ => []
  | MBin _ _ l r => scals l ++ scals r
  | MUn k _ a => match k with USProdE s _ | USSumE s _ => [s] | _ => [] end ++ scals a
  end.
(** The scalar operands with the variables they depend on, and the objects that have an entry of
    their own in the cache of the reverse mode. *)
Fixpoint sops (e : mexp T) : list (obj * list obj) :=
  match e with
  | MLeaf _ => []
  | MBin _ _ l r => sops l ++ sops r
  | MUn k _ a => match k with USProdE s vs | USSumE s vs => [(s, vs)] | _ => [] end ++ sops a
  end.
Definition svars (e : mexp T) : list obj := flat_map snd (sops e).
Definition keyed (e : mexp T) : list obj := leaves e ++ svars e.
Definition scalar_in (e : mexp T) (s : obj) : Prop :=
  In s (scals e) \/ exists o id a y, reach e o /\ g_kind G o = KExp id a y /\ In s (scals a).
Lemma reach_trans e o id a y o' : reach e o -> g_kind G o = KExp id a y -> reach (item id a y) o' -> reach e o'.
Proof. intros H Hk H'. induction H'; [eapply reach_item; eauto|eapply reach_item; eauto]. Qed.
End Wf.
