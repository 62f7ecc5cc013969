(** * Symbolic differentiation builds the right expression (lemmas for C13, C15) *)

From Coq Require Import List Arith Bool Lia Ring.
From Verif Require Import Num ScalarModel ScalarSpec ScalarReset ScalarEval ScalarTerm ScalarApi ScalarHist ScalarUser ScalarBuild ScalarSym SymForm.
Import ListNotations.
Open Scope num_scope.

Section SymOk.
Context {T : Type} {N : Num T}.
Hypotheses (L : NumLaws N) (DL : DivLaws N).
Notation heap := (heap T). Notation op := (op T).
Notation form := (form (T := T)). Notation term := (term (T := T)).
Variable lr : form -> bool.
Add Ring Tring2 : (law_ring N L).

(** First index of the session; objects whose symbolic value / derivative is right; whether every
    operator in sight is closed under differentiation. *)
Variable S0 : nat.
Variables GV GD : nat -> Prop.
Variable NC : Prop.
Hypothesis HG : forall v, S0 <= v -> GV v \/ GD v -> NC.
Hypothesis HNC : NC -> forall v, GV v /\ GD v.
(** Local conditions (e.g. differentiability) on operators at the values of their operands. *)
Variable sm1 : uop T -> T -> Prop.
Variable sm2 : bop T -> T -> T -> Prop.
Variable Sm0 : (nat -> T) -> Prop.
Fixpoint fsm (vE vD : side -> T) (f : form) : Prop :=
  match f with
  | FE _ | FD _ => True
  | FU k a => sm1 k (fval vE vD a) /\ fsm vE vD a
  | FB k a b => sm2 k (fval vE vD a) (fval vE vD b) /\ fsm vE vD a /\ fsm vE vD b
  end.
Hypothesis Hsm : forall u, sm1 (UProdC n1) u.
Hypothesis HsV1 : forall k f u d, nice1 k -> sm1 k u -> sym_val1 k = Some f -> fsm (fun _ => u) d f.
Hypothesis HsD1 : forall k f u d, nice1 k -> sm1 k u -> sym_der1 k = Some f -> fsm (fun _ => u) d f.
Hypothesis HsV2 : forall k f e d, nice2 k -> sm2 k (e SL) (e SR) -> sym_val2 k = Some f -> fsm e d f.
Hypothesis HsD2 : forall k f e d, nice2 k -> sm2 k (e SL) (e SR) -> sym_der2 k = Some f -> fsm e d f.

Fixpoint smo (W : nat -> T) (o : op) : Prop :=
  match o with
  | Leaf _ | Par _ _ => True
  | Un k _ e => sm1 k (sem W e) /\ smo W e
  | Bin k _ l r => sm2 k (sem W l) (sem W r) /\ smo W l /\ smo W r
  end.
Fixpoint tsm (W : nat -> T) (t : term) : Prop :=
  match t with
  | TRef _ | TPar _ => True
  | TUn k a => sm1 k (tsem W a) /\ tsm W a
  | TBin k a b => sm2 k (tsem W a) (tsem W b) /\ tsm W a /\ tsm W b
  | TClone a => tsm W a
  end.
Fixpoint niceo (o : op) : Prop :=
  match o with
  | Leaf _ | Par _ _ => True
  | Un k _ e => nice1 k /\ niceo e
  | Bin k _ l r => nice2 k /\ niceo l /\ niceo r
  end.
Fixpoint built (o : op) : Prop :=
  match o with
  | Leaf _ | Par _ _ => True
  | Un k _ e => builtin1 k /\ built e
  | Bin k _ l r => builtin2 k /\ built l /\ built r
  end.

(** The symbolic value of a tree is right. *)
Fixpoint gv (o : op) : Prop :=
  match o with
  | Leaf v => GV v
  | Par _ _ => True
  | Un k _ e => vok1 k /\ gv e
  | Bin k _ l r => vok2 k /\ gv l /\ gv r
  end.
(** The symbolic derivative of a tree is right. *)
Fixpoint gd (o : op) : Prop :=
  match o with
  | Leaf v => GD v
  | Par _ _ => True
  | Un k _ e => gd e /\ (lin1 k \/ gv e)
  | Bin k _ l r => gd l /\ gd r /\ (lin2 k \/ gv l /\ gv r)
  end.

Lemma nice_gv o : NC -> niceo o -> gv o.
Proof.
  intros nc. induction o as [v|p tv|k id e IH|k id l IHl r IHr]; simpl; auto.
  - intros _. now apply HNC.
  - intros [A B]. split; auto. now apply nice_v1.
  - intros (A & B & C). split; [now apply nice_v2|auto].
Qed.
Lemma nice_gd o : NC -> niceo o -> gd o.
Proof.
  intros nc. induction o as [v|p tv|k id e IH|k id l IHl r IHr]; simpl; auto.
  - intros _. now apply HNC.
  - intros [A B]. split; auto. right. now apply nice_gv.
  - intros (A & B & C). split; auto. split; auto. right. split; now apply nice_gv.
Qed.

(** Ghost state: objects, constants, roots, operator nodes. *)
Record ghost : Type := mkG { gP : nat -> Prop; gK : nat -> Prop; gR : nat -> Prop; gN : nat -> option op }.

(** W solves the equations of the objects; plain variables other than constants are free. *)
Definition sol (h : heap) (g : ghost) (W : nat -> T) : Prop :=
  (forall v o, gP g v -> c_items (cells h v) = [o] -> W v = sem W o) /\
  (forall v, gK g v -> W v = c_base (cells h v)).
Definition dsol (h : heap) (g : ghost) (x : nat) (W D : nat -> T) : Prop :=
  forall v, gP g v -> D v = if Nat.eqb v x then n1 else
    match c_items (cells h v) with o :: _ => dsem W D o | [] => n0 end.

Fixpoint known (g : ghost) (o : op) : Prop :=
  match o with
  | Leaf v => gP g v
  | Par _ tv => gP g tv
  | Un _ id e => gN g id = Some o /\ known g e
  | Bin _ id l r => gN g id = Some o /\ known g l /\ known g r
  end.

Definition C0 (h : heap) (g : ghost) (v : nat) : Prop := gP g v /\ c_items (cells h v) = [].
(** Order between a memo's owner and its target. *)
Definition LV (h : heap) (g : ghost) (id t : nat) : Prop :=
  (id < t /\ (C0 h g id -> C0 h g t)) \/ (C0 h g t /\ ~ C0 h g id).
Definition target (h : heap) (g : ghost) (id t : nat) : Prop :=
  gP g t /\ LV h g id t /\ (S0 <= t \/ c_items (cells h t) = []).

Record SInv (h : heap) (g : ghost) : Prop := {
  s_lt : forall v, gP g v \/ gR g v -> v < next h;
  s_R : forall v, gR g v -> ~ gP g v;
  s_one : forall v, gP g v \/ gR g v -> c_items (cells h v) = [] \/ exists o, c_items (cells h v) = [o];
  s_Rne : forall v, gR g v -> c_items (cells h v) <> [];
  s_known : forall v o, gP g v \/ gR g v -> In o (c_items (cells h v)) -> known g o;
  s_K : forall v, gK g v -> gP g v /\ c_items (cells h v) = [];
  s_t1 : gK g 0 /\ c_base (cells h 0) = n1;
  s_t0 : gK g 1 /\ c_base (cells h 1) = n0;
  s_leaf : forall v o w, In o (c_items (cells h v)) -> In w (leaves o) -> w < next h;
  s_par : forall v o w, In o (c_items (cells h v)) -> In w (pars o) -> c_items (cells h w) = [];
  s_rank : exists rank : nat -> nat, forall v o w, gP g v -> In o (c_items (cells h v)) -> In w (leaves o) ->
      rank w < rank v;
  s_S0 : S0 <= next h;
  s_fresh : forall id, next h <= id -> memos h id = mkMemo None [];
  s_N : forall id s, gN g id = Some s -> ~ gP g id /\ ~ gR g id /\ id < next h /\ known g s /\ built s;
  s_item : forall v o, gP g v \/ gR g v -> In o (c_items (cells h v)) ->
      v < S0 \/ exists k id e, o = Un k id e /\ v < id;
  s_gv : forall v o, gP g v \/ gR g v -> In o (c_items (cells h v)) -> GV v -> gv o;
  s_gd : forall v o, gP g v \/ gR g v -> In o (c_items (cells h v)) -> GD v -> gd o;
  s_tmp : forall id t, m_tmp (memos h id) = Some t -> target h g id t;
  s_dtmp : forall id x t, In (x, t) (m_dtmp (memos h id)) -> target h g id t;
  s_vN : forall id s t, gN g id = Some s -> m_tmp (memos h id) = Some t -> gv s ->
      forall W, sol h g W -> W t = sem W s;
  s_dN : forall id s x t, gN g id = Some s -> In (x, t) (m_dtmp (memos h id)) -> gd s ->
      forall W D, sol h g W -> dsol h g x W D -> W t = dsem W D s;
  s_vP : forall v t, gP g v -> m_tmp (memos h v) = Some t -> GV v -> forall W, sol h g W -> W t = W v;
  s_nP : forall v, gP g v -> c_items (cells h v) = [] -> m_tmp (memos h v) = None;
  s_dP : forall v x t, gP g v -> c_items (cells h v) = [] -> In (x, t) (m_dtmp (memos h v)) ->
      gK g t /\ c_base (cells h t) = n0;
  s_nice : NC -> forall v o, gP g v \/ gR g v -> In o (c_items (cells h v)) -> niceo o;
  s_nN : NC -> forall id s, gN g id = Some s -> niceo s;
  s_sm : NC -> forall W, sol h g W -> Sm0 W -> forall v o, gP g v \/ gR g v -> In o (c_items (cells h v)) -> smo W o;
  s_smN : NC -> forall W, sol h g W -> Sm0 W -> forall id s, gN g id = Some s -> smo W s;
  s_bool : exists pb : nat -> bool, forall v, pb v = true <-> gP g v;
  s_Kb : forall v, gK g v -> v < 2 \/ S0 <= v;
  s_nd : forall v o, gP g v \/ gR g v -> In o (c_items (cells h v)) -> NoDup (opids o);
  s_dj : forall v w o o' k, gP g v \/ gR g v -> gP g w \/ gR g w -> v <> w -> In o (c_items (cells h v)) ->
      In o' (c_items (cells h w)) -> In k (opids o) -> ~ In k (opids o');
  s_pid : forall v o p, gP g v \/ gR g v -> In o (c_items (cells h v)) -> In p (parids o) -> (v < S0 /\ p < S0) /\ gN g p = None
}.

(** What a call of symEval or symDeval may change. *)
Record ext (h : heap) (g : ghost) (h' : heap) (g' : ghost) : Prop := {
  e_next : next h <= next h';
  e_cells : forall v, v < next h -> cells h' v = cells h v;
  e_P : forall v, gP g v -> gP g' v;
  e_K : forall v, gK g v -> gK g' v;
  e_R : gR g' = gR g;
  e_N : forall id s, gN g id = Some s -> gN g' id = Some s;
  e_new : forall v, gP g' v -> ~ gP g v -> next h <= v /\ clean (cells h' v) /\ c_vis (cells h' v) = false;
  e_dec : forall v, v < next h -> gP g' v -> gP g v;
  e_Ndec : forall v s, v < next h -> gN g' v = Some s -> gN g v = Some s
}.

Lemma ext_refl h g : ext h g h g.
Proof. constructor; auto. intros v A B. contradiction. Qed.
Lemma ext_trans h g h1 g1 h2 g2 : ext h g h1 g1 -> ext h1 g1 h2 g2 ->
  (forall v, gP g1 v -> v < next h1) -> ext h g h2 g2.
Proof.
  intros [A1 A2 A3 A4 A5 A6 A7 A8 A9] [B1 B2 B3 B4 B5 B6 B7 B8 B9] Hlt. constructor; auto; try lia; try congruence.
  - intros v Hv. rewrite B2 by lia. auto.
  - intros v Hv Hn.
    destruct (le_lt_dec (next h1) v) as [Hge|Hlt'].
    + destruct (B7 v Hv) as (X & Y); [intros X; apply Hlt in X; lia|]. split; [lia|exact Y].
    + assert (P1 : gP g1 v) by (apply B8; auto; lia).
      destruct (A7 v P1 Hn) as (X & Y & Z). rewrite B2 by auto. auto.
  - intros v Hv Hp. apply A8; auto. apply B8; auto. lia.
  - intros v s Hv Hp. apply A9; auto. apply B9; auto. lia.
Qed.

Lemma known_P g o : known g o -> forall w, In w (leaves o) -> gP g w.
Proof.
  induction o as [v|p tv|k id e IH|k id l IHl r IHr]; simpl; intros H w Hw.
  - destruct Hw as [<-|[]]; auto.
  - destruct Hw as [<-|[]]; auto.
  - apply IH; tauto.
  - apply in_app_or in Hw. destruct Hw; [apply IHl|apply IHr]; tauto.
Qed.
Lemma known_ids g o : known g o -> forall k, In k (opids o) -> exists s, gN g k = Some s.
Proof.
  induction o as [v|p tv|k id e IH|k id l IHl r IHr]; simpl; intros H j Hj; try contradiction.
  - destruct Hj as [<-|Hj]; [eexists; apply H|]. apply IH; tauto.
  - destruct Hj as [<-|Hj]; [eexists; apply H|]. apply in_app_or in Hj. destruct Hj; [apply IHl|apply IHr]; tauto.
Qed.
Lemma parids_pars (o : op) p : In p (parids o) -> exists tv, In tv (pars o).
Proof.
  induction o as [v|q tv|k id e IH|k id l IHl r IHr]; simpl; intros H; try contradiction; eauto.
  apply in_app_or in H. destruct H as [H|H]; [destruct (IHl H) as (tv & X)|destruct (IHr H) as (tv & X)]; exists tv; apply in_or_app; auto.
Qed.
Lemma known_ext h g h' g' o : ext h g h' g' -> known g o -> known g' o.
Proof.
  intros E. induction o as [v|p tv|k id e IH|k id l IHl r IHr]; simpl.
  - apply E.
  - apply E.
  - intros [A B]. split; auto. now apply E.
  - intros (A & B & C). split; auto. now apply E.
Qed.

Lemma sol_ext h g h' g' W : SInv h g -> ext h g h' g' -> sol h' g' W -> sol h g W.
Proof.
  intros I E [S1 S2]. split.
  - intros v o Pv Hi. apply S1; [now apply E|]. rewrite (e_cells _ _ _ _ E); auto. apply (s_lt _ _ I). auto.
  - intros v Kv. rewrite S2 by now apply E. rewrite (e_cells _ _ _ _ E); auto.
    apply (s_lt _ _ I). left. now apply (s_K _ _ I).
Qed.
Lemma dsol_ext h g h' g' x W D : SInv h g -> ext h g h' g' -> dsol h' g' x W D -> dsol h g x W D.
Proof.
  intros I E S v Pv. rewrite (S v) by now apply E.
  rewrite (e_cells _ _ _ _ E); auto. apply (s_lt _ _ I). auto.
Qed.
Lemma C0_ext h g h' g' v : SInv h g -> ext h g h' g' -> v < next h -> (C0 h' g' v <-> C0 h g v).
Proof.
  intros I E Hv. unfold C0. rewrite (e_cells _ _ _ _ E) by auto. split; intros [A B]; split; auto.
  - now apply (e_dec _ _ _ _ E).
  - now apply (e_P _ _ _ _ E).
Qed.
Lemma target_ext h g h' g' id t : SInv h g -> ext h g h' g' -> id < next h -> target h g id t -> target h' g' id t.
Proof.
  intros I E Hid (A & B & C). assert (Ht : t < next h) by (apply (s_lt _ _ I); auto).
  split; [now apply E|]. split.
  - unfold LV in *. rewrite !(C0_ext _ _ _ _ _ I E) by auto. exact B.
  - rewrite (e_cells _ _ _ _ E) by auto. exact C.
Qed.

(** Solutions exist. *)
Lemma dsol_exists h g x W : SInv h g -> exists D, dsol h g x W D.
Proof.
  intros I. destruct (s_rank _ _ I) as (rank & Rk).
  set (F := fix F (f v : nat) : T := match f with O => n0 | S f =>
     if Nat.eqb v x then n1 else match c_items (cells h v) with o :: _ => dsem W (F f) o | [] => n0 end end).
  assert (St : forall f f' v, gP g v -> rank v < f -> rank v < f' -> F f v = F f' v).
  { induction f as [|f IH]; intros f' v Pv Hf Hf'; [lia|]. destruct f' as [|f']; [lia|]. cbn [F].
    destruct (Nat.eqb v x); auto. destruct (c_items (cells h v)) as [|o l] eqn:Ei; auto.
    assert (Ho : In o (c_items (cells h v))) by (rewrite Ei; simpl; auto).
    apply dsem_ext; auto. intros w Hw. apply IH.
    - eapply known_P; [eapply (s_known _ _ I); eauto|auto].
    - pose proof (Rk v o w Pv Ho Hw). lia.
    - pose proof (Rk v o w Pv Ho Hw). lia. }
  exists (fun v => F (S (rank v)) v). intros v Pv. cbn [F]. destruct (Nat.eqb v x); auto.
  destruct (c_items (cells h v)) as [|o l] eqn:Ei; auto.
  assert (Ho : In o (c_items (cells h v))) by (rewrite Ei; simpl; auto).
  apply dsem_ext; auto. intros w Hw. apply (St (rank v) (S (rank w))).
  - eapply known_P; [eapply (s_known _ _ I); eauto|auto].
  - exact (Rk v o w Pv Ho Hw).
  - lia.
Qed.

(** *** Evaluating the operands of a formula *)
Section Gather.
Variable A : Type.
Variable env : heap -> ghost -> A -> Prop.
Variable wv : A -> nat -> T.
Variable J : heap -> ghost -> Prop.
Hypothesis J_inv : forall h g, J h g -> SInv h g.
Hypothesis J_env : forall h g h' g' a, J h g -> ext h g h' g' -> env h' g' a -> env h g a.
Variables (rE rD : side -> heap -> option (nat * heap)) (vE vD : side -> A -> T) (EG DG : side -> Prop).
Definition callok (r : heap -> option (nat * heap)) (v : A -> T) (G : Prop) : Prop :=
  forall h g, J h g -> exists t h' g', r h = Some (t, h') /\ ext h g h' g' /\ J h' g' /\ gP g' t /\
    (G -> forall a, env h' g' a -> wv a t = v a).

Lemma gather_ok f : (forall s, usesE f s -> callok (rE s) (vE s) (EG s)) ->
  (forall s, usesD f s -> callok (rD s) (vD s) (DG s)) ->
  forall h g, J h g -> exists t h' g', gather lr rE rD f h = Some (t, h') /\ ext h g h' g' /\ J h' g' /\
    (forall v, In v (trefs t) -> gP g' v) /\ tpars t = [] /\ ((fnice f -> tnice t) /\ (fbuilt f -> tbuilt t)) /\
    ((forall s, usesE f s -> EG s) -> (forall s, usesD f s -> DG s) -> forall a, env h' g' a ->
       tsem (wv a) t = fval (fun s => vE s a) (fun s => vD s a) f /\
       (fsm (fun s => vE s a) (fun s => vD s a) f -> tsm (wv a) t)).
Proof.
  induction f as [s|s|k f IH|k a IHa b IHb]; intros HE HD h g HJ; cbn [gather].
  - destruct (HE s eq_refl h g HJ) as (v & h' & g' & E & X & J' & P' & V). rewrite E.
    exists (TRef v), h', g'. simpl. repeat (apply conj; [solve [auto]|]).
    split; [intros u [<-|[]]; auto|]. repeat (apply conj; [solve [auto]|]).
    intros G _ a Ha. split; auto.
  - destruct (HD s eq_refl h g HJ) as (v & h' & g' & E & X & J' & P' & V). rewrite E.
    exists (TRef v), h', g'. simpl. repeat (apply conj; [solve [auto]|]).
    split; [intros u [<-|[]]; auto|]. repeat (apply conj; [solve [auto]|]).
    intros _ G a Ha. split; auto.
  - destruct (IH HE HD h g HJ) as (t & h' & g' & E & X & J' & P' & Q' & Nc & V). rewrite E.
    exists (TUn k t), h', g'. simpl. split; auto. split; auto. split; auto. split; auto. split; auto.
    split; [tauto|]. intros G1 G2 a Ha. destruct (V G1 G2 a Ha) as [V1 V2]. rewrite V1. split; auto.
    intros [Y1 Y2]. split; auto.
  - simpl in HE, HD. destruct (lr (FB k a b)).
    + destruct (IHa (fun s u => HE s (or_introl u)) (fun s u => HD s (or_introl u)) h g HJ)
        as (t & h1 & g1 & E1 & X1 & J1 & P1 & Q1 & N1 & V1). rewrite E1.
      destruct (IHb (fun s u => HE s (or_intror u)) (fun s u => HD s (or_intror u)) h1 g1 J1)
        as (t2 & h2 & g2 & E2 & X2 & J2 & P2 & Q2 & N2 & V2). rewrite E2.
      exists (TBin k t t2), h2, g2. cbn [trefs tpars tnice fnice tbuilt fbuilt tsem tsm fval fsm usesE usesD].
      split; auto. split.
      { eapply ext_trans; eauto. intros v Pv. apply (s_lt _ _ (J_inv _ _ J1)). auto. }
      split; auto. split.
      { intros v Hv. apply in_app_or in Hv. destruct Hv; auto. apply (e_P _ _ _ _ X2). auto. }
      split; [now rewrite Q1, Q2|]. split; [tauto|].
      intros G1 G2 e He.
      destruct (V1 (fun s u => G1 s (or_introl u)) (fun s u => G2 s (or_introl u)) e (J_env _ _ _ _ _ J1 X2 He)) as [Y1 Z1].
      destruct (V2 (fun s u => G1 s (or_intror u)) (fun s u => G2 s (or_intror u)) e He) as [Y2 Z2].
      rewrite Y1, Y2. split; auto. tauto.
    + destruct (IHb (fun s u => HE s (or_intror u)) (fun s u => HD s (or_intror u)) h g HJ)
        as (t2 & h1 & g1 & E1 & X1 & J1 & P1 & Q1 & N1 & V1). rewrite E1.
      destruct (IHa (fun s u => HE s (or_introl u)) (fun s u => HD s (or_introl u)) h1 g1 J1)
        as (t & h2 & g2 & E2 & X2 & J2 & P2 & Q2 & N2 & V2). rewrite E2.
      exists (TBin k t t2), h2, g2. cbn [trefs tpars tnice fnice tbuilt fbuilt tsem tsm fval fsm usesE usesD].
      split; auto. split.
      { eapply ext_trans; eauto. intros v Pv. apply (s_lt _ _ (J_inv _ _ J1)). auto. }
      split; auto. split.
      { intros v Hv. apply in_app_or in Hv. destruct Hv; auto. apply (e_P _ _ _ _ X2). auto. }
      split; [now rewrite Q1, Q2|]. split; [tauto|].
      intros G1 G2 e He.
      destruct (V1 (fun s u => G1 s (or_intror u)) (fun s u => G2 s (or_intror u)) e (J_env _ _ _ _ _ J1 X2 He)) as [Y1 Z1].
      destruct (V2 (fun s u => G1 s (or_introl u)) (fun s u => G2 s (or_introl u)) e He) as [Y2 Z2].
      rewrite Y1, Y2. split; auto. tauto.
Qed.
End Gather.

(** *** Allocating a new expression *)
Fixpoint find_node (id : nat) (o : op) : option op :=
  match o with
  | Leaf _ | Par _ _ => None
  | Un _ i e => if Nat.eqb id i then Some o else find_node id e
  | Bin _ i l r => if Nat.eqb id i then Some o else
      match find_node id l with Some s => Some s | None => find_node id r end
  end.
Lemma find_none id o : ~ In id (opids o) -> find_node id o = None.
Proof.
  induction o as [v|p tv|k i e IH|k i l IHl r IHr]; simpl; intros H; auto.
  - destruct (Nat.eqb_spec id i) as [->|Hn]; [tauto|]. apply IH. tauto.
  - destruct (Nat.eqb_spec id i) as [->|Hn]; [tauto|]. rewrite in_app_iff in H.
    rewrite IHl by tauto. apply IHr. tauto.
Qed.
Lemma find_in id o s : find_node id o = Some s -> In id (opids o).
Proof.
  intros E. destruct (in_dec Nat.eq_dec id (opids o)) as [|Hn]; auto. rewrite find_none in E by auto. discriminate.
Qed.
(** Hereditary properties of trees. *)
Lemma find_sub (Q : op -> Prop) : (forall k i e, Q (Un k i e) -> Q e) ->
  (forall k i l r, Q (Bin k i l r) -> Q l /\ Q r) ->
  forall id o s, Q o -> find_node id o = Some s -> Q s.
Proof.
  intros H1 H2 id. induction o as [v|p tv|k i e IH|k i l IHl r IHr]; simpl; intros s Ho E; try discriminate.
  - destruct (Nat.eqb id i); [injection E as <-; auto|]. apply IH; eauto.
  - destruct (Nat.eqb id i); [injection E as <-; auto|]. destruct (H2 _ _ _ _ Ho).
    destruct (find_node id l) eqn:El; [injection E as <-|]; auto.
Qed.
Lemma NoDup_app_inv {A} (l l' : list A) : NoDup (l ++ l') -> NoDup l /\ NoDup l' /\ forall a, In a l -> ~ In a l'.
Proof.
  induction l as [|b l IH]; simpl; intros H.
  - split; [constructor|]. split; auto.
  - inversion H as [|? ? A1 A2]; subst. destruct (IH A2) as (B & C & D). rewrite in_app_iff in A1.
    split; [constructor; tauto|]. split; auto. intros a [<-|Ha]; auto.
Qed.
Lemma find_known g o : NoDup (opids o) -> (forall id s, find_node id o = Some s -> gN g id = Some s) ->
  (forall w, In w (leaves o) -> gP g w) -> known g o.
Proof.
  induction o as [v|p tv|k i e IH|k i l IHl r IHr]; cbn [opids leaves known]; intros ND F P.
  - apply P. simpl; auto.
  - apply P. simpl; auto.
  - inversion ND as [|? ? A B]; subst. split.
    + apply F. simpl. now rewrite Nat.eqb_refl.
    + apply IH; auto. intros id s E. apply F. simpl.
      destruct (Nat.eqb_spec id i) as [->|Hn]; auto. now apply find_in in E.
  - inversion ND as [|? ? A B]; subst. rewrite in_app_iff in A.
    destruct (NoDup_app_inv _ _ B) as (B1 & B2 & B3). split; [|split].
    + apply F. simpl. now rewrite Nat.eqb_refl.
    + apply IHl; auto; [|intros; apply P, in_or_app; auto]. intros id s E. apply F. simpl.
      destruct (Nat.eqb_spec id i) as [->|Hn]; [apply find_in in E; tauto|]. now rewrite E.
    + apply IHr; auto; [|intros; apply P, in_or_app; auto]. intros id s E. apply F. simpl.
      destruct (Nat.eqb_spec id i) as [->|Hn]; [apply find_in in E; tauto|].
      rewrite find_none; auto. intros X. apply (B3 id X). now apply find_in in E.
Qed.

Lemma rep_built o (t : term) : rep o t -> tbuilt t -> built o.
Proof. intros H. induction H; simpl; auto; try tauto. Qed.
Lemma rep_nice o (t : term) : rep o t -> tnice t -> niceo o.
Proof. intros H. induction H; simpl; auto; try tauto. Qed.
Lemma rep_val W o (t : term) : rep o t -> tpars t = [] -> sem W o = tsem W t.
Proof. intros H E. apply (rep_sem o t H); auto. rewrite E. intros p []. Qed.
Lemma rep_smo W o (t : term) : rep o t -> tpars t = [] -> tsm W t -> smo W o.
Proof.
  intros H. induction H; simpl; auto.
  - intros E [A1 A2]. split; auto. now rewrite (rep_val W o t).
  - intros E (A1 & A2 & A3). apply app_eq_nil in E. destruct E as [E1 E2].
    rewrite (rep_val W a l), (rep_val W b r) by auto. auto.
Qed.
Lemma rep_leaf_refs o (t : term) w : rep o t -> tpars t = [] -> In w (leaves o) -> In w (trefs t).
Proof.
  intros H E Hw. destruct (rep_leaves o t H w Hw) as [X|(p & X & _)]; auto. rewrite E in X. destruct X.
Qed.
Lemma rep_nopar o (t : term) w : rep o t -> tpars t = [] -> ~ In w (pars o).
Proof. intros H E Hw. destruct (rep_pars o t H w Hw) as (p & X & _). rewrite E in X. destruct X. Qed.

Lemma max_rank (rank : nat -> nat) (l : list nat) : exists m, forall w, In w l -> rank w < m.
Proof.
  induction l as [|a l [m H]]; [exists 0; intros w []|]. exists (S (max (rank a) m)).
  intros w [<-|Hw]; [lia|]. specialize (H w Hw). lia.
Qed.

(** Adding one object [e] with one item (or none) and its nodes. *)
Lemma add_exp h g e it n' : SInv h g -> next h <= e -> e < n' ->
  NoDup (opids it) -> (forall k, In k (opids it) -> e < k < n') ->
  (exists k id a, it = Un k id a) ->
  (forall w, In w (leaves it) -> gP g w) -> (forall w, ~ In w (pars it)) -> built it ->
  (NC -> niceo it) -> (NC -> forall W, sol h g W -> Sm0 W -> smo W it) ->
  let h' := bump n' (setc h e (fresh_cell n0 [it])) in
  let g' := mkG (fun v => gP g v \/ v = e) (gK g) (gR g)
                (fun id => match gN g id with Some s => Some s | None => find_node id it end) in
  ext h g h' g' /\ SInv h' g'.
Proof.
  intros I He Hn ND Hids Hun Hlv Hpar Hb Hnice Hsmo h' g'.
  assert (Pe : ~ gP g e) by (intros X; assert (e < next h) by (apply (s_lt _ _ I); auto); lia).
  assert (Cell : forall v, v <> e -> cells h' v = cells h v) by (intros v Hv; apply setc_other; auto).
  assert (Celle : cells h' e = fresh_cell n0 [it]) by apply setc_same.
  assert (E : ext h g h' g').
  { constructor; simpl; auto.
    - lia.
    - intros v Hv. apply Cell. lia.
    - intros id s Hs. now rewrite Hs.
    - intros v [Hv| ->] Hnv; [contradiction|]. split; auto. change (cells h' e) with (upd (cells h) e (fresh_cell n0 [it]) e).
      rewrite upd_same. repeat split; auto.
    - intros v Hv [Hp| ->]; auto. lia.
    - intros v s Hv. destruct (gN g v); auto. intros Hs. apply find_in in Hs. apply Hids in Hs. lia. }
  split; auto.
  assert (Kn : forall o, known g o -> known g' o) by (intros o; eapply known_ext; exact E).
  assert (NN : forall id, In id (opids it) -> gN g id = None).
  { intros id Hid. destruct (gN g id) as [s|] eqn:En; auto. exfalso.
    destruct (s_N _ _ I id s En) as (_ & _ & X & _). apply Hids in Hid. lia. }
  assert (Kit : known g' it).
  { apply find_known; auto.
    - intros id s Hs. simpl. rewrite NN; auto. now apply find_in in Hs.
    - intros w Hw. simpl. left. auto. }
  assert (Sol : forall W, sol h' g' W -> sol h g W) by (intros W; apply sol_ext; auto).
  assert (Old : forall v o, gP g' v \/ gR g' v -> In o (c_items (cells h' v)) ->
     ((gP g v \/ gR g v) /\ v <> e /\ In o (c_items (cells h v))) \/ (v = e /\ o = it)).
  { intros v o Hv Ho. destruct (Nat.eq_dec v e) as [->|Hne].
    - rewrite Celle in Ho. simpl in Ho. destruct Ho as [<-|[]]; auto.
    - left. rewrite Cell in Ho by auto. simpl in Hv. split; [|split]; auto. tauto. }
  assert (Ng : forall id s, gN g' id = Some s -> gN g id = Some s \/ (gN g id = None /\ find_node id it = Some s)).
  { intros id s. simpl. destruct (gN g id); auto. }
  assert (Fsub : forall (Q : op -> Prop), (forall k i e, Q (Un k i e) -> Q e) -> (forall k i l r, Q (Bin k i l r) -> Q l /\ Q r) ->
     forall id s, Q it -> find_node id it = Some s -> Q s).
  { intros Q Q1 Q2 id s. apply find_sub; auto. }
  assert (Mlt : forall id, memos h id <> mkMemo None [] -> id < next h).
  { intros id Hm. destruct (le_lt_dec (next h) id) as [X|]; auto. exfalso. now apply Hm, (s_fresh _ _ I). }
  assert (Fm : forall id s, find_node id it = Some s -> memos h id = mkMemo None []).
  { intros id s Hs. apply (s_fresh _ _ I). apply find_in in Hs. apply Hids in Hs. lia. }
  assert (K1 : forall id s, find_node id it = Some s -> known g' s).
  { intros id s. apply Fsub; auto.
    - simpl. tauto.
    - simpl. tauto. }
  constructor.
  - intros v [[Hv| ->]|Hv]; simpl; auto.
    + assert (v < next h) by (apply (s_lt _ _ I); auto). lia.
    + assert (v < next h) by (apply (s_lt _ _ I); auto). lia.
  - intros v Hv [Hp| ->]; [now apply (s_R _ _ I v)|]. simpl in Hv.
    assert (e < next h) by (apply (s_lt _ _ I); auto). lia.
  - intros v Hv. destruct (Nat.eq_dec v e) as [->|Hne].
    + rewrite Celle. simpl. eauto.
    + rewrite Cell by auto. apply (s_one _ _ I). simpl in Hv. tauto.
  - intros v Hv. assert (v < next h) by (apply (s_lt _ _ I); auto). rewrite Cell by lia. now apply (s_Rne _ _ I).
  - intros v o Hv Ho. destruct (Old v o Hv Ho) as [(A & B & C)|(-> & ->)]; auto. apply Kn. eapply (s_known _ _ I); eauto.
  - intros v Hv. destruct (s_K _ _ I v Hv) as [A B]. simpl. split; auto.
    change (cells h' v) with (upd (cells h) e (fresh_cell n0 [it]) v). rewrite upd_other; auto. intros ->. contradiction.
  - destruct (s_t1 _ _ I) as [A B]. split; auto. rewrite Cell; auto. intros <-. apply Pe. now apply (s_K _ _ I).
  - destruct (s_t0 _ _ I) as [A B]. split; auto. rewrite Cell; auto. intros <-. apply Pe. now apply (s_K _ _ I).
  - intros v o w Ho Hw. simpl. destruct (Nat.eq_dec v e) as [->|Hne].
    + rewrite Celle in Ho. simpl in Ho. destruct Ho as [<-|[]]. assert (w < next h) by (apply (s_lt _ _ I); auto). lia.
    + rewrite Cell in Ho by auto. pose proof (s_leaf _ _ I v o w Ho Hw). lia.
  - intros v o w Ho Hw. destruct (Nat.eq_dec v e) as [->|Hne].
    + rewrite Celle in Ho. simpl in Ho. destruct Ho as [<-|[]]. now apply Hpar in Hw.
    + rewrite Cell in Ho by auto. rewrite Cell; [eapply (s_par _ _ I); eauto|].
      assert (w < next h); [|lia]. eapply (s_leaf _ _ I); eauto. clear -Hw. induction o; simpl in *; auto; try contradiction.
      apply in_app_or in Hw. apply in_or_app. tauto.
  - destruct (s_rank _ _ I) as (rank & Rk). destruct (max_rank rank (leaves it)) as (m & Hm).
    exists (at_ e m rank). intros v o w Hv Ho Hw. destruct (Nat.eq_dec v e) as [->|Hne].
    + rewrite Celle in Ho. simpl in Ho. destruct Ho as [<-|[]]. rewrite at_same.
      rewrite at_other; auto. intros ->. apply Pe. auto.
    + rewrite Cell in Ho by auto. destruct Hv as [Hv|]; [|contradiction].
      rewrite !at_other; auto.
      * eapply Rk; eauto.
      * intros ->. apply Pe. eapply known_P; [eapply (s_known _ _ I); eauto|auto].
  - simpl. pose proof (s_S0 _ _ I). lia.
  - intros id Hid. apply (s_fresh _ _ I). simpl in Hid. lia.
  - intros id s Hs. destruct (Ng id s Hs) as [A|[_ A]].
    + destruct (s_N _ _ I id s A) as (B1 & B2 & B3 & B4 & B5). simpl. repeat split; auto; try lia.
      intros [X| ->]; auto. lia.
    + pose proof (find_in _ _ _ A) as X. apply Hids in X. simpl. split; [|split; [|split; [|split]]].
      * intros [Y|Y]; [|lia]. assert (id < next h) by (apply (s_lt _ _ I); auto). lia.
      * intros Y. assert (id < next h) by (apply (s_lt _ _ I); auto). lia.
      * lia.
      * eauto.
      * eapply (Fsub built); eauto; simpl; tauto.
  - intros v o Hv Ho. destruct (Old v o Hv Ho) as [(A & B & C)|(-> & ->)]; [eapply (s_item _ _ I); eauto|].
    right. destruct Hun as (k & id & a & ->). exists k, id, a. split; auto. apply Hids. simpl; auto.
  - intros v o Hv Ho Gv. destruct (Old v o Hv Ho) as [(A & B & C)|(-> & ->)]; [eapply (s_gv _ _ I); eauto|].
    assert (nc : NC) by (apply (HG e); [pose proof (s_S0 _ _ I); lia|auto]). apply nice_gv; auto.
  - intros v o Hv Ho Gv. destruct (Old v o Hv Ho) as [(A & B & C)|(-> & ->)]; [eapply (s_gd _ _ I); eauto|].
    assert (nc : NC) by (apply (HG e); [pose proof (s_S0 _ _ I); lia|auto]). apply nice_gd; auto.
  - intros id t Ht. apply (target_ext h g); auto; [|now apply (s_tmp _ _ I)]. apply Mlt. simpl in Ht. intros X. rewrite X in Ht. discriminate.
  - intros id x t Ht. apply (target_ext h g); auto; [|now apply (s_dtmp _ _ I) with x]. apply Mlt. simpl in Ht. intros X. rewrite X in Ht. destruct Ht.
  - intros id s t Hs Ht Gs W SW. simpl in Ht. destruct (Ng id s Hs) as [A|[_ A]]; [eapply (s_vN _ _ I); eauto|].
    rewrite (Fm _ _ A) in Ht. discriminate.
  - intros id s x t Hs Ht Gs W D SW SD. simpl in Ht. destruct (Ng id s Hs) as [A|[_ A]].
    + eapply (s_dN _ _ I); eauto. eapply dsol_ext; eauto.
    + rewrite (Fm _ _ A) in Ht. destruct Ht.
  - intros v t Hv Ht Gv W SW. simpl in Ht. destruct Hv as [Hv| ->]; [eapply (s_vP _ _ I); eauto|].
    rewrite (s_fresh _ _ I) in Ht by auto. discriminate.
  - intros v Hv Hi. simpl. destruct Hv as [Hv| ->]; [|now rewrite (s_fresh _ _ I)].
    apply (s_nP _ _ I); auto. rewrite Cell in Hi; auto. intros ->. contradiction.
  - intros v x t Hv Hi Ht. simpl in Ht. destruct Hv as [Hv| ->].
    + assert (Hve : v <> e) by (intros ->; contradiction). rewrite Cell in Hi by auto.
      destruct (s_dP _ _ I v x t Hv Hi Ht) as [A B]. split; auto. rewrite Cell; auto. intros ->. apply Pe. now apply (s_K _ _ I).
    + rewrite (s_fresh _ _ I) in Ht by auto. destruct Ht.
  - intros nc v o Hv Ho. destruct (Old v o Hv Ho) as [(A & B & C)|(-> & ->)]; [eapply (s_nice _ _ I); eauto|auto].
  - intros nc id s Hs. destruct (Ng id s Hs) as [A|[_ A]]; [eapply (s_nN _ _ I); eauto|].
    eapply (Fsub niceo); eauto; simpl; tauto.
  - intros nc W SW Sm v o Hv Ho. apply Sol in SW. destruct (Old v o Hv Ho) as [(A & B & C)|(-> & ->)]; [eapply (s_sm _ _ I); eauto|auto].
  - intros nc W SW Sm id s Hs. apply Sol in SW. destruct (Ng id s Hs) as [A|[_ A]]; [eapply (s_smN _ _ I); eauto|].
    eapply (Fsub (smo W)); eauto; simpl; tauto.
  - destruct (s_bool _ _ I) as (pb & Hpb). exists (fun v => pb v || Nat.eqb v e). intros v. cbn [gP g'].
    rewrite orb_true_iff, Nat.eqb_eq, Hpb. tauto.
  - exact (s_Kb _ _ I).
  - intros v o Hv Ho. destruct (Old v o Hv Ho) as [(A & B & C)|(-> & ->)]; [eapply (s_nd _ _ I); eauto|auto].
  - assert (Lo : forall v o k, gP g v \/ gR g v -> In o (c_items (cells h v)) -> In k (opids o) -> k < next h).
    { intros v o k Hv Ho Hk. destruct (known_ids g o (s_known _ _ I v o Hv Ho) k Hk) as (s & Es). apply (s_N _ _ I k s Es). }
    intros v w o o' k Hv Hw Hvw Ho Ho' Hk Hk'.
    destruct (Old v o Hv Ho) as [(A & B & C)|(-> & ->)]; destruct (Old w o' Hw Ho') as [(A' & B' & C')|(-> & ->)].
    + now apply (s_dj _ _ I v w o o' k).
    + pose proof (Lo _ _ _ A C Hk). apply Hids in Hk'. lia.
    + pose proof (Lo _ _ _ A' C' Hk'). apply Hids in Hk. lia.
    + congruence.
  - intros v o p Hv Ho Hp. destruct (Old v o Hv Ho) as [(A & B & C)|(-> & ->)].
    + destruct (s_pid _ _ I v o p A C Hp) as [X Y]. split; auto. simpl. rewrite Y. apply find_none. intros Z.
      apply Hids in Z. pose proof (s_S0 _ _ I). lia.
    + apply parids_pars in Hp. destruct Hp as (tv & X). now apply Hpar in X.
Qed.

Lemma alloc_ok (t : term) h g : SInv h g -> (forall v, In v (trefs t) -> gP g v) -> tpars t = [] -> tbuilt t ->
  (NC -> tnice t) -> (NC -> forall W, sol h g W -> Sm0 W -> tsm W t) ->
  exists e h' g', alloc_exp t h = (e, h') /\ ext h g h' g' /\ SInv h' g' /\ gP g' e /\ next h <= e /\
    c_items (cells h' e) <> [] /\ memos h' = memos h /\ (forall W, sol h' g' W -> W e = tsem W t).
Proof.
  intros I Hr Hp Hb Hn Hs. unfold alloc_exp.
  pose proof (build_rep t (next h)) as [A R]. destruct (build t (next h)) as [o n]. cbn [fst snd] in *.
  unfold new_exp, wrap. pose proof (clone_rep o t R (S (S n))) as R'. pose proof (clone_ids o (S (S n))) as (B1 & B2 & B3).
  destruct (clone o (S (S n))) as [o' k]. cbn [fst snd] in *.
  destruct (add_exp h g (S n) (Un (UProdC n1) k o') (S k) I ltac:(lia) ltac:(lia)) as [E I'].
  - cbn [opids]. constructor; auto. intros X. apply B3 in X. lia.
  - cbn [opids]. intros j [<-|X]; [lia|]. apply B3 in X. lia.
  - eauto.
  - cbn [leaves]. intros w Hw. apply Hr. eapply rep_leaf_refs; eauto.
  - cbn [pars]. intros w. eapply rep_nopar; eauto.
  - cbn [built]. split; [exact Logic.I|]. eapply rep_built; eauto.
  - intros nc. cbn [niceo]. split; [exact Logic.I|]. eapply rep_nice; eauto.
  - intros nc W SW Sm. cbn [smo]. split; auto. eapply rep_smo; eauto.
  - eexists _, _, _. split; [reflexivity|]. split; [exact E|]. split; [exact I'|]. split; [simpl; auto|]. split; [lia|].
    split.
    { change (upd (cells h) (S n) (fresh_cell n0 [Un (UProdC n1) k o']) (S n)) with (upd (cells h) (S n) (fresh_cell n0 [Un (UProdC n1) k o']) (S n)).
      cbn [bump cells setc]. rewrite upd_same. discriminate. }
    split; [reflexivity|]. intros W [S1 S2].
    rewrite (S1 (S n) (Un (UProdC n1) k o')).
    + cbn [sem mean1]. rewrite (rep_val W o' t) by auto. ring.
    + simpl; auto.
    + cbn [bump cells setc]. rewrite upd_same. reflexivity.
Qed.

(** Adding a zero constant. *)
Lemma add_zero h g : SInv h g ->
  let z := next h in
  let h' := bump (S z) (setc h z (fresh_cell n0 [])) in
  let g' := mkG (fun v => gP g v \/ v = z) (fun v => gK g v \/ v = z) (gR g) (gN g) in
  ext h g h' g' /\ SInv h' g'.
Proof.
  intros I z h' g'.
  assert (Pe : ~ gP g z) by (intros X; assert (z < next h) by (apply (s_lt _ _ I); auto); unfold z in *; lia).
  assert (Cell : forall v, v <> z -> cells h' v = cells h v) by (intros v Hv; apply setc_other; auto).
  assert (Celle : cells h' z = fresh_cell n0 []) by apply setc_same.
  assert (E : ext h g h' g').
  { constructor; simpl; auto.
    - intros v Hv. apply Cell. unfold z. lia.
    - intros v [Hv| ->] Hnv; [contradiction|]. split; auto. change (cells h' z) with (upd (cells h) z (fresh_cell n0 []) z).
      rewrite upd_same. repeat split; auto.
    - intros v Hv [Hp| ->]; auto. unfold z in *. lia. }
  split; auto.
  assert (Kn : forall o, known g o -> known g' o) by (intros o; eapply known_ext; exact E).
  assert (Sol : forall W, sol h' g' W -> sol h g W) by (intros W; apply sol_ext; auto).
  assert (Old : forall v o, gP g' v \/ gR g' v -> In o (c_items (cells h' v)) ->
     (gP g v \/ gR g v) /\ v <> z /\ In o (c_items (cells h v))).
  { intros v o Hv Ho. destruct (Nat.eq_dec v z) as [->|Hne].
    - rewrite Celle in Ho. destruct Ho.
    - rewrite Cell in Ho by auto. simpl in Hv. split; [|split]; auto. tauto. }
  assert (Mlt : forall id, memos h id <> mkMemo None [] -> id < next h).
  { intros id Hm. destruct (le_lt_dec (next h) id) as [X|]; auto. exfalso. now apply Hm, (s_fresh _ _ I). }
  constructor.
  - intros v [[Hv| ->]|Hv]; simpl; auto; assert (v < next h) by (apply (s_lt _ _ I); auto); unfold z; lia.
  - intros v Hv [Hp| ->]; [now apply (s_R _ _ I v)|]. simpl in Hv.
    assert (z < next h) by (apply (s_lt _ _ I); auto). unfold z in *; lia.
  - intros v Hv. destruct (Nat.eq_dec v z) as [->|Hne].
    + rewrite Celle. simpl. eauto.
    + rewrite Cell by auto. apply (s_one _ _ I). simpl in Hv. tauto.
  - intros v Hv. assert (v < next h) by (apply (s_lt _ _ I); auto). rewrite Cell by (unfold z; lia). now apply (s_Rne _ _ I).
  - intros v o Hv Ho. destruct (Old v o Hv Ho) as (A & B & C). apply Kn. eapply (s_known _ _ I); eauto.
  - intros v [Hv| ->].
    + destruct (s_K _ _ I v Hv) as [A B]. split; [left; auto|]. rewrite Cell; auto. intros ->. contradiction.
    + split; [right; auto|]. now rewrite Celle.
  - destruct (s_t1 _ _ I) as [A B]. split; [left; auto|]. rewrite Cell; auto. intros X. apply Pe. rewrite <- X. now apply (s_K _ _ I).
  - destruct (s_t0 _ _ I) as [A B]. split; [left; auto|]. rewrite Cell; auto. intros X. apply Pe. rewrite <- X. now apply (s_K _ _ I).
  - intros v o w Ho Hw. simpl. destruct (Nat.eq_dec v z) as [->|Hne].
    + rewrite Celle in Ho. destruct Ho.
    + rewrite Cell in Ho by auto. pose proof (s_leaf _ _ I v o w Ho Hw). unfold z. lia.
  - intros v o w Ho Hw. destruct (Nat.eq_dec v z) as [->|Hne].
    + rewrite Celle in Ho. destruct Ho.
    + rewrite Cell in Ho by auto. destruct (Nat.eq_dec w z) as [->|]; [now rewrite Celle|].
      rewrite Cell by auto. eapply (s_par _ _ I); eauto.
  - destruct (s_rank _ _ I) as (rank & Rk). exists rank. intros v o w Hv Ho Hw.
    destruct (Old v o (or_introl Hv) Ho) as ([A|A] & B & C); [eapply Rk; eauto|].
    destruct Hv as [Hv|]; [|contradiction]. eapply Rk; eauto.
  - simpl. pose proof (s_S0 _ _ I). unfold z. lia.
  - intros id Hid. apply (s_fresh _ _ I). simpl in Hid. unfold z in *. lia.
  - intros id s Hs. destruct (s_N _ _ I id s Hs) as (B1 & B2 & B3 & B4 & B5). simpl. unfold z. repeat split; auto; try lia.
    intros [X| ->]; auto. lia.
  - intros v o Hv Ho. destruct (Old v o Hv Ho) as (A & B & C). eapply (s_item _ _ I); eauto.
  - intros v o Hv Ho. destruct (Old v o Hv Ho) as (A & B & C). eapply (s_gv _ _ I); eauto.
  - intros v o Hv Ho. destruct (Old v o Hv Ho) as (A & B & C). eapply (s_gd _ _ I); eauto.
  - intros id t Ht. apply (target_ext h g); auto; [|now apply (s_tmp _ _ I)]. apply Mlt. simpl in Ht. intros X. rewrite X in Ht. discriminate.
  - intros id x t Ht. apply (target_ext h g); auto; [|now apply (s_dtmp _ _ I) with x]. apply Mlt. simpl in Ht. intros X. rewrite X in Ht. destruct Ht.
  - intros id s t Hs Ht Gs W SW. eapply (s_vN _ _ I); eauto.
  - intros id s x t Hs Ht Gs W D SW SD. eapply (s_dN _ _ I); eauto. eapply dsol_ext; eauto.
  - intros v t Hv Ht Gv W SW. simpl in Ht. destruct Hv as [Hv| ->]; [eapply (s_vP _ _ I); eauto|].
    rewrite (s_fresh _ _ I) in Ht by auto. discriminate.
  - intros v Hv Hi. simpl. destruct Hv as [Hv| ->]; [|now rewrite (s_fresh _ _ I)].
    apply (s_nP _ _ I); auto. rewrite Cell in Hi; auto. intros ->. contradiction.
  - intros v x t Hv Hi Ht. simpl in Ht. destruct Hv as [Hv| ->].
    + assert (Hve : v <> z) by (intros ->; contradiction). rewrite Cell in Hi by auto.
      destruct (s_dP _ _ I v x t Hv Hi Ht) as [A B]. split; [left; auto|]. rewrite Cell; auto. intros ->. apply Pe. now apply (s_K _ _ I).
    + rewrite (s_fresh _ _ I) in Ht by auto. destruct Ht.
  - intros nc v o Hv Ho. destruct (Old v o Hv Ho) as (A & B & C). eapply (s_nice _ _ I); eauto.
  - intros nc id s Hs. eapply (s_nN _ _ I); eauto.
  - intros nc W SW Sm v o Hv Ho. destruct (Old v o Hv Ho) as (A & B & C). eapply (s_sm _ _ I); eauto.
  - intros nc W SW Sm id s Hs. eapply (s_smN _ _ I); eauto.
  - destruct (s_bool _ _ I) as (pb & Hpb). exists (fun v => pb v || Nat.eqb v z). intros v. cbn [gP g'].
    rewrite orb_true_iff, Nat.eqb_eq, Hpb. tauto.
  - intros v [Kv| ->]; [now apply (s_Kb _ _ I)|]. right. apply (s_S0 _ _ I).
  - intros v o Hv Ho. destruct (Old v o Hv Ho) as (A & B & C). eapply (s_nd _ _ I); eauto.
  - intros v w o o' k Hv Hw Hvw Ho Ho'. destruct (Old v o Hv Ho) as (A & B & C). destruct (Old w o' Hw Ho') as (A' & B' & C').
    now apply (s_dj _ _ I v w o o' k).
  - intros v o p Hv Ho Hp. destruct (Old v o Hv Ho) as (A & B & C). eapply (s_pid _ _ I); eauto.
Qed.

(** *** Memos *)
Lemma mput_in l k u x t : In (x, t) (mput l k u) -> (x = k /\ t = u) \/ In (x, t) l.
Proof.
  induction l as [|[j w] l IH]; simpl.
  - intros [E|[]]. injection E as <- <-. auto.
  - destruct (Nat.eqb k j); simpl; intros [E|H]; auto.
    + injection E as <- <-. auto.
    + tauto.
Qed.
Lemma mput_find l k u : mfind (mput l k u) k = Some u.
Proof.
  induction l as [|[j w] l IH]; simpl.
  - now rewrite Nat.eqb_refl.
  - destruct (Nat.eqb k j) eqn:E; simpl; [now rewrite Nat.eqb_refl|]. now rewrite E.
Qed.
Lemma mfind_in l k t : mfind l k = Some t -> In (k, t) l.
Proof.
  induction l as [|[j w] l IH]; simpl; [discriminate|]. destruct (Nat.eqb_spec k j) as [->|]; [|auto].
  intros E. injection E as ->. auto.
Qed.

Lemma ext_memo h g id m : ext h g (setm h id m) g.
Proof. constructor; simpl; auto. intros v A B. contradiction. Qed.

Lemma setm_ok h g id m : SInv h g -> id < next h ->
  (forall t, m_tmp m = Some t -> target h g id t) -> (forall x t, In (x, t) (m_dtmp m) -> target h g id t) ->
  (forall s t, gN g id = Some s -> m_tmp m = Some t -> gv s -> forall W, sol h g W -> W t = sem W s) ->
  (forall s x t, gN g id = Some s -> In (x, t) (m_dtmp m) -> gd s ->
      forall W D, sol h g W -> dsol h g x W D -> W t = dsem W D s) ->
  (forall t, gP g id -> m_tmp m = Some t -> GV id -> forall W, sol h g W -> W t = W id) ->
  (gP g id -> c_items (cells h id) = [] -> m_tmp m = None) ->
  (forall x t, gP g id -> c_items (cells h id) = [] -> In (x, t) (m_dtmp m) -> gK g t /\ c_base (cells h t) = n0) ->
  SInv (setm h id m) g.
Proof.
  intros I Hid H1 H2 H3 H4 H5 H6 H7.
  assert (M : forall j, memos (setm h id m) j = if Nat.eqb j id then m else memos h j) by reflexivity.
  constructor; try exact (s_lt _ _ I); try exact (s_R _ _ I); try apply I; auto.
  - intros j Hj. rewrite M. destruct (Nat.eqb_spec j id) as [->|Hn]; [simpl in Hj; lia|]. now apply (s_fresh _ _ I).
  - intros j t. rewrite M. destruct (Nat.eqb_spec j id) as [->|Hn]; [exact (H1 t)|exact (s_tmp _ _ I j t)].
  - intros j x t. rewrite M. destruct (Nat.eqb_spec j id) as [->|Hn]; [exact (H2 x t)|exact (s_dtmp _ _ I j x t)].
  - intros j s t Hs. rewrite M. destruct (Nat.eqb_spec j id) as [->|Hn]; [exact (H3 s t Hs)|exact (s_vN _ _ I j s t Hs)].
  - intros j s x t Hs. rewrite M. destruct (Nat.eqb_spec j id) as [->|Hn]; [exact (H4 s x t Hs)|exact (s_dN _ _ I j s x t Hs)].
  - intros j t Hj. rewrite M. destruct (Nat.eqb_spec j id) as [->|Hn]; [exact (H5 t Hj)|exact (s_vP _ _ I j t Hj)].
  - intros j Hj Hi. rewrite M. destruct (Nat.eqb_spec j id) as [->|Hn]; [exact (H6 Hj Hi)|exact (s_nP _ _ I j Hj Hi)].
  - intros j x t Hj Hi. rewrite M. destruct (Nat.eqb_spec j id) as [->|Hn]; [exact (H7 x t Hj Hi)|exact (s_dP _ _ I j x t Hj Hi)].
Qed.

Lemma target_fresh h g id t : gP g t -> id < t -> ~ C0 h g id -> S0 <= t -> target h g id t.
Proof. intros P H C S. split; auto. split; auto. left. split; auto. contradiction. Qed.

Lemma set_tmp_node h g id s t : SInv h g -> gN g id = Some s -> target h g id t ->
  (gv s -> forall W, sol h g W -> W t = sem W s) -> SInv (set_tmp id t h) g.
Proof.
  intros I Hs Ht V. destruct (s_N _ _ I id s Hs) as (A & B & C & _).
  unfold set_tmp. apply setm_ok; auto; cbn [m_tmp m_dtmp]; try contradiction.
  - intros u E. injection E as <-. auto.
  - intros x u. apply (s_dtmp _ _ I).
  - intros s' u Hs' E. injection E as <-. rewrite Hs in Hs'. injection Hs' as <-. auto.
  - intros s' x u Hs'. apply (s_dN _ _ I); auto.
Qed.
Lemma set_dtmp_node h g id s x t : SInv h g -> gN g id = Some s -> target h g id t ->
  (gd s -> forall W D, sol h g W -> dsol h g x W D -> W t = dsem W D s) -> SInv (set_dtmp id x t h) g.
Proof.
  intros I Hs Ht V. destruct (s_N _ _ I id s Hs) as (A & B & C & _).
  unfold set_dtmp. apply setm_ok; auto; cbn [m_tmp m_dtmp]; try contradiction.
  - apply (s_tmp _ _ I).
  - intros y u Hi. apply mput_in in Hi. destruct Hi as [[-> ->]|Hi]; auto. eapply (s_dtmp _ _ I); eauto.
  - intros s' u Hs'. apply (s_vN _ _ I); auto.
  - intros s' y u Hs' Hi. rewrite Hs in Hs'. injection Hs' as <-. apply mput_in in Hi. destruct Hi as [[-> ->]|Hi]; auto.
    apply (s_dN _ _ I id); auto.
Qed.

Lemma sol_setm h g id m W : sol (setm h id m) g W <-> sol h g W.
Proof. reflexivity. Qed.
Lemma dsol_setm h g id m x W D : dsol (setm h id m) g x W D <-> dsol h g x W D.
Proof. reflexivity. Qed.

(** The end of symEval and symDeval of an operator: build, keep, return. *)
Lemma finish_eval h g id s t : SInv h g -> gN g id = Some s ->
  (forall v, In v (trefs t) -> gP g v) -> tpars t = [] -> tbuilt t -> (NC -> tnice t) ->
  (NC -> forall W, sol h g W -> Sm0 W -> tsm W t) ->
  (gv s -> forall W, sol h g W -> tsem W t = sem W s) ->
  exists x h2 g', alloc_exp t h = (x, h2) /\ ext h g (set_tmp id x h2) g' /\ SInv (set_tmp id x h2) g' /\ gP g' x /\
    (gv s -> forall W, sol (set_tmp id x h2) g' W -> W x = sem W s) /\
    (forall u, u <> id -> memos (set_tmp id x h2) u = memos h u) /\ m_tmp (memos (set_tmp id x h2) id) = Some x.
Proof.
  intros I Hs Hr Hp Hb Hn Hm V.
  destruct (alloc_ok t h g I Hr Hp Hb Hn Hm) as (x & h2 & g' & E & X & I' & Px & Hx & Hi & Mm & Vx).
  exists x, h2, g'. split; auto. destruct (s_N _ _ I id s Hs) as (A & B & C & _).
  assert (Hs' : gN g' id = Some s) by now apply X.
  assert (V' : gv s -> forall W, sol h2 g' W -> W x = sem W s).
  { intros G W SW. rewrite Vx by auto. apply V; auto. eapply sol_ext; eauto. }
  split.
  { eapply ext_trans; [exact X|apply ext_memo|]. intros v Pv. apply (s_lt _ _ I'). auto. }
  split.
  { apply set_tmp_node with s; auto. apply target_fresh; auto; try lia.
    - intros [Q _]. destruct (s_N _ _ I' id s Hs') as [Z _]. auto.
    - pose proof (s_S0 _ _ I). lia. }
  split; auto. split; auto. split.
  - intros u Hu. unfold set_tmp. cbn [memos setm]. rewrite upd_other by auto. now rewrite Mm.
  - unfold set_tmp. cbn [memos setm]. now rewrite upd_same.
Qed.
Lemma finish_deval h g id s y t : SInv h g -> gN g id = Some s ->
  (forall v, In v (trefs t) -> gP g v) -> tpars t = [] -> tbuilt t -> (NC -> tnice t) ->
  (NC -> forall W, sol h g W -> Sm0 W -> tsm W t) ->
  (gd s -> forall W D, sol h g W -> dsol h g y W D -> tsem W t = dsem W D s) ->
  exists x h2 g', alloc_exp t h = (x, h2) /\ ext h g (set_dtmp id y x h2) g' /\ SInv (set_dtmp id y x h2) g' /\ gP g' x /\
    (gd s -> forall W D, sol (set_dtmp id y x h2) g' W -> dsol (set_dtmp id y x h2) g' y W D -> W x = dsem W D s) /\
    In (y, x) (m_dtmp (memos (set_dtmp id y x h2) id)).
Proof.
  intros I Hs Hr Hp Hb Hn Hm V.
  destruct (alloc_ok t h g I Hr Hp Hb Hn Hm) as (x & h2 & g' & E & X & I' & Px & Hx & Hi & Mm & Vx).
  exists x, h2, g'. split; auto. destruct (s_N _ _ I id s Hs) as (A & B & C & _).
  assert (Hs' : gN g' id = Some s) by now apply X.
  assert (V' : gd s -> forall W D, sol h2 g' W -> dsol h2 g' y W D -> W x = dsem W D s).
  { intros G W D SW SD. rewrite Vx by auto. apply V; auto; [eapply sol_ext; eauto|eapply dsol_ext; eauto]. }
  split.
  { eapply ext_trans; [exact X|apply ext_memo|]. intros v Pv. apply (s_lt _ _ I'). auto. }
  split.
  { apply set_dtmp_node with s; auto. apply target_fresh; auto; try lia.
    - intros [Q _]. destruct (s_N _ _ I' id s Hs') as [Z _]. auto.
    - pose proof (s_S0 _ _ I). lia. }
  split; auto. split; auto.
  unfold set_dtmp. cbn [memos setm]. rewrite upd_same. cbn [m_dtmp]. apply mfind_in, mput_find.
Qed.

Definition pick (l r : op) (s : side) : op := match s with SL => l | SR => r end.

(** *** symEval *)
Definition frame (h0 : heap) (g0 : ghost) (h : heap) (g : ghost) : Prop :=
  ext h0 g0 h g /\ forall u, gN g0 u = None -> u < next h0 -> memos h u = memos h0 u.
Lemma frame_refl h g : frame h g h g.
Proof. split; auto using ext_refl. Qed.
Lemma frame_trans h0 g0 h g h' g' : frame h0 g0 h g -> frame h g h' g' -> SInv h g -> frame h0 g0 h' g'.
Proof.
  intros [A1 A2] [B1 B2] I. split.
  - eapply ext_trans; eauto. intros v Pv. apply (s_lt _ _ I). auto.
  - intros u Hu Hl. rewrite B2; auto.
    + destruct (gN g u) as [s|] eqn:E; auto. rewrite (e_Ndec _ _ _ _ A1 u s Hl E) in Hu. discriminate.
    + pose proof (e_next _ _ _ _ A1). lia.
Qed.
Definition result (o : op) (h h' : heap) (v : nat) : Prop :=
  match o with
  | Leaf w => v = match m_tmp (memos h w) with Some t => t | None => w end
  | Par _ tv => v = tv
  | Un _ id _ | Bin _ id _ _ => m_tmp (memos h' id) = Some v
  end.
Definition evspec (o : op) : Prop := forall h g, SInv h g -> known g o -> built o ->
  exists v h' g', symEval_op lr o h = Some (v, h') /\ frame h g h' g' /\ SInv h' g' /\ gP g' v /\
    (gv o -> forall W, sol h' g' W -> W v = sem W o) /\ result o h h' v.

Lemma evspec_call o h0 g0 (Jx : heap -> ghost -> Prop) : evspec o -> built o ->
  (forall h g, Jx h g -> known g o) ->
  (forall h g h' g', Jx h g -> frame h g h' g' -> Jx h' g') ->
  callok (nat -> T) sol (fun W => W) (fun h g => SInv h g /\ frame h0 g0 h g /\ Jx h g)
    (symEval_op lr o) (fun W => sem W o) (gv o).
Proof.
  intros Ho Hb Hk Hx h g (I & F & X). destruct (Ho h g I (Hk _ _ X) Hb) as (v & h' & g' & E & F' & I' & P' & V & _).
  exists v, h', g'. split; auto. split; [apply F'|]. split; auto.
  split; auto. split; eauto using frame_trans.
Qed.

Lemma known_frame h g h' g' o : frame h g h' g' -> known g o -> known g' o.
Proof. intros [E _]. eapply known_ext; eauto. Qed.

Lemma symEval_ok o : evspec o.
Proof.
  induction o as [v|p tv|k id e IH|k id l IHl r IHr]; intros h g I Kn Bt.
  - cbn [symEval_op]. exists (match m_tmp (memos h v) with Some t => t | None => v end), h, g.
    split; auto. split; [apply frame_refl|]. split; auto. simpl in Kn. destruct (m_tmp (memos h v)) as [t|] eqn:E.
    + split; [apply (s_tmp _ _ I v t E)|]. split; [|simpl; now rewrite E]. cbn [gv sem]. intros G W SW. now apply (s_vP _ _ I v t).
    + split; auto. split; auto. simpl. now rewrite E.
  - cbn [symEval_op]. exists tv, h, g. split; auto. split; [apply frame_refl|]. split; auto. split; auto. split; auto. reflexivity.
  - cbn [symEval_op]. destruct Kn as [Hid Kn]. destruct Bt as [B1 B2]. destruct (m_tmp (memos h id)) as [t|] eqn:E.
    + exists t, h, g. split; auto. split; [apply frame_refl|]. split; auto. split; [apply (s_tmp _ _ I id t E)|].
      split; auto. intros G W SW. eapply (s_vN _ _ I); eauto.
    + destruct (val1_some k B1) as (f & Ef & HD & Hn & Hb). rewrite Ef.
      set (Jx := fun (h' : heap) (g' : ghost) => known g' e).
      destruct (gather_ok (nat -> T) sol (fun W => W) (fun h' g' => SInv h' g' /\ frame h g h' g' /\ Jx h' g'))
        with (rE := fun _ : side => symEval_op lr e) (rD := fun (_ : side) (_ : heap) => @None (nat * heap))
             (vE := fun (_ : side) W => sem W e) (vD := fun (_ : side) (_ : nat -> T) => n0 : T)
             (EG := fun _ : side => gv e) (DG := fun _ : side => False) (f := f) (h := h) (g := g)
        as (t & h1 & g1 & Eg & X1 & (I1 & F1 & K1) & P1 & Q1 & [N1 M1] & V1).
      { intros h' g' (A & _). exact A. }
      { intros h' g' h2 g2 a (A & _) X. now apply sol_ext. }
      { intros s _. apply evspec_call; auto. unfold Jx. intros; eapply known_frame; eauto. }
      { intros s Hs. now apply HD in Hs. }
      { split; auto. split; [apply frame_refl|auto]. }
      rewrite Eg.
      assert (Hid1 : gN g1 id = Some (Un k id e)) by now apply X1.
      assert (Vv : gv e -> forall W, sol h1 g1 W -> tsem W t = fval (fun _ => sem W e) (fun _ => n0) f /\
                 (fsm (fun _ => sem W e) (fun _ => n0) f -> tsm W t)).
      { intros G W SW. apply (V1 (fun s _ => G)); auto. }
      destruct (finish_eval h1 g1 id (Un k id e) t I1 Hid1 P1 Q1 (M1 Hb))
        as (x & h2 & g2 & Ea & X2 & I2 & P2 & V2 & Fr & Mt).
      { intros nc. apply N1, Hn. apply (s_nN _ _ I1 nc id _ Hid1). }
      { intros nc W SW Sm. pose proof (s_nN _ _ I1 nc id _ Hid1) as [Nk Ne].
        destruct (s_smN _ _ I1 nc W SW Sm id _ Hid1) as [Sk _].
        apply (Vv (nice_gv e nc Ne) W SW). eapply HsV1; eauto. }
      { intros [G1 G2] W SW. destruct (Vv G2 W SW) as [Y _]. rewrite Y. cbn [sem]. now apply val1_ok. }
      rewrite Ea. exists x, (set_tmp id x h2), g2. split; auto.
      split; [|split; [auto|split; [auto|split; [auto|exact Mt]]]].
      eapply frame_trans; [exact F1| |exact I1]. split; auto.
      intros u Hu Hl. apply Fr. intros ->. congruence.
  - cbn [symEval_op]. destruct Kn as (Hid & Kl & Kr). destruct Bt as (B1 & B2 & B3). destruct (m_tmp (memos h id)) as [t|] eqn:E.
    + exists t, h, g. split; auto. split; [apply frame_refl|]. split; auto. split; [apply (s_tmp _ _ I id t E)|].
      split; auto. intros G W SW. eapply (s_vN _ _ I); eauto.
    + destruct (val2_some k B1) as (f & Ef & HD & Hn & Hb). rewrite Ef.
      set (Jx := fun (h' : heap) (g' : ghost) => known g' l /\ known g' r).
      destruct (gather_ok (nat -> T) sol (fun W => W) (fun h' g' => SInv h' g' /\ frame h g h' g' /\ Jx h' g'))
        with (rE := fun s : side => match s with SL => symEval_op lr l | SR => symEval_op lr r end)
             (rD := fun (_ : side) (_ : heap) => @None (nat * heap))
             (vE := fun (s : side) W => sem W (pick l r s)) (vD := fun (_ : side) (_ : nat -> T) => n0 : T)
             (EG := fun s : side => gv (pick l r s)) (DG := fun _ : side => False) (f := f) (h := h) (g := g)
        as (t & h1 & g1 & Eg & X1 & (I1 & F1 & K1) & P1 & Q1 & [N1 M1] & V1).
      { intros h' g' (A & _). exact A. }
      { intros h' g' h2 g2 a (A & _) X. now apply sol_ext. }
      { intros s _. destruct s; apply evspec_call; auto; unfold Jx; intros; intuition; eapply known_frame; eauto. }
      { intros s Hs. now apply HD in Hs. }
      { split; auto. split; [apply frame_refl|split; auto]. }
      rewrite Eg.
      assert (Hid1 : gN g1 id = Some (Bin k id l r)) by now apply X1.
      assert (Vv : gv l -> gv r -> forall W, sol h1 g1 W -> tsem W t = fval (fun s => sem W (pick l r s)) (fun _ => n0) f /\
                 (fsm (fun s => sem W (pick l r s)) (fun _ => n0) f -> tsm W t)).
      { intros G1 G2 W SW. apply V1; auto. intros [] _; auto. }
      destruct (finish_eval h1 g1 id (Bin k id l r) t I1 Hid1 P1 Q1 (M1 Hb))
        as (x & h2 & g2 & Ea & X2 & I2 & P2 & V2 & Fr & Mt).
      { intros nc. apply N1, Hn. apply (s_nN _ _ I1 nc id _ Hid1). }
      { intros nc W SW Sm. pose proof (s_nN _ _ I1 nc id _ Hid1) as (Nk & Nl & Nr).
        destruct (s_smN _ _ I1 nc W SW Sm id _ Hid1) as [Sk _].
        apply (Vv (nice_gv l nc Nl) (nice_gv r nc Nr) W SW). eapply HsV2; eauto. }
      { intros (G1 & G2 & G3) W SW. destruct (Vv G2 G3 W SW) as [Y _]. rewrite Y. cbn [sem].
        rewrite (val2_ok L k f) by auto. reflexivity. }
      rewrite Ea. exists x, (set_tmp id x h2), g2. split; auto.
      split; [|split; [auto|split; [auto|split; [auto|exact Mt]]]].
      eapply frame_trans; [exact F1| |exact I1]. split; auto.
      intros u Hu Hl. apply Fr. intros ->. congruence.
Qed.

(** *** symDeval *)
Section SymDeval.
Variable y : nat.
Variable P0 : nat -> Prop.
Variable rk : nat -> nat.
Definition quiet (b : nat) (h : heap) : Prop :=
  forall w, P0 w -> rk w < b -> c_items (cells h w) <> [] -> c_vis (cells h w) = false.
Definition closed (h : heap) : Prop :=
  forall v o w, P0 v -> In o (c_items (cells h v)) -> In w (leaves o) -> P0 w /\ rk w < rk v.
Definition J (b : nat) (h : heap) (g : ghost) : Prop :=
  SInv h g /\ (forall w, P0 w -> gP g w) /\ quiet b h /\ closed h.
Definition env2 (h : heap) (g : ghost) (a : (nat -> T) * (nat -> T)) : Prop :=
  sol h g (fst a) /\ dsol h g y (fst a) (snd a).
Lemma J_ext b h g h' g' : J b h g -> ext h g h' g' -> SInv h' g' -> J b h' g'.
Proof.
  intros (I & A & Q & C) X I'. split; auto. split; [intros; apply X; auto|].
  assert (Lt : forall w, P0 w -> w < next h) by (intros w Pw; apply (s_lt _ _ I); auto). split.
  - intros w Pw Rw. rewrite (e_cells _ _ _ _ X) by auto. now apply Q.
  - intros v o w Pv. rewrite (e_cells _ _ _ _ X) by auto. now apply C.
Qed.
Lemma env2_ext h g h' g' a : SInv h g -> ext h g h' g' -> env2 h' g' a -> env2 h g a.
Proof. intros I X [A B]. split; [eapply sol_ext|eapply dsol_ext]; eauto. Qed.

Variable b : nat.
Variable sd : nat -> heap -> option (nat * heap).
Definition sdspec : Prop := forall w h g, P0 w -> rk w < b -> J b h g ->
  exists d h' g', sd w h = Some (d, h') /\ ext h g h' g' /\ SInv h' g' /\ gP g' d /\
    (GD w -> forall W D, sol h' g' W -> dsol h' g' y W D -> W d = D w) /\
    (S0 <= d \/ c_items (cells h' d) = []) /\
    (c_items (cells h' w) = [] \/ exists t, m_tmp (memos h' w) = Some t).
Hypothesis Hsd : sdspec.

Definition dres (o : op) (h' : heap) (d : nat) : Prop :=
  match o with
  | Leaf w => (S0 <= d \/ c_items (cells h' d) = []) /\
              (c_items (cells h' w) = [] \/ exists t, m_tmp (memos h' w) = Some t)
  | Par _ _ => True
  | Un _ id _ | Bin _ id _ _ => In (y, d) (m_dtmp (memos h' id))
  end.
Definition dspec (o : op) : Prop := (forall w, In w (leaves o) -> P0 w /\ rk w < b) ->
  forall h g, J b h g -> known g o -> built o ->
  exists d h' g', symDeval_op lr y sd o h = Some (d, h') /\ ext h g h' g' /\ SInv h' g' /\ gP g' d /\
    (gd o -> forall W D, sol h' g' W -> dsol h' g' y W D -> W d = dsem W D o) /\ dres o h' d.

Lemma ev_call o (Jx : heap -> ghost -> Prop) : built o ->
  (forall h g, Jx h g -> known g o) -> (forall h g h' g', Jx h g -> ext h g h' g' -> Jx h' g') ->
  callok ((nat -> T) * (nat -> T)) env2 fst (fun h g => J b h g /\ Jx h g)
    (symEval_op lr o) (fun a => sem (fst a) o) (gv o).
Proof.
  intros Hb Hk Hx h g (HJ & X). destruct (symEval_ok o h g (proj1 HJ) (Hk _ _ X) Hb) as (v & h' & g' & E & [F' _] & I' & P' & V & _).
  exists v, h', g'. split; auto. split; auto. split; [split; eauto using J_ext|]. split; auto.
  intros G a [Ha _]. auto.
Qed.
Lemma de_call o (Jx : heap -> ghost -> Prop) : built o -> dspec o ->
  (forall w, In w (leaves o) -> P0 w /\ rk w < b) ->
  (forall h g, Jx h g -> known g o) -> (forall h g h' g', Jx h g -> ext h g h' g' -> Jx h' g') ->
  callok ((nat -> T) * (nat -> T)) env2 fst (fun h g => J b h g /\ Jx h g)
    (symDeval_op lr y sd o) (fun a => dsem (fst a) (snd a) o) (gd o).
Proof.
  intros Hb Hd Hl Hk Hx h g (HJ & X). destruct (Hd Hl h g HJ (Hk _ _ X) Hb) as (v & h' & g' & E & F' & I' & P' & V & _).
  exists v, h', g'. split; auto. split; auto. split; [split; eauto using J_ext|]. split; auto.
  intros G a [Ha Hb']. auto.
Qed.

Lemma symDeval_op_ok o : dspec o.
Proof.
  induction o as [v|p tv|k id e IH|k id l IHl r IHr]; intros Hl h g HJ Kn Bt.
  - cbn [symDeval_op]. destruct (Hl v) as [Pv Rv]; [simpl; auto|].
    destruct (Hsd v h g Pv Rv HJ) as (d & h' & g' & E & X & I' & P' & V & Y1 & Y2).
    exists d, h', g'. split; auto. split; auto. split; auto. split; auto. split; [|split; auto].
    intros G W D SW SD. now apply V.
  - cbn [symDeval_op]. exists 1, h, g. destruct HJ as [I HJ].
    destruct (s_t0 _ _ I) as [K1 B1].
    split; auto. split; [apply ext_refl|]. split; auto. split; [now apply (s_K _ _ I)|]. split; [|exact Logic.I].
    intros _ W D [_ SW] _. cbn [dsem]. rewrite SW by auto. exact B1.
  - cbn [symDeval_op]. destruct Kn as [Hid Kn]. destruct Bt as [B1 B2]. pose proof (proj1 HJ) as I.
    destruct (mfind (m_dtmp (memos h id)) y) as [t|] eqn:E.
    + apply mfind_in in E. exists t, h, g. split; auto. split; [apply ext_refl|]. split; auto. split; [apply (s_dtmp _ _ I id y t E)|].
      split; auto. intros G W D SW SD. eapply (s_dN _ _ I); eauto.
    + destruct (der1_some k B1) as (f & Ef & HE & Hn & Hb). rewrite Ef.
      set (Jx := fun (h' : heap) (g' : ghost) => known g' e).
      destruct (gather_ok ((nat -> T) * (nat -> T)) env2 fst (fun h' g' => J b h' g' /\ Jx h' g'))
        with (rE := fun _ : side => symEval_op lr e) (rD := fun _ : side => symDeval_op lr y sd e)
             (vE := fun (_ : side) (a : (nat -> T) * (nat -> T)) => sem (fst a) e)
             (vD := fun (_ : side) (a : (nat -> T) * (nat -> T)) => dsem (fst a) (snd a) e)
             (EG := fun _ : side => gv e) (DG := fun _ : side => gd e) (f := f) (h := h) (g := g)
        as (t & h1 & g1 & Eg & X1 & (J1 & K1) & P1 & Q1 & [N1 M1] & V1).
      { intros h' g' ((A & _) & _). exact A. }
      { intros h' g' h2 g2 a ((A & _) & _) X. now apply env2_ext. }
      { intros s _. apply ev_call; auto. unfold Jx. intros; eapply known_ext; eauto. }
      { intros s _. apply de_call; auto. unfold Jx. intros; eapply known_ext; eauto. }
      { split; auto. }
      rewrite Eg. pose proof (proj1 J1) as I1.
      assert (Hid1 : gN g1 id = Some (Un k id e)) by now apply X1.
      assert (Vv : gd e -> lin1 k \/ gv e -> forall W D, sol h1 g1 W -> dsol h1 g1 y W D ->
                 tsem W t = fval (fun _ => sem W e) (fun _ => dsem W D e) f /\
                 (fsm (fun _ => sem W e) (fun _ => dsem W D e) f -> tsm W t)).
      { intros G G' W D SW SD. apply (fun a b => V1 a b (W, D)); [|auto|split; auto].
        intros s Hs. destruct G' as [G'|G']; auto. exfalso. now apply (HE G' s). }
      destruct (finish_deval h1 g1 id (Un k id e) y t I1 Hid1 P1 Q1 (M1 Hb))
        as (x & h2 & g2 & Ea & X2 & I2 & P2 & V2 & Mt).
      { intros nc. apply N1, Hn. apply (s_nN _ _ I1 nc id _ Hid1). }
      { intros nc W SW Sm. pose proof (s_nN _ _ I1 nc id _ Hid1) as [Nk Ne].
        destruct (s_smN _ _ I1 nc W SW Sm id _ Hid1) as [Sk _].
        destruct (dsol_exists h1 g1 y W I1) as (D & SD).
        apply (Vv (nice_gd e nc Ne) (or_intror (nice_gv e nc Ne)) W D SW SD). eapply HsD1; eauto. }
      { intros [G1 G2] W D SW SD. destruct (Vv G1 G2 W D SW SD) as [Y _]. rewrite Y. cbn [dsem]. now apply der1_ok. }
      rewrite Ea. exists x, (set_dtmp id y x h2), g2. split; auto.
      split; [eapply ext_trans; [exact X1|exact X2|]; intros v Pv; apply (s_lt _ _ I1); auto|].
      split; [auto|split; [auto|split; [auto|exact Mt]]].
  - cbn [symDeval_op]. destruct Kn as (Hid & Kl & Kr). destruct Bt as (B1 & B2 & B3). pose proof (proj1 HJ) as I.
    destruct (mfind (m_dtmp (memos h id)) y) as [t|] eqn:E.
    + apply mfind_in in E. exists t, h, g. split; auto. split; [apply ext_refl|]. split; auto. split; [apply (s_dtmp _ _ I id y t E)|].
      split; auto. intros G W D SW SD. eapply (s_dN _ _ I); eauto.
    + destruct (der2_some k B1) as (f & Ef & HE & Hn & Hb). rewrite Ef.
      assert (Hll : forall w, In w (leaves l) -> P0 w /\ rk w < b).
      { intros w Hw. apply Hl. simpl. apply in_or_app. auto. }
      assert (Hlr : forall w, In w (leaves r) -> P0 w /\ rk w < b).
      { intros w Hw. apply Hl. simpl. apply in_or_app. auto. }
      set (Jx := fun (h' : heap) (g' : ghost) => known g' l /\ known g' r).
      destruct (gather_ok ((nat -> T) * (nat -> T)) env2 fst (fun h' g' => J b h' g' /\ Jx h' g'))
        with (rE := fun s : side => match s with SL => symEval_op lr l | SR => symEval_op lr r end)
             (rD := fun s : side => match s with SL => symDeval_op lr y sd l | SR => symDeval_op lr y sd r end)
             (vE := fun (s : side) (a : (nat -> T) * (nat -> T)) => sem (fst a) (pick l r s))
             (vD := fun (s : side) (a : (nat -> T) * (nat -> T)) => dsem (fst a) (snd a) (pick l r s))
             (EG := fun s : side => gv (pick l r s)) (DG := fun s : side => gd (pick l r s)) (f := f) (h := h) (g := g)
        as (t & h1 & g1 & Eg & X1 & (J1 & K1) & P1 & Q1 & [N1 M1] & V1).
      { intros h' g' ((A & _) & _). exact A. }
      { intros h' g' h2 g2 a ((A & _) & _) X. now apply env2_ext. }
      { intros s _. destruct s; apply ev_call; auto; unfold Jx; intros; intuition; eapply known_ext; eauto. }
      { intros s _. destruct s; apply de_call; auto; unfold Jx; intros; intuition; eapply known_ext; eauto. }
      { split; auto. split; auto. }
      rewrite Eg. pose proof (proj1 J1) as I1.
      assert (Hid1 : gN g1 id = Some (Bin k id l r)) by now apply X1.
      assert (Vv : gd l -> gd r -> lin2 k \/ (gv l /\ gv r) -> forall W D, sol h1 g1 W -> dsol h1 g1 y W D ->
                 tsem W t = fval (fun s => sem W (pick l r s)) (fun s => dsem W D (pick l r s)) f /\
                 (fsm (fun s => sem W (pick l r s)) (fun s => dsem W D (pick l r s)) f -> tsm W t)).
      { intros G1 G2 G' W D SW SD. apply (fun a b => V1 a b (W, D)); [|intros [] _; auto|split; auto].
        intros s Hs. destruct G' as [G'|[Ga Gb]]; [|destruct s; auto]. exfalso. now apply (HE G' s). }
      destruct (finish_deval h1 g1 id (Bin k id l r) y t I1 Hid1 P1 Q1 (M1 Hb))
        as (x & h2 & g2 & Ea & X2 & I2 & P2 & V2 & Mt).
      { intros nc. apply N1, Hn. apply (s_nN _ _ I1 nc id _ Hid1). }
      { intros nc W SW Sm. pose proof (s_nN _ _ I1 nc id _ Hid1) as (Nk & Nl & Nr).
        destruct (s_smN _ _ I1 nc W SW Sm id _ Hid1) as [Sk _].
        destruct (dsol_exists h1 g1 y W I1) as (D & SD).
        apply (Vv (nice_gd l nc Nl) (nice_gd r nc Nr) (or_intror (conj (nice_gv l nc Nl) (nice_gv r nc Nr))) W D SW SD).
        eapply HsD2; eauto. }
      { intros (G1 & G2 & G3) W D SW SD. destruct (Vv G1 G2 G3 W D SW SD) as [Y _]. rewrite Y. cbn [dsem].
        rewrite (der2_ok L DL k f) by auto. reflexivity. }
      rewrite Ea. exists x, (set_dtmp id y x h2), g2. split; auto.
      split; [eapply ext_trans; [exact X1|exact X2|]; intros v Pv; apply (s_lt _ _ I1); auto|].
      split; [auto|split; [auto|split; [auto|exact Mt]]].
Qed.
End SymDeval.

Lemma known_built h g o : SInv h g -> known g o -> built o.
Proof.
  intros I. destruct o as [v|p tv|k id e|k id l r]; simpl; auto.
  - intros [A _]. apply (s_N _ _ I) in A. apply A.
  - intros [A _]. apply (s_N _ _ I) in A. apply A.
Qed.

(** The invariant only reads the operator lists of the objects and the values of constants. *)
Lemma move_sol h h' g W : (forall v, gP g v -> c_items (cells h' v) = c_items (cells h v)) ->
  (forall v, gK g v -> c_base (cells h' v) = c_base (cells h v)) -> sol h g W <-> sol h' g W.
Proof.
  intros Hi Hk. split; intros [A B]; split.
  - intros v o Pv E. apply A; auto. now rewrite <- Hi.
  - intros v Kv. rewrite Hk; auto.
  - intros v o Pv E. apply A; auto. now rewrite Hi.
  - intros v Kv. rewrite <- Hk; auto.
Qed.
Lemma move_dsol h h' g x W D : (forall v, gP g v -> c_items (cells h' v) = c_items (cells h v)) ->
  dsol h g x W D <-> dsol h' g x W D.
Proof.
  intros Hi. split; intros A v Pv.
  - rewrite (A v Pv). now rewrite Hi.
  - rewrite (A v Pv). now rewrite Hi.
Qed.
Lemma SInv_move h h' g : SInv h g -> next h <= next h' -> memos h' = memos h ->
  (forall v, gP g v \/ gR g v -> c_items (cells h' v) = c_items (cells h v)) ->
  (forall v, gK g v -> c_base (cells h' v) = c_base (cells h v)) ->
  (forall v o w, In o (c_items (cells h' v)) -> In w (leaves o) -> w < next h') ->
  (forall v o w, In o (c_items (cells h' v)) -> In w (pars o) -> c_items (cells h' w) = []) ->
  SInv h' g.
Proof.
  intros I Hn Hm Hi Hk Hl Hp.
  assert (Sl : forall W, sol h' g W -> sol h g W) by (intros W; apply move_sol; auto).
  assert (Dl : forall x W D, dsol h' g x W D -> dsol h g x W D) by (intros x W D; apply move_dsol; auto).
  assert (HC : forall v, C0 h' g v <-> C0 h g v).
  { intros v. unfold C0. split; intros [A B]; (split; [auto|]); [rewrite <- Hi|rewrite Hi]; auto. }
  assert (Tg : forall id t, target h g id t -> target h' g id t).
  { intros id t (X & Y & Z). split; auto. unfold LV. rewrite !HC. split; auto. rewrite Hi; auto. }
  constructor; intros; rewrite ?Hm in *; eauto.
  - pose proof (s_lt _ _ I v H). lia.
  - eapply (s_R _ _ I); eauto.
  - rewrite Hi by auto. eapply (s_one _ _ I); eauto.
  - rewrite Hi by auto. eapply (s_Rne _ _ I); eauto.
  - rewrite Hi in H0 by auto. eapply (s_known _ _ I); eauto.
  - destruct (s_K _ _ I v H). split; auto. rewrite Hi; auto.
  - destruct (s_t1 _ _ I) as [A B]. split; auto. now rewrite Hk.
  - destruct (s_t0 _ _ I) as [A B]. split; auto. now rewrite Hk.
  - destruct (s_rank _ _ I) as (rank & R). exists rank. intros v o w Pv. rewrite Hi by auto. eauto.
  - pose proof (s_S0 _ _ I). lia.
  - apply (s_fresh _ _ I). lia.
  - destruct (s_N _ _ I id s H) as (A & B & C & D & E). repeat split; auto. lia.
  - rewrite Hi in H0 by auto. eapply (s_item _ _ I); eauto.
  - rewrite Hi in H0 by auto. eapply (s_gv _ _ I); eauto.
  - rewrite Hi in H0 by auto. eapply (s_gd _ _ I); eauto.
  - apply Tg. eapply (s_tmp _ _ I); eauto.
  - apply Tg. eapply (s_dtmp _ _ I); eauto.
  - eapply (s_vN _ _ I); eauto.
  - eapply (s_dN _ _ I); eauto.
  - eapply (s_vP _ _ I); eauto.
  - apply (s_nP _ _ I); auto. rewrite <- Hi; auto.
  - rewrite Hi in H0 by auto. destruct (s_dP _ _ I v x t H H0 H1) as [A B]. split; auto. now rewrite Hk.
  - rewrite Hi in H1 by auto. eapply (s_nice _ _ I); eauto.
  - eapply (s_nN _ _ I); eauto.
  - rewrite Hi in H3 by auto. eapply (s_sm _ _ I); eauto.
  - eapply (s_smN _ _ I); eauto.
  - apply (s_bool _ _ I).
  - apply (s_Kb _ _ I); auto.
  - rewrite Hi in H0 by auto. eapply (s_nd _ _ I); eauto.
  - rewrite Hi in H2 by auto. rewrite Hi in H3 by auto. now apply (s_dj _ _ I v w o o' k).
  - rewrite Hi in H0 by auto. eapply (s_pid _ _ I); eauto.
Qed.

(** Same graph, same indices. *)
Definition alike (h h' : heap) : Prop :=
  next h' = next h /\ memos h' = memos h /\
  forall v, c_items (cells h' v) = c_items (cells h v) /\ c_base (cells h' v) = c_base (cells h v).
Lemma alike_sym h h' : alike h h' -> alike h' h.
Proof. intros (A & B & C). split; auto. split; auto. intros v. destruct (C v). auto. Qed.
Lemma alike_sol h h' g W : alike h h' -> sol h g W -> sol h' g W.
Proof. intros (_ & _ & C). apply (move_sol h h' g W); intros; apply C. Qed.
Lemma alike_dsol h h' g x W D : alike h h' -> dsol h g x W D -> dsol h' g x W D.
Proof. intros (_ & _ & C). apply (move_dsol h h' g x W D); intros; apply C. Qed.
Lemma SInv_alike h h' g : alike h h' -> SInv h g -> SInv h' g.
Proof.
  intros (A & B & C) I. apply (SInv_move h); auto; try (intros; apply C); try lia.
  - intros v o w Ho Hw. rewrite (proj1 (C v)) in Ho. rewrite A. eapply (s_leaf _ _ I); eauto.
  - intros v o w Ho Hw. rewrite (proj1 (C v)) in Ho. rewrite (proj1 (C w)). eapply (s_par _ _ I); eauto.
Qed.

Section Var.
Variable y : nat.
Variable P0 : nat -> Prop.
Variable rk : nat -> nat.

(** An entry of mp_dtmp for the object itself. *)
Lemma entry_ok v h g : SInv h g -> gP g v \/ gR g v ->
  exists h0 g0 z, (match mfind (m_dtmp (memos h v)) v with
                | Some _ => h
                | None => let (t, h1) := alloc_var n0 h in set_dtmp v v t h1
                end) = h0 /\ ext h g h0 g0 /\ SInv h0 g0 /\ mfind (m_dtmp (memos h0 v)) v = Some z.
Proof.
  intros I Hv. destruct (mfind (m_dtmp (memos h v)) v) as [z|] eqn:E.
  - exists h, g, z. split; auto. split; auto using ext_refl.
  - unfold alloc_var. destruct (add_zero h g I) as [X I'].
    set (h1 := bump (S (next h)) (setc h (next h) (fresh_cell n0 []))) in *.
    set (g1 := mkG (fun u => gP g u \/ u = next h) (fun u => gK g u \/ u = next h) (gR g) (gN g)) in *.
    assert (Hlt : v < next h) by (apply (s_lt _ _ I); auto).
    assert (Cz : C0 h1 g1 (next h)).
    { split; [simpl; auto|]. unfold h1. cbn [bump cells setc]. now rewrite upd_same. }
    assert (Tg : target h1 g1 v (next h)).
    { split; [apply Cz|]. split; [left; split; auto|]. right. apply Cz. }
    exists (set_dtmp v v (next h) h1), g1, (next h). split; auto. split.
    { eapply ext_trans; [exact X|apply ext_memo|]. intros u Pu. apply (s_lt _ _ I'). auto. }
    split.
    + assert (Nv : gN g1 v = None).
      { destruct (gN g1 v) as [s|] eqn:En; auto. destruct (s_N _ _ I' v s En) as (A & B & _).
        exfalso. destruct Hv; [apply A; simpl; auto|apply B; simpl; auto]. }
      unfold set_dtmp. apply setm_ok; auto; cbn [m_tmp m_dtmp].
      * simpl. lia.
      * apply (s_tmp _ _ I').
      * intros x t Hi. apply mput_in in Hi. destruct Hi as [[-> ->]|Hi]; auto. eapply (s_dtmp _ _ I'); eauto.
      * intros s t Es. congruence.
      * intros s x t Es. congruence.
      * intros t. apply (s_vP _ _ I').
      * apply (s_nP _ _ I').
      * intros x t Pv Ei Hi. apply mput_in in Hi. destruct Hi as [[-> ->]|Hi]; [|eapply (s_dP _ _ I'); eauto].
        split; [simpl; auto|]. unfold h1. cbn [bump cells setc]. now rewrite upd_same.
    + unfold set_dtmp. cbn [memos setm]. rewrite upd_same. cbn [m_dtmp]. apply mput_find.
Qed.

Lemma object_memo h g v m : SInv h g -> gP g v \/ gR g v -> c_items (cells h v) <> [] ->
  (forall t, m_tmp m = Some t -> target h g v t) -> (forall x t, In (x, t) (m_dtmp m) -> target h g v t) ->
  (forall t, gP g v -> m_tmp m = Some t -> GV v -> forall W, sol h g W -> W t = W v) ->
  SInv (setm h v m) g.
Proof.
  intros I Hv Hi H1 H2 H3. assert (Nv : gN g v = None).
  { destruct (gN g v) as [s|] eqn:En; auto. destruct (s_N _ _ I v s En) as (A & B & _). tauto. }
  apply setm_ok; auto; try congruence; try contradiction. apply (s_lt _ _ I). auto.
Qed.

Lemma symDeval_body_ok f b v h g : sdspec y P0 rk b (symDeval_var lr f y) -> SInv h g -> gP g v \/ gR g v ->
  (forall w, P0 w -> gP g w) -> closed P0 rk h -> quiet P0 rk b h -> (P0 v -> b <= rk v) ->
  (c_items (cells h v) <> [] -> c_vis (cells h v) = false) ->
  (forall o w, In o (c_items (cells h v)) -> In w (leaves o) -> P0 w /\ rk w < b) ->
  exists d h' g', symDeval_var lr (S f) y v h = Some (d, h') /\ ext h g h' g' /\ SInv h' g' /\ gP g' d /\
    (GD v -> forall W D, sol h' g' W -> dsol h' g' y W D ->
       W d = if Nat.eqb v y then n1 else match c_items (cells h v) with o :: _ => dsem W D o | [] => n0 end) /\
    (S0 <= d \/ c_items (cells h' d) = []) /\
    (c_items (cells h' v) = [] \/ exists t, m_tmp (memos h' v) = Some t).
Proof.
  intros Hsd I Hv HP Hcl Hq Hb Hvis Hlv. cbn [symDeval_var].
  destruct (entry_ok v h g I Hv) as (h0 & g0 & z & E0 & X0 & I0 & Ez). rewrite E0. clear E0.
  assert (Hlt : v < next h) by (apply (s_lt _ _ I); auto).
  assert (Hv0 : gP g0 v \/ gR g0 v).
  { destruct Hv as [Hv|Hv]; [left; now apply X0|right]. rewrite (e_R _ _ _ _ X0). auto. }
  assert (Cv : cells h0 v = cells h v) by (apply X0; auto).
  assert (Fin : forall h' g', ext h g h' g' -> SInv h' g' -> (forall d, mfind (m_dtmp (memos h' v)) v = Some d -> 
      gP g' d /\ (S0 <= d \/ c_items (cells h' d) = []) /\
      (GD v -> forall W D, sol h' g' W -> dsol h' g' y W D ->
          W d = match c_items (cells h v) with o :: _ => dsem W D o | [] => n0 end)) ->
      (exists d, mfind (m_dtmp (memos h' v)) v = Some d) ->
      (c_items (cells h' v) = [] \/ exists t, m_tmp (memos h' v) = Some t) ->
      exists d h2 g2, (if Nat.eqb v y then Some (0, h') else do d <- mfind (m_dtmp (memos h' v)) v; Some (d, h')) = Some (d, h2) /\
        ext h g h2 g2 /\ SInv h2 g2 /\ gP g2 d /\
        (GD v -> forall W D, sol h2 g2 W -> dsol h2 g2 y W D ->
           W d = if Nat.eqb v y then n1 else match c_items (cells h v) with o :: _ => dsem W D o | [] => n0 end) /\
        (S0 <= d \/ c_items (cells h2 d) = []) /\
        (c_items (cells h2 v) = [] \/ exists t, m_tmp (memos h2 v) = Some t)).
  { intros h' g' X' I' Hd [d Ed] Ht. destruct (Nat.eqb v y).
    - exists 0, h', g'. destruct (s_t1 _ _ I') as [K1 B1]. split; auto. split; auto. split; auto.
      split; [now apply (s_K _ _ I')|]. split; [|split; auto].
      + intros _ W D [_ S2] _. now rewrite S2, B1.
      + right. now apply (s_K _ _ I').
    - rewrite Ed. destruct (Hd d Ed) as (P' & T' & V'). exists d, h', g'. repeat (split; auto). }
  destruct (c_items (cells h v)) as [|o lst] eqn:Ei.
  - (* nothing to do *)
    assert (Pv : gP g v).
    { destruct Hv as [|Hv]; auto. now apply (s_Rne _ _ I) in Hv. }
    assert (Pv0 : gP g0 v) by now apply X0.
    destruct (c_vis (cells h0 v)) eqn:Evis.
    + apply Fin with (g' := g0); auto.
      * intros d Ed. apply mfind_in in Ed. destruct (s_dP _ _ I0 v v d Pv0) as [Kd Bd]; [now rewrite Cv|auto|].
        destruct (s_K _ _ I0 d Kd) as [Pd Id]. split; auto. split; auto.
        intros _ W D [_ S2] _. now rewrite S2.
      * eauto.
      * left. now rewrite Cv.
    + rewrite Cv, Ei. cbn [each].
      set (h1 := modc (set_vis false) v (modc (set_vis true) v h0)).
      assert (C1 : forall u, cells h1 u = cells h0 u).
      { intros u. unfold h1. destruct (Nat.eq_dec u v) as [->|Hn].
        - rewrite !modc_same. destruct (cells h0 v); simpl in *. now subst.
        - now rewrite !modc_other. }
      assert (I1 : SInv h1 g0).
      { apply (SInv_alike h0); auto. split; auto. split; auto. intros u. now rewrite C1. }
      assert (X1 : ext h g h1 g0).
      { destruct X0. constructor; auto; intros; rewrite ?C1; auto. }
      apply Fin with (g' := g0); auto.
      * intros d Ed. apply mfind_in in Ed. destruct (s_dP _ _ I1 v v d Pv0) as [Kd Bd]; [now rewrite C1, Cv|auto|].
        destruct (s_K _ _ I1 d Kd) as [Pd Id]. split; auto. split; auto.
        intros _ W D [_ S2] _. now rewrite S2.
      * exists z. exact Ez.
      * left. now rewrite C1, Cv.
  - assert (El : lst = []).
    { destruct (s_one _ _ I v Hv) as [A|[o' A]]; congruence. } subst lst.
    assert (Evis : c_vis (cells h v) = false) by (apply Hvis; discriminate).
    rewrite Cv, Evis, Ei. cbn [each].
    set (h1 := modc (set_vis true) v h0).
    assert (Al1 : alike h0 h1).
    { split; auto. split; auto. intros u. unfold h1. destruct (Nat.eq_dec u v) as [->|Hn].
      - now rewrite modc_same. - now rewrite modc_other. }
    assert (I1 : SInv h1 g0) by (apply (SInv_alike h0); auto).
    assert (Lt0 : forall w, P0 w -> w < next h) by (intros w Pw; apply (s_lt _ _ I); auto).
    assert (It1 : forall w, w < next h -> c_items (cells h1 w) = c_items (cells h w)).
    { intros w Hw. rewrite (proj1 (proj2 (proj2 Al1) w)). now rewrite (e_cells _ _ _ _ X0). }
    assert (J1 : J P0 rk b h1 g0).
    { split; auto. split; [intros w Pw; apply X0; auto|]. split.
      - intros w Pw Rw Hne. unfold h1. destruct (Nat.eq_dec w v) as [->|Hn]; [specialize (Hb Pw); lia|].
        rewrite modc_other by auto. rewrite (e_cells _ _ _ _ X0) by auto. apply Hq; auto. now rewrite <- It1 by auto.
      - intros u o' w Pu. rewrite It1 by auto. now apply Hcl. }
    assert (Io : In o (c_items (cells h1 v))) by (rewrite It1 by auto; rewrite Ei; simpl; auto).
    assert (Kn : known g0 o) by (eapply (s_known _ _ I1); eauto).
    destruct (symDeval_op_ok y P0 rk b (symDeval_var lr f y) Hsd o) with (h := h1) (g := g0)
      as (d & h2 & g2 & E2 & X2 & I2 & P2 & V2 & R2); auto.
    { intros w Hw. eapply Hlv; [simpl; left; reflexivity|auto]. }
    { eapply known_built; eauto. }
    rewrite E2.
    assert (Hlt1 : v < next h1) by (pose proof (e_next _ _ _ _ X0); simpl; lia).
    assert (Cv2 : cells h2 v = cells h1 v) by (apply X2; auto).
    assert (Io2 : In o (c_items (cells h2 v))) by now rewrite Cv2.
    assert (Ne2 : c_items (cells h2 v) <> []) by (intros A; now rewrite A in Io2).
    assert (Hv2 : gP g2 v \/ gR g2 v).
    { destruct Hv0 as [Hv0|Hv0]; [left; now apply X2|right]. rewrite (e_R _ _ _ _ X2). auto. }
    assert (NC2 : ~ C0 h2 g2 v) by (intros [_ A]; auto).
    assert (Kn2 : known g2 o) by (eapply known_ext; eauto).
    (* from the memo of the item's root to a memo of v *)
    assert (Lift : forall h g id t, SInv h g -> (v < S0 \/ v < id) -> ~ C0 h g v -> target h g id t -> target h g v t).
    { intros h' g' id t I' Hor Nc (A & B & C). split; auto. split; auto.
      destruct B as [[B1 B2]|[B1 B2]]; [|right; split; auto].
      destruct Hor as [Hor|Hor].
      - destruct C as [C|C].
        + left. split; [lia|]. contradiction.
        + right. split; auto. split; auto.
      - left. split; [lia|]. contradiction. }
    assert (Small : forall h g t, gP g t -> v < S0 -> ~ C0 h g v -> S0 <= t \/ c_items (cells h t) = [] -> target h g v t).
    { intros h' g' t Pt Hs Nc C. split; auto. split; auto. destruct C as [C|C].
      - left. split; [lia|]. contradiction.
      - right. split; auto. split; auto. }
    assert (Const : forall h g t, C0 h g t -> ~ C0 h g v -> target h g v t).
    { intros h' g' t Ct Nc. split; [apply Ct|]. split; [right; auto|right; apply Ct]. }
    assert (Item : v < S0 \/ exists k id e, o = Un k id e /\ v < id) by (eapply (s_item _ _ I1); eauto).
    assert (T2 : target h2 g2 v d).
    { destruct o as [w|p tv|k id e|k id l r]; cbn [dres] in R2.
      - destruct Item as [Hs|(k & id & e & A & _)]; [|discriminate]. apply Small; auto. apply R2.
      - cbn [symDeval_op] in E2. injection E2 as <- <-. apply Const; auto.
        destruct (s_t0 _ _ I2) as [A _]. apply (s_K _ _ I2) in A. exact A.
      - apply Lift with id; auto; [|eapply (s_dtmp _ _ I2); eauto].
        destruct Item as [Hs|(k' & id' & e' & A & B)]; auto. injection A as <- <- <-. auto.
      - apply Lift with id; auto; [|eapply (s_dtmp _ _ I2); eauto].
        destruct Item as [Hs|(k' & id' & e' & A & B)]; auto. discriminate. }
    set (h3 := set_dtmp v v d h2).
    assert (I3 : SInv h3 g2).
    { unfold h3, set_dtmp. apply object_memo; auto; cbn [m_tmp m_dtmp].
      - apply (s_tmp _ _ I2).
      - intros x t Hi. apply mput_in in Hi. destruct Hi as [[-> ->]|Hi]; auto. eapply (s_dtmp _ _ I2); eauto.
      - intros t Pv. apply (s_vP _ _ I2); auto. }
    destruct (symEval_ok o h3 g2 I3 Kn2) as (e & h4 & g4 & E4 & [X4 F4] & I4 & P4 & V4 & R4).
    { eapply known_built; eauto. }
    rewrite E4.
    assert (Nv : gN g2 v = None).
    { destruct (gN g2 v) as [s|] eqn:En; auto. destruct (s_N _ _ I2 v s En) as (A & B & _). tauto. }
    assert (Hlt2 : v < next h2) by (pose proof (e_next _ _ _ _ X2); lia).
    assert (Mv : memos h4 v = memos h3 v) by (apply F4; auto).
    assert (Cv4 : cells h4 v = cells h3 v) by (apply X4; auto).
    assert (Ne4 : c_items (cells h4 v) <> []) by (rewrite Cv4; exact Ne2).
    assert (Hv4 : gP g4 v \/ gR g4 v).
    { destruct Hv2 as [Hv2|Hv2]; [left; now apply X4|right]. rewrite (e_R _ _ _ _ X4). auto. }
    assert (NC4 : ~ C0 h4 g4 v) by (intros [_ A]; auto).
    assert (T4 : target h4 g4 v e).
    { destruct o as [w|p tv|k id a|k id l r]; cbn [result] in R4.
      - destruct Item as [Hs|(k & id & a & A & _)]; [|discriminate]. apply Small; auto.
        assert (E4' : h4 = h3) by (cbn [symEval_op] in E4; congruence).
        assert (Mw : m_tmp (memos h3 w) = m_tmp (memos h2 w)).
        { unfold h3, set_dtmp. cbn [memos setm]. unfold upd. destruct (Nat.eqb_spec w v) as [->|]; auto. }
        rewrite Mw in R4. rewrite E4'. change (cells h3 e) with (cells h2 e). destruct (m_tmp (memos h2 w)) as [t|] eqn:Et.
        + subst e. destruct (s_tmp _ _ I2 w t Et) as (_ & _ & A). exact A.
        + subst e. right. destruct (proj2 R2) as [A|[t A]]; [exact A|congruence].
      - subst e. apply Const; auto. split; auto.
        apply (s_par _ _ I4 v (Par p tv)); [rewrite Cv4; exact Io2|simpl; auto].
      - apply Lift with id; auto; [|eapply (s_tmp _ _ I4); eauto].
        destruct Item as [Hs|(k' & id' & e' & A & B)]; auto. injection A as <- <- <-. auto.
      - apply Lift with id; auto; [|eapply (s_tmp _ _ I4); eauto].
        destruct Item as [Hs|(k' & id' & e' & A & B)]; auto. discriminate. }
    set (h5 := set_tmp v e h4).
    assert (Io4 : c_items (cells h4 v) = [o]) by (rewrite Cv4; change (cells h3 v) with (cells h2 v); rewrite Cv2, It1 by auto; exact Ei).
    assert (I5 : SInv h5 g4).
    { unfold h5, set_tmp. apply object_memo; auto; cbn [m_tmp m_dtmp].
      - intros t A. injection A as <-. auto.
      - intros x t. apply (s_dtmp _ _ I4).
      - intros t Pv A. injection A as <-. intros Gv W SW. rewrite V4; auto.
        + destruct SW as [S1 _]. symmetry. apply S1; auto.
        + eapply (s_gv _ _ I4 v); eauto. rewrite Io4. simpl; auto. }
    set (h6 := modc (set_vis false) v h5).
    assert (Al6 : alike h5 h6).
    { split; auto. split; auto. intros u. unfold h6. destruct (Nat.eq_dec u v) as [->|Hn].
      - now rewrite modc_same. - now rewrite modc_other. }
    assert (I6 : SInv h6 g4) by (apply (SInv_alike h5); auto).
    assert (C6 : forall u, u < next h0 -> cells h6 u = cells h0 u).
    { intros u Hu. unfold h6. assert (Hu2 : u < next h2) by (pose proof (e_next _ _ _ _ X2); simpl in *; lia).
      assert (C5 : cells h5 u = cells h1 u).
      { change (cells h5 u) with (cells h4 u). rewrite (e_cells _ _ _ _ X4) by auto.
        change (cells h3 u) with (cells h2 u). now apply X2. }
      destruct (Nat.eq_dec u v) as [->|Hn].
      - rewrite modc_same, C5. unfold h1. rewrite modc_same, Cv. clear -Evis. destruct (cells h v); simpl in *. now subst.
      - rewrite modc_other, C5 by auto. unfold h1. now rewrite modc_other. }
    assert (X6 : ext h g h6 g4).
    { assert (X04 : ext h0 g0 h6 g4).
      { assert (Y : ext h1 g0 h4 g4).
        { eapply ext_trans; [exact X2| |intros u Pu; apply (s_lt _ _ I2); auto].
          eapply ext_trans; [apply ext_memo|exact X4|intros u Pu; apply (s_lt _ _ I3); auto]. }
        destruct Y as [Y1 Y2 Y3 Y4 Y5 Y6 Y7 Y8 Y9]. constructor; auto.
        intros u Pu Nu. destruct (Y7 u Pu Nu) as (A & B & C). split; auto. unfold h6.
        rewrite modc_other; auto. simpl in A, Hlt1. lia. }
      eapply ext_trans; [exact X0|exact X04|]. intros u Pu. apply (s_lt _ _ I0). auto. }
    assert (Md : mfind (m_dtmp (memos h6 v)) v = Some d).
    { change (memos h6 v) with (memos h5 v). unfold h5, set_tmp. cbn [memos setm]. rewrite upd_same. cbn [m_dtmp].
      rewrite Mv. unfold h3, set_dtmp. cbn [memos setm]. rewrite upd_same. cbn [m_dtmp]. apply mput_find. }
    assert (X24 : ext h2 g2 h4 g4).
    { eapply ext_trans; [apply ext_memo|exact X4|intros u Pu; apply (s_lt _ _ I3); auto]. }
    apply Fin with (g' := g4); auto.
    + intros d' Ed. rewrite Md in Ed. injection Ed as <-. split; [now apply X4|]. split.
      * assert (Ld : d < next h2) by (apply (s_lt _ _ I2); auto).
        destruct T2 as (_ & _ & T2). rewrite (proj1 (proj2 (proj2 Al6) d)).
        change (cells h5 d) with (cells h4 d). now rewrite (e_cells _ _ _ _ X24).
      * intros Gv W D SW SD. apply (alike_sol h6 h5) in SW; [|now apply alike_sym].
        apply (alike_dsol h6 h5) in SD; [|now apply alike_sym].
        apply V2.
        -- eapply (s_gd _ _ I1 v); eauto.
        -- eapply sol_ext; [exact I2|exact X24|exact SW].
        -- eapply dsol_ext; [exact I2|exact X24|exact SD].
    + eauto.
    + right. exists e. change (memos h6 v) with (memos h5 v). unfold h5, set_tmp. cbn [memos setm]. rewrite upd_same. reflexivity.
Qed.

Lemma symDeval_var_ok f : forall b, b <= f -> sdspec y P0 rk b (symDeval_var lr f y).
Proof.
  induction f as [|f IH]; intros b Hb w h g Pw Rw (I & HP & Hq & Hcl); [lia|].
  destruct (symDeval_body_ok f (rk w) w h g) as (d & h' & g' & E & X & I' & P' & V & T1 & T2); auto.
  - apply IH. lia.
  - intros u Pu Ru. apply Hq; auto. lia.
  - intros o u Ho Hu. eapply Hcl; eauto.
  - exists d, h', g'. split; auto. split; auto. split; auto. split; auto. split; auto.
    intros G W D SW SD. rewrite (V G W D SW SD). rewrite (SD w) by (apply X; auto).
    rewrite (e_cells _ _ _ _ X); auto. apply (s_lt _ _ I). auto.
Qed.
End Var.

(** *** The heap of a session is well-formed *)
Lemma SInv_bounded h g : SInv h g -> bounded (next h) h.
Proof.
  intros I. constructor.
  - exact (s_leaf _ _ I).
  - destruct (s_bool _ _ I) as (pb & Hpb). set (n := next h).
    set (c0 := fun v => pb v && match c_items (cells h v) with [] => true | _ => false end).
    assert (Hc : forall v, c0 v = true <-> C0 h g v).
    { intros v. unfold c0, C0. rewrite andb_true_iff, Hpb. destruct (c_items (cells h v)); split; intros [A B]; split; auto; discriminate. }
    set (rk := fun v => if c0 v then (n - v)%nat else (2 * n + 1 - v)%nat).
    assert (LVr : forall id t, id < n -> t < n -> LV h g id t -> rk t < rk id).
    { intros id t Hid Ht Hl. unfold rk. destruct Hl as [[A B]|[A B]].
      - destruct (c0 id) eqn:E1.
        + assert (E2 : c0 t = true) by (apply Hc, B, Hc; auto). rewrite E2. lia.
        + destruct (c0 t); lia.
      - apply Hc in A. rewrite A. destruct (c0 id) eqn:E1; [|lia]. apply Hc in E1. contradiction. }
    assert (Mlt : forall id, memos h id <> mkMemo None [] -> id < n).
    { intros id Hm. destruct (le_lt_dec n id) as [X|]; auto. exfalso. now apply Hm, (s_fresh _ _ I). }
    exists (crank n rk). split; [apply crank_bound|]. split.
    + intros id t Ht. destruct (s_tmp _ _ I id t Ht) as (Pt & Lt & _).
      assert (t < n) by (apply (s_lt _ _ I); auto). split; auto. apply crank_lt; auto. apply LVr; auto.
      apply Mlt. intros X. rewrite X in Ht. discriminate.
    + intros id x t Ht. destruct (s_dtmp _ _ I id x t Ht) as (Pt & Lt & _).
      assert (t < n) by (apply (s_lt _ _ I); auto). split; auto. apply crank_lt; auto. apply LVr; auto.
      apply Mlt. intros X. rewrite X in Ht. destruct Ht.
Qed.

(** A root reaches objects only. *)
Lemma root_reach h g r v : SInv h g -> gR g r -> reach (graph_of h) r v -> v = r \/ gP g v.
Proof.
  intros I Hr H. induction H as [|w u H IH (o & Ho & Hw)]; auto. right.
  eapply known_P; [|eauto]. eapply (s_known _ _ I w); eauto. destruct IH as [->|]; auto.
Qed.
Lemma root_strat h g r : SInv h g -> gR g r -> stratified (graph_of h) r.
Proof.
  intros I Hr. destruct (s_rank _ _ I) as (rank & Rk).
  set (ls := flat_map leaves (c_items (cells h r))). destruct (max_rank rank ls) as (m & Hm).
  assert (Nr : ~ gP g r) by now apply (s_R _ _ I).
  exists (at_ r m rank). intros v w Hv (o & Ho & Hw). right.
  assert (Pw : gP g w).
  { eapply known_P; [|eauto]. eapply (s_known _ _ I v); eauto. destruct (root_reach h g r v I Hr Hv) as [->|]; auto. }
  rewrite (at_other r m rank w) by (intros ->; contradiction).
  destruct (root_reach h g r v I Hr Hv) as [->|Pv].
  - rewrite at_same. apply Hm. apply in_flat_map. eauto.
  - rewrite at_other by (intros ->; contradiction). eapply Rk; eauto.
Qed.
Lemma root_ready h g r : SInv h g -> gR g r -> settled h r -> ready (next h) h r.
Proof.
  intros I Hr St. constructor; auto.
  - eapply SInv_bounded; eauto.
  - apply (s_lt _ _ I). auto.
  - now apply (s_Rne _ _ I).
  - eapply root_strat; eauto.
  - intros v o w Ho Hw. exact (s_par _ _ I v o w Ho Hw).
Qed.
Lemma clean_settled h g r : SInv h g -> gR g r -> (forall v, gP g v -> clean (cells h v)) -> settled h r.
Proof.
  intros I Hr Hc. split.
  - intros v Hv Hi. destruct (root_reach h g r v I Hr Hv) as [->|]; auto. exfalso. now apply (s_Rne _ _ I r Hr).
  - intros v w Hv (o & Ho & Hw) _ _. apply Hc. eapply known_P; [|eauto]. eapply (s_known _ _ I v); eauto.
    destruct (root_reach h g r v I Hr Hv) as [->|]; auto.
Qed.

(** *** SymDiff *)
(** Turn the unowned object [d] into a root. *)
Lemma add_root h g d k t n' : SInv h g -> d < next h -> ~ gP g d -> ~ gR g d -> gN g d = None -> S0 <= d ->
  c_items (cells h d) <> [] ->
  next h <= k -> k < n' -> gP g t ->
  let h' := bump n' (modc (set_items [Un (UProdC n1) k (Leaf t)]) d h) in
  let g' := mkG (gP g) (gK g) (fun v => gR g v \/ v = d)
                (fun id => if Nat.eqb id k then Some (Un (UProdC n1) k (Leaf t)) else gN g id) in
  SInv h' g'.
Proof.
  intros I Hd NP NR ND Hs Hne0 Hk Hn Pt. set (it := Un (UProdC n1) k (Leaf t)). intros h' g'.
  assert (Cell : forall v, v <> d -> cells h' v = cells h v) by (intros v Hv; unfold h'; rewrite cells_bump; now apply modc_other).
  assert (Celld : c_items (cells h' d) = [it]) by (unfold h'; rewrite cells_bump, modc_same; reflexivity).
  assert (Pne : forall v, gP g v -> v <> d) by (intros v Pv ->; auto).
  assert (Rne : forall v, gR g v -> v <> d) by (intros v Pv ->; auto).
  assert (Nk : gN g k = None).
  { destruct (gN g k) as [s|] eqn:E; auto. destruct (s_N _ _ I k s E) as (_ & _ & X & _). lia. }
  assert (Kn : forall o, known g o -> known g' o).
  { induction o as [v|p tv|k' id e IH|k' id l IHl r IHr]; cbn [known gP gN g']; auto.
    - intros [A B]. split; auto. destruct (Nat.eqb_spec id k) as [->|]; auto. congruence.
    - intros (A & B & C). split; auto. destruct (Nat.eqb_spec id k) as [->|]; auto. congruence. }
  assert (Kit : known g' it) by (unfold it; cbn [known gP gN g']; rewrite Nat.eqb_refl; auto).
  assert (Sl : forall W, sol h' g' W -> sol h g W).
  { intros W [A B]. split.
    - intros v o Pv E. apply A; auto. rewrite Cell; auto.
    - intros v Kv. rewrite B; auto. rewrite Cell; auto. apply Pne. now apply (s_K _ _ I). }
  assert (Dl : forall x W D, dsol h' g' x W D -> dsol h g x W D).
  { intros x W D A v Pv. rewrite (A v Pv). rewrite Cell; auto. }
  assert (Old : forall v o, gP g' v \/ gR g' v -> In o (c_items (cells h' v)) ->
     ((gP g v \/ gR g v) /\ In o (c_items (cells h v))) \/ (v = d /\ o = it)).
  { intros v o Hv Ho. destruct (Nat.eq_dec v d) as [->|Hne].
    - rewrite Celld in Ho. destruct Ho as [<-|[]]; auto.
    - left. rewrite Cell in Ho by auto. simpl in Hv. split; auto. tauto. }
  assert (Ng : forall id s, gN g' id = Some s -> gN g id = Some s \/ (id = k /\ s = it)).
  { intros id s. cbn [gN g']. destruct (Nat.eqb_spec id k) as [->|]; auto. intros E. injection E as <-. auto. }
  assert (HC : forall v, C0 h' g' v <-> C0 h g v).
  { intros v. unfold C0. split; intros [A B]; (split; [auto|]); [rewrite <- Cell by (apply Pne; auto)|rewrite Cell by (apply Pne; auto)]; auto. }
  assert (Tg : forall id t, target h g id t -> target h' g' id t).
  { intros id u (X & Y & Z). split; auto. unfold LV. rewrite !HC. split; auto. rewrite Cell; auto. }
  assert (Mk : memos h k = mkMemo None []) by (apply (s_fresh _ _ I); auto).
  assert (Hm : memos h' = memos h) by reflexivity.
  assert (nGd : GV d \/ GD d -> NC) by (apply HG; auto).
  constructor.
  - intros v [Pv|[Rv| ->]]; simpl; [assert (v < next h) by (apply (s_lt _ _ I); auto); lia|assert (v < next h) by (apply (s_lt _ _ I); auto); lia|lia].
  - intros v [Rv| ->]; auto. now apply (s_R _ _ I).
  - intros v Hv. destruct (Nat.eq_dec v d) as [->|Hne]; [rewrite Celld; eauto|].
    rewrite Cell by auto. apply (s_one _ _ I). simpl in Hv. tauto.
  - intros v [Rv| ->]; [|rewrite Celld; discriminate]. rewrite Cell by auto. now apply (s_Rne _ _ I).
  - intros v o Hv Ho. destruct (Old v o Hv Ho) as [(A & B)|(-> & ->)]; auto. apply Kn. eapply (s_known _ _ I); eauto.
  - intros v Kv. destruct (s_K _ _ I v Kv) as [A B]. split; auto. rewrite Cell; auto.
  - destruct (s_t1 _ _ I) as [A B]. split; auto. rewrite Cell; auto. apply Pne. now apply (s_K _ _ I).
  - destruct (s_t0 _ _ I) as [A B]. split; auto. rewrite Cell; auto. apply Pne. now apply (s_K _ _ I).
  - intros v o w Ho Hw. simpl. destruct (Nat.eq_dec v d) as [->|Hne].
    + rewrite Celld in Ho. destruct Ho as [<-|[]]. simpl in Hw. destruct Hw as [<-|[]].
      assert (t < next h) by (apply (s_lt _ _ I); auto). lia.
    + rewrite Cell in Ho by auto. pose proof (s_leaf _ _ I v o w Ho Hw). lia.
  - intros v o w Ho Hw. destruct (Nat.eq_dec v d) as [->|Hne].
    + rewrite Celld in Ho. destruct Ho as [<-|[]]. destruct Hw.
    + rewrite Cell in Ho by auto. pose proof (s_par _ _ I v o w Ho Hw) as X.
      destruct (Nat.eq_dec w d) as [->|]; [|now rewrite Cell].
      contradiction.
  - destruct (s_rank _ _ I) as (rank & Rk). exists rank. intros v o w Pv Ho. rewrite Cell in Ho by auto. eauto.
  - simpl. pose proof (s_S0 _ _ I). lia.
  - intros id Hid. rewrite Hm. apply (s_fresh _ _ I). simpl in Hid. lia.
  - intros id s Es. destruct (Ng id s Es) as [A|[-> ->]].
    + destruct (s_N _ _ I id s A) as (B1 & B2 & B3 & B4 & B5). simpl. repeat split; auto; try lia.
      intros [X| ->]; auto. congruence.
    + split; [|split; [|split; [|split]]].
      * intros X. assert (k < next h) by (apply (s_lt _ _ I); auto). lia.
      * intros [X|X]; [|lia]. assert (k < next h) by (apply (s_lt _ _ I); auto). lia.
      * simpl. lia.
      * exact Kit.
      * simpl. auto.
  - intros v o Hv Ho. destruct (Old v o Hv Ho) as [(A & B)|(-> & ->)]; [eapply (s_item _ _ I); eauto|].
    right. exists (UProdC n1), k, (Leaf t). split; auto. lia.
  - intros v o Hv Ho. destruct (Old v o Hv Ho) as [(A & B)|(-> & ->)]; [eapply (s_gv _ _ I); eauto|].
    intros G. apply nice_gv; [auto|simpl; auto].
  - intros v o Hv Ho. destruct (Old v o Hv Ho) as [(A & B)|(-> & ->)]; [eapply (s_gd _ _ I); eauto|].
    intros G. apply nice_gd; [auto|simpl; auto].
  - intros id u. rewrite Hm. intros E. apply Tg. eapply (s_tmp _ _ I); eauto.
  - intros id x u. rewrite Hm. intros E. apply Tg. eapply (s_dtmp _ _ I); eauto.
  - intros id s u Es. rewrite Hm. intros E G W SW. destruct (Ng id s Es) as [A|[-> ->]]; [eapply (s_vN _ _ I); eauto|].
    rewrite Mk in E. discriminate.
  - intros id s x u Es. rewrite Hm. intros E G W D SW SD. destruct (Ng id s Es) as [A|[-> ->]]; [eapply (s_dN _ _ I); eauto|].
    rewrite Mk in E. destruct E.
  - intros v u Pv. rewrite Hm. intros E G W SW. eapply (s_vP _ _ I); eauto.
  - intros v Pv Ei. rewrite Hm. apply (s_nP _ _ I); auto. rewrite Cell in Ei; auto.
  - intros v x u Pv Ei. rewrite Hm. intros E. rewrite Cell in Ei by auto. destruct (s_dP _ _ I v x u Pv Ei E) as [A B].
    split; auto. rewrite Cell; auto. apply Pne. now apply (s_K _ _ I).
  - intros nc v o Hv Ho. destruct (Old v o Hv Ho) as [(A & B)|(-> & ->)]; [eapply (s_nice _ _ I); eauto|simpl; auto].
  - intros nc id s Es. destruct (Ng id s Es) as [A|[-> ->]]; [eapply (s_nN _ _ I); eauto|simpl; auto].
  - intros nc W SW Sm v o Hv Ho. destruct (Old v o Hv Ho) as [(A & B)|(-> & ->)]; [eapply (s_sm _ _ I); eauto|simpl; auto].
  - intros nc W SW Sm id s Es. destruct (Ng id s Es) as [A|[-> ->]]; [eapply (s_smN _ _ I); eauto|simpl; auto].
  - apply (s_bool _ _ I).
  - apply (s_Kb _ _ I); auto.
  - intros v o Hv Ho. destruct (Old v o Hv Ho) as [(A & B)|(-> & ->)]; [eapply (s_nd _ _ I); eauto|].
    simpl. constructor; auto. constructor.
  - assert (Lo : forall v o j, gP g v \/ gR g v -> In o (c_items (cells h v)) -> In j (opids o) -> j < next h).
    { intros v o j Hv Ho Hj. destruct (known_ids g o (s_known _ _ I v o Hv Ho) j Hj) as (s & Es). apply (s_N _ _ I j s Es). }
    intros v w o o' j Hv Hw Hvw Ho Ho' Hj Hj'.
    destruct (Old v o Hv Ho) as [(A & B)|(-> & ->)]; destruct (Old w o' Hw Ho') as [(A' & B')|(-> & ->)].
    + now apply (s_dj _ _ I v w o o' j).
    + pose proof (Lo _ _ _ A B Hj). simpl in Hj'. destruct Hj' as [<-|[]]. lia.
    + pose proof (Lo _ _ _ A' B' Hj'). simpl in Hj. destruct Hj as [<-|[]]. lia.
    + congruence.
  - intros v o p Hv Ho Hp. destruct (Old v o Hv Ho) as [(A & B)|(-> & ->)]; [|destruct Hp].
    destruct (s_pid _ _ I v o p A B Hp) as [X Y]. split; auto. cbn [gN g'].
    destruct (Nat.eqb_spec p k) as [->|]; auto. pose proof (s_S0 _ _ I). lia.
Qed.

(** What SymDiff leaves behind. *)
Record later (h : heap) (g : ghost) (h' : heap) (g' : ghost) : Prop := {
  l_next : next h <= next h';
  l_items : forall v, v < next h -> c_items (cells h' v) = c_items (cells h v);
  l_base : forall v, v < next h -> c_base (cells h' v) = c_base (cells h v);
  l_P : forall v, gP g v -> gP g' v;
  l_K : forall v, gK g v -> gK g' v;
  l_R : forall v, gR g v -> gR g' v;
  l_dec : forall v, v < next h -> gP g' v -> gP g v;
  l_Ndec : forall id s, id < next h -> gN g' id = Some s -> gN g id = Some s
}.
Lemma later_sol h g h' g' W : SInv h g -> later h g h' g' -> sol h' g' W -> sol h g W.
Proof.
  intros I E [S1 S2]. split.
  - intros v o Pv Hi. apply S1; [now apply E|]. rewrite (l_items _ _ _ _ E); auto. apply (s_lt _ _ I). auto.
  - intros v Kv. rewrite S2 by now apply E. rewrite (l_base _ _ _ _ E); auto.
    apply (s_lt _ _ I). left. now apply (s_K _ _ I).
Qed.
Lemma later_dsol h g h' g' x W D : SInv h g -> later h g h' g' -> dsol h' g' x W D -> dsol h g x W D.
Proof.
  intros I E S v Pv. rewrite (S v) by now apply E.
  rewrite (l_items _ _ _ _ E); auto. apply (s_lt _ _ I). auto.
Qed.

(** Everything the root does not reach is clean. *)
Definition calm (h : heap) (g : ghost) (r : nat) : Prop :=
  forall v, gP g v -> ~ reach (graph_of h) r v -> clean (cells h v).
(** The root is ready to be queried or differentiated. *)
Definition live (h : heap) (g : ghost) (r : nat) : Prop := SInv h g /\ gR g r /\ settled h r /\ calm h g r.

Lemma reach_dec_rank (h : heap) r (rank : nat -> nat) :
  (forall v w, reach (graph_of h) r v -> dep (graph_of h) v w -> rank w < rank v) ->
  forall v, reach (graph_of h) r v \/ ~ reach (graph_of h) r v.
Proof.
  intros Rk v.
  assert (H : forall k w, rank w < k -> reach (graph_of h) r w -> reach (graph_of h) w v \/ ~ reach (graph_of h) w v).
  { induction k as [|k IH]; intros w Hk Hw; [lia|].
    destruct (Nat.eq_dec w v) as [->|Hne]; [left; constructor|].
    assert (LL : forall l, (forall u, In u l -> dep (graph_of h) w u) ->
       (exists u, In u l /\ reach (graph_of h) u v) \/ ~ exists u, In u l /\ reach (graph_of h) u v).
    { induction l as [|u l IHl]; intros Hl; [right; intros (u & [] & _)|].
      destruct (IH u) as [A|A].
      - assert (rank u < rank w) by (apply Rk; auto; apply Hl; simpl; auto). lia.
      - econstructor; [exact Hw|]. apply Hl. simpl; auto.
      - left. exists u. simpl; auto.
      - destruct IHl as [(u' & B & C)|B]; [intros; apply Hl; simpl; auto|left; exists u'; simpl; auto|].
        right. intros (u' & [<-|C] & D); auto. apply B. eauto. }
    destruct (LL (flat_map leaves (c_items (cells h w)))) as [(u & A & B)|A].
    - intros u Hu. apply in_flat_map in Hu. destruct Hu as (o & A & B). exists o. auto.
    - left. apply in_flat_map in A. destruct A as (o & A & C).
      assert (Hd : dep (graph_of h) w u) by (exists o; auto).
      clear - Hd B. induction B as [|a b B IH Hab]; [econstructor; [constructor|auto]|econstructor; eauto].
    - right. intros B. apply A. clear - B Hne. revert Hne.
      induction B as [|a b B IH Hab]; intros Hne; [congruence|].
      destruct (Nat.eq_dec w a) as [<-|Hn].
      + destruct Hab as (o & A & C). exists b. split; [apply in_flat_map; eauto|constructor].
      + destruct (IH Hn) as (u & C & D). exists u. split; auto. econstructor; eauto. }
  apply (H (S (rank r))); [lia|constructor].
Qed.

Lemma reach_dec h g r : SInv h g -> gR g r -> forall v, reach (graph_of h) r v \/ ~ reach (graph_of h) r v.
Proof.
  intros I Hr. destruct (root_strat h g r I Hr) as (rank0 & Rk0).
  assert (Rk : exists rank : nat -> nat, forall v w, reach (graph_of h) r v -> dep (graph_of h) v w -> rank w < rank v).
  { destruct (s_rank _ _ I) as (rank & Rk). set (ls := flat_map leaves (c_items (cells h r))).
    destruct (max_rank rank ls) as (m & Hm). assert (Nr : ~ gP g r) by now apply (s_R _ _ I).
    exists (at_ r m rank). intros v w Hv (o & Ho & Hw).
    assert (Pw : gP g w).
    { eapply known_P; [|eauto]. eapply (s_known _ _ I v); eauto. destruct (root_reach h g r v I Hr Hv) as [->|]; auto. }
    rewrite (at_other r m rank w) by (intros ->; contradiction).
    destruct (root_reach h g r v I Hr Hv) as [->|Pv].
    - rewrite at_same. apply Hm. apply in_flat_map. eauto.
    - rewrite at_other by (intros ->; contradiction). eapply Rk; eauto. }
  destruct Rk as (rank & Rk). now apply (reach_dec_rank h r rank).
Qed.

(** The heap in which SymDiff resets its root: one new expression. *)
Definition entered (h : heap) : heap := bump (S (S (next h))) (setc h (S (next h)) (fresh_cell n0 [Leaf 1])).
(** The memo of the top node (or of the object itself) holds [t]. *)
Definition linked (h : heap) (o : op) (t : nat) : Prop :=
  match o with
  | Leaf v => In t (map snd (m_dtmp (memos h v)))
  | Par _ _ => False
  | Un _ id _ | Bin _ id _ _ => In t (map snd (m_dtmp (memos h id)))
  end.
Lemma mfind_snd l k t : mfind l k = Some t -> In t (map snd l).
Proof.
  induction l as [|[j u] l IH]; cbn [mfind map snd]; [discriminate|]. destruct (Nat.eqb k j); [intros E; injection E as ->; left; auto|right; auto].
Qed.
Lemma mput_snd l k t : In t (map snd (mput l k t)).
Proof. induction l as [|[j u] l IH]; cbn [mput map snd]; [left; auto|]. destruct (Nat.eqb k j); [left; auto|right; auto]. Qed.
Lemma memos_set_tmp id x (h : heap) j : m_dtmp (memos (set_tmp id x h) j) = m_dtmp (memos h j).
Proof. unfold set_tmp, setm. cbn [memos]. destruct (Nat.eq_dec j id) as [->|H]; [now rewrite upd_same|now rewrite upd_other]. Qed.
Lemma memos_alloc_exp t h x h' : alloc_exp t h = (x, h') -> memos h' = memos h.
Proof. unfold alloc_exp, new_exp. destruct (build t (next h)) as [o n]. destruct (wrap o (S (S n))) as [l n']. intros E. now injection E as _ <-. Qed.
Lemma gather_dtmp (rE rD : side -> heap -> option (nat * heap)) :
  (forall s h v h', rE s h = Some (v, h') -> forall id, m_dtmp (memos h' id) = m_dtmp (memos h id)) ->
  (forall s h v h', rD s h = Some (v, h') -> forall id, m_dtmp (memos h' id) = m_dtmp (memos h id)) ->
  forall f h t h', gather lr rE rD f h = Some (t, h') -> forall id, m_dtmp (memos h' id) = m_dtmp (memos h id).
Proof.
  intros HE HD. induction f as [s|s|k a IH|k a IHa b IHb]; intros h t h'; cbn [gather].
  - destruct (rE s h) as [[v h1]|] eqn:E; [|discriminate]. intros X. injection X as _ <-. eapply HE; eauto.
  - destruct (rD s h) as [[v h1]|] eqn:E; [|discriminate]. intros X. injection X as _ <-. eapply HD; eauto.
  - destruct (gather lr rE rD a h) as [[u h1]|] eqn:E; [|discriminate]. intros X. injection X as _ <-. eapply IH; eauto.
  - destruct (lr (FB k a b)).
    + destruct (gather lr rE rD a h) as [[u h1]|] eqn:E; [|discriminate].
      destruct (gather lr rE rD b h1) as [[w h2]|] eqn:E2; [|discriminate]. intros X id. injection X as _ <-.
      rewrite (IHb _ _ _ E2). eapply IHa; eauto.
    + destruct (gather lr rE rD b h) as [[u h1]|] eqn:E; [|discriminate].
      destruct (gather lr rE rD a h1) as [[w h2]|] eqn:E2; [|discriminate]. intros X id. injection X as _ <-.
      rewrite (IHa _ _ _ E2). eapply IHb; eauto.
Qed.
(** symEval leaves the derivative memos alone. *)
Lemma symEval_dtmp o : forall h x h', symEval_op lr o h = Some (x, h') -> forall id, m_dtmp (memos h' id) = m_dtmp (memos h id).
Proof.
  induction o as [v|p tv|k i e IH|k i l IHl r IHr]; intros h x h'; cbn [symEval_op].
  - intros E. now injection E as _ <-.
  - intros E. now injection E as _ <-.
  - destruct (m_tmp (memos h i)); [intros E; now injection E as _ <-|]. destruct (sym_val1 k) as [f|]; [|discriminate].
    destruct (gather lr _ _ f h) as [[t h1]|] eqn:E1; [|discriminate]. destruct (alloc_exp t h1) as [y h2] eqn:E2.
    intros E j. injection E as _ <-. rewrite memos_set_tmp, (memos_alloc_exp _ _ _ _ E2).
    eapply (gather_dtmp _ _) in E1; eauto; intros; discriminate.
  - destruct (m_tmp (memos h i)); [intros E; now injection E as _ <-|]. destruct (sym_val2 k) as [f|]; [|discriminate].
    destruct (gather lr _ _ f h) as [[t h1]|] eqn:E1; [|discriminate]. destruct (alloc_exp t h1) as [y h2] eqn:E2.
    intros E j. injection E as _ <-. rewrite memos_set_tmp, (memos_alloc_exp _ _ _ _ E2).
    eapply (gather_dtmp _ _) in E1; eauto; [intros [] ? ? ? ? ?; eauto|intros; discriminate].
Qed.
Lemma symDeval_var_found f x v h d h' : symDeval_var lr f x v h = Some (d, h') -> d = 0 \/ mfind (m_dtmp (memos h' v)) v = Some d.
Proof.
  destruct f as [|f]; cbn [symDeval_var]; [discriminate|].
  match goal with |- (match ?c with Some _ => _ | None => _ end) = _ -> _ => destruct c as [h1|]; [|discriminate] end.
  destruct (Nat.eqb v x); [intros E; injection E as <- _; auto|].
  destruct (mfind (m_dtmp (memos h1 v)) v) as [t|] eqn:E1; [|discriminate]. intros E. injection E as <- <-. auto.
Qed.
Lemma symDeval_op_linked x f o h d h' : symDeval_op lr x (symDeval_var lr f x) o h = Some (d, h') -> d = 0 \/ d = 1 \/ linked h' o d.
Proof.
  destruct o as [v|p tv|k i e|k i l r]; cbn [symDeval_op linked].
  - intros E. apply symDeval_var_found in E. destruct E as [->|E]; auto. right; right. eapply mfind_snd; eauto.
  - intros E. injection E as <- _. auto.
  - destruct (mfind (m_dtmp (memos h i)) x) as [t|] eqn:E1; [intros E; injection E as <- <-; right; right; eapply mfind_snd; eauto|].
    destruct (sym_der1 k) as [g|]; [|discriminate].
    destruct (gather lr _ _ g h) as [[t h1]|]; [|discriminate]. destruct (alloc_exp t h1) as [y h2].
    intros E. injection E as <- <-. right; right. unfold set_dtmp, setm. cbn [memos]. rewrite upd_same. apply mput_snd.
  - destruct (mfind (m_dtmp (memos h i)) x) as [t|] eqn:E1; [intros E; injection E as <- <-; right; right; eapply mfind_snd; eauto|].
    destruct (sym_der2 k) as [g|]; [|discriminate].
    destruct (gather lr _ _ g h) as [[t h1]|]; [|discriminate]. destruct (alloc_exp t h1) as [y h2].
    intros E. injection E as <- <-. right; right. unfold set_dtmp, setm. cbn [memos]. rewrite upd_same. apply mput_snd.
Qed.
Definition top (o : op) : list nat := match o with Leaf v => [v] | Par _ _ => [] | Un _ id _ | Bin _ id _ _ => [id] end.
Lemma linked_same (h h' : heap) o t : (forall id, In id (top o) -> m_dtmp (memos h' id) = m_dtmp (memos h id)) -> linked h o t -> linked h' o t.
Proof. destruct o; cbn [top linked]; intros H; try rewrite (H _ (or_introl eq_refl)); auto. Qed.
Lemma symDeval_root_linked f x r o h d h' : symDeval_var lr (S f) x r h = Some (d, h') -> c_items (cells h r) = [o] -> c_vis (cells h r) = false ->
  r < next h -> ~ In r (top o) -> d = 0 \/ d = 1 \/ linked h' o d.
Proof.
  cbn [symDeval_var]. set (h0 := match mfind (m_dtmp (memos h r)) r with Some _ => h | None => _ end). intros E Ei Ev Hr Nr.
  assert (C0' : cells h0 r = cells h r).
  { unfold h0. destruct (mfind (m_dtmp (memos h r)) r); auto. unfold alloc_var, set_dtmp, setm. cbn [cells bump].
    rewrite setc_other by lia. reflexivity. }
  rewrite C0', Ev, Ei in E. cbn [each] in E.
  destruct (symDeval_op lr x (symDeval_var lr f x) o (modc (set_vis true) r h0)) as [[d1 a1]|] eqn:E1; [|discriminate].
  destruct (symEval_op lr o (set_dtmp r r d1 a1)) as [[e a2]|] eqn:E2; [|discriminate].
  apply symDeval_op_linked in E1. destruct (Nat.eqb r x); [injection E as <- _; auto|].
  assert (Md : m_dtmp (memos (modc (set_vis false) r (set_tmp r e a2)) r) = mput (m_dtmp (memos a1 r)) r d1).
  { rewrite memos_modc, memos_set_tmp, (symEval_dtmp _ _ _ _ E2). unfold set_dtmp, setm. cbn [memos]. now rewrite upd_same. }
  rewrite Md in E. assert (Mf : forall l, mfind (mput l r d1) r = Some d1).
  { induction l as [|[j u] l IH]; cbn [mput mfind]; [now rewrite Nat.eqb_refl|]. destruct (Nat.eqb r j) eqn:Ej; cbn [mfind]; [now rewrite Nat.eqb_refl|now rewrite Ej]. }
  rewrite Mf in E. injection E as <- <-. destruct E1 as [E1|[E1|E1]]; auto. right; right.
  eapply linked_same; [|exact E1]. intros id Hid. rewrite memos_modc, memos_set_tmp, (symEval_dtmp _ _ _ _ E2).
  unfold set_dtmp, setm. cbn [memos]. rewrite upd_other; auto. intros ->. contradiction.
Qed.

Lemma SymDiff_gen fuel r x h g : SInv h g -> gR g r -> depth (S (S (next h))) <= fuel ->
  (SInv (entered h) g -> forall h2, reset_impl fuel r (entered h) = Some h2 -> forall v, gP g v -> clean (cells h2 v)) ->
  exists d h' g', SymDiff lr fuel r x h = Some (d, h') /\ live h' g' d /\ later h g h' g' /\ next h < d /\
    (forall v, gP g' v -> clean (cells h' v)) /\ (forall v, v <> d -> gR g' v -> gR g v) /\ (forall v, next h <= v -> v < d -> ~ gP g' v) /\
    exists o k t, c_items (cells h r) = [o] /\ c_items (cells h' d) = [Un (UProdC n1) k (Leaf t)] /\ gP g' t /\
      (c_items (cells h' t) = [] \/ linked h' o t) /\
      (GD r -> forall W D, sol h' g' W -> dsol h' g' x W D -> sem W (Un (UProdC n1) k (Leaf t)) = if Nat.eqb r x then n1 else dsem W D o).
Proof.
  intros I Hr Hf HC. unfold SymDiff, new_exp.
  set (d := S (next h)). set (h1 := bump (S d) (setc h d (fresh_cell n0 [Leaf 1]))).
  assert (C1 : forall v, v <> d -> cells h1 v = cells h v).
  { intros v Hv. unfold h1. rewrite cells_bump. now apply setc_other. }
  assert (Cd : cells h1 d = fresh_cell n0 [Leaf 1]) by (unfold h1; rewrite cells_bump; apply setc_same).
  assert (Plt : forall v, gP g v \/ gR g v -> v < next h) by apply (s_lt _ _ I).
  assert (K1 : 1 < next h) by (apply Plt; left; apply (s_K _ _ I), (s_t0 _ _ I)).
  assert (I1 : SInv h1 g).
  { apply (SInv_move h); auto.
    - unfold h1. simpl. unfold d. lia.
    - intros v Hv. apply Plt in Hv. rewrite C1; auto. unfold d. lia.
    - intros v Kv. rewrite C1; auto. assert (v < next h) by (apply Plt; left; now apply (s_K _ _ I)). unfold d. lia.
    - intros v o w Ho Hw. simpl. destruct (Nat.eq_dec v d) as [->|Hne].
      + rewrite Cd in Ho. simpl in Ho. destruct Ho as [<-|[]]. simpl in Hw. unfold d. lia.
      + rewrite C1 in Ho by auto. pose proof (s_leaf _ _ I v o w Ho Hw). unfold d. lia.
    - intros v o w Ho Hw. destruct (Nat.eq_dec v d) as [->|Hne].
      + rewrite Cd in Ho. simpl in Ho. destruct Ho as [<-|[]]. destruct Hw.
      + rewrite C1 in Ho by auto. rewrite C1; [eapply (s_par _ _ I); eauto|].
        assert (w < next h); [|unfold d; lia]. eapply (s_leaf _ _ I); eauto. now apply pars_leaves. }
  change (fun n => ([Leaf 1], n)) with (fun n : nat => ([@Leaf T 1], n)). cbn iota beta.
  fold d. fold h1.
  destruct (reset_impl_ok (next h1) r h1 fuel (SInv_bounded _ _ I1) Hf) as (h2 & E2 & SG & V2 & V2' & V3 & _ & C2).
  rewrite E2.
  assert (Al : alike h1 h2).
  { destruct SG as (A & B & C & D). split; auto. }
  assert (I2 : SInv h2 g) by (eapply SInv_alike; eauto).
  assert (Cl2 : forall v, gP g v -> clean (cells h2 v)).
  { intros v Pv. apply (HC I1 h2); auto. }
  destruct (s_rank _ _ I2) as (rank & Rk). set (n := next h1). set (rk := crank n rank).
  destruct fuel as [|f]; [unfold depth in Hf; lia|].
  assert (Hn : S n <= f) by (unfold depth in Hf; unfold n, h1; simpl in *; unfold d in *; nia).
  assert (It2 : forall v, v <> d -> c_items (cells h2 v) = c_items (cells h v)).
  { intros v Hv. rewrite (proj1 (proj2 (proj2 Al) v)). now rewrite C1. }
  assert (Kn2 : forall v o w, gP g v \/ gR g v -> In o (c_items (cells h2 v)) -> In w (leaves o) -> gP g w).
  { intros v o w Hv Ho Hw. eapply known_P; [eapply (s_known _ _ I2); eauto|auto]. }
  destruct (symDeval_body_ok x (gP g) rk f (S n) r h2 g) as (t & h3 & g3 & E3 & X3 & I3 & P3 & V & _ & _); auto.
  { apply symDeval_var_ok. auto. }
  { intros v o w Pv Ho Hw. split; [eapply (Kn2 v); eauto|].
    unfold rk. apply crank_lt; [|eapply Rk; eauto]. unfold n. rewrite <- (proj1 Al). eapply (s_leaf _ _ I2); eauto. }
  { intros w Pw _ Hne. destruct (Cl2 w Pw) as (_ & _ & _ & [A|A]); auto. contradiction. }
  { intros Pr. exfalso. now apply (s_R _ _ I r Hr). }
  { intros o w Ho Hw. split; [apply (Kn2 _ o w) in Ho; auto|]. unfold rk. pose proof (crank_bound n rank w). lia. }
  rewrite E3. cbn [wrap clone]. set (k := next h3).
  assert (Nx2 : next h2 = S d) by (rewrite (proj1 Al); reflexivity).
  assert (Dlt : d < next h3) by (pose proof (e_next _ _ _ _ X3); lia).
  assert (NPd : ~ gP g d) by (intros A; assert (d < next h) by auto; unfold d in *; lia).
  assert (NRd : ~ gR g d) by (intros A; assert (d < next h) by auto; unfold d in *; lia).
  pose proof (add_root h3 g3 d k t (S k) I3 Dlt) as I4. cbv zeta in I4.
  set (h4 := bump (S k) (modc (set_items [Un (UProdC n1) k (Leaf t)]) d h3)) in *.
  set (g4 := mkG _ _ _ _) in *.
  assert (Cd3 : cells h3 d = cells h2 d) by (apply X3; lia).
  assert (Id2 : c_items (cells h2 d) = [Leaf 1]) by (rewrite (proj1 (proj2 (proj2 Al) d)), Cd; reflexivity).
  assert (I4' : SInv h4 g4).
  { apply I4; auto.
    - intros A. apply NPd. apply (e_dec _ _ _ _ X3); auto. lia.
    - rewrite (e_R _ _ _ _ X3). auto.
    - destruct (gN g3 d) as [s|] eqn:En; auto.
      assert (Z : gN g d = Some s) by (apply (e_Ndec _ _ _ _ X3); auto; lia).
      destruct (s_N _ _ I d s Z) as (_ & _ & A & _). unfold d in A. lia.
    - pose proof (s_S0 _ _ I). unfold d. lia.
    - rewrite Cd3, Id2. discriminate. }
  clear I4. rename I4' into I4.
  assert (C4 : forall v, v <> d -> cells h4 v = cells h3 v).
  { intros v Hv. unfold h4. rewrite cells_bump. now apply modc_other. }
  assert (Id4 : c_items (cells h4 d) = [Un (UProdC n1) k (Leaf t)]).
  { unfold h4. rewrite cells_bump, modc_same. reflexivity. }
  assert (Cl4 : forall v, gP g4 v -> clean (cells h4 v)).
  { intros v Pv. change (gP g3 v) in Pv. assert (v <> d) by (intros ->; apply NPd; apply (e_dec _ _ _ _ X3); auto; lia).
    rewrite C4 by auto. destruct (le_lt_dec (next h2) v) as [A|A].
    - destruct (e_new _ _ _ _ X3 v Pv) as (_ & B & _); auto. intros B. assert (v < next h) by auto. unfold d in *; lia.
    - rewrite (e_cells _ _ _ _ X3) by auto. apply Cl2. apply (e_dec _ _ _ _ X3); auto. }
  assert (Hd4 : gR g4 d) by (right; reflexivity).
  assert (Lt4 : later h g h4 g4).
  { assert (Cb : forall v, v < next h -> c_items (cells h4 v) = c_items (cells h v) /\ c_base (cells h4 v) = c_base (cells h v)).
    { intros v Hv. assert (v <> d) by (unfold d; lia). rewrite C4 by auto. rewrite (e_cells _ _ _ _ X3) by (unfold d in *; lia).
      destruct (proj2 (proj2 Al) v) as [A B]. rewrite A, B. now rewrite C1. }
    constructor; try (intros; now apply Cb).
    - unfold h4. simpl. unfold k. unfold d in *. lia.
    - intros v Pv. apply (e_P _ _ _ _ X3). auto.
    - intros v Kv. apply (e_K _ _ _ _ X3). auto.
    - intros v Rv. left. rewrite (e_R _ _ _ _ X3). auto.
    - intros v Hv Pv. apply (e_dec _ _ _ _ X3); auto. unfold d in *; lia.
    - intros id s Hid. cbn [gN g4]. destruct (Nat.eqb_spec id k) as [->|]; [unfold k, d in *; lia|].
      intros Es. apply (e_Ndec _ _ _ _ X3); auto. unfold d in *; lia. }
  exists d, h4, g4. split; auto. split.
  { split; auto. split; auto. split; [eapply clean_settled; eauto|]. intros v Pv _. auto. }
  split; auto. split; [unfold d; lia|]. split; [exact Cl4|]. split; [intros v Hv [A|A]; [rewrite (e_R _ _ _ _ X3) in A; auto|contradiction]|].
  split.
  { intros v Hv Hd Pv. apply (e_dec _ _ _ _ X3) in Pv; [|unfold d in *; lia]. assert (v < next h) by auto. lia. }
  assert (Er : exists o, c_items (cells h r) = [o]).
  { destruct (s_one _ _ I r (or_intror Hr)) as [A|A]; auto. now apply (s_Rne _ _ I) in A. }
  destruct Er as (o & Eo). exists o, k, t. split; auto. split; auto. split; auto. split.
  { assert (Lk : t = 0 \/ t = 1 \/ linked h3 o t).
    { eapply (symDeval_root_linked f x r o h2); eauto.
      - rewrite It2; auto. intros ->. contradiction.
      - assert (r < next h) by auto. unfold d in *. lia.
      - assert (Kn : known g o) by (apply (s_known _ _ I r); [auto|rewrite Eo; simpl; auto]). intros Ht.
        destruct o as [w|p tv|kk id a|kk id a b]; cbn [top known] in *; try contradiction; destruct Ht as [->|[]].
        + now apply (s_R _ _ I r Hr).
        + destruct (s_N _ _ I r _ (proj1 Kn)) as (_ & A & _). contradiction.
        + destruct (s_N _ _ I r _ (proj1 Kn)) as (_ & A & _). contradiction. }
    destruct Lk as [->|[->|Lk]]; [left; apply (s_K _ _ I4), (s_t1 _ _ I4)|left; apply (s_K _ _ I4), (s_t0 _ _ I4)|right].
    eapply linked_same; [|exact Lk]. intros id _. unfold h4. reflexivity. }
  intros G W D SW SD. cbn [sem mean1].
  assert (S3 : sol h3 g3 W).
  { destruct SW as [A B]. split.
    - intros v u Pv Ev. apply A; auto. rewrite C4; auto. intros ->. apply NPd. apply (e_dec _ _ _ _ X3); auto. lia.
    - intros v Kv. rewrite B by auto. rewrite C4; auto. intros ->. apply NPd. apply (e_dec _ _ _ _ X3); [lia|].
      now apply (s_K _ _ I3). }
  assert (D3 : dsol h3 g3 x W D).
  { intros v Pv. rewrite (SD v Pv). rewrite C4; auto. intros ->. apply NPd. apply (e_dec _ _ _ _ X3); auto. lia. }
  rewrite (V G W D S3 D3). rewrite It2 by (intros ->; contradiction). rewrite Eo. ring.
Qed.

(** Resetting a live root cleans everything. *)
Lemma live_reset fuel r h g : live h g r -> depth (S (S (next h))) <= fuel ->
  SInv (entered h) g -> forall h2, reset_impl fuel r (entered h) = Some h2 -> forall v, gP g v -> clean (cells h2 v).
Proof.
  intros (I & Hr & St & Cm) Hf I1 h2 E2 v Pv.
    assert (C1 : forall v, v <> S (next h) -> cells (entered h) v = cells h v).
    { intros w Hw. unfold entered. rewrite cells_bump. now apply setc_other. }
    assert (Plt : forall v, gP g v \/ gR g v -> v < next h) by apply (s_lt _ _ I).
    assert (G1 : forall v, v <> S (next h) -> graph_of (entered h) v = graph_of h v) by (intros w Hw; unfold graph_of; now rewrite C1).
    assert (Rd : forall v, reach (graph_of h) r v -> v <> S (next h)).
    { intros w Hw. destruct (root_reach h g r w I Hr Hw) as [->|Pw]; [assert (r < next h) by auto|assert (w < next h) by auto]; lia. }
    assert (Re1 : forall v, reach (graph_of (entered h)) r v -> reach (graph_of h) r v).
    { intros w Hw. induction Hw as [|a b Hw IH (o & Ho & Hb)]; [constructor|].
      econstructor; [exact IH|]. exists o. split; auto. unfold items in *. rewrite <- G1; auto. }
    assert (Re2 : forall v, reach (graph_of h) r v -> reach (graph_of (entered h)) r v).
    { intros w Hw. induction Hw as [|a b Hw IH (o & Ho & Hb)]; [constructor|].
      econstructor; [exact IH|]. exists o. split; auto. unfold items in *. rewrite G1; auto. }
    assert (St1 : settled (entered h) r).
    { destruct St as [A B]. split.
      - intros w Hw Hi. apply Re1 in Hw. rewrite C1 in * by auto. auto.
      - intros u w Hu (o & Ho & Hw) Hn Hvis. pose proof (Re1 u Hu) as Hu'. unfold items in Ho. rewrite G1 in Ho by auto.
        rewrite C1 in Hvis by auto.
        assert (Hd : dep (graph_of h) u w) by (exists o; auto).
        rewrite C1; [apply (B u w); auto|]. apply Rd. econstructor; eauto. }
    destruct (reset_impl_ok (next (entered h)) r (entered h) fuel (SInv_bounded _ _ I1) Hf) as (h2' & E2' & _ & _ & _ & V3 & _ & C2).
    rewrite E2 in E2'. injection E2' as <-.
    assert (v <> r) by (intros ->; now apply (s_R _ _ I r Hr)).
    destruct (reach_dec (entered h) g r I1 Hr v) as [A|A]; [apply C2; auto|].
    destruct (V3 v) as [B|B]; auto; rewrite B; [|apply cleaned_clean].
    rewrite C1; [apply Cm; auto|]. assert (v < next h) by auto. lia.
Qed.
Lemma SymDiff_ok fuel r x h g : live h g r -> depth (S (S (next h))) <= fuel ->
  exists d h' g', SymDiff lr fuel r x h = Some (d, h') /\ live h' g' d /\ later h g h' g' /\ next h < d /\
    exists o o', c_items (cells h r) = [o] /\ c_items (cells h' d) = [o'] /\
      (GD r -> forall W D, sol h' g' W -> dsol h' g' x W D -> sem W o' = if Nat.eqb r x then n1 else dsem W D o).
Proof.
  intros Lv0 Hf. pose proof (proj1 Lv0) as I. pose proof (proj1 (proj2 Lv0)) as Hr.
  destruct (SymDiff_gen fuel r x h g I Hr Hf (live_reset fuel r h g Lv0 Hf)) as (d & h' & g' & E & Lv & La & Hd & _ & _ & _ & o & k & t & A & B & _ & _ & C).
  exists d, h', g'. repeat apply conj; auto; try apply Lv. exists o, (Un (UProdC n1) k (Leaf t)). auto.
Qed.

(** *** Queries *)
Lemma reads_out r xs : forall h o h', reads r xs h = (o, h') -> forall w, w <> r -> cells h' w = cells h w.
Proof.
  induction xs as [|x xs IH]; intros h o h'; cbn [reads].
  - intros E w _. now injection E as _ <-.
  - unfold DevalR at 1. set (a := modc _ r h). destruct (reads r xs a) as [ds b] eqn:Er.
    intros E w Hw. injection E as _ <-. rewrite (IH a ds b Er w Hw). unfold a. now rewrite modc_other.
Qed.
Lemma run1_out n fuel r q h o h' : ready n h r -> depth n <= fuel ->
  match q with QSet _ _ => False | _ => True end -> run1 fuel r q h = Some (o, h') ->
  forall w, ~ reach (graph_of h) r w -> cells h' w = cells h w \/ cells h' w = cleaned (cells h w).
Proof.
  intros Rd Hf Hq E w Hw. assert (Hwr : w <> r) by (intros ->; apply Hw; constructor).
  destruct (reset_impl_ok n r h fuel (rdy_b _ _ _ Rd) Hf) as (h1 & E1 & G1 & _ & _ & Hc & _ & _).
  assert (Cl : ScalarTerm.closed n (pset h r) h1).
  { eapply pass_closed; [exact G1|]. apply (reach_closed n); [exact (rdy_b _ _ _ Rd)|exact (rdy_root _ _ _ Rd)]. }
  destruct q as [v x| |x|xs]; [contradiction| | |]; cbn [run1] in E.
  - unfold Eval in E. rewrite E1 in E.
    destruct (eval_var_term n (pset h r) fuel r h1) as (y & h2 & E2 & P2 & V2);
      [constructor|auto|now apply fuel_cu|].
    rewrite E2 in E. injection E as <- <-. rewrite (p_out _ _ _ P2 w Hw). auto.
  - unfold DevalF in E. rewrite E1 in E.
    destruct (devalF_var_term n (pset h r) x fuel r h1) as (y & h2 & E2 & P2 & V2);
      [constructor|auto|now apply fuel_cu|].
    rewrite E2 in E. injection E as <- <-. rewrite (p_out _ _ _ P2 w Hw). auto.
  - unfold PreComp in E. rewrite E1 in E.
    destruct (trav_var_term n (pset h r) fuel r h1) as (h2 & E2 & P2 & V2);
      [constructor|auto|now apply fuel_cu|].
    rewrite E2 in E. destruct (reads r xs h2) as [oo b] eqn:Er. injection E as <- <-.
    rewrite (reads_out r xs h2 oo b Er w Hwr). rewrite (p_out _ _ _ P2 w Hw). auto.
Qed.

Lemma run1_next fuel r q h o h' n : ready n h r -> depth n <= fuel ->
  match q with QSet _ _ => False | _ => True end -> run1 fuel r q h = Some (o, h') -> same_graph h h'.
Proof.
  intros Rd Hf Hq E.
  destruct (values_exist (graph_of h) r (rdy_strat _ _ _ Rd)) as [W0 HW0].
  destruct q as [v x| |x|xs]; [contradiction| | |]; cbn [run1] in E.
  - destruct (Eval_ok n h r W0 fuel Rd Hf HW0) as (h1 & E1 & G & _). rewrite E1 in E. now injection E as <- <-.
  - destruct (derivs_exist (graph_of h) r W0 x (rdy_strat _ _ _ Rd)) as [D0 HD0].
    destruct (DevalF_ok n h r W0 x D0 fuel Rd Hf HW0 HD0) as (h1 & E1 & G & _). rewrite E1 in E. now injection E as <- <-.
  - destruct (PreComp_ok n h r fuel Rd Hf) as (h1 & E1 & G & S & C). rewrite E1 in E.
    assert (Rd1 : ready n h1 r) by (eapply ready_same; eauto).
    destruct (reads_ok n r xs h1 Rd1) as (G2 & _). destruct (reads r xs h1) as [os h2]. cbn [snd] in G2.
    injection E as <- <-. eapply same_graph_trans; eauto.
Qed.

Lemma live_ready h g r : live h g r -> ready (next h) h r.
Proof. intros (I & Hr & St & _). eapply root_ready; eauto. Qed.

(** A query on a root that is ready: it answers, and everything off the root stays clean. *)
Lemma any_query fuel r q h g : SInv h g -> ready (next h) h r -> calm h g r -> depth (next h) <= fuel ->
  (forall v x, q = QSet v x -> c_items (cells h v) = [] /\ ~ gK g v) ->
  exists o h', run1 fuel r q h = Some (o, h') /\ SInv h' g /\ ready (next h') h' r /\ calm h' g r /\ answer (graph_of h) r q o /\
    geq (after q (graph_of h)) (graph_of h') /\ next h' = next h.
Proof.
  intros I Rd Cm Hf Hq.
  destruct (run1_ok (next h) fuel r q h Rd Hf) as (o & h' & E & Rd' & An & Ge).
  { intros v x Eq. apply (Hq v x Eq). }
  exists o, h'. split; auto.
  assert (Main : SInv h' g /\ (forall v, gP g v -> ~ reach (graph_of h) r v -> clean (cells h' v)) /\
     (forall v, reach (graph_of h) r v -> reach (graph_of h') r v) /\ next h' = next h).
  { destruct q as [v x| |x|xs].
    - cbn [run1] in E. injection E as <- <-. destruct (Hq v x eq_refl) as [Hi Hk].
      assert (Ci : forall w, c_items (cells (SetVar v x h) w) = c_items (cells h w)).
      { intros w. unfold SetVar. destruct (Nat.eq_dec w v) as [->|]; [rewrite modc_same; now rewrite Hi|now rewrite modc_other]. }
      split; [|split; [|split]]; auto.
      + apply (SInv_move h); auto.
        * intros w Kw. unfold SetVar. rewrite modc_other; auto. intros ->. contradiction.
        * intros w o u. rewrite Ci. apply (s_leaf _ _ I).
        * intros w o u. rewrite !Ci. apply (s_par _ _ I).
      + intros w Pw Hw. unfold SetVar. destruct (Nat.eq_dec w v) as [->|]; [|rewrite modc_other; auto].
        rewrite modc_same. repeat split; simpl; auto.
      + intros w Hw. induction Hw as [|a b Hw IH (u & Hu & Hb)]; [constructor|]. econstructor; [exact IH|].
        exists u. split; auto. unfold items, graph_of in *. cbn [snd] in *. now rewrite Ci.
    - pose proof (run1_next fuel r QEval h o h' _ Rd Hf Logic.I E) as SG.
      split; [|split; [|split]].
      + eapply SInv_alike; eauto. destruct SG as (A & B & C & D). repeat split; auto.
      + intros v Pv Hv. destruct (run1_out _ fuel r QEval h o h' Rd Hf Logic.I E v Hv) as [-> | ->]; auto using cleaned_clean.
      + intros v. now apply reach_graph.
      + apply SG.
    - pose proof (run1_next fuel r (QDevalF x) h o h' _ Rd Hf Logic.I E) as SG.
      split; [|split; [|split]].
      + eapply SInv_alike; eauto. destruct SG as (A & B & C & D). repeat split; auto.
      + intros v Pv Hv. destruct (run1_out _ fuel r (QDevalF x) h o h' Rd Hf Logic.I E v Hv) as [-> | ->]; auto using cleaned_clean.
      + intros v. now apply reach_graph.
      + apply SG.
    - pose proof (run1_next fuel r (QGrad xs) h o h' _ Rd Hf Logic.I E) as SG.
      split; [|split; [|split]].
      + eapply SInv_alike; eauto. destruct SG as (A & B & C & D). repeat split; auto.
      + intros v Pv Hv. destruct (run1_out _ fuel r (QGrad xs) h o h' Rd Hf Logic.I E v Hv) as [-> | ->]; auto using cleaned_clean.
      + intros v. now apply reach_graph.
      + apply SG. }
  destruct Main as (I' & Cl & Re & Nx). split; [auto|]. split; [now rewrite Nx|]. split; [|auto].
  intros v Pv Hv. apply Cl; auto.
Qed.
(** A query on the live root: it answers, and the root stays live. *)
Lemma live_query fuel r q h g : live h g r -> depth (next h) <= fuel ->
  (forall v x, q = QSet v x -> c_items (cells h v) = [] /\ ~ gK g v) ->
  exists o h', run1 fuel r q h = Some (o, h') /\ live h' g r /\ answer (graph_of h) r q o /\
    geq (after q (graph_of h)) (graph_of h') /\ next h' = next h.
Proof.
  intros Lv Hf Hq. pose proof (live_ready _ _ _ Lv) as Rd. destruct Lv as (I & Hr & St & Cm).
  destruct (any_query fuel r q h g I Rd Cm Hf Hq) as (o & h' & E & I' & Rd' & Cm' & An & Ge & Nx).
  exists o, h'. split; auto. split; [|auto]. split; auto. split; auto. split; auto. apply Rd'.
Qed.

(** *** Solutions *)
Fixpoint wsol (h : heap) (b : nat -> T) (f v : nat) : T :=
  match f with
  | O => n0
  | S f => match c_items (cells h v) with o :: _ => sem (wsol h b f) o | [] => b v end
  end.
Lemma wsol_stable h g b (rank : nat -> nat) : SInv h g ->
  (forall v o w, gP g v -> In o (c_items (cells h v)) -> In w (leaves o) -> rank w < rank v) ->
  forall f f' v, gP g v -> rank v < f -> rank v < f' -> wsol h b f v = wsol h b f' v.
Proof.
  intros I Rk. induction f as [|f IH]; intros f' v Pv Hf Hf'; [lia|]. destruct f' as [|f']; [lia|]. cbn [wsol].
  destruct (c_items (cells h v)) as [|o l] eqn:Ei; auto.
  assert (Ho : In o (c_items (cells h v))) by (rewrite Ei; simpl; auto).
  apply sem_ext. intros w Hw. pose proof (Rk v o w Pv Ho Hw). apply IH; try lia.
  eapply known_P; [eapply (s_known _ _ I); eauto|auto].
Qed.
(** One fuel for all values of the variables. *)
Lemma sol_exists h g : SInv h g -> exists f, forall b, (forall v, gK g v -> b v = c_base (cells h v)) ->
  sol h g (wsol h b f) /\ forall v, c_items (cells h v) = [] -> wsol h b f v = b v.
Proof.
  intros I. destruct (s_rank _ _ I) as (rank0 & Rk0). set (n := next h). set (rank := crank n rank0).
  assert (Rk : forall v o w, gP g v -> In o (c_items (cells h v)) -> In w (leaves o) -> rank w < rank v).
  { intros v o w Pv Ho Hw. apply crank_lt; [|eapply Rk0; eauto]. eapply (s_leaf _ _ I); eauto. }
  assert (Rb : forall v, rank v < S n) by (intros v; pose proof (crank_bound n rank0 v); unfold rank; lia).
  exists (S n). intros b Hb.
  assert (Pl : forall v, c_items (cells h v) = [] -> wsol h b (S n) v = b v).
  { intros v Ei. cbn [wsol]. now rewrite Ei. }
  split; auto. split.
  - intros v o Pv Ei. assert (Ho : In o (c_items (cells h v))) by (rewrite Ei; simpl; auto).
    change (wsol h b (S n) v) with (match c_items (cells h v) with o :: _ => sem (wsol h b n) o | [] => b v end).
    rewrite Ei. apply sem_ext. intros w Hw.
    assert (Pw : gP g w) by (eapply known_P; [eapply (s_known _ _ I); eauto|auto]).
    apply (wsol_stable h g b rank); auto. pose proof (Rk v o w Pv Ho Hw). pose proof (Rb v). lia.
  - intros v Kv. destruct (s_K _ _ I v Kv) as [Pv Ei]. rewrite Pl by auto. auto.
Qed.
Lemma sol_unique h g W W' : SInv h g -> sol h g W -> sol h g W' ->
  (forall v, gP g v -> c_items (cells h v) = [] -> W v = W' v) -> forall v, gP g v -> W v = W' v.
Proof.
  intros I [S1 _] [S1' _] Hp. destruct (s_rank _ _ I) as (rank & Rk).
  assert (H : forall k v, rank v < k -> gP g v -> W v = W' v).
  { induction k as [|k IH]; intros v Hk Pv; [lia|].
    destruct (s_one _ _ I v (or_introl Pv)) as [E|[o E]]; auto.
    rewrite (S1 v o), (S1' v o) by auto. apply sem_ext. intros w Hw.
    assert (Ho : In o (c_items (cells h v))) by (rewrite E; simpl; auto).
    apply IH; [pose proof (Rk v o w Pv Ho Hw); lia|]. eapply known_P; [eapply (s_known _ _ I); eauto|auto]. }
  intros v Pv. apply (H (S (rank v))); auto.
Qed.
Lemma dsol_unique h g x W D D' : SInv h g -> dsol h g x W D -> dsol h g x W D' -> forall v, gP g v -> D v = D' v.
Proof.
  intros I A B. destruct (s_rank _ _ I) as (rank & Rk).
  assert (H : forall k v, rank v < k -> gP g v -> D v = D' v).
  { induction k as [|k IH]; intros v Hk Pv; [lia|]. rewrite (A v Pv), (B v Pv). destruct (Nat.eqb v x); auto.
    destruct (c_items (cells h v)) as [|o l] eqn:E; auto. apply dsem_ext; auto. intros w Hw.
    assert (Ho : In o (c_items (cells h v))) by (rewrite E; simpl; auto).
    apply IH; [pose proof (Rk v o w Pv Ho Hw); lia|]. eapply known_P; [eapply (s_known _ _ I); eauto|auto]. }
  intros v Pv. apply (H (S (rank v))); auto.
Qed.

(** The value and the derivative of a root. *)
Lemma root_self h g r v : SInv h g -> gR g r -> gP g v -> v <> r.
Proof. intros I Hr Pv ->. now apply (s_R _ _ I r Hr). Qed.
Lemma root_values h g r o W : SInv h g -> gR g r -> c_items (cells h r) = [o] -> sol h g W ->
  (forall v, gP g v -> c_items (cells h v) = [] -> W v = c_base (cells h v)) ->
  values (graph_of h) r (at_ r (sem W o) W).
Proof.
  intros I Hr Eo [S1 S2] Hb v Hv.
  assert (Nl : forall u w, gP g u \/ gR g u -> forall o, In o (c_items (cells h u)) -> In w (leaves o) -> gP g w).
  { intros u w Hu o' Ho Hw. eapply known_P; [eapply (s_known _ _ I); eauto|auto]. }
  unfold items, base, graph_of. cbn [fst snd].
  destruct (root_reach h g r v I Hr Hv) as [->|Pv].
  - rewrite Eo, at_same. cbn [fold_left]. apply sem_ext. intros w Hw.
    assert (Pw : gP g w) by (eapply (Nl r); [right; auto|rewrite Eo; simpl; eauto|auto]).
    pose proof (root_self h g r w I Hr Pw). now rewrite !at_other.
  - pose proof (root_self h g r v I Hr Pv) as Hne. rewrite at_other by auto.
    destruct (s_one _ _ I v (or_introl Pv)) as [E|[u E]]; rewrite E; cbn [fold_left]; auto.
    rewrite (S1 v u) by auto. apply sem_ext. intros w Hw.
    assert (Ho : In u (c_items (cells h v))) by (rewrite E; simpl; auto).
    assert (Pw : gP g w) by (eapply (Nl v); eauto).
    destruct (s_rank _ _ I) as (rank & Rk). pose proof (Rk v u w Pv Ho Hw).
    rewrite (at_other v) by (intros ->; lia). now rewrite at_other by (apply (root_self h g r w I Hr Pw)).
Qed.
Lemma root_derivs h g r o x W D : SInv h g -> gR g r -> c_items (cells h r) = [o] -> sol h g W ->
  (forall v, gP g v -> c_items (cells h v) = [] -> W v = c_base (cells h v)) -> dsol h g x W D ->
  derivs (graph_of h) r (at_ r (sem W o) W) x (at_ r (if Nat.eqb r x then n1 else dsem W D o) D).
Proof.
  intros I Hr Eo SW Hb SD v Hv.
  assert (Nl : forall u w, gP g u \/ gR g u -> forall o, In o (c_items (cells h u)) -> In w (leaves o) -> gP g w).
  { intros u w Hu o' Ho Hw. eapply known_P; [eapply (s_known _ _ I); eauto|auto]. }
  assert (Dx : gP g x -> D x = n1) by (intros Px; rewrite (SD x Px); now rewrite Nat.eqb_refl).
  unfold items, base, graph_of. cbn [fst snd].
  destruct (root_reach h g r v I Hr Hv) as [->|Pv].
  - rewrite Eo, at_same. cbn [fold_left fst snd]. destruct (Nat.eqb r x) eqn:Er; auto.
    assert (Pw : forall w, In w (leaves o) -> gP g w).
    { intros w Hw. eapply (Nl r); [right; auto|rewrite Eo; simpl; eauto|auto]. }
    apply dsem_ext; intros w Hw.
    + pose proof (root_self h g r w I Hr (Pw w Hw)). now rewrite !at_other.
    + pose proof (root_self h g r w I Hr (Pw w Hw)).
      destruct (Nat.eq_dec w x) as [->|Hn]; [rewrite at_same; auto|]. now rewrite !at_other.
  - pose proof (root_self h g r v I Hr Pv) as Hne. rewrite at_other by auto. rewrite (SD v Pv).
    destruct (Nat.eqb v x); auto.
    destruct (s_one _ _ I v (or_introl Pv)) as [E|[u E]]; rewrite E; cbn [fold_left fst snd]; auto.
    assert (Ho : In u (c_items (cells h v))) by (rewrite E; simpl; auto).
    assert (Pw : forall w, In w (leaves u) -> gP g w) by (intros w Hw; eapply (Nl v); eauto).
    destruct (s_rank _ _ I) as (rank & Rk).
    assert (Nv : forall w, In w (leaves u) -> w <> v) by (intros w Hw ->; pose proof (Rk v u v Pv Ho Hw); lia).
    apply dsem_ext; intros w Hw.
    + pose proof (root_self h g r w I Hr (Pw w Hw)). pose proof (Nv w Hw). now rewrite !at_other.
    + pose proof (root_self h g r w I Hr (Pw w Hw)). pose proof (Nv w Hw).
      destruct (Nat.eq_dec w x) as [->|Hn]; [rewrite at_same; auto|]. now rewrite !at_other.
Qed.
End SymOk.
