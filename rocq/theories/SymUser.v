(** * Symbolic differentiation for client programs, exact arithmetic (lemmas for C13, C14) *)

From Coq Require Import List Arith Bool Lia Ring.
From Verif Require Import Num ScalarModel ScalarSpec ScalarReset ScalarEval ScalarTerm ScalarApi ScalarHist ScalarUser ScalarBuild
  ScalarFacts ScalarMore ScalarSym SymForm SymOk SymInit SymSess.
Import ListNotations.
Open Scope num_scope.

Section Spec.
Context {T : Type} {N : Num T}.
Notation heap := (heap T). Notation store := (store (T := T)). Notation item := (item (T := T)). Notation term := (term (T := T)).
Notation cmd := (cmd (T := T)). Notation out := (out (T := T)).

(** ** Specification *)
(** Below e: built-in operators only, no self-reference. *)
Definition plain_graph (st : store) (e : nat) : Prop :=
  (forall v, ureach st e v -> ~ udep st v v) /\
  (forall v l t, ureach st e v -> st v = Some (OExp l) -> In (ITerm t) l -> tbuilt t).

(** The copy of a term's value that symbolic differentiation makes is faithful, if it is for the objects in GV: every
    quotient c/X has c = 1. *)
Fixpoint copies (GV : nat -> Prop) (t : term) : Prop :=
  match t with
  | TRef v => GV v
  | TPar _ => True
  | TUn k a => match k with UDivC c => c = n1 | _ => True end /\ copies GV a
  | TBin _ a b => copies GV a /\ copies GV b
  | TClone a => copies GV a
  end.
(** Operators whose derivative needs the value of their operands: all but sums, differences and multiples. *)
Definition needs1 (k : uop T) : Prop := match k with UProdC _ | USumC _ => False | _ => True end.
Definition needs2 (k : bop T) : Prop := match k with BSum | BSub => False | _ => True end.
(** Wherever the value of an operand is needed, the copy is faithful. *)
Fixpoint derives (GV GD : nat -> Prop) (t : term) : Prop :=
  match t with
  | TRef v => GD v
  | TPar _ => True
  | TUn k a => derives GV GD a /\ (needs1 k -> copies GV a)
  | TBin k a b => derives GV GD a /\ derives GV GD b /\ (needs2 k -> copies GV a /\ copies GV b)
  | TClone a => derives GV GD a
  end.
(** ... in the whole graph: some sets of objects GV, GD are closed under looking into the assignments. *)
Definition quotients_ok (st : store) (e : nat) : Prop :=
  exists GV GD : nat -> Prop, GD e /\
    (forall v l i, GV v -> st v = Some (OExp l) -> In i l ->
       match i with ITerm t => copies GV t | ICopy w => GV w | IZero => True end) /\
    (forall v l i, GD v -> st v = Some (OExp l) -> In i l ->
       match i with ITerm t => derives GV GD t | ICopy w => GD w | IZero => True end).

(** Every Eval among the commands cs answered with the derivative of e with respect to x at the numbers
    the variables and parameters have at that moment. *)
Fixpoint tracks (e x : nat) (st : store) (cs : list cmd) (os : list out) : Prop :=
  match cs, os with
  | [], [] => True
  | c :: cs', o :: os' =>
      match c with
      | CEval _ => exists W D, uvalues st e W /\ uderivs st e W x D /\ o = ONums [D e]
      | _ => True
      end /\ tracks e x (uafter st c o) cs' os'
  | _, _ => False
  end.

(** SymDiff(e, x), with enough fuel. *)
Definition sym_diff (lr : form (T := T) -> bool) (pad e x : nat) (h : heap) : option (nat * heap) :=
  SymDiff lr (depth (S (S (next h))) + pad) e x h.
End Spec.

Section Proof.
Context {T : Type} {N : Num T}.
Hypotheses (L : NumLaws N) (DL : DivLaws N).
Notation heap := (heap T). Notation op := (op T). Notation store := (store (T := T)). Notation item := (item (T := T)).
Notation cmd := (cmd (T := T)). Notation out := (out (T := T)). Notation term := (term (T := T)).
Variable lr : form (T := T) -> bool.

Lemma rep_copies (GV GV' : nat -> Prop) o (t : term) : rep o t -> tbuilt t -> copies GV t ->
  (forall v, GV v -> In v (leaves o) -> GV' v) -> gv GV' o.
Proof.
  intros H. induction H as [v|p|k id o t H IH|k id a b l r Ha IHa Hb IHb|o t H IH]; simpl; auto.
  - intros [B1 B2] [C1 C2] X. split; auto. destruct k; simpl in *; auto.
  - intros (B1 & B2 & B3) (C1 & C2) X. split; [destruct k; simpl in *; auto|].
    split; [apply IHa|apply IHb]; auto; intros; apply X; auto; apply in_or_app; auto.
Qed.
Lemma rep_derives (GV GD GV' GD' : nat -> Prop) o (t : term) : rep o t -> tbuilt t -> derives GV GD t ->
  (forall v, GV v -> In v (leaves o) -> GV' v) -> (forall v, GD v -> In v (leaves o) -> GD' v) -> gd GV' GD' o.
Proof.
  intros H. induction H as [v|p|k id o t H IH|k id a b l r Ha IHa Hb IHb|o t H IH]; simpl; auto.
  - intros [B1 B2] [C1 C2] X Y. split; auto. destruct k; simpl in *; auto; right; eapply rep_copies; eauto.
  - intros (B1 & B2 & B3) (C1 & C2 & C3) X Y.
    split; [apply IHa; auto; intros; (apply X || apply Y); auto; apply in_or_app; auto|].
    split; [apply IHb; auto; intros; (apply X || apply Y); auto; apply in_or_app; auto|].
    destruct k; simpl in *; auto; right; destruct (C3 Logic.I) as [D1 D2];
      (split; [eapply (rep_copies GV GV' a)|eapply (rep_copies GV GV' b)]; eauto; intros; apply X; auto; apply in_or_app; auto).
Qed.
Lemma fsm_true (f : form (T := T)) e d : fsm (fun _ _ => True) (fun _ _ _ => True) e d f.
Proof. induction f; simpl; auto. Qed.

Lemma copies_derives (t : term) : copies (fun _ => True) t -> derives (fun _ => True) (fun _ => True) t.
Proof. induction t as [v|p|k a IH|k a IHa b IHb|a IH]; simpl; tauto. Qed.
Lemma unit_quotients (st : store) e : (forall v l t, st v = Some (OExp l) -> In (ITerm t) l -> copies (fun _ => True) t) -> quotients_ok st e.
Proof.
  intros H. exists (fun _ => True), (fun _ => True). split; auto.
  split; intros v l [t|w|] _ E Hi; auto; [eapply H; eauto|]. apply copies_derives. eapply H; eauto.
Qed.

Section One.
Variables (h0 : heap) (st : store) (tc : nat -> Prop) (e x : nat).
Hypothesis R : reached h0 st tc.
Hypothesis Q : query_ok st tc e.
Hypothesis PG : plain_graph st e.
Hypothesis Hx : is_val st x.
Hypothesis QO : quotients_ok st e.
Let I : Inv h0 st tc := reached_inv _ _ _ R.

Theorem symdiff_tracks pad : exists d h1, sym_diff lr pad e x h0 = Some (d, h1) /\ st d = None /\
  forall pad' cs, Forall (on_root st d) cs ->
  exists os h2, exec pad' (line cs) h1 = Some (os, h2) /\ tracks e x st cs os.
Proof.
  destruct PG as [NoRec Built]. destruct QO as (GV & GD & Ge & HV & HD).
  set (GV' v := (GV v \/ v = 1) /\ v < next h0). set (GD' v := (GD v \/ v = 1) /\ v < next h0).
  set (S1 := fun (_ : uop T) (_ : T) => True). set (S2 := fun (_ : bop T) (_ _ : T) => True). set (S3 := fun _ : nat -> T => True).
  assert (HG : forall v, next h0 <= v -> GV' v \/ GD' v -> False) by (intros v Hv [[_ A]|[_ A]]; lia).
  assert (HN : False -> forall v, GV' v /\ GD' v) by contradiction.
  assert (It : forall v o, reach (graph_of h0) e v -> c_items (cells h0 v) = [o] -> exists l i, st v = Some (OExp l) /\ In i l /\ rep_item o i /\
            (forall t, i = ITerm t -> tbuilt t) /\ (forall w, In w (leaves o) -> w < next h0) /\ v <> 1).
  { intros v o Hv Ei. assert (Ho : In o (c_items (cells h0 v))) by (rewrite Ei; simpl; auto).
    destruct (item_of h0 st tc I v o Ho) as (l & i & E & Hi & Ri & Ki). exists l, i. repeat apply conj; auto.
    - intros t ->. eapply Built; eauto. apply (reach_exp h0 st tc e R Q); auto. exists l; auto.
    - intros w Hw. eapply (b_leaf _ _ (rdy_b _ _ _ (inv_ready h0 st tc I e Q))); eauto.
    - intros ->. assert (st 1 <> None) by congruence. apply (i_dom _ _ _ I) in H. lia. }
  assert (Hgv : forall v o, reach (graph_of h0) e v -> c_items (cells h0 v) = [o] -> GV' v -> gv GV' o).
  { intros v o Hv Ei [Gv _]. destruct (It v o Hv Ei) as (l & i & E & Hi & Ri & Bt & Lt & N1).
    destruct Gv as [Gv|]; [|contradiction]. specialize (HV v l i Gv E Hi). destruct Ri as [id o t Ri|w|]; simpl.
    - split; auto. eapply rep_copies; eauto. intros w Gw Hw. split; auto.
    - split; auto. apply Lt. simpl; auto.
    - split; auto. apply Lt. simpl; auto. }
  assert (Hgd : forall v o, reach (graph_of h0) e v -> c_items (cells h0 v) = [o] -> GD' v -> gd GV' GD' o).
  { intros v o Hv Ei [Gv _]. destruct (It v o Hv Ei) as (l & i & E & Hi & Ri & Bt & Lt & N1).
    destruct Gv as [Gv|]; [|contradiction]. specialize (HD v l i Gv E Hi). destruct Ri as [id o t Ri|w|]; simpl.
    - split; auto. eapply rep_derives; eauto; intros w Gw Hw; split; auto.
    - split; auto. apply Lt. simpl; auto.
    - split; auto. apply Lt. simpl; auto. }
  destruct (sess_init h0 st tc e R Q NoRec Built GV' GD' False S1 S2 S3 Hgv Hgd (fun F => False_ind _ F) (fun F => False_ind _ F)) as (g0 & S).
  destruct (sess_diff L DL lr h0 st tc e R GV' GD' False HG HN S1 S2 S3 (fun _ => Logic.I)
      (fun _ f _ _ _ _ _ => fsm_true f _ _) (fun _ f _ _ _ _ _ => fsm_true f _ _)
      (fun _ f _ _ _ _ _ => fsm_true f _ _) (fun _ f _ _ _ _ _ => fsm_true f _ _)
      (depth (Datatypes.S (Datatypes.S (next h0))) + pad) x h0 g0 e st S ltac:(lia))
    as (d & h1 & g1 & E & S' & La & Hd & oe & od & Eoe & Eod & Val).
  exists d, h1. split; auto. split.
  { destruct (st d) eqn:Ed; auto. exfalso. assert (X : st d <> None) by congruence. apply (i_dom _ _ _ I) in X. lia. }
  assert (Ge' : GD' e) by (split; auto; apply (i_dom _ _ _ I); destruct (proj1 Q); congruence).
  specialize (Val Ge'). clear E La.
  intros pad' cs Hcs.
  cut (forall st1 h1, sess h0 st e GV' GD' False S1 S2 S3 h1 g1 d st1 -> c_items (cells h1 d) = [od] ->
    (forall W D, sol h1 g1 W -> dsol h1 g1 x W D -> sem W od = if Nat.eqb e x then n1 else dsem W D oe) ->
    ScalarMore.alike st st1 -> exists os h2, exec pad' (line cs) h1 = Some (os, h2) /\ tracks e x st1 cs os).
  { intros X. apply X; auto using ScalarMore.alike_refl. }
  clear S' Eod Val h1.
  induction Hcs as [|c cs Hc _ IH]; intros st1 h1 S' Eod Val Al; cbn [line exec].
  { exists [], h1. split; auto. exact Logic.I. }
  destruct (sess_cmd L h0 st tc e R Q GV' GD' False S1 S2 S3 pad' c h1 g1 d st1 S' Hc) as (o & h2 & E & S2' & Re & Hi & Hs & _).
  rewrite E. destruct (IH (uafter st1 c o) h2 S2') as (os & h3 & E3 & Tr).
  - now rewrite Hi.
  - intros W D SW SD. apply Val; [now apply Hs|]. intros v Pv. rewrite (SD v Pv). now rewrite Hi.
  - exact (se_alike _ _ _ _ _ _ _ _ _ _ _ _ _ S2').
  - rewrite E3. exists (o :: os), h3. split; auto. cbn [tracks]. split; auto.
    destruct c as [y|y| |t|a|a t|a b|v y|p y|r'|r' z|r' zs]; auto.
    destruct (based_exists h0 st tc e R GV' GD' False S1 S2 S3 h1 g1 d st1 S') as (W & SW & BW & PW & W0 & W1).
    destruct (dsol_exists _ _ _ _ _ _ _ h1 g1 x W (proj1 (se_live _ _ _ _ _ _ _ _ _ _ _ _ _ S'))) as (D & SD).
    exists (uval st e W oe), (uder st e W D x oe).
    assert (Lt : forall v, inP h0 e v -> v < next h0) by (apply (inP_lt h0 st tc e R Q)).
    split; [|split].
    + apply (uvalues_of_sol h0 st tc e R Q NoRec st1 W oe); auto.
      intros v b Pv Eb. apply SW; [apply (se_P _ _ _ _ _ _ _ _ _ _ _ _ _ S'); auto|].
      rewrite (se_items _ _ _ _ _ _ _ _ _ _ _ _ _ S'); auto.
    + apply (uderivs_of_sol h0 st tc e R Q NoRec st1 W oe); auto.
      intros v Pv. rewrite (SD v) by (apply (se_P _ _ _ _ _ _ _ _ _ _ _ _ _ S'); auto).
      rewrite (se_items _ _ _ _ _ _ _ _ _ _ _ _ _ S') by auto. reflexivity.
    + rewrite (Re W od SW BW Eod), (Val W D SW SD). unfold uder. now rewrite Nat.eqb_refl.
Qed.
End One.
End Proof.
