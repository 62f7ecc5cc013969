(** * Symbolic derivatives of every order over the reals (lemmas for C15) *)

From Coq Require Import List Arith Bool Lia Reals Lra.
From Verif Require Import Num NumInst ScalarModel ScalarSpec ScalarReset ScalarEval ScalarTerm ScalarApi ScalarHist ScalarUser ScalarBuild
  ScalarFacts ScalarMore Calculus ScalarCalc ScalarSym SymForm SymOk SymInit SymSess SymUser.
Import ListNotations.
Local Open Scope nat_scope.

(** ** Specification *)
Notation heapR := (heap R). Notation outR := (out (T := R)).
(** The store with the numbers of s in its variables and parameters. *)
Definition at_vals (st : storeR) (s : nat -> R) : storeR := fun v =>
  match st v with
  | Some (OVar _) => Some (OVar (s v))
  | Some (OPar _) => Some (OPar (s v))
  | o => o
  end.
(** s gives the variables and parameters their numbers in st. *)
Definition vals_of (st : storeR) (s : nat -> R) : Prop :=
  forall v x, st v = Some (OVar x) \/ st v = Some (OPar x) -> s v = x.
(** d is the partial derivative of f with respect to x at s. *)
Definition partial (f : (nat -> R) -> R) (x : nat) (s : nat -> R) (d : R) : Prop :=
  derivable_pt_lim (fun a => f (at_ x a s)) (s x) d.

(** Operators whose symbolic derivatives use faithful copies only: the functions sin, cos, tan, sinh, cosh, tanh, atan, exp,
    log; sums, products, quotients, powers of expressions; c*X, X+c, 1/X, pow(c,X), pow(X,c). *)
Definition closed1 (k : uop R) : Prop :=
  match k with
  | UFun FSin | UFun FCos | UFun FTan | UFun FSinh | UFun FCosh | UFun FTanh | UFun FATan | UFun FExp | UFun FLog => True
  | UProdC _ | USumC _ | UPowCL _ | UPowCR _ => True
  | UDivC c => c = 1%R
  | _ => False
  end.
Definition closed2 (k : bop R) : Prop := match k with BCust _ _ _ => False | _ => True end.
Fixpoint tclosed (t : termR) : Prop :=
  match t with
  | TRef _ | TPar _ => True
  | TUn k a => closed1 k /\ tclosed a
  | TBin k a b => closed2 k /\ tclosed a /\ tclosed b
  | TClone a => tclosed a
  end.
(** Where they have derivatives of every order. *)
Definition smooth1 (k : uop R) (u : R) : Prop := udom k u /\ match k with UPowCR _ => u <> 0%R | _ => True end.
Fixpoint tsmooth (lv : nat -> R) (t : termR) : Prop :=
  match t with
  | TRef _ | TPar _ => True
  | TUn k a => smooth1 k (tsem lv a) /\ tsmooth lv a
  | TBin k a b => bdom k (tsem lv a) (tsem lv b) /\ tsmooth lv a /\ tsmooth lv b
  | TClone a => tsmooth lv a
  end.
Definition closed_graph (st : storeR) (e : nat) : Prop :=
  (forall v, ureach st e v -> ~ udep st v v) /\
  (forall v l t, ureach st e v -> st v = Some (OExp l) -> In (ITerm t) l -> tclosed t).
(** At the numbers s every operator below e is applied where it is smooth. *)
Definition smooth_at (st : storeR) (e : nat) (s : nat -> R) : Prop :=
  forall W, uvalues (at_vals st s) e W -> forall v l t, ureach st e v -> st v = Some (OExp l) -> In (ITerm t) l -> tsmooth W t.

(** A session: the newest expression r is queried, its numbers are changed, or it is differentiated and the result
    becomes the newest expression. *)
Inductive act (T : Type) : Type :=
| AEval | ADevalF (z : nat) | AGrad (zs : list nat) | ASet (v : nat) (y : T) | ASetPar (p : nat) (y : T) | ADiff (x : nat).
Arguments AEval {T}. Arguments ADevalF {T}. Arguments AGrad {T}. Arguments ADiff {T}.
Definition act_ok (st : storeR) (a : act R) : Prop :=
  match a with
  | AEval => True
  | ADevalF z => is_var st z
  | AGrad zs => forall z, In z zs -> is_var st z
  | ASet _ v _ => is_var st v
  | ASetPar _ p _ => is_par st p
  | ADiff x => is_var st x
  end.
Definition play1 {T} {N : Num T} (lr : form (T := T) -> bool) (pad r : nat) (a : act T) (h : heap T) : option (nat * out (T := T) * heap T) :=
  let query c := match step pad c h with Some (o, h1) => Some (r, o, h1) | None => None end in
  match a with
  | AEval => query (CEval r)
  | ADevalF z => query (CDevalF r z)
  | AGrad zs => query (CGrad r zs)
  | ASet _ v y => query (CSet v y)
  | ASetPar _ p y => query (CSetPar p y)
  | ADiff x => match sym_diff lr pad r x h with Some (d, h1) => Some (d, OHandle d, h1) | None => None end
  end.
Fixpoint play {T} {N : Num T} (lr : form (T := T) -> bool) (pad r : nat) (acts : list (act T)) (h : heap T) : option (list (out (T := T)) * heap T) :=
  match acts with
  | [] => Some ([], h)
  | a :: acts' =>
      match play1 lr pad r a h with
      | Some (r', o, h1) => match play lr pad r' acts' h1 with Some (os, h2) => Some (o :: os, h2) | None => None end
      | None => None
      end
  end.
(** The newest expression denotes the function f of the numbers; those are now s; U: the points of interest. *)
Fixpoint denotes (U : (nat -> R) -> Prop) (f : (nat -> R) -> R) (s : nat -> R) (acts : list (act R)) (os : list outR) : Prop :=
  match acts, os with
  | [], [] => True
  | a :: acts', o :: os' =>
      match a with
      | AEval => o = ONums [f s] /\ denotes U f s acts' os'
      | ADevalF z => (exists d, o = ONums [d] /\ (U s -> partial f z s d)) /\ denotes U f s acts' os'
      | AGrad zs => (exists ds, o = ONums ds /\ length ds = length zs /\
            (U s -> forall i z, nth_error zs i = Some z -> exists d, nth_error ds i = Some d /\ partial f z s d)) /\
          denotes U f s acts' os'
      | ASet _ v y => denotes U f (at_ v y s) acts' os'
      | ASetPar _ p y => denotes U f (at_ p y s) acts' os'
      | ADiff x => exists f', (forall t, U t -> partial f x t (f' t)) /\ denotes U f' s acts' os'
      end
  | _, _ => False
  end.

(** ** Operators *)
Definition smb := bdom.
Lemma DivR : DivLaws NumR.
Proof.
  split; cbn [ndiv nmul n1 NumR]; intros; unfold Rdiv; [ring|]. rewrite Rinv_mult. ring.
Qed.
Lemma pow_down u c : powdom u c -> u <> 0%R -> powdom u (c - 1).
Proof.
  intros [H|(z & -> & H)] Hu; [left; auto|]. right. exists (z - 1)%Z. rewrite minus_IZR. auto.
Qed.
Lemma closed_nice1 k : closed1 k -> nice1 k.
Proof. destruct k as [f|c|c|c|c|c|f f'|f f3 c|f f2 c]; simpl; auto. Qed.
Lemma closed_nice2 k : closed2 k -> nice2 k.
Proof. destruct k; simpl; auto. Qed.
Lemma tclosed_nice t : tclosed t -> tnice t.
Proof. induction t as [v|p|k a IH|k a IHa b IHb|a IH]; cbn [tclosed tnice]; auto. Qed.
Lemma nice_built t : tnice (T := R) t -> tbuilt t.
Proof.
  induction t as [v|p|k a IH|k a IHa b IHb|a IH]; simpl; auto.
  - intros [A B]. split; auto. now apply nice_b1.
  - intros (A & B & C). split; auto.
Qed.
Ltac smt := repeat match goal with |- _ /\ _ => split end; auto; try exact Logic.I.
Lemma sV1 k f u d : nice1 k -> smooth1 k u -> sym_val1 k = Some f -> fsm smooth1 bdom (fun _ => u) d f.
Proof.
  destruct k; simpl; intros Hn [A B] E; try discriminate; injection E as <-; cbn [fsm fn fval]; try contradiction; split; auto; split; simpl; auto.
Qed.
Lemma sD1 k f u d : nice1 k -> smooth1 k u -> sym_der1 k = Some f -> fsm smooth1 bdom (fun _ => u) d f.
Proof.
  destruct k as [g|c|c|c|c|c|g g'|g g3 c|g g2 c]; cbn [nice1]; intros Hn [A B] E; cbn [sym_der1] in E; try discriminate;
    injection E as <-; try contradiction.
  - destruct g; cbn [nicef] in Hn; try contradiction; cbn [sym_fun fsm fn csub fval bdom udom fdom smooth1 mean1 mean2 NumR nadd nmul n1 nm1] in *;
      unfold smooth1; cbn [udom fdom]; smt; try lra.
    assert (X := Rle_0_sqr u). unfold Rsqr in X. lra.
  - cbn [fsm]. unfold smooth1. simpl. smt.
  - cbn [fsm]. auto.
  - subst c. cbn [fsm fval bdom mean2 NumR nmul]. unfold smooth1. cbn [udom] in *. smt; try
    now apply Rmult_integral_contrapositive_currified.
  - cbn [fsm fval bdom]. unfold smooth1. cbn [udom] in *. smt.
  - cbn [fsm fval bdom]. unfold smooth1. cbn [udom] in *. smt. now apply pow_down.
Qed.
Lemma sV2 k f (e : side -> R) d : nice2 k -> bdom k (e SL) (e SR) -> sym_val2 k = Some f -> fsm smooth1 bdom e d f.
Proof.
  destruct k; cbn [nice2 sym_val2]; intros Hn A E; try discriminate; injection E as <-; cbn [fsm fval bdom] in *; auto.
Qed.
Lemma sD2 k f (e : side -> R) d : nice2 k -> bdom k (e SL) (e SR) -> sym_der2 k = Some f -> fsm smooth1 bdom e d f.
Proof.
  destruct k; cbn [nice2 sym_der2]; intros Hn A E; try discriminate; injection E as <-; cbn [fsm fval bdom fn mean2 NumR nmul] in *; unfold smooth1; cbn [udom fdom]; smt; try lra.
Qed.

(** The derivative of a tree. *)
Lemma dlim_op (W : R -> nat -> R) D c (o : op R) :
  (forall w, In w (leaves o) -> derivable_pt_lim (fun a => W a w) c (D w)) ->
  (forall w a, In w (pars o) -> W a w = W c w) -> smo smooth1 bdom (W c) o ->
  derivable_pt_lim (fun a => sem (W a) o) c (dsem (W c) D o).
Proof.
  induction o as [v|p tv|k id e IH|k id l IHl r IHr]; cbn [leaves pars smo sem dsem]; intros H1 H2 Sm.
  - apply H1. now left.
  - apply (dlim_ext (fun _ => W c tv)); [intros; symmetry; apply H2; now left|apply dlim_const].
  - destruct Sm as [[A _] B]. apply dlim_un; auto.
  - destruct Sm as (A & B & C). apply dlim_bin; auto; [apply IHl|apply IHr]; auto;
      intros; try apply H1; try apply H2; apply in_or_app; auto.
Qed.
Lemma smo_div W (o : op R) : smo smooth1 bdom W o -> div_ok W o.
Proof.
  induction o as [v|p tv|k id e IH|k id l IHl r IHr]; cbn [smo div_ok]; auto; [tauto|].
  intros (A & B & C). repeat apply conj; auto. destruct k; auto. now apply invertibleR.
Qed.
Lemma rep_tsmooth (lw lv : nat -> R) o t : rep o t -> (forall v, In v (trefs t) -> lw v = lv v) ->
  (forall p, In p (tpars t) -> lw (S p) = lv p) -> tsmooth lv t -> smo smooth1 bdom lw o.
Proof.
  intros H. induction H as [v|p|k id o t H IH|k id a b l r Ha IHa Hb IHb|o t H IH]; cbn [trefs tpars tsmooth smo]; auto.
  - intros A B [C D]. split; auto. rewrite (rep_sem o t H lw lv) by auto. exact C.
  - intros A B (C & D & E).
    assert (A1 : forall v, In v (trefs l) -> lw v = lv v) by (intros; apply A; apply in_or_app; auto).
    assert (A2 : forall v, In v (trefs r) -> lw v = lv v) by (intros; apply A; apply in_or_app; auto).
    assert (B1 : forall p, In p (tpars l) -> lw (S p) = lv p) by (intros; apply B; apply in_or_app; auto).
    assert (B2 : forall p, In p (tpars r) -> lw (S p) = lv p) by (intros; apply B; apply in_or_app; auto).
    split; auto. rewrite (rep_sem a l Ha lw lv), (rep_sem b r Hb lw lv) by auto. exact C.
Qed.
Lemma pars_parids (o : op R) tv : In tv (pars o) -> exists p, In p (parids o).
Proof.
  induction o as [v|p t|k id e IH|k id l IHl r IHr]; cbn [pars parids]; auto; try contradiction.
  - exists p. now left.
  - intros H. apply in_app_or in H. destruct H as [H|H]; [apply IHl in H|apply IHr in H]; destruct H as (p & H); exists p; apply in_or_app; auto.
Qed.

(** ** Sessions *)
Section Session.
Variable lr : form (T := R) -> bool.
Variables (h0 : heapR) (st : storeR) (tc : nat -> Prop) (e : nat) (U : (nat -> R) -> Prop).
Hypothesis Re : reached h0 st tc.
Hypothesis Q : query_ok st tc e.
Hypothesis CG : closed_graph st e.
Hypothesis HU : forall s, U s -> smooth_at st e s.
Let I : Inv h0 st tc := reached_inv _ _ _ Re.
Notation S0 := (next h0).
Let NoRec := proj1 CG.
Let Built : forall v l t, ureach st e v -> st v = Some (OExp l) -> In (ITerm t) l -> tbuilt t :=
  fun v l t A B C => nice_built t (tclosed_nice t (proj2 CG v l t A B C)).
Let All := fun _ : nat => True.
Definition Sm0 (W : nat -> R) : Prop := exists s, U s /\ plugs (at_vals st s) W.

Lemma at_vals_alike s : ScalarMore.alike st (at_vals st s).
Proof. intros v. unfold at_vals. destruct (st v) as [[]|]; auto. Qed.

Notation ses := (sess h0 st e All All True smooth1 bdom Sm0).
Lemma all_gv (o : op R) : niceo o -> gv All o.
Proof. apply (nice_gv All All True (fun _ _ => conj Logic.I Logic.I)). exact Logic.I. Qed.
Lemma all_gd (o : op R) : niceo o -> gd All All o.
Proof. apply (nice_gd All All True (fun _ _ => conj Logic.I Logic.I)). exact Logic.I. Qed.
Lemma item_nice v o : reach (graph_of h0) e v -> c_items (cells h0 v) = [o] -> niceo o.
Proof.
  intros Hv Ei. assert (Ho : In o (c_items (cells h0 v))) by (rewrite Ei; simpl; auto).
  destruct (item_of h0 st tc I v o Ho) as (l & i & E & Hi & Ri & Ki).
  destruct Ri as [id o t Ri|w|]; cbn [niceo]; auto. split; [exact Logic.I|].
  eapply rep_nice; eauto. apply tclosed_nice. eapply (proj2 CG); eauto.
  apply (reach_exp h0 st tc e Re Q); auto. exists l; auto.
Qed.
Lemma item_smooth W : Sm0 W -> (forall v o, reach (graph_of h0) e v -> v <> e -> c_items (cells h0 v) = [o] -> W v = sem W o) ->
  W 0 = n1 -> W 1 = n0 -> forall v o, reach (graph_of h0) e v -> c_items (cells h0 v) = [o] -> smo smooth1 bdom W o.
Proof.
  intros (s & Us & Pl) HW W0 W1 v o Hv Ei.
  destruct (e_exp st tc e Q) as [le Ee].
  destruct (one_item h0 st tc e Re NoRec e (ureach_refl _ _) (e_exp st tc e Q)) as (oe & ie & Eoe & _).
  pose proof (uvalues_of_sol h0 st tc e Re Q NoRec (at_vals st s) W oe (at_vals_alike s) Eoe) as V.
  assert (V' : uvalues (at_vals st s) e (uval st e W oe)).
  { apply V; auto. intros u b [[A B]|A] Eb; [now apply HW|]. rewrite (low_plain h0 st tc Re u A) in Eb. discriminate. }
  assert (Ho : In o (c_items (cells h0 v))) by (rewrite Ei; simpl; auto).
  destruct (item_of h0 st tc I v o Ho) as (l & i & E & Hi & Ri & Ki).
  assert (Hx : is_exp st v) by (exists l; auto).
  assert (Hu : ureach st e v) by (apply (reach_exp h0 st tc e Re Q); auto).
  destruct Ri as [id o t Ri|w|]; cbn [smo]; auto. split; [split; simpl; auto|].
  destruct (one_item h0 st tc e Re NoRec v Hu Hx) as (o' & i & Ei' & E' & Ri' & Ki' & Ni).
  rewrite Ei in Ei'. injection Ei' as <-. rewrite E in E'. injection E' as ->. destruct Hi as [->|[]].
  destruct (item_agree h0 st tc e Re Q NoRec W oe W1 v _ _ Hu Hx Ei E Ki' Ni) as (A & B & _). cbn [irefs ipars] in A, B.
  apply (rep_tsmooth W (uval st e W oe) o t Ri).
  - intros w Hw. rewrite A by auto. rewrite at_other; auto.
  - intros p Hp. rewrite B by auto. rewrite at_other; auto. intros ->.
    destruct (item_ok_pars _ _ _ Ki' Hp) as [y Y]. congruence.
  - eapply (HU s Us); eauto. simpl; auto.
Qed.

Definition fits (h : heapR) (g : ghost (T := R)) (s : nat -> R) (W : nat -> R) : Prop :=
  sol h g W /\ plugs (at_vals st s) W /\ forall v, S0 <= v -> gP g v -> c_items (cells h v) = [] -> W v = c_base (cells h v).
Lemma plugs_ext s s' W : (forall v, s v = s' v) -> plugs (at_vals st s) W -> plugs (at_vals st s') W.
Proof.
  intros Hs [A B]. split; intros v x E; [apply A|apply B]; unfold at_vals in *; destruct (st v) as [[]|]; rewrite ?Hs; auto.
Qed.
Lemma fits_ext h g s s' W : (forall v, s v = s' v) -> fits h g s W -> fits h g s' W.
Proof. intros Hs (A & B & C). split; auto. split; auto. eapply plugs_ext; eauto. Qed.
Lemma at_id (s : nat -> R) x v : at_ x (s x) s v = s v.
Proof. unfold at_. destruct (Nat.eqb_spec v x); congruence. Qed.

Notation se_sinv S := (proj1 (se_live _ _ _ _ _ _ _ _ _ _ _ _ _ S)).
Notation vlow := (var_low h0 st tc Re). Notation plow := (par_low h0 st tc Re).

Lemma plain_cases h g r st' v : ses h g r st' -> gP g v -> c_items (cells h v) = [] ->
  (gK g v /\ v < 2) \/ S0 <= v \/ is_var st v \/ exists p, v = S p /\ is_par st p.
Proof.
  intros S Pv Ei. destruct (le_lt_dec S0 v) as [|Hl]; auto.
  rewrite (se_items _ _ _ _ _ _ _ _ _ _ _ _ _ S) in Ei by auto.
  apply (se_P _ _ _ _ _ _ _ _ _ _ _ _ _ S v Hl) in Pv.
  assert (K2 : v < 2 -> gK g v /\ v < 2).
  { intros H. split; auto. assert (v = 0 \/ v = 1) as [->| ->] by lia; [apply (s_t1 _ _ _ _ _ _ _ _ _ (se_sinv S))|apply (s_t0 _ _ _ _ _ _ _ _ _ (se_sinv S))]. }
  destruct Pv as [[A B]|A]; [|auto].
  destruct (reach_user h0 st tc I e v (e_val st tc e Q) A) as [[_ [X|X]]|[X|(p & X & P & _)]]; auto.
  - exfalso. exact (exp_ne h0 st tc I v X Ei).
  - left. apply K2. lia.
  - right; right; right. exists p. auto.
Qed.
Lemma fits_exists h g r st' : ses h g r st' -> exists F : (nat -> R) -> nat -> R, forall s, fits h g s (F s).
Proof.
  intros S. destruct (sol_exists _ _ _ _ _ _ _ h g (se_sinv S)) as (f & Hf).
  set (b := fun (s : nat -> R) v => if (Nat.ltb v 2 || Nat.leb S0 v)%bool then c_base (cells h v) else
    match st v with Some (OVar _) => s v | _ =>
      match v with O => c_base (cells h v) | Datatypes.S p => match st p with Some (OPar _) => s p | _ => c_base (cells h v) end end end).
  exists (fun s => wsol h (b s) f). intros s. destruct (Hf (b s)) as [A B].
  { intros v Kv. unfold b. destruct (s_Kb _ _ _ _ _ _ _ _ _ (se_sinv S) v Kv) as [H|H].
    - apply Nat.ltb_lt in H. now rewrite H.
    - apply Nat.leb_le in H. rewrite H, orb_true_r. reflexivity. }
  assert (Lo : forall v, 2 <= v < S0 -> (Nat.ltb v 2 || Nat.leb S0 v)%bool = false).
  { intros v H. apply orb_false_iff. rewrite Nat.ltb_ge, Nat.leb_gt. lia. }
  split; auto. split; [split|].
  - intros v x E. assert (Hv : is_var st v) by (unfold at_vals in E; destruct (st v) as [[y|y|l]|] eqn:Ev; try discriminate; exists y; auto).
    destruct (vlow v Hv) as [C D]. rewrite B by (now rewrite (se_items _ _ _ _ _ _ _ _ _ _ _ _ _ S)).
    unfold b. rewrite Lo by lia. destruct Hv as [y Ev]. unfold at_vals in E. rewrite Ev in *. congruence.
  - intros p x E. assert (Hv : is_par st p) by (unfold at_vals in E; destruct (st p) as [[y|y|l]|] eqn:Ev; try discriminate; exists y; auto).
    destruct (plow p Hv) as (C & D & F). rewrite B by (now rewrite (se_items _ _ _ _ _ _ _ _ _ _ _ _ _ S)).
    unfold b. rewrite Lo by lia.
    assert (X : forall y, st (Datatypes.S p) <> Some (OVar y)).
    { intros y X. apply (val_not_parvar h0 st tc I (Datatypes.S p) p); auto. left. exists y; auto. }
    destruct Hv as [y Ev]. unfold at_vals in E. rewrite Ev in *.
    destruct (st (Datatypes.S p)) as [[z|z|l]|]; try congruence. exfalso; eapply X; eauto.
  - intros v Hv Pv Ei. rewrite B by auto. unfold b. apply Nat.leb_le in Hv. rewrite Hv, orb_true_r. reflexivity.
Qed.
Lemma fits_plain h g r st' s W v : ses h g r st' -> fits h g s W -> gP g v -> c_items (cells h v) = [] ->
  forall s' W', fits h g s' W' -> (forall u, is_var st u -> v = u -> s u = s' u) -> (forall p, is_par st p -> v = S p -> s p = s' p) -> W v = W' v.
Proof.
  intros S (A & [B1 B2] & C) Pv Ei s' W' (A' & [B1' B2'] & C') Hs Hp.
  destruct (plain_cases h g r st' v S Pv Ei) as [[Kv _]|[Hv|[Hv|(p & -> & Pp)]]].
  - rewrite (proj2 A), (proj2 A'); auto.
  - rewrite C, C'; auto.
  - rewrite (B1 v (s v)), (B1' v (s' v)); auto; destruct Hv as [y E]; unfold at_vals; rewrite E; auto.
  - rewrite (B2 p (s p)), (B2' p (s' p)); auto; destruct Pp as [y E]; unfold at_vals; rewrite E; auto.
Qed.
Lemma fits_unique h g r st' s W W' : ses h g r st' -> fits h g s W -> fits h g s W' -> forall v, gP g v -> W v = W' v.
Proof.
  intros S F F'. eapply (sol_unique _ _ _ _ _ _ _ h g W W' (se_sinv S)); [apply F|apply F'|].
  intros v Pv Ei. eapply (fits_plain h g r st' s W v); eauto.
Qed.
Lemma fits_sem h g r st' s W W' v o : ses h g r st' -> fits h g s W -> fits h g s W' -> gP g v \/ gR g v -> In o (c_items (cells h v)) ->
  sem W o = sem W' o.
Proof.
  intros S F F' Hv Ho. apply sem_ext. intros w Hw. eapply fits_unique; eauto.
  eapply known_P; [eapply (s_known _ _ _ _ _ _ _ _ _ (se_sinv S)); eauto|auto].
Qed.
Lemma fits_based h g r st' s W : ses h g r st' -> vals_of st' s -> sol h g W -> based h g W -> plugs st' W -> fits h g s W.
Proof.
  intros S V A B [P1 P2]. split; auto. split; [split|intros v _ Pv Ei; now apply B].
  - intros v x E. pose proof (se_alike _ _ _ _ _ _ _ _ _ _ _ _ _ S v) as Al. unfold at_vals in E.
    destruct (st v) as [[y|y|l]|]; try discriminate. injection E as <-. destruct (st' v) as [[z|z|l]|] eqn:Ez; try contradiction; try discriminate.
    rewrite (P1 v z Ez). symmetry. apply V; auto.
  - intros v x E. pose proof (se_alike _ _ _ _ _ _ _ _ _ _ _ _ _ S v) as Al. unfold at_vals in E.
    destruct (st v) as [[y|y|l]|]; try discriminate. injection E as <-. destruct (st' v) as [[z|z|l]|] eqn:Ez; try contradiction; try discriminate.
    rewrite (P2 v z Ez). symmetry. apply V; auto.
Qed.
Lemma fits_later h g r st' h' g' s W : ses h g r st' -> later h g h' g' -> fits h' g' s W -> fits h g s W.
Proof.
  intros S La (A & B & C). split; [eapply later_sol; eauto using (se_sinv S)|]. split; auto.
  intros v Hv Pv Ei. assert (Lt : v < next h) by (apply (s_lt _ _ _ _ _ _ _ _ _ (se_sinv S)); auto).
  rewrite C; auto; [now apply (l_base _ _ _ _ La)|now apply (l_P _ _ _ _ La)|now rewrite (l_items _ _ _ _ La)].
Qed.
Lemma dsol_w h g r st' x W W' D : ses h g r st' -> (forall v, gP g v -> W v = W' v) -> dsol h g x W D -> dsol h g x W' D.
Proof.
  intros S Hw Hd v Pv. rewrite (Hd v Pv). destruct (Nat.eqb v x); auto.
  destruct (c_items (cells h v)) as [|o l] eqn:Ei; auto. apply dsem_ext; auto. intros w Hin. apply Hw.
  eapply known_P; [eapply (s_known _ _ _ _ _ _ _ _ _ (se_sinv S) v o); auto; rewrite Ei; simpl; auto|auto].
Qed.
Lemma par_of_item h g r st' v o w : ses h g r st' -> gP g v \/ gR g v -> In o (c_items (cells h v)) -> In w (pars o) ->
  exists p, is_par st p /\ w = S p.
Proof.
  intros S Hv Ho Hw. destruct (pars_parids o w Hw) as (q & Hq).
  destruct (s_pid _ _ _ _ _ _ _ _ _ (se_sinv S) v o q Hv Ho Hq) as ((Lv & _) & _).
  rewrite (se_items _ _ _ _ _ _ _ _ _ _ _ _ _ S) in Ho by auto.
  destruct (item_of h0 st tc I v o Ho) as (l & i & E & Hi & Ri & Ki).
  assert (X : exists p, In p (ipars i) /\ w = Datatypes.S p).
  { destruct Ri; simpl in *; try contradiction. eapply rep_pars; eauto. }
  destruct X as (p & Hp & ->). exists p. split; auto. eapply item_ok_pars; eauto.
Qed.

(** The derivative of the solutions. *)
Section Deriv.
Variables (h : heapR) (g : ghost (T := R)) (r : nat) (st' : storeR).
Hypothesis S : ses h g r st'.
Variable F : (nat -> R) -> nat -> R.
Hypothesis HF : forall s, fits h g s (F s).
Variables (x : nat) (s : nat -> R) (W D : nat -> R).
Hypothesis Us : U s.
Hypothesis Vx : is_var st x.
Hypothesis FW : fits h g s W.
Hypothesis HD : dsol h g x W D.
Lemma deriv_item v o : gP g v \/ gR g v -> In o (c_items (cells h v)) ->
  (forall w, In w (leaves o) -> derivable_pt_lim (fun a => F (at_ x a s) w) (s x) (D w)) ->
  derivable_pt_lim (fun a => sem (F (at_ x a s)) o) (s x) (dsem W D o).
Proof.
  intros Hv Ho Hl. pose proof (s_known _ _ _ _ _ _ _ _ _ (se_sinv S) v o Hv Ho) as Kn.
  assert (Fc : fits h g s (F (at_ x (s x) s))) by (apply (fits_ext h g (at_ x (s x) s)); auto; intros; apply at_id).
  rewrite (dsem_ext W (F (at_ x (s x) s)) D D o); auto.
  2:{ intros w Hw. eapply fits_unique; eauto. eapply known_P; eauto. }
  apply (dlim_op (fun a => F (at_ x a s))); auto.
  - intros w a Hw. destruct (par_of_item h g r st' v o w S Hv Ho Hw) as (p & Pp & ->).
    destruct (plow p Pp) as (_ & Lp & Ep).
    apply (fits_plain h g r st' (at_ x a s) _ (Datatypes.S p) S) with (s' := at_ x (s x) s); auto.
    + eapply known_P; eauto. clear - Hw. induction o; simpl in *; auto. apply in_or_app. apply in_app_or in Hw. tauto.
    + rewrite (se_items _ _ _ _ _ _ _ _ _ _ _ _ _ S); auto.
    + intros u Vu Eu. exfalso. apply (val_not_parvar h0 st tc I u p); auto. left; auto.
    + intros p' Pp' Ep'. injection Ep' as <-. unfold at_. destruct (Nat.eqb_spec p x) as [->|]; auto. destruct Vx, Pp; congruence.
  - eapply (s_sm _ _ _ _ _ _ _ _ _ (se_sinv S) Logic.I); eauto; [apply HF|]. exists s. split; auto. apply Fc.
Qed.
Lemma deriv_sol v : gP g v -> derivable_pt_lim (fun a => F (at_ x a s) v) (s x) (D v).
Proof.
  destruct (s_rank _ _ _ _ _ _ _ _ _ (se_sinv S)) as (rank & Rk).
  assert (H : forall k v, rank v < k -> gP g v -> derivable_pt_lim (fun a => F (at_ x a s) v) (s x) (D v)).
  { induction k as [|k IH]; intros u Hk Pu; [lia|]. rewrite (HD u Pu). destruct (Nat.eqb_spec u x) as [->|Hn].
    { apply (dlim_ext (fun a => a)); [|apply dlim_id]. intros a. destruct (HF (at_ x a s)) as (_ & [B _] & _).
      symmetry. apply B. destruct Vx as [y E]. unfold at_vals. rewrite E, at_same. reflexivity. }
    destruct (s_one _ _ _ _ _ _ _ _ _ (se_sinv S) u (or_introl Pu)) as [Ei|[o Ei]]; rewrite Ei.
    - apply (dlim_ext (fun _ => F s u)); [|apply dlim_const]. intros a.
      apply (fits_plain h g r st' s _ u S) with (s' := at_ x a s); auto.
      + intros w _ ->. now rewrite at_other.
      + intros p Pp _. rewrite at_other; auto. intros ->. destruct Vx, Pp; congruence.
    - assert (Ho : In o (c_items (cells h u))) by (rewrite Ei; simpl; auto).
      apply (dlim_ext (fun a => sem (F (at_ x a s)) o)); [intros a; destruct (HF (at_ x a s)) as ((A & _) & _); symmetry; apply A; auto|].
      apply (deriv_item u); auto. intros w Hw. apply IH; [pose proof (Rk u o w Pu Ho Hw); lia|].
      eapply known_P; [eapply (s_known _ _ _ _ _ _ _ _ _ (se_sinv S) u o); auto|auto]. }
  intros Pv. apply (H (Datatypes.S (rank v))); auto.
Qed.
Lemma deriv_root f o : c_items (cells h r) = [o] -> (forall s W, fits h g s W -> sem W o = f s) -> partial f x s (dsem W D o).
Proof.
  intros Ei Hf. unfold partial. apply (dlim_ext (fun a => sem (F (at_ x a s)) o)); [intros a; apply Hf; auto|].
  assert (Ho : In o (c_items (cells h r))) by (rewrite Ei; simpl; auto).
  assert (Hr : gR g r) by apply (se_live _ _ _ _ _ _ _ _ _ _ _ _ _ S).
  apply (deriv_item r); auto. intros w Hw. apply deriv_sol. eapply known_P; [eapply (s_known _ _ _ _ _ _ _ _ _ (se_sinv S) r o); auto|auto].
Qed.
End Deriv.

Lemma all_init : exists g, ses h0 g e st.
Proof.
  apply (sess_init h0 st tc e Re Q NoRec Built All All True smooth1 bdom Sm0).
  - intros v o Hv Ei _. apply all_gv. eapply item_nice; eauto.
  - intros v o Hv Ei _. apply all_gd. eapply item_nice; eauto.
  - intros _. exact item_nice.
  - intros _. exact item_smooth.
Qed.
Lemma not_root h g r st' x : ses h g r st' -> is_var st x -> r <> x.
Proof.
  intros S Vx ->. destruct (se_r _ _ _ _ _ _ _ _ _ _ _ _ _ S) as [->|H].
  - destruct (e_exp st tc e Q), Vx. congruence.
  - destruct (vlow x Vx). lia.
Qed.

Theorem session_denotes pad f s acts : (forall t W, uvalues (at_vals st t) e W -> f t = W e) -> vals_of st s -> Forall (act_ok st) acts ->
  exists os h', play lr pad e acts h0 = Some (os, h') /\ denotes U f s acts os.
Proof.
  intros Hf Vs Ha. destruct all_init as (g & S).
  destruct (root_item h0 st e All All True smooth1 bdom Sm0 h0 g e st S) as (oe & Eoe).
  assert (Inv0 : forall o, c_items (cells h0 e) = [o] -> forall t W, fits h0 g t W -> sem W o = f t).
  { intros o Eo t W (A & B & C). rewrite (Hf t (uval st e W o)).
    - unfold uval. now rewrite Nat.eqb_refl.
    - apply (uvalues_of_sol h0 st tc e Re Q NoRec (at_vals st t) W o (at_vals_alike t) Eo); auto.
      + intros v b Pv Eb. apply A; auto. apply (proj2 (se_P _ _ _ _ _ _ _ _ _ _ _ _ _ S v (inP_lt h0 st tc e Re Q v Pv))). exact Pv.
      + rewrite (proj2 A); apply (s_t0 _ _ _ _ _ _ _ _ _ (se_sinv S)). }
  clear Hf oe Eoe.
  cut (forall h st' r, ses h g r st' -> (forall o, c_items (cells h r) = [o] -> forall t W, fits h g t W -> sem W o = f t) -> vals_of st' s ->
    exists os h', play lr pad r acts h = Some (os, h') /\ denotes U f s acts os); [intros X; eapply X; eauto|].
  clear S Inv0 Vs. revert f s g.
  induction Ha as [|a acts Hok _ IH]; intros f s g h st' r S Inv Vs; cbn [play denotes].
  { exists [], h. split; auto. }
  destruct (root_item h0 st e All All True smooth1 bdom Sm0 h g r st' S) as (b & Eb).
  destruct (based_exists h0 st tc e Re All All True smooth1 bdom Sm0 h g r st' S) as (W & SW & BW & PW & _).
  pose proof (fits_based h g r st' s W S Vs SW BW PW) as FW.
  destruct (fits_exists h g r st' S) as (F & HF).
  assert (Cmd : forall c, on_root st r c -> exists o h', step pad c h = Some (o, h') /\ ses h' g r (uafter st' c o) /\ reply st h g r c o /\
    (forall o', c_items (cells h' r) = [o'] -> forall t W, fits h' g t W -> sem W o' = f t)).
  { intros c Hc. destruct (sess_cmd LawsR h0 st tc e Re Q All All True smooth1 bdom Sm0 pad c h g r st' S Hc) as (o & h' & E & S' & Rp & Hi & Hs & Hb).
    exists o, h'. repeat apply conj; auto. intros o' Eo' t W' (A & B & C). apply (Inv o'); [now rewrite <- Hi|].
    split; [now apply Hs|]. split; auto. intros v Hv Pv Ei. rewrite <- (Hb v Hv). apply C; auto. now rewrite Hi. }
  assert (Qry : forall c, on_root st r c -> (forall o, uafter st' c o = st') -> exists o h', step pad c h = Some (o, h') /\ reply st h g r c o /\
    exists os h2, play lr pad r acts h' = Some (os, h2) /\ denotes U f s acts os).
  { intros c Hc Hu. destruct (Cmd c Hc) as (o & h' & E & S' & Rp & Inv'). rewrite Hu in S'.
    destruct (IH f s g h' st' r S' Inv' Vs) as (os & h2 & E2 & D2). exists o, h'. eauto 8. }
  destruct a as [|z|zs|v y|p y|x]; cbn [act_ok] in Hok; cbn [play1].
  - destruct (Qry (CEval r) eq_refl (fun _ => eq_refl)) as (o & h' & E & Rp & os & h2 & E2 & D2).
    rewrite E, E2. exists (o :: os), h2. split; auto. split; auto. rewrite (Rp W b SW BW Eb). now rewrite (Inv b Eb s W FW).
  - destruct (Qry (CDevalF r z) (conj eq_refl (or_introl Hok)) (fun _ => eq_refl)) as (o & h' & E & Rp & os & h2 & E2 & D2).
    rewrite E, E2. exists (o :: os), h2. split; auto. split; auto.
    destruct (dsol_exists _ _ _ _ _ _ _ h g z W (se_sinv S)) as (D & SD).
    exists (dsem W D b). rewrite (Rp W D b SW BW SD Eb). destruct (Nat.eqb_spec r z) as [X|_]; [exfalso; eapply not_root; eauto|].
    split; auto. intros Us. eapply deriv_root; eauto.
  - assert (Hz : forall z, In z zs -> is_var st z \/ is_exp st z) by auto.
    destruct (Qry (CGrad r zs) (conj eq_refl Hz) (fun _ => eq_refl)) as (o & h' & E & Rp & os & h2 & E2 & D2).
    rewrite E, E2. exists (o :: os), h2. split; auto. split; auto.
    destruct Rp as (ys & -> & Len & Rp). exists ys. split; auto. split; auto. intros Us i z Hi.
    destruct (dsol_exists _ _ _ _ _ _ _ h g z W (se_sinv S)) as (D & SD).
    assert (Vz : is_var st z) by (apply Hok; eapply nth_error_In; eauto).
    exists (dsem W D b). split.
    + apply (Rp W b SW BW Eb) with (z := z); auto. intros u b' Hu Hb. apply smo_div.
      eapply (s_sm _ _ _ _ _ _ _ _ _ (se_sinv S) Logic.I); eauto. exists s. split; auto. apply FW.
    + eapply deriv_root; eauto.
  - destruct (Cmd (CSet v y) Hok) as (o & h' & E & S' & Rp & Inv'). cbn [uafter] in S'.
    destruct (IH f (at_ v y s) g h' _ r S' Inv') as (os & h2 & E2 & D2).
    { intros w x Hw. unfold put in Hw. unfold at_ in *. destruct (Nat.eqb_spec w v); [destruct Hw; congruence|auto]. }
    rewrite E, E2. exists (o :: os), h2. auto.
  - destruct (Cmd (CSetPar p y) Hok) as (o & h' & E & S' & Rp & Inv'). cbn [uafter] in S'.
    destruct (IH f (at_ p y s) g h' _ r S' Inv') as (os & h2 & E2 & D2).
    { intros w x Hw. unfold put in Hw. unfold at_ in *. destruct (Nat.eqb_spec w p); [destruct Hw; congruence|auto]. }
    rewrite E, E2. exists (o :: os), h2. auto.
  - destruct (sess_diff LawsR DivR lr h0 st tc e Re All All True (fun _ _ _ => Logic.I) (fun _ _ => conj Logic.I Logic.I) smooth1 bdom Sm0
      (fun u => conj Logic.I Logic.I) sV1 sD1 sV2 sD2 (depth (Datatypes.S (Datatypes.S (next h))) + pad) x h g r st' S ltac:(lia))
      as (d & h' & g' & E & S' & La & Hd & o & o' & Eo & Eo' & Val).
    unfold sym_diff. rewrite E.
    destruct (fits_exists h' g' d st' S') as (F' & HF').
    assert (Rd : gR g' d) by apply (se_live _ _ _ _ _ _ _ _ _ _ _ _ _ S').
    assert (Io' : In o' (c_items (cells h' d))) by (rewrite Eo'; simpl; auto).
    assert (Inv' : forall b', c_items (cells h' d) = [b'] -> forall t W, fits h' g' t W -> sem W b' = sem (F' t) o').
    { intros b' Eb' t W' FW'. rewrite Eo' in Eb'. injection Eb' as <-. eapply fits_sem; eauto. }
    destruct (IH (fun t => sem (F' t) o') s g' h' st' d S' Inv' Vs) as (os & h2 & E2 & D2).
    rewrite E2. exists (OHandle d :: os), h2. split; auto. exists (fun t => sem (F' t) o'). split; auto.
    intros t Ut. destruct (dsol_exists _ _ _ _ _ _ _ h' g' x (F' t) (se_sinv S')) as (D & SD).
    assert (Ne : Nat.eqb r x = false) by (apply Nat.eqb_neq; eapply (not_root h g r st' x S); eauto).
    rewrite (Val Logic.I (F' t) D (proj1 (HF' t)) SD), Ne.
    apply (deriv_root h g r st' S F' (fun s => fits_later h g r st' h' g' s _ S La (HF' s))); auto.
    + eapply fits_later; eauto.
    + eapply later_dsol; eauto. apply (se_sinv S).
Qed.
End Session.
