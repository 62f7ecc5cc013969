(** * Symbolic differentiation from a state reached by a client program (lemmas for C13, C15) *)

From Coq Require Import List Arith Bool Lia Ring.
From Verif Require Import Num ScalarModel ScalarSpec ScalarReset ScalarEval ScalarTerm ScalarApi ScalarHist ScalarUser ScalarBuild
  ScalarFacts ScalarMore ScalarSym SymForm SymOk.
Import ListNotations.
Open Scope num_scope.

Section Reached.
Context {T : Type} {N : Num T}.
Notation heap := (heap T). Notation store := (store (T := T)). Notation item := (item (T := T)).

(** An expression with several assignments mentions itself. *)
Definition loops (st : store) : Prop :=
  forall v l, st v = Some (OExp l) -> (exists i, l = [i]) \/ exists i, In i l /\ In v (irefs i).
Lemma mentions_in e (t : term (T := T)) : mentions e t = true -> In e (trefs t).
Proof.
  unfold mentions. intros H. apply existsb_exists in H. destruct H as (x & A & B). apply Nat.eqb_eq in B. now subst.
Qed.
Lemma loops_put (st : store) v o : loops st -> (forall l, o = OExp l -> (exists i, l = [i]) \/ exists i, In i l /\ In v (irefs i)) ->
  loops (put st v o).
Proof.
  intros H Ho w l E. destruct (Nat.eq_dec w v) as [->|Hn].
  - rewrite put_same in E. injection E as E. auto.
  - rewrite put_other in E by auto. eauto.
Qed.
Lemma loops_after (st : store) c o : loops st -> loops (uafter st c o).
Proof.
  intros H. destruct c, o; cbn [uafter]; auto;
    try (destruct (st e) as [[y|y|l0]|]; auto); apply loops_put; auto; intros l' E'; try discriminate E'; injection E' as <-; eauto.
  all: match goal with
       | |- context [mentions ?e ?t] => destruct (mentions e t) eqn:M; [right|left; eauto]; exists (ITerm t); split; [apply in_or_app; simpl; auto|now apply mentions_in]
       | |- context [Nat.eqb ?a ?b] => destruct (Nat.eqb_spec a b) as [->|]; [right|left; eauto]; exists (ICopy b); split; [apply in_or_app; simpl; auto|simpl; auto]
       end.
Qed.
Lemma reached_loops h st tc : reached h st tc -> loops st.
Proof. induction 1; [intros v l E; discriminate E|now apply loops_after]. Qed.

Lemma query_same pad h st tc c o h' r : Inv h st tc -> query_ok st tc r -> uroot c = Some r -> step pad c h = Some (o, h') -> same_graph h h'.
Proof.
  intros I Q Hc E. pose proof (inv_ready h st tc I r Q) as Rd.
  assert (Hf : depth (next h) <= fuel_for pad h) by (unfold fuel_for; lia).
  destruct c; try discriminate Hc; injection Hc as <-; cbn [step] in E.
  - destruct (Eval (fuel_for pad h) r0 h) as [[y h1]|] eqn:E1; [|discriminate]. injection E as <- <-.
    apply (run1_next (fuel_for pad h) r0 QEval h [y] h1 (next h)); auto. cbn [run1]. now rewrite E1.
  - destruct (DevalF (fuel_for pad h) r0 x h) as [[y h1]|] eqn:E1; [|discriminate]. injection E as <- <-.
    apply (run1_next (fuel_for pad h) r0 (QDevalF x) h [y] h1 (next h)); auto. cbn [run1]. now rewrite E1.
  - destruct (PreComp (fuel_for pad h) r0 h) as [h1|] eqn:E1; [|discriminate].
    destruct (reads r0 xs h1) as [ys h2] eqn:E2. injection E as <- <-.
    apply (run1_next (fuel_for pad h) r0 (QGrad xs) h ys h2 (next h)); auto. cbn [run1]. now rewrite E1, E2.
Qed.
Lemma reached_one h st tc : reached h st tc -> c_base (cells h 0) = n1.
Proof.
  induction 1 as [|h st tc c pad o h' R IH Hl E]; [reflexivity|].
  pose proof (reached_inv _ _ _ R) as I. rewrite <- IH.
  pose proof (i_two _ _ _ I) as H2.
  assert (X : forall v, st v <> None -> 0 <> v) by (intros v Hv; apply (i_dom _ _ _ I) in Hv; lia).
  destruct c as [x|x| |t|e|e t|e e'|v x|p x|r|r x|r xs]; cbn [legal] in Hl;
    try (cbn [step] in E; unfold new_exp in E).
  - injection E as <- <-. rewrite cells_bump, setc_other by lia. auto.
  - injection E as <- <-. rewrite cells_bump, setc_other by lia. auto.
  - injection E as <- <-. rewrite cells_bump, setc_other by lia. auto.
  - pose proof (build_rep t (next h)) as [B _]. destruct (build t (next h)) as [b n1]. simpl in B.
    destruct (wrap b (S (S n1))) as [l n2]. injection E as <- <-. rewrite cells_bump, setc_other by lia. auto.
  - injection E as <- <-. rewrite cells_bump, setc_other by lia. auto.
  - destruct (build t (next h)) as [b n1]. destruct (wrap b n1) as [l n2]. injection E as <- <-.
    rewrite cells_bump, modc_other; auto. apply X. destruct Hl as [[l' E'] _]. congruence.
  - injection E as <- <-. rewrite modc_other; auto. apply X. destruct Hl as [[l' E'] _]. congruence.
  - injection E as <- <-. unfold SetVar. rewrite modc_other; auto. apply X. destruct Hl as [y E']. congruence.
  - injection E as <- <-. unfold SetVar. rewrite modc_other; auto.
  - pose proof (query_same pad h st tc (CEval r) o h' r I Hl eq_refl E) as (G & _). apply G.
  - pose proof (query_same pad h st tc (CDevalF r x) o h' r I (proj1 Hl) eq_refl E) as (G & _). apply G.
  - pose proof (query_same pad h st tc (CGrad r xs) o h' r I (proj1 Hl) eq_refl E) as (G & _). apply G.
Qed.
End Reached.

Section Init.
Context {T : Type} {N : Num T}.
Notation heap := (heap T). Notation op := (op T). Notation store := (store (T := T)). Notation item := (item (T := T)).
Variables (h : heap) (st : store) (tc : nat -> Prop) (e : nat).
Hypothesis R : reached h st tc.
Hypothesis Q : query_ok st tc e.
Hypothesis NoRec : forall v, ureach st e v -> ~ udep st v v.
Hypothesis Built : forall v l t, ureach st e v -> st v = Some (OExp l) -> In (ITerm t) l -> tbuilt t.
Let I : Inv h st tc := reached_inv _ _ _ R.
Notation G := (graph_of h).

Lemma e_val : is_val st e.
Proof. right. apply Q. Qed.
Lemma reach_exp v : reach G e v -> is_exp st v -> ureach st e v.
Proof.
  intros Hv He. destruct (reach_user h st tc I e v e_val Hv) as [[A _]|[->|(p & -> & P & _)]]; auto; exfalso.
  - apply (val_not_1 h st tc I 1); [right; auto|auto].
  - eapply (val_not_parvar h st tc I (S p) p); eauto. right; auto.
Qed.
Lemma reach_no_loop v : reach G e v -> ~ dep G v v.
Proof.
  intros Hv Hd. destruct (dep_user h st tc I v v Hd) as [He X]. pose proof (reach_exp v Hv He) as Hu.
  destruct X as [[A _]|[->|(p & -> & P & _)]].
  - now apply (NoRec v).
  - apply (val_not_1 h st tc I 1); [right; auto|auto].
  - eapply (val_not_parvar h st tc I (S p) p); eauto. right; auto.
Qed.
(** The single assignment of an expression below e. *)
Lemma one_item v : ureach st e v -> is_exp st v -> exists o i, c_items (cells h v) = [o] /\ st v = Some (OExp [i]) /\
  rep_item o i /\ item_ok st i /\ (forall w, In w (irefs i) -> w <> v).
Proof.
  intros Hu [l E]. destruct (i_exp _ _ _ I v l E) as (_ & _ & F & K).
  assert (X : exists i, l = [i]).
  { destruct (reached_loops _ _ _ R v l E) as [A|(i & A & B)]; auto. exfalso.
    apply (NoRec v Hu). exists l, i. auto. }
  destruct X as (i & ->). inversion F as [|o ? os ? A B C D]; subst. inversion B; subst. inversion K; subst.
  exists o, i. repeat apply conj; auto. intros w Hw ->. apply (NoRec v Hu). exists [i], i. simpl; auto.
Qed.
Lemma init_rank : exists rank : nat -> nat, forall v w, reach G e v -> dep G v w -> rank w < rank v.
Proof.
  destruct (rdy_strat _ _ _ (inv_ready h st tc I e Q)) as (rank & Rk). exists rank. intros v w Hv Hd.
  destruct (Rk v w Hv Hd) as [->|]; auto. now apply reach_no_loop in Hd.
Qed.
Lemma init_lt v : reach G e v -> v < next h.
Proof. pose proof (inv_ready h st tc I e Q) as Rd. apply reach_lt; [apply Rd|apply Rd]. Qed.
Lemma e_exp : is_exp st e.
Proof. apply Q. Qed.

Definition inP (v : nat) : Prop := (reach G e v /\ v <> e) \/ v < 2.
Lemma e_ge : 2 <= e < next h.
Proof. destruct e_exp as [l E]. apply (i_dom _ _ _ I). congruence. Qed.
Lemma low_plain v : v < 2 -> c_items (cells h v) = [].
Proof. intros Hv. apply (i_none _ _ _ I). intros [l E]. assert (st v <> None) by congruence. apply (i_dom _ _ _ I) in H. lia. Qed.
Lemma inP_lt v : inP v -> v < next h.
Proof. intros [[A _]|A]; [now apply init_lt|]. pose proof (i_two _ _ _ I). lia. Qed.
Lemma bool_of n (P : nat -> Prop) : (forall v, P v \/ ~ P v) -> (forall v, P v -> v < n) ->
  exists pb : nat -> bool, forall v, pb v = true <-> P v.
Proof.
  intros D. revert P D. induction n as [|n IH]; intros P D Hlt.
  - exists (fun _ => false). intros v. split; [discriminate|]. intros A. apply Hlt in A. lia.
  - destruct (IH (fun v => P v /\ v < n)) as (pb & H).
    + intros v. destruct (D v) as [A|A]; [|tauto]. destruct (le_lt_dec n v); [right; lia|tauto].
    + tauto.
    + destruct (D n) as [A|A].
      * exists (fun v => pb v || Nat.eqb v n). intros v. rewrite orb_true_iff, H, Nat.eqb_eq. split.
        -- intros [B| ->]; tauto.
        -- intros B. pose proof (Hlt v B). destruct (Nat.eq_dec v n); [auto|left; split; auto; lia].
      * exists pb. intros v. rewrite H. split; [tauto|]. intros B. split; auto. pose proof (Hlt v B).
        destruct (Nat.eq_dec v n) as [->|]; [contradiction|lia].
Qed.
Lemma inP_bool : exists pb : nat -> bool, forall v, pb v = true <-> inP v.
Proof.
  apply (bool_of (next h)); [|exact inP_lt]. intros v. unfold inP.
  destruct init_rank as (rank & Rk). destruct (reach_dec_rank h e rank Rk v); destruct (Nat.eq_dec v e);
    destruct (le_lt_dec 2 v); (tauto || (right; lia) || (left; right; lia) || idtac).
  all: right; intros [[A B]|A]; (contradiction || lia).
Qed.

(** Nodes of the objects selected by pb. *)
Fixpoint lookup (pb : nat -> bool) (vs : list nat) (id : nat) : option op :=
  match vs with
  | [] => None
  | v :: vs' =>
      if pb v || Nat.eqb v e then
        match c_items (cells h v) with
        | o :: _ => match find_node id o with Some s => Some s | None => lookup pb vs' id end
        | [] => lookup pb vs' id
        end
      else lookup pb vs' id
  end.
Lemma lookup_some pb vs id s : lookup pb vs id = Some s -> exists v o l, In v vs /\ (pb v = true \/ v = e) /\
  c_items (cells h v) = o :: l /\ find_node id o = Some s.
Proof.
  induction vs as [|v vs IH]; cbn [lookup]; [discriminate|].
  assert (Rec : lookup pb vs id = Some s -> exists v' o l, In v' (v :: vs) /\ (pb v' = true \/ v' = e) /\
    c_items (cells h v') = o :: l /\ find_node id o = Some s).
  { intros E. destruct (IH E) as (v' & o & l & A & B & C). exists v', o, l. simpl; auto. }
  destruct (pb v || Nat.eqb v e) eqn:Ep; auto.
  destruct (c_items (cells h v)) as [|o l] eqn:Ei; auto.
  destruct (find_node id o) as [s'|] eqn:Ef; auto. intros E. injection E as <-.
  exists v, o, l. split; [simpl; auto|]. split; auto. apply orb_true_iff in Ep. rewrite Nat.eqb_eq in Ep. auto.
Qed.
Lemma node_in v o l id s : c_items (cells h v) = o :: l -> find_node id o = Some s -> In id (node_ids G v).
Proof.
  intros Ei Ef. unfold node_ids, items, graph_of. cbn [snd]. rewrite Ei. simpl. apply in_or_app. left. now apply find_in in Ef.
Qed.
Lemma lookup_hit pb vs v o l id s : In v vs -> (pb v = true \/ v = e) -> c_items (cells h v) = o :: l ->
  find_node id o = Some s -> lookup pb vs id = Some s.
Proof.
  intros Hv Hp Ei Ef. assert (Hid : In id (node_ids G v)) by (eapply node_in; eauto).
  induction vs as [|w vs IH]; [destruct Hv|]. cbn [lookup].
  destruct (Nat.eq_dec w v) as [->|Hne].
  - assert (Ep : pb v || Nat.eqb v e = true) by (apply orb_true_iff; rewrite Nat.eqb_eq; auto).
    now rewrite Ep, Ei, Ef.
  - destruct Hv as [->|Hv]; [congruence|]. specialize (IH Hv).
    destruct (pb w || Nat.eqb w e); auto. destruct (c_items (cells h w)) as [|o' l'] eqn:Ew; auto.
    destruct (find_node id o') as [s'|] eqn:Ef'; auto. exfalso.
    apply (i_disj _ _ _ I v w id); auto. eapply node_in; eauto.
Qed.

(** From solutions of the heap's equations to the reference semantics. *)
Lemma not_back v w : reach G e v -> dep G v w -> w <> e.
Proof.
  intros Hv Hd ->. destruct init_rank as (rank & Rk).
  assert (M : forall u, reach G e u -> u = e \/ rank u < rank e).
  { intros u Hu. induction Hu as [|a b Hu IH Hab]; auto. right. pose proof (Rk a b Hu Hab). destruct IH as [->|]; lia. }
  pose proof (Rk v e Hv Hd). destruct (M v Hv) as [->|]; lia.
Qed.
(** W gives the variables and parameters the values they have in st'. *)
Definition plugs (st' : store) (W : nat -> T) : Prop :=
  (forall v x, st' v = Some (OVar x) -> W v = x) /\ (forall p x, st' p = Some (OPar x) -> W (S p) = x).
Definition uval (W : nat -> T) (o : op) (v : nat) : T :=
  if Nat.eqb v e then sem W o else match st v with Some (OPar _) => W (S v) | _ => W v end.
Definition uder (W D : nat -> T) (x : nat) (o : op) (v : nat) : T :=
  if Nat.eqb v e then (if Nat.eqb e x then n1 else dsem W D o) else match st v with Some (OPar _) => n0 | _ => D v end.
Section ToUser.
Variables (st' : store) (W : nat -> T) (oe : op).
Hypothesis Al : ScalarMore.alike st st'.
Hypothesis Eoe : c_items (cells h e) = [oe].
Hypothesis HW : forall v o, inP v -> c_items (cells h v) = [o] -> W v = sem W o.
Hypothesis W1 : W 1 = n0.
Hypothesis Pl : plugs st' W.

Lemma back v : ureach st' e v -> ureach st e v.
Proof. apply alike_reach. now apply ScalarMore.alike_sym. Qed.
Lemma uval_item v o : ureach st e v -> is_exp st v -> c_items (cells h v) = [o] -> uval W oe v = sem W o.
Proof.
  intros Hu He Ei. unfold uval. destruct (Nat.eqb_spec v e) as [->|Hn]; [congruence|].
  assert (Hr : reach G e v) by (apply (user_reach h st tc I); auto; right; auto).
  destruct He as [l E]. rewrite E. apply HW; auto. left; auto.
Qed.
Lemma item_agree v o i : ureach st e v -> is_exp st v -> c_items (cells h v) = [o] -> st v = Some (OExp [i]) -> item_ok st i ->
  (forall w, In w (irefs i) -> w <> v) -> agree W (at_ v n0 (uval W oe)) i.
Proof.
  intros Hu He Ei E K Hne. assert (Hr : reach G e v) by (apply (user_reach h st tc I); auto; right; auto).
  split; [|split; auto].
  - intros w Hw. rewrite at_other by auto. pose proof (item_ok_refs _ _ _ K Hw) as Kw.
    assert (Hd : dep G v w) by (apply (user_dep h st tc I); auto; exists [i], i; simpl; auto).
    pose proof (not_back v w Hr Hd). unfold uval. destruct (Nat.eqb_spec w e); [contradiction|].
    destruct Kw as [[y X]|[y X]]; now rewrite X.
  - intros p Hp. pose proof (item_ok_pars _ _ _ K Hp) as [y Kp].
    assert (p <> v) by (intros ->; congruence). assert (p <> e) by (intros ->; destruct e_exp; congruence).
    rewrite at_other by auto. unfold uval. destruct (Nat.eqb_spec p e); [contradiction|]. now rewrite Kp.
Qed.
Lemma uvalues_of_sol : uvalues st' e (uval W oe).
Proof.
  intros v Hv. pose proof (back v Hv) as Hu. destruct (st' v) as [[y|y|l]|] eqn:E'.
  - unfold uval. assert (X : is_var st v) by (apply (alike_var st' st); [now apply ScalarMore.alike_sym|exists y; auto]).
    destruct X as [y' X]. destruct (Nat.eqb_spec v e) as [->|]; [destruct e_exp; congruence|]. rewrite X. now apply Pl.
  - unfold uval. assert (X : is_par st v) by (apply (alike_par st' st); [now apply ScalarMore.alike_sym|exists y; auto]).
    destruct X as [y' X]. destruct (Nat.eqb_spec v e) as [->|]; [destruct e_exp; congruence|]. rewrite X. now apply Pl.
  - assert (E : st v = Some (OExp l)) by (apply (alike_items st' st); [now apply ScalarMore.alike_sym|auto]).
    assert (He : is_exp st v) by (exists l; auto).
    destruct (one_item v Hu He) as (o & i & Ei & El & Ri & Ki & Ni). rewrite E in El. injection El as ->.
    cbn [fold_left]. rewrite (uval_item v o Hu He Ei). apply item_sem; auto. eapply item_agree; eauto.
  - exfalso. assert (X : st v <> None).
    { apply (ureach_dom h st tc I e); auto. destruct e_exp; congruence. }
    specialize (Al v). rewrite E' in Al. destruct (st v) as [[z|z|z]|]; auto; contradiction.
Qed.

Variables (x : nat) (D : nat -> T).
Hypothesis Hx : is_val st x.
Hypothesis HD : forall v, inP v -> D v = if Nat.eqb v x then n1 else match c_items (cells h v) with o :: _ => dsem W D o | [] => n0 end.
Lemma uderivs_of_sol : uderivs st' e (uval W oe) x (uder W D x oe).
Proof.
  assert (D1 : D 1 = n0).
  { rewrite (HD 1) by (right; lia). destruct (Nat.eqb_spec 1 x) as [X|_]; [exfalso; apply (val_not_1 h st tc I x Hx); auto|].
    now rewrite low_plain by lia. }
  assert (Ix : forall v, ureach st e v -> is_val st v -> v <> e -> inP v).
  { intros v Hv Kv Hn. left. split; auto. apply (user_reach h st tc I); auto. }
  intros v Hv. pose proof (back v Hv) as Hu. destruct (st' v) as [[y|y|l]|] eqn:E'.
  - unfold uder. assert (X : is_var st v) by (apply (alike_var st' st); [now apply ScalarMore.alike_sym|exists y; auto]).
    destruct (Nat.eqb_spec v e) as [->|]; [destruct e_exp, X; congruence|].
    rewrite (HD v) by (apply Ix; auto; left; auto).
    rewrite (i_none _ _ _ I v) by (intros [l X']; destruct X; congruence). destruct X as [y' X]. now rewrite X.
  - unfold uder. assert (X : is_par st v) by (apply (alike_par st' st); [now apply ScalarMore.alike_sym|exists y; auto]).
    destruct (Nat.eqb_spec v e) as [->|]; [destruct e_exp, X; congruence|].
    destruct (Nat.eqb_spec v x) as [->|]; [exfalso; now apply (par_not_val st x)|]. destruct X as [y' X]. now rewrite X.
  - assert (E : st v = Some (OExp l)) by (apply (alike_items st' st); [now apply ScalarMore.alike_sym|auto]).
    assert (He : is_exp st v) by (exists l; auto).
    destruct (one_item v Hu He) as (o & i & Ei & El & Ri & Ki & Ni). rewrite E in El. injection El as ->.
    assert (Ev : uder W D x oe v = if Nat.eqb v x then n1 else dsem W D o).
    { unfold uder. destruct (Nat.eqb_spec v e) as [->|Hn]; [rewrite Eoe in Ei; injection Ei as ->; reflexivity|].
      rewrite E, (HD v) by (apply Ix; auto; right; auto). now rewrite Ei. }
    rewrite Ev. destruct (Nat.eqb_spec v x) as [|Hvx]; auto. cbn [fold_left fst snd].
    apply item_dsem; auto; [eapply item_agree; eauto|].
    intros w Hw. pose proof (item_ok_refs _ _ _ Ki Hw) as Kw. pose proof (Ni w Hw) as Hwv.
    assert (Hd : udep st v w) by (exists [i], i; simpl; auto).
    assert (Hne : w <> e).
    { apply (not_back v); [apply (user_reach h st tc I); auto; right; auto|now apply (user_dep h st tc I)]. }
    assert (Uw : ureach st e w) by (econstructor; eauto).
    destruct (Nat.eq_dec w x) as [->|Hwx].
    + rewrite at_same, (HD x) by (apply Ix; auto). now rewrite Nat.eqb_refl.
    + rewrite !at_other by auto. unfold uder. destruct (Nat.eqb_spec w e); [contradiction|].
      destruct Kw as [[z X]|[z X]]; now rewrite X.
  - exfalso. assert (X : st v <> None).
    { apply (ureach_dom h st tc I e); auto. destruct e_exp; congruence. }
    specialize (Al v). rewrite E' in Al. destruct (st v) as [[z|z|z]|]; auto; contradiction.
Qed.
End ToUser.

(** Interface to the parameters of SymOk.v. *)
Variables (GV GD : nat -> Prop) (NC : Prop).
Variables (sm1 : uop T -> T -> Prop) (sm2 : bop T -> T -> T -> Prop) (Sm0 : (nat -> T) -> Prop).
Hypothesis Hgv : forall v o, reach G e v -> c_items (cells h v) = [o] -> GV v -> gv GV o.
Hypothesis Hgd : forall v o, reach G e v -> c_items (cells h v) = [o] -> GD v -> gd GV GD o.
Hypothesis Hnice : NC -> forall v o, reach G e v -> c_items (cells h v) = [o] -> niceo o.
Hypothesis Hsmo : NC -> forall W, Sm0 W -> (forall v o, reach G e v -> v <> e -> c_items (cells h v) = [o] -> W v = sem W o) ->
  W 0 = n1 -> W 1 = n0 -> forall v o, reach G e v -> c_items (cells h v) = [o] -> smo sm1 sm2 W o.

Lemma init_live : exists g, live (next h) GV GD NC sm1 sm2 Sm0 h g e /\ (forall v, gP g v <-> inP v) /\ (forall v, gK g v <-> v < 2) /\
  (forall id s, gN g id = Some s -> st id = None).
Proof.
  destruct inP_bool as (pb & Hpb).
  set (g := mkG (T := T) inP (fun v => v < 2) (eq e) (lookup pb (seq 0 (next h)))).
  exists g. pose proof (inv_ready h st tc I e Q) as Rd. pose proof e_ge as Ee.
  assert (Own : forall v, gP g v \/ gR g v -> c_items (cells h v) <> [] -> reach G e v).
  { intros v [[[A _]|A]| <-] Hne; auto; [now apply low_plain in A|constructor]. }
  assert (Sing : forall v, gP g v \/ gR g v -> c_items (cells h v) <> [] -> exists o i, c_items (cells h v) = [o] /\
     st v = Some (OExp [i]) /\ rep_item o i /\ item_ok st i /\ (forall w, In w (irefs i) -> w <> v) /\ ureach st e v).
  { intros v Hv Hne. pose proof (Own v Hv Hne) as Hr. pose proof (exp_items h st tc I v Hne) as He.
    destruct (one_item v (reach_exp v Hr He) He) as (o & i & A & B & C & D & E). exists o, i.
    repeat apply conj; auto. now apply reach_exp. }
  assert (Leaf_in : forall v o w, gP g v \/ gR g v -> In o (c_items (cells h v)) -> In w (leaves o) -> gP g w).
  { intros v o w Hv Ho Hw. assert (Hne : c_items (cells h v) <> []) by (intros X; rewrite X in Ho; destruct Ho).
    pose proof (Own v Hv Hne) as Hr. left. split.
    - econstructor; [exact Hr|]. exists o. auto.
    - intros ->. assert (Hd : dep G v e) by (exists o; auto). destruct init_rank as (rank & Rk).
      assert (M : forall u, reach G e u -> u = e \/ rank u < rank e).
      { intros u Hu. induction Hu as [|a b Hu IH Hab]; auto. right. pose proof (Rk a b Hu Hab). destruct IH as [->|]; lia. }
      pose proof (Rk v e Hr Hd). destruct (M v Hr) as [->|]; lia. }
  assert (Node : forall id s, gN g id = Some s -> exists v o, (gP g v \/ gR g v) /\ reach G e v /\ c_items (cells h v) = [o] /\ find_node id o = Some s).
  { intros id s E. apply lookup_some in E. destruct E as (v & o & l & _ & Hv & Ei & Ef).
    assert (Hv' : gP g v \/ gR g v) by (destruct Hv as [Hv| ->]; [left; now apply Hpb|right; reflexivity]).
    assert (Hne : c_items (cells h v) <> []) by (rewrite Ei; discriminate).
    destruct (Sing v Hv' Hne) as (o' & i & A & _). rewrite Ei in A. injection A as -> ->.
    exists v, o'. split; auto. }
  assert (Known : forall v o, gP g v \/ gR g v -> In o (c_items (cells h v)) -> known g o).
  { intros v o Hv Ho. assert (Hne : c_items (cells h v) <> []) by (intros X; rewrite X in Ho; destruct Ho).
    destruct (Sing v Hv Hne) as (o' & i & A & _). rewrite A in Ho. destruct Ho as [->|[]].
    apply find_known.
    - pose proof (i_nodup _ _ _ I v) as ND. unfold node_ids, items, graph_of in ND. cbn [snd] in ND. rewrite A in ND.
      simpl in ND. now rewrite app_nil_r in ND.
    - intros id s Ef. apply (lookup_hit pb _ v o [] id s); auto.
      + apply in_seq. split; [lia|]. simpl. destruct Hv as [Hv| <-]; [now apply inP_lt|lia].
      + destruct Hv as [Hv| <-]; auto. left. now apply Hpb.
    - intros w Hw. eapply Leaf_in; eauto. rewrite A. simpl; auto. }
  assert (Bt : forall v o, gP g v \/ gR g v -> In o (c_items (cells h v)) -> built o).
  { intros v o Hv Ho. assert (Hne : c_items (cells h v) <> []) by (intros X; rewrite X in Ho; destruct Ho).
    destruct (Sing v Hv Hne) as (o' & i & A & B & C & _ & _ & Hu). rewrite A in Ho. destruct Ho as [->|[]].
    destruct C as [id o t C|w|]; simpl; auto. split; auto. eapply rep_built; eauto. eapply Built; eauto. simpl; auto. }
  assert (InR : forall v o, gP g v \/ gR g v -> In o (c_items (cells h v)) -> reach G e v /\ c_items (cells h v) = [o]).
  { intros v o Hv Ho. assert (Hne : c_items (cells h v) <> []) by (intros X; rewrite X in Ho; destruct Ho).
    destruct (Sing v Hv Hne) as (o' & i & A & B & C & _ & _ & Hu). rewrite A in Ho. destruct Ho as [->|[]]. auto. }
  assert (Slt : forall v, gP g v \/ gR g v -> v < next h) by (intros v [A| <-]; [now apply inP_lt|lia]).
  assert (Sm : NC -> forall W, sol h g W -> Sm0 W -> forall v o, gP g v \/ gR g v -> In o (c_items (cells h v)) -> smo sm1 sm2 W o).
  { intros nc W [SW SK] HW v o Hv Ho. destruct (InR v o Hv Ho) as [A B].
    apply (Hsmo nc W HW) with (v := v); auto.
    - intros u o' Hu Hn Ei. apply SW; auto. left; auto.
    - rewrite (SK 0) by (simpl; lia). apply (reached_one _ _ _ R).
    - rewrite (SK 1) by (simpl; lia). apply (i_t0 _ _ _ I). }
  assert (SI : SInv (next h) GV GD NC sm1 sm2 Sm0 h g).
  { constructor.
    - exact Slt.
    - intros v <- [[_ A]|A]; [congruence|]. lia.
    - intros v Hv. destruct (c_items (cells h v)) as [|o l] eqn:Ei; auto. right.
      destruct (Sing v Hv) as (o' & i & A & _); [rewrite Ei; discriminate|]. rewrite <- Ei, A. eauto.
    - intros v <-. apply (exp_ne h st tc I). exact e_exp.
    - exact Known.
    - intros v Hv. split; [now right|]. now apply low_plain.
    - split; [simpl; lia|]. apply (reached_one _ _ _ R).
    - split; [simpl; lia|]. apply (i_t0 _ _ _ I).
    - exact (b_leaf _ _ (rdy_b _ _ _ Rd)).
    - exact (rdy_par _ _ _ Rd).
    - destruct init_rank as (rank & Rk). exists rank. intros v o w Hv Ho Hw. apply Rk.
      + apply Own; auto. intros X; rewrite X in Ho; destruct Ho.
      + exists o. auto.
    - auto.
    - intros id _. apply (i_memo _ _ _ I).
    - intros id s E. destruct (Node id s E) as (v & o & Hv & Hr & Ei & Ef).
      assert (Hid : In id (node_ids G v)) by (eapply node_in; eauto).
      destruct (i_ids _ _ _ I v id Hid) as (A & B & C).
      assert (Ho : In o (c_items (cells h v))) by (rewrite Ei; simpl; auto).
      split.
      + intros [[D _]|D]; [|lia]. destruct (reach_user h st tc I e id e_val D) as [[_ X]|[X|(p & X & P & _)]].
        * apply val_dom in X. congruence.
        * lia.
        * apply (C p P). auto.
      + split; [intros X; cbn in X; subst id; destruct e_exp; congruence|]. split; [lia|]. split.
        * apply (find_sub (known g)) with (id := id) (o := o); auto; [simpl; tauto|simpl; tauto|eapply Known; eauto].
        * apply (find_sub built) with (id := id) (o := o); auto; [simpl; tauto|simpl; tauto|eapply Bt; eauto].
    - intros v o Hv _. left. now apply Slt.
    - intros v o Hv Ho. destruct (InR v o Hv Ho). now apply Hgv.
    - intros v o Hv Ho. destruct (InR v o Hv Ho). now apply Hgd.
    - intros id t. rewrite (i_memo _ _ _ I). discriminate.
    - intros id x t. rewrite (i_memo _ _ _ I). intros [].
    - intros id s t _. rewrite (i_memo _ _ _ I). discriminate.
    - intros id s x t _. rewrite (i_memo _ _ _ I). intros [].
    - intros v t _. rewrite (i_memo _ _ _ I). discriminate.
    - intros v _ _. now rewrite (i_memo _ _ _ I).
    - intros v x t _ _. rewrite (i_memo _ _ _ I). intros [].
    - intros nc v o Hv Ho. destruct (InR v o Hv Ho). eapply Hnice; eauto.
    - intros nc id s E. destruct (Node id s E) as (v & o & Hv & Hr & Ei & Ef).
      apply (find_sub niceo) with (id := id) (o := o); auto; [simpl; tauto|simpl; tauto|]. eapply Hnice; eauto.
    - exact Sm.
    - intros nc W SW HW id s E. destruct (Node id s E) as (v & o & Hv & Hr & Ei & Ef).
      apply (find_sub (smo sm1 sm2 W)) with (id := id) (o := o); auto; [simpl; tauto|simpl; tauto|].
      eapply Sm; eauto. rewrite Ei; simpl; auto.
    - exists pb. exact Hpb.
    - intros v Hv. left. exact Hv.
    - intros v o Hv Ho. destruct (InR v o Hv Ho) as [_ Ei]. pose proof (i_nodup _ _ _ I v) as ND.
      unfold node_ids, items, graph_of in ND. cbn [snd] in ND. rewrite Ei in ND. simpl in ND. now rewrite app_nil_r in ND.
    - intros v w o o' k Hv Hw Hvw Ho Ho' Hk Hk'. apply (i_disj _ _ _ I v w k Hvw); apply in_flat_map; eauto.
    - intros v o p Hv Ho Hp. destruct (item_of h st tc I v o Ho) as (l & i & E & Hi & Ri & Ki).
      assert (X : is_par st p).
      { eapply item_ok_pars; [exact Ki|]. destruct Ri; simpl in *; try contradiction. eapply rep_parids; eauto. }
      destruct X as [y X]. split; [split; [now apply Slt|apply (i_dom _ _ _ I); congruence]|].
      destruct (gN g p) as [s|] eqn:Es; auto. exfalso. destruct (Node p s Es) as (u & o' & _ & _ & Ei & Ef).
      assert (Hid : In p (node_ids G u)) by (eapply node_in; eauto). apply (i_ids _ _ _ I) in Hid. destruct Hid as (_ & A & _). congruence. }
  split; [|split; [reflexivity|split; [reflexivity|]]].
  2:{ intros id s E. destruct (Node id s E) as (v & o & _ & _ & Ei & Ef). eapply (i_ids _ _ _ I v). eapply node_in; eauto. }
  split; [exact SI|]. split; [reflexivity|]. split; [apply Rd|].
  intros v [[A _]|A] Hn; [contradiction|]. apply (i_plain _ _ _ I). now apply low_plain.
Qed.
End Init.
