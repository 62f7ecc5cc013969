(** * Sessions: queries and symbolic differentiation of the newest derivative (lemmas for C13, C15) *)

From Coq Require Import List Arith Bool Lia Ring.
From Verif Require Import Num ScalarModel ScalarSpec ScalarReset ScalarEval ScalarTerm ScalarApi ScalarHist ScalarUser ScalarBuild
  ScalarFacts ScalarMore ScalarSym SymForm SymOk SymInit.
Import ListNotations.
Open Scope num_scope.

Section Sess.
Context {T : Type} {N : Num T}.
Hypotheses (L : NumLaws N) (DL : DivLaws N).
Notation heap := (heap T). Notation op := (op T). Notation store := (store (T := T)). Notation item := (item (T := T)).
Notation cmd := (cmd (T := T)). Notation out := (out (T := T)).
Variable lr : form (T := T) -> bool.
Variables (h0 : heap) (st : store) (tc : nat -> Prop) (e : nat).
Hypothesis R : reached h0 st tc.
Hypothesis Q : query_ok st tc e.
Hypothesis NoRec : forall v, ureach st e v -> ~ udep st v v.
Hypothesis Built : forall v l t, ureach st e v -> st v = Some (OExp l) -> In (ITerm t) l -> tbuilt t.
Let I : Inv h0 st tc := reached_inv _ _ _ R.
Notation S0 := (next h0).
Variables GV GD : nat -> Prop.
Variable NC : Prop.
Hypothesis HG : forall v, S0 <= v -> GV v \/ GD v -> NC.
Hypothesis HNC : NC -> forall v, GV v /\ GD v.
Variable sm1 : uop T -> T -> Prop.
Variable sm2 : bop T -> T -> T -> Prop.
Variable Sm0 : (nat -> T) -> Prop.
Hypothesis Hsm : forall u, sm1 (UProdC n1) u.
Hypothesis HsV1 : forall k f u d, nice1 k -> sm1 k u -> sym_val1 k = Some f -> fsm sm1 sm2 (fun _ => u) d f.
Hypothesis HsD1 : forall k f u d, nice1 k -> sm1 k u -> sym_der1 k = Some f -> fsm sm1 sm2 (fun _ => u) d f.
Hypothesis HsV2 : forall k f e d, nice2 k -> sm2 k (e SL) (e SR) -> sym_val2 k = Some f -> fsm sm1 sm2 e d f.
Hypothesis HsD2 : forall k f e d, nice2 k -> sm2 k (e SL) (e SR) -> sym_der2 k = Some f -> fsm sm1 sm2 e d f.
Hypothesis Hgv : forall v o, reach (graph_of h0) e v -> c_items (cells h0 v) = [o] -> GV v -> gv GV o.
Hypothesis Hgd : forall v o, reach (graph_of h0) e v -> c_items (cells h0 v) = [o] -> GD v -> gd GV GD o.
Hypothesis Hnice : NC -> forall v o, reach (graph_of h0) e v -> c_items (cells h0 v) = [o] -> niceo o.
Hypothesis Hsmo : NC -> forall W, Sm0 W -> (forall v o, reach (graph_of h0) e v -> v <> e -> c_items (cells h0 v) = [o] -> W v = sem W o) ->
  W 0 = n1 -> W 1 = n0 -> forall v o, reach (graph_of h0) e v -> c_items (cells h0 v) = [o] -> smo sm1 sm2 W o.
Notation liv := (live S0 GV GD NC sm1 sm2 Sm0).
Notation SIv := (SInv S0 GV GD NC sm1 sm2 Sm0).

Record sess (h : heap) (g : ghost (T := T)) (r : nat) (st' : store) : Prop := {
  se_live : liv h g r;
  se_items : forall v, v < S0 -> c_items (cells h v) = c_items (cells h0 v);
  se_P : forall v, v < S0 -> (gP g v <-> inP h0 e v);
  se_N : forall id s, gN g id = Some s -> id < S0 -> st id = None;
  se_r : r = e \/ S0 <= r;
  se_alike : ScalarMore.alike st st';
  se_var : forall v x, st' v = Some (OVar x) -> c_base (cells h v) = x;
  se_par : forall p x, st' p = Some (OPar x) -> c_base (cells h (S p)) = x
}.

Lemma sess_init : exists g, sess h0 g e st.
Proof.
  destruct (init_live h0 st tc e R Q NoRec Built GV GD NC sm1 sm2 Sm0 Hgv Hgd Hnice Hsmo) as (g & A & B & _ & D).
  exists g. constructor; auto.
  - eauto.
  - apply ScalarMore.alike_refl.
  - apply (i_var _ _ _ I).
  - intros p x E. apply (i_par _ _ _ I p x E).
Qed.

Lemma var_low v : is_var st v -> 2 <= v < S0 /\ c_items (cells h0 v) = [].
Proof.
  intros [x E]. split; [apply (i_dom _ _ _ I); congruence|]. apply (i_none _ _ _ I). intros [l X]. congruence.
Qed.
Lemma par_low p : is_par st p -> 2 <= p /\ S p < S0 /\ c_items (cells h0 (S p)) = [].
Proof.
  intros [x E]. destruct (i_par _ _ _ I p x E) as (_ & A & B). split; [apply (i_dom _ _ _ I); congruence|].
  split; auto. apply (i_none _ _ _ I). intros [l X]. congruence.
Qed.
Lemma notK h g r st' v : sess h g r st' -> 2 <= v < S0 -> ~ gK g v.
Proof. intros S Hv Kv. destruct (s_Kb _ _ _ _ _ _ _ _ _ (proj1 (se_live _ _ _ _ S)) v Kv); lia. Qed.
Lemma root_item h g r st' : sess h g r st' -> exists o, c_items (cells h r) = [o].
Proof.
  intros S. destruct (se_live _ _ _ _ S) as (A & B & _). destruct (s_one _ _ _ _ _ _ _ _ _ A r (or_intror B)) as [X|X]; auto.
  now apply (s_Rne _ _ _ _ _ _ _ _ _ A) in X.
Qed.

(** W gives plain objects their current number. *)
Definition based (h : heap) (g : ghost (T := T)) (W : nat -> T) : Prop :=
  forall v, gP g v -> c_items (cells h v) = [] -> W v = c_base (cells h v).
Lemma based_exists h g r st' : sess h g r st' -> exists W, sol h g W /\ based h g W /\ plugs st' W /\ W 0 = n1 /\ W 1 = n0.
Proof.
  intros S. pose proof (proj1 (se_live _ _ _ _ S)) as SI.
  destruct (sol_exists S0 GV GD NC sm1 sm2 Sm0 h g SI) as (f & Hf).
  destruct (Hf (fun v => c_base (cells h v))) as [A B]; auto.
  exists (wsol h (fun v => c_base (cells h v)) f). split; auto. split; [intros v _; auto|]. split.
  - split.
    + intros v x E. assert (is_var st v) by (apply (alike_var st'); [apply ScalarMore.alike_sym, (se_alike _ _ _ _ S)|exists x; auto]).
      destruct (var_low v H) as [C D]. rewrite B; [now apply (se_var _ _ _ _ S)|]. now rewrite (se_items _ _ _ _ S).
    + intros p x E. assert (is_par st p) by (apply (alike_par st'); [apply ScalarMore.alike_sym, (se_alike _ _ _ _ S)|exists x; auto]).
      destruct (par_low p H) as (C & D & F). rewrite B; [now apply (se_par _ _ _ _ S)|]. now rewrite (se_items _ _ _ _ S).
  - destruct A as [_ A]. split; rewrite A.
    + apply (s_t1 _ _ _ _ _ _ _ _ _ SI).
    + apply (s_t1 _ _ _ _ _ _ _ _ _ SI).
    + apply (s_t0 _ _ _ _ _ _ _ _ _ SI).
    + apply (s_t0 _ _ _ _ _ _ _ _ _ SI).
Qed.

(** What a command on the root r answers. *)
Definition reply (h : heap) (g : ghost (T := T)) (r : nat) (c : cmd) (o : out) : Prop :=
  match c with
  | CSet _ _ | CSetPar _ _ => o = ONone
  | CEval _ => forall W b, sol h g W -> based h g W -> c_items (cells h r) = [b] -> o = ONums [sem W b]
  | CDevalF _ z => forall W D b, sol h g W -> based h g W -> dsol h g z W D -> c_items (cells h r) = [b] ->
      o = ONums [if Nat.eqb r z then n1 else dsem W D b]
  | CGrad _ zs => exists ys, o = ONums ys /\ length ys = length zs /\
      forall W b, sol h g W -> based h g W -> c_items (cells h r) = [b] ->
      (forall v b', gP g v \/ gR g v -> In b' (c_items (cells h v)) -> div_ok W b') ->
      forall i z D, nth_error zs i = Some z -> is_var st z -> dsol h g z W D -> nth_error ys i = Some (dsem W D b)
  | _ => False
  end.

Lemma div_ok_ext W W' (o : op) : (forall w, In w (leaves o) -> W w = W' w) -> div_ok W o -> div_ok W' o.
Proof.
  induction o as [v|p tv|k id a IH|k id l IHl r IHr]; simpl; auto.
  intros H (A & B & C). split; [apply IHl; auto; intros; apply H; apply in_or_app; auto|].
  split; [apply IHr; auto; intros; apply H; apply in_or_app; auto|].
  destruct k; auto. rewrite <- (sem_ext W W'); auto. intros; apply H; apply in_or_app; auto.
Qed.

Lemma sess_ids h g r st' : sess h g r st' -> unique_ids (graph_of h) r.
Proof.
  intros S. destruct (se_live _ _ _ _ S) as (SI & Hr & _).
  assert (Own : forall v, reach (graph_of h) r v -> gP g v \/ gR g v).
  { intros v Hv. destruct (root_reach S0 GV GD NC sm1 sm2 Sm0 h g r v SI Hr Hv) as [->|]; auto. }
  assert (Nd : forall v k, reach (graph_of h) r v -> In k (node_ids (graph_of h) v) -> exists o s, In o (c_items (cells h v)) /\ In k (opids o) /\ gN g k = Some s).
  { intros v k Hv Hk. apply in_flat_map in Hk. destruct Hk as (o & A & B). unfold items, graph_of in A. cbn [snd] in A.
    destruct (known_ids g o (s_known _ _ _ _ _ _ _ _ _ SI v o (Own v Hv) A) k B) as (s & Es). exists o, s. auto. }
  split; [|split].
  - intros v Hv. unfold node_ids, items, graph_of. cbn [snd].
    destruct (s_one _ _ _ _ _ _ _ _ _ SI v (Own v Hv)) as [E|[o E]]; rewrite E; simpl; [constructor|].
    rewrite app_nil_r. apply (s_nd _ _ _ _ _ _ _ _ _ SI v o (Own v Hv)). rewrite E. simpl; auto.
  - intros v w k Hv Hw Hn Hk Hk'. destruct (Nd v k Hv Hk) as (o & s & A & B & _). destruct (Nd w k Hw Hk') as (o' & s' & A' & B' & _).
    exact (s_dj _ _ _ _ _ _ _ _ _ SI v w o o' k (Own v Hv) (Own w Hw) Hn A A' B B').
  - intros v w k o Hv Hw Hk Ho Hr'. destruct (Nd v k Hv Hk) as (_ & s & _ & _ & Es).
    destruct (s_N _ _ _ _ _ _ _ _ _ SI k s Es) as (NP & _). unfold items, graph_of in Ho. cbn [snd] in Ho.
    assert (X : In k (leaves o) \/ In k (parids o)).
    { clear - Hr'. induction o as [u|p tv|kk id a IH|kk id l IHl r0 IHr]; simpl in *; auto.
      apply in_app_or in Hr'. destruct Hr' as [X|X]; [apply IHl in X|apply IHr in X]; destruct X; [left|right|left|right]; apply in_or_app; auto. }
    destruct X as [X|X].
    + apply NP. eapply known_P; [eapply (s_known _ _ _ _ _ _ _ _ _ SI w o (Own w Hw) Ho)|auto].
    + destruct (s_pid _ _ _ _ _ _ _ _ _ SI w o k (Own w Hw) Ho X) as (_ & Y). congruence.
Qed.
Lemma sess_target h g r st' z : sess h g r st' -> is_var st z -> rev_target (graph_of h) r z.
Proof.
  intros S Hz. destruct (se_live _ _ _ _ S) as (SI & Hr & _). destruct (var_low z Hz) as [Lz Pz].
  assert (Own : forall v, reach (graph_of h) r v -> gP g v \/ gR g v).
  { intros v Hv. destruct (root_reach S0 GV GD NC sm1 sm2 Sm0 h g r v SI Hr Hv) as [->|]; auto. }
  split; [split; [|split]|split]; unfold node_ids, items, graph_of; cbn [snd].
  - intros v Hv Hk. apply in_flat_map in Hk. destruct Hk as (o & A & B).
    destruct (known_ids g o (s_known _ _ _ _ _ _ _ _ _ SI v o (Own v Hv) A) z B) as (s & Es).
    apply (se_N _ _ _ _ S) in Es; [|lia]. destruct Hz; congruence.
  - intros v o Hv Ho Hp. destruct (s_pid _ _ _ _ _ _ _ _ _ SI v o z (Own v Hv) Ho Hp) as ((Lv & _) & _).
    rewrite (se_items _ _ _ _ S) in Ho by auto. destruct (item_of h0 st tc I v o Ho) as (l & i & E & Hi & Ri & Ki).
    assert (X : In z (ipars i)) by (destruct Ri; simpl in *; try contradiction; eapply rep_parids; eauto).
    apply (par_not_val st z); [eapply item_ok_pars; eauto|left; auto].
  - intros v Hv Ho. destruct (s_item _ _ _ _ _ _ _ _ _ SI v _ (Own v Hv) Ho) as [Lv|(k & id & a & X & _)]; [|discriminate X].
    rewrite (se_items _ _ _ _ S) in Ho by auto. destruct (item_of h0 st tc I v _ Ho) as (l & i & E & Hi & Ri & Ki).
    inversion Ri; subst.
    + simpl in Ki. destruct Ki, Hz; congruence.
    + lia.
  - intros ->. destruct (se_r _ _ _ _ S) as [->|X]; [|lia]. destruct Hz, (proj1 Q); congruence.
  - intros o Ho. rewrite (se_items _ _ _ _ S), Pz in Ho by lia. destruct Ho.
Qed.

(** An answer computed from the graph is the answer of the session. *)
Lemma reply_eval h g r st' y : sess h g r st' -> answer (graph_of h) r QEval [y] -> reply h g r (CEval r) (ONums [y]).
Proof.
  intros S An W b SW BW Eb. destruct (se_live _ _ _ _ S) as (SI & Hr & _). cbn [answer] in An.
  rewrite (An _ (root_values S0 GV GD NC sm1 sm2 Sm0 h g r b W SI Hr Eb SW BW)). now rewrite at_same.
Qed.
Lemma reply_devalF h g r st' z y : sess h g r st' -> answer (graph_of h) r (QDevalF z) [y] -> reply h g r (CDevalF r z) (ONums [y]).
Proof.
  intros S An W D b SW BW SD Eb. destruct (se_live _ _ _ _ S) as (SI & Hr & _). cbn [answer] in An.
  rewrite (An _ _ (root_values S0 GV GD NC sm1 sm2 Sm0 h g r b W SI Hr Eb SW BW) (root_derivs S0 GV GD NC sm1 sm2 Sm0 h g r b z W D SI Hr Eb SW BW SD)).
  now rewrite at_same.
Qed.
Lemma reply_grad h g r st' zs ys : sess h g r st' -> answer (graph_of h) r (QGrad zs) ys -> reply h g r (CGrad r zs) (ONums ys).
Proof.
  intros S An. destruct (se_live _ _ _ _ S) as (SI & Hr & _).
    destruct An as [Len An]. exists ys. split; auto. split; auto.
    intros W b SW BW Eb Dv i z D Hi' Vz SD.
    pose proof (root_values S0 GV GD NC sm1 sm2 Sm0 h g r b W SI Hr Eb SW BW) as V.
    pose proof (root_derivs S0 GV GD NC sm1 sm2 Sm0 h g r b z W D SI Hr Eb SW BW SD) as VD.
    rewrite (An _ L V) with (i := i) (x := z) (D := at_ r (if Nat.eqb r z then n1 else dsem W D b) D); auto.
    + rewrite at_same. destruct (Nat.eqb_spec r z) as [->|]; auto. exfalso.
      pose proof (sess_target h g z st' z S Vz) as (_ & X & _). congruence.
    + intros v Hv. unfold items, base, graph_of. cbn [fst snd].
      assert (Ov : gP g v \/ gR g v) by (destruct (root_reach S0 GV GD NC sm1 sm2 Sm0 h g r v SI Hr Hv) as [->|]; auto).
      destruct (s_one _ _ _ _ _ _ _ _ _ SI v Ov) as [Ei|[o Ei]]; rewrite Ei; cbn [divs_ok]; auto. split; auto.
      assert (Ho : In o (c_items (cells h v))) by (rewrite Ei; simpl; auto).
      apply (div_ok_ext W); [|now apply (Dv v)].
      intros w Hw. assert (Pw : gP g w) by (eapply known_P; [eapply (s_known _ _ _ _ _ _ _ _ _ SI v o Ov Ho)|auto]).
      assert (w <> r) by (intros ->; now apply (s_R _ _ _ _ _ _ _ _ _ SI r Hr)).
      assert (w <> v).
      { intros ->. destruct (s_rank _ _ _ _ _ _ _ _ _ SI) as (rank & Rk). pose proof (Rk v o v Pw Ho Hw). lia. }
      now rewrite !at_other.
    + eapply sess_ids; eauto.
    + eapply sess_target; eauto.
Qed.

Lemma sess_same h h' g r st' : sess h g r st' -> liv h' g r -> (forall v, c_items (cells h' v) = c_items (cells h v)) ->
  (forall v, c_base (cells h' v) = c_base (cells h v)) -> sess h' g r st'.
Proof.
  intros [A B C D E F G H] Lv Hi Hb. constructor; auto.
  - intros v Hv. now rewrite Hi, B.
  - intros v x X. now rewrite Hb, (G v x).
  - intros p x X. now rewrite Hb, (H p x).
Qed.
Lemma sol_same (h h' : heap) g W : (forall v, c_items (cells h' v) = c_items (cells h v)) ->
  (forall v, gK g v -> c_base (cells h' v) = c_base (cells h v)) -> sol h g W <-> sol h' g W.
Proof.
  intros Hi Hb. split; intros [A B]; split.
  - intros v o Pv. rewrite Hi. auto.
  - intros v Kv. rewrite Hb; auto.
  - intros v o Pv. rewrite <- Hi. auto.
  - intros v Kv. rewrite <- Hb; auto.
Qed.

Lemma sess_query pad q h g r st' : sess h g r st' -> match q with QSet _ _ => False | _ => True end ->
  exists o h', run1 (fuel_for pad h) r q h = Some (o, h') /\ sess h' g r st' /\ answer (graph_of h) r q o /\
    (forall v, c_items (cells h' v) = c_items (cells h v)) /\ (forall v, c_base (cells h' v) = c_base (cells h v)).
Proof.
  intros S Hq. pose proof (se_live _ _ _ _ S) as Lv.
  destruct (live_query S0 GV GD NC sm1 sm2 Sm0 (fuel_for pad h) r q h g Lv) as (o & h' & E & Lv' & An & Ge & _).
  { unfold fuel_for. lia. }
  { intros v x ->. contradiction. }
  assert (Ev : forall v, graph_of h v = graph_of h' v) by (intros v; rewrite <- (Ge v); destruct q; [contradiction|auto..]).
  assert (Hi : forall v, c_items (cells h' v) = c_items (cells h v)) by (intros v; specialize (Ev v); unfold graph_of in Ev; congruence).
  assert (Hb : forall v, c_base (cells h' v) = c_base (cells h v)) by (intros v; specialize (Ev v); unfold graph_of in Ev; congruence).
  exists o, h'. split; auto. split; [eapply sess_same; eauto|auto].
Qed.
Lemma sess_set v x h g r st' : sess h g r st' -> 2 <= v < S0 -> c_items (cells h0 v) = [] ->
  liv (SetVar v x h) g r /\ (forall w, c_items (cells (SetVar v x h) w) = c_items (cells h w)) /\
  (forall w, c_base (cells (SetVar v x h) w) = if Nat.eqb w v then x else c_base (cells h w)).
Proof.
  intros S Lv Pv. assert (Pv' : c_items (cells h v) = []) by (now rewrite (se_items _ _ _ _ S)).
  destruct (live_query S0 GV GD NC sm1 sm2 Sm0 (depth (next h)) r (QSet v x) h g (se_live _ _ _ _ S)) as (o & h' & E & Lv' & _ & Ge & _); auto.
  { intros w y X. injection X as <- <-. split; auto. eapply notK; eauto. }
  cbn [run1] in E. injection E as _ <-. split; auto.
  assert (Ev : forall w, graph_of (SetVar v x h) w = gset v x (graph_of h) w) by apply SetVar_graph.
  split; intros w; pose proof (Ev w) as X; unfold graph_of, gset, at_ in X; destruct (Nat.eqb_spec w v) as [Hw|Hw]; try rewrite Hw in *; congruence.
Qed.

Lemma sess_cmd pad c h g r st' : sess h g r st' -> on_root st r c ->
  exists o h', step pad c h = Some (o, h') /\ sess h' g r (uafter st' c o) /\ reply h g r c o /\
    (forall v, c_items (cells h' v) = c_items (cells h v)) /\ (forall W, sol h g W <-> sol h' g W) /\
    (forall v, S0 <= v -> c_base (cells h' v) = c_base (cells h v)).
Proof.
  intros S Hc. destruct (se_live _ _ _ _ S) as (SI & Hr & _).
  destruct c as [x|x| |t|a|a t|a b|v x|p x|r'|r' z|r' zs]; cbn [on_root] in Hc; try contradiction; cbn [step].
  - destruct (var_low v Hc) as [Lv Pv]. destruct (sess_set v x h g r st' S Lv Pv) as (A & B & C).
    exists ONone, (SetVar v x h). split; auto. split; [|split; [reflexivity|split; [auto|split]]].
    + destruct S as [S1 S2 S3 S4 S5 S6 S7 S8]. constructor; auto.
      * intros w Hw. now rewrite B, S2.
      * cbn [uafter]. intros w. specialize (S6 w). unfold put, at_. destruct (Nat.eqb_spec w v) as [->|]; auto. destruct Hc as [y E]. now rewrite E.
      * cbn [uafter]. intros w y E. rewrite C. unfold put, at_ in E. destruct (Nat.eqb_spec w v); [congruence|auto].
      * cbn [uafter]. intros p y E. rewrite C. unfold put, at_ in E. destruct (Nat.eqb_spec p v); [congruence|].
        destruct (Nat.eqb_spec (Datatypes.S p) v) as [<-|]; auto. exfalso.
        assert (Pp : is_par st p) by (apply (alike_par st'); [now apply ScalarMore.alike_sym|exists y; auto]).
        apply (val_not_parvar h0 st tc I (Datatypes.S p) p); auto. left; auto.
    + intros W. apply sol_same; auto. intros w Kw. rewrite C. destruct (Nat.eqb_spec w v) as [->|]; auto. exfalso. eapply notK; eauto.
    + intros w Hw. rewrite C. destruct (Nat.eqb_spec w v); [lia|auto].
  - destruct (par_low p Hc) as (Lp & Lv & Pv). destruct (sess_set (Datatypes.S p) x h g r st' S) as (A & B & C); auto.
    exists ONone, (SetVar (Datatypes.S p) x h). split; auto. split; [|split; [reflexivity|split; [auto|split]]].
    + destruct S as [S1 S2 S3 S4 S5 S6 S7 S8]. constructor; auto.
      * intros w Hw. now rewrite B, S2.
      * cbn [uafter]. intros w. specialize (S6 w). unfold put, at_. destruct (Nat.eqb_spec w p) as [->|]; auto. destruct Hc as [y E]. now rewrite E.
      * cbn [uafter]. intros w y E. rewrite C. unfold put, at_ in E. destruct (Nat.eqb_spec w p); [congruence|].
        destruct (Nat.eqb_spec w (Datatypes.S p)) as [->|]; auto. exfalso.
        assert (Pp : is_var st (Datatypes.S p)) by (apply (alike_var st'); [now apply ScalarMore.alike_sym|exists y; auto]).
        apply (val_not_parvar h0 st tc I (Datatypes.S p) p); auto. left; auto.
      * cbn [uafter]. intros p' y E. rewrite C. unfold put, at_ in E. destruct (Nat.eqb_spec p' p) as [->|].
        -- rewrite Nat.eqb_refl. congruence.
        -- destruct (Nat.eqb_spec (Datatypes.S p') (Datatypes.S p)); [lia|auto].
    + intros W. apply sol_same; auto. intros w Kw. rewrite C. destruct (Nat.eqb_spec w (Datatypes.S p)) as [->|]; auto. exfalso.
      eapply notK; eauto.
    + intros w Hw. rewrite C. destruct (Nat.eqb_spec w (Datatypes.S p)); [lia|auto].
  - subst r'. destruct (sess_query pad QEval h g r st' S Logic.I) as (o & h' & E & S' & An & Hi & Hb). cbn [run1] in E.
    destruct (Eval (fuel_for pad h) r h) as [[y h1]|]; [|discriminate]. injection E as <- <-.
    exists (ONums [y]), h1. split; auto. split; auto. split; [|split; [auto|split; [intros W; apply sol_same; auto|auto]]].
    now apply reply_eval with (st' := st').
  - destruct Hc as [-> Hz]. destruct (sess_query pad (QDevalF z) h g r st' S Logic.I) as (o & h' & E & S' & An & Hi & Hb). cbn [run1] in E.
    destruct (DevalF (fuel_for pad h) r z h) as [[y h1]|]; [|discriminate]. injection E as <- <-.
    exists (ONums [y]), h1. split; auto. split; auto. split; [|split; [auto|split; [intros W; apply sol_same; auto|auto]]].
    now apply reply_devalF with (st' := st').
  - destruct Hc as [-> Hz]. destruct (sess_query pad (QGrad zs) h g r st' S Logic.I) as (o & h' & E & S' & An & Hi & Hb). cbn [run1] in E.
    destruct (PreComp (fuel_for pad h) r h) as [h1|]; [|discriminate]. destruct (reads r zs h1) as [ys h2]. injection E as <- <-.
    exists (ONums ys), h2. split; auto. split; auto. split; [|split; [auto|split; [intros W; apply sol_same; auto|auto]]].
    now apply reply_grad with (st' := st').
Qed.

Lemma sess_diff fuel x h g r st' : sess h g r st' -> depth (S (S (next h))) <= fuel ->
  exists d h' g', SymDiff lr fuel r x h = Some (d, h') /\ sess h' g' d st' /\ later h g h' g' /\ next h < d /\
    exists o o', c_items (cells h r) = [o] /\ c_items (cells h' d) = [o'] /\
      (GD r -> forall W D, sol h' g' W -> dsol h' g' x W D -> sem W o' = if Nat.eqb r x then n1 else dsem W D o).
Proof.
  intros S Hf.
  destruct (SymDiff_ok L DL lr S0 GV GD NC HG HNC sm1 sm2 Sm0 Hsm HsV1 HsD1 HsV2 HsD2 fuel r x h g (se_live _ _ _ _ S) Hf)
    as (d & h' & g' & E & Lv & La & Hd & X).
  exists d, h', g'. split; auto. split; [|auto].
  pose proof (s_S0 _ _ _ _ _ _ _ _ _ (proj1 (se_live _ _ _ _ S))) as H0.
  destruct S as [S1 S2 S3 S4 S5 S6 S7 S8]. constructor; auto.
  - intros v Hv. rewrite (l_items _ _ _ _ La) by lia. auto.
  - intros v Hv. rewrite <- S3 by auto. split; [apply (l_dec _ _ _ _ La); lia|apply (l_P _ _ _ _ La)].
  - intros id s Es Hid. apply (S4 id s); auto. apply (l_Ndec _ _ _ _ La); auto. lia.
  - right. lia.
  - intros v y Ey. assert (is_var st v) by (apply (alike_var st'); [now apply ScalarMore.alike_sym|exists y; auto]).
    destruct (var_low v H). rewrite (l_base _ _ _ _ La) by lia. auto.
  - intros p y Ey. assert (is_par st p) by (apply (alike_par st'); [now apply ScalarMore.alike_sym|exists y; auto]).
    destruct (par_low p H) as (_ & ? & _). rewrite (l_base _ _ _ _ La) by lia. auto.
Qed.
End Sess.
