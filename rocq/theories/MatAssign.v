(** * Assigning a new expression to a named matrix

    F = expr for a Matrix<Expression> F that does not occur in expr (Matrix.hpp:205-237):
    the old items are forgotten, the buffers of F's old result and derivative are given back,
    and F evaluates the new expression from now on.  F's visited mark and its pointers to the
    old result matrices stay (Matrix.hpp:216-226 does not touch them).

    Simplification: the operator nodes of the old expression cannot be reached any more, so
    their slots are dropped here; the program keeps them until exit. *)

From Coq Require Import List Arith Bool Lia.
From Verif Require Import Num MatMem Kernels KernelFacts KernelProofs KernelBlocks KernelMore Registry KernelStep Backend Slots Exec ConvProofs MatEngine MatGraph MatLeaf MatEval MatDeval MatHist MatSpec MatCalls.
Import ListNotations.
Set Implicit Arguments.
Unset Strict Implicit.

Section Model.
Context {T : Type} {N : Num T}.
Notation st := (st (T := T)).
Variable G : graph T.

(** deallocator() of the matrix r points to: its buffer becomes null; nothing happens for a null r
    (Matrix.hpp:218-223). *)
Definition give_back (r : option ptr) (m : mem T) : mem T :=
  match r with Some p => MkMem (list_set (objs m) p None) (next m) (junk m) (specials m) | None => m end.
(** mp_result and mp_dresult of a matrix: of a named expression they alias a slot of its item. *)
Definition mp_result (F : obj) (s : st) : option ptr :=
  match g_kind G F with KExp _ _ _ => f_res (fl s F) | _ => ar s (ORes F) end.
Definition mp_dresult (F : obj) (s : st) : option ptr :=
  match g_kind G F with KExp _ _ _ => f_dres (fl s F) | _ => ar s (ODres F) end.
(** The slots of F and of the operators of its old expression. *)
Definition owned (F : obj) (w : owner) : bool :=
  match w with
  | ORes o | ODres o => o =? F
  | ONode i _ => match g_kind G F with KExp id e y => existsb (Nat.eqb i) (nodes (item id e y)) | _ => false end
  end.
(** F = e, Matrix.hpp:205-231: what happens to the state ... *)
Definition assign_exp (F : obj) (s : st) : st :=
  St (give_back (mp_dresult F s) (give_back (mp_result F s) (mm s)))
     (fun w => if owned F w then None else ar s w)
     (fun o => if o =? F then Fl (f_vis (fl s F)) false false (mp_result F s) (mp_dresult F s) else fl s o).
(** ... and to the objects, Matrix.hpp:214-215 and 231: F now holds e * Eye(columns of e), as node
    number id, and has the dimensions of e. *)
Definition assign_graph (F : obj) (id : nat) (e : mexp T) (y : obj) : graph T :=
  Graph (fun o => if o =? F then KExp id e y else g_kind G o)
        (fun o => if o =? F then rows G e else g_rows G o)
        (fun o => if o =? F then cols G e else g_cols G o)
        (g_nidx G) (g_vid G).
(** F is a Matrix<Expression> (the static_assert in Matrix.hpp:208). *)
Definition is_expression (F : obj) : Prop := match g_kind G F with LEnt | KExp _ _ _ => True | _ => False end.
End Model.

Section Proofs.
Context {T : Type} {N : Num T}.
Notation st := (st (T := T)).
Implicit Types (s : st) (e : mexp T) (G : graph T).

Lemma get_back_same (m : mem T) p : p < length (objs m) -> get (give_back (Some p) m) p = None.
Proof. intros H. unfold get, give_back. simpl. now rewrite nth_list_set_eq. Qed.
Lemma get_back_other (m : mem T) r q : r <> Some q -> get (give_back r m) q = get m q.
Proof. intros H. destruct r as [p|]; [|reflexivity]. unfold get, give_back. simpl. rewrite nth_list_set_neq; congruence. Qed.
Lemma get_back_none (m : mem T) r q : get m q = None -> get (give_back r m) q = None.
Proof.
  intros H. destruct r as [p|]; [|exact H]. destruct (Nat.eq_dec p q) as [->|Ne]; [|rewrite get_back_other; congruence].
  destruct (Nat.lt_ge_cases q (length (objs m))) as [L|L]; [now apply get_back_same|]. apply get_out. simpl. now rewrite length_list_set.
Qed.
Lemma get_back_sub (m : mem T) r q o : get (give_back r m) q = Some o -> get m q = Some o.
Proof. intros H. destruct (get m q) as [o'|] eqn:E; [|now rewrite (get_back_none r E) in H]. rewrite <- H, <- E. symmetry. apply get_back_other. intros ->. rewrite get_back_same in H; [discriminate|exact (get_lt E)]. Qed.
Lemma specials_back (m : mem T) r : specials (give_back r m) = specials m.
Proof. destruct r; reflexivity. Qed.
Lemma special_back (m : mem T) r q : is_special (give_back r m) q <-> is_special m q.
Proof. unfold is_special. now rewrite specials_back. Qed.
Lemma next_back (m : mem T) r : next (give_back r m) = next m.
Proof. destruct r; reflexivity. Qed.
Lemma length_back (m : mem T) r : length (objs (give_back r m)) = length (objs m).
Proof. destruct r; simpl; auto using length_list_set. Qed.

Lemma tame_back (m : mem T) r : tame m -> (forall p, r = Some p -> ~ is_special m p) -> tame (give_back r m).
Proof.
  intros (Gd & (Sp1 & Sp2) & Rg) Ns. split; [|split; [split|]].
  - intros p o H. apply get_back_sub in H. rewrite next_back. exact (Gd _ _ H).
  - intros p o H. apply get_back_sub in H. rewrite next_back. exact (Sp1 _ _ H).
  - intros p q o o' H H'. apply get_back_sub in H, H'. exact (Sp2 _ _ _ _ H H').
  - intros k sp R C p Hin. rewrite specials_back in Hin. destruct (Rg _ _ _ _ _ Hin) as [(o & Ho) Hh].
    assert (E : get (give_back r m) p = get m p).
    { apply get_back_other. intros ->. apply (Ns p eq_refl). eexists. exact Hin. }
    split; [exists o; now rewrite E|]. intros Rl. eapply holds_frame; [exact E|auto].
Qed.

(** ** Who points to the results of named expressions *)
(** The result and the derivative a named expression points to belong to its own operators, and
    to no one else. *)
Definition Own G s : Prop := forall o id e y p, g_kind G o = KExp id e y -> f_res (fl s o) = Some p \/ f_dres (fl s o) = Some p ->
  p < length (objs (mm s)) /\ ~ is_special (mm s) p /\
  forall w, ar s w = Some p -> exists i k, w = ONode i k /\ In i (nodes (item id e y)).
Lemma Own_init G (m : mem T) : Own G (init m).
Proof. intros o id e y p _ [H|H]; discriminate. Qed.

(** All of them lie at or above b. *)
Definition above (b : nat) G s : Prop := (forall w q, ar s w = Some q -> b <= q) /\
  forall o id e y p, g_kind G o = KExp id e y -> f_res (fl s o) = Some p \/ f_dres (fl s o) = Some p -> b <= p.

Section Kept.
Variable G : graph T.
Lemma Own_keep s s' : Own G s -> grew s s' ->
  (forall o id e y p, g_kind G o = KExp id e y -> f_res (fl s' o) = Some p ->
     f_res (fl s o) = Some p \/ (ar s' (ONode id 0) = Some p)) ->
  (forall o id e y p, g_kind G o = KExp id e y -> f_dres (fl s' o) = Some p ->
     f_dres (fl s o) = Some p \/ (ar s' (ONode id 1) = Some p)) ->
  slots (mm s') (ar s') none -> Own G s' /\ forall b, b <= length (objs (mm s)) -> above b G s -> above b G s'.
Proof.
  intros H (L & Fr & Sp & _) H1 H2 Sl. split.
  2: { intros b Hb [A1 A2]. assert (A3 : forall w q, ar s' w = Some q -> b <= q) by (intros w q Hw; destruct (Fr _ _ Hw) as [E|E]; [eauto|lia]).
    split; [exact A3|]. intros o id e y p Hk [Hp|Hp]; [destruct (H1 _ _ _ _ _ Hk Hp)|destruct (H2 _ _ _ _ _ Hk Hp)]; eauto. }
  intros o id e y p Hk Hp.
  assert (Q : (f_res (fl s o) = Some p \/ f_dres (fl s o) = Some p) \/ exists k, ar s' (ONode id k) = Some p).
  { destruct Hp as [Hp|Hp]; [destruct (H1 _ _ _ _ _ Hk Hp)|destruct (H2 _ _ _ _ _ Hk Hp)]; eauto. }
  destruct Q as [Q|(k & Q)].
  - destruct (H _ _ _ _ _ Hk Q) as (Lp & Np & Wp). split; [lia|]. split; [intros Sp'; apply Np; auto|].
    intros w Hw. destruct (Fr _ _ Hw) as [E|E]; [auto|lia].
  - destruct (sl_slot Sl Q) as ((ob & Ho) & Np & _). split; [exact (get_lt Ho)|]. split; [exact Np|].
    intros w Hw. rewrite (sl_inj Sl Hw Q). exists id, k. split; [reflexivity|]. simpl. auto.
Qed.

Variable S : sched T.
Hypothesis VS : valid_sched S.
Variable B : backend (T := T).
Hypothesis BV : value_ok B.
Hypothesis BK : kron_ok B \/ kron_zeroed_ok B.
Variable host : nat -> option obj.
Variable rank : obj -> nat.
Hypothesis WF : wf_graph G host rank.
Variable rho : env T.

Lemma mval_items e v : mval G rho e v -> forall o id a y, reach G e o -> g_kind G o = KExp id a y -> exists w, mval G rho (item id a y) w.
Proof.
  assert (Sub : forall e v, mval G rho e v -> forall o, In o (leaves e) -> exists w, mval G rho (MLeaf o) w).
  { clear. induction 1 as [o Hl|o id e y v Hk Hv IH|k id l r v w Hl IHl Hr IHr Hd|k id e v He IH Hd]; simpl; intros o' Ho.
    - destruct Ho as [<-|[]]. eexists. now constructor.
    - destruct Ho as [<-|[]]. eexists. eapply mval_exp; eauto.
    - apply in_app_or in Ho. destruct Ho; auto.
    - auto. }
  intros Hv o id a y Ho. revert id a y.
  assert (L : exists w, mval G rho (MLeaf o) w).
  { induction Ho as [o Hin|o id a y o' Ho IH Hk Hin]; [eapply Sub; eauto|]. destruct IH as (w & Hw).
    inversion Hw as [? Hl|? id' e' y' v' Hk' Hi| |]; subst; [unfold is_leaf in Hl; rewrite Hk in Hl; destruct Hl|].
    rewrite Hk in Hk'. injection Hk' as <- <- <-. eapply Sub; eauto. }
  intros id a y Hk. destruct L as (w & Hw).
  inversion Hw as [? Hl|? id' e' y' v' Hk' Hi| |]; subst; [unfold is_leaf in Hl; rewrite Hk in Hl; destruct Hl|].
  rewrite Hk in Hk'. injection Hk' as <- <- <-. eauto.
Qed.
Lemma mder_items x e v dv : mder G rho x e v dv -> forall o id a y, reach G e o -> g_kind G o = KExp id a y ->
  exists w dw, mder G rho x (item id a y) w dw.
Proof.
  assert (Sub : forall e v dv, mder G rho x e v dv -> forall o, In o (leaves e) -> exists w dw, mder G rho x (MLeaf o) w dw).
  { clear. induction 1 as [o Hl|o id e y v dv Hk Hv IH|k id l r v dv w dw Hl IHl Hr IHr Hd|k id e v dv He IH Hd]; simpl; intros o' Ho.
    - destruct Ho as [<-|[]]. eexists _, _. now constructor.
    - destruct Ho as [<-|[]]. eexists _, _. eapply mder_exp; eauto.
    - apply in_app_or in Ho. destruct Ho; auto.
    - auto. }
  intros Hv o id a y Ho. revert id a y.
  assert (L : exists w dw, mder G rho x (MLeaf o) w dw).
  { induction Ho as [o Hin|o id a y o' Ho IH Hk Hin]; [eapply Sub; eauto|]. destruct IH as (w & dw & Hw).
    inversion Hw as [? Hl|? id' e' y' v' dv' Hk' Hi| |]; subst; [unfold is_leaf in Hl; rewrite Hk in Hl; destruct Hl|].
    rewrite Hk in Hk'. injection Hk' as <- <- <-. eapply Sub; eauto. }
  intros id a y Hk. destruct L as (w & dw & Hw).
  inversion Hw as [? Hl|? id' e' y' v' dv' Hk' Hi| |]; subst; [unfold is_leaf in Hl; rewrite Hk in Hl; destruct Hl|].
  rewrite Hk in Hk'. injection Hk' as <- <- <-. eauto.
Qed.

(** Where the results are after Eval and DevalF. *)
Lemma cleared_grew s s' : cleared s s' -> grew s s' /\ (forall o, f_res (fl s' o) = f_res (fl s o) /\ f_dres (fl s' o) = f_dres (fl s o)).
Proof.
  intros (Em & Ea & Ef). split; [now apply grew_same|]. intros o. destruct (Ef o) as [-> |[_ ->]]; auto.
Qed.
Lemma eval_own e s v : Inv G s -> Own G s -> settled G e s -> root host e -> mval G rho e v ->
  exists n p s', (forall f, n <= f -> Eval S B G rho f e s = EOk (p, s')) /\ (Own G s' /\ forall b, b <= length (objs (mm s)) -> above b G s -> above b G s') /\ ar s' (loc G e) = Some p /\ grew s s' /\
    stable G s s' /\ keeps (fun w => match w with ONode _ k => k <> 0 | ODres _ => True | ORes _ => False end) s s'.
Proof.
  intros I Ow Hs Hr Hv. destruct (reset_root WF Hs) as (n0 & s0 & E0 & C0 & H0 & V0).
  pose proof (Inv_cleared I C0) as I0. pose proof (root_pre_with WF rho I0 Hr V0) as P.
  destruct (eval_ok VS BV BK WF (@reach_closed T G e) P Hv) as (n & p & s' & E & Q).
  destruct (cleared_grew C0) as [Gr0 Fe0]. pose proof (grew_trans Gr0 (proj1 (q_frame Q))) as Gr.
  exists (max n0 n), p, s'. split; [|split; [|split; [exact (proj1 (q_at Q))|split; [exact Gr|split]]]].
  - intros f Hf. unfold Eval, ebind. rewrite E0 by lia. apply E. lia.
  - destruct C0 as (Em0 & Ea0 & _). apply (@Own_keep s s'); [exact Ow|exact Gr| | |exact (q_slots Q)].
    + intros o id a y q Hk Hq. destruct (reach_dec WF e o) as [R|R].
      * right. destruct (mval_items Hv R Hk) as (w & Hw). pose proof (q_pi Q (below_reach WF R)) as Qo. rewrite Hk in Qo.
        destruct (Qo (ltac:(clear - R Q WF; induction R as [o Hin|o id a y o' Ho IH Hk Hin]; [exact (q_leaves Q Hin)|exact (q_vc Q (below_reach WF Ho) Hk IH Hin)])) w Hw) as (p' & Ep & At & _).
        congruence.
      * left. rewrite (q_high Q) in Hq by (intros [R' _]; auto). rewrite <- (proj1 (Fe0 o)). exact Hq.
    + intros o id a y q Hk Hq. left. rewrite (proj2 (q_dev Q o)) in Hq. rewrite <- (proj2 (Fe0 o)). exact Hq.
  - eapply stable_trans; [apply stable_same; apply C0|exact (q_sized Q)].
  - split; [exact Gr|]. intros w q Hw Eq. destruct C0 as (Em & Ea & _). rewrite <- Em, <- Ea in *.
    apply (proj2 (q_frame Q)); [|exact Eq]. destruct w; simpl; tauto.
Qed.
Lemma devalF_own (KO : kron_ok B) x e s v dv : g_kind G x = LVar -> distinct_vars G -> Inv G s -> Own G s -> settled G e s -> root host e -> mder G rho x e v dv ->
  exists n p s', (forall f, n <= f -> DevalF S B G rho f e x s = EOk (p, s')) /\ (Own G s' /\ forall b, b <= length (objs (mm s)) -> above b G s -> above b G s') /\ ar s' (dloc G e) = Some p /\ grew s s' /\
    stable G s s' /\ (forall o id a y w, reach G e o -> g_kind G o = KExp id a y -> mval G rho (item id a y) w -> exists q, at_ s' (ONode id 0) q w).
Proof.
  intros Xv DV I Ow Hs Hr Hv. destruct (reset_root WF Hs) as (n0 & s0 & E0 & C0 & H0 & V0).
  pose proof (Inv_cleared I C0) as I0. pose proof (root_pre_with WF rho I0 Hr V0) as P.
  assert (DP : dpre G host rank rho (reach G e) x (dclean G) (top rank e) e s0).
  { constructor; [exact P| |apply I0]. intros o [Ro _]. destruct (LEye_dec G o) as [Hk|Hk].
    - rewrite Hk. intros Nc. exfalso. apply Nc. now right.
    - pose proof (V0 o Ro Hk) as V. destruct (g_kind G o); [| | | |congruence]; intros _ Q; rewrite (inv_fi I0 (or_intror Q)) in V; discriminate. }
  destruct (devalF_ok VS BV KO WF (@reach_closed T G e) (@dclean_same T N G)
    (fun m r o => @dleaf_write T N S VS G rho (wf_pos WF) x Xv DV m r o) DP Hv) as (n & p & s' & E & Q).
  destruct (cleared_grew C0) as [Gr0 Fe0]. pose proof (grew_trans Gr0 (proj1 (r_frame Q))) as Gr.
  assert (Vs : forall o, reach G e o -> f_vis (fl s' o) = true).
  { intros o R. induction R as [o Hin|o id a y o' Ho IH Hk Hin]; [exact (r_leaves Q Hin)|exact (r_vc Q (below_reach WF Ho) Hk IH Hin)]. }
  exists (max n0 n), p, s'. split; [|split; [|split; [exact (proj1 (r_at Q))|split; [exact Gr|split]]]].
  - intros f Hf. unfold DevalF, ebind. rewrite E0 by lia. apply E. lia.
  - destruct C0 as (Em0 & Ea0 & _). apply (@Own_keep s s'); [exact Ow|exact Gr| | |exact (r_slots Q)].
    + intros o id a y q Hk Hq. destruct (reach_dec WF e o) as [R|R].
      * right. destruct (mval_items (mder_val Hv) R Hk) as (w & Hw). pose proof (r_pi Q (below_reach WF R)) as Qo. rewrite Hk in Qo.
        destruct (Qo (Vs _ R) w Hw) as (p' & Ep & At & _). congruence.
      * left. rewrite (r_high Q) in Hq by (intros [R' _]; auto). rewrite <- (proj1 (Fe0 o)). exact Hq.
    + intros o id a y q Hk Hq. destruct (reach_dec WF e o) as [R|R].
      * right. destruct (mder_items Hv R Hk) as (w & dw & Hw). pose proof (r_pd Q (below_reach WF R)) as Qo. rewrite Hk in Qo.
        destruct (Qo (Vs _ R) w dw Hw) as (p' & Ep & At & _). congruence.
      * left. rewrite (r_high Q) in Hq by (intros [R' _]; auto). rewrite <- (proj2 (Fe0 o)). exact Hq.
  - eapply stable_trans; [apply stable_same; apply C0|exact (r_sized Q)].
  - intros o id a y w R Hk Hw. pose proof (r_pi Q (below_reach WF R)) as Qo. rewrite Hk in Qo. destruct (Qo (Vs _ R) w Hw) as (q & _ & At). eauto.
Qed.
End Kept.

(** ** The assignment itself *)
Section Assign.
Variable G : graph T.
Variables (F : obj) (id : nat) (e : mexp T) (y : obj).
Notation G' := (assign_graph G F id e y).
Variable s : st.
Hypothesis I : Inv G s.
Hypothesis Ow : Own G s.
Hypothesis FE : is_expression G F.
Notation s' := (assign_exp G F s).

(** The matrices given back are plain, and only F's own slots point to them. *)
Lemma given p : mp_result G F s = Some p \/ mp_dresult G F s = Some p ->
  p < length (objs (mm s)) /\ ~ is_special (mm s) p /\ forall w, ar s w = Some p -> owned G F w = true.
Proof.
  unfold mp_result, mp_dresult, owned. unfold is_expression in FE. destruct (g_kind G F) as [| | | |i a z] eqn:Ek; try destruct FE.
  - intros Hp. assert (exists w0, (w0 = ORes F \/ w0 = ODres F) /\ ar s w0 = Some p) as (w0 & Hw0 & E0) by (destruct Hp; eauto).
    destruct (sl_slot (inv_slots I) E0) as ((o & Ho) & Ns & _). split; [exact (get_lt Ho)|]. split; [exact Ns|].
    intros w Hw. rewrite (sl_inj (inv_slots I) Hw E0). destruct Hw0 as [-> | ->]; apply Nat.eqb_refl.
  - intros Hp. destruct (Ow Ek Hp) as (L & Ns & Wp). split; [exact L|]. split; [exact Ns|]. intros w Hw. destruct (Wp _ Hw) as (j & k & -> & Hin).
    apply existsb_exists. exists j. split; [exact Hin|apply Nat.eqb_refl].
Qed.
Lemma kept_get w q : ar s w = Some q -> owned G F w = false -> get (mm s') q = get (mm s) q.
Proof.
  intros E Nw. cbn [assign_exp mm]. rewrite !get_back_other; [reflexivity| |];
    intros Q; [destruct (given (or_introl Q)) as (_ & _ & H)|destruct (given (or_intror Q)) as (_ & _ & H)]; rewrite (H _ E) in Nw; discriminate.
Qed.
Lemma other_kind o : o <> F -> g_kind G' o = g_kind G o /\ g_rows G' o = g_rows G o /\ g_cols G' o = g_cols G o.
Proof. intros Ne. cbn [assign_graph g_kind g_rows g_cols]. apply Nat.eqb_neq in Ne. now rewrite Ne. Qed.
Lemma F_kind : g_kind G' F = KExp id e y.
Proof. cbn [assign_graph g_kind]. now rewrite Nat.eqb_refl. Qed.

Theorem assign_Inv : Inv G' s'.
Proof.
  assert (Fo : forall o, o <> F -> fl s' o = fl s o) by (intros o Ne; cbn [assign_exp fl]; apply Nat.eqb_neq in Ne; now rewrite Ne).
  assert (Ar : forall w q, ar s' w = Some q -> ar s w = Some q /\ owned G F w = false).
  { cbn [assign_exp ar]. intros w q. destruct (owned G F w); [discriminate|auto]. }
  constructor.
  - constructor.
    + cbn [assign_exp mm]. apply tame_back; [apply tame_back|].
      * apply (inv_slots I).
      * intros p Hp. apply given. auto.
      * intros p Hp. rewrite special_back. apply given. auto.
    + intros w q E. destruct (Ar _ _ E) as [E' Nw]. destruct (sl_slot (inv_slots I) E') as ((o & Ho) & Ns & _).
      split; [exists o; now rewrite (kept_get E' Nw)|]. split; [|intros []]. cbn [assign_exp mm]. now rewrite !special_back.
    + intros w w' q E E'. eapply (sl_inj (inv_slots I)); [apply (Ar _ _ E)|apply (Ar _ _ E')].
    + intros q [].
  - intros o. destruct (Nat.eq_dec o F) as [->|Ne]; [|rewrite Fo by auto; apply (inv_fi I)].
    cbn [assign_exp fl]. rewrite Nat.eqb_refl. simpl. intros [Q|Q]; discriminate.
  - intros o Hk He. destruct (Nat.eq_dec o F) as [->|Ne]; [rewrite F_kind in Hk; discriminate|].
    destruct (other_kind Ne) as (K1 & K2 & K3). rewrite K1 in Hk. rewrite K2, K3. rewrite Fo in He by auto.
    destruct (inv_eye I Hk He) as (p & Ep & Hp). exists p.
    assert (Nw : owned G F (ORes o) = false) by (simpl; now apply Nat.eqb_neq).
    split; [cbn [assign_exp ar]; now rewrite Nw|]. exact (holds_same (kept_get Ep Nw) Hp).
  - intros o Hl. assert (Ne : o <> F) by (intros ->; unfold is_leaf in Hl; rewrite F_kind in Hl; exact Hl).
    destruct (other_kind Ne) as (K1 & K2 & K3).
    assert (Hl' : is_leaf G o) by (unfold is_leaf in *; now rewrite K1 in Hl).
    pose proof (inv_dc I Hl') as Dc. assert (Nw : owned G F (ODres o) = false) by (simpl; now apply Nat.eqb_neq).
    cbn [assign_exp ar]. rewrite Nw. destruct (ar s (ODres o)) as [q|] eqn:Eq; [|exact Logic.I].
    cbn [dclean] in *. change (mm (St _ _ _)) with (mm s'). rewrite (kept_get Eq Nw). unfold is_const, diagonal in *. rewrite K1, K2, K3. exact Dc.
Qed.
Theorem assign_Own : Own G' s'.
Proof.
  assert (L : length (objs (mm s')) = length (objs (mm s))) by (cbn [assign_exp mm]; now rewrite !length_back).
  intros o i a z p Hk Hp. rewrite L. cbn [assign_exp mm]. rewrite !special_back. destruct (Nat.eq_dec o F) as [->|Ne].
  - cbn [assign_exp fl] in Hp. rewrite Nat.eqb_refl in Hp. cbn [f_res f_dres] in Hp. destruct (given Hp) as (Lp & Ns & Wp).
    split; [exact Lp|]. split; [exact Ns|]. intros w Hw. cbn [ar assign_exp] in Hw. destruct (owned G F w) eqn:Eo; [discriminate|].
    rewrite (Wp _ Hw) in Eo. discriminate.
  - rewrite (proj1 (other_kind Ne)) in Hk. cbn [assign_exp fl] in Hp. apply Nat.eqb_neq in Ne. rewrite Ne in Hp.
    destruct (Ow Hk Hp) as (Lp & Ns & Wp). split; [exact Lp|]. split; [exact Ns|]. intros w Hw. cbn [ar assign_exp] in Hw.
    destruct (owned G F w); [discriminate|auto].
Qed.
End Assign.
End Proofs.
