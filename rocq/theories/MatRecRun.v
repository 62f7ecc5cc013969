(** * Eval, DevalF and reset of a matrix with several items follow the parts of its chain *)
From Coq Require Import List Arith Bool Lia.
From Verif Require Import Num MatMem Kernels KernelFacts Registry KernelStep Backend Slots Exec MatEngine MatGraph MatLeaf MatEval MatDeval MatHist MatSpec MatRec MatRecSim MatRecOk.
Import ListNotations.
Set Implicit Arguments.
Unset Strict Implicit.
Local Open Scope nat_scope.

(** ** More fuel does not change an outcome *)
Section Mono.
Context {T : Type} {N : Num T}.
Variable S : sched T.
Variable B : backend (T := T).
Variable G : graph T.
Variable more : obj -> list (nat * mexp T * obj).
Variable rho : env T.
Definition mono {A} (c c' : E (T := T) A) : Prop := forall s, c s = ENoFuel \/ c' s = c s.
Lemma mono_refl A (c : E A) : mono c c.
Proof. intros s. now right. Qed.
Lemma mono_trans A (c c' c2 : E A) : mono c c' -> mono c' c2 -> mono c c2.
Proof. intros H H' s. destruct (H s) as [Q|Q]; [now left|]. destruct (H' s) as [Q'|Q']; [left|right]; congruence. Qed.
Lemma mono_bind A C (c c' : E A) (k k' : A -> E C) : mono c c' -> (forall a, mono (k a) (k' a)) -> mono (ebind c k) (ebind c' k').
Proof.
  intros H Hk s. unfold ebind. destruct (H s) as [Q|Q]; [left; now rewrite Q|]. rewrite Q. destruct (c s) as [[a s']| | |]; auto. apply Hk.
Qed.
Lemma mono_each_eval o run run' l : (forall e, mono (run e) (run' e)) -> mono (each_eval o run l) (each_eval o run' l).
Proof. intros H. induction l as [|[[id a] y] t IH]; [apply mono_refl|]. simpl. apply mono_bind; [apply H|intros p]. apply mono_bind; [apply mono_refl|intros _; exact IH]. Qed.
Lemma mono_each_devalF o rd rd' run run' l : (forall e, mono (rd e) (rd' e)) -> (forall e, mono (run e) (run' e)) -> mono (each_devalF o rd run l) (each_devalF o rd' run' l).
Proof.
  intros H' H. induction l as [|[[id a] y] t IH]; [apply mono_refl|]. simpl. apply mono_bind; [apply H'|intros p]. apply mono_bind; [apply mono_refl|intros _].
  apply mono_bind; [apply H|intros q]. apply mono_bind; [apply mono_refl|intros _; exact IH].
Qed.
Lemma mono_each_reset run run' l : (forall e, mono (run e) (run' e)) -> mono (each_reset (T := T) run l) (each_reset run' l).
Proof. intros H. induction l as [|[[id a] y] t IH]; [apply mono_refl|]. simpl. apply mono_bind; [apply H|intros p; exact IH]. Qed.
Lemma xeval_mono : forall f e, mono (xeval S B G more rho f e) (xeval S B G more rho (Datatypes.S f) e).
Proof.
  induction f as [|f IH]; [intros e s; now left|]. intros e.
  destruct e as [o|k id l r|k id a]; simpl; fold (xeval S B G more rho).
  - destruct (g_kind G o); try apply mono_refl. apply mono_bind; [apply mono_refl|intros g]. apply mono_bind; [|intros _; apply mono_refl].
    destruct (f_vis g); [apply mono_refl|]. apply mono_bind; [apply mono_refl|intros _]. apply mono_bind; [apply IH|intros p].
    apply mono_bind; [apply mono_refl|intros _]. now apply mono_each_eval.
  - repeat (apply mono_bind; [first [apply IH|apply mono_refl]|intros ?]). apply mono_refl.
  - repeat (apply mono_bind; [first [apply IH|apply mono_refl]|intros ?]). apply mono_refl.
Qed.
Lemma xdevalF_mono x : forall f e, mono (xdevalF S B G more rho f x e) (xdevalF S B G more rho (Datatypes.S f) x e).
Proof.
  induction f as [|f IH]; [intros e s; now left|]. intros e. pose proof (xeval_mono f) as IE.
  destruct e as [o|k id l r|k id a].
  - cbn [xdevalF]. fold (xdevalF S B G more rho). destruct (g_kind G o); try apply mono_refl. apply mono_bind; [apply mono_refl|intros g]. apply mono_bind; [|intros _; apply mono_refl].
    destruct (f_vis g); [apply mono_refl|]. apply mono_bind; [apply mono_refl|intros _]. now apply mono_each_devalF.
  - cbn [xdevalF]. fold (xdevalF S B G more rho). apply mono_bind; [apply mono_refl|intros _]. apply mono_bind; [apply IH|intros dp]. apply mono_bind; [apply IH|intros dq].
    destruct k; repeat (apply mono_bind; [first [apply IE|apply mono_refl]|intros ?]); apply mono_refl.
  - cbn [xdevalF]. fold (xdevalF S B G more rho).
    destruct k; try apply IH; repeat (apply mono_bind; [first [apply IH|apply IE|apply mono_refl]|intros ?]); apply mono_refl.
Qed.
Lemma xreset_mono : forall f e, mono (xreset G more f e) (xreset G more (Datatypes.S f) e).
Proof.
  induction f as [|f IH]; [intros e s; now left|]. intros e. destruct e as [o|k id l r|k id a]; cbn [xreset]; fold (xreset G more).
  - apply mono_bind; [apply mono_refl|intros g]. destruct (f_vis g); [|apply mono_refl]. apply mono_bind; [apply mono_refl|intros _].
    destruct (g_kind G o); try apply mono_refl. now apply mono_each_reset.
  - apply mono_bind; [apply IH|intros _; apply IH].
  - apply IH.
Qed.
Lemma mono_le A (c : nat -> E (T := T) A) : (forall f, mono (c f) (c (Datatypes.S f))) -> forall f f', f <= f' -> mono (c f) (c f').
Proof. intros H f f' Hf. induction Hf; [apply mono_refl|eapply mono_trans; eauto]. Qed.
Lemma mono_ok A (c c' : E (T := T) A) s a s' : mono c c' -> c s = EOk (a, s') -> c' s = EOk (a, s').
Proof. intros H E. destruct (H s) as [Q|Q]; congruence. Qed.
End Mono.

Section Run.
Context {T : Type} {N : Num T}.
Variable S : sched T.
Hypothesis VS : valid_sched S.
Variable B : backend (T := T).
Hypothesis BV : value_ok B.
Hypothesis BK : kron_ok B \/ kron_zeroed_ok B.
Variable G : graph T.
Variable host : nat -> option obj.
Variable rank : obj -> nat.
Variable F : obj.
Variable ms : list (nat * mexp T * obj).
Variable bnd : nat.
Variable id0 : nat.
Variable a0 : mexp T.
Variable y0 : obj.
Hypothesis W : rec_wf G host rank F ms bnd id0 a0 y0.
Notation part := (part F bnd).
Notation sub := (MatRecSim.sub (T := T) F).
Notation G' := (chain G F ms bnd).
Notation n := (length ms).
Notation items := (items ms id0 a0 y0).
Notation clean := (clean rank F bnd).
Notation host' := (host' host F ms bnd).
Notation rank' := (rank' rank F ms bnd).
Notation more := (more_of F ms).
Notation st := (st (T := T)).
Notation simw := (simw (T := T) clean).
Notation apart := (apart (T := T) F bnd).
Let WF : wf_graph G' host' rank' := chain_wf W.
Let HF : F < bnd := rw_bnd W.
Let CB : forall o, clean o -> o < bnd := fun o H => proj1 H.
Let CF : ~ clean F := @F_not_clean rank F bnd.
Let CC := clean_closed W.

Lemma clean_not_part o k : clean o -> o <> part k.
Proof. apply (clean_part HF CB CF). Qed.
Lemma part_not_F k : part k <> F <-> k <> 0.
Proof. destruct k; simpl; [tauto|lia]. Qed.
Lemma setf_part_simw s c j f : simw s c -> simw s (St (mm c) (ar c) (fun o => if o =? part j then f (fl c o) else fl c o)).
Proof.
  intros (A & C & D). split; [exact A|]. split; [exact C|]. intros o Ho. simpl. destruct (Nat.eqb_spec o (part j)) as [E|_]; [destruct (clean_not_part Ho E)|auto].
Qed.
Lemma setf_F_simw s c f : simw s c -> simw (St (mm s) (ar s) (fun o => if o =? F then f (fl s o) else fl s o)) c.
Proof.
  intros (A & C & D). split; [exact A|]. split; [exact C|]. intros o Ho. simpl. destruct (Nat.eqb_spec o F) as [->|_]; [destruct (CF Ho)|auto].
Qed.

(** *** reset *)
(** All parts under one root. *)
Fixpoint parts (l : list (nat * mexp T * obj)) (j : nat) : mexp T :=
  match l with [] => MLeaf F | _ :: t => MBin BSum 0 (MLeaf (part j)) (parts t (Datatypes.S j)) end.
Definition all : mexp T := parts items 0.
Definition suffix (l : list (nat * mexp T * obj)) (j : nat) : Prop := forall i, nth_error l i = nth_error items (j + i).
Lemma suffix_cons m t j : suffix (m :: t) j -> nth_error items j = Some m /\ suffix t (Datatypes.S j).
Proof.
  intros H. split; [rewrite <- (Nat.add_0_r j); symmetry; exact (H 0)|]. intros i. specialize (H (Datatypes.S i)). simpl in H. rewrite H. f_equal. lia.
Qed.
Lemma suffix_nil j : suffix [] j -> n < j.
Proof. intros H. specialize (H 0). rewrite Nat.add_0_r in H. symmetry in H. apply nth_error_None in H. simpl in H. lia. Qed.
Lemma suffix_0 : suffix items 0.
Proof. intros i. reflexivity. Qed.
Lemma item_sub j id a y : nth_error items j = Some (id, a, y) -> sub (part (j - 1)) (item id a y) = item id (sub (part (j - 1)) a) y.
Proof. intros H. apply sub_item. eapply items_y; eauto. Qed.
Lemma mention_item' j id a y : nth_error items j = Some (id, a, y) -> mention F clean (negb (j =? 0)) (item id a y).
Proof. intros H o Ho. eapply items_leaves; eauto. Qed.

Lemma reset_seq : forall l j, suffix l j -> forall f s c c', simw s c -> f_vis (fl s F) = false ->
  (forall i, i < j -> f_vis (fl c (part i)) = false) -> (forall i, j <= i -> i <= n -> f_vis (fl c (part i)) = true) ->
  reset G' f (parts l j) c = EOk (tt, c') ->
  exists g s', each_reset (xreset G more g) l s = EOk (tt, s') /\ simw s' c' /\ fl s' F = fl s F.
Proof.
  induction l as [|[[id a] y] t IH]; intros j Hs f s c c' Hw HvF Hlo Hhi E.
  - apply suffix_nil in Hs. destruct f as [|f]; [discriminate|]. cbn [parts reset] in E. unfold ebind, getf in E.
    change F with (part 0) in E. rewrite Hlo in E by lia. injection E as <-. exists 0, s. auto.
  - apply suffix_cons in Hs. destruct Hs as [Hj Hs]. pose proof (items_len Hj) as Hjn. destruct f as [|f]; [discriminate|]. cbn [parts reset] in E. unfold ebind in E at 1.
    destruct f as [|f]; [discriminate|]. cbn [reset] in E. unfold ebind at 1 in E. unfold getf in E. rewrite (Hhi j) in E by lia. unfold ebind in E at 1. rewrite setf_eq in E.
    set (c0 := St (mm c) (ar c) (fun o => if o =? part j then clear (fl c o) else fl c o)) in *.
    rewrite (kind_item W Hj) in E. rewrite <- (item_sub Hj) in E.
    destruct (reset G' f (sub (part (j - 1)) (item id a y)) c0) as [[[] c1]| | |] eqn:Er; try discriminate.
    assert (Fc0 : forall i, fl c0 (part i) = if i =? j then clear (fl c (part i)) else fl c (part i)).
    { intros i. simpl. destruct (Nat.eqb_spec i j) as [->|Ne]; [now rewrite Nat.eqb_refl|].
      destruct (Nat.eqb_spec (part i) (part j)) as [Q|_]; [apply part_inj in Q; [tauto|exact HF]|reflexivity]. }
    set (b := negb (j =? 0)).
    set (R := fun s c : st => b = true -> f_vis (fl s F) = false /\ f_vis (fl c (part (j - 1))) = false).
    assert (RA : forall s c s1 c1, R s c -> apart s c s1 c1 -> R s1 c1).
    { intros s2 c2 s3 c3 H [A1 A2] Hb. rewrite A1, A2. auto. }
    assert (Off : b = true -> forall s c, R s c -> f_vis (fl s F) = false /\ f_vis (fl c (part (j - 1))) = false) by (intros Hb s2 c2 H; auto).
    assert (R0 : R s c0).
    { intros Hb. split; [exact HvF|]. rewrite Fc0. unfold b in Hb. destruct (Nat.eqb_spec j 0); [discriminate|].
      destruct (Nat.eqb_spec (j - 1) j); [lia|]. apply Hlo. lia. }
    pose proof (sim_reset (G := G) ms HF CB CF CC RA Off f (mention_item' Hj) (setf_part_simw j clear Hw) R0) as P.
    fold c0 in P. rewrite Er in P. destruct (xreset G more f (item id a y) s) as [[[] s1]| | |] eqn:Ex; try tauto. destruct P as (_ & W1 & A1 & A2).
    destruct (IH (Datatypes.S j) Hs (Datatypes.S f) s1 c1 c') as (g & s' & E' & W' & Q'); auto.
    { now rewrite A1. }
    { intros i Hi. rewrite A2, Fc0. destruct (Nat.eqb_spec i j) as [->|Ne]; [reflexivity|]. apply Hlo. lia. }
    { intros i Hi Hi'. rewrite A2, Fc0. destruct (Nat.eqb_spec i j); [lia|]. apply Hhi; lia. }
    exists (max f g), s'. split; [|split; [exact W'|congruence]].
    cbn [each_reset]. unfold ebind.
    assert (M1 : mono (xreset G more f (item id a y)) (xreset G more (max f g) (item id a y))) by (apply (mono_le (c := fun f => xreset G more f (item id a y))); [intros; apply xreset_mono|lia]).
    rewrite (mono_ok M1 Ex).
    refine (mono_ok _ E'). apply mono_each_reset. intros e. apply (mono_le (c := fun f => xreset G more f e)); [intros; apply xreset_mono|lia].
Qed.

(** Between calls F is visited if and only if all parts are. *)
Definition joined (s c : st) : Prop := simw s c /\ forall j, j <= n -> f_vis (fl c (part j)) = f_vis (fl s F).
Theorem rec_reset s c : joined s c -> settled G' all c -> exists g s' c', (forall f, g <= f -> xreset G more f (MLeaf F) s = EOk (tt, s')) /\
  joined s' c' /\ f_vis (fl s' F) = false /\ cleared c c' /\ (forall o, ~ reach G' all o -> fl c' o = fl c o) /\
  (forall o, reach G' all o -> g_kind G' o <> LEye -> f_vis (fl c' o) = false).
Proof.
  intros [Hw Hv] Hs. destruct (reset_root WF Hs) as (m & c' & E & C & O & V).
  assert (Pv : forall j, j <= n -> f_vis (fl c' (part j)) = false).
  { assert (Q : forall l j, suffix l j -> forall i, j <= i -> i <= n -> In (part i) (leaves (parts l j))).
    { induction l as [|[[id a] y] t IH]; intros j Hl i Hi Hi'; [apply suffix_nil in Hl; lia|]. apply suffix_cons in Hl. destruct Hl as [Hj Hl].
      cbn [parts leaves]. apply in_or_app. destruct (Nat.eq_dec i j) as [->|Ne]; [left; simpl; auto|right; apply IH; [exact Hl|lia|exact Hi']]. }
    intros j Hj. apply V; [apply reach_leaf; apply (Q items 0 suffix_0); lia|].
    destruct (items_some id0 a0 y0 Hj) as (id & a & y & Hn). rewrite (kind_item W Hn). discriminate. }
  destruct (f_vis (fl s F)) eqn:VF.
  - destruct (@reset_seq items 0 suffix_0 m (St (mm s) (ar s) (fun o => if o =? F then clear (fl s o) else fl s o)) c c') as (g & s' & E' & W' & Q'); auto.
    { now apply setf_F_simw. }
    { simpl. now rewrite Nat.eqb_refl. }
    { intros i Hi. lia. }
    assert (VF' : f_vis (fl s' F) = false) by (rewrite Q'; simpl; now rewrite Nat.eqb_refl).
    exists (Datatypes.S g), s', c'. split; [|split; [split; [exact W'|intros j Hj; rewrite VF'; auto]|auto]].
    intros f Hf. destruct f as [|f]; [lia|]. cbn [xreset]. unfold ebind, getf. rewrite VF. rewrite setf_eq, (rw_F W). unfold more_of. rewrite Nat.eqb_refl.
    refine (mono_ok _ E'). apply mono_each_reset. intros e. apply (mono_le (c := fun f => xreset G more f e)); [intros; apply xreset_mono|lia].
  - assert (Ec : forall j, j <= n -> fl c' (part j) = fl c (part j)) by (intros j Hj; apply (cleared_vis C); rewrite Hv; auto).
    (* nothing reachable is visited: the chain is not changed *)
    assert (U : forall o, reach G' all o -> g_kind G' o <> LEye -> f_vis (fl c o) = false).
    { intros o Ho. induction Ho as [o Hin|o id a y o' Ho IH Hk Hin]; intros Ne.
      - assert (exists j, j <= n /\ o = part j) as (j & Hj & ->); [|rewrite Hv; auto].
        assert (Q : forall l j, suffix l j -> In o (leaves (parts l j)) -> exists i, i <= n /\ o = part i).
        { induction l as [|[[id a] y] t IH]; intros j Hl Hi; [destruct Hi as [<-|[]]; exists 0; split; [lia|reflexivity]|]. apply suffix_cons in Hl. destruct Hl as [Hj Hl].
          cbn [parts leaves] in Hi. destruct Hi as [<-|Hi]; [exists j; split; [exact (items_len Hj)|reflexivity]|]. eapply IH; eauto. }
        exact (Q items 0 suffix_0 Hin).
      - eapply Hs; eauto. apply IH. congruence. }
    exists 1, s, c. split; [|split; [split; [exact Hw|intros; rewrite VF; auto]|split; [exact VF|split; [apply cleared_refl|split; [auto|exact U]]]]].
    intros f Hf. destruct f as [|f]; [lia|]. cbn [xreset]. unfold ebind, getf. rewrite VF. reflexivity.
Qed.

(** *** The passes *)
Notation U := (reach G' all).
Notation lv := (top rank' all).
Let UC : forall o id e y o', U o -> g_kind G' o = KExp id e y -> In o' (leaves (item id e y)) -> U o' := @reach_closed T G' all.
Notation PRE rho := (pre G' host' rank' rho U lv).
Lemma parts_leaf j : j <= n -> In (part j) (leaves all).
Proof.
  intros Hj. assert (Q : forall l j, suffix l j -> forall i, j <= i -> i <= n -> In (part i) (leaves (parts l j))).
  { induction l as [|[[id a] y] t IH]; intros k Hl i Hi Hi'; [apply suffix_nil in Hl; lia|]. apply suffix_cons in Hl. destruct Hl as [Hk Hl].
    cbn [parts leaves]. apply in_or_app. destruct (Nat.eq_dec i k) as [->|Ne]; [left; simpl; auto|right; apply IH; [exact Hl|lia|exact Hi']]. }
  apply (Q items 0 suffix_0); lia.
Qed.
Lemma leaf_parts o : In o (leaves all) -> exists j, j <= n /\ o = part j.
Proof.
  assert (Q : forall l j, suffix l j -> In o (leaves (parts l j)) -> exists i, i <= n /\ o = part i).
  { induction l as [|[[id a] y] t IH]; intros j Hl Hi; [destruct Hi as [<-|[]]; exists 0; split; [lia|reflexivity]|]. apply suffix_cons in Hl. destruct Hl as [Hj Hl].
    cbn [parts leaves] in Hi. destruct Hi as [<-|Hi]; [exists j; split; [exact (items_len Hj)|reflexivity]|]. eapply IH; eauto. }
  exact (Q items 0 suffix_0).
Qed.
Lemma part_exp j : j <= n -> exists id a y, g_kind G' (part j) = KExp id a y.
Proof. intros Hj. destruct (items_some id0 a0 y0 Hj) as (id & a & y & Hn). rewrite (kind_item W Hn). eauto. Qed.
Lemma start_pre rho c : Inv G' c -> (forall o, U o -> g_kind G' o <> LEye -> f_vis (fl c o) = false) -> forall j, j <= n -> PRE rho (MLeaf (part j)) c.
Proof.
  intros [Sl Fi Ei Dc] Hv j Hj. constructor; auto.
  - intros o [Ro _]. destruct (LEye_dec G' o) as [Hk|Hk].
    + rewrite Hk. intros Q. destruct (Ei o Hk Q) as (p & Ep & Hp). exists p. split; [exact Ep|]. eapply holds_meq; [exact Hp|]. apply meq_sym, (eye_meq WF rho Hk).
    + pose proof (Hv o Ro Hk) as V. destruct (g_kind G' o); [| | | |congruence]; intros Q; rewrite (Fi o (or_introl Q)) in V; discriminate.
  - intros o id a y o' [Ro _] Hk V. rewrite (Hv o Ro) in V by congruence. discriminate.
  - intros o [<-|[]]. apply (below_reach WF). apply reach_leaf. now apply parts_leaf.
  - constructor.
  - intros i o [].
  - intros i o a y [].
Qed.
Lemma Inv_post rho e c p v c' : Inv G' c -> post G' host' rank' rho U lv e c p v c' -> Inv G' c'.
Proof.
  intros I Q. constructor; try apply Q.
  - intros o Hk He. destruct (f_eval (fl c o)) eqn:E1.
    + destruct (inv_eye I Hk E1) as (q & Hq). exists q. exact (keeps_at (q_frame Q) (w := ORes o) E1 Hq).
    + assert (Ro : U o).
      { destruct (reach_dec WF all o) as [R|R]; [exact R|]. rewrite (q_high Q) in He; [congruence|intros [R' _]; auto]. }
      pose proof (q_pi Q (below_reach WF Ro)) as Qo. rewrite Hk in Qo. destruct (Qo He) as (q & Eq & Hq). exists q. split; [exact Eq|].
      eapply holds_meq; [exact Hq|]. exact (eye_meq WF rho Hk).
  - eapply (DC_keep (@dclean_same T N G')); [exact (inv_slots I)|exact (inv_dc I)|intros o _; apply (q_dres Q)|].
    intros o q Eq. apply (proj2 (q_frame Q) (ODres o)); [exact Logic.I|exact Eq].
Qed.
Lemma Inv_dpost rho x e c p v c' : Inv G' c -> dpost G' host' rank' rho U x (dclean G') lv e c p v c' -> Inv G' c'.
Proof.
  intros I Q. constructor; try apply Q.
  intros o Hk He. destruct (f_eval (fl c o)) eqn:E1.
  - destruct (inv_eye I Hk E1) as (q & Hq). exists q. exact (keeps_at (r_frame Q) (w := ORes o) E1 Hq).
  - assert (Ro : U o).
    { destruct (reach_dec WF all o) as [R|R]; [exact R|]. rewrite (r_high Q) in He; [congruence|intros [R' _]; auto]. }
    pose proof (r_pi Q (below_reach WF Ro)) as Qo. rewrite Hk in Qo. destruct (Qo He) as (q & Eq & Hq). exists q. split; [exact Eq|].
    eapply holds_meq; [exact Hq|]. exact (eye_meq WF rho Hk).
Qed.
Lemma fl_set_other c j i f : i <> j -> fl (T := T) (St (mm c) (ar c) (fun o => if o =? part j then f (fl c o) else fl c o)) (part i) = fl c (part i).
Proof. intros Ne. simpl. destruct (Nat.eqb_spec (part i) (part j)) as [Q|_]; [apply part_inj in Q; [tauto|exact HF]|reflexivity]. Qed.
Lemma fl_set_same c o f : fl (T := T) (St (mm c) (ar c) (fun o' => if o' =? o then f (fl c o') else fl c o')) o = f (fl c o).
Proof. simpl. now rewrite Nat.eqb_refl. Qed.

Section Eval.
Variable rho : env T.
Variable V : nat -> mat T.
Hypothesis HV : forall j, j <= n -> mval G' rho (MLeaf (part j)) (V j).
Record mid (j : nat) (s c : st) : Prop := {
  m_w : simw s c;
  m_F : f_vis (fl s F) = true;
  m_lo : forall i, i < j -> f_vis (fl c (part i)) = true;
  m_hi : forall i, j <= i -> i <= n -> f_vis (fl c (part i)) = false;
  m_res : 0 < j -> f_res (fl s F) = f_res (fl c (part (j - 1)));
  m_val : 0 < j -> exists p, f_res (fl c (part (j - 1))) = Some p /\ holds (mm c) p (V (j - 1));
  m_pre : forall i, i <= n -> PRE rho (MLeaf (part i)) c;
  m_inv : Inv G' c
}.
Lemma eval_seq : forall l j s c, suffix l j -> mid j s c -> j <= Datatypes.S n ->
  exists g s' c', each_eval F (xeval S B G more rho g) l s = EOk (tt, s') /\ mid (Datatypes.S n) s' c'.
Proof.
  induction l as [|[[id a] y] t IH]; intros j s c Hs M Hle.
  - apply suffix_nil in Hs. replace j with (Datatypes.S n) in M by lia. exists 0, s, c. auto.
  - apply suffix_cons in Hs. destruct Hs as [Hj Hs]. pose proof (items_len Hj) as Hjn.
    destruct (eval_ok VS BV BK WF UC (m_pre M Hjn) (HV Hjn)) as (m & p & c' & E & Q). specialize (E (Datatypes.S m) ltac:(lia)).
    cbn [eval] in E. rewrite (kind_item W Hj) in E. unfold ebind at 1 in E. unfold getf in E at 1. rewrite (m_hi M (le_n j) Hjn) in E.
    unfold ebind in E at 1. unfold ebind in E at 1. rewrite setf_eq in E. unfold ebind in E at 1. rewrite <- (item_sub Hj) in E.
    set (c0 := St (mm c) (ar c) (fun o => if o =? part j then set_vis (set_eval (fl c o)) else fl c o)) in *.
    assert (Fj : fl c0 (part j) = set_vis (set_eval (fl c (part j)))) by exact (fl_set_same c (part j) (fun f => set_vis (set_eval f))).
    assert (Fi : forall i, i <> j -> fl c0 (part i) = fl c (part i)) by (intros i; exact (@fl_set_other c j i (fun f => set_vis (set_eval f)))).
    destruct (eval S B G' rho m (sub (part (j - 1)) (item id a y)) c0) as [[p0 c1]| | |] eqn:Ec; try discriminate.
    rewrite setf_eq in E. unfold ebind, getf in E. rewrite fl_set_same in E. cbn [f_res set_res nonnull] in E. unfold eret in E. injection E as -> Ec'.
    set (b := negb (j =? 0)).
    set (R := fun s c : st => b = true -> f_vis (fl s F) = true /\ f_vis (fl c (part (j - 1))) = true /\ f_res (fl s F) = f_res (fl c (part (j - 1)))).
    assert (RA : forall s c s1 c1, R s c -> apart s c s1 c1 -> R s1 c1).
    { intros s2 c2 s3 c3 H [A1 A2] Hb. rewrite A1, A2. auto. }
    assert (Rd : b = true -> forall s c, R s c -> f_vis (fl s F) = true /\ f_vis (fl c (part (j - 1))) = true /\ f_res (fl s F) = f_res (fl c (part (j - 1)))) by (intros Hb s2 c2 H; auto).
    assert (R0 : R s c0).
    { intros Hb. unfold b in Hb. destruct (Nat.eqb_spec j 0) as [|Nz]; [discriminate|]. rewrite (Fi (j - 1)) by lia.
      split; [apply M|]. split; [apply (m_lo M); lia|apply (m_res M); lia]. }
    assert (Hj1 : j - 1 <= n) by lia.
    pose proof (sim_eval S B HF rho CB CF CC RA Hj1 Rd (ex_intro _ id0 (ex_intro _ a0 (ex_intro _ y0 (rw_F W)))) (part_exp Hj1) m (mention_item' Hj) (setf_part_simw j (fun f => set_vis (set_eval f)) (m_w M)) R0) as P.
    cbv beta in P. fold c0 in P. rewrite Ec in P. destruct (xeval S B G more rho m (item id a y) s) as [[p1 s1]| | |] eqn:Ex; try tauto. destruct P as (-> & W1 & A1 & A2).
    destruct (IH (Datatypes.S j) (St (mm s1) (ar s1) (fun o => if o =? F then set_res p (fl s1 o) else fl s1 o)) c' Hs) as (g & s' & c2 & E' & M'); [|lia|].
    { subst c'. constructor.
      - apply setf_F_simw, setf_part_simw, W1.
      - rewrite fl_set_same, A1. apply M.
      - intros i Hi. destruct (Nat.eq_dec i j) as [->|Ne]; [rewrite fl_set_same, A2, Fj; reflexivity|].
        rewrite fl_set_other by exact Ne. rewrite A2, Fi by exact Ne. apply (m_lo M). lia.
      - intros i Hi Hi'. rewrite fl_set_other by lia. rewrite A2, Fi by lia. apply (m_hi M); lia.
      - intros _. replace (Datatypes.S j - 1) with j by lia. rewrite !fl_set_same. reflexivity.
      - intros _. replace (Datatypes.S j - 1) with j by lia. exists p. split; [rewrite fl_set_same; reflexivity|]. exact (proj2 (q_at Q)).
      - intros i Hi. eapply pre_next; [exact Q|]. now apply (m_pre M).
      - eapply Inv_post; [exact (m_inv M)|exact Q]. }
    exists (max m g), s', c2. split; [|exact M']. cbn [each_eval]. unfold ebind.
    rewrite (mono_ok (mono_le (c := fun f => xeval S B G more rho f (item id a y)) ltac:(intros; apply xeval_mono) (Nat.le_max_l m g)) Ex).
    rewrite setf_eq. refine (mono_ok _ E'). apply mono_each_eval. intros e. apply (mono_le (c := fun f => xeval S B G more rho f e)); [intros; apply xeval_mono|lia].
Qed.
Lemma done_settled c : (forall i, i <= n -> f_vis (fl c (part i)) = true) -> VC G' rank' U lv c -> settled G' all c.
Proof.
  intros Hp Hv. apply evaluated_settled. intros o Ho _. induction Ho as [o Hin|o id a y o' Ho IH Hk Hin].
  - destruct (leaf_parts Hin) as (j & Hj & ->). auto.
  - exact (Hv o id a y o' (below_reach WF Ho) Hk IH Hin).
Qed.
Theorem rec_eval s c : joined s c -> Inv G' c -> settled G' all c ->
  exists g p s' c', (forall f, g <= f -> XEval S B G more rho f (MLeaf F) s = EOk (p, s')) /\ holds (mm s') p (V n) /\ joined s' c' /\ Inv G' c' /\ settled G' all c'.
Proof.
  intros J I Hs. destruct (rec_reset J Hs) as (g & s1 & c1 & Er & [W1 J1] & VF & C1 & _ & Hv).
  pose proof (Inv_cleared I C1) as I1. pose proof (start_pre rho I1 Hv) as P1.
  destruct (@eval_seq items 0 (St (mm s1) (ar s1) (fun o => if o =? F then set_vis (set_eval (fl s1 o)) else fl s1 o)) c1 suffix_0) as (g' & s' & c' & E & M); [|lia|].
  { constructor; auto; try lia.
    - exact (setf_F_simw (fun f => set_vis (set_eval f)) W1).
    - simpl. rewrite Nat.eqb_refl. reflexivity.
    - intros i _ Hi. now rewrite J1. }
  destruct (m_val M) as (p & Ep & Hp); [lia|]. pose proof (m_res M ltac:(lia)) as Em. rewrite Ep in Em. replace (Datatypes.S n - 1) with n in Hp by lia.
  exists (Datatypes.S (max g g')), p, s', c'. split; [|split; [|split; [|split]]].
  - intros f Hf. unfold XEval, ebind. rewrite Er by lia. destruct f as [|f]; [lia|]. cbn [xeval]. rewrite (rw_F W). unfold ebind at 1. unfold getf at 1. rewrite VF.
    unfold ebind at 1. unfold ebind at 1. rewrite setf_eq. unfold more_of at 2. rewrite Nat.eqb_refl.
    assert (Q : each_eval F (xeval S B G more rho f) items (St (mm s1) (ar s1) (fun o => if o =? F then set_vis (set_eval (fl s1 o)) else fl s1 o)) = EOk (tt, s')).
    { refine (mono_ok _ E). apply mono_each_eval. intros e. apply (mono_le (c := fun f => xeval S B G more rho f e)); [intros; apply xeval_mono|lia]. }
    unfold MatRecOk.items in Q. rewrite Q. unfold ebind, getf. rewrite Em. reflexivity.
  - rewrite (proj1 (m_w M)). exact Hp.
  - split; [apply M|]. intros j Hj. rewrite (m_F M). apply (m_lo M). lia.
  - apply M.
  - apply done_settled; [intros i Hi; apply (m_lo M); lia|]. exact (p_vc (m_pre M (Nat.le_0_l n))).
Qed.
End Eval.

Section Deval.
Hypothesis KO : kron_ok B.
Variable rho : env T.
Variable x : obj.
Hypothesis Xv : g_kind G x = LVar.
Hypothesis DV : distinct_vars G.
Let BK' : kron_ok B \/ kron_zeroed_ok B := or_introl KO.
Lemma x_old : x < bnd.
Proof. destruct (Nat.lt_ge_cases x bnd) as [H|H]; [exact H|]. rewrite (rw_new W H) in Xv. discriminate. Qed.
Lemma kind_back o k : g_kind G' o = k -> k <> LConst -> (match k with KExp _ _ _ => False | _ => True end) -> o < bnd /\ g_kind G o = k.
Proof.
  intros H Nc Hl. destruct (kinds W o) as [[Ho E]|[(j & id & a & y & -> & Hj)|E]]; [split; congruence| |congruence].
  rewrite (kind_part G F bnd Hj) in H. subst k. tauto.
Qed.
Lemma chain_vars : distinct_vars G'.
Proof.
  intros o o' H H' Ne. destruct (kind_back H) as [L E]; [discriminate|exact Logic.I|]. destruct (kind_back H') as [L' E']; [discriminate|exact Logic.I|].
  rewrite (rows_old G F ms L), (cols_old G F ms L), (rows_old G F ms L'), (cols_old G F ms L'). exact (DV E E' Ne).
Qed.
Lemma chain_x : g_kind G' x = LVar.
Proof. rewrite (kind_old G F ms x_old). exact Xv. Qed.
Variable V DVal : nat -> mat T.
Hypothesis HV : forall j, j <= n -> mder G' rho x (MLeaf (part j)) (V j) (DVal j).
Notation DPRE := (dpre G' host' rank' rho U x (dclean G') lv).
Record dmid (j : nat) (s c : st) : Prop := {
  d_w : simw s c;
  d_F : f_vis (fl s F) = true;
  d_lo : forall i, i < j -> f_vis (fl c (part i)) = true;
  d_hi : forall i, j <= i -> i <= n -> f_vis (fl c (part i)) = false;
  d_res : 0 < j -> f_res (fl s F) = f_res (fl c (part (j - 1)));
  d_dres : 0 < j -> f_dres (fl s F) = f_dres (fl c (part (j - 1)));
  d_val : 0 < j -> exists p, f_dres (fl c (part (j - 1))) = Some p /\ holds (mm c) p (DVal (j - 1));
  d_pre : forall i, i <= n -> DPRE (MLeaf (part i)) c;
  d_inv : Inv G' c
}.
Lemma devalF_seq : forall l j s c, suffix l j -> dmid j s c -> j <= Datatypes.S n ->
  exists g s' c', each_devalF F (xdevalF S B G more rho g x) (xeval S B G more rho g) l s = EOk (tt, s') /\ dmid (Datatypes.S n) s' c'.
Proof.
  induction l as [|[[id a] y] t IH]; intros j s c Hs M Hle.
  - apply suffix_nil in Hs. replace j with (Datatypes.S n) in M by lia. exists 0, s, c. auto.
  - apply suffix_cons in Hs. destruct Hs as [Hj Hs]. pose proof (items_len Hj) as Hjn.
    assert (DW : forall m r o, is_leaf G' o -> tame m -> slot_ok m r -> dclean G' m o r ->
      exists p m1 m', pool CPU r (g_rows G' o * g_rows G' x) (g_cols G' o * g_cols G' x) m = Ok (p, m1) /\ set_derivs S G' rho o x p m1 = Ok (tt, m') /\
        wrote m r p (leaf_dmat G' rho x o) m' /\ dclean G' m' o (Some p)).
    { intros m r o. exact (@dleaf_write T N S VS G' rho (wf_pos WF) x chain_x chain_vars m r o). }
    destruct (devalF_ok VS BV KO WF UC (@dclean_same T N G') DW (d_pre M Hjn) (HV Hjn)) as (m & p & c' & E & Q). specialize (E (Datatypes.S m) ltac:(lia)).
    cbn [devalF] in E. rewrite (kind_item W Hj) in E. unfold ebind at 1 in E. unfold getf in E at 1. rewrite (d_hi M (le_n j) Hjn) in E.
    unfold ebind in E at 1. unfold ebind in E at 1. rewrite setf_eq in E. unfold ebind in E at 1. rewrite <- (item_sub Hj) in E.
    set (c0 := St (mm c) (ar c) (fun o => if o =? part j then set_vis (set_dev (fl c o)) else fl c o)) in *.
    assert (Fj : fl c0 (part j) = set_vis (set_dev (fl c (part j)))) by exact (fl_set_same c (part j) (fun f => set_vis (set_dev f))).
    assert (Fi : forall i, i <> j -> fl c0 (part i) = fl c (part i)) by (intros i; exact (@fl_set_other c j i (fun f => set_vis (set_dev f)))).
    destruct (devalF S B G' rho m x (sub (part (j - 1)) (item id a y)) c0) as [[dp c1]| | |] eqn:Ed; try discriminate.
    unfold ebind in E at 1. rewrite setf_eq in E. set (c1' := St (mm c1) (ar c1) (fun o => if o =? part j then set_dres dp (fl c1 o) else fl c1 o)) in *.
    assert (Fj1 : fl c1' (part j) = set_dres dp (fl c1 (part j))) by exact (fl_set_same c1 (part j) (set_dres dp)).
    assert (Fi1 : forall i, i <> j -> fl c1' (part i) = fl c1 (part i)) by (intros i; exact (@fl_set_other c1 j i (set_dres dp))).
    unfold ebind in E at 1.
    destruct (eval S B G' rho m (sub (part (j - 1)) (item id a y)) c1') as [[p0 c2]| | |] eqn:Ec; try discriminate.
    rewrite setf_eq in E. unfold ebind, getf in E. rewrite fl_set_same in E. cbn [f_dres set_res nonnull] in E.
    set (b := negb (j =? 0)).
    set (R := fun s c : st => b = true -> f_vis (fl s F) = true /\ f_vis (fl c (part (j - 1))) = true /\ f_res (fl s F) = f_res (fl c (part (j - 1)))).
    set (R1 := fun s c : st => R s c /\ (b = true -> f_dres (fl s F) = f_dres (fl c (part (j - 1))))).
    assert (RA : forall s c s1 c1, R s c -> apart s c s1 c1 -> R s1 c1).
    { intros s2 c3 s3 c4 H [A1 A2] Hb. rewrite A1, A2. auto. }
    assert (RA1 : forall s c s1 c1, R1 s c -> apart s c s1 c1 -> R1 s1 c1).
    { intros s2 c3 s3 c4 [H H'] [A1 A2]. split; [intros Hb; rewrite A1, A2; auto|intros Hb; rewrite A1, A2; auto]. }
    assert (Rd : b = true -> forall s c, R s c -> f_vis (fl s F) = true /\ f_vis (fl c (part (j - 1))) = true /\ f_res (fl s F) = f_res (fl c (part (j - 1)))) by (intros Hb s2 c3 H; auto).
    assert (Rd1 : b = true -> forall s c, R1 s c -> f_vis (fl s F) = true /\ f_vis (fl c (part (j - 1))) = true /\ f_res (fl s F) = f_res (fl c (part (j - 1)))) by (intros Hb s2 c3 [H _]; auto).
    assert (RdD : b = true -> forall s c, R1 s c -> f_dres (fl s F) = f_dres (fl c (part (j - 1)))) by (intros Hb s2 c3 [_ H]; auto).
    assert (Nz : b = true -> j <> 0) by (unfold b; destruct (Nat.eqb_spec j 0); [discriminate|auto]).
    assert (R0 : R1 s c0).
    { split; intros Hb; specialize (Nz Hb); rewrite (Fi (j - 1)) by lia.
      - split; [apply M|]. split; [apply (d_lo M); lia|apply (d_res M); lia].
      - apply (d_dres M). lia. }
    assert (Hj1 : j - 1 <= n) by lia.
    pose proof (sim_devalF S B HF rho CB CF CC RA1 Hj1 Rd1 (ex_intro _ id0 (ex_intro _ a0 (ex_intro _ y0 (rw_F W)))) (part_exp Hj1) RdD x_old m (mention_item' Hj) (setf_part_simw j (fun f => set_vis (set_dev f)) (d_w M)) R0) as P.
    cbv beta in P. fold c0 in P. rewrite Ed in P. destruct (xdevalF S B G more rho m x (item id a y) s) as [[dp1 s1]| | |] eqn:Exd; try tauto. destruct P as (-> & W1 & A1 & A2).
    set (s1' := St (mm s1) (ar s1) (fun o => if o =? F then set_dres dp (fl s1 o) else fl s1 o)).
    assert (FF : fl s1' F = set_dres dp (fl s1 F)) by exact (fl_set_same s1 F (set_dres dp)).
    assert (R2 : R s1' c1').
    { intros Hb. pose proof (Nz Hb). destruct R0 as [R0 _]. destruct (R0 Hb) as (Q1 & Q2 & Q3). rewrite FF, (Fi1 (j - 1)), A1, A2 by lia. auto. }
    assert (W1' : simw s1' c1') by exact (setf_F_simw (set_dres dp) (setf_part_simw j (set_dres dp) W1)).
    pose proof (sim_eval S B HF rho CB CF CC RA Hj1 Rd (ex_intro _ id0 (ex_intro _ a0 (ex_intro _ y0 (rw_F W)))) (part_exp Hj1) m (mention_item' Hj) W1' R2) as P.
    rewrite Ec in P. destruct (xeval S B G more rho m (item id a y) s1') as [[p1 s2]| | |] eqn:Ex; try tauto. destruct P as (-> & W2 & B1 & B2).
    rewrite B2, Fj1 in E. cbn [f_dres set_dres] in E. unfold nonnull, eret in E. injection E as -> Ec'.
    destruct (IH (Datatypes.S j) (St (mm s2) (ar s2) (fun o => if o =? F then set_res p0 (fl s2 o) else fl s2 o)) c' Hs) as (g & s' & c3 & E' & M'); [|lia|].
    { subst c'. constructor.
      - apply setf_F_simw, setf_part_simw, W2.
      - rewrite fl_set_same, B1, FF, A1. apply M.
      - intros i Hi. destruct (Nat.eq_dec i j) as [->|Ne]; [rewrite fl_set_same, B2, Fj1, A2, Fj; reflexivity|].
        rewrite fl_set_other by exact Ne. rewrite B2, Fi1, A2, Fi by exact Ne. apply (d_lo M). lia.
      - intros i Hi Hi'. rewrite fl_set_other by lia. rewrite B2, Fi1, A2, Fi by lia. apply (d_hi M); lia.
      - intros _. replace (Datatypes.S j - 1) with j by lia. rewrite !fl_set_same. reflexivity.
      - intros _. replace (Datatypes.S j - 1) with j by lia. rewrite !fl_set_same, B1, B2, FF, Fj1. reflexivity.
      - intros _. replace (Datatypes.S j - 1) with j by lia. exists p. split; [rewrite fl_set_same, B2, Fj1; reflexivity|]. exact (proj2 (r_at Q)).
      - intros i Hi. eapply dpre_next; [exact Q|]. now apply (d_pre M).
      - eapply Inv_dpost; [exact (d_inv M)|exact Q]. }
    exists (max m g), s', c3. split; [|exact M']. cbn [each_devalF]. unfold ebind.
    rewrite (mono_ok (mono_le (c := fun f => xdevalF S B G more rho f x (item id a y)) ltac:(intros; apply xdevalF_mono) (Nat.le_max_l m g)) Exd).
    rewrite setf_eq. fold s1'. rewrite (mono_ok (mono_le (c := fun f => xeval S B G more rho f (item id a y)) ltac:(intros; apply xeval_mono) (Nat.le_max_l m g)) Ex).
    rewrite setf_eq. refine (mono_ok _ E'). apply mono_each_devalF; intros e.
    + apply (mono_le (c := fun f => xdevalF S B G more rho f x e)); [intros; apply xdevalF_mono|lia].
    + apply (mono_le (c := fun f => xeval S B G more rho f e)); [intros; apply xeval_mono|lia].
Qed.
Theorem rec_devalF s c : joined s c -> Inv G' c -> settled G' all c ->
  exists g p s' c', (forall f, g <= f -> XDevalF S B G more rho f (MLeaf F) x s = EOk (p, s')) /\ holds (mm s') p (DVal n) /\ joined s' c' /\ Inv G' c' /\ settled G' all c'.
Proof.
  intros J I Hs. destruct (rec_reset J Hs) as (g & s1 & c1 & Er & [W1 J1] & VF & C1 & _ & Hv).
  pose proof (Inv_cleared I C1) as I1. pose proof (start_pre rho I1 Hv) as P1.
  destruct (@devalF_seq items 0 (St (mm s1) (ar s1) (fun o => if o =? F then set_vis (set_dev (fl s1 o)) else fl s1 o)) c1 suffix_0) as (g' & s' & c' & E & M); [|lia|].
  { constructor; auto; try lia.
    - exact (setf_F_simw (fun f => set_vis (set_dev f)) W1).
    - simpl. rewrite Nat.eqb_refl. reflexivity.
    - intros i _ Hi. now rewrite J1.
    - intros i Hi. constructor; [now apply P1| |apply I1]. intros o [Ro _]. destruct (LEye_dec G' o) as [Hk|Hk].
      + rewrite Hk. intros Nc. exfalso. apply Nc. now right.
      + pose proof (Hv o Ro Hk) as V0. destruct (g_kind G' o); [| | | |congruence]; intros _ Q; rewrite (inv_fi I1 (or_intror Q)) in V0; discriminate. }
  destruct (d_val M) as (p & Ep & Hp); [lia|]. pose proof (d_dres M ltac:(lia)) as Em. rewrite Ep in Em. replace (Datatypes.S n - 1) with n in Hp by lia.
  exists (Datatypes.S (max g g')), p, s', c'. split; [|split; [|split; [|split]]].
  - intros f Hf. unfold XDevalF, ebind. rewrite Er by lia. destruct f as [|f]; [lia|]. cbn [xdevalF]. rewrite (rw_F W). unfold ebind at 1. unfold getf at 1. rewrite VF.
    unfold ebind at 1. unfold ebind at 1. rewrite setf_eq. unfold more_of at 3. rewrite Nat.eqb_refl.
    assert (Q : each_devalF F (xdevalF S B G more rho f x) (xeval S B G more rho f) items (St (mm s1) (ar s1) (fun o => if o =? F then set_vis (set_dev (fl s1 o)) else fl s1 o)) = EOk (tt, s')).
    { refine (mono_ok _ E). apply mono_each_devalF; intros e.
      - apply (mono_le (c := fun f => xdevalF S B G more rho f x e)); [intros; apply xdevalF_mono|lia].
      - apply (mono_le (c := fun f => xeval S B G more rho f e)); [intros; apply xeval_mono|lia]. }
    unfold MatRecOk.items in Q. rewrite Q. unfold ebind, getf. rewrite Em. reflexivity.
  - rewrite (proj1 (d_w M)). exact Hp.
  - split; [apply M|]. intros j Hj. rewrite (d_F M). apply (d_lo M). lia.
  - apply M.
  - apply done_settled; [intros i Hi; apply (d_lo M); lia|]. exact (p_vc (dp_pre (d_pre M (Nat.le_0_l n)))).
Qed.
End Deval.
End Run.
