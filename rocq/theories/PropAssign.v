(** * Property C71: assigning a new expression to a named matrix *)
From Coq Require Import List Arith Bool Lia ZArith.
From Verif Require Import Num NumInst MatMem Kernels KernelFacts KernelProofs KernelBlocks KernelMore Registry KernelStep Backend Slots Exec Sums ConvProofs ConvDerv MatEngine MatGraph MatLeaf MatEval MatDeval MatHist MatSpec MatCalls MatFuel MatCalc MatAssign PropMatrix.
Import ListNotations.
Set Implicit Arguments.
Unset Strict Implicit.
Local Open Scope nat_scope.

(** States of a program that builds matrices, calls Eval and DevalF on settled expressions, and
    assigns new expressions to its named matrices, in any order and number.  The objects change
    with an assignment: G is what they are now. *)
Inductive lived {T} {N : Num T} (S : sched T) (h : handler) : graph T -> (nat -> option obj) -> st (T := T) -> Prop :=
| lived_init G host rank m : wf_graph G host rank -> tame m -> lived S h G host (init m)
| lived_call G host s a p s' : lived S h G host s -> settled G (act_exp a) s -> act_ok (backend_of S h) G host a ->
    returns S h G a s p s' -> lived S h G host s'
| lived_assign G host s F id e y host' rank' : lived S h G host s -> is_expression G F ->
    wf_graph (assign_graph G F id e y) host' rank' ->
    lived S h (assign_graph G F id e y) host' (assign_exp G F s).

Section Main.
Context {T : Type} {N : Num T}.
Variable L : NumLaws N.
Variable S : sched T.
Hypothesis VS : valid_sched S.
Variable h : handler.

Lemma act_own G host rank a s : wf_graph G host rank -> Inv G s -> Own G s -> settled G (act_exp a) s -> act_ok (backend_of S h) G host a ->
  exists p s', returns S h G a s p s' /\ Own G s' /\ (match a with AEval _ e => ar s' (loc G e) | ADevalF _ e _ => ar s' (dloc G e) end) = Some p.
Proof.
  intros WF I Ow Hs (Hr & Hf & Ha). destruct a as [rho e|rho e x]; simpl in *.
  - destruct (den_total rho Hf) as (F & HF). destruct (den_mval L WF Hf HF) as (v & Hv & Mv).
    destruct (eval_own VS (backend_value VS (fun _ => L)) (or_intror (backend_kron_zeroed VS h L)) WF I Ow Hs Hr Hv) as (n & p & s' & E & (Ow' & _) & Ap & _).
    exists p, s'. split; [now exists n|auto].
  - destruct Ha as (KO & Xv & DV). destruct (dif_total rho x Hf) as (F & D & HD).
    destruct (dif_mder L WF Xv DV Hf HD) as (v & dv & Hv & Mv & Mdv).
    destruct (devalF_own VS (backend_value VS (fun _ => L)) WF KO Xv DV I Ow Hs Hr Hv) as (n & p & s' & E & (Ow' & _) & Ap & _).
    exists p, s'. split; [now exists n|auto].
Qed.
Lemma lived_Inv G host s : lived S h G host s -> Inv G s /\ Own G s /\ exists rank, wf_graph G host rank.
Proof.
  induction 1 as [G host rank m WF Tm|G host s a p s' R (I & Ow & rank & WF) Hs Ha Hr|G host s F id e y host' rank' R (I & Ow & rank & WF) FE WF'].
  - split; [now apply Inv_init|]. split; [apply Own_init|eauto].
  - destruct (right_call L VS WF I Hs Ha) as (q & s2 & E & _ & I'). destruct (returns_det Hr E) as [_ ->]. split; [exact I'|].
    destruct (act_own WF I Ow Hs Ha) as (q' & s3 & E' & Ow' & _). destruct (returns_det E E') as [_ ->]. eauto.
  - split; [now apply assign_Inv|]. split; [now apply assign_Own|eauto].
Qed.
End Main.

(** ** Every Eval and DevalF is right, whatever was assigned before *)
Theorem C71_eval : forall {T} {N : Num T}, NumLaws N -> forall (S : sched T), valid_sched S ->
  forall (h : handler) (G : graph T) host s, lived S h G host s ->
  forall (rho : env T) e, root host e -> fits G e -> settled G e s ->
  exists D p s', den G rho e D /\ returns S h G (AEval rho e) s p s' /\ holds (mm s') p (mat_of G e D) /\ lived S h G host s'.
Proof.
  intros T N L S VS h G host s R rho e Hr Hf Hs. destruct (lived_Inv L VS R) as (I & _ & rank & WF).
  assert (Ha : act_ok (backend_of S h) G host (AEval rho e)) by (split; [exact Hr|]; split; [exact Hf|exact Logic.I]).
  destruct (right_call L VS WF I (a := AEval rho e) Hs Ha) as (p & s' & E & (D & HD & Hp) & _).
  exists D, p, s'. split; [exact HD|]. split; [exact E|]. split; [exact Hp|]. exact (lived_call R (a := AEval rho e) Hs Ha E).
Qed.
Print Assumptions C71_eval.
Theorem C71_devalF : forall {T} {N : Num T}, NumLaws N -> forall (S : sched T), valid_sched S ->
  forall (G : graph T) host s, lived S HEigen G host s -> distinct_vars G ->
  forall (rho : env T) e x, g_kind G x = LVar -> root host e -> fits G e -> settled G e s ->
  exists F D p s', dif G rho x e F D /\ returns S HEigen G (ADevalF rho e x) s p s' /\ holds (mm s') p (jac_of G x e D) /\ lived S HEigen G host s'.
Proof.
  intros T N L S VS G host s R DV rho e x Xv Hr Hf Hs. destruct (lived_Inv L VS R) as (I & _ & rank & WF).
  assert (Ha : act_ok (backend_of S HEigen) G host (ADevalF rho e x)).
  { split; [exact Hr|]. split; [exact Hf|]. split; [now apply eigen_kron|auto]. }
  destruct (right_call L VS WF I (a := ADevalF rho e x) Hs Ha) as (p & s' & E & (F & D & HD & Hp) & _).
  exists F, D, p, s'. split; [exact HD|]. split; [exact E|]. split; [exact Hp|]. exact (lived_call R (a := ADevalF rho e x) Hs Ha E).
Qed.
Print Assumptions C71_devalF.

(** ** The assigned matrix itself *)
(** d and e may be evaluated now, and F was evaluated before or nothing in e was: then d can be
    evaluated after F = e, and F itself too. *)
Lemma assign_settled {T} (G : graph T) F id e y host' rank' (s : st (T := T)) d : is_expression G F -> wf_graph (assign_graph G F id e y) host' rank' ->
  settled G e s -> f_vis (fl s F) = true \/ untouched G e s -> settled G d s \/ d = MLeaf F ->
  settled (assign_graph G F id e y) d (assign_exp G F s).
Proof.
  set (G' := assign_graph G F id e y). intros FE WF Hs HF Hd.
  assert (KF : g_kind G' F = KExp id e y) by apply F_kind.
  assert (Ko : forall o, o <> F -> g_kind G' o = g_kind G o) by (intros o Ne; now apply other_kind).
  assert (Eq : forall o, g_kind G' o <> LEye -> g_kind G o <> LEye).
  { intros o Ne. destruct (Nat.eq_dec o F) as [->|N]; [unfold is_expression in FE; destruct (g_kind G F); try discriminate; destruct FE|now rewrite Ko in Ne]. }
  assert (Vo : forall o, f_vis (fl (assign_exp G F s) o) = f_vis (fl s o)).
  { intros o. cbn [assign_exp fl]. destruct (Nat.eqb_spec o F) as [->|]; reflexivity. }
  assert (Yk : g_kind G' y = LEye) by apply (wf_eye WF KF).
  assert (Up : forall o, reach G' (item id e y) o -> rank' o < rank' F /\ (reach G e o \/ o = y)).
  { induction 1 as [o Hin|o i a z o' Ho [R1 R2] Hk Hin].
    - split; [exact (wf_rank WF KF Hin)|]. simpl in Hin. apply in_app_or in Hin. destruct Hin as [Hin|[<-|[]]]; [left; now apply reach_leaf|now right].
    - split; [pose proof (wf_rank WF Hk Hin); lia|]. left. destruct R2 as [R2| ->]; [|congruence].
      rewrite Ko in Hk by (intros ->; lia). eapply reach_item; eauto. }
  assert (Q0 : forall o, reach G' d o -> reach G d o \/ reach G' (item id e y) o).
  { induction 1 as [o Hin|o i a z o' Ho IH Hk Hin]; [left; now apply reach_leaf|]. destruct (Nat.eq_dec o F) as [->|N].
    - right. rewrite KF in Hk. injection Hk as <- <- <-. now apply reach_leaf.
    - destruct IH as [IH|IH]; [left; rewrite Ko in Hk by auto; eapply reach_item; eauto|right; eapply reach_item; eauto]. }
  intros o i a z o' Ho Hk V Hin Ne. rewrite Vo in *. destruct (Nat.eq_dec o F) as [->|N].
  - rewrite KF in Hk. injection Hk as <- <- <-. destruct HF as [HF|HF]; [congruence|].
    destruct (Up o' (reach_leaf _ Hin)) as [R [R2| ->]]; [|congruence]. apply HF; [exact R2|auto].
  - assert (Hk' : g_kind G o = KExp i a z) by (rewrite <- Ko; auto).
    assert (Q : reach G e o \/ settled G d s /\ reach G d o).
    { destruct (Q0 o Ho) as [Q|Q].
      - destruct Hd as [Hd| ->]; [right; auto|]. left.
        assert (o = F \/ reach G' (item id e y) o) as [->|R]; [|now elim N|].
        { clear - Ho KF. induction Ho as [o Hin|o i a z o' Ho IH Hk Hin]; [destruct Hin as [<-|[]]; auto|]. right. destruct IH as [->|IH]; [rewrite KF in Hk; injection Hk as <- <- <-; now apply reach_leaf|eapply reach_item; eauto]. }
        destruct (Up o R) as [_ [R'| ->]]; [exact R'|congruence].
      - destruct (Up o Q) as [_ [R| ->]]; [now left|congruence]. }
    destruct Q as [Q|[Hd' Q]]; [exact (Hs o i a z o' Q Hk' V Hin (Eq _ Ne))|exact (Hd' o i a z o' Q Hk' V Hin (Eq _ Ne))].
Qed.
Theorem C71_assigned : forall {T} {N : Num T}, NumLaws N -> forall (S : sched T), valid_sched S ->
  forall (h : handler) (G : graph T) host s, lived S h G host s ->
  forall F id e y host' rank', is_expression G F ->
  let G' := assign_graph G F id e y in let s' := assign_exp G F s in
  wf_graph G' host' rank' -> fits G' e -> settled G e s -> f_vis (fl s F) = true \/ untouched G e s ->
  forall rho, exists D p s2, den G' rho e D /\ returns S h G' (AEval rho (MLeaf F)) s' p s2 /\ holds (mm s2) p (mat_of G' e D) /\ lived S h G' host' s2.
Proof.
  intros T N L S VS h G host s R F id e y host' rank' FE G' s' WF Hf Hs HF rho.
  assert (KF : g_kind G' F = KExp id e y) by apply F_kind.
  assert (Hf' : fits G' (MLeaf F)) by (eapply fits_exp; eauto).
  destruct (C71_eval L VS (lived_assign R FE WF) rho (e := MLeaf F)) as (D & p & s2 & HD & E & Hp & R2); auto.
  - split; [constructor|intros i []].
  - exact (assign_settled FE WF Hs HF (or_intror eq_refl)).
  - exists D, p, s2. split.
    { inversion HD as [? Hk|? Hl _|? i a z D' Hk HD'| | | | | | | | | | | |]; subst.
      - fold G' in Hk. congruence.
      - unfold is_leaf in Hl. fold G' in Hl. rewrite KF in Hl. destruct Hl.
      - fold G' in Hk, HD'. rewrite KF in Hk. injection Hk as <- <- <-. exact HD'. }
    split; [exact E|]. split; [|exact R2]. destruct (wf_dims WF KF) as [D1 D2].
    replace (mat_of G' e D) with (mat_of G' (MLeaf F) D); [exact Hp|]. unfold mat_of. f_equal; [exact D1|exact D2].
Qed.
Print Assumptions C71_assigned.
(** And its derivative. *)
Theorem C71_assigned_derivative : forall {T} {N : Num T}, NumLaws N -> forall (S : sched T), valid_sched S ->
  forall (G : graph T) host s, lived S HEigen G host s ->
  forall F id e y host' rank', is_expression G F ->
  let G' := assign_graph G F id e y in let s' := assign_exp G F s in
  wf_graph G' host' rank' -> distinct_vars G' -> fits G' e -> settled G e s -> f_vis (fl s F) = true \/ untouched G e s ->
  forall rho x, g_kind G' x = LVar ->
  exists V D p s2, dif G' rho x e V D /\ returns S HEigen G' (ADevalF rho (MLeaf F) x) s' p s2 /\ holds (mm s2) p (jac_of G' x e D) /\ lived S HEigen G' host' s2.
Proof.
  intros T N L S VS G host s R F id e y host' rank' FE G' s' WF DV Hf Hs HF rho x Xv.
  assert (KF : g_kind G' F = KExp id e y) by apply F_kind.
  assert (Hf' : fits G' (MLeaf F)) by (eapply fits_exp; eauto).
  destruct (C71_devalF L VS (lived_assign R FE WF) DV rho (e := MLeaf F) Xv) as (V & D & p & s2 & HD & E & Hp & R2); auto.
  - split; [constructor|intros i []].
  - exact (assign_settled FE WF Hs HF (or_intror eq_refl)).
  - exists V, D, p, s2. split.
    { inversion HD as [? ? Hk _|? ? Hk _|? ? Hk _|? i a z V' D' Hk HD'| | | | | | | | | | | |]; subst; fold G' in Hk; unfold is_const in *.
      - destruct Hk as [Hk|Hk]; congruence.
      - congruence.
      - congruence.
      - fold G' in HD'. rewrite KF in Hk. injection Hk as <- <- <-. exact HD'. }
    split; [exact E|]. split; [|exact R2]. destruct (wf_dims WF KF) as [D1 D2].
    replace (jac_of G' x e D) with (jac_of G' x (MLeaf F) D); [exact Hp|]. unfold jac_of, layout. f_equal; [exact (f_equal (fun n => n * g_rows G' x) D1)|exact (f_equal (fun n => n * g_cols G' x) D2)].
Qed.
Print Assumptions C71_assigned_derivative.

(** Every expression d built on F, evaluated before, computes with the new expression of F from
    now on (den G' rho d unfolds F to e). *)
Theorem C71_users : forall {T} {N : Num T}, NumLaws N -> forall (S : sched T), valid_sched S ->
  forall (h : handler) (G : graph T) host s, lived S h G host s ->
  forall F id e y host' rank' d, is_expression G F ->
  let G' := assign_graph G F id e y in let s' := assign_exp G F s in
  wf_graph G' host' rank' -> settled G e s -> f_vis (fl s F) = true \/ untouched G e s ->
  settled G d s -> root host' d -> fits G' d ->
  forall rho, exists D p s2, den G' rho d D /\ returns S h G' (AEval rho d) s' p s2 /\ holds (mm s2) p (mat_of G' d D) /\ lived S h G' host' s2.
Proof.
  intros T N L S VS h G host s R F id e y host' rank' d FE G' s' WF Hs HF Hd Hr Hf rho.
  exact (C71_eval L VS (lived_assign R FE WF) rho Hr Hf (assign_settled FE WF Hs HF (or_introl Hd))).
Qed.
Print Assumptions C71_users.

(** ** When F = e leaves a program the theorems above speak of *)
Section Keeps.
Context {T : Type}.
Variables (G : graph T) (F : obj).
Fixpoint usesb (n : nat) (o : obj) : bool :=
  (o =? F) || match n with 0 => false | Datatypes.S n' =>
    match g_kind G o with KExp id e y => existsb (usesb n') (leaves (item id e y)) | _ => false end end.
Lemma usesb_reach n : forall o, usesb n o = true -> reach G (MLeaf o) F.
Proof.
  induction n as [|n IH]; intros o; cbn [usesb]; intros H; apply orb_prop in H; destruct H as [H|H].
  - apply Nat.eqb_eq in H. subst. apply reach_leaf. simpl; auto.
  - discriminate.
  - apply Nat.eqb_eq in H. subst. apply reach_leaf. simpl; auto.
  - destruct (g_kind G o) as [| | | |id e y] eqn:Ek; try discriminate. apply existsb_exists in H. destruct H as (o' & Hin & Ho').
    assert (Q : reach G (MLeaf o) o') by (eapply reach_item; [apply reach_leaf; simpl; left; reflexivity|exact Ek|exact Hin]).
    pose proof (IH _ Ho') as R. clear - Q R. induction R as [z Hz|z i a w z' Rz IHz Hk Hz].
    + destruct Hz as [<-|[]]. exact Q.
    + eapply reach_item; eauto.
Qed.
Lemma usesb_mono n : forall m o, n <= m -> usesb n o = true -> usesb m o = true.
Proof.
  induction n as [|n IH]; intros m o Hm; cbn [usesb]; intros H; apply orb_prop in H.
  - destruct H as [H|H]; [|discriminate]. destruct m; cbn [usesb]; now rewrite H.
  - destruct m as [|m]; [lia|]. cbn [usesb]. apply orb_true_intro. destruct H as [H|H]; [auto|right].
    destruct (g_kind G o); try discriminate. apply existsb_exists in H. destruct H as (o' & Hin & Ho').
    apply existsb_exists. exists o'. split; [exact Hin|]. eapply IH; [|exact Ho']. lia.
Qed.
Lemma dims_ext (G' : graph T) e : (forall o, In o (leaves e) -> g_rows G' o = g_rows G o /\ g_cols G' o = g_cols G o) ->
  rows G' e = rows G e /\ cols G' e = cols G e.
Proof.
  induction e as [o|k id l IHl r IHr|k id a IH]; intros H.
  - apply H. simpl; auto.
  - split; [apply IHl|apply IHr]; intros o Ho; apply H; simpl; apply in_or_app; auto.
  - destruct (IH H) as [H1 H2]. destruct k; cbn [rows cols]; auto.
Qed.
End Keeps.
(** F = e with new operator nodes, for an expression e that does not depend on F, when no other
    named expression uses F or when e has the dimensions F had: the objects are again a program
    as above, without a word about the numbers kept for F. *)
Theorem C71_still_a_program : forall {T} (G : graph T) host rank, wf_graph G host rank ->
  forall F id (e : mexp T) y, is_expression G F -> ~ reach G e F ->
  g_kind G y = LEye -> g_rows G y = cols G e -> g_cols G y = cols G e -> 0 < rows G e -> 0 < cols G e ->
  NoDup (nodes (item id e y)) -> (forall i, In i (nodes (item id e y)) -> host i = None) ->
  (rows G e = g_rows G F /\ cols G e = g_cols G F) \/ (forall o i a z, g_kind G o = KExp i a z -> ~ In F (leaves a)) ->
  exists host' rank', wf_graph (assign_graph G F id e y) host' rank' /\
    (forall d : mexp T, root host d -> (forall i, In i (nodes d) -> ~ In i (nodes (item id e y))) -> root host' d) /\
    rows (assign_graph G F id e y) (MLeaf F) = rows G e /\ cols (assign_graph G F id e y) (MLeaf F) = cols G e.
Proof.
  intros T G host rank WF F id e y FE Nr Ky Yr Yc Pr Pc Nd Fresh Hd.
  set (mine := fun i => existsb (Nat.eqb i) (nodes (item id e y))).
  set (top := Datatypes.S (list_max (map rank (leaves (item id e y))))).
  set (uses := fun o => usesb G F (rank o) o).
  assert (NF : y <> F) by (intros ->; unfold is_expression in FE; rewrite Ky in FE; destruct FE).
  assert (Ko : forall o, o <> F -> g_kind (assign_graph G F id e y) o = g_kind G o) by (intros o Ne; now apply other_kind).
  assert (Ro : forall o, o <> F -> g_rows (assign_graph G F id e y) o = g_rows G o) by (intros o Ne; cbn [assign_graph g_rows]; destruct (Nat.eqb_spec o F); [contradiction|reflexivity]).
  assert (Co : forall o, o <> F -> g_cols (assign_graph G F id e y) o = g_cols G o) by (intros o Ne; cbn [assign_graph g_cols]; destruct (Nat.eqb_spec o F); [contradiction|reflexivity]).
  assert (RF : g_rows (assign_graph G F id e y) F = rows G e) by (cbn [assign_graph g_rows]; now rewrite Nat.eqb_refl).
  assert (CF : g_cols (assign_graph G F id e y) F = cols G e) by (cbn [assign_graph g_cols]; now rewrite Nat.eqb_refl).
  assert (De : rows (assign_graph G F id e y) e = rows G e /\ cols (assign_graph G F id e y) e = cols G e).
  { apply dims_ext. intros o Ho. assert (o <> F) by (intros ->; apply Nr; now apply reach_leaf). rewrite Ro, Co; auto. }
  assert (Da : forall o i a z, g_kind G o = KExp i a z -> rows (assign_graph G F id e y) a = rows G a /\ cols (assign_graph G F id e y) a = cols G a).
  { intros o i a z Hk. apply dims_ext. intros o' Ho'. destruct (Nat.eq_dec o' F) as [->|Ne]; [|rewrite Ro, Co; auto].
    destruct Hd as [[H1 H2]|Hd]; [rewrite RF, CF; auto|]. elim (Hd _ _ _ _ Hk Ho'). }
  assert (Nl : forall o, In o (leaves (item id e y)) -> uses o = false).
  { intros o Ho. destruct (uses o) eqn:Eu; [|reflexivity]. apply usesb_reach in Eu. simpl in Ho. apply in_app_or in Ho. exfalso.
    destruct Ho as [Ho|[<-|[]]].
    - apply Nr. clear - Ho Eu. induction Eu as [z Hz|z i a w z' Rz IHz Hk Hz]; [destruct Hz as [<-|[]]; now apply reach_leaf|eapply reach_item; eauto].
    - apply NF. clear - Eu Ky. remember F as f eqn:Ef. clear Ef. assert (H : f = y); [|auto].
      induction Eu as [z Hz|z i a w z' Rz IHz Hk Hz]; [destruct Hz as [<-|[]]; reflexivity|subst; congruence]. }
  assert (Top : forall o, In o (leaves (item id e y)) -> rank o < top).
  { intros o Ho. unfold top. apply le_n_S. pose proof (proj1 (list_max_le (map rank (leaves (item id e y))) _) (Nat.le_refl _)) as Q.
    rewrite Forall_forall in Q. apply Q. now apply in_map. }
  exists (fun i => if mine i then Some F else match host i with Some o => if o =? F then None else Some o | None => None end), (fun o => if uses o then rank o + top else rank o).
  split; [|split; [|split; [exact RF|exact CF]]].
  - constructor.
    + intros o. destruct (Nat.eq_dec o F) as [->|Ne]; [rewrite RF, CF; auto|]. rewrite Ro, Co by auto. apply (wf_pos WF).
    + intros o i a z o' Hk Hin. destruct (Nat.eq_dec o F) as [->|Ne].
      * rewrite F_kind in Hk. injection Hk as <- <- <-. rewrite (Nl _ Hin). pose proof (Top _ Hin).
        assert (uses F = true) as ->; [|lia]. unfold uses. destruct (rank F); cbn [usesb]; now rewrite Nat.eqb_refl.
      * rewrite Ko in Hk by auto. pose proof (wf_rank WF Hk Hin) as Lt. destruct (uses o') eqn:Eu; [|destruct (uses o); lia].
        assert (uses o = true) as ->; [|lia]. unfold uses in *. destruct (rank o) as [|n]; [lia|]. cbn [usesb]. rewrite Hk.
        apply orb_true_intro. right. apply existsb_exists. exists o'. split; [exact Hin|]. eapply usesb_mono; [|exact Eu]. lia.
    + intros o i a z Hk. destruct (Nat.eq_dec o F) as [->|Ne].
      * rewrite F_kind in Hk. injection Hk as <- <- <-. split; [exact Nd|]. intros j Hj.
        assert (mine j = true) as ->; [|reflexivity]. apply existsb_exists. exists j. split; [exact Hj|apply Nat.eqb_refl].
      * rewrite Ko in Hk by auto. destruct (wf_nodes WF Hk) as [N1 N2]. split; [exact N1|]. intros j Hj. rewrite (N2 _ Hj).
        destruct (mine j) eqn:Em; [|destruct (Nat.eqb_spec o F); [contradiction|reflexivity]].
        exfalso. apply existsb_exists in Em. destruct Em as (j' & Hj' & Ej). apply Nat.eqb_eq in Ej. subst j'. specialize (Fresh _ Hj'). specialize (N2 _ Hj). congruence.
    + intros o i a z Hk. destruct (Nat.eq_dec o F) as [->|Ne].
      * rewrite F_kind in Hk. injection Hk as <- <- <-. rewrite RF, CF. destruct De as [-> ->]. auto.
      * rewrite Ko in Hk by auto. rewrite Ro, Co by auto. destruct (Da _ _ _ _ Hk) as [-> ->]. exact (wf_dims WF Hk).
    + intros o i a z Hk. destruct (Nat.eq_dec o F) as [->|Ne].
      * rewrite F_kind in Hk. injection Hk as <- <- <-. rewrite Ko, Ro, Co by auto. destruct De as [_ ->]. auto.
      * rewrite Ko in Hk by auto. destruct (wf_eye WF Hk) as (E1 & E2 & E3).
        assert (Nz : z <> F) by (intros ->; unfold is_expression in FE; rewrite E1 in FE; destruct FE).
        rewrite Ko, Ro, Co by auto. destruct (Da _ _ _ _ Hk) as [_ ->]. auto.
  - intros d [N1 Hh] Hdis. split; [exact N1|]. intros i Hi. rewrite (Hh _ Hi).
    destruct (mine i) eqn:Em; [|reflexivity]. exfalso. apply existsb_exists in Em. destruct Em as (j & Hj & Ej). apply Nat.eqb_eq in Ej. subst j. exact (Hdis _ Hi Hj).
Qed.
Print Assumptions C71_still_a_program.
(** V : 2x1, F = V + V is 2x1; F = transpose(V) * V makes it 1x1: Eval(F) gives 2 * 1 * 1 entries, namely 50 for V = (5,5). *)
Definition ad_objs : list (gobj (T := Z)) :=
  [ (LVar, (2, 1)); (LEye, (1, 1)); (KExp 40 (MBin BSum 41 (MLeaf 0) (MLeaf 0)) 1, (2, 1)) ].
Definition ad_graph : graph Z := graph_of ad_objs.
Definition ad_new : mexp Z := MBin BProd 61 (MUn UTr 62 (MLeaf 0)) (MLeaf 0).
Definition ad_env := ent [[5; 5]]%Z.
Lemma ad_wf : wf_graph ad_graph (host_of ad_objs) (fun o => o).
Proof. solve_wf. Qed.
Example C71_still_a_program_nonvacuous : exists host' rank' p s1 q s2,
  wf_graph (assign_graph ad_graph 2 60 ad_new 1) host' rank' /\
  returns Zin HEigen ad_graph (AEval ad_env (MLeaf 2)) (init mem0) p s1 /\
  returns Zin HEigen (assign_graph ad_graph 2 60 ad_new 1) (AEval ad_env (MLeaf 2)) (assign_exp ad_graph 2 s1) q s2 /\
  (match get (mm s1) p with Some o => o_rows o = 2 /\ o_cols o = 1 | None => False end) /\
  (match get (mm s2) q with Some o => o_rows o = 1 /\ o_cols o = 1 | None => False end) /\
  val (mm s1) p 1 0 = 10%Z /\ val (mm s2) q 0 0 = 50%Z.
Proof.
  destruct (C71_still_a_program ad_wf (F := 2) (id := 60) (e := ad_new) (y := 1)) as (host' & rank' & W & _).
  - exact Logic.I.
  - intros H. assert (Q : 2 = 0); [|discriminate]. remember 2 as f eqn:Ef. clear Ef.
    induction H as [o Ho|o i a z o' Ho IH Hk Hin]; [simpl in Ho; leaf_in Ho; reflexivity|subst o; discriminate].
  - reflexivity.
  - reflexivity.
  - reflexivity.
  - vm_compute; lia.
  - vm_compute; lia.
  - repeat constructor; simpl; intuition discriminate.
  - intros i Hi. simpl in Hi. leaf_in Hi; reflexivity.
  - right. intros o i a z Hk. each o 3; try discriminate; [injection Hk as <- <- <-; simpl; intuition discriminate|].
    destruct o; discriminate.
  - destruct (@run1 _ _ Zin HEigen ad_graph (AEval ad_env (MLeaf 2)) (init mem0)
      (fun p s1 => match outcome Zin (backend_of Zin HEigen) (assign_graph ad_graph 2 60 ad_new 1) (AEval ad_env (MLeaf 2)) (assign_exp ad_graph 2 s1) with
        | Some (q, s2) => (match get (mm s1) p with Some o => o_rows o = 2 /\ o_cols o = 1 | None => False end) /\
                          (match get (mm s2) q with Some o => o_rows o = 1 /\ o_cols o = 1 | None => False end) /\
                          val (mm s1) p 1 0 = 10%Z /\ val (mm s2) q 0 0 = 50%Z
        | None => False end)) as (p & s1 & E1 & V); [vm_compute; repeat split; reflexivity|].
    destruct (outcome _ _ _ (AEval ad_env (MLeaf 2)) (assign_exp ad_graph 2 s1)) as [[q s2]|] eqn:E2; [|destruct V].
    exists host', rank', p, s1, q, s2. split; [exact W|]. split; [exact E1|]. split; [exact (outcome_returns E2)|exact V].
Qed.

(** ** Results handed out before *)
(** The result of any other expression keeps its contents when F is assigned ... *)
Theorem C71_other_results_stay : forall {T} {N : Num T}, NumLaws N -> forall (S : sched T), valid_sched S ->
  forall (h : handler) (G : graph T) host s, lived S h G host s ->
  forall a, settled G (act_exp a) s -> act_ok (backend_of S h) G host a ->
  forall F, is_expression G F -> act_exp a <> MLeaf F ->
  forall p s1, returns S h G a s p s1 ->
  (match a with AEval _ _ => True | ADevalF _ e _ => dloc G e <> dloc G (MLeaf F) end) ->
  get (mm (assign_exp G F s1)) p = get (mm s1) p /\ right G a (mm (assign_exp G F s1)) p.
Proof.
  intros T N L S VS h G host s R a Hs Ha F FE Ne p s1 Hret Dl.
  destruct (lived_Inv L VS R) as (I & Ow & rank & WF).
  destruct (right_call L VS WF I Hs Ha) as (q & s2 & E & Rt & I2). destruct (returns_det Hret E) as [-> ->].
  destruct (act_own L VS WF I Ow Hs Ha) as (q' & s3 & E' & Ow3 & Loc). destruct (returns_det E E') as [<- <-].
  assert (G1 : get (mm (assign_exp G F s2)) q = get (mm s2) q).
  { assert (exists w, ar s2 w = Some q /\ owned G F w = false) as (w & Ew & Nw); [|exact (kept_get I2 Ow3 FE Ew Nw)].
    pose proof Ha as ([Nd Hh] & _).
    assert (Hon : forall i, owned G F (ONode i 0) = true -> host i = Some F).
    { intros i. unfold owned. destruct (g_kind G F) as [| | | |id e y] eqn:Ek; try discriminate. intros Q. apply existsb_exists in Q.
      destruct Q as (j & Hj & Ej). apply Nat.eqb_eq in Ej. subst j. exact (proj2 (wf_nodes WF Ek) _ Hj). }
    assert (Hone : forall i k, owned G F (ONode i k) = owned G F (ONode i 0)) by reflexivity.
    assert (Own0 : forall i k, host i <> Some F -> owned G F (ONode i k) = false).
    { intros i k Q. rewrite Hone. destruct (owned G F (ONode i 0)) eqn:Eo; [|reflexivity]. elim Q. now apply Hon. }
    destruct a as [rho e|rho e x]; cbn [act_exp] in *.
    - exists (loc G e). split; [exact Loc|]. destruct e as [o|k i l r|k i b]; cbn [loc].
      + assert (No : o <> F) by congruence. destruct (g_kind G o) as [| | | |id e y] eqn:Ek; try (simpl; now apply Nat.eqb_neq).
        apply Own0. rewrite (exp_host WF Ek). congruence.
      + apply Own0. rewrite (Hh i) by (simpl; auto). discriminate.
      + apply Own0. rewrite (Hh i) by (simpl; auto). discriminate.
    - exists (dloc G e). split; [exact Loc|].
      assert (Dn : dloc G (MLeaf F) = match g_kind G F with KExp id _ _ => ONode id 1 | _ => ODres F end) by reflexivity.
      assert (Cs : (exists i k, dloc G e = ONode i k /\ In i (nodes e)) \/ exists o, dloc G e = dloc G (MLeaf o)).
      { clear. induction e as [o|k id l _ r _|k id b IH]; simpl; [right; exists o; reflexivity|left; eauto|].
        destruct k; try (left; eexists _, _; split; [reflexivity|auto]); (destruct IH as [(i & k & E & Hin)|(o & E)]; [left; exists i, k; auto|right; exists o; exact E]). }
      destruct Cs as [(i & k & -> & Hin)|(o & Eo)]; [apply Own0; rewrite (Hh _ Hin); discriminate|]. rewrite Eo in *.
      assert (No : o <> F) by (intros ->; auto). cbn [dloc]. destruct (g_kind G o) as [| | | |id e' y] eqn:Ek; try (simpl; now apply Nat.eqb_neq).
      apply Own0. rewrite (exp_host WF Ek). congruence. }
  split; [exact G1|]. destruct a as [rho e|rho e x]; cbn [right] in *.
  - destruct Rt as (D & HD & Hp). exists D. split; [exact HD|]. exact (holds_same G1 Hp).
  - destruct Rt as (V & D & HD & Hp). exists V, D. split; [exact HD|]. exact (holds_same G1 Hp).
Qed.
Print Assumptions C71_other_results_stay.
(** ... but the matrix Eval(F) or DevalF(F, X) returned loses its entries: reading it afterwards
    follows a null pointer. *)
Theorem C71_own_result_lost : forall {T} {N : Num T}, NumLaws N -> forall (S : sched T), valid_sched S ->
  forall (h : handler) (G : graph T) host s, lived S h G host s ->
  forall a F, act_exp a = MLeaf F -> settled G (MLeaf F) s -> act_ok (backend_of S h) G host a -> is_expression G F ->
  forall p s1, returns S h G a s p s1 -> get (mm (assign_exp G F s1)) p = None.
Proof.
  intros T N L S VS h G host s R a F Ea Hs Ha FE p s1 Hret. rewrite <- Ea in Hs.
  destruct (lived_Inv L VS R) as (I & Ow & rank & WF).
  destruct (right_call L VS WF I Hs Ha) as (q & s2 & E & Rt & I2). destruct (returns_det Hret E) as [-> ->].
  destruct (act_own L VS WF I Ow Hs Ha) as (q' & s3 & E' & Ow3 & Loc). destruct (returns_det E E') as [<- <-].
  assert (Lq : q < length (objs (mm s2))) by (destruct a; destruct (sl_slot (inv_slots I2) Loc) as ((o & Ho) & _); exact (get_lt Ho)).
  assert (Q : mp_result G F s2 = Some q \/ mp_dresult G F s2 = Some q).
  { unfold mp_result, mp_dresult. destruct a as [rho e|rho e x]; cbn [act_exp] in Ea; subst e; cbn [loc dloc] in Loc; destruct (g_kind G F) as [| | | |id e y] eqn:Ek; auto.
    - left. destruct E as (n & E). specialize (E (Datatypes.S n) ltac:(lia)). cbn [call] in E. unfold Eval, ebind in E.
      destruct (reset G (Datatypes.S n) (MLeaf F) s) as [[u s4]| | |]; try discriminate. cbn [eval] in E. rewrite Ek in E. unfold ebind, getf in E.
      destruct (if f_vis (fl s4 F) then _ else _) as [[u' s5]| | |]; try discriminate. unfold nonnull in E.
      destruct (f_res (fl s5 F)) as [z|] eqn:Ez; [|discriminate]. injection E as <- <-. exact Ez.
    - right. destruct E as (n & E). specialize (E (Datatypes.S n) ltac:(lia)). cbn [call] in E. unfold DevalF, ebind in E.
      destruct (reset G (Datatypes.S n) (MLeaf F) s) as [[u s4]| | |]; try discriminate. cbn [devalF] in E. rewrite Ek in E. unfold ebind, getf in E.
      destruct (if f_vis (fl s4 F) then _ else _) as [[u' s5]| | |]; try discriminate. unfold nonnull in E.
      destruct (f_dres (fl s5 F)) as [z|] eqn:Ez; [|discriminate]. injection E as <- <-. exact Ez. }
  cbn [assign_exp mm]. destruct Q as [->| ->]; [apply get_back_none|]; apply get_back_same; now rewrite ?length_back.
Qed.
Print Assumptions C71_own_result_lost.

(** ** The hypotheses are met *)
(** X = 1, Y = 7, A = X + X, C = A * Y: Eval(C) gives 14; A = X * Y; Eval(C) gives 49, Eval(A) 7,
    and DevalF(A, X) 7. *)
Definition as_new : mexp Z := MBin BProd 61 (MLeaf 0) (MLeaf 1).
Definition as_objs : list (gobj (T := Z)) :=
  [ (LVar, (1, 1)); (LVar, (1, 1)); (LEye, (1, 1)); (KExp 60 as_new 2, (1, 1));
    (KExp 40 (MBin BProd 41 (MLeaf 0) (MLeaf 0)) 2, (1, 1)); (KExp 50 (MBin BProd 51 (MLeaf 3) (MLeaf 1)) 2, (1, 1)) ].
Definition as_graph : graph Z := assign_graph st_graph 3 60 as_new 2.
Lemma as_wf : wf_graph as_graph (host_of as_objs) (fun o => o).
Proof.
  constructor.
  - intros o. each o 8; try (destruct o); vm_compute; lia.
  - intros o id e y o' H Hin. each o 8; try (destruct o); try discriminate H; injection H as <- <- <-; simpl in Hin; leaf_in Hin; lia.
  - intros o id e y H. each o 8; try (destruct o); try discriminate H; injection H as <- <- <-;
    (split; [repeat constructor; simpl; intuition discriminate | intros i Hin; simpl in Hin; leaf_in Hin; reflexivity]).
  - intros o id e y H. each o 8; try (destruct o); try discriminate H; injection H as <- <- <-; split; reflexivity.
  - intros o id e y H. each o 8; try (destruct o); try discriminate H; injection H as <- <- <-; repeat split; reflexivity.
Qed.
Lemma as_var_settled {T} (G : graph T) (s : st (T := T)) e : (forall o, In o (leaves e) -> is_leaf G o) -> settled G e s.
Proof.
  intros Hl o i a z o' Ho Hk _ _ _. exfalso.
  assert (is_leaf G o) as Q; [|unfold is_leaf in Q; rewrite Hk in Q; destruct Q].
  clear Hk. induction Ho as [o Hin|o i' a' z' o'' Ho IH Hk Hin]; [auto|]. unfold is_leaf in IH. rewrite Hk in IH. destruct IH.
Qed.
Lemma as_fits o : o = 3 \/ o = 5 -> fits as_graph (MLeaf o).
Proof.
  assert (fits as_graph (MLeaf 3)) by (eapply fits_exp; [reflexivity|]; apply fits_prod; [| |reflexivity]; now apply fits_leaf).
  intros [-> | ->]; [assumption|]. eapply fits_exp; [reflexivity|]; apply fits_prod; [assumption|now apply fits_leaf|reflexivity].
Qed.
Lemma as_distinct : distinct_vars as_graph.
Proof.
  intros o o' H H' Ne.
  assert (o <= 1) by (each o 6; try lia; try discriminate; destruct o; discriminate).
  assert (o' <= 1) by (each o' 6; try lia; try discriminate; destruct o'; discriminate).
  assert (D : o = 0 /\ o' = 1 \/ o = 1 /\ o' = 0) by lia. destruct D as [[-> ->] | [-> ->]]; (split; [simpl; lia|]); simpl; lia.
Qed.
Example C71_nonvacuous : exists p s1 q s2 r s3 d s4,
  lived Zin HEigen st_graph (host_of st_objs) s1 /\ is_expression st_graph 3 /\
  wf_graph as_graph (host_of as_objs) (fun o => o) /\ distinct_vars as_graph /\
  (settled st_graph as_new s1 /\ f_vis (fl s1 3) = true /\ settled st_graph (MLeaf 5) s1) /\
  (fits as_graph as_new /\ fits as_graph (MLeaf 5) /\ @root Z (host_of as_objs) (MLeaf 5)) /\
  (settled as_graph (MLeaf 3) (assign_exp st_graph 3 s1) /\ settled as_graph (MLeaf 5) (assign_exp st_graph 3 s1)) /\
  (returns Zin HEigen st_graph (AEval one (MLeaf 5)) (init mem0) p s1 /\
   returns Zin HEigen as_graph (AEval one (MLeaf 5)) (assign_exp st_graph 3 s1) q s2 /\
   returns Zin HEigen as_graph (AEval one (MLeaf 3)) s2 r s3 /\ returns Zin HEigen as_graph (ADevalF one (MLeaf 3) 0) s3 d s4) /\
  (val (mm s1) p 0 0 = 14 /\ val (mm s2) q 0 0 = 49 /\ val (mm s3) r 0 0 = 7 /\ val (mm s4) d 0 0 = 7)%Z.
Proof.
  assert (Hrun : exists p s1 q s2 r s3 d s4, (returns Zin HEigen st_graph (AEval one (MLeaf 5)) (init mem0) p s1 /\
   returns Zin HEigen as_graph (AEval one (MLeaf 5)) (assign_exp st_graph 3 s1) q s2 /\
   returns Zin HEigen as_graph (AEval one (MLeaf 3)) s2 r s3 /\ returns Zin HEigen as_graph (ADevalF one (MLeaf 3) 0) s3 d s4) /\
   (val (mm s1) p 0 0 = 14 /\ val (mm s2) q 0 0 = 49 /\ val (mm s3) r 0 0 = 7 /\ val (mm s4) d 0 0 = 7)%Z /\ f_vis (fl s1 3) = true /\ f_vis (fl s1 5) = true).
  { destruct (@run1 _ _ Zin HEigen st_graph (AEval one (MLeaf 5)) (init mem0)
      (fun p s1 => match outcome Zin (backend_of Zin HEigen) as_graph (AEval one (MLeaf 5)) (assign_exp st_graph 3 s1) with
        | Some (q, s2) => match outcome Zin (backend_of Zin HEigen) as_graph (AEval one (MLeaf 3)) s2 with
          | Some (r, s3) => match outcome Zin (backend_of Zin HEigen) as_graph (ADevalF one (MLeaf 3) 0) s3 with
            | Some (d, s4) => (val (mm s1) p 0 0 = 14 /\ val (mm s2) q 0 0 = 49 /\ val (mm s3) r 0 0 = 7 /\ val (mm s4) d 0 0 = 7)%Z /\ f_vis (fl s1 3) = true /\ f_vis (fl s1 5) = true
            | None => False end | None => False end | None => False end)) as (p & s1 & E1 & V); [vm_compute; repeat split; reflexivity|].
    destruct (outcome _ _ _ (AEval one (MLeaf 5)) (assign_exp st_graph 3 s1)) as [[q s2]|] eqn:E2; [|destruct V].
    destruct (outcome _ _ _ (AEval one (MLeaf 3)) s2) as [[r s3]|] eqn:E3; [|destruct V].
    destruct (outcome _ _ _ (ADevalF one (MLeaf 3) 0) s3) as [[d s4]|] eqn:E4; [|destruct V].
    exists p, s1, q, s2, r, s3, d, s4. split; [|exact V]. split; [exact E1|]. split; [exact (outcome_returns E2)|]. split; [exact (outcome_returns E3)|exact (outcome_returns E4)]. }
  destruct Hrun as (p & s1 & q & s2 & r & s3 & d & s4 & Rn & V & V3 & V5).
  assert (S0 : settled st_graph (MLeaf 5) (init mem0)) by (apply untouched_settled; intros o _ _; reflexivity).
  assert (Ss : settled st_graph as_new s1) by (apply as_var_settled; intros o [<-|[<-|[]]]; exact Logic.I).
  assert (S5 : settled st_graph (MLeaf 5) s1).
  { intros o i a z o' Ho Hk Vf. exfalso. assert (Q : o = 5 \/ o = 3 \/ is_leaf st_graph o).
    { clear - Ho. induction Ho as [o [<-|[]]|o i a z o' Ho [-> |[-> |IH]] Hk Hin]; [auto| | |unfold is_leaf in IH; rewrite Hk in IH; destruct IH].
      - injection Hk as <- <- <-. simpl in Hin. leaf_in Hin; auto; right; right; exact Logic.I.
      - injection Hk as <- <- <-. simpl in Hin. leaf_in Hin; auto; right; right; exact Logic.I. }
    destruct Q as [-> |[-> |Q]]; [congruence|congruence|]. unfold is_leaf in Q. rewrite Hk in Q. destruct Q. }
  exists p, s1, q, s2, r, s3, d, s4.
  split; [exact (lived_call (a := AEval one (MLeaf 5)) (lived_init Zin HEigen st_wf tame0) S0 (st_ok one (or_intror (or_intror eq_refl))) (proj1 Rn))|].
  split; [exact Logic.I|]. split; [exact as_wf|]. split; [exact as_distinct|]. split; [auto|].
  split; [split; [apply fits_prod; [| |reflexivity]; now apply fits_leaf|]; split; [apply as_fits; auto|split; [constructor|intros i []]]|].
  split; [split|]; [exact (@assign_settled Z st_graph 3 60 as_new 2 (host_of as_objs) (fun o => o) s1 _ Logic.I as_wf Ss (or_introl V3) (or_intror eq_refl))|exact (@assign_settled Z st_graph 3 60 as_new 2 (host_of as_objs) (fun o => o) s1 _ Logic.I as_wf Ss (or_introl V3) (or_introl S5))|].
  auto.
Qed.
(** Eval(A); A = X * Y; then the first Eval of C = A * Y, never evaluated before: A is still
    marked visited and points to its old result, whose buffer is gone. *)
Theorem C71_new_user_refuted : exists (G : graph Z) host F id e y host' rank' s d,
  lived Zin HEigen G host s /\ is_expression G F /\ wf_graph (assign_graph G F id e y) host' rank' /\
  settled G e s /\ f_vis (fl s F) = true /\ root host' d /\ fits (assign_graph G F id e y) d /\
  forall f, 20 <= f -> call Zin (backend_of Zin HEigen) (assign_graph G F id e y) f (AEval one d) (assign_exp G F s) = EUndef.
Proof.
  destruct (@run1 _ _ Zin HEigen st_graph (AEval one (MLeaf 3)) (init mem0)
    (fun p s1 => f_vis (fl s1 3) = true /\ match call Zin (backend_of Zin HEigen) as_graph 20 (AEval one (MLeaf 5)) (assign_exp st_graph 3 s1) with EUndef => True | _ => False end))
    as (p & s1 & E1 & V3 & V); [vm_compute; auto|].
  assert (S0 : settled st_graph (MLeaf 3) (init mem0)) by (apply untouched_settled; intros o _ _; reflexivity).
  exists st_graph, (host_of st_objs), 3, 60, as_new, 2, (host_of as_objs), (fun o => o), s1, (MLeaf 5).
  split; [exact (lived_call (a := AEval one (MLeaf 3)) (lived_init Zin HEigen st_wf tame0) S0 (st_ok one (or_introl eq_refl)) E1)|].
  split; [exact Logic.I|]. split; [exact as_wf|].
  split; [apply as_var_settled; intros o [<-|[<-|[]]]; exact Logic.I|]. split; [exact V3|]. split; [split; [constructor|intros i []]|]. split; [apply as_fits; auto|].
  fold as_graph. intros f Hf.
  destruct (call Zin (backend_of Zin HEigen) as_graph 20 (AEval one (MLeaf 5)) (assign_exp st_graph 3 s1)) eqn:E; try tauto. rewrite (call_fuel Hf) by congruence. exact E.
Qed.
Print Assumptions C71_new_user_refuted.
