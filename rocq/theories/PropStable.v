(** * Property C72: matrices handed out by Eval and DevalF, and the client's own matrices *)
From Coq Require Import List Arith Bool Lia ZArith.
From Verif Require Import Num NumInst MatMem Kernels KernelFacts KernelProofs KernelBlocks KernelMore Registry KernelStep Backend Slots Exec Sums ConvProofs ConvDerv MatEngine MatGraph MatLeaf MatEval MatDeval MatHist MatSpec MatCalls MatFuel MatCalc MatAssign PropMatrix PropAssign.
Import ListNotations.
Set Implicit Arguments.
Unset Strict Implicit.
Local Open Scope nat_scope.

(** ** Specification *)
(** From state s the program comes to s2 by calls of Eval and DevalF on settled expressions, each
    call satisfying P. *)
Inductive calls {T} {N : Num T} (S : sched T) (h : handler) (G : graph T) (host : nat -> option obj) (P : act T -> Prop) (s : st (T := T)) : st (T := T) -> Prop :=
| calls_none : calls S h G host P s s
| calls_more s1 a p s2 : calls S h G host P s s1 -> P a -> settled G (act_exp a) s1 -> act_ok (backend_of S h) G host a ->
    returns S h G a s1 p s2 -> calls S h G host P s s2.
Definition any {T} (a : act T) : Prop := True.
Definition evals {T} (a : act T) : Prop := match a with AEval _ _ => True | ADevalF _ _ _ => False end.
(** A program that starts with the matrices of memory m, calls Eval and DevalF, and assigns new
    expressions to its named matrices. *)
Inductive from {T} {N : Num T} (S : sched T) (h : handler) (m : mem T) : graph T -> (nat -> option obj) -> st (T := T) -> Prop :=
| from_init G host rank : wf_graph G host rank -> tame m -> from S h m G host (init m)
| from_call G host s a p s' : from S h m G host s -> settled G (act_exp a) s -> act_ok (backend_of S h) G host a ->
    returns S h G a s p s' -> from S h m G host s'
| from_assign G host s F id e y host' rank' : from S h m G host s -> is_expression G F ->
    wf_graph (assign_graph G F id e y) host' rank' ->
    from S h m (assign_graph G F id e y) host' (assign_exp G F s).

(** ** Proofs *)
Section Main.
Context {T : Type} {N : Num T}.
Variable L : NumLaws N.
Variable S : sched T.
Hypothesis VS : valid_sched S.
Variable h : handler.
Notation st := (st (T := T)).
Implicit Types s : st.

Lemma from_lived m G host s : from S h m G host s -> lived S h G host s.
Proof. induction 1; [econstructor; eauto|eapply lived_call; eauto|eapply lived_assign; eauto]. Qed.

(** Where a call leaves its result. *)
Definition place (G : graph T) (a : act T) : owner := match a with AEval _ e => loc G e | ADevalF _ e _ => dloc G e end.
Lemma act_full G host rank a s : wf_graph G host rank -> Inv G s -> Own G s -> settled G (act_exp a) s -> act_ok (backend_of S h) G host a ->
  exists p s', returns S h G a s p s' /\ right G a (mm s') p /\ Inv G s' /\ Own G s' /\ ar s' (place G a) = Some p /\ grew s s' /\ stable G s s' /\ (forall b, b <= length (objs (mm s)) -> above b G s -> above b G s') /\
    match a with
    | AEval _ _ => keeps (fun w => match w with ONode _ k => k <> 0 | ODres _ => True | ORes _ => False end) s s'
    | ADevalF rho e x => forall F id b y D, e = MLeaf F -> g_kind G F = KExp id b y -> den G rho (MLeaf F) D -> exists q, at_ s' (ONode id 0) q (mat_of G (MLeaf F) D)
    end /\ (forall o, reach G (act_exp a) o -> f_vis (fl s' o) = true) /\ (forall o, ~ reach G (act_exp a) o -> fl s' o = fl s o).
Proof.
  intros WF I Ow Hs Ha.
  destruct (call_right L VS (backend_value VS (fun _ => L)) (or_intror (backend_kron_zeroed VS h L)) WF I Hs Ha) as (n0 & p0 & s0 & E0 & R0 & I0 & V0 & Nv0).
  assert (X0 : returns S h G a s p0 s0) by (now exists n0).
  destruct Ha as (Hr & Hf & Ha). destruct a as [rho e|rho e x]; simpl in *.
  - destruct (den_total rho Hf) as (F & HF). destruct (den_mval L WF Hf HF) as (v & Hv & Mv).
    destruct (eval_own VS (backend_value VS (fun _ => L)) (or_intror (backend_kron_zeroed VS h L)) WF I Ow Hs Hr Hv) as (n & p & s' & E & (Ow' & Ab) & Ap & Gr & St & K).
    destruct (returns_det X0 (ex_intro _ n E)) as [-> ->]. exists p, s'. repeat (split; [assumption|]). assumption.
  - destruct Ha as (KO & Xv & DV). destruct (dif_total rho x Hf) as (F & D & HD).
    destruct (dif_mder L WF Xv DV Hf HD) as (v & dv & Hv & Mv & Mdv).
    destruct (devalF_own VS (backend_value VS (fun _ => L)) WF KO Xv DV I Ow Hs Hr Hv) as (n & p & s' & E & (Ow' & Ab) & Ap & Gr & St & K).
    destruct (returns_det X0 (ex_intro _ n E)) as [-> ->]. exists p, s'. repeat (split; [assumption|]). split; [|split; assumption].
    intros F' id b y D' -> Hk HD'. destruct (den_mval L WF Hf HD') as (w & Hw & Mw).
    inversion Hw as [? Hl| ? i a' y' ? Hk' Hi| |]; subst; [unfold is_leaf in Hl; rewrite Hk in Hl; destruct Hl|]. rewrite Hk in Hk'. injection Hk' as <- <- <-.
    destruct (K F' id b y w) as (q & Eq & Hq); auto; [apply reach_leaf; simpl; auto|]. exists q. split; [exact Eq|]. exact (holds_meq Hq Mw).
Qed.
Lemma calls_keep G host rank P s s2 : wf_graph G host rank -> Inv G s -> Own G s -> calls S h G host P s s2 ->
  Inv G s2 /\ Own G s2 /\ stable G s s2 /\
  ((forall a, P a -> evals a) -> keeps (fun w => match w with ONode _ k => k <> 0 | ODres _ => True | ORes _ => False end) s s2).
Proof.
  intros WF I Ow. induction 1 as [|s1 a p s2 C (I1 & O1 & S1 & K1) Pa Hs Ha Hr].
  - split; [exact I|]. split; [exact Ow|]. split; [now apply stable_same|]. intros _. apply keeps_refl.
  - destruct (act_full WF I1 O1 Hs Ha) as (q & s3 & E & R & I2 & O2 & Ap & Gr & St & _ & K & _). destruct (returns_det Hr E) as [_ ->].
    split; [exact I2|]. split; [exact O2|]. split; [exact (stable_trans S1 St)|]. intros Q. pose proof (Q a Pa) as Ea. destruct a; [|destruct Ea].
    eapply keeps_trans; [exact (K1 Q)| |exact K]. auto.
Qed.
Lemma sized_holds s w p (v : mat T) : at_ s w p v -> sized_at s w p (mr v) (mc v).
Proof. intros (E & (k & sp & b & Hg & Hl) & _). split; [exact E|]. eexists. split; [exact Hg|]. split; reflexivity. Qed.
End Main.

(** The matrix Eval(F) returned for a named F is still there after any further calls, with F's
    dimensions, and every later Eval(F) returns the same matrix. *)
Theorem C72_value_pointer : forall {T} {N : Num T}, NumLaws N -> forall (S : sched T), valid_sched S ->
  forall (h : handler) (G : graph T) host s, lived S h G host s ->
  forall F id e y rho p s1 s2, g_kind G F = KExp id e y -> fits G (MLeaf F) -> settled G (MLeaf F) s ->
  returns S h G (AEval rho (MLeaf F)) s p s1 -> calls S h G host any s1 s2 ->
  (exists o, get (mm s2) p = Some o /\ o_rows o = g_rows G F /\ o_cols o = g_cols G F) /\
  forall rho' q s3, settled G (MLeaf F) s2 -> returns S h G (AEval rho' (MLeaf F)) s2 q s3 -> q = p.
Proof.
  intros T N L S VS h G host s R F id e y rho p s1 s2 Hk Hf Hs Hr C. destruct (lived_Inv L VS R) as (I & Ow & rank & WF).
  assert (Ok : forall rho, act_ok (backend_of S h) G host (AEval rho (MLeaf F))).
  { intros r. split; [split; [constructor|intros i []]|]. split; [exact Hf|exact Logic.I]. }
  destruct (act_full L VS WF I Ow (a := AEval rho (MLeaf F)) Hs (Ok rho)) as (p' & s1' & E & (D & HD & Hp) & I1 & O1 & Ap & _). destruct (returns_det Hr E) as [<- <-].
  destruct (calls_keep L VS WF I1 O1 C) as (I2 & O2 & St & _). cbn [place] in Ap. simpl in Ap. rewrite Hk in Ap.
  assert (Z : sized_at s2 (ONode id 0) p (g_rows G F) (g_cols G F)).
  { refine (St F id e y p Hk _). exact (sized_holds (conj Ap Hp)). }
  split; [destruct Z as [_ Z]; exact Z|].
  intros rho' q s3 Hs2 Hr2. destruct (act_full L VS WF I2 O2 (a := AEval rho' (MLeaf F)) Hs2 (Ok rho')) as (q' & s3' & E2 & _ & _ & _ & Aq & _ & St2 & _).
  destruct (returns_det Hr2 E2) as [<- <-]. simpl in Aq. rewrite Hk in Aq. destruct (St2 F id e y p Hk Z) as [Z2 _]. congruence.
Qed.
Print Assumptions C72_value_pointer.

(** auto& v = Eval(F); ... auto& d = DevalF(F, X): d is another matrix than v, and v holds the
    value of F at the entries of the DevalF call. *)
Theorem C72_value_with_derivative : forall {T} {N : Num T}, NumLaws N -> forall (S : sched T), valid_sched S ->
  forall (G : graph T) host s, lived S HEigen G host s -> distinct_vars G ->
  forall F id e y rho p s1 s2, g_kind G F = KExp id e y -> fits G (MLeaf F) -> settled G (MLeaf F) s ->
  returns S HEigen G (AEval rho (MLeaf F)) s p s1 -> calls S HEigen G host any s1 s2 ->
  forall rho' x, g_kind G x = LVar -> settled G (MLeaf F) s2 ->
  exists V D q s3, dif G rho' x (MLeaf F) V D /\ den G rho' (MLeaf F) V /\ returns S HEigen G (ADevalF rho' (MLeaf F) x) s2 q s3 /\
    holds (mm s3) q (jac_of G x (MLeaf F) D) /\ holds (mm s3) p (mat_of G (MLeaf F) V) /\ q <> p.
Proof.
  intros T N L S VS G host s R DV F id e y rho p s1 s2 Hk Hf Hs Hr C rho' x Xv Hs2. destruct (lived_Inv L VS R) as (I & Ow & rank & WF).
  assert (Rt : root host (@MLeaf T F)) by (split; [constructor|intros i []]).
  assert (Ok0 : act_ok (backend_of S HEigen) G host (AEval rho (MLeaf F))) by (split; [exact Rt|]; split; [exact Hf|exact Logic.I]).
  destruct (act_full L VS WF I Ow (a := AEval rho (MLeaf F)) Hs Ok0) as (p' & s1' & E & (D & HD & Hp) & I1 & O1 & Ap & _). destruct (returns_det Hr E) as [<- <-].
  destruct (calls_keep L VS WF I1 O1 C) as (I2 & O2 & St & _). simpl in Ap. rewrite Hk in Ap.
  assert (Z : sized_at s2 (ONode id 0) p (g_rows G F) (g_cols G F)).
  { refine (St F id e y p Hk _). exact (sized_holds (conj Ap Hp)). }
  assert (Ok : act_ok (backend_of S HEigen) G host (ADevalF rho' (MLeaf F) x)) by (split; [exact Rt|]; split; [exact Hf|]; split; [now apply eigen_kron|auto]).
  destruct (act_full L VS WF I2 O2 (a := ADevalF rho' (MLeaf F) x) Hs2 Ok) as (q & s3 & E2 & (V & D2 & HD2 & Hq) & I3 & _ & Aq & _ & St2 & _ & K & _).
  destruct (dif_mder L WF Xv DV Hf HD2) as (w & dw & Hw & Mw & _).
  assert (HV : den G rho' (MLeaf F) V) by (eapply dif_den; eauto).
  exists V, D2, q, s3. split; [exact HD2|]. split; [exact HV|]. split; [exact E2|]. split; [exact Hq|].
  destruct (K F id e y V eq_refl Hk HV) as (q' & Eq' & Hq'). destruct (St2 F id e y p Hk Z) as [Z2 _].
  assert (q' = p) by congruence. subst q'. split; [exact Hq'|]. intros ->. simpl in Aq. rewrite Hk in Aq. discriminate (sl_inj (inv_slots I3) Aq Eq').
Qed.
Print Assumptions C72_value_with_derivative.

(** A derivative is not disturbed by evaluations, of its own expression or of others, at whatever
    entries. *)
Theorem C72_derivative_stays : forall {T} {N : Num T}, NumLaws N -> forall (S : sched T), valid_sched S ->
  forall (G : graph T) host s, lived S HEigen G host s -> distinct_vars G ->
  forall e rho x, root host e -> fits G e -> settled G e s -> g_kind G x = LVar ->
  exists V D p s1, dif G rho x e V D /\ returns S HEigen G (ADevalF rho e x) s p s1 /\
    forall s2, calls S HEigen G host evals s1 s2 -> holds (mm s2) p (jac_of G x e D).
Proof.
  intros T N L S VS G host s R DV e rho x Rt Hf Hs Xv. destruct (lived_Inv L VS R) as (I & Ow & rank & WF).
  assert (Ok : act_ok (backend_of S HEigen) G host (ADevalF rho e x)) by (split; [exact Rt|]; split; [exact Hf|]; split; [now apply eigen_kron|auto]).
  destruct (act_full L VS WF I Ow (a := ADevalF rho e x) Hs Ok) as (p & s1 & E & (V & D & HD & Hp) & I1 & O1 & Ap & _).
  exists V, D, p, s1. split; [exact HD|]. split; [exact E|]. intros s2 C. destruct (calls_keep L VS WF I1 O1 C) as (_ & _ & _ & K).
  destruct (proj2 (K (fun a Ha => Ha)) (dloc G e) p) as [_ G2]; [|exact Ap|exact (holds_same G2 Hp)].
  pose proof (dloc_0 G e) as Z. destruct (dloc G e); auto; tauto.
Qed.
Print Assumptions C72_derivative_stays.

Lemma from_above {T} {N : Num T} (L : NumLaws N) (S : sched T) (VS : valid_sched S) (h : handler) (m : mem T) (G : graph T) host s : from S h m G host s ->
  length (objs m) <= length (objs (mm s)) /\ above (length (objs m)) G s /\ forall p, p < length (objs m) -> get (mm s) p = get m p.
Proof.
  intros R.
  induction R as [G host rank WF Tm|G host s a p s' R (Q1 & Q2 & Q3) Hs Ha Hr|G host s F id e y host' rank' R (Q1 & Q2 & Q3) FE WF].
    - split; [simpl; lia|]. split; [|reflexivity]. split; [discriminate|]. intros o id e y p _ [H|H]; discriminate.
    - destruct (lived_Inv L VS (from_lived R)) as (I & Ow & rank & WF).
      destruct (act_full L VS WF I Ow Hs Ha) as (q & s2 & E & _ & _ & _ & _ & (G1 & G2 & G3 & G4) & _ & Ab & _). destruct (returns_det Hr E) as [_ ->].
      split; [lia|]. split; [exact (Ab _ Q1 Q2)|].
      intros p' Hp. rewrite G4; [auto|lia|]. intros w Ew. pose proof (proj1 Q2 _ _ Ew). lia.
    - assert (N1 : forall q, mp_result G F s = Some q \/ mp_dresult G F s = Some q -> length (objs m) <= q).
      { unfold mp_result, mp_dresult. unfold is_expression in FE. intros q. destruct (g_kind G F) as [| | | |i b z] eqn:Ek; try destruct FE.
        - intros [Hq|Hq]; exact (proj1 Q2 _ _ Hq).
        - exact (proj2 Q2 F i b z q Ek). }
      split; [|split; [split|]].
      + cbn [assign_exp mm]. rewrite !length_back. exact Q1.
      + intros w q. cbn [assign_exp ar]. destruct (owned G F w); [discriminate|apply (proj1 Q2)].
      + intros o i b z q. cbn [assign_exp fl]. unfold assign_graph. cbn [g_kind]. destruct (o =? F) eqn:Eo; [|intros Hk; exact (proj2 Q2 o i b z q Hk)].
        intros _. cbn [f_res f_dres]. apply N1.
      + intros p Hp. cbn [assign_exp mm].
        rewrite !get_back_other; [auto| |]; intros Er; [specialize (N1 p (or_introl Er))|specialize (N1 p (or_intror Er))]; lia.
Qed.
(** The client's own matrices are never touched. *)
Theorem C72_client_matrices : forall {T} {N : Num T}, NumLaws N -> forall (S : sched T), valid_sched S ->
  forall (h : handler) (m : mem T) (G : graph T) host s, from S h m G host s ->
  forall p o, get m p = Some o -> get (mm s) p = Some o.
Proof.
  intros T N L S VS h m G host s R p o Hp. destruct (from_above L VS R) as (_ & _ & Q). rewrite Q; [exact Hp|exact (get_lt Hp)].
Qed.
Print Assumptions C72_client_matrices.

Lemma Zv : valid_sched Zin.
Proof. intros m I l. apply Permutation.Permutation_refl. Qed.
(** A derivative does not survive the next DevalF of the same expression: with F = (X + X) * Y at
    X = 1, Y = 7, d1 = DevalF(F, X) holds 14, and after d2 = DevalF(F, Y) both d1 and d2 are the
    same matrix, holding 2. *)
Theorem C72_derivative_overwritten_refuted : exists (G : graph Z) host s F x y,
  lived Zin HEigen G host s /\ distinct_vars G /\ g_kind G x = LVar /\ g_kind G y = LVar /\ x <> y /\ fits G (MLeaf F) /\ settled G (MLeaf F) s /\
  exists p s1 q s2, returns Zin HEigen G (ADevalF one (MLeaf F) x) s p s1 /\ returns Zin HEigen G (ADevalF one (MLeaf F) y) s1 q s2 /\ settled G (MLeaf F) s1 /\
    q = p /\ val (mm s1) p 0 0 = 14%Z /\ val (mm s2) p 0 0 = 2%Z.
Proof.
  exists st_graph, (host_of st_objs), (init mem0), 5, 0, 1.
  assert (R : lived Zin HEigen st_graph (host_of st_objs) (init mem0)) by (eapply lived_init; [exact st_wf|exact tame0]).
  assert (Hs : settled st_graph (MLeaf 5) (init mem0)) by (apply untouched_settled; intros o _ _; reflexivity).
  split; [exact R|]. split; [exact st_distinct|]. split; [reflexivity|]. split; [reflexivity|]. split; [discriminate|]. split; [apply st_fits; auto|]. split; [exact Hs|].
  destruct (@run2 _ _ Zin HEigen st_graph (ADevalF one (MLeaf 5) 0) (ADevalF one (MLeaf 5) 1) (init mem0)
    (fun p s' q s2 => q = p /\ val (mm s') p 0 0 = 14%Z /\ val (mm s2) p 0 0 = 2%Z)) as (p & s' & q & s2 & E1 & E2 & V); [vm_compute; repeat split; reflexivity|].
  exists p, s', q, s2. split; [exact E1|]. split; [exact E2|]. split; [|exact V].
  assert (Ok : act_ok (backend_of Zin HEigen) st_graph (host_of st_objs) (ADevalF one (MLeaf 5) 0)) by (apply st_dok; auto).
  destruct (call_right LawsZ Zv (backend_value Zv (fun _ => LawsZ)) (or_intror (backend_kron_zeroed Zv HEigen LawsZ)) st_wf (Inv_init st_graph tame0) (a := ADevalF one (MLeaf 5) 0) Hs Ok) as (n & q' & s3 & E & _ & _ & V' & _).
  destruct (returns_det E1 (ex_intro _ n E)) as [_ ->]. apply evaluated_settled. intros o Ho _. now apply V'.
Qed.
Print Assumptions C72_derivative_overwritten_refuted.

(** The premises are met: the client has a 1x2 matrix of its own; Eval((X + X) * Y) at X = 1, Y = 7
    gives 14; after X = 5, DevalF by X gives 14 in another matrix and the first matrix shows 70. *)
Definition own_mem : mem Z := mem_of [mk 0 1 2 [3; 4]%Z].
Lemma tame_own : tame own_mem.
Proof.
  split; [|split; [split|]].
  - intros p o H. do 1 (destruct p as [|p]; [injection H as <-; simpl; repeat split; lia|]). destruct p; discriminate.
  - intros p o H. do 1 (destruct p as [|p]; [injection H as <-; simpl; split; [reflexivity|lia]|]). destruct p; discriminate.
  - intros p q o o' H H'. do 1 (destruct p as [|p]; [injection H as <-; do 1 (destruct q as [|q]; [injection H' as <-; simpl; congruence|]); destruct q; discriminate|]). destruct p; discriminate.
  - intros k sp R C p [].
Qed.
Example C72_nonvacuous : exists p s1 q s2,
  from Zin HEigen own_mem st_graph (host_of st_objs) s2 /\ settled st_graph (MLeaf 5) (init own_mem) /\ settled st_graph (MLeaf 5) s1 /\
  returns Zin HEigen st_graph (AEval one (MLeaf 5)) (init own_mem) p s1 /\ calls Zin HEigen st_graph (host_of st_objs) any s1 s2 /\
  returns Zin HEigen st_graph (ADevalF five (MLeaf 5) 0) s1 q s2 /\
  val (mm s1) p 0 0 = 14%Z /\ val (mm s2) q 0 0 = 14%Z /\ val (mm s2) p 0 0 = 70%Z /\ q <> p /\ val (mm s2) 0 0 1 = 4%Z.
Proof.
  assert (Hs : settled st_graph (MLeaf 5) (init own_mem)) by (apply untouched_settled; intros o _ _; reflexivity).
  destruct (@run2 _ _ Zin HEigen st_graph (AEval one (MLeaf 5)) (ADevalF five (MLeaf 5) 0) (init own_mem)
    (fun p s' q s2 => val (mm s') p 0 0 = 14%Z /\ val (mm s2) q 0 0 = 14%Z /\ val (mm s2) p 0 0 = 70%Z /\ q <> p /\ val (mm s2) 0 0 1 = 4%Z))
    as (p & s' & q & s2 & E1 & E2 & V); [vm_compute; repeat split; try reflexivity; discriminate|].
  assert (Ok : act_ok (backend_of Zin HEigen) st_graph (host_of st_objs) (AEval one (MLeaf 5))) by (apply st_ok; auto).
  assert (Ok2 : act_ok (backend_of Zin HEigen) st_graph (host_of st_objs) (ADevalF five (MLeaf 5) 0)) by (apply st_dok; auto).
  assert (Hs1 : settled st_graph (MLeaf 5) s').
  { destruct (call_right LawsZ Zv (backend_value Zv (fun _ => LawsZ)) (or_intror (backend_kron_zeroed Zv HEigen LawsZ)) st_wf (Inv_init st_graph tame_own) (a := AEval one (MLeaf 5)) Hs Ok) as (n & q' & s3 & E & _ & _ & V' & _).
    destruct (returns_det E1 (ex_intro _ n E)) as [_ ->]. apply evaluated_settled. intros o Ho _. now apply V'. }
  exists p, s', q, s2. split.
  { eapply (from_call (a := ADevalF five (MLeaf 5) 0)); [eapply (from_call (a := AEval one (MLeaf 5))); [eapply from_init; [exact st_wf|exact tame_own]|exact Hs|exact Ok|exact E1]|exact Hs1|exact Ok2|exact E2]. }
  split; [exact Hs|]. split; [exact Hs1|]. split; [exact E1|]. split; [|split; [exact E2|exact V]].
  eapply (calls_more (a := ADevalF five (MLeaf 5) 0)); [apply calls_none|exact Logic.I|exact Hs1|exact Ok2|exact E2].
Qed.
