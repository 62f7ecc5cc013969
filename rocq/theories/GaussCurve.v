(** * The Gaussian example (example/Gaussian.cpp)

    The program of the example for arbitrary numbers: build the density of a normal distribution, evaluate it,
    differentiate it in forward, reverse and symbolic mode, and differentiate the symbolic derivative again. *)
From Coq Require Import List Arith Bool Reals Lra Lia.
From Verif Require Import Num NumInst ScalarModel ScalarSpec ScalarReset ScalarUser ScalarBuild ScalarFacts ScalarMore ScalarWitness
  Calculus ScalarCalc ScalarSym SymForm SymUser SymCalc.
Import ListNotations.
Local Open Scope nat_scope.

(** ** Model *)
(** Gaussian.cpp:29: (1 / sqrt(2 * PI * pow(sig, 2))) * exp(-pow((x - mu), 2) / (2 * pow(sig, 2))); the factors made of
    numbers only are computed by the compiler's arithmetic.  [p] is the macro PI (line 24). *)
Definition bell (p mu sig : R) (x : nat) : termR :=
  desugar (CtimesX (1 / sqrt (2 * p * Rpow sig 2)))
    (TUn (UFun FExp) (desugar (XoverC (2 * Rpow sig 2)) (desugar NegX (desugar (PowXC 2) (desugar (XminusC mu) (TRef x)))))).
(** Gaussian.cpp:34-36 with 27-31: Variable x{c}; CreateExpression(0) is an Expression made from a Parameter
    (Expression.hpp:88-91); the assignment; the copy "Expression gauss = Gaussian(...)".  [k] continues with the handles
    of x and gauss. *)
Definition set_up (p mu sig c : R) (k : nat -> nat -> prog (T := R)) : prog :=
  Do (CVar c) (fun o1 => match o1 with OHandle x =>
  Do (CPar 0%R) (fun o2 => match o2 with OHandle q =>
  Do (CExpr (TPar q)) (fun o3 => match o3 with OHandle g =>
  Do (CAssign g (bell p mu sig x)) (fun _ =>
  Do (CCopy g) (fun o5 => match o5 with OHandle e => k x e | _ => Done end)) | _ => Done end) | _ => Done end) | _ => Done end).
(** Gaussian.cpp:39-45: Eval, DevalF, PreComp and DevalR. *)
Definition queries (e x : nat) : list (cmd (T := R)) := [CEval e; CDevalF e x; CGrad e [x]].
(** The same again after x = a for every a in the list. *)
Definition session (e x : nat) (l : list R) : list (cmd (T := R)) :=
  queries e x ++ flat_map (fun a => CSet x a :: queries e x) l.
(** Gaussian.cpp:48-58: SymDiff, then the same queries on the result; again after every x = a. *)
Definition sym_session (x : nat) (l : list R) : list (act R) :=
  ADiff x :: [AEval; ADevalF x; AGrad [x]] ++ flat_map (fun a => [ASet R x a; AEval; ADevalF x; AGrad [x]]) l.

(** ** Specification *)
(** The density and its first two derivatives. *)
Definition phi (p mu sig y : R) : R := (exp (- (y - mu) ^ 2 / (2 * sig ^ 2)) / sqrt (2 * p * sig ^ 2))%R.
Definition phi1 (p mu sig y : R) : R := (- (y - mu) / sig ^ 2 * phi p mu sig y)%R.
Definition phi2 (p mu sig y : R) : R := (((y - mu) ^ 2 / sig ^ 4 - 1 / sig ^ 2) * phi p mu sig y)%R.
Definition answers (f f' : R -> R) (a : R) : list outR := [ONums [f a]; ONums [f' a]; ONums [f' a]].

(** ** Proof *)
Section Bell.
Variables p mu sig : R.
Hypothesis Hs : sig <> 0%R.
Notation phi := (phi p mu sig). Notation phi1 := (phi1 p mu sig). Notation phi2 := (phi2 p mu sig).

Lemma sig2 : Rpow sig 2 = (sig * sig)%R.
Proof. rewrite (Rpow_int sig 2). simpl. ring. Qed.
Lemma pow2 y : Rpow y 2 = (y * y)%R.
Proof. rewrite (Rpow_int y 2). simpl. ring. Qed.
Lemma pow21 y : Rpow y (2 - 1) = y.
Proof. replace (2 - 1)%R with (IZR 1) by lra. rewrite (Rpow_int y 1). simpl. ring. Qed.

Lemma bell_value lv x : tsem lv (bell p mu sig x) = phi (lv x).
Proof.
  unfold bell, GaussCurve.phi. cbn [desugar tsem mean1 mean2 nadd nsub nmul ndiv npow nfun n0 n1 nm1 NumR Rfun].
  rewrite sig2, pow2. replace (sig ^ 2)%R with (sig * sig)%R by ring.
  unfold Rdiv. rewrite (Rmult_comm (exp _)), Rmult_1_l. f_equal. f_equal. rewrite Rmult_1_l.
  rewrite Rmult_comm. f_equal. ring.
Qed.
Lemma bell_derivative lv ld x : tdsem lv ld (bell p mu sig x) = (phi1 (lv x) * ld x)%R.
Proof.
  unfold GaussCurve.phi1. rewrite <- (bell_value lv x). unfold bell.
  cbn [desugar tsem tdsem mean1 chain1 mean2 chain2 dmean nadd nsub nmul ndiv npow nfun n0 n1 nm1 NumR Rfun].
  rewrite sig2, pow2, pow21. set (E := exp _). set (K := (1 / sqrt _)%R). field. exact Hs.
Qed.

(** The objects of the example. *)
Definition shape (st : storeR) (x g e : nat) (a : R) : Prop :=
  x <> g /\ g <> e /\ x <> e /\ st x = Some (OVar a) /\ st g = Some (OExp [ITerm (bell p mu sig x)]) /\ st e = Some (OExp [ICopy g]).
Section Shape.
Variables (st : storeR) (x g e : nat) (a : R).
Hypothesis H : shape st x g e a.
Lemma shape_dep v w : udep st v w -> v = e \/ v = g \/ v = x -> (v = e /\ w = g) \/ (v = g /\ w = x).
Proof.
  destruct H as (N1 & N2 & N3 & Ex & Eg & Ee). intros (l & i & E & Hi & Hw) [->|[->| ->]].
  - rewrite Ee in E. injection E as <-. destruct Hi as [<-|[]]. left. split; [reflexivity|]. destruct Hw as [[<-|[]]|[]]. reflexivity.
  - rewrite Eg in E. injection E as <-. destruct Hi as [<-|[]]. right. split; [reflexivity|]. destruct Hw as [[<-|[]]|[]]. reflexivity.
  - rewrite Ex in E. discriminate.
Qed.
Lemma shape_below v : ureach st e v -> v = e \/ v = g \/ v = x.
Proof.
  induction 1 as [|w y _ IH Hd]; [auto|]. destruct (shape_dep w y Hd IH) as [[-> ->]|[-> ->]]; auto.
Qed.
Lemma shape_g : ureach st e g.
Proof.
  destruct H as (_ & _ & _ & _ & _ & Ee). eapply ureach_step; [apply ureach_refl|]. exists [ICopy g], (ICopy g).
  split; [exact Ee|]. split; [left; reflexivity|]. left. left. reflexivity.
Qed.
Lemma shape_x : ureach st e x.
Proof.
  destruct H as (_ & _ & _ & _ & Eg & _). eapply ureach_step; [apply shape_g|]. exists [ITerm (bell p mu sig x)], (ITerm (bell p mu sig x)).
  split; [exact Eg|]. split; [left; reflexivity|]. left. left. reflexivity.
Qed.
Lemma shape_query tc : query_ok st tc e.
Proof.
  destruct H as (N1 & N2 & N3 & Ex & Eg & Ee). split; [|split].
  - exists [ICopy g]. exact Ee.
  - exists (fun v => if v =? e then 2 else if v =? g then 1 else 0). intros v w Hv Hd. right.
    destruct (shape_dep v w Hd (shape_below v Hv)) as [[-> ->]|[-> ->]].
    + apply not_eq_sym in N2. rewrite Nat.eqb_refl. destruct (Nat.eqb_spec g e) as [->|_]; [congruence|]. rewrite Nat.eqb_refl. lia.
    + destruct (Nat.eqb_spec x e) as [->|_]; [congruence|]. destruct (Nat.eqb_spec x g) as [->|_]; [congruence|].
      destruct (g =? e); rewrite ?Nat.eqb_refl; lia.
  - intros v w Hv Ne _ _ Hd [l El]. destruct (shape_dep v w Hd (shape_below v Hv)) as [[-> ->]|[-> ->]]; [congruence|].
    rewrite Ex in El. discriminate.
Qed.
Definition W0 (v : nat) : R := if v =? x then a else phi a.
Definition D0 (v : nat) : R := if v =? x then 1%R else phi1 a.
Lemma shape_values : uvalues st e W0.
Proof.
  destruct H as (N1 & N2 & N3 & Ex & Eg & Ee). intros v Hv. unfold W0. destruct (shape_below v Hv) as [->|[->| ->]].
  - rewrite Ee. cbn [fold_left isem]. rewrite at_other by congruence.
    destruct (Nat.eqb_spec e x) as [->|_]; [congruence|]. destruct (Nat.eqb_spec g x) as [->|_]; [congruence|]. reflexivity.
  - rewrite Eg. cbn [fold_left isem nmul n1 NumR]. rewrite bell_value, at_other by congruence. rewrite Nat.eqb_refl.
    destruct (Nat.eqb_spec g x) as [->|_]; [congruence|]. ring.
  - rewrite Ex, Nat.eqb_refl. reflexivity.
Qed.
Lemma shape_derivs : uderivs st e W0 x D0.
Proof.
  destruct H as (N1 & N2 & N3 & Ex & Eg & Ee). intros v Hv. unfold D0 at 1. destruct (Nat.eqb_spec v x) as [->|Nx]; [reflexivity|].
  destruct (shape_below v Hv) as [->|[->|Ev]]; [| |congruence].
  - rewrite Ee. cbn [fold_left idsem snd]. rewrite at_other by congruence. rewrite at_other by congruence. unfold D0.
    destruct (Nat.eqb_spec g x) as [->|_]; [congruence|reflexivity].
  - rewrite Eg. cbn [fold_left isem idsem fst snd nmul n1 NumR]. rewrite bell_derivative, at_same, at_other by congruence. unfold W0. rewrite Nat.eqb_refl. ring.
Qed.
End Shape.

Lemma shape_put st x g e a b : shape st x g e a -> shape (put st x (OVar b)) x g e b.
Proof.
  intros (N1 & N2 & N3 & Ex & Eg & Ee). unfold put. split; [auto|]. split; [auto|]. split; [auto|].
  rewrite at_same, !at_other by congruence. auto.
Qed.

(** One round of queries. *)
Lemma ask pad h st tc x g e a : reached h st tc -> shape st x g e a ->
  exists h' tc', exec pad (line (queries e x)) h = Some (answers phi phi1 a, h') /\ reached h' st tc'.
Proof.
  intros R0 Sh. pose proof (shape_values _ _ _ _ _ Sh) as V. pose proof (shape_derivs _ _ _ _ _ Sh) as D.
  assert (We : W0 x a e = phi a). { destruct Sh as (_ & _ & N3 & _). unfold W0. destruct (Nat.eqb_spec e x); [congruence|reflexivity]. }
  assert (De : D0 x a e = phi1 a). { destruct Sh as (_ & _ & N3 & _). unfold D0. destruct (Nat.eqb_spec e x); [congruence|reflexivity]. }
  assert (Vx : is_var st x) by (destruct Sh as (_ & _ & _ & Ex & _); eexists; exact Ex).
  destruct (reached_answer h st tc (CEval e) pad R0 (shape_query _ _ _ _ _ Sh tc)) as (o1 & h1 & E1 & (y1 & -> & A1) & R1). cbn [uafter] in R1.
  destruct (reached_answer h1 st _ (CDevalF e x) pad R1 (conj (shape_query _ _ _ _ _ Sh _) (or_introl Vx))) as (o2 & h2 & E2 & (y2 & -> & A2) & R2). cbn [uafter] in R2.
  assert (Lg : legal st (touch st (CDevalF e x) (touch st (CEval e) tc)) (CGrad e [x])).
  { split; [apply (shape_query _ _ _ _ _ Sh)|]. intros z [<-|[]]. auto. }
  destruct (reached_answer h2 st _ (CGrad e [x]) pad R2 Lg) as (o3 & h3 & E3 & (ys & -> & Ly & A3) & R3). cbn [uafter] in R3.
  exists h3. eexists. split; [|exact R3]. unfold queries. cbn [line exec]. rewrite E1, E2, E3. unfold answers. cbn [line exec].
  rewrite (A1 _ V), We, (A2 _ _ V D), De.
  assert (Ud : udivs_ok st e (W0 x a)).
  { intros v l Hv E. destruct (shape_below _ _ _ _ _ Sh v Hv) as [->|[->| ->]]; destruct Sh as (N1 & N2 & N3 & Ex & Eg & Ee).
    - rewrite Ee in E. injection E as <-. simpl. tauto.
    - rewrite Eg in E. injection E as <-. simpl. tauto.
    - rewrite Ex in E. discriminate. }
  assert (X : nth_error ys 0 = Some (phi1 a)).
  { rewrite <- De. apply (A3 (W0 x a) LawsR V Ud 0 x eq_refl); [left; exact Vx|exact D]. }
  destruct ys as [|y [|? ?]]; try discriminate. injection X as ->. reflexivity.
Qed.
Lemma asks pad x g e l : forall h st tc a, reached h st tc -> shape st x g e a ->
  exists h' st' tc' b, exec pad (line (session e x l)) h = Some (answers phi phi1 a ++ flat_map (fun b => ONone :: answers phi phi1 b) l, h') /\
    reached h' st' tc' /\ shape st' x g e b /\ b = last l a.
Proof.
  induction l as [|b l IH]; intros h st tc a R0 Sh; destruct (ask pad h st tc x g e a R0 Sh) as (h1 & tc1 & E1 & R1).
  - exists h1, st, tc1, a. unfold session. cbn [flat_map]. rewrite !app_nil_r. auto.
  - assert (Vx : is_var st x) by (destruct Sh as (_ & _ & _ & Ex & _); eexists; exact Ex).
    destruct (reached_answer h1 st tc1 (CSet x b) pad R1 Vx) as (o2 & h2 & E2 & A2 & R2). cbn [uanswer] in A2. subst o2. cbn [uafter] in R2.
    destruct (IH h2 _ _ b R2 (shape_put _ _ _ _ _ b Sh)) as (h3 & st' & tc' & b' & E3 & R3 & Sh3 & Eb).
    exists h3, st', tc', b'. split; [|split; [exact R3|split; [exact Sh3|]]].
    + unfold session in *. cbn [flat_map].
      eapply (exec_line_app pad _ _ h _ h1 _ h3 E1). cbn [app line exec]. rewrite E2.
      rewrite E3. reflexivity.
    + rewrite Eb. clear. revert a b. induction l as [|y l IH]; intros a b; [reflexivity|]. cbn [last] in *. destruct l; [reflexivity|]. apply (IH a b).
Qed.

(** The objects exist after the set-up. *)
Lemma set_up_ok pad h st tc c k : reached h st tc ->
  exists x q g e h1 st1 tc1, reached h1 st1 tc1 /\ shape st1 x g e c /\
    (forall os h2, exec pad (k x e) h1 = Some (os, h2) ->
     exec pad (set_up p mu sig c k) h = Some (OHandle x :: OHandle q :: OHandle g :: ONone :: OHandle e :: os, h2)).
Proof.
  intros R0.
  destruct (reached_answer h st tc (CVar c) pad R0 Logic.I) as (o1 & h1 & E1 & (x & -> & F1) & R1). cbn [uafter] in R1.
  destruct (reached_answer h1 _ _ (CPar 0%R) pad R1 Logic.I) as (o2 & h2 & E2 & (q & -> & F2) & R2). cbn [uafter] in R2.
  assert (L3 : legal (put (put st x (OVar c)) q (OPar 0%R)) (touch (put st x (OVar c)) (CPar 0%R) (touch st (CVar c) tc)) (CExpr (TPar q))).
  { split; [intros v []|]. intros v [<-|[]]. exists 0%R. unfold put. now rewrite at_same. }
  destruct (reached_answer h2 _ _ (CExpr (TPar q)) pad R2 L3) as (o3 & h3 & E3 & (g & -> & F3) & R3). cbn [uafter] in R3. clear L3.
  set (st3 := put (put (put st x (OVar c)) q (OPar 0%R)) g (OExp [ITerm (TPar q)])) in *.
  assert (Qx : q <> x) by (intros ->; unfold put in F2; rewrite at_same in F2; discriminate).
  assert (Gq : g <> q) by (intros ->; unfold put in F3; rewrite at_same in F3; discriminate).
  assert (Gx : g <> x) by (intros ->; unfold put in F3; rewrite at_other, at_same in F3 by auto; discriminate).
  assert (X3 : st3 x = Some (OVar c)) by (unfold st3, put; rewrite !at_other by auto; now rewrite at_same).
  assert (G3 : st3 g = Some (OExp [ITerm (TPar q)])) by (unfold st3, put; now rewrite at_same).
  match type of R3 with reached _ _ ?tc3 => assert (L4 : legal st3 tc3 (CAssign g (bell p mu sig x))) end.
  { split; [eexists; exact G3|]. split; [|intros v []]. intros v [<-|[]]. left. eexists. exact X3. }
  destruct (reached_answer h3 _ _ (CAssign g (bell p mu sig x)) pad R3 L4) as (o4 & h4 & E4 & A4 & R4). cbn [uanswer] in A4. subst o4.
  assert (St4 : uafter st3 (CAssign g (bell p mu sig x)) ONone = put st3 g (OExp [ITerm (bell p mu sig x)])).
  { cbn [uafter]. rewrite G3. unfold mentions. cbn [bell desugar trefs existsb]. destruct (Nat.eqb_spec g x); [congruence|]. reflexivity. }
  rewrite St4 in R4. clear L4. set (st4 := put st3 g (OExp [ITerm (bell p mu sig x)])) in *.
  assert (X4 : st4 x = Some (OVar c)) by (unfold st4, put; now rewrite at_other by auto).
  assert (G4 : st4 g = Some (OExp [ITerm (bell p mu sig x)])) by (unfold st4, put; now rewrite at_same).
  destruct (reached_answer h4 _ _ (CCopy g) pad R4 (ex_intro _ _ G4)) as (o5 & h5 & E5 & (e & -> & F5) & R5). cbn [uafter] in R5.
  exists x, q, g, e, h5. eexists. eexists. split; [exact R5|]. split.
  - assert (Ne : g <> e) by congruence. assert (Nx : x <> e) by congruence. split; [auto|]. split; [auto|]. split; [auto|].
    unfold put. rewrite !at_other by auto. rewrite at_same. auto.
  - intros os h6 E6. unfold set_up. cbn [exec]. rewrite E1. cbn [exec]. rewrite E2. cbn [exec]. rewrite E3. cbn [exec]. rewrite E4. cbn [exec]. rewrite E5. cbn [exec]. rewrite E6. reflexivity.
Qed.

(** ** Symbolic derivatives *)
Lemma phi_lim y : derivable_pt_lim phi y (phi1 y).
Proof.
  apply (dlim_ext (fun z => tsem (fun _ => z) (bell p mu sig 0))); [intros z; apply bell_value|].
  replace (phi1 y) with (tdsem (fun _ => y) (fun _ => 1%R) (bell p mu sig 0)) by (rewrite bell_derivative; ring).
  unfold bell. cbn [desugar tsem tdsem].
  repeat (match goal with |- derivable_pt_lim (fun z => mean1 ?k (@?f z)) ?c (chain1 ?k _ ?d) => apply (dlim_un k f c d) end).
  all: cbn [udom fdom]; try exact Logic.I.
  - right. exists 2%Z. split; [reflexivity|]. right. lia.
  - apply dlim_id.
Qed.
Lemma phi1_lim y : derivable_pt_lim phi1 y (phi2 y).
Proof.
  unfold GaussCurve.phi1, GaussCurve.phi2.
  eapply dlim_val; [|apply dlim_mult; [|apply phi_lim]].
  2:{ apply (dlim_ext (fun z => (- / sig ^ 2) * (z - mu))%R); [intros z; unfold Rdiv; ring|].
      apply dlim_mult; [apply dlim_const|apply dlim_minus; [apply dlim_id|apply dlim_const]]. }
  cbv beta. unfold GaussCurve.phi1. field. exact Hs.
Qed.

Section Sym.
Variables (st : storeR) (x g e : nat) (c : R).
Hypothesis Sh : shape st x g e c.
Lemma shape_closed : closed_graph st e.
Proof.
  split.
  - intros v Hv Hd. destruct Sh as (N1 & N2 & N3 & _). destruct (shape_dep _ _ _ _ _ Sh v v Hd (shape_below _ _ _ _ _ Sh v Hv)) as [[A B]|[A B]]; congruence.
  - intros v l t Hv E Hi. destruct (shape_below _ _ _ _ _ Sh v Hv) as [->|[->| ->]]; destruct Sh as (N1 & N2 & N3 & Ex & Eg & Ee).
    + rewrite Ee in E. injection E as <-. destruct Hi as [Hi|[]]. discriminate.
    + rewrite Eg in E. injection E as <-. destruct Hi as [Hi|[]]. injection Hi as <-. simpl. tauto.
    + rewrite Ex in E. discriminate.
Qed.
Lemma at_vals_shape t : shape (at_vals st t) x g e (t x).
Proof.
  destruct Sh as (N1 & N2 & N3 & Ex & Eg & Ee). unfold at_vals. split; [auto|]. split; [auto|]. split; [auto|]. rewrite Ex, Eg, Ee. auto.
Qed.
Lemma shape_smooth t : t x <> mu -> smooth_at st e t.
Proof.
  intros Ht W V v l u Hv E Hi. pose proof (at_vals_shape t) as Sh'.
  assert (Wx : W x = t x).
  { rewrite (V x (shape_x _ _ _ _ _ Sh')). destruct Sh' as (_ & _ & _ & Ex' & _). now rewrite Ex'. }
  destruct (shape_below _ _ _ _ _ Sh v Hv) as [->|[->| ->]]; destruct Sh as (N1 & N2 & N3 & Ex & Eg & Ee).
  - rewrite Ee in E. injection E as <-. destruct Hi as [Hi|[]]. discriminate.
  - rewrite Eg in E. injection E as <-. destruct Hi as [Hi|[]]. injection Hi as <-.
    unfold bell. cbn [desugar tsmooth tsem]. unfold smooth1. cbn [udom fdom mean1 nadd nmul nm1 NumR]. rewrite Wx.
    assert (P : powdom (-1 * mu + t x) 2) by (right; exists 2%Z; split; [reflexivity|right; lia]).
    assert (Q : (-1 * mu + t x <> 0)%R) by lra. tauto.
  - rewrite Ex in E. discriminate.
Qed.
Lemma shape_fun t W : uvalues (at_vals st t) e W -> phi (t x) = W e.
Proof.
  intros V. pose proof (at_vals_shape t) as Sh'.
  assert (Q := shape_query _ _ _ _ _ Sh' (fun _ => False)).
  rewrite (uvalues_unique (at_vals st t) e W (W0 x (t x)) (proj1 (proj2 Q)) V (shape_values _ _ _ _ _ Sh') e (ureach_refl _ _)).
  unfold W0. destruct Sh as (_ & _ & N3 & _). destruct (Nat.eqb_spec e x); [congruence|reflexivity].
Qed.
End Sym.

Lemma local_lim (f1 : (nat -> R) -> R) (F F' : R -> R) x (s : nat -> R) d :
  (forall t, t x <> mu -> f1 t = F (t x)) -> s x <> mu -> derivable_pt_lim F (s x) (F' (s x)) -> partial f1 x s d -> d = F' (s x).
Proof.
  intros Hf Ns HF Hd. unfold partial in Hd.
  apply (uniqueness_limite F (s x)); [|exact HF].
  apply (dlim_loc (fun a => f1 (at_ x a s)) _ _ _ (Rabs (s x - mu))); [apply Rabs_pos_lt; lra| |exact Hd].
  intros y Hy. assert (Ny : y <> mu). { intros ->. rewrite Rabs_minus_sym in Hy. lra. }
  rewrite Hf; rewrite at_same; auto.
Qed.

Definition U0 (x : nat) (s : nat -> R) : Prop := s x <> mu.
Lemma round pad lr r x f1 (s : nat -> R) acts h os h' : (forall t, U0 x t -> f1 t = phi1 (t x)) -> U0 x s ->
  play lr pad r ([AEval; ADevalF x; AGrad [x]] ++ acts) h = Some (os, h') -> denotes (U0 x) f1 s ([AEval; ADevalF x; AGrad [x]] ++ acts) os ->
  exists os1 h1, os = answers phi1 phi2 (s x) ++ os1 /\ play lr pad r acts h1 = Some (os1, h') /\ denotes (U0 x) f1 s acts os1.
Proof.
  intros Hf Us P D. cbn [app play play1] in P.
  destruct (step pad (CEval r) h) as [[o1 h1]|] eqn:E1; [|discriminate].
  destruct (step pad (CDevalF r x) h1) as [[o2 h2]|] eqn:E2; [|discriminate].
  destruct (step pad (CGrad r [x]) h2) as [[o3 h3]|] eqn:E3; [|discriminate].
  destruct (play lr pad r acts h3) as [[os1 h4]|] eqn:E4; [|discriminate]. injection P as <- <-.
  cbn [app denotes] in D. destruct D as (A1 & (d & A2 & A2') & (ds & A3 & Ld & A3') & D').
  exists os1, h3. split; [|split; [exact E4|exact D']]. subst o1 o2 o3.
  rewrite (Hf s Us). rewrite (local_lim f1 phi1 phi2 x s d Hf Us (phi1_lim (s x)) (A2' Us)).
  destruct (A3' Us 0 x eq_refl) as (d3 & En & P3). rewrite (local_lim f1 phi1 phi2 x s d3 Hf Us (phi1_lim (s x)) P3) in En.
  destruct ds as [|y [|? ?]]; try discriminate. injection En as ->. reflexivity.
Qed.
Lemma rounds pad lr r x f1 l : (forall t, U0 x t -> f1 t = phi1 (t x)) -> Forall (fun a => a <> mu) l -> forall (s : nat -> R) h os h', U0 x s ->
  play lr pad r ([AEval; ADevalF x; AGrad [x]] ++ flat_map (fun a => [ASet R x a; AEval; ADevalF x; AGrad [x]]) l) h = Some (os, h') ->
  denotes (U0 x) f1 s ([AEval; ADevalF x; AGrad [x]] ++ flat_map (fun a => [ASet R x a; AEval; ADevalF x; AGrad [x]]) l) os ->
  os = answers phi1 phi2 (s x) ++ flat_map (fun a => ONone :: answers phi1 phi2 a) l.
Proof.
  intros Hf Fl. induction Fl as [|b l Hb _ IH]; intros s h os h' Us P D.
  - destruct (round pad lr r x f1 s _ h os h' Hf Us P D) as (os1 & h1 & -> & P1 & D1). cbn [flat_map play] in *. injection P1 as <- _. reflexivity.
  - destruct (round pad lr r x f1 s _ h os h' Hf Us P D) as (os1 & h1 & -> & P1 & D1). cbn [flat_map] in *. f_equal.
    change ([ASet R x b; AEval; ADevalF x; AGrad [x]] ++ flat_map (fun a => [ASet R x a; AEval; ADevalF x; AGrad [x]]) l)
      with (ASet R x b :: ([AEval; ADevalF x; AGrad [x]] ++ flat_map (fun a => [ASet R x a; AEval; ADevalF x; AGrad [x]]) l)) in *.
    set (acts := [AEval; ADevalF x; AGrad [x]] ++ flat_map (fun a => [ASet R x a; AEval; ADevalF x; AGrad [x]]) l) in *.
    cbn [play play1 step] in P1. destruct (play lr pad r acts (SetVar x b h1)) as [[os2 h3]|] eqn:E2; [|discriminate]. injection P1 as <- <-.
    cbn [denotes] in D1. assert (Ub : U0 x (at_ x b s)) by (unfold U0; now rewrite at_same).
    pose proof (IH (at_ x b s) _ _ _ Ub E2 D1) as X. rewrite at_same in X. rewrite X. reflexivity.
Qed.
Lemma sym_ok pad lr h st tc x g e c l : reached h st tc -> shape st x g e c -> c <> mu -> Forall (fun a => a <> mu) l ->
  exists d h', play lr pad e (sym_session x l) h =
    Some (OHandle d :: answers phi1 phi2 c ++ flat_map (fun a => ONone :: answers phi1 phi2 a) l, h').
Proof.
  intros R0 Sh Nc Fl.
  assert (Vx : is_var st x) by (destruct Sh as (_ & _ & _ & Ex & _); eexists; exact Ex).
  set (s := fun v => match st v with Some (OVar y) | Some (OPar y) => y | _ => 0%R end).
  assert (Sx : s x = c) by (unfold s; destruct Sh as (_ & _ & _ & Ex & _); now rewrite Ex).
  assert (Vs : vals_of st s) by (intros v y [E|E]; unfold s; now rewrite E).
  assert (Us : U0 x s) by (unfold U0; now rewrite Sx).
  assert (Fa : Forall (act_ok st) (sym_session x l)).
  { assert (Q : Forall (act_ok st) [AEval; ADevalF x; AGrad [x]]) by (repeat constructor; auto; intros z [<-|[]]; auto).
    constructor; [exact Vx|]. apply Forall_app. split; [exact Q|]. clear -Q Vx. induction l as [|b l IH]; cbn [flat_map]; [constructor|].
    apply Forall_app. split; [constructor; [exact Vx|exact Q]|exact IH]. }
  destruct (@session_denotes lr h st tc e (U0 x) R0 (shape_query _ _ _ _ _ Sh tc) (shape_closed _ _ _ _ _ Sh)
    (fun t => shape_smooth _ _ _ _ _ Sh t) pad (fun t => phi (t x)) s (sym_session x l) (shape_fun _ _ _ _ _ Sh) Vs Fa) as (os & h' & P & D).
  unfold sym_session in P, D.
  set (acts := [AEval; ADevalF x; AGrad [x]] ++ flat_map (fun a => [ASet R x a; AEval; ADevalF x; AGrad [x]]) l) in *.
  cbn [play play1] in P.
  destruct (sym_diff lr pad e x h) as [[d h1]|] eqn:E1; [|discriminate].
  destruct (play lr pad d acts h1) as [[os2 h2]|] eqn:E2; [|discriminate]. injection P as <- <-.
  cbn [denotes] in D. destruct D as (f' & Hf & D).
  assert (Hf' : forall t, U0 x t -> f' t = phi1 (t x)).
  { intros t Ht. apply (local_lim (fun t => phi (t x)) phi phi1 x t (f' t)); auto. apply phi_lim. }
  exists d, h2. unfold sym_session. fold acts. cbn [play play1]. rewrite E1, E2.
  rewrite (rounds pad lr d x f' l Hf' Fl s h1 os2 h2 Us E2 D), Sx. reflexivity.
Qed.
End Bell.
