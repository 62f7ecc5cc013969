(** * C13-C16, C57: symbolic differentiation *)

From Coq Require Import List Arith Bool ZArith Lia Reals Lra.
From Verif Require Import Num NumInst ScalarModel ScalarSpec ScalarUser ScalarBuild ScalarFacts ScalarMore Calculus ScalarCalc
  ScalarSym SymForm SymUser SymCalc SymWitness.
Import ListNotations.
Local Open Scope nat_scope.

(** ** C13 Symbolic differentiation is correct for all later values *)
(** e: an expression of a program that ran so far (history h, st), built from the library's operators, without
    self-reference, where quotients c/X with c <> 1 occur only where their value is not needed ([quotients_ok]).  The
    handle d returned by SymDiff(e, x) is new, and after any further sequence of variable and parameter updates and
    queries of d every Eval(d) returned the derivative of e with respect to x at the numbers of that moment ([tracks]). *)
Theorem C13_symdiff_tracks : forall (T : Type) (N : Num T), NumLaws N -> DivLaws N ->
  forall (lr : form (T := T) -> bool) h st tc e x, reached h st tc -> query_ok st tc e -> plain_graph st e -> is_val st x ->
  quotients_ok st e -> forall pad, exists d h1, sym_diff lr pad e x h = Some (d, h1) /\ st d = None /\
  forall pad' cs, Forall (on_root st d) cs -> exists os h2, exec pad' (line cs) h1 = Some (os, h2) /\ tracks e x st cs os.
Proof. exact @symdiff_tracks. Qed.
Print Assumptions C13_symdiff_tracks.
Example C13_nonvacuous : exists h, reached h good_store (fun _ => False) /\ query_ok good_store (fun _ => False) 11 /\
  plain_graph good_store 11 /\ is_val good_store 2 /\ quotients_ok good_store 11 /\ NumLaws NumR /\ DivLaws NumR /\
  Forall (on_root good_store 40) [CSet 2 7%R; CEval 40; CSetPar 3 (-1)%R; CEval 40].
Proof.
  destruct good_reached as (h & Re). exists h. split; [exact Re|]. split; [now apply good_query; left|].
  split; [apply good_plain|]. split; [left; eexists; reflexivity|]. split; [exact good_quot|]. split; [exact LawsR|]. split; [exact DivR|].
  repeat constructor; eexists; reflexivity.
Qed.

(** ** C14 Symbolic differentiation of constant quotients *)
(** Expected: the derivative is right for every graph of built-in operators.  False, in either order of evaluating
    operands: x * (2 / x) at x = 1.  What holds instead is C13. *)
Theorem C14_constant_quotient_refuted : forall b : bool,
  exists h st tc e x d h1 y h2, reached (T := R) h st tc /\ query_ok st tc e /\ plain_graph st e /\ is_var st x /\
    sym_diff (fun _ => b) 0 e x h = Some (d, h1) /\ exec 0 (line [CEval d]) h1 = Some ([ONums [y]], h2) /\
    forall W D, uvalues st e W -> uderivs st e W x D -> y <> D e.
Proof.
  exact (fun b => match quotient_refutes b with
    ex_intro _ h (ex_intro _ st (ex_intro _ e (ex_intro _ x (ex_intro _ d (ex_intro _ h1 (ex_intro _ y (ex_intro _ h2 P))))))) =>
    ex_intro _ h (ex_intro _ st (ex_intro _ _ (ex_intro _ e (ex_intro _ x (ex_intro _ d (ex_intro _ h1 (ex_intro _ y (ex_intro _ h2 P)))))))) end).
Qed.
Print Assumptions C14_constant_quotient_refuted.
(** If every such quotient has c = 1, any nesting is allowed. *)
Theorem C14_unit_quotients_nest : forall (T : Type) (N : Num T) (st : store (T := T)) e,
  (forall v l t, st v = Some (OExp l) -> In (ITerm t) l -> copies (fun _ => True) t) -> quotients_ok st e.
Proof. exact @unit_quotients. Qed.
Print Assumptions C14_unit_quotients_nest.
Example C14_nonvacuous : copies (T := R) (fun _ => True) (TBin BProd (TRef 2) (TUn (UDivC 1%R) (TRef 2))) /\
  ~ copies (T := R) (fun _ => True) (TBin BProd (TRef 2) (TUn (UDivC 2%R) (TRef 2))).
Proof. simpl. split; [tauto|]. intros (_ & H & _). lra. Qed.

(** ** C15 Symbolic derivatives compose to higher orders *)
(** f: the value of e as a function of the numbers of all variables and parameters; U: points where every operator
    below e is smooth; s: the present numbers.  In any session of evaluations, forward and reverse derivatives, updates
    and further SymDiffs of the newest expression the answers are those of [denotes]: the newest expression denotes, on
    U, the iterated partial derivative of f. *)
Theorem C15_higher_orders : forall (lr : form (T := R) -> bool) h st tc e (U : (nat -> R) -> Prop),
  reached h st tc -> query_ok st tc e -> closed_graph st e -> (forall s, U s -> smooth_at st e s) ->
  forall pad f s acts, (forall t W, uvalues (at_vals st t) e W -> f t = W e) -> vals_of st s -> Forall (act_ok st) acts ->
  exists os h', play lr pad e acts h = Some (os, h') /\ denotes U f s acts os.
Proof. exact session_denotes. Qed.
Print Assumptions C15_higher_orders.
Example C15_nonvacuous : exists h, reached h good_store (fun _ => False) /\ query_ok good_store (fun _ => False) 28 /\
  closed_graph good_store 28 /\ (forall t : nat -> R, (0 < t 2%nat)%R -> smooth_at good_store 28 t) /\
  Forall (act_ok good_store) [ADiff 2; ADiff 2; ASet R 2 7%R; AEval; ADiff 2; AGrad [2]; ADevalF 2].
Proof.
  destruct good_reached as (h & Re). exists h. split; [exact Re|]. split; [now apply good_query; right|].
  split; [exact good_closed|]. split; [exact good_smooth|].
  repeat constructor; try (eexists; reflexivity). intros z [<-|[]]. eexists; reflexivity.
Qed.
(** For sqrt (likewise acos, atanh, whose symbolic derivatives are written c/X) order two already fails:
    sqrt(x*x) at x = 1, where the second derivative is 0. *)
Theorem C15_sqrt_refuted : forall b : bool, exists h st tc e x s y h', reached (T := R) h st tc /\ query_ok st tc e /\ plain_graph st e /\
  is_var st x /\ vals_of st s /\ s x = 1%R /\
  (exists d d2, play (fun _ => b) 0 e [ADiff x; ADiff x; AEval] h = Some ([OHandle d; OHandle d2; ONums [y]], h')) /\
  forall f f' z, (forall t W, uvalues (at_vals st t) e W -> f t = W e) -> (forall t : nat -> R, (0 < t x)%R -> partial f x t (f' t)) ->
    partial f' x s z -> y <> z.
Proof.
  exact (fun b => match sqrt_refutes b with
    ex_intro _ h (ex_intro _ st (ex_intro _ e (ex_intro _ x (ex_intro _ s (ex_intro _ y (ex_intro _ h' P)))))) =>
    ex_intro _ h (ex_intro _ st (ex_intro _ _ (ex_intro _ e (ex_intro _ x (ex_intro _ s (ex_intro _ y (ex_intro _ h' P))))))) end).
Qed.
Print Assumptions C15_sqrt_refuted.

(** ** C16 SymDiff reflects reassigned sub-expressions *)
(** Expected: SymDiff(e, x), a = t for some a below e, SymDiff(e, x) again gives the new derivative.  False; Eval(e)
    itself is right.  Reassignments before the first SymDiff are covered by C13 (h is any history of assignments). *)
Theorem C16_reassignment_refuted : forall b : bool,
  exists h st e x a t d h1 h2 d2 h3 y h4, reached (T := Z) h st (fun _ => False) /\ query_ok st (fun _ => False) e /\ is_var st x /\
  is_exp st a /\ sym_diff (fun _ => b) 0 e x h = Some (d, h1) /\ step 0 (CAssign a t) h1 = Some (ONone, h2) /\
  plain_graph (uafter st (CAssign a t) ONone) e /\ quotients_ok (uafter st (CAssign a t) ONone) e /\
  sym_diff (fun _ => b) 0 e x h2 = Some (d2, h3) /\ exec 0 (line [CEval d2; CEval e]) h3 = Some ([ONums [y]; ONums [4%Z]], h4) /\
  forall W D, uvalues (uafter st (CAssign a t) ONone) e W -> uderivs (uafter st (CAssign a t) ONone) e W x D -> W e = 4%Z /\ y <> D e.
Proof. exact reassign_refutes. Qed.
Print Assumptions C16_reassignment_refuted.

(** ** C57 A symbolic derivative stays right when the original is evaluated too *)
(** Expected; false in either order: SymDiff(e, x), Eval(e), x = 3, Eval(d).  Without the Eval(e), C13 applies. *)
Theorem C57_interleaved_evaluation_refuted : forall b : bool,
  exists h st e x d h1 z y h2, reached (T := Z) h st (fun _ => False) /\ query_ok st (fun _ => False) e /\ plain_graph st e /\
  quotients_ok st e /\ is_var st x /\ sym_diff (fun _ => b) 0 e x h = Some (d, h1) /\
  exec 0 (line [CEval e; CSet x 3%Z; CEval d]) h1 = Some ([ONums [z]; ONone; ONums [y]], h2) /\
  forall W D, uvalues (put st x (OVar 3%Z)) e W -> uderivs (put st x (OVar 3%Z)) e W x D -> y <> D e.
Proof. exact interleave_refutes. Qed.
Print Assumptions C57_interleaved_evaluation_refuted.
