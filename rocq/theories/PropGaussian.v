(** * C78: the Gaussian example *)
From Coq Require Import List Arith Bool Reals Lra Lia.
From Verif Require Import Num NumInst ScalarModel ScalarSpec ScalarUser ScalarBuild ScalarFacts ScalarMore ScalarWitness
  Calculus ScalarCalc ScalarSym SymForm SymUser SymCalc GaussCurve.
Import ListNotations.
Local Open Scope nat_scope.

(** The functions the answers are compared with: phi1 is the derivative of phi and phi2 that of phi1. *)
Theorem C78_derivatives : forall p mu sig y : R, sig <> 0%R ->
  derivable_pt_lim (phi p mu sig) y (phi1 p mu sig y) /\ derivable_pt_lim (phi1 p mu sig) y (phi2 p mu sig y).
Proof. exact (fun p mu sig y H => conj (phi_lim p mu sig H y) (phi1_lim p mu sig H y)). Qed.
Print Assumptions C78_derivatives.

(** Whatever was executed before: the example's program answers Eval with the density, DevalF and DevalR with its
    derivative, for the first number of x and for every number x gets later (the mean included). *)
Theorem C78_numeric : forall pad h st tc (p mu sig c : R) l, reached h st tc -> (0 < p)%R -> sig <> 0%R ->
  exists x q g e h1, exec pad (set_up p mu sig c (fun x e => line (session e x l))) h =
    Some ([OHandle x; OHandle q; OHandle g; ONone; OHandle e] ++
          answers (phi p mu sig) (phi1 p mu sig) c ++ flat_map (fun a => ONone :: answers (phi p mu sig) (phi1 p mu sig) a) l, h1).
Proof.
  intros pad h st tc p mu sig c l R0 _ Hs.
  destruct (set_up_ok p mu sig pad h st tc c (fun x e => line (session e x l)) R0) as (x & q & g & e & h1 & st1 & tc1 & R1 & Sh & K).
  destruct (asks p mu sig Hs pad x g e l h1 st1 tc1 c R1 Sh) as (h2 & _ & _ & _ & E & _).
  exists x, q, g, e, h2. exact (K _ _ E).
Qed.
Print Assumptions C78_numeric.

(** The second half of the example: after these queries SymDiff gives an expression whose value is the derivative and whose
    forward and reverse derivatives are the second derivative, now and after every later x = a, away from the mean
    (where pow(x - mu, 2) has no third symbolic derivative, see C15). *)
Theorem C78_symbolic : forall lr pad h st tc (p mu sig c : R) l l', reached h st tc -> (0 < p)%R -> sig <> 0%R ->
  last l c <> mu -> Forall (fun a => a <> mu) l' ->
  exists x q g e h1 d h2, exec pad (set_up p mu sig c (fun x e => line (session e x l))) h =
    Some ([OHandle x; OHandle q; OHandle g; ONone; OHandle e] ++
          answers (phi p mu sig) (phi1 p mu sig) c ++ flat_map (fun a => ONone :: answers (phi p mu sig) (phi1 p mu sig) a) l, h1) /\
    play lr pad e (sym_session x l') h1 =
    Some (OHandle d :: answers (phi1 p mu sig) (phi2 p mu sig) (last l c) ++
          flat_map (fun a => ONone :: answers (phi1 p mu sig) (phi2 p mu sig) a) l', h2).
Proof.
  intros lr pad h st tc p mu sig c l l' R0 _ Hs Nc Fl.
  destruct (set_up_ok p mu sig pad h st tc c (fun x e => line (session e x l)) R0) as (x & q & g & e & h1 & st1 & tc1 & R1 & Sh & K).
  destruct (asks p mu sig Hs pad x g e l h1 st1 tc1 c R1 Sh) as (h2 & st2 & tc2 & b & E & R2 & Sh2 & Eb). subst b.
  destruct (sym_ok p mu sig Hs pad lr h2 st2 tc2 x g e (last l c) l' R2 Sh2 Nc Fl) as (d & h3 & P).
  exists x, q, g, e, h2, d, h3. split; [exact (K _ _ E)|exact P].
Qed.
Print Assumptions C78_symbolic.
(** The numbers of the example: mu = 1, sig = 0.9, x = 10.34, PI = 3.14159; then x = 0. *)
Example C78_nonvacuous : reached (heap0 (T := R)) store0 (fun _ => False) /\ (0 < 314159 / 100000)%R /\ (9 / 10 <> 0)%R /\
  (last [] (1034 / 100) <> 1)%R /\ Forall (fun a => a <> 1)%R [0%R] /\ (0 < phi (314159 / 100000) 1 (9 / 10) 1)%R.
Proof.
  split; [constructor|]. split; [lra|]. split; [lra|]. split; [simpl; lra|]. split; [repeat constructor; lra|].
  unfold phi, Rdiv. apply Rmult_lt_0_compat; [apply exp_pos|]. apply Rinv_0_lt_compat. apply sqrt_lt_R0. lra.
Qed.
