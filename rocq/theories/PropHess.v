(** * C21, C58: Hessians, symbolic gradients, the scalar oracle *)

From Coq Require Import List Arith Bool ZArith Lia Reals Lra.
From Verif Require Import Num NumInst ScalarModel ScalarSpec ScalarUser ScalarBuild ScalarFacts ScalarMore Calculus ScalarCalc
  ScalarSym SymForm SymUser SymCalc SymHess SymHessCalc SymWitness HessWitness.
Import ListNotations.
Local Open Scope nat_scope.

(** ** C21 Hessian *)
(** Expected: entry (i, j) is the second derivative with respect to x_i and x_j.  What holds: HessianR returns, the
    diagonal entries are the second derivatives, the others are 0.  f: the value of e as a function of the numbers of all
    variables and parameters; U: points where every operator below e is smooth; s: the present numbers, in U. *)
Theorem C21_hessianR : forall (lr : form (T := R) -> bool) h st tc e (U : (nat -> R) -> Prop),
  reached h st tc -> query_ok st tc e -> closed_graph st e -> (forall s, U s -> smooth_at st e s) ->
  forall f, (forall t W, uvalues (at_vals st t) e W -> f t = W e) ->
  forall pad xs s, xs <> [] -> Forall (is_var st) xs -> vals_of st s -> U s ->
  exists H h', HessianR lr pad e xs h = Some (H, h') /\
    (forall i x, nth_error xs i = Some x -> exists f', (forall t, U t -> partial f x t (f' t)) /\ partial f' x s (H i i)) /\
    (forall i j, i <> j -> H i j = 0%R).
Proof. exact hessianR_ok. Qed.
Print Assumptions C21_hessianR.

(** x * y: the mixed derivative is 1, both entries are 0. *)
Theorem C21_hessianR_refuted : forall lr : form (T := R) -> bool, exists h st tc e x y s H h',
  reached h st tc /\ query_ok st tc e /\ closed_graph st e /\ (forall t, smooth_at st e t) /\ is_var st x /\ is_var st y /\ vals_of st s /\
  HessianR lr 0 e [x; y] h = Some (H, h') /\
  forall f f' m, (forall t W, uvalues (at_vals st t) e W -> f t = W e) -> (forall t, partial f x t (f' t)) -> partial f' y s m ->
    H 0 1 <> m /\ H 1 0 <> m.
Proof.
  intros lr. destruct mix_reached as (h & Re).
  destruct (hessianR_ok lr h mix_store _ 6 (fun _ => True) Re mix_query mix_closed (fun s _ => mix_smooth s) mix_f mix_f_is 0 [2; 3] mix_vals)
    as (H & h' & E & _ & Z); [discriminate|exact mix_vars|exact mix_vals_of|exact Logic.I|].
  exists h, mix_store, (fun _ => False), 6, 2, 3, mix_vals, H, h'.
  split; [exact Re|]. split; [exact mix_query|]. split; [exact mix_closed|]. split; [exact mix_smooth|].
  split; [eexists; reflexivity|]. split; [eexists; reflexivity|]. split; [exact mix_vals_of|]. split; [exact E|].
  intros f f' m Hf P1 P2. rewrite (mix_mixed f f' mix_vals m Hf P1 P2), !Z by lia. split; lra.
Qed.
Print Assumptions C21_hessianR_refuted.

(** SymHessian, n = length xs, elements row by row in ms.  In any session of evaluations, derivatives and updates ([simple]:
    no further SymDiff) of one diagonal element the answers are those of the second derivative ([denotes], see C15); every
    other element is the constant 0. *)
Theorem C21_symHessian : forall (lr : form (T := R) -> bool) h st tc e (U : (nat -> R) -> Prop),
  reached h st tc -> query_ok st tc e -> closed_graph st e -> (forall s, U s -> smooth_at st e s) ->
  forall f, (forall t W, uvalues (at_vals st t) e W -> f t = W e) ->
  forall pad xs s, xs <> [] -> Forall (is_var st) xs -> vals_of st s -> let n := length xs in
  exists ms h', SymHessian lr pad e xs h = Some (ms, h') /\ length ms = n * n /\
    (forall i x m, nth_error xs i = Some x -> nth_error ms (i * n + i) = Some m ->
      exists f' f'', (forall t, U t -> partial f x t (f' t)) /\ (forall t, U t -> partial f' x t (f'' t)) /\
      forall pad' acts, Forall (act_ok st) acts -> Forall simple acts ->
        exists os h2, play lr pad' m acts h' = Some (os, h2) /\ denotes U f'' s acts os) /\
    (forall i j m, i < n -> j < n -> i <> j -> nth_error ms (i * n + j) = Some m ->
      forall pad' acts, Forall (act_ok st) acts -> Forall simple acts ->
        exists os h2, play lr pad' m acts h' = Some (os, h2) /\ denotes U (fun _ => 0%R) s acts os).
Proof. exact sym_hessian_ok. Qed.
Print Assumptions C21_symHessian.
Theorem C21_symHessian_refuted : forall lr : form (T := R) -> bool, exists h st tc e x y s ms h' m01 h2 z,
  reached h st tc /\ query_ok st tc e /\ closed_graph st e /\ (forall t, smooth_at st e t) /\ is_var st x /\ is_var st y /\ vals_of st s /\
  SymHessian lr 0 e [x; y] h = Some (ms, h') /\ nth_error ms 1 = Some m01 /\
  exec 0 (Do (CEval m01) (fun _ => Done)) h' = Some ([ONums [z]], h2) /\
  forall f f' m, (forall t W, uvalues (at_vals st t) e W -> f t = W e) -> (forall t, partial f x t (f' t)) -> partial f' y s m -> z <> m.
Proof.
  intros lr. destruct mix_reached as (h & Re).
  destruct (sym_hessian_ok lr h mix_store _ 6 (fun _ => True) Re mix_query mix_closed (fun s _ => mix_smooth s) mix_f mix_f_is 0 [2; 3] mix_vals)
    as (ms & h' & E & Len & _ & Z); [discriminate|exact mix_vars|exact mix_vals_of|].
  destruct (nth_error ms 1) as [m|] eqn:Em; [|apply nth_error_None in Em; cbn [length] in Len; lia].
  destruct (Z 0 1 m ltac:(simpl; lia) ltac:(simpl; lia) ltac:(lia) Em 0 [AEval]) as (os & h2 & Ep & D); [repeat constructor|repeat constructor|].
  cbn [play play1] in Ep. destruct (step 0 (CEval m) h') as [[o h2']|] eqn:Es; [|discriminate]. injection Ep as <- <-.
  cbn [denotes] in D. destruct D as [-> _].
  exists h, mix_store, (fun _ => False), 6, 2, 3, mix_vals, ms, h', m, h2', 0%R.
  split; [exact Re|]. split; [exact mix_query|]. split; [exact mix_closed|]. split; [exact mix_smooth|].
  split; [eexists; reflexivity|]. split; [eexists; reflexivity|]. split; [exact mix_vals_of|]. split; [exact E|]. split; [exact Em|].
  split; [cbn [exec]; rewrite Es; reflexivity|].
  intros f f' m' Hf P1 P2. rewrite (mix_mixed f f' mix_vals m' Hf P1 P2). lra.
Qed.
Print Assumptions C21_symHessian_refuted.

(** OracleScalar::hessian() for one variable x: the first and every later call, with updates in between, gives the second
    derivative at the numbers of that moment ([second]). *)
Theorem C21_oracle_one : forall (lr : form (T := R) -> bool) h st tc e (U : (nat -> R) -> Prop),
  reached h st tc -> query_ok st tc e -> closed_graph st e -> (forall s, U s -> smooth_at st e s) ->
  forall f, (forall t W, uvalues (at_vals st t) e W -> f t = W e) ->
  forall pad x s acts, is_var st x -> vals_of st s -> Forall (oact_ok st) acts ->
  exists Hs h' f', (let (ms, h1) := oracle_new h in oplay lr pad e ms [x] None acts h1) = Some (Hs, h') /\
    (In OHess acts -> forall t, U t -> partial f x t (f' t)) /\ second U f' x s acts Hs.
Proof. exact oracle_one. Qed.
Print Assumptions C21_oracle_one.
(** From two variables on hessian() never returns: the index check of m_jacobian_sym[1] fails (the symbolic derivatives
    themselves exist by C13). *)
Theorem C21_oracle_refuted : forall (T : Type) (N : Num T) (lr : form (T := T) -> bool) pad e (h : heap T) xs, 2 <= length xs ->
  let (ms, h1) := oracle_new h in forall h2, oracle_hessian lr pad e ms xs None h2 = None.
Proof. exact @oracle_many. Qed.
Print Assumptions C21_oracle_refuted.
Example C21_nonvacuous : exists h, reached h good_store (fun _ => False) /\ query_ok good_store (fun _ => False) 28 /\
  closed_graph good_store 28 /\ (forall t : nat -> R, (0 < t 2%nat)%R -> smooth_at good_store 28 t) /\
  Forall (is_var good_store) [2] /\ Forall (oact_ok good_store) [OSet R 2 7%R; OHess; OSetPar R 3 1%R; OHess; OHess].
Proof.
  destruct good_reached as (h & Re). exists h. split; [exact Re|]. split; [now apply good_query; right|].
  split; [exact good_closed|]. split; [exact good_smooth|]. split; repeat constructor; try (eexists; reflexivity).
Qed.

(** ** C58 Symbolic gradients *)
(** SymGradient(e, xs) and SymMatDiff(e, X): entry i denotes the derivative with respect to x_i in every later session of
    evaluations, forward and reverse derivatives and updates in which no other entry is evaluated. *)
Theorem C58_gradient_entry : forall (lr : form (T := R) -> bool) h st tc e (U : (nat -> R) -> Prop),
  reached h st tc -> query_ok st tc e -> closed_graph st e -> (forall s, U s -> smooth_at st e s) ->
  forall f, (forall t W, uvalues (at_vals st t) e W -> f t = W e) ->
  forall pad xs s, xs <> [] -> Forall (is_var st) xs -> vals_of st s ->
  exists ms h', SymGradient lr pad e xs h = Some (ms, h') /\ length ms = length xs /\
    (forall i m x, nth_error ms i = Some m -> nth_error xs i = Some x ->
      exists f', (forall t, U t -> partial f x t (f' t)) /\
      forall pad' acts, Forall (act_ok st) acts -> Forall simple acts ->
        exists os h2, play lr pad' m acts h' = Some (os, h2) /\ denotes U f' s acts os).
Proof. exact sym_gradient_ok. Qed.
Print Assumptions C58_gradient_entry.
(** Expected: also if the entries are used in turn.  False: the first entry is evaluated, x is changed, then the second
    entry is evaluated for the first time. *)
Theorem C58_entries_in_turn_refuted : forall b : bool,
  exists h st e x y ms h1 m0 m1 z d h2, reached (T := Z) h st (fun _ => False) /\ query_ok st (fun _ => False) e /\ plain_graph st e /\
  is_var st x /\ is_var st y /\ SymGradient (fun _ => b) 0 e [x; y] h = Some (ms, h1) /\ ms = [m0; m1] /\
  exec 0 (line [CEval m0; CSet x 3%Z; CEval m1]) h1 = Some ([ONums [z]; ONone; ONums [d]], h2) /\
  forall W D, uvalues (put st x (OVar 3%Z)) e W -> uderivs (put st x (OVar 3%Z)) e W y D -> d <> D e.
Proof. exact sweep_refutes. Qed.
Print Assumptions C58_entries_in_turn_refuted.
Example C58_nonvacuous : exists h, reached h mix_store (fun _ => False) /\ query_ok mix_store (fun _ => False) 6 /\
  closed_graph mix_store 6 /\ (forall t, smooth_at mix_store 6 t) /\ Forall (is_var mix_store) [2; 3] /\ vals_of mix_store mix_vals /\
  Forall (act_ok mix_store) [AEval; ASet R 2 7%R; AGrad [3; 2]; ADevalF 3] /\ Forall simple [AEval; ASet R 2 7%R; AGrad [3; 2]; ADevalF 3].
Proof.
  destruct mix_reached as (h & Re). exists h. split; [exact Re|]. split; [exact mix_query|]. split; [exact mix_closed|].
  split; [exact mix_smooth|]. split; [exact mix_vars|]. split; [exact mix_vals_of|]. split; repeat constructor; try (eexists; reflexivity).
  intros z [<-|[<-|[]]]; eexists; reflexivity.
Qed.
