(** * C68: derivatives of an Expression by all elements of a Matrix<Variable> *)

From Coq Require Import List Arith Bool ZArith Lia Permutation.
From Verif Require Import Num NumInst ScalarModel ScalarSpec ScalarReset ScalarUser ScalarBuild ScalarFacts ScalarMore ScalarWitness ScalarMat.
Import ListNotations.
Local Open Scope nat_scope.

(** TensorR2::DevalF(e, M), M an r x c matrix whose elements, row by row, are the variables xs.  In every state a client program can
    reach, whether e is differentiated directly or through copies, and in whatever order the elements are
    visited (no two calls at the same time): entry (i, j) of the result is the derivative of e by M(i, j),
    and no existing object changes.  The proviso is that of C08, for e too when copies are made:
    e was queried before, or none of the expressions it refers to was. *)
Theorem C68_forward : forall T (N : Num T) pad (h : heap T) st tc e r c xs direct order res,
  reached h st tc -> query_ok st tc e ->
  (direct = false -> tc e \/ forall w, udep st e w -> is_exp st w -> ~ tc w) ->
  length xs = r * c -> (forall x, In x xs -> is_var st x \/ is_exp st x) -> Permutation order (seq 0 (r * c)) ->
  exists res' h' st' tc', MDevalF pad direct e xs order res h = Some (res', h') /\
    reached h' st' tc' /\ (forall v, st v <> None -> st' v = st v) /\
    forall W, uvalues st e W -> forall i j x D, i < r -> j < c -> nth_error xs (i * c + j) = Some x -> uderivs st e W x D ->
      res' (i * c + j) = D e.
Proof.
  intros T N pad h st tc e r c xs direct order res R Q Hd Hl Hx Po. rewrite <- Hl in Po.
  destruct (mdevalF_ok pad h st tc e xs direct order res R Q Hd Hx Po) as (res' & h' & st' & tc' & E & R' & Ho & H).
  exists res', h', st', tc'. split; [exact E|]. split; [exact R'|]. split; [exact Ho|]. intros W V i j x D _ _. now apply H.
Qed.
Print Assumptions C68_forward.

(** TensorR2::DevalR(e, M) (CommonMatFunctions.hpp:162-175; JacobianR, lines 177-197, returns the same numbers
    as a column): one reverse sweep; entry by entry the same matrix. *)
Theorem C68_modes_agree : forall T (N : Num T), NumLaws N -> forall pad pad' h st tc e xs direct order res W,
  reached h st tc -> query_ok st tc e ->
  (direct = false -> tc e \/ forall w, udep st e w -> is_exp st w -> ~ tc w) ->
  (forall x, In x xs -> is_var st x) -> Permutation order (seq 0 (length xs)) ->
  uvalues st e W -> udivs_ok st e W ->
  exists res' ys h1 h2, MDevalF pad direct e xs order res h = Some (res', h1) /\
    step pad' (CGrad e xs) h = Some (ONums ys, h2) /\ length ys = length xs /\
    forall k, k < length xs -> nth_error ys k = Some (res' k).
Proof.
  intros T N L pad pad' h st tc e xs direct order res W R Q Hd Hx Po V Dv.
  assert (Hv : forall x, In x xs -> is_var st x \/ is_exp st x) by auto.
  destruct (mdevalF_ok pad h st tc e xs direct order res R Q Hd Hv Po) as (res' & h1 & st' & tc' & E & _ & _ & H).
  destruct (reached_grad h st tc pad' e xs L R Q Hv) as (W' & ys & h2 & V' & S & Hl & G).
  exists res', ys, h1, h2. split; [exact E|]. split; [exact S|]. split; [exact Hl|]. intros k Hk.
  destruct (nth_error xs k) as [x|] eqn:Ex; [|apply nth_error_None in Ex; lia].
  assert (EW : forall v, ureach st e v -> W v = W' v) by exact (uvalues_unique st e W W' (proj1 (proj2 Q)) V V').
  assert (Dv' : udivs_ok st e W').
  { destruct Q as (E0 & St & _). assert (I := reached_inv _ _ _ R).
    intros v l Hr El. specialize (Dv v l Hr El). revert Dv. clear - EW Hr El.
    assert (Sub : forall i, In i l -> forall w, In w (irefs i) \/ In w (ipars i) -> W w = W' w).
    { intros i Hi w Hw. apply EW. econstructor; [exact Hr|]. exists l, i. auto. }
    clear Hr El EW. revert Sub. generalize (@n0 T N). induction l as [|i l IH]; intros cur Sub; cbn [idivs_ok]; auto.
    assert (Ea : forall w, In w (irefs i) \/ In w (ipars i) -> at_ v cur W w = at_ v cur W' w).
    { intros w Hw. unfold at_. destruct (Nat.eqb w v); auto. apply (Sub i); [now left|exact Hw]. }
    assert (Ei : isem (at_ v cur W) i = isem (at_ v cur W') i) by (apply isem_ext; intros; apply Ea; auto).
    intros [A B]. split.
    - destruct i as [t|e'|]; auto. cbn [irefs ipars] in Ea. clear - A Ea.
      induction t as [w|p|k t IHt|k a IHa b IHb|t IHt]; cbn [tdiv_ok trefs tpars] in *; auto.
      destruct A as (A1 & A2 & A3). split; [apply IHa; auto; intros; apply Ea; rewrite !in_app_iff; tauto|].
      split; [apply IHb; auto; intros; apply Ea; rewrite !in_app_iff; tauto|]. destruct k; auto.
      replace (tsem (at_ v cur W') b) with (tsem (at_ v cur W) b); auto. apply tsem_ext. intros w Hw. apply Ea. rewrite !in_app_iff. tauto.
    - rewrite <- Ei. apply IH; auto. intros j Hj. apply Sub. now right. }
  destruct (G Dv' k x Ex (or_introl (Hx x (nth_error_In _ _ Ex)))) as (D & HD & Ey). rewrite Ey. f_equal. symmetry. eapply H; eauto.
Qed.
Print Assumptions C68_modes_agree.

(** ** The proviso is needed *)
(** x=1; a=2x; e=a*a; Eval(a); x=5: DevalF(e, x) is 40, but DevalF(e, M) for the 1x1 matrix M of x is 0. *)
Local Open Scope Z_scope.
Definition seen : list Zc :=
  [ CVar 1;                                      (* x : 2 *)
    CExpr (TUn (UProdC 2) (TRef 2));             (* a : 5 = 2*x *)
    CExpr (TBin BProd (TRef 5) (TRef 5));        (* e : 10 = a*a *)
    CEval 5;
    CSet 2 5 ].
Definition seen_out : list (out (T := Z)) := [OHandle 2; OHandle 5; OHandle 10; ONums [2]; ONone].
Definition seen_store : store := after_run store0 seen seen_out.
Lemma seen_dep v w : udep seen_store v w -> w = v \/ (w < v)%nat.
Proof. intros Hd. unfold seen_store in Hd. cbn [after_run seen seen_out] in Hd. dep_tac; auto; right; lia. Qed.
Lemma seen_below v : ureach seen_store 10 v -> In v [2; 5; 10]%nat.
Proof.
  intros H. induction H as [|v w _ IH Hd]; [simpl; auto 10|].
  unfold seen_store in Hd. cbn [after_run seen seen_out] in Hd. dep_tac; simpl; auto 10.
Qed.
Lemma seen_legal : legal_run store0 (fun _ => False) seen seen_out.
Proof.
  cbn [seen seen_out legal_run]. repeat apply conj; try exact Logic.I; legal_tac.
  - exists (fun v => v). intros v w _ Hd. cbn [uafter] in Hd. dep_tac; auto; right; lia.
  - unfold touch; cbn [uroot]. intros; auto.
Qed.
Definition seen_touched : nat -> Prop := touch_run store0 (fun _ => False) seen seen_out.
Lemma seen_query : query_ok seen_store seen_touched 10.
Proof.
  split; [eexists; reflexivity|]. split; [exists (fun v => v); intros v w _; apply seen_dep|].
  intros v w Hv Hne [l Hx] Ht Hd _. exfalso. apply seen_below in Hv. simpl in Hv. destruct Hv as [<-|[<-|[<-|[]]]]; [|apply Ht|lia].
  - cbv in Hx. discriminate.
  - right. constructor.
Qed.
Lemma seen_run : exists h, exec 0 (line seen) heap0 = Some (seen_out, h) /\
  (exists h', step 0 (CDevalF 10 2) h = Some (ONums [40], h')) /\
  exists res h', MDevalF 0 false 10 [2]%nat [0]%nat (fun _ => 0) h = Some (res, h') /\ res 0%nat = 0.
Proof.
  assert (E : match exec 0 (line seen) heap0 with
              | Some (os, h) => os = seen_out /\ option_map fst (step 0 (CDevalF 10 2) h) = Some (ONums [40]) /\
                   option_map (fun p => fst p 0%nat) (MDevalF 0 false 10 [2]%nat [0]%nat (fun _ => 0) h) = Some 0
              | None => False end) by (vm_compute; auto).
  destruct (exec 0 (line seen) heap0) as [[os h]|]; [|destruct E]. destruct E as (-> & E1 & E2). exists h. split; [reflexivity|]. split.
  - destruct (step 0 (CDevalF 10 2) h) as [[o h']|]; [|discriminate E1]. cbn in E1. injection E1 as ->. eauto.
  - destruct (MDevalF 0 false 10 [2]%nat [0]%nat (fun _ => 0) h) as [[res h']|]; [|discriminate E2]. cbn in E2. injection E2 as E2. eauto.
Qed.
Theorem C68_fresh_expression_refuted : exists h st tc e x d res h' h1,
  reached (T := Z) h st tc /\ query_ok st tc e /\ is_var st x /\
  step 0 (CDevalF e x) h = Some (ONums [d], h1) /\
  (forall W D, uvalues st e W -> uderivs st e W x D -> D e = d) /\
  MDevalF 0 false e [x] [0%nat] (fun _ => 0) h = Some (res, h') /\ res 0%nat <> d.
Proof.
  destruct seen_run as (h & E & (h1 & E1) & res & h' & E2 & E3).
  assert (R := run_reached 0 seen heap0 store0 _ seen_out h reached0 seen_legal E). fold seen_store seen_touched in R.
  exists h, seen_store, seen_touched, 10%nat, 2%nat, 40, res, h', h1. split; [exact R|]. split; [exact seen_query|]. split; [eexists; reflexivity|].
  split; [exact E1|]. split; [|split; [exact E2|rewrite E3; discriminate]].
  intros W D V HD. destruct (reached_answer h _ _ (CDevalF 10 2) 0 R) as (o & h2 & S & (y & -> & A) & _).
  { split; [exact seen_query|left; eexists; reflexivity]. }
  rewrite E1 in S. injection S as <- <-. symmetry. exact (A W D V HD).
Qed.
Print Assumptions C68_fresh_expression_refuted.

(** ** Calls at the same time *)
(** With ENABLE_STL_PARALLEL_EXECUTION lines 137-138 use std::execution::par: calls of DevalF on the copies may overlap.
    All copies refer to e itself, so they share its nodes.  A call is the two steps of C03
    (CommonFunctions.cpp:43-52): reset, then devalF; even if each step is atomic, interleaving them gives wrong numbers. *)
Inductive turn : Type := TReset (k : nat) | TDeval (k : nat).
Fixpoint overlapped {T} {N : Num T} (fuel : nat) (cs xs : list nat) (ts : list turn) (res : nat -> T) (h : heap T) : option ((nat -> T) * heap T) :=
  match ts with
  | [] => Some (res, h)
  | TReset k :: ts => do h1 <- reset_impl fuel (nth k cs O) h; overlapped fuel cs xs ts res h1
  | TDeval k :: ts => do (y, h1) <- devalF_var fuel (nth k xs O) (nth k cs O) h; overlapped fuel cs xs ts (upd res k y) h1
  end.
Definition turns_of (k : nat) (ts : list turn) : list turn :=
  filter (fun t => match t with TReset j | TDeval j => Nat.eqb j k end) ts.
(** Every element: one reset, then one devalF. *)
Definition interleaving (n : nat) (ts : list turn) : Prop :=
  (forall k, (k < n)%nat -> turns_of k ts = [TReset k; TDeval k]) /\ length ts = (2 * n)%nat.
Definition pair : list Zc := [CVar 2; CVar 3; CExpr (TBin BProd (TRef 2) (TRef 3))].   (* e : 6 = x*y *)
Definition pair_out : list (out (T := Z)) := [OHandle 2; OHandle 3; OHandle 6].
Definition par_run (ts : list turn) : option (list out * option (Z * Z)) :=
  match exec 0 (line pair) heap0 with
  | Some (os, h) =>
      match make_copies 0 2 h with
      | Some (cs, h1) =>
          match fill_copies 0 6 cs h1 with
          | Some h2 => Some (os, match overlapped (fuel_for 0 h2) cs [2; 3]%nat ts (fun _ => 0) h2 with
                                 | Some (res, _) => Some (res 0%nat, res 1%nat) | None => None end)
          | None => None
          end
      | None => None
      end
  | None => None
  end.
(** M = [x y], e = x*y at x=2, y=3: the derivatives are (3, 2); one call after the other finds them, in
    either order, but when both resets come first the second derivative is returned as 3. *)
Theorem C68_parallel_refuted :
  par_run [TReset 0; TDeval 0; TReset 1; TDeval 1] = Some (pair_out, Some (3, 2)) /\
  par_run [TReset 1; TDeval 1; TReset 0; TDeval 0] = Some (pair_out, Some (3, 2)) /\
  interleaving 2 [TReset 0; TReset 1; TDeval 0; TDeval 1] /\
  par_run [TReset 0; TReset 1; TDeval 0; TDeval 1] = Some (pair_out, Some (3, 3)).
Proof.
  split; [vm_compute; reflexivity|]. split; [vm_compute; reflexivity|]. split; [|vm_compute; reflexivity].
  split; [|reflexivity]. intros [|[|k]] Hk; try reflexivity. lia.
Qed.
Print Assumptions C68_parallel_refuted.

(** The demo program, differentiated by the 2x1 matrix of its two variables; nothing was queried before. *)
Example C68_nonvacuous : exists h, reached h demo_store (fun _ => False) /\ query_ok demo_store (fun _ => False) 20 /\
  (forall w, udep demo_store 20 w -> is_exp demo_store w -> ~ False) /\ (forall x, In x [3; 2]%nat -> is_var demo_store x) /\
  uvalues demo_store 20 demo_W /\ udivs_ok demo_store 20 demo_W /\ Permutation [1; 0]%nat (seq 0 (length [3; 2]%nat)).
Proof.
  destruct demo_reached as (h & R). exists h. split; [exact R|]. split; [exact demo_query|]. split; [auto|]. split.
  - intros x [<-|[<-|[]]]; eexists; reflexivity.
  - split; [exact demo_values|]. split; [exact demo_divs|]. apply perm_swap.
Qed.
