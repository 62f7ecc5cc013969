(** * Properties C38, C39, C40, C41: evaluation and forward derivatives of matrix expressions *)
From Coq Require Import List Arith Bool Lia ZArith Reals.
From Verif Require Import Num NumInst MatMem Kernels KernelFacts KernelProofs KernelBlocks KernelMore Registry KernelStep Backend Slots Exec Sums ConvProofs ConvDerv MatEngine MatGraph MatLeaf MatEval MatDeval MatHist MatSpec MatCalls MatFuel MatCalc.
From Verif Require PropKernel PropConv.
Import ListNotations.
Set Implicit Arguments.
Unset Strict Implicit.
Local Open Scope nat_scope.

(** ** Specification, spelled out once more *)
(** The specification's matrices at the level of entries. *)
Lemma mat_of_spec : forall {T} (G : graph T) e F, mr (mat_of G e F) = rows G e /\ mc (mat_of G e F) = cols G e /\
  forall i j, mf (mat_of G e F) i j = F i j.
Proof. intros. repeat split. Qed.
Lemma jac_of_spec : forall {T} (G : graph T) x e D,
  mr (jac_of G x e D) = rows G e * g_rows G x /\ mc (jac_of G x e D) = cols G e * g_cols G x /\
  forall l k i j, i < g_rows G x -> j < g_cols G x -> mf (jac_of G x e D) (l * g_rows G x + i) (k * g_cols G x + j) = D l k i j.
Proof.
  intros T G x e D. split; [reflexivity|]. split; [reflexivity|]. intros l k i j Hi Hj. simpl.
  destruct (divmod_block l Hi) as [-> ->]. destruct (divmod_block k Hj) as [-> ->]. reflexivity.
Qed.
(** The call returns p, with the state s' after it. *)
Definition returns {T} {N : Num T} (S : sched T) (h : handler) (G : graph T) (a : act T) (s : st (T := T)) (p : ptr) (s' : st (T := T)) : Prop :=
  exists n, forall f, n <= f -> call S (backend_of S h) G f a s = EOk (p, s').
(** States of a program that has built the matrices of G and then called Eval and DevalF,
    on settled expressions only. *)
Inductive reached {T} {N : Num T} (S : sched T) (h : handler) (G : graph T) (host : nat -> option obj) : st (T := T) -> Prop :=
| reached_init m : tame m -> reached S h G host (init m)
| reached_call s a p s' : reached S h G host s -> settled G (act_exp a) s -> act_ok (backend_of S h) G host a ->
    returns S h G a s p s' -> reached S h G host s'.

Section Main.
Context {T : Type} {N : Num T}.
Variable L : NumLaws N.
Variable S : sched T.
Hypothesis VS : valid_sched S.
Variable G : graph T.
Variable host : nat -> option obj.
Variable rank : obj -> nat.
Hypothesis WF : wf_graph G host rank.
Variable h : handler.

Lemma right_call a s : Inv G s -> settled G (act_exp a) s -> act_ok (backend_of S h) G host a ->
  exists p s', returns S h G a s p s' /\ right G a (mm s') p /\ Inv G s'.
Proof.
  intros I Hs Ha.
  destruct (call_right L VS (backend_value VS (fun _ => L)) (or_intror (backend_kron_zeroed VS h L)) WF I Hs Ha) as (n & p & s' & E & R & I' & _).
  exists p, s'. split; [now exists n|]. auto.
Qed.
Lemma returns_det a s p s' q s2 : returns S h G a s p s' -> returns S h G a s q s2 -> p = q /\ s' = s2.
Proof.
  intros (n & E) (n2 & E2). specialize (E (n + n2) ltac:(lia)). specialize (E2 (n + n2) ltac:(lia)). split; congruence.
Qed.
Lemma reached_Inv s : reached S h G host s -> Inv G s.
Proof.
  induction 1 as [m Tm|s a p s' R IH Hs Ha Hr]; [now apply Inv_init|].
  destruct (right_call IH Hs Ha) as (q & s2 & E & _ & I'). now destruct (returns_det Hr E) as [_ ->].
Qed.
End Main.

(** ** C38 *)
Theorem C38_eval : forall {T} {N : Num T}, NumLaws N -> forall (S : sched T), valid_sched S ->
  forall (h : handler) (G : graph T) host rank, wf_graph G host rank ->
  forall s, reached S h G host s ->
  forall (rho : env T) e, root host e -> fits G e -> settled G e s ->
  exists F p s', den G rho e F /\ returns S h G (AEval rho e) s p s' /\ holds (mm s') p (mat_of G e F) /\ reached S h G host s'.
Proof.
  intros T N L S VS h G host rank WF s R rho e Hr Hf Hs.
  assert (Ok : act_ok (backend_of S h) G host (AEval rho e)) by (split; [exact Hr|]; split; [exact Hf|exact Logic.I]).
  destruct (right_call L VS WF (reached_Inv L VS WF R) (a := AEval rho e) Hs Ok) as (p & s' & E & (F & HF & Hp) & _).
  exists F, p, s'. split; [exact HF|]. split; [exact E|]. split; [exact Hp|].
  eapply (reached_call (a := AEval rho e)); eauto.
Qed.
Print Assumptions C38_eval.
(** Any interleaving of evaluations (both backends) of expressions each of which is named
    and shares nothing but unit matrices with the others, the entries changing freely
    between the calls. *)
Theorem C38_history : forall {T} {N : Num T}, NumLaws N -> forall (S : sched T), valid_sched S ->
  forall (h : handler) (G : graph T) host rank, wf_graph G host rank ->
  forall m (l : list (act T)), tame m -> Forall (act_ok (backend_of S h) G host) l ->
  (forall a b, In a l -> In b l -> act_exp b = act_exp a \/ disjoint G (act_exp a) (act_exp b)) ->
  plays S (backend_of S h) G l (init m).
Proof.
  intros T N L S VS h G host rank WF m l Tm Ok Hd.
  apply (history_right L VS (backend_value VS (fun _ => L)) (or_intror (backend_kron_zeroed VS h L)) WF (Inv_init G Tm) Ok).
  intros a Ha. right. split; [intros o _ _; reflexivity|]. intros b Hb. auto.
Qed.
Print Assumptions C38_history.
(** Expressions of operators over plain matrices may be evaluated in any state. *)
Theorem C38_plain : forall {T} {N : Num T}, NumLaws N -> forall (S : sched T), valid_sched S ->
  forall (h : handler) (G : graph T) host rank, wf_graph G host rank ->
  forall s, reached S h G host s ->
  forall (rho : env T) e, root host e -> fits G e -> (forall o, In o (leaves e) -> is_leaf G o) ->
  exists F p s', den G rho e F /\ returns S h G (AEval rho e) s p s' /\ holds (mm s') p (mat_of G e F) /\ reached S h G host s'.
Proof.
  intros T N L S VS h G host rank WF s R rho e Hr Hf Hl. eapply C38_eval; eauto. now apply settled_plain.
Qed.
Print Assumptions C38_plain.
(** After a successful evaluation the expression may be evaluated and differentiated again. *)
Theorem C38_again : forall {T} {N : Num T}, NumLaws N -> forall (S : sched T), valid_sched S ->
  forall (h : handler) (G : graph T) host rank, wf_graph G host rank ->
  forall s a p s', reached S h G host s -> settled G (act_exp a) s -> act_ok (backend_of S h) G host a ->
  returns S h G a s p s' -> settled G (act_exp a) s'.
Proof.
  intros T N L S VS h G host rank WF s a p s' R Hs Ha Hr.
  destruct (call_right L VS (backend_value VS (fun _ => L)) (or_intror (backend_kron_zeroed VS h L)) WF (reached_Inv L VS WF R) Hs Ha) as (n & q & s2 & E & _ & _ & V & _).
  destruct (returns_det Hr (ex_intro _ n E)) as [_ ->]. apply evaluated_settled. intros o Ho _. now apply V.
Qed.
Print Assumptions C38_again.

(** Operands of the wrong shape are rejected before any kernel runs on them: every operator
    of an expression that Eval returns a value for has operands that fit. *)
Inductive checked {T} (G : graph T) : mexp T -> Prop :=
| ck_leaf o : checked G (MLeaf o)
| ck_prod id l r : checked G l -> checked G r -> cols G l = rows G r -> checked G (MBin BProd id l r)
| ck_zip k id l r : k <> BProd -> checked G l -> checked G r -> rows G l = rows G r -> cols G l = cols G r -> checked G (MBin k id l r)
| ck_un k id e : checked G e -> match k with UInv _ | UDet _ _ => rows G e = cols G e | _ => True end -> checked G (MUn k id e).
Theorem C38_rejects : forall {T} {N : Num T} (S : sched T) (h : handler) (G : graph T) (rho : env T) f e s p s',
  Eval S (backend_of S h) G rho f e s = EOk (p, s') -> checked G e.
Proof.
  intros T N S h G rho f e s p s' H. unfold Eval, ebind in H. destruct (reset G f e s) as [[[] s0]| | |]; try discriminate.
  revert e s0 p s' H. induction f as [|f IH]; intros e s0 p s' H; [discriminate|]. destruct e as [o|k id l r|k id a]; [constructor| |].
  - simpl in H. unfold ebind, eassert in H. destruct (verify G k l r) eqn:V; [|discriminate].
    destruct (eval S (backend_of S h) G rho f l s0) as [[pl s1]| | |] eqn:El; try discriminate.
    destruct (eval S (backend_of S h) G rho f r s1) as [[pr s2]| | |] eqn:Er; try discriminate.
    apply IH in El. apply IH in Er. unfold verify in V.
    destruct k; try (apply Nat.eqb_eq in V; now constructor); apply andb_true_iff in V; destruct V as [V1 V2]; apply Nat.eqb_eq in V1, V2; constructor; auto; discriminate.
  - simpl in H. unfold ebind, eassert in H. destruct (un_verify G k a) eqn:V; [|discriminate].
    destruct (eval S (backend_of S h) G rho f a s0) as [[pl s1]| | |] eqn:El; try discriminate.
    constructor; [eapply IH; eauto|]. destruct k; auto; now apply Nat.eqb_eq.
Qed.
Print Assumptions C38_rejects.

(** ** C40 *)
Theorem C40_devalF : forall {T} {N : Num T}, NumLaws N -> forall (S : sched T), valid_sched S ->
  forall (G : graph T) host rank, wf_graph G host rank -> distinct_vars G ->
  forall s, reached S HEigen G host s ->
  forall (rho : env T) e x, g_kind G x = LVar -> root host e -> fits G e -> settled G e s ->
  exists F D p s', dif G rho x e F D /\ returns S HEigen G (ADevalF rho e x) s p s' /\ holds (mm s') p (jac_of G x e D) /\ reached S HEigen G host s'.
Proof.
  intros T N L S VS G host rank WF DV s R rho e x Xv Hr Hf Hs.
  assert (Ok : act_ok (backend_of S HEigen) G host (ADevalF rho e x)).
  { split; [exact Hr|]. split; [exact Hf|]. split; [now apply eigen_kron|auto]. }
  destruct (right_call L VS WF (reached_Inv L VS WF R) (a := ADevalF rho e x) Hs Ok) as (p & s' & E & (F & D & HF & Hp) & _).
  exists F, D, p, s'. split; [exact HF|]. split; [exact E|]. split; [exact Hp|].
  eapply (reached_call (a := ADevalF rho e x)); eauto.
Qed.
Print Assumptions C40_devalF.
(** In terms of the entries of the returned matrix. *)
Theorem C40_entries : forall {T} {N : Num T}, NumLaws N -> forall (S : sched T), valid_sched S ->
  forall (G : graph T) host rank, wf_graph G host rank -> distinct_vars G ->
  forall s, reached S HEigen G host s ->
  forall (rho : env T) e x, g_kind G x = LVar -> root host e -> fits G e -> settled G e s ->
  exists F D p s', dif G rho x e F D /\ returns S HEigen G (ADevalF rho e x) s p s' /\
    is_mat (mm s') p (rows G e * g_rows G x) (cols G e * g_cols G x) /\
    forall l k i j, l < rows G e -> k < cols G e -> i < g_rows G x -> j < g_cols G x ->
      val (mm s') p (l * g_rows G x + i) (k * g_cols G x + j) = D l k i j.
Proof.
  intros T N L S VS G host rank WF DV s R rho e x Xv Hr Hf Hs.
  destruct (C40_devalF L VS WF DV R rho Xv Hr Hf Hs) as (F & D & p & s' & HD & E & Hp & _).
  exists F, D, p, s'. split; [exact HD|]. split; [exact E|]. destruct Hp as (Hm & Hv). split; [exact Hm|].
  intros l k i j Hl Hk Hi Hj. rewrite Hv.
  - apply (jac_of_spec G x e D); auto.
  - simpl. nia.
  - simpl. nia.
Qed.
Print Assumptions C40_entries.

(** ** C41 *)
Theorem C41_limit : forall (S : sched R), valid_sched S ->
  forall (G : graph R) host rank, wf_graph G host rank -> distinct_vars G ->
  forall s, reached S HEigen G host s ->
  forall e x i j, g_kind G x = LVar -> i < g_rows G x -> j < g_cols G x -> root host e -> fits G e -> settled G e s ->
  (** rho_ t: entry (i,j) of x is t, the other entries of the variable matrices do not depend on t *)
  forall (rho_ : R -> env R) t0, varies G x i j rho_ t0 -> smooth G (rho_ t0) e ->
  exists Ft p s', (forall t, den G (rho_ t) e (Ft t)) /\ returns S HEigen G (ADevalF (rho_ t0) e x) s p s' /\
    is_mat (mm s') p (rows G e * g_rows G x) (cols G e * g_cols G x) /\
    forall l k, l < rows G e -> k < cols G e ->
      derivable_pt_lim (fun t => Ft t l k) t0 (val (mm s') p (l * g_rows G x + i) (k * g_cols G x + j)).
Proof.
  intros S VS G host rank WF DV s R e x i j Xv Hi Hj Hr Hf Hs rho_ t0 V Sm.
  destruct (C40_entries LawsR VS WF DV R (rho_ t0) Xv Hr Hf Hs) as (F & D & p & s' & HD & E & Hm & Hv).
  destruct (dif_lim WF V Hf Sm HD Hi Hj) as (Ft & _ & Hd & Hl).
  exists Ft, p, s'. split; [exact Hd|]. split; [exact E|]. split; [exact Hm|]. intros l k Bl Bk. rewrite Hv by auto. now apply Hl.
Qed.
Print Assumptions C41_limit.

(** ** Concrete programs *)
Lemma run1 {T} {N : Num T} (S : sched T) h (G : graph T) a s (P : ptr -> st (T := T) -> Prop) :
  (match outcome S (backend_of S h) G a s with Some (p, s') => P p s' | None => False end) ->
  exists p s', returns S h G a s p s' /\ P p s'.
Proof.
  destruct (outcome S (backend_of S h) G a s) as [[p s']|] eqn:E; [|intros []]. intros H. exists p, s'. split; [exact (outcome_returns E)|exact H].
Qed.
Lemma run2 {T} {N : Num T} (S : sched T) h (G : graph T) a b s (P : ptr -> st (T := T) -> ptr -> st (T := T) -> Prop) :
  (match outcome S (backend_of S h) G a s with Some (p, s') =>
     match outcome S (backend_of S h) G b s' with Some (q, s2) => P p s' q s2 | None => False end | None => False end) ->
  exists p s' q s2, returns S h G a s p s' /\ returns S h G b s' q s2 /\ P p s' q s2.
Proof.
  destruct (outcome S (backend_of S h) G a s) as [[p s']|] eqn:E; [|intros []].
  destruct (outcome S (backend_of S h) G b s') as [[q s2]|] eqn:E'; [|intros []].
  intros H. exists p, s', q, s2. split; [exact (outcome_returns E)|]. split; [exact (outcome_returns E')|exact H].
Qed.
Lemma run3 {T} {N : Num T} (S : sched T) h (G : graph T) a b c s (P : ptr -> st (T := T) -> ptr -> st (T := T) -> ptr -> st (T := T) -> Prop) :
  (match outcome S (backend_of S h) G a s with Some (p, s') =>
     match outcome S (backend_of S h) G b s' with Some (q, s2) =>
       match outcome S (backend_of S h) G c s2 with Some (r, s3) => P p s' q s2 r s3 | None => False end | None => False end | None => False end) ->
  exists p s' q s2 r s3, returns S h G a s p s' /\ returns S h G b s' q s2 /\ returns S h G c s2 r s3 /\ P p s' q s2 r s3.
Proof.
  destruct (outcome S (backend_of S h) G a s) as [[p s']|] eqn:E; [|intros []].
  destruct (outcome S (backend_of S h) G b s') as [[q s2]|] eqn:E'; [|intros []].
  destruct (outcome S (backend_of S h) G c s2) as [[r s3]|] eqn:E2; [|intros []].
  intros H. exists p, s', q, s2, r, s3. split; [exact (outcome_returns E)|]. split; [exact (outcome_returns E')|]. split; [exact (outcome_returns E2)|exact H].
Qed.
Definition gobj {T} : Type := (kind T * (nat * nat))%type.
Definition graph_of {T} (l : list (gobj (T := T))) : graph T :=
  let get o := nth o l (LConst, (1, 1)) in
  Graph (fun o => fst (get o)) (fun o => fst (snd (get o))) (fun o => snd (snd (get o))) (fun o => o) (fun o n => 100 * o + n).
Definition host_of {T} (l : list (gobj (T := T))) (id : nat) : option obj :=
  find (fun o => match fst (nth o l (LConst, (1, 1))) with KExp i e y => existsb (Nat.eqb id) (nodes (item i e y)) | _ => false end) (seq 0 (length l)).
Definition mem0 : mem Z := mem_of [].
Lemma tame0 : tame mem0.
Proof.
  split; [|split; [split|]].
  - intros p o H. destruct p; discriminate.
  - intros p o H. destruct p; discriminate.
  - intros p q o o' H. destruct p; discriminate.
  - intros k sp R C p [].
Qed.
Ltac each o n := match n with 0 => idtac | Datatypes.S ?m => destruct o as [|o]; [|each o m] end.
Ltac leaf_in H := repeat (destruct H as [<-|H]); try (destruct H).
Ltac solve_wf := constructor;
  [ intros o; each o 8; try (destruct o); simpl; lia
  | intros o id e y o' H Hin; each o 8; try (destruct o); try discriminate H; injection H as <- <- <-; simpl in Hin; leaf_in Hin; lia
  | intros o id e y H; each o 8; try (destruct o); try discriminate H; injection H as <- <- <-;
    (split; [repeat constructor; simpl; intuition discriminate | intros i Hin; simpl in Hin; leaf_in Hin; reflexivity])
  | intros o id e y H; each o 8; try (destruct o); try discriminate H; injection H as <- <- <-; split; reflexivity
  | intros o id e y H; each o 8; try (destruct o); try discriminate H; injection H as <- <- <-; repeat split; reflexivity ].

(** X, Y : 2x2, Eye(2), A = X*Y + X, B = transpose(A) % (3 * X) with % standing for the Hadamard product (operator^). *)
Definition ex_objs : list (gobj (T := Z)) :=
  [ (LVar, (2, 2)); (LVar, (2, 2)); (LEye, (2, 2));
    (KExp 30 (MBin BSum 31 (MBin BProd 32 (MLeaf 0) (MLeaf 1)) (MLeaf 0)) 2, (2, 2));
    (KExp 40 (MBin BHad 41 (MUn UTr 42 (MLeaf 3)) (MUn (USProd 3%Z) 43 (MLeaf 0))) 2, (2, 2)) ].
Definition ex_graph : graph Z := graph_of ex_objs.
Lemma ex_wf : wf_graph ex_graph (host_of ex_objs) (fun o => o).
Proof. solve_wf. Qed.
Lemma ex_distinct : distinct_vars ex_graph.
Proof.
  intros o o' H H' Ne.
  assert (o <= 1) by (each o 5; try lia; try discriminate; destruct o; discriminate).
  assert (o' <= 1) by (each o' 5; try lia; try discriminate; destruct o'; discriminate).
  assert (D : o = 0 /\ o' = 1 \/ o = 1 /\ o' = 0) by lia. destruct D as [[-> ->] | [-> ->]]; (split; [simpl; lia|]); simpl; lia.
Qed.
Definition ent (l : list (list Z)) : env Z := Env (fun o n => nth n (nth o l []) 0%Z) (fun _ _ _ _ => 0%Z).
Definition rho1 := ent [[1;2;3;4]; [5;6;7;8]]%Z.
Definition rho2 := ent [[1;0;0;1]; [2;0;0;2]]%Z.
Lemma ex_fits : fits ex_graph (MLeaf 4).
Proof.
  eapply fits_exp; [reflexivity|]. apply fits_zip; [discriminate| | |reflexivity|reflexivity].
  - apply fits_un; [|exact Logic.I]. eapply fits_exp; [reflexivity|]. apply fits_zip; [discriminate| | |reflexivity|reflexivity].
    + apply fits_prod; [| |reflexivity]; now apply fits_leaf.
    + now apply fits_leaf.
  - apply fits_un; [|exact Logic.I]. now apply fits_leaf.
Qed.
Lemma ex_root h : root h (MLeaf 4 : mexp Z).
Proof. split; [constructor|intros i []]. Qed.
Example C38_nonvacuous : forall h, reached Zin h ex_graph (host_of ex_objs) (init mem0) /\ settled ex_graph (MLeaf 4) (init mem0) /\
  exists p s' q s2, returns Zin h ex_graph (AEval rho1 (MLeaf 4)) (init mem0) p s' /\
    returns Zin h ex_graph (AEval rho2 (MLeaf 4)) s' q s2 /\
    (entries (mm s') p = Some [60; 276; 216; 648]%Z /\ entries (mm s2) q = Some [9; 0; 0; 9]%Z).
Proof.
  intros h. split; [constructor; exact tame0|]. split; [intros o id a y o' _ _ _ _ _; reflexivity|].
  apply (run2 (P := fun p s' q s2 => entries (mm s') p = Some [60; 276; 216; 648]%Z /\ entries (mm s2) q = Some [9; 0; 0; 9]%Z)).
  destruct h; vm_compute; split; reflexivity.
Qed.
Example C40_nonvacuous : exists p s', returns Zin HEigen ex_graph (ADevalF rho1 (MLeaf 4) 0) (init mem0) p s' /\
  ((exists b, get (mm s') p = Some b /\ o_rows b = 4 /\ o_cols b = 4) /\
  (** d B(0,1) / d X(0,1) = A(1,0) * 3,   d B(0,1) / d X(1,0) = 3 * X(0,1) * (Y(0,0) + 1) *)
  val (mm s') p (0 * 2 + 0) (1 * 2 + 1) = 138%Z /\ val (mm s') p (0 * 2 + 1) (1 * 2 + 0) = 36%Z).
Proof.
  apply (run1 (P := fun p s' => (exists b, get (mm s') p = Some b /\ o_rows b = 4 /\ o_cols b = 4) /\
    val (mm s') p (0 * 2 + 0) (1 * 2 + 1) = 138%Z /\ val (mm s') p (0 * 2 + 1) (1 * 2 + 0) = 36%Z)).
  vm_compute. split; [eexists; repeat split; reflexivity|]. split; reflexivity.
Qed.

(** ** C39 *)
(** The strongest true form: a new expression must not share evaluated matrices that its
    own reset does not reach ("settled"); see C38_eval and C40_devalF, whose only condition
    on the history it is. A new expression over matrices not evaluated before is settled. *)
Theorem C39_fresh : forall {T} {N : Num T}, NumLaws N -> forall (S : sched T), valid_sched S ->
  forall (h : handler) (G : graph T) host rank, wf_graph G host rank ->
  forall s, reached S h G host s ->
  forall a, act_ok (backend_of S h) G host a -> untouched G (act_exp a) s ->
  exists p s', returns S h G a s p s' /\ right G a (mm s') p.
Proof.
  intros T N L S VS h G host rank WF s R a Ha Hu.
  destruct (right_call L VS WF (reached_Inv L VS WF R) (untouched_settled Hu) Ha) as (p & s' & E & Hr & _). eauto.
Qed.
Print Assumptions C39_fresh.
Theorem C39_evaluated : forall {T} {N : Num T}, NumLaws N -> forall (S : sched T), valid_sched S ->
  forall (h : handler) (G : graph T) host rank, wf_graph G host rank ->
  forall s, reached S h G host s ->
  forall a, act_ok (backend_of S h) G host a -> evaluated G (act_exp a) s ->
  exists p s', returns S h G a s p s' /\ right G a (mm s') p.
Proof.
  intros T N L S VS h G host rank WF s R a Ha Hu.
  destruct (right_call L VS WF (reached_Inv L VS WF R) (evaluated_settled Hu) Ha) as (p & s' & E & Hr & _). eauto.
Qed.
Print Assumptions C39_evaluated.

(** X, Y : 1x1, Eye(1), A = X + X, B = X * X, C = A * Y. *)
Definition st_objs : list (gobj (T := Z)) :=
  [ (LVar, (1, 1)); (LVar, (1, 1)); (LEye, (1, 1));
    (KExp 30 (MBin BSum 31 (MLeaf 0) (MLeaf 0)) 2, (1, 1)); (KExp 40 (MBin BProd 41 (MLeaf 0) (MLeaf 0)) 2, (1, 1));
    (KExp 50 (MBin BProd 51 (MLeaf 3) (MLeaf 1)) 2, (1, 1)) ].
Definition st_graph : graph Z := graph_of st_objs.
Lemma st_wf : wf_graph st_graph (host_of st_objs) (fun o => o).
Proof. solve_wf. Qed.
Lemma st_distinct : distinct_vars st_graph.
Proof.
  intros o o' H H' Ne.
  assert (o <= 1) by (each o 6; try lia; try discriminate; destruct o; discriminate).
  assert (o' <= 1) by (each o' 6; try lia; try discriminate; destruct o'; discriminate).
  assert (D : o = 0 /\ o' = 1 \/ o = 1 /\ o' = 0) by lia. destruct D as [[-> ->] | [-> ->]]; (split; [simpl; lia|]); simpl; lia.
Qed.
Lemma st_fits o : o = 3 \/ o = 4 \/ o = 5 -> fits st_graph (MLeaf o).
Proof.
  assert (fits st_graph (MLeaf 3)) by (eapply fits_exp; [reflexivity|]; apply fits_zip; [discriminate| | |reflexivity|reflexivity]; now apply fits_leaf).
  intros [-> | [-> | ->]]; [assumption| |]; (eapply fits_exp; [reflexivity|]; apply fits_prod; [| |reflexivity]); try assumption; now apply fits_leaf.
Qed.
Lemma st_ok rho o : o = 3 \/ o = 4 \/ o = 5 -> act_ok (backend_of Zin HEigen) st_graph (host_of st_objs) (AEval rho (MLeaf o)).
Proof. intros H. split; [split; [constructor|intros i []]|]. split; [now apply st_fits|exact Logic.I]. Qed.
Lemma st_dok rho o x : o = 3 \/ o = 4 \/ o = 5 -> x <= 1 -> act_ok (backend_of Zin HEigen) st_graph (host_of st_objs) (ADevalF rho (MLeaf o) x).
Proof.
  intros H Hx. split; [split; [constructor|intros i []]|]. split; [now apply st_fits|].
  split; [apply eigen_kron|]. split; [|exact st_distinct]. destruct x as [|[|x]]; [reflexivity|reflexivity|lia].
Qed.
Definition one := ent [[1]; [7]]%Z.
Definition five := ent [[5]; [7]]%Z.

(** Eval(A) with X = 1; set X = 5; the first Eval(B) returns 1*1, not 5*5; a second Eval(B)
    returns 25. *)
Theorem C39_stale_value_refuted : exists (G : graph Z) host rank m a b,
  wf_graph G host rank /\ tame m /\ act_ok (backend_of Zin HEigen) G host a /\ act_ok (backend_of Zin HEigen) G host b /\
  exists p s' q s2 r s3, returns Zin HEigen G a (init m) p s' /\
    returns Zin HEigen G b s' q s2 /\ returns Zin HEigen G b s2 r s3 /\
    (~ right G b (mm s2) q /\ val (mm s2) q 0 0 = 1%Z /\ val (mm s3) r 0 0 = 25%Z).
Proof.
  assert (D : den st_graph five (MLeaf 4) (fun i j => sum_n (cols st_graph (MLeaf 0)) (fun a => nmul (e_val five 0 (i * g_cols st_graph 0 + a)) (e_val five 0 (a * g_cols st_graph 0 + j))))).
  { eapply den_exp; [reflexivity|]. apply (den_prod (G := st_graph) (rho := five) 41 (l := MLeaf 0) (r := MLeaf 0)); apply (den_leaf (G := st_graph) five (o := 0)); try discriminate; exact Logic.I. }
  exists st_graph, (host_of st_objs), (fun o => o), mem0, (AEval one (MLeaf 3)), (AEval five (MLeaf 4)).
  split; [exact st_wf|]. split; [exact tame0|]. split; [apply st_ok; auto|]. split; [apply st_ok; auto|].
  destruct (@run3 _ _ Zin HEigen st_graph (AEval one (MLeaf 3)) (AEval five (MLeaf 4)) (AEval five (MLeaf 4)) (init mem0)
    (fun p s' q s2 r s3 => val (mm s2) q 0 0 = 1%Z /\ val (mm s3) r 0 0 = 25%Z)) as (p & s' & q & s2 & r & s3 & E1 & E2 & E3 & V1 & V2); [vm_compute; split; reflexivity|].
  exists p, s', q, s2, r, s3. split; [exact E1|]. split; [exact E2|]. split; [exact E3|]. split; [|auto].
  intros (F & HF & _ & Hv). rewrite (den_det HF D) in Hv. specialize (Hv 0 0 (le_n 1) (le_n 1)). rewrite V1 in Hv. vm_compute in Hv. discriminate.
Qed.
Print Assumptions C39_stale_value_refuted.
(** DevalF(A, X), then the first DevalF(B, Y) returns the derivative of B by X (2 instead of 0, at X = 1). *)
Theorem C39_wrong_variable_refuted : exists (G : graph Z) host rank m a b,
  wf_graph G host rank /\ tame m /\ act_ok (backend_of Zin HEigen) G host a /\ act_ok (backend_of Zin HEigen) G host b /\
  exists p s' q s2 r s3, returns Zin HEigen G a (init m) p s' /\
    returns Zin HEigen G b s' q s2 /\ returns Zin HEigen G b s2 r s3 /\
    (val (mm s2) q 0 0 = 2%Z /\ val (mm s3) r 0 0 = 0%Z) /\ (exists F D, dif G one 1 (MLeaf 4) F D /\ D 0 0 0 0 = 0%Z) /\
    b = ADevalF one (MLeaf 4) 1.
Proof.
  exists st_graph, (host_of st_objs), (fun o => o), mem0, (ADevalF one (MLeaf 3) 0), (ADevalF one (MLeaf 4) 1).
  split; [exact st_wf|]. split; [exact tame0|]. split; [apply st_dok; auto|]. split; [apply st_dok; auto|].
  destruct (@run3 _ _ Zin HEigen st_graph (ADevalF one (MLeaf 3) 0) (ADevalF one (MLeaf 4) 1) (ADevalF one (MLeaf 4) 1) (init mem0)
    (fun p s' q s2 r s3 => val (mm s2) q 0 0 = 2%Z /\ val (mm s3) r 0 0 = 0%Z)) as (p & s' & q & s2 & r & s3 & E1 & E2 & E3 & V); [vm_compute; split; reflexivity|].
  exists p, s', q, s2, r, s3. split; [exact E1|]. split; [exact E2|]. split; [exact E3|]. split; [exact V|]. split; [|reflexivity].
  do 2 eexists. split; [|].
  - eapply dif_exp; [reflexivity|]. apply (dif_prod (G := st_graph) (rho := one) (x := 1) 41 (l := MLeaf 0) (r := MLeaf 0));
      (apply (dif_var (G := st_graph) (rho := one) 1 (o := 0)); [reflexivity|]; apply (den_leaf (G := st_graph) one (o := 0)); try discriminate; exact Logic.I).
  - reflexivity.
Qed.
Print Assumptions C39_wrong_variable_refuted.
(** Eval(A), then DevalF of a new expression C = A * Y: A is still marked visited and has no
    derivative, so the call reads a null pointer. *)
Theorem C39_null_derivative_refuted : exists (G : graph Z) host rank m a b,
  wf_graph G host rank /\ tame m /\ act_ok (backend_of Zin HEigen) G host a /\ act_ok (backend_of Zin HEigen) G host b /\
  exists p s', returns Zin HEigen G a (init m) p s' /\ forall f, 20 <= f -> call Zin (backend_of Zin HEigen) G f b s' = EUndef.
Proof.
  exists st_graph, (host_of st_objs), (fun o => o), mem0, (AEval one (MLeaf 3)), (ADevalF one (MLeaf 5) 0).
  split; [exact st_wf|]. split; [exact tame0|]. split; [apply st_ok; auto|]. split; [apply st_dok; auto|].
  destruct (@run1 _ _ Zin HEigen st_graph (AEval one (MLeaf 3)) (init mem0)
    (fun p s' => match call Zin (backend_of Zin HEigen) st_graph 20 (ADevalF one (MLeaf 5) 0) s' with EUndef => True | _ => False end)) as (p & s' & E1 & V); [vm_compute; exact Logic.I|].
  exists p, s'. split; [exact E1|]. intros f Hf.
  destruct (call Zin (backend_of Zin HEigen) st_graph 20 (ADevalF one (MLeaf 5) 0) s') eqn:E; try tauto. rewrite (call_fuel Hf) by congruence. exact E.
Qed.
Print Assumptions C39_null_derivative_refuted.

(** ** C40, hand-written CPU backend *)
(** DevalF(B, X) with X = 1, then with X = 0: the Kronecker products keep entries of the
    first call, the second call returns 2 instead of 0. *)
Definition zero := ent [[0]; [7]]%Z.
Theorem C40_naive_refuted : exists (G : graph Z) host rank m e,
  wf_graph G host rank /\ distinct_vars G /\ tame m /\ root host e /\ fits G e /\
  exists p s' q s2, returns Zin HNaive G (ADevalF one e 0) (init m) p s' /\ returns Zin HNaive G (ADevalF zero e 0) s' q s2 /\
    (val (mm s') p 0 0 = 2%Z /\ val (mm s2) q 0 0 = 2%Z) /\
    exists F D, dif G zero 0 e F D /\ D 0 0 0 0 = 0%Z.
Proof.
  exists st_graph, (host_of st_objs), (fun o => o), mem0, (MLeaf 4).
  split; [exact st_wf|]. split; [exact st_distinct|]. split; [exact tame0|]. split; [split; [constructor|intros i []]|]. split; [apply st_fits; auto|].
  destruct (@run2 _ _ Zin HNaive st_graph (ADevalF one (MLeaf 4) 0) (ADevalF zero (MLeaf 4) 0) (init mem0)
    (fun p s' q s2 => val (mm s') p 0 0 = 2%Z /\ val (mm s2) q 0 0 = 2%Z)) as (p & s' & q & s2 & E1 & E2 & V); [vm_compute; split; reflexivity|].
  exists p, s', q, s2. split; [exact E1|]. split; [exact E2|]. split; [exact V|].
  do 2 eexists. split; [|].
  - eapply dif_exp; [reflexivity|]. apply (dif_prod (G := st_graph) (rho := zero) (x := 0) 41 (l := MLeaf 0) (r := MLeaf 0));
      (apply (dif_var (G := st_graph) (rho := zero) 0 (o := 0)); [reflexivity|]; apply (den_leaf (G := st_graph) zero (o := 0)); try discriminate; exact Logic.I).
  - reflexivity.
Qed.
Print Assumptions C40_naive_refuted.
(** C41: F = sin(X) ^ X * transpose(X) for a 1x2 X, derivative by X(0,1). *)
Definition rx_graph : graph R := graph_of [ (LVar, (1, 2)) ].
Definition rx_exp : mexp R := MBin BProd 1 (MBin BHad 2 (MUn (UFun sin cos) 3 (MLeaf 0)) (MLeaf 0)) (MUn UTr 4 (MLeaf 0)).
Definition rx_env (t : R) : env R := Env (fun o n => match o, n with 0, 1 => t | 0, 0 => 3%R | _, _ => 0%R end) (fun _ _ _ _ => 0%R).
Definition memR : mem R := MkMem [] 0 (fun _ _ => 0%R) [].
Example C41_nonvacuous : wf_graph rx_graph (fun _ => None) (fun o => o) /\ distinct_vars rx_graph /\
  reached (in_order (T := R)) HEigen rx_graph (fun _ => None) (init memR) /\ g_kind rx_graph 0 = LVar /\ root (fun _ => None) rx_exp /\
  fits rx_graph rx_exp /\ settled rx_graph rx_exp (init memR) /\ varies rx_graph 0 0 1 rx_env 2%R /\ smooth rx_graph (rx_env 2%R) rx_exp /\
  exists F, den rx_graph (rx_env 2%R) rx_exp F /\ F 0 0 = (0 + sin 3 * 3 * 3 + sin 2 * 2 * 2)%R.
Proof.
  assert (Lv : forall o, g_kind rx_graph o = LVar -> o = 0) by (intros [|[|o]] H; [reflexivity|discriminate|discriminate]).
  assert (D0 : forall t, den rx_graph (rx_env t) (MLeaf 0) (fun i j => e_val (rx_env t) 0 (i * g_cols rx_graph 0 + j))) by (intros t; apply (den_leaf (G := rx_graph) (rx_env t) (o := 0)); [exact Logic.I|discriminate]).
  split; [solve_wf|]. split; [intros o o' H H' Ne; apply Lv in H, H'; congruence|].
  split.
  { constructor. split; [|split; [split|]].
    - intros p o H. destruct p; discriminate.
    - intros p o H. destruct p; discriminate.
    - intros p q o o' H. destruct p; discriminate.
    - intros k sp R0 C p []. }
  split; [reflexivity|]. split; [split; [repeat constructor; simpl; intuition discriminate|reflexivity]|].
  split. { apply fits_prod; [|apply fits_un; [now apply fits_leaf|exact Logic.I]|reflexivity]. apply fits_zip; [discriminate| | |reflexivity|reflexivity]; [apply fits_un; [|exact Logic.I]|]; now apply fits_leaf. }
  split; [intros o id a y o' _ _ _ _ _; reflexivity|].
  split.
  { constructor.
    - intros t. reflexivity.
    - intros t o n Hk Hn. apply Lv in Hk. subst o. destruct n as [|[|n]]; simpl in *; try reflexivity. destruct Hn; congruence.
    - intros t o n Hk. destruct o as [|o]; [discriminate|reflexivity].
    - intros o n Hk. destruct o as [|[|o]]; discriminate. }
  split.
  { apply sm_bin; [apply sm_bin|apply sm_un; [now apply sm_leaf|exact Logic.I]]; [|now apply sm_leaf]. apply sm_fun; [now apply sm_leaf|].
    intros F l k HF _ _. apply derivable_pt_lim_sin. }
  eexists. split; [apply den_prod; [apply den_had; [apply den_fun|]|apply den_tr]; apply D0|]. simpl. reflexivity.
Qed.
