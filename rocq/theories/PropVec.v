(** * Property C44: vec *)
From Coq Require Import List Arith Bool Lia ZArith Permutation.
From Verif Require Import Num NumInst MatMem Kernels KernelFacts KernelProofs KernelBlocks KernelMore Registry KernelStep Backend Slots Exec ConvProofs ConvDerv MatEngine MatGraph MatLeaf MatEval MatDeval MatHist MatSpec MatCalls MatFuel PropMatrix Vec VecOk VecCall VecDer.
Import ListNotations.
Set Implicit Arguments.
Unset Strict Implicit.
Local Open Scope nat_scope.

(** ** Specification, spelled out once more *)
Lemma vmat_of_spec : forall {T} (G : graph T) e F, mr (vmat_of G e F) = vrows G e /\ mc (vmat_of G e F) = vcols G e /\
  forall i j, mf (vmat_of G e F) i j = F i j.
Proof. intros. repeat split. Qed.
(** vec of an R x C matrix is R*C x 1 and has entry (l, k) in row l*C + k. *)
Lemma vden_vec_spec : forall {T} {N : Num T} (G : graph T) rho id e F, vden G rho (VVec id (VE e)) F -> exists F', den G rho e F' /\
  forall l k, k < cols G e -> F (l * cols G e + k) 0 = F' l k.
Proof.
  intros T N G rho id e F H. inversion H as [|? ? F' H'| | | | | | | | | | | | ]; subst. inversion H'; subst. exists F'. split; [assumption|].
  intros l k Hk. change (vcols G (VE e)) with (cols G e). now destruct (divmod_block l Hk) as [-> ->].
Qed.
(** Row (l*C + k)*xr + i, column j of the derivative of vec(e): entry (l, k) of e by entry (i, j) of x. *)
Lemma vjac_of_spec : forall {T} (G : graph T) x e D,
  mr (vjac_of G x e D) = rows G e * cols G e * g_rows G x /\ mc (vjac_of G x e D) = g_cols G x /\
  forall l k i j, k < cols G e -> i < g_rows G x -> mf (vjac_of G x e D) ((l * cols G e + k) * g_rows G x + i) j = D l k i j.
Proof.
  intros T G x e D. split; [reflexivity|]. split; [reflexivity|]. intros l k i j Hk Hi. simpl.
  destruct (divmod_block (l * cols G e + k) Hi) as [-> ->]. destruct (divmod_block l Hk) as [-> ->]. reflexivity.
Qed.

(** ** What holds *)
(** Any sequence of evaluations of expressions in which vec is applied to operators (or which are just vec of a matrix),
    derivatives of expressions without vec and derivatives of vec(e), the entries changing freely between the calls, in
    which every two expressions are equal or share nothing but unit matrices, and no derivative by x of an expression
    without vec comes after one of vec(e) by x. *)
Theorem C44_history : forall {T} {N : Num T}, NumLaws N -> forall (S : sched T), valid_sched S ->
  forall (h : handler) (G : graph T) host rank row_of, wf_graph G host rank ->
  forall m (l : list (vact T)), tame m -> Forall (vact_ok (backend_of S h) G row_of host) l -> ordered [] l ->
  (forall a b, In a l -> In b l -> vact_exp b = vact_exp a \/ disjoint G (vact_exp a) (vact_exp b)) ->
  vplays S (backend_of S h) G row_of l (init m).
Proof.
  intros T N L S VS h G host rank row_of WF m l Tm Ok Od Hd.
  apply (vhistory_right L VS (backend_value VS (fun _ => L)) (or_intror (backend_kron_zeroed VS h L)) WF (Inv_none (Inv_init G Tm))); auto.
  - intros o [].
  - intros a Ha. right. split; [intros o _ _; reflexivity|]. intros b Hb. auto.
Qed.
Print Assumptions C44_history.
(** One evaluation, both backends. *)
Theorem C44_eval : forall {T} {N : Num T}, NumLaws N -> forall (S : sched T), valid_sched S ->
  forall (h : handler) (G : graph T) host rank, wf_graph G host rank -> forall m, tame m ->
  forall (rho : env T) e, root host (shape e) -> vfits G e -> able G e ->
  exists F n p s', vden G rho e F /\ (forall f, n <= f -> VEval S (backend_of S h) G rho f e (init m) = EOk (p, s')) /\
    holds (mm s') p (vmat_of G e F).
Proof.
  intros T N L S VS h G host rank WF m Tm rho e Hr Hf Ha.
  destruct (@C44_history T N L S VS h G host rank (fun o => o) WF m [VAEval rho e]) as (n & p & s' & E & (F & HF & Hp) & _); auto.
  - constructor; [split; [exact Hr|split; assumption]|constructor].
  - exact Logic.I.
  - intros a b [<-|[]] [<-|[]]. now left.
  - exists F, n, p, s'. auto.
Qed.
Print Assumptions C44_eval.
(** One derivative of vec(e), for any e without vec. *)
Theorem C44_derivative : forall {T} {N : Num T}, NumLaws N -> forall (S : sched T), valid_sched S ->
  forall (G : graph T) host rank row_of, wf_graph G host rank -> distinct_vars G -> forall m, tame m ->
  forall (rho : env T) id e x, root host e -> fits G e -> twin G rho x (row_of x) -> distinct_entries G x ->
  exists F D n p s', dif G rho x e F D /\
    (forall f, n <= f -> VDevalF S (backend_of S HEigen) G row_of rho f (VVec id (VE e)) x (init m) = EOk (p, s')) /\
    holds (mm s') p (vjac_of G x e D).
Proof.
  intros T N L S VS G host rank row_of WF DV m Tm rho id e x Hr Hf Tw De.
  destruct (@C44_history T N L S VS HEigen G host rank row_of WF m [VAVec rho id e x]) as (n & p & s' & E & (F & D & HF & Hp) & _); auto.
  - constructor; [|constructor]. split; [exact Hr|]. split; [exact Hf|]. split; [apply eigen_kron|auto].
  - exact Logic.I.
  - intros a b [<-|[]] [<-|[]]. now left.
  - exists F, D, n, p, s'. auto.
Qed.
Print Assumptions C44_derivative.

(** ** Fuel *)
Section Fuel.
Context {T : Type} {N : Num T}.
Variable S : sched T.
Variable B : backend (T := T).
Variable G : graph T.
Variable row_of : obj -> obj.
Variable rho : env T.
Lemma veval_more n e : more (Vec.veval S B G rho n e) (Vec.veval S B G rho (Datatypes.S n) e).
Proof.
  induction e as [e|id a IHa|k id l IHl r IHr|k id a IHa]; cbn [Vec.veval].
  - apply eval_more.
  - apply more_bind; [exact IHa|intros p; apply more_refl].
  - apply more_bind; [apply more_refl|intros _]. apply more_bind; [exact IHl|intros p]. apply more_bind; [exact IHr|intros q; apply more_refl].
  - apply more_bind; [apply more_refl|intros _]. apply more_bind; [exact IHa|intros p; apply more_refl].
Qed.
Lemma vdevalF_more n e : forall x, more (vdevalF S B G row_of rho n x e) (vdevalF S B G row_of rho (Datatypes.S n) x e).
Proof.
  induction e as [e|id a IHa|k id l IHl r IHr|k id a IHa]; intros x; cbn [vdevalF].
  - apply devalF_more.
  - apply more_bind; [apply IHa|intros p; apply more_refl].
  - apply more_bind; [apply more_refl|intros _]. apply more_bind; [apply IHl|intros p]. apply more_bind; [apply IHr|intros q].
    destruct k; try apply more_refl; (apply more_bind; [apply veval_more|intros b]; apply more_bind; [apply veval_more|intros c]; apply more_refl).
  - destruct k; try apply IHa; first [apply more_bind; [apply IHa|intros p]|apply more_bind; [apply more_refl|intros _]; apply more_bind; [apply IHa|intros p]];
      try apply more_refl; (apply more_bind; [apply veval_more|intros b]; apply more_refl).
Qed.
Lemma vreset_more n e : more (vreset G n e) (vreset G (Datatypes.S n) e).
Proof.
  induction e as [e|id a IHa|k id l IHl r IHr|k id a IHa]; cbn [vreset]; auto.
  - apply reset_more.
  - apply more_bind; auto.
Qed.
End Fuel.
(** All calls, on expressions with vec anywhere. *)
Inductive vreq (T : Type) : Type := REval (rho : env T) (e : vexp T) | RDevalF (rho : env T) (e : vexp T) (x : obj).
Section Run.
Context {T : Type} {N : Num T}.
Variable S : sched T.
Variable h : handler.
Variable G : graph T.
Variable row_of : obj -> obj.
Definition vdo (fuel : nat) (a : vreq T) : E (T := T) ptr :=
  match a with REval rho e => VEval S (backend_of S h) G rho fuel e | RDevalF rho e x => VDevalF S (backend_of S h) G row_of rho fuel e x end.
Definition vreturns (a : vreq T) (s : st (T := T)) (p : ptr) (s' : st (T := T)) : Prop := exists n, forall f, n <= f -> vdo f a s = EOk (p, s').
Definition vrejected (a : vreq T) (s : st (T := T)) : Prop := exists n, forall f, n <= f -> vdo f a s = ERejected.
Lemma vdo_fuel n f a s : n <= f -> vdo n a s <> ENoFuel -> vdo f a s = vdo n a s.
Proof.
  intros H Hn. induction H as [|f H IH]; [reflexivity|]. rewrite <- IH.
  assert (M : more (vdo f a) (vdo (Datatypes.S f) a)).
  { destruct a; cbn [vdo]; (apply more_bind; [apply vreset_more|intros _]); [apply veval_more|apply vdevalF_more]. }
  destruct (M s) as [E|E]; [|now symmetry]. exfalso. apply Hn. now rewrite <- IH.
Qed.
Definition vout (a : vreq T) (s : st (T := T)) : option (ptr * st (T := T)) := match vdo 20 a s with EOk r => Some r | _ => None end.
Lemma vout_returns a s p s' : vout a s = Some (p, s') -> vreturns a s p s'.
Proof.
  unfold vout. intros H. exists 20. intros f Hf. destruct (vdo 20 a s) as [r| | |] eqn:E; try discriminate. injection H as ->.
  rewrite (vdo_fuel Hf) by congruence. exact E.
Qed.
Lemma vrun1 a s (P : ptr -> st (T := T) -> Prop) : (match vout a s with Some (p, s') => P p s' | None => False end) -> exists p s', vreturns a s p s' /\ P p s'.
Proof. destruct (vout a s) as [[p s']|] eqn:E; [|intros []]. intros H. exists p, s'. split; [exact (vout_returns E)|exact H]. Qed.
Lemma vrun2 a b s (P : ptr -> st (T := T) -> ptr -> st (T := T) -> Prop) :
  (match vout a s with Some (p, s') => match vout b s' with Some (q, s2) => P p s' q s2 | None => False end | None => False end) ->
  exists p s' q s2, vreturns a s p s' /\ vreturns b s' q s2 /\ P p s' q s2.
Proof.
  destruct (vout a s) as [[p s']|] eqn:E; [|intros []]. destruct (vout b s') as [[q s2]|] eqn:E'; [|intros []].
  intros H. exists p, s', q, s2. split; [exact (vout_returns E)|]. split; [exact (vout_returns E')|exact H].
Qed.
Lemma vrun_rejected a s : (match vdo 20 a s with ERejected => True | _ => False end) -> vrejected a s.
Proof.
  intros H. exists 20. intros f Hf. destruct (vdo 20 a s) as [r| | |] eqn:E; try tauto. rewrite (vdo_fuel Hf) by congruence. exact E.
Qed.
End Run.

(** ** Concrete programs *)
(** X : 2x2, the row of its variables, Eye(2), F = X*X, W : 1x2, a, b : 2x1. *)
Definition ve_objs : list (gobj (T := Z)) :=
  [ (LVar, (2, 2)); (LConst, (1, 4)); (LEye, (2, 2)); (KExp 30 (MBin BProd 31 (MLeaf 0) (MLeaf 0)) 2, (2, 2));
    (LVar, (1, 2)); (LConst, (2, 1)); (LConst, (2, 1)) ].
Definition ve_graph : graph Z :=
  let G := graph_of ve_objs in Graph (g_kind G) (g_rows G) (g_cols G) (g_nidx G) (fun o n => if o =? 1 then n else 100 * o + n).
Definition ve_row (o : obj) : obj := Datatypes.S o.
Lemma ve_wf : wf_graph ve_graph (host_of ve_objs) (fun o => o).
Proof. solve_wf. Qed.
Lemma ve_var o : g_kind ve_graph o = LVar -> o = 0 \/ o = 4.
Proof. each o 7; auto; try discriminate; destruct o; discriminate. Qed.
Lemma ve_distinct : distinct_vars ve_graph.
Proof.
  intros o o' H H' Ne. apply ve_var in H, H'. destruct H as [-> | ->], H' as [-> | ->]; try congruence; (split; [simpl; lia|]); simpl; lia.
Qed.
Lemma ve_twin l : twin ve_graph (ent l) 0 (ve_row 0).
Proof.
  constructor; try reflexivity; try discriminate.
  intros o H. apply ve_var in H. destruct H as [-> | ->]; discriminate.
Qed.
Lemma ve_entries : distinct_entries ve_graph 0.
Proof. intros n n' _ _ H. simpl in H. exact H. Qed.
Definition ve_rho := ent [[1;2;3;4]; []; []; []; [5;6]; [7;8]; [9;10]]%Z.
Definition shape_of (m : mem Z) (p : ptr) : option (nat * nat) := option_map (fun o => (o_rows o, o_cols o)) (get m p).
(** Eval(vec(X*X) - vec(trn(X))), then DevalF(vec(X*X), X). *)
Definition ve_sum : vexp Z := VBin BSub 60 (VVec 61 (VE (MBin BProd 62 (MLeaf 0) (MLeaf 0)))) (VVec 63 (VUn UTr 64 (VE (MLeaf 0)))).
Example C44_nonvacuous :
  root (host_of ve_objs) (shape ve_sum) /\ vfits ve_graph ve_sum /\ able ve_graph ve_sum /\
  root (host_of ve_objs) (MLeaf 3 : mexp Z) /\ fits ve_graph (MLeaf 3) /\
  (exists p s', vreturns Zin HEigen ve_graph ve_row (REval ve_rho ve_sum) (init mem0) p s' /\
    (shape_of (mm s') p = Some (4, 1) /\ entries (mm s') p = Some [6; 7; 13; 18]%Z)) /\
  (exists p s', vreturns Zin HEigen ve_graph ve_row (RDevalF ve_rho (VVec 65 (VE (MLeaf 3))) 0) (init mem0) p s' /\
    (shape_of (mm s') p = Some (8, 2) /\ entries (mm s') p = Some [2; 3; 2; 0;  2; 5; 0; 2;  3; 0; 5; 3;  0; 3; 2; 8]%Z)).
Proof.
  assert (FL : forall o, is_leaf ve_graph o -> fits ve_graph (MLeaf o)) by (intros; now apply fits_leaf).
  split; [|split; [|split; [|split; [|split; [|split]]]]].
  - split; [repeat constructor; simpl; intuition discriminate|]. simpl. intros i Hi. leaf_in Hi; reflexivity.
  - apply vfits_zip; [discriminate| | |reflexivity|reflexivity]; apply vfits_vec.
    + apply vfits_plain. apply fits_prod; [| |reflexivity]; apply FL; exact Logic.I.
    + apply vfits_un; [|exact Logic.I]. apply vfits_plain, FL. exact Logic.I.
  - left. simpl. tauto.
  - split; [constructor|intros i []].
  - eapply fits_exp; [reflexivity|]. apply fits_prod; [| |reflexivity]; apply FL; exact Logic.I.
  - apply (vrun1 (P := fun p s' => shape_of (mm s') p = Some (4, 1) /\ entries (mm s') p = Some [6; 7; 13; 18]%Z)). vm_compute. split; reflexivity.
  - apply (vrun1 (P := fun p s' => shape_of (mm s') p = Some (8, 2) /\ entries (mm s') p = Some [2; 3; 2; 0;  2; 5; 0; 2;  3; 0; 5; 3;  0; 3; 2; 8]%Z)).
    vm_compute. split; reflexivity.
Qed.

(** ** What does not hold: vec changes the matrix its operand returned *)
(** The 2x2 result of Eval(X), still held by the user, becomes 4x1 by Eval(vec(X)). *)
Theorem C44_result_reshaped_refuted : exists p s' q s2,
  vreturns Zin HEigen ve_graph ve_row (REval ve_rho (VE (MLeaf 0))) (init mem0) p s' /\
  vreturns Zin HEigen ve_graph ve_row (REval ve_rho (VVec 60 (VE (MLeaf 0)))) s' q s2 /\
  (shape_of (mm s') p = Some (2, 2) /\ shape_of (mm s2) p = Some (4, 1)).
Proof.
  apply (vrun2 (P := fun p s' q s2 => shape_of (mm s') p = Some (2, 2) /\ shape_of (mm s2) p = Some (4, 1))). vm_compute. split; reflexivity.
Qed.
Print Assumptions C44_result_reshaped_refuted.
(** W * vec(W) with W 1x2 is rejected, although the dimensions fit. *)
Definition ve_prod : vexp Z := VBin BProd 60 (VE (MLeaf 4)) (VVec 61 (VE (MLeaf 4))).
Theorem C44_product_refuted : wf_graph ve_graph (host_of ve_objs) (fun o => o) /\ root (host_of ve_objs) (shape ve_prod) /\ vfits ve_graph ve_prod /\
  vrejected Zin HEigen ve_graph ve_row (REval ve_rho ve_prod) (init mem0).
Proof.
  split; [exact ve_wf|]. split; [split; [repeat constructor; simpl; intuition discriminate|simpl; intros i Hi; leaf_in Hi; reflexivity]|]. split.
  - apply vfits_prod; [apply vfits_plain|apply vfits_vec, vfits_plain|reflexivity]; apply fits_leaf; exact Logic.I.
  - apply vrun_rejected. vm_compute. exact Logic.I.
Qed.
Print Assumptions C44_product_refuted.
(** vec(F) + vec(trn(F)) for the named 2x2 F: the second operand transposes F's result after it has become 4x1, so the
    two are the same column. *)
Definition ve_twice : vexp Z := VBin BSum 60 (VVec 61 (VE (MLeaf 3))) (VVec 62 (VUn UTr 63 (VE (MLeaf 3)))).
Theorem C44_sum_refuted : wf_graph ve_graph (host_of ve_objs) (fun o => o) /\ root (host_of ve_objs) (shape ve_twice) /\ vfits ve_graph ve_twice /\
  exists F p s', vden ve_graph ve_rho ve_twice F /\ vreturns Zin HEigen ve_graph ve_row (REval ve_rho ve_twice) (init mem0) p s' /\
    (F 1 0 = 25%Z /\ val (mm s') p 1 0 = 20%Z).
Proof.
  split; [exact ve_wf|]. split; [split; [repeat constructor; simpl; intuition discriminate|simpl; intros i Hi; leaf_in Hi; reflexivity]|].
  assert (Hf : fits ve_graph (MLeaf 3)) by (eapply fits_exp; [reflexivity|]; apply fits_prod; [| |reflexivity]; apply fits_leaf; exact Logic.I).
  split.
  - apply vfits_zip; [discriminate| | |reflexivity|reflexivity]; apply vfits_vec; [|apply vfits_un; [|exact Logic.I]]; now apply vfits_plain.
  - eexists. destruct (@vrun1 _ _ Zin HEigen ve_graph ve_row (REval ve_rho ve_twice) (init mem0) (fun p s' => val (mm s') p 1 0 = 20%Z)) as (p & s' & E & V); [vm_compute; reflexivity|].
    exists p, s'. split; [|split; [exact E|split; [|exact V]]].
    + apply vden_sum; apply vden_vec; [|apply vden_tr]; apply vden_plain; (eapply den_exp; [reflexivity|]; eapply den_prod; (apply den_leaf; [|discriminate]); exact Logic.I).
    + vm_compute. reflexivity.
Qed.
Print Assumptions C44_sum_refuted.
(** trn(a)*X*b + trn(vec(X))*vec(X): the derivative of X by X is reused for its derivative by the row of its variables,
    and the result is not the derivative. *)
Definition ve_mixed : vexp Z :=
  VBin BSum 60 (VE (MBin BProd 61 (MBin BProd 62 (MUn UTr 63 (MLeaf 5)) (MLeaf 0)) (MLeaf 6)))
    (VBin BProd 64 (VUn UTr 65 (VVec 66 (VE (MLeaf 0)))) (VVec 67 (VE (MLeaf 0)))).
Theorem C44_derivative_refuted : wf_graph ve_graph (host_of ve_objs) (fun o => o) /\ root (host_of ve_objs) (shape ve_mixed) /\ vfits ve_graph ve_mixed /\
  twin ve_graph ve_rho 0 (ve_row 0) /\
  exists F D p s', vdif ve_graph ve_rho 0 ve_mixed F D /\ vreturns Zin HEigen ve_graph ve_row (RDevalF ve_rho ve_mixed 0) (init mem0) p s' /\
    ((D 0 0 0 0 = 65%Z /\ D 0 0 0 1 = 74%Z) /\ (val (mm s') p 0 0 = 73%Z /\ val (mm s') p 0 1 = 70%Z)).
Proof.
  split; [exact ve_wf|]. split; [split; [repeat constructor; simpl; intuition discriminate|simpl; intros i Hi; leaf_in Hi; reflexivity]|].
  assert (FL : forall o, is_leaf ve_graph o -> fits ve_graph (MLeaf o)) by (intros; now apply fits_leaf).
  split; [|split; [apply ve_twin|]].
  - apply vfits_zip; [discriminate| | |reflexivity|reflexivity].
    + apply vfits_plain. repeat first [apply fits_prod; [| |reflexivity] | apply fits_un; [|exact Logic.I]]; apply FL; exact Logic.I.
    + apply vfits_prod; [apply vfits_un; [apply vfits_vec|exact Logic.I]|apply vfits_vec|reflexivity]; apply vfits_plain, FL; exact Logic.I.
  - do 2 eexists.
    destruct (@vrun1 _ _ Zin HEigen ve_graph ve_row (RDevalF ve_rho ve_mixed 0) (init mem0) (fun p s' => val (mm s') p 0 0 = 73%Z /\ val (mm s') p 0 1 = 70%Z)) as (p & s' & E & V); [vm_compute; split; reflexivity|].
    exists p, s'. split; [|split; [exact E|split; [|exact V]]].
    + apply vdif_sum; [apply vdif_plain; repeat first [apply dif_prod|apply dif_tr]|apply vdif_prod; [apply vdif_tr|]; apply vdif_vec, vdif_plain];
        first [apply dif_var; [reflexivity|]|apply dif_const; [left; reflexivity|]]; apply den_leaf; try exact Logic.I; discriminate.
    + vm_compute. split; reflexivity.
Qed.
Print Assumptions C44_derivative_refuted.
(** DevalF(vec(X), X), then DevalF(X, X): the second call finds ones of the first in the matrix it fills. *)
Theorem C44_order_refuted : exists p s' q s2,
  vreturns Zin HEigen ve_graph ve_row (RDevalF ve_rho (VVec 60 (VE (MLeaf 0))) 0) (init mem0) p s' /\
  vreturns Zin HEigen ve_graph ve_row (RDevalF ve_rho (VE (MLeaf 0)) 0) s' q s2 /\
  (val (mm s') p 0 0 = 1%Z /\ (exists F D, dif ve_graph ve_rho 0 (MLeaf 0) F D /\ D 0 0 1 1 = 0%Z) /\ val (mm s2) q 1 1 = 1%Z).
Proof.
  destruct (@vrun2 _ _ Zin HEigen ve_graph ve_row (RDevalF ve_rho (VVec 60 (VE (MLeaf 0))) 0) (RDevalF ve_rho (VE (MLeaf 0)) 0) (init mem0)
    (fun p s' q s2 => val (mm s') p 0 0 = 1%Z /\ val (mm s2) q 1 1 = 1%Z)) as (p & s' & q & s2 & E1 & E2 & V1 & V2); [vm_compute; split; reflexivity|].
  exists p, s', q, s2. split; [exact E1|]. split; [exact E2|]. split; [exact V1|]. split; [|exact V2].
  do 2 eexists. split; [apply dif_var; [reflexivity|]; apply den_leaf; [exact Logic.I|discriminate]|reflexivity].
Qed.
Print Assumptions C44_order_refuted.
