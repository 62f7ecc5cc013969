(** * Properties of the scalar API (C01-C03, C05-C10, C12, C18, C20, C22, C23)

    Vocabulary: ScalarUser.v part 1 (client commands and their reference meaning), and from
    ScalarFacts.v [reached h st tc]: the library state h, the user's view st of the objects, and the set tc of
    objects ever queried, after some sequence of legal commands from program start. *)

From Coq Require Import List Arith Bool ZArith Lia.
From Verif Require Import Num NumInst ScalarModel ScalarSpec ScalarUser ScalarBuild ScalarFacts ScalarTotal ScalarMore ScalarWitness.
Import ListNotations.
Local Open Scope nat_scope.

(** ** C01 Eval returns the value of the expression *)
Lemma eval_value T (N : Num T) pad h st tc r : reached h st tc -> query_ok st tc r ->
  exists W h', uvalues st r W /\ (forall W', uvalues st r W' -> W' r = W r) /\
    step pad (CEval r) h = Some (ONums [W r], h').
Proof.
  intros R Q. destruct (reached_eval h st tc pad r R Q) as (W & h' & V & E). exists W, h'. repeat split; auto.
  intros W' V'. apply (uvalues_unique st r W' W (proj1 (proj2 Q)) V' V). constructor.
Qed.
Theorem C01_eval_returns_value : forall T (N : Num T) pad h st tc r, reached h st tc -> query_ok st tc r ->
  exists W h', uvalues st r W /\ (forall W', uvalues st r W' -> W' r = W r) /\
    step pad (CEval r) h = Some (ONums [W r], h').
Proof. exact eval_value. Qed.
Print Assumptions C01_eval_returns_value.
(** Interactive programs: every well-behaved client program runs to completion and every answer (values,
    forward and reverse derivatives) is correct. *)
Theorem C01_client_programs : forall T (N : Num T) pad p, well_behaved store0 (fun _ => False) p ->
  exists os h', exec pad p heap0 = Some (os, h') /\ all_correct store0 p os.
Proof. exact (fun T N pad p => exec_ok pad p heap0 store0 (fun _ => False) inv0). Qed.
Print Assumptions C01_client_programs.
Example C01_nonvacuous : exists h h', reached h demo_store (fun _ => False) /\ query_ok demo_store (fun _ => False) 20 /\
  uvalues demo_store 20 demo_W /\ step 0 (CEval 20) h = Some (ONums [60%Z], h').
Proof.
  destruct demo_reached as (h & R). destruct (eval_value Z NumZ 0 h _ _ 20 R demo_query) as (W & h' & V & U & E).
  exists h, h'. rewrite <- (U demo_W demo_values) in E. exact (conj R (conj demo_query (conj demo_values E))).
Qed.

(** ** C02 Every call returns, on every graph *)
Theorem C02_calls_return : forall T (N : Num T) pad p, well_typed store0 p ->
  exists os h', exec pad p heap0 = Some (os, h') /\ prog_shaped store0 p os.
Proof. exact (fun T N pad p => exec_total pad p heap0 store0 tinv0). Qed.
Print Assumptions C02_calls_return.
(** A cyclic program: Expression a; Expression b = a*a; a = b + b; Eval(a); DevalF(b, a); gradient. *)
Definition cyclic_prog : prog (T := Z) :=
  Do CEmpty (fun o => match o with OHandle a =>
    Do (CExpr (TBin BProd (TRef a) (TRef a))) (fun o => match o with OHandle b =>
      Do (CAssign a (TBin BSum (TRef b) (TRef b))) (fun _ => Do (CEval a) (fun _ => Do (CDevalF b a) (fun _ =>
      Do (CGrad a [b]) (fun _ => Done)))) | _ => Done end) | _ => Done end).
Example C02_nonvacuous : well_typed store0 cyclic_prog.
Proof.
  cbn [cyclic_prog well_typed typed]. split; [exact Logic.I|]. intros o (a & -> & Ha). cbn [well_typed typed uafter].
  set (s1 := put store0 a (OExp [IZero])). assert (Ea : is_exp s1 a) by (eexists; apply put_same).
  split; [split; [intros v [<-|[<-|[]]]; auto|intros p []]|].
  intros o (b & -> & Hb). cbn [well_typed typed uafter].
  assert (Hba : b <> a) by (intros ->; destruct Ea; congruence).
  set (s2 := put s1 b _). assert (Eb : is_exp s2 b) by (eexists; apply put_same).
  assert (Ea2 : s2 a = Some (OExp [IZero])) by (unfold s2; rewrite put_other by auto; apply put_same).
  split; [split; [eexists; eauto|split; [intros v [<-|[<-|[]]]; auto|intros p []]]|].
  intros o ->. cbn [well_typed typed uafter]. rewrite Ea2.
  set (s3 := put s2 a _). assert (Ea3 : is_exp s3 a) by (eexists; apply put_same).
  assert (Eb3 : is_exp s3 b) by (destruct Eb as [l El]; exists l; unfold s3; now rewrite put_other).
  split; auto. intros _ (y & ->). split; auto. intros _ (z & ->). split; auto. split; auto. intros x [<-|[]]; auto.
Qed.

(** ** C03 DevalF applies the chain rule *)
Lemma devalF_chain T (N : Num T) pad h st tc r x : reached h st tc -> query_ok st tc r -> is_var st x \/ is_exp st x ->
  exists W D h', uvalues st r W /\ uderivs st r W x D /\
    (forall W' D', uvalues st r W' -> uderivs st r W' x D' -> D' r = D r) /\
    step pad (CDevalF r x) h = Some (ONums [D r], h').
Proof.
  intros R Q Hx. destruct (reached_devalF h st tc pad r x R Q Hx) as (W & D & h' & V & HD & E).
  exists W, D, h'. repeat split; auto. intros W' D' V' HD'.
  assert (EW := uvalues_unique st r W' W (proj1 (proj2 Q)) V' V). apply (uderivs_same st r W' W) in HD'; auto.
  apply (uderivs_unique st r W x D' D (proj1 (proj2 Q)) HD' HD). constructor.
Qed.
Theorem C03_forward_chain_rule : forall T (N : Num T) pad h st tc r x, reached h st tc -> query_ok st tc r ->
  is_var st x \/ is_exp st x ->
  exists W D h', uvalues st r W /\ uderivs st r W x D /\
    (forall W' D', uvalues st r W' -> uderivs st r W' x D' -> D' r = D r) /\
    step pad (CDevalF r x) h = Some (ONums [D r], h').
Proof. exact devalF_chain. Qed.
Print Assumptions C03_forward_chain_rule.
(** d(e)/dx of the demo at x=3, y=4, p=5: e = x*x + (x*y+p)*x, so 2x + 2xy + p = 35. *)
Definition demo_D : nat -> Z := fun v =>
  (match v with 2%nat => 1 | 10%nat => 4 | 16%nat => 29 | 20%nat => 35 | _ => 0 end)%Z.
Lemma demo_derivs : uderivs demo_store 20 demo_W 2 demo_D.
Proof.
  intros v Hv. apply demo_below in Hv. simpl in Hv.
  repeat (destruct Hv as [<-|Hv]); try destruct Hv; reflexivity.
Qed.
Example C03_nonvacuous : exists h h', reached h demo_store (fun _ => False) /\
  step 0 (CDevalF 20 2) h = Some (ONums [35%Z], h').
Proof.
  destruct demo_reached as (h & R).
  destruct (devalF_chain Z NumZ 0 h _ _ 20 2 R demo_query) as (W & D & h' & V & HD & U & E); [left; eexists; reflexivity|].
  exists h, h'. split; auto. rewrite <- (U demo_W demo_D demo_values demo_derivs) in E. exact E.
Qed.

(** ** C05 Reverse mode equals forward mode *)
Lemma reverse_forward T (N : Num T) pad pad' h st tc r xs i x : NumLaws N -> reached h st tc -> query_ok st tc r ->
  (forall z, In z xs -> is_var st z \/ is_exp st z) -> nth_error xs i = Some x -> utarget st r x ->
  (forall W, uvalues st r W -> udivs_ok st r W) ->
  exists d ys h1 h2, step pad (CDevalF r x) h = Some (ONums [d], h1) /\
    step pad' (CGrad r xs) h = Some (ONums ys, h2) /\ nth_error ys i = Some d.
Proof.
  intros L R Q Hxs Hi Ht Hd.
  destruct (devalF_chain T N pad h st tc r x R Q) as (W & D & h1 & V & HD & U & E1); [eauto using nth_error_In|].
  destruct (reached_grad h st tc pad' r xs L R Q Hxs) as (W' & ys & h2 & V' & E2 & _ & A).
  destruct (A (Hd W' V') i x Hi Ht) as (D' & HD' & Hn).
  exists (D r), ys, h1, h2. repeat split; auto. now rewrite <- (U W' D' V' HD').
Qed.
Theorem C05_reverse_equals_forward : forall T (N : Num T) pad pad' h st tc r xs i x,
  NumLaws N -> reached h st tc -> query_ok st tc r ->
  (forall z, In z xs -> is_var st z \/ is_exp st z) -> nth_error xs i = Some x -> utarget st r x ->
  (forall W, uvalues st r W -> udivs_ok st r W) ->
  exists d ys h1 h2, step pad (CDevalF r x) h = Some (ONums [d], h1) /\
    step pad' (CGrad r xs) h = Some (ONums ys, h2) /\ nth_error ys i = Some d.
Proof. exact reverse_forward. Qed.
Print Assumptions C05_reverse_equals_forward.
Lemma demo_divs_all : forall W, uvalues demo_store 20 W -> udivs_ok demo_store 20 W.
Proof.
  intros W _ v l Hv E. apply demo_below in Hv. simpl in Hv.
  repeat (destruct Hv as [<-|Hv]); try destruct Hv; cbv in E; try discriminate; injection E as <-; simpl; repeat split; auto.
Qed.
Example C05_nonvacuous : exists h ys h', reached h demo_store (fun _ => False) /\
  step 0 (CGrad 20 [3; 2]) h = Some (ONums ys, h') /\ nth_error ys 1 = Some 35%Z.
Proof.
  destruct demo_reached as (h & R).
  destruct (reverse_forward Z NumZ 0 0 h _ _ 20 [3; 2] 1 2 LawsZ R demo_query) as (d & ys & h1 & h2 & E1 & E2 & Hn); auto.
  - intros z [<-|[<-|[]]]; left; eexists; reflexivity.
  - left. eexists; reflexivity.
  - exact demo_divs_all.
  - exists h, ys, h2. split; auto. split; auto.
    destruct (devalF_chain Z NumZ 0 h _ _ 20 2 R demo_query) as (W & D & h' & V & HD & U & E); [left; eexists; reflexivity|].
    rewrite <- (U demo_W demo_D demo_values demo_derivs) in E. change (demo_D 20) with 35%Z in E. congruence.
Qed.

(** ** C06 Unrelated variables have derivative 0 *)
Lemma unrelated_zero T (N : Num T) pad pad' h st tc r xs i x : NumLaws N -> reached h st tc -> query_ok st tc r ->
  (forall z, In z xs -> is_var st z \/ is_exp st z) -> nth_error xs i = Some x -> is_var st x -> ~ ureach st r x ->
  (exists h1, step pad (CDevalF r x) h = Some (ONums [n0], h1)) /\
  ((forall W, uvalues st r W -> udivs_ok st r W) ->
   exists ys h2, step pad' (CGrad r xs) h = Some (ONums ys, h2) /\ nth_error ys i = Some n0).
Proof.
  intros L R Q Hxs Hi Hv Hu. 
  destruct (devalF_chain T N pad h st tc r x R Q) as (W & D & h1 & V & HD & U & E1); [eauto using nth_error_In|].
  assert (Z0 := unrelated_0 L st r W x D (proj1 (proj2 Q)) HD Hu).
  split; [exists h1; congruence|]. intros Hd.
  destruct (reverse_forward T N pad pad' h st tc r xs i x L R Q Hxs Hi (or_introl Hv) Hd) as (d & ys & h1' & h2 & E1' & E2 & Hn).
  exists ys, h2. split; auto. congruence.
Qed.
Theorem C06_unrelated_derivative_zero : forall T (N : Num T) pad pad' h st tc r xs i x, NumLaws N ->
  reached h st tc -> query_ok st tc r ->
  (forall z, In z xs -> is_var st z \/ is_exp st z) -> nth_error xs i = Some x -> is_var st x -> ~ ureach st r x ->
  (exists h1, step pad (CDevalF r x) h = Some (ONums [n0], h1)) /\
  ((forall W, uvalues st r W -> udivs_ok st r W) ->
   exists ys h2, step pad' (CGrad r xs) h = Some (ONums ys, h2) /\ nth_error ys i = Some n0).
Proof. exact unrelated_zero. Qed.
Print Assumptions C06_unrelated_derivative_zero.
(** In [targets] (ScalarWitness.v), f = 2*e does not depend on a fresh variable added afterwards. *)
Example C06_nonvacuous : exists h st, reached (T := Z) h st (fun _ => False) /\ query_ok st (fun _ => False) 11 /\ is_var st 14 /\
  ~ ureach st 11 14.
Proof.
  set (cs := [CVar 3%Z; CVar 4%Z; CExpr (TBin BProd (TRef 2) (TRef 3)); CExpr (TBin BProd (TRef 6) (TRef 2)); CVar 9%Z]).
  set (os := [OHandle (T := Z) 2; OHandle 3; OHandle 6; OHandle 11; OHandle 14]).
  destruct (exec_split 0 cs heap0 os) as (h & E); [vm_compute; reflexivity|].
  exists h, (after_run store0 cs os).
  assert (Dp : forall v w, udep (after_run store0 cs os) v w -> w < v /\ v <= 11).
  { intros v w Hd. unfold cs, os in Hd. cbn [after_run uafter] in Hd. dep_tac; lia. }
  split; [|split; [|split]].
  - apply (run_reached 0 cs heap0 store0 _ os h reached0); auto.
    unfold cs, os. cbn [legal_run]. repeat apply conj; try exact Logic.I; legal_tac.
  - apply tidy_query; [|eexists; reflexivity]. split; auto. exists (fun v => v). intros v w Hd. right. apply (Dp v w Hd).
  - eexists; reflexivity.
  - intros H. assert (G : forall v, ureach (after_run store0 cs os) 11 v -> v <= 11).
    { intros v Hv. induction Hv as [|v w _ IH Hd]; auto. destruct (Dp v w Hd). lia. }
    specialize (G 14 H). lia.
Qed.

(** ** C07 Repeated use of one root *)
Lemma one_root T (N : Num T) pad h st tc r cs : reached h st tc -> query_ok st tc r -> Forall (on_root st r) cs ->
  exists os h', exec pad (line cs) h = Some (os, h') /\ all_correct st (line cs) os.
Proof. intros R Q F. apply (exec_ok pad (line cs) h st tc (reached_inv _ _ _ R)). now apply (one_root_ok r). Qed.
Theorem C07_one_root_history_independent : forall T (N : Num T) pad h st tc r cs,
  reached h st tc -> query_ok st tc r -> Forall (on_root st r) cs ->
  exists os h', exec pad (line cs) h = Some (os, h') /\ all_correct st (line cs) os.
Proof. exact one_root. Qed.
Print Assumptions C07_one_root_history_independent.
Example C07_nonvacuous : query_ok demo_store (fun _ => False) 20 /\
  Forall (on_root demo_store 20) [CEval 20; CSet 2 7%Z; CDevalF 20 3; CSetPar 4 1%Z; CGrad 20 [2; 3; 10]; CEval 20].
Proof.
  split; [exact demo_query|].
  repeat apply Forall_cons; try apply Forall_nil; cbn [on_root]; auto; try (eexists; reflexivity).
  - split; auto. left; eexists; reflexivity.
  - split; auto. intros z [<-|[<-|[<-|[]]]]; [left|left|right]; eexists; reflexivity.
Qed.

(** ** C08 Evaluation after evaluating other expressions *)
(** True form: any interleaving of roots, provided no never-queried expression below the root refers to a queried
    one -- [legal] states exactly this; see C01_client_programs.  Once everything below r has been
    queried (or nothing has), queries on r are always legal: *)
Lemma any_order T (N : Num T) pad h st tc r : reached h st tc -> is_exp st r -> ustrat st r ->
  (forall v, ureach st r v -> v <> r -> is_exp st v -> tc v) \/ (forall v, ureach st r v -> v <> r -> ~ tc v) ->
  exists W h', uvalues st r W /\ step pad (CEval r) h = Some (ONums [W r], h').
Proof.
  intros R He Hs [A|A].
  - apply (reached_eval h st tc pad r R). split; [exact He|]. split; [exact Hs|]. intros v w Hv Hn Hx Ht. exfalso; auto.
  - apply (reached_eval h st tc pad r R). split; [exact He|]. split; [exact Hs|]. intros v w Hv Hn Hx Ht Hd Hw.
    destruct (Nat.eq_dec w r) as [->|Hne]; [|apply A; auto; econstructor; eauto].
    destruct Hs as (k & Hk). exfalso.
    assert (B : forall u, ureach st r u -> k u <= k r).
    { intros u Hu. induction Hu as [|a b Ha IH Hb]; auto. destruct (Hk a b Ha Hb) as [->|]; lia. }
    destruct (Hk v r Hv Hd) as [->|Hlt]; [contradiction|]. specialize (B v Hv). lia.
Qed.
Theorem C08_other_roots : forall T (N : Num T) pad h st tc r, reached h st tc -> is_exp st r -> ustrat st r ->
  (forall v, ureach st r v -> v <> r -> is_exp st v -> tc v) \/ (forall v, ureach st r v -> v <> r -> ~ tc v) ->
  exists W h', uvalues st r W /\ step pad (CEval r) h = Some (ONums [W r], h').
Proof. exact any_order. Qed.
Print Assumptions C08_other_roots.
(** Without that proviso the claim is false: a legal history after which Eval(r), r an acyclic expression,
    returns a number that is not its value (x=1; a=2x; b=a+1; c=b+1; Eval(a); x=5; Eval(c) = 4, not 12). *)
Theorem C08_other_roots_refuted : exists h st tc r W y h', reached (T := Z) h st tc /\ is_exp st r /\ ustrat st r /\
  uvalues st r W /\ step 0 (CEval r) h = Some (ONums [y], h') /\ y <> W r.
Proof. exact stale_refutes. Qed.
Print Assumptions C08_other_roots_refuted.
Example C08_nonvacuous : exists h, reached h demo_store (fun _ => False) /\ is_exp demo_store 20 /\ ustrat demo_store 20.
Proof.
  destruct demo_reached as (h & R). exists h. split; auto. split; [eexists; reflexivity|].
  exact (proj1 (proj2 demo_query)).
Qed.

(** ** C09 Self-referential assignment is iteration *)
Theorem C09_iteration : forall T (N : Num T) pad h st tc init body n x,
  reached h st tc -> tidy st tc -> term_ok st init ->
  (forall e, st e = None -> body_ok st e (body e)) -> is_var st x \/ is_exp st x ->
  exists e h' W D, st e = None /\ all_values st W /\ all_derivs st W x D /\
    let value := fun y => nmul n1 (tsem (at_ e y W) (body e)) in
    let deriv := fun y d => nmul n1 (tdsem (at_ e y W) (at_ e d D) (body e)) in
    let result := iter n (fun p => (value (fst p), deriv (fst p) (snd p)))
                       (nmul n1 (tsem W init), nmul n1 (tdsem W D init)) in
    exec pad (loop_prog init body n (fun e => [CEval e; CDevalF e x])) h =
      Some (OHandle e :: repeat ONone n ++ [ONums [fst result]; ONums [snd result]], h').
Proof. exact (fun T N => @iteration T N). Qed.
Print Assumptions C09_iteration.
(** e = x; n times e = e*x: value x^(n+1), derivative (n+1)*x^n. *)
Theorem C09_power : forall T (N : Num T), NumLaws N -> forall pad h st tc x c n,
  reached h st tc -> tidy st tc -> st x = Some (OVar c) ->
  exists e h' d,
    exec pad (loop_prog (TRef x) (fun e => TBin BProd (TRef e) (TRef x)) n (fun e => [CEval e; CDevalF e x])) h =
      Some (OHandle e :: repeat ONone n ++ [ONums [npown c (S n)]; ONums [d]], h') /\
    d = iter (S n) (nadd (npown c n)) n0.
Proof. exact (fun T N => @power_loop T N). Qed.
Print Assumptions C09_power.
Example C09_nonvacuous : exists h, reached h demo_store (fun _ => False) /\ tidy demo_store (fun _ => False) /\
  term_ok demo_store (TRef 2) /\ (forall e, demo_store e = None -> body_ok demo_store e (TBin BProd (TRef e) (TRef 16))) /\
  is_var demo_store 2.
Proof.
  destruct demo_reached as (h & R). exists h. split; auto. split; [exact demo_tidy|].
  split; [split; [intros v [<-|[]]; left; eexists; reflexivity|intros p []]|]. split; [|eexists; reflexivity].
  intros e He. split; [|split].
  - intros v [<-|[<-|[]]]; auto. right. right. eexists; reflexivity.
  - intros p [].
  - unfold mentions. simpl. now rewrite Nat.eqb_refl.
Qed.

(** ** C10 Reassignment *)
(** [e = t] makes Eval(e) the value of t under the values before the assignment, whatever was assigned to e
    before and whether or not t mentions e. *)
Theorem C10_reassignment : forall T (N : Num T) pad h st tc e t x, reached h st tc -> tidy st tc -> is_exp st e ->
  term_ok st t -> (forall v, In v (trefs t) -> v = e \/ ~ ureach st v e) -> is_var st x \/ is_exp st x -> x <> e ->
  exists h' W D, all_values st W /\ all_derivs st W x D /\
    exec pad (line [CAssign e t; CEval e; CDevalF e x]) h =
      Some ([ONone; ONums [nmul n1 (tsem W t)]; ONums [nmul n1 (tdsem W D t)]], h').
Proof. exact (fun T N => @assign_ok T N). Qed.
Print Assumptions C10_reassignment.
(** Forgotten after a plain reassignment: the store keeps only t. *)
Lemma reassign_forgets T (N : Num T) pad h st tc e t : reached h st tc -> is_exp st e -> term_ok st t -> mentions e t = false ->
  exists h' st', step pad (CAssign e t) h = Some (ONone, h') /\ reached h' st' tc /\
    st' e = Some (OExp [ITerm t]) /\ forall v, v <> e -> st' v = st v.
Proof.
  intros R He Ht Hm. destruct (reached_answer h st tc (CAssign e t) pad R (conj He Ht)) as (o & h' & E & A & R').
  simpl in A. subst o. destruct He as [l El]. cbn [uafter] in R'. rewrite El, Hm in R'.
  exists h', (put st e (OExp [ITerm t])). repeat split; auto; [apply put_same|]. intros v Hv. now apply put_other.
Qed.
Theorem C10_forgets_old_body : forall T (N : Num T) pad h st tc e t,
  reached h st tc -> is_exp st e -> term_ok st t -> mentions e t = false ->
  exists h' st', step pad (CAssign e t) h = Some (ONone, h') /\ reached h' st' tc /\
    st' e = Some (OExp [ITerm t]) /\ forall v, v <> e -> st' v = st v.
Proof. exact reassign_forgets. Qed.
Print Assumptions C10_forgets_old_body.
(** Both cases at the demo state: e = e*y (20 mentions itself) and f = y*p (10 forgotten). *)
Example C10_nonvacuous : exists h, reached h demo_store (fun _ => False) /\ tidy demo_store (fun _ => False) /\
  term_ok demo_store (TBin BProd (TRef 20) (TRef 3)) /\
  (forall v, In v (trefs (T := Z) (TBin BProd (TRef 20) (TRef 3))) -> v = 20 \/ ~ ureach demo_store v 20) /\
  term_ok demo_store (TBin BProd (TRef 3) (TPar 4)) /\ mentions (T := Z) 10 (TBin BProd (TRef 3) (TPar 4)) = false.
Proof.
  destruct demo_reached as (h & R). exists h. split; auto. split; [exact demo_tidy|]. split; [|split; [|split]].
  - split; [intros v [<-|[<-|[]]]; [right|left]; eexists; reflexivity|intros p []].
  - intros v [<-|[<-|[]]]; auto. right. intros H.
    assert (G : forall v, ureach demo_store 3 v -> v <= 3).
    { intros v Hv. induction Hv as [|v w _ IH Hd]; auto. destruct (demo_dep v w Hd); lia. }
    specialize (G 20 H). lia.
  - split; [intros v [<-|[]]; left; eexists; reflexivity|intros p [<-|[]]; eexists; reflexivity].
  - reflexivity.
Qed.

(** ** C12 Construction *)
Theorem C12_construction_frame : forall T (N : Num T) pad c h o h', creates c -> step pad c h = Some (o, h') ->
  next h < next h' /\ memos h' = memos h /\ (forall w, w < next h -> cells h' w = cells h w) /\
  exists v, o = OHandle v /\ next h <= v < next h'.
Proof. exact (fun T N => @create_frame T N). Qed.
Print Assumptions C12_construction_frame.
Theorem C12_construction_preserves_results : forall T (N : Num T) h st tc pad c o h1 r,
  reached h st tc -> legal st tc c -> creates c -> step pad c h = Some (o, h1) -> query_ok st tc r ->
  forall pad' q, (q = CEval r \/ (exists x, (is_var st x \/ is_exp st x) /\ q = CDevalF r x)) ->
  exists a h' h1', step pad' q h = Some (a, h') /\ step pad' q h1 = Some (a, h1').
Proof. exact (fun T N => @create_preserves T N). Qed.
Print Assumptions C12_construction_preserves_results.
Theorem C12_unique_indices : forall T (N : Num T) h st tc, reached h st tc ->
  (forall v, NoDup (node_ids (graph_of h) v)) /\
  (forall v w k, v <> w -> In k (node_ids (graph_of h) v) -> ~ In k (node_ids (graph_of h) w)) /\
  (forall v k, In k (node_ids (graph_of h) v) -> st k = None /\ 2 <= k < next h).
Proof. exact (fun T N => @reached_unique T N). Qed.
Print Assumptions C12_unique_indices.
Example C12_nonvacuous : exists h, reached h demo_store (fun _ => False) /\
  legal demo_store (fun _ => False) (CExpr (TBin BProd (TRef 20) (TPar 4))) /\ query_ok demo_store (fun _ => False) 20 /\
  node_ids (graph_of h) 10 <> [].
Proof.
  destruct demo_run as (h & E). exists h. split; [|split; [|split]].
  - exact (run_reached 0 demo heap0 store0 _ demo_out h reached0 demo_legal E).
  - split; [intros v [<-|[]]; right; eexists; reflexivity|intros p [<-|[]]; eexists; reflexivity].
  - exact demo_query.
  - assert (X : option_map (fun p => length (node_ids (graph_of (snd p)) 10)) (exec 0 (line demo) heap0) = Some 3)
      by (vm_compute; reflexivity).
    rewrite E in X. cbn [option_map snd] in X. intros Y. rewrite Y in X. discriminate.
Qed.

(** ** C18 Parameters *)
Lemma par_live T (N : Num T) pad h st tc p c r x xs : reached h st tc -> is_par st p -> query_ok st tc r ->
  (is_var st x \/ is_exp st x) -> (forall z, In z xs -> is_var st z \/ is_exp st z) ->
  exists W D ys h',
    uvalues (put st p (OPar c)) r W /\ uderivs (put st p (OPar c)) r W x D /\
    (ureach st r p -> W p = c /\ D p = n0) /\
    exec pad (line [CSetPar p c; CEval r; CDevalF r x; CGrad r xs]) h =
      Some ([ONone; ONums [W r]; ONums [D r]; ONums ys], h') /\
    (NumLaws N -> udivs_ok (put st p (OPar c)) r W -> forall i, nth_error xs i = Some x -> utarget (put st p (OPar c)) r x ->
       nth_error ys i = Some (D r)).
Proof.
  intros R Hp Q Hx Hxs.
  assert (Hw : well_behaved st tc (line [CSetPar p c; CEval r; CDevalF r x; CGrad r xs])).
  { apply (one_root_ok r); auto. repeat apply Forall_cons; try apply Forall_nil; cbn [on_root]; auto. }
  destruct (exec_ok pad _ h st tc (reached_inv _ _ _ R) Hw) as (os & h' & E & A).
  cbn [line] in A. destruct os as [|o1 [|o2 [|o3 [|o4 [|]]]]]; cbn [all_correct] in A; try tauto.
  destruct A as (-> & (y & -> & A2) & (d & -> & A3) & (ys & -> & Hlen & A4) & _). cbn [uafter] in *.
  set (st1 := put st p (OPar c)) in *.
  assert (Al : alike st st1) by (apply (alike_after st r (CSetPar p c) ONone); exact Hp).
  assert (S1 : ustrat st1 r) by (exact (proj1 (proj2 (alike_query st st1 tc r Al Q)))).
  destruct (uvalues_exist st1 r S1) as (W & V). destruct (uderivs_exist st1 r W x S1) as (D & HD).
  exists W, D, ys, h'. split; auto. split; auto. split.
  { intros Hr. assert (Hr1 : ureach st1 r p) by (eapply alike_reach; eauto).
    assert (Ep : st1 p = Some (OPar c)) by apply put_same.
    rewrite (V p Hr1), (HD p Hr1), Ep. split; auto. destruct (Nat.eqb_spec p x) as [->|]; auto.
    destruct Hp as [z Hp]. exfalso. destruct Hx as [[? X]|[? X]]; congruence. }
  rewrite E, <- (A2 W V), <- (A3 W D V HD). split; auto. intros L Hd i Hi Ht.
  rewrite (A3 W D V HD). eapply A4; eauto.
Qed.
Theorem C18_parameters : forall T (N : Num T) pad h st tc p c r x xs, reached h st tc -> is_par st p -> query_ok st tc r ->
  (is_var st x \/ is_exp st x) -> (forall z, In z xs -> is_var st z \/ is_exp st z) ->
  exists W D ys h',
    uvalues (put st p (OPar c)) r W /\ uderivs (put st p (OPar c)) r W x D /\
    (ureach st r p -> W p = c /\ D p = n0) /\
    exec pad (line [CSetPar p c; CEval r; CDevalF r x; CGrad r xs]) h =
      Some ([ONone; ONums [W r]; ONums [D r]; ONums ys], h') /\
    (NumLaws N -> udivs_ok (put st p (OPar c)) r W -> forall i, nth_error xs i = Some x -> utarget (put st p (OPar c)) r x ->
       nth_error ys i = Some (D r)).
Proof. exact par_live. Qed.
Print Assumptions C18_parameters.
Example C18_nonvacuous : is_par demo_store 4 /\ ureach demo_store 20 4 /\ query_ok demo_store (fun _ => False) 20.
Proof.
  split; [eexists; reflexivity|]. split; [|exact demo_query].
  assert (A : udep demo_store 20 16).
  { eexists _, _. split; [reflexivity|]. split; [right; right; left; reflexivity|left; simpl; auto]. }
  assert (B : udep demo_store 16 10).
  { eexists _, _. split; [reflexivity|]. split; [left; reflexivity|left; simpl; auto]. }
  assert (C : udep demo_store 10 4).
  { eexists _, _. split; [reflexivity|]. split; [left; reflexivity|right; simpl; auto]. }
  exact (ureach_step _ _ _ _ (ureach_step _ _ _ _ (ureach_step _ _ _ _ (ureach_refl _ _) A) B) C).
Qed.

(** ** C20 Gradient by one reverse sweep *)
Theorem C20_gradient : forall T (N : Num T) h st tc pad r xs, NumLaws N -> reached h st tc -> query_ok st tc r ->
  (forall x, In x xs -> is_var st x \/ is_exp st x) ->
  exists W ys h', uvalues st r W /\ step pad (CGrad r xs) h = Some (ONums ys, h') /\ length ys = length xs /\
    (udivs_ok st r W -> forall i x, nth_error xs i = Some x -> utarget st r x ->
       exists D, uderivs st r W x D /\ nth_error ys i = Some (D r)).
Proof. exact (fun T N => @reached_grad T N). Qed.
Print Assumptions C20_gradient.
Example C20_nonvacuous : exists h, reached h demo_store (fun _ => False) /\ query_ok demo_store (fun _ => False) 20 /\
  udivs_ok demo_store 20 demo_W /\ (forall x, In x [2; 3; 10; 2] -> utarget demo_store 20 x).
Proof.
  destruct demo_reached as (h & R). exists h. split; auto. split; [exact demo_query|]. split; [exact demo_divs|].
  intros x Hx. simpl in Hx.
  assert (Ten : utarget demo_store 20 10).
  { right. eexists. split; [reflexivity|]. split; [lia|]. split.
    - intros i [<-|[]]. simpl. lia.
    - intros v l' Hv E. apply demo_below in Hv. simpl in Hv.
      repeat (destruct Hv as [<-|Hv]); try destruct Hv; cbv in E; try discriminate; injection E as <-; simpl; intuition discriminate. }
  repeat (destruct Hx as [<-|Hx]); try destruct Hx; auto; left; eexists; reflexivity.
Qed.

(** ** C22 User-defined operators *)
(** An expression whose last assignment applies a user operator f (with derivative f') to any term; and the
    two-argument version.  The operators may occur anywhere in the graph: [term] ranges over all of them. *)
Lemma custom_ok T (N : Num T) pad h st tc t x : reached h st tc -> tidy st tc -> term_ok st t ->
  (is_var st x \/ is_exp st x) ->
  exists e W D h', st e = None /\ all_values st W /\ all_derivs st W x D /\
    exec pad (Do (CExpr t) (fun o => match o with OHandle e => line [CEval e; CDevalF e x] | _ => Done end)) h =
    Some ([OHandle e; ONums [nmul n1 (tsem W t)]; ONums [nmul n1 (tdsem W D t)]], h').
Proof.
  intros R Ty Ht Hx.
  destruct (iteration pad h st tc t (fun e => TRef e) 0 x R Ty Ht) as (e & h' & W & D & He & V & HD & E); auto.
  - intros e He. split; [intros v [<-|[]]; auto|]. split; [intros p []|]. unfold mentions. simpl. now rewrite Nat.eqb_refl.
  - exists e, W, D, h'. auto.
Qed.
Theorem C22_custom_operators : forall T (N : Num T) pad h st tc x, reached h st tc -> tidy st tc -> (is_var st x \/ is_exp st x) ->
  (forall (f f' : T -> T) t, term_ok st t ->
   exists e W D h', st e = None /\ all_values st W /\ all_derivs st W x D /\
    exec pad (Do (CExpr (TUn (UCust f f') t)) (fun o => match o with OHandle e => line [CEval e; CDevalF e x] | _ => Done end)) h =
    Some ([OHandle e; ONums [nmul n1 (f (tsem W t))]; ONums [nmul n1 (nmul (f' (tsem W t)) (tdsem W D t))]], h')) /\
  (forall (f f2 f3 : T -> T -> T) a b, term_ok st a -> term_ok st b ->
   exists e W D h', st e = None /\ all_values st W /\ all_derivs st W x D /\
    exec pad (Do (CExpr (TBin (BCust f f2 f3) a b)) (fun o => match o with OHandle e => line [CEval e; CDevalF e x] | _ => Done end)) h =
    Some ([OHandle e; ONums [nmul n1 (f (tsem W a) (tsem W b))];
           ONums [nmul n1 (nadd (nmul (f2 (tsem W a) (tsem W b)) (tdsem W D a)) (nmul (f3 (tsem W a) (tsem W b)) (tdsem W D b)))]], h')).
Proof.
  exact (fun T N pad h st tc x R Ty Hx => conj
    (fun f f' t Ht => custom_ok T N pad h st tc (TUn (UCust f f') t) x R Ty Ht Hx)
    (fun f f2 f3 a b Ha Hb => custom_ok T N pad h st tc (TBin (BCust f f2 f3) a b) x R Ty
       (conj (fun v Hv => match in_app_or _ _ _ Hv with or_introl H => proj1 Ha v H | or_intror H => proj1 Hb v H end)
             (fun p Hp => match in_app_or _ _ _ Hp with or_introl H => proj2 Ha p H | or_intror H => proj2 Hb p H end)) Hx)).
Qed.
Print Assumptions C22_custom_operators.
Example C22_nonvacuous : exists h, reached h demo_store (fun _ => False) /\ tidy demo_store (fun _ => False) /\
  term_ok demo_store (TBin (BCust (fun a b => a - b) (fun _ _ => 1) (fun _ _ => -1))%Z (TRef 20) (TPar 4)).
Proof.
  destruct demo_reached as (h & R). exists h. split; auto. split; [exact demo_tidy|].
  split; [intros v [<-|[]]; right; eexists; reflexivity|intros p [<-|[]]; eexists; reflexivity].
Qed.

(** ** C23 Reverse derivative with respect to an expression *)
Theorem C23_expression_target : forall T (N : Num T) pad pad' h st tc r xs i x l,
  NumLaws N -> reached h st tc -> query_ok st tc r ->
  (forall z, In z xs -> is_var st z \/ is_exp st z) -> nth_error xs i = Some x ->
  st x = Some (OExp l) -> x <> r -> (forall it, In it l -> ~ In x (irefs it)) ->
  (forall v l', ureach st r v -> st v = Some (OExp l') -> ~ In (ICopy x) l') ->
  (forall W, uvalues st r W -> udivs_ok st r W) ->
  exists d ys h1 h2, step pad (CDevalF r x) h = Some (ONums [d], h1) /\
    step pad' (CGrad r xs) h = Some (ONums ys, h2) /\ nth_error ys i = Some d.
Proof.
  exact (fun T N pad pad' h st tc r xs i x l L R Q Hxs Hi E Hne Hs Hc Hd =>
    reverse_forward T N pad pad' h st tc r xs i x L R Q Hxs Hi (or_intror (ex_intro _ l (conj E (conj Hne (conj Hs Hc))))) Hd).
Qed.
Print Assumptions C23_expression_target.
(** Each of the three side conditions is necessary: target = root, self-referential target, copied target. *)
Theorem C23_root_target_refuted : exists h st tc W D h', reached (T := Z) h st tc /\ query_ok st tc 11 /\ is_exp st 11 /\
  uvalues st 11 W /\ udivs_ok st 11 W /\ uderivs st 11 W 11 D /\ step 0 (CGrad 11 [11]) h = Some (ONums [0%Z], h') /\ 0%Z <> D 11.
Proof. exact (target_refutes 11 11 0 1 _ (or_intror (or_introl eq_refl)) (or_intror (or_introl eq_refl)) root_target ltac:(discriminate)). Qed.
Print Assumptions C23_root_target_refuted.
Theorem C23_self_target_refuted : exists h st tc W D h', reached (T := Z) h st tc /\ query_ok st tc 11 /\ is_exp st 4 /\
  uvalues st 11 W /\ udivs_ok st 11 W /\ uderivs st 11 W 4 D /\ step 0 (CGrad 11 [4]) h = Some (ONums [8%Z], h') /\ 8%Z <> D 11.
Proof. exact (target_refutes 11 4 8 2 _ (or_intror (or_introl eq_refl)) (or_introl eq_refl) self_target ltac:(discriminate)). Qed.
Print Assumptions C23_self_target_refuted.
Theorem C23_copy_target_refuted : exists h st tc W D h', reached (T := Z) h st tc /\ query_ok st tc 20 /\ is_exp st 16 /\
  uvalues st 20 W /\ udivs_ok st 20 W /\ uderivs st 20 W 16 D /\ step 0 (CGrad 20 [16]) h = Some (ONums [0%Z], h') /\ 0%Z <> D 20.
Proof. exact (target_refutes 20 16 0 1 _ (or_intror (or_intror (or_intror (or_introl eq_refl)))) (or_intror (or_intror (or_introl eq_refl))) copy_target ltac:(discriminate)). Qed.
Print Assumptions C23_copy_target_refuted.
Example C23_nonvacuous : exists l, demo_store 10 = Some (OExp l) /\ (forall it, In it l -> ~ In 10 (irefs it)) /\
  (forall v l', ureach demo_store 20 v -> demo_store v = Some (OExp l') -> ~ In (ICopy 10) l') /\
  (forall W, uvalues demo_store 20 W -> udivs_ok demo_store 20 W).
Proof.
  eexists. split; [reflexivity|]. split; [|split].
  - intros it [<-|[]]. simpl. lia.
  - intros v l' Hv E. apply demo_below in Hv. simpl in Hv.
    repeat (destruct Hv as [<-|Hv]); try destruct Hv; cbv in E; try discriminate; injection E as <-; simpl; intuition discriminate.
  - exact demo_divs_all.
Qed.
