(** * Scalar derivatives over the reals (C04) and operator sugar (C11) *)

From Coq Require Import List Arith Bool Reals Lra Lia ZArith.
From Verif Require Import Num NumInst ScalarModel ScalarSpec ScalarReset ScalarUser ScalarBuild ScalarFacts ScalarMore Calculus.
Import ListNotations.
Local Open Scope nat_scope.

Notation termR := (term (T := R)). Notation itemR := (item (T := R)). Notation storeR := (store (T := R)).

(** ** Domains *)
Section Dom.
Local Open Scope R_scope.
(** Where each operator is differentiable; for user operators: the supplied derivatives are right there. *)
Definition udom (k : uop R) (u : R) : Prop :=
  match k with
  | UFun f => fdom f u
  | UProdC _ | USumC _ => True
  | UDivC _ => u <> 0
  | UPowCL c => 0 < c
  | UPowCR c => powdom u c
  | UCust f f' => derivable_pt_lim f u (f' u)
  | UCustL f f3 c => derivable_pt_lim (f c) u (f3 c u)
  | UCustR f f2 c => derivable_pt_lim (fun y => f y c) u (f2 u c)
  end.
Definition bdom (k : bop R) (u v : R) : Prop :=
  match k with
  | BSum | BSub | BProd => True
  | BDiv => v <> 0
  | BPow => 0 < u
  | BCust f f2 f3 => diff2 f u v (f2 u v) (f3 u v)
  end.
(** Every operator of a term is applied inside its domain. *)
Fixpoint tdom (lv : nat -> R) (t : termR) : Prop :=
  match t with
  | TRef _ | TPar _ => True
  | TUn k t => tdom lv t /\ udom k (tsem lv t)
  | TBin k l r => tdom lv l /\ tdom lv r /\ bdom k (tsem lv l) (tsem lv r)
  | TClone t => tdom lv t
  end.
(** ... of the assignments l of expression v, executed in order. *)
Fixpoint idom (W : nat -> R) (v : nat) (cur : R) (l : list itemR) : Prop :=
  match l with
  | [] => True
  | i :: l' => match i with ITerm t => tdom (at_ v cur W) t | _ => True end /\ idom W v (isem (at_ v cur W) i) l'
  end.
Definition in_domain (st : storeR) (root : nat) (W : nat -> R) : Prop :=
  forall v l, ureach st root v -> st v = Some (OExp l) -> idom W v 0 l.

Lemma dlim_un k g c d : udom k (g c) -> derivable_pt_lim g c d ->
  derivable_pt_lim (fun a => mean1 k (g a)) c (chain1 k (g c) d).
Proof.
  destruct k; cbn [udom mean1 chain1 nadd nsub nmul ndiv npow nfun n0 n1 nm1 NumR]; intros H G.
  - apply (dlim_comp g (Rfun f)); auto. now apply dlim_fun.
  - eapply dlim_val; [|apply dlim_mult; [apply dlim_const|exact G]]. cbv beta. ring.
  - eapply dlim_val; [|apply dlim_plus; [apply dlim_const|exact G]]. ring.
  - eapply dlim_val; [|apply dlim_mult; [apply dlim_const|apply dlim_div; [apply dlim_const|exact G|exact H]]].
    cbv beta. unfold Rsqr. field. auto.
  - eapply dlim_val; [|apply (dlim_comp g (fun y => Rpow c0 y)); [exact G|now apply dlim_pow_base]]. simpl. ring.
  - eapply dlim_val; [|apply (dlim_comp g (fun y => Rpow y c0)); [exact G|now apply dlim_pow_const]]. ring.
  - now apply (dlim_comp g f).
  - now apply (dlim_comp g (f c0)).
  - now apply (dlim_comp g (fun y => f y c0)).
Qed.
Lemma dlim_bin k g1 g2 c d1 d2 : bdom k (g1 c) (g2 c) -> derivable_pt_lim g1 c d1 -> derivable_pt_lim g2 c d2 ->
  derivable_pt_lim (fun a => mean2 k (g1 a) (g2 a)) c (chain2 k (g1 c) (g2 c) d1 d2).
Proof.
  destruct k; cbn [bdom mean2 chain2 nadd nsub nmul ndiv npow nfun n0 n1 nm1 NumR]; intros H G1 G2.
  - now apply dlim_plus.
  - now apply dlim_minus.
  - eapply dlim_val; [|apply dlim_mult; [exact G1|exact G2]]. ring.
  - eapply dlim_val; [|apply dlim_mult; [exact G1|apply dlim_div; [apply dlim_const|exact G2|exact H]]].
    cbv beta. unfold Rsqr. field. auto.
  - assert (C : continuity_pt g1 c) by (apply derivable_continuous_pt; exists d1; exact G1).
    destruct (C _ H) as (r & Hr & P).
    apply (dlim_loc (fun a => exp (g2 a * ln (g1 a))) _ c _ r Hr).
    + intros y Hy. rewrite Rpow_pos; auto.
      destruct (Req_dec y c) as [->|Hn]; auto.
      assert (Q : Rabs (g1 y - g1 c) < g1 c).
      { apply P. split; [split; [exact Logic.I|auto]|exact Hy]. }
      apply Rabs_def2 in Q. lra.
    + rewrite Rpow_pos by auto. unfold Rpower.
      eapply dlim_val; [|apply (dlim_comp (fun a => g2 a * ln (g1 a)) exp);
        [apply dlim_mult; [exact G2|apply (dlim_comp g1 ln); [exact G1|now apply derivable_pt_lim_ln]]|apply derivable_pt_lim_exp]].
      simpl. field. lra.
  - apply dlim_comp2; auto.
Qed.
Lemma dlim_term (lv : R -> nat -> R) ld c (t : termR) :
  (forall w, In w (trefs t) -> derivable_pt_lim (fun a => lv a w) c (ld w)) ->
  (forall p a, In p (tpars t) -> lv a p = lv c p) -> tdom (lv c) t ->
  derivable_pt_lim (fun a => tsem (lv a) t) c (tdsem (lv c) ld t).
Proof.
  induction t as [v|p|k t IH|k l IHl r IHr|t IH]; cbn [trefs tpars tdom tsem tdsem]; intros H1 H2 D; auto.
  - apply H1. now left.
  - apply (dlim_ext (fun _ => lv c p)); [intros; symmetry; apply H2; now left|apply dlim_const].
  - destruct D as [D1 D2]. now apply dlim_un; auto.
  - destruct D as (D1 & D2 & D3). apply dlim_bin; auto; [apply IHl|apply IHr]; auto;
      intros; try apply H1; try apply H2; apply in_or_app; auto.
Qed.
End Dom.

(** ** The whole graph *)
Section Graph.
Variables (st : storeR) (r x : nat) (c : R).
Hypothesis Hx : st x = Some (OVar c).
Hypothesis St : ustrat st r.
Let sta a := put st x (OVar a).

Lemma sta_alike a : alike st (sta a).
Proof. apply (alike_after st r (CSet x a) ONone). eexists; eauto. Qed.
Lemma sta_c : forall v, sta c v = st v.
Proof. intros v. unfold sta, put, at_. destruct (Nat.eqb_spec v x) as [->|]; auto. Qed.

Lemma graph_derivative (W : R -> nat -> R) (D : nat -> R) :
  (forall a, uvalues (sta a) r (W a)) -> uderivs st r (W c) x D -> in_domain st r (W c) ->
  (forall v l i p, ureach st r v -> st v = Some (OExp l) -> In i l -> In p (ipars i) -> is_par st p) ->
  forall v, ureach st r v -> derivable_pt_lim (fun a => W a v) c (D v).
Proof.
  intros HW HD Dom Pars. destruct St as (rank & Rk).
  assert (Wv : forall a v, ureach st r v -> W a v = ustep (sta a) (W a) v).
  { intros a v Hv. apply (HW a). apply (alike_reach st); auto. apply sta_alike. }
  assert (A : forall k v, rank v < k -> ureach st r v -> derivable_pt_lim (fun a => W a v) c (D v)).
  { induction k as [|k IH]; intros v Hk Hr; [lia|].
    apply (dlim_ext (fun a => ustep (sta a) (W a) v)); [intros a; symmetry; now apply Wv|].
    rewrite (HD v Hr). destruct (Nat.eqb_spec v x) as [->|Hn].
    { apply (dlim_ext (fun a => a)); [|apply dlim_id]. intros a. unfold ustep, sta, put, at_. now rewrite Nat.eqb_refl. }
    assert (Es : forall a, sta a v = st v) by (intros a; now apply put_other).
    destruct (st v) as [[y|y|l]|] eqn:E.
    - apply (dlim_ext (fun _ => y)); [intros; unfold ustep; now rewrite Es|apply dlim_const].
    - apply (dlim_ext (fun _ => y)); [intros; unfold ustep; now rewrite Es|apply dlim_const].
    - apply (dlim_ext (fun a => fold_left (fun cur i => isem (at_ v cur (W a)) i) l n0)).
      { intros a. unfold ustep. now rewrite Es. }
      assert (G : forall l' (cur : R -> R) d, incl l' l -> derivable_pt_lim cur c d -> idom (W c) v (cur c) l' ->
        derivable_pt_lim (fun a => fold_left (fun cur i => isem (at_ v cur (W a)) i) l' (cur a)) c
          (snd (fold_left (fun p i => (isem (at_ v (fst p) (W c)) i,
             idsem (at_ v (fst p) (W c)) (at_ x n1 (at_ v (snd p) D)) i)) l' (cur c, d)))).
      { induction l' as [|i l' IHl]; intros cur d Hl Hc Hd; [exact Hc|].
        cbn [fold_left fst snd]. destruct Hd as [Hd1 Hd2].
        apply (IHl (fun a => isem (at_ v (cur a) (W a)) i)).
        { intros j Hj. apply Hl. now right. }
        2:{ exact Hd2. }
        assert (Ref : forall w, In w (irefs i) -> derivable_pt_lim (fun a => at_ v (cur a) (W a) w) c (at_ x n1 (at_ v d D) w)).
        { intros w Hw. assert (Hdp : udep st v w) by (exists l, i; split; auto; split; auto; apply Hl; now left).
          assert (Hrw : ureach st r w) by (econstructor; eauto).
          unfold at_. destruct (Nat.eqb_spec w v) as [->|Hwv].
          - destruct (Nat.eqb_spec v x); [contradiction|]. exact Hc.
          - destruct (Rk v w Hr Hdp) as [|Lt]; [contradiction|].
            assert (P := IH w ltac:(lia) Hrw). destruct (Nat.eqb_spec w x) as [->|]; auto.
            rewrite (HD x Hrw), Nat.eqb_refl in P. exact P. }
        destruct i as [t|e|]; cbn [isem idsem].
        - cbn [irefs] in Ref. eapply dlim_val; [|apply dlim_mult; [apply dlim_const|
            apply (dlim_term (fun a => at_ v (cur a) (W a)) (at_ x n1 (at_ v d D)) c t); auto]].
          + cbv beta. cbn [n0 n1 nmul NumR]. ring.
          + intros p a Hp. cbv beta.
            assert (Hpp : is_par st p) by (apply (Pars v l (ITerm t) p Hr E); auto; apply Hl; now left).
            destruct Hpp as [y Hy].
            assert (Hpv : p <> v) by (intros ->; congruence). assert (Hpx : p <> x) by (intros ->; congruence).
            assert (Hrp : ureach st r p).
            { apply (ureach_step st r v p Hr). exists l, (ITerm t). split; auto. split; [apply Hl; now left|now right]. }
            unfold at_. destruct (Nat.eqb_spec p v); [contradiction|].
            rewrite (Wv a p Hrp), (Wv c p Hrp). unfold ustep, sta. rewrite !put_other by auto. now rewrite Hy.
        - apply (Ref e). now left.
        - apply dlim_const. }
      apply (G l (fun _ => n0) n0 (incl_refl _)); [apply dlim_const|]. exact (Dom v l Hr E).
    - apply (dlim_ext (fun _ => n0)); [intros; unfold ustep; now rewrite Es|apply dlim_const]. }
  intros v Hv. apply (A (S (rank v))); auto.
Qed.
End Graph.

Lemma fix_ranked (st : storeR) root (F : (nat -> R) -> nat -> R) rank :
  (forall W W' v, (forall w, udep st v w -> w <> v -> W w = W' w) -> F W v = F W' v) ->
  (forall v w, ureach st root v -> udep st v w -> w = v \/ rank w < rank v) ->
  forall v, ureach st root v -> ufix F (S (rank v)) v = F (fun v => ufix F (S (rank v)) v) v.
Proof.
  intros Fext R.
  assert (Stb : forall f f' v, ureach st root v -> rank v < f -> rank v < f' -> ufix F f v = ufix F f' v).
  { induction f as [|f IH]; intros f' v Hr Hf Hf'; [lia|].
    destruct f' as [|f']; [lia|]. cbn [ufix]. apply Fext. intros w Hw Hn.
    destruct (R v w Hr Hw) as [|L]; [congruence|].
    apply IH; try lia. econstructor; eauto. }
  intros v Hr. cbn [ufix]. apply Fext. intros w Hw Hn.
  destruct (R v w Hr Hw) as [|L]; [congruence|]. change (ufix F (rank v) w = ufix F (S (rank w)) w).
  apply Stb; try lia. econstructor; eauto.
Qed.

(** ** The answer of the program "x = a; Eval(r)" as a function of a. *)
Definition eval_at (pad : nat) (h : heap R) (r x : nat) (a : R) : R :=
  match exec pad (line [CSet x a; CEval r]) h with Some ([_; ONums [y]], _) => y | _ => 0%R end.

Theorem devalF_is_derivative pad h (st : storeR) tc r x c :
  reached h st tc -> query_ok st tc r -> st x = Some (OVar c) ->
  (forall W, uvalues st r W -> in_domain st r W) ->
  (forall a, exists h', exec pad (line [CSet x a; CEval r]) h = Some ([ONone; ONums [eval_at pad h r x a]], h')) /\
  exists d h', step pad (CDevalF r x) h = Some (ONums [d], h') /\ derivable_pt_lim (eval_at pad h r x) c d.
Proof.
  intros Re Q Hx Dom.
  assert (I := reached_inv _ _ _ Re).
  assert (Run : forall a, exists h' y, exec pad (line [CSet x a; CEval r]) h = Some ([ONone; ONums [y]], h') /\
            forall W, uvalues (put st x (OVar a)) r W -> y = W r).
  { intros a. assert (B : well_behaved st tc (line [CSet x a; CEval r])).
    { apply (one_root_ok r); auto. repeat apply Forall_cons; try apply Forall_nil; cbn [on_root]; auto. eexists; eauto. }
    destruct (exec_ok pad _ h st tc I B) as (os & h' & E & A).
    cbn [line] in A. destruct os as [|o1 [|o2 [|]]]; cbn [all_correct] in A; try tauto.
    destruct A as (-> & (y & -> & A2) & _). exists h', y. split; auto. }
  assert (Run' : forall a, exists h', exec pad (line [CSet x a; CEval r]) h = Some ([ONone; ONums [eval_at pad h r x a]], h')).
  { intros a. destruct (Run a) as (h' & y & E & _). exists h'. unfold eval_at. rewrite E. reflexivity. }
  split; [exact Run'|].
  destruct (reached_devalF h st tc pad r x Re Q (or_introl (ex_intro _ c Hx))) as (W0 & D & h' & V & HD & E).
  exists (D r), h'. split; auto.
  destruct (proj1 (proj2 Q)) as (rank & Rk).
  set (W := fun a v => ufix (ustep (put st x (OVar a))) (S (rank v)) v).
  assert (HW : forall a, uvalues (put st x (OVar a)) r (W a)).
  { intros a. assert (Al : alike st (put st x (OVar a))) by (apply (alike_after st r (CSet x a) ONone); eexists; eauto).
    intros v Hv. apply (fix_ranked (put st x (OVar a)) r (ustep (put st x (OVar a)))); auto.
    - intros. now apply ustep_ext.
    - intros u w Hu Hd. apply Rk; [eapply alike_reach; [apply alike_sym; exact Al|exact Hu]|].
      eapply alike_dep; [apply alike_sym; exact Al|exact Hd]. }
  assert (Ec : forall v, put st x (OVar c) v = st v).
  { intros v. unfold put, at_. destruct (Nat.eqb_spec v x) as [->|]; auto. }
  assert (Vc : uvalues st r (W c)).
  { intros v Hv. rewrite <- Ec. apply (HW c). apply (alike_reach st); auto. apply (alike_after st r (CSet x c) ONone). eexists; eauto. }
  assert (EW := uvalues_unique st r W0 (W c) (proj1 (proj2 Q)) V Vc).
  apply (uderivs_same st r W0 (W c)) in HD; auto.
  apply (dlim_ext (fun a => W a r)).
  { intros a. destruct (Run a) as (h1 & y & E1 & A). destruct (Run' a) as (h2 & E2). rewrite <- (A (W a) (HW a)). congruence. }
  apply (graph_derivative st r x c Hx (proj1 (proj2 Q)) W D HW HD (Dom _ Vc)); [|constructor].
  intros v l i p Hv El Hi Hp. destruct (i_exp _ _ _ I v l El) as (_ & _ & _ & F). rewrite Forall_forall in F.
  eapply item_ok_pars; eauto.
Qed.

(** In the domain, quotients are divisible, so reverse mode applies as well. *)
Lemma tdom_divs lv (t : termR) : tdom lv t -> tdiv_ok lv t.
Proof.
  induction t as [v|p|k t IH|k l IHl r IHr|t IH]; cbn [tdom tdiv_ok]; auto.
  - tauto.
  - intros (A & B & C). repeat apply conj; auto. destruct k; auto. now apply invertibleR.
Qed.
Lemma idom_divs W v (l : list itemR) : forall cur, idom W v cur l -> idivs_ok W v cur l.
Proof.
  induction l as [|i l IH]; intros cur; cbn [idom idivs_ok]; auto. intros [A B]. split; auto. destruct i; auto. now apply tdom_divs.
Qed.
Theorem reverse_is_derivative pad pad' h (st : storeR) tc r xs i x c :
  reached h st tc -> query_ok st tc r -> (forall z, In z xs -> is_var st z \/ is_exp st z) ->
  nth_error xs i = Some x -> st x = Some (OVar c) ->
  (forall W, uvalues st r W -> in_domain st r W) ->
  exists ys h' d, step pad (CGrad r xs) h = Some (ONums ys, h') /\ nth_error ys i = Some d /\
    derivable_pt_lim (eval_at pad' h r x) c d.
Proof.
  intros Re Q Hxs Hi Hx Dom.
  destruct (devalF_is_derivative pad' h st tc r x c Re Q Hx Dom) as (_ & d & h1 & E1 & Hd).
  destruct (reached_grad h st tc pad r xs LawsR Re Q Hxs) as (W & ys & h2 & V & E2 & _ & A).
  assert (Hdv : udivs_ok st r W) by (intros v l Hv El; apply idom_divs; now apply (Dom W V v l)).
  destruct (A Hdv i x Hi (or_introl (ex_intro _ c Hx))) as (D & HD & Hn).
  destruct (reached_devalF h st tc pad' r x Re Q (or_introl (ex_intro _ c Hx))) as (W' & D' & h3 & V' & HD' & E3).
  exists ys, h2, d. split; auto. split; auto. rewrite Hn. f_equal.
  rewrite E3 in E1. injection E1 as <- _.
  apply (uderivs_same st r W W') in HD; [|apply (uvalues_unique st r W W' (proj1 (proj2 Q)) V V')].
  apply (uderivs_unique st r W' x D D' (proj1 (proj2 Q)) HD HD'). constructor.
Qed.

(** ** Operator sugar *)
(** The overloaded operators with one numeric operand, as the user writes them (x: any expression). *)
Inductive sugar : Type :=
| XplusC (c : R) | CplusX (c : R) | XminusC (c : R) | CminusX (c : R) | NegX
| XtimesC (c : R) | CtimesX (c : R) | XoverC (c : R) | CoverX (c : R) | PowXC (c : R) | PowCX (c : R).
(** What the library builds. *)
Definition desugar (s : sugar) (t : termR) : termR :=
  match s with
  | XplusC c => TUn (USumC c) t                                   (* GenericSum.hpp:391-395 *)
  | CplusX c => TUn (USumC c) t                                   (* GenericSum.hpp:383-387 *)
  | XminusC c => TUn (USumC (nm1 * c)%num) (TClone t)             (* GenericSub.hpp:231-234 *)
  | CminusX c => TUn (USumC c) (TUn (UProdC nm1) (TClone t))      (* GenericSub.hpp:224-227 *)
  | NegX => TUn (UProdC nm1) (TClone t)                           (* GenericNeg.hpp:29-32 *)
  | XtimesC c => TUn (UProdC c) t                                 (* GenericProduct.hpp:397-401 *)
  | CtimesX c => TUn (UProdC c) t                                 (* GenericProduct.hpp:389-393 *)
  | XoverC c => TUn (UProdC (n1 / c)%num) t                       (* GenericProduct.hpp:405-409 *)
  | CoverX c => TUn (UDivC c) t                                   (* GenericDiv.hpp:407-411 *)
  | PowXC c => TUn (UPowCR c) t                                   (* GenericPow.hpp:566-570 *)
  | PowCX c => TUn (UPowCL c) t                                   (* GenericPow.hpp:558-562 *)
  end.
(** What the user means. *)
Definition sugar_fun (s : sugar) (v : R) : R :=
  (match s with
  | XplusC c => v + c | CplusX c => c + v | XminusC c => v - c | CminusX c => c - v | NegX => - v
  | XtimesC c => v * c | CtimesX c => c * v | XoverC c => v / c | CoverX c => c / v
  | PowXC c => Rpow v c | PowCX c => Rpow c v
  end)%R.
Definition sugar_dom (s : sugar) (v : R) : Prop :=
  (match s with CoverX _ => v <> 0 | PowXC c => powdom v c | PowCX c => 0 < c | _ => True end)%R.
Lemma sugar_term s lv ld (t : termR) :
  tsem lv (desugar s t) = sugar_fun s (tsem lv t) /\
  exists d, (tdsem lv ld (desugar s t) = d * tdsem lv ld t)%R /\
    (sugar_dom s (tsem lv t) -> derivable_pt_lim (sugar_fun s) (tsem lv t) d).
Proof.
  set (v := tsem lv t). set (dv := tdsem lv ld t).
  destruct s; cbn [desugar tsem tdsem sugar_dom sugar_fun mean1 chain1]; fold v; fold dv;
    cbn [nadd nsub nmul ndiv npow nfun n0 n1 nm1 NumR Rfun]; unfold sugar_fun.
  1-5,7: split; [lra|].
  1,2,3: exists 1%R; split; [lra|]; intros _.
  - eapply dlim_val; [|apply dlim_plus; [apply dlim_id|apply dlim_const]]. ring.
  - eapply dlim_val; [|apply dlim_plus; [apply dlim_const|apply dlim_id]]. ring.
  - eapply dlim_val; [|apply dlim_minus; [apply dlim_id|apply dlim_const]]. ring.
  - exists (-1)%R. split; [lra|]. intros _. eapply dlim_val; [|apply dlim_minus; [apply dlim_const|apply dlim_id]]. ring.
  - exists (-1)%R. split; [lra|]. intros _.
    apply (dlim_ext (fun y => 0 - y)%R); [intros; ring|].
    eapply dlim_val; [|apply dlim_minus; [apply dlim_const|apply dlim_id]]. ring.
  - exists c. split; [lra|]. intros _. eapply dlim_val; [|apply dlim_mult; [apply dlim_const|apply dlim_id]]. cbv beta. ring.
  - split; [ring|]. exists c. split; [ring|]. intros _. eapply dlim_val; [|apply dlim_mult; [apply dlim_id|apply dlim_const]]. cbv beta. ring.
  - split; [unfold Rdiv; ring|]. exists (1 / c)%R. split; [reflexivity|]. intros _.
    eapply dlim_val; [|apply dlim_mult; [apply dlim_id|apply dlim_const]]. cbv beta. unfold Rdiv. ring.
  - split; [unfold Rdiv; ring|]. exists ((- c) * (1 / v * (1 / v)))%R. split; [unfold Rdiv; ring|]. intros Hv.
    eapply dlim_val; [|apply dlim_div; [apply dlim_const|apply dlim_id|exact Hv]]. cbv beta. unfold Rsqr. field. exact Hv.
  - split; [reflexivity|]. exists (c * Rpow v (c - 1))%R. split; [ring|]. intros Hv. now apply dlim_pow_const.
  - split; [reflexivity|]. exists (Rpow c v * ln c)%R. split; [ring|]. intros Hv. now apply dlim_pow_base.
Qed.
