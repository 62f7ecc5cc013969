(** * C51: the Gauss-Newton example *)

From Coq Require Import List Arith Bool Lia ZArith Reals Lra Ring.
From Verif Require Import Num NumInst ScalarModel ScalarSpec ScalarUser ScalarBuild ScalarHist ScalarFacts ScalarMore ScalarWitness
  MatMem Kernels KernelFacts KernelProofs KernelBlocks KernelMore Registry KernelStep Backend Slots Sums ConvProofs MatLeaf MatInplace GaussNewton GaussScalar.
Import ListNotations.
Set Implicit Arguments.
Unset Strict Implicit.
Local Open Scope nat_scope.

Section Algebra.
Context {T : Type} {N : Num T}.
Notation mat := (mat T).
Hypothesis L : NumLaws N.
Add Ring Tring : (law_ring N L).

(** A is symmetric. *)
Theorem C51_A_symmetric (size : nat) (J : nat -> mat) i k : gram size J i k = gram size J k i.
Proof. unfold gram. apply sum_n_ext. intros d _. apply sum_n_ext. intros l _. ring. Qed.

(** Residuals affine in the variables: r_i(x - d) = r_i(x) - J_i d. *)
Definition step_of (J : nat -> mat) (dim : nat) (r : nat -> T) (d : nat -> T) (i : nat) : T :=
  nsub (r i) (sum_n dim (fun k => nmul (mf (J i) 0 k) (d k))).

(** If d solves A d = B, the gradient of the new sum of squares vanishes. *)
Theorem C51_normal_equations (size dim : nat) (J : nat -> mat) (r d : nat -> T) :
  (forall i, mr (J i) = 1) ->
  (forall k, k < dim -> sum_n dim (fun l => nmul (gram size J k l) (d l)) = grad size J (fun i => inl (r i)) k) ->
  forall k, k < dim -> sum_n size (fun i => nmul (mf (J i) 0 k) (step_of J dim r d i)) = n0.
Proof.
  intros R1 S k Hk.
  transitivity (nsub (sum_n size (fun i => nmul (r i) (mf (J i) 0 k)))
    (sum_n size (fun i => nmul (mf (J i) 0 k) (sum_n dim (fun l => nmul (mf (J i) 0 l) (d l)))))).
  { clear S. induction size as [|n IH]; simpl; [ring|]. rewrite IH. unfold step_of. ring. }
  specialize (S k Hk). unfold grad, as_column in S. rewrite <- S.
  assert (E : sum_n dim (fun l => nmul (gram size J k l) (d l)) =
              sum_n size (fun i => nmul (mf (J i) 0 k) (sum_n dim (fun l => nmul (mf (J i) 0 l) (d l))))).
  { transitivity (sum_n dim (fun l => sum_n size (fun i => nmul (mf (J i) 0 k) (nmul (mf (J i) 0 l) (d l))))).
    - apply sum_n_ext. intros l _. unfold gram. rewrite <- (sum_mul_r L). apply sum_n_ext. intros i _. rewrite R1. simpl. ring.
    - rewrite (sum_swap L). apply sum_n_ext. intros i _. apply (sum_mul_l L). }
  rewrite E. ring.
Qed.
End Algebra.

(** Over the reals the point reached by one exact step minimises the sum of squares of affine
    residuals: no other displacement e gives a smaller one. *)
Theorem C51_linear_least_squares (size dim : nat) (J : nat -> mat R) (r d : nat -> R) :
  (forall i, mr (J i) = 1) ->
  (forall k, k < dim -> sum_n dim (fun l => Rmult (gram size J k l) (d l)) = grad size J (fun i => inl (r i)) k) ->
  forall e : nat -> R,
  (sum_n size (fun i => Rmult (step_of J dim r d i) (step_of J dim r d i)) <=
   sum_n size (fun i => Rmult (step_of J dim r e i) (step_of J dim r e i)))%R.
Proof.
  intros R1 S e. pose proof (@C51_normal_equations R NumR LawsR size dim J r d R1 S) as NE.
  set (w := fun i => sum_n dim (fun k => Rmult (mf (J i) 0 k) (d k - e k)%R)).
  assert (E : forall i, step_of J dim r e i = (step_of J dim r d i + w i)%R).
  { intros i. unfold step_of, w. simpl.
    assert (Q : sum_n dim (fun k => (mf (J i) 0 k * e k)%R) = (sum_n dim (fun k => (mf (J i) 0 k * d k)%R) - sum_n dim (fun k => (mf (J i) 0 k * (d k - e k))%R))%R).
    { clear. induction dim as [|n IH]; cbn [sum_n nadd n0 NumR] in *; [ring|]. rewrite IH. ring. }
    rewrite Q. ring. }
  assert (Z : sum_n size (fun i => (step_of J dim r d i * w i)%R) = 0%R).
  { unfold w. transitivity (sum_n size (fun i => sum_n dim (fun k => ((d k - e k) * (mf (J i) 0 k * step_of J dim r d i))%R))).
    - apply sum_n_ext. intros i _. transitivity (step_of J dim r d i * sum_n dim (fun k => (mf (J i) 0 k * (d k - e k))%R))%R; [reflexivity|].
      rewrite <- (@sum_mul_l R NumR LawsR). apply sum_n_ext. intros k _. simpl. ring.
    - rewrite (@sum_swap R NumR LawsR). apply (@sum_zero R NumR LawsR). intros k Hk.
      transitivity ((d k - e k) * sum_n size (fun i => (mf (J i) 0 k * step_of J dim r d i)%R))%R.
      + rewrite <- (@sum_mul_l R NumR LawsR). reflexivity.
      + specialize (NE k Hk). cbn [nmul n0 NumR] in NE. rewrite NE. simpl. ring. }
  assert (F : sum_n size (fun i => (step_of J dim r e i * step_of J dim r e i)%R) =
    (sum_n size (fun i => (step_of J dim r d i * step_of J dim r d i)%R) + 2 * sum_n size (fun i => (step_of J dim r d i * w i)%R) + sum_n size (fun i => (w i * w i)%R))%R).
  { clear Z NE S. induction size as [|n IH]; cbn [sum_n nadd n0 NumR] in *; [ring|]. rewrite IH, E. ring. }
  assert (P : (0 <= sum_n size (fun i => (w i * w i)%R))%R).
  { clear. induction size as [|n IH]; cbn [sum_n nadd n0 NumR] in *; [lra|]. pose proof (Rle_0_sqr (w n)) as Q. unfold Rsqr in Q. lra. }
  rewrite F, Z. lra.
Qed.

(** computeAB for any oracle that gives r_i and J_i for data row i: A and B hold the sums,
    whatever they held before, and nothing but the object's own matrices changes (the oracle's
    invariant I is kept). *)
Theorem C51_normal_matrices {T} {N : Num T} (S : sched T) (hd : handler) : valid_sched S -> (hd = HEigen -> NumLaws N) ->
  forall (H : Type) (orc : oracle (T := T) H) size dim I J r, 0 < dim -> oracle_right orc size dim I J r ->
  forall h a m A Bp v w, I h a m -> a GA = Some A -> a GB = Some Bp ->
  holds m A v -> mr v = dim -> mc v = dim -> holds m Bp w -> mr w = dim -> mc w = 1 ->
  exists h' a' m', computeAB (backend_of S hd) orc size (h, a) m = Ok ((h', a'), m') /\ I h' a' m' /\
    a' GA = Some A /\ a' GB = Some Bp /\
    is_mat m' A dim dim /\ (forall i k, i < dim -> k < dim -> val m' A i k =
       sum_n size (fun d => sum_n (mr (J d)) (fun l => nmul (mf (J d) l i) (mf (J d) l k)))) /\
    is_mat m' Bp dim 1 /\ (forall k, k < dim -> val m' Bp k 0 =
       sum_n size (fun d => match r d with
         | inl c => nmul c (mf (J d) 0 k)
         | inr v => sum_n (mr (J d)) (fun l => nmul (mf (J d) l k) (mf v l 0))
         end)).
Proof.
  intros VS LE H orc size dim I J r Hd OR h a m A Bp v w HI EA EB HA A1 A2 HB B1 B2.
  destruct (@computeAB_ok T N (backend_of S hd) (backend_value VS LE) (backend_accum VS hd) H orc size dim Hd I J r OR h a m A Bp v w)
    as (h' & a' & m' & E & I' & EA' & EB' & _ & _ & HA' & HB'); auto.
  exists h', a', m'. split; [exact E|]. split; [exact I'|]. split; [exact EA'|]. split; [exact EB'|].
  split; [exact (proj1 HA')|]. split; [intros i k Hi Hk; exact (holds_val HA' Hi Hk)|]. split; [exact (proj1 HB')|].
  intros k Hk. exact (holds_val HB' Hk (Nat.lt_0_succ 0)).
Qed.

(** A new GaussNewton object with a scalar oracle on the client's expression root: solve() runs to
    the end and performs max_iter steps, each with A = sum J^T J and B = sum J^T r for the
    residuals and exact gradients of root at the current values of the variables. *)
Theorem C51_solve {T} {N : Num T} (S : sched T) (hd : handler) : valid_sched S -> NumLaws N ->
  forall pad llt max_iter root xs size dat D (h : heap T) st tc (m : mem T),
  reached h st tc -> query_ok st tc root -> tame m -> 0 < length xs ->
  data_ok m dat D size -> problem root D xs size st ->
  exists h' a' m' st',
    solve (backend_of S hd) (scalar_oracle pad dat root xs) llt (scalar_update xs) max_iter size (length xs) (h, fun _ => None) m
      = Ok ((h', a'), m') /\
    gn_path D root xs size llt max_iter st st' /\
    exists st2 tc2, reached h' st2 tc2 /\ (forall v, ~ In v (row_pars D) -> st2 v = st' v).
Proof.
  intros VS L pad llt max_iter root xs size dat D h st tc m R Q Tm Hx HD P.
  assert (HI : SI root dat D xs size st h (fun _ => None) m).
  { constructor; [|constructor|exact HD| |].
    - exists st. split; [exists tc; auto|]. split; [apply shape_refl|auto].
    - exact Tm.
    - discriminate.
    - discriminate.
    - intros q [].
    - discriminate.
    - discriminate. }
  destruct (@solve_ok T N pad root L dat D xs size Hx (backend_of S hd) (backend_value VS (fun _ => L)) (backend_accum VS hd) llt max_iter st h (fun _ => None) m P HI)
    as (h' & a' & m' & st' & E & Pa & (s & (tc2 & Rs & _) & Ag) & _); try discriminate.
  exists h', a', m', st'. split; [exact E|]. split; [exact Pa|]. exists s, tc2. auto.
Qed.

(** Value of a client variable. *)
Definition xval {T} {N : Num T} (st : store (T := T)) (x : nat) : T := match st x with Some (OVar c) => c | _ => n0 end.
(** The residuals are affine in the variables, with coefficients a and constants c. *)
Definition affine {T} {N : Num T} (D : list (mat T * list nat)) (root : nat) (xs : list nat) (size : nat) (st : store (T := T))
  (a : nat -> nat -> T) (c : nat -> T) : Prop :=
  forall st' i W, same_shape st st' -> i < size -> uvalues (with_row D i st') root W ->
    W root = nadd (c i) (sum_n (length xs) (fun k => nmul (a i k) (xval st' (nth k xs 0)))) /\
    forall k x G, nth_error xs k = Some x -> uderivs (with_row D i st') root W x G -> G root = a i k.
(** Sum of the squared residuals at the values in st. *)
Definition cost {T} {N : Num T} (D : list (mat T * list nat)) (root size : nat) (st : store (T := T)) (s : T) : Prop :=
  exists r, (forall i W, i < size -> uvalues (with_row D i st) root W -> r i = W root) /\ s = sum_n size (fun i => nmul (r i) (r i)).

(** One iteration with an exact solver: the new values are a least-squares solution. *)
Theorem C51_one_iteration root xs size (D : list (mat R * list nat)) llt st st' a c :
  problem root D xs size st -> affine D root xs size st a c ->
  (forall A B, (forall i k, i < length xs -> k < length xs -> A i k = sum_n size (fun d => Rmult (a d i) (a d k))) ->
     forall k, k < length xs -> sum_n (length xs) (fun l => Rmult (A k l) (llt (length xs) A B l)) = B k) ->
  gn_path D root xs size llt 1 st st' ->
  forall st2, same_shape st st2 -> forall s' s2, cost D root size st' s' -> cost D root size st2 s2 -> (s' <= s2)%R.
Proof.
  intros P Af Ex Pa st2 Sh2 s' s2 (r' & V' & ->) (r2 & V2 & ->).
  pose proof P as (P1 & P2 & P3 & P4 & P5).
  inversion Pa as [|n s J r gA gB d st1 s'' RS XA XB Xd Mv Pa1]; subst. inversion Pa1; subst. clear Pa Pa1.
  assert (Sh : same_shape st st').
  { intros v. destruct Mv as [M1 M2]. destruct (in_dec Nat.eq_dec v xs) as [Hv|Hv].
    - destruct (P2 v Hv) as (y & Ey). apply In_nth_error in Hv as (k & Hk). rewrite Ey, (M1 k v y Hk Ey). exact I.
    - rewrite (M2 v Hv). destruct (st v) as [[]|]; auto. }
  pose proof (problem_shape Sh P) as (P1' & _ & _ & P4' & _). pose proof (problem_shape Sh2 P) as (P1'' & _ & _ & P4'' & _).
  assert (EJ : forall i k, i < size -> k < length xs -> mf (J i) 0 k = a i k).
  { intros i k Hi Hk. destruct (uvalues_exist _ _ (@row_strat R root D st P1 P4 i)) as (W & V).
    destruct (nth_error xs k) as [x|] eqn:E; [|apply nth_error_None in E; lia].
    destruct (uderivs_exist _ root W x (@row_strat R root D st P1 P4 i)) as (G & HG).
    rewrite (@rs_grad _ _ _ _ _ _ _ _ _ RS i W k x G Hi V E HG). eapply (proj2 (Af st i W (shape_refl st) Hi V)); eauto. }
  set (b := fun i => (c i + sum_n (length xs) (fun k => (a i k * xval st (nth k xs 0%nat))%R))%R).
  assert (Er : forall i, i < size -> r i = inl (b i)).
  { intros i Hi. destruct (uvalues_exist _ _ (@row_strat R root D st P1 P4 i)) as (W & V).
    rewrite (@rs_val _ _ _ _ _ _ _ _ _ RS i W Hi V). f_equal. exact (proj1 (Af st i W (shape_refl st) Hi V)). }
  set (Ja := fun i => Mat 1 (length xs) (fun _ k => a i k)).
  assert (EA : forall i k, i < length xs -> k < length xs -> gA i k = gram size Ja i k).
  { intros i k Hi Hk. rewrite XA by auto. unfold gram. apply sum_n_ext. intros q Hq. rewrite (rs_rows RS). cbn [sum_n Ja mr mf].
    rewrite !EJ by auto. reflexivity. }
  assert (EB : forall k, k < length xs -> gB k = grad size Ja (fun i => inl (b i)) k).
  { intros k Hk. rewrite XB by auto. unfold grad. apply sum_n_ext. intros q Hq. rewrite Er by auto. cbn [as_column Ja mf]. rewrite EJ by auto. reflexivity. }
  assert (Sv : forall k, k < length xs -> sum_n (length xs) (fun l => Rmult (gram size Ja k l) (d l)) = grad size Ja (fun i => inl (b i)) k).
  { intros k Hk. rewrite <- EB by auto. rewrite <- (Ex gA gB) with (k := k); auto.
    - apply sum_n_ext. intros l Hl. rewrite <- EA, Xd by auto. reflexivity.
    - intros i l Hi Hl. rewrite EA by auto. unfold gram. apply sum_n_ext. intros q _. cbn [sum_n Ja mr mf nadd n0 NumR nmul]. ring. }
  pose proof (@C51_linear_least_squares size (length xs) Ja b d (fun _ => eq_refl) Sv) as LS.
  assert (Row : forall s0 e i W, same_shape st s0 -> i < size -> uvalues (with_row D i s0) root W ->
            (forall k, k < length xs -> xval s0 (nth k xs 0) = (xval st (nth k xs 0%nat) - e k)%R) -> W root = step_of Ja (length xs) b e i).
  { intros s0 e i W Hs Hi V Hx. rewrite (proj1 (Af s0 i W Hs Hi V)). unfold step_of, b. cbn [Ja mf nadd nsub nmul NumR].
    assert (Q : sum_n (length xs) (fun k => (a i k * xval s0 (nth k xs 0%nat))%R) = (sum_n (length xs) (fun k => (a i k * xval st (nth k xs 0%nat))%R) - sum_n (length xs) (fun k => (a i k * e k)%R))%R).
    { transitivity (sum_n (length xs) (fun k => (a i k * (xval st (nth k xs 0%nat) - e k))%R)).
      - apply sum_n_ext. intros k Hk. now rewrite Hx.
      - clear. generalize (length xs). induction n as [|n IH]; cbn [sum_n nadd n0 NumR]; [ring|]. rewrite IH. ring. }
    rewrite Q. ring. }
  specialize (LS (fun k => (xval st (nth k xs 0%nat) - xval st2 (nth k xs 0%nat))%R)).
  assert (C1 : sum_n size (fun i => nmul (r' i) (r' i)) = sum_n size (fun i => (step_of Ja (length xs) b d i * step_of Ja (length xs) b d i)%R)).
  { apply sum_n_ext. intros i Hi. destruct (uvalues_exist _ _ (@row_strat R root D st' P1' P4' i)) as (W & V).
    rewrite (V' i W Hi V), (Row st' d i W Sh Hi V); [reflexivity|]. intros k Hk.
    assert (Ek : nth_error xs k = Some (nth k xs 0)) by (apply nth_error_nth'; exact Hk).
    destruct (P2 (nth k xs 0)) as (y & Ey); [now apply nth_In|]. destruct Mv as [M1 _].
    unfold xval. rewrite (M1 k _ y Ek Ey), Ey. reflexivity. }
  assert (C2 : sum_n size (fun i => nmul (r2 i) (r2 i)) = sum_n size (fun i => (step_of Ja (length xs) b (fun k => (xval st (nth k xs 0%nat) - xval st2 (nth k xs 0%nat))%R) i * step_of Ja (length xs) b (fun k => (xval st (nth k xs 0%nat) - xval st2 (nth k xs 0%nat))%R) i)%R)).
  { apply sum_n_ext. intros i Hi. destruct (uvalues_exist _ _ (@row_strat R root D st2 P1'' P4'' i)) as (W & V).
    rewrite (V2 i W Hi V), (Row st2 (fun k => (xval st (nth k xs 0%nat) - xval st2 (nth k xs 0%nat))%R) i W Sh2 Hi V); [reflexivity|].
    intros k Hk. ring. }
  rewrite C1, C2. exact LS.
Qed.
Print Assumptions C51_one_iteration.
Print Assumptions C51_A_symmetric.
Print Assumptions C51_normal_equations.
Print Assumptions C51_linear_least_squares.
Print Assumptions C51_normal_matrices.
Print Assumptions C51_solve.

(** ** A concrete instance: fit y = x * p to the rows (1, 3), (2, 6), starting at x = 5. *)
Definition gx : list (cmd (T := Z)) :=
  [CVar 5%Z; CPar 0%Z; CPar 0%Z; CExpr (TBin BSub (TBin BProd (TRef 2) (TPar 3)) (TPar 5))].
Definition gx_out : list (out (T := Z)) := [OHandle 2; OHandle 3; OHandle 5; OHandle 11].
Definition gx_store {T} {N : Num T} (x p q : T) : store :=
  fun v => match v with
           | 2 => Some (OVar x) | 3 => Some (OPar p) | 5 => Some (OPar q)
           | 11 => Some (OExp [ITerm (TBin BSub (TBin BProd (TRef 2) (TPar 3)) (TPar 5))])
           | _ => None end.
Definition gx_data {T} (a b c d : T) : list (mat T * list nat) :=
  [(Mat 2 1 (fun i _ => if i =? 0 then a else b), [3]); (Mat 2 1 (fun i _ => if i =? 0 then c else d), [5])].
Lemma gx_exp {T} {N : Num T} (st : store (T := T)) x p q v l : (forall v, st v = gx_store x p q v) -> st v = Some (OExp l) ->
  v = 11 /\ l = [ITerm (TBin BSub (TBin BProd (TRef 2) (TPar 3)) (TPar 5))].
Proof. intros E. rewrite E. do 12 (destruct v as [|v]; simpl; try discriminate). intros [= <-]. auto. Qed.
Lemma gx_row {T} {N : Num T} (a b c d : T) i st st' : same_shape st st' -> is_par st 3 -> is_par st 5 ->
  same_shape st (with_row (gx_data a b c d) i st').
Proof.
  intros H H3 H5. eapply shape_trans; [exact H|]. rewrite with_row_puts. apply puts_shape. simpl.
  intros q [<-|[<-|[]]]; eapply shape_is_par; eauto.
Qed.
Lemma gx_dep {T} {N : Num T} (st : store (T := T)) x p q v w : (forall v, st v = gx_store x p q v) -> udep st v w -> w = v \/ w < v.
Proof.
  intros E (l & i & El & Hi & Hw). destruct (gx_exp E El) as (-> & ->). destruct Hi as [<-|[]].
  simpl in Hw. right. lia.
Qed.
Lemma gx_problem {T} {N : Num T} (st : store (T := T)) x p q a b c d : (forall v, st v = gx_store x p q v) ->
  problem 11 (gx_data a b c d) [2] 2 st.
Proof.
  intros E.
  assert (P3 : is_par st 3) by (exists p; now rewrite E). assert (P5 : is_par st 5) by (exists q; now rewrite E).
  split; [|split; [|split; [|split]]].
  - simpl. intros z [<-|[<-|[]]]; auto.
  - simpl. intros z [<-|[]]. exists x. now rewrite E.
  - repeat constructor. intros [].
  - exists (fun v => v). intros v w _ Hd. eapply gx_dep; eauto.
  - intros st' i W Sh Hi V v l Hv El.
    pose proof (shape_exp (shape_sym (@gx_row T N a b c d i st st' Sh P3 P5)) El) as El'.
    destruct (gx_exp E El') as (_ & ->). simpl. auto 10.
Qed.
Lemma gx_values {T} {N : Num T} (st st' : store (T := T)) x p q a b c d i W : (forall v, st v = gx_store x p q v) -> same_shape st st' ->
  uvalues (with_row (gx_data a b c d) i st') 11 W ->
  W 11 = nmul n1 (nsub (nmul (xval st' 2) (if i =? 0 then a else b)) (if i =? 0 then c else d)) /\
  forall G, uderivs (with_row (gx_data a b c d) i st') 11 W 2 G ->
    G 11 = nmul n1 (chain2 BSub (nmul (xval st' 2) (if i =? 0 then a else b)) (if i =? 0 then c else d)
             (chain2 BProd (xval st' 2) (if i =? 0 then a else b) n1 n0) n0).
Proof.
  intros E Sh V.
  assert (P3 : is_par st 3) by (exists p; now rewrite E). assert (P5 : is_par st 5) by (exists q; now rewrite E).
  assert (E11 : with_row (gx_data a b c d) i st' 11 = Some (OExp [ITerm (TBin BSub (TBin BProd (TRef 2) (TPar 3)) (TPar 5))])).
  { eapply shape_exp; [exact (@gx_row T N a b c d i st st' Sh P3 P5)|]. now rewrite E. }
  assert (Dp : forall w, w = 2 \/ w = 3 \/ w = 5 -> ureach (with_row (gx_data a b c d) i st') 11 w).
  { intros w Hw. eapply ureach_step; [apply ureach_refl|]. eexists _, _. split; [exact E11|]. split; [left; reflexivity|]. simpl. lia. }
  pose proof (V 2 (Dp 2 ltac:(auto))) as V2. pose proof (V 3 (Dp 3 ltac:(auto))) as V3. pose proof (V 5 (Dp 5 ltac:(auto))) as V5.
  assert (X2 : exists y, st' 2 = Some (OVar y)) by (apply (@shape_is_var T st st' 2 Sh); exists x; now rewrite E).
  destruct X2 as (y & X2).
  change (with_row (gx_data a b c d) i st' 2) with (st' 2) in V2. rewrite X2 in V2.
  change (with_row (gx_data a b c d) i st' 3) with (Some (OPar (if i =? 0 then a else b))) in V3.
  change (with_row (gx_data a b c d) i st' 5) with (Some (OPar (if i =? 0 then c else d))) in V5.
  pose proof (V 11 (ureach_refl _ _)) as V11. rewrite E11 in V11. simpl in V11. unfold at_ in V11. simpl in V11. rewrite V2, V3, V5 in V11.
  unfold xval. rewrite X2. split; [exact V11|].
  intros G HG. pose proof (HG 11 (ureach_refl _ _)) as G11. rewrite E11 in G11. simpl in G11. unfold at_ in G11. simpl in G11.
  rewrite V2, V3 in G11. exact G11.
Qed.

Definition gx_st : store := after_run store0 gx gx_out.
Definition gx_mem : mem Z := mem_of [mk 0 2 1 [1;2]%Z; mk 1 2 1 [3;6]%Z].
Lemma gx_tame : tame gx_mem.
Proof.
  split; [|split; [split|]].
  - intros p o H. do 2 (destruct p as [|p]; [injection H as <-; simpl; repeat split; lia|]). destruct p; discriminate.
  - intros p o H. do 2 (destruct p as [|p]; [injection H as <-; simpl; split; [reflexivity|lia]|]). destruct p; discriminate.
  - intros p q o o' H H'. do 2 (destruct p as [|p]; [injection H as <-; do 2 (destruct q as [|q]; [injection H' as <-; simpl; congruence|]); destruct q; discriminate|]). destruct p; discriminate.
  - intros k sp R C p [].
Qed.
Lemma gx_ok : data_ok gx_mem [(0, [3]); (1, [5])] (gx_data 1 2 3 6)%Z 2.
Proof.
  assert (H : forall p a b, (p = 0 /\ a = 1%Z /\ b = 2%Z) \/ (p = 1 /\ a = 3%Z /\ b = 6%Z) ->
     holds gx_mem p (Mat 2 1 (fun i _ => if i =? 0 then a else b))).
  { intros p a b [(-> & -> & ->)|(-> & -> & ->)]; (split; [eexists _, _, _; split; reflexivity|]);
      simpl; intros i j Hi Hj; replace j with 0 by lia; (destruct i as [|[|i]]; [reflexivity|reflexivity|lia]). }
  constructor; [|constructor; [|constructor]]; cbn [fst snd mr mc length]; (split; [apply H; auto|repeat split; auto]).
Qed.
Definition div1 (dim : nat) (A : nat -> nat -> Z) (B : nat -> Z) (k : nat) : Z := Z.div (B 0) (A 0 0).

(** All hypotheses of [C51_solve] hold, and the run finds x = 3. *)
Example C51_nonvacuous : exists h, reached h gx_st (fun _ => False) /\ query_ok gx_st (fun _ => False) 11 /\ tame gx_mem /\
  data_ok gx_mem [(0, [3]); (1, [5])] (gx_data 1 2 3 6)%Z 2 /\ problem 11 (gx_data 1 2 3 6)%Z [2] 2 gx_st /\
  exists h' a' m', solve (backend_of Zin HEigen) (scalar_oracle 0 [(0, [3]); (1, [5])] 11 [2]) div1 (scalar_update [2]) 1 2 1 (h, fun _ => None) gx_mem
      = Ok ((h', a'), m') /\ c_val (cells h' 2) = 3%Z.
Proof.
  assert (Hst : forall v, gx_st v = gx_store 5%Z 0%Z 0%Z v).
  { intros v. do 12 (destruct v as [|v]; [reflexivity|]). reflexivity. }
  eexists. split; [|split; [|split; [exact gx_tame|split; [exact gx_ok|split; [now apply (gx_problem (x := 5%Z) (p := 0%Z) (q := 0%Z))|]]]]].
  - refine (run_reached 0 gx heap0 store0 (fun _ => False) gx_out _ reached0 _ _).
    + cbn [gx gx_out legal_run]. repeat apply conj; try exact Logic.I; legal_tac.
    + reflexivity.
  - split; [eexists; reflexivity|]. split; [|auto]. exists (fun v => v). intros v w _ Hd. exact (gx_dep Hst Hd).
  - eexists _, _, _. split; [vm_compute; reflexivity|]. reflexivity.
Qed.

(** The same problem over the reals is affine, so [C51_one_iteration] applies to it. *)
Example C51_one_iteration_nonvacuous (st : store (T := R)) x : (forall v, st v = gx_store x 0%R 0%R v) ->
  problem 11 (gx_data 1 2 3 6)%R [2] 2 st /\
  affine (gx_data 1 2 3 6)%R 11 [2] 2 st (fun i _ => if i =? 0 then 1%R else 2%R) (fun i => if i =? 0 then (-3)%R else (-6)%R) /\
  (forall A B, (forall i k, i < 1 -> k < 1 -> A i k = sum_n 2 (fun d => Rmult (if d =? 0 then 1%R else 2%R) (if d =? 0 then 1%R else 2%R))) ->
     forall k, k < 1 -> sum_n 1 (fun l => Rmult (A k l) (Rdiv (B 0) (A 0 0))) = B k).
Proof.
  intros E. split; [now apply (gx_problem (x := x) (p := 0%R) (q := 0%R))|]. split.
  - intros st' i W Sh Hi V. destruct (gx_values E Sh V) as (VV & VG). split.
    + rewrite VV. simpl. destruct (i =? 0); ring.
    + intros [|k] z G Ez HG; [|destruct k; discriminate]. injection Ez as <-. rewrite (VG G HG). simpl. destruct (i =? 0); ring.
  - intros A B HA k Hk. replace k with 0 by lia. simpl. rewrite (HA 0 0) by lia. simpl. field.
Qed.
