(** * The Gauss-Newton example with a scalar oracle

    Model of OracleScalar.cpp and of setDataUnit / updateScalar of
    example/GaussNewton/src/GaussNewton.cpp on top of the scalar engine (ScalarUser.v) and the
    matrix memory, and proof that it is an oracle in the sense of GaussNewton.v for the residual
    function the client's expression denotes.

    Simplifications: pairs of a data matrix and its parameter matrix with a null pointer are left
    out of the list [dat]; writing the results of the transform over m_X into m_jacobian is one
    assignment of all entries. *)

From Coq Require Import List Arith Bool Lia.
From Verif Require Import Num ScalarModel ScalarSpec ScalarUser ScalarBuild ScalarHist ScalarFacts MatMem Kernels KernelFacts KernelProofs KernelBlocks Registry KernelStep Backend Slots ConvProofs MatLeaf MatInplace GaussNewton.
Import ListNotations.
Set Implicit Arguments.
Unset Strict Implicit.

Section Model.
Context {T : Type} {N : Num T}.
Notation mem := (mem T).
Notation M := (M T).
Notation heap := (heap T).
Notation "x <- c ;; k" := (bind c (fun x => k)) (at level 61, c at next level, right associativity).
Notation arr := (gk -> option ptr).

(** A command of the scalar engine inside the matrix memory. *)
Definition lift (A : Type) (x : option A) : M A :=
  match x with Some a => ret a | None => fun _ => Undefined end.
Variable pad : nat.
Definition do1 (c : cmd (T := T)) (h : heap) : M (out (T := T) * heap) := lift (step pad c h).

(** The inner loops of setDataUnit, GaussNewton.cpp:28-30, 35-37. *)
Fixpoint set_row (X : ptr) (ps : list nat) (i : nat) (js : list nat) (h : heap) : M heap :=
  match js with
  | [] => ret h
  | j :: js =>
      v <- at2 X i j ;;
      p <- lift (nth_error ps j) ;;
      s <- do1 (CSetPar p v) h ;;
      set_row X ps i js (snd s)
  end.
(** setDataUnit, GaussNewton.cpp:25-39. *)
Fixpoint set_data (dat : list (ptr * list nat)) (i : nat) (h : heap) : M heap :=
  match dat with
  | [] => ret h
  | (X, ps) :: dat =>
      o <- deref X ;;
      h1 <- set_row X ps i (seq 0 (o_cols o)) h ;;
      set_data dat i h1
  end.

(** setDataUnit(i); eval(); jacobian()  (GaussNewton.cpp:48-53, OracleScalar.cpp:29-31, 61-73). *)
Definition scalar_oracle (dat : list (ptr * list nat)) (root : nat) (xs : list nat) : oracle (T := T) heap :=
  fun i h a =>
  h1 <- set_data dat i h ;;
  e <- do1 (CEval root) h1 ;;
  (match fst e with
   | ONums [c] =>
       a1 <- ensure GJ 1 (length xs) a ;;
       g <- do1 (CGrad root xs) (snd e) ;;
       (match fst g, a1 GJ with
        | ONums ds, Some j =>
            bind (assign j (fun _ _ k => nth k ds n0)) (fun _ =>
            ret (RNum c, j, (snd g, a1)))
        | _, _ => fun _ => Undefined
        end)
   | _ => fun _ => Undefined
   end).

(** updateScalar, GaussNewton.cpp:117-126: X[i] = Eval(X[i]) - delX[i], where Eval of a Variable is
    getValue() (CommonFunctions.hpp:106-108). *)
Fixpoint upd_vars (xs : list nat) (k : nat) (d : nat -> T) (h : heap) : heap :=
  match xs with
  | [] => h
  | x :: xs => upd_vars xs (Datatypes.S k) d (SetVar x (nsub (c_val (cells h x)) (d k)) h)
  end.
Definition scalar_update (xs : list nat) (dim : nat) (d : nat -> T) (h : heap) : heap := upd_vars xs 0 d h.
End Model.

(** ** Specification *)
Section Spec.
Context {T : Type} {N : Num T}.
Notation store := (store (T := T)).
Notation mat := (mat T).

(** The store with data row i in the parameters. *)
Definition put_row (X : mat) (ps : list nat) (i : nat) (st : store) : store :=
  fold_left (fun st j => ScalarUser.put st (nth j ps 0) (OPar (mf X i j))) (seq 0 (mc X)) st.
Definition with_row (D : list (mat * list nat)) (i : nat) (st : store) : store :=
  fold_left (fun st q => put_row (fst q) (snd q) i st) D st.

(** r and J are residual and gradient (with respect to xs) of the function root denotes. *)
Record residual_of (D : list (mat * list nat)) (root : nat) (xs : list nat) (size : nat) (st : store)
  (J : nat -> mat) (r : nat -> T + mat) : Prop := {
  rs_rows : forall i, mr (J i) = 1;
  rs_cols : forall i, mc (J i) = length xs;
  rs_val : forall i W, i < size -> uvalues (with_row D i st) root W -> r i = inl (W root);
  rs_grad : forall i W k x G, i < size -> uvalues (with_row D i st) root W -> nth_error xs k = Some x ->
    uderivs (with_row D i st) root W x G -> mf (J i) 0 k = G root
}.

(** Variables after one update by delta; nothing else changes. *)
Definition moves (xs : list nat) (d : nat -> T) (st st' : store) : Prop :=
  (forall k x c, nth_error xs k = Some x -> st x = Some (OVar c) -> st' x = Some (OVar (nsub c (d k)))) /\
  (forall v, ~ In v xs -> st' v = st v).

(** n Gauss-Newton steps: each moves the variables by the solver's answer for
    A = sum J^T J and B = sum J^T r at the current values. *)
Inductive gn_path (D : list (mat * list nat)) (root : nat) (xs : list nat) (size : nat)
  (llt : nat -> (nat -> nat -> T) -> (nat -> T) -> nat -> T) : nat -> store -> store -> Prop :=
| gp_done st : gn_path D root xs size llt 0 st st
| gp_step n st J r gA gB d st1 st' :
    residual_of D root xs size st J r ->
    (forall i k, i < length xs -> k < length xs -> gA i k = gram size J i k) ->
    (forall k, k < length xs -> gB k = grad size J r k) ->
    (forall k, k < length xs -> d k = llt (length xs) gA gB k) ->
    moves xs d st st1 -> gn_path D root xs size llt n st1 st' ->
    gn_path D root xs size llt (Datatypes.S n) st st'.
End Spec.

(** ** Proof *)
Section Proofs.
Context {T : Type} {N : Num T}.
Notation mem := (mem T).
Notation mat := (mat T).
Notation heap := (heap T).
Notation store := (store (T := T)).
Notation arr := (gk -> option ptr).
Notation "a .[ k := p ]" := (sset gk_eq a k p) (at level 1, format "a .[ k := p ]").
Implicit Types st : store.

(** *** Stores that differ in numbers only *)
Definition same_shape (st st' : store) : Prop :=
  forall v, match st v, st' v with
            | Some (OVar _), Some (OVar _) | Some (OPar _), Some (OPar _) | None, None => True
            | Some (OExp l), Some (OExp l') => l = l'
            | _, _ => False
            end.
Lemma shape_refl st : same_shape st st.
Proof. intros v. destruct (st v) as [[]|]; auto. Qed.
Lemma shape_sym st st' : same_shape st st' -> same_shape st' st.
Proof. intros H v. specialize (H v). destruct (st v) as [[]|], (st' v) as [[]|]; auto. Qed.
Lemma shape_trans st st' st2 : same_shape st st' -> same_shape st' st2 -> same_shape st st2.
Proof. intros H H' v. specialize (H v). specialize (H' v). destruct (st v) as [[]|], (st' v) as [[]|], (st2 v) as [[]|]; auto; try contradiction; congruence. Qed.
Lemma shape_exp st st' v l : same_shape st st' -> st v = Some (OExp l) -> st' v = Some (OExp l).
Proof. intros H E. specialize (H v). rewrite E in H. destruct (st' v) as [[]|]; try contradiction. now subst. Qed.
Lemma shape_is_exp st st' v : same_shape st st' -> is_exp st v -> is_exp st' v.
Proof. intros H (l & E). exists l. eapply shape_exp; eauto. Qed.
Lemma shape_is_var st st' v : same_shape st st' -> is_var st v -> is_var st' v.
Proof. intros H (x & E). specialize (H v). rewrite E in H. destruct (st' v) as [[y| |]|] eqn:E'; try contradiction. now exists y. Qed.
Lemma shape_is_par st st' v : same_shape st st' -> is_par st v -> is_par st' v.
Proof. intros H (x & E). specialize (H v). rewrite E in H. destruct (st' v) as [[|y|]|] eqn:E'; try contradiction. now exists y. Qed.
Lemma shape_dep st st' v w : same_shape st st' -> udep st v w -> udep st' v w.
Proof. intros H (l & i & E & R). exists l, i. split; [eapply shape_exp; eauto|auto]. Qed.
Lemma shape_reach st st' v w : same_shape st st' -> ureach st v w -> ureach st' v w.
Proof. intros H R. induction R; [constructor|]. econstructor; [eauto|]. eapply shape_dep; eauto. Qed.
Lemma shape_query st st' tc r : same_shape st st' -> query_ok st tc r -> query_ok st' tc r.
Proof.
  intros H (E & (rk & S) & Q). pose proof (shape_sym H) as H'. split; [eapply shape_is_exp; eauto|]. split.
  - exists rk. intros v w Hv Hd. apply S; [eapply shape_reach; eauto|eapply shape_dep; eauto].
  - intros v w Hv Hn Ev Tv Hd Ew. apply (Q v w); auto; [eapply shape_reach; eauto|eapply shape_is_exp; eauto|eapply shape_dep; eauto|eapply shape_is_exp; eauto].
Qed.
Lemma shape_put_par st p x : is_par st p -> same_shape st (ScalarUser.put st p (OPar x)).
Proof. intros (y & E) v. unfold ScalarUser.put, at_. destruct (Nat.eqb_spec v p) as [->|Ne]; [now rewrite E|]. destruct (st v) as [[]|]; auto. Qed.
Lemma shape_put_var st p x : is_var st p -> same_shape st (ScalarUser.put st p (OVar x)).
Proof. intros (y & E) v. unfold ScalarUser.put, at_. destruct (Nat.eqb_spec v p) as [->|Ne]; [now rewrite E|]. destruct (st v) as [[]|]; auto. Qed.

(** Pointwise equal stores. *)
Definition seq_ (st st' : store) : Prop := forall v, st v = st' v.
Lemma seq_shape st st' : seq_ st st' -> same_shape st st'.
Proof. intros H v. rewrite (H v). destruct (st' v) as [[]|]; auto. Qed.
Lemma seq_sym st st' : seq_ st st' -> seq_ st' st.
Proof. intros H v. auto. Qed.
Lemma seq_values st st' r W : seq_ st st' -> uvalues st r W -> uvalues st' r W.
Proof. intros H V v Hv. rewrite (V v) by (eapply shape_reach; [|eauto]; now apply shape_sym, seq_shape). now rewrite (H v). Qed.
Lemma seq_derivs st st' r W x D : seq_ st st' -> uderivs st r W x D -> uderivs st' r W x D.
Proof. intros H V v Hv. rewrite (V v) by (eapply shape_reach; [|eauto]; now apply shape_sym, seq_shape). now rewrite (H v). Qed.
Lemma seq_put st st' p o : seq_ st st' -> seq_ (ScalarUser.put st p o) (ScalarUser.put st' p o).
Proof. intros H v. unfold ScalarUser.put, at_. destruct (v =? p); auto. Qed.

Lemma query_touched (st : store) tc r : query_ok st tc r -> query_ok st (fun v => tc v \/ ureach st r v) r.
Proof. intros (E & S & Q). split; [auto|]. split; [auto|]. intros v w Hv Hn Ev Tv. exfalso. apply Tv. now right. Qed.

(** *** setDataUnit *)
Variable pad : nat.
Variable root : nat.

(** State of the scalar engine during a run: stores of one shape, root queryable. *)
Definition live (h : heap) (st : store) : Prop := exists tc, reached h st tc /\ query_ok st tc root.

Lemma live_setpar h st p x : live h st -> is_par st p ->
  exists h', step pad (CSetPar p x) h = Some (ONone, h') /\ live h' (ScalarUser.put st p (OPar x)).
Proof.
  intros (tc & R & Q) P. destruct (@reached_answer T N h st tc (CSetPar p x) pad R P) as (o & h' & E & A & R').
  simpl in A. subst o. exists h'. split; [exact E|]. exists (touch st (CSetPar p x) tc). split; [exact R'|].
  apply shape_query with (st := st); [now apply shape_put_par|]. exact Q.
Qed.
Lemma live_set h st v x : live h st -> is_var st v -> live (SetVar v x h) (ScalarUser.put st v (OVar x)).
Proof.
  intros (tc & R & Q) P. destruct (@reached_answer T N h st tc (CSet v x) pad R P) as (o & h' & E & A & R').
  simpl in E. injection E as <- <-. exists (touch st (CSet v x) tc). split; [exact R'|].
  apply shape_query with (st := st); [now apply shape_put_var|]. exact Q.
Qed.
Lemma live_eval h st : live h st ->
  exists y h', step pad (CEval root) h = Some (ONums [y], h') /\ live h' st /\ forall W, uvalues st root W -> y = W root.
Proof.
  intros (tc & R & Q). destruct (@reached_answer T N h st tc (CEval root) pad R Q) as (o & h' & E & (y & -> & A) & R').
  exists y, h'. split; [exact E|]. split; [|exact A]. exists (touch st (CEval root) tc). split; [exact R'|]. now apply query_touched.
Qed.
Lemma live_grad h st xs : live h st -> (forall x, In x xs -> is_var st x) ->
  exists ys h', step pad (CGrad root xs) h = Some (ONums ys, h') /\ live h' st /\ length ys = length xs /\
    forall W, NumLaws N -> uvalues st root W -> udivs_ok st root W ->
    forall i x, nth_error xs i = Some x -> forall D, uderivs st root W x D -> nth_error ys i = Some (D root).
Proof.
  intros (tc & R & Q) HX.
  destruct (@reached_answer T N h st tc (CGrad root xs) pad R) as (o & h' & E & (ys & -> & Hl & A) & R').
  { split; [exact Q|]. auto. }
  exists ys, h'. split; [exact E|]. split; [|split; [exact Hl|]].
  - exists (touch st (CGrad root xs) tc). split; [exact R'|]. now apply query_touched.
  - intros W L V Hd i x Hi D HD. apply (A W L V Hd i x Hi); [|exact HD]. left. apply HX. eapply nth_error_In; eauto.
Qed.
Lemma live_val h st v x : live h st -> st v = Some (OVar x) -> c_val (cells h v) = x.
Proof.
  intros (tc & R & _) E. pose proof (@reached_inv T N h st tc R) as J. rewrite <- (i_var _ _ _ J v x E).
  apply (i_plain _ _ _ J). apply (i_none _ _ _ J). intros (l & E'). congruence.
Qed.

(** The assignments of setDataUnit(i), in order. *)
Definition row_list (D : list (mat * list nat)) (i : nat) : list (nat * T) :=
  flat_map (fun q => map (fun j => (nth j (snd q) 0, mf (fst q) i j)) (seq 0 (mc (fst q)))) D.
Definition puts (l : list (nat * T)) (st : store) : store :=
  fold_left (fun s q => ScalarUser.put s (fst q) (OPar (snd q))) l st.
Lemma puts_app l l' st : puts (l ++ l') st = puts l' (puts l st).
Proof. unfold puts. apply fold_left_app. Qed.
Lemma with_row_puts D i : forall st, with_row D i st = puts (row_list D i) st.
Proof.
  induction D as [|[X ps] D IH]; intros st; [reflexivity|].
  unfold with_row, row_list in *. cbn [fold_left flat_map]. rewrite puts_app, IH. f_equal.
  cbn [fst snd]. unfold put_row. generalize (seq 0 (mc X)). intros l. revert st.
  induction l as [|j l IHl]; intros st; [reflexivity|]. cbn [map fold_left puts]. unfold puts in *. cbn [fold_left fst snd]. apply IHl.
Qed.
Definition row_pars (D : list (mat * list nat)) : list nat :=
  flat_map (fun q => map (fun j => nth j (snd q) 0) (seq 0 (mc (fst q)))) D.
Lemma row_list_pars D i : map fst (row_list D i) = row_pars D.
Proof.
  unfold row_list, row_pars. induction D as [|q D IH]; [reflexivity|]. cbn [flat_map]. rewrite map_app, IH. f_equal.
  rewrite map_map. reflexivity.
Qed.
Lemma puts_agree l : forall st st' v, (st' v = st v \/ In v (map fst l)) -> puts l st' v = puts l st v.
Proof.
  induction l as [|[p x] l IH]; intros st st' v H; [destruct H as [H|[]]; exact H|].
  cbn [puts fold_left]. apply IH. cbn [fst snd map] in *. unfold ScalarUser.put, at_.
  destruct (Nat.eqb_spec v p) as [->|Ne]; [now left|]. destruct H as [H|[H|H]]; auto. congruence.
Qed.
Lemma puts_off l : forall st v, ~ In v (map fst l) -> puts l st v = st v.
Proof.
  induction l as [|[p x] l IH]; intros st v H; [reflexivity|]. cbn [puts fold_left map fst snd] in *.
  transitivity (ScalarUser.put st p (OPar x) v); [apply IH; auto with datatypes|].
  unfold ScalarUser.put, at_. destruct (Nat.eqb_spec v p) as [->|Ne]; auto. exfalso. apply H. now left.
Qed.
Lemma puts_shape l : forall st, (forall p, In p (map fst l) -> is_par st p) -> same_shape st (puts l st).
Proof.
  induction l as [|[p x] l IH]; intros st H; [apply shape_refl|]. cbn [puts fold_left map fst snd] in *.
  pose proof (@shape_put_par st p x (H p (or_introl eq_refl))) as S.
  eapply shape_trans; [exact S|]. apply IH. intros q Hq. eapply shape_is_par; [exact S|]. auto with datatypes.
Qed.

Lemma at2_holds m X v i j : holds m X v -> i < mr v -> j < mc v -> at2 X i j m = Ok (mf v i j, m).
Proof.
  intros ((k & sp & b & G & Lb) & E) Hi Hj.
  eapply at2_ok; [exact G|exact Hi|exact Hj|]. cbn [o_buf o_cols].
  rewrite <- (E i j Hi Hj). unfold val. rewrite G. cbn [o_buf o_cols]. apply nth_error_def. rewrite Lb. now apply idx_bound.
Qed.

Lemma set_row_ok m X v ps i : holds m X v -> i < mr v -> mc v <= length ps ->
  forall js h st, (forall j, In j js -> j < mc v) -> (forall j, In j js -> is_par st (nth j ps 0)) -> live h st ->
  exists h', set_row pad X ps i js h m = Ok (h', m) /\
    live h' (puts (map (fun j => (nth j ps 0, mf v i j)) js) st).
Proof.
  intros HX Hi Hl. induction js as [|j js IH]; intros h st Hj Hp HL.
  - exists h. auto.
  - destruct (@live_setpar h st (nth j ps 0) (mf v i j) HL) as (h1 & E1 & L1); [auto with datatypes|].
    destruct (IH h1 (ScalarUser.put st (nth j ps 0) (OPar (mf v i j)))) as (h2 & E2 & L2); auto with datatypes.
    { intros j' Hj'. eapply shape_is_par; [apply shape_put_par; auto with datatypes|auto with datatypes]. }
    exists h2. split; [|exact L2]. cbn [set_row]. unfold bind. rewrite (at2_holds HX Hi) by auto with datatypes.
    rewrite (nth_error_nth' ps 0) by (specialize (Hj j (or_introl eq_refl)); lia).
    unfold do1, lift, ret at 1. rewrite E1. unfold ret at 1. exact E2.
Qed.

(** Code and specification name the same data. *)
Definition data_ok (m : mem) (dat : list (ptr * list nat)) (D : list (mat * list nat)) (size : nat) : Prop :=
  Forall2 (fun p q => holds m (fst p) (fst q) /\ snd p = snd q /\ size <= mr (fst q) /\ mc (fst q) <= length (snd q)) dat D.

Lemma set_data_ok m size i : i < size -> forall dat D h st, data_ok m dat D size ->
  (forall p, In p (row_pars D) -> is_par st p) -> live h st ->
  exists h', set_data pad dat i h m = Ok (h', m) /\ live h' (with_row D i st).
Proof.
  intros Hi dat D h st HD. rewrite with_row_puts. revert h st.
  induction HD as [|[X ps] [v ps'] dat D (HX & Eq & Sz & Ln) HD IH]; intros h st Hp HL.
  - exists h. auto.
  - cbn [fst snd] in *. subst ps'.
    destruct (@set_row_ok m X v ps i HX ltac:(lia) Ln (seq 0 (mc v)) h st) as (h1 & E1 & L1); auto.
    { intros j Hj. apply in_seq in Hj. lia. }
    { intros j Hj. apply Hp. unfold row_pars. cbn [flat_map fst snd]. apply in_or_app. left. apply in_map_iff. eauto. }
    destruct (IH h1 (puts (map (fun j => (nth j ps 0, mf v i j)) (seq 0 (mc v))) st)) as (h2 & E2 & L2); auto.
    { intros p Hin. eapply shape_is_par; [apply puts_shape|].
      - intros q Hq. rewrite map_map in Hq. apply Hp. unfold row_pars. cbn [flat_map fst snd]. apply in_or_app. left. exact Hq.
      - apply Hp. unfold row_pars. cbn [flat_map]. apply in_or_app. now right. }
    exists h2. split.
    + cbn [set_data]. destruct HX as ((k & sp & b & G & Lb) & _). unfold bind, deref. rewrite G. cbn [o_cols]. rewrite E1. exact E2.
    + unfold row_list. cbn [flat_map fst snd]. rewrite puts_app. exact L2.
Qed.

(** *** The oracle *)
Hypothesis L : NumLaws N.
Variable dat : list (ptr * list nat).
Variable D : list (mat * list nat).
Variable xs : list nat.
Variable size : nat.
Hypothesis Hxs : 0 < length xs.

Lemma slots_ext m (a a' : arr) X : (forall k, a k = a' k) -> slots m a X -> slots m a' X.
Proof.
  intros E [A1 A2 A3 A4]. constructor; auto.
  - intros k p. rewrite <- E. apply A2.
  - intros k k' p. rewrite <- !E. apply A3.
Qed.

Record SI (st : store) (h : heap) (a : arr) (m : mem) : Prop := {
  si_live : exists st', live h st' /\ same_shape st st' /\ (forall v, ~ In v (row_pars D) -> st' v = st v);
  si_slots : slots m a (fun _ => False);
  si_data : data_ok m dat D size;
  si_apart : forall p k, In p (map fst dat) -> a k <> Some p;
  si_jac : forall j, a GJ = Some j -> exists w, holds m j w /\ mr w = 1 /\ mc w = length xs
}.

Lemma data_keep m m' : (forall p v, In p (map fst dat) -> holds m p v -> holds m' p v) -> data_ok m dat D size -> data_ok m' dat D size.
Proof.
  unfold data_ok. intros K H. revert K. induction H as [|x y l l' (A & B) H IH]; intros K; constructor.
  - split; [|exact B]. apply K; [now left|exact A].
  - apply IH. intros p v Hp. apply K. now right.
Qed.

Lemma si_frame st h a m k p v m' : SI st h a m -> wrote m (a k) p v m' ->
  (k = GJ -> mr v = 1 /\ mc v = length xs) -> SI st h a.[k := p] m'.
Proof.
  intros [A1 A2 A3 A4 A5] W Hk. destruct (slot_write gk_eq A2 W) as (S' & Hp & F & _).
  assert (DL : forall q, In q (map fst dat) -> q < length (objs m)).
  { intros q Hq. apply in_map_iff in Hq as ((q' & ps) & <- & Hq). apply In_nth_error in Hq as (n & Hn).
    assert (exists y, holds m q' y) as (y & Hy); [|exact (holds_lt Hy)].
    clear -A3 Hn. revert n Hn. induction A3 as [|x y l l' (X & _) A3 IH]; intros n Hn; [destruct n; discriminate|].
    destruct n; [injection Hn as ->; eauto|eauto]. }
  constructor; auto.
  - eapply data_keep; [|exact A3]. intros q w Hq Hw. apply F; auto.
  - intros q k' Hq. destruct (gk_eq k' k) as [->|Ne].
    + rewrite sset_same. intros [= <-]. destruct (wr_where W) as [X|X]; [exact (A4 _ _ Hq X)|]. apply DL in Hq. lia.
    + rewrite sset_other by auto. auto.
  - intros j. destruct (gk_eq GJ k) as [<-|Ne].
    + rewrite sset_same. intros [= <-]. exists v. split; auto.
    + rewrite sset_other by auto. intros E. destruct (A5 j E) as (w & Hw & R). exists w. split; auto.
      apply F; auto. intros X. apply Ne. exact (sl_inj A2 E X).
Qed.

Lemma si_zero st h a m k p m' : SI st h a m -> k <> GJ -> a k = Some p -> evolves (fun q => a k = Some q) m m' -> SI st h a m'.
Proof.
  intros [A1 A2 A3 A4 A5] Hk E Ev.
  assert (HH : forall q w, a k <> Some q -> holds m q w -> holds m' q w) by (intros q w Hq Hw; eapply holds_evolves; eauto).
  constructor; auto.
  - constructor; [apply Ev| |exact (sl_inj A2)|intros q []].
    intros k' q E'. destruct (sl_slot A2 E') as ((o & Ho) & Ns & _). pose proof (get_lt Ho) as Lt.
    split; [|split; [now rewrite (ev_special Ev Lt)|auto]].
    apply (ev_live Ev). eauto.
  - eapply data_keep; [|exact A3]. intros q w Hq Hw. apply HH; auto.
  - intros j Ej. destruct (A5 j Ej) as (w & Hw & R). exists w. split; auto. apply HH; auto. intros X. apply Hk. exact (sl_inj A2 X Ej).
Qed.

Lemma new_wrote m R C : tame m -> 0 < R -> 0 < C ->
  exists p m', new_mat CPU R C None m = Ok (p, m') /\ wrote m None p (mzeros R C) m'.
Proof.
  intros Tm HR HC. pose proof Tm as (Gm & Sp & Ro).
  destruct (new_mat_ok CPU None Gm HR HC) as (m' & E & Gn & Fr & Es & G' & Nx & Ln).
  exists (length (objs m)), m'. split; [exact E|].
  destruct (@pool_ok T N None CPU None R C m Gm I HR HC) as (p' & m1 & Ep & P).
  simpl in Ep. rewrite E in Ep. injection Ep as <- <-.
  assert (St : stored m (upd m' (length (objs m)) (repeat n0 (R * C))) None (length (objs m)) R C (fun _ _ => n0)).
  { eapply stored_intro; [exact P|exact Gn|reflexivity|reflexivity|..].
    - cbn [o_buf]. apply length_new_buf.
    - cbn [o_buf]. now rewrite length_new_buf, repeat_length.
    - intros i j Hi Hj. rewrite (nth_error_nth' _ n0) by (rewrite repeat_length; now apply idx_bound). f_equal. apply nth_repeat. }
  assert (U : upd m' (length (objs m)) (repeat n0 (R * C)) = m').
  { pose proof (@upd_id T m' (length (objs m)) _ Gn) as U. cbn [o_buf new_buf] in U. exact U. }
  rewrite U in St. apply stored_wrote; auto; [simpl; auto|]. exact (pres_new Sp E).
Qed.

(** A matrix the object owns: created once. *)
Lemma ensure_ok st h a m k R C : SI st h a m -> 0 < R -> 0 < C -> (k = GJ -> R = 1 /\ C = length xs) ->
  (forall p, a k = Some p -> exists w, holds m p w /\ mr w = R /\ mc w = C) ->
  exists a' m' p w, ensure k R C a m = Ok (a', m') /\ SI st h a' m' /\ a' k = Some p /\ holds m' p w /\ mr w = R /\ mc w = C /\
    (forall k', k' <> k -> a' k' = a k') /\ (forall q v, holds m q v -> holds m' q v).
Proof.
  intros HI HR HC Hk Hp. unfold ensure. destruct (a k) as [p|] eqn:E.
  - destruct (Hp p eq_refl) as (w & Hw & R1 & R2). exists a, m, p, w. unfold ret. auto 10.
  - destruct (@new_wrote m R C (sl_tame (si_slots HI)) HR HC) as (p & m' & En & W).
    exists (a.[k := p]), m', p, (mzeros R C). unfold bind. rewrite En. split; [reflexivity|].
    rewrite <- E in W. pose proof (si_frame HI W) as HI'. destruct (slot_write gk_eq (si_slots HI) W) as (_ & Hp' & F & _).
    split; [apply HI'; exact Hk|]. split; [apply sset_same|]. split; [exact Hp'|]. split; [reflexivity|]. split; [reflexivity|].
    split; [intros k' Ne; now apply sset_other|]. intros q v Hq. apply F; [now rewrite E|exact Hq].
Qed.

(** Fixed values of the variables: residuals and gradients of every data row. *)
Section Fixed.
Variable st : store.
Hypothesis Hpar : forall p, In p (row_pars D) -> is_par st p.
Hypothesis Hvar : forall x, In x xs -> is_var st x.
Hypothesis Hdiv : forall i W, i < size -> uvalues (with_row D i st) root W -> udivs_ok (with_row D i st) root W.
Hypothesis Hstrat : ustrat st root.
Variable J : nat -> mat.
Variable r : nat -> T + mat.
Hypothesis RS : residual_of D root xs size st J r.

Lemma row_strat i : ustrat (with_row D i st) root.
Proof.
  destruct Hstrat as (rk & S). exists rk.
  assert (Sh : same_shape st (with_row D i st)) by (rewrite with_row_puts; apply puts_shape; rewrite row_list_pars; exact Hpar).
  pose proof (shape_sym Sh). intros v w Hv Hd. apply S; [eapply shape_reach; eauto|eapply shape_dep; eauto].
Qed.
Lemma row_seq i st' : (forall v, ~ In v (row_pars D) -> st' v = st v) -> seq_ (with_row D i st') (with_row D i st).
Proof.
  intros H v. rewrite !with_row_puts. apply puts_agree. rewrite row_list_pars.
  destruct (in_dec Nat.eq_dec v (row_pars D)); auto.
Qed.
Lemma seq_divs (s s' : store) W : seq_ s s' -> udivs_ok s root W -> udivs_ok s' root W.
Proof. intros H V v l Hv E. apply (V v l); [eapply shape_reach; [|eauto]; now apply shape_sym, seq_shape|]. now rewrite (H v). Qed.

Theorem scalar_oracle_right : oracle_right (scalar_oracle pad dat root xs) size (length xs) (SI st) J r.
Proof.
  constructor.
  - intros h a m HI. exact (si_slots HI).
  - intros h a m k p v m' HI Hk W. apply (si_frame HI W). congruence.
  - intros h a m k p m' HI Hk E Ev. eapply si_zero; eauto.
  - intros i h a m Hi HI. destruct (si_live HI) as (st' & HL & Sh & Ag).
    destruct (@set_data_ok m size i Hi dat D h st' (si_data HI)) as (h1 & E1 & L1); auto.
    { intros p Hp. eapply shape_is_par; [exact Sh|auto]. }
    set (st1 := with_row D i st') in *.
    pose proof (@row_seq i st' Ag) as Sq. fold st1 in Sq.
    destruct (uvalues_exist _ _ (@row_strat i)) as (W & V).
    assert (V1 : uvalues st1 root W) by (eapply seq_values; [apply seq_sym; exact Sq|exact V]).
    destruct (@live_eval h1 st1 L1) as (y & h2 & E2 & L2 & A2).
    assert (Sh1 : same_shape st st1).
    { eapply shape_trans; [exact Sh|]. unfold st1. rewrite with_row_puts. apply puts_shape. rewrite row_list_pars.
      intros p Hp. eapply shape_is_par; [exact Sh|auto]. }
    destruct (@live_grad h2 st1 xs L2) as (ys & h3 & E3 & L3 & Ln & A3).
    { intros x Hx. eapply shape_is_var; [exact Sh1|auto]. }
    assert (I2 : SI st h2 a m).
    { destruct HI as [B1 B2 B3 B4 B5]. constructor; auto. exists st1. split; [exact L2|]. split; [exact Sh1|].
      intros v Hv. unfold st1. rewrite with_row_puts, puts_off by now rewrite row_list_pars. auto. }
    destruct (@ensure_ok st h2 a m GJ 1 (length xs) I2) as (a1 & m1 & j & w & E4 & I4 & Ej & Hj & R1 & R2 & Ka & Km); auto.
    { exact (si_jac HI). }
    pose proof (si_slots I4) as S4.
    destruct (@assign_holds T N m1 j w (fun _ _ k => nth k ys n0) (sl_tame S4) Hj (proj1 (proj2 (sl_slot S4 Ej)))) as (m2 & E5 & W5).
    pose proof W5 as W5'. rewrite <- Ej in W5' at 1.
    pose proof (si_frame I4 W5') as I5. specialize (I5 (fun _ => conj R1 R2)).
    destruct (slot_write gk_eq S4 W5') as (_ & Hj2 & F5 & _).
    exists (RNum y), j, h3, a1, m2.
    assert (E : scalar_oracle pad dat root xs i h a m = Ok ((RNum y, j, (h3, a1)), m2)).
    { unfold scalar_oracle. unfold bind at 1. rewrite E1. unfold bind at 1, do1, lift. rewrite E2. unfold ret at 1. cbn [fst snd].
      unfold bind at 1. rewrite E4. unfold bind at 1. rewrite E3. unfold ret at 1. cbn [fst snd]. rewrite Ej.
      unfold bind. rewrite E5. reflexivity. }
    split; [exact E|]. split; [|split; [|split; [|split; [|split; [|split]]]]].
    + destruct I5 as [B1 B2 B3 B4 B5]. constructor.
      * exists st1. split; [exact L3|]. split; [exact Sh1|]. intros v Hv. unfold st1. rewrite with_row_puts, puts_off by now rewrite row_list_pars. auto.
      * eapply slots_ext; [|exact B2]. intros k. unfold sset. destruct (gk_eq k GJ) as [->|]; auto.
      * exact B3.
      * intros p k Hp X. apply (B4 p k Hp). unfold sset. destruct (gk_eq k GJ) as [->|]; congruence.
      * intros q Hq. apply B5. rewrite Ej in Hq. injection Hq as <-. apply sset_same.
    + exact Ka.
    + intros k p v Hk Ek Hp. apply F5; [|apply Km; exact Hp]. rewrite <- (Ka k Hk) in Ek. intros X. apply Hk. exact (sl_inj S4 Ek X).
    + eapply holds_meq; [exact Hj2|]. split; [simpl; rewrite R1; symmetry; apply (rs_rows RS)|]. split; [simpl; rewrite R2; symmetry; apply (rs_cols RS)|].
      simpl. intros i' k Hi' Hk. rewrite R1 in Hi'. replace i' with 0 by lia. rewrite R2 in Hk.
      destruct (nth_error xs k) as [x|] eqn:Ex; [|apply nth_error_None in Ex; lia].
      destruct (uderivs_exist (with_row D i st) root W x (@row_strat i)) as (G & HG).
      rewrite (@rs_grad _ _ _ _ _ _ _ _ _ RS i W k x G Hi V Ex HG).
      apply nth_error_nth. refine (A3 W L V1 _ k x Ex G _); [eapply seq_divs; [apply seq_sym; exact Sq|auto]|].
      eapply seq_derivs; [apply seq_sym; exact Sq|exact HG].
    + intros k Hk X. apply Hk. exact (sl_inj S4 X Ej).
    + apply (rs_cols RS).
    + rewrite (@rs_val _ _ _ _ _ _ _ _ _ RS i W Hi V). split; [auto|apply (rs_rows RS)].
Qed.
End Fixed.

(** Residual and gradient exist. *)
Lemma choose (A : Type) (d : A) (P : nat -> A -> Prop) n : (forall i, i < n -> exists y, P i y) -> exists f, forall i, i < n -> P i (f i).
Proof.
  induction n as [|n IH]; intros H; [exists (fun _ => d); lia|].
  destruct IH as (f & Hf); [auto|]. destruct (H n) as (y & Hy); [lia|].
  exists (fun i => if i =? n then y else f i). intros i Hi. destruct (Nat.eqb_spec i n) as [->|Ne]; [exact Hy|]. apply Hf. lia.
Qed.
Lemma residual_exists st : (forall p, In p (row_pars D) -> is_par st p) -> ustrat st root ->
  exists J r, residual_of D root xs size st J r.
Proof.
  intros Hp Hs. pose proof (@row_strat st Hp Hs) as RS.
  destruct (@choose (nat -> T) (fun _ => n0) (fun i W => uvalues (with_row D i st) root W) size) as (W & HW).
  { intros i _. apply uvalues_exist, RS. }
  destruct (@choose (nat -> nat -> T) (fun _ _ => n0) (fun i G => forall k x, nth_error xs k = Some x -> uderivs (with_row D i st) root (W i) x (G k)) size) as (G & HG).
  { intros i Hi. destruct (@choose (nat -> T) (fun _ => n0) (fun k g => forall x, nth_error xs k = Some x -> uderivs (with_row D i st) root (W i) x g) (length xs)) as (G & HG).
    - intros k Hk. destruct (nth_error xs k) as [x|] eqn:E; [|apply nth_error_None in E; lia].
      destruct (uderivs_exist (with_row D i st) root (W i) x (RS i)) as (g & Hg). exists g. intros x' [= <-]. exact Hg.
    - exists G. intros k x E. apply HG; [apply nth_error_Some; congruence|exact E]. }
  exists (fun i => Mat 1 (length xs) (fun _ k => G i k root)), (fun i => inl (W i root)).
  constructor; auto.
  - intros i W' Hi V. f_equal. apply (uvalues_unique (with_row D i st) root (W i) W' (RS i)); auto. constructor.
  - intros i W' k x g Hi V E Hg. simpl.
    apply (uderivs_unique (with_row D i st) root (W i) x (G i k) g (RS i)); [auto| |constructor].
    eapply uderivs_same; [|exact Hg]. intros v Hv. apply (uvalues_unique (with_row D i st) root W' (W i) (RS i)); auto.
Qed.

(** *** The update *)
Lemma upd_ok : forall ys k d h st', live h st' -> NoDup ys -> (forall x, In x ys -> is_var st' x) ->
  exists st2, live (upd_vars ys k d h) st2 /\ same_shape st' st2 /\
    (forall j x c, nth_error ys j = Some x -> st' x = Some (OVar c) -> st2 x = Some (OVar (nsub c (d (k + j)%nat)))) /\
    (forall v, ~ In v ys -> st2 v = st' v).
Proof.
  induction ys as [|y ys IH]; intros k d h st' HL Nd Hv.
  - exists st'. split; [exact HL|]. split; [apply shape_refl|]. split; [intros [|j]; discriminate|auto].
  - inversion Nd as [|? ? Ny Nd']; subst. destruct (Hv y (or_introl eq_refl)) as (c & Ec).
    pose proof (live_val HL Ec) as Ev.
    pose proof (@live_set h st' y (nsub c (d k)) HL (Hv y (or_introl eq_refl))) as L1.
    pose proof (@shape_put_var st' y (nsub c (d k)) (Hv y (or_introl eq_refl))) as Sh1.
    destruct (IH (Datatypes.S k) d _ _ L1 Nd') as (st2 & L2 & Sh2 & M1 & M2).
    { intros x Hx. eapply shape_is_var; [exact Sh1|auto with datatypes]. }
    exists st2. cbn [upd_vars]. rewrite Ev. split; [exact L2|]. split; [eapply shape_trans; eauto|]. split.
    + intros [|j] x c' E Ex.
      * injection E as <-. rewrite Ec in Ex. injection Ex as <-. rewrite (M2 y Ny). unfold ScalarUser.put, at_. now rewrite Nat.eqb_refl, Nat.add_0_r.
      * cbn [nth_error] in E. replace (k + Datatypes.S j)%nat with (Datatypes.S k + j)%nat by lia. apply M1; [exact E|].
        unfold ScalarUser.put, at_. destruct (Nat.eqb_spec x y) as [->|Ne]; [|exact Ex]. exfalso. apply Ny. eapply nth_error_In; eauto.
    + intros v Hn. rewrite M2 by auto with datatypes. unfold ScalarUser.put, at_. destruct (Nat.eqb_spec v y) as [->|Ne]; auto. exfalso. apply Hn. now left.
Qed.

(** *** solve() *)
Variable B : backend (T := T).
Hypothesis BV : value_ok B.
Hypothesis BA : accum_ok B.
Variable llt : nat -> (nat -> nat -> T) -> (nat -> T) -> nat -> T.

(** What every store of the given shape must satisfy. *)
Definition problem (st : store) : Prop :=
  (forall p, In p (row_pars D) -> is_par st p) /\ (forall x, In x xs -> is_var st x) /\ NoDup xs /\ ustrat st root /\
  forall st' i W, same_shape st st' -> i < size -> uvalues (with_row D i st') root W -> udivs_ok (with_row D i st') root W.

Lemma problem_shape st st' : same_shape st st' -> problem st -> problem st'.
Proof.
  intros Sh (P1 & P2 & P3 & (rk & S) & P5). pose proof (shape_sym Sh) as Sh'. split; [|split; [|split; [|split]]]; auto.
  - intros p Hp. eapply shape_is_par; eauto.
  - intros x Hx. eapply shape_is_var; eauto.
  - exists rk. intros v w Hv Hd. apply S; [eapply shape_reach; eauto|eapply shape_dep; eauto].
  - intros s i W Hs. apply P5. eapply shape_trans; eauto.
Qed.

(** The run ends in memory m with engine state h and values st of the client's objects. *)
Definition ends (st : store) (h : heap) : Prop :=
  exists st', live h st' /\ (forall v, ~ In v (row_pars D) -> st' v = st v).

Lemma var_not_par st x : problem st -> In x xs -> ~ In x (row_pars D).
Proof. intros (P1 & P2 & _) Hx Hp. destruct (P2 x Hx) as (c & E). destruct (P1 x Hp) as (c' & E'). congruence. Qed.

Lemma iters_ok : forall n st h a m A Bp Dp v w u, problem st -> SI st h a m ->
  a GA = Some A -> a GB = Some Bp -> a GD = Some Dp ->
  holds m A v -> mr v = length xs -> mc v = length xs -> holds m Bp w -> mr w = length xs -> mc w = 1 ->
  holds m Dp u -> mr u = length xs -> mc u = 1 ->
  exists h' a' m' st', iters B (scalar_oracle pad dat root xs) llt (scalar_update xs) n size (length xs) (h, a) m = Ok ((h', a'), m') /\
    gn_path D root xs size llt n st st' /\ SI st' h' a' m' /\ same_shape st st'.
Proof.
  induction n as [|n IH]; intros st h a m A Bp Dp v w u P HI EA EB ED HA A1 A2 HB B1 B2 HD D1 D2.
  - exists h, a, m, st. split; [reflexivity|]. split; [constructor|]. split; [exact HI|apply shape_refl].
  - pose proof P as (P1 & P2 & P3 & P4 & P5).
    destruct (@residual_exists st P1 P4) as (J & r & RS).
    pose proof (@scalar_oracle_right st P1 P2 (fun i W => P5 st i W (shape_refl st)) P4 J r RS) as OR.
    destruct (@iter_ok T N B BV BA _ _ size (length xs) Hxs _ J r OR llt (scalar_update xs) h a m A Bp Dp v w u)
      as (h1 & a1 & m1 & m2 & gA & gB & d & _ & E & XA & XB & Xd & I2 & EA2 & EB2 & ED2 & HA2 & HB2 & HD2); auto.
    destruct (si_live I2) as (s1 & L1 & Sh1 & Ag1).
    destruct (@upd_ok xs 0 d h1 s1 L1 P3) as (s2 & L2 & Sh2 & M1 & M2).
    { intros x Hx. eapply shape_is_var; [exact Sh1|auto]. }
    (* the client's view: parameters keep their client values *)
    set (st1 := fun z => if in_dec Nat.eq_dec z (row_pars D) then st z else s2 z).
    assert (Mv : moves xs d st st1).
    { split.
      - intros k x c Ek Ex. assert (Hx : In x xs) by (eapply nth_error_In; eauto).
        pose proof (var_not_par P Hx) as Np. unfold st1. destruct (in_dec Nat.eq_dec x (row_pars D)); [contradiction|].
        apply (M1 k x c Ek). rewrite Ag1; auto.
      - intros z Hz. unfold st1. destruct (in_dec Nat.eq_dec z (row_pars D)); auto. rewrite M2 by auto. auto. }
    assert (Sh3 : same_shape st st1).
    { intros z. unfold st1. destruct (in_dec Nat.eq_dec z (row_pars D)); [destruct (st z) as [[]|]; auto|].
      exact (shape_trans Sh1 Sh2 z). }
    assert (I3 : SI st1 (scalar_update xs (length xs) d h1) a1 m2).
    { destruct I2 as [C1 C2 C3 C4 C5]. constructor; auto. exists s2. split; [exact L2|]. split.
      - eapply shape_trans; [apply shape_sym; exact Sh3|]. eapply shape_trans; [exact Sh1|exact Sh2].
      - intros z Hz. unfold st1. destruct (in_dec Nat.eq_dec z (row_pars D)); [contradiction|reflexivity]. }
    destruct (IH st1 _ a1 m2 A Bp Dp _ _ _ (problem_shape Sh3 P) I3 EA2 EB2 ED2 HA2 eq_refl eq_refl HB2 eq_refl eq_refl HD2 eq_refl eq_refl)
      as (h' & a' & m' & st' & E' & Pa & I' & Sh').
    exists h', a', m', st'. split; [cbn [iters]; unfold bind; rewrite E; exact E'|].
    split; [econstructor; eauto|]. split; [exact I'|]. eapply shape_trans; eauto.
Qed.

(** solve(): the object may be new or have been used before. *)
Theorem solve_ok max_iter st h a m : problem st -> SI st h a m ->
  (forall p, a GA = Some p -> exists w, holds m p w /\ mr w = length xs /\ mc w = length xs) ->
  (forall p, a GB = Some p -> exists w, holds m p w /\ mr w = length xs /\ mc w = 1) ->
  (forall p, a GD = Some p -> exists w, holds m p w /\ mr w = length xs /\ mc w = 1) ->
  exists h' a' m' st', solve B (scalar_oracle pad dat root xs) llt (scalar_update xs) max_iter size (length xs) (h, a) m = Ok ((h', a'), m') /\
    gn_path D root xs size llt max_iter st st' /\ ends st' h' /\ same_shape st st'.
Proof.
  intros P HI HA HB HD.
  destruct (@ensure_ok st h a m GD (length xs) 1 HI) as (a1 & m1 & pD & wD & E1 & I1 & K1 & H1 & R1 & C1 & O1 & F1); auto; [discriminate|].
  destruct (@ensure_ok st h a1 m1 GA (length xs) (length xs) I1) as (a2 & m2 & pA & wA & E2 & I2 & K2 & H2 & R2 & C2 & O2 & F2); auto; [discriminate| |].
  { intros p. rewrite O1 by discriminate. intros E. destruct (HA p E) as (w & Hw & R). exists w. split; auto. }
  destruct (@ensure_ok st h a2 m2 GB (length xs) 1 I2) as (a3 & m3 & pB & wB & E3 & I3 & K3 & H3 & R3 & C3 & O3 & F3); auto; [discriminate| |].
  { intros p. rewrite O2, O1 by discriminate. intros E. destruct (HB p E) as (w & Hw & R). exists w. split; auto. }
  destruct (@iters_ok max_iter st h a3 m3 pA pB pD wA wB wD P I3) as (h' & a' & m' & st' & E & Pa & I' & Sh); auto.
  - rewrite O3 by discriminate. exact K2.
  - rewrite O3, O2 by discriminate. exact K1.
  - exists h', a', m', st'. split; [unfold solve; unfold bind at 1; cbn [fst snd]; rewrite E1; unfold bind at 1; rewrite E2; unfold bind at 1; rewrite E3; exact E|].
    split; [exact Pa|]. split; [|exact Sh]. destruct (si_live I') as (s & Ls & _ & Ag). exists s. auto.
Qed.
End Proofs.
