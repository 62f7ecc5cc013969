(** * The Gauss-Newton example

    Model of example/GaussNewton/src/GaussNewton.cpp on top of the matrix kernels, for any
    oracle (Oracle.hpp), and of OracleScalar.cpp on top of the scalar engine.

    Simplifications: Eigen's LLT factorisation and solve (GaussNewton.cpp:207-210) is a
    function argument; writing the result into m_delX is one assignment of all entries;
    the EXECUTION_PAR loop of the update visits distinct variables, taken in order. *)

From Coq Require Import List Arith Bool Lia.
From Verif Require Import Num MatMem Kernels KernelFacts KernelProofs KernelBlocks Registry KernelStep Backend Slots ConvProofs MatLeaf MatInplace.
Import ListNotations.
Set Implicit Arguments.
Unset Strict Implicit.

(** The matrices a GaussNewton object owns (GaussNewton.hpp:42-52), and the scalar oracle's
    m_jacobian (OracleScalar.hpp). *)
Inductive gk : Set := GA | GA1 | GA2 | GB | GT | GD | GJ.
Definition gk_eq (a b : gk) : {a = b} + {a <> b}.
Proof. decide equality. Defined.

Section Model.
Context {T : Type} {N : Num T}.
Notation mem := (mem T).
Notation M := (M T).
Notation "x <- c ;; k" := (bind c (fun x => k)) (at level 61, c at next level, right associativity).
Notation "c ;;; k" := (bind c (fun _ => k)) (at level 61, right associativity).
Notation arr := (gk -> option ptr).
Notation "a .[ k := p ]" := (sset gk_eq a k p) (at level 1, format "a .[ k := p ]").
Variable B : backend (T := T).

(** What eval() / evalMat() return (OracleScalar.cpp:29-31, OracleMatrix.cpp:36-38). *)
Inductive resid : Type := RNum (c : T) | RMat (p : ptr).

(** An oracle over its own state H: setDataUnit(i), eval, jacobian. *)
Definition oracle (H : Type) : Type := nat -> H -> arr -> M (resid * ptr * (H * arr)).

Variable H : Type.
Variable orc : oracle H.

(** Body of the loop of computeABScalar / computeABMatrix, GaussNewton.cpp:47-63, 72-88. *)
Definition row (i : nat) (s : H * arr) : M (H * arr) :=
  x <- orc i (fst s) (snd s) ;;
  (let '(r, j, (h, a0)) := x in
   t <- b_tr B j (a0 GA1) ;;
   let a1 := a0.[GA1 := t] in
   u <- b_mul B t j (a1 GA2) ;;
   let a2 := a1.[GA2 := u] in
   match a2 GA, a2 GB with
   | Some A, Some Bp =>
       A' <- b_add B A u (Some A) ;;
       let a3 := a2.[GA := A'] in
       w <- match r with RNum c => b_smul B c t (a3 GT) | RMat p => b_mul B t p (a3 GT) end ;;
       let a4 := a3.[GT := w] in
       B' <- b_add B Bp w (Some Bp) ;;
       ret (h, a4.[GB := B'])
   | _, _ => fun _ => Undefined
   end).

Fixpoint rows (l : list nat) (s : H * arr) : M (H * arr) :=
  match l with
  | [] => ret s
  | i :: l => s1 <- row i s ;; rows l s1
  end.

(** computeAB, GaussNewton.cpp:42-64, 67-89. *)
Definition computeAB (size : nat) (s : H * arr) : M (H * arr) :=
  reset_zero (snd s GA) ;;; reset_zero (snd s GB) ;;; rows (seq 0 size) s.

(** One matrix, created when the pointer is null (GaussNewton.cpp:92-101, 183-185). *)
Definition ensure (k : gk) (R C : nat) (a : arr) : M arr :=
  match a k with
  | Some _ => ret a
  | None => p <- new_mat CPU R C None ;; ret a.[k := p]
  end.

(** llt.solve(eigB) with the values of A and B, and the update of the variables. *)
Variable llt : nat -> (nat -> nat -> T) -> (nat -> T) -> nat -> T.
Variable update : nat -> (nat -> T) -> H -> H.

(** One iteration, GaussNewton.cpp:203-214. *)
Definition iter (size dim : nat) (s : H * arr) : M (H * arr) :=
  s1 <- computeAB size s ;;
  match snd s1 GA, snd s1 GB, snd s1 GD with
  | Some A, Some Bp, Some D =>
      assign D (fun m i _ => llt dim (val m A) (fun k => val m Bp k 0) i) ;;;
      (fun m => Ok ((update dim (fun k => val m D k 0) (fst s1), snd s1), m))
  | _, _, _ => fun _ => Undefined
  end.

Fixpoint iters (n size dim : nat) (s : H * arr) : M (H * arr) :=
  match n with 0 => ret s | Datatypes.S n => s1 <- iter size dim s ;; iters n size dim s1 end.

(** solve(), GaussNewton.cpp:177-215. *)
Definition solve (max_iter size dim : nat) (s : H * arr) : M (H * arr) :=
  a1 <- ensure GD dim 1 (snd s) ;;
  a2 <- ensure GA dim dim a1 ;;
  a3 <- ensure GB dim 1 a2 ;;
  iters max_iter size dim (fst s, a3).
End Model.

(** ** Specification *)
Section Spec.
Context {T : Type} {N : Num T}.
Notation mem := (mem T).
Notation mat := (mat T).
Notation arr := (gk -> option ptr).
Notation "a .[ k := p ]" := (sset gk_eq a k p) (at level 1, format "a .[ k := p ]").

(** Residual of one data row: a number (with a 1 x n Jacobian) or a column. *)
Definition as_column (J : mat) (r : T + mat) (k : nat) : T :=
  match r with
  | inl c => nmul c (mf J 0 k)
  | inr v => sum_n (mr J) (fun l => nmul (mf J l k) (mf v l 0))
  end.
(** Sum over the data rows of J^T J and of J^T r. *)
Definition gram (size : nat) (J : nat -> mat) (i k : nat) : T :=
  sum_n size (fun d => sum_n (mr (J d)) (fun l => nmul (mf (J d) l i) (mf (J d) l k))).
Definition grad (size : nat) (J : nat -> mat) (r : nat -> T + mat) (k : nat) : T :=
  sum_n size (fun d => as_column (J d) (r d) k).

(** The oracle, started in any state satisfying I, gives residual r_i and Jacobian J_i for
    data row i, and may change only its own matrices. *)
Record oracle_right (H : Type) (orc : oracle (T := T) H) (size dim : nat)
  (I : H -> arr -> mem -> Prop) (J : nat -> mat) (r : nat -> T + mat) : Prop := {
  or_slots : forall h a m, I h a m -> slots m a (fun _ => False);
  or_frame : forall h a m k p v m', I h a m -> k <> GJ -> wrote m (a k) p v m' -> I h a.[k := p] m';
  or_zero : forall h a m k p m', I h a m -> k <> GJ -> a k = Some p -> evolves (fun q => a k = Some q) m m' -> I h a m';
  or_run : forall i h a m, i < size -> I h a m ->
    exists x j h' a' m', orc i h a m = Ok ((x, j, (h', a')), m') /\ I h' a' m' /\
      (forall k, k <> GJ -> a' k = a k) /\
      (forall k p v, k <> GJ -> a k = Some p -> holds m p v -> holds m' p v) /\
      holds m' j (J i) /\ (forall k, k <> GJ -> a' k <> Some j) /\ mc (J i) = dim /\
      match x, r i with
      | RNum c, inl c' => c = c' /\ mr (J i) = 1
      | RMat p, inr v => holds m' p v /\ (forall k, k <> GJ -> a' k <> Some p) /\ mr v = mr (J i) /\ mc v = 1
      | _, _ => False
      end
}.
End Spec.

(** ** Proof *)
Section Proofs.
Context {T : Type} {N : Num T}.
Notation mem := (mem T).
Notation mat := (mat T).
Notation arr := (gk -> option ptr).
Notation "a .[ k := p ]" := (sset gk_eq a k p) (at level 1, format "a .[ k := p ]").
Variable B : backend (T := T).
Hypothesis BV : value_ok B.
Hypothesis BA : accum_ok B.
Variable H : Type.
Variable orc : oracle (T := T) H.
Variables size dim : nat.
Hypothesis Hdim : 0 < dim.
Variable I : H -> arr -> mem -> Prop.
Variable J : nat -> mat.
Variable r : nat -> T + mat.
Hypothesis OR : oracle_right orc size dim I J r.

Definition matA (d : nat) : mat := Mat dim dim (gram d J).
Definition matB (d : nat) : mat := Mat dim 1 (fun k _ => grad d J r k).

Lemma row_ok i h a m A Bp : i < size -> I h a m -> a GA = Some A -> a GB = Some Bp ->
  holds m A (matA i) -> holds m Bp (matB i) ->
  exists h' a' m', row B orc i (h, a) m = Ok ((h', a'), m') /\ I h' a' m' /\
    a' GA = Some A /\ a' GB = Some Bp /\ a' GD = a GD /\
    (forall p v, a GD = Some p -> holds m p v -> holds m' p v) /\
    holds m' A (matA (Datatypes.S i)) /\ holds m' Bp (matB (Datatypes.S i)).
Proof.
  intros Hi HI EA EB HA HB.
  destruct (or_run OR Hi HI) as (x & j & h' & a0 & m0 & E0 & I0 & K0 & P0 & Hj & Nj & Dj & Hr).
  unfold row, bind at 1. cbn [fst snd]. rewrite E0.
  assert (EA0 : a0 GA = Some A) by (rewrite K0; [exact EA|discriminate]).
  assert (EB0 : a0 GB = Some Bp) by (rewrite K0; [exact EB|discriminate]).
  assert (HA0 : holds m0 A (matA i)) by (apply (P0 GA); [discriminate|auto|auto]).
  assert (HB0 : holds m0 Bp (matB i)) by (apply (P0 GB); [discriminate|auto|auto]).
  assert (HD0 : forall p v, a0 GD = Some p -> holds m p v -> holds m0 p v).
  { intros p v E. apply (P0 GD); [discriminate|]. rewrite <- K0; [exact E|discriminate]. }
  pose proof (or_slots OR I0) as S0.
  (* transpose *)
  destruct (ok_tr BV (sl_tame S0) Hj (slots_ok GA1 S0) (Nj GA1 ltac:(discriminate))) as (t & m1 & E1 & W1).
  unfold bind at 1. rewrite E1. cbn zeta.
  pose proof (or_frame OR I0 (k := GA1) ltac:(discriminate) W1) as I1.
  destruct (slot_write gk_eq S0 W1) as (S1 & Ht & F1 & _).
  set (a1 := a0.[GA1 := t]) in *.
  assert (K1 : forall k, k <> GA1 -> a1 k = a0 k) by (intros k Hk; unfold a1; now rewrite sset_other).
  assert (T1 : a1 GA1 = Some t) by (unfold a1; now rewrite sset_same).
  assert (Q1 : forall k k' p, k <> k' -> a1 k = Some p -> a1 k' <> Some p).
  { intros k k' p Ne E E'. apply Ne. exact (sl_inj S1 E E'). }
  assert (Nj1 : forall k, k <> GJ -> a1 k <> Some j).
  { intros k Hk. destruct (gk_eq k GA1) as [->|Hk1]; [|rewrite K1 by auto; auto].
    rewrite T1. intros [= ->]. destruct (wr_where W1) as [X|X].
    - exact (Nj GA1 ltac:(discriminate) X).
    - pose proof (holds_lt Hj). lia. }
  assert (Hj1 : holds m1 j (J i)) by (apply F1; [apply Nj; discriminate|exact Hj]).
  (* J^T J *)
  assert (Nt : a1 GA2 <> Some t) by (apply (Q1 GA1 GA2 t); [discriminate|exact T1]).
  destruct (ok_mul BV (sl_tame S1) Ht Hj1 (slots_ok GA2 S1) Nt (Nj1 GA2 ltac:(discriminate)) eq_refl) as (u & m2 & E2 & W2).
  unfold bind at 1. rewrite E2. cbn zeta.
  pose proof (or_frame OR I1 (k := GA2) ltac:(discriminate) W2) as I2.
  destruct (slot_write gk_eq S1 W2) as (S2 & Hu & F2 & _).
  set (a2 := a1.[GA2 := u]) in *.
  assert (K2 : forall k, k <> GA2 -> a2 k = a1 k) by (intros k Hk; unfold a2; now rewrite sset_other).
  assert (Q2 : forall k k' p, k <> k' -> a2 k = Some p -> a2 k' <> Some p).
  { intros k k' p Ne E E'. apply Ne. exact (sl_inj S2 E E'). }
  assert (T2 : a2 GA2 = Some u) by (unfold a2; now rewrite sset_same).
  assert (EA2 : a2 GA = Some A) by (rewrite K2, K1 by discriminate; exact EA0).
  assert (EB2 : a2 GB = Some Bp) by (rewrite K2, K1 by discriminate; exact EB0).
  assert (ET2 : a2 GA1 = Some t) by (rewrite K2 by discriminate; exact T1).
  rewrite EA2, EB2.
  assert (HA1 : holds m1 A (matA i)) by (apply F1; [intros X; apply (Q1 GA1 GA t); [discriminate|auto|]; exfalso; assert (GA1 = GA) by (exact (sl_inj S0 X EA0)); discriminate|exact HA0]).
  assert (HB1 : holds m1 Bp (matB i)) by (apply F1; [intros X; assert (GA1 = GB) by (exact (sl_inj S0 X EB0)); discriminate|exact HB0]).
  assert (HD1 : forall p v, a0 GD = Some p -> holds m p v -> holds m1 p v).
  { intros p v E Hp. apply F1; [intros X; assert (GA1 = GD) by (exact (sl_inj S0 X E)); discriminate|eauto]. }
  assert (EA1 : a1 GA = Some A) by (rewrite K1 by discriminate; exact EA0).
  assert (EB1 : a1 GB = Some Bp) by (rewrite K1 by discriminate; exact EB0).
  assert (HA2 : holds m2 A (matA i)) by (apply F2; [intros X; assert (GA2 = GA) by (exact (sl_inj S1 X EA1)); discriminate|exact HA1]).
  assert (HB2 : holds m2 Bp (matB i)) by (apply F2; [intros X; assert (GA2 = GB) by (exact (sl_inj S1 X EB1)); discriminate|exact HB1]).
  assert (HD2 : forall p v, a2 GD = Some p -> holds m p v -> holds m2 p v).
  { intros p v E Hp. rewrite K2 in E by discriminate. apply F2; [intros X; assert (GA2 = GD) by (exact (sl_inj S1 X E)); discriminate|].
    rewrite K1 in E by discriminate. eauto. }
  assert (Ht2 : holds m2 t (mtr (J i))) by (apply F2; auto).
  (* A += *)
  destruct (BA (sl_tame S2) HA2 Hu (proj1 (proj2 (sl_slot S2 EA2)))) as (m3 & E3 & W3).
  { split; simpl; auto. }
  unfold bind at 1. rewrite E3.
  rewrite <- EA2 in W3 at 1.
  pose proof (or_frame OR I2 (k := GA) ltac:(discriminate) W3) as I3.
  destruct (slot_write gk_eq S2 W3) as (S3 & HA3 & F3 & _).
  set (a3 := a2.[GA := A]) in *.
  assert (K3 : forall k, a3 k = a2 k).
  { intros k. unfold a3. destruct (gk_eq k GA) as [->|Ne]; [now rewrite sset_same, EA2|now rewrite sset_other]. }
  assert (HB3 : holds m3 Bp (matB i)) by (apply F3; [intros X; assert (GA = GB) by (exact (sl_inj S2 X EB2)); discriminate|exact HB2]).
  assert (Ht3 : holds m3 t (mtr (J i))) by (apply F3; [intros X; assert (GA = GA1) by (exact (sl_inj S2 X ET2)); discriminate|exact Ht2]).
  assert (HD3 : forall p v, a3 GD = Some p -> holds m p v -> holds m3 p v).
  { intros p v E Hp. rewrite K3 in E. apply F3; [intros X; assert (GA = GD) by (exact (sl_inj S2 X E)); discriminate|auto]. }
  assert (ET3 : a3 GA1 = Some t) by (rewrite K3; exact ET2).
  assert (EB3 : a3 GB = Some Bp) by (rewrite K3; exact EB2).
  assert (EA3 : a3 GA = Some A) by (rewrite K3; exact EA2).
  assert (Nt3 : a3 GT <> Some t) by (intros X; assert (GT = GA1) by (exact (sl_inj S3 X ET3)); discriminate).
  (* J^T r *)
  assert (exists w m4 v, match x with RNum c => b_smul B c t (a3 GT) | RMat p => b_mul B t p (a3 GT) end m3 = Ok (w, m4) /\
            wrote m3 (a3 GT) w v m4 /\ mr v = dim /\ mc v = 1 /\ (forall k, k < dim -> mf v k 0 = as_column (J i) (r i) k)) as (w & m4 & v & E4 & W4 & V1 & V2 & V3).
  { destruct x as [c|p]; destruct (r i) as [c'|v0]; try contradiction.
    - destruct Hr as (<- & R1). destruct (ok_smul BV c (sl_tame S3) Ht3 (slots_ok GT S3) Nt3) as (w & m4 & E4 & W4).
      exists w, m4, (mmap (nmul c) (mtr (J i))). split; [exact E4|]. split; [exact W4|]. simpl. auto.
    - destruct Hr as (Hp & Np & R1 & R2).
      assert (Np1 : forall k, k <> GJ -> a1 k <> Some p).
      { intros k Hk. destruct (gk_eq k GA1) as [->|Hk1]; [|rewrite K1 by auto; auto].
        rewrite T1. intros [= ->]. destruct (wr_where W1) as [X|X]; [exact (Np GA1 ltac:(discriminate) X)|pose proof (holds_lt Hp); lia]. }
      assert (Hp1 : holds m1 p v0) by (apply F1; [apply Np; discriminate|exact Hp]).
      assert (Np2 : forall k, k <> GJ -> a2 k <> Some p).
      { intros k Hk. destruct (gk_eq k GA2) as [->|Hk1]; [|rewrite K2 by auto; auto].
        rewrite T2. intros [= ->]. destruct (wr_where W2) as [X|X]; [exact (Np1 GA2 ltac:(discriminate) X)|pose proof (holds_lt Hp1); lia]. }
      assert (Hp2 : holds m2 p v0) by (apply F2; [apply Np1; discriminate|exact Hp1]).
      assert (Hp3 : holds m3 p v0) by (apply F3; [apply Np2; discriminate|exact Hp2]).
      assert (Np3 : a3 GT <> Some p) by (rewrite K3; apply Np2; discriminate).
      destruct (ok_mul BV (sl_tame S3) Ht3 Hp3 (slots_ok GT S3) Nt3 Np3) as (w & m4 & E4 & W4); [unfold chain; simpl; auto|].
      exists w, m4, (mmul (mtr (J i)) v0). split; [exact E4|]. split; [exact W4|]. simpl. auto. }
  unfold bind at 1. rewrite E4.
  pose proof (or_frame OR I3 (k := GT) ltac:(discriminate) W4) as I4.
  destruct (slot_write gk_eq S3 W4) as (S4 & Hw & F4 & _).
  set (a4 := a3.[GT := w]) in *.
  assert (K4 : forall k, k <> GT -> a4 k = a3 k) by (intros k Hk; unfold a4; now rewrite sset_other).
  assert (EB4 : a4 GB = Some Bp) by (rewrite K4 by discriminate; exact EB3).
  assert (EA4 : a4 GA = Some A) by (rewrite K4 by discriminate; exact EA3).
  assert (HB4 : holds m4 Bp (matB i)) by (apply F4; [intros X; assert (GT = GB) by (exact (sl_inj S3 X EB3)); discriminate|exact HB3]).
  assert (HA4 : holds m4 A (madd (matA i) (mmul (mtr (J i)) (J i)))) by (apply F4; [intros X; assert (GT = GA) by (exact (sl_inj S3 X EA3)); discriminate|exact HA3]).
  assert (HD4 : forall p v, a4 GD = Some p -> holds m p v -> holds m4 p v).
  { intros p v' E Hp. rewrite K4 in E by discriminate. apply F4; [intros X; assert (GT = GD) by (exact (sl_inj S3 X E)); discriminate|auto]. }
  (* B += *)
  destruct (BA (sl_tame S4) HB4 Hw (proj1 (proj2 (sl_slot S4 EB4)))) as (m5 & E5 & W5).
  { split; simpl; auto. }
  unfold bind at 1. rewrite E5.
  rewrite <- EB4 in W5 at 1.
  pose proof (or_frame OR I4 (k := GB) ltac:(discriminate) W5) as I5.
  destruct (slot_write gk_eq S4 W5) as (S5 & HB5 & F5 & _).
  exists h', (a4.[GB := Bp]), m5. split; [reflexivity|]. split; [exact I5|].
  split; [rewrite sset_other by discriminate; exact EA4|]. split; [now rewrite sset_same|].
  split; [rewrite sset_other by discriminate; rewrite K4, K3, K2, K1 by discriminate; apply K0; discriminate|].
  split; [|split].
  - intros p v' E Hp. rewrite <- (K0 GD) in E by discriminate.
    assert (E4' : a4 GD = Some p) by (rewrite K4, K3, K2, K1 by discriminate; exact E).
    apply F5; [intros X; assert (GB = GD) by (exact (sl_inj S4 X E4')); discriminate|auto].
  - apply F5; [intros X; assert (GB = GA) by (exact (sl_inj S4 X EA4)); discriminate|].
    eapply holds_meq; [exact HA4|]. split; [reflexivity|]. split; [reflexivity|]. simpl. intros; reflexivity.
  - eapply holds_meq; [exact HB5|]. split; [reflexivity|]. split; [reflexivity|]. simpl. intros k l Hk Hl.
    replace l with 0 by lia. rewrite V3 by auto. reflexivity.
Qed.

Lemma rows_ok n : forall i h a m A Bp, i + n = size -> I h a m -> a GA = Some A -> a GB = Some Bp ->
  holds m A (matA i) -> holds m Bp (matB i) ->
  exists h' a' m', rows B orc (seq i n) (h, a) m = Ok ((h', a'), m') /\ I h' a' m' /\
    a' GA = Some A /\ a' GB = Some Bp /\ a' GD = a GD /\
    (forall p v, a GD = Some p -> holds m p v -> holds m' p v) /\
    holds m' A (matA size) /\ holds m' Bp (matB size).
Proof.
  induction n as [|n IH]; intros i h a m A Bp Hn HI EA EB HA HB.
  - exists h, a, m. rewrite Nat.add_0_r in Hn. subst i. simpl. auto 10.
  - destruct (@row_ok i h a m A Bp) as (h1 & a1 & m1 & E1 & I1 & A1 & B1 & D1 & P1 & HA1 & HB1); auto; [lia|].
    destruct (IH (Datatypes.S i) h1 a1 m1 A Bp) as (h2 & a2 & m2 & E2 & I2 & A2 & B2 & D2 & P2 & HA2 & HB2); auto; [lia|].
    exists h2, a2, m2. cbn [seq rows]. unfold bind. rewrite E1, E2. split; [reflexivity|].
    split; auto. split; auto. split; auto. split; [congruence|]. split; [|auto].
    intros p v E Hp. apply P2; [congruence|]. auto.
Qed.

Lemma reset_holds m p v : tame m -> holds m p v -> ~ is_special m p ->
  exists m', reset_zero (Some p) m = Ok (tt, m') /\ holds m' p (mzeros (mr v) (mc v)) /\ evolves (fun q => Some p = Some q) m m'.
Proof.
  intros Tm Hp Ns. destruct (@reset_step T N m (Some p) Tm) as (m' & E & Z & Ev & So); [split; [exact (holds_get Hp)|exact Ns]|].
  exists m'. split; [exact E|]. split; [|exact Ev].
  destruct Hp as ((k & sp & b & G & Lb) & _). simpl in E. unfold bind, deref in E. rewrite G in E. injection E as E. cbn [o_nidx o_space o_rows o_cols o_buf] in E.
  assert (G' : get m' p = Some (MkObj k sp (mr v) (mc v) (repeat n0 (length b)))) by (subst m'; apply get_put_same; exact (get_lt G)).
  split.
  - exists k, sp, (repeat n0 (length b)). split; [exact G'|]. rewrite repeat_length. exact Lb.
  - simpl. intros i j Hi Hj. unfold val. rewrite G'. cbn [o_buf]. exact (Z _ G' _).
Qed.

(** computeAB: whatever A and B contained before. *)
Theorem computeAB_ok h a m A Bp v w : I h a m -> a GA = Some A -> a GB = Some Bp ->
  holds m A v -> mr v = dim -> mc v = dim -> holds m Bp w -> mr w = dim -> mc w = 1 ->
  exists h' a' m', computeAB B orc size (h, a) m = Ok ((h', a'), m') /\ I h' a' m' /\
    a' GA = Some A /\ a' GB = Some Bp /\ a' GD = a GD /\
    (forall p u, a GD = Some p -> holds m p u -> holds m' p u) /\
    holds m' A (matA size) /\ holds m' Bp (matB size).
Proof.
  intros HI EA EB HA A1 A2 HB B1 B2.
  pose proof (or_slots OR HI) as S0.
  destruct (@reset_holds m A v (sl_tame S0) HA (proj1 (proj2 (sl_slot S0 EA)))) as (m1 & E1 & Z1 & V1).
  assert (I1 : I h a m1) by (apply (or_zero OR HI (k := GA) ltac:(discriminate) EA); now rewrite EA).
  pose proof (or_slots OR I1) as S1.
  assert (NAB : A <> Bp) by (intros ->; assert (GA = GB) by (exact (sl_inj S0 EA EB)); discriminate).
  assert (HB1 : holds m1 Bp w) by (eapply holds_evolves; [exact V1|intros [= X]; auto|exact HB]).
  destruct (@reset_holds m1 Bp w (sl_tame S1) HB1 (proj1 (proj2 (sl_slot S1 EB)))) as (m2 & E2 & Z2 & V2).
  assert (I2 : I h a m2) by (apply (or_zero OR I1 (k := GB) ltac:(discriminate) EB); now rewrite EB).
  assert (ZA : holds m2 A (mzeros (mr v) (mc v))) by (eapply holds_evolves; [exact V2|intros [= X]; auto|exact Z1]).
  destruct (@rows_ok size 0 h a m2 A Bp) as (h' & a' & m' & E & I' & P1 & P2 & P3 & P4 & P5 & P6); auto.
  - rewrite A1, A2 in ZA. exact ZA.
  - rewrite B1, B2 in Z2. exact Z2.
  - exists h', a', m'. split; [|split; [exact I'|split; [exact P1|split; [exact P2|split; [exact P3|split; [|auto]]]]]].
    + unfold computeAB, bind. cbn [snd]. rewrite EA, E1, EB, E2. exact E.
    + intros p u Ep Hp. apply P4; [exact Ep|].
      assert (p <> A) by (intros ->; assert (GA = GD) by (exact (sl_inj S0 EA Ep)); discriminate).
      assert (p <> Bp) by (intros ->; assert (GB = GD) by (exact (sl_inj S0 EB Ep)); discriminate).
      eapply holds_evolves; [exact V2|intros [= X]; auto|]. eapply holds_evolves; [exact V1|intros [= X]; auto|exact Hp].
Qed.

(** One whole iteration: the update receives the solution of the normal equations. *)
Lemma assign_holds m p v F : tame m -> holds m p v -> ~ is_special m p ->
  exists m', assign p F m = Ok (tt, m') /\ wrote m (Some p) p (Mat (mr v) (mc v) (F m)) m'.
Proof.
  intros Tm Hp Ns. pose proof Tm as (Gm & Sp & Ro). destruct (tame_pos Tm Hp) as [P1 P2].
  assert (So : slot_ok m (Some p)) by (split; [exact (holds_get Hp)|exact Ns]).
  pose proof (pool_same Hp) as Ps.
  destruct (pool_ok None CPU Gm (slot_res So) P1 P2) as (p' & m1 & Ep & P).
  unfold pool in Ps. rewrite Ps in Ep. injection Ep as <- <-.
  destruct (@assign_stored T N m (Some p) p m (mr v) (mc v) CPU F (F m) Gm P) as (m' & E & St); auto.
  exists m'. split; [exact E|]. apply stored_wrote; auto. exact (pres_assign Sp E).
Qed.

Variable llt : nat -> (nat -> nat -> T) -> (nat -> T) -> nat -> T.
Variable update : nat -> (nat -> T) -> H -> H.

Theorem iter_ok h a m A Bp D v w u : I h a m -> a GA = Some A -> a GB = Some Bp -> a GD = Some D ->
  holds m A v -> mr v = dim -> mc v = dim -> holds m Bp w -> mr w = dim -> mc w = 1 ->
  holds m D u -> mr u = dim -> mc u = 1 ->
  exists h' a' m' m'' gA gB x,
    computeAB B orc size (h, a) m = Ok ((h', a'), m') /\
    iter B orc llt update size dim (h, a) m = Ok ((update dim x h', a'), m'') /\
    (forall i k, i < dim -> k < dim -> gA i k = gram size J i k) /\
    (forall k, k < dim -> gB k = grad size J r k) /\
    (forall k, k < dim -> x k = llt dim gA gB k) /\
    I h' a' m'' /\ a' GA = Some A /\ a' GB = Some Bp /\ a' GD = Some D /\
    holds m'' A (matA size) /\ holds m'' Bp (matB size) /\
    holds m'' D (Mat dim 1 (fun k _ => llt dim gA gB k)).
Proof.
  intros HI EA EB ED HA A1 A2 HB B1 B2 HD D1 D2.
  destruct (@computeAB_ok h a m A Bp v w) as (h' & a' & m' & E & I' & EA' & EB' & ED' & PD & HA' & HB'); auto.
  rewrite ED in ED'. specialize (PD D u ED HD).
  pose proof (or_slots OR I') as S'.
  destruct (@assign_holds m' D u (fun m i _ => llt dim (val m A) (fun k => val m Bp k 0) i) (sl_tame S') PD (proj1 (proj2 (sl_slot S' ED')))) as (m'' & E2 & W2).
  pose proof W2 as W2'. rewrite <- ED' in W2' at 1.
  pose proof (or_frame OR I' (k := GD) ltac:(discriminate) W2') as I''.
  destruct (slot_write gk_eq S' W2') as (S'' & HD'' & F'' & _).
  assert (I3 : I h' a' m'').
  { refine (or_zero OR I' (k := GD) ltac:(discriminate) ED' _). rewrite ED'. exact (wr_evolves W2). }
  assert (HA'' : holds m'' A (matA size)) by (apply F''; [intros X; assert (GD = GA) by (exact (sl_inj S' X EA')); discriminate|exact HA']).
  assert (HB'' : holds m'' Bp (matB size)) by (apply F''; [intros X; assert (GD = GB) by (exact (sl_inj S' X EB')); discriminate|exact HB']).
  exists h', a', m', m'', (val m' A), (fun k => val m' Bp k 0), (fun k => val m'' D k 0).
  split; [exact E|]. split; [unfold iter, bind; rewrite E; cbn [fst snd]; rewrite EA', EB', ED', E2; reflexivity|].
  split; [intros i k Hi Hk; exact (holds_val HA' Hi Hk)|].
  split; [intros k Hk; exact (holds_val HB' Hk (Nat.lt_0_succ 0))|].
  split; [intros k Hk; rewrite <- D1 in Hk; refine (holds_val HD'' Hk _); simpl; lia|].
  split; [exact I3|]. split; [exact EA'|]. split; [exact EB'|]. split; [exact ED'|]. split; [exact HA''|]. split; [exact HB''|].
  rewrite D1, D2 in HD''. exact HD''.
Qed.
End Proofs.
