(** * Straight-line kernel programs

    The bodies of the operators' eval/devalF and of the convolution handlers are fixed
    sequences of kernel calls on scratch slots.  They are written as tables of
    instructions, run by one interpreter. *)

From Coq Require Import List Arith Bool Lia Permutation.
From Verif Require Import Num MatMem Kernels KernelFacts KernelProofs KernelBlocks Registry KernelStep Backend Square Slots.
Import ListNotations.
Set Implicit Arguments.
Unset Strict Implicit.

Section Syntax.
Context {T : Type} {K : Type}.
(** Operands: an external matrix, a scratch slot, Eye(n) or Ones(r,c)
    (MatrixBasics::Eye / Ones called in the argument list, e.g. GenericMatProduct.hpp:133-138). *)
Inductive operand : Type := OPtr (p : ptr) | OSlot (k : K) | OEye (n : nat) | OOnes (r c : nat).
(** The MATRIX_* macros (MatrixUtils, MatOperators.hpp) and getBlockMat. *)
Inductive kern : Type :=
| KAdd (a b : operand) | KSub (a b : operand) | KHad (a b : operand) | KMul (a b : operand) | KKron (a b : operand)
| KSMul (c : T) (a : operand) | KSAdd (c : T) (a : operand) | KMap (f : T -> T) (a : operand) | KTr (a : operand)
| KDtr (Rf Cf Rx Cx : nat) (a : operand) | KBlock (r0 r1 c0 c1 : nat) (a : operand)
| KInv (g : nat -> list T -> list T) (a : operand) | KDet (d : nat -> list T -> T) (a : operand)
| KSMulAt (b a : operand) (* MATRIX_SCALAR_MUL by the first entry of b, GenericMatDet.hpp:143, 248 *)
| KFill (r c : nat) (f : nat -> T) (* TensorR2::Details::DevalR, Matrix.hpp:407-431: one value per entry of X *)
| KTrace (a : operand). (* MATRIX_TRACE *)
Definition instr : Type := (K * kern)%type.
End Syntax.
Arguments operand : clear implicits.
Arguments kern : clear implicits.
Arguments instr : clear implicits.

Section Run.
Context {T : Type} {N : Num T} {K : Type}.
Variable keq : forall a b : K, {a = b} + {a <> b}.
Notation mem := (mem T).
Notation M := (M T).
Notation "x <- c ;; k" := (bind c (fun x => k)) (at level 61, c at next level, right associativity).
Variable S : sched T.
Variable B : backend (T := T).

Definition fetch (arr : K -> option ptr) (x : operand K) : M ptr :=
  match x with
  | OPtr p => ret p
  | OSlot k => match arr k with Some p => ret p | None => fun _ => Undefined end
  | OEye n => Eye S CPU n
  | OOnes r c => Ones CPU r c
  end.
(** TensorR2::Details::DevalR, Matrix.hpp:407-431: a new matrix if there is none or its shape
    is different, then std::transform over its entries. *)
Definition fill_mat (r c : nat) (f : nat -> T) (res : option ptr) : M ptr :=
  p <- match res with
       | None => new_mat CPU r c None
       | Some q => o <- deref q ;; if (r =? o_rows o) && (c =? o_cols o) then ret q else new_mat CPU r c None
       end ;;
  _ <- for_each (seq 0 (r * c)) (fun n => rawset p n (f n)) ;;
  ret p.
Definition run1 (arr : K -> option ptr) (i : instr T K) : M ptr :=
  let (d, op) := i in
  match op with
  | KAdd a b => x <- fetch arr a ;; y <- fetch arr b ;; b_add B x y (arr d)
  | KSub a b => x <- fetch arr a ;; y <- fetch arr b ;; b_sub B x y (arr d)
  | KHad a b => x <- fetch arr a ;; y <- fetch arr b ;; b_had B x y (arr d)
  | KMul a b => x <- fetch arr a ;; y <- fetch arr b ;; b_mul B x y (arr d)
  | KKron a b => x <- fetch arr a ;; y <- fetch arr b ;; b_kron B x y (arr d)
  | KSMul c a => x <- fetch arr a ;; b_smul B c x (arr d)
  | KSAdd c a => x <- fetch arr a ;; b_sadd B c x (arr d)
  | KMap f a => x <- fetch arr a ;; b_map B f x (arr d)
  | KTr a => x <- fetch arr a ;; b_tr B x (arr d)
  | KDtr Rf Cf Rx Cx a => x <- fetch arr a ;; MatDervTranspose S Rf Cf Rx Cx x (arr d)
  | KBlock r0 r1 c0 c1 a => x <- fetch arr a ;; getBlockMat S x (r0, r1) (c0, c1) (arr d)
  | KInv g a => x <- fetch arr a ;; MatInverse g x (arr d)
  | KDet e a => x <- fetch arr a ;; MatDet e x (arr d)
  | KSMulAt b a => x <- fetch arr b ;; y <- fetch arr a ;; c <- raw x 0 ;; b_smul B c y (arr d)
  | KFill r c f => fill_mat r c f (arr d)
  (* the diagonal is added up in the order of its indices: in exact arithmetic the order does not matter (C33),
     and MatTraceEigenHandler.hpp:31-60, the default, leaves it to Eigen's A.trace() *)
  | KTrace a => x <- fetch arr a ;; MatTrace in_order x (arr d)
  end.
Fixpoint run (prog : list (instr T K)) (arr : K -> option ptr) : M (K -> option ptr) :=
  match prog with
  | [] => ret arr
  | i :: prog' => p <- run1 arr i ;; run prog' (sset keq arr (fst i) p)
  end.
End Run.

(** ** Value-level meaning of a program *)
Section Value.
Context {T : Type} {N : Num T} {K : Type}.
Variable keq : forall a b : K, {a = b} + {a <> b}.
Notation mat := (mat T).
Variable pv : ptr -> mat.      (* the matrices behind the external operands *)

Definition vfetch (env : K -> option mat) (x : operand K) : option mat :=
  match x with
  | OPtr p => Some (pv p)
  | OSlot k => env k
  | OEye n => if 0 <? n then Some (meye n) else None
  | OOnes r c => if (0 <? r) && (0 <? c) then Some (mones r c) else None
  end.
Definition v2 (env : K -> option mat) (a b : operand K) (f : mat -> mat -> option mat) : option mat :=
  match vfetch env a, vfetch env b with Some v, Some w => f v w | _, _ => None end.
Definition v1 (env : K -> option mat) (a : operand K) (f : mat -> option mat) : option mat :=
  match vfetch env a with Some v => f v | None => None end.
Definition when (b : bool) (v : mat) : option mat := if b then Some v else None.
Definition dims_eqb (v w : mat) : bool := (mr v =? mr w) && (mc v =? mc w).
Definition mblock (r0 r1 c0 c1 : nat) (v : mat) : mat := Mat (r1 - r0 + 1) (c1 - c0 + 1) (fun i j => mf v (r0 + i) (c0 + j)).
Definition mfill (r c : nat) (f : nat -> T) : mat := Mat r c (fun i j => f (i * c + j)).
Definition mtrace (v : mat) : mat := Mat 1 1 (fun _ _ => sum_n (mr v) (fun n => mf v n n)).
Definition veval (env : K -> option mat) (op : kern T K) : option mat :=
  match op with
  | KAdd a b => v2 env a b (fun v w => when (dims_eqb v w) (madd v w))
  | KSub a b => v2 env a b (fun v w => when (dims_eqb v w) (msub v w))
  | KHad a b => v2 env a b (fun v w => when (dims_eqb v w) (mhad v w))
  | KMul a b => v2 env a b (fun v w => when (mc v =? mr w) (mmul v w))
  | KKron a b => v2 env a b (fun v w => Some (mkron v w))
  | KSMul c a => v1 env a (fun v => Some (mmap (nmul c) v))
  | KSAdd c a => v1 env a (fun v => Some (mmap (nadd c) v))
  | KMap f a => v1 env a (fun v => Some (mmap f v))
  | KTr a => v1 env a (fun v => Some (mtr v))
  | KDtr Rf Cf Rx Cx a => v1 env a (fun v => when ((mr v =? Rf * Rx) && (mc v =? Cf * Cx)) (mdtr Rf Cf Rx Cx v))
  | KBlock r0 r1 c0 c1 a => v1 env a (fun v => when ((r0 <=? r1) && (r1 <? mr v) && (c0 <=? c1) && (c1 <? mc v)) (mblock r0 r1 c0 c1 v))
  | KInv g a => v1 env a (fun v => when (mr v =? mc v) (minv g v))
  | KDet d a => v1 env a (fun v => when (mr v =? mc v) (mdet d v))
  | KSMulAt b a => v2 env b a (fun v w => Some (mmap (nmul (mf v 0 0)) w))
  | KFill r c f => when ((0 <? r) && (0 <? c)) (mfill r c f)
  | KTrace a => v1 env a (fun v => when (mr v =? mc v) (mtrace v))
  end.
Definition vset (env : K -> option mat) (k : K) (v : mat) : K -> option mat := fun k' => if keq k' k then Some v else env k'.
Fixpoint vrun (prog : list (instr T K)) (env : K -> option mat) : option (K -> option mat) :=
  match prog with
  | [] => Some env
  | (d, op) :: prog' => match veval env op with Some v => vrun prog' (vset env d v) | None => None end
  end.

Lemma vrun_off prog : forall env env' k, vrun prog env = Some env' -> ~ In k (map fst prog) -> env' k = env k.
Proof.
  induction prog as [|[d op] prog IH]; intros env env' k H Hn; [now injection H as <-|]. simpl in H.
  destruct (veval env op) as [v|]; [|discriminate]. rewrite (IH _ _ _ H) by (intros Q; apply Hn; simpl; auto).
  unfold vset. destruct (keq k d) as [->|]; [|reflexivity]. exfalso. apply Hn. simpl; auto.
Qed.
Lemma vrun_dst prog : forall env env' k, vrun prog env = Some env' -> In k (map fst prog) -> exists v, env' k = Some v.
Proof.
  assert (Keep : forall prog env env' k v, vrun prog env = Some env' -> env k = Some v -> exists v', env' k = Some v').
  { clear prog. induction prog as [|[d op] prog IH]; intros env env' k v H E; [injection H as <-; eauto|]. simpl in H.
    destruct (veval env op) as [w|]; [|discriminate]. destruct (keq k d) as [->|Ne].
    - eapply IH; [exact H|]. unfold vset. destruct (keq d d); [reflexivity|contradiction].
    - eapply IH; [exact H|]. unfold vset. destruct (keq k d); [contradiction|exact E]. }
  induction prog as [|[d op] prog IH]; intros env env' k H Hin; [destruct Hin|]. simpl in H.
  destruct (veval env op) as [w|]; [|discriminate]. destruct Hin as [<-|Hin]; [|eauto].
  eapply Keep; [exact H|]. unfold vset. simpl. destruct (keq d d); [reflexivity|contradiction].
Qed.
Lemma vrun_step d op prog env v r : veval env op = Some v -> vrun prog (vset env d v) = r -> vrun ((d, op) :: prog) env = r.
Proof. intros H <-. simpl. now rewrite H. Qed.
Lemma veval_zip env a b v w : vfetch env a = Some v -> vfetch env b = Some w -> mr v = mr w -> mc v = mc w ->
  veval env (KAdd a b) = Some (madd v w) /\ veval env (KSub a b) = Some (msub v w) /\ veval env (KHad a b) = Some (mhad v w).
Proof. intros Ha Hb E1 E2. simpl. unfold v2. rewrite Ha, Hb. unfold dims_eqb. rewrite E1, E2, !Nat.eqb_refl. auto. Qed.
Lemma veval_add env a b v w : vfetch env a = Some v -> vfetch env b = Some w -> mr v = mr w -> mc v = mc w -> veval env (KAdd a b) = Some (madd v w).
Proof. intros. now apply veval_zip. Qed.
Lemma veval_sub env a b v w : vfetch env a = Some v -> vfetch env b = Some w -> mr v = mr w -> mc v = mc w -> veval env (KSub a b) = Some (msub v w).
Proof. intros. now apply veval_zip. Qed.
Lemma veval_had env a b v w : vfetch env a = Some v -> vfetch env b = Some w -> mr v = mr w -> mc v = mc w -> veval env (KHad a b) = Some (mhad v w).
Proof. intros. now apply veval_zip. Qed.
Lemma veval_mul env a b v w : vfetch env a = Some v -> vfetch env b = Some w -> mc v = mr w -> veval env (KMul a b) = Some (mmul v w).
Proof. intros Ha Hb E. simpl. unfold v2. rewrite Ha, Hb, E, Nat.eqb_refl. auto. Qed.
Lemma veval_kron env a b v w : vfetch env a = Some v -> vfetch env b = Some w -> veval env (KKron a b) = Some (mkron v w).
Proof. intros Ha Hb. simpl. unfold v2. now rewrite Ha, Hb. Qed.
Lemma veval_un env a v : vfetch env a = Some v ->
  (forall c, veval env (KSMul c a) = Some (mmap (nmul c) v)) /\ (forall c, veval env (KSAdd c a) = Some (mmap (nadd c) v)) /\
  (forall f, veval env (KMap f a) = Some (mmap f v)) /\ veval env (KTr a) = Some (mtr v).
Proof. intros Ha. simpl. unfold v1. rewrite Ha. auto. Qed.
Lemma veval_smul env a v c : vfetch env a = Some v -> veval env (KSMul c a) = Some (mmap (nmul c) v).
Proof. intros H. now apply (veval_un H). Qed.
Lemma veval_tr env a v : vfetch env a = Some v -> veval env (KTr a) = Some (mtr v).
Proof. intros H. now apply (veval_un H). Qed.
Lemma veval_dtr env a v Rf Cf Rx Cx : vfetch env a = Some v -> mr v = Rf * Rx -> mc v = Cf * Cx ->
  veval env (KDtr Rf Cf Rx Cx a) = Some (mdtr Rf Cf Rx Cx v).
Proof. intros Ha E1 E2. simpl. unfold v1. rewrite Ha, E1, E2, !Nat.eqb_refl. auto. Qed.
Lemma veval_block env a v r0 r1 c0 c1 : vfetch env a = Some v -> r0 <= r1 -> r1 < mr v -> c0 <= c1 -> c1 < mc v ->
  veval env (KBlock r0 r1 c0 c1 a) = Some (mblock r0 r1 c0 c1 v).
Proof.
  intros Ha A1 A2 A3 A4. simpl. unfold v1. rewrite Ha. unfold when.
  apply Nat.leb_le in A1, A3. apply Nat.ltb_lt in A2, A4. now rewrite A1, A2, A3, A4.
Qed.
Lemma veval_inv env a v g : vfetch env a = Some v -> mr v = mc v -> veval env (KInv g a) = Some (minv g v).
Proof. intros Ha E. simpl. unfold v1. now rewrite Ha, E, Nat.eqb_refl. Qed.
Lemma veval_det env a v d : vfetch env a = Some v -> mr v = mc v -> veval env (KDet d a) = Some (mdet d v).
Proof. intros Ha E. simpl. unfold v1. now rewrite Ha, E, Nat.eqb_refl. Qed.
Lemma veval_smulat env a b v w : vfetch env b = Some v -> vfetch env a = Some w -> veval env (KSMulAt b a) = Some (mmap (nmul (mf v 0 0)) w).
Proof. intros Hb Ha. simpl. unfold v2. now rewrite Hb, Ha. Qed.
Lemma veval_fill env r c f : 0 < r -> 0 < c -> veval env (KFill r c f) = Some (mfill r c f).
Proof. intros Hr Hc. apply Nat.ltb_lt in Hr, Hc. simpl. now rewrite Hr, Hc. Qed.
Lemma veval_trace env a v : vfetch env a = Some v -> mr v = mc v -> veval env (KTrace a) = Some (mtrace v).
Proof. intros H E. simpl. unfold v1. now rewrite H, E, Nat.eqb_refl. Qed.
Lemma vfetch_ones env r c : 0 < r -> 0 < c -> vfetch env (OOnes r c) = Some (mones r c).
Proof. intros H1 H2. simpl. apply Nat.ltb_lt in H1, H2. now rewrite H1, H2. Qed.
Lemma vfetch_eye env n : 0 < n -> vfetch env (OEye n) = Some (meye n).
Proof. intros H1. simpl. apply Nat.ltb_lt in H1. now rewrite H1. Qed.
End Value.

(** ** The interpreter computes the value-level meaning *)
Section Correct.
Context {T : Type} {N : Num T} {K : Type}.
Variable keq : forall a b : K, {a = b} + {a <> b}.
Notation mem := (mem T).
Notation M := (M T).
Notation mat := (mat T).
Variable S : sched T.
Hypothesis VS : valid_sched S.
Variable B : backend (T := T).
Hypothesis BV : value_ok B.
Hypothesis BK : kron_ok B \/ kron_zeroed_ok B.
Implicit Types (m : mem) (arr : K -> option ptr) (X : ptr -> Prop) (op : kern T K).

Definition operands op : list (operand K) :=
  match op with
  | KAdd a b | KSub a b | KHad a b | KMul a b | KKron a b | KSMulAt a b => [a; b]
  | KSMul _ a | KSAdd _ a | KMap _ a | KTr a | KDtr _ _ _ _ a | KBlock _ _ _ _ a | KInv _ a | KDet _ a | KTrace a => [a]
  | KFill _ _ _ => []
  end.
Definition is_kron op : bool := match op with KKron _ _ => true | _ => false end.
(** External operands of a program. *)
Definition uses_ptr (prog : list (instr T K)) (p : ptr) : Prop := exists i, In i prog /\ In (OPtr p) (operands (snd i)).
(** No instruction reads its own destination. *)
Definition no_self (i : instr T K) : Prop := ~ In (OSlot (fst i)) (operands (snd i)).
Definition dsts (prog : list (instr T K)) : list K := map fst prog.

Definition agrees m arr (env : K -> option mat) : Prop := forall k v, env k = Some v -> exists p, arr k = Some p /\ holds m p v.

Lemma sset_cases arr k p k' q : sset keq arr k p k' = Some q -> (k' = k /\ q = p) \/ (k' <> k /\ arr k' = Some q).
Proof. unfold sset. destruct (keq k' k); [intros [= ->]; auto|auto]. Qed.

(** Fetching an operand. *)
Lemma fetch_ok m arr X env pv d a v : slots m arr X -> agrees m arr env -> a <> OSlot d ->
  (forall p, a = OPtr p -> holds m p (pv p) /\ arr d <> Some p) -> vfetch pv env a = Some v ->
  exists p m', fetch S arr a m = Ok (p, m') /\ holds m' p v /\ arr d <> Some p /\ evolves nothing m m'.
Proof.
  intros Sl Ag Nd Hp Hv. destruct a as [p|k|n|r c]; simpl in *.
  - injection Hv as <-. destruct (Hp p eq_refl) as [H1 H2]. exists p, m. split; [reflexivity|]. split; [exact H1|]. split; [exact H2|].
    apply evolves_refl. apply (sl_tame Sl).
  - destruct (Ag _ _ Hv) as (p & E & Hh). rewrite E. exists p, m. split; [reflexivity|]. split; [auto|]. split.
    + eapply other_not_slot; eauto. congruence.
    + apply evolves_refl. apply (sl_tame Sl).
  - destruct (0 <? n) eqn:En; [|discriminate]. injection Hv as <-. apply Nat.ltb_lt in En.
    destruct (@request_step T N S VS m KEye n n (sl_tame Sl) En En (fun _ => eq_refl)) as (p & m' & E & Hh & Hs & Ev).
    exists p, m'. split; [exact E|]. split; [exact Hh|]. split; [|exact Ev].
    destruct (slot_quiet Sl Ev) as (Sl' & _). exact (special_not_slot Sl' Hs).
  - destruct ((0 <? r) && (0 <? c)) eqn:En; [|discriminate]. injection Hv as <-. apply andb_prop in En. destruct En as [E1 E2].
    apply Nat.ltb_lt in E1, E2.
    destruct (@request_step T N S VS m KOnes r c (sl_tame Sl) E1 E2 ltac:(discriminate)) as (p & m' & E & Hh & Hs & Ev).
    exists p, m'. split; [exact E|]. split; [exact Hh|]. split; [|exact Ev].
    destruct (slot_quiet Sl Ev) as (Sl' & _). exact (special_not_slot Sl' Hs).
Qed.

Lemma agrees_quiet m m' arr X env : slots m arr X -> agrees m arr env -> evolves nothing m m' -> agrees m' arr env.
Proof.
  intros Sl Ag Ev k v E. destruct (Ag _ _ E) as (p & Ep & Hh). exists p. split; auto. exact (proj1 (proj2 (slot_quiet Sl Ev)) _ _ Hh).
Qed.

Lemma block_step m a r va r0 r1 c0 c1 : tame m -> holds m a va -> slot_ok m r -> r <> Some a ->
  r0 <= r1 -> r1 < mr va -> c0 <= c1 -> c1 < mc va ->
  exists p m', getBlockMat S a (r0, r1) (c0, c1) r m = Ok (p, m') /\ wrote m r p (mblock r0 r1 c0 c1 va) m'.
Proof.
  intros Tm Ha Hr Na H1 H2 H3 H4.
  destruct (@get_block_ok T N S VS m a r (mr va) (mc va) r0 r1 c0 c1) as (p & m' & E & St).
  - apply Tm.
  - apply Ha.
  - repeat split; auto.
  - now apply slot_res.
  - now apply not_op.
  - exists p, m'. split; [exact E|]. eapply wrote_meq.
    + eapply stored_wrote; eauto. eapply pres_getBlockMat; [|exact E]. apply Tm.
    + split; [reflexivity|]. split; [reflexivity|]. simpl. intros i j Hi Hj. rewrite (holds_val Ha); auto; lia.
Qed.

Lemma fill_step R C f m r : tame m -> slot_ok m r -> 0 < R -> 0 < C ->
  exists p m', fill_mat R C f r m = Ok (p, m') /\ wrote m r p (mfill R C f) m'.
Proof.
  intros Tm Hr HR HC.
  assert (Go : forall r' p m1, slot_ok m r' -> (forall q, r' = Some q -> r = Some q) -> pooled None CPU m r' R C p m1 -> spaced m1 ->
    (forall q o, r = Some q -> get m q = Some o -> o_rows o = R -> o_cols o = C -> p = q) ->
    exists m', for_each (seq 0 (R * C)) (fun n => rawset p n (f n)) m1 = Ok (tt, m') /\ wrote m r p (mfill R C f) m').
  { intros r' p m1 Hr' Sub P Sp Ru.
    destruct (pooled_obj (proj1 Tm) P) as (ob & Ho & oR & oC & Lo).
    destruct (@scatter T nat m1 p ob (seq 0 (R * C)) (fun n => n) (fun n => Some (f n)) (fun n => rawset p n (f n)) Ho) as (b' & Ef & A1 & A2 & A3).
    - apply seq_NoDup.
    - intros i Hi _. apply in_seq in Hi. lia.
    - auto.
    - intros i b Hi Lb _. apply in_seq in Hi. apply (rawset_upd _ Ho). lia.
    - exists (upd m1 p b'). split; [exact Ef|].
      assert (W : wrote m r' p (mfill R C f) (upd m1 p b')).
      { apply stored_wrote; auto.
        - eapply stored_intro; eauto. intros i j Hi Hj. apply (A2 _ _); [|reflexivity].
          apply in_seq. pose proof (idx_bound Hi Hj). lia.
        - refine (pres_for (fun n => _) Sp Ef). apply pres_rawset. }
      destruct W as [W1 W2 W3 W4 _]. constructor; auto; [destruct W2 as [W2|W2]; auto|]. eapply evolves_weaken; [exact W4|]. intros q _. apply Sub. }
  assert (New : forall m0, m0 = m -> exists p m1, new_mat CPU R C None m0 = Ok (p, m1) /\ pooled None CPU m None R C p m1 /\ spaced m1).
  { intros m0 ->. destruct (@pool_ok T N None CPU None R C m (proj1 Tm) Logic.I HR HC) as (p & m1 & E & P). exists p, m1. split; [exact E|]. split; [exact P|].
    exact (pres_new (proj1 (proj2 Tm)) E). }
  unfold fill_mat, bind. destruct r as [q|].
  - destruct Hr as ((o & Ho) & Hs). unfold deref. rewrite Ho. destruct ((R =? o_rows o) && (C =? o_cols o)) eqn:Ed.
    + apply andb_prop in Ed. destruct Ed as [D1 D2]. apply Nat.eqb_eq in D1, D2. unfold ret.
      assert (P : pooled None CPU m (Some q) R C q m).
      { constructor; auto.
        - left. split; [reflexivity|]. exists o. split; [exact Ho|]. split; [congruence|]. rewrite Ho. subst R C. now destruct o.
        - unfold num_elem. rewrite Ho, <- D1, <- D2, Nat.eqb_refl. reflexivity.
        - split; auto.
        - apply Tm. }
      destruct (Go (Some q) q m (conj (ex_intro _ o Ho) Hs) (fun _ H => H) P (proj1 (proj2 Tm)) ltac:(intros; congruence)) as (m' & Ef & W). rewrite Ef. eexists _, m'. split; [reflexivity|exact W].
    + destruct (New m eq_refl) as (p & m1 & E & P & Sp). rewrite E.
      assert (Nq : forall q' o', Some q = Some q' -> get m q' = Some o' -> o_rows o' = R -> o_cols o' = C -> p = q').
      { intros q' o' [= <-] Ho' E1 E2. rewrite Ho in Ho'. injection Ho' as <-. rewrite <- E1, <- E2, !Nat.eqb_refl in Ed. discriminate. }
      destruct (Go None p m1 Logic.I ltac:(discriminate) P Sp Nq) as (m' & Ef & W). rewrite Ef. eexists _, m'. split; [reflexivity|exact W].
  - destruct (New m eq_refl) as (p & m1 & E & P & Sp). rewrite E. destruct (Go None p m1 Logic.I ltac:(discriminate) P Sp ltac:(discriminate)) as (m' & Ef & W). rewrite Ef. eexists _, m'. split; [reflexivity|exact W].
Qed.
Lemma trace_step m a r va : tame m -> holds m a va -> slot_ok m r -> r <> Some a -> mr va = mc va ->
  exists p m', MatTrace in_order a r m = Ok (p, m') /\ wrote m r p (mtrace va) m'.
Proof.
  intros Tm Ha Hr Na Sq. assert (Vo : valid_sched (T := T) in_order) by (intros m0 I l; apply Permutation_refl).
  destruct (@MatTrace_from T N in_order Vo a r m (mr va)) as (p & m' & o & E & (m1 & ->) & St).
  - apply Tm.
  - rewrite Sq at 2. apply Ha.
  - now apply slot_res.
  - now apply not_op.
  - exists p, m'. split; [exact E|]. eapply wrote_meq.
    + eapply stored_wrote; eauto. eapply pres_MatTrace; [|exact E]. apply Tm.
    + split; [reflexivity|]. split; [reflexivity|]. simpl. intros i j Hi Hj. unfold in_order.
      rewrite fold_sum. apply sum_n_ext. intros k Hk. apply (holds_val Ha); [exact Hk|now rewrite <- Sq].
Qed.

Lemma zeroed_quiet m m' r : evolves nothing m m' -> slot_ok m r -> zeroed m r -> zeroed m' r.
Proof.
  intros Ev Hr Hz. destruct r as [q|]; simpl in *; auto. destruct Hr as ((o & Ho) & _). intros o' Ho' k.
  assert (E : get m' q = get m q) by (apply Ev; [exact (get_lt Ho)|auto]).
  rewrite E in Ho'. eauto.
Qed.

(** One instruction. *)
Lemma run1_ok m arr X env pv d op v : slots m arr X -> agrees m arr env -> no_self (d, op) ->
  (forall p, In (OPtr p) (operands op) -> holds m p (pv p) /\ arr d <> Some p) ->
  (is_kron op = true -> kron_ok B \/ zeroed m (arr d)) ->
  veval pv env op = Some v ->
  exists p m' m1, run1 S B arr (d, op) m = Ok (p, m') /\ evolves nothing m m1 /\ wrote m1 (arr d) p v m'.
Proof.
  intros Sl Ag Ns Hp Hk Hv. unfold no_self in Ns. simpl in Ns.
  assert (F2 : forall a b f, v2 pv env a b f = Some v -> (operands op = [a; b]) ->
    exists va vb p q m1 m2, fetch S arr a m = Ok (p, m1) /\ fetch S arr b m1 = Ok (q, m2) /\ holds m2 p va /\ holds m2 q vb /\
      arr d <> Some p /\ arr d <> Some q /\ f va vb = Some v /\ evolves nothing m m2).
  { intros a b f Hf Eo. unfold v2 in Hf. destruct (vfetch pv env a) as [va|] eqn:Ea; [|discriminate].
    destruct (vfetch pv env b) as [vb|] eqn:Eb; [|discriminate]. rewrite Eo in *.
    destruct (@fetch_ok m arr X env pv d a va Sl Ag) as (p & m1 & E1 & H1 & N1 & Ev1); auto.
    { intros ->. apply Ns. simpl. auto. }
    { intros q ->. apply Hp. simpl. auto. }
    destruct (slot_quiet Sl Ev1) as (Sl1 & Ke & _).
    destruct (@fetch_ok m1 arr X env pv d b vb Sl1 (agrees_quiet Sl Ag Ev1)) as (q & m2 & E2 & H2 & N2 & Ev2); auto.
    { intros ->. apply Ns. simpl. auto. }
    { intros q ->. destruct (Hp q) as [A1 A2]; [simpl; auto|]. split; auto. }
    destruct (slot_quiet Sl1 Ev2) as (Sl2 & Ke2 & _).
    exists va, vb, p, q, m1, m2. repeat (split; [auto|]). eapply evolves_trans; eauto. intros ? _ [[]|[]]. }
  assert (F1 : forall a f, v1 pv env a f = Some v -> (operands op = [a]) ->
    exists va p m1, fetch S arr a m = Ok (p, m1) /\ holds m1 p va /\ arr d <> Some p /\ f va = Some v /\ evolves nothing m m1).
  { intros a f Hf Eo. unfold v1 in Hf. destruct (vfetch pv env a) as [va|] eqn:Ea; [|discriminate]. rewrite Eo in *.
    destruct (@fetch_ok m arr X env pv d a va Sl Ag) as (p & m1 & E1 & H1 & N1 & Ev1); auto.
    { intros ->. apply Ns. simpl. auto. }
    { intros q ->. apply Hp. simpl. auto. }
    exists va, p, m1. repeat (split; [auto|]). auto. }
  assert (Fin : forall (m2 : mem), evolves nothing m m2 -> slot_ok m2 (arr d) /\ tame m2).
  { intros m2 Ev. destruct (slot_quiet Sl Ev) as (Sl2 & _). split; [eapply slots_ok; eauto|apply (sl_tame Sl2)]. }
  destruct op as [a b|a b|a b|a b|a b|c a|c a|f a|a|Rf Cf Rx Cx a|r0 r1 c0 c1 a|g a|e a|b a|r c f|a]; simpl in Hv.
  1,2,3: destruct (F2 _ _ _ Hv eq_refl) as (va & vb & p & q & m1 & m2 & E1 & E2 & H1 & H2 & N1 & N2 & Ef & Ev);
    unfold when in Ef; destruct (dims_eqb va vb) eqn:Ed; [|discriminate]; injection Ef as <-;
    apply andb_prop in Ed; destruct Ed as [Ed1 Ed2]; apply Nat.eqb_eq in Ed1, Ed2;
    destruct (Fin _ Ev) as [So Tm]; simpl; unfold bind; rewrite E1, E2.
  - destruct (ok_add BV Tm H1 H2 So N1 N2 (conj Ed1 Ed2)) as (z & m' & E & W). exists z, m', m2. auto.
  - destruct (ok_sub BV Tm H1 H2 So N1 N2 (conj Ed1 Ed2)) as (z & m' & E & W). exists z, m', m2. auto.
  - destruct (ok_had BV Tm H1 H2 So N1 N2 (conj Ed1 Ed2)) as (z & m' & E & W). exists z, m', m2. auto.
  - destruct (F2 _ _ _ Hv eq_refl) as (va & vb & p & q & m1 & m2 & E1 & E2 & H1 & H2 & N1 & N2 & Ef & Ev).
    unfold when in Ef. destruct (mc va =? mr vb) eqn:Ed; [|discriminate]. injection Ef as <-. apply Nat.eqb_eq in Ed.
    destruct (Fin _ Ev) as [So Tm]. simpl. unfold bind. rewrite E1, E2.
    destruct (ok_mul BV Tm H1 H2 So N1 N2 Ed) as (z & m' & E & W). exists z, m', m2. auto.
  - destruct (F2 _ _ _ Hv eq_refl) as (va & vb & p & q & m1 & m2 & E1 & E2 & H1 & H2 & N1 & N2 & Ef & Ev).
    injection Ef as <-. destruct (Fin _ Ev) as [So Tm]. simpl. unfold bind. rewrite E1, E2.
    destruct (Hk eq_refl) as [Ko|Z].
    + destruct (Ko _ _ _ _ _ _ Tm H1 H2 So N1 N2 Logic.I) as (z & m' & E & W). exists z, m', m2. auto.
    + destruct BK as [Ko|Kz].
      * destruct (Ko _ _ _ _ _ _ Tm H1 H2 So N1 N2 Logic.I) as (z & m' & E & W). exists z, m', m2. auto.
      * destruct (Kz _ _ _ _ _ _ Tm H1 H2 So N1 N2) as (z & m' & E & W); [|exists z, m', m2; auto].
        eapply zeroed_quiet; eauto. eapply slots_ok; eauto.
  - destruct (F1 _ _ Hv eq_refl) as (va & p & m1 & E1 & H1 & N1 & Ef & Ev). injection Ef as <-.
    destruct (Fin _ Ev) as [So Tm]. simpl. unfold bind. rewrite E1.
    destruct (ok_smul BV c Tm H1 So N1) as (z & m' & E & W). exists z, m', m1. eauto.
  - destruct (F1 _ _ Hv eq_refl) as (va & p & m1 & E1 & H1 & N1 & Ef & Ev). injection Ef as <-.
    destruct (Fin _ Ev) as [So Tm]. simpl. unfold bind. rewrite E1.
    destruct (ok_sadd BV c Tm H1 So N1) as (z & m' & E & W). exists z, m', m1. eauto.
  - destruct (F1 _ _ Hv eq_refl) as (va & p & m1 & E1 & H1 & N1 & Ef & Ev). injection Ef as <-.
    destruct (Fin _ Ev) as [So Tm]. simpl. unfold bind. rewrite E1.
    destruct (ok_map BV f Tm H1 So N1) as (z & m' & E & W). exists z, m', m1. eauto.
  - destruct (F1 _ _ Hv eq_refl) as (va & p & m1 & E1 & H1 & N1 & Ef & Ev). injection Ef as <-.
    destruct (Fin _ Ev) as [So Tm]. simpl. unfold bind. rewrite E1.
    destruct (ok_tr BV Tm H1 So N1) as (z & m' & E & W). exists z, m', m1. eauto.
  - destruct (F1 _ _ Hv eq_refl) as (va & p & m1 & E1 & H1 & N1 & Ef & Ev). unfold when in Ef.
    destruct ((mr va =? Rf * Rx) && (mc va =? Cf * Cx)) eqn:Ed; [|discriminate]. injection Ef as <-.
    apply andb_prop in Ed. destruct Ed as [Ed1 Ed2]. apply Nat.eqb_eq in Ed1, Ed2.
    destruct (Fin _ Ev) as [So Tm]. simpl. unfold bind. rewrite E1.
    destruct (naive_dtr VS Tm H1 So N1 Ed1 Ed2) as (z & m' & E & W). exists z, m', m1. eauto.
  - destruct (F1 _ _ Hv eq_refl) as (va & p & m1 & E1 & H1 & N1 & Ef & Ev). unfold when in Ef.
    destruct ((r0 <=? r1) && (r1 <? mr va) && (c0 <=? c1) && (c1 <? mc va)) eqn:Ed; [|discriminate]. injection Ef as <-.
    rewrite !andb_true_iff in Ed. destruct Ed as (((D1 & D2) & D3) & D4).
    apply Nat.leb_le in D1, D3. apply Nat.ltb_lt in D2, D4.
    destruct (Fin _ Ev) as [So Tm]. simpl. unfold bind. rewrite E1.
    destruct (block_step Tm H1 So N1 D1 D2 D3 D4) as (z & m' & E & W). exists z, m', m1. eauto.
  - destruct (F1 _ _ Hv eq_refl) as (va & p & m1 & E1 & H1 & N1 & Ef & Ev). unfold when in Ef.
    destruct (mr va =? mc va) eqn:Ed; [|discriminate]. injection Ef as <-. apply Nat.eqb_eq in Ed.
    destruct (Fin _ Ev) as [So Tm]. simpl. unfold bind. rewrite E1.
    destruct (inv_step g Tm H1 So N1 Ed) as (z & m' & E & W). exists z, m', m1. eauto.
  - destruct (F1 _ _ Hv eq_refl) as (va & p & m1 & E1 & H1 & N1 & Ef & Ev). unfold when in Ef.
    destruct (mr va =? mc va) eqn:Ed; [|discriminate]. injection Ef as <-. apply Nat.eqb_eq in Ed.
    destruct (Fin _ Ev) as [So Tm]. simpl. unfold bind. rewrite E1.
    destruct (det_step e Tm H1 So N1 Ed) as (z & m' & E & W). exists z, m', m1. eauto.
  - destruct (F2 _ _ _ Hv eq_refl) as (va & vb & p & q & m1 & m2 & E1 & E2 & H1 & H2 & N1 & N2 & Ef & Ev).
    injection Ef as <-. destruct (Fin _ Ev) as [So Tm]. simpl. unfold bind. rewrite E1, E2, (holds_first Tm H1).
    destruct (ok_smul BV (mf va 0 0) Tm H2 So N2) as (z & m' & E & W). exists z, m', m2. eauto.
  - unfold when in Hv. destruct ((0 <? r) && (0 <? c)) eqn:Ed; [|discriminate]. injection Hv as <-.
    apply andb_prop in Ed. destruct Ed as [D1 D2]. apply Nat.ltb_lt in D1, D2.
    assert (Ev : evolves nothing m m) by (apply evolves_refl; apply (sl_tame Sl)).
    destruct (Fin _ Ev) as [So Tm]. destruct (fill_step f Tm So D1 D2) as (z & m' & E & W). exists z, m', m. auto.
  - destruct (F1 _ _ Hv eq_refl) as (va & p & m1 & E1 & H1 & N1 & Ef & Ev). unfold when in Ef.
    destruct (mr va =? mc va) eqn:Ed; [|discriminate]. injection Ef as <-. apply Nat.eqb_eq in Ed.
    destruct (Fin _ Ev) as [So Tm]. simpl. unfold bind. rewrite E1.
    destruct (trace_step Tm H1 So N1 Ed) as (z & m' & E & W). exists z, m', m1. eauto.
Qed.

(** A whole program. *)
Theorem run_ok prog : forall m arr X env pv env', slots m arr X -> agrees m arr env -> NoDup (dsts prog) -> Forall no_self prog ->
  (forall p, uses_ptr prog p -> holds m p (pv p) /\ forall d, In d (dsts prog) -> arr d <> Some p) ->
  (kron_ok B \/ forall d op, In (d, op) prog -> is_kron op = true -> zeroed m (arr d)) ->
  vrun keq pv prog env = Some env' ->
  exists arr' m', run keq S B prog arr m = Ok (arr', m') /\ slots m' arr' X /\ agrees m' arr' env' /\
    evolves (fun q => exists d, In d (dsts prog) /\ arr d = Some q) m m' /\
    (forall k, ~ In k (dsts prog) -> arr' k = arr k) /\
    (forall k p, arr' k = Some p -> arr k = Some p \/ length (objs m) <= p) /\
    (forall k v q o, In k (dsts prog) -> env' k = Some v -> arr k = Some q -> get m q = Some o -> o_rows o = mr v -> o_cols o = mc v -> arr' k = Some q).
Proof.
  induction prog as [|[d op] prog IH]; intros m arr X env pv env' Sl Ag Nd Nf Hp Hk Hv.
  - injection Hv as <-. exists arr, m. split; [reflexivity|]. split; [auto|]. split; [auto|]. split; [apply evolves_refl; apply (sl_tame Sl)|].
    split; [auto|]. split; [auto|]. intros k v q o [].
  - simpl in Hv. destruct (veval pv env op) as [v|] eqn:Ev; [|discriminate].
    inversion Nd as [|? ? Nd1 Nd2]; subst. inversion Nf as [|? ? Nf1 Nf2]; subst.
    destruct (@run1_ok m arr X env pv d op v Sl Ag Nf1) as (p & m1 & m0 & E1 & Ev0 & W); auto.
    { intros p Hin. destruct (Hp p) as [H1 H2]; [exists (d, op); simpl; auto|]. split; auto. apply H2. simpl; auto. }
    { intros Ik. destruct Hk as [Hk|Hk]; [auto|right]. eapply Hk; [left; reflexivity|auto]. }
    destruct (slot_quiet Sl Ev0) as (Sl0 & Ke0 & Fr0).
    destruct (slot_write keq Sl0 W) as (Sl1 & Hh & Ke & Fr).
    assert (L0 : length (objs m) <= length (objs m0)) by apply Ev0.
    assert (Ev1 : evolves (fun q => arr d = Some q) m m1).
    { eapply evolves_trans; [exact Ev0|exact (wr_evolves W)|]. intros q _ [[]|Q]; exact Q. }
    assert (Kp : forall q w, arr d <> Some q -> holds m q w -> holds m1 q w) by (intros q w Q H; eapply holds_evolves; eauto).
    assert (Pn : p = p /\ (arr d = Some p \/ length (objs m) <= p)).
    { split; auto. destruct (wr_where W) as [Q|Q]; [auto|right; lia]. }
    destruct Pn as [_ Pn].
    destruct (@IH m1 (sset keq arr d p) X (vset keq env d v) pv env') as (arr' & m' & E & Sl' & Ag' & Ev' & Un & Wh & Ru); auto.
    + intros k w Ek. unfold vset in Ek. destruct (keq k d) as [->|Ne].
      * injection Ek as <-. exists p. rewrite sset_same. auto.
      * destruct (Ag _ _ Ek) as (q & Eq & Hq). exists q. rewrite sset_other by auto. split; auto.
        apply Kp; auto. eapply other_not_slot; eauto.
    + intros q (i & Hi & Hq). destruct (Hp q) as [H1 H2]; [exists i; simpl; auto|].
      split; [apply Kp; auto; apply H2; simpl; auto|]. intros d' Hd' Es. apply sset_cases in Es.
      destruct Es as [(-> & ->)|(_ & Es)]; [contradiction|]. apply (H2 d'); simpl; auto.
    + destruct Hk as [Hk|Hk]; [auto|right]. intros d' op' Hin Ik.
      assert (Ne : d' <> d) by (intros ->; apply Nd1; apply in_map_iff; exists (d, op'); auto).
      rewrite sset_other by auto. specialize (Hk d' op' (or_intror Hin) Ik).
      destruct (arr d') as [q|] eqn:Eq; simpl in *; auto. intros o Ho.
      apply Hk. destruct (sl_slot Sl Eq) as ((o' & Ho') & _). rewrite <- Ho. symmetry. apply Ev1; [exact (get_lt Ho')|].
      eapply other_not_slot; eauto.
    + exists arr', m'. cbn [run]. unfold bind. rewrite E1. simpl. split; [exact E|]. split; [auto|]. split; [auto|]. split; [|split; [|split]].
      * eapply evolves_trans; [exact Ev1|exact Ev'|]. intros q Hq [Q|(d' & Hd & Q)].
        -- exists d. simpl; auto.
        -- apply sset_cases in Q. destruct Q as [(-> & ->)|(_ & Q)].
           ++ exists d. split; [simpl; auto|]. destruct Pn as [Q|Q]; [auto|lia].
           ++ exists d'. simpl; auto.
      * intros k Hk'. rewrite Un by (intros Q; apply Hk'; simpl; auto). apply sset_other. intros ->. apply Hk'. simpl; auto.
      * intros k q Q. destruct (Wh _ _ Q) as [Q'|Q'].
        -- apply sset_cases in Q'. destruct Q' as [(-> & ->)|(_ & Q')]; auto.
        -- right. pose proof (ev_len Ev1). lia.
      * intros k w q o Hin Hw Hq Ho Er Ec. destruct (keq k d) as [->|Ne].
        -- assert (Ew : w = v).
           { rewrite (vrun_off Hv Nd1) in Hw. unfold vset in Hw. destruct (keq d d) as [_|]; [|contradiction]. now injection Hw. }
           subst w. rewrite (Un d Nd1), sset_same. f_equal.
           assert (Ho0 : get m0 q = Some o) by (rewrite <- Ho; apply (ev_frame Ev0); [exact (get_lt Ho)|intros []]).
           exact (wr_reuse W Hq Ho0 Er Ec).
        -- destruct Hin as [Hin|Hin]; [simpl in Hin; congruence|].
           apply (Ru k w q o); auto; [rewrite sset_other by auto; exact Hq|].
           rewrite <- Ho. apply (ev_frame Ev1); [exact (get_lt Ho)|]. eapply other_not_slot; eauto.
Qed.
End Correct.
