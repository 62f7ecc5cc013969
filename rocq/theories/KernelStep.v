(** * Running many kernels one after another

    All matrices in CPU memory, with distinct numbers, and a sound registry of special
    matrices ([tame]).  Every kernel keeps a memory tame; this file turns the results
    about single kernels (KernelProofs.v, Registry.v) into statements that compose. *)

From Coq Require Import List Arith Bool Lia Permutation.
From Verif Require Import Num MatMem Kernels KernelFacts KernelProofs KernelBlocks Registry.
Import ListNotations.
Set Implicit Arguments.
Unset Strict Implicit.

(** A matrix as a mathematical object: dimensions and entries. *)
Record mat (T : Type) : Type := Mat { mr : nat; mc : nat; mf : nat -> nat -> T }.
Arguments Mat {T} mr mc mf.

Section Step.
Context {T : Type} {N : Num T}.
Notation mem := (mem T).
Notation M := (M T).
Notation mat := (mat T).
Variable S : sched T.
Hypothesis VS : valid_sched S.
Implicit Types (m : mem) (v : mat).

(** Pointer p points to the matrix v. *)
Definition holds m (p : ptr) v : Prop :=
  is_mat m p (mr v) (mc v) /\ forall i j, i < mr v -> j < mc v -> val m p i j = mf v i j.
Definition dims v (R C : nat) : Prop := mr v = R /\ mc v = C.
(** Same dimensions and same entries. *)
Definition meq (v w : mat) : Prop :=
  mr v = mr w /\ mc v = mc w /\ forall i j, i < mr v -> j < mc v -> mf v i j = mf w i j.

(** All matrices are in CPU memory and have different numbers below the counter. *)
Definition spaced m : Prop :=
  (forall p o, get m p = Some o -> o_space o = CPU /\ o_nidx o < next m) /\
  (forall p q o o', get m p = Some o -> get m q = Some o' -> o_nidx o = o_nidx o' -> p = q).
Definition is_special m (p : ptr) : Prop := exists k, In (k, p) (specials m).
Definition tame m : Prop := good m /\ spaced m /\ reg_ok m.

(** ** [spaced] is kept by every computation *)
Definition pres {A} (c : M A) : Prop := forall m a m', spaced m -> c m = Ok (a, m') -> spaced m'.

Lemma pres_ret A (a : A) : pres (ret a).
Proof. intros m x m' H [= <- <-]. exact H. Qed.
Lemma pres_bind A B (c : M A) (k : A -> M B) : pres c -> (forall a, pres (k a)) -> pres (bind c k).
Proof.
  intros Hc Hk m b m' Q E. unfold bind in E. destruct (c m) as [[a m1]| |] eqn:E1; try discriminate.
  exact (Hk a _ _ _ (Hc _ _ _ Q E1) E).
Qed.
Lemma pres_deref B (p : ptr) (k : mobj T -> M B) : (forall o, o_space o = CPU -> pres (k o)) -> pres (bind (deref p) k).
Proof.
  intros Hk m b m' Q E. unfold bind, deref in E. destruct (get m p) as [o|] eqn:Ho; try discriminate.
  eapply Hk; eauto. eapply Q; eauto.
Qed.
Lemma pres_assert b : pres (assert b).
Proof. intros m a m' Q E. unfold assert in E. destruct b; try discriminate. injection E as _ <-. exact Q. Qed.
Lemma pres_raw p k : pres (raw p k).
Proof.
  intros m a m' Q E. unfold raw in E. destruct (get m p); try discriminate. destruct (nth_error _ k); try discriminate.
  injection E as _ <-. exact Q.
Qed.
Lemma spaced_put m p o o' : spaced m -> get m p = Some o -> o_space o' = CPU -> o_nidx o' = o_nidx o -> spaced (put m p o').
Proof.
  intros (A & B) H E1 E2. pose proof (get_lt H) as L.
  assert (Hq : forall q oq, get (put m p o') q = Some oq -> exists oq', get m q = Some oq' /\ o_nidx oq = o_nidx oq' /\ (o_space oq = CPU)).
  { intros q oq Hq. destruct (Nat.eq_dec p q) as [<-|Ne].
    - rewrite get_put_same in Hq by auto. injection Hq as <-. exists o. auto.
    - rewrite get_put_other in Hq by auto. exists oq. split; auto. split; auto. eapply A; eauto. }
  split.
  - intros q oq Hq'. destruct (Hq _ _ Hq') as (oq' & G & En & Es). split; auto. rewrite En. exact (proj2 (A _ _ G)).
  - intros q q' oq oq' H1 H2 En. destruct (Hq _ _ H1) as (x & Gx & Ex & _). destruct (Hq _ _ H2) as (y & Gy & Ey & _).
    eapply B; eauto. congruence.
Qed.
Lemma pres_rawset p k x : pres (rawset p k x).
Proof.
  intros m a m' Q E. unfold rawset in E. destruct (get m p) as [o|] eqn:Ho; try discriminate.
  destruct (k <? _); try discriminate. injection E as _ <-. eapply spaced_put; eauto. simpl. eapply Q; eauto.
Qed.
Lemma pres_at2 p i j : pres (at2 p i j).
Proof. apply pres_deref. intros o _. repeat (apply pres_bind; [apply pres_assert|intros _]). apply pres_raw. Qed.
Lemma pres_set2 p i j x : pres (set2 p i j x).
Proof. apply pres_deref. intros o _. repeat (apply pres_bind; [apply pres_assert|intros _]). apply pres_rawset. Qed.
Lemma pres_set1 p i x : pres (set1 p i x).
Proof. apply pres_deref. intros o _. repeat (apply pres_bind; [apply pres_assert|intros _]). apply pres_rawset. Qed.
Lemma pres_new R C fill : pres (new_mat (T := T) CPU R C fill).
Proof.
  apply pres_bind; [apply pres_assert|]. intros _ m a m' (A & B) E. injection E as _ <-.
  assert (Hq : forall q oq, get (MkMem (objs m ++ [Some (MkObj (next m) CPU R C (new_buf CPU (R * C) fill (junk m (next m))))]) (Datatypes.S (next m)) (junk m) (specials m)) q = Some oq ->
     (get m q = Some oq) \/ (q = length (objs m) /\ o_nidx oq = next m /\ o_space oq = CPU)).
  { intros q oq H. unfold get in *. simpl in H. destruct (Nat.lt_ge_cases q (length (objs m))) as [L|L].
    - rewrite nth_error_app1 in H by auto. auto.
    - rewrite nth_error_app2 in H by auto. destruct (q - length (objs m)) as [|k] eqn:Ek; simpl in H.
      + injection H as <-. right. split; [lia|]. auto.
      + destruct k; discriminate. }
  split.
  - intros q oq H. simpl. destruct (Hq _ _ H) as [H'|(_ & -> & ->)]; [|auto]. destruct (A _ _ H') as [? ?]. auto.
  - intros q q' oq oq' H1 H2 En. destruct (Hq _ _ H1) as [H1'|(E1 & N1 & _)], (Hq _ _ H2) as [H2'|(E2 & N2 & _)].
    + eapply B; eauto.
    + destruct (A _ _ H1') as [_ L]. lia.
    + destruct (A _ _ H2') as [_ L]. lia.
    + congruence.
Qed.
Lemma pres_reshape p R C : pres (reshape p R C).
Proof.
  intros m a m' Q E. unfold reshape, bind, deref in E. destruct (get m p) as [o|] eqn:Ho; try discriminate.
  unfold assert in E. destruct (_ =? _); try discriminate. injection E as _ <-.
  eapply spaced_put; eauto. simpl. eapply Q; eauto.
Qed.
Lemma pres_pool fill r R C : pres (pool_with fill CPU r R C).
Proof.
  destruct r as [p|]; [|apply pres_new]. apply pres_deref. intros o _.
  destruct (_ =? _); [apply pres_bind; [apply pres_reshape|intros; apply pres_ret]|].
  destruct (negb _); [apply pres_new|apply pres_ret].
Qed.
Lemma pres_for I (l : list I) body : (forall i, pres (body i)) -> pres (for_each l body).
Proof. intros H. induction l as [|i l IH]; simpl; [apply pres_ret|]. apply pres_bind; auto. Qed.
Lemma pres_par (I : Set) (l : list I) body : (forall i, pres (body i)) -> pres (par_each S l body).
Proof. intros H m a m' Q E. exact (pres_for H Q E). Qed.
Lemma pres_par2 (I J : Set) (l : list I) (l' : list J) body : (forall i j, pres (body i j)) -> pres (par_each2 S l l' body).
Proof. intros H. apply pres_par. intros ij. apply H. Qed.
Lemma pres_inner a b i j ms t : pres (inner_product a b i j ms t).
Proof.
  revert t. induction ms as [|k ms IH]; intros t; simpl; [apply pres_ret|].
  apply pres_bind; [apply pres_at2|intros x]. apply pres_bind; [apply pres_at2|intros y]. apply IH.
Qed.
Lemma pres_trace_loop a ms t : pres (trace_loop a ms t).
Proof.
  revert t. induction ms as [|k ms IH]; intros t; simpl; [apply pres_ret|].
  apply pres_bind; [apply pres_at2|intros x]. apply IH.
Qed.
Lemma pres_reset_zero r : pres (reset_zero r).
Proof.
  destruct r as [p|]; [|apply pres_ret]. intros m a m' Q E. unfold reset_zero, bind, deref in E.
  destruct (get m p) as [o|] eqn:Ho; try discriminate. injection E as _ <-.
  eapply spaced_put; eauto. simpl. eapply Q; eauto.
Qed.

Ltac pres_step := first
  [ apply pres_ret | apply pres_assert | apply pres_raw | apply pres_rawset | apply pres_at2 | apply pres_set2 | apply pres_set1
  | apply pres_inner | apply pres_reset_zero
  | apply pres_deref; let o := fresh "o" in let Ho := fresh "Ho" in intros o Ho; rewrite ?Ho
  | match goal with |- pres (bind (pool ?s _ _ _) _) => apply pres_bind; [unfold pool; try match goal with H : s = CPU |- _ => rewrite H end; apply pres_pool|intros ?] end
  | match goal with |- pres (par_each _ _ _) => apply pres_par; intros ? end
  | match goal with |- pres (par_each2 _ _ _ _) => apply pres_par2; intros ? ? end
  | match goal with |- pres (if ?b then _ else _) => destruct b end
  | match goal with |- pres (bind _ _) => apply pres_bind; [|intros ?] end
  | progress cbv zeta ].

Lemma pres_elementwise op a b r : pres (elementwise S op a b r).
Proof. unfold elementwise. repeat pres_step. Qed.
Lemma pres_elementwise1 op a r : pres (elementwise1 S op a r).
Proof. unfold elementwise1. repeat pres_step. Qed.
Lemma pres_MatMul a b r : pres (MatMul S a b r).
Proof. unfold MatMul. repeat pres_step. Qed.
Lemma pres_MatKron a b r : pres (MatKron S a b r).
Proof. unfold MatKron. repeat pres_step. Qed.
Lemma pres_MatTranspose a r : pres (MatTranspose S a r).
Proof. unfold MatTranspose. repeat pres_step. Qed.
Lemma pres_MatDervTranspose a b c d x r : pres (MatDervTranspose S a b c d x r).
Proof. unfold MatDervTranspose. repeat pres_step. Qed.
Lemma pres_MatTrace a r : pres (MatTrace S a r).
Proof.
  unfold MatTrace. repeat pres_step. intros m x m' Q E. exact (@pres_trace_loop _ _ _ _ _ _ Q E).
Qed.
Lemma pres_getBlockMat p a b r : pres (getBlockMat S p a b r).
Proof. unfold getBlockMat. repeat pres_step. Qed.
Lemma pres_setBlockMat p a b r : pres (setBlockMat S p a b r).
Proof. unfold setBlockMat. repeat pres_step. Qed.
Lemma pres_pad p a b r : pres (pad S p a b r).
Proof. unfold pad. repeat pres_step. Qed.
Lemma pres_lookup k : pres (lookup_special (T := T) k).
Proof. intros m a m' Q E. injection E as _ <-. exact Q. Qed.
Lemma pres_register k p : pres (register_special (T := T) k p).
Proof. intros m a m' Q E. injection E as _ <-. exact Q. Qed.
Lemma pres_request k R C : pres (request S k CPU R C).
Proof.
  destruct k; unfold request, Eye, Zeros, Ones.
  - apply pres_bind; [apply pres_lookup|]. intros [p|]; [apply pres_ret|].
    apply pres_bind; [apply pres_pool|intros p]. apply pres_bind; [apply pres_par; intros; apply pres_set2|intros _].
    apply pres_bind; [apply pres_register|intros; apply pres_ret].
  - apply pres_bind; [apply pres_lookup|]. intros [p|]; [apply pres_ret|].
    apply pres_bind; [apply pres_pool|intros p]. apply pres_bind; [apply pres_register|intros; apply pres_ret].
  - apply pres_bind; [apply pres_lookup|]. intros [p|]; [apply pres_ret|].
    apply pres_bind; [apply pres_pool|intros p]. apply pres_bind; [apply pres_register|intros; apply pres_ret].
Qed.

(** ** What a step may change *)
(** Memory m evolved to m' and, of the matrices existing in m, only those in W changed;
    matrices keep existing, and of them exactly the old special ones are special. *)
Record evolves (W : ptr -> Prop) m m' : Prop := {
  ev_tame : tame m';
  ev_len : length (objs m) <= length (objs m');
  ev_frame : forall q, q < length (objs m) -> ~ W q -> get m' q = get m q;
  ev_special : forall q, q < length (objs m) -> (is_special m' q <-> is_special m q);
  ev_live : forall q, (exists o, get m q = Some o) -> exists o, get m' q = Some o
}.
Definition nothing : ptr -> Prop := fun _ => False.

Lemma evolves_refl W m : tame m -> evolves W m m.
Proof. intros H. constructor; auto; tauto. Qed.
Lemma evolves_trans (W W' W2 : ptr -> Prop) m m' m2 : evolves W m m' -> evolves W' m' m2 ->
  (forall q, q < length (objs m) -> W q \/ W' q -> W2 q) -> evolves W2 m m2.
Proof.
  intros [T1 L1 F1 S1 V1] [T2 L2 F2 S2 V2] H. constructor; auto; [lia| |].
  - intros q Hq Nq. rewrite F2 by (try lia; intros X; apply Nq; auto). apply F1; auto.
  - intros q Hq. rewrite S2 by lia. apply S1; auto.
Qed.
Lemma evolves_weaken (W W2 : ptr -> Prop) m m' : evolves W m m' -> (forall q, q < length (objs m) -> W q -> W2 q) -> evolves W2 m m'.
Proof. intros [T1 L1 F1 S1 V1] H. constructor; auto. Qed.

Lemma holds_lt m p v : holds m p v -> p < length (objs m).
Proof. intros ((k & sp & b & H & _) & _). exact (get_lt H). Qed.
Lemma holds_get m p v : holds m p v -> exists o, get m p = Some o.
Proof. intros ((k & sp & b & H & _) & _). eauto. Qed.
Lemma holds_same m m' p v : get m' p = get m p -> holds m p v -> holds m' p v.
Proof.
  intros E ((kk & sp & b & H & L) & V). split.
  - exists kk, sp, b. rewrite E. auto.
  - intros i j Hi Hj. rewrite <- (V i j Hi Hj). unfold val. now rewrite E.
Qed.
Lemma holds_evolves W m m' p v : evolves W m m' -> ~ W p -> holds m p v -> holds m' p v.
Proof. intros Ev Nw H. apply (holds_same (m := m)); auto. apply Ev; auto. exact (holds_lt H). Qed.
Lemma holds_meq m p v w : holds m p v -> meq v w -> holds m p w.
Proof.
  intros (IM & V) (E1 & E2 & E3). split; [now rewrite <- E1, <- E2|].
  intros i j Hi Hj. rewrite V by congruence. apply E3; congruence.
Qed.
Lemma holds_det m p v w : holds m p v -> holds m p w -> meq v w.
Proof.
  intros ((k & sp & b & H & L) & V) ((k' & sp' & b' & H' & L') & V'). rewrite H in H'. injection H' as <- <- E1 E2 <-.
  split; auto. split; auto. intros i j Hi Hj. rewrite <- V, <- V'; auto; congruence.
Qed.
Lemma meq_refl v : meq v v.
Proof. split; auto. Qed.
Lemma meq_sym v w : meq v w -> meq w v.
Proof. intros (A & B & D). split; auto. split; auto. intros. symmetry. apply D; congruence. Qed.
Lemma meq_trans v w u : meq v w -> meq w u -> meq v u.
Proof.
  intros (A & B & D) (A' & B' & D'). split; [congruence|]. split; [congruence|]. intros. rewrite D by auto. apply D'; congruence.
Qed.

Lemma tame_cpu m p : tame m -> space_of m p = CPU.
Proof. intros (_ & (A & _) & _). unfold space_of. destruct (get m p) as [o|] eqn:H; auto. exact (proj1 (A _ _ H)). Qed.
Lemma tame_pos m p v : tame m -> holds m p v -> 0 < mr v /\ 0 < mc v.
Proof. intros (G & _) ((k & sp & b & H & L) & _). destruct (G _ _ H) as (A & B & _). auto. Qed.
Lemma tame_names m p q : tame m -> (exists o, get m p = Some o) -> (exists o, get m q = Some o) -> p <> q -> name m p <> name m q.
Proof.
  intros (_ & (_ & B) & _) (o & Ho) (o' & Ho') Ne E. unfold name in E. rewrite Ho, Ho' in E. apply Ne. eapply B; eauto.
Qed.

(** A result slot that may be overwritten: null, or an existing ordinary matrix. *)
Definition slot_ok m (r : option ptr) : Prop :=
  match r with Some q => (exists o, get m q = Some o) /\ ~ is_special m q | None => True end.

(** The kernel wrote v into p, which is the given result matrix or a new one. *)
Record wrote m (r : option ptr) (p : ptr) v m' : Prop := {
  wr_holds : holds m' p v;
  wr_where : r = Some p \/ length (objs m) <= p;
  wr_plain : ~ is_special m' p;
  wr_evolves : evolves (fun q => r = Some q) m m';
  wr_reuse : forall q o, r = Some q -> get m q = Some o -> o_rows o = mr v -> o_cols o = mc v -> p = q
}.

Lemma stored_wrote m m' r p R C F : tame m -> slot_ok m r -> stored m m' r p R C F -> spaced m' -> wrote m r p (Mat R C F) m'.
Proof.
  intros (G & Sp & RO) Hr (IM & V & W & Fr & Es & Nm & G') Sp'.
  assert (Wp : r = Some p \/ (p = length (objs m))).
  { destruct r as [q|]; [|auto]. revert W. destruct (_ =? _); intros ->; auto. }
  assert (Np : ~ is_special m' p).
  { intros (k & Hk). rewrite Es in Hk. destruct Wp as [-> | ->].
    - apply (proj2 Hr). exists k; auto.
    - destruct k as [[[kk sp] R'] C']. destruct (RO _ _ _ _ _ Hk) as ((o & Ho) & _). apply get_lt in Ho. lia. }
  constructor.
  - split; auto.
  - destruct Wp as [-> | ->]; auto.
  - exact Np.
  - constructor.
    + split; [exact G'|]. split; [exact Sp'|]. intros k sp R' C' q Hq. rewrite Es in Hq.
      destruct (RO _ _ _ _ _ Hq) as (Ex & Hh).
      assert (q <> p) by (intros ->; apply Np; exists (k, sp, R', C'); now rewrite Es).
      split; [destruct Ex as (o & Ho); exists o; now rewrite Fr|]. intros Rl. eapply holds_frame; [apply Fr; auto|auto].
    + destruct Nm as (_ & [(L & _)|(L & _)]); lia.
    + intros q Hq Nq. apply Fr. intros ->. destruct Wp as [E|E]; [exact (Nq E)|lia].
    + intros q Hq. unfold is_special. now rewrite Es.
    + intros q Hq. destruct (Nat.eq_dec q p) as [->|Ne]; [|now rewrite Fr]. destruct IM as (? & ? & ? & ? & _). eauto.
  - intros q o -> Ho E1 E2. cbn [mr mc] in *. unfold num_elem in W. rewrite Ho, E1, E2, Nat.eqb_refl in W. exact W.
Qed.

Lemma request_step m k R C : tame m -> 0 < R -> 0 < C -> (k = KEye -> R = C) ->
  exists p m', request S k CPU R C m = Ok (p, m') /\ holds m' p (Mat R C (special_entry k)) /\ is_special m' p /\
    evolves nothing m m'.
Proof.
  intros Tm PR PC Sq. pose proof Tm as (G & Sp & RO).
  destruct (find_special (k, CPU, R, C) (specials m)) as [q|] eqn:Fs.
  - pose proof (find_special_in Fs) as In0. exists q, m. split; [now apply request_hit|]. split; [|split].
    + apply (RO _ _ _ _ _ In0). now left.
    + eexists. exact In0.
    + apply evolves_refl. exact Tm.
  - destruct (@request_new T N S VS m k CPU R C G PR PC Sq Fs) as (m' & E & G' & Es & Fr & IM & V).
    exists (length (objs m)), m'. split; [exact E|]. split; [|split].
    + split; [exact IM|]. simpl. intros i j Hi Hj. rewrite V by auto. apply fresh_reliable. now left.
    + eexists. rewrite Es. left. reflexivity.
    + constructor.
      * split; [exact G'|]. split; [exact (@pres_request k R C m _ _ Sp E)|].
        apply (reg_add Es Fr IM); [|exact RO]. intros Rl i j Hi Hj. rewrite V by auto. now apply fresh_reliable.
      * assert (exists o, get m' (length (objs m)) = Some o) as (o & Ho) by (destruct IM as (? & ? & ? & ? & _); eauto).
        apply get_lt in Ho. lia.
      * intros q Hq _. apply Fr. lia.
      * intros q Hq. unfold is_special. rewrite Es. split; intros (k' & Hk).
        -- destruct Hk as [[= _ <-]|Hk]; [lia|eauto].
        -- exists k'. right. exact Hk.
      * intros q (o & Ho). exists o. rewrite Fr; [exact Ho|]. apply get_lt in Ho. lia.
Qed.

Lemma slot_res m r : slot_ok m r -> res_ok m r.
Proof. destruct r; [intros [? _]; auto|auto]. Qed.

End Step.
