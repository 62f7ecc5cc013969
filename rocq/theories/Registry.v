(** * Special matrices after any history of requests and other operations *)

From Coq Require Import List Arith Bool Lia Permutation ZArith.
From Verif Require Import Num NumInst MatMem Kernels KernelFacts KernelProofs KernelBlocks.
Import ListNotations.
Set Implicit Arguments.
Unset Strict Implicit.

Section Registry.
Context {T : Type} {N : Num T}.
Notation mem := (mem T).
Variable S : sched T.
Hypothesis VS : valid_sched S.
Implicit Types (m : mem).

(** Specification: the entries a user expects. *)
Definition special_entry (k : special) (i j : nat) : T :=
  match k with KEye => if i =? j then n1 else n0 | KZeros => n0 | KOnes => n1 end.

(** A request as the user writes it (Eye has one size argument). *)
Definition request (k : special) (sp : space) (R C : nat) : M T ptr :=
  match k with KEye => Eye S sp R | KZeros => Zeros sp R C | KOnes => Ones sp R C end.

(** Everything a program can do: request special matrices (of any kind and allocator),
    or anything else that leaves the already registered matrices alone. *)
Inductive history : mem -> Prop :=
| hist_start m : good m -> specials m = [] -> history m
| hist_request m k sp R C p m' : history m -> (k = KEye -> R = C) -> request k sp R C m = Ok (p, m') -> history m'
| hist_other m m' : history m -> good m' -> specials m' = specials m ->
    (forall k p, In (k, p) (specials m) -> get m' p = get m p) -> history m'.

(** Pinned memory is handed out uninitialised, so only Ones is reliable there. *)
Definition reliable (k : special) (sp : space) : Prop := sp = CPU \/ k = KOnes.

Definition holds_special m (p : ptr) (k : special) (R C : nat) : Prop :=
  is_mat m p R C /\ forall i j, i < R -> j < C -> val m p i j = special_entry k i j.

Definition reg_ok m : Prop := forall k sp R C p, In ((k, sp, R, C), p) (specials m) ->
  (exists o, get m p = Some o) /\ (reliable k sp -> holds_special m p k R C).

Lemma key_eqb_true a b : key_eqb a b = true <-> a = b.
Proof.
  destruct a as [[[k1 s1] n1'] m1], b as [[[k2 s2] n2] m2]. unfold key_eqb. split.
  - rewrite !andb_true_iff, !Nat.eqb_eq. intros (((K & Sp) & ->) & ->).
    destruct k1, k2; try discriminate; destruct s1, s2; try discriminate; reflexivity.
  - intros [= -> -> -> ->]. destruct k2, s2; simpl; rewrite !Nat.eqb_refl; reflexivity.
Qed.
Lemma find_special_in k r p : find_special k r = Some p -> In (k, p) r.
Proof.
  induction r as [|[k' p'] r IH]; simpl; [discriminate|].
  destruct (key_eqb k k') eqn:E; [|auto]. intros [= ->]. apply key_eqb_true in E. subst. now left.
Qed.

Lemma holds_frame m m' p k R C : get m' p = get m p -> holds_special m p k R C -> holds_special m' p k R C.
Proof.
  intros E ((kk & sp & b & H & L) & V). split.
  - exists kk, sp, b. rewrite E. auto.
  - intros i j Hi Hj. rewrite <- (V i j Hi Hj). unfold val. now rewrite E.
Qed.

(** What a request does. *)
Definition fresh_entry m (k : special) (sp : space) (C i j : nat) : T :=
  match k, sp with
  | KOnes, _ => n1
  | KEye, _ => if i =? j then n1 else match sp with CPU => n0 | GPU => junk m (next m) (i * C + j) end
  | KZeros, CPU => n0
  | KZeros, GPU => junk m (next m) (i * C + j)
  end.

Lemma reg_add m m' k sp R C : specials m' = ((k, sp, R, C), length (objs m)) :: specials m ->
  (forall q, q <> length (objs m) -> get m' q = get m q) ->
  is_mat m' (length (objs m)) R C ->
  (reliable k sp -> forall i j, i < R -> j < C -> val m' (length (objs m)) i j = special_entry k i j) ->
  reg_ok m -> reg_ok m'.
Proof.
  intros Es Fr IM V RO k' sp' R' C' p H. rewrite Es in H. destruct H as [[= <- <- <- <- <-]|H].
  - split; [destruct IM as (? & ? & ? & ? & _); eauto|]. intros Rl. split; [exact IM|]. now apply V.
  - destruct (RO _ _ _ _ _ H) as ((o & Ho) & Hh).
    assert (Ne : p <> length (objs m)) by (pose proof (get_lt Ho); lia).
    split; [exists o; rewrite Fr; auto|]. intros Rl. eapply holds_frame; [apply Fr; exact Ne|auto].
Qed.

Lemma request_new m k sp R C : good m -> 0 < R -> 0 < C -> (k = KEye -> R = C) ->
  find_special (k, sp, R, C) (specials m) = None ->
  exists m', request k sp R C m = Ok (length (objs m), m') /\ good m' /\
    specials m' = ((k, sp, R, C), length (objs m)) :: specials m /\
    (forall q, q <> length (objs m) -> get m' q = get m q) /\ is_mat m' (length (objs m)) R C /\
    forall i j, i < R -> j < C -> val m' (length (objs m)) i j = fresh_entry m k sp C i j.
Proof.
  intros G PR PC Sq Fs.
  assert (Hf : forall sp fill (j : nat -> T) n l, l < n -> nth_error (new_buf sp n fill j) l =
     Some (match fill, sp with Some v, _ => v | None, CPU => n0 | None, GPU => j l end)).
  { intros sp0 fill j n l Hl. rewrite (nth_error_def n0) by (rewrite length_new_buf; exact Hl). f_equal.
    destruct fill as [v|]; simpl; [apply nth_error_nth; rewrite (nth_error_nth' _ v) by (rewrite repeat_length; auto); now rewrite nth_repeat|].
    destruct sp0; simpl; [apply nth_error_nth; rewrite (nth_error_nth' _ n0) by (rewrite repeat_length; auto); now rewrite nth_repeat|].
    apply nth_error_nth. rewrite nth_error_map. rewrite (nth_error_nth' _ 0) by (rewrite seq_length; auto). simpl. now rewrite seq_nth. }
  destruct k.
  - (* Eye *) specialize (Sq eq_refl). subst C. unfold request, Eye.
    unfold bind at 1. unfold lookup_special at 1. rewrite Fs. unfold pool, pool_with.
    destruct (new_mat_ok sp (R := R) (C := R) None G PR PR) as (m1 & E1 & Hp & Fr & Sp & G1 & Nx & Ln).
    unfold bind at 1. rewrite E1.
    set (p := length (objs m)) in *.
    set (o := MkObj (next m) sp R R (new_buf sp (R * R) None (junk m (next m)))) in *.
    destruct (@par_scatter T S nat m1 p o (seq 0 R) (fun i => i * R + i) (fun _ => Some n1) (fun i => set2 p i i n1))
      as (b' & Ew & Lb & Wr & Un); [exact VS|exact Hp|apply seq_NoDup| | | |].
    + intros i Hi _. apply in_seq in Hi. unfold o; cbn [o_buf]. rewrite length_new_buf. apply idx_bound; lia.
    + intros i j Hi Hj _ _ E. apply in_seq in Hi. apply in_seq in Hj. apply (@idx_inj R i i j j) in E; lia.
    + intros i b Hi Lb' _. apply in_seq in Hi. unfold o in Lb'; cbn [o_buf] in Lb'. rewrite length_new_buf in Lb'.
      apply (@set2_upd T m1 p o b i i n1); simpl; auto; try lia. rewrite Lb'. apply idx_bound; lia.
    + unfold bind at 1. rewrite Ew. unfold bind at 1. unfold register_special at 1. unfold ret.
      assert (Lb0 : length b' = R * R) by (rewrite Lb; apply length_new_buf). clear Lb. rename Lb0 into Lb.
      eexists. split; [reflexivity|].
      pose proof (get_upd_same b' Hp) as Hpb.
      assert (G2 : good (upd m1 p b')). { apply (good_upd G1 Hp). rewrite Lb. symmetry. apply length_new_buf. }
      split. { intros q oq Hq. exact (G2 q oq Hq). }
      split. { simpl. now rewrite specials_upd, Sp. }
      split. { intros q Hq. unfold get at 1. simpl. change (get (upd m1 p b') q = get m q). rewrite get_upd_other by auto. apply Fr; auto. }
      split. { exists (next m), sp, b'. split; [exact Hpb|exact Lb]. }
      intros i j Hi Hj. unfold val.
      match goal with |- context [get ?m p] => change (get m p) with (get (upd m1 p b') p) end. rewrite Hpb. simpl.
      apply nth_error_nth. destruct (i =? j) eqn:Eij.
      * apply Nat.eqb_eq in Eij. subst j. apply Wr; auto. apply in_seq. lia.
      * apply Nat.eqb_neq in Eij. rewrite Un.
        -- unfold o; cbn [o_buf]. rewrite Hf by (apply idx_bound; auto). destruct sp; reflexivity.
        -- intros i' Hi' _ E. apply in_seq in Hi'. apply (@idx_inj R) in E; lia.
  - (* Zeros *) unfold request, Zeros. unfold bind at 1. unfold lookup_special at 1. rewrite Fs. unfold pool, pool_with.
    destruct (new_mat_ok sp (R := R) (C := C) None G PR PC) as (m1 & E1 & Hp & Fr & Sp & G1 & Nx & Ln).
    unfold bind at 1. rewrite E1. unfold bind at 1, register_special at 1, ret.
    eexists. split; [reflexivity|]. split; [intros q oq Hq; exact (G1 q oq Hq)|].
    split; [simpl; now rewrite Sp|]. split; [exact Fr|].
    split. { eexists _, _, _. split; [exact Hp|apply length_new_buf]. }
    intros i j Hi Hj. unfold val. match goal with |- context [get ?m0 (length (objs m))] => change (get m0 (length (objs m))) with (get m1 (length (objs m))) end. rewrite Hp. cbn [o_buf o_cols].
    apply nth_error_nth. rewrite Hf by (apply idx_bound; auto). destruct sp; reflexivity.
  - (* Ones *) unfold request, Ones. unfold bind at 1. unfold lookup_special at 1. rewrite Fs. unfold pool_with.
    destruct (new_mat_ok sp (R := R) (C := C) (Some n1) G PR PC) as (m1 & E1 & Hp & Fr & Sp & G1 & Nx & Ln).
    unfold bind at 1. rewrite E1. unfold bind at 1, register_special at 1, ret.
    eexists. split; [reflexivity|]. split; [intros q oq Hq; exact (G1 q oq Hq)|].
    split; [simpl; now rewrite Sp|]. split; [exact Fr|].
    split. { eexists _, _, _. split; [exact Hp|apply length_new_buf]. }
    intros i j Hi Hj. unfold val. match goal with |- context [get ?m0 (length (objs m))] => change (get m0 (length (objs m))) with (get m1 (length (objs m))) end. rewrite Hp. cbn [o_buf o_cols].
    apply nth_error_nth. now rewrite Hf by (apply idx_bound; auto).
Qed.

Lemma request_hit m k sp R C p : (k = KEye -> R = C) -> find_special (k, sp, R, C) (specials m) = Some p ->
  request k sp R C m = Ok (p, m).
Proof.
  intros Sq H. destruct k; unfold request, Eye, Zeros, Ones, bind, lookup_special.
  - specialize (Sq eq_refl). subst C. now rewrite H.
  - now rewrite H.
  - now rewrite H.
Qed.

Lemma request_empty m k sp R C : (k = KEye -> R = C) -> R = 0 \/ C = 0 -> find_special (k, sp, R, C) (specials m) = None ->
  request k sp R C m = Rejected.
Proof.
  intros Sq Z H.
  assert (An : (0 <? R) && (0 <? C) = false).
  { destruct Z as [-> | ->]; [reflexivity|]. apply andb_false_r. }
  destruct k; unfold request, Eye, Zeros, Ones, bind, lookup_special.
  - specialize (Sq eq_refl). subst C. rewrite H. unfold pool, pool_with, new_mat, bind, assert. now rewrite An.
  - rewrite H. unfold pool, pool_with, new_mat, bind, assert. now rewrite An.
  - rewrite H. unfold pool_with, new_mat, bind, assert. now rewrite An.
Qed.

Lemma fresh_reliable m k sp C i j : reliable k sp -> fresh_entry m k sp C i j = special_entry k i j.
Proof. intros [-> | ->]; [destruct k|destruct sp]; reflexivity. Qed.

Lemma history_ok m : history m -> good m /\ reg_ok m.
Proof.
  induction 1 as [m G E|m k sp R C p m' H [G RO] Sq Rq|m m' H [G RO] G' E Fr].
  - split; auto. intros ? ? ? ? ? I. rewrite E in I. destruct I.
  - destruct (find_special (k, sp, R, C) (specials m)) as [q|] eqn:Fs.
    + rewrite (request_hit Sq Fs) in Rq. injection Rq as <- <-. auto.
    + destruct (Nat.eq_dec R 0) as [->|PR]; [rewrite (request_empty Sq (or_introl eq_refl) Fs) in Rq; discriminate|].
      destruct (Nat.eq_dec C 0) as [->|PC]; [rewrite (request_empty Sq (or_intror eq_refl) Fs) in Rq; discriminate|].
      destruct (@request_new m k sp R C G) as (m2 & E2 & G2 & Sp & Fr & IM & V); auto; try lia.
      rewrite E2 in Rq. injection Rq as <- <-. split; [exact G2|].
      eapply reg_add; eauto. intros Rl i j Hi Hj. rewrite V by auto. now apply fresh_reliable.
  - split; auto. intros k sp R C p I. rewrite E in I. destruct (RO _ _ _ _ _ I) as ((o & Ho) & Hh).
    split; [exists o; rewrite (Fr _ _ I); auto|]. intros Rl. eapply holds_frame; [exact (Fr _ _ I)|auto].
Qed.

Theorem special_request m k sp R C : history m -> reliable k sp -> 0 < R -> 0 < C -> (k = KEye -> R = C) ->
  exists p m', request k sp R C m = Ok (p, m') /\ holds_special m' p k R C /\
    (forall q, q < length (objs m) -> get m' q = get m q) /\
    (forall m2, history m2 -> specials m2 = specials m' -> request k sp R C m2 = Ok (p, m2)).
Proof.
  intros H Rl PR PC Sq. destruct (history_ok H) as [G RO].
  destruct (find_special (k, sp, R, C) (specials m)) as [q|] eqn:Fs.
  - exists q, m. split; [now apply request_hit|]. pose proof (find_special_in Fs) as I.
    split; [apply (RO _ _ _ _ _ I); auto|]. split; [auto|].
    intros m2 _ E. apply request_hit; auto. now rewrite E.
  - destruct (@request_new m k sp R C G) as (m2 & E2 & G2 & Sp & Fr & IM & V); auto.
    exists (length (objs m)), m2. split; [exact E2|]. split; [split; [exact IM|]|split].
    + intros i j Hi Hj. rewrite V by auto. now apply fresh_reliable.
    + intros q Hq. apply Fr. lia.
    + intros m3 _ E. apply request_hit; auto. rewrite E, Sp. simpl.
      assert (K : key_eqb (k, sp, R, C) (k, sp, R, C) = true) by (now apply key_eqb_true). unfold key_eqb in K. now rewrite K.
Qed.

(** Any kernel whose result buffer is not a registered matrix is an "other" step. *)
Lemma stored_keeps m m' r p R C F : history m -> stored m m' r p R C F ->
  (forall k q, In (k, q) (specials m) -> r <> Some q) -> history m'.
Proof.
  intros H (IM & V & W & Fr & Sp & Nm & G) NR. destruct (history_ok H) as [G0 RO].
  apply (hist_other H G Sp). intros k q I. apply Fr. intros ->.
  destruct k as [[[kk sp] R'] C']. destruct (RO _ _ _ _ _ I) as ((o & Ho) & _).
  destruct r as [r|].
  - revert W. destruct (num_elem m r =? R * C); intros W; [exact (NR _ _ I (f_equal Some (eq_sym W)))|]. pose proof (get_lt Ho). lia.
  - pose proof (get_lt Ho). lia.
Qed.

End Registry.

(** The GPU (pinned) variants of Eye and Zeros return whatever the memory contained. *)
Section Refute.
Local Open Scope Z_scope.
Definition dirty_start : mem Z := MkMem [] 0 (fun _ _ => 7) [].
Lemma gpu_zeros_wrong : history (T := Z) (in_order (T := Z)) dirty_start /\
  exists p m', request (T := Z) (in_order (T := Z)) KZeros GPU 1 1 dirty_start = Ok (p, m') /\ val m' p 0 0 = 7.
Proof.
  split.
  - apply hist_start; [|reflexivity]. intros p o H. destruct p; discriminate.
  - eexists _, _. split; [reflexivity|]. reflexivity.
Qed.
Lemma gpu_eye_wrong : 
  exists p m', request (T := Z) (in_order (T := Z)) KEye GPU 2 2 dirty_start = Ok (p, m') /\ val m' p 0 1 = 7.
Proof. eexists _, _. split; reflexivity. Qed.
End Refute.
