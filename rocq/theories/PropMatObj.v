(** * Matrix objects: values, memory, clones

    The objects of MatObj.v (buffers, shared strategies, destructors) against the values of MatObjSpec.v. *)
From Coq Require Import List Arith Bool Lia ZArith.
From Verif Require Import MatMem MatObj MatObjSpec MatObjOk.
Import ListNotations.
Set Implicit Arguments.
Unset Strict Implicit.

(** ** C61: matrices are values *)
(** Every program inside the user's contract runs without undefined behaviour and without a failed check, and afterwards
    every matrix has the dimensions and entries it would have if matrices were values, every view shows the user's
    array, and the user's arrays hold what was written to them. *)
Theorem C61_matrices_are_values (T : Type) (zero : T) (p : list (stmt T)) (a : memory T) :
  meaning zero p = Some a -> exists w, run zero start p = Ok w /\ agrees w a.
Proof. intros E. destruct (meaning_ok E) as (w & inst & X & G). exists w. split; [exact X|]. exact (good_agrees G). Qed.

(** In particular, a copy has the entries the original had at the time, and nothing that does not name the copy changes
    it: not writing to the original, not moving, destroying or reassigning it, not changing the user's array it showed. *)
Lemma frame (T : Type) (zero : T) (a a' : memory T) (s : stmt T) x d : step zero a s = Some a' ->
  ~ In x (mentions s) -> cells a x = Some d -> cells a' x = Some d.
Proof.
  intros E N C. unfold new_cell, set_cell, set_arr in *.
  destruct s; cbn [step mentions new_cell] in *; unfold new_cell, set_cell, set_arr in *;
    repeat match goal with
    | H : match ?e with _ => _ end = Some _ |- _ => destruct e; try discriminate
    | H : Some _ = Some _ |- _ => injection H as <-
    end; try discriminate; cbn [cells]; rewrite ?upd_other by (intros ->; apply N; simpl; auto); auto.
Qed.
Theorem C61_copies_are_independent (T : Type) (zero : T) (p q : list (stmt T)) (x y r c : nat) (l : list T) (a b : memory T) :
  meaning zero p = Some a -> (exists d, cells a y = Some d /\ shape d = Some (r, c) /\ entries a d = Some l) ->
  meaning zero (p ++ SCopy x y :: q) = Some b -> Forall (fun s => ~ In x (mentions s)) q ->
  exists w, run zero start (p ++ SCopy x y :: q) = Ok w /\ dims w x = Some (r, c) /\
    forall i j v, i < r -> j < c -> nth_error l (i * c + j) = Some v -> read w x i j = Ok v.
Proof.
  intros Ea (d & Cy & Sd & En) Eb Hq. destruct (C61_matrices_are_values Eb) as (w & X & A1 & A2 & A3 & _). exists w. split; [exact X|].
  assert (Cx : cells b x = Some (Own r c l)).
  { unfold meaning in *. clear X A1 A2 A3 w. revert Ea Eb. generalize (empty (T := T)).
    induction p as [|s p IH]; intros e Ea Eb.
    - cbn [steps] in Ea. injection Ea as ->. cbn [app steps] in Eb. destruct (step zero a (SCopy x y)) as [a1|] eqn:E1; [|discriminate].
      assert (C1 : cells a1 x = Some (Own r c l)).
      { cbn [step] in E1. rewrite Cy in E1. destruct (copied a d) as [d'|] eqn:Cd; [|discriminate]. unfold new_cell in E1.
        destruct (cells a x); [discriminate|]. injection E1 as <-. simpl. rewrite upd_same. f_equal.
        destruct d as [|? ? ?|? ?|? ? [[n off]|]]; try discriminate; cbn [copied] in Cd; simpl in Sd; injection Sd as -> ->.
        - simpl in En. congruence.
        - rewrite En in Cd. congruence. }
      clear - C1 Eb Hq. revert a1 C1 Eb. induction q as [|s q IH]; intros a1 C1 Eb; simpl in Eb; [congruence|].
      destruct (step zero a1 s) as [a2|] eqn:E2; [|discriminate]. inversion Hq; subst. exact (IH H2 a2 (frame E2 H1 C1) Eb).
    - cbn [steps app] in *. destruct (step zero e s) as [e1|]; [|discriminate]. eapply IH; eauto. }
  split; [eapply A2; [exact Cx|reflexivity]|].
  intros i j v Hi Hj E. apply A3. unfold shown. rewrite Cx. cbn [shape entries]. apply Nat.ltb_lt in Hi, Hj. now rewrite Hi, Hj.
Qed.

(** Checks: a matrix without rows or columns, an entry outside the matrix, copyData or reshape between different numbers
    of entries, and pointing an owning matrix at other memory are rejected, whatever happened before. *)
Theorem C61_rejects (T : Type) (zero : T) (w : world T) x r c v p :
  (r = 0 \/ c = 0 -> exec zero w (SNew x r c) = Rejected /\ exec zero w (SFill x r c v) = Rejected /\
     (resolve w p <> Undefined -> exec zero w (SView x r c p) = Rejected)) /\
  (forall r0 c0, dims w x = Some (r0, c0) -> r0 <= r \/ c0 <= c -> read w x r c = Rejected /\ exec zero w (SWrite x r c v) = Rejected) /\
  (forall r0 c0, dims w x = Some (r0, c0) -> r * c <> r0 * c0 -> exec zero w (SReshape x r c) = Rejected) /\
  (forall y r0 c0 r1 c1, dims w x = Some (r0, c0) -> dims w y = Some (r1, c1) -> r0 * c0 <> r1 * c1 -> exec zero w (SCopyData x y) = Rejected).
Proof.
  unfold dims. split; [|split; [|split]].
  - intros Z. assert (E : (0 <? r) && (0 <? c) = false) by (destruct Z as [-> | ->]; [reflexivity|apply andb_false_r]).
    cbn [exec]. unfold construct_fill, construct, construct_view. cbn [new_strat]. rewrite E. split; [reflexivity|]. split; [reflexivity|].
    intros N. destruct (resolve w p) as [q| |] eqn:Eq; [reflexivity|reflexivity|congruence].
  - intros r0 c0 D H. destruct (mats w x) as [o|] eqn:Mx; [|discriminate]. injection D as <- <-.
    assert (E : (r <? rows_ o) && (c <? cols_ o) = false).
    { destruct H as [H|H]; apply Nat.ltb_ge in H; rewrite H; [reflexivity|apply andb_false_r]. }
    unfold read. cbn [exec]. unfold alive. rewrite Mx. cbn [then_]. rewrite E. auto.
  - intros r0 c0 D H. destruct (mats w x) as [o|] eqn:Mx; [|discriminate]. injection D as <- <-.
    cbn [exec]. unfold alive. rewrite Mx. cbn [then_]. apply Nat.eqb_neq in H. now rewrite H.
  - intros y r0 c0 r1 c1 D D' H. destruct (mats w x) as [o|] eqn:Mx; [|discriminate]. destruct (mats w y) as [o'|] eqn:My; [|discriminate].
    injection D as <- <-. injection D' as <- <-. cbn [exec]. unfold alive. rewrite My, Mx. cbn [then_]. apply Nat.eqb_neq in H. now rewrite H.
Qed.
Theorem C61_owner_keeps_its_memory (T : Type) (zero : T) (p : list (stmt T)) (a : memory T) w x r c l n off la :
  meaning zero p = Some a -> run zero start p = Ok w -> cells a x = Some (Own r c l) -> arrs a n = Some (Live la) ->
  exec zero w (SSetPtr x PNull) = Rejected /\ exec zero w (SSetPtr x (PAt n off)) = Rejected.
Proof.
  intros E X Cx An. destruct (meaning_ok E) as (w' & inst & X' & G). rewrite X in X'. injection X' as <-.
  destruct (good_some G (x := x) (h := None) ltac:(discriminate) Cx) as (o & Mx & Sh). destruct Sh as (k & b & -> & _).
  assert (Ar := i_arr G n). rewrite An in Ar. destruct Ar as (A1 & _).
  cbn [exec resolve]. rewrite A1. unfold alive. rewrite Mx. split; reflexivity.
Qed.

Module Example61.
Open Scope Z_scope.
Definition prog : list (stmt Z) :=
  [ SArray 0%nat [1; 2; 3; 4; 5; 6; 7]; SView 0%nat 2%nat 3%nat (PAt 0%nat 1%nat); SCopy 1%nat 0%nat; SWrite 0%nat 1%nat 2%nat 70;
    SFill 2%nat 2%nat 2%nat 9; SWrite 2%nat 0%nat 1%nat 8; SCopy 3%nat 2%nat; SAssign 2%nat 1%nat; SMove 4%nat 2%nat; SMoveAssign 2%nat 3%nat;
    SMoveAssign 4%nat 4%nat; SReshape 4%nat 3%nat 2%nat; SAssign 4%nat 4%nat; SDestroy 3%nat; SNew 3%nat 1%nat 4%nat; SCopyData 3%nat 2%nat; SArrayWrite 0%nat 1%nat 20; SDestroy 2%nat ].
Example nonvacuous : exists a, meaning 0 prog = Some a /\ shown a 0%nat 0%nat 0%nat = Some 20 /\ shown a 0%nat 1%nat 2%nat = Some 70 /\
  shown a 1%nat 0%nat 0%nat = Some 2 /\ shown a 4%nat 2%nat 1%nat = Some 7 /\ shown a 3%nat 0%nat 1%nat = Some 8 /\ cells a 2%nat = None.
Proof. eexists. repeat split. Qed.
Example nonvacuous_copy : exists a b, meaning 0 (firstn 2 prog) = Some a /\ (exists d, cells a 0%nat = Some d /\ shape d = Some (2%nat, 3%nat) /\ entries a d = Some [2; 3; 4; 5; 6; 7]) /\
  meaning 0 (firstn 2 prog ++ SCopy 1%nat 0%nat :: [SWrite 0%nat 1%nat 2%nat 70; SArrayWrite 0%nat 1%nat 20; SArrayDelete 0%nat; SDestroy 0%nat]) = Some b.
Proof. do 2 eexists. split; [reflexivity|]. split; [|reflexivity]. eexists. repeat split. Qed.
Example nonvacuous_rejects : match run 0 start prog with Ok w => dims w 4%nat = Some (3%nat, 2%nat) /\ dims w 3%nat = Some (1%nat, 4%nat) | _ => False end.
Proof. vm_compute. split; reflexivity. Qed.
Example nonvacuous_owner : exists a w r c l la, meaning 0 prog = Some a /\ run 0 start prog = Ok w /\ cells a 4%nat = Some (Own r c l) /\ arrs a 0%nat = Some (Live la).
Proof.
  destruct nonvacuous as (a & E & _). destruct (C61_matrices_are_values E) as (w & X & _). exists a, w.
  vm_compute in E. injection E as <-. do 4 eexists. repeat split. exact X.
Qed.
End Example61.

(** ** C62: memory *)
(** Matrix x owns buffer b: x's destructor will free b. *)
Definition owns {T} (w : world T) (x b : nat) : Prop :=
  exists o k off, mats w x = Some o /\ dest_ o = true /\ strat_ o = Some k /\ ptrs w k = Some (b, off).
(** At every point of a program inside the contract, every buffer the library has allocated and not freed is owned by exactly
    one matrix, every matrix with entries of its own owns a buffer that holds them, no matrix owns anything else, and
    the user's arrays are never owned. *)
Theorem C62_one_owner (T : Type) (zero : T) (p : list (stmt T)) (a : memory T) :
  meaning zero p = Some a -> exists w, run zero start p = Ok w /\
    (forall b l, bufs w b = BLib l -> exists x, owns w x b /\ forall x', owns w x' b -> x' = x) /\
    (forall x b, owns w x b -> exists r c l, cells a x = Some (Own r c l) /\ bufs w b = BLib l) /\
    (forall x r c l, cells a x = Some (Own r c l) -> exists b, owns w x b /\ bufs w b = BLib l).
Proof.
  intros E. destruct (meaning_ok E) as (w & inst & X & G). exists w. split; [exact X|].
  assert (Nx : forall x : nat, None <> Some x) by discriminate.
  split; [|split].
  - intros b l Hb. destruct (i_own G Hb) as (t & o & k & H1 & H2 & H3 & H4). destruct t as [x|]; [|discriminate]. rewrite vis_at in H1 by auto.
    exists x. split; [exists o, k, 0; auto|]. intros x' (o' & k' & off & M' & D' & K' & P'). assert (k' = k) by (eapply (i_buf G); eauto). subst k'.
    assert (Q : Some x' = Some x) by (eapply (i_strat G); eauto; rewrite vis_at; eauto). congruence.
  - intros x b (o & k & off & Mx & D & K & P). assert (Sh := good_at G (Nx x)). rewrite Mx in Sh. destruct (cells a x) as [d|] eqn:Cx; [|contradiction].
    destruct d; simpl in Sh.
    + subst o. discriminate.
    + destruct Sh as (k' & b' & -> & H1 & H2 & _). simpl in K. injection K as <-. rewrite P in H1. injection H1 as <- _. eauto.
    + destruct Sh as (k' & -> & H1 & _). simpl in K. injection K as <-. congruence.
    + destruct Sh as (k' & -> & _). discriminate.
  - intros x r c l Cx. destruct (good_some G (Nx x) Cx) as (o & Mx & Sh). destruct Sh as (k & b & -> & P & Hb & _).
    exists b. split; [|exact Hb]. exists (Obj r c (Some k) true), k, 0. auto.
Qed.
(** When all its matrices are gone, a program inside the contract has given back all its memory. *)
Theorem C62_no_leaks (T : Type) (zero : T) (p : list (stmt T)) (a : memory T) :
  meaning zero p = Some a -> (forall x, cells a x = None) ->
  exists w, run zero start p = Ok w /\ forall b l, bufs w b <> BLib l.
Proof.
  intros E N. destruct (C62_one_owner E) as (w & X & H1 & H2 & _). exists w. split; [exact X|].
  intros b l Hb. destruct (H1 b l Hb) as (x & Ow & _). destruct (H2 x b Ow) as (r & c & l' & Cx & _). rewrite N in Cx. discriminate.
Qed.
(** A clone is an alias of the original: as long as the original is neither destroyed, moved nor reassigned, reads, copies
    and writes through the clone are those of the original, and destroying the clone leaves everything as it was. *)
Theorem C62_clones_are_aliases (T : Type) (zero : T) (p q : list (stmt T)) (x y : nat) (a a' : memory T) d :
  meaning zero p = Some a -> cells a y = Some d -> shape d <> None -> cells a x = None ->
  Forall (fun s => ~ In x (mentions (through x y s)) /\ ~ In y (changes s)) q -> steps zero a (map (through x y) q) = Some a' ->
  exists w, run zero start (p ++ SClone x y :: q) = Ok w /\ dims w x = dims w y /\ (forall i j, read w x i j = read w y i j) /\
    (forall z i j v, z <> x -> shown a' z i j = Some v -> read w z i j = Ok v) /\
    exists w', run zero w [SDestroy x] = Ok w' /\ agrees w' a'.
Proof.
  intros E Cy Sd Cx Hq Eq. destruct (meaning_ok E) as (w0 & inst & X & G).
  destruct (clone_makes zero G Cy Sd Cx) as (w1 & o & X1 & G1 & _ & My & Mx). destruct o as [r c k b]. cbn [rows_ cols_ strat_] in Mx.
  destruct (clone_runs G1 Mx My Hq Eq) as (w2 & inst2 & X2 & G2 & Mx2 & My2).
  exists w2. split; [rewrite run_app, X; cbn [then_ run]; rewrite X1; exact X2|].
  split; [unfold dims; now rewrite Mx2, My2|]. split; [intros i j; unfold read, alive; now rewrite Mx2, My2|].
  split; [intros z i j v Hz; apply (good_read G2); congruence|].
  destruct (clone_ends zero G2 Mx2) as (w3 & X3 & G3). exists w3. split; [cbn [run]; now rewrite X3|]. exact (good_agrees G3).
Qed.
(** But a clone does not keep the memory alive: whatever the program did before, once the original is destroyed every entry
    of the clone is read through a null pointer. *)
Theorem C62_clone_keeps_entries_refuted (T : Type) (zero : T) (p : list (stmt T)) (x y r c : nat) (a : memory T) l :
  meaning zero p = Some a -> cells a y = Some (Own r c l) -> cells a x = None ->
  exists w, run zero start (p ++ [SClone x y; SDestroy y]) = Ok w /\ dims w x = Some (r, c) /\ forall i j, i < r -> j < c -> read w x i j = Undefined.
Proof.
  intros E Cy Cx. destruct (meaning_ok E) as (w0 & inst & X & G).
  destruct (clone_makes zero G Cy (x := x)) as (w1 & o & X1 & G1 & _ & My & Mx); [discriminate|auto|].
  assert (Nxy : x <> y) by congruence.
  destruct (good_some G1 (x := y) (h := Some x) ltac:(congruence) Cy) as (o' & My' & Sh). rewrite My in My'. injection My' as <-.
  destruct Sh as (k & b & -> & P & Hb & _). cbn [rows_ cols_ strat_] in Mx.
  eexists. split; [rewrite run_app, X; cbn [then_ run]; rewrite X1; cbn [then_ exec]; unfold alive; rewrite My; cbn [then_]; unfold destruct_; cbn [dest_ strat_];
    unfold deallocate; cbn [set_mat ptrs bufs]; rewrite P, Hb; reflexivity|].
  assert (Mx' : forall z, mats (set_ptr (set_buf (set_mat w1 y None) b BGone) k z) x = Some (Obj r c (Some k) false)) by (intros z; simpl; rewrite upd_other by auto; exact Mx).
  split; [unfold dims; now rewrite Mx'|].
  intros i j Hi Hj. unfold read, alive. rewrite Mx'. cbn [then_ rows_ cols_]. apply Nat.ltb_lt in Hi, Hj. rewrite Hi, Hj. cbn [andb check then_ matrix_ptr strat_].
  simpl. rewrite upd_same. reflexivity.
Qed.
(** Cloning into a matrix that has entries of its own loses them: their buffer has no owner any more and is still there
    when both matrices are gone. *)
Theorem C62_clone_into_owner_leaks_refuted (T : Type) (zero : T) (p : list (stmt T)) (x y r c r' c' : nat) (a : memory T) l l' :
  meaning zero p = Some a -> x <> y -> cells a y = Some (Own r c l) -> cells a x = Some (Own r' c' l') ->
  exists w b, run zero start (p ++ [SClone x y; SDestroy x; SDestroy y]) = Ok w /\ dims w x = None /\ dims w y = None /\ bufs w b = BLib l' /\ forall z, ~ owns w z b.
Proof.
  intros E Nxy Cy Cx. destruct (meaning_ok E) as (w0 & inst & X & G). assert (Nx : forall z : nat, None <> Some z) by discriminate.
  destruct (good_some G (Nx y) Cy) as (oy & My & Sy). destruct (good_some G (Nx x) Cx) as (ox & Mx & Sx).
  destruct Sy as (ky & by_ & -> & Py & Hby & _). destruct Sx as (kx & bx & -> & Px & Hbx & _).
  assert (Nk : kx <> ky) by (intros ->; assert (Some x = Some y) by (eapply (i_strat G); [rewrite vis_at by auto; exact Mx|rewrite vis_at by auto; exact My|reflexivity|reflexivity]); congruence).
  assert (Nb : bx <> by_) by (intros ->; apply Nk; eapply (i_buf G); eauto).
  assert (R : run zero start (p ++ [SClone x y; SDestroy x; SDestroy y]) =
     Ok (set_ptr (set_buf (set_mat (set_mat (set_mat w0 x (Some (Obj r c (Some ky) false))) x None) y None) by_ BGone) ky None)).
  { rewrite run_app, X. cbn [then_ run exec]. unfold alive. rewrite My. cbn [then_]. rewrite Mx. cbn [then_ rows_ cols_ strat_].
    cbn [set_mat mats]. rewrite upd_same. cbn [then_ destruct_ dest_]. cbn [set_mat mats]. rewrite !(upd_other _ _ (not_eq_sym Nxy)). rewrite My. cbn [then_ destruct_ dest_ strat_].
    unfold deallocate. cbn [set_mat ptrs bufs]. rewrite Py, Hby. reflexivity. }
  eexists. exists bx. split; [exact R|]. unfold dims. simpl. rewrite upd_same, upd_other by auto. rewrite upd_same. split; [reflexivity|]. split; [reflexivity|].
  split; [rewrite upd_other by auto; exact Hbx|].
  intros z (o & k & off & M1 & D1 & K1 & P1). simpl in M1, P1. destruct (Nat.eq_dec z y) as [->|Ny]; [rewrite upd_same in M1; discriminate|].
  destruct (Nat.eq_dec z x) as [->|Nz]; [rewrite upd_other, upd_same in M1 by auto; discriminate|]. rewrite !upd_other in M1 by auto.
  destruct (Nat.eq_dec k ky) as [->|Nk2]; [rewrite upd_same in P1; discriminate|]. rewrite upd_other in P1 by auto.
  assert (k = kx) by (eapply (i_buf G); eauto). subst k.
  assert (Q : Some z = Some x) by (eapply (i_strat G); [rewrite vis_at by auto; exact M1|rewrite vis_at by auto; exact Mx|exact K1|reflexivity]). congruence.
Qed.
(** And the check that keeps an owning matrix on its memory can be bypassed through a clone: pointing the clone at the user's
    array points the original there too, and the end of the original then frees memory that is the user's: undefined, since
    he did not allocate it for the library to delete. *)
Theorem C62_clone_bypasses_check_refuted (T : Type) (zero : T) (p : list (stmt T)) (x y r c n off : nat) (a : memory T) l la :
  meaning zero p = Some a -> cells a y = Some (Own r c l) -> cells a x = None -> arrs a n = Some (Live la) ->
  (exists w, run zero start (p ++ [SClone x y; SSetPtr x (PAt n off)]) = Ok w /\
     forall i j v, i < r -> j < c -> nth_error la (off + (i * c + j)) = Some v -> read w y i j = Ok v) /\
  run zero start (p ++ [SClone x y; SSetPtr x (PAt n off); SDestroy y]) = Undefined.
Proof.
  intros E Cy Cx An. destruct (meaning_ok E) as (w0 & inst & X & G).
  destruct (clone_makes zero G Cy (x := x)) as (w1 & o & X1 & G1 & _ & My & Mx); [discriminate|auto|].
  assert (Nxy : x <> y) by congruence.
  destruct (good_some G1 (x := y) (h := Some x) ltac:(congruence) Cy) as (o' & My' & Sh). rewrite My in My'. injection My' as <-.
  destruct Sh as (k & b & -> & P & Hb & _). cbn [rows_ cols_ strat_] in Mx.
  assert (Ar := i_arr G1 n). rewrite An in Ar. destruct Ar as (A1 & A2 & _).
  assert (X2 : exec zero w1 (SSetPtr x (PAt n off)) = Ok (set_ptr w1 k (Some (inst n, off)))).
  { cbn [exec resolve]. rewrite A1. cbn [then_]. unfold alive. rewrite Mx. reflexivity. }
  split.
  - eexists. split; [rewrite run_app, X; cbn [then_ run]; rewrite X1; cbn [then_]; rewrite X2; reflexivity|].
    intros i j v Hi Hj Ev. unfold read, alive. simpl. rewrite My. cbn [then_ rows_ cols_]. apply Nat.ltb_lt in Hi, Hj. rewrite Hi, Hj. cbn [andb check then_ matrix_ptr strat_].
    simpl. rewrite upd_same. unfold peek. simpl. rewrite A2. simpl. now rewrite Ev.
  - rewrite run_app, X. cbn [then_ run]. rewrite X1. cbn [then_]. rewrite X2. cbn [then_ exec]. unfold alive. simpl. rewrite My. cbn [then_].
    unfold destruct_. cbn [dest_ strat_]. unfold deallocate. simpl. rewrite upd_same, A2. reflexivity.
Qed.

Module Example62.
Open Scope Z_scope.
Definition ended : list (stmt Z) := Example61.prog ++ [SDestroy 0%nat; SDestroy 1%nat; SDestroy 4%nat; SDestroy 3%nat].
Lemma all_gone (a : memory Z) : meaning 0 ended = Some a -> forall x, cells a x = None.
Proof. intros E. vm_compute in E. injection E as <-. intros x. do 5 (destruct x as [|x]; [reflexivity|]). reflexivity. Qed.
Example nonvacuous : exists a, meaning 0 ended = Some a /\ forall x, cells a x = None.
Proof. destruct (meaning 0 ended) as [a|] eqn:E; [|vm_compute in E; discriminate]. exists a. split; [reflexivity|]. now apply all_gone. Qed.
(** A legal program with two owners, one clone, and uses of the clone. *)
Definition p : list (stmt Z) := [SFill 0%nat 2%nat 2%nat 5; SWrite 0%nat 1%nat 0%nat 7; SNew 1%nat 2%nat 2%nat; SArray 0%nat [1; 2; 3; 4; 5]].
Definition q : list (stmt Z) := [SWrite 9%nat 1%nat 1%nat 8; SCopy 3%nat 9%nat; SWrite 0%nat 0%nat 0%nat 6; SAssign 1%nat 9%nat; SDestroy 3%nat; SCopyData 9%nat 1%nat; SWrite 9%nat 0%nat 1%nat 4].
Example nonvacuous_alias : exists a a', meaning 0 p = Some a /\ cells a 0%nat = Some (Own 2 2 [5; 5; 7; 5]) /\ cells a 9%nat = None /\
  Forall (fun s => ~ In 9%nat (mentions (through 9 0 s)) /\ ~ In 0%nat (changes s)) q /\ steps 0 a (map (through 9 0) q) = Some a' /\
  shown a' 0%nat 1%nat 1%nat = Some 8 /\ shown a' 0%nat 0%nat 1%nat = Some 4 /\ shown a' 1%nat 0%nat 0%nat = Some 6.
Proof.
  do 2 eexists. split; [reflexivity|]. split; [reflexivity|]. split; [reflexivity|]. split.
  - unfold q. repeat constructor; simpl; intuition discriminate.
  - repeat split.
Qed.
Example nonvacuous_leak : exists a, meaning 0 p = Some a /\ cells a 0%nat = Some (Own 2 2 [5; 5; 7; 5]) /\ cells a 1%nat = Some (Own 2 2 [0; 0; 0; 0]) /\ arrs a 0%nat = Some (Live [1; 2; 3; 4; 5]).
Proof. eexists. repeat split. Qed.
End Example62.

Print Assumptions C61_matrices_are_values.
Print Assumptions C61_copies_are_independent.
Print Assumptions C61_rejects.
Print Assumptions C61_owner_keeps_its_memory.
Print Assumptions C62_one_owner.
Print Assumptions C62_no_leaks.
Print Assumptions C62_clones_are_aliases.
Print Assumptions C62_clone_keeps_entries_refuted.
Print Assumptions C62_clone_into_owner_leaks_refuted.
Print Assumptions C62_clone_bypasses_check_refuted.
