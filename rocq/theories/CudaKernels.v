(** * The CUDA kernels

    Each kernel is the program every thread of the launched grid runs.  Buffers are named
    by numbers; two arguments may name the same buffer. *)

From Coq Require Import List Arith Bool Lia.
From Verif Require Import Num KernelFacts KernelProofs Cuda.
Import ListNotations.
Set Implicit Arguments.
Unset Strict Implicit.

(** The threads of dim3 blocks(gx, gy), threads(bx, by). *)
Definition grid (gy gx by_ bx : nat) : list thread :=
  flat_map (fun a => flat_map (fun b => flat_map (fun c => map (fun d => Th a b c d) (seq 0 bx)) (seq 0 by_)) (seq 0 gx)) (seq 0 gy).
(** (n + d - 1) / d, the number of blocks that cover n elements. *)
Definition cover (n d : nat) : nat := (n + d - 1) / d.

Section Kernels.
Context {T : Type} {N : Num T}.

(** MatAddCUDAHandler.cu:27-36, MatSubCUDAHandler.cu:27-36, MatHadamardCUDAHandler.cu:27-36
    (kernel MatrixAdd/MatrixSub/MatrixHadamard); [bd] is blockDim.x = blockDim.y. *)
Definition zip_kernel (op : T -> T -> T) (bd M Nn a b c : nat) (th : thread) : list (cinstr (T := T)) :=
  let row := t_by th * bd + t_ty th in let col := t_bx th * bd + t_tx th in
  if (row <? M) && (col <? Nn)
  then let idx := row * Nn + col in [CLd 0 (Glob a idx); CLd 1 (Glob b idx); COp 2 op 0 1; CSt (Glob c idx) 2]
  else [].
(** MatScalarAddCUDAHandler.cu:28-37, MatScalarMulCUDAHandler.cu:27-36, MatUnaryCUDAHandler.cu:29-38.
    (The element-wise function is looked up in a device table by its host address; the
    lookup is not modelled.) *)
Definition map_kernel (f : T -> T) (bd M Nn a c : nat) (th : thread) : list (cinstr (T := T)) :=
  let row := t_by th * bd + t_ty th in let col := t_bx th * bd + t_tx th in
  if (row <? M) && (col <? Nn)
  then let idx := row * Nn + col in [CLd 0 (Glob a idx); COp 1 (fun v _ => f v) 0 0; CSt (Glob c idx) 1]
  else [].
(** MatKronCUDAHandler.cu:27-44. *)
Definition kron_kernel (bd m n k l a b c : nat) (th : thread) : list (cinstr (T := T)) :=
  let row := t_by th * bd + t_ty th in let col := t_bx th * bd + t_tx th in
  let M := m * k in let Nn := n * l in
  if (row <? M) && (col <? Nn)
  then let i := row / k in let p := row mod k in let j := col / l in let q := col mod l in
       [CLd 0 (Glob a (i * n + j)); CLd 1 (Glob b (p * l + q)); COp 2 nmul 0 1; CSt (Glob c (row * Nn + col)) 2]
  else [].
(** MatMulCUDAHandler.cu:26-64, [ts] is TILE_SIZE; As is shared array 0, Bs is shared array 1.
    Registers: 0 and 1 staging, 4 value. *)
Definition mul_inner (th : thread) (i : nat) : list (cinstr (T := T)) :=
  [CLd 2 (Shr (t_by th) (t_bx th) 0 (t_ty th) i); CLd 3 (Shr (t_by th) (t_bx th) 1 i (t_tx th)); COp 5 nmul 2 3; COp 4 nadd 4 5].
Definition mul_round (ts M K Nn a b : nat) (th : thread) (t : nat) : list (cinstr (T := T)) :=
  let row := t_by th * ts + t_ty th in let col := t_bx th * ts + t_tx th in
  (if (row <? M) && (t * ts + t_tx th <? K) then CLd 0 (Glob a (row * K + (t * ts + t_tx th))) else COp 0 (fun _ _ => n0) 0 0) ::
  CSt (Shr (t_by th) (t_bx th) 0 (t_ty th) (t_tx th)) 0 ::
  (if (col <? Nn) && (t * ts + t_ty th <? K) then CLd 1 (Glob b ((t * ts + t_ty th) * Nn + col)) else COp 1 (fun _ _ => n0) 0 0) ::
  CSt (Shr (t_by th) (t_bx th) 1 (t_ty th) (t_tx th)) 1 ::
  CBar :: flat_map (mul_inner th) (seq 0 ts) ++ [CBar].
Definition mul_kernel (ts M K Nn a b c : nat) (th : thread) : list (cinstr (T := T)) :=
  let row := t_by th * ts + t_ty th in let col := t_bx th * ts + t_tx th in
  COp 4 (fun _ _ => n0) 0 0 :: flat_map (mul_round ts M K Nn a b th) (seq 0 (cover K ts)) ++
  (if (row <? M) && (col <? Nn) then [CSt (Glob c (row * Nn + col)) 4] else []).
(** MatTransposeCUDAHandler.cu:26-53, [td] is TILE_DIM, [br] is BLOCK_ROWS; the two loops
    run i = 0, br, 2br, ... below td. *)
Definition tr_load (td br M Nn a : nat) (th : thread) (q : nat) : list (cinstr (T := T)) :=
  let x := t_bx th * td + t_tx th in let y := t_by th * td + t_ty th in let i := q * br in
  if (x <? Nn) && (y + i <? M)
  then [CLd 0 (Glob a ((y + i) * Nn + x)); CSt (Shr (t_by th) (t_bx th) 0 (t_ty th + i) (t_tx th)) 0] else [].
Definition tr_store (td br M Nn c : nat) (th : thread) (q : nat) : list (cinstr (T := T)) :=
  let x := t_by th * td + t_tx th in let y := t_bx th * td + t_ty th in let i := q * br in
  if (x <? M) && (y + i <? Nn)
  then [CLd 0 (Shr (t_by th) (t_bx th) 0 (t_tx th) (t_ty th + i)); CSt (Glob c ((y + i) * M + x)) 0] else [].
Definition tr_kernel (td br M Nn a c : nat) (th : thread) : list (cinstr (T := T)) :=
  flat_map (tr_load td br M Nn a th) (seq 0 (cover td br)) ++ CBar :: flat_map (tr_store td br M Nn c th) (seq 0 (cover td br)).

(** Launch parameters: MatAddCUDAHandler.hpp:67-69 (dim3 threads(THREAD_SIZE, THREAD_SIZE),
    blocks(ceil(cols/threads.x), ceil(rows/threads.y))), MatKronCUDAHandler.hpp:64-66,
    MatMulCUDAHandler.hpp:67-69; MatTransposeCUDAHandler.hpp:57-58. *)
Definition tiles (bd rows cols : nat) : list thread := grid (cover rows bd) (cover cols bd) bd bd.
Definition tr_tiles (td br rows cols : nat) : list thread := grid (cover rows td) (cover cols td) br td.

(** Cells that exist: a device buffer of [len b] elements, shared tiles of [sy] by [sx]. *)
Definition exists_in (len : nat -> nat) (na sy sx : nat) (l : loc) : Prop :=
  match l with Glob b i => i < len b | Shr _ _ arr y x => arr < na /\ y < sy /\ x < sx end.
End Kernels.

(** ** Arithmetic of tilings *)
Lemma cover_lt n d i : 0 < d -> i < n -> i / d < cover n d.
Proof.
  intros Hd Hi. unfold cover. apply Nat.div_lt_upper_bound; [lia|].
  pose proof (Nat.div_mod (n + d - 1) d ltac:(lia)). pose proof (Nat.mod_upper_bound (n + d - 1) d ltac:(lia)). lia.
Qed.
Lemma cover_ge n d : 0 < d -> n <= cover n d * d.
Proof.
  intros Hd. unfold cover.
  pose proof (Nat.div_mod (n + d - 1) d ltac:(lia)). pose proof (Nat.mod_upper_bound (n + d - 1) d ltac:(lia)). lia.
Qed.
Lemma cover_mult n d : 0 < d -> cover (n * d) d = n.
Proof.
  intros Hd. unfold cover. symmetry. apply (Nat.div_unique _ d n (d - 1)); lia.
Qed.
Lemma dm_div q d r : r < d -> (q * d + r) / d = q.
Proof. intros H. symmetry. apply (Nat.div_unique _ d q r); lia. Qed.
Lemma dm_mod q d r : r < d -> (q * d + r) mod d = r.
Proof. intros H. symmetry. apply (Nat.mod_unique _ d q r); lia. Qed.
Lemma dm_eq n d : d <> 0 -> n / d * d + n mod d = n.
Proof. intros H. pose proof (Nat.div_mod n d H). lia. Qed.

Lemma in_grid gy gx b x th : In th (grid gy gx b x) <-> t_by th < gy /\ t_bx th < gx /\ t_ty th < b /\ t_tx th < x.
Proof.
  unfold grid. rewrite in_flat_map. split.
  - intros (a & Ia & H). apply in_flat_map in H. destruct H as (b' & Ib & H). apply in_flat_map in H. destruct H as (c & Ic & H).
    apply in_map_iff in H. destruct H as (d & <- & Id). rewrite in_seq in *. simpl. lia.
  - intros (H1 & H2 & H3 & H4). destruct th as [a b' c d]. simpl in *. exists a. split; [apply in_seq; lia|].
    apply in_flat_map. exists b'. split; [apply in_seq; lia|]. apply in_flat_map. exists c. split; [apply in_seq; lia|].
    apply in_map_iff. exists d. split; [reflexivity|apply in_seq; lia].
Qed.
Lemma nodup_app {A} (l1 l2 : list A) : NoDup l1 -> NoDup l2 -> (forall x, In x l1 -> ~ In x l2) -> NoDup (l1 ++ l2).
Proof.
  intros H1 H2 D. induction H1 as [|a l Na Nl IH]; simpl; auto. constructor.
  - rewrite in_app_iff. intros [H|H]; [auto|]. apply (D a); [now left|auto].
  - apply IH. intros x Ix. apply D. now right.
Qed.
Lemma nodup_flat_map {A B} (f : A -> list B) (l : list A) : NoDup l -> (forall a, In a l -> NoDup (f a)) ->
  (forall a a' x, In a l -> In a' l -> In x (f a) -> In x (f a') -> a = a') -> NoDup (flat_map f l).
Proof.
  intros Hl. induction Hl as [|a l Na Nl IH]; intros Hf D; simpl; [constructor|]. apply nodup_app.
  - apply Hf. now left.
  - apply IH; [intros; apply Hf; now right|]. intros; eapply D; eauto; now right.
  - intros x Ix Ix'. apply in_flat_map in Ix'. destruct Ix' as (a' & Ia' & Hx').
    assert (a = a') by (eapply D; eauto; [now left|now right]). subst. auto.
Qed.
Lemma nodup_grid gy gx b x : NoDup (grid gy gx b x).
Proof.
  unfold grid. apply nodup_flat_map; [apply seq_NoDup| |].
  - intros a _. apply nodup_flat_map; [apply seq_NoDup| |].
    + intros b' _. apply nodup_flat_map; [apply seq_NoDup| |].
      * intros c _. apply FinFun.Injective_map_NoDup; [|apply seq_NoDup]. intros d d' E. congruence.
      * intros c c' y _ _ H H'. apply in_map_iff in H, H'. destruct H as (d & <- & _), H' as (d' & E & _). congruence.
    + intros c c' y _ _ H H'. apply in_flat_map in H, H'. destruct H as (d & _ & H), H' as (d' & _ & H').
      apply in_map_iff in H, H'. destruct H as (e & <- & _), H' as (e' & E & _). congruence.
  - intros c c' y _ _ H H'. apply in_flat_map in H, H'. destruct H as (d & _ & H), H' as (d' & _ & H').
    apply in_flat_map in H, H'. destruct H as (d0 & _ & H), H' as (d0' & _ & H').
    apply in_map_iff in H, H'. destruct H as (e & <- & _), H' as (e' & E & _). congruence.
Qed.

(** ** One-cell-per-thread kernels *)
Section Pointwise.
Context {T : Type} {N : Num T}.
Variables (bd M Nn c : nat).
Hypothesis Pbd : 0 < bd.

Definition row (th : thread) := t_by th * bd + t_ty th.
Definition col (th : thread) := t_bx th * bd + t_tx th.
Definition thread_at (r k : nat) : thread := Th (r / bd) (k / bd) (r mod bd) (k mod bd).
Definition pown (l : loc) : option thread :=
  match l with Glob b i => if (b =? c) && (i <? M * Nn) then Some (thread_at (i / Nn) (i mod Nn)) else None | Shr _ _ _ _ _ => None end.

Lemma thread_at_row r k : row (thread_at r k) = r.
Proof. unfold row, thread_at. simpl. apply dm_eq. lia. Qed.
Lemma thread_at_col r k : col (thread_at r k) = k.
Proof. unfold col, thread_at. simpl. apply dm_eq. lia. Qed.
Lemma thread_at_self th : t_ty th < bd -> t_tx th < bd -> thread_at (row th) (col th) = th.
Proof.
  intros H1 H2. unfold thread_at, row, col. rewrite !dm_div, !dm_mod by auto. now destruct th.
Qed.
Lemma in_tiles th : In th (tiles bd M Nn) -> t_ty th < bd /\ t_tx th < bd.
Proof. unfold tiles. rewrite in_grid. tauto. Qed.
Lemma pown_mine th : In th (tiles bd M Nn) -> row th < M -> col th < Nn -> pown (Glob c (row th * Nn + col th)) = Some th.
Proof.
  intros It Hr Hc. apply in_tiles in It. unfold pown. rewrite Nat.eqb_refl.
  assert (row th * Nn + col th < M * Nn) by nia. destruct (Nat.ltb_spec (row th * Nn + col th) (M * Nn)); [|lia].
  simpl. rewrite dm_div, dm_mod by auto. now rewrite thread_at_self by tauto.
Qed.
Lemma pown_inv l th : In th (tiles bd M Nn) -> pown l = Some th -> row th < M /\ col th < Nn /\ l = Glob c (row th * Nn + col th).
Proof.
  intros It H. unfold pown in H. destruct l as [b i|]; [|discriminate]. destruct (Nat.eqb_spec b c) as [->|]; [|discriminate].
  destruct (Nat.ltb_spec i (M * Nn)) as [L|]; [|discriminate]. simpl in H. injection H as <-.
  rewrite thread_at_row, thread_at_col. assert (Nn <> 0) by (intros ->; lia).
  split; [apply Nat.div_lt_upper_bound; lia|]. split; [now apply Nat.mod_upper_bound|]. f_equal. symmetry. now apply dm_eq.
Qed.
Lemma pown_some i j : i < M -> j < Nn -> exists th, pown (Glob c (i * Nn + j)) = Some th /\ In th (tiles bd M Nn).
Proof.
  intros Hi Hj. unfold pown. rewrite Nat.eqb_refl. assert (i * Nn + j < M * Nn) by nia.
  destruct (Nat.ltb_spec (i * Nn + j) (M * Nn)); [|lia]. simpl. eexists. split; [reflexivity|].
  rewrite dm_div, dm_mod by auto. unfold tiles. apply in_grid. unfold thread_at. simpl.
  repeat split; try (apply Nat.mod_upper_bound; lia); apply cover_lt; auto.
Qed.
Lemma pown_none b i : b <> c -> pown (Glob b i) = None.
Proof. intros H. unfold pown. destruct (Nat.eqb_spec b c); [congruence|reflexivity]. Qed.

(** What is left in memory: the result buffer has the values [F], nothing else changed. *)
Definition result_is (w : loc -> T) (F : nat -> nat -> T) (w' : loc -> T) : Prop :=
  (forall i j, i < M -> j < Nn -> w' (Glob c (i * Nn + j)) = F i j) /\
  (forall b i, b <> c \/ M * Nn <= i -> w' (Glob b i) = w (Glob b i)).

Section Prog.
Variables (prog : thread -> list (cinstr (T := T))) (inb : loc -> Prop) (w : loc -> T) (F : nat -> nat -> T).
Hypothesis Hnobar : forall th, In th (tiles bd M Nn) -> bars (prog th) = 0.
Definition pfin (l : loc) (v : T) : Prop := match l with Glob _ i => v = F (i / Nn) (i mod Nn) | _ => False end.
Hypothesis Hvc : forall th, In th (tiles bd M Nn) -> forall g,
  vc (tiles bd M Nn) inb w pown (fun _ _ => False) (fun _ _ => n0) pfin th (prog th) 0 g w.
Lemma pointwise : launch_ok (tiles bd M Nn) inb prog w (result_is w F).
Proof.
  apply vc_sound with (init := w) (own := pown) (rd := fun _ _ => False) (ov := fun _ _ => n0) (fin := pfin); auto.
  - intros a b Ia Ib _. now rewrite !Hnobar.
  - apply nodup_grid.
  - intros w' H0 H1. split.
    + intros i j Hi Hj. destruct (pown_some Hi Hj) as (th & Ho & It). eapply H1; eauto. simpl. now rewrite dm_div, dm_mod.
    + intros b i [Hb|Hi]; apply H0; [now apply pown_none|]. unfold pown. destruct (Nat.ltb_spec i (M * Nn)); [lia|].
      now rewrite andb_false_r.
Qed.
Lemma pfin_store th g r w0 k : In th (tiles bd M Nn) -> row th < M -> col th < Nn -> g r = F (row th) (col th) ->
  vc (tiles bd M Nn) inb w pown (fun _ _ => False) (fun _ _ => n0) pfin th [] k g (cset w0 (Glob c (row th * Nn + col th)) (g r)).
Proof.
  intros It Hr Hc E. split; [intros l _ []|]. intros l v Ho Hf. destruct (pown_inv It Ho) as (_ & _ & ->).
  unfold cset. destruct (loc_eq _ _) as [_|Ne]; [|congruence]. simpl in Hf. rewrite dm_div, dm_mod in Hf by auto. congruence.
Qed.
Lemma pfin_idle th k g w0 : In th (tiles bd M Nn) -> ~ (row th < M /\ col th < Nn) ->
  vc (tiles bd M Nn) inb w pown (fun _ _ => False) (fun _ _ => n0) pfin th [] k g w0.
Proof. intros It H. split; [intros l _ []|]. intros l v Ho _. destruct (pown_inv It Ho) as (A & B & _). tauto. Qed.
End Prog.

Lemma bounds_in len x : M * Nn <= len x -> forall i j, i < M -> j < Nn -> exists_in len 0 0 0 (Glob x (i * Nn + j)).
Proof. intros H i j Hi Hj. simpl. nia. Qed.

Lemma zip_ok op a b w len : M * Nn <= len a -> M * Nn <= len b -> M * Nn <= len c ->
  launch_ok (tiles bd M Nn) (exists_in len 0 0 0) (zip_kernel op bd M Nn a b c) w
    (result_is w (fun i j => op (w (Glob a (i * Nn + j))) (w (Glob b (i * Nn + j))))).
Proof.
  intros La Lb Lc. apply pointwise.
  - intros th _. unfold zip_kernel. fold (row th) (col th). now destruct ((row th <? M) && (col th <? Nn)).
  - intros th It g. unfold zip_kernel. fold (row th) (col th).
    destruct (Nat.ltb_spec (row th) M) as [Hr|Hr], (Nat.ltb_spec (col th) Nn) as [Hc|Hc]; simpl andb; cbv iota; try (apply pfin_idle; [auto|lia]).
    set (idx := row th * Nn + col th). pose proof (pown_mine It Hr Hc) as Ho. fold idx in Ho.
    assert (Hld : forall x, pown (Glob x idx) = Some th \/ pown (Glob x idx) = None).
    { intros x. destruct (Nat.eq_dec x c) as [->|Ne]; [left; exact Ho|right; now apply pown_none]. }
    split; [intros l _ []|]. split; [now apply bounds_in|].
    assert (Go : vc (tiles bd M Nn) (exists_in len 0 0 0) w pown (fun _ _ => False) (fun _ _ => n0)
      (pfin (fun i j => op (w (Glob a (i * Nn + j))) (w (Glob b (i * Nn + j))))) th
      [CLd 1 (Glob b idx); COp 2 op 0 1; CSt (Glob c idx) 2] 0 (rset g 0 (w (Glob a idx))) w).
    { split; [intros l _ []|]. split; [now apply bounds_in|].
      assert (Go : vc (tiles bd M Nn) (exists_in len 0 0 0) w pown (fun _ _ => False) (fun _ _ => n0)
        (pfin (fun i j => op (w (Glob a (i * Nn + j))) (w (Glob b (i * Nn + j))))) th
        [COp 2 op 0 1; CSt (Glob c idx) 2] 0 (rset (rset g 0 (w (Glob a idx))) 1 (w (Glob b idx))) w).
      { split; [intros l _ []|]. split; [intros l _ []|]. split; [now apply bounds_in|]. split; [exact Ho|].
        apply pfin_store; auto. }
      destruct (Hld b); [left; auto|right; left; auto]. }
    destruct (Hld a); [left; auto|right; left; auto].
Qed.
Lemma map_ok f a w len : M * Nn <= len a -> M * Nn <= len c ->
  launch_ok (tiles bd M Nn) (exists_in len 0 0 0) (map_kernel f bd M Nn a c) w
    (result_is w (fun i j => f (w (Glob a (i * Nn + j))))).
Proof.
  intros La Lc. apply pointwise.
  - intros th _. unfold map_kernel. fold (row th) (col th). now destruct ((row th <? M) && (col th <? Nn)).
  - intros th It g. unfold map_kernel. fold (row th) (col th).
    destruct (Nat.ltb_spec (row th) M) as [Hr|Hr], (Nat.ltb_spec (col th) Nn) as [Hc|Hc]; simpl andb; cbv iota; try (apply pfin_idle; [auto|lia]).
    set (idx := row th * Nn + col th). pose proof (pown_mine It Hr Hc) as Ho. fold idx in Ho.
    assert (Hld : forall x, pown (Glob x idx) = Some th \/ pown (Glob x idx) = None).
    { intros x. destruct (Nat.eq_dec x c) as [->|Ne]; [left; exact Ho|right; now apply pown_none]. }
    split; [intros l _ []|]. split; [now apply bounds_in|].
    assert (Go : vc (tiles bd M Nn) (exists_in len 0 0 0) w pown (fun _ _ => False) (fun _ _ => n0)
      (pfin (fun i j => f (w (Glob a (i * Nn + j))))) th
      [COp 1 (fun v _ => f v) 0 0; CSt (Glob c idx) 1] 0 (rset g 0 (w (Glob a idx))) w).
    { split; [intros l _ []|]. split; [intros l _ []|]. split; [now apply bounds_in|]. split; [exact Ho|]. apply pfin_store; auto. }
    destruct (Hld a); [left; auto|right; left; auto].
Qed.
End Pointwise.

Section Kron.
Context {T : Type} {N : Num T}.
Lemma kron_ok_cuda bd m n k l a b c (w : loc -> T) len : 0 < bd -> m * n <= len a -> k * l <= len b -> (m * k) * (n * l) <= len c ->
  a <> c -> b <> c ->
  launch_ok (tiles bd (m * k) (n * l)) (exists_in len 0 0 0) (kron_kernel bd m n k l a b c) w
    (result_is (m * k) (n * l) c w (fun i j => nmul (w (Glob a (i / k * n + j / l))) (w (Glob b (i mod k * l + j mod l))))).
Proof.
  intros Pbd La Lb Lc Na Nb. apply pointwise; auto.
  - intros th _. unfold kron_kernel. cbv zeta. destruct (_ && _); reflexivity.
  - intros th It g. unfold kron_kernel. cbv zeta. fold (row bd th) (col bd th).
    destruct (Nat.ltb_spec (row bd th) (m * k)) as [Hr|Hr], (Nat.ltb_spec (col bd th) (n * l)) as [Hc|Hc]; simpl andb; cbv iota; try (apply pfin_idle; [auto|auto|lia]).
    pose proof (@pown_mine bd (m * k) (n * l) c Pbd th It Hr Hc) as Ho.
    assert (Dk : k <> 0) by (intros ->; lia). assert (Dl : l <> 0) by (intros ->; lia).
    assert (row bd th / k < m) by (apply Nat.div_lt_upper_bound; lia).
    assert (col bd th / l < n) by (apply Nat.div_lt_upper_bound; lia).
    pose proof (Nat.mod_upper_bound (row bd th) k Dk). pose proof (Nat.mod_upper_bound (col bd th) l Dl).
    split; [intros x _ []|]. split; [simpl; nia|]. right. left. split; [now apply pown_none|].
    split; [intros x _ []|]. split; [simpl; nia|]. right. left. split; [now apply pown_none|].
    split; [intros x _ []|]. split; [intros x _ []|]. split; [simpl; nia|]. split; [exact Ho|].
    apply pfin_store; auto.
Qed.
End Kron.
