(** * C79: reading the data of the neural network example *)
From Coq Require Import List Arith Bool Lia ZArith.
From Verif Require Import Num NumInst MatMem KernelFacts LoadData.
Import ListNotations.
Set Implicit Arguments.
Unset Strict Implicit.
Local Open Scope nat_scope.

(** Any file, any two different matrices: LoadData comes to its end if and only if the file fits; then exactly the entries
    the file has something for are new, no other matrix is touched and nothing is allocated. *)
Theorem C79_load : forall {T} {N : Num T} (c255 : T) m X Y RX n_in RY n_out rows,
  X <> Y -> is_mat m X RX n_in -> is_mat m Y RY n_out ->
  (fits RX n_in RY n_out rows -> exists m', LoadData c255 X Y rows m = Ok (tt, m') /\
     is_mat m' X RX n_in /\ is_mat m' Y RY n_out /\
     (forall i j, i < RX -> j < n_in -> val m' X i j = match pixel_at rows i j with Some v => ndiv v c255 | None => val m X i j end) /\
     (forall i j, i < RY -> j < n_out -> val m' Y i j = if match label_at rows i with Some l => j =? l | None => false end then n1 else val m Y i j) /\
     (forall q, q <> X -> q <> Y -> get m' q = get m q) /\ length (objs m') = length (objs m)) /\
  (~ fits RX n_in RY n_out rows -> LoadData c255 X Y rows m = Rejected).
Proof.
  intros T N c255 m X Y RX n_in RY n_out rows Ne HX HY.
  pose proof (@rows_ok T N c255 X Y RX n_in RY n_out Ne rows 0 m (conj HX HY)) as Q.
  unfold LoadData. destruct (load_rows c255 X Y 0 rows m) as [[[] m']| |]; [|split; [|reflexivity]|destruct Q].
  - destruct Q as (F & [[A A'] [B B'] (Fr & _ & Fl & _)]). split; [|intros NF; destruct NF; intros i r E; exact (F i r E)].
    intros _. exists m'. split; [reflexivity|]. split; [exact A|]. split; [exact B|]. split; [|split; [|auto]].
    + intros i j Hi Hj. rewrite A' by auto. unfold all_X. cbn [Nat.leb]. now rewrite Nat.sub_0_r.
    + intros i j Hi Hj. rewrite B' by auto. unfold all_Y. cbn [Nat.leb]. rewrite Nat.sub_0_r. destruct (label_at rows i); reflexivity.
  - intros F. destruct Q. intros i r E. exact (F i r E).
Qed.
Print Assumptions C79_load.

(** Two new matrices in CPU memory: the labels are one-hot, the numbers are scaled, what the file says nothing about is 0. *)
Theorem C79_one_hot : forall {T} {N : Num T} (c255 : T) m n_rows n_in n_out rows, good m -> 0 < n_rows -> 0 < n_in -> 0 < n_out ->
  fits n_rows n_in n_rows n_out rows ->
  exists X Y m', load_new c255 CPU n_rows n_in n_out rows m = Ok ((X, Y), m') /\
    is_mat m' X n_rows n_in /\ is_mat m' Y n_rows n_out /\
    (forall i j, i < n_rows -> j < n_in -> val m' X i j = match pixel_at rows i j with Some v => ndiv v c255 | None => n0 end) /\
    (forall i j, i < n_rows -> j < n_out -> val m' Y i j = if match label_at rows i with Some l => j =? l | None => false end then n1 else n0) /\
    (forall q, q < length (objs m) -> get m' q = get m q).
Proof.
  intros T N c255 m n_rows n_in n_out rows Gm P1 P2 P3 F.
  destruct (new_mat_ok CPU None Gm P1 P2) as (m1 & E1 & G1 & Fr1 & _ & Gm1 & _ & L1).
  destruct (new_mat_ok CPU None Gm1 P1 P3) as (m2 & E2 & G2 & Fr2 & _ & Gm2 & _ & L2).
  set (X := length (objs m)) in *. set (Y := length (objs m1)) in *.
  assert (Ne : X <> Y) by lia.
  assert (G1' : get m2 X = get m1 X) by (apply Fr2; exact Ne).
  assert (Z : forall R C i j, i < R -> j < C -> nth (i * C + j) (repeat (n0 : T) (R * C)) n0 = n0).
  { intros R C i j _ _. apply nth_repeat. }
  assert (MX : is_mat m2 X n_rows n_in) by (rewrite G1 in G1'; eexists _, _, _; split; [exact G1'|apply repeat_length]).
  assert (MY : is_mat m2 Y n_rows n_out) by (eexists _, _, _; split; [exact G2|apply repeat_length]).
  destruct (proj1 (@C79_load _ _ c255 _ _ _ _ _ _ _ _ Ne MX MY) F) as (m3 & E3 & A & B & VX & VY & Fr & _).
  exists X, Y, m3. split; [|split; [exact A|split; [exact B|split; [|split]]]].
  - unfold load_new, bind. rewrite E1, E2. fold Y. rewrite E3. reflexivity.
  - intros i j Hi Hj. rewrite VX by auto. destruct (pixel_at rows i j); [reflexivity|]. unfold val. rewrite G1', G1. cbn [o_buf o_cols new_buf]. now apply Z.
  - intros i j Hi Hj. rewrite VY by auto. destruct (match label_at rows i with Some l => j =? l | None => false end); [reflexivity|].
    unfold val. rewrite G2. cbn [o_buf o_cols new_buf]. now apply Z.
  - intros q Hq. rewrite Fr by lia. rewrite Fr2 by lia. apply Fr1. lia.
Qed.
Print Assumptions C79_one_hot.

(** The example asks for pinned memory (main.cpp:70-75), which is not cleared when it is allocated, and LoadData writes the
    entry of the label only: every other entry of Y is what was in the memory before. *)
Theorem C79_pinned_refuted : forall {T} {N : Num T} (c255 : T) m n_rows n_in n_out rows, good m -> 0 < n_rows -> 0 < n_in -> 0 < n_out ->
  fits n_rows n_in n_rows n_out rows ->
  exists X Y m', load_new c255 GPU n_rows n_in n_out rows m = Ok ((X, Y), m') /\
    forall i j, i < n_rows -> j < n_out ->
      val m' Y i j = if match label_at rows i with Some l => j =? l | None => false end then n1 else junk m (S (next m)) (i * n_out + j).
Proof.
  intros T N c255 m n_rows n_in n_out rows Gm P1 P2 P3 F.
  destruct (new_mat_ok GPU None Gm P1 P2) as (m1 & E1 & G1 & Fr1 & _ & Gm1 & Nx & L1).
  destruct (new_mat_ok GPU None Gm1 P1 P3) as (m2 & E2 & G2 & Fr2 & _ & Gm2 & _ & L2).
  assert (J1 : junk m1 = junk m) by (revert E1; unfold new_mat, bind, assert; destruct ((0 <? n_rows) && (0 <? n_in)); [|discriminate]; intros [= <-]; reflexivity).
  set (X := length (objs m)) in *. set (Y := length (objs m1)) in *.
  assert (Ne : X <> Y) by lia.
  assert (G1' : get m2 X = get m1 X) by (apply Fr2; exact Ne).
  assert (MX : is_mat m2 X n_rows n_in) by (rewrite G1 in G1'; eexists _, _, _; split; [exact G1'|cbn [new_buf]; now rewrite map_length, seq_length]).
  assert (MY : is_mat m2 Y n_rows n_out) by (eexists _, _, _; split; [exact G2|cbn [new_buf]; now rewrite map_length, seq_length]).
  destruct (proj1 (@C79_load _ _ c255 _ _ _ _ _ _ _ _ Ne MX MY) F) as (m3 & E3 & A & B & VX & VY & Fr & _).
  exists X, Y, m3. split.
  - unfold load_new, bind. rewrite E1, E2. fold Y. rewrite E3. reflexivity.
  - intros i j Hi Hj. rewrite VY by auto. destruct (match label_at rows i with Some l => j =? l | None => false end); [reflexivity|].
    unfold val. rewrite G2. cbn [o_buf o_cols new_buf]. pose proof (idx_bound Hi Hj) as Lt.
    rewrite (nth_indep _ _ (junk m1 (next m1) 0)) by (rewrite map_length, seq_length; exact Lt).
    rewrite map_nth, seq_nth by exact Lt. rewrite J1, Nx. reflexivity.
Qed.
Print Assumptions C79_pinned_refuted.

(** A second file loaded into the same matrices: the labels of the first one stay, a row then has two ones. *)
Theorem C79_second_file_refuted : forall {T} {N : Num T} (c255 : T) m X Y RX n_in RY n_out rows rows' i l l',
  X <> Y -> is_mat m X RX n_in -> is_mat m Y RY n_out -> fits RX n_in RY n_out rows -> fits RX n_in RY n_out rows' ->
  label_at rows i = Some l -> label_at rows' i = Some l' ->
  exists m1 m2, LoadData c255 X Y rows m = Ok (tt, m1) /\ LoadData c255 X Y rows' m1 = Ok (tt, m2) /\ val m2 Y i l = n1 /\ val m2 Y i l' = n1.
Proof.
  intros T N c255 m X Y RX n_in RY n_out rows rows' i l l' Ne HX HY F F' E E'.
  destruct (proj1 (@C79_load _ _ c255 _ _ _ _ _ _ _ _ Ne HX HY) F) as (m1 & E1 & A & B & _ & VY & _).
  destruct (proj1 (@C79_load _ _ c255 _ _ _ _ _ _ _ _ Ne A B) F') as (m2 & E2 & _ & _ & _ & VY' & _).
  assert (K : forall (rs : list (list (field (T := T)))) k, fits RX n_in RY n_out rs -> label_at rs i = Some k -> i < RY /\ k < n_out).
  { intros rs k Fs Ek. unfold label_at in Ek. destruct (nth_error rs i) as [r|] eqn:Er; [|discriminate].
    destruct (Fs i r Er) as (P & Q & _). destruct r as [|f fs]; [discriminate|]. cbn in Ek. destruct P as ((k' & P1 & P2) & _).
    rewrite Ek in P1. injection P1 as <-. split; [apply Q; discriminate|exact P2]. }
  destruct (K rows l F E) as [Hi Hl]. destruct (K rows' l' F' E') as [_ Hl'].
  exists m1, m2. split; [exact E1|]. split; [exact E2|]. split.
  - rewrite VY' by auto. rewrite E'. destruct (l =? l'); [reflexivity|]. rewrite VY by auto. rewrite E, Nat.eqb_refl. reflexivity.
  - rewrite VY' by auto. rewrite E', Nat.eqb_refl. reflexivity.
Qed.
Print Assumptions C79_second_file_refuted.

(** Two rows with labels 2 and 0 and two numbers each fit matrices of 3 rows; a third number does not. *)
Definition ex_field (k : nat) : field := Field (Some k) (Some (Z.of_nat k)).
Definition ex_rows : list (list (field (T := Z))) := [[ex_field 2; ex_field 510; ex_field 255]; [ex_field 0; ex_field 255; ex_field 0]].
Example C79_nonvacuous : fits 3 2 3 3 ex_rows /\ ~ fits 3 1 3 3 ex_rows /\ good (MkMem (T := Z) [] 0 (fun _ _ => 7%Z) []) /\
  match load_new 255%Z CPU 3 2 3 ex_rows (MkMem (T := Z) [] 0 (fun _ _ => 7%Z) []) with
  | Ok ((X, Y), m) => (map (fun k => val m Y (k / 3) (k mod 3)) (seq 0 9) = [0; 0; 1; 1; 0; 0; 0; 0; 0] /\
                       map (fun k => val m X (k / 2) (k mod 2)) (seq 0 6) = [2; 1; 1; 0; 0; 0])%Z
  | _ => False end /\
  match load_new 255%Z GPU 3 2 3 ex_rows (MkMem (T := Z) [] 0 (fun _ _ => 7%Z) []) with
  | Ok ((X, Y), m) => val m Y 0 1 = 7%Z | _ => False end.
Proof.
  split; [|split; [|split; [|split; [vm_compute; auto|vm_compute; reflexivity]]]].
  - intros [|[|[|i]]] r [= <-]; (split; [split; [eexists; split; [reflexivity|lia]|split; [|simpl; lia]]|split; intros; lia]);
      intros g [<-|[<-|[]]]; discriminate.
  - intros F. destruct (F 0 _ eq_refl) as ((_ & _ & Q) & _). simpl in Q. lia.
  - intros p o E. unfold get in E. cbn [objs] in E. destruct p; discriminate E.
Qed.
