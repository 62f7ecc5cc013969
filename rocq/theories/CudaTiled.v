(** * The tiled CUDA kernels: product and transpose *)

From Coq Require Import List Arith Bool Lia.
From Verif Require Import Num KernelFacts KernelProofs Cuda CudaKernels.
Import ListNotations.
Set Implicit Arguments.
Unset Strict Implicit.

Section Mul.
Context {T : Type} {N : Num T}.
Variables (ts M K Nn a b c : nat).
Variable w0 : loc -> T.
Variable len : nat -> nat.
Hypothesis Pts : 0 < ts.
Hypothesis La : M * K <= len a.
Hypothesis Lb : K * Nn <= len b.
Hypothesis Lc : M * Nn <= len c.
Hypothesis Nac : a <> c.
Hypothesis Nbc : b <> c.
(** Adding a product of padding zeros changes nothing. *)
Hypothesis pad : forall x : T, nadd x (nmul n0 n0) = x.

Let ths := tiles ts M Nn.
Let inb := exists_in len 2 ts ts.
Let row := row ts.
Let col := col ts.
Definition mown (l : loc) : option thread :=
  match l with
  | Glob _ _ => pown ts M Nn c l
  | Shr p q arr y x => if (arr <? 2) && (y <? ts) && (x <? ts) then Some (Th p q y x) else None
  end.
Definition mrd (l : loc) (k : nat) : Prop := match l with Shr _ _ _ _ _ => Nat.odd k = true | Glob _ _ => False end.
(** The entry (r, kk) of the left operand padded with zeros; likewise (kk, q) of the right one. *)
Definition padA (r kk : nat) : T := if (r <? M) && (kk <? K) then w0 (Glob a (r * K + kk)) else n0.
Definition padB (kk q : nat) : T := if (q <? Nn) && (kk <? K) then w0 (Glob b (kk * Nn + q)) else n0.
Definition mov (l : loc) (k : nat) : T :=
  match l with
  | Shr p q arr y x => if arr =? 0 then padA (p * ts + y) (k / 2 * ts + x) else padB (k / 2 * ts + y) (q * ts + x)
  | Glob _ _ => n0
  end.
Definition mterm (th : thread) (kk : nat) : T := nmul (padA (row th) kk) (padB kk (col th)).
Definition mres (i j : nat) : T := sum_n K (fun kk => nmul (w0 (Glob a (i * K + kk))) (w0 (Glob b (kk * Nn + j)))).
Let mfin (l : loc) (v : T) : Prop := match l with Glob _ i => v = mres (i / Nn) (i mod Nn) | Shr _ _ _ _ _ => False end.
Let VC := vc ths inb w0 mown mrd mov mfin.

Lemma odd_2t t : Nat.odd (2 * t) = false.
Proof. rewrite Nat.odd_mul. reflexivity. Qed.
Lemma odd_2t1 t : Nat.odd (S (2 * t)) = true.
Proof. rewrite Nat.odd_succ, Nat.even_mul. reflexivity. Qed.
Lemma half_2t1 t : S (2 * t) / 2 = t.
Proof. symmetry. apply (Nat.div_unique _ 2 t 1); lia. Qed.
Lemma stable_even t th (w : loc -> T) : forall l, mown l = Some th -> mrd l (2 * t) -> w l = mov l (2 * t).
Proof. intros l _ H. destruct l; [destruct H|]. unfold mrd in H. rewrite odd_2t in H. discriminate. Qed.
Lemma mown_shr th l : mown l = Some th -> mrd l 1 -> exists arr, arr < 2 /\ l = Shr (t_by th) (t_bx th) arr (t_ty th) (t_tx th).
Proof.
  intros H R. destruct l as [|p q arr y x]; [destruct R|]. simpl in H.
  destruct (Nat.ltb_spec arr 2), (Nat.ltb_spec y ts), (Nat.ltb_spec x ts); try discriminate. simpl in H. injection H as <-. exists arr. auto.
Qed.
Lemma mown_mine th arr : In th ths -> arr < 2 -> mown (Shr (t_by th) (t_bx th) arr (t_ty th) (t_tx th)) = Some th.
Proof.
  intros It Ha. apply in_tiles in It. destruct It as [H1 H2]. simpl.
  destruct (Nat.ltb_spec arr 2), (Nat.ltb_spec (t_ty th) ts), (Nat.ltb_spec (t_tx th) ts); try lia. now destruct th.
Qed.
Lemma mown_in p q arr y x : arr < 2 -> y < ts -> x < ts -> p < cover M ts -> q < cover Nn ts ->
  mown (Shr p q arr y x) = Some (Th p q y x) /\ In (Th p q y x) ths.
Proof.
  intros H1 H2 H3 H4 H5. split.
  - simpl. destruct (Nat.ltb_spec arr 2), (Nat.ltb_spec y ts), (Nat.ltb_spec x ts); try lia. reflexivity.
  - unfold ths, tiles. apply in_grid. simpl. auto.
Qed.

(** The inner loop over a tile. *)
Lemma inner_ok th t tail w : In th ths ->
  (forall l, mown l = Some th -> mrd l (S (2 * t)) -> w l = mov l (S (2 * t))) ->
  forall n i g, i + n <= ts -> g 4 = sum_n (t * ts + i) (mterm th) ->
  (forall g', g' 4 = sum_n (t * ts + (i + n)) (mterm th) -> VC th tail (S (2 * t)) g' w) ->
  VC th (flat_map (mul_inner th) (seq i n) ++ tail) (S (2 * t)) g w.
Proof.
  intros It Hs. induction n as [|n IH]; intros i g Hi Hg Ht.
  - simpl. apply Ht. now rewrite Nat.add_0_r.
  - cbn [seq flat_map]. unfold mul_inner at 1. cbn [app].
    assert (Q := It). unfold ths, tiles in Q. rewrite in_grid in Q. destruct Q as (Hby & Hbx & Hty & Htx).
    split; [exact Hs|]. split; [unfold inb; simpl; lia|]. right. right.
    destruct (@mown_in (t_by th) (t_bx th) 0 (t_ty th) i) as [O1 I1]; try lia.
    exists (Th (t_by th) (t_bx th) (t_ty th) i). split; [exact O1|]. split; [exact I1|]. split; [split; reflexivity|]. split; [apply odd_2t1|].
    split; [exact Hs|]. split; [unfold inb; simpl; lia|]. right. right.
    destruct (@mown_in (t_by th) (t_bx th) 1 i (t_tx th)) as [O2 I2]; try lia.
    exists (Th (t_by th) (t_bx th) i (t_tx th)). split; [exact O2|]. split; [exact I2|]. split; [split; reflexivity|]. split; [apply odd_2t1|].
    split; [exact Hs|]. split; [exact Hs|]. apply IH; [lia| |].
    + unfold mov. rewrite half_2t1. unfold rset. cbn [Nat.eqb]. rewrite Hg. unfold mterm at 2, row, col, CudaKernels.row, CudaKernels.col.
      rewrite Nat.add_succ_r. reflexivity.
    + intros g' Hg'. apply Ht. rewrite Hg'. f_equal. lia.
Qed.

Lemma rounds_ok th tail : In th ths ->
  forall n t g w, g 4 = sum_n (t * ts) (mterm th) ->
  (forall g' w', g' 4 = sum_n ((t + n) * ts) (mterm th) -> VC th tail (2 * (t + n)) g' w') ->
  VC th (flat_map (mul_round ts M K Nn a b th) (seq t n) ++ tail) (2 * t) g w.
Proof.
  intros It. induction n as [|n IH]; intros t g w Hg Ht.
  - simpl flat_map. cbn [app]. replace (2 * t) with (2 * (t + 0)) by lia. apply Ht. now rewrite Nat.add_0_r.
  - cbn [seq flat_map]. unfold mul_round at 1. cbv zeta. cbn [app].
    change (t_by th * ts + t_ty th) with (row th). change (t_bx th * ts + t_tx th) with (col th).
    assert (Q := in_tiles It). destruct Q as [Hty Htx].
    set (S0 := Shr (t_by th) (t_bx th) 0 (t_ty th) (t_tx th)). set (S1 := Shr (t_by th) (t_bx th) 1 (t_ty th) (t_tx th)).
    assert (O0 : mown S0 = Some th) by (apply mown_mine; auto). assert (O1 : mown S1 = Some th) by (apply mown_mine; auto).
    (* after the first staging load *)
    assert (Step2 : forall g, g 4 = sum_n (t * ts) (mterm th) -> g 0 = padA (row th) (t * ts + t_tx th) ->
      VC th (CSt S0 0 :: (if (col th <? Nn) && (t * ts + t_ty th <? K) then CLd 1 (Glob b ((t * ts + t_ty th) * Nn + col th)) else COp 1 (fun _ _ => n0) 0 0) ::
        CSt S1 1 :: CBar :: ((flat_map (mul_inner th) (seq 0 ts) ++ [CBar]) ++ flat_map (mul_round ts M K Nn a b th) (seq (S t) n)) ++ tail) (2 * t) g w).
    { clear g Hg. intros g Hg H0. split; [apply stable_even|]. split; [unfold inb; simpl; lia|]. split; [exact O0|].
      set (w1 := cset w S0 (g 0)).
      assert (Step3 : forall g, g 4 = sum_n (t * ts) (mterm th) -> g 1 = padB (t * ts + t_ty th) (col th) ->
        VC th (CSt S1 1 :: CBar :: ((flat_map (mul_inner th) (seq 0 ts) ++ [CBar]) ++ flat_map (mul_round ts M K Nn a b th) (seq (S t) n)) ++ tail) (2 * t) g w1).
      { intros h Hh H1. split; [apply stable_even|]. split; [unfold inb; simpl; lia|]. split; [exact O1|].
        split; [apply stable_even|]. rewrite <- !app_assoc. 
        apply inner_ok; auto.
        - intros l Ho R. destruct (mown_shr Ho) as (arr & Ha & ->); [destruct l; [destruct R|reflexivity]|].
          destruct arr as [|[|]]; [| |lia].
          + fold S0. unfold cset. destruct (loc_eq S0 S1) as [E|_]; [discriminate E|]. unfold w1, cset. destruct (loc_eq S0 S0); [|congruence].
            rewrite H0. unfold mov, S0. rewrite half_2t1. reflexivity.
          + fold S1. unfold cset. destruct (loc_eq S1 S1); [|congruence].
            rewrite H1. unfold mov, S1. rewrite half_2t1. reflexivity.
        - now rewrite Nat.add_0_r.
        - intros g' Hg'. split.
          + intros l Ho R. destruct (mown_shr Ho) as (arr & Ha & ->); [destruct l; [destruct R|reflexivity]|].
            destruct arr as [|[|]]; [| |lia].
            * fold S0. unfold cset. destruct (loc_eq S0 S1) as [E|_]; [discriminate E|]. unfold w1, cset. destruct (loc_eq S0 S0); [|congruence].
              rewrite H0. unfold mov, S0. rewrite half_2t1. reflexivity.
            * fold S1. unfold cset. destruct (loc_eq S1 S1); [|congruence].
              rewrite H1. unfold mov, S1. rewrite half_2t1. reflexivity.
          + cbn [app]. replace (S (S (2 * t))) with (2 * S t) by lia. apply IH.
            * rewrite Hg'. f_equal. simpl. lia.
            * intros g2 w2 H2. replace (2 * (S t + n)) with (2 * (t + S n)) by lia. apply Ht. rewrite H2. f_equal. lia. }
      destruct (Nat.ltb_spec (col th) Nn) as [Hc|Hc], (Nat.ltb_spec (t * ts + t_ty th) K) as [Hk|Hk]; simpl andb; cbv iota.
      2-4: (split; [apply stable_even|]; apply Step3; [exact Hg|]; unfold rset; cbn [Nat.eqb]; unfold padB;
            destruct (Nat.ltb_spec (col th) Nn), (Nat.ltb_spec (t * ts + t_ty th) K); try lia; reflexivity).
      split; [apply stable_even|]. split; [unfold inb; simpl; nia|]. right. left. split; [now apply pown_none|].
      apply Step3; [exact Hg|]. unfold rset. cbn [Nat.eqb]. unfold padB.
      destruct (Nat.ltb_spec (col th) Nn), (Nat.ltb_spec (t * ts + t_ty th) K); try lia. reflexivity. }
    destruct (Nat.ltb_spec (row th) M) as [Hr|Hr], (Nat.ltb_spec (t * ts + t_tx th) K) as [Hk|Hk]; simpl andb; cbv iota.
    2-4: (split; [apply stable_even|]; apply Step2; [exact Hg|]; unfold rset; cbn [Nat.eqb]; unfold padA;
          destruct (Nat.ltb_spec (row th) M), (Nat.ltb_spec (t * ts + t_tx th) K); try lia; reflexivity).
    split; [apply stable_even|]. split; [unfold inb; simpl; nia|]. right. left. split; [now apply pown_none|].
    apply Step2; [exact Hg|]. unfold rset. cbn [Nat.eqb]. unfold padA.
    destruct (Nat.ltb_spec (row th) M), (Nat.ltb_spec (t * ts + t_tx th) K); try lia. reflexivity.
Qed.

Lemma sum_padded th : row th < M -> col th < Nn -> forall n, K <= n -> sum_n n (mterm th) = mres (row th) (col th).
Proof.
  intros Hr Hc n Hn. induction n as [|n IH].
  - assert (K = 0) by lia. unfold mres. replace K with 0 by lia. reflexivity.
  - destruct (Nat.eq_dec K (S n)) as [E|Ne].
    + unfold mres. rewrite E. apply sum_n_ext. intros kk Hk. unfold mterm, padA, padB. rewrite E.
      destruct (Nat.ltb_spec (row th) M), (Nat.ltb_spec (col th) Nn), (Nat.ltb_spec kk (S n)); try lia. reflexivity.
    + cbn [sum_n]. rewrite IH by lia. unfold mterm, padA, padB. destruct (Nat.ltb_spec n K); [lia|]. rewrite !andb_false_r. apply pad.
Qed.

Lemma mul_cuda_ok : launch_ok ths inb (mul_kernel ts M K Nn a b c) w0 (result_is M Nn c w0 mres).
Proof.
  assert (VCS : forall th, In th ths -> forall g, VC th (mul_kernel ts M K Nn a b c th) 0 g w0).
  { intros th It g. unfold mul_kernel. cbv zeta. change (t_by th * ts + t_ty th) with (row th). change (t_bx th * ts + t_tx th) with (col th).
    split; [apply (@stable_even 0)|]. apply (@rounds_ok th _ It (cover K ts) 0); [reflexivity|].
    intros g' w' Hg'. rewrite Nat.add_0_l in *.
    destruct (Nat.ltb_spec (row th) M) as [Hr|Hr], (Nat.ltb_spec (col th) Nn) as [Hc|Hc]; simpl andb; cbv iota.
    2-4: (split; [apply stable_even|]; intros l v Ho Hf; destruct l as [x i|]; [|destruct Hf]; destruct (pown_inv Pts It Ho) as (A & B & _); unfold row, col in *; lia).
    assert (Ho : mown (Glob c (row th * Nn + col th)) = Some th) by (apply pown_mine; auto).
    split; [apply stable_even|]. split; [unfold inb; simpl; nia|]. split; [exact Ho|].
    split; [apply stable_even|]. intros l v Ho' Hf. destruct l as [x i|]; [|destruct Hf].
    destruct (pown_inv Pts It Ho') as (_ & _ & E). rewrite E in *. fold row in E, Hf |- *. fold col in E, Hf |- *.
    unfold cset. destruct (loc_eq _ _) as [_|Ne]; [|exfalso; apply Ne; reflexivity]. simpl in Hf.
    rewrite dm_div, dm_mod in Hf by auto. rewrite Hf, Hg'. apply sum_padded; auto. now apply cover_ge. }
  apply vc_sound with (init := w0) (own := mown) (rd := mrd) (ov := mov) (fin := mfin); auto.
  - intros x y _ _ _. clear. unfold mul_kernel. cbv zeta.
    assert (B1 : forall th n i, bars (flat_map (mul_inner (T := T) th) (seq i n)) = 0).
    { intros th n. induction n as [|n IH]; intros i; auto. cbn [seq flat_map]. unfold bars in *. rewrite filter_app, app_length, IH. reflexivity. }
    assert (B2 : forall th n t, bars (flat_map (mul_round ts M K Nn a b th) (seq t n)) = 2 * n).
    { intros th n. induction n as [|n IH]; intros t; auto. cbn [seq flat_map]. unfold bars in *. rewrite filter_app, app_length, IH.
      unfold mul_round. cbv zeta. cbn [filter]. destruct (_ && _), (_ && _); cbn [filter length]; rewrite filter_app, app_length, B1; simpl; lia. }
    unfold bars in *. cbn [filter]. rewrite !filter_app, !app_length, !B2. destruct (_ && _), (_ && _); reflexivity.
  - apply nodup_grid.
  - intros w' H0 H1. split.
    + intros i j Hi Hj. destruct (@pown_some ts M Nn c Pts i j Hi Hj) as (th & Ho & It). eapply H1; eauto. simpl. now rewrite dm_div, dm_mod.
    + intros x i [Hb|Hi]; apply H0; [now apply pown_none|]. simpl. destruct (Nat.ltb_spec i (M * Nn)); [lia|]. now rewrite andb_false_r.
Qed.
End Mul.

Section Transpose.
Context {T : Type} {N : Num T}.
Variables (nb br M Nn a c : nat).
Variable w0 : loc -> T.
Variable len : nat -> nat.
Hypothesis Pbr : 0 < br.
Hypothesis Pnb : 0 < nb.
Hypothesis La : M * Nn <= len a.
Hypothesis Lc : Nn * M <= len c.
Hypothesis Nac : a <> c.
Let td := nb * br.
Let ths := tr_tiles td br M Nn.
Let inb := exists_in len 1 td (S td).

(** The thread that writes entry (r, q) of the output. *)
Definition tr_at (r q : nat) : thread := Th (q / td) (r / td) (r mod td mod br) (q mod td).
Definition town (l : loc) : option thread :=
  match l with
  | Glob x i => if (x =? c) && (i <? Nn * M) then Some (tr_at (i / M) (i mod M)) else None
  | Shr p q arr y x => if (arr =? 0) && (y <? td) && (x <? td) then Some (Th p q (y mod br) x) else None
  end.
Definition trd (l : loc) (k : nat) : Prop :=
  match l with Shr p q arr y x => k = 1 /\ arr = 0 /\ y < td /\ x < td /\ p * td + y < M /\ q * td + x < Nn | Glob _ _ => False end.
Definition tov (l : loc) (k : nat) : T :=
  match l with Shr p q arr y x => w0 (Glob a ((p * td + y) * Nn + (q * td + x))) | Glob _ _ => n0 end.
Definition tres (i j : nat) : T := w0 (Glob a (j * Nn + i)).
Let tfin (l : loc) (v : T) : Prop := match l with Glob _ i => v = tres (i / M) (i mod M) | Shr _ _ _ _ _ => False end.
Let VC := vc ths inb w0 town trd tov tfin.

Lemma Ptd : 0 < td.
Proof. unfold td. nia. Qed.
Lemma cover_td : cover td br = nb.
Proof. unfold td. now apply cover_mult. Qed.
Lemma in_tr th : In th ths -> t_by th < cover M td /\ t_bx th < cover Nn td /\ t_ty th < br /\ t_tx th < td.
Proof. unfold ths, tr_tiles. now rewrite in_grid. Qed.
Lemma row_lt th q : In th ths -> q < nb -> t_ty th + q * br < td.
Proof. intros It Hq. destruct (in_tr It) as (_ & _ & H & _). unfold td. nia. Qed.
Lemma mod_br y q : y < br -> (y + q * br) mod br = y.
Proof. intros H. rewrite Nat.mod_add by lia. now apply Nat.mod_small. Qed.
Lemma div_br y q : y < br -> (y + q * br) / br = q.
Proof. intros H. rewrite Nat.div_add by lia. rewrite Nat.div_small by auto. lia. Qed.
Lemma town_shr th q : In th ths -> q < nb -> town (Shr (t_by th) (t_bx th) 0 (t_ty th + q * br) (t_tx th)) = Some th.
Proof.
  intros It Hq. pose proof (row_lt It Hq). destruct (in_tr It) as (_ & _ & H1 & H2). simpl.
  destruct (Nat.ltb_spec (t_ty th + q * br) td), (Nat.ltb_spec (t_tx th) td); try lia. simpl. rewrite mod_br by auto. now destruct th.
Qed.
Lemma town_shr_inv th l : town l = Some th -> trd l 1 -> exists q, q < nb /\ l = Shr (t_by th) (t_bx th) 0 (t_ty th + q * br) (t_tx th).
Proof.
  intros H R. destruct l as [|p q arr y x]; [destruct R|]. simpl in H, R. destruct R as (_ & -> & Hy & Hx & _).
  destruct (Nat.ltb_spec y td), (Nat.ltb_spec x td); try lia. simpl in H. injection H as <-. exists (y / br). simpl.
  split; [apply Nat.div_lt_upper_bound; unfold td in Hy; lia|]. f_equal. rewrite Nat.add_comm. symmetry. apply dm_eq. lia.
Qed.
Lemma town_glob th q : In th ths -> q < nb -> t_by th * td + t_tx th < M -> t_bx th * td + t_ty th + q * br < Nn ->
  town (Glob c ((t_bx th * td + t_ty th + q * br) * M + (t_by th * td + t_tx th))) = Some th.
Proof.
  intros It Hq Hx Hy. pose proof (row_lt It Hq). destruct (in_tr It) as (_ & _ & H1 & H2). unfold town. rewrite Nat.eqb_refl.
  destruct (Nat.ltb_spec ((t_bx th * td + t_ty th + q * br) * M + (t_by th * td + t_tx th)) (Nn * M)); [|nia]. simpl.
  rewrite dm_div, dm_mod by auto. unfold tr_at. rewrite <- Nat.add_assoc, !dm_div, !dm_mod by auto. rewrite mod_br by auto. now destruct th.
Qed.
Lemma town_glob_inv th x i : town (Glob x i) = Some th -> x = c /\ exists q, q < nb /\ t_by th * td + t_tx th < M /\ t_bx th * td + t_ty th + q * br < Nn /\
  i = (t_bx th * td + t_ty th + q * br) * M + (t_by th * td + t_tx th).
Proof.
  intros H. simpl in H. destruct (Nat.eqb_spec x c) as [->|]; [|discriminate]. destruct (Nat.ltb_spec i (Nn * M)) as [L|]; [|discriminate].
  simpl in H. injection H as <-. split; [reflexivity|]. simpl. pose proof Ptd as Pt. assert (M <> 0) by (intros ->; lia).
  exists ((i / M) mod td / br). 
  pose proof (Nat.mod_upper_bound (i / M) td ltac:(lia)) as U.
  assert (E : (i / M) / td * td + (i / M) mod td mod br + (i / M) mod td / br * br = i / M).
  { pose proof (@dm_eq ((i / M) mod td) br ltac:(lia)). pose proof (@dm_eq (i / M) td ltac:(lia)). lia. }
  split; [apply Nat.div_lt_upper_bound; unfold td in *; lia|].
  rewrite E. rewrite (@dm_eq (i mod M) td) by lia.
  split; [now apply Nat.mod_upper_bound|]. split; [apply Nat.div_lt_upper_bound; lia|]. symmetry. now apply dm_eq.
Qed.
Lemma town_some i j : i < Nn -> j < M -> exists th, town (Glob c (i * M + j)) = Some th /\ In th ths.
Proof.
  intros Hi Hj. unfold town. rewrite Nat.eqb_refl. destruct (Nat.ltb_spec (i * M + j) (Nn * M)); [|nia]. simpl.
  eexists. split; [reflexivity|]. rewrite dm_div, dm_mod by auto. pose proof Ptd. unfold ths, tr_tiles. apply in_grid. unfold tr_at. simpl.
  repeat split; try (apply Nat.mod_upper_bound; lia); apply cover_lt; auto.
Qed.

(** The content of the thread's own tile cells after [n] rounds of loading. *)
Definition loaded th n (w : loc -> T) : Prop :=
  forall q, q < n -> let l := Shr (t_by th) (t_bx th) 0 (t_ty th + q * br) (t_tx th) in trd l 1 -> w l = tov l 1.
Lemma stable0 th (w : loc -> T) : forall l, town l = Some th -> trd l 0 -> w l = tov l 0.
Proof. intros l _ R. destruct l; [destruct R|]. destruct R as (E & _). discriminate. Qed.
Lemma stable1 th w : loaded th nb w -> forall l, town l = Some th -> trd l 1 -> w l = tov l 1.
Proof. intros H l Ho R. destruct (town_shr_inv Ho R) as (q & Hq & ->). now apply H. Qed.

Lemma load_ok th tail : In th ths -> forall n q g w, q + n = nb -> loaded th q w ->
  (forall g' w', loaded th nb w' -> VC th tail 0 g' w') ->
  VC th (flat_map (tr_load td br M Nn a th) (seq q n) ++ tail) 0 g w.
Proof.
  intros It. destruct (in_tr It) as (_ & _ & Hty & Htx). induction n as [|n IH]; intros q g w Hq Hl Ht.
  - simpl. apply Ht. replace nb with q by lia. exact Hl.
  - cbn [seq flat_map]. unfold tr_load at 1. cbv zeta. pose proof (@row_lt th q It ltac:(lia)) as Rl.
    destruct (Nat.ltb_spec (t_bx th * td + t_tx th) Nn) as [Hx|Hx], (Nat.ltb_spec (t_by th * td + t_ty th + q * br) M) as [Hy|Hy]; simpl andb; cbv iota; cbn [app].
    + split; [apply stable0|]. split; [unfold inb; simpl; nia|]. right. left.
      split; [simpl; destruct (Nat.eqb_spec a c); [congruence|reflexivity]|].
      split; [apply stable0|]. split; [unfold inb; simpl; lia|]. split; [apply town_shr; auto; lia|].
      apply IH; [lia| |exact Ht]. intros q' Hq' l R. unfold l, cset. destruct (loc_eq _ _) as [E|Ne].
      * assert (q' = q) as -> by (injection E as E; nia). unfold rset. cbn [Nat.eqb]. unfold tov. f_equal. f_equal. lia.
      * apply Hl; auto. destruct (Nat.eq_dec q' q) as [->|]; [congruence|lia].
    + apply IH; [lia| |exact Ht]. intros q' Hq' l R. destruct (Nat.eq_dec q' q) as [->|]; [|apply Hl; auto; lia].
      unfold l, trd in R. lia.
    + apply IH; [lia| |exact Ht]. intros q' Hq' l R. destruct (Nat.eq_dec q' q) as [->|]; [|apply Hl; auto; lia].
      unfold l, trd in R. lia.
    + apply IH; [lia| |exact Ht]. intros q' Hq' l R. destruct (Nat.eq_dec q' q) as [->|]; [|apply Hl; auto; lia].
      unfold l, trd in R. lia.
Qed.

Definition stored_upto th n (w : loc -> T) : Prop :=
  forall q, q < n -> t_by th * td + t_tx th < M -> t_bx th * td + t_ty th + q * br < Nn ->
    w (Glob c ((t_bx th * td + t_ty th + q * br) * M + (t_by th * td + t_tx th))) = tres (t_bx th * td + t_ty th + q * br) (t_by th * td + t_tx th).
Lemma store_ok th : In th ths -> forall n q g w, q + n = nb -> loaded th nb w -> stored_upto th q w ->
  VC th (flat_map (tr_store td br M Nn c th) (seq q n)) 1 g w.
Proof.
  intros It. destruct (in_tr It) as (Hby & Hbx & Hty & Htx). pose proof Ptd as Pt. induction n as [|n IH]; intros q g w Hq Hl Hs.
  - simpl. split; [now apply stable1|]. intros l v Ho Hf. destruct l as [x i|]; [|destruct Hf].
    destruct (town_glob_inv Ho) as (-> & q' & Hq' & Hx & Hy & ->). simpl in Hf. rewrite dm_div, dm_mod in Hf by auto. rewrite Hf. apply Hs; auto. lia.
  - cbn [seq flat_map]. unfold tr_store at 1. cbv zeta. pose proof (@row_lt th q It ltac:(lia)) as Rl.
    destruct (Nat.ltb_spec (t_by th * td + t_tx th) M) as [Hx|Hx], (Nat.ltb_spec (t_bx th * td + t_ty th + q * br) Nn) as [Hy|Hy]; simpl andb; cbv iota; cbn [app].
    + set (src := Shr (t_by th) (t_bx th) 0 (t_tx th) (t_ty th + q * br)).
      assert (R : trd src 1) by (unfold src, trd; lia).
      split; [now apply stable1|]. split; [unfold inb; simpl; lia|]. right. right.
      exists (Th (t_by th) (t_bx th) (t_tx th mod br) (t_ty th + q * br)).
      split; [unfold src; simpl; destruct (Nat.ltb_spec (t_tx th) td), (Nat.ltb_spec (t_ty th + q * br) td); try lia; reflexivity|].
      split; [unfold ths, tr_tiles; apply in_grid; simpl; pose proof (Nat.mod_upper_bound (t_tx th) br ltac:(lia)); auto|].
      split; [split; reflexivity|]. split; [exact R|].
      split; [now apply stable1|]. split; [unfold inb; simpl; nia|]. split; [apply town_glob; auto; lia|].
      apply IH; [lia| |].
      * intros q' Hq' l R'. unfold l, cset. destruct (loc_eq _ _) as [E|_]; [discriminate E|]. now apply Hl.
      * intros q' Hq' Hx' Hy'. unfold cset. destruct (loc_eq _ _) as [E|Ne].
        -- injection E as E. unfold rset. cbn [Nat.eqb]. unfold src, tov, tres. assert (q' = q) as -> by nia. f_equal. f_equal. lia.
        -- apply Hs; auto. destruct (Nat.eq_dec q' q) as [->|]; [congruence|lia].
    + apply IH; [lia|auto|]. intros q' Hq' Hx' Hy'. destruct (Nat.eq_dec q' q) as [->|]; [lia|]. apply Hs; auto. lia.
    + apply IH; [lia|auto|]. intros q' Hq' Hx' Hy'. destruct (Nat.eq_dec q' q) as [->|]; [lia|]. apply Hs; auto. lia.
    + apply IH; [lia|auto|]. intros q' Hq' Hx' Hy'. destruct (Nat.eq_dec q' q) as [->|]; [lia|]. apply Hs; auto. lia.
Qed.

Lemma tr_cuda_ok : launch_ok ths inb (tr_kernel td br M Nn a c) w0 (result_is Nn M c w0 tres).
Proof.
  apply vc_sound with (init := w0) (own := town) (rd := trd) (ov := tov) (fin := tfin); auto.
  - intros x y _ _ _. clear. unfold tr_kernel.
    assert (B1 : forall th n q, bars (flat_map (tr_load (T := T) td br M Nn a th) (seq q n)) = 0).
    { intros th n. induction n as [|n IH]; intros q; auto. cbn [seq flat_map]. unfold bars in *. rewrite filter_app, app_length, IH.
      unfold tr_load. cbv zeta. destruct (_ && _); reflexivity. }
    assert (B2 : forall th n q, bars (flat_map (tr_store (T := T) td br M Nn c th) (seq q n)) = 0).
    { intros th n. induction n as [|n IH]; intros q; auto. cbn [seq flat_map]. unfold bars in *. rewrite filter_app, app_length, IH.
      unfold tr_store. cbv zeta. destruct (_ && _); reflexivity. }
    unfold bars in *. rewrite !filter_app, !app_length, !B1. cbn [filter length]. now rewrite !B2.
  - apply nodup_grid.
  - intros th It g. unfold tr_kernel. rewrite cover_td. apply load_ok; auto; [intros q Hq; lia|].
    intros g' w' Hl. split; [apply stable0|]. apply store_ok; auto. intros q Hq; lia.
  - intros w' H0 H1. split.
    + intros i j Hi Hj. destruct (town_some Hi Hj) as (th & Ho & It). eapply H1; eauto. simpl. now rewrite dm_div, dm_mod.
    + intros x i [Hb|Hi]; apply H0; simpl; [destruct (Nat.eqb_spec x c); [congruence|reflexivity]|].
      destruct (Nat.ltb_spec i (Nn * M)); [lia|]. now rewrite andb_false_r.
Qed.
End Transpose.
