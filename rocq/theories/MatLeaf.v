(** * Memory steps of leaf matrices *)

From Coq Require Import List Arith Bool Lia.
From Verif Require Import Num MatMem Kernels KernelFacts KernelProofs KernelBlocks KernelMore Registry KernelStep Backend Slots Exec ConvProofs MatEngine MatGraph.
Import ListNotations.
Set Implicit Arguments.
Unset Strict Implicit.

Section Leaf.
Context {T : Type} {N : Num T}.
Variable S : sched T.
Hypothesis VS : valid_sched S.
Variable G : graph T.
Variable rho : env T.
Notation mem := (mem T).
Notation mat := (mat T).
Implicit Types (m : mem).
Hypothesis Pos : forall o, 0 < g_rows G o /\ 0 < g_cols G o.

(** MatrixPool on a matrix that already has the requested dimensions changes nothing. *)
Lemma pool_same m p v : holds m p v -> pool CPU (Some p) (mr v) (mc v) m = Ok (p, m).
Proof.
  intros ((k & sp & b & H & L) & _). unfold pool, pool_with, bind, deref. rewrite H. cbn [o_rows o_cols]. rewrite Nat.eqb_refl.
  unfold reshape, bind, deref, assert. rewrite H. cbn [o_rows o_cols o_nidx o_space o_buf]. rewrite Nat.eqb_refl. unfold ret. f_equal. f_equal.
  unfold put. rewrite (list_set_id (get_nth H)). destruct m; reflexivity.
Qed.

Lemma pres_set_entries o p : pres (set_entries G rho o p).
Proof. apply pres_for. intros n. apply pres_rawset. Qed.
Lemma pres_set_derivs o x p : pres (set_derivs S G rho o x p).
Proof.
  unfold set_derivs. destruct (g_kind G o); try apply pres_ret.
  - destruct (_ =? _); [apply pres_par; intros; apply pres_set2|apply pres_par2; intros; apply pres_set2].
  - apply pres_par2; intros; apply pres_set2.
Qed.

(** Evaluating a leaf: pool and write every entry. *)
Lemma leaf_write m r o : tame m -> slot_ok m r ->
  exists p m1 m', pool CPU r (g_rows G o) (g_cols G o) m = Ok (p, m1) /\ set_entries G rho o p m1 = Ok (tt, m') /\
    wrote m r p (leaf_mat G rho o) m'.
Proof.
  intros Tm Hr. destruct (Pos o) as [PR PC].
  destruct (pool_ok None CPU (proj1 Tm) (slot_res Hr) PR PC) as (p & m1 & E & P).
  destruct (pooled_obj (proj1 Tm) P) as (ob & Ho & oR & oC & Lo).
  destruct (@scatter T nat m1 p ob (seq 0 (g_rows G o * g_cols G o)) (fun n => n) (fun n => Some (leaf_entry G rho o n))
             (fun n => rawset p n (leaf_entry G rho o n)) Ho) as (b' & Ef & A1 & A2 & A3).
  - apply seq_NoDup.
  - intros i Hi _. apply in_seq in Hi. lia.
  - auto.
  - intros i b Hi Lb _. apply in_seq in Hi. apply (rawset_upd _ Ho). lia.
  - exists p, m1, (upd m1 p b'). split; [exact E|]. split; [exact Ef|].
    apply stored_wrote; auto.
    + eapply stored_intro; eauto. intros i j Hi Hj. apply (A2 _ _); [|reflexivity].
      apply in_seq. pose proof (idx_bound Hi Hj). lia.
    + eapply pres_set_entries; [|exact Ef]. eapply pres_pool; [|exact E]. apply Tm.
Qed.

(** *** Derivatives *)
Variable x : obj.
Notation xr := (g_rows G x).
Notation xc := (g_cols G x).
Hypothesis Xvar : g_kind G x = LVar.
(** Matrices of variables have different numbers, and so have their entries. *)
Definition distinct_vars : Prop :=
  forall o o', g_kind G o = LVar -> g_kind G o' = LVar -> o <> o' ->
    g_nidx G o <> g_nidx G o' /\
    forall n n', n < g_rows G o * g_cols G o -> n' < g_rows G o' * g_cols G o' -> g_vid G o n <> g_vid G o' n'.
Hypothesis DV : distinct_vars.

Definition is_const (o : obj) : Prop := g_kind G o = LConst \/ g_kind G o = LEye.
(** Position k of a buffer of length n is one that the derivative of o by itself sets. *)
Definition diagonal (o : obj) (n k : nat) : Prop :=
  n = (g_rows G o * g_rows G o) * (g_cols G o * g_cols G o) /\
  exists i j, i < g_rows G o /\ j < g_cols G o /\
    k = (i * g_rows G o + i) * (g_cols G o * g_cols G o) + (j * g_cols G o + j).
(** What mp_dresult of a leaf may contain between derivative computations. *)
Definition dclean m (o : obj) (r : option ptr) : Prop :=
  match r with
  | None => True
  | Some p => forall ob, get m p = Some ob ->
      (is_const o -> forall k, nth k (o_buf ob) n0 = n0) /\
      (g_kind G o = LVar -> forall k, ~ diagonal o (length (o_buf ob)) k -> nth k (o_buf ob) n0 = n0)
  end.
Lemma dclean_same m m' o r : (forall p, r = Some p -> get m' p = get m p) -> dclean m o r -> dclean m' o r.
Proof. intros E H. destruct r as [p|]; simpl in *; auto. rewrite E by auto. exact H. Qed.

(** The buffer after MatrixPool: either the old one, of the same length, or zeros. *)
Lemma pooled_buf fill m r R C p m1 ob : fill = None -> pooled fill CPU m r R C p m1 -> get m1 p = Some ob ->
  (exists o', r = Some p /\ get m p = Some o' /\ o_buf ob = o_buf o') \/ (forall k, nth k (o_buf ob) n0 = n0).
Proof.
  intros -> P Ho. destruct (pl_cases P) as [(-> & o & Ho' & E & Hm)|(-> & Hm & _)]; rewrite Hm in Ho; injection Ho as <-.
  - left. exists o. auto.
  - right. intros k. cbn [o_buf new_buf]. destruct (Nat.lt_ge_cases k (R * C)) as [L|L].
    + apply nth_error_nth. rewrite (nth_error_nth' _ n0) by (rewrite repeat_length; auto). f_equal. apply nth_repeat.
    + apply nth_overflow. rewrite repeat_length. auto.
Qed.

Lemma divmod_lt R q s : 0 < q -> s < R * q -> s / q < R /\ s mod q < q /\ s = s / q * q + s mod q.
Proof.
  intros Hq Hs. split; [apply Nat.div_lt_upper_bound; lia|]. split; [apply Nat.mod_upper_bound; lia|].
  pose proof (Nat.div_mod s q). lia.
Qed.

Lemma const_dleaf m r o : is_const o -> tame m -> slot_ok m r -> dclean m o r ->
  exists p m1, pool CPU r (g_rows G o * xr) (g_cols G o * xc) m = Ok (p, m1) /\ set_derivs S G rho o x p m1 = Ok (tt, m1) /\
    wrote m r p (leaf_dmat G rho x o) m1 /\ dclean m1 o (Some p).
Proof.
  intros Hc Tm Hr Dc. destruct (Pos o) as [PR PC], (Pos x) as [PX PY].
  destruct (@pool_ok T N None CPU r (g_rows G o * xr) (g_cols G o * xc) m (proj1 Tm) (slot_res Hr) ltac:(nia) ltac:(nia)) as (p & m1 & E & P).
  destruct (pooled_obj (proj1 Tm) P) as (ob & Ho & oR & oC & Lo).
  assert (Z : forall k, nth k (o_buf ob) n0 = n0).
  { destruct (pooled_buf eq_refl P Ho) as [(o' & -> & Ho' & ->)|Z]; [|exact Z].
    exact (proj1 (Dc _ Ho') Hc). }
  exists p, m1. split; [exact E|]. split.
  { unfold set_derivs. destruct Hc as [-> | ->]; reflexivity. }
  split.
  - rewrite <- (upd_id Ho). apply stored_wrote; auto.
    + eapply stored_intro; eauto. intros i j Hi Hj. rewrite (nth_error_def n0) by (rewrite Lo; apply idx_bound; auto). rewrite Z.
      f_equal. unfold leaf_der. destruct Hc as [-> | ->]; reflexivity.
    + rewrite (upd_id Ho). eapply pres_pool; [|exact E]. apply Tm.
  - intros ob' Ho'. rewrite Ho in Ho'. injection Ho' as <-. split; [auto|]. intros Ev. destruct Hc as [Hc|Hc]; congruence.
Qed.

(** A parallel double loop over the entries of o and of x that writes D. *)
Lemma full_dleaf m r o (D : nat -> nat -> nat -> nat -> T) : tame m -> slot_ok m r ->
  exists p m1 m', pool CPU r (g_rows G o * xr) (g_cols G o * xc) m = Ok (p, m1) /\
    par_each2 S (seq 0 (g_rows G o * g_cols G o)) (seq 0 (xr * xc)) (fun n' n =>
        let k := n' mod g_cols G o in let l := (n' - k) / g_cols G o in
        let j := n mod xc in let i := (n - j) / xc in
        set2 p (l * xr + i) (k * xc + j) (D l k i j)) m1 = Ok (tt, m') /\
    wrote m r p (layout G x (g_rows G o) (g_cols G o) D) m'.
Proof.
  intros Tm Hr. destruct (Pos o) as [PR PC], (Pos x) as [PX PY].
  set (R := g_rows G o) in *. set (C := g_cols G o) in *. set (X := xr) in *. set (Y := xc) in *.
  destruct (@pool_ok T N None CPU r (R * X) (C * Y) m (proj1 Tm) (slot_res Hr) ltac:(nia) ltac:(nia)) as (p & m1 & E & P).
  destruct (pooled_obj (proj1 Tm) P) as (ob & Ho & oR & oC & Lo).
  set (loc := fun ij : nat * nat => (fst ij / C * X + snd ij / Y) * (C * Y) + (fst ij mod C * Y + snd ij mod Y)).
  set (w := fun ij : nat * nat => Some (D (fst ij / C) (fst ij mod C) (snd ij / Y) (snd ij mod Y))).
  assert (Bd : forall ij, In ij (list_prod (seq 0 (R * C)) (seq 0 (X * Y))) ->
     fst ij / C * X + snd ij / Y < R * X /\ fst ij mod C * Y + snd ij mod Y < C * Y).
  { intros [n' n] Hi. apply in_prod_iff in Hi. rewrite !in_seq in Hi. cbn [fst snd].
    destruct (@idx_split n' R C) as (A1 & A2 & _); [lia|]. destruct (@idx_split n X Y) as (B1 & B2 & _); [lia|].
    split; apply idx_bound; auto. }
  destruct (@par_scatter T S _ m1 p ob (list_prod (seq 0 (R * C)) (seq 0 (X * Y))) loc w
     (fun ij => let k := fst ij mod C in let l := (fst ij - k) / C in let j := snd ij mod Y in let i := (snd ij - j) / Y in
        set2 p (l * X + i) (k * Y + j) (D l k i j)) VS Ho) as (b' & Ef & A1 & A2 & A3).
  - apply NoDup_prod; apply seq_NoDup.
  - intros ij Hi _. rewrite Lo. destruct (Bd _ Hi) as [B1 B2]. unfold loc. now apply idx_bound.
  - intros [n1' n1''] [n2' n2''] H1 H2 _ _ El. unfold loc in El. 
    destruct (Bd _ H1) as [_ B1], (Bd _ H2) as [_ B2]. cbn [fst snd] in *.
    apply idx_inj in El; auto. destruct El as [El1 El2].
    apply in_prod_iff in H1, H2. rewrite !in_seq in H1, H2.
    destruct (@idx_split n1' R C) as (_ & M1 & Q1); [lia|]. destruct (@idx_split n1'' X Y) as (M2 & M2' & Q2); [lia|].
    destruct (@idx_split n2' R C) as (_ & M3 & Q3); [lia|]. destruct (@idx_split n2'' X Y) as (M4 & M4' & Q4); [lia|].
    apply idx_inj in El1; auto. apply idx_inj in El2; auto. destruct El1 as [V1 V2], El2 as [V3 V4].
    rewrite V1, V3 in Q1. rewrite V2, V4 in Q2. f_equal; congruence.
  - intros [n' n] b Hi Lb _. cbn [fst snd]. cbv zeta. rewrite !idx_div. destruct (Bd _ Hi) as [B1 B2]. cbn [fst snd] in B1, B2.
    rewrite (@set2_upd T m1 p ob b) ; auto; try lia.
    + unfold loc, w. cbn [fst snd]. rewrite oC. reflexivity.
    + rewrite Lb, Lo, oC. now apply idx_bound.
  - exists p, m1, (upd m1 p b'). split; [exact E|]. split; [exact Ef|].
    apply stored_wrote; auto.
    + eapply stored_intro; eauto. intros s t Hs Ht.
      destruct (@divmod_lt R X s) as (S1 & S2 & S3); auto. destruct (@divmod_lt C Y t) as (T1 & T2 & T3); auto.
      specialize (A2 (s / X * C + t / Y, s mod X * Y + t mod Y)). unfold loc, w in A2. cbn [fst snd] in A2.
      rewrite !idx_row, !idx_col in A2 by auto.
      rewrite <- S3, <- T3 in A2. apply A2; [|reflexivity]. apply in_prod_iff. rewrite !in_seq.
      pose proof (idx_bound S1 T1). pose proof (idx_bound S2 T2). lia.
    + eapply pres_par; [|eapply pres_pool; [|exact E]; apply Tm|exact Ef]. intros ij. cbv zeta. apply pres_set2.
Qed.

(** X by itself: only ones are written. *)
Lemma self_dleaf m r : tame m -> slot_ok m r -> dclean m x r ->
  exists p m1 m', pool CPU r (xr * xr) (xc * xc) m = Ok (p, m1) /\
    par_each S (seq 0 (xr * xc)) (fun n => let j := n mod xc in let i := (n - j) / xc in set2 p (i * xr + i) (j * xc + j) n1) m1 = Ok (tt, m') /\
    wrote m r p (layout G x xr xc (fun l k i j => if (l =? i) && (k =? j) then n1 else n0)) m' /\ dclean m' x (Some p).
Proof.
  intros Tm Hr Dc. destruct (Pos x) as [PR PC].
  set (R := xr) in *. set (C := xc) in *.
  destruct (@pool_ok T N None CPU r (R * R) (C * C) m (proj1 Tm) (slot_res Hr) ltac:(nia) ltac:(nia)) as (p & m1 & E & P).
  destruct (pooled_obj (proj1 Tm) P) as (ob & Ho & oR & oC & Lo).
  set (loc := fun n => (n / C * R + n / C) * (C * C) + (n mod C * C + n mod C)).
  assert (Bd : forall n, n < R * C -> n / C * R + n / C < R * R /\ n mod C * C + n mod C < C * C).
  { intros n Hn. destruct (@idx_split n R C) as (A1 & A2 & _); [lia|]. split; apply idx_bound; auto. }
  destruct (@par_scatter T S _ m1 p ob (seq 0 (R * C)) loc (fun _ => Some n1)
     (fun n => let j := n mod C in let i := (n - j) / C in set2 p (i * R + i) (j * C + j) n1) VS Ho) as (b' & Ef & A1 & A2 & A3).
  - apply seq_NoDup.
  - intros n Hi _. apply in_seq in Hi. rewrite Lo. destruct (Bd n) as [B1 B2]; [lia|]. unfold loc. now apply idx_bound.
  - intros n n' H1 H2 _ _ El. apply in_seq in H1, H2. unfold loc in El.
    destruct (Bd n) as [_ B1]; [lia|]. destruct (Bd n') as [_ B2]; [lia|].
    apply idx_inj in El; auto. destruct El as [El1 El2].
    destruct (@idx_split n R C) as (M0 & M1 & Q1); [lia|]. destruct (@idx_split n' R C) as (M0' & M1' & Q2); [lia|].
    assert (n / C = n' / C) by nia. assert (n mod C = n' mod C) by nia. congruence.
  - intros n b Hi Lb _. apply in_seq in Hi. cbv zeta. rewrite !idx_div. destruct (Bd n) as [B1 B2]; [lia|].
    rewrite (@set2_upd T m1 p ob b); auto; try lia.
    + unfold loc. rewrite oC. reflexivity.
    + rewrite Lb, Lo, oC. now apply idx_bound.
  - assert (Lb : length (o_buf ob) = (R * R) * (C * C)) by exact Lo.
    assert (Pat : forall k, ~ diagonal x (length b') k -> nth k b' n0 = n0).
    { intros k Hk.
      assert (Ek : nth_error b' k = nth_error (o_buf ob) k).
      { apply A3. intros n Hn _ El. apply Hk. apply in_seq in Hn. destruct (@idx_split n R C) as (M0 & M1 & _); [lia|].
        split; [fold R C; congruence|]. exists (n / C), (n mod C). auto. }
      assert (Z : nth k (o_buf ob) n0 = n0).
      { destruct (pooled_buf eq_refl P Ho) as [(o' & -> & Ho' & Eb)|Z]; [|apply Z].
        rewrite Eb. apply (proj2 (Dc _ Ho') Xvar). rewrite <- Eb, <- A1. exact Hk. }
      destruct (nth_error (o_buf ob) k) eqn:Q.
      - rewrite (nth_error_nth _ _ n0 Q) in Z. subst. now apply nth_error_nth.
      - apply nth_error_None in Ek. now apply nth_overflow. }
    exists p, m1, (upd m1 p b'). split; [exact E|]. split; [exact Ef|]. split.
    + apply stored_wrote; auto.
      * eapply stored_intro; eauto. intros s t Hs Ht.
        destruct (@divmod_lt R R s) as (S1 & S2 & S3); auto. destruct (@divmod_lt C C t) as (T1 & T2 & T3); auto.
        fold R C.
        assert (Lk : s * (C * C) + t < length b') by (rewrite A1, Lo; now apply idx_bound).
        change (xr) with R. change xc with C.
        destruct ((s / R =? s mod R) && (t / C =? t mod C)) eqn:Eb.
        -- apply andb_prop in Eb. destruct Eb as [E1 E2]. apply Nat.eqb_eq in E1, E2.
           specialize (A2 (s / R * C + t / C) n1). unfold loc in A2. rewrite idx_row, idx_col in A2 by auto.
           rewrite <- E1 in S3. rewrite <- E2 in T3. rewrite <- S3, <- T3 in A2. fold R C. apply A2; [|reflexivity].
           apply in_seq. pose proof (idx_bound S1 T1). lia.
        -- rewrite (nth_error_def n0) by auto. f_equal. 
           apply Pat. intros (_ & i & j & Hi & Hj & Ek). fold R C in Hi, Hj, Ek. apply idx_inj in Ek; auto; [|apply idx_bound; auto].
           destruct Ek as [-> ->]. rewrite !idx_row, !idx_col, !Nat.eqb_refl in Eb by auto. discriminate.
      * eapply pres_par; [|eapply pres_pool; [|exact E]; apply Tm|exact Ef]. intros i. cbv zeta. apply pres_set2.
    + intros ob' Ho'. rewrite (get_upd_same b' Ho) in Ho'. injection Ho' as <-. cbn [o_buf with_buf].
      split; [intros [Q|Q]; congruence|]. intros _ k Hk. apply Pat. exact Hk.
Qed.

(** Differentiating a leaf whose derivative has not been computed in this pass. *)
Lemma dleaf_write m r o : is_leaf G o -> tame m -> slot_ok m r -> dclean m o r ->
  exists p m1 m', pool CPU r (g_rows G o * xr) (g_cols G o * xc) m = Ok (p, m1) /\ set_derivs S G rho o x p m1 = Ok (tt, m') /\
    wrote m r p (leaf_dmat G rho x o) m' /\ dclean m' o (Some p).
Proof.
  intros Hl Tm Hr Dc. unfold is_leaf in Hl.
  destruct (g_kind G o) as [| | | |id e y] eqn:Ek; [| | | |tauto].
  - destruct (@const_dleaf m r o) as (p & m1 & E & Es & W & D); auto; [now left|]. exists p, m1, m1. auto.
  - destruct (@const_dleaf m r o) as (p & m1 & E & Es & W & D); auto; [now right|]. exists p, m1, m1. auto.
  - destruct (Nat.eq_dec o x) as [->|Ne].
    + destruct (@self_dleaf m r) as (p & m1 & m' & E & Ef & W & D); auto. exists p, m1, m'. split; [exact E|]. split.
      * unfold set_derivs. rewrite Xvar, Nat.eqb_refl. exact Ef.
      * split; [|exact D]. unfold leaf_dmat, leaf_der. rewrite Xvar, Nat.eqb_refl. exact W.
    + destruct (DV Ek Xvar Ne) as [Nn Nv].
      destruct (@full_dleaf m r o (fun l k i j => if g_vid G o (l * g_cols G o + k) =? g_vid G x (i * xc + j) then n1 else n0)) as (p & m1 & m' & E & Ef & W); auto.
      apply Nat.eqb_neq in Nn. exists p, m1, m'. split; [exact E|]. split.
      * unfold set_derivs. rewrite Ek, Nn. exact Ef.
      * assert (W' : wrote m r p (leaf_dmat G rho x o) m').
        { unfold leaf_dmat, leaf_der. rewrite Ek, Nn. exact W. }
        split; [exact W'|]. intros ob Ho. split; [intros [Q|Q]; congruence|]. intros _ k _.
        destruct W as [((kk & sp & b & Hg & Lb) & V) _ _ _]. rewrite Ho in Hg. injection Hg as ->. cbn [o_buf mr mc layout] in *.
        destruct (Nat.lt_ge_cases k (length b)) as [Lk|Lk]; [|now apply nth_overflow].
        rewrite Lb in Lk. destruct (idx_split Lk) as (Q1 & Q2 & Q3). destruct (Pos o), (Pos x).
        specialize (V _ _ Q1 Q2). unfold val in V. rewrite Ho in V. cbn [o_buf o_cols] in V. rewrite Q3 in V. rewrite V. cbn [mf layout]. cbv beta.
        destruct (@divmod_lt (g_rows G o) xr (k / (g_cols G o * xc))) as (S1 & S2 & _); auto.
        destruct (@divmod_lt (g_cols G o) xc (k mod (g_cols G o * xc))) as (T1 & T2 & _); auto.
        match goal with |- (if ?b then _ else _) = _ => destruct b eqn:Eb end; [|reflexivity].
        apply Nat.eqb_eq in Eb. exfalso. revert Eb. apply Nv; apply idx_bound; auto.
  - destruct (@full_dleaf m r o (fun l k i j => e_der rho o (l * g_cols G o + k) x (i * xc + j))) as (p & m1 & m' & E & Ef & W); auto.
    exists p, m1, m'. split; [exact E|]. split; [|split].
    + unfold set_derivs. rewrite Ek. exact Ef.
    + unfold leaf_dmat, leaf_der. rewrite Ek. exact W.
    + intros ob Ho. split; [intros [Q|Q]; congruence|congruence].
Qed.
End Leaf.
