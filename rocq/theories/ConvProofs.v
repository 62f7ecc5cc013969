(** * Convolution: proofs *)
From Coq Require Import List Arith Bool Lia Ring.
From Verif Require Import Num MatMem Kernels KernelFacts KernelProofs KernelBlocks Registry KernelStep Backend Slots Exec Sums Conv.
Import ListNotations.
Set Implicit Arguments.
Unset Strict Implicit.

(** ** Steps that write in place *)
Section Steps.
Context {T : Type} {N : Num T}.
Notation mem := (mem T).
Notation M := (M T).
Notation mat := (mat T).
Variable S : sched T.
Hypothesis VS : valid_sched S.
Implicit Types (m : mem).

(** Replace the block of v with first row r0 and first column c0 by w. *)
Definition msetblock (r0 c0 : nat) (w v : mat) : mat :=
  Mat (mr v) (mc v) (fun i j => if (r0 <=? i) && (i <? r0 + mr w) && (c0 <=? j) && (j <? c0 + mc w) then mf w (i - r0) (j - c0) else mf v i j).

Lemma evolves_in_place m m' p : tame m -> ~ is_special m p -> good m' -> spaced m' -> specials m' = specials m ->
  length (objs m') = length (objs m) -> (forall q, q <> p -> get m' q = get m q) -> (exists o, get m' p = Some o) -> evolves (fun q => q = p) m m'.
Proof.
  intros (G & Sp & RO) Np G' Sp' Es Le Fr Lv. constructor.
  - split; [auto|]. split; [auto|]. intros k sp R C q Hq. rewrite Es in Hq. destruct (RO _ _ _ _ _ Hq) as ((o & Ho) & Hh).
    assert (q <> p) by (intros ->; apply Np; eexists; exact Hq).
    split; [exists o; now rewrite Fr|]. intros Rl. eapply holds_frame; [apply Fr; auto|auto].
  - lia.
  - intros q _ Hq. auto.
  - intros q _. unfold is_special. now rewrite Es.
  - intros q Hq. destruct (Nat.eq_dec q p) as [->|Ne]; [exact Lv|now rewrite Fr].
Qed.

Lemma set_block_step m p src r0 r1 c0 c1 v w : tame m -> holds m p v -> holds m src w -> src <> p -> ~ is_special m p ->
  r0 <= r1 -> r1 < mr v -> c0 <= c1 -> c1 < mc v -> mr w = r1 - r0 + 1 -> mc w = c1 - c0 + 1 ->
  exists m', setBlockMat S p (r0, r1) (c0, c1) src m = Ok (tt, m') /\ holds m' p (msetblock r0 c0 w v) /\ evolves (fun q => q = p) m m'.
Proof.
  intros Tm Hp Hw Ne Ns A1 A2 A3 A4 Dr Dc.
  destruct (@set_block_ok T N S VS m p src (mr v) (mc v) r0 r1 c0 c1) as (m' & E & IM & V & Fr & Es & G & Nm & Nx & Le).
  - apply Tm.
  - apply Hp.
  - repeat split; auto.
  - rewrite <- Dr, <- Dc. apply Hw.
  - auto.
  - exists m'. split; [exact E|]. split.
    + split; [exact IM|]. simpl. intros i j Hi Hj. rewrite V by auto.
      replace (i <? r0 + mr w) with (i <=? r1) by (apply eq_true_iff_eq; rewrite Nat.leb_le, Nat.ltb_lt; lia).
      replace (j <? c0 + mc w) with (j <=? c1) by (apply eq_true_iff_eq; rewrite Nat.leb_le, Nat.ltb_lt; lia).
      destruct ((r0 <=? i) && (i <=? r1) && (c0 <=? j) && (j <=? c1)) eqn:Eb; [|now apply Hp].
      rewrite !andb_true_iff, !Nat.leb_le in Eb. apply Hw; lia.
    + apply evolves_in_place; auto; [|destruct IM as (? & ? & ? & ? & _); eauto]. eapply pres_setBlockMat; [|exact E]. apply Tm.
Qed.

Lemma reset_step m r : tame m -> slot_ok m r ->
  exists m', reset_zero r m = Ok (tt, m') /\ zeroed m' r /\ evolves (fun q => r = Some q) m m' /\ slot_ok m' r.
Proof.
  intros Tm Hr. destruct r as [p|].
  - destruct Hr as ((o & Ho) & Ns). simpl. unfold bind, deref. rewrite Ho. eexists. split; [reflexivity|].
    set (o' := MkObj (o_nidx o) (o_space o) (o_rows o) (o_cols o) (repeat n0 (length (o_buf o)))).
    pose proof (get_lt Ho) as Lt.
    assert (Ev : evolves (fun q => q = p) m (put m p o')).
    { apply evolves_in_place; auto.
      - intros q oq Hq. simpl. destruct (Nat.eq_dec p q) as [<-|Ne].
        + rewrite get_put_same in Hq by auto. injection Hq as <-. simpl. rewrite repeat_length. exact (proj1 Tm _ _ Ho).
        + rewrite get_put_other in Hq by auto. exact (proj1 Tm _ _ Hq).
      - eapply spaced_put; eauto; [apply Tm|]. exact (proj1 (proj1 (proj1 (proj2 Tm)) _ _ Ho)).
      - simpl. apply length_list_set.
      - intros q Hq. apply get_put_other. auto.
      - exists o'. now apply get_put_same. }
    split; [|split].
    + intros oq Hq k. rewrite get_put_same in Hq by auto. injection Hq as <-. simpl.
      destruct (Nat.lt_ge_cases k (length (o_buf o))) as [L|L].
      * apply nth_error_nth. rewrite (nth_error_nth' _ n0) by (rewrite repeat_length; auto). f_equal. apply nth_repeat.
      * apply nth_overflow. rewrite repeat_length. auto.
    + eapply evolves_weaken; [exact Ev|]. intros q _ ->. reflexivity.
    + split; [exists o'; now rewrite get_put_same|]. rewrite (ev_special Ev Lt). exact Ns.
  - exists m. split; [reflexivity|]. split; [exact Logic.I|]. split; [now apply evolves_refl|exact Logic.I].
Qed.

(** pool gives a matrix of the right size, contents unspecified. *)
Lemma pool_step m r R C : tame m -> slot_ok m r -> 0 < R -> 0 < C ->
  exists p m' F, pool CPU r R C m = Ok (p, m') /\ wrote m r p (Mat R C F) m'.
Proof.
  intros Tm Hr PR PC. destruct (pool_ok None CPU (proj1 Tm) (slot_res Hr) PR PC) as (p & m' & E & P).
  exists p, m', (val m' p). split; [exact E|].
  destruct (pooled_obj (proj1 Tm) P) as (o & Ho & oR & oC & Lo).
  apply (@stored_wrote T N m m' r p R C); auto; [|eapply pres_pool; [|exact E]; apply Tm].
  rewrite <- (upd_id Ho). eapply stored_intro; eauto. intros i j Hi Hj. rewrite (upd_id Ho). rewrite <- oC.
  apply (val_nth Ho); try lia.
Qed.

(** Padding: the border keeps whatever the reused buffer contained. *)
Definition pad_old m (r : option ptr) (v : mat) (pr pc : nat) : mat :=
  Mat (mr v + 2 * pr) (mc v + 2 * pc) (fun i j =>
    if (pr <=? i) && (i <? pr + mr v) && (pc <=? j) && (j <? pc + mc v) then mf v (i - pr) (j - pc)
    else old_val m r CPU (mr v + 2 * pr) (mc v + 2 * pc) i j).
Lemma pad_step m a r v pr pc : tame m -> holds m a v -> slot_ok m r -> r <> Some a ->
  exists p m', pad S a pr pc r m = Ok (p, m') /\ wrote m r p (pad_old m r v pr pc) m'.
Proof.
  intros Tm Ha Hr Na.
  destruct (@pad_ok T N S VS m a (mr v) (mc v) pr pc r) as (p & m' & E & St).
  - apply Tm.
  - apply Ha.
  - now apply slot_res.
  - now apply not_op.
  - exists p, m'. split; [exact E|]. eapply wrote_meq.
    + eapply stored_wrote; eauto. eapply pres_pad; [|exact E]. apply Tm.
    + split; [reflexivity|]. split; [reflexivity|]. simpl. intros i j Hi Hj. rewrite (tame_cpu _ Tm).
      destruct ((pr <=? i) && (i <? pr + mr v) && (pc <=? j) && (j <? pc + mc v)) eqn:Eb; [|reflexivity].
      rewrite !andb_true_iff, !Nat.leb_le, !Nat.ltb_lt in Eb. apply Ha; lia.
Qed.

(** A slot array is not disturbed by writing in place to an external matrix. *)
Lemma slot_ext_write m arr X res m' : slots (K := nat) m arr X -> X res -> evolves (fun q => q = res) m m' ->
  (exists o, get m' res = Some o) -> slots m' arr X /\ (forall q w, q <> res -> holds m q w -> holds m' q w).
Proof.
  intros Sl Xr Ev Ex. split.
  - constructor.
    + apply Ev.
    + intros k p E. destruct (sl_slot Sl E) as ((o & Ho) & Ns & Nx). pose proof (get_lt Ho) as L.
      split; [exists o; rewrite (ev_frame Ev L); auto; intros ->; auto|]. split; [|auto]. rewrite (ev_special Ev L). auto.
    + apply (sl_inj Sl).
    + intros q Hq. destruct (Nat.eq_dec q res) as [->|Ne]; auto. destruct (sl_ext Sl Hq) as (o & Ho).
      exists o. rewrite (ev_frame Ev (get_lt Ho)); auto.
  - intros q w Ne H. eapply holds_evolves; eauto.
Qed.

(** ResetZero of a list of slots. *)
Lemma reset_slots m arr X ks : slots (K := nat) m arr X ->
  exists m', for_each ks (fun k => reset_zero (arr k)) m = Ok (tt, m') /\ slots m' arr X /\
    (forall k, In k ks -> zeroed m' (arr k)) /\ evolves (fun q => exists k, In k ks /\ arr k = Some q) m m'.
Proof.
  revert m. induction ks as [|k ks IH]; intros m Sl.
  - exists m. split; [reflexivity|]. split; [auto|]. split; [intros ? []|]. apply evolves_refl. apply (sl_tame Sl).
  - destruct (reset_step (sl_tame Sl) (slots_ok k Sl)) as (m1 & E1 & Z1 & Ev1 & So1).
    assert (Sl1 : slots m1 arr X).
    { constructor.
      - apply Ev1.
      - intros k' p E. destruct (sl_slot Sl E) as ((o & Ho) & Ns & Nx). pose proof (get_lt Ho) as Lt.
        destruct (arr k) as [q|] eqn:Ek.
        + destruct (Nat.eq_dec q p) as [->|Ne]; [destruct So1 as (? & ?); auto|].
          split; [exists o; rewrite (ev_frame Ev1 Lt); auto; congruence|]. split; [|auto]. rewrite (ev_special Ev1 Lt). auto.
        + split; [exists o; rewrite (ev_frame Ev1 Lt); auto; congruence|]. split; [|auto]. rewrite (ev_special Ev1 Lt). auto.
      - apply (sl_inj Sl).
      - intros q Hq. destruct (sl_ext Sl Hq) as (o & Ho). exists o. rewrite (ev_frame Ev1 (get_lt Ho)); auto. exact (ext_not_slot Sl Hq). }
    destruct (IH m1 Sl1) as (m2 & E2 & Sl2 & Z2 & Ev2).
    exists m2. simpl. unfold bind. rewrite E1. split; [exact E2|]. split; [auto|]. split.
    + intros k' [<-|Hk]; auto. destruct (in_dec Nat.eq_dec k ks) as [Hi|Hn]; [auto|].
      destruct (arr k) as [q|] eqn:Ek; simpl; auto. intros o Ho. simpl in Z1. apply Z1. rewrite <- Ho. symmetry.
      destruct (sl_slot Sl1 Ek) as ((oq & Hoq) & _). apply Ev2; [exact (get_lt Hoq)|].
      intros (k' & Hk' & E'). pose proof (sl_inj Sl Ek E'). subst k'. auto.
    + eapply evolves_trans; [exact Ev1|exact Ev2|]. intros q _ [Q|(k' & Hk & Q)].
      * exists k. simpl; auto.
      * exists k'. simpl; auto.
Qed.
End Steps.

Section Conv.
Context {T : Type} {N : Num T}.
Notation mem := (mem T).
Notation M := (M T).
Notation mat := (mat T).
Hypothesis L : NumLaws N.
Add Ring TR : (law_ring N L).
Variable S : sched T.
Hypothesis VS : valid_sched S.
Variable B : backend (T := T).
Hypothesis BV : value_ok B.
Hypothesis BK : kron_zeroed_ok B.
Implicit Types (m : mem).

Definition window (sx sy : nat) (vp vk : mat) (i j : nat) : T :=
  sum_n (mr vk) (fun a => sum_n (mc vk) (fun b => nmul (mf vp (i * sx + a) (j * sy + b)) (mf vk a b))).

Lemma no_self_dec (i : instr T nat) : (forall a, In a (operands (snd i)) -> a <> OSlot (fst i)) -> no_self i.
Proof. intros H Q. exact (H _ Q eq_refl). Qed.

Lemma conv_cell_run sx sy vp vk rhs i j pv env : pv rhs = vk -> env 0 = Some vp -> 0 < mr vk -> 0 < mc vk ->
  i * sx + mr vk <= mr vp -> j * sy + mc vk <= mc vp ->
  exists env' v, vrun Nat.eq_dec pv (conv_cell sx sy (mr vk) (mc vk) rhs i j) env = Some env' /\ env' 4 = Some v /\
    mr v = 1 /\ mc v = 1 /\ mf v 0 0 = window sx sy vp vk i j.
Proof.
  intros Er E0 PR PC Hi Hj. eexists _, _. unfold conv_cell. split; [|split].
  - eapply vrun_step. { eapply veval_block; [exact E0|lia|lia|lia|lia]. }
    eapply vrun_step. { eapply veval_had; [reflexivity|cbn [vfetch]; rewrite Er; reflexivity|simpl; lia|simpl; lia]. }
    eapply vrun_step. { eapply veval_mul; [apply vfetch_ones; lia|reflexivity|simpl; lia]. }
    eapply vrun_step. { eapply veval_mul; [reflexivity|apply vfetch_ones; lia|simpl; lia]. }
    reflexivity.
  - reflexivity.
  - split; [reflexivity|]. split; [reflexivity|]. cbn [mr mc mf mmul mones mhad mzip mblock].
    replace (j * sy + mc vk - 1 - j * sy + 1) with (mc vk) by lia.
    unfold window. rewrite (sum_swap L). apply sum_n_ext. intros b Hb.
    rewrite (Rmul_comm (law_ring N L)), (Rmul_1_l (law_ring N L)). apply sum_n_ext. intros a Ha. ring.
Qed.

(** The loop fills the listed cells of the result. *)
Lemma conv_loop_ok sx sy vp vk rhs res cells : forall m arr X p0 vr,
  slots m arr X -> X rhs -> X res -> res <> rhs -> arr 0 = Some p0 -> holds m p0 vp -> holds m rhs vk -> holds m res vr ->
  ~ is_special m res ->
  (forall i j, In (i, j) cells -> i * sx + mr vk <= mr vp /\ j * sy + mc vk <= mc vp /\ i < mr vr /\ j < mc vr) ->
  exists arr' m' vr', conv_loop S B sx sy (mr vk) (mc vk) rhs res cells arr m = Ok (arr', m') /\ slots m' arr' X /\
    arr' 0 = Some p0 /\ holds m' p0 vp /\ holds m' rhs vk /\ holds m' res vr' /\ mr vr' = mr vr /\ mc vr' = mc vr /\
    (forall i j, In (i, j) cells -> mf vr' i j = window sx sy vp vk i j) /\
    (forall i j, ~ In (i, j) cells -> mf vr' i j = mf vr i j) /\
    evolves (fun q => q = res \/ exists k, 1 <= k <= 4 /\ arr k = Some q) m m' /\
    (forall k p, arr' k = Some p -> arr k = Some p \/ length (objs m) <= p).
Proof.
  induction cells as [|[i j] cs IH]; intros m arr X p0 vr Sl Xk Xr Nrk E0 H0 Hk Hr Ns Hc.
  - exists arr, m, vr. split; [reflexivity|]. do 7 (split; [auto|]). split; [intros ? ? []|]. split; [auto|]. split; [|auto].
    apply evolves_refl. apply (sl_tame Sl).
  - destruct (Hc i j (or_introl eq_refl)) as (Hi & Hj & Hi' & Hj').
    destruct (tame_pos (sl_tame Sl) Hk) as [PR PC].
    destruct (@reset_slots T N m arr X [1; 2; 3; 4] Sl) as (m1 & E1 & Sl1 & Z1 & Ev1).
    assert (Kp1 : forall q w, (forall k, 1 <= k <= 4 -> arr k <> Some q) -> holds m q w -> holds m1 q w).
    { intros q w Nq Hq. eapply holds_evolves; eauto. intros (k & Hk' & E). apply (Nq k); auto. simpl in Hk'. lia. }
    assert (H01 : holds m1 p0 vp). { apply Kp1; auto. intros k Hk' E. pose proof (sl_inj Sl E0 E). lia. }
    assert (Hk1 : holds m1 rhs vk) by (apply Kp1; auto; intros; exact (ext_not_slot Sl Xk)).
    assert (Hr1 : holds m1 res vr) by (apply Kp1; auto; intros; exact (ext_not_slot Sl Xr)).
    set (env := fun k : nat => if k =? 0 then Some vp else None).
    destruct (@conv_cell_run sx sy vp vk rhs i j (fun _ => vk) env eq_refl eq_refl PR PC Hi Hj) as (env' & v & Ev & E4 & Vr & Vc & Vv).
    destruct (@run_ok T N nat Nat.eq_dec S VS B BV (or_intror BK) (conv_cell sx sy (mr vk) (mc vk) rhs i j) m1 arr X env (fun _ => vk) env')
      as (arr2 & m2 & E2 & Sl2 & Ag2 & Ev2 & Un2 & Wh2 & _); auto.
    + intros k w. unfold env. destruct (k =? 0) eqn:Ek; [|discriminate]. intros [= <-]. apply Nat.eqb_eq in Ek. subst k. eauto.
    + simpl. repeat constructor; simpl; intuition discriminate.
    + unfold conv_cell. repeat constructor; intros Q; simpl in Q; intuition discriminate.
    + intros p (ins & Hin & Hp). simpl in Hin.
      assert (p = rhs) as -> by (intuition; subst; simpl in Hp; intuition congruence).
      split; [exact Hk1|]. intros d _. exact (ext_not_slot Sl1 Xk).
    + right. intros d op Hin Ik. simpl in Hin. exfalso. intuition; match goal with H : (_, _) = (_, _) |- _ => injection H as <- <- end; discriminate.
    + destruct (Ag2 _ _ E4) as (p4 & Ep4 & H4).
      assert (Np4 : p4 <> res). { intros ->. exact (ext_not_slot Sl2 Xr Ep4). }
      assert (Kp2 : forall q w, (forall k, 1 <= k <= 4 -> arr k <> Some q) -> holds m1 q w -> holds m2 q w).
      { intros q w Nq Hq. eapply holds_evolves; eauto. intros (k & Hk' & E). apply (Nq k); auto. simpl in Hk'. lia. }
      assert (H02 : holds m2 p0 vp). { apply Kp2; auto. intros k Hk' E. pose proof (sl_inj Sl E0 E). lia. }
      assert (Hk2 : holds m2 rhs vk) by (apply Kp2; auto; intros; exact (ext_not_slot Sl Xk)).
      assert (Hr2 : holds m2 res vr) by (apply Kp2; auto; intros; exact (ext_not_slot Sl Xr)).
      assert (Ns2 : ~ is_special m2 res).
      { rewrite (ev_special Ev2 (holds_lt Hr1)), (ev_special Ev1 (holds_lt Hr)). exact Ns. }
      destruct (@set_block_step T N S VS m2 res p4 i i j j vr v (sl_tame Sl2) Hr2 H4 Np4 Ns2) as (m3 & E3 & Hr3 & Ev3); try lia.
      destruct (slot_ext_write Sl2 Xr Ev3 (holds_get Hr3)) as (Sl3 & Kp3).
      assert (E02 : arr2 0 = Some p0) by (rewrite Un2; [exact E0|simpl; lia]).
      assert (Np0 : p0 <> res) by (intros ->; exact (ext_not_slot Sl Xr E0)).
      destruct (@IH m3 arr2 X p0 (msetblock i j v vr)) as (arr' & m' & vr' & E' & Sl' & E0' & H0' & Hk' & Hr' & Dr & Dc & In1 & In2 & Ev' & Wh'); auto.
      * rewrite (ev_special Ev3 (holds_lt Hr2)). exact Ns2.
      * intros i' j' Hin. destruct (Hc i' j' (or_intror Hin)) as (A1 & A2 & A3 & A4). simpl. auto.
      * exists arr', m', vr'. split.
        { cbn [conv_loop]. unfold bind at 1. rewrite E1. unfold bind at 1. rewrite E2. rewrite Ep4. unfold bind at 1. rewrite E3. exact E'. }
        do 5 (split; [auto|]). split; [auto|]. split; [auto|]. split; [|split; [|split]].
        -- intros i' j' Hin. destruct (in_dec (fun a b : nat * nat => ltac:(decide equality; apply Nat.eq_dec)) (i', j') cs) as [Hi2|Hn2]; [auto|].
           destruct Hin as [[= <- <-]|Hin]; [|contradiction]. rewrite In2 by auto. simpl. rewrite Vr, Vc, Nat.leb_refl, Nat.leb_refl.
           replace (i <? i + 1) with true by (symmetry; apply Nat.ltb_lt; lia).
           replace (j <? j + 1) with true by (symmetry; apply Nat.ltb_lt; lia). simpl. rewrite !Nat.sub_diag. exact Vv.
        -- intros i' j' Hn. rewrite In2 by (intros Q; apply Hn; right; auto). simpl. rewrite Vr, Vc.
           destruct ((i <=? i') && (i' <? i + 1) && (j <=? j') && (j' <? j + 1)) eqn:Eb; auto.
           rewrite !andb_true_iff, !Nat.leb_le, !Nat.ltb_lt in Eb. exfalso. apply Hn. left. f_equal; lia.
        -- pose proof (ev_len Ev1) as L1. pose proof (ev_len Ev2) as L2. pose proof (ev_len Ev3) as L3.
           eapply evolves_trans; [exact Ev1| |].
           { eapply evolves_trans; [exact Ev2| |].
             - eapply evolves_trans; [exact Ev3|exact Ev'|]. intros q _ Q. exact Q.
             - intros q _ Q. exact Q. }
           intros q Hq [(k & Hk'' & E)|[(k & Hk'' & E)|[->|[->|(k & Hk'' & E)]]]]; auto.
           ++ right. exists k. split; [simpl in Hk''; lia|auto].
           ++ right. exists k. split; [simpl in Hk''; lia|auto].
           ++ right. exists k. split; auto. destruct (Wh2 _ _ E) as [?|?]; [auto|lia].
        -- intros k p Q. pose proof (ev_len Ev1) as L1. pose proof (ev_len Ev2) as L2. pose proof (ev_len Ev3) as L3.
           destruct (Wh' _ _ Q) as [Q'|Q']; [|right; lia]. destruct (Wh2 _ _ Q') as [Q''|Q'']; [auto|right; lia].
Qed.

(** Adding a fresh (or already external) matrix to the external ones. *)
Lemma slots_add_ext m arr X r : slots (K := nat) m arr X -> (exists o, get m r = Some o) -> (forall k, arr k <> Some r) ->
  slots m arr (fun q => X q \/ q = r).
Proof.
  intros Sl Ex Nr. constructor.
  - apply Sl.
  - intros k p E. destruct (sl_slot Sl E) as (A & A' & A''). split; auto. split; auto. intros [Q|Q]; auto. subst. exact (Nr k E).
  - apply (sl_inj Sl).
  - intros q [Q|Q]; [apply (sl_ext Sl Q)|subst; auto].
Qed.
Lemma slots_weaken m arr (X Y : ptr -> Prop) : slots (K := nat) m arr X -> (forall q, Y q -> X q) -> slots m arr Y.
Proof.
  intros Sl H. constructor.
  - apply Sl.
  - intros k p E. destruct (sl_slot Sl E) as (A & A' & A''). split; auto.
  - apply (sl_inj Sl).
  - intros q Q. apply (sl_ext Sl (H _ Q)).
Qed.

Lemma conv_bound n p k s i : 0 < s -> k <= n + 2 * p -> i < conv_out n p k s -> i * s + k <= n + 2 * p.
Proof.
  unfold conv_out. intros Hs Hk Hi. assert (i <= (n + 2 * p - k) / s) by lia.
  pose proof (Nat.mul_div_le (n + 2 * p - k) s ltac:(lia)). nia.
Qed.
Lemma conv_out_pos n p k s : 0 < conv_out n p k s.
Proof. unfold conv_out. lia. Qed.

Definition conv_of (sx sy : nat) (vp vk : mat) (R C : nat) : mat := Mat R C (window sx sy vp vk).

(** The result slot of a call: null, or an existing ordinary matrix that is neither an
    operand nor scratch memory. *)
Definition result_ok m (arr : scratch) (operands : list ptr) (result : option ptr) : Prop :=
  slot_ok m result /\ forall q, result = Some q -> ~ In q operands /\ forall k, arr k <> Some q.

Theorem conv_naive_ok m arr X sx sy px py lhs rhs result vx vk :
  slots m arr X -> X lhs -> X rhs -> holds m lhs vx -> holds m rhs vk -> result_ok m arr [lhs; rhs] result ->
  0 < sx -> 0 < sy -> mr vk <= mr vx + 2 * px -> mc vk <= mc vx + 2 * py ->
  exists r arr' m' p0, MatConvNaive S B sx sy px py lhs rhs arr result m = Ok ((r, arr'), m') /\
    holds m' r (conv_of sx sy (pad_old m (arr 0) vx px py) vk (conv_out (mr vx) px (mr vk) sx) (conv_out (mc vx) py (mc vk) sy)) /\
    slots m' arr' (fun q => X q \/ q = r) /\ (result = Some r \/ length (objs m) <= r) /\ ~ is_special m' r /\
    arr' 0 = Some p0 /\ holds m' p0 (pad_old m (arr 0) vx px py) /\
    evolves (fun q => result = Some q \/ exists k, k <= 4 /\ arr k = Some q) m m'.
Proof.
  intros Sl Xl Xr Hx Hk (Hres & Hres') Psx Psy Hr Hc. pose proof (sl_tame Sl) as Tm.
  destruct (tame_pos Tm Hx) as [PRx PCx]. destruct (tame_pos Tm Hk) as [PRk PCk].
  destruct (@pad_step T N S VS m lhs (arr 0) vx px py Tm Hx (slots_ok 0 Sl) (ext_not_slot Sl Xl)) as (p0 & m1 & E1 & W1).
  destruct (slot_write Nat.eq_dec Sl W1) as (Sl1 & H0 & Kp1 & Fr1).
  set (vp := pad_old m (arr 0) vx px py) in *.
  set (arr1 := sset Nat.eq_dec arr 0 p0) in *.
  assert (Hk1 : holds m1 rhs vk) by (apply Kp1; auto; exact (ext_not_slot Sl Xr)).
  assert (Lt1 : length (objs m) <= length (objs m1)) by apply (wr_evolves W1).
  assert (Nres1 : forall q, result = Some q -> forall k, arr1 k <> Some q).
  { intros q Eq k E. unfold arr1 in E. apply sset_cases in E. destruct E as [(-> & ->)|(_ & E)].
    - destruct (wr_where W1) as [Q|Q].
      + exact (proj2 (Hres' _ Eq) 0 Q).
      + subst result. destruct Hres as ((o & Ho) & _). apply get_lt in Ho. lia.
    - exact (proj2 (Hres' _ Eq) k E). }
  assert (Hres1 : slot_ok m1 result).
  { destruct result as [q|]; simpl; auto. destruct Hres as ((o & Ho) & Ns). pose proof (get_lt Ho) as Lq.
    split; [|rewrite (ev_special (wr_evolves W1) Lq); exact Ns].
    exists o. rewrite Fr1; auto. apply (proj2 (Hres' _ eq_refl)). }
  set (Rr := conv_out (mr vx) px (mr vk) sx). set (Cr := conv_out (mc vx) py (mc vk) sy).
  destruct (@pool_step T N m1 result Rr Cr (sl_tame Sl1) Hres1 (conv_out_pos _ _ _ _) (conv_out_pos _ _ _ _)) as (r & m2 & F & E2 & W2).
  pose proof (wr_evolves W2) as Ev2.
  assert (Nr : forall k, arr1 k <> Some r).
  { intros k E. destruct (wr_where W2) as [Q|Q]; [exact (Nres1 _ Q k E)|].
    destruct (sl_slot Sl1 E) as ((o & Ho) & _). apply get_lt in Ho. lia. }
  assert (Sl2 : slots m2 arr1 X).
  { constructor.
    - apply Ev2.
    - intros k p E. destruct (sl_slot Sl1 E) as ((o & Ho) & Ns & Nx). pose proof (get_lt Ho) as Lp.
      split; [exists o; rewrite (ev_frame Ev2 Lp); auto; intros Q; exact (Nres1 _ Q k E)|]. split; auto. now rewrite (ev_special Ev2 Lp).
    - apply (sl_inj Sl1).
    - intros q Hq. destruct (sl_ext Sl1 Hq) as (o & Ho). pose proof (get_lt Ho) as Lq.
      destruct result as [q'|]; [|exists o; rewrite (ev_frame Ev2 Lq); auto; discriminate].
      destruct (Nat.eq_dec q q') as [->|Ne]; [|exists o; rewrite (ev_frame Ev2 Lq); auto; congruence].
      destruct (wr_where W2) as [[= ->]|Q]; [apply (holds_get (wr_holds W2))|].
      apply (ev_live Ev2). eauto. }
  pose proof (slots_add_ext Sl2 (holds_get (wr_holds W2)) Nr) as Sl2'.
  assert (Kp2 : forall q w, result <> Some q -> holds m1 q w -> holds m2 q w) by (intros q w Q H; eapply holds_evolves; eauto).
  assert (Nrhs : result <> Some rhs) by (intros Q; destruct (Hres' _ Q) as [Q' _]; apply Q'; simpl; auto).
  assert (Hrr : rhs <> r).
  { intros <-. destruct (wr_where W2) as [Q|Q]; [auto|]. pose proof (holds_lt Hk1). lia. }
  assert (E0 : arr1 0 = Some p0) by apply sset_same.
  destruct (@conv_loop_ok sx sy vp vk rhs r (list_prod (seq 0 Rr) (seq 0 Cr)) m2 arr1 (fun q => X q \/ q = r) p0 (Mat Rr Cr F) Sl2')
    as (arr' & m' & vr' & E3 & Sl3 & E03 & H03 & Hk3 & Hr3 & Dr & Dc & In1 & _ & Ev3 & Wh3); auto.
  - apply Kp2; auto. intros Q. exact (Nres1 _ Q 0 E0).
  - apply (wr_holds W2).
  - apply (wr_plain W2).
  - intros i j Hin. apply in_prod_iff in Hin. destruct Hin as [A1 A2]. apply in_seq in A1, A2. simpl.
    split; [apply conv_bound; auto; lia|]. split; [apply conv_bound; auto; lia|]. lia.
  - exists r, arr', m', p0. split.
    { unfold MatConvNaive. unfold bind at 1, assert at 1. apply Nat.ltb_lt in Psx, Psy. rewrite Psx, Psy. cbn [andb].
      destruct Hx as ((kx & sxx & bx & Gx & Lx) & Vx). destruct Hk as ((kk & sk & bk & Gk & Lk) & Vk).
      unfold bind at 1, deref at 1. rewrite Gx. unfold bind at 1, deref at 1. rewrite Gk. cbn [o_rows o_cols o_space].
      assert (sxx = CPU /\ sk = CPU) as [-> ->].
      { destruct Tm as (_ & (Q & _) & _). split; [apply (Q _ _ Gx)|apply (Q _ _ Gk)]. }
      unfold bind at 1, assert at 1. cbn [space_eqb].
      replace (mr vx + 2 * px <? mr vk) with false by (symmetry; apply Nat.ltb_ge; auto).
      replace (mc vx + 2 * py <? mc vk) with false by (symmetry; apply Nat.ltb_ge; auto). cbn [orb].
      unfold bind at 1. rewrite E1. cbv zeta. unfold bind at 1. fold Rr Cr. rewrite E2. unfold bind at 1. fold arr1. rewrite E3. reflexivity. }
    split; [|split; [exact Sl3|split; [|split; [|split; [exact E03|split; [exact H03|]]]]]].
    + eapply holds_meq; [exact Hr3|]. split; [exact Dr|]. split; [exact Dc|]. intros i j Hi Hj. rewrite In1; [reflexivity|].
      rewrite Dr in Hi. rewrite Dc in Hj. simpl in Hi, Hj. apply in_prod_iff. split; apply in_seq; lia.
    + destruct (wr_where W2) as [Q|Q]; [auto|right; lia].
    + rewrite (ev_special Ev3 (holds_lt (wr_holds W2))). apply (wr_plain W2).
    + eapply evolves_trans; [exact (wr_evolves W1)| |].
      { eapply evolves_trans; [exact Ev2|exact Ev3|]. intros q _ Q. exact Q. }
      intros q Hq [Q|[Q|[->|(k & Hk' & Q)]]].
      * right. exists 0. split; [lia|auto].
      * auto.
      * destruct (wr_where W2) as [Q|Q]; [auto|lia].
      * right. exists k. split; [lia|]. unfold arr1 in Q. rewrite sset_other in Q by lia. exact Q.
Qed.

(** The border of the padding buffer about to be used is zero. *)
Definition clean_pad m (r : option ptr) (R C px py : nat) : Prop :=
  forall i j, i < R + 2 * px -> j < C + 2 * py -> ~ (px <= i < px + R /\ py <= j < py + C) ->
    old_val m r CPU (R + 2 * px) (C + 2 * py) i j = n0.

Lemma pad_clean m r vx px py : clean_pad m r (mr vx) (mc vx) px py -> meq (pad_old m r vx px py) (padded vx px py).
Proof.
  intros H. split; [reflexivity|]. split; [reflexivity|]. simpl. intros i j Hi Hj.
  destruct ((px <=? i) && (i <? px + mr vx) && (py <=? j) && (j <? py + mc vx)) eqn:E; auto.
  apply H; auto. intros ((A1 & A2) & (A3 & A4)). apply Nat.leb_le in A1, A3. apply Nat.ltb_lt in A2, A4.
  rewrite A1, A2, A3, A4 in E. discriminate.
Qed.
Lemma clean_null m R C px py : clean_pad m None R C px py.
Proof. intros i j Hi Hj _. now apply old_fresh. Qed.
Lemma clean_other_size m q R C px py : (exists o, get m q = Some o) -> num_elem m q <> (R + 2 * px) * (C + 2 * py) -> clean_pad m (Some q) R C px py.
Proof. intros Ex D i j Hi Hj _. now apply old_other_size. Qed.
Lemma clean_nopad m r R C : clean_pad m r R C 0 0.
Proof. intros i j Hi Hj Q. exfalso. apply Q. lia. Qed.
(** After a correct convolution the buffer is clean for the same input size and padding. *)
Lemma clean_again m p vx px py : holds m p (padded vx px py) -> clean_pad m (Some p) (mr vx) (mc vx) px py.
Proof.
  intros ((k & sp & b & G & Lb) & V) i j Hi Hj Q. simpl in G, Lb, V. unfold old_val. rewrite G. simpl. rewrite Nat.eqb_refl.
  specialize (V i j Hi Hj). unfold val in V. rewrite G in V. simpl in V. rewrite V.
  destruct ((px <=? i) && (i <? px + mr vx) && (py <=? j) && (j <? py + mc vx)) eqn:E; auto.
  rewrite !andb_true_iff, !Nat.leb_le, !Nat.ltb_lt in E. exfalso. apply Q. lia.
Qed.

Lemma conv_of_clean sx sy vp vx vk px py : 0 < sx -> 0 < sy -> mr vk <= mr vx + 2 * px -> mc vk <= mc vx + 2 * py ->
  meq vp (padded vx px py) ->
  meq (conv_of sx sy vp vk (conv_out (mr vx) px (mr vk) sx) (conv_out (mc vx) py (mc vk) sy)) (convolution sx sy px py vx vk).
Proof.
  intros Psx Psy Hr Hc (D1 & D2 & V). split; [reflexivity|]. split; [reflexivity|]. cbn [conv_of convolution mf mr mc]. intros i j Hi Hj.
  apply sum_n_ext. intros a Ha. apply sum_n_ext. intros b Hb. f_equal.
  pose proof (conv_bound Psx Hr Hi). pose proof (conv_bound Psy Hc Hj).
  apply V; [rewrite D1|rewrite D2]; simpl; lia.
Qed.

(** Eigen's handler clears its buffer first. *)
Theorem conv_eigen_ok m padbuf sx sy px py lhs rhs result vx vk :
  tame m -> slot_ok m padbuf -> slot_ok m result -> holds m lhs vx -> holds m rhs vk ->
  (forall q, padbuf = Some q -> q <> lhs /\ q <> rhs /\ result <> Some q) -> (forall q, result = Some q -> q <> lhs /\ q <> rhs) ->
  0 < sx -> 0 < sy -> mr vk <= mr vx + 2 * px -> mc vk <= mc vx + 2 * py ->
  exists r p0 m', MatConvEigen S sx sy px py lhs rhs padbuf result m = Ok ((r, p0), m') /\
    holds m' r (convolution sx sy px py vx vk) /\ (result = Some r \/ length (objs m) <= r) /\
    (padbuf = Some p0 \/ length (objs m) <= p0) /\ ~ is_special m' r /\ ~ is_special m' p0 /\ r <> p0 /\ holds m' p0 (padded vx px py) /\
    evolves (fun q => result = Some q \/ padbuf = Some q) m m'.
Proof.
  intros Tm Sp Sr Hx Hk Hp Hr Psx Psy Br Bc.
  destruct (tame_pos Tm Hk) as [PRk PCk].
  destruct (reset_step Tm Sp) as (m1 & E1 & Z1 & Ev1 & Sp1).
  pose proof (ev_tame Ev1) as Tm1.
  assert (Kp1 : forall q w, padbuf <> Some q -> holds m q w -> holds m1 q w) by (intros q w Q H; eapply holds_evolves; eauto).
  assert (Hx1 : holds m1 lhs vx). { apply Kp1; auto. intros Q. destruct (Hp _ Q) as (A & _ & _). auto. }
  assert (Hk1 : holds m1 rhs vk). { apply Kp1; auto. intros Q. destruct (Hp _ Q) as (_ & A & _). auto. }
  destruct (@pad_step T N S VS m1 lhs padbuf vx px py Tm1 Hx1 Sp1) as (p0 & m2 & E2 & W2).
  { intros Q. destruct (Hp _ Q) as (A & _ & _). auto. }
  pose proof (wr_evolves W2) as Ev2.
  assert (Cl : clean_pad m1 padbuf (mr vx) (mc vx) px py).
  { intros i j Hi Hj _. unfold old_val. destruct padbuf as [q|]; [|now apply old_fresh].
    destruct Sp1 as ((o & Ho) & _). rewrite Ho. destruct (_ =? _); [apply (Z1 o Ho)|]. exact (old_fresh m1 Hi Hj). }
  pose proof (holds_meq (wr_holds W2) (pad_clean Cl)) as H0.
  assert (Kp2 : forall q w, padbuf <> Some q -> holds m1 q w -> holds m2 q w) by (intros q w Q H; eapply holds_evolves; eauto).
  assert (Hk2 : holds m2 rhs vk). { apply Kp2; auto. intros Q. destruct (Hp _ Q) as (_ & A & _). auto. }
  assert (Sr2 : slot_ok m2 result).
  { destruct result as [q|]; simpl; auto. destruct Sr as ((o & Ho) & Ns). pose proof (get_lt Ho) as Lq. pose proof (ev_len Ev1) as L1.
    assert (Nq : padbuf <> Some q) by (intros Q; destruct (Hp _ Q) as (_ & _ & A); auto).
    split; [exists o; rewrite (ev_frame Ev2), (ev_frame Ev1); auto; lia|].
    rewrite (ev_special Ev2), (ev_special Ev1); auto. lia. }
  set (Rr := conv_out (mr vx) px (mr vk) sx). set (Cr := conv_out (mc vx) py (mc vk) sy).
  pose proof (ev_tame Ev2) as Tm2.
  destruct (@pool_ok T N None CPU result Rr Cr m2 (proj1 Tm2) (slot_res Sr2) (conv_out_pos _ _ _ _) (conv_out_pos _ _ _ _)) as (r & m3 & E3 & P3).
  assert (Np0 : result <> Some p0).
  { intros Q. destruct (wr_where W2) as [Q2|Q2]; [destruct (Hp _ Q2) as (_ & _ & A); auto|].
    subst result. destruct Sr as ((o & Ho) & _). apply get_lt in Ho. pose proof (ev_len Ev1). lia. }
  assert (HF : forall i j, i < Rr -> j < Cr -> 
    sum_n (mr vk) (fun k => sum_n (mc vk) (fun l => nmul (val m3 p0 (i * sx + k) (j * sy + l)) (val m3 rhs k l)))
    = mf (convolution sx sy px py vx vk) i j).
  { intros i j Hi Hj. simpl. apply sum_n_ext. intros a Ha. apply sum_n_ext. intros b Hb.
    pose proof (conv_bound Psx Br Hi). pose proof (conv_bound Psy Bc Hj).
    rewrite (pooled_val _ _ P3 (holds_get H0) Np0).
    rewrite (pooled_val _ _ P3 (holds_get Hk2)) by (intros Q; destruct (Hr _ Q) as (_ & A); auto).
    rewrite (holds_val H0), (holds_val Hk2) by (simpl; lia). reflexivity. }
  destruct (assign_stored (proj1 Tm2) P3 (F := fun m i j => sum_n (mr vk) (fun k => sum_n (mc vk) (fun l => nmul (val m p0 (i * sx + k) (j * sy + l)) (val m rhs k l)))) HF) as (m4 & E4 & St).
  assert (Sp4 : spaced m4).
  { eapply (@pres_assign T r); [|exact E4]. eapply pres_pool; [|exact E3]. apply Tm2. }
  pose proof (@stored_wrote T N m2 m4 result r Rr Cr _ Tm2 Sr2 St Sp4) as W4. pose proof (wr_evolves W4) as Ev4.
  pose proof (ev_len Ev1) as L1. pose proof (ev_len Ev2) as L2.
  exists r, p0, m4. split.
  { unfold MatConvEigen. unfold bind at 1, assert at 1. apply Nat.ltb_lt in Psx as Psx', Psy as Psy'. rewrite Psx', Psy'. cbn [andb].
    destruct Hx as ((kx & sxx & bx & Gx & Lx) & Vx). destruct Hk as ((kk & sk & bk & Gk & Lk) & Vk).
    unfold bind at 1, deref at 1. rewrite Gx. unfold bind at 1, deref at 1. rewrite Gk. cbn [o_rows o_cols o_space].
    assert (sxx = CPU /\ sk = CPU) as [-> ->].
    { destruct Tm as (_ & (Q & _) & _). split; [apply (Q _ _ Gx)|apply (Q _ _ Gk)]. }
    unfold bind at 1, assert at 1. cbn [space_eqb]. unfold bind at 1. rewrite E1.
    replace (mr vx + 2 * px <? mr vk) with false by (symmetry; apply Nat.ltb_ge; auto).
    replace (mc vx + 2 * py <? mc vk) with false by (symmetry; apply Nat.ltb_ge; auto). cbn [orb].
    unfold bind at 1. rewrite E2. unfold bind at 1. fold Rr Cr. unfold pool. rewrite E3. unfold bind at 1. rewrite E4. reflexivity. }
  split; [|split; [|split; [|split; [|split; [|split; [|split]]]]]].
  - exact (wr_holds W4).
  - destruct (wr_where W4) as [Q|Q]; [auto|right; lia].
  - destruct (wr_where W2) as [Q|Q]; [auto|right; lia].
  - exact (wr_plain W4).
  - rewrite (ev_special Ev4 (holds_lt H0)). exact (wr_plain W2).
  - intros ->. destruct (wr_where W4) as [Q|Q]; [auto|]. pose proof (holds_lt H0). lia.
  - eapply holds_evolves; [exact Ev4|exact Np0|exact H0].
  - eapply evolves_trans; [exact Ev1| |].
    { eapply evolves_trans; [exact Ev2|exact Ev4|]. intros q _ Q. exact Q. }
    intros q Hq [Q|[Q|Q]]; auto.
Qed.
End Conv.
