(** * Derivative of a convolution: proofs *)
From Coq Require Import List Arith Bool Lia Ring.
From Verif Require Import Num MatMem Kernels KernelFacts KernelProofs KernelBlocks Registry KernelStep Backend Slots Exec Sums Conv ConvProofs.
Import ListNotations.
Set Implicit Arguments.
Unset Strict Implicit.

Section Derv.
Context {T : Type} {N : Num T}.
Notation mem := (mem T).
Notation M := (M T).
Notation mat := (mat T).
Hypothesis L : NumLaws N.
Add Ring TR : (law_ring N L).
Variable S : sched T.
Hypothesis VS : valid_sched S.
Variable B : backend (T := T).
Hypothesis BV : value_ok B.
Hypothesis BK : kron_zeroed_ok B.
Implicit Types (m : mem).

(** The product rule at output cell (i,j), derivative component (u,w). *)
Definition dwindow (xr xc sx sy : nat) (vp vdp vk vdk : mat) (i j u w : nat) : T :=
  sum_n (mr vk) (fun a => sum_n (mc vk) (fun b =>
    nadd (nmul (mf vp (i * sx + a) (j * sy + b)) (mf vdk (a * xr + u) (b * xc + w)))
         (nmul (mf vdp ((i * sx + a) * xr + u) ((j * sy + b) * xc + w)) (mf vk a b)))).

Lemma divmod_block a u xr : u < xr -> (a * xr + u) / xr = a /\ (a * xr + u) mod xr = u.
Proof.
  intros H. split.
  - rewrite Nat.div_add_l by lia. rewrite Nat.div_small by lia. lia.
  - rewrite Nat.add_comm, Nat.mod_add by lia. apply Nat.mod_small. auto.
Qed.
(** The row and column block sums of the table ("Sigma function derivative"). *)
Lemma sigma_rows cr xr u (g : nat -> T) : u < xr ->
  sum_n (cr * xr) (fun s => nmul (mf (mkron (mones 1 cr) (meye xr)) u s) (g s)) = sum_n cr (fun a => g (a * xr + u)).
Proof.
  intros Hu. rewrite (sum_prod L). apply sum_n_ext. intros a Ha.
  rewrite <- (@sum_delta_mul_l T N L xr u (fun k => g (a * xr + k)) Hu). apply sum_n_ext. intros k Hk. simpl.
  destruct (divmod_block a Hk) as [_ ->]. rewrite (Nat.mod_small u xr Hu). rewrite (Nat.eqb_sym u k). destruct (k =? u); ring.
Qed.
Lemma sigma_cols cc xc w (g : nat -> T) : w < xc ->
  sum_n (cc * xc) (fun t => nmul (g t) (mf (mkron (mones cc 1) (meye xc)) t w)) = sum_n cc (fun b => g (b * xc + w)).
Proof.
  intros Hw. rewrite (sum_prod L). apply sum_n_ext. intros b Hb.
  rewrite <- (@sum_delta_mul_r T N L xc w (fun k => g (b * xc + k)) Hw). apply sum_n_ext. intros k Hk. simpl.
  destruct (divmod_block b Hk) as [_ ->]. rewrite (Nat.mod_small w xc Hw). destruct (k =? w); ring.
Qed.

Lemma derv_cell_run xr xc sx sy vp vdp vk vdk rhs drhs i j pv env : pv rhs = vk -> pv drhs = vdk ->
  env 0 = Some vdp -> env 1 = Some vp -> 0 < mr vk -> 0 < mc vk -> 0 < xr -> 0 < xc ->
  mr vdk = mr vk * xr -> mc vdk = mc vk * xc -> mr vdp = mr vp * xr -> mc vdp = mc vp * xc ->
  i * sx + mr vk <= mr vp -> j * sy + mc vk <= mc vp ->
  exists env' v, vrun Nat.eq_dec pv (derv_conv_cell xr xc sx sy (mr vk) (mc vk) rhs drhs i j) env = Some env' /\ env' 12 = Some v /\
    mr v = xr /\ mc v = xc /\ forall u w, u < xr -> w < xc -> mf v u w = dwindow xr xc sx sy vp vdp vk vdk i j u w.
Proof.
  intros Er Ed E0 E1 PR PC Px Pc Dk1 Dk2 Dp1 Dp2 Hi Hj. eexists _, _. unfold derv_conv_cell. split; [|split].
  - assert (Hi' : i * sx * xr + xr * mr vk <= mr vdp) by (rewrite Dp1; nia).
    assert (Hj' : j * sy * xc + xc * mc vk <= mc vdp) by (rewrite Dp2; nia).
    assert (0 < xr * mr vk) by nia. assert (0 < xc * mc vk) by nia.
    eapply vrun_step. { eapply veval_block; [exact E1|lia|lia|lia|lia]. }
    eapply vrun_step. { eapply veval_block; [exact E0|lia|lia|lia|lia]. }
    eapply vrun_step. { eapply veval_kron; [reflexivity|apply vfetch_ones; lia]. }
    eapply vrun_step. { eapply veval_kron; [cbn [vfetch]; rewrite Er; reflexivity|apply vfetch_ones; lia]. }
    eapply vrun_step. { eapply veval_had; [reflexivity|cbn [vfetch]; rewrite Ed; reflexivity|simpl; rewrite Dk1; f_equal; lia|simpl; rewrite Dk2; f_equal; lia]. }
    eapply vrun_step. { eapply veval_had; [reflexivity|reflexivity|simpl; lia|simpl; lia]. }
    eapply vrun_step. { eapply veval_add; [reflexivity|reflexivity| |]; cbn [mr mc mhad mzip mkron mblock mones];
                          [replace (i * sx + mr vk - 1 - i * sx + 1) with (mr vk) by lia|replace (j * sy + mc vk - 1 - j * sy + 1) with (mc vk) by lia]; nia. }
    eapply vrun_step. { eapply veval_kron; [apply vfetch_ones; lia|apply vfetch_eye; lia]. }
    eapply vrun_step. { eapply veval_kron; [apply vfetch_ones; lia|apply vfetch_eye; lia]. }
    eapply vrun_step. { eapply veval_mul; [reflexivity|reflexivity|]. cbn [mr mc mkron mones meye madd mhad mzip mblock]. f_equal. lia. }
    eapply vrun_step. { eapply veval_mul; [reflexivity|reflexivity|]. cbn [mr mc mmul mkron mones meye madd mhad mzip mblock]. f_equal. lia. }
    reflexivity.
  - reflexivity.
  - split; [cbn [mr mmul mkron mones meye]; lia|]. split; [cbn [mc mmul mkron mones meye]; lia|].
    intros u w Hu Hw.
    match goal with |- context [mmul (mmul _ ?b8) _] => set (v8 := b8) end.
    assert (C8 : mc v8 = mc vk * xc) by (unfold v8; cbn [mc madd mhad mzip mkron mblock mones]; f_equal; lia).
    assert (Ex : forall (k9 k10 w8 : mat), mf (mmul (mmul k9 w8) k10) u w = sum_n (mc w8) (fun t => nmul (sum_n (mc k9) (fun s => nmul (mf k9 u s) (mf w8 s t))) (mf k10 t w))) by reflexivity.
    rewrite Ex. rewrite C8. change (mc (mkron (mones 1 (mr vk)) (meye xr))) with (mr vk * xr).
    rewrite (@sigma_cols (mc vk) xc w (fun t => sum_n (mr vk * xr) (fun s => nmul (mf (mkron (mones 1 (mr vk)) (meye xr)) u s) (mf v8 s t))) Hw).
    transitivity (sum_n (mc vk) (fun b => sum_n (mr vk) (fun a => mf v8 (a * xr + u) (b * xc + w)))).
    { apply sum_n_ext. intros b Hb. exact (@sigma_rows (mr vk) xr u (fun s => mf v8 s (b * xc + w)) Hu). }
    unfold dwindow. rewrite (sum_swap L). apply sum_n_ext. intros a Ha. apply sum_n_ext. intros b Hb.
    unfold v8. cbn [mf mr mc madd mhad mzip mkron mblock mones].
    destruct (divmod_block a Hu) as [-> _]. destruct (divmod_block b Hw) as [-> _].
    replace (i * sx * xr + (a * xr + u)) with ((i * sx + a) * xr + u) by lia.
    replace (j * sy * xc + (b * xc + w)) with ((j * sy + b) * xc + w) by lia. ring.
Qed.

Lemma in_block i x xr : 0 < xr -> (i * xr <=? x) && (x <? i * xr + xr) = (x / xr =? i).
Proof.
  intros H. apply eq_true_iff_eq. rewrite andb_true_iff, Nat.leb_le, Nat.ltb_lt, Nat.eqb_eq. split.
  - intros [A1 A2]. symmetry. apply (Nat.div_unique x xr i (x - i * xr)); lia.
  - intros <-. pose proof (Nat.div_mod x xr ltac:(lia)). pose proof (Nat.mod_upper_bound x xr ltac:(lia)). lia.
Qed.

Definition scratch_range (k : nat) : Prop := 2 <= k <= 12.
Lemma scratch_list k : In k [2; 3; 4; 5; 6; 7; 8; 9; 10; 11; 12] <-> scratch_range k.
Proof. unfold scratch_range. simpl. split; [intuition lia|]. intros H. lia. Qed.
Lemma scratch_dsts xr xc sx sy cr cc rhs drhs i j : dsts (derv_conv_cell (T := T) xr xc sx sy cr cc rhs drhs i j) = [2; 3; 4; 5; 6; 7; 8; 9; 10; 11; 12].
Proof. reflexivity. Qed.

Lemma derv_loop_ok xr xc sx sy vp vdp vk vdk rhs drhs res cells : 0 < xr -> 0 < xc ->
  mr vdk = mr vk * xr -> mc vdk = mc vk * xc -> mr vdp = mr vp * xr -> mc vdp = mc vp * xc ->
  forall m arr X p0 p1 vr,
  slots m arr X -> X rhs -> X drhs -> X res -> res <> rhs -> res <> drhs ->
  arr 0 = Some p0 -> holds m p0 vdp -> arr 1 = Some p1 -> holds m p1 vp -> holds m rhs vk -> holds m drhs vdk -> holds m res vr ->
  ~ is_special m res ->
  (forall i j, In (i, j) cells -> i * sx + mr vk <= mr vp /\ j * sy + mc vk <= mc vp /\ (i + 1) * xr <= mr vr /\ (j + 1) * xc <= mc vr) ->
  exists arr' m' vr', derv_conv_loop S B xr xc sx sy (mr vk) (mc vk) rhs drhs res cells arr m = Ok (arr', m') /\ slots m' arr' X /\
    arr' 0 = Some p0 /\ holds m' p0 vdp /\ arr' 1 = Some p1 /\ holds m' p1 vp /\ holds m' rhs vk /\ holds m' drhs vdk /\
    holds m' res vr' /\ mr vr' = mr vr /\ mc vr' = mc vr /\
    (forall x y, In (x / xr, y / xc) cells -> mf vr' x y = dwindow xr xc sx sy vp vdp vk vdk (x / xr) (y / xc) (x mod xr) (y mod xc)) /\
    (forall x y, ~ In (x / xr, y / xc) cells -> mf vr' x y = mf vr x y) /\
    evolves (fun q => q = res \/ exists k, scratch_range k /\ arr k = Some q) m m' /\
    (forall k p, arr' k = Some p -> arr k = Some p \/ length (objs m) <= p).
Proof.
  intros Px Pc Dk1 Dk2 Dp1 Dp2. induction cells as [|[i j] cs IH]; intros m arr X p0 p1 vr Sl Xk Xd Xr Nrk Nrd E0 H0 E1' H1 Hk Hd Hr Ns Hc.
  - exists arr, m, vr. split; [reflexivity|]. do 10 (split; [auto|]). split; [intros ? ? []|]. split; [auto|]. split; [|auto].
    apply evolves_refl. apply (sl_tame Sl).
  - destruct (Hc i j (or_introl eq_refl)) as (Hi & Hj & Hi' & Hj').
    destruct (tame_pos (sl_tame Sl) Hk) as [PR PC].
    destruct (@reset_slots T N m arr X [2; 3; 4; 5; 6; 7; 8; 9; 10; 11; 12] Sl) as (m1 & E1 & Sl1 & Z1 & Ev1).
    assert (Kp1 : forall q w, (forall k, scratch_range k -> arr k <> Some q) -> holds m q w -> holds m1 q w).
    { intros q w Nq Hq. eapply holds_evolves; eauto. intros (k & Hk' & E). apply (Nq k); auto. now apply scratch_list. }
    assert (H01 : holds m1 p0 vdp). { apply Kp1; auto. intros k Hk' E. pose proof (sl_inj Sl E0 E). unfold scratch_range in Hk'. lia. }
    assert (H11 : holds m1 p1 vp). { apply Kp1; auto. intros k Hk' E. pose proof (sl_inj Sl E1' E). unfold scratch_range in Hk'. lia. }
    assert (Hk1 : holds m1 rhs vk) by (apply Kp1; auto; intros; exact (ext_not_slot Sl Xk)).
    assert (Hd1 : holds m1 drhs vdk) by (apply Kp1; auto; intros; exact (ext_not_slot Sl Xd)).
    assert (Hr1 : holds m1 res vr) by (apply Kp1; auto; intros; exact (ext_not_slot Sl Xr)).
    set (env := fun k : nat => if k =? 0 then Some vdp else if k =? 1 then Some vp else None).
    set (pv := fun q : ptr => if Nat.eq_dec q rhs then vk else vdk).
    assert (Hpv : holds m1 drhs (pv drhs)).
    { unfold pv. destruct (Nat.eq_dec drhs rhs) as [->|]; auto. }
    assert (Epr : pv rhs = vk) by (unfold pv; destruct (Nat.eq_dec rhs rhs); congruence).
    assert (Epd : exists vdk', pv drhs = vdk' /\ mr vdk' = mr vdk /\ mc vdk' = mc vdk /\ forall x y, x < mr vdk -> y < mc vdk -> mf vdk' x y = mf vdk x y).
    { eexists. split; [reflexivity|]. destruct (holds_det Hpv Hd1) as (Q1 & Q2 & Q3). split; auto. split; auto. intros. apply Q3; congruence. }
    destruct Epd as (vdk' & Epd & Q1 & Q2 & Q3). clearbody pv.
    destruct (@derv_cell_run xr xc sx sy vp vdp vk vdk' rhs drhs i j pv env Epr Epd eq_refl eq_refl PR PC Px Pc ltac:(congruence) ltac:(congruence) Dp1 Dp2 Hi Hj)
      as (env' & v & Ev & E4 & Vr & Vc & Vv).
    assert (Vv' : forall u w, u < xr -> w < xc -> mf v u w = dwindow xr xc sx sy vp vdp vk vdk i j u w).
    { intros u w Hu Hw. rewrite Vv by auto. unfold dwindow. apply sum_n_ext. intros a Ha. apply sum_n_ext. intros b Hb. rewrite Q3; [reflexivity| |]; nia. }
    destruct (@run_ok T N nat Nat.eq_dec S VS B BV (or_intror BK) (derv_conv_cell xr xc sx sy (mr vk) (mc vk) rhs drhs i j) m1 arr X env pv env')
      as (arr2 & m2 & E2 & Sl2 & Ag2 & Ev2 & Un2 & Wh2 & _); auto.
    + intros k w. unfold env. destruct (k =? 0) eqn:Ek; [intros [= <-]; apply Nat.eqb_eq in Ek; subst k; eauto|].
      destruct (k =? 1) eqn:Ek1; [|discriminate]. intros [= <-]. apply Nat.eqb_eq in Ek1. subst k. eauto.
    + rewrite scratch_dsts. repeat constructor; simpl; intuition discriminate.
    + unfold derv_conv_cell. repeat constructor; intros Q; simpl in Q; intuition discriminate.
    + intros p (ins & Hin & Hp). simpl in Hin.
      assert (p = rhs \/ p = drhs) as [-> | ->] by (intuition; subst; simpl in Hp; intuition congruence).
      * rewrite Epr. split; [exact Hk1|]. intros d _. exact (ext_not_slot Sl1 Xk).
      * split; [exact Hpv|]. intros d _. exact (ext_not_slot Sl1 Xd).
    + right. intros d op Hin Ik. apply Z1. rewrite <- (scratch_dsts xr xc sx sy (mr vk) (mc vk) rhs drhs i j). apply (in_map fst _ _ Hin).
    + destruct (Ag2 _ _ E4) as (p4 & Ep4 & H4).
      assert (Np4 : p4 <> res). { intros ->. exact (ext_not_slot Sl2 Xr Ep4). }
      rewrite scratch_dsts in Ev2, Un2.
      assert (Kp2 : forall q w, (forall k, scratch_range k -> arr k <> Some q) -> holds m1 q w -> holds m2 q w).
      { intros q w Nq Hq. eapply holds_evolves; eauto. intros (k & Hk' & E). apply (Nq k); auto. now apply scratch_list. }
      assert (H02 : holds m2 p0 vdp). { apply Kp2; auto. intros k Hk' E. pose proof (sl_inj Sl E0 E). unfold scratch_range in Hk'. lia. }
      assert (H12 : holds m2 p1 vp). { apply Kp2; auto. intros k Hk' E. pose proof (sl_inj Sl E1' E). unfold scratch_range in Hk'. lia. }
      assert (Hk2 : holds m2 rhs vk) by (apply Kp2; auto; intros; exact (ext_not_slot Sl Xk)).
      assert (Hd2 : holds m2 drhs vdk) by (apply Kp2; auto; intros; exact (ext_not_slot Sl Xd)).
      assert (Hr2 : holds m2 res vr) by (apply Kp2; auto; intros; exact (ext_not_slot Sl Xr)).
      assert (Ns2 : ~ is_special m2 res).
      { rewrite (ev_special Ev2 (holds_lt Hr1)), (ev_special Ev1 (holds_lt Hr)). exact Ns. }
      destruct (@set_block_step T N S VS m2 res p4 (i * xr) ((i + 1) * xr - 1) (j * xc) ((j + 1) * xc - 1) vr v (sl_tame Sl2) Hr2 H4 Np4 Ns2)
        as (m3 & E3 & Hr3 & Ev3); try nia.
      destruct (slot_ext_write Sl2 Xr Ev3 (holds_get Hr3)) as (Sl3 & Kp3).
      assert (E02 : arr2 0 = Some p0) by (rewrite Un2; [exact E0|rewrite scratch_list; unfold scratch_range; lia]).
      assert (E12 : arr2 1 = Some p1) by (rewrite Un2; [exact E1'|rewrite scratch_list; unfold scratch_range; lia]).
      assert (Np0 : p0 <> res) by (intros ->; exact (ext_not_slot Sl Xr E0)).
      assert (Np1 : p1 <> res) by (intros ->; exact (ext_not_slot Sl Xr E1')).
      destruct (@IH m3 arr2 X p0 p1 (msetblock (i * xr) (j * xc) v vr)) as (arr' & m' & vr' & E' & Sl' & E0' & H0' & E1'' & H1' & Hk' & Hd' & Hr' & Dr & Dc & In1 & In2 & Ev' & Wh'); auto.
      * rewrite (ev_special Ev3 (holds_lt Hr2)). exact Ns2.
      * intros i' j' Hin. destruct (Hc i' j' (or_intror Hin)) as (A1 & A2 & A3 & A4). simpl. auto.
      * exists arr', m', vr'. split.
        { cbn [derv_conv_loop]. unfold bind at 1. rewrite E1. unfold bind at 1. rewrite E2. rewrite Ep4. unfold bind at 1. rewrite E3. exact E'. }
        do 8 (split; [auto|]). split; [auto|]. split; [auto|]. split; [|split; [|split]].
        -- intros x y Hin. destruct (in_dec (fun a b : nat * nat => ltac:(decide equality; apply Nat.eq_dec)) (x / xr, y / xc) cs) as [Hi2|Hn2]; [auto|].
           destruct Hin as [Eq|Hin]; [|contradiction]. injection Eq as Ei Ej. rewrite In2 by auto. simpl. rewrite Vr, Vc.
           rewrite <- andb_assoc, in_block, in_block by lia. rewrite <- Ei, <- Ej, !Nat.eqb_refl. simpl.
           rewrite <- (Vv' (x mod xr) (y mod xc)) by (apply Nat.mod_upper_bound; lia). rewrite !Nat.mod_eq by lia. f_equal; rewrite Ei || rewrite Ej; lia.
        -- intros x y Hn. rewrite In2 by (intros Q; apply Hn; right; auto). simpl. rewrite Vr, Vc.
           rewrite <- andb_assoc, in_block, in_block by lia.
           destruct ((x / xr =? i) && (y / xc =? j)) eqn:Eb; auto.
           apply andb_prop in Eb. destruct Eb as [B1 B2]. apply Nat.eqb_eq in B1, B2. exfalso. apply Hn. left. congruence.
        -- pose proof (ev_len Ev1) as L1. pose proof (ev_len Ev2) as L2. pose proof (ev_len Ev3) as L3.
           eapply evolves_trans; [exact Ev1| |].
           { eapply evolves_trans; [exact Ev2| |].
             - eapply evolves_trans; [exact Ev3|exact Ev'|]. intros q _ Q. exact Q.
             - intros q _ Q. exact Q. }
           intros q Hq [(k & Hk'' & E)|[(k & Hk'' & E)|[->|[->|(k & Hk'' & E)]]]]; auto.
           ++ right. exists k. split; [now apply scratch_list|auto].
           ++ right. exists k. split; [now apply scratch_list|auto].
           ++ right. exists k. split; auto. destruct (Wh2 _ _ E) as [?|?]; [auto|lia].
        -- intros k p Q. pose proof (ev_len Ev1) as L1. pose proof (ev_len Ev2) as L2. pose proof (ev_len Ev3) as L3.
           destruct (Wh' _ _ Q) as [Q'|Q']; [|right; lia]. destruct (Wh2 _ _ Q') as [Q''|Q'']; [auto|right; lia].
Qed.

Definition dconv_of (xr xc sx sy : nat) (vp vdp vk vdk : mat) (R C : nat) : mat :=
  Mat (R * xr) (C * xc) (fun x y => dwindow xr xc sx sy vp vdp vk vdk (x / xr) (y / xc) (x mod xr) (y mod xc)).

Theorem derv_conv_ok m arr X xr xc sx sy px py lhs dlhs rhs drhs result vx vdx vk vdk :
  slots m arr X -> X lhs -> X dlhs -> X rhs -> X drhs -> holds m lhs vx -> holds m dlhs vdx -> holds m rhs vk -> holds m drhs vdk ->
  result_ok m arr [lhs; dlhs; rhs; drhs] result -> 0 < xr -> 0 < xc ->
  mr vdk = mr vk * xr -> mc vdk = mc vk * xc -> mr vdx = mr vx * xr -> mc vdx = mc vx * xc ->
  0 < sx -> 0 < sy -> mr vk <= mr vx + 2 * px -> mc vk <= mc vx + 2 * py ->
  let vp := pad_old m (arr 1) vx px py in let vdp := pad_old m (arr 0) vdx (px * xr) (py * xc) in
  exists r arr' m' p0 p1, MatDervConvNaive S B xr xc sx sy px py lhs dlhs rhs drhs arr result m = Ok ((r, arr'), m') /\
    holds m' r (dconv_of xr xc sx sy vp vdp vk vdk (conv_out (mr vx) px (mr vk) sx) (conv_out (mc vx) py (mc vk) sy)) /\
    slots m' arr' (fun q => X q \/ q = r) /\ (result = Some r \/ length (objs m) <= r) /\ ~ is_special m' r /\
    arr' 0 = Some p0 /\ holds m' p0 vdp /\ arr' 1 = Some p1 /\ holds m' p1 vp /\
    evolves (fun q => result = Some q \/ exists k, k <= 12 /\ arr k = Some q) m m'.
Proof.
  intros Sl Xl Xdl Xr Xdr Hx Hdx Hk Hdk (Hres & Hres') Pxr Pxc Dk1 Dk2 Dx1 Dx2 Psx Psy Hr Hc vp vdp. pose proof (sl_tame Sl) as Tm.
  destruct (tame_pos Tm Hx) as [PRx PCx]. destruct (tame_pos Tm Hk) as [PRk PCk].
  destruct (@pad_step T N S VS m dlhs (arr 0) vdx (px * xr) (py * xc) Tm Hdx (slots_ok 0 Sl) (ext_not_slot Sl Xdl)) as (p0 & m1 & E1 & W1).
  destruct (slot_write Nat.eq_dec Sl W1) as (Sl1 & H0 & Kp1 & Fr1). fold vdp in H0.
  set (arr1 := sset Nat.eq_dec arr 0 p0) in *.
  assert (Hx1 : holds m1 lhs vx) by (apply Kp1; auto; exact (ext_not_slot Sl Xl)).
  assert (E1a : arr1 1 = arr 1) by (apply sset_other; lia).
  destruct (@pad_step T N S VS m1 lhs (arr1 1) vx px py (sl_tame Sl1) Hx1 (slots_ok 1 Sl1) (ext_not_slot Sl1 Xl)) as (p1 & m2 & E2 & W2).
  assert (Evp : meq (pad_old m1 (arr1 1) vx px py) vp).
  { split; [reflexivity|]. split; [reflexivity|]. unfold vp. simpl. intros i j Hi Hj.
    destruct (_ && _); auto. rewrite E1a. unfold old_val. destruct (arr 1) as [q|] eqn:Eq; auto. rewrite Fr1; auto.
    - destruct (sl_slot Sl Eq) as ((o & Ho) & _). exact (get_lt Ho).
    - intros Q. pose proof (sl_inj Sl Eq Q). lia. }
  apply (fun W => wrote_meq W Evp) in W2.
  destruct (slot_write Nat.eq_dec Sl1 W2) as (Sl2 & H1 & Kp2 & Fr2).
  set (arr2 := sset Nat.eq_dec arr1 1 p1) in *.
  assert (Lt1 : length (objs m) <= length (objs m1)) by apply (wr_evolves W1).
  assert (Lt2 : length (objs m1) <= length (objs m2)) by apply (wr_evolves W2).
  assert (E02 : arr2 0 = Some p0). { unfold arr2. rewrite sset_other by lia. apply sset_same. }
  assert (E12 : arr2 1 = Some p1) by apply sset_same.
  assert (H02 : holds m2 p0 vdp). { apply Kp2; auto. intros Q. rewrite E1a in Q.
    assert (Q' : arr1 0 = Some p0) by apply sset_same. assert (Q2 : arr1 1 = Some p0) by congruence. pose proof (sl_inj Sl1 Q' Q2). lia. }
  assert (Keep : forall q w, X q -> holds m q w -> holds m2 q w).
  { intros q w Xq Hq. apply Kp2; [exact (ext_not_slot Sl1 Xq)|]. apply Kp1; auto. exact (ext_not_slot Sl Xq). }
  assert (Nres : forall q, result = Some q -> forall k, arr2 k <> Some q).
  { intros q Eq k E. assert (Lq : q < length (objs m)). { subst result. destruct Hres as ((o & Ho) & _). exact (get_lt Ho). }
    unfold arr2 in E. apply sset_cases in E. destruct E as [(-> & ->)|(_ & E)].
    - destruct (wr_where W2) as [Q|Q]; [|lia]. rewrite E1a in Q. exact (proj2 (Hres' _ Eq) 1 Q).
    - unfold arr1 in E. apply sset_cases in E. destruct E as [(-> & ->)|(_ & E)].
      + destruct (wr_where W1) as [Q|Q]; [|lia]. exact (proj2 (Hres' _ Eq) 0 Q).
      + exact (proj2 (Hres' _ Eq) k E). }
  assert (Hres2 : slot_ok m2 result).
  { destruct result as [q|]; simpl; auto. destruct Hres as ((o & Ho) & Nsq). pose proof (get_lt Ho) as Lq.
    assert (N0 : arr 0 <> Some q) by (intros Q; exact (proj2 (Hres' _ eq_refl) 0 Q)).
    assert (N1 : arr1 1 <> Some q) by (rewrite E1a; intros Q; exact (proj2 (Hres' _ eq_refl) 1 Q)).
    split; [exists o; rewrite Fr2 by (auto; lia); rewrite Fr1; auto|].
    rewrite (ev_special (wr_evolves W2)) by lia. rewrite (ev_special (wr_evolves W1) Lq). exact Nsq. }
  set (Rr := conv_out (mr vx) px (mr vk) sx). set (Cr := conv_out (mc vx) py (mc vk) sy).
  assert (PRr : 0 < Rr) by apply conv_out_pos. assert (PCr : 0 < Cr) by apply conv_out_pos.
  destruct (@pool_step T N m2 result (Rr * xr) (Cr * xc) (sl_tame Sl2) Hres2 ltac:(nia) ltac:(nia)) as (r & m3 & F & E3 & W3).
  pose proof (wr_evolves W3) as Ev3.
  assert (Nr : forall k, arr2 k <> Some r).
  { intros k E. destruct (wr_where W3) as [Q|Q]; [exact (Nres _ Q k E)|].
    destruct (sl_slot Sl2 E) as ((o & Ho) & _). apply get_lt in Ho. lia. }
  assert (Sl3 : slots m3 arr2 X).
  { constructor.
    - apply Ev3.
    - intros k p E. destruct (sl_slot Sl2 E) as ((o & Ho) & Nsp & Nx). pose proof (get_lt Ho) as Lp.
      split; [exists o; rewrite (ev_frame Ev3 Lp); auto; intros Q; exact (Nres _ Q k E)|]. split; auto. now rewrite (ev_special Ev3 Lp).
    - apply (sl_inj Sl2).
    - intros q Hq. destruct (sl_ext Sl2 Hq) as (o & Ho). pose proof (get_lt Ho) as Lq. pose proof (ev_len Ev3) as L3.
      apply (ev_live Ev3). eauto. }
  pose proof (slots_add_ext Sl3 (holds_get (wr_holds W3)) Nr) as Sl3'.
  assert (Kp3 : forall q w, result <> Some q -> holds m2 q w -> holds m3 q w) by (intros q w Q H; eapply holds_evolves; eauto).
  assert (Nop : forall q, In q [lhs; dlhs; rhs; drhs] -> result <> Some q) by (intros q Hq Q; apply (proj1 (Hres' _ Q)); exact Hq).
  assert (Nrq : forall q w, In q [lhs; dlhs; rhs; drhs] -> holds m2 q w -> r <> q).
  { intros q w Hq Hh ->. destruct (wr_where W3) as [Q|Q]; [exact (Nop _ Hq Q)|]. pose proof (holds_lt Hh). lia. }
  destruct (@derv_loop_ok xr xc sx sy vp vdp vk vdk rhs drhs r (list_prod (seq 0 Rr) (seq 0 Cr)) Pxr Pxc Dk1 Dk2
      ltac:(unfold vdp, vp; simpl; rewrite Dx1; ring) ltac:(unfold vdp, vp; simpl; rewrite Dx2; ring)
      m3 arr2 (fun q => X q \/ q = r) p0 p1 (Mat (Rr * xr) (Cr * xc) F) Sl3')
    as (arr' & m' & vr' & E4 & Sl4 & E04 & H04 & E14 & H14 & Hk4 & Hdk4 & Hr4 & Dr & Dc & In1 & _ & Ev4 & Wh4); auto.
  - apply (Nrq rhs vk); simpl; auto.
  - apply (Nrq drhs vdk); simpl; auto 6.
  - apply Kp3; auto. intros Q. exact (Nres _ Q 0 E02).
  - apply Kp3; auto. intros Q. exact (Nres _ Q 1 E12).
  - apply Kp3; [apply Nop; simpl; auto|auto].
  - apply Kp3; [apply Nop; simpl; auto 6|auto].
  - apply (wr_holds W3).
  - apply (wr_plain W3).
  - intros i j Hin. apply in_prod_iff in Hin. destruct Hin as [A1 A2]. apply in_seq in A1, A2. unfold vp. cbn [mr mc pad_old].
    split; [apply conv_bound; auto; lia|]. split; [apply conv_bound; auto; lia|]. nia.
  - exists r, arr', m', p0, p1. split.
    { unfold MatDervConvNaive. unfold bind at 1, assert at 1. apply Nat.ltb_lt in Psx, Psy. rewrite Psx, Psy. cbn [andb].
      destruct Hx as ((kx & sxx & bx & Gx & Lx) & Vx). destruct Hk as ((kk & sk & bk & Gk & Lk) & Vk).
      destruct Hdx as ((kdx & sdx & bdx & Gdx & Ldx) & Vdx). destruct Hdk as ((kdk & sdk & bdk & Gdk & Ldk) & Vdk).
      unfold bind at 1, deref at 1. rewrite Gx. unfold bind at 1, deref at 1. rewrite Gk.
      unfold bind at 1, deref at 1. rewrite Gdx. unfold bind at 1, deref at 1. rewrite Gdk. cbn [o_rows o_cols o_space].
      assert (sxx = CPU /\ sk = CPU /\ sdx = CPU /\ sdk = CPU) as (-> & -> & -> & ->).
      { destruct Tm as (_ & (Q & _) & _). split; [apply (Q _ _ Gx)|]. split; [apply (Q _ _ Gk)|]. split; [apply (Q _ _ Gdx)|apply (Q _ _ Gdk)]. }
      unfold bind at 1, assert at 1. cbn [space_eqb andb].
      replace (mr vx + 2 * px <? mr vk) with false by (symmetry; apply Nat.ltb_ge; auto).
      replace (mc vx + 2 * py <? mc vk) with false by (symmetry; apply Nat.ltb_ge; auto). cbn [orb].
      unfold bind at 1. rewrite E1. unfold bind at 1. rewrite E1a in E2. rewrite E2. cbv zeta. unfold bind at 1. fold Rr Cr. rewrite E3. unfold bind at 1. fold arr1 arr2. rewrite E4. reflexivity. }
    split; [|split; [exact Sl4|split; [|split; [|split; [exact E04|split; [exact H04|split; [exact E14|split; [exact H14|]]]]]]]].
    + eapply holds_meq; [exact Hr4|]. split; [exact Dr|]. split; [exact Dc|]. intros x y Hi Hj. rewrite In1; [reflexivity|].
      rewrite Dr in Hi. rewrite Dc in Hj. simpl in Hi, Hj. apply in_prod_iff. split; apply in_seq; split; try lia; simpl; apply Nat.div_lt_upper_bound; lia.
    + destruct (wr_where W3) as [Q|Q]; [auto|right; lia].
    + rewrite (ev_special Ev4 (holds_lt (wr_holds W3))). apply (wr_plain W3).
    + eapply evolves_trans; [exact (wr_evolves W1)| |].
      { eapply evolves_trans; [exact (wr_evolves W2)| |].
        - eapply evolves_trans; [exact Ev3|exact Ev4|]. intros q _ Q. exact Q.
        - intros q _ Q. exact Q. }
      intros q Hq [Q|[Q|[Q|[->|(k & Hk' & Q)]]]].
      * right. exists 0. split; [lia|auto].
      * right. exists 1. split; [lia|]. now rewrite <- E1a.
      * auto.
      * destruct (wr_where W3) as [Q|Q]; [auto|lia].
      * right. unfold scratch_range in Hk'. exists k. split; [lia|]. unfold arr2, arr1 in Q. rewrite !sset_other in Q by lia. exact Q.
Qed.

(** The derivative of the convolution of zero-padded inputs, entry by entry. *)
Definition dconvolution (xr xc sx sy px py : nat) (x dx k dk : mat) : mat :=
  Mat (conv_out (mr x) px (mr k) sx * xr) (conv_out (mc x) py (mc k) sy * xc) (fun s t =>
    let i := s / xr in let j := t / xc in let u := s mod xr in let w := t mod xc in
    sum_n (mr k) (fun a => sum_n (mc k) (fun b =>
      nadd (nmul (mf (padded x px py) (i * sx + a) (j * sy + b)) (mf dk (a * xr + u) (b * xc + w)))
           (nmul (mf (padded dx (px * xr) (py * xc)) ((i * sx + a) * xr + u) ((j * sy + b) * xc + w)) (mf k a b))))).

Lemma dconv_of_clean xr xc sx sy vp vdp vx vdx vk vdk px py : 0 < xr -> 0 < xc -> 0 < sx -> 0 < sy ->
  mr vk <= mr vx + 2 * px -> mc vk <= mc vx + 2 * py -> mr vdx = mr vx * xr -> mc vdx = mc vx * xc ->
  meq vp (padded vx px py) -> meq vdp (padded vdx (px * xr) (py * xc)) ->
  meq (dconv_of xr xc sx sy vp vdp vk vdk (conv_out (mr vx) px (mr vk) sx) (conv_out (mc vx) py (mc vk) sy))
      (dconvolution xr xc sx sy px py vx vdx vk vdk).
Proof.
  intros Pxr Pxc Psx Psy Hr Hc Dx1 Dx2 (D1 & D2 & V) (D3 & D4 & V'). split; [reflexivity|]. split; [reflexivity|].
  cbn [dconv_of dconvolution mf mr mc]. intros s t Hs Ht.
  apply sum_n_ext. intros a Ha. apply sum_n_ext. intros b Hb.
  assert (Hi : s / xr < conv_out (mr vx) px (mr vk) sx) by (apply Nat.div_lt_upper_bound; lia).
  assert (Hj : t / xc < conv_out (mc vx) py (mc vk) sy) by (apply Nat.div_lt_upper_bound; lia).
  pose proof (conv_bound Psx Hr Hi). pose proof (conv_bound Psy Hc Hj).
  pose proof (Nat.mod_upper_bound s xr ltac:(lia)). pose proof (Nat.mod_upper_bound t xc ltac:(lia)).
  cbn [padded mr mc] in D1, D2, D3, D4. rewrite Dx1 in D3. rewrite Dx2 in D4.
  f_equal; f_equal; [apply V|apply V'].
  - rewrite D1. lia.
  - rewrite D2. lia.
  - rewrite D3. assert (s / xr * sx + a + 1 <= mr vx + 2 * px) by lia. nia.
  - rewrite D4. assert (t / xc * sy + b + 1 <= mc vx + 2 * py) by lia. nia.
Qed.
End Derv.
