(** * Convolutions: histories, calculus, reverse mode *)
From Coq Require Import List Arith Bool Lia Ring ZArith.
From Verif Require Import Num MatMem Kernels KernelFacts KernelProofs KernelBlocks KernelMore Registry KernelStep Backend Slots Exec Sums Conv ConvProofs ConvDerv.
Import ListNotations.
Set Implicit Arguments.
Unset Strict Implicit.

Section Hist.
Context {T : Type} {N : Num T}.
Notation mem := (mem T).
Notation mat := (mat T).
Hypothesis L : NumLaws N.
Variable S : sched T.
Hypothesis VS : valid_sched S.
Variable B : backend (T := T).
Hypothesis BV : value_ok B.
Hypothesis BK : kron_zeroed_ok B.
Implicit Types (m : mem).

(** Input rows, input columns, row padding, column padding of a call. *)
Definition shape : Type := (nat * nat * nat * nat)%type.
(** The padding buffer left by the previous call does not disturb the next one: same input
    size and padding, or no padding, or a different number of padded elements. *)
Definition fits (last : option shape) (R C px py : nat) : Prop :=
  match last with
  | None => True
  | Some (R', C', px', py') => (R', C', px', py') = (R, C, px, py) \/ (px = 0 /\ py = 0) \/ (R' + 2 * px') * (C' + 2 * py') <> (R + 2 * px) * (C + 2 * py)
  end.
(** A legal call: operands hold matrices, none of the arguments is the handler's scratch
    memory, positive strides, kernel not larger than the padded input. *)
Record conv_call m (arr : scratch) (sx sy px py : nat) (lhs rhs : ptr) (result : option ptr) (vx vk : mat) : Prop := {
  cc_l : holds m lhs vx;
  cc_r : holds m rhs vk;
  cc_sl : forall k, arr k <> Some lhs;
  cc_sr : forall k, arr k <> Some rhs;
  cc_res : result_ok m arr [lhs; rhs] result;
  cc_sx : 0 < sx;
  cc_sy : 0 < sy;
  cc_rows : mr vk <= mr vx + 2 * px;
  cc_cols : mc vk <= mc vx + 2 * py
}.
(** Any sequence of convolutions and other computations that leave the scratch memory alone. *)
Inductive conv_hist : mem -> scratch -> option shape -> Prop :=
| ch_start m : tame m -> conv_hist m (fun _ => None) None
| ch_other m m' arr last : conv_hist m arr last -> evolves (fun q => forall k, arr k <> Some q) m m' -> conv_hist m' arr last
| ch_call m arr last sx sy px py lhs rhs result vx vk r arr' m' :
    conv_hist m arr last -> conv_call m arr sx sy px py lhs rhs result vx vk -> fits last (mr vx) (mc vx) px py ->
    MatConvNaive S B sx sy px py lhs rhs arr result m = Ok ((r, arr'), m') ->
    conv_hist m' arr' (Some (mr vx, mc vx, px, py)).

Definition last_ok m (arr : scratch) (last : option shape) : Prop :=
  match last with
  | None => arr 0 = None
  | Some (R, C, px, py) => exists p0 vx, arr 0 = Some p0 /\ mr vx = R /\ mc vx = C /\ holds m p0 (padded vx px py)
  end.
Lemma slots_other m m' (arr : scratch) : slots m arr (fun _ => False) -> evolves (fun q => forall k, arr k <> Some q) m m' ->
  slots m' arr (fun _ => False) /\ forall k p v, arr k = Some p -> holds m p v -> holds m' p v.
Proof.
  intros Sl Ev. split.
  - constructor.
    + apply Ev.
    + intros k p E. destruct (sl_slot Sl E) as ((o & Ho) & Ns & _). pose proof (get_lt Ho) as Lt.
      split; [exists o; rewrite (ev_frame Ev Lt); auto; intros Q; exact (Q k E)|]. split; [rewrite (ev_special Ev Lt); auto|auto].
    + apply (sl_inj Sl).
    + intros q [].
  - intros k p v E H. eapply holds_evolves; eauto.
Qed.
Lemma fits_clean m arr last (vx : mat) px py : last_ok m arr last -> fits last (mr vx) (mc vx) px py -> clean_pad m (arr 0) (mr vx) (mc vx) px py.
Proof.
  destruct last as [[[[R C] qx] qy]|]; simpl.
  - intros (p0 & v & -> & <- & <- & H) [[= Q1 Q2 Q3 Q4]|[[-> ->]|D]].
    + subst qx qy. rewrite <- Q1, <- Q2. now apply clean_again.
    + apply clean_nopad.
    + apply clean_other_size; [exact (holds_get H)|]. destruct H as ((k & sp & b & G & _) & _). unfold num_elem. rewrite G. exact D.
  - intros -> _. apply clean_null.
Qed.
Lemma call_slots m (arr : scratch) l : slots m arr (fun _ => False) -> (forall q, In q l -> (exists o, get m q = Some o) /\ forall k, arr k <> Some q) ->
  slots m arr (fun q => In q l).
Proof.
  intros Sl H. constructor.
  - apply Sl.
  - intros k p E. destruct (sl_slot Sl E) as (A1 & A2 & _). split; [auto|]. split; auto. intros Q. exact (proj2 (H _ Q) k E).
  - apply (sl_inj Sl).
  - intros q Q. exact (proj1 (H _ Q)).
Qed.

Lemma conv_call_ok m arr last sx sy px py lhs rhs result vx vk :
  slots m arr (fun _ => False) -> last_ok m arr last ->
  conv_call m arr sx sy px py lhs rhs result vx vk -> fits last (mr vx) (mc vx) px py ->
  exists r arr' m', MatConvNaive S B sx sy px py lhs rhs arr result m = Ok ((r, arr'), m') /\
    holds m' r (convolution sx sy px py vx vk) /\ (result = Some r \/ length (objs m) <= r) /\
    (forall q, q < length (objs m) -> result <> Some q -> (forall k, arr k <> Some q) -> get m' q = get m q) /\
    slots m' arr' (fun _ => False) /\ last_ok m' arr' (Some (mr vx, mc vx, px, py)).
Proof.
  intros Sl La [Hl Hr Sl1 Sr1 Hres Psx Psy Br Bc] Hf.
  pose proof (fits_clean La Hf) as Cl.
  assert (SlX : slots m arr (fun q => In q [lhs; rhs])).
  { apply call_slots; auto. simpl. intros q [<-|[<-|[]]]; split; eauto using holds_get. }
  destruct (@conv_naive_ok T N L S VS B BV BK m arr _ sx sy px py lhs rhs result vx vk SlX (or_introl eq_refl) (or_intror (or_introl eq_refl)) Hl Hr Hres Psx Psy Br Bc)
    as (r & arr' & m' & p0 & E & Hh & Sl' & Wh & Ns & E0 & H0 & Ev).
  exists r, arr', m'. split; [exact E|]. split; [|split; [exact Wh|split; [|split]]].
  - eapply holds_meq; [exact Hh|]. apply conv_of_clean; auto. now apply pad_clean.
  - intros q Lq Nr Na. apply (ev_frame Ev Lq). intros [Q|(k & _ & Q)]; [auto|exact (Na k Q)].
  - eapply slots_weaken; [exact Sl'|]. intros q [].
  - exists p0, vx. split; [exact E0|]. split; [auto|]. split; [auto|]. eapply holds_meq; [exact H0|]. now apply pad_clean.
Qed.

Lemma hist_inv m arr last : conv_hist m arr last -> slots m arr (fun _ => False) /\ last_ok m arr last.
Proof.
  induction 1 as [m Tm|m m' arr last H [Sl La] Ev|m arr last sx sy px py lhs rhs result vx vk r arr' m' H [Sl La] Cc Hf E].
  - split; [|reflexivity]. constructor; auto; try discriminate. intros q [].
  - destruct (slots_other Sl Ev) as [Sl' Kp]. split; [exact Sl'|]. destruct last as [[[[R C] px] py]|]; [|exact La].
    destruct La as (p0 & vx & E0 & E1 & E2 & H0). exists p0, vx. split; [auto|]. split; [auto|]. split; [auto|]. eapply Kp; eauto.
  - destruct (conv_call_ok Sl La Cc Hf) as (r1 & a1 & m1 & E1 & _ & _ & _ & Sl' & La').
    rewrite E in E1. injection E1 as <- <- <-. split; auto.
Qed.

Theorem conv_history_ok m arr last sx sy px py lhs rhs result vx vk :
  conv_hist m arr last -> conv_call m arr sx sy px py lhs rhs result vx vk -> fits last (mr vx) (mc vx) px py ->
  exists r arr' m', MatConvNaive S B sx sy px py lhs rhs arr result m = Ok ((r, arr'), m') /\
    holds m' r (convolution sx sy px py vx vk) /\ (result = Some r \/ length (objs m) <= r) /\
    (forall q, q < length (objs m) -> result <> Some q -> (forall k, arr k <> Some q) -> get m' q = get m q) /\
    conv_hist m' arr' (Some (mr vx, mc vx, px, py)).
Proof.
  intros H Cc Hf. destruct (hist_inv H) as [Sl La].
  destruct (conv_call_ok Sl La Cc Hf) as (r & arr' & m' & E & Hh & Wh & Fr & _ & _).
  exists r, arr', m'. split; [exact E|]. split; [exact Hh|]. split; [exact Wh|]. split; [exact Fr|]. eapply ch_call; eauto.
Qed.

(** ** The same for the derivative *)
(** Input and derivative sizes of a call: R, C, px, py, xr, xc. *)
Definition dshape : Type := (shape * nat * nat)%type.
Definition dfits (last : option dshape) (R C px py xr xc : nat) : Prop :=
  match last with
  | None => True
  | Some (R', C', px', py', xr', xc') =>
      (R', C', px', py', xr', xc') = (R, C, px, py, xr, xc) \/ (px = 0 /\ py = 0) \/
      ((R' + 2 * px') * (C' + 2 * py') <> (R + 2 * px) * (C + 2 * py) /\
       (R' * xr' + 2 * (px' * xr')) * (C' * xc' + 2 * (py' * xc')) <> (R * xr + 2 * (px * xr)) * (C * xc + 2 * (py * xc)))
  end.
Record dconv_call m (arr : scratch) (xr xc sx sy px py : nat) (lhs dlhs rhs drhs : ptr) (result : option ptr) (vx vdx vk vdk : mat) : Prop := {
  dc_l : holds m lhs vx;
  dc_dl : holds m dlhs vdx;
  dc_r : holds m rhs vk;
  dc_dr : holds m drhs vdk;
  dc_s : forall q k, In q [lhs; dlhs; rhs; drhs] -> arr k <> Some q;
  dc_res : result_ok m arr [lhs; dlhs; rhs; drhs] result;
  dc_xr : 0 < xr;
  dc_xc : 0 < xc;
  dc_dk : mr vdk = mr vk * xr /\ mc vdk = mc vk * xc;
  dc_dx : mr vdx = mr vx * xr /\ mc vdx = mc vx * xc;
  dc_sx : 0 < sx;
  dc_sy : 0 < sy;
  dc_rows : mr vk <= mr vx + 2 * px;
  dc_cols : mc vk <= mc vx + 2 * py
}.
Inductive dconv_hist : mem -> scratch -> option dshape -> Prop :=
| dh_start m : tame m -> dconv_hist m (fun _ => None) None
| dh_other m m' arr last : dconv_hist m arr last -> evolves (fun q => forall k, arr k <> Some q) m m' -> dconv_hist m' arr last
| dh_call m arr last xr xc sx sy px py lhs dlhs rhs drhs result vx vdx vk vdk r arr' m' :
    dconv_hist m arr last -> dconv_call m arr xr xc sx sy px py lhs dlhs rhs drhs result vx vdx vk vdk ->
    dfits last (mr vx) (mc vx) px py xr xc ->
    MatDervConvNaive S B xr xc sx sy px py lhs dlhs rhs drhs arr result m = Ok ((r, arr'), m') ->
    dconv_hist m' arr' (Some (mr vx, mc vx, px, py, xr, xc)).
Definition dlast_ok m (arr : scratch) (last : option dshape) : Prop :=
  match last with
  | None => arr 0 = None /\ arr 1 = None
  | Some (R, C, px, py, xr, xc) => exists p0 p1 vx vdx, arr 0 = Some p0 /\ arr 1 = Some p1 /\ mr vx = R /\ mc vx = C /\
      mr vdx = R * xr /\ mc vdx = C * xc /\ holds m p0 (padded vdx (px * xr) (py * xc)) /\ holds m p1 (padded vx px py)
  end.
Lemma dfits_clean m arr last (vx vdx : mat) px py xr xc : dlast_ok m arr last -> dfits last (mr vx) (mc vx) px py xr xc ->
  mr vdx = mr vx * xr -> mc vdx = mc vx * xc ->
  clean_pad m (arr 1) (mr vx) (mc vx) px py /\ clean_pad m (arr 0) (mr vdx) (mc vdx) (px * xr) (py * xc).
Proof.
  destruct last as [[[[[[R C] qx] qy] rr] rc]|]; simpl.
  - intros (p0 & p1 & v & dv & -> & -> & <- & <- & D1 & D2 & H0 & H1) [[= Q1 Q2 Q3 Q4 Q5 Q6]|[[-> ->]|[N1 N2]]] Dx1 Dx2.
    + subst qx qy rr rc. split; [rewrite <- Q1, <- Q2; now apply clean_again|].
      rewrite Dx1, Dx2, <- Q1, <- Q2, <- D1, <- D2. now apply clean_again.
    + split; apply clean_nopad.
    + split; apply clean_other_size.
      * exact (holds_get H1).
      * destruct H1 as ((k & sp & b & G & _) & _). unfold num_elem. rewrite G. exact N1.
      * exact (holds_get H0).
      * destruct H0 as ((k & sp & b & G & _) & _). unfold num_elem. rewrite G. cbn [o_rows o_cols padded mr mc]. rewrite Dx1, Dx2, D1, D2. exact N2.
  - intros [-> ->] _ _ _. split; apply clean_null.
Qed.
Lemma dconv_call_ok m arr last xr xc sx sy px py lhs dlhs rhs drhs result vx vdx vk vdk :
  slots m arr (fun _ => False) -> dlast_ok m arr last ->
  dconv_call m arr xr xc sx sy px py lhs dlhs rhs drhs result vx vdx vk vdk -> dfits last (mr vx) (mc vx) px py xr xc ->
  exists r arr' m', MatDervConvNaive S B xr xc sx sy px py lhs dlhs rhs drhs arr result m = Ok ((r, arr'), m') /\
    holds m' r (dconvolution xr xc sx sy px py vx vdx vk vdk) /\ (result = Some r \/ length (objs m) <= r) /\
    (forall q, q < length (objs m) -> result <> Some q -> (forall k, arr k <> Some q) -> get m' q = get m q) /\
    slots m' arr' (fun _ => False) /\ dlast_ok m' arr' (Some (mr vx, mc vx, px, py, xr, xc)).
Proof.
  intros Sl La [Hl Hdl Hr Hdr Sa Hres Pxr Pxc [Dk1 Dk2] [Dx1 Dx2] Psx Psy Br Bc] Hf.
  destruct (dfits_clean La Hf Dx1 Dx2) as [Cl1 Cl0].
  assert (SlX : slots m arr (fun q => In q [lhs; dlhs; rhs; drhs])).
  { apply call_slots; auto. intros q Hq. split; [|intros k; now apply Sa]. simpl in Hq. destruct Hq as [<-|[<-|[<-|[<-|[]]]]]; eauto using holds_get. }
  destruct (@derv_conv_ok T N L S VS B BV BK m arr _ xr xc sx sy px py lhs dlhs rhs drhs result vx vdx vk vdk SlX) as (r & arr' & m' & p0 & p1 & E & Hh & Sl' & Wh & Ns & E0 & H0 & E1 & H1 & Ev); simpl; auto.
  exists r, arr', m'. split; [exact E|]. split; [|split; [exact Wh|split; [|split]]].
  - eapply holds_meq; [exact Hh|]. apply dconv_of_clean; auto using pad_clean.
  - intros q Lq Nr Na. apply (ev_frame Ev Lq). intros [Q|(k & _ & Q)]; [auto|exact (Na k Q)].
  - eapply slots_weaken; [exact Sl'|]. intros q [].
  - exists p0, p1, vx, vdx. do 6 (split; [auto|]). split; (eapply holds_meq; [eassumption|]); now apply pad_clean.
Qed.
Lemma dhist_inv m arr last : dconv_hist m arr last -> slots m arr (fun _ => False) /\ dlast_ok m arr last.
Proof.
  induction 1 as [m Tm|m m' arr last H [Sl La] Ev|m arr last xr xc sx sy px py lhs dlhs rhs drhs result vx vdx vk vdk r arr' m' H [Sl La] Cc Hf E].
  - split; [|split; reflexivity]. constructor; auto; try discriminate. intros q [].
  - destruct (slots_other Sl Ev) as [Sl' Kp]. split; [exact Sl'|]. destruct last as [[[[[[R C] px] py] xr] xc]|]; [|exact La].
    destruct La as (p0 & p1 & vx & vdx & E0 & E1 & A1 & A2 & A3 & A4 & H0 & H1). exists p0, p1, vx, vdx. do 6 (split; [auto|]). split; eapply Kp; eauto.
  - destruct (dconv_call_ok Sl La Cc Hf) as (r1 & a1 & m1 & E1 & _ & _ & _ & Sl' & La').
    rewrite E in E1. injection E1 as <- <- <-. split; auto.
Qed.
Theorem dconv_history_ok m arr last xr xc sx sy px py lhs dlhs rhs drhs result vx vdx vk vdk :
  dconv_hist m arr last -> dconv_call m arr xr xc sx sy px py lhs dlhs rhs drhs result vx vdx vk vdk -> dfits last (mr vx) (mc vx) px py xr xc ->
  exists r arr' m', MatDervConvNaive S B xr xc sx sy px py lhs dlhs rhs drhs arr result m = Ok ((r, arr'), m') /\
    holds m' r (dconvolution xr xc sx sy px py vx vdx vk vdk) /\ (result = Some r \/ length (objs m) <= r) /\
    (forall q, q < length (objs m) -> result <> Some q -> (forall k, arr k <> Some q) -> get m' q = get m q) /\
    dconv_hist m' arr' (Some (mr vx, mc vx, px, py, xr, xc)).
Proof.
  intros H Cc Hf. destruct (dhist_inv H) as [Sl La].
  destruct (dconv_call_ok Sl La Cc Hf) as (r & arr' & m' & E & Hh & Wh & Fr & _ & _).
  exists r, arr', m'. split; [exact E|]. split; [exact Hh|]. split; [exact Wh|]. split; [exact Fr|]. eapply dh_call; eauto.
Qed.
End Hist.
