(** * What a matrix with several items denotes *)
From Coq Require Import List Arith Bool Lia.
From Verif Require Import Num MatMem Kernels KernelFacts Registry KernelStep Backend Square Exec KernelProofs Sums MatEngine MatGraph MatLeaf MatEval MatDeval MatSpec MatRec MatRecSim MatRecOk.
Import ListNotations.
Set Implicit Arguments.
Unset Strict Implicit.
Local Open Scope nat_scope.

(** ** Specification
    F = e0; F = e1; F = e2; ...: in e1 the name F stands for the value that F got from e0, in e2 for the value
    that it got from e1, and so on. *)
Section Spec.
Context {T : Type} {N : Num T}.
Variable G : graph T.
Variable F : obj.
(** The program in which F is an ordinary matrix, with given entries and given derivatives. *)
Definition as_leaf : graph T :=
  Graph (fun o => if o =? F then LEnt else g_kind G o) (g_rows G) (g_cols G) (g_nidx G) (g_vid G).
Definition with_value (rho : env T) (V : nat -> nat -> T) : env T :=
  Env (fun o n => if o =? F then V (n / g_cols G F) (n mod g_cols G F) else e_val rho o n) (e_der rho).
Definition with_deriv (rho : env T) (V : nat -> nat -> T) (x : obj) (D : nat -> nat -> nat -> nat -> T) : env T :=
  Env (e_val (with_value rho V))
    (fun o n z m => if o =? F then D (n / g_cols G F) (n mod g_cols G F) (m / g_cols G x) (m mod g_cols G x) else e_der rho o n z m).
Variable rho : env T.
Inductive assigned : list (nat * mexp T * obj) -> (nat -> nat -> T) -> (nat -> nat -> T) -> Prop :=
| as_nil V : assigned [] V V
| as_cons id a y l V V' X : den as_leaf (with_value rho V) a V' -> assigned l V' X -> assigned ((id, a, y) :: l) V X.
Variable x : obj.
Inductive assigned_dif : list (nat * mexp T * obj) -> (nat -> nat -> T) -> (nat -> nat -> nat -> nat -> T) -> (nat -> nat -> nat -> nat -> T) -> Prop :=
| asd_nil V D : assigned_dif [] V D D
| asd_cons id a y l V D V' D' X : dif as_leaf (with_deriv rho V x D) x a V' D' -> assigned_dif l V' D' X -> assigned_dif ((id, a, y) :: l) V D X.
End Spec.

Lemma entry_at (T : Type) i j c (V : nat -> nat -> T) : j < c -> V ((i * c + j) / c) ((i * c + j) mod c) = V i j.
Proof. intros H. f_equal; [rewrite Nat.div_add_l by lia; rewrite (Nat.div_small j c H); lia|rewrite Nat.add_comm, Nat.mod_add by lia; now apply Nat.mod_small]. Qed.
(** ** The chain computes it *)
Section Bridge.
Context {T : Type} {N : Num T}.
Variable G : graph T.
Variable host : nat -> option obj.
Variable rank : obj -> nat.
Variable F : obj.
Variable ms : list (nat * mexp T * obj).
Variable bnd : nat.
Variable id0 : nat.
Variable a0 : mexp T.
Variable y0 : obj.
Hypothesis W : rec_wf G host rank F ms bnd id0 a0 y0.
Notation part := (part F bnd).
Notation sub := (MatRecSim.sub (T := T) F).
Notation G' := (chain G F ms bnd).
Notation n := (length ms).
Notation clean := (clean rank F bnd).
Let HF : F < bnd := rw_bnd W.

Definition over (a : mexp T) : Prop := forall o, In o (leaves a) -> o = F \/ clean o.
Lemma over_bnd a : over a -> forall o, In o (leaves a) -> o < bnd.
Proof. intros H o Ho. destruct (H o Ho) as [->|[C _]]; auto. Qed.
Lemma over_bin k id l r : over (MBin k id l r) -> over l /\ over r.
Proof. intros H. split; intros o Ho; apply H; simpl; apply in_or_app; auto. Qed.
Lemma over_exp o id e y : clean o -> g_kind G o = KExp id e y -> over e /\ ~ In F (leaves e).
Proof.
  intros C Hk. assert (Q : forall o', In o' (leaves e) -> clean o') by (intros o' Ho'; eapply (clean_closed W C Hk); now apply in_item).
  split; [intros o' Ho'; right; auto|]. intros H. destruct (Q F H) as [_ H']. lia.
Qed.
Section Fits.
Variable k : nat.
Hypothesis Hk : k <= n.
Lemma sub_dims a : over a -> rows G' (sub (part k) a) = rows G a /\ cols G' (sub (part k) a) = cols G a.
Proof. intros H. apply (rows_sub G HF Hk). now apply over_bnd. Qed.
Lemma fits_sub a : fits G a -> over a -> (In F (leaves a) -> fits G' (MLeaf (part k))) -> fits G' (sub (part k) a).
Proof.
  induction 1 as [o Hl|o id e y Ek Hf IH|id l r Hl IHl Hr IHr E|q id l r Nk Hl IHl Hr IHr E1 E2|q id e He IH Hu]; intros Ho HP.
  - cbn [MatRecSim.sub]. destruct (Nat.eqb_spec o F) as [->|Ne]; [apply HP; simpl; auto|].
    apply fits_leaf. destruct (Ho o (or_introl eq_refl)) as [|[C _]]; [tauto|]. unfold is_leaf. now rewrite (kind_old G F ms C).
  - cbn [MatRecSim.sub]. destruct (Nat.eqb_spec o F) as [->|Ne]; [apply HP; simpl; auto|].
    destruct (Ho o (or_introl eq_refl)) as [|C]; [tauto|]. destruct (over_exp C Ek) as [Oe Ne']. apply (@fits_exp T G' o id e y).
    + rewrite (kind_old G F ms (proj1 C)). exact Ek.
    + rewrite <- (@sub_same T F (part k) e Ne'). apply IH; [exact Oe|tauto].
  - destruct (over_bin Ho) as [Ol Or]. cbn [MatRecSim.sub]. apply fits_prod.
    + apply IHl; [exact Ol|intros; apply HP; simpl; apply in_or_app; auto].
    + apply IHr; [exact Or|intros; apply HP; simpl; apply in_or_app; auto].
    + destruct (sub_dims Ol) as [_ ->], (sub_dims Or) as [-> _]. exact E.
  - destruct (over_bin Ho) as [Ol Or]. cbn [MatRecSim.sub]. destruct (sub_dims Ol) as [A1 A2], (sub_dims Or) as [B1 B2]. apply fits_zip; [exact Nk| | |congruence|congruence].
    + apply IHl; [exact Ol|intros; apply HP; simpl; apply in_or_app; auto].
    + apply IHr; [exact Or|intros; apply HP; simpl; apply in_or_app; auto].
  - assert (Oe : over e) by exact Ho. cbn [MatRecSim.sub]. apply fits_un; [apply IH; auto|]. destruct (sub_dims Oe) as [A1 A2].
    assert (Sc : forall s vs, scalar_ok G s vs -> scalar_ok G' s vs).
    { assert (Old : forall o, g_kind G o <> LConst -> o < bnd).
      { intros o H. destruct (Nat.lt_ge_cases o bnd) as [Q|Q]; [exact Q|]. now rewrite (rw_new W Q) in H. }
      intros s vs (Q1 & Q2 & Q3). split; [rewrite (kind_old G F ms); [exact Q1|apply Old; congruence]|]. split; [exact Q2|]. intros v Hv. destruct (Q3 v Hv) as (P1 & P2 & P3).
      assert (v < bnd) by (apply Old; congruence). rewrite (kind_old G F ms), (rows_old G F ms), (cols_old G F ms) by assumption. auto. }
    destruct q; simpl in *; auto; congruence.
Qed.
End Fits.
Hypothesis Fit0 : fits G (MLeaf F).
Hypothesis Fit : forall id a y, In (id, a, y) ms -> fits G a.
Lemma over_ms id a y : In (id, a, y) ms -> over a.
Proof. intros H o Ho. eapply (rw_leaves W H). now apply in_item. Qed.
Lemma over_0 : over a0 /\ ~ In F (leaves a0).
Proof.
  assert (Q : forall o, In o (leaves a0) -> clean o) by (intros o Ho; apply (leaf0 W); now apply in_item).
  split; [intros o Ho; right; auto|]. intros H. destruct (Q F H) as [_ H']. lia.
Qed.
Theorem chain_fits : forall k, k <= n -> fits G' (MLeaf (part k)).
Proof.
  induction k as [|k IH]; intros Hk.
  - assert (FitA : fits G a0).
    { inversion Fit0 as [o Hl|o id e y Ek Hf| | |]; subst; [unfold is_leaf in Hl; rewrite (rw_F W) in Hl; tauto|]. rewrite (rw_F W) in Ek. injection Ek as <- <- <-. exact Hf. }
    apply (@fits_exp T G' F id0 a0 y0); [rewrite (kind_old G F ms HF); apply (rw_F W)|].
    destruct over_0 as [O Ne]. rewrite <- (@sub_same T F (part 0) a0 Ne). apply fits_sub; [lia|exact FitA|exact O|tauto].
  - destruct (nth_error ms k) as [[[id a] y]|] eqn:E; [|apply nth_error_None in E; lia].
    apply (@fits_exp T G' _ id (sub (part k) a) y); [apply (kind_part G F bnd E)|]. pose proof (nth_error_In _ _ E) as Hin.
    apply fits_sub; [lia|eapply Fit; eauto|eapply over_ms; eauto|intros _; apply IH; lia].
Qed.

Definition agree (R C : nat) (V V' : nat -> nat -> T) : Prop := forall i j, i < R -> j < C -> V i j = V' i j.
Lemma agree_major m V V' : agree m m V V' -> row_major m V = row_major m V'.
Proof.
  intros H. unfold row_major. apply map_ext_in. intros k Hk. apply in_seq in Hk. destruct m as [|m]; [simpl in Hk; lia|].
  apply H; [apply Nat.div_lt_upper_bound; lia|apply Nat.mod_upper_bound; lia].
Qed.

(** Any program GX with matrices of the same kinds, and in which F stands for the same values as part k. *)
Section Same.
Variable k : nat.
Hypothesis Hk : k <= n.
Variable GX : graph T.
Variable rho rhoX : env T.
Hypothesis KX : forall o, clean o -> g_kind GX o = g_kind G o.
Hypothesis RX : g_rows GX = g_rows G.
Hypothesis CX : g_cols GX = g_cols G.
Hypothesis VX : forall o i, o <> F -> e_val rhoX o i = e_val rho o i.
Lemma dims_X a : rows GX a = rows G a /\ cols GX a = cols G a.
Proof.
  induction a as [o|q id l [IHl1 IHl2] r [IHr1 IHr2]|u id a [IH1 IH2]]; cbn [rows cols]; [now rewrite RX, CX|auto|destruct u; auto].
Qed.
Lemma scal_ne e u id : fits G (MUn u id e) -> match u with USProdE s _ | USSumE s _ => s <> F | _ => True end.
Proof.
  intros H. inversion H as [| | | |? ? ? _ Hu]; subst. destruct u; simpl in Hu; auto; destruct Hu as (Q & _); intros ->; rewrite (rw_F W) in Q; discriminate.
Qed.
Lemma den_bridge a : fits G a -> over a ->
  (In F (leaves a) -> exists V V', den GX rhoX (MLeaf F) V /\ den G' rho (MLeaf (part k)) V' /\ agree (g_rows G F) (g_cols G F) V V') ->
  forall X', den G' rho (sub (part k) a) X' -> exists X, den GX rhoX a X /\ agree (rows G a) (cols G a) X X'.
Proof.
  intros Hfa. pose proof Hfa as Hfa'. revert Hfa'.
  induction Hfa as [o Hl|o id e y Ek Hf IH|id l r Hl IHl Hr IHr E|q id l r Nk Hl IHl Hr IHr E1 E2|q id e He IH Hu]; intros Hfa Ho HP X' HX.
  - cbn [MatRecSim.sub] in HX. destruct (Nat.eqb_spec o F) as [->|Ne].
    { destruct (HP (or_introl eq_refl)) as (V & V' & H1 & H2 & H3). rewrite (den_det HX H2). exists V. auto. }
    destruct (Ho o (or_introl eq_refl)) as [|C]; [tauto|]. inversion HX; subst.
    + exists (fun i j => if i =? j then n1 else n0). split; [|intros i j _ _; reflexivity]. apply den_eye. rewrite KX by exact C. match goal with Q : g_kind G' o = LEye |- _ => now rewrite (kind_old G F ms (proj1 C)) in Q end.
    + exists (fun i j => e_val rhoX o (i * g_cols GX o + j)). split; [|intros i j _ _; rewrite VX, CX, (cols_old G F ms (proj1 C)) by exact Ne; reflexivity].
      apply den_leaf; [unfold is_leaf; rewrite KX by exact C; exact Hl|]. rewrite KX by exact C. match goal with Q : g_kind G' o <> LEye |- _ => now rewrite (kind_old G F ms (proj1 C)) in Q end.
    + match goal with Q : g_kind G' o = KExp _ _ _ |- _ => rewrite (kind_old G F ms (proj1 C)) in Q; unfold is_leaf in Hl; rewrite Q in Hl; tauto end.
  - cbn [MatRecSim.sub] in HX. destruct (Nat.eqb_spec o F) as [->|Ne].
    { destruct (HP (or_introl eq_refl)) as (V & V' & H1 & H2 & H3). rewrite (den_det HX H2). exists V. auto. }
    destruct (Ho o (or_introl eq_refl)) as [|C]; [tauto|]. destruct (over_exp C Ek) as [Oe Ne']. pose proof (kind_old G F ms (proj1 C)) as Kc. rewrite Ek in Kc.
    inversion HX as [? Q|? Q|? ? ? ? ? Q HX'| | | | | | | | | | | |]; subst; [congruence|unfold is_leaf in Q; rewrite Kc in Q; tauto|].
    rewrite Kc in Q. injection Q as <- <- <-. rewrite <- (@sub_same T F (part k) e Ne') in HX'.
    destruct (IH Hf Oe ltac:(tauto) X' HX') as (X & D & A). exists X. split; [eapply den_exp; [rewrite KX by exact C; exact Ek|exact D]|].
    destruct (wf_dims (rw_wf W) Ek) as [D1 D2]. cbn [rows cols]. rewrite D1, D2. exact A.
  - destruct (over_bin Ho) as [Ol Or]. cbn [MatRecSim.sub] in HX. inversion HX; subst.
    match goal with Ql : den G' rho (sub _ l) ?A, Qr : den G' rho (sub _ r) ?C |- _ =>
      destruct (IHl Hl Ol ltac:(intros; apply HP; simpl; apply in_or_app; auto) A Ql) as (X & DX & AX), (IHr Hr Or ltac:(intros; apply HP; simpl; apply in_or_app; auto) C Qr) as (Y & DY & AY) end.
    eexists. split; [eapply den_prod; eauto|]. intros i j Hi Hj. cbv beta. simpl in Hi, Hj. destruct (sub_dims Hk Ol) as [_ ->], (dims_X l) as [_ ->].
    apply sum_n_ext. intros c Hc. rewrite AX, AY; auto. now rewrite <- E.
  - destruct (over_bin Ho) as [Ol Or]. cbn [MatRecSim.sub] in HX. destruct q; [| |congruence|]; inversion HX; subst;
    (match goal with Ql : den G' rho (sub _ l) ?A, Qr : den G' rho (sub _ r) ?C |- _ =>
      destruct (IHl Hl Ol ltac:(intros; apply HP; simpl; apply in_or_app; auto) A Ql) as (X & DX & AX), (IHr Hr Or ltac:(intros; apply HP; simpl; apply in_or_app; auto) C Qr) as (Y & DY & AY) end);
    (eexists; split; [first [eapply den_sum; eauto; fail|eapply den_sub; eauto; fail|eapply den_had; eauto]|]);
    intros i j Hi Hj; cbv beta; cbn [MatEngine.rows MatEngine.cols] in Hi, Hj; (rewrite (AX i j) by (first [assumption|rewrite E2; assumption])); (rewrite (AY i j) by (first [assumption|rewrite <- E1; assumption])); reflexivity.
  - assert (Oe : over e) by exact Ho. pose proof (scal_ne Hfa) as Ns. cbn [MatRecSim.sub] in HX. destruct (sub_dims Hk Oe) as [S1 S2]. destruct (dims_X e) as [D1 D2].
    destruct q; inversion HX; subst;
    (match goal with Q : den G' rho (sub _ e) ?A |- _ => destruct (IH He Oe HP A Q) as (X & DX & AX) end).
    + eexists; split; [eapply den_sprode; eauto|]. intros i j Hi Hj. cbv beta. rewrite VX, AX; auto.
    + eexists; split; [eapply den_ssume; eauto|]. intros i j Hi Hj. cbv beta. rewrite VX, AX; auto.
    + eexists; split; [eapply den_tr; eauto|]. intros i j Hi Hj. cbv beta. simpl in Hi, Hj. now rewrite AX.
    + eexists; split; [eapply den_sprod; eauto|]. intros i j Hi Hj. cbv beta. now rewrite AX.
    + eexists; split; [eapply den_ssum; eauto|]. intros i j Hi Hj. cbv beta. now rewrite AX.
    + eexists; split; [eapply den_fun; eauto|]. intros i j Hi Hj. cbv beta. now rewrite AX.
    + simpl in Hu. eexists; split; [eapply den_inv; eauto|]. intros i j Hi Hj. unfold inverse. rewrite D1, S1. rewrite (@agree_major (rows G e) X F0); [reflexivity|]. rewrite <- Hu in AX. exact AX.
    + simpl in Hu. eexists; split; [eapply den_determinant; eauto|]. intros i j Hi Hj. cbv beta. rewrite D1, S1. rewrite (@agree_major (rows G e) X F0); [reflexivity|]. rewrite <- Hu in AX. exact AX.
Qed.

Variable x : obj.
Hypothesis Xv : g_kind G x = LVar.
Hypothesis DX : forall o i m, o <> F -> e_der rhoX o i x m = e_der rho o i x m.
Lemma x_lt : x < bnd.
Proof. destruct (Nat.lt_ge_cases x bnd) as [H|H]; [exact H|]. rewrite (rw_new W H) in Xv. discriminate. Qed.
Definition agree4 (R C : nat) (D D' : nat -> nat -> nat -> nat -> T) : Prop :=
  forall l k i j, l < R -> k < C -> i < g_rows G x -> j < g_cols G x -> D l k i j = D' l k i j.
Lemma dif_bridge a : fits G a -> over a ->
  (In F (leaves a) -> exists V D V' D', dif GX rhoX x (MLeaf F) V D /\ dif G' rho x (MLeaf (part k)) V' D' /\
    agree (g_rows G F) (g_cols G F) V V' /\ agree4 (g_rows G F) (g_cols G F) D D') ->
  exists X D X' D', dif GX rhoX x a X D /\ dif G' rho x (sub (part k) a) X' D' /\ agree (rows G a) (cols G a) X X' /\ agree4 (rows G a) (cols G a) D D'.
Proof.
  intros Hfa. pose proof Hfa as Hfa'. revert Hfa'.
  induction Hfa as [o Hl|o id e y Ek Hf IH|id l r Hl IHl Hr IHr E|q id l r Nk Hl IHl Hr IHr E1 E2|q id e He IH Hu]; intros Hfa Ho HP.
  - cbn [MatRecSim.sub]. destruct (Nat.eqb_spec o F) as [->|Ne]; [apply HP; simpl; auto|].
    destruct (Ho o (or_introl eq_refl)) as [|C]; [tauto|]. pose proof (kind_old G F ms (proj1 C)) as Kc.
    assert (Den' : exists X', den G' rho (MLeaf o) X').
    { assert (g_kind G o = LEye \/ g_kind G o <> LEye) as [Q|Q] by (destruct (g_kind G o); auto; right; discriminate); eexists; [apply den_eye; congruence|apply den_leaf; [unfold is_leaf; rewrite Kc; exact Hl|congruence]]. }
    destruct Den' as (X' & Den').
    destruct (@den_bridge (MLeaf o) Hfa Ho) with (X' := X') as (X2 & DenX2 & AX2).
    { intros [Q|[]]. congruence. }
    { cbn [MatRecSim.sub]. destruct (Nat.eqb_spec o F) as [|_]; [tauto|exact Den']. }
    assert (Kx : g_kind GX o = g_kind G o) by (now apply KX).
    destruct (g_kind G o) eqn:K; try (unfold is_leaf in Hl; rewrite K in Hl; tauto).
    + do 4 eexists. split; [eapply dif_const; [left; exact Kx|exact DenX2]|]. split; [eapply dif_const; [left; congruence|exact Den']|]. split; [exact AX2|intros ? ? ? ? _ _ _ _; reflexivity].
    + do 4 eexists. split; [eapply dif_const; [right; exact Kx|exact DenX2]|]. split; [eapply dif_const; [right; congruence|exact Den']|]. split; [exact AX2|intros ? ? ? ? _ _ _ _; reflexivity].
    + do 4 eexists. split; [eapply dif_var; [exact Kx|exact DenX2]|]. split; [eapply dif_var; [congruence|exact Den']|]. split; [exact AX2|intros ? ? ? ? _ _ _ _; reflexivity].
    + do 4 eexists. split; [eapply dif_ent; [exact Kx|exact DenX2]|]. split; [eapply dif_ent; [congruence|exact Den']|]. split; [exact AX2|].
      intros l0 k0 i j _ _ _ _. cbv beta. rewrite DX, CX, (cols_old G F ms (proj1 C)), (cols_old G F ms x_lt) by exact Ne. reflexivity.
  - cbn [MatRecSim.sub]. destruct (Nat.eqb_spec o F) as [->|Ne]; [apply HP; simpl; auto|].
    destruct (Ho o (or_introl eq_refl)) as [|C]; [tauto|]. destruct (over_exp C Ek) as [Oe Ne']. pose proof (kind_old G F ms (proj1 C)) as Kc. rewrite Ek in Kc.
    destruct (IH Hf Oe ltac:(tauto)) as (X & D & X' & D' & H1 & H2 & H3 & H4). rewrite (@sub_same T F (part k) e Ne') in H2.
    exists X, D, X', D'. destruct (wf_dims (rw_wf W) Ek) as [D1 D2]. split; [eapply dif_exp; [rewrite KX by exact C; exact Ek|exact H1]|]. split; [eapply dif_exp; [exact Kc|exact H2]|].
    cbn [rows cols]. rewrite D1, D2. auto.
  - destruct (over_bin Ho) as [Ol Or]. cbn [MatRecSim.sub].
    destruct (IHl Hl Ol ltac:(intros; apply HP; simpl; apply in_or_app; auto)) as (X & D & X' & D' & H1 & H2 & H3 & H4).
    destruct (IHr Hr Or ltac:(intros; apply HP; simpl; apply in_or_app; auto)) as (Y & Dy & Y' & Dy' & L1 & L2 & L3 & L4).
    do 4 eexists. split; [eapply dif_prod; [exact H1|exact L1]|]. split; [eapply dif_prod; [exact H2|exact L2]|].
    destruct (sub_dims Hk Ol) as [_ Q1], (dims_X l) as [_ Q2]. rewrite Q1, Q2. cbn [MatEngine.rows MatEngine.cols].
    split; [intros i j Hi Hj|intros l0 k0 i j Hl0 Hk0 Hi Hj]; cbv beta; apply sum_n_ext; intros c Hc; assert (c < rows G r) by lia.
    + now rewrite H3, L3.
    + now rewrite H3, L3, H4, L4.
  - destruct (over_bin Ho) as [Ol Or]. cbn [MatRecSim.sub].
    destruct (IHl Hl Ol ltac:(intros; apply HP; simpl; apply in_or_app; auto)) as (X & D & X' & D' & H1 & H2 & H3 & H4).
    destruct (IHr Hr Or ltac:(intros; apply HP; simpl; apply in_or_app; auto)) as (Y & Dy & Y' & Dy' & L1 & L2 & L3 & L4).
    cbn [MatEngine.rows MatEngine.cols]. rewrite <- E1, <- E2 in L3, L4. rewrite <- E2.
    destruct q; [| |congruence|]; do 4 eexists; (split; [first [eapply dif_sum; [exact H1|exact L1]|eapply dif_sub; [exact H1|exact L1]|eapply dif_had; [exact H1|exact L1]]|]);
    (split; [first [eapply dif_sum; [exact H2|exact L2]|eapply dif_sub; [exact H2|exact L2]|eapply dif_had; [exact H2|exact L2]]|]);
    (split; [intros i j Hi Hj|intros l0 k0 i j Hl0 Hk0 Hi Hj]; cbv beta); try (now rewrite H3, L3); try (now rewrite H4, L4); try (now rewrite H3, L3, H4, L4).
  - assert (Oe : over e) by exact Ho. pose proof (scal_ne Hfa) as Ns. cbn [MatRecSim.sub]. destruct (sub_dims Hk Oe) as [S1 S2]. destruct (dims_X e) as [D1 D2].
    destruct (IH He Oe HP) as (X & D & X' & D' & H1 & H2 & H3 & H4). pose proof (cols_old G F ms x_lt) as Cx.
    destruct q; cbn [MatEngine.rows MatEngine.cols].
    + do 4 eexists. split; [eapply dif_sprode; exact H1|]. split; [eapply dif_sprode; exact H2|]. rewrite CX, Cx.
      split; [intros i j Hi Hj|intros l0 k0 i j Hl0 Hk0 Hi Hj]; cbv beta; rewrite VX by exact Ns; [now rewrite H3|]. rewrite DX by exact Ns. now rewrite H3, H4.
    + do 4 eexists. split; [eapply dif_ssume; exact H1|]. split; [eapply dif_ssume; exact H2|]. rewrite CX, Cx.
      split; [intros i j Hi Hj|intros l0 k0 i j Hl0 Hk0 Hi Hj]; cbv beta; [rewrite VX by exact Ns; now rewrite H3|]. rewrite DX by exact Ns. now rewrite H4.
    + do 4 eexists. split; [eapply dif_tr; exact H1|]. split; [eapply dif_tr; exact H2|].
      split; [intros i j Hi Hj|intros l0 k0 i j Hl0 Hk0 Hi Hj]; cbv beta; [now rewrite H3|now rewrite H4].
    + do 4 eexists. split; [eapply dif_sprod; exact H1|]. split; [eapply dif_sprod; exact H2|].
      split; [intros i j Hi Hj|intros l0 k0 i j Hl0 Hk0 Hi Hj]; cbv beta; [now rewrite H3|now rewrite H4].
    + do 4 eexists. split; [eapply dif_ssum; exact H1|]. split; [eapply dif_ssum; exact H2|].
      split; [intros i j Hi Hj; cbv beta; now rewrite H3|exact H4].
    + do 4 eexists. split; [eapply dif_fun; exact H1|]. split; [eapply dif_fun; exact H2|].
      split; [intros i j Hi Hj|intros l0 k0 i j Hl0 Hk0 Hi Hj]; cbv beta; [now rewrite H3|now rewrite H3, H4].
    + simpl in Hu. rewrite <- Hu in *. assert (Q : row_major (rows G e) X = row_major (rows G e) X') by (apply agree_major; exact H3).
      do 4 eexists. split; [eapply dif_inv; exact H1|]. split; [eapply dif_inv; exact H2|]. rewrite D1, S1.
      split; [intros i j Hi Hj|intros l0 k0 i j Hl0 Hk0 Hi Hj]; cbv beta; unfold inverse; rewrite Q; [reflexivity|].
      f_equal. apply sum_n_ext. intros b Hb. f_equal. apply sum_n_ext. intros a' Ha'. f_equal. now apply H4.
    + simpl in Hu. rewrite <- Hu in *. assert (Q : row_major (rows G e) X = row_major (rows G e) X') by (apply agree_major; exact H3).
      do 4 eexists. split; [eapply dif_determinant; exact H1|]. split; [eapply dif_determinant; exact H2|]. rewrite D1, S1.
      split; [intros i j Hi Hj|intros l0 k0 i j Hl0 Hk0 Hi Hj]; cbv beta; unfold inverse; rewrite Q; [reflexivity|].
      apply sum_n_ext. intros b Hb. apply sum_n_ext. intros a' Ha'. f_equal. now apply H4.
Qed.
End Same.

Variable rho : env T.
Lemma as_leaf_kind o : o <> F -> g_kind (as_leaf G F) o = g_kind G o.
Proof. intros H. simpl. apply Nat.eqb_neq in H. now rewrite H. Qed.
Lemma clean_ne o : clean o -> o <> F.
Proof. intros [_ H] ->. lia. Qed.
Lemma FitA : fits G a0.
Proof.
  inversion Fit0 as [o Hl|o id e y Ek Hf| | |]; subst; [unfold is_leaf in Hl; rewrite (rw_F W) in Hl; tauto|].
  rewrite (rw_F W) in Ek. injection Ek as <- <- <-. exact Hf.
Qed.
Lemma dims_0 : rows G a0 = g_rows G F /\ cols G a0 = g_cols G F.
Proof. destruct (wf_dims (rw_wf W) (rw_F W)) as [-> ->]. auto. Qed.
Theorem chain_den : exists V X X', den G rho (MLeaf F) V /\ assigned G F rho ms V X /\ den G' rho (MLeaf (part n)) X' /\ agree (g_rows G F) (g_cols G F) X X'.
Proof.
  assert (Steps : forall l k V V', k + length l = n -> (forall i, nth_error l i = nth_error ms (k + i)) ->
    den G' rho (MLeaf (part k)) V' -> agree (g_rows G F) (g_cols G F) V V' ->
    exists X X', assigned G F rho l V X /\ den G' rho (MLeaf (part n)) X' /\ agree (g_rows G F) (g_cols G F) X X').
  { induction l as [|[[id a] y] t IH]; intros k V V' Hk Hn HV A.
    - simpl in Hk. rewrite Nat.add_0_r in Hk. subst k. exists V, V'. split; [constructor|auto].
    - assert (E : nth_error ms k = Some (id, a, y)) by (specialize (Hn 0); simpl in Hn; rewrite Nat.add_0_r in Hn; now symmetry).
      pose proof (nth_error_In _ _ E) as Hin. simpl in Hk. pose proof (over_ms Hin) as Oa. pose proof (Fit Hin) as Fa.
      destruct (@den_total T N G' rho (sub (part k) a)) as (Y' & HY'). { apply fits_sub; [lia|exact Fa|exact Oa|intros _; apply chain_fits; lia]. }
      destruct (@den_bridge k ltac:(lia) (as_leaf G F) rho (with_value G F rho V)) with (a := a) (X' := Y') as (Y & HY & AY); auto.
      { intros o C. apply as_leaf_kind. now apply clean_ne. }
      { intros o i Ne. simpl. apply Nat.eqb_neq in Ne. now rewrite Ne. }
      { intros _. eexists. exists V'. split; [apply den_leaf; unfold is_leaf; simpl; rewrite Nat.eqb_refl; [exact Logic.I|discriminate]|]. split; [exact HV|].
        intros i j Hi Hj. simpl. rewrite Nat.eqb_refl. rewrite (entry_at i V Hj). now apply A. }
      destruct (rw_dims W Hin) as [R C]. rewrite R, C in AY.
      destruct (IH (Datatypes.S k) Y Y') as (X & X' & H1 & H2 & H3); [lia| | |exact AY|].
      { intros i. specialize (Hn (Datatypes.S i)). simpl in Hn. rewrite Hn. f_equal. lia. }
      { eapply den_exp; [apply (kind_part G F bnd E)|exact HY']. }
      exists X, X'. split; [econstructor; eauto|auto]. }
  destruct over_0 as [O0 N0].
  destruct (@den_total T N G' rho (sub (part 0) a0)) as (V' & HV'). { apply fits_sub; [lia|exact FitA|exact O0|tauto]. }
  destruct (@den_bridge 0 ltac:(lia) G rho rho) with (a := a0) (X' := V') as (V & HV & AV); auto using FitA; [tauto|].
  rewrite (@sub_same T F (part 0) a0 N0) in HV'. destruct dims_0 as [R C]. rewrite R, C in AV.
  destruct (Steps ms 0 V V') as (X & X' & H1 & H2 & H3); auto.
  { apply (@den_exp T N G' rho F id0 a0 y0); [rewrite (kind_old G F ms HF); apply (rw_F W)|exact HV']. }
  exists V, X, X'. split; [eapply den_exp; [apply (rw_F W)|exact HV]|auto].
Qed.
Variable x : obj.
Hypothesis Xv : g_kind G x = LVar.
Lemma kind_back o k0 : g_kind G' o = k0 -> k0 <> LConst -> (match k0 with KExp _ _ _ => False | _ => True end) -> o < bnd /\ g_kind G o = k0.
Proof.
  intros H Nc Hl. destruct (kinds W o) as [[Ho E]|[(j & id & a & y & -> & Hj)|E]]; [split; congruence| |congruence].
  rewrite (kind_part G F bnd Hj) in H. subst k0. tauto.
Qed.
Lemma chain_distinct : distinct_vars G -> distinct_vars G'.
Proof.
  intros DV o o' H H' Ne. destruct (kind_back H) as [L E]; [discriminate|exact Logic.I|]. destruct (kind_back H') as [L' E']; [discriminate|exact Logic.I|].
  rewrite (rows_old G F ms L), (cols_old G F ms L), (rows_old G F ms L'), (cols_old G F ms L'). exact (DV _ _ E E' Ne).
Qed.
Lemma chain_var : g_kind G' x = LVar.
Proof. rewrite (kind_old G F ms (x_lt Xv)). exact Xv. Qed.
Lemma x_ne : x <> F.
Proof. intros ->. rewrite (rw_F W) in Xv. discriminate. Qed.
Theorem chain_dif : exists V D X X' Y', dif G rho x (MLeaf F) V D /\ assigned_dif G F rho x ms V D X /\
  dif G' rho x (MLeaf (part n)) Y' X' /\ agree4 x (g_rows G F) (g_cols G F) X X'.
Proof.
  assert (Steps : forall l k V D V' D', k + length l = n -> (forall i, nth_error l i = nth_error ms (k + i)) ->
    dif G' rho x (MLeaf (part k)) V' D' -> agree (g_rows G F) (g_cols G F) V V' -> agree4 x (g_rows G F) (g_cols G F) D D' ->
    exists X X' Y', assigned_dif G F rho x l V D X /\ dif G' rho x (MLeaf (part n)) Y' X' /\ agree4 x (g_rows G F) (g_cols G F) X X').
  { induction l as [|[[id a] y] t IH]; intros k V D V' D' Hk Hn HV A AD.
    - simpl in Hk. rewrite Nat.add_0_r in Hk. subst k. exists D, D', V'. split; [constructor|auto].
    - assert (E : nth_error ms k = Some (id, a, y)) by (specialize (Hn 0); simpl in Hn; rewrite Nat.add_0_r in Hn; now symmetry).
      pose proof (nth_error_In _ _ E) as Hin. simpl in Hk. pose proof (over_ms Hin) as Oa. pose proof (Fit Hin) as Fa.
      destruct (@dif_bridge k ltac:(lia) (as_leaf G F) rho (with_deriv G F rho V x D)) with (x := x) (a := a) as (Y & E1 & Y' & E1' & HY & HY' & AY & AE); auto.
      { intros o C. apply as_leaf_kind. now apply clean_ne. }
      { intros o i Ne. simpl. apply Nat.eqb_neq in Ne. now rewrite Ne. }
      { intros o i m Ne. simpl. apply Nat.eqb_neq in Ne. now rewrite Ne. }
      { intros _. do 2 eexists. exists V', D'. split; [eapply dif_ent; [simpl; now rewrite Nat.eqb_refl|apply den_leaf; unfold is_leaf; simpl; rewrite Nat.eqb_refl; [exact Logic.I|discriminate]]|]. split; [exact HV|].
        split; [intros i j Hi Hj|intros l0 k0 i j Hl0 Hk0 Hi Hj]; simpl; rewrite Nat.eqb_refl; [rewrite (entry_at i V Hj); now apply A|].
        rewrite <- (AD l0 k0 i j Hl0 Hk0 Hi Hj).
        rewrite (@entry_at T l0 k0 (g_cols G F) (fun a b => D a b ((i * g_cols G x + j) / g_cols G x) ((i * g_cols G x + j) mod g_cols G x)) Hk0).
        apply (@entry_at T i j (g_cols G x) (D l0 k0) Hj). }
      destruct (rw_dims W Hin) as [R C]. rewrite R, C in AY, AE.
      destruct (IH (Datatypes.S k) Y E1 Y' E1') as (X & X' & Z' & H1 & H2 & H3); [lia| | |exact AY|exact AE|].
      { intros i. specialize (Hn (Datatypes.S i)). simpl in Hn. rewrite Hn. f_equal. lia. }
      { eapply dif_exp; [apply (kind_part G F bnd E)|exact HY']. }
      exists X, X', Z'. split; [econstructor; eauto|auto]. }
  destruct over_0 as [O0 N0].
  destruct (@dif_bridge 0 ltac:(lia) G rho rho) with (x := x) (a := a0) as (V & D & V' & D' & HV & HV' & AV & AD); auto using FitA; [tauto|].
  rewrite (@sub_same T F (part 0) a0 N0) in HV'. destruct dims_0 as [R C]. rewrite R, C in AV, AD.
  destruct (Steps ms 0 V D V' D') as (X & X' & Y' & H1 & H2 & H3); auto.
  { apply (@dif_exp T N G' rho x F id0 a0 y0); [rewrite (kind_old G F ms HF); apply (rw_F W)|exact HV']. }
  exists V, D, X, X', Y'. split; [eapply dif_exp; [apply (rw_F W)|exact HV]|auto].
Qed.

(** What the assignments of a whole history leave in F, whatever was in it before. *)
Definition tidy (a : mexp T) : Prop := fits G a /\ over a.
Lemma find_me_spec v (a : mexp T) : find_me v a = true <-> In v (leaves a).
Proof.
  induction a as [o|q id l IHl r IHr|u id a IH]; simpl.
  - rewrite Nat.eqb_eq. intuition.
  - rewrite orb_true_iff, in_app_iff, IHl, IHr. tauto.
  - exact IH.
Qed.
Lemma rows_as a : rows (as_leaf G F) a = rows G a /\ cols (as_leaf G F) a = cols G a.
Proof. apply dims_X; reflexivity. Qed.
Lemma scal_ne' u id e : fits G (MUn u id e) -> match u with USProdE s _ | USSumE s _ => s <> F | _ => True end.
Proof.
  intros H. inversion H as [| | | |? ? ? _ Hu]; subst. destruct u; simpl in Hu; auto; destruct Hu as (Q & _); intros ->; rewrite (rw_F W) in Q; discriminate.
Qed.
Lemma val_ne V o : o <> F -> e_val (with_value G F rho V) o = e_val rho o.
Proof. intros H. simpl. apply Nat.eqb_neq in H. rewrite H. reflexivity. Qed.
Lemma den_free V a X : fits G a -> over a -> ~ In F (leaves a) -> (den (as_leaf G F) (with_value G F rho V) a X <-> den G rho a X).
Proof.
  intros Hf. pose proof Hf as Hf'. revert X Hf'.
  induction Hf as [o Hl|o id e y Ek Hf IH|id l r Hl IHl Hr IHr E|q id l r Nk Hl IHl Hr IHr E1 E2|q id e He IH Hu]; intros X Hfa Ho Nf.
  - assert (Ne : o <> F) by (intros ->; apply Nf; simpl; auto). pose proof (as_leaf_kind Ne) as K. pose proof (val_ne V Ne) as Ev.
    split; intros H; inversion H; subst; try (match goal with Q : g_kind _ o = KExp _ _ _ |- _ => unfold is_leaf in Hl; rewrite ?K in Q; rewrite Q in Hl; tauto end).
    + apply den_eye. congruence.
    + rewrite Ev. change (g_cols (as_leaf G F) o) with (g_cols G o). apply (@den_leaf T N G); [exact Hl|congruence].
    + apply den_eye. congruence.
    + rewrite <- Ev. change (g_cols G o) with (g_cols (as_leaf G F) o). apply (@den_leaf T N (as_leaf G F)); [unfold is_leaf; rewrite K; exact Hl|congruence].
  - assert (Ne : o <> F) by (intros ->; apply Nf; simpl; auto). pose proof (as_leaf_kind Ne) as K.
    destruct (Ho o (or_introl eq_refl)) as [|C]; [tauto|]. destruct (over_exp C Ek) as [Oe Ne'].
    split; intros H; inversion H as [? Q|? Q|? ? ? ? ? Q HX'| | | | | | | | | | | |]; subst; try congruence; try (unfold is_leaf in Q; rewrite ?K, Ek in Q; tauto).
    + rewrite K, Ek in Q. injection Q as <- <- <-. eapply den_exp; [exact Ek|]. now apply IH.
    + rewrite Ek in Q. injection Q as <- <- <-. apply (@den_exp T N (as_leaf G F) _ o id e y); [congruence|]. now apply IH.
  - destruct (over_bin Ho) as [Ol Or]. destruct (rows_as l) as [_ Cl].
    assert (Nl : ~ In F (leaves l)) by (intros Q; apply Nf; simpl; apply in_or_app; auto). assert (Nr : ~ In F (leaves r)) by (intros Q; apply Nf; simpl; apply in_or_app; auto).
    split; intros H; inversion H; subst.
    + rewrite Cl. apply den_prod; [apply IHl|apply IHr]; auto.
    + rewrite <- Cl. apply (@den_prod T N (as_leaf G F)); [apply IHl|apply IHr]; auto.
  - destruct (over_bin Ho) as [Ol Or].
    assert (Nl : ~ In F (leaves l)) by (intros Q; apply Nf; simpl; apply in_or_app; auto). assert (Nr : ~ In F (leaves r)) by (intros Q; apply Nf; simpl; apply in_or_app; auto).
    split; intros H; inversion H; subst; try congruence; constructor; try (apply IHl; auto; fail); apply IHr; auto.
  - pose proof (scal_ne' Hfa) as Ns. destruct (rows_as e) as [Re Ce].
    assert (Oe : over e) by exact Ho. assert (Ne : ~ In F (leaves e)) by exact Nf.
    destruct q; (split; intros H; inversion H; subst).
    + rewrite (val_ne V Ns). apply den_sprode, IH; auto.
    + rewrite <- (val_ne V Ns). apply den_sprode, IH; auto.
    + rewrite (val_ne V Ns). apply den_ssume, IH; auto.
    + rewrite <- (val_ne V Ns). apply den_ssume, IH; auto.
    + apply den_tr, IH; auto.
    + apply den_tr, IH; auto.
    + apply den_sprod, IH; auto.
    + apply den_sprod, IH; auto.
    + apply den_ssum, IH; auto.
    + apply den_ssum, IH; auto.
    + apply den_fun, IH; auto.
    + apply den_fun, IH; auto.
    + rewrite Re. apply den_inv, IH; auto.
    + rewrite <- Re. apply (@den_inv T N (as_leaf G F)), IH; auto.
    + rewrite Re. apply den_determinant, IH; auto.
    + rewrite <- Re. apply (@den_determinant T N (as_leaf G F)), IH; auto.
Qed.
Lemma assigned_app l1 : forall l2 V X, assigned G F rho (l1 ++ l2) V X <-> exists Y, assigned G F rho l1 V Y /\ assigned G F rho l2 Y X.
Proof.
  induction l1 as [|[[id a] y] t IH]; intros l2 V X; simpl.
  - split; [intros H; exists V; split; [constructor|exact H]|intros (Y & H & H'); inversion H; subst; exact H'].
  - split.
    + intros H. inversion H; subst. match goal with Q : assigned _ _ _ (t ++ l2) _ _ |- _ => apply IH in Q; destruct Q as (Y & H1 & H2) end. exists Y. split; [econstructor; eauto|exact H2].
    + intros (Y & H & H2). inversion H; subst. econstructor; [eassumption|]. apply IH. eauto.
Qed.
(** The items that the history l of assignments to F leaves, executed from any value, end where l ends. *)
Theorem history_items l : Forall (fun m => tidy (snd (fst m))) l -> forall V X,
  assigned G F rho l V X -> assigned G F rho (fold_left (assign F) l []) V X.
Proof.
  induction l as [|m l IH] using rev_ind; intros Hl V X H; [exact H|]. rewrite fold_left_app. simpl. apply Forall_app in Hl. destruct Hl as [Hl Hm].
  apply assigned_app in H. destruct H as (Y & H1 & H2). unfold assign. apply assigned_app. destruct (find_me F (snd (fst m))) eqn:E.
  - exists Y. split; [now apply IH|exact H2].
  - exists V. split; [constructor|]. destruct m as [[id a] y]. simpl in E. inversion H2 as [|? ? ? ? ? ? ? Ha Hn]; subst. inversion Hn; subst.
    inversion Hm as [|? ? [Fa Oa] _]; subst. simpl in Fa, Oa. econstructor; [|constructor].
    assert (Nf : ~ In F (leaves a)) by (intros Q; apply find_me_spec in Q; congruence). apply den_free; auto. eapply den_free; eauto.
Qed.
Lemma history_total l : Forall (fun m => tidy (snd (fst m))) l -> forall V, exists X, assigned G F rho l V X.
Proof.
  induction l as [|[[id a] y] t IH]; intros Hl V; [exists V; constructor|]. inversion Hl as [|? ? [Fa Oa] Ht]; subst. simpl in Fa, Oa.
  destruct (@den_total T N (as_leaf G F) (with_value G F rho V) a) as (Y & HY).
  { clear - Fa Oa W HF. induction Fa as [o Hl|o id' e y Ek Hf IH|id' l r Hl IHl Hr IHr E|q id' l r Nk Hl IHl Hr IHr E1 E2|q id' e He IH Hu].
    - apply fits_leaf. unfold is_leaf in *. simpl. destruct (o =? F); auto.
    - destruct (Nat.eq_dec o F) as [->|Ne]; [apply fits_leaf; unfold is_leaf; simpl; rewrite Nat.eqb_refl; exact Logic.I|].
      destruct (Oa o (or_introl eq_refl)) as [|C]; [tauto|]. destruct (over_exp C Ek) as [Oe Ne']. apply (@fits_exp T (as_leaf G F) o id' e y); [now rewrite as_leaf_kind|]. now apply IH.
    - destruct (over_bin Oa) as [Ol Or]. destruct (rows_as l) as [Rl Cl], (rows_as r) as [Rr Cr]. apply fits_prod; [now apply IHl|now apply IHr|congruence].
    - destruct (over_bin Oa) as [Ol Or]. destruct (rows_as l) as [Rl Cl], (rows_as r) as [Rr Cr]. apply fits_zip; [exact Nk|now apply IHl|now apply IHr|congruence|congruence].
    - destruct (rows_as e) as [Re Ce]. apply fits_un; [now apply IH|].
      assert (Sc : forall s vs, scalar_ok G s vs -> scalar_ok (as_leaf G F) s vs).
      { intros s vs (Q1 & Q2 & Q3). assert (Kn : forall o, g_kind G o = LEnt \/ g_kind G o = LVar -> g_kind (as_leaf G F) o = g_kind G o).
        { intros o Q. apply as_leaf_kind. intros ->. rewrite (rw_F W) in Q. destruct Q; discriminate. }
        split; [rewrite Kn; auto|]. split; [exact Q2|]. intros v Hv. destruct (Q3 v Hv) as (P1 & P2 & P3). rewrite Kn by auto. auto. }
      destruct q; simpl in *; auto; congruence. }
  destruct (IH Ht Y) as (X & HX). exists X. econstructor; eauto.
Qed.
End Bridge.
