(** * The derived matrix functions build expressions with the specified entries *)

From Coq Require Import List Arith Bool Lia ZArith Reals Lra.
From Verif Require Import Num NumInst MatMem Kernels KernelFacts KernelProofs KernelMore Sums MatEngine MatGraph MatSpec MatCalc MatFunSpec MatFun.
Import ListNotations.
Set Implicit Arguments.
Unset Strict Implicit.
Local Open Scope nat_scope.

(** ** Sums *)
Lemma sum_total n (f : nat -> R) : sum_n n f = total n f.
Proof. induction n as [|n IH]; simpl; [reflexivity|now rewrite IH]. Qed.
Lemma total_ext n f g : (forall k, k < n -> f k = g k) -> total n f = total n g.
Proof. rewrite <- (sum_total n f), <- (sum_total n g). apply sum_n_ext. Qed.
Lemma total_delta n i f : i < n -> total n (fun k => f k * delta k i)%R = f i.
Proof. rewrite <- sum_total. apply (sum_delta_mul_r LawsR f). Qed.
Lemma total_delta_l n i f : i < n -> total n (fun k => delta i k * f k)%R = f i.
Proof.
  intros H. rewrite (total_ext (g := fun k => f k * delta k i)%R); [now apply total_delta|].
  intros k _. unfold delta. rewrite (Nat.eqb_sym i). ring.
Qed.
Lemma total_zero n f : (forall k, k < n -> f k = 0%R) -> total n f = 0%R.
Proof. rewrite <- sum_total. apply (sum_zero LawsR). Qed.
Lemma total_one_l n f : total n (fun k => 1 * f k)%R = total n f.
Proof. apply total_ext. intros. ring. Qed.
Lemma total_one_r n f : total n (fun k => f k * 1)%R = total n f.
Proof. apply total_ext. intros. ring. Qed.
Lemma total_swap n m (f : nat -> nat -> R) : total n (fun i => total m (fun j => f i j)) = total m (fun j => total n (fun i => f i j)).
Proof. exact (sum_swap LawsR n m f). Qed.
Lemma total_pos n f : 0 < n -> (forall k, k < n -> (0 < f k)%R) -> (0 < total n f)%R.
Proof.
  induction n as [|n IH]; [lia|]. intros _ H. simpl. assert (0 < f n)%R by (apply H; lia).
  destruct n as [|n]; [simpl; lra|]. assert (0 < total (Datatypes.S n) f)%R by (apply IH; [lia|]; intros; apply H; lia). lra.
Qed.
Lemma total_nonneg n f : (forall k, k < n -> (0 <= f k)%R) -> (0 <= total n f)%R.
Proof.
  induction n as [|n IH]; intros H; simpl; [lra|]. assert (0 <= f n)%R by (apply H; lia).
  assert (0 <= total n f)%R by (apply IH; intros; apply H; lia). lra.
Qed.
Lemma total_one_pos n f i : i < n -> (0 < f i)%R -> (forall k, k < n -> (0 <= f k)%R) -> (0 < total n f)%R.
Proof.
  induction n as [|n IH]; [lia|]. intros Hi Pi Hn. simpl. assert (0 <= f n)%R by (apply Hn; lia).
  destruct (Nat.eq_dec i n) as [-> | Ne].
  - assert (0 <= total n f)%R by (apply total_nonneg; intros; apply Hn; lia). lra.
  - assert (0 < total n f)%R by (apply IH; [lia|exact Pi|intros; apply Hn; lia]). lra.
Qed.

(** ** Factorial *)
Fixpoint zfact (n : nat) : Z := match n with 0 => 1%Z | Datatypes.S m => (Z.of_nat n * zfact m)%Z end.
Lemma zfact_fact n : zfact n = Z.of_nat (fact n).
Proof. induction n as [|n IH]; [reflexivity|]. cbn [zfact]. change (fact (Datatypes.S n)) with (Datatypes.S n * fact n). rewrite IH. lia. Qed.
Lemma Factorial_zfact n : n <= 20 -> Factorial n = zfact n.
Proof. intros H. do 21 (destruct n as [|n]; [vm_compute; reflexivity|]). lia. Qed.
Lemma Factorial_ok n : n <= 20 -> IZR (Factorial n) = INR (fact n).
Proof. intros H. now rewrite (Factorial_zfact H), zfact_fact, <- INR_IZR_INZ. Qed.

(** ** Expressions up to node numbers *)
Fixpoint bare (e : mexp R) : mexp R :=
  match e with MLeaf o => MLeaf o | MBin k _ l r => MBin k 0 (bare l) (bare r) | MUn k _ a => MUn k 0 (bare a) end.
Section Bare.
Variable G : graph R.
Lemma bare_rows e : forall e', bare e' = bare e -> rows G e' = rows G e /\ cols G e' = cols G e.
Proof.
  induction e as [o|k id l IHl r IHr|k id a IH]; intros [o'|k' id' l' r'|k' id' a'] H; try discriminate H; simpl in H.
  - injection H as ->. auto.
  - injection H as -> Hl Hr. destruct (IHl _ Hl), (IHr _ Hr). simpl. auto.
  - injection H as -> Ha. destruct (IH _ Ha). simpl. destruct k; auto.
Qed.
Lemma bare_fits e : fits G e -> forall e', bare e' = bare e -> fits G e'.
Proof.
  induction 1 as [o Hl|o id e y Hk Hf IH|id l r Hl IHl Hr IHr E|k id l r Nk Hl IHl Hr IHr E1 E2|k id e He IH Hu];
    intros [o'|k' id' l' r'|k' id' a'] H; try discriminate H; simpl in H.
  - injection H as ->. now constructor.
  - injection H as ->. eapply fits_exp; eauto.
  - injection H as -> Bl Br. destruct (bare_rows Bl), (bare_rows Br). apply fits_prod; auto; congruence.
  - injection H as -> Bl Br. destruct (bare_rows Bl), (bare_rows Br). apply fits_zip; auto; congruence.
  - injection H as -> Ha. apply fits_un; auto. destruct (bare_rows Ha). destruct k; simpl in *; auto; congruence.
Qed.
Lemma bare_den rho e F : den G rho e F -> forall e', bare e' = bare e -> den G rho e' F.
Proof.
  induction 1 as [o Hk|o Hl Hk|o id e y F Hk H IH|id l r F F' Hl IHl Hr IHr|id l r F F' Hl IHl Hr IHr|id l r F F' Hl IHl Hr IHr|id l r F F' Hl IHl Hr IHr
    |id e F H IH|c id e F H IH|c id e F H IH|f f' id e F H IH|s vs id e F H IH|s vs id e F H IH|g id e F H IH|g d id e F H IH]; intros [o'|k' id' l' r'|k' id' a'] Q; try discriminate Q; simpl in Q.
  - injection Q as ->. now apply den_eye.
  - injection Q as ->. now apply den_leaf.
  - injection Q as ->. eapply den_exp; eauto.
  - injection Q as -> Bl Br. apply den_sum; auto.
  - injection Q as -> Bl Br. apply den_sub; auto.
  - injection Q as -> Bl Br. apply den_had; auto.
  - injection Q as -> Bl Br. rewrite <- (proj2 (bare_rows Bl)). apply den_prod; auto.
  - injection Q as -> Ba. apply den_tr; auto.
  - injection Q as -> Ba. apply den_sprod; auto.
  - injection Q as -> Ba. apply den_ssum; auto.
  - injection Q as -> Ba. apply den_fun; auto.
  - injection Q as -> Ba. apply den_sprode; auto.
  - injection Q as -> Ba. apply den_ssume; auto.
  - injection Q as -> Ba. rewrite <- (proj1 (bare_rows Ba)). apply den_inv; auto.
  - injection Q as -> Ba. rewrite <- (proj1 (bare_rows Ba)). apply den_determinant; auto.
Qed.
Lemma bare_leaves e : forall e', bare e' = bare e -> leaves e' = leaves e.
Proof.
  induction e as [o|k id l IHl r IHr|k id a IH]; intros [o'|k' id' l' r'|k' id' a'] H; try discriminate H; simpl in H.
  - injection H as ->. auto.
  - injection H as -> Hl Hr. simpl. now rewrite (IHl _ Hl), (IHr _ Hr).
  - injection H as -> Ha. simpl. now apply IH.
Qed.
Lemma bare_smooth rho e : smooth G rho e -> forall e', bare e' = bare e -> smooth G rho e'.
Proof.
  induction 1 as [o Hl|o id e y Hk H IH|k id l r Hl IHl Hr IHr|k id e H IH Nk|f f' id e H IH Hd|g id e F X H IH Hg HF HX|g d id e F X H IH Hg Hd HF HX]; intros [o'|k' id' l' r'|k' id' a'] Q; try discriminate Q; simpl in Q.
  - injection Q as ->. now apply sm_leaf.
  - injection Q as ->. eapply sm_exp; eauto.
  - injection Q as -> Bl Br. apply sm_bin; auto.
  - injection Q as -> Ba. apply sm_un; auto.
  - injection Q as -> Ba. apply sm_fun; [auto|]. intros F l k HF Bl Bk. destruct (bare_rows Ba) as [E1 E2]. rewrite E1 in Bl. rewrite E2 in Bk.
    eapply Hd; eauto. eapply bare_den; eauto.
  - injection Q as -> Ba. destruct (bare_rows Ba) as [E1 E2]. rewrite <- E1 in Hg, HX. eapply sm_inv; eauto. eapply bare_den; eauto.
  - injection Q as -> Ba. destruct (bare_rows Ba) as [E1 E2]. rewrite <- E1 in Hg, Hd, HX. eapply sm_det; eauto. eapply bare_den; eauto.
Qed.
End Bare.

(** ** The registered matrices *)
Section Lib.
Variable G : graph R.
Record lib_ok (rho : env R) (K : lib) : Prop := {
  lo_ones : forall r c, 0 < r -> 0 < c -> g_kind G (l_ones K r c) = LConst /\ g_rows G (l_ones K r c) = r /\ g_cols G (l_ones K r c) = c /\
    forall i j, i < r -> j < c -> e_val rho (l_ones K r c) (i * c + j) = 1%R;
  lo_eye : forall n, 0 < n -> g_kind G (l_eye K n) = LEye /\ g_rows G (l_eye K n) = n /\ g_cols G (l_eye K n) = n;
  lo_zeros : forall n, 0 < n -> g_kind G (l_zeros K n) = LConst /\ g_rows G (l_zeros K n) = n /\ g_cols G (l_zeros K n) = n /\
    forall i j, i < n -> j < n -> e_val rho (l_zeros K n) (i * n + j) = 0%R;
  lo_top : forall a b, 0 < a -> 0 < b -> g_kind G (l_top K a b) = LConst /\ g_rows G (l_top K a b) = a + b /\ g_cols G (l_top K a b) = a /\
    forall i j, i < a + b -> j < a -> e_val rho (l_top K a b) (i * a + j) = delta i j;
  lo_bottom : forall a b, 0 < a -> 0 < b -> g_kind G (l_bottom K a b) = LConst /\ g_rows G (l_bottom K a b) = a + b /\ g_cols G (l_bottom K a b) = b /\
    forall i j, i < a + b -> j < b -> e_val rho (l_bottom K a b) (i * b + j) = delta i (a + j);
  lo_left : forall a b, 0 < a -> 0 < b -> g_kind G (l_left K a b) = LConst /\ g_rows G (l_left K a b) = a /\ g_cols G (l_left K a b) = a + b /\
    forall i j, i < a -> j < a + b -> e_val rho (l_left K a b) (i * (a + b) + j) = delta i j;
  lo_right : forall a b, 0 < a -> 0 < b -> g_kind G (l_right K a b) = LConst /\ g_rows G (l_right K a b) = b /\ g_cols G (l_right K a b) = a + b /\
    forall i j, i < b -> j < a + b -> e_val rho (l_right K a b) (i * (a + b) + j) = delta (a + i) j }.
End Lib.

(** ** Families of environments *)
Section Family.
Variable G : graph R.
Variable host : nat -> option obj.
Variable rank : obj -> nat.
Hypothesis WF : wf_graph G host rank.
Variable K : lib.
Variable rho_ : R -> env R.
Variable t0 : R.
Hypothesis Lib : forall t, lib_ok G (rho_ t) K.
Variables lg dlg sq dsq : R -> R.
Hypothesis LG : forall x, (0 < x)%R -> lg x = ln x /\ derivable_pt_lim lg x (dlg x).
Hypothesis SQ : forall x, (0 <= x)%R -> sq x = sqrt x.
Hypothesis DSQ : forall x, (0 < x)%R -> derivable_pt_lim sq x (dsq x).

Definition near (P : R -> Prop) : Prop := exists d, (0 < d)%R /\ forall t, (Rabs (t - t0) < d)%R -> P t.
Lemma near_all (P : R -> Prop) : (forall t, P t) -> near P.
Proof. intros H. exists 1%R. split; [lra|auto]. Qed.
Lemma near_and P Q : near P -> near Q -> near (fun t => P t /\ Q t).
Proof.
  intros (d & Hd & H) (d' & Hd' & H'). exists (Rmin d d'). split; [now apply Rmin_pos|]. intros t Ht.
  pose proof (Rmin_l d d'). pose proof (Rmin_r d d'). split; [apply H|apply H']; lra.
Qed.
Lemma near_imp (P Q : R -> Prop) : (forall t, P t -> Q t) -> near P -> near Q.
Proof. intros H (d & Hd & HP). exists d. auto. Qed.
Lemma near_here P : near P -> P t0.
Proof. intros (d & Hd & H). apply H. replace (t0 - t0)%R with 0%R by ring. now rewrite Rabs_R0. Qed.
Lemma near_lt n (P : nat -> R -> Prop) : (forall i, i < n -> near (P i)) -> near (fun t => forall i, i < n -> P i t).
Proof.
  induction n as [|n IH]; intros H; [apply near_all; intros; lia|].
  eapply near_imp; [|apply near_and; [apply IH; intros i Hi; apply H; lia|apply (H n); lia]].
  intros t (A & B) i Hi. destruct (Nat.eq_dec i n) as [-> | Ne]; [exact B|apply A; lia].
Qed.

(** Sm: derivatives are asked for. *)
Variable Sm : Prop.
Hypothesis CONT : forall e, fits G e -> (Sm -> smooth G (rho_ t0) e) ->
  exists Ft, (forall t, den G (rho_ t) e (Ft t)) /\
    forall i j, i < rows G e -> j < cols G e -> forall eps, (0 < eps)%R -> near (fun t => (Rabs (Ft t i j - Ft t0 i j) < eps)%R).

(** The matrix objects of the user. *)
Variable ms : list nat.
Definition values (e : mexp R) (r c : nat) (f : R -> nat -> nat -> R) : Prop :=
  near (fun t => exists F, den G (rho_ t) e F /\ forall i j, i < r -> j < c -> F i j = f t i j).
Record good (e : mexp R) (r c : nat) (f : R -> nat -> nat -> R) : Prop := {
  gd_fits : fits G e; gd_rows : rows G e = r; gd_cols : cols G e = c;
  gd_val : values e r c f;
  gd_smooth : Sm -> smooth G (rho_ t0) e;
  gd_leaves : forall o, In o (leaves e) -> is_leaf G o \/ In o ms }.

Lemma dims_pos e : fits G e -> 0 < rows G e /\ 0 < cols G e.
Proof.
  induction 1 as [o Hl|o id e y Hk Hf IH|id l r Hl IHl Hr IHr E|k id l r Nk Hl IHl Hr IHr E1 E2|k id e He IH Hu]; simpl.
  - apply (wf_pos WF).
  - apply (wf_pos WF).
  - tauto.
  - tauto.
  - destruct k; try tauto. change (0 < 1 /\ 0 < 1). auto.
Qed.
Lemma good_pos e r c f : good e r c f -> 0 < r /\ 0 < c.
Proof. intros [H <- <- _ _ _]. now apply dims_pos. Qed.
Lemma good_ext e r c f g : good e r c f -> near (fun t => forall i j, i < r -> j < c -> f t i j = g t i j) -> good e r c g.
Proof.
  intros [A B C D E E0] H. split; auto. eapply near_imp; [|exact (near_and D H)]. intros t ((F & HF & Q) & Q').
  exists F. split; [exact HF|]. intros i j Hi Hj. rewrite Q by auto. now apply Q'.
Qed.
Lemma good_eq e r c f g : good e r c f -> (forall t i j, i < r -> j < c -> f t i j = g t i j) -> good e r c g.
Proof. intros H Q. eapply good_ext; [exact H|]. apply near_all. auto. Qed.
Lemma good_bare e e' r c f : bare e' = bare e -> good e r c f -> good e' r c f.
Proof.
  intros Q [A B C D E E0]. destruct (bare_rows G Q) as [E1 E2]. split; try congruence.
  - eapply bare_fits; eauto.
  - eapply near_imp; [|exact D]. intros t (F & HF & H). exists F. split; [eapply bare_den; eauto|exact H].
  - intros HS. eapply bare_smooth; eauto.
  - rewrite (bare_leaves Q). exact E0.
Qed.
(** At the point itself, for any denotation. *)
Lemma good_here e r c f : good e r c f -> forall F, den G (rho_ t0) e F -> forall i j, i < r -> j < c -> F i j = f t0 i j.
Proof.
  intros [_ _ _ D _ _] F HF i j Hi Hj. destruct (near_here D) as (F' & HF' & Q). rewrite (den_det HF HF'). now apply Q.
Qed.
(** Positive entries stay positive. *)
Lemma good_positive e r c f : good e r c f -> (forall i j, i < r -> j < c -> (0 < f t0 i j)%R) ->
  near (fun t => forall i j, i < r -> j < c -> (0 < f t i j)%R).
Proof.
  intros H P. destruct (CONT (gd_fits H) (gd_smooth H)) as (Ft & HF & Q). rewrite (gd_rows H), (gd_cols H) in Q.
  assert (N : near (fun t => forall i, i < r -> forall j, j < c -> (0 < Ft t i j)%R)).
  { apply near_lt. intros i Hi. apply near_lt. intros j Hj. assert (P0 : (0 < Ft t0 i j)%R) by (rewrite (good_here H (HF t0)) by auto; auto).
    eapply near_imp; [|exact (Q i j Hi Hj _ P0)]. intros t Ht. apply Rabs_def2 in Ht. lra. }
  eapply near_imp; [|exact (near_and N (gd_val H))]. intros t (A & F & DF & E) i j Hi Hj.
  rewrite <- E by auto. rewrite (den_det DF (HF t)). auto.
Qed.

(** *** Operators *)
Lemma good_mul id l r a b c f g : good l a b f -> good r b c g ->
  good (MBin BProd id l r) a c (fun t i j => total b (fun k => f t i k * g t k j)%R).
Proof.
  intros [A B C D E E0] [A' B' C' D' E' E0']. split.
  - apply fits_prod; congruence.
  - exact B.
  - exact C'.
  - eapply near_imp; [|exact (near_and D D')]. intros t ((F & HF & Q) & F' & HF' & Q').
    eexists. split; [apply den_prod; eauto|]. intros i j Hi Hj. cbv beta. rewrite C. rewrite sum_total. apply total_ext. intros k Hk. simpl. now rewrite Q, Q'.
  - intros HS. apply sm_bin; auto.
  - intros o Ho. apply in_app_iff in Ho. destruct Ho; auto.
Qed.
Lemma good_sum id l r a b f g : good l a b f -> good r a b g -> good (MBin BSum id l r) a b (fun t i j => f t i j + g t i j)%R.
Proof.
  intros [A B C D E E0] [A' B' C' D' E' E0']. split; auto.
  - apply fits_zip; congruence.
  - eapply near_imp; [|exact (near_and D D')]. intros t ((F & HF & Q) & F' & HF' & Q').
    eexists. split; [apply den_sum; eauto|]. intros i j Hi Hj. cbv beta. simpl. now rewrite Q, Q'.
  - intros HS. apply sm_bin; auto.
  - intros o Ho. apply in_app_iff in Ho. destruct Ho; auto.
Qed.
Lemma good_sub id l r a b f g : good l a b f -> good r a b g -> good (MBin BSub id l r) a b (fun t i j => f t i j - g t i j)%R.
Proof.
  intros [A B C D E E0] [A' B' C' D' E' E0']. split; auto.
  - apply fits_zip; congruence.
  - eapply near_imp; [|exact (near_and D D')]. intros t ((F & HF & Q) & F' & HF' & Q').
    eexists. split; [apply den_sub; eauto|]. intros i j Hi Hj. cbv beta. simpl. now rewrite Q, Q'.
  - intros HS. apply sm_bin; auto.
  - intros o Ho. apply in_app_iff in Ho. destruct Ho; auto.
Qed.
Lemma good_had id l r a b f g : good l a b f -> good r a b g -> good (MBin BHad id l r) a b (fun t i j => f t i j * g t i j)%R.
Proof.
  intros [A B C D E E0] [A' B' C' D' E' E0']. split; auto.
  - apply fits_zip; congruence.
  - eapply near_imp; [|exact (near_and D D')]. intros t ((F & HF & Q) & F' & HF' & Q').
    eexists. split; [apply den_had; eauto|]. intros i j Hi Hj. cbv beta. simpl. now rewrite Q, Q'.
  - intros HS. apply sm_bin; auto.
  - intros o Ho. apply in_app_iff in Ho. destruct Ho; auto.
Qed.
Lemma good_tr id e a b f : good e a b f -> good (MUn UTr id e) b a (fun t i j => f t j i).
Proof.
  intros [A B C D E E0]. split; auto.
  - apply fits_un; [auto|exact Logic.I].
  - eapply near_imp; [|exact D]. intros t (F & HF & Q). eexists. split; [apply den_tr; eauto|]. intros i j Hi Hj. now apply Q.
  - intros HS. apply sm_un; [auto|exact Logic.I].
Qed.
Lemma good_scale c id e a b f : good e a b f -> good (MUn (USProd c) id e) a b (fun t i j => c * f t i j)%R.
Proof.
  intros [A B C D E E0]. split; auto.
  - apply fits_un; [auto|exact Logic.I].
  - eapply near_imp; [|exact D]. intros t (F & HF & Q). eexists. split; [apply den_sprod; eauto|]. intros i j Hi Hj. simpl. now rewrite Q.
  - intros HS. apply sm_un; [auto|exact Logic.I].
Qed.
Lemma good_shift c id e a b f : good e a b f -> good (MUn (USSum c) id e) a b (fun t i j => c + f t i j)%R.
Proof.
  intros [A B C D E E0]. split; auto.
  - apply fits_un; [auto|exact Logic.I].
  - eapply near_imp; [|exact D]. intros t (F & HF & Q). eexists. split; [apply den_ssum; eauto|]. intros i j Hi Hj. simpl. now rewrite Q.
  - intros HS. apply sm_un; [auto|exact Logic.I].
Qed.
Lemma good_fun u u' id e a b f : good e a b f ->
  (Sm -> forall i j, i < a -> j < b -> derivable_pt_lim u (f t0 i j) (u' (f t0 i j))) ->
  good (MUn (UFun u u') id e) a b (fun t i j => u (f t i j)).
Proof.
  intros H Hu. pose proof H as [A B C D E E0]. split; auto.
  - apply fits_un; [auto|exact Logic.I].
  - eapply near_imp; [|exact D]. intros t (F & HF & Q). eexists. split; [apply den_fun; eauto|]. intros i j Hi Hj. cbv beta. now rewrite Q.
  - intros HS. apply sm_fun; [auto|]. intros F i j HF Hi Hj. rewrite (good_here H HF) by congruence. apply Hu; congruence.
Qed.
Lemma good_const o r c (f : nat -> nat -> R) : g_kind G o = LConst -> g_rows G o = r -> g_cols G o = c ->
  (forall t i j, i < r -> j < c -> e_val (rho_ t) o (i * c + j) = f i j) -> good (MLeaf o) r c (fun _ => f).
Proof.
  intros Hk Hr Hc H. assert (Hl : is_leaf G o) by (unfold is_leaf; now rewrite Hk). split; auto.
  - now constructor.
  - apply near_all. intros t. eexists. split; [apply den_leaf; congruence|]. intros i j Hi Hj. cbv beta. rewrite Hc. now apply H.
  - intros _. now constructor.
  - intros o' [<-|[]]. auto.
Qed.
Lemma good_eye n : 0 < n -> good (EyeRef K n) n n (fun _ => delta).
Proof.
  intros H. destruct (lo_eye (Lib t0) H) as (Hk & Hr & Hc). assert (Hl : is_leaf G (l_eye K n)) by (unfold is_leaf; now rewrite Hk). split; auto.
  - now constructor.
  - apply near_all. intros t. eexists. split; [now apply den_eye|]. reflexivity.
  - intros _. now constructor.
  - intros o' [<-|[]]. auto.
Qed.
Lemma good_ones r c : 0 < r -> 0 < c -> good (OnesRef K r c) r c (fun _ _ _ => 1%R).
Proof.
  intros Hr Hc. destruct (lo_ones (Lib t0) Hr Hc) as (A & B & C & _). apply good_const; auto. intros t. exact (proj2 (proj2 (proj2 (lo_ones (Lib t) Hr Hc)))).
Qed.
Lemma good_zeros n : 0 < n -> good (ZerosRef K n) n n (fun _ _ _ => 0%R).
Proof.
  intros Hn. destruct (lo_zeros (Lib t0) Hn) as (A & B & C & _). apply good_const; auto. intros t. exact (proj2 (proj2 (proj2 (lo_zeros (Lib t) Hn)))).
Qed.

(** *** Builders *)
Definition makes (c : build (mexp R)) (r k : nat) (f : R -> nat -> nat -> R) : Prop :=
  forall n, exists e n', c n = Some (e, n') /\ n <= n' /\ NoDup (nodes e) /\ (forall i, In i (nodes e) -> n <= i < n') /\ good e r k f.
Lemma makes_ext c r k f g : makes c r k f -> near (fun t => forall i j, i < r -> j < k -> f t i j = g t i j) -> makes c r k g.
Proof.
  intros H Q n. destruct (H n) as (e & n' & E & Le & Nd & In_ & Gd). exists e, n'. repeat (split; [assumption|]). eapply good_ext; eauto.
Qed.
Lemma makes_eq c r k f g : makes c r k f -> (forall t i j, i < r -> j < k -> f t i j = g t i j) -> makes c r k g.
Proof. intros H Q. eapply makes_ext; [exact H|]. now apply near_all. Qed.
Lemma makes_bind c m r k f r' k' f' : makes c r k f -> (forall e, good e r k f -> makes (m e) r' k' f') -> makes (bbind c m) r' k' f'.
Proof.
  intros H Q n. destruct (H n) as (e & n1 & E & Le & Nd & In_ & Gd). destruct (Q e Gd n1) as (e' & n2 & E' & Le' & Nd' & In' & Gd').
  exists e', n2. unfold bbind. rewrite E. split; [exact E'|]. split; [lia|]. split; [exact Nd'|]. split; [|exact Gd'].
  intros i Hi. specialize (In' i Hi). lia.
Qed.
Lemma makes_leaf o r k f : good (MLeaf o) r k f -> makes (bret (MLeaf o)) r k f.
Proof. intros H n. exists (MLeaf o), n. split; [reflexivity|]. split; [lia|]. split; [constructor|]. split; [intros i []|exact H]. Qed.
Lemma makes_assert (b : bool) m r k f : b = true -> makes m r k f -> makes (bbind (bassert b) (fun _ => m)) r k f.
Proof. intros -> H n. exact (H n). Qed.
Lemma clone_ok e : forall n, exists e' n', clone e n = Some (e', n') /\ n <= n' /\ NoDup (nodes e') /\ (forall i, In i (nodes e') -> n <= i < n') /\ bare e' = bare e.
Proof.
  induction e as [o|k id l IHl r IHr|k id a IH]; intros n.
  - exists (MLeaf o), n. split; [reflexivity|]. split; [lia|]. split; [constructor|]. split; [intros i []|reflexivity].
  - destruct (IHl n) as (l' & n1 & El & Ll & Nl & Il & Bl), (IHr n1) as (r' & n2 & Er & Lr & Nr & Ir & Br).
    exists (MBin k n2 l' r'), (Datatypes.S n2). simpl. unfold bbind. rewrite El, Er. split; [reflexivity|]. split; [lia|]. split; [|split].
    + constructor.
      * intros H. apply in_app_iff in H. destruct H as [H|H]; [apply Il in H|apply Ir in H]; lia.
      * clear -Nl Nr Il Ir. revert Nl Il. generalize (nodes l'). intros L. induction L as [|x L IHL]; intros Nl Il; [exact Nr|]. inversion Nl; subst. simpl. constructor.
        -- intros H. apply in_app_iff in H. destruct H as [H|H]; [tauto|]. apply Ir in H. specialize (Il x (or_introl eq_refl)). lia.
        -- apply IHL; [assumption|]. intros i Hi. apply Il. now right.
    + intros i [<-|H]; [lia|]. apply in_app_iff in H. destruct H as [H|H]; [apply Il in H|apply Ir in H]; lia.
    + now rewrite Bl, Br.
  - destruct (IH n) as (a' & n1 & Ea & La & Na & Ia & Ba). exists (MUn k n1 a'), (Datatypes.S n1). simpl. unfold bbind. rewrite Ea. split; [reflexivity|]. split; [lia|]. split; [|split].
    + constructor; [|exact Na]. intros H. apply Ia in H. lia.
    + intros i [<-|H]; [lia|]. apply Ia in H. lia.
    + now rewrite Ba.
Qed.
Lemma makes_clone e r k f : good e r k f -> makes (clone e) r k f.
Proof.
  intros H n. destruct (clone_ok e n) as (e' & n' & E & L & Nd & Ie & Be). exists e', n'. repeat (split; [assumption|]). eapply good_bare; eauto.
Qed.
Lemma makes_bin k l r a b f : (forall id, good (MBin k id l r) a b f) -> makes (bin k l r) a b f.
Proof.
  intros H n. destruct (clone_ok (MBin k 0 l r) n) as (e' & n' & E & L & Nd & Ie & Be). exists e', n'. repeat (split; [assumption|]). eapply good_bare; [exact Be|apply H].
Qed.
Lemma makes_un k e a b f : (forall id, good (MUn k id e) a b f) -> makes (un k e) a b f.
Proof.
  intros H n. destruct (clone_ok (MUn k 0 e) n) as (e' & n' & E & L & Nd & Ie & Be). exists e', n'. repeat (split; [assumption|]). eapply good_bare; [exact Be|apply H].
Qed.

(** *** The functions *)
Lemma makes_over x c a b f : good x a b f -> makes (over x c) a b (fun t i j => f t i j / c)%R.
Proof.
  intros H. eapply makes_bind; [apply makes_clone; exact H|]. intros e He.
  eapply makes_eq; [apply makes_un; intros id; apply good_scale; exact He|]. intros t i j _ _. cbv beta. unfold Rdiv. ring.
Qed.
Lemma makes_exp x a b f : good x a b f -> makes (ExpM x) a b (fun t i j => exp (f t i j)).
Proof. intros H. apply makes_un. intros id. apply good_fun; [exact H|]. intros _ i j _ _. apply derivable_pt_lim_exp. Qed.
Lemma makes_log x a b f : good x a b f -> (forall i j, i < a -> j < b -> (0 < f t0 i j)%R) ->
  makes (LogM lg dlg x) a b (fun t i j => lg (f t i j)).
Proof. intros H P. apply makes_un. intros id. apply good_fun; [exact H|]. intros _ i j Hi Hj. apply LG. auto. Qed.
Lemma makes_quotient x y a b f g : good x a b f -> good y a b g ->
  (forall i j, i < a -> j < b -> (0 < f t0 i j)%R /\ (0 < g t0 i j)%R) ->
  makes (quotient G lg dlg x y) a b (fun t i j => f t i j / g t i j)%R.
Proof.
  intros Hx Hy P. apply makes_assert; [rewrite (gd_rows Hx), (gd_cols Hx), (gd_rows Hy), (gd_cols Hy), !Nat.eqb_refl; reflexivity|].
  eapply makes_ext.
  - eapply makes_bind; [apply makes_log; [exact Hx|intros; now apply P]|]. intros e He. eapply makes_bind; [apply makes_log; [exact Hy|intros; now apply P]|]. intros e' He'.
    eapply makes_bind; [apply makes_bin; intros id; apply good_sub; [exact He|exact He']|]. intros e2 He2. apply makes_exp. exact He2.
  - eapply near_imp; [|exact (near_and (good_positive Hx (fun i j Hi Hj => proj1 (P i j Hi Hj))) (good_positive Hy (fun i j Hi Hj => proj2 (P i j Hi Hj))))].
    intros t (A & B) i j Hi Hj. specialize (A i j Hi Hj). specialize (B i j Hi Hj). cbv beta.
    rewrite (proj1 (LG A)), (proj1 (LG B)). unfold Rminus, Rdiv. rewrite exp_plus, exp_Ropp, !exp_ln; auto.
Qed.
Lemma makes_column x a n f : good x a 1 f -> 0 < n -> makes (bin BProd x (OnesRef K 1 n)) a n (fun t i _ => f t i 0).
Proof.
  intros H Hn. eapply makes_eq; [apply makes_bin; intros id; apply good_mul; [exact H|apply good_ones; auto]|].
  intros t i j _ _. cbn. ring.
Qed.
Lemma makes_row x b n f : good x 1 b f -> 0 < n -> makes (bin BProd (OnesRef K n 1) x) n b (fun t _ j => f t 0 j).
Proof.
  intros H Hn. eapply makes_eq; [apply makes_bin; intros id; apply good_mul; [apply good_ones; auto|exact H]|].
  intros t i j _ _. cbn. ring.
Qed.
Lemma makes_bcolumn x a n f : good x a 1 f -> 0 < n -> makes (broadcast G K COLUMN x n) a n (fun t i _ => f t i 0).
Proof. intros H Hn. apply makes_assert; [rewrite (gd_cols H); reflexivity|]. now apply makes_column. Qed.
Lemma makes_brow x b n f : good x 1 b f -> 0 < n -> makes (broadcast G K ROW x n) n b (fun t _ j => f t 0 j).
Proof. intros H Hn. apply makes_assert; [rewrite (gd_rows H); apply orb_true_r|]. now apply makes_row. Qed.
Lemma makes_ball x n f : good x 1 1 f -> 0 < n -> makes (broadcast G K ALL x n) n n (fun t _ _ => f t 0 0).
Proof.
  intros H Hn. apply makes_assert; [rewrite (gd_rows H); apply orb_true_r|].
  eapply makes_bind; [apply makes_row; eauto|]. intros e He. eapply makes_eq; [apply makes_column; eauto|]. reflexivity.
Qed.
Lemma makes_srow x a b f : good x a b f -> makes (Sigma G K ROW x) 1 b (fun t _ j => total a (fun k => f t k j)).
Proof.
  intros H. destruct (good_pos H) as [Pa Pb]. unfold Sigma. rewrite (gd_rows H).
  eapply makes_eq; [apply makes_bin; intros id; apply good_mul; [apply good_ones; auto|exact H]|].
  intros t i j _ _. cbv beta. apply total_one_l.
Qed.
Lemma makes_scol x a b f : good x a b f -> makes (Sigma G K COLUMN x) a 1 (fun t i _ => total b (fun k => f t i k)).
Proof.
  intros H. destruct (good_pos H) as [Pa Pb]. unfold Sigma. rewrite (gd_cols H).
  eapply makes_eq; [apply makes_bin; intros id; apply good_mul; [exact H|apply good_ones; auto]|].
  intros t i j _ _. cbv beta. apply total_one_r.
Qed.
Lemma makes_sall x a b f : good x a b f -> makes (Sigma G K ALL x) 1 1 (fun t _ _ => total a (fun k => total b (fun l => f t k l))).
Proof.
  intros H. destruct (good_pos H) as [Pa Pb]. unfold Sigma. rewrite (gd_cols H).
  eapply makes_bind; [exact (makes_srow H)|]. intros e He.
  eapply makes_eq; [apply makes_bin; intros id; apply good_mul; [exact He|apply good_ones; auto]|].
  intros t i j _ _. cbv beta. rewrite total_one_r. apply total_swap.
Qed.
Lemma makes_trace x a f : good x a a f -> makes (trace G K x) 1 1 (fun t _ _ => total a (fun k => f t k k)).
Proof.
  intros H. destruct (good_pos H) as [Pa _]. apply makes_assert; [rewrite (gd_rows H), (gd_cols H); apply Nat.eqb_refl|]. rewrite (gd_rows H).
  eapply makes_bind; [apply makes_bin; intros id; apply good_had; [exact H|now apply good_eye]|]. intros e He.
  eapply makes_eq; [apply makes_sall; exact He|]. intros t i j _ _. cbv beta. apply total_ext. intros k Hk.
  rewrite (total_ext (g := fun l => delta k l * f t k l)%R) by (intros; ring). now apply total_delta_l.
Qed.
Lemma makes_frob x a b f : good x a b f -> (Sm -> exists i j, i < a /\ j < b /\ f t0 i j <> 0%R) ->
  makes (MatrixFrobeniusNorm G K sq dsq x) 1 1 (fun t _ _ => sqrt (total a (fun k => total b (fun l => f t k l * f t k l)%R))).
Proof.
  intros H P. eapply makes_bind; [apply makes_bin; intros id; apply good_had; [exact H|exact H]|]. intros e He.
  eapply makes_bind; [apply makes_sall; exact He|]. intros e' He'.
  eapply makes_eq.
  - apply makes_un. intros id. apply good_fun; [exact He'|]. intros HS i0 j0 _ _. apply DSQ. destruct (P HS) as (i & j & Hi & Hj & Nz).
    apply (total_one_pos (i := i)); [exact Hi| |intros k _; apply total_nonneg; intros l _; apply Rle_0_sqr].
    apply (total_one_pos (i := j)); [exact Hj| |intros l _; apply Rle_0_sqr]. apply Rsqr_pos_lt. exact Nz.
  - intros t i j _ _. cbv beta. apply SQ. apply total_nonneg; intros k _; apply total_nonneg; intros l _; apply Rle_0_sqr.
Qed.
Lemma makes_vcat x y a a' b f g : good x a b f -> good y a' b g ->
  makes (concat G K VERTICAL x y) (a + a') b (fun t i j => if i <? a then f t i j else g t (i - a) j).
Proof.
  intros Hx Hy. destruct (good_pos Hx) as [Pa Pb], (good_pos Hy) as [Pa' _].
  apply makes_assert; [rewrite (gd_cols Hx), (gd_cols Hy); apply Nat.eqb_refl|]. rewrite (gd_rows Hx), (gd_rows Hy).
  destruct (lo_top (Lib t0) Pa Pa') as (A & B & C & _), (lo_bottom (Lib t0) Pa Pa') as (A' & B' & C' & _).
  assert (Top : good (MLeaf (l_top K a a')) (a + a') a (fun _ => delta)).
  { apply good_const; auto. intros t. exact (proj2 (proj2 (proj2 (lo_top (Lib t) Pa Pa')))). }
  assert (Bot : good (MLeaf (l_bottom K a a')) (a + a') a' (fun _ i j => delta i (a + j))).
  { apply good_const; auto. intros t. exact (proj2 (proj2 (proj2 (lo_bottom (Lib t) Pa Pa')))). }
  eapply makes_bind; [apply makes_bin; intros id; apply good_mul; [exact Top|exact Hx]|]. intros e He.
  eapply makes_bind; [apply makes_bin; intros id; apply good_mul; [exact Bot|exact Hy]|]. intros e' He'.
  eapply makes_eq; [apply makes_bin; intros id; apply good_sum; [exact He|exact He']|]. intros t i j Hi Hj. cbv beta.
  destruct (Nat.ltb_spec i a) as [Lt|Ge].
  - rewrite total_delta_l by auto. rewrite (total_zero (n := a')); [ring|]. intros k Hk. unfold delta. assert (E : Nat.eqb i (a + k) = false) by (apply Nat.eqb_neq; lia). rewrite E. ring.
  - rewrite (total_zero (n := a)); [|intros k Hk; unfold delta; assert (E : Nat.eqb i k = false) by (apply Nat.eqb_neq; lia); rewrite E; ring].
    rewrite (total_ext (g := fun k => delta (i - a) k * g t k j)%R); [rewrite total_delta_l by lia; ring|].
    intros k Hk. f_equal. unfold delta. assert (E : Nat.eqb i (a + k) = Nat.eqb (i - a) k) by (apply Bool.eq_true_iff_eq; rewrite !Nat.eqb_eq; lia). now rewrite E.
Qed.
Lemma makes_hcat x y a b b' f g : good x a b f -> good y a b' g ->
  makes (concat G K HORIZONTAL x y) a (b + b') (fun t i j => if j <? b then f t i j else g t i (j - b)).
Proof.
  intros Hx Hy. destruct (good_pos Hx) as [Pa Pb], (good_pos Hy) as [_ Pb'].
  apply makes_assert; [rewrite (gd_rows Hx), (gd_rows Hy); apply Nat.eqb_refl|]. rewrite (gd_cols Hx), (gd_cols Hy).
  destruct (lo_left (Lib t0) Pb Pb') as (A & B & C & _), (lo_right (Lib t0) Pb Pb') as (A' & B' & C' & _).
  assert (Lft : good (MLeaf (l_left K b b')) b (b + b') (fun _ => delta)).
  { apply good_const; auto. intros t. exact (proj2 (proj2 (proj2 (lo_left (Lib t) Pb Pb')))). }
  assert (Rgt : good (MLeaf (l_right K b b')) b' (b + b') (fun _ i j => delta (b + i) j)).
  { apply good_const; auto. intros t. exact (proj2 (proj2 (proj2 (lo_right (Lib t) Pb Pb')))). }
  eapply makes_bind; [apply makes_bin; intros id; apply good_mul; [exact Hx|exact Lft]|]. intros e He.
  eapply makes_bind; [apply makes_bin; intros id; apply good_mul; [exact Hy|exact Rgt]|]. intros e' He'.
  eapply makes_eq; [apply makes_bin; intros id; apply good_sum; [exact He|exact He']|]. intros t i j Hi Hj. cbv beta.
  destruct (Nat.ltb_spec j b) as [Lt|Ge].
  - rewrite total_delta by auto. rewrite (total_zero (n := b')); [ring|]. intros k Hk. unfold delta. assert (E : Nat.eqb (b + k) j = false) by (apply Nat.eqb_neq; lia). rewrite E. ring.
  - rewrite (total_zero (n := b)); [|intros k Hk; unfold delta; assert (E : Nat.eqb k j = false) by (apply Nat.eqb_neq; lia); rewrite E; ring].
    rewrite (total_ext (g := fun k => g t i k * delta k (j - b))%R); [rewrite total_delta by lia; ring|].
    intros k Hk. f_equal. unfold delta. assert (E : Nat.eqb (b + k) j = Nat.eqb k (j - b)) by (apply Bool.eq_true_iff_eq; rewrite !Nat.eqb_eq; lia). now rewrite E.
Qed.
Lemma softmax_entry x s : (0 < s)%R -> exp (x - lg s) = (exp x / s)%R.
Proof. intros H. rewrite (proj1 (LG H)). unfold Rminus, Rdiv. rewrite exp_plus, exp_Ropp, exp_ln; auto. Qed.
Lemma total_exp_pos n f : 0 < n -> (0 < total n (fun k => exp (f k)))%R.
Proof. intros H. apply total_pos; [exact H|]. intros. apply exp_pos. Qed.
Lemma makes_smrow x a b f : good x a b f -> makes (SoftMax G K lg dlg ROW x) a b (fun t i j => exp (f t i j) / total a (fun k => exp (f t k j)))%R.
Proof.
  intros H. destruct (good_pos H) as [Pa Pb]. unfold SoftMax.
  eapply makes_bind; [apply makes_exp; exact H|]. intros e He. eapply makes_bind; [apply makes_srow; exact He|]. intros s Hs.
  eapply makes_bind; [apply makes_log; [exact Hs|intros; now apply total_exp_pos]|]. intros l Hl. rewrite (gd_rows H).
  eapply makes_bind; [apply makes_row; [exact Hl|exact Pa]|]. intros m Hm.
  eapply makes_bind; [apply makes_bin; intros id; apply good_sub; [exact H|exact Hm]|]. intros d Hd.
  eapply makes_eq; [apply makes_exp; exact Hd|]. intros t i j _ _. cbv beta. apply softmax_entry. now apply total_exp_pos.
Qed.
Lemma makes_smcol x a b f : good x a b f -> makes (SoftMax G K lg dlg COLUMN x) a b (fun t i j => exp (f t i j) / total b (fun k => exp (f t i k)))%R.
Proof.
  intros H. destruct (good_pos H) as [Pa Pb]. unfold SoftMax.
  eapply makes_bind; [apply makes_exp; exact H|]. intros e He. eapply makes_bind; [apply makes_scol; exact He|]. intros s Hs.
  eapply makes_bind; [apply makes_log; [exact Hs|intros; now apply total_exp_pos]|]. intros l Hl. rewrite (gd_cols H).
  eapply makes_bind; [apply makes_column; [exact Hl|exact Pb]|]. intros m Hm.
  eapply makes_bind; [apply makes_bin; intros id; apply good_sub; [exact H|exact Hm]|]. intros d Hd.
  eapply makes_eq; [apply makes_exp; exact Hd|]. intros t i j _ _. cbv beta. apply softmax_entry. now apply total_exp_pos.
Qed.
Lemma makes_small x a b f : good x a b f ->
  makes (SoftMax G K lg dlg ALL x) a b (fun t i j => exp (f t i j) / total a (fun k => total b (fun l => exp (f t k l))))%R.
Proof.
  intros H. destruct (good_pos H) as [Pa Pb]. unfold SoftMax.
  assert (Ps : forall t, (0 < total a (fun k => total b (fun l => exp (f t k l))))%R) by (intros t; apply total_pos; [exact Pa|]; intros; now apply total_exp_pos).
  eapply makes_bind; [apply makes_exp; exact H|]. intros e He. eapply makes_bind; [apply makes_sall; exact He|]. intros s Hs.
  eapply makes_bind; [apply makes_log; [exact Hs|intros; apply Ps]|]. intros l Hl. rewrite (gd_rows H), (gd_cols H).
  eapply makes_bind; [eapply makes_bind; [apply makes_row; [exact Hl|exact Pa]|]; intros m Hm; apply makes_column; [exact Hm|exact Pb]|]. intros m Hm.
  eapply makes_bind; [apply makes_bin; intros id; apply good_sub; [exact H|exact Hm]|]. intros d Hd.
  eapply makes_eq; [apply makes_exp; exact Hd|]. intros t i j _ _. cbv beta. apply softmax_entry. apply Ps.
Qed.
Lemma makes_pow x a f n : good x a a f -> makes (pow G K n x) a a (fun t => power a (f t) n).
Proof.
  intros H. destruct (good_pos H) as [Pa _]. assert (Sq : (rows G x =? cols G x) = true) by (rewrite (gd_rows H), (gd_cols H); apply Nat.eqb_refl).
  induction n as [|n IH]; simpl; apply makes_assert; auto.
  - rewrite (gd_rows H). apply makes_leaf. now apply good_eye.
  - eapply makes_bind; [exact IH|]. intros p Hp. apply makes_bin. intros id. apply good_mul; [exact H|exact Hp].
Qed.
Lemma makes_mexp_any x a f n : good x a a f ->
  makes (MatrixExp G K n x) a a (fun t i j => total (Datatypes.S n) (fun k => power a (f t) k i j / IZR (Factorial k)))%R.
Proof.
  intros H. destruct (good_pos H) as [Pa _]. assert (Sq : (rows G x =? cols G x) = true) by (rewrite (gd_rows H), (gd_cols H); apply Nat.eqb_refl).
  induction n as [|n IH]; cbn [MatrixExp]; apply makes_assert; auto.
  - rewrite (gd_rows H). apply makes_leaf. eapply good_eq; [now apply good_eye|]. intros t i j _ _. simpl. field.
  - eapply makes_bind; [apply makes_pow; exact H|]. intros p Hp. eapply makes_bind; [apply makes_over; exact Hp|]. intros q Hq.
    eapply makes_bind; [exact IH|]. intros r Hr. eapply makes_eq; [apply makes_bin; intros id; apply good_sum; [exact Hq|exact Hr]|].
    intros t i j _ _. change (total (Datatypes.S (Datatypes.S n)) ?u) with (total (Datatypes.S n) u + u (Datatypes.S n))%R. cbv beta. ring.
Qed.
Lemma makes_mexp x a f n : good x a a f -> n <= 20 ->
  makes (MatrixExp G K n x) a a (fun t i j => total (Datatypes.S n) (fun k => power a (f t) k i j / INR (fact k)))%R.
Proof.
  intros H Ln. eapply makes_eq; [exact (makes_mexp_any n H)|]. intros t i j _ _. apply total_ext. intros k Hk. now rewrite Factorial_ok by lia.
Qed.
Lemma makes_mlog x a f n : good x a a f ->
  makes (MatrixLog G K n x) a a (fun t i j => total n (fun k => - / INR (Datatypes.S k) * power a (fun p q => delta p q - f t p q) (Datatypes.S k) i j))%R.
Proof.
  intros H. destruct (good_pos H) as [Pa _]. assert (Sq : (rows G x =? cols G x) = true) by (rewrite (gd_rows H), (gd_cols H); apply Nat.eqb_refl).
  induction n as [|n IH]; cbn [MatrixLog]; apply makes_assert; auto.
  - rewrite (gd_rows H). apply makes_leaf. now apply good_zeros.
  - rewrite (gd_rows H). eapply makes_bind; [apply makes_bin; intros id; apply good_sub; [now apply good_eye|exact H]|]. intros d Hd.
    eapply makes_bind; [apply makes_pow; exact Hd|]. intros p Hp. eapply makes_bind; [apply makes_un; intros id; apply good_scale; exact Hp|]. intros q Hq.
    eapply makes_bind; [apply IH|]. intros r Hr. eapply makes_eq; [apply makes_bin; intros id; apply good_sum; [exact Hq|exact Hr]|].
    intros t i j _ _. change (total (Datatypes.S n) ?u) with (total n u + u n)%R. cbv beta.
    rewrite <- INR_IZR_INZ. unfold Rdiv. change (-1)%R with (- (1))%R. ring.
Qed.

(** *** Programs *)
Variable V_ : R -> nat -> nat -> nat -> R.
Notation fr := (frows (g_rows G) (g_cols G)).
Notation fc := (fcols (g_rows G) (g_cols G)).
Notation fv t := (fval (g_rows G) (g_cols G) (V_ t)).
Theorem make_ok d : (forall o, In o (fmats d) -> In o ms /\ fits G (MLeaf o) /\ (forall t, den G (rho_ t) (MLeaf o) (V_ t o)) /\ (Sm -> smooth G (rho_ t0) (MLeaf o))) ->
  fok (g_rows G) (g_cols G) (V_ t0) d -> (Sm -> fsmooth (g_rows G) (g_cols G) (V_ t0) d) ->
  makes (make G K lg dlg sq dsq d) (fr d) (fc d) (fun t => fv t d).
Proof.
  induction d as [o|a IHa b IHb|a IHa b IHb|a IHa b IHb|a IHa b IHb|a IHa|c a IHa|c a IHa|u u' a IHa|a IHa b IHb|a IHa c|ax a IHa n|ax a IHa|a IHa|a IHa|ax a IHa b IHb|ax a IHa|n a IHa|n a IHa|n a IHa];
    intros Hm Hok Hs; cbn [make fok fsmooth fmats] in *.
  - destruct (Hm o (or_introl eq_refl)) as (M & A & B & C). apply makes_leaf. split; auto; [apply near_all; intros t; exists (V_ t o); auto|]. intros o' [<-|[]]. auto.
  - destruct Hok as (Oa & Ob & E1 & E2). eapply makes_bind; [apply IHa; auto; [intros; apply Hm, in_app_iff; auto|tauto]|]. intros x Hx.
    eapply makes_bind; [apply IHb; auto; [intros; apply Hm, in_app_iff; auto|tauto]|]. intros y Hy. rewrite <- E1, <- E2 in Hy. apply makes_bin. intros id. now apply good_sum.
  - destruct Hok as (Oa & Ob & E1 & E2). eapply makes_bind; [apply IHa; auto; [intros; apply Hm, in_app_iff; auto|tauto]|]. intros x Hx.
    eapply makes_bind; [apply IHb; auto; [intros; apply Hm, in_app_iff; auto|tauto]|]. intros y Hy. rewrite <- E1, <- E2 in Hy. apply makes_bin. intros id. now apply good_sub.
  - destruct Hok as (Oa & Ob & E1). eapply makes_bind; [apply IHa; auto; [intros; apply Hm, in_app_iff; auto|tauto]|]. intros x Hx.
    eapply makes_bind; [apply IHb; auto; [intros; apply Hm, in_app_iff; auto|tauto]|]. intros y Hy. rewrite <- E1 in Hy. apply makes_bin. intros id.
    exact (good_mul id Hx Hy).
  - destruct Hok as (Oa & Ob & E1 & E2). eapply makes_bind; [apply IHa; auto; [intros; apply Hm, in_app_iff; auto|tauto]|]. intros x Hx.
    eapply makes_bind; [apply IHb; auto; [intros; apply Hm, in_app_iff; auto|tauto]|]. intros y Hy. rewrite <- E1, <- E2 in Hy. apply makes_bin. intros id. now apply good_had.
  - eapply makes_bind; [apply IHa; auto|]. intros x Hx. apply makes_un. intros id. exact (good_tr id Hx).
  - eapply makes_bind; [apply IHa; auto|]. intros x Hx. apply makes_un. intros id. exact (good_scale c id Hx).
  - eapply makes_bind; [apply IHa; auto|]. intros x Hx. apply makes_un. intros id. exact (good_shift c id Hx).
  - eapply makes_bind; [apply IHa; auto; tauto|]. intros x Hx. apply makes_un. intros id. apply (good_fun id Hx). intros HS i j Hi Hj. now apply (proj2 (Hs HS)).
  - destruct Hok as (Oa & Ob & E1 & E2 & P). eapply makes_bind; [apply IHa; auto; [intros; apply Hm, in_app_iff; auto|tauto]|]. intros x Hx.
    eapply makes_bind; [apply IHb; auto; [intros; apply Hm, in_app_iff; auto|tauto]|]. intros y Hy. rewrite <- E1, <- E2 in Hy. exact (makes_quotient Hx Hy P).
  - eapply makes_bind; [apply IHa; tauto|]. intros x Hx. exact (makes_over c Hx).
  - destruct ax; cbn [fok] in Hok.
    + destruct Hok as (Oa & E & Pn). eapply makes_bind; [apply IHa; auto|]. intros x Hx. rewrite E in Hx. exact (makes_brow Hx Pn).
    + destruct Hok as (Oa & E & Pn). eapply makes_bind; [apply IHa; auto|]. intros x Hx. rewrite E in Hx. exact (makes_bcolumn Hx Pn).
    + destruct Hok as (Oa & E & E' & Pn). eapply makes_bind; [apply IHa; auto|]. intros x Hx. rewrite E, E' in Hx. exact (makes_ball Hx Pn).
  - eapply makes_bind; [apply IHa; auto|]. intros x Hx. destruct ax; [exact (makes_srow Hx)|exact (makes_scol Hx)|exact (makes_sall Hx)].
  - destruct Hok as (Oa & E). eapply makes_bind; [apply IHa; auto|]. intros x Hx. rewrite <- E in Hx. exact (makes_trace Hx).
  - eapply makes_bind; [apply IHa; auto; tauto|]. intros x Hx. apply (makes_frob Hx). intros HS. exact (proj2 (Hs HS)).
  - destruct ax; cbn [fok] in Hok; destruct Hok as (Oa & Ob & E); (eapply makes_bind; [apply IHa; auto; [intros; apply Hm, in_app_iff; auto|tauto]|]); intros x Hx;
      (eapply makes_bind; [apply IHb; auto; [intros; apply Hm, in_app_iff; auto|tauto]|]); intros y Hy; rewrite <- E in Hy.
    + exact (makes_vcat Hx Hy).
    + exact (makes_hcat Hx Hy).
  - eapply makes_bind; [apply IHa; auto|]. intros x Hx. destruct ax; [exact (makes_smrow Hx)|exact (makes_smcol Hx)|exact (makes_small Hx)].
  - destruct Hok as (Oa & E). eapply makes_bind; [apply IHa; auto|]. intros x Hx. rewrite <- E in Hx. cbn [frows fcols]. rewrite <- E. exact (makes_pow n Hx).
  - destruct Hok as (Oa & E & Ln). eapply makes_bind; [apply IHa; auto|]. intros x Hx. rewrite <- E in Hx. cbn [frows fcols]. rewrite <- E. exact (makes_mexp Hx Ln).
  - destruct Hok as (Oa & E). eapply makes_bind; [apply IHa; auto|]. intros x Hx. rewrite <- E in Hx. cbn [frows fcols]. rewrite <- E. exact (makes_mlog n Hx).
Qed.
End Family.

(** ** A single environment, and an environment in which one entry varies *)
Section Modes.
Variable G : graph R.
Variable host : nat -> option obj.
Variable rank : obj -> nat.
Hypothesis WF : wf_graph G host rank.

Lemma cont_const rho t0 e : fits G e ->
  exists Ft : R -> nat -> nat -> R, (forall t, den G ((fun _ => rho) t) e (Ft t)) /\
    forall i j, i < rows G e -> j < cols G e -> forall eps, (0 < eps)%R -> near t0 (fun t => (Rabs (Ft t i j - Ft t0 i j) < eps)%R).
Proof.
  intros Hf. destruct (den_total rho Hf) as (F & HF). exists (fun _ => F). split; [auto|]. intros i j _ _ eps P. apply near_all. intros _.
  replace (F i j - F i j)%R with 0%R by ring. now rewrite Rabs_R0.
Qed.
Lemma lim_near f t0 d : derivable_pt_lim f t0 d -> forall eps, (0 < eps)%R -> near t0 (fun t => (Rabs (f t - f t0) < eps)%R).
Proof.
  intros H eps P. assert (Q : continuity_pt f t0) by (apply derivable_continuous_pt; now exists d).
  destruct (Q eps P) as (al & Pa & Ha). exists al. split; [exact Pa|]. intros t Ht.
  destruct (Req_dec t t0) as [-> | Ne]; [replace (f t0 - f t0)%R with 0%R by ring; now rewrite Rabs_R0|].
  apply (Ha t). split; [|exact Ht]. split; [exact I|auto].
Qed.
Variable x : obj.
Variables i j : nat.
Hypothesis Bi : i < g_rows G x.
Hypothesis Bj : j < g_cols G x.
Lemma cont_varies rho_ t0 : varies G x i j rho_ t0 -> forall e, fits G e -> smooth G (rho_ t0) e ->
  exists Ft : R -> nat -> nat -> R, (forall t, den G (rho_ t) e (Ft t)) /\
    forall a b, a < rows G e -> b < cols G e -> forall eps, (0 < eps)%R -> near t0 (fun t => (Rabs (Ft t a b - Ft t0 a b) < eps)%R).
Proof.
  intros V e Hf Hs. destruct (dif_total (rho_ t0) x Hf) as (F & D & HD).
  destruct (dif_lim WF V Hf Hs HD Bi Bj) as (Ft & _ & HF & Hl). exists Ft. split; [exact HF|].
  intros a b Ha Hb. exact (lim_near (Hl a b Ha Hb)).
Qed.
Lemma lib_varies rho_ t0 K : varies G x i j rho_ t0 -> lib_ok G (rho_ t0) K -> forall t, lib_ok G (rho_ t) K.
Proof.
  intros V H t. destruct H as [A B C D E F H]. split; intros.
  - destruct (A r c) as (Q1 & Q2 & Q3 & Q4); auto. repeat (split; [assumption|]). intros. rewrite (va_const V) by exact Q1. auto.
  - auto.
  - destruct (C n) as (Q1 & Q2 & Q3 & Q4); auto. repeat (split; [assumption|]). intros. rewrite (va_const V) by exact Q1. auto.
  - destruct (D a b) as (Q1 & Q2 & Q3 & Q4); auto. repeat (split; [assumption|]). intros. rewrite (va_const V) by exact Q1. auto.
  - destruct (E a b) as (Q1 & Q2 & Q3 & Q4); auto. repeat (split; [assumption|]). intros. rewrite (va_const V) by exact Q1. auto.
  - destruct (F a b) as (Q1 & Q2 & Q3 & Q4); auto. repeat (split; [assumption|]). intros. rewrite (va_const V) by exact Q1. auto.
  - destruct (H a b) as (Q1 & Q2 & Q3 & Q4); auto. repeat (split; [assumption|]). intros. rewrite (va_const V) by exact Q1. auto.
Qed.
End Modes.
