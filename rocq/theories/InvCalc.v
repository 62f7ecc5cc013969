(** * Derivatives of the inverse and of the determinant of a matrix of reals *)
From Coq Require Import List Arith Bool Lia Reals Lra Ring.
From Verif Require Import Num NumInst KernelFacts KernelProofs Sums Determ.
Set Implicit Arguments.
Unset Strict Implicit.
Local Open Scope R_scope.

(** ** Sums of reals *)
Lemma rsum_zero n (f : nat -> R) : (forall k, (k < n)%nat -> f k = 0) -> sum_n n f = 0.
Proof. exact (sum_zero LawsR (n := n) (f := f)). Qed.
Lemma rsum_add n (f g : nat -> R) : sum_n n (fun k => f k + g k) = sum_n n f + sum_n n g.
Proof. exact (sum_add LawsR n f g). Qed.
Lemma rsum_mul_l n c (f : nat -> R) : sum_n n (fun k => c * f k) = c * sum_n n f.
Proof. exact (sum_mul_l LawsR n c f). Qed.
Lemma rsum_mul_r n c (f : nat -> R) : sum_n n (fun k => f k * c) = sum_n n f * c.
Proof. exact (sum_mul_r LawsR n c f). Qed.
Lemma rsum_sub n (f g : nat -> R) : sum_n n (fun k => f k - g k) = sum_n n f - sum_n n g.
Proof. induction n as [|n IH]; simpl; [ring|]. rewrite IH. ring. Qed.
Lemma rsum_opp n (f : nat -> R) : sum_n n (fun k => - f k) = - sum_n n f.
Proof. induction n as [|n IH]; simpl; [ring|]. rewrite IH. ring. Qed.
Lemma rsum_S n (f : nat -> R) : sum_n (S n) f = sum_n n f + f n.
Proof. reflexivity. Qed.
Lemma rsum_first n (f : nat -> R) : sum_n (S n) f = f O + sum_n n (fun a => f (S a)).
Proof. induction n as [|n IH]; [simpl; ring|]. rewrite rsum_S, IH, rsum_S. ring. Qed.
Lemma rsum_le n (f g : nat -> R) : (forall k, (k < n)%nat -> f k <= g k) -> sum_n n f <= sum_n n g.
Proof.
  induction n as [|n IH]; intros H; [simpl; lra|]. rewrite !rsum_S. apply Rplus_le_compat; [apply IH; intros; apply H; lia|apply H; lia].
Qed.
Lemma rsum_nonneg n (f : nat -> R) : (forall k, (k < n)%nat -> 0 <= f k) -> 0 <= sum_n n f.
Proof. intros H. rewrite <- (@rsum_zero n (fun _ => 0)) by auto. now apply rsum_le. Qed.
Lemma rsum_abs n (f : nat -> R) : Rabs (sum_n n f) <= sum_n n (fun k => Rabs (f k)).
Proof.
  induction n as [|n IH]; [simpl; rewrite Rabs_R0; lra|]. rewrite !rsum_S. eapply Rle_trans; [apply Rabs_triang|]. apply Rplus_le_compat_r. exact IH.
Qed.
Lemma rsum_one n (f : nat -> R) k : (forall k, (k < n)%nat -> 0 <= f k) -> (k < n)%nat -> f k <= sum_n n f.
Proof.
  induction n as [|n IH]; intros H Hk; [lia|]. rewrite rsum_S. destruct (Nat.eq_dec k n) as [->|Ne].
  - assert (0 <= sum_n n f) by (apply rsum_nonneg; intros; apply H; lia). lra.
  - assert (f k <= sum_n n f) by (apply IH; [intros; apply H; lia|lia]). assert (0 <= f n) by (apply H; lia). lra.
Qed.
Lemma rsum_swap n p (f : nat -> nat -> R) : sum_n n (fun i => sum_n p (fun j => f i j)) = sum_n p (fun j => sum_n n (fun i => f i j)).
Proof. exact (sum_swap LawsR n p f). Qed.

(** ** Products and a norm *)
Definition mm n (A B : nat -> nat -> R) : nat -> nat -> R := fun i j => sum_n n (fun a => A i a * B a j).
Definition one : nat -> nat -> R := fun i j => if Nat.eqb i j then 1 else 0.
Definition same n (A B : nat -> nat -> R) : Prop := forall i j, (i < n)%nat -> (j < n)%nat -> A i j = B i j.
Definition norm n (A : nat -> nat -> R) : R := sum_n n (fun i => sum_n n (fun j => Rabs (A i j))).
Definition diff (A B : nat -> nat -> R) : nat -> nat -> R := fun i j => A i j - B i j.

Lemma mm_assoc n A B C i j : mm n (mm n A B) C i j = mm n A (mm n B C) i j.
Proof.
  unfold mm. transitivity (sum_n n (fun a => sum_n n (fun b => A i b * B b a * C a j))).
  - apply sum_n_ext. intros a _. now rewrite rsum_mul_r.
  - rewrite rsum_swap. apply sum_n_ext. intros b _. rewrite <- rsum_mul_l. apply sum_n_ext. intros. ring.
Qed.
Lemma mm_same n A A' B B' : same n A A' -> same n B B' -> same n (mm n A B) (mm n A' B').
Proof. intros HA HB i j Hi Hj. unfold mm. apply sum_n_ext. intros a Ha. rewrite HA, HB by auto. reflexivity. Qed.
Lemma mm_one_l n A : same n (mm n one A) A.
Proof.
  intros i j Hi Hj. unfold mm, one. etransitivity; [|apply (sum_delta_mul_l LawsR (n := n) (i := i) (fun a => A a j) Hi)].
  apply sum_n_ext. intros a _. rewrite Nat.eqb_sym. reflexivity.
Qed.
Lemma mm_one_r n A : same n (mm n A one) A.
Proof. intros i j Hi Hj. unfold mm, one. exact (sum_delta_mul_r LawsR (n := n) (i := j) (fun a => A i a) Hj). Qed.
Lemma mm_diff_l n A B C i j : mm n (diff A B) C i j = diff (mm n A C) (mm n B C) i j.
Proof. unfold mm, diff. rewrite <- rsum_sub. apply sum_n_ext. intros. ring. Qed.
Lemma mm_diff_r n A B C i j : mm n A (diff B C) i j = diff (mm n A B) (mm n A C) i j.
Proof. unfold mm, diff. rewrite <- rsum_sub. apply sum_n_ext. intros. ring. Qed.
Lemma same_refl n A : same n A A.
Proof. intros i j _ _. reflexivity. Qed.
Lemma same_sym n A B : same n A B -> same n B A.
Proof. intros H i j Hi Hj. symmetry. auto. Qed.
Lemma same_trans n A B C : same n A B -> same n B C -> same n A C.
Proof. intros H1 H2 i j Hi Hj. now rewrite H1, H2. Qed.
Lemma norm_same n A B : same n A B -> norm n A = norm n B.
Proof. intros H. unfold norm. apply sum_n_ext. intros i Hi. apply sum_n_ext. intros j Hj. now rewrite H. Qed.
Lemma norm_pos n A : 0 <= norm n A.
Proof. apply rsum_nonneg. intros. apply rsum_nonneg. intros. apply Rabs_pos. Qed.
Lemma norm_entry n A i j : (i < n)%nat -> (j < n)%nat -> Rabs (A i j) <= norm n A.
Proof.
  intros Hi Hj. eapply Rle_trans; [apply (@rsum_one n (fun j => Rabs (A i j)) j); auto; intros; apply Rabs_pos|].
  apply (@rsum_one n (fun i => sum_n n (fun j => Rabs (A i j))) i); auto. intros. apply rsum_nonneg. intros. apply Rabs_pos.
Qed.
Lemma norm_mm n A B : norm n (mm n A B) <= norm n A * norm n B.
Proof.
  unfold norm at 1. apply Rle_trans with (sum_n n (fun i => sum_n n (fun j => sum_n n (fun a => Rabs (A i a) * Rabs (B a j))))).
  { apply rsum_le. intros i Hi. apply rsum_le. intros j Hj. eapply Rle_trans; [apply rsum_abs|]. apply rsum_le. intros a _. rewrite Rabs_mult. lra. }
  unfold norm at 1. rewrite <- rsum_mul_r. apply rsum_le. intros i Hi. rewrite rsum_swap, <- rsum_mul_r. apply rsum_le. intros a Ha.
  rewrite rsum_mul_l. apply Rmult_le_compat_l; [apply Rabs_pos|].
  apply (@rsum_one n (fun a => sum_n n (fun j => Rabs (B a j))) a); auto. intros. apply rsum_nonneg. intros. apply Rabs_pos.
Qed.
Lemma norm_add n A B C : (forall i j, (i < n)%nat -> (j < n)%nat -> C i j = A i j + B i j) -> norm n C <= norm n A + norm n B.
Proof.
  intros H. unfold norm. rewrite <- rsum_add. apply rsum_le. intros i Hi. rewrite <- rsum_add. apply rsum_le. intros j Hj. rewrite H by auto. apply Rabs_triang.
Qed.
Lemma inverse_mm n F X : is_inverse n F X <-> same n (mm n X F) one /\ same n (mm n F X) one.
Proof.
  split.
  - intros H. split; intros i j Hi Hj; destruct (H i j Hi Hj) as [H1 H2]; assumption.
  - intros [H1 H2] i j Hi Hj. split; [exact (H1 i j Hi Hj)|exact (H2 i j Hi Hj)].
Qed.

(** ** Matrices near an invertible one are invertible *)
Section Neumann.
Variable n : nat.
Variable E : nat -> nat -> R.
Hypothesis small : norm n E < 1.
Fixpoint pw (m : nat) : nat -> nat -> R := match m with O => one | S m => mm n (pw m) E end.
Lemma pw_bound m i j : (i < n)%nat -> (j < n)%nat -> Rabs (pw m i j) <= norm n E ^ m.
Proof.
  intros Hi Hj. assert (B : forall m, norm n (pw (S m)) <= norm n E ^ S m).
  { clear. induction m as [|m IH].
    - cbn [pw]. rewrite (norm_same (mm_one_l (n := n) E)). simpl. lra.
    - change (pw (S (S m))) with (mm n (pw (S m)) E). eapply Rle_trans; [apply norm_mm|].
      change (norm n E ^ S (S m)) with (norm n E * norm n E ^ S m). rewrite (Rmult_comm (norm n E)). apply Rmult_le_compat_r; [apply norm_pos|exact IH]. }
  destruct m as [|m].
  - simpl. unfold one. destruct (Nat.eqb i j); [rewrite Rabs_R1|rewrite Rabs_R0]; lra.
  - eapply Rle_trans; [apply (norm_entry (n := n)); auto|apply B].
Qed.
Lemma pw_comm m : same n (mm n E (pw m)) (mm n (pw m) E).
Proof.
  induction m as [|m IH].
  - cbn [pw]. eapply same_trans; [apply mm_one_r|apply same_sym, mm_one_l].
  - cbn [pw]. intros i j Hi Hj. rewrite <- mm_assoc. apply mm_same; auto. apply same_refl.
Qed.
(** The series converges entry by entry. *)
Lemma ser_cv i j : (i < n)%nat -> (j < n)%nat -> { l | Un_cv (fun N => sum_f_R0 (fun m => pw m i j) N) l }.
Proof.
  intros Hi Hj. apply cv_cauchy_2. apply cauchy_abs. apply cv_cauchy_1.
  apply (Rseries_CV_comp (fun m => Rabs (pw m i j)) (fun m => norm n E ^ m)).
  - intros m. split; [apply Rabs_pos|now apply pw_bound].
  - exists (/ (1 - norm n E)). assert (A : Rabs (norm n E) < 1) by (rewrite Rabs_right; [exact small|apply Rle_ge, norm_pos]).
    pose proof (GP_infinite _ A) as P. intros eps He. destruct (P eps He) as (N0 & HN). exists N0. intros k Hk.
    rewrite (sum_eq _ (fun m => 1 * norm n E ^ m)) by (intros; ring). now apply HN.
Qed.
Definition ser i j : R := match lt_dec i n, lt_dec j n with left Hi, left Hj => proj1_sig (ser_cv Hi Hj) | _, _ => 0 end.
Lemma ser_lim i j : (i < n)%nat -> (j < n)%nat -> Un_cv (fun N => sum_f_R0 (fun m => pw m i j) N) (ser i j).
Proof.
  intros Hi Hj. unfold ser. destruct (lt_dec i n) as [Hi'|]; [|lia]. destruct (lt_dec j n) as [Hj'|]; [|lia]. exact (proj2_sig (ser_cv Hi' Hj')).
Qed.
Lemma cv_sum m (f : nat -> nat -> R) (l : nat -> R) : (forall a, (a < m)%nat -> Un_cv (fun N => f a N) (l a)) -> Un_cv (fun N => sum_n m (fun a => f a N)) (sum_n m l).
Proof.
  induction m as [|m IH]; intros H.
  - intros eps He. exists O. intros k _. simpl. unfold R_dist. rewrite Rminus_0_r, Rabs_R0. exact He.
  - apply (CV_plus (fun N => sum_n m (fun a => f a N)) (f m)); [apply IH; intros; apply H; lia|apply H; lia].
Qed.
Lemma cv_const c : Un_cv (fun _ => c) c.
Proof. intros eps He. exists O. intros. unfold R_dist. rewrite Rminus_diag_eq by reflexivity. now rewrite Rabs_R0. Qed.
Lemma cv_ext f g l : (forall N, f N = g N) -> Un_cv f l -> Un_cv g l.
Proof. intros H C eps He. destruct (C eps He) as (N0 & HN). exists N0. intros k Hk. rewrite <- H. now apply HN. Qed.
Lemma pw_zero i j : (i < n)%nat -> (j < n)%nat -> Un_cv (fun N => pw (S N) i j) 0.
Proof.
  intros Hi Hj eps He. assert (A : Rabs (norm n E) < 1) by (rewrite Rabs_right; [exact small|apply Rle_ge, norm_pos]).
  destruct (pow_lt_1_zero _ A eps He) as (N0 & HN). exists N0. intros k Hk. unfold R_dist. rewrite Rminus_0_r.
  eapply Rle_lt_trans; [apply pw_bound; auto|]. eapply Rle_lt_trans; [apply Rle_abs|]. apply HN. lia.
Qed.
(** (1 - E) S = S (1 - E) = 1. *)
Lemma ser_l : same n (mm n (diff one E) ser) one.
Proof.
  intros i j Hi Hj. eapply UL_sequence with (Un := fun N => mm n (diff one E) (fun a b => sum_f_R0 (fun m => pw m a b) N) i j).
  - unfold mm. apply (cv_sum (f := fun a N => diff one E i a * sum_f_R0 (fun m => pw m a j) N) (l := fun a => diff one E i a * ser a j)).
    intros a Ha. apply (CV_mult (fun _ => diff one E i a)); [apply cv_const|now apply ser_lim].
  - assert (Q : forall N, mm n (diff one E) (fun a b => sum_f_R0 (fun m => pw m a b) N) i j = one i j - pw (S N) i j).
    { intros N. assert (P : forall a b, (a < n)%nat -> (b < n)%nat -> mm n E (fun a b => sum_f_R0 (fun m => pw m a b) N) a b = sum_f_R0 (fun m => pw m a b) N - one a b + pw (S N) a b).
      { intros a b Ha Hb. induction N as [|N IH].
        - cbn [sum_f_R0]. change (fun a b => pw 0 a b) with (pw 0). rewrite (pw_comm 0 Ha Hb). cbn [pw]. ring.
        - transitivity (mm n E (fun a b => sum_f_R0 (fun m => pw m a b) N) a b + mm n E (pw (S N)) a b).
          + unfold mm. rewrite <- rsum_add. apply sum_n_ext. intros c _. rewrite tech5. ring.
          + rewrite IH, tech5, (pw_comm (S N) Ha Hb). cbn [pw]. ring. }
      rewrite mm_diff_l. unfold diff. rewrite P by auto. rewrite (mm_one_l (n := n) _ Hi Hj). ring. }
    apply (cv_ext (f := fun N => one i j - pw (S N) i j)); [intros; now rewrite Q|].
    pose proof (CV_minus (fun _ => one i j) (fun N => pw (S N) i j) _ _ (cv_const _) (pw_zero Hi Hj)) as P. rewrite Rminus_0_r in P. exact P.
Qed.
Lemma ser_r : same n (mm n ser (diff one E)) one.
Proof.
  intros i j Hi Hj. eapply UL_sequence with (Un := fun N => mm n (fun a b => sum_f_R0 (fun m => pw m a b) N) (diff one E) i j).
  - unfold mm. apply (cv_sum (f := fun a N => sum_f_R0 (fun m => pw m i a) N * diff one E a j) (l := fun a => ser i a * diff one E a j)).
    intros a Ha. apply (CV_mult (fun N => sum_f_R0 (fun m => pw m i a) N) (fun _ => diff one E a j)); [now apply ser_lim|apply cv_const].
  - assert (Q : forall N, mm n (fun a b => sum_f_R0 (fun m => pw m a b) N) (diff one E) i j = one i j - pw (S N) i j).
    { intros N. assert (P : forall a b, (a < n)%nat -> (b < n)%nat -> mm n (fun a b => sum_f_R0 (fun m => pw m a b) N) E a b = sum_f_R0 (fun m => pw m a b) N - one a b + pw (S N) a b).
      { intros a b Ha Hb. induction N as [|N IH].
        - cbn [sum_f_R0]. change (fun a b => pw 0 a b) with (pw 0). cbn [pw]. ring.
        - transitivity (mm n (fun a b => sum_f_R0 (fun m => pw m a b) N) E a b + mm n (pw (S N)) E a b).
          + unfold mm. rewrite <- rsum_add. apply sum_n_ext. intros c _. rewrite tech5. ring.
          + rewrite IH, tech5. cbn [pw]. ring. }
      rewrite mm_diff_r. unfold diff. rewrite P by auto. rewrite (mm_one_r (n := n) _ Hi Hj). ring. }
    apply (cv_ext (f := fun N => one i j - pw (S N) i j)); [intros; now rewrite Q|].
    pose proof (CV_minus (fun _ => one i j) (fun N => pw (S N) i j) _ _ (cv_const _) (pw_zero Hi Hj)) as P. rewrite Rminus_0_r in P. exact P.
Qed.
End Neumann.

Lemma invertible_near n F0 X F : is_inverse n F0 X -> norm n X * norm n (diff F F0) < 1 -> exists Y, is_inverse n F Y.
Proof.
  intros HX Hs. apply inverse_mm in HX. destruct HX as [H1 H2].
  set (E := mm n X (diff F0 F)).
  assert (Sm : norm n E < 1).
  { eapply Rle_lt_trans; [apply norm_mm|]. replace (norm n (diff F0 F)) with (norm n (diff F F0)); [exact Hs|].
    unfold norm. apply sum_n_ext. intros i _. apply sum_n_ext. intros j _. unfold diff. apply Rabs_minus_sym. }
  (* F = F0 (1 - E) *)
  assert (EF : same n F (mm n F0 (diff one E))).
  { intros i j Hi Hj. rewrite mm_diff_r. unfold diff at 1. rewrite (mm_one_r (n := n) _ Hi Hj). unfold E. rewrite <- mm_assoc.
    rewrite (mm_same (B := diff F0 F) H2 (same_refl (n := n) _) Hi Hj). rewrite (mm_one_l (n := n) _ Hi Hj). unfold diff. ring. }
  set (Sr := ser Sm).
  assert (SL : same n (mm n (diff one E) Sr) one) by exact (ser_l Sm).
  assert (SR : same n (mm n Sr (diff one E)) one) by exact (ser_r Sm).
  exists (mm n Sr X). apply inverse_mm. split; intros i j Hi Hj.
  - rewrite (mm_same (A := mm n Sr X) (same_refl (n := n) _) EF Hi Hj). rewrite mm_assoc.
    rewrite <- (SR i j Hi Hj). apply mm_same; auto; [apply same_refl|]. intros a b Ha Hb.
    rewrite <- mm_assoc. rewrite (mm_same (B := diff one E) H1 (same_refl (n := n) _) Ha Hb). now apply mm_one_l.
  - rewrite (mm_same (B := mm n Sr X) EF (same_refl (n := n) _) Hi Hj). rewrite mm_assoc.
    rewrite <- (H2 i j Hi Hj). apply mm_same; auto; [apply same_refl|]. intros a b Ha Hb.
    rewrite <- mm_assoc. rewrite (mm_same (B := X) SL (same_refl (n := n) _) Ha Hb). now apply mm_one_l.
Qed.

(** ** Derivatives *)
Lemma lim_near f g t d dl : 0 < dl -> (forall u, Rabs (u - t) < dl -> f u = g u) -> derivable_pt_lim g t d -> derivable_pt_lim f t d.
Proof.
  intros Pd E H eps Pe. destruct (H eps Pe) as ((d1 & P1) & Hd).
  assert (Pm : 0 < Rmin d1 dl) by (apply Rmin_glb_lt; auto). exists (mkposreal _ Pm). intros h Nh Hh. simpl in *.
  pose proof (Rmin_l d1 dl). pose proof (Rmin_r d1 dl).
  rewrite !E.
  - apply Hd; auto. simpl. lra.
  - replace (t - t) with 0 by ring. now rewrite Rabs_R0.
  - replace (t + h - t) with h by ring. lra.
Qed.
Lemma lim_rsum n (f : nat -> R -> R) (d : nat -> R) t : (forall a, (a < n)%nat -> derivable_pt_lim (f a) t (d a)) ->
  derivable_pt_lim (fun u => sum_n n (fun a => f a u)) t (sum_n n d).
Proof.
  induction n as [|n IH]; intros H.
  - apply (derivable_pt_lim_const 0).
  - apply (derivable_pt_lim_plus (fun u => sum_n n (fun a => f a u)) (f n)); [apply IH; intros; apply H; lia|apply H; lia].
Qed.
(** A factor that is zero at the point only needs the other one to be continuous. *)
Lemma lim_mul0 f g t d : derivable_pt_lim f t d -> f t = 0 -> continuity_pt g t -> derivable_pt_lim (fun u => f u * g u) t (d * g t).
Proof.
  intros Hf Z Hg. unfold continuity_pt, continue_in, limit1_in, limit_in in Hg. simpl in Hg. unfold R_dist in Hg.
  assert (Bd : forall e, 0 < e -> exists dl, 0 < dl /\ forall h, Rabs h < dl -> Rabs (g (t + h) - g t) < e).
  { intros e He. destruct (Hg e He) as (dl & Pd & Hd). exists dl. split; [exact Pd|]. intros h Hh.
    destruct (Req_dec h 0) as [->|Nh]; [rewrite Rplus_0_r, Rminus_diag_eq by reflexivity; now rewrite Rabs_R0|].
    apply Hd. split; [split; [exact Logic.I|lra]|]. replace (t + h - t) with h by ring. exact Hh. }
  intros eps He.
  set (M := Rabs (g t) + 1). assert (PM : 0 < M) by (unfold M; pose proof (Rabs_pos (g t)); lra).
  set (K := Rabs d + 1). assert (PK : 0 < K) by (unfold K; pose proof (Rabs_pos d); lra).
  assert (P1 : 0 < eps / (2 * M)) by (apply Rdiv_lt_0_compat; lra).
  assert (P2 : 0 < eps / (2 * K)) by (apply Rdiv_lt_0_compat; lra).
  destruct (Hf _ P1) as ((d1 & Pd1) & H1). destruct (Bd _ P2) as (d2 & Pd2 & H2). destruct (Bd 1 Rlt_0_1) as (d3 & Pd3 & H3). simpl in H1.
  assert (Pm : 0 < Rmin d1 (Rmin d2 d3)) by (repeat apply Rmin_glb_lt; auto). exists (mkposreal _ Pm). intros h Nh Hh. simpl in Hh.
  pose proof (Rmin_l d1 (Rmin d2 d3)). pose proof (Rmin_r d1 (Rmin d2 d3)). pose proof (Rmin_l d2 d3). pose proof (Rmin_r d2 d3).
  assert (Q1 : Rabs ((f (t + h) - f t) / h - d) < eps / (2 * M)) by (apply H1; auto; lra).
  assert (Q2 : Rabs (g (t + h) - g t) < eps / (2 * K)) by (apply H2; lra).
  assert (Q3 : Rabs (g (t + h)) < M).
  { unfold M. replace (g (t + h)) with (g t + (g (t + h) - g t)) by ring. eapply Rle_lt_trans; [apply Rabs_triang|].
    assert (Rabs (g (t + h) - g t) < 1) by (apply H3; lra). lra. }
  rewrite Z. replace ((f (t + h) * g (t + h) - 0 * g t) / h - d * g t) with (((f (t + h) - f t) / h - d) * g (t + h) + d * (g (t + h) - g t)) by (rewrite Z; field; exact Nh).
  eapply Rle_lt_trans; [apply Rabs_triang|]. rewrite !Rabs_mult.
  apply Rle_lt_trans with (eps / (2 * M) * Rabs (g (t + h)) + Rabs d * (eps / (2 * K))).
  - apply Rplus_le_compat; [apply Rmult_le_compat_r; [apply Rabs_pos|lra]|apply Rmult_le_compat_l; [apply Rabs_pos|lra]].
  - assert (eps / (2 * M) * Rabs (g (t + h)) < eps / (2 * M) * M) by (apply Rmult_lt_compat_l; auto).
    assert (Rabs d * (eps / (2 * K)) <= K * (eps / (2 * K))) by (apply Rmult_le_compat_r; [lra|unfold K; lra]).
    replace (eps / (2 * M) * M) with (eps / 2) in * by (field; lra). replace (K * (eps / (2 * K))) with (eps / 2) in * by (field; lra). lra.
Qed.

Lemma det_lim n : forall (Ft : R -> nat -> nat -> R) t (E : nat -> nat -> R),
  (forall i j, (i < n)%nat -> (j < n)%nat -> derivable_pt_lim (fun u => Ft u i j) t (E i j)) ->
  derivable_pt_lim (fun u => determinant n (Ft u)) t (sum_n n (fun a => determinant n (set_row (Ft t) a (E a)))).
Proof.
  induction n as [|n IH]; intros Ft t E H; [apply (derivable_pt_lim_const 1)|].
  assert (Eq : sum_n (S n) (fun a => determinant (S n) (set_row (Ft t) a (E a))) =
     sum_n (S n) (fun k => (sign k * E O k) * determinant n (minor (Ft t) k) +
        (sign k * Ft t O k) * sum_n n (fun a => determinant n (set_row (minor (Ft t) k) a (minor E k a))))).
  { rewrite rsum_add. transitivity (determinant (S n) (set_row (Ft t) 0 (E O)) + sum_n n (fun a => determinant (S n) (set_row (Ft t) (S a) (E (S a))))).
    - apply (rsum_first n (fun a => determinant (S n) (set_row (Ft t) a (E a)))).
    - f_equal.
      cbn [determinant]. rewrite rsum_swap. apply sum_n_ext. intros k _. rewrite <- rsum_mul_l. reflexivity. }
  rewrite Eq. cbn [determinant].
  apply (lim_rsum (f := fun k u => (sign k * Ft u O k) * determinant n (minor (Ft u) k))). intros k Hk.
  apply (derivable_pt_lim_mult (fun u => sign k * Ft u O k) (fun u => determinant n (minor (Ft u) k))).
  - apply (derivable_pt_lim_scal (fun u => Ft u O k)). apply H; lia.
  - apply (IH (fun u => minor (Ft u) k)). intros i j Hi Hj. unfold minor. apply H; [lia|]. unfold skip. destruct (j <? k)%nat; lia.
Qed.
(** Jacobi's formula. *)
Theorem det_derivative n (Ft : R -> nat -> nat -> R) t (E X : nat -> nat -> R) :
  (forall i j, (i < n)%nat -> (j < n)%nat -> derivable_pt_lim (fun u => Ft u i j) t (E i j)) -> is_inverse n (Ft t) X ->
  derivable_pt_lim (fun u => determinant n (Ft u)) t (sum_n n (fun b => sum_n n (fun a => determinant n (Ft t) * X b a * E a b))).
Proof. intros H HX. pose proof (det_lim H) as D. rewrite (det_jacobi LawsR E HX) in D. exact D. Qed.

(** The difference of two inverses. *)
Lemma inverse_diff n F F0 X X0 : is_inverse n F X -> is_inverse n F0 X0 ->
  forall i j, (i < n)%nat -> (j < n)%nat -> X i j = X0 i j - mm n X0 (mm n (diff F F0) X) i j.
Proof.
  intros HX H0. apply inverse_mm in HX. apply inverse_mm in H0. destruct HX as [A1 A2], H0 as [B1 B2]. intros i j Hi Hj.
  assert (E : mm n X0 (mm n (diff F F0) X) i j = X0 i j - X i j).
  { rewrite (mm_same (A := X0) (B := mm n (diff F F0) X) (B' := diff one (mm n F0 X)) (same_refl (n := n) _)); auto.
    - rewrite mm_diff_r. unfold diff. rewrite (mm_one_r (n := n) _ Hi Hj), <- mm_assoc.
      rewrite (mm_same (B := X) B1 (same_refl (n := n) _) Hi Hj). now rewrite (mm_one_l (n := n) _ Hi Hj).
    - intros a b Ha Hb. rewrite mm_diff_l. unfold diff. now rewrite (A2 a b Ha Hb). }
  rewrite E. ring.
Qed.
Lemma cont_sum n (f : nat -> R -> R) t : (forall a, (a < n)%nat -> continuity_pt (f a) t) -> continuity_pt (fun u => sum_n n (fun a => f a u)) t.
Proof.
  induction n as [|n IH]; intros H.
  - apply continuity_pt_const. intros a b. reflexivity.
  - apply (continuity_pt_plus (fun u => sum_n n (fun a => f a u)) (f n)); [apply IH; intros; apply H; lia|apply H; lia].
Qed.
(** Matrices on a differentiable curve get close. *)
Lemma curve_near n (Ft : R -> nat -> nat -> R) t : (forall i j, (i < n)%nat -> (j < n)%nat -> continuity_pt (fun u => Ft u i j) t) ->
  forall e, 0 < e -> exists dl, 0 < dl /\ forall u, Rabs (u - t) < dl -> norm n (diff (Ft u) (Ft t)) < e.
Proof.
  intros H e He. assert (C : continuity_pt (fun u => norm n (diff (Ft u) (Ft t))) t).
  { unfold norm. apply (cont_sum (f := fun i u => sum_n n (fun j => Rabs (diff (Ft u) (Ft t) i j)))). intros i Hi.
    apply (cont_sum (f := fun j u => Rabs (diff (Ft u) (Ft t) i j))). intros j Hj.
    apply (continuity_pt_comp (fun u => diff (Ft u) (Ft t) i j) Rabs); [|apply Rcontinuity_abs].
    apply (continuity_pt_minus (fun u => Ft u i j) (fun _ => Ft t i j)); [now apply H|]. apply continuity_pt_const. intros a b. reflexivity. }
  destruct (C e He) as (dl & Pd & Hd). exists dl. split; [exact Pd|]. intros u Hu.
  assert (Z : norm n (diff (Ft t) (Ft t)) = 0).
  { unfold norm. apply rsum_zero. intros. apply rsum_zero. intros. unfold diff. rewrite Rminus_diag_eq by reflexivity. apply Rabs_R0. }
  destruct (Req_dec u t) as [->|Nu]; [rewrite Z; exact He|].
  specialize (Hd u). simpl in Hd. unfold R_dist in Hd. rewrite Z, Rminus_0_r in Hd.
  eapply Rle_lt_trans; [apply Rle_abs|]. apply Hd. split; [split; [exact Logic.I|now apply not_eq_sym]|exact Hu].
Qed.
(** The derivative of the inverse, for any function that inverts near the point. *)
Theorem inv_derivative n (Ft Xt : R -> nat -> nat -> R) t (E : nat -> nat -> R) :
  (forall i j, (i < n)%nat -> (j < n)%nat -> derivable_pt_lim (fun u => Ft u i j) t (E i j)) ->
  (forall u Y, is_inverse n (Ft u) Y -> is_inverse n (Ft u) (Xt u)) -> (exists Y, is_inverse n (Ft t) Y) ->
  forall l k, (l < n)%nat -> (k < n)%nat ->
  derivable_pt_lim (fun u => Xt u l k) t (- sum_n n (fun b => sum_n n (fun a => Xt t l a * E a b) * Xt t b k)).
Proof.
  intros HF HX (Y & HY). assert (H0 : is_inverse n (Ft t) (Xt t)) by (eapply HX; eauto). clear Y HY.
  set (m0 := norm n (Xt t)). assert (P0 : 0 <= m0) by apply norm_pos.
  assert (CF : forall i j, (i < n)%nat -> (j < n)%nat -> continuity_pt (fun u => Ft u i j) t).
  { intros i j Hi Hj. apply derivable_continuous_pt. exists (E i j). now apply HF. }
  (* near t: invertible, with a bound *)
  assert (Near : forall e, 0 < e -> exists dl, 0 < dl /\ forall u, Rabs (u - t) < dl -> is_inverse n (Ft u) (Xt u) /\ norm n (diff (Xt u) (Xt t)) < e).
  { intros e He. set (q := Rmin (/ (2 * (m0 + 1))) (e / (2 * (m0 + 1) * (m0 + 1)))).
    assert (Pq : 0 < q). { unfold q. apply Rmin_glb_lt; [apply Rinv_0_lt_compat; lra|apply Rdiv_lt_0_compat; [exact He|]]. apply Rmult_lt_0_compat; lra. }
    destruct (curve_near CF Pq) as (dl & Pd & Hd). exists dl. split; [exact Pd|]. intros u Hu. specialize (Hd u Hu).
    set (z := norm n (diff (Ft u) (Ft t))) in *. assert (Pz : 0 <= z) by apply norm_pos.
    assert (Q1 : z <= / (2 * (m0 + 1))) by (unfold q in Hd; pose proof (Rmin_l (/ (2 * (m0 + 1))) (e / (2 * (m0 + 1) * (m0 + 1)))); lra).
    assert (Q2 : z < e / (2 * (m0 + 1) * (m0 + 1))) by (unfold q in Hd; pose proof (Rmin_r (/ (2 * (m0 + 1))) (e / (2 * (m0 + 1) * (m0 + 1)))); lra).
    assert (Half : (m0 + 1) * z <= / 2).
    { apply Rle_trans with ((m0 + 1) * / (2 * (m0 + 1))); [apply Rmult_le_compat_l; lra|]. right. field. lra. }
    assert (Half' : m0 * z <= / 2) by (pose proof Half; nra).
    assert (Hu' : is_inverse n (Ft u) (Xt u)).
    { destruct (@invertible_near n (Ft t) (Xt t) (Ft u) H0) as (Y & HY); [fold m0 z; lra|]. eapply HX; eauto. }
    split; [exact Hu'|].
    set (m := norm n (Xt u)). assert (Pm : 0 <= m) by apply norm_pos.
    assert (D : norm n (diff (Xt u) (Xt t)) <= m0 * (z * m)).
    { replace (norm n (diff (Xt u) (Xt t))) with (norm n (mm n (Xt t) (mm n (diff (Ft u) (Ft t)) (Xt u)))).
      - eapply Rle_trans; [apply norm_mm|]. apply Rmult_le_compat_l; [exact P0|apply norm_mm].
      - unfold norm. apply sum_n_ext. intros i Hi. apply sum_n_ext. intros j Hj. pose proof (inverse_diff Hu' H0 Hi Hj) as Q.
        rewrite <- Rabs_Ropp. f_equal. change (diff (Xt u) (Xt t) i j) with (Xt u i j - Xt t i j). lra. }
    assert (Bm : m <= m0 + m0 * (z * m)).
    { unfold m at 1. eapply Rle_trans; [apply (norm_add (A := Xt t) (B := diff (Xt u) (Xt t)))|].
      - intros i j _ _. unfold diff. ring.
      - fold m0. lra. }
    assert (m <= 2 * m0) by nra.
    eapply Rle_lt_trans; [exact D|].
    apply Rle_lt_trans with (m0 * (z * (2 * m0))); [apply Rmult_le_compat_l; [exact P0|]; apply Rmult_le_compat_l; assumption|].
    apply Rle_lt_trans with (z * (2 * (m0 + 1) * (m0 + 1))); [nra|].
    apply Rlt_le_trans with (e / (2 * (m0 + 1) * (m0 + 1)) * (2 * (m0 + 1) * (m0 + 1))).
    - apply Rmult_lt_compat_r; [|exact Q2]. apply Rmult_lt_0_compat; lra.
    - right. field. lra. }
  assert (CX : forall i j, (i < n)%nat -> (j < n)%nat -> continuity_pt (fun u => Xt u i j) t).
  { intros i j Hi Hj e He. destruct (Near e He) as (dl & Pd & Hd). exists dl. split; [exact Pd|]. intros u [_ Hu]. simpl in *. unfold R_dist in *.
    eapply Rle_lt_trans; [|apply (proj2 (Hd u Hu))]. apply (norm_entry (n := n) (diff (Xt u) (Xt t))); auto. }
  intros l k Hl Hk. destruct (Near 1 Rlt_0_1) as (dl & Pd & Hd).
  apply lim_near with (g := fun u => Xt t l k - sum_n n (fun a => Xt t l a * sum_n n (fun b => (Ft u a b - Ft t a b) * Xt u b k))) (dl := dl); [exact Pd| |].
  { intros u Hu. exact (inverse_diff (proj1 (Hd u Hu)) H0 Hl Hk). }
  replace (- sum_n n (fun b => sum_n n (fun a => Xt t l a * E a b) * Xt t b k)) with
    (0 - sum_n n (fun a => Xt t l a * sum_n n (fun b => E a b * Xt t b k))).
  - apply (derivable_pt_lim_minus (fun _ => Xt t l k)); [apply derivable_pt_lim_const|].
    apply (lim_rsum (f := fun a u => Xt t l a * sum_n n (fun b => (Ft u a b - Ft t a b) * Xt u b k))). intros a Ha.
    apply (derivable_pt_lim_scal (fun u => sum_n n (fun b => (Ft u a b - Ft t a b) * Xt u b k))).
    apply (lim_rsum (f := fun b u => (Ft u a b - Ft t a b) * Xt u b k)). intros b Hb.
    apply (lim_mul0 (f := fun u => Ft u a b - Ft t a b) (g := fun u => Xt u b k)); [|ring|now apply CX].
    replace (E a b) with (E a b - 0) by ring. apply (derivable_pt_lim_minus (fun u => Ft u a b) (fun _ => Ft t a b)); [now apply HF|apply derivable_pt_lim_const].
  - assert (Q : sum_n n (fun a => Xt t l a * sum_n n (fun b => E a b * Xt t b k)) = sum_n n (fun b => sum_n n (fun a => Xt t l a * E a b) * Xt t b k)).
    { symmetry. exact (mm_assoc n (Xt t) E (Xt t) l k). }
    rewrite Q. ring.
Qed.
