(** * Properties C59, C60: inverse and determinant of square matrices *)
From Coq Require Import List Arith Bool Lia ZArith Permutation Reals Lra.
From Verif Require Import Num NumInst MatMem Kernels KernelFacts KernelProofs KernelBlocks KernelMore Registry KernelStep Backend Square Slots Exec Sums Determ InvCalc ConvProofs ConvDerv MatEngine MatGraph MatLeaf MatEval MatDeval MatHist MatSpec MatCalls MatFuel MatCalc MatRev MatInplace RevVals MatRevOk MatRevCall MatRevHist PropMatrix PropReverse.
Import ListNotations.
Set Implicit Arguments.
Unset Strict Implicit.
Local Open Scope nat_scope.
Notation R := Rdefinitions.R.

(** ** Specification, spelled out once more *)
(** is_inverse n F X: F X = X F = 1. *)
Lemma is_inverse_spec : forall {T} {N : Num T} n (F X : nat -> nat -> T), is_inverse n F X <->
  forall l k, l < n -> k < n ->
    sum_n n (fun a => nmul (X l a) (F a k)) = (if l =? k then n1 else n0) /\ sum_n n (fun a => nmul (F l a) (X a k)) = (if l =? k then n1 else n0).
Proof. intros. reflexivity. Qed.
(** The determinant of small matrices, and its characterisation: linear in every row, zero
    if two rows are equal, one for the unit matrix. *)
Lemma determinant_1 : forall (F : nat -> nat -> R), determinant 1 F = F 0 0.
Proof. intros F. unfold determinant, sign. cbn [sum_n Nat.even nadd nmul n1 n0 NumR]. ring. Qed.
Lemma determinant_2 : forall (F : nat -> nat -> R), determinant 2 F = (F 0%nat 0%nat * F 1%nat 1%nat - F 0%nat 1%nat * F 1%nat 0%nat)%R.
Proof. intros F. unfold determinant, sign, minor, skip. cbn [sum_n Nat.even Nat.ltb Nat.leb nadd nmul n1 n0 nm1 NumR]. ring. Qed.
Lemma determinant_linear : forall {T} {N : Num T}, NumLaws N -> forall n (F : nat -> nat -> T) a c u d v, a < n ->
  determinant n (set_row F a (fun j => nadd (nmul c (u j)) (nmul d (v j)))) =
  nadd (nmul c (determinant n (set_row F a u))) (nmul d (determinant n (set_row F a v))).
Proof. intros. now apply det_lin. Qed.
Lemma determinant_alternating : forall {T} {N : Num T}, NumLaws N -> forall n (F : nat -> nat -> T) i j, i < j -> j < n ->
  (forall c, c < n -> F i c = F j c) -> determinant n F = n0.
Proof. intros T N L n F i j Hi Hj H. exact (det_alt L Hi Hj H). Qed.
Section Unit.
Context {T : Type} {N : Num T}.
Hypothesis L : NumLaws N.
Add Ring TR : (law_ring N L).
Lemma determinant_one n : determinant n (fun i j => if i =? j then n1 else n0 : T) = n1.
Proof.
  induction n as [|n IH]; [reflexivity|]. cbn [determinant].
  rewrite (sum_n_ext (g := fun k => nmul (if k =? 0 then n1 else n0) n1)).
  - apply (sum_delta_mul_l L (fun _ => n1) (Nat.lt_0_succ n)).
  - intros k Hk. destruct k as [|k].
    + cbn [Nat.eqb]. unfold sign. cbn [Nat.even]. rewrite (det_ext (F' := fun i j => if i =? j then n1 else n0)), IH; [ring|]. reflexivity.
    + cbn [Nat.eqb]. ring.
Qed.
End Unit.

Section Square.
Context {T : Type} {N : Num T}.
Variable L : NumLaws N.
Variable G : graph T.
Lemma root_un host k id (e : mexp T) : root host (MUn k id e) -> root host e.
Proof. intros [A B]. simpl in *. inversion A; subst. split; [assumption|]. intros i Hi. apply B. simpl. auto. Qed.
Lemma fits_un_inv k id (e : mexp T) : fits G (MUn k id e) -> fits G e /\ un_fits G k e.
Proof. intros H. inversion H; subst. auto. Qed.
End Square.

(** ** C59 *)
(** inverse(e) for e an n x n expression whose value F has the inverse X; g is the numerical routine. *)
Theorem C59_value : forall {T} {N : Num T}, NumLaws N -> forall (S : sched T), valid_sched S ->
  forall (h : handler) (G : graph T) host rank, wf_graph G host rank ->
  forall s, reached S h G host s ->
  forall (rho : env T) g id e n, root host (MUn (UInv g) id e) -> fits G e -> rows G e = n -> cols G e = n -> settled G (MUn (UInv g) id e) s ->
  inverts g n -> forall F X, den G rho e F -> is_inverse n F X ->
  exists p s', returns S h G (AEval rho (MUn (UInv g) id e)) s p s' /\ holds (mm s') p (Mat n n X) /\ reached S h G host s'.
Proof.
  intros T N L S VS h G host rank WF s R rho g id e n Hr Hf Rn Cn Hs Hg F X HF HX.
  destruct (C38_eval L VS WF R rho Hr (fits_un id Hf (k := UInv g) (eq_trans Rn (eq_sym Cn))) Hs) as (F' & p & s' & HF' & E & Hp & R').
  exists p, s'. split; [exact E|]. split; [|exact R']. eapply holds_meq; [exact Hp|].
  rewrite (den_det HF' (den_inv g id HF)), Rn.
  split; [exact Rn|]. split; [exact Cn|]. unfold mat_of. cbn [mf mr mc]. intros i j Hi Hj.
  change (rows G (MUn (UInv g) id e)) with (rows G e) in Hi. change (cols G (MUn (UInv g) id e)) with (cols G e) in Hj.
  apply (inverse_unique L (Hg _ _ HX) HX); congruence.
Qed.
Print Assumptions C59_value.
(** Its derivative by x(i,j), with D the derivative of e: - X D X. *)
Theorem C59_derivative : forall {T} {N : Num T}, NumLaws N -> forall (S : sched T), valid_sched S ->
  forall (G : graph T) host rank, wf_graph G host rank -> distinct_vars G ->
  forall s, reached S HEigen G host s ->
  forall (rho : env T) g id e n x, g_kind G x = LVar -> root host (MUn (UInv g) id e) -> fits G e -> rows G e = n -> cols G e = n -> settled G (MUn (UInv g) id e) s ->
  inverts g n -> forall F D X, dif G rho x e F D -> is_inverse n F X ->
  exists p s', returns S HEigen G (ADevalF rho (MUn (UInv g) id e) x) s p s' /\ is_mat (mm s') p (n * g_rows G x) (n * g_cols G x) /\
    forall l k i j, l < n -> k < n -> i < g_rows G x -> j < g_cols G x ->
      val (mm s') p (l * g_rows G x + i) (k * g_cols G x + j) =
      nmul nm1 (sum_n n (fun b => nmul (sum_n n (fun a => nmul (X l a) (D a b i j))) (X b k))).
Proof.
  intros T N L S VS G host rank WF DV s R rho g id e n x Xv Hr Hf Rn Cn Hs Hg F D X HD HX.
  destruct (C40_entries L VS WF DV R rho Xv Hr (fits_un id Hf (k := UInv g) (eq_trans Rn (eq_sym Cn))) Hs) as (F' & D' & p & s' & HD' & E & Hm & Hv).
  destruct (dif_fun_det HD' (dif_inv g id HD)) as [_ ->].
  change (rows G (MUn (UInv g) id e)) with (rows G e) in *. change (cols G (MUn (UInv g) id e)) with (cols G e) in *. rewrite Rn, Cn in *.
  exists p, s'. split; [exact E|]. split; [exact Hm|]. intros l k i j Hl Hk Hi Hj. rewrite (Hv l k i j Hl Hk Hi Hj).
  pose proof (inverse_unique L (Hg _ _ HX) HX) as U. f_equal. apply sum_n_ext. intros b Hb. rewrite (U b k Hb Hk). f_equal.
  apply sum_n_ext. intros a Ha. now rewrite (U l a Hl Ha).
Qed.
Print Assumptions C59_derivative.
(** ... which is the derivative of calculus: Ft t is the value of e, and Xt t its inverse, when x(i,j) is t. *)
Theorem C59_limit : forall (S : sched R), valid_sched S ->
  forall (G : graph R) host rank, wf_graph G host rank -> distinct_vars G ->
  forall s, reached S HEigen G host s ->
  forall g id e n x i j, g_kind G x = LVar -> i < g_rows G x -> j < g_cols G x -> root host (MUn (UInv g) id e) -> fits G e -> rows G e = n -> cols G e = n ->
  settled G (MUn (UInv g) id e) s -> inverts g n ->
  forall (rho_ : R -> env R) t0, varies G x i j rho_ t0 -> smooth G (rho_ t0) e ->
  forall Ft Xt, (forall t, den G (rho_ t) e (Ft t)) -> (exists Y, is_inverse n (Ft t0) Y) ->
  (forall t Y, is_inverse n (Ft t) Y -> is_inverse n (Ft t) (Xt t)) ->
  exists p s', returns S HEigen G (ADevalF (rho_ t0) (MUn (UInv g) id e) x) s p s' /\
    forall l k, l < n -> k < n -> derivable_pt_lim (fun t => Xt t l k) t0 (val (mm s') p (l * g_rows G x + i) (k * g_cols G x + j)).
Proof.
  intros S VS G host rank WF DV s R g id e n x i j Xv Hi Hj Hr Hf Rn Cn Hs Hg rho_ t0 V Sm Ft Xt HF (Y & HY) HX.
  destruct (dif_total (rho_ t0) x Hf) as (F & D & HD). destruct (dif_lim WF V Hf Sm HD Hi Hj) as (Fs & E0 & Hd & Hl).
  assert (Q : forall t, Fs t = Ft t) by (intros t; exact (den_det (Hd t) (HF t))).
  assert (H0 : is_inverse n F (Xt t0)) by (rewrite <- E0, Q; eapply HX; exact HY).
  destruct (C59_derivative LawsR VS WF DV R Xv Hr Hf Rn Cn Hs Hg HD H0) as (p & s' & E & _ & Hv).
  exists p, s'. split; [exact E|]. intros l k Bl Bk. rewrite (Hv l k i j Bl Bk Hi Hj).
  eapply lim_eq; [|apply (@inv_derivative n Ft Xt t0 (fun a b => D a b i j)); [|exact HX|exists Y; exact HY|exact Bl|exact Bk]].
  - cbn [nmul nm1 NumR]. change (-sum_n n (fun b => sum_n n (fun a => Xt t0 l a * D a b i j) * Xt t0 b k) = -1 * sum_n n (fun b => sum_n n (fun a => Xt t0 l a * D a b i j) * Xt t0 b k))%R. ring.
  - intros a b Ha Hb. eapply lim_ext; [intros u; rewrite <- Q; reflexivity|]. apply Hl; congruence.
Qed.
Print Assumptions C59_limit.
(** In reverse mode: F := inverse(e) is a named matrix, e has the derivative D by x, which occurs in e; DevalR(F, x)
    after PreComp(F) is the derivative of the trace of the inverse. *)
Theorem C59_reverse : forall {T} {N : Num T}, NumLaws N -> forall (S : sched T), valid_sched S ->
  forall (h : handler) (G : graph T) host rank, wf_graph G host rank ->
  forall ord, (forall c, Permutation (ord c) c) ->
  forall s, rreached S (backend_of S h) G ord host s ->
  forall (rho : env T) O id g i1 e y n, rev_root G O id (MUn (UInv g) i1 e) y -> solvable G rho e -> rows G e = n -> inverts g n ->
  forall x, In x (keyed e) -> variable_of G rho (MUn (UInv g) i1 e) y x ->
  forall F D X, dif G rho x e F D -> is_inverse n F X ->
  exists s1 s' p, precomputes S h G ord rho O s s1 /\ DevalR G O x s1 = EOk (p, s') /\
    holds (mm (rb s')) p (Mat (g_rows G x) (g_cols G x) (fun i j => sum_n n (fun l =>
      nmul nm1 (sum_n n (fun b => nmul (sum_n n (fun a => nmul (X l a) (D a b i j))) (X b l)))))).
Proof.
  intros T N L S VS h G host rank WF ord Ho s Rs rho O id g i1 e y n Hr Sv Rn Hg x Hx Vx F D X HD HX.
  assert (Sv' : solvable G rho (MUn (UInv g) i1 e)).
  { split; [exact Sv|]. rewrite Rn. split; [exact Hg|]. intros F2 HF2. exists X. now rewrite (den_det HF2 (dif_den HD)). }
  destruct (C42_gradient L VS WF Ho Rs (rho := rho) Hr Sv' (l := [x])) as (s1 & E & Q & _); [intros z [<-|[]]; exact Vx|].
  destruct Q as (p & s' & Ed & An & _). destruct An as [F0 D0 _ HD0 Hp|Na _]; [|exfalso; apply (Na x); [right; exact Hx|reflexivity]].
  exists s1, s', p. split; [exact E|]. split; [exact Ed|]. eapply holds_meq; [exact Hp|]. split; [reflexivity|]. split; [reflexivity|]. cbn [mf mr mc]. intros i j Hi Hj.
  destruct (dif_fun_det HD0 (dif_inv g i1 HD)) as [_ ->]. destruct (fits_dims WF (rr_kind Hr)) as [D1 _]. change (rows G (MUn (UInv g) i1 e)) with (rows G e) in D1.
  rewrite <- D1, Rn. pose proof (inverse_unique L (Hg _ _ HX) HX) as U.
  apply sum_n_ext. intros l Hl. f_equal. apply sum_n_ext. intros b Hb. rewrite (U b l Hb Hl). f_equal. apply sum_n_ext. intros a Ha. now rewrite (U l a Hl Ha).
Qed.
Print Assumptions C59_reverse.
(** Matrices that are not square are rejected: neither Eval nor DevalF ever returns a matrix. *)
Theorem C59_rejects : forall {T} {N : Num T} (S : sched T) (h : handler) (G : graph T) g id e, rows G e <> cols G e ->
  forall f s rho x r, Eval S (backend_of S h) G rho f (MUn (UInv g) id e) s <> EOk r /\ DevalF S (backend_of S h) G rho f (MUn (UInv g) id e) x s <> EOk r.
Proof.
  intros T N S h G g id e Ne f s rho x r. apply Nat.eqb_neq in Ne. unfold Eval, DevalF, ebind.
  destruct (reset G f (MUn (UInv g) id e) s) as [[[] s0]| | |]; try (split; discriminate).
  destruct f as [|f]; [split; discriminate|]. cbn [eval devalF]. unfold ebind, eassert, un_verify. rewrite Ne. split; discriminate.
Qed.
Print Assumptions C59_rejects.

(** ** C60 *)
Theorem C60_value : forall {T} {N : Num T}, NumLaws N -> forall (S : sched T), valid_sched S ->
  forall (h : handler) (G : graph T) host rank, wf_graph G host rank ->
  forall s, reached S h G host s ->
  forall (rho : env T) g d id e n, root host (MUn (UDet g d) id e) -> fits G e -> rows G e = n -> cols G e = n -> settled G (MUn (UDet g d) id e) s ->
  measures d n -> forall F, den G rho e F ->
  exists p s', returns S h G (AEval rho (MUn (UDet g d) id e)) s p s' /\ holds (mm s') p (Mat 1 1 (fun _ _ => determinant n F)) /\ reached S h G host s'.
Proof.
  intros T N L S VS h G host rank WF s R rho g d id e n Hr Hf Rn Cn Hs Hd F HF.
  destruct (C38_eval L VS WF R rho Hr (fits_un id Hf (k := UDet g d) (eq_trans Rn (eq_sym Cn))) Hs) as (F' & p & s' & HF' & E & Hp & R').
  exists p, s'. split; [exact E|]. split; [|exact R']. eapply holds_meq; [exact Hp|].
  rewrite (den_det HF' (den_determinant g d id HF)), Rn, Hd. split; [reflexivity|]. split; [reflexivity|]. reflexivity.
Qed.
Print Assumptions C60_value.
(** Derivative at an invertible F with inverse X: det(F) * trace(X D). *)
Theorem C60_derivative : forall {T} {N : Num T}, NumLaws N -> forall (S : sched T), valid_sched S ->
  forall (G : graph T) host rank, wf_graph G host rank -> distinct_vars G ->
  forall s, reached S HEigen G host s ->
  forall (rho : env T) g d id e n x, g_kind G x = LVar -> root host (MUn (UDet g d) id e) -> fits G e -> rows G e = n -> cols G e = n -> settled G (MUn (UDet g d) id e) s ->
  inverts g n -> measures d n -> forall F D X, dif G rho x e F D -> is_inverse n F X ->
  exists p s', returns S HEigen G (ADevalF rho (MUn (UDet g d) id e) x) s p s' /\ is_mat (mm s') p (g_rows G x) (g_cols G x) /\
    forall i j, i < g_rows G x -> j < g_cols G x ->
      val (mm s') p i j = nmul (determinant n F) (sum_n n (fun l => sum_n n (fun a => nmul (X l a) (D a l i j)))).
Proof.
  intros T N L S VS G host rank WF DV s R rho g d id e n x Xv Hr Hf Rn Cn Hs Hg Hd F D X HD HX.
  destruct (C40_entries L VS WF DV R rho Xv Hr (fits_un id Hf (k := UDet g d) (eq_trans Rn (eq_sym Cn))) Hs) as (F' & D' & p & s' & HD' & E & Hm & Hv).
  destruct (dif_fun_det HD' (dif_determinant g d id HD)) as [_ ->].
  change (rows G (MUn (UDet g d) id e)) with 1 in *. change (cols G (MUn (UDet g d) id e)) with 1 in *. rewrite Rn, !Nat.mul_1_l in *.
  exists p, s'. split; [exact E|]. split; [exact Hm|]. intros i j Hi Hj. rewrite (Hv 0 0 i j Nat.lt_0_1 Nat.lt_0_1 Hi Hj : val (mm s') p i j = _).
  pose proof (inverse_unique L (Hg _ _ HX) HX) as U. rewrite <- (sum_mul_l L). apply sum_n_ext. intros b Hb. rewrite <- (sum_mul_l L). apply sum_n_ext. intros a Ha.
  rewrite (U b a Hb Ha), Hd. symmetry. destruct (law_ring N L). apply Rmul_assoc.
Qed.
Print Assumptions C60_derivative.
Theorem C60_limit : forall (S : sched R), valid_sched S ->
  forall (G : graph R) host rank, wf_graph G host rank -> distinct_vars G ->
  forall s, reached S HEigen G host s ->
  forall g d id e n x i j, g_kind G x = LVar -> i < g_rows G x -> j < g_cols G x -> root host (MUn (UDet g d) id e) -> fits G e -> rows G e = n -> cols G e = n ->
  settled G (MUn (UDet g d) id e) s -> inverts g n -> measures d n ->
  forall (rho_ : R -> env R) t0, varies G x i j rho_ t0 -> smooth G (rho_ t0) e ->
  forall Ft, (forall t, den G (rho_ t) e (Ft t)) -> (exists Y, is_inverse n (Ft t0) Y) ->
  exists p s', returns S HEigen G (ADevalF (rho_ t0) (MUn (UDet g d) id e) x) s p s' /\
    derivable_pt_lim (fun t => determinant n (Ft t)) t0 (val (mm s') p i j).
Proof.
  intros S VS G host rank WF DV s R g d id e n x i j Xv Hi Hj Hr Hf Rn Cn Hs Hg Hd rho_ t0 V Sm Ft HF (Y & HY).
  destruct (dif_total (rho_ t0) x Hf) as (F & D & HD). destruct (dif_lim WF V Hf Sm HD Hi Hj) as (Fs & E0 & HFs & Hl).
  assert (Q : forall t, Fs t = Ft t) by (intros t; exact (den_det (HFs t) (HF t))).
  assert (H0 : is_inverse n F Y) by (rewrite <- E0, Q; exact HY).
  destruct (C60_derivative LawsR VS WF DV R Xv Hr Hf Rn Cn Hs Hg Hd HD H0) as (p & s' & E & _ & Hv).
  exists p, s'. split; [exact E|]. rewrite (Hv i j Hi Hj).
  eapply lim_eq; [|apply (@det_derivative n Ft t0 (fun a b => D a b i j) Y); [|exact HY]].
  - rewrite <- Q, E0. rewrite <- (sum_mul_l LawsR). apply sum_n_ext. intros b Hb. rewrite <- (sum_mul_l LawsR). apply sum_n_ext. intros a Ha. cbn [nmul NumR]. ring.
  - intros a b Ha Hb. eapply lim_ext; [intros u; rewrite <- Q; reflexivity|]. apply Hl; congruence.
Qed.
Print Assumptions C60_limit.
(** In reverse mode, F := det(e). *)
Theorem C60_reverse : forall {T} {N : Num T}, NumLaws N -> forall (S : sched T), valid_sched S ->
  forall (h : handler) (G : graph T) host rank, wf_graph G host rank ->
  forall ord, (forall c, Permutation (ord c) c) ->
  forall s, rreached S (backend_of S h) G ord host s ->
  forall (rho : env T) O id g d i1 e y n, rev_root G O id (MUn (UDet g d) i1 e) y -> solvable G rho e -> rows G e = n -> inverts g n -> measures d n ->
  forall x, In x (keyed e) -> variable_of G rho (MUn (UDet g d) i1 e) y x ->
  forall F D X, dif G rho x e F D -> is_inverse n F X ->
  exists s1 s' p, precomputes S h G ord rho O s s1 /\ DevalR G O x s1 = EOk (p, s') /\
    holds (mm (rb s')) p (Mat (g_rows G x) (g_cols G x) (fun i j =>
      nmul (determinant n F) (sum_n n (fun l => sum_n n (fun a => nmul (X l a) (D a l i j)))))).
Proof.
  intros T N L S VS h G host rank WF ord Ho s Rs rho O id g d i1 e y n Hr Sv Rn Hg Hd x Hx Vx F D X HD HX.
  destruct (C42_gradient L VS WF Ho Rs (rho := rho) Hr (conj Sv Logic.I : solvable G rho (MUn (UDet g d) i1 e)) (l := [x])) as (s1 & E & Q & _); [intros z [<-|[]]; exact Vx|].
  destruct Q as (p & s' & Ed & An & _). destruct An as [F0 D0 _ HD0 Hp|Na _]; [|exfalso; apply (Na x); [right; exact Hx|reflexivity]].
  exists s1, s', p. split; [exact E|]. split; [exact Ed|]. eapply holds_meq; [exact Hp|]. split; [reflexivity|]. split; [reflexivity|]. cbn [mf mr mc]. intros i j Hi Hj.
  destruct (dif_fun_det HD0 (dif_determinant g d i1 HD)) as [_ ->]. destruct (fits_dims WF (rr_kind Hr)) as [D1 _]. change (rows G (MUn (UDet g d) i1 e)) with 1 in D1.
  rewrite <- D1, Rn, (sum_1 L). pose proof (inverse_unique L (Hg _ _ HX) HX) as U.
  rewrite <- (sum_mul_l L). apply sum_n_ext. intros b Hb. rewrite <- (sum_mul_l L). apply sum_n_ext. intros a Ha.
  rewrite (U b a Hb Ha), Hd. symmetry. destruct (law_ring N L). apply Rmul_assoc.
Qed.
Print Assumptions C60_reverse.
Theorem C60_rejects : forall {T} {N : Num T} (S : sched T) (h : handler) (G : graph T) g d id e, rows G e <> cols G e ->
  forall f s rho x r, Eval S (backend_of S h) G rho f (MUn (UDet g d) id e) s <> EOk r /\ DevalF S (backend_of S h) G rho f (MUn (UDet g d) id e) x s <> EOk r.
Proof.
  intros T N S h G g d id e Ne f s rho x r. apply Nat.eqb_neq in Ne. unfold Eval, DevalF, ebind.
  destruct (reset G f (MUn (UDet g d) id e) s) as [[[] s0]| | |]; try (split; discriminate).
  destruct f as [|f]; [split; discriminate|]. cbn [eval devalF]. unfold ebind, eassert, un_verify. rewrite Ne. split; discriminate.
Qed.
Print Assumptions C60_rejects.

(** ** Singular matrices *)
(** det(X) for a 1x1 matrix X at X = 0: the derivative is 1, but DevalF multiplies the determinant with the inverse, so
    whatever the routine for the inverse returns the result is 0 (with IEEE doubles, 0 * inf, it is not a number). *)
Definition sg_graph : graph R := graph_of [ (LVar, (1, 1)) ].
Definition sg_exp (g : nat -> list R -> list R) (d : nat -> list R -> R) : mexp R := MUn (UDet g d) 1 (MLeaf 0).
Definition sg_env (t : R) : env R := Env (fun o n => match o, n with 0, 0 => t | _, _ => 0%R end) (fun _ _ _ _ => 0%R).
Lemma sg_wf : wf_graph sg_graph (fun _ => None) (fun o => o).
Proof. solve_wf. Qed.
Lemma sg_distinct : distinct_vars sg_graph.
Proof. intros [|[|o]] [|[|o']] H H' Ne; try discriminate; congruence. Qed.
Lemma tameR : tame memR.
Proof.
  split; [|split; [split|]].
  - intros p o H. destruct p; discriminate.
  - intros p o H. destruct p; discriminate.
  - intros p q o o' H. destruct p; discriminate.
  - intros k sp R0 C p [].
Qed.
Theorem C60_singular_refuted : forall (S : sched R), valid_sched S -> forall g d, measures d 1 ->
  wf_graph sg_graph (fun _ => None) (fun o => o) /\ distinct_vars sg_graph /\ varies sg_graph 0 0 0 sg_env 0%R /\ smooth sg_graph (sg_env 0%R) (MLeaf 0) /\
  fits sg_graph (sg_exp g d) /\
  exists Ft, (forall t, den sg_graph (sg_env t) (MLeaf 0) (Ft t)) /\ (forall t, Ft t 0 0 = t) /\ derivable_pt_lim (fun t => determinant 1 (Ft t)) 0%R 1%R /\
  exists p s', returns S HEigen sg_graph (ADevalF (sg_env 0%R) (sg_exp g d) 0) (init memR) p s' /\ val (mm s') p 0 0 = 0%R.
Proof.
  intros S VS g d Hd. assert (Hf : fits sg_graph (sg_exp g d)) by (apply fits_un; [now apply fits_leaf|reflexivity]).
  assert (D0 : forall t, den sg_graph (sg_env t) (MLeaf 0) (fun i j => e_val (sg_env t) 0 (i * g_cols sg_graph 0 + j))) by (intros t; apply (den_leaf (G := sg_graph) (sg_env t) (o := 0)); [exact Logic.I|discriminate]).
  split; [exact sg_wf|]. split; [exact sg_distinct|]. split.
  { constructor.
    - reflexivity.
    - intros t o n Hk Hn. destruct o as [|[|o]]; try discriminate. destruct n as [|n]; [exfalso; simpl in Hn; destruct Hn as [Hn|Hn]; apply Hn; reflexivity|reflexivity].
    - intros t o n Hk. destruct o as [|o]; [discriminate|reflexivity].
    - intros o n Hk. destruct o as [|[|o]]; discriminate. }
  split; [now apply sm_leaf|]. split; [exact Hf|].
  eexists. split; [exact D0|]. split; [reflexivity|]. split.
  { apply (lim_ext (g := fun t => t)); [intros u; exact (determinant_1 _)|]. apply derivable_pt_lim_id. }
  destruct (@C40_entries R NumR LawsR S VS sg_graph (fun _ => None) (fun o => o) sg_wf sg_distinct (init memR)) with (rho := sg_env 0%R) (e := sg_exp g d) (x := 0)
    as (F & D & p & s' & HD & E & _ & Hv).
  { constructor. exact tameR. } { reflexivity. } { split; [repeat constructor; simpl; tauto|reflexivity]. } { exact Hf. } { intros o id a y o' _ _ _ _ _; reflexivity. }
  exists p, s'. split; [exact E|]. specialize (Hv 0 0 0 0 Nat.lt_0_1 Nat.lt_0_1 Nat.lt_0_1 Nat.lt_0_1). cbn [Nat.mul Nat.add] in Hv. rewrite Hv.
  destruct (dif_fun_det HD (dif_determinant g d 1 (dif_var (G := sg_graph) (rho := sg_env 0%R) 0 (o := 0) eq_refl (D0 0%R)))) as [_ ->].
  change (rows sg_graph (MLeaf 0)) with 1. rewrite Hd, determinant_1. cbn. ring.
Qed.
Print Assumptions C60_singular_refuted.

(** ** Concrete programs *)
(** Routines that are right, for 2x2 matrices of integers: d_ for all sizes. *)
Definition d_ {T} {N : Num T} (n : nat) (l : list T) : T := determinant n (fun i j => nth (i * n + j) l n0).
Lemma row_major_nth {T} {N : Num T} n (F : nat -> nat -> T) i j : i < n -> j < n -> nth (i * n + j) (row_major n F) n0 = F i j.
Proof.
  intros Hi Hj. unfold row_major. rewrite (nth_indep _ n0 (F (0 / n) (0 mod n))) by (rewrite map_length, seq_length; nia).
  rewrite (map_nth (fun k => F (k / n) (k mod n))). rewrite seq_nth by nia. destruct (divmod_block i Hj) as [E1 E2]. now rewrite Nat.add_0_l, E1, E2.
Qed.
Lemma d_measures {T} {N : Num T} n : measures (d_ (T := T)) n.
Proof. intros F. unfold d_. apply det_ext. intros i j Hi Hj. now apply row_major_nth. Qed.
Definition gZ (n : nat) (l : list Z) : list Z :=
  match l with [a; b; c; d] => (let t := a * d - b * c in [t * d; - (t * b); - (t * c); t * a])%Z | _ => [] end.
Definition gR (n : nat) (l : list R) : list R :=
  match l with [a; b; c; d] => (let t := / (a * d - b * c) in [t * d; - (t * b); - (t * c); t * a])%R | _ => [] end.
Lemma gZ_inverts : inverts gZ 2.
Proof.
  intros F X H. destruct (H 0 0) as [H00 _]; [lia..|]. destruct (H 0 1) as [H01 _]; [lia..|]. destruct (H 1 0) as [H10 _]; [lia..|]. destruct (H 1 1) as [H11 _]; [lia..|].
  cbn [sum_n Nat.eqb nadd nmul n0 n1 NumZ] in H00, H01, H10, H11.
  set (a := F 0 0) in *. set (b := F 0 1) in *. set (c := F 1 0) in *. set (d := F 1 1) in *.
  set (t := (a * d - b * c)%Z). assert (Q : (t * t = 1)%Z).
  { assert (P : ((X 0%nat 0%nat * X 1%nat 1%nat - X 0%nat 1%nat * X 1%nat 0%nat) * t = 1)%Z).
    { transitivity ((X 0%nat 0%nat * a + X 0%nat 1%nat * c) * (X 1%nat 0%nat * b + X 1%nat 1%nat * d) - (X 0%nat 0%nat * b + X 0%nat 1%nat * d) * (X 1%nat 0%nat * a + X 1%nat 1%nat * c))%Z; [unfold t; ring|].
      replace (X 0%nat 0%nat * a + X 0%nat 1%nat * c)%Z with 1%Z by lia. replace (X 1%nat 0%nat * b + X 1%nat 1%nat * d)%Z with 1%Z by lia.
      replace (X 0%nat 0%nat * b + X 0%nat 1%nat * d)%Z with 0%Z by lia. ring. }
    assert (D : (t | 1)%Z) by (exists (X 0%nat 0%nat * X 1%nat 1%nat - X 0%nat 1%nat * X 1%nat 0%nat)%Z; lia).
    apply Z.divide_1_r in D. destruct D as [-> | ->]; reflexivity. }
  intros l k Hl Hk. change (inverse gZ 2 F) with (fun i j => nth (i * 2 + j) (let u := a * d - b * c in [u * d; - (u * b); - (u * c); u * a])%Z 0%Z).
  cbv zeta. fold t. cbn [sum_n nadd nmul n0 n1 NumZ].
  destruct l as [|[|l]]; [| |lia]; (destruct k as [|[|k]]; [| |lia]); cbn [Nat.mul Nat.add nth Nat.eqb]; fold a b c d; split;
    first [ring | transitivity (t * t)%Z; [unfold t; ring|exact Q]].
Qed.
Lemma gR_inverts : inverts gR 2.
Proof.
  intros F X H. destruct (H 0 0) as [H00 _]; [lia..|]. destruct (H 0 1) as [H01 _]; [lia..|]. destruct (H 1 0) as [H10 _]; [lia..|]. destruct (H 1 1) as [H11 _]; [lia..|].
  cbn [sum_n Nat.eqb nadd nmul n0 n1 NumR] in H00, H01, H10, H11.
  set (a := F 0 0) in *. set (b := F 0 1) in *. set (c := F 1 0) in *. set (d := F 1 1) in *.
  set (t := (a * d - b * c)%R). assert (Q : t <> 0%R).
  { assert (P : ((X 0%nat 0%nat * X 1%nat 1%nat - X 0%nat 1%nat * X 1%nat 0%nat) * t = 1)%R).
    { transitivity ((X 0%nat 0%nat * a + X 0%nat 1%nat * c) * (X 1%nat 0%nat * b + X 1%nat 1%nat * d) - (X 0%nat 0%nat * b + X 0%nat 1%nat * d) * (X 1%nat 0%nat * a + X 1%nat 1%nat * c))%R; [unfold t; ring|].
      replace (X 0%nat 0%nat * a + X 0%nat 1%nat * c)%R with 1%R by lra. replace (X 1%nat 0%nat * b + X 1%nat 1%nat * d)%R with 1%R by lra.
      replace (X 0%nat 0%nat * b + X 0%nat 1%nat * d)%R with 0%R by lra. ring. }
    intros Z. rewrite Z in P. rewrite Rmult_0_r in P. lra. }
  intros l k Hl Hk. change (inverse gR 2 F) with (fun i j => nth (i * 2 + j) (let u := / (a * d - b * c) in [u * d; - (u * b); - (u * c); u * a])%R 0%R).
  cbv zeta. fold t. cbn [sum_n nadd nmul n0 n1 NumR].
  destruct l as [|[|l]]; [| |lia]; (destruct k as [|[|k]]; [| |lia]); cbn [Nat.mul Nat.add nth Nat.eqb]; fold a b c d; split;
    first [ring | transitivity (t * / t)%R; [unfold t; ring|now apply Rinv_r]].
Qed.
(** X : 2x2, O := inverse(X), P := det(X * X), at X = [2 1; 1 1]. *)
Definition sq_objs : list (gobj (T := Z)) :=
  [ (LVar, (2, 2)); (LEye, (2, 2)); (LEye, (1, 1));
    (KExp 30 (MUn (UInv gZ) 31 (MLeaf 0)) 1, (2, 2)); (KExp 40 (MUn (UDet gZ d_) 41 (MBin BProd 42 (MLeaf 0) (MLeaf 0))) 2, (1, 1)) ].
Definition sq_graph : graph Z := graph_of sq_objs.
Lemma sq_wf : wf_graph sq_graph (host_of sq_objs) (fun o => o).
Proof. solve_wf. Qed.
Definition sq_rho := ent [[2; 1; 1; 1]]%Z.
Definition sq_F (i j : nat) : Z := nth (i * 2 + j) [2; 1; 1; 1]%Z 0%Z.
Definition sq_X (i j : nat) : Z := nth (i * 2 + j) [1; -1; -1; 2]%Z 0%Z.
Lemma sq_den : den sq_graph sq_rho (MLeaf 0) sq_F.
Proof. apply (den_leaf (G := sq_graph) sq_rho (o := 0)); [exact Logic.I|discriminate]. Qed.
Lemma sq_inverse : is_inverse 2 sq_F sq_X.
Proof. intros [|[|l]] [|[|k]] Hl Hk; try lia; split; reflexivity. Qed.
Lemma sq_root_O y : rev_root sq_graph 3 30 (MUn (UInv gZ) 31 (MLeaf 0)) 1 /\ variable_of sq_graph sq_rho (MUn (UInv gZ) 31 (MLeaf 0)) y 0.
Proof.
  split; [constructor|].
  - reflexivity.
  - intros o [<-|[<-|[]]]; exact Logic.I.
  - auto.
  - reflexivity.
  - apply fits_un; [now apply fits_leaf|reflexivity].
  - split; [reflexivity|]. split; [intros o _; split; [auto|]; reflexivity|intros so vs []].
Qed.
Lemma sq_root_P y : rev_root sq_graph 4 40 (MUn (UDet gZ d_) 41 (MBin BProd 42 (MLeaf 0) (MLeaf 0))) 2 /\
  variable_of sq_graph sq_rho (MUn (UDet gZ d_) 41 (MBin BProd 42 (MLeaf 0) (MLeaf 0))) y 0.
Proof.
  split; [constructor|].
  - reflexivity.
  - intros o [<-|[<-|[<-|[]]]]; exact Logic.I.
  - auto.
  - reflexivity.
  - apply fits_un; [apply fits_prod; try reflexivity; now apply fits_leaf|reflexivity].
  - split; [reflexivity|]. split; [intros o _; split; [auto|]; reflexivity|intros so vs []].
Qed.
(** Value, derivative by X (row l*2+i, column k*2+j) and gradient of the trace, - transpose(X^-2). *)
Example C59_nonvacuous : inverts gZ 2 /\ den sq_graph sq_rho (MLeaf 0) sq_F /\ is_inverse 2 sq_F sq_X /\
  rev_root sq_graph 3 30 (MUn (UInv gZ) 31 (MLeaf 0)) 1 /\ variable_of sq_graph sq_rho (MUn (UInv gZ) 31 (MLeaf 0)) 1 0 /\
  (forall h, exists p s', returns Zin h sq_graph (AEval sq_rho (MUn (UInv gZ) 50 (MLeaf 0))) (init mem0) p s' /\ entries (mm s') p = Some [1; -1; -1; 2]%Z) /\
  (exists p s', returns Zin HEigen sq_graph (ADevalF sq_rho (MUn (UInv gZ) 50 (MLeaf 0)) 0) (init mem0) p s' /\
    entries (mm s') p = Some [-1; 1; 1; -2; 1; -1; -1; 2; 1; -1; -1; 2; -2; 2; 2; -4]%Z) /\
  (forall h, exists s', precomputes Zin h sq_graph (fun c => c) sq_rho 3 (rinit mem0) s' /\ answers sq_graph 3 0 s' = Some (Some [-2; 3; 3; -5]%Z)).
Proof.
  split; [exact gZ_inverts|]. split; [exact sq_den|]. split; [exact sq_inverse|]. split; [apply (sq_root_O 1)|]. split; [apply (sq_root_O 1)|]. split; [|split].
  - intros h. apply (run1 (P := fun p s' => entries (mm s') p = Some [1; -1; -1; 2]%Z)). destruct h; vm_compute; reflexivity.
  - apply (run1 (P := fun p s' => entries (mm s') p = Some [-1; 1; 1; -2; 1; -1; -1; 2; 1; -1; -1; 2; -2; 2; 2; -4]%Z)). vm_compute; reflexivity.
  - intros h. apply (pre1 (P := fun s' => answers sq_graph 3 0 s' = Some (Some [-2; 3; 3; -5]%Z))). destruct h; vm_compute; reflexivity.
Qed.
(** det(X * X) and its gradient, 2 det(X)^2 transpose(X^-1), forwards and backwards. *)
Example C60_nonvacuous : inverts gZ 2 /\ measures d_ 2 /\
  rev_root sq_graph 4 40 (MUn (UDet gZ d_) 41 (MBin BProd 42 (MLeaf 0) (MLeaf 0))) 2 /\ variable_of sq_graph sq_rho (MUn (UDet gZ d_) 41 (MBin BProd 42 (MLeaf 0) (MLeaf 0))) 2 0 /\
  solvable sq_graph sq_rho (MBin BProd 42 (MLeaf 0) (MLeaf 0)) /\
  (exists F X, den sq_graph sq_rho (MBin BProd 42 (MLeaf 0) (MLeaf 0)) F /\ is_inverse 2 F X) /\
  (forall h, exists p s', returns Zin h sq_graph (AEval sq_rho (MLeaf 4)) (init mem0) p s' /\ entries (mm s') p = Some [1]%Z) /\
  (exists p s', returns Zin HEigen sq_graph (ADevalF sq_rho (MLeaf 4) 0) (init mem0) p s' /\ entries (mm s') p = Some [2; -2; -2; 4]%Z) /\
  (forall h, exists s', precomputes Zin h sq_graph (fun c => c) sq_rho 4 (rinit mem0) s' /\ answers sq_graph 4 0 s' = Some (Some [2; -2; -2; 4]%Z)).
Proof.
  split; [exact gZ_inverts|]. split; [exact (d_measures 2)|]. split; [apply (sq_root_P 2)|]. split; [apply (sq_root_P 2)|]. split; [split; exact Logic.I|]. split; [|split; [|split]].
  - eexists. exists (fun i j => nth (i * 2 + j) [2; -3; -3; 5]%Z 0%Z). split; [apply den_prod; exact sq_den|].
    intros [|[|l]] [|[|k]] Hl Hk; try lia; split; reflexivity.
  - intros h. apply (run1 (P := fun p s' => entries (mm s') p = Some [1]%Z)). destruct h; vm_compute; reflexivity.
  - apply (run1 (P := fun p s' => entries (mm s') p = Some [2; -2; -2; 4]%Z)). vm_compute; reflexivity.
  - intros h. apply (pre1 (P := fun s' => answers sq_graph 4 0 s' = Some (Some [2; -2; -2; 4]%Z))). destruct h; vm_compute; reflexivity.
Qed.
(** The hypotheses of C59_limit and C60_limit: X = [3 t; 1 5] at t = 2, invertible there but not everywhere. *)
Definition cv_graph : graph R := graph_of [ (LVar, (2, 2)) ].
Definition cv_env (t : R) : env R := Env (fun o n => match o with 0 => nth n [3; t; 1; 5]%R 0%R | _ => 0%R end) (fun _ _ _ _ => 0%R).
Example C59_limit_nonvacuous : wf_graph cv_graph (fun _ => None) (fun o => o) /\ distinct_vars cv_graph /\
  reached (in_order (T := R)) HEigen cv_graph (fun _ => None) (init memR) /\ root (fun _ => None) (MUn (UInv gR) 1 (MLeaf 0)) /\
  fits cv_graph (MLeaf 0) /\ settled cv_graph (MUn (UInv gR) 1 (MLeaf 0)) (init memR) /\ inverts gR 2 /\ measures d_ (T := R) 2 /\
  varies cv_graph 0 0 1 cv_env 2%R /\ smooth cv_graph (cv_env 2%R) (MLeaf 0) /\
  exists Ft Xt, (forall t, den cv_graph (cv_env t) (MLeaf 0) (Ft t)) /\ (exists Y, is_inverse 2 (Ft 2%R) Y) /\
    (forall t Y, is_inverse 2 (Ft t) Y -> is_inverse 2 (Ft t) (Xt t)) /\ Xt 2%R 0 0 = (5 / 13)%R.
Proof.
  split; [solve_wf|]. split; [intros [|[|o]] [|[|o']] H H' Ne; try discriminate; congruence|]. split; [constructor; exact tameR|].
  split; [split; [repeat constructor; simpl; tauto|reflexivity]|]. split; [now apply fits_leaf|]. split; [intros o id a y o' _ _ _ _ _; reflexivity|].
  split; [exact gR_inverts|]. split; [exact (d_measures 2)|]. split.
  { constructor.
    - reflexivity.
    - intros t o n Hk Hn. destruct o as [|[|o]]; try discriminate. destruct n as [|[|n]]; try reflexivity. exfalso; simpl in Hn; destruct Hn as [Hn|Hn]; apply Hn; reflexivity.
    - intros t o n Hk. destruct o as [|o]; [discriminate|reflexivity].
    - intros o n Hk. destruct o as [|[|o]]; discriminate. }
  split; [now apply sm_leaf|].
  exists (fun t i j => e_val (cv_env t) 0 (i * g_cols cv_graph 0 + j)), (fun t => inverse gR 2 (fun i j => e_val (cv_env t) 0 (i * g_cols cv_graph 0 + j))).
  split; [intros t; apply (den_leaf (G := cv_graph) (cv_env t) (o := 0)); [exact Logic.I|discriminate]|]. split; [|split].
  - exists (fun i j => nth (i * 2 + j) [5 / 13; - (2 / 13); - (1 / 13); 3 / 13]%R 0%R).
    intros [|[|l]] [|[|k]] Hl Hk; try lia; cbn; split; field.
  - intros t Y HY. exact (gR_inverts HY).
  - cbn. field.
Qed.
