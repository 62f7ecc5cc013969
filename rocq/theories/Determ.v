(** * Inverse and determinant of a matrix: specification and algebra

    Entries are functions of row and column; only those below n count. *)
From Coq Require Import List Arith Bool Lia Ring.
From Verif Require Import Num KernelFacts KernelProofs Sums.
Set Implicit Arguments.
Unset Strict Implicit.

Section Spec.
Context {T : Type} {N : Num T}.
(** X is the inverse of the n x n matrix F. *)
Definition is_inverse (n : nat) (F X : nat -> nat -> T) : Prop := forall l k, l < n -> k < n ->
  sum_n n (fun a => nmul (X l a) (F a k)) = (if l =? k then n1 else n0) /\
  sum_n n (fun a => nmul (F l a) (X a k)) = (if l =? k then n1 else n0).
(** Expansion along the first row. *)
Definition skip (k l : nat) : nat := if l <? k then l else S l.
Definition minor (F : nat -> nat -> T) (k : nat) : nat -> nat -> T := fun i j => F (S i) (skip k j).
Definition sign (k : nat) : T := if Nat.even k then n1 else nm1.
Fixpoint determinant (n : nat) (F : nat -> nat -> T) : T :=
  match n with 0 => n1 | S p => sum_n n (fun k => nmul (nmul (sign k) (F 0 k)) (determinant p (minor F k))) end.
(** Row a replaced. *)
Definition set_row (F : nat -> nat -> T) (a : nat) (r : nat -> T) : nat -> nat -> T := fun i j => if i =? a then r j else F i j.
End Spec.

Section Algebra.
Context {T : Type} {N : Num T}.
Hypothesis L : NumLaws N.
Add Ring TR : (law_ring N L).
Implicit Types (F X : nat -> nat -> T) (u v r : nat -> T).

Lemma det_ext n : forall F F', (forall i j, i < n -> j < n -> F i j = F' i j) -> determinant n F = determinant n F'.
Proof.
  induction n as [|n IH]; intros F F' H; [reflexivity|]. cbn [determinant]. apply sum_n_ext. intros k Hk.
  rewrite (H 0 k) by lia. rewrite (IH (minor F k) (minor F' k)); [reflexivity|].
  intros i j Hi Hj. unfold minor, skip. destruct (j <? k) eqn:E; apply H; try lia.
Qed.
Lemma set_minor F a r k i j : minor (set_row F (S a) r) k i j = set_row (minor F k) a (fun c => r (skip k c)) i j.
Proof. reflexivity. Qed.
Lemma set_minor0 F r k i j : minor (set_row F 0 r) k i j = minor F k i j.
Proof. reflexivity. Qed.
(** The determinant is linear in each row. *)
Lemma det_lin n : forall F a c u d v, a < n ->
  determinant n (set_row F a (fun j => nadd (nmul c (u j)) (nmul d (v j)))) =
  nadd (nmul c (determinant n (set_row F a u))) (nmul d (determinant n (set_row F a v))).
Proof.
  induction n as [|n IH]; intros F a c u d v Ha; [lia|]. cbn [determinant].
  rewrite <- !(sum_mul_l L), <- (sum_add L). apply sum_n_ext. intros k Hk. destruct a as [|a].
  - repeat match goal with |- context [minor (set_row F 0 ?r) k] => change (minor (set_row F 0 r) k) with (minor F k) end. unfold set_row. cbn [Nat.eqb]. ring.
  - rewrite (det_ext (F := minor (set_row F (S a) (fun j => nadd (nmul c (u j)) (nmul d (v j)))) k)
      (F' := set_row (minor F k) a (fun j => nadd (nmul c (u (skip k j))) (nmul d (v (skip k j)))))) by reflexivity.
    rewrite (IH (minor F k) a c (fun j => u (skip k j)) d (fun j => v (skip k j))) by lia.
    change (minor (set_row F (S a) u) k) with (set_row (minor F k) a (fun j => u (skip k j))).
    change (minor (set_row F (S a) v) k) with (set_row (minor F k) a (fun j => v (skip k j))).
    unfold set_row at 1 4 6. cbn [Nat.eqb]. ring.
Qed.
Lemma det_sum n F a p (c : nat -> T) (u : nat -> nat -> T) : a < n ->
  determinant n (set_row F a (fun j => sum_n p (fun b => nmul (c b) (u b j)))) = sum_n p (fun b => nmul (c b) (determinant n (set_row F a (u b)))).
Proof.
  intros Ha. induction p as [|p IH]; cbn [sum_n].
  - rewrite (det_ext (F' := set_row F a (fun j => nadd (nmul n0 (F a j)) (nmul n0 (F a j))))).
    + rewrite det_lin by exact Ha. ring.
    + intros i j _ _. unfold set_row. destruct (i =? a); [ring|reflexivity].
  - rewrite <- IH.
    rewrite (det_ext (F' := set_row F a (fun j => nadd (nmul n1 (sum_n p (fun b => nmul (c b) (u b j)))) (nmul (c p) (u p j))))).
    + rewrite det_lin by exact Ha. ring.
    + intros i j _ _. unfold set_row. destruct (i =? a); [ring|reflexivity].
Qed.

(** Equal rows. *)
Lemma anti_sum n (h : nat -> nat -> T) : (forall a b, a < n -> b < n -> nadd (h a b) (h b a) = n0) -> (forall a, a < n -> h a a = n0) ->
  sum_n n (fun a => sum_n n (fun b => h a b)) = n0.
Proof.
  induction n as [|n IH]; intros H H0; [reflexivity|]. cbn [sum_n]. rewrite (sum_add L). rewrite IH by (intros; try apply H; try apply H0; lia).
  rewrite H0 by lia.
  assert (E : nadd (sum_n n (fun a => h a n)) (sum_n n (fun b => h n b)) = n0).
  { rewrite <- (sum_add L). apply (sum_zero L). intros k Hk. apply H; lia. }
  match goal with |- nadd (nadd n0 ?p) (nadd ?q n0) = n0 => transitivity (nadd p q); [ring|exact E] end.
Qed.
(** A sum over all columns but k. *)
Lemma sum_skip n k (f : nat -> T) : k <= n -> sum_n n (fun l => f (skip k l)) = sum_n (S n) (fun b => if b =? k then n0 else f b).
Proof.
  revert k. induction n as [|n IH]; intros k Hk.
  - assert (k = 0) as -> by lia. cbn. ring.
  - destruct (Nat.eq_dec k (S n)) as [->|Ne].
    + cbn [sum_n]. rewrite Nat.eqb_refl. unfold skip at 2. destruct (Nat.ltb_spec n (S n)); [|lia].
      destruct (Nat.eqb_spec n (S n)) as [Q|Q]; [lia|clear Q].
      rewrite (sum_n_ext (f := fun l => f (skip (S n) l)) (g := fun l => f l)).
      * rewrite (sum_n_ext (f := fun b => if b =? S n then n0 else f b) (g := fun b => f b)); [ring|].
        intros b Hb. destruct (Nat.eqb_spec b (S n)); [lia|reflexivity].
      * intros b Hb. unfold skip. destruct (Nat.ltb_spec b (S n)); [reflexivity|lia].
    + cbn [sum_n]. cbn [sum_n] in IH. rewrite IH by lia.
      unfold skip. destruct (Nat.ltb_spec n k); [lia|]. destruct (Nat.eqb_spec (S n) k); [lia|]. reflexivity.
Qed.
Lemma skip_skip a b c : b < a -> skip a (skip b c) = skip b (skip (a - 1) c).
Proof.
  intros H. unfold skip. destruct (Nat.ltb_spec c b), (Nat.ltb_spec c (a - 1));
    repeat match goal with |- context [?x <? ?y] => destruct (Nat.ltb_spec x y) end; lia.
Qed.
Lemma sign_S k : sign (T := T) (S k) = nmul nm1 (sign k).
Proof. unfold sign. rewrite Nat.even_succ, <- Nat.negb_even. destruct (Nat.even k); simpl; rewrite (law_m1 _ L); unfold nopp; ring. Qed.
Lemma det_alt01 n F : (forall c, c < S (S n) -> F 0 c = F 1 c) -> determinant (S (S n)) F = n0.
Proof.
  intros H.
  set (M := fun a b => determinant n (fun i j => F (S (S i)) (skip a (skip b j)))).
  set (unskip := fun a b => if b <? a then b else b - 1).
  set (h := fun a b => if b =? a then n0 else nmul (nmul (nmul (sign a) (sign (unskip a b))) (nmul (F 0 a) (F 1 b))) (M a (unskip a b))).
  transitivity (sum_n (S (S n)) (fun a => sum_n (S (S n)) (fun b => h a b))).
  - cbn [determinant]. apply sum_n_ext. intros a Ha. unfold h.
    rewrite <- (@sum_skip (S n) a (fun b => nmul (nmul (nmul (sign a) (sign (unskip a b))) (nmul (F 0 a) (F 1 b))) (M a (unskip a b)))) by lia.
    rewrite <- (sum_mul_l L). apply sum_n_ext. intros l Hl. change (minor F a 0 l) with (F 1 (skip a l)).
    change (determinant n (minor (minor F a) l)) with (M a l).
    replace (unskip a (skip a l)) with l; [ring|].
    unfold unskip, skip. destruct (Nat.ltb_spec l a); [destruct (Nat.ltb_spec l a); lia|destruct (Nat.ltb_spec (S l) a); lia].
  - apply anti_sum; [|intros a _; unfold h; now rewrite Nat.eqb_refl].
    assert (Lt : forall a b, a < S (S n) -> b < a -> nadd (h a b) (h b a) = n0).
    { intros a b Ha Hb. unfold h. destruct (Nat.eqb_spec b a); [lia|]. destruct (Nat.eqb_spec a b); [lia|].
      unfold unskip. destruct (Nat.ltb_spec b a); [|lia]. destruct (Nat.ltb_spec a b); [lia|].
      assert (EM : M a b = M b (a - 1)).
      { apply det_ext. intros i j _ _. now rewrite skip_skip. }
      rewrite EM. rewrite <- (H a), <- (H b) by lia. destruct a as [|a]; [lia|]. rewrite sign_S. simpl. rewrite Nat.sub_0_r, (law_m1 _ L). unfold nopp. ring. }
    intros a b Ha Hb. destruct (Nat.lt_trichotomy a b) as [Q|[Q|Q]].
    + rewrite <- (Lt b a Hb Q). ring.
    + subst. unfold h. rewrite Nat.eqb_refl. ring.
    + now apply Lt.
Qed.
(** Exchanging two rows, if equal rows give zero. *)
Lemma swap_of_alt n F i j : (forall F, (forall c, c < n -> F i c = F j c) -> determinant n F = n0) -> i < j -> j < n ->
  determinant n (set_row (set_row F i (F j)) j (F i)) = nopp (determinant n F).
Proof.
  intros Alt Hij Hj.
  set (W := fun u v => set_row (set_row F i u) j v).
  assert (Wv : forall u a v b v', determinant n (W u (fun c => nadd (nmul a (v c)) (nmul b (v' c)))) = nadd (nmul a (determinant n (W u v))) (nmul b (determinant n (W u v')))).
  { intros. apply det_lin. lia. }
  assert (Wu : forall a u b u' v, determinant n (W (fun c => nadd (nmul a (u c)) (nmul b (u' c))) v) = nadd (nmul a (determinant n (W u v))) (nmul b (determinant n (W u' v)))).
  { intros. assert (E : forall w, determinant n (W w v) = determinant n (set_row (set_row F j v) i w)).
    { intros w. apply det_ext. intros p q _ _. unfold W, set_row. destruct (Nat.eqb_spec p j), (Nat.eqb_spec p i); try reflexivity. lia. }
    rewrite !E. apply det_lin. lia. }
  assert (Z : forall u, determinant n (W u u) = n0).
  { intros u. apply Alt. intros c _. unfold W, set_row. rewrite !Nat.eqb_refl. destruct (Nat.eqb_spec i j); [lia|reflexivity]. }
  pose proof (Z (fun c => nadd (nmul n1 (F i c)) (nmul n1 (F j c)))) as Q. rewrite Wu, !Wv, !Z in Q.
  assert (E : determinant n (W (F i) (F j)) = determinant n F).
  { apply det_ext. intros p q _ _. unfold W, set_row. destruct (Nat.eqb_spec p j); [now subst|]. destruct (Nat.eqb_spec p i); [now subst|reflexivity]. }
  rewrite E in Q. change (determinant n (W (F j) (F i)) = nopp (determinant n F)).
  match goal with |- ?x = _ => transitivity (nadd (nopp (determinant n F)) (nadd (nmul n1 (nadd (nmul n1 n0) (nmul n1 (determinant n F)))) (nmul n1 (nadd (nmul n1 x) (nmul n1 n0))))) end.
  - unfold nopp. ring.
  - rewrite Q. unfold nopp. ring.
Qed.
Lemma det_alt n : forall F i j, i < j -> j < n -> (forall c, c < n -> F i c = F j c) -> determinant n F = n0.
Proof.
  induction n as [|n IH]; intros F i j Hij Hj H; [lia|]. destruct i as [|i].
  - destruct j as [|[|j]]; [lia| |].
    + destruct n as [|n]; [lia|]. now apply det_alt01.
    + set (F' := set_row (set_row F 1 (F (S (S j)))) (S (S j)) (F 1)).
      assert (Z : determinant (S n) F' = n0).
      { destruct n as [|n]; [lia|]. apply det_alt01. intros c Hc. unfold F', set_row. cbn [Nat.eqb]. now apply H. }
      assert (E : determinant (S n) F' = nopp (determinant (S n) F)).
      { cbn [determinant]. unfold nopp.
        transitivity (nmul (nsub n0 n1) (sum_n (S n) (fun k => nmul (nmul (sign k) (F 0 k)) (determinant n (minor F k))))); [|unfold nopp; ring].
        rewrite <- (sum_mul_l L). apply sum_n_ext. intros k Hk.
        change (minor F' k) with (set_row (set_row (minor F k) 0 (minor F k (S j))) (S j) (minor F k 0)).
        rewrite swap_of_alt; [|intros F0 HF0; apply (IH F0 0 (S j)); auto; lia|lia|lia].
        change (F' 0 k) with (F 0 k). unfold nopp. ring. }
      rewrite Z in E. transitivity (nopp (nopp (determinant (S n) F))); [unfold nopp; ring|]. rewrite <- E. unfold nopp. ring.
  - destruct j as [|j]; [lia|]. cbn [determinant]. apply (sum_zero L). intros k Hk.
    rewrite (IH (minor F k) i j); [ring|lia|lia|]. intros c Hc. unfold minor. apply H. unfold skip. destruct (c <? k); lia.
Qed.

(** Jacobi's formula, algebraic part. *)
Theorem det_jacobi n F X E : is_inverse n F X ->
  sum_n n (fun a => determinant n (set_row F a (E a))) =
  sum_n n (fun b => sum_n n (fun a => nmul (nmul (determinant n F) (X b a)) (E a b))).
Proof.
  intros HX. rewrite (sum_swap L). apply sum_n_ext. intros a Ha.
  (* E a = sum_c (sum_b E a b * X b c) F c *)
  rewrite (det_ext (F' := set_row F a (fun j => sum_n n (fun c => nmul (sum_n n (fun b => nmul (E a b) (X b c))) (F c j))))).
  - rewrite det_sum by exact Ha.
    rewrite (sum_n_ext (g := fun c => if c =? a then nmul (sum_n n (fun b => nmul (E a b) (X b c))) (determinant n F) else n0)).
    + rewrite (sum_delta L) by exact Ha. rewrite <- (sum_mul_r L). apply sum_n_ext. intros b _. ring.
    + intros c Hc. destruct (Nat.eqb_spec c a) as [->|Ne].
      * f_equal. apply det_ext. intros i j _ _. unfold set_row. destruct (Nat.eqb_spec i a); congruence.
      * assert (Z : determinant n (set_row F a (F c)) = n0).
        { destruct (Nat.lt_trichotomy a c) as [Q|[Q|Q]]; [|lia|].
          - apply det_alt with (i := a) (j := c); auto. intros q _. unfold set_row. rewrite Nat.eqb_refl. destruct (Nat.eqb_spec c a); [lia|reflexivity].
          - apply det_alt with (i := c) (j := a); auto. intros q _. unfold set_row. rewrite Nat.eqb_refl. destruct (Nat.eqb_spec c a); [lia|reflexivity]. }
        rewrite Z. ring.
  - intros i j Hi Hj. unfold set_row. destruct (Nat.eqb_spec i a) as [->|]; [|reflexivity].
    transitivity (sum_n n (fun b => nmul (E a b) (if b =? j then n1 else n0))).
    + symmetry. apply (sum_delta_mul_r L (fun b => E a b)). exact Hj.
    + rewrite (sum_n_ext (f := fun c => nmul (sum_n n (fun b => nmul (E a b) (X b c))) (F c j)) (g := fun c => sum_n n (fun b => nmul (E a b) (nmul (X b c) (F c j))))).
      * rewrite (sum_swap L). apply sum_n_ext. intros b Hb. rewrite (sum_mul_l L). f_equal. symmetry. now apply HX.
      * intros c Hc. rewrite <- (sum_mul_r L). apply sum_n_ext. intros b _. ring.
Qed.

(** Inverses are unique. *)
Lemma inverse_unique n F X Y : is_inverse n F X -> is_inverse n F Y -> forall l k, l < n -> k < n -> X l k = Y l k.
Proof.
  intros HX HY l k Hl Hk.
  transitivity (sum_n n (fun a => nmul (X l a) (if a =? k then n1 else n0))); [symmetry; now apply (sum_delta_mul_r L (fun a => X l a))|].
  transitivity (sum_n n (fun a => nmul (if a =? l then n1 else n0) (Y a k))); [|now apply (sum_delta_mul_l L (fun a => Y a k))].
  rewrite (sum_n_ext (g := fun a => sum_n n (fun b => nmul (X l a) (nmul (F a b) (Y b k))))).
  - rewrite (sum_swap L). apply sum_n_ext. intros b Hb.
    rewrite (sum_n_ext (g := fun a => nmul (nmul (X l a) (F a b)) (Y b k))) by (intros; ring). rewrite (sum_mul_r L). f_equal.
    rewrite Nat.eqb_sym. now apply HX.
  - intros a Ha. rewrite (sum_mul_l L). f_equal. symmetry. now apply HY.
Qed.
Lemma inverse_tr n F X : is_inverse n F X -> is_inverse n (fun i j => F j i) (fun i j => X j i).
Proof.
  intros H l k Hl Hk. destruct (H k l Hk Hl) as [H1 H2]. rewrite Nat.eqb_sym. split.
  - rewrite <- H2. apply sum_n_ext. intros. ring.
  - rewrite <- H1. apply sum_n_ext. intros. ring.
Qed.
Lemma inverse_ext n F F' X X' : (forall i j, i < n -> j < n -> F i j = F' i j) -> (forall i j, i < n -> j < n -> X i j = X' i j) -> is_inverse n F X -> is_inverse n F' X'.
Proof.
  intros EF EX H l k Hl Hk. destruct (H l k Hl Hk) as [H1 H2]. split; [rewrite <- H1|rewrite <- H2]; apply sum_n_ext; intros a Ha; rewrite EF, EX by auto; reflexivity.
Qed.
End Algebra.
