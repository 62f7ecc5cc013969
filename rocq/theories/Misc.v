(** * Small self-contained parts: complex arithmetic (C24), Factorial (C47), training-loop windows (C49),
      accuracy (C50), random fill (C52) *)

From Coq Require Import List Arith Bool ZArith Reals Lra Lia.
Import ListNotations.

(** ** Complex numbers (src/CommonHeader.cpp:24-78), over exact reals *)
Section Complex.
Local Open Scope R_scope.
Definition cx : Type := (R * R)%type.
(** *** Model: the overloads for a Real and a complex Type. *)
Definition re (z : cx) := fst z.
Definition im (z : cx) := snd z.
Definition std_mul (a b : cx) : cx := (re a * re b - im a * im b, re a * im b + im a * re b). (* std::complex operator* *)
Definition add_rc (v : R) (z : cx) : cx := (v + re z, im z).                    (* CommonHeader.cpp:26-28 *)
Definition add_cr (z : cx) (v : R) : cx := (v + re z, im z).                    (* CommonHeader.cpp:30-32 *)
Definition sub_rc (v : R) (z : cx) : cx := (v - re z, im z).                    (* CommonHeader.cpp:35-37 *)
Definition sub_cr (z : cx) (v : R) : cx := (re z - v, im z).                    (* CommonHeader.cpp:39-41 *)
Definition mul_rc (v : R) (z : cx) : cx := (v * re z, v * im z).                (* CommonHeader.cpp:44-46 *)
Definition mul_cr (z : cx) (v : R) : cx := (v * re z, v * im z).                (* CommonHeader.cpp:48-50 *)
Definition div_rc (v : R) (z : cx) : cx :=                                      (* CommonHeader.cpp:53-56 *)
  let abs_sq := re (std_mul z z) in ((v * re z) / abs_sq, (-1 * v * im z) / abs_sq).
Definition div_cr (z : cx) (v : R) : cx := (re z / v, im z / v).                (* CommonHeader.cpp:58-60 *)
Definition Reqb (a b : R) : bool := if Req_EM_T a b then true else false.
Definition eq_cr (z : cx) (v : R) : bool := Reqb (re z) v && Reqb (im z) v.     (* CommonHeader.cpp:72-74 *)
Definition eq_rc (v : R) (z : cx) : bool := Reqb (re z) v && Reqb (im z) v.     (* CommonHeader.cpp:76-78 *)
Definition ne_cr (z : cx) (v : R) : bool := negb (Reqb (re z) v && Reqb (im z) v). (* CommonHeader.cpp:63-65 *)
Definition ne_rc (v : R) (z : cx) : bool := negb (Reqb (re z) v && Reqb (im z) v). (* CommonHeader.cpp:67-69 *)

(** *** Specification: the field of complex numbers. *)
Definition inj (v : R) : cx := (v, 0).
Definition cadd (a b : cx) : cx := (fst a + fst b, snd a + snd b).
Definition copp (a : cx) : cx := (- fst a, - snd a).
Definition cmul (a b : cx) : cx := (fst a * fst b - snd a * snd b, fst a * snd b + snd a * fst b).
(** q is the quotient a/b. *)
Definition is_quotient (a b q : cx) : Prop := cmul q b = a.

Lemma cx_eq (a b : cx) : fst a = fst b -> snd a = snd b -> a = b.
Proof. destruct a, b; simpl; now intros -> ->. Qed.
Lemma complex_good v z :
  add_rc v z = cadd (inj v) z /\ add_cr z v = cadd z (inj v) /\ sub_cr z v = cadd z (copp (inj v)) /\
  mul_rc v z = cmul (inj v) z /\ mul_cr z v = cmul z (inj v) /\ (v <> 0 -> is_quotient z (inj v) (div_cr z v)).
Proof.
  repeat apply conj; try (apply cx_eq; simpl; unfold re, im; simpl; ring).
  intros Hv. apply cx_eq; simpl; unfold re, im; field; auto.
Qed.
(** real - complex is right exactly for real arguments. *)
Lemma sub_rc_iff v z : sub_rc v z = cadd (inj v) (copp z) <-> snd z = 0.
Proof.
  split.
  - intros H. apply (f_equal snd) in H. unfold sub_rc, im in H. simpl in H. lra.
  - intros H. apply cx_eq; simpl; unfold re, im; lra.
Qed.
(** real / complex is right for real non-zero divisors ... *)
Lemma div_rc_real v z : snd z = 0 -> fst z <> 0 -> is_quotient (inj v) z (div_rc v z).
Proof. intros H Hn. apply cx_eq; simpl; unfold re, im; rewrite H; field; auto. Qed.
(** ... and wrong for every other divisor it divides by something non-zero, unless the dividend is 0. *)
Lemma div_rc_wrong v z : v <> 0 -> snd z <> 0 -> fst z * fst z <> snd z * snd z -> ~ is_quotient (inj v) z (div_rc v z).
Proof.
  destruct z as [a b]. unfold is_quotient, div_rc, cmul, inj, std_mul, re, im. cbn [fst snd]. intros Hv Hb Hd E. injection E as E1 _.
  assert (D : a * a - b * b <> 0) by lra.
  apply (f_equal (fun t => t * (a * a - b * b))) in E1.
  replace ((v * a / (a * a - b * b) * a - -1 * v * b / (a * a - b * b) * b) * (a * a - b * b)) with (v * (a * a + b * b)) in E1 by (field; auto).
  assert (v * (2 * (b * b)) = 0) by lra. apply Rmult_integral in H. destruct H; [contradiction|].
  assert (0 < b * b) by (apply Rsqr_pos_lt in Hb; exact Hb). lra.
Qed.
Lemma Reqb_iff a b : Reqb a b = true <-> a = b.
Proof. unfold Reqb. destruct (Req_EM_T a b); split; congruence. Qed.
(** Comparison with v is right for all complex numbers exactly when v = 0. *)
Lemma eq_cr_iff v : (forall z, eq_cr z v = true <-> z = inj v) <-> v = 0.
Proof.
  split.
  - intros H. destruct (H (inj v)) as [_ H']. specialize (H' eq_refl). unfold eq_cr in H'. apply andb_prop in H'.
    destruct H' as [_ H']. apply Reqb_iff in H'. simpl in H'. auto.
  - intros -> z. unfold eq_cr. rewrite andb_true_iff, !Reqb_iff. destruct z as [a b]. simpl. split.
    + intros [-> ->]. reflexivity.
    + intros E. injection E as -> ->. auto.
Qed.
Lemma other_comparisons v z : eq_rc v z = eq_cr z v /\ ne_cr z v = negb (eq_cr z v) /\ ne_rc v z = negb (eq_cr z v).
Proof. auto. Qed.
End Complex.

(** ** Factorial (src/Matrix/CommonMatFunctions.cpp:26-32) *)
Section Factorial.
Local Open Scope Z_scope.
Definition u64 (z : Z) : Z := z mod 2 ^ 64.    (* size_t arithmetic *)
Definition fmap : Type := nat -> option Z.     (* the static map *)
Definition fset (m : fmap) (n : nat) (x : Z) : fmap := fun k => if Nat.eqb k n then Some x else m k.
(** static map{{0,1},{1,1}} *)
Definition fmap0 : fmap := fset (fset (fun _ => None) 0 1) 1 1.
(** [None]: the recursion would go below 0. *)
Fixpoint Factorial (n : nat) (m : fmap) : option (Z * fmap) :=
  match m n with
  | Some x => Some (x, m)
  | None => match n with
            | O => None
            | S n' => match Factorial n' m with
                      | Some (y, m') => let x := u64 (Z.of_nat n * y) in Some (x, fset m' n x)
                      | None => None
                      end
            end
  end.
(** A history of calls. *)
Fixpoint fact_calls (ns : list nat) (m : fmap) : option (list Z * fmap) :=
  match ns with
  | [] => Some ([], m)
  | n :: ns' => match Factorial n m with
                | Some (x, m') => match fact_calls ns' m' with Some (xs, m'') => Some (x :: xs, m'') | None => None end
                | None => None
                end
  end.
Definition fok (m : fmap) : Prop := m O <> None /\ forall n x, m n = Some x -> x = u64 (Z.of_nat (fact n)).
Lemma u64_mul a b : u64 (a * u64 b) = u64 (a * b).
Proof. unfold u64. now rewrite Zmult_mod_idemp_r. Qed.
Lemma fok0 : fok fmap0.
Proof.
  split; [discriminate|]. intros n x. unfold fmap0, fset. destruct (Nat.eqb_spec n 1) as [->|].
  - intros E; injection E as <-. reflexivity.
  - destruct (Nat.eqb_spec n 0) as [->|]; [|discriminate]. intros E; injection E as <-. reflexivity.
Qed.
Lemma Factorial_ok n : forall m, fok m -> exists m', Factorial n m = Some (u64 (Z.of_nat (fact n)), m') /\ fok m'.
Proof.
  induction n as [|n IH]; intros m F.
  - cbn [Factorial]. destruct (m 0%nat) as [x|] eqn:E; [|destruct F; contradiction].
    exists m. split; auto. now rewrite (proj2 F _ _ E).
  - cbn [Factorial]. destruct (m (S n)) as [x|] eqn:E.
    + exists m. split; auto. now rewrite (proj2 F _ _ E).
    + destruct (IH m F) as (m' & -> & F'). cbv zeta. exists (fset m' (S n) (u64 (Z.of_nat (fact (S n))))).
      assert (E' : u64 (Z.of_nat (S n) * u64 (Z.of_nat (fact n))) = u64 (Z.of_nat (fact (S n)))).
      { rewrite u64_mul, <- Nat2Z.inj_mul. reflexivity. }
      split.
      * now rewrite E'.
      * split.
        -- unfold fset. simpl. apply F'.
        -- intros k x. unfold fset. destruct (Nat.eqb_spec k (S n)) as [->|]; [|apply F'].
           now intros X; injection X as <-.
Qed.
Lemma fact_calls_ok ns : forall m, fok m -> exists m', fact_calls ns m = Some (map (fun n => u64 (Z.of_nat (fact n))) ns, m') /\ fok m'.
Proof.
  induction ns as [|n ns IH]; intros m F; cbn [fact_calls map].
  - eauto.
  - destruct (Factorial_ok n m F) as (m1 & -> & F1). destruct (IH m1 F1) as (m2 & -> & F2). eauto.
Qed.
Lemma factorial_history ns : exists m', fact_calls ns fmap0 = Some (map (fun n => (Z.of_nat (fact n)) mod 2 ^ 64) ns, m').
Proof. destruct (fact_calls_ok ns fmap0 fok0) as (m' & E & _). eauto. Qed.
Lemma factorial_exact ns m n : fact_calls ns fmap0 = Some (map (fun n => (Z.of_nat (fact n)) mod 2 ^ 64) ns, m) ->
  Z.of_nat (fact n) < 2 ^ 64 -> exists m', Factorial n m = Some (Z.of_nat (fact n), m').
Proof.
  intros E H. destruct (fact_calls_ok ns fmap0 fok0) as (m1 & E1 & F).
  rewrite E in E1. injection E1 as ->. destruct (Factorial_ok n m1 F) as (m' & -> & _). exists m'.
  unfold u64. now rewrite Z.mod_small by lia.
Qed.
End Factorial.

(** ** Mini-batch windows of NeuralNet::train (example/NeuralNet/include/NeuralNet.hpp:355-388) *)
Section Train.
Local Open Scope Z_scope.
(** One epoch: the row indices j given to getRowPtr, one per mini-batch; size_t arithmetic.
    [None]: not finished within the fuel. *)
Fixpoint train_loop (fuel : nat) (n b j : Z) : option (list Z) :=
  match fuel with
  | O => None
  | S f => if j <? n then
             let j' := if u64 (j + b) >? n then u64 (n - b) else j in
             match train_loop f n b (u64 (j' + b)) with Some l => Some (j' :: l) | None => None end
           else Some []
  end.
Definition epoch (n b : Z) : option (list Z) := train_loop (Z.to_nat (n + 1)) n b 0.

Lemma train_ok n b fuel : 1 <= b <= n -> n + b < 2 ^ 64 -> forall j, 0 <= j <= n -> (Z.to_nat (n - j) < fuel)%nat ->
  exists l, train_loop fuel n b j = Some l /\ (forall w, In w l -> 0 <= w /\ w + b <= n) /\
    (forall i, j <= i < n -> exists w, In w l /\ w <= i < w + b).
Proof.
  intros Hb Hn. induction fuel as [|f IH]; intros j Hj Hf; [lia|]. cbn [train_loop].
  destruct (Z.ltb_spec j n) as [Hlt|Hge].
  2:{ exists []. split; auto. split; [intros w []|]. intros i Hi. lia. }
  unfold u64. rewrite (Z.mod_small (j + b)) by lia. rewrite (Z.mod_small (n - b)) by lia.
  rewrite Z.gtb_ltb. destruct (Z.ltb_spec n (j + b)) as [Ho|Hi].
  - replace (n - b + b) with n by lia. rewrite Z.mod_small by lia.
    destruct (IH n ltac:(lia) ltac:(lia)) as (l & -> & A & B). exists (n - b :: l). split; auto. split.
    + intros w [<-|Hw]; [lia|]. now apply A.
    + intros i Hi. exists (n - b). split; [now left|]. lia.
  - rewrite Z.mod_small by lia.
    destruct (IH (j + b) ltac:(lia) ltac:(lia)) as (l & -> & A & B). exists (j :: l). split; auto. split.
    + intros w [<-|Hw]; [lia|]. now apply A.
    + intros i Hii. destruct (Z.lt_ge_cases i (j + b)).
      * exists j. split; [now left|lia].
      * destruct (B i ltac:(lia)) as (w & Hw & Hr). exists w. split; auto. now right.
Qed.
Lemma epoch_ok n b : 1 <= b <= n -> n + b < 2 ^ 64 -> exists l, epoch n b = Some l /\
  (forall w, In w l -> 0 <= w /\ w + b <= n) /\ (forall i, 0 <= i < n -> exists w, In w l /\ w <= i < w + b).
Proof. intros Hb Hn. unfold epoch. apply (train_ok n b _ Hb Hn 0); lia. Qed.
(** With more rows per batch than data the first window is outside the data. *)
Lemma epoch_too_big n b fuel : 0 < n < b -> n + b < 2 ^ 64 -> forall l, train_loop (S fuel) n b 0 = Some l ->
  exists w l', l = w :: l' /\ n < w + b.
Proof.
  intros Hb Hn l. cbn [train_loop]. destruct (Z.ltb_spec 0 n); [|lia].
  unfold u64. rewrite (Z.mod_small (0 + b)) by lia. rewrite Z.gtb_ltb. destruct (Z.ltb_spec n (0 + b)); [|lia].
  destruct (train_loop fuel n b _) as [l'|]; [|discriminate]. intros E. injection E as <-.
  exists ((n - b) mod 2 ^ 64), l'. split; auto.
  assert ((n - b) mod 2 ^ 64 = n - b + 2 ^ 64).
  { symmetry. apply Z.mod_unique with (q := -1); lia. }
  lia.
Qed.
End Train.

(** ** NeuralNet::accuracy (NeuralNet.hpp:112-149 and 298-337) *)
Section Accuracy.
(** std::max_element: first position of the maximum; [lt]: operator<. *)
Fixpoint argmax_from {A} (lt : A -> A -> bool) (best : nat) (bv : A) (k : nat) (l : list A) : nat :=
  match l with [] => best | x :: l' => if lt bv x then argmax_from lt k x (S k) l' else argmax_from lt best bv (S k) l' end.
Definition argmax {A} (lt : A -> A -> bool) (l : list A) : nat :=
  match l with [] => 0 | x :: l' => argmax_from lt 0 x 1 l' end.

(** count over the windows; [hit r]: row r is classified correctly (the network maps rows
    independently, so row j of the window at i is data row i+j). *)
Fixpoint count_rows (hit : nat -> bool) (i b : nat) : nat :=
  match b with O => 0 | S b' => count_rows hit i b' + (if hit (i + b') then 1 else 0) end.
Fixpoint scan (fuel : nat) (hit : nat -> bool) (scan_size b i : nat) : nat :=
  match fuel with
  | O => 0
  | S f => if i <? scan_size then count_rows hit i b + scan f hit scan_size b (i + b) else 0
  end.
(** scan_size = data_size - batch_size; each iteration advances by b >= 1, so scan_size iterations suffice. *)
Definition acc_count (hit : nat -> bool) (n b : nat) : nat := scan (n - b) hit (n - b) b 0.
Local Open Scope R_scope.
Definition accuracy (hit : nat -> bool) (n b : nat) : R := INR (acc_count hit n b) / INR (n - b) * 100.
Local Open Scope nat_scope.

(** Specification: number of correctly classified rows among the first m. *)
Definition correct_rows (hit : nat -> bool) (m : nat) : nat := length (filter hit (seq 0 m)).

Lemma count_rows_filter hit i b : count_rows hit i b = length (filter hit (seq i b)).
Proof.
  induction b as [|b IH]; auto. rewrite seq_S, filter_app, app_length. cbn [count_rows]. rewrite IH. f_equal.
  simpl. destruct (hit (i + b)); auto.
Qed.
Lemma scan_mult hit b q fuel i : 1 <= b -> q <= fuel -> scan fuel hit (i + q * b) b i = length (filter hit (seq i (q * b))).
Proof.
  intros Hb. revert fuel i. induction q as [|q IH]; intros fuel i Hf.
  - simpl. destruct fuel; auto. simpl. rewrite Nat.add_0_r, Nat.ltb_irrefl. reflexivity.
  - destruct fuel as [|fuel]; [lia|]. cbn [scan]. destruct (Nat.ltb_spec i (i + S q * b)); [|nia].
    rewrite count_rows_filter. replace (i + S q * b) with (i + b + q * b) by lia. rewrite IH by lia.
    replace (S q * b) with (b + q * b) by lia. rewrite seq_app, filter_app, app_length. reflexivity.
Qed.
Lemma filter_le hit i b : length (filter hit (seq i b)) <= b.
Proof. rewrite <- (seq_length b i) at 2. induction (seq i b) as [|x l IH]; simpl; auto. destruct (hit x); simpl; lia. Qed.
(** True form: when b divides n-b, accuracy is the percentage of correct rows among the first n-b. *)
Lemma accuracy_divides hit n b : 1 <= b -> b < n -> (exists q, n - b = q * b) ->
  accuracy hit n b = (INR (correct_rows hit (n - b)) / INR (n - b) * 100)%R /\ (0 <= accuracy hit n b <= 100)%R.
Proof.
  intros Hb Hn (q & Hq).
  assert (E : acc_count hit n b = correct_rows hit (n - b)).
  { unfold acc_count, correct_rows. rewrite Hq. apply (scan_mult hit b q (q * b) 0 Hb). nia. }
  unfold accuracy. rewrite E. split; auto.
  assert (P : (0 < INR (n - b))%R) by (apply (lt_INR 0); lia).
  assert (L : (INR (correct_rows hit (n - b)) <= INR (n - b))%R) by (apply le_INR, filter_le).
  assert (G : (0 <= INR (correct_rows hit (n - b)))%R) by apply pos_INR.
  assert (Q : (0 <= INR (correct_rows hit (n - b)) / INR (n - b) <= 1)%R); [|lra].
  split; [apply Rmult_le_pos; auto; left; now apply Rinv_0_lt_compat|].
  apply (Rmult_le_reg_r (INR (n - b))); auto. unfold Rdiv. rewrite Rmult_assoc, Rinv_l by lra. lra.
Qed.
(** Otherwise perfect classification is reported as more than 100%. *)
Lemma scan_perfect fuel b s i : 1 <= b -> s <= i + fuel ->
  exists q, scan fuel (fun _ => true) s b i = q * b /\ s <= i + q * b.
Proof.
  intros Hb. revert i. induction fuel as [|f IH]; intros i Hf.
  - exists 0. split; [reflexivity|lia].
  - cbn [scan]. destruct (Nat.ltb_spec i s).
    + destruct (IH (i + b) ltac:(lia)) as (q & -> & Hq). exists (S q). split; [|lia].
      rewrite count_rows_filter.
      assert (X : forall l : list nat, filter (fun _ => true) l = l) by (induction l; simpl; congruence).
      rewrite X, seq_length. reflexivity.
    + exists 0. split; [reflexivity|lia].
Qed.
Lemma accuracy_over n b : 1 <= b -> b < n -> ~ (exists q, n - b = q * b) -> (100 < accuracy (fun _ => true) n b)%R.
Proof.
  intros Hb Hn Hq. unfold accuracy, acc_count. destruct (scan_perfect (n - b) b (n - b) 0 Hb ltac:(lia)) as (q & -> & Hs).
  assert (n - b < q * b) by (assert (n - b <> q * b) by (intros X; apply Hq; exists q; exact X); lia).
  assert (P : (0 < INR (n - b))%R) by (apply (lt_INR 0); lia).
  assert (L : (INR (n - b) < INR (q * b))%R) by now apply lt_INR.
  assert (1 < INR (q * b) / INR (n - b))%R; [|lra].
  apply (Rmult_lt_reg_r (INR (n - b))); auto. unfold Rdiv. rewrite Rmult_assoc, Rinv_l by lra. lra.
Qed.
(** All windows of the scan are inside the data. *)
Lemma accuracy_windows n b i : b <= n -> i < n - b -> i + b <= n.
Proof. lia. Qed.
(** argmax returns the first maximum of a non-empty list of comparable numbers. *)
Lemma argmax_ok (l : list Z) : l <> [] ->
  argmax Z.ltb l < length l /\ (forall k, k < length l -> (nth k l 0 <= nth (argmax Z.ltb l) l 0)%Z) /\
  (forall k, k < argmax Z.ltb l -> (nth k l 0 < nth (argmax Z.ltb l) l 0)%Z).
Proof.
  destruct l as [|x l]; [congruence|]. intros _. unfold argmax.
  enough (G : forall pre best bv rest, best < length pre -> nth best pre 0%Z = bv ->
    (forall k, k < length pre -> (nth k pre 0 <= bv)%Z) -> (forall k, k < best -> (nth k pre 0 < bv)%Z) ->
    let r := argmax_from Z.ltb best bv (length pre) rest in let a := pre ++ rest in
    r < length a /\ (forall k, k < length a -> (nth k a 0 <= nth r a 0)%Z) /\ (forall k, k < r -> (nth k a 0 < nth r a 0)%Z)).
  { apply (G [x] 0 x l); simpl; auto; intros k Hk; [destruct k; [lia|lia]|lia]. }
  intros pre best bv rest. revert pre best bv. induction rest as [|y rest IH]; intros pre best bv H1 H2 H3 H4; cbn zeta.
  - rewrite app_nil_r. cbn [argmax_from]. rewrite H2. auto.
  - cbn [argmax_from]. assert (El : S (length pre) = length (pre ++ [y])) by (rewrite app_length; simpl; lia).
    assert (Ea : pre ++ y :: rest = (pre ++ [y]) ++ rest) by (rewrite <- app_assoc; reflexivity).
    rewrite El, Ea. destruct (Z.ltb_spec bv y).
    + apply IH.
      * rewrite app_length; simpl; lia.
      * rewrite app_nth2 by lia. now rewrite Nat.sub_diag.
      * intros k Hk. rewrite app_length in Hk. simpl in Hk. destruct (Nat.eq_dec k (length pre)) as [->|].
        -- rewrite app_nth2 by lia. rewrite Nat.sub_diag. simpl. lia.
        -- rewrite app_nth1 by lia. specialize (H3 k ltac:(lia)). lia.
      * intros k Hk. rewrite app_nth1 by lia. specialize (H3 k Hk). lia.
    + apply IH.
      * rewrite app_length; simpl; lia.
      * rewrite app_nth1 by lia. auto.
      * intros k Hk. rewrite app_length in Hk. simpl in Hk. destruct (Nat.eq_dec k (length pre)) as [->|].
        -- rewrite app_nth2 by lia. rewrite Nat.sub_diag. simpl. lia.
        -- rewrite app_nth1 by lia. apply H3. lia.
      * intros k Hk. rewrite app_nth1 by lia. apply H4. lia.
Qed.
End Accuracy.

(** ** FillRandomValues (include/Matrix/Matrix.hpp:437-453) *)
Section Fill.
(** D: state of a distribution object, P: its parameters, G: generator state, V: samples. *)
Variables (D P G V : Type) (mk : P -> D) (sample : D -> G -> V * D * G).
(** std::generate over m elements (simplification: sequential execution policy). *)
Fixpoint generate (m : nat) (d : D) (g : G) : list V * D * G :=
  match m with
  | O => ([], d, g)
  | S m' => let '(v, d1, g1) := sample d g in let '(vs, d2, g2) := generate m' d1 g1 in (v :: vs, d2, g2)
  end.
(** One instantiation of the function template: [s] is its static local, [None] before the first call. *)
Definition fill (m : nat) (p : P) (s : option D) (g : G) : list V * option D * G :=
  let d := match s with Some d => d | None => mk p end in
  let '(vs, d', g') := generate m d g in (vs, Some d', g').
Lemma fill_first m p g : fst (fst (fill m p None g)) = fst (fst (generate m (mk p) g)).
Proof. unfold fill. destruct (generate m (mk p) g) as [[? ?] ?]. reflexivity. Qed.
(** After any call, the parameters of later calls are irrelevant. *)
Lemma fill_later m p q d g : fill m p (Some d) g = fill m q (Some d) g.
Proof. reflexivity. Qed.
Fixpoint fills (calls : list (nat * P)) (s : option D) (g : G) : list (list V) :=
  match calls with
  | [] => []
  | (m, p) :: cs => let '(vs, s', g') := fill m p s g in vs :: fills cs s' g'
  end.
Lemma fills_some (d : D) g (cs cs' : list (nat * P)) : map fst cs = map fst cs' -> fills cs (Some d) g = fills cs' (Some d) g.
Proof.
  revert d g cs'. induction cs as [|[m p] cs IH]; intros d g [|[m' p'] cs'] E; simpl in E; try discriminate; auto.
  injection E as <- E. cbn [fills]. rewrite (fill_later m p p'). unfold fill. destruct (generate m d g) as [[vs d'] g']. now rewrite (IH d' g' cs').
Qed.
(** All fills of a run sample from the distribution of the first call. *)
Lemma fills_params m p cs cs' g : map fst cs = map fst cs' -> fills ((m, p) :: cs) None g = fills ((m, p) :: cs') None g.
Proof.
  intros E. cbn [fills]. unfold fill. destruct (generate m (mk p) g) as [[vs d'] g']. f_equal. now apply fills_some.
Qed.
End Fill.
