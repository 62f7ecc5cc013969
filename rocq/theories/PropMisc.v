(** * C24 (complex arithmetic), C47 (Factorial), C49 (training windows), C50 (accuracy), C52 (random fill) *)

From Coq Require Import List Arith Bool ZArith Reals Lra Lia.
From Verif Require Import Misc.
Import ListNotations.

(** ** C24 Mixed real/complex arithmetic *)
Theorem C24_correct_operators : forall v z,
  add_rc v z = cadd (inj v) z /\ add_cr z v = cadd z (inj v) /\ sub_cr z v = cadd z (copp (inj v)) /\
  mul_rc v z = cmul (inj v) z /\ mul_cr z v = cmul z (inj v) /\ (v <> 0%R -> is_quotient z (inj v) (div_cr z v)).
Proof. exact complex_good. Qed.
Print Assumptions C24_correct_operators.
(** real - z is right exactly when z is real. *)
Theorem C24_real_minus_complex : forall v z, sub_rc v z = cadd (inj v) (copp z) <-> snd z = 0%R.
Proof. exact sub_rc_iff. Qed.
(** real / z is right for real z, and wrong for every z off the axes and the diagonals. *)
Theorem C24_real_over_complex : forall v z,
  (snd z = 0%R -> fst z <> 0%R -> is_quotient (inj v) z (div_rc v z)) /\
  (v <> 0%R -> snd z <> 0%R -> (fst z * fst z)%R <> (snd z * snd z)%R -> ~ is_quotient (inj v) z (div_rc v z)).
Proof. exact (fun v z => conj (div_rc_real v z) (div_rc_wrong v z)). Qed.
Print Assumptions C24_real_over_complex.
(** == and != with v are right for every z exactly when v = 0. *)
Theorem C24_comparison : forall v,
  ((forall z, eq_cr z v = true <-> z = inj v) <-> v = 0%R) /\
  forall z, eq_rc v z = eq_cr z v /\ ne_cr z v = negb (eq_cr z v) /\ ne_rc v z = negb (eq_cr z v).
Proof. exact (fun v => conj (eq_cr_iff v) (other_comparisons v)). Qed.
Print Assumptions C24_comparison.
Lemma complex_bad : sub_rc 1 (0, 1)%R <> cadd (inj 1) (copp (0, 1))%R /\
  ~ is_quotient (inj 1) (1, 2)%R (div_rc 1 (1, 2)%R) /\ eq_cr (inj 1) 1 = false /\ eq_cr (1, 1)%R 1 = true.
Proof.
  repeat apply conj.
  - intros H. exact (R1_neq_R0 (proj1 (sub_rc_iff 1 (0, 1)%R) H)).
  - apply div_rc_wrong; simpl; lra.
  - unfold eq_cr, Reqb, inj; simpl. destruct (Req_EM_T 1 1) as [|H]; [|contradiction (H eq_refl)].
    destruct (Req_EM_T 0 1); [lra|reflexivity].
  - unfold eq_cr, Reqb; simpl. destruct (Req_EM_T 1 1) as [|H]; [reflexivity|contradiction (H eq_refl)].
Qed.
Theorem C24_refuted : sub_rc 1 (0, 1)%R <> cadd (inj 1) (copp (0, 1))%R /\
  ~ is_quotient (inj 1) (1, 2)%R (div_rc 1 (1, 2)%R) /\ eq_cr (inj 1) 1 = false /\ eq_cr (1, 1)%R 1 = true.
Proof. exact complex_bad. Qed.
Print Assumptions C24_refuted.
Example C24_nonvacuous : div_cr (4, 6)%R 2 = (2, 3)%R.
Proof. unfold div_cr, re, im; simpl. f_equal; lra. Qed.

(** ** C47 Factorial *)
(** Any history of calls: each returns n! mod 2^64; exactly n! when that fits. *)
Theorem C47_factorial : forall ns,
  exists m, fact_calls ns fmap0 = Some (map (fun n => (Z.of_nat (fact n) mod 2 ^ 64)%Z) ns, m) /\
  forall n, (Z.of_nat (fact n) < 2 ^ 64)%Z -> exists m', Factorial n m = Some (Z.of_nat (fact n), m').
Proof.
  exact (fun ns => match factorial_history ns with ex_intro _ m E => ex_intro _ m (conj E (fun n => factorial_exact ns m n E)) end).
Qed.
Print Assumptions C47_factorial.
Example C47_nonvacuous : exists m, fact_calls [5; 3; 6; 0] fmap0 = Some ([120; 6; 720; 1]%Z, m).
Proof. eexists. reflexivity. Qed.

(** ** C49 Training windows *)
(** [epoch n b]: first rows of the mini-batches of one epoch over n rows with batch size b. *)
Theorem C49_windows_cover : forall n b, (1 <= b <= n)%Z -> (n + b < 2 ^ 64)%Z ->
  exists l, epoch n b = Some l /\ (forall w, In w l -> 0 <= w /\ w + b <= n)%Z /\
    (forall i, 0 <= i < n -> exists w, In w l /\ w <= i < w + b)%Z.
Proof. exact epoch_ok. Qed.
Print Assumptions C49_windows_cover.
(** The restriction b <= n is needed. *)
Theorem C49_batch_larger_than_data_refuted : forall n b fuel, (0 < n < b)%Z -> (n + b < 2 ^ 64)%Z ->
  forall l, train_loop (S fuel) n b 0 = Some l -> exists w l', l = w :: l' /\ (n < w + b)%Z.
Proof. exact epoch_too_big. Qed.
Print Assumptions C49_batch_larger_than_data_refuted.
Example C49_nonvacuous : epoch 10 4 = Some [0; 4; 6]%Z /\ epoch 8 4 = Some [0; 4]%Z.
Proof. vm_compute. auto. Qed.

(** ** C50 Accuracy *)
(** [hit r]: data row r is classified correctly. *)
Theorem C50_accuracy_when_divisible : forall hit n b, 1 <= b -> b < n -> (exists q, n - b = q * b) ->
  accuracy hit n b = (INR (correct_rows hit (n - b)) / INR (n - b) * 100)%R /\ (0 <= accuracy hit n b <= 100)%R.
Proof. exact accuracy_divides. Qed.
Print Assumptions C50_accuracy_when_divisible.
(** Whenever b does not divide n-b a perfect classifier is reported above 100%. *)
Theorem C50_over_100_refuted : forall n b, 1 <= b -> b < n -> ~ (exists q, n - b = q * b) -> (100 < accuracy (fun _ => true) n b)%R.
Proof. exact accuracy_over. Qed.
Print Assumptions C50_over_100_refuted.
Lemma equal_sizes hit n : acc_count hit n n = 0 /\ INR (n - n) = 0%R.
Proof. unfold acc_count. rewrite Nat.sub_diag. split; reflexivity. Qed.
(** For n = b nothing is counted and the result is 0/0. *)
Theorem C50_equal_sizes_refuted : forall hit n, acc_count hit n n = 0 /\ INR (n - n) = 0%R.
Proof. exact equal_sizes. Qed.
Print Assumptions C50_equal_sizes_refuted.
(** The class of a row is the first position of its maximum. *)
Theorem C50_argmax : forall l : list Z, l <> [] ->
  argmax Z.ltb l < length l /\ (forall k, k < length l -> (nth k l 0 <= nth (argmax Z.ltb l) l 0)%Z) /\
  (forall k, k < argmax Z.ltb l -> (nth k l 0 < nth (argmax Z.ltb l) l 0)%Z).
Proof. exact argmax_ok. Qed.
Print Assumptions C50_argmax.
Example C50_nonvacuous : acc_count (fun _ => true) 10 4 = 8 /\ acc_count Nat.even 12 4 = 4 /\ argmax Z.ltb [1; 7; 3; 7]%Z = 1.
Proof. vm_compute. auto. Qed.

(** ** C52 Random fill *)
(** For every distribution (mk, sample) and every sequence of fills: the results are those of a run in which every
    later call has any other parameters -- only the first call's parameters matter ... *)
Theorem C52_first_call_decides : forall (D P G V : Type) (mk : P -> D) (sample : D -> G -> V * D * G) m p cs cs' g,
  map fst cs = map fst cs' -> fills D P G V mk sample ((m, p) :: cs) None g = fills D P G V mk sample ((m, p) :: cs') None g.
Proof. exact fills_params. Qed.
Print Assumptions C52_first_call_decides.
(** ... and the first call does sample from its own distribution. *)
Theorem C52_first_call_samples : forall (D P G V : Type) (mk : P -> D) (sample : D -> G -> V * D * G) m p g,
  fst (fst (fill D P G V mk sample m p None g)) = fst (fst (generate D G V sample m (mk p) g)).
Proof. exact fill_first. Qed.
Print Assumptions C52_first_call_samples.
(** Bernoulli-like distribution that always returns its parameter: fill with 0, then fill with 1 gives 0. *)
Theorem C52_refuted : fills nat nat unit nat (fun p => p) (fun d g => (d, d, g)) [(2, 0); (2, 1)] None tt = [[0; 0]; [0; 0]].
Proof. exact eq_refl. Qed.
Example C52_nonvacuous : fst (fst (generate nat unit nat (fun d g => (d, d, g)) 2 1 tt)) = [1; 1].
Proof. reflexivity. Qed.
