(** * The network of the neural network example (example/NeuralNet/main.cpp:18-43), for any number of layers of any sizes *)
From Coq Require Import List Arith Bool Lia Reals Lra.
From Verif Require Import Num NumInst Activation MatFunSpec MatFunOk.
Import ListNotations.
Set Implicit Arguments.
Unset Strict Implicit.
Local Open Scope nat_scope.

(** ** Model: the calls of the library's functions *)
(** A layer: weights W, bias b (Layer.hpp), and the matrix D that Dropout multiplies with (NeuralNet.hpp:187-207,
    "return ( *W)^X"). *)
Record neuron : Type := Neuron { w_of : nat; b_of : nat; d_of : nat }.
(** main.cpp:19-22: Dropout(LeakyReLUM(h*transpose(W) + transpose(broadcast<Axis::COLUMN>(b, batch))), p). *)
Definition layer_call (batch : nat) (h : fexp) (l : neuron) : fexp :=
  XHad (XMat (d_of l)) (XFun (cfun_val CLeakyReLU) (cfun_val CDLeakyReLU)
    (XSum (XMul h (XTr (XMat (w_of l)))) (XTr (XBroadcast COLUMN (XMat (b_of l)) batch)))).
Definition last_layer (batch X : nat) (ls : list neuron) : fexp := fold_left (layer_call batch) ls (XMat X).
(** main.cpp:23: SoftMax<Axis::COLUMN>(l4), the final layer. *)
Definition final_layer (batch X : nat) (ls : list neuron) : fexp := XSoftMax COLUMN (last_layer batch X ls).
(** main.cpp:32-36: -1 * Sigma(Y^LogM(Yp)); the regularisation is switched off (#if 0). *)
Definition error_call (batch X Y : nat) (ls : list neuron) : fexp :=
  XScale (-1) (XSigma ALL (XHad (XMat Y) (XFun (cfun_val CLog) (cfun_val CDLog) (final_layer batch X ls)))).

(** ** Specification *)
Definition leaky (x : R) : R := if Rle_dec 0 x then x else (x / 100)%R.
Section Spec.
Variables dr dc : nat -> nat.
Variable V : nat -> nat -> nat -> R.
(** Unit u of a layer for sample i, from the outputs F of the layer before. *)
Definition unit_out (F : nat -> nat -> R) (l : neuron) (i u : nat) : R :=
  (V (d_of l) i u * leaky (total (dc (w_of l)) (fun v => V (w_of l) u v * F i v) + V (b_of l) u 0%nat))%R.
Definition scores (X : nat) (ls : list neuron) : nat -> nat -> R := fold_left unit_out ls (V X).
(** What the unit computes before LeakyReLU. *)
Definition pre_act (F : nat -> nat -> R) (l : neuron) (i u : nat) : R :=
  (total (dc (w_of l)) (fun v => V (w_of l) u v * F i v) + V (b_of l) u 0%nat)%R.
(** No unit is at the kink of LeakyReLU, for any sample. *)
Fixpoint off_kinks (batch : nat) (F : nat -> nat -> R) (ls : list neuron) : Prop :=
  match ls with
  | [] => True
  | l :: t => (forall i u, i < batch -> u < dc (d_of l) -> pre_act F l i u <> 0%R) /\ off_kinks batch (unit_out F l) t
  end.
(** The sizes of the matrices fit: n inputs, one column of weights per unit of the layer before. *)
Fixpoint shapes (batch n : nat) (ls : list neuron) : Prop :=
  match ls with
  | [] => True
  | l :: t => dc (w_of l) = n /\ dr (b_of l) = dr (w_of l) /\ dc (b_of l) = 1 /\ dr (d_of l) = batch /\ dc (d_of l) = dr (w_of l) /\
      shapes batch (dr (w_of l)) t
  end.
Fixpoint width (n : nat) (ls : list neuron) : nat := match ls with [] => n | l :: t => width (dr (w_of l)) t end.
End Spec.
(** The softmax of the scores z of sample i, and the sum over the samples of minus its logarithm at the label. *)
Definition softmax (classes : nat) (z : nat -> nat -> R) (i u : nat) : R := (exp (z i u) / total classes (fun v => exp (z i v)))%R.
Definition cross_entropy (batch classes : nat) (z : nat -> nat -> R) (label : nat -> nat) : R :=
  total batch (fun i => ln (total classes (fun u => exp (z i u))) - z i (label i))%R.

(** ** Proof *)
Lemma leaky_ok x : cfun_val CLeakyReLU x = leaky x.
Proof. cbn [cfun_val]. unfold if_nonneg, leaky, neg_slope. destruct (Rle_dec 0 x); lra. Qed.
Section Net.
Variables dr dc : nat -> nat.
Variable V : nat -> nat -> nat -> R.
Variable batch : nat.
Hypothesis PB : 0 < batch.
Notation fr := (frows dr dc). Notation fc := (fcols dr dc). Notation fv := (fval dr dc V). Notation ok := (fok dr dc V).

Lemma net_dims ls : forall h, fr h = batch -> shapes dr dc batch (fc h) ls ->
  fr (fold_left (layer_call batch) ls h) = batch /\ fc (fold_left (layer_call batch) ls h) = width dr (fc h) ls /\
  (ok h -> ok (fold_left (layer_call batch) ls h)).
Proof.
  induction ls as [|l ls IH]; intros h Hr Hs; cbn [fold_left width]; [auto|].
  destruct Hs as (E1 & E2 & E3 & E4 & E5 & Hs). 
  assert (Q : fr (layer_call batch h l) = batch) by (cbn [layer_call frows fcols]; exact E4).
  assert (Q2 : fc (layer_call batch h l) = dr (w_of l)) by (cbn [layer_call frows fcols]; exact E5).
  destruct (IH (layer_call batch h l) Q) as (A & B & C); [rewrite Q2; exact Hs|]. rewrite Q2 in B.
  split; [exact A|]. split; [exact B|]. intros Ok. apply C. cbn [layer_call fok frows fcols].
  repeat (split; [solve [exact Ok|exact Logic.I|congruence|lia]|]); try congruence; repeat split; try congruence; auto; lia.
Qed.
Lemma net_value ls : forall h F n, fr h = batch -> fc h = n -> shapes dr dc batch n ls -> (forall i u, fv h i u = F i u) ->
  forall i u, fv (fold_left (layer_call batch) ls h) i u = fold_left (unit_out dc V) ls F i u.
Proof.
  induction ls as [|l ls IH]; intros h F n Hr Hc Hs HF i u; cbn [fold_left]; [apply HF|].
  destruct Hs as (E1 & E2 & E3 & E4 & E5 & Hs).
  apply (IH (layer_call batch h l) (unit_out dc V F l) (dr (w_of l))); [cbn; exact E4|cbn; exact E5|exact Hs|].
  intros i' u'. cbn [layer_call fval]. rewrite leaky_ok. unfold unit_out. do 2 f_equal.
  f_equal. rewrite Hc, E1. apply total_ext. intros k _. rewrite HF. ring.
Qed.

Variable X : nat.
Hypothesis HX : dr X = batch.
Variable ls : list neuron.
Hypothesis Sh : shapes dr dc batch (dc X) ls.
Notation classes := (width dr (dc X) ls).
Notation z := (scores dc V X ls).
Lemma last_dims : fr (last_layer batch X ls) = batch /\ fc (last_layer batch X ls) = classes /\ ok (last_layer batch X ls).
Proof. destruct (@net_dims ls (XMat X) HX Sh) as (A & B & C). split; [exact A|]. split; [exact B|]. apply C. exact Logic.I. Qed.
Lemma last_value i u : fv (last_layer batch X ls) i u = z i u.
Proof. apply (@net_value ls (XMat X) (V X) (dc X) HX eq_refl Sh). reflexivity. Qed.
Lemma final_value i u : fv (final_layer batch X ls) i u = softmax classes z i u.
Proof.
  destruct last_dims as (_ & E & _). unfold final_layer. cbn [fval]. rewrite E, last_value. unfold softmax. f_equal.
  apply total_ext. intros v _. now rewrite last_value.
Qed.
Hypothesis PC : 0 < classes.
Lemma softmax_pos i u : (0 < softmax classes z i u)%R.
Proof. unfold softmax, Rdiv. apply Rmult_lt_0_compat; [apply exp_pos|]. apply Rinv_0_lt_compat, total_pos; [exact PC|]. intros. apply exp_pos. Qed.
Lemma total_scale n c (f : nat -> R) : total n (fun k => f k * c)%R = (total n f * c)%R.
Proof. induction n as [|n IH]; cbn [total]; [ring|]. rewrite IH. ring. Qed.
Lemma softmax_one i : total classes (softmax classes z i) = 1%R.
Proof.
  unfold softmax, Rdiv. rewrite total_scale. apply Rinv_r. apply Rgt_not_eq, total_pos; [exact PC|]. intros. apply exp_pos.
Qed.
Lemma ln_softmax i u : cfun_val CLog (softmax classes z i u) = (z i u - ln (total classes (fun v => exp (z i v))))%R.
Proof.
  cbn [cfun_val]. unfold softmax, Rdiv. assert (P : (0 < total classes (fun v => exp (z i v)))%R) by (apply total_pos; [exact PC|intros; apply exp_pos]).
  rewrite ln_mult by (try apply exp_pos; now apply Rinv_0_lt_compat). rewrite ln_exp, ln_Rinv by exact P. ring.
Qed.
Variable Y : nat.
Hypothesis HY : dr Y = batch /\ dc Y = classes.
Variable label : nat -> nat.
Hypothesis Lab : forall i, i < batch -> label i < classes /\ forall u, u < classes -> V Y i u = if u =? label i then 1%R else 0%R.
Lemma error_dims : fr (error_call batch X Y ls) = 1 /\ fc (error_call batch X Y ls) = 1 /\ ok (error_call batch X Y ls).
Proof.
  destruct last_dims as (E1 & E2 & O). split; [reflexivity|]. split; [reflexivity|].
  unfold error_call, final_layer. cbn [fok frows fcols]. repeat split; auto; destruct HY; congruence.
Qed.
Lemma total_opp n (f : nat -> R) : (-1 * total n f = total n (fun k => - f k))%R.
Proof. induction n as [|n IH]; cbn [total]; [ring|]. rewrite <- IH. ring. Qed.
Lemma error_value i j : fv (error_call batch X Y ls) i j = cross_entropy batch classes z label.
Proof.
  unfold error_call. cbn [fval frows fcols]. destruct HY as [-> ->]. rewrite total_opp. unfold cross_entropy. apply total_ext. intros k Hk.
  destruct (Lab Hk) as [L1 L2].
  rewrite (total_ext (g := fun l => delta l (label k) * (z k l - ln (total classes (fun v => exp (z k v)))))%R).
  - transitivity (- (z k (label k) - ln (total classes (fun v => exp (z k v)))))%R; [|ring]. f_equal.
    rewrite (total_ext (g := fun l => (z k l - ln (total classes (fun v => exp (z k v)))) * delta l (label k))%R) by (intros; ring).
    now rewrite (total_delta (fun l => z k l - ln (total classes (fun v => exp (z k v))))%R L1).
  - intros l Hl. rewrite L2 by exact Hl. rewrite final_value, ln_softmax. unfold delta. destruct (l =? label k); ring.
Qed.
End Net.
