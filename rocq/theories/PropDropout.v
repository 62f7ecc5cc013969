(** * C67: dropout masks of NeuralNet *)

From Coq Require Import List Arith Bool Lia Permutation Reals Lra.
From Verif Require Import Num NumInst Misc Dropout.
Import ListNotations.
Local Open Scope nat_scope.

(** A program makes networks again and again (train and accuracy both do); every network is a list of
    calls of Dropout: the dimensions of the argument and q = 1-p.  [rebuilds bs] is the object after the
    networks bs, in this order. *)

(** The masks of the current network: one matrix per call, of the dimensions and with the probability
    of the call, no matrix used twice, and none of them waiting in the pool. *)
Theorem C67_own_masks : forall (P : Type) (bs : list (list ((nat * nat) * P))) b,
  let s := rebuilds (bs ++ [b]) in
  map (fun m => (d_dims s (snd m), fst m)) (d_mat s) = b /\
  NoDup (map snd (d_mat s)) /\
  (forall w, In w (map snd (d_mat s)) -> ~ In w (d_pool s)).
Proof.
  intros P bs b s. pose proof (rebuilds_all (bs ++ [b])) as Al. fold s in Al.
  assert (Nd : NoDup (d_pool s ++ map snd (d_mat s))) by (apply (Permutation_NoDup (Permutation_sym Al)); apply seq_NoDup).
  split; [|split].
  - unfold s. rewrite rebuilds_app. apply layers_masks. apply rebuilds_all.
  - revert Nd. generalize (d_pool s). intros l. induction l as [|v l IH]; intros Nd; [exact Nd|]. apply IH. now inversion Nd.
  - intros w Hw Hp. revert Nd Hp. generalize (d_pool s). intros l. induction l as [|v l IH]; intros Nd Hp; [destruct Hp|].
    inversion Nd as [|? ? Ni Nd']; subst. destruct Hp as [->|Hp]; [apply Ni; apply in_or_app; now right|now apply IH].
Qed.
Print Assumptions C67_own_masks.

(** Memory: the number of matrices of each dimensions ever allocated is the largest number any one
    network asked for, no matter how many networks were made. *)
Theorem C67_memory : forall (P : Type) (bs : list (list ((nat * nat) * P))) r c,
  let s := rebuilds bs in
  length (filter (fun w => (fst (d_dims s w) =? r) && (snd (d_dims s w) =? c)) (seq 0 (d_made s))) =
  fold_right Nat.max 0 (map (fun b => length (filter (fun dq => (fst (fst dq) =? r) && (snd (fst dq) =? c)) b)) bs).
Proof. intros P bs r c. exact (rebuilds_made (r, c) bs). Qed.
Print Assumptions C67_memory.

(** randomizeDropout<true>, for any random source: every entry of every mask of the current network is
    0 or 1/q, q that of the mask's call, all entries are written and no other matrix is. *)
Theorem C67_randomized : forall (D Gen : Type) (mk : R -> D) (sample : D -> Gen -> bool * D * Gen) bs b e d g,
  let s := rebuilds (bs ++ [b]) in
  let e' := fst (fst (randomize mk sample (d_mat s) (d_dims s) e d g)) in
  (forall q w, In (q, w) (d_mat s) -> length (e' w) = fst (d_dims s w) * snd (d_dims s w) /\
     forall v, In v (e' w) -> v = 0%R \/ v = (/ q)%R) /\
  (forall w, ~ In w (map snd (d_mat s)) -> e' w = e w).
Proof.
  intros D Gen mk sample bs b e d g s e'. destruct (C67_own_masks R bs b) as (_ & Nd & _). fold s in Nd. split.
  - intros q w Hw. destruct (@randomize_mask R NumR D Gen mk sample (d_mat s) (d_dims s) Nd e d g q w Hw) as [Hl Hv]. split; [exact Hl|].
    intros v Iv. destruct (Hv v Iv) as [-> | ->]; cbn; [left|right]; unfold Rdiv; ring.
  - intros w Hw. now apply randomize_other.
Qed.
Print Assumptions C67_randomized.

(** randomizeDropout<false>: ones in the masks of the current network, nothing else written. *)
Theorem C67_not_randomized : forall bs b (e : nat -> list R),
  let s := rebuilds (bs ++ [b]) in
  let e' := unrandomize (d_mat s) (d_dims s) e in
  (forall w, In w (map snd (d_mat s)) -> length (e' w) = fst (d_dims s w) * snd (d_dims s w) /\ forall v, In v (e' w) -> v = 1%R) /\
  (forall w, ~ In w (map snd (d_mat s)) -> e' w = e w).
Proof.
  intros bs b e s e'. split; intros w Hw.
  - unfold e'. rewrite (@unrandomize_mask R NumR) by exact Hw. rewrite repeat_length. split; [reflexivity|]. intros v Hv. now apply repeat_spec in Hv.
  - now apply unrandomize_other.
Qed.
Print Assumptions C67_not_randomized.

(** ** The rate of the masks *)
(** What a user expects: a mask of probability p drops (writes 0 to) entries with probability p and
    scales the others by 1/(1-p), so its mean is 1.  The decisions are those of the first q of the
    whole run instead: which entries of all other masks are dropped does not depend on their q. *)
Definition dropped (l : list R) (b : list bool) : Prop := Forall2 (fun v (keep : bool) => v = 0%R <-> keep = false) l b.
Theorem C67_first_rate_decides : forall (D Gen : Type) (mk : R -> D) (sample : D -> Gen -> bool * D * Gen) q0 w0 ws dims g,
  NoDup (w0 :: ws) ->
  exists keep : nat -> list bool, forall ms e, map snd ms = ws -> (forall q w, In (q, w) ms -> (0 < q)%R) ->
    forall w, In w ws -> dropped (fst (fst (randomize mk sample ((q0, w0) :: ms) dims e None g)) w) (keep w).
Proof.
  intros D Gen mk sample q0 w0 ws dims g Nd. inversion Nd as [|? ? Ni Nd']; subst.
  destruct (generate D Gen bool sample (fst (dims w0) * snd (dims w0)) (mk q0) g) as [[vs d1] g1] eqn:Eg.
  exists (keeps sample ws dims d1 g1). intros ms e <- Hq w Hw. cbn [randomize]. unfold fill. rewrite Eg.
  apply in_map_iff in Hw. destruct Hw as ([q w'] & Q & Hw). cbn in Q. subst w'. rewrite (@randomize_keeps R NumR D Gen mk sample ms dims Nd' _ d1 g1 q w Hw).
  unfold dropped. specialize (Hq q w Hw). induction (keeps sample (map snd ms) dims d1 g1 w) as [|k ks IH]; [constructor|]. cbn [map]. constructor; [|exact IH].
  assert (Z : (/ q <> 0)%R) by (apply Rinv_neq_0_compat; lra).
  destruct k; cbn; unfold Rdiv; split; intros H; try reflexivity; try discriminate; [|lra]. exfalso. apply Z. lra.
Qed.
Print Assumptions C67_first_rate_decides.

(** A uniform random source: the generator counts 0, 1, ..., 9, 0, ... and the samples of the
    distribution of parameter q are u < q for u = 0.0, 0.1, ..., 0.9: over ten samples exactly the
    fraction q (of tenths) is kept. *)
Definition uniform (q : R) (g : nat) : bool * R * nat := (if Rlt_dec (INR (g mod 10) / 10) q then true else false, q, Datatypes.S g).
Definition total (l : list R) : R := fold_right Rplus 0%R l.
Definition two (w : nat) : nat * nat := (10, 1).
(** Two layers with dropout 0.1 and 0.5, ten entries each: the second mask should have the sum 10 (and
    does when it is the only one), but has the sum 18 -- its layer's mean is scaled by 1.8. *)
Ltac tenths := cbn; unfold uniform; cbn; repeat (destruct (Rlt_dec _ _); [try (exfalso; lra)|try (exfalso; lra)]); cbn; try lra.
Theorem C67_mean_refuted :
  total (fst (fst (randomize (fun q => q) uniform [(0.9%R, 0); (0.5%R, 1)] two (fun _ => []) None 0)) 1) = 18%R /\
  total (fst (fst (randomize (fun q => q) uniform [(0.5%R, 1)] two (fun _ => []) None 0)) 1) = 10%R.
Proof. split; tenths. Qed.
Print Assumptions C67_mean_refuted.

(** Three networks; the second one needs a second 3x2 mask, the third one reuses both. *)
Example C67_nonvacuous :
  let b1 := [((3, 2), 5); ((2, 2), 7)] in let b2 := [((3, 2), 5); ((3, 2), 6)] in
  let s := rebuilds [b1; b2; b1 ++ b2] in
  map fst (d_mat s) = [5; 7; 5; 6] /\ d_made s = 4 /\ made (3, 2) (rebuilds [b1; b2; b2; b1; b2]) = 2 /\ d_pool (rebuilds [b1; b2]) = [1].
Proof. vm_compute. auto. Qed.
Example C67_first_rate_nonvacuous : exists e : nat -> list R,
  e = fst (fst (randomize (fun q => q) uniform [(0.9%R, 0); (0.5%R, 1)] two (fun _ => []) None 0)) /\ length (e 1) = 10.
Proof. eexists. split; [reflexivity|]. reflexivity. Qed.
