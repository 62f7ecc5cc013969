(** * NeuralNet: dropout masks (example/NeuralNet/include/NeuralNet.hpp)

    Simplifications: matrices made by the factory are numbered; allocation never fails.
    Samples of std::bernoulli_distribution are booleans; std::generate asks for them in the
    order of the elements. *)
From Coq Require Import List Arith Bool Lia Permutation.
From Verif Require Import Num Misc.
Import ListNotations.
Set Implicit Arguments.
Unset Strict Implicit.

(** ** The pool *)
Section Pool.
Context {P : Type}.
Notation dims := (nat * nat)%type.
(** m_dropout_mat, m_dropout_pool (lines 170-173), the dimensions of the matrices, and the
    number of matrices made. *)
Record drop : Type := Drop { d_mat : list (P * nat); d_pool : list nat; d_dims : nat -> dims; d_made : nat }.
Implicit Types (s : drop) (d : dims).
Definition drop0 : drop := Drop [] [] (fun _ => (0, 0)) 0.
Definition same d (d' : dims) : bool := (fst d =? fst d') && (snd d =? snd d').
(** find_if and erase, lines 197-201: the first matrix of the dimensions, and the others. *)
Fixpoint take (f : nat -> bool) (l : list nat) : option (nat * list nat) :=
  match l with
  | [] => None
  | w :: t => if f w then Some (w, t) else match take f t with Some (v, t') => Some (v, w :: t') | None => None end
  end.
(** Dropout(X, p) for an X of dimensions d; q = 1-p.  Lines 187-207. *)
Definition dropout d (q : P) s : drop :=
  match take (fun w => same (d_dims s w) d) (d_pool s) with
  | Some (w, rest) => Drop (d_mat s ++ [(q, w)]) rest (d_dims s) (d_made s)
  | None => let w := d_made s in
            Drop (d_mat s ++ [(q, w)]) (d_pool s) (fun v => if v =? w then d else d_dims s v) (Datatypes.S w)
  end.
(** networkLayers, lines 255-272: the masks go to the pool, then the layers are made by
    the calls of Dropout in the list b. *)
Definition recycle s : drop := Drop [] (d_pool s ++ map snd (d_mat s)) (d_dims s) (d_made s).
Definition networkLayers (b : list (dims * P)) s : drop := fold_left (fun s dq => dropout (fst dq) (snd dq) s) b (recycle s).
(** Networks are made again and again: train (line 344) and accuracy (line 306). *)
Definition rebuilds (bs : list (list (dims * P))) : drop := fold_left (fun s b => networkLayers b s) bs drop0.

(** *** Facts *)
Lemma take_some f l w rest : take f l = Some (w, rest) -> f w = true /\ Permutation l (w :: rest).
Proof.
  revert w rest. induction l as [|v l IH]; intros w rest H; simpl in H; [discriminate|].
  destruct (f v) eqn:Ev; [injection H as <- <-; split; auto|].
  destruct (take f l) as [[u t']|]; [|discriminate]. injection H as <- <-. destruct (IH u t' eq_refl) as [H1 H2]. split; [exact H1|].
  rewrite H2. apply perm_swap.
Qed.
Lemma take_none f l : take f l = None -> forall w, In w l -> f w = false.
Proof.
  induction l as [|v l IH]; intros H w Hw; simpl in *; [destruct Hw|]. destruct (f v) eqn:Ev; [discriminate|].
  destruct (take f l) as [[u t']|] eqn:E; [discriminate|]. destruct Hw as [<-|Hw]; auto.
Qed.
Lemma same_eq d d' : same d d' = true <-> d = d'.
Proof.
  unfold same. destruct d as [a b], d' as [a' b']. simpl. rewrite andb_true_iff, !Nat.eqb_eq. split; [intros [-> ->]; auto|intros H; injection H; auto].
Qed.
(** All matrices made are in the pool or in use, once. *)
Definition all_in s : Prop := Permutation (d_pool s ++ map snd (d_mat s)) (seq 0 (d_made s)).
Lemma in_made s w : all_in s -> In w (d_pool s ++ map snd (d_mat s)) -> w < d_made s.
Proof. intros H Hw. apply (Permutation_in _ H) in Hw. apply in_seq in Hw. lia. Qed.
Lemma dropout_all d q s : all_in s -> all_in (dropout d q s).
Proof.
  unfold all_in. intros H. unfold dropout. destruct (take _ (d_pool s)) as [[w rest]|] eqn:E; cbn [d_pool d_mat d_made].
  - destruct (take_some E) as [_ Pw]. rewrite map_app. simpl. rewrite app_assoc. rewrite <- H. rewrite Pw. simpl.
    rewrite Permutation_app_comm. reflexivity.
  - rewrite map_app, app_assoc. rewrite seq_S. simpl. apply Permutation_app_tail. exact H.
Qed.
Lemma recycle_all s : all_in s -> all_in (recycle s).
Proof. intros H. unfold all_in, recycle. cbn [d_pool d_mat d_made map]. now rewrite app_nil_r. Qed.
Lemma layers_all b s : all_in s -> all_in (networkLayers b s).
Proof.
  intros H. unfold networkLayers. apply recycle_all in H. revert H. generalize (recycle s). clear s.
  induction b as [|[d q] b IH]; intros s H; simpl; auto. apply IH. now apply dropout_all.
Qed.
(** The mask of every call, with its dimensions and probability. *)
Definition masks_for s (b : list (dims * P)) : Prop := map (fun qw => (d_dims s (snd qw), fst qw)) (d_mat s) = b.
Lemma dropout_masks d q s b : all_in s -> masks_for s b -> masks_for (dropout d q s) (b ++ [(d, q)]).
Proof.
  intros Al H. unfold masks_for, dropout in *. destruct (take _ (d_pool s)) as [[w rest]|] eqn:E; cbn [d_mat d_dims].
  - destruct (take_some E) as [Sw _]. apply same_eq in Sw. rewrite map_app, H. simpl. now rewrite Sw.
  - rewrite map_app. simpl. rewrite Nat.eqb_refl. f_equal. rewrite <- H. apply map_ext_in. intros [q' w] Hw. cbn [fst snd].
    assert (L : w < d_made s). { apply (in_made Al). apply in_or_app. right. apply in_map_iff. exists (q', w). auto. }
    destruct (Nat.eqb_spec w (d_made s)) as [Q|_]; [lia|reflexivity].
Qed.
Lemma layers_masks b s : all_in s -> masks_for (networkLayers b s) b.
Proof.
  intros H. unfold networkLayers. apply recycle_all in H.
  enough (Q : forall b0 s, all_in s -> masks_for s b0 -> masks_for (fold_left (fun s dq => dropout (fst dq) (snd dq) s) b s) (b0 ++ b)) by (apply (Q []); [exact H|reflexivity]).
  clear s H. induction b as [|[d q] b IH]; intros b0 s Al Hm; simpl; [now rewrite app_nil_r|].
  change ((d, q) :: b) with ([(d, q)] ++ b). rewrite app_assoc. apply IH; [now apply dropout_all|now apply dropout_masks].
Qed.
Lemma rebuilds_all bs : all_in (rebuilds bs).
Proof.
  unfold rebuilds. assert (H : all_in drop0) by constructor. revert H. generalize drop0. induction bs as [|b bs IH]; intros s H; simpl; auto. apply IH. now apply layers_all.
Qed.

(** Numbers of matrices of dimensions d: made, and asked for by the calls b. *)
Definition made d s : nat := length (filter (fun w => same (d_dims s w) d) (seq 0 (d_made s))).
Definition wanted d (b : list (dims * P)) : nat := length (filter (fun dq => same (fst dq) d) b).
Definition count_in d s (l : list nat) : nat := length (filter (fun w => same (d_dims s w) d) l).
Lemma count_perm d s l l' : Permutation l l' -> count_in d s l = count_in d s l'.
Proof.
  unfold count_in. induction 1 as [|x l l' H IH|x y l|l1 l2 l3 H1 IH1 H2 IH2]; simpl; auto.
  - destruct (same _ d); simpl; auto.
  - destruct (same (d_dims s x) d), (same (d_dims s y) d); simpl; auto.
  - congruence.
Qed.
Lemma count_app d s l l' : count_in d s (l ++ l') = count_in d s l + count_in d s l'.
Proof. unfold count_in. now rewrite filter_app, app_length. Qed.
Lemma made_split d s : all_in s -> made d s = count_in d s (d_pool s) + count_in d s (map snd (d_mat s)).
Proof. intros H. rewrite <- count_app. symmetry. exact (count_perm d s H). Qed.
Lemma masks_count d s b : masks_for s b -> count_in d s (map snd (d_mat s)) = wanted d b.
Proof.
  intros <-. unfold count_in, wanted. induction (d_mat s) as [|[q w] l IH]; simpl; auto. destruct (same (d_dims s w) d); simpl; auto.
Qed.
Lemma wanted_app d b b' : wanted d (b ++ b') = wanted d b + wanted d b'.
Proof. unfold wanted. now rewrite filter_app, app_length. Qed.
Lemma made_ext d s s' : d_made s' = d_made s -> (forall w, w < d_made s -> d_dims s' w = d_dims s w) -> made d s' = made d s.
Proof.
  intros E H. unfold made. rewrite E. f_equal. apply filter_ext_in. intros w Hw. apply in_seq in Hw. now rewrite H by lia.
Qed.
(** Within one network: a matrix is made exactly when all of its dimensions are in use. *)
Lemma dropout_made d d' q s b : all_in s -> masks_for s b -> wanted d b <= made d s ->
  made d (dropout d' q s) = Nat.max (made d s) (wanted d (b ++ [(d', q)])).
Proof.
  intros Al Hm Le. pose proof (made_split d Al) as Sp. rewrite (masks_count d Hm) in Sp. rewrite wanted_app. unfold wanted at 2. cbn [filter fst].
  unfold dropout. destruct (take _ (d_pool s)) as [[w rest]|] eqn:E.
  - rewrite (@made_ext d s) by (cbn; auto). destruct (take_some E) as [Sw Pw]. apply same_eq in Sw. destruct (same d' d) eqn:Ed; cbn [length]; [|lia].
    apply same_eq in Ed. assert (C : count_in d s (d_pool s) = 1 + count_in d s rest).
    { rewrite (count_perm d s Pw). unfold count_in. cbn [filter]. rewrite (proj2 (same_eq (d_dims s w) d)) by congruence. reflexivity. }
    lia.
  - assert (M : made d (Drop (d_mat s ++ [(q, d_made s)]) (d_pool s) (fun v => if v =? d_made s then d' else d_dims s v) (Datatypes.S (d_made s))) = made d s + (if same d' d then 1 else 0)).
    { unfold made. cbn [d_made d_dims]. rewrite seq_S, filter_app, app_length. simpl. rewrite Nat.eqb_refl. f_equal; [|destruct (same d' d); reflexivity].
      f_equal. apply filter_ext_in. intros w Hw. apply in_seq in Hw. destruct (Nat.eqb_spec w (d_made s)) as [Q|_]; [lia|reflexivity]. }
    cbv zeta. rewrite M. destruct (same d' d) eqn:Ed; cbn [length]; [|lia]. apply same_eq in Ed. subst d'.
    assert (C : count_in d s (d_pool s) = 0).
    { pose proof (take_none E) as Z. revert Z. unfold count_in. clear. induction (d_pool s) as [|w l IH]; intros Z; simpl; auto. rewrite (Z w) by (simpl; auto). apply IH. intros v Hv. apply Z. simpl. auto. }
    lia.
Qed.
Lemma fold_made d b : forall s b0, all_in s -> masks_for s b0 -> wanted d b0 <= made d s ->
  made d (fold_left (fun s dq => dropout (fst dq) (snd dq) s) b s) = Nat.max (made d s) (wanted d (b0 ++ b)).
Proof.
  induction b as [|[d' q] b IH]; intros s b0 Al Hm Le; simpl; [rewrite app_nil_r; lia|].
  pose proof (@dropout_made d d' q s b0 Al Hm Le) as E.
  rewrite (IH _ (b0 ++ [(d', q)])); [|now apply dropout_all|now apply dropout_masks|rewrite E; lia].
  rewrite E, <- app_assoc. simpl. assert (W : wanted d (b0 ++ [(d', q)]) <= wanted d (b0 ++ (d', q) :: b)).
  { rewrite !wanted_app. change ((d', q) :: b) with ([(d', q)] ++ b). rewrite wanted_app. lia. }
  lia.
Qed.
Lemma layers_made d b s : all_in s -> made d (networkLayers b s) = Nat.max (made d s) (wanted d b).
Proof.
  intros H. unfold networkLayers. rewrite (@fold_made d b (recycle s) []); [|now apply recycle_all|reflexivity|apply Nat.le_0_l]. reflexivity.
Qed.
Lemma rebuilds_app bs b : rebuilds (bs ++ [b]) = networkLayers b (rebuilds bs).
Proof. unfold rebuilds. now rewrite fold_left_app. Qed.
Theorem rebuilds_made d bs : made d (rebuilds bs) = fold_right Nat.max 0 (map (wanted d) bs).
Proof.
  induction bs as [|b bs IH] using rev_ind; [reflexivity|]. rewrite rebuilds_app, layers_made by apply rebuilds_all. rewrite IH, map_app, fold_right_app. simpl.
  generalize (map (wanted d) bs). clear. induction l as [|n l IH]; simpl; lia.
Qed.
End Pool.

(** ** Filling the masks *)
Section Fill.
Context {T : Type} {N : Num T}.
Variables (D Gen : Type) (mk : T -> D) (sample : D -> Gen -> bool * D * Gen).
(** m_dropout_mat's matrices: entries, row-major. *)
Definition entries : Type := nat -> list T.
Definition bit (b : bool) : T := if b then n1 else n0.
Definition set_entries (e : entries) (w : nat) (l : list T) : entries := fun v => if v =? w then l else e v.
(** randomizeDropout<true>, lines 154-162; d: the distribution object inside
    FillRandomValues<BernoulliDistribution>. *)
Fixpoint randomize (mats : list (T * nat)) (dims : nat -> nat * nat) (e : entries) (d : option D) (g : Gen) : entries * option D * Gen :=
  match mats with
  | [] => (e, d, g)
  | (q, w) :: t => let '(vs, d', g') := fill D T Gen bool mk sample (fst (dims w) * snd (dims w)) q d g in
                   randomize t dims (set_entries e w (map (fun v => nmul (ndiv n1 q) (bit v)) vs)) d' g'
  end.
(** randomizeDropout<false>, lines 163-168. *)
Fixpoint unrandomize (mats : list (T * nat)) (dims : nat -> nat * nat) (e : entries) : entries :=
  match mats with [] => e | (_, w) :: t => unrandomize t dims (set_entries e w (repeat n1 (fst (dims w) * snd (dims w)))) end.

Lemma randomize_other mats dims : forall e d g w, ~ In w (map snd mats) -> fst (fst (randomize mats dims e d g)) w = e w.
Proof.
  induction mats as [|[q v] mats IH]; intros e d g w H; simpl; auto. destruct (fill _ _ _ _ mk sample _ q d g) as [[vs d'] g']. rewrite IH; [|simpl in H; tauto].
  unfold set_entries. destruct (Nat.eqb_spec w v) as [->|]; [simpl in H; tauto|reflexivity].
Qed.
Lemma generate_length m : forall d g, length (fst (fst (generate D Gen bool sample m d g))) = m.
Proof.
  induction m as [|m IH]; intros d g; cbn [generate]; auto. destruct (sample d g) as [[v d1] g1]. specialize (IH d1 g1). destruct (generate D Gen bool sample m d1 g1) as [[vs d2] g2]. simpl in *. congruence.
Qed.
Lemma randomize_mask mats dims : NoDup (map snd mats) -> forall e d g q w, In (q, w) mats ->
  let m := fst (fst (randomize mats dims e d g)) w in
  length m = fst (dims w) * snd (dims w) /\ forall v, In v m -> v = nmul (ndiv n1 q) n0 \/ v = nmul (ndiv n1 q) n1.
Proof.
  induction mats as [|[q' v] mats IH]; intros Nd e d g q w H; [destruct H|]. simpl in Nd. inversion Nd as [|? ? Ni Nd']; subst.
  cbn [randomize]. destruct (fill D T Gen bool mk sample (fst (dims v) * snd (dims v)) q' d g) as [[vs d'] g'] eqn:Ef.
  assert (Lv : length vs = fst (dims v) * snd (dims v)).
  { unfold fill in Ef. pose proof (generate_length (fst (dims v) * snd (dims v)) (match d with Some d => d | None => mk q' end) g) as Q.
    destruct (generate D Gen bool sample _ _ g) as [[vs2 d2] g2]. injection Ef as <- <- <-. exact Q. }
  destruct H as [H|H]; [injection H as -> ->|].
  - cbv zeta. rewrite randomize_other by auto. unfold set_entries. rewrite Nat.eqb_refl. rewrite map_length. split; [exact Lv|].
    intros x Hx. apply in_map_iff in Hx. destruct Hx as (b & <- & _). destruct b; [right|left]; reflexivity.
  - now apply IH.
Qed.
(** A call after the first one of the program: the decisions do not depend on the parameters. *)
Fixpoint keeps (ws : list nat) (dims : nat -> nat * nat) (d : D) (g : Gen) (w : nat) : list bool :=
  match ws with
  | [] => []
  | v :: t => let '(vs, d', g') := generate D Gen bool sample (fst (dims v) * snd (dims v)) d g in
              if v =? w then vs else keeps t dims d' g' w
  end.
Lemma randomize_keeps mats dims : NoDup (map snd mats) -> forall e d g q w, In (q, w) mats ->
  fst (fst (randomize mats dims e (Some d) g)) w = map (fun v => nmul (ndiv n1 q) (bit v)) (keeps (map snd mats) dims d g w).
Proof.
  induction mats as [|[q' v] mats IH]; intros Nd e d g q w H; [destruct H|]. simpl in Nd. inversion Nd as [|? ? Ni Nd']; subst.
  cbn [randomize keeps map snd]. unfold fill. destruct (generate D Gen bool sample (fst (dims v) * snd (dims v)) d g) as [[vs d'] g'].
  destruct H as [H|H]; [injection H as -> ->|].
  - rewrite Nat.eqb_refl, randomize_other by auto. unfold set_entries. now rewrite Nat.eqb_refl.
  - destruct (Nat.eqb_spec v w) as [->|_]; [|now apply IH]. exfalso. apply Ni. apply in_map_iff. exists (q, w). auto.
Qed.
End Fill.

Section Ones.
Context {T : Type} {N : Num T}.
Lemma unrandomize_other mats dims : forall e w, ~ In w (map snd mats) -> unrandomize mats dims e w = e w.
Proof.
  induction mats as [|[q v] mats IH]; intros e w H; simpl; auto. rewrite IH; [|simpl in H; tauto].
  unfold set_entries. destruct (Nat.eqb_spec w v) as [->|]; [simpl in H; tauto|reflexivity].
Qed.
Lemma unrandomize_mask mats dims : forall e w, In w (map snd mats) -> unrandomize mats dims e w = repeat n1 (fst (dims w) * snd (dims w)).
Proof.
  induction mats as [|[q v] mats IH]; intros e w H; [destruct H|]. cbn [unrandomize map snd In] in *.
  destruct (in_dec Nat.eq_dec w (map snd mats)) as [Hw|Nw]; [now apply IH|]. destruct H as [->|H]; [|contradiction].
  rewrite unrandomize_other by auto. unfold set_entries. now rewrite Nat.eqb_refl.
Qed.
End Ones.
