(** * Every call of the matrix engine ends, on every graph

    A bound on the recursion of Eval, DevalF and PreComp for graphs with finitely many named
    expressions - possibly referring to themselves or to each other in cycles - and for every state,
    reachable or not. *)
From Coq Require Import List Arith Bool Lia.
From Verif Require Import Num MatMem Kernels KernelFacts KernelProofs KernelBlocks Registry KernelStep Backend Slots Exec MatEngine MatRev.
Import ListNotations.
Set Implicit Arguments.
Unset Strict Implicit.
Local Open Scope nat_scope.

Section Ends.
Context {T : Type} {N : Num T}.
Variable S : sched T.
Variable B : backend (T := T).
Variable G : graph T.
(** The named expressions of the program. *)
Variable L : list obj.
Hypothesis named : forall o id a y, g_kind G o = KExp id a y -> In o L.
Notation st := (st (T := T)).
Implicit Type rho : env T.

Fixpoint depth (e : mexp T) : nat :=
  match e with MLeaf _ => 1 | MBin _ _ l r => Datatypes.S (max (depth l) (depth r)) | MUn _ _ a => Datatypes.S (depth a) end.
Definition height : nat := list_max (map (fun o => match g_kind G o with KExp id a y => depth (item id a y) | _ => 0 end) L).
Lemma item_depth o id a y : g_kind G o = KExp id a y -> depth (item id a y) <= height.
Proof.
  intros Hk. unfold height. pose proof (proj1 (list_max_le (map (fun o => match g_kind G o with KExp id a y => depth (item id a y) | _ => 0 end) L) _) (Nat.le_refl _)) as Q.
  rewrite Forall_forall in Q. apply (Q (depth (item id a y))). apply in_map_iff. exists o. split; [now rewrite Hk|]. exact (named Hk).
Qed.

(** Number of named expressions that are (b = true) or are not visited. *)
Definition count (b : bool) (v : obj -> flags) : nat := length (filter (fun o => Bool.eqb (f_vis (v o)) b) L).
Lemma count_le b v : count b v <= length L.
Proof. unfold count. clear named. induction L as [|o l IH]; cbn [filter length]; [lia|]. destruct (Bool.eqb _ _); cbn [length]; lia. Qed.
Lemma count_mono b (v v' : obj -> flags) : (forall o, f_vis (v' o) = b -> f_vis (v o) = b) -> count b v' <= count b v.
Proof.
  intros H. unfold count. clear named. induction L as [|o l IH]; cbn [filter length]; [lia|].
  destruct (Bool.eqb (f_vis (v' o)) b) eqn:E'; destruct (Bool.eqb (f_vis (v o)) b) eqn:E; cbn [length]; try lia.
  apply Bool.eqb_prop in E'. rewrite (H _ E'), Bool.eqb_reflx in E. discriminate.
Qed.
Lemma count_less b (v v' : obj -> flags) o : (forall o, f_vis (v' o) = b -> f_vis (v o) = b) -> In o L -> f_vis (v o) = b -> f_vis (v' o) <> b -> count b v' < count b v.
Proof.
  intros H Hi V V'. unfold count in *. clear named. induction L as [|o' l IH]; [destruct Hi|]. cbn [filter].
  pose proof (count_mono (b := b) (v := v) (v' := v')) as Mo. unfold count in Mo.
  assert (Le : length (filter (fun o => Bool.eqb (f_vis (v' o)) b) l) <= length (filter (fun o => Bool.eqb (f_vis (v o)) b) l)).
  { clear - H. induction l as [|q l IH]; cbn [filter length]; [lia|].
    destruct (Bool.eqb (f_vis (v' q)) b) eqn:E'; destruct (Bool.eqb (f_vis (v q)) b) eqn:E; cbn [length]; try lia.
    apply Bool.eqb_prop in E'. rewrite (H _ E'), Bool.eqb_reflx in E. discriminate. }
  destruct Hi as [->|Hi].
  - rewrite V, Bool.eqb_reflx. destruct (Bool.eqb (f_vis (v' o)) b) eqn:E; [apply Bool.eqb_prop in E; congruence|]. cbn [length]. lia.
  - specialize (IH Hi).
    destruct (Bool.eqb (f_vis (v' o')) b) eqn:E'; destruct (Bool.eqb (f_vis (v o')) b) eqn:E; cbn [length]; try lia.
    apply Bool.eqb_prop in E'. rewrite (H _ E'), Bool.eqb_reflx in E. discriminate.
Qed.

(** A computation that ends in every state with at most u named expressions still to be visited
    (b = false) or to be reset (b = true), and makes them no more. *)
Definition ends (b : bool) (u : nat) {A} (c : E (T := T) A) : Prop := forall s, count b (fl s) <= u ->
  match c s with
  | ENoFuel => False
  | EOk (_, s') => forall o, f_vis (fl s' o) = b -> f_vis (fl s o) = b
  | _ => True
  end.
Lemma ends_bind b u A C (c : E (T := T) A) (k : A -> E C) : ends b u c -> (forall a, ends b u (k a)) -> ends b u (ebind c k).
Proof.
  intros H Hk s Hs. unfold ebind. specialize (H s Hs). destruct (c s) as [[a s']| | |]; auto.
  specialize (Hk a s'). assert (Q : count b (fl s') <= u) by (pose proof (count_mono H); lia). specialize (Hk Q).
  destruct (k a s') as [[a2 s2]| | |]; auto.
Qed.
Lemma ends_ret b u A (a : A) : ends b u (eret a).
Proof. intros s _. cbn. auto. Qed.
Lemma ends_assert b u x : ends b u (eassert x).
Proof. intros s _. unfold eassert. destruct x; cbn; auto. Qed.
Lemma ends_lift b u A (c : M T A) : ends b u (lift c).
Proof. intros s _. unfold lift. destruct (c (mm s)) as [[a m]| |]; cbn; auto. Qed.
Lemma ends_lift_to b u w (c : st -> M T ptr) : ends b u (fun s => lift_to w (c s) s).
Proof. intros s _. unfold lift_to. destruct (c s (mm s)) as [[a m]| |]; cbn; auto. Qed.
Lemma ends_setf b u o f : (forall q, f_vis (f q) = b -> f_vis q = b) -> ends b u (setf o f).
Proof. intros H s _. cbn. intros o'. destruct (Nat.eqb_spec o' o) as [->|]; auto. Qed.
Lemma ends_getf b u o : ends b u (getf o).
Proof. intros s _. cbn. auto. Qed.
Lemma ends_nonnull b u r : ends b u (nonnull r).
Proof. intros s _. destruct r; cbn; auto. Qed.
Lemma ends_exec b u prog : ends b u (exec S B prog).
Proof. intros s _. unfold exec. destruct (run _ _ _ _ _ _) as [[a m]| |]; cbn; auto. Qed.
Lemma ends_slot b u w : ends b u (slot w).
Proof. intros s _. unfold slot. destruct (ar s w); cbn; auto. Qed.
Lemma ends_unalias b u id a0 b0 ps : ends b u (unalias id a0 b0 ps).
Proof. intros s _. unfold unalias. destruct (existsb _ _); cbn; auto. Qed.

(** A block that handles a named expression unless its flag shows that it has been handled: it
    sets the flag, so fewer remain. *)
Lemma ends_named b u o A (blk : E (T := T) A) (body : flags -> E A) f : In o L ->
  (forall q, f_vis (f q) = negb b) ->
  (forall q s, f_vis q = b -> body q s = ebind (setf o f) (fun _ => blk) s) -> (forall q, f_vis q = negb b -> ends b u (body q)) ->
  (forall v, u = Datatypes.S v -> ends b v blk) -> ends b u (ebind (getf o) body).
Proof.
  intros Hi Hf Hbody Ha Hb s Hs. unfold ebind at 1, getf.
  destruct (Bool.bool_dec (f_vis (fl s o)) b) as [E|E].
  2: { apply (Ha (fl s o)); [destruct (f_vis (fl s o)), b; try reflexivity; congruence|exact Hs]. }
  rewrite (Hbody _ s E). unfold ebind, setf.
  set (s1 := St (mm s) (ar s) (fun q => if q =? o then f (fl s q) else fl s q)).
  assert (Le : forall q, f_vis (fl s1 q) = b -> f_vis (fl s q) = b).
  { intros q. cbn [s1 fl]. destruct (Nat.eqb_spec q o) as [->|]; auto. }
  assert (Lt : count b (fl s1) < count b (fl s)).
  { apply count_less with (o := o); auto. cbn [s1 fl]. rewrite Nat.eqb_refl, Hf. destruct b; discriminate. }
  destruct u as [|u]; [lia|]. specialize (Hb u eq_refl s1 ltac:(lia)). destruct (blk s1) as [[a s2]| | |]; auto.
Qed.
Ltac prim := repeat first [apply ends_ret | apply ends_assert | apply ends_lift | apply ends_lift_to | apply ends_getf
  | apply ends_nonnull | apply ends_exec | apply ends_slot | apply ends_unalias | apply ends_setf; intros ?; cbn; congruence | assumption
  | apply ends_bind; [|intros ?] | match goal with |- ends _ _ (if ?b then _ else _) => destruct b end].

Definition need (u : nat) (e : mexp T) : nat := u * Datatypes.S height + depth e.
Lemma need_item o id a y v n : g_kind G o = KExp id a y -> need (Datatypes.S v) (MLeaf o) <= Datatypes.S n -> need v (item id a y) <= n.
Proof. intros Hk. pose proof (item_depth Hk). unfold need. cbn [depth]. nia. Qed.
Lemma need_mono u v e : u <= v -> need u e <= need v e.
Proof. unfold need. nia. Qed.

Lemma eval_ends rho : forall fuel u e, need u e <= fuel -> ends false u (eval S B G rho fuel e).
Proof.
  induction fuel as [|n IH]; intros u e Hn; [exfalso; destruct e; unfold need in Hn; cbn [depth] in Hn; nia|].
  destruct e as [o|k id l r|k id a]; cbn [eval].
  - destruct (g_kind G o) as [| | | |id a y] eqn:Ek; try (unfold eval_leaf; prim; fail).
    apply ends_named with (f := fun f => set_vis (set_eval f)) (blk := ebind (eval S B G rho n (item id a y)) (fun p => ebind (setf o (set_res p)) (fun _ => ebind (getf o) (fun f => nonnull (f_res f))))).
    + exact (named Ek).
    + reflexivity.
    + intros q s V. rewrite V. unfold ebind, setf. destruct (eval S B G rho n (item id a y) _) as [[p s']| | |]; reflexivity.
    + intros q V. cbn [negb] in V. rewrite V. prim.
    + intros v ->. pose proof (need_item Ek Hn) as Hi. specialize (IH v (item id a y) Hi). prim.
  - assert (Q1 : ends false u (eval S B G rho n l)) by (apply IH; unfold need in *; cbn [depth] in Hn; lia).
    assert (Q2 : ends false u (eval S B G rho n r)) by (apply IH; unfold need in *; cbn [depth] in Hn; lia). prim.
  - assert (Q1 : ends false u (eval S B G rho n a)) by (apply IH; unfold need in *; cbn [depth] in Hn; lia). prim.
Qed.
Lemma devalF_ends rho x : forall fuel u e, need u e <= fuel -> ends false u (devalF S B G rho fuel x e).
Proof.
  induction fuel as [|n IH]; intros u e Hn; [exfalso; destruct e; unfold need in Hn; cbn [depth] in Hn; nia|].
  destruct e as [o|k id l r|k id a]; cbn [devalF].
  - destruct (g_kind G o) as [| | | |id a y] eqn:Ek; try (unfold devalF_leaf; prim; fail).
    apply ends_named with (f := fun f => set_vis (set_dev f)) (blk := ebind (devalF S B G rho n x (item id a y)) (fun dp => ebind (setf o (set_dres dp)) (fun _ =>
      ebind (eval S B G rho n (item id a y)) (fun p => ebind (setf o (set_res p)) (fun _ => ebind (getf o) (fun f => nonnull (f_dres f))))))).
    + exact (named Ek).
    + reflexivity.
    + intros q s V. rewrite V. unfold ebind, setf. destruct (devalF S B G rho n x (item id a y) _) as [[p s']| | |]; try reflexivity.
      match goal with |- context [eval S B G rho n (item id a y) ?z] => destruct (eval S B G rho n (item id a y) z) as [[p2 s2]| | |]; reflexivity end.
    + intros q V. cbn [negb] in V. rewrite V. prim.
    + intros v ->. pose proof (need_item Ek Hn) as Hi. specialize (IH v (item id a y) Hi). pose proof (eval_ends rho Hi). prim.
  - assert (Hl : need u l <= n) by (unfold need in *; cbn [depth] in Hn; lia). assert (Hr : need u r <= n) by (unfold need in *; cbn [depth] in Hn; lia).
    pose proof (IH u l Hl). pose proof (IH u r Hr). pose proof (eval_ends rho Hl). pose proof (eval_ends rho Hr). destruct k; prim.
  - assert (Hl : need u a <= n) by (unfold need in *; cbn [depth] in Hn; lia).
    pose proof (IH u a Hl). pose proof (eval_ends rho Hl). destruct k; prim.
Qed.
Lemma reset_ends : forall fuel u e, need u e <= fuel -> ends true u (reset G fuel e).
Proof.
  induction fuel as [|n IH]; intros u e Hn; [exfalso; destruct e; unfold need in Hn; cbn [depth] in Hn; nia|].
  destruct e as [o|k id l r|k id a]; cbn [reset].
  - destruct (g_kind G o) as [| | | |id a y] eqn:Ek; try (prim; fail).
    apply ends_named with (f := clear) (blk := reset G n (item id a y)).
    + exact (named Ek).
    + reflexivity.
    + intros q s V. rewrite V. reflexivity.
    + intros q V. cbn [negb] in V. rewrite V. prim.
    + intros v ->. exact (IH v (item id a y) (need_item Ek Hn)).
  - assert (Q1 : ends true u (reset G n l)) by (apply IH; unfold need in *; cbn [depth] in Hn; lia).
    assert (Q2 : ends true u (reset G n r)) by (apply IH; unfold need in *; cbn [depth] in Hn; lia). prim.
  - apply IH. unfold need in *. cbn [depth] in Hn. lia.
Qed.

(** *** The traversals of reverse mode *)
Definition rends (b : bool) (u : nat) {A} (c : R (T := T) A) : Prop := forall s, count b (fl (rb s)) <= u ->
  match c s with
  | ENoFuel => False
  | EOk (_, s') => forall o, f_vis (fl (rb s') o) = b -> f_vis (fl (rb s) o) = b
  | _ => True
  end.
Lemma rends_bind b u A C (c : R (T := T) A) (k : A -> R C) : rends b u c -> (forall a, rends b u (k a)) -> rends b u (rbind c k).
Proof.
  intros H Hk s Hs. unfold rbind. specialize (H s Hs). destruct (c s) as [[a s']| | |]; auto.
  specialize (Hk a s'). assert (Q : count b (fl (rb s')) <= u) by (pose proof (count_mono H); lia). specialize (Hk Q).
  destruct (k a s') as [[a2 s2]| | |]; auto.
Qed.
Lemma rends_rl b u A (c : E (T := T) A) : ends b u c -> rends b u (rl c).
Proof. intros H s Hs. unfold rl. specialize (H (rb s) Hs). destruct (c (rb s)) as [[a m]| | |]; cbn; auto. Qed.
Lemma rends_ret b u A (a : A) : rends b u (rret a).
Proof. intros s _. cbn. auto. Qed.
Lemma rends_assert b u x : rends b u (rassert x).
Proof. intros s _. unfold rassert. destruct x; cbn; auto. Qed.
Lemma rends_set_nc b u id c : rends b u (set_nc id c).
Proof. intros s _. cbn. auto. Qed.
Lemma rends_set_oc b u id c : rends b u (set_oc id c).
Proof. intros s _. cbn. auto. Qed.
Lemma rends_set_cnt b u id c : rends b u (set_cnt id c).
Proof. intros s _. cbn. auto. Qed.
Lemma rends_set_cl b u id k c : rends b u (set_cl id k c).
Proof. intros s _. cbn. auto. Qed.
Lemma rends_find b u r k : rends b u (find_nc r k).
Proof. intros s _. cbn. auto. Qed.
Lemma rends_next b u id : rends b u (next_slot id).
Proof. intros s _. cbn. auto. Qed.
Lemma rends_state b u A (c : rst (T := T) -> R (T := T) A) : (forall s0, rends b u (c s0)) -> rends b u (fun s => c s s).
Proof. intros H s Hs. exact (H s s Hs). Qed.
Lemma rends_each b u A (l : list A) (f : A -> R (T := T) unit) : (forall a, rends b u (f a)) -> rends b u (each l f).
Proof. intros H. induction l as [|a l IH]; cbn [each]; [apply rends_ret|]. apply rends_bind; auto. Qed.
Ltac rprim := repeat first [apply rends_ret | apply rends_assert | apply rends_set_nc | apply rends_set_oc | apply rends_set_cnt | apply rends_set_cl | apply rends_find | apply rends_next
  | assumption | apply rends_rl; prim; fail | apply rends_bind; [|intros ?] | apply rends_each; intros ?
  | match goal with |- rends _ _ (if ?b then _ else _) => destruct b | |- rends _ _ (match ?c with _ => _ end) => destruct c end].
Lemma rends_accumulate b u r k p : rends b u (accumulate B r k p).
Proof.
  unfold accumulate. apply rends_bind; [rprim|intros c]. apply rends_bind; [rprim|intros p'].
  refine (@rends_state b u _ (fun s => set_nc r (cput (rnc s r) k p')) _). intros s0. rprim.
Qed.
Variable ord : cache -> cache.
Lemma rends_clone b u r id : rends b u (clone_all (T := T) ord r id).
Proof. refine (@rends_state b u _ (fun s => each (ord (rnc s r)) _) _). intros s0. rprim. Qed.
Lemma rends_merge b u r id e k v : rends b u (merge B ord r id e k v).
Proof.
  refine (@rends_state b u _ (fun s => each (ord (child_cache e s)) _) _). intros s0. apply rends_each. intros kp.
  do 3 (apply rends_bind; [rprim|intros ?]). apply rends_bind; [apply rends_next|intros j].
  apply rends_bind; [refine (@rends_state b u _ (fun s => rl (lift (b_smul B v (snd kp) (rcl s id j)))) _); intros s1; rprim|intros p'].
  apply rends_bind; [apply rends_set_cl|intros _]. apply rends_accumulate.
Qed.
Lemma rends_first b u id k : rends b u (first (T := T) id k).
Proof. unfold first. rprim. Qed.
Lemma rends_contribute b u r id outs scal : rends b u scal -> rends b u (contribute B G ord r id outs scal).
Proof.
  intros H. unfold contribute.
  assert (Ad : rends b u (each outs (fun ek => rbind (rl (slot (ONode id (snd ek)))) (fun p => accumulate B r (key_of G (fst ek)) p)))).
  { apply rends_each. intros ek. apply rends_bind; [rprim|intros p; apply rends_accumulate]. }
  destruct outs as [|[l k] [|[l' k'] [|q outs]]]; try apply rends_ret;
  repeat first [apply rends_first | apply rends_clone | apply rends_merge | exact Ad | exact H | apply rends_bind; [|intros ?]].
Qed.
Lemma rends_scalar b u rho r id k z : rends b u (scalar_part S B G rho r id k z).
Proof.
  assert (Q : forall s vs j, rends b u (scalar_entries S B G rho r id j z s vs)).
  { intros s vs. induction vs as [|v vs IH]; intros j; cbn [scalar_entries]; [apply rends_ret|].
    apply rends_bind; [|intros _; apply IH]. unfold scalar_entry. apply rends_bind; [rprim|intros _]. apply rends_bind; [rprim|intros p; apply rends_accumulate]. }
  destruct k; cbn [scalar_part]; try apply rends_ret; apply Q.
Qed.
Lemma rends_info b u k pc : rends b u (adj_info (T := T) k pc).
Proof. destruct k; cbn [adj_info]; rprim. Qed.
Lemma rends_weight b u (k : uop T) id : rends b u (weight k id).
Proof. destruct k; cbn [weight]; first [apply rends_first | apply rends_ret]. Qed.
Lemma rends_named b u o A (blk : R (T := T) A) (body : flags -> R A) f : In o L ->
  (forall q, f_vis (f q) = negb b) ->
  (forall q s, f_vis q = b -> body q s = rbind (rl (setf o f)) (fun _ => blk) s) -> (forall q, f_vis q = negb b -> rends b u (body q)) ->
  (forall v, u = Datatypes.S v -> rends b v blk) -> rends b u (rbind (rl (getf o)) body).
Proof.
  intros Hi Hf Hbody Ha Hb s Hs. unfold rbind at 1, rl at 1, getf. destruct s as [[m a0 v0] nc oc ct cl]. cbn [rb rnc roc rcnt rcl].
  destruct (Bool.bool_dec (f_vis (v0 o)) b) as [E|E].
  2: { cbn [rb fl] in *. apply (Ha (v0 o)); [destruct (f_vis (v0 o)), b; try reflexivity; congruence|exact Hs]. }
  cbn [fl]. rewrite (Hbody _ _ E). unfold rbind, rl, setf. cbn [rb mm ar fl rnc roc rcnt rcl].
  set (v1 := fun q => if q =? o then f (v0 q) else v0 q).
  assert (Le : forall q, f_vis (v1 q) = b -> f_vis (v0 q) = b).
  { intros q. unfold v1. destruct (Nat.eqb_spec q o) as [->|]; auto. }
  assert (Lt : count b v1 < count b v0).
  { apply count_less with (o := o); auto. unfold v1. rewrite Nat.eqb_refl, Hf. destruct b; discriminate. }
  cbn [rb fl] in Hs. destruct u as [|u]; [lia|]. specialize (Hb u eq_refl (RSt (St m a0 v1) nc oc ct cl)). cbn [rb fl] in Hb. specialize (Hb ltac:(lia)).
  destruct (blk _) as [[a s2]| | |]; auto.
Qed.

Lemma trav_ends rho : forall fuel u r e, need u e <= fuel -> rends false u (trav S B G ord rho fuel r e).
Proof.
  induction fuel as [|n IH]; intros u r e Hn; [exfalso; destruct e; unfold need in Hn; cbn [depth] in Hn; nia|].
  destruct e as [o|k id l r'|k id a]; cbn [trav].
  - destruct (g_kind G o) as [| | | |id a y] eqn:Ek.
    1-4: apply rends_bind; [rprim|intros q]; cbn iota; destruct (f_vis q); rprim.
    apply rends_named with (f := set_vis) (blk := rbind (set_nc id []) (fun _ => rbind (trav S B G ord rho n id a) (fun _ => rbind (trav S B G ord rho n id (MLeaf y)) (fun _ =>
      rbind (rl (eval S B G rho n a)) (fun p => rbind (rl (eval S B G rho n (MLeaf y))) (fun q => rbind (rl (exec S B (root_back id p q))) (fun _ =>
      rbind (contribute B G ord id id [(a, 6); (MLeaf y, 7)] (rret tt)) (fun _ => rbind (trav S B G ord rho n id a) (fun _ => rbind (trav S B G ord rho n id (MLeaf y)) (fun _ =>
      rbind (rl (eval S B G rho n (item id a y))) (fun p => rbind (rl (setf o (set_res p))) (fun _ => fun s => set_oc o (rnc s id) s)))))))))))).
    + exact (named Ek).
    + reflexivity.
    + intros q s V. rewrite V. reflexivity.
    + intros q V. cbn [negb] in V. rewrite V. rprim.
    + intros v ->. pose proof (need_item Ek Hn) as Hi.
      assert (Ha : need v a <= n) by (unfold need in *; cbn [item depth] in Hi; lia).
      assert (Hy : need v (MLeaf y) <= n) by (unfold need in *; cbn [item depth] in Hi |- *; lia).
      pose proof (IH v id a Ha). pose proof (IH v id (MLeaf y) Hy).
      pose proof (eval_ends rho Ha). pose proof (eval_ends rho Hy). pose proof (eval_ends rho Hi).
      repeat first [apply rends_set_nc | assumption | apply rends_rl; prim; fail | apply rends_contribute; apply rends_ret | apply rends_bind; [|intros ?]].
      refine (@rends_state false v _ (fun s => set_oc o (rnc s id)) _). intros s0. apply rends_set_oc.
  - assert (Hl : need u l <= n) by (unfold need in *; cbn [depth] in Hn; lia). assert (Hr : need u r' <= n) by (unfold need in *; cbn [depth] in Hn; lia).
    pose proof (IH u r l Hl). pose proof (IH u r r' Hr). pose proof (eval_ends rho Hl). pose proof (eval_ends rho Hr).
    apply rends_bind; [apply rends_find|intros c]. apply rends_bind; [|intros _; rprim].
    destruct c as [pc|]; [|apply rends_ret].
    repeat first [assumption | apply rends_rl; prim; fail | apply rends_contribute; apply rends_ret | apply rends_bind; [|intros ?]].
    destruct k; repeat first [assumption | apply rends_rl; prim; fail | apply rends_bind; [|intros ?]].
  - assert (Hl : need u a <= n) by (unfold need in *; cbn [depth] in Hn; lia).
    pose proof (IH u r a Hl). pose proof (eval_ends rho Hl).
    apply rends_bind; [apply rends_find|intros c]. apply rends_bind; [|intros _; rprim].
    destruct c as [pc|]; [|apply rends_ret].
    repeat first [assumption | apply rends_info | apply rends_weight | apply rends_rl; prim; fail | apply rends_contribute; apply rends_scalar | apply rends_bind; [|intros ?]
      | match goal with |- rends _ _ (if ?b then _ else _) => destruct b end].
Qed.
Lemma rreset_ends : forall fuel u e, need u e <= fuel -> rends true u (rreset (T := T) G fuel e).
Proof.
  induction fuel as [|n IH]; intros u e Hn; [exfalso; destruct e; unfold need in Hn; cbn [depth] in Hn; nia|].
  destruct e as [o|k id l r|k id a]; cbn [rreset].
  - destruct (g_kind G o) as [| | | |id a y] eqn:Ek.
    1-4: apply rends_bind; [rprim|intros q]; cbn iota; destruct (f_vis q); rprim.
    apply rends_named with (f := clear) (blk := rbind (rreset G n (item id a y)) (fun _ => set_oc o [])).
    + exact (named Ek).
    + reflexivity.
    + intros q s V. rewrite V. unfold rbind, rl, setf. destruct (rreset G n (item id a y) _) as [[p s']| | |]; reflexivity.
    + intros q V. cbn [negb] in V. rewrite V. rprim.
    + intros v ->. pose proof (IH v (item id a y) (need_item Ek Hn)). rprim.
  - assert (Q1 : rends true u (rreset (T := T) G n l)) by (apply IH; unfold need in *; cbn [depth] in Hn; lia).
    assert (Q2 : rends true u (rreset (T := T) G n r)) by (apply IH; unfold need in *; cbn [depth] in Hn; lia). rprim.
  - assert (Q1 : rends true u (rreset (T := T) G n a)) by (apply IH; unfold need in *; cbn [depth] in Hn; lia). rprim.
Qed.
End Ends.
