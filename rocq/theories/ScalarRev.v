(** * The reverse pass accumulates the forward derivatives (lemmas for C05) *)

From Coq Require Import List Arith Bool Lia Ring.
From Verif Require Import Num ScalarModel ScalarSpec ScalarReset ScalarEval.
Import ListNotations.

Section Rev.
Context {T : Type} {N : Num T}.
Notation heap := (heap T).
Variable L : NumLaws N.
Add Ring TR : (law_ring N L).
Open Scope num_scope.

Lemma NoDup_app_remove_l (A : Type) (l l' : list A) : NoDup (l ++ l') -> NoDup l'.
Proof. induction l; simpl; auto. inversion 1; auto. Qed.
Lemma NoDup_app_remove_r (A : Type) (l l' : list A) : NoDup (l ++ l') -> NoDup l.
Proof.
  induction l as [|a l IH]; simpl; [constructor|]. inversion 1; subst.
  constructor; auto. intros Hi. apply H2. apply in_or_app; auto.
Qed.

(** ** Caches *)
Lemma cget_cadd k a (c : cache T) j :
  cget (cadd k a c) j = cget c j + (if Nat.eqb j k then a else n0).
Proof.
  induction c as [|[k' y] c IH]; simpl.
  - destruct (Nat.eqb j k); ring.
  - destruct (Nat.eqb_spec k k') as [->|Hk]; simpl.
    + destruct (Nat.eqb j k'); ring.
    + destruct (Nat.eqb_spec j k') as [->|Hj]; auto.
      destruct (Nat.eqb_spec k' k); [congruence|ring].
Qed.
Lemma cget_ctouch k (c : cache T) j : cget (ctouch c k) j = cget c j.
Proof.
  induction c as [|[k' y] c IH]; simpl.
  - destruct (Nat.eqb j k); auto.
  - destruct (Nat.eqb_spec k k') as [->|Hk]; simpl; auto.
    destruct (Nat.eqb j k'); auto.
Qed.

(** Keys occur once in a cache. *)
Definition ckeys (c : cache T) := map fst c.
Lemma ckeys_cadd k a c j : In j (ckeys (cadd k a c)) <-> j = k \/ In j (ckeys c).
Proof.
  induction c as [|[k' y] c IH]; simpl.
  - intuition.
  - destruct (Nat.eqb_spec k k') as [->|Hk]; simpl; intuition.
Qed.
Lemma nodup_cadd k a c : NoDup (ckeys c) -> NoDup (ckeys (cadd k a c)).
Proof.
  induction c as [|[k' y] c IH]; simpl; intros H.
  - repeat constructor; auto.
  - inversion H; subst. destruct (Nat.eqb_spec k k') as [->|Hk]; simpl.
    + now constructor.
    + constructor; auto. rewrite ckeys_cadd. intuition.
Qed.
Lemma ckeys_ctouch k c j : In j (ckeys (ctouch c k)) <-> j = k \/ In j (ckeys c).
Proof.
  induction c as [|[k' y] c IH]; simpl.
  - intuition.
  - destruct (Nat.eqb_spec k k') as [->|Hk]; simpl; intuition.
Qed.
Lemma nodup_ctouch k c : NoDup (ckeys c) -> NoDup (ckeys (ctouch c k)).
Proof.
  induction c as [|[k' y] c IH]; simpl; intros H.
  - repeat constructor; auto.
  - inversion H; subst. destruct (Nat.eqb_spec k k') as [->|Hk]; simpl.
    + now constructor.
    + constructor; auto. rewrite ckeys_ctouch. intuition.
Qed.
Lemma cget_notin c k : ~ In k (ckeys c) -> cget c k = n0.
Proof.
  induction c as [|[k' y] c IH]; simpl; intros H; auto.
  destruct (Nat.eqb_spec k k') as [->|]; [tauto|]. apply IH. tauto.
Qed.
Lemma nodup_cmerge g src : forall c, NoDup (ckeys c) -> NoDup (ckeys (cmerge g src c)).
Proof.
  induction src as [|[k y] src IH]; intros c H; simpl; auto. apply IH. now apply nodup_cadd.
Qed.
Lemma cget_cmerge g src : (forall y, g y = y * g n1) -> NoDup (ckeys src) -> forall c j,
  cget (cmerge g src c) j = cget c j + cget src j * g n1.
Proof.
  intros Hg. induction src as [|[k y] src IH]; intros Hn c j; simpl.
  - ring.
  - inversion Hn; subst. rewrite IH by auto. rewrite cget_cadd.
    destruct (Nat.eqb_spec j k) as [->|].
    + rewrite (cget_notin src k) by auto. rewrite (Hg y). ring.
    + ring.
Qed.

(** ** Operator algebra: adjoint = partial derivative times incoming adjoint *)
Definition mc (m : option T) : T := match m with None => n1 | Some c => c end.

Lemma umrg_spec k m x :
  match umrg k m x with
  | None => uadj k m x = n0
  | Some g => forall y, g y = y * uadj k m x
  end.
Proof.
  destruct k, m; simpl; unfold guarded;
    repeat match goal with |- context[neqb ?a n0] => destruct (neqb a n0) eqn:E; [apply (law_eqb N L) in E|] end;
    try (intros; ring); auto; rewrite E; ring.
Qed.

Lemma bmrgL_spec k m u v :
  match bmrgL k m u v with
  | None => badjL k m u v = n0
  | Some g => forall y, g y = y * badjL k m u v
  end.
Proof.
  destruct k, m; simpl; unfold guarded;
    repeat match goal with |- context[neqb ?a n0] => destruct (neqb a n0) eqn:E; [apply (law_eqb N L) in E|] end;
    try (intros; ring); auto; rewrite E; ring.
Qed.
Lemma bmrgR_spec k m u v :
  match bmrgR k m u v with
  | None => badjR k m u v = n0
  | Some g => forall y, g y = y * badjR k m u v
  end.
Proof.
  destruct k, m; simpl; unfold guarded;
    repeat match goal with |- context[neqb ?a n0] => destruct (neqb a n0) eqn:E; [apply (law_eqb N L) in E|] end;
    try (intros; ring); auto; try (rewrite E; ring);
    rewrite (law_m1 N L); intros; ring.
Qed.

Lemma uadj_spec k m x dx : uadj k m x * dx = chain1 k x dx * mc m.
Proof.
  destruct k, m; simpl; rewrite ?dfun_dmean, ?(law_m1 N L); try ring.
Qed.
Lemma badj_spec k m u v du dv : (match k with BDiv => invertible v | _ => True end) ->
  badjL k m u v * du + badjR k m u v * dv = chain2 k u v du dv * mc m.
Proof.
  intros H. destruct k, m; simpl; rewrite ?(law_m1 N L); try ring.
  - (* BDiv, inner *)
    assert (E : n1 / v = v * (n1 / v) * (n1 / v)) by (rewrite H; ring).
    set (i := n1 / v) in *. rewrite E at 1. ring.
  - assert (E : n1 / v = v * (n1 / v) * (n1 / v)) by (rewrite H; ring).
    set (i := n1 / v) in *. rewrite E at 1. ring.
Qed.
Lemma uadj_noeval k m x y : u_evals k = false -> uadj k m x = uadj k m y.
Proof. destruct k, m; simpl; congruence || reflexivity. Qed.
Lemma badj_noeval k m u v u' v' : b_evals k = false ->
  badjL k m u v = badjL k m u' v' /\ badjR k m u v = badjR k m u' v'.
Proof. destruct k, m; simpl; split; congruence || reflexivity. Qed.
Lemma uadj_zero k x : uadj k (Some n0) x = n0.
Proof. destruct k; simpl; ring. Qed.
Lemma badj_zero k u v : badjL k (Some n0) u v = n0 /\ badjR k (Some n0) u v = n0.
Proof. destruct k; simpl; split; ring. Qed.

Lemma chain1_zero k x : chain1 k x n0 = n0.
Proof. destruct k; simpl; ring. Qed.
Lemma chain2_zero k u v : chain2 k u v n0 n0 = n0.
Proof. destruct k; simpl; ring. Qed.
Lemma dsem_zero lv ld (o : op T) : (forall w, In w (vleaves o) -> ld w = n0) -> dsem lv ld o = n0.
Proof.
  induction o as [v|p tv|u id e IHe|b id l IHl r IHr]; simpl; intros H; auto.
  - rewrite IHe by auto. apply chain1_zero.
  - rewrite IHl, IHr by (intros; apply H, in_or_app; auto). apply chain2_zero.
Qed.

(** ** The pass *)
Variable bs : nat -> T.
Variable its : nat -> list (op T).
Variable S0 : nat -> Prop.
Variable rank : nat -> nat.
Hypothesis S_dep : forall v o w, S0 v -> In o (its v) -> In w (leaves o) -> S0 w.
Hypothesis S_rank : forall v o w, S0 v -> In o (its v) -> In w (leaves o) -> w = v \/ rank w < rank v.
Hypothesis S_par : forall v o w, S0 v -> In o (its v) -> In w (pars o) -> its w = [].
Variable W : nat -> T.
Hypothesis W_eq : forall v, S0 v ->
  W v = fold_left (fun cur o => sem (at_ v cur W) o) (its v) (bs v).

Variable t : nat.               (* the target *)
Variable D : nat -> T.
Hypothesis D_eq : forall v, S0 v -> D v = if Nat.eqb v t then n1 else snd (dfold bs its W t D v).

Definition ids (v : nat) : list nat := flat_map opids (its v).
Hypothesis ids_nodup : forall v, S0 v -> NoDup (ids v).
Hypothesis ids_disj : forall v w k, S0 v -> S0 w -> v <> w -> In k (ids v) -> ~ In k (ids w).
Hypothesis ids_ref : forall v w k o, S0 v -> S0 w -> In k (ids v) -> In o (its w) -> ~ In k (refids o).
Hypothesis t_op : forall v, S0 v -> ~ In t (ids v).
Hypothesis t_par : forall v o, S0 v -> In o (its v) -> ~ In t (parids o).
Hypothesis t_copy : forall v, S0 v -> ~ In (Leaf t) (its v).
Hypothesis t_self : forall o, In o (its t) -> ~ In t (leaves o).
Hypothesis divs : forall v, S0 v -> divs_ok W v (bs v) (its v).

Notation graph_is := (graph_is bs its).
Notation edone := (edone W).
Notation EInv := (EInv S0 rank W).
Notation below := (below S0 rank).
Notation upto := (upto S0 rank).

(** Derivative as found in the cache of w: the seed of t itself is added by the user of t. *)
Definition cd (w : nat) : T := if Nat.eqb w t then n0 else D w.

Definition kzero (r : nat) (c : cache T) : Prop :=
  forall u k, S0 u -> In k (ids u) -> r <= rank u -> cget c k = n0.

Record rdone (h : heap) (w : nat) : Prop := {
  rd_e : edone h w;
  rd_c : cget (c_cache (cells h w)) t = cd w;
  rd_n : NoDup (ckeys (c_cache (cells h w)));
  rd_z : forall u k, S0 u -> In k (ids u) -> rank w < rank u -> cget (c_cache (cells h w)) k = n0;
}.
Definition RInv (r : nat) (h : heap) : Prop :=
  forall w, S0 w -> rank w < r -> clean (cells h w) \/ rdone h w.

Lemma RInv_EInv r h : RInv r h -> EInv r h.
Proof. intros R w Sw Rw. destruct (R w Sw Rw) as [|[]]; auto. Qed.
Lemma rdone_ext h h' w : cells h' w = cells h w -> rdone h w -> rdone h' w.
Proof.
  intros E [A B C Dd]. unfold ScalarEval.edone in A.
  constructor; unfold ScalarEval.edone; rewrite ?E; auto.
Qed.
Lemma RInv_upd r h v f : r <= rank v -> RInv r h -> RInv r (modc f v h).
Proof.
  intros H E w Sw Rw.
  assert (Hw : w <> v) by (intros ->; lia).
  destruct (E w Sw Rw) as [C|R]; [left|right].
  - now rewrite modc_other.
  - eapply rdone_ext; [|exact R]. now rewrite modc_other.
Qed.
Lemma RInv_setc r h v c : r <= rank v -> RInv r h -> RInv r (setc h v c).
Proof. apply RInv_upd with (f := fun _ => c). Qed.

(** A plain variable is done in every state. *)
Lemma D_plain w : S0 w -> its w = [] -> cd w = n0.
Proof.
  intros Sw P. unfold cd. destruct (Nat.eqb w t) eqn:E; auto. rewrite D_eq by auto. rewrite E.
  unfold dfold. now rewrite P.
Qed.
Lemma visited_done h w : graph_is h -> S0 w -> clean (cells h w) \/ rdone h w ->
  c_vis (cells h w) = true -> rdone h w.
Proof.
  intros G Sw [C|R] V; auto.
  assert (P : its w = []).
  { destruct C as (_ & _ & _ & [C|C]); [congruence|]. now rewrite <- (proj2 G). }
  assert (Ec : c_cache (cells h w) = []) by apply C.
  constructor.
  - split; auto. eapply plain_val; eauto.
  - rewrite Ec. simpl. symmetry. now apply D_plain.
  - rewrite Ec. constructor.
  - intros. rewrite Ec. reflexivity.
Qed.

(** Adding one operand's contribution. *)
Definition leafc (ld : nat -> T) (o : op T) : T := match o with Leaf w => ld w | _ => n0 end.

Section Tree.
Variables (v : nat) (cur dcur : T).
Hypothesis Sv : S0 v.
Hypothesis v_ne : its v <> [].
Variable f : nat.
Notation ev := (eval_var (S f)).
Variable tv : nat -> heap -> option heap.
Hypothesis IH : forall w h, S0 w -> rank w < rank v -> graph_is h -> RInv (rank v) h ->
  c_vis (cells h w) = false ->
  exists h', tv w h = Some h' /\ unch (below (rank v)) h h' /\ RInv (rank v) h' /\
    vmono h h' /\ c_vis (cells h' w) = true.

(** Foreign keys: operator indices on which no operand's cache is allowed to be non-zero. *)
Variable F : nat -> Prop.
Hypothesis F_own : forall k, F k -> exists u, S0 u /\ In k (ids u) /\ rank v <= rank u.

(** Does the tree read the expression itself? *)
Variable selfr : Prop.

(** State of the expression under construction. *)
Record vst (h : heap) : Prop := {
  vs_g : graph_is h;
  vs_r : RInv (rank v) h;
  vs_v : c_vis (cells h v) = true;
  vs_c : c_val (cells h v) = cur;
  vs_d : selfr -> cget (c_cache (cells h v)) t = dcur;
  vs_n : selfr -> NoDup (ckeys (c_cache (cells h v)));
  vs_z : selfr -> forall k, F k -> cget (c_cache (cells h v)) k = n0
}.
Lemma vst_unch h h' : vst h -> unch (below (rank v)) h h' -> RInv (rank v) h' -> vst h'.
Proof.
  intros [A B C Dd E Nn Z] U R.
  assert (Ev : cells h' v = cells h v) by (apply U; intros [_ Lt]; lia).
  constructor; auto; try (rewrite Ev; auto; fail).
  - eapply graph_is_same; [apply U|auto].
Qed.

Definition lv := at_ v cur W.
Definition ld := at_ t n1 (at_ v dcur D).

Definition good (o : op T) : Prop :=
  (forall w, In w (leaves o) -> S0 w /\ (w = v \/ rank w < rank v)) /\
  (forall w, In w (pars o) -> its w = []) /\
  (forall k, In k (opids o) -> F k) /\ NoDup (opids o) /\
  (forall k, F k -> ~ In k (refids o)) /\ ~ In t (parids o) /\
  (In v (vleaves o) -> selfr /\ v <> t).

Lemma t_not_F k : F k -> k <> t.
Proof. intros Fk ->. destruct (F_own t Fk) as (u & Su & Hk & _). exact (t_op u Su Hk). Qed.

(** Effect of [cadd (nid e) a] and the guarded merge on an arbitrary cache. *)
Lemma child_add e h a (mg : option (T -> T)) c0 c :
  good e -> vst h -> (forall w, In w (vleaves e) -> c_vis (cells h w) = true) ->
  match mg with None => a = n0 | Some g => forall y, g y = y * a end ->
  NoDup (ckeys c) ->
  (forall k, cget c k = cget c0 k + (if Nat.eqb k (nid e) then a else n0)) ->
  let c' := match mg with None => c | Some g => cmerge g (own_cache e h) c end in
  NoDup (ckeys c') /\ cget c' t = cget c0 t + a * leafc ld e /\
  (forall k, F k -> cget c' k = cget c0 k +
      match e with Leaf _ | Par _ _ => n0 | _ => if Nat.eqb k (nid e) then a else n0 end).
Proof.
  intros (G1 & G2 & G3 & G4 & G5 & G6 & G7) V Hvis Hmg Hn Hc. cbn zeta.
  assert (Hm : forall j, cget (match mg with None => c | Some g => cmerge g (own_cache e h) c end) j
             = cget c0 j + (if Nat.eqb j (nid e) then a else n0) + cget (own_cache e h) j * a).
  { intros j. destruct mg as [g|].
    - rewrite cget_cmerge.
      + rewrite Hc, (Hmg n1). ring.
      + intros y. rewrite (Hmg y), (Hmg n1). ring.
      + destruct e as [w| | |]; simpl; try constructor.
        destruct (G1 w) as [Sw [->|Rw]]; [simpl; auto|apply V; apply G7; simpl; auto|].
        apply rd_n, visited_done; try apply V; auto; try (apply Hvis; simpl; auto).
    - rewrite Hc, Hmg. ring. }
  split; [destruct mg; auto using nodup_cmerge|].
  split.
  - rewrite Hm. destruct e as [w|p tv'|k id e'|k id l r]; simpl.
    + unfold ld. destruct (G1 w) as [Sw Hw]; [simpl; auto|].
      destruct (Nat.eq_dec w v) as [->|Hwv].
      * rewrite (vs_d h V) by (apply G7; simpl; auto).
        unfold at_. destruct (Nat.eqb_spec v t) as [->|]; [exfalso; apply (proj2 (G7 (or_introl eq_refl))); reflexivity|].
        rewrite Nat.eqb_refl. destruct (Nat.eqb_spec t v); [congruence|]. ring.
      * destruct Hw as [|Rw]; [congruence|].
        rewrite (rd_c h w). 2:{ apply visited_done; try apply V; auto. apply Hvis; simpl; auto. }
        unfold cd, at_. destruct (Nat.eqb_spec w t) as [->|].
        -- rewrite Nat.eqb_refl. ring.
        -- destruct (Nat.eqb_spec t w); [congruence|].
           destruct (Nat.eqb_spec w v); [congruence|]. ring.
    + destruct (Nat.eqb_spec t p) as [->|]; [exfalso; apply G6; simpl; auto|]. ring.
    + destruct (Nat.eqb_spec t id) as [Eq|]; [|ring].
      exfalso. apply (t_not_F id); [apply G3; simpl; auto|auto].
    + destruct (Nat.eqb_spec t id) as [Eq|]; [|ring].
      exfalso. apply (t_not_F id); [apply G3; simpl; auto|auto].
  - intros k Fk. rewrite Hm. destruct e as [w|p tv'|k' id e'|k' id l r]; simpl; try ring.
    + destruct (Nat.eqb_spec k w) as [->|]; [exfalso; apply (G5 w Fk); simpl; auto|].
      destruct (G1 w) as [Sw Hw]; [simpl; auto|].
      assert (cget (c_cache (cells h w)) k = n0) as ->; [|ring].
      destruct (Nat.eq_dec w v) as [->|Hwv]; [apply V; auto; apply G7; simpl; auto|].
      destruct Hw as [|Rw]; [congruence|].
      destruct (F_own k Fk) as (u & Su & Hk & Ru).
      eapply rd_z with (u := u); eauto; try lia.
      apply visited_done; try apply V; auto. apply Hvis; simpl; auto.
    + destruct (Nat.eqb_spec k p) as [->|]; [exfalso; apply (G5 p Fk); simpl; auto|]. ring.
Qed.

(** Strict sub-node indices. *)
Definition sub_ids (o : op T) : list nat :=
  match o with
  | Leaf _ | Par _ _ => []
  | Un _ _ e => opids e
  | Bin _ _ l r => opids l ++ opids r
  end.
(** Adjoint waiting at a node. *)
Definition pend (root : bool) (o : op T) (c : cache T) : T :=
  match o with
  | Leaf _ | Par _ _ => n0
  | _ => if root then n1 else cget c (nid o)
  end.

Lemma sub_opids o k : In k (sub_ids o) -> In k (opids o).
Proof. destruct o; simpl; auto. Qed.
Lemma nid_sub o : NoDup (opids o) -> ~ In (nid o) (sub_ids o).
Proof. destruct o; simpl; intros H; auto; inversion H; auto. Qed.

Lemma good_l k id l r : good (Bin k id l r) -> good l.
Proof.
  intros (G1 & G2 & G3 & G4 & G5 & G6 & G7). simpl in *. inversion G4; subst.
  repeat apply conj.
  - intros; apply G1, in_or_app; auto.
  - intros; apply G2, in_or_app; auto.
  - intros; apply G3. right. apply in_or_app; auto.
  - eapply NoDup_app_remove_r; eauto.
  - intros k' Fk Hin. apply (G5 k' Fk), in_or_app; auto.
  - intros Hin. apply G6, in_or_app; auto.
  - intros Hin. apply G7, in_or_app; auto.
Qed.
Lemma good_r k id l r : good (Bin k id l r) -> good r.
Proof.
  intros (G1 & G2 & G3 & G4 & G5 & G6 & G7). simpl in *. inversion G4; subst.
  repeat apply conj.
  - intros; apply G1, in_or_app; auto.
  - intros; apply G2, in_or_app; auto.
  - intros; apply G3. right. apply in_or_app; auto.
  - eapply NoDup_app_remove_l; eauto.
  - intros k' Fk Hin. apply (G5 k' Fk), in_or_app; auto.
  - intros Hin. apply G6, in_or_app; auto.
  - intros Hin. apply G7, in_or_app; auto.
Qed.
Lemma good_e k id e : good (Un k id e) -> good e.
Proof.
  intros (G1 & G2 & G3 & G4 & G5 & G6 & G7). simpl in *. inversion G4; subst.
  repeat apply conj; auto.
Qed.

Lemma sem_cells' o h : good o -> vst h ->
  (forall w, In w (vleaves o) -> c_vis (cells h w) = true) ->
  sem (fun w => c_val (cells h w)) o = sem lv o.
Proof.
  intros G V H. unfold lv. apply (sem_cells bs its S0 rank) with (v := v); auto; try apply V;
    try apply G.
  apply RInv_EInv. apply V.
Qed.

(** The pending adjoint of a node, seen as the contribution still to be propagated. *)
Lemma trav_ok o : forall root c h, good o -> vst h -> NoDup (ckeys c) -> div_ok lv o ->
  (forall k, In k (sub_ids o) -> cget c k = n0) ->
  (root = true -> match o with Leaf _ | Par _ _ => False | _ => True end) ->
  exists c' h', trav ev tv root o c h = Some (c', h') /\
    vst h' /\ unch (below (rank v)) h h' /\ vmono h h' /\
    (forall w, In w (vleaves o) -> c_vis (cells h' w) = true) /\
    NoDup (ckeys c') /\
    cget c' t = cget c t + pend root o c * dsem lv ld o /\
    (forall k, F k -> ~ In k (sub_ids o) -> cget c' k = cget c k) /\
    (pend root o c = n0 -> forall k, In k (sub_ids o) -> cget c' k = n0).
Proof.
  induction o as [w|p tv'|u id e IHe|b id l IHl r IHr]; intros root c h G V Nc Dv Zc Hroot.
  - (* Leaf *)
    cbn [trav]. destruct root; [exfalso; auto|].
    destruct (c_vis (cells h w)) eqn:Vw.
    + exists c, h. split; auto. split; auto. split; [apply unch_refl|].
      split; [apply vmono_refl|]. split; [intros w' [<-|[]]; auto|].
      split; auto. split; [simpl; ring|]. split; auto.
    + destruct G as (G1 & _). destruct (G1 w) as [Sw [->|Rw]]; [simpl; auto| |].
      { rewrite (vs_v h V) in Vw. discriminate. }
      destruct (IH w h) as (h' & E' & U' & R' & M' & V'); try apply V; auto.
      rewrite E'. exists c, h'. split; auto. split; [eapply vst_unch; eauto|].
      split; auto. split; auto. split; [intros w' [<-|[]]; auto|].
      split; auto. split; [simpl; ring|]. split; auto.
  - (* Par *)
    exists c, h. cbn [trav]. split; auto. split; auto. split; [apply unch_refl|].
    split; [apply vmono_refl|]. split; [intros w' []|]. split; auto. split; [simpl; ring|]. split; auto.
  - (* Un *)
    cbn [trav]. pose proof (good_e _ _ _ G) as Ge.
    set (m := if root then None else Some (cget c id)).
    set (c0 := if root then c else ctouch c id).
    assert (Nc0 : NoDup (ckeys c0)) by (unfold c0; destruct root; auto using nodup_ctouch).
    assert (Gc0 : forall k, cget c0 k = cget c k).
    { intros k. unfold c0. destruct root; auto using cget_ctouch. }
    simpl in Zc, Dv.
    assert (NDe : NoDup (opids e)) by apply Ge.
    assert (NDo : ~ In id (opids e)).
    { destruct G as (_ & _ & _ & G4 & _). simpl in G4. now inversion G4. }
    assert (Fid : F id) by (apply G; simpl; auto).
    destruct (IHe false c0 h Ge V Nc0 Dv) as
      (c1 & h1 & E1 & V1 & U1 & M1 & L1 & N1 & T1 & K1 & Z1).
    { intros k Hk. rewrite Gc0. apply Zc. now apply sub_opids. }
    { discriminate. }
    rewrite E1. rewrite eval_one_vis by auto. rewrite (sem_cells' e h1 Ge V1 L1).
    set (xv := if u_evals u then sem lv e else n0).
    assert (P0 : pend false e c0 = n0).
    { destruct e; simpl; auto; rewrite Gc0; apply Zc; simpl; auto. }
    assert (Z1' : forall k, In k (opids e) -> cget c1 k = n0).
    { intros k Hk. destruct (in_dec Nat.eq_dec k (sub_ids e)) as [Hs|Hs].
      - now apply Z1.
      - rewrite K1; auto; [rewrite Gc0; auto|]. apply Ge. auto. }
    set (a := uadj u m xv).
    pose proof (umrg_spec u m xv) as Hm. fold a in Hm.
    assert (Ea : a * dsem lv ld e = chain1 u (sem lv e) (dsem lv ld e) * mc m).
    { unfold a. rewrite <- uadj_spec. f_equal. unfold xv.
      destruct (u_evals u) eqn:Ue; auto. now apply uadj_noeval. }
    destruct (child_add e h1 a (umrg u m xv) c1 (cadd (nid e) a c1)) as (N3 & T3 & K3); auto.
    { now apply nodup_cadd. }
    { intros k. apply cget_cadd. }
    set (c3 := match umrg u m xv with None => cadd (nid e) a c1
               | Some g => cmerge g (own_cache e h1) (cadd (nid e) a c1) end) in *.
    assert (Zs : forall k, In k (sub_ids e) -> cget c3 k = n0).
    { intros k Hk. assert (Ho : In k (opids e)) by now apply sub_opids.
      rewrite K3 by (apply Ge; auto). rewrite Z1' by auto.
      assert (k <> nid e) by (intros ->; eapply nid_sub; eauto).
      destruct e; simpl in *; try ring;
        (destruct (Nat.eqb_spec k id0); [congruence|ring]). }
    destruct (IHe false c3 h1 Ge V1 N3 Dv Zs) as
      (c4 & h4 & E4 & V4 & U4 & M4 & L4 & N4 & T4 & K4 & Z4); [discriminate|].
    fold c3. rewrite E4. exists c4, h4.
    assert (Pe : pend false e c3 = match e with Leaf _ | Par _ _ => n0 | _ => a end).
    { destruct e as [| |u' id' e'|b' id' l' r']; auto; simpl.
      - rewrite (K3 id') by (apply Ge; simpl; auto). simpl. rewrite Nat.eqb_refl.
        rewrite Z1' by (simpl; auto). ring.
      - rewrite (K3 id') by (apply Ge; simpl; auto). simpl. rewrite Nat.eqb_refl.
        rewrite Z1' by (simpl; auto). ring. }
    assert (Hmc : mc m = pend root (Un u id e) c) by (unfold m; destruct root; reflexivity).
    split; auto. split; auto. split; [eauto using unch_trans|]. split; [eauto using vmono_trans|].
    split; auto. split; auto.
    split; [|split].
    + rewrite T4, T3, T1, P0, Gc0, Pe. cbn [dsem].
      rewrite <- Hmc. replace (mc m * chain1 u (sem lv e) (dsem lv ld e))
        with (a * dsem lv ld e) by (rewrite Ea; ring).
      destruct e; simpl leafc; simpl dsem; ring.
    + intros k Fk Hk. simpl in Hk.
      assert (Hs : ~ In k (sub_ids e)) by (intros Hs; apply Hk; now apply sub_opids).
      rewrite K4, K3, K1, Gc0 by auto.
      destruct e as [| |u' id' e'|b' id' l' r']; try ring; simpl.
      * destruct (Nat.eqb_spec k id') as [->|]; [exfalso; apply Hk; simpl; auto|ring].
      * destruct (Nat.eqb_spec k id') as [->|]; [exfalso; apply Hk; simpl; auto|ring].
    + intros Pz k Hk. simpl in Hk.
      assert (a0 : a = n0).
      { unfold a. rewrite <- Hmc in Pz. unfold m in *. destruct root; simpl in Pz.
        - (* n1 = n0: trivial ring *)
          transitivity (uadj u None xv * n1); [ring|]. rewrite Pz. ring.
        - rewrite Pz. apply uadj_zero. }
      destruct (in_dec Nat.eq_dec k (sub_ids e)) as [Hs|Hs].
      * apply Z4; auto. rewrite Pe, a0. destruct e; auto.
      * rewrite K4 by (auto; apply Ge; auto). rewrite K3 by (apply Ge; auto). rewrite Z1', a0 by auto.
        destruct e; try ring; simpl; (destruct (Nat.eqb _ _); ring).
  - (* Bin *)
    cbn [trav]. pose proof (good_l _ _ _ _ G) as Gl. pose proof (good_r _ _ _ _ G) as Gr.
    set (m := if root then None else Some (cget c id)).
    set (c0 := if root then c else ctouch c id).
    assert (Nc0 : NoDup (ckeys c0)) by (unfold c0; destruct root; auto using nodup_ctouch).
    assert (Gc0 : forall k, cget c0 k = cget c k).
    { intros k. unfold c0. destruct root; auto using cget_ctouch. }
    simpl in Zc. destruct Dv as (Dl & Dr & Db).
    assert (ND : NoDup (opids l ++ opids r)).
    { destruct G as (_ & _ & _ & G4 & _). simpl in G4. now inversion G4. }
    assert (Dlr : forall k, In k (opids l) -> ~ In k (opids r)).
    { clear -ND. induction (opids l) as [|a l' IH]; simpl; [intros k []|].
      simpl in ND. inversion ND; subst. intros k [<-|Hk]; auto.
      intros Hr. apply H1, in_or_app; auto. }
    destruct (IHl false c0 h Gl V Nc0 Dl) as
      (c1 & h1 & E1 & V1 & U1 & M1 & L1 & N1 & T1 & K1 & Z1).
    { intros k Hk. rewrite Gc0. apply Zc, in_or_app. left. now apply sub_opids. }
    { discriminate. }
    rewrite E1.
    assert (P1 : pend false l c0 = n0).
    { destruct l; simpl; auto; rewrite Gc0; apply Zc; simpl; auto. }
    assert (Z1' : forall k, In k (opids l) -> cget c1 k = n0).
    { intros k Hk. destruct (in_dec Nat.eq_dec k (sub_ids l)) as [Hs|Hs].
      - now apply Z1.
      - rewrite K1; auto; [rewrite Gc0; auto; apply Zc, in_or_app; auto|]. apply Gl. auto. }
    assert (Z1r : forall k, In k (opids r) -> cget c1 k = n0).
    { intros k Hk. rewrite K1; auto.
      - rewrite Gc0. apply Zc, in_or_app; auto.
      - apply Gr; auto.
      - intros Hs. apply (Dlr k); auto. now apply sub_opids. }
    destruct (IHr false c1 h1 Gr V1 N1 Dr) as
      (c2 & h2 & E2 & V2 & U2 & M2 & L2 & N2 & T2 & K2 & Z2).
    { intros k Hk. apply Z1r. now apply sub_opids. }
    { discriminate. }
    rewrite E2.
    assert (P2 : pend false r c1 = n0).
    { destruct r; simpl; auto; apply Z1r; simpl; auto. }
    assert (Z2r : forall k, In k (opids r) -> cget c2 k = n0).
    { intros k Hk. destruct (in_dec Nat.eq_dec k (sub_ids r)) as [Hs|Hs].
      - now apply Z2.
      - rewrite K2; auto. apply Gr. auto. }
    assert (Z2l : forall k, In k (opids l) -> cget c2 k = n0).
    { intros k Hk. rewrite K2; auto.
      - apply Gl; auto.
      - intros Hs. apply (Dlr k); auto. now apply sub_opids. }
    assert (L2' : forall w, In w (vleaves l ++ vleaves r) -> c_vis (cells h2 w) = true).
    { intros w Hw. apply in_app_or in Hw. destruct Hw; auto. }
    rewrite eval_two_vis by auto.
    rewrite (sem_cells' l h2 Gl V2) by (intros; apply L2', in_or_app; auto).
    rewrite (sem_cells' r h2 Gr V2) by (intros; apply L2', in_or_app; auto).
    set (uv := if b_evals b then (sem lv l, sem lv r) else (n0, n0)).
    set (xu := fst uv). set (xv := snd uv).
    set (aL := badjL b m xu xv). set (aR := badjR b m xu xv).
    pose proof (bmrgL_spec b m xu xv) as HmL. fold aL in HmL.
    pose proof (bmrgR_spec b m xu xv) as HmR. fold aR in HmR.
    assert (Ea : aL * dsem lv ld l + aR * dsem lv ld r =
                 chain2 b (sem lv l) (sem lv r) (dsem lv ld l) (dsem lv ld r) * mc m).
    { rewrite <- badj_spec by auto. unfold aL, aR, xu, xv, uv.
      destruct (b_evals b) eqn:Be; cbn [fst snd]; auto.
      destruct (badj_noeval b m n0 n0 (sem lv l) (sem lv r) Be) as [-> ->]. reflexivity. }
    cbn zeta.
    set (c3 := cadd (nid l) aL c2).
    set (c4 := cadd (nid r) aR c3).
    (* merge of the left cache *)
    set (c3r := cadd (nid r) aR c2).
    assert (Hc4 : forall k, cget c4 k = cget c3r k + (if Nat.eqb k (nid l) then aL else n0)).
    { intros k. unfold c4, c3r, c3. rewrite !cget_cadd. ring. }
    assert (N4 : NoDup (ckeys c4)) by (unfold c4, c3; auto using nodup_cadd).
    destruct (child_add l h2 aL (bmrgL b m xu xv) c3r c4) as (N5 & T5 & K5); auto.
    set (c5 := match bmrgL b m xu xv with None => c4
               | Some g => cmerge g (own_cache l h2) c4 end) in *.
    (* merge of the right cache: describe c5 as c5' + own entry of r *)
    assert (Hr : exists c2', (forall k, cget c5 k = cget c2' k + (if Nat.eqb k (nid r) then aR else n0)) /\
        cget c2' t = cget c2 t + aL * leafc ld l /\
        forall k, F k -> cget c2' k = cget c2 k +
          match l with Leaf _ | Par _ _ => n0 | _ => if Nat.eqb k (nid l) then aL else n0 end).
    { exists (cadd (nid r) (nopp aR) c5). split; [|split].
      - intros k. rewrite cget_cadd. destruct (Nat.eqb k (nid r)); ring.
      - rewrite cget_cadd, T5. unfold c3r. rewrite cget_cadd. destruct (Nat.eqb t (nid r)); ring.
      - intros k Fk. rewrite cget_cadd, K5 by auto. unfold c3r. rewrite cget_cadd.
        destruct (Nat.eqb k (nid r)); ring. }
    destruct Hr as (c2' & Hc5 & T2' & K2').
    destruct (child_add r h2 aR (bmrgR b m xu xv) c2' c5) as (N6 & T6 & K6); auto.
    set (c6 := match bmrgR b m xu xv with None => c5
               | Some g => cmerge g (own_cache r h2) c5 end) in *.
    set (ownL := fun k => match l with Leaf _ | Par _ _ => n0 | _ => if Nat.eqb k (nid l) then aL else n0 end).
    set (ownR := fun k => match r with Leaf _ | Par _ _ => n0 | _ => if Nat.eqb k (nid r) then aR else n0 end).
    assert (K6' : forall k, F k -> cget c6 k = cget c2 k + ownL k + ownR k).
    { intros k Fk. rewrite K6, K2' by auto. reflexivity. }
    assert (ownL0 : forall k, (In k (opids l) -> k <> nid l) -> ownL k = n0).
    { intros k Hk. unfold ownL. destruct l as [| |u' id' e'|b' id' l' r']; auto; simpl in *;
        (destruct (Nat.eqb_spec k id') as [->|]; auto; exfalso; apply Hk; auto). }
    assert (ownR0 : forall k, (In k (opids r) -> k <> nid r) -> ownR k = n0).
    { intros k Hk. unfold ownR. destruct r as [| |u' id' e'|b' id' l' r']; auto; simpl in *;
        (destruct (Nat.eqb_spec k id') as [->|]; auto; exfalso; apply Hk; auto). }
    assert (Zl6 : forall k, In k (sub_ids l) -> cget c6 k = n0).
    { intros k Hk. assert (Ho : In k (opids l)) by now apply sub_opids.
      rewrite K6' by (apply Gl; auto). rewrite Z2l by auto.
      rewrite ownL0, ownR0; [ring| |].
      - intros Hr. exfalso. eapply Dlr; eauto.
      - intros _ ->. eapply (nid_sub l); eauto. apply Gl. }
    destruct (IHl false c6 h2 Gl V2 N6 Dl Zl6) as
      (c7 & h7 & E7 & V7 & U7 & M7 & L7 & N7 & T7 & K7 & Z7); [discriminate|].
    rewrite E7.
    assert (Zr7 : forall k, In k (sub_ids r) -> cget c7 k = n0).
    { intros k Hk. assert (Ho : In k (opids r)) by now apply sub_opids.
      rewrite K7.
      - rewrite K6' by (apply Gr; auto). rewrite Z2r by auto. rewrite ownL0, ownR0; [ring| |].
        + intros _ ->. eapply (nid_sub r); eauto. apply Gr.
        + intros Hl. exfalso. eapply Dlr; eauto.
      - apply Gr; auto.
      - intros Hs. eapply Dlr; [|exact Ho]. now apply sub_opids. }
    destruct (IHr false c7 h7 Gr V7 N7 Dr Zr7) as
      (c8 & h8 & E8 & V8 & U8 & M8 & L8 & N8 & T8 & K8 & Z8); [discriminate|].
    rewrite E8. exists c8, h8.
    assert (Pl : pend false l c6 = match l with Leaf _ | Par _ _ => n0 | _ => aL end).
    { destruct l as [| |u' id' e'|b' id' l' r']; auto; simpl;
        (rewrite K6' by (apply Gl; simpl; auto); rewrite Z2l by (simpl; auto);
         rewrite ownR0 by (intros Hr; exfalso; eapply Dlr; [|exact Hr]; simpl; auto);
         unfold ownL; simpl; rewrite Nat.eqb_refl; ring). }
    assert (Pr : pend false r c7 = match r with Leaf _ | Par _ _ => n0 | _ => aR end).
    { destruct r as [| |u' id' e'|b' id' l' r']; auto; simpl;
        (rewrite K7; [|apply Gr; simpl; auto|
           intros Hs; eapply (Dlr id'); [now apply sub_opids|simpl; auto]];
         rewrite K6' by (apply Gr; simpl; auto); rewrite Z2r by (simpl; auto);
         rewrite ownL0 by (intros Hl; exfalso; eapply Dlr; [exact Hl|]; simpl; auto);
         unfold ownR; simpl; rewrite Nat.eqb_refl; ring). }
    assert (Hmc : mc m = pend root (Bin b id l r) c) by (unfold m; destruct root; reflexivity).
    split; auto. split; auto.
    split; [eauto using unch_trans|]. split; [eauto using vmono_trans|].
    split; [intros w Hw; apply in_app_or in Hw; destruct Hw; auto|]. split; auto.
    split; [|split].
    + rewrite T8, T7, T6, T2', T2, T1, P1, P2, Gc0, Pl, Pr. cbn [dsem].
      rewrite <- Hmc.
      replace (mc m * chain2 b (sem lv l) (sem lv r) (dsem lv ld l) (dsem lv ld r))
        with (aL * dsem lv ld l + aR * dsem lv ld r) by (rewrite Ea; ring).
      destruct l, r; simpl leafc; simpl dsem; ring.
    + intros k Fk Hk. simpl in Hk. rewrite in_app_iff in Hk.
      assert (Hl : ~ In k (sub_ids l)) by (intros Hs; apply Hk; left; now apply sub_opids).
      assert (Hr : ~ In k (sub_ids r)) by (intros Hs; apply Hk; right; now apply sub_opids).
      rewrite K8, K7, K6', K2, K1, Gc0, ownL0, ownR0 by (auto; tauto). ring.
    + intros Pz k Hk. simpl in Hk.
      assert (a0 : aL = n0 /\ aR = n0).
      { unfold aL, aR. rewrite <- Hmc in Pz. unfold m in *. destruct root; simpl in Pz.
        - split.
          + transitivity (badjL b None xu xv * n1); [ring|]. rewrite Pz. ring.
          + transitivity (badjR b None xu xv * n1); [ring|]. rewrite Pz. ring.
        - rewrite Pz. apply badj_zero. }
      destruct a0 as [aL0 aR0].
      assert (oL : ownL k = n0) by (unfold ownL; rewrite aL0; destruct l; auto; destruct (Nat.eqb _ _); auto).
      assert (oR : ownR k = n0) by (unfold ownR; rewrite aR0; destruct r; auto; destruct (Nat.eqb _ _); auto).
      apply in_app_or in Hk. destruct Hk as [Hk|Hk].
      * rewrite K8.
        -- destruct (in_dec Nat.eq_dec k (sub_ids l)) as [Hs|Hs].
           ++ apply Z7; auto. rewrite Pl, aL0. destruct l; auto.
           ++ rewrite K7, K6' by (auto; apply Gl; auto). rewrite Z2l, oL, oR by auto. ring.
        -- apply Gl; auto.
        -- intros Hs. eapply Dlr; [exact Hk|]. now apply sub_opids.
      * destruct (in_dec Nat.eq_dec k (sub_ids r)) as [Hs|Hs].
        -- apply Z8; auto. rewrite Pr, aR0. destruct r; auto.
        -- rewrite K8 by (auto; apply Gr; auto). rewrite K7.
           ++ rewrite K6' by (apply Gr; auto). rewrite Z2r, oL, oR by auto. ring.
           ++ apply Gr; auto.
           ++ intros Hs'. eapply Dlr; [|exact Hk]. now apply sub_opids.
Qed.
End Tree.

(** Below t nothing depends on t. *)
Lemma D_below_t : forall w, S0 w -> rank w < rank t -> D w = n0.
Proof.
  assert (A : forall n w, rank w < n -> S0 w -> rank w < rank t -> D w = n0).
  { induction n as [|n IH]; intros w Hn Sw Rw; [lia|].
    rewrite D_eq by auto. destruct (Nat.eqb_spec w t) as [->|Hwt]; [lia|].
    unfold dfold.
    assert (G : forall l p, (forall o, In o l -> In o (its w)) -> snd p = n0 ->
      snd (fold_left (fun p o => (sem (at_ w (fst p) W) o,
              dsem (at_ w (fst p) W) (at_ t n1 (at_ w (snd p) D)) o)) l p) = n0).
    { induction l as [|o l IHl]; intros p Hl Hp; simpl; auto.
      apply IHl; [intros; apply Hl; simpl; auto|]. simpl. apply dsem_zero.
      intros u Hu. assert (Ho : In o (its w)) by (apply Hl; simpl; auto).
      apply vleaves_leaves in Hu.
      destruct (S_rank w o u Sw Ho Hu) as [->|Ru].
      - rewrite at_other by auto. now rewrite at_same.
      - rewrite !at_other by (intros ->; lia). apply IH; try lia. exact (S_dep w o u Sw Ho Hu). }
    apply G; auto. }
  intros w Sw Rw. exact (A (S (rank w)) w (Nat.lt_succ_diag_r _) Sw Rw).
Qed.

Lemma rstart_of h w : graph_is h -> S0 w -> clean (cells h w) \/ rdone h w ->
  rdone h w \/ (c_vis (cells h w) = false /\ c_val (cells h w) = bs w /\ c_cache (cells h w) = []).
Proof.
  intros G Sw [C|F]; auto.
  destruct (c_vis (cells h w)) eqn:V.
  - left. apply visited_done; auto.
  - right. destruct C as (C1 & _ & C3 & _). rewrite C1, C3, (proj1 G). auto.
Qed.

(** Reverse pass of one object. *)
Lemma trav_var_ok : forall f v h, S0 v -> S (S (rank v)) < f -> graph_is h -> RInv (rank v) h ->
  (rdone h v \/ (c_vis (cells h v) = false /\
     ((c_val (cells h v) = bs v /\ c_cache (cells h v) = []) \/
      (its v <> [] /\ forall o, In o (its v) -> ~ In v (leaves o))))) ->
  exists h', trav_var f v h = Some h' /\ unch (upto v) h h' /\ RInv (rank v) h' /\
    vmono h h' /\ rdone h' v.
Proof.
  induction f as [|f IHf]; intros v h Sv Rf G E Hstart; [lia|].
  cbn [trav_var].
  destruct (c_vis (cells h v)) eqn:Vv.
  { destruct Hstart as [F|[F _]]; [|discriminate].
    exists h. auto using unch_refl, vmono_refl. }
  set (h0 := setc h v (set_vis true (cells h v))).
  assert (U0 : unch (upto v) h h0) by (apply unch_setc; [left|..]; reflexivity).
  assert (G0 : graph_is h0) by (eapply graph_is_same; [apply U0|auto]).
  assert (E0 : RInv (rank v) h0) by (apply RInv_setc; auto).
  assert (M0 : vmono h h0) by apply vmono_setvis.
  destruct f as [|f]; [lia|].
  assert (IH : forall w h, S0 w -> rank w < rank v -> graph_is h -> RInv (rank v) h ->
     c_vis (cells h w) = false ->
     exists h', trav_var (S f) w h = Some h' /\ unch (below (rank v)) h h' /\
        RInv (rank v) h' /\ vmono h h' /\ c_vis (cells h' w) = true).
  { intros w h' Sw Rw G' E' Vw.
    destruct (IHf w h') as (h'' & E'' & U'' & I'' & M'' & D''); auto; try lia.
    { intros y Sy Ry; apply E'; auto; lia. }
    { destruct (rstart_of h' w) as [|(A1 & A2 & A3)]; auto. }
    exists h''. split; auto. split.
    { eapply unch_weaken; [|exact U'']. intros y [->|[Sy Ry]]; split; auto; lia. }
    split; [|split; [auto|apply D'']].
    intros y Sy Ry. destruct (Nat.eq_dec y w) as [->|Hy]; [auto|].
    destruct (lt_dec (rank y) (rank w)); [apply I''; auto|].
    destruct U'' as [_ U''].
    assert (Ey : cells h'' y = cells h' y) by (apply U''; intros [->|[_ Lt]]; auto; lia).
    destruct (E' y Sy Ry) as [C|R]; [left; now rewrite Ey|right; eapply rdone_ext; eauto]. }
  set (step := fun o h' =>
     do (k, h2) <- trav_item (eval_var (S f)) (trav_var (S f)) o h';
     do (z, h3) <- eval_op (eval_var (S f)) o h2;
     let k' := match o with Leaf w => c_cache (cells h3 w) | _ => k end in
     Some (modc (set_cache k') v (modc (set_val z) v h3))).
  (* operator indices that must still be zero in the cache of v while [l] remains *)
  set (F := fun (l : list (op T)) k => (exists u, S0 u /\ u <> v /\ In k (ids u) /\ rank v <= rank u) \/
                       In k (flat_map opids l)).
  assert (One : forall pre o l h1 cur dcur, its v = pre ++ o :: l ->
     graph_is h1 -> RInv (rank v) h1 -> c_vis (cells h1 v) = true ->
     c_val (cells h1 v) = cur ->
     (In v (vleaves o) -> cget (c_cache (cells h1 v)) t = dcur /\
        NoDup (ckeys (c_cache (cells h1 v))) /\
        forall k, F (o :: l) k -> cget (c_cache (cells h1 v)) k = n0) ->
     div_ok (at_ v cur W) o ->
     exists h2, step o h1 = Some h2 /\ unch (upto v) h1 h2 /\ RInv (rank v) h2 /\ vmono h1 h2 /\
       c_vis (cells h2 v) = true /\ c_val (cells h2 v) = sem (at_ v cur W) o /\
       cget (c_cache (cells h2 v)) t = dsem (at_ v cur W) (at_ t n1 (at_ v dcur D)) o /\
       NoDup (ckeys (c_cache (cells h2 v))) /\
       forall k, F l k -> cget (c_cache (cells h2 v)) k = n0).
  { intros pre o l h1 cur dcur Hit G1 E1 V1 C1 S1 Dok. unfold step.
    assert (Ho : In o (its v)) by (rewrite Hit; apply in_elt).
    assert (Hne : its v <> []) by (intros E'; rewrite E' in Ho; destruct Ho).
    assert (HL : forall w, In w (leaves o) -> S0 w /\ (w = v \/ rank w < rank v)).
    { intros w Hw. split; [eapply S_dep; eauto|eapply S_rank; eauto]. }
    assert (HP : forall w, In w (pars o) -> its w = []) by (intros w Hw; eapply S_par; eauto).
    assert (Hids : ids v = flat_map opids pre ++ opids o ++ flat_map opids l).
    { unfold ids. rewrite Hit, flat_map_app. reflexivity. }
    assert (Fown : forall k, F (o :: l) k -> exists u, S0 u /\ In k (ids u) /\ rank v <= rank u).
    { intros k [(u & Su & _ & Hk & Ru)|Hk]; [eauto|].
      exists v. split; auto. split; auto. rewrite Hids. apply in_or_app. right. exact Hk. }
    assert (Go : good v (F (o :: l)) (In v (vleaves o)) o).
    { split; auto. split; auto. split.
      { intros k Hk. right. simpl. apply in_or_app; auto. }
      split.
      { pose proof (ids_nodup v Sv) as Nd. rewrite Hids in Nd.
        apply NoDup_app_remove_l in Nd. now apply NoDup_app_remove_r in Nd. }
      split.
      { intros k Fk. destruct (Fown k Fk) as (u & Su & Hk & _). exact (ids_ref u v k o Su Sv Hk Ho). }
      split; [exact (t_par v o Sv Ho)|].
      intros Hv. split; auto. intros Evt. rewrite Evt in Ho, Hv.
      apply (t_self o Ho). now apply vleaves_leaves. }
    assert (Vs : vst v cur dcur (F (o :: l)) (In v (vleaves o)) h1).
    { constructor; auto; intros Hv; apply S1; auto. }
    (* after the pass over the item *)
    assert (Item : exists k h2, trav_item (eval_var (S f)) (trav_var (S f)) o h1 = Some (k, h2) /\
       vst v cur dcur (F (o :: l)) (In v (vleaves o)) h2 /\
       unch (below (rank v)) h1 h2 /\ vmono h1 h2 /\
       (forall w, In w (vleaves o) -> c_vis (cells h2 w) = true) /\
       let k' := match o with Leaf w => c_cache (cells h2 w) | _ => k end in
       cget k' t = dsem (at_ v cur W) (at_ t n1 (at_ v dcur D)) o /\ NoDup (ckeys k') /\
       forall j, F l j -> cget k' j = n0).
    { assert (Tree : (match o with Leaf _ | Par _ _ => False | _ => True end) ->
        exists k h2, trav (eval_var (S f)) (trav_var (S f)) true o [] h1 = Some (k, h2) /\
          vst v cur dcur (F (o :: l)) (In v (vleaves o)) h2 /\
          unch (below (rank v)) h1 h2 /\ vmono h1 h2 /\
          (forall w, In w (vleaves o) -> c_vis (cells h2 w) = true) /\
          cget k t = dsem (at_ v cur W) (at_ t n1 (at_ v dcur D)) o /\ NoDup (ckeys k) /\
          forall j, F l j -> cget k j = n0).
      { intros Hop.
        destruct (trav_ok v cur dcur Sv Hne f (trav_var (S f)) IH (F (o :: l)) Fown
                    (In v (vleaves o)) o true [] h1 Go Vs)
          as (k & h2 & A1 & A2 & A3 & A4 & A5 & A6 & A7 & A8 & A9); auto.
        { constructor. }
        exists k, h2. split; auto. split; auto. split; auto. split; auto. split; auto.
        split; [|split; auto].
        - rewrite A7. unfold pend, lv, ld. destruct o; try contradiction; simpl; ring.
        - intros j Fj. rewrite A8; auto.
          + destruct Fj as [Fj|Fj]; [left; auto|right]. simpl. apply in_or_app; auto.
          + intros Hs. apply sub_opids in Hs.
            destruct Fj as [(u & Su & Hu & Hk & _)|Fj].
            * apply (ids_disj u v j Su Sv Hu Hk). rewrite Hids.
              apply in_or_app. right. apply in_or_app. auto.
            * pose proof (ids_nodup v Sv) as Nd. rewrite Hids in Nd.
              apply NoDup_app_remove_l in Nd.
              revert Nd Hs Fj. clear. generalize (opids o) as a, (flat_map opids l) as b.
              induction a as [|y a IHa]; simpl; intros b Nd [] Hb; inversion Nd; subst; eauto.
              apply H2. apply in_or_app; auto. }
      destruct o as [w|p tp|u id e|b id ol or].
      - (* copy of another expression *)
        clear Tree. destruct (HL w) as [Sw Hw]; [simpl; auto|].
        assert (Hwt : w <> t) by (intros ->; exact (t_copy v Sv Ho)).
        cbn [trav_item].
        assert (Hrun : exists h2, trav_var (S f) w h1 = Some h2 /\ unch (below (rank v)) h1 h2 /\
           RInv (rank v) h2 /\ vmono h1 h2 /\ c_vis (cells h2 w) = true).
        { destruct (c_vis (cells h1 w)) eqn:Vw.
          - exists h1. cbn [trav_var]. rewrite Vw. auto using unch_refl, vmono_refl.
          - destruct Hw as [->|Rw]; [congruence|]. now apply IH. }
        destruct Hrun as (h2 & A1 & A2 & A3 & A4 & A5).
        rewrite A1. exists (c_cache (cells h2 w)), h2.
        assert (Vs2 : vst v cur dcur (F (Leaf w :: l)) (In v (vleaves (Leaf w))) h2)
          by (eapply vst_unch; eauto).
        split; auto. split; auto. split; auto. split; auto.
        split; [intros w' [<-|[]]; auto|]. cbn zeta.
        cbn [dsem]. rewrite at_other by auto.
        destruct (Nat.eq_dec w v) as [->|Hwv].
        + rewrite at_same. simpl vleaves in Vs2.
          split; [apply (vs_d _ _ _ _ _ _ Vs2); simpl; auto|].
          split; [apply (vs_n _ _ _ _ _ _ Vs2); simpl; auto|].
          intros j Fj. apply (vs_z _ _ _ _ _ _ Vs2); simpl; auto.
        + rewrite at_other by auto. destruct Hw as [|Rw]; [congruence|].
          assert (Rd : rdone h2 w).
          { apply visited_done; auto. eapply graph_is_same; [apply A2|auto]. }
          split; [rewrite (rd_c _ _ Rd); unfold cd; destruct (Nat.eqb_spec w t); congruence|].
          split; [apply Rd|].
          intros j Fj. destruct (Fown j) as (u & Su & Hu & Ru).
          { destruct Fj as [Fj|Fj]; [left; auto|right]. simpl. auto. }
          eapply rd_z; eauto. lia.
      - (* parameter *)
        cbn [trav_item]. exists [], h1. split; auto. split; auto.
        split; [apply unch_refl|]. split; [apply vmono_refl|]. split; [intros w []|].
        cbn zeta. simpl. split; auto. split; [constructor|auto].
      - destruct (Tree I) as (k & h2 & A). exists k, h2. exact A.
      - destruct (Tree I) as (k & h2 & A). exists k, h2. exact A. }
    destruct Item as (k & h2 & A1 & A2 & A3 & A4 & A5 & A6 & A7 & A8).
    rewrite A1, eval_vis by auto.
    rewrite (sem_cells' v cur dcur Hne _ _ o h2 Go A2 A5). unfold lv.
    set (k' := match o with Leaf w => c_cache (cells h2 w) | _ => k end) in *.
    assert (Ev2 : cells h2 v = cells h1 v) by (apply A3; intros [_ Lt]; lia).
    eexists. split; [reflexivity|]. cbn zeta. fold k'.
    set (h3 := modc (set_val (sem (at_ v cur W) o)) v h2).
    assert (U3 : unch (upto v) h2 h3) by (apply unch_upd; [left|..]; reflexivity).
    split.
    { eapply unch_trans; [eapply unch_weaken; [apply below_upto|exact A3]|].
      eapply unch_trans; [exact U3|]. apply unch_upd; [left|..]; reflexivity. }
    split.
    { apply RInv_upd; auto. apply RInv_upd; auto. apply A2. }
    split.
    { eapply vmono_trans; [exact A4|]. apply vmono_trans with (h2 := h3); unfold h3; apply vmono_upd; reflexivity. }
    unfold h3. rewrite !modc_same. simpl. rewrite Ev2. auto. }
  set (fp := fun p o => (sem (at_ v (fst p) W) o,
                         dsem (at_ v (fst p) W) (at_ t n1 (at_ v (snd p) D)) o)).
  assert (Loop : forall l pre h1 p, its v = pre ++ l ->
     graph_is h1 -> RInv (rank v) h1 -> c_vis (cells h1 v) = true ->
     c_val (cells h1 v) = fst p ->
     cget (c_cache (cells h1 v)) t = snd p ->
     NoDup (ckeys (c_cache (cells h1 v))) ->
     (forall k, F l k -> cget (c_cache (cells h1 v)) k = n0) ->
     divs_ok W v (fst p) l ->
     exists h2, each step l h1 = Some h2 /\
       unch (upto v) h1 h2 /\ RInv (rank v) h2 /\ vmono h1 h2 /\ c_vis (cells h2 v) = true /\
       (c_val (cells h2 v), cget (c_cache (cells h2 v)) t) = fold_left fp l p /\
       NoDup (ckeys (c_cache (cells h2 v))) /\
       forall k, F [] k -> cget (c_cache (cells h2 v)) k = n0).
  { induction l as [|o l IHl]; intros pre h1 p Hit G1 E1 V1 C1 D1 N1 Z1 Dok.
    - exists h1. simpl. rewrite C1, D1. destruct p. repeat split; auto using vmono_refl.
    - cbn [each fold_left]. destruct Dok as [Dok Dok'].
      destruct (One pre o l h1 (fst p) (snd p)) as (h2 & A1 & A2 & A3 & A4 & A5 & A6 & A7 & A8 & A9); auto.
      rewrite A1.
      destruct (IHl (pre ++ [o]) h2 (fp p o)) as (h4 & E4 & U4 & I4 & M4 & V4 & C4 & N4 & Z4); auto.
      { rewrite <- app_assoc. exact Hit. }
      { eapply graph_is_same; [apply A2|auto]. }
      exists h4. split; auto. split; [eauto using unch_trans|]. split; auto.
      split; [eauto using vmono_trans|]. auto. }
  assert (Run : exists h2, each step (its v) h0 = Some h2 /\
       unch (upto v) h0 h2 /\ RInv (rank v) h2 /\ vmono h0 h2 /\ c_vis (cells h2 v) = true /\
       (c_val (cells h2 v), cget (c_cache (cells h2 v)) t) = fold_left fp (its v) (bs v, n0) /\
       NoDup (ckeys (c_cache (cells h2 v))) /\
       forall k, F [] k -> cget (c_cache (cells h2 v)) k = n0).
  { pose proof (divs v Sv) as Dok.
    destruct Hstart as [F0|[_ [[A B]|[Hne Hns]]]]; [exfalso; apply rd_e in F0; destruct F0; congruence| |].
    - apply (Loop (its v) [] h0 (bs v, n0)); auto; unfold h0; rewrite ?setc_same; simpl; auto.
      + now rewrite B.
      + rewrite B. constructor.
      + intros k _. now rewrite B.
    - destruct (its v) as [|o l] eqn:El; [congruence|].
      cbn [each fold_left]. destruct Dok as [Dok Dok'].
      assert (No : forall w, In w (leaves o) -> w <> v).
      { intros w Hw ->. eapply Hns; eauto. simpl; auto. }
      assert (Es : forall a b, sem (at_ v a W) o = sem (at_ v b W) o).
      { intros a b. apply sem_ext. intros w Hw. rewrite !at_other; auto. }
      assert (Ed : forall a b c d, dsem (at_ v a W) (at_ t n1 (at_ v c D)) o =
                                   dsem (at_ v b W) (at_ t n1 (at_ v d D)) o).
      { intros a b c d. apply dsem_ext; intros w Hw; [rewrite !at_other; auto|].
        unfold at_ at 1 3. destruct (Nat.eqb w t); auto. rewrite !at_other; auto. }
      destruct (One [] o l h0 (c_val (cells h0 v)) n0)
        as (h2 & A1 & A2 & A3 & A4 & A5 & A6 & A7 & A8 & A9); auto.
      { unfold h0. now rewrite setc_same. }
      { intros Hv. exfalso. apply (No v); auto. now apply vleaves_leaves. }
      { revert Dok No. clear. generalize (c_val (cells h0 v)) as a, (bs v) as b.
        intros a b. induction o as [w|p tp|u id e IHe|k id ol IHl or IHr]; simpl; intros H No; auto.
        destruct H as (H1 & H2 & H3).
        split; [apply IHl; auto; intros; apply No, in_or_app; auto|].
        split; [apply IHr; auto; intros; apply No, in_or_app; auto|].
        destruct k; auto.
        rewrite (sem_ext _ (at_ v b W)); auto.
        intros w Hw. rewrite !at_other; auto; apply No, in_or_app; auto. }
      rewrite A1.
      destruct (Loop l [o] h2 (fp (bs v, n0) o)) as (h4 & E4 & U4 & I4 & M4 & V4 & C4 & N4 & Z4); auto.
      { eapply graph_is_same; [apply A2|auto]. }
      { rewrite A6. apply Es. }
      { rewrite A7. apply Ed. }
      exists h4. split; auto. split; [eauto using unch_trans|]. split; auto.
      split; [eauto using vmono_trans|]. auto. }
  destruct Run as (h2 & E2 & U2 & I2 & M2 & V2 & C2 & N2 & Z2).
  rewrite (proj2 G). fold step. rewrite E2. exists h2.
  split; auto. split; [eauto using unch_trans|]. split; auto. split; [eauto using vmono_trans|].
  change (fold_left fp (its v) (bs v, n0)) with (dfold bs its W t D v) in C2.
  assert (Hval : c_val (cells h2 v) = fst (dfold bs its W t D v)) by now rewrite <- C2.
  assert (Hd : cget (c_cache (cells h2 v)) t = snd (dfold bs its W t D v)) by now rewrite <- C2.
  constructor; auto.
  - split; auto. rewrite Hval, W_eq by auto. unfold dfold. clear.
    assert (Gn : forall l p q, fst p = q ->
      fst (fold_left (fun p o => (sem (at_ v (fst p) W) o,
                         dsem (at_ v (fst p) W) (at_ t n1 (at_ v (snd p) D)) o)) l p) = fold_left (fun cur o => sem (at_ v cur W) o) l q).
    { induction l as [|o l IH]; intros p q Hpq; simpl; auto. apply IH. simpl. now rewrite Hpq. }
    now apply Gn.
  - rewrite Hd. unfold cd. rewrite (D_eq v) by auto.
    destruct (Nat.eqb_spec v t) as [Evt|]; auto.
    (* the derivative of t's own definition with respect to t is 0 *)
    unfold dfold.
    assert (Gz : forall l p, (forall o, In o l -> In o (its v)) -> snd p = n0 ->
      snd (fold_left (fun p o => (sem (at_ v (fst p) W) o,
              dsem (at_ v (fst p) W) (at_ t n1 (at_ v (snd p) D)) o)) l p) = n0).
    { induction l as [|o l IHl]; intros p Hl Hp; simpl; auto.
      apply IHl; [intros; apply Hl; simpl; auto|]. simpl. apply dsem_zero.
      intros u Hu. assert (Ho : In o (its v)) by (apply Hl; simpl; auto).
      apply vleaves_leaves in Hu.
      assert (Hut : u <> t).
      { intros ->. rewrite Evt in Ho. exact (t_self o Ho Hu). }
      destruct (S_rank v o u Sv Ho Hu) as [->|Ru]; [congruence|].
      rewrite !at_other by congruence. apply D_below_t; [exact (S_dep v o u Sv Ho Hu)|].
      rewrite <- Evt. exact Ru. }
    now apply Gz.
  - intros u k Su Hk Ru. apply Z2. left. exists u. repeat split; auto; try lia. intros ->. lia.
Qed.
End Rev.
