(** * Matrix objects have value semantics: proofs *)
From Coq Require Import List Arith Bool Lia.
From Verif Require Import MatMem MatObj MatObjSpec.
Import ListNotations.
Set Implicit Arguments.
Unset Strict Implicit.

Section Ok.
Context {T : Type}.
Variable zero : T.
Notation world := (world T). Notation cell := (cell T). Notation array := (array T). Notation memory := (memory T).
Implicit Types (w : world) (M : option nat -> option object) (C : option nat -> option cell) (A : nat -> option array) (inst : nat -> nat).

(** Names of objects: those of the program, and one temporary. *)
Definition updo {X} (f : option nat -> X) (t : option nat) (v : X) : option nat -> X :=
  fun u => match t, u with
           | None, None => v
           | Some x, Some y => if y =? x then v else f u
           | _, _ => f u end.
Lemma updo_same {X} (f : option nat -> X) t v : updo f t v t = v.
Proof. destruct t; simpl; [now rewrite Nat.eqb_refl|reflexivity]. Qed.
Lemma updo_other {X} (f : option nat -> X) t v u : u <> t -> updo f t v u = f u.
Proof. destruct t, u; simpl; intros H; try reflexivity; [|congruence]. destruct (Nat.eqb_spec n0 n); [congruence|reflexivity]. Qed.
Lemma opt_dec (t u : option nat) : {t = u} + {t <> u}.
Proof. decide equality; apply Nat.eq_dec. Defined.
Lemma upd_same {X} (f : nat -> X) k v : upd f k v k = v.
Proof. unfold upd. now rewrite Nat.eqb_refl. Qed.
Lemma upd_other {X} (f : nat -> X) k v k' : k' <> k -> upd f k v k' = f k'.
Proof. intros H. unfold upd. destruct (Nat.eqb_spec k' k); [contradiction|reflexivity]. Qed.

Definition place inst (p : option (nat * nat)) : raw_ptr := match p with Some (n, off) => Some (inst n, off) | None => None end.
Definition shows w A inst (o : object) (d : cell) : Prop :=
  match d with
  | Gone => o = moved
  | Own r c l => exists k b, o = Obj r c (Some k) true /\ ptrs w k = Some (b, 0) /\ bufs w b = BLib l /\ length l = r * c /\ 0 < r * c /\ k < n_strats w
  | Empty r c => exists k, o = Obj r c (Some k) true /\ ptrs w k = None /\ 0 < r * c /\ k < n_strats w
  | View r c p => exists k, o = Obj r c (Some k) false /\ ptrs w k = place inst p /\ 0 < r * c /\ k < n_strats w /\
                            match p with Some (n, _) => A n <> None | None => True end
  end.
Record Inv M w C A inst : Prop := {
  i_shows : forall t, match M t, C t with None, None => True | Some o, Some d => shows w A inst o d | _, _ => False end;
  i_strat : forall t u o o' k, M t = Some o -> M u = Some o' -> strat_ o = Some k -> strat_ o' = Some k -> t = u;
  i_buf : forall k k' b off off' l, ptrs w k = Some (b, off) -> ptrs w k' = Some (b, off') -> bufs w b = BLib l -> k = k';
  i_own : forall b l, bufs w b = BLib l -> exists t o k, M t = Some o /\ dest_ o = true /\ strat_ o = Some k /\ ptrs w k = Some (b, 0);
  i_ptr : forall k b off, ptrs w k = Some (b, off) -> b < n_bufs w;
  i_new : forall b, n_bufs w <= b -> bufs w b = BGone;
  i_junk : forall k, n_strats w <= k -> ptrs w k = None;
  i_arr : forall n, match A n with
                    | None => arrays w n = None
                    | Some (Live l) => arrays w n = Some (inst n) /\ bufs w (inst n) = BUser l /\ inst n < n_bufs w
                    | Some Deleted => arrays w n = None /\ bufs w (inst n) = BGone /\ inst n < n_bufs w
                    end;
  i_inst : forall n n', A n <> None -> A n' <> None -> inst n = inst n' -> n = n' }.

Ltac inv I := destruct I as [Ish Ist Ibu Iow Ipt Ine Iju Iar Iin].
Lemma Inv_ext M M' w C C' A inst : (forall t, M t = M' t) -> (forall t, C t = C' t) -> Inv M w C A inst -> Inv M' w C' A inst.
Proof.
  intros E E' I. inv I. constructor; auto.
  - intros t. rewrite <- E, <- E'. apply Ish.
  - intros t u o o' k. rewrite <- !E. apply Ist.
  - intros b l H. destruct (Iow b l H) as (t & o & k & H1 & H2). exists t, o, k. rewrite <- E. auto.
Qed.
Lemma Inv_start : Inv (fun _ => None) (start (T := T)) (fun _ => None) (fun _ => None) (fun _ => 0).
Proof. constructor; simpl; try discriminate; auto. intros n; congruence. Qed.
(** Only strategies, buffers and arrays matter, not the table of names. *)
Definition same_core w w' : Prop :=
  (forall k, ptrs w' k = ptrs w k) /\ n_strats w' = n_strats w /\ (forall b, bufs w' b = bufs w b) /\ n_bufs w' = n_bufs w /\ arrays w' = arrays w.
Lemma Inv_core M w w' C A inst : same_core w w' -> Inv M w C A inst -> Inv M w' C A inst.
Proof.
  intros (E1 & E2 & E3 & E4 & E5) I. inv I.
  constructor; rewrite ?E2, ?E4, ?E5; auto.
  - intros t. specialize (Ish t). destruct (M t), (C t); auto. destruct c; simpl in *; rewrite ?E2; auto.
    + destruct Ish as (k & b & H). exists k, b. now rewrite E1, E3.
    + destruct Ish as (k & H). exists k. now rewrite E1.
    + destruct Ish as (k & H). exists k. now rewrite E1.
  - intros k k' b off off' l. rewrite !E1, !E3. apply Ibu.
  - intros b l. rewrite E3. intros H. destruct (Iow b l H) as (t & o & k & H1 & H2). exists t, o, k. now rewrite E1.
  - intros k b off. rewrite E1. apply Ipt.
  - intros b H. rewrite E3. now apply Ine.
  - intros k H. rewrite E1. now apply Iju.
  - intros n. specialize (Iar n). destruct (A n) as [[l|]|]; rewrite ?E3; auto.
Qed.
Lemma core_mat w x o : same_core w (set_mat w x o).
Proof. repeat split. Qed.

(** *** A new strategy for a new object *)
Lemma Inv_strat M w C A inst : Inv M w C A inst -> Inv M (snd (new_strat w)) C A inst.
Proof.
  intros I. inv I. unfold new_strat; simpl.
  assert (P : forall k, upd (ptrs w) (n_strats w) None k = ptrs w k).
  { intros k. unfold upd. destruct (Nat.eqb_spec k (n_strats w)) as [->|]; [symmetry; apply Iju; lia|reflexivity]. }
  constructor; simpl; auto.
  - intros t. specialize (Ish t). destruct (M t), (C t); auto. destruct c; simpl in *; auto.
    + destruct Ish as (k & b & E & H1 & H2 & H3 & H4 & H5). exists k, b. rewrite P. repeat split; auto.
    + destruct Ish as (k & E & H1 & H2 & H3). exists k. rewrite P. repeat split; auto.
    + destruct Ish as (k & E & H1 & H2 & H3 & H4). exists k. rewrite P. repeat split; auto.
  - intros k k' b off off' l. rewrite !P. apply Ibu.
  - intros b l H. destruct (Iow b l H) as (t & o & k & H1 & H2 & H3 & H4). exists t, o, k. rewrite P. auto.
  - intros k b off. rewrite P. apply Ipt.
  - intros k H. rewrite P. apply Iju. lia.
Qed.
Lemma strat_bound M w C A inst t o k : Inv M w C A inst -> M t = Some o -> strat_ o = Some k -> k < n_strats w.
Proof.
  intros I E K. inv I. specialize (Ish t). rewrite E in Ish. destruct (C t) as [d|]; [|contradiction].
  destruct d; simpl in Ish.
  - subst o. discriminate.
  - destruct Ish as (k' & b & -> & H). simpl in K. injection K as <-. tauto.
  - destruct Ish as (k' & -> & H). simpl in K. injection K as <-. tauto.
  - destruct Ish as (k' & -> & H). simpl in K. injection K as <-. tauto.
Qed.
(** An object with a strategy of its own that holds no memory of the library. *)
Lemma Inv_add M w C A inst t r c p (d : bool) :
  Inv M w C A inst -> M t = None -> 0 < r * c ->
  (d = true -> p = None) -> match p with Some (n, _) => exists l, A n = Some (Live l) | None => True end ->
  Inv (updo M t (Some (Obj r c (Some (n_strats w)) d))) (set_ptr (snd (new_strat w)) (n_strats w) (place inst p))
      (updo C t (Some (if d then Empty r c else View r c p))) A inst.
Proof.
  intros I Mt Pos Dp Live.
  assert (B := fun u o k => @strat_bound M w C A inst u o k I).
  inv I. unfold new_strat; simpl.
  assert (Pn : forall k, k < n_strats w -> upd (upd (ptrs w) (n_strats w) None) (n_strats w) (place inst p) k = ptrs w k).
  { intros k H. rewrite !upd_other by lia. reflexivity. }
  assert (Pp : upd (upd (ptrs w) (n_strats w) None) (n_strats w) (place inst p) (n_strats w) = place inst p) by apply upd_same.
  assert (Pl : forall b off l, place inst p = Some (b, off) -> bufs w b = BLib l -> False).
  { intros b off l E E'. destruct p as [[n o]|]; [|discriminate]. simpl in E. injection E as <- <-. destruct Live as (l0 & Hl).
    specialize (Iar n). rewrite Hl in Iar. destruct Iar as (_ & H & _). congruence. }
  assert (Pc : forall k q, upd (upd (ptrs w) (n_strats w) None) (n_strats w) (place inst p) k = Some q ->
                 (k = n_strats w /\ place inst p = Some q) \/ (k <> n_strats w /\ ptrs w k = Some q)).
  { intros k q H. destruct (Nat.eq_dec k (n_strats w)) as [->|Ne]; [left; rewrite <- H, Pp; auto|right; rewrite !upd_other in H by auto; auto]. }
  constructor; simpl; auto.
  - intros u. destruct (opt_dec u t) as [->|Ne].
    + rewrite !updo_same. destruct d; simpl.
      * exists (n_strats w). rewrite Pp. rewrite (Dp eq_refl). repeat split; auto.
      * exists (n_strats w). rewrite Pp. repeat split; auto. destruct p as [[n off]|]; auto. destruct Live as (l & E). congruence.
    + rewrite !updo_other by auto. specialize (Ish u). destruct (M u), (C u); auto. destruct c0; simpl in *; auto.
      * destruct Ish as (k & b & E & H1 & H2 & H3 & H4 & H5). exists k, b. rewrite Pn by auto. repeat split; auto.
      * destruct Ish as (k & E & H1 & H2 & H3). exists k. rewrite Pn by auto. repeat split; auto.
      * destruct Ish as (k & E & H1 & H2 & H3 & H4). exists k. rewrite Pn by auto. repeat split; auto.
  - intros u v o o' k Hu Hv Ku Kv.
    destruct (opt_dec u t) as [Eu|Nu], (opt_dec v t) as [Ev|Nv]; try congruence.
    + subst u. rewrite updo_same in Hu. rewrite updo_other in Hv by auto. injection Hu as <-. simpl in Ku. injection Ku as <-.
      specialize (B v o' _ Hv Kv). lia.
    + subst v. rewrite updo_same in Hv. rewrite updo_other in Hu by auto. injection Hv as <-. simpl in Kv. injection Kv as <-.
      specialize (B u o _ Hu Ku). lia.
    + rewrite updo_other in Hu, Hv by auto. eapply Ist; eauto.
  - intros k k' b off off' l H H' Hb.
    destruct (Pc _ _ H) as [[-> Ek]|[Nk Ek]], (Pc _ _ H') as [[-> Ek']|[Nk' Ek']]; auto.
    + destruct (Pl _ _ _ Ek Hb).
    + destruct (Pl _ _ _ Ek' Hb).
    + eapply Ibu; eauto.
  - intros b l H. destruct (Iow b l H) as (u & o & k & H1 & H2 & H3 & H4). exists u, o, k.
    rewrite updo_other by congruence. rewrite Pn; [auto|]. eapply B; eauto.
  - intros k b off H. destruct (Pc _ _ H) as [[-> Ek]|[Nk Ek]]; [|eapply Ipt; eauto].
    destruct p as [[n o]|]; [|discriminate]. simpl in Ek. injection Ek as <- <-. destruct Live as (l & E). specialize (Iar n). rewrite E in Iar. tauto.
  - intros k H. destruct (upd _ _ _ k) as [q|] eqn:E; [|reflexivity]. destruct (Pc _ _ E) as [[-> _]|[_ Ek]]; [lia|].
    rewrite Iju in Ek by lia. discriminate.
Qed.

(** *** Allocation *)
Lemma Inv_alloc M w C A inst t r c k :
  Inv M w C A inst -> M t = Some (Obj r c (Some k) true) -> C t = Some (Empty r c) -> 0 < r * c ->
  exists w', allocate zero w k (r * c) = Ok w' /\ mats w' = mats w /\ arrays w' = arrays w /\
    ptrs w' k = Some (n_bufs w, 0) /\ bufs w' (n_bufs w) = BLib (repeat zero (r * c)) /\ (forall b, b <> n_bufs w -> bufs w' b = bufs w b) /\
    (forall k', k' <> k -> ptrs w' k' = ptrs w k') /\
    Inv M w' (updo C t (Some (Own r c (repeat zero (r * c))))) A inst.
Proof.
  intros I Mt Ct Pos. inv I. unfold allocate. destruct (Nat.ltb_spec 0 (r * c)); [|lia].
  eexists; split; [reflexivity|]. simpl. split; [reflexivity|]. split; [reflexivity|].
  split; [apply upd_same|]. split; [apply upd_same|]. split; [intros b Hb; now apply upd_other|]. split; [intros k' H'; now apply upd_other|].
  assert (S0 := Ish t). rewrite Mt, Ct in S0. simpl in S0. destruct S0 as (k0 & E0 & P0 & _ & B0). injection E0 as <-.
  assert (Pc : forall k' q, upd (ptrs w) k (Some (n_bufs w, 0)) k' = Some q -> (k' = k /\ q = (n_bufs w, 0)) \/ (k' <> k /\ ptrs w k' = Some q)).
  { intros k' q E. destruct (Nat.eq_dec k' k) as [->|Ne]; [left; rewrite upd_same in E; injection E as <-; auto|right; rewrite upd_other in E by auto; auto]. }
  assert (Ar : forall n, A n <> None -> inst n < n_bufs w) by (intros n; specialize (Iar n); destruct (A n) as [[l|]|]; [tauto|tauto|congruence]).
  constructor; simpl; auto.
  - intros u. destruct (opt_dec u t) as [->|Ne].
    + rewrite Mt, updo_same. simpl. exists k, (n_bufs w). rewrite !upd_same, repeat_length. repeat split; auto.
    + rewrite updo_other by auto. specialize (Ish u). destruct (M u) as [o|] eqn:Mu, (C u) as [d|]; auto.
      assert (Nk : forall k', strat_ o = Some k' -> k' <> k).
      { intros k' Hk' ->. apply Ne. eapply Ist; eauto. }
      destruct d; simpl in *; auto.
      * destruct Ish as (k' & b & E & H1 & H2 & H3 & H4 & H5). exists k', b. subst o. rewrite upd_other by (apply Nk; reflexivity).
        rewrite upd_other; [repeat split; auto|]. specialize (Ipt _ _ _ H1). lia.
      * destruct Ish as (k' & E & H1 & H2). exists k'. subst o. rewrite upd_other by (apply Nk; reflexivity). auto.
      * destruct Ish as (k' & E & H1 & H2). exists k'. subst o. rewrite upd_other by (apply Nk; reflexivity). auto.
  - intros k1 k2 b off off' l H1 H2 Hb.
    destruct (Pc _ _ H1) as [[-> E1]|[N1 E1]], (Pc _ _ H2) as [[-> E2]|[N2 E2]]; auto.
    + injection E1 as -> ->. apply Ipt in E2. lia.
    + injection E2 as -> ->. apply Ipt in E1. lia.
    + assert (b <> n_bufs w) by (apply Ipt in E1; lia). rewrite upd_other in Hb by auto. eapply Ibu; eauto.
  - intros b l Hb. destruct (Nat.eq_dec b (n_bufs w)) as [->|Ne].
    + exists t, (Obj r c (Some k) true), k. rewrite upd_same. auto.
    + rewrite upd_other in Hb by auto. destruct (Iow b l Hb) as (u & o & k' & H1 & H2 & H3 & H4). exists u, o, k'.
      rewrite upd_other by congruence. auto.
  - intros k' b off H'. destruct (Pc _ _ H') as [[_ E]|[_ E]]; [injection E; lia|]. apply Ipt in E. lia.
  - intros b Hb. rewrite upd_other by lia. apply Ine. lia.
  - intros k' H'. destruct (Nat.eq_dec k' k) as [->|]; [lia|]. rewrite upd_other by auto. now apply Iju.
  - intros n. specialize (Iar n). specialize (Ar n). destruct (A n) as [[l|]|]; auto.
    + assert (inst n < n_bufs w) by (apply Ar; discriminate). rewrite upd_other by lia. destruct Iar as (E1 & E2 & E3). auto.
    + assert (inst n < n_bufs w) by (apply Ar; discriminate). rewrite upd_other by lia. destruct Iar as (E1 & E2 & E3). auto.
Qed.

(** *** New contents of one buffer *)
Definition only b w w' : Prop :=
  mats w' = mats w /\ ptrs w' = ptrs w /\ n_strats w' = n_strats w /\ n_bufs w' = n_bufs w /\ arrays w' = arrays w /\
  (forall b', b' <> b -> bufs w' b' = bufs w b').
Lemma only_refl b w : only b w w.
Proof. repeat split; auto. Qed.
Lemma only_trans b w1 w2 w3 : only b w1 w2 -> only b w2 w3 -> only b w1 w3.
Proof. intros (A1 & A2 & A3 & A4 & A5 & A6) (B1 & B2 & B3 & B4 & B5 & B6). repeat split; try congruence. intros b' H. rewrite B6, A6; auto. Qed.

Lemma Inv_own M w w' C A inst t r c l l' k b :
  Inv M w C A inst -> M t = Some (Obj r c (Some k) true) -> C t = Some (Own r c l) -> ptrs w k = Some (b, 0) ->
  only b w w' -> bufs w' b = BLib l' -> length l' = length l -> Inv M w' (updo C t (Some (Own r c l'))) A inst.
Proof.
  intros I Mt Ct Pk (_ & E1 & E2 & E3 & E4 & E5) Hb Len. inv I.
  assert (S0 := Ish t). rewrite Mt, Ct in S0. simpl in S0. destruct S0 as (k0 & b0 & E0 & P0 & B0 & L0 & Pos & K0). injection E0 as <-.
  assert (b0 = b) by congruence. subst b0.
  assert (Na : forall n, A n <> None -> inst n <> b).
  { intros n Hn En. specialize (Iar n). rewrite En in Iar. destruct (A n) as [[l1|]|]; try congruence; destruct Iar as (_ & Hx & _); congruence. }
  constructor; rewrite ?E1, ?E2, ?E3, ?E4; auto.
  - intros u. destruct (opt_dec u t) as [->|Ne].
    + rewrite Mt, updo_same. simpl. exists k, b. rewrite E1, E2. repeat split; auto. congruence.
    + rewrite updo_other by auto. specialize (Ish u). destruct (M u) as [o|] eqn:Mu, (C u) as [d|]; auto.
      destruct d; simpl in *; rewrite ?E1, ?E2; auto.
      destruct Ish as (k' & b' & E & H1 & H2 & H3 & H4 & H5). exists k', b'. rewrite E5; [repeat split; auto|].
      intros ->. assert (k' = k) by (eapply Ibu; eauto). subst k'. apply Ne. subst o. exact (Ist _ _ _ _ k Mu Mt eq_refl eq_refl).
  - intros k1 k2 b' off off' l1 H1 H2 Hb'. destruct (Nat.eq_dec b' b) as [->|Ne]; [eapply Ibu; eauto|]. rewrite E5 in Hb' by auto. eapply Ibu; eauto.
  - intros b' l1 Hb'. destruct (Nat.eq_dec b' b) as [->|Ne]; [|rewrite E5 in Hb' by auto; eauto].
    exists t, (Obj r c (Some k) true), k. auto.
  - intros b' Hb'. destruct (Nat.eq_dec b' b) as [->|Ne]; [|rewrite E5 by auto; auto]. apply Ipt in Pk. lia.
  - intros n. specialize (Iar n). specialize (Na n). destruct (A n) as [[l1|]|]; rewrite ?E5 by (apply Na; discriminate); auto.
Qed.
Lemma Inv_arr M w w' C A inst n l l' :
  Inv M w C A inst -> A n = Some (Live l) -> only (inst n) w w' -> bufs w' (inst n) = BUser l' -> Inv M w' C (upd A n (Some (Live l'))) inst.
Proof.
  intros I An (_ & E1 & E2 & E3 & E4 & E5) Hb. inv I.
  assert (An' := Iar n). rewrite An in An'. destruct An' as (N1 & N2 & N3).
  assert (Sn : forall n0, upd A n (Some (Live l')) n0 <> None <-> A n0 <> None).
  { intros n0. unfold upd. destruct (Nat.eqb_spec n0 n) as [->|]; [|tauto]. rewrite An. split; discriminate. }
  constructor; rewrite ?E1, ?E2, ?E3, ?E4; auto.
  - intros u. specialize (Ish u). destruct (M u) as [o|] eqn:Mu, (C u) as [d|]; auto.
    destruct d; simpl in *; rewrite ?E1, ?E2; auto.
    + destruct Ish as (k' & b' & E & H1 & H2 & H3 & H4 & H5). exists k', b'. rewrite E5; [repeat split; auto|]. intros ->. congruence.
    + destruct Ish as (k' & E & H1 & H2 & H3 & H4). exists k'. repeat split; auto. destruct p as [[n0 off]|]; auto. now apply Sn.
  - intros k1 k2 b' off off' l1 H1 H2 Hb'. destruct (Nat.eq_dec b' (inst n)) as [->|Ne]; [congruence|]. rewrite E5 in Hb' by auto. eapply Ibu; eauto.
  - intros b' l1 Hb'. destruct (Nat.eq_dec b' (inst n)) as [->|Ne]; [congruence|]. rewrite E5 in Hb' by auto; eauto.
  - intros b' Hb'. destruct (Nat.eq_dec b' (inst n)) as [->|Ne]; [lia|]. rewrite E5 by auto; auto.
  - intros n0. unfold upd. destruct (Nat.eqb_spec n0 n) as [->|Ne]; [auto|]. specialize (Iar n0).
    assert (D : A n0 <> None -> inst n0 <> inst n) by (intros H E; apply Ne; apply Iin; auto; congruence).
    destruct (A n0) as [[l1|]|]; rewrite ?E5 by (apply D; discriminate); auto.
  - intros n1 n2 H1 H2. apply Iin; now apply Sn.
Qed.

(** *** Reading and writing ranges *)
Definition at_buf w b (l : list T) : Prop := contents (bufs w b) = Some l.
Lemma peek_at w b l off i : at_buf w b l -> peek w (Some (b, off)) i = match nth_error l (off + i) with Some v => Ok v | None => Undefined end.
Proof. intros H. unfold peek. now rewrite H. Qed.
Lemma poke_at w b l off i v : at_buf w b l -> off + i < length l ->
  exists w', poke w (Some (b, off)) i v = Ok w' /\ only b w w' /\ bufs w' b = with_contents (bufs w b) (list_set l (off + i) v) /\ at_buf w' b (list_set l (off + i) v).
Proof.
  intros H L. unfold poke. rewrite H. destruct (Nat.ltb_spec (off + i) (length l)); [|lia]. eexists; split; [reflexivity|].
  split; [|split].
  - repeat split; auto. intros b' Hb'. simpl. now apply upd_other.
  - simpl. apply upd_same.
  - unfold at_buf in *. simpl. rewrite upd_same. destruct (bufs w b); simpl in *; auto. discriminate.
Qed.
Lemma with_twice (x : buffer T) l l' : with_contents (with_contents x l) l' = with_contents x l'.
Proof. now destruct x. Qed.
Lemma list_set_len (l : list T) k v : length (list_set l k v) = length l.
Proof. revert k. induction l as [|a l IH]; intros [|k]; simpl; auto. Qed.
Lemma list_set_app (l1 l2 : list T) a v : list_set (l1 ++ a :: l2) (length l1) v = l1 ++ v :: l2.
Proof. induction l1; simpl; [reflexivity|now f_equal]. Qed.
(** Filling a range with the given elements. *)
Lemma fill_ok w b off n v i pre mid post : at_buf w b (pre ++ mid ++ post) -> length pre = off + i -> length mid = n ->
  exists w', fill_from w (Some (b, off)) i n v = Ok w' /\ only b w w' /\ bufs w' b = with_contents (bufs w b) (pre ++ repeat v n ++ post).
Proof.
  revert w i pre mid. induction n as [|n IH]; intros w i pre mid H Lp Lm.
  - exists w. split; [reflexivity|]. split; [apply only_refl|]. destruct mid; [|discriminate]. simpl in *. unfold at_buf in H. destruct (bufs w b); simpl in *; congruence.
  - destruct mid as [|a mid]; [discriminate|]. simpl in Lm. injection Lm as Lm.
    destruct (poke_at (off := off) (i := i) v H) as (w1 & E1 & O1 & B1 & A1); [rewrite app_length; simpl; lia|].
    cbn [fill_from]. rewrite E1. simpl. rewrite <- Lp in A1, B1. simpl in A1, B1. rewrite list_set_app in A1, B1.
    assert (A1' : at_buf w1 b ((pre ++ [v]) ++ mid ++ post)) by (now rewrite <- app_assoc).
    destruct (IH w1 (Datatypes.S i) (pre ++ [v]) mid A1') as (w2 & E2 & O2 & B2); [rewrite app_length; simpl; lia|auto|].
    exists w2. split; [exact E2|]. split; [eapply only_trans; eauto|]. rewrite B2, B1, with_twice. f_equal. rewrite <- !app_assoc. reflexivity.
Qed.
Lemma copy_ok w b off n i bs os ls src pre mid post : b <> bs -> at_buf w bs ls ->
  at_buf w b (pre ++ mid ++ post) -> length pre = off + i -> length mid = n -> length src = n ->
  (forall j, j < n -> nth_error ls (os + (i + j)) = nth_error src j) ->
  exists w', copy_from w (Some (bs, os)) (Some (b, off)) i n = Ok w' /\ only b w w' /\ bufs w' b = with_contents (bufs w b) (pre ++ src ++ post).
Proof.
  intros Nb. revert w i pre mid src. induction n as [|n IH]; intros w i pre mid src Hs H Lp Lm Ls Nth.
  - exists w. split; [reflexivity|]. split; [apply only_refl|]. destruct mid, src; try discriminate. simpl in *. unfold at_buf in H. destruct (bufs w b); simpl in *; congruence.
  - destruct mid as [|a mid]; [discriminate|]. destruct src as [|v src]; [discriminate|]. simpl in Lm, Ls. injection Lm as Lm. injection Ls as Ls.
    cbn [copy_from]. rewrite (peek_at os i Hs). assert (N0 := Nth 0). rewrite Nat.add_0_r in N0. rewrite N0 by lia. cbn [nth_error then_].
    destruct (poke_at (off := off) (i := i) v H) as (w1 & E1 & O1 & B1 & A1); [rewrite app_length; simpl; lia|].
    rewrite E1. cbn [then_]. rewrite <- Lp in A1, B1. simpl in A1, B1. rewrite list_set_app in A1, B1.
    assert (A1' : at_buf w1 b ((pre ++ [v]) ++ mid ++ post)) by (now rewrite <- app_assoc).
    assert (Hs1 : at_buf w1 bs ls) by (destruct O1 as (_ & _ & _ & _ & _ & O1); unfold at_buf; rewrite O1 by auto; exact Hs).
    destruct (IH w1 (Datatypes.S i) (pre ++ [v]) mid src Hs1 A1') as (w2 & E2 & O2 & B2); [rewrite app_length; simpl; lia|auto|auto| |].
    + intros j Hj. specialize (Nth (Datatypes.S j)). simpl in Nth. rewrite <- Nth by lia. f_equal. lia.
    + exists w2. split; [exact E2|]. split; [eapply only_trans; eauto|]. rewrite B2, B1, with_twice. f_equal. rewrite <- !app_assoc. reflexivity.
Qed.

(** *** Removing and renaming objects *)
Lemma Inv_drop M w C A inst t o : Inv M w C A inst -> M t = Some o ->
  (forall k b off l, dest_ o = true -> strat_ o = Some k -> ptrs w k = Some (b, off) -> bufs w b = BLib l -> False) ->
  Inv (updo M t None) w (updo C t None) A inst.
Proof.
  intros I Mt Nob. inv I. constructor; auto.
  - intros u. destruct (opt_dec u t) as [->|Ne]; [now rewrite !updo_same|]. rewrite !updo_other by auto. apply Ish.
  - intros u v o1 o2 k Hu Hv.
    destruct (opt_dec u t) as [->|Nu]; [rewrite updo_same in Hu; discriminate|]. destruct (opt_dec v t) as [->|Nv]; [rewrite updo_same in Hv; discriminate|].
    rewrite updo_other in Hu, Hv by auto. apply (Ist _ _ _ _ _ Hu Hv).
  - intros b l Hb. destruct (Iow b l Hb) as (u & o1 & k & H1 & H2 & H3 & H4). exists u, o1, k.
    rewrite updo_other; [auto|]. intros ->. rewrite Mt in H1. injection H1 as <-. eapply Nob; eauto.
Qed.
Lemma Inv_destroy M w C A inst t o : Inv M w C A inst -> M t = Some o ->
  exists w', destruct_ w o = Ok w' /\ mats w' = mats w /\ Inv (updo M t None) w' (updo C t None) A inst.
Proof.
  intros I Mt. assert (Sh := i_shows I t). rewrite Mt in Sh. destruct (C t) as [d|] eqn:Ct; [|contradiction]. unfold destruct_.
  destruct d as [|r c l|r c|r c p]; simpl in Sh.
  - subst o. simpl. exists w. split; [reflexivity|]. split; [reflexivity|]. apply (Inv_drop I Mt). simpl. discriminate.
  - destruct Sh as (k & b & -> & P & Bf & Len & Pos & Hk). cbn [dest_ strat_]. unfold deallocate. rewrite P, Bf.
    eexists; split; [reflexivity|]. split; [reflexivity|]. inv I.
    assert (Pc : forall k' q, upd (ptrs w) k None k' = Some q -> k' <> k /\ ptrs w k' = Some q).
    { intros k' q E. destruct (Nat.eq_dec k' k) as [->|Ne]; [rewrite upd_same in E; discriminate|rewrite upd_other in E by auto; auto]. }
    assert (Bc : forall b' l', upd (bufs w) b BGone b' = BLib l' -> b' <> b /\ bufs w b' = BLib l').
    { intros b' l' E. destruct (Nat.eq_dec b' b) as [->|Ne]; [rewrite upd_same in E; discriminate|rewrite upd_other in E by auto; auto]. }
    assert (Na : forall n, A n <> None -> inst n <> b).
    { intros n Hn En. specialize (Iar n). rewrite En in Iar. destruct (A n) as [[l1|]|]; try congruence; destruct Iar as (_ & Hx & _); congruence. }
    constructor; simpl; auto.
    + intros u. destruct (opt_dec u t) as [->|Ne]; [now rewrite !updo_same|]. rewrite !updo_other by auto.
      specialize (Ish u). destruct (M u) as [o'|] eqn:Mu, (C u) as [d|]; auto.
      assert (Nk : forall k', strat_ o' = Some k' -> k' <> k).
      { intros k' H' ->. apply Ne. exact (Ist _ _ _ _ k Mu Mt H' eq_refl). }
      destruct d; simpl in *; auto.
      * destruct Ish as (k' & b' & -> & H1 & H2 & H3 & H4 & H5). exists k', b'.
        assert (N1 := Nk k' eq_refl). rewrite (upd_other _ _ N1). rewrite upd_other; [auto 8|].
        intros ->. apply N1. eapply Ibu; eauto.
      * destruct Ish as (k' & -> & H1 & H2). exists k'. rewrite (upd_other _ _ (Nk k' eq_refl)). auto.
      * destruct Ish as (k' & -> & H1 & H2). exists k'. rewrite (upd_other _ _ (Nk k' eq_refl)). auto.
    + intros u v o1 o2 k' Hu Hv.
      destruct (opt_dec u t) as [->|Nu]; [rewrite updo_same in Hu; discriminate|]. destruct (opt_dec v t) as [->|Nv]; [rewrite updo_same in Hv; discriminate|].
      rewrite updo_other in Hu, Hv by auto. apply (Ist _ _ _ _ _ Hu Hv).
    + intros k1 k2 b' off off' l' H1 H2 Hb. destruct (Pc _ _ H1) as [_ P1], (Pc _ _ H2) as [_ P2], (Bc _ _ Hb) as [_ Hb']. eapply Ibu; eauto.
    + intros b' l' Hb. destruct (Bc _ _ Hb) as [Nb Hb']. destruct (Iow b' l' Hb') as (u & o1 & k' & H1 & H2 & H3 & H4). exists u, o1, k'.
      assert (k' <> k) by congruence. rewrite (upd_other _ _ H). rewrite updo_other; [auto|]. intros ->. rewrite Mt in H1. injection H1 as <-. simpl in H3. congruence.
    + intros k' b' off E. apply Pc in E. destruct E as [_ E]. eapply Ipt; eauto.
    + intros b' Hb'. unfold upd. destruct (b' =? b); auto.
    + intros k' Hk'. unfold upd. destruct (k' =? k); auto.
    + intros n. specialize (Iar n). specialize (Na n). destruct (A n) as [[l1|]|]; rewrite ?upd_other by (apply Na; discriminate); auto.
  - destruct Sh as (k & -> & P & Hk). cbn [dest_ strat_]. unfold deallocate. rewrite P.
    exists w. split; [reflexivity|]. split; [reflexivity|]. apply (Inv_drop I Mt). simpl. congruence.
  - destruct Sh as (k & -> & P). exists w. split; [reflexivity|]. split; [reflexivity|]. apply (Inv_drop I Mt). simpl. discriminate.
Qed.
Lemma Inv_gone M w C A inst t : Inv M w C A inst -> M t = None -> Inv (updo M t (Some moved)) w (updo C t (Some Gone)) A inst.
Proof.
  intros I Mt. inv I. constructor; auto.
  - intros u. destruct (opt_dec u t) as [->|Ne]; [rewrite !updo_same; reflexivity|]. rewrite !updo_other by auto. apply Ish.
  - intros u v o1 o2 k Hu Hv Ku Kv.
    destruct (opt_dec u t) as [->|Nu]; [rewrite updo_same in Hu; injection Hu as <-; discriminate|].
    destruct (opt_dec v t) as [->|Nv]; [rewrite updo_same in Hv; injection Hv as <-; discriminate|].
    rewrite updo_other in Hu, Hv by auto. apply (Ist _ _ _ _ _ Hu Hv Ku Kv).
  - intros b l Hb. destruct (Iow b l Hb) as (u & o1 & k & H1 & H2 & H3 & H4). exists u, o1, k. rewrite updo_other by congruence. auto.
Qed.
(** Exchanging two names. *)
Definition exch (t u v : option nat) : option nat := if opt_dec v t then u else if opt_dec v u then t else v.
Lemma exch_exch t u v : exch t u (exch t u v) = v.
Proof. unfold exch. repeat destruct (opt_dec _ _); congruence. Qed.
Lemma Inv_exch M w C A inst t u : Inv M w C A inst -> Inv (fun v => M (exch t u v)) w (fun v => C (exch t u v)) A inst.
Proof.
  intros I. inv I. constructor; auto.
  - intros v. apply Ish.
  - intros v v' o o' k H H' K K'. assert (E := Ist _ _ _ _ _ H H' K K'). apply (f_equal (exch t u)) in E. now rewrite !exch_exch in E.
  - intros b l Hb. destruct (Iow b l Hb) as (v & o & k & H). exists (exch t u v), o, k. now rewrite exch_exch.
Qed.

(** *** The constructors *)
Lemma pos2 r c : (0 <? r) && (0 <? c) = true -> 0 < r * c.
Proof. rewrite andb_true_iff, !Nat.ltb_lt. nia. Qed.
Lemma Inv_new_empty M w C A inst t r c : Inv M w C A inst -> M t = None -> 0 < r * c ->
  Inv (updo M t (Some (Obj r c (Some (n_strats w)) true))) (snd (new_strat w)) (updo C t (Some (Empty r c))) A inst.
Proof.
  intros I Mt Pos. assert (I' := @Inv_add M w C A inst t r c None true I Mt Pos (fun _ => eq_refl) Logic.I).
  revert I'. apply Inv_core. repeat split; auto. simpl. intros k. unfold upd. destruct (k =? n_strats w); reflexivity.
Qed.
Lemma construct_ok M w C A inst t r c : Inv M w C A inst -> M t = None -> (0 <? r) && (0 <? c) = true ->
  exists o w', construct zero w r c = Ok (o, w') /\ mats w' = mats w /\ (exists k b, o = Obj r c (Some k) true /\ ptrs w' k = Some (b, 0) /\ bufs w' b = BLib (repeat zero (r * c))) /\
    Inv (updo M t (Some o)) w' (updo C t (Some (Own r c (repeat zero (r * c))))) A inst.
Proof.
  intros I Mt Pos. assert (Pos' := pos2 Pos). assert (I1 := Inv_new_empty I Mt Pos'). unfold construct. cbn [new_strat snd] in *. rewrite Pos. cbn [then_ check].
  destruct (Inv_alloc I1 (t := t) (k := n_strats w) (r := r) (c := c)) as (w2 & E & Em & _ & Ep & Eb & _ & _ & I2); [apply updo_same|apply updo_same|auto|].
  rewrite E. cbn [then_]. do 2 eexists. split; [reflexivity|]. split; [exact Em|]. split; [do 2 eexists; eauto|].
  revert I2. apply Inv_ext; [reflexivity|]. intros u. destruct (opt_dec u t) as [->|Ne]; [now rewrite !updo_same|]. now rewrite !updo_other.
Qed.
Lemma Inv_reown M w w' C A inst t r c l l' k b :
  Inv M w (updo C t (Some (Own r c l))) A inst -> M t = Some (Obj r c (Some k) true) -> ptrs w k = Some (b, 0) ->
  only b w w' -> bufs w' b = BLib l' -> length l' = length l -> Inv M w' (updo C t (Some (Own r c l'))) A inst.
Proof.
  intros I Mt P O Hb Len. assert (I' := Inv_own I Mt (updo_same _ _ _) P O Hb Len). revert I'. apply Inv_ext; [reflexivity|].
  intros u. destruct (opt_dec u t) as [->|Ne]; [now rewrite !updo_same|]. now rewrite !updo_other.
Qed.
Lemma construct_fill_ok M w C A inst t r c v : Inv M w C A inst -> M t = None -> (0 <? r) && (0 <? c) = true ->
  exists o w', construct_fill zero w r c v = Ok (o, w') /\ mats w' = mats w /\ Inv (updo M t (Some o)) w' (updo C t (Some (Own r c (repeat v (r * c))))) A inst.
Proof.
  intros I Mt Pos. destruct (construct_ok I Mt Pos) as (o & w1 & E & Em & (k & b & Eo & Pk & Bb) & I1). unfold construct_fill. rewrite E. cbn [then_ fst snd].
  assert (Ep : matrix_ptr w1 o = Some (b, 0)) by (subst o; exact Pk). rewrite Ep.
  destruct (@fill_ok w1 b 0 (r * c) v 0 [] (repeat zero (r * c)) []) as (w2 & E2 & O2 & B2); [unfold at_buf; rewrite Bb; simpl; now rewrite app_nil_r|reflexivity|apply repeat_length|].
  rewrite E2. do 2 eexists. split; [reflexivity|]. split; [destruct O2 as (-> & _); exact Em|].
  rewrite Bb in B2. simpl in B2. rewrite app_nil_r in B2. subst o.
  eapply Inv_reown; [exact I1|apply updo_same|exact Pk|exact O2|exact B2|now rewrite !repeat_length].
Qed.
Lemma construct_view_ok M w C A inst t r c p : Inv M w C A inst -> M t = None -> (0 <? r) && (0 <? c) = true ->
  match p with Some (n, _) => exists l, A n = Some (Live l) | None => True end ->
  exists o w', construct_view w r c (place inst p) = Ok (o, w') /\ mats w' = mats w /\ Inv (updo M t (Some o)) w' (updo C t (Some (View r c p))) A inst.
Proof.
  intros I Mt Pos L. unfold construct_view. cbn [new_strat]. rewrite Pos. cbn. do 2 eexists. split; [reflexivity|]. split; [reflexivity|].
  exact (@Inv_add M w C A inst t r c p false I Mt (pos2 Pos) (fun E => False_ind _ (diff_false_true E)) L).
Qed.
Lemma nth_skipn (l : list T) n i : nth_error (skipn n l) i = nth_error l (n + i).
Proof. revert l. induction n as [|n IH]; intros l; simpl; [reflexivity|]. destruct l; [now destruct i|apply IH]. Qed.
Lemma nth_firstn (l : list T) n i : i < n -> nth_error (firstn n l) i = nth_error l i.
Proof. revert l i. induction n as [|n IH]; intros l i H; [lia|]. destruct l; [reflexivity|]. destruct i; [reflexivity|]. simpl. apply IH. lia. Qed.

(** Where the entries of a matrix are. *)
Lemma entries_at M w C a inst t o d l : Inv M w C (arrs a) inst -> M t = Some o -> C t = Some d -> entries a d = Some l ->
  exists r c k b off ls, shape d = Some (r, c) /\ rows_ o = r /\ cols_ o = c /\ strat_ o = Some k /\ k < n_strats w /\ ptrs w k = Some (b, off) /\ b < n_bufs w /\ at_buf w b ls /\
    length l = r * c /\ off + r * c <= length ls /\ (forall j, j < r * c -> nth_error ls (off + j) = nth_error l j) /\
    match d with
    | Own _ _ _ => bufs w b = BLib l /\ off = 0 /\ dest_ o = true
    | View _ _ (Some (n, off')) => off' = off /\ b = inst n /\ arrs a n = Some (Live ls) /\ bufs w b = BUser ls /\ l = firstn (r * c) (skipn off ls)
    | _ => False end.
Proof.
  intros I Mt Ct En. assert (Sh := i_shows I t). rewrite Mt, Ct in Sh. destruct d as [|r c l0|r c|r c p]; try discriminate; simpl in Sh, En.
  - injection En as <-. destruct Sh as (k & b & -> & P & Hb & Len & Pos & Hk). exists r, c, k, b, 0, l0. simpl.
    repeat split; auto; [eapply (i_ptr I); eauto|unfold at_buf; now rewrite Hb|lia].
  - destruct p as [[n off]|]; [|discriminate]. destruct (arrs a n) as [[ls|]|] eqn:An; try discriminate.
    destruct (Nat.leb_spec (off + r * c) (length ls)); [|discriminate]. injection En as <-.
    destruct Sh as (k & -> & P & Pos & Hk & _). assert (Ar := i_arr I n). rewrite An in Ar. destruct Ar as (A1 & A2 & A3).
    exists r, c, k, (inst n), off, ls. simpl. repeat split; auto.
    + unfold at_buf. now rewrite A2.
    + rewrite firstn_length, skipn_length. lia.
    + intros j Hj. rewrite nth_firstn by auto. now rewrite nth_skipn.
Qed.
Lemma with_lib (x : buffer T) l l' : x = BLib l -> with_contents x l' = BLib l'.
Proof. now intros ->. Qed.

Lemma construct_copy_ok M w C a inst t u o d d' : Inv M w C (arrs a) inst -> M t = Some o -> C t = Some d -> copied a d = Some d' -> M u = None ->
  exists o' w', construct_copy zero w o = Ok (o', w') /\ mats w' = mats w /\ Inv (updo M u (Some o')) w' (updo C u (Some d')) (arrs a) inst.
Proof.
  intros I Mt Ct Cp Mu. unfold construct_copy.
  assert (Null : forall r c k, o = Obj r c (Some k) (dest_ o) -> ptrs w k = None -> k < n_strats w -> 0 < r * c ->
     exists o' w', match strat_ o with
        | Some _ => let '(k, w1) := new_strat w in let o0 := Obj (rows_ o) (cols_ o) (Some k) true in
            match matrix_ptr w1 o with
            | Some _ => then_ (allocate zero w1 k (rows_ o * cols_ o)) (fun w2 => then_ (std_copy w2 (matrix_ptr w2 o) (matrix_ptr w2 o0) (rows_ o * cols_ o)) (fun w3 => Ok (o0, w3)))
            | None => Ok (o0, w1) end
        | None => Undefined end = Ok (o', w') /\ mats w' = mats w /\ Inv (updo M u (Some o')) w' (updo C u (Some (Empty r c))) (arrs a) inst).
  { intros r c k E P Hk Pos. rewrite E. cbn [strat_ new_strat rows_ cols_ matrix_ptr ptrs]. rewrite upd_other by lia. rewrite P.
    do 2 eexists. split; [reflexivity|]. split; [reflexivity|]. now apply Inv_new_empty. }
  assert (Full : forall l r c, entries a d = Some l -> shape d = Some (r, c) -> 
     exists o' w', match strat_ o with
        | Some _ => let '(k, w1) := new_strat w in let o0 := Obj (rows_ o) (cols_ o) (Some k) true in
            match matrix_ptr w1 o with
            | Some _ => then_ (allocate zero w1 k (rows_ o * cols_ o)) (fun w2 => then_ (std_copy w2 (matrix_ptr w2 o) (matrix_ptr w2 o0) (rows_ o * cols_ o)) (fun w3 => Ok (o0, w3)))
            | None => Ok (o0, w1) end
        | None => Undefined end = Ok (o', w') /\ mats w' = mats w /\ Inv (updo M u (Some o')) w' (updo C u (Some (Own r c l))) (arrs a) inst).
  { intros l r c En Shp. destruct (entries_at I Mt Ct En) as (r' & c' & k & b & off & ls & Shp' & R & Cc & K & Hk & P & Hb & At & Len & Le & Nth & Rest).
    rewrite Shp in Shp'. injection Shp' as <- <-.
    assert (Pos : 0 < r * c).
    { assert (Sh := i_shows I t). rewrite Mt, Ct in Sh. destruct d; simpl in Sh; try contradiction; simpl in Shp; injection Shp as -> ->.
      - destruct Sh as (? & ? & _ & _ & _ & _ & H & _). exact H.
      - destruct Sh as (? & _ & _ & H & _). exact H. }
    rewrite K, R, Cc. assert (I1 := Inv_new_empty I Mu Pos). cbn [new_strat snd] in *. unfold matrix_ptr at 1. rewrite K. cbn [ptrs]. rewrite upd_other by lia. rewrite P.
    destruct (Inv_alloc I1 (t := u) (k := n_strats w) (r := r) (c := c)) as (w2 & E & Em & _ & Ep & Eb & Eo & Ek & I2); [apply updo_same|apply updo_same|auto|].
    rewrite E. cbn [then_]. cbn [n_bufs mats ptrs bufs] in *.
    assert (Ep2 : matrix_ptr w2 o = Some (b, off)) by (unfold matrix_ptr; rewrite K, Ek by lia; rewrite upd_other by lia; exact P).
    assert (Ep3 : matrix_ptr w2 (Obj r c (Some (n_strats w)) true) = Some (n_bufs w, 0)) by exact Ep.
    rewrite Ep2, Ep3. unfold std_copy, inside. assert (Nb : b <> n_bufs w) by lia. apply Nat.eqb_neq in Nb. rewrite Nb. cbn [andb]. apply Nat.eqb_neq in Nb.
    destruct (@copy_ok w2 (n_bufs w) 0 (r * c) 0 b off ls l [] (repeat zero (r * c)) []) as (w3 & E3 & O3 & B3); auto.
    - unfold at_buf. rewrite Eo by auto. exact At.
    - unfold at_buf. rewrite Eb. simpl. now rewrite app_nil_r.
    - apply repeat_length.
    - rewrite E3. cbn [then_]. do 2 eexists. split; [reflexivity|]. split; [destruct O3 as (-> & _); exact Em|].
      rewrite Eb in B3. simpl in B3. rewrite app_nil_r in B3.
      assert (I2' : Inv (updo M u (Some (Obj r c (Some (n_strats w)) true))) w2 (updo C u (Some (Own r c (repeat zero (r * c))))) (arrs a) inst).
      { revert I2. apply Inv_ext; [reflexivity|]. intros v. destruct (opt_dec v u) as [->|Ne]; [now rewrite !updo_same|]. now rewrite !updo_other. }
      eapply Inv_reown; [exact I2'|apply updo_same|exact Ep|exact O3|exact B3|rewrite repeat_length; exact Len]. }
  assert (Sh := i_shows I t). rewrite Mt, Ct in Sh. destruct d as [|r c l|r c|r c p].
  - discriminate.
  - simpl in Cp. injection Cp as <-. now apply Full.
  - simpl in Cp. injection Cp as <-. simpl in Sh. destruct Sh as (k & E & P & Pos & Hk). apply (Null r c k); auto. now rewrite E.
  - destruct p as [p|].
    + cbn [copied] in Cp. destruct (entries a (View r c (Some p))) as [l|] eqn:En; [|discriminate]. injection Cp as <-. now apply Full.
    + simpl in Cp. injection Cp as <-. simpl in Sh. destruct Sh as (k & E & P & Pos & Hk & _). apply (Null r c k); auto. now rewrite E.
Qed.

(** *** Statements *)
(** The objects of the program, but for one hidden name. *)
Definition vis (h : option nat) w : option nat -> option object :=
  fun t => match t with Some x => if match h with Some y => x =? y | None => false end then None else mats w x | None => None end.
Definition lift (f : nat -> option cell) : option nat -> option cell := fun t => match t with Some x => f x | None => None end.
Definition good (h : option nat) w (a : memory) inst : Prop := Inv (vis h w) w (lift (cells a)) (arrs a) inst.
Lemma vis_upd h w w' x o : mats w' = upd (mats w) x o -> h <> Some x -> forall t, updo (vis h w) (Some x) o t = vis h w' t.
Proof.
  intros E N [z|]; simpl; [|reflexivity]. rewrite E. unfold upd. destruct (Nat.eqb_spec z x) as [->|]; [|reflexivity].
  destruct h as [y|]; [|reflexivity]. destruct (Nat.eqb_spec x y); [congruence|reflexivity].
Qed.
Lemma vis_same h w w' : mats w' = mats w -> forall t, vis h w t = vis h w' t.
Proof. intros E [z|]; simpl; [now rewrite E|reflexivity]. Qed.
Lemma lift_upd (f g : nat -> option cell) x d : g = upd f x d -> forall t, updo (lift f) (Some x) d t = lift g t.
Proof. intros -> [z|]; simpl; reflexivity. Qed.
Lemma vis_at h w x : h <> Some x -> vis h w (Some x) = mats w x.
Proof. intros N. simpl. destruct h as [y|]; [|reflexivity]. destruct (Nat.eqb_spec x y); [congruence|reflexivity]. Qed.
Lemma good_at h w a inst x : good h w a inst -> h <> Some x ->
  match mats w x, cells a x with None, None => True | Some o, Some d => shows w (arrs a) inst o d | _, _ => False end.
Proof. intros I N. generalize (i_shows I (Some x)). now rewrite (vis_at w N). Qed.
Lemma good_some h w a inst x d : good h w a inst -> h <> Some x -> cells a x = Some d -> exists o, mats w x = Some o /\ shows w (arrs a) inst o d.
Proof. intros I N E. generalize (good_at I N). rewrite E. destruct (mats w x); [eauto|contradiction]. Qed.
Lemma good_none h w a inst x : good h w a inst -> h <> Some x -> cells a x = None -> mats w x = None.
Proof. intros I N E. generalize (good_at I N). rewrite E. destruct (mats w x); [contradiction|auto]. Qed.

Lemma resolve_ok h w a inst p q : good h w a inst -> source a p = Some q ->
  resolve w p = Ok (place inst q) /\ match q with Some (n, _) => exists l, arrs a n = Some (Live l) | None => True end.
Proof.
  intros I. destruct p as [|n off]; simpl; [intros E; injection E as <-; auto|]. destruct (arrs a n) as [[l|]|] eqn:An; try discriminate.
  intros E. injection E as <-. assert (Ar := i_arr I n). rewrite An in Ar. destruct Ar as (-> & _). split; eauto.
Qed.
Lemma declare_ok h w a inst x r (c : res (object * world)) d : good h w a inst -> h <> Some x -> new_cell a x d = Some r ->
  (vis h w (Some x) = None -> exists o w', c = Ok (o, w') /\ mats w' = mats w /\ Inv (updo (vis h w) (Some x) (Some o)) w' (updo (lift (cells a)) (Some x) (Some d)) (arrs a) inst) ->
  exists w', declare x c = Ok w' /\ (forall z, z <> x -> mats w' z = mats w z) /\ good h w' r inst.
Proof.
  intros I N E H. unfold new_cell in E. destruct (cells a x) eqn:Cx; [discriminate|]. injection E as <-.
  assert (Mx := good_none I N Cx). destruct H as (o & w1 & -> & Em & I1); [now rewrite vis_at|].
  unfold declare. cbn [then_ snd fst]. rewrite Em, Mx. eexists. split; [reflexivity|].
  split; [intros z Hz; simpl; rewrite Em; now apply upd_other|].
  unfold good. eapply Inv_core; [apply core_mat|]. revert I1. apply Inv_ext.
  - apply vis_upd; [simpl; now rewrite Em|auto].
  - now apply lift_upd.
Qed.

Ltac hid := intros ->; match goal with H : forall x, Some _ = Some x -> _ |- _ => apply (H _ eq_refl); simpl; auto end.
Theorem step_ok h w a inst s a' : good h w a inst -> step zero a s = Some a' -> (forall x, h = Some x -> ~ In x (mentions s)) ->
  exists w' inst', exec zero w s = Ok w' /\ good h w' a' inst' /\ (forall z, ~ In z (changes s) -> mats w' z = mats w z).
Proof.
  intros I E Hid.
  assert (Out : forall x z : nat, ~ In z [x] -> z <> x) by (simpl; intros x z Hz ->; auto).
  destruct s; cbn [step exec mentions changes] in *.
  - (* SNew *)
    assert (N : h <> Some x) by hid. destruct ((0 <? r) && (0 <? c)) eqn:Pos; [|discriminate].
    destruct (declare_ok (c := construct zero w r c) I N E) as (w' & E1 & F & G).
    { intros Mt. destruct (construct_ok I Mt Pos) as (o & w' & H1 & H2 & _ & H3). eauto. }
    exists w', inst. auto.
  - (* SFill *)
    assert (N : h <> Some x) by hid. destruct ((0 <? r) && (0 <? c)) eqn:Pos; [|discriminate].
    destruct (declare_ok (c := construct_fill zero w r c v) I N E) as (w' & E1 & F & G).
    { intros Mt. destruct (construct_fill_ok v I Mt Pos) as (o & w' & H1 & H2 & H3). eauto. }
    exists w', inst. auto.
  - (* SView *)
    assert (N : h <> Some x) by hid. destruct ((0 <? r) && (0 <? c)) eqn:Pos; [|discriminate].
    destruct (source a p) as [q|] eqn:Sq; [|discriminate]. destruct (resolve_ok I Sq) as (-> & L). cbn [then_].
    destruct (declare_ok (c := construct_view w r c (place inst q)) I N E) as (w' & E1 & F & G).
    { intros Mt. destruct (construct_view_ok I Mt Pos L) as (o & w' & H1 & H2 & H3). eauto. }
    exists w', inst. auto.
  - (* SCopy *)
    assert (N : h <> Some x) by hid. assert (Ny : h <> Some y) by hid.
    destruct (cells a y) as [d|] eqn:Cy; [|discriminate]. destruct (copied a d) as [d'|] eqn:Cd; [|discriminate].
    destruct (good_some I Ny Cy) as (o & My & _). unfold alive. rewrite My. cbn [then_].
    destruct (declare_ok (c := construct_copy zero w o) I N E) as (w' & E1 & F & G).
    { intros Mt. destruct (@construct_copy_ok (vis h w) w (lift (cells a)) a inst (Some y) (Some x) o d d' I) as (o' & w' & H1 & H2 & H3); auto; [now rewrite vis_at|]. eauto. }
    exists w', inst. split; [exact E1|]. split; [exact G|]. intros z Hz. apply F. intros ->. apply Hz. simpl. auto.
  - (* SMove *)
    assert (N : h <> Some x) by hid. assert (Ny : h <> Some y) by hid.
    destruct (cells a y) as [d|] eqn:Cy; [|discriminate]. destruct (cells a x) eqn:Cx; [discriminate|]. injection E as <-.
    destruct (good_some I Ny Cy) as (o & My & _). assert (Mx := good_none I N Cx).
    assert (Nxy : x <> y) by congruence.
    unfold alive. rewrite My. cbn [then_]. unfold declare. cbn [then_ fst snd]. cbn [set_mat mats]. rewrite upd_other by auto. rewrite Mx.
    eexists. exists inst. split; [reflexivity|]. split.
    + unfold good. apply Inv_core with (w := w); [repeat split|].
      assert (I1 := Inv_exch (Some x) (Some y) I). apply (Inv_gone (t := Some y)) in I1.
      2: { unfold exch. destruct (opt_dec (Some y) (Some x)); [congruence|]. destruct (opt_dec (Some y) (Some y)); [|congruence]. now rewrite vis_at. }
      revert I1. apply Inv_ext; intros [z|]; try reflexivity.
      * destruct (Nat.eq_dec z y) as [->|Nz].
        { rewrite updo_same. rewrite vis_at by auto. simpl. rewrite upd_other by auto. now rewrite upd_same. }
        rewrite updo_other by congruence. unfold exch. destruct (opt_dec (Some z) (Some x)) as [Ez|Nzx].
        { injection Ez as ->. rewrite !vis_at by auto. simpl. rewrite upd_same. now rewrite My. }
        destruct (opt_dec (Some z) (Some y)); [congruence|]. simpl. rewrite !upd_other by congruence. reflexivity.
      * destruct (Nat.eq_dec z y) as [->|Nz].
        { rewrite updo_same. simpl. rewrite upd_other by auto. now rewrite upd_same. }
        rewrite updo_other by congruence. unfold exch. destruct (opt_dec (Some z) (Some x)) as [Ez|Nzx].
        { injection Ez as ->. simpl. rewrite upd_same. now rewrite Cy. }
        destruct (opt_dec (Some z) (Some y)); [congruence|]. simpl. rewrite !upd_other by congruence. reflexivity.
    + intros z Hz. simpl in *. rewrite !upd_other; auto.
  - (* SAssign *)
    assert (N : h <> Some x) by hid. assert (Ny : h <> Some y) by hid.
    destruct (cells a x) as [dx|] eqn:Cx; [|discriminate]. destruct (cells a y) as [d|] eqn:Cy; [|discriminate].
    destruct (copied a d) as [d'|] eqn:Cd; [|discriminate]. injection E as <-.
    destruct (good_some I Ny Cy) as (o & My & _). destruct (good_some I N Cx) as (ox & Mx & _).
    unfold alive. rewrite My, Mx. cbn [then_].
    destruct (@construct_copy_ok (vis h w) w (lift (cells a)) a inst (Some y) None o d d' I) as (o' & w1 & H1 & H2 & H3); auto; [now rewrite vis_at|].
    rewrite H1. cbn [then_ fst snd]. apply (Inv_exch None (Some x)) in H3. apply (Inv_core (core_mat w1 x (Some o'))) in H3.
    destruct (Inv_destroy (t := None) (o := ox) H3) as (w2 & E2 & Em & I2).
    { unfold exch. destruct (opt_dec None None); [|congruence]. rewrite updo_other by congruence. now rewrite vis_at. }
    exists w2, inst. split; [exact E2|]. split.
    + unfold good. revert I2. apply Inv_ext; intros [z|]; try reflexivity.
      * rewrite updo_other by congruence. unfold exch. destruct (opt_dec (Some z) None); [congruence|]. destruct (opt_dec (Some z) (Some x)) as [Ez|Nz].
        { injection Ez as ->. rewrite updo_same. rewrite vis_at by auto. rewrite Em. simpl. now rewrite upd_same. }
        rewrite updo_other by congruence. simpl. rewrite Em. simpl. rewrite H2, upd_other by congruence. reflexivity.
      * rewrite updo_other by congruence. unfold exch. destruct (opt_dec (Some z) None); [congruence|]. destruct (opt_dec (Some z) (Some x)) as [Ez|Nz].
        { injection Ez as ->. rewrite updo_same. simpl. now rewrite upd_same. }
        rewrite updo_other by congruence. simpl. rewrite upd_other by congruence. reflexivity.
    + intros z Hz. rewrite Em. simpl in *. rewrite H2. apply upd_other. auto.
  - (* SMoveAssign *)
    assert (N : h <> Some x) by hid. assert (Ny : h <> Some y) by hid.
    destruct (cells a x) as [dx|] eqn:Cx; [|discriminate]. destruct (cells a y) as [d|] eqn:Cy; [|discriminate]. injection E as <-.
    destruct (good_some I Ny Cy) as (o & My & _). destruct (good_some I N Cx) as (ox & Mx & _).
    unfold alive at 1. rewrite My. cbn [then_]. unfold alive. cbn [set_mat mats].
    destruct (Nat.eq_dec x y) as [<-|Nxy].
    + rewrite upd_same. cbn [then_]. unfold destruct_. cbn. eexists. exists inst. split; [reflexivity|]. split.
      * unfold good. apply Inv_core with (w := w); [repeat split|]. revert I. apply Inv_ext; intros [z|]; try reflexivity.
        { simpl. unfold upd. destruct (Nat.eqb_spec z x) as [->|]; [now rewrite My|reflexivity]. }
        { simpl. unfold upd. destruct (Nat.eqb_spec z x) as [->|]; [now rewrite Cy|reflexivity]. }
      * intros z Hz. simpl in *. rewrite !upd_other by auto. reflexivity.
    + rewrite upd_other by auto. rewrite Mx. cbn [then_].
      assert (I1 : Inv (vis h w) (set_mat (set_mat w y (Some moved)) x (Some o)) (lift (cells a)) (arrs a) inst) by (eapply Inv_core; [|exact I]; repeat split).
      destruct (Inv_destroy (t := Some x) (o := ox) I1) as (w2 & E2 & Em & I2); [now rewrite vis_at|].
      exists w2, inst. split; [exact E2|]. split.
      * apply (Inv_exch (Some x) (Some y)) in I2. apply (Inv_gone (t := Some y)) in I2.
        2: { unfold exch. destruct (opt_dec (Some y) (Some x)); [congruence|]. destruct (opt_dec (Some y) (Some y)); [|congruence]. apply updo_same. }
        revert I2. apply Inv_ext; intros [z|]; try reflexivity.
        { destruct (Nat.eq_dec z y) as [->|Nz].
          { rewrite updo_same. rewrite vis_at by auto. rewrite Em. simpl. rewrite upd_other by auto. now rewrite upd_same. }
          rewrite updo_other by congruence. unfold exch. destruct (opt_dec (Some z) (Some x)) as [Ez|Nzx].
          { injection Ez as ->. rewrite updo_other by congruence. rewrite !vis_at by auto. rewrite Em. simpl. rewrite upd_same. now rewrite My. }
          destruct (opt_dec (Some z) (Some y)); [congruence|]. rewrite updo_other by congruence. simpl. rewrite Em. simpl. rewrite !upd_other by congruence. reflexivity. }
        { destruct (Nat.eq_dec z y) as [->|Nz].
          { rewrite updo_same. simpl. rewrite upd_other by auto. now rewrite upd_same. }
          rewrite updo_other by congruence. unfold exch. destruct (opt_dec (Some z) (Some x)) as [Ez|Nzx].
          { injection Ez as ->. rewrite updo_other by congruence. simpl. rewrite upd_same. now rewrite Cy. }
          destruct (opt_dec (Some z) (Some y)); [congruence|]. rewrite updo_other by congruence. simpl. rewrite !upd_other by congruence. reflexivity. }
      * intros z Hz. rewrite Em. simpl in *. rewrite !upd_other by auto. reflexivity.
  - discriminate.
  - (* SDestroy *)
    assert (N : h <> Some x) by hid. destruct (cells a x) as [d|] eqn:Cx; [|discriminate]. injection E as <-.
    destruct (good_some I N Cx) as (o & Mx & _). unfold alive. rewrite Mx. cbn [then_].
    apply (Inv_core (core_mat w x None)) in I. destruct (Inv_destroy (t := Some x) (o := o) I) as (w2 & E2 & Em & I2); [now rewrite vis_at|].
    exists w2, inst. split; [exact E2|]. split.
    + unfold good. revert I2. apply Inv_ext; [apply vis_upd; [exact Em|auto]|now apply lift_upd].
    + intros z Hz. rewrite Em. apply upd_other. auto.
  - (* SWrite *)
    assert (N : h <> Some x) by hid. destruct (cells a x) as [d|] eqn:Cx; [|discriminate].
    destruct (good_some I N Cx) as (o & Mx & Sh). unfold alive. rewrite Mx. cbn [then_].
    destruct d as [|r c l|r c|r c [[n off]|]]; try discriminate.
    + destruct ((i <? r) && (j <? c)) eqn:Ib; [|discriminate]. injection E as <-.
      simpl in Sh. destruct Sh as (k & b & -> & P & Hb & Len & Pos & Hk). cbn [rows_ cols_ matrix_ptr strat_]. rewrite Ib. cbn [check then_]. rewrite P.
      apply andb_true_iff in Ib. rewrite !Nat.ltb_lt in Ib.
      destruct (@poke_at w b l 0 (i * c + j) v) as (w' & E1 & O1 & B1 & _); [unfold at_buf; now rewrite Hb|rewrite Len; nia|].
      exists w', inst. split; [exact E1|]. split; [|intros z _; now destruct O1 as (-> & _)].
      unfold good. rewrite Hb in B1. simpl in B1. eapply Inv_ext; [apply vis_same, O1|apply lift_upd; reflexivity|].
      eapply Inv_own; [exact I|rewrite vis_at by auto; exact Mx|exact Cx|exact P|exact O1|exact B1|apply list_set_len].
    + destruct (arrs a n) as [[l|]|] eqn:An; try discriminate.
      destruct ((i <? r) && (j <? c) && (off + (i * c + j) <? length l)) eqn:Ib; [|discriminate]. injection E as <-.
      simpl in Sh. destruct Sh as (k & -> & P & Pos & Hk & _). cbn [rows_ cols_ matrix_ptr strat_]. rewrite !andb_true_iff in Ib. destruct Ib as [[I1 I2] I3].
      rewrite I1, I2. cbn [andb check then_]. rewrite P. cbn [place]. apply Nat.ltb_lt in I3.
      assert (Ar := i_arr I n). rewrite An in Ar. destruct Ar as (A1 & A2 & A3).
      destruct (@poke_at w (inst n) l off (i * c + j) v) as (w' & E1 & O1 & B1 & _); [unfold at_buf; now rewrite A2|auto|].
      exists w', inst. split; [exact E1|]. split; [|intros z _; now destruct O1 as (-> & _)].
      unfold good. rewrite A2 in B1. simpl in B1. eapply Inv_ext; [apply vis_same, O1|reflexivity|]. eapply Inv_arr; eauto.
  - (* SSetPtr *)
    assert (N : h <> Some x) by hid. destruct (cells a x) as [d|] eqn:Cx; [|discriminate]. destruct d as [|r c l|r c|r c p0]; try discriminate.
    destruct (source a p) as [q|] eqn:Sq; [|discriminate]. injection E as <-. destruct (resolve_ok I Sq) as (-> & L). cbn [then_].
    destruct (good_some I N Cx) as (o & Mx & Sh). unfold alive. rewrite Mx. cbn [then_]. simpl in Sh. destruct Sh as (k & -> & P & Pos & Hk & _).
    unfold set_matrix_ptr. cbn [dest_ negb check then_ strat_]. eexists. exists inst. split; [reflexivity|]. split; [|reflexivity].
    unfold good. apply (Inv_ext (M := vis h w) (C := updo (lift (cells a)) (Some x) (Some (View r c q)))); [reflexivity|now apply lift_upd|].
    assert (Mx' : vis h w (Some x) = Some (Obj r c (Some k) false)) by (now rewrite vis_at).
    assert (SB := fun u o k => @strat_bound (vis h w) w (lift (cells a)) (arrs a) inst u o k I).
    unfold good in I. inv I.
    assert (Pl : forall b off l, place inst q = Some (b, off) -> bufs w b = BLib l -> False).
    { intros b off l Ep Eb. destruct q as [[n o]|]; [|discriminate]. simpl in Ep. injection Ep as <- <-. destruct L as (l0 & Hl).
      specialize (Iar n). rewrite Hl in Iar. destruct Iar as (_ & Hx & _). congruence. }
    assert (Pc : forall k' z, upd (ptrs w) k (place inst q) k' = Some z -> (k' = k /\ place inst q = Some z) \/ (k' <> k /\ ptrs w k' = Some z)).
    { intros k' z Ez. destruct (Nat.eq_dec k' k) as [->|Ne]; [left; rewrite upd_same in Ez; auto|right; rewrite upd_other in Ez by auto; auto]. }
    constructor; cbn [set_ptr set_cell cells arrs mats ptrs n_strats bufs n_bufs arrays]; auto.
    + intros u. destruct (opt_dec u (Some x)) as [->|Ne].
      * rewrite Mx', updo_same. exists k. cbn [set_ptr ptrs n_strats]. rewrite upd_same. repeat split; auto. destruct q as [[n off]|]; auto. destruct L as (l & ->). discriminate.
      * rewrite updo_other by auto. specialize (Ish u). destruct (vis h w u) as [o|] eqn:Mu, (lift (cells a) u) as [d|]; auto.
        assert (Nk : forall k', strat_ o = Some k' -> k' <> k).
        { intros k' H' ->. apply Ne. exact (Ist _ _ _ _ k Mu Mx' H' eq_refl). }
        destruct d; simpl in *; auto.
        { destruct Ish as (k' & b' & -> & H1). exists k', b'. rewrite (upd_other _ _ (Nk k' eq_refl)). auto. }
        { destruct Ish as (k' & -> & H1). exists k'. rewrite (upd_other _ _ (Nk k' eq_refl)). auto. }
        { destruct Ish as (k' & -> & H1). exists k'. rewrite (upd_other _ _ (Nk k' eq_refl)). auto. }
    + intros k1 k2 b' off off' l' H1 H2 Hb. destruct (Pc _ _ H1) as [[-> P1]|[_ P1]], (Pc _ _ H2) as [[-> P2]|[_ P2]]; auto.
      * destruct (Pl _ _ _ P1 Hb).
      * destruct (Pl _ _ _ P2 Hb).
      * eapply Ibu; eauto.
    + intros b' l' Hb. destruct (Iow b' l' Hb) as (u & o1 & k' & H1 & H2 & H3 & H4). exists u, o1, k'.
      rewrite upd_other; [auto|]. intros ->. assert (u = Some x) by (exact (Ist _ _ _ _ k H1 Mx' H3 eq_refl)). subst u. rewrite Mx' in H1. injection H1 as <-. discriminate.
    + intros k' b' off Ez. destruct (Pc _ _ Ez) as [[_ P1]|[_ P1]]; [|eapply Ipt; eauto].
      destruct q as [[n o]|]; [|discriminate]. simpl in P1. injection P1 as <- <-. destruct L as (l0 & Hl). specialize (Iar n). rewrite Hl in Iar. tauto.
    + intros k' Hk'. rewrite upd_other by lia. auto.
  - (* SCopyData *)
    assert (N : h <> Some x) by hid. assert (Ny : h <> Some y) by hid.
    destruct (cells a x) as [d|] eqn:Cx; [|discriminate]. destruct (cells a y) as [d'|] eqn:Cy; [|discriminate].
    destruct (shape d) as [[r c]|] eqn:Sd; [|discriminate]. destruct (shape d') as [[r' c']|] eqn:Sd'; [|discriminate].
    destruct (entries a d) as [lx|] eqn:Ed; [|discriminate]. destruct (entries a d') as [l|] eqn:Ed'; [|discriminate].
    destruct ((r * c =? r' * c') && negb (x =? y) && negb (same_array d d')) eqn:Cond; [|discriminate].
    rewrite !andb_true_iff, !negb_true_iff in Cond. destruct Cond as [[Cn Cxy] Csa]. assert (Cn' := proj1 (Nat.eqb_eq _ _) Cn). apply Nat.eqb_neq in Cxy.
    destruct (good_some I Ny Cy) as (o' & My & _). destruct (good_some I N Cx) as (o & Mx & _). unfold alive. rewrite My, Mx. cbn [then_].
    assert (Mx' : vis h w (Some x) = Some o) by (now rewrite vis_at). assert (My' : vis h w (Some y) = Some o') by (now rewrite vis_at).
    destruct (entries_at (t := Some x) I Mx' Cx Ed) as (r1 & c1 & k & b & off & ls & S1 & R1 & C1 & K1 & Hk1 & P1 & Hb1 & At1 & Len1 & Le1 & Nth1 & Rest1).
    destruct (entries_at (t := Some y) I My' Cy Ed') as (r2 & c2 & k2 & b2 & off2 & ls2 & S2 & R2 & C2 & K2 & Hk2 & P2 & Hb2 & At2 & Len2 & Le2 & Nth2 & Rest2).
    rewrite Sd in S1. injection S1 as <- <-. rewrite Sd' in S2. injection S2 as <- <-.
    rewrite R1, C1, R2, C2, Cn. cbn [check then_]. unfold matrix_ptr. rewrite K1, K2, P1, P2.
    assert (Kn : k <> k2) by (intros ->; assert (Some x = Some y) by (exact (i_strat I Mx' My' K1 K2)); congruence).
    assert (Nb : b2 <> b).
    { intros ->. destruct d as [|? ? ?|?|? ? [[n1 f1]|]]; try contradiction; destruct d' as [|? ? ?|?|? ? [[n2 f2]|]]; try contradiction.
      - destruct Rest1 as (B1 & _). apply Kn. exact (i_buf I P1 P2 B1).
      - destruct Rest1 as (B1 & _), Rest2 as (_ & _ & _ & B2 & _). congruence.
      - destruct Rest2 as (B1 & _), Rest1 as (_ & _ & _ & B2 & _). congruence.
      - destruct Rest1 as (_ & -> & A1 & _), Rest2 as (_ & Ei & A2 & _). simpl in Csa. apply Nat.eqb_neq in Csa. apply Csa.
        apply (i_inst I); congruence. }
    unfold std_copy, inside. destruct (Nat.eqb_spec b2 b); [congruence|]. cbn [andb].
    destruct (@copy_ok w b off (r * c) 0 b2 off2 ls2 l (firstn off ls) (firstn (r * c) (skipn off ls)) (skipn (r * c) (skipn off ls))) as (w' & E1 & O1 & B1); auto.
    { unfold at_buf in *. rewrite firstn_skipn, firstn_skipn. exact At1. }
    { rewrite firstn_length. lia. }
    { rewrite firstn_length, skipn_length. lia. }
    { lia. }
    { simpl. rewrite Cn'. exact Nth2. }
    rewrite E1.
    assert (Spl : firstn off ls ++ l ++ skipn (r * c) (skipn off ls) = splice ls off l).
    { unfold splice. do 2 f_equal. rewrite Len2, <- Cn'. clear. revert ls. induction off as [|off IH]; intros ls; simpl; [reflexivity|]. destruct ls; [now rewrite skipn_nil|apply IH]. }
    rewrite Spl in B1.
    destruct d as [|r0 c0 l0|?|? ? [[n1 f1]|]]; try contradiction; try discriminate.
    + injection E as <-. simpl in Sd. injection Sd as -> ->. destruct Rest1 as (Bb & -> & D1). rewrite Bb in B1. simpl in B1.
      exists w', inst. split; [reflexivity|]. split; [|intros z _; now destruct O1 as (-> & _)].
      assert (El : splice ls 0 l = l).
      { unfold splice. simpl. unfold at_buf in At1. rewrite Bb in At1. simpl in At1. injection At1 as <-. rewrite skipn_all2 by lia. apply app_nil_r. }
      rewrite El in B1. unfold good. eapply Inv_ext; [apply vis_same, O1|apply lift_upd; reflexivity|].
      eapply Inv_own; [exact I| |exact Cx|exact P1|exact O1|exact B1|]; [rewrite Mx'; destruct o; simpl in *; congruence|]. simpl in Ed. injection Ed as <-. lia.
    + simpl in Sd. injection Sd as -> ->. destruct Rest1 as (-> & -> & An & Bb & _). rewrite An in E. injection E as <-. rewrite Bb in B1. simpl in B1.
      exists w', inst. split; [reflexivity|]. split; [|intros z _; now destruct O1 as (-> & _)].
      unfold good. eapply Inv_ext; [apply vis_same, O1|reflexivity|]. eapply Inv_arr; eauto.
  - (* SReshape *)
    assert (N : h <> Some x) by hid. destruct (cells a x) as [d|] eqn:Cx; [|discriminate]. destruct (reshaped d r c) as [d'|] eqn:Rd; [|discriminate]. injection E as <-.
    destruct (good_some I N Cx) as (o & Mx & Sh). unfold alive. rewrite Mx. cbn [then_].
    assert (D : (r * c =? rows_ o * cols_ o) = true /\ shows w (arrs a) inst (Obj r c (strat_ o) (dest_ o)) d').
    { destruct d as [|r0 c0 l|r0 c0|r0 c0 p]; simpl in Rd; try discriminate; destruct (Nat.eqb_spec (r * c) (r0 * c0)) as [Er|]; try discriminate; injection Rd as <-; simpl in Sh.
      - destruct Sh as (k & b & -> & P & Hb & Len & Pos & Hk). cbn [rows_ cols_ strat_ dest_]. split; [now apply Nat.eqb_eq|]. exists k, b. repeat split; auto; lia.
      - destruct Sh as (k & -> & P & Pos & Hk). cbn [rows_ cols_ strat_ dest_]. split; [now apply Nat.eqb_eq|]. exists k. repeat split; auto; lia.
      - destruct Sh as (k & -> & P & Pos & Hk & An). cbn [rows_ cols_ strat_ dest_]. split; [now apply Nat.eqb_eq|]. exists k. repeat split; auto; lia. }
    destruct D as [D1 D2]. rewrite D1. cbn [check then_]. eexists. exists inst. split; [reflexivity|]. split; [|intros z Hz; apply upd_other; auto].
    unfold good. eapply Inv_core; [apply core_mat|]. eapply Inv_ext; [apply vis_upd with (w := w) (x := x) (o := Some (Obj r c (strat_ o) (dest_ o))); [reflexivity|auto]|apply lift_upd; reflexivity|].
    assert (Mx' : vis h w (Some x) = Some o) by (now rewrite vis_at). unfold good in I. inv I. constructor; auto.
    + intros u. destruct (opt_dec u (Some x)) as [->|Ne]; [rewrite !updo_same; exact D2|]. rewrite !updo_other by auto. apply Ish.
    + intros u v o1 o2 k Hu Hv Ku Kv.
      assert (Q : forall u o1, updo (vis h w) (Some x) (Some (Obj r c (strat_ o) (dest_ o))) u = Some o1 -> exists o3, vis h w u = Some o3 /\ strat_ o3 = strat_ o1).
      { intros u' o3 H. destruct (opt_dec u' (Some x)) as [->|Ne]; [rewrite updo_same in H; injection H as <-; eauto|rewrite updo_other in H by auto; eauto]. }
      destruct (Q _ _ Hu) as (p1 & Q1 & Q2), (Q _ _ Hv) as (p2 & Q3 & Q4). exact (Ist _ _ _ _ k Q1 Q3 (eq_trans Q2 Ku) (eq_trans Q4 Kv)).
    + intros b l Hb. destruct (Iow b l Hb) as (u & o1 & k & H1 & H2 & H3 & H4).
      destruct (opt_dec u (Some x)) as [->|Ne]; [|exists u, o1, k; rewrite updo_other by auto; auto].
      rewrite Mx' in H1. injection H1 as <-. exists (Some x), (Obj r c (strat_ o) (dest_ o)), k. rewrite updo_same. auto.
  - (* SArray *)
    destruct (arrs a a0) as [q|] eqn:An; [discriminate|]. injection E as <-.
    assert (Ar := i_arr I a0). rewrite An in Ar. rewrite Ar. eexists. exists (upd inst a0 (n_bufs w)). split; [reflexivity|]. split; [|reflexivity].
    assert (Il : forall n, arrs a n <> None -> inst n < n_bufs w) by (intros n; assert (Q := i_arr I n); destruct (arrs a n) as [[l1|]|]; [tauto|tauto|congruence]).
    unfold good in I. inv I. constructor; simpl; auto.
    + intros u. specialize (Ish u). change (vis h w u) with (vis h w u) in Ish. change (vis h _ u) with (vis h w u).
      destruct (vis h w u) as [o|] eqn:Mu, (lift (cells a) u) as [d|]; auto. destruct d; simpl in *; auto.
      * destruct Ish as (k' & b' & E & H1 & H2 & H3). exists k', b'. rewrite upd_other; [auto|]. apply Ipt in H1. lia.
      * destruct Ish as (k' & E & H1 & H2 & H3 & H4). exists k'. repeat split; auto.
        { rewrite H1. destruct p as [[n off]|]; [|reflexivity]. simpl. rewrite upd_other; [reflexivity|]. intros ->. congruence. }
        { destruct p as [[n off]|]; auto. unfold upd. destruct (n =? a0); [discriminate|auto]. }
    + intros k k' b off off' l1 H1 H2 Hb. assert (Nb : b <> n_bufs w) by (apply Ipt in H1; lia). rewrite upd_other in Hb by auto. eapply Ibu; eauto.
    + intros b l1 Hb. destruct (Nat.eq_dec b (n_bufs w)) as [->|Ne]; [rewrite upd_same in Hb; discriminate|]. rewrite upd_other in Hb by auto. exact (Iow b l1 Hb).
    + intros k b off H. apply Ipt in H. lia.
    + intros b Hb. rewrite upd_other by lia. apply Ine. lia.
    + intros n. destruct (Nat.eq_dec n a0) as [->|Ne].
      * rewrite !upd_same. auto.
      * rewrite !(upd_other _ _ Ne). specialize (Iar n). specialize (Il n). destruct (arrs a n) as [[l1|]|]; auto.
        { assert (inst n < n_bufs w) by (apply Il; discriminate). rewrite upd_other by lia. destruct Iar as (? & ? & ?). auto. }
        { assert (inst n < n_bufs w) by (apply Il; discriminate). rewrite upd_other by lia. destruct Iar as (? & ? & ?). auto. }
    + intros n n'. unfold upd. destruct (Nat.eqb_spec n a0) as [->|], (Nat.eqb_spec n' a0) as [->|]; intros H1 H2 H3; auto.
      * specialize (Il n' H2). lia.
      * specialize (Il n H1). lia.
  - (* SArrayWrite *)
    destruct (arrs a a0) as [[l|]|] eqn:An; try discriminate. destruct (Nat.ltb_spec i (length l)); [|discriminate]. injection E as <-.
    assert (Ar := i_arr I a0). rewrite An in Ar. destruct Ar as (A1 & A2 & A3). cbn [resolve]. rewrite A1. cbn [then_].
    destruct (@poke_at w (inst a0) l 0 i v) as (w' & E1 & O1 & B1 & _); [unfold at_buf; now rewrite A2|auto|].
    exists w', inst. split; [exact E1|]. split; [|intros z _; now destruct O1 as (-> & _)].
    unfold good. rewrite A2 in B1. simpl in B1. eapply Inv_ext; [apply vis_same, O1|reflexivity|]. eapply Inv_arr; eauto.
  - (* SArrayDelete *)
    destruct (arrs a a0) as [[l|]|] eqn:An; try discriminate. injection E as <-.
    assert (Ar := i_arr I a0). rewrite An in Ar. destruct Ar as (A1 & A2 & A3). rewrite A1. eexists. exists inst. split; [reflexivity|]. split; [|reflexivity].
    assert (Sn : forall n0, upd (arrs a) a0 (Some Deleted) n0 <> None <-> arrs a n0 <> None).
    { intros n0. unfold upd. destruct (Nat.eqb_spec n0 a0) as [->|]; [|tauto]. rewrite An. split; discriminate. }
    unfold good in I. inv I. constructor; simpl; auto.
    + intros u. specialize (Ish u). change (vis h _ u) with (vis h w u).
      destruct (vis h w u) as [o|] eqn:Mu, (lift (cells a) u) as [d|]; auto. destruct d; simpl in *; auto.
      * destruct Ish as (k' & b' & E & H1 & H2 & H3). exists k', b'. rewrite upd_other; [auto|]. congruence.
      * destruct Ish as (k' & E & H1 & H2 & H3 & H4). exists k'. repeat split; auto. destruct p as [[n off]|]; auto. now apply Sn.
    + intros k k' b off off' l1 H1 H2 Hb. destruct (Nat.eq_dec b (inst a0)) as [->|Ne]; [rewrite upd_same in Hb; discriminate|]. rewrite upd_other in Hb by auto. eapply Ibu; eauto.
    + intros b l1 Hb. destruct (Nat.eq_dec b (inst a0)) as [->|Ne]; [rewrite upd_same in Hb; discriminate|]. rewrite upd_other in Hb by auto. exact (Iow b l1 Hb).
    + intros b Hb. rewrite upd_other by lia. now apply Ine.
    + intros n. destruct (Nat.eq_dec n a0) as [->|Ne].
      * rewrite !upd_same. auto.
      * rewrite !(upd_other _ _ Ne). specialize (Iar n). 
        assert (D : arrs a n <> None -> inst n <> inst a0) by (intros H E; apply Ne; apply Iin; auto; congruence).
        destruct (arrs a n) as [[l1|]|]; auto; rewrite upd_other by (apply D; discriminate); auto.
    + intros n1 n2 H1 H2. apply Iin; now apply Sn.
Qed.

(** *** Programs *)
Lemma good_start : good None (start (T := T)) (empty (T := T)) (fun _ => 0).
Proof. eapply Inv_ext; [| |apply Inv_start]; intros [z|]; reflexivity. Qed.
Theorem steps_ok h w a inst p a' : good h w a inst -> steps zero a p = Some a' -> (forall x, h = Some x -> Forall (fun s => ~ In x (mentions s)) p) ->
  exists w' inst', run zero w p = Ok w' /\ good h w' a' inst' /\ (forall z, Forall (fun s => ~ In z (changes s)) p -> mats w' z = mats w z).
Proof.
  revert w a inst. induction p as [|s p IH]; intros w a inst I E Hid; simpl in E.
  - injection E as <-. exists w, inst. auto.
  - destruct (step zero a s) as [a1|] eqn:E1; [|discriminate].
    destruct (step_ok I E1) as (w1 & inst1 & X1 & G1 & F1); [intros x Hx; specialize (Hid x Hx); inversion Hid; auto|].
    destruct (IH w1 a1 inst1 G1 E) as (w2 & inst2 & X2 & G2 & F2); [intros x Hx; specialize (Hid x Hx); inversion Hid; auto|].
    exists w2, inst2. split; [simpl; rewrite X1; exact X2|]. split; [exact G2|]. intros z Hz. inversion Hz; subst. rewrite F2 by auto. auto.
Qed.
Lemma run_app w p q : run zero w (p ++ q) = then_ (run zero w p) (fun w' => run zero w' q).
Proof. revert w. induction p as [|s p IH]; intros w; simpl; [reflexivity|]. destruct (exec zero w s); simpl; auto. Qed.
Lemma meaning_ok p a : meaning zero p = Some a -> exists w inst, run zero (start (T := T)) p = Ok w /\ good None w a inst.
Proof. intros E. destruct (steps_ok good_start E) as (w & inst & X & G & _); [discriminate|]. eauto. Qed.

Lemma good_dims h w a inst x d r c : good h w a inst -> h <> Some x -> cells a x = Some d -> shape d = Some (r, c) ->
  exists o, mats w x = Some o /\ rows_ o = r /\ cols_ o = c /\ 0 < r * c /\ exists k, strat_ o = Some k.
Proof.
  intros I N Cx Sd. destruct (good_some I N Cx) as (o & Mx & Sh). exists o. split; [exact Mx|].
  destruct d; simpl in Sd; try discriminate; injection Sd as -> ->; simpl in Sh.
  - destruct Sh as (k & b & -> & _ & _ & _ & P & _). simpl. eauto 6.
  - destruct Sh as (k & -> & _ & P & _). simpl. eauto 6.
  - destruct Sh as (k & -> & _ & P & _). simpl. eauto 6.
Qed.
Lemma good_read h w a inst x i j v : good h w a inst -> h <> Some x -> shown a x i j = Some v -> read w x i j = Ok v.
Proof.
  intros I N E. unfold shown in E. destruct (cells a x) as [d|] eqn:Cx; [|discriminate]. destruct (shape d) as [[r c]|] eqn:Sd; [|discriminate].
  destruct (entries a d) as [l|] eqn:En; [|discriminate]. destruct ((i <? r) && (j <? c)) eqn:Ib; [|discriminate].
  destruct (good_some I N Cx) as (o & Mx & _). assert (Mx' : vis h w (Some x) = Some o) by (now rewrite vis_at).
  destruct (entries_at (t := Some x) I Mx' Cx En) as (r1 & c1 & k & b & off & ls & S1 & R1 & C1 & K1 & Hk1 & P1 & Hb1 & At1 & Len1 & Le1 & Nth1 & _).
  rewrite Sd in S1. injection S1 as <- <-. unfold read, alive. rewrite Mx. cbn [then_]. rewrite R1, C1, Ib. cbn [check then_].
  unfold matrix_ptr. rewrite K1, P1. unfold peek. unfold at_buf in At1. rewrite At1.
  apply andb_true_iff in Ib. rewrite !Nat.ltb_lt in Ib. rewrite Nth1 by nia. now rewrite E.
Qed.
Lemma good_agrees w a inst : good None w a inst -> agrees w a.
Proof.
  intros I. split; [|split; [|split]].
  - intros x Cx. unfold dims. now rewrite (good_none I (x := x)).
  - intros x d r c Cx Sd. destruct (good_dims I (x := x) (h := None) ltac:(discriminate) Cx Sd) as (o & Mx & R & Cc & _). unfold dims. now rewrite Mx, R, Cc.
  - intros x i j v E. eapply good_read; eauto. discriminate.
  - intros n l i v An E. assert (Ar := i_arr I n). rewrite An in Ar. destruct Ar as (A1 & A2 & _).
    unfold array_read, resolve. rewrite A1. cbn [then_]. unfold peek. rewrite A2. simpl. now rewrite E.
Qed.

(** *** Clones *)
Lemma clone_makes w a inst x y d : good None w a inst -> cells a y = Some d -> shape d <> None -> cells a x = None ->
  exists w' o, exec zero w (SClone x y) = Ok w' /\ good (Some x) w' a inst /\ mats w y = Some o /\ mats w' y = Some o /\
    mats w' x = Some (Obj (rows_ o) (cols_ o) (strat_ o) false).
Proof.
  intros I Cy Sd Cx. assert (Ny : None <> Some y) by discriminate. assert (Nx : None <> Some x) by discriminate.
  destruct (shape d) as [[r c]|] eqn:Sd'; [|congruence]. destruct (good_dims I Ny Cy Sd') as (o & My & R & Cc & Pos & k & K).
  assert (Mx := good_none I Nx Cx). assert (Nxy : y <> x) by congruence.
  cbn [exec]. unfold alive. rewrite My. cbn [then_]. rewrite Mx. unfold construct_view. cbn [new_strat].
  assert (Ib : (0 <? rows_ o) && (0 <? cols_ o) = true) by (rewrite R, Cc, andb_true_iff, !Nat.ltb_lt; nia).
  rewrite Ib. cbn. eexists. exists o. split; [reflexivity|]. split; [|split; [reflexivity|split; simpl; [rewrite upd_other by auto; exact My|apply upd_same]]].
  assert (I1 := Inv_strat I). unfold good. eapply Inv_core with (w := snd (new_strat w)).
  { repeat split; auto. simpl. intros k'. unfold upd. destruct (k' =? n_strats w); reflexivity. }
  revert I1. apply Inv_ext; [|reflexivity]. intros [z|]; [|reflexivity]. simpl. unfold upd. destruct (Nat.eqb_spec z x) as [->|]; [now rewrite Mx|reflexivity].
Qed.
Lemma exec_through w x y r c k d d' s : mats w x = Some (Obj r c k d) -> mats w y = Some (Obj r c k d') -> ~ In x (mentions (through x y s)) ->
  exec zero w s = exec zero w (through x y s).
Proof.
  intros Mx My N.
  destruct s; cbn [through exec mentions] in *; try reflexivity.
  - (* SCopy *) destruct (Nat.eqb_spec y0 x) as [->|]; [|reflexivity]. unfold alive. rewrite Mx, My. reflexivity.
  - (* SAssign *) destruct (Nat.eqb_spec y0 x) as [->|]; [|reflexivity]. unfold alive. rewrite Mx, My. reflexivity.
  - (* SWrite *) destruct (Nat.eqb_spec x0 x) as [->|]; [|reflexivity]. unfold alive. rewrite Mx, My. reflexivity.
  - (* SCopyData *)
    destruct (Nat.eqb_spec x0 x) as [->|], (Nat.eqb_spec y0 x) as [->|]; try reflexivity; unfold alive; rewrite ?Mx, ?My; reflexivity.
Qed.
Lemma changes_mentions s z : In z (changes s) -> In z (mentions (T := T) s).
Proof. destruct s; simpl; intuition. Qed.
Lemma changes_through x y (s : stmt T) : changes (through x y s) = changes s.
Proof. destruct s; reflexivity. Qed.
Lemma clone_runs w a inst x y r c k d d' q a' : good (Some x) w a inst -> mats w x = Some (Obj r c k d) -> mats w y = Some (Obj r c k d') ->
  Forall (fun s => ~ In x (mentions (through x y s)) /\ ~ In y (changes s)) q -> steps zero a (map (through x y) q) = Some a' ->
  exists w' inst', run zero w q = Ok w' /\ good (Some x) w' a' inst' /\ mats w' x = Some (Obj r c k d) /\ mats w' y = Some (Obj r c k d').
Proof.
  revert w a inst. induction q as [|s q IH]; intros w a inst I Mx My Hq E; simpl in E.
  - injection E as <-. exists w, inst. auto.
  - inversion Hq as [|? ? [N1 N2] Hq']; subst. destruct (step zero a (through x y s)) as [a1|] eqn:E1; [|discriminate].
    destruct (step_ok I E1) as (w1 & inst1 & X1 & G1 & F1); [intros z Hz; injection Hz as <-; exact N1|].
    destruct (IH w1 a1 inst1 G1) as (w2 & inst2 & X2 & G2 & H1 & H2); auto.
    + rewrite F1; [exact Mx|]. intros H. apply N1. now apply changes_mentions.
    + rewrite F1; [exact My|]. now rewrite changes_through.
    + exists w2, inst2. split; [|auto]. simpl. rewrite (exec_through Mx My N1), X1. exact X2.
Qed.
Lemma clone_ends w a inst x r c k : good (Some x) w a inst -> mats w x = Some (Obj r c k false) ->
  exists w', exec zero w (SDestroy x) = Ok w' /\ good None w' a inst.
Proof.
  intros I Mx. cbn [exec]. unfold alive. rewrite Mx. cbn [then_ destruct_ dest_]. eexists. split; [reflexivity|].
  unfold good. eapply Inv_core; [apply core_mat|]. revert I. apply Inv_ext; [|reflexivity].
  intros [z|]; [|reflexivity]. simpl. unfold upd. destruct (Nat.eqb_spec z x); reflexivity.
Qed.
End Ok.
