(** * Client programs: the library refines the reference (C01, C03, C05, C07-C12, C18, C20) *)

From Coq Require Import List Arith Bool Lia.
From Verif Require Import Num ScalarModel ScalarSpec ScalarReset ScalarEval ScalarRev ScalarTerm ScalarApi ScalarHist ScalarUser.
Import ListNotations.

Section Build.
Context {T : Type} {N : Num T}.
Notation heap := (heap T).
Notation graph := (graph (T := T)).
Notation op := (op T).
Notation term := (term (T := T)).
Notation item := (item (T := T)).
Notation store := (store (T := T)).

Lemma NoDup_app_intro {A} (l l' : list A) : NoDup l -> NoDup l' ->
  (forall x, In x l -> ~ In x l') -> NoDup (l ++ l').
Proof.
  intros Hl Hl' H. induction Hl as [|x l Hx Hl IH]; simpl; auto. constructor.
  - rewrite in_app_iff. intros [X|X]; auto. apply (H x); simpl; auto.
  - apply IH. intros y Hy. apply H. simpl; auto.
Qed.

(** ** Terms and the trees built from them *)
Inductive rep : op -> term -> Prop :=
| rep_leaf v : rep (Leaf v) (TRef v)
| rep_par p : rep (Par p (S p)) (TPar p)
| rep_un k id o t : rep o t -> rep (Un k id o) (TUn k t)
| rep_bin k id a b l r : rep a l -> rep b r -> rep (Bin k id a b) (TBin k l r)
| rep_clone o t : rep o t -> rep o (TClone t).
Inductive rep_item : op -> item -> Prop :=
| rep_term id o t : rep o t -> rep_item (Un (UProdC n1) id o) (ITerm t)
| rep_copy e : rep_item (Leaf e) (ICopy e)
| rep_zero : rep_item (Leaf 1) IZero.

Lemma clone_rep (o : op) (t : term) : rep o t -> forall n, rep (fst (clone o n)) t.
Proof.
  intros H. induction H; intros n; simpl; try constructor.
  - specialize (IHrep n). destruct (clone o n). simpl in *. now constructor.
  - specialize (IHrep1 n). destruct (clone a n) as [a' n1]. specialize (IHrep2 n1).
    destruct (clone b n1). simpl in *. now constructor.
  - auto.
Qed.
Definition within (n n' : nat) (l : list nat) : Prop := NoDup l /\ forall k, In k l -> n <= k < n'.
Lemma clone_ids (o : op) : forall n, n <= snd (clone o n) /\ within n (snd (clone o n)) (opids (fst (clone o n))).
Proof.
  induction o as [v|p tv|k id e IH|k id l IHl r IHr]; intros n; simpl.
  - split; [auto|split; [constructor|intros k []]].
  - split; [auto|split; [constructor|intros k []]].
  - specialize (IH n). destruct (clone e n) as [e' n1]. simpl in *. destruct IH as (A & B & C).
    split; [lia|]. split.
    + constructor; auto. intros H. apply C in H. lia.
    + intros k0 [<-|H]; [lia|]. apply C in H. lia.
  - specialize (IHl n). destruct (clone l n) as [l' n1]. specialize (IHr n1).
    destruct (clone r n1) as [r' n2]. simpl in *.
    destruct IHl as (A & B & C), IHr as (A' & B' & C').
    split; [lia|]. split.
    + constructor.
      * rewrite in_app_iff. intros [H|H]; [apply C in H|apply C' in H]; lia.
      * apply NoDup_app_intro; auto. intros x Hx Hy. apply C in Hx. apply C' in Hy. lia.
    + intros k0 [<-|H]; [lia|]. apply in_app_or in H. destruct H as [H|H]; [apply C in H|apply C' in H]; lia.
Qed.
Lemma build_rep (t : term) : forall n, n <= snd (build t n) /\ rep (fst (build t n)) t.
Proof.
  induction t as [v|p|k t IH|k l IHl r IHr|t IH]; intros n; simpl.
  - split; [auto|constructor].
  - split; [auto|constructor].
  - specialize (IH n). destruct (build t n) as [o n1]. simpl in *. destruct IH as [A B].
    pose proof (clone_ids o n1) as [C _]. pose proof (clone_rep o t B n1) as D.
    destruct (clone o n1). simpl in *. split; [lia|now constructor].
  - specialize (IHl n). destruct (build l n) as [a n1]. specialize (IHr n1).
    destruct (build r n1) as [b n2]. simpl in *. destruct IHl as [A B], IHr as [A' B'].
    pose proof (clone_ids a n2) as [C _]. pose proof (clone_rep a l B n2) as D.
    destruct (clone a n2) as [a' n3]. simpl in *.
    pose proof (clone_ids b n3) as [C' _]. pose proof (clone_rep b r B' n3) as D'.
    destruct (clone b n3). simpl in *. split; [lia|now constructor].
  - specialize (IH n). destruct (build t n) as [o n1]. simpl in *. destruct IH as [A B].
    pose proof (clone_ids o n1) as [C _]. pose proof (clone_rep o t B n1) as D.
    split; [lia|now constructor].
Qed.
Lemma wrap_spec (o : op) (t : term) n : rep o t -> n < snd (wrap o n) /\
  Forall2 rep_item (fst (wrap o n)) [ITerm t] /\ within n (snd (wrap o n)) (flat_map opids (fst (wrap o n))).
Proof.
  intros H. unfold wrap. pose proof (clone_rep o t H n) as R. pose proof (clone_ids o n) as (A & B & C).
  destruct (clone o n) as [o' k]. simpl in *. split; [lia|]. split; [repeat constructor; auto|].
  rewrite app_nil_r. split.
  - constructor; auto. intros X. apply C in X. lia.
  - intros j [<-|X]; [lia|]. apply C in X. lia.
Qed.

(** References of a built tree. *)
Lemma rep_leaves o t : rep o t -> forall w, In w (leaves o) ->
  In w (trefs t) \/ exists p, In p (tpars t) /\ w = S p.
Proof.
  intros H. induction H; simpl; intros w Hw; auto.
  - destruct Hw as [<-|[]]. right. exists p. auto.
  - apply in_app_or in Hw. destruct Hw as [Hw|Hw]; [destruct (IHrep1 w Hw) as [|(p & A & B)]|destruct (IHrep2 w Hw) as [|(p & A & B)]];
    try (left; apply in_or_app; auto; fail); right; exists p; split; auto; apply in_or_app; auto.
Qed.
Lemma rep_refs o t : rep o t -> forall w, In w (trefs t) -> In w (leaves o).
Proof.
  intros H. induction H; simpl; intros w Hw; auto; try contradiction.
  apply in_app_or in Hw. apply in_or_app. destruct Hw; auto.
Qed.
Lemma rep_pars o t : rep o t -> forall w, In w (pars o) -> exists p, In p (tpars t) /\ w = S p.
Proof.
  intros H. induction H; simpl; intros w Hw; auto; try contradiction.
  - destruct Hw as [<-|[]]. exists p. auto.
  - apply in_app_or in Hw. destruct Hw as [Hw|Hw]; [destruct (IHrep1 w Hw) as (p & A & B)|destruct (IHrep2 w Hw) as (p & A & B)];
    exists p; split; auto; apply in_or_app; auto.
Qed.
Lemma rep_parids o t : rep o t -> forall w, In w (parids o) -> In w (tpars t).
Proof.
  intros H. induction H; simpl; intros w Hw; auto.
  apply in_app_or in Hw. apply in_or_app. destruct Hw; auto.
Qed.
Lemma rep_refids o t : rep o t -> forall w, In w (refids o) -> In w (trefs t) \/ In w (tpars t).
Proof.
  intros H. induction H; simpl; intros w Hw; auto.
  rewrite !in_app_iff. apply in_app_or in Hw. destruct Hw as [Hw|Hw]; [apply IHrep1 in Hw|apply IHrep2 in Hw]; tauto.
Qed.
Lemma rep_find e o t : rep o t -> ~ In e (tpars t) -> find_me e o = mentions e t.
Proof.
  unfold mentions. intros H. induction H; simpl; intros Hp; auto.
  - now rewrite orb_false_r.
  - destruct (Nat.eqb_spec e p) as [->|]; auto. exfalso. apply Hp. auto.
  - rewrite existsb_app. rewrite IHrep1, IHrep2; auto; intros X; apply Hp, in_or_app; auto.
Qed.

(** Meaning. *)
Lemma rep_sem o t : rep o t -> forall lw lv, (forall v, In v (trefs t) -> lw v = lv v) ->
  (forall p, In p (tpars t) -> lw (S p) = lv p) -> sem lw o = tsem lv t.
Proof.
  intros H. induction H; simpl; intros lw lv A B; auto.
  - f_equal. auto.
  - f_equal; [apply IHrep1|apply IHrep2]; intros; try apply A; try apply B; apply in_or_app; auto.
Qed.
Lemma rep_dsem o t : rep o t -> forall lw lv dw dl, (forall v, In v (trefs t) -> lw v = lv v) ->
  (forall p, In p (tpars t) -> lw (S p) = lv p) -> (forall v, In v (trefs t) -> dw v = dl v) ->
  dsem lw dw o = tdsem lv dl t.
Proof.
  intros H. induction H; simpl; intros lw lv dw dl A B C; auto.
  - rewrite (rep_sem o t H lw lv), (IHrep lw lv dw dl); auto.
  - rewrite (rep_sem a l H lw lv), (rep_sem b r H0 lw lv), (IHrep1 lw lv dw dl), (IHrep2 lw lv dw dl);
    auto; intros; try apply A; try apply B; try apply C; apply in_or_app; auto.
Qed.
Lemma rep_div o t : rep o t -> forall lw lv, (forall v, In v (trefs t) -> lw v = lv v) ->
  (forall p, In p (tpars t) -> lw (S p) = lv p) -> tdiv_ok lv t -> div_ok lw o.
Proof.
  intros H. induction H; simpl; intros lw lv A B C; auto.
  - eapply IHrep; eauto.
  - destruct C as (C1 & C2 & C3). split; [|split].
    + apply (IHrep1 lw lv); auto; intros; try apply A; try apply B; apply in_or_app; auto.
    + apply (IHrep2 lw lv); auto; intros; try apply A; try apply B; apply in_or_app; auto.
    + rewrite (rep_sem b r H0 lw lv); auto; intros; try apply A; try apply B; apply in_or_app; auto.
  - eapply IHrep; eauto.
Qed.

(** The same for assignments. *)
Definition agree (lw lv : nat -> T) (i : item) : Prop :=
  (forall v, In v (irefs i) -> lw v = lv v) /\ (forall p, In p (ipars i) -> lw (S p) = lv p) /\ lw 1 = n0.
Lemma item_sem o i lw lv : rep_item o i -> agree lw lv i -> sem lw o = isem lv i.
Proof.
  intros H (A & B & C). destruct H; simpl in *; auto. f_equal. eapply rep_sem; eauto.
Qed.
Lemma item_dsem o i lw lv dw dl : rep_item o i -> agree lw lv i ->
  (forall v, In v (irefs i) -> dw v = dl v) -> dw 1 = n0 -> dsem lw dw o = idsem lv dl i.
Proof.
  intros H (A & B & C) D E. destruct H; simpl in *; auto. f_equal. eapply rep_dsem; eauto.
Qed.
Lemma item_leaves o i w : rep_item o i -> In w (leaves o) ->
  In w (irefs i) \/ (exists p, In p (ipars i) /\ w = S p) \/ w = 1.
Proof.
  intros H Hw. destruct H; simpl in *.
  - destruct (rep_leaves o t H w Hw); auto.
  - auto.
  - destruct Hw as [<-|[]]. auto.
Qed.
Lemma item_refs o i w : rep_item o i -> In w (irefs i) -> In w (leaves o).
Proof.
  intros H Hw. destruct H; simpl in *; auto. eapply rep_refs; eauto.
Qed.

(** ** Invariant tying the heap to the store *)
Definition is_val (st : store) (v : nat) : Prop := is_var st v \/ is_exp st v.
Definition item_ok (st : store) (i : item) : Prop :=
  match i with ITerm t => term_ok st t | ICopy e => is_exp st e | IZero => True end.

Record Inv (h : heap) (st : store) (tc : nat -> Prop) : Prop := {
  i_t0 : c_base (cells h 1) = n0;
  i_dom : forall v, st v <> None -> 2 <= v < next h;
  i_none : forall v, ~ is_exp st v -> c_items (cells h v) = [];
  i_var : forall v x, st v = Some (OVar x) -> c_base (cells h v) = x;
  i_par : forall p x, st p = Some (OPar x) -> c_base (cells h (S p)) = x /\ st (S p) = None /\ S p < next h;
  i_exp : forall v l, st v = Some (OExp l) -> c_base (cells h v) = n0 /\ l <> [] /\
      Forall2 rep_item (c_items (cells h v)) l /\ Forall (item_ok st) l;
  i_ids : forall v k, In k (node_ids (graph_of h) v) ->
      2 <= k < next h /\ st k = None /\ (forall p, is_par st p -> k <> S p);
  i_nodup : forall v, NoDup (node_ids (graph_of h) v);
  i_disj : forall v w k, v <> w -> In k (node_ids (graph_of h) v) -> ~ In k (node_ids (graph_of h) w);
  i_memo : no_symbolic h;
  i_plain : all_plain_clean h;
  i_touch : forall v, is_exp st v -> tc v -> c_vis (cells h v) = true;
  i_untouch : forall v, is_exp st v -> ~ tc v -> clean (cells h v);
  i_tdom : forall v, tc v -> st v <> None;
  i_two : 2 <= next h
}.

Lemma item_ok_refs st i v : item_ok st i -> In v (irefs i) -> is_val st v.
Proof.
  destruct i; simpl; intros H Hv; [now apply H| |contradiction].
  destruct Hv as [<-|[]]. right; auto.
Qed.
Lemma item_ok_pars st i v : item_ok st i -> In v (ipars i) -> is_par st v.
Proof. destruct i; simpl; intros H Hv; [now apply H|contradiction|contradiction]. Qed.

Section Facts.
Variables (h : heap) (st : store) (tc : nat -> Prop).
Hypothesis I : Inv h st tc.

Lemma val_dom v : is_val st v -> st v <> None.
Proof. intros [[x E]|[l E]]; rewrite E; discriminate. Qed.
Lemma val_not_1 v : is_val st v -> v <> 1.
Proof. intros H. apply val_dom in H. apply (i_dom _ _ _ I) in H. lia. Qed.
Lemma val_not_parvar v p : is_val st v -> is_par st p -> v <> S p.
Proof.
  intros H (x & Hp) E. apply val_dom in H. destruct (i_par _ _ _ I p x Hp) as (_ & A & _). congruence.
Qed.
Lemma par_not_1 p : is_par st p -> S p <> 1.
Proof. intros (x & Hp). assert (st p <> None) by congruence. apply (i_dom _ _ _ I) in H. lia. Qed.
Lemma par_not_val p : is_par st p -> ~ is_val st p.
Proof. intros (x & Hp) [[y E]|[y E]]; congruence. Qed.
Lemma exp_items v : c_items (cells h v) <> [] -> is_exp st v.
Proof.
  intros H. destruct (st v) as [[x|x|l]|] eqn:E; try (exfalso; apply H; apply (i_none _ _ _ I); intros [l' E']; congruence).
  exists l; auto.
Qed.
Lemma exp_ne v : is_exp st v -> c_items (cells h v) <> [].
Proof.
  intros [l E]. destruct (i_exp _ _ _ I v l E) as (_ & A & B & _). intros X. rewrite X in B. inversion B; congruence.
Qed.
Lemma item_of v o : In o (c_items (cells h v)) ->
  exists l i, st v = Some (OExp l) /\ In i l /\ rep_item o i /\ item_ok st i.
Proof.
  intros Ho. assert (Hne : c_items (cells h v) <> []) by (intros E; rewrite E in Ho; destruct Ho).
  destruct (exp_items v Hne) as [l E]. destruct (i_exp _ _ _ I v l E) as (_ & _ & F & K).
  exists l. cut (exists i, In i l /\ rep_item o i /\ item_ok st i); [intros (i & ?); exists i; auto|].
  clear Hne E. revert Ho K. induction F as [|a b la lb Hab F IH]; intros Ho K; [destruct Ho|].
  inversion K as [|? ? K1 K2]; subst. destruct Ho as [<-|Ho].
  - exists b. simpl; auto.
  - destruct (IH Ho K2) as (i & A & B & C). exists i. simpl; auto.
Qed.
Lemma item_to v l i : st v = Some (OExp l) -> In i l ->
  exists o, In o (c_items (cells h v)) /\ rep_item o i /\ item_ok st i.
Proof.
  intros E Hi. destruct (i_exp _ _ _ I v l E) as (_ & _ & F & K). clear E.
  revert Hi K. induction F as [|a b la lb Hab F IH]; intros Hi K; [destruct Hi|].
  inversion K as [|? ? K1 K2]; subst. destruct Hi as [<-|Hi].
  - exists a. simpl; auto.
  - destruct (IH Hi K2) as (o & A & B & C). exists o. simpl; auto.
Qed.

(** Dependencies of the heap graph and of the store. *)
Lemma dep_user v w : dep (graph_of h) v w -> is_exp st v /\
  ((udep st v w /\ is_val st w) \/ w = 1 \/ exists p, w = S p /\ is_par st p /\ udep st v p).
Proof.
  intros (o & Ho & Hw). unfold items, graph_of in Ho. cbn [snd] in Ho.
  destruct (item_of v o Ho) as (l & i & E & Hi & R & K). split; [exists l; auto|].
  destruct (item_leaves o i w R Hw) as [H|[(p & H & ->)|H]]; auto.
  - left. split; [exists l, i; auto|]. eapply item_ok_refs; eauto.
  - right; right. exists p. split; auto. split; [eapply item_ok_pars; eauto|exists l, i; auto].
Qed.
Lemma user_dep v w : udep st v w -> is_val st w -> dep (graph_of h) v w.
Proof.
  intros (l & i & E & Hi & [H|H]) Hv.
  - destruct (item_to v l i E Hi) as (o & Ho & R & _). exists o. split; auto. eapply item_refs; eauto.
  - destruct (item_to v l i E Hi) as (o & Ho & R & K). exfalso.
    eapply par_not_val; [eapply item_ok_pars; eauto|auto].
Qed.
Lemma udep_kind v w : udep st v w -> is_val st w \/ is_par st w.
Proof.
  intros (l & i & E & Hi & [H|H]); destruct (item_to v l i E Hi) as (o & Ho & R & K).
  - left. eapply item_ok_refs; eauto.
  - right. eapply item_ok_pars; eauto.
Qed.
Lemma reach_user r v : is_val st r -> reach (graph_of h) r v ->
  (ureach st r v /\ is_val st v) \/ v = 1 \/ exists p, v = S p /\ is_par st p /\ ureach st r p.
Proof.
  intros Hr H. induction H as [|u x H IH Hd].
  - left. split; [constructor|auto].
  - apply dep_user in Hd. destruct Hd as [He Hd].
    assert (Hu : ureach st r u).
    { destruct IH as [[A _]|[A|(p & A & B & _)]]; auto; exfalso.
      - subst u. apply (val_not_1 1); [right; auto|auto].
      - subst u. eapply (val_not_parvar (S p) p); eauto. right; auto. }
    destruct Hd as [[A B]|[A|(p & A & B & C)]]; auto.
    + left. split; auto. econstructor; eauto.
    + right; right. exists p. split; auto. split; auto. econstructor; eauto.
Qed.
Lemma user_reach r v : ureach st r v -> is_val st v -> reach (graph_of h) r v.
Proof.
  intros H. induction H as [|u x H IH Hd]; intros Hv; [constructor|].
  econstructor; [apply IH|now apply user_dep].
  destruct Hd as (l & i & E & _). right. exists l; auto.
Qed.
Lemma ureach_dom r v : st r <> None -> ureach st r v -> st v <> None.
Proof.
  intros Hr H. destruct H as [|u x H Hd]; auto.
  destruct (udep_kind _ _ Hd) as [K|[y K]]; [now apply val_dom|congruence].
Qed.

Lemma inv_bounded : bounded (next h) h.
Proof.
  constructor.
  - intros v o w Ho Hw.
    destruct (dep_user v w) as [_ [[_ A]|[A|(p & A & (x & B) & _)]]].
    + exists o. auto.
    + apply val_dom in A. apply (i_dom _ _ _ I) in A. lia.
    + subst w. pose proof (i_two _ _ _ I). lia.
    + subst w. apply (i_par _ _ _ I p x B).
  - exists (fun _ => 0). split; [intros; lia|]. split; intros id; rewrite (i_memo _ _ _ I); simpl; [discriminate|contradiction].
Qed.

Lemma inv_ready r : query_ok st tc r -> ready (next h) h r.
Proof.
  intros (Hr & (rank & Rk) & Q). constructor.
  - exact inv_bounded.
  - apply (i_dom _ _ _ I). destruct Hr as [l E]. congruence.
  - now apply exp_ne.
  - exists (fun v => match st v with Some (OExp _) => S (rank v) | _ => 0 end).
    intros v w Hv Hd. destruct (dep_user v w Hd) as [[l E] Hw]. rewrite E.
    assert (Hu : ureach st r v).
    { destruct (reach_user r v) as [[A _]|[A|(p & A & B & _)]]; auto; [right; auto| |].
      - exfalso. subst v. apply (val_not_1 1); [right; exists l; auto|auto].
      - exfalso. subst v. eapply (val_not_parvar (S p) p); eauto. right; exists l; auto. }
    destruct Hw as [[A [[y B]|[y B]]]|[->|(p & -> & (y & B) & _)]].
    + rewrite B. right. lia.
    + rewrite B. destruct (Rk v w Hu A) as [->|L]; auto. right. lia.
    + right. destruct (st 1) as [o|] eqn:E1; [|lia].
      assert (st 1 <> None) by congruence. apply (i_dom _ _ _ I) in H. lia.
    + right. destruct (i_par _ _ _ I p y B) as (_ & E1 & _). rewrite E1. lia.
  - intros v o tv Ho Hp. unfold items, graph_of in *. cbn [snd] in *.
    destruct (item_of v o Ho) as (l & i & E & Hi & R & K).
    assert (X : exists p, In p (ipars i) /\ tv = S p).
    { destruct R; simpl in *; try contradiction. eapply rep_pars; eauto. }
    destruct X as (p & Hp' & ->). destruct (item_ok_pars _ _ _ K Hp') as [y B].
    apply (i_none _ _ _ I). intros [l' E']. destruct (i_par _ _ _ I p y B) as (_ & E1 & _). congruence.
  - split; [intros v _; apply (i_plain _ _ _ I)|].
    intros v w Hv Hd Hn Vv. destruct (dep_user v w Hd) as [He Hw].
    assert (Hu : ureach st r v).
    { destruct (reach_user r v) as [[A _]|[A|(p & A & B & _)]]; auto; [right; auto| |].
      - exfalso. subst v. apply (val_not_1 1); [right; auto|auto].
      - exfalso. subst v. eapply (val_not_parvar (S p) p); eauto. right; auto. }
    assert (Nt : ~ tc v).
    { intros Ht. rewrite (i_touch _ _ _ I v He Ht) in Vv. discriminate. }
    destruct Hw as [[A [[y B]|B]]|[->|(p & -> & B & _)]].
    + apply (i_plain _ _ _ I). apply (i_none _ _ _ I). intros [l' E']. congruence.
    + apply (i_untouch _ _ _ I); auto. eapply Q; eauto.
    + apply (i_plain _ _ _ I). apply (i_none _ _ _ I). intros He1. apply (val_not_1 1); [right; auto|auto].
    + apply (i_plain _ _ _ I). apply (i_none _ _ _ I). intros He1. eapply (val_not_parvar (S p) p); eauto. right; auto.
Qed.

(** ** Transfer of values and derivatives *)
Definition tr (W : nat -> T) (v : nat) : T :=
  if Nat.eqb v 1 then n0 else
  match v with
  | S p => match st p with Some (OPar _) => W p | _ => W v end
  | O => W O
  end.
Definition dtr (D : nat -> T) (v : nat) : T :=
  if Nat.eqb v 1 then n0 else
  match v with
  | S p => match st p with Some (OPar _) => n0 | _ => D v end
  | O => D O
  end.
Lemma tr_val W v : is_val st v -> tr W v = W v.
Proof.
  intros H. unfold tr. pose proof (val_not_1 v H). apply Nat.eqb_neq in H0. rewrite H0.
  destruct v as [|p]; auto. destruct (st p) as [[x|x|l]|] eqn:E; auto.
  exfalso. eapply (val_not_parvar (S p) p); eauto. exists x; auto.
Qed.
Lemma tr_par W p : is_par st p -> tr W (S p) = W p.
Proof.
  intros H. unfold tr. pose proof (par_not_1 p H). apply Nat.eqb_neq in H0. rewrite H0.
  destruct H as [x E]. now rewrite E.
Qed.
Lemma tr_1 W : tr W 1 = n0.
Proof. reflexivity. Qed.
Lemma dtr_val W v : is_val st v -> dtr W v = W v.
Proof.
  intros H. unfold dtr. pose proof (val_not_1 v H). apply Nat.eqb_neq in H0. rewrite H0.
  destruct v as [|p]; auto. destruct (st p) as [[x|x|l]|] eqn:E; auto.
  exfalso. eapply (val_not_parvar (S p) p); eauto. exists x; auto.
Qed.
Lemma dtr_par W p : is_par st p -> dtr W (S p) = n0.
Proof.
  intros H. unfold dtr. pose proof (par_not_1 p H). apply Nat.eqb_neq in H0. rewrite H0.
  destruct H as [x E]. now rewrite E.
Qed.

Lemma at_agree W v cur i : is_exp st v -> item_ok st i -> agree (at_ v cur (tr W)) (at_ v cur W) i.
Proof.
  intros Hv K. split; [|split].
  - intros u Hu. unfold at_. destruct (Nat.eqb u v); auto. apply tr_val. eapply item_ok_refs; eauto.
  - intros p Hp. pose proof (item_ok_pars _ _ _ K Hp) as P.
    rewrite !at_other.
    + now apply tr_par.
    + intros ->. eapply par_not_val; eauto. right; auto.
    + intros E. eapply (val_not_parvar v p); eauto. right; auto.
  - rewrite at_other; [apply tr_1|]. intros E. apply (val_not_1 v); auto. right; auto.
Qed.
Lemma items_fold W v l os : is_exp st v -> Forall (item_ok st) l -> Forall2 rep_item os l -> forall cur,
  fold_left (fun c o => sem (at_ v c (tr W)) o) os cur = fold_left (fun c i => isem (at_ v c W) i) l cur.
Proof.
  intros Hv K F. induction F as [|o i os l R F IH]; intros cur; auto. simpl.
  inversion K as [|? ? K1 K2]; subst.
  rewrite (item_sem o i _ (at_ v cur W) R) by now apply at_agree. auto.
Qed.
Lemma items_dfold W x D v l os : is_val st x -> is_exp st v -> Forall (item_ok st) l -> Forall2 rep_item os l ->
  forall p,
  fold_left (fun p o => (sem (at_ v (fst p) (tr W)) o,
      dsem (at_ v (fst p) (tr W)) (at_ x n1 (at_ v (snd p) (dtr D))) o)) os p =
  fold_left (fun p i => (isem (at_ v (fst p) W) i,
      idsem (at_ v (fst p) W) (at_ x n1 (at_ v (snd p) D)) i)) l p.
Proof.
  intros Hx Hv K F. induction F as [|o i os l R F IH]; intros p; auto. simpl.
  inversion K as [|? ? K1 K2]; subst.
  rewrite (item_sem o i _ (at_ v (fst p) W) R) by now apply at_agree.
  rewrite (item_dsem o i _ (at_ v (fst p) W) _ (at_ x n1 (at_ v (snd p) D)) R); auto.
  - now apply at_agree.
  - intros u Hu. unfold at_. destruct (Nat.eqb u x); auto. destruct (Nat.eqb u v); auto.
    apply dtr_val. eapply item_ok_refs; eauto.
  - rewrite !at_other; auto.
    + intros E. apply (val_not_1 v); auto. right; auto.
    + intros E. apply (val_not_1 x); auto.
Qed.
Lemma plain_none v : ~ is_exp st v -> items (graph_of h) v = [].
Proof. intros. unfold items, graph_of. cbn [snd]. now apply (i_none _ _ _ I). Qed.

Lemma values_user r W : is_val st r -> uvalues st r W -> values (graph_of h) r (tr W).
Proof.
  intros Hr HW v Hv. destruct (reach_user r v Hr Hv) as [[Hu Hk]|[->|(p & -> & P & Hu)]].
  - rewrite tr_val by auto. rewrite (HW v Hu).
    destruct Hk as [[x E]|[l E]].
    + rewrite E, plain_none by (intros [l' E']; congruence). simpl. symmetry. now apply (i_var _ _ _ I).
    + rewrite E. destruct (i_exp _ _ _ I v l E) as (B & _ & F & K).
      unfold items, graph_of, base. cbn [fst snd]. rewrite B. symmetry. apply items_fold; auto. exists l; auto.
  - rewrite plain_none by (intros He; apply (val_not_1 1); [right; auto|auto]). simpl. symmetry. apply (i_t0 _ _ _ I).
  - rewrite tr_par by auto. rewrite (HW p Hu). destruct P as [x E]. rewrite E.
    rewrite plain_none by (intros He; eapply (val_not_parvar (S p) p); [right; auto|exists x; auto|auto]).
    simpl. symmetry. now apply (i_par _ _ _ I).
Qed.
Lemma derivs_user r W x D : is_val st r -> is_val st x -> uvalues st r W -> uderivs st r W x D ->
  derivs (graph_of h) r (tr W) x (dtr D).
Proof.
  intros Hr Hx HW HD v Hv. destruct (reach_user r v Hr Hv) as [[Hu Hk]|[->|(p & -> & P & Hu)]].
  - rewrite dtr_val by auto. rewrite (HD v Hu). destruct (Nat.eqb v x); auto.
    destruct Hk as [[y E]|[l E]].
    + rewrite E, plain_none by (intros [l' E']; congruence). reflexivity.
    + rewrite E. destruct (i_exp _ _ _ I v l E) as (B & _ & F & K).
      unfold items, graph_of, base. cbn [fst snd]. rewrite B. f_equal. symmetry. apply items_dfold; auto. exists l; auto.
  - pose proof (val_not_1 x Hx) as Hn. destruct (Nat.eqb_spec 1 x); [congruence|].
    rewrite plain_none by (intros He; apply (val_not_1 1); [right; auto|auto]). reflexivity.
  - pose proof (val_not_parvar x p Hx P) as Hn. destruct (Nat.eqb_spec (S p) x); [congruence|].
    rewrite dtr_par by auto.
    rewrite plain_none by (intros He; eapply (val_not_parvar (S p) p); [right; auto|auto|auto]). reflexivity.
Qed.
Lemma divisors_user r W : is_val st r -> udivs_ok st r W -> divisors_ok (graph_of h) r (tr W).
Proof.
  intros Hr HW v Hv.
  destruct (reach_user r v Hr Hv) as [[Hu Hk]|[->|(p & -> & P & Hu)]].
  - destruct Hk as [[x E]|[l E]].
    + rewrite plain_none by (intros [l' E']; congruence). exact Logic.I.
    + specialize (HW v l Hu E). assert (He : is_exp st v) by (exists l; auto).
      destruct (i_exp _ _ _ I v l E) as (B & _ & F & K).
      unfold items, graph_of, base. cbn [fst snd]. rewrite B.
      clear E B Hu Hv. revert K HW. generalize (n0 : T) as cur.
      induction F as [|o i os l R F IH]; intros cur K HW; [exact Logic.I|].
      inversion K as [|? ? K1 K2]; subst. destruct HW as [A1 A2].
      assert (Ag : agree (at_ v cur (tr W)) (at_ v cur W) i) by now apply at_agree.
      split.
      * destruct R; simpl; auto. simpl in K1. destruct Ag as (G1 & G2 & _).
        eapply rep_div; eauto.
      * rewrite (item_sem o i _ (at_ v cur W) R Ag). auto.
  - rewrite plain_none by (intros He; apply (val_not_1 1); [right; auto|auto]). exact Logic.I.
  - rewrite plain_none by (intros He; eapply (val_not_parvar (S p) p); [right; auto|auto|auto]). exact Logic.I.
Qed.
Lemma refids_user v o k : In o (c_items (cells h v)) -> In k (refids o) -> st k <> None \/ k = 1.
Proof.
  intros Ho Hk. destruct (item_of v o Ho) as (l & i & E & Hi & R & K).
  assert (X : In k (irefs i) \/ In k (ipars i) \/ k = 1).
  { destruct R; simpl in *.
    - destruct (rep_refids o t H k Hk); auto.
    - destruct Hk as [<-|[]]; auto.
    - destruct Hk as [<-|[]]; auto. }
  destruct X as [X|[X|X]]; auto.
  - left. apply val_dom. eapply item_ok_refs; eauto.
  - left. destruct (item_ok_pars _ _ _ K X) as [y B]. congruence.
Qed.
Lemma unique_user r : unique_ids (graph_of h) r.
Proof.
  split; [|split].
  - intros v _. apply (i_nodup _ _ _ I).
  - intros v w k _ _. apply (i_disj _ _ _ I).
  - intros v w k o _ _ Hk Ho Hr. destruct (i_ids _ _ _ I v k Hk) as (A & B & _).
    destruct (refids_user w o k Ho Hr) as [X| ->]; [congruence|lia].
Qed.
Lemma target_user r x : is_exp st r -> is_val st x -> utarget st r x -> rev_target (graph_of h) r x.
Proof.
  intros Hr Hx Ht. split; [split; [|split]|split].
  - intros v _ Hi. destruct (i_ids _ _ _ I v x Hi) as (_ & A & _). now apply val_dom in Hx.
  - intros v o _ Ho Hp. unfold items, graph_of in Ho. cbn [snd] in Ho.
    destruct (item_of v o Ho) as (l & i & E & Hi & R & K).
    assert (X : In x (ipars i)) by (destruct R; simpl in *; try contradiction; eapply rep_parids; eauto).
    eapply par_not_val; [eapply item_ok_pars; eauto|auto].
  - intros v Hv Ho. unfold items, graph_of in Ho. cbn [snd] in Ho.
    destruct (item_of v _ Ho) as (l & i & E & Hi & R & K).
    inversion R; subst.
    + simpl in K. destruct Ht as [[y A]|(l' & A & _ & _ & B)]; [destruct K; congruence|].
      apply (B v l); auto.
      destruct (reach_user r v) as [[X _]|[X|(p & X & P & _)]]; auto; [right; auto| |].
      * subst v. exfalso. apply (val_not_1 1); [right; exists l; auto|auto].
      * subst v. exfalso. eapply (val_not_parvar (S p) p); [right; exists l; auto|auto|auto].
    + apply (val_not_1 1); auto.
  - destruct Ht as [[y A]|(l' & A & B & _)]; auto. intros ->. destruct Hr; congruence.
  - intros o Ho Hl. unfold items, graph_of in Ho. cbn [snd] in Ho.
    destruct (item_of x o Ho) as (l & i & E & Hi & R & K).
    destruct Ht as [[y A]|(l' & A & _ & B & _)]; [congruence|].
    destruct (item_leaves o i x R Hl) as [X|[(p & X & Y)|X]].
    + eapply (B i); eauto. congruence.
    + eapply (val_not_parvar x p); eauto. eapply item_ok_pars; eauto.
    + apply (val_not_1 x); auto.
Qed.
End Facts.

(** ** Preservation *)

(** Kinds never change. *)
Definition grows (st st' : store) : Prop :=
  (forall v, is_var st v -> is_var st' v) /\ (forall v, is_exp st v -> is_exp st' v) /\ (forall v, is_par st v -> is_par st' v).
Lemma term_ok_grows st st' t : grows st st' -> term_ok st t -> term_ok st' t.
Proof.
  intros (A & B & C) [H1 H2]. split; auto. intros v Hv. destruct (H1 v Hv); auto.
Qed.
Lemma item_ok_grows st st' i : grows st st' -> item_ok st i -> item_ok st' i.
Proof. destruct i; simpl; auto; [apply term_ok_grows|intros (A & B & C); auto]. Qed.
Lemma items_ok_grows st st' l : grows st st' -> Forall (item_ok st) l -> Forall (item_ok st') l.
Proof. intros G H. eapply Forall_impl; [|exact H]. intros i. now apply item_ok_grows. Qed.
Lemma put_same st v o : put (T:=T) st v o v = Some o.
Proof. unfold put. now rewrite at_same. Qed.
Lemma put_other st v o w : w <> v -> put (T:=T) st v o w = st w.
Proof. intros. unfold put. now rewrite at_other. Qed.
Lemma grows_fresh (st : store) v o : st v = None -> grows st (put st v o).
Proof.
  intros E. repeat apply conj; intros w [x H]; exists x; rewrite put_other; auto; congruence.
Qed.

Lemma put_none (st : store) v o w : put st v o w <> None -> w = v \/ st w <> None.
Proof. destruct (Nat.eq_dec w v); auto. rewrite put_other by auto. auto. Qed.
Lemma is_exp_put (st : store) v o w : w <> v -> is_exp (put st v o) w -> is_exp st w.
Proof. intros Hn [l E]. rewrite put_other in E by auto. exists l; auto. Qed.
Lemma is_par_put (st : store) v o w : w <> v -> is_par (put st v o) w -> is_par st w.
Proof. intros Hn [l E]. rewrite put_other in E by auto. exists l; auto. Qed.

Lemma cells_bump n (h : heap) : cells (bump n h) = cells h.
Proof. reflexivity. Qed.
Lemma nids_other (h : heap) v c n w : w <> v -> node_ids (graph_of (bump n (setc h v c))) w = node_ids (graph_of h) w.
Proof. intros H. unfold node_ids, items, graph_of. cbn [snd]. rewrite cells_bump, setc_other; auto. Qed.
Lemma nids_same (h : heap) v c n : node_ids (graph_of (bump n (setc h v c))) v = flat_map opids (c_items c).
Proof. unfold node_ids, items, graph_of. cbn [snd]. rewrite cells_bump, setc_same; auto. Qed.

(** Node indices are never S p for a parameter that is still to come, nor a future handle. *)
Lemma ids_lt h st tc v k : Inv h st tc -> In k (node_ids (graph_of h) v) -> k < next h.
Proof. intros I Hk. apply (i_ids _ _ _ I) in Hk. lia. Qed.

(** Creating or redefining an expression. *)
Lemma inv_exp h st tc e n l os c :
  Inv h st tc -> (st e = None /\ next h <= e /\ c = fresh_cell n0 os \/
                  is_exp st e /\ c = set_items os (cells h e)) ->
  e < n -> next h <= n -> l <> [] -> Forall2 rep_item os l -> Forall (item_ok st) l ->
  (forall o, In o os -> In o (c_items (cells h e)) \/ forall k, In k (opids o) -> next h <= k < n /\ k <> e) ->
  NoDup (flat_map opids os) ->
  Inv (bump n (setc h e c)) (put st e (OExp l)) tc.
Proof.
  intros I Hc He Hn Hl F K Hid Hnd.
  assert (G : grows st (put st e (OExp l))).
  { destruct Hc as [(E & _)|([l0 E] & _)]; [now apply grows_fresh|].
    repeat apply conj; intros w [x H]; destruct (Nat.eq_dec w e) as [->|Hne];
    try congruence; try (exists x; rewrite put_other; auto; fail); eexists; apply put_same. }
  assert (Hit : c_items c = os) by (destruct Hc as [(_ & _ & ->)|(_ & ->)]; reflexivity).
  assert (Hbase : c_base c = n0).
  { destruct Hc as [(_ & _ & ->)|([l0 E] & ->)]; [reflexivity|]. now apply (i_exp _ _ _ I e l0). }
  assert (He1 : e <> 1).
  { destruct Hc as [(_ & E & _)|([l0 E] & _)].
    - pose proof (i_two _ _ _ I). lia.
    - assert (X : st e <> None) by congruence. apply (i_dom _ _ _ I) in X. lia. }
  assert (He2 : 2 <= e).
  { destruct Hc as [(_ & E & _)|([l0 E] & _)].
    - pose proof (i_two _ _ _ I). lia.
    - assert (X : st e <> None) by congruence. apply (i_dom _ _ _ I) in X. lia. }
  (* e is not the variable behind a parameter *)
  assert (Hep : forall p, is_par st p -> e <> S p).
  { intros p [x P] ->. destruct (i_par _ _ _ I p x P) as (_ & A & B).
    destruct Hc as [(_ & E & _)|([l0 E] & _)]; [lia|congruence]. }
  assert (Hnp : forall p, is_par (put st e (OExp l)) p -> is_par st p).
  { intros p [x P]. destruct (Nat.eq_dec p e) as [->|Hne].
    - rewrite put_same in P. discriminate.
    - rewrite put_other in P by auto. exists x; auto. }
  assert (Hone : forall k, In k (flat_map opids os) -> In k (node_ids (graph_of h) e) \/ (next h <= k < n /\ k <> e)).
  { intros k Hk. apply in_flat_map in Hk. destruct Hk as (o & Ho & Hk).
    destruct (Hid o Ho) as [X|X]; auto. left. unfold node_ids. apply in_flat_map. exists o. auto. }
  assert (Hpn : forall p, is_par st p -> S p < next h) by (intros p [x P]; apply (i_par _ _ _ I p x P)).
  constructor.
  - rewrite cells_bump, setc_other by auto. apply (i_t0 _ _ _ I).
  - intros v Hv. cbn [next bump]. apply put_none in Hv. destruct Hv as [->|Hv]; [lia|].
    apply (i_dom _ _ _ I) in Hv. lia.
  - intros v Hv. destruct (Nat.eq_dec v e) as [->|Hne].
    + exfalso. apply Hv. exists l. apply put_same.
    + rewrite cells_bump, setc_other by auto. apply (i_none _ _ _ I).
      intros X. apply Hv. apply G. auto.
  - intros v x Hv. destruct (Nat.eq_dec v e) as [->|Hne]; [rewrite put_same in Hv; discriminate|].
    rewrite put_other in Hv by auto. rewrite cells_bump, setc_other by auto. now apply (i_var _ _ _ I).
  - intros p x Hp. assert (P : is_par st p) by (apply Hnp; exists x; auto).
    destruct (Nat.eq_dec p e) as [->|Hne]; [rewrite put_same in Hp; discriminate|].
    rewrite put_other in Hp by auto. specialize (Hep p P).
    destruct (i_par _ _ _ I p x Hp) as (A & B & C).
    rewrite cells_bump, setc_other by auto. rewrite put_other by auto. cbn [next bump]. split; auto. split; auto. lia.
  - intros v l0 Hv. destruct (Nat.eq_dec v e) as [->|Hne].
    + rewrite put_same in Hv. injection Hv as <-. rewrite cells_bump, setc_same, Hbase, Hit.
      split; auto. split; auto. split; auto. eapply items_ok_grows; eauto.
    + rewrite put_other in Hv by auto. rewrite cells_bump, setc_other by auto.
      destruct (i_exp _ _ _ I v l0 Hv) as (A & B & C & D).
      split; auto. split; auto. split; auto. eapply items_ok_grows; eauto.
  - intros v k Hk. cbn [next bump].
    assert (X : (exists w, In k (node_ids (graph_of h) w)) \/ (next h <= k < n /\ k <> e)).
    { destruct (Nat.eq_dec v e) as [->|Hne].
      - rewrite nids_same, Hit in Hk. destruct (Hone k Hk); eauto.
      - rewrite nids_other in Hk by auto. eauto. }
    destruct X as [[w X]|[X Y]].
    + destruct (i_ids _ _ _ I w k X) as (A & B & C). split; [lia|]. split.
      * rewrite put_other; auto. intros ->.
        destruct Hc as [(_ & E & _)|([l1 E] & _)]; [lia|congruence].
      * intros p Hp. apply C. auto.
    + split; [pose proof (i_two _ _ _ I); lia|]. split.
      * rewrite put_other by auto. destruct (st k) as [o|] eqn:E; auto.
        assert (Z : st k <> None) by congruence. apply (i_dom _ _ _ I) in Z. lia.
      * intros p Hp. apply Hnp, Hpn in Hp. lia.
  - intros v. destruct (Nat.eq_dec v e) as [->|Hne].
    + rewrite nids_same, Hit. auto.
    + rewrite nids_other by auto. apply (i_nodup _ _ _ I).
  - intros v w k Hvw Hv Hw.
    destruct (Nat.eq_dec v e) as [->|Hne], (Nat.eq_dec w e) as [->|Hne']; try congruence.
    + rewrite nids_same, Hit in Hv. rewrite nids_other in Hw by auto.
      destruct (Hone k Hv) as [X|[X _]].
      * eapply (i_disj _ _ _ I e w); eauto.
      * apply (ids_lt _ _ _ w k I) in Hw. lia.
    + rewrite nids_same, Hit in Hw. rewrite nids_other in Hv by auto.
      destruct (Hone k Hw) as [X|[X _]].
      * eapply (i_disj _ _ _ I e v); eauto.
      * apply (ids_lt _ _ _ v k I) in Hv. lia.
    + rewrite nids_other in Hv, Hw by auto. eapply (i_disj _ _ _ I v w); eauto.
  - exact (i_memo _ _ _ I).
  - intros v. rewrite cells_bump. destruct (Nat.eq_dec v e) as [->|Hne].
    + rewrite setc_same, Hit. intros E. rewrite E in F. inversion F. congruence.
    + rewrite setc_other by auto. apply (i_plain _ _ _ I).
  - intros v Hv Ht. rewrite cells_bump. destruct (Nat.eq_dec v e) as [->|Hne].
    + rewrite setc_same. destruct Hc as [(E & _)|(Ex & ->)].
      * exfalso. apply (i_tdom _ _ _ I) in Ht. congruence.
      * simpl. apply (i_touch _ _ _ I); auto.
    + rewrite setc_other by auto. apply (i_touch _ _ _ I); auto. eapply is_exp_put; eauto.
  - intros v Hv Ht. rewrite cells_bump. destruct (Nat.eq_dec v e) as [->|Hne].
    + rewrite setc_same. destruct Hc as [(E & _ & ->)|(Ex & ->)].
      * repeat split; auto.
      * destruct (i_untouch _ _ _ I e Ex Ht) as (A & B & C & D).
        repeat split; simpl; auto. destruct D as [D|D]; auto.
        exfalso. eapply exp_ne; eauto.
    + rewrite setc_other by auto. apply (i_untouch _ _ _ I); auto. eapply is_exp_put; eauto.
  - intros v Ht. destruct (Nat.eq_dec v e) as [->|Hne]; [rewrite put_same; discriminate|].
    rewrite put_other by auto. now apply (i_tdom _ _ _ I).
  - cbn [next bump]. pose proof (i_two _ _ _ I). lia.
Qed.

(** Creating a variable or a parameter, assigning a number: one plain cell [c] changes and the
    store entry of [v] becomes [o]. *)
Lemma inv_plain h st tc v o x n c vis :
  Inv h st tc -> (o = OVar x /\ c = v /\ (st v = None /\ next h <= v < n \/ is_var st v) \/
                  o = OPar x /\ c = S v /\ (st v = None /\ next h <= v /\ S v < n \/ is_par st v)) ->
  next h <= n ->
  Inv (bump n (setc h c (mkCell x x n0 [] [] vis))) (put st v o) tc.
Proof.
  intros I Ho Hn.
  assert (Hv : st v = None \/ ~ is_exp st v) by (destruct Ho as [(_ & _ & [[E _]|[y E]])|(_ & _ & [[E _]|[y E]])]; auto; right; intros [l E']; congruence).
  assert (Hvn : ~ is_exp st v) by (destruct Hv as [E|]; auto; intros [l E']; congruence).
  assert (Hcn : ~ is_exp st c).
  { destruct Ho as [(_ & -> & _)|(_ & -> & [(E & A & B)|[y E]])]; auto.
    - intros [l E']. assert (X : st (S v) <> None) by congruence. apply (i_dom _ _ _ I) in X. lia.
    - intros [l E']. destruct (i_par _ _ _ I v y E) as (_ & X & _). congruence. }
  assert (Hci : c_items (cells h c) = []) by now apply (i_none _ _ _ I).
  assert (Hexp : forall w, is_exp (put st v o) w <-> is_exp st w).
  { intros w. destruct (Nat.eq_dec w v) as [->|Hne].
    - split; [|tauto]. intros [l E]. rewrite put_same in E. destruct Ho as [(-> & _)|(-> & _)]; discriminate.
    - split; intros [l E]; exists l; [rewrite put_other in E|rewrite put_other]; auto. }
  assert (G : grows st (put st v o)).
  { repeat apply conj; intros w [y E]; destruct (Nat.eq_dec w v) as [->|Hne];
    try (exists y; rewrite put_other; auto; fail); destruct Ho as [(-> & _ & [[E' _]|[z E']])|(-> & _ & [[E' _]|[z E']])]; try congruence.
    all: exists x; apply put_same. }
  assert (Hge : st v = None -> next h <= v) by (destruct Ho as [(_ & _ & [[E A]|[y E]])|(_ & _ & [[E A]|[y E]])]; intros; try congruence; lia).
  assert (Hn1 : c <> 1).
  { destruct Ho as [(_ & -> & [[E A]|[y E]])|(_ & -> & [[E A]|[y E]])]; pose proof (i_two _ _ _ I); try lia;
    assert (X : st v <> None) by congruence; apply (i_dom _ _ _ I) in X; lia. }
  assert (Hids : forall w, node_ids (graph_of (bump n (setc h c (mkCell x x n0 [] [] vis)))) w = node_ids (graph_of h) w).
  { intros w. destruct (Nat.eq_dec w c) as [->|Hne]; [|now apply nids_other].
    rewrite nids_same. unfold node_ids, items, graph_of. cbn [snd]. now rewrite Hci. }
  assert (Hit : forall w, c_items (cells (bump n (setc h c (mkCell x x n0 [] [] vis))) w) = c_items (cells h w)).
  { intros w. rewrite cells_bump. destruct (Nat.eq_dec w c) as [->|Hne]; [now rewrite setc_same|now rewrite setc_other]. }
  constructor.
  - rewrite cells_bump, setc_other by auto. apply (i_t0 _ _ _ I).
  - intros w Hw. cbn [next bump]. apply put_none in Hw. destruct Hw as [->|Hw].
    + destruct Ho as [(_ & _ & [[E A]|[y E]])|(_ & _ & [[E A]|[y E]])]; pose proof (i_two _ _ _ I); try lia;
      assert (X : st v <> None) by congruence; apply (i_dom _ _ _ I) in X; lia.
    + apply (i_dom _ _ _ I) in Hw. lia.
  - intros w Hw. rewrite Hit. apply (i_none _ _ _ I). rewrite <- Hexp. auto.
  - intros w y Hw. rewrite cells_bump. destruct (Nat.eq_dec w v) as [->|Hne].
    + rewrite put_same in Hw. injection Hw as ->. destruct Ho as [(E & -> & _)|(E & _)]; [|discriminate].
      injection E as ->. now rewrite setc_same.
    + rewrite put_other in Hw by auto. rewrite setc_other; [now apply (i_var _ _ _ I)|].
      intros ->. assert (X : st c <> None) by congruence.
      destruct Ho as [(_ & -> & _)|(_ & -> & [(E & A & B)|[z E]])]; [congruence| |].
      * apply (i_dom _ _ _ I) in X. lia.
      * destruct (i_par _ _ _ I v z E) as (_ & Y & _). congruence.
  - intros p y Hp. rewrite cells_bump. cbn [next bump]. destruct (Nat.eq_dec p v) as [->|Hne].
    + rewrite put_same in Hp. injection Hp as ->. destruct Ho as [(E & _)|(E & -> & Q)]; [discriminate|].
      injection E as ->. rewrite setc_same. split; auto. rewrite put_other by lia.
      destruct Q as [(E & A & B)|[z E]].
      * split; [|lia]. destruct (st (S v)) eqn:Es; auto. assert (X : st (S v) <> None) by congruence. apply (i_dom _ _ _ I) in X. lia.
      * destruct (i_par _ _ _ I v z E) as (_ & Y & Z). split; auto. lia.
    + rewrite put_other in Hp by auto. destruct (i_par _ _ _ I p y Hp) as (A & B & C).
      rewrite setc_other.
      * split; auto. split; [|lia]. rewrite put_other; auto. intros Ev.
        destruct Ho as [(_ & _ & [[E Q]|[z E]])|(_ & _ & [[E Q]|[z E]])]; try (rewrite <- Ev in E; congruence); lia.
      * destruct Ho as [(_ & -> & [[E Q]|[z E]])|(_ & -> & [[E Q]|[z E]])]; try lia; intros X; subst; congruence.
  - intros w l Hw. destruct (Nat.eq_dec w v) as [->|Hne].
    + rewrite put_same in Hw. destruct Ho as [(-> & _)|(-> & _)]; discriminate.
    + rewrite put_other in Hw by auto. destruct (i_exp _ _ _ I w l Hw) as (A & B & C & D).
      rewrite Hit. rewrite cells_bump, setc_other by (intros ->; apply Hcn; exists l; auto).
      split; auto. split; auto. split; auto. eapply items_ok_grows; eauto.
  - intros w k Hk. rewrite Hids in Hk. destruct (i_ids _ _ _ I w k Hk) as (A & B & C). cbn [next bump].
    split; [lia|]. split.
    + rewrite put_other; auto. intros ->.
      destruct Ho as [(_ & _ & [[E Q]|[z E]])|(_ & _ & [[E Q]|[z E]])]; try lia; congruence.
    + intros p Hp. destruct (Nat.eq_dec p v) as [->|Hne]; [|apply C; eapply is_par_put; eauto].
      destruct Ho as [(-> & _)|(-> & _ & [(E & Q & R)|Q])].
      * destruct Hp as [z E]. rewrite put_same in E. discriminate.
      * lia.
      * auto.
  - intros w. rewrite Hids. apply (i_nodup _ _ _ I).
  - intros w u k. rewrite !Hids. apply (i_disj _ _ _ I).
  - exact (i_memo _ _ _ I).
  - intros w. rewrite Hit, cells_bump. destruct (Nat.eq_dec w c) as [->|Hne].
    + rewrite setc_same. intros _. repeat split; auto.
    + rewrite setc_other by auto. apply (i_plain _ _ _ I).
  - intros w Hw Ht. apply Hexp in Hw. rewrite cells_bump, setc_other by congruence. apply (i_touch _ _ _ I); auto.
  - intros w Hw Ht. apply Hexp in Hw. rewrite cells_bump, setc_other by congruence. apply (i_untouch _ _ _ I); auto.
  - intros w Ht. destruct (Nat.eq_dec w v) as [->|Hne]; [rewrite put_same; discriminate|].
    rewrite put_other by auto. now apply (i_tdom _ _ _ I).
  - cbn [next bump]. pose proof (i_two _ _ _ I). lia.
Qed.

(** Queries. *)
Lemma inv_query h st tc r h' : Inv h st tc -> is_exp st r -> keeps h h' r ->
  Inv h' st (fun v => tc v \/ ureach st r v).
Proof.
  intros I Hr (SG & Ev & _ & Hp & Hf). destruct SG as (Gb & Gi & Gm & Gn).
  assert (Hids : forall w, node_ids (graph_of h') w = node_ids (graph_of h) w).
  { intros w. unfold node_ids, items, graph_of. cbn [snd]. now rewrite Gi. }
  assert (SG : same_graph h h') by (repeat apply conj; auto).
  constructor.
  - rewrite Gb. apply (i_t0 _ _ _ I).
  - rewrite Gn. apply (i_dom _ _ _ I).
  - intros v. rewrite Gi. apply (i_none _ _ _ I).
  - intros v x. rewrite Gb. apply (i_var _ _ _ I).
  - intros p x. rewrite Gb, Gn. apply (i_par _ _ _ I).
  - intros v l. rewrite Gb, Gi. apply (i_exp _ _ _ I).
  - intros v k. rewrite Hids, Gn. apply (i_ids _ _ _ I).
  - intros v. rewrite Hids. apply (i_nodup _ _ _ I).
  - intros v w k. rewrite !Hids. apply (i_disj _ _ _ I).
  - intros id. rewrite Gm. apply (i_memo _ _ _ I).
  - apply Hp. exact (i_plain _ _ _ I).
  - intros v Hv Ht.
    assert (Hne : c_items (cells h v) <> []) by (eapply exp_ne; eauto).
    destruct (c_vis (cells h' v)) eqn:V; auto. exfalso.
    assert (No : ~ reach (graph_of h) r v).
    { intros X. destruct (Ev v) as [_ Q]; [eapply reach_graph; eauto|].
      rewrite Q in V; [discriminate|now rewrite Gi]. }
    destruct Ht as [Ht|Ht].
    + rewrite (Hf v No), (i_touch _ _ _ I v Hv Ht) in V. discriminate.
    + apply No. eapply user_reach; eauto. right; auto.
  - intros v Hv Ht. rewrite (Hf v).
    + apply (i_untouch _ _ _ I); auto.
    + intros X. destruct (reach_user h st tc I r v) as [[A _]|[A|(p & A & B & _)]]; auto; [right; auto| |].
      * subst v. eapply (val_not_1 _ _ _ I 1); [right; auto|auto].
      * subst v. eapply (val_not_parvar _ _ _ I (S p) p); [right; auto|auto|auto].
  - intros v [Ht|Ht]; [now apply (i_tdom _ _ _ I)|].
    eapply ureach_dom; eauto. destruct Hr as [l E]. congruence.
  - rewrite Gn. exact (i_two _ _ _ I).
Qed.

Lemma reads_len r xs : forall h : heap, length (fst (reads r xs h)) = length xs.
Proof.
  induction xs as [|x xs IH]; intros h; auto. cbn [reads].
  destruct (DevalR r x h) as [d h1]. specialize (IH h1). destruct (reads r xs h1). simpl in *. auto.
Qed.

(** ** One command *)
Theorem step_ok pad h st tc c : Inv h st tc -> legal st tc c ->
  exists o h', step pad c h = Some (o, h') /\ uanswer st c o /\ Inv h' (uafter st c o) (touch st c tc).
Proof.
  intros I Hl.
  assert (Hfresh : forall k, next h <= k -> st k = None).
  { intros k Hk. destruct (st k) eqn:E; auto. assert (X : st k <> None) by congruence. apply (i_dom _ _ _ I) in X. lia. }
  assert (Hfuel : depth (next h) <= fuel_for pad h) by (unfold fuel_for; lia).
  destruct c as [x|x| |t|e|e t|e e'|v x|p x|r|r x|r xs]; cbn [step legal] in *.
  - (* CVar *)
    eexists _, _. split; [reflexivity|]. split; [exists (next h); auto|]. cbn [uafter].
    apply (inv_plain h st tc (next h) (OVar x) x); auto. left. split; auto. split; auto.
  - (* CPar *)
    eexists _, _. split; [reflexivity|]. split; [exists (next h); auto|]. cbn [uafter].
    apply (inv_plain h st tc (next h) (OPar x) x); auto. right. split; auto. split; auto.
  - (* CEmpty *)
    unfold new_exp. eexists _, _. split; [reflexivity|]. split; [exists (S (next h)); split; auto|]. cbn [uafter].
    apply inv_exp with (os := [Leaf 1]); [exact I|left; repeat split; auto|lia|lia|discriminate| | | |].
    + repeat constructor.
    + repeat constructor.
    + intros o [<-|[]]. right. intros k [].
    + constructor.
  - (* CExpr *)
    destruct (build t (next h)) as [o n1] eqn:Eb. destruct (build_rep t (next h)) as [B1 B2]. rewrite Eb in B1, B2. cbn [fst snd] in *.
    unfold new_exp. destruct (wrap_spec o t (S (S n1)) B2) as (W1 & W2 & W3 & W4).
    destruct (wrap o (S (S n1))) as [l n2]. cbn [fst snd] in *.
    eexists _, _. split; [reflexivity|]. split; [exists (S n1); split; auto|]. cbn [uafter].
    apply inv_exp with (os := l); [exact I|left; repeat split; auto|lia|lia|discriminate|auto|constructor; [exact Hl|constructor]| |auto].
    + intros o' Ho'. right. intros k Hk.
      assert (X : In k (flat_map opids l)) by (apply in_flat_map; eauto). apply W4 in X. lia.
  - (* CCopy *)
    unfold new_exp. eexists _, _. split; [reflexivity|]. split; [exists (S (next h)); split; auto|]. cbn [uafter].
    apply inv_exp with (os := [Leaf e]); [exact I|left; repeat split; auto|lia|lia|discriminate|repeat constructor|repeat constructor; auto| |].
    + intros o [<-|[]]. right. intros k [].
    + constructor.
  - (* CAssign *)
    destruct Hl as [[l0 El] Ht].
    destruct (build t (next h)) as [o n1] eqn:Eb. destruct (build_rep t (next h)) as [B1 B2]. rewrite Eb in B1, B2. cbn [fst snd] in *.
    destruct (wrap_spec o t n1 B2) as (W1 & W2 & W3 & W4). destruct (wrap o n1) as [l n2]. cbn [fst snd] in *.
    eexists _, _. split; [reflexivity|]. split; [reflexivity|]. cbn [uafter]. rewrite El.
    assert (Hdom : 2 <= e < next h) by (apply (i_dom _ _ _ I); congruence).
    assert (Fm : find_me e o = mentions e t).
    { apply rep_find; auto. intros Hp. destruct (proj2 Ht e Hp). congruence. }
    rewrite Fm. destruct (i_exp _ _ _ I e l0 El) as (_ & Hne & F & K).
    assert (Hids : forall o', In o' l -> forall k, In k (opids o') -> next h <= k < n2 /\ k <> e).
    { intros o' Ho' k Hk. assert (X : In k (flat_map opids l)) by (apply in_flat_map; eauto). apply W4 in X. lia. }
    unfold modc. destruct (mentions e t).
    + apply inv_exp with (os := c_items (cells h e) ++ l); auto; try lia.
      * right. split; [exists l0; auto|auto].
      * intros E. apply app_eq_nil in E. destruct E; discriminate.
      * now apply Forall2_app.
      * apply Forall_app. split; auto.
      * intros o' Ho'. apply in_app_or in Ho'. destruct Ho' as [Ho'|Ho']; auto. right. eauto.
      * rewrite flat_map_app. apply NoDup_app_intro; auto.
        { apply (i_nodup _ _ _ I e). }
        intros k Hk Hk'. assert (X : In k (node_ids (graph_of h) e)) by exact Hk. apply (ids_lt _ _ _ _ _ I) in X.
        apply W4 in Hk'. lia.
    + apply inv_exp with (os := l); auto; try lia.
      * right. split; [exists l0; auto|auto].
      * discriminate.
      * intros o' Ho'. right. eauto.
  - (* CAssignE *)
    destruct Hl as [[l0 El] He'].
    eexists _, _. split; [reflexivity|]. split; [reflexivity|]. cbn [uafter]. rewrite El.
    assert (Hdom : 2 <= e < next h) by (apply (i_dom _ _ _ I); congruence).
    destruct (i_exp _ _ _ I e l0 El) as (_ & Hne & F & K).
    unfold modc. set (hh := setc h e _).
    replace hh with (bump (next h) hh) by reflexivity. unfold hh. clear hh.
    destruct (Nat.eqb e e').
    + apply inv_exp with (os := c_items (cells h e) ++ [Leaf e']); auto; try lia.
      * right. split; [exists l0; auto|auto].
      * intros E. apply app_eq_nil in E. destruct E; discriminate.
      * apply Forall2_app; auto. repeat constructor.
      * apply Forall_app. split; auto.
      * intros o' Ho'. apply in_app_or in Ho'. destruct Ho' as [Ho'|[<-|[]]]; auto. right. intros k [].
      * rewrite flat_map_app. simpl. rewrite app_nil_r. apply (i_nodup _ _ _ I e).
    + apply inv_exp with (os := [Leaf e']); auto; try lia; try discriminate.
      * right. split; [exists l0; auto|auto].
      * repeat constructor.
      * intros o' [<-|[]]. right. intros k [].
      * constructor.
  - (* CSet *)
    eexists _, _. split; [reflexivity|]. split; [reflexivity|]. cbn [uafter].
    unfold SetVar, modc. set (hh := setc h v _). replace hh with (bump (next h) hh) by reflexivity. unfold hh.
    apply (inv_plain h st tc v (OVar x) x); auto.
  - (* CSetPar *)
    eexists _, _. split; [reflexivity|]. split; [reflexivity|]. cbn [uafter].
    unfold SetVar, modc. set (hh := setc h (S p) _). replace hh with (bump (next h) hh) by reflexivity. unfold hh.
    apply (inv_plain h st tc p (OPar x) x); auto.
  - (* CEval *)
    pose proof (inv_ready h st tc I r Hl) as Rd. destruct Hl as (Hr & _).
    assert (Vr : is_val st r) by (right; auto).
    destruct (run1_ok (next h) (fuel_for pad h) r QEval h Rd Hfuel) as (o & h1 & E1 & _ & A1 & _); [intros; discriminate|].
    pose proof (run1_keeps (next h) (fuel_for pad h) r QEval h Rd (i_memo _ _ _ I) Hfuel Logic.I o h1 E1) as K.
    cbn [run1] in E1. destruct (Eval (fuel_for pad h) r h) as [[y h']|]; [|discriminate]. injection E1 as <- <-.
    eexists _, _. split; [reflexivity|]. split.
    + exists y. split; auto. intros W HW. cbn [answer] in A1.
      specialize (A1 _ (values_user h st tc I r W Vr HW)). injection A1 as ->. now apply (tr_val h st tc I).
    + cbn [uafter]. now apply (inv_query h).
  - (* CDevalF *)
    destruct Hl as [Hl Hx].
    pose proof (inv_ready h st tc I r Hl) as Rd. destruct Hl as (Hr & _).
    assert (Vr : is_val st r) by (right; auto).
    destruct (run1_ok (next h) (fuel_for pad h) r (QDevalF x) h Rd Hfuel) as (o & h1 & E1 & _ & A1 & _); [intros; discriminate|].
    pose proof (run1_keeps (next h) (fuel_for pad h) r (QDevalF x) h Rd (i_memo _ _ _ I) Hfuel Logic.I o h1 E1) as K.
    cbn [run1] in E1. destruct (DevalF (fuel_for pad h) r x h) as [[y h']|]; [|discriminate]. injection E1 as <- <-.
    eexists _, _. split; [reflexivity|]. split.
    + exists y. split; auto. intros W D HW HD. cbn [answer] in A1.
      specialize (A1 _ _ (values_user h st tc I r W Vr HW) (derivs_user h st tc I r W x D Vr Hx HW HD)).
      injection A1 as ->. now apply (dtr_val h st tc I).
    + cbn [uafter]. now apply (inv_query h).
  - (* CGrad *)
    destruct Hl as [Hl Hx].
    pose proof (inv_ready h st tc I r Hl) as Rd. destruct Hl as (Hr & _).
    assert (Vr : is_val st r) by (right; auto).
    destruct (run1_ok (next h) (fuel_for pad h) r (QGrad xs) h Rd Hfuel) as (o & h1 & E1 & _ & A1 & _); [intros; discriminate|].
    pose proof (run1_keeps (next h) (fuel_for pad h) r (QGrad xs) h Rd (i_memo _ _ _ I) Hfuel Logic.I o h1 E1) as K.
    cbn [run1] in E1. destruct (PreComp (fuel_for pad h) r h) as [h'|]; [|discriminate].
    destruct (reads r xs h') as [ys h2]. injection E1 as <- <-.
    eexists _, _. split; [reflexivity|]. split.
    + exists ys. split; auto. cbn [answer] in A1. destruct A1 as [A0 A1]. split; auto.
      intros W L HW Hd i x Hi Ht D HD.
      assert (Hvx : is_val st x) by (apply Hx; eapply nth_error_In; eauto).
      rewrite (A1 (tr st W) L (values_user h st tc I r W Vr HW) (divisors_user h st tc I r W Vr Hd) (unique_user h st tc I r) i x Hi
        (target_user h st tc I r x Hr Hvx Ht) _ (derivs_user h st tc I r W x D Vr Hvx HW HD)).
      f_equal. now apply (dtr_val h st tc I).
    + cbn [uafter]. now apply (inv_query h).
Qed.

Lemma inv0 : Inv heap0 store0 (fun _ => False).
Proof.
  assert (X : forall v, ~ is_exp (T:=T) store0 v) by (intros v [l E]; discriminate).
  assert (Z : forall v, c_items (cells (heap0 (T:=T)) v) = []) by (intros v; simpl; destruct (Nat.eqb v 0); reflexivity).
  assert (Y : forall v, node_ids (graph_of (heap0 (T:=T))) v = []).
  { intros v. unfold node_ids, items, graph_of. cbn [snd]. now rewrite Z. }
  constructor.
  - reflexivity.
  - intros v H. exfalso. apply H. reflexivity.
  - auto.
  - intros v x H. discriminate.
  - intros v x H. discriminate.
  - intros v x H. discriminate.
  - intros v k H. rewrite Y in H. destruct H.
  - intros v. rewrite Y. constructor.
  - intros v w k _ H. rewrite Y in H. destruct H.
  - intros id. reflexivity.
  - intros v _. simpl. destruct (Nat.eqb v 0); repeat split; auto.
  - intros v _ [].
  - intros v H. exfalso. eapply X; eauto.
  - intros v [].
  - auto.
Qed.

(** ** Whole programs *)
Theorem exec_ok pad p : forall h st tc, Inv h st tc -> well_behaved st tc p ->
  exists os h', exec pad p h = Some (os, h') /\ all_correct st p os.
Proof.
  induction p as [|c k IH]; intros h st tc I Hw.
  - exists [], h. simpl. auto.
  - destruct Hw as [Hl Hw]. destruct (step_ok pad h st tc c I Hl) as (o & h1 & E1 & A1 & I1).
    destruct (IH o h1 _ _ I1 (Hw o A1)) as (os & h2 & E2 & A2).
    exists (o :: os), h2. cbn [exec]. rewrite E1, E2. simpl. auto.
Qed.
End Build.
