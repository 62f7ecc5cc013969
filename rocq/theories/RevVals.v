(** * Reverse mode, level of values: the adjoints add up to the derivative

    [vtr] is the pass of traverse over matrices (no memory, no fuel); [vtr_grad] shows that
    the entry of the cache for x collects sum_lk adjoint(l,k) * d e(l,k) / d x(i,j). *)
From Coq Require Import List Arith Bool Lia Ring.
From Verif Require Import Num MatMem Kernels KernelFacts KernelProofs KernelBlocks KernelMore KernelStep Backend Square Sums Determ ConvDerv MatEngine MatGraph MatLeaf MatEval MatDeval MatSpec MatRev Exec.
Import ListNotations.
Set Implicit Arguments.
Unset Strict Implicit.

Section Vals.
Context {T : Type} {N : Num T}.
Variable G : graph T.
Variable rho : env T.
Notation mat := (mat T).

(** Expressions over matrices with explicit entries, no named sub-expressions. *)
Definition plain (e : mexp T) : Prop := forall o, In o (leaves e) -> is_leaf G o.
Fixpoint pval (e : mexp T) : mat :=
  match e with MLeaf o => leaf_mat G rho o | MBin k _ l r => bin_val k (pval l) (pval r) | MUn k _ a => un_val rho k (pval a) end.
Lemma mval_plain e v : plain e -> mval G rho e v -> v = pval e.
Proof.
  intros Hp Hv. induction Hv as [o Hl|o id e y v Hk Hv IH|k id l r v w Hl IHl Hr IHr Hd|k id e v He IH Hd]; simpl.
  - reflexivity.
  - specialize (Hp o (or_introl eq_refl)). unfold is_leaf in Hp. rewrite Hk in Hp. tauto.
  - rewrite IHl, IHr; [reflexivity| |]; intros o Ho; apply Hp; simpl; apply in_or_app; auto.
  - rewrite IH; [reflexivity|]. exact Hp.
Qed.

Definition acache : Type := key -> option mat.
Definition aput (ac : acache) (k : key) (v : mat) : acache := fun k' => if key_eq k' k then Some v else ac k'.
Definition aadd (ac : acache) (k : key) (v : mat) : acache := aput ac k (match ac k with Some u => madd u v | None => v end).
Lemma aadd_other ac k v k' : k' <> k -> aadd ac k v k' = ac k'.
Proof. intros H. unfold aadd, aput. destruct (key_eq k' k); congruence. Qed.
Lemma aadd_same ac k v : aadd ac k v k = Some (match ac k with Some u => madd u v | None => v end).
Proof. unfold aadd, aput. destruct (key_eq k k); congruence. Qed.

(** Contributions of an operator with adjoint c and operand values v, w. *)
Definition bin_adj (k : bop) (c v w : mat) : mat * mat :=
  match k with
  | BProd => (mmul c (mtr w), mmul (mtr v) c)
  | BHad => (mhad c (mmap (nmul n1) w), mhad (mmap (nmul n1) v) c)
  | BSum => (mmap (nmul n1) c, mmap (nmul n1) c)
  | BSub => (mmap (nmul n1) c, mmap (nmul nm1) c)
  end.
Definition un_adj (k : uop T) (c v : mat) : mat :=
  match k with USProdE s _ => mmap (nmul (e_val rho s 0)) c | USSumE _ _ => mmap (nmul n1) c | UTr => mtr c | USProd s => mmap (nmul s) c | USSum _ => mmap (nmul n1) c | UFun _ f' => mhad (mmap f' v) c
  | UInv g => mmap (nmul nm1) (mmul (mmul (minv g (mtr v)) c) (minv g (mtr v)))
  | UDet g d => mmap (nmul (mf c 0 0)) (mmap (nmul (d (mr v) (flat v))) (mtr (minv g v))) end.
(** The weight of the scalar operand: the sum of the products of adjoint and operand, or of the
    adjoint; and the entries for the variables of the scalar. *)
Definition un_weight (k : uop T) (c v : mat) : T :=
  match k with
  | USProdE _ _ => mf (mtrace (mmul (mtr c) v)) 0 0
  | USSumE _ _ => mf (mmul (mmul (mones 1 (mr c)) c) (mones (mc c) 1)) 0 0
  | _ => n0
  end.
Definition sentry (z : T) (s v : obj) : mat := mmap (nmul (nmul z (e_der rho s 0 v 0))) (meye 1).
Definition sadd (z : T) (s : obj) (vs : list obj) (ac : acache) : acache :=
  fold_left (fun ac v => aadd ac (KMat (g_nidx G v)) (sentry z s v)) vs ac.
Definition uadd (k : uop T) (z : T) (ac : acache) : acache := match k with USProdE s vs | USSumE s vs => sadd z s vs ac | _ => ac end.
Definition uvars (k : uop T) : list obj := match k with USProdE _ vs | USSumE _ vs => vs | _ => [] end.
Lemma sadd_other z s vs : forall ac k, (forall v, In v vs -> k <> KMat (g_nidx G v)) -> sadd z s vs ac k = ac k.
Proof.
  induction vs as [|v vs IH]; intros ac k H; [reflexivity|]. change (sadd z s vs (aadd ac (KMat (g_nidx G v)) (sentry z s v)) k = ac k).
  rewrite IH by (intros w Hw; apply H; simpl; auto). apply aadd_other. apply H. simpl. auto.
Qed.
Lemma uadd_other k z ac k' : (forall v, In v (uvars k) -> k' <> KMat (g_nidx G v)) -> uadd k z ac k' = ac k'.
Proof. destruct k; simpl; intros H; auto; now apply sadd_other. Qed.
Lemma uadd_node k z ac i : uadd k z ac (KNode i) = ac (KNode i).
Proof. apply uadd_other. discriminate. Qed.
Lemma svars_un k id a : svars (MUn k id a) = uvars k ++ svars a.
Proof. unfold svars. simpl. rewrite flat_map_app. destruct k; simpl; rewrite ?app_nil_r; reflexivity. Qed.
Lemma svars_bin k id (l r : mexp T) : svars (MBin k id l r) = svars l ++ svars r.
Proof. unfold svars. simpl. apply flat_map_app. Qed.
Fixpoint vtr (e : mexp T) (ac : acache) : acache :=
  match e with
  | MLeaf _ => ac
  | MBin k id l r =>
      match ac (KNode id) with
      | Some c => let d := bin_adj k c (pval l) (pval r) in
                  vtr r (vtr l (aadd (aadd ac (key_of G l) (fst d)) (key_of G r) (snd d)))
      | None => ac
      end
  | MUn k id a =>
      match ac (KNode id) with
      | Some c => vtr a (uadd k (un_weight k c (pval a)) (aadd ac (key_of G a) (un_adj k c (pval a))))
      | None => ac
      end
  end.

Definition fresh (ac : acache) (ids : list nat) : Prop := forall i, In i ids -> ac (KNode i) = None.
Definition top_ids (e : mexp T) : list nat := match e with MLeaf _ => [] | MBin _ id _ _ | MUn _ id _ => [id] end.
Definition sub_ids (e : mexp T) : list nat := match e with MLeaf _ => [] | MBin _ _ l r => nodes l ++ nodes r | MUn _ _ a => nodes a end.
Lemma nodes_top e i : In i (nodes e) -> In i (top_ids e) \/ In i (sub_ids e).
Proof. destruct e; simpl; tauto. Qed.
Lemma key_of_id e i : key_of G e = KNode i -> In i (nodes e).
Proof. destruct e; simpl; [discriminate| |]; intros [= ->]; auto. Qed.

(** vtr only adds entries for the nodes of e and for its leaves. *)
Lemma vtr_other e : forall ac k, (forall i, k = KNode i -> ~ In i (sub_ids e)) -> (forall o, In o (keyed e) -> k <> KMat (g_nidx G o)) ->
  vtr e ac k = ac k.
Proof.
  induction e as [o|k0 id l IHl r IHr|k0 id a IHa]; intros ac k Hk Ho'; [reflexivity| |];
    assert (Ho : forall o, In o (leaves _) -> k <> KMat (g_nidx G o)) by (intros o Q; apply Ho'; unfold keyed; apply in_or_app; left; exact Q);
    assert (Hv : forall o, In o (svars _) -> k <> KMat (g_nidx G o)) by (intros o Q; apply Ho'; unfold keyed; apply in_or_app; right; exact Q); simpl.
  - destruct (ac (KNode id)) as [c|]; auto. cbv zeta.
    assert (Kl : k <> key_of G l).
    { destruct l as [o| |]; simpl in *; [apply Ho; auto|intros E; eapply Hk; eauto; apply in_or_app; simpl; auto|intros E; eapply Hk; eauto; apply in_or_app; simpl; auto]. }
    assert (Kr : k <> key_of G r).
    { destruct r as [o| |]; simpl in *; [apply Ho; apply in_or_app; simpl; auto|intros E; eapply Hk; eauto; apply in_or_app; simpl; auto|intros E; eapply Hk; eauto; apply in_or_app; simpl; auto]. }
    rewrite IHr, IHl, !aadd_other; auto.
    + intros i -> Hi. apply (Hk i eq_refl). simpl. apply in_or_app. left. destruct l; simpl in *; tauto.
    + intros o Hin. apply in_app_or in Hin. destruct Hin; [apply Ho; simpl|apply Hv; rewrite svars_bin]; apply in_or_app; auto.
    + intros i -> Hi. apply (Hk i eq_refl). simpl. apply in_or_app. right. destruct r; simpl in *; tauto.
    + intros o Hin. apply in_app_or in Hin. destruct Hin; [apply Ho; simpl|apply Hv; rewrite svars_bin]; apply in_or_app; auto.
  - destruct (ac (KNode id)) as [c|]; auto.
    assert (Ka : k <> key_of G a).
    { destruct a as [o| |]; simpl in *; [apply Ho; auto|intros E; eapply Hk; eauto|intros E; eapply Hk; eauto]; simpl; auto. }
    rewrite IHa, uadd_other, aadd_other; auto.
    + intros v Q. apply Hv. rewrite svars_un. apply in_or_app. auto.
    + intros i -> Hi. apply (Hk i eq_refl). simpl. destruct a; simpl in *; tauto.
    + intros o Hin. apply in_app_or in Hin. destruct Hin; [now apply Ho|apply Hv; rewrite svars_un; apply in_or_app; auto].
Qed.
Lemma vtr_node e ac i : ~ In i (sub_ids e) -> vtr e ac (KNode i) = ac (KNode i).
Proof. intros H. apply vtr_other; [intros j [= <-]; exact H|discriminate]. Qed.
Lemma aadd_node ac e v i : ~ In i (nodes e) -> aadd ac (key_of G e) v (KNode i) = ac (KNode i).
Proof. intros H. apply aadd_other. intros E. apply H. symmetry in E. now apply key_of_id. Qed.
Lemma sub_nodes e i : In i (sub_ids e) -> In i (nodes e).
Proof. destruct e; simpl; auto. Qed.
Lemma top_sub e : NoDup (nodes e) -> forall i, In i (top_ids e) -> ~ In i (sub_ids e).
Proof. destruct e; simpl; intros H i; [tauto| |]; inversion H; subst; intros [<-|[]]; assumption. Qed.
Lemma aadd_top ac e v i : ~ In i (top_ids e) -> aadd ac (key_of G e) v (KNode i) = ac (KNode i).
Proof. intros H. apply aadd_other. destruct e; simpl; [discriminate| |]; intros [= ->]; apply H; simpl; auto. Qed.

(** Dimensions of adjoints. *)
Definition has_dims (e : mexp T) (c : mat) : Prop := mr c = rows G e /\ mc c = cols G e.
Lemma bin_adj_dims k l r c v w : has_dims l v -> has_dims r w -> bin_dims k v w -> mr c = rows G l -> mc c = cols G r ->
  has_dims l (fst (bin_adj k c v w)) /\ has_dims r (snd (bin_adj k c v w)).
Proof.
  unfold has_dims. intros [A1 A2] [B1 B2] D C1 C2. destruct k; cbn [bin_adj fst snd madd msub mhad mzip mmul mmap mtr mr mc bin_dims] in *; unfold same_dims in *; intuition congruence.
Qed.
Lemma un_adj_dims k id a c v : has_dims a v -> un_dims k v -> has_dims (MUn k id a) c -> has_dims a (un_adj k c v).
Proof. unfold has_dims. intros [A1 A2] Q. destruct k; cbn [rows cols un_adj un_dims mtr mmap mmul minv mhad mzip mr mc] in *; intros [C1 C2]; auto; split; congruence. Qed.
End Vals.

Section Grad.
Context {T : Type} {N : Num T}.
Variable L : NumLaws N.
Add Ring TRing : (law_ring N L).
Variable G : graph T.
Variable host : nat -> option obj.
Variable rank : obj -> nat.
Hypothesis WF : wf_graph G host rank.
Variable rho : env T.
Variable x : obj.
Hypothesis Xv : g_kind G x = LVar.
Notation mat := (mat T).
Notation pval := (pval G rho).
Notation vtr := (vtr G rho).
Notation kx := (KMat (g_nidx G x)).

Definition val_at (ac : acache (T := T)) (k : key) (i j : nat) : T := match ac k with Some v => mf v i j | None => n0 end.
Lemma val_at_add ac k v i j : val_at (aadd ac k v) k i j = nadd (val_at ac k i j) (mf v i j).
Proof. unfold val_at. rewrite aadd_same. destruct (ac k); simpl; [reflexivity|ring]. Qed.
Lemma val_at_other ac k v k' i j : k' <> k -> val_at (aadd ac k v) k' i j = val_at ac k' i j.
Proof. intros H. unfold val_at. now rewrite aadd_other. Qed.

(** Derivative of the weighted sum of the entries of e. *)
Definition weigh (e : mexp T) (c : mat) (D : nat -> nat -> nat -> nat -> T) (i j : nat) : T :=
  sum_n (rows G e) (fun l => sum_n (cols G e) (fun k => nmul (mf c l k) (D l k i j))).
(** Only x itself has the number of x, no matrix of scalar expressions depends on x, and no
    scalar operand depends on x unless x is one of its variables. *)
Definition only_x (e : mexp T) : Prop := (forall o, In o (leaves e) ->
  (g_nidx G o = g_nidx G x -> o = x) /\ (g_kind G o = LEnt -> forall n k, e_der rho o n x k = n0)) /\
  (forall s vs, In (s, vs) (sops e) -> (forall v, In v vs -> g_nidx G v = g_nidx G x -> v = x) /\ (~ In x vs -> forall n, e_der rho s 0 x n = n0)).

Lemma weigh_0 e c D i j : (forall l k, l < rows G e -> k < cols G e -> D l k i j = n0) -> weigh e c D i j = n0.
Proof. intros H. apply (sum_zero L). intros l Hl. apply (sum_zero L). intros k Hk. rewrite H by auto. ring. Qed.

(** What a leaf receives directly. *)
Definition direct (e : mexp T) (c : mat) (i j : nat) : T :=
  match e with MLeaf o => if Nat.eq_dec (g_nidx G o) (g_nidx G x) then mf c i j else n0 | _ => n0 end.
Lemma val_at_child ac e c i j : val_at (aadd ac (key_of G e) c) kx i j = nadd (val_at ac kx i j) (direct e c i j).
Proof.
  destruct e as [o| |]; simpl.
  - destruct (Nat.eq_dec (g_nidx G o) (g_nidx G x)) as [E|E].
    + rewrite E. apply val_at_add.
    + rewrite val_at_other by congruence. ring.
  - rewrite val_at_other by discriminate. ring.
  - rewrite val_at_other by discriminate. ring.
Qed.
Lemma direct_leaf o F D c i j : only_x (MLeaf o) -> is_leaf G o -> dif G rho x (MLeaf o) F D -> i < g_rows G x -> j < g_cols G x ->
  direct (MLeaf o) c i j = weigh (MLeaf o) c D i j.
Proof.
  intros Ho Hl HD Hi Hj. destruct (proj1 Ho o (or_introl eq_refl)) as [Hn He]. simpl. unfold weigh. cbn [rows cols].
  inversion HD as [o' F' Hc|o' F' Hk|o' F' Hk|o' id e y F' D' Hk| | | | | | | | | | | |]; subst.
  - rewrite (sum_zero L) by (intros; apply (sum_zero L); intros; ring). destruct (Nat.eq_dec _ _) as [E|E]; [|reflexivity].
    rewrite (Hn E) in Hc. unfold is_const in Hc. rewrite Xv in Hc. destruct Hc; discriminate.
  - destruct (Nat.eq_dec _ _) as [E|E].
    + rewrite (Hn E). rewrite (sum_n_ext (g := fun l => if l =? i then mf c i j else n0)).
      * symmetry. apply (sum_delta L (fun _ => mf c i j)). exact Hi.
      * intros l Hl'. rewrite Nat.eqb_refl. cbn [andb]. destruct (l =? i) eqn:El; [|apply (sum_zero L); intros; cbn [andb]; ring].
        cbn [andb]. apply Nat.eqb_eq in El. subst l. apply (sum_delta_mul_r L (fun k => mf c i k)). exact Hj.
    + symmetry. apply (sum_zero L). intros l _. apply (sum_zero L). intros k _. destruct (Nat.eqb_spec o x) as [Q|Q]; [congruence|]. simpl. ring.
  - rewrite (sum_zero L) by (intros; apply (sum_zero L); intros; rewrite (He Hk); ring). destruct (Nat.eq_dec _ _) as [E|E]; [|reflexivity].
    rewrite (Hn E) in Hk. congruence.
  - unfold is_leaf in Hl. rewrite Hk in Hl. tauto.
Qed.

Lemma sum2_ext n p (f g : nat -> nat -> T) : (forall a b, a < n -> b < p -> f a b = g a b) ->
  sum_n n (fun a => sum_n p (fun b => f a b)) = sum_n n (fun a => sum_n p (fun b => g a b)).
Proof. intros H. apply sum_n_ext. intros a Ha. apply sum_n_ext. intros b Hb. auto. Qed.
Lemma sum2_add n p (f g : nat -> nat -> T) :
  sum_n n (fun a => sum_n p (fun b => nadd (f a b) (g a b))) = nadd (sum_n n (fun a => sum_n p (fun b => f a b))) (sum_n n (fun a => sum_n p (fun b => g a b))).
Proof. rewrite <- (sum_add L). apply sum_n_ext. intros a _. apply (sum_add L). Qed.

Lemma pval_entry e F i j : plain G e -> fits G e -> den G rho e F -> i < rows G e -> j < cols G e -> mf (pval e) i j = F i j.
Proof.
  intros Hp Hf HF Hi Hj. destruct (den_mval L WF Hf HF) as (v & Hv & M1 & M2 & M3). rewrite <- (mval_plain Hp Hv). simpl in M1, M2. apply M3; congruence.
Qed.
Lemma pval_dims e F : plain G e -> fits G e -> den G rho e F -> has_dims G e (pval e).
Proof.
  intros Hp Hf HF. destruct (den_mval L WF Hf HF) as (v & Hv & M1 & M2 & _). rewrite <- (mval_plain Hp Hv). split; assumption.
Qed.

(** One step of the pass: the operands' weighted sums add up to the operator's. *)
Lemma step_bin k id l r c F1 D1 F2 D2 F D i j : plain G l -> plain G r -> fits G (MBin k id l r) -> has_dims G (MBin k id l r) c ->
  dif G rho x l F1 D1 -> dif G rho x r F2 D2 -> dif G rho x (MBin k id l r) F D ->
  nadd (weigh l (fst (bin_adj k c (pval l) (pval r))) D1 i j) (weigh r (snd (bin_adj k c (pval l) (pval r))) D2 i j) =
  weigh (MBin k id l r) c D i j.
Proof.
  intros Pl Pr Hf [C1 C2] H1 H2 HD. cbn [rows cols] in C1, C2.
  assert (Fl : fits G l /\ fits G r) by (inversion Hf; subst; auto). destruct Fl as [Fl Fr].
  assert (L1 : forall a b, a < rows G l -> b < cols G l -> mf (pval l) a b = F1 a b) by (intros; eapply pval_entry; eauto; eapply dif_den; eauto).
  assert (L2 : forall a b, a < rows G r -> b < cols G r -> mf (pval r) a b = F2 a b) by (intros; eapply pval_entry; eauto; eapply dif_den; eauto).
  destruct (pval_dims Pl Fl (dif_den H1)) as [V1 V2]. destruct (pval_dims Pr Fr (dif_den H2)) as [W1 W2].
  assert (U : exists Fl' Dl' Fr' Dr', dif G rho x l Fl' Dl' /\ dif G rho x r Fr' Dr' /\
    D = match k with
        | BSum => fun q a i j => nadd (Dl' q a i j) (Dr' q a i j)
        | BSub => fun q a i j => nsub (Dl' q a i j) (Dr' q a i j)
        | BHad => fun q a i j => nadd (nmul (Dl' q a i j) (Fr' q a)) (nmul (Fl' q a) (Dr' q a i j))
        | BProd => fun q k i j => sum_n (cols G l) (fun a => nadd (nmul (Dl' q a i j) (Fr' a k)) (nmul (Fl' q a) (Dr' a k i j)))
        end).
  { inversion HD; subst; do 4 eexists; (split; [eassumption|split; [eassumption|reflexivity]]). }
  destruct U as (F1' & D1' & F2' & D2' & U1 & U2 & ->).
  assert (DD : forall e F D F' D', dif G rho x e F D -> dif G rho x e F' D' -> F = F' /\ D = D') .
  { clear. intros e F D F' D' H. revert F' D'. induction H; intros F2 D2 HF2; inversion HF2; subst;
      try (match goal with Q : g_kind G ?o = KExp _ _ _, Q' : g_kind G ?o = KExp _ _ _ |- _ => rewrite Q in Q'; injection Q' as <- <- <- end; auto; fail);
      try (match goal with Q : den G rho ?e ?a, Q' : den G rho ?e ?b |- _ => pose proof (den_det Q Q') as -> end; split; reflexivity);
      try (repeat match goal with IH : forall F' D', dif G rho x ?e F' D' -> _, Q : dif G rho x ?e ?a ?b |- _ => destruct (IH _ _ Q) as [-> ->]; clear IH end; split; reflexivity);
      try (exfalso; unfold is_const in *; repeat match goal with Q : _ \/ _ |- _ => destruct Q end; congruence). }
  destruct (DD _ _ _ _ _ U1 H1) as [-> ->]. destruct (DD _ _ _ _ _ U2 H2) as [-> ->]. clear DD U1 U2 HD.
  unfold weigh. cbn [rows cols].
  destruct k; cbn [bin_adj fst snd].
  - assert (E : rows G l = rows G r /\ cols G l = cols G r) by (inversion Hf; subst; auto). destruct E as [E1 E2]. rewrite <- E1, <- E2.
    rewrite <- sum2_add. apply sum2_ext. intros a b Ha Hb. cbn [mmap mf]. ring.
  - assert (E : rows G l = rows G r /\ cols G l = cols G r) by (inversion Hf; subst; auto). destruct E as [E1 E2]. rewrite <- E1, <- E2.
    rewrite <- sum2_add. apply sum2_ext. intros a b Ha Hb. cbn [mmap mf]. rewrite (law_m1 _ L). unfold nopp. ring.
  - assert (E : cols G l = rows G r) by (inversion Hf; subst; auto; congruence).
    cbn [mmul mtr mf mr mc]. rewrite C2, V1, <- E.
    transitivity (nadd (sum_n (rows G l) (fun q => sum_n (cols G r) (fun k => sum_n (cols G l) (fun a => nmul (mf c q k) (nmul (D1 q a i j) (F2 a k))))))
                       (sum_n (rows G l) (fun q => sum_n (cols G r) (fun k => sum_n (cols G l) (fun a => nmul (mf c q k) (nmul (F1 q a) (D2 a k i j))))))).
    + f_equal.
      * apply sum_n_ext. intros q Hq. rewrite (sum_swap L). apply sum_n_ext. intros a Ha. rewrite <- (sum_mul_r L). apply sum_n_ext. intros k Hk.
        rewrite L2 by congruence. ring.
      * rewrite (sum_swap L (rows G l)). rewrite (sum_swap L (cols G l)). apply sum_n_ext. intros k Hk.
        rewrite (sum_swap L (rows G l)). apply sum_n_ext. intros a Ha. rewrite <- (sum_mul_r L). apply sum_n_ext. intros q Hq.
        rewrite L1 by congruence. ring.
    + rewrite <- sum2_add. apply sum2_ext. intros q k Hq Hk. rewrite <- (sum_add L), <- (sum_mul_l L). apply sum_n_ext. intros a Ha. ring.
  - assert (E : rows G l = rows G r /\ cols G l = cols G r) by (inversion Hf; subst; auto). destruct E as [E1 E2]. rewrite <- E1, <- E2.
    rewrite <- sum2_add. apply sum2_ext. intros a b Ha Hb. cbn [mhad mzip mmap mf]. rewrite L1 by congruence. rewrite L2 by congruence. ring.
Qed.
Lemma dif_fun_det e F D F' D' : dif G rho x e F D -> dif G rho x e F' D' -> F = F' /\ D = D'.
Proof.
  intros H. revert F' D'. induction H; intros F2 D2 HF2; inversion HF2; subst;
      try (match goal with Q : g_kind G ?o = KExp _ _ _, Q' : g_kind G ?o = KExp _ _ _ |- _ => rewrite Q in Q'; injection Q' as <- <- <- end; auto; fail);
      try (match goal with Q : den G rho ?e ?a, Q' : den G rho ?e ?b |- _ => pose proof (den_det Q Q') as -> end; split; reflexivity);
      try (repeat match goal with IH : forall F' D', dif G rho x ?e F' D' -> _, Q : dif G rho x ?e ?a ?b |- _ => destruct (IH _ _ Q) as [-> ->]; clear IH end; split; reflexivity);
      try (exfalso; unfold is_const in *; repeat match goal with Q : _ \/ _ |- _ => destruct Q end; congruence).
Qed.
Lemma sum3_rev n (f : nat -> nat -> nat -> T) : sum_n n (fun a => sum_n n (fun b => sum_n n (fun c => f a b c))) = sum_n n (fun c => sum_n n (fun b => sum_n n (fun a => f a b c))).
Proof.
  rewrite (sum_n_ext (g := fun a => sum_n n (fun c => sum_n n (fun b => f a b c)))) by (intros a _; apply (sum_swap L)).
  rewrite (sum_swap L). apply sum_n_ext. intros c _. apply (sum_swap L).
Qed.
Lemma sum4_rev n (f : nat -> nat -> nat -> nat -> T) :
  sum_n n (fun a => sum_n n (fun b => sum_n n (fun c => sum_n n (fun d => f a b c d)))) = sum_n n (fun d => sum_n n (fun c => sum_n n (fun b => sum_n n (fun a => f a b c d)))).
Proof.
  rewrite (sum_n_ext (g := fun a => sum_n n (fun d => sum_n n (fun c => sum_n n (fun b => f a b c d))))) by (intros a _; apply sum3_rev).
  rewrite (sum_swap L). apply sum_n_ext. intros d _. rewrite (sum_swap L). apply sum_n_ext. intros c _. apply (sum_swap L).
Qed.
(** Every inverse is taken of an invertible matrix, by a routine that is right (needed since
    traverse inverts the transpose instead of transposing the inverse). *)
Fixpoint solvable (e : mexp T) : Prop :=
  match e with
  | MLeaf _ => True
  | MBin _ _ l r => solvable l /\ solvable r
  | MUn k _ a => solvable a /\
      match k with UInv g => inverts g (rows G a) /\ forall F, den G rho a F -> exists X, is_inverse (rows G a) F X | _ => True end
  end.
(** What the variables of a scalar operand receive. *)
Definition sdirect (k : uop T) (z : T) (i j : nat) : T :=
  match k with USProdE s vs | USSumE s vs => if in_dec Nat.eq_dec x vs then nmul z (e_der rho s 0 x 0) else n0 | _ => n0 end.
Lemma val_at_sadd z s vs : NoDup vs -> (forall v, In v vs -> g_nidx G v = g_nidx G x -> v = x) -> forall ac i j, (In x vs -> i = 0 /\ j = 0) ->
  val_at (sadd G rho z s vs ac) kx i j = nadd (val_at ac kx i j) (if in_dec Nat.eq_dec x vs then nmul z (e_der rho s 0 x 0) else n0).
Proof.
  induction vs as [|v vs IH]; intros Nd Hi ac i j H0; [simpl; ring|].
  change (sadd G rho z s (v :: vs) ac) with (sadd G rho z s vs (aadd ac (KMat (g_nidx G v)) (sentry rho z s v))).
  inversion Nd; subst. rewrite IH; [|assumption|intros w Hw; apply Hi; simpl; auto|intros Hw; apply H0; simpl; auto].
  destruct (Nat.eq_dec v x) as [E|Ne].
  - subst v. rewrite val_at_add. destruct (H0 (or_introl eq_refl)) as [-> ->]. unfold sentry at 1. cbn [mmap meye mf]. rewrite Nat.eqb_refl.
    destruct (in_dec Nat.eq_dec x vs) as [Q|Q]; [contradiction|]. destruct (in_dec Nat.eq_dec x (x :: vs)) as [Q'|Q']; [|exfalso; apply Q'; simpl; auto]. ring.
  - rewrite val_at_other by (intros [= E]; apply Ne; apply Hi; simpl; auto).
    destruct (in_dec Nat.eq_dec x vs) as [Q|Q], (in_dec Nat.eq_dec x (v :: vs)) as [Q'|Q']; try reflexivity; exfalso; simpl in Q'; tauto.
Qed.
Lemma val_at_uadd k id a z ac i j : fits G (MUn k id a) -> only_x (MUn k id a) -> i < g_rows G x -> j < g_cols G x ->
  val_at (uadd G rho k z ac) kx i j = nadd (val_at ac kx i j) (sdirect k z i j).
Proof.
  intros Hf Ho Hi Hj. assert (Q : un_fits G k a) by (inversion Hf; auto).
  destruct k; cbn [uadd sdirect]; try ring; destruct Q as (_ & Nd & Q); destruct (proj2 Ho s vs) as [Q1 _]; try (simpl; auto; fail);
    (apply val_at_sadd; auto; intros Hx; destruct (Q x Hx) as (_ & Q2 & Q3); lia).
Qed.
Lemma step_un k id a c F1 D1 F D i j : plain G a -> fits G (MUn k id a) -> solvable (MUn k id a) -> only_x (MUn k id a) -> has_dims G (MUn k id a) c ->
  i < g_rows G x -> j < g_cols G x -> dif G rho x a F1 D1 -> dif G rho x (MUn k id a) F D ->
  nadd (weigh a (un_adj rho k c (pval a)) D1 i j) (sdirect k (un_weight k c (pval a)) i j) = weigh (MUn k id a) c D i j.
Proof.
  intros Pa Ff So Ox [C1 C2] Hi Hj H1 HD. assert (Fa : fits G a) by (inversion Ff; auto).
  assert (Uf : un_fits G k a) by (inversion Ff; auto).
  assert (Der : forall s vs, k = USProdE s vs \/ k = USSumE s vs ->
    e_der rho s 0 x (i * g_cols G x + j) = if in_dec Nat.eq_dec x vs then e_der rho s 0 x 0 else n0).
  { intros s vs Q. destruct (proj2 Ox s vs) as [_ Z]; [destruct Q as [-> | ->]; simpl; auto|].
    assert (Q' : scalar_ok G s vs) by (destruct Q as [-> | ->]; exact Uf). destruct Q' as (_ & _ & Q').
    destruct (in_dec Nat.eq_dec x vs) as [Hx|Hx]; [|now apply Z]. destruct (Q' x Hx) as (_ & Z1 & Z2). rewrite Z1 in Hi. rewrite Z2 in *. f_equal. lia. }
  pose proof (pval_dims Pa Fa (dif_den H1)) as [V1 V2].
  assert (L1 : forall p q, p < rows G a -> q < cols G a -> mf (pval a) p q = F1 p q) by (intros; eapply pval_entry; eauto; eapply dif_den; eauto).
  inversion HD; subst; match goal with Q : dif G rho x a ?f ?d |- _ => destruct (dif_fun_det H1 Q) as [-> ->] end;
    unfold weigh; cbn [rows cols un_adj] in *.
  all: try (cbn [sdirect]; lazymatch goal with |- nadd ?u n0 = ?w => transitivity u; [ring|] end).
  - rewrite (sum_swap L (cols G a)). apply sum2_ext. intros p q Hp Hq. reflexivity.
  - apply sum2_ext. intros p q Hp Hq. cbn [mmap mf]. ring.
  - apply sum2_ext. intros p q Hp Hq. cbn [mmap mf]. ring.
  - apply sum2_ext. intros p q Hp Hq. cbn [mhad mzip mmap mf]. rewrite L1 by auto. ring.
  - match goal with |- context [un_weight (USProdE ?so ?vo)] => rename so into s, vo into vs end.
    cbn [sdirect]. specialize (Der s vs (or_introl eq_refl)).
    transitivity (nadd (sum_n (rows G a) (fun l => sum_n (cols G a) (fun k => nmul (mf c l k) (nmul (e_val rho s 0) (D0 l k i j)))))
                       (nmul (e_der rho s 0 x (i * g_cols G x + j)) (sum_n (rows G a) (fun l => sum_n (cols G a) (fun k => nmul (mf c l k) (F0 l k)))))).
    + f_equal; [apply sum2_ext; intros p q Hp Hq; cbn [mmap mf]; ring|].
      assert (Z : un_weight (USProdE s vs) c (pval a) = sum_n (rows G a) (fun l => sum_n (cols G a) (fun k => nmul (mf c l k) (F0 l k)))).
      { cbn [un_weight mtrace mmul mtr mf mr mc]. rewrite C2, C1. rewrite (sum_swap L (rows G a)). apply sum2_ext. intros p q Hp Hq. now rewrite L1. }
      rewrite Z, Der. destruct (in_dec _ _ _); ring.
    + rewrite <- (sum_mul_l L), <- (sum_add L). apply sum_n_ext. intros p Hp. rewrite <- (sum_mul_l L), <- (sum_add L). apply sum_n_ext. intros q Hq. ring.
  - match goal with |- context [un_weight (USSumE ?so ?vo)] => rename so into s, vo into vs end.
    cbn [sdirect]. specialize (Der s vs (or_intror eq_refl)).
    transitivity (nadd (sum_n (rows G a) (fun l => sum_n (cols G a) (fun k => nmul (mf c l k) (D0 l k i j))))
                       (nmul (e_der rho s 0 x (i * g_cols G x + j)) (sum_n (rows G a) (fun l => sum_n (cols G a) (fun k => mf c l k))))).
    + f_equal; [apply sum2_ext; intros p q Hp Hq; cbn [mmap mf]; ring|].
      assert (Z : un_weight (USSumE s vs) c (pval a) = sum_n (rows G a) (fun l => sum_n (cols G a) (fun k => mf c l k))).
      { cbn [un_weight mmul mones mf mr mc]. rewrite C2, C1. rewrite (sum_swap L (rows G a)). apply sum_n_ext. intros q Hq.
        match goal with |- nmul ?u n1 = _ => transitivity u; [ring|] end. apply sum_n_ext. intros p Hp. ring. }
      rewrite Z, Der. destruct (in_dec _ _ _); ring.
    + rewrite <- (sum_mul_l L), <- (sum_add L). apply sum_n_ext. intros p Hp. rewrite <- (sum_mul_l L), <- (sum_add L). apply sum_n_ext. intros q Hq. ring.
  - clear HD. rename D0 into D2.
    assert (Sq : rows G a = cols G a) by (inversion Ff; auto). set (n := rows G a) in *.
    destruct So as (_ & Gi & Ex). destruct (Ex F0 (dif_den H1)) as (Y & HY).
    assert (HX : is_inverse n F0 (inverse g n F0)) by (eapply Gi; eauto).
    fold n in V1.
    assert (Xt : forall p q, p < n -> q < n -> mf (minv g (mtr (pval a))) p q = inverse g n F0 q p).
    { intros p q Hp Hq. assert (Q : inverse g n (fun i j => F0 j i) p q = inverse g n F0 q p).
      { apply (inverse_unique L (n := n) (F := fun i j => F0 j i) (X := inverse g n (fun i j => F0 j i)) (Y := fun i j => inverse g n F0 j i)); auto.
        - eapply Gi. apply (inverse_tr L). exact HX.
        - apply (inverse_tr L). exact HX. }
      rewrite <- Q. cbn [minv mf mtr mc mr]. unfold inverse. rewrite V1, V2, <- Sq. f_equal. f_equal.
      unfold flat, row_major. cbn [mtr mr mc mf]. rewrite V1, V2, <- Sq. apply map_ext_in. intros r Hr. apply in_seq in Hr.
      assert (n <> 0) by nia. apply L1; [now apply Nat.mod_upper_bound|rewrite <- Sq; apply Nat.div_lt_upper_bound; lia]. }
    set (X := inverse g n F0) in *. rewrite <- Sq in *.
    transitivity (nmul nm1 (sum_n n (fun l => sum_n n (fun k => sum_n n (fun b => sum_n n (fun p => nmul (nmul (nmul (X p l) (mf c p b)) (X k b)) (D2 l k i j))))))).
    + rewrite <- (sum_mul_l L). apply sum_n_ext. intros l Hl. rewrite <- (sum_mul_l L). apply sum_n_ext. intros k Hk.
      cbn [mmap mmul minv mtr mf mr mc]. rewrite V1.
      match goal with |- nmul (nmul nm1 ?s) ?d = nmul nm1 ?t => transitivity (nmul nm1 (nmul s d)); [ring|f_equal] end.
      rewrite <- (sum_mul_r L). rewrite C2. apply sum_n_ext. intros b Hb.
      rewrite <- !(sum_mul_r L). apply sum_n_ext. intros p Hp.
      pose proof (Xt l p Hl Hp) as T1. pose proof (Xt b k Hb Hk) as T2. cbn [minv mtr mf mr mc] in T1, T2. rewrite V1 in T1, T2. rewrite T1, T2. reflexivity.
    + transitivity (nmul nm1 (sum_n n (fun p => sum_n n (fun b => sum_n n (fun k => sum_n n (fun l => nmul (nmul (nmul (X p l) (mf c p b)) (X k b)) (D2 l k i j))))))).
      * f_equal. apply (sum4_rev n (fun l k b p => nmul (nmul (nmul (X p l) (mf c p b)) (X k b)) (D2 l k i j))).
      * rewrite <- (sum_mul_l L). apply sum_n_ext. intros p Hp. rewrite <- (sum_mul_l L). apply sum_n_ext. intros b Hb.
        match goal with |- _ = nmul ?s (nmul nm1 ?t) => transitivity (nmul nm1 (nmul s t)); [f_equal|ring] end.
        rewrite <- (sum_mul_l L). apply sum_n_ext. intros k Hk. rewrite <- (sum_mul_r L), <- (sum_mul_l L). apply sum_n_ext. intros l Hl. ring.
  - clear HD. rename D0 into D2.
    assert (Sq : rows G a = cols G a) by (inversion Ff; auto). set (n := rows G a) in *.
    fold n in V1. rewrite <- Sq in *.
    assert (Fl : flat (pval a) = row_major n F0).
    { unfold flat, row_major. rewrite V1, V2. apply map_ext_in. intros r Hr. apply in_seq in Hr.
      assert (n <> 0) by nia. apply L1; [apply Nat.div_lt_upper_bound; lia|now apply Nat.mod_upper_bound]. }
    rewrite !(sum_1 L). rewrite <- (sum_mul_l L). rewrite (sum_swap L n n (fun l k => _)). apply sum_n_ext. intros b Hb. rewrite <- (sum_mul_l L). apply sum_n_ext. intros p Hp.
    cbn [mmap mtr minv mf mr mc]. unfold inverse. rewrite Fl, V1, V2. ring.
Qed.

(** *** The pass *)
(** Below an operator with adjoint c; a leaf has no pass of its own. *)
Theorem vtr_grad e : forall ac F D, plain G e -> fits G e -> solvable e -> NoDup (nodes e) -> only_x e -> dif G rho x e F D ->
  fresh ac (sub_ids e) ->
  match e with
  | MLeaf _ => True
  | _ => forall c, ac (key_of G e) = Some c -> has_dims G e c ->
      forall i j, i < g_rows G x -> j < g_cols G x -> val_at (vtr e ac) kx i j = nadd (val_at ac kx i j) (weigh e c D i j)
  end.
Proof.
  assert (Child : forall e c, (match e with MLeaf o => is_leaf G o | _ => True end) -> forall F D, only_x e -> dif G rho x e F D -> forall i j, i < g_rows G x -> j < g_cols G x ->
     direct e c i j = match e with MLeaf _ => weigh e c D i j | _ => n0 end).
  { clear e. intros e c Hl F D Ho HD i j Hi Hj. destruct e as [o| |]; try reflexivity. eapply direct_leaf; eauto. }
  induction e as [o|k id l IHl r IHr|k id a IHa]; intros ac F D Hp Hf So Nd Ho HD Hfr; [exact Logic.I| |].
  - intros c Hc Dc i j Hi Hj. simpl in Hc. cbn [RevVals.vtr]. rewrite Hc. cbv zeta. set (d := bin_adj k c (pval l) (pval r)).
    assert (Pl : plain G l) by (intros o Q; apply Hp; simpl; apply in_or_app; auto).
    assert (Pr : plain G r) by (intros o Q; apply Hp; simpl; apply in_or_app; auto).
    assert (Ol : only_x l) by (split; [intros o Q; apply (proj1 Ho)|intros s vs Q; apply (proj2 Ho)]; simpl; apply in_or_app; auto).
    assert (Or : only_x r) by (split; [intros o Q; apply (proj1 Ho)|intros s vs Q; apply (proj2 Ho)]; simpl; apply in_or_app; auto).
    assert (Fl : fits G l /\ fits G r) by (inversion Hf; subst; auto). destruct Fl as [Fl Fr].
    simpl in Nd. inversion Nd as [|? ? Ni Nd']; subst. destruct (NoDup_app_inv Nd') as (Nl & Nr & Dj).
    destruct (dif_total rho x Fl) as (F1 & D1 & H1). destruct (dif_total rho x Fr) as (F2 & D2 & H2).
    destruct (pval_dims Pl Fl (dif_den H1)) as [V1 V2]. destruct (pval_dims Pr Fr (dif_den H2)) as [W1 W2].
    assert (Bd : bin_dims k (pval l) (pval r)).
    { destruct k; simpl; unfold same_dims; rewrite ?V1, ?V2, ?W1, ?W2; inversion Hf; subst; auto; congruence. }
    destruct (@bin_adj_dims T N G k l r c (pval l) (pval r) (conj V1 V2) (conj W1 W2) Bd (proj1 Dc) (proj2 Dc)) as [A1 A2]. fold d in A1, A2.
    rewrite <- (step_bin i j Pl Pr Hf Dc H1 H2 HD). fold d.
    set (ac2 := aadd (aadd ac (key_of G l) (fst d)) (key_of G r) (snd d)).
    assert (K2 : forall i, ~ In i (top_ids l) -> ~ In i (top_ids r) -> ac2 (KNode i) = ac (KNode i)) by (intros i0 Q1 Q2; unfold ac2; now rewrite !aadd_top).
    assert (TN : forall (e : mexp T) i, In i (top_ids e) -> In i (nodes e)) by (intros e i0; destruct e; simpl; tauto).
    simpl in Hfr.
    assert (V0 : val_at ac2 kx i j = nadd (val_at ac kx i j) (nadd (direct l (fst d) i j) (direct r (snd d) i j))).
    { unfold ac2. rewrite !val_at_child. ring. }
    assert (Cl : match l with MLeaf o => is_leaf G o | _ => True end) by (destruct l; auto; apply Pl; simpl; auto).
    assert (Cr : match r with MLeaf o => is_leaf G o | _ => True end) by (destruct r; auto; apply Pr; simpl; auto).
    rewrite (Child l _ Cl _ _ Ol H1 i j Hi Hj), (Child r _ Cr _ _ Or H2 i j Hi Hj) in V0.
    (* left pass *)
    assert (E1 : val_at (vtr l ac2) kx i j = nadd (val_at ac2 kx i j) (match l with MLeaf _ => n0 | _ => weigh l (fst d) D1 i j end)).
    { assert (Q : fresh ac2 (sub_ids l)).
      { intros i0 Hi0. rewrite K2; [apply Hfr; apply in_or_app; left; now apply sub_nodes| |].
        - intros Q. exact (top_sub Nl Q Hi0).
        - intros Q. apply (Dj i0); [now apply sub_nodes|auto]. }
      specialize (IHl ac2 F1 D1 Pl Fl (proj1 So) Nl Ol H1 Q). destruct l as [o| |]; [simpl; ring| |];
        (apply IHl; auto; unfold ac2; rewrite aadd_other, aadd_same; [|intros E; symmetry in E; apply key_of_id in E; apply (Dj _ (or_introl eq_refl) E)];
         cbn [key_of]; rewrite Hfr by (apply in_or_app; simpl; auto); reflexivity). }
    assert (E2 : val_at (vtr r (vtr l ac2)) kx i j = nadd (val_at (vtr l ac2) kx i j) (match r with MLeaf _ => n0 | _ => weigh r (snd d) D2 i j end)).
    { assert (K3 : forall i, In i (nodes r) -> vtr l ac2 (KNode i) = ac2 (KNode i)).
      { intros i0 Q. apply vtr_node. intros Q'. apply (Dj i0); [now apply sub_nodes|exact Q]. }
      assert (Q : fresh (vtr l ac2) (sub_ids r)).
      { intros i0 Hi0. rewrite K3 by now apply sub_nodes. rewrite K2; [apply Hfr; apply in_or_app; right; now apply sub_nodes| |].
        - intros Q. apply (Dj i0); [auto|now apply sub_nodes].
        - intros Q. exact (top_sub Nr Q Hi0). }
      specialize (IHr (vtr l ac2) F2 D2 Pr Fr (proj2 So) Nr Or H2 Q). destruct r as [o| |]; [simpl; ring| |];
        (apply IHr; auto; cbn [key_of]; rewrite K3 by (simpl; auto); unfold ac2; cbn [key_of]; rewrite aadd_same;
         rewrite aadd_node by (intros E; apply (Dj _ E); simpl; auto); rewrite Hfr by (apply in_or_app; simpl; auto); reflexivity). }
    rewrite E2, E1, V0. destruct l, r; ring.
  - intros c Hc Dc i j Hi Hj. simpl in Hc. cbn [RevVals.vtr]. rewrite Hc. set (d := un_adj rho k c (pval a)). set (z := un_weight k c (pval a)).
    assert (Oa : only_x a) by (split; [exact (proj1 Ho)|intros s vs Q; apply (proj2 Ho); simpl; apply in_or_app; auto]).
    assert (Fa : fits G a) by (inversion Hf; subst; auto). change (plain G a) in Hp.
    simpl in Nd. inversion Nd as [|? ? Ni Na]; subst.
    destruct (dif_total rho x Fa) as (F1 & D1 & H1).
    pose proof (pval_dims (e := a) Hp Fa (dif_den H1)) as V1.
    assert (Ud : un_dims k (pval a)).
    { destruct V1 as [V1 V2]. assert (Q : un_fits G k a) by (inversion Hf; auto). destruct k; simpl in *; auto; congruence. }
    pose proof (un_adj_dims rho (k := k) (id := id) V1 Ud Dc) as A1. fold d in A1.
    rewrite <- (step_un Hp Hf So Ho Dc Hi Hj H1 HD). fold d z.
    set (ac2 := uadd G rho k z (aadd ac (key_of G a) d)).
    assert (Ca : match a with MLeaf o => is_leaf G o | _ => True end) by (destruct a; auto; apply Hp; simpl; auto).
    assert (V0 : val_at ac2 kx i j = nadd (nadd (val_at ac kx i j) (match a with MLeaf _ => weigh a d D1 i j | _ => n0 end)) (sdirect k z i j)).
    { unfold ac2. rewrite (val_at_uadd (id := id) (a := a)) by auto. rewrite val_at_child. now rewrite (Child a _ Ca _ _ Oa H1 i j Hi Hj). }
    assert (E1 : val_at (vtr a ac2) kx i j = nadd (val_at ac2 kx i j) (match a with MLeaf _ => n0 | _ => weigh a d D1 i j end)).
    { assert (Q : fresh ac2 (sub_ids a)).
      { intros i0 Hi0. unfold ac2. rewrite uadd_node. rewrite aadd_top; [apply Hfr; now apply sub_nodes|]. intros Q. exact (top_sub Na Q Hi0). }
      specialize (IHa ac2 F1 D1 Hp Fa (proj1 So) Na Oa H1 Q). destruct a as [o| |]; [simpl; ring| |];
        (apply IHa; auto; unfold ac2; cbn [key_of]; rewrite uadd_node; rewrite aadd_same; rewrite Hfr by (simpl; auto); reflexivity). }
    rewrite E1, V0. destruct a; ring.
Qed.
End Grad.
