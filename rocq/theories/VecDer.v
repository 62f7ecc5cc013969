(** * Derivatives of vec *)

From Coq Require Import List Arith Bool Lia.
From Verif Require Import Num MatMem Kernels KernelFacts KernelProofs KernelBlocks KernelMore Registry KernelStep Backend Slots Exec ConvProofs ConvDerv MatEngine MatGraph MatLeaf MatEval MatDeval MatHist MatSpec MatCalls Vec VecOk VecCall.
Import ListNotations.
Set Implicit Arguments.
Unset Strict Implicit.

(** y is the temporary Matrix<Variable> Y(1, n, X.getMatrixPtr()): one row of the same Variable objects, with a number
    of its own.  No expression contains it, so its kind in the graph does not matter; it is not LVar, so that
    [distinct_vars] speaks of the user's matrices only. *)
Record twin {T} (G : graph T) (rho : env T) (x y : obj) : Prop := {
  tw_var : g_kind G x = LVar;
  tw_kind : g_kind G y <> LVar;
  tw_rows : g_rows G y = 1;
  tw_cols : g_cols G y = g_rows G x * g_cols G x;
  tw_vid : forall n, n < g_rows G x * g_cols G x -> g_vid G y n = g_vid G x n;
  tw_num : forall o, g_kind G o = LVar -> g_nidx G o <> g_nidx G y;
  tw_ent : forall o k n, n < g_rows G x * g_cols G x -> e_der rho o k y n = e_der rho o k x n
}.
(** The entries of a matrix of variables are different variables. *)
Definition distinct_entries {T} (G : graph T) (x : obj) : Prop :=
  forall n n', n < g_rows G x * g_cols G x -> n' < g_rows G x * g_cols G x -> g_vid G x n = g_vid G x n' -> n = n'.

Section Der.
Context {T : Type} {N : Num T}.
Variable S : sched T.
Hypothesis VS : valid_sched S.
Variable B : backend (T := T).
Hypothesis BV : value_ok B.
Hypothesis KO : kron_ok B.
Variable G : graph T.
Variable host : nat -> option obj.
Variable rank : obj -> nat.
Hypothesis WF : wf_graph G host rank.
Hypothesis DV : distinct_vars G.
Notation mat := (mat T).
Notation st := (st (T := T)).
Implicit Types (s : st).

(** Matrices in D had their own derivative computed by a row of their variables. *)
Definition dirty (D : list obj) (m : mem T) (o : obj) (r : option ptr) : Prop := In o D \/ dclean G m o r.
Lemma dirty_same D m m' o r : (forall p, r = Some p -> get m' p = get m p) -> dirty D m o r -> dirty D m' o r.
Proof. intros E [H|H]; [now left|right]. exact (dclean_same E H). Qed.
Lemma dirty_more D D' m o r : (forall a, In a D -> In a D') -> dirty D m o r -> dirty D' m o r.
Proof. intros E [H|H]; [left; auto|now right]. Qed.
Lemma Inv_more D D' s : (forall a, In a D -> In a D') -> Inv_with G (dirty D) s -> Inv_with G (dirty D') s.
Proof. intros E [A1 A2 A3 A4]. constructor; auto. intros o Ho. apply (dirty_more E). now apply A4. Qed.
Lemma Inv_none s : Inv G s -> Inv_with G (dirty []) s.
Proof. intros [A1 A2 A3 A4]. constructor; auto. intros o Ho. right. now apply A4. Qed.

(** Writing zeros everywhere. *)
Lemma zero_clean m r p o x m' (D : nat -> nat -> nat -> nat -> T) : g_kind G o = LVar ->
  wrote m r p (layout G x (g_rows G o) (g_cols G o) D) m' ->
  (forall l k i j, l < g_rows G o -> k < g_cols G o -> i < g_rows G x -> j < g_cols G x -> D l k i j = n0) -> dclean G m' o (Some p).
Proof.
  intros Ek W Z ob Ho. split; [intros [Q|Q]; congruence|]. intros _ k _.
  destruct W as [((kk & sp & b & Hg & Lb) & V) _ _ _]. rewrite Ho in Hg. injection Hg as ->. cbn [o_buf mr mc layout] in *.
  destruct (Nat.lt_ge_cases k (length b)) as [Lk|Lk]; [|now apply nth_overflow].
  rewrite Lb in Lk. destruct (idx_split Lk) as (Q1 & Q2 & Q3). destruct (wf_pos WF o), (wf_pos WF x).
  specialize (V _ _ Q1 Q2). unfold val in V. rewrite Ho in V. cbn [o_buf o_cols] in V. rewrite Q3 in V. rewrite V. cbn [mf layout]. cbv beta.
  destruct (@divmod_lt (g_rows G o) (g_rows G x) (k / (g_cols G o * g_cols G x))) as (S1 & S2 & _); auto.
  destruct (@divmod_lt (g_cols G o) (g_cols G x) (k mod (g_cols G o * g_cols G x))) as (T1 & T2 & _); auto.
Qed.

Section At.
Variable rho : env T.
(** The derivative of the variables o by a matrix of variables with another number. *)
Lemma other_dleaf m r o x : g_kind G o = LVar -> g_nidx G o <> g_nidx G x -> tame m -> slot_ok m r ->
  exists p m1 m', pool CPU r (g_rows G o * g_rows G x) (g_cols G o * g_cols G x) m = Ok (p, m1) /\ set_derivs S G rho o x p m1 = Ok (tt, m') /\
    wrote m r p (leaf_dmat G rho x o) m'.
Proof.
  intros Ek Nn Tm Hr.
  destruct (@full_dleaf T N S VS G (wf_pos WF) x m r o (fun l k i j => if g_vid G o (l * g_cols G o + k) =? g_vid G x (i * g_cols G x + j) then n1 else n0)) as (p & m1 & m' & E & Ef & W); auto.
  apply Nat.eqb_neq in Nn. exists p, m1, m'. split; [exact E|]. split.
  - unfold set_derivs. rewrite Ek, Nn. exact Ef.
  - unfold leaf_dmat, leaf_der. rewrite Ek, Nn. exact W.
Qed.
Lemma plain_write D x : g_kind G x = LVar -> (forall o, In o D -> g_kind G o = LVar) -> ~ In x D ->
  forall m r o, is_leaf G o -> tame m -> slot_ok m r -> dirty D m o r ->
  exists p m1 m', pool CPU r (g_rows G o * g_rows G x) (g_cols G o * g_cols G x) m = Ok (p, m1) /\ set_derivs S G rho o x p m1 = Ok (tt, m') /\
    wrote m r p (leaf_dmat G rho x o) m' /\ dirty D m' o (Some p).
Proof.
  intros Xv HD Nx m r o Hl Tm Hr [Hi|Dc].
  - assert (Ne : o <> x) by (intros ->; auto). destruct (DV (HD _ Hi) Xv Ne) as [Nn _].
    destruct (other_dleaf (HD _ Hi) Nn Tm Hr) as (p & m1 & m' & E & Es & W). exists p, m1, m'. split; [exact E|]. split; [exact Es|]. split; [exact W|now left].
  - destruct (@dleaf_write T N S VS G rho (wf_pos WF) x Xv DV m r o Hl Tm Hr Dc) as (p & m1 & m' & E & Es & W & Q).
    exists p, m1, m'. split; [exact E|]. split; [exact Es|]. split; [exact W|now right].
Qed.
Lemma twin_write D x y : twin G rho x y -> (forall o, In o D -> g_kind G o = LVar) -> In x D ->
  forall m r o, is_leaf G o -> tame m -> slot_ok m r -> dirty D m o r ->
  exists p m1 m', pool CPU r (g_rows G o * g_rows G y) (g_cols G o * g_cols G y) m = Ok (p, m1) /\ set_derivs S G rho o y p m1 = Ok (tt, m') /\
    wrote m r p (leaf_dmat G rho y o) m' /\ dirty D m' o (Some p).
Proof.
  intros Tw HD Hx m r o Hl Tm Hr Dc. unfold is_leaf in Hl.
  destruct (g_kind G o) as [| | | |id e z] eqn:Ek; [| | | |tauto].
  - destruct Dc as [Hi|Dc]; [rewrite (HD _ Hi) in Ek; discriminate|].
    destruct (@const_dleaf T N S G rho (wf_pos WF) y m r o) as (p & m1 & E & Es & W & Q); auto; [now left|]. exists p, m1, m1. repeat apply conj; auto. now right.
  - destruct Dc as [Hi|Dc]; [rewrite (HD _ Hi) in Ek; discriminate|].
    destruct (@const_dleaf T N S G rho (wf_pos WF) y m r o) as (p & m1 & E & Es & W & Q); auto; [now right|]. exists p, m1, m1. repeat apply conj; auto. now right.
  - destruct (other_dleaf Ek (tw_num Tw Ek) Tm Hr) as (p & m1 & m' & E & Es & W). exists p, m1, m'. split; [exact E|]. split; [exact Es|]. split; [exact W|].
    destruct Dc as [Hi|Dc]; [now left|]. destruct (Nat.eq_dec o x) as [->|Ne]; [now left|]. right.
    apply (zero_clean Ek W). intros l k i j Bl Bk Bi Bj. unfold leaf_der. rewrite Ek.
    pose proof (tw_num Tw Ek) as Nn. apply Nat.eqb_neq in Nn. rewrite Nn.
    pose proof (tw_rows Tw) as Ty. pose proof (tw_cols Tw) as Tc. rewrite Ty in Bi. rewrite Tc in Bj.
    replace (i * g_cols G y + j) with j by nia. rewrite (tw_vid Tw Bj).
    destruct (DV Ek (tw_var Tw) Ne) as [_ Nv]. replace (_ =? _) with false; [reflexivity|]. symmetry. apply Nat.eqb_neq. apply Nv; [now apply idx_bound|exact Bj].
  - destruct Dc as [Hi|Dc]; [rewrite (HD _ Hi) in Ek; discriminate|].
    destruct (@full_dleaf T N S VS G (wf_pos WF) y m r o (fun l k i j => e_der rho o (l * g_cols G o + k) y (i * g_cols G y + j))) as (p & m1 & m' & E & Ef & W); auto.
    exists p, m1, m'. split; [exact E|]. split; [|split].
    + unfold set_derivs. rewrite Ek. exact Ef.
    + unfold leaf_dmat, leaf_der. rewrite Ek. exact W.
    + right. intros ob Ho. split; [intros [Q|Q]; congruence|congruence].
Qed.

(** Differentiating by the row of variables: entry (0, j) of the row is entry (j / cols, j mod cols) of x. *)
Lemma twin_leaf x y : twin G rho x y -> distinct_entries G x ->
  forall o F D, is_leaf G o -> dif G rho x (MLeaf o) F D -> forall l k i j, l < g_rows G o -> k < g_cols G o -> i < g_rows G y -> j < g_cols G y ->
  leaf_der G rho y o l k i j = renamed (fun _ j => j / g_cols G x) (fun _ j => j mod g_cols G x) D l k i j.
Proof.
  intros Tw De o F D Hl HD l k i j Bl Bk Bi Bj. unfold leaf_der, renamed.
  pose proof (tw_rows Tw) as Ty. pose proof (tw_cols Tw) as Tc. rewrite Ty in Bi. rewrite Tc in Bj.
  replace (i * g_cols G y + j) with j by nia. destruct (wf_pos WF x) as [PX PY]. destruct (divmod_lt PY Bj) as (J1 & J2 & J3).
  inversion HD as [o' F' Hc|o' F' Hk|o' F' Hk|o' id e z F' D' Hk| | | | | | | | | | | |]; subst.
  - destruct Hc as [-> | ->]; reflexivity.
  - rewrite Hk. pose proof (tw_num Tw Hk) as Nn. apply Nat.eqb_neq in Nn. rewrite Nn. rewrite (tw_vid Tw Bj).
    destruct (Nat.eq_dec o x) as [->|Ne].
    + rewrite Nat.eqb_refl. cbn [andb].
      destruct ((l =? j / g_cols G x) && (k =? j mod g_cols G x)) eqn:Eb.
      * apply andb_prop in Eb. destruct Eb as [E1 E2]. apply Nat.eqb_eq in E1, E2. subst l k. rewrite <- J3, Nat.eqb_refl. reflexivity.
      * replace (_ =? _) with false; [reflexivity|]. symmetry. apply Nat.eqb_neq. intros Q.
        apply De in Q; [|now apply idx_bound|exact Bj]. rewrite J3 in Q. apply idx_inj in Q; auto. destruct Q as [-> ->]. now rewrite !Nat.eqb_refl in Eb.
    + destruct (DV Hk (tw_var Tw) Ne) as [_ Nv]. apply Nat.eqb_neq in Ne. rewrite Ne. cbn [andb].
      replace (_ =? _) with false; [reflexivity|]. symmetry. apply Nat.eqb_neq. apply Nv; [now apply idx_bound|exact Bj].
  - rewrite Hk. rewrite (tw_ent Tw _ _ Bj). rewrite <- J3. reflexivity.
  - unfold is_leaf in Hl. rewrite Hk in Hl. tauto.
Qed.

Lemma twin_scal x y : twin G rho x y -> forall (s : obj) i j, i < g_rows G y -> j < g_cols G y ->
  e_der rho s 0 y (i * g_cols G y + j) = e_der rho s 0 x (j / g_cols G x * g_cols G x + j mod g_cols G x).
Proof.
  intros Tw s i j Bi Bj. rewrite (tw_rows Tw) in Bi. rewrite (tw_cols Tw) in Bj. replace (i * g_cols G y + j) with j by nia.
  destruct (wf_pos WF x) as [PX PY]. destruct (divmod_lt PY Bj) as (J1 & J2 & J3). rewrite <- J3. now apply (tw_ent Tw).
Qed.
(** The derivative of vec(e) by x: entry n = l * cols + k of vec(e) by entry (i, j) of x is in row n * xr + i, column j. *)
Definition vjac_of x (e : mexp T) (D : nat -> nat -> nat -> nat -> T) : mat :=
  Mat (rows G e * cols G e * g_rows G x) (g_cols G x)
    (fun (s t : nat) => D (s / g_rows G x / cols G e) ((s / g_rows G x) mod cols G e) (s mod g_rows G x) t).
Lemma vjac_meq x y e D : twin G rho x y -> 0 < cols G e ->
  meq (refold (rows G e * cols G e * g_rows G x) (g_cols G x) (jac_of G y e (renamed (fun _ j => j / g_cols G x) (fun _ j => j mod g_cols G x) D)))
      (vjac_of x e D).
Proof.
  intros Tw PC. split; [reflexivity|]. split; [reflexivity|]. cbn [refold jac_of layout vjac_of mr mc mf]. intros a t Ha Ht.
  unfold renamed. rewrite (tw_rows Tw), (tw_cols Tw). destruct (wf_pos WF x) as [PX PY].
  set (X := g_rows G x) in *. set (Y := g_cols G x) in *. set (C := cols G e) in *.
  destruct (divmod_lt PX Ha) as (S1 & S2 & S3). destruct (divmod_lt PC S1) as (N1 & N2 & N3).
  set (q := a / X) in *. set (i := a mod X) in *.
  assert (Bi : i * Y + t < X * Y) by (now apply idx_bound).
  assert (E1 : a * Y + t = (q / C) * (C * (X * Y)) + ((q mod C) * (X * Y) + (i * Y + t))) by (rewrite S3; rewrite N3 at 1; ring).
  assert (Bk : q mod C * (X * Y) + (i * Y + t) < C * (X * Y)) by (apply idx_bound; auto).
  rewrite E1. destruct (divmod_block (q / C) Bk) as [-> ->]. destruct (divmod_block (q mod C) Bi) as [-> ->]. destruct (divmod_block i Ht) as [-> ->].
  rewrite Nat.div_1_r. reflexivity.
Qed.

(** reshape keeps the buffer. *)
Lemma reshape_buf (m : mem T) p R C m' : reshape p R C m = Ok (tt, m') ->
  (forall q, q <> p -> get m' q = get m q) /\ exists ob ob', get m p = Some ob /\ get m' p = Some ob' /\ o_buf ob' = o_buf ob.
Proof.
  unfold reshape, bind, deref, assert. destruct (get m p) as [ob|] eqn:Hg; [|discriminate]. destruct (_ =? _); [|discriminate].
  intros [= <-]. split; [intros q Nq; apply get_put_other; auto|]. eexists. eexists. split; [reflexivity|]. split; [apply get_put_same; exact (get_lt Hg)|reflexivity].
Qed.
Lemma dirty_reshape D m p R C m' o r : reshape p R C m = Ok (tt, m') -> dirty D m o r -> dirty D m' o r.
Proof.
  intros Er [H|H]; [now left|right]. destruct (reshape_buf Er) as (Fr & ob & ob' & Hg & Hg' & Eb).
  destruct r as [q|]; [|exact Logic.I]. simpl in *. intros oq Hq. destruct (Nat.eq_dec q p) as [->|Nq].
  - rewrite Hg' in Hq. injection Hq as <-. rewrite Eb. exact (H _ Hg).
  - rewrite Fr in Hq by auto. exact (H _ Hq).
Qed.
Lemma Inv_reshape_any D s w p v R C : Inv_with G (dirty D) s -> at_ s w p v -> 0 < R -> 0 < C -> R * C = mr v * mc v ->
  (forall o, w <> ORes o) ->
  exists m', reshape p R C (mm s) = Ok (tt, m') /\ holds m' p (refold R C v) /\ Inv_with G (dirty D) (St m' (ar s) (fl s)).
Proof.
  intros I At PR PC En Ne. destruct (reshape_step (inv_slots I) At PR PC En) as (m' & Er & Sl & Hh & K).
  exists m'. split; [exact Er|]. split; [exact Hh|]. constructor.
  - exact Sl.
  - exact (inv_fi I).
  - intros o Hk He. destruct (inv_eye I Hk He) as (q & Hq). exists q. refine (keeps_at K _ Hq). apply not_eq_sym. auto.
  - intros o Ho. apply (dirty_reshape Er). exact (inv_dc I Ho).
Qed.
Lemma dloc_res (e : mexp T) o : dloc G e <> ORes o.
Proof. pose proof (dloc_0 G e) as Z. destruct (dloc G e); [discriminate|destruct Z|discriminate]. Qed.

Variable L : NumLaws N.
Variable row_of : obj -> obj.
Theorem call_vec D id (e : mexp T) x s F Df : Inv_with G (dirty D) s -> (forall o, In o D -> g_kind G o = LVar) ->
  settled G e s -> root host e -> fits G e -> twin G rho x (row_of x) -> distinct_entries G x -> dif G rho x e F Df ->
  exists n p s', (forall f, n <= f -> VDevalF S B G row_of rho f (VVec id (VE e)) x s = EOk (p, s')) /\ holds (mm s') p (vjac_of x e Df) /\
    Inv_with G (dirty (x :: D)) s' /\ (forall o, reach G e o -> f_vis (fl s' o) = true) /\ (forall o, ~ reach G e o -> fl s' o = fl s o).
Proof.
  intros I HD Hs Hr Hf Tw De Hd. set (y := row_of x) in *.
  destruct (@dif_mder_renamed T N L G host rank WF rho y x _ _ (twin_leaf Tw De) (twin_scal Tw) e Hf F Df Hd) as (v & dv & Hm & Mv & Mdv).
  assert (HD' : forall o, In o (x :: D) -> g_kind G o = LVar) by (intros o [<-|Ho]; [exact (tw_var Tw)|auto]).
  assert (I1 : Inv_with G (dirty (x :: D)) s) by (apply (@Inv_more D); [intros a Ha; now right|exact I]).
  destruct (@call_devalF_with T N S VS B BV G host rank WF (dirty (x :: D)) (@dirty_same (x :: D)) rho KO y e s v dv) as (n & p & s' & E & At & I' & V & H); auto.
  { exact (twin_write Tw HD' (or_introl eq_refl)). }
  destruct (wf_pos WF x) as [PX PY]. pose proof (mval_pos WF (mder_val Hm)) as [PV PW]. pose proof (mval_dims WF (mder_val Hm)) as [D1 D2].
  destruct Mdv as (E1 & E2 & E3). cbn [jac_of layout mr mc] in E1, E2. rewrite (tw_rows Tw) in E1. rewrite (tw_cols Tw) in E2.
  assert (Pn : 0 < rows G e * cols G e * g_rows G x) by (rewrite <- D1, <- D2; repeat apply Nat.mul_pos_pos; auto).
  assert (En : rows G e * cols G e * g_rows G x * g_cols G x = mr dv * mc dv) by (rewrite E1, E2; ring).
  destruct (@Inv_reshape_any (x :: D) s' (dloc G e) p dv (rows G e * cols G e * g_rows G x) (g_cols G x)) as (m' & Er & Hh & I2); auto.
  { intros o. apply dloc_res. }
  exists n, p, (St m' (ar s') (fl s')). split; [|split; [|auto]].
  - intros f Hf'. specialize (E f Hf'). unfold DevalF, VDevalF, ebind in *. cbn [vreset]. destruct (reset G f e s) as [[[] s0]| | |]; try discriminate.
    cbn [vdevalF]. unfold ebind. fold y. rewrite E. unfold lift. cbn [vrows vcols]. rewrite Nat.mul_1_l. change (vrows G (VE e)) with (rows G e). change (vcols G (VE e)) with (cols G e). rewrite Er. reflexivity.
  - eapply holds_meq; [exact Hh|]. eapply meq_trans; [|apply (vjac_meq Df Tw); rewrite <- D2; exact PW].
    apply refold_meq; [split; [cbn [jac_of layout mr]; rewrite (tw_rows Tw); exact E1|split; [cbn [jac_of layout mc]; rewrite (tw_cols Tw); exact E2|exact E3]]|exact En|].
    rewrite E2. apply Nat.mul_pos_pos; [rewrite <- D2; exact PW|]. apply Nat.mul_pos_pos; auto.
Qed.
End At.
End Der.

(** ** Histories *)
(** Evaluation of an expression with vec, derivative of an expression without vec, derivative of vec(e). *)
Inductive vact (T : Type) : Type :=
| VAEval (rho : env T) (e : vexp T)
| VADevalF (rho : env T) (e : mexp T) (x : obj)
| VAVec (rho : env T) (id : nat) (e : mexp T) (x : obj).
Definition vact_exp {T} {N : Num T} (a : vact T) : mexp T :=
  match a with VAEval _ e => shape e | VADevalF _ e _ | VAVec _ _ e _ => e end.
Section Hist.
Context {T : Type} {N : Num T}.
Variable S : sched T.
Variable B : backend (T := T).
Variable G : graph T.
Variable row_of : obj -> obj.
Notation st := (st (T := T)).
Implicit Types (s : st).
Definition vcall (fuel : nat) (a : vact T) : E ptr :=
  match a with
  | VAEval rho e => VEval S B G rho fuel e
  | VADevalF rho e x => VDevalF S B G row_of rho fuel (VE e) x
  | VAVec rho id e x => VDevalF S B G row_of rho fuel (VVec id (VE e)) x
  end.
Definition vright (a : vact T) (m : mem T) (p : ptr) : Prop :=
  match a with
  | VAEval rho e => exists F, vden G rho e F /\ holds m p (vmat_of G e F)
  | VADevalF rho e x => exists F D, dif G rho x e F D /\ holds m p (jac_of G x e D)
  | VAVec rho _ e x => exists F D, dif G rho x e F D /\ holds m p (vjac_of G x e D)
  end.
Fixpoint vplays (l : list (vact T)) s : Prop :=
  match l with
  | [] => True
  | a :: t => exists n p s', (forall f, n <= f -> vcall f a s = EOk (p, s')) /\ vright a (mm s') p /\ vplays t s'
  end.
(** No derivative by x, of an expression without vec, after a derivative of vec(e) by x; D: matrices by which a vec has been
    differentiated. *)
Fixpoint ordered (D : list obj) (l : list (vact T)) : Prop :=
  match l with
  | [] => True
  | VAEval _ _ :: t => ordered D t
  | VADevalF _ _ x :: t => ~ In x D /\ ordered D t
  | VAVec _ _ _ x :: t => ordered (x :: D) t
  end.
Hypothesis L : NumLaws N.
Hypothesis VS : valid_sched S.
Hypothesis BV : value_ok B.
Hypothesis BK : kron_ok B \/ kron_zeroed_ok B.
Variable host : nat -> option obj.
Variable rank : obj -> nat.
Hypothesis WF : wf_graph G host rank.
Definition vact_ok (a : vact T) : Prop :=
  root host (vact_exp a) /\
  match a with
  | VAEval _ e => vfits G e /\ able G e
  | VADevalF _ e x => fits G e /\ kron_ok B /\ g_kind G x = LVar /\ distinct_vars G
  | VAVec rho _ e x => fits G e /\ kron_ok B /\ twin G rho x (row_of x) /\ distinct_entries G x /\ distinct_vars G
  end.
Definition after (D : list obj) (a : vact T) : list obj := match a with VAVec _ _ _ x => x :: D | _ => D end.
Theorem vcall_right D a s : Inv_with G (dirty G D) s -> (forall o, In o D -> g_kind G o = LVar) -> settled G (vact_exp a) s -> vact_ok a ->
  match a with VADevalF _ _ x => ~ In x D | _ => True end ->
  exists n p s', (forall f, n <= f -> vcall f a s = EOk (p, s')) /\ vright a (mm s') p /\ Inv_with G (dirty G (after D a)) s' /\
    (forall o, reach G (vact_exp a) o -> f_vis (fl s' o) = true) /\ (forall o, ~ reach G (vact_exp a) o -> fl s' o = fl s o).
Proof.
  intros I HD Hs (Hr & Ha) Hx. destruct a as [rho e|rho e x|rho id e x]; simpl in *.
  - destruct Ha as (Hf & Hab). destruct (vden_total rho Hf) as (F & HF). destruct (vden_vmval L WF Hf HF) as (v & Hv & Mv).
    destruct (@vcall_eval_with T N S VS B BV BK G host rank WF (dirty G D) (@dirty_same T N G D) rho e s v I Hs Hr Hab Hv) as (n & p & s' & E & At & I' & V & H).
    exists n, p, s'. split; [exact E|]. split; [|auto]. exists F. split; [exact HF|]. exact (holds_meq (proj2 At) Mv).
  - destruct Ha as (Hf & KO & Xv & DV). destruct (dif_total rho x Hf) as (F & Df & Hd).
    destruct (dif_mder L WF Xv DV Hf Hd) as (v & dv & Hv & Mv & Mdv).
    destruct (@call_devalF_with T N S VS B BV G host rank WF (dirty G D) (@dirty_same T N G D) rho KO x e s v dv) as (n & p & s' & E & At & I' & V & H); auto.
    { exact (plain_write VS WF DV rho Xv HD Hx). }
    exists n, p, s'. split; [exact E|]. split; [|auto]. exists F, Df. split; [exact Hd|]. exact (holds_meq (proj2 At) Mdv).
  - destruct Ha as (Hf & KO & Tw & De & DV). destruct (dif_total rho x Hf) as (F & Df & Hd).
    destruct (call_vec VS BV KO WF DV L id I HD Hs Hr Hf Tw De Hd) as (n & p & s' & E & Hh & I' & V & H).
    exists n, p, s'. split; [exact E|]. split; [|auto]. exists F, Df. auto.
Qed.
Theorem vhistory_right l : forall D s, Inv_with G (dirty G D) s -> (forall o, In o D -> g_kind G o = LVar) -> Forall vact_ok l -> ordered D l ->
  (forall a, In a l -> evaluated G (vact_exp a) s \/
     (untouched G (vact_exp a) s /\ forall b, In b l -> vact_exp b = vact_exp a \/ disjoint G (vact_exp a) (vact_exp b))) ->
  vplays l s.
Proof.
  induction l as [|a l IH]; intros D s I HD Ok Od H; [exact Logic.I|].
  inversion Ok as [|? ? Oa Ol]; subst.
  assert (Hs : settled G (vact_exp a) s).
  { destruct (H a (or_introl eq_refl)) as [Q|[Q _]]; [now apply evaluated_settled|now apply untouched_settled]. }
  destruct (@vcall_right D a s I HD Hs Oa) as (n & p & s' & E & R & I' & V & Nv); [destruct a; simpl in Od; tauto|].
  exists n, p, s'. split; [exact E|]. split; [exact R|].
  apply (IH (after D a)); auto.
  { destruct a as [rho e|rho e x|rho id e x]; simpl; auto. intros o [<-|Ho]; [|auto]. destruct Oa as (_ & _ & _ & Tw & _). exact (tw_var Tw). }
  { destruct a; simpl in *; tauto. }
  intros b Hb. destruct (H b (or_intror Hb)) as [Q|[Q Dj]].
  - left. intros o Ho Ne. destruct (reach_dec WF (vact_exp a) o) as [Ra|Ra]; [auto|]. rewrite Nv by auto. auto.
  - destruct (Dj a (or_introl eq_refl)) as [Ea|Da].
    + left. intros o Ho _. apply V. now rewrite Ea.
    + right. split; [|intros c Hc; apply Dj; now right].
      intros o Ho Ne. rewrite Nv; [auto|]. intros Ra. apply Ne. auto.
Qed.
End Hist.
