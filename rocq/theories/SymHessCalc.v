(** * Hessians and symbolic gradients over the reals (lemmas for C21, C58) *)

From Coq Require Import List Arith Bool Lia Reals Lra.
From Verif Require Import Num NumInst ScalarModel ScalarSpec ScalarReset ScalarEval ScalarTerm ScalarApi ScalarHist ScalarUser ScalarBuild
  ScalarFacts ScalarMore Calculus ScalarCalc ScalarSym SymForm SymOk SymInit SymSess SymUser SymCalc SymHess.
Import ListNotations.
Local Open Scope nat_scope.

(** Sessions without SymDiff. *)
Definition simple (a : act R) : Prop := match a with ADiff _ => False | _ => True end.

(** An oracle in use: hessian() and updates. *)
Inductive oact (T : Type) : Type := OHess | OSet (v : nat) (y : T) | OSetPar (p : nat) (y : T).
Arguments OHess {T}.
Definition oact_ok (st : storeR) (a : oact R) : Prop := match a with OHess => True | OSet _ v _ => is_var st v | OSetPar _ p _ => is_par st p end.
Fixpoint oplay {T} {N : Num T} (lr : form (T := T) -> bool) (pad e : nat) (ms xs : list nat) (Hm : option (nat -> nat -> T)) (acts : list (oact T)) (h : heap T)
  : option (list (nat -> nat -> T) * heap T) :=
  match acts with
  | [] => Some ([], h)
  | OHess :: acts' =>
      match oracle_hessian lr pad e ms xs Hm h with
      | Some (H, h1) => match oplay lr pad e ms xs (Some H) acts' h1 with Some (l, h2) => Some (H :: l, h2) | None => None end
      | None => None
      end
  | OSet _ v y :: acts' => match step pad (CSet v y) h with Some (_, h1) => oplay lr pad e ms xs Hm acts' h1 | None => None end
  | OSetPar _ p y :: acts' => match step pad (CSetPar p y) h with Some (_, h1) => oplay lr pad e ms xs Hm acts' h1 | None => None end
  end.
(** Every hessian() gave the derivative of f' with respect to x at the numbers of that moment. *)
Fixpoint second (U : (nat -> R) -> Prop) (f' : (nat -> R) -> R) (x : nat) (s : nat -> R) (acts : list (oact R)) (Hs : list (nat -> nat -> R)) : Prop :=
  match acts with
  | [] => Hs = []
  | OHess :: acts' => match Hs with H :: Hs' => (U s -> partial f' x s (H 0 0)) /\ second U f' x s acts' Hs' | [] => False end
  | OSet _ v y :: acts' => second U f' x (at_ v y s) acts' Hs
  | OSetPar _ p y :: acts' => second U f' x (at_ p y s) acts' Hs
  end.

Section Hess.
Variable lr : form (T := R) -> bool.
Variables (h0 : heapR) (st : storeR) (tc : nat -> Prop) (e : nat) (U : (nat -> R) -> Prop).
Hypothesis Re : reached h0 st tc.
Hypothesis Q : query_ok st tc e.
Hypothesis CG : closed_graph st e.
Hypothesis HU : forall s, U s -> smooth_at st e s.
Let I : Inv h0 st tc := reached_inv _ _ _ Re.
Notation S0 := (next h0).
Let NoRec := proj1 CG.
Let All := fun _ : nat => True.
Notation Sm := (Sm0 st U).
Notation ses := (sess h0 st e All All True smooth1 bdom Sm).
Notation kps := (keeps h0 st e All All True smooth1 bdom Sm).
Notation SIv := (SInv S0 All All True smooth1 bdom Sm).
Notation cop := (copied h0 st e All All True smooth1 bdom Sm).
Notation fit := (SymCalc.fits h0 st).
Notation spr := (spare h0).
Notation se_sinv S := (proj1 (se_live _ _ _ _ _ _ _ _ _ _ _ _ _ S)).

Notation again' := (again LawsR DivR lr h0 st tc e Re All All True (fun _ _ _ => Logic.I) (fun _ _ => conj Logic.I Logic.I) smooth1 bdom Sm
      (fun u => conj Logic.I Logic.I) sV1 sD1 sV2 sD2).

Lemma alike_state h g st' : kps h g st' -> ScalarMore.alike st st'.
Proof. intros K. apply (k_alike _ _ _ _ _ _ _ _ _ _ _ _ K). Qed.

(** The root r denotes the function f. *)
Definition shows (h : heapR) (g : ghost (T := R)) (r : nat) (f : (nat -> R) -> R) : Prop :=
  gR g r /\ (r = e \/ S0 <= r) /\ exists o, c_items (cells h r) = [o] /\ forall t W, fit h g t W -> sem W o = f t.

(** Queries of a copy of such a root. *)
Lemma copied_denotes pad f acts : forall s h g d m st', cop h g d m st' -> shows h g d f -> vals_of st' s ->
  Forall (act_ok st) acts -> Forall simple acts -> exists os h', play lr pad m acts h = Some (os, h') /\ denotes U f s acts os.
Proof.
  induction acts as [|a acts IH]; intros s h g d m st' C Sh Vs Ha Hsi; cbn [play denotes]; [exists [], h; auto|].
  inversion Ha as [|? ? Hok Ha']; subst. inversion Hsi as [|? ? Hsa Hsi']; subst. clear Ha Hsi.
  pose proof C as (S & _). destruct Sh as (Rd & Hd & b & Eb & Val).
  destruct (based_exists h0 st tc e Re All All True smooth1 bdom Sm h g d st' S) as (W & SW & BW & PW & _).
  pose proof (fits_based h0 st e U h g d st' s W S Vs SW BW PW) as FW.
  destruct (fits_exists h0 st tc e U Re h g d st' S) as (F & HF).
  assert (Cmd : forall c, on_root st m c -> exists o h', step pad c h = Some (o, h') /\ cop h' g d m (uafter st' c o) /\ reply st h g d (turn d c) o /\
    shows h' g d f).
  { intros c Hc. destruct (copied_cmd LawsR h0 st tc e Re Q All All True smooth1 bdom Sm pad c h g d m st' C Hc)
      as (o & h' & E & C' & Rp & Hi & Hs & Hb & _).
    exists o, h'. split; [auto|split; [auto|split; [auto|]]]. split; [auto|split; [auto|]]. exists b. split; [now rewrite Hi|].
    intros t W' (A & B & D). apply Val. split; [now apply Hs|]. split; auto. intros v Hv Pv Ei. rewrite <- (Hb v Hv). apply D; auto. now rewrite Hi. }
  assert (Qry : forall c, on_root st m c -> (forall o, uafter st' c o = st') -> exists o h', step pad c h = Some (o, h') /\ reply st h g d (turn d c) o /\
    exists os h2, play lr pad m acts h' = Some (os, h2) /\ denotes U f s acts os).
  { intros c Hc Hu. destruct (Cmd c Hc) as (o & h' & E & C' & Rp & Sh'). rewrite Hu in C'.
    destruct (IH s h' g d m st' C' Sh' Vs Ha' Hsi') as (os & h2 & E2 & D2). exists o, h'. eauto 8. }
  destruct a as [|z|zs|v y|p y|x]; cbn [act_ok simple] in *; cbn [play1]; try contradiction.
  - destruct (Qry (CEval m) eq_refl (fun _ => eq_refl)) as (o & h' & E & Rp & os & h2 & E2 & D2).
    rewrite E, E2. exists (o :: os), h2. split; auto. split; auto. cbn [turn] in Rp. rewrite (Rp W b SW BW Eb). now rewrite (Val s W FW).
  - destruct (Qry (CDevalF m z) (conj eq_refl (or_introl Hok)) (fun _ => eq_refl)) as (o & h' & E & Rp & os & h2 & E2 & D2).
    rewrite E, E2. exists (o :: os), h2. split; auto. split; auto.
    destruct (dsol_exists _ _ _ _ _ _ _ h g z W (se_sinv S)) as (D & SD). cbn [turn] in Rp.
    exists (dsem W D b). rewrite (Rp W D b SW BW SD Eb).
    destruct (Nat.eqb_spec d z) as [X|_]; [exfalso; exact (not_root h0 st tc e U Re Q h g d st' z S Hok X)|].
    split; auto. intros Us. eapply (deriv_root h0 st tc e U Re Q h g d st' S F HF z s W D); eauto.
  - assert (Hz : forall z, In z zs -> is_var st z \/ is_exp st z) by auto.
    destruct (Qry (CGrad m zs) (conj eq_refl Hz) (fun _ => eq_refl)) as (o & h' & E & Rp & os & h2 & E2 & D2).
    rewrite E, E2. exists (o :: os), h2. split; auto. split; auto.
    destruct Rp as (ys & -> & Len & Rp). exists ys. split; auto. split; auto. intros Us i z Hi.
    destruct (dsol_exists _ _ _ _ _ _ _ h g z W (se_sinv S)) as (D & SD).
    assert (Vz : is_var st z) by (apply Hok; eapply nth_error_In; eauto).
    exists (dsem W D b). split.
    + apply (Rp W b SW BW Eb) with (z := z); auto. intros u b' Hu Hb. apply smo_div.
      eapply (s_sm _ _ _ _ _ _ _ _ _ (se_sinv S) Logic.I); eauto. exists s. split; auto. apply FW.
    + eapply (deriv_root h0 st tc e U Re Q h g d st' S F HF z s W D); eauto.
  - destruct (Cmd (CSet v y) Hok) as (o & h' & E & C' & Rp & Sh'). cbn [uafter] in C'.
    destruct (IH (at_ v y s) h' g d m _ C' Sh') as (os & h2 & E2 & D2); auto.
    { intros w x Hw. unfold put in Hw. unfold at_ in *. destruct (Nat.eqb_spec w v); [destruct Hw; congruence|auto]. }
    rewrite E, E2. exists (o :: os), h2. auto.
  - destruct (Cmd (CSetPar p y) Hok) as (o & h' & E & C' & Rp & Sh'). cbn [uafter] in C'.
    destruct (IH (at_ p y s) h' g d m _ C' Sh') as (os & h2 & E2 & D2); auto.
    { intros w x Hw. unfold put in Hw. unfold at_ in *. destruct (Nat.eqb_spec w p); [destruct Hw; congruence|auto]. }
    rewrite E, E2. exists (o :: os), h2. auto.
Qed.

(** The expression itself, in any later state. *)
Variable f : (nat -> R) -> R.
Hypothesis Hf : forall t W, uvalues (at_vals st t) e W -> f t = W e.
Lemma shows_e h g st' : kps h g st' -> shows h g e f.
Proof.
  intros K. pose proof (k_inv _ _ _ _ _ _ _ _ _ _ _ _ K) as SI. pose proof (k_e _ _ _ _ _ _ _ _ _ _ _ _ K) as Ge.
  split; auto. split; auto.
  assert (Le : e < S0) by (apply (i_dom _ _ _ I); destruct (proj1 Q); congruence).
  destruct (s_one _ _ _ _ _ _ _ _ _ SI e (or_intror Ge)) as [X|[o Eo]]; [now apply (s_Rne _ _ _ _ _ _ _ _ _ SI e) in X|].
  exists o. split; auto. intros t W (A & B & C). rewrite (Hf t (uval st e W o)).
  - unfold uval. now rewrite Nat.eqb_refl.
  - rewrite (k_items _ _ _ _ _ _ _ _ _ _ _ _ K) in Eo by auto.
    apply (uvalues_of_sol h0 st tc e Re Q NoRec (at_vals st t) W o (at_vals_alike st t) Eo); auto.
    + intros v b Pv Eb. pose proof (inP_lt h0 st tc e Re Q v Pv) as Lv.
      apply A; [apply (k_P _ _ _ _ _ _ _ _ _ _ _ _ K); auto|]. rewrite (k_items _ _ _ _ _ _ _ _ _ _ _ _ K); auto.
    + rewrite (proj2 A); apply (s_t0 _ _ _ _ _ _ _ _ _ SI).
Qed.

(** SymDiff of a root that denotes fr. *)
Lemma diff_shows fuel r fr x h g st' : kps h g st' -> shows h g r fr -> is_var st x -> depth (S (S (next h))) <= fuel ->
  (SIv (entered h) g -> forall h2, reset_impl fuel r (entered h) = Some h2 -> spotless h2 g) ->
  exists d h' g' f', SymDiff lr fuel r x h = Some (d, h') /\ kps h' g' st' /\ spotless h' g' /\ S0 <= d /\ later h g h' g' /\ next h < d /\
    (forall v, v <> d -> gR g' v -> gR g v) /\ shows h' g' d f' /\ (forall t, U t -> partial fr x t (f' t)) /\
    exists o k t, c_items (cells h r) = [o] /\ c_items (cells h' d) = [Un (UProdC n1) k (Leaf t)] /\ gP g' t /\
      (c_items (cells h' t) = [] \/ linked h' o t).
Proof.
  intros K (Rr & Hr & o & Eo & Val) Vx Hfu HC.
  destruct (again' fuel r x h g st' K Rr Hr Hfu HC) as (d & h' & g' & E & K' & Cl & Rd & La & Hd & Rdec & Gap & o' & k & t & Eo' & Ed & Pt & Lk & V).
  rewrite Eo in Eo'. injection Eo' as <-.
  pose proof (s_S0 _ _ _ _ _ _ _ _ _ (k_inv _ _ _ _ _ _ _ _ _ _ _ _ K)) as H0.
  assert (Sd : S0 <= d) by lia.
  assert (S' : ses h' g' d st') by (apply keeps_clean; auto).
  assert (Rlt : r < next h) by (apply (s_lt _ _ _ _ _ _ _ _ _ (k_inv _ _ _ _ _ _ _ _ _ _ _ _ K)); auto).
  assert (Sr : ses h' g' r st') by (apply keeps_clean; auto; now apply (l_R _ _ _ _ La)).
  assert (Eor : c_items (cells h' r) = [o]) by (now rewrite (l_items _ _ _ _ La)).
  destruct (fits_exists h0 st tc e U Re h' g' d st' S') as (F' & HF').
  set (od := Un (UProdC n1) k (Leaf t)) in *.
  assert (Io : In od (c_items (cells h' d))) by (rewrite Ed; simpl; auto).
  assert (Low : forall t W, fit h' g' t W -> fit h g t W).
  { intros t' W (A & B & C). split; [eapply later_sol; eauto; apply (k_inv _ _ _ _ _ _ _ _ _ _ _ _ K)|]. split; auto.
    intros v Hv Pv Ei. assert (Lt : v < next h) by (apply (s_lt _ _ _ _ _ _ _ _ _ (k_inv _ _ _ _ _ _ _ _ _ _ _ _ K)); auto).
    rewrite C; auto; [now apply (l_base _ _ _ _ La)|now apply (l_P _ _ _ _ La)|now rewrite (l_items _ _ _ _ La)]. }
  exists d, h', g', (fun t => sem (F' t) od). split; [auto|split; [auto|split; [auto|split; [auto|split; [auto|split; [auto|split; [auto|split; [|split]]]]]]]].
  - split; auto. split; auto. exists od. split; auto. intros t' W' FW'.
    eapply (fits_sem h0 st tc e U Re Q h' g' d st' t' W' (F' t') d od S'); auto.
  - intros t' Ut. destruct (dsol_exists _ _ _ _ _ _ _ h' g' x (F' t') (se_sinv S')) as (D & SD).
    assert (Ne : Nat.eqb r x = false) by (apply Nat.eqb_neq; intros X; exact (not_root h0 st tc e U Re Q h' g' r st' x Sr Vx X)).
    rewrite (V Logic.I (F' t') D (proj1 (HF' t')) SD), Ne.
    apply (deriv_root h0 st tc e U Re Q h' g' r st' Sr F' HF' x t' (F' t') D); auto.
  - exists o, k, t. auto.
Qed.

(** ** Several derivatives *)
Lemma later_fits h g st' h' g' t W : kps h g st' -> later h g h' g' -> fit h' g' t W -> fit h g t W.
Proof.
  intros K La (A & B & C). pose proof (k_inv _ _ _ _ _ _ _ _ _ _ _ _ K) as SI.
  split; [eapply later_sol; eauto|]. split; auto.
  intros v Hv Pv Ei. assert (Lt : v < next h) by (apply (s_lt _ _ _ _ _ _ _ _ _ SI); auto).
  rewrite C; auto; [now apply (l_base _ _ _ _ La)|now apply (l_P _ _ _ _ La)|now rewrite (l_items _ _ _ _ La)].
Qed.
Lemma later_shows h g st' h' g' r fr : kps h g st' -> later h g h' g' -> shows h g r fr -> shows h' g' r fr.
Proof.
  intros K La (A & B & o & Eo & V). pose proof (k_inv _ _ _ _ _ _ _ _ _ _ _ _ K) as SI.
  split; [now apply (l_R _ _ _ _ La)|]. split; auto. exists o.
  split; [rewrite (l_items _ _ _ _ La); auto; apply (s_lt _ _ _ _ _ _ _ _ _ SI); auto|].
  intros t W F. apply V. eapply later_fits; eauto.
Qed.
Lemma cells_shows h h' g m r fr : SIv h g -> ~ gP g m -> ~ gR g m -> (forall v, v <> m -> cells h' v = cells h v) -> shows h g r fr -> shows h' g r fr.
Proof.
  intros SI NP NR Hc (A & B & o & Eo & V).
  assert (HP : forall v, gP g v -> cells h' v = cells h v) by (intros v Pv; apply Hc; intros ->; contradiction).
  split; auto. split; auto. exists o.
  split; [rewrite Hc; auto; intros ->; contradiction|]. intros t W ((F1 & F2) & G & J). apply V. split; [split|split; auto].
  - intros v u Pv Eu. apply F1; auto. now rewrite HP.
  - intros v Kv. rewrite F2, HP; auto. now apply (s_K _ _ _ _ _ _ _ _ _ SI).
  - intros v Hv Pv Ei. rewrite J, HP; auto. now rewrite HP.
Qed.

(** r can be differentiated. *)
Definition open_ (h : heapR) (g : ghost (T := R)) (r : nat) : Prop := forall fuel, depth (S (S (next h))) <= fuel ->
  SIv (entered h) g -> forall h2, reset_impl fuel r (entered h) = Some h2 -> spotless h2 g.
Lemma spotless_open h g r st' : kps h g st' -> spotless h g -> gR g r -> r = e \/ S0 <= r -> open_ h g r.
Proof.
  intros K Cl Rr Hr fuel Hfu I1 h2 E2. assert (S : ses h g r st') by (apply keeps_clean; auto).
  exact (live_reset S0 All All True smooth1 bdom Sm fuel r h g (se_live _ _ _ _ _ _ _ _ _ _ _ _ _ S) Hfu I1 h2 E2).
Qed.

(** m = SymDiff(r, x). *)
Lemma put_diff pad r fr x m h g st' : kps h g st' -> shows h g r fr -> is_var st x -> open_ h g r -> spr h g m ->
  exists d h1 h2 g' f', SymDiff lr (depth (S (S (next h))) + pad) r x h = Some (d, h1) /\ step pad (CAssignE m d) h1 = Some (ONone, h2) /\
    cop h2 g' d m st' /\ kps h2 g' st' /\ spotless h2 g' /\ S0 <= d /\ shows h2 g' d f' /\ (forall t, U t -> partial fr x t (f' t)) /\
    (forall m', spr h g m' -> spr h2 g' m' /\ (m' <> m -> c_items (cells h2 m') = c_items (cells h m'))) /\
    (forall r' f', shows h g r' f' -> shows h2 g' r' f') /\
    exists o k t, c_items (cells h2 r) = [o] /\ c_items (cells h2 d) = [Un (UProdC n1) k (Leaf t)] /\ gP g' t /\
      (c_items (cells h2 t) = [] \/ linked h2 o t).
Proof.
  intros K Sh Vx Op Sp.
  destruct (diff_shows (depth (S (S (next h))) + pad) r fr x h g st' K Sh Vx ltac:(lia) (Op (depth (S (S (next h))) + pad) ltac:(lia)))
    as (d & h1 & g' & f' & E & K1 & Cl1 & Hd & La & Nd & Rd & Sh1 & Pa & o & k & t & Eo & Ed & Pt & Lk).
  assert (Sp1 : forall m', spr h g m' -> spr h1 g' m') by (intros m' Hm; eapply spare_later; eauto).
  destruct (assign_ok h0 st tc e Re All All True smooth1 bdom Sm pad m d h1 g' st' K1 Cl1 (proj1 Sh1) Hd (Sp1 m Sp))
    as (h2 & E2 & C2 & K2 & Cl2 & N2 & M2 & O2).
  pose proof (k_inv _ _ _ _ _ _ _ _ _ _ _ _ K1) as SI1. pose proof (k_inv _ _ _ _ _ _ _ _ _ _ _ _ K) as SI.
  destruct (Sp1 m Sp) as (_ & _ & NP & NR & _).
  exists d, h1, h2, g', f'. split; auto. split; auto. split; auto. split; auto. split; auto. split; auto.
  split; [eapply cells_shows; eauto|]. split; auto. split; [|split].
  - intros m' Hm. split.
    + destruct (Sp1 m' Hm) as (A & B & C & D & F & G). repeat apply conj; auto; [now rewrite N2|].
      destruct (Nat.eq_dec m' m) as [->|Hn]; [|now rewrite O2].
      destruct C2 as (_ & _ & X & _). rewrite X. discriminate.
    + intros Hn. rewrite O2 by auto. destruct Hm as (_ & Lm & _). now rewrite (l_items _ _ _ _ La).
  - intros r' f1 Hr. apply (cells_shows h1 h2 g' m r' f1); auto. exact (later_shows h g st' h1 g' r' f1 K La Hr).
  - assert (Rlt : r < next h) by (apply (s_lt _ _ _ _ _ _ _ _ _ SI); right; apply Sh).
    assert (R1 : gR g' r) by (apply (l_R _ _ _ _ La), Sh).
    exists o, k, t. repeat apply conj; auto.
    + rewrite O2; [|intros ->; contradiction]. now rewrite (l_items _ _ _ _ La).
    + rewrite O2; auto. intros ->. apply NR. apply Sh1.
    + destruct Lk as [Lk|Lk]; [left; rewrite O2; auto; intros ->; contradiction|right].
      destruct o; cbn [linked] in *; rewrite ?M2; auto.
Qed.

(** *** HessianR *)
Lemma cols_low (m i : nat) (xs js : list nat) (H : nat -> nat -> R) (h : heapR) : (forall j, In j js -> j < i) ->
  hess_cols m i xs (js ++ [i]) H h = let (y, h1) := DevalR m (nth i xs 0) h in (set2 i i y H, h1).
Proof.
  induction js as [|j js IH]; intros Hj; cbn [app hess_cols].
  - rewrite Nat.ltb_irrefl, Nat.eqb_refl. destruct (DevalR m (nth i xs 0) h). reflexivity.
  - assert (j < i) by (apply Hj; simpl; auto). destruct (Nat.ltb_spec i j); [lia|]. destruct (Nat.eqb_spec i j); [lia|].
    apply IH. intros; apply Hj; simpl; auto.
Qed.
Definition mats (h : heapR) (g : ghost (T := R)) (ms : list nat) : Prop := forall m, In m ms -> spr h g m.
Lemma hess_row pad s ms xs i rs H h g st' : kps h g st' -> open_ h g e -> mats h g ms -> In (nth i ms 0) ms -> is_var st (nth i xs 0) ->
  vals_of st' s -> U s ->
  exists y h4 g' f', hess_rows lr pad e ms xs (i :: rs) H h = hess_rows lr pad e ms xs rs (set2 i i y H) h4 /\
    kps h4 g' st' /\ open_ h4 g' e /\ mats h4 g' ms /\
    (forall t, U t -> partial f (nth i xs 0) t (f' t)) /\ partial f' (nth i xs 0) s y.
Proof.
  intros K Op Ms Him Vx Vs Us. set (x := nth i xs 0) in *. set (m := nth i ms 0) in *.
  destruct (put_diff pad e f x m h g st' K (shows_e h g st' K) Vx Op (Ms m Him))
    as (d & h1 & h2 & g' & f' & E1 & E2 & C2 & K2 & Cl2 & Hd & Sh2 & Pa & Sp & _ & o & k & t & Eo & Ed & Pt & Lk).
  assert (Hon : on_root st m (CGrad m [x])) by (split; auto; intros z [<-|[]]; left; auto).
  destruct (copied_cmd LawsR h0 st tc e Re Q All All True smooth1 bdom Sm pad (CGrad m [x]) h2 g' d m st' C2 Hon)
    as (out & h3 & E3 & C3 & _ & Hi & _ & _ & M3 & N3). cbn [uafter] in C3.
  destruct (copied_denotes pad f' [AGrad [x]] s h2 g' d m st' C2 Sh2 Vs) as (os & h3' & E3' & D3).
  { repeat constructor. intros z [<-|[]]; auto. }
  { repeat constructor. }
  assert (E4 : play lr pad m [AGrad [x]] h2 = Some ([out], h3)) by (cbn [play play1]; now rewrite E3).
  rewrite E4 in E3'. injection E3' as <- <-. cbn [denotes] in D3. destruct D3 as ((ds & -> & Len & Dv) & _).
  destruct (Dv Us 0 x eq_refl) as (y & Ey & Py). destruct ds as [|y' [|]]; try discriminate Len. injection Ey as ->.
  exists y, h3, g', f'. split; [|split; [|split; [|split; [|split; auto]]]].
  - cbn [hess_rows]. fold x m. rewrite E1, E2. cbn [step] in E3.
    destruct (PreComp (fuel_for pad h2) m h2) as [h2p|]; [|discriminate].
    rewrite seq_S, cols_low by (intros j Hj; apply in_seq in Hj; lia). cbn [Nat.add]. fold x.
    cbn [reads] in E3. destruct (DevalR m x h2p) as [y' h4]. injection E3 as -> ->. reflexivity.
  - apply (sess_keeps _ _ _ _ _ _ _ _ _ _ _ d st'); [apply C3|]. apply K2.
  - intros fuel Hfu I1 h5 E5.
    refine (primed_reset h0 All All True smooth1 bdom Sm fuel e h3 g' _ _ _ Hfu I1 h5 E5).
    + destruct C3 as (S3 & _). apply (se_sinv S3).
    + apply K2.
    + eapply (copied_primed h0 st e All All True smooth1 bdom Sm h3 g' d m st' o k t); eauto; try now rewrite Hi.
      destruct Lk as [Lk|Lk]; [left; now rewrite Hi|right]. destruct o; cbn [linked] in *; rewrite ?M3; auto.
  - intros m' Hm. destruct (Sp m' (Ms m' Hm)) as [(A & B & C & D & F & G) _]. repeat apply conj; auto; [now rewrite N3|now rewrite Hi].
Qed.
Lemma hess_loop pad s ms xs rs : forall H h g st', kps h g st' -> open_ h g e -> mats h g ms -> vals_of st' s -> U s -> NoDup rs ->
  (forall i, In i rs -> In (nth i ms 0) ms /\ is_var st (nth i xs 0)) ->
  exists H' h', hess_rows lr pad e ms xs rs H h = Some (H', h') /\
    (forall i, In i rs -> exists f', (forall t, U t -> partial f (nth i xs 0) t (f' t)) /\ partial f' (nth i xs 0) s (H' i i)) /\
    (forall a b, a <> b \/ ~ In a rs -> H' a b = H a b).
Proof.
  induction rs as [|i rs IH]; intros H h g st' K Op Ms Vs Us Nd Hrs.
  - exists H, h. split; [reflexivity|]. split; [intros i []|auto].
  - destruct (Hrs i) as [A B]; [simpl; auto|].
    destruct (hess_row pad s ms xs i rs H h g st' K Op Ms A B Vs Us) as (y & h4 & g' & f' & E & K' & Op' & Ms' & Pa & Py).
    inversion Nd as [|? ? Ni Nd']; subst.
    destruct (IH (set2 i i y H) h4 g' st' K' Op' Ms' Vs Us Nd') as (H' & h' & E' & X & Y); [intros; apply Hrs; simpl; auto|].
    exists H', h'. rewrite E. split; auto. split.
    + intros j [<-|Hj]; auto. exists f'. split; auto. rewrite Y by auto. unfold set2. now rewrite Nat.eqb_refl.
    + intros a b Hab. rewrite Y by (destruct Hab as [|Hab]; auto; right; intros Z; apply Hab; simpl; auto).
      unfold set2. destruct (Nat.eqb_spec a i) as [->|]; auto. destruct (Nat.eqb_spec b i) as [->|]; auto. exfalso.
      destruct Hab as [|Hab]; [congruence|]. apply Hab. simpl; auto.
Qed.
(** The state after the matrix has been created. *)
Lemma start g k : ses h0 g e st -> exists ms h1, elems k (mat_index h0) = (ms, h1) /\ ses h1 g e st /\ length ms = k /\ NoDup ms /\
  mats h1 g ms /\ (forall m, In m ms -> c_items (cells h1 m) = [Leaf 1]).
Proof.
  intros S. assert (Ge : gR g e) by apply (se_live _ _ _ _ _ _ _ _ _ _ _ _ _ S).
  assert (S1 : ses (mat_index h0) g e st) by (eapply sess_index; eauto).
  destruct (elems_ok h0 st tc e Re All All True smooth1 bdom Sm k (mat_index h0) g e st S1 Ge) as (ms & h1 & E & S' & Len & Nd & Sp & _).
  exists ms, h1. repeat apply conj; auto; intros m Hm; apply (Sp m Hm).
Qed.
Lemma sess_open h g st' : ses h g e st' -> open_ h g e.
Proof.
  intros S fuel Hfu I1 h2 E2. exact (live_reset S0 All All True smooth1 bdom Sm fuel e h g (se_live _ _ _ _ _ _ _ _ _ _ _ _ _ S) Hfu I1 h2 E2).
Qed.
Theorem hessianR_ok pad xs s : xs <> [] -> Forall (is_var st) xs -> vals_of st s -> U s ->
  exists H h', HessianR lr pad e xs h0 = Some (H, h') /\
    (forall i x, nth_error xs i = Some x -> exists f', (forall t, U t -> partial f x t (f' t)) /\ partial f' x s (H i i)) /\
    (forall i j, i <> j -> H i j = 0%R).
Proof.
  intros Hx Hv Vs Us. destruct (all_init h0 st tc e U Re Q CG HU) as (g & S).
  assert (Ge : gR g e) by apply (se_live _ _ _ _ _ _ _ _ _ _ _ _ _ S).
  unfold HessianR. destruct (Nat.eqb_spec (length xs) 0) as [X|_]; [destruct xs; [congruence|discriminate X]|].
  assert (S1 : ses (mat_index (mat_index h0)) g e st) by (repeat (eapply sess_index; eauto)).
  destruct (elems_ok h0 st tc e Re All All True smooth1 bdom Sm (length xs) _ g e st S1 Ge) as (ms & h1 & E & S' & Len & Nd & Sp & _).
  rewrite E.
  destruct (hess_loop pad s ms xs (seq 0 (length xs)) (fun _ _ => n0) h1 g st) as (H & h' & E' & A & B); auto.
  - eapply sess_keeps; eauto.
  - now apply sess_open with (st' := st).
  - intros m Hm. apply (Sp m Hm).
  - apply seq_NoDup.
  - intros i Hi. apply in_seq in Hi. split; [apply nth_In; lia|]. rewrite Forall_forall in Hv. apply Hv, nth_In. lia.
  - exists H, h'. split; auto. split; [|intros i j Hij; now rewrite B by auto].
    intros i x Hi. assert (Li : i < length xs) by (apply nth_error_Some; congruence).
    apply (nth_error_nth _ _ 0) in Hi. rewrite <- Hi. apply A. apply in_seq. lia.
Qed.

(** *** SymGradient *)
Definition entry (h : heapR) (g : ghost (T := R)) (m : nat) (fm : (nat -> R) -> R) : Prop :=
  exists d, S0 <= d /\ c_items (cells h m) = [Leaf d] /\ spr h g m /\ shows h g d fm.
Lemma entry_denotes h g m fm st' pad s acts : kps h g st' -> spotless h g -> entry h g m fm -> vals_of st' s ->
  Forall (act_ok st) acts -> Forall simple acts -> exists os h', play lr pad m acts h = Some (os, h') /\ denotes U fm s acts os.
Proof.
  intros K Cl (d & Hd & Im & Sp & Sh) Vs Ha Hs.
  apply (copied_denotes pad fm acts s h g d m st'); auto.
  exact (copied_clean h0 st e All All True smooth1 bdom Sm m d h g st' K Cl (proj1 Sh) Hd Sp Im).
Qed.
Lemma grad_loop pad ms : forall ps h g st', kps h g st' -> open_ h g e -> (ps = [] -> spotless h g) -> NoDup (map fst ps) ->
  (forall m x, In (m, x) ps -> is_var st x /\ In m ms) -> mats h g ms ->
  exists h' g', grad_rows lr pad e ps h = Some h' /\ kps h' g' st' /\ spotless h' g' /\
    (forall m x, In (m, x) ps -> exists f', (forall t, U t -> partial f x t (f' t)) /\ entry h' g' m f') /\
    (forall m fm, entry h g m fm -> ~ In m (map fst ps) -> entry h' g' m fm).
Proof.
  induction ps as [|[m x] ps IH]; intros h g st' K Op Em Nd Hp Ms; cbn [grad_rows].
  - exists h, g. split; [auto|]. split; [auto|]. split; [auto|]. split; [intros m x []|auto].
  - destruct (Hp m x) as [Vx Im]; [simpl; auto|].
    destruct (put_diff pad e f x m h g st' K (shows_e h g st' K) Vx Op (Ms m Im))
      as (d & h1 & h2 & g' & f' & E1 & E2 & C2 & K2 & Cl2 & Hd & Sh2 & Pa & Sp & Sh & _).
    rewrite E1, E2. cbn [map fst] in Nd. inversion Nd as [|? ? Ni Nd']; subst.
    destruct (IH h2 g' st' K2) as (h' & g2 & E & K' & Cl' & A & B); auto.
    + eapply spotless_open; eauto. apply K2.
    + intros; apply Hp; simpl; auto.
    + intros m' Hm. apply (Sp m' (Ms m' Hm)).
    + exists h', g2. split; auto. split; auto. split; auto. split.
      * intros m' x' [Eq|Hin]; [injection Eq as <- <-|eauto]. exists f'. split; auto. apply B; auto.
        destruct C2 as (_ & Spm & Imm & _). exists d. auto.
      * intros m' fm (d' & Hd' & Im' & Sp' & Sh') Hn. cbn [map fst In] in Hn. apply B; [|tauto].
        destruct (Sp m' Sp') as [P1 P2]. exists d'. split; auto. split; [rewrite P2; auto; intros ->; tauto|]. split; auto.
Qed.
Theorem sym_gradient_ok pad xs s : xs <> [] -> Forall (is_var st) xs -> vals_of st s ->
  exists ms h', SymGradient lr pad e xs h0 = Some (ms, h') /\ length ms = length xs /\
    (forall i m x, nth_error ms i = Some m -> nth_error xs i = Some x ->
      exists f', (forall t, U t -> partial f x t (f' t)) /\
      forall pad' acts, Forall (act_ok st) acts -> Forall simple acts ->
        exists os h2, play lr pad' m acts h' = Some (os, h2) /\ denotes U f' s acts os).
Proof.
  intros Hx Hv Vs. destruct (all_init h0 st tc e U Re Q CG HU) as (g & S).
  unfold SymGradient. destruct (Nat.eqb_spec (length xs) 0) as [X|_]; [destruct xs; [congruence|discriminate X]|].
  destruct (start g (length xs) S) as (ms & h1 & E & S1 & Len & Nd & Ms & _). rewrite E.
  assert (Mf : forall l l' : list nat, length l = length l' -> map fst (combine l l') = l).
  { clear. induction l as [|a l IH]; intros [|b l'] H; try discriminate; simpl; auto. f_equal. apply IH. now injection H. }
  destruct (grad_loop pad ms (combine ms xs) h1 g st) as (h' & g' & E' & K' & Cl' & A & _).
  - eapply sess_keeps; eauto. apply (se_live _ _ _ _ _ _ _ _ _ _ _ _ _ S).
  - now apply sess_open with (st' := st).
  - intros X. destruct ms, xs; try discriminate; congruence.
  - now rewrite Mf.
  - intros m x Hin. split; [|eapply in_combine_l; eauto]. rewrite Forall_forall in Hv. apply Hv. eapply in_combine_r; eauto.
  - auto.
  - rewrite E'. exists ms, h'. split; auto. split; auto. intros i m x Hm Hxi.
    assert (Hin : In (m, x) (combine ms xs)).
    { clear - Hm Hxi. revert i xs Hm Hxi. induction ms as [|a ms IH]; intros [|i] [|b xs] Hm Hxi; try discriminate; simpl in *; [left; congruence|right; eauto]. }
    destruct (A m x Hin) as (f' & Pa & En). exists f'. split; auto. intros pad' acts Ha Hs. eapply entry_denotes; eauto.
Qed.

(** *** SymHessian *)
Lemma scols_low pad i (ms xs js : list nat) (h : heapR) : (forall j, In j js -> j < i) ->
  shess_cols lr pad e i ms xs (js ++ [i]) h = shess_cols lr pad e i ms xs [i] h.
Proof.
  induction js as [|j js IH]; intros Hj; cbn [app]; auto. cbn [shess_cols].
  assert (j < i) by (apply Hj; simpl; auto). destruct (Nat.ltb_spec i j); [lia|]. destruct (Nat.eqb_spec i j); [lia|].
  rewrite IH by (intros; apply Hj; simpl; auto). reflexivity.
Qed.
Lemma shess_row pad i (ms xs : list nat) h g st' : let m := nth (i * length xs + i) ms 0 in let x := nth i xs 0 in
  kps h g st' -> open_ h g e -> mats h g ms -> In m ms -> is_var st x ->
  exists h' g' f' f'', shess_cols lr pad e i ms xs (seq 0 (S i)) h = Some h' /\ kps h' g' st' /\ spotless h' g' /\ mats h' g' ms /\
    (forall t, U t -> partial f x t (f' t)) /\ (forall t, U t -> partial f' x t (f'' t)) /\ entry h' g' m f'' /\
    (forall m', In m' ms -> m' <> m -> c_items (cells h' m') = c_items (cells h m')) /\
    (forall m' fm, entry h g m' fm -> m' <> m -> entry h' g' m' fm).
Proof.
  intros m x K Op Ms Im Vx.
  destruct (diff_shows (depth (S (S (next h))) + pad) e f x h g st' K (shows_e h g st' K) Vx ltac:(lia) (Op (depth (S (S (next h))) + pad) ltac:(lia)))
    as (d & h1 & g1 & f' & E1 & K1 & Cl1 & Hd & La & Nd & Rd & Sh1 & Pa & _).
  assert (Sp1 : forall m', spr h g m' -> spr h1 g1 m') by (intros m' Hm; eapply spare_later; eauto).
  assert (Op1 : open_ h1 g1 d) by (eapply spotless_open; eauto; apply Sh1).
  destruct (put_diff pad d f' x m h1 g1 st' K1 Sh1 Vx Op1 (Sp1 m (Ms m Im)))
    as (d2 & h2 & h3 & g' & f'' & E2 & E3 & C3 & K3 & Cl3 & Hd2 & Sh3 & Pa2 & Sp & Sh & _).
  exists h3, g', f', f''. split; [|split; [auto|split; [auto|split; [|split; [auto|split; [auto|split; [|split]]]]]]].
  - rewrite seq_S, scols_low by (intros j Hj; apply in_seq in Hj; lia). cbn [shess_cols Nat.add]. rewrite Nat.ltb_irrefl, Nat.eqb_refl.
    fold x. fold m. rewrite E1, E2, E3. reflexivity.
  - intros m' Hm. apply (Sp m' (Sp1 m' (Ms m' Hm))).
  - destruct C3 as (_ & A & B & _). exists d2. auto.
  - intros m' Hm Hn. destruct (Sp m' (Sp1 m' (Ms m' Hm))) as [_ X]. rewrite X by auto. apply (l_items _ _ _ _ La). apply (Ms m' Hm).
  - intros m' fm (d' & Hd' & Im' & Sp' & Sh') Hn. destruct (Sp m' (Sp1 m' Sp')) as [A B]. exists d'. split; auto.
    split; [rewrite B by auto; rewrite (l_items _ _ _ _ La); auto; apply Sp'|]. split; auto. apply Sh. exact (later_shows h g st' h1 g1 d' fm K La Sh').
Qed.
Definition diag (n i : nat) : nat := i * n + i.
Lemma shess_loop pad (ms xs : list nat) : (forall i, i < length xs -> is_var st (nth i xs 0)) -> length ms = length xs * length xs -> NoDup ms ->
  forall rs h g st', kps h g st' -> open_ h g e -> (rs = [] -> spotless h g) -> mats h g ms -> (forall i, In i rs -> i < length xs) -> NoDup rs ->
  exists h' g', shess_rows lr pad e ms xs rs h = Some h' /\ kps h' g' st' /\ spotless h' g' /\ mats h' g' ms /\
    (forall i, In i rs -> exists f' f'', (forall t, U t -> partial f (nth i xs 0) t (f' t)) /\ (forall t, U t -> partial f' (nth i xs 0) t (f'' t)) /\
      entry h' g' (nth (diag (length xs) i) ms 0) f'') /\
    (forall m, In m ms -> (forall i, In i rs -> m <> nth (diag (length xs) i) ms 0) -> c_items (cells h' m) = c_items (cells h m)) /\
    (forall m fm, entry h g m fm -> (forall i, In i rs -> m <> nth (diag (length xs) i) ms 0) -> entry h' g' m fm).
Proof.
  intros Hv Len Nd. set (n := length xs) in *.
  assert (Dl : forall i, i < n -> diag n i < length ms) by (intros i Hi; rewrite Len; unfold diag; nia).
  assert (Dj : forall i j, i < n -> j < n -> i <> j -> nth (diag n i) ms 0 <> nth (diag n j) ms 0).
  { intros i j Hi Hj Hn X. apply Hn. apply (proj1 (NoDup_nth ms 0) Nd) in X; auto. unfold diag in X. nia. }
  induction rs as [|i rs IH]; intros h g st' K Op Em Ms Hr Ndr; cbn [shess_rows].
  - exists h, g. split; [auto|split; [auto|split; [auto|split; [auto|split; [intros i []|auto]]]]].
  - assert (Hi : i < n) by (apply Hr; simpl; auto). inversion Ndr as [|? ? Ni Ndr']; subst.
    destruct (shess_row pad i ms xs h g st' K Op Ms) as (h1 & g1 & f' & f'' & E & K1 & Cl1 & Ms1 & Pa & Pb & En & Oth & Ent).
    { apply nth_In. apply Dl; auto. } { auto. }
    rewrite E. destruct (IH h1 g1 st' K1) as (h' & g' & E' & K' & Cl' & Ms' & A & B & C); auto.
    { eapply spotless_open; eauto. apply K1. } { intros; apply Hr; simpl; auto. }
    exists h', g'. split; [auto|split; [auto|split; [auto|split; [auto|split; [|split]]]]].
    + intros j [<-|Hj]; auto. exists f', f''. split; auto. split; auto. apply C; auto. intros j Hj. apply Dj; auto.
      * apply Hr; simpl; auto.
      * intros ->. contradiction.
    + intros m Hm Hn. rewrite B; auto; [apply Oth; auto; apply Hn; simpl; auto|]. intros j Hj. apply Hn. simpl; auto.
    + intros m fm Em' Hn. apply C; [apply Ent; auto; apply Hn; simpl; auto|]. intros j Hj. apply Hn. simpl; auto.
Qed.

(** An element that was never assigned. *)
Definition blank (h : heapR) (g : ghost (T := R)) (m : nat) : Prop :=
  SIv h g /\ ready (next h) h m /\ calm h g m /\ c_items (cells h m) = [Leaf 1] /\ S0 <= m /\ (forall v, v < S0 -> c_items (cells h v) = c_items (cells h0 v)).
Lemma partial_zero x s : partial (fun _ => 0%R) x s 0%R.
Proof. apply (dlim_ext (fun _ => 0%R)); [reflexivity|apply dlim_const]. Qed.
Lemma blank_query pad q h g m : blank h g m ->
  (forall v x, q = QSet v x -> 2 <= v < S0 /\ c_items (cells h0 v) = []) ->
  exists o h', run1 (fuel_for pad h) m q h = Some (o, h') /\ blank h' g m /\ answer (graph_of h) m q o.
Proof.
  intros (SI & Rd & Cm & Im & Hm & Lo) Hq.
  destruct (any_query S0 All All True smooth1 bdom Sm (fuel_for pad h) m q h g SI Rd Cm) as (o & h' & E & SI' & Rd' & Cm' & An & Ge & Nx).
  { unfold fuel_for. lia. }
  { intros v x Eq. destruct (Hq v x Eq) as [A B]. split; [rewrite Lo; auto; lia|].
    intros Kv. destruct (s_Kb _ _ _ _ _ _ _ _ _ SI v Kv); lia. }
  exists o, h'. split; auto. split; auto. split; auto. split; auto. split; auto.
  assert (Hi : forall v, c_items (cells h' v) = c_items (cells h v)).
  { intros v. specialize (Ge v). destruct q as [w x| |x|xs]; unfold graph_of in Ge; cbn [after] in Ge; try congruence.
    unfold gset, at_ in Ge. destruct (Nat.eqb_spec v w) as [Ev|]; [|congruence].
    assert (X : c_items (cells h' v) = []) by congruence. subst v. rewrite X. destruct (Hq w x eq_refl) as [A B]. rewrite Lo by lia. auto. }
  split; [now rewrite Hi|]. split; auto. intros v Hv. rewrite Hi. auto.
Qed.
Lemma blank_denotes pad acts : forall s h g m, blank h g m -> Forall (act_ok st) acts -> Forall simple acts ->
  exists os h', play lr pad m acts h = Some (os, h') /\ denotes U (fun _ => 0%R) s acts os.
Proof.
  induction acts as [|a acts IH]; intros s h g m B Ha Hs; cbn [play denotes]; [exists [], h; auto|].
  inversion Ha as [|? ? Hok Ha']; subst. inversion Hs as [|? ? Hsa Hs']; subst. clear Ha Hs.
  pose proof B as (SI & Rd & _ & Im & Hm & Lo).
  destruct (s_t0 _ _ _ _ _ _ _ _ _ SI) as [K1 B1]. destruct (s_K _ _ _ _ _ _ _ _ _ SI 1 K1) as [_ I1].
  set (G := graph_of h). assert (Gm : items G m = [Leaf 1]) by exact Im. assert (G1 : items G 1 = []) by exact I1.
  assert (H2 : 2 <= S0) by (assert (2 <= e < S0) by (apply (i_dom _ _ _ I); destruct (proj1 Q); congruence); lia).
  assert (Rc : forall v, reach G m v -> v = m \/ v = 1).
  { intros v Hv. induction Hv as [|a' b Hv IHv (o & Ho & Hb)]; auto. destruct IHv as [->| ->].
    - rewrite Gm in Ho. destruct Ho as [<-|[]]. destruct Hb as [<-|[]]. auto.
    - rewrite G1 in Ho. destruct Ho. }
  assert (Ne1 : m <> 1) by lia.
  set (W := fun _ : nat => 0%R).
  assert (Vw : values G m W).
  { intros v Hv. destruct (Rc v Hv) as [->| ->]; [rewrite Gm|rewrite G1]; cbn [fold_left sem]; unfold W.
    - rewrite at_other; auto.
    - symmetry. exact B1. }
  assert (Dw : forall x, is_var st x -> derivs G m W x W).
  { intros x Vx v Hv. destruct (var_low h0 st tc Re x Vx) as [Lx _].
    destruct (Rc v Hv) as [->| ->]; [rewrite Gm|rewrite G1]; cbn [fold_left dsem snd fst]; unfold W.
    - destruct (Nat.eqb_spec m x); [lia|]. rewrite !at_other by lia. reflexivity.
    - destruct (Nat.eqb_spec 1 x); [lia|]. reflexivity. }
  destruct a as [|z|zs|v y|p y|x]; cbn [act_ok simple] in *; cbn [play1]; try contradiction.
  - destruct (blank_query pad QEval h g m B) as (o & h' & E & B' & An); [discriminate|]. cbn [run1] in E. cbn [step].
    destruct (Eval (fuel_for pad h) m h) as [[y h1]|]; [|discriminate]. injection E as <- <-.
    destruct (IH s h1 g m B' Ha' Hs') as (os & h2 & E2 & D2). rewrite E2. exists (ONums [y] :: os), h2. split; auto. split; auto.
    f_equal. exact (An W Vw).
  - destruct (blank_query pad (QDevalF z) h g m B) as (o & h' & E & B' & An); [discriminate|]. cbn [run1] in E. cbn [step].
    destruct (DevalF (fuel_for pad h) m z h) as [[y h1]|]; [|discriminate]. injection E as <- <-.
    destruct (IH s h1 g m B' Ha' Hs') as (os & h2 & E2 & D2). rewrite E2. exists (ONums [y] :: os), h2. split; auto. split; auto.
    exists y. split; auto. intros _. pose proof (An W W Vw (Dw z Hok)) as X. injection X as ->. apply partial_zero.
  - destruct (blank_query pad (QGrad zs) h g m B) as (o & h' & E & B' & An); [discriminate|]. cbn [run1] in E. cbn [step].
    destruct (PreComp (fuel_for pad h) m h) as [h1|]; [|discriminate]. destruct (reads m zs h1) as [ys h2]. injection E as <- <-.
    destruct (IH s h2 g m B' Ha' Hs') as (os & h3 & E2 & D2). rewrite E2. exists (ONums ys :: os), h3. split; auto. split; auto.
    destruct An as [Len An]. exists ys. split; auto. split; auto. intros _ i z Hi.
    assert (Vz : is_var st z) by (apply Hok; eapply nth_error_In; eauto). destruct (var_low h0 st tc Re z Vz) as [Lz Iz].
    exists 0%R. split; [|apply partial_zero].
    assert (Nm : forall v, reach G m v -> node_ids G v = []).
    { intros v Hv. unfold node_ids. destruct (Rc v Hv) as [->| ->]; [rewrite Gm|rewrite G1]; reflexivity. }
    apply (An W LawsR Vw) with (x := z) (D := W); auto; fold G.
    + intros v Hv. destruct (Rc v Hv) as [->| ->]; [rewrite Gm|rewrite G1]; cbn [divs_ok div_ok]; auto.
    + split; [|split].
      * intros v Hv. rewrite Nm by auto. constructor.
      * intros v w k Hv Hw _. rewrite Nm by auto. intros [].
      * intros v w k o Hv Hw. rewrite Nm by auto. intros [].
    + split; [split; [|split]|split].
      * intros v Hv. rewrite Nm by auto. intros [].
      * intros v o Hv Ho. destruct (Rc v Hv) as [->| ->]; [rewrite Gm in Ho; destruct Ho as [<-|[]]; simpl; auto|rewrite G1 in Ho; destruct Ho].
      * intros v Hv Ho. destruct (Rc v Hv) as [->| ->]; [rewrite Gm in Ho; destruct Ho as [Ho|[]]; injection Ho as <-; lia|rewrite G1 in Ho; destruct Ho].
      * lia.
      * intros o Ho. assert (X : items G z = []) by (unfold items, G, graph_of; cbn [snd]; rewrite Lo by lia; auto). rewrite X in Ho. destruct Ho.
  - destruct (var_low h0 st tc Re v Hok) as [Lv Iv].
    destruct (blank_query pad (QSet v y) h g m B) as (o & h' & E & B' & An).
    { intros w z X. injection X as <- <-. auto. }
    cbn [run1] in E. cbn [step]. injection E as <- <-. destruct (IH (at_ v y s) _ g m B' Ha' Hs') as (os & h2 & E2 & D2).
    rewrite E2. exists (ONone :: os), h2. auto.
  - destruct (par_low h0 st tc Re p Hok) as (Lp & Lv & Iv).
    destruct (blank_query pad (QSet (S p) y) h g m B) as (o & h' & E & B' & An).
    { intros w z X. injection X as <- <-. split; [lia|auto]. }
    cbn [run1] in E. cbn [step]. injection E as <- <-. destruct (IH (at_ p y s) _ g m B' Ha' Hs') as (os & h2 & E2 & D2).
    rewrite E2. exists (ONone :: os), h2. auto.
Qed.

Lemma blank_clean h g m st' : kps h g st' -> spotless h g -> spr h g m -> c_items (cells h m) = [Leaf 1] -> blank h g m.
Proof.
  intros K Cl (A & B & C & D & E & F) Im. pose proof (k_inv _ _ _ _ _ _ _ _ _ _ _ _ K) as SI.
  destruct (s_t0 _ _ _ _ _ _ _ _ _ SI) as [K1 B1]. destruct (s_K _ _ _ _ _ _ _ _ _ SI 1 K1) as [P1 I1].
  assert (Rc : forall v, reach (graph_of h) m v -> v = m \/ v = 1).
  { intros v Hv. induction Hv as [|a' b Hv IHv (o & Ho & Hb)]; auto. unfold items, graph_of in Ho. cbn [snd] in Ho. destruct IHv as [->| ->].
    - rewrite Im in Ho. destruct Ho as [<-|[]]. destruct Hb as [<-|[]]. auto.
    - rewrite I1 in Ho. destruct Ho. }
  split; [auto|]. split; [constructor; auto|split; [|split; [auto|split; [auto|apply K]]]].
  - eapply SInv_bounded; eauto.
  - exists (fun v => if Nat.eqb v m then 1 else 0). intros v w Hv (o & Ho & Hw). unfold items, graph_of in Ho. cbn [snd] in Ho.
    destruct (Rc v Hv) as [->| ->]; [|rewrite I1 in Ho; destruct Ho]. rewrite Im in Ho. destruct Ho as [<-|[]]. destruct Hw as [<-|[]].
    right. rewrite Nat.eqb_refl. destruct (Nat.eqb_spec 1 m) as [<-|]; [contradiction|lia].
  - intros v o w Ho Hw. exact (s_par _ _ _ _ _ _ _ _ _ SI v o w Ho Hw).
  - split.
    + intros v Hv Hi. destruct (Rc v Hv) as [->| ->]; [congruence|auto].
    + intros v w Hv (o & Ho & Hw) Hn _. unfold items, graph_of in Ho. cbn [snd] in Ho. destruct (Rc v Hv) as [->| ->]; [congruence|]. rewrite I1 in Ho. destruct Ho.
  - intros v Pv _. auto.
Qed.
Theorem sym_hessian_ok pad xs s : xs <> [] -> Forall (is_var st) xs -> vals_of st s -> let n := length xs in
  exists ms h', SymHessian lr pad e xs h0 = Some (ms, h') /\ length ms = n * n /\
    (forall i x m, nth_error xs i = Some x -> nth_error ms (i * n + i) = Some m ->
      exists f' f'', (forall t, U t -> partial f x t (f' t)) /\ (forall t, U t -> partial f' x t (f'' t)) /\
      forall pad' acts, Forall (act_ok st) acts -> Forall simple acts ->
        exists os h2, play lr pad' m acts h' = Some (os, h2) /\ denotes U f'' s acts os) /\
    (forall i j m, i < n -> j < n -> i <> j -> nth_error ms (i * n + j) = Some m ->
      forall pad' acts, Forall (act_ok st) acts -> Forall simple acts ->
        exists os h2, play lr pad' m acts h' = Some (os, h2) /\ denotes U (fun _ => 0%R) s acts os).
Proof.
  intros Hx Hv Vs n. destruct (all_init h0 st tc e U Re Q CG HU) as (g & S).
  unfold SymHessian. fold n. destruct (Nat.eqb_spec n 0) as [X|_]; [destruct xs; [congruence|discriminate X]|].
  destruct (start g (n * n) S) as (ms & h1 & E & S1 & Len & Nd & Ms & Bl). rewrite E. rewrite Forall_forall in Hv.
  destruct (shess_loop pad ms xs) with (rs := seq 0 n) (h := h1) (g := g) (st' := st) as (h' & g' & E' & K' & Cl' & Ms' & A & B & _); auto.
  - intros i Hi. apply Hv, nth_In, Hi.
  - eapply sess_keeps; eauto. apply (se_live _ _ _ _ _ _ _ _ _ _ _ _ _ S).
  - now apply sess_open with (st' := st).
  - intros X. destruct xs; [congruence|discriminate X].
  - intros i Hi. apply in_seq in Hi. unfold n in *. lia.
  - apply seq_NoDup.
  - rewrite E'. exists ms, h'. split; auto. split; auto. fold n in A, B. split.
    + intros i x m Hi Hm. assert (Li : i < n) by (apply nth_error_Some; congruence).
      apply (nth_error_nth _ _ 0) in Hi. apply (nth_error_nth _ _ 0) in Hm.
      destruct (A i) as (f' & f'' & Pa & Pb & En); [apply in_seq; lia|]. unfold diag in En. rewrite Hi in *. rewrite Hm in En.
      exists f', f''. split; auto. split; auto. intros pad' acts Ha Hs. eapply entry_denotes; eauto.
    + intros i j m Hi Hj Hn Hm pad' acts Ha Hs. assert (Lm : i * n + j < length ms) by (rewrite Len; nia).
      assert (Im : In m ms) by (eapply nth_error_In; eauto).
      apply blank_denotes with (g := g'); auto. apply blank_clean with (st' := st); auto. rewrite B; auto.
      intros k Hk X. apply in_seq in Hk. apply (nth_error_nth _ _ 0) in Hm. rewrite <- Hm in X.
      apply (proj1 (NoDup_nth ms 0) Nd) in X; auto; [|unfold diag; rewrite Len; nia]. unfold diag in X.
      assert (i = k) by nia. assert (j = k) by nia. lia.
Qed.

(** *** The oracle, one variable *)
Lemma vals_put st' v y s x : vals_of st' s -> (x = OVar y \/ x = OPar y) -> vals_of (put st' v x) (at_ v y s).
Proof.
  intros Vs Hx w z Hw. unfold put, at_ in *. destruct (Nat.eqb_spec w v); [|auto].
  destruct Hx as [-> | ->]; destruct Hw; congruence.
Qed.
Lemma ora_query pad m x s h g d st' f' H : cop h g d m st' -> shows h g d f' -> vals_of st' s -> is_var st x ->
  exists y h1, ora_rows pad [m] [x] [0] H h = Some (set2 0 0 y H, h1) /\ cop h1 g d m st' /\ shows h1 g d f' /\ (U s -> partial f' x s y).
Proof.
  intros C Sh Vs Vx.
  assert (Hon : on_root st m (CGrad m [x])) by (split; auto; intros z [<-|[]]; left; auto).
  destruct (copied_cmd LawsR h0 st tc e Re Q All All True smooth1 bdom Sm pad (CGrad m [x]) h g d m st' C Hon)
    as (out & h1 & E & C1 & _ & Hi & Hs & Hb & _). cbn [uafter] in C1.
  destruct (copied_denotes pad f' [AGrad [x]] s h g d m st' C Sh Vs) as (os & h1' & E' & D).
  { repeat constructor. intros z [<-|[]]; auto. }
  { repeat constructor. }
  assert (E4 : play lr pad m [AGrad [x]] h = Some ([out], h1)) by (cbn [play play1]; now rewrite E).
  rewrite E4 in E'. injection E' as <- <-. cbn [denotes] in D. destruct D as ((ds & -> & Len & Dv) & _).
  destruct ds as [|y [|]]; try discriminate Len. exists y, h1. split; [|split; [auto|split]].
  - cbn [ora_rows nth_error seq ora_cols Nat.ltb Nat.leb Nat.eqb nth]. cbn [step] in E.
    destruct (PreComp (fuel_for pad h) m h) as [hp|]; [|discriminate]. cbn [reads] in E.
    change (Nat.ltb 0 0) with false. cbn [Nat.eqb nth]. destruct (DevalR m x hp) as [y' h4]. injection E as -> ->. reflexivity.
  - destruct Sh as (A & B & o & Eo & V). split; auto. split; auto. exists o. split; [now rewrite Hi|].
    intros t W (P & P2 & P3). apply V. split; [now apply Hs|]. split; auto. intros v Hv Pv Ei. rewrite <- (Hb v Hv). apply P3; auto. now rewrite Hi.
  - intros Us. destruct (Dv Us 0 x eq_refl) as (y' & Ey & Py). injection Ey as ->. exact Py.
Qed.
Lemma ora_later pad m x f' acts : forall s h g d st' H, cop h g d m st' -> shows h g d f' -> vals_of st' s -> is_var st x -> Forall (oact_ok st) acts ->
  exists Hs h', oplay lr pad e [m] [x] (Some H) acts h = Some (Hs, h') /\ second U f' x s acts Hs.
Proof.
  assert (Upd : forall c v y h g d st' x', (c = CSet v y /\ is_var st v /\ x' = OVar y) \/ (c = CSetPar v y /\ is_par st v /\ x' = OPar y) ->
    cop h g d m st' -> shows h g d f' -> exists o h1, step pad c h = Some (o, h1) /\ cop h1 g d m (put st' v x') /\ shows h1 g d f').
  { intros c v y h g d st' x' Hc C Sh.
    assert (Hon : on_root st m c) by (destruct Hc as [(-> & A & _)|(-> & A & _)]; exact A).
    destruct (copied_cmd LawsR h0 st tc e Re Q All All True smooth1 bdom Sm pad c h g d m st' C Hon) as (o & h1 & E & C1 & _ & Hi & Hs & Hb & _).
    exists o, h1. split; auto. split.
    - destruct Hc as [(-> & _ & ->)|(-> & _ & ->)]; exact C1.
    - destruct Sh as (A & B & u & Eo & V). split; auto. split; auto. exists u. split; [now rewrite Hi|].
      intros t W (P & P2 & P3). apply V. split; [now apply Hs|]. split; auto. intros w Hv Pv Ei. rewrite <- (Hb w Hv). apply P3; auto. now rewrite Hi. }
  induction acts as [|a acts IH]; intros s h g d st' H C Sh Vs Vx Ha; cbn [oplay second]; [exists [], h; auto|].
  inversion Ha as [|? ? Hok Ha']; subst. destruct a as [|v y|v y]; cbn [oact_ok] in Hok.
  - cbn [oracle_hessian length seq]. destruct (ora_query pad m x s h g d st' f' H C Sh Vs Vx) as (y & h1 & E & C1 & Sh1 & Py). rewrite E.
    destruct (IH s h1 g d st' (set2 0 0 y H) C1 Sh1 Vs Vx Ha') as (Hs & h' & E' & Se). rewrite E'. exists (set2 0 0 y H :: Hs), h'. auto.
  - destruct (Upd (CSet v y) v y h g d st' (OVar y)) as (o & h1 & E & C1 & Sh1); auto. rewrite E.
    apply (IH (at_ v y s) h1 g d (put st' v (OVar y))); auto. apply vals_put; auto.
  - destruct (Upd (CSetPar v y) v y h g d st' (OPar y)) as (o & h1 & E & C1 & Sh1); auto. rewrite E.
    apply (IH (at_ v y s) h1 g d (put st' v (OPar y))); auto. apply vals_put; auto.
Qed.
Lemma ora_first pad m x acts : forall s h g st', ses h g e st' -> spr h g m -> vals_of st' s -> is_var st x -> Forall (oact_ok st) acts ->
  exists Hs h' f', oplay lr pad e [m] [x] None acts h = Some (Hs, h') /\ (In OHess acts -> forall t, U t -> partial f x t (f' t)) /\ second U f' x s acts Hs.
Proof.
  assert (Upd : forall c v y h g st' x', (c = CSet v y /\ is_var st v /\ x' = OVar y) \/ (c = CSetPar v y /\ is_par st v /\ x' = OPar y) ->
    ses h g e st' -> spr h g m -> exists o h1, step pad c h = Some (o, h1) /\ ses h1 g e (put st' v x') /\ spr h1 g m).
  { intros c v y h g st' x' Hc S Sp.
    assert (Hon : on_root st e c) by (destruct Hc as [(-> & A & _)|(-> & A & _)]; exact A).
    destruct (sess_cmd LawsR h0 st tc e Re Q All All True smooth1 bdom Sm pad c h g e st' S Hon) as (o & h1 & E & S1 & _ & Hi & _).
    exists o, h1. split; auto. split.
    - destruct Hc as [(-> & _ & ->)|(-> & _ & ->)]; exact S1.
    - assert (Nx : next h1 = next h) by (destruct Hc as [(-> & _)|(-> & _)]; cbn [step] in E; injection E as _ <-; reflexivity).
      destruct Sp as (A & B & C & D & F & G). repeat apply conj; auto; [now rewrite Nx|now rewrite Hi]. }
  induction acts as [|a acts IH]; intros s h g st' S Sp Vs Vx Ha; cbn [oplay second].
  { exists [], h, (fun _ => 0%R). split; auto. split; [intros []|auto]. }
  inversion Ha as [|? ? Hok Ha']; subst. destruct a as [|v y|v y]; cbn [oact_ok] in Hok.
  - assert (Ge : gR g e) by apply (se_live _ _ _ _ _ _ _ _ _ _ _ _ _ S).
    assert (S1 : ses (mat_index h) g e st') by (eapply sess_index; eauto).
    assert (Sp1 : spr (mat_index h) g m) by (eapply spare_mono; [| |exact Sp]; [simpl; lia|auto]).
    assert (K : kps (mat_index h) g st') by (eapply sess_keeps; eauto).
    destruct (put_diff pad e f x m (mat_index h) g st' K (shows_e _ g st' K) Vx (sess_open _ g st' S1) Sp1)
      as (d & h1 & h2 & g' & f' & E1 & E2 & C2 & K2 & Cl2 & Hd & Sh2 & Pa & _).
    destruct (ora_query pad m x s h2 g' d st' f' (fun _ _ => n0) C2 Sh2 Vs Vx) as (y & h3 & E3 & C3 & Sh3 & Py).
    destruct (ora_later pad m x f' acts s h3 g' d st' (set2 0 0 y (fun _ _ => n0)) C3 Sh3 Vs Vx Ha') as (Hs & h' & E' & Se).
    exists (set2 0 0 y (fun _ _ => n0) :: Hs), h', f'. split; [|split; auto].
    cbn [oracle_hessian sym_jacob nth_error length seq]. rewrite E1, E2, E3, E'. reflexivity.
  - destruct (Upd (CSet v y) v y h g st' (OVar y)) as (o & h1 & E & C1 & Sh1); auto. rewrite E.
    destruct (IH (at_ v y s) h1 g (put st' v (OVar y))) as (Hs & h' & f' & A & B & C); auto; [apply vals_put; auto|].
    exists Hs, h', f'. split; auto. split; auto. intros [X|X]; [discriminate|auto].
  - destruct (Upd (CSetPar v y) v y h g st' (OPar y)) as (o & h1 & E & C1 & Sh1); auto. rewrite E.
    destruct (IH (at_ v y s) h1 g (put st' v (OPar y))) as (Hs & h' & f' & A & B & C); auto; [apply vals_put; auto|].
    exists Hs, h', f'. split; auto. split; auto. intros [X|X]; [discriminate|auto].
Qed.
Theorem oracle_one pad x s acts : is_var st x -> vals_of st s -> Forall (oact_ok st) acts ->
  exists Hs h' f', (let (ms, h1) := oracle_new h0 in oplay lr pad e ms [x] None acts h1) = Some (Hs, h') /\
    (In OHess acts -> forall t, U t -> partial f x t (f' t)) /\ second U f' x s acts Hs.
Proof.
  intros Vx Vs Ha. destruct (all_init h0 st tc e U Re Q CG HU) as (g & S). unfold oracle_new.
  destruct (start g 1 S) as (ms & h1 & E & S1 & Len & Nd & Ms & _). rewrite E.
  destruct ms as [|m [|]]; try discriminate Len. apply (ora_first pad m x acts s h1 g st); auto. apply Ms. simpl; auto.
Qed.
End Hess.
(** From two variables on the element m_jacobian_sym[1] does not exist. *)
Theorem oracle_many {T} {N : Num T} (lr : form (T := T) -> bool) pad e (h : heap T) xs : 2 <= length xs ->
  let (ms, h1) := oracle_new h in forall h2, oracle_hessian lr pad e ms xs None h2 = None.
Proof.
  unfold oracle_new. intros Hl. destruct (elems 1 (mat_index h)) as [ms h1] eqn:E. intros h2.
  assert (Len : length ms = 1).
  { cbn [elems] in E. destruct (new_exp _ _ (mat_index h)) as [m h']. injection E as <- _. reflexivity. }
  destruct ms as [|m [|]]; try discriminate Len. destruct xs as [|x [|x' xs]]; try (simpl in Hl; lia).
  cbn [oracle_hessian sym_jacob nth_error]. destruct (SymDiff _ _ e x _) as [[d h3]|]; auto.
  destruct (step pad (CAssignE m d) h3) as [[u h4]|]; auto. destruct (SymDiff _ _ e x' _) as [[d' h5]|]; auto.
Qed.
