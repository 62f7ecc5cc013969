(** * Formulas of symbolic differentiation: their values (lemmas for C13, C15) *)

From Coq Require Import List Arith Bool Lia Ring.
From Verif Require Import Num ScalarModel ScalarSpec ScalarReset ScalarUser ScalarSym.
Import ListNotations.
Open Scope num_scope.

(** Exact division: a/b is a times 1/b, and 1/(v*v) is (1/v)*(1/v). *)
Record DivLaws {T} (N : Num T) : Prop := {
  law_div : forall a b : T, ndiv a b = nmul a (ndiv n1 b);
  law_inv : forall v : T, ndiv n1 (nmul v v) = nmul (ndiv n1 v) (ndiv n1 v)
}.

Section Form.
Context {T : Type} {N : Num T}.
Notation form := (form (T := T)).
Notation term := (term (T := T)).

(** Value of a formula, given value and derivative of the operands. *)
Fixpoint fval (vE vD : side -> T) (f : form) : T :=
  match f with
  | FE s => vE s | FD s => vD s
  | FU k a => mean1 k (fval vE vD a)
  | FB k a b => mean2 k (fval vE vD a) (fval vE vD b)
  end.
(** Operands mentioned by a formula. *)
Fixpoint usesE (f : form) (s : side) : Prop :=
  match f with
  | FE s' => s = s' | FD _ => False
  | FU _ a => usesE a s | FB _ a b => usesE a s \/ usesE b s
  end.
Fixpoint usesD (f : form) (s : side) : Prop :=
  match f with
  | FE _ => False | FD s' => s = s'
  | FU _ a => usesD a s | FB _ a b => usesD a s \/ usesD b s
  end.

(** Operators whose symbolic value (symEval) is right. *)
Definition vok1 (k : uop T) : Prop :=
  match k with UDivC c => c = n1 | UCust _ _ | UCustL _ _ _ | UCustR _ _ _ => False | _ => True end.
Definition vok2 (k : bop T) : Prop := match k with BCust _ _ _ => False | _ => True end.
(** Built-in operators. *)
Definition builtin1 (k : uop T) : Prop :=
  match k with UCust _ _ | UCustL _ _ _ | UCustR _ _ _ => False | _ => True end.
Definition builtin2 (k : bop T) : Prop := match k with BCust _ _ _ => False | _ => True end.
(** Operators whose derivative does not need the operand's value. *)
Definition lin1 (k : uop T) : Prop := match k with UProdC _ | USumC _ => True | _ => False end.
Definition lin2 (k : bop T) : Prop := match k with BSum | BSub => True | _ => False end.

(** Operators whose symbolic value and derivatives of every order are right. *)
Definition nicef (f : ufun) : Prop :=
  match f with
  | FSin | FCos | FTan | FSinh | FCosh | FTanh | FATan | FExp | FLog => True
  | _ => False
  end.
Definition nice1 (k : uop T) : Prop :=
  match k with
  | UFun f => nicef f
  | UProdC _ | USumC _ | UPowCL _ | UPowCR _ => True
  | UDivC c => c = n1
  | _ => False
  end.
Definition nice2 (k : bop T) : Prop := match k with BCust _ _ _ => False | _ => True end.

Fixpoint fnice (f : form) : Prop :=
  match f with
  | FE _ | FD _ => True
  | FU k a => nice1 k /\ fnice a
  | FB k a b => nice2 k /\ fnice a /\ fnice b
  end.
Fixpoint tnice (t : term) : Prop :=
  match t with
  | TRef _ | TPar _ => True
  | TUn k a => nice1 k /\ tnice a
  | TBin k a b => nice2 k /\ tnice a /\ tnice b
  | TClone a => tnice a
  end.

Fixpoint fbuilt (f : form) : Prop :=
  match f with
  | FE _ | FD _ => True
  | FU k a => builtin1 k /\ fbuilt a
  | FB k a b => builtin2 k /\ fbuilt a /\ fbuilt b
  end.
Fixpoint tbuilt (t : term) : Prop :=
  match t with
  | TRef _ | TPar _ => True
  | TUn k a => builtin1 k /\ tbuilt a
  | TBin k a b => builtin2 k /\ tbuilt a /\ tbuilt b
  | TClone a => tbuilt a
  end.

Lemma nice_v1 k : nice1 k -> vok1 k.
Proof. destruct k; simpl; auto. Qed.
Lemma nice_v2 k : nice2 k -> vok2 k.
Proof. destruct k; simpl; auto. Qed.
Lemma nice_b1 k : nice1 k -> builtin1 k.
Proof. destruct k; simpl; auto. Qed.

Lemma val1_some k : builtin1 k -> exists f, sym_val1 k = Some f /\ (forall s, ~ usesD f s) /\ (nice1 k -> fnice f) /\ fbuilt f.
Proof. destruct k; simpl; try contradiction; intros _; eexists; (split; [reflexivity|]); simpl; auto 6. Qed.
Lemma val2_some k : builtin2 k -> exists f, sym_val2 k = Some f /\ (forall s, ~ usesD f s) /\ (nice2 k -> fnice f) /\ fbuilt f.
Proof. destruct k; simpl; try contradiction; intros _; eexists; (split; [reflexivity|]); simpl; intuition. Qed.
Lemma der1_some k : builtin1 k -> exists f, sym_der1 k = Some f /\ (lin1 k -> forall s, ~ usesE f s) /\ (nice1 k -> fnice f) /\ fbuilt f.
Proof.
  destruct k; simpl; try contradiction; intros _; eexists; (split; [reflexivity|]); simpl; try tauto.
  destruct f; simpl; tauto.
Qed.
Lemma der2_some k : builtin2 k -> exists f, sym_der2 k = Some f /\ (lin2 k -> forall s, ~ usesE f s) /\ (nice2 k -> fnice f) /\ fbuilt f.
Proof. destruct k; simpl; try contradiction; intros _; eexists; (split; [reflexivity|]); simpl; tauto. Qed.

Section Laws.
Hypotheses (L : NumLaws N) (DL : DivLaws N).
Add Ring Tring : (law_ring N L).
Lemma m1_mul (a : T) : nm1 * a = nopp a.
Proof. rewrite (law_m1 N L). ring. Qed.

Lemma val1_ok k f u d : vok1 k -> sym_val1 k = Some f -> fval (fun _ => u) d f = mean1 k u.
Proof. destruct k; simpl; intros V E; try discriminate; injection E as <-; simpl; auto. now subst. Qed.
Lemma val2_ok k f vE d : sym_val2 k = Some f -> fval vE d f = mean2 k (vE SL) (vE SR).
Proof. destruct k; simpl; intros E; try discriminate; injection E as <-; simpl; auto. ring. Qed.

Lemma one_mul (a : T) : n1 * a = a.
Proof. ring. Qed.
Lemma sub_m1 (a : T) : n1 + nm1 * a = n1 - a.
Proof. rewrite m1_mul. ring. Qed.
Lemma add_m1 (a : T) : nm1 * n1 + a = a - n1.
Proof. rewrite m1_mul. ring. Qed.
Lemma fun_ok f u d : fval (fun _ => u) d (sym_fun f) = dmean f u.
Proof.
  destruct f; simpl; auto; rewrite ?sub_m1, ?add_m1, ?one_mul; auto;
    match goal with |- _ = ?a / ?b => now rewrite (law_div N DL a b), ?one_mul end.
Qed.
Lemma der1_ok k f u du : sym_der1 k = Some f -> fval (fun _ => u) (fun _ => du) f = chain1 k u du.
Proof.
  destruct k; simpl; intros E; try discriminate; injection E as <-; simpl; auto.
  - now rewrite fun_ok.
  - rewrite (law_inv N DL). reflexivity.
  - ring.
  - ring.
Qed.
Lemma der2_ok k f vE vD : sym_der2 k = Some f -> fval vE vD f = chain2 k (vE SL) (vE SR) (vD SL) (vD SR).
Proof.
  destruct k; simpl; intros E; try discriminate; injection E as <-; simpl; auto.
  - rewrite (law_inv N DL). ring.
  - rewrite (law_div N DL (vE SR)). ring.
Qed.
End Laws.
End Form.
