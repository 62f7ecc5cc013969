(** * Specification of scalar expressions

    What a user means by an expression graph, written without reference to the engine's
    algorithms: a graph maps every variable/expression to its numeric base value and the list of
    assignments it has received (the first one from its definition, later ones from
    self-referential updates).  A plain variable has no assignments. *)

From Coq Require Import List Arith Bool.
From Verif Require Import Num ScalarModel.
Import ListNotations.
Open Scope num_scope.

Section Spec.
Context {T : Type} {N : Num T}.

(** Meaning of the operators the user writes.  (Division is multiplication by the
    reciprocal, the documented arithmetic of GenericDiv.) *)
Definition mean1 (k : uop T) (x : T) : T :=
  match k with
  | UFun f => nfun f x
  | UProdC c => c * x
  | USumC c => c + x
  | UDivC c => c * (n1 / x)
  | UPowCL c => npow c x
  | UPowCR c => npow x c
  | UCust f _ => f x
  | UCustL f _ c => f c x
  | UCustR f _ c => f x c
  end.

Definition mean2 (k : bop T) (u v : T) : T :=
  match k with
  | BSum => u + v
  | BSub => u - v
  | BProd => u * v
  | BDiv => u * (n1 / v)
  | BPow => npow u v
  | BCust f _ _ => f u v
  end.

(** Textbook derivatives of the elementary functions. *)
Definition dmean (f : ufun) (u : T) : T :=
  match f with
  | FSin => nfun FCos u
  | FCos => nm1 * nfun FSin u
  | FTan => n1 + nfun FTan u * nfun FTan u
  | FSinh => nfun FCosh u
  | FCosh => nfun FSinh u
  | FTanh => n1 - nfun FTanh u * nfun FTanh u
  | FASin => n1 / nfun FSqrt (n1 - u * u)
  | FACos => nm1 / nfun FSqrt (n1 - u * u)
  | FATan => n1 / (n1 + u * u)
  | FASinh => n1 / nfun FSqrt (n1 + u * u)
  | FACosh => n1 / nfun FSqrt (u * u - n1)
  | FATanh => nm1 / (u * u - n1)
  | FSqrt => nhalf / nfun FSqrt u
  | FExp => nfun FExp u
  | FLog => n1 / u
  end.

(** Chain rule for one operator: value(s) and derivative(s) of the operand(s). *)
Definition chain1 (k : uop T) (x dx : T) : T :=
  match k with
  | UFun f => dmean f x * dx
  | UProdC c => c * dx
  | USumC _ => dx
  | UDivC c => (nm1 * (c * dx)) * ((n1 / x) * (n1 / x))
  | UPowCL c => (npow c x * dx) * nfun FLog c
  | UPowCR c => c * (npow x (c - n1) * dx)
  | UCust _ f' => f' x * dx
  | UCustL _ f3 c => f3 c x * dx
  | UCustR _ f2 c => f2 x c * dx
  end.

Definition chain2 (k : bop T) (u v du dv : T) : T :=
  match k with
  | BSum => du + dv
  | BSub => du - dv
  | BProd => du * v + dv * u
  | BDiv => (du * v - dv * u) * ((n1 / v) * (n1 / v))
  | BPow => npow u v * ((v / u) * du + dv * nfun FLog u)
  | BCust _ f2 f3 => f2 u v * du + f3 u v * dv
  end.

(** Value of a tree when variable/expression x has value [lv x]. *)
Fixpoint sem (lv : nat -> T) (o : op T) : T :=
  match o with
  | Leaf v => lv v
  | Par _ tv => lv tv
  | Un k _ e => mean1 k (sem lv e)
  | Bin k _ l r => mean2 k (sem lv l) (sem lv r)
  end.

(** Derivative of a tree when x has value [lv x] and derivative [ld x]; a parameter is a
    constant. *)
Fixpoint dsem (lv ld : nat -> T) (o : op T) : T :=
  match o with
  | Leaf v => ld v
  | Par _ _ => n0
  | Un k _ e => chain1 k (sem lv e) (dsem lv ld e)
  | Bin k _ l r => chain2 k (sem lv l) (sem lv r) (dsem lv ld l) (dsem lv ld r)
  end.

(** A graph: base value and assignments of every variable/expression. *)
Definition graph := nat -> T * list (op T).
Definition base (g : graph) v := fst (g v).
Definition items (g : graph) v := snd (g v).
Definition graph_of (h : heap T) : graph :=
  fun v => (c_base (cells h v), c_items (cells h v)).

(** Variables/expressions read by a tree. *)
Fixpoint leaves (o : op T) : list nat :=
  match o with
  | Leaf v => [v]
  | Par _ tv => [tv]
  | Un _ _ e => leaves e
  | Bin _ _ l r => leaves l ++ leaves r
  end.
Fixpoint pars (o : op T) : list nat :=
  match o with
  | Leaf v => []
  | Par _ tv => [tv]
  | Un _ _ e => pars e
  | Bin _ _ l r => pars l ++ pars r
  end.

Definition dep (g : graph) (v w : nat) : Prop := exists o, In o (items g v) /\ In w (leaves o).

Inductive reach (g : graph) (v : nat) : nat -> Prop :=
| reach_refl : reach g v v
| reach_step w x : reach g v w -> dep g w x -> reach g v x.

(** Replace the entry of v. *)
Definition at_ {A} (v : nat) (a : A) (f : nat -> A) : nat -> A :=
  fun x => if Nat.eqb x v then a else f x.

(** [W] is the value of every expression reachable from [root]: execute the assignments of v
    in order, starting from its base value; a reference to v itself means the value so far. *)
Definition values (g : graph) (root : nat) (W : nat -> T) : Prop :=
  forall v, reach g root v ->
    W v = fold_left (fun cur o => sem (at_ v cur W) o) (items g v) (base g v).

(** [D] is the derivative with respect to [x] of every expression reachable from [root]: execute
    the assignments on (value, derivative) pairs; x has derivative 1, numbers 0. *)
Definition derivs (g : graph) (root : nat) (W : nat -> T) (x : nat) (D : nat -> T) : Prop :=
  forall v, reach g root v ->
    D v = if Nat.eqb v x then n1 else
          snd (fold_left (fun p o => (sem (at_ v (fst p) W) o,
                                      dsem (at_ v (fst p) W) (at_ x n1 (at_ v (snd p) D)) o))
                         (items g v) (base g v, n0)).

(** No mutual recursion below [root]: an expression may refer to itself, otherwise only
    to expressions of lower rank. *)
Definition stratified (g : graph) (root : nat) : Prop :=
  exists rank : nat -> nat, forall v w, reach g root v -> dep g v w -> w = v \/ rank w < rank v.

(** Parameters hold plain numbers. *)
Definition params_plain (g : graph) : Prop :=
  forall v o tv, In o (items g v) -> In tv (pars o) -> items g tv = [].

(** Indices of the operator nodes of a tree. *)
Fixpoint opids (o : op T) : list nat :=
  match o with
  | Leaf _ | Par _ _ => []
  | Un _ id e => id :: opids e
  | Bin _ id l r => id :: opids l ++ opids r
  end.
(** Indices of the variables and parameters of a tree. *)
Fixpoint refids (o : op T) : list nat :=
  match o with
  | Leaf v => [v]
  | Par p _ => [p]
  | Un _ _ e => refids e
  | Bin _ _ l r => refids l ++ refids r
  end.
Definition node_ids (g : graph) (v : nat) : list nat := flat_map opids (items g v).

(** Every operator node has an index of its own. *)
Definition unique_ids (g : graph) (root : nat) : Prop :=
  (forall v, reach g root v -> NoDup (node_ids g v)) /\
  (forall v w k, reach g root v -> reach g root w -> v <> w ->
     In k (node_ids g v) -> ~ In k (node_ids g w)) /\
  (forall v w k o, reach g root v -> reach g root w ->
     In k (node_ids g v) -> In o (items g w) -> ~ In k (refids o)).

(** [x] can be the target of a derivative: its index is not that of an operator node or a
    parameter, and no expression is a bare copy of it. *)
Fixpoint parids (o : op T) : list nat :=
  match o with
  | Leaf _ => []
  | Par p _ => [p]
  | Un _ _ e => parids e
  | Bin _ _ l r => parids l ++ parids r
  end.
Definition target_ok (g : graph) (root x : nat) : Prop :=
  (forall v, reach g root v -> ~ In x (node_ids g v)) /\
  (forall v o, reach g root v -> In o (items g v) -> ~ In x (parids o)) /\
  (forall v, reach g root v -> ~ In (Leaf x) (items g v)).

(** Quotients: every divisor evaluated is invertible. *)
Fixpoint div_ok (lv : nat -> T) (o : op T) : Prop :=
  match o with
  | Leaf _ | Par _ _ => True
  | Un _ _ e => div_ok lv e
  | Bin k _ l r => div_ok lv l /\ div_ok lv r /\
      match k with BDiv => invertible (sem lv r) | _ => True end
  end.
Fixpoint divs_ok (W : nat -> T) (v : nat) (cur : T) (l : list (op T)) : Prop :=
  match l with
  | [] => True
  | o :: l' => div_ok (at_ v cur W) o /\ divs_ok W v (sem (at_ v cur W) o) l'
  end.
Definition divisors_ok (g : graph) (root : nat) (W : nat -> T) : Prop :=
  forall v, reach g root v -> divs_ok W v (base g v) (items g v).

(** *** States of the engine in which a call on [root] is specified *)

(** A cell as left by construction, assignment of a number, or reset. *)
Definition clean (c : cell T) : Prop :=
  c_val c = c_base c /\ c_dval c = n0 /\ c_cache c = [] /\ (c_vis c = false \/ c_items c = []).

(** "The graph of root has not been left half-evaluated by a call on another root":
    below an expression the engine believes unevaluated, nothing has been evaluated; plain
    variables carry their number. *)
Definition settled (h : heap T) (root : nat) : Prop :=
  (forall v, reach (graph_of h) root v -> c_items (cells h v) = [] -> clean (cells h v)) /\
  (forall v w, reach (graph_of h) root v -> dep (graph_of h) v w -> v <> root ->
     c_vis (cells h v) = false -> clean (cells h w)).

End Spec.
