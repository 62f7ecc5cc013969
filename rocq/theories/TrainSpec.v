(** * What training should do: mini-batch gradient steps *)
From Coq Require Import List Arith Bool Lia.
From Verif Require Import Num MatMem Kernels KernelFacts KernelProofs KernelStep Backend MatEngine MatGraph MatSpec RevVals Param Threads Train.
Import ListNotations.
Set Implicit Arguments.
Unset Strict Implicit.

Section Spec.
Context {T : Type} {N : Num T}.
Variable G : graph T.
Notation store := (store (T := T)).
Implicit Types (st : store).

(** From the entries st to st': every entry u(i,j) of every parameter changes by alpha times
    the derivative of the (1x1) error a by u(i,j), all derivatives taken at st; only
    parameters and batch matrices change. *)
Definition descends (alpha : T) (a : mexp T) (ls : list layer) st st' : Prop :=
  (forall u, In u (params ls) -> exists F0 D, dif (as_var G u) (env_of st) u a F0 D /\
     forall i j, i < g_rows G u -> j < g_cols G u ->
       st' u (i * g_cols G u + j) = nadd (st u (i * g_cols G u + j)) (nmul alpha (D 0 0 i j))) /\
  (forall u k, In u (params ls) -> g_rows G u * g_cols G u <= k -> st' u k = st u k) /\
  (forall o k, ~ In o (params ls) -> ~ In o (batches ls) -> st' o k = st o k).
(** M shows the rows of the data Md from row w on. *)
Definition shows (M : obj) (Md : nat -> T) (w : nat) st : Prop :=
  forall i j, i < g_rows G M -> j < g_cols G M -> st M (i * g_cols G M + j) = Md ((w + i) * g_cols G M + j).
(** One such step per window w of the data, with some masks. *)
Inductive sgd (alpha : T) (a : mexp T) (ls : list layer) (masks_of : obj -> bool) (X Y : obj) (Xd Yd : nat -> T) : list nat -> store -> store -> Prop :=
| sgd_done st st' : (forall o k, masks_of o = false -> o <> X -> o <> Y -> ~ In o (batches ls) -> st' o k = st o k) -> sgd alpha a ls masks_of X Y Xd Yd [] st st'
| sgd_step w ws st st0 st1 st' : (forall o k, masks_of o = false -> o <> X -> o <> Y -> st0 o k = st o k) ->
    shows X Xd w st0 -> shows Y Yd w st0 -> descends alpha a ls st0 st1 ->
    sgd alpha a ls masks_of X Y Xd Yd ws st1 st' -> sgd alpha a ls masks_of X Y Xd Yd (w :: ws) st st'.

(** Networks: F is the scalar error, a its expression over matrices of numbers; all
    parameters and batch matrices are different matrices; the parameters occur in a and have
    the dimensions the layers were made with (CreateLayer, Layer.cpp:10-20); batch matrices,
    masks, X and Y are no parameters; inverses, if any, are of invertible matrices. *)
Record network (F : obj) (id : nat) (a : mexp T) (y : obj) (ls : list layer) (inputs : obj -> bool) : Prop := {
  nw_kind : g_kind G F = KExp id a y;
  nw_scalar : g_rows G F = 1 /\ g_cols G F = 1;
  nw_numbers : forall o, In o (leaves a) -> g_kind G o = LConst \/ g_kind G o = LEye;
  nw_nidx : forall o o', In o (y :: keyed a) -> In o' (y :: keyed a) -> g_nidx G o = g_nidx G o' -> o = o';
  nw_fits : fits G a;
  nw_inverses : forall st, solvable G (env_of st) a;
  nw_params : forall u, In u (params ls) -> In u (leaves a) /\ g_kind G u = LConst;
  nw_distinct : NoDup (params ls ++ batches ls);
  nw_batches : forall o, In o (batches ls) -> ~ In o (y :: leaves a) /\ ~ In o (scals a);
  nw_dims : forall l, In l ls -> (g_rows G (l_W l), g_cols G (l_W l)) = l_dim l /\ g_rows G (l_b l) = fst (l_dim l) /\ g_cols G (l_b l) = 1;
  nw_inputs : forall o, inputs o = true -> ~ In o (params ls) /\ ~ In o (batches ls)
}.
End Spec.
