(** * NeuralNet: one mini-batch and training (example/NeuralNet)

    Simplifications:
    - The user's matrices (weights, biases, their batch copies, X, Y, dropout masks) are in a
      store of entries; they are separate from the matrices of the engine (MatObj.v shows
      that matrices made by the factory never share memory).  setMatrixPtr makes X and Y
      views of rows of the data; since nothing writes the data, here the rows are copied.
    - CPU allocator (Layer asks for GPUPinnedMemoryStrategy).
    - A thread reads dW when it is started; the engine's matrices do not change until the
      threads are joined.
    - Random masks are arbitrary inputs. *)
From Coq Require Import List Arith Bool Lia.
From Verif Require Import Num MatMem Kernels KernelFacts KernelProofs KernelStep Backend MatEngine MatGraph MatLeaf MatRev MatRevHist Threads.
Import ListNotations.
Set Implicit Arguments.
Unset Strict Implicit.

(** Layer.hpp:6-20: m_W, m_b, m_dim, and m_WBatch, m_bBatch, which the Layer makes when they
    are first used (Layer.cpp:31-44); a copy of a Layer made before that makes its own. *)
Record layer : Type := Layer { l_W : obj; l_b : obj; l_WB : obj; l_bB : obj; l_dim : nat * nat }.
Definition params (ls : list layer) : list obj := flat_map (fun l => [l_W l; l_b l]) ls.
Definition batches (ls : list layer) : list obj := flat_map (fun l => [l_WB l; l_bB l]) ls.
Definition w_size (l : layer) : nat := fst (l_dim l) * snd (l_dim l).
Definition b_size (l : layer) : nat := fst (l_dim l).

Section Train.
Context {T : Type} {N : Num T}.
Variable S : sched T.
Variable B : backend (T := T).
Variable G : graph T.
Variable ord : cache -> cache.
Notation store := (store (T := T)).
Notation task := (task (T := T)).
Notation rst := (rst (T := T)).
Notation "x <- c ;; k" := (rbind c (fun x => k)) (at level 61, c at next level, right associativity).
Implicit Types (st : store) (e : rst) (ls : list layer).

(** The matrices of a network have numbers as entries. *)
Definition env_of st : env T := Env st (fun _ _ _ _ => n0).
(** New contents for some matrices. *)
Definition feed (inp : obj -> option (nat -> T)) st : store := fun o k => match inp o with Some f => f k | None => st o k end.

(** ResetZero, src/Matrix/MetaMatrix.cpp:29-40. *)
Definition zero_tasks (u n : nat) : list task := map (fun k => Task n0 [IConst n0; IStore u k]) (seq 0 n).
(** MATRIX_ADD(X, D, X) with the entries of D. *)
Definition add_tasks (u : nat) (d : list T) : list task :=
  map (fun kv => Task n0 [ILoad u (fst kv); IAdd (snd kv); IStore u (fst kv)]) (combine (seq 0 (length d)) d).
(** GDOptimizer, NeuralNet.hpp:12-18: dX = alpha * dX, X = X + dX. *)
Definition gd_tasks (alpha : T) (x d n : nat) : list task :=
  map (fun k => Task n0 [ILoad d k; IMul alpha; IStore d k; ILoad x k; IAddFrom d k; IStore x k]) (seq 0 n).

(** NeuralNet.hpp:33-54. *)
Definition resetMiniBatch (th : bool) ls st st' : Prop :=
  runs th (flat_map (fun l => [zero_tasks (l_WB l) (w_size l); zero_tasks (l_bB l) (b_size l)]) ls) st st'.
(** MatrixAdd checks the dimensions. *)
Definition add_to (u : obj) (r c : nat) (p : ptr) : R (T := T) (list task) :=
  o <- rl (lift (deref p)) ;; _ <- rassert ((o_rows o =? r) && (o_cols o =? c)) ;; rret (add_tasks u (o_buf o)).
(** The loop of accumulateGradients, NeuralNet.hpp:61-80. *)
Fixpoint gather (F : obj) ls : R (T := T) (list (list task)) :=
  match ls with
  | [] => rret []
  | l :: t => p <- DevalR G F (l_W l) ;; q <- DevalR G F (l_b l) ;;
              gw <- add_to (l_WB l) (fst (l_dim l)) (snd (l_dim l)) p ;; gb <- add_to (l_bB l) (fst (l_dim l)) 1 q ;;
              r <- gather F t ;; rret (gw :: gb :: r)
  end.
(** NeuralNet.hpp:57-82. *)
Definition accumulateGradients (th : bool) (F : obj) ls e st e' st' : Prop :=
  exists e1 gs, (exists n, forall f, n <= f -> PreComp S B G ord (env_of st) f F e = EOk (tt, e1)) /\
    gather F ls e1 = EOk (gs, e') /\ runs th gs st st'.
(** NeuralNet.hpp:85-109; MATRIX_ADD(&X, dX, X) checks the dimensions. *)
Definition gd_ok (l : layer) : bool :=
  (g_rows G (l_W l) =? fst (l_dim l)) && (g_cols G (l_W l) =? snd (l_dim l)) && (g_rows G (l_b l) =? fst (l_dim l)) && (g_cols G (l_b l) =? 1).
Definition optimize (th : bool) (alpha : T) ls st st' : Prop :=
  forallb gd_ok ls = true /\
  runs th (flat_map (fun l => [gd_tasks alpha (l_W l) (l_WB l) (w_size l); gd_tasks alpha (l_b l) (l_bB l) (b_size l)]) ls) st st'.
(** acc_err += ScalarSpl(&Eval(err)), NeuralNet.hpp:379-381. *)
Definition show_loss (display : bool) (F : obj) e st e' (loss : T) : Prop :=
  if display then exists p m, (exists n, forall f, n <= f -> REval S B G (env_of st) f (MLeaf F) e = EOk (p, e')) /\ raw p 0 (mm (rb e')) = Ok (loss, m)
  else e' = e /\ loss = n0.
(** One iteration of the loop over the data, NeuralNet.hpp:362-384; masks: what
    randomizeDropout writes, data: the rows that X and Y show. *)
Definition minibatch (th display : bool) (alpha : T) (F : obj) ls (masks data : obj -> option (nat -> T)) e st e' st' (loss : T) : Prop :=
  exists st1 e1 st2, resetMiniBatch th ls (feed masks st) st1 /\ accumulateGradients th F ls e (feed data st1) e1 st2 /\
    show_loss display F e1 st2 e' loss /\ optimize th alpha ls st2 st'.

(** The rows of the data from row j on, NeuralNet.hpp:372-373, getRowPtr. *)
Definition rows_from (X Y : obj) (Xd Yd : nat -> T) (j : nat) : obj -> option (nat -> T) := fun o =>
  if o =? X then Some (fun k => Xd (j * g_cols G X + k)) else if o =? Y then Some (fun k => Yd (j * g_cols G Y + k)) else None.
(** train, NeuralNet.hpp:340-405, from the list of the windows of all epochs (Misc.v models
    the loops over epochs and rows).  masks_of: the dropout masks.  The accuracy reported
    between epochs (lines 112-149) evaluates the output layer [out] on other rows and masks. *)
Inductive train (th display : bool) (alpha : T) (F : obj) (out : mexp T) ls (masks_of : obj -> bool) (X Y : obj) (Xd Yd : nat -> T) :
  list nat -> rst -> store -> rst -> store -> Prop :=
| tr_done e st : train th display alpha F out ls masks_of X Y Xd Yd [] e st e st
| tr_batch w ws masks e st e1 st1 loss e' st' : (forall o, masks_of o = match masks o with Some _ => true | None => false end) ->
    minibatch th display alpha F ls masks (rows_from X Y Xd Yd w) e st e1 st1 loss ->
    train th display alpha F out ls masks_of X Y Xd Yd ws e1 st1 e' st' -> train th display alpha F out ls masks_of X Y Xd Yd (w :: ws) e st e' st'
| tr_accuracy ws masks w e st p e1 e' st' : (forall o, masks_of o = match masks o with Some _ => true | None => false end) ->
    (exists n, forall f, n <= f -> REval S B G (env_of (feed (rows_from X Y Xd Yd w) (feed masks st))) f out e = EOk (p, e1)) ->
    train th display alpha F out ls masks_of X Y Xd Yd ws e1 (feed (rows_from X Y Xd Yd w) (feed masks st)) e' st' ->
    train th display alpha F out ls masks_of X Y Xd Yd ws e st e' st'.
End Train.
