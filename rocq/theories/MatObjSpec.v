(** * What programs with matrix objects should mean

    Value semantics: every matrix variable has entries of its own, except one made from a user's pointer, which shows a
    part of the user's array.  Nothing here mentions buffers, strategies or destructors.  [step] is None for programs
    outside the user's contract: reading a moved-from matrix or through a null or dangling pointer, out of range indices,
    dimensions zero, names used twice, copyData between overlapping ranges.  Clones are not part of it. *)
From Coq Require Import List Arith Bool Lia.
From Verif Require Import MatMem MatObj.
Import ListNotations.
Set Implicit Arguments.
Unset Strict Implicit.

Section Spec.
Context {T : Type}.
Variable zero : T.

(** A matrix variable: moved-from; r x c with entries l (row-major); r x c copied from a null matrix; r x c showing the
    array a from position off on, or nothing. *)
Inductive cell : Type := Gone | Own (r c : nat) (l : list T) | Empty (r c : nat) | View (r c : nat) (p : option (nat * nat)).
(** An array of the user. *)
Inductive array : Type := Live (l : list T) | Deleted.
Record memory : Type := Memory { cells : nat -> option cell; arrs : nat -> option array }.
Definition empty : memory := Memory (fun _ => None) (fun _ => None).
Definition set_cell (a : memory) (x : nat) (c : option cell) : memory := Memory (upd (cells a) x c) (arrs a).
Definition set_arr (a : memory) (n : nat) (l : array) : memory := Memory (cells a) (upd (arrs a) n (Some l)).

(** The entries a matrix shows. *)
Definition entries (a : memory) (c : cell) : option (list T) :=
  match c with
  | Own _ _ l => Some l
  | View r c (Some (n, off)) =>
      match arrs a n with
      | Some (Live l) => if off + r * c <=? length l then Some (firstn (r * c) (skipn off l)) else None
      | _ => None
      end
  | _ => None
  end.
Definition shape (c : cell) : option (nat * nat) :=
  match c with Gone => None | Own r c _ | Empty r c | View r c _ => Some (r, c) end.
(** A copy has entries of its own. *)
Definition copied (a : memory) (c : cell) : option cell :=
  match c with
  | Gone => None
  | Own r c l => Some (Own r c l)
  | Empty r c | View r c None => Some (Empty r c)
  | View r c (Some p) => match entries a (View r c (Some p)) with Some l => Some (Own r c l) | None => None end
  end.
(** The same entries, other dimensions. *)
Definition reshaped (c : cell) (r' c' : nat) : option cell :=
  match c with
  | Gone => None
  | Own r c l => if r' * c' =? r * c then Some (Own r' c' l) else None
  | Empty r c => if r' * c' =? r * c then Some (Empty r' c') else None
  | View r c p => if r' * c' =? r * c then Some (View r' c' p) else None
  end.
Definition new_cell (a : memory) (x : nat) (c : cell) : option memory :=
  match cells a x with None => Some (set_cell a x (Some c)) | Some _ => None end.
(** l with the elements from position off on replaced by l'. *)
Definition splice (l : list T) (off : nat) (l' : list T) : list T := firstn off l ++ l' ++ skipn (off + length l') l.
Definition same_array (c c' : cell) : bool :=
  match c, c' with View _ _ (Some (n, _)), View _ _ (Some (n', _)) => n =? n' | _, _ => false end.
Definition source (a : memory) (p : user_ptr) : option (option (nat * nat)) :=
  match p with
  | PNull => Some None
  | PAt n off => match arrs a n with Some (Live _) => Some (Some (n, off)) | _ => None end
  end.

Definition step (a : memory) (s : stmt T) : option memory :=
  match s with
  | SNew x r c => if (0 <? r) && (0 <? c) then new_cell a x (Own r c (repeat zero (r * c))) else None
  | SFill x r c v => if (0 <? r) && (0 <? c) then new_cell a x (Own r c (repeat v (r * c))) else None
  | SView x r c p => if (0 <? r) && (0 <? c) then match source a p with Some q => new_cell a x (View r c q) | None => None end else None
  | SCopy x y => match cells a y with Some d => match copied a d with Some d' => new_cell a x d' | None => None end | None => None end
  | SMove x y => match cells a y with Some d => match cells a x with None => Some (set_cell (set_cell a y (Some Gone)) x (Some d)) | Some _ => None end | None => None end
  | SAssign x y => match cells a x, cells a y with
                   | Some _, Some d => match copied a d with Some d' => Some (set_cell a x (Some d')) | None => None end
                   | _, _ => None end
  | SMoveAssign x y => match cells a x, cells a y with
                       | Some _, Some d => Some (set_cell (set_cell a y (Some Gone)) x (Some d))
                       | _, _ => None end
  | SClone _ _ => None
  | SDestroy x => match cells a x with Some _ => Some (set_cell a x None) | None => None end
  | SWrite x i j v =>
      match cells a x with
      | Some (Own r c l) => if (i <? r) && (j <? c) then Some (set_cell a x (Some (Own r c (list_set l (i * c + j) v)))) else None
      | Some (View r c (Some (n, off))) =>
          match arrs a n with
          | Some (Live l) => if (i <? r) && (j <? c) && (off + (i * c + j) <? length l) then Some (set_arr a n (Live (list_set l (off + (i * c + j)) v))) else None
          | _ => None
          end
      | _ => None
      end
  | SSetPtr x p => match cells a x, source a p with
                   | Some (View r c _), Some q => Some (set_cell a x (Some (View r c q)))
                   | _, _ => None end
  | SCopyData x y =>
      match cells a x, cells a y with
      | Some d, Some d' =>
          match shape d, shape d', entries a d, entries a d' with
          | Some (r, c), Some (r', c'), Some _, Some l =>
              if (r * c =? r' * c') && negb (x =? y) && negb (same_array d d') then
                match d with
                | Own _ _ _ => Some (set_cell a x (Some (Own r c l)))
                | View _ _ (Some (n, off)) => match arrs a n with Some (Live l0) => Some (set_arr a n (Live (splice l0 off l))) | _ => None end
                | _ => None
                end
              else None
          | _, _, _, _ => None
          end
      | _, _ => None
      end
  | SReshape x r c => match cells a x with
                      | Some d => match reshaped d r c with Some d' => Some (set_cell a x (Some d')) | None => None end
                      | None => None end
  | SArray n l => match arrs a n with None => Some (set_arr a n (Live l)) | Some _ => None end
  | SArrayWrite n i v => match arrs a n with
                         | Some (Live l) => if i <? length l then Some (set_arr a n (Live (list_set l i v))) else None
                         | _ => None end
  | SArrayDelete n => match arrs a n with Some (Live _) => Some (set_arr a n Deleted) | _ => None end
  end.
Fixpoint steps (a : memory) (p : list (stmt T)) : option memory :=
  match p with [] => Some a | s :: p' => match step a s with Some a' => steps a' p' | None => None end end.
(** What a program of the user means. *)
Definition meaning (p : list (stmt T)) : option memory := steps empty p.
(** Entry (i, j) of matrix x. *)
Definition shown (a : memory) (x i j : nat) : option T :=
  match cells a x with
  | Some d => match shape d, entries a d with
              | Some (r, c), Some l => if (i <? r) && (j <? c) then nth_error l (i * c + j) else None
              | _, _ => None end
  | None => None
  end.

(** The matrix variables a statement mentions. *)
Definition mentions (s : stmt T) : list nat :=
  match s with
  | SNew x _ _ | SFill x _ _ _ | SView x _ _ _ | SDestroy x | SWrite x _ _ _ | SSetPtr x _ | SReshape x _ _ => [x]
  | SCopy x y | SMove x y | SAssign x y | SMoveAssign x y | SClone x y | SCopyData x y => [x; y]
  | SArray _ _ | SArrayWrite _ _ _ | SArrayDelete _ => []
  end.
(** The variables whose object a statement makes, replaces or ends. *)
Definition changes (s : stmt T) : list nat :=
  match s with
  | SNew x _ _ | SFill x _ _ _ | SView x _ _ _ | SDestroy x | SReshape x _ _ | SCopy x _ | SAssign x _ | SClone x _ => [x]
  | SMove x y | SMoveAssign x y => [x; y]
  | SWrite _ _ _ _ | SSetPtr _ _ | SCopyData _ _ | SArray _ _ | SArrayWrite _ _ _ | SArrayDelete _ => []
  end.
(** A statement with reads of, copies from and writes to x turned to y. *)
Definition through (x y : nat) (s : stmt T) : stmt T :=
  let t z := if z =? x then y else z in
  match s with
  | SWrite z i j v => SWrite (t z) i j v
  | SCopy z u => SCopy z (t u)
  | SAssign z u => SAssign z (t u)
  | SCopyData z u => SCopyData (t z) (t u)
  | s => s
  end.
(** The objects of the program show what they should: dimensions, entries, and the user's arrays. *)
Definition agrees (w : world T) (a : memory) : Prop :=
  (forall x, cells a x = None -> dims w x = None) /\
  (forall x d r c, cells a x = Some d -> shape d = Some (r, c) -> dims w x = Some (r, c)) /\
  (forall x i j v, shown a x i j = Some v -> read w x i j = Ok v) /\
  (forall n l i v, arrs a n = Some (Live l) -> nth_error l i = Some v -> array_read w n i = Ok v).
End Spec.
Arguments cell : clear implicits.
Arguments array : clear implicits.
Arguments memory : clear implicits.
