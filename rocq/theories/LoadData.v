(** * Reading the data of the neural network example (example/NeuralNet/main.cpp)

    Simplifications: the csv reader is an outside library; a field is what get<size_t> and get<Type> return for it
    (nothing: they throw, which nobody catches; this ends the program like a failed ASSERT). *)
From Coq Require Import List Arith Bool Lia.
From Verif Require Import Num MatMem KernelFacts.
Import ListNotations.
Set Implicit Arguments.
Unset Strict Implicit.

Section Load.
Context {T : Type} {N : Num T}.
Notation mem := (mem T).
Notation M := (M T).
Implicit Types (m : mem).

(** ** Model *)
(** csv::CSVField: get<size_t>() and get<Type>(). *)
Record field : Type := Field { get_index : option nat; get_number : option T }.
Variable c255 : T.   (* (Type)255, main.cpp:57 *)
Definition or_throw {A} (o : option A) : M A := fun m => match o with Some a => Ok (a, m) | None => Rejected end.

(** main.cpp:53-60: the loop over the fields of one row. *)
Fixpoint load_row (X Y : ptr) (irows icols : nat) (fs : list field) : M unit :=
  match fs with
  | [] => ret tt
  | f :: fs' =>
      bind (if 0 =? icols
            then bind (or_throw (get_index f)) (fun l => set2 Y irows l n1)
            else bind (or_throw (get_number f)) (fun v => set2 X irows (icols - 1) (ndiv v c255)))
           (fun _ => load_row X Y irows (S icols) fs')
  end.
(** main.cpp:49-63, LoadData: the loop over the rows ("icols = 0; ++irows"). *)
Fixpoint load_rows (X Y : ptr) (irows : nat) (rows : list (list field)) : M unit :=
  match rows with
  | [] => ret tt
  | r :: rs => bind (load_row X Y irows 0 r) (fun _ => load_rows X Y (S irows) rs)
  end.
Definition LoadData (X Y : ptr) (rows : list (list field)) : M unit := load_rows X Y 0 rows.
(** main.cpp:67-79 for one data set: the two matrices are created with the allocation strategy [sp] and loaded. *)
Definition load_new (sp : space) (n_rows n_in n_out : nat) (rows : list (list field)) : M (ptr * ptr) :=
  bind (new_mat sp n_rows n_in None) (fun X => bind (new_mat sp n_rows n_out None) (fun Y =>
  bind (LoadData X Y rows) (fun _ => ret (X, Y)))).

(** ** Specification *)
(** A row of a data file: a label, then numbers; or an empty row. *)
Definition label (r : list field) : option nat := match r with [] => None | f :: _ => get_index f end.
Definition pixel (r : list field) (j : nat) : option T := match nth_error (tl r) j with Some f => get_number f | None => None end.
Definition label_at (rows : list (list field)) (i : nat) : option nat := match nth_error rows i with Some r => label r | None => None end.
Definition pixel_at (rows : list (list field)) (i j : nat) : option T := match nth_error rows i with Some r => pixel r j | None => None end.
(** The row can be read and has place in a row of X with n_in and a row of Y with n_out columns. *)
Definition row_fits (n_in n_out : nat) (r : list field) : Prop :=
  match r with
  | [] => True
  | f :: fs => (exists l, get_index f = Some l /\ l < n_out) /\ (forall g, In g fs -> get_number g <> None) /\ length fs <= n_in
  end.
(** All rows fit, and those with a label (a number) have a row of Y (of X). *)
Definition fits (RX n_in RY n_out : nat) (rows : list (list field)) : Prop :=
  forall i r, nth_error rows i = Some r -> row_fits n_in n_out r /\ (r <> [] -> i < RY) /\ (tl r <> [] -> i < RX).

(** ** Proof *)
(** A memory that differs from m in the entries of X and Y only. *)
Record shown m (X Y : ptr) (RX CX RY CY : nat) (FX FY : nat -> nat -> T) m' : Prop := {
  sh_X : is_mat m' X RX CX /\ forall i j, i < RX -> j < CX -> val m' X i j = FX i j;
  sh_Y : is_mat m' Y RY CY /\ forall i j, i < RY -> j < CY -> val m' Y i j = FY i j;
  sh_frame : (forall q, q <> X -> q <> Y -> get m' q = get m q) /\ next m' = next m /\ length (objs m') = length (objs m) /\ specials m' = specials m
}.

Lemma set2_in m p R C i j x : is_mat m p R C -> i < R -> j < C ->
  exists m', set2 p i j x m = Ok (tt, m') /\ is_mat m' p R C /\
    (forall i' j', i' < R -> j' < C -> val m' p i' j' = if (i' =? i) && (j' =? j) then x else val m p i' j') /\
    (forall q, q <> p -> get m' q = get m q) /\ next m' = next m /\ length (objs m') = length (objs m) /\ specials m' = specials m.
Proof.
  intros (k & sp & b & H & L) Hi Hj. set (b' := list_set b (i * C + j) x). exists (upd m p b').
  pose proof (idx_bound Hi Hj) as Lt.
  assert (E : set2 p i j x m = Ok (tt, upd m p b')).
  { rewrite <- (upd_id H) at 1. cbn [o_buf]. rewrite (@set2_upd T m p _ b i j x H); cbn [o_rows o_cols]; auto. lia. }
  split; [exact E|]. split; [|split; [|split]].
  - exists k, sp, b'. rewrite (get_upd_same b' H). split; [reflexivity|]. unfold b'. now rewrite length_list_set.
  - intros i' j' Hi' Hj'. unfold val. rewrite (get_upd_same b' H), H. unfold with_buf. cbn [o_cols o_buf]. unfold b'.
    pose proof (idx_bound Hi' Hj') as Lt'.
    destruct ((i' =? i) && (j' =? j)) eqn:Q.
    + apply andb_true_iff in Q as [Q1 Q2]. apply Nat.eqb_eq in Q1, Q2. subst.
      erewrite nth_error_nth; [reflexivity|]. apply nth_list_set_eq. lia.
    + apply nth_error_nth. rewrite nth_list_set_neq.
      * apply nth_error_def. lia.
      * intros Q'. destruct (idx_inj Hj Hj' Q') as [-> ->]. rewrite !Nat.eqb_refl in Q. discriminate.
  - intros q Ne. apply get_upd_other. auto.
  - rewrite next_upd, objs_upd, specials_upd. auto.
Qed.
Lemma set2_out m p R C i j x : is_mat m p R C -> R <= i \/ C <= j -> set2 p i j x m = Rejected.
Proof.
  intros (k & sp & b & H & L) D. unfold set2, bind, deref, assert. rewrite H. cbn [o_rows o_cols].
  destruct (Nat.ltb_spec i R); [|reflexivity]. destruct (Nat.ltb_spec j C); [lia|reflexivity].
Qed.

Section Loop.
Variables (X Y : ptr) (RX CX RY CY : nat).
Hypothesis NXY : X <> Y.
Notation shown := (fun m FX FY m' => shown m X Y RX CX RY CY FX FY m').
Definition both m : Prop := is_mat m X RX CX /\ is_mat m Y RY CY.

Lemma shown_both m FX FY m' : shown m FX FY m' -> both m'.
Proof. intros [[A _] [B _] _]. split; assumption. Qed.
Lemma shown_refl m : both m -> shown m (val m X) (val m Y) m.
Proof. intros [A B]. constructor; auto. Qed.
Lemma shown_ext m FX FY GX GY m' : shown m FX FY m' -> (forall i j, i < RX -> j < CX -> FX i j = GX i j) ->
  (forall i j, i < RY -> j < CY -> FY i j = GY i j) -> shown m GX GY m'.
Proof.
  intros [[A A'] [B B'] F] EX EY. constructor; [| |exact F]; split; auto; intros i j Hi Hj; [rewrite <- EX by auto|rewrite <- EY by auto]; auto.
Qed.
Lemma shown_trans m FX FY m1 GX GY m2 : shown m FX FY m1 -> shown m1 GX GY m2 -> shown m GX GY m2.
Proof.
  intros [_ _ (F1 & F2 & F3 & F4)] [A B (G1 & G2 & G3 & G4)]. constructor; auto.
  split; [|repeat split; congruence]. intros q H1 H2. rewrite G1 by auto. auto.
Qed.
Definition one (i j : nat) (x : T) (F : nat -> nat -> T) (i' j' : nat) : T := if (i' =? i) && (j' =? j) then x else F i' j'.
Lemma get_val m m' p i j : get m' p = get m p -> val m' p i j = val m p i j.
Proof. unfold val. now intros ->. Qed.
Lemma get_mat m m' p R C : get m' p = get m p -> is_mat m p R C -> is_mat m' p R C.
Proof. unfold is_mat. now intros ->. Qed.
Lemma write_X m i j x : both m -> i < RX -> j < CX -> exists m', set2 X i j x m = Ok (tt, m') /\ shown m (one i j x (val m X)) (val m Y) m'.
Proof.
  intros [A B] Hi Hj. destruct (@set2_in m X RX CX i j x A Hi Hj) as (m' & E & A' & V & F). exists m'. split; [exact E|].
  assert (Ey : get m' Y = get m Y) by (apply F; auto). constructor.
  - split; [exact A'|exact V].
  - split; [eapply get_mat; eauto|]. intros. now apply get_val.
  - destruct F as (F & F'). split; [|exact F']. intros q Nq _. auto.
Qed.
Lemma write_Y m i j x : both m -> i < RY -> j < CY -> exists m', set2 Y i j x m = Ok (tt, m') /\ shown m (val m X) (one i j x (val m Y)) m'.
Proof.
  intros [A B] Hi Hj. destruct (@set2_in m Y RY CY i j x B Hi Hj) as (m' & E & A' & V & F). exists m'. split; [exact E|].
  assert (Ex : get m' X = get m X) by (apply F; auto). constructor.
  - split; [eapply get_mat; eauto|]. intros. now apply get_val.
  - split; [exact A'|exact V].
  - destruct F as (F & F'). split; [|exact F']. intros q _ Nq. auto.
Qed.
Lemma shown_valX m FX FY m' i j : shown m FX FY m' -> i < RX -> j < CX -> val m' X i j = FX i j.
Proof. intros [[_ V] _ _]. auto. Qed.
Lemma shown_valY m FX FY m' i j : shown m FX FY m' -> i < RY -> j < CY -> val m' Y i j = FY i j.
Proof. intros [_ [_ V] _]. auto. Qed.

(** The numbers of one row. *)
Definition pix_fit (i c : nat) (fs : list field) : Prop :=
  (forall g, In g fs -> get_number g <> None) /\ c + length fs <= CX /\ (fs <> [] -> i < RX).
Definition scaled (f : field) (d : T) : T := match get_number f with Some v => ndiv v c255 | None => d end.
Definition pixels (i c : nat) (fs : list field) (F : nat -> nat -> T) (i' j' : nat) : T :=
  if (i' =? i) && (c <=? j') then match nth_error fs (j' - c) with Some f => scaled f (F i' j') | None => F i' j' end else F i' j'.

Lemma row_pixels i : forall fs c m, both m -> c <= CX ->
  match load_row X Y i (S c) fs m with
  | Ok (_, m') => pix_fit i c fs /\ shown m (pixels i c fs (val m X)) (val m Y) m'
  | Rejected => ~ pix_fit i c fs
  | Undefined => False
  end.
Proof.
  induction fs as [|f fs IH]; intros c m B Hc.
  - cbn [load_row]. unfold ret. split.
    + split; [intros g []|]. split; [simpl; lia|congruence].
    + eapply shown_ext; [apply shown_refl; exact B| |auto]. intros i' j' _ _. unfold pixels.
      destruct ((i' =? i) && (c <=? j')); [|reflexivity]. destruct (j' - c); reflexivity.
  - cbn [load_row]. change (0 =? S c) with false. cbn iota. unfold bind, or_throw. destruct (get_number f) as [v|] eqn:Ev.
    2:{ intros (P & _). apply (P f (or_introl eq_refl) Ev). }
    replace (S c - 1) with c by lia.
    destruct (Nat.lt_ge_cases i RX) as [Hi|Hi].
    2:{ rewrite (set2_out (ndiv v c255) (proj1 B)) by (left; exact Hi). intros (_ & _ & P). specialize (P ltac:(discriminate)). lia. }
    destruct (Nat.lt_ge_cases c CX) as [Hj|Hj].
    2:{ rewrite (set2_out (ndiv v c255) (proj1 B)) by (right; exact Hj). intros (_ & P & _). simpl in P. lia. }
    destruct (write_X (ndiv v c255) B Hi Hj) as (m1 & E1 & S1). rewrite E1.
    specialize (IH (S c) m1 (shown_both S1) Hj). destruct (load_row X Y i (S (S c)) fs m1) as [[u m2]| |].
    + destruct IH as ((P1 & P2 & P3) & S2). split.
      * split; [intros g [<-|Hg]; [congruence|auto]|]. split; [simpl; lia|auto].
      * eapply shown_ext; [eapply shown_trans; [exact S1|exact S2]| |].
        -- intros i' j' Hi' Hj'. unfold pixels at 1. rewrite (shown_valX S1 Hi' Hj'). unfold one, pixels.
           destruct (Nat.eqb_spec i' i) as [->|Ne]; cbn [andb]; [|reflexivity].
           destruct (Nat.leb_spec (S c) j') as [L|L].
           ++ destruct (Nat.eqb_spec j' c) as [->|_]; [lia|]. destruct (Nat.leb_spec c j'); [|lia].
              replace (j' - c) with (S (j' - S c)) by lia. reflexivity.
           ++ destruct (Nat.leb_spec c j') as [L'|L'].
              ** assert (j' = c) as -> by lia. rewrite Nat.eqb_refl, Nat.sub_diag. cbn [nth_error]. unfold scaled. now rewrite Ev.
              ** destruct (Nat.eqb_spec j' c) as [->|_]; [lia|reflexivity].
        -- intros i' j' Hi' Hj'. apply (shown_valY S1 Hi' Hj').
    + intros (P1 & P2 & P3). apply IH. split; [intros g Hg; apply P1; right; exact Hg|]. simpl in P2. split; [lia|auto].
    + exact IH.
Qed.

(** One row. *)
Definition in_row (i : nat) (r : list field) : Prop := row_fits CX CY r /\ (r <> [] -> i < RY) /\ (tl r <> [] -> i < RX).
Definition new_X (i : nat) (r : list field) (F : nat -> nat -> T) (i' j' : nat) : T :=
  if i' =? i then match pixel r j' with Some v => ndiv v c255 | None => F i' j' end else F i' j'.
Definition new_Y (i : nat) (r : list field) (F : nat -> nat -> T) (i' j' : nat) : T :=
  if i' =? i then match label r with Some l => if j' =? l then n1 else F i' j' | None => F i' j' end else F i' j'.
Lemma row_ok i r m : both m ->
  match load_row X Y i 0 r m with
  | Ok (_, m') => in_row i r /\ shown m (new_X i r (val m X)) (new_Y i r (val m Y)) m'
  | Rejected => ~ in_row i r
  | Undefined => False
  end.
Proof.
  intros B. destruct r as [|f fs].
  - cbn [load_row]. unfold ret. split; [split; [exact Logic.I|]; cbn; split; congruence|].
    eapply shown_ext; [apply shown_refl; exact B| |]; intros i' j' _ _; [unfold new_X, pixel|unfold new_Y, label]; cbn [tl].
    + destruct (i' =? i); [|reflexivity]. destruct j'; reflexivity.
    + destruct (i' =? i); reflexivity.
  - cbn [load_row]. change (0 =? 0) with true. cbn iota. unfold bind, or_throw. destruct (get_index f) as [l|] eqn:El.
    2:{ intros ((P & _) & _). destruct P as (l & P & _). congruence. }
    destruct (Nat.lt_ge_cases i RY) as [Hi|Hi].
    2:{ rewrite (set2_out n1 (proj2 B)) by (left; exact Hi). intros (_ & P & _). specialize (P ltac:(discriminate)). lia. }
    destruct (Nat.lt_ge_cases l CY) as [Hl|Hl].
    2:{ rewrite (set2_out n1 (proj2 B)) by (right; exact Hl). intros ((P & _) & _). destruct P as (l' & E & P). rewrite El in E. injection E as <-. lia. }
    destruct (write_Y n1 B Hi Hl) as (m1 & E1 & S1). rewrite E1.
    pose proof (@row_pixels i fs 0 m1 (shown_both S1) ltac:(lia)) as Q. destruct (load_row X Y i 1 fs m1) as [[u m2]| |].
    + destruct Q as ((P1 & P2 & P3) & S2). split.
      * split; [split; [exists l; auto|split; [exact P1|simpl in P2; lia]]|]. split; [auto|exact P3].
      * eapply shown_ext; [eapply shown_trans; [exact S1|exact S2]| |].
        -- intros i' j' Hi' Hj'. unfold pixels. rewrite (shown_valX S1 Hi' Hj'). unfold new_X, pixel. cbn [tl Nat.leb andb].
           rewrite andb_true_r, Nat.sub_0_r. destruct (i' =? i); [|reflexivity]. destruct (nth_error fs j'); reflexivity.
        -- intros i' j' Hi' Hj'. rewrite (shown_valY S1 Hi' Hj'). unfold one, new_Y, label. rewrite El.
           destruct (i' =? i); reflexivity.
    + intros ((_ & P1 & P2) & _ & P3). apply Q. split; [exact P1|]. split; [exact P2|exact P3].
    + exact Q.
Qed.

Definition all_X (k : nat) (rows : list (list field)) (F : nat -> nat -> T) (i j : nat) : T :=
  if k <=? i then match pixel_at rows (i - k) j with Some v => ndiv v c255 | None => F i j end else F i j.
Definition all_Y (k : nat) (rows : list (list field)) (F : nat -> nat -> T) (i j : nat) : T :=
  if k <=? i then match label_at rows (i - k) with Some l => if j =? l then n1 else F i j | None => F i j end else F i j.
Lemma rows_ok : forall rows k m, both m ->
  match load_rows X Y k rows m with
  | Ok (_, m') => (forall i r, nth_error rows i = Some r -> in_row (k + i) r) /\ shown m (all_X k rows (val m X)) (all_Y k rows (val m Y)) m'
  | Rejected => ~ (forall i r, nth_error rows i = Some r -> in_row (k + i) r)
  | Undefined => False
  end.
Proof.
  induction rows as [|r rows IH]; intros k m B.
  - cbn [load_rows]. unfold ret. split; [intros [|i] r; discriminate|].
    eapply shown_ext; [apply shown_refl; exact B| |]; intros i j _ _; [unfold all_X, pixel_at|unfold all_Y, label_at].
    + destruct (k <=? i); [|reflexivity]. destruct (i - k); reflexivity.
    + destruct (k <=? i); [|reflexivity]. destruct (i - k); reflexivity.
  - cbn [load_rows]. unfold bind. pose proof (row_ok k r B) as Q. destruct (load_row X Y k 0 r m) as [[u m1]| |].
    + destruct Q as (P & S1). specialize (IH (S k) m1 (shown_both S1)). destruct (load_rows X Y (S k) rows m1) as [[u' m2]| |].
      * destruct IH as (P2 & S2). split.
        -- intros [|i] r' E; cbn in E; [injection E as <-; rewrite Nat.add_0_r; exact P|]. replace (k + S i) with (S k + i) by lia. auto.
        -- eapply shown_ext; [eapply shown_trans; [exact S1|exact S2]| |]; intros i j Hi Hj.
           ++ unfold all_X. rewrite (shown_valX S1 Hi Hj). unfold new_X, pixel_at.
              destruct (Nat.leb_spec (S k) i) as [L|L].
              ** destruct (Nat.eqb_spec i k) as [->|_]; [lia|]. destruct (Nat.leb_spec k i); [|lia].
                 replace (i - k) with (S (i - S k)) by lia. reflexivity.
              ** destruct (Nat.leb_spec k i) as [L'|L'].
                 --- assert (i = k) as -> by lia. rewrite Nat.eqb_refl, Nat.sub_diag. reflexivity.
                 --- destruct (Nat.eqb_spec i k) as [->|_]; [lia|reflexivity].
           ++ unfold all_Y. rewrite (shown_valY S1 Hi Hj). unfold new_Y, label_at.
              destruct (Nat.leb_spec (S k) i) as [L|L].
              ** destruct (Nat.eqb_spec i k) as [->|_]; [lia|]. destruct (Nat.leb_spec k i); [|lia].
                 replace (i - k) with (S (i - S k)) by lia. reflexivity.
              ** destruct (Nat.leb_spec k i) as [L'|L'].
                 --- assert (i = k) as -> by lia. rewrite Nat.eqb_refl, Nat.sub_diag. reflexivity.
                 --- destruct (Nat.eqb_spec i k) as [->|_]; [lia|reflexivity].
      * intros P2. apply IH. intros i r' E. replace (S k + i) with (k + S i) by lia. apply P2. exact E.
      * exact IH.
    + intros P. apply Q. rewrite <- (Nat.add_0_r k). apply P. reflexivity.
    + exact Q.
Qed.
End Loop.
End Load.
