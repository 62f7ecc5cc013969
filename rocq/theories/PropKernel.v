(** * C25-C33, C36, C37: matrices in memory and the naive kernels

    Throughout, [S] is any schedule of the parallel loops (any order of the iterations),
    [is_mat m p R C] says that pointer p holds an R x C matrix, [val m p i j] is its entry
    and [stored m m' r p R C F] that the kernel left the R x C matrix F in p, wrote it to
    the buffer r when its element count fits and to a new matrix otherwise, and changed
    nothing else (MatMem.v). *)

From Coq Require Import List Arith Bool Lia Permutation ZArith.
From Verif Require Import Num NumInst MatMem Kernels KernelFacts KernelProofs KernelBlocks KernelMore Registry.
Import ListNotations.

(** ** C25 Element access *)
Theorem C25_access : forall {T} {N : Num T} (m : mem T) p R C, is_mat m p R C ->
  (forall i j, i < R -> j < C -> at2 p i j m = Ok (val m p i j, m) /\ at1 p (i * C + j) m = Ok (val m p i j, m)) /\
  (forall i j, R <= i \/ C <= j -> at2 p i j m = Rejected /\ forall x, set2 p i j x m = Rejected) /\
  (forall l, R * C <= l -> at1 p l m = Rejected /\ forall x, set1 p l x m = Rejected).
Proof.
  exact (fun T N m p R C H => conj (fun i j Hi Hj => conj (at2_val H Hi Hj) (at1_val H Hi Hj))
    (conj (fun i j D => conj (at2_reject H D) (fun x => set2_reject x H D))
          (fun l D => conj (at1_reject H D) (fun x => set1_reject x H D)))).
Qed.
Print Assumptions C25_access.
Lemma write_one {T} {N : Num T} (m : mem T) p R C : is_mat m p R C ->
  (forall i j x, i < R -> j < C -> exists m', set2 p i j x m = Ok (tt, m') /\ set1 p (i * C + j) x m = Ok (tt, m')) /\
  (forall l x, l < R * C -> exists m', set1 p l x m = Ok (tt, m') /\
     forall q Rq Cq i j, is_mat m q Rq Cq -> i < Rq -> j < Cq ->
       is_mat m' q Rq Cq /\ val m' q i j = if (q =? p) && (l =? i * Cq + j) then x else val m q i j).
Proof.
  intros H. split.
  - intros i j x Hi Hj. exists (poke m p (i * C + j) x). split; [now apply set2_poke with (R := R)|].
    apply set1_poke with (R := R) (C := C); auto. now apply idx_bound.
  - intros l x Hl. exists (poke m p l x). split; [now apply set1_poke with (R := R) (C := C)|].
    intros q Rq Cq i j Hq Hi Hj. split; [now apply poke_mat with (R := R) (C := C)|].
    now apply poke_val with (R := R) (C := C) (Rq := Rq).
Qed.
(** Writing (i,j) and writing [i*C+j] are the same write; it changes exactly the entry whose row-major number is l. *)
Theorem C25_write : forall {T} {N : Num T} (m : mem T) p R C, is_mat m p R C ->
  (forall i j x, i < R -> j < C -> exists m', set2 p i j x m = Ok (tt, m') /\ set1 p (i * C + j) x m = Ok (tt, m')) /\
  (forall l x, l < R * C -> exists m', set1 p l x m = Ok (tt, m') /\
     forall q Rq Cq i j, is_mat m q Rq Cq -> i < Rq -> j < Cq ->
       is_mat m' q Rq Cq /\ val m' q i j = if (q =? p) && (l =? i * Cq + j) then x else val m q i j).
Proof. exact @write_one. Qed.
Print Assumptions C25_write.
Lemma ex_mat : is_mat m_ex 0 2 2 /\ is_mat m_ex 1 4 4 /\ is_mat m_ex 2 1 1 /\ is_mat m_ex 4 2 2.
Proof. repeat apply conj; eexists _, _, _; split; reflexivity. Qed.
Lemma Zin_valid : valid_sched Zin.
Proof. intros m I l. apply Permutation_refl. Qed.
Example C25_nonvacuous : is_mat m_ex 0 2 2 /\ at2 0 1 0 m_ex = Ok (3%Z, m_ex).
Proof. split; [apply ex_mat|reflexivity]. Qed.

(** ** C26 Blocks *)
Theorem C26_set_block : forall {T} {N : Num T} (S : sched T), valid_sched S -> forall m p src R C r0 r1 c0 c1,
  good m -> is_mat m p R C -> r0 <= r1 < R -> c0 <= c1 < C -> is_mat m src (r1 - r0 + 1) (c1 - c0 + 1) -> src <> p ->
  exists m', setBlockMat S p (r0, r1) (c0, c1) src m = Ok (tt, m') /\ is_mat m' p R C /\
    (forall i j, i < R -> j < C -> val m' p i j =
       if (r0 <=? i) && (i <=? r1) && (c0 <=? j) && (j <=? c1) then val m src (i - r0) (j - c0) else val m p i j) /\
    (forall q, q <> p -> get m' q = get m q).
Proof.
  exact (fun T N S VS m p src R C r0 r1 c0 c1 G Hp Hr Hc Hs Ne =>
    match set_block_ok VS G Hp (conj (proj1 Hr) (conj (proj2 Hr) Hc)) Hs Ne with
    | ex_intro _ m' (conj E (conj Im (conj V (conj F _)))) => ex_intro _ m' (conj E (conj Im (conj V F))) end).
Qed.
Print Assumptions C26_set_block.
Theorem C26_get_block : forall {T} {N : Num T} (S : sched T), valid_sched S -> forall m p r R C r0 r1 c0 c1,
  good m -> is_mat m p R C -> r0 <= r1 < R -> c0 <= c1 < C -> res_ok m r ->
  match r with Some q => num_elem m q = (r1 - r0 + 1) * (c1 - c0 + 1) -> q <> p | None => True end ->
  exists t m', getBlockMat S p (r0, r1) (c0, c1) r m = Ok (t, m') /\
    stored m m' r t (r1 - r0 + 1) (c1 - c0 + 1) (fun i j => val m p (r0 + i) (c0 + j)).
Proof.
  exact (fun T N S VS m p r R C r0 r1 c0 c1 G Hp Hr Hc => get_block_ok VS G Hp (conj (proj1 Hr) (conj (proj2 Hr) Hc))).
Qed.
Print Assumptions C26_get_block.
Theorem C26_rejected : forall {T} {N : Num T} (S : sched T) m p R C r0 r1 c0 c1, is_mat m p R C ->
  (~ (r0 <= r1 < R /\ c0 <= c1 < C) -> forall r, getBlockMat S p (r0, r1) (c0, c1) r m = Rejected) /\
  (forall src Rs Cs, is_mat m src Rs Cs -> ~ (r0 <= r1 < R /\ c0 <= c1 < C /\ Rs = r1 - r0 + 1 /\ Cs = c1 - c0 + 1) ->
     setBlockMat S p (r0, r1) (c0, c1) src m = Rejected).
Proof.
  exact (fun T N S m p R C r0 r1 c0 c1 H => conj
    (fun D r => get_block_reject S r H (fun b : block_ok R C r0 r1 c0 c1 => D (conj (conj (proj1 b) (proj1 (proj2 b))) (proj2 (proj2 b)))))
    (fun src Rs Cs Hs D => set_block_reject S H Hs
       (fun b => D (conj (conj (proj1 (proj1 b)) (proj1 (proj2 (proj1 b)))) (conj (proj2 (proj2 (proj1 b))) (proj2 b)))))).
Qed.
Print Assumptions C26_rejected.
(** Reading back the block just written gives the written matrix. *)
Lemma block_round_trip {T} {N : Num T} (S : sched T) (VS : valid_sched S) m p src R C r0 r1 c0 c1 :
  good m -> is_mat m p R C -> r0 <= r1 < R -> c0 <= c1 < C -> is_mat m src (r1 - r0 + 1) (c1 - c0 + 1) -> src <> p ->
  exists m1 t m2, setBlockMat S p (r0, r1) (c0, c1) src m = Ok (tt, m1) /\
    getBlockMat S p (r0, r1) (c0, c1) None m1 = Ok (t, m2) /\
    is_mat m2 t (r1 - r0 + 1) (c1 - c0 + 1) /\
    forall i j, i < r1 - r0 + 1 -> j < c1 - c0 + 1 -> val m2 t i j = val m src i j.
Proof.
  intros G Hp Hr Hc Hs Ne.
  destruct (@set_block_ok T N S VS m p src R C r0 r1 c0 c1 G Hp) as (m1 & E1 & I1 & V1 & F1 & S1 & G1 & _); auto.
  { repeat split; lia. }
  destruct (@get_block_ok T N S VS m1 p None R C r0 r1 c0 c1 G1 I1) as (t & m2 & E2 & St); auto; try exact Logic.I.
  { repeat split; lia. }
  exists m1, t, m2. split; [exact E1|]. split; [exact E2|]. destruct St as (I2 & V2 & _). split; [exact I2|].
  intros i j Hi Hj. rewrite V2 by auto. rewrite V1 by lia.
  replace (r0 <=? r0 + i) with true by (symmetry; apply Nat.leb_le; lia).
  replace (r0 + i <=? r1) with true by (symmetry; apply Nat.leb_le; lia).
  replace (c0 <=? c0 + j) with true by (symmetry; apply Nat.leb_le; lia).
  replace (c0 + j <=? c1) with true by (symmetry; apply Nat.leb_le; lia).
  cbn [andb]. f_equal; lia.
Qed.
Theorem C26_round_trip : forall {T} {N : Num T} (S : sched T), valid_sched S -> forall m p src R C r0 r1 c0 c1,
  good m -> is_mat m p R C -> r0 <= r1 < R -> c0 <= c1 < C -> is_mat m src (r1 - r0 + 1) (c1 - c0 + 1) -> src <> p ->
  exists m1 t m2, setBlockMat S p (r0, r1) (c0, c1) src m = Ok (tt, m1) /\
    getBlockMat S p (r0, r1) (c0, c1) None m1 = Ok (t, m2) /\
    is_mat m2 t (r1 - r0 + 1) (c1 - c0 + 1) /\
    forall i j, i < r1 - r0 + 1 -> j < c1 - c0 + 1 -> val m2 t i j = val m src i j.
Proof. exact @block_round_trip. Qed.
Print Assumptions C26_round_trip.
Example C26_nonvacuous : exists m1 t m2, setBlockMat Zin 1 (1, 2) (2, 3) 0 m_ex = Ok (tt, m1) /\
  getBlockMat Zin 1 (0, 1) (1, 2) None m1 = Ok (t, m2) /\ map (fun l => nth l (match get m2 t with Some o => o_buf o | None => [] end) 0%Z) [0;1;2;3] = [9;9;9;1]%Z.
Proof. eexists _, _, _. split; [vm_compute; reflexivity|]. split; [vm_compute; reflexivity|]. vm_compute; reflexivity. Qed.

(** ** C27 Rows and columns *)
Theorem C27_get_row : forall {T} {N : Num T} (S : sched T), valid_sched S -> forall m p R C i, good m -> is_mat m p R C ->
  (i < R -> exists t m', getRow S p i m = Ok (t, m') /\ stored m m' None t C 1 (fun k _ => val m p i k)) /\
  (R <= i -> getRow S p i m = Rejected).
Proof. exact (fun T N S VS m p R C i G H => conj (fun Hi => get_row_ok VS G H Hi) (fun Hi => get_row_reject S H Hi)). Qed.
Print Assumptions C27_get_row.
(** getColumn's argument only decides whether the call is accepted ... *)
Theorem C27_column_ignored : forall {T} {N : Num T} (S : sched T) m p R C i i', is_mat m p R C -> i < C -> i' < C ->
  getColumn S p i m = getColumn S p i' m.
Proof. exact (fun T N S m p R C i i' => get_column_ignores S (m := m) (p := p) (R := R) (C := C) (i := i) (i' := i')). Qed.
(** ... and on square matrices the result is always column 0. *)
Theorem C27_column_square : forall {T} {N : Num T} (S : sched T), valid_sched S -> forall m p R i, good m -> is_mat m p R R -> i < R ->
  exists t m', getColumn S p i m = Ok (t, m') /\ stored m m' None t R 1 (fun k _ => val m p k 0).
Proof. exact @get_column_square. Qed.
Print Assumptions C27_column_square.
Theorem C27_column_refuted : good m_ex /\ is_mat m_ex 0 2 2 /\
  exists t m', getColumn Zin 0 1 m_ex = Ok (t, m') /\ val m_ex 0 0 1 = 2%Z /\ val m' t 0 0 = 1%Z.
Proof. exact (conj good_ex (conj (proj1 ex_mat) column_wrong)). Qed.
Example C27_nonvacuous : exists t m', getRow Zin 0 1 m_ex = Ok (t, m') /\ val m' t 0 0 = 3%Z /\ val m' t 1 0 = 4%Z.
Proof. eexists _, _. split; [vm_compute; reflexivity|]. split; vm_compute; reflexivity. Qed.

(** ** C28 Padding *)
(** Zero padding into a new CPU buffer (none given, or of another size). *)
Lemma pad_fresh {T} {N : Num T} (S : sched T) (VS : valid_sched S) m p R C pr pc r :
  good m -> is_mat m p R C -> space_of m p = CPU -> res_ok m r ->
  match r with Some q => num_elem m q <> (R + 2 * pr) * (C + 2 * pc) | None => True end ->
  exists t m', pad S p pr pc r m = Ok (t, m') /\
    stored m m' r t (R + 2 * pr) (C + 2 * pc) (fun i j =>
      if (pr <=? i) && (i <? pr + R) && (pc <=? j) && (j <? pc + C) then val m p (i - pr) (j - pc) else n0).
Proof.
  intros G H Sp Hr D.
  destruct (@pad_ok T N S VS m p R C pr pc r G H Hr) as (t & m' & E & I & V & Rest).
  { destruct r as [q|]; simpl; tauto. }
  exists t, m'. split; [exact E|]. split; [exact I|]. split; [|exact Rest].
  intros i j Hi Hj. rewrite V by auto. destruct (_ && _); auto. rewrite Sp.
  destruct r as [q|]; [apply old_other_size|apply old_fresh]; auto.
Qed.
Theorem C28_pad_fresh : forall {T} {N : Num T} (S : sched T), valid_sched S -> forall m p R C pr pc r,
  good m -> is_mat m p R C -> space_of m p = CPU -> res_ok m r ->
  match r with Some q => num_elem m q <> (R + 2 * pr) * (C + 2 * pc) | None => True end ->
  exists t m', pad S p pr pc r m = Ok (t, m') /\
    stored m m' r t (R + 2 * pr) (C + 2 * pc) (fun i j =>
      if (pr <=? i) && (i <? pr + R) && (pc <=? j) && (j <? pc + C) then val m p (i - pr) (j - pc) else n0).
Proof. exact @pad_fresh. Qed.
Print Assumptions C28_pad_fresh.
(** Into a reused buffer of the right size: the interior is right, the border keeps the
    buffer's old elements. *)
Lemma pad_reuse {T} {N : Num T} (S : sched T) (VS : valid_sched S) m p R C pr pc q :
  good m -> is_mat m p R C -> (exists o, get m q = Some o) -> q <> p -> num_elem m q = (R + 2 * pr) * (C + 2 * pc) ->
  exists m', pad S p pr pc (Some q) m = Ok (q, m') /\
    is_mat m' q (R + 2 * pr) (C + 2 * pc) /\
    forall i j, i < R + 2 * pr -> j < C + 2 * pc -> val m' q i j =
      if (pr <=? i) && (i <? pr + R) && (pc <=? j) && (j <? pc + C) then val m p (i - pr) (j - pc)
      else match get m q with Some o => nth (i * (C + 2 * pc) + j) (o_buf o) n0 | None => n0 end.
Proof.
  intros G H (o & Ho) Ne E.
  destruct (@pad_ok T N S VS m p R C pr pc (Some q) G H) as (t & m' & Er & I & V & W & Rest).
  { exists o. exact Ho. }
  { intros _. auto. }
  apply Nat.eqb_eq in E. rewrite E in W. subst t. exists m'. split; [exact Er|]. split; [exact I|].
  intros i j Hi Hj. rewrite V by auto. destruct (_ && _); auto. unfold old_val. rewrite Ho.
  unfold num_elem in E. rewrite Ho in E. now rewrite E.
Qed.
Theorem C28_pad_reuse : forall {T} {N : Num T} (S : sched T), valid_sched S -> forall m p R C pr pc q,
  good m -> is_mat m p R C -> (exists o, get m q = Some o) -> q <> p -> num_elem m q = (R + 2 * pr) * (C + 2 * pc) ->
  exists m', pad S p pr pc (Some q) m = Ok (q, m') /\
    is_mat m' q (R + 2 * pr) (C + 2 * pc) /\
    forall i j, i < R + 2 * pr -> j < C + 2 * pc -> val m' q i j =
      if (pr <=? i) && (i <? pr + R) && (pc <=? j) && (j <? pc + C) then val m p (i - pr) (j - pc)
      else match get m q with Some o => nth (i * (C + 2 * pc) + j) (o_buf o) n0 | None => n0 end.
Proof. exact @pad_reuse. Qed.
Print Assumptions C28_pad_reuse.
Theorem C28_refuted : good m_ex /\ is_mat m_ex 0 2 2 /\
  exists m', pad Zin 0 1 1 (Some 1) m_ex = Ok (1, m') /\ val m' 1 0 0 = 9%Z.
Proof. exact (conj good_ex (conj (proj1 ex_mat) pad_stale)). Qed.
Example C28_nonvacuous : exists t m', pad Zin 0 1 0 None m_ex = Ok (t, m') /\ val m' t 0 1 = 0%Z /\ val m' t 1 1 = 2%Z.
Proof. eexists _, _. split; [vm_compute; reflexivity|]. split; vm_compute; reflexivity. Qed.

(** ** C29 Element-wise kernels: any result buffer, including the operands themselves *)
Theorem C29_binary : forall {T} {N : Num T} (S : sched T), valid_sched S -> forall m a b r R C,
  good m -> is_mat m a R C -> is_mat m b R C -> space_of m a = space_of m b -> res_ok m r ->
  (exists p m', MatAdd S a b r m = Ok (p, m') /\ stored m m' r p R C (fun i j => nadd (val m a i j) (val m b i j))) /\
  (exists p m', MatSub S a b r m = Ok (p, m') /\ stored m m' r p R C (fun i j => nsub (val m a i j) (val m b i j))) /\
  (exists p m', MatHadamard S a b r m = Ok (p, m') /\ stored m m' r p R C (fun i j => nmul (val m a i j) (val m b i j))).
Proof.
  exact (fun T N S VS m a b r R C G Ha Hb Sp Hr =>
    conj (elementwise_ok VS nadd G Ha Hb Sp Hr) (conj (elementwise_ok VS nsub G Ha Hb Sp Hr) (elementwise_ok VS nmul G Ha Hb Sp Hr))).
Qed.
Print Assumptions C29_binary.
Theorem C29_scalar_and_unary : forall {T} {N : Num T} (S : sched T), valid_sched S -> forall m a r R C,
  good m -> is_mat m a R C -> res_ok m r ->
  (forall c, exists p m', MatScalarAdd S c a r m = Ok (p, m') /\ stored m m' r p R C (fun i j => nadd c (val m a i j))) /\
  (forall c, exists p m', MatScalarMul S c a r m = Ok (p, m') /\ stored m m' r p R C (fun i j => nmul c (val m a i j))) /\
  (forall f, exists p m', MatUnary S a f r m = Ok (p, m') /\ stored m m' r p R C (fun i j => f (val m a i j))).
Proof.
  exact (fun T N S VS m a r R C G Ha Hr =>
    conj (fun c => elementwise1_ok VS (nadd c) G Ha Hr) (conj (fun c => elementwise1_ok VS (nmul c) G Ha Hr)
      (fun f => elementwise1_ok VS f G Ha Hr))).
Qed.
Print Assumptions C29_scalar_and_unary.
Theorem C29_mismatch : forall {T} {N : Num T} (S : sched T) m a b r Ra Ca Rb Cb, is_mat m a Ra Ca -> is_mat m b Rb Cb ->
  Ra <> Rb \/ Ca <> Cb -> MatAdd S a b r m = Rejected /\ MatSub S a b r m = Rejected /\ MatHadamard S a b r m = Rejected.
Proof.
  exact (fun T N S m a b r Ra Ca Rb Cb Ha Hb D => conj (elementwise_reject S nadd r Ha Hb D)
    (conj (elementwise_reject S nsub r Ha Hb D) (elementwise_reject S nmul r Ha Hb D))).
Qed.
(** Accumulation A = A + B in place. *)
Example C29_nonvacuous : good m_ex /\ exists m', MatAdd Zin 0 4 (Some 0) m_ex = Ok (0, m') /\ val m' 0 1 0 = 12%Z /\ val m' 4 1 0 = 9%Z.
Proof. split; [exact good_ex|]. eexists. split; [vm_compute; reflexivity|]. repeat split; vm_compute; reflexivity. Qed.

(** ** C30 Product *)
Theorem C30_product : forall {T} {N : Num T} (S : sched T), valid_sched S -> forall m a b r R K C,
  good m -> is_mat m a R K -> is_mat m b K C -> space_of m a = space_of m b -> res_ok m r ->
  match r with Some q => num_elem m q = R * C -> name m q <> name m a /\ name m q <> name m b | None => True end ->
  exists p m', MatMul S a b r m = Ok (p, m') /\
    stored m m' r p R C (fun i j => sum_n K (fun k => nmul (val m a i k) (val m b k j))).
Proof. exact (fun T N S VS m a b r R K C => MatMul_ok VS (a := a) (b := b) (r := r) (m := m) (R := R) (K := K) (C := C)). Qed.
Print Assumptions C30_product.
(** Mismatched inner dimensions, and results that are one of the operands, are rejected. *)
Theorem C30_rejected : forall {T} {N : Num T} (S : sched T) m a b Ra Ca Rb Cb, is_mat m a Ra Ca -> is_mat m b Rb Cb ->
  (Ca <> Rb -> forall r, MatMul S a b r m = Rejected) /\
  (forall q, good m -> Ca = Rb -> space_of m a = space_of m b -> (exists o, get m q = Some o) -> num_elem m q = Ra * Cb ->
     q = a \/ q = b -> MatMul S a b (Some q) m = Rejected).
Proof.
  exact (fun T N S m a b Ra Ca Rb Cb Ha Hb => conj (fun D r => MatMul_reject S r Ha Hb D)
   (fun q G E Sp Hq Ne A => MatMul_alias S G Ha (eq_ind_r (fun k => is_mat m b k Cb) Hb E) Sp Hq Ne
     (match A with or_introl e => or_introl (f_equal (name m) e) | or_intror e => or_intror (f_equal (name m) e) end))).
Qed.
Print Assumptions C30_rejected.
Example C30_nonvacuous : exists m', MatMul Zin 0 4 (Some 1) m_ex = Ok (5, m') /\ val m' 5 1 0 = 63%Z.
Proof. eexists. split; [vm_compute; reflexivity|]. repeat split; vm_compute; reflexivity. Qed.

(** ** C31 Kronecker product *)
(** Any buffer: right wherever the left factor is non-zero; elsewhere the old content stays. *)
Theorem C31_kron : forall {T} {N : Num T} (S : sched T), valid_sched S -> forall m a b r Ra Ca Rb Cb,
  good m -> is_mat m a Ra Ca -> is_mat m b Rb Cb -> space_of m a = space_of m b -> res_ok m r ->
  match r with Some q => num_elem m q = Ra * Rb * (Ca * Cb) -> q <> a /\ q <> b | None => True end ->
  exists p m', MatKron S a b r m = Ok (p, m') /\
    stored m m' r p (Ra * Rb) (Ca * Cb) (fun x y =>
      if neqb (val m a (x / Rb) (y / Cb)) n0 then old_val m r (space_of m b) (Ra * Rb) (Ca * Cb) x y
      else nmul (val m b (x mod Rb) (y mod Cb)) (val m a (x / Rb) (y / Cb))).
Proof.
  exact (fun T N S VS m a b r Ra Ca Rb Cb G Ha Hb Sp Hr No => MatKron_ok VS G Ha Hb Sp Hr
    (match r return (match r with Some q => num_elem m q = Ra * Rb * (Ca * Cb) -> q <> a /\ q <> b | None => True end) -> not_operand m r (Ra * Rb) (Ca * Cb) a
     with Some q => fun H E => proj1 (H E) | None => fun H => H end No)
    (match r return (match r with Some q => num_elem m q = Ra * Rb * (Ca * Cb) -> q <> a /\ q <> b | None => True end) -> not_operand m r (Ra * Rb) (Ca * Cb) b
     with Some q => fun H E => proj2 (H E) | None => fun H => H end No)).
Qed.
Print Assumptions C31_kron.
(** The Kronecker product: new CPU buffer, or no zero entry in the left factor. *)
Lemma kron_exact {T} {N : Num T} (L : NumLaws N) (S : sched T) (VS : valid_sched S) m a b r Ra Ca Rb Cb :
  good m -> is_mat m a Ra Ca -> is_mat m b Rb Cb -> space_of m a = CPU -> space_of m b = CPU -> res_ok m r ->
  match r with Some q => num_elem m q = Ra * Rb * (Ca * Cb) -> q <> a /\ q <> b /\
    (forall i j, i < Ra -> j < Ca -> neqb (val m a i j) n0 = false) | None => True end ->
  exists p m', MatKron S a b r m = Ok (p, m') /\
    stored m m' r p (Ra * Rb) (Ca * Cb) (fun x y => nmul (val m a (x / Rb) (y / Cb)) (val m b (x mod Rb) (y mod Cb))).
Proof.
  intros G Ha Hb Sa Sb Hr No. set (lr := law_ring N L).
  destruct (@MatKron_ok T N S VS a b r m Ra Ca Rb Cb G Ha Hb) as (p & m' & E & I & V & Rest).
  { congruence. } { exact Hr. }
  { destruct r as [q|]; simpl; auto. intros E. apply (No E). }
  { destruct r as [q|]; simpl; auto. intros E. apply (No E). }
  exists p, m'. split; [exact E|]. split; [exact I|]. split; [|exact Rest].
  intros x y Hx Hy. rewrite V by auto.
  destruct Ha as (ka & sa & ba & Ha & La). destruct Hb as (kb & sb & bb & Hb & Lb).
  destruct (G _ _ Hb) as (PR & PC & _ & _). simpl in PR, PC.
  assert (Hx' : x / Rb < Ra) by (apply Nat.div_lt_upper_bound; lia).
  assert (Hy' : y / Cb < Ca) by (apply Nat.div_lt_upper_bound; lia).
  destruct (neqb _ _) eqn:Z.
  - assert (Zl : forall z : T, nmul n0 z = n0).
    { intros z. apply (ARmul_0_l (Rth_ARth (Eqsth T) (Eq_ext nadd nmul nopp) lr)). }
    transitivity (n0 : T); [|symmetry; rewrite (law_eqb N L _ Z); apply Zl]. rewrite Sb.
    destruct r as [q|]; [|now apply old_fresh].
    destruct Hr as (o & Ho).
    destruct (Nat.eq_dec (num_elem m q) (Ra * Rb * (Ca * Cb))) as [Eq|Nq].
    + destruct (No Eq) as (_ & _ & Nz). rewrite Nz in Z by auto. discriminate.
    + apply old_other_size; eauto.
  - apply (Rmul_comm lr).
Qed.
Theorem C31_kron_exact : forall {T} {N : Num T}, NumLaws N -> forall (S : sched T), valid_sched S -> forall m a b r Ra Ca Rb Cb,
  good m -> is_mat m a Ra Ca -> is_mat m b Rb Cb -> space_of m a = CPU -> space_of m b = CPU -> res_ok m r ->
  match r with Some q => num_elem m q = Ra * Rb * (Ca * Cb) -> q <> a /\ q <> b /\
    (forall i j, i < Ra -> j < Ca -> neqb (val m a i j) n0 = false) | None => True end ->
  exists p m', MatKron S a b r m = Ok (p, m') /\
    stored m m' r p (Ra * Rb) (Ca * Cb) (fun x y => nmul (val m a (x / Rb) (y / Cb)) (val m b (x mod Rb) (y mod Cb))).
Proof. exact @kron_exact. Qed.
Print Assumptions C31_kron_exact.
Theorem C31_refuted : good m_ex /\ is_mat m_ex 2 1 1 /\ is_mat m_ex 0 2 2 /\ val m_ex 2 0 0 = 0%Z /\
  exists m', MatKron Zin 2 0 (Some 4) m_ex = Ok (4, m') /\ val m' 4 1 1 = 9%Z.
Proof. exact (conj good_ex (conj (proj1 (proj2 (proj2 ex_mat))) (conj (proj1 ex_mat) (conj eq_refl kron_stale)))). Qed.
Example C31_nonvacuous : exists m', MatKron Zin 0 4 None m_ex = Ok (5, m') /\ val m' 5 3 1 = 27%Z.
Proof. eexists. split; [vm_compute; reflexivity|]. vm_compute; reflexivity. Qed.

(** ** C32 Transposes *)
Theorem C32_transpose : forall {T} {N : Num T} (S : sched T), valid_sched S -> forall m a r R C,
  good m -> is_mat m a R C -> res_ok m r ->
  match r with Some q => num_elem m q = C * R -> q <> a | None => True end ->
  exists p m', MatTranspose S a r m = Ok (p, m') /\ stored m m' r p C R (fun i j => val m a j i).
Proof. exact (fun T N S VS m a r R C => MatTranspose_ok VS (a := a) (r := r) (m := m) (R := R) (C := C)). Qed.
Print Assumptions C32_transpose.
Lemma transpose_twice {T} {N : Num T} (S : sched T) (VS : valid_sched S) m a R C : good m -> is_mat m a R C ->
  exists p1 m1 p2 m2, MatTranspose S a None m = Ok (p1, m1) /\ MatTranspose S p1 None m1 = Ok (p2, m2) /\
    is_mat m2 p2 R C /\ forall i j, i < R -> j < C -> val m2 p2 i j = val m a i j.
Proof.
  intros G H. destruct (@MatTranspose_ok T N S VS a None m R C G H Logic.I Logic.I) as (p1 & m1 & E1 & I1 & V1 & _ & _ & _ & _ & G1).
  destruct (@MatTranspose_ok T N S VS p1 None m1 C R G1 I1 Logic.I Logic.I) as (p2 & m2 & E2 & I2 & V2 & _).
  exists p1, m1, p2, m2. repeat apply conj; auto. intros i j Hi Hj. rewrite V2, V1 by auto. reflexivity.
Qed.
Theorem C32_involution : forall {T} {N : Num T} (S : sched T), valid_sched S -> forall m a R C, good m -> is_mat m a R C ->
  exists p1 m1 p2 m2, MatTranspose S a None m = Ok (p1, m1) /\ MatTranspose S p1 None m1 = Ok (p2, m2) /\
    is_mat m2 p2 R C /\ forall i j, i < R -> j < C -> val m2 p2 i j = val m a i j.
Proof. exact @transpose_twice. Qed.
Print Assumptions C32_involution.
(** Block (k,l) of the result is block (l,k) of the argument; blocks are Rx x Cx. *)
Lemma derv_blocks {T} {N : Num T} (S : sched T) (VS : valid_sched S) m a r Rf Cf Rx Cx :
  good m -> is_mat m a (Rf * Rx) (Cf * Cx) -> res_ok m r ->
  match r with Some q => num_elem m q = Cf * Rx * (Rf * Cx) -> q <> a | None => True end ->
  exists p m', MatDervTranspose S Rf Cf Rx Cx a r m = Ok (p, m') /\ is_mat m' p (Cf * Rx) (Rf * Cx) /\
    (forall q, q <> p -> get m' q = get m q) /\
    forall k l i j, k < Cf -> l < Rf -> i < Rx -> j < Cx ->
      val m' p (k * Rx + i) (l * Cx + j) = val m a (l * Rx + i) (k * Cx + j).
Proof.
  intros G H Hr No. destruct (@derv_transpose_ok T N S VS Rf Cf Rx Cx a r m G H Hr No) as (p & m' & E & I & V & _ & Fr & _).
  exists p, m'. repeat apply conj; auto. intros k l i j Hk Hl Hi Hj.
  rewrite V by (apply idx_bound; auto). rewrite !idx_row, !idx_col by auto. reflexivity.
Qed.
Theorem C32_derv_transpose : forall {T} {N : Num T} (S : sched T), valid_sched S -> forall m a r Rf Cf Rx Cx,
  good m -> is_mat m a (Rf * Rx) (Cf * Cx) -> res_ok m r ->
  match r with Some q => num_elem m q = Cf * Rx * (Rf * Cx) -> q <> a | None => True end ->
  exists p m', MatDervTranspose S Rf Cf Rx Cx a r m = Ok (p, m') /\ is_mat m' p (Cf * Rx) (Rf * Cx) /\
    (forall q, q <> p -> get m' q = get m q) /\
    forall k l i j, k < Cf -> l < Rf -> i < Rx -> j < Cx ->
      val m' p (k * Rx + i) (l * Cx + j) = val m a (l * Rx + i) (k * Cx + j).
Proof. exact @derv_blocks. Qed.
Print Assumptions C32_derv_transpose.
(** The kernel does not guard against transposing in place. *)
Theorem C32_in_place_refuted : good m_ex /\ exists m', MatTranspose Zin 0 (Some 0) m_ex = Ok (0, m') /\
  val m_ex 0 1 0 = 3%Z /\ val m' 0 0 1 = 2%Z.
Proof. exact (conj good_ex transpose_in_place). Qed.
Example C32_nonvacuous : exists m', MatTranspose Zin 0 (Some 4) m_ex = Ok (4, m') /\ val m' 4 0 1 = 3%Z.
Proof. eexists. split; [vm_compute; reflexivity|]. vm_compute; reflexivity. Qed.

(** ** C33 Trace *)
Lemma trace_exact {T} {N : Num T} (L : NumLaws N) (S : sched T) (VS : valid_sched S) m a r n :
  good m -> is_mat m a n n -> res_ok m r ->
  match r with Some q => num_elem m q = 1 -> q <> a | None => True end ->
  exists p m', MatTrace S a r m = Ok (p, m') /\ stored m m' r p 1 1 (fun _ _ => sum_n n (fun k => val m a k k)).
Proof.
  intros G H Hr No. destruct (@MatTrace_ok T N S VS a r m n G H Hr No) as (p & m' & o & E & P & I & V & Rest).
  exists p, m'. split; [exact E|]. split; [exact I|]. split; [|exact Rest].
  intros i j Hi Hj. rewrite V by auto. now apply fold_any_order.
Qed.
(** Iterations executed one at a time, in any order, exact arithmetic. *)
Theorem C33_trace : forall {T} {N : Num T}, NumLaws N -> forall (S : sched T), valid_sched S -> forall m a r n,
  good m -> is_mat m a n n -> res_ok m r ->
  match r with Some q => num_elem m q = 1 -> q <> a | None => True end ->
  exists p m', MatTrace S a r m = Ok (p, m') /\ stored m m' r p 1 1 (fun _ _ => sum_n n (fun k => val m a k k)).
Proof. exact @trace_exact. Qed.
Print Assumptions C33_trace.
Theorem C33_rejected : forall {T} {N : Num T} (S : sched T) m a r R C, is_mat m a R C -> R <> C -> MatTrace S a r m = Rejected.
Proof. exact (fun T N S m a r R C => MatTrace_reject S (a := a) r (m := m) (R := R) (C := C)). Qed.
(** With really parallel iterations updates are lost: any single diagonal entry is a possible outcome. *)
Theorem C33_parallel_refuted : forall {T} {N : Num T} (d : nat -> T) n k, k < n ->
  trace_outcome d n (nadd n0 (d k)) /\ trace_outcome d n (sum_n n d).
Proof. exact (fun T N d n k H => conj (trace_lost d H) (trace_sequential d n)). Qed.
Print Assumptions C33_parallel_refuted.
Example C33_nonvacuous : exists m', MatTrace Zin 0 (Some 3) m_ex = Ok (3, m') /\ val m' 3 0 0 = 5%Z.
Proof. eexists. split; [vm_compute; reflexivity|]. vm_compute; reflexivity. Qed.

(** ** C36 Result buffers *)
Lemma pool_spec {T} {N : Num T} (m : mem T) sp r R C : good m -> res_ok m r -> 0 < R -> 0 < C ->
  exists p m', pool sp r R C m = Ok (p, m') /\ is_mat m' p R C /\ (forall q, q <> p -> get m' q = get m q) /\
    match r with
    | Some q => if num_elem m q =? R * C
                then p = q /\ forall o, get m q = Some o -> get m' q = Some (MkObj (o_nidx o) (o_space o) R C (o_buf o))
                else p = length (objs m) /\ name m' p = next m /\ space_of m' p = sp /\ (sp = CPU -> forall i j, i < R -> j < C -> val m' p i j = n0)
    | None => p = length (objs m) /\ name m' p = next m /\ space_of m' p = sp /\ (sp = CPU -> forall i j, i < R -> j < C -> val m' p i j = n0)
    end.
Proof.
  intros G Hr PR PC. destruct (pool_ok None sp G Hr PR PC) as (p & m' & E & P). exists p, m'.
  split; [exact E|]. destruct (pooled_obj G P) as (o & Ho & oR & oC & Lo). split.
  { destruct o as [k s R' C' b]. simpl in *. subst. exists k, s, b. auto. }
  split; [exact (pl_frame P)|].
  assert (New : p = length (objs m) -> get m' p = Some (MkObj (next m) sp R C (new_buf sp (R * C) None (junk m (next m)))) ->
     p = length (objs m) /\ name m' p = next m /\ space_of m' p = sp /\ (sp = CPU -> forall i j, i < R -> j < C -> val m' p i j = n0)).
  { intros Ep Hp. unfold name, space_of, val. rewrite Hp. repeat apply conj; auto. intros -> i j Hi Hj. simpl.
    exact (old_fresh m Hi Hj). }
  destruct (pl_cases P) as [(-> & o' & Ho' & Eo & Hn)|(Ep & Hp & D)].
  - unfold num_elem. rewrite Ho'. apply Nat.eqb_eq in Eo. rewrite Eo. split; auto. intros ? [= <-]. exact Hn.
  - destruct r as [q|]; [|auto]. apply Nat.eqb_neq in D. rewrite D. auto.
Qed.
(** Requested shape; same element count: same matrix, elements kept in storage order;
    otherwise a new, freshly numbered matrix, all zero on the CPU. *)
Theorem C36_pool : forall {T} {N : Num T} (m : mem T) sp r R C, good m -> res_ok m r -> 0 < R -> 0 < C ->
  exists p m', pool sp r R C m = Ok (p, m') /\ is_mat m' p R C /\ (forall q, q <> p -> get m' q = get m q) /\
    match r with
    | Some q => if num_elem m q =? R * C
                then p = q /\ forall o, get m q = Some o -> get m' q = Some (MkObj (o_nidx o) (o_space o) R C (o_buf o))
                else p = length (objs m) /\ name m' p = next m /\ space_of m' p = sp /\ (sp = CPU -> forall i j, i < R -> j < C -> val m' p i j = n0)
    | None => p = length (objs m) /\ name m' p = next m /\ space_of m' p = sp /\ (sp = CPU -> forall i j, i < R -> j < C -> val m' p i j = n0)
    end.
Proof. exact @pool_spec. Qed.
Print Assumptions C36_pool.
Example C36_nonvacuous : exists m', pool CPU (Some 1) 2 8 m_ex = Ok (1, m') /\ is_mat m' 1 2 8 /\ val m' 1 1 7 = 9%Z.
Proof. eexists. split; [reflexivity|]. split; [|reflexivity]. eexists _, _, _. split; reflexivity. Qed.

(** ** C37 Special matrices *)
(** After any history, on the CPU (and Ones also in pinned memory): exactly the requested
    matrix, nothing existing changed, and later requests return the same matrix. *)
Theorem C37_special : forall {T} {N : Num T} (S : sched T), valid_sched S -> forall m k sp R C,
  history S m -> sp = CPU \/ k = KOnes -> 0 < R -> 0 < C -> (k = KEye -> R = C) ->
  exists p m', request S k sp R C m = Ok (p, m') /\ is_mat m' p R C /\
    (forall i j, i < R -> j < C -> val m' p i j = special_entry k i j) /\
    (forall q, q < length (objs m) -> get m' q = get m q) /\
    (forall m2, history S m2 -> specials m2 = specials m' -> request S k sp R C m2 = Ok (p, m2)).
Proof.
  exact (fun T N S VS m k sp R C H Rl PR PC Sq => match special_request VS H Rl PR PC Sq with
    | ex_intro _ p (ex_intro _ m' (conj E (conj (conj Im V) (conj F A)))) => ex_intro _ p (ex_intro _ m' (conj E (conj Im (conj V (conj F A))))) end).
Qed.
Print Assumptions C37_special.
(** Every kernel writing to a buffer that is not a registered special matrix keeps the history valid. *)
Theorem C37_kernels_allowed : forall {T} {N : Num T} (S : sched T), valid_sched S -> forall m m' r p R C F,
  history S m -> stored m m' r p R C F -> (forall k q, In (k, q) (specials m) -> r <> Some q) -> history S m'.
Proof. exact (fun T N S VS m m' r p R C F => stored_keeps VS (m := m) (m' := m') (r := r) (p := p) (R := R) (C := C) (F := F)). Qed.
Print Assumptions C37_kernels_allowed.
(** Pinned Eye and Zeros return uninitialised memory. *)
Theorem C37_gpu_refuted : history Zin dirty_start /\
  (exists p m', request Zin KZeros GPU 1 1 dirty_start = Ok (p, m') /\ val m' p 0 0 = 7%Z) /\
  (exists p m', request Zin KEye GPU 2 2 dirty_start = Ok (p, m') /\ val m' p 0 1 = 7%Z).
Proof. exact (conj (proj1 gpu_zeros_wrong) (conj (proj2 gpu_zeros_wrong) gpu_eye_wrong)). Qed.
Print Assumptions C37_gpu_refuted.
Example C37_nonvacuous : history Zin m_ex /\ exists m1 m2, request Zin KEye CPU 2 2 m_ex = Ok (5, m1) /\
  request Zin KZeros CPU 2 3 m1 = Ok (6, m2) /\ request Zin KEye CPU 2 2 m2 = Ok (5, m2).
Proof. split; [apply hist_start; [exact good_ex|reflexivity]|]. eexists _, _. split; [vm_compute; reflexivity|]. split; vm_compute; reflexivity. Qed.
