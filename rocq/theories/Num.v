(** * Number types

    CoolDiff is compiled for one scalar [Type] (CommonHeader.hpp:193-216: float, double,
    std::complex<..>).  The engine only uses the operations below.  A [Num T] is *any* interpretation of
    them, with no laws at all, so a theorem stated for every [Num T] holds for
    IEEE floating point and for complex numbers as well as for exact reals.  The ring
    laws needed by reverse mode are the separate record [NumLaws]. *)

From Coq Require Import List Arith Bool Ring.
Import ListNotations.

(** The <cmath> functions reached through GenericSin.hpp ... GenericLog.hpp. *)
Inductive ufun : Type :=
| FSin | FCos | FTan | FSinh | FCosh | FTanh
| FASin | FACos | FATan | FASinh | FACosh | FATanh
| FSqrt | FExp | FLog.

Class Num (T : Type) : Type := {
  n0 : T;                    (* (Type)(0), and Type() of a fresh map entry *)
  n1 : T;                    (* (Type)(1) *)
  nm1 : T;                   (* (Type)(-1) *)
  nhalf : T;                 (* (Type)(0.5), GenericSqrt.hpp *)
  nadd : T -> T -> T;
  nsub : T -> T -> T;
  nmul : T -> T -> T;
  ndiv : T -> T -> T;
  npow : T -> T -> T;        (* std::pow *)
  nfun : ufun -> T -> T;     (* std::sin ... std::log *)
  neqb : T -> T -> bool      (* == *)
}.

Declare Scope num_scope.
Delimit Scope num_scope with num.
Infix "+" := nadd : num_scope.
Infix "-" := nsub : num_scope.
Infix "*" := nmul : num_scope.
Infix "/" := ndiv : num_scope.

(** Negation, used only to state the ring laws. *)
Definition nopp {T} {N : Num T} (x : T) : T := nsub n0 x.

(** Exact arithmetic: commutative ring laws, (Type)(-1) is the negation of one, and a
    number that compares equal to zero is zero. *)
Record NumLaws {T} (N : Num T) : Prop := {
  law_ring : ring_theory n0 n1 nadd nmul nsub nopp (@eq T);
  law_m1 : nm1 = nopp n1;
  law_eqb : forall x : T, neqb x n0 = true -> x = n0
}.

(** [1/v] is an inverse of [v]. *)
Definition invertible {T} {N : Num T} (v : T) : Prop := nmul v (ndiv n1 v) = n1.
