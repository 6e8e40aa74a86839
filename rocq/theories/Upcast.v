(** Conversions between coefficient types: /repo/src/macros.rs 1-62 and the [From] impls it is
    used for. *)

From Coq Require Import List NArith ZArith Bool.
From Flocq Require Import Core BinarySingleNaN.
From Verif Require Import Base Num Dense Sparse Mono Bino Trino Numerics Floats.
Import ListNotations.
Local Open Scope Z_scope.

(** The 14 numeric types. *)
Inductive nty := NI (t : ity) | NF (f : fty).
Definition ncar (a : nty) : Type := match a with NI t => int t | NF f => flt f end.

(** [x as g] between float types: exact if possible, otherwise nearest. *)
Definition f_cast {f} (g : fty) (x : flt f) : flt g :=
  match x with
  | B754_zero s => B754_zero s
  | B754_infinity s => B754_infinity s
  | B754_nan => B754_nan
  | B754_finite s m e _ => binary_normalize (fprec g) (femax g) _ _ mode_NE (cond_Zopp s (Z.pos m)) e s
  end.

(** [x as T] of a float to an integer type: truncation, saturating, NaN to 0.  (Not used by the table.) *)
Definition f_to_int {f} (t : ity) (x : flt f) : int t :=
  match x with
  | B754_zero _ | B754_nan => mk_int t 0
  | B754_infinity s => mk_int t (if s then imin t else imax t)
  | B754_finite _ _ _ _ => mk_int t (Z.max (imin t) (Z.min (imax t) (Btrunc x)))
  end.

(** [x as B] *)
Definition ncast (a b : nty) : ncar a -> ncar b :=
  match a, b return ncar a -> ncar b with
  | NI t, NI u => fun x => icast u x
  | NI t, NF g => fun x => f_of_Z g (ival x)
  | NF f, NF g => fun x => f_cast g x
  | NF f, NI u => fun x => f_to_int u x
  end.

(** macros.rs 5-62: upcast!, the list of (smaller, larger) pairs. *)
Definition upcast_table : list (nty * nty) :=
  [ (NI U8, NI U16); (NI U8, NI U32); (NI U8, NI U64); (NI U8, NI U128);
    (NI U16, NI U32); (NI U16, NI U64); (NI U16, NI U128);
    (NI U32, NI U64); (NI U32, NI U128);
    (NI U64, NI U128);
    (NI U8, NI I16); (NI U8, NI I32); (NI U8, NI I64); (NI U8, NI I128);
    (NI U16, NI I32); (NI U16, NI I64); (NI U16, NI I128);
    (NI U32, NI I64); (NI U32, NI I128);
    (NI U64, NI I128);
    (NI I8, NI I16); (NI I8, NI I32); (NI I8, NI I64); (NI I8, NI I128);
    (NI I16, NI I32); (NI I16, NI I64); (NI I16, NI I128);
    (NI I32, NI I64); (NI I32, NI I128);
    (NI I64, NI I128);
    (NI U8, NF F32); (NI U16, NF F32); (NI I8, NF F32); (NI I16, NF F32);
    (NI U8, NF F64); (NI U16, NF F64); (NI U32, NF F64);
    (NI I8, NF F64); (NI I16, NF F64); (NI I32, NF F64);
    (NF F32, NF F64) ].

(** The operations of each type. *)
Definition num_of (chk : bool) (powi : forall f, flt f -> N -> flt f) (a : nty) : num (ncar a) :=
  match a return num (ncar a) with
  | NI t => int_num chk t
  | NF f => float_num chk f (powi f)
  end.

Section Containers.
Context {A B : Type} (OB : num B) (cast : A -> B).

(** polynomial.rs 648-656: [Polynomial::new(item.terms.into_iter().map(|x| x as $B).collect())] *)
Definition dense_upcast (l : list A) : res (list B) := dense_new OB (map cast l).

(** sparsepolynomial.rs 233-241.  Collecting pairs with distinct increasing keys gives the same
    map; SparsePolynomial::new keeps it as it is. *)
Definition sparse_upcast (m : bmap A) : bmap B := map (fun kv => (fst kv, cast (snd kv))) m.

(** monomial.rs 315-323 *)
Definition mono_upcast (m : mono A) : mono B := MkMono (cast (mcoef m)) (mdeg m).
(** binomial.rs 278-286 *)
Definition bino_upcast (b : bino A) : bino B := MkBino (cast (bc0 b)) (cast (bc1 b)).
(** trinomial.rs 321-333 *)
Definition trino_upcast (b : trino A) : trino B := MkTrino (cast (tc0 b)) (cast (tc1 b)) (cast (tc2 b)).

End Containers.
