(** Model of src/polynomial/integral.rs: [Integral<N, P>] for [P = Polynomial<N>] (dense) and
    [P = SparsePolynomial<N>], the two free-size types that implement [Evaluable].  The
    wrapper holds only the polynomial ([phantom] has no content), so [new] and [inner] are the
    identity. *)

From Coq Require Import String Ascii List NArith ZArith.
From Verif Require Import Base Num Terms Dense Sparse Strs.
Import ListNotations.

Section Integral.
Context {T : Type} (O : num T) (X : txt T).

(** integral.rs 46-58: Display *)
Definition dense_integral_show (l : list T) : res str :=
  if dense_is_zero O l then Ok (lit "C") else s <- dense_show O X l ;; Ok (s ++ lit " + C").
Definition sparse_integral_show (m : bmap T) : res str :=
  if sparse_is_zero O m then Ok (lit "C") else s <- sparse_show O X m ;; Ok (s ++ lit " + C").

(** integral.rs 61-65: replace_c *)
Definition dense_replace_c (l : list T) (c : T) : res (list T) := dense_add_term O l c 0.
Definition sparse_replace_c (m : bmap T) (c : T) : res (bmap T) := sparse_add_term O m c 0.

(** integral.rs 81-83: eval *)
Definition dense_integral_eval (l : list T) (start fin : T) : res T :=
  e <- dense_eval O l fin ;; s <- dense_eval O l start ;; sub O e s.
Definition sparse_integral_eval (m : bmap T) (start fin : T) : res T :=
  e <- sparse_eval O m fin ;; s <- sparse_eval O m start ;; sub O e s.
End Integral.
