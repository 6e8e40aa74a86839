(** /repo/src/polynomial/array_polynomial.rs: [ArrayPolynomial<N, SIZE>] (feature-gated, 11 in
    lib.rs).  The array is a list whose length is SIZE. *)

From Coq Require Import List NArith ZArith Bool.
From Verif Require Import Base Num Terms Dense.
Import ListNotations.

Section ArrPoly.
Context {T : Type} (O : num T).

(** array_polynomial.rs 36-43: try_add_term *)
Definition arr_try_add_term (a : list T) (c : T) (d : N) : mutres (list T) :=
  if (d <? len a)%N then
    i1 <- usub (n_chk O) (len a) d ;; i <- usub (n_chk O) i1 1 ;;
    a' <- update a i (fun x => add O x c) ;; Ok (a', None)
  else Ok (a, Some DegreeOutOfBounds).

(** array_polynomial.rs 45-52: try_sub_term *)
Definition arr_try_sub_term (a : list T) (c : T) (d : N) : mutres (list T) :=
  if (d <? len a)%N then
    i1 <- usub (n_chk O) (len a) d ;; i <- usub (n_chk O) i1 1 ;;
    a' <- update a i (fun x => sub O x c) ;; Ok (a', None)
  else Ok (a, Some DegreeOutOfBounds).

(** array_polynomial.rs 59-74: eval (the code of polynomial.rs 340-362) *)
Definition arr_eval (a : list T) (point : T) : res T := dense_eval O a point.

(** array_polynomial.rs 86-89: [for (&l, r) in self.coefficients.iter().zip(result[1..].iter_mut())];
    the second list is [result[1..]]. *)
Fixpoint arr_deriv_loop (deg : T) (l out : list T) : res (list T) :=
  match l, out with
  | c :: l', _ :: out' =>
    deg' <- sub O deg (one O) ;; v <- mul O deg' c ;;
    r <- arr_deriv_loop deg' l' out' ;; Ok (v :: r)
  | _, _ => Ok out
  end.

(** array_polynomial.rs 81-92: derivative *)
Definition arr_derivative (a : list T) : res (list T) :=
  let result := repeat (zero O) (length a) in
  deg <- expect (of_cont O (len a)) ;;
  match result with
  | [] => Ok []
  | z :: out => r <- arr_deriv_loop deg a out ;; Ok (z :: r)
  end.

(** array_polynomial.rs 107-117: integral (a Polynomial) *)
Definition arr_integral (a : list T) : res (list T) :=
  deg <- expect (of_cont O (len a)) ;;
  terms <- integ_loop O deg a ;;
  _ <- vec_grow (n_max_len O) terms 1 ;;
  Ok (terms ++ [zero O]).

(** array_polynomial.rs 124-126: eq (arrays of the same SIZE) *)
Fixpoint arr_eq (a b : list T) : bool :=
  match a, b with
  | [], [] => true
  | x :: a', y :: b' => eqb O x y && arr_eq a' b'
  | _, _ => false
  end.

(** array_polynomial.rs 196-207: ordered_term_iter; the degree is computed as [1 - index] *)
Definition arr_terms (a : list T) : res (list (T * N)) := enum_terms O 1 0 a.

(** array_polynomial.rs 211-213: term_with_degree; 229-231: degree *)
Definition arr_term_with_degree (a : list T) (d : N) : res (term T) := term_with_deg O a d.
Definition arr_degree (a : list T) : degree := dense_degree O a.

(** array_polynomial.rs 244-246, 259-261: zero, set_to_zero *)
Definition arr_zero (size : nat) : list T := repeat (zero O) size.

End ArrPoly.
