(** /repo/src/polynomial/poly_math.rs: generic accumulation into any [MutablePolynomial]. *)

From Coq Require Import List NArith ZArith Bool.
From Verif Require Import Base Num Terms Dense Sparse Mono Bino Trino ArrPoly.
Import ListNotations.

(** traits.rs 58-75: the methods of MutablePolynomial<N> that poly_math uses. *)
Record mutpoly (T P : Type) := MkMut {
  s_add : P -> T -> N -> mutres P;
  s_sub : P -> T -> N -> mutres P
}.
Arguments MkMut {T P}. Arguments s_add {T P}. Arguments s_sub {T P}.

(** the implementations: polynomial.rs 242-261, sparsepolynomial.rs 164-189, monomial.rs
    136-162, binomial.rs 159-177, trinomial.rs 193-211, array_polynomial.rs 35-53 *)
Definition dense_mut {T} (O : num T) := MkMut (dense_try_add_term O) (dense_try_sub_term O).
Definition sparse_mut {T} (O : num T) := MkMut (sparse_try_add_term O) (sparse_try_sub_term O).
Definition mono_mut {T} (O : num T) := MkMut (mono_try_add_term O) (mono_try_sub_term O).
Definition bino_mut {T} (O : num T) := MkMut (bino_try_add_term O) (bino_try_sub_term O).
Definition trino_mut {T} (O : num T) := MkMut (trino_try_add_term O) (trino_try_sub_term O).
Definition arr_mut {T} (O : num T) := MkMut (arr_try_add_term O) (arr_try_sub_term O).

Section PolyMath.
Context {T P : Type} (O : num T) (S : mutpoly T P).

(** poly_math.rs 54-58 and 142-146: apply one of the two methods to every term; [?] returns
    at the first error.  The iterator argument is the list of the items it yields. *)
Fixpoint apply_terms (f : P -> T -> N -> mutres P) (ts : list (T * N)) (sink : P) : mutres P :=
  match ts with
  | [] => Ok (sink, None)
  | (c, d) :: ts' =>
    r <- f sink c d ;;
    match snd r with
    | None => apply_terms f ts' (fst r)
    | Some e => Ok (fst r, Some e)
    end
  end.

(** poly_math.rs 47-59: add_poly *)
Definition add_poly (ts : list (T * N)) (sink : P) : mutres P := apply_terms (s_add S) ts sink.
(** poly_math.rs 135-147: sub_poly *)
Definition sub_poly (ts : list (T * N)) (sink : P) : mutres P := apply_terms (s_sub S) ts sink.

(** poly_math.rs 114-116: the inner loop of mul_poly_vec *)
Fixpoint mul_row (rc : T) (rd : N) (lhs : list (T * N)) (sink : P) : mutres P :=
  match lhs with
  | [] => Ok (sink, None)
  | (lc, ld) :: lhs' =>
    c <- mul O rc lc ;; d <- uadd (n_chk O) rd ld ;;
    r <- s_add S sink c d ;;
    match snd r with
    | None => mul_row rc rd lhs' (fst r)
    | Some e => Ok (fst r, Some e)
    end
  end.
(** poly_math.rs 105-120: mul_poly_vec *)
Fixpoint mul_poly_vec (rhs lhs : list (T * N)) (sink : P) : mutres P :=
  match rhs with
  | [] => Ok (sink, None)
  | (rc, rd) :: rhs' =>
    r <- mul_row rc rd lhs sink ;;
    match snd r with
    | None => mul_poly_vec rhs' lhs (fst r)
    | Some e => Ok (fst r, Some e)
    end
  end.

(** poly_math.rs 19-31 and 160-172: [vec![f(x_0, &mut sink), ..., f(x_z, &mut sink)]] runs
    every operand, then [collect] reports the first error. *)
Fixpoint apply_all (f : P -> T -> N -> mutres P) (xs : list (list (T * N))) (sink : P) : mutres P :=
  match xs with
  | [] => Ok (sink, None)
  | x :: xs' =>
    r <- apply_terms f x sink ;;
    r' <- apply_all f xs' (fst r) ;;
    Ok (fst r', match snd r with Some e => Some e | None => snd r' end)
  end.
(** poly_math.rs 19-31: poly_add!(sink; x_0, ..., x_z) *)
Definition poly_add_into (xs : list (list (T * N))) (sink : P) : mutres P := apply_all (s_add S) xs sink.
(** poly_math.rs 160-172: poly_sub!(sink; x_0, ..., x_z) *)
Definition poly_sub_into (xs : list (list (T * N))) (sink : P) : mutres P := apply_all (s_sub S) xs sink.

(** *** histories of calls on a MutablePolynomial *)
(** A call: try_add_term, try_sub_term or set_to_zero. *)
Inductive call := CallAdd (c : T) (d : N) | CallSub (c : T) (d : N) | CallReset.

(** [reset] is the type's set_to_zero. *)
Definition do_call (reset : P -> P) (p : P) (x : call) : mutres P :=
  match x with
  | CallAdd c d => s_add S p c d
  | CallSub c d => s_sub S p c d
  | CallReset => Ok (reset p, None)
  end.

(** The final state and what each call returned. *)
Fixpoint run (reset : P -> P) (h : list call) (p : P) : res (P * list (option try_add_err)) :=
  match h with
  | [] => Ok (p, [])
  | x :: h' =>
    r <- do_call reset p x ;;
    r' <- run reset h' (fst r) ;;
    Ok (fst r', snd r :: snd r')
  end.

End PolyMath.

(** poly_math.rs 11-17: poly_add!(x_0, ..., x_z); the result of the inner macro is discarded. *)
Definition poly_add_macro {T} (O : num T) (xs : list (list (T * N))) : res (list T) :=
  r <- poly_add_into (dense_mut O) xs dense_zero ;; Ok (fst r).
(** poly_math.rs 152-158: poly_sub!(lhs, x_1, ..., x_z); both results are discarded. *)
Definition poly_sub_macro {T} (O : num T) (lhs : list (T * N)) (xs : list (list (T * N))) : res (list T) :=
  r <- poly_add_into (dense_mut O) [lhs] dense_zero ;;
  r' <- poly_sub_into (dense_mut O) xs (fst r) ;; Ok (fst r').
