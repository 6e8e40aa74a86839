(** /repo/src/terms.rs 9-35 (Degree, Term, Term::new) and /repo/src/err.rs 3-26.
    Term::from_str and the tokenizer are in Strs.v. *)

From Coq Require Import List NArith Bool.
From Verif Require Import Base Num.
Import ListNotations.

(** terms.rs 9-16 *)
Inductive degree := NegInf | Num (n : N).

(** Derived [PartialEq] of Degree (terms.rs 9). *)
Definition degree_eqb (a b : degree) : bool :=
  match a, b with
  | NegInf, NegInf => true
  | Num n, Num m => (n =? m)%N
  | _, _ => false
  end.

(** terms.rs 18-25 *)
Inductive term (T : Type) := ZeroTerm | TTerm (c : T) (d : N).
Arguments ZeroTerm {T}. Arguments TTerm {T} c d.

(** terms.rs 27-35: Term::new *)
Definition term_new {T} (O : num T) (c : T) (d : N) : term T :=
  if is_zero O c then ZeroTerm else TTerm c d.

(** Derived [PartialEq] of Term (terms.rs 18). *)
Definition term_eqb {T} (O : num T) (a b : term T) : bool :=
  match a, b with
  | ZeroTerm, ZeroTerm => true
  | TTerm c d, TTerm c' d' => eqb O c c' && (d =? d')%N
  | _, _ => false
  end.

(** err.rs 3-8: TryAddError *)
Inductive try_add_err := DegreeOutOfBounds | TooManyTerms | CanNotNegate.

(** Outcome of a [&mut self] method returning [Result<(), TryAddError>]: the value of
    [self] afterwards, and the error if any. *)
Definition mutres (P : Type) := res (P * option try_add_err).

(** traits.rs 48-50: SizedPolynomial::is_zero, [self.degree() == Degree::NegInf]. *)
Definition degree_is_zero (d : degree) : bool := degree_eqb d NegInf.

(** [filter_map] over [iter().enumerate()] dropping zero coefficients and pairing the others
    with [deg - index] (usize subtraction): polynomial.rs 175-181, binomial.rs 43-49,
    trinomial.rs 45-51, array_polynomial.rs 200-206.  [i] is the index of the head of [l]. *)
Fixpoint enum_terms {T} (O : num T) (deg : N) (i : nat) (l : list T) : res (list (T * N)) :=
  match l with
  | [] => Ok []
  | c :: l' =>
    if is_zero O c then enum_terms O deg (S i) l'
    else d <- usub (n_chk O) deg (N.of_nat i) ;;
         ts <- enum_terms O deg (S i) l' ;;
         Ok ((c, d) :: ts)
  end.
