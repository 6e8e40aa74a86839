(** /repo/src/polynomial/monomial.rs: [Monomial<N>]. *)

From Coq Require Import List NArith ZArith Bool.
From Verif Require Import Base Num Terms Sparse.
Import ListNotations.

(** monomial.rs 20-23 *)
Record mono (T : Type) := MkMono { mcoef : T; mdeg : N }.
Arguments MkMono {T}. Arguments mcoef {T}. Arguments mdeg {T}.

Section Mono.
Context {T : Type} (O : num T).

(** monomial.rs 45-52: ordered_term_iter; 80-82 terms_as_vec *)
Definition mono_terms (m : mono T) : list (T * N) :=
  if is_zero O (mcoef m) then [] else [(mcoef m, mdeg m)].

(** monomial.rs 56-58: as_term *)
Definition mono_as_term (m : mono T) : term T := term_new O (mcoef m) (mdeg m).

(** monomial.rs 72-78: term_with_degree *)
Definition mono_term_with_degree (m : mono T) (d : N) : term T :=
  if (d =? mdeg m)%N then term_new O (mcoef m) (mdeg m) else ZeroTerm.

(** monomial.rs 97-103: degree *)
Definition mono_degree (m : mono T) : degree :=
  if is_zero O (mcoef m) then NegInf else Num (mdeg m).
Definition mono_is_zero (m : mono T) : bool := degree_is_zero (mono_degree m).

(** monomial.rs 113-115: zero *)
Definition mono_zero : mono T := MkMono (zero O) 0.
(** monomial.rs 128-130: set_to_zero *)
Definition mono_set_to_zero (m : mono T) : mono T := MkMono (zero O) (mdeg m).

(** monomial.rs 137-148: try_add_term *)
Definition mono_try_add_term (m : mono T) (c : T) (d : N) : mutres (mono T) :=
  if mono_is_zero m then c' <- add O (mcoef m) c ;; Ok (MkMono c' d, None)
  else if (d =? mdeg m)%N then c' <- add O (mcoef m) c ;; Ok (MkMono c' (mdeg m), None)
  else Ok (m, Some TooManyTerms).

(** monomial.rs 150-161: try_sub_term *)
Definition mono_try_sub_term (m : mono T) (c : T) (d : N) : mutres (mono T) :=
  if mono_is_zero m then c' <- sub O (mcoef m) c ;; Ok (MkMono c' d, None)
  else if (d =? mdeg m)%N then c' <- sub O (mcoef m) c ;; Ok (MkMono c' (mdeg m), None)
  else Ok (m, Some TooManyTerms).

(** monomial.rs 178-180: eval *)
Definition mono_eval (m : mono T) (point : T) : res T :=
  pw <- upow O point (mdeg m) ;; mul O (mcoef m) pw.

(** monomial.rs 222-232: derivative *)
Definition mono_derivative (m : mono T) : res (mono T) :=
  match mono_degree m with
  | NegInf | Num 0 => Ok mono_zero
  | Num x =>
    n <- expect (of_exact O x) ;; c <- mul O (mcoef m) n ;;
    d <- usub (n_chk O) x 1 ;; Ok (MkMono c d)
  end.

(** monomial.rs 257-265: integral (a SparsePolynomial) *)
Definition mono_integral (m : mono T) : res (bmap T) :=
  match mono_degree m with
  | NegInf => Ok []
  | Num x =>
    x1 <- uadd (n_chk O) x 1 ;;
    n <- expect (of_exact O x1) ;;
    c <- div O (mcoef m) n ;;
    x2 <- uadd (n_chk O) x 1 ;;
    sparse_from_terms O [(c, x2)]
  end.

(** monomial.rs 281-283: pow *)
Definition mono_pow (m : mono T) (e : N) : res (mono T) :=
  c <- upow O (mcoef m) e ;; d <- umul (n_chk O) (mdeg m) e ;; Ok (MkMono c d).

(** monomial.rs 304-306: eq *)
Definition mono_eq (a b : mono T) : bool := term_eqb O (mono_as_term a) (mono_as_term b).

(** monomial.rs 309-313: From<N> *)
Definition mono_from (c : T) : mono T := MkMono c 0.

(** monomial.rs 344-346: neg *)
Definition mono_neg (m : mono T) : res (mono T) := c <- neg O (mcoef m) ;; Ok (MkMono c (mdeg m)).

(** monomial.rs 443-445, 458-460 (Mul); 449-452, 467-470 (MulAssign) *)
Definition mono_mul (a b : mono T) : res (mono T) :=
  c <- mul O (mcoef a) (mcoef b) ;; d <- uadd (n_chk O) (mdeg a) (mdeg b) ;; Ok (MkMono c d).

(** monomial.rs 476-478, 482-484 *)
Definition mono_scale (m : mono T) (c : T) : res (mono T) :=
  c' <- mul O (mcoef m) c ;; Ok (MkMono c' (mdeg m)).
(** monomial.rs 490-492, 496-498 *)
Definition mono_div_scalar (m : mono T) (c : T) : res (mono T) :=
  c' <- div O (mcoef m) c ;; Ok (MkMono c' (mdeg m)).

(** monomial.rs 504-510 Shl, 526-537 Shr; 514-520 ShlAssign, 541-553 ShrAssign (same effect) *)
Fixpoint mono_shift (fuel : nat) (left : bool) (m : mono T) (k : Z) : res (mono T) :=
  match fuel with
  | 0%nat => Fuel
  | S f =>
    if (k <? 0)%Z then k' <- neg_i32 (n_chk O) k ;; mono_shift f (negb left) m k'
    else
      let rhs := Z.to_N k in
      if left then d <- uadd (n_chk O) (mdeg m) rhs ;; Ok (MkMono (mcoef m) d)
      else if (mdeg m <? rhs)%N then Ok mono_zero
      else d <- usub (n_chk O) (mdeg m) rhs ;; Ok (MkMono (mcoef m) d)
  end.

End Mono.
