(** /repo/src/polynomial/binomial.rs: [LinearBinomial<N>].  The array [coefficients] is a
    record of two fields, index 0 (coefficient of x) and index 1 (constant). *)

From Coq Require Import List NArith ZArith Bool.
From Verif Require Import Base Num Terms Dense.
Import ListNotations.

(** binomial.rs 19-21 *)
Record bino (T : Type) := MkBino { bc0 : T; bc1 : T }.
Arguments MkBino {T}. Arguments bc0 {T}. Arguments bc1 {T}.

Section Bino.
Context {T : Type} (O : num T).

(** the array as a slice *)
Definition bino_list (b : bino T) : list T := [bc0 b; bc1 b].

(** binomial.rs 39-50: ordered_term_iter; 99-101 terms_as_vec *)
Definition bino_terms (b : bino T) : res (list (T * N)) := enum_terms O 1 0 (bino_list b).

(** binomial.rs 95-97: term_with_degree *)
Definition bino_term_with_degree (b : bino T) (d : N) : res (term T) := term_with_deg O (bino_list b) d.

(** binomial.rs 116-124: degree *)
Definition bino_degree (b : bino T) : degree :=
  if negb (is_zero O (bc0 b)) then Num 1 else if negb (is_zero O (bc1 b)) then Num 0 else NegInf.
Definition bino_is_zero (b : bino T) : bool := degree_is_zero (bino_degree b).

(** binomial.rs 136-138, 151-153: zero, set_to_zero *)
Definition bino_zero : bino T := MkBino (zero O) (zero O).

(** [self.coefficients[1 - degree] = f(...)] for degree <= 1 *)
Definition bino_update (b : bino T) (d : N) (f : T -> res T) : res (bino T) :=
  i <- usub (n_chk O) 1 d ;;
  match i with
  | 0%N => c <- f (bc0 b) ;; Ok (MkBino c (bc1 b))
  | 1%N => c <- f (bc1 b) ;; Ok (MkBino (bc0 b) c)
  | _ => Panic PIndex
  end.

(** binomial.rs 160-167: try_add_term *)
Definition bino_try_add_term (b : bino T) (c : T) (d : N) : mutres (bino T) :=
  if (d <=? 1)%N then b' <- bino_update b d (fun x => add O x c) ;; Ok (b', None)
  else Ok (b, Some DegreeOutOfBounds).
(** binomial.rs 169-176: try_sub_term *)
Definition bino_try_sub_term (b : bino T) (c : T) (d : N) : mutres (bino T) :=
  if (d <=? 1)%N then b' <- bino_update b d (fun x => sub O x c) ;; Ok (b', None)
  else Ok (b, Some DegreeOutOfBounds).

(** binomial.rs 193-195: eval *)
Definition bino_eval (b : bino T) (point : T) : res T :=
  p <- mul O point (bc0 b) ;; add O p (bc1 b).

(** binomial.rs 211-213: derivative *)
Definition bino_derivative (b : bino T) : bino T := MkBino (zero O) (bc0 b).

(** binomial.rs 239-246: integral (a Polynomial) *)
Definition bino_integral (b : bino T) : res (list T) :=
  two <- expect (of_cont O 2) ;;
  a <- div O (bc0 b) two ;;
  dense_new O [a; bc1 b; zero O].

(** binomial.rs 273-275: eq *)
Definition bino_eq (a b : bino T) : bool := eqb O (bc0 a) (bc0 b) && eqb O (bc1 a) (bc1 b).

(** componentwise operations: binomial.rs 295-297 neg; 306-311, 318-321 Sub(Assign);
    330-335, 339-342 Add(Assign); 381-383, 387-390 Mul(Assign)<N>; 396-398, 402-405 Div(Assign)<N> *)
Definition bino_map (f : T -> res T) (b : bino T) : res (bino T) :=
  x <- f (bc0 b) ;; y <- f (bc1 b) ;; Ok (MkBino x y).
Definition bino_map2 (f : T -> T -> res T) (a b : bino T) : res (bino T) :=
  x <- f (bc0 a) (bc0 b) ;; y <- f (bc1 a) (bc1 b) ;; Ok (MkBino x y).
Definition bino_neg (b : bino T) := bino_map (neg O) b.
Definition bino_sub (a b : bino T) := bino_map2 (sub O) a b.
Definition bino_add (a b : bino T) := bino_map2 (add O) a b.
Definition bino_scale (b : bino T) (c : T) := bino_map (fun x => mul O x c) b.
Definition bino_div_scalar (b : bino T) (c : T) := bino_map (fun x => div O x c) b.

(** binomial.rs 462-468: Shr<u32>; 472-484: ShrAssign<u32> (same effect) *)
Definition bino_shr (b : bino T) (k : N) : bino T :=
  match k with
  | 0%N => b
  | 1%N => MkBino (zero O) (bc0 b)
  | _ => bino_zero
  end.

End Bino.
