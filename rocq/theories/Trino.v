(** /repo/src/polynomial/trinomial.rs: [QuadraticTrinomial<N>].  The array [coefficients] is a
    record of three fields, index 0 (x^2), 1 (x), 2 (constant).  Roots and factors are in Roots.v. *)

From Coq Require Import List NArith ZArith Bool.
From Verif Require Import Base Num Terms Dense.
Import ListNotations.

(** trinomial.rs 20-22 *)
Record trino (T : Type) := MkTrino { tc0 : T; tc1 : T; tc2 : T }.
Arguments MkTrino {T}. Arguments tc0 {T}. Arguments tc1 {T}. Arguments tc2 {T}.

Section Trino.
Context {T : Type} (O : num T).

Definition trino_list (b : trino T) : list T := [tc0 b; tc1 b; tc2 b].

(** trinomial.rs 41-52: ordered_term_iter; 131-133 terms_as_vec *)
Definition trino_terms (b : trino T) : res (list (T * N)) := enum_terms O 2 0 (trino_list b).

(** trinomial.rs 127-129: term_with_degree *)
Definition trino_term_with_degree (b : trino T) (d : N) : res (term T) := term_with_deg O (trino_list b) d.

(** trinomial.rs 150-160: degree *)
Definition trino_degree (b : trino T) : degree :=
  if negb (is_zero O (tc0 b)) then Num 2 else if negb (is_zero O (tc1 b)) then Num 1
  else if negb (is_zero O (tc2 b)) then Num 0 else NegInf.
Definition trino_is_zero (b : trino T) : bool := degree_is_zero (trino_degree b).

(** trinomial.rs 170-172, 185-187 *)
Definition trino_zero : trino T := MkTrino (zero O) (zero O) (zero O).

(** [self.coefficients[2 - degree] = f(...)] for degree <= 2 *)
Definition trino_update (b : trino T) (d : N) (f : T -> res T) : res (trino T) :=
  i <- usub (n_chk O) 2 d ;;
  match i with
  | 0%N => c <- f (tc0 b) ;; Ok (MkTrino c (tc1 b) (tc2 b))
  | 1%N => c <- f (tc1 b) ;; Ok (MkTrino (tc0 b) c (tc2 b))
  | 2%N => c <- f (tc2 b) ;; Ok (MkTrino (tc0 b) (tc1 b) c)
  | _ => Panic PIndex
  end.

(** trinomial.rs 194-201: try_add_term *)
Definition trino_try_add_term (b : trino T) (c : T) (d : N) : mutres (trino T) :=
  if (d <=? 2)%N then b' <- trino_update b d (fun x => add O x c) ;; Ok (b', None)
  else Ok (b, Some DegreeOutOfBounds).
(** trinomial.rs 203-210: try_sub_term *)
Definition trino_try_sub_term (b : trino T) (c : T) (d : N) : mutres (trino T) :=
  if (d <=? 2)%N then b' <- trino_update b d (fun x => sub O x c) ;; Ok (b', None)
  else Ok (b, Some DegreeOutOfBounds).

(** trinomial.rs 227-229: eval *)
Definition trino_eval (b : trino T) (point : T) : res T :=
  p <- mul O (tc0 b) point ;; s <- add O p (tc1 b) ;; q <- mul O point s ;; add O q (tc2 b).

(** trinomial.rs 245-252: derivative *)
Definition trino_derivative (b : trino T) : res (trino T) :=
  two <- expect (of_exact O 2) ;; c <- mul O (tc0 b) two ;;
  Ok (MkTrino (zero O) c (tc1 b)).

(** trinomial.rs 279-288: integral (a Polynomial) *)
Definition trino_integral (b : trino T) : res (list T) :=
  three <- expect (of_exact O 3) ;; x <- div O (tc0 b) three ;;
  two <- expect (of_exact O 2) ;; y <- div O (tc1 b) two ;;
  dense_new O [x; y; tc2 b; zero O].

(** trinomial.rs 316-318: eq *)
Definition trino_eq (a b : trino T) : bool :=
  eqb O (tc0 a) (tc0 b) && (eqb O (tc1 a) (tc1 b) && eqb O (tc2 a) (tc2 b)).

(** componentwise operations: trinomial.rs 342-348 neg; 357-363, 370-374 Sub(Assign);
    383-389, 393-397 Add(Assign); 436-442, 446-450 Mul(Assign)<N>; 456-462, 466-470 Div(Assign)<N> *)
Definition trino_map (f : T -> res T) (b : trino T) : res (trino T) :=
  x <- f (tc0 b) ;; y <- f (tc1 b) ;; z <- f (tc2 b) ;; Ok (MkTrino x y z).
Definition trino_map2 (f : T -> T -> res T) (a b : trino T) : res (trino T) :=
  x <- f (tc0 a) (tc0 b) ;; y <- f (tc1 a) (tc1 b) ;; z <- f (tc2 a) (tc2 b) ;; Ok (MkTrino x y z).
Definition trino_neg (b : trino T) := trino_map (neg O) b.
Definition trino_sub (a b : trino T) := trino_map2 (sub O) a b.
Definition trino_add (a b : trino T) := trino_map2 (add O) a b.
Definition trino_scale (b : trino T) (c : T) := trino_map (fun x => mul O x c) b.
Definition trino_div_scalar (b : trino T) (c : T) := trino_map (fun x => div O x c) b.

(** trinomial.rs 527-534: Shr<u32>; 538-557: ShrAssign<u32> (same effect) *)
Definition trino_shr (b : trino T) (k : N) : trino T :=
  match k with
  | 0%N => b
  | 1%N => MkTrino (zero O) (tc0 b) (tc1 b)
  | 2%N => MkTrino (zero O) (zero O) (tc0 b)
  | _ => trino_zero
  end.

End Trino.
