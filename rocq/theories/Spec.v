(** Specification, independent of the model: polynomials over a commutative ring as
    coefficient functions [nat -> R] (argument = exponent). *)

From Coq Require Import List NArith ZArith Ring_theory Sorted.
Import ListNotations.

(** Commutative rings with Leibniz equality. *)
Record comring := MkComring {
  car : Type;
  r0 : car;
  r1 : car;
  radd : car -> car -> car;
  rmul : car -> car -> car;
  rsub : car -> car -> car;
  ropp : car -> car;
  r_theory : ring_theory r0 r1 radd rmul rsub ropp eq
}.
Arguments r0 {c}. Arguments r1 {c}. Arguments radd {c}. Arguments rmul {c}.
Arguments rsub {c}. Arguments ropp {c}.

Definition poly (R : comring) := nat -> car R.

Section Spec.
Context {R : comring}.

(** Image of a natural number in the ring: 1 + 1 + ... *)
Fixpoint of_nat (n : nat) : car R :=
  match n with O => r0 | S n' => radd r1 (of_nat n') end.

(** x^n *)
Fixpoint rpow (x : car R) (n : nat) : car R :=
  match n with O => r1 | S n' => rmul x (rpow x n') end.

(** f 0 + ... + f (n-1) *)
Fixpoint sumn (f : nat -> car R) (n : nat) : car R :=
  match n with O => r0 | S n' => radd (sumn f n') (f n') end.

(** Equality of polynomials. *)
Definition peq (a b : poly R) : Prop := forall d, a d = b d.

Definition pzero : poly R := fun _ => r0.
Definition pone : poly R := fun d => match d with O => r1 | S _ => r0 end.
Definition padd (a b : poly R) : poly R := fun d => radd (a d) (b d).
Definition psub (a b : poly R) : poly R := fun d => rsub (a d) (b d).
Definition popp (a : poly R) : poly R := fun d => ropp (a d).
Definition pscale (a : poly R) (c : car R) : poly R := fun d => rmul (a d) c.

(** c x^k *)
Definition pmono (c : car R) (k : nat) : poly R := fun d => if Nat.eqb d k then c else r0.

(** Cauchy product. *)
Definition pmul (a b : poly R) : poly R :=
  fun d => sumn (fun i => rmul (a i) (b (d - i))) (S d).

Fixpoint ppow (a : poly R) (n : nat) : poly R :=
  match n with O => pone | S n' => pmul a (ppow a n') end.

(** Formal derivative. *)
Definition pderiv (a : poly R) : poly R := fun d => rmul (of_nat (S d)) (a (S d)).

(** Multiplication by x^k, and division by x^k dropping lower terms. *)
Definition pshl (a : poly R) (k : nat) : poly R :=
  fun d => if Nat.ltb d k then r0 else a (d - k).
Definition pshr (a : poly R) (k : nat) : poly R := fun d => a (d + k).

(** [v] is the value of [a] at [x]: the (finite) sum of all a_i x^i. *)
Definition is_value (a : poly R) (x v : car R) : Prop :=
  exists n, (forall i, n <= i -> a i = r0) /\ v = sumn (fun i => rmul (a i) (rpow x i)) n.

(** Largest exponent with a non-zero coefficient; [None] for the zero polynomial. *)
Definition is_degree (a : poly R) (g : option nat) : Prop :=
  match g with
  | None => forall d, a d = r0
  | Some n => a n <> r0 /\ forall d, n < d -> a d = r0
  end.

(** The polynomial with coefficients [l], highest exponent first. *)
Definition be_coef (l : list (car R)) : poly R := fun d => nth d (rev l) r0.

(** The sum of a list of terms (coefficient, exponent). *)
Fixpoint terms_coef (l : list (car R * N)) : poly R :=
  match l with
  | [] => pzero
  | (c, k) :: l' => padd (pmono c (N.to_nat k)) (terms_coef l')
  end.

(** [ts] lists the non-zero terms of [p], highest exponent first. *)
Definition is_listing (p : poly R) (ts : list (car R * N)) : Prop :=
  StronglySorted (fun a b => (snd b < snd a)%N) ts /\
  Forall (fun t => fst t <> r0) ts /\
  peq (terms_coef ts) p.

End Spec.
