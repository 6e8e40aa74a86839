(** The coefficient type: the operations required by the trait bounds of the crate, and
    the built-in integer types.

    Modelled: /repo/src/numerics.rs 1-150 (IsNegativeOne, Abs, PowUsize, IsPositive),
    242-269 (CanNegate), 350-499 (TryFromUsizeContinuous, TryFromUsizeExact), and the
    primitive operators [+ - * / - ==] and [num::{Zero, One}].
    The [AbsSqrt] and [Cbrt] traits are in Numerics.v / Roots.v, [FromStr]/[Display] in Strs.v. *)

From Coq Require Import List NArith ZArith Lia Bool Eqdep_dec.
From Coq Require Import ZifyBool ZifyNat ZifyN.
From Verif Require Import Base.
Import ListNotations.

(** The trait bounds on [N] collected in one record. *)
Record num (T : Type) := MkNum {
  n_chk : bool;                      (* overflow checks enabled (also for usize) *)
  n_max_len : N;                     (* isize::MAX / size_of::<N>() *)
  zero : T;                          (* num::Zero::zero *)
  one : T;                           (* num::One::one *)
  is_zero : T -> bool;               (* num::Zero::is_zero *)
  add : T -> T -> res T;             (* +, += *)
  sub : T -> T -> res T;             (* -, -= *)
  mul : T -> T -> res T;             (* *, *= *)
  div : T -> T -> res T;             (* /, /= *)
  neg : T -> res T;                  (* unary - *)
  eqb : T -> T -> bool;              (* == *)
  is_pos : T -> bool;                (* IsPositive, numerics.rs 123-150 *)
  absv : T -> res T;                 (* Abs, numerics.rs 45-82 *)
  is_neg_one : T -> bool;            (* IsNegativeOne, numerics.rs 3-43 *)
  upow : T -> N -> res T;            (* PowUsize, numerics.rs 84-121 *)
  can_negate : bool;                 (* CanNegate, numerics.rs 242-269 *)
  of_cont : N -> option T;           (* TryFromUsizeContinuous, numerics.rs 350-422 *)
  of_exact : N -> option T           (* TryFromUsizeExact, numerics.rs 424-499 *)
}.
Arguments n_chk {T}. Arguments n_max_len {T}. Arguments zero {T}. Arguments one {T}.
Arguments is_zero {T}. Arguments add {T}. Arguments sub {T}. Arguments mul {T}.
Arguments div {T}. Arguments neg {T}. Arguments eqb {T}. Arguments is_pos {T}.
Arguments absv {T}. Arguments is_neg_one {T}. Arguments upow {T}. Arguments can_negate {T}.
Arguments of_cont {T}. Arguments of_exact {T}.

(** [Option/Result::expect] *)
Definition expect {A} (o : option A) : res A :=
  match o with Some a => Ok a | None => Panic PExpect end.

(** ** Built-in integers *)

Inductive ity := I8 | I16 | I32 | I64 | I128 | Isize | U8 | U16 | U32 | U64 | U128 | Usize.

Definition signed (t : ity) : bool :=
  match t with I8 | I16 | I32 | I64 | I128 | Isize => true | _ => false end.

Definition bits (t : ity) : Z :=
  match t with
  | I8 | U8 => 8 | I16 | U16 => 16 | I32 | U32 => 32
  | I64 | U64 | Isize | Usize => 64 | I128 | U128 => 128
  end.

Definition imin (t : ity) : Z := if signed t then (- 2 ^ (bits t - 1))%Z else 0%Z.
Definition imax (t : ity) : Z := if signed t then (2 ^ (bits t - 1) - 1)%Z else (2 ^ bits t - 1)%Z.
Definition imod (t : ity) : Z := (2 ^ bits t)%Z.

Definition in_range (t : ity) (z : Z) : bool := (imin t <=? z)%Z && (z <=? imax t)%Z.

(** Two's complement reduction ([as] casts, and arithmetic without overflow checks). *)
Definition wrap (t : ity) (z : Z) : Z :=
  (imin t + (z - imin t) mod imod t)%Z.

(** A value of the type: an integer in its range. *)
Record int (t : ity) := MkInt { ival : Z; ival_ok : in_range t ival = true }.
Arguments ival {t}. Arguments ival_ok {t}.

Lemma imin_max t : (imin t + imod t - 1 = imax t)%Z /\ (0 < imod t)%Z /\ (imin t <= 0 <= imax t)%Z
  /\ (1 <= imax t)%Z.
Proof. destruct t; vm_compute; repeat split; intros; discriminate. Qed.

Lemma in_range_iff t z : in_range t z = true <-> (imin t <= z <= imax t)%Z.
Proof. unfold in_range. lia. Qed.

Lemma wrap_ok t z : in_range t (wrap t z) = true.
Proof.
  apply in_range_iff. unfold wrap. destruct (imin_max t) as (H1 & H2 & _).
  pose proof (Z.mod_pos_bound (z - imin t) (imod t) H2). lia.
Qed.

Lemma wrap_id t z : in_range t z = true -> wrap t z = z.
Proof.
  intros H. apply in_range_iff in H. unfold wrap. destruct (imin_max t) as (H1 & H2 & _).
  rewrite Z.mod_small; lia.
Qed.

Definition mk_int (t : ity) (z : Z) : int t := MkInt t (wrap t z) (wrap_ok t z).

Lemma int_eq t (a b : int t) : ival a = ival b -> a = b.
Proof.
  destruct a as [x Hx], b as [y Hy]; simpl. intros <-. f_equal.
  apply UIP_dec, bool_dec.
Qed.

Lemma mk_int_ival t (a : int t) : mk_int t (ival a) = a.
Proof. apply int_eq. simpl. apply wrap_id, ival_ok. Qed.

Lemma ival_mk_int t z : in_range t z = true -> ival (mk_int t z) = z.
Proof. intros H. simpl. apply wrap_id, H. Qed.

(** Result of an integer operator whose exact result is [z]: panic on overflow when
    overflow checks are enabled, otherwise wrap. *)
Definition arith (chk : bool) (t : ity) (z : Z) : res (int t) :=
  if in_range t z then Ok (mk_int t z)
  else if chk then Panic POverflow else Ok (mk_int t z).

(** [/] on integers: division by zero panics, [MIN / -1] panics whether or not overflow
    checks are enabled, otherwise truncation toward zero. *)
Definition idiv (t : ity) (a b : int t) : res (int t) :=
  if (ival b =? 0)%Z then Panic PDivZero
  else if in_range t (Z.quot (ival a) (ival b)) then Ok (mk_int t (Z.quot (ival a) (ival b)))
  else Panic POverflow.

(** [core] integer [pow]: square and multiply,
    [while exp > 1 { if exp & 1 == 1 { acc *= base } exp /= 2; base *= base } acc * base],
    and [1] for exponent 0. *)
Fixpoint ipow_loop (chk : bool) (t : ity) (e : positive) (base acc : int t) : res (int t) :=
  let imul a b := arith chk t (ival a * ival b) in
  match e with
  | xH => imul acc base
  | xO e' => b2 <- imul base base ;; ipow_loop chk t e' b2 acc
  | xI e' => a2 <- imul acc base ;; b2 <- imul base base ;; ipow_loop chk t e' b2 a2
  end.
Definition ipow (chk : bool) (t : ity) (b : int t) (e : N) : res (int t) :=
  match e with N0 => Ok (mk_int t 1) | Npos p => ipow_loop chk t p b (mk_int t 1) end.

(** numerics.rs 88-96: [self.pow(exp as u32)]. *)
Definition iupow (chk : bool) (t : ity) (b : int t) (e : N) : res (int t) :=
  ipow chk t b (e mod 2 ^ 32).

(** numerics.rs 381-422 and 458-499 (the two traits have the same integer impls):
    unsigned types at least as wide as usize, and signed types wider than usize, always
    succeed; otherwise compare with MAX.  There is no impl for isize and usize (modelled
    as failure; derivative and integral are not available for them). *)
Definition iof_usize (t : ity) (n : N) : option (int t) :=
  match t with
  | Isize | Usize => None
  | _ =>
    if (if signed t then 64 <? bits t else 64 <=? bits t)%Z then Some (mk_int t (Z.of_N n))
    else if (imax t <? Z.of_N n)%Z then None else Some (mk_int t (Z.of_N n))
  end.

(** The numeric type [t] with ([chk = true]) or without overflow checks.
    Unary minus is only available for signed types in Rust; for unsigned types [neg] is
    never called by code that type checks. *)
Definition int_num (chk : bool) (t : ity) : num (int t) := {|
  n_chk := chk;
  n_max_len := Z.to_N ((2 ^ 63 - 1) / (bits t / 8));
  zero := mk_int t 0;
  one := mk_int t 1;
  is_zero := fun a => (ival a =? 0)%Z;
  add := fun a b => arith chk t (ival a + ival b);
  sub := fun a b => arith chk t (ival a - ival b);
  mul := fun a b => arith chk t (ival a * ival b);
  div := idiv t;
  neg := fun a => arith chk t (- ival a);
  eqb := fun a b => (ival a =? ival b)%Z;
  is_pos := fun a => (0 <? ival a)%Z;
  absv := fun a => if signed t then arith chk t (Z.abs (ival a)) else Ok a;
  is_neg_one := fun a => if signed t then (ival a =? -1)%Z else false;
  upow := iupow chk t;
  can_negate := signed t;
  of_cont := iof_usize t;
  of_exact := iof_usize t
|}.
