(** /repo/src/numerics.rs 152-212: [AbsSqrt] for the built-in integers.  (The other traits of
    numerics.rs are fields of [num] in Num.v; the float impls are in Floats.v and Roots.v.) *)

From Coq Require Import List NArith ZArith Lia Bool.
From Verif Require Import Base Num.
Import ListNotations.
Local Open Scope Z_scope.

(** The unsigned type of the same width (numerics.rs 206-211: i8/u8, i16/u16, ...). *)
Definition unsigned_of (t : ity) : ity :=
  match t with I8 => U8 | I16 => U16 | I32 => U32 | I64 => U64 | I128 => U128 | Isize => Usize | u => u end.

(** [x as U] between integer types: two's complement reduction. *)
Definition icast {t} (u : ity) (a : int t) : int u := mk_int u (ival a).

(** numerics.rs 165, 175: [(guess + self / guess) / 2] *)
Definition newton (chk : bool) (t : ity) (n guess : int t) : res (int t) :=
  q <- idiv t n guess ;;
  s <- arith chk t (ival guess + ival q) ;;
  idiv t s (mk_int t 2).

(** numerics.rs 166-176: the loop, left with the final [res]. *)
Fixpoint newton_loop (chk : bool) (t : ity) (fuel : nat) (n guess res_ : int t) : res (int t) :=
  match fuel with
  | O => Fuel
  | S f =>
    stop <- (if ival res_ >? ival guess
             then d <- arith chk t (ival res_ - ival guess) ;; Ok (ival d <=? 1)
             else d <- arith chk t (ival guess - ival res_) ;; Ok (ival d <=? 1)) ;;
    if (stop : bool) then Ok res_
    else r <- newton chk t n res_ ;; newton_loop chk t f n res_ r
  end.

(** numerics.rs 178-180: [while res * res > self { res -= 1 }] *)
Fixpoint fix_down (chk : bool) (t : ity) (fuel : nat) (n r : int t) : res (int t) :=
  match fuel with
  | O => Fuel
  | S f =>
    sq <- arith chk t (ival r * ival r) ;;
    if ival sq >? ival n then r' <- arith chk t (ival r - 1) ;; fix_down chk t f n r' else Ok r
  end.

(** Number of bits of a non-negative value: [bits - leading_zeros()]. *)
Definition bit_length (z : Z) : Z := if z =? 0 then 0 else Z.log2 z + 1.

(** numerics.rs 156-189: [abs_sqrt] of an unsigned type.  [zero().count_zeros()] is the width of the
    type; the subtraction of leading zeros is exact, and so is [>>] by less than the width. *)
Definition abs_sqrt_u (chk : bool) (t : ity) (fuel : nat) (n : int t) : res (int t) :=
  if ival n <? 2 then Ok n
  else
    let shift := bit_length (ival n) in
    guess <- arith chk t (Z.shiftr (ival n) (shift / 2) + 1) ;;
    r <- newton chk t n guess ;;
    r' <- newton_loop chk t fuel n guess r ;;
    fix_down chk t fuel n r'.

(** numerics.rs 191-199: [(self.abs() as U).abs_sqrt() as T]; unsigned types use the above. *)
Definition abs_sqrt_int (chk : bool) (t : ity) (fuel : nat) (n : int t) : res (int t) :=
  if signed t then
    a <- arith chk t (Z.abs (ival n)) ;;
    r <- abs_sqrt_u chk (unsigned_of t) fuel (icast (unsigned_of t) a) ;;
    Ok (icast t r)
  else abs_sqrt_u chk t fuel n.
