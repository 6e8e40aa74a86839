(** The coefficient types [f32] and [f64].

    Modelled with Flocq's IEEE-754 binary floating point (round to nearest even); NaN payloads
    and signs are not modelled.  [powi] is not specified by Rust, so it is an arbitrary argument. *)

From Coq Require Import List NArith ZArith Reals Lia Lra Bool.
From Flocq Require Import Core BinarySingleNaN.
From Verif Require Import Base Num.
Import ListNotations.
Local Open Scope Z_scope.

Inductive fty := F32 | F64.

Definition fprec (f : fty) : Z := match f with F32 => 24 | F64 => 53 end.
Definition femax (f : fty) : Z := match f with F32 => 128 | F64 => 1024 end.
Definition fbytes (f : fty) : Z := match f with F32 => 4 | F64 => 8 end.

Lemma fprec_pos f : Prec_gt_0 (fprec f).
Proof. destruct f; reflexivity. Qed.
Lemma fprec_emax f : Prec_lt_emax (fprec f) (femax f).
Proof. destruct f; reflexivity. Qed.
#[export] Existing Instance fprec_pos.
#[export] Existing Instance fprec_emax.

Definition flt (f : fty) : Type := binary_float (fprec f) (femax f).

Section Ops.
Context {f : fty}.

(** [x as f32], [x as f64] of an integer: nearest value, ties to even. *)
Definition f_of_Z (z : Z) : flt f := binary_normalize (fprec f) (femax f) _ _ mode_NE z 0 false.

Definition fadd (a b : flt f) : flt f := Bplus mode_NE a b.
Definition fsub (a b : flt f) : flt f := Bminus mode_NE a b.
Definition fmul (a b : flt f) : flt f := Bmult mode_NE a b.
Definition fdiv (a b : flt f) : flt f := Bdiv mode_NE a b.
Definition fneg (a : flt f) : flt f := Bopp a.
Definition feqb (a b : flt f) : bool := Beqb a b.
Definition fzero : flt f := B754_zero false.

(** [a as usize]: truncation, saturating at the ends of the range, NaN to 0. *)
Definition f_to_usize (a : flt f) : N :=
  match a with
  | B754_nan => 0
  | B754_zero _ => 0
  | B754_infinity s => if s then 0 else USIZE_MAX
  | B754_finite _ _ _ _ => N.min (Z.to_N (Btrunc a)) USIZE_MAX
  end%N.

End Ops.
Arguments f_of_Z f z : clear implicits.
Arguments fzero f : clear implicits.

(** numerics.rs 361-379: [num > 2 << 23] / [num > 2 << 51] is refused. *)
Definition f_cont_limit (f : fty) : N := match f with F32 => N.shiftl 2 23 | F64 => N.shiftl 2 51 end.
Definition f_of_cont (f : fty) (n : N) : option (flt f) :=
  if (f_cont_limit f <? n)%N then None else Some (f_of_Z f (Z.of_N n)).

(** numerics.rs 436-456: convert there and back and compare. *)
Definition f_of_exact (f : fty) (n : N) : option (flt f) :=
  let conv := f_of_Z f (Z.of_N n) in
  if (f_to_usize conv =? n)%N then Some conv else None.

(** The trait impls for f32/f64: numerics.rs 3-43, 45-82, 108-121, 123-150, 242-269;
    [num::Zero::is_zero] is [== 0.].  [chk]: overflow checks on usize. *)
Definition float_num (chk : bool) (f : fty) (powi : flt f -> N -> flt f) : num (flt f) := {|
  n_chk := chk;
  n_max_len := Z.to_N ((2 ^ 63 - 1) / fbytes f);
  zero := fzero f;
  one := f_of_Z f 1;
  is_zero := fun a => feqb a (fzero f);
  add := fun a b => Ok (fadd a b);
  sub := fun a b => Ok (fsub a b);
  mul := fun a b => Ok (fmul a b);
  div := fun a b => Ok (fdiv a b);
  neg := fun a => Ok (fneg a);
  eqb := feqb;
  is_pos := fun a => Bltb (fzero f) a;
  absv := fun a => Ok (Babs a);
  is_neg_one := fun a => feqb a (f_of_Z f (-1));
  upow := fun a e => Ok (powi a e);
  can_negate := true;
  of_cont := f_of_cont f;
  of_exact := f_of_exact f
|}.
