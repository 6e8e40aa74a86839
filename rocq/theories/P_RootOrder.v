(** Property C99: the order in which the two real roots of a quadratic are returned. *)

From Coq Require Import List NArith ZArith Reals Lia Lra Psatz Bool.
From Flocq Require Import Core BinarySingleNaN.
From Verif Require Import Base Num Floats FloatFacts FloatErr SimInst Terms Numerics Bino Trino Roots FloatQuad P_Roots2 P_Roots3 P_FloatQuad P_IntFactors P_FloatFactors.
Import ListNotations.
Local Open Scope R_scope.

Section L.
Context (f : fty).

Lemma nonfinite_val (x : flt f) : is_finite x = false -> B2R x = 0.
Proof. destruct x; [reflexivity..|discriminate]. Qed.

Lemma finite_zero (x : flt f) : B2R x = 0 -> (exists s, x = B754_zero s) \/ (exists s, x = B754_infinity s) \/ x = B754_nan.
Proof.
  destruct x as [s|s| |s m e H]; intros E; [left; eauto|right; left; eauto|right; right; reflexivity|]. exfalso. revert E. cbn. unfold F2R. cbn.
  pose proof (bpow_gt_0 radix2 e) as B. pose proof (IZR_lt 0 (Z.pos m) (Pos2Z.is_pos m)) as M. destruct s; cbn.
  - change (Z.neg m) with (- Z.pos m)%Z. rewrite opp_IZR. nra.
  - nra.
Qed.

Lemma fdiv_zero_val (x y : flt f) : B2R x = 0 \/ B2R y = 0 -> B2R (fdiv x y) = 0.
Proof.
  intros [E|E]; destruct (finite_zero _ E) as [[s ->]|[[s ->]| ->]]; [destruct y|destruct y|destruct y|destruct x|destruct x|destruct x]; reflexivity.
Qed.

Lemma fdiv_nonneg (x y : flt f) : 0 <= B2R x -> (0 <= B2R y -> 0 <= B2R (fdiv x y)) /\ (B2R y <= 0 -> B2R (fdiv x y) <= 0).
Proof.
  intros Hx. destruct (Req_dec (B2R y) 0) as [E|E]; [rewrite fdiv_zero_val by auto; lra|].
  destruct (is_finite (fdiv x y)) eqn:F; [|rewrite (nonfinite_val _ F); lra].
  rewrite (fdiv_round x y E F). destruct (rnd_sign f (B2R x / B2R y)) as [P N]. split; intros Hy.
  - apply P. apply Rmult_le_pos; [exact Hx|]. apply Rlt_le, Rinv_0_lt_compat. lra.
  - apply N. assert (/ B2R y < 0) by (apply Rinv_lt_0_compat; lra). unfold Rdiv. nra.
Qed.

Lemma double_val_sign (a : flt f) : (0 <= B2R a -> 0 <= B2R (fmul a (f_of_Z f 2))) /\ (B2R a <= 0 -> B2R (fmul a (f_of_Z f 2)) <= 0).
Proof.
  destruct (is_finite (fmul a (f_of_Z f 2))) eqn:F; [|rewrite (nonfinite_val _ F); lra].
  rewrite (fmul_round _ _ F), two_val. destruct (rnd_sign f (B2R a * 2)) as [P N]. split; intros H; [apply P|apply N]; lra.
Qed.

Lemma abs_sqrt_nonneg (x : flt f) : 0 <= B2R (f_abs_sqrt x).
Proof.
  destruct (is_finite (f_abs_sqrt x)) eqn:F; [|rewrite (nonfinite_val _ F); lra].
  destruct (is_finite x) eqn:G.
  - destruct (sqrt_round x G) as [_ E]. rewrite E. apply (rnd_sign f). apply sqrt_pos.
  - destruct x; try discriminate G; discriminate F.
Qed.
End L.

(** ** C99 *)

(** Floats: with a positive leading coefficient the larger root comes first, with a negative
    one the smaller; for all coefficients, however inexact the roots are. *)
Theorem C99_float : forall f chk powi cb rd l (a b c x y : flt f),
  trino_roots (float_num chk f powi) (ieee_rops f cb rd l) (MkTrino a b c) = Ok (TwoRealRoots x y) ->
  is_finite x = true -> is_finite y = true ->
  (0 < B2R a -> B2R y <= B2R x) /\ (B2R a < 0 -> B2R x <= B2R y).
Proof.
  intros f chk powi cb rd l a b c x y. unfold trino_roots. cbn [tc0 tc1 tc2]. rewrite trinomial_roots_float. cbv zeta.
  set (D := fsub _ _). set (a2 := fmul a (f_of_Z f 2)). set (h := fdiv (fneg b) a2). set (q := fdiv (f_abs_sqrt D) a2).
  destruct (feqb D (fzero f)); [intros E; injection E as <- <-; lra|]. destruct (Bltb (fzero f) D); [|discriminate].
  intros E Fx Fy. injection E as <- <-. rewrite (fadd_round _ _ Fx), (fsub_round _ _ Fy).
  destruct (fdiv_nonneg f (f_abs_sqrt D) a2 (abs_sqrt_nonneg f D)) as [QP QN]. fold q in QP, QN. destruct (double_val_sign f a) as [AP AN]. fold a2 in AP, AN.
  split; intros Ha; apply round_le; try apply valid_rnd_N; try (apply FLT_exp_valid, fprec_pos).
  - specialize (QP (AP ltac:(lra))). lra.
  - specialize (QN (AN ltac:(lra))). lra.
Qed.

(** Signed integers. *)
Theorem C99_int : forall chk t fuel (a b c : int t), signed t = true -> t <> I8 -> (67 <= fuel)%nat ->
  no_overflow t (ival a) (ival b) (ival c) -> ival a <> 0%Z ->
  (0 <= ival b * ival b - 4 * ival a * ival c)%Z ->
  exists x y, trino_roots (int_num chk t) (int_rops chk t fuel) (MkTrino a b c) = Ok (TwoRealRoots x y) /\
    ((0 < ival a)%Z -> (ival y <= ival x)%Z) /\ ((ival a < 0)%Z -> (ival x <= ival y)%Z).
Proof.
  intros chk t fuel a b c Ht H8 Hfu HO Ha HD. destruct (wide_types t Ht H8) as [W1 W2].
  destruct (roots_int chk t fuel a b c Ht H8 Hfu HO Ha) as (Pos & _); [right; lia|].
  destruct (Pos HD) as (x & y & E & Ex & Ey). exists x, y. split; [exact E|]. rewrite Ex, Ey.
  set (k := Z.sqrt _). assert (K : (0 <= k)%Z) by apply Z.sqrt_nonneg. split; intros Hs.
  - assert (0 <= Z.quot k (2 * ival a))%Z by (apply Z.quot_pos; lia). lia.
  - assert (0 <= - Z.quot k (2 * ival a))%Z by (rewrite <- Z.quot_opp_r by lia; apply Z.quot_pos; lia). lia.
Qed.

(** So "largest first" is wrong for -2x^2 + 12x - 10, in i32 and in f64. *)
Theorem C99_refuted : forall chk powi cb rd l,
  (exists x y, trino_roots (int_num chk I32) (int_rops chk I32 67) (MkTrino (mk_int I32 (-2)) (mk_int I32 12) (mk_int I32 (-10))) = Ok (TwoRealRoots x y) /\
     ival x = 1%Z /\ ival y = 5%Z) /\
  (exists x y, trino_roots (float_num chk F64 powi) (ieee_rops F64 cb rd l) (MkTrino (f_of_Z F64 (-2)) (f_of_Z F64 12) (f_of_Z F64 (-10))) = Ok (TwoRealRoots x y) /\
     fint x 1 /\ fint y 5).
Proof.
  intros chk powi cb rd l. split.
  - destruct chk; eexists _, _; vm_compute; repeat split; reflexivity.
  - assert (I : forall z, (Z.abs z <= 2 ^ 53)%Z -> fint (f_of_Z F64 z) z) by (intros z Hz; apply fint_of_Z; exact Hz).
    destruct (C69_whole_roots F64 chk powi cb rd l (f_of_Z F64 (-2)) (f_of_Z F64 12) (f_of_Z F64 (-10)) (-2) 1 5) as (x & y & E & _ & N);
      [apply I; cbn; lia..|lia|unfold small_quadratic; cbn; lia|].
    exists x, y. split; [exact E|]. apply N. lia.
Qed.

(** The hypotheses of C99_float hold of x^2 + x - 6 in f32: 2, then -3. *)
Example C99_case : forall cb rd l, exists x y,
  trino_roots (float_num true F32 (fun x _ => x)) (ieee_rops F32 cb rd l) (MkTrino (f_of_Z F32 1) (f_of_Z F32 1) (f_of_Z F32 (-6))) = Ok (TwoRealRoots x y) /\
  fint x 2 /\ fint y (-3).
Proof.
  intros cb rd l. assert (I : forall z, (Z.abs z <= 2 ^ 24)%Z -> fint (f_of_Z F32 z) z) by (intros z Hz; apply fint_of_Z; exact Hz).
  destruct (C69_whole_roots F32 true (fun x _ => x) cb rd l (f_of_Z F32 1) (f_of_Z F32 1) (f_of_Z F32 (-6)) 1 2 (-3)) as (x & y & E & P & _);
    [apply I; cbn; lia..|lia|unfold small_quadratic; cbn; lia|].
  exists x, y. split; [exact E|]. apply P. lia.
Qed.

Print Assumptions C99_float.
Print Assumptions C99_int.
Print Assumptions C99_refuted.
