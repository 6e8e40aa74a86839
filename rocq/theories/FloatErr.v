(** Rounding errors of the float operations, and how they accumulate. *)

From Coq Require Import List NArith ZArith Reals Lia Lra Bool Arith.
From Flocq Require Import Core BinarySingleNaN Relative Plus_error.
From Verif Require Import Base Num Floats FloatFacts.
Import ListNotations.
Local Open Scope R_scope.

(** The unit roundoff, 2^-24 or 2^-53, and half of the smallest positive value. *)
Definition uro (f : fty) : R := bpow radix2 (- fprec f).
Definition eta (f : fty) : R := / 2 * bpow radix2 (SpecFloat.emin (fprec f) (femax f)).

Section Ops.
Context {f : fty}.
Notation prec := (fprec f).
Notation emax := (femax f).
Notation u := (uro f).
Notation fexp := (SpecFloat.fexp prec emax).
Notation rnd := (Generic_fmt.round radix2 fexp (round_mode mode_NE)).
Implicit Types a b x y : flt f.

Lemma uro_pos : 0 < u.
Proof. apply bpow_gt_0. Qed.
Lemma eta_pos : 0 < eta f.
Proof. unfold eta. pose proof (bpow_gt_0 radix2 (SpecFloat.emin prec emax)). lra. Qed.
Lemma uro_small : u <= / 16777216.
Proof.
  unfold uro. change (/ 16777216) with (bpow radix2 (-24)). apply bpow_le. pose proof (fsizes f). lia.
Qed.
Lemma u_ro_uro : u_ro radix2 prec / (1 + u_ro radix2 prec) <= u.
Proof.
  assert (E : u_ro radix2 prec = u).
  { unfold u_ro, uro. rewrite bpow_plus. change (bpow radix2 1) with 2. lra. }
  rewrite E. pose proof uro_pos as P. apply Rmult_le_reg_r with (1 + u); [lra|].
  unfold Rdiv. rewrite Rmult_assoc, Rinv_l by lra. nra.
Qed.

Lemma overflow_infinite x s : B2SF x = binary_overflow prec emax mode_NE s -> is_finite x = false.
Proof. intros H. rewrite <- is_finite_SF_B2SF, H. reflexivity. Qed.

Lemma fadd_operands a b : is_finite (fadd a b) = true -> is_finite a = true /\ is_finite b = true.
Proof. unfold fadd. destruct a as [s|s| |s m e H], b as [t|t| |t m' e' H']; simpl; auto; try discriminate; destruct s, t; try discriminate; auto. Qed.
Lemma fsub_operands a b : is_finite (fsub a b) = true -> is_finite a = true /\ is_finite b = true.
Proof. unfold fsub. destruct a as [s|s| |s m e H], b as [t|t| |t m' e' H']; simpl; auto; try discriminate; destruct s, t; try discriminate; auto. Qed.
Lemma fmul_operands a b : is_finite (fmul a b) = true -> is_finite a = true /\ is_finite b = true.
Proof. unfold fmul. destruct a as [s|s| |s m e H], b as [t|t| |t m' e' H']; simpl; auto; discriminate. Qed.

(** A finite result of an operation is the exact result correctly rounded. *)
Lemma fadd_round a b : is_finite (fadd a b) = true -> B2R (fadd a b) = rnd (B2R a + B2R b).
Proof.
  intros H. destruct (fadd_operands a b H) as [Ha Hb]. pose proof (Bplus_correct prec emax _ _ mode_NE a b Ha Hb) as K.
  destruct (Rlt_bool _ _); [apply K|]. destruct K as [K _]. apply overflow_infinite in K. unfold fadd in H. congruence.
Qed.
Lemma fsub_round a b : is_finite (fsub a b) = true -> B2R (fsub a b) = rnd (B2R a - B2R b).
Proof.
  intros H. destruct (fsub_operands a b H) as [Ha Hb]. pose proof (Bminus_correct prec emax _ _ mode_NE a b Ha Hb) as K.
  destruct (Rlt_bool _ _); [apply K|]. destruct K as [K _]. apply overflow_infinite in K. unfold fsub in H. congruence.
Qed.
Lemma fmul_round a b : is_finite (fmul a b) = true -> B2R (fmul a b) = rnd (B2R a * B2R b).
Proof.
  intros H. pose proof (Bmult_correct prec emax _ _ mode_NE a b) as K.
  destruct (Rlt_bool _ _); [apply K|]. apply overflow_infinite in K. unfold fmul in H. congruence.
Qed.
Lemma fdiv_round a b : B2R b <> 0 -> is_finite (fdiv a b) = true -> B2R (fdiv a b) = rnd (B2R a / B2R b).
Proof.
  intros Hb H. pose proof (Bdiv_correct prec emax _ _ mode_NE a b Hb) as K.
  destruct (Rlt_bool _ _); [apply K|]. apply overflow_infinite in K. unfold fdiv in H. congruence.
Qed.

(** It is finite when the rounded value is in range. *)
Lemma fadd_finite a b : is_finite a = true -> is_finite b = true -> Rabs (rnd (B2R a + B2R b)) < bpow radix2 emax ->
  is_finite (fadd a b) = true.
Proof.
  intros Ha Hb H. pose proof (Bplus_correct prec emax _ _ mode_NE a b Ha Hb) as K.
  rewrite Rlt_bool_true in K by exact H. apply K.
Qed.
Lemma fmul_finite a b : is_finite a = true -> is_finite b = true -> Rabs (rnd (B2R a * B2R b)) < bpow radix2 emax ->
  is_finite (fmul a b) = true.
Proof.
  intros Ha Hb H. pose proof (Bmult_correct prec emax _ _ mode_NE a b) as K.
  rewrite Rlt_bool_true in K by exact H. destruct K as (_ & K & _). unfold fmul. rewrite K, Ha, Hb. reflexivity.
Qed.

(** The rounding error: relative for sums, relative plus a tiny absolute one for products. *)
Lemma rnd_add_err a b : exists e, Rabs e <= u /\ rnd (B2R a + B2R b) = (B2R a + B2R b) * (1 + e).
Proof.
  destruct (FLT_plus_error_N_ex radix2 (SpecFloat.emin prec emax) prec (fun z : Z => negb (Z.even z)) (B2R a) (B2R b)) as (e & He & E).
  - apply generic_format_B2R.
  - apply generic_format_B2R.
  - exists e. split; [pose proof u_ro_uro; lra|exact E].
Qed.
Lemma rnd_err r : exists e h, Rabs e <= u /\ Rabs h <= eta f /\ rnd r = r * (1 + e) + h.
Proof.
  destruct (relative_error_N_FLT'_ex radix2 (SpecFloat.emin prec emax) prec (fprec_pos f) (fun z : Z => negb (Z.even z)) r)
    as (e & h & He & Hh & _ & E).
  exists e, h. split; [pose proof u_ro_uro; lra|]. split; [exact Hh|exact E].
Qed.

Lemma fadd_err a b : is_finite (fadd a b) = true ->
  exists e, Rabs e <= u /\ B2R (fadd a b) = (B2R a + B2R b) * (1 + e).
Proof. intros H. rewrite (fadd_round a b H). apply rnd_add_err. Qed.
Lemma fmul_err a b : is_finite (fmul a b) = true ->
  exists e h, Rabs e <= u /\ Rabs h <= eta f /\ B2R (fmul a b) = B2R a * B2R b * (1 + e) + h.
Proof. intros H. rewrite (fmul_round a b H). apply rnd_err. Qed.

Lemma rnd_B2R a : rnd (B2R a) = B2R a.
Proof. apply round_generic; [apply valid_rnd_N|apply generic_format_B2R]. Qed.

(** Adding zero is exact. *)
Lemma fadd_0_l a b : is_finite (fadd a b) = true -> B2R a = 0 -> B2R (fadd a b) = B2R b.
Proof. intros H E. rewrite (fadd_round a b H), E, Rplus_0_l. apply rnd_B2R. Qed.

End Ops.

(** [y] approximates [v], of magnitude at most [A], with [n] relative roundings and the
    absolute error [E]. *)
Definition appr (u : R) (n : nat) (y v A E : R) : Prop :=
  Rabs v <= A /\ Rabs (y - v) <= ((1 + u) ^ n - 1) * A + E.

Section Appr.
Context (u : R) (Hu : 0 < u).

Lemma pow_ge_1 n : 1 <= (1 + u) ^ n.
Proof. apply pow_R1_Rle. lra. Qed.

Lemma appr_exact v : appr u 0 v v (Rabs v) 0.
Proof. split; [lra|]. replace (v - v) with 0 by ring. rewrite Rabs_R0. simpl. lra. Qed.

Lemma appr_weaken n m y v A E E' : (n <= m)%nat -> E <= E' -> appr u n y v A E -> appr u m y v A E'.
Proof.
  intros H HE [H1 H2]. split; [exact H1|]. assert ((1 + u) ^ n <= (1 + u) ^ m) by (apply Rle_pow; [lra|exact H]).
  pose proof (Rabs_pos v). nra.
Qed.

Lemma appr_abs n y v A E : appr u n y v A E -> Rabs y <= (1 + u) ^ n * A + E.
Proof. intros [H1 H2]. replace y with ((y - v) + v) by ring. pose proof (Rabs_triang (y - v) v). lra. Qed.

(** A rounded sum. *)
Lemma appr_add n y1 v1 A1 E1 y2 v2 A2 E2 e : Rabs e <= u -> appr u n y1 v1 A1 E1 -> appr u n y2 v2 A2 E2 ->
  appr u (S n) ((y1 + y2) * (1 + e)) (v1 + v2) (A1 + A2) ((1 + u) * (E1 + E2)).
Proof.
  intros He [P1 P2] [Q1 Q2]. split; [pose proof (Rabs_triang v1 v2); lra|].
  replace ((y1 + y2) * (1 + e) - (v1 + v2)) with (((y1 - v1) + (y2 - v2)) * (1 + e) + (v1 + v2) * e) by ring.
  eapply Rle_trans; [apply Rabs_triang|]. rewrite !Rabs_mult.
  assert (K1 : Rabs (1 + e) <= 1 + u) by (eapply Rle_trans; [apply Rabs_triang|]; rewrite Rabs_R1; lra).
  assert (K2 : Rabs (y1 - v1 + (y2 - v2)) <= ((1 + u) ^ n - 1) * (A1 + A2) + (E1 + E2)).
  { eapply Rle_trans; [apply Rabs_triang|]. lra. }
  assert (K3 : Rabs (v1 + v2) <= A1 + A2) by (eapply Rle_trans; [apply Rabs_triang|]; lra).
  assert (M1 : Rabs (y1 - v1 + (y2 - v2)) * Rabs (1 + e) <= (((1 + u) ^ n - 1) * (A1 + A2) + (E1 + E2)) * (1 + u)).
  { apply Rmult_le_compat; auto using Rabs_pos. }
  assert (M2 : Rabs (v1 + v2) * Rabs e <= (A1 + A2) * u) by (apply Rmult_le_compat; auto using Rabs_pos).
  simpl pow. nra.
Qed.

(** A rounded product with an exact number. *)
Lemma appr_mul n y v A E x e h t : Rabs e <= u -> Rabs h <= t -> appr u n y v A E ->
  appr u (S n) (y * x * (1 + e) + h) (v * x) (A * Rabs x) ((1 + u) * (E * Rabs x) + t).
Proof.
  intros He Hh [P1 P2]. pose proof (Rabs_pos x) as Px. split; [rewrite Rabs_mult; apply Rmult_le_compat_r; assumption|].
  replace (y * x * (1 + e) + h - v * x) with ((y - v) * x * (1 + e) + (v * x * e + h)) by ring.
  eapply Rle_trans; [apply Rabs_triang|]. eapply Rle_trans; [apply Rplus_le_compat_l, Rabs_triang|]. rewrite !Rabs_mult.
  assert (K1 : Rabs (1 + e) <= 1 + u) by (eapply Rle_trans; [apply Rabs_triang|]; rewrite Rabs_R1; lra).
  assert (M1 : Rabs (y - v) * Rabs x * Rabs (1 + e) <= (((1 + u) ^ n - 1) * A + E) * Rabs x * (1 + u)).
  { apply Rmult_le_compat; auto using Rabs_pos, Rmult_le_pos. apply Rmult_le_compat_r; assumption. }
  assert (M2 : Rabs v * Rabs x * Rabs e <= A * Rabs x * u).
  { apply Rmult_le_compat; auto using Rabs_pos, Rmult_le_pos. apply Rmult_le_compat_r; assumption. }
  simpl pow. nra.
Qed.

(** (1+u)^n - 1 <= n u / (1 - n u). *)
Lemma gamma_le n : INR n * u < 1 -> (1 + u) ^ n - 1 <= INR n * u / (1 - INR n * u).
Proof.
  intros H. assert (K : (1 + u) ^ n * (1 - INR n * u) <= 1).
  { clear H. induction n as [|n IH]; [simpl; lra|]. rewrite S_INR. simpl pow.
    pose proof (pow_ge_1 n) as P. pose proof (pos_INR n) as I.
    assert ((1 + u) * (1 - (INR n + 1) * u) <= 1 - INR n * u) by nra.
    assert ((1 + u) * (1 - (INR n + 1) * u) * (1 + u) ^ n <= (1 - INR n * u) * (1 + u) ^ n) by (apply Rmult_le_compat_r; lra).
    lra. }
  apply Rmult_le_reg_r with (1 - INR n * u); [lra|]. unfold Rdiv. rewrite Rmult_assoc, Rinv_l by lra. lra.
Qed.

End Appr.
