(** Exact real arithmetic as a coefficient type: what f64 code computes without rounding,
    overflow, infinities and NaN.  Division by zero is an error. *)

From Coq Require Import List NArith ZArith Reals Lia Lra Bool.
From Verif Require Import Base Num Spec SpecFacts Laws Dense DenseFacts DenseMul Roots.
Import ListNotations.
Local Open Scope R_scope.

Definition R_ring : comring := MkComring R 0 1 Rplus Rmult Rminus Ropp RTheory.

Definition Reqb (a b : R) : bool := if Req_EM_T a b then true else false.
Definition Rltb (a b : R) : bool := if Rlt_dec a b then true else false.

Lemma Reqb_iff a b : Reqb a b = true <-> a = b.
Proof. unfold Reqb. destruct (Req_EM_T a b); split; congruence. Qed.
Lemma Reqb_false a b : Reqb a b = false <-> a <> b.
Proof. unfold Reqb. destruct (Req_EM_T a b); split; congruence. Qed.
Lemma Rltb_iff a b : Rltb a b = true <-> a < b.
Proof. unfold Rltb. destruct (Rlt_dec a b); split; congruence. Qed.
Lemma Rltb_false a b : Rltb a b = false <-> b <= a.
Proof. unfold Rltb. destruct (Rlt_dec a b); split; intros; try congruence; lra. Qed.

(** isize::MAX / 8 elements of 8 bytes fit in a vector, as for f64. *)
Definition R_num (chk : bool) : num R := {|
  n_chk := chk;
  n_max_len := Z.to_N ((2 ^ 63 - 1) / 8);
  zero := 0;
  one := 1;
  is_zero := fun a => Reqb a 0;
  add := fun a b => Ok (a + b);
  sub := fun a b => Ok (a - b);
  mul := fun a b => Ok (a * b);
  div := fun a b => if Reqb b 0 then Panic PDivZero else Ok (a / b);
  neg := fun a => Ok (- a);
  eqb := Reqb;
  is_pos := fun a => Rltb 0 a;
  absv := fun a => Ok (Rabs a);
  is_neg_one := fun a => Reqb a (-1);
  upow := fun a e => Ok (a ^ N.to_nat e);
  can_negate := true;
  of_cont := fun n => Some (INR (N.to_nat n));
  of_exact := fun n => Some (INR (N.to_nat n))
|}.

(** [cb] and [rnd] are arbitrary. *)
Definition R_rops (cb rnd : R -> R) : rops R := {|
  abs_sqrt := fun a => Ok (sqrt (Rabs a));
  cbrt := fun a => Ok (cb a);
  of_u8 := fun n => INR (N.to_nat n);
  round := rnd;
  lt := Rltb
|}.

Lemma R_of_nat n : @of_nat R_ring n = INR n.
Proof. induction n as [|n IH]; [reflexivity|]. rewrite S_INR. cbn [of_nat]. rewrite IH. cbn. lra. Qed.

Theorem R_lawful chk : lawful (R_num chk) R_ring (fun a => a).
Proof.
  constructor; cbn -[INR].
  - auto.
  - reflexivity.
  - reflexivity.
  - intros a. apply Reqb_iff.
  - apply Reqb_iff.
  - intros; inv_ok; reflexivity.
  - intros; inv_ok; reflexivity.
  - intros; inv_ok; reflexivity.
  - intros; inv_ok; reflexivity.
  - intros a e c _ H. inv_ok. generalize (N.to_nat e) as n. induction n as [|n IH]; [reflexivity|].
    simpl. rewrite IH. reflexivity.
  - intros n c _ H. rewrite R_of_nat. congruence.
  - intros n c _ H. rewrite R_of_nat. congruence.
  - vm_compute; discriminate.
Qed.

Theorem R_total chk : total_ops (R_num chk).
Proof. constructor; intros; simpl; eauto. Qed.

Theorem R_exact_div chk : exact_div (R_num chk) R_ring (fun a => a).
Proof.
  intros a b Hb. cbn in *. rewrite Hb. eexists. split; [reflexivity|]. apply Reqb_false in Hb. cbn. field. exact Hb.
Qed.

Theorem R_prompt chk : prompt (R_num chk).
Proof. constructor; simpl; intros; try discriminate. destruct (Reqb _ _); discriminate. Qed.

Theorem R_domain : domain R_ring.
Proof. intros a b H. apply Rmult_integral in H. tauto. Qed.

(** A real cube root exists. *)
Definition Rcbrt (x : R) : R :=
  if Rlt_dec 0 x then exp (ln x / 3) else if Rlt_dec x 0 then - exp (ln (- x) / 3) else 0.

Lemma exp_third y : 0 < y -> exp (ln y / 3) ^ 3 = y.
Proof.
  intros Hy. replace (exp (ln y / 3) ^ 3) with (exp (ln y / 3) * exp (ln y / 3) * exp (ln y / 3)) by ring.
  rewrite <- !exp_plus. replace (ln y / 3 + ln y / 3 + ln y / 3) with (ln y) by field. apply exp_ln, Hy.
Qed.

Lemma Rcbrt_spec x : Rcbrt x ^ 3 = x.
Proof.
  unfold Rcbrt. destruct (Rlt_dec 0 x); [apply exp_third; assumption|]. destruct (Rlt_dec x 0).
  - replace ((- exp (ln (- x) / 3)) ^ 3) with (- (exp (ln (- x) / 3) ^ 3)) by ring. rewrite exp_third by lra. ring.
  - replace x with 0 by lra. ring.
Qed.
