(** C89: how far float derivatives and definite integrals are from the slope and the area.
    C90: when the sign of a float value is certain, and brackets of real roots. *)

From Coquelicot Require Import Coquelicot.
From Flocq Require Import Core BinarySingleNaN Mult_error.
From Coq Require Import List NArith ZArith Reals Lia Lra ZifyBool ZifyNat ZifyN.
From Verif Require Import Base Num Spec SpecFacts Laws Terms Dense DenseFacts DenseMul DenseCalc Bino Trino ArrPoly Integr RealNum Floats FloatFacts FloatErr FloatEval
  Coef Sim SimInst FloatCoef P_Integral P_Analytic P_FloatErr P_FloatRep P_FloatUndo.
Import List.
Import ListNotations.
Local Open Scope R_scope.

Local Notation sumR := (@sumn R_ring).

Lemma sumR_le (p q : nat -> R) n : (forall i, (i < n)%nat -> p i <= q i) -> sumR p n <= sumR q n.
Proof.
  induction n as [|n IH]; intros H; [apply Rle_refl|]. cbn [sumn]. apply Rplus_le_compat; [apply IH; intros; apply H; lia|apply H; lia].
Qed.
Lemma sumR_abs (p : nat -> R) n : Rabs (sumR p n) <= sumR (fun i => Rabs (p i)) n.
Proof.
  induction n as [|n IH]; [cbn; rewrite Rabs_R0; lra|]. cbn [sumn]. eapply Rle_trans; [apply Rabs_triang|].
  apply Rplus_le_compat; [exact IH|apply Rle_refl].
Qed.
Lemma sumR_pos (p : nat -> R) n : (forall i, (i < n)%nat -> 0 <= p i) -> 0 <= sumR p n.
Proof.
  intros H. replace 0 with (sumR (fun _ => 0) n); [apply sumR_le, H|]. apply (@sumn_0 R_ring). reflexivity.
Qed.

Lemma sumR_scal (c : R) (p : nat -> R) n : sumR (fun i => c * p i) n = c * sumR p n.
Proof. apply (@sumn_mul_l R_ring c p n). Qed.
Lemma sumR_add (p q : nat -> R) n : sumR (fun i => p i + q i) n = sumR p n + sumR q n.
Proof. apply (@sumn_add R_ring p q n). Qed.
Lemma sumR_sub (p q : nat -> R) n : sumR (fun i => p i - q i) n = sumR p n - sumR q n.
Proof. apply (@sumn_sub R_ring p q n). Qed.

Section Near.
Context (chk : bool) (f : fty) (powi : flt f -> N -> flt f).
Let O := float_num chk f powi.
Local Notation u := (uro f).

(** A finite value at a non-zero point needs finite coefficients. *)
Lemma horner_finite x (l : list (flt f)) s : horner O x l = Ok s -> is_finite s = true -> Forall (fun c : flt f => is_finite c = true) l.
Proof.
  revert s. induction l as [|c l IH] using rev_ind; intros s H Hf; [constructor|].
  unfold O in H. rewrite horner_snoc in H. apply bind_ok in H. destruct H as (s0 & H0 & H). injection H as <-.
  destruct (fmul_operands _ _ Hf) as [Hf1 _]. destruct (fadd_operands _ _ Hf1) as [Hf0 Hc].
  apply Forall_app. split; [eapply IH; eauto|]. constructor; [exact Hc|constructor].
Qed.
Lemma eval_finite x (l : list (flt f)) y : dense_eval O l x = Ok y -> is_finite y = true -> is_zero O x = false ->
  Forall (fun c : flt f => is_finite c = true) l.
Proof.
  intros H Hf Hz. unfold dense_eval in H. pose proof (split_last_spec l) as Hs. destruct (split_last l) as [[lst fst]|].
  - rewrite Hz in H. apply bind_ok in H. destruct H as (s & H1 & H2). injection H2 as <-. destruct (fadd_operands _ _ Hf) as [Hs' Hl].
    rewrite Hs. apply Forall_app. split; [eapply horner_finite; eauto|]. constructor; [exact Hl|constructor].
  - rewrite Hs. constructor.
Qed.
Lemma eval_at_zero x (l : list (flt f)) y : dense_eval O l x = Ok y -> is_zero O x = true -> y = vcoef l 0.
Proof.
  intros H Hz. unfold dense_eval in H. pose proof (split_last_spec l) as Hs. destruct (split_last l) as [[lst fst]|].
  - rewrite Hz in H. injection H as <-. subst l. unfold vcoef. rewrite rev_app_distr. reflexivity.
  - injection H as <-. subst l. reflexivity.
Qed.

(** Evaluating a vector whose coefficients are roundings of [P]. *)
Lemma eval_near (l : list (flt f)) (x y : flt f) (P : nat -> R) n :
  dense_eval O l x = Ok y -> is_finite y = true -> is_finite x = true -> (length l <= n)%nat ->
  (forall d, is_finite (vcoef l d) = true -> Rabs (B2R (vcoef l d) - P d) <= u * Rabs (P d) + eta f) ->
  Rabs (B2R y - sumR (fun d => P d * B2R x ^ d) n) <=
    ((1 + u) ^ (2 * (n - 1) + 1) - 1) * sumR (fun d => Rabs (P d) * Rabs (B2R x) ^ d) n +
    2 * (1 + u) ^ (2 * (n - 1)) * tiny f (Rabs (B2R x)) n.
Proof.
  intros H Hy Hx Hn HP. pose proof (@uro_pos f) as U. pose proof (@eta_pos f) as E0. pose proof (Rabs_pos (B2R x)) as X0.
  set (X := B2R x) in *. set (K := (2 * (n - 1))%nat). assert (G1 : 1 <= (1 + u) ^ K) by (apply pow_ge_1, U).
  assert (T0 : 0 <= tiny f (Rabs X) n) by (apply Rmult_le_pos; [lra|apply (geo_pos (Rabs X)), X0]).
  assert (A0 : 0 <= sumR (fun d => Rabs (P d) * Rabs X ^ d) n).
  { apply sumR_pos. intros i _. apply Rmult_le_pos; [apply Rabs_pos|apply pow_le, X0]. }
  assert (EK : (1 + u) ^ (K + 1) = (1 + u) ^ K * (1 + u)) by (rewrite pow_add; ring). rewrite EK.
  destruct (is_zero O x) eqn:Hz.
  - pose proof (eval_at_zero x l y H Hz) as ->. destruct (is_zero_B chk f powi x Hz) as [E _]. fold X in E.
    destruct n as [|n].
    { destruct l; [|cbn in Hn; lia]. change (vcoef [] 0) with (fzero f). change (B2R (fzero f)) with 0. cbn [sumn]. cbn.
      unfold tiny. cbn. rewrite Rminus_0_r, Rabs_R0. lra. }
    specialize (HP 0%nat Hy). rewrite E in *. rewrite Rabs_R0 in *.
    assert (S0 : forall g : nat -> R, sumR (fun d => g d * 0 ^ d) (S n) = g 0%nat).
    { intros g. rewrite (@sumn_single R_ring _ (S n) 0); [cbn; ring|lia|]. intros i _ Hi. destruct i; [lia|]. cbn. ring. }
    rewrite !S0 in *. assert (Te : tiny f 0 (S n) = eta f).
    { unfold tiny. replace (sumR (fun j => 0 ^ j) (S n)) with (sumR (fun j => (fun _ => 1) j * 0 ^ j) (S n)) by (apply (@sumn_ext R_ring); intros; cbn; ring).
      rewrite S0. ring. }
    rewrite Te. eapply Rle_trans; [exact HP|]. assert (u * Rabs (P 0%nat) <= ((1 + u) ^ K * (1 + u) - 1) * Rabs (P 0%nat)).
    { apply Rmult_le_compat_r; [exact A0|]. nra. }
    assert (1 * eta f <= 2 * (1 + u) ^ K * eta f) by (apply Rmult_le_compat_r; lra). lra.
  - pose proof (eval_finite x l y H Hy Hz) as Fl. assert (Fc := vcoef_finite l Fl).
    assert (Hout : forall d, (n <= d)%nat -> B2R (vcoef l d) = 0).
    { intros d Hd. unfold vcoef. rewrite nth_overflow by (rewrite rev_length; lia). reflexivity. }
    set (v := sumR (fun d => B2R (vcoef l d) * X ^ d) n). set (A := sumR (fun d => Rabs (B2R (vcoef l d)) * Rabs X ^ d) n).
    assert (Hv : @is_value R_ring (rpoly l) X v) by (exists n; split; [exact Hout|reflexivity]).
    assert (HA : @is_value R_ring (rpoly_abs l) (Rabs X) A).
    { exists n. split; [intros i Hi; unfold rpoly_abs; rewrite Hout by exact Hi; apply Rabs_R0|reflexivity]. }
    pose proof (C65_error chk f powi l x y v A H Hy Hx Hv HA) as C. cbv zeta in C. fold X in C.
    set (AP := sumR (fun d => Rabs (P d) * Rabs X ^ d) n) in *. set (T := tiny f (Rabs X) n) in *.
    assert (Tl : tiny f (Rabs X) (length l - 1) <= T).
    { apply Rmult_le_compat_l; [lra|]. apply (geo_mono (Rabs X)); [exact X0|lia]. }
    assert (T1 : 0 <= tiny f (Rabs X) (length l - 1)) by (apply Rmult_le_pos; [lra|apply (geo_pos (Rabs X)), X0]).
    assert (TS : T = sumR (fun d => eta f * Rabs X ^ d) n) by (symmetry; apply sumR_scal).
    assert (D1 : Rabs (v - sumR (fun d => P d * X ^ d) n) <= u * AP + T).
    { unfold v. rewrite <- sumR_sub. eapply Rle_trans; [apply sumR_abs|].
      rewrite TS. unfold AP. rewrite <- (sumR_scal u).
      rewrite <- sumR_add. apply sumR_le. intros d _.
      rewrite <- Rmult_minus_distr_r, Rabs_mult, RPow_abs. pose proof (HP d (Fc d)) as Q. pose proof (Rabs_pos (X ^ d)) as Q0.
      apply (Rmult_le_compat_r _ _ _ Q0) in Q. lra. }
    assert (D2 : A <= (1 + u) * AP + T).
    { unfold A. rewrite TS. unfold AP. rewrite <- (sumR_scal (1 + u)).
      rewrite <- sumR_add. apply sumR_le. intros d _.
      pose proof (HP d (Fc d)) as Q. assert (Q1 : Rabs (B2R (vcoef l d)) <= Rabs (B2R (vcoef l d) - P d) + Rabs (P d)).
      { eapply Rle_trans; [|apply Rabs_triang]. right. f_equal. ring. }
      pose proof (pow_le (Rabs X) d X0) as Q0. assert (Q2 : Rabs (B2R (vcoef l d)) <= (1 + u) * Rabs (P d) + eta f) by lra.
      apply (Rmult_le_compat_r _ _ _ Q0) in Q2. lra. }
    assert (Ap : 0 <= A). { apply sumR_pos. intros i _. apply Rmult_le_pos; [apply Rabs_pos|apply pow_le, X0]. }
    set (k := (2 * (length l - 1))%nat) in *. assert (Gk : (1 + u) ^ k <= (1 + u) ^ K) by (apply Rle_pow; [lra|unfold k, K; lia]).
    assert (Gk1 : 1 <= (1 + u) ^ k) by (apply pow_ge_1, U). set (gk := (1 + u) ^ k) in *. set (gK := (1 + u) ^ K) in *.
    assert (C' : Rabs (B2R y - v) <= (gK - 1) * ((1 + u) * AP + T) + gK * T).
    { eapply Rle_trans; [exact C|]. apply Rplus_le_compat; apply Rmult_le_compat; lra. }
    replace (B2R y - sumR (fun d => P d * X ^ d) n) with ((B2R y - v) + (v - sumR (fun d => P d * X ^ d) n)) by ring.
    eapply Rle_trans; [apply Rabs_triang|]. eapply Rle_trans; [apply Rplus_le_compat; [exact C'|exact D1]|].
    right. ring.
Qed.

(** Rounded coefficients, from one multiplication or division each. *)
Lemma near_same (a b : flt f) r : fsame a b -> (is_finite b = true -> Rabs (B2R b - r) <= u * Rabs r + eta f) ->
  is_finite a = true -> Rabs (B2R a - r) <= u * Rabs r + eta f.
Proof. intros H K Ha. destruct (fsame_B _ _ H) as [E1 E2]. rewrite E1. apply K. congruence. Qed.
Lemma near_arith r e h : Rabs e <= u -> Rabs h <= eta f -> Rabs (r * (1 + e) + h - r) <= u * Rabs r + eta f.
Proof.
  intros He Hh. replace (r * (1 + e) + h - r) with (e * r + h) by ring. eapply Rle_trans; [apply Rabs_triang|].
  apply Rplus_le_compat; [|exact Hh]. rewrite Rabs_mult. apply Rmult_le_compat_r; [apply Rabs_pos|exact He].
Qed.
Lemma near_mul (a b : flt f) : is_finite (fmul a b) = true -> Rabs (B2R (fmul a b) - B2R a * B2R b) <= u * Rabs (B2R a * B2R b) + eta f.
Proof. intros H. destruct (fmul_err _ _ H) as (e & h & He & Hh & ->). apply near_arith; assumption. Qed.
Lemma near_div (a b : flt f) : B2R b <> 0 -> is_finite (fdiv a b) = true -> Rabs (B2R (fdiv a b) - B2R a / B2R b) <= u * Rabs (B2R a / B2R b) + eta f.
Proof. intros Hb H. destruct (fdiv_err _ _ Hb H) as (e & h & He & Hh & ->). apply near_arith; assumption. Qed.
Lemma near_exact r : Rabs (r - r) <= u * Rabs r + eta f.
Proof. rewrite Rminus_eq_0, Rabs_R0. pose proof (@uro_pos f). pose proof (@eta_pos f). pose proof (Rabs_pos r). nra. Qed.

(** The exact antiderivative and derivative of the given coefficients. *)
Definition antider (a : list (flt f)) (d : nat) : R := match d with 0%nat => 0 | S d => B2R (vcoef a d) / INR (S d) end.
Definition deriv (a : list (flt f)) (d : nat) : R := B2R (vcoef a (S d)) * INR (S d).

Lemma dense_derivative_length a r : dense_derivative O a = Ok r -> (length r <= length a - 1)%nat.
Proof.
  unfold O. rewrite (dense_derivative_unfold (float_num chk f powi)). fold O. pose proof (len_strip O a) as Hs.
  destruct (expect (of_cont O _)) as [c|k|]; cbn [bind]; try discriminate.
  assert (L : forall l d r, deriv_loop O d l = Ok r -> length r = length l).
  { clear. induction l as [|x l IH]; intros d r; cbn [deriv_loop]; [intros [= <-]; reflexivity|].
    cbn [sub mul one float_num O bind]. destruct (deriv_loop O (fsub d (f_of_Z f 1)) l) as [q|k|] eqn:E; cbn [bind]; try discriminate.
    intros [= <-]. cbn. f_equal. eapply IH, E. }
  pose proof (split_last_spec (strip O a)) as Hl. destruct (split_last (strip O a)) as [[x terms]|].
  - intros H. apply L in H. assert (length (strip O a) = S (length terms)) by (rewrite Hl, app_length; cbn; lia). unfold len in *. lia.
  - intros [= <-]. cbn. lia.
Qed.

Lemma cont_INR d : (N.of_nat d <= f_cont_limit f)%N -> B2R (f_of_Z f (Z.of_nat d)) = INR d.
Proof. intros H. apply (proj2 (f_of_nat_exact f d H)). Qed.

Lemma integral_near a : (len a <= f_cont_limit f)%N -> exists g, dense_integral O a = Ok g /\ (length g <= S (length a))%nat /\
  forall d, is_finite (vcoef g d) = true -> Rabs (B2R (vcoef g d) - antider a d) <= u * Rabs (antider a d) + eta f.
Proof.
  intros Hl. destruct (C64_dense_integral chk f powi a Hl) as (g & E & H0 & H). exists g. split; [exact E|].
  split; [apply (dense_integral_length chk f powi a g E)|]. intros [|d] Hf.
  - rewrite (proj1 (fsame_B _ _ H0)). apply near_exact.
  - revert Hf. apply (near_same _ _ _ (H d)). cbn [antider]. destruct (Nat.ltb_spec d (length a)) as [K|K]; intros Hf.
    + rewrite <- cont_INR by (unfold len in Hl; lia). apply near_div; [|exact Hf]. rewrite cont_INR by (unfold len in Hl; lia).
      apply not_0_INR. discriminate.
    + assert (E0 : vcoef a d = fzero f) by (unfold vcoef; rewrite nth_overflow by (rewrite rev_length; lia); reflexivity).
      rewrite E0. change (B2R (fzero f)) with 0. unfold Rdiv. rewrite Rmult_0_l. apply near_exact.
Qed.
Lemma derivative_near a : (len a <= f_cont_limit f)%N -> exists g, dense_derivative O a = Ok g /\ (length g <= length a - 1)%nat /\
  forall d, is_finite (vcoef g d) = true -> Rabs (B2R (vcoef g d) - deriv a d) <= u * Rabs (deriv a d) + eta f.
Proof.
  intros Hl. destruct (C64_dense_derivative chk f powi a Hl) as (g & E & H). exists g. split; [exact E|].
  split; [apply (dense_derivative_length a g E)|]. intros d. apply (near_same _ _ _ (H d)). unfold deriv.
  destruct (Nat.ltb_spec (S d) (length a)) as [K|K]; intros Hf.
  - rewrite <- cont_INR by (unfold len in Hl; lia). apply near_mul, Hf.
  - assert (E0 : vcoef a (S d) = fzero f) by (unfold vcoef; rewrite nth_overflow by (rewrite rev_length; lia); reflexivity).
    rewrite E0. change (B2R (fzero f)) with 0. rewrite Rmult_0_l. apply near_exact.
Qed.

(** Arrays *)
Lemma arr_integral_near a : (len a <= f_cont_limit f)%N -> exists g, arr_integral O a = Ok g /\ (length g <= S (length a))%nat /\
  forall d, is_finite (vcoef g d) = true -> Rabs (B2R (vcoef g d) - antider a d) <= u * Rabs (antider a d) + eta f.
Proof.
  intros Hl. pose proof (cont_limit_small f) as Hm. unfold arr_integral. cbn [of_cont float_num O]. unfold f_of_cont.
  destruct (N.ltb_spec (f_cont_limit f) (len a)); [lia|]. cbn [expect bind].
  destruct (integ_loop_same chk f powi a (f_of_Z f (Z.of_N (len a)))) as (r & E & H1 & H2).
  { unfold len. rewrite nat_N_Z. apply fint_of_Z. unfold len in *. lia. }
  { unfold len in *. lia. }
  fold O in E. rewrite E. cbn [bind]. unfold vec_grow.
  assert (Hg : (len r + 1 <=? n_max_len O)%N = true).
  { assert (f_cont_limit f + 1 <= n_max_len O)%N by (clear; destruct f; vm_compute; discriminate). unfold len in *. lia. }
  rewrite Hg. cbn [bind]. eexists. split; [reflexivity|]. split; [rewrite app_length; cbn; lia|].
  intros d. unfold vcoef. rewrite rev_app_distr. destruct d as [|d]; [intros _; apply near_exact|]. cbn [rev app nth antider].
  change (nth d (rev r) (fzero f)) with (cf (fzero f) r d). destruct (Nat.ltb_spec d (length a)) as [K|K].
  - rewrite H2 by exact K. intros Hf. rewrite <- cont_INR by (unfold len in Hl; lia). apply near_div; [|exact Hf].
    rewrite cont_INR by (unfold len in Hl; lia). apply not_0_INR. discriminate.
  - rewrite cf_overflow by lia. intros _. assert (E0 : vcoef a d = fzero f) by (unfold vcoef; rewrite nth_overflow by (rewrite rev_length; lia); reflexivity).
    rewrite E0. change (B2R (fzero f)) with 0. unfold Rdiv. rewrite Rmult_0_l. apply near_exact.
Qed.

Lemma arr_deriv_loop_same out : forall (l : list (flt f)) deg, length l = S (length out) -> fint deg (Z.of_nat (length l)) -> (Z.of_nat (length l) <= 2 ^ fprec f)%Z ->
  exists r, arr_deriv_loop O deg l out = Ok r /\ length r = length out /\
    forall d, (d < length out)%nat -> vcoef r d = fmul (f_of_Z f (Z.of_nat (S d))) (vcoef l (S d)).
Proof.
  induction out as [|z out IH]; intros [|c l] deg Hn Hd Hm; try discriminate Hn; cbn [arr_deriv_loop].
  - exists []. split; [reflexivity|]. split; [reflexivity|]. cbn. lia.
  - cbn [sub mul one float_num O bind]. cbn [length] in Hn, Hd, Hm.
    assert (Hd' : fint (fsub deg (f_of_Z f 1)) (Z.of_nat (length l))).
    { replace (Z.of_nat (length l)) with (Z.of_nat (S (length l)) - 1)%Z by lia. apply fint_sub; [exact Hd| |lia].
      apply fint_of_Z. lia. }
    destruct (IH l _ ltac:(cbn in *; lia) Hd' ltac:(lia)) as (r & E & Hl & Hc). fold O. rewrite E. cbn [bind]. eexists. split; [reflexivity|].
    split; [cbn; lia|]. intros d Hlt. change vcoef with (cf (fzero f)). rewrite !cf_cons, Hl. cbn [length] in Hlt, Hn.
    destruct (Nat.eqb_spec d (length out)) as [->|Hne].
    + replace (S (length out) =? length l)%nat with true by (symmetry; apply Nat.eqb_eq; lia). f_equal.
      apply (fun H => fint_unique _ _ _ Hd' H); [|lia]. replace (Z.of_nat (length l)) with (Z.of_nat (S (length out))) by lia. apply fint_of_Z. lia.
    + replace (S d =? length l)%nat with false by (symmetry; apply Nat.eqb_neq; lia). apply Hc. lia.
Qed.
Lemma arr_derivative_near a : (len a <= f_cont_limit f)%N -> exists g, arr_derivative O a = Ok g /\ length g = length a /\
  forall d, is_finite (vcoef g d) = true -> Rabs (B2R (vcoef g d) - deriv a d) <= u * Rabs (deriv a d) + eta f.
Proof.
  intros Hl. pose proof (cont_limit_small f) as Hm. unfold arr_derivative. cbn [of_cont float_num O]. unfold f_of_cont.
  destruct (N.ltb_spec (f_cont_limit f) (len a)); [lia|]. cbn [expect bind].
  assert (Hz : forall d, (length a <= S d)%nat -> deriv a d = 0).
  { intros d Hd. unfold deriv, vcoef. rewrite nth_overflow by (rewrite rev_length; lia). cbn. ring. }
  destruct (length a) as [|n] eqn:En; cbn [repeat].
  - exists []. split; [reflexivity|]. split; [reflexivity|]. intros d _. rewrite Hz by lia.
    replace (vcoef [] d) with (fzero f) by (destruct d; reflexivity). apply near_exact.
  - destruct (arr_deriv_loop_same (repeat (zero O) n) a (f_of_Z f (Z.of_N (len a)))) as (r & E & H1 & H2).
    { rewrite repeat_length. lia. }
    { unfold len. rewrite nat_N_Z. apply fint_of_Z. unfold len in *. lia. }
    { unfold len in *. lia. }
    fold O. rewrite E. cbn [bind]. rewrite repeat_length in *. eexists. split; [reflexivity|]. split; [cbn; lia|]. intros d.
    change vcoef with (cf (fzero f)). rewrite cf_cons, H1. destruct (Nat.eqb_spec d n) as [->|Hne].
    { intros _. rewrite Hz by lia. change (B2R (zero O)) with 0. apply near_exact. }
    destruct (Nat.ltb_spec d n) as [K|K].
    + change (cf (fzero f)) with (@vcoef f). rewrite H2 by exact K. intros Hf. unfold deriv. rewrite <- cont_INR by (unfold len in Hl; lia).
      rewrite Rmult_comm. apply near_mul, Hf.
    + rewrite cf_overflow by lia. intros _. rewrite Hz by lia. apply near_exact.
Qed.

(** Dropping leading zeros keeps the coefficients. *)
Lemma strip_fsame (l : list (flt f)) d : fsame (vcoef (strip O l) d) (vcoef l d).
Proof.
  pose proof (strip_cf (fzero f) O l d) as H. change (cf (fzero f)) with (@vcoef f) in H. destruct (Nat.ltb_spec d (length (strip O l))) as [K|K].
  - left. exact H.
  - replace (vcoef (strip O l) d) with (fzero f) by (unfold vcoef; rewrite nth_overflow by (rewrite rev_length; lia); reflexivity).
    destruct (Nat.ltb_spec d (length l)) as [K2|K2].
    + right. split; [reflexivity|]. apply H, K2.
    + left. unfold vcoef. rewrite nth_overflow by (rewrite rev_length; lia). reflexivity.
Qed.

Lemma double_exact (x : flt f) : is_finite (fmul x (f_of_Z f 2)) = true -> B2R (fmul x (f_of_Z f 2)) = B2R x * 2.
Proof.
  intros F. pose proof (fsizes f). destruct (f_of_Z_small f 2) as [E2 F2].
  { apply Z.le_trans with (2 ^ 1)%Z; [lia|]. apply Z.pow_le_mono_r; lia. }
  rewrite (fmul_round _ _ F), E2. apply round_generic; [apply valid_rnd_N|]. change 2 with (bpow radix2 1).
  apply mult_bpow_pos_exact_FLT; [|lia]. apply generic_format_B2R.
Qed.

Lemma bino_integral_near (b : bino (flt f)) : let a := bino_list b in exists g, bino_integral O b = Ok g /\ (length g <= 3)%nat /\
  forall d, is_finite (vcoef g d) = true -> Rabs (B2R (vcoef g d) - antider a d) <= u * Rabs (antider a d) + eta f.
Proof.
  intros a. unfold bino_integral.
  assert (E : of_cont O 2 = Some (f_of_Z f 2)).
  { cbn [of_cont float_num O]. unfold f_of_cont. assert (f_cont_limit f <? 2 = false)%N as -> by (clear; destruct f; reflexivity). reflexivity. }
  assert (L2 : (2 <= f_cont_limit f)%N) by (clear; destruct f; vm_compute; discriminate).
  rewrite E. cbn [expect bind div float_num O]. fold O. rewrite (dense_new_ok O). eexists. split; [reflexivity|].
  split. { pose proof (len_strip O [fdiv (bc0 b) (f_of_Z f 2); bc1 b; zero O]) as Q. unfold len in Q. cbn [length] in Q. lia. }
  intros d. apply (near_same _ _ _ (strip_fsame _ d)). destruct d as [|[|[|d]]]; cbn [antider]; unfold vcoef; cbn -[INR fdiv]; intros Hf.
  - apply near_exact.
  - replace (B2R (bc1 b) / INR 1) with (B2R (bc1 b)) by (cbn; field). apply near_exact.
  - rewrite <- (cont_INR 2) by exact L2. apply near_div; [|exact Hf]. rewrite cont_INR by exact L2. apply not_0_INR. discriminate.
  - destruct d; cbn -[INR]; unfold Rdiv; rewrite Rmult_0_l; apply near_exact.
Qed.
Lemma trino_integral_near (b : trino (flt f)) : let a := trino_list b in exists g, trino_integral O b = Ok g /\ (length g <= 4)%nat /\
  forall d, is_finite (vcoef g d) = true -> Rabs (B2R (vcoef g d) - antider a d) <= u * Rabs (antider a d) + eta f.
Proof.
  intros a. unfold trino_integral.
  assert (E2 : of_exact O 2 = Some (f_of_Z f 2)) by (apply (f_exact_small f 2); [cbv; discriminate|apply Z.le_trans with (2 ^ 2)%Z; [lia|apply Z.pow_le_mono_r; pose proof (fsizes f); lia]]).
  assert (E3 : of_exact O 3 = Some (f_of_Z f 3)) by (apply (f_exact_small f 3); [cbv; discriminate|apply Z.le_trans with (2 ^ 2)%Z; [lia|apply Z.pow_le_mono_r; pose proof (fsizes f); lia]]).
  assert (L3 : (3 <= f_cont_limit f)%N) by (clear; destruct f; vm_compute; discriminate).
  rewrite E2, E3. cbn [expect bind div float_num O]. fold O. rewrite (dense_new_ok O). eexists. split; [reflexivity|].
  split. { pose proof (len_strip O [fdiv (tc0 b) (f_of_Z f 3); fdiv (tc1 b) (f_of_Z f 2); tc2 b; zero O]) as Q. unfold len in Q. cbn [length] in Q. lia. }
  intros d. apply (near_same _ _ _ (strip_fsame _ d)). destruct d as [|[|[|[|d]]]]; cbn [antider]; unfold vcoef; cbn -[INR fdiv]; intros Hf.
  - apply near_exact.
  - replace (B2R (tc2 b) / INR 1) with (B2R (tc2 b)) by (cbn; field). apply near_exact.
  - rewrite <- (cont_INR 2) by lia. apply near_div; [|exact Hf]. rewrite cont_INR by lia. apply not_0_INR. discriminate.
  - rewrite <- (cont_INR 3) by exact L3. apply near_div; [|exact Hf]. rewrite cont_INR by exact L3. apply not_0_INR. discriminate.
  - destruct d; cbn -[INR]; unfold Rdiv; rewrite Rmult_0_l; apply near_exact.
Qed.
End Near.

(** ** Areas and slopes of the polynomials with given coefficients *)
Lemma area_fun F a b v w : area F a b v -> area F a b w -> v = w.
Proof. intros (p & <-) (q & <-). apply RiemannInt_P5. Qed.

(** The antiderivative of coefficients [c] that vanish from [n] on. *)
Definition prim (c : nat -> R) (d : nat) : R := match d with 0%nat => 0 | S d => c d / INR (S d) end.

Lemma prim_area (c : nat -> R) n (F : R -> R) a b : (forall i, (n <= i)%nat -> c i = 0) -> (forall x, @is_value R_ring c x (F x)) ->
  area F a b (sumR (fun d => prim c d * b ^ d) (S n) - sumR (fun d => prim c d * a ^ d) (S n)).
Proof.
  intros Hc HF. apply (area_of c (prim c) F a b _ HF).
  - intros d. unfold pderiv. rewrite R_of_nat. cbn [prim]. change (INR (S d) * (c d / INR (S d)) = c d). field. apply not_0_INR. discriminate.
  - assert (Hp : forall i, (S n <= i)%nat -> prim c i = 0).
    { intros [|i] Hi; [reflexivity|]. cbn [prim]. rewrite Hc by lia. unfold Rdiv. apply Rmult_0_l. }
    eexists _, _. split; [exists (S n); split; [exact Hp|reflexivity]|]. split; [exists (S n); split; [exact Hp|reflexivity]|]. reflexivity.
Qed.

Lemma deriv_slope (c : nat -> R) n (F : R -> R) x v : (forall i, (n <= i)%nat -> c i = 0) -> (forall x, @is_value R_ring c x (F x)) ->
  derivable_pt_lim F x v -> v = sumR (fun d => c (S d) * INR (S d) * x ^ d) (n - 1).
Proof.
  intros Hc HF Hv. apply (uniqueness_limite F x); [exact Hv|]. apply (slope c (fun d => c (S d) * INR (S d)) F x _ HF).
  - intros d. unfold pderiv. rewrite R_of_nat. cbn. ring.
  - exists (n - 1)%nat. split; [|reflexivity]. intros i Hi. rewrite Hc by lia. cbn. ring.
Qed.

Lemma antider_prim f (a : list (flt f)) d : antider f a d = prim (rpoly a) d.
Proof. destruct d; reflexivity. Qed.
Lemma prim_abs f (a : list (flt f)) d : Rabs (antider f a d) = prim (rpoly_abs a) d.
Proof.
  destruct d as [|d]; cbn [antider prim]; [apply Rabs_R0|]. unfold rpoly_abs, Rdiv. rewrite Rabs_mult. f_equal.
  apply Rabs_pos_eq, Rlt_le, Rinv_0_lt_compat, lt_0_INR. lia.
Qed.
Lemma rpoly_out f (a : list (flt f)) i : (length a <= i)%nat -> rpoly a i = 0.
Proof. intros H. unfold rpoly, vcoef. rewrite nth_overflow by (rewrite rev_length; lia). reflexivity. Qed.
Lemma rpoly_abs_out f (a : list (flt f)) i : (length a <= i)%nat -> rpoly_abs a i = 0.
Proof. intros H. unfold rpoly_abs. rewrite (rpoly_out f a i H : B2R (vcoef a i) = 0). apply Rabs_R0. Qed.

Section Diff.
Context (f : fty).
Local Notation u := (uro f).
Lemma diff_arith n (yt ys Vt Vs At As Tt Ts e : R) : 0 <= At -> 0 <= As -> 0 <= Tt -> 0 <= Ts -> Rabs Vt <= At -> Rabs Vs <= As -> Rabs e <= u ->
  Rabs (yt - Vt) <= ((1 + u) ^ n - 1) * At + Tt -> Rabs (ys - Vs) <= ((1 + u) ^ n - 1) * As + Ts ->
  Rabs ((yt - ys) * (1 + e) - (Vt - Vs)) <= ((1 + u) ^ S n - 1) * (As + At) + (1 + u) * (Ts + Tt).
Proof.
  intros A1 A2 T1 T2 V1 V2 He H1 H2. pose proof (@uro_pos f) as U. assert (G := pow_ge_1 u U n). cbn [pow]. set (g := (1 + u) ^ n) in *.
  replace ((yt - ys) * (1 + e) - (Vt - Vs)) with ((yt - Vt - (ys - Vs)) * (1 + e) + e * (Vt - Vs)) by ring.
  eapply Rle_trans; [apply Rabs_triang|]. rewrite !Rabs_mult.
  assert (E1 : Rabs (1 + e) <= 1 + u) by (eapply Rle_trans; [apply Rabs_triang|]; rewrite Rabs_R1; lra).
  assert (E2 : Rabs (yt - Vt - (ys - Vs)) <= (g - 1) * (At + As) + (Tt + Ts)).
  { eapply Rle_trans; [apply Rabs_triang|]. rewrite Rabs_Ropp. lra. }
  assert (E3 : Rabs (Vt - Vs) <= At + As) by (eapply Rle_trans; [apply Rabs_triang|]; rewrite Rabs_Ropp; lra).
  assert (Rabs (yt - Vt - (ys - Vs)) * Rabs (1 + e) <= ((g - 1) * (At + As) + (Tt + Ts)) * (1 + u)) by (apply Rmult_le_compat; try apply Rabs_pos; assumption).
  assert (Rabs e * Rabs (Vt - Vs) <= u * (At + As)) by (apply Rmult_le_compat; try apply Rabs_pos; assumption).
  lra.
Qed.
End Diff.

(** ** C89 *)

(** [y] approximates the area under the polynomial with coefficients [a] from s to t.  The error
    is relative to the areas under the polynomial with absolute coefficients, from 0 to |s| and
    from 0 to |t|. *)
Definition near_area {f} (a : list (flt f)) (s t y : flt f) : Prop :=
  forall (F Fa : R -> R) v As At, is_finite s = true -> is_finite t = true -> is_finite y = true ->
    (forall x, @is_value R_ring (rpoly a) x (F x)) -> area F (B2R s) (B2R t) v ->
    (forall x, @is_value R_ring (rpoly_abs a) x (Fa x)) -> area Fa 0 (Rabs (B2R s)) As -> area Fa 0 (Rabs (B2R t)) At ->
    let n := length a in
    Rabs (B2R y - v) <= ((1 + uro f) ^ (2 * n + 2) - 1) * (As + At) +
      2 * (1 + uro f) ^ (2 * n + 1) * (tiny f (Rabs (B2R s)) (n + 1) + tiny f (Rabs (B2R t)) (n + 1)).

(** [y] approximates the slope at x with [k] more roundings than needed for the polynomial itself;
    relative to the slope of the polynomial with absolute coefficients at |x|. *)
Definition near_slope {f} (a : list (flt f)) (n : nat) (x y : flt f) : Prop :=
  forall (F Fa : R -> R) v A, is_finite x = true -> is_finite y = true ->
    (forall t, @is_value R_ring (rpoly a) t (F t)) -> derivable_pt_lim F (B2R x) v ->
    (forall t, @is_value R_ring (rpoly_abs a) t (Fa t)) -> derivable_pt_lim Fa (Rabs (B2R x)) A ->
    Rabs (B2R y - v) <= ((1 + uro f) ^ (2 * (n - 1) + 1) - 1) * A + 2 * (1 + uro f) ^ (2 * (n - 1)) * tiny f (Rabs (B2R x)) n.

Lemma integral_bound chk f powi (a g : list (flt f)) (s t : flt f) : let O := float_num chk f powi in
  (length g <= S (length a))%nat ->
  (forall d, is_finite (vcoef g d) = true -> Rabs (B2R (vcoef g d) - antider f a d) <= uro f * Rabs (antider f a d) + eta f) ->
  exists y, dense_integral_eval O g s t = Ok y /\ near_area a s t y.
Proof.
  intros O Lg Hg.
  destruct (dense_eval_ok chk f powi g t) as (yt & Et). destruct (dense_eval_ok chk f powi g s) as (ys & Es). fold O in Et, Es.
  exists (fsub yt ys). split; [unfold dense_integral_eval; rewrite Et; cbn [bind]; rewrite Es; reflexivity|].
  intros F Fa v As At Fs Ft Fy HF Hv HFa HAs HAt n.
  destruct (fsub_operands _ _ Fy) as [Fyt Fys]. destruct (fsub_err _ _ Fy) as (e & He & ->).
  pose proof (eval_near chk f powi g t yt (antider f a) (S n) Et Fyt Ft Lg Hg) as Nt.
  pose proof (eval_near chk f powi g s ys (antider f a) (S n) Es Fys Fs Lg Hg) as Ns.
  pose proof (area_fun _ _ _ _ _ Hv (prim_area (rpoly a) n F _ _ (rpoly_out f a) HF)) as ->.
  assert (Z : forall c, sumR (fun d => prim c d * 0 ^ d) (S n) = 0).
  { intros c. apply (@sumn_0 R_ring). intros [|i] _; cbn; ring. }
  pose proof (area_fun _ _ _ _ _ HAs (prim_area (rpoly_abs a) n Fa _ _ (rpoly_abs_out f a) HFa)) as ->.
  pose proof (area_fun _ _ _ _ _ HAt (prim_area (rpoly_abs a) n Fa _ _ (rpoly_abs_out f a) HFa)) as ->. rewrite Z, !Rminus_0_r.
  assert (Q1 : forall x, sumR (fun d => antider f a d * x ^ d) (S n) = sumR (fun d => prim (rpoly a) d * x ^ d) (S n)).
  { intros x. apply (@sumn_ext R_ring). intros i _. rewrite antider_prim. reflexivity. }
  assert (Q2 : forall x, sumR (fun d => Rabs (antider f a d) * x ^ d) (S n) = sumR (fun d => prim (rpoly_abs a) d * x ^ d) (S n)).
  { intros x. apply (@sumn_ext R_ring). intros i _. rewrite prim_abs. reflexivity. }
  assert (Q3 : forall x, Rabs (sumR (fun d => prim (rpoly a) d * x ^ d) (S n)) <= sumR (fun d => prim (rpoly_abs a) d * Rabs x ^ d) (S n)).
  { intros x. eapply Rle_trans; [apply sumR_abs|]. apply sumR_le. intros i _. rewrite Rabs_mult, <- prim_abs, <- antider_prim, RPow_abs. apply Rle_refl. }
  rewrite Q1, Q2 in Nt, Ns. replace (2 * (S n - 1) + 1)%nat with (2 * n + 1)%nat in * by lia. replace (2 * (S n - 1))%nat with (2 * n)%nat in * by lia.
  pose proof (@uro_pos f) as U. pose proof (@eta_pos f) as E0. assert (G := pow_ge_1 (uro f) U (2 * n)).
  assert (T0 : forall x, 0 <= 2 * (1 + uro f) ^ (2 * n) * tiny f (Rabs x) (S n)).
  { intros x. apply Rmult_le_pos; [lra|]. apply Rmult_le_pos; [lra|exact (geo_pos (Rabs x) (S n) (Rabs_pos x))]. }
  pose proof (diff_arith f (2 * n + 1) _ _ _ _ _ _ _ _ e (Rle_trans _ _ _ (Rabs_pos _) (Q3 (B2R t))) (Rle_trans _ _ _ (Rabs_pos _) (Q3 (B2R s)))
    (T0 (B2R t)) (T0 (B2R s)) (Q3 _) (Q3 _) He Nt Ns) as K.
  replace (2 * n + 2)%nat with (S (2 * n + 1)) by lia. eapply Rle_trans; [exact K|]. right. f_equal.
  replace (n + 1)%nat with (S n) by lia. rewrite (pow_add _ (2 * n) 1). ring.
Qed.

Theorem C89_integral : forall chk f powi (a : list (flt f)) (s t : flt f), let O := float_num chk f powi in
  (len a <= f_cont_limit f)%N ->
  exists g y, dense_integral O a = Ok g /\ dense_integral_eval O g s t = Ok y /\ near_area a s t y.
Proof.
  intros chk f powi a s t O Hl. destruct (integral_near chk f powi a Hl) as (g & Eg & Lg & Hg).
  destruct (integral_bound chk f powi a g s t Lg Hg) as (y & Ey & Hy). exists g, y. auto.
Qed.

Lemma slope_bound chk f powi (a g : list (flt f)) (x : flt f) n : let O := float_num chk f powi in
  (length g <= n)%nat -> (length a - 1 <= n)%nat ->
  (forall d, is_finite (vcoef g d) = true -> Rabs (B2R (vcoef g d) - deriv f a d) <= uro f * Rabs (deriv f a d) + eta f) ->
  exists y, dense_eval O g x = Ok y /\ near_slope a n x y.
Proof.
  intros O Lg Ln Hg. destruct (dense_eval_ok chk f powi g x) as (y & Ey). fold O in Ey. exists y. split; [exact Ey|].
  intros F Fa v A Fx Fy HF Hv HFa HA. pose proof (eval_near chk f powi g x y (deriv f a) n Ey Fy Fx Lg Hg) as N.
  assert (R1 : forall i, (S n <= i)%nat -> rpoly a i = 0) by (intros i Hi; apply rpoly_out; lia).
  assert (R2 : forall i, (S n <= i)%nat -> rpoly_abs a i = 0) by (intros i Hi; apply rpoly_abs_out; lia).
  rewrite (deriv_slope _ (S n) F _ v R1 HF Hv), (deriv_slope _ (S n) Fa _ A R2 HFa HA).
  replace (S n - 1)%nat with n by lia.
  replace (sumR (fun d => rpoly_abs a (S d) * INR (S d) * Rabs (B2R x) ^ d) n) with (sumR (fun d => Rabs (deriv f a d) * Rabs (B2R x) ^ d) n); [exact N|].
  apply (@sumn_ext R_ring). intros d _. unfold deriv, rpoly_abs. rewrite Rabs_mult. rewrite (Rabs_pos_eq (INR (S d))) by apply pos_INR. reflexivity.
Qed.

Theorem C89_slope : forall chk f powi (a : list (flt f)) (x : flt f), let O := float_num chk f powi in
  (len a <= f_cont_limit f)%N ->
  exists g y, dense_derivative O a = Ok g /\ dense_eval O g x = Ok y /\ near_slope a (length a - 1) x y.
Proof.
  intros chk f powi a x O Hl. destruct (derivative_near chk f powi a Hl) as (g & Eg & Lg & Hg).
  destruct (slope_bound chk f powi a g x _ Lg (le_n _) Hg) as (y & Ey & Hy). exists g, y. auto.
Qed.

(** Arrays keep the size when differentiated, so the leading zero costs two roundings more. *)
Theorem C89_array : forall chk f powi (a : list (flt f)) (s t x : flt f), let O := float_num chk f powi in
  (len a <= f_cont_limit f)%N ->
  (exists g y, arr_integral O a = Ok g /\ dense_integral_eval O g s t = Ok y /\ near_area a s t y) /\
  (exists g y, arr_derivative O a = Ok g /\ arr_eval O g x = Ok y /\ near_slope a (length a) x y).
Proof.
  intros chk f powi a s t x O Hl. split.
  - destruct (arr_integral_near chk f powi a Hl) as (g & Eg & Lg & Hg).
    destruct (integral_bound chk f powi a g s t Lg Hg) as (y & Ey & Hy). exists g, y. auto.
  - destruct (arr_derivative_near chk f powi a Hl) as (g & Eg & Lg & Hg).
    destruct (slope_bound chk f powi a g x (length a) ltac:(lia) ltac:(lia) Hg) as (y & Ey & Hy). exists g, y. auto.
Qed.

(** Binomials and trinomials; the slope of a binomial is exact. *)
Theorem C89_binomial : forall chk f powi (b : bino (flt f)) (s t x : flt f), let O := float_num chk f powi in
  (exists g y, bino_integral O b = Ok g /\ dense_integral_eval O g s t = Ok y /\ near_area (bino_list b) s t y) /\
  (exists y, bino_eval O (bino_derivative O b) x = Ok y /\ (is_finite y = true -> B2R y = B2R (bc0 b))).
Proof.
  intros chk f powi b s t x O. split.
  - destruct (bino_integral_near chk f powi b) as (g & Eg & Lg & Hg).
    destruct (integral_bound chk f powi (bino_list b) g s t Lg Hg) as (y & Ey & Hy). exists g, y. auto.
  - eexists. split; [reflexivity|]. cbn [bc0 bc1 bino_derivative]. intros Hf. destruct (fadd_operands _ _ Hf) as [H1 H2].
    destruct (fmul_operands _ _ H1) as [H3 _]. rewrite (fadd_0_l _ _ Hf); [reflexivity|].
    destruct x as [r|r| |r m e Hm]; try discriminate H3; destruct r; reflexivity.
Qed.
Theorem C89_trinomial : forall chk f powi (b : trino (flt f)) (s t x : flt f), let O := float_num chk f powi in
  (exists g y, trino_integral O b = Ok g /\ dense_integral_eval O g s t = Ok y /\ near_area (trino_list b) s t y) /\
  (exists d y, trino_derivative O b = Ok d /\ trino_eval O d x = Ok y /\ (is_finite y = true ->
     let p := B2R (tc0 b) in let q := B2R (tc1 b) in let X := B2R x in
     Rabs (B2R y - (2 * p * X + q)) <= ((1 + uro f) ^ 4 - 1) * (2 * Rabs p * Rabs X + Rabs q) + (1 + uro f) ^ 3 * eta f * (1 + Rabs X))).
Proof.
  intros chk f powi b s t x O. split.
  - destruct (trino_integral_near chk f powi b) as (g & Eg & Lg & Hg).
    destruct (integral_bound chk f powi (trino_list b) g s t Lg Hg) as (y & Ey & Hy). exists g, y. auto.
  - assert (E2 : of_exact O 2 = Some (f_of_Z f 2)) by (apply (f_exact_small f 2); [cbv; discriminate|apply Z.le_trans with (2 ^ 2)%Z; [lia|apply Z.pow_le_mono_r; pose proof (fsizes f); lia]]).
    unfold trino_derivative. rewrite E2. cbn [expect bind mul float_num O]. fold O.
    set (d := MkTrino (zero O) (fmul (tc0 b) (f_of_Z f 2)) (tc1 b)).
    destruct (C65_trinomial chk f powi d x) as (y & Ey & Hy). fold O in Ey. exists d, y. split; [reflexivity|]. split; [exact Ey|].
    intros Hf. set (p := B2R (tc0 b)). set (q := B2R (tc1 b)). set (X := B2R x). specialize (Hy Hf). cbn zeta in Hy.
    assert (F2 : is_finite (fmul (tc0 b) (f_of_Z f 2)) = true).
    { cbn in Ey. injection Ey as <-. destruct (fadd_operands _ _ Hf) as [H1 _]. destruct (fmul_operands _ _ H1) as [_ H2]. destruct (fadd_operands _ _ H2) as [_ H3]. exact H3. }
    assert (D : B2R (fmul (tc0 b) (f_of_Z f 2)) = 2 * p).
    { rewrite (double_exact _ _ F2). unfold p. ring. }
    cbn [tc0 tc1 tc2 d] in Hy. rewrite D in Hy. change (B2R (zero O)) with 0 in Hy. fold q X in Hy. rewrite Rabs_mult, (Rabs_pos_eq 2) in Hy by lra.
    rewrite Rabs_R0 in Hy. replace (0 * X ^ 2 + 2 * p * X + q) with (2 * p * X + q) in Hy by ring.
    replace (0 * Rabs X ^ 2 + 2 * Rabs p * Rabs X + Rabs q) with (2 * Rabs p * Rabs X + Rabs q) in Hy by ring. exact Hy.
Qed.

(** 0.1 x^2 + 0.7 x + 0.3 over f64, integrated from 0.1 to 0.9 and differentiated at 0.9: everything
    is finite and rounded. *)
Example C89_case : forall powi, let O := float_num true F64 powi in
  let tenth z := fdiv (f_of_Z F64 z) (f_of_Z F64 10) in let a := map tenth [1; 7; 3]%Z in
  (len a <= f_cont_limit F64)%N /\
  rmap (fun y : flt F64 => is_finite y) (g <- dense_integral O a ;; dense_integral_eval O g (tenth 1%Z) (tenth 9%Z)) = Ok true /\
  rmap (fun y : flt F64 => is_finite y) (g <- dense_derivative O a ;; dense_eval O g (tenth 9%Z)) = Ok true /\
  (exists F, forall x, @is_value R_ring (rpoly a) x (F x)) /\ (exists Fa, forall x, @is_value R_ring (rpoly_abs a) x (Fa x)).
Proof.
  intros powi O tenth a. split; [vm_compute; discriminate|]. split; [vm_compute; reflexivity|]. split; [vm_compute; reflexivity|]. split.
  - exists (fun x => sumR (fun d => rpoly a d * x ^ d) 3). intros x. exists 3%nat. split; [apply (rpoly_out F64 a)|reflexivity].
  - exists (fun x => sumR (fun d => rpoly_abs a d * x ^ d) 3). intros x. exists 3%nat. split; [apply (rpoly_abs_out F64 a)|reflexivity].
Qed.

Print Assumptions C89_integral.
Print Assumptions C89_slope.
Print Assumptions C89_array.
Print Assumptions C89_binomial.
Print Assumptions C89_trinomial.

(** ** C90 *)

(** How far the computed value at [x] can be from the true one (C65). *)
Definition doubt {f} (a : list (flt f)) (x : flt f) (e : R) : Prop :=
  exists A, @is_value R_ring (rpoly_abs a) (Rabs (B2R x)) A /\
  let n := (2 * (length a - 1))%nat in
  e = ((1 + uro f) ^ n - 1) * A + (1 + uro f) ^ n * tiny f (Rabs (B2R x)) (length a - 1).

(** A computed value beyond the bound has the sign of the true value. *)
Theorem C90_sign : forall chk f powi (a : list (flt f)) (x y : flt f) (v e : R), let O := float_num chk f powi in
  dense_eval O a x = Ok y -> is_finite y = true -> is_finite x = true -> @is_value R_ring (rpoly a) (B2R x) v ->
  doubt a x e ->
  (e < B2R y -> 0 < v) /\ (B2R y < - e -> v < 0) /\ (v = 0 -> Rabs (B2R y) <= e) /\ (B2R y = 0 -> Rabs v <= e).
Proof.
  intros chk f powi a x y v e O H Fy Fx Hv (A & HA & He). pose proof (C65_error chk f powi a x y v A H Fy Fx Hv HA) as K. cbn zeta in K, He.
  rewrite <- He in K. apply Rabs_le_inv in K. repeat split; intros; try lra; apply Rabs_le; lra.
Qed.

Lemma sum_continuous (c : nat -> R) n : continuity (fun t => sumR (fun d => c d * t ^ d) n).
Proof.
  induction n as [|n IH]; [apply continuity_const; intros ? ?; reflexivity|]. cbn [sumn].
  apply (continuity_plus (fun t => sumR (fun d => c d * t ^ d) n) (fun t => c n * t ^ n)); [exact IH|].
  apply (continuity_scal (fun t => t ^ n)). apply derivable_continuous, derivable_pow.
Qed.

(** Two computed values of opposite certain signs enclose a real root, strictly. *)
Theorem C90_bracket : forall chk f powi (a : list (flt f)) (x1 x2 y1 y2 : flt f) (e1 e2 : R), let O := float_num chk f powi in
  dense_eval O a x1 = Ok y1 -> dense_eval O a x2 = Ok y2 ->
  is_finite y1 = true -> is_finite y2 = true -> is_finite x1 = true -> is_finite x2 = true ->
  doubt a x1 e1 -> doubt a x2 e2 -> B2R x1 < B2R x2 ->
  (e1 < B2R y1 /\ B2R y2 < - e2) \/ (B2R y1 < - e1 /\ e2 < B2R y2) ->
  exists r, B2R x1 < r < B2R x2 /\ @is_value R_ring (rpoly a) r 0.
Proof.
  intros chk f powi a x1 x2 y1 y2 e1 e2 O H1 H2 F1 F2 Fx1 Fx2 D1 D2 Hlt Hs.
  set (G := fun t => sumR (fun d => rpoly a d * t ^ d) (length a)).
  assert (HG : forall t, @is_value R_ring (rpoly a) t (G t)) by (intros t; exists (length a); split; [apply rpoly_out|reflexivity]).
  destruct (C90_sign chk f powi a x1 y1 _ e1 H1 F1 Fx1 (HG _) D1) as (P1 & N1 & _ & _).
  destruct (C90_sign chk f powi a x2 y2 _ e2 H2 F2 Fx2 (HG _) D2) as (P2 & N2 & _ & _).
  assert (S : (0 < G (B2R x1) /\ G (B2R x2) < 0) \/ (G (B2R x1) < 0 /\ 0 < G (B2R x2))) by (destruct Hs as [[Q1 Q2]|[Q1 Q2]]; auto).
  destruct (IVT_cor G (B2R x1) (B2R x2) (sum_continuous _ _) ltac:(lra)) as (r & [R1 R2] & Er).
  { destruct S as [[S1 S2]|[S1 S2]]; nra. }
  exists r. split; [|rewrite <- Er; apply HG].
  destruct R1 as [R1|R1], R2 as [R2|R2]; [split; assumption| | |]; exfalso; subst; destruct S as [[S1 S2]|[S1 S2]]; lra.
Qed.

(** The number of certain sign changes along increasing points bounds the number of real roots from
    below: roots in different brackets are different. *)
Definition certain_pos chk {f} powi (a : list (flt f)) (x : flt f) : Prop := is_finite x = true /\
  exists y e, dense_eval (float_num chk f powi) a x = Ok y /\ is_finite y = true /\ doubt a x e /\ e < B2R y.
Definition certain_neg chk {f} powi (a : list (flt f)) (x : flt f) : Prop := is_finite x = true /\
  exists y e, dense_eval (float_num chk f powi) a x = Ok y /\ is_finite y = true /\ doubt a x e /\ B2R y < - e.
(** [x0 < x1 < ...] with certain signs that alternate. *)
Fixpoint alternates chk {f} powi (a : list (flt f)) (x : flt f) (l : list (flt f)) : Prop :=
  match l with
  | [] => True
  | z :: l => B2R x < B2R z /\
      ((certain_pos chk powi a x /\ certain_neg chk powi a z) \/ (certain_neg chk powi a x /\ certain_pos chk powi a z)) /\ alternates chk powi a z l
  end.
Theorem C90_count : forall chk f powi (a : list (flt f)) (l : list (flt f)) (x : flt f), alternates chk powi a x l ->
  exists rs, length rs = length l /\ NoDup rs /\ forall r, In r rs -> B2R x < r /\ @is_value R_ring (rpoly a) r 0.
Proof.
  intros chk f powi a l. induction l as [|z l IH]; intros x H; [exists []; repeat split; [constructor|contradiction H0|contradiction H0]|].
  cbn [alternates] in H. destruct H as (Hlt & Hs & Hr). destruct (IH z Hr) as (rs & L & N & Hin).
  assert (B : exists r, B2R x < r < B2R z /\ @is_value R_ring (rpoly a) r 0).
  { destruct Hs as [[(Fx & y1 & e1 & E1 & Fy1 & D1 & S1) (Fz & y2 & e2 & E2 & Fy2 & D2 & S2)]|[(Fx & y1 & e1 & E1 & Fy1 & D1 & S1) (Fz & y2 & e2 & E2 & Fy2 & D2 & S2)]];
      apply (C90_bracket chk f powi a x z y1 y2 e1 e2); auto. }
  destruct B as (r & [R1 R2] & Hv). exists (r :: rs). split; [cbn; lia|]. split.
  - constructor; [|exact N]. intros I. destruct (Hin r I). lra.
  - intros q [<-|I]; [split; assumption|]. destruct (Hin q I). split; [lra|assumption].
Qed.

(** x^2 - 2 over f32: the signs at -2, 0 and 2 are certain and alternate, so there are two real
    roots, neither of which is a float. *)
Example C90_case : forall powi, alternates true powi (map (f_of_Z F32) [1; 0; -2]%Z) (f_of_Z F32 (-2)) [f_of_Z F32 0; f_of_Z F32 2].
Proof.
  intros powi. assert (E : forall z, (Z.abs z <= 2 ^ fprec F32)%Z -> B2R (f_of_Z F32 z) = IZR z) by (intros z Hz; apply f_of_Z_small, Hz).
  assert (U := @uro_small F32). assert (U0 := @uro_pos F32). assert (Et := @eta_pos F32).
  assert (Es : eta F32 <= / 16).
  { unfold eta. assert (bpow radix2 (SpecFloat.emin (fprec F32) (femax F32)) <= bpow radix2 (-3)) by (apply bpow_le; vm_compute; discriminate).
    change (bpow radix2 (-3)) with (/ 8) in H. lra. }
  assert (P : (1 + uro F32) ^ 4 <= 1 + / 8).
  { assert ((1 + uro F32) ^ 4 <= (1 + / 16777216) ^ 4) by (apply pow_incr; lra). lra. }
  assert (P1 : 1 <= (1 + uro F32) ^ 4) by (apply pow_R1_Rle; lra).
  assert (D : forall z, (Z.abs z <= 2)%Z -> exists e, doubt (map (f_of_Z F32) [1; 0; -2]%Z) (f_of_Z F32 z) e /\ e < 2).
  { intros z Hz. assert (Az : Rabs (IZR z) <= 2) by (rewrite <- abs_IZR; apply IZR_le, Hz). assert (A0 := Rabs_pos (IZR z)).
    eexists. split; [exists (Rabs (IZR z) ^ 2 + 2); split; [|reflexivity]|].
    - exists 3%nat. split; [apply (rpoly_abs_out F32 (map (f_of_Z F32) [1; 0; -2]%Z))|]. unfold rpoly_abs, vcoef.
      cbn [map rev app nth sumn rpow radd r0 rmul r1 R_ring]. rewrite (E 1%Z), (E 0%Z), (E (-2)%Z), (E z) by (cbn; lia).
      rewrite Rabs_R1, Rabs_R0. replace (Rabs (-2)) with 2 by (unfold Rabs; destruct Rcase_abs; lra). match goal with |- @eq _ ?a ?b => change (@eq R a b) end. ring.
    - cbn zeta. change (2 * (length (map (f_of_Z F32) [1; 0; -2]%Z) - 1))%nat with 4%nat. rewrite (E z) by (cbn; lia).
      change (length (map (f_of_Z F32) [1; 0; -2]%Z) - 1)%nat with 2%nat. unfold tiny.
      set (w := Rabs (IZR z)) in *. set (p := (1 + uro F32) ^ 4) in *. clearbody p. cbn [sumn radd r0 R_ring pow].
      assert (T : 0 <= 0 + 1 + w * 1 <= 3) by lra.
      assert (X1 : (p - 1) * (w * (w * 1) + 2) <= / 8 * 6) by (apply Rmult_le_compat; nra).
      assert (X2 : eta F32 * (0 + 1 + w * 1) <= / 16 * 3) by (apply Rmult_le_compat; lra).
      assert (X3 : p * (eta F32 * (0 + 1 + w * 1)) <= (1 + / 8) * (/ 16 * 3)) by (apply Rmult_le_compat; nra).
      lra. }
  assert (V : forall z w, (Z.abs w <= 2)%Z -> rmap B2SF (dense_eval (float_num true F32 powi) (map (f_of_Z F32) [1; 0; -2]%Z) (f_of_Z F32 z)) = Ok (B2SF (f_of_Z F32 w)) ->
     (Z.abs z <= 2)%Z -> (2 <= w -> certain_pos true powi (map (f_of_Z F32) [1; 0; -2]%Z) (f_of_Z F32 z))%Z /\
       (w <= -2 -> certain_neg true powi (map (f_of_Z F32) [1; 0; -2]%Z) (f_of_Z F32 z))%Z).
  { intros z w Hw H0 Hz.
    assert (H : dense_eval (float_num true F32 powi) (map (f_of_Z F32) [1; 0; -2]%Z) (f_of_Z F32 z) = Ok (f_of_Z F32 w)).
    { destruct (dense_eval _ _ _) as [y| |]; cbn [rmap] in H0; try discriminate H0. f_equal. apply B2SF_inj. injection H0 as H0. exact H0. }
    destruct (D z Hz) as (e & De & He). assert (B : B2R (f_of_Z F32 w) = IZR w) by (apply E; cbn; lia).
    assert (Fw : is_finite (f_of_Z F32 w) = true) by (apply f_of_Z_small; cbn; lia).
    assert (Fz : is_finite (f_of_Z F32 z) = true) by (apply f_of_Z_small; cbn; lia).
    split; intros Q; (split; [exact Fz|exists (f_of_Z F32 w), e; repeat split; auto]); rewrite B; apply IZR_le in Q; lra. }
  assert (M2 : certain_pos true powi (map (f_of_Z F32) [1; 0; -2]%Z) (f_of_Z F32 (-2))).
  { apply (V (-2) 2)%Z; try lia. vm_compute. reflexivity. }
  assert (Z0 : certain_neg true powi (map (f_of_Z F32) [1; 0; -2]%Z) (f_of_Z F32 0)).
  { apply (V 0 (-2))%Z; try lia. vm_compute. reflexivity. }
  assert (Q2 : certain_pos true powi (map (f_of_Z F32) [1; 0; -2]%Z) (f_of_Z F32 2)).
  { apply (V 2 2)%Z; try lia. vm_compute. reflexivity. }
  cbn [alternates]. split; [rewrite !E by (cbn; lia); lra|]. split; [left; split; assumption|].
  split; [rewrite !E by (cbn; lia); lra|]. split; [right; split; assumption|]. exact I.
Qed.

Print Assumptions C90_sign.
Print Assumptions C90_bracket.
Print Assumptions C90_count.
