(** C91: sparse polynomials and monomials over floats with the usual algorithm for [powi]. *)

From Coq Require Import List NArith ZArith Reals Lia Lra Bool Arith Sorted.
From Coq Require Import ZifyBool ZifyNat ZifyN.
From Flocq Require Import Core BinarySingleNaN Relative.
From Verif Require Import Base Num Spec SpecFacts Laws Terms Dense DenseFacts Sparse SparseFacts SparseArith Coef Mono.
From Verif Require Import RealNum Floats FloatFacts FloatErr FloatEval FloatMul SimInst FloatCoef FloatSparse P_FloatErr P_FloatRep P_FloatPow.
Import ListNotations.
Local Open Scope R_scope.

(** ** Model *)

(** [f32::powi] and [f64::powi], called by numerics.rs 111-121.  Rust does not specify the order of the
    multiplications; this is the loop of its runtime library (compiler-builtins, float/pow.rs, not
    part of /repo, the same as __powisf2 and __powidf2 of compiler-rt):
      loop { if b & 1 != 0 { mul *= a }  b >>= 1;  if b == 0 { break }  a *= a }
    with [b] the magnitude of the exponent, and 1 / mul for a negative exponent. *)
Fixpoint powi_loop {f} (b : positive) (a m : flt f) : flt f :=
  match b with
  | xH => fmul m a
  | xO b' => powi_loop b' (fmul a a) m
  | xI b' => powi_loop b' (fmul a a) (fmul m a)
  end.
Definition rt_powi {f} (x : flt f) (z : Z) : flt f :=
  match z with
  | Z0 => f_of_Z f 1
  | Zpos b => powi_loop b x (f_of_Z f 1)
  | Zneg b => fdiv (f_of_Z f 1) (powi_loop b x (f_of_Z f 1))
  end.

(** ** Lemmas *)
Lemma mul_arith u v1 v2 w1 w2 g1 g2 E1 E2 e h : 0 <= u -> 1 <= g1 -> 1 <= g2 -> 0 <= E1 -> 0 <= E2 -> Rabs e <= u ->
  Rabs (v1 - w1) <= (g1 - 1) * Rabs w1 + E1 -> Rabs (v2 - w2) <= (g2 - 1) * Rabs w2 + E2 ->
  Rabs (v1 * v2 * (1 + e) + h - w1 * w2) <= (g1 * g2 * (1 + u) - 1) * (Rabs w1 * Rabs w2) + (1 + u) * (g1 * Rabs w1 * E2 + E1 * Rabs v2) + Rabs h.
Proof.
  intros U G1 G2 P1 P2 He H1 H2. assert (W1 := Rabs_pos w1). assert (W2 := Rabs_pos w2). assert (V2 := Rabs_pos v2).
  assert (B2 : Rabs v2 <= g2 * Rabs w2 + E2) by (replace v2 with (w2 + (v2 - w2)) by ring; eapply Rle_trans; [apply Rabs_triang|]; lra).
  assert (D : Rabs (v1 * v2 - w1 * w2) <= (g1 * g2 - 1) * (Rabs w1 * Rabs w2) + (g1 * Rabs w1 * E2 + E1 * Rabs v2)).
  { replace (v1 * v2 - w1 * w2) with ((v1 - w1) * v2 + w1 * (v2 - w2)) by ring. eapply Rle_trans; [apply Rabs_triang|]. rewrite !Rabs_mult.
    assert (Rabs (v1 - w1) * Rabs v2 <= ((g1 - 1) * Rabs w1 + E1) * Rabs v2) by (apply Rmult_le_compat_r; assumption).
    assert (Rabs w1 * Rabs (v2 - w2) <= Rabs w1 * ((g2 - 1) * Rabs w2 + E2)) by (apply Rmult_le_compat_l; assumption).
    assert ((g1 - 1) * Rabs w1 * Rabs v2 <= (g1 - 1) * Rabs w1 * (g2 * Rabs w2 + E2)) by (apply Rmult_le_compat_l; [apply Rmult_le_pos; lra|exact B2]).
    lra. }
  replace (v1 * v2 * (1 + e) + h - w1 * w2) with ((v1 * v2 - w1 * w2) * (1 + e) + (w1 * w2 * e + h)) by ring.
  eapply Rle_trans; [apply Rabs_triang|]. rewrite Rabs_mult.
  assert (Rabs (1 + e) <= 1 + u) by (eapply Rle_trans; [apply Rabs_triang|]; rewrite Rabs_R1; lra).
  assert (Rabs (v1 * v2 - w1 * w2) * Rabs (1 + e) <= ((g1 * g2 - 1) * (Rabs w1 * Rabs w2) + (g1 * Rabs w1 * E2 + E1 * Rabs v2)) * (1 + u)).
  { apply Rmult_le_compat; auto using Rabs_pos. }
  assert (Rabs (w1 * w2 * e + h) <= Rabs w1 * Rabs w2 * u + Rabs h).
  { eapply Rle_trans; [apply Rabs_triang|]. apply Rplus_le_compat_r. rewrite !Rabs_mult. apply Rmult_le_compat_l; [apply Rmult_le_pos; assumption|assumption]. }
  lra.
Qed.

Section Powi.
Context (f : fty) (X : R).
Notation u := (uro f).
Notation B := (@B2R (fprec f) (femax f)).
Notation rnd := (round radix2 (SpecFloat.fexp (fprec f) (femax f)) (round_mode mode_NE)).

Lemma one_format : generic_format radix2 (SpecFloat.fexp (fprec f) (femax f)) 1.
Proof. apply (int_format f 1). pose proof (fsizes f). apply Z.le_trans with (2 ^ 0)%Z; [cbn; lia|]. apply Z.pow_le_mono_r; lia. Qed.
Lemma rnd_le_1 r : Rabs r <= 1 -> Rabs (rnd r) <= 1.
Proof. intros H. apply abs_round_le_generic; [apply FLT_exp_valid, fprec_pos|apply valid_rnd_N|apply one_format|exact H]. Qed.
Lemma rnd_ge_1 r : 1 <= Rabs r -> 1 <= Rabs (rnd r).
Proof. intros H. apply abs_round_ge_generic; [apply FLT_exp_valid, fprec_pos|apply valid_rnd_N|apply one_format|exact H]. Qed.
Lemma rnd_rel_1 r : 1 <= Rabs r -> exists e, Rabs e <= u /\ rnd r = r * (1 + e).
Proof.
  intros H. pose proof (fsizes f). destruct (relative_error_N_FLT_ex radix2 (SpecFloat.emin (fprec f) (femax f)) (fprec f) (fprec_pos f) (fun z : Z => negb (Z.even z)) r) as (e & He & E).
  - eapply Rle_trans; [|exact H]. change 1 with (bpow radix2 0). apply bpow_le. unfold SpecFloat.emin. lia.
  - exists e. split; [|exact E]. eapply Rle_trans; [exact He|]. unfold uro. rewrite bpow_plus. change (bpow radix2 1) with 2. lra.
Qed.

(** Underflow only matters below 1. *)
Definition under (i : nat) : R := if Rle_dec 1 (Rabs X) then 0 else (1 + u) ^ (i - 1) * INR (i - 1) * eta f.
Definition pw (i : nat) (v : R) : Prop :=
  Rabs (v - X ^ i) <= ((1 + u) ^ (i - 1) - 1) * Rabs (X ^ i) + under i /\ (Rabs X <= 1 -> Rabs v <= 1) /\ (1 <= Rabs X -> 1 <= Rabs v).

Lemma under_pos i : 0 <= under i.
Proof.
  unfold under. destruct Rle_dec; [lra|]. pose proof (pow_ge_1 u (@uro_pos f) (i - 1)). pose proof (@eta_pos f). pose proof (pos_INR (i - 1)).
  apply Rmult_le_pos; [apply Rmult_le_pos|]; lra.
Qed.

Lemma pw_mul i j (a b : flt f) : (0 < i)%nat -> (0 < j)%nat -> pw i (B a) -> pw j (B b) -> is_finite (fmul a b) = true -> pw (i + j) (B (fmul a b)).
Proof.
  intros Hi Hj (A1 & A2 & A3) (B1 & B2 & B3) Hf.
  assert (U := @uro_pos f). assert (Et := @eta_pos f). assert (G1 := pow_ge_1 u U (i - 1)). assert (G2 := pow_ge_1 u U (j - 1)).
  assert (EQ : (1 + u) ^ (i + j - 1) = (1 + u) ^ (i - 1) * (1 + u) ^ (j - 1) * (1 + u)).
  { replace (i + j - 1)%nat with ((i - 1) + (j - 1) + 1)%nat by lia. rewrite !pow_add, pow_1. reflexivity. }
  split; [|split].
  - rewrite pow_add, Rabs_mult, EQ. destruct (Rle_dec 1 (Rabs X)) as [K|K].
    + assert (P : 1 <= Rabs (B a * B b)).
      { rewrite Rabs_mult. specialize (A3 K). specialize (B3 K). nra. }
      rewrite (fmul_round _ _ Hf). destruct (rnd_rel_1 _ P) as (e & He & ->).
      assert (Z : forall k, under k = 0) by (intros k; unfold under; destruct Rle_dec; [reflexivity|contradiction]). rewrite Z in *.
      pose proof (mul_arith u _ _ _ _ _ _ 0 0 e 0 ltac:(lra) G1 G2 ltac:(lra) ltac:(lra) He A1 B1) as M.
      rewrite Rabs_R0 in M. rewrite Rplus_0_r in M at 1. lra.
    + destruct (fmul_err _ _ Hf) as (e & h & He & Hh & ->).
      pose proof (mul_arith u _ _ _ _ _ _ _ _ e h ltac:(lra) G1 G2 (under_pos i) (under_pos j) He A1 B1) as M.
      eapply Rle_trans; [exact M|]. rewrite Rplus_assoc. apply Rplus_le_compat_l.
      assert (XB : Rabs X <= 1) by lra. specialize (B2 XB).
      assert (W1 : Rabs (X ^ i) <= 1). { rewrite <- RPow_abs, <- (pow1 i). apply pow_incr. split; [apply Rabs_pos|exact XB]. }
      assert (N : INR (i + j - 1) = INR (i - 1) + INR (j - 1) + 1).
      { rewrite <- plus_INR, <- S_INR. f_equal. lia. }
      assert (P1 := under_pos i). assert (P2 := under_pos j). unfold under in *. destruct Rle_dec; [contradiction|]. rewrite EQ, N.
      set (g1 := (1 + u) ^ (i - 1)) in *. set (g2 := (1 + u) ^ (j - 1)) in *. set (n1 := INR (i - 1)) in *. set (n2 := INR (j - 1)) in *.
      assert (N1 : 0 <= n1) by apply pos_INR. assert (N2 : 0 <= n2) by apply pos_INR.
      assert (T1 : g1 * Rabs (X ^ i) * (g2 * n2 * eta f) <= g1 * 1 * (g2 * n2 * eta f)).
      { apply Rmult_le_compat_r; [assumption|]. apply Rmult_le_compat_l; lra. }
      assert (T2 : g1 * n1 * eta f * Rabs (B b) <= g1 * n1 * eta f * 1) by (apply Rmult_le_compat_l; assumption).
      assert (T3 : g1 * n1 * eta f * 1 <= g1 * n1 * eta f * g2) by (apply Rmult_le_compat_l; assumption).
      assert (T4 : 1 <= g1 * g2 * (1 + u)).
      { assert (1 * 1 <= g1 * g2) by (apply Rmult_le_compat; lra). assert (1 * 1 <= g1 * g2 * (1 + u)) by (apply Rmult_le_compat; lra). lra. }
      assert (T5 : 1 * eta f <= g1 * g2 * (1 + u) * eta f) by (apply Rmult_le_compat_r; lra).
      assert (T6 : (1 + u) * (g1 * Rabs (X ^ i) * (g2 * n2 * eta f) + g1 * n1 * eta f * Rabs (B b)) <= (1 + u) * (g1 * 1 * (g2 * n2 * eta f) + g1 * n1 * eta f * g2)).
      { apply Rmult_le_compat_l; lra. }
      lra.
  - intros K. rewrite (fmul_round _ _ Hf). apply rnd_le_1. rewrite Rabs_mult. specialize (A2 K). specialize (B2 K).
    assert (P1 := Rabs_pos (B a)). assert (P2 := Rabs_pos (B b)). nra.
  - intros K. rewrite (fmul_round _ _ Hf). apply rnd_ge_1. rewrite Rabs_mult. specialize (A3 K). specialize (B3 K). nra.
Qed.

Lemma powi_loop_finite b : forall a m : flt f, is_finite (powi_loop b a m) = true -> is_finite a = true /\ is_finite m = true.
Proof.
  induction b as [b IH|b IH|]; intros a m H; cbn [powi_loop] in H.
  - destruct (IH _ _ H) as [H1 H2]. split; [apply (fmul_operands _ _ H1)|apply (fmul_operands _ _ H2)].
  - destruct (IH _ _ H) as [H1 H2]. split; [apply (fmul_operands _ _ H1)|exact H2].
  - destruct (fmul_operands _ _ H). split; assumption.
Qed.

Lemma fmul_1_l (m a : flt f) : B m = 1 -> is_finite (fmul m a) = true -> B (fmul m a) = B a.
Proof. intros E Hf. rewrite (fmul_round _ _ Hf), E, Rmult_1_l. apply rnd_B2R. Qed.

Lemma powi_loop_pw b : forall (a m : flt f) i j, (0 < i)%nat -> pw i (B a) -> (j = 0%nat /\ B m = 1) \/ ((0 < j)%nat /\ pw j (B m)) ->
  is_finite (powi_loop b a m) = true -> pw (j + i * Pos.to_nat b) (B (powi_loop b a m)).
Proof.
  assert (step : forall (a m : flt f) i j, (0 < i)%nat -> pw i (B a) -> (j = 0%nat /\ B m = 1) \/ ((0 < j)%nat /\ pw j (B m)) ->
    is_finite (fmul m a) = true -> pw (j + i) (B (fmul m a))).
  { intros a m i j Hi Ha [[-> Hm]|[Hj Hm]] Hf; [rewrite (fmul_1_l m a Hm Hf); exact Ha|apply pw_mul; assumption]. }
  induction b as [b IH|b IH|]; intros a m i j Hi Ha Hm Hf; cbn [powi_loop] in *.
  - destruct (powi_loop_finite _ _ _ Hf) as [F1 F2].
    replace (j + i * Pos.to_nat b~1)%nat with (j + i + (i + i) * Pos.to_nat b)%nat by lia.
    apply IH; [lia|apply pw_mul; assumption| |exact Hf]. right. split; [lia|]. apply step; assumption.
  - destruct (powi_loop_finite _ _ _ Hf) as [F1 F2].
    replace (j + i * Pos.to_nat b~0)%nat with (j + (i + i) * Pos.to_nat b)%nat by lia.
    apply IH; [lia|apply pw_mul; assumption|exact Hm|exact Hf].
  - replace (j + i * Pos.to_nat 1)%nat with (j + i)%nat by lia. apply step; assumption.
Qed.
End Powi.

Lemma B_one f : B2R (f_of_Z f 1) = 1.
Proof. apply (f_of_Z_small f 1). pose proof (fsizes f). apply Z.le_trans with (2 ^ 0)%Z; [cbn; lia|]. apply Z.pow_le_mono_r; lia. Qed.

(** ** Theorems *)

(** A power with exponent n is as accurate as n - 1 successive products. *)
Theorem C91_powi : forall f (x : flt f) (n : nat), is_finite (rt_powi x (Z.of_nat n)) = true ->
  Rabs (B2R (rt_powi x (Z.of_nat n)) - B2R x ^ n) <=
    ((1 + uro f) ^ (n - 1) - 1) * Rabs (B2R x) ^ n + (1 + uro f) ^ (n - 1) * INR (n - 1) * eta f.
Proof.
  intros f x [|n] Hf.
  - cbn [Z.of_nat rt_powi]. rewrite B_one. cbn [pow Nat.sub INR]. rewrite !Rminus_diag_eq by reflexivity. rewrite Rabs_R0. lra.
  - replace (Z.of_nat (S n)) with (Zpos (Pos.of_succ_nat n)) in * by reflexivity. cbn [rt_powi] in *.
    pose proof (powi_loop_pw f (B2R x) (Pos.of_succ_nat n) x (f_of_Z f 1) 1 0 (le_n _)) as K.
    rewrite SuccNat2Pos.id_succ in K. rewrite Nat.mul_1_l, Nat.add_0_l in K. destruct K as (K & _ & _).
    + split; [|split; intros; assumption]. cbn [pow Nat.sub INR]. rewrite Rmult_1_r, Rminus_diag_eq by reflexivity. rewrite Rabs_R0.
      pose proof (under_pos f (B2R x) 1). lra.
    + left. split; [reflexivity|apply B_one].
    + exact Hf.
    + rewrite RPow_abs. eapply Rle_trans; [exact K|]. apply Rplus_le_compat_l. unfold under. destruct Rle_dec; [|apply Rle_refl].
      pose proof (pow_ge_1 (uro f) (@uro_pos f) (S n - 1)). pose proof (@eta_pos f). pose proof (pos_INR (S n - 1)).
      apply Rmult_le_pos; [apply Rmult_le_pos|]; lra.
Qed.

(** [rt_powi] up to exponent [D]. *)
Definition cut {f} (D : N) (x : flt f) (z : Z) : flt f := if ((0 <=? z) && (z <=? Z.of_N D))%Z then rt_powi x z else B754_nan.

Lemma cut_accurate f D (x : flt f) : powi_accurate (cut D) ((1 + uro f) ^ N.to_nat D - 1) ((1 + uro f) ^ N.to_nat D * INR (N.to_nat D) * eta f) x.
Proof.
  intros z Hf. unfold cut in *. destruct ((0 <=? z) && (z <=? Z.of_N D))%Z eqn:K; [|discriminate Hf].
  apply andb_true_iff in K. destruct K as [K1 K2]. apply Z.leb_le in K1, K2. rewrite <- (Z2Nat.id z K1) in *. set (n := Z.to_nat z) in *.
  pose proof (C91_powi f x n Hf) as P. rewrite <- pow_powerRZ, <- RPow_abs.
  assert (U := @uro_pos f). assert (Et := @eta_pos f).
  assert (G : (1 + uro f) ^ (n - 1) <= (1 + uro f) ^ N.to_nat D) by (apply Rle_pow; [lra|lia]).
  assert (G1 := pow_ge_1 (uro f) U (n - 1)).
  assert (N1 : INR (n - 1) <= INR (N.to_nat D)) by (apply le_INR; lia). assert (N0 := pos_INR (n - 1)).
  eapply Rle_trans; [exact P|]. apply Rplus_le_compat.
  - apply Rmult_le_compat_r; [apply pow_le, Rabs_pos|lra].
  - apply Rmult_le_compat_r; [lra|]. apply Rmult_le_compat; lra.
Qed.

Lemma cut_same f D k (x : flt f) : (k <= D)%N -> (D < 2 ^ 31)%N -> f_upow (cut D) x k = f_upow rt_powi x k.
Proof. intros H1 H2. unfold f_upow, cut. rewrite as_i32_small by lia. destruct ((0 <=? Z.of_N k) && (Z.of_N k <=? Z.of_N D))%Z eqn:K; [reflexivity|lia]. Qed.
Lemma cut_eval chk f D (m : bmap (flt f)) (x : flt f) : Forall (fun kv => (fst kv <= D)%N) m -> (D < 2 ^ 31)%N ->
  sparse_eval (float_num chk f (f_upow (cut D))) m x = sparse_eval (float_num chk f (f_upow rt_powi)) m x.
Proof.
  intros Hm HD. rewrite !eval_fold. f_equal. generalize (fzero f). induction Hm as [|kv m Hk _ IH]; intros s; [reflexivity|]. cbn [fold_left].
  rewrite IH. f_equal. unfold sstep. pose proof (cut_same f D (fst kv) x Hk HD) as E. unfold f_upow in E. rewrite E. reflexivity.
Qed.
Lemma cut_bounds f D : 0 <= (1 + uro f) ^ N.to_nat D - 1 /\ 0 <= (1 + uro f) ^ N.to_nat D * INR (N.to_nat D) * eta f.
Proof.
  pose proof (pow_ge_1 (uro f) (@uro_pos f) (N.to_nat D)). pose proof (@eta_pos f). pose proof (pos_INR (N.to_nat D)).
  split; [lra|]. apply Rmult_le_pos; [apply Rmult_le_pos|]; lra.
Qed.

(** Evaluation of a sparse polynomial of degree at most D with n entries. *)
Theorem C91_sparse : forall chk f D (m : bmap (flt f)) (x : flt f), let O := float_num chk f (f_upow rt_powi) in
  let n := length m in let d := N.to_nat D in
  swf m -> Forall (fun kv => (fst kv <= D)%N) m -> (D < 2 ^ 31)%N ->
  exists y, sparse_eval O m x = Ok y /\ (is_finite y = true -> forall v A C,
    @is_value R_ring (spoly m) (B2R x) v -> @is_value R_ring (spoly_abs m) (Rabs (B2R x)) A -> @is_value R_ring (spoly_abs m) 1 C ->
    Rabs (B2R y - v) <= ((1 + uro f) ^ (n + 1 + d) - 1) * A + (1 + uro f) ^ (n + 1 + d) * INR d * eta f * C + (1 + uro f) ^ n * INR n * eta f).
Proof.
  intros chk f D m x O n d Hs Hm HD. destruct (cut_bounds f D) as [B1 B2].
  destruct (C84_sparse chk f (cut D) ((1 + uro f) ^ N.to_nat D - 1) ((1 + uro f) ^ N.to_nat D * INR (N.to_nat D) * eta f) m x) as (y & Ey & H). rewrite (cut_eval chk f D m x Hm HD) in Ey. exists y. split; [exact Ey|].
  intros Hf v A C Hv HA HC. specialize (H v A C B1 B2 (cut_accurate f D x) Hs).
  assert (Hm' : Forall (fun kv => (fst kv < 2 ^ 31)%N) m) by (eapply Forall_impl; [|exact Hm]; intros kv; cbn beta; lia).
  specialize (H Hm' Hf Hv HA HC). fold n d in H. rewrite (pow_add _ (n + 1) d). eapply Rle_trans; [exact H|]. right. ring.
Qed.

Theorem C91_monomial : forall chk f (c : flt f) k (x : flt f), let O := float_num chk f (f_upow rt_powi) in
  (k < 2 ^ 31)%N -> let d := N.to_nat k in
  exists y, mono_eval O (MkMono c k) x = Ok y /\ (is_finite y = true ->
    Rabs (B2R y - B2R c * B2R x ^ d) <=
      ((1 + uro f) ^ (d + 1) - 1) * (Rabs (B2R c) * Rabs (B2R x) ^ d) + (1 + uro f) ^ (d + 1) * INR d * eta f * Rabs (B2R c) + eta f).
Proof.
  intros chk f c k x O Hk d. destruct (cut_bounds f k) as [B1 B2].
  destruct (C84_monomial chk f (cut k) ((1 + uro f) ^ N.to_nat k - 1) ((1 + uro f) ^ N.to_nat k * INR (N.to_nat k) * eta f) c k x) as (y & Ey & H). exists y. split.
  - rewrite <- Ey. unfold mono_eval. cbn [Mono.mcoef mdeg upow mul float_num O]. rewrite (cut_same f k k x (N.le_refl k) Hk). reflexivity.
  - intros Hf. specialize (H B1 B2 (cut_accurate f k x) Hk Hf). fold d in H. rewrite (pow_add _ d 1), pow_1. eapply Rle_trans; [exact H|]. right. ring.
Qed.

(** ** Whole numbers *)
Lemma fint_one f : fint (f_of_Z f 1) 1.
Proof. apply fint_of_Z. pose proof (fsizes f). apply Z.le_trans with (2 ^ 0)%Z; [cbn; lia|]. apply Z.pow_le_mono_r; lia. Qed.

Lemma powi_loop_fint f b : forall (a m : flt f) ca cm, fint a ca -> fint m cm -> (cm = 0 -> ca = 0)%Z ->
  (Z.abs (cm * ca ^ Zpos b) <= 2 ^ fprec f)%Z -> fint (powi_loop b a m) (cm * ca ^ Zpos b)%Z.
Proof.
  assert (big : forall cm c k, (1 <= k)%Z -> (cm = 0 -> c = 0)%Z -> (Z.abs c <= Z.abs (cm * c ^ k))%Z).
  { intros cm c k Hk H0. rewrite Z.abs_mul, Z.abs_pow. destruct (Z.eq_dec c 0) as [->|Hc]; [cbn; nia|].
    assert (1 <= Z.abs cm)%Z by lia. assert (Z.abs c ^ 1 <= Z.abs c ^ k)%Z by (apply Z.pow_le_mono_r; lia). rewrite Z.pow_1_r in *. nia. }
  assert (sq : forall c k, (c ^ Zpos k~0 = (c * c) ^ Zpos k)%Z).
  { intros c k. rewrite <- Z.pow_2_r, <- Z.pow_mul_r by lia. f_equal. }
  assert (sq1 : forall c k, (c ^ Zpos k~1 = c * (c * c) ^ Zpos k)%Z).
  { intros c k. rewrite <- sq. rewrite <- Z.pow_succ_r by lia. f_equal. }
  induction b as [b IH|b IH|]; intros a m ca cm Ha Hm H0 Hb; cbn [powi_loop].
  - rewrite sq1 in *. rewrite Z.mul_assoc in *.
    assert (Hz : (cm * ca = 0 -> ca * ca = 0)%Z) by (clear -H0; intros E; apply Z.mul_eq_0 in E; destruct E as [E|E]; [rewrite (H0 E)|rewrite E]; reflexivity).
    assert (F : fint (fmul a a) (ca * ca)) by (apply fint_mul; try assumption; eapply Z.le_trans; [apply (big (cm * ca)%Z _ (Zpos b)); [lia|exact Hz]|exact Hb]).
    assert (Hb2 : (Z.abs (cm * ca) <= 2 ^ fprec f)%Z).
    { destruct (Z.eq_dec ca 0) as [->|Hc]; [rewrite Z.mul_0_r; cbn; apply Z.pow_nonneg; lia|].
      eapply Z.le_trans; [|exact Hb]. rewrite (Z.abs_mul (cm * ca)), Z.abs_pow.
      assert (1 <= Z.abs (ca * ca) ^ Zpos b)%Z by (rewrite <- (Z.pow_1_l (Zpos b)) by lia; apply Z.pow_le_mono_l; clear -Hc; nia). set (t := (Z.abs (ca * ca) ^ Zpos b)%Z) in *. clearbody t. pose proof (Z.abs_nonneg (cm * ca)). clear -H H1. nia. }
    apply IH; [exact F|apply fint_mul; assumption|exact Hz|exact Hb].
  - rewrite sq in *. assert (Hz : (cm = 0 -> ca * ca = 0)%Z) by (clear -H0; intros E; rewrite (H0 E); reflexivity).
    apply IH; [|exact Hm|exact Hz|exact Hb]. apply fint_mul; try assumption. eapply Z.le_trans; [apply (big cm _ (Zpos b)); [lia|exact Hz]|exact Hb].
  - rewrite Z.pow_1_r in *. apply fint_mul; assumption.
Qed.

(** Powers of whole numbers are exact while they are in the range in which every whole number is a float. *)
Theorem C91_powi_whole : forall f (x : flt f) (c : Z) (n : nat), fint x c -> (Z.abs (c ^ Z.of_nat n) <= 2 ^ fprec f)%Z ->
  fint (rt_powi x (Z.of_nat n)) (c ^ Z.of_nat n).
Proof.
  intros f x c [|n] Hx Hb; [apply fint_one|]. replace (Z.of_nat (S n)) with (Zpos (Pos.of_succ_nat n)) in * by reflexivity. cbn [rt_powi].
  rewrite <- (Z.mul_1_l (c ^ Zpos _)) in *. apply powi_loop_fint; [exact Hx|apply fint_one|discriminate|exact Hb].
Qed.

Definition zsum (x : Z) (l : list (N * Z)) : Z := fold_right (fun kv s => snd kv * x ^ Z.of_N (fst kv) + s)%Z 0%Z l.
Definition zmag (x : Z) (l : list (N * Z)) : Z := fold_right (fun kv s => Z.abs (snd kv) * Z.abs x ^ Z.of_N (fst kv) + s)%Z 0%Z l.
Lemma zmag_pos x l : (0 <= zmag x l)%Z.
Proof. induction l as [|kv l IH]; [apply Z.le_refl|]. cbn [zmag fold_right]. fold (zmag x l). pose proof (Z.pow_nonneg (Z.abs x) (Z.of_N (fst kv))). nia. Qed.

Lemma fold_whole f (x : flt f) c (m : bmap (flt f)) l : fint x c -> Forall2 (fun kv kz => fst kv = fst kz /\ (fst kv < 2 ^ 31)%N /\ fint (snd kv) (snd kz) /\ snd kz <> 0%Z) m l ->
  forall s zs, fint s zs -> (Z.abs zs + zmag c l <= 2 ^ fprec f)%Z -> fint (fold_left (sstep f rt_powi x) m s) (zs + zsum c l)%Z.
Proof.
  intros Hx. induction 1 as [|kv [k z] m l (E & Hk & Hv & Hz) _ IH]; intros s zs Hs Hb; cbn [fold_left zsum fold_right].
  - rewrite Z.add_0_r. exact Hs.
  - cbn [zmag fold_right fst snd] in *. fold (zmag c l) in Hb. fold (zsum c l). pose proof (zmag_pos c l). unfold sstep at 2. rewrite E in *.
    assert (P : (Z.abs (c ^ Z.of_N k) <= Z.abs z * Z.abs c ^ Z.of_N k)%Z).
    { rewrite Z.abs_pow. pose proof (Z.pow_nonneg (Z.abs c) (Z.of_N k)). nia. }
    assert (Hp : fint (rt_powi x (as_i32 k)) (c ^ Z.of_N k)).
    { rewrite as_i32_small by exact Hk. rewrite <- N_nat_Z. apply C91_powi_whole; [exact Hx|]. rewrite N_nat_Z. lia. }
    assert (M : fint (fmul (snd kv) (rt_powi x (as_i32 k))) (z * c ^ Z.of_N k)).
    { apply fint_mul; [exact Hv|exact Hp|]. rewrite Z.abs_mul, Z.abs_pow. lia. }
    assert (T : (Z.abs (z * c ^ Z.of_N k) = Z.abs z * Z.abs c ^ Z.of_N k)%Z) by (rewrite Z.abs_mul, Z.abs_pow; reflexivity).
    rewrite Z.add_assoc. apply IH; [apply fint_add; [exact Hs|exact M|lia]|lia].
Qed.

Lemma zsum_R f (m : bmap (flt f)) l c g h : Forall2 (fun kv kz => fst kv = fst kz /\ (fst kv < 2 ^ 31)%N /\ fint (snd kv) (snd kz) /\ snd kz <> 0%Z) m l ->
  (forall z, h (IZR z) = IZR (g z)) ->
  lsum (fun kv : N * flt f => h (B2R (snd kv)) * IZR c ^ N.to_nat (fst kv)) m = IZR (fold_right (fun kv s => g (snd kv) * c ^ Z.of_N (fst kv) + s)%Z 0%Z l).
Proof.
  intros H G. induction H as [|kv [k z] m l (E & Hk & [_ Hv] & Hz) _ IH]; [reflexivity|]. cbn [lsum fold_right fst snd] in *. fold (@lsum (N * flt f)).
  unfold lsum in IH |- *. rewrite IH. rewrite plus_IZR, mult_IZR. rewrite Hv, G, E. do 2 f_equal. rewrite pow_IZR, N_nat_Z. reflexivity.
Qed.

(** Sparse polynomials with whole coefficients, none of them a stored zero: no rounding at all
    while the sum of the absolute terms is within 2^24 or 2^53. *)
Theorem C91_whole : forall chk f (m : bmap (flt f)) (x : flt f) c v A, let O := float_num chk f (f_upow rt_powi) in
  swf m -> Forall (fun kv => (fst kv < 2 ^ 31)%N) m -> fint x c ->
  Forall (fun kv => exists z, fint (snd kv) z /\ z <> 0%Z) m ->
  @is_value R_ring (spoly m) (B2R x) v -> @is_value R_ring (spoly_abs m) (Rabs (B2R x)) A -> A <= IZR (2 ^ fprec f) ->
  exists y, sparse_eval O m x = Ok y /\ is_finite y = true /\ B2R y = v.
Proof.
  intros chk f m x c v A O [Hs _] Hk Hx Hm Hv HA Hb. assert (Nd : NoDup (map fst m)) by (exact (sorted_nodup _ Hs)).
  assert (L : exists l, Forall2 (fun kv kz => fst kv = fst kz /\ (fst kv < 2 ^ 31)%N /\ fint (snd kv) (snd kz) /\ snd kz <> 0%Z) m l).
  { clear -Hk Hm. induction m as [|kv m IH]; [exists []; constructor|]. inversion Hk; subst. inversion Hm; subst.
    destruct (IH H2 H4) as (l & Hl). destruct H3 as (z & Hz & Hz0). exists ((fst kv, z) :: l). constructor; [|exact Hl]. auto. }
  destruct L as (l & Hl).
  pose proof (spoly_sum f (@B2R (fprec f) (femax f)) m (B2R x) eq_refl Nd) as V.
  pose proof (spoly_sum f (fun a => Rabs (B2R a)) m (Rabs (B2R x)) Rabs_R0 Nd) as VA.
  pose proof (@is_value_fun R_ring _ _ _ _ Hv V) as Ev. pose proof (@is_value_fun R_ring _ _ _ _ HA VA) as EA.
  destruct Hx as [Fx Ex]. rewrite Ex in Ev, EA. rewrite <- abs_IZR in EA.
  pose proof (zsum_R f m l c (fun z => z) (fun r => r) Hl (fun z => eq_refl)) as S1. cbn beta in S1.
  pose proof (zsum_R f m l (Z.abs c) Z.abs Rabs Hl (fun z => eq_sym (abs_IZR z))) as S2. cbn beta in S2.
  rewrite S1 in Ev. rewrite S2 in EA. rewrite EA in Hb. apply le_IZR in Hb.
  destruct (fold_whole f x c m l (Logic.conj Fx Ex) Hl (fzero f) 0%Z (fint_zero f)) as [F E].
  { exact Hb. }
  eexists. split; [apply eval_fold|]. split; [exact F|]. rewrite E, Ev. reflexivity.
Qed.

(** A stored zero is not harmless.  (x^2 + 1) - x^2 keeps an entry for x^2 and is equal to the
    polynomial 1 by [==]; at 2^600 it is not a number for f64, because the power overflows. *)
Theorem C92_float_eval_refuted : exists (a b c : bmap (flt F64)) (x : flt F64), swf a /\ swf b /\ swf c /\ is_finite x = true /\
  forall chk, let O := float_num chk F64 (f_upow rt_powi) in exists r y z,
    sparse_sub O a b = Ok r /\ sparse_eq O r c = true /\ peq (spoly r) (spoly c) /\
    sparse_eval O r x = Ok y /\ is_nan y = true /\ sparse_eval O c x = Ok z /\ is_finite z = true /\ B2R z = 1.
Proof.
  set (w := f_of_Z F64 1). exists [(0%N, w); (2%N, w)], [(2%N, w)], [(0%N, w)], (f_of_Z F64 (2 ^ 600)).
  split; [|split; [|split]]; [| | |split; [vm_compute; reflexivity|]].
  1-3: split; repeat constructor; vm_compute; congruence.
  intros chk O. do 3 eexists. split; [reflexivity|]. split; [vm_compute; reflexivity|]. split; [|split; [reflexivity|]; split; [vm_compute; reflexivity|]; split; [reflexivity|]; split; [vm_compute; reflexivity|]].
  - intros [|[|[|d]]]; unfold spoly, P_FloatErr.mcoef; try reflexivity.
    cbn [m_insert fst snd N.compare m_get]. replace (N.of_nat (S (S (S d))) =? 0)%N with false by lia. cbn [m_get N.compare Pos.compare Pos.compare_cont].
    replace (N.of_nat (S (S (S d))) =? 2)%N with false by lia. reflexivity.
  - change (B2R (fadd (fzero F64) (fmul w w)) = 1).
    assert (F1 : is_finite (fmul w w) = true) by (vm_compute; reflexivity). assert (F2 : is_finite (fadd (fzero F64) (fmul w w)) = true) by (vm_compute; reflexivity).
    rewrite (fadd_0_l _ _ F2) by reflexivity. rewrite (fmul_1_l F64 w w (B_one F64) F1). apply B_one.
Qed.

(** 0.1 x^5 + 0.7 over f64 at 0.3: finite, rounded, within the exponents; and 3 x^4 - 5 x at -7, where nothing is rounded. *)
Example C91_case : let O := float_num true F64 (f_upow rt_powi) in
  let tenth z := fdiv (f_of_Z F64 z) (f_of_Z F64 10) in let m := [(0%N, tenth 7%Z); (5%N, tenth 1%Z)] in
  swf m /\ Forall (fun kv => (fst kv <= 5)%N) m /\
  rmap (fun y : flt F64 => is_finite y) (sparse_eval O m (tenth 3%Z)) = Ok true /\
  rmap (fun y : flt F64 => is_finite y) (mono_eval O (MkMono (tenth 7%Z) 9) (tenth 3%Z)) = Ok true /\
  feqb (rt_powi (tenth 3%Z) 5) (fmul (tenth 3%Z) (fmul (tenth 3%Z) (fmul (tenth 3%Z) (fmul (tenth 3%Z) (tenth 3%Z))))) = true.
Proof. split; [split; repeat constructor; vm_compute; congruence|]. split; [repeat constructor; cbn; lia|]. repeat split; vm_compute; reflexivity. Qed.
Example C91_whole_case : let O := float_num true F64 (f_upow rt_powi) in let m := [(1%N, f_of_Z F64 (-5)); (4%N, f_of_Z F64 3)] in
  swf m /\ rmap B2SF (sparse_eval O m (f_of_Z F64 (-7))) = Ok (B2SF (f_of_Z F64 (3 * 7 ^ 4 + 35))) /\
  Forall (fun kv => exists z, fint (snd kv) z /\ z <> 0%Z) m.
Proof.
  split; [split; repeat constructor; vm_compute; congruence|]. split; [vm_compute; reflexivity|].
  repeat constructor; [exists (-5)%Z|exists 3%Z]; (split; [apply fint_of_Z; vm_compute; congruence|discriminate]).
Qed.

Print Assumptions C91_powi.
Print Assumptions C91_sparse.
Print Assumptions C91_monomial.
Print Assumptions C91_powi_whole.
Print Assumptions C91_whole.
Print Assumptions C92_float_eval_refuted.
