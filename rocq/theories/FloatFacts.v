(** Facts about the float model: which integers are represented exactly. *)

From Coq Require Import List NArith ZArith Reals Lia Lra Bool.
From Coq Require Import ZifyBool ZifyNat ZifyN.
From Flocq Require Import Core BinarySingleNaN.
From Verif Require Import Base Num Floats.
Import ListNotations.
Local Open Scope Z_scope.

Section FloatFacts.
Context (f : fty).
Notation prec := (fprec f).
Notation emax := (femax f).
Notation emin := (SpecFloat.emin prec emax).
Notation fexp := (SpecFloat.fexp prec emax).

Lemma fsizes : 24 <= prec /\ 128 <= emax /\ prec <= 53 /\ emin <= -149 /\ prec + 64 <= emax.
Proof. destruct f; vm_compute; repeat split; discriminate. Qed.

#[local] Instance fexp_valid : Valid_exp fexp := FLT_exp_valid emin prec.

Lemma int_format z : Z.abs z <= 2 ^ prec -> generic_format radix2 fexp (IZR z).
Proof.
  intros Hz. pose proof fsizes as (P1 & P2 & P3 & P4 & _). apply (generic_format_FLT radix2 emin prec).
  destruct (Z.eq_dec (Z.abs z) (2 ^ prec)) as [E|E].
  - exists (Float radix2 (z / 2) 1).
    + unfold F2R. simpl Fnum. simpl Fexp. change (bpow radix2 1) with 2%R. rewrite <- mult_IZR. f_equal.
      assert (Hd : z = (2 ^ (prec - 1)) * 2 \/ z = (- 2 ^ (prec - 1)) * 2).
      { replace (2 ^ prec) with (2 ^ (prec - 1) * 2) in E; [lia|].
        replace prec with (Z.succ (prec - 1)) at 2 by lia. rewrite Z.pow_succ_r by lia. lia. }
      destruct Hd as [-> | ->]; rewrite Z.div_mul by lia; reflexivity.
    + simpl Fnum. change (Z.pow_pos 2) with (Zpower_pos 2). change (radix_val radix2) with 2.
      assert (2 ^ prec = 2 ^ (prec - 1) * 2).
      { replace prec with (Z.succ (prec - 1)) at 1 by lia. rewrite Z.pow_succ_r by lia. lia. }
      assert (0 < 2 ^ (prec - 1)) by (apply Z.pow_pos_nonneg; lia).
      assert (Z.abs (z / 2) <= 2 ^ (prec - 1)).
      { apply Z.abs_le. split.
        - apply Z.div_le_lower_bound; lia.
        - apply Z.div_le_upper_bound; lia. }
      lia.
    + simpl. lia.
  - exists (Float radix2 z 0).
    + unfold F2R. simpl. rewrite Rmult_1_r. reflexivity.
    + simpl Fnum. change (radix_val radix2) with 2. lia.
    + simpl. lia.
Qed.

(** An integer in the format is converted exactly. *)
Lemma f_of_Z_format z : generic_format radix2 fexp (IZR z) -> (Rabs (IZR z) < bpow radix2 emax)%R ->
  B2R (f_of_Z f z) = IZR z /\ is_finite (f_of_Z f z) = true.
Proof.
  intros Hf Hb. pose proof (binary_normalize_correct prec emax _ _ mode_NE z 0 false) as H. cbv zeta in H.
  assert (E : F2R (Float radix2 z 0) = IZR z) by (unfold F2R; simpl; apply Rmult_1_r).
  rewrite E in H. rewrite round_generic in H; [|apply valid_rnd_N|exact Hf].
  rewrite Rlt_bool_true in H by exact Hb. unfold f_of_Z. tauto.
Qed.

Lemma small_lt_emax z : Z.abs z <= 2 ^ 64 -> (Rabs (IZR z) < bpow radix2 emax)%R.
Proof.
  intros Hz. pose proof fsizes as (P1 & P2 & P3 & P4 & P5). rewrite <- abs_IZR.
  apply Rle_lt_trans with (bpow radix2 64).
  - rewrite <- IZR_Zpower by lia. apply IZR_le. change (Zpower radix2 64) with (2 ^ 64). exact Hz.
  - apply bpow_lt. lia.
Qed.

Lemma f_of_Z_small z : Z.abs z <= 2 ^ prec -> B2R (f_of_Z f z) = IZR z /\ is_finite (f_of_Z f z) = true.
Proof.
  intros Hz. apply f_of_Z_format; [apply int_format, Hz|]. apply small_lt_emax.
  pose proof fsizes. assert (2 ^ prec <= 2 ^ 64) by (apply Z.pow_le_mono_r; lia). lia.
Qed.

Lemma f_of_Z_representable z (x : flt f) : is_finite x = true -> B2R x = IZR z ->
  B2R (f_of_Z f z) = IZR z /\ is_finite (f_of_Z f z) = true.
Proof.
  intros Hx E. apply f_of_Z_format; rewrite <- E.
  - apply generic_format_B2R.
  - apply abs_B2R_lt_emax.
Qed.

(** Truncation of an integral value. *)
Lemma Btrunc_int (x : flt f) z : B2R x = IZR z -> Btrunc x = z.
Proof.
  intros E. apply eq_IZR. rewrite (Btrunc_correct prec emax _ _), E. apply round_generic; [apply valid_rnd_ZR|].
  apply generic_format_FIX. exists (Float radix2 z 0); [unfold F2R; simpl; symmetry; apply Rmult_1_r|reflexivity].
Qed.

Lemma f_to_usize_int (x : flt f) (n : N) : is_finite x = true -> B2R x = IZR (Z.of_N n) -> (n <= USIZE_MAX)%N ->
  f_to_usize x = n.
Proof.
  intros Hf E Hn. pose proof (Btrunc_int x _ E) as Ht. destruct x as [s|s| |s m e Hb]; try discriminate Hf.
  - simpl in *. lia.
  - unfold f_to_usize. rewrite Ht. lia.
Qed.

(** A finite value of magnitude at least 2^prec is an integer. *)
Lemma large_is_int (x : flt f) : (bpow radix2 prec <= B2R x)%R -> exists z, B2R x = IZR z.
Proof.
  intros H. destruct x as [s|s| |s m e Hb]; simpl B2R in *;
    try (exfalso; pose proof (bpow_gt_0 radix2 prec); lra).
  assert (He : 0 <= e).
  { apply Z.nlt_ge. intros He.
    assert (Hm : Z.pos m < 2 ^ prec).
    { pose proof (canonical_canonical_mantissa prec emax s m e) as Hc.
      unfold SpecFloat.bounded in Hb. apply andb_prop in Hb. destruct Hb as [Hb _].
      specialize (Hc Hb). unfold canonical in Hc.
      assert (Hd : Z.pos (SpecFloat.digits2_pos m) <= prec).
      { unfold SpecFloat.canonical_mantissa in Hb. apply Zeq_bool_eq in Hb.
        unfold SpecFloat.fexp in Hb. pose proof fsizes. destruct (Z.max_spec (Z.pos (SpecFloat.digits2_pos m) + e - prec) emin) as [[? K]|[? K]]; rewrite K in Hb; lia. }
      rewrite Digits.Zpos_digits2_pos in Hd.
      pose proof (Digits.Zdigits_correct radix2 (Z.pos m)) as [_ Hc2]. change (Z.abs (Z.pos m)) with (Z.pos m) in Hc2.
      apply Z.lt_le_trans with (1 := Hc2). change (2 ^ prec) with (Zpower radix2 prec).
      apply Zpower_le. exact Hd. }
    assert (Hlt : (F2R (Float radix2 (cond_Zopp s (Z.pos m)) e) < bpow radix2 prec)%R).
    { apply Rle_lt_trans with (F2R (Float radix2 (Z.pos m) e)).
      - apply F2R_le. destruct s; simpl; lia.
      - unfold F2R. simpl Fnum. simpl Fexp.
        apply Rlt_trans with (IZR (Z.pos m)).
        + rewrite <- (Rmult_1_r (IZR (Z.pos m))) at 2. apply Rmult_lt_compat_l; [apply IZR_lt; lia|].
          change 1%R with (bpow radix2 0). apply bpow_lt. exact He.
        + rewrite <- IZR_Zpower by (pose proof fsizes; lia). apply IZR_lt. exact Hm. }
    lra. }
  exists (cond_Zopp s (Z.pos m) * 2 ^ e). unfold F2R. simpl Fnum. simpl Fexp. rewrite mult_IZR. f_equal.
  rewrite <- IZR_Zpower by exact He. reflexivity.
Qed.

(** Rounding an integer gives an integer. *)
Lemma f_of_Z_int z : 0 <= z <= 2 ^ 64 -> is_finite (f_of_Z f z) = true /\ exists w, B2R (f_of_Z f z) = IZR w.
Proof.
  intros Hz. destruct (Z.le_gt_cases z (2 ^ prec)) as [H|H].
  - destruct (f_of_Z_small z ltac:(lia)) as [A B]. split; [exact B|]. exists z. exact A.
  - pose proof fsizes as (P1 & P2 & P3 & P4 & P5).
    pose proof (binary_normalize_correct prec emax _ _ mode_NE z 0 false) as K. cbv zeta in K.
    assert (E : F2R (Float radix2 z 0) = IZR z) by (unfold F2R; simpl; apply Rmult_1_r).
    rewrite E in K.
    assert (Hr : (bpow radix2 prec <= round radix2 fexp (round_mode mode_NE) (IZR z) <= bpow radix2 64)%R).
    { split.
      - apply round_ge_generic; [exact fexp_valid|apply valid_rnd_N| |].
        + apply generic_format_bpow. unfold SpecFloat.fexp. destruct (Z.max_spec (prec + 1 - prec) emin) as [[? ->]|[? ->]]; lia.
        + rewrite <- IZR_Zpower by lia. apply IZR_le. change (Zpower radix2 prec) with (2 ^ prec). lia.
      - apply round_le_generic; [exact fexp_valid|apply valid_rnd_N| |].
        + apply generic_format_bpow. unfold SpecFloat.fexp. destruct (Z.max_spec (64 + 1 - prec) emin) as [[? ->]|[? ->]]; lia.
        + rewrite <- IZR_Zpower by lia. apply IZR_le. change (Zpower radix2 64) with (2 ^ 64). lia. }
    rewrite Rlt_bool_true in K.
    2:{ rewrite Rabs_pos_eq by (pose proof (bpow_gt_0 radix2 prec); lra).
        apply Rle_lt_trans with (1 := proj2 Hr). apply bpow_lt. lia. }
    fold (f_of_Z f z) in K. destruct K as (K1 & K2 & _). split; [exact K2|].
    apply large_is_int. rewrite K1. apply Hr.
Qed.

End FloatFacts.
