(** C69: with whole-number coefficients the roots reported are finite, and distinct whenever the
    exact ones are. *)

From Coq Require Import List NArith ZArith Reals Lia Lra Psatz Bool.
From Flocq Require Import Core BinarySingleNaN.
From Verif Require Import Base Num Floats FloatFacts FloatErr SimInst Terms Dense Mono Bino Trino Sparse Roots FloatQuad P_Roots3 P_FloatQuad.
Import ListNotations.
Local Open Scope R_scope.

Section Parts.
Context {f : fty}.
Notation prec := (fprec f).

Lemma whole_within (x : flt f) z : fint x z -> (Z.abs z <= 2 ^ prec)%Z -> within (B2R x) 0 prec.
Proof.
  intros [_ E] H. pose proof (fsizes f) as S. destruct (Z.eq_dec z 0) as [->|N]; [left; exact E|right].
  rewrite E, <- abs_IZR. split.
  - change (bpow radix2 0) with (IZR 1). apply IZR_le. lia.
  - rewrite <- (IZR_Zpower radix2) by lia. apply IZR_le. exact H.
Qed.

Lemma quotient_parts (x y : flt f) : is_finite x = true -> within (B2R x) 0 prec -> B2R y <> 0 -> within (B2R y) 0 prec ->
  is_finite (fdiv x y) = true /\ Rabs (B2R (fdiv x y)) <= bpow radix2 prec /\
  exists e, Rabs e <= uro f /\ B2R (fdiv x y) = B2R x / B2R y * (1 + e).
Proof.
  intros Fx Wx Hy Wy.
  assert (E : (SpecFloat.emin prec (femax f) + prec - 1 <= 0 - prec)%Z) by (destruct f; vm_compute; discriminate).
  pose proof (fsizes f) as S.
  destruct (fdiv_within x y 0 prec 0 prec Fx Hy Wx Wy ltac:(lia) ltac:(lia)) as (F & W & R).
  split; [exact F|]. split; [|exact R]. rewrite Z.sub_0_r in W. destruct W as [->|[_ W]]; [rewrite Rabs_R0; apply bpow_ge_0|exact W].
Qed.
End Parts.

(** The difference of the two computed roots does not vanish. *)
Lemma apart (b s t u e1 e2 e3 e4 : R) : 0 < u <= / 16777216 -> 0 < t -> 1 <= Rabs s * (1 + u) -> Rabs b * u <= / 1024 ->
  Rabs e1 <= u -> Rabs e2 <= u -> Rabs e3 <= u -> Rabs e4 <= u ->
  let b' := b * t * (1 + e1) in let q := s * t * (1 + e2) in
  (b' + q) * (1 + e3) <> (b' - q) * (1 + e4).
Proof.
  intros Hu Ht Hs Hb H1 H2 H3 H4 b' q E. unfold b', q in E.
  assert (E' : s * ((1 + e2) * (2 + e3 + e4)) = b * ((1 + e1) * (e4 - e3))).
  { apply Rmult_eq_reg_r with t; [|lra]. lra. }
  apply (f_equal Rabs) in E'. rewrite !Rabs_mult in E'.
  apply Rabs_le_inv in H1, H2, H3, H4.
  rewrite (Rabs_pos_eq (1 + e2)), (Rabs_pos_eq (2 + e3 + e4)), (Rabs_pos_eq (1 + e1)) in E' by lra.
  assert (D : Rabs (e4 - e3) <= 2 * u) by (apply Rabs_le; lra).
  pose proof (Rabs_pos s) as Ps. pose proof (Rabs_pos b) as Pb. pose proof (Rabs_pos (e4 - e3)) as Pd.
  set (S := Rabs s) in *. set (B := Rabs b) in *. set (d := Rabs (e4 - e3)) in *.
  assert (L : 1 / 2 <= S * ((1 + e2) * (2 + e3 + e4))).
  { assert (1 / 2 <= S) by nra. assert (1 <= (1 + e2) * (2 + e3 + e4)) by nra. nra. }
  assert (U : B * ((1 + e1) * d) <= B * (2 * (2 * u))).
  { apply Rmult_le_compat_l; [exact Pb|]. apply Rmult_le_compat; lra. }
  nra.
Qed.

Theorem C69_distinct : forall f chk powi cb rd l (a b c : flt f) za zb zc,
  fint a za -> fint b zb -> fint c zc -> za <> 0%Z -> small_quadratic f za zb zc ->
  let D := (zb * zb - 4 * za * zc)%Z in
  let r := trino_roots (float_num chk f powi) (ieee_rops f cb rd l) (MkTrino a b c) in
  ((0 < D)%Z -> exists x y, r = Ok (TwoRealRoots x y) /\ is_finite x = true /\ is_finite y = true /\ B2R x <> B2R y) /\
  ((D < 0)%Z -> exists x y, r = Ok (TwoComplexRoots (x, y) (x, fneg y)) /\ is_finite x = true /\ is_finite y = true /\ B2R y <> 0).
Proof.
  intros f chk powi cb rd l a b c za zb zc Ha Hb Hc Hz HS D r. unfold r, trino_roots. cbn [tc0 tc1 tc2].
  rewrite trinomial_roots_float. cbv zeta. destruct (discriminant_whole f a b c za zb zc Ha Hb Hc HS) as [HD H2]. fold D in HD.
  rewrite (fint_eqb f _ _ _ _ HD (fint_zero f)), (fint_pos f _ _ HD).
  set (d := fsub _ _) in *. set (a2 := fmul a (f_of_Z f 2)) in *.
  destruct HS as (S1 & _ & S3 & S4). fold D in S3.
  pose proof (fsizes f) as Z.
  assert (Hb' : (Z.abs zb <= 2 ^ (fprec f - 10))%Z).
  { assert (E : (2 ^ fprec f <= 2 ^ (fprec f - 10) * 2 ^ (fprec f - 10))%Z)
      by (rewrite <- Z.pow_add_r by lia; apply Z.pow_le_mono_r; lia).
    assert (0 < 2 ^ (fprec f - 10))%Z by (apply Z.pow_pos_nonneg; lia).
    generalize dependent (2 ^ (fprec f - 10))%Z. generalize dependent (2 ^ fprec f)%Z. clear. intros N ? ? ? M ? ?. nia. }
  assert (Hbp : (Z.abs zb <= 2 ^ fprec f)%Z).
  { eapply Z.le_trans; [exact Hb'|]. apply Z.pow_le_mono_r; lia. }
  assert (N2 : B2R a2 <> 0) by (rewrite (proj2 H2); apply not_0_IZR; lia).
  assert (W2 : within (B2R a2) 0 (fprec f)) by (apply (whole_within a2 (za * 2) H2); lia).
  pose proof (fint_neg f _ _ Hb) as Hn.
  assert (Wn : within (B2R (fneg b)) 0 (fprec f)) by (apply (whole_within (fneg b) (- zb) Hn); lia).
  destruct (quotient_parts (fneg b) a2 (proj1 Hn) Wn N2 W2) as (F1 & L1 & e1 & He1 & E1).
  assert (Wd : within (B2R d) (2 * 0) (2 * fprec f)).
  { eapply within_weaken; [..|apply (whole_within d D HD S3)]; lia. }
  assert (Em : (SpecFloat.emin (fprec f) (femax f) + fprec f - 1 <= 0)%Z) by (destruct f; vm_compute; discriminate).
  destruct (fsqrt_within d 0 (fprec f) (proj1 HD) Wd ltac:(lia)) as (Fs & Ws & es & Hes & Es).
  destruct (quotient_parts (f_abs_sqrt d) a2 Fs Ws N2 W2) as (F2 & L2 & e2 & He2 & E2).
  assert (Hu : 0 < uro f <= / 16777216) by (split; [apply uro_pos|apply uro_small]).
  assert (SD : D <> 0%Z -> 1 <= B2R (f_abs_sqrt d)).
  { intros HD0. destruct Ws as [E0|[W0 _]].
    - exfalso. rewrite Es in E0. apply Rabs_le_inv in Hes. apply Rmult_integral in E0. destruct E0 as [E0|E0]; [|lra].
      apply sqrt_eq_0 in E0; [|apply Rabs_pos]. apply (Rabs_no_R0 (B2R d)); [|exact E0]. rewrite (proj2 HD). apply not_0_IZR, HD0.
    - change (bpow radix2 0) with 1 in W0. rewrite Rabs_pos_eq in W0; [exact W0|]. rewrite Es. apply Rabs_le_inv in Hes.
      apply Rmult_le_pos; [apply sqrt_pos|lra]. }
  split; intros H.
  - destruct (Z.eqb_spec D 0); [lia|]. destruct (Z.ltb_spec 0 D); [|lia].
    destruct (fadd_small (fdiv (fneg b) a2) (fdiv (f_abs_sqrt d) a2) (fprec f) F1 F2 L1 L2 ltac:(lia) ltac:(lia)) as (F3 & e3 & He3 & E3).
    destruct (fsub_small (fdiv (fneg b) a2) (fdiv (f_abs_sqrt d) a2) (fprec f) F1 F2 L1 L2 ltac:(lia) ltac:(lia)) as (F4 & e4 & He4 & E4).
    eexists _, _. split; [reflexivity|]. split; [exact F3|]. split; [exact F4|].
    rewrite E3, E4, E1, E2, (proj2 Hn). specialize (SD ltac:(lia)). set (s := B2R (f_abs_sqrt d)) in *.
    set (q := B2R a2) in *. assert (Pq : 0 < / Rabs q) by (apply Rinv_0_lt_compat, Rabs_pos_lt, N2).
    assert (BU : Rabs (IZR (- zb)) * uro f <= / 1024).
    { rewrite <- abs_IZR, Z.abs_opp. apply IZR_le in Hb'. rewrite (IZR_Zpower radix2) in Hb' by lia.
      apply Rle_trans with (bpow radix2 (fprec f - 10) * uro f); [apply Rmult_le_compat_r; lra|].
      unfold uro. rewrite <- bpow_plus. replace (fprec f - 10 + - fprec f)%Z with (-10)%Z by lia. apply Rle_refl. }
    destruct (Rle_or_lt 0 q) as [Q|Q].
    + rewrite (Rabs_pos_eq q Q) in Pq. unfold Rdiv. apply (apart (IZR (- zb)) s (/ q) (uro f)); auto.
      rewrite Rabs_pos_eq by lra. nra.
    + rewrite (Rabs_left q Q), Rinv_opp in Pq. intros K.
      apply (apart (- IZR (- zb)) (- s) (- / q) (uro f) e1 e2 e3 e4); auto; try (rewrite Rabs_Ropp; assumption).
      * rewrite Rabs_Ropp, Rabs_pos_eq by lra. nra.
      * unfold Rdiv in K. lra.
  - destruct (Z.eqb_spec D 0); [lia|]. destruct (Z.ltb_spec 0 D); [lia|].
    eexists _, _. split; [reflexivity|]. split; [exact F1|]. split; [exact F2|]. rewrite E2. specialize (SD ltac:(lia)).
    apply Rabs_le_inv in He2. unfold Rdiv. repeat apply Rmult_integral_contrapositive_currified; try lra. apply Rinv_neq_0_compat, N2.
Qed.

(** x^2 - x - 1 and x^2 + x + 1 in f32. *)
Example C69_distinct_case : forall chk powi cb rd l, let O := float_num chk F32 powi in let S := ieee_rops F32 cb rd l in
  (exists x y, trino_roots O S (MkTrino (f_of_Z F32 1) (f_of_Z F32 (-1)) (f_of_Z F32 (-1))) = Ok (TwoRealRoots x y) /\ B2R x <> B2R y) /\
  (exists x y, trino_roots O S (MkTrino (f_of_Z F32 1) (f_of_Z F32 1) (f_of_Z F32 1)) = Ok (TwoComplexRoots (x, y) (x, fneg y)) /\ B2R y <> 0).
Proof.
  intros chk powi cb rd l O S.
  assert (I : forall z, (Z.abs z <= 1)%Z -> fint (f_of_Z F32 z) z).
  { intros z H. apply fint_of_Z. cbn [fprec]. eapply Z.le_trans; [exact H|]. vm_compute. discriminate. }
  split.
  - destruct (C69_distinct F32 chk powi cb rd l _ _ _ 1 (-1) (-1) (I 1%Z ltac:(lia)) (I (-1)%Z ltac:(lia)) (I (-1)%Z ltac:(lia)) ltac:(lia)) as [H _].
    { unfold small_quadratic. vm_compute. repeat split; discriminate. }
    destruct (H eq_refl) as (x & y & E & _ & _ & N). exists x, y. auto.
  - destruct (C69_distinct F32 chk powi cb rd l _ _ _ 1 1 1 (I 1%Z ltac:(lia)) (I 1%Z ltac:(lia)) (I 1%Z ltac:(lia)) ltac:(lia)) as [_ H].
    { unfold small_quadratic. vm_compute. repeat split; discriminate. }
    destruct (H eq_refl) as (x & y & E & _ & _ & N). exists x, y. auto.
Qed.

Print Assumptions C69_distinct.
