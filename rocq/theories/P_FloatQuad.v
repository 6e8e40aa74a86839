(** C68-C70: roots of f32 and f64 polynomials of degree 1 and 2, with rounding. *)

From Coq Require Import List NArith ZArith Reals Lia Lra Psatz Bool.
From Flocq Require Import Core BinarySingleNaN.
From Verif Require Import Base Num Floats FloatFacts FloatErr SimInst Terms Dense Mono Bino Trino Sparse Roots FloatQuad P_Roots3.
Import ListNotations.
Local Open Scope R_scope.

(** ** C68 *)

(** No float of the type is nearer to [v]. *)
Definition nearest {f} (r : flt f) (v : R) : Prop :=
  is_finite r = true /\ forall y : flt f, is_finite y = true -> Rabs (B2R r - v) <= Rabs (B2R y - v).

(** The largest finite value. *)
Definition fmax (f : fty) : R := bpow radix2 (femax f) - bpow radix2 (femax f - fprec f).

Lemma fmax_format f : generic_format radix2 (SpecFloat.fexp (fprec f) (femax f)) (fmax f).
Proof.
  pose proof (fsizes f) as Z. apply generic_format_FLT.
  exists (Float radix2 (2 ^ fprec f - 1) (femax f - fprec f)); cbn [Fnum Fexp].
  - unfold fmax, F2R. cbn [Fnum Fexp]. rewrite minus_IZR, (IZR_Zpower radix2) by lia.
    rewrite Rmult_minus_distr_r, <- bpow_plus, Rmult_1_l. do 2 f_equal. lia.
  - assert (0 < 2 ^ fprec f)%Z by (apply Z.pow_pos_nonneg; lia). change (radix_val radix2) with 2%Z. lia.
  - unfold SpecFloat.emin. lia.
Qed.

(** LinearBinomial::root and the linear case of roots() return the float nearest to the
    root. *)
Theorem C68_linear_root : forall f chk powi (a b : flt f), is_finite a = true -> is_finite b = true ->
  B2R a <> 0 -> Rabs (B2R b) <= Rabs (B2R a) * fmax f ->
  exists r, bino_root (float_num chk f powi) (MkBino a b) = Ok (OneRealRoot r) /\ nearest r (- B2R b / B2R a).
Proof.
  intros f chk powi a b Fa Fb Ha Hb. exists (fdiv (fneg b) a). split.
  - unfold bino_root. cbn [bc0 bc1 float_num is_zero neg div bind]. rewrite feqb_zero by exact Fa.
    rewrite Req_bool_false by exact Ha. reflexivity.
  - assert (Fn : is_finite (fneg b) = true) by (unfold fneg; rewrite is_finite_Bopp; exact Fb).
    assert (En : B2R (fneg b) = - B2R b) by apply B2R_Bopp.
    assert (F : is_finite (fdiv (fneg b) a) = true).
    { apply fdiv_finite; [exact Fn|exact Ha|]. rewrite En. apply Rle_lt_trans with (fmax f).
      - apply abs_round_le_generic; [apply FLT_exp_valid, _ |apply valid_rnd_N|apply fmax_format|].
        unfold Rdiv. rewrite Rabs_mult, Rabs_inv, Rabs_Ropp. pose proof (Rabs_pos_lt _ Ha).
        apply Rmult_le_reg_r with (Rabs (B2R a)); [assumption|]. rewrite Rmult_assoc, Rinv_l by lra. lra.
      - unfold fmax. pose proof (bpow_gt_0 radix2 (femax f - fprec f)). lra. }
    split; [exact F|]. intros y Fy. rewrite (fdiv_round _ _ Ha F), En.
    apply (round_N_pt radix2 (SpecFloat.fexp (fprec f) (femax f)) (fun z => negb (Z.even z)) (- B2R b / B2R a)).
    apply generic_format_B2R.
Qed.

(** A zero leading coefficient, of either sign. *)
Theorem C68_no_leading : forall f chk powi (a b : flt f), is_finite a = true -> is_finite b = true -> B2R a = 0 ->
  (B2R b = 0 -> bino_root (float_num chk f powi) (MkBino a b) = Ok InfiniteRoots) /\
  (B2R b <> 0 -> bino_root (float_num chk f powi) (MkBino a b) = Ok NoRoots).
Proof.
  intros f chk powi a b Fa Fb Ha. unfold bino_root. cbn [bc0 bc1 float_num is_zero]. rewrite !feqb_zero by assumption.
  rewrite Req_bool_true by exact Ha. split; intros H; [rewrite Req_bool_true|rewrite Req_bool_false]; auto.
Qed.

(** 3 x - 1 in f64: the root is the float nearest 1/3, which is not 1/3. *)
Example C68_case : exists r, bino_root (float_num true F64 (fun x _ => x)) (MkBino (f_of_Z F64 3) (f_of_Z F64 (-1))) = Ok (OneRealRoot r) /\
  nearest r (1 / 3) /\ B2R r = IZR 6004799503160661 * bpow radix2 (-54).
Proof.
  destruct (f_of_Z_small F64 3) as [E3 F3]; [vm_compute; discriminate|].
  destruct (f_of_Z_small F64 (-1)) as [E1 F1]; [vm_compute; discriminate|].
  destruct (C68_linear_root F64 true (fun x _ => x) (f_of_Z F64 3) (f_of_Z F64 (-1)) F3 F1) as (r & E & N).
  - rewrite E3. lra.
  - rewrite E3, E1. assert (1 <= fmax F64); [|rewrite (Rabs_left (-1)), (Rabs_pos_eq 3); lra].
    unfold fmax. cbn [femax fprec]. change (1024 - 53)%Z with (1 + 970)%Z. change 1024%Z with (1 + (53 + 970))%Z at 1.
    rewrite !bpow_plus. pose proof (bpow_le radix2 0 970 ltac:(lia)). change (bpow radix2 0) with 1 in *.
    assert (2 <= bpow radix2 53) by (change 2 with (bpow radix2 1); apply bpow_le; lia). change (bpow radix2 1) with 2. nra.
  - exists r. split; [exact E|]. split.
    + rewrite E3, E1 in N. replace (- (-1) / 3) with (1 / 3) in N by field. exact N.
    + assert (r = fdiv (fneg (f_of_Z F64 (-1))) (f_of_Z F64 3)) as ->.
      { unfold bino_root in E. cbn [bc0 bc1 float_num is_zero neg div bind] in E.
        replace (feqb (f_of_Z F64 3) (fzero F64)) with false in E by (vm_compute; reflexivity). congruence. }
      rewrite <- SF2R_B2SF.
      replace (B2SF _) with (SpecFloat.S754_finite false 6004799503160661 (-54)) by (vm_compute; reflexivity). reflexivity.
Qed.

(** ** C69 *)

Section Whole.
Context {f : fty}.
Notation prec := (fprec f).
Notation emax := (femax f).
Notation fexp := (SpecFloat.fexp prec emax).
Notation rnd := (Generic_fmt.round radix2 fexp (round_mode mode_NE)).

(** A half of a whole number is representable. *)
Lemma half_round z : (Z.abs z < 2 ^ prec)%Z -> rnd (IZR z / 2) = IZR z / 2 /\ Rabs (IZR z / 2) < bpow radix2 emax.
Proof.
  intros H. pose proof (fsizes f) as Z. split.
  - apply round_generic; [apply valid_rnd_N|]. apply generic_format_FLT. exists (Float radix2 z (-1)); cbn [Fnum Fexp].
    + unfold F2R. cbn [Fnum Fexp]. change (bpow radix2 (-1)) with (/ 2). reflexivity.
    + exact H.
    + unfold SpecFloat.emin. lia.
  - unfold Rdiv. rewrite Rabs_mult, (Rabs_pos_eq (/ 2)) by lra. rewrite <- abs_IZR.
    apply Rle_lt_trans with (bpow radix2 prec); [|apply bpow_lt; lia].
    rewrite <- (IZR_Zpower radix2) by lia. apply IZR_lt in H. pose proof (IZR_le 0 (Z.abs z) ltac:(lia)). simpl in *. lra.
Qed.

Lemma fdiv_half (x y : flt f) z w : is_finite x = true -> B2R x = IZR w * IZR z -> B2R y = IZR w * 2 -> w <> 0%Z -> (Z.abs z < 2 ^ prec)%Z ->
  is_finite (fdiv x y) = true /\ B2R (fdiv x y) = IZR z / 2.
Proof.
  intros Fx Ex Ey Hw Hz. assert (Hw' : IZR w <> 0) by (apply not_0_IZR, Hw). destruct (half_round z Hz) as [R1 R2].
  assert (Hy : B2R y <> 0) by (rewrite Ey; lra).
  assert (Q : B2R x / B2R y = IZR z / 2) by (rewrite Ex, Ey; field; exact Hw').
  assert (F : is_finite (fdiv x y) = true) by (apply fdiv_finite; [exact Fx|exact Hy|rewrite Q, R1; exact R2]).
  split; [exact F|]. rewrite (fdiv_round x y Hy F), Q. exact R1.
Qed.

Lemma fsqrt_square (x : flt f) k : fint x (k * k) -> (Z.abs k <= 2 ^ prec)%Z -> fint (f_abs_sqrt x) (Z.abs k).
Proof.
  intros [Fx Ex] Hk. destruct (sqrt_round x Fx) as [F E]. split; [exact F|]. rewrite E, Ex.
  rewrite mult_IZR, Rabs_pos_eq by apply Rle_0_sqr.
  change (IZR k * IZR k) with (Rsqr (IZR k)). rewrite sqrt_Rsqr_abs, <- abs_IZR.
  apply round_generic; [apply valid_rnd_N|]. apply int_format. lia.
Qed.

End Whole.

(** The products, and their difference, of the discriminant are exactly representable. *)
Definition small_quadratic (f : fty) (a b c : Z) : Prop :=
  (b * b <= 2 ^ fprec f /\ Z.abs (4 * a * c) <= 2 ^ fprec f /\ Z.abs (b * b - 4 * a * c) <= 2 ^ fprec f /\ Z.abs (2 * a) <= 2 ^ fprec f)%Z.

Lemma discriminant_whole f (a b c : flt f) za zb zc : fint a za -> fint b zb -> fint c zc -> small_quadratic f za zb zc ->
  fint (fsub (fmul b b) (fmul (fmul a c) (f_of_Z f 4))) (zb * zb - 4 * za * zc) /\ fint (fmul a (f_of_Z f 2)) (za * 2).
Proof.
  intros Ha Hb Hc (H1 & H2 & H3 & H4). pose proof (fsizes f) as Z.
  assert (P : (2 ^ 24 <= 2 ^ fprec f)%Z) by (apply Z.pow_le_mono_r; lia). change (2 ^ 24)%Z with 16777216%Z in P.
  assert (I4 : fint (f_of_Z f 4) 4) by (apply fint_of_Z; lia). assert (I2 : fint (f_of_Z f 2) 2) by (apply fint_of_Z; lia).
  assert (H1' : (Z.abs (zb * zb) <= 2 ^ fprec f)%Z) by (rewrite Z.abs_eq by apply Z.square_nonneg; exact H1).
  split.
  - replace (zb * zb - 4 * za * zc)%Z with (zb * zb - za * zc * 4)%Z by ring.
    apply fint_sub; [apply fint_mul; [assumption..|lia]|apply fint_mul; [apply fint_mul; [assumption..|lia]|assumption|lia]|].
    replace (zb * zb - za * zc * 4)%Z with (zb * zb - 4 * za * zc)%Z by ring. exact H3.
  - apply fint_mul; [assumption..|lia].
Qed.

(** With whole-number coefficients the real/complex answer is the sign of the exact
    discriminant. *)
Theorem C69_classification : forall f chk powi cb rd l (a b c : flt f) za zb zc,
  fint a za -> fint b zb -> fint c zc -> small_quadratic f za zb zc ->
  let D := (zb * zb - 4 * za * zc)%Z in
  let r := trino_roots (float_num chk f powi) (ieee_rops f cb rd l) (MkTrino a b c) in
  (D = 0%Z -> exists x, r = Ok (TwoRealRoots x x)) /\
  ((0 < D)%Z -> exists x y, r = Ok (TwoRealRoots x y)) /\
  ((D < 0)%Z -> exists x y, r = Ok (TwoComplexRoots (x, y) (x, fneg y))).
Proof.
  intros f chk powi cb rd l a b c za zb zc Ha Hb Hc HS D r. unfold r, trino_roots. cbn [tc0 tc1 tc2].
  rewrite trinomial_roots_float. cbv zeta. destruct (discriminant_whole f a b c za zb zc Ha Hb Hc HS) as [HD _]. fold D in HD.
  rewrite (fint_eqb f _ _ _ _ HD (fint_zero f)), (fint_pos f _ _ HD).
  split; [|split]; intros H.
  - rewrite H. eexists. reflexivity.
  - destruct (Z.eqb_spec D 0); [lia|]. destruct (Z.ltb_spec 0 D); [|lia]. eexists _, _. reflexivity.
  - destruct (Z.eqb_spec D 0); [lia|]. destruct (Z.ltb_spec 0 D); [lia|]. eexists _, _. reflexivity.
Qed.

(** A quadratic a (x - r) (x - s) of whole numbers: both roots come out exactly. *)
Theorem C69_whole_roots : forall f chk powi cb rd l (a b c : flt f) za r s,
  fint a za -> fint b (- (za * (r + s))) -> fint c (za * (r * s)) -> za <> 0%Z ->
  small_quadratic f za (- (za * (r + s))) (za * (r * s)) ->
  exists x y, trino_roots (float_num chk f powi) (ieee_rops f cb rd l) (MkTrino a b c) = Ok (TwoRealRoots x y) /\
    ((0 < za)%Z -> fint x (Z.max r s) /\ fint y (Z.min r s)) /\
    ((za < 0)%Z -> fint x (Z.min r s) /\ fint y (Z.max r s)).
Proof.
  intros f chk powi cb rd l a b c za r s Ha Hb Hc Hza HS. unfold trino_roots. cbn [tc0 tc1 tc2].
  rewrite trinomial_roots_float. cbv zeta. destruct (discriminant_whole f a b c _ _ _ Ha Hb Hc HS) as [HD H2].
  set (D := fsub _ _) in *. set (a2 := fmul a (f_of_Z f 2)) in *.
  assert (P : (2 ^ 24 <= 2 ^ fprec f)%Z) by (apply Z.pow_le_mono_r; pose proof (fsizes f); lia). change (2 ^ 24)%Z with 16777216%Z in P.
  assert (ED : (- (za * (r + s)) * - (za * (r + s)) - 4 * za * (za * (r * s)) = (za * (r - s)) * (za * (r - s)))%Z) by ring.
  destruct HS as (S1 & _ & S3 & _). rewrite ED in *.
  assert (SQ : forall k, (k * k <= 2 ^ fprec f -> Z.abs k < 2 ^ fprec f)%Z).
  { intros k Hk. generalize dependent (2 ^ fprec f)%Z. clear. intros N H1 H2. nia. }
  assert (B1 : (Z.abs (za * (r - s)) < 2 ^ fprec f)%Z) by (apply SQ; lia).
  assert (B2 : (Z.abs (za * (r + s)) < 2 ^ fprec f)%Z) by (rewrite <- Z.abs_opp; apply SQ; exact S1).
  assert (B3 : (Z.abs (r - s) < 2 ^ fprec f)%Z) by (rewrite Z.abs_mul in B1; nia).
  assert (B4 : (Z.abs (r + s) < 2 ^ fprec f)%Z) by (rewrite Z.abs_mul in B2; nia).
  assert (E2 : B2R a2 = IZR za * 2) by (rewrite <- mult_IZR; exact (proj2 H2)).
  destruct (fint_neg f _ _ Hb) as [Fnb Enb]. rewrite Z.opp_involutive, mult_IZR in Enb.
  destruct (fdiv_half (fneg b) a2 (r + s) za Fnb Enb E2 Hza B4) as [Fh Eh].
  rewrite (fint_eqb f _ _ _ _ HD (fint_zero f)), (fint_pos f _ _ HD).
  destruct (Z.eqb_spec (za * (r - s) * (za * (r - s))) 0) as [HZ|HZ].
  - assert (E : r = s) by (apply (proj1 (Z.eq_square_0 _)) in HZ; apply (proj1 (Z.eq_mul_0 _ _)) in HZ; lia). subst s. eexists _, _. split; [reflexivity|].
    assert (K : fint (fdiv (fneg b) a2) r) by (split; [exact Fh|rewrite Eh, plus_IZR; field]).
    rewrite Z.max_id, Z.min_id. auto.
  - destruct (Z.ltb_spec 0 (za * (r - s) * (za * (r - s)))) as [_|HN]; [|pose proof (Z.square_nonneg (za * (r - s))); lia].
    destruct (fsqrt_square D _ HD ltac:(lia)) as [Fs Es]. set (sq := f_abs_sqrt D) in *.
    set (d := (Z.sgn za * Z.abs (r - s))%Z).
    assert (Es' : B2R sq = IZR za * IZR d).
    { rewrite Es, <- mult_IZR. f_equal. unfold d. rewrite Z.abs_mul, Z.mul_assoc. f_equal. lia. }
    assert (Bd : (Z.abs d < 2 ^ fprec f)%Z) by (unfold d; lia).
    destruct (fdiv_half sq a2 d za Fs Es' E2 Hza Bd) as [Fq Eq].
    set (h := fdiv (fneg b) a2) in *. set (q := fdiv sq a2) in *.
    assert (X : forall z, (2 * z = r + s + d)%Z -> (Z.abs z <= 2 ^ fprec f)%Z -> fint (fadd h q) z).
    { intros z Ez Bz. destruct (rnd_small f z Bz) as [R1 R2].
      assert (EV : B2R h + B2R q = IZR z).
      { rewrite Eh, Eq. replace (IZR (r + s) / 2 + IZR d / 2) with (IZR (r + s + d) / 2) by (rewrite plus_IZR; field).
        rewrite <- Ez, mult_IZR. field. }
      assert (F : is_finite (fadd h q) = true).
      { apply fadd_finite; [assumption..|]. rewrite EV, R1. revert R2. case Rlt_bool_spec; [auto|discriminate]. }
      split; [exact F|]. rewrite (fadd_round _ _ F), EV. exact R1. }
    assert (Y : forall z, (2 * z = r + s - d)%Z -> (Z.abs z <= 2 ^ fprec f)%Z -> fint (fsub h q) z).
    { intros z Ez Bz. destruct (rnd_small f z Bz) as [R1 R2].
      assert (EV : B2R h - B2R q = IZR z).
      { rewrite Eh, Eq. replace (IZR (r + s) / 2 - IZR d / 2) with (IZR (r + s - d) / 2) by (rewrite minus_IZR; field).
        rewrite <- Ez, mult_IZR. field. }
      assert (F : is_finite (fsub h q) = true).
      { apply fsub_finite; [assumption..|]. rewrite EV, R1. revert R2. case Rlt_bool_spec; [auto|discriminate]. }
      split; [exact F|]. rewrite (fsub_round _ _ F), EV. exact R1. }
    eexists _, _. split; [reflexivity|]. unfold d in *. split; intros Hs; split; (apply X || apply Y); lia.
Qed.

(** x^2 + x - 6 = (x - 2) (x + 3), which integers get wrong (C41), in f64; and -x^2 + 7x - 12. *)
Example C69_case : forall cb rd l,
  let z := f_of_Z F64 in let O := float_num true F64 (fun x _ => x) in
  (exists x y, trino_roots O (ieee_rops F64 cb rd l) (MkTrino (z 1%Z) (z 1%Z) (z (-6)%Z)) = Ok (TwoRealRoots x y) /\ fint x 2 /\ fint y (-3)) /\
  (exists x y, trino_roots O (ieee_rops F64 cb rd l) (MkTrino (z (-1)%Z) (z 7%Z) (z (-12)%Z)) = Ok (TwoRealRoots x y) /\ fint x 3 /\ fint y 4).
Proof.
  intros cb rd l z O. split.
  - destruct (C69_whole_roots F64 true (fun x _ => x) cb rd l (z 1%Z) (z 1%Z) (z (-6)%Z) 1 2 (-3)) as (x & y & E & K & _);
      try (apply fint_of_Z; vm_compute; discriminate); [discriminate|vm_compute; repeat split; discriminate|].
    exists x, y. split; [exact E|]. apply K. reflexivity.
  - destruct (C69_whole_roots F64 true (fun x _ => x) cb rd l (z (-1)%Z) (z 7%Z) (z (-12)%Z) (-1) 3 4) as (x & y & E & _ & K);
      try (apply fint_of_Z; vm_compute; discriminate); [discriminate|vm_compute; repeat split; discriminate|].
    exists x, y. split; [exact E|]. apply K. reflexivity.
Qed.

(** ** C70 *)

(** Zero, or a magnitude between 2^-50 and 2^50 (f32), 2^-480 and 2^480 (f64). *)
Definition span (f : fty) : Z := match f with F32 => 50 | F64 => 480 end.
Definition moderate {f} (x : flt f) : Prop :=
  is_finite x = true /\ (B2R x = 0 \/ bpow radix2 (- span f) <= Rabs (B2R x) <= bpow radix2 (span f)).

(** The size against which the error is measured. *)
Definition scale (a b c : R) : R := b * b + 4 * Rabs (a * c).

Lemma prod_err x y p q : Rabs x <= p -> Rabs y <= q -> Rabs ((1 + x) * (1 + y) - 1) <= p + q + p * q.
Proof.
  intros Hx Hy. replace ((1 + x) * (1 + y) - 1) with (x + (y + x * y)) by ring.
  eapply Rle_trans; [apply Rabs_triang|]. eapply Rle_trans; [apply Rplus_le_compat_l, Rabs_triang|]. rewrite Rabs_mult.
  pose proof (Rmult_le_compat _ _ _ _ (Rabs_pos x) (Rabs_pos y) Hx Hy). lra.
Qed.

Lemma scale_pos a b c : 0 <= scale a b c.
Proof. unfold scale. pose proof (Rabs_pos (a * c)). nra. Qed.

Lemma disc_err u a b c e1 e2 e3 e4 : 0 < u <= / 16777216 -> Rabs e1 <= u -> Rabs e2 <= u -> Rabs e3 <= u -> Rabs e4 <= u ->
  Rabs ((b * b * (1 + e1) - a * c * (1 + e2) * 4 * (1 + e3)) * (1 + e4) - (b * b - 4 * a * c)) <= 3.001 * u * scale a b c.
Proof.
  intros Hu H1 H2 H3 H4.
  pose proof (prod_err e1 e4 u u H1 H4) as P1. pose proof (prod_err e2 e3 u u H2 H3) as P2.
  pose proof (prod_err _ e4 _ u P2 H4) as P3.
  replace ((1 + ((1 + e2) * (1 + e3) - 1)) * (1 + e4) - 1) with ((1 + e2) * (1 + e3) * (1 + e4) - 1) in P3 by ring.
  assert (U2 : u * u <= 0.0001 * u) by nra. assert (U3 : u * u * u <= 0.0001 * u) by nra.
  assert (Q1 : Rabs ((1 + e1) * (1 + e4) - 1) <= 3.001 * u) by lra.
  assert (Q3 : Rabs ((1 + e2) * (1 + e3) * (1 + e4) - 1) <= 3.001 * u) by nra.
  replace (_ - _) with (b * b * ((1 + e1) * (1 + e4) - 1) + - (4 * (a * c) * ((1 + e2) * (1 + e3) * (1 + e4) - 1))) by ring.
  eapply Rle_trans; [apply Rabs_triang|]. rewrite Rabs_Ropp, !Rabs_mult, (Rabs_pos_eq 4) by lra.
  unfold scale. rewrite Rabs_mult. pose proof (Rabs_pos a). pose proof (Rabs_pos b). pose proof (Rabs_pos c).
  replace (b * b) with (Rabs b * Rabs b) by (rewrite <- Rabs_mult; apply Rabs_pos_eq; nra).
  pose proof (Rmult_le_pos _ _ H H5). pose proof (Rmult_le_pos _ _ H0 H0).
  assert (Rabs b * Rabs b * Rabs ((1 + e1) * (1 + e4) - 1) <= Rabs b * Rabs b * (3.001 * u)) by (apply Rmult_le_compat_l; lra).
  assert (4 * (Rabs a * Rabs c) * Rabs ((1 + e2) * (1 + e3) * (1 + e4) - 1) <= 4 * (Rabs a * Rabs c) * (3.001 * u)) by (apply Rmult_le_compat_l; lra).
  lra.
Qed.

(** The residual of a perturbed quadratic formula. *)
Lemma resid_real g B b D Dh S t : 0 <= g <= 0.000001 -> 0 <= B -> b * b <= B -> S * S = Dh -> Rabs (Dh - D) <= g * B -> D <= B ->
  Rabs (t - S) <= g * (Rabs b + Rabs S) -> Rabs (t * t - D) <= 5.01 * g * B.
Proof.
  intros Hg HB Hb HS HD HDB Ht.
  replace (t * t - D) with ((Dh - D) + (2 * (S * (t - S)) + (t - S) * (t - S))) by (rewrite <- HS; ring).
  eapply Rle_trans; [apply Rabs_triang|].
  assert (S2 : S * S <= (1 + g) * B).
  { rewrite HS. pose proof (Rle_abs (Dh - D)). lra. }
  assert (b2 : Rabs b * Rabs b = b * b) by (rewrite <- Rabs_mult; apply Rabs_pos_eq; nra).
  assert (s2 : Rabs S * Rabs S = S * S) by (rewrite <- Rabs_mult; apply Rabs_pos_eq; nra).
  assert (T : Rabs (2 * (S * (t - S)) + (t - S) * (t - S)) <= 2 * (Rabs S * Rabs (t - S)) + Rabs (t - S) * Rabs (t - S)).
  { eapply Rle_trans; [apply Rabs_triang|]. rewrite !Rabs_mult, (Rabs_pos_eq 2) by lra. lra. }
  pose proof (Rabs_pos b) as p1. pose proof (Rabs_pos S) as p2. pose proof (Rabs_pos (t - S)) as p3.
  set (bb := Rabs b) in *. set (ss := Rabs S) in *. set (d := Rabs (t - S)) in *.
  assert (M1 : ss * d <= ss * (g * (bb + ss))) by (apply Rmult_le_compat_l; assumption).
  assert (M2 : d * d <= g * (bb + ss) * (g * (bb + ss))) by (apply Rmult_le_compat; assumption).
  pose proof (Rle_0_sqr (ss - bb)) as SQ. unfold Rsqr in SQ.
  assert (N1 : 2 * (ss * (bb + ss)) <= 3 * (ss * ss) + bb * bb) by lra.
  assert (N2 : (bb + ss) * (bb + ss) <= 2 * (bb * bb + ss * ss)) by lra.
  assert (N1' : 2 * (ss * (bb + ss)) <= (4 + 3 * g) * B) by (rewrite s2, b2 in N1; lra).
  assert (N2' : (bb + ss) * (bb + ss) <= (4 + 2 * g) * B) by (rewrite s2, b2 in N2; lra).
  assert (L1 : g * (2 * (ss * (bb + ss))) <= g * ((4 + 3 * g) * B)) by (apply Rmult_le_compat_l; lra).
  assert (L2 : g * g * ((bb + ss) * (bb + ss)) <= g * g * ((4 + 2 * g) * B)) by (apply Rmult_le_compat_l; nra).
  assert (gB : 0 <= g * B) by nra.
  assert (G1 : g * (g * B) <= 0.000001 * (g * B)) by (apply Rmult_le_compat_r; lra).
  assert (G2 : g * (g * (g * B)) <= 0.000001 * (g * B)) by nra.
  nra.
Qed.

Lemma resid_complex g B b D Dh S t e : 0 <= g <= 0.000001 -> 0 <= B -> b * b <= B -> - (S * S) = Dh -> Rabs (Dh - D) <= g * B -> - D <= B ->
  Rabs (t - S) <= g * Rabs S -> Rabs e <= g ->
  Rabs (b * e * (b * e) - t * t - D) <= 3.01 * g * B /\ Rabs (2 * (b * e) * t) <= 2.01 * g * B.
Proof.
  intros Hg HB Hb HS HD HDB Ht He.
  assert (S2 : S * S <= (1 + g) * B).
  { replace (S * S) with (- D - (Dh - D)) by (rewrite <- HS; ring). pose proof (Rle_abs (- (Dh - D))) as W. rewrite Rabs_Ropp in W. lra. }
  assert (b2 : Rabs b * Rabs b = b * b) by (rewrite <- Rabs_mult; apply Rabs_pos_eq; nra).
  assert (s2 : Rabs S * Rabs S = S * S) by (rewrite <- Rabs_mult; apply Rabs_pos_eq; nra).
  pose proof (Rabs_pos b) as p1. pose proof (Rabs_pos S) as p2. pose proof (Rabs_pos (t - S)) as p3. pose proof (Rabs_pos e) as p4.
  assert (gB : 0 <= g * B) by nra.
  assert (G1 : g * (g * B) <= 0.000001 * (g * B)) by (apply Rmult_le_compat_r; lra).
  assert (G2 : g * (g * (g * B)) <= 0.000001 * (g * B)) by nra.
  assert (be : Rabs (b * e) * Rabs (b * e) <= g * (g * B)).
  { rewrite Rabs_mult. replace (Rabs b * Rabs e * (Rabs b * Rabs e)) with (Rabs b * Rabs b * (Rabs e * Rabs e)) by ring. rewrite b2.
    assert (Rabs e * Rabs e <= g * g) by (apply Rmult_le_compat; assumption). nra. }
  split.
  - replace (b * e * (b * e) - t * t - D) with ((Dh - D) + (b * e * (b * e) + - (2 * (S * (t - S)) + (t - S) * (t - S)))) by (rewrite <- HS; ring).
    eapply Rle_trans; [apply Rabs_triang|]. eapply Rle_trans; [apply Rplus_le_compat_l, Rabs_triang|]. rewrite Rabs_Ropp.
    assert (T : Rabs (2 * (S * (t - S)) + (t - S) * (t - S)) <= 2 * (Rabs S * Rabs (t - S)) + Rabs (t - S) * Rabs (t - S)).
    { eapply Rle_trans; [apply Rabs_triang|]. rewrite !Rabs_mult, (Rabs_pos_eq 2) by lra. lra. }
    rewrite (Rabs_mult (b * e) (b * e)).
    set (ss := Rabs S) in *. set (d := Rabs (t - S)) in *.
    assert (M1 : ss * d <= ss * (g * ss)) by (apply Rmult_le_compat_l; assumption).
    assert (M2 : d * d <= g * ss * (g * ss)) by (apply Rmult_le_compat; assumption).
    assert (L1 : g * (ss * ss) <= g * ((1 + g) * B)) by (apply Rmult_le_compat_l; lra).
    assert (L2 : g * g * (ss * ss) <= g * g * ((1 + g) * B)) by (apply Rmult_le_compat_l; nra).
    nra.
  - rewrite !Rabs_mult, (Rabs_pos_eq 2) by lra.
    assert (Tt : Rabs t <= (1 + g) * Rabs S).
    { replace t with (S + (t - S)) by ring. eapply Rle_trans; [apply Rabs_triang|]. lra. }
    set (bb := Rabs b) in *. set (ss := Rabs S) in *. set (tt := Rabs t) in *.
    assert (M : bb * Rabs e * tt <= bb * g * ((1 + g) * ss)).
    { apply Rmult_le_compat; [nra|apply Rabs_pos|nra|exact Tt]. }
    pose proof (Rle_0_sqr (ss - bb)) as SQ. unfold Rsqr in SQ.
    assert (N : 2 * (bb * ss) <= bb * bb + ss * ss) by lra.
    assert (N' : 2 * (bb * ss) <= (2 + g) * B) by (rewrite b2, s2 in N; lra).
    assert (L : g * (1 + g) * (2 * (bb * ss)) <= g * (1 + g) * ((2 + g) * B)) by (apply Rmult_le_compat_l; nra).
    nra.
Qed.

Section Quad.
Context {f : fty}.
Notation u := (uro f).
Notation K := (span f).

Lemma span_fits : (0 < K /\ SpecFloat.emin (fprec f) (femax f) + fprec f - 1 <= - (2 * K) - fprec f - 1 /\ 2 * K + 4 < femax f /\ fprec f <= 53 /\ 24 <= fprec f)%Z.
Proof. destruct f; cbn; lia. Qed.

Ltac zz := generalize span_fits; generalize (SpecFloat.emin (fprec f) (femax f)) (span f) (fprec f) (femax f); clear; intros; lia.

(** Every intermediate value of the quadratic formula is finite, with its rounding error. *)
Lemma quad_parts (a b c : flt f) : moderate a -> moderate b -> moderate c -> B2R a <> 0 ->
  let D := fsub (fmul b b) (fmul (fmul a c) (f_of_Z f 4)) in
  let a2 := fmul a (f_of_Z f 2) in let h := fdiv (fneg b) a2 in let q := fdiv (f_abs_sqrt D) a2 in
  is_finite D = true /\ is_finite h = true /\ is_finite q = true /\
  Rabs (B2R D - (B2R b * B2R b - 4 * B2R a * B2R c)) <= 3.001 * u * scale (B2R a) (B2R b) (B2R c) /\
  (exists e, Rabs e <= u /\ 2 * B2R a * B2R h = - B2R b * (1 + e)) /\
  (exists e e', Rabs e <= u /\ Rabs e' <= u /\ 2 * B2R a * B2R q = sqrt (Rabs (B2R D)) * (1 + e) * (1 + e')) /\
  Rabs (B2R h) <= bpow radix2 (2 * K + 2) /\ Rabs (B2R q) <= bpow radix2 (2 * K + 2).
Proof.
  intros [Fa Wa] [Fb Wb] [Fc Wc] Ha D a2 h q. destruct span_fits as (Z1 & Z2 & Z3 & Z4 & Z5).
  change (within (B2R a) (- K) K) in Wa. change (within (B2R b) (- K) K) in Wb. change (within (B2R c) (- K) K) in Wc.
  destruct (f_of_Z_small f 4) as [E4 F4].
  { apply Z.le_trans with (2 ^ 2)%Z; [lia|]. apply Z.pow_le_mono_r; lia. }
  assert (W4 : within (B2R (f_of_Z f 4)) 2 2).
  { right. rewrite E4, Rabs_pos_eq by lra. change (bpow radix2 2) with 4. lra. }
  destruct (fmul_within b b _ _ _ _ Fb Fb Wb Wb) as (F1 & W1 & e1 & H1 & E1); [zz|zz|].
  destruct (fmul_within a c _ _ _ _ Fa Fc Wa Wc) as (F2 & W2 & e2 & H2 & E2); [zz|zz|].
  destruct (fmul_within (fmul a c) (f_of_Z f 4) _ _ _ _ F2 F4 W2 W4) as (F3 & W3 & e3 & H3 & E3); [zz|zz|].
  destruct (fsub_within (fmul b b) (fmul (fmul a c) (f_of_Z f 4)) (- (2 * K)) (2 * K + 2) F1 F3) as (FD & WD & e4 & H4 & ED); try zz.
  { eapply within_weaken; [..|exact W1]; zz. }
  { eapply within_weaken; [..|exact W3]; zz. }
  fold D in FD, WD, ED.
  destruct (fmul_2 a _ _ Fa Wa) as [Fa2 Ea2]; [zz|]. fold a2 in Fa2, Ea2.
  assert (Ha2 : B2R a2 <> 0) by (rewrite Ea2; lra).
  assert (Wa2 : within (B2R a2) (- K + 1) (K + 1)).
  { rewrite Ea2. apply within_mul; [exact Wa|]. right. rewrite Rabs_pos_eq by lra. change (bpow radix2 1) with 2. lra. }
  assert (Fnb : is_finite (fneg b) = true) by (unfold fneg; rewrite is_finite_Bopp; exact Fb).
  assert (Enb : B2R (fneg b) = - B2R b) by apply B2R_Bopp.
  assert (Wnb : within (B2R (fneg b)) (- K) K) by (rewrite Enb; apply within_opp, Wb).
  destruct (fdiv_within (fneg b) a2 _ _ _ _ Fnb Ha2 Wnb Wa2) as (Fh & Wh & e5 & H5 & Eh); [zz|zz|]. fold h in Fh, Wh, Eh.
  destruct (fsqrt_within D (- K - fprec f) (K + 2) FD) as (Fs & Ws & e6 & H6 & Es); [eapply within_weaken; [..|exact WD]; zz|zz|].
  destruct (fdiv_within (f_abs_sqrt D) a2 _ _ _ _ Fs Ha2 Ws Wa2) as (Fq & Wq & e7 & H7 & Eq); [zz|zz|]. fold q in Fq, Wq, Eq.
  assert (U : forall r l h', (h' <= 2 * K + 2)%Z -> within r l h' -> Rabs r <= bpow radix2 (2 * K + 2)).
  { intros r l h' Hh [->|[_ H]]; [rewrite Rabs_R0; apply bpow_ge_0|]. eapply Rle_trans; [exact H|apply bpow_le, Hh]. }
  split; [exact FD|]. split; [exact Fh|]. split; [exact Fq|]. split; [|split; [|split; [|split]]].
  - rewrite ED, E1, E3, E2, E4. apply disc_err; try assumption. split; [apply uro_pos|apply uro_small].
  - exists e5. split; [exact H5|]. rewrite Eh, Enb, Ea2. field. exact Ha.
  - exists e6, e7. split; [exact H6|]. split; [exact H7|]. rewrite Eq, Es, Ea2. field. exact Ha.
  - eapply U; [|exact Wh]. zz.
  - eapply U; [|exact Wq]. zz.
Qed.
End Quad.

(** Both parts of a x^2 + b x + c at a complex x. *)
Definition residual_re (a b c x y : R) : R := a * (x * x - y * y) + b * x + c.
Definition residual_im (a b x y : R) : R := a * (2 * x * y) + b * y.

(** What the roots leave when put back: at most 4 u (b^2 + 4|ac|) / |a|, where u is 2^-24 or
    2^-53.  The real/complex answer is right unless the discriminant is within rounding
    error of zero. *)
Theorem C70_residual : forall f chk powi cb rd l (a b c : flt f), moderate a -> moderate b -> moderate c -> B2R a <> 0 ->
  let D := B2R b * B2R b - 4 * B2R a * B2R c in
  let tol := 4 * uro f * scale (B2R a) (B2R b) (B2R c) in
  let small x y := Rabs (B2R a) * Rabs (residual_re (B2R a) (B2R b) (B2R c) x y) <= tol /\
                   Rabs (B2R a) * Rabs (residual_im (B2R a) (B2R b) x y) <= tol in
  exists rs, trino_roots (float_num chk f powi) (ieee_rops f cb rd l) (MkTrino a b c) = Ok rs /\
  match rs with
  | TwoRealRoots x y => is_finite x = true /\ is_finite y = true /\ small (B2R x) 0 /\ small (B2R y) 0 /\ - tol <= D
  | TwoComplexRoots (x, y) (x', y') => is_finite x = true /\ is_finite y = true /\ small (B2R x) (B2R y) /\
      B2R x' = B2R x /\ B2R y' = - B2R y /\ D <= tol
  | _ => False
  end.
Proof.
  intros f chk powi cb rd l a b c Ma Mb Mc Ha D tol small. unfold trino_roots. cbn [tc0 tc1 tc2]. rewrite trinomial_roots_float. cbv zeta.
  destruct (quad_parts a b c Ma Mb Mc Ha) as (FD & Fh & Fq & HD & (e5 & H5 & Eh) & (e6 & e7 & H6 & H7 & Eq) & Uh & Uq).
  set (Dh := fsub (fmul b b) (fmul (fmul a c) (f_of_Z f 4))) in *. set (a2 := fmul a (f_of_Z f 2)) in *.
  set (h := fdiv (fneg b) a2) in *. set (q := fdiv (f_abs_sqrt Dh) a2) in *. fold D in HD.
  set (B := scale (B2R a) (B2R b) (B2R c)) in *. set (u := uro f) in *. set (g := 3.001 * u) in *.
  assert (Hu : 0 < u <= / 16777216) by (split; [apply uro_pos|apply uro_small]).
  assert (Hg : 0 <= g <= 0.000001) by (unfold g; lra).
  assert (HB : 0 <= B) by apply scale_pos.
  assert (HbB : B2R b * B2R b <= B) by (unfold B, scale; pose proof (Rabs_pos (B2R a * B2R c)); lra).
  assert (HDB : D <= B /\ - D <= B).
  { unfold D, B, scale. pose proof (Rle_abs (B2R a * B2R c)) as A1. pose proof (Rle_abs (- (B2R a * B2R c))) as A2. rewrite Rabs_Ropp in A2.
    pose proof (Rle_0_sqr (B2R b)) as A3. unfold Rsqr in A3. lra. }
  destruct HDB as [HDB HDB'].
  assert (uB : 0 <= u * B) by (apply Rmult_le_pos; lra).
  assert (gB : g * B <= tol) by (unfold g, tol; lra).
  assert (LIFT : forall x y t s, 2 * B2R a * x + B2R b = t -> 2 * B2R a * y = s ->
    4 * B2R a * residual_re (B2R a) (B2R b) (B2R c) x y = t * t - s * s - D /\
    4 * B2R a * residual_im (B2R a) (B2R b) x y = 2 * t * s).
  { intros x y t s <- <-. unfold residual_re, residual_im, D. split; ring. }
  assert (DIV : forall r v, 4 * B2R a * r = v -> Rabs v <= 4 * tol -> Rabs (B2R a) * Rabs r <= tol).
  { intros r v Ev Hv. rewrite <- Ev, !Rabs_mult, (Rabs_pos_eq 4) in Hv by lra. lra. }
  assert (REAL : forall x t S, 2 * B2R a * x + B2R b = t -> S * S = B2R Dh -> Rabs (t - S) <= g * (Rabs (B2R b) + Rabs S) -> small x 0).
  { intros x t S Et ES Ht. destruct (LIFT x 0 t 0 Et ltac:(ring)) as [L1 L2]. split.
    - eapply DIV; [exact L1|]. replace (t * t - 0 * 0 - D) with (t * t - D) by ring.
      eapply Rle_trans; [eapply (resid_real g B (B2R b) D (B2R Dh) S t); eassumption|]. unfold g, tol. lra.
    - eapply DIV; [exact L2|]. rewrite Rmult_0_r, Rabs_R0. unfold tol. lra. }
  assert (P2 : forall x y, Rabs x <= u -> Rabs y <= u -> Rabs ((1 + x) * (1 + y) - 1) <= 2.001 * u).
  { intros x y Hx Hy. eapply Rle_trans; [apply prod_err; eassumption|]. nra. }
  assert (P3 : forall x y z, Rabs x <= u -> Rabs y <= u -> Rabs z <= u -> Rabs ((1 + x) * (1 + y) * (1 + z) - 1) <= g).
  { intros x y z Hx Hy Hz. replace ((1 + x) * (1 + y) * (1 + z) - 1) with ((1 + ((1 + x) * (1 + y) - 1)) * (1 + z) - 1) by ring.
    eapply Rle_trans; [apply prod_err; [apply prod_err; eassumption|exact Hz]|]. unfold g. nra. }
  rewrite feqb_zero by exact FD. rewrite fpos by exact FD. case Req_bool_spec; intros HZ.
  - eexists. split; [reflexivity|]. split; [exact Fh|]. split; [exact Fh|].
    assert (S0 : small (B2R h) 0).
    { eapply (REAL (B2R h) _ 0 eq_refl); [rewrite HZ; ring|]. rewrite Eh. rewrite Rminus_0_r, Rabs_R0.
      replace (- B2R b * (1 + e5) + B2R b) with (- (B2R b * e5)) by ring. rewrite Rabs_Ropp, Rabs_mult, Rplus_0_r, (Rmult_comm g).
      apply Rmult_le_compat_l; [apply Rabs_pos|]. unfold g. lra. }
    split; [exact S0|]. split; [exact S0|]. rewrite HZ in HD. pose proof (Rle_abs (0 - D)). lra.
  - case Rlt_bool_spec; intros HP.
    + assert (Z6 : (SpecFloat.emin (fprec f) (femax f) <= 2 * span f + 2 /\ 2 * span f + 2 + 1 < femax f)%Z) by (clear; destruct f; cbn; lia).
      destruct Z6 as [Z6 Z7].
      set (s := sqrt (Rabs (B2R Dh))) in *.
      assert (Hs : s * s = B2R Dh) by (unfold s; rewrite sqrt_sqrt by apply Rabs_pos; apply Rabs_pos_eq; lra).
      assert (Ps : 0 <= s) by apply sqrt_pos.
      destruct (fadd_small h q (2 * span f + 2) Fh Fq Uh Uq Z6 Z7) as (F1 & e8 & H8 & E8).
      destruct (fsub_small h q (2 * span f + 2) Fh Fq Uh Uq Z6 Z7) as (F2 & e9 & H9 & E9).
      assert (GEN : forall e S, Rabs e <= u -> (S = s \/ S = - s) ->
        Rabs ((- B2R b * (1 + e5) + S * (1 + e6) * (1 + e7)) * (1 + e) + B2R b - S) <= g * (Rabs (B2R b) + Rabs S)).
      { intros e S He HS.
        replace (_ - S) with (- (B2R b * ((1 + e5) * (1 + e) - 1)) + S * ((1 + e6) * (1 + e7) * (1 + e) - 1)) by ring.
        eapply Rle_trans; [apply Rabs_triang|]. rewrite Rabs_Ropp, !Rabs_mult.
        assert (Q1 : Rabs ((1 + e5) * (1 + e) - 1) <= g) by (eapply Rle_trans; [apply P2; assumption|unfold g; lra]).
        pose proof (P3 e6 e7 e H6 H7 He) as Q2. rewrite (Rmult_plus_distr_l g).
        apply Rplus_le_compat; rewrite (Rmult_comm g); apply Rmult_le_compat_l; auto using Rabs_pos. }
      eexists. split; [reflexivity|]. split; [exact F1|]. split; [exact F2|]. split; [|split].
      * eapply (REAL _ _ s eq_refl Hs). rewrite E8.
        replace (2 * B2R a * ((B2R h + B2R q) * (1 + e8))) with ((2 * B2R a * B2R h + 2 * B2R a * B2R q) * (1 + e8)) by ring.
        rewrite Eh, Eq. apply GEN; auto.
      * eapply (REAL _ _ (- s) eq_refl); [rewrite <- Hs; ring|]. rewrite E9.
        replace (2 * B2R a * ((B2R h - B2R q) * (1 + e9))) with ((2 * B2R a * B2R h + - (2 * B2R a * B2R q)) * (1 + e9)) by ring.
        rewrite Eh, Eq. replace (- (s * (1 + e6) * (1 + e7))) with (- s * (1 + e6) * (1 + e7)) by ring. apply GEN; auto.
      * pose proof (Rle_abs (B2R Dh - D)). lra.
    + assert (HN : B2R Dh < 0) by lra. set (s := sqrt (Rabs (B2R Dh))) in *.
      assert (Hs : - (s * s) = B2R Dh) by (unfold s; rewrite sqrt_sqrt by apply Rabs_pos; rewrite Rabs_left by lra; ring).
      eexists. split; [reflexivity|]. split; [exact Fh|]. split; [exact Fq|]. split; [|split; [reflexivity|split]].
      * set (t := s * (1 + e6) * (1 + e7)) in *.
        destruct (LIFT (B2R h) (B2R q) (B2R b * - e5) t) as [L1 L2]; [rewrite Eh; ring|exact Eq|].
        destruct (resid_complex g B (B2R b) D (B2R Dh) s t (- e5) Hg HB HbB Hs HD HDB') as [R1 R2].
        { unfold t. replace (s * (1 + e6) * (1 + e7) - s) with (s * ((1 + e6) * (1 + e7) - 1)) by ring. rewrite Rabs_mult, (Rmult_comm g).
          apply Rmult_le_compat_l; [apply Rabs_pos|]. eapply Rle_trans; [apply P2; assumption|]. unfold g. lra. }
        { rewrite Rabs_Ropp. unfold g. lra. }
        split; eapply DIV; [exact L1| |exact L2|].
        -- eapply Rle_trans; [exact R1|]. unfold g, tol. lra.
        -- eapply Rle_trans; [exact R2|]. unfold g, tol. lra.
      * apply B2R_Bopp.
      * pose proof (Rle_abs (- (B2R Dh - D))) as A. rewrite Rabs_Ropp in A. lra.
Qed.

Print Assumptions C68_linear_root.
Print Assumptions C68_no_leading.
Print Assumptions C69_classification.
Print Assumptions C69_whole_roots.
Print Assumptions C70_residual.
