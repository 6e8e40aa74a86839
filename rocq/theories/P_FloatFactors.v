(** Property C98: factors of f32 and f64 quadratics. *)

From Coq Require Import List NArith ZArith Reals Lia Lra Psatz Bool.
From Flocq Require Import Core BinarySingleNaN.
From Verif Require Import Base Num Floats FloatFacts FloatErr SimInst Terms Dense Mono Bino Trino Sparse Roots FloatQuad P_Roots3 P_FloatQuad.
Import ListNotations.
Local Open Scope R_scope.

(** ** Specification *)

(** k (u1 x + v1) (u2 x + v2) = a x^2 + b x + c, as real polynomials. *)
Definition expands (k u1 v1 u2 v2 a b c : R) : Prop :=
  k * (u1 * u2) = a /\ k * (u1 * v2 + v1 * u2) = b /\ k * (v1 * v2) = c.

(** The same for complex factors given by real and imaginary parts. *)
Definition cmul (x y : R * R) : R * R := (fst x * fst y - snd x * snd y, fst x * snd y + snd x * fst y).
Definition cadd (x y : R * R) : R * R := (fst x + fst y, snd x + snd y).
Definition cexpands (k : R) (u1 v1 u2 v2 : R * R) (a b c : R) : Prop :=
  cmul (k, 0) (cmul u1 u2) = (a, 0) /\ cmul (k, 0) (cadd (cmul u1 v2) (cmul v1 u2)) = (b, 0) /\ cmul (k, 0) (cmul v1 v2) = (c, 0).

Definition cval {f} (z : flt f * flt f) : R * R := (B2R (fst z), B2R (snd z)).

(** ** Lemmas *)

Section L.
Context (f : fty).
Notation prec := (fprec f).
Notation emax := (femax f).
Notation rnd := (Generic_fmt.round radix2 (SpecFloat.fexp prec emax) ZnearestE).
#[local] Instance p_pos : Prec_gt_0 prec := fprec_pos f.
#[local] Instance p_emax : Prec_lt_emax prec emax := fprec_emax f.

Lemma one_val : B2R (f_of_Z f 1) = 1.
Proof. apply (f_of_Z_small f). pose proof (fsizes f). apply Z.le_trans with (2 ^ 0)%Z; [cbn; lia|]. apply Z.pow_le_mono_r; lia. Qed.
Lemma two_val : B2R (f_of_Z f 2) = 2.
Proof. apply (f_of_Z_small f). pose proof (fsizes f). apply Z.le_trans with (2 ^ 1)%Z; [cbn; lia|]. apply Z.pow_le_mono_r; lia. Qed.
Lemma neg_val (x : flt f) : B2R (fneg x) = - B2R x.
Proof. apply B2R_Bopp. Qed.

Lemma rnd_sign x : (0 <= x -> 0 <= rnd x) /\ (x <= 0 -> rnd x <= 0).
Proof.
  assert (E : rnd 0 = 0) by (apply round_0, valid_rnd_N).
  split; intros H; rewrite <- E; apply round_le; try exact H; try apply valid_rnd_N; apply FLT_exp_valid, _.
Qed.

(** A quotient has the sign of the exact one, or the value 0. *)
Lemma fdiv_sign (x y : flt f) : is_finite x = true -> B2R (fdiv x y) * (B2R x * B2R y) >= 0.
Proof.
  intros Fx. destruct (Req_dec (B2R y) 0) as [E|E]; [rewrite E; lra|].
  destruct (is_finite (fdiv x y)) eqn:F.
  - rewrite (fdiv_round x y E F). change (round_mode mode_NE) with ZnearestE. destruct (rnd_sign (B2R x / B2R y)) as [P N].
    assert (K : B2R x * B2R y = B2R x / B2R y * (B2R y * B2R y)) by (field; exact E).
    assert (Y : 0 < B2R y * B2R y) by nra. destruct (Rle_dec 0 (B2R x / B2R y)) as [G|G].
    + specialize (P G). rewrite K. apply Rle_ge. apply Rmult_le_pos; [exact P|]. apply Rmult_le_pos; lra.
    + assert (G' : B2R x / B2R y <= 0) by lra. specialize (N G'). rewrite K.
      set (q := B2R x / B2R y) in *. clearbody q. generalize dependent (rnd q). intros z HP Hz.
      clear HP G F E Fx. assert (0 <= (- z) * ((- q) * (B2R y * B2R y))) by (apply Rmult_le_pos; [lra|apply Rmult_le_pos; lra]). apply Rle_ge. eapply Rle_trans; [eassumption|]. apply Req_le. ring.
  - assert (Z : B2R (fdiv x y) = 0) by (destruct (fdiv x y); [reflexivity..|discriminate F]). rewrite Z. lra.
Qed.

Lemma double_sign (a : flt f) : B2R (fmul a (f_of_Z f 2)) * B2R a >= 0.
Proof.
  destruct (is_finite (fmul a (f_of_Z f 2))) eqn:F.
  - rewrite (fmul_round _ _ F), two_val. change (round_mode mode_NE) with ZnearestE. destruct (rnd_sign (B2R a * 2)) as [P N]. destruct (Rle_dec 0 (B2R a)) as [G|G].
    + specialize (P ltac:(lra)). apply Rle_ge, Rmult_le_pos; lra.
    + specialize (N ltac:(lra)). nra.
  - assert (Z : B2R (fmul a (f_of_Z f 2)) = 0) by (destruct (fmul a (f_of_Z f 2)); [reflexivity..|discriminate F]). rewrite Z. lra.
Qed.

(** If doubling a overflows or vanishes, the quotient by it is 0, infinite or no number. *)
Lemma fdiv_degenerate (x y : flt f) : is_finite x = true -> B2R y = 0 -> B2R (fdiv x y) = 0.
Proof.
  intros Fx Ey. destruct y as [s|s| |s m e H].
  - destruct x; reflexivity || discriminate Fx.
  - destruct x; reflexivity || discriminate Fx.
  - destruct x; reflexivity || discriminate Fx.
  - exfalso. revert Ey. cbn. unfold F2R. cbn. pose proof (bpow_gt_0 radix2 e) as B. pose proof (IZR_lt 0 (Z.pos m) (Pos2Z.is_pos m)) as M. destruct s; cbn.
    + change (Z.neg m) with (- Z.pos m)%Z. rewrite opp_IZR. nra.
    + nra.
Qed.
End L.

(** Both factors of the perturbed quadratic formula, multiplied out. *)
Lemma perturbed (b D Dh S B r u e5 e6 e7 e8 e9 : R) : 0 < u <= / 16777216 ->
  Rabs e5 <= u -> Rabs e6 <= u -> Rabs e7 <= u -> Rabs e8 <= u -> Rabs e9 <= u ->
  0 <= r -> r * r = B -> b * b <= B -> D <= B -> S * S = Dh -> Rabs (Dh - D) <= 3.001 * u * B ->
  let x := (- b * (1 + e5) + S * (1 + e6) * (1 + e7)) * (1 + e8) in
  let y := (- b * (1 + e5) - S * (1 + e6) * (1 + e7)) * (1 + e9) in
  Rabs (x + y + 2 * b) <= 6.1 * u * r /\ Rabs (x * y - (b * b - D)) <= 13.1 * u * B.
Proof.
  intros Hu H5 H6 H7 H8 H9 Hr Er Hb HDB HS HD x y.
  assert (HB : 0 <= B) by nra.
  assert (P2 : forall x y, Rabs x <= u -> Rabs y <= u -> Rabs ((1 + x) * (1 + y) - 1) <= 2.001 * u).
  { intros v w Hv Hw. eapply Rle_trans; [apply prod_err; eassumption|]. nra. }
  assert (P4 : forall x y z w, Rabs x <= u -> Rabs y <= u -> Rabs z <= u -> Rabs w <= u -> Rabs (((1 + x) * (1 + y)) * ((1 + z) * (1 + w)) - 1) <= 4.01 * u).
  { intros v w v' w' A1 A2 A3 A4. pose proof (prod_err _ _ _ _ (P2 v w A1 A2) (P2 v' w' A3 A4)) as H.
    replace ((1 + ((1 + v) * (1 + w) - 1)) * (1 + ((1 + v') * (1 + w') - 1)) - 1) with ((1 + v) * (1 + w) * ((1 + v') * (1 + w')) - 1) in H by ring. nra. }
  assert (P6 : Rabs (((1 + e6) * (1 + e7)) * ((1 + e6) * (1 + e7)) * ((1 + e8) * (1 + e9)) - 1) <= 6.02 * u).
  { pose proof (prod_err _ _ _ _ (P4 e6 e7 e6 e7 H6 H7 H6 H7) (P2 e8 e9 H8 H9)) as H.
    replace ((1 + ((1 + e6) * (1 + e7) * ((1 + e6) * (1 + e7)) - 1)) * (1 + ((1 + e8) * (1 + e9) - 1)) - 1)
      with ((1 + e6) * (1 + e7) * ((1 + e6) * (1 + e7)) * ((1 + e8) * (1 + e9)) - 1) in H by ring. nra. }
  assert (HDh : Dh <= 1.000001 * B).
  { pose proof (Rle_abs (Dh - D)) as A. assert (3.001 * u * B <= 0.000001 * B) by (apply Rmult_le_compat_r; lra). lra. }
  assert (Br : Rabs b <= r).
  { apply Rsqr_incr_0_var; [|exact Hr]. unfold Rsqr. rewrite <- Rabs_mult, Rabs_pos_eq by nra. lra. }
  assert (Sr : Rabs S <= 1.000001 * r).
  { apply Rsqr_incr_0_var; [|lra]. unfold Rsqr. rewrite <- Rabs_mult, Rabs_pos_eq by nra. nra. }
  split.
  - replace (x + y + 2 * b) with (- (b * ((1 + e5) * (1 + e8) - 1)) + (- (b * ((1 + e5) * (1 + e9) - 1)) + S * (((1 + e6) * (1 + e7)) * (e8 - e9)))) by (unfold x, y; ring).
    eapply Rle_trans; [apply Rabs_triang|]. eapply Rle_trans; [apply Rplus_le_compat_l, Rabs_triang|]. rewrite !Rabs_Ropp, !(Rabs_mult b), (Rabs_mult S), (Rabs_mult _ (e8 - e9)).
    pose proof (P2 e5 e8 H5 H8) as Q1. pose proof (P2 e5 e9 H5 H9) as Q2. pose proof (P2 e6 e7 H6 H7) as Q3.
    assert (Q4 : Rabs ((1 + e6) * (1 + e7)) <= 1.001).
    { replace ((1 + e6) * (1 + e7)) with (1 + ((1 + e6) * (1 + e7) - 1)) by ring. eapply Rle_trans; [apply Rabs_triang|]. rewrite Rabs_R1. lra. }
    assert (Q5 : Rabs (e8 - e9) <= 2 * u) by (unfold Rminus; eapply Rle_trans; [apply Rabs_triang|]; rewrite Rabs_Ropp; lra).
    assert (M1 : forall v, Rabs v <= 2.001 * u -> Rabs b * Rabs v <= r * (2.001 * u)) by (intros v Hv; apply Rmult_le_compat; auto using Rabs_pos).
    assert (M2 : Rabs ((1 + e6) * (1 + e7)) * Rabs (e8 - e9) <= 1.001 * (2 * u)) by (apply Rmult_le_compat; auto using Rabs_pos).
    assert (M3 : Rabs S * (Rabs ((1 + e6) * (1 + e7)) * Rabs (e8 - e9)) <= 1.000001 * r * (1.001 * (2 * u))).
    { apply Rmult_le_compat; auto using Rabs_pos. apply Rmult_le_pos; apply Rabs_pos. }
    pose proof (M1 _ Q1). pose proof (M1 _ Q2). assert (0 <= u * r) by (apply Rmult_le_pos; lra). lra.
  - replace (x * y - (b * b - D)) with (b * b * (((1 + e5) * (1 + e5)) * ((1 + e8) * (1 + e9)) - 1) +
      (- (Dh * (((1 + e6) * (1 + e7)) * ((1 + e6) * (1 + e7)) * ((1 + e8) * (1 + e9)) - 1)) + - (Dh - D))) by (unfold x, y; rewrite <- HS; ring).
    eapply Rle_trans; [apply Rabs_triang|]. eapply Rle_trans; [apply Rplus_le_compat_l, Rabs_triang|]. rewrite !Rabs_Ropp, (Rabs_mult (b * b)), (Rabs_mult Dh).
    assert (M1 : Rabs (b * b) * Rabs (((1 + e5) * (1 + e5)) * ((1 + e8) * (1 + e9)) - 1) <= B * (4.01 * u)).
    { apply Rmult_le_compat; auto using Rabs_pos. rewrite Rabs_pos_eq by nra. exact Hb. }
    assert (M2 : Rabs Dh * Rabs (((1 + e6) * (1 + e7)) * ((1 + e6) * (1 + e7)) * ((1 + e8) * (1 + e9)) - 1) <= 1.000001 * B * (6.02 * u)).
    { apply Rmult_le_compat; auto using Rabs_pos. rewrite Rabs_pos_eq by (rewrite <- HS; nra). exact HDh. }
    assert (0 <= u * B) by (apply Rmult_le_pos; lra). lra.
Qed.

(** ** C98 *)

(** Whole-number coefficients in range, negative discriminant: there are no real factors. *)
Theorem C98_none : forall f chk powi cb rd l (a b c : flt f) za zb zc,
  fint a za -> fint b zb -> fint c zc -> small_quadratic f za zb zc -> (zb * zb - 4 * za * zc < 0)%Z ->
  trino_real_factors (float_num chk f powi) (ieee_rops f cb rd l) (MkTrino a b c) = Ok None.
Proof.
  intros f chk powi cb rd l a b c za zb zc Ha Hb Hc HS HD.
  destruct (C69_classification f chk powi cb rd l a b c za zb zc Ha Hb Hc HS) as (_ & _ & N). destruct (N HD) as (x & y & E).
  unfold trino_real_factors. rewrite E. reflexivity.
Qed.

(** Whole-number roots: both factorisations multiply back, exactly. *)
Theorem C98_whole_roots : forall f chk powi cb rd l (a b c : flt f) za r s,
  fint a za -> fint b (- (za * (r + s))) -> fint c (za * (r * s)) -> za <> 0%Z ->
  small_quadratic f za (- (za * (r + s))) (za * (r * s)) ->
  (exists k u1 v1 u2 v2,
    trino_real_factors (float_num chk f powi) (ieee_rops f cb rd l) (MkTrino a b c) = Ok (Some (k, MkBino u1 v1, MkBino u2 v2)) /\
    expands (B2R k) (B2R u1) (B2R v1) (B2R u2) (B2R v2) (B2R a) (B2R b) (B2R c)) /\
  (exists k u1 v1 u2 v2,
    trino_complex_factors (float_num chk f powi) (ieee_rops f cb rd l) (MkTrino a b c) = Ok (k, MkBino u1 v1, MkBino u2 v2) /\
    cexpands (B2R k) (cval u1) (cval v1) (cval u2) (cval v2) (B2R a) (B2R b) (B2R c)).
Proof.
  intros f chk powi cb rd l a b c za r s Ha Hb Hc Hz HS.
  destruct (C69_whole_roots f chk powi cb rd l a b c za r s Ha Hb Hc Hz HS) as (x & y & E & P & N).
  assert (XY : B2R x + B2R y = IZR (r + s) /\ B2R x * B2R y = IZR (r * s)).
  { destruct (Z.lt_total za 0) as [Z|[Z|Z]]; [destruct (N Z) as [[_ ->] [_ ->]]|contradiction|destruct (P Z) as [[_ ->] [_ ->]]];
      rewrite <- plus_IZR, <- mult_IZR; split; f_equal; nia. }
  destruct XY as [X1 X2]. destruct Ha as [Fa Ea], Hb as [Fb Eb], Hc as [Fc Ec].
  rewrite opp_IZR, mult_IZR, <- X1, <- Ea in Eb. rewrite mult_IZR, <- X2, <- Ea in Ec.
  unfold trino_real_factors, trino_complex_factors. rewrite E. cbn [bind float_num neg one zero tc0].
  split; eexists _, _, _, _, _; (split; [reflexivity|]).
  - unfold expands. rewrite one_val, !neg_val, Eb, Ec. repeat split; ring.
  - unfold cexpands, cval, cmul, cadd. cbn [fst snd]. rewrite one_val, !neg_val, Eb, Ec.
    change (B2R (fzero f)) with 0. repeat split; f_equal; ring.
Qed.

(** Up to rounding: whenever there are real factors, they multiply back to a polynomial with
    the same leading coefficient, whose other coefficients are off by at most
    3.1 u sqrt(B) and 3.3 u B / |a|, where B = b^2 + 4|ac| and u is 2^-24 or 2^-53. *)
Theorem C98_rounded : forall f chk powi cb rd l (a b c : flt f), moderate a -> moderate b -> moderate c -> B2R a <> 0 ->
  let B := scale (B2R a) (B2R b) (B2R c) in
  exists r, trino_real_factors (float_num chk f powi) (ieee_rops f cb rd l) (MkTrino a b c) = Ok r /\
  match r with
  | None => B2R b * B2R b - 4 * B2R a * B2R c <= 4 * uro f * B
  | Some (k, MkBino u1 v1, MkBino u2 v2) => is_finite v1 = true /\ is_finite v2 = true /\ exists b' c',
      expands (B2R k) (B2R u1) (B2R v1) (B2R u2) (B2R v2) (B2R a) b' c' /\
      Rabs (b' - B2R b) <= 3.1 * uro f * sqrt B /\ Rabs (B2R a) * Rabs (c' - B2R c) <= 3.3 * uro f * B
  end.
Proof.
  intros f chk powi cb rd l a b c Ma Mb Mc Ha B.
  pose proof (C70_residual f chk powi cb rd l a b c Ma Mb Mc Ha) as R0. cbv zeta in R0. fold B in R0.
  unfold trino_real_factors. unfold trino_roots in *. cbn [tc0 tc1 tc2] in *. rewrite trinomial_roots_float in *. cbv zeta in *.
  destruct (quad_parts a b c Ma Mb Mc Ha) as (FD & Fh & Fq & HD & (e5 & H5 & Eh) & (e6 & e7 & H6 & H7 & Eq) & Uh & Uq).
  set (Dh := fsub (fmul b b) (fmul (fmul a c) (f_of_Z f 4))) in *. set (a2 := fmul a (f_of_Z f 2)) in *.
  set (h := fdiv (fneg b) a2) in *. set (q := fdiv (f_abs_sqrt Dh) a2) in *. fold B in HD. set (u := uro f) in *.
  assert (Hu : 0 < u <= / 16777216) by (split; [apply uro_pos|apply uro_small]).
  assert (HB : 0 <= B) by apply scale_pos.
  assert (HbB : B2R b * B2R b <= B) by (unfold B, scale; pose proof (Rabs_pos (B2R a * B2R c)); lra).
  set (D := B2R b * B2R b - 4 * B2R a * B2R c) in *.
  assert (HDB : D <= B).
  { unfold D, B, scale. pose proof (Rle_abs (- (B2R a * B2R c))) as A2. rewrite Rabs_Ropp in A2. lra. }
  assert (U0 : Rabs 0 <= u) by (rewrite Rabs_R0; lra).
  assert (SQ : sqrt B * sqrt B = B) by (apply sqrt_sqrt, HB).
  assert (FIN : forall (x y : flt f) S e8 e9 e6 e7, Rabs e6 <= u -> Rabs e7 <= u -> Rabs e8 <= u -> Rabs e9 <= u -> S * S = B2R Dh ->
    2 * B2R a * B2R x = (- B2R b * (1 + e5) + S * (1 + e6) * (1 + e7)) * (1 + e8) ->
    2 * B2R a * B2R y = (- B2R b * (1 + e5) - S * (1 + e6) * (1 + e7)) * (1 + e9) ->
    exists b' c', expands (B2R a) (B2R (f_of_Z f 1)) (B2R (fneg x)) (B2R (f_of_Z f 1)) (B2R (fneg y)) (B2R a) b' c' /\
      Rabs (b' - B2R b) <= 3.1 * u * sqrt B /\ Rabs (B2R a) * Rabs (c' - B2R c) <= 3.3 * u * B).
  { clear e6 e7 H6 H7 Eq R0. intros x y S e8 e9 e6 e7 H6 H7 H8 H9 HS Ex Ey.
    destruct (perturbed (B2R b) D (B2R Dh) S B (sqrt B) u e5 e6 e7 e8 e9 Hu H5 H6 H7 H8 H9 (sqrt_pos B) SQ HbB HDB HS HD) as [K1 K2].
    cbv zeta in K1, K2. rewrite <- Ex, <- Ey in K1, K2.
    exists (- (B2R a * (B2R x + B2R y))), (B2R a * (B2R x * B2R y)). unfold expands. rewrite one_val, !neg_val.
    split; [repeat split; ring|]. split.
    - replace (- (B2R a * (B2R x + B2R y)) - B2R b) with (- / 2 * (2 * B2R a * B2R x + 2 * B2R a * B2R y + 2 * B2R b)) by field.
      rewrite Rabs_mult, Rabs_left by lra. assert (0 <= u * sqrt B) by (apply Rmult_le_pos; [lra|apply sqrt_pos]). lra.
    - rewrite <- Rabs_mult.
      replace (B2R a * (B2R a * (B2R x * B2R y) - B2R c)) with (/ 4 * (2 * B2R a * B2R x * (2 * B2R a * B2R y) - (B2R b * B2R b - D))) by (unfold D; field).
      rewrite Rabs_mult, (Rabs_pos_eq (/ 4)) by lra. assert (0 <= u * B) by (apply Rmult_le_pos; lra). lra. }
  rewrite feqb_zero in * by exact FD. rewrite fpos in * by exact FD. revert R0. case Req_bool_spec; intros HZ R0.
  - cbn [bind float_num neg one]. eexists. split; [reflexivity|]. cbv beta iota.
    assert (N : is_finite (fneg h) = true) by (unfold fneg; rewrite is_finite_Bopp; exact Fh). split; [exact N|]. split; [exact N|].
    apply (FIN h h 0 0 0 0 0 U0 U0 U0 U0); [rewrite HZ; ring|rewrite Eh; ring..].
  - revert R0. case Rlt_bool_spec; intros HP R0.
    + assert (Z6 : (SpecFloat.emin (fprec f) (femax f) <= 2 * span f + 2 /\ 2 * span f + 2 + 1 < femax f)%Z) by (clear; destruct f; cbn; lia).
      destruct Z6 as [Z6 Z7].
      set (s := sqrt (Rabs (B2R Dh))) in *.
      assert (Hs : s * s = B2R Dh) by (unfold s; rewrite sqrt_sqrt by apply Rabs_pos; apply Rabs_pos_eq; lra).
      destruct (fadd_small h q (2 * span f + 2) Fh Fq Uh Uq Z6 Z7) as (F1 & e8 & H8 & E8).
      destruct (fsub_small h q (2 * span f + 2) Fh Fq Uh Uq Z6 Z7) as (F2 & e9 & H9 & E9).
      cbn [bind float_num neg one]. eexists. split; [reflexivity|]. cbv beta iota.
      split; [unfold fneg; rewrite is_finite_Bopp; exact F1|]. split; [unfold fneg; rewrite is_finite_Bopp; exact F2|].
      apply (FIN _ _ s e8 e9 e6 e7 H6 H7 H8 H9 Hs).
      * rewrite E8. replace (2 * B2R a * ((B2R h + B2R q) * (1 + e8))) with ((2 * B2R a * B2R h + 2 * B2R a * B2R q) * (1 + e8)) by ring. rewrite Eh, Eq. ring.
      * rewrite E9. replace (2 * B2R a * ((B2R h - B2R q) * (1 + e9))) with ((2 * B2R a * B2R h - 2 * B2R a * B2R q) * (1 + e9)) by ring. rewrite Eh, Eq. ring.
    + cbn [bind]. eexists. split; [reflexivity|]. cbv beta iota. destruct R0 as (rs & E & M). injection E as <-. apply M.
Qed.

(** Whenever there are no real factors and the coefficient of x is not zero, the complex ones
    do not multiply back: for all finite coefficients, with the exact product. *)
Theorem C98_complex_wrong : forall f chk powi cb rd l (a b c : flt f),
  is_finite b = true -> B2R b <> 0 ->
  trino_real_factors (float_num chk f powi) (ieee_rops f cb rd l) (MkTrino a b c) = Ok None ->
  exists k u1 v1 u2 v2,
    trino_complex_factors (float_num chk f powi) (ieee_rops f cb rd l) (MkTrino a b c) = Ok (k, MkBino u1 v1, MkBino u2 v2) /\
    ~ cexpands (B2R k) (cval u1) (cval v1) (cval u2) (cval v2) (B2R a) (B2R b) (B2R c).
Proof.
  intros f chk powi cb rd l a b c Fb Hb. unfold trino_real_factors, trino_complex_factors, trino_roots. cbn [tc0 tc1 tc2].
  rewrite trinomial_roots_float. cbv zeta. set (D := fsub _ _). set (a2 := fmul a (f_of_Z f 2)).
  destruct (feqb D (fzero f)); [discriminate|]. destruct (Bltb (fzero f) D); [discriminate|]. intros _.
  cbn [bind float_num neg one zero]. eexists _, _, _, _, _. split; [reflexivity|].
  unfold cexpands, cval, cmul, cadd. cbn [fst snd]. rewrite one_val, !neg_val. change (B2R (fzero f)) with 0.
  set (h := fdiv (fneg b) a2). intros (_ & E & _). apply (f_equal fst) in E. cbn [fst] in E.
  assert (K : B2R b = 2 * (B2R a * B2R h)) by (rewrite <- E; ring). clear E.
  assert (Fn : is_finite (fneg b) = true) by (unfold fneg; rewrite is_finite_Bopp; exact Fb).
  assert (B0 : B2R h <> 0) by (intros Z; rewrite Z in K; lra). assert (A0 : B2R a <> 0) by (intros Z; rewrite Z in K; lra).
  assert (A2 : B2R a2 <> 0) by (intros Z; apply B0, fdiv_degenerate; assumption).
  pose proof (fdiv_sign f (fneg b) a2 Fn) as S1. fold h in S1. rewrite neg_val in S1. pose proof (double_sign f a) as S2. fold a2 in S2.
  assert (P1 : 0 < B2R a2 * B2R a) by (destruct S2 as [S2|S2]; [lra|]; exfalso; apply Rmult_integral in S2; tauto).
  assert (P2 : 0 < B2R b * B2R b) by nra. rewrite K in S1.
  assert (0 < B2R h * B2R h) by nra. assert (0 < (B2R h * B2R h) * (B2R a2 * B2R a)) by (apply Rmult_lt_0_compat; assumption). lra.
Qed.

(** Without a term in x: a x^2 + a w^2 is multiplied back. *)
Theorem C98_pure : forall f chk powi cb rd l (a b c : flt f) za w,
  fint a za -> fint b 0 -> fint c (za * (w * w)) -> za <> 0%Z -> w <> 0%Z -> small_quadratic f za 0 (za * (w * w)) ->
  exists k u1 v1 u2 v2,
    trino_complex_factors (float_num chk f powi) (ieee_rops f cb rd l) (MkTrino a b c) = Ok (k, MkBino u1 v1, MkBino u2 v2) /\
    cexpands (B2R k) (cval u1) (cval v1) (cval u2) (cval v2) (B2R a) (B2R b) (B2R c).
Proof.
  intros f chk powi cb rd l a b c za w Ha Hb Hc Hz Hw HS. unfold trino_complex_factors, trino_roots. cbn [tc0 tc1 tc2].
  rewrite trinomial_roots_float. cbv zeta. destruct (discriminant_whole f a b c _ _ _ Ha Hb Hc HS) as [HD H2].
  set (D := fsub _ _) in *. set (a2 := fmul a (f_of_Z f 2)) in *.
  assert (ED : (0 * 0 - 4 * za * (za * (w * w)) = - ((za * (2 * w)) * (za * (2 * w))))%Z) by ring.
  destruct HS as (_ & _ & S3 & S4). rewrite ED in *.
  assert (NZ : (za * (2 * w) <> 0)%Z) by nia. assert (SQ : (0 < za * (2 * w) * (za * (2 * w)))%Z) by nia.
  rewrite (fint_eqb f _ _ _ _ HD (fint_zero f)), (fint_pos f _ _ HD).
  destruct (Z.eqb_spec (- (za * (2 * w) * (za * (2 * w)))) 0) as [e|_]; [lia|]. destruct (Z.ltb_spec 0 (- (za * (2 * w) * (za * (2 * w))))) as [e|_]; [lia|].
  assert (B1 : (Z.abs (za * (2 * w)) < 2 ^ fprec f)%Z).
  { assert (P : (2 ^ 24 <= 2 ^ fprec f)%Z) by (apply Z.pow_le_mono_r; pose proof (fsizes f); lia). change (2 ^ 24)%Z with 16777216%Z in P.
    generalize dependent (2 ^ fprec f)%Z. clear. intros N H1 H2. nia. }
  assert (B2 : (Z.abs (Z.sgn za * Z.abs (2 * w)) < 2 ^ fprec f)%Z) by (rewrite Z.abs_mul in B1; nia).
  assert (Sq : fint (f_abs_sqrt D) (Z.abs (za * (2 * w)))).
  { destruct HD as [FD VD]. destruct (sqrt_round D FD) as [F E]. split; [exact F|]. rewrite E, VD, opp_IZR, Rabs_Ropp, mult_IZR, Rabs_pos_eq by apply Rle_0_sqr.
    change (IZR (za * (2 * w)) * IZR (za * (2 * w))) with (Rsqr (IZR (za * (2 * w)))). rewrite sqrt_Rsqr_abs, <- abs_IZR.
    apply round_generic; [apply valid_rnd_N|]. apply int_format. lia. }
  assert (E2 : B2R a2 = IZR za * 2) by (rewrite <- mult_IZR; exact (proj2 H2)).
  destruct Sq as [Fs Es].
  assert (Es' : B2R (f_abs_sqrt D) = IZR za * IZR (Z.sgn za * Z.abs (2 * w))).
  { rewrite Es, <- mult_IZR. f_equal. rewrite Z.abs_mul, Z.mul_assoc. f_equal. lia. }
  destruct (fdiv_half (f_abs_sqrt D) a2 _ za Fs Es' E2 Hz B2) as [_ Eq].
  destruct (fint_neg f _ _ Hb) as [Fnb Enb]. change (- 0)%Z with 0%Z in Enb.
  destruct (fdiv_half (fneg b) a2 0 za Fnb ltac:(rewrite Enb; ring) E2 Hz ltac:(apply Z.pow_pos_nonneg; pose proof (fsizes f); lia)) as [_ Eh].
  cbn [bind float_num neg one zero]. eexists _, _, _, _, _. split; [reflexivity|].
  unfold cexpands, cval, cmul, cadd. cbn [fst snd]. rewrite one_val, !neg_val, Eh, Eq. change (B2R (fzero f)) with 0.
  destruct Ha as [_ Ea], Hb as [_ Eb], Hc as [_ Ec]. rewrite Eb, Ec.
  assert (W : IZR (Z.sgn za * Z.abs (2 * w)) / 2 * (IZR (Z.sgn za * Z.abs (2 * w)) / 2) = IZR (w * w)).
  { replace (Z.sgn za * Z.abs (2 * w))%Z with (2 * (Z.sgn za * Z.abs w))%Z by (rewrite Z.abs_mul; change (Z.abs 2) with 2%Z; ring).
    rewrite (mult_IZR 2). replace (2 * IZR (Z.sgn za * Z.abs w) / 2) with (IZR (Z.sgn za * Z.abs w)) by field. rewrite <- mult_IZR. f_equal.
    rewrite <- (Z.abs_square w). destruct (Z.sgn_spec za) as [[? G]|[[? G]|[? G]]]; [|lia|]; rewrite G; ring. }
  set (q := IZR (Z.sgn za * Z.abs (2 * w)) / 2) in *. rewrite (mult_IZR za), <- W, Ea.
  repeat split; f_equal; field.
Qed.

(** So complex_factors is wrong on x^2 - 2x + 5, in f64. *)
Theorem C98_refuted : forall chk powi cb rd l, exists a b c k u1 v1 u2 v2,
  fint a 1 /\ fint b (-2) /\ fint c 5 /\
  trino_complex_factors (float_num chk F64 powi) (ieee_rops F64 cb rd l) (MkTrino a b c) = Ok (k, MkBino u1 v1, MkBino u2 v2) /\
  ~ cexpands (B2R k) (cval u1) (cval v1) (cval u2) (cval v2) (B2R a) (B2R b) (B2R c).
Proof.
  intros chk powi cb rd l. assert (I : forall z, (Z.abs z <= 2 ^ 53)%Z -> fint (f_of_Z F64 z) z) by (intros z Hz; apply fint_of_Z; exact Hz).
  pose proof (I 1%Z ltac:(cbn; lia)) as I1. pose proof (I (-2)%Z ltac:(cbn; lia)) as I2. pose proof (I 5%Z ltac:(cbn; lia)) as I5.
  destruct (C98_complex_wrong F64 chk powi cb rd l (f_of_Z F64 1) (f_of_Z F64 (-2)) (f_of_Z F64 5) (proj1 I2)) as (k & u1 & v1 & u2 & v2 & E & N).
  - rewrite (proj2 I2). lra.
  - apply (C98_none F64 chk powi cb rd l _ _ _ 1 (-2) 5 I1 I2 I5); [unfold small_quadratic; cbn; lia|lia].
  - eexists _, _, _, k, u1, v1, u2, v2. eauto.
Qed.

(** The hypotheses hold of x^2 + x - 6 = (x - 2) (x + 3) and of 3 x^2 + 12 in f32. *)
Example C98_case : forall cb rd l, let z := f_of_Z F32 in let O := float_num true F32 (fun x _ => x) in
  (exists k u1 v1 u2 v2, trino_real_factors O (ieee_rops F32 cb rd l) (MkTrino (z 1%Z) (z 1%Z) (z (-6)%Z)) = Ok (Some (k, MkBino u1 v1, MkBino u2 v2)) /\
     expands (B2R k) (B2R u1) (B2R v1) (B2R u2) (B2R v2) 1 1 (-6)) /\
  (exists k u1 v1 u2 v2, trino_complex_factors O (ieee_rops F32 cb rd l) (MkTrino (z 3%Z) (z 0%Z) (z 12%Z)) = Ok (k, MkBino u1 v1, MkBino u2 v2) /\
     cexpands (B2R k) (cval u1) (cval v1) (cval u2) (cval v2) 3 0 12).
Proof.
  intros cb rd l z O. assert (I : forall w, (Z.abs w <= 2 ^ 24)%Z -> fint (f_of_Z F32 w) w) by (intros w Hz; apply fint_of_Z; exact Hz).
  pose proof (I 1%Z ltac:(cbn; lia)) as I1. pose proof (I (-6)%Z ltac:(cbn; lia)) as I6.
  pose proof (I 3%Z ltac:(cbn; lia)) as I3. pose proof (I 0%Z ltac:(cbn; lia)) as I0. pose proof (I 12%Z ltac:(cbn; lia)) as I12. split.
  - destruct (C98_whole_roots F32 true (fun x _ => x) cb rd l (z 1%Z) (z 1%Z) (z (-6)%Z) 1 2 (-3) I1 I1 I6) as [H _]; [lia|unfold small_quadratic; cbn; lia|].
    destruct I1 as [_ E1], I6 as [_ E6]. unfold z in *. rewrite E1, E6 in H. exact H.
  - pose proof (C98_pure F32 true (fun x _ => x) cb rd l (z 3%Z) (z 0%Z) (z 12%Z) 3 2 I3 I0 I12 ltac:(lia) ltac:(lia) ltac:(unfold small_quadratic; cbn; lia)) as H.
    destruct I3 as [_ E3], I0 as [_ E0], I12 as [_ E12]. unfold z in *. rewrite E3, E0, E12 in H. exact H.
Qed.

Print Assumptions C98_none.
Print Assumptions C98_whole_roots.
Print Assumptions C98_rounded.
Print Assumptions C98_complex_wrong.
Print Assumptions C98_pure.
Print Assumptions C98_refuted.
