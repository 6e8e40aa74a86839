(** Square roots, quotients and magnitudes of floats, for the quadratic formula. *)

From Coq Require Import List NArith ZArith Reals Lia Lra Psatz Bool.
From Flocq Require Import Core BinarySingleNaN Relative Plus_error Mult_error.
From Verif Require Import Base Num Floats FloatFacts FloatErr SimInst Mono Bino Trino Roots P_Roots3.
Local Open Scope R_scope.

(** numerics.rs 214-224: [self.abs().sqrt()]; the square root of IEEE 754 is correctly
    rounded. *)
Definition f_abs_sqrt {f} (x : flt f) : flt f := Bsqrt mode_NE (Babs x).

(** Root finding for f32 and f64, with arbitrary [cbrt], [round] and [<]. *)
Definition ieee_rops (f : fty) (cb rnd : flt f -> flt f) (l : flt f -> flt f -> bool) : rops (flt f) :=
  float_rops f f_abs_sqrt cb rnd l.

Section Mag.
Context {f : fty}.
Notation prec := (fprec f).
Notation emax := (femax f).
Notation emin := (SpecFloat.emin (fprec f) (femax f)).
Notation u := (uro f).
Notation fexp := (SpecFloat.fexp prec emax).
Notation rnd := (Generic_fmt.round radix2 fexp (round_mode mode_NE)).
Implicit Types x y : flt f.

Lemma sqrt_round x : is_finite x = true -> is_finite (f_abs_sqrt x) = true /\ B2R (f_abs_sqrt x) = rnd (sqrt (Rabs (B2R x))).
Proof.
  intros H. unfold f_abs_sqrt. destruct (Bsqrt_correct prec emax _ _ mode_NE (Babs x)) as (K1 & K2 & _).
  rewrite K1, K2, B2R_Babs. split; [|reflexivity]. destruct x; try discriminate H; reflexivity.
Qed.

Lemma fdiv_finite x y : is_finite x = true -> B2R y <> 0 -> Rabs (rnd (B2R x / B2R y)) < bpow radix2 emax ->
  is_finite (fdiv x y) = true.
Proof.
  intros Hx Hy H. pose proof (Bdiv_correct prec emax _ _ mode_NE x y Hy) as K.
  rewrite Rlt_bool_true in K by exact H. destruct K as (_ & K & _). unfold fdiv. rewrite K. exact Hx.
Qed.
Lemma fsub_finite x y : is_finite x = true -> is_finite y = true -> Rabs (rnd (B2R x - B2R y)) < bpow radix2 emax ->
  is_finite (fsub x y) = true.
Proof.
  intros Ha Hb H. pose proof (Bminus_correct prec emax _ _ mode_NE x y Ha Hb) as K.
  rewrite Rlt_bool_true in K by exact H. apply K.
Qed.

(** The value is zero or its magnitude is between the powers of two. *)
Definition within (r : R) (l h : Z) : Prop := r = 0 \/ bpow radix2 l <= Rabs r <= bpow radix2 h.

Lemma bpow_format e : (emin <= e)%Z -> generic_format radix2 fexp (bpow radix2 e).
Proof.
  intros H. apply generic_format_bpow. unfold SpecFloat.fexp. pose proof (fsizes f). lia.
Qed.

Lemma rnd_0 : rnd 0 = 0.
Proof. apply round_0. apply valid_rnd_N. Qed.

Lemma rnd_within r l h : (emin <= l)%Z -> (l <= h)%Z -> within r l h -> within (rnd r) l h.
Proof.
  intros Hl Hh [->|[H1 H2]]; [left; apply rnd_0|]. right. split.
  - apply abs_round_ge_generic; [apply FLT_exp_valid, _ | apply valid_rnd_N|apply bpow_format, Hl|exact H1].
  - apply abs_round_le_generic; [apply FLT_exp_valid, _ | apply valid_rnd_N|apply bpow_format; lia|exact H2].
Qed.

Lemma within_lt r l h : (h < emax)%Z -> within r l h -> Rabs r < bpow radix2 emax.
Proof.
  intros Hh [->|[_ H]]; [rewrite Rabs_R0; apply bpow_gt_0|]. eapply Rle_lt_trans; [exact H|]. apply bpow_lt, Hh.
Qed.

Lemma rnd_rel r l h : (emin + prec - 1 <= l)%Z -> within r l h -> exists e, Rabs e <= u /\ rnd r = r * (1 + e).
Proof.
  intros Hl [->|[H _]].
  - exists 0. rewrite Rabs_R0, rnd_0. split; [apply Rlt_le, uro_pos|ring].
  - destruct (relative_error_N_FLT_ex radix2 emin prec (fprec_pos f) (fun z : Z => negb (Z.even z)) r) as (e & He & E).
    + eapply Rle_trans; [|exact H]. apply bpow_le, Hl.
    + exists e. split; [|exact E]. eapply Rle_trans; [exact He|]. unfold uro. rewrite bpow_plus. change (bpow radix2 1) with 2. lra.
Qed.

Lemma within_mul r s l1 h1 l2 h2 : within r l1 h1 -> within s l2 h2 -> within (r * s) (l1 + l2) (h1 + h2).
Proof.
  intros [->|[A1 A2]]; [left; ring|]. intros [->|[B1 B2]]; [left; ring|]. right. rewrite Rabs_mult, !bpow_plus.
  split; apply Rmult_le_compat; auto using bpow_ge_0, Rabs_pos.
Qed.
Lemma within_inv r l h : r <> 0 -> within r l h -> within (/ r) (- h) (- l).
Proof.
  intros H [->|[A1 A2]]; [congruence|]. right. rewrite Rabs_inv, !bpow_opp.
  pose proof (bpow_gt_0 radix2 l). split; apply Rinv_le; lra.
Qed.
Lemma within_weaken r l h l' h' : (l' <= l)%Z -> (h <= h')%Z -> within r l h -> within r l' h'.
Proof.
  intros H1 H2 [->|[A1 A2]]; [left; reflexivity|right]. split.
  - eapply Rle_trans; [apply bpow_le, H1|exact A1].
  - eapply Rle_trans; [exact A2|apply bpow_le, H2].
Qed.
Lemma within_opp r l h : within r l h -> within (- r) l h.
Proof. intros [->|H]; [left; ring|right; rewrite Rabs_Ropp; exact H]. Qed.

(** Products and quotients stay inside the exact range and have a relative error. *)
Lemma fmul_within x y l1 h1 l2 h2 : is_finite x = true -> is_finite y = true ->
  within (B2R x) l1 h1 -> within (B2R y) l2 h2 -> (emin + prec - 1 <= l1 + l2 <= h1 + h2)%Z -> (h1 + h2 < emax)%Z ->
  is_finite (fmul x y) = true /\ within (B2R (fmul x y)) (l1 + l2) (h1 + h2) /\
  exists e, Rabs e <= u /\ B2R (fmul x y) = B2R x * B2R y * (1 + e).
Proof.
  intros Fx Fy Wx Wy [Hl Hlh] Hh. pose proof (fsizes f). pose proof (within_mul _ _ _ _ _ _ Wx Wy) as W.
  assert (WR : within (rnd (B2R x * B2R y)) (l1 + l2) (h1 + h2)) by (apply rnd_within; [lia|lia|exact W]).
  assert (F : is_finite (fmul x y) = true) by (apply fmul_finite; auto; eapply within_lt; [|exact WR]; lia).
  split; [exact F|]. rewrite (fmul_round x y F). split; [exact WR|]. eapply rnd_rel; [exact Hl|exact W].
Qed.
Lemma fdiv_within x y l1 h1 l2 h2 : is_finite x = true -> B2R y <> 0 ->
  within (B2R x) l1 h1 -> within (B2R y) l2 h2 -> (emin + prec - 1 <= l1 - h2 <= h1 - l2)%Z -> (h1 - l2 < emax)%Z ->
  is_finite (fdiv x y) = true /\ within (B2R (fdiv x y)) (l1 - h2) (h1 - l2) /\
  exists e, Rabs e <= u /\ B2R (fdiv x y) = B2R x / B2R y * (1 + e).
Proof.
  intros Fx Fy Wx Wy [Hl Hlh] Hh. pose proof (fsizes f). pose proof (within_mul _ _ _ _ _ _ Wx (within_inv _ _ _ Fy Wy)) as W.
  change (l1 + - h2)%Z with (l1 - h2)%Z in W. change (h1 + - l2)%Z with (h1 - l2)%Z in W. change (B2R x * / B2R y) with (B2R x / B2R y) in W.
  assert (WR : within (rnd (B2R x / B2R y)) (l1 - h2) (h1 - l2)) by (apply rnd_within; [lia|lia|exact W]).
  assert (F : is_finite (fdiv x y) = true) by (apply fdiv_finite; auto; eapply within_lt; [|exact WR]; lia).
  split; [exact F|]. rewrite (fdiv_round x y Fy F). split; [exact WR|]. eapply rnd_rel; [exact Hl|exact W].
Qed.

(** Doubling is exact. *)
Lemma fmul_2 x l h : is_finite x = true -> within (B2R x) l h -> (h + 1 < emax)%Z ->
  is_finite (fmul x (f_of_Z f 2)) = true /\ B2R (fmul x (f_of_Z f 2)) = B2R x * 2.
Proof.
  intros Fx W Hh. pose proof (fsizes f) as Z. destruct (f_of_Z_small f 2) as [E2 F2].
  { apply Z.le_trans with (2 ^ 1)%Z; [lia|]. apply Z.pow_le_mono_r; lia. }
  assert (G : rnd (B2R x * 2) = B2R x * 2).
  { apply round_generic; [apply valid_rnd_N|]. change 2 with (bpow radix2 1). apply mult_bpow_pos_exact_FLT; [|lia].
    apply generic_format_B2R. }
  assert (F : is_finite (fmul x (f_of_Z f 2)) = true).
  { apply fmul_finite; [exact Fx|exact F2|]. rewrite E2, G. destruct W as [W|[_ W]].
    - rewrite W, Rmult_0_l, Rabs_R0. apply bpow_gt_0.
    - rewrite Rabs_mult, (Rabs_pos_eq 2) by lra. eapply Rle_lt_trans; [apply Rmult_le_compat_r; [lra|exact W]|].
      change 2 with (bpow radix2 1). rewrite <- bpow_plus. apply bpow_lt, Hh. }
  split; [exact F|]. rewrite (fmul_round _ _ F), E2. exact G.
Qed.

(** A float of magnitude at least 2^l is a multiple of 2^(l+1-prec). *)
Lemma multiple x l : within (B2R x) l (Z.max l emax) -> exists m, B2R x = IZR m * bpow radix2 (l + 1 - prec).
Proof.
  intros [->|[H _]]; [exists 0%Z; ring|].
  pose proof (generic_format_B2R prec emax x) as G. unfold generic_format, F2R in G. cbn [Fnum Fexp] in G.
  set (e := cexp radix2 fexp (B2R x)) in G.
  assert (He : (l + 1 - prec <= e)%Z).
  { unfold e, cexp, SpecFloat.fexp.
    assert (l + 1 <= mag radix2 (B2R x))%Z by (apply mag_ge_bpow; replace (l + 1 - 1)%Z with l by lia; exact H). lia. }
  exists (Ztrunc (scaled_mantissa radix2 fexp (B2R x)) * 2 ^ (e - (l + 1 - prec)))%Z. rewrite G at 1.
  rewrite mult_IZR, (IZR_Zpower radix2) by lia. rewrite Rmult_assoc, <- bpow_plus. do 2 f_equal. lia.
Qed.

Lemma fsub_within x y l h : is_finite x = true -> is_finite y = true ->
  within (B2R x) l h -> within (B2R y) l h -> (emin <= l + 1 - prec)%Z -> (l <= h)%Z -> (h + 1 < emax)%Z ->
  is_finite (fsub x y) = true /\ within (B2R (fsub x y)) (l + 1 - prec) (h + 1) /\
  exists e, Rabs e <= u /\ B2R (fsub x y) = (B2R x - B2R y) * (1 + e).
Proof.
  intros Fx Fy Wx Wy Hl Hlh Hh. pose proof (fsizes f) as Z.
  assert (W : within (B2R x - B2R y) (l + 1 - prec) (h + 1)).
  { destruct (multiple x l) as [m Em]; [eapply within_weaken; [..|exact Wx]; lia|].
    destruct (multiple y l) as [n En]; [eapply within_weaken; [..|exact Wy]; lia|].
    assert (U : forall r, within r l h -> Rabs r <= bpow radix2 h).
    { intros r [->|[_ H]]; [rewrite Rabs_R0; apply bpow_ge_0|exact H]. }
    pose proof (U _ Wx) as Ux. pose proof (U _ Wy) as Uy.
    destruct (Z.eq_dec m n) as [->|D]; [left; rewrite Em, En; ring|right]. split.
    - rewrite Em, En, <- Rmult_minus_distr_r, <- minus_IZR, Rabs_mult, <- abs_IZR, (Rabs_pos_eq (bpow _ _)) by apply bpow_ge_0.
      rewrite <- (Rmult_1_l (bpow radix2 (l + 1 - prec))) at 1. apply Rmult_le_compat_r; [apply bpow_ge_0|]. apply IZR_le. lia.
    - rewrite bpow_plus. change (bpow radix2 1) with 2. unfold Rminus. eapply Rle_trans; [apply Rabs_triang|]. rewrite Rabs_Ropp. lra. }
  assert (WR : within (rnd (B2R x - B2R y)) (l + 1 - prec) (h + 1)) by (apply rnd_within; [lia|lia|exact W]).
  assert (F : is_finite (fsub x y) = true) by (apply fsub_finite; auto; eapply within_lt; [|exact WR]; lia).
  split; [exact F|]. rewrite (fsub_round x y F). split; [exact WR|].
  destruct (@rnd_add_err f x (fneg y)) as (e & He & E). exists e. split; [exact He|].
  unfold fneg in E. rewrite B2R_Bopp in E. exact E.
Qed.

(** Sums have a relative error even when they cancel. *)
Lemma fadd_small x y h : is_finite x = true -> is_finite y = true ->
  Rabs (B2R x) <= bpow radix2 h -> Rabs (B2R y) <= bpow radix2 h -> (emin <= h)%Z -> (h + 1 < emax)%Z ->
  is_finite (fadd x y) = true /\ exists e, Rabs e <= u /\ B2R (fadd x y) = (B2R x + B2R y) * (1 + e).
Proof.
  intros Fx Fy Hx Hy Hl Hh.
  assert (F : is_finite (fadd x y) = true).
  { apply fadd_finite; auto. apply Rle_lt_trans with (bpow radix2 (h + 1)); [|apply bpow_lt, Hh].
    apply abs_round_le_generic; [apply FLT_exp_valid, _ |apply valid_rnd_N|apply bpow_format; lia|].
    rewrite bpow_plus. change (bpow radix2 1) with 2. eapply Rle_trans; [apply Rabs_triang|]. lra. }
  split; [exact F|]. apply fadd_err, F.
Qed.
Lemma fsub_small x y h : is_finite x = true -> is_finite y = true ->
  Rabs (B2R x) <= bpow radix2 h -> Rabs (B2R y) <= bpow radix2 h -> (emin <= h)%Z -> (h + 1 < emax)%Z ->
  is_finite (fsub x y) = true /\ exists e, Rabs e <= u /\ B2R (fsub x y) = (B2R x - B2R y) * (1 + e).
Proof.
  intros Fx Fy Hx Hy Hl Hh.
  assert (F : is_finite (fsub x y) = true).
  { apply fsub_finite; auto. apply Rle_lt_trans with (bpow radix2 (h + 1)); [|apply bpow_lt, Hh].
    apply abs_round_le_generic; [apply FLT_exp_valid, _ |apply valid_rnd_N|apply bpow_format; lia|].
    rewrite bpow_plus. change (bpow radix2 1) with 2. unfold Rminus. eapply Rle_trans; [apply Rabs_triang|]. rewrite Rabs_Ropp. lra. }
  split; [exact F|]. rewrite (fsub_round x y F).
  destruct (@rnd_add_err f x (fneg y)) as (e & He & E). exists e. split; [exact He|].
  unfold fneg in E. rewrite B2R_Bopp in E. exact E.
Qed.

Lemma fsqrt_within x l h : is_finite x = true -> within (B2R x) (2 * l) (2 * h) -> (emin + prec - 1 <= l <= h)%Z ->
  is_finite (f_abs_sqrt x) = true /\ within (B2R (f_abs_sqrt x)) l h /\
  exists e, Rabs e <= u /\ B2R (f_abs_sqrt x) = sqrt (Rabs (B2R x)) * (1 + e).
Proof.
  intros Fx Wx [Hl Hlh]. pose proof (fsizes f). destruct (sqrt_round x Fx) as [F E]. split; [exact F|].
  assert (W : within (sqrt (Rabs (B2R x))) l h).
  { destruct Wx as [->|[H1 H2]]; [left; rewrite Rabs_R0; apply sqrt_0|right].
    rewrite (Rabs_pos_eq (sqrt _)) by apply sqrt_pos. rewrite <- (sqrt_bpow radix2 l), <- (sqrt_bpow radix2 h).
    split; apply sqrt_le_1_alt; assumption. }
  rewrite E. split; [apply rnd_within; [lia|lia|exact W]|]. eapply rnd_rel; [exact Hl|exact W].
Qed.

(** The quadratic formula on floats, unfolded. *)
Lemma trinomial_roots_float chk powi cb rd l (a b c : flt f) :
  trinomial_roots (float_num chk f powi) (ieee_rops f cb rd l) a b c =
  let D := fsub (fmul b b) (fmul (fmul a c) (f_of_Z f 4)) in
  let a2 := fmul a (f_of_Z f 2) in let h := fdiv (fneg b) a2 in let q := fdiv (f_abs_sqrt D) a2 in
  if feqb D (fzero f) then Ok (TwoRealRoots h h)
  else if Bltb (fzero f) D then Ok (TwoRealRoots (fadd h q) (fsub h q))
  else Ok (TwoComplexRoots (h, q) (h, fneg q)).
Proof. reflexivity. Qed.

Lemma feqb_zero x : is_finite x = true -> feqb x (fzero f) = Req_bool (B2R x) 0.
Proof. intros H. unfold feqb. rewrite Beqb_correct; auto. Qed.
Lemma fpos x : is_finite x = true -> Bltb (fzero f) x = Rlt_bool 0 (B2R x).
Proof. intros H. rewrite Bltb_correct; auto. Qed.
End Mag.
