(** C70: roots() of a float polynomial of degree 2, and where the quadratic formula is
    inaccurate. *)

From Coq Require Import List NArith ZArith Reals Lia Lra Psatz Bool.
From Flocq Require Import Core BinarySingleNaN.
From Verif Require Import Base Num Floats FloatFacts FloatErr SimInst Terms Dense Mono Bino Trino Sparse Roots RootSpecial
  FloatQuad P_Roots3 P_FloatQuad.
Import ListNotations.
Local Open Scope R_scope.

Lemma dense_roots_quadratic f chk powi S solver dfuel fuel (a b c : flt f) :
  let O := float_num chk f powi in is_zero O a = false ->
  exists b' c', (b' = b \/ B2R b = 0 /\ b' = fzero f) /\ (c' = c \/ B2R c = 0 /\ c' = fzero f) /\
  (dense_roots O S solver dfuel fuel [a; b; c] = many (trinomial_roots O S a b' c') \/
   B2R b = 0 /\ B2R c = 0 /\ dense_roots O S solver dfuel fuel [a; b; c] = Ok (ManyRealRoots [fzero f])).
Proof.
  intros O Ha.
  assert (Z : forall x : flt f, is_zero O x = true -> B2R x = 0).
  { intros x H. destruct x as [s|s| |s m e H']; try reflexivity. unfold O in H. cbn in H. destruct s; discriminate. }
  assert (LM : forall r, (sp <- listed r ;; match sp with Some rs => Ok rs | None => @Fuel (roots (flt f)) end) = many r).
  { intros r. unfold listed, many. destruct r as [r| |]; [|reflexivity|reflexivity]. destruct r; reflexivity. }
  set (sel := fun x : flt f => if is_zero O x then fzero f else x).
  exists (sel b), (sel c). unfold sel.
  split; [destruct (is_zero O b) eqn:E; auto|]. split; [destruct (is_zero O c) eqn:E; auto|].
  unfold dense_roots, dense_terms, first_nonzero_index. cbn [fnz_chunks fnz_rem]. rewrite Ha. cbn [negb].
  cbn [slice_from firstn skipn length Nat.leb bind enum_terms len]. rewrite Ha.
  replace (usub (n_chk O) (len [a; b; c] - 1) (N.of_nat 0)) with (@Ok N 2%N) by (destruct chk; reflexivity).
  replace (usub (n_chk O) (len [a; b; c] - 1) (N.of_nat 1)) with (@Ok N 1%N) by (destruct chk; reflexivity).
  replace (usub (n_chk O) (len [a; b; c] - 1) (N.of_nat 2)) with (@Ok N 0%N) by (destruct chk; reflexivity).
  destruct (is_zero O b) eqn:Eb, (is_zero O c) eqn:Ec; cbn [bind]; unfold find_roots, find_roots_special; cbn [bind].
  - right. auto.
  - left. rewrite listed_trinomial. rewrite <- LM. destruct (listed _) as [[?|]| |] eqn:E; try reflexivity.
    exfalso. unfold listed in E. destruct (trinomial_roots O S a (zero O) c) as [[]| |]; discriminate E.
  - left. rewrite listed_trinomial. rewrite <- LM. destruct (listed _) as [[?|]| |] eqn:E; try reflexivity.
    exfalso. unfold listed in E. destruct (trinomial_roots O S a b (zero O)) as [[]| |]; discriminate E.
  - left. rewrite listed_trinomial. rewrite <- LM. destruct (listed _) as [[?|]| |] eqn:E; try reflexivity.
    exfalso. unfold listed in E. destruct (trinomial_roots O S a b c) as [[]| |]; discriminate E.
Qed.

(** roots() of a polynomial of degree 2 (with f64 the only type the library offers it for). *)
Theorem C70_polynomial : forall f chk powi cb rd l solver dfuel fuel (a b c : flt f),
  moderate a -> moderate b -> moderate c -> B2R a <> 0 ->
  let D := B2R b * B2R b - 4 * B2R a * B2R c in
  let tol := 4 * uro f * scale (B2R a) (B2R b) (B2R c) in
  let small x y := Rabs (B2R a) * Rabs (residual_re (B2R a) (B2R b) (B2R c) x y) <= tol /\
                   Rabs (B2R a) * Rabs (residual_im (B2R a) (B2R b) x y) <= tol in
  exists rs, dense_roots (float_num chk f powi) (ieee_rops f cb rd l) solver dfuel fuel [a; b; c] = Ok rs /\
  match rs with
  | ManyRealRoots xs => xs <> [] /\ (forall x, In x xs -> is_finite x = true /\ small (B2R x) 0) /\ - tol <= D
  | ManyComplexRoots zs => length zs = 2%nat /\
      (forall x y, In (x, y) zs -> is_finite x = true /\ is_finite y = true /\ small (B2R x) (B2R y)) /\ D <= tol
  | _ => False
  end.
Proof.
  intros f chk powi cb rd l solver dfuel fuel a b c Ma Mb Mc Ha D tol small.
  destruct (dense_roots_quadratic f chk powi (ieee_rops f cb rd l) solver dfuel fuel a b c) as (b' & c' & Hb & Hc & K).
  { cbn [is_zero float_num]. rewrite feqb_zero by apply Ma. apply Req_bool_false, Ha. }
  assert (Z0 : moderate (fzero f)) by (split; [reflexivity|left; reflexivity]).
  assert (Eb : B2R b' = B2R b) by (destruct Hb as [->|[-> ->]]; reflexivity).
  assert (Ec : B2R c' = B2R c) by (destruct Hc as [->|[-> ->]]; reflexivity).
  assert (Mb' : moderate b') by (destruct Hb as [->|[_ ->]]; assumption).
  assert (Mc' : moderate c') by (destruct Hc as [->|[_ ->]]; assumption).
  assert (T : 0 <= tol).
  { unfold tol. pose proof (@uro_pos f). pose proof (scale_pos (B2R a) (B2R b) (B2R c)). nra. }
  destruct K as [K|(Kb & Kc & K)]; rewrite K.
  - destruct (C70_residual f chk powi cb rd l a b' c' Ma Mb' Mc' Ha) as (rs & E & P). unfold trino_roots in E. cbn [tc0 tc1 tc2] in E.
    rewrite E. rewrite Eb, Ec in P. unfold many. cbn [bind].
    destruct rs as [| |x|x y|x y z|xs|x|[x y] [x' y']|x y z|xs| |xs]; try contradiction.
    + destruct P as (P1 & P2 & P3 & P4 & P5). eexists. split; [reflexivity|]. split; [discriminate|]. split; [|exact P5].
      intros z [<-|[<-|[]]]; auto.
    + destruct P as (P1 & P2 & P3 & P4 & P5 & P6). eexists. split; [reflexivity|]. split; [reflexivity|]. split; [|exact P6].
      assert (N : forall v, Rabs (residual_im (B2R a) (B2R b) v (- B2R y)) = Rabs (residual_im (B2R a) (B2R b) v (B2R y))).
      { intros v. rewrite <- Rabs_Ropp. f_equal. unfold residual_im. ring. }
      assert (F' : is_finite x' = true /\ is_finite y' = true).
      { rewrite trinomial_roots_float in E. cbv zeta in E. destruct (feqb _ _) in E; [discriminate E|].
        destruct (Bltb _ _) in E; [discriminate E|].
        assert (x' = x /\ y' = fneg y) as [-> ->].
        { match type of E with Ok (TwoComplexRoots (?h, ?q) (?h, fneg ?q)) = _ => generalize q, h, E end. clear.
          intros q h E. split; congruence. }
        unfold fneg. rewrite is_finite_Bopp. auto. }
      intros v w [H|[H|[]]]; injection H as <- <-; [auto|].
      destruct F' as [F1 F2]. split; [exact F1|]. split; [exact F2|]. unfold small. rewrite P4, P5, N.
      replace (residual_re (B2R a) (B2R b) (B2R c) (B2R x) (- B2R y)) with (residual_re (B2R a) (B2R b) (B2R c) (B2R x) (B2R y))
        by (unfold residual_re; ring). exact P3.
  - eexists. split; [reflexivity|]. split; [discriminate|]. split.
    + intros x [<-|[]]. split; [reflexivity|]. unfold small. change (B2R (fzero f)) with 0. unfold residual_re, residual_im. rewrite Kc.
      replace (B2R a * (0 * 0 - 0 * 0) + B2R b * 0 + 0) with 0 by ring. replace (B2R a * (2 * 0 * 0) + B2R b * 0) with 0 by ring.
      rewrite Rabs_R0, Rmult_0_r. auto.
    + unfold D. rewrite Kb, Kc. replace (0 * 0 - 4 * B2R a * 0) with 0 by ring. lra.
Qed.

(** ** Where it is inaccurate *)

Section Bad.
Context {f : fty}.
Notation prec := (fprec f).
Notation emax := (femax f).
Notation emin := (SpecFloat.emin prec emax).
Notation fexp := (SpecFloat.fexp prec emax).
Notation rnd := (Generic_fmt.round radix2 fexp (round_mode mode_NE)).

(** 2^(2k) absorbs 4. *)
Lemma absorb k : (prec + 4 <= 2 * k)%Z -> rnd (bpow radix2 (2 * k) - 4) = bpow radix2 (2 * k).
Proof.
  intros Hk. pose proof (fsizes f) as Z.
  assert (G : generic_format radix2 fexp (bpow radix2 (2 * k))) by (apply bpow_format; unfold SpecFloat.emin; lia).
  apply Rle_antisym.
  - apply round_le_generic; [apply FLT_exp_valid, _|apply valid_rnd_N|exact G|lra].
  - apply round_N_ge_midp; [apply FLT_exp_valid, _|exact G|]. rewrite pred_bpow by (apply FLT_exp_valid, _).
    assert (E : fexp (2 * k) = (2 * k - prec)%Z) by (unfold SpecFloat.fexp, SpecFloat.emin in *; lia).
    rewrite E. assert (16 <= bpow radix2 (2 * k - prec)) by (change 16 with (bpow radix2 4); apply bpow_le; lia). lra.
Qed.

Lemma pow_exact e : (emin <= e < emax)%Z -> rnd (bpow radix2 e) = bpow radix2 e /\ Rabs (bpow radix2 e) < bpow radix2 emax.
Proof.
  intros [H1 H2]. split; [apply round_generic; [apply valid_rnd_N|apply bpow_format, H1]|].
  rewrite Rabs_pos_eq by apply bpow_ge_0. apply bpow_lt, H2.
Qed.

End Bad.

(** Cancellation: of x^2 + 2^k x + 1, for every k from about half the precision up, one of the
    returned roots is 0, where the polynomial is 1; the exact root it stands for is negative.  No
    relative accuracy holds. *)
Theorem C70_relative_accuracy_refuted : forall f chk powi cb rd l k (b : flt f), (fprec f + 4 <= 2 * k)%Z -> (2 * k < femax f)%Z ->
  is_finite b = true -> B2R b = bpow radix2 k ->
  exists x y, trino_roots (float_num chk f powi) (ieee_rops f cb rd l) (MkTrino (f_of_Z f 1) b (f_of_Z f 1)) = Ok (TwoRealRoots x y) /\
    is_finite x = true /\ B2R x = 0 /\ B2R y = - bpow radix2 k /\
    exists t, 1 * (t * t) + B2R b * t + 1 = 0 /\ - (bpow radix2 k / 2) < t < 0.
Proof.
  intros f chk powi cb rd l k b Hk Hke Fb Eb. pose proof (fsizes f) as Z. unfold trino_roots. cbn [tc0 tc1 tc2].
  rewrite trinomial_roots_float. cbv zeta.
  assert (P : (2 ^ 24 <= 2 ^ fprec f)%Z) by (apply Z.pow_le_mono_r; lia). change (2 ^ 24)%Z with 16777216%Z in P.
  assert (I1 : fint (f_of_Z f 1) 1) by (apply fint_of_Z; lia).
  assert (I4 : fint (f_of_Z f 4) 4) by (apply fint_of_Z; lia). assert (I2 : fint (f_of_Z f 2) 2) by (apply fint_of_Z; lia).
  assert (IA : fint (fmul (fmul (f_of_Z f 1) (f_of_Z f 1)) (f_of_Z f 4)) 4).
  { change 4%Z with (1 * 1 * 4)%Z at 2. apply fint_mul; [apply fint_mul; [assumption..|lia]|assumption|lia]. }
  assert (I2' : fint (fmul (f_of_Z f 1) (f_of_Z f 2)) 2) by (change 2%Z with (1 * 2)%Z at 2; apply fint_mul; [assumption..|lia]).
  set (ac := fmul (fmul _ _) _) in *. set (a2 := fmul (f_of_Z f 1) (f_of_Z f 2)) in *.
  destruct IA as [Fac Eac]. destruct I2' as [Fa2 Ea2].
  assert (BB : is_finite (fmul b b) = true /\ B2R (fmul b b) = bpow radix2 (2 * k)).
  { destruct (@pow_exact f (2 * k)) as [R1 R2]; [unfold SpecFloat.emin; lia|].
    assert (EV : B2R b * B2R b = bpow radix2 (2 * k)) by (rewrite Eb, <- bpow_plus; f_equal; lia).
    assert (F : is_finite (fmul b b) = true) by (apply fmul_finite; [assumption..|rewrite EV, R1; exact R2]).
    split; [exact F|]. rewrite (fmul_round _ _ F), EV. exact R1. }
  destruct BB as [Fbb Ebb].
  set (D := fsub (fmul b b) ac).
  assert (DD : is_finite D = true /\ B2R D = bpow radix2 (2 * k)).
  { assert (EV : B2R (fmul b b) - B2R ac = bpow radix2 (2 * k) - 4) by (rewrite Ebb, Eac; reflexivity).
    assert (F : is_finite D = true).
    { apply fsub_finite; [assumption..|]. rewrite EV, absorb by exact Hk. rewrite Rabs_pos_eq by apply bpow_ge_0. apply bpow_lt, Hke. }
    split; [exact F|]. unfold D in *. rewrite (fsub_round _ _ F), EV. apply absorb, Hk. }
  destruct DD as [FD ED].
  assert (Bk : 0 < bpow radix2 (2 * k)) by apply bpow_gt_0.
  rewrite feqb_zero by exact FD. rewrite fpos by exact FD. rewrite Req_bool_false by lra. rewrite Rlt_bool_true by lra.
  destruct (sqrt_round D FD) as [Fs Es]. rewrite ED, Rabs_pos_eq, sqrt_bpow in Es by lra.
  destruct (@pow_exact f k) as [R1 R2]; [unfold SpecFloat.emin; lia|]. rewrite R1 in Es.
  assert (H2 : B2R a2 <> 0) by (rewrite Ea2; lra).
  destruct (@pow_exact f (k - 1)) as [Q1 Q2]; [unfold SpecFloat.emin; lia|].
  assert (HALF : bpow radix2 k / 2 = bpow radix2 (k - 1)).
  { unfold Zminus. rewrite bpow_plus. change (bpow radix2 (-(1))) with (/ 2). reflexivity. }
  set (h := fdiv (fneg b) a2). set (q := fdiv (f_abs_sqrt D) a2).
  assert (HQ : is_finite q = true /\ B2R q = bpow radix2 (k - 1)).
  { assert (EV : B2R (f_abs_sqrt D) / B2R a2 = bpow radix2 (k - 1)) by (rewrite Es, Ea2; exact HALF).
    assert (F : is_finite q = true) by (apply fdiv_finite; [assumption..|rewrite EV, Q1; exact Q2]).
    split; [exact F|]. unfold q in *. rewrite (fdiv_round _ _ H2 F), EV. exact Q1. }
  assert (HH : is_finite h = true /\ B2R h = - bpow radix2 (k - 1)).
  { assert (Fn : is_finite (fneg b) = true) by (unfold fneg; rewrite is_finite_Bopp; exact Fb).
    assert (EV : B2R (fneg b) / B2R a2 = - bpow radix2 (k - 1)).
    { unfold fneg. rewrite B2R_Bopp, Eb, Ea2, <- HALF. field. }
    assert (RN : Generic_fmt.round radix2 (SpecFloat.fexp (fprec f) (femax f)) (round_mode mode_NE) (- bpow radix2 (k - 1)) = - bpow radix2 (k - 1)).
    { apply round_generic; [apply valid_rnd_N|]. apply generic_format_opp, bpow_format. unfold SpecFloat.emin. lia. }
    assert (F : is_finite h = true) by (apply fdiv_finite; [assumption..|rewrite EV, RN, Rabs_Ropp; exact Q2]).
    split; [exact F|]. unfold h in *. rewrite (fdiv_round _ _ H2 F), EV. exact RN. }
  destruct HQ as [Fq Eq], HH as [Fh Eh].
  assert (X : is_finite (fadd h q) = true /\ B2R (fadd h q) = 0).
  { assert (EV : B2R h + B2R q = 0) by (rewrite Eh, Eq; ring).
    assert (F : is_finite (fadd h q) = true) by (apply fadd_finite; [assumption..|rewrite EV, rnd_0, Rabs_R0; apply bpow_gt_0]).
    split; [exact F|]. rewrite (fadd_round _ _ F), EV. apply rnd_0. }
  assert (Y : B2R (fsub h q) = - bpow radix2 k).
  { assert (EV : B2R h - B2R q = - bpow radix2 k) by (rewrite Eh, Eq, <- HALF; field).
    assert (RN : Generic_fmt.round radix2 (SpecFloat.fexp (fprec f) (femax f)) (round_mode mode_NE) (- bpow radix2 k) = - bpow radix2 k).
    { apply round_generic; [apply valid_rnd_N|]. apply generic_format_opp, bpow_format. unfold SpecFloat.emin. lia. }
    assert (F : is_finite (fsub h q) = true) by (apply fsub_finite; [assumption..|rewrite EV, RN, Rabs_Ropp; exact R2]).
    rewrite (fsub_round _ _ F), EV. exact RN. }
  destruct X as [FX EX]. eexists _, _. split; [reflexivity|]. split; [exact FX|]. split; [exact EX|]. split; [exact Y|].
  assert (G4 : 4 < bpow radix2 (2 * k)) by (change 4 with (bpow radix2 2); apply bpow_lt; lia).
  set (s := sqrt (bpow radix2 (2 * k) - 4)).
  assert (Hs : s * s = bpow radix2 (2 * k) - 4) by (apply sqrt_sqrt; lra).
  assert (Ps : 0 < s) by (apply sqrt_lt_R0; lra).
  assert (KK : bpow radix2 (2 * k) = bpow radix2 k * bpow radix2 k) by (rewrite <- bpow_plus; f_equal; lia).
  pose proof (bpow_gt_0 radix2 k) as Pk. rewrite Eb. set (B := bpow radix2 k) in *. rewrite KK in Hs.
  exists ((- B + s) / 2). split.
  - replace (1 * ((- B + s) / 2 * ((- B + s) / 2)) + B * ((- B + s) / 2) + 1) with ((s * s - B * B) / 4 + 1) by field. rewrite Hs. field.
  - assert (s < B); [|lra]. apply Rnot_le_lt. intros C. assert (B * B <= s * s) by (apply Rmult_le_compat; lra). lra.
Qed.

(** Overflow: of x^2 + 2^k x + 1 with 2^(2k) beyond the largest float, both returned roots are
    infinite, although the exact roots lie between -2^k and 0. *)
Theorem C70_overflow_refuted : forall f chk powi cb rd l k (b : flt f), (femax f <= 2 * k)%Z -> (k < femax f)%Z ->
  is_finite b = true -> B2R b = bpow radix2 k ->
  exists x y, trino_roots (float_num chk f powi) (ieee_rops f cb rd l) (MkTrino (f_of_Z f 1) b (f_of_Z f 1)) = Ok (TwoRealRoots x y) /\
    is_finite x = false /\ is_finite y = false /\
    forall t, 1 * (t * t) + B2R b * t + 1 = 0 -> - bpow radix2 k < t < 0.
Proof.
  intros f chk powi cb rd l k b Hk Hke Fb Eb. pose proof (fsizes f) as Z. unfold trino_roots. cbn [tc0 tc1 tc2].
  rewrite trinomial_roots_float. cbv zeta.
  assert (P : (2 ^ 24 <= 2 ^ fprec f)%Z) by (apply Z.pow_le_mono_r; lia). change (2 ^ 24)%Z with 16777216%Z in P.
  assert (I1 : fint (f_of_Z f 1) 1) by (apply fint_of_Z; lia).
  assert (I4 : fint (f_of_Z f 4) 4) by (apply fint_of_Z; lia). assert (I2 : fint (f_of_Z f 2) 2) by (apply fint_of_Z; lia).
  assert (IA : fint (fmul (fmul (f_of_Z f 1) (f_of_Z f 1)) (f_of_Z f 4)) 4).
  { change 4%Z with (1 * 1 * 4)%Z at 2. apply fint_mul; [apply fint_mul; [assumption..|lia]|assumption|lia]. }
  assert (I2' : fint (fmul (f_of_Z f 1) (f_of_Z f 2)) 2) by (change 2%Z with (1 * 2)%Z at 2; apply fint_mul; [assumption..|lia]).
  set (ac := fmul (fmul _ _) _) in *. set (a2 := fmul (f_of_Z f 1) (f_of_Z f 2)) in *. clearbody ac a2.
  destruct IA as [Fac _]. destruct I2' as [Fa2 Ea2].
  pose proof (bpow_gt_0 radix2 k) as Pk.
  assert (BB : fmul b b = B754_infinity false).
  { pose proof (Bmult_correct (fprec f) (femax f) _ _ mode_NE b b) as K. rewrite Rlt_bool_false in K.
    - rewrite xorb_nilpotent in K. change (B2SF (fmul b b) = B2SF (@B754_infinity (fprec f) (femax f) false)) in K. apply B2SF_inj in K. exact K.
    - eapply Rle_trans; [|apply Rle_abs]. apply round_ge_generic; [apply FLT_exp_valid, _|apply valid_rnd_N| |].
      + apply bpow_format. unfold SpecFloat.emin. lia.
      + rewrite Eb, <- bpow_plus. apply bpow_le. lia. }
  rewrite BB.
  assert (DD : fsub (B754_infinity false) ac = B754_infinity false) by (destruct ac as [s|s| |s m e H]; try discriminate Fac; reflexivity).
  rewrite DD. change (feqb (B754_infinity false) (fzero f)) with false. change (Bltb (fzero f) (B754_infinity false)) with true. cbv iota.
  change (f_abs_sqrt (@B754_infinity (fprec f) (femax f) false)) with (@B754_infinity (fprec f) (femax f) false).
  assert (QQ : exists s, fdiv (B754_infinity false) a2 = B754_infinity s).
  { destruct a2 as [s|s| |s m e H]; try discriminate Fa2; [cbn in Ea2; lra|]. eexists. reflexivity. }
  destruct QQ as [s ->].
  assert (HH : is_finite (fdiv (fneg b) a2) = true).
  { apply fdiv_finite; [unfold fneg; rewrite is_finite_Bopp; exact Fb|rewrite Ea2; lra|].
    unfold fneg. rewrite B2R_Bopp, Eb, Ea2. replace (- bpow radix2 k / 2) with (- (bpow radix2 (k - 1))).
    - rewrite round_generic; [|apply valid_rnd_N|apply generic_format_opp, bpow_format; unfold SpecFloat.emin; lia].
      rewrite Rabs_Ropp, Rabs_pos_eq by apply bpow_ge_0. apply bpow_lt. lia.
    - unfold Zminus. rewrite bpow_plus. change (bpow radix2 (-(1))) with (/ 2). field. }
  eexists _, _. split; [reflexivity|].
  split; [destruct (fdiv (fneg b) a2) as [t|t| |t m e H]; try discriminate HH; reflexivity|].
  split; [destruct (fdiv (fneg b) a2) as [t|t| |t m e H]; try discriminate HH; reflexivity|].
  intros t Ht. rewrite Eb in Ht. nra.
Qed.

Print Assumptions C70_polynomial.
Print Assumptions C70_relative_accuracy_refuted.
Print Assumptions C70_overflow_refuted.

(** 2^30 x^2 + x - 3 is within the range of C70_residual in f32; k = 28 and k = 512 within those of the
    refutations. *)
Example C70_case : (exists a b c : flt F32, moderate a /\ moderate b /\ moderate c /\ B2R a = bpow radix2 30 /\ B2R b = 1 /\ B2R c = -3) /\
  (fprec F64 + 4 <= 2 * 29 < femax F64)%Z /\ (femax F64 <= 2 * 512 /\ 512 < femax F64)%Z.
Proof.
  split; [|cbn; lia].
  assert (G : forall z v, B2R (f_of_Z F32 z) = v /\ is_finite (f_of_Z F32 z) = true -> bpow radix2 (-50) <= Rabs v <= bpow radix2 50 ->
     moderate (f_of_Z F32 z) /\ B2R (f_of_Z F32 z) = v).
  { intros z v [E F] H. split; [|exact E]. split; [exact F|]. right. rewrite E. exact H. }
  assert (L : bpow radix2 (-50) <= 1) by (change 1 with (bpow radix2 0); apply bpow_le; lia).
  assert (U : 4 <= bpow radix2 50) by (change 4 with (bpow radix2 2); apply bpow_le; lia).
  destruct (G (2 ^ 30)%Z (bpow radix2 30)) as [M1 E1].
  { rewrite <- (IZR_Zpower radix2) by lia. apply f_of_Z_format; change (radix_val radix2 ^ 30)%Z with (2 ^ 30)%Z.
    - rewrite (IZR_Zpower radix2) by lia. apply bpow_format. unfold SpecFloat.emin. cbn. lia.
    - rewrite (IZR_Zpower radix2) by lia. rewrite Rabs_pos_eq by apply bpow_ge_0. apply bpow_lt. cbn. lia. }
  { rewrite Rabs_pos_eq by apply bpow_ge_0. split; apply bpow_le; lia. }
  destruct (G 1%Z 1) as [M2 E2]; [apply f_of_Z_small; cbn; lia|rewrite Rabs_R1; lra|].
  destruct (G (-3)%Z (-3)) as [M3 E3]; [apply f_of_Z_small; cbn; lia|rewrite Rabs_left; lra|].
  exists (f_of_Z F32 (2 ^ 30)), (f_of_Z F32 1), (f_of_Z F32 (-3)). auto 10.
Qed.
