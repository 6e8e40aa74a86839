(** Property C86: operations on float polynomials and the operations that undo them. *)

From Coq Require Import List NArith ZArith Reals Lia Lra Bool Arith Sorted.
From Coq Require Import ZifyBool ZifyNat ZifyN.
From Flocq Require Import Core BinarySingleNaN Mult_error.
From Verif Require Import Base Num Spec SpecFacts Laws Terms Dense DenseFacts DenseMul DenseCalc Sparse SparseFacts SparseArith Coef.
From Verif Require Import RealNum Floats FloatFacts FloatErr FloatEval FloatMul FloatCoef FloatSparse P_FloatErr P_Struct P_FloatRep.
Import ListNotations.
Local Open Scope R_scope.
Notation mcoef := P_FloatErr.mcoef.

(** ** Specification *)

(** The same polynomial: the coefficients of every degree are the same float, zeros of
    either sign counting as one. *)
Definition same_poly {f} (a b : list (flt f)) : Prop := forall d, fsame (vcoef a d) (vcoef b d).
Definition same_map {f} (a b : bmap (flt f)) : Prop := forall k, fsame (mcoef a k) (mcoef b k).

(** 2^k times the number is a normal float or zero. *)
Definition shiftable {f} (x : flt f) (k : Z) : Prop :=
  is_finite x = true /\ (B2R x = 0 \/
    bpow radix2 (SpecFloat.emin (fprec f) (femax f) + fprec f - 1) <= Rabs (B2R x) * bpow radix2 k < bpow radix2 (femax f)).

(** ** Lemmas on numbers *)

Section Nums.
Context {f : fty}.
Implicit Types x y c : flt f.

Lemma fsame_R x y : is_finite x = true -> is_finite y = true -> B2R x = B2R y -> fsame x y.
Proof.
  intros Hx Hy E. destruct x as [s|s| |s m e H]; try discriminate Hx.
  - destruct y as [t|t| |t m' e' H']; try discriminate Hy; [apply fsame_zeros|]. exfalso.
    symmetry in E. apply (F2R_neq_0 radix2) in E; [exact E|]. cbn. destruct t; discriminate.
  - destruct y as [t|t| |t m' e' H']; try discriminate Hy.
    + exfalso. apply (F2R_neq_0 radix2) in E; [exact E|]. cbn. destruct s; discriminate.
    + left. apply B2R_inj; [reflexivity|reflexivity|exact E].
Qed.

Lemma fneg_neg x : fneg (fneg x) = x.
Proof. apply Bopp_involutive. Qed.

Lemma fsub_self x : is_finite x = true -> fsame (fsub x x) (fzero f).
Proof.
  intros H. pose proof (fsub_rounds x x H H) as [K _]. replace (B2R x - B2R x) with 0 in K by ring.
  assert (E : nearest f 0 = 0) by (apply round_0, valid_rnd_N). rewrite E, Rabs_R0 in K.
  destruct K as [K1 K2]; [apply bpow_gt_0|]. apply fsame_R; [exact K1|reflexivity|exact K2].
Qed.

Lemma one_shape : exists m e H, f_of_Z f 1 = B754_finite false m e H.
Proof.
  destruct (f_of_Z_small f 1) as [E F]; [destruct f; vm_compute; discriminate|].
  destruct (f_of_Z f 1) as [s|s| |s m e H]; try discriminate F; [cbn in E; lra|]. destruct s; [|eauto].
  exfalso. pose proof (F2R_lt_0 radix2 {| Fnum := Z.neg m; Fexp := e |} eq_refl) as K. cbn [B2R cond_Zopp] in E.
  change (Z.opp (Z.pos m)) with (Z.neg m) in E. rewrite E in K. lra.
Qed.
Lemma two_shape : exists m e H, f_of_Z f 2 = B754_finite false m e H.
Proof.
  destruct (f_of_Z_small f 2) as [E F]; [destruct f; vm_compute; discriminate|].
  destruct (f_of_Z f 2) as [s|s| |s m e H]; try discriminate F; [cbn in E; lra|]. destruct s; [|eauto].
  exfalso. pose proof (F2R_lt_0 radix2 {| Fnum := Z.neg m; Fexp := e |} eq_refl) as K. cbn [B2R cond_Zopp] in E.
  change (Z.opp (Z.pos m)) with (Z.neg m) in E. rewrite E in K. lra.
Qed.

Lemma rounds_self x y : is_finite x = true -> rounds_to y (B2R x) -> fsame y x.
Proof.
  intros H [K _]. assert (E : nearest f (B2R x) = B2R x) by apply rnd_B2R. rewrite E in K.
  destruct K as [K1 K2]; [apply abs_B2R_lt_emax|]. apply fsame_R; assumption.
Qed.

Lemma fmul_one x : fsame (fmul x (f_of_Z f 1)) x.
Proof.
  destruct (is_finite x) eqn:F.
  - destruct (f_of_Z_small f 1) as [E1 F1]; [destruct f; vm_compute; discriminate|].
    apply rounds_self; [exact F|]. pose proof (fmul_rounds x (f_of_Z f 1) F F1) as K. rewrite E1, Rmult_1_r in K. exact K.
  - destruct one_shape as (m & e & H & ->). destruct x as [s|s| |s m' e' H']; try discriminate F; cbn; [|left; reflexivity].
    left. destruct s; reflexivity.
Qed.
Lemma fdiv_one x : fsame (fdiv x (f_of_Z f 1)) x.
Proof.
  destruct (is_finite x) eqn:F.
  - destruct (f_of_Z_small f 1) as [E1 F1]; [destruct f; vm_compute; discriminate|].
    apply rounds_self; [exact F|]. pose proof (fdiv_rounds x (f_of_Z f 1) F) as K. rewrite E1 in K.
    replace (B2R x) with (B2R x / 1) by field. apply K. lra.
  - destruct one_shape as (m & e & H & ->). destruct x as [s|s| |s m' e' H']; try discriminate F; cbn; [|left; reflexivity].
    left. destruct s; reflexivity.
Qed.

Lemma fmul_two x : fsame (fmul x (f_of_Z f 2)) (fadd x x).
Proof.
  destruct (is_finite x) eqn:F.
  - destruct (f_of_Z_small f 2) as [E2 F2]; [destruct f; vm_compute; discriminate|].
    pose proof (Bmult_correct _ _ (fprec_pos f) (fprec_emax f) mode_NE x (f_of_Z f 2)) as K.
    pose proof (Bplus_correct _ _ (fprec_pos f) (fprec_emax f) mode_NE x x F F) as K'.
    rewrite E2 in K. replace (B2R x * 2) with (B2R x + B2R x) in K by ring. rewrite F, F2 in K.
    destruct (Rlt_bool _ _).
    + apply fsame_R; [apply K|apply K'|]. etransitivity; [apply K|symmetry; apply K'].
    + left. apply B2SF_inj. etransitivity; [exact K|]. symmetry. etransitivity; [apply K'|]. f_equal.
      destruct two_shape as (m & e & H & ->). cbn [Bsign]. rewrite xorb_false_r. reflexivity.
  - destruct two_shape as (m & e & H & ->). destruct x as [s|s| |s m' e' H']; try discriminate F; cbn; [|left; reflexivity].
    left. destruct s; reflexivity.
Qed.

(** Errors of undoing. *)
Lemma fdiv_err x c : B2R c <> 0 -> is_finite (fdiv x c) = true ->
  exists e h, Rabs e <= uro f /\ Rabs h <= eta f /\ B2R (fdiv x c) = B2R x / B2R c * (1 + e) + h.
Proof. intros Hc H. rewrite (fdiv_round x c Hc H). apply rnd_err. Qed.
Lemma fsub_err x y : is_finite (fsub x y) = true ->
  exists e, Rabs e <= uro f /\ B2R (fsub x y) = (B2R x - B2R y) * (1 + e).
Proof.
  intros H. rewrite (fsub_round x y H). destruct (rnd_add_err x (fneg y)) as (e & He & E).
  exists e. split; [exact He|]. unfold fneg in E. rewrite B2R_Bopp in E. exact E.
Qed.

Lemma two_errs (X u e e' : R) : 0 < u -> Rabs e <= u -> Rabs e' <= u -> Rabs (X * ((1 + e) * (1 + e') - 1)) <= (2 * u + u * u) * Rabs X.
Proof.
  intros U He He'. rewrite Rabs_mult, Rmult_comm. apply Rmult_le_compat_r; [apply Rabs_pos|].
  replace ((1 + e) * (1 + e') - 1) with (e + (e' + e * e')) by ring.
  eapply Rle_trans; [apply Rabs_triang|]. pose proof (Rabs_triang e' (e * e')) as K. rewrite (Rabs_mult e e') in K.
  assert (Rabs e * Rabs e' <= u * u) by (apply Rmult_le_compat; try apply Rabs_pos; assumption). lra.
Qed.
Lemma one_err (h H u e : R) : Rabs h <= H -> Rabs e <= u -> Rabs (h * (1 + e)) <= H * (1 + u).
Proof.
  intros Hh He. rewrite Rabs_mult. apply Rmult_le_compat; try apply Rabs_pos; [exact Hh|].
  eapply Rle_trans; [apply Rabs_triang|]. rewrite Rabs_R1. lra.
Qed.

Lemma div_mul_err x c : is_finite c = true -> B2R c <> 0 -> is_finite (fmul (fdiv x c) c) = true ->
  Rabs (B2R (fmul (fdiv x c) c) - B2R x) <= (2 * uro f + uro f * uro f) * Rabs (B2R x) + eta f * ((1 + uro f) * Rabs (B2R c) + 1).
Proof.
  intros Fc Hc H. destruct (fmul_operands _ _ H) as [Fq _]. destruct (fmul_err _ _ H) as (e' & h' & He' & Hh' & ->).
  destruct (fdiv_err _ _ Hc Fq) as (e & h & He & Hh & ->). pose proof (@uro_pos f) as U.
  set (X := B2R x) in *. set (C := B2R c) in *.
  replace ((X / C * (1 + e) + h) * C * (1 + e') + h' - X) with (X * ((1 + e) * (1 + e') - 1) + (C * (h * (1 + e')) + h')) by (field; exact Hc).
  eapply Rle_trans; [apply Rabs_triang|]. apply Rplus_le_compat; [apply two_errs; assumption|].
  eapply Rle_trans; [apply Rabs_triang|]. rewrite Rabs_mult. pose proof (one_err _ _ _ _ Hh He') as K.
  assert (Rabs C * Rabs (h * (1 + e')) <= Rabs C * (eta f * (1 + uro f))) by (apply Rmult_le_compat_l; [apply Rabs_pos|exact K]). lra.
Qed.
Lemma mul_div_err x c : B2R c <> 0 -> is_finite (fmul x c) = true -> is_finite (fdiv (fmul x c) c) = true ->
  Rabs (B2R (fdiv (fmul x c) c) - B2R x) <= (2 * uro f + uro f * uro f) * Rabs (B2R x) + eta f * ((1 + uro f) / Rabs (B2R c) + 1).
Proof.
  intros Hc H H2. destruct (fmul_err _ _ H) as (e & h & He & Hh & E).
  destruct (fdiv_err _ _ Hc H2) as (e' & h' & He' & Hh' & ->). rewrite E. pose proof (@uro_pos f) as U.
  set (X := B2R x) in *. set (C := B2R c) in *.
  replace ((X * C * (1 + e) + h) / C * (1 + e') + h' - X) with (X * ((1 + e) * (1 + e') - 1) + (/ C * (h * (1 + e')) + h')) by (field; exact Hc).
  eapply Rle_trans; [apply Rabs_triang|]. apply Rplus_le_compat; [apply two_errs; assumption|].
  eapply Rle_trans; [apply Rabs_triang|]. rewrite Rabs_mult, Rabs_inv. pose proof (one_err _ _ _ _ Hh He') as K.
  assert (P : 0 < / Rabs C) by (apply Rinv_0_lt_compat, Rabs_pos_lt, Hc).
  assert (/ Rabs C * Rabs (h * (1 + e')) <= / Rabs C * (eta f * (1 + uro f))) by (apply Rmult_le_compat_l; [lra|exact K]).
  unfold Rdiv. lra.
Qed.

Lemma add_sub_arith (X Y u e e' : R) : 0 < u -> Rabs e <= u -> Rabs e' <= u ->
  Rabs (((X + Y) * (1 + e) - Y) * (1 + e') - X) <= u * (1 + u) * Rabs (X + Y) + u * Rabs X.
Proof.
  intros U He He'. replace (((X + Y) * (1 + e) - Y) * (1 + e') - X) with ((X + Y) * (e * (1 + e')) + X * e') by ring.
  eapply Rle_trans; [apply Rabs_triang|]. rewrite (Rabs_mult (X + Y)), (Rabs_mult X). pose proof (one_err _ _ _ _ He He') as K.
  assert (Rabs (X + Y) * Rabs (e * (1 + e')) <= Rabs (X + Y) * (u * (1 + u))) by (apply Rmult_le_compat_l; [apply Rabs_pos|exact K]).
  assert (Rabs X * Rabs e' <= Rabs X * u) by (apply Rmult_le_compat_l; [apply Rabs_pos|exact He']). lra.
Qed.
Lemma add_sub_err x y : is_finite (fsub (fadd x y) y) = true ->
  Rabs (B2R (fsub (fadd x y) y) - B2R x) <= uro f * (1 + uro f) * Rabs (B2R x + B2R y) + uro f * Rabs (B2R x).
Proof.
  intros H. destruct (fsub_operands _ _ H) as [Fs _]. destruct (fsub_err _ _ H) as (e' & He' & ->).
  destruct (fadd_err _ _ Fs) as (e & He & ->). apply add_sub_arith; [apply uro_pos|exact He|exact He'].
Qed.
Lemma sub_add_err x y : is_finite (fadd (fsub x y) y) = true ->
  Rabs (B2R (fadd (fsub x y) y) - B2R x) <= uro f * (1 + uro f) * Rabs (B2R x - B2R y) + uro f * Rabs (B2R x).
Proof.
  intros H. destruct (fadd_operands _ _ H) as [Fs _]. destruct (fadd_err _ _ H) as (e' & He' & ->).
  destruct (fsub_err _ _ Fs) as (e & He & ->). pose proof (add_sub_arith (B2R x) (- B2R y) _ e e' (@uro_pos f) He He') as K.
  replace (((B2R x - B2R y) * (1 + e) + B2R y) * (1 + e')) with (((B2R x + - B2R y) * (1 + e) - - B2R y) * (1 + e')) by ring. exact K.
Qed.

(** Powers of two. *)
Lemma fsame_finite x y : fsame x y -> is_finite y = true -> is_finite x = true.
Proof. intros H F. destruct (fsame_B _ _ H) as [_ ->]. exact F. Qed.

Lemma scaled_format x k : shiftable x k -> nearest f (B2R x * bpow radix2 k) = B2R x * bpow radix2 k /\
  Rabs (B2R x * bpow radix2 k) < bpow radix2 (femax f).
Proof.
  intros [_ [E|[H1 H2]]].
  - rewrite E, Rmult_0_l, Rabs_R0. split; [apply round_0, valid_rnd_N|apply bpow_gt_0].
  - rewrite Rabs_mult, (Rabs_pos_eq (bpow radix2 k)) by apply bpow_ge_0. split; [|exact H2].
    apply round_generic; [apply valid_rnd_N|]. apply (mult_bpow_exact_FLT radix2 (SpecFloat.emin (fprec f) (femax f)) (fprec f)).
    + apply generic_format_B2R.
    + assert (Nz : B2R x <> 0) by (intros E; rewrite E, Rabs_R0, Rmult_0_l in H1; pose proof (bpow_gt_0 radix2 (SpecFloat.emin (fprec f) (femax f) + fprec f - 1)); lra).
      pose proof (bpow_mag_gt radix2 (B2R x)) as M. assert (L : bpow radix2 (SpecFloat.emin (fprec f) (femax f) + fprec f - 1) < bpow radix2 (mag radix2 (B2R x) + k)).
      { eapply Rle_lt_trans; [exact H1|]. rewrite bpow_plus. apply Rmult_lt_compat_r; [apply bpow_gt_0|exact M]. }
      apply lt_bpow in L. lia.
Qed.
Lemma pow2_mul x c k : B2R c = bpow radix2 k -> is_finite c = true -> shiftable x k ->
  is_finite (fmul x c) = true /\ B2R (fmul x c) = B2R x * bpow radix2 k.
Proof.
  intros Hc Fc S. destruct (scaled_format x k S) as [E L]. destruct S as [Fx _].
  destruct (fmul_rounds x c Fx Fc) as [K _]. rewrite Hc, E in K. apply K, L.
Qed.
Lemma pow2_div x c k : B2R c = bpow radix2 k -> is_finite c = true -> shiftable x (- k) ->
  is_finite (fdiv x c) = true /\ B2R (fdiv x c) = B2R x * bpow radix2 (- k).
Proof.
  intros Hc Fc S. destruct (scaled_format x (- k) S) as [E L]. destruct S as [Fx _].
  assert (Nc : B2R c <> 0) by (rewrite Hc; apply Rgt_not_eq, bpow_gt_0).
  destruct (fdiv_rounds x c Fx Nc) as [K _]. rewrite Hc in K. unfold Rdiv in K. rewrite <- bpow_opp, E in K. apply K, L.
Qed.
Lemma pow2_mul_div x c k : B2R c = bpow radix2 k -> is_finite c = true -> shiftable x k -> fsame (fdiv (fmul x c) c) x.
Proof.
  intros Hc Fc S. destruct (pow2_mul x c k Hc Fc S) as [F E]. apply rounds_self; [apply S|].
  assert (Nc : B2R c <> 0) by (rewrite Hc; apply Rgt_not_eq, bpow_gt_0).
  replace (B2R x) with (B2R (fmul x c) / B2R c); [apply fdiv_rounds; assumption|]. rewrite E, Hc. field. apply Rgt_not_eq, bpow_gt_0.
Qed.
Lemma pow2_div_mul x c k : B2R c = bpow radix2 k -> is_finite c = true -> shiftable x (- k) -> fsame (fmul (fdiv x c) c) x.
Proof.
  intros Hc Fc S. destruct (pow2_div x c k Hc Fc S) as [F E]. apply rounds_self; [apply S|].
  replace (B2R x) with (B2R (fdiv x c) * B2R c); [apply fmul_rounds; assumption|]. rewrite E, Hc, Rmult_assoc, <- bpow_plus.
  replace (- k + k)%Z with 0%Z by lia. cbn. ring.
Qed.
End Nums.

(** ** Lemmas on polynomials *)

Section Poly.
Context (chk : bool) (f : fty) (powi : flt f -> N -> flt f).
Notation O := (float_num chk f powi).
Implicit Types a b r s : list (flt f).

Lemma vcoef_out a d : (length a <= d)%nat -> vcoef a d = fzero f.
Proof. intros K. unfold vcoef. rewrite nth_overflow by (rewrite rev_length; exact K). reflexivity. Qed.

Lemma feqb_nz c : is_finite c = true -> B2R c <> 0 -> feqb c (fzero f) = false /\ is_nan c = false.
Proof.
  intros F Nz. split; [|destruct c; try discriminate F; reflexivity]. destruct (feqb c (fzero f)) eqn:E; [|reflexivity].
  apply feqb_zero in E. destruct E as (s & ->). exfalso. apply Nz. reflexivity.
Qed.

Lemma scale_fin a c : is_finite c = true -> exists r, dense_scale O a c = Ok r /\ forall d, fsame (vcoef r d) (fmul (vcoef a d) c).
Proof.
  intros Fc. destruct (C64_dense_scale chk f powi a c) as ((r & E & H) & _). exists r. split; [exact E|]. intros d.
  eapply fsame_trans; [apply H|]. destruct (Nat.ltb_spec d (length a)); [apply fsame_refl|]. rewrite (vcoef_out a) by assumption.
  apply fsame_sym, fmul_zero, Fc.
Qed.
Lemma div_fin a c : is_finite c = true -> B2R c <> 0 -> exists r, dense_div_scalar O a c = Ok r /\ forall d, fsame (vcoef r d) (fdiv (vcoef a d) c).
Proof.
  intros Fc Nc. destruct (feqb_nz c Fc Nc) as [K1 K2].
  destruct (C64_dense_scale chk f powi a c) as (_ & _ & (r & E & H) & _). exists r. split; [exact E|]. intros d.
  eapply fsame_trans; [apply H|]. destruct (Nat.ltb_spec d (length a)); [apply fsame_refl|]. rewrite (vcoef_out a) by assumption.
  apply fsame_sym, fdiv_zero; assumption.
Qed.

Lemma dense_integral_length a r : dense_integral O a = Ok r -> (length r <= S (length a))%nat.
Proof.
  unfold dense_integral. rewrite usub_le.
  2:{ rewrite first_nonzero_index_fnz. pose proof (fnz_le O a). unfold len. lia. }
  cbn [bind]. rewrite strip_len. pose proof (len_strip O a) as Hs.
  destruct (expect (of_cont O _)) as [c|k|]; cbn [bind]; try discriminate. rewrite slice_from_strip. cbn [bind].
  assert (L : forall l d r, integ_loop O d l = Ok r -> length r = length l).
  { clear. induction l as [|x l IH]; intros d r; cbn [integ_loop]; [intros [= <-]; reflexivity|].
    cbn [sub div one float_num bind]. destruct (integ_loop O (fsub d (f_of_Z f 1)) l) as [q|k|] eqn:E; cbn [bind]; try discriminate.
    intros [= <-]. cbn. f_equal. eapply IH, E. }
  destruct (integ_loop O c (strip O a)) as [q|k|] eqn:E; cbn [bind]; try discriminate. apply L in E.
  unfold vec_grow. destruct (_ <=? _)%N; cbn [bind]; try discriminate. intros [= <-]. rewrite app_length. cbn. unfold len in *. lia.
Qed.

Lemma dense_zero_degree r : (forall d, fsame (vcoef r d) (fzero f)) -> dense_degree O r = NegInf.
Proof.
  intros H. pose proof (proj1 (C72_degree (flt f) O eq_refl) r) as K. destruct (dense_degree O r) as [|n]; [reflexivity|]. exfalso.
  destruct K as [K _]. assert (Q : is_zero O (dpol O r (N.to_nat n)) = true); [|congruence].
  change (dpol O r (N.to_nat n)) with (vcoef r (N.to_nat n)). destruct (H (N.to_nat n)) as [->|[Q _]]; [reflexivity|exact Q].
Qed.
Lemma sparse_zero_degree (m : bmap (flt f)) : swf m -> (forall k, fsame (mcoef m k) (fzero f)) -> sparse_degree O m = NegInf.
Proof.
  intros Hm H. pose proof (proj1 (proj2 (C72_degree (flt f) O eq_refl)) m Hm) as K. destruct (sparse_degree O m) as [|n]; [reflexivity|]. exfalso.
  destruct K as [K _]. unfold spol in K. rewrite N2Nat.id in K. specialize (H n). unfold mcoef in H.
  destruct (m_get n m) as [v|]; [|discriminate K]. destruct H as [E|[Q _]]; [rewrite E in K; discriminate K|]. cbn in K. congruence.
Qed.
End Poly.

(** The maps built are maps. *)
Lemma fold_inv {A S} (P : S -> Prop) (step : S -> A -> res S) (l : list A) :
  (forall s a s', In a l -> P s -> step s a = Ok s' -> P s') -> forall s r, P s -> foldM step s l = Ok r -> P r.
Proof.
  induction l as [|a l IH]; intros H s r Hs; cbn [foldM]; [intros [= <-]; exact Hs|].
  destruct (step s a) as [s'|k|] eqn:E; cbn [bind]; try discriminate. apply IH; [intros; eapply H; eauto; right; assumption|].
  eapply H; [left; reflexivity|exact Hs|exact E].
Qed.

Section Maps.
Context (chk : bool) (f : fty) (powi : flt f -> N -> flt f).
Notation O := (float_num chk f powi).
Implicit Types a b m r s : bmap (flt f).

Lemma swf_key m k v : swf m -> In (k, v) m -> (k <= USIZE_MAX)%N.
Proof. intros [_ H] K. rewrite Forall_forall in H. apply (H _ K). Qed.

Lemma add_swf a b r : swf a -> swf b -> sparse_add O a b = Ok r -> swf r.
Proof.
  intros Ha Hb. unfold sparse_add. cbv zeta. apply (fold_inv swf).
  - intros s [k v] s' K Hs. unfold m_upsert. cbn [fst snd add float_num].
    destruct (m_get k s); cbn [bind]; intros [= <-]; apply m_insert_wf; try exact Hs; refine (swf_key _ k v _ K); assumption.
  - assert (K : forall b, Forall (fun kv => (fst kv <= USIZE_MAX)%N) b -> forall m, swf m -> swf (fold_left (fun m kv => m_insert (fst kv) (snd kv) m) b m)).
    { clear. induction b as [|[k v] b IH]; intros H m Hm; [exact Hm|]. apply Forall_cons_iff in H. apply IH; [apply H|]. apply m_insert_wf; [exact Hm|apply H]. }
    apply K; [apply Hb|]. split; constructor.
Qed.
Lemma sub_swf a b r : swf a -> swf b -> sparse_sub O a b = Ok r -> swf r.
Proof.
  intros Ha Hb. unfold sparse_sub. apply (fold_inv swf); [|exact Ha]. intros s [k v] s' K Hs. unfold m_upsert. cbn [fst snd sub neg float_num].
  destruct (m_get k s); cbn [bind]; intros [= <-]; apply m_insert_wf; try exact Hs; refine (swf_key _ k v _ K); assumption.
Qed.
Lemma neg_swf m r : swf m -> sparse_neg O m = Ok r -> swf r.
Proof.
  intros Hm. unfold sparse_neg. apply (fold_inv swf); [|split; constructor]. intros s [k v] s' K Hs. cbn [fst snd neg float_num bind].
  intros [= <-]. apply m_insert_wf; [exact Hs|refine (swf_key _ k v _ K); assumption].
Qed.
Lemma rebuild_swf (g : flt f -> flt f) m r : swf m -> sparse_map_rebuild (fun x => Ok (g x)) m = Ok r -> swf r.
Proof.
  intros Hm. unfold sparse_map_rebuild. apply (fold_inv swf); [|split; constructor]. intros s [k v] s' K Hs. cbn [fst snd bind].
  intros [= <-]. apply m_insert_wf; [exact Hs|refine (swf_key _ k v _ K); assumption].
Qed.
Lemma integral_swf m r : swf m -> sparse_integral O m = Ok r -> swf r.
Proof.
  intros Hm. unfold sparse_integral. apply (fold_inv swf); [|split; constructor]. intros s [k v] s' K Hs. cbn [fst snd].
  destruct (uadd (n_chk O) k 1) as [k1| |] eqn:E1; cbn [bind]; try discriminate.
  destruct (expect (of_exact O k1)) as [c| |]; cbn [bind div float_num]; try discriminate.
  intros [= <-]. apply m_insert_wf; [exact Hs|]. unfold uadd in E1. destruct (N.leb_spec (k + 1) USIZE_MAX) as [L|L].
  - congruence.
  - cbn [n_chk float_num] in E1. destruct chk; [discriminate|]. injection E1 as <-. 
    pose proof (N.mod_lt (k + 1) USIZE_MOD ltac:(discriminate)). unfold USIZE_MAX, USIZE_MOD in *. lia.
Qed.

Lemma mscale_fin m c : swf m -> is_finite c = true -> exists r, sparse_scale O m c = Ok r /\ swf r /\ forall k, fsame (mcoef r k) (fmul (mcoef m k) c).
Proof.
  intros Hm Fc. destruct (C64_sparse chk f powi m m c Hm Hm) as (_ & _ & _ & _ & (r & E & _ & H) & _). exists r. split; [exact E|].
  split; [eapply (rebuild_swf (fun x => fmul x c)); [exact Hm|exact E]|]. intros k. rewrite H. unfold mcoef.
  destruct (m_get k m); [apply fsame_refl|]. apply fsame_sym, fmul_zero, Fc.
Qed.
Lemma mdiv_fin m c : swf m -> is_finite c = true -> B2R c <> 0 ->
  exists r, sparse_div_scalar O m c = Ok r /\ swf r /\ forall k, fsame (mcoef r k) (fdiv (mcoef m k) c).
Proof.
  intros Hm Fc Nc. destruct (feqb_nz f c Fc Nc) as [K1 K2].
  destruct (C64_sparse chk f powi m m c Hm Hm) as (_ & _ & _ & _ & _ & (r & E & _ & H)). exists r. split; [exact E|].
  split; [eapply (rebuild_swf (fun x => fdiv x c)); [exact Hm|exact E]|]. intros k. rewrite H. unfold mcoef.
  destruct (m_get k m); [apply fsame_refl|]. apply fsame_sym, fdiv_zero; assumption.
Qed.
Lemma madd_all a b : swf a -> swf b -> exists r, sparse_add O a b = Ok r /\ swf r /\ forall k, fsame (mcoef r k) (fadd (mcoef a k) (mcoef b k)).
Proof.
  intros Ha Hb. destruct (C64_sparse chk f powi a b (fzero f) Ha Hb) as ((r & E & H) & _). exists r. split; [exact E|]. split; [exact (add_swf a b r Ha Hb E)|exact H].
Qed.
Lemma msub_all a b : swf a -> swf b -> exists r, sparse_sub O a b = Ok r /\ swf r /\ forall k, fsame (mcoef r k) (fsub (mcoef a k) (mcoef b k)).
Proof.
  intros Ha Hb. destruct (C64_sparse chk f powi a b (fzero f) Ha Hb) as (_ & _ & (r & E & H) & _). exists r. split; [exact E|]. split; [exact (sub_swf a b r Ha Hb E)|exact H].
Qed.
Lemma mneg_all a : swf a -> exists r, sparse_neg O a = Ok r /\ swf r /\ forall k, fsame (mcoef r k) (fneg (mcoef a k)).
Proof.
  intros Ha. destruct (C64_sparse chk f powi a a (fzero f) Ha Ha) as (_ & _ & _ & (r & E & H) & _). exists r. split; [exact E|]. split; [exact (neg_swf a r Ha E)|exact H].
Qed.
End Maps.

Lemma one_finite f : is_finite (f_of_Z f 1) = true /\ B2R (f_of_Z f 1) = 1.
Proof. destruct (f_of_Z_small f 1) as [E F]; [destruct f; vm_compute; discriminate|]. split; assumption. Qed.
Lemma two_finite f : is_finite (f_of_Z f 2) = true /\ B2R (f_of_Z f 2) = 2.
Proof. destruct (f_of_Z_small f 2) as [E F]; [destruct f; vm_compute; discriminate|]. split; assumption. Qed.

(** ** C86 *)

(** Exact for all coefficients, infinities and NaN included: -(-p), p + 0, p - 0, p * 1, p / 1
    are p, and p * 2 is p + p. *)
Theorem C86_exact : forall chk f powi (a : list (flt f)), let O := float_num chk f powi in
  (exists r s, dense_neg O a = Ok r /\ dense_neg O r = Ok s /\ same_poly s a) /\
  (exists r, dense_add O a [] = Ok r /\ same_poly r a) /\
  (exists r, dense_sub O a [] = Ok r /\ same_poly r a) /\
  (exists r, dense_scale O a (f_of_Z f 1) = Ok r /\ same_poly r a) /\
  (exists r, dense_div_scalar O a (f_of_Z f 1) = Ok r /\ same_poly r a) /\
  (exists r s, dense_scale O a (f_of_Z f 2) = Ok r /\ dense_add O a a = Ok s /\ same_poly r s).
Proof.
  intros chk f powi a O. destruct (one_finite f) as [F1 E1]. destruct (two_finite f) as [F2 E2].
  split; [|split; [|split; [|split; [|split]]]].
  - destruct (C64_dense_neg chk f powi a) as (r & E & H). destruct (C64_dense_neg chk f powi r) as (s & E' & H').
    exists r, s. split; [exact E|]. split; [exact E'|]. intros d. eapply fsame_trans; [apply H'|].
    eapply fsame_trans; [apply fneg_cong, H|]. rewrite fneg_neg. apply fsame_refl.
  - destruct (C64_dense_add chk f powi a []) as (r & E & H). exists r. split; [exact E|]. intros d. eapply fsame_trans; [apply H|].
    apply fsame_sym. rewrite (vcoef_out _ []) by (cbn; lia). apply fadd_zero_r.
  - destruct (C64_dense_sub chk f powi a []) as (r & E & _ & H). exists r. split; [exact E|]. intros d. eapply fsame_trans; [apply H|].
    apply fsame_sym. rewrite (vcoef_out _ []) by (cbn; lia). apply fsub_zero_r.
  - destruct (scale_fin chk f powi a (f_of_Z f 1) F1) as (r & E & H). exists r. split; [exact E|]. intros d. eapply fsame_trans; [apply H|apply fmul_one].
  - destruct (div_fin chk f powi a (f_of_Z f 1) F1) as (r & E & H); [lra|]. exists r. split; [exact E|]. intros d. eapply fsame_trans; [apply H|apply fdiv_one].
  - destruct (scale_fin chk f powi a (f_of_Z f 2) F2) as (r & E & H). destruct (C64_dense_add chk f powi a a) as (s & E' & H').
    exists r, s. split; [exact E|]. split; [exact E'|]. intros d. eapply fsame_trans; [apply H|]. eapply fsame_trans; [apply fmul_two|apply fsame_sym, H'].
Qed.

Theorem C86_sparse_exact : forall chk f powi (m : bmap (flt f)), let O := float_num chk f powi in swf m ->
  (exists r s, sparse_neg O m = Ok r /\ sparse_neg O r = Ok s /\ same_map s m) /\
  (exists r, sparse_add O m [] = Ok r /\ same_map r m) /\
  (exists r, sparse_sub O m [] = Ok r /\ same_map r m) /\
  (exists r, sparse_scale O m (f_of_Z f 1) = Ok r /\ same_map r m) /\
  (exists r, sparse_div_scalar O m (f_of_Z f 1) = Ok r /\ same_map r m) /\
  (exists r s, sparse_scale O m (f_of_Z f 2) = Ok r /\ sparse_add O m m = Ok s /\ same_map r s).
Proof.
  intros chk f powi a O Ha. destruct (one_finite f) as [F1 E1]. destruct (two_finite f) as [F2 E2].
  assert (W0 : @swf (flt f) []) by (split; constructor). split; [|split; [|split; [|split; [|split]]]].
  - destruct (mneg_all chk f powi a Ha) as (r & E & W & H). destruct (mneg_all chk f powi r W) as (s & E' & _ & H').
    exists r, s. split; [exact E|]. split; [exact E'|]. intros d. eapply fsame_trans; [apply H'|].
    eapply fsame_trans; [apply fneg_cong, H|]. rewrite fneg_neg. apply fsame_refl.
  - destruct (madd_all chk f powi a [] Ha W0) as (r & E & _ & H). exists r. split; [exact E|]. intros d. eapply fsame_trans; [apply H|].
    apply fsame_sym, fadd_zero_r.
  - destruct (msub_all chk f powi a [] Ha W0) as (r & E & _ & H). exists r. split; [exact E|]. intros d. eapply fsame_trans; [apply H|].
    apply fsame_sym, fsub_zero_r.
  - destruct (mscale_fin chk f powi a (f_of_Z f 1) Ha F1) as (r & E & _ & H). exists r. split; [exact E|]. intros d. eapply fsame_trans; [apply H|apply fmul_one].
  - destruct (mdiv_fin chk f powi a (f_of_Z f 1) Ha F1) as (r & E & _ & H); [lra|]. exists r. split; [exact E|]. intros d. eapply fsame_trans; [apply H|apply fdiv_one].
  - destruct (mscale_fin chk f powi a (f_of_Z f 2) Ha F2) as (r & E & _ & H). destruct (madd_all chk f powi a a Ha Ha) as (s & E' & _ & H').
    exists r, s. split; [exact E|]. split; [exact E'|]. intros d. eapply fsame_trans; [apply H|]. eapply fsame_trans; [apply fmul_two|apply fsame_sym, H'].
Qed.

(** p - p is the zero polynomial when every coefficient is finite. *)
Theorem C86_sub_self : forall chk f powi, let O := float_num chk f powi in
  (forall a : list (flt f), (forall d, is_finite (vcoef a d) = true) -> exists r, dense_sub O a a = Ok r /\ dense_degree O r = NegInf) /\
  (forall m : bmap (flt f), swf m -> (forall k, is_finite (mcoef m k) = true) -> exists r, sparse_sub O m m = Ok r /\ sparse_degree O r = NegInf).
Proof.
  intros chk f powi O. split.
  - intros a Fa. destruct (C64_dense_sub chk f powi a a) as (r & E & _ & H). exists r. split; [exact E|]. apply dense_zero_degree.
    intros d. eapply fsame_trans; [apply H|apply fsub_self, Fa].
  - intros m Hm Fm. destruct (msub_all chk f powi m m Hm Hm) as (r & E & W & H). exists r. split; [exact E|]. apply sparse_zero_degree; [exact W|].
    intros d. eapply fsame_trans; [apply H|apply fsub_self, Fm].
Qed.

(** Not otherwise: infinity - infinity is NaN. *)
Theorem C86_sub_self_refuted : exists (a r : list (flt F64)), forall chk powi, let O := float_num chk F64 powi in
  dense_sub O a a = Ok r /\ dense_degree O r <> NegInf /\ is_nan (vcoef r 0) = true.
Proof.
  exists [B754_infinity false], [B754_nan]. intros chk powi O. split; [reflexivity|]. split; [discriminate|reflexivity].
Qed.

(** Multiplying and dividing by a power of two is exact while the numbers stay normal. *)
Theorem C86_power_of_two : forall chk f powi (a : list (flt f)) (c : flt f) k, let O := float_num chk f powi in
  is_finite c = true -> B2R c = bpow radix2 k ->
  ((forall d, shiftable (vcoef a d) k) -> exists r s, dense_scale O a c = Ok r /\ dense_div_scalar O r c = Ok s /\
     (forall d, is_finite (vcoef r d) = true /\ B2R (vcoef r d) = B2R (vcoef a d) * bpow radix2 k) /\ same_poly s a) /\
  ((forall d, shiftable (vcoef a d) (- k)) -> exists r s, dense_div_scalar O a c = Ok r /\ dense_scale O r c = Ok s /\
     (forall d, is_finite (vcoef r d) = true /\ B2R (vcoef r d) = B2R (vcoef a d) * bpow radix2 (- k)) /\ same_poly s a).
Proof.
  intros chk f powi a c k O Fc Ec. assert (Nc : B2R c <> 0) by (rewrite Ec; apply Rgt_not_eq, bpow_gt_0). destruct (feqb_nz f c Fc Nc) as [K1 K2]. split.
  - intros S. destruct (scale_fin chk f powi a c Fc) as (r & E & H). destruct (div_fin chk f powi r c Fc Nc) as (s & E' & H').
    exists r, s. split; [exact E|]. split; [exact E'|]. split; intros d.
    + destruct (fsame_B _ _ (H d)) as [-> ->]. apply pow2_mul; [exact Ec|exact Fc|apply S].
    + eapply fsame_trans; [apply H'|]. eapply fsame_trans; [apply fdiv_cong; [exact K1|exact K2|apply H]|]. apply (pow2_mul_div _ c k Ec Fc (S d)).
  - intros S. destruct (div_fin chk f powi a c Fc Nc) as (r & E & H). destruct (scale_fin chk f powi r c Fc) as (s & E' & H').
    exists r, s. split; [exact E|]. split; [exact E'|]. split; intros d.
    + destruct (fsame_B _ _ (H d)) as [-> ->]. apply pow2_div; [exact Ec|exact Fc|apply S].
    + eapply fsame_trans; [apply H'|]. eapply fsame_trans; [apply fmul_cong; [exact Fc|apply H]|]. apply (pow2_div_mul _ c k Ec Fc (S d)).
Qed.
Theorem C86_sparse_power_of_two : forall chk f powi (a : bmap (flt f)) (c : flt f) k, let O := float_num chk f powi in
  swf a -> is_finite c = true -> B2R c = bpow radix2 k ->
  ((forall d, shiftable (mcoef a d) k) -> exists r s, sparse_scale O a c = Ok r /\ sparse_div_scalar O r c = Ok s /\
     (forall d, is_finite (mcoef r d) = true /\ B2R (mcoef r d) = B2R (mcoef a d) * bpow radix2 k) /\ same_map s a) /\
  ((forall d, shiftable (mcoef a d) (- k)) -> exists r s, sparse_div_scalar O a c = Ok r /\ sparse_scale O r c = Ok s /\
     (forall d, is_finite (mcoef r d) = true /\ B2R (mcoef r d) = B2R (mcoef a d) * bpow radix2 (- k)) /\ same_map s a).
Proof.
  intros chk f powi a c k O Ha Fc Ec. assert (Nc : B2R c <> 0) by (rewrite Ec; apply Rgt_not_eq, bpow_gt_0). destruct (feqb_nz f c Fc Nc) as [K1 K2]. split.
  - intros S. destruct (mscale_fin chk f powi a c Ha Fc) as (r & E & W & H). destruct (mdiv_fin chk f powi r c W Fc Nc) as (s & E' & _ & H').
    exists r, s. split; [exact E|]. split; [exact E'|]. split; intros d.
    + destruct (fsame_B _ _ (H d)) as [-> ->]. apply pow2_mul; [exact Ec|exact Fc|apply S].
    + eapply fsame_trans; [apply H'|]. eapply fsame_trans; [apply fdiv_cong; [exact K1|exact K2|apply H]|]. apply (pow2_mul_div _ c k Ec Fc (S d)).
  - intros S. destruct (mdiv_fin chk f powi a c Ha Fc Nc) as (r & E & W & H). destruct (mscale_fin chk f powi r c W Fc) as (s & E' & _ & H').
    exists r, s. split; [exact E|]. split; [exact E'|]. split; intros d.
    + destruct (fsame_B _ _ (H d)) as [-> ->]. apply pow2_div; [exact Ec|exact Fc|apply S].
    + eapply fsame_trans; [apply H'|]. eapply fsame_trans; [apply fmul_cong; [exact Fc|apply H]|]. apply (pow2_div_mul _ c k Ec Fc (S d)).
Qed.

(** By any other number the coefficients come back within two roundings. *)
Theorem C86_scale : forall chk f powi (a : list (flt f)) (c : flt f), let O := float_num chk f powi in let u := uro f in
  is_finite c = true -> B2R c <> 0 ->
  (exists r s, dense_div_scalar O a c = Ok r /\ dense_scale O r c = Ok s /\ forall d, is_finite (vcoef s d) = true ->
     Rabs (B2R (vcoef s d) - B2R (vcoef a d)) <= (2 * u + u * u) * Rabs (B2R (vcoef a d)) + eta f * ((1 + u) * Rabs (B2R c) + 1)) /\
  (exists r s, dense_scale O a c = Ok r /\ dense_div_scalar O r c = Ok s /\ forall d, is_finite (vcoef r d) = true -> is_finite (vcoef s d) = true ->
     Rabs (B2R (vcoef s d) - B2R (vcoef a d)) <= (2 * u + u * u) * Rabs (B2R (vcoef a d)) + eta f * ((1 + u) / Rabs (B2R c) + 1)).
Proof.
  intros chk f powi a c O u Fc Nc. destruct (feqb_nz f c Fc Nc) as [K1 K2]. split.
  - destruct (div_fin chk f powi a c Fc Nc) as (r & E & H). destruct (scale_fin chk f powi r c Fc) as (s & E' & H').
    exists r, s. split; [exact E|]. split; [exact E'|]. intros d Fd.
    assert (K : fsame (vcoef s d) (fmul (fdiv (vcoef a d) c) c)) by (eapply fsame_trans; [apply H'|apply fmul_cong; [exact Fc|apply H]]).
    destruct (fsame_B _ _ K) as [Q1 Q2]. rewrite Q1. rewrite Q2 in Fd. apply div_mul_err; assumption.
  - destruct (scale_fin chk f powi a c Fc) as (r & E & H). destruct (div_fin chk f powi r c Fc Nc) as (s & E' & H').
    exists r, s. split; [exact E|]. split; [exact E'|]. intros d Fr Fd.
    assert (K : fsame (vcoef s d) (fdiv (fmul (vcoef a d) c) c)) by (eapply fsame_trans; [apply H'|apply fdiv_cong; [exact K1|exact K2|apply H]]).
    destruct (fsame_B _ _ K) as [Q1 Q2]. rewrite Q1. rewrite Q2 in Fd. rewrite (proj2 (fsame_B _ _ (H d))) in Fr. apply mul_div_err; assumption.
Qed.

Theorem C86_sparse_scale : forall chk f powi (m : bmap (flt f)) (c : flt f), let O := float_num chk f powi in let u := uro f in
  swf m -> is_finite c = true -> B2R c <> 0 ->
  (exists r s, sparse_div_scalar O m c = Ok r /\ sparse_scale O r c = Ok s /\ forall k, is_finite (mcoef s k) = true ->
     Rabs (B2R (mcoef s k) - B2R (mcoef m k)) <= (2 * u + u * u) * Rabs (B2R (mcoef m k)) + eta f * ((1 + u) * Rabs (B2R c) + 1)) /\
  (exists r s, sparse_scale O m c = Ok r /\ sparse_div_scalar O r c = Ok s /\ forall k, is_finite (mcoef r k) = true -> is_finite (mcoef s k) = true ->
     Rabs (B2R (mcoef s k) - B2R (mcoef m k)) <= (2 * u + u * u) * Rabs (B2R (mcoef m k)) + eta f * ((1 + u) / Rabs (B2R c) + 1)).
Proof.
  intros chk f powi a c O u Ha Fc Nc. destruct (feqb_nz f c Fc Nc) as [K1 K2]. split.
  - destruct (mdiv_fin chk f powi a c Ha Fc Nc) as (r & E & W & H). destruct (mscale_fin chk f powi r c W Fc) as (s & E' & _ & H').
    exists r, s. split; [exact E|]. split; [exact E'|]. intros d Fd.
    assert (K : fsame (mcoef s d) (fmul (fdiv (mcoef a d) c) c)) by (eapply fsame_trans; [apply H'|apply fmul_cong; [exact Fc|apply H]]).
    destruct (fsame_B _ _ K) as [Q1 Q2]. rewrite Q1. rewrite Q2 in Fd. apply div_mul_err; assumption.
  - destruct (mscale_fin chk f powi a c Ha Fc) as (r & E & W & H). destruct (mdiv_fin chk f powi r c W Fc Nc) as (s & E' & _ & H').
    exists r, s. split; [exact E|]. split; [exact E'|]. intros d Fr Fd.
    assert (K : fsame (mcoef s d) (fdiv (fmul (mcoef a d) c) c)) by (eapply fsame_trans; [apply H'|apply fdiv_cong; [exact K1|exact K2|apply H]]).
    destruct (fsame_B _ _ K) as [Q1 Q2]. rewrite Q1. rewrite Q2 in Fd. rewrite (proj2 (fsame_B _ _ (H d))) in Fr. apply mul_div_err; assumption.
Qed.

(** (p + q) - q and (p - q) + q. *)
Theorem C86_add_sub : forall chk f powi (a b : list (flt f)), let O := float_num chk f powi in let u := uro f in
  (exists r s, dense_add O a b = Ok r /\ dense_sub O r b = Ok s /\ forall d, is_finite (vcoef s d) = true ->
     Rabs (B2R (vcoef s d) - B2R (vcoef a d)) <= u * (1 + u) * Rabs (B2R (vcoef a d) + B2R (vcoef b d)) + u * Rabs (B2R (vcoef a d))) /\
  (exists r s, dense_sub O a b = Ok r /\ dense_add O r b = Ok s /\ forall d, is_finite (vcoef s d) = true ->
     Rabs (B2R (vcoef s d) - B2R (vcoef a d)) <= u * (1 + u) * Rabs (B2R (vcoef a d) - B2R (vcoef b d)) + u * Rabs (B2R (vcoef a d))).
Proof.
  intros chk f powi a b O u. split.
  - destruct (C64_dense_add chk f powi a b) as (r & E & H). destruct (C64_dense_sub chk f powi r b) as (s & E' & _ & H').
    exists r, s. split; [exact E|]. split; [exact E'|]. intros d Fd.
    assert (K : fsame (vcoef s d) (fsub (fadd (vcoef a d) (vcoef b d)) (vcoef b d))) by (eapply fsame_trans; [apply H'|apply fsub_cong; [apply H|apply fsame_refl]]).
    destruct (fsame_B _ _ K) as [Q1 Q2]. rewrite Q1. rewrite Q2 in Fd. apply add_sub_err, Fd.
  - destruct (C64_dense_sub chk f powi a b) as (r & E & _ & H). destruct (C64_dense_add chk f powi r b) as (s & E' & H').
    exists r, s. split; [exact E|]. split; [exact E'|]. intros d Fd.
    assert (K : fsame (vcoef s d) (fadd (fsub (vcoef a d) (vcoef b d)) (vcoef b d))) by (eapply fsame_trans; [apply H'|apply fadd_cong; [apply H|apply fsame_refl]]).
    destruct (fsame_B _ _ K) as [Q1 Q2]. rewrite Q1. rewrite Q2 in Fd. apply sub_add_err, Fd.
Qed.
Theorem C86_sparse_add_sub : forall chk f powi (a b : bmap (flt f)), let O := float_num chk f powi in let u := uro f in swf a -> swf b ->
  (exists r s, sparse_add O a b = Ok r /\ sparse_sub O r b = Ok s /\ forall k, is_finite (mcoef s k) = true ->
     Rabs (B2R (mcoef s k) - B2R (mcoef a k)) <= u * (1 + u) * Rabs (B2R (mcoef a k) + B2R (mcoef b k)) + u * Rabs (B2R (mcoef a k))) /\
  (exists r s, sparse_sub O a b = Ok r /\ sparse_add O r b = Ok s /\ forall k, is_finite (mcoef s k) = true ->
     Rabs (B2R (mcoef s k) - B2R (mcoef a k)) <= u * (1 + u) * Rabs (B2R (mcoef a k) - B2R (mcoef b k)) + u * Rabs (B2R (mcoef a k))).
Proof.
  intros chk f powi a b O u Ha Hb. split.
  - destruct (madd_all chk f powi a b Ha Hb) as (r & E & W & H). destruct (msub_all chk f powi r b W Hb) as (s & E' & _ & H').
    exists r, s. split; [exact E|]. split; [exact E'|]. intros d Fd.
    assert (K : fsame (mcoef s d) (fsub (fadd (mcoef a d) (mcoef b d)) (mcoef b d))) by (eapply fsame_trans; [apply H'|apply fsub_cong; [apply H|apply fsame_refl]]).
    destruct (fsame_B _ _ K) as [Q1 Q2]. rewrite Q1. rewrite Q2 in Fd. apply add_sub_err, Fd.
  - destruct (msub_all chk f powi a b Ha Hb) as (r & E & W & H). destruct (madd_all chk f powi r b W Hb) as (s & E' & _ & H').
    exists r, s. split; [exact E|]. split; [exact E'|]. intros d Fd.
    assert (K : fsame (mcoef s d) (fadd (fsub (mcoef a d) (mcoef b d)) (mcoef b d))) by (eapply fsame_trans; [apply H'|apply fadd_cong; [apply H|apply fsame_refl]]).
    destruct (fsame_B _ _ K) as [Q1 Q2]. rewrite Q1. rewrite Q2 in Fd. apply sub_add_err, Fd.
Qed.

(** The derivative of the integral: the coefficient of x^d is divided and multiplied by d+1. *)
Theorem C86_integral_derivative : forall chk f powi (a : list (flt f)), let O := float_num chk f powi in let u := uro f in
  (len a < f_cont_limit f)%N ->
  exists r s, dense_integral O a = Ok r /\ dense_derivative O r = Ok s /\ forall d, is_finite (vcoef s d) = true ->
    Rabs (B2R (vcoef s d) - B2R (vcoef a d)) <= (2 * u + u * u) * Rabs (B2R (vcoef a d)) + eta f * ((1 + u) * INR (S d) + 1).
Proof.
  intros chk f powi a O u Hl. destruct (C64_dense_integral chk f powi a ltac:(lia)) as (r & E & H0 & H).
  pose proof (dense_integral_length chk f powi a r E) as L.
  destruct (C64_dense_derivative chk f powi r) as (s & E' & H'); [unfold len in *; lia|].
  exists r, s. split; [exact E|]. split; [exact E'|]. intros d.
  destruct (Nat.ltb_spec d (length a)) as [K|K].
  - destruct (f_of_nat_exact f (Datatypes.S d)) as [Fn En]; [unfold len in *; lia|]. set (n := f_of_Z f (Z.of_nat (Datatypes.S d))) in *.
    assert (Nn : B2R n <> 0) by (rewrite En; apply not_0_INR; discriminate).
    assert (Q : fsame (vcoef s d) (fmul (fdiv (vcoef a d) n) n)).
    { eapply fsame_trans; [apply H'|]. fold n. specialize (H d). fold n in H. replace (d <? length a)%nat with true in H by lia.
      destruct (Nat.ltb_spec (Datatypes.S d) (length r)) as [K1|K1]; [apply fmul_cong; [exact Fn|exact H]|].
      rewrite (vcoef_out f r) in H by exact K1. apply fsame_sym. eapply fsame_trans; [apply fmul_cong; [exact Fn|apply fsame_sym, H]|]. apply fmul_zero, Fn. }
    destruct (fsame_B _ _ Q) as [Q1 Q2]. intros Fd. rewrite Q2 in Fd. rewrite Q1. rewrite <- En. rewrite <- (Rabs_pos_eq (B2R n)).
    + apply div_mul_err; assumption.
    + rewrite En. apply pos_INR.
  - intros _. rewrite (vcoef_out f a) by exact K. specialize (H' d). replace (Datatypes.S d <? length r)%nat with false in H' by lia.
    destruct (fsame_B _ _ H') as [-> _]. change (B2R (fzero f)) with 0. rewrite Rminus_0_r, Rabs_R0.
    pose proof (@uro_pos f). pose proof (@eta_pos f). pose proof (pos_INR (Datatypes.S d)).
    assert (0 <= eta f * ((1 + u) * INR (Datatypes.S d) + 1)); [|lra]. apply Rmult_le_pos; [lra|]. assert (0 <= (1 + u) * INR (Datatypes.S d)) by (apply Rmult_le_pos; unfold u; lra). lra.
Qed.

Theorem C86_sparse_integral_derivative : forall chk f powi (m : bmap (flt f)), let O := float_num chk f powi in let u := uro f in swf m ->
  (forall k v, In (k, v) m -> (k + 1 < USIZE_MAX)%N /\ whole f (k + 1)) ->
  exists r s, sparse_integral O m = Ok r /\ sparse_derivative O r = Ok s /\ forall k, is_finite (mcoef s k) = true ->
    Rabs (B2R (mcoef s k) - B2R (mcoef m k)) <= (2 * u + u * u) * Rabs (B2R (mcoef m k)) + eta f * ((1 + u) * IZR (Z.of_N (k + 1)) + 1).
Proof.
  intros chk f powi m O u Hm Hw. destruct (proj2 (C83_sparse_calculus chk f powi m Hm) Hw) as (r & E & H0 & H).
  pose proof (integral_swf chk f powi m r Hm E) as W.
  destruct (proj1 (C83_sparse_calculus chk f powi r W)) as (s & E' & H').
  { intros k v Hi Hk Hv. replace k with (k - 1 + 1)%N by lia. specialize (H (k - 1)%N). replace (k - 1 + 1)%N with k in H by lia.
    unfold mcoef in H. rewrite (sorted_in_get r _ _ (proj1 W) Hi) in H. destruct (m_get (k - 1) m) as [w|] eqn:Ew.
    - apply (Hw _ w). apply m_get_in, Ew.
    - rewrite H in Hv. destruct f; discriminate Hv. }
  exists r, s. split; [exact E|]. split; [exact E'|]. intros k.
  assert (P : 0 <= eta f * ((1 + u) * IZR (Z.of_N (k + 1)) + 1)).
  { pose proof (@uro_pos f). pose proof (@eta_pos f). assert (0 <= IZR (Z.of_N (k + 1))) by (apply IZR_le; lia).
    apply Rmult_le_pos; [lra|]. assert (0 <= (1 + u) * IZR (Z.of_N (k + 1))) by (apply Rmult_le_pos; unfold u; lra). lra. }
  specialize (H k). specialize (H' k). destruct (m_get k m) as [v|] eqn:Ev.
  - destruct (Hw k v (m_get_in _ _ _ Ev)) as [_ (x & Fx & Ex)]. destruct (f_of_Z_representable f _ x Fx Ex) as [En Fn].
    set (n := f_of_Z f (Z.of_N (k + 1))) in *. assert (Nn : B2R n <> 0) by (rewrite En; apply IZR_neq; lia).
    assert (Q : fsame (mcoef s k) (fmul (fdiv (mcoef m k) n) n)).
    { eapply fsame_trans; [exact H'|]. destruct (m_get (k + 1) r) as [w|] eqn:Er; [rewrite H; apply fsame_refl|].
      assert (Z0 : mcoef r (k + 1) = fzero f) by (unfold mcoef; rewrite Er; reflexivity). rewrite Z0 in H. rewrite <- H. apply fsame_sym, fmul_zero, Fn. }
    destruct (fsame_B _ _ Q) as [Q1 Q2]. intros Fd. rewrite Q2 in Fd. rewrite Q1. rewrite <- En. rewrite <- (Rabs_pos_eq (B2R n)).
    + apply div_mul_err; assumption.
    + rewrite En. apply IZR_le. lia.
  - intros _. assert (Z0 : mcoef m k = fzero f) by (unfold mcoef; rewrite Ev; reflexivity). rewrite Z0. change (B2R (fzero f)) with 0.
    assert (Z1 : B2R (mcoef s k) = 0).
    { destruct (fsame_B _ _ H') as [-> _]. destruct (m_get (k + 1) r) as [w|] eqn:Er; [|reflexivity]. rewrite H.
      assert (Hk : (k + 1 <= USIZE_MAX)%N) by (eapply swf_key; [exact W|apply m_get_in, Er]).
      destruct (fsame_B _ _ (fmul_zero (f := f) (f_of_Z f (Z.of_N (k + 1))) (f_of_N_finite f (k + 1)%N Hk))) as [-> _]. reflexivity. }
    rewrite Z1, Rminus_0_r, Rabs_R0. lra.
Qed.

(** In general the operations are not undone: the derivative of the integral of x^48 is not x^48,
    since 1/49 * 49 is not 1 in f64, and (1 + 2^60) - 2^60 is 0. *)
Theorem C86_undo_refuted : forall chk powi, let O := float_num chk F64 powi in
  (exists a : list (flt F64), (r <- dense_integral O a ;; s <- dense_derivative O r ;; dense_eq O s a) = Ok false) /\
  (exists a b : list (flt F64), (r <- dense_add O a b ;; s <- dense_sub O r b ;; e <- dense_eq O s a ;; Ok (e, dense_degree O s)) = Ok (false, NegInf)) /\
  (exists (a : list (flt F64)) c, feqb c (fzero F64) = false /\ (r <- dense_div_scalar O a c ;; s <- dense_scale O r c ;; dense_eq O s a) = Ok false).
Proof.
  intros chk powi O. split; [|split].
  - exists (f_of_Z F64 1 :: repeat (fzero F64) 48). destruct chk; vm_compute; reflexivity.
  - exists [f_of_Z F64 1], [f_of_Z F64 (2 ^ 60)]. destruct chk; vm_compute; reflexivity.
  - exists [f_of_Z F64 1], (f_of_Z F64 49). split; [reflexivity|]. destruct chk; vm_compute; reflexivity.
Qed.

(** 3x + 5, over and times 8, and integrated; 3x^2 + infinity. *)
Example C86_case : let a : list (flt F64) := [f_of_Z F64 3; f_of_Z F64 5] in let m : bmap (flt F64) := [(0%N, B754_infinity false); (2%N, f_of_Z F64 3)] in
  (forall d, shiftable (vcoef a d) 3) /\ (forall d, shiftable (vcoef a d) (-3)) /\ is_finite (f_of_Z F64 8) = true /\ B2R (f_of_Z F64 8) = bpow radix2 3 /\
  (forall d, is_finite (vcoef a d) = true) /\ (len a < f_cont_limit F64)%N /\ swf m /\
  (forall k v, In (k, v) m -> (k + 1 < USIZE_MAX)%N /\ whole F64 (k + 1)) /\
  forall powi, let O := float_num true F64 powi in
  rmap (map (@B2SF (fprec F64) (femax F64))) (dense_scale O a (f_of_Z F64 8)) = Ok [B2SF (f_of_Z F64 24); B2SF (f_of_Z F64 40)].
Proof.
  intros a m.
  assert (V : forall z, (0 < z <= 7)%Z -> B2R (f_of_Z F64 z) = IZR z /\ is_finite (f_of_Z F64 z) = true) by (intros z Hz; apply f_of_Z_small; cbn; lia).
  assert (S : forall k, (-3 <= k <= 3)%Z -> forall d, shiftable (vcoef a d) k).
  { intros k Hk. assert (Z1 : forall z, (1 <= z <= 7)%Z -> shiftable (f_of_Z F64 z) k).
    { intros z Hz. destruct (V z ltac:(lia)) as [E F]. split; [exact F|]. right. rewrite E.
      assert (B : IZR 1 <= IZR z /\ IZR z <= IZR 7) by (split; apply IZR_le; lia). rewrite Rabs_pos_eq by lra.
      assert (B1 : bpow radix2 (-3) <= bpow radix2 k) by (apply bpow_le; lia). assert (B2 : bpow radix2 k <= bpow radix2 3) by (apply bpow_le; lia).
      assert (E3 : bpow radix2 (-3) = / 8) by (cbn; lra). assert (E4 : bpow radix2 3 = 8) by (cbn; lra). rewrite E3 in B1. rewrite E4 in B2. split.
      - apply Rle_trans with (bpow radix2 (-3)); [apply bpow_le; cbn; lia|]. rewrite E3. nra.
      - apply Rle_lt_trans with (bpow radix2 6); [|apply bpow_lt; reflexivity]. assert (E6 : bpow radix2 6 = 64) by (cbn; lra). rewrite E6. nra. }
    intros [|[|d]]; [apply Z1; lia|apply Z1; lia|]. rewrite (vcoef_out F64 a) by (cbn; lia). split; [reflexivity|]. left. reflexivity. }
  split; [apply S; lia|]. split; [apply S; lia|]. split; [reflexivity|]. split; [apply (f_of_Z_small F64 8); cbn; lia|].
  split; [intros [|[|d]]; [reflexivity|reflexivity|]; rewrite (vcoef_out F64 a) by (cbn; lia); reflexivity|].
  split; [reflexivity|]. split; [split; [repeat constructor|]; rewrite Forall_forall; intros kv [<-|[<-|[]]]; vm_compute; discriminate|].
  split.
  - intros k v [[= <- <-]|[[= <- <-]|[]]]; (split; [reflexivity|]); eexists; (split; [|apply f_of_Z_small; cbn; lia]); reflexivity.
  - intros powi O. vm_compute. reflexivity.
Qed.

Print Assumptions C86_exact.
Print Assumptions C86_sparse_exact.
Print Assumptions C86_sub_self.
Print Assumptions C86_sub_self_refuted.
Print Assumptions C86_power_of_two.
Print Assumptions C86_sparse_power_of_two.
Print Assumptions C86_scale.
Print Assumptions C86_sparse_scale.
Print Assumptions C86_add_sub.
Print Assumptions C86_sparse_add_sub.
Print Assumptions C86_integral_derivative.
Print Assumptions C86_sparse_integral_derivative.
Print Assumptions C86_undo_refuted.
