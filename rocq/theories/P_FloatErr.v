(** Rounding in f32 and f64 polynomials: C64, C65, C66, C67. *)

From Coq Require Import List NArith ZArith Reals Lia Lra Bool Arith Sorted.
From Coq Require Import ZifyBool ZifyNat ZifyN.
From Flocq Require Import Core BinarySingleNaN.
From Verif Require Import Base Num Spec SpecFacts Laws Dense DenseFacts DenseArith DenseMul DenseCalc Sparse SparseFacts SparseArith.
From Verif Require Import Bino Trino FixedFacts RealNum Floats FloatFacts FloatErr FloatEval FloatMul FloatCoef FloatSparse SimInst Coef.
Import ListNotations.
Local Open Scope R_scope.

(** ** Specification *)

(** The float nearest to a real number, ties to even, the exponent unbounded above. *)
Definition nearest (f : fty) (x : R) : R := Generic_fmt.round radix2 (SpecFloat.fexp (fprec f) (femax f)) ZnearestE x.

(** IEEE 754: the nearest float, or an infinity when that is 2^emax or more. *)
Definition rounds_to {f} (y : flt f) (x : R) : Prop :=
  (Rabs (nearest f x) < bpow radix2 (femax f) -> is_finite y = true /\ B2R y = nearest f x) /\
  (bpow radix2 (femax f) <= Rabs (nearest f x) -> is_finite y = false /\ is_nan y = false).

(** Coefficient of x^d: of a vector of coefficients, highest degree first, and of a map from degrees. *)
Definition vcoef {f} (l : list (flt f)) (d : nat) : flt f := nth d (rev l) (fzero f).
Definition mcoef {f} (m : bmap (flt f)) (k : N) : flt f := match m_get k m with Some v => v | None => fzero f end.

Section Rounds.
Context {f : fty}.
Implicit Types a b y : flt f.

Lemma over_inf y s : B2SF y = binary_overflow (fprec f) (femax f) mode_NE s -> is_finite y = false /\ is_nan y = false.
Proof. intros H. split; [apply (overflow_infinite y s H)|]. rewrite <- is_nan_SF_B2SF, H. reflexivity. Qed.

Lemma rounds_intro y x : (if Rlt_bool (Rabs (nearest f x)) (bpow radix2 (femax f)) then is_finite y = true /\ B2R y = nearest f x
   else is_finite y = false /\ is_nan y = false) -> rounds_to y x.
Proof.
  intros H. split; intros K.
  - rewrite Rlt_bool_true in H by exact K. exact H.
  - rewrite Rlt_bool_false in H by exact K. exact H.
Qed.

Lemma fadd_rounds a b : is_finite a = true -> is_finite b = true -> rounds_to (fadd a b) (B2R a + B2R b).
Proof.
  intros Ha Hb. apply rounds_intro. pose proof (Bplus_correct _ _ (fprec_pos f) (fprec_emax f) mode_NE a b Ha Hb) as K. unfold nearest.
  change (round_mode mode_NE) with ZnearestE in K. destruct (Rlt_bool _ _); [split; apply K|]. eapply over_inf, (proj1 K).
Qed.
Lemma fsub_rounds a b : is_finite a = true -> is_finite b = true -> rounds_to (fsub a b) (B2R a - B2R b).
Proof.
  intros Ha Hb. apply rounds_intro. pose proof (Bminus_correct _ _ (fprec_pos f) (fprec_emax f) mode_NE a b Ha Hb) as K. unfold nearest.
  change (round_mode mode_NE) with ZnearestE in K. destruct (Rlt_bool _ _); [split; apply K|]. eapply over_inf, (proj1 K).
Qed.
Lemma fmul_rounds a b : is_finite a = true -> is_finite b = true -> rounds_to (fmul a b) (B2R a * B2R b).
Proof.
  intros Ha Hb. apply rounds_intro. pose proof (Bmult_correct _ _ (fprec_pos f) (fprec_emax f) mode_NE a b) as K. unfold nearest.
  rewrite Ha, Hb in K.
  change (round_mode mode_NE) with ZnearestE in K. destruct (Rlt_bool _ _); [split; apply K|]. eapply over_inf, K.
Qed.
Lemma fdiv_rounds a b : is_finite a = true -> B2R b <> 0 -> rounds_to (fdiv a b) (B2R a / B2R b).
Proof.
  intros Ha Hb. apply rounds_intro. pose proof (Bdiv_correct _ _ (fprec_pos f) (fprec_emax f) mode_NE a b Hb) as K. unfold nearest.
  rewrite Ha in K.
  change (round_mode mode_NE) with ZnearestE in K. destruct (Rlt_bool _ _); [split; apply K|]. eapply over_inf, K.
Qed.

Lemma rounds_same y y' x : fsame y y' -> rounds_to y' x -> rounds_to y x.
Proof.
  intros H [H1 H2]. destruct (fsame_B _ _ H) as [E1 E2].
  assert (E3 : is_finite y' = false -> is_nan y' = false -> is_nan y = false).
  { intros K1 K2. destruct H as [->|[E _]]; [exact K2|]. apply feqb_zero in E. destruct E as (s & ->). reflexivity. }
  split; intros K; [specialize (H1 K)|specialize (H2 K)]; rewrite E2; [rewrite E1; exact H1|]. split; [apply H2|apply E3; apply H2].
Qed.

Lemma rounds_zero : rounds_to (fzero f) 0.
Proof.
  assert (E : nearest f 0 = 0) by (apply round_0, valid_rnd_N). split; rewrite E, Rabs_R0; intros H; [split; reflexivity|].
  pose proof (bpow_gt_0 radix2 (femax f)). lra.
Qed.

Lemma vcoef_finite (l : list (flt f)) : Forall (fun x => is_finite x = true) l -> forall d, is_finite (vcoef l d) = true.
Proof. intros H. apply (proj1 (cf_Forall (fzero f) (fun x : flt f => is_finite x = true) l eq_refl) H). Qed.
End Rounds.

(** ** C64: sums, differences, negations, multiples, quotients by a number, derivatives and
    integrals round once per coefficient *)

(** Whatever the coefficients, infinities and NaN included. *)
Theorem C64_dense_add : forall chk f powi (a b : list (flt f)), let O := float_num chk f powi in
  exists r, dense_add O a b = Ok r /\ forall d, fsame (vcoef r d) (fadd (vcoef a d) (vcoef b d)).
Proof. intros. apply dense_add_same. Qed.
Theorem C64_dense_add_assign : forall chk f powi (a b : list (flt f)), let O := float_num chk f powi in
  exists r, dense_add_assign O a b = Ok r /\ forall d, fsame (vcoef r d) (fadd (vcoef a d) (vcoef b d)).
Proof. intros. apply dense_add_assign_same. Qed.
Theorem C64_dense_sub : forall chk f powi (a b : list (flt f)), let O := float_num chk f powi in
  exists r, dense_sub O a b = Ok r /\ dense_sub_assign_ref O a b = Ok r /\ forall d, fsame (vcoef r d) (fsub (vcoef a d) (vcoef b d)).
Proof. intros. apply dense_sub_same. Qed.
Theorem C64_dense_neg : forall chk f powi (a : list (flt f)), let O := float_num chk f powi in
  exists r, dense_neg O a = Ok r /\ forall d, fsame (vcoef r d) (fneg (vcoef a d)).
Proof. intros. apply dense_neg_same. Qed.
Theorem C64_dense_scale : forall chk f powi (a : list (flt f)) (c : flt f), let O := float_num chk f powi in
  (exists r, dense_scale O a c = Ok r /\
    forall d, fsame (vcoef r d) (if (d <? length a)%nat then fmul (vcoef a d) c else fzero f)) /\
  (exists r, dense_scale_assign O a c = Ok r /\
    forall d, fsame (vcoef r d) (if (d <? length a)%nat then fmul (vcoef a d) c else fzero f)) /\
  (exists r, dense_div_scalar O a c = Ok r /\
    forall d, fsame (vcoef r d) (if (d <? length a)%nat then fdiv (vcoef a d) c else fzero f)) /\
  (exists r, dense_div_scalar_assign O a c = Ok r /\
    forall d, fsame (vcoef r d) (if (d <? length a)%nat then fdiv (vcoef a d) c else fzero f)).
Proof.
  intros. split; [apply (dense_map_same chk f powi (fun x => fmul x c))|].
  split; [apply (dense_map_assign_same f (fun x => fmul x c))|].
  split; [apply (dense_map_same chk f powi (fun x => fdiv x c))|apply (dense_map_assign_same f (fun x => fdiv x c))].
Qed.
Theorem C64_dense_derivative : forall chk f powi (a : list (flt f)), let O := float_num chk f powi in
  (len a <= f_cont_limit f)%N ->
  exists r, dense_derivative O a = Ok r /\
    forall d, fsame (vcoef r d) (if (S d <? length a)%nat then fmul (vcoef a (S d)) (f_of_Z f (Z.of_nat (S d))) else fzero f).
Proof. intros. apply dense_derivative_same. assumption. Qed.
Theorem C64_dense_integral : forall chk f powi (a : list (flt f)), let O := float_num chk f powi in
  (len a <= f_cont_limit f)%N ->
  exists r, dense_integral O a = Ok r /\ fsame (vcoef r 0) (fzero f) /\
    forall d, fsame (vcoef r (S d)) (if (d <? length a)%nat then fdiv (vcoef a d) (f_of_Z f (Z.of_nat (S d))) else fzero f).
Proof. intros. apply dense_integral_same. assumption. Qed.

Theorem C64_sparse : forall chk f powi (a b : bmap (flt f)) (c : flt f), let O := float_num chk f powi in swf a -> swf b ->
  (exists r, sparse_add O a b = Ok r /\ forall k, fsame (mcoef r k) (fadd (mcoef a k) (mcoef b k))) /\
  (exists r, sparse_add_assign O a b = Ok r /\ forall k, fsame (mcoef r k) (fadd (mcoef a k) (mcoef b k))) /\
  (exists r, sparse_sub O a b = Ok r /\ forall k, fsame (mcoef r k) (fsub (mcoef a k) (mcoef b k))) /\
  (exists r, sparse_neg O a = Ok r /\ forall k, fsame (mcoef r k) (fneg (mcoef a k))) /\
  (exists r, sparse_scale O a c = Ok r /\ sparse_scale_assign O a c = Ok r /\
    forall k, mcoef r k = if m_get k a then fmul (mcoef a k) c else fzero f) /\
  (exists r, sparse_div_scalar O a c = Ok r /\ sparse_div_scalar_assign O a c = Ok r /\
    forall k, mcoef r k = if m_get k a then fdiv (mcoef a k) c else fzero f).
Proof.
  intros chk f powi a b c O Ha Hb. split; [apply sparse_add_same; assumption|]. split; [apply sparse_add_assign_same; assumption|].
  split; [apply sparse_sub_same; assumption|]. split; [apply sparse_neg_same; assumption|]. split.
  - destruct (sparse_scale_same chk f powi a c Ha) as (r & E1 & E2 & H). exists r. split; [exact E1|]. split; [exact E2|].
    intros k. etransitivity; [apply H|]. unfold mcoef. destruct (m_get k a); reflexivity.
  - destruct (sparse_div_scalar_fsame chk f powi a c Ha) as (r & E1 & E2 & H). exists r. split; [exact E1|]. split; [exact E2|].
    intros k. etransitivity; [apply H|]. unfold mcoef. destruct (m_get k a); reflexivity.
Qed.

(** In terms of real numbers: on finite coefficients each result is the exact one correctly
    rounded. *)
Theorem C64_dense_rounded : forall chk f powi (a b : list (flt f)), let O := float_num chk f powi in
  Forall (fun x => is_finite x = true) a -> Forall (fun x => is_finite x = true) b ->
  (exists r, dense_add O a b = Ok r /\ forall d, rounds_to (vcoef r d) (B2R (vcoef a d) + B2R (vcoef b d))) /\
  (exists r, dense_add_assign O a b = Ok r /\ forall d, rounds_to (vcoef r d) (B2R (vcoef a d) + B2R (vcoef b d))) /\
  (exists r, dense_sub O a b = Ok r /\ forall d, rounds_to (vcoef r d) (B2R (vcoef a d) - B2R (vcoef b d))) /\
  (exists r, dense_neg O a = Ok r /\ forall d, is_finite (vcoef r d) = true /\ B2R (vcoef r d) = - B2R (vcoef a d)).
Proof.
  intros chk f powi a b O Ha Hb. assert (Fa := vcoef_finite a Ha).
  assert (Fb := vcoef_finite b Hb).
  split; [|split; [|split]].
  - destruct (C64_dense_add chk f powi a b) as (r & E & H). exists r. split; [exact E|]. intros d.
    apply (rounds_same _ _ _ (H d)), fadd_rounds; auto.
  - destruct (C64_dense_add_assign chk f powi a b) as (r & E & H). exists r. split; [exact E|]. intros d.
    apply (rounds_same _ _ _ (H d)), fadd_rounds; auto.
  - destruct (C64_dense_sub chk f powi a b) as (r & E & _ & H). exists r. split; [exact E|]. intros d.
    apply (rounds_same _ _ _ (H d)), fsub_rounds; auto.
  - destruct (C64_dense_neg chk f powi a) as (r & E & H). exists r. split; [exact E|]. intros d.
    destruct (fsame_B _ _ (H d)) as [E1 E2]. rewrite E1, E2. unfold fneg. rewrite is_finite_Bopp, B2R_Bopp. auto.
Qed.

Theorem C64_dense_scalar_rounded : forall chk f powi (a : list (flt f)) (c : flt f), let O := float_num chk f powi in
  Forall (fun x => is_finite x = true) a -> is_finite c = true ->
  (exists r, dense_scale O a c = Ok r /\ forall d, rounds_to (vcoef r d) (B2R (vcoef a d) * B2R c)) /\
  (B2R c <> 0 -> exists r, dense_div_scalar O a c = Ok r /\ forall d, rounds_to (vcoef r d) (B2R (vcoef a d) / B2R c)).
Proof.
  intros chk f powi a c O Ha Hc. assert (Fa := vcoef_finite a Ha).
  destruct (C64_dense_scale chk f powi a c) as ((r & E & H) & _ & (q & Eq & Hq) & _). split.
  - exists r. split; [exact E|]. intros d. apply (rounds_same _ _ _ (H d)). destruct (Nat.ltb_spec d (length a)) as [K|K].
    + apply fmul_rounds; auto.
    + unfold vcoef. rewrite nth_overflow by (rewrite rev_length; exact K). change (B2R (fzero f)) with 0. rewrite Rmult_0_l. apply rounds_zero.
  - intros Hz. exists q. split; [exact Eq|]. intros d. apply (rounds_same _ _ _ (Hq d)). destruct (Nat.ltb_spec d (length a)) as [K|K].
    + apply fdiv_rounds; auto.
    + unfold vcoef. rewrite nth_overflow by (rewrite rev_length; exact K). change (B2R (fzero f)) with 0. unfold Rdiv. rewrite Rmult_0_l. apply rounds_zero.
Qed.

Lemma f_of_nat_exact f d : (N.of_nat d <= f_cont_limit f)%N ->
  is_finite (f_of_Z f (Z.of_nat d)) = true /\ B2R (f_of_Z f (Z.of_nat d)) = INR d.
Proof.
  intros H. pose proof (f_cont_limit_small f) as K. destruct (f_of_Z_small f (Z.of_nat d)) as [E1 E2]; [lia|].
  split; [exact E2|]. rewrite E1, INR_IZR_INZ. reflexivity.
Qed.

Theorem C64_dense_calculus_rounded : forall chk f powi (a : list (flt f)), let O := float_num chk f powi in
  Forall (fun x => is_finite x = true) a -> (len a <= f_cont_limit f)%N ->
  (exists r, dense_derivative O a = Ok r /\ forall d, rounds_to (vcoef r d) (B2R (vcoef a (S d)) * INR (S d))) /\
  (exists r, dense_integral O a = Ok r /\ B2R (vcoef r 0) = 0 /\
     forall d, rounds_to (vcoef r (S d)) (B2R (vcoef a d) / INR (S d))).
Proof.
  intros chk f powi a O Ha Hl. assert (Fa := vcoef_finite a Ha).
  assert (Hout : forall d, (length a <= d)%nat -> vcoef a d = fzero f) by (intros d K; unfold vcoef; rewrite nth_overflow by (rewrite rev_length; exact K); reflexivity).
  split.
  - destruct (C64_dense_derivative chk f powi a Hl) as (r & E & H). exists r. split; [exact E|]. intros d. apply (rounds_same _ _ _ (H d)).
    destruct (Nat.ltb_spec (S d) (length a)) as [K|K].
    + destruct (f_of_nat_exact f (S d)) as [E1 E2]; [unfold len in Hl; lia|]. rewrite <- E2. apply fmul_rounds; auto.
    + rewrite Hout by exact K. change (B2R (fzero f)) with 0. rewrite Rmult_0_l. apply rounds_zero.
  - destruct (C64_dense_integral chk f powi a Hl) as (r & E & H0 & H). exists r. split; [exact E|].
    split; [apply (fsame_B _ _ H0)|]. intros d. apply (rounds_same _ _ _ (H d)).
    destruct (Nat.ltb_spec d (length a)) as [K|K].
    + destruct (f_of_nat_exact f (S d)) as [E1 E2]; [unfold len in Hl; lia|]. rewrite <- E2. apply fdiv_rounds; auto.
      rewrite E2. apply not_0_INR. discriminate.
    + rewrite Hout by exact K. change (B2R (fzero f)) with 0. unfold Rdiv. rewrite Rmult_0_l. apply rounds_zero.
Qed.

(** 0.1x + 1 plus 0.2x, scaled and integrated in f32: every coefficient is rounded. *)
Example C64_case : forall powi, let O := float_num true F32 powi in
  let tenth := fdiv (f_of_Z F32 1) (f_of_Z F32 10) in let a := [tenth; f_of_Z F32 1] in let b := [fmul tenth (f_of_Z F32 2); fzero F32] in
  Forall (fun x : flt F32 => is_finite x = true) a /\ Forall (fun x : flt F32 => is_finite x = true) b /\ (len a <= f_cont_limit F32)%N /\
  rmap (map B2SF) (dense_add O a b) = Ok [SpecFloat.S754_finite false 10066330 (-25); SpecFloat.S754_finite false 8388608 (-23)] /\
  rmap (map B2SF) (dense_integral O a) = Ok [SpecFloat.S754_finite false 13421773 (-28); SpecFloat.S754_finite false 8388608 (-23); SpecFloat.S754_zero false].
Proof.
  intros powi O tenth a b. split; [repeat constructor|]. split; [repeat constructor|]. split; [vm_compute; discriminate|].
  split; vm_compute; reflexivity.
Qed.

Print Assumptions C64_dense_add.
Print Assumptions C64_dense_add_assign.
Print Assumptions C64_dense_sub.
Print Assumptions C64_dense_neg.
Print Assumptions C64_dense_scale.
Print Assumptions C64_dense_derivative.
Print Assumptions C64_dense_integral.
Print Assumptions C64_sparse.
Print Assumptions C64_dense_rounded.
Print Assumptions C64_dense_scalar_rounded.
Print Assumptions C64_dense_calculus_rounded.

(** ** C65: error of evaluation *)

(** The real polynomial with the given coefficients, and the one with their absolute values. *)
Definition rpoly {f} (l : list (flt f)) : poly R_ring := fun d => B2R (vcoef l d).
Definition rpoly_abs {f} (l : list (flt f)) : poly R_ring := fun d => Rabs (B2R (vcoef l d)).

Lemma rpoly_dcoef {f} (l : list (flt f)) d : dcoef R_ring (fun a : flt f => B2R a) l d = rpoly l d.
Proof. apply (dcoef_cf (fzero f)). reflexivity. Qed.
Lemma rpoly_abs_dcoef {f} (l : list (flt f)) d : dcoef R_ring (fun a : flt f => Rabs (B2R a)) l d = rpoly_abs l d.
Proof. apply (dcoef_cf (fzero f) R_ring (fun a : flt f => Rabs (B2R a))). apply Rabs_R0. Qed.

Lemma hv_rpoly {f} (l : list (flt f)) x v : @is_value R_ring (rpoly l) x v -> v = hv (fun a : flt f => B2R a) l x.
Proof.
  intros H. apply (@is_value_fun R_ring _ _ _ _ H). eapply is_value_ext; [|apply hv_value]. intros d. apply rpoly_dcoef.
Qed.
Lemma hv_rpoly_abs {f} (l : list (flt f)) x v : @is_value R_ring (rpoly_abs l) x v -> v = hv (fun a : flt f => Rabs (B2R a)) l x.
Proof.
  intros H. apply (@is_value_fun R_ring _ _ _ _ H). eapply is_value_ext; [|apply hv_value]. intros d. apply rpoly_abs_dcoef.
Qed.

(** Half the smallest positive float times the sum of the first [n] powers. *)
Definition tiny (f : fty) (x : R) (n : nat) : R := eta f * @sumn R_ring (fun j => x ^ j) n.

Theorem C65_error : forall chk f powi (l : list (flt f)) (x y : flt f) (v A : R), let O := float_num chk f powi in
  let n := (2 * (length l - 1))%nat in
  dense_eval O l x = Ok y -> is_finite y = true -> is_finite x = true ->
  @is_value R_ring (rpoly l) (B2R x) v -> @is_value R_ring (rpoly_abs l) (Rabs (B2R x)) A ->
  Rabs (B2R y - v) <= ((1 + uro f) ^ n - 1) * A + (1 + uro f) ^ n * tiny f (Rabs (B2R x)) (length l - 1).
Proof.
  intros chk f powi l x y v A O n H Hy Hx Hv HA. rewrite (hv_rpoly _ _ _ Hv), (hv_rpoly_abs _ _ _ HA).
  pose proof (proj2 (dense_eval_err chk f powi l x y H Hy Hx)) as K. unfold tiny. fold (geo (Rabs (B2R x)) (length l - 1)).
  rewrite <- Rmult_assoc. exact K.
Qed.

(** The usual first-order form: n u / (1 - n u) with n = 2 (number of coefficients - 1). *)
Theorem C65_error_gamma : forall chk f powi (l : list (flt f)) (x y : flt f) (v A : R), let O := float_num chk f powi in
  let n := (2 * (length l - 1))%nat in let g := INR n * uro f / (1 - INR n * uro f) in
  dense_eval O l x = Ok y -> is_finite y = true -> is_finite x = true -> INR n * uro f < 1 ->
  @is_value R_ring (rpoly l) (B2R x) v -> @is_value R_ring (rpoly_abs l) (Rabs (B2R x)) A ->
  Rabs (B2R y - v) <= g * A + (1 + g) * tiny f (Rabs (B2R x)) (length l - 1).
Proof.
  intros chk f powi l x y v A O n g H Hy Hx Hn Hv HA. pose proof (C65_error chk f powi l x y v A H Hy Hx Hv HA) as K. cbv zeta in K.
  fold n in K. pose proof (gamma_le (uro f) (@uro_pos f) n Hn) as G. fold g in G.
  assert (A0 : 0 <= A). { rewrite (hv_rpoly_abs _ _ _ HA). apply (hv_abs_pos (fun a : flt f => B2R a)), Rabs_pos. }
  assert (T0 : 0 <= tiny f (Rabs (B2R x)) (length l - 1)).
  { apply Rmult_le_pos; [apply Rlt_le, eta_pos|]. apply (geo_pos (Rabs (B2R x))), Rabs_pos. }
  assert (((1 + uro f) ^ n - 1) * A <= g * A) by (apply Rmult_le_compat_r; assumption).
  assert ((1 + uro f) ^ n * tiny f (Rabs (B2R x)) (length l - 1) <= (1 + g) * tiny f (Rabs (B2R x)) (length l - 1)) by (apply Rmult_le_compat_r; lra).
  lra.
Qed.

(** No overflow when the sum of the magnitudes is within range. *)
Theorem C65_finite : forall chk f powi (l : list (flt f)) (x : flt f) (M A : R), let O := float_num chk f powi in
  is_finite x = true -> Forall (fun c => is_finite c = true) l -> 1 <= M -> Rabs (B2R x) <= M ->
  @is_value R_ring (rpoly_abs l) M A ->
  (1 + uro f) ^ (2 * length l) * (A + tiny f M (length l - 1)) < bpow radix2 (femax f) ->
  exists y, dense_eval O l x = Ok y /\ is_finite y = true.
Proof.
  intros chk f powi l x M A O Hx Hl H1 HM HA H. apply (dense_eval_finite chk f powi l x M Hx Hl H1 HM).
  rewrite <- (hv_rpoly_abs _ _ _ HA). exact H.
Qed.

(** Binomials and trinomials. *)
Theorem C65_binomial : forall chk f powi (b : bino (flt f)) (x : flt f), let O := float_num chk f powi in
  exists y, bino_eval O b x = Ok y /\ (is_finite y = true ->
  let p := B2R (bc0 b) in let q := B2R (bc1 b) in let X := B2R x in
  Rabs (B2R y - (p * X + q)) <= ((1 + uro f) ^ 2 - 1) * (Rabs p * Rabs X + Rabs q) + (1 + uro f) * eta f).
Proof.
  intros chk f powi b x O. eexists. split; [reflexivity|]. intros Hy p q X.
  destruct (fadd_operands _ _ Hy) as [H1 _]. destruct (fmul_err _ _ H1) as (e & h & He & Hh & E).
  destruct (fadd_err _ _ Hy) as (e1 & He1 & E1). rewrite E1, E. fold p q X.
  pose proof (appr_mul (uro f) 0 p p (Rabs p) 0 X e h (eta f) He Hh (appr_exact _ p)) as K.
  replace (p * X * (1 + e) + h) with (X * p * (1 + e) + h) in K by ring.
  assert (Kq : appr (uro f) 1 q q (Rabs q) 0) by (eapply appr_weaken; [apply uro_pos| |apply Rle_refl|apply appr_exact]; lia).
  pose proof (proj2 (appr_add (uro f) _ _ _ _ _ _ _ _ _ e1 He1 K Kq)) as G.
  eapply Rle_trans; [exact G|]. right. ring.
Qed.

Theorem C65_trinomial : forall chk f powi (b : trino (flt f)) (x : flt f), let O := float_num chk f powi in
  exists y, trino_eval O b x = Ok y /\ (is_finite y = true ->
  let p := B2R (tc0 b) in let q := B2R (tc1 b) in let s := B2R (tc2 b) in let X := B2R x in
  Rabs (B2R y - (p * X ^ 2 + q * X + s)) <=
    ((1 + uro f) ^ 4 - 1) * (Rabs p * Rabs X ^ 2 + Rabs q * Rabs X + Rabs s) + (1 + uro f) ^ 3 * eta f * (1 + Rabs X)).
Proof.
  intros chk f powi b x O. eexists. split; [reflexivity|]. intros Hy p q s X.
  destruct (fadd_operands _ _ Hy) as [H1 _]. destruct (fmul_operands _ _ H1) as [_ H2]. destruct (fadd_operands _ _ H2) as [H3 _].
  destruct (fmul_err _ _ H3) as (e3 & h3 & He3 & Hh3 & E3). destruct (fadd_err _ _ H2) as (e2 & He2 & E2).
  destruct (fmul_err _ _ H1) as (e1 & h1 & He1 & Hh1 & E1). destruct (fadd_err _ _ Hy) as (e0 & He0 & E0).
  rewrite E0, E1, E2, E3. fold p q s X.
  pose proof (appr_mul (uro f) 0 p p (Rabs p) 0 X e3 h3 (eta f) He3 Hh3 (appr_exact _ p)) as K3.
  assert (Kq : appr (uro f) 1 q q (Rabs q) 0) by (eapply appr_weaken; [apply uro_pos| |apply Rle_refl|apply appr_exact]; lia).
  pose proof (appr_add (uro f) _ _ _ _ _ _ _ _ _ e2 He2 K3 Kq) as K2.
  pose proof (appr_mul (uro f) _ _ _ _ _ X e1 h1 (eta f) He1 Hh1 K2) as K1.
  assert (Ks : appr (uro f) 3 s s (Rabs s) 0) by (eapply appr_weaken; [apply uro_pos| |apply Rle_refl|apply appr_exact]; lia).
  pose proof (proj2 (appr_add (uro f) _ _ _ _ _ _ _ _ _ e0 He0 K1 Ks)) as G.
  replace (X * ((p * X * (1 + e3) + h3 + q) * (1 + e2)) * (1 + e1) + h1) with ((p * X * (1 + e3) + h3 + q) * (1 + e2) * X * (1 + e1) + h1) by ring.
  replace (p * X ^ 2 + q * X + s) with ((p * X + q) * X + s) by ring.
  eapply Rle_trans; [exact G|]. replace (Rabs p * Rabs X ^ 2 + Rabs q * Rabs X + Rabs s) with ((Rabs p * Rabs X + Rabs q) * Rabs X + Rabs s) by ring.
  apply Rplus_le_compat_l. pose proof (@uro_pos f) as U. pose proof (@eta_pos f) as Et. pose proof (Rabs_pos X) as PX.
  set (t := eta f) in *. set (u := uro f) in *. set (w := Rabs X) in *.
  replace ((1 + u) * ((1 + u) * ((1 + u) * ((1 + u) * (0 * w) + t + 0) * w) + t + 0)) with ((1 + u) ^ 3 * t * w + (1 + u) * t) by ring.
  assert (1 <= (1 + u) ^ 2) by (apply pow_R1_Rle; lra).
  assert ((1 + u) * t * 1 <= (1 + u) * t * (1 + u) ^ 2) by (apply Rmult_le_compat_l; [apply Rmult_le_pos; lra|assumption]).
  replace ((1 + u) ^ 3 * t * (1 + w)) with ((1 + u) ^ 3 * t * w + (1 + u) * t * (1 + u) ^ 2) by ring. lra.
Qed.

(** x^2 - 3x + 2 at 0.1 in f32: the point is not representable and the result is rounded; a value
    needed by the theorems exists for every list and point. *)
Example C65_case : forall powi, let O := float_num true F32 powi in
  let x := fdiv (f_of_Z F32 1) (f_of_Z F32 10) in let l := map (f_of_Z F32) [1; -3; 2]%Z in
  rmap B2SF (dense_eval O l x) = Ok (B2SF (fsub (f_of_Z F32 2) (fmul x (fsub (f_of_Z F32 3) x)))) /\
  rmap (fun y : flt F32 => is_finite y) (dense_eval O l x) = Ok true /\ is_finite x = true /\
  (exists v, @is_value R_ring (rpoly l) (B2R x) v) /\ (exists A, @is_value R_ring (rpoly_abs l) (Rabs (B2R x)) A) /\
  INR (2 * (length l - 1)) * uro F32 < 1.
Proof.
  intros powi O x l. split; [vm_compute; reflexivity|]. split; [vm_compute; reflexivity|]. split; [vm_compute; reflexivity|]. split; [|split].
  - exists (hv (fun a : flt F32 => B2R a) l (B2R x)). eapply is_value_ext; [|apply hv_value]. intros d. apply rpoly_dcoef.
  - exists (hv (fun a : flt F32 => Rabs (B2R a)) l (Rabs (B2R x))). eapply is_value_ext; [|apply hv_value]. intros d. apply rpoly_abs_dcoef.
  - change (2 * (length l - 1))%nat with 4%nat. pose proof (@uro_small F32). cbn [INR]. lra.
Qed.

(** The no-overflow condition holds of the same polynomial everywhere on [-10, 10]. *)
Example C65_finite_case : forall powi (x : flt F32), let O := float_num true F32 powi in
  let l := map (f_of_Z F32) [1; -3; 2]%Z in
  is_finite x = true -> Rabs (B2R x) <= 10 -> exists y, dense_eval O l x = Ok y /\ is_finite y = true.
Proof.
  intros powi x O l Hx H10. apply (C65_finite true F32 powi l x 10 132); [exact Hx|repeat constructor|lra|exact H10| |].
  - exists 3%nat. split; [intros i Hi; unfold rpoly_abs, vcoef; rewrite nth_overflow by (cbn; lia); apply Rabs_R0|].
    assert (E : forall z, (Z.abs z <= 2 ^ fprec F32)%Z -> B2R (f_of_Z F32 z) = IZR z) by (intros z Hz; apply f_of_Z_small, Hz).
    unfold rpoly_abs, vcoef, l. cbn [map rev app nth sumn rpow radd r0 rmul r1 R_ring].
    rewrite !E by (vm_compute; discriminate). unfold Rabs. repeat destruct Rcase_abs; lra.
  - pose proof (@uro_small F32) as U. pose proof (@uro_pos F32) as U0.
    assert (Et : eta F32 <= 1).
    { unfold eta. assert (bpow radix2 (SpecFloat.emin (fprec F32) (femax F32)) <= bpow radix2 0) by (apply bpow_le; vm_compute; discriminate).
      cbn [bpow] in H. pose proof (bpow_gt_0 radix2 (SpecFloat.emin (fprec F32) (femax F32))). cbn [bpow] in *. lra. }
    assert (Big : 65536 <= bpow radix2 (femax F32)) by (change 65536 with (bpow radix2 16); apply bpow_le; vm_compute; discriminate).
    assert (P6 : (1 + uro F32) ^ (2 * length l) <= 2 ^ 6).
    { change (2 * length l)%nat with 6%nat. apply pow_incr. lra. }
    assert (T : tiny F32 10 (length l - 1) <= 11).
    { unfold tiny. change (length l - 1)%nat with 2%nat. cbn [sumn radd r0 R_ring pow]. pose proof (@eta_pos F32). nra. }
    assert (T0 : 0 <= tiny F32 10 (length l - 1)).
    { unfold tiny. change (length l - 1)%nat with 2%nat. cbn [sumn radd r0 R_ring pow]. pose proof (@eta_pos F32). nra. }
    assert (P0 : 0 <= (1 + uro F32) ^ (2 * length l)) by (apply pow_le; lra).
    assert ((1 + uro F32) ^ (2 * length l) * (132 + tiny F32 10 (length l - 1)) <= 2 ^ 6 * 143) by (apply Rmult_le_compat; lra).
    lra.
Qed.

Print Assumptions C65_error.
Print Assumptions C65_error_gamma.
Print Assumptions C65_finite.
Print Assumptions C65_binomial.
Print Assumptions C65_trinomial.

(** ** C66: error of products *)

(** At most [n] products are summed; each sum and product rounds. *)
Definition product_bound (f : fty) (n : nat) (A : R) : R :=
  ((1 + uro f) ^ n - 1) * A + INR n * (1 + uro f) ^ (n - 1) * eta f.

Theorem C66_dense_mul : forall chk f powi (a b r : list (flt f)), let O := float_num chk f powi in
  vec_ok O a -> vec_ok O b -> dense_mul O a b = Ok r \/ dense_mul_ref O a b = Ok r ->
  forall d, is_finite (vcoef r d) = true ->
  Rabs (B2R (vcoef r d) - pmul (rpoly a) (rpoly b) d) <=
    product_bound f (Nat.min (length a) (length b)) (pmul (rpoly_abs a) (rpoly_abs b) d).
Proof.
  intros chk f powi a b r O Ha Hb H d Hd.
  assert (G : forall r', slice_mul O a b = Ok r' -> is_finite (vcoef r' d) = true ->
     Rabs (B2R (vcoef r' d) - pmul (rpoly a) (rpoly b) d) <= product_bound f (Nat.min (length a) (length b)) (pmul (rpoly_abs a) (rpoly_abs b) d)).
  { intros r' H' Hd'. pose proof (proj2 (slice_mul_err chk f powi a b r' Ha Hb H' d Hd')) as K.
    rewrite <- (@pmul_ext R_ring _ (rpoly a) _ (rpoly b) (rpoly_dcoef a) (rpoly_dcoef b) d).
    rewrite <- (@pmul_ext R_ring _ (rpoly_abs a) _ (rpoly_abs b) (rpoly_abs_dcoef a) (rpoly_abs_dcoef b) d). exact K. }
  destruct H as [H|H]; [apply G; assumption|]. unfold dense_mul_ref in H. apply bind_ok in H. destruct H as (t & Ht & H).
  rewrite dense_new_ok in H. injection H as <-. destruct (fsame_B _ _ (strip_same chk f powi t d)) as [E1 E2].
  change (B2R (vcoef (strip O t) d) = B2R (vcoef t d)) in E1. change (is_finite (vcoef (strip O t) d) = is_finite (vcoef t d)) in E2.
  rewrite E1. apply G; [exact Ht|]. congruence.
Qed.

Theorem C66_sparse_mul : forall chk f powi (a b : bmap (flt f)), let O := float_num chk f powi in
  swf a -> swf b -> (forall ka kb, In ka a -> In kb b -> (fst ka + fst kb <= USIZE_MAX)%N) ->
  exists r, sparse_mul O a b = Ok r /\
  forall d, is_finite (mcoef r (N.of_nat d)) = true ->
  Rabs (B2R (mcoef r (N.of_nat d)) - @pmul R_ring (fun d => B2R (mcoef a (N.of_nat d))) (fun d => B2R (mcoef b (N.of_nat d))) d) <=
    product_bound f (Nat.min (length a) (length b))
      (@pmul R_ring (fun d => Rabs (B2R (mcoef a (N.of_nat d)))) (fun d => Rabs (B2R (mcoef b (N.of_nat d)))) d).
Proof.
  intros chk f powi a b O Ha Hb Hs. destruct (sparse_mul_err chk f powi a b Ha Hb Hs) as (r & E & H). exists r. split; [exact E|].
  intros d Hd. apply (proj2 (H d Hd)).
Qed.

(** The dense product returns unless both factors are zero or the result exceeds the capacity of a vector. *)
Lemma strip_nonempty chk f powi (l : list (flt f)) d : feqb (vcoef l d) (fzero f) = false -> strip (float_num chk f powi) l <> [].
Proof.
  intros H E. pose proof (strip_same chk f powi l d) as K. rewrite E, cf_nil in K. destruct K as [K|[_ K]].
  - unfold cf in K. unfold vcoef in H. rewrite <- K in H. discriminate H.
  - unfold cf in K. unfold vcoef in H. congruence.
Qed.

Theorem C66_dense_mul_returns : forall chk f powi (a b : list (flt f)), let O := float_num chk f powi in
  (len a + len b <= n_max_len O + 1)%N ->
  (exists d, feqb (vcoef a d) (fzero f) = false) \/ (exists d, feqb (vcoef b d) (fzero f) = false) ->
  exists r, dense_mul O a b = Ok r.
Proof.
  intros chk f powi a b O Hl Hn. unfold dense_mul, slice_mul. rewrite !slice_from_strip. cbn [bind].
  pose proof (len_strip O a) as La. pose proof (len_strip O b) as Lb.
  assert (Hcap : (n_max_len O <= 2 ^ 62)%N) by (destruct f; vm_compute; discriminate).
  rewrite uadd_small by (unfold USIZE_MAX; lia). cbn [bind].
  assert (H0 : (1 <= len (strip O b) + len (strip O a))%N).
  { destruct Hn as [(d & K)|(d & K)]; apply (strip_nonempty chk f powi) in K; fold O in K; unfold len;
      destruct (strip O a); destruct (strip O b); cbn [length]; try lia; congruence. }
  rewrite usub_le by lia. cbn [bind]. unfold vec_repeat.
  destruct (N.leb_spec (len (strip O b) + len (strip O a) - 1) (n_max_len O)) as [K|K]; [|lia]. cbn [bind].
  apply mul_rows_total; [split; intros; cbn; eauto|]. rewrite repeat_length. unfold len in *. lia.
Qed.

(** (0.1x + 1)(0.1x + 3) in f32. *)
Example C66_case : forall powi, let O := float_num true F32 powi in
  let t := fdiv (f_of_Z F32 1) (f_of_Z F32 10) in let a := [t; f_of_Z F32 1] in let b := [t; f_of_Z F32 3] in
  vec_ok O a /\ vec_ok O b /\ (len a + len b <= n_max_len O + 1)%N /\ feqb (vcoef a 0) (fzero F32) = false /\
  rmap (map B2SF) (dense_mul O a b) = Ok (map B2SF [fmul t t; fadd (fmul t (f_of_Z F32 1)) (fmul (f_of_Z F32 3) t); f_of_Z F32 3]) /\
  rmap (map (fun x : flt F32 => is_finite x)) (dense_mul O a b) = Ok [true; true; true].
Proof. intros powi O t a b. repeat (split; [vm_compute; reflexivity || discriminate|]). vm_compute. reflexivity. Qed.

Example C66_sparse_case : forall powi, let O := float_num true F64 powi in
  let t := fdiv (f_of_Z F64 1) (f_of_Z F64 10) in let a := [(0%N, t); (1000000000000%N, f_of_Z F64 3)] in
  swf a /\ (forall ka kb, In ka a -> In kb a -> (fst ka + fst kb <= USIZE_MAX)%N) /\
  rmap (map (fun kv => (fst kv, B2SF (snd kv)))) (sparse_mul O a a) =
    Ok [(0%N, B2SF (fmul t t)); (1000000000000%N, B2SF (fadd (fmul t (f_of_Z F64 3)) (fmul (f_of_Z F64 3) t))); (2000000000000%N, B2SF (f_of_Z F64 9))].
Proof.
  intros powi O t a. split; [split; repeat constructor; vm_compute; discriminate|]. split.
  - intros ka kb [<-|[<-|[]]] [<-|[<-|[]]]; vm_compute; discriminate.
  - vm_compute. reflexivity.
Qed.

Print Assumptions C66_dense_mul.
Print Assumptions C66_sparse_mul.
Print Assumptions C66_dense_mul_returns.

(** ** C67: which laws survive rounding *)

Lemma zipM_comm {f} (l m : list (flt f)) : length l = length m ->
  zipM (fun x y => Ok (fadd x y)) l m = zipM (fun x y => Ok (fadd x y)) m l.
Proof.
  revert m. induction l as [|x l IH]; intros [|y m] H; try discriminate H; [reflexivity|]. injection H as H. cbn [zipM bind].
  rewrite (IH m H), fadd_comm. reflexivity.
Qed.

(** Addition commutes, for any coefficients. *)
Theorem C67_dense_add_comm : forall chk f powi (a b : list (flt f)), let O := float_num chk f powi in
  dense_add O a b = dense_add O b a /\ dense_add_assign O a b = dense_add_assign O b a.
Proof.
  intros chk f powi a b O. unfold dense_add, dense_add_assign.
  destruct (Nat.ltb_spec (length a) (length b)) as [H|H]; destruct (Nat.ltb_spec (length b) (length a)) as [K|K]; try lia; try (split; reflexivity).
  replace (length a - length b)%nat with 0%nat by lia. replace (length b - length a)%nat with 0%nat by lia.
  unfold zip_suffix, slice_from. cbn [Nat.leb skipn firstn app bind add O float_num].
  rewrite (zipM_comm a b) by lia. split; reflexivity.
Qed.

Lemma sorted_get_ext {T} (a b : bmap T) : StronglySorted key_lt a -> StronglySorted key_lt b -> (forall k, m_get k a = m_get k b) -> a = b.
Proof.
  intros Ha. revert b. induction Ha as [|[k v] a Ha IH Hk]; intros b Hb H.
  - destruct b as [|[k v] b]; [reflexivity|]. specialize (H k). cbn in H. rewrite N.eqb_refl in H. discriminate.
  - destruct Hb as [|[k' v'] b Hb Hk'].
    { specialize (H k). cbn in H. rewrite N.eqb_refl in H. discriminate. }
    assert (No : forall (x : bmap T) w j j' , Forall (key_lt (j, w)) x -> (j' <= j)%N -> m_get j' x = None).
    { intros x w j j' F L. apply m_get_notin. intros I. apply in_map_iff in I. destruct I as ([j'' w''] & I1 & I2).
      rewrite Forall_forall in F. specialize (F _ I2). unfold key_lt in F. cbn in F, I1. lia. }
    assert (k = k').
    { destruct (N.lt_trichotomy k k') as [L|[L|L]]; [|exact L|].
      - pose proof (H k) as H1. cbn in H1. rewrite N.eqb_refl in H1. replace (k =? k')%N with false in H1 by lia. rewrite (No b v' k' k Hk') in H1 by lia. discriminate.
      - pose proof (H k') as H1. cbn in H1. rewrite N.eqb_refl in H1. replace (k' =? k)%N with false in H1 by lia. rewrite (No a v k k' Hk) in H1 by lia. discriminate. }
    subst k'. pose proof (H k) as H1. cbn in H1. rewrite N.eqb_refl in H1. injection H1 as <-. f_equal. apply IH; [exact Hb|].
    intros j. specialize (H j). cbn in H. destruct (N.eqb_spec j k) as [E|E]; [|exact H].
    rewrite (No a v k j Hk), (No b v k j Hk') by lia. reflexivity.
Qed.

Theorem C67_sparse_add_comm : forall chk f powi (a b : bmap (flt f)), let O := float_num chk f powi in
  swf a -> swf b -> sparse_add O a b = sparse_add O b a /\ sparse_add_assign O a b = sparse_add_assign O b a.
Proof.
  intros chk f powi a b O Ha Hb. rewrite (sparse_add_comm_assign O a b Hb), (sparse_add_comm_assign O b a Ha).
  assert (E : sparse_add_assign O a b = sparse_add_assign O b a); [|auto].
  destruct (upsert_fold f (fun v => v) fadd b (sorted_nodup b (proj1 Hb)) a) as (r & E & H).
  destruct (upsert_fold f (fun v => v) fadd a (sorted_nodup a (proj1 Ha)) b) as (s & E' & H').
  change (sparse_add_assign O a b = Ok r) in E. change (sparse_add_assign O b a = Ok s) in E'. rewrite E, E'. f_equal.
  assert (W : forall x y z, swf x -> swf y -> sparse_add_assign O x y = Ok z -> swf z).
  { intros x y z Hx Hy Hz. unfold sparse_add_assign in Hz. revert Hz.
    apply (foldM_inv swf); [|exact Hx]. intros m [k v] m' Hi Hm Hu. eapply upsert_wf; [exact Hm| |exact Hu].
    destruct Hy as [_ Hy]. rewrite Forall_forall in Hy. apply (Hy _ Hi). }
  apply sorted_get_ext; [apply (W a b r Ha Hb E)|apply (W b a s Hb Ha E')|].
  intros k. rewrite H, H'. destruct (m_get k a), (m_get k b); try reflexivity. rewrite fadd_comm. reflexivity.
Qed.

(** The two orders of a product differ by at most twice the rounding error. *)
Theorem C67_mul_comm_bound : forall chk f powi (a b r s : list (flt f)), let O := float_num chk f powi in
  vec_ok O a -> vec_ok O b -> dense_mul O a b = Ok r -> dense_mul O b a = Ok s ->
  forall d, is_finite (vcoef r d) = true -> is_finite (vcoef s d) = true ->
  Rabs (B2R (vcoef r d) - B2R (vcoef s d)) <=
    2 * product_bound f (Nat.min (length a) (length b)) (pmul (rpoly_abs a) (rpoly_abs b) d).
Proof.
  intros chk f powi a b r s O Ha Hb Hr Hs d Fr Fs.
  pose proof (C66_dense_mul chk f powi a b r Ha Hb (or_introl Hr) d Fr) as K1.
  pose proof (C66_dense_mul chk f powi b a s Hb Ha (or_introl Hs) d Fs) as K2.
  rewrite (Nat.min_comm (length b)), (@pmul_comm R_ring (rpoly b) (rpoly a) d), (@pmul_comm R_ring (rpoly_abs b) (rpoly_abs a) d) in K2.
  set (v := pmul (rpoly a) (rpoly b) d) in *.
  replace (B2R (vcoef r d) - B2R (vcoef s d)) with ((B2R (vcoef r d) - v) - (B2R (vcoef s d) - v)) by (change (car R_ring) with R in *; ring).
  eapply Rle_trans; [apply Rabs_triang|]. rewrite Rabs_Ropp. lra.
Qed.

(** They do differ, sums depend on the grouping, and neither distributivity nor "the value of a
    sum is the sum of the values" survives. *)
Definition big : flt F64 := f_of_Z F64 (2 ^ 53).
Definition one64 : flt F64 := f_of_Z F64 1.

Theorem C67_mul_comm_refuted : exists a b : list (flt F64), forall chk powi, let O := float_num chk F64 powi in
  rmap (map B2SF) (dense_mul O a b) <> rmap (map B2SF) (dense_mul O b a).
Proof. exists [big; one64; one64], [one64; one64; one64]. intros chk powi O. destruct chk; vm_compute; discriminate. Qed.

Theorem C67_add_assoc_refuted : exists a b c : list (flt F64), forall chk powi, let O := float_num chk F64 powi in
  rmap (map B2SF) (ab <- dense_add O a b ;; dense_add O ab c) <> rmap (map B2SF) (bc <- dense_add O b c ;; dense_add O a bc).
Proof. exists [big], [one64], [one64]. intros chk powi O. destruct chk; vm_compute; discriminate. Qed.

Theorem C67_distr_refuted : exists a b c : list (flt F64), forall chk powi, let O := float_num chk F64 powi in
  rmap (map B2SF) (bc <- dense_add O b c ;; dense_mul O a bc) <>
  rmap (map B2SF) (ab <- dense_mul O a b ;; ac <- dense_mul O a c ;; dense_add O ab ac).
Proof. exists [f_of_Z F64 3], [big], [one64]. intros chk powi O. destruct chk; vm_compute; discriminate. Qed.

Theorem C67_eval_sum_refuted : exists (a b : list (flt F64)) (x : flt F64), forall chk powi, let O := float_num chk F64 powi in
  rmap B2SF (ab <- dense_add O a b ;; dense_eval O ab x) <>
  rmap B2SF (u <- dense_eval O a x ;; v <- dense_eval O b x ;; add O u v).
Proof. exists [big], [one64; one64], one64. intros chk powi O. destruct chk; vm_compute; discriminate. Qed.

(** Commuting sums and products with NaN and an infinity; the product above is finite, so the bound applies. *)
Example C67_case : forall powi, let O := float_num true F64 powi in
  let a : list (flt F64) := [B754_nan; one64] in let b : list (flt F64) := [one64; B754_infinity false; one64] in
  dense_add O a b = dense_add O b a /\
  rmap (map B2SF) (dense_add O a b) = Ok [B2SF one64; SpecFloat.S754_nan; B2SF (f_of_Z F64 2)] /\
  let p := [big; one64; one64] in let q := [one64; one64; one64] in
  vec_ok O p /\ vec_ok O q /\
  rmap (map (fun x : flt F64 => is_finite x)) (dense_mul O p q) = Ok [true; true; true; true; true] /\
  rmap (map (fun x : flt F64 => is_finite x)) (dense_mul O q p) = Ok [true; true; true; true; true].
Proof.
  intros powi O a b. split; [apply C67_dense_add_comm|]. split; [vm_compute; reflexivity|]. cbv zeta.
  split; [vm_compute; discriminate|]. split; [vm_compute; discriminate|]. split; vm_compute; reflexivity.
Qed.

Print Assumptions C67_dense_add_comm.
Print Assumptions C67_sparse_add_comm.
Print Assumptions C67_mul_comm_bound.
Print Assumptions C67_mul_comm_refuted.
Print Assumptions C67_add_assoc_refuted.
Print Assumptions C67_distr_refuted.
Print Assumptions C67_eval_sum_refuted.
