(** Properties C39, C40, C42, C43, C44: closed formulas for roots.

    Real arithmetic is exact here ([R_num]); floating-point rounding is not modelled for
    these. *)

From Coq Require Import List NArith ZArith Reals Lia Lra Psatz Bool.
From Verif Require Import Base Num Spec SpecFacts Laws Terms Dense Mono Bino Trino DenseMul FixedFacts Roots RealNum RootFacts.
Import ListNotations.
Local Open Scope R_scope.

(** ** Specification: values of real polynomials at real and complex points *)

Definition quad (a b c x : R) : R := a * x * x + b * x + c.
Definition cubic (a b c d x : R) : R := a * x * x * x + b * x * x + c * x + d.

(** Complex numbers as pairs. *)
Definition Cadd (z w : R * R) : R * R := (fst z + fst w, snd z + snd w).
Definition Cmul (z w : R * R) : R * R := (fst z * fst w - snd z * snd w, fst z * snd w + snd z * fst w).
Definition Cre (x : R) : R * R := (x, 0).
Definition quadC (a b c : R) (z : R * R) : R * R :=
  Cadd (Cadd (Cmul (Cre a) (Cmul z z)) (Cmul (Cre b) z)) (Cre c).

Lemma sqrt_sq x : 0 <= x -> sqrt x * sqrt x = x.
Proof. apply sqrt_sqrt. Qed.

(** The model over R, computed. *)
Lemma trinomial_roots_R chk cb rnd a b c : a <> 0 ->
  trinomial_roots (R_num chk) (R_rops cb rnd) a b c =
    let D := b * b - a * c * 4 in
    if Reqb D 0 then Ok (TwoRealRoots (- b / (a * 2)) (- b / (a * 2)))
    else if Rltb 0 D then Ok (TwoRealRoots (- b / (a * 2) + sqrt (Rabs D) / (a * 2)) (- b / (a * 2) - sqrt (Rabs D) / (a * 2)))
    else Ok (TwoComplexRoots (- b / (a * 2), sqrt (Rabs D) / (a * 2)) (- b / (a * 2), - (sqrt (Rabs D) / (a * 2)))).
Proof.
  intros Ha. unfold trinomial_roots, discriminant_trinomial.
  cbn -[INR Rabs sqrt Reqb Rltb N.to_nat].
  replace (INR (N.to_nat 4)) with 4 by (simpl; ring). replace (INR (N.to_nat 2)) with 2 by (simpl; ring).
  assert (E : Reqb (a * 2) 0 = false) by (apply Reqb_false; lra). rewrite !E. cbn [bind].
  destruct (Reqb _ 0); [reflexivity|]. destruct (Rltb 0 _); reflexivity.
Qed.

(** ** C39 *)

Theorem C39_discriminant : forall chk cb rnd a b c,
  trino_discriminant (R_num chk) (R_rops cb rnd) (MkTrino a b c) = Ok (b * b - 4 * a * c).
Proof.
  intros. unfold trino_discriminant, discriminant_trinomial. cbn -[INR N.to_nat].
  replace (INR (N.to_nat 4)) with 4 by (simpl; ring). f_equal. ring.
Qed.

Theorem C39_real_roots : forall chk cb rnd a b c, a <> 0 -> 0 <= b * b - 4 * a * c ->
  exists x y, trino_roots (R_num chk) (R_rops cb rnd) (MkTrino a b c) = Ok (TwoRealRoots x y) /\
    quad a b c x = 0 /\ quad a b c y = 0 /\ x + y = - b / a /\ x * y = c / a /\
    (x = y <-> b * b - 4 * a * c = 0) /\
    (forall z, quad a b c z = a * (z - x) * (z - y)).
Proof.
  intros chk cb rnd a b c Ha HD. unfold trino_roots. cbn [tc0 tc1 tc2]. rewrite trinomial_roots_R by exact Ha. cbv zeta.
  set (D := b * b - a * c * 4). assert (ED : D = b * b - 4 * a * c) by (unfold D; ring). rewrite <- ED in *.
  assert (F : forall s, s * s = D -> let x := - b / (a * 2) + s / (a * 2) in let y := - b / (a * 2) - s / (a * 2) in
    x + y = - b / a /\ x * y = c / a /\ (x = y <-> D = 0) /\ (forall z, quad a b c z = a * (z - x) * (z - y))).
  { intros s Hs x y.
    assert (Hsum : x + y = - b / a) by (unfold x, y; field; exact Ha).
    assert (Hprod : x * y = c / a).
    { replace (x * y) with ((b * b - s * s) / (4 * a * a)) by (unfold x, y; field; exact Ha).
      rewrite Hs. unfold D. field. exact Ha. }
    split; [exact Hsum|]. split; [exact Hprod|]. split.
    - split.
      + intros E. assert (s = 0).
        { unfold x, y in E. assert (E2 : s / (a * 2) = 0) by lra. apply (f_equal (fun t => t * (a * 2))) in E2.
          replace (s / (a * 2) * (a * 2)) with s in E2 by (field; exact Ha). lra. }
        subst s. lra.
      + intros E. assert (s = 0) by (apply Rsqr_0_uniq; unfold Rsqr; lra). unfold x, y. subst s. lra.
    - intros z. unfold quad. replace (a * (z - x) * (z - y)) with (a * z * z - a * (x + y) * z + a * (x * y)) by ring.
      rewrite Hsum, Hprod. field. exact Ha. }
  assert (G : forall x y, (forall z, quad a b c z = a * (z - x) * (z - y)) -> quad a b c x = 0 /\ quad a b c y = 0).
  { intros x y H. rewrite !H. split; ring. }
  destruct (Reqb D 0) eqn:E0.
  - apply Reqb_iff in E0. destruct (F 0) as (F1 & F2 & F3 & F4); [lra|].
    replace (- b / (a * 2) + 0 / (a * 2)) with (- b / (a * 2)) in * by (field; exact Ha).
    replace (- b / (a * 2) - 0 / (a * 2)) with (- b / (a * 2)) in * by (field; exact Ha).
    eexists _, _. split; [reflexivity|]. destruct (G _ _ F4) as [G1 G2]. repeat split; try assumption; tauto.
  - apply Reqb_false in E0. assert (0 < D) by lra.
    destruct (Rltb 0 D) eqn:E1; [|apply Rltb_false in E1; lra].
    rewrite Rabs_pos_eq by lra. destruct (F (sqrt D)) as (F1 & F2 & F3 & F4); [apply sqrt_sqrt; lra|].
    eexists _, _. split; [reflexivity|]. destruct (G _ _ F4) as [G1 G2]. repeat split; try assumption; tauto.
Qed.

Theorem C39_complex_roots : forall chk cb rnd a b c, a <> 0 -> b * b - 4 * a * c < 0 ->
  exists u v, v <> 0 /\
    trino_roots (R_num chk) (R_rops cb rnd) (MkTrino a b c) = Ok (TwoComplexRoots (u, v) (u, - v)) /\
    quadC a b c (u, v) = (0, 0) /\ quadC a b c (u, - v) = (0, 0) /\
    Cadd (u, v) (u, - v) = Cre (- b / a) /\ Cmul (u, v) (u, - v) = Cre (c / a).
Proof.
  intros chk cb rnd a b c Ha HD. unfold trino_roots. cbn [tc0 tc1 tc2]. rewrite trinomial_roots_R by exact Ha. cbv zeta.
  set (D := b * b - a * c * 4). assert (ED : D = b * b - 4 * a * c) by (unfold D; ring). rewrite <- ED in *.
  destruct (Reqb D 0) eqn:E0; [apply Reqb_iff in E0; lra|].
  destruct (Rltb 0 D) eqn:E1; [apply Rltb_iff in E1; lra|].
  assert (Hs : sqrt (Rabs D) * sqrt (Rabs D) = - D) by (rewrite sqrt_sqrt by apply Rabs_pos; apply Rabs_left; exact HD).
  set (s := sqrt (Rabs D)) in *. exists (- b / (a * 2)), (s / (a * 2)).
  assert (Hv : s / (a * 2) * (s / (a * 2)) = (4 * a * c - b * b) / (4 * a * a)).
  { replace (s / (a * 2) * (s / (a * 2))) with (s * s / (4 * a * a)) by (field; exact Ha). rewrite Hs, ED. field. exact Ha. }
  split.
  { intros E. rewrite E in Hv. assert (0 * 0 * (4 * a * a) = 4 * a * c - b * b) by (rewrite Hv; field; exact Ha). lra. }
  split; [reflexivity|]. set (v := s / (a * 2)) in *. clearbody v.
  assert (P : forall w, w * w = v * v -> quadC a b c (- b / (a * 2), w) = (0, 0)).
  { intros w Hw. unfold quadC, Cadd, Cmul, Cre. cbn [fst snd]. f_equal.
    - replace (_ + c) with (a * ((- b / (a * 2)) * (- b / (a * 2)) - w * w) + b * (- b / (a * 2)) + c) by ring.
      rewrite Hw, Hv. field. exact Ha.
    - field. exact Ha. }
  split; [apply P; reflexivity|]. split; [apply P; ring|].
  unfold Cadd, Cmul, Cre. cbn [fst snd]. split; f_equal.
  - field. exact Ha.
  - ring.
  - replace (- b / (a * 2) * (- b / (a * 2)) - v * - v) with (- b / (a * 2) * (- b / (a * 2)) + v * v) by ring. rewrite Hv. field. exact Ha.
  - ring.
Qed.

(** ** C40 *)

Theorem C40_order_partial : forall chk cb rnd a b c x y, 0 < a ->
  trino_roots (R_num chk) (R_rops cb rnd) (MkTrino a b c) = Ok (TwoRealRoots x y) -> y <= x.
Proof.
  intros chk cb rnd a b c x y Ha. unfold trino_roots. cbn [tc0 tc1 tc2]. rewrite trinomial_roots_R by lra. cbv zeta.
  destruct (Reqb _ 0); [intros H; injection H as <- <-; lra|].
  destruct (Rltb 0 _); [|discriminate]. intros H. injection H as <- <-.
  assert (0 <= sqrt (Rabs (b * b - a * c * 4)) / (a * 2)); [|lra].
  apply Rmult_le_pos; [apply sqrt_pos|]. apply Rlt_le, Rinv_0_lt_compat. lra.
Qed.

(** With a negative leading coefficient and a positive discriminant the smaller root is
    always first. *)
Theorem C40_negative_leading : forall chk cb rnd a b c x y, a < 0 -> 0 < b * b - 4 * a * c ->
  trino_roots (R_num chk) (R_rops cb rnd) (MkTrino a b c) = Ok (TwoRealRoots x y) -> x < y.
Proof.
  intros chk cb rnd a b c x y Ha HD. unfold trino_roots. cbn [tc0 tc1 tc2]. rewrite trinomial_roots_R by lra. cbv zeta.
  destruct (Reqb _ 0) eqn:E; [apply Reqb_iff in E; lra|].
  destruct (Rltb 0 _); [|discriminate]. intros H. injection H as <- <-.
  assert (0 < sqrt (Rabs (b * b - a * c * 4)) * / - (a * 2)).
  { apply Rmult_lt_0_compat; [apply sqrt_lt_R0; rewrite Rabs_pos_eq; lra|apply Rinv_0_lt_compat; lra]. }
  rewrite Rinv_opp in H. unfold Rdiv. lra.
Qed.

(** -x^2 + 1: the roots are listed as -1, 1. *)
Theorem C40_order_refuted : forall chk cb rnd, exists t,
  trino_roots (R_num chk) (R_rops cb rnd) t = Ok (TwoRealRoots (-1) 1).
Proof.
  intros. exists (MkTrino (-1) 0 1). unfold trino_roots. cbn [tc0 tc1 tc2]. rewrite trinomial_roots_R by lra. cbv zeta.
  replace (0 * 0 - -1 * 1 * 4) with 4 by ring.
  destruct (Reqb 4 0) eqn:E; [apply Reqb_iff in E; lra|].
  destruct (Rltb 0 4) eqn:E1; [|apply Rltb_false in E1; lra].
  rewrite Rabs_pos_eq by lra. replace 4 with (2 * 2) by ring. rewrite sqrt_square by lra. do 2 f_equal; field.
Qed.

(** ** C42 *)

(** Product of two linear polynomials, as the coefficients of a quadratic. *)
Definition lin_mul (f g : bino R) : R * R * R :=
  (bc0 f * bc0 g, bc0 f * bc1 g + bc1 f * bc0 g, bc1 f * bc1 g).

Theorem C42_real_factors : forall chk cb rnd a b c, a <> 0 ->
  (0 <= b * b - 4 * a * c -> exists f g,
     trino_real_factors (R_num chk) (R_rops cb rnd) (MkTrino a b c) = Ok (Some (a, f, g)) /\
     let '(u, v, w) := lin_mul f g in a * u = a /\ a * v = b /\ a * w = c) /\
  (b * b - 4 * a * c < 0 -> trino_real_factors (R_num chk) (R_rops cb rnd) (MkTrino a b c) = Ok None).
Proof.
  intros chk cb rnd a b c Ha. split; intros HD; unfold trino_real_factors.
  - destruct (C39_real_roots chk cb rnd a b c Ha HD) as (x & y & -> & _ & _ & Hs & Hp & _). cbn -[R_num].
    cbn. eexists _, _. split; [reflexivity|]. cbn.
    split; [ring|]. split.
    + replace (a * (1 * - y + - x * 1)) with (- a * (x + y)) by ring. rewrite Hs. field. exact Ha.
    + replace (a * (- x * - y)) with (a * (x * y)) by ring. rewrite Hp. field. exact Ha.
  - destruct (C39_complex_roots chk cb rnd a b c Ha HD) as (u & v & _ & -> & _). reflexivity.
Qed.

(** The same over the complex numbers. *)
Definition linC_mul (f g : bino (R * R)) : (R * R) * (R * R) * (R * R) :=
  (Cmul (bc0 f) (bc0 g), Cadd (Cmul (bc0 f) (bc1 g)) (Cmul (bc1 f) (bc0 g)), Cmul (bc1 f) (bc1 g)).
Definition multiplies_back (a b c : R) (out : R * bino (R * R) * bino (R * R)) : Prop :=
  let '(k, f, g) := out in let '(u, v, w) := linC_mul f g in
  Cmul (Cre k) u = Cre a /\ Cmul (Cre k) v = Cre b /\ Cmul (Cre k) w = Cre c.

Theorem C42_complex_factors_real_partial : forall chk cb rnd a b c, a <> 0 -> 0 <= b * b - 4 * a * c ->
  exists out, trino_complex_factors (R_num chk) (R_rops cb rnd) (MkTrino a b c) = Ok out /\ multiplies_back a b c out.
Proof.
  intros chk cb rnd a b c Ha HD. unfold trino_complex_factors.
  destruct (C39_real_roots chk cb rnd a b c Ha HD) as (x & y & -> & _ & _ & Hs & Hp & _).
  cbn. eexists. split; [reflexivity|]. unfold multiplies_back, linC_mul, Cmul, Cadd, Cre. cbn.
  split; [f_equal; ring|]. split; f_equal; try ring.
  - match goal with |- ?L = b => replace L with (- a * (x + y)) by ring end. rewrite Hs. field. exact Ha.
  - match goal with |- ?L = c => replace L with (a * (x * y)) by ring end. rewrite Hp. field. exact Ha.
Qed.

(** For a negative discriminant: the product is a x^2 - b x + c, so it is the original
    exactly when b = 0. *)
Theorem C42_complex_factors_nonreal : forall chk cb rnd a b c, a <> 0 -> b * b - 4 * a * c < 0 ->
  exists out, trino_complex_factors (R_num chk) (R_rops cb rnd) (MkTrino a b c) = Ok out /\
    multiplies_back a (- b) c out /\ (multiplies_back a b c out <-> b = 0).
Proof.
  intros chk cb rnd a b c Ha HD. unfold trino_complex_factors.
  destruct (C39_complex_roots chk cb rnd a b c Ha HD) as (u & v & _ & -> & _ & _ & Hs & Hp).
  cbn. eexists. split; [reflexivity|].
  unfold Cadd, Cmul, Cre in Hs, Hp. cbn in Hs, Hp. injection Hs as Hs _. injection Hp as Hp _.
  assert (Hu : a * (u + u) = - b) by (rewrite Hs; field; exact Ha).
  assert (Hw : a * (u * u + v * v) = c) by (replace (u * u + v * v) with (u * u - v * - v) by ring; rewrite Hp; field; exact Ha).
  unfold multiplies_back, linC_mul, Cmul, Cadd, Cre. cbn. split; [|split].
  - split; [f_equal; ring|]. split; f_equal; try ring; nra.
  - intros (_ & H & _). injection H as H _. nra.
  - intros ->. split; [f_equal; ring|]. split; f_equal; try ring; nra.
Qed.

(** x^2 + 2x + 2. *)
Theorem C42_complex_factors_refuted : forall chk cb rnd, exists out,
  trino_complex_factors (R_num chk) (R_rops cb rnd) (MkTrino 1 2 2) = Ok out /\ ~ multiplies_back 1 2 2 out.
Proof.
  intros. destruct (C42_complex_factors_nonreal chk cb rnd 1 2 2) as (out & H & _ & Hb); try lra.
  exists out. split; [exact H|]. intros K. apply Hb in K. lra.
Qed.

(** ** C43 *)

(** Every point is a root; no point is; exactly one is. *)
Theorem C43_linear : forall T (O : num T) R den, lawful O R den -> exact_div O R den -> domain R -> forall b,
  let root x := is_value (bpoly R den b) x r0 in
  (den (bc0 b) = r0 -> den (bc1 b) = r0 -> bino_root O b = Ok InfiniteRoots /\ forall x, root x) /\
  (den (bc0 b) = r0 -> den (bc1 b) <> r0 -> bino_root O b = Ok NoRoots /\ forall x, ~ root x) /\
  (den (bc0 b) <> r0 -> (exists n, neg O (bc1 b) = Ok n) ->
     exists r, bino_root O b = Ok (OneRealRoot r) /\ forall x, root x <-> x = den r).
Proof.
  intros T O R den L X HD [a b] root. cbn [bc0 bc1].
  assert (RV : forall x, root x <-> r0 = radd (rmul (den a) x) (den b)) by (intros x; apply (bpoly_value R den)).
  unfold bino_root. cbn [bc0 bc1]. pose proof (lw_is_zero _ _ _ L) as Z.
  split; [|split].
  - intros Ha Hb. split.
    + apply Z in Ha. apply Z in Hb. rewrite Ha, Hb. reflexivity.
    + intros x. apply RV. rewrite Ha, Hb. rewrite rmul_0_l, radd_0_l. reflexivity.
  - intros Ha Hb. split.
    + pose proof Ha as Ha'. apply Z in Ha'. rewrite Ha'.
      destruct (is_zero O b) eqn:E; [|reflexivity]. apply Z in E. congruence.
    + intros x Hx. apply RV in Hx. rewrite Ha in Hx. rewrite rmul_0_l, radd_0_l in Hx. congruence.
  - intros Ha [n Hn]. destruct (is_zero O a) eqn:E; [apply Z in E; congruence|].
    rewrite Hn. cbn [bind]. destruct (X n a E) as (r & -> & Hr). cbn [bind]. exists r. split; [reflexivity|].
    rewrite (lw_neg _ _ _ L _ _ Hn) in Hr. intros x. rewrite RV. apply linear_root; assumption.
Qed.

(** Integers: the classification is the same, and the root is right whenever there is an
    integer one and negating the constant does not overflow. *)
Theorem C43_linear_int : forall chk t (b : bino (int t)), signed t = true ->
  (ival (bc0 b) = 0 -> bino_root (int_num chk t) b = Ok (if Z.eqb (ival (bc1 b)) 0 then InfiniteRoots else NoRoots))%Z /\
  (ival (bc0 b) <> 0 -> ival (bc1 b) <> imin t -> forall s, ival (bc0 b) * s + ival (bc1 b) = 0 ->
     exists r, bino_root (int_num chk t) b = Ok (OneRealRoot r) /\ ival r = s)%Z.
Proof.
  intros chk t [a b] Ht. cbn [bc0 bc1]. unfold bino_root. cbn [bc0 bc1 int_num is_zero neg div].
  split.
  - intros Ha. rewrite Ha. destruct (Z.eqb (ival b) 0); reflexivity.
  - intros Ha Hb s Hs. destruct (Z.eqb_spec (ival a) 0) as [|_]; [lia|].
    assert (M : (imax t = - imin t - 1)%Z) by (destruct t; try discriminate Ht; reflexivity).
    pose proof (ival_ok b) as Rb. apply in_range_iff in Rb.
    pose proof (ival_ok a) as Ra. apply in_range_iff in Ra.
    rewrite arith_in_range by (apply in_range_iff; lia). cbn [bind].
    assert (E : (ival (mk_int t (- ival b)) = ival a * s)%Z) by (rewrite ival_mk_int by (apply in_range_iff; lia); lia).
    unfold idiv. rewrite E. destruct (Z.eqb_spec (ival a) 0) as [|_]; [lia|].
    rewrite Z.mul_comm, Z.quot_mul by exact Ha.
    assert (Rs : (imin t <= s <= imax t)%Z) by nia.
    destruct (in_range t s) eqn:Er; [|apply in_range_iff in Rs; congruence].
    eexists. split; [reflexivity|]. apply ival_mk_int, Er.
Qed.

Theorem C43_monomial : forall T (O : num T) R den, lawful O R den -> domain R -> forall m,
  let root x := is_value (mpoly R den m) x r0 in
  (den (mcoef m) = r0 -> mono_root O m = InfiniteRoots /\ forall x, root x) /\
  (den (mcoef m) <> r0 -> mdeg m = 0%N -> mono_root O m = NoRoots /\ forall x, ~ root x) /\
  (den (mcoef m) <> r0 -> mdeg m <> 0%N -> exists z, mono_root O m = OneRealRoot z /\ forall x, root x <-> x = den z).
Proof.
  intros T O R den L HD [c k] root. cbn [mcoef mdeg].
  assert (RV : forall x, root x <-> r0 = rmul (den c) (rpow x (N.to_nat k))) by (intros x; apply (mpoly_value R den)).
  pose proof (lw_is_zero _ _ _ L) as Z. unfold mono_root, mono_degree. cbn [mcoef mdeg].
  split; [|split].
  - intros Hc. split; [apply Z in Hc; rewrite Hc; reflexivity|]. intros x. apply RV. rewrite Hc, rmul_0_l. reflexivity.
  - intros Hc ->. split.
    + destruct (is_zero O c) eqn:E; [apply Z in E; contradiction|reflexivity].
    + intros x Hx. apply RV in Hx. cbn in Hx. rewrite rmul_1_r in Hx. congruence.
  - intros Hc Hk. exists (zero O). split.
    + destruct (is_zero O c) eqn:E; [apply Z in E; contradiction|]. cbn. destruct k; [contradiction|reflexivity].
    + intros x. rewrite RV, (lw_zero _ _ _ L). destruct (N.to_nat k) as [|j] eqn:Ej; [lia|]. split.
      * intros H. destruct (HD _ _ (eq_sym H)) as [|H']; [contradiction|]. eapply rpow_root; eassumption.
      * intros ->. cbn [rpow]. rewrite rmul_0_l, rmul_0_r. reflexivity.
Qed.

Example C43_linear_case : bino_root (int_num true I32) (MkBino (mk_int I32 3) (mk_int I32 6)) = Ok (OneRealRoot (mk_int I32 (-2))).
Proof. vm_compute. reflexivity. Qed.

(** ** C44 *)

(** The quantity whose sign decides: negative exactly when there are three distinct real
    roots (below). *)
Definition cp (a b : R) := - b / (3 * a).
Definition cq (a b c d : R) := cp a b ^ 3 + (b * c - 3 * a * d) / (6 * a ^ 2).
Definition cr (a c : R) := c / (3 * a).
Definition cD (a b c d : R) := cq a b c d ^ 2 + (cr a c - cp a b ^ 2) ^ 3.

(** [cD] in terms of the roots. *)
Lemma cD_roots a s1 s2 s3 : a <> 0 ->
  cD a (- a * (s1 + s2 + s3)) (a * (s1 * s2 + s2 * s3 + s3 * s1)) (- a * (s1 * s2 * s3))
  = - ((s1 - s2) * (s2 - s3) * (s3 - s1)) ^ 2 / 108.
Proof. intros Ha. unfold cD, cq, cr, cp. field. exact Ha. Qed.

(** [cq] = 0 exactly when the inflection point -b/3a is a root. *)
Lemma cq_inflection a b c d : a <> 0 -> (cq a b c d = 0 <-> cubic a b c d (- b / (3 * a)) = 0).
Proof.
  intros Ha. assert (E : cubic a b c d (- b / (3 * a)) = -2 * a * cq a b c d) by (unfold cubic, cq, cp; field; exact Ha).
  rewrite E. split; [intros ->; ring|]. intros H. apply Rmult_integral in H. destruct H as [H|H]; [lra|exact H].
Qed.

Lemma cubic_roots_R chk cb rnd a b c d : a <> 0 ->
  let k := sqrt (Rabs (cD a b c d)) in
  let x := cb (cq a b c d + k) + cb (cq a b c d - k) + cp a b in
  let b' := b / a + x in let c' := c / a + b' * x in
  cubic_roots (R_num chk) (R_rops cb rnd) a b c d =
    (rs <- trinomial_roots (R_num chk) (R_rops cb rnd) 1 b' c' ;;
     match rs with
     | TwoRealRoots a b => Ok (ThreeRealRoots x a b)
     | TwoComplexRoots a b => Ok (ThreeComplexRoots (x, 0) a b)
     | _ => Panic PUnreachable
     end).
Proof.
  intros Ha k x b' c'. unfold cubic_roots, sqr, cub.
  cbn -[INR Rabs sqrt Reqb Rltb N.to_nat trinomial_roots].
  replace (INR (N.to_nat 3)) with 3 by (simpl; ring). replace (INR (N.to_nat 6)) with 6 by (simpl; ring).
  assert (E1 : Reqb (3 * a) 0 = false) by (apply Reqb_false; lra). rewrite !E1. cbn [bind].
  assert (E2 : Reqb (6 * (a * a)) 0 = false).
  { apply Reqb_false. intros H. assert (a * a = 0) by lra. apply Rmult_integral in H0. tauto. }
  rewrite !E2. cbn [bind]. assert (E3 : Reqb a 0 = false) by (apply Reqb_false, Ha). rewrite !E3. cbn [bind].
  assert (Hp : - b / (3 * a) = cp a b) by reflexivity. rewrite !Hp.
  assert (Hq : cp a b * cp a b * cp a b + (b * c - 3 * a * d) / (6 * (a * a)) = cq a b c d).
  { unfold cq. f_equal; [ring|]. f_equal. ring. }
  rewrite !Hq. assert (Hr : c / (3 * a) = cr a c) by reflexivity. rewrite !Hr.
  assert (HD : cq a b c d * cq a b c d +
      (cr a c - cp a b * cp a b) * (cr a c - cp a b * cp a b) * (cr a c - cp a b * cp a b) = cD a b c d) by (unfold cD; ring).
  rewrite !HD. reflexivity.
Qed.

Lemma Rdiv_1 x : x / 1 = x.
Proof. field. Qed.

Lemma cube_inj x y : x ^ 3 = y ^ 3 -> x = y.
Proof.
  intros H. assert (K : (x - y) * (x ^ 2 + x * y + y ^ 2) = 0) by (replace ((x - y) * (x ^ 2 + x * y + y ^ 2)) with (x ^ 3 - y ^ 3) by ring; lra).
  apply Rmult_integral in K. destruct K as [K|K]; [lra|].
  assert (Q : (x + y / 2) ^ 2 + 3 / 4 * y ^ 2 = 0) by (rewrite <- K; field).
  pose proof (pow2_ge_0 (x + y / 2)). pose proof (pow2_ge_0 y).
  assert (Y : y ^ 2 = 0) by lra. assert (X : (x + y / 2) ^ 2 = 0) by lra.
  assert (Hy : y = 0) by (apply Rsqr_0_uniq; unfold Rsqr; lra).
  assert (Hx : x + y / 2 = 0) by (apply Rsqr_0_uniq; unfold Rsqr; lra). lra.
Qed.

(** What the first reported root is worth. *)
Lemma cubic_first a b c d k u v : a <> 0 -> u ^ 3 = cq a b c d + k -> v ^ 3 = cq a b c d - k ->
  cubic a b c d (u + v + cp a b) = 3 * a * (u + v) * (u * v - (cp a b ^ 2 - cr a c)).
Proof.
  intros Ha Hu Hv.
  assert (E : cubic a b c d (u + v + cp a b) = a * ((u + v) ^ 3 - 3 * (cp a b ^ 2 - cr a c) * (u + v) - 2 * cq a b c d)).
  { unfold cubic, cq, cr, cp. field. exact Ha. }
  rewrite E. replace (2 * cq a b c d) with (u ^ 3 + v ^ 3) by lra. ring.
Qed.

(** The roots returned, and the exact condition for all of them to be roots: the sign
    quantity is not negative, or the inflection point is a root. *)
Definition is_cubic_root_set (a b c d : R) (rs : roots R) : Prop :=
  match rs with
  | ThreeRealRoots x y z => forall w, cubic a b c d w = a * (w - x) * (w - y) * (w - z)
  | ThreeComplexRoots x y z =>
    snd x = 0 /\ snd z = - snd y /\ fst z = fst y /\ snd y <> 0 /\
    forall w, cubic a b c d w = a * (w - fst x) * ((w - fst y) ^ 2 + snd y ^ 2)
  | _ => False
  end.

Lemma cubic_rest chk cb rnd a b c d x : a <> 0 -> cubic a b c d x = 0 ->
  let b' := b / a + x in let c' := c / a + b' * x in
  exists rs, (rs <- trinomial_roots (R_num chk) (R_rops cb rnd) 1 b' c' ;;
     match rs with
     | TwoRealRoots a b => Ok (ThreeRealRoots x a b)
     | TwoComplexRoots a b => Ok (ThreeComplexRoots (x, 0) a b)
     | _ => Panic PUnreachable
     end) = Ok rs /\ is_cubic_root_set a b c d rs.
Proof.
  intros Ha Hx b' c'.
  assert (F : forall w, cubic a b c d w = a * (w - x) * quad 1 b' c' w).
  { intros w. assert (E : cubic a b c d w = a * (w - x) * quad 1 b' c' w + cubic a b c d x).
    { unfold quad, c', b', cubic. field. exact Ha. }
    rewrite E, Hx. ring. }
  destruct (Rle_dec 0 (b' * b' - 4 * 1 * c')) as [HD|HD].
  - destruct (C39_real_roots chk cb rnd 1 b' c' ltac:(lra) HD) as (y & z & E & _ & _ & _ & _ & _ & Q).
    unfold trino_roots in E. cbn [tc0 tc1 tc2] in E. rewrite E. cbn [bind]. eexists. split; [reflexivity|].
    cbn. intros w. rewrite F, Q. ring.
  - destruct (C39_complex_roots chk cb rnd 1 b' c' ltac:(lra) ltac:(lra)) as (u & v & Hv & E & Q & _ & Hs & Hp).
    unfold trino_roots in E. cbn [tc0 tc1 tc2] in E. rewrite E. cbn [bind]. eexists. split; [reflexivity|].
    cbn. repeat split; auto. intros w. rewrite F. unfold quad.
    unfold Cadd, Cmul, Cre in Hs, Hp. cbn in Hs, Hp. injection Hs as Hs _. injection Hp as Hp _.
    rewrite !Rdiv_1 in Hs, Hp. assert (Hb : b' = - (u + u)) by lra. assert (Hc : c' = u * u + v * v) by lra.
    rewrite Hb, Hc. ring.
Qed.

Theorem C44_cubic_roots_partial : forall chk cb rnd a b c d, (forall y, cb y ^ 3 = y) -> a <> 0 ->
  0 <= cD a b c d \/ cubic a b c d (- b / (3 * a)) = 0 ->
  exists rs, cubic_roots (R_num chk) (R_rops cb rnd) a b c d = Ok rs /\ is_cubic_root_set a b c d rs.
Proof.
  intros chk cb rnd a b c d Hcb Ha HD. rewrite cubic_roots_R by exact Ha. cbv zeta.
  set (k := sqrt (Rabs (cD a b c d))). set (u := cb (cq a b c d + k)). set (v := cb (cq a b c d - k)).
  apply (cubic_rest chk cb rnd a b c d (u + v + cp a b) Ha).
  assert (Hu : u ^ 3 = cq a b c d + k) by apply Hcb. assert (Hv : v ^ 3 = cq a b c d - k) by apply Hcb.
  rewrite (cubic_first a b c d k u v Ha Hu Hv).
  destruct HD as [HD|HD].
  - assert (Hk : k * k = cD a b c d) by (unfold k; rewrite sqrt_sqrt by apply Rabs_pos; apply Rabs_pos_eq, HD).
    assert (Huv : u * v = cp a b ^ 2 - cr a c).
    { apply cube_inj. replace ((u * v) ^ 3) with (u ^ 3 * v ^ 3) by ring. rewrite Hu, Hv.
      replace ((cq a b c d + k) * (cq a b c d - k)) with (cq a b c d ^ 2 - k * k) by ring. rewrite Hk. unfold cD. ring. }
    rewrite Huv. ring.
  - apply cq_inflection in HD; [|exact Ha]. rewrite HD in Hu, Hv.
    assert (u = - v) by (apply cube_inj; replace ((- v) ^ 3) with (- (v ^ 3)) by ring; lra). subst u. rewrite H. ring.
Qed.

(** Otherwise the call returns and the first root reported is not a root. *)
Theorem C44_cubic_wrong : forall chk cb rnd a b c d, (forall y, cb y ^ 3 = y) -> a <> 0 ->
  cD a b c d < 0 -> cubic a b c d (- b / (3 * a)) <> 0 ->
  exists x, cubic a b c d x <> 0 /\
    ((exists y z, cubic_roots (R_num chk) (R_rops cb rnd) a b c d = Ok (ThreeRealRoots x y z)) \/
     (exists y z, cubic_roots (R_num chk) (R_rops cb rnd) a b c d = Ok (ThreeComplexRoots (x, 0) y z))).
Proof.
  intros chk cb rnd a b c d Hcb Ha HD Hi. rewrite cubic_roots_R by exact Ha. cbv zeta.
  set (k := sqrt (Rabs (cD a b c d))). set (u := cb (cq a b c d + k)). set (v := cb (cq a b c d - k)).
  assert (Hu : u ^ 3 = cq a b c d + k) by apply Hcb. assert (Hv : v ^ 3 = cq a b c d - k) by apply Hcb.
  exists (u + v + cp a b). split.
  - rewrite (cubic_first a b c d k u v Ha Hu Hv). intros H.
    apply Rmult_integral in H. destruct H as [H|H].
    + apply Rmult_integral in H. destruct H as [H|H]; [lra|].
      apply Hi, cq_inflection; [exact Ha|]. assert (u = - v) by lra. subst u. rewrite H0 in Hu.
      replace ((- v) ^ 3) with (- (v ^ 3)) in Hu by ring. lra.
    + assert (Hk : k * k = - cD a b c d) by (unfold k; rewrite sqrt_sqrt by apply Rabs_pos; apply Rabs_left, HD).
      assert (E : (u * v) ^ 3 = (cp a b ^ 2 - cr a c) ^ 3) by (f_equal; lra).
      replace ((u * v) ^ 3) with (u ^ 3 * v ^ 3) in E by ring. rewrite Hu, Hv in E.
      replace ((cq a b c d + k) * (cq a b c d - k)) with (cq a b c d ^ 2 - k * k) in E by ring. rewrite Hk in E.
      unfold cD in *. assert ((cr a c - cp a b ^ 2) ^ 3 = - (cp a b ^ 2 - cr a c) ^ 3) by ring. lra.
  - set (x := u + v + cp a b). set (b' := b / a + x). set (c' := c / a + b' * x).
    destruct (Rle_dec 0 (b' * b' - 4 * 1 * c')) as [HD'|HD'].
    + destruct (C39_real_roots chk cb rnd 1 b' c' ltac:(lra) HD') as (y & z & E & _).
      unfold trino_roots in E. cbn [tc0 tc1 tc2] in E. rewrite E. left. exists y, z. reflexivity.
    + destruct (C39_complex_roots chk cb rnd 1 b' c' ltac:(lra) ltac:(lra)) as (u' & v' & _ & E & _).
      unfold trino_roots in E. cbn [tc0 tc1 tc2] in E. rewrite E. right. eexists _, _. reflexivity.
Qed.

(** In terms of roots: with three distinct real roots, none of them the mean of the other
    two, the answer is wrong. *)
Theorem C44_three_distinct_roots_refuted : forall chk cb rnd a s1 s2 s3, (forall y, cb y ^ 3 = y) -> a <> 0 ->
  s1 <> s2 -> s2 <> s3 -> s3 <> s1 -> 2 * s1 <> s2 + s3 -> 2 * s2 <> s1 + s3 -> 2 * s3 <> s1 + s2 ->
  exists b c d, (forall w, cubic a b c d w = a * (w - s1) * (w - s2) * (w - s3)) /\
  exists x, x <> s1 /\ x <> s2 /\ x <> s3 /\
    ((exists y z, cubic_roots (R_num chk) (R_rops cb rnd) a b c d = Ok (ThreeRealRoots x y z)) \/
     (exists y z, cubic_roots (R_num chk) (R_rops cb rnd) a b c d = Ok (ThreeComplexRoots (x, 0) y z))).
Proof.
  intros chk cb rnd a s1 s2 s3 Hcb Ha H12 H23 H31 M1 M2 M3.
  set (b := - a * (s1 + s2 + s3)). set (c := a * (s1 * s2 + s2 * s3 + s3 * s1)). set (d := - a * (s1 * s2 * s3)).
  assert (F : forall w, cubic a b c d w = a * (w - s1) * (w - s2) * (w - s3)) by (intros w; unfold cubic, b, c, d; ring).
  exists b, c, d. split; [exact F|].
  destruct (C44_cubic_wrong chk cb rnd a b c d Hcb Ha) as (x & Hx & Hr).
  - unfold b, c, d. rewrite cD_roots by exact Ha.
    assert (0 < ((s1 - s2) * (s2 - s3) * (s3 - s1)) ^ 2); [|lra].
    replace (((s1 - s2) * (s2 - s3) * (s3 - s1)) ^ 2) with (Rsqr ((s1 - s2) * (s2 - s3) * (s3 - s1))) by (unfold Rsqr; ring).
    apply Rlt_0_sqr. repeat apply Rmult_integral_contrapositive_currified; lra.
  - rewrite F. replace (- b / (3 * a)) with ((s1 + s2 + s3) / 3) by (unfold b; field; exact Ha).
    repeat apply Rmult_integral_contrapositive_currified; lra.
  - exists x. rewrite F in Hx. repeat split; try exact Hr; intros ->; apply Hx; ring.
Qed.

(** The hypotheses are met: a cube root exists, roots 0, 1, 3. *)
Example C44_wrong_case : (forall y, Rcbrt y ^ 3 = y) /\ 0 <> 1 /\ 1 <> 3 /\ 3 <> 0 /\ 2 * 0 <> 1 + 3 /\ 2 * 1 <> 0 + 3 /\ 2 * 3 <> 0 + 1.
Proof. split; [exact Rcbrt_spec|]. repeat split; lra. Qed.
(** ... and (x+2)^3, as in the documentation, falls under the positive theorem. *)
Example C44_partial_case : 0 <= cD 1 6 12 8.
Proof. unfold cD, cq, cr, cp. apply Req_le. field. Qed.

Print Assumptions C39_discriminant.
Print Assumptions C39_real_roots.
Print Assumptions C39_complex_roots.
Print Assumptions C40_order_partial.
Print Assumptions C40_negative_leading.
Print Assumptions C40_order_refuted.
Print Assumptions C42_real_factors.
Print Assumptions C42_complex_factors_real_partial.
Print Assumptions C42_complex_factors_nonreal.
Print Assumptions C42_complex_factors_refuted.
Print Assumptions C43_linear.
Print Assumptions C43_linear_int.
Print Assumptions C43_monomial.
Print Assumptions C44_cubic_roots_partial.
Print Assumptions C44_cubic_wrong.
Print Assumptions C44_three_distinct_roots_refuted.
