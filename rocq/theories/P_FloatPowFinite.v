(** Property C102: powers of float polynomials that cannot overflow. *)

From Coq Require Import List NArith ZArith Reals Lia Lra Psatz Bool Arith.
From Coq Require Import ZifyBool ZifyNat ZifyN.
From Flocq Require Import Core Relative BinarySingleNaN.
From Verif Require Import Base Num Spec SpecFacts Laws Dense DenseFacts DenseArith DenseMul RealNum Floats FloatFacts FloatErr FloatEval FloatCoef Coef FloatMul P_FloatErr P_FloatPolyPow.
Import ListNotations.
Local Open Scope R_scope.

(** A coefficient of a polynomial without negative coefficients is at most the sum of all of them. *)
Lemma coef_le_sum (p : poly R_ring) v d : (forall i, 0 <= p i) -> is_value p 1 v -> p d <= v.
Proof.
  intros Hp (n & Hn & ->).
  assert (E : forall i, @rmul R_ring (p i) (@rpow R_ring 1 i) = p i).
  { intros i. assert (@rpow R_ring 1 i = 1) as ->; [|cbn; ring]. induction i as [|i IH]; [reflexivity|]. cbn [rpow]. rewrite IH. cbn. ring. }
  assert (G : forall m, 0 <= @sumn R_ring (fun i => @rmul R_ring (p i) (@rpow R_ring 1 i)) m /\
     ((d < m)%nat -> p d <= @sumn R_ring (fun i => @rmul R_ring (p i) (@rpow R_ring 1 i)) m)).
  { induction m as [|m [I1 I2]]; [split; [apply Rle_refl|lia]|]. cbn [sumn]. rewrite E. cbn [radd R_ring]. specialize (Hp m). split.
    - cbn in *. lra.
    - intros H. destruct (Nat.eq_dec d m) as [->|Ne]; [cbn in *; lra|]. specialize (I2 ltac:(lia)). cbn in *. lra. }
  destruct (Nat.lt_ge_cases d n) as [K|K]; [apply G, K|]. rewrite (Hn d K). apply G.
Qed.

Lemma ppow_pos (p : poly R_ring) n d : (forall i, 0 <= p i) -> 0 <= ppow p n d.
Proof.
  intros Hp. revert d. induction n as [|n IH]; intros d; cbn [ppow]; [destruct d; cbn; lra|]. apply pmul_pos; assumption.
Qed.

Lemma rpow_pow (x : R) n : @rpow R_ring x n = x ^ n.
Proof. induction n as [|n IH]; [reflexivity|]. cbn [rpow pow]. rewrite IH. reflexivity. Qed.

Section Finite.
Context (chk : bool) (f : fty) (powi : flt f -> N -> flt f).
Notation O := (float_num chk f powi).
Notation u := (uro f).
Notation emin := (SpecFloat.emin (fprec f) (femax f)).
Notation emax := (femax f).
Notation B := (@B2R (fprec f) (femax f)).
Notation Ba := (fun a : flt f => Rabs (B a)).
Notation c := (cf (fzero f)).
Notation dc := (dcoef R_ring B).
Notation da := (dcoef R_ring Ba).

Lemma one_e_abs e : Rabs e <= u -> Rabs (1 + e) <= 1 + u.
Proof. intros H. eapply Rle_trans; [apply Rabs_triang|]. rewrite Rabs_R1. lra. Qed.

Lemma dot_fin p q L : (emin <= p + q)%Z -> Forall (fun xy => mult p (B (fst xy)) /\ mult q (B (snd xy))) L ->
  (forall x y, In (x, y) L -> is_finite x = true /\ is_finite y = true) ->
  forall k (t : flt f) A, (1 <= k)%nat -> is_finite t = true -> Rabs (B t) <= (1 + u) ^ k * A -> (1 + u) ^ (k + length L) * (A + dotA L) < bpow radix2 emax ->
  is_finite (dot t L) = true.
Proof.
  intros Hq. induction 1 as [|[x y] L [Hx Hy] _ IH]; intros HF k t A Hk Ht HA HB; [exact Ht|].
  cbn [fst snd] in *. cbn [dot fold_left fst snd]. fold (dot (fadd t (fmul x y)) L).
  destruct (HF x y (or_introl eq_refl)) as [Fx Fy].
  pose proof (@uro_pos f) as U0. set (w := Rabs (B x) * Rabs (B y)) in *.
  assert (W0 : 0 <= w) by (unfold w; apply Rmult_le_pos; apply Rabs_pos).
  assert (D0 : 0 <= dotA L).
  { clear. induction L as [|xy L I]; cbn [dotA fold_right]; [lra|]. fold (dotA L). pose proof (Rabs_pos (B (fst xy))). pose proof (Rabs_pos (B (snd xy))). nra. }
  assert (ED : dotA ((x, y) :: L) = w + dotA L) by reflexivity. rewrite ED in HB. cbn [length] in HB.
  pose proof (pow_ge_1 u uro_pos k) as G1. assert (A0 : 0 <= A) by (pose proof (Rabs_pos (B t)); nra).
  assert (GL : (1 + u) ^ S k <= (1 + u) ^ (k + S (length L))) by (apply Rle_pow; [lra|lia]).
  assert (GS : (1 + u) ^ S k * (A + w) < bpow radix2 emax).
  { eapply Rle_lt_trans; [|exact HB]. apply Rmult_le_compat; [pose proof (pow_ge_1 u uro_pos (S k)); lra|lra|exact GL|lra]. }
  destruct (rnd_mult (f := f) (p + q) _ Hq (mult_mul p q _ _ Hx Hy)) as [_ (e & He & E)].
  assert (Fxy : is_finite (fmul x y) = true).
  { apply fmul_finite; [exact Fx|exact Fy|]. change (round_mode mode_NE) with ZnearestE. rewrite E, !Rabs_mult. fold w.
    eapply Rle_lt_trans; [|exact GS]. cbn [pow]. pose proof (one_e_abs e He). pose proof (Rabs_pos (1 + e)). 
    apply Rle_trans with (w * (1 + u)); [apply Rmult_le_compat_l; lra|]. replace ((1 + u) * (1 + u) ^ k * (A + w)) with ((1 + u) * ((1 + u) ^ k * (A + w))) by ring. rewrite (Rmult_comm w).
    apply Rmult_le_compat_l; [lra|]. nra. }
  assert (Bxy : Rabs (B (fmul x y)) <= (1 + u) ^ k * w).
  { pose proof (fmul_round x y Fxy) as Em. change (round_mode mode_NE) with ZnearestE in Em. rewrite Em, E, !Rabs_mult. fold w. rewrite Rmult_comm.
    apply Rmult_le_compat_r; [exact W0|]. eapply Rle_trans; [apply one_e_abs, He|]. replace (1 + u) with ((1 + u) ^ 1) at 1 by (cbn; ring). apply Rle_pow; [lra|exact Hk]. }
  assert (Fa : is_finite (fadd t (fmul x y)) = true).
  { apply (fadd_finite_bound f _ _ ((1 + u) ^ k * A) ((1 + u) ^ k * w)); [exact Ht|exact Fxy|exact HA|exact Bxy|].
    eapply Rle_lt_trans; [|exact GS]. right. cbn [pow]. ring. }
  apply (IH (fun x' y' K => HF x' y' (or_intror K)) (S k) _ (A + w)); [lia|exact Fa| |].
  - destruct (fadd_err _ _ Fa) as (e1 & He1 & ->). rewrite Rabs_mult. cbn [pow].
    replace ((1 + u) * (1 + u) ^ k * (A + w)) with ((((1 + u) ^ k * A) + ((1 + u) ^ k * w)) * (1 + u)) by ring.
    apply Rmult_le_compat; [apply Rabs_pos|apply Rabs_pos| |apply one_e_abs, He1]. eapply Rle_trans; [apply Rabs_triang|]. lra.
  - replace (S k + length L)%nat with (k + S (length L))%nat by lia. rewrite Rplus_assoc. exact HB.
Qed.

(** A product whose exact absolute values stay away from the overflow threshold is finite. *)
Lemma mul_fin_bound p q k m a b r P A Q A' M : vec_ok O a -> vec_ok O b -> slice_mul O a b = Ok r -> fin f a -> fin f b -> (emin <= p + q)%Z ->
  (forall d, mult p (B (c a d))) -> (forall d, mult q (B (c b d))) ->
  apx (f := f) k (dc a) P A -> apx (f := f) m (dc b) Q A' -> (forall d, pmul A A' d <= M) ->
  (1 + u) ^ (Nat.min (length (strip O a)) (length (strip O b)) + (k + m) + 1) * M < bpow radix2 emax -> fin f r.
Proof.
  intros Ha Hb H Fa Fb Hq Ga Gb Xa Xb HM HB d. destruct (slice_mul_dot chk f powi a b r Ha Hb H) as [_ Hd]. rewrite Hd.
  assert (Hq' : (emin <= q + p)%Z) by (rewrite Z.add_comm; exact Hq).
  assert (Sa : forall l d, B (c (strip O l) d) = B (c l d)) by (intros l e; apply (fsame_B _ _ (strip_same chk f powi l e))).
  pose proof (proj2 (fin_strip chk f powi a) Fa) as Fa'. pose proof (proj2 (fin_strip chk f powi b) Fb) as Fb'.
  assert (NB : forall x, In x (strip O b) -> exists i, x = c (strip O b) i).
  { intros x Hx. apply in_rev in Hx. apply (In_nth _ _ (fzero f)) in Hx. destruct Hx as (i & _ & <-). exists i. reflexivity. }
  assert (A0 : forall i, 0 <= A i) by (intros i; destruct (Xa i) as [K _]; pose proof (Rabs_pos (P i)); lra).
  assert (A0' : forall i, 0 <= A' i) by (intros i; destruct (Xb i) as [K _]; pose proof (Rabs_pos (Q i)); lra).
  apply (dot_fin q p _ Hq') with (k := 1%nat) (A := 0).
  - apply Forall_forall. intros [x y] K. apply prods_in in K. destruct K as [K1 (j & ->)]. cbn [fst snd]. split; [|rewrite Sa; apply Ga].
    destruct (NB x K1) as (i & ->). rewrite Sa. apply Gb.
  - intros x y K. apply prods_in in K. destruct K as [K1 (j & ->)]. destruct (NB x K1) as (i & ->). split; [apply Fb'|apply Fa'].
  - lia.
  - reflexivity.
  - change (B (fzero f)) with 0. rewrite Rabs_R0. lra.
  - destruct (prods_sum chk f powi (strip O b) (strip O a) d) as [_ S2]. rewrite S2, Rplus_0_l.
    assert (E2 : pmul (da (strip O b)) (da (strip O a)) d = pmul (da a) (da b) d).
    { rewrite (@pmul_comm R_ring). apply (@pmul_ext R_ring); intros i; apply (strip_dc chk f powi Rabs), Rabs_R0. }
    rewrite E2.
    assert (LE : pmul (da a) (da b) d <= (1 + u) ^ (k + m) * M).
    { rewrite (@pmul_ext R_ring (da a) (fun i => Rabs (dc a i)) (da b) (fun i => Rabs (dc b i))) by (intros i; rewrite da_cf, dc_cf; reflexivity).
      eapply Rle_trans; [apply (pmul_abs_le (dc a) (dc b) (fun i => (1 + u) ^ k * A i) (fun i => (1 + u) ^ m * A' i)); intros i; eapply appr_abs; [apply Xa|apply Xb]|].
      rewrite pmul_scal, <- pow_add. apply Rmult_le_compat_l; [pose proof (pow_ge_1 u uro_pos (k + m)); lra|apply HM]. }
    pose proof (prods_length chk f powi (strip O b) (strip O a) d) as PL.
    eapply Rle_lt_trans; [|exact HB].
    apply Rle_trans with ((1 + u) ^ (1 + Nat.min (length (strip O a)) (length (strip O b))) * ((1 + u) ^ (k + m) * M)).
    + apply Rmult_le_compat.
      * match goal with |- 0 <= (1 + u) ^ ?n => pose proof (pow_ge_1 u uro_pos n); lra end.
      * apply pmul_pos; intros i; rewrite da_cf; apply Rabs_pos.
      * apply Rle_pow; [pose proof (@uro_pos f); lra|]. change (flt f) with (binary_float (fprec f) (femax f)) in *. lia.
      * exact LE.
    + right. rewrite <- Rmult_assoc, <- pow_add. f_equal. f_equal. lia.
Qed.

Lemma roundings_mono l m n : (m <= n)%nat -> (pow_roundings l m <= pow_roundings l n)%nat.
Proof.
  intros H. unfold pow_roundings. pose proof (Nat.log2_le_mono _ _ H) as K.
  assert (m * Nat.log2 m <= n * Nat.log2 n)%nat by (apply Nat.mul_le_mono; assumption).
  assert (m * Nat.log2 m * (l - 1) <= n * Nat.log2 n * (l - 1))%nat by (apply Nat.mul_le_mono_r; assumption). lia.
Qed.

Lemma pow_fin fuel : forall p e r q s v, vec_ok O p -> dense_pow O fuel p e = Ok r -> fin f p ->
  (forall d, mult q (B (c p d))) -> (emin <= Z.of_N e * q)%Z -> is_value (da p) 1 s -> s <= v -> 1 <= v ->
  (1 + u) ^ (pow_roundings (length p) (N.to_nat e) + 1) * v ^ N.to_nat e < bpow radix2 emax -> fin f r.
Proof.
  assert (He0 : (emin <= 0)%Z) by (destruct f; vm_compute; discriminate).
  induction fuel as [|fuel IH]; intros p e r q s v Hp H Fp Gp Hq Hs Hv H1 HB; [discriminate|]. pose proof (pow_zero chk f powi (S fuel) p e r Hp) as Z0. specialize (fun X => Z0 X H).
  assert (Hp0 : apx (f := f) 0 (dc p) (dc p) (da p)) by (intros d; rewrite da_cf, dc_cf; apply appr_exact).
  assert (P0 : forall i, 0 <= da p i) by (intros i; rewrite da_cf; apply Rabs_pos).
  assert (S0 : 0 <= s) by (eapply Rle_trans; [apply (P0 0%nat)|apply (coef_le_sum (da p) s 0 P0 Hs)]).
  assert (PV : forall n d, ppow (da p) n d <= v ^ n).
  { intros n d. eapply Rle_trans; [apply (coef_le_sum _ (s ^ n)); [intros i; apply ppow_pos, P0|rewrite <- rpow_pow; apply (@is_value_ppow R_ring), Hs]|].
    apply pow_incr. lra. }
  assert (MON : forall j, (j <= N.to_nat e)%nat -> (1 + u) ^ (pow_roundings (length p) j + 1) * v ^ j < bpow radix2 emax).
  { intros j Hj. eapply Rle_lt_trans; [|exact HB]. apply Rmult_le_compat.
    - match goal with |- 0 <= (1 + u) ^ ?n => pose proof (pow_ge_1 u uro_pos n); lra end.
    - apply pow_le. lra.
    - apply Rle_pow; [pose proof (@uro_pos f); lra|]. pose proof (roundings_mono (length p) _ _ Hj). lia.
    - apply Rle_pow; assumption. }
  cbn [dense_pow] in H. destruct (N.eqb_spec e 0) as [->|E0].
  { assert (r = [one O]) by congruence. subst r. intros [|d]; [apply (f_of_Z_small f 1%Z); destruct f; vm_compute; discriminate|unfold cf; cbn; destruct d; reflexivity]. }
  destruct (N.eqb_spec e 1) as [->|E1].
  { rewrite dense_new_ok in H. injection H as <-. apply (proj2 (fin_strip chk f powi p)), Fp. }
  assert (SQ : forall h j r, vec_ok O h -> dense_mul_ref O h h = Ok r -> (1 <= j)%nat -> (length h <= (length p - 1) * j + 1)%nat -> (j + j <= N.to_nat e)%nat ->
    (emin <= Z.of_nat (j + j) * q)%Z -> fin f h ->
    (forall d, mult (Z.of_nat j * q) (B (c h d))) /\ apx (f := f) (pow_roundings (length p) j) (dc h) (ppow (dc p) j) (ppow (da p) j) -> fin f r).
  { clear r H Z0. intros h j r Hh H Hj Lh Hje Hq2 Fh [G1 G2]. unfold dense_mul_ref in H. apply bind_ok in H. destruct H as (t & Ht & H). rewrite dense_new_ok in H. injection H as <-.
    apply (proj2 (fin_strip chk f powi t)).
    assert (Eq : (Z.of_nat (j + j) * q = Z.of_nat j * q + Z.of_nat j * q)%Z) by lia.
    apply (mul_fin_bound _ _ _ _ h h t _ _ _ _ (v ^ (j + j)) Hh Hh Ht Fh Fh ltac:(rewrite <- Eq; exact Hq2) G1 G1 G2 G2).
    - intros d. rewrite <- (@ppow_add R_ring (da p) j j d). apply PV.
    - eapply Rle_lt_trans; [|apply (MON (j + j)%nat Hje)]. apply Rmult_le_compat_r; [apply pow_le; lra|]. apply Rle_pow; [pose proof (@uro_pos f); lra|].
      pose proof (roundings_double (length p) j Hj) as R1. pose proof (strip_slen chk f powi h) as Sh. change (flt f) with (binary_float (fprec f) (femax f)) in *. lia. }
  destruct (N.eqb_spec e 2) as [->|E2].
  { apply (SQ p 1%nat r Hp H); [lia|lia|lia|exact Hq|exact Fp|]. rewrite Z.mul_1_l. split; [exact Gp|].
    apply (apx_le f 0); [lia|]. eapply apx_ext; [apply peq_sym, ppow_1|apply peq_sym, ppow_1|exact Hp0]. }
  destruct (N.eqb_spec (e mod 2) 0) as [Em|Em]; apply bind_ok in H; destruct H as (h & Hh & H); destruct (pow_shape chk f powi _ _ _ _ Hp Hh) as [Vh Lh].
  - assert (He : N.to_nat e = (N.to_nat (e / 2) + N.to_nat (e / 2))%nat) by (pose proof (N.div_mod e 2 ltac:(lia)); lia).
    assert (He2 : Z.of_N e = Z.of_nat (N.to_nat (e / 2) + N.to_nat (e / 2))) by lia.
    assert (He3 : Z.of_N (e / 2) = Z.of_nat (N.to_nat (e / 2))) by lia.
    assert (Hj : (1 <= N.to_nat (e / 2))%nat) by lia.
    assert (Hqj : (emin <= Z.of_N (e / 2) * q)%Z).
    { rewrite He2 in Hq. rewrite He3. destruct (Z.le_gt_cases 0 q); nia. }
    pose proof (IH p (e / 2)%N h q s v Hp Hh Fp Gp Hqj Hs Hv H1 (MON (N.to_nat (e / 2)) ltac:(lia))) as Fh.
    pose proof (pow_apx chk f powi fuel p (e / 2)%N h q Hp Hh Fh Gp Hqj) as X. rewrite He3 in X. rewrite He2 in Hq.
    destruct fuel as [|fuel']; [discriminate|]. cbn [dense_pow] in H.
    change ((2 =? 0)%N) with false in H. change ((2 =? 1)%N) with false in H. change ((2 =? 2)%N) with true in H. cbv iota in H.
    apply (SQ h _ r Vh H Hj Lh ltac:(lia) Hq Fh X).
  - assert (He : N.to_nat e = S (N.to_nat (e - 1))) by lia.
    assert (He2 : (Z.of_N e * q = q + Z.of_N (e - 1) * q)%Z) by nia.
    assert (Hqj : (emin <= Z.of_N (e - 1) * q)%Z) by (destruct (Z.le_gt_cases 0 q); nia).
    pose proof (IH p (e - 1)%N h q s v Hp Hh Fp Gp Hqj Hs Hv H1 (MON (N.to_nat (e - 1)) ltac:(lia))) as Fh.
    destruct (pow_apx chk f powi fuel p (e - 1)%N h q Hp Hh Fh Gp Hqj) as [G1 G2].
    unfold dense_mul_ref in H. apply bind_ok in H. destruct H as (t & Ht & H). rewrite dense_new_ok in H. injection H as <-.
    apply (proj2 (fin_strip chk f powi t)). rewrite He2 in Hq.
    apply (mul_fin_bound _ _ _ _ p h t _ _ _ _ (v ^ N.to_nat e) Hp Vh Ht Fp Fh Hq Gp G1 Hp0 G2).
    + intros d. rewrite He. apply (PV (S (N.to_nat (e - 1)))).
    + eapply Rle_lt_trans; [|exact HB]. apply Rmult_le_compat_r; [apply pow_le; lra|]. apply Rle_pow; [pose proof (@uro_pos f); lra|].
      assert (Np : strip O p <> []) by (apply Z0; lia). pose proof (strip_slen chk f powi p) as Sp.
      assert (Lp : (1 <= length (strip O p))%nat) by (destruct (strip O p); [congruence|cbn; lia]).
      pose proof (roundings_succ (length p) (N.to_nat (e - 1)) ltac:(lia)) as R1. replace (length p =? 0)%nat with false in R1 by lia. rewrite He.
      change (flt f) with (binary_float (fprec f) (femax f)) in *. lia.
Qed.
End Finite.

(** If the power of the sum of the absolute coefficients, or of 1 if that is larger, leaves room for the roundings below
    the overflow threshold, the power has finite coefficients. *)
Theorem C102_finite : forall chk f powi fuel (p r : list (flt f)) (e : N) (q : Z) (s v : R), let O := float_num chk f powi in
  vec_ok O p -> dense_pow O fuel p e = Ok r -> (forall d, is_finite (vcoef p d) = true) ->
  grid q p -> (SpecFloat.emin (fprec f) (femax f) <= Z.of_N e * q)%Z ->
  is_value (rpoly_abs p) 1 s -> s <= v -> 1 <= v ->
  (1 + uro f) ^ (pow_roundings (length p) (N.to_nat e) + 1) * v ^ N.to_nat e < bpow radix2 (femax f) ->
  forall d, is_finite (vcoef r d) = true.
Proof.
  intros chk f powi fuel p r e q s v O Hp H Fp Gp Hq Hs Hv H1 HB.
  apply (pow_fin chk f powi fuel p e r q s v Hp H Fp Gp Hq); try assumption.
  eapply is_value_ext; [|exact Hs]. intros d. symmetry. apply (rpoly_abs_dcoef p).
Qed.

(** The conditions for (0.1x + 1)^5 in f32; C102_case has the result. *)
Example C102_finite_case : let t := fdiv (f_of_Z F32 1) (f_of_Z F32 10) in let p := [t; f_of_Z F32 1] in
  exists s, is_value (rpoly_abs p) 1 s /\ s <= 2 /\ (forall d, is_finite (vcoef p d) = true) /\
  (1 + uro F32) ^ (pow_roundings (length p) 5 + 1) * 2 ^ 5 < bpow radix2 (femax F32).
Proof.
  intros t p. assert (St : B2SF t = SpecFloat.S754_finite false 13421773 (-27)) by (vm_compute; reflexivity).
  assert (S1 : B2R (f_of_Z F32 1) = 1 /\ is_finite (f_of_Z F32 1) = true) by (apply (f_of_Z_small F32 1%Z); vm_compute; discriminate).
  assert (Bt : 0 <= B2R t <= 1).
  { rewrite <- SF2R_B2SF, St. unfold SF2R, F2R. cbn [cond_Zopp Fnum Fexp]. change (bpow radix2 (-27)) with (/ 134217728). lra. }
  exists (1 + B2R t). split; [|split; [lra|split]].
  - exists 2%nat. split.
    + intros i Hi. unfold rpoly_abs, vcoef. rewrite nth_overflow by (cbn; lia). apply Rabs_R0.
    + cbn [sumn rpow radd rmul r0 r1 R_ring]. change (rpoly_abs p 0%nat) with (Rabs (B2R (f_of_Z F32 1))). change (rpoly_abs p 1%nat) with (Rabs (B2R t)).
      destruct S1 as [-> _]. rewrite Rabs_R1, (Rabs_pos_eq (B2R t)) by lra. generalize (B2R t). intros b. cbn. ring.
  - intros [|[|d]]; [apply S1| |destruct d; reflexivity]. change (is_finite t = true). rewrite <- is_finite_SF_B2SF, St. reflexivity.
  - change (pow_roundings (length p) 5 + 1)%nat with 15%nat. pose proof (@uro_small F32) as U. pose proof (@uro_pos F32) as U0.
    assert (P : (1 + uro F32) ^ 15 <= 2 ^ 15) by (apply pow_incr; lra).
    assert (Big : bpow radix2 30 <= bpow radix2 (femax F32)) by (apply bpow_le; vm_compute; discriminate).
    change (bpow radix2 30) with (IZR (2 ^ 30)) in Big. assert (E : IZR (2 ^ 30) = 1073741824) by reflexivity. lra.
Qed.

Print Assumptions C102_finite.
