(** Property C104: integer coefficients obey the limits of their type. *)

From Coq Require Import List NArith ZArith Lia Bool Arith.
From Coq Require Import ZifyBool ZifyNat ZifyN.
From Verif Require Import Base Num Spec Laws Terms Dense Mono.
Import ListNotations.
Local Open Scope Z_scope.

(** ** Specification *)

(** The limits of Rust's integer types on a 64-bit target, written out. *)
Definition lo (t : ity) : Z :=
  match t with
  | I8 => -128 | I16 => -32768 | I32 => -2147483648 | I64 | Isize => -9223372036854775808
  | I128 => -170141183460469231731687303715884105728
  | U8 | U16 | U32 | U64 | U128 | Usize => 0
  end.
Definition hi (t : ity) : Z :=
  match t with
  | I8 => 127 | I16 => 32767 | I32 => 2147483647 | I64 | Isize => 9223372036854775807
  | I128 => 170141183460469231731687303715884105727
  | U8 => 255 | U16 => 65535 | U32 => 4294967295 | U64 | Usize => 18446744073709551615
  | U128 => 340282366920938463463374607431768211455
  end.

(** What an operation whose exact result is [z] does: return [z] if it fits; otherwise panic in a
    debug build, and in a release build return the number that fits and differs from [z] by a multiple of
    the number of values of the type. *)
Definition int_result (chk : bool) (t : ity) (z : Z) (r : res (int t)) : Prop :=
  if (lo t <=? z) && (z <=? hi t) then exists v, r = Ok v /\ ival v = z
  else if chk then r = Panic POverflow
  else exists v k, r = Ok v /\ lo t <= ival v <= hi t /\ ival v = z + k * (hi t - lo t + 1).

(** [q] is [a / b] rounded toward zero. *)
Definition truncated (a b q : Z) : Prop := exists r, a = b * q + r /\ Z.abs r < Z.abs b /\ 0 <= r * a.

(** ** Lemmas *)
Lemma imin_lo t : imin t = lo t.
Proof. destruct t; reflexivity. Qed.
Lemma imax_hi t : imax t = hi t.
Proof. destruct t; reflexivity. Qed.
Lemma imod_all t : imod t = hi t - lo t + 1.
Proof. destruct t; reflexivity. Qed.
Lemma in_range_lim t z : in_range t z = (lo t <=? z) && (z <=? hi t).
Proof. unfold in_range. rewrite imin_lo, imax_hi. reflexivity. Qed.
Lemma lim_facts t : lo t <= 0 /\ 1 <= hi t /\ (signed t = true -> lo t = - hi t - 1) /\ (signed t = false -> lo t = 0).
Proof. destruct t; cbn; repeat split; try lia; discriminate. Qed.

Lemma arith_result chk t z : int_result chk t z (arith chk t z).
Proof.
  unfold int_result, arith. rewrite in_range_lim. destruct ((lo t <=? z) && (z <=? hi t)) eqn:E.
  - exists (mk_int t z). split; [reflexivity|]. apply ival_mk_int. rewrite in_range_lim. exact E.
  - destruct chk; [reflexivity|]. pose proof (ival_ok (mk_int t z)) as K. rewrite in_range_lim in K.
    exists (mk_int t z), (- ((z - imin t) / imod t)). split; [reflexivity|]. split; [lia|].
    cbn [ival mk_int]. unfold wrap. rewrite <- imod_all. destruct (imin_max t) as (_ & H & _).
    pose proof (Z.div_mod (z - imin t) (imod t) ltac:(lia)) as D. lia.
Qed.

(** The release result is determined by its residue. *)
Lemma release_unique t z (v : int t) k : ival v = z + k * (hi t - lo t + 1) -> int_result false t z (Ok v).
Proof.
  intros H. pose proof (ival_ok v) as K. rewrite in_range_lim in K. unfold int_result.
  destruct ((lo t <=? z) && (z <=? hi t)) eqn:E; [|exists v, k; repeat split; try lia; exact H].
  exists v. split; [reflexivity|]. assert (k = 0) by nia. lia.
Qed.
Lemma arith_false t z : exists v k, arith false t z = Ok v /\ ival v = z + k * (hi t - lo t + 1).
Proof.
  pose proof (arith_result false t z) as H. unfold int_result in H. destruct (_ && _).
  - destruct H as (v & H1 & H2). exists v, 0. split; [exact H1|lia].
  - destruct H as (v & k & H1 & H2 & H3). exists v, k. auto.
Qed.

Lemma arith_true t z v : arith true t z = Ok v -> ival v = z.
Proof.
  unfold arith. destruct (in_range t z) eqn:E; [|discriminate]. intros H. apply Ok_inj in H. subst v. apply ival_mk_int, E.
Qed.
Lemma arith_true_ok t z : lo t <= z <= hi t -> exists v, arith true t z = Ok v /\ ival v = z.
Proof.
  intros H. pose proof (arith_result true t z) as R. unfold int_result in R. replace ((lo t <=? z) && (z <=? hi t)) with true in R by lia. exact R.
Qed.
Lemma arith_true_panic t z : ~ (lo t <= z <= hi t) -> arith true t z = Panic POverflow.
Proof. intros H. unfold arith. rewrite in_range_lim. replace ((lo t <=? z) && (z <=? hi t)) with false by lia. reflexivity. Qed.

Lemma ipow_loop_exact t e : forall base acc,
  match ipow_loop true t e base acc with Ok v => ival v = ival acc * ival base ^ Z.pos e | Panic k => k = POverflow | Fuel => False end.
Proof.
  assert (A : forall z, match arith true t z with Ok v => ival v = z | Panic k => k = POverflow | Fuel => False end).
  { intros z. destruct (arith true t z) as [v|k|] eqn:E; [apply arith_true, E| |]; unfold arith in E; destruct (in_range t z); congruence. }
  induction e as [e IH|e IH|]; intros base acc; cbn [ipow_loop].
  - pose proof (A (ival acc * ival base)) as A1. destruct (arith true t (ival acc * ival base)) as [a2|k|]; cbn [bind]; [|exact A1|exact A1].
    pose proof (A (ival base * ival base)) as A2. destruct (arith true t (ival base * ival base)) as [b2|k|]; cbn [bind]; [|exact A2|exact A2].
    specialize (IH b2 a2). destruct (ipow_loop true t e b2 a2) as [v|k|]; [|exact IH|exact IH]. rewrite IH, A1, A2.
    replace (Z.pos e~1) with (1 + 2 * Z.pos e) by lia. rewrite Z.pow_add_r, Z.pow_mul_r, Z.pow_1_r, Z.pow_2_r by lia. ring.
  - pose proof (A (ival base * ival base)) as A2. destruct (arith true t (ival base * ival base)) as [b2|k|]; cbn [bind]; [|exact A2|exact A2].
    specialize (IH b2 acc). destruct (ipow_loop true t e b2 acc) as [v|k|]; [|exact IH|exact IH]. rewrite IH, A2.
    replace (Z.pos e~0) with (2 * Z.pos e) by lia. rewrite Z.pow_mul_r, Z.pow_2_r by lia. reflexivity.
  - pose proof (A (ival acc * ival base)) as A1. destruct (arith true t (ival acc * ival base)) as [a2|k|]; [|exact A1|exact A1]. rewrite A1, Z.pow_1_r. reflexivity.
Qed.

Lemma pow_ge b e : 2 <= Z.abs b -> Z.abs b <= Z.abs (b ^ Z.pos e).
Proof.
  intros H. rewrite Z.abs_pow. rewrite <- (Z.pow_1_r (Z.abs b)) at 1. apply Z.pow_le_mono_r; lia.
Qed.

Lemma abs_sq b : 2 <= Z.abs b -> 4 <= Z.abs (b * b).
Proof. intros H. rewrite Z.abs_mul. nia. Qed.
Lemma abs_prod a b : a = 1 \/ 2 <= Z.abs a -> 2 <= Z.abs b -> 2 <= Z.abs (a * b).
Proof. intros [->|H] Hb; [rewrite Z.mul_1_l; exact Hb|]. rewrite Z.abs_mul. nia. Qed.
Lemma step_l A W H : 0 <= A -> 4 <= W -> A * W <= H -> 4 * A <= H.
Proof. nia. Qed.
Lemma step_r A B W H : 2 <= A -> 0 <= B -> B <= W -> A * W <= H -> 2 * B <= H.
Proof. nia. Qed.

(** No intermediate product is too large if the power fits. *)
Lemma ipow_loop_fits t e : forall base acc, 2 <= Z.abs (ival base) -> (ival acc = 1 \/ 2 <= Z.abs (ival acc)) ->
  lo t <= ival acc * ival base ^ Z.pos e <= hi t -> exists v, ipow_loop true t e base acc = Ok v.
Proof.
  destruct (lim_facts t) as (L0 & L1 & Ls & Lu).
  assert (S : forall x : int t, signed t = false -> 0 <= ival x).
  { intros x Hx. pose proof (ival_ok x) as K. rewrite in_range_lim in K. rewrite (Lu Hx) in K. lia. }
  assert (M : forall z, lo t <= z <= hi t -> Z.abs z <= hi t + 1) by (intros z; destruct (signed t); [rewrite (Ls eq_refl)|rewrite (Lu eq_refl)]; lia).
  induction e as [e IH|e IH|]; intros base acc Hb Ha Hz; cbn [ipow_loop].
  - assert (E : ival acc * ival base ^ Z.pos e~1 = (ival acc * ival base) * (ival base * ival base) ^ Z.pos e).
    { replace (Z.pos e~1) with (1 + 2 * Z.pos e) by lia. rewrite Z.pow_add_r, Z.pow_mul_r, Z.pow_1_r, Z.pow_2_r by lia. ring. }
    rewrite E in Hz. pose proof (M _ Hz) as Hm. rewrite Z.abs_mul in Hm.
    pose proof (abs_sq _ Hb) as Hb2.
    pose proof (abs_prod _ _ Ha Hb) as Ha2.
    pose proof (pow_ge (ival base * ival base) e ltac:(lia)) as P.
    set (W := Z.abs ((ival base * ival base) ^ Z.pos e)) in *.
    destruct (arith_true_ok t (ival acc * ival base)) as (a2 & Ra & Va).
    { assert (Q : 4 * Z.abs (ival acc * ival base) <= hi t + 1) by (apply (step_l _ W); [apply Z.abs_nonneg|lia|exact Hm]). destruct (signed t) eqn:Sg; [rewrite (Ls eq_refl); lia|].
      pose proof (Z.mul_nonneg_nonneg _ _ (S acc eq_refl) (S base eq_refl)). rewrite (Lu eq_refl). lia. }
    destruct (arith_true_ok t (ival base * ival base)) as (b2 & Rb & Vb).
    { assert (2 * Z.abs (ival base * ival base) <= hi t + 1) by (apply (step_r (Z.abs (ival acc * ival base)) _ W); [exact Ha2|apply Z.abs_nonneg|exact P|exact Hm]).
      pose proof (Z.square_nonneg (ival base)). lia. }
    rewrite Ra. cbn [bind]. rewrite Rb. cbn [bind]. apply IH; rewrite ?Va, ?Vb; [lia|right; exact Ha2|exact Hz].
  - assert (E : ival acc * ival base ^ Z.pos e~0 = ival acc * (ival base * ival base) ^ Z.pos e).
    { replace (Z.pos e~0) with (2 * Z.pos e) by lia. rewrite Z.pow_mul_r, Z.pow_2_r by lia. reflexivity. }
    rewrite E in Hz. pose proof (abs_sq _ Hb) as Hb2.
    destruct (arith_true_ok t (ival base * ival base)) as (b2 & Rb & Vb).
    { pose proof (M _ Hz) as Hm. rewrite Z.abs_mul in Hm. pose proof (pow_ge (ival base * ival base) e ltac:(lia)) as P.
      pose proof (Z.square_nonneg (ival base)) as Q. split; [lia|]. destruct Ha as [Ha|Ha].
      - rewrite Ha, Z.mul_1_l in Hz. pose proof (Z.pow_nonneg (ival base * ival base) (Z.pos e) Q). lia.
      - assert (2 * Z.abs (ival base * ival base) <= hi t + 1) by (eapply step_r; [exact Ha|apply Z.abs_nonneg|exact P|exact Hm]). lia. }
    rewrite Rb. cbn [bind]. apply IH; rewrite ?Vb; [lia|exact Ha|exact Hz].
  - rewrite Z.pow_1_r in Hz. destruct (arith_true_ok t _ Hz) as (v & H & _). exists v. exact H.
Qed.
Lemma ipow_loop_small t e : forall base acc, Z.abs (ival base) <= 1 -> Z.abs (ival acc) <= 1 -> exists v, ipow_loop true t e base acc = Ok v.
Proof.
  destruct (lim_facts t) as (L0 & L1 & Ls & Lu).
  assert (A : forall x y : int t, Z.abs (ival x) <= 1 -> Z.abs (ival y) <= 1 -> exists v, arith true t (ival x * ival y) = Ok v /\ Z.abs (ival v) <= 1).
  { intros x y Hx Hy. destruct (arith_true_ok t (ival x * ival y)) as (v & R & V).
    - pose proof (ival_ok x) as Kx. pose proof (ival_ok y) as Ky. rewrite in_range_lim in Kx, Ky.
      destruct (signed t); [rewrite (Ls eq_refl) in *|rewrite (Lu eq_refl) in *]; nia.
    - exists v. split; [exact R|]. rewrite V, Z.abs_mul. nia. }
  induction e as [e IH|e IH|]; intros base acc Hb Ha; cbn [ipow_loop].
  - destruct (A acc base Ha Hb) as (a2 & Ra & Va). destruct (A base base Hb Hb) as (b2 & Rb & Vb). rewrite Ra. cbn [bind]. rewrite Rb. cbn [bind]. apply IH; assumption.
  - destruct (A base base Hb Hb) as (b2 & Rb & Vb). rewrite Rb. cbn [bind]. apply IH; assumption.
  - destruct (A acc base Ha Hb) as (v & R & _). exists v. exact R.
Qed.

Lemma ipow_checked t (x : int t) e : ipow true t x e = arith true t (ival x ^ Z.of_N e).
Proof.
  destruct (lim_facts t) as (L0 & L1 & _ & _).
  assert (O1 : ival (mk_int t 1) = 1) by (apply ival_mk_int; rewrite in_range_lim; lia).
  destruct e as [|e]; [cbn [ipow Z.of_N]; rewrite Z.pow_0_r; unfold arith; rewrite in_range_lim; replace ((lo t <=? 1) && (1 <=? hi t)) with true by lia; reflexivity|].
  cbn [ipow Z.of_N]. pose proof (ipow_loop_exact t e x (mk_int t 1)) as X. rewrite O1, Z.mul_1_l in X.
  destruct (Z_le_dec (lo t) (ival x ^ Z.pos e)) as [H1|H1]; [destruct (Z_le_dec (ival x ^ Z.pos e) (hi t)) as [H2|H2]|].
  - assert (G : exists v, ipow_loop true t e x (mk_int t 1) = Ok v).
    { destruct (Z_le_dec 2 (Z.abs (ival x))); [apply ipow_loop_fits; rewrite ?O1; auto; lia|apply ipow_loop_small; rewrite ?O1; lia]. }
    destruct G as [v Hv]. rewrite Hv in *. destruct (arith_true_ok t _ (conj H1 H2)) as (w & Hw & Vw). rewrite Hw. f_equal. apply int_eq. lia.
  - rewrite (arith_true_panic t (ival x ^ Z.pos e)) by lia. destruct (ipow_loop true t e x (mk_int t 1)) as [v|k|]; [|rewrite X; reflexivity|destruct X].
    exfalso. pose proof (ival_ok v) as K. rewrite in_range_lim in K. lia.
  - rewrite (arith_true_panic t (ival x ^ Z.pos e)) by lia. destruct (ipow_loop true t e x (mk_int t 1)) as [v|k|]; [|rewrite X; reflexivity|destruct X].
    exfalso. pose proof (ival_ok v) as K. rewrite in_range_lim in K. lia.
Qed.

Lemma ipow_loop_wrap t e : forall base acc, exists v k, ipow_loop false t e base acc = Ok v /\ ival v = ival acc * ival base ^ Z.pos e + k * (hi t - lo t + 1).
Proof.
  set (m := hi t - lo t + 1).
  assert (PW : forall a k e, exists j, (a + k * m) ^ Z.pos e = a ^ Z.pos e + j * m).
  { intros a k. induction e0 as [|e0 [j Hj]] using Pos.peano_ind; [exists k; rewrite !Z.pow_1_r; reflexivity|].
    exists (j * (a + k * m) + a ^ Z.pos e0 * k). rewrite Pos2Z.inj_succ, !Z.pow_succ_r by lia. rewrite Hj. ring. }
  induction e as [e IH|e IH|]; intros base acc; cbn [ipow_loop].
  - destruct (arith_false t (ival acc * ival base)) as (a2 & i & Ra & Va). destruct (arith_false t (ival base * ival base)) as (b2 & j & Rb & Vb).
    fold m in Va, Vb. rewrite Ra. cbn [bind]. rewrite Rb. cbn [bind]. destruct (IH b2 a2) as (v & k & Hv & V). destruct (PW (ival base * ival base) j e) as [n Hn].
    exists v, (k + i * (ival base * ival base) ^ Z.pos e + (ival acc * ival base + i * m) * n). split; [exact Hv|]. rewrite V, Va, Vb, Hn.
    replace (Z.pos e~1) with (1 + 2 * Z.pos e) by lia. rewrite Z.pow_add_r, Z.pow_mul_r, Z.pow_1_r, Z.pow_2_r by lia. ring.
  - destruct (arith_false t (ival base * ival base)) as (b2 & j & Rb & Vb). fold m in Vb.
    rewrite Rb. cbn [bind]. destruct (IH b2 acc) as (v & k & Hv & V). destruct (PW (ival base * ival base) j e) as [n Hn].
    exists v, (k + ival acc * n). split; [exact Hv|]. rewrite V, Vb, Hn.
    replace (Z.pos e~0) with (2 * Z.pos e) by lia. rewrite Z.pow_mul_r, Z.pow_2_r by lia. ring.
  - destruct (arith_false t (ival acc * ival base)) as (a2 & i & Ra & Va). exists a2, i. split; [exact Ra|]. rewrite Va, Z.pow_1_r. reflexivity.
Qed.

Lemma quot_le a b k : 1 <= k <= Z.abs b -> k * Z.abs (Z.quot a b) <= Z.abs a.
Proof.
  intros H. rewrite <- Z.quot_abs by lia. pose proof (Z.mul_quot_le (Z.abs a) (Z.abs b) (Z.abs_nonneg a) ltac:(lia)).
  pose proof (Z.quot_pos (Z.abs a) (Z.abs b) (Z.abs_nonneg a) ltac:(lia)). nia.
Qed.

(** ** Theorems *)

(** Constant polynomials and monomials: one coefficient per call, so one result per call. *)
Theorem C104_arithmetic : forall chk t (a b : int t) d, let O := int_num chk t in
  (exists r, dense_add_assign O [a] [b] = rmap (fun v => [v]) r /\ int_result chk t (ival a + ival b) r) /\
  (exists r, dense_sub O [a] [b] = rmap (fun v => [v]) r /\ int_result chk t (ival a - ival b) r) /\
  (exists r, dense_scale_assign O [a] b = rmap (fun v => [v]) r /\ int_result chk t (ival a * ival b) r) /\
  (exists r, mono_scale O (MkMono a d) b = rmap (fun v => MkMono v d) r /\ int_result chk t (ival a * ival b) r) /\
  (signed t = true -> exists r, dense_neg O [a] = rmap (fun v => [v]) r /\ int_result chk t (- ival a) r) /\
  (signed t = true <-> lo t < 0).
Proof.
  intros chk t a b d O.
  assert (W : forall {B} (g : int t -> B) z (x : res B), x = rmap g (arith chk t z) -> exists r, x = rmap g r /\ int_result chk t z r).
  { intros B g z x E. exists (arith chk t z). split; [exact E|apply arith_result]. }
  split; [apply (W _ (fun v => [v])); cbn; destruct (arith chk t _); reflexivity|].
  split; [apply (W _ (fun v => [v])); cbn; destruct (arith chk t _); reflexivity|].
  split; [apply (W _ (fun v => [v])); cbn; destruct (arith chk t _); reflexivity|].
  split; [apply (W _ (fun v => MkMono v d)); unfold mono_scale, O; cbn [mul int_num mcoef mdeg]; destruct (arith chk t _); reflexivity|].
  split; [intros _; apply (W _ (fun v => [v])); cbn; destruct (arith chk t _); reflexivity|]. destruct t; cbn; split; intros; try lia; try discriminate; reflexivity.
Qed.

(** Division of a coefficient, in either build profile. *)
Theorem C104_division : forall chk t (a b : int t), let O := int_num chk t in
  (ival b = 0 -> dense_div_scalar_assign O [a] b = Panic PDivZero) /\
  (ival a = lo t /\ ival b = -1 -> dense_div_scalar_assign O [a] b = Panic POverflow) /\
  (ival b <> 0 -> ~ (ival a = lo t /\ ival b = -1) ->
     exists q, dense_div_scalar_assign O [a] b = Ok [q] /\ truncated (ival a) (ival b) (ival q)).
Proof.
  intros chk t a b O. pose proof (ival_ok a) as Ka. pose proof (ival_ok b) as Kb. rewrite in_range_lim in Ka, Kb.
  destruct (lim_facts t) as (L0 & L1 & Ls & Lu).
  unfold dense_div_scalar_assign. cbn [mapM div int_num O]. unfold O. cbn [mapM div int_num]. unfold idiv. split; [|split].
  - intros ->. reflexivity.
  - intros [Ha Hb]. rewrite Ha, Hb. cbn [Z.eqb]. rewrite in_range_lim.
    replace ((lo t <=? Z.quot (lo t) (-1)) && (Z.quot (lo t) (-1) <=? hi t)) with false; [reflexivity|].
    change (-1) with (- (1)). rewrite Z.quot_opp_r, Z.quot_1_r by lia. destruct (signed t); [specialize (Ls eq_refl); lia|specialize (Lu eq_refl); lia].
  - intros Hb Hn. destruct (Z.eqb_spec (ival b) 0); [contradiction|].
    pose proof (Z.quot_rem' (ival a) (ival b)) as D. pose proof (Z.rem_bound_abs (ival a) (ival b) Hb) as B1. pose proof (Z.rem_sign_mul (ival a) (ival b) Hb) as B2.
    assert (R : lo t <= Z.quot (ival a) (ival b) <= hi t).
    { pose proof (quot_le (ival a) (ival b) 1 ltac:(lia)). destruct (signed t) eqn:Sg.
      - specialize (Ls eq_refl). destruct (Z.eq_dec (ival a) (lo t)) as [Ea|Ea]; [|lia].
        assert (ival b <> -1) by tauto. destruct (Z.eq_dec (ival b) 1) as [->|]; [rewrite Z.quot_1_r; lia|].
        pose proof (quot_le (ival a) (ival b) 2 ltac:(lia)). lia.
      - specialize (Lu eq_refl). assert (0 <= Z.quot (ival a) (ival b)) by (apply Z.quot_pos; lia). lia. }
    rewrite in_range_lim. replace ((lo t <=? Z.quot (ival a) (ival b)) && (Z.quot (ival a) (ival b) <=? hi t)) with true by lia.
    cbn [bind]. eexists. split; [reflexivity|]. rewrite ival_mk_int by (rewrite in_range_lim; lia).
    exists (Z.rem (ival a) (ival b)). auto.
Qed.

(** Evaluating a monomial: a debug build panics exactly if the power or the product does not fit, and a release build returns
    the exact value reduced to the type. *)
Theorem C104_power : forall chk t (c x : int t) d, (d < 2 ^ 32)%N -> let r := mono_eval (int_num chk t) (MkMono c d) x in
  if chk && negb ((lo t <=? ival x ^ Z.of_N d) && (ival x ^ Z.of_N d <=? hi t)) then r = Panic POverflow
  else int_result chk t (ival c * ival x ^ Z.of_N d) r.
Proof.
  intros chk t c x d Hd r. unfold r, mono_eval. cbn [mcoef mdeg upow mul int_num]. unfold iupow. rewrite N.mod_small by exact Hd.
  destruct chk; cbn [andb].
  - rewrite ipow_checked. destruct ((lo t <=? ival x ^ Z.of_N d) && (ival x ^ Z.of_N d <=? hi t)) eqn:E; cbn [negb].
    + destruct (arith_true_ok t (ival x ^ Z.of_N d) ltac:(lia)) as (v & Hv & V). rewrite Hv. cbn [bind]. rewrite V. apply arith_result.
    + rewrite arith_true_panic by lia. reflexivity.
  - assert (P : exists v k, ipow false t x d = Ok v /\ ival v = ival x ^ Z.of_N d + k * (hi t - lo t + 1)).
    { assert (O1 : ival (mk_int t 1) = 1) by (destruct (lim_facts t) as (L0 & L1 & _); apply ival_mk_int; rewrite in_range_lim; lia).
      destruct d as [|e]; [exists (mk_int t 1), 0; split; [reflexivity|rewrite O1; reflexivity]|].
      destruct (ipow_loop_wrap t e x (mk_int t 1)) as (v & k & Hv & V). exists v, k. split; [exact Hv|]. rewrite V, O1. cbn [Z.of_N]. lia. }
    destruct P as (v & k & Hv & V). rewrite Hv. cbn [bind]. destruct (arith_false t (ival c * ival v)) as (w & j & Hw & Vw). rewrite Hw.
    apply (release_unique _ _ _ (j + ival c * k)). rewrite Vw, V. ring.
Qed.

(** Differentiating a monomial: the degree must fit the coefficient type, in either build profile, and then the product. *)
Theorem C104_derivative : forall chk t (c : int t) d, t <> Isize -> t <> Usize -> ival c <> 0 -> (1 <= d <= USIZE_MAX)%N ->
  (Z.of_N d <= hi t -> exists r, mono_derivative (int_num chk t) (MkMono c d) = rmap (fun v => MkMono v (d - 1)) r /\ int_result chk t (ival c * Z.of_N d) r) /\
  (hi t < Z.of_N d -> mono_derivative (int_num chk t) (MkMono c d) = Panic PExpect).
Proof.
  intros chk t c d H1 H2 Hc Hd.
  assert (F : of_exact (int_num chk t) d = if (Z.of_N d <=? hi t) then Some (mk_int t (Z.of_N d)) else None).
  { cbn [of_exact int_num]. change USIZE_MAX with 18446744073709551615%N in Hd.
    destruct t; try (exfalso; congruence); unfold iof_usize; rewrite ?imax_hi; cbn [signed bits Z.ltb Z.leb Z.compare Pos.compare Pos.compare_cont hi];
      destruct (Z.leb_spec (Z.of_N d) (hi I8)); cbn [hi] in *;
      repeat match goal with |- context [(?a <? ?b)] => destruct (Z.ltb_spec a b) | |- context [(?a <=? ?b)] => destruct (Z.leb_spec a b) end; try reflexivity; lia. }
  unfold mono_derivative, mono_degree. cbn [mcoef mdeg]. change (is_zero (int_num chk t) c) with (ival c =? 0). destruct (Z.eqb_spec (ival c) 0); [contradiction|].
  destruct d as [|d]; [lia|]. rewrite F. cbn [n_chk int_num]. unfold usub. destruct (N.leb_spec 1 (N.pos d)); [|lia]. split; intros Hh.
  - replace (Z.of_N (N.pos d) <=? hi t) with true by lia. cbn [expect bind mul int_num].
    assert (V : ival (mk_int t (Z.of_N (N.pos d))) = Z.of_N (N.pos d)) by (apply ival_mk_int; rewrite in_range_lim; destruct (lim_facts t); lia).
    rewrite V. exists (arith chk t (ival c * Z.of_N (N.pos d))). split; [destruct (arith chk t _); reflexivity|apply arith_result].
  - replace (Z.of_N (N.pos d) <=? hi t) with false by lia. reflexivity.
Qed.

(** The limits of an isize; (-2)^7 fits an i8 although 2^7 does not; 100 + 100 as i8; -128 / -1; x^128 over i8. *)
Example C104_case : forall chk, let m := mk_int I8 in
  lo Isize = - 2 ^ 63 /\ hi Isize = 2 ^ 63 - 1 /\
  rmap ival (mono_eval (int_num chk I8) (MkMono (m 1) 7) (m (-2))) = Ok (-128) /\
  rmap ival (mono_eval (int_num chk I8) (MkMono (m 1) 7) (m 2)) = (if chk then Panic POverflow else Ok (-128)) /\
  rmap (map ival) (dense_add_assign (int_num chk I8) [m 100] [m 100]) = (if chk then Panic POverflow else Ok [-56]) /\
  rmap (map ival) (dense_div_scalar_assign (int_num chk I8) [m (-7)] (m 2)) = Ok [-3] /\
  rmap (map ival) (dense_div_scalar_assign (int_num chk I8) [m (-128)] (m (-1))) = Panic POverflow /\
  rmap (fun q => (ival (mcoef q), mdeg q)) (mono_derivative (int_num chk I8) (MkMono (m 1) 127)) = Ok (127, 126%N) /\
  rmap (fun q => (ival (mcoef q), mdeg q)) (mono_derivative (int_num chk I8) (MkMono (m 1) 128)) = Panic PExpect.
Proof. intros chk m. subst m. destruct chk; vm_compute; repeat split. Qed.

Print Assumptions C104_arithmetic.
Print Assumptions C104_division.
Print Assumptions C104_power.
Print Assumptions C104_derivative.
