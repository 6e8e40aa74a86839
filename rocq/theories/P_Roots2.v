(** Property C41: roots of quadratics over the integer types. *)

From Coq Require Import List NArith ZArith Lia Bool.
From Coq Require Import ZifyBool ZifyNat ZifyN.
From Verif Require Import Base Num Laws Terms Numerics NumericsFacts P_Num Trino Roots.
Import ListNotations.
Local Open Scope Z_scope.
#[local] Ltac Zify.zify_convert_to_euclidean_division_equations_flag ::= constr:(false).

(** AbsSqrt and From<u8> of the signed types of at least 16 bits (i8 has no From<u8>); there
    is no Cbrt. *)
Definition int_rops (chk : bool) (t : ity) (fuel : nat) : rops (int t) := {|
  abs_sqrt := abs_sqrt_int chk t fuel;
  cbrt := fun _ => Panic PUnreachable;
  of_u8 := fun n => mk_int t (Z.of_N n);
  round := fun a => a;
  lt := fun a b => ival a <? ival b
|}.

(** No intermediate result leaves the range of the type. *)
Definition no_overflow (t : ity) (a b c : Z) : Prop :=
  in_range t (b * b) = true /\ in_range t (a * c) = true /\ in_range t (a * c * 4) = true /\
  in_range t (b * b - a * c * 4) = true /\ in_range t (a * 2) = true /\ in_range t (- b) = true.

Lemma wide_types t : signed t = true -> t <> I8 -> 32767 <= imax t /\ imax t = - imin t - 1.
Proof. intros H1 H2. destruct t; try discriminate H1; try contradiction; vm_compute; split; try reflexivity; discriminate. Qed.

Lemma floor_sqrt_unique n r : floor_sqrt n r -> forall k, 0 <= k -> n = k * k -> r = k.
Proof. intros (H0 & H1 & H2) k Hk ->. pose proof (H2 k ltac:(lia)). nia. Qed.

Lemma quot2_bound n : (0 <= n -> n - 1 <= 2 * Z.quot n 2 <= n) /\ (n <= 0 -> n <= 2 * Z.quot n 2 <= n + 1).
Proof. split; intros H; Z.to_euclidean_division_equations; lia. Qed.

Lemma quot_bound lo hi z d : 32767 <= hi -> hi = - lo - 1 -> d <> 0 -> lo < z -> z <= hi ->
  lo <= Z.quot z d <= hi.
Proof.
  intros H1 H2 H3 H4 H5. pose proof (Z.quot_abs z d H3) as E.
  assert (Z.quot (Z.abs z) (Z.abs d) <= Z.abs z) by (apply Z.quot_le_upper_bound; nia).
  lia.
Qed.

(** The computation without overflow. *)
Lemma trinomial_roots_int chk t fuel (a b c : int t) : signed t = true -> t <> I8 -> (67 <= fuel)%nat ->
  no_overflow t (ival a) (ival b) (ival c) -> ival a <> 0 -> 0 <= ival b * ival b - 4 * ival a * ival c ->
  forall k, 0 <= k -> ival b * ival b - 4 * ival a * ival c = k * k ->
  let m := Z.quot (- ival b) (2 * ival a) in let h := Z.quot k (2 * ival a) in
  in_range t (m + h) = true -> in_range t (m - h) = true ->
  exists x y, trinomial_roots (int_num chk t) (int_rops chk t fuel) a b c = Ok (TwoRealRoots x y) /\
    ival x = m + h /\ ival y = m - h.
Proof.
  intros Ht H8 Hfu (R1 & R2 & R3 & R4 & R5 & R6) Ha HD k Hk Hkk m h Rp Rm.
  destruct (wide_types t Ht H8) as [W1 W2]. pose proof (imin_max t) as (I1 & I2 & I3 & _).
  unfold trinomial_roots, discriminant_trinomial. cbn -[mk_int arith idiv abs_sqrt_int Z.mul].
  assert (S4 : ival (mk_int t 4) = 4) by (clear -W1 W2 I1 I2 I3; apply ival_mk_int, in_range_iff; lia).
  assert (S2 : ival (mk_int t 2) = 2) by (clear -W1 W2 I1 I2 I3; apply ival_mk_int, in_range_iff; lia).
  rewrite (arith_in_range chk t _ R1). cbn [bind]. rewrite (arith_in_range chk t _ R2). cbn [bind].
  rewrite (ival_mk_int t _ R2), S4. rewrite (arith_in_range chk t _ R3). cbn [bind].
  rewrite (ival_mk_int t _ R1), (ival_mk_int t _ R3). rewrite (arith_in_range chk t _ R4). cbn [bind].
  rewrite S2, (arith_in_range chk t _ R5). cbn [bind]. rewrite (arith_in_range chk t _ R6). cbn [bind].
  set (D := ival b * ival b - ival a * ival c * 4) in *.
  assert (DK : D = k * k) by (unfold D; clear -Hkk; lia).
  assert (Q : forall z, in_range t z = true -> in_range t (Z.quot z (2 * ival a)) = true ->
    idiv t (mk_int t z) (mk_int t (ival a * 2)) = Ok (mk_int t (Z.quot z (2 * ival a)))).
  { intros z Hz Hq. unfold idiv. rewrite (ival_mk_int t _ R5), (ival_mk_int t _ Hz).
    destruct (Z.eqb_spec (ival a * 2) 0) as [e|e]; [exfalso; clear -Ha e; lia|]. rewrite (Z.mul_comm (ival a) 2), Hq. reflexivity. }
  assert (QB : forall z, in_range t z = true -> imin t < z -> in_range t (Z.quot z (2 * ival a)) = true).
  { clear -Ha W1 W2. intros z Hz Hne. apply in_range_iff in Hz. apply in_range_iff.
    apply quot_bound; [exact W1|exact W2|clear -Ha; lia|exact Hne|apply Hz]. }
  assert (R6' : imin t < - ival b) by (pose proof (ival_ok b) as Rb; apply in_range_iff in Rb; clear -Rb W2; lia).
  rewrite (Q _ R6 (QB _ R6 R6')). cbn [bind]. fold m.
  assert (Rm' : in_range t m = true) by apply (QB _ R6 R6').
  rewrite (ival_mk_int t _ R4).
  destruct (Z.eqb_spec D 0) as [E0|E0].
  - assert (k0 : k = 0) by (clear -DK E0; nia). assert (h = 0) by (unfold h; rewrite k0; apply Z.quot_0_l; clear -Ha; lia).
    eexists _, _. split; [reflexivity|]. rewrite (ival_mk_int t _ Rm'). split; clear -H; lia.
  - destruct (C47_signed chk t Ht (mk_int t D) fuel Hfu) as (r & Hr & Fr).
    { right. rewrite (ival_mk_int t _ R4). clear -DK I1 I2 I3 W1 W2. nia. }
    rewrite Hr. cbn [bind]. rewrite (ival_mk_int t _ R4) in Fr.
    assert (Er : ival r = k) by (eapply floor_sqrt_unique; [exact Fr|exact Hk|rewrite DK; apply Z.abs_square + (clear; nia)]).
    assert (r = mk_int t k) as -> by (rewrite <- Er; symmetry; apply mk_int_ival).
    assert (Rk : in_range t k = true) by (rewrite <- Er; apply ival_ok).
    assert (Rh : in_range t h = true) by (apply QB; [exact Rk|clear -Hk W1 W2; lia]).
    rewrite (Q _ Rk Rh). cbn [bind]. destruct (Z.ltb_spec 0 D) as [?|e]; [|exfalso; clear -DK E0 e; nia].
    fold h. rewrite (ival_mk_int t _ Rm'), (ival_mk_int t _ Rh), (arith_in_range chk t _ Rp), (arith_in_range chk t _ Rm). cbn [bind].
    eexists _, _. split; [reflexivity|]. rewrite (ival_mk_int t _ Rp), (ival_mk_int t _ Rm). split; reflexivity.
Qed.

(** Two integer roots whose sum is even (equivalently 2a divides b), nothing overflowing:
    both are returned. *)
Theorem C41_even_sum_partial : forall chk t fuel (a b c : int t) r s, signed t = true -> t <> I8 -> (67 <= fuel)%nat ->
  no_overflow t (ival a) (ival b) (ival c) -> ival a <> 0 ->
  ival b = - (ival a * (r + s)) -> ival c = ival a * (r * s) ->
  in_range t r = true -> in_range t s = true -> Z.even (r + s) = true ->
  exists x y, trino_roots (int_num chk t) (int_rops chk t fuel) (MkTrino a b c) = Ok (TwoRealRoots x y) /\
    ((ival x = r /\ ival y = s) \/ (ival x = s /\ ival y = r)).
Proof.
  intros chk t fuel a b c r s Ht H8 Hfu HO Ha Hb Hc Rr Rs He.
  unfold trino_roots. cbn [tc0 tc1 tc2].
  assert (K : ival b * ival b - 4 * ival a * ival c = (Z.abs (ival a) * Z.abs (r - s)) * (Z.abs (ival a) * Z.abs (r - s))).
  { rewrite Hb, Hc. replace (Z.abs (ival a) * Z.abs (r - s) * (Z.abs (ival a) * Z.abs (r - s)))
      with ((Z.abs (ival a) * Z.abs (ival a)) * (Z.abs (r - s) * Z.abs (r - s))) by ring.
    rewrite !Z.abs_square. ring. }
  apply Z.even_spec in He. destruct He as [u Hu].
  assert (M : Z.quot (- ival b) (2 * ival a) = u).
  { rewrite Hb, Hu. replace (- - (ival a * (2 * u))) with (u * (2 * ival a)) by ring. apply Z.quot_mul. lia. }
  assert (Hd : r - s = 2 * (r - u)) by lia.
  assert (Hh : Z.quot (Z.abs (ival a) * Z.abs (r - s)) (2 * ival a) = Z.sgn (ival a) * Z.abs (r - u)).
  { rewrite Hd, Z.abs_mul. change (Z.abs 2) with 2.
    replace (Z.abs (ival a) * (2 * Z.abs (r - u))) with (Z.sgn (ival a) * Z.abs (r - u) * (2 * ival a))
      by (rewrite <- (Z.sgn_abs (ival a)); ring).
    apply Z.quot_mul. lia. }
  assert (C : (u + Z.sgn (ival a) * Z.abs (r - u) = r /\ u - Z.sgn (ival a) * Z.abs (r - u) = s) \/
              (u + Z.sgn (ival a) * Z.abs (r - u) = s /\ u - Z.sgn (ival a) * Z.abs (r - u) = r)).
  { destruct (Z.sgn_spec (ival a)) as [[? E]|[[? E]|[? E]]]; [|lia|]; rewrite E; lia. }
  pose proof (trinomial_roots_int chk t fuel a b c Ht H8 Hfu HO Ha) as X. cbv zeta in X.
  specialize (X ltac:(rewrite K; apply Z.square_nonneg) _ (Z.mul_nonneg_nonneg _ _ (Z.abs_nonneg _) (Z.abs_nonneg _)) K). rewrite M, Hh in X.
  destruct X as (x & y & E & Ex & Ey).
  - destruct C as [[-> _]|[-> _]]; assumption.
  - destruct C as [[_ ->]|[_ ->]]; assumption.
  - exists x, y. split; [exact E|]. rewrite Ex, Ey. destruct C as [[-> ->]|[-> ->]]; auto.
Qed.

(** ... and when the sum is odd the answer is never right: the two returned values have an
    even sum. *)
Theorem C41_odd_sum_wrong : forall chk t fuel (a b c : int t) r s, signed t = true -> t <> I8 -> (67 <= fuel)%nat ->
  no_overflow t (ival a) (ival b) (ival c) -> ival a <> 0 ->
  ival b = - (ival a * (r + s)) -> ival c = ival a * (r * s) ->
  in_range t r = true -> in_range t s = true -> Z.odd (r + s) = true ->
  exists x y, trino_roots (int_num chk t) (int_rops chk t fuel) (MkTrino a b c) = Ok (TwoRealRoots x y) /\
    ival x + ival y <> r + s.
Proof.
  intros chk t fuel a b c r s Ht H8 Hfu HO Ha Hb Hc Rr Rs He.
  unfold trino_roots. cbn [tc0 tc1 tc2].
  assert (K : ival b * ival b - 4 * ival a * ival c = (Z.abs (ival a) * Z.abs (r - s)) * (Z.abs (ival a) * Z.abs (r - s))).
  { rewrite Hb, Hc. replace (Z.abs (ival a) * Z.abs (r - s) * (Z.abs (ival a) * Z.abs (r - s)))
      with ((Z.abs (ival a) * Z.abs (ival a)) * (Z.abs (r - s) * Z.abs (r - s))) by ring.
    rewrite !Z.abs_square. ring. }
  assert (M : Z.quot (- ival b) (2 * ival a) = Z.quot (r + s) 2).
  { rewrite Hb. replace (- - (ival a * (r + s))) with ((r + s) * ival a) by ring. apply Z.quot_mul_cancel_r; lia. }
  assert (Hh : Z.quot (Z.abs (ival a) * Z.abs (r - s)) (2 * ival a) = Z.sgn (ival a) * Z.quot (Z.abs (r - s)) 2).
  { rewrite <- (Z.sgn_abs (ival a)). replace (ival a * Z.sgn (ival a) * Z.abs (r - s)) with ((Z.sgn (ival a) * Z.abs (r - s)) * ival a) by ring.
    rewrite Z.quot_mul_cancel_r by lia.
    destruct (Z.sgn_spec (ival a)) as [[? E]|[[? E]|[? E]]]; [|lia|]; rewrite E.
    - rewrite !Z.mul_1_l. reflexivity.
    - replace (-1 * Z.abs (r - s)) with (- Z.abs (r - s)) by ring. rewrite Z.quot_opp_l by lia. ring. }
  apply Z.odd_spec in He. destruct He as [u Hu].
  pose proof (trinomial_roots_int chk t fuel a b c Ht H8 Hfu HO Ha) as X. cbv zeta in X.
  specialize (X ltac:(rewrite K; apply Z.square_nonneg) _ (Z.mul_nonneg_nonneg _ _ (Z.abs_nonneg _) (Z.abs_nonneg _)) K). rewrite M, Hh in X.
  apply in_range_iff in Rr, Rs.
  set (m := Z.quot (r + s) 2) in *. set (h := Z.quot (Z.abs (r - s)) 2) in *.
  destruct (quot2_bound (r + s)) as [Hm0 Hm1]. destruct (quot2_bound (Z.abs (r - s))) as [Hh0 _].
  fold m in Hm0, Hm1. fold h in Hh0. clearbody m h. clear K M Hh HO Hb Hc.
  assert (Hh2 : 2 * h = Z.abs (r - s) - 1) by lia.
  pose proof (imin_max t) as (_ & _ & I3 & _).
  assert (Hb1 : imin t <= m + h <= imax t) by lia.
  assert (Hb2 : imin t <= m - h <= imax t) by lia.
  destruct X as (x & y & E & Ex & Ey).
  - apply in_range_iff. destruct (Z.sgn_spec (ival a)) as [[? S]|[[? S]|[? S]]]; [|lia|]; rewrite S; lia.
  - apply in_range_iff. destruct (Z.sgn_spec (ival a)) as [[? S]|[[? S]|[? S]]]; [|lia|]; rewrite S; lia.
  - exists x, y. split; [exact E|]. lia.
Qed.

(** x^2 + x - 6 has roots 2 and -3; the answer is 2 and -2. *)
Theorem C41_refuted : forall chk fuel, (67 <= fuel)%nat ->
  exists (t : trino (int I32)) x y, ival (tc0 t) * 2 * 2 + ival (tc1 t) * 2 + ival (tc2 t) = 0 /\
    ival (tc0 t) * (-3) * (-3) + ival (tc1 t) * (-3) + ival (tc2 t) = 0 /\
    trino_roots (int_num chk I32) (int_rops chk I32 fuel) t = Ok (TwoRealRoots x y) /\ ival x = 2 /\ ival y = -2.
Proof.
  intros chk fuel Hf. exists (MkTrino (mk_int I32 1) (mk_int I32 1) (mk_int I32 (-6))).
  pose proof (trinomial_roots_int chk I32 fuel (mk_int I32 1) (mk_int I32 1) (mk_int I32 (-6)) eq_refl ltac:(discriminate) Hf) as X.
  destruct (X ltac:(vm_compute; repeat split; reflexivity) ltac:(vm_compute; discriminate) ltac:(vm_compute; discriminate)
    5 ltac:(discriminate) ltac:(vm_compute; reflexivity) ltac:(vm_compute; reflexivity) ltac:(vm_compute; reflexivity))
    as (x & y & E & Ex & Ey).
  exists x, y. split; [reflexivity|]. split; [reflexivity|]. split; [exact E|]. rewrite Ex, Ey. split; reflexivity.
Qed.

(** A zero leading coefficient panics (unless the computation of the discriminant overflowed
    first). *)
Theorem C41_zero_leading_panics : forall chk t fuel (b c : int t), signed t = true -> t <> I8 ->
  no_overflow t 0 (ival b) (ival c) ->
  trino_roots (int_num chk t) (int_rops chk t fuel) (MkTrino (mk_int t 0) b c) = Panic PDivZero.
Proof.
  intros chk t fuel b c Ht H8 (R1 & R2 & R3 & R4 & R5 & R6).
  destruct (wide_types t Ht H8) as [W1 W2]. pose proof (imin_max t) as (I1 & I2 & I3 & _).
  unfold trino_roots, trinomial_roots, discriminant_trinomial. cbn [tc0 tc1 tc2].
  assert (S0 : ival (mk_int t 0) = 0) by (clear -W1 W2 I1 I2 I3; apply ival_mk_int, in_range_iff; lia).
  assert (S4 : ival (mk_int t 4) = 4) by (clear -W1 W2 I1 I2 I3; apply ival_mk_int, in_range_iff; lia).
  cbn -[mk_int arith idiv abs_sqrt_int Z.mul].
  rewrite (arith_in_range chk t _ R1). cbn [bind]. rewrite S0, (arith_in_range chk t _ R2). cbn [bind].
  rewrite (ival_mk_int t _ R2), S4, (arith_in_range chk t _ R3). cbn [bind].
  rewrite (ival_mk_int t _ R1), (ival_mk_int t _ R3), (arith_in_range chk t _ R4). cbn [bind].
  assert (Rz : in_range t (0 * ival (mk_int t 2)) = true) by (apply in_range_iff; lia).
  rewrite (arith_in_range chk t _ Rz). cbn [bind]. rewrite (arith_in_range chk t _ R6). cbn [bind].
  unfold idiv. rewrite (ival_mk_int t _ Rz). reflexivity.
Qed.

(** -2x^2 + 12x - 10: roots 5 and 1, sum even. *)
Example C41_even_sum_case :
  exists x y, trino_roots (int_num true I32) (int_rops true I32 67) (MkTrino (mk_int I32 (-2)) (mk_int I32 12) (mk_int I32 (-10)))
    = Ok (TwoRealRoots x y) /\ ival x = 1 /\ ival y = 5.
Proof. eexists _, _. vm_compute. repeat split; reflexivity. Qed.

Print Assumptions C41_even_sum_partial.
Print Assumptions C41_odd_sum_wrong.
Print Assumptions C41_refuted.
Print Assumptions C41_zero_leading_panics.
