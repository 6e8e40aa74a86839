(** Property C97: factors of integer quadratics. *)

From Coq Require Import List NArith ZArith Lia Bool.
From Coq Require Import ZifyBool ZifyNat ZifyN.
From Verif Require Import Base Num Laws Terms Numerics NumericsFacts P_Num Bino Trino Roots P_Roots2.
Import ListNotations.
Local Open Scope Z_scope.
#[local] Ltac Zify.zify_convert_to_euclidean_division_equations_flag ::= constr:(false).

(** ** Specification *)

(** k (u1 x + v1) (u2 x + v2) = a x^2 + b x + c. *)
Definition expands (k u1 v1 u2 v2 a b c : Z) : Prop :=
  k * (u1 * u2) = a /\ k * (u1 * v2 + v1 * u2) = b /\ k * (v1 * v2) = c.

(** The same for complex factors given by real and imaginary parts. *)
Definition cmul (x y : Z * Z) : Z * Z := (fst x * fst y - snd x * snd y, fst x * snd y + snd x * fst y).
Definition cadd (x y : Z * Z) : Z * Z := (fst x + fst y, snd x + snd y).
Definition cexpands (k : Z) (u1 v1 u2 v2 : Z * Z) (a b c : Z) : Prop :=
  cmul (k, 0) (cmul u1 u2) = (a, 0) /\ cmul (k, 0) (cadd (cmul u1 v2) (cmul v1 u2)) = (b, 0) /\ cmul (k, 0) (cmul v1 v2) = (c, 0).

Definition cval {t} (z : int t * int t) : Z * Z := (ival (fst z), ival (snd z)).

(** ** Lemmas *)

Lemma quot_half z d : d <> 0 -> 2 * Z.abs (Z.quot z (2 * d)) <= Z.abs z.
Proof.
  intros Hd. pose proof (Z.quot_abs z (2 * d) ltac:(lia)) as E. rewrite <- E.
  pose proof (Z.mul_quot_le (Z.abs z) (Z.abs (2 * d)) ltac:(lia) ltac:(lia)) as K. pose proof (Z.quot_pos (Z.abs z) (Z.abs (2 * d)) ltac:(lia) ltac:(lia)). nia.
Qed.

Lemma roots_int chk t fuel (a b c : int t) : signed t = true -> t <> I8 -> (67 <= fuel)%nat ->
  no_overflow t (ival a) (ival b) (ival c) -> ival a <> 0 ->
  let D := ival b * ival b - 4 * ival a * ival c in chk = false \/ D <> imin t ->
  let m := Z.quot (- ival b) (2 * ival a) in let h := Z.quot (Z.sqrt (Z.abs D)) (2 * ival a) in
  let r := trinomial_roots (int_num chk t) (int_rops chk t fuel) a b c in
  (0 <= D -> exists x y, r = Ok (TwoRealRoots x y) /\ ival x = m + h /\ ival y = m - h) /\
  (D < 0 -> exists x y z, r = Ok (TwoComplexRoots (x, y) (x, z)) /\ ival x = m /\ ival y = h /\ ival z = - h) /\
  imin t < m < imax t /\ imin t < h < imax t /\ imin t < m + h <= imax t /\ imin t < m - h <= imax t.
Proof.
  intros Ht H8 Hfu (R1 & R2 & R3 & R4 & R5 & R6) Ha D0 HDm m h.
  destruct (wide_types t Ht H8) as [W1 W2]. pose proof (imin_max t) as (I1 & I2 & I3 & _).
  set (k := Z.sqrt (Z.abs D0)) in *.
  assert (Hk : 0 <= k /\ k * k <= Z.abs D0 < (k + 1) * (k + 1)).
  { split; [apply Z.sqrt_nonneg|]. pose proof (Z.sqrt_spec (Z.abs D0) (Z.abs_nonneg _)) as S. fold k in S. unfold Z.succ in S. exact S. }
  assert (B4 : imin t <= D0 <= imax t) by (apply in_range_iff in R4; unfold D0; clear -R4; lia).
  assert (B1 : ival b * ival b <= imax t) by (apply in_range_iff in R1; apply R1).
  pose proof (quot_half (- ival b) (ival a) Ha) as Qm. fold m in Qm. pose proof (quot_half k (ival a) Ha) as Qh. fold h in Qh.
  assert (Bm : 2 * Z.abs m <= imax t) by (clear -Qm B1; nia).
  assert (Bk : k < imax t) by (clear -Hk B4 W1 W2; nia).
  assert (Bh : 2 * Z.abs h < imax t) by (clear -Qh Bk Hk; lia).
  assert (Rng : imin t < m < imax t /\ imin t < h < imax t /\ imin t < m + h <= imax t /\ imin t < m - h <= imax t) by (clear -Bm Bh W1 W2; lia).
  destruct Rng as (G1 & G2 & G3 & G4).
  assert (Rm' : in_range t m = true) by (apply in_range_iff; clear -G1; lia). assert (Rh : in_range t h = true) by (apply in_range_iff; clear -G2; lia).
  assert (Rp : in_range t (m + h) = true) by (apply in_range_iff; clear -G3; lia). assert (Rn : in_range t (m - h) = true) by (apply in_range_iff; clear -G4; lia).
  assert (Ro : in_range t (- h) = true) by (apply in_range_iff; clear -G2 W2; lia).
  assert (Core : (0 <= D0 -> exists x y, trinomial_roots (int_num chk t) (int_rops chk t fuel) a b c = Ok (TwoRealRoots x y) /\ ival x = m + h /\ ival y = m - h) /\
    (D0 < 0 -> exists x y z, trinomial_roots (int_num chk t) (int_rops chk t fuel) a b c = Ok (TwoComplexRoots (x, y) (x, z)) /\ ival x = m /\ ival y = h /\ ival z = - h)).
  2:{ intros r. split; [apply Core|]. split; [apply Core|]. auto. }
  unfold trinomial_roots, discriminant_trinomial. cbn -[mk_int arith idiv abs_sqrt_int Z.mul].
  assert (S4 : ival (mk_int t 4) = 4) by (clear -W1 W2 I1 I2 I3; apply ival_mk_int, in_range_iff; lia).
  assert (S2 : ival (mk_int t 2) = 2) by (clear -W1 W2 I1 I2 I3; apply ival_mk_int, in_range_iff; lia).
  rewrite (arith_in_range chk t _ R1). cbn [bind]. rewrite (arith_in_range chk t _ R2). cbn [bind].
  rewrite (ival_mk_int t _ R2), S4. rewrite (arith_in_range chk t _ R3). cbn [bind].
  rewrite (ival_mk_int t _ R1), (ival_mk_int t _ R3). rewrite (arith_in_range chk t _ R4). cbn [bind].
  rewrite S2, (arith_in_range chk t _ R5). cbn [bind]. rewrite (arith_in_range chk t _ R6). cbn [bind].
  assert (DD : ival b * ival b - ival a * ival c * 4 = D0) by (unfold D0; clear; lia). rewrite DD in *.
  assert (Q : forall z, in_range t z = true -> in_range t (Z.quot z (2 * ival a)) = true ->
    idiv t (mk_int t z) (mk_int t (ival a * 2)) = Ok (mk_int t (Z.quot z (2 * ival a)))).
  { intros z Hz Hq. unfold idiv. rewrite (ival_mk_int t _ R5), (ival_mk_int t _ Hz).
    destruct (Z.eqb_spec (ival a * 2) 0) as [e|e]; [exfalso; clear -Ha e; lia|]. rewrite (Z.mul_comm (ival a) 2), Hq. reflexivity. }
  rewrite (Q _ R6 Rm'). cbn [bind]. fold m. rewrite (ival_mk_int t _ R4).
  destruct (Z.eqb_spec D0 0) as [E0|E0].
  - split; [|intros; exfalso; clear - E0 H; lia]. intros _.
    assert (k0 : k = 0) by (clear -Hk E0; nia). assert (h = 0) by (unfold h; rewrite k0; apply Z.quot_0_l; clear -Ha; lia).
    eexists _, _. split; [reflexivity|]. rewrite (ival_mk_int t _ Rm'). split; clear -H; lia.
  - destruct (C47_signed chk t Ht (mk_int t D0) fuel Hfu) as (r & Hr & Fr).
    { rewrite (ival_mk_int t _ R4). exact HDm. }
    rewrite Hr. cbn [bind]. rewrite (ival_mk_int t _ R4) in Fr.
    assert (Er : ival r = k).
    { destruct Fr as (F0 & F1 & F2). destruct Hk as (K0 & K1 & K2). pose proof (F2 k ltac:(clear -K0 K1; lia)). clear -F0 F1 K0 K2 H. nia. }
    assert (r = mk_int t k) as -> by (rewrite <- Er; symmetry; apply mk_int_ival).
    assert (Rk : in_range t k = true) by (rewrite <- Er; apply ival_ok).
    rewrite (Q _ Rk Rh). cbn [bind]. fold h. rewrite (ival_mk_int t _ Rm'), (ival_mk_int t _ Rh). destruct (Z.ltb_spec 0 D0) as [P|P].
    + split; [|intros H; exfalso; clear -P H; lia]. intros _. rewrite (arith_in_range chk t _ Rp), (arith_in_range chk t _ Rn). cbn [bind].
      eexists _, _. split; [reflexivity|]. rewrite (ival_mk_int t _ Rp), (ival_mk_int t _ Rn). split; reflexivity.
    + split; [intros H; exfalso; clear -P H E0; lia|]. intros _. rewrite (arith_in_range chk t _ Ro). cbn [bind].
      eexists _, _, _. split; [reflexivity|]. rewrite (ival_mk_int t _ Rm'), (ival_mk_int t _ Rh), (ival_mk_int t _ Ro). auto.
Qed.

Lemma sqrt_even_roots a b c r s : a <> 0 -> b = - (a * (r + s)) -> c = a * (r * s) -> Z.even (r + s) = true ->
  let m := Z.quot (- b) (2 * a) in let h := Z.quot (Z.sqrt (Z.abs (b * b - 4 * a * c))) (2 * a) in
  2 * m = r + s /\ (m + h) * (m - h) = r * s.
Proof.
  intros Ha -> -> He m h. apply Z.even_spec in He. destruct He as [u Hu].
  assert (M : m = u).
  { unfold m. rewrite Hu. replace (- - (a * (2 * u))) with (u * (2 * a)) by ring. apply Z.quot_mul. lia. }
  assert (K : - (a * (r + s)) * - (a * (r + s)) - 4 * a * (a * (r * s)) = (2 * Z.abs (a * (r - u))) * (2 * Z.abs (a * (r - u)))).
  { replace (2 * Z.abs (a * (r - u)) * (2 * Z.abs (a * (r - u)))) with (4 * (Z.abs (a * (r - u)) * Z.abs (a * (r - u)))) by ring.
    rewrite Z.abs_square. assert (s = 2 * u - r) as -> by lia. ring. }
  assert (H2 : h * h = (r - u) * (r - u)).
  { unfold h. rewrite K, (Z.abs_eq (_ * _)) by apply Z.square_nonneg. rewrite Z.sqrt_square by lia. rewrite Z.abs_mul.
    replace (2 * (Z.abs a * Z.abs (r - u))) with (Z.sgn a * Z.abs (r - u) * (2 * a)) by (rewrite <- (Z.sgn_abs a); ring).
    rewrite Z.quot_mul by lia. rewrite <- (Z.abs_square (r - u)). destruct (Z.sgn_spec a) as [[? E]|[[? E]|[? E]]]; [|lia|]; rewrite E; ring. }
  rewrite M. split; [lia|]. replace ((u + h) * (u - h)) with (u * u - h * h) by ring. rewrite H2. assert (s = 2 * u - r) as -> by lia. ring.
Qed.

Lemma sqrt_even_iff a b c : a <> 0 ->
  let m := Z.quot (- b) (2 * a) in let h := Z.quot (Z.sqrt (Z.abs (b * b - 4 * a * c))) (2 * a) in
  (a * - (2 * m) = b /\ a * ((m + h) * (m - h)) = c <->
   exists r s, b = - (a * (r + s)) /\ c = a * (r * s) /\ Z.even (r + s) = true).
Proof.
  intros Ha m h. split.
  - intros [E1 E2]. exists (m + h), (m - h). split; [lia|]. split; [lia|]. replace (m + h + (m - h)) with (2 * m) by ring. apply Z.even_mul.
  - intros (r & s & E1 & E2 & E3). destruct (sqrt_even_roots a b c r s Ha E1 E2 E3) as [F1 F2]. fold m h in F1, F2. split; [rewrite F1|rewrite F2]; lia.
Qed.

Lemma complex_iff a b c : a <> 0 ->
  let m := Z.quot (- b) (2 * a) in let h := Z.quot (Z.sqrt (Z.abs (b * b - 4 * a * c))) (2 * a) in
  b * b - 4 * a * c < 0 ->
  (a * (2 * m) = b /\ a * (m * m + h * h) = c <-> b = 0 /\ exists w, c = a * (w * w)).
Proof.
  intros Ha m h HD. split.
  - intros [E1 E2]. pose proof (Z.quot_rem' (- b) (2 * a)) as Q. fold m in Q. pose proof (Z.rem_bound_abs (- b) (2 * a) ltac:(lia)) as B.
    assert (Eb : Z.rem (- b) (2 * a) = - (2 * b)) by lia. assert (Z.abs b < Z.abs a) by lia.
    assert (M0 : m = 0) by (unfold m; apply Z.quot_small_iff; lia). rewrite M0 in *. assert (b = 0) by lia. split; [assumption|]. exists h. lia.
  - intros (-> & w & ->). assert (M0 : m = 0) by (unfold m; apply Z.quot_0_l; lia). rewrite M0. split; [lia|].
    assert (H2 : h * h = w * w); [|rewrite <- H2; lia].
    unfold h. replace (0 * 0 - 4 * a * (a * (w * w))) with (- ((2 * Z.abs (a * w)) * (2 * Z.abs (a * w)))).
    2:{ replace (2 * Z.abs (a * w) * (2 * Z.abs (a * w))) with (4 * (Z.abs (a * w) * Z.abs (a * w))) by ring. rewrite Z.abs_square. ring. }
    rewrite Z.abs_opp, (Z.abs_eq (_ * _)) by apply Z.square_nonneg. rewrite Z.sqrt_square by lia. rewrite Z.abs_mul.
    replace (2 * (Z.abs a * Z.abs w)) with (Z.sgn a * Z.abs w * (2 * a)) by (rewrite <- (Z.sgn_abs a); ring).
    rewrite Z.quot_mul by lia. rewrite <- (Z.abs_square w). destruct (Z.sgn_spec a) as [[? E]|[[? E]|[? E]]]; [|lia|]; rewrite E; ring.
Qed.

(** ** C97 *)

(** real_factors returns None exactly if the discriminant is negative.  Otherwise the factors
    multiply back exactly if the quadratic has two integer roots (with multiplicity) whose sum
    is even. *)
Theorem C97_real : forall chk t fuel (a b c : int t), signed t = true -> t <> I8 -> (67 <= fuel)%nat ->
  no_overflow t (ival a) (ival b) (ival c) -> ival a <> 0 ->
  let D := ival b * ival b - 4 * ival a * ival c in chk = false \/ D <> imin t ->
  (D < 0 -> trino_real_factors (int_num chk t) (int_rops chk t fuel) (MkTrino a b c) = Ok None) /\
  (0 <= D -> exists k u1 v1 u2 v2,
    trino_real_factors (int_num chk t) (int_rops chk t fuel) (MkTrino a b c) = Ok (Some (k, MkBino u1 v1, MkBino u2 v2)) /\
    (expands (ival k) (ival u1) (ival v1) (ival u2) (ival v2) (ival a) (ival b) (ival c) <->
     exists r s, ival b = - (ival a * (r + s)) /\ ival c = ival a * (r * s) /\ Z.even (r + s) = true)).
Proof.
  intros chk t fuel a b c Ht H8 Hfu HO Ha D HDm.
  destruct (wide_types t Ht H8) as [W1 W2].
  destruct (roots_int chk t fuel a b c Ht H8 Hfu HO Ha HDm) as (Pos & Neg & G1 & G2 & G3 & G4).
  pose proof (sqrt_even_iff (ival a) (ival b) (ival c) Ha) as Iff. cbv zeta in Iff. fold D in Iff, G1, G2, G3, G4, Pos, Neg.
  set (m := Z.quot (- ival b) (2 * ival a)) in *. set (h := Z.quot (Z.sqrt (Z.abs D)) (2 * ival a)) in *.
  unfold trino_real_factors, trino_roots. cbn [tc0 tc1 tc2]. split; intros HD.
  - destruct (Neg HD) as (x & y & z & E & _). rewrite E. reflexivity.
  - destruct (Pos HD) as (x & y & E & Ex & Ey). rewrite E. cbn -[mk_int arith Z.mul].
    assert (Rx : in_range t (- ival x) = true) by (apply in_range_iff; clear -Ex G3 W2; lia).
    assert (Ry : in_range t (- ival y) = true) by (apply in_range_iff; clear -Ey G4 W2; lia).
    rewrite (arith_in_range chk t _ Rx), (arith_in_range chk t _ Ry). cbn [bind].
    eexists _, _, _, _, _. split; [reflexivity|]. rewrite <- Iff.
    assert (S1 : ival (mk_int t 1) = 1) by (apply ival_mk_int, in_range_iff; clear -W1 W2; lia).
    unfold expands. rewrite S1, (ival_mk_int t _ Rx), (ival_mk_int t _ Ry), Ex, Ey.
    replace (1 * - (m - h) + - (m + h) * 1) with (- (2 * m)) by ring. replace (- (m + h) * - (m - h)) with ((m + h) * (m - h)) by ring.
    intuition lia.
Qed.

(** complex_factors always returns.  With a discriminant that is not negative the factors
    multiply back exactly in the same cases; with a negative one exactly if the quadratic is
    a (x^2 + w^2) for an integer w, so never if the coefficient of x is not zero. *)
Theorem C97_complex : forall chk t fuel (a b c : int t), signed t = true -> t <> I8 -> (67 <= fuel)%nat ->
  no_overflow t (ival a) (ival b) (ival c) -> ival a <> 0 ->
  let D := ival b * ival b - 4 * ival a * ival c in chk = false \/ D <> imin t ->
  exists k u1 v1 u2 v2,
    trino_complex_factors (int_num chk t) (int_rops chk t fuel) (MkTrino a b c) = Ok (k, MkBino u1 v1, MkBino u2 v2) /\
    (0 <= D -> (cexpands (ival k) (cval u1) (cval v1) (cval u2) (cval v2) (ival a) (ival b) (ival c) <->
      exists r s, ival b = - (ival a * (r + s)) /\ ival c = ival a * (r * s) /\ Z.even (r + s) = true)) /\
    (D < 0 -> (cexpands (ival k) (cval u1) (cval v1) (cval u2) (cval v2) (ival a) (ival b) (ival c) <->
      ival b = 0 /\ exists w, ival c = ival a * (w * w))).
Proof.
  intros chk t fuel a b c Ht H8 Hfu HO Ha D HDm.
  destruct (wide_types t Ht H8) as [W1 W2].
  destruct (roots_int chk t fuel a b c Ht H8 Hfu HO Ha HDm) as (Pos & Neg & G1 & G2 & G3 & G4).
  pose proof (sqrt_even_iff (ival a) (ival b) (ival c) Ha) as Iff. pose proof (complex_iff (ival a) (ival b) (ival c) Ha) as Iff2. cbv zeta in Iff, Iff2.
  fold D in Iff, Iff2, G1, G2, G3, G4, Pos, Neg.
  set (m := Z.quot (- ival b) (2 * ival a)) in *. set (h := Z.quot (Z.sqrt (Z.abs D)) (2 * ival a)) in *.
  assert (S1 : ival (mk_int t 1) = 1) by (apply ival_mk_int, in_range_iff; clear -W1 W2; lia).
  assert (R0 : in_range t 0 = true) by (apply in_range_iff; clear -W1 W2; lia).
  assert (S0 : ival (mk_int t 0) = 0) by (apply ival_mk_int; exact R0).
  unfold trino_complex_factors, trino_roots. cbn [tc0 tc1 tc2]. destruct (Z.ltb_spec D 0) as [HD|HD].
  - destruct (Neg HD) as (x & y & z & E & Ex & Ey & Ez). rewrite E. cbn -[mk_int arith Z.mul].
    rewrite S0. change (- 0) with 0. rewrite (arith_in_range chk t _ R0). cbn [bind].
    eexists _, _, _, _, _. split; [reflexivity|]. split; [intros; exfalso; clear -HD H; lia|]. intros _.
    rewrite <- (Iff2 HD). unfold cexpands, cval, cmul, cadd. cbn [fst snd]. rewrite S0, S1, Ex, Ey, Ez. clear.
    clearbody m h. split; [intros (E1 & E2 & E3); apply (f_equal fst) in E2, E3; cbn [fst] in E2, E3; split; [rewrite <- E2|rewrite <- E3]; ring|].
    intros [E1 E2]. split; [f_equal; ring|]. split; (f_equal; [rewrite <- ?E1, <- ?E2|]; ring).
  - destruct (Pos HD) as (x & y & E & Ex & Ey). rewrite E. cbn -[mk_int arith Z.mul].
    assert (Rx : in_range t (- ival x) = true) by (apply in_range_iff; clear -Ex G3 W2; lia).
    assert (Ry : in_range t (- ival y) = true) by (apply in_range_iff; clear -Ey G4 W2; lia).
    rewrite (arith_in_range chk t _ Rx), (arith_in_range chk t _ Ry). cbn [bind].
    eexists _, _, _, _, _. split; [reflexivity|]. split; [intros _|intros; exfalso; clear -HD H; lia].
    rewrite <- Iff. unfold cexpands, cval, cmul, cadd. cbn [fst snd].
    rewrite S0, S1, (ival_mk_int t _ Rx), (ival_mk_int t _ Ry), Ex, Ey. clear.
    clearbody m h. split; [intros (E1 & E2 & E3); apply (f_equal fst) in E2, E3; cbn [fst] in E2, E3; split; [rewrite <- E2|rewrite <- E3]; ring|].
    intros [E1 E2]. split; [f_equal; ring|]. split; (f_equal; [rewrite <- ?E1, <- ?E2|]; ring).
Qed.

(** So x^2 - 3x + 2 = (x - 1)(x - 2) and x^2 - 2x + 5 are not multiplied back. *)
Theorem C97_refuted : forall chk fuel, (67 <= fuel)%nat ->
  (exists a b c k u1 v1 u2 v2, (exists r s, ival b = - (ival a * (r + s)) /\ ival c = ival a * (r * s)) /\
    trino_real_factors (int_num chk I32) (int_rops chk I32 fuel) (MkTrino a b c) = Ok (Some (k, MkBino u1 v1, MkBino u2 v2)) /\
    ~ expands (ival k) (ival u1) (ival v1) (ival u2) (ival v2) (ival a) (ival b) (ival c)) /\
  (exists a b c k u1 v1 u2 v2, ival a = 1 /\ ival b = -2 /\ ival c = 5 /\
    trino_complex_factors (int_num chk I32) (int_rops chk I32 fuel) (MkTrino a b c) = Ok (k, MkBino u1 v1, MkBino u2 v2) /\
    ~ cexpands (ival k) (cval u1) (cval v1) (cval u2) (cval v2) (ival a) (ival b) (ival c)).
Proof.
  intros chk fuel Hf. split.
  - destruct (C97_real chk I32 fuel (mk_int I32 1) (mk_int I32 (-3)) (mk_int I32 2) eq_refl ltac:(discriminate) Hf) as [_ H];
      [vm_compute; repeat split; reflexivity|vm_compute; discriminate|right; vm_compute; discriminate|].
    destruct H as (k & u1 & v1 & u2 & v2 & E & I); [vm_compute; discriminate|].
    exists (mk_int I32 1), (mk_int I32 (-3)), (mk_int I32 2), k, u1, v1, u2, v2. split; [|split; [exact E|]].
    + exists 1, 2. split; reflexivity.
    + rewrite I. intros (r & s & E1 & E2 & E3). change (ival (mk_int I32 1)) with 1 in *. change (ival (mk_int I32 (-3))) with (-3) in *.
      assert (r + s = 3) as H by lia. rewrite H in E3. discriminate.
  - destruct (C97_complex chk I32 fuel (mk_int I32 1) (mk_int I32 (-2)) (mk_int I32 5) eq_refl ltac:(discriminate) Hf) as (k & u1 & v1 & u2 & v2 & E & _ & I);
      [vm_compute; repeat split; reflexivity|vm_compute; discriminate|right; vm_compute; discriminate|].
    exists (mk_int I32 1), (mk_int I32 (-2)), (mk_int I32 5), k, u1, v1, u2, v2. split; [reflexivity|]. split; [reflexivity|]. split; [reflexivity|]. split; [exact E|].
    rewrite I by (vm_compute; reflexivity). intros [F _]. discriminate F.
Qed.

(** A quadratic that is multiplied back: -2 x^2 + 12 x - 10 = -2 (x - 5) (x - 1); and
    3 x^2 + 12 = 3 (x + 2i) (x - 2i). *)
Example C97_case :
  (exists u1 v1 u2 v2, trino_real_factors (int_num true I32) (int_rops true I32 67) (MkTrino (mk_int I32 (-2)) (mk_int I32 12) (mk_int I32 (-10)))
     = Ok (Some (mk_int I32 (-2), MkBino u1 v1, MkBino u2 v2)) /\ expands (-2) (ival u1) (ival v1) (ival u2) (ival v2) (-2) 12 (-10)) /\
  (exists u1 v1 u2 v2, trino_complex_factors (int_num true I32) (int_rops true I32 67) (MkTrino (mk_int I32 3) (mk_int I32 0) (mk_int I32 12))
     = Ok (mk_int I32 3, MkBino u1 v1, MkBino u2 v2) /\ cexpands 3 (cval u1) (cval v1) (cval u2) (cval v2) 3 0 12).
Proof. split; eexists _, _, _, _; split; vm_compute; repeat split; reflexivity. Qed.

Print Assumptions C97_real.
Print Assumptions C97_complex.
Print Assumptions C97_refuted.
